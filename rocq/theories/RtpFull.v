(** RtpFull: the basis computed by _reduced_tensor_product_basis (Rtp.v) spans all the
    tensors that have the symmetry of the group. *)
From Coq Require Import ZArith String Ascii List Permutation.
From mathcomp Require Import all_ssreflect all_algebra.
From mathcomp Require Import zify.
From Verif Require Import Base Nd NdProofs Reps RepOps Sl2c LinAlg BiProofs.
From Verif Require Import Perm RedPerm RedPermBasis RedPermSub Rtp RtpArr RtpLoop RtpPres RtpEqv RtpStab RtpReal RtpSym RtpSymAll RtpCon RtpSpan.

Set Implicit Arguments.
Unset Strict Implicit.
Unset Printing Implicit Defensive.

Import Order.POrderTheory GRing.Theory Num.Theory.
Local Open Scope ring_scope.
Local Notation actp := RedPerm.act.

Lemma mapR_In' (S T : Type) (f : S -> res T) s t x : mapR f s = Ok t -> List.In x s -> exists y, f x = Ok y /\ List.In y t.
Proof.
move=> /mapR_Forall2; elim=> [|x' y s' t' e _ IH] //= [<-|/IH[z [h1 h2]]]; first by exists y; split=> //; left.
by exists z; split=> //; right.
Qed.
Lemma In_pairs (S T : Type) (s : seq S) (t : seq T) x y : List.In x s -> List.In y t -> List.In (x, y) [seq (x, y) | x <- s, y <- t].
Proof.
move=> hx hy; elim: s hx => //= z s IH [->|/IH h]; apply/List.in_app_iff; [left | by right].
by apply/List.in_map_iff; exists y.
Qed.
Lemma mem_In (T : eqType) (x : T) s : x \in s -> List.In x s.
Proof. by elim: s => //= y s IH; rewrite inE => /orP[/eqP ->|/IH h]; [left | right]. Qed.

Section Full.
Variable C : numClosedFieldType.
Notation nd := (nd C).
Notation id_ := (fun x : nd => x).
Variable L : eqType.
Variable lt : rel L.
Variable dim : L -> nat.
Variable mulL : L -> L -> res (seq L).
Variable cgL : L -> L -> L -> res nd.
Notation mi := (nat * L)%type.
Notation blk := (mi * nd)%type.
Notation rrep := (seq mi * option nd)%type.
Notation dims irr := (map (rdim dim) irr).
Local Notation rr0 := (([::] : seq mi), (None : option nd)).
Local Notation ents := (ents dim).

(** The tensors on the indices f with the symmetry of the subgroup that moves only f. *)
Definition symF (G : seq sp) (irr : seq rrep) f (T : seq nat -> C) : Prop := forall s p idx, (s, p) \in G ->
  RedPermSub.fixes (size irr) f p -> valid (masked f (dims irr)) idx -> T idx = s%:~R * T (actp idx p).
Definition Full (G : seq sp) (irr : seq rrep) f (b : irrarr C L) : Prop :=
  forall T, symF G irr f T -> spn (masked f (dims irr)) (ents (blocks b)) T.

(** ** sorted and simplify *)
Lemma Full_ss G irr f l b : wf dim (masked f (dims irr)) l -> Full G irr f (mk l) ->
  (do b <- ia_sorted lt dim (mk l); ia_simplify dim b) = Ok b -> Full G irr f b.
Proof.
move=> w h; rewrite (ia_sortedE lt w) /=; have pm := Permutation_sym (sortb_perm lt l).
have [l' -> [w' c _]] := simplifyP (wf_perm pm w); case=> <- T hT; rewrite blocks_mk.
apply: spn_ceqs (ceqs_sym c) _; apply: spn_perm pm _; have := h T hT; by rewrite blocks_mk.
Qed.

(** ** The initial bases *)
Lemma init_q_inv r q : init_q dim r = Ok q -> shape q = [:: rdim dim r; rdim dim r] ->
  exists qi : nat -> nat -> C, forall j j', (j < rdim dim r)%N -> (j' < rdim dim r)%N ->
    \sum_(c < rdim dim r) get q [:: j; c : nat] * qi c j' = (j == j')%:R.
Proof.
rewrite /init_q; set d := rdim dim r; case: (r.2) => [Q|]; last first.
  case=> <- _; exists (fun c j => (c == j)%:R) => j j' hj hj' /=.
  rewrite (bigD1 (Ordinal hj)) //= eqxx mul1r big1 ?addr0 // => c ne.
  by case: eqP => [e|_]; rewrite ?mul0r //; case/eqP: ne; apply: val_inj.
rewrite /np_inv; case es: (shape Q) => [|n [|n' [|]]] //; case: ifP => //= /andP[/eqP _ un] [<-] /= [e] _.
rewrite e in un *; set Qm := mx2 d d Q in un *; exists (fun c j => get Q [:: j; c]) => j j' hj hj'.
have := congr1 (fun M : 'M_d => M (Ordinal hj') (Ordinal hj)) (mulmxV un); rewrite !mxE -val_eqE /= eq_sym => <-.
apply: eq_bigr => c _; rewrite mulrC [Qm _ _]mxE; congr (_ * _).
by rewrite valK (insubT (fun i => i < d)%N hj).
Qed.
Lemma valid1 (irr : seq rrep) i idx : (i < size irr)%N -> valid (masked [:: i] (dims irr)) idx -> idx = upd (nseq (size irr) 0%N) i (nth 0%N idx i).
Proof.
move=> hi /valid_nth[sz h]; rewrite size_masked size_map in sz h.
apply: (@eq_from_nth _ 0%N); first by rewrite size_upd size_nseq.
move=> j hj; rewrite nth_upd; case: eqP => [->|/eqP ne] //; rewrite nth_nseq if_same.
have := h j; rewrite -sz => /(_ hj); rewrite nth_masked ?size_map -?sz // inE (negPf ne).
by case: (nth _ _ _).
Qed.
Lemma Full_init G irr i b : (i < size irr)%N -> init_basis dim (size irr) i (nth rr0 irr i) = Ok b -> Full G irr [:: i] b.
Proof.
move=> hi; set r := nth _ _ _; rewrite /init_basis -/(init_q dim r); case eq: (init_q dim r) => [q|] //=.
set d := rdim dim r; set ld := nseq i 1%N ++ d :: nseq (size irr - i - 1) 1%N.
have eld : masked [:: i] (dims irr) = ld by rewrite (@masked1 (size irr)) ?size_map // (nth_map rr0).
have -> : (nseq i 1%N ++ d :: nseq (size irr - i - 1) 1%N ++ [:: d])%SEQ = rcons ld d by rewrite /ld -cats1 -catA.
have nld : nprod ld = d by rewrite nprod_cat /= !nprod_nseq1 mul1n muln1.
case ex: (reshape _ _) => [x|] //=; have [sx np] := reshape_shape ex.
have sq : shape q = [:: d; d].
  move: np; rewrite -cats1 nprod_cat nld /= muln1; move: eq; rewrite /init_q; case: (r.2) => [Q|] //=; last by case=> <-.
  rewrite /np_inv; case: (shape Q) => [|a [|b' [|]]] //; case: ifP => //= /andP[/eqP e _] [<-] /=.
  rewrite ?muln1 => h.
  have -> : a = d by nia.
  by [].
have gx idx c : valid ld idx -> (c < d)%N -> get x (rcons idx c) = get q [:: nth 0%N idx i; c].
  move=> vi hc; apply: (reshape_eq ex).
    by rewrite sq valid2 hc andbT; have := ravel_lt vi; rewrite nld ravel_masked1.
  rewrite sq -!cats1 ravel_cat ?(valid_size vi) // ravel_masked1 // ravel2 /= !muln1 addn0 //.
case eb: (init_blocks _ _ _ _) => [xs|] //= en; have [-> sz _] := ia_new_inv en.
have ini : initdims x = ld by rewrite /initdims sx size_rcons /= -cats1 take_size_cat.
have las : lastdim x = d by rewrite /lastdim sx last_rcons.
have gen irs : forall s1 ys, r.1 = s1 ++ irs ->
    init_blocks dim x (sumn [seq (p.1 * dim p.2)%N | p <- s1]) irs = Ok ys -> 
    forall c, (sumn [seq (p.1 * dim p.2)%N | p <- s1] <= c < d)%N -> spn ld (ents (zip irs ys)) (fun idx => get q [:: nth 0%N idx i; c]).
  elim: irs => [|[m ir] irs IH] s1 ys er /=.
    move=> _ c; rewrite /d /rdim er cats0 => /andP[h1 h2]; exfalso; lia.
  set c0 := sumn _; case ey: (reshape _ _) => [y|] //=; case eys: (init_blocks _ _ _ _) => [ys'|] //= [<-] c /andP[h1 h2].
  have er' : r.1 = (s1 ++ [:: (m, ir)]) ++ irs by rewrite -catA.
  have := IH (s1 ++ [:: (m, ir)]) ys' er'; rewrite map_cat sumn_cat /= addn0 => /(_ eys) {}IH.
  case: (ltnP c (c0 + m * dim ir)) => h3; last first.
    by apply: (@spn_incl _ _ _ _ (zip irs ys')) => [q' hq'|]; [right | apply: IH; rewrite h3].
  have hd : (c0 + m * dim ir <= d)%N.
    by rewrite /d /rdim er map_cat sumn_cat /= addnA leq_addr.
  have d0 : (0 < dim ir)%N by case: (dim ir) h3 => // h3; exfalso; lia.
  set u := ((c - c0) %/ dim ir)%N; set k := ((c - c0) %% dim ir)%N.
  have ec : c = (c0 + (u * dim ir + k))%N by rewrite -divn_eq; lia.
  have hk : (k < dim ir)%N by rewrite ltn_pmod.
  have hu : (u < m)%N by rewrite ltn_divLR //; lia.
  have := @spn_gen C L dim ld (((m, ir), y) :: zip irs ys') ((m, ir), y) u k (or_introl erefl) hu hk.
  apply: spn_ext => idx vi /=.
  have hc : (u * dim ir + k < m * dim ir)%N by nia.
  have em : (minn (c0 + m * dim ir) d - minn c0 d = m * dim ir)%N by lia.
  have ec0 : minn c0 d = c0 by lia.
  rewrite (@reshape_eq _ _ y _ _ (rcons idx (u * dim ir + k)%N) ey) /=.
  - have -> : take (size (rcons idx (u * dim ir + k)%N) - 1) (rcons idx (u * dim ir + k)%N) = idx.
      by rewrite size_rcons subn1 /= -cats1 take_size_cat.
    by rewrite last_rcons las ec0 -ec gx.
  - by rewrite las em ini -!cats1 valid_cat ?(valid_size vi) // vi valid_cons valid_nil hc.
  - by rewrite las em ini -!cats1 !ravel_cat ?(valid_size vi) //= !muln1 !addn0.
have {}gen := gen r.1 [::] xs erefl eb; move=> T _; rewrite blocks_mk eld.
have [qi hq] := init_q_inv eq sq; pose t j := T (upd (nseq (size irr) 0%N) i j).
apply: (@spn_ext _ _ _ (fun idx => \sum_(c < d) (\sum_(j' < d) qi c j' * t j') * get q [:: nth 0%N idx i; c : nat])).
  move=> idx v; rewrite -eld in v; rewrite {2}(valid1 hi v) -/(t _); set j := nth 0%N idx i.
  have hj : (j < d)%N.
    have /valid_nth[_ h] := v; have := h i; rewrite size_masked size_map => /(_ hi).
    by rewrite nth_masked ?size_map // inE eqxx (nth_map rr0).
  under eq_bigr do rewrite mulr_suml.
  rewrite exchange_big /= (bigD1 (Ordinal hj)) //= [X in _ + X]big1 ?addr0 => [|j' ne].
    under eq_bigr do rewrite mulrAC [qi _ _ * _]mulrC.
    by rewrite -mulr_suml hq // eqxx mul1r.
  under eq_bigr do rewrite mulrAC [qi _ _ * _]mulrC.
  rewrite -mulr_suml hq //; case: eqP => [e|_]; rewrite ?mul0r //; case/eqP: ne; exact: val_inj.
by apply: spn_sum => c; apply: gen; rewrite leq0n ltn_ord.
Qed.

(** ** Products *)
(** The Clebsch-Gordan arrays of a product span the tensors of its two factors. *)
Definition cg_full : Prop := forall i1 i2 irs, mulL i1 i2 = Ok irs ->
  exists (zz : L -> nat) (cg : L -> nd), (forall ir, ir \in irs -> cgL i1 i2 ir = Ok (cg ir) /\ shape (cg ir) = [:: zz ir; dim i1; dim i2; dim ir]) /\
  forall i j, (i < dim i1)%N -> (j < dim i2)%N -> exists D : L -> nat -> nat -> C, forall i' j', (i' < dim i1)%N -> (j' < dim i2)%N ->
    \sum_(ir <- irs) \sum_(w < zz ir) \sum_(k < dim ir) D ir w k * get (cg ir) [:: w : nat; i'; j'; k : nat] = ((i' == i) && (j' == j))%:R.
Hypothesis hfull : cg_full.

Lemma prod_one_cols (irr : seq rrep) fa fb (p1 p2 : blk) ir q cg z :
  wfb dim (masked fa (dims irr)) p1 -> wfb dim (masked fb (dims irr)) p2 ->
  cgL p1.1.2 p2.1.2 ir = Ok cg -> shape cg = [:: z; dim p1.1.2; dim p2.1.2; dim ir] -> prod_one dim cgL p1 p2 ir = Ok q ->
  [/\ wfb dim (masked (fset_union fa fb) (dims irr)) q, q.1 = ((z * p1.1.1 * p2.1.1)%N, ir) & forall idx w u v k, valid (masked (fset_union fa fb) (dims irr)) idx -> (w < z)%N -> (u < p1.1.1)%N ->
    (v < p2.1.1)%N -> (k < dim ir)%N -> get q.2 (idx ++ [:: ((w * p1.1.1 + u) * p2.1.1 + v)%N; k]) =
    \sum_(i < dim p1.1.2) \sum_(j < dim p2.1.2) get p1.2 (bidx (masked fa (dims irr)) idx ++ [:: u; i : nat]) *
      get p2.2 (bidx (masked fb (dims irr)) idx ++ [:: v; j : nat]) * get cg [:: w; i : nat; j : nat; k]].
Proof.
move=> w1 w2 ecg ecs; rewrite /prod_one ecg /=.
case: p1 p2 w1 w2 ecg ecs => -[m1 ir1] x1 [[m2 ir2] x2] /= w1 w2 ecg ecs.
rewrite /wfb /= in w1 w2.
have n2 (s : seq nat) x y : nth 0%N (s ++ [:: x; y]) (size s + 2 - 2) = x by rewrite addnK nth_cat ltnn subnn.
have n1 (s : seq nat) x y : nth 0%N (s ++ [:: x; y]) (size s + 2 - 1) = y.
  by rewrite addn2 subn1 nth_cat /= ltnNge leqnSn /= subSnn.
have l1 : lead x1 = masked fa (dims irr) by rewrite /lead w1 size_cat addnK take_size_cat.
have l2 : lead x2 = masked fb (dims irr) by rewrite /lead w2 size_cat addnK take_size_cat.
rewrite /einsum_prod l1 l2 w1 w2 !size_cat /= !n2 !n1 !(ltnNge _ 2) !leq_addl /= ecs !eqxx /=.
rewrite bshape_masked; cbn [rbind]; set ld := masked (fset_union fa fb) (dims irr).
set x := Nd _ _; have lz : len cg = z by rewrite /len ecs.
have -> : take (size (shape x) - 4) (shape x) = ld by rewrite /= size_cat addnK take_size_cat.
case er: (reshape _ _) => [y|] //= [<-]; rewrite lz in er *; have [sy _] := reshape_shape er; split=> // idx w u v k vi hw hu hv hk /=.
rewrite (@reshape_eq _ x y _ _ (idx ++ [:: w; u; v; k]) er).
- by rewrite /= -/ld take_size_cat ?(valid_size vi) // drop_size_cat ?(valid_size vi).
- by rewrite /= valid_cat ?(valid_size vi) // vi !valid_cons valid_nil hw hu hv hk.
- by rewrite [shape x]/=; apply: ravel4.
Qed.

(** The index with the entries of i on fa and of j elsewhere. *)
Definition comb (n : nat) (fa : seq nat) (i j : seq nat) : seq nat := [seq if x \in fa then nth 0%N i x else nth 0%N j x | x <- iota 0 n].
Lemma nth_comb n fa i j x : (x < n)%N -> nth 0%N (comb n fa i j) x = if x \in fa then nth 0%N i x else nth 0%N j x.
Proof. by move=> h; rewrite (nth_map 0%N) ?size_iota // nth_iota. Qed.
Lemma size_comb n fa i j : size (comb n fa i j) = n. Proof. by rewrite size_map size_iota. Qed.
Lemma valid_comb fa fb ds i j : uniq (fa ++ fb) -> valid (masked fa ds) i -> valid (masked fb ds) j ->
  valid (masked (fset_union fa fb) ds) (comb (size ds) fa i j).
Proof.
move=> un /valid_nth[si hi] /valid_nth[sj hj]; rewrite !size_masked in si hi sj hj.
apply/valid_nth; rewrite size_comb size_masked; split=> // x hx; rewrite nth_comb // nth_masked // mem_fset_union.
have := hi x hx; have := hj x hx; rewrite !nth_masked //.
by case: (x \in fa) => //=; case: (x \in fb).
Qed.
Lemma comb_bidx fa fb ds idx : valid (masked (fset_union fa fb) ds) idx -> 
  comb (size ds) fa (bidx (masked fa ds) idx) (bidx (masked fb ds) idx) = idx.
Proof.
move=> v; have /valid_nth[si hi] := v; rewrite size_masked in si hi.
apply: (@eq_from_nth _ 0%N); rewrite size_comb // => x hx; rewrite nth_comb //.
have sa : {subset fa <= fset_union fa fb} by move=> y hy; rewrite mem_fset_union hy.
have sb : {subset fb <= fset_union fa fb} by move=> y hy; rewrite mem_fset_union hy orbT.
case: (boolP (x \in fa)) => ha; first exact: (nth_bidx_in sa v).
case: (boolP (x \in fb)) => hb; first exact: (nth_bidx_in sb v).
rewrite nth_bidx ?size_masked // nth_masked // (negPf hb) /=.
by have := hi x hx; rewrite nth_masked // mem_fset_union (negPf ha) (negPf hb) /=; case: (nth _ _ _).
Qed.
Lemma actp_comb n fa i j p : perm_eq p (iota 0 n) -> RedPermSub.fixes n fa p -> size i = n ->
  actp (comb n fa i j) p = comb n fa (actp i p) j.
Proof.
move=> pe fx si; have sp : size p = n by rewrite (perm_size pe) size_iota.
apply: (@eq_from_nth _ 0%N); rewrite ?size_comb /RedPerm.act size_map ?sp ?size_comb // => x hx.
rewrite (nth_map 0%N) ?sp // !nth_comb ?(permeq_nth_lt pe hx) // (fixes_sub pe fx hx) (nth_map 0%N) ?sp //.
by case: (boolP (x \in fa)) => // hf; rewrite fx.
Qed.
Lemma actp_comb2 n fa fb i j p : perm_eq p (iota 0 n) -> RedPermSub.fixes n fb p -> {in fa, forall x, x \notin fb} -> size j = n ->
  actp (comb n fa i j) p = comb n fa i (actp j p).
Proof.
move=> pe fx dj sj; have sp : size p = n by rewrite (perm_size pe) size_iota.
apply: (@eq_from_nth _ 0%N); rewrite ?size_comb /RedPerm.act size_map ?sp ?size_comb // => x hx.
rewrite (nth_map 0%N) ?sp // !nth_comb ?(permeq_nth_lt pe hx) // (nth_map 0%N) ?sp //.
case: (boolP (x \in fb)) => hb.
  have hb' : nth 0%N p x \in fb by rewrite (fixes_sub pe fx hx).
  by case: (boolP (x \in fa)) => [/dj|_]; rewrite ?hb //; case: (boolP (_ \in fa)) => // /dj; rewrite hb'.
by rewrite fx.
Qed.

Local Notation prods := (fun pp : blk * blk => do irs <- mulL pp.1.1.2 pp.2.1.2; mapR (prod_one dim cgL pp.1 pp.2) irs).
(** The products of two columns are combinations of the columns of the product. *)
Lemma prod_pair_span (irr : seq rrep) fa fb (k1 k2 : seq blk) ls a b' : wf dim (masked fa (dims irr)) k1 -> wf dim (masked fb (dims irr)) k2 ->
  mapR prods [seq (p1, p2) | p1 <- k1, p2 <- k2] = Ok ls -> (a < size (ents k1))%N -> (b' < size (ents k2))%N ->
  spn (masked (fset_union fa fb) (dims irr)) (ents (flatten ls)) (fun idx =>
    nth (fun=> 0) (ents k1) a (bidx (masked fa (dims irr)) idx) * nth (fun=> 0) (ents k2) b' (bidx (masked fb (dims irr)) idx)).
Proof.
move=> wk1 wk2 el la lb; set f := fset_union fa fb.
have /In_entsP[q1 [u [i [hq1 hu hi ->]]]] := nth_In (fun=> 0) la.
have /In_entsP[q2 [v [j [hq2 hv hj ->]]]] := nth_In (fun=> 0) lb.
have [t [et ht]] := mapR_In' el (In_pairs hq1 hq2).
move: et => /=; case em: (mulL _ _) => [irs|] //= et.
have wq1 := proj1 (List.Forall_forall _ _) (proj2 wk1) _ hq1; have wq2 := proj1 (List.Forall_forall _ _) (proj2 wk2) _ hq2.
have [zz [cg [hcg hD]]] := hfull em; have [D eD] := hD i j hi hj.
pose g1 i' idx := get q1.2 (bidx (masked fa (dims irr)) idx ++ [:: u; i']).
pose g2 j' idx := get q2.2 (bidx (masked fb (dims irr)) idx ++ [:: v; j']).
apply: (@spn_ext _ _ _ (fun idx => \sum_(ir <- irs) 1 * \sum_(w < zz ir) 1 * \sum_(k < dim ir) D ir w k *
   \sum_(i' < dim q1.1.2) \sum_(j' < dim q2.1.2) g1 i' idx * g2 j' idx * get (cg ir) [:: w : nat; i' : nat; j' : nat; k : nat])).
  move=> idx vi; transitivity (\sum_(i' < dim q1.1.2) \sum_(j' < dim q2.1.2) g1 i' idx * g2 j' idx * ((i' == i :> nat) && (j' == j :> nat))%:R).
    transitivity (\sum_(i' < dim q1.1.2) \sum_(j' < dim q2.1.2) \sum_(ir <- irs) \sum_(w < zz ir) \sum_(k < dim ir)
        g1 i' idx * g2 j' idx * (D ir w k * get (cg ir) [:: w : nat; i' : nat; j' : nat; k : nat])); last first.
      apply: eq_bigr => i' _; apply: eq_bigr => j' _; rewrite -eD // mulr_sumr; apply: eq_bigr => ir _.
      by rewrite mulr_sumr; apply: eq_bigr => w _; rewrite mulr_sumr.
    rewrite [RHS](eq_bigr _ (fun i' _ => exchange_big _ _ _ _ _ _)) [RHS]exchange_big /=; apply: eq_bigr => ir _; rewrite mul1r.
    rewrite [RHS](eq_bigr _ (fun i' _ => exchange_big _ _ _ _ _ _)) [RHS]exchange_big /=; apply: eq_bigr => w _; rewrite mul1r.
    rewrite [RHS](eq_bigr _ (fun i' _ => exchange_big _ _ _ _ _ _)) [RHS]exchange_big /=; apply: eq_bigr => k _.
    rewrite mulr_sumr; apply: eq_bigr => i' _; rewrite mulr_sumr; apply: eq_bigr => j' _; by rewrite mulrCA.
  rewrite (bigD1 (Ordinal hi)) //= [X in _ + X]big1 ?addr0 => [|i' ne]; last first.
    rewrite big1 // => j' _; case: eqP => [e|_]; rewrite ?mulr0 //; case/eqP: ne; exact: val_inj.
  rewrite (bigD1 (Ordinal hj)) //= big1 ?addr0 => [|j' ne]; first by rewrite !eqxx mulr1.
  rewrite eqxx; case: eqP => [e|_]; rewrite ?mulr0 //; case/eqP: ne; exact: val_inj.
apply: spn_bigs => ir hir; have {}hir : ir \in irs by apply: InP.
apply: spn_sum => w; apply: spn_sum => k; have [ecg ecs] := hcg ir hir.
have [q [eq hq]] := mapR_In' et (mem_In hir); have [_ e1 gq] := prod_one_cols wq1 wq2 ecg ecs eq.
have hin : List.In q (flatten ls) by apply/In_flatten; exists t.
have hc : (((w * q1.1.1 + u) * q2.1.1 + v)%N < q.1.1)%N.
  rewrite e1 /=; have hw := ltn_ord w.
  have bnd a0 b0 x y : (a0 < x)%N -> (b0 < y)%N -> (a0 * y + b0 < x * y)%N.
    by move=> ha hb; apply: (@leq_trans (a0.+1 * y)); [rewrite mulSnr ltn_add2l | rewrite leq_mul2r ha orbT].
  by apply: (bnd) => //; apply: bnd.
have hk : (k < dim q.1.2)%N by rewrite e1.
apply: spn_ext (spn_gen (masked f (dims irr)) hin hc hk) => idx vi.
by rewrite gq.
Qed.
Lemma Full_product G irr fa fb l1 l2 b : signed_group (size irr) G -> uniq (fa ++ fb) -> all (fun i => (i < size irr)%N) (fa ++ fb) ->
  wf dim (masked fa (dims irr)) l1 -> wf dim (masked fb (dims irr)) l2 -> Full G irr fa (mk l1) -> Full G irr fb (mk l2) ->
  reduce_basis_product lt dim mulL cgL (mk l1) (mk l2) = Ok b -> Full G irr (fset_union fa fb) b.
Proof.
move=> GG un al w1 w2 h1 h2; rewrite /reduce_basis_product.
rewrite (ia_sortedE lt w1) /=; have pm1 := Permutation_sym (sortb_perm lt l1).
have [k1 -> [wk1 c1 _]] := simplifyP (wf_perm pm1 w1); cbn [rbind].
rewrite (ia_sortedE lt w2) /=; have pm2 := Permutation_sym (sortb_perm lt l2).
have [k2 -> [wk2 c2 _]] := simplifyP (wf_perm pm2 w2); cbn [rbind].
rewrite !blocks_mk; case el: (mapR _ _) => [ls|] //=; case en: (ia_new _ _ _) => [c|] //=.
have [ec sz [ld wl]] := ia_new_inv en; rewrite -/(blocks (mk (flatten ls))) blocks_mk in ec wl.
set f := fset_union fa fb; set n := size irr in GG al *.
have wL : wf dim (masked f (dims irr)) (flatten ls).
  split; first by case: wl.
  apply: Forall_flatten; apply: (mapR_Forall el (Forall_pairs (proj2 wk1) (proj2 wk2))) => -[q1 q2] t [/= wq1 wq2].
  case em: (mulL _ _) => [irs|] //= et; apply: (mapR_mem et) => ir q hir eq.
  have [zz [cg [hcg _]]] := hfull em; have [ecg ecs] := hcg ir hir.
  by have [] := prod_one_cols wq1 wq2 ecg ecs eq.
rewrite ec; apply: Full_ss => // T hT; rewrite blocks_mk.
have dj : {in fa, forall x, x \notin fb}.
  by move=> x hx; move: un; rewrite cat_uniq => /and3P[_ /hasPn h _]; apply/negP => /h /=; rewrite hx.
have sn : size (dims irr) = n by rewrite size_map.
have sm g idx : valid (masked g (dims irr)) idx -> size idx = n by move=> /valid_size; rewrite size_masked sn.
have [||z hz] := @spn_tensor C (masked fa (dims irr)) (masked fb (dims irr)) (ents k1) (ents k2) (fun i j => T (comb n fa i j)).
- move=> j vj; apply: spn_ceqs (ceqs_sym c1) _; apply: spn_perm pm1 _; have := h1 (fun i => T (comb n fa i j)); rewrite blocks_mk; apply.
  move=> s p i hp fx vi; rewrite -(actp_comb _ (sg_perm GG hp)) ?(sm _ _ vi) //; apply: hT => //.
    by move=> x hx nx; apply: fx => //; apply: contra nx; rewrite mem_fset_union => ->.
  by rewrite -sn; apply: valid_comb.
- move=> i vi; apply: spn_ceqs (ceqs_sym c2) _; apply: spn_perm pm2 _; have := h2 (fun j => T (comb n fa i j)); rewrite blocks_mk; apply.
  move=> s p j hp fx vj; rewrite -(actp_comb2 _ (sg_perm GG hp) fx) ?(sm _ _ vj) //; apply: hT => //.
    by move=> x hx nx; apply: fx => //; apply: contra nx; rewrite mem_fset_union => ->; rewrite orbT.
  by rewrite -sn; apply: valid_comb.
have sa : {subset fa <= f} by move=> y hy; rewrite mem_fset_union hy.
have sb : {subset fb <= f} by move=> y hy; rewrite mem_fset_union hy orbT.
apply: (@spn_ext _ _ _ (fun idx => \sum_(a < size (ents k1)) 1 * \sum_(b < size (ents k2)) z a b *
   (nth (fun=> 0) (ents k1) a (bidx (masked fa (dims irr)) idx) * nth (fun=> 0) (ents k2) b (bidx (masked fb (dims irr)) idx)))).
  move=> idx v; have va := valid_bidx sa v; have vb := valid_bidx sb v.
  have := hz _ _ va vb; rewrite -sn comb_bidx // => ->.
  by apply: eq_bigr => a _; rewrite mul1r.
apply: spn_sum => a; apply: spn_sum => b'.
exact: (prod_pair_span wk1 wk2 el (ltn_ord a) (ltn_ord b')).
Qed.
End Full.
