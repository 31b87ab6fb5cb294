(** RtpSymAll: when the first component of every column of an equivariant basis has the
    symmetry of a signed permutation, all its components have it. *)
From Coq Require Import ZArith String Ascii List Permutation.
From mathcomp Require Import all_ssreflect all_algebra.
From mathcomp Require Import zify.
From Verif Require Import Base Nd NdProofs Reps RepOps Sl2c LinAlg BiProofs.
From Verif Require Import Perm RedPerm RedPermBasis RedPermSub Rtp RtpArr RtpLoop RtpPres RtpEqv RtpStab RtpReal RtpSym.

Set Implicit Arguments.
Unset Strict Implicit.
Unset Printing Implicit Defensive.

Import Order.POrderTheory GRing.Theory Num.Theory.
Local Open Scope ring_scope.
Local Notation actp := RedPerm.act.

Section One.
Variable C : numClosedFieldType.
Notation nd := (nd C).
Variable L : eqType.
Variable dim : L -> nat.
Notation mi := (nat * L)%type.
Notation rrep := (seq mi * option nd)%type.
Notation dims irr := (map (rdim dim) irr).
Local Notation rr0 := (([::] : seq mi), (None : option nd)).
Variable X : rrep -> nat -> nat -> C.
Local Notation act := (act dim X).
Local Notation acts := (acts dim X).

Lemma acts_k irr s (h : seq nat -> nat -> C) w idx k : acts irr s (fun i _ => h i w) idx k = acts irr s h idx w.
Proof. by elim: s idx => //= i s IH idx; apply: eq_bigr => l _; rewrite IH. Qed.
Lemma acts0 irr s idx k : acts irr s (fun _ _ => 0) idx k = 0.
Proof. by elim: s idx => //= i s IH idx; rewrite /RtpEqv.act big1 // => l _; rewrite IH mulr0. Qed.
Lemma acts_kernel irr ir s n (v : 'I_n -> C) (h : seq nat -> nat -> C) : (0 < dim ir)%N -> {subset s <= iota 0 (size irr)} ->
  (forall idx, valid (dims irr) idx -> \sum_(k < n) v k * h idx k = 0) ->
  forall idx, valid (dims irr) idx -> \sum_(k < n) v k * acts irr s h idx k = 0.
Proof.
move=> d0 sub h0 idx vi; pose g (w : 'I_n) i (_ : nat) := h i w.
transitivity (acts irr s (fun i k => \sum_(w < n) v w * g w i k) idx 0%N).
  by rewrite acts_lin; apply: eq_bigr => w _; rewrite (acts_k irr s h w).
rewrite -[RHS](acts0 irr s idx 0); apply: (@acts_ext _ _ _ _ irr (iota 0 (size irr)) ir) => //; first exact: iota_lt.
- by move=> i k; rewrite masked_dims => vi' _; exact: h0.
- by rewrite masked_dims.
Qed.

Section Relabel.
Variables (irr : seq rrep) (p : seq nat).
Local Notation n := (size irr).
Hypothesis pe : perm_eq p (iota 0 n).
Hypothesis cst : forall i, (i < n)%N -> nth rr0 irr (nth 0%N p i) = nth rr0 irr i.
Let sp : size p = n. Proof. by rewrite (perm_size pe) size_iota. Qed.
Let up : uniq p. Proof. by rewrite (perm_uniq pe) iota_uniq. Qed.
Let lp j : (j < n)%N -> (nth 0%N p j < n)%N. Proof. exact: permeq_nth_lt. Qed.

Lemma upd_actp idx j l : size idx = n -> (j < n)%N -> upd (actp idx p) j l = actp (upd idx (nth 0%N p j) l) p.
Proof.
move=> si hj; apply: (@eq_from_nth _ 0%N); rewrite ?size_upd ?size_map ?sp // => i hi.
by rewrite nth_upd !(nth_map 0%N) ?sp // nth_upd nth_uniq ?sp.
Qed.
Lemma act_relabel g idx k j : size idx = n -> (j < n)%N ->
  act irr j g (actp idx p) k = act irr (nth 0%N p j) (fun i k => g (actp i p) k) idx k.
Proof.
by move=> si hj; rewrite /RtpEqv.act cst //; apply: eq_bigr => l _; rewrite upd_actp // (nth_map 0%N) ?sp.
Qed.
Lemma acts_relabel s g : all (fun i => (i < n)%N) s -> forall idx k, size idx = n ->
  acts irr s g (actp idx p) k = acts irr (map (nth 0%N p) s) (fun i k => g (actp i p) k) idx k.
Proof.
elim: s => //= j s IH /andP[hj hs] idx k si; rewrite act_relabel //.
by apply: eq_bigr => l _; rewrite IH // size_upd // si; exact: lp.
Qed.
Lemma valid_actp idx : valid (dims irr) idx -> valid (dims irr) (actp idx p).
Proof.
move=> vi; apply/valid_nth; rewrite /actp !size_map sp; split=> // j hj; rewrite (nth_map 0%N) ?sp //.
have /valid_nth[_ hv] := vi; have := hv (nth 0%N p j); rewrite size_map => /(_ (lp hj)).
by rewrite !(nth_map rr0) ?lp // cst.
Qed.
Lemma map_p : map (nth 0%N p) (iota 0 n) = p.
Proof. by rewrite -sp -/(mkseq _ _) mkseq_nth. Qed.
Lemma acts_all g idx k : size idx = n ->
  acts irr (iota 0 n) g (actp idx p) k = acts irr (iota 0 n) (fun i k => g (actp i p) k) idx k.
Proof.
move=> si; rewrite acts_relabel ?iota_lt // map_p; apply: acts_perm si => //.
  exact: perm_Permutation.
by apply/allP => i; rewrite (perm_mem pe) mem_iota.
Qed.
Lemma act_all g idx k : size idx = n ->
  \sum_(i <- iota 0 n) act irr i g (actp idx p) k = \sum_(i <- iota 0 n) act irr i (fun i k => g (actp i p) k) idx k.
Proof.
move=> si; rewrite -[RHS](perm_big _ pe) -{2}map_p big_map big_seq [RHS]big_seq.
by apply: eq_bigr => i; rewrite mem_iota add0n => /= hi; rewrite act_relabel.
Qed.

Variable Y : L -> nat -> nat -> C.
Lemma eqv_relabel ir g : eqv dim Y X irr (iota 0 n) ir g -> eqv dim Y X irr (iota 0 n) ir (fun i k => g (actp i p) k).
Proof.
move=> h ok idx k; rewrite masked_dims => vi hk.
rewrite -act_all; last by rewrite (valid_size vi) size_map.
by apply: h => //; rewrite masked_dims; exact: valid_actp.
Qed.
Lemma eqvH_relabel ir g : eqvH dim Y X irr (iota 0 n) ir g -> eqvH dim Y X irr (iota 0 n) ir (fun i k => g (actp i p) k).
Proof.
move=> h ok idx k; rewrite masked_dims => vi hk.
rewrite -acts_all; last by rewrite (valid_size vi) size_map.
by apply: h => //; rewrite masked_dims; exact: valid_actp.
Qed.
End Relabel.

(** The left kernel of the components is invariant. *)
Definition cmx (irr : seq rrep) (ir : L) (h : seq nat -> nat -> C) : 'M[C]_(dim ir, nprod (dims irr)) :=
  \matrix_(k, j) h (unravel (dims irr) j) k.
Definition ymx (Y : L -> nat -> nat -> C) (ir : L) : 'M[C]_(dim ir) := \matrix_(i, j) Y ir i j.
Variable Y : L -> nat -> nat -> C.
Lemma ker_row irr ir h m (W : 'M[C]_(m, dim ir)) : (W <= kermx (cmx irr ir h))%MS <->
  forall a idx, valid (dims irr) idx -> \sum_(k < dim ir) W a k * h idx k = 0.
Proof.
split=> [/sub_kermxP e a idx vi|e].
  have := congr1 (fun M : 'M_(m, nprod (dims irr)) => M a (Ordinal (ravel_lt vi))) e; rewrite !mxE => e1; rewrite -[RHS]e1.
  by apply: eq_bigr => k _; rewrite mxE /= ravelK.
apply/sub_kermxP/matrixP => a j; rewrite !mxE -[RHS](e a (unravel (dims irr) j) (unravel_valid (ltn_ord j))).
by apply: eq_bigr => k _; rewrite mxE.
Qed.
Lemma eqv_ker irr ir h : gens_ok dim Y X irr -> eqv dim Y X irr (iota 0 (size irr)) ir h ->
  (kermx (cmx irr ir h) *m ymx Y ir <= kermx (cmx irr ir h))%MS.
Proof.
move=> ok hh; case: (posnP (dim ir)) => [z|d0].
  by apply/ker_row => a; case: a => a ha; exfalso; rewrite z in ha.
have /ker_row h0 := submx_refl (kermx (cmx irr ir h)); apply/ker_row => a idx vi; set W := kermx _ in h0 *.
transitivity (\sum_(k < dim ir) W a k * \sum_(i <- iota 0 (size irr)) act irr i h idx k).
  transitivity (\sum_(k < dim ir) W a k * \sum_(k' < dim ir) Y ir k k' * h idx k').
    under eq_bigr => k _ do rewrite mxE mulr_suml.
    rewrite exchange_big /=; apply: eq_bigr => k _; rewrite mulr_sumr; apply: eq_bigr => k' _.
    by rewrite -mulrA [ymx _ _ _ _]mxE.
  by apply: eq_bigr => k _; rewrite hh ?masked_dims.
under eq_bigr => k _ do rewrite mulr_sumr.
rewrite exchange_big big_seq big1 //= => i hi.
have sub : {subset [:: i] <= iota 0 (size irr)} by move=> j; rewrite inE => /eqP ->.
exact: (acts_kernel d0 sub (h0 a) vi).
Qed.
Lemma eqvH_ker irr ir h : gens_ok dim Y X irr -> eqvH dim Y X irr (iota 0 (size irr)) ir h ->
  (kermx (cmx irr ir h) *m ymx Y ir <= kermx (cmx irr ir h))%MS.
Proof.
move=> ok hh; case: (posnP (dim ir)) => [z|d0].
  by apply/ker_row => a; case: a => a ha; exfalso; rewrite z in ha.
have /ker_row h0 := submx_refl (kermx (cmx irr ir h)); apply/ker_row => a idx vi; set W := kermx _ in h0 *.
transitivity (\sum_(k < dim ir) W a k * acts irr (iota 0 (size irr)) h idx k).
  transitivity (\sum_(k < dim ir) W a k * \sum_(k' < dim ir) Y ir k k' * h idx k').
    under eq_bigr => k _ do rewrite mxE mulr_suml.
    rewrite exchange_big /=; apply: eq_bigr => k _; rewrite mulr_sumr; apply: eq_bigr => k' _.
    by rewrite -mulrA [ymx _ _ _ _]mxE.
  by apply: eq_bigr => k _; rewrite hh ?masked_dims.
have sub : {subset iota 0 (size irr) <= iota 0 (size irr)} by [].
exact: (acts_kernel d0 sub (h0 a) vi).
Qed.
End One.

(** ** From the first component to all the components *)
Section Columns.
Variable C : numClosedFieldType.
Notation nd := (nd C).
Variable L : eqType.
Variable dim : L -> nat.
Notation mi := (nat * L)%type.
Notation rrep := (seq mi * option nd)%type.
Notation dims irr := (map (rdim dim) irr).
Local Notation rr0 := (([::] : seq mi), (None : option nd)).
(** A family of continuous and a family of discrete generators. *)
Variables (I J : Type) (Yc : I -> L -> nat -> nat -> C) (Yd : J -> L -> nat -> nat -> C).
Variables (Xc : I -> rrep -> nat -> nat -> C) (Xd : J -> rrep -> nat -> nat -> C).
(** The irreps have no invariant subspace (of row vectors) but 0 and the whole space. *)
Definition irreducibles : Prop := forall ir (U : 'M[C]_(dim ir)),
  (forall t, (U *m ymx dim (Yc t) ir <= U)%MS) -> (forall t, (U *m ymx dim (Yd t) ir <= U)%MS) -> U = 0 \/ row_full U.
Hypothesis irrd : irreducibles.

(** The symmetry of a column. *)
Definition col_sym (irr : seq rrep) (ir : L) (g : seq nat -> nat -> C) (s : int) (p : seq nat) : Prop :=
  forall idx k, valid (dims irr) idx -> (k < dim ir)%N -> g idx k = s%:~R * g (actp idx p) k.
Lemma col_sym_all irr ir g s p : perm_eq p (iota 0 (size irr)) ->
  (forall i, (i < size irr)%N -> nth rr0 irr (nth 0%N p i) = nth rr0 irr i) ->
  (forall t, gens_ok dim (Yc t) (Xc t) irr) -> (forall t, gens_ok dim (Yd t) (Xd t) irr) ->
  (forall t, eqv dim (Yc t) (Xc t) irr (iota 0 (size irr)) ir g) ->
  (forall t, eqvH dim (Yd t) (Xd t) irr (iota 0 (size irr)) ir g) ->
  ((0 < dim ir)%N -> forall idx, valid (dims irr) idx -> g idx 0%N = s%:~R * g (actp idx p) 0%N) ->
  col_sym irr ir g s p.
Proof.
move=> pe cst okc okd hc hd h0 idx k vi hk; have d0 : (0 < dim ir)%N by lia.
pose gg (w : 'I_2) i k := if w == ord0 then g i k else g (actp i p) k.
pose a (w : 'I_2) : C := if w == ord0 then 1 else - s%:~R.
pose h i k := \sum_(w < 2) a w * gg w i k.
have hE i k' : h i k' = g i k' - s%:~R * g (actp i p) k'.
  by rewrite /h big_ord_recl big_ord_recl big_ord0 /a /gg /= mul1r addr0 mulNr.
have ec t : eqv dim (Yc t) (Xc t) irr (iota 0 (size irr)) ir h.
  by apply: eqv_lin => w; rewrite /gg; case: eqP => _; [exact: hc | exact: eqv_relabel].
have ed t : eqvH dim (Yd t) (Xd t) irr (iota 0 (size irr)) ir h.
  by apply: eqvH_lin => w; rewrite /gg; case: eqP => _; [exact: hd | exact: eqvH_relabel].
have e0 : ((delta_mx 0 (Ordinal d0) : 'M[C]_(1, dim ir)) <= kermx (cmx dim irr ir h))%MS.
  apply/ker_row => x i vi'; rewrite (bigD1 (Ordinal d0)) //= big1 ?addr0 => [|j /negPf ne]; rewrite mxE !ord1 ?eqxx /=.
    by rewrite mul1r hE h0 // subrr.
  by rewrite ne mul0r.
have [U0|fu] := irrd (fun t => eqv_ker (okc t) (ec t)) (fun t => eqvH_ker (okd t) (ed t)).
  move: e0; rewrite U0 submx0 => /eqP/matrixP/(_ 0 (Ordinal d0)); rewrite !mxE !eqxx /= => /eqP.
  by rewrite oner_eq0.
have : ((delta_mx 0 (Ordinal hk) : 'M[C]_(1, dim ir)) <= kermx (cmx dim irr ir h))%MS by rewrite submx_full.
move=> /ker_row/(_ 0 idx vi); rewrite (bigD1 (Ordinal hk)) //= big1 ?addr0 => [|j /negPf ne]; rewrite mxE !eqxx /=; last by rewrite ne mul0r.
by rewrite mul1r hE => /eqP; rewrite subr_eq0 => /eqP.
Qed.
End Columns.

(** ** The generators of the representations exist *)
Section Gens.
Variable C : numClosedFieldType.
Notation nd := (nd C).
Variable L : eqType.
Variable dim : L -> nat.
Notation mi := (nat * L)%type.
Notation rrep := (seq mi * option nd)%type.
Notation dims irr := (map (rdim dim) irr).
Local Notation rr0 := (([::] : seq mi), (None : option nd)).
(** Q B Q^-1. *)
Definition gen_of (Y : L -> nat -> nat -> C) (r : rrep) (l c : nat) : C :=
  if r.2 is Some Q then
    if np_inv Q is Ok Qi then
      \sum_(e < rdim dim r) \sum_(f < rdim dim r) get Q [:: l; e : nat] * bdiag dim Y r.1 e f * get Qi [:: f : nat; c]
    else 0
  else bdiag dim Y r.1 l c.
Lemma init_gen Y n i r b : init_basis dim n i r = Ok b -> gen_ok dim Y (gen_of Y) r.
Proof.
rewrite /gen_ok /gen_of; set d := rdim dim r; rewrite /init_basis -/d; case: (r.2) => [Q|] //.
case eQ: (np_inv Q) => [Qi|] //=; case ex: (reshape _ _) => [x|] //= _ l c hl hc.
have [_ np] := reshape_shape ex.
move: eQ; rewrite /np_inv; case sQ: (shape Q) => [|a [|b' [|]]] //; case: ifP => //= /andP[/eqP e u] [eq].
have ea : a = d.
  move: np; rewrite -eq /= !nprod_cat /= !nprod_cat !nprod_nseq1 /= !muln1 !mul1n => h; nia.
subst b' a; pose M := mx2 d d Q.
have gi (f g : 'I_d) : get Qi [:: f : nat; g : nat] = invmx M f g by rewrite -{1}[invmx M]mx2_of_mx mxE -eq.
transitivity (\sum_(g < d) \sum_(e < d) \sum_(f < d) get Q [:: l; e : nat] * bdiag dim Y r.1 e f * (get Qi [:: f : nat; g : nat] * get Q [:: g : nat; c])).
  by apply: eq_bigr => g _; rewrite mulr_suml; apply: eq_bigr => e' _; rewrite mulr_suml; apply: eq_bigr => f _; rewrite mulrA.
rewrite exchange_big; apply: eq_bigr => e' _; rewrite exchange_big /= (bigD1 (Ordinal hc)) //= [X in _ + X]big1 ?addr0.
  rewrite -mulr_sumr; suff -> : \sum_(g < d) get Qi [:: c; g : nat] * get Q [:: g : nat; c] = 1 by rewrite mulr1.
  have := congr1 (fun A : 'M_d => A (Ordinal hc) (Ordinal hc)) (mulVmx u); rewrite !mxE eqxx => h; apply: etrans h.
  by apply: eq_bigr => g _; rewrite -(gi (Ordinal hc)) mxE.
move=> f nf; rewrite -mulr_sumr; suff -> : \sum_(g < d) get Qi [:: f : nat; g : nat] * get Q [:: g : nat; c] = 0 by rewrite mulr0.
have := congr1 (fun A : 'M_d => A f (Ordinal hc)) (mulVmx u); rewrite !mxE (negPf nf) => h; apply: etrans h.
by apply: eq_bigr => g _; rewrite -gi mxE.
Qed.
Lemma bases_gens Y irr bases : rtp_bases dim irr = Ok bases -> gens_ok dim Y (gen_of Y) irr.
Proof.
rewrite /rtp_bases; set z := zip _ _ => e; have -> : irr = unzip2 z by rewrite unzip2_zip // size_iota.
move: (size irr) e => n; elim: z bases => [|[i r] z IH] bases //= => [_|]; first by constructor.
case er: (init_basis _ _ _ _) => [b|] //=; case ez: (mapR _ _) => [bs|] //= _; constructor; [exact: init_gen er | exact: IH ez].
Qed.
End Gens.

(** ** The basis *)
Section Main.
Variable C : numClosedFieldType.
Notation nd := (nd C).
Notation id_ := (fun x : nd => x).
Variable L : eqType.
Variable lt : rel L.
Variable dim : L -> nat.
Variable mulL : L -> L -> res (seq L).
Variable cgL : L -> L -> L -> res nd.
Variable eigh : nd -> res (nd * nd).
Hypothesis eighP : eigh_correct_real eigh.
Variable ford : seq nat -> seq nat.
Hypothesis ford_perm : forall f, perm_eq (ford f) f.
Hypothesis ford_id : forall f, sorted ltn f -> ford f = f.
Notation mi := (nat * L)%type.
Notation rrep := (seq mi * option nd)%type.
Notation dims irr := (map (rdim dim) irr).
Local Notation rr0 := (([::] : seq mi), (None : option nd)).
Local Notation rtp := (rtp lt dim mulL cgL id_ eigh).
Local Notation Inv := (Inv dim).
Variables (irr : seq rrep) (G : seq sp).
Local Notation n := (size irr).
Hypothesis rl : reals dim irr.
Hypothesis GG : signed_group n G.
Hypothesis cst : forall s p i, (s, p) \in G -> (i < n)%N -> nth rr0 irr (nth 0%N p i) = nth rr0 irr i.
Hypothesis neg : n = 1%N -> (-1, iota 0 n) \notin G.
Hypothesis hcg : cgs dim mulL cgL (cg_real dim).

Lemma cst_dims s p i : (s, p) \in G -> (i < n)%N -> nth 0%N (dims irr) (nth 0%N p i) = nth 0%N (dims irr) i.
Proof.
move=> hp hi; rewrite !(nth_map rr0) ?(cst hp) //.
by apply: permeq_nth_lt hi; exact: (sg_perm GG hp).
Qed.
Lemma single_sym f ir g : n = 1%N -> Ps dim G irr f ir g.
Proof.
move=> n1 d0 s p idx hp v _; have pe := sg_perm GG hp; rewrite /= in pe.
have ep : p = iota 0 n.
  move: pe; rewrite n1 => pe; have := perm_size pe; case: p pe {hp} => [|x [|]] //= pe _.
  by have := perm_mem pe x; rewrite !inE eqxx => /esym/eqP->.
have -> : s = 1.
  by case: (sg_sign GG hp) => //= es; move: (neg n1); rewrite -es -ep hp.
rewrite mul1r; congr (g _ _); have sz : size idx = n by rewrite (valid_size v) size_masked size_map.
by rewrite ep -sz /actp -/(mkseq _ _) mkseq_nth.
Qed.
Theorem rtp_sym fuel : ev (fun e => forall b, rtp e ford fuel irr G = Ok b -> Inv (Ps dim G) irr (iota 0 n) b).
Proof.
case: fuel => [|fuel]; first by apply: ev_true.
rewrite [fun e => _]/=; rewrite /rtp_body.
case eb: (rtp_bases _ _) => [bases|]; cbn [rbind]; last by apply: ev_true.
have [pt sz] := rtp_bases_part eb.
have hb : List.Forall (fun fb => Inv (Pr dim) irr fb.1 fb.2) bases.
  exact: (Inv_bases (@Pr_ext _ _ dim) (@Pr_init _ _ dim) eb).
case: (ltnP 1 n) => [n2|n1].
  apply: (@loop_sym _ _ lt _ _ _ _ eighP _ ford_perm ford_id _ _ rl GG cst_dims hcg (fun e => rtp e ford fuel)) => //; last by rewrite sz.
    by move=> s g; apply: evc_rtp.
  move=> e s g c e0 hs er.
  exact: (Inv_rtp ford_perm (@Pr_ext _ _ dim) (fun _ _ _ _ => @subgroup_perm_real _ _ _ _ _ _) (Pr_bi eighP (eps := e)) (@Pr_lin _ _ dim) (@Pr_init _ _ dim) (Pr_prod hcg) (Pr_sub ford_id (dim := dim)) er).
apply: ev_true => e _ b; case: bases sz pt hb {eb} => [|[f b1] [|x bs]] sz _ hb; last by move: n1; rewrite -sz.
  by rewrite /rtp_loop /= /greedy.
rewrite /= /passert; case: eqP => //= ef es.
apply: (Inv_mono (P := Pr dim)) => [ir g _|]; first by apply: single_sym; rewrite -sz.
by rewrite -ef; exact: (Inv_ss (@Pr_ext _ _ dim) (List.Forall_inv hb) es).
Qed.
End Main.
