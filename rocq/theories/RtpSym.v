(** RtpSym: the first components of the basis computed by _reduced_tensor_product_basis
    (Rtp.v) have the symmetry of the group. *)
From Coq Require Import ZArith String Ascii List Permutation.
From mathcomp Require Import all_ssreflect all_algebra.
From mathcomp Require Import zify.
From Verif Require Import Base Nd NdProofs Reps Pinv RepSpec RepProofs RepOps ReducedProofs Sl2c LinAlg GsMx LinAlgProofs CgGenProofs BiProofs.
From Verif Require Import Perm RedPerm RedPermProofs RedPermBasis RedPermSub Rtp RtpArr RtpLoop RtpPres RtpEqv RtpStab RtpReal Properties_Bi.

Set Implicit Arguments.
Unset Strict Implicit.
Unset Printing Implicit Defensive.

Import Order.POrderTheory GRing.Theory Num.Theory.
Local Open Scope ring_scope.

Lemma flat_ravel dims e : size e = size dims -> flat e dims = ravel dims e.
Proof.
rewrite /flat; have gen j : size e = size dims -> foldl (fun j (kd : nat * nat) => (j * kd.2 + kd.1)%N) j (zip e dims) = (j * nprod dims + ravel dims e)%N.
  elim: e dims j => [|k e IH] [|d dims] j //=; first by rewrite muln1 addn0.
  by case=> sz; rewrite IH // mulnDl mulnA addnA.
by move/gen=> ->.
Qed.
Lemma prodnE dims : prodn dims = nprod dims.
Proof. by elim: dims => [|d dims IH] //; rewrite prodn_cons IH. Qed.
Lemma valid_indexE dims e : valid_index dims e = valid dims e.
Proof. by rewrite /valid_index /valid all2E; case: eqP. Qed.
Lemma sub_dims_iota dims : sub_dims (iota 0 (size dims)) dims = dims.
Proof. by rewrite /sub_dims -/(mkseq _ _) mkseq_nth. Qed.

(** ** The group of all the indices *)
Lemma subrepr_all n (G : seq sp) : signed_group n G -> subrepr_permutation (iota 0 n) G = undup G.
Proof.
move=> GG; rewrite /subrepr_permutation; congr undup.
have -> : sort leq (iota 0 n) = iota 0 n by apply: sorted_sort; [exact: leq_trans | exact: iota_sorted].
rewrite (@eq_in_filter _ _ predT) ?filter_predT => [|a ha]; last first.
  rewrite /=; apply/allP => ji /(nthP (0, 0)%N)[k]; have pe := sg_perm GG ha.
  rewrite size_zip size_iota minnn => hk; rewrite nth_zip ?size_iota // => <-.
  by rewrite -(perm_mem pe) mem_nth.
rewrite -[RHS]map_id; apply/eq_in_map => -[s p] ha; congr pair; have /= pe := sg_perm GG ha.
rewrite (@eq_in_filter _ _ predT) ?filter_predT => [|i hi]; last by rewrite -(perm_mem pe).
rewrite -[RHS]map_id; apply/eq_in_map => i; rewrite (perm_mem pe) mem_iota add0n => /= hi.
by rewrite -{1}[i](nth_iota 0%N 0 hi) index_uniq ?size_iota ?iota_uniq.
Qed.

Lemma iota_lt n : all (fun i => (i < n)%N) (iota 0 n).
Proof. by apply/allP => i; rewrite mem_iota. Qed.
Section PermBasis.
Variable C : numClosedFieldType.
Notation nd := (nd C).
Variable ford : seq nat -> seq nat.
Hypothesis ford_id : forall f, sorted ltn f -> ford f = f.

(** The permutation basis of the last step: its rows are symmetric. *)
Lemma perm_basis_sym (G : seq sp) dims pb perm : signed_group (size dims) G ->
  (forall s p i, (s, p) \in G -> (i < size dims)%N -> nth 0%N dims (nth 0%N p i) = nth 0%N dims i) ->
  size (subrepr_permutation (iota 0 (size dims)) G) <> 1%N ->
  subgroup_perm C ford (iota 0 (size dims)) G dims = Ok pb -> flat2 pb = Ok perm ->
  exists k, shape perm = [:: k; nprod dims] /\ forall i s p idx, (i < k)%N -> (s, p) \in G -> valid dims idx ->
    get perm [:: i; ravel dims idx] = s%:~R * get perm [:: i; ravel dims (RedPerm.act idx p)].
Proof.
move=> GG cst /eqP/negbTE n1; rewrite /subgroup_perm n1 ford_id ?iota_ltn_sorted // sub_dims_iota /reduce_subgroup_permutation n1 sub_dims_iota.
set n := size dims in GG cst *.
have SG : signed_group n (subrepr_permutation (iota 0 n) G).
  by have := subrepr_group GG (iota_uniq 0 n) (iota_lt n); rewrite size_iota.
have mS a : (a \in subrepr_permutation (iota 0 n) G) = (a \in G) by rewrite (subrepr_all GG) mem_undup.
have [||Q -> [sQ szr [_ sym _]]] := basis_ok C (dims := dims) SG; first by [].
  by move=> s p i; rewrite mS; apply: cst.
rewrite /= /reshape_m1; case: (posnP (nprod (masked (iota 0 n) dims))) => //; rewrite /n masked_all => nz.
rewrite {1}/reshape /= mulnK // eqxx => -[<-]; rewrite /flat2 /len /=; case: (posnP (size Q)) => // q0.
rewrite mulKn // /reshape /= muln1 eqxx => -[<-]; exists (size Q); split=> // i s p idx hi hp vi.
have pe := sg_perm GG hp; have sp : size p = n by rewrite (perm_size pe) size_iota.
have sidx : size idx = n by rewrite (valid_size vi).
have va : valid dims (RedPerm.act idx p).
  apply/valid_nth; rewrite /RedPerm.act size_map sp; split=> // j hj; rewrite (nth_map 0%N) ?sp //.
  have hpj : (nth 0 p j < n)%N by apply: permeq_nth_lt pe hj.
  by have /valid_nth[_ hv] := vi; rewrite -(cst s p j hp hj); apply: hv.
have dv e : valid dims e -> ((i * nprod dims + ravel dims e) %/ nprod dims = i)%N.
  by move/ravel_lt => h; rewrite divnMDl // divn_small // addn0.
have md e : valid dims e -> ((i * nprod dims + ravel dims e) %% nprod dims = ravel dims e)%N.
  by move/ravel_lt => h; rewrite modnMDl modn_small.
rewrite /= !muln1 !addn0 !(md _ vi) !(md _ va) !ravelK // !(dv _ vi) !(dv _ va) !(md _ vi) !(md _ va) !ravelK //.
have := sym i idx s p hi; rewrite valid_indexE mS => /(_ vi hp).
by rewrite !flat_ravel // size_map sp.
Qed.
End PermBasis.

Section Sym.
Variable C : numClosedFieldType.
Notation nd := (nd C).
Notation id_ := (fun x : nd => x).
Variable L : eqType.
Variable lt : rel L.
Variable dim : L -> nat.
Variable mulL : L -> L -> res (seq L).
Variable cgL : L -> L -> L -> res nd.
Variable eigh : nd -> res (nd * nd).
Hypothesis eighP : eigh_correct_real eigh.
Variable ford : seq nat -> seq nat.
Hypothesis ford_perm : forall f, perm_eq (ford f) f.
Hypothesis ford_id : forall f, sorted ltn f -> ford f = f.
Notation mi := (nat * L)%type.
Notation blk := (mi * nd)%type.
Notation rrep := (seq mi * option nd)%type.
Notation dims irr := (map (rdim dim) irr).
Local Notation rr0 := (([::] : seq mi), (None : option nd)).
Local Notation loop := (rtp_loop lt dim mulL cgL id_ eigh).
Local Notation rtp := (rtp lt dim mulL cgL id_ eigh).
Local Notation Pr := (Pr dim).
Local Notation Inv := (Inv dim).

(** The first component of a column has the symmetry of G. *)
Definition Ps (G : seq sp) (irr : seq rrep) (f : seq nat) (ir : L) (g : seq nat -> nat -> C) : Prop :=
  (0 < dim ir)%N -> forall s p idx, (s, p) \in G -> valid (masked f (dims irr)) idx -> valid (masked f (dims irr)) (RedPerm.act idx p) ->
  g idx 0%N = s%:~R * g (RedPerm.act idx p) 0%N.
Lemma Ps_ext G irr f ir g g' :
  (forall idx k, valid (masked f (dims irr)) idx -> (k < dim ir)%N -> g idx k = g' idx k) -> Ps G irr f ir g -> Ps G irr f ir g'.
Proof. by move=> he h d0 s p idx hp v1 v2; rewrite -!he //; apply: h. Qed.

Lemma constrain_one_sym G irr f perm (q : blk) k : let ld := masked f (dims irr) in
  wfb dim ld q -> (forall u, (u < q.1.1)%N -> col_real dim irr f q.1.2 (fun idx k => get q.2 (idx ++ [:: u; k]))) ->
  allreal perm -> shape perm = [:: k; nprod ld] ->
  (forall i s p idx, (i < k)%N -> (s, p) \in G -> valid ld idx -> valid ld (RedPerm.act idx p) ->
    get perm [:: i; ravel ld idx] = s%:~R * get perm [:: i; ravel ld (RedPerm.act idx p)]) ->
  ev (fun e => forall t, constrain_one id_ eigh e perm q = Ok t ->
    List.Forall (fun p => wfb dim ld p /\ Pcs (Ps G) irr f (bcols p)) t).
Proof.
case: q => -[m ir] x /= wx hx rp sp sym; set ld := masked f (dims irr) in wx sp sym *.
rewrite /constrain_one /=; case ea: (at_last0 x) => [R0|] /=; last by apply: ev_true.
case: (posnP m) => [_|m0] /=; first by apply: ev_true.
case er: (reshape _ _) => [R|] /=; last by apply: ev_true.
have [d0 sR gR] := block_R wx ea m0 er; have rR := R_real wx ea m0 er hx.
have [k2 so] : exists k2, shape (perm_opt perm (transpose2 R)) = [:: k2; nprod ld].
  by rewrite /perm_opt /select0 sp /=; eexists.
case: (posnP k2) => [z|k20].
  apply: ev_true => e e0 t; by rewrite (C62_empty eigh e sR so) //; right.
have ro : nd_real (perm_opt perm (transpose2 R)) by move=> idx _; exact: perm_opt_real.
have [e0 [p0 h]] := C62_intersection eighP sR so m0 k20 rR ro.
exists e0 => // e h1 h2 t; have {h} [y1 [y2 [-> [k1 [k1' [s1 [_ [_ _ sub]]]]]]]] := h e h1 h2.
rewrite /=; case: ifP => [l0|_ [<-]]; last by constructor.
rewrite /wfb /= in wx; rewrite /einsum_P s1 wx size_cat /=.
have n2 (s : seq nat) a c : nth 0%N (s ++ [:: a; c]) (size s + 2 - 2) = a by rewrite addnK nth_cat ltnn subnn.
have n1 (s : seq nat) a c : nth 0%N (s ++ [:: a; c]) (size s + 2 - 1) = c.
  by rewrite addn2 subn1 nth_cat /= ltnNge leqnSn /= subSnn.
have lx : lead x = ld by rewrite /lead wx size_cat addnK take_size_cat.
rewrite lx n2 n1 eqxx ltnNge leq_addl /= => -[<-]; constructor; last by constructor.
split; first by rewrite /wfb /= /len s1.
apply: Pcs_bcols => c /=; rewrite /len s1 /= => hc _ s p idx hp v1 v2.
have col i : valid ld i -> \sum_(w < m) get y1 [:: nth 0%N (i ++ [:: c; 0%N]) (size ld + 2 - 2); w : nat]
     * get x (take (size ld + 2 - 2) (i ++ [:: c; 0%N]) ++ [:: w : nat; nth 0%N (i ++ [:: c; 0%N]) (size ld + 2 - 1)]) =
   \sum_(w < m) get y1 [:: c; w : nat] * get (transpose2 R) [:: w : nat; ravel ld i].
  move=> vi; have sz : size i = size ld := valid_size vi.
  by rewrite -sz; apply: eq_bigr => w _; rewrite (gR w i (ltn_ord w) vi) n2 n1 addnK take_size_cat.
rewrite (col _ v1) (col _ v2); set B1 := bmx m [:: nprod ld] (transpose2 R) in sub; set B2 := bmx k2 _ _ in sub.
set Y1 := mx2 k1 m y1 in sub; pose r := row (Ordinal hc) (Y1 *m B1).
have [z ez] : exists z, r = z *m B2.
  by apply/submxP; have [e1 _] := sub r; move: e1; rewrite row_sub => /esym/andP[].
have tot j : (j < nprod ld)%N -> \sum_(w < m) get y1 [:: c; w : nat] * get (transpose2 R) [:: w : nat; j] =
    \sum_(i < k2) z 0 i * get (perm_opt perm (transpose2 R)) [:: i : nat; j].
  move=> hj; have hj' : (j < nprod [:: nprod ld])%N by rewrite /= muln1.
  have := congr1 (fun M : 'rV_(nprod [:: nprod ld]) => M 0 (Ordinal hj')) ez; rewrite !mxE => ee.
  transitivity (\sum_j0 Y1 (Ordinal hc) j0 * B1 j0 (Ordinal hj')).
    by apply: eq_bigr => w _; rewrite !mxE /= divn1.
  by rewrite ee; apply: eq_bigr => i _; rewrite !mxE /= divn1.
rewrite !tot ?ravel_lt // mulr_sumr; apply: eq_bigr => i _; rewrite mulrCA; congr (_ * _).
rewrite /perm_opt /select0 /=; set l := [seq _ <- _ | _].
have sl : size l = k2 by move: so; rewrite /perm_opt /select0 /= => -[].
have : nth 0%N l i \in l by rewrite mem_nth // sl.
by rewrite mem_filter mem_iota add0n /len sp => /andP[_ /andP[_ hk]]; apply: sym.
Qed.

Section Group.
Variables (irr : seq rrep) (G : seq sp).
Local Notation n := (size irr).
Hypothesis rl : reals dim irr.
Hypothesis GG : signed_group n G.
Hypothesis cst : forall s p i, (s, p) \in G -> (i < n)%N -> nth 0%N (dims irr) (nth 0%N p i) = nth 0%N (dims irr) i.

Lemma bounded_all : bounded irr (iota 0 n).
Proof. exact: iota_lt. Qed.
Lemma masked_dims : masked (iota 0 n) (dims irr) = dims irr.
Proof. by rewrite -(size_map (rdim dim)) masked_all. Qed.
Lemma constrain_sym rb pb : size (subrepr_permutation (iota 0 n) G) <> 1%N ->
  subgroup_perm C ford (iota 0 n) G (dims irr) = Ok pb -> Inv Pr irr (iota 0 n) rb ->
  ev (fun e => forall b, constrain dim id_ eigh e rb pb = Ok b -> Inv (Ps G) irr (iota 0 n) b).
Proof.
move=> n1 eS [l [-> [_ w] /Pcs_cols hl]]; rewrite /constrain blocks_mk.
case: (passert _) => [_|?] /=; last by apply: ev_true.
case ef: (flat2 pb) => [perm|] /=; last by apply: ev_true.
have rp : allreal perm by apply: flat2_real ef; exact: subgroup_perm_real eS.
have sz : size (dims irr) = n by rewrite size_map.
have [||||k [sp sym]] := @perm_basis_sym C ford ford_id G (dims irr) pb perm _ _ _ _ ef; rewrite ?sz //.
have hb q : List.In q l -> ev (fun e => forall t, constrain_one id_ eigh e perm q = Ok t ->
    List.Forall (fun p => wfb dim (masked (iota 0 n) (dims irr)) p /\ Pcs (Ps G) irr (iota 0 n) (bcols p)) t).
  move=> hq; have wq := proj1 (List.Forall_forall _ _) w _ hq; have pq := proj1 (List.Forall_forall _ _) hl _ hq.
  apply: (constrain_one_sym (k := k)) => //.
  - by move=> u hu; apply: (bcols_Pcs pq hu); rewrite ?bounded_all.
  - by rewrite masked_dims.
  - by rewrite masked_dims => i s p idx hi hp v1 _; apply: sym.
apply: ev_imp (ev_forall hb) => e _ he b; case el: (mapR _ _) => [ls|] //=; apply: Inv_new; apply: Forall_flatten.
by apply: (mapR_Forall el he) => q t h; apply: h.
Qed.
Lemma Inv_mono (P Q : seq rrep -> seq nat -> L -> (seq nat -> nat -> C) -> Prop) f b :
  (forall ir g, P irr f ir g -> Q irr f ir g) -> Inv P irr f b -> Inv Q irr f b.
Proof. by move=> h [l [-> w p]]; exists l; split=> //; apply: List.Forall_impl p => c; apply: h. Qed.
Lemma trivial_sym f ir g : size (subrepr_permutation (iota 0 n) G) = 1%N -> Ps G irr f ir g.
Proof.
rewrite (subrepr_all GG) => u1 d0 s p idx hp v _.
have [-> ->] : (s, p) = (1, iota 0 n).
  move: u1 (sg_id GG) hp; rewrite -!(mem_undup G); case: (undup G) => [|a [|]] // _.
  by rewrite !inE => /eqP <- /eqP.
rewrite mul1r; congr (g _ _); have <- : size idx = n by rewrite (valid_size v) size_masked size_map.
by rewrite /RedPerm.act -/(mkseq _ _) mkseq_nth.
Qed.

Hypothesis hcg : cgs dim mulL cgL (cg_real dim).
Lemma loop_sym (rec : C -> seq rrep -> seq sp -> res (irrarr C L)) :
  (forall s g, evc (fun e => rec e s g)) ->
  (forall e s g c, 0 < e -> (size s < n)%N -> rec e s g = Ok c -> Inv Pr s (iota 0 (size s)) c) ->
  forall fuel bases, part n (map fst bases) -> List.Forall (fun fb => Inv Pr irr fb.1 fb.2) bases -> (1 < size bases)%N ->
  ev (fun e => forall b, loop e ford (rec e) irr G fuel bases = Ok b -> Inv (Ps G) irr (iota 0 n) b).
Proof.
move=> hev hrec; elim=> [|fuel IH] bases pt hb s1; first by apply: ev_true.
case: (size bases =P 2%N) => [e|e2].
  case: bases e hb pt {IH s1} => [|[fa b1] [|[fb b2] [|]]] //= _ hb [/= pe _].
  have /= h1 := List.Forall_inv hb; have /= h2 := List.Forall_inv (List.Forall_inv_tail hb).
  rewrite cats0 in pe; have un : uniq (fa ++ fb) by rewrite (perm_uniq pe) iota_uniq.
  have al : all (fun i => (i < n)%N) (fa ++ fb) by apply/allP => i; rewrite (perm_mem pe) mem_iota add0n.
  have fe : fset_union fa fb = iota 0 n.
    by apply: sorted_iota (fset_union_sorted _ _) _; apply: seq.perm_trans (fset_union_disj un) pe.
  rewrite fe; case ep: (reduce_basis_product _ _ _ _ _ _) => [c|] /=; last by apply: ev_true.
  have hc : Inv Pr irr (iota 0 n) c.
    by rewrite -fe; apply: (Inv_product _ _ _ un al h1 h2 ep); [exact: Pr_ext | exact: Pr_lin | exact: Pr_prod].
  case: eqP => [u1|u1].
    apply: ev_true => e _ b eb; apply: (Inv_mono (P := Pr)) => [ir g _|]; first exact: trivial_sym.
    exact: (Inv_ss (@Pr_ext _ _ _) hc eb).
  case eS: (subgroup_perm _ _ _ _ _) => [p|] /=; last by apply: ev_true.
  apply: ev_imp (constrain_sym u1 eS hc) => e _ h b; case ec: (constrain _ _ _ _ _ _) => [c'|] //=.
  by move=> eb; apply: (Inv_ss (@Ps_ext G) (h _ ec) eb).
have s3 : (2 < size bases)%N by rewrite ltn_neqAle eq_sym s1 andbT; apply/eqP.
have e1 : size bases <> 1%N by lia.
have s3' : (1 < size (map fst bases))%N by rewrite size_map.
have [i [j [eg ij js _]]] := greedyP ford G (dims irr) s3'.
set f := fset_union _ _ in eg.
suff : ev (fun e => forall b, (do sub <- pick_all irr (ford f); do ab <- rec e sub (subrepr_permutation f G);
        do ab <- ia_reshape dim ab (masked f (dims irr)) None;
        loop e ford (rec e) irr G fuel ((f, ab) :: del_at i (del_at j bases))) = Ok b -> Inv (Ps G) irr (iota 0 n) b).
  by apply: ev_imp => e _ h b; rewrite loop_many //= eg; apply: h.
case E: (pick_all _ _) => [sub|] /=; last by apply: ev_true.
have [pt' sf] := part_merge pt ij js.
have h : (size sub < n)%N.
  rewrite (pick_all_size E) (perm_size (ford_perm _)) sf; apply: part_lt => //; rewrite size_map; lia.
have [r hr] := hev sub (subrepr_permutation f G).
case: r hr => [ab|er] hr; last by apply: ev_imp hr => e _ -> .
have hab : Inv Pr sub (iota 0 (size sub)) ab.
  by case: hr => e0 p0 hr; have [e [p1 p2]] : exists e : C, 0 < e /\ e < e0; [exists (e0 / 2%:R); rewrite divr_gt0 ?ltr0n // gtr_pmulr // invf_lt1 ?ltr0n // ltr1n | apply: hrec p1 h (hr e p1 p2)].
case es: (ia_reshape dim ab (masked f (dims irr)) None) => [ab'|]; last first.
  by apply: ev_imp hr => e _ -> b /=; rewrite es.
rewrite size_map in js; have P := del2_perm ([::], IrrArr [::] [::]) ij js.
have := IH ((f, ab') :: del_at i (del_at j bases)); case.
- by rewrite map_fst_merge.
- constructor; last exact: List.Forall_inv_tail (List.Forall_inv_tail (Permutation_Forall' P hb)).
  apply: (Inv_reshape _ _ E (fset_union_sorted _ _) _ hab es); [exact: Pr_ext | exact: Pr_sub |].
  by apply: part_all pt' _; rewrite inE eqxx.
- by move: (Permutation_size P) => /= sz; rewrite /=; lia.
move=> e0 p0 h0; have hh : ev (fun e => forall b, loop e ford (rec e) irr G fuel ((f, ab') :: del_at i (del_at j bases)) = Ok b -> Inv (Ps G) irr (iota 0 n) b) by exists e0.
by apply: ev_imp (ev_and hr hh) => e _ [-> h1] b /=; rewrite es; apply: h1.
Qed.
End Group.
End Sym.
