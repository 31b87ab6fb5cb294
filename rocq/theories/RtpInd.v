(** RtpInd: the columns of the basis computed by _reduced_tensor_product_basis (Rtp.v) are
    linearly independent. *)
From Coq Require Import ZArith String Ascii List Permutation.
From mathcomp Require Import all_ssreflect all_algebra.
From mathcomp Require Import zify.
From Verif Require Import Base Nd NdProofs Reps RepOps Sl2c LinAlg BiProofs.
From Verif Require Import Perm RedPerm RedPermBasis RedPermSub Rtp RtpArr RtpLoop RtpPres RtpEqv RtpStab RtpReal RtpSym RtpSymAll RtpCon RtpSpan RtpFull RtpFullCon RtpFullAll.

Set Implicit Arguments.
Unset Strict Implicit.
Unset Printing Implicit Defensive.

Import Order.POrderTheory GRing.Theory Num.Theory.
Local Open Scope ring_scope.

Section Ind.
Variable C : numClosedFieldType.
Implicit Types (ld : seq nat) (gs hs : seq (seq nat -> C)).
Definition ind ld gs : Prop := forall z : nat -> C,
  (forall idx, valid ld idx -> \sum_(i < size gs) z i * nth (fun=> 0) gs i idx = 0) -> forall i, (i < size gs)%N -> z i = 0.

(** The tensors as the rows of a matrix. *)
Definition emx ld gs : 'M[C]_(size gs, nprod ld) := \matrix_(i, x) nth (fun=> 0) gs i (unravel ld x).
Lemma ind_emx ld gs : ind ld gs <-> row_free (emx ld gs).
Proof.
split=> [h|h z hz i hi].
  apply/inj_row_free => v hv.
  pose z (i : nat) := if insub i is Some o then v 0 o else 0.
  have e : forall i : 'I_(size gs), z i = v 0 i by move=> i; rewrite /z valK.
  apply/rowP => i; rewrite mxE -e; apply: (h z) => // idx vi.
  have /rowP/(_ (Ordinal (ravel_lt vi))) := hv; rewrite !mxE => e0; rewrite -[RHS]e0.
  by apply: eq_bigr => j _; rewrite e mxE /= ravelK.
have : \row_j z j *m emx ld gs = 0.
  apply/rowP => x; rewrite !mxE; have e0 := hz _ (unravel_valid (ltn_ord x)); rewrite -[RHS]e0.
  by apply: eq_bigr => j _; rewrite !mxE.
rewrite -(mul0mx _ (emx ld gs)) => /(row_free_inj h)/rowP/(_ (Ordinal hi)).
by rewrite !mxE.
Qed.
Lemma spn_emx ld gs T : spn ld gs T -> (\row_x T (unravel ld x) <= emx ld gs)%MS.
Proof.
case=> z hz; apply/submxP; exists (\row_j z j); apply/rowP => x; rewrite !mxE hz; last exact: unravel_valid.
by apply: eq_bigr => j _; rewrite !mxE.
Qed.
(** At most as many tensors, that span independent ones. *)
Lemma ind_count ld gs hs : ind ld hs -> (forall h, List.In h hs -> spn ld gs h) -> (size gs <= size hs)%N -> ind ld gs.
Proof.
move=> /ind_emx fh hg sz; apply/ind_emx.
have sub : (emx ld hs <= emx ld gs)%MS.
  apply/row_subP => i; have -> : row i (emx ld hs) = \row_x nth (fun=> 0) hs i (unravel ld x).
    by apply/rowP => x; rewrite !mxE.
  by apply: spn_emx; apply: hg; apply: nth_In.
have := mxrankS sub; rewrite /row_free (eqP fh) => h.
by rewrite eqn_leq rank_leq_row (leq_trans sz h).
Qed.
(** All the tensors are spanned by as many as there are entries. *)
Lemma ind_full ld gs : (forall T, spn ld gs T) -> (size gs <= nprod ld)%N -> ind ld gs.
Proof.
move=> h sz; apply: (@ind_count _ _ (mkseq (fun c idx => (ravel ld idx == c)%:R) (nprod ld))); last by rewrite size_mkseq.
  move=> z hz i; rewrite size_mkseq => hi; have := hz _ (unravel_valid hi); rewrite size_mkseq.
  rewrite (bigD1 (Ordinal hi)) //= nth_mkseq // unravelK // eqxx mulr1 big1 ?addr0 // => j ne.
  by rewrite nth_mkseq // unravelK // eq_sym (negPf (ne : (j : nat) != i)) mulr0.
by move=> g _; exact: h.
Qed.
(** The products of two families. *)
Lemma ind_tensor la lb ld hs1 hs2 (pa pb : seq nat -> seq nat) : ind la hs1 -> ind lb hs2 ->
  (forall i j, valid la i -> valid lb j -> exists2 idx, valid ld idx & pa idx = i /\ pb idx = j) ->
  ind ld (mkseq (fun t idx => nth (fun=> 0) hs1 (t %/ size hs2) (pa idx) * nth (fun=> 0) hs2 (t %% size hs2) (pb idx)) (size hs1 * size hs2)).
Proof.
move=> i1 i2 hp z hz t; rewrite size_mkseq => ht; set n2 := size hs2 in hz ht *.
have n0 : (0 < n2)%N by case: (n2) ht => //; rewrite muln0.
have hab a b : (a < size hs1)%N -> (b < n2)%N -> z (a * n2 + b)%N = 0.
  move=> ha; move: b; apply: i2 => j vj; move: a ha.
  apply: i1 => i vi; have [idx v [ea eb]] := hp i j vi vj; have := hz idx v; rewrite size_mkseq.
  rewrite (Intw.sum_mul _ _ (fun t => z t * nth (fun=> 0) (mkseq (fun t idx => nth (fun=> 0) hs1 (t %/ n2) (pa idx) * nth (fun=> 0) hs2 (t %% n2) (pb idx)) (size hs1 * n2)) t idx)) => e0; rewrite -[RHS]e0.
  apply: eq_bigr => a _; rewrite mulr_suml; apply: eq_bigr => b _.
  rewrite nth_mkseq; last by have := ltn_ord a; have := ltn_ord b; rewrite -/n2; nia.
  by rewrite divnMDl // divn_small // addn0 modnMDl modn_small // ea eb mulrA mulrAC.
rewrite (divn_eq t n2); apply: hab; rewrite ?ltn_pmod // ltn_divLR //.
Qed.

Variable L : eqType.
Variable dim : L -> nat.
Notation mi := (nat * L)%type.
Notation blk := (mi * nd C)%type.
Notation zblk := (blk * (nat -> nat -> C))%type.
Local Notation ents := (ents dim).
Definition zcoef (zl : seq zblk) : Prop := forall p, List.In p zl -> forall u k, (u < p.1.1.1)%N -> (k < dim p.1.1.2)%N -> p.2 u k = 0.
Lemma sum_bents (q : blk) (l : seq blk) (z : nat -> C) idx : \sum_(i < size (ents (q :: l))) z i * nth (fun=> 0) (ents (q :: l)) i idx =
  \sum_(u < q.1.1) \sum_(k < dim q.1.2) z (u * dim q.1.2 + k)%N * get q.2 (idx ++ [:: u : nat; k : nat]) +
  \sum_(i < size (ents l)) z (q.1.1 * dim q.1.2 + i)%N * nth (fun=> 0) (ents l) i idx.
Proof.
rewrite ents_cons size_cat size_bents.
rewrite (Intw.sum_split _ _ (fun i => z i * nth (fun=> 0) (flatten [seq cents dim i | i <- bcols q] ++ ents l) i idx)); congr (_ + _).
  rewrite (Intw.sum_mul _ _ (fun i => z i * nth (fun=> 0) (flatten [seq cents dim i | i <- bcols q] ++ ents l) i idx)).
  apply: eq_bigr => u _; apply: eq_bigr => k _; have hu := ltn_ord u; have hk := ltn_ord k.
  have hc : (u * dim q.1.2 + k < q.1.1 * dim q.1.2)%N by nia.
  rewrite nth_cat size_bents hc nth_bents // divnMDl ?(leq_ltn_trans _ hk) // divn_small // addn0.
  by rewrite modnMDl modn_small.
by apply: eq_bigr => i _; rewrite nth_cat size_bents ltnNge leq_addr /= addKn.
Qed.
Lemma TT_coef (zl : seq zblk) : exists z : nat -> C,
  (forall idx, \sum_(i < size (ents (map fst zl))) z i * nth (fun=> 0) (ents (map fst zl)) i idx = TT dim zl idx) /\
  ((forall i, (i < size (ents (map fst zl)))%N -> z i = 0) -> zcoef zl).
Proof.
elim: zl => [|p zl [z [h1 h2]]]; first by exists (fun=> 0); split=> [idx|_ p []]; rewrite /TT big_nil big_ord0.
pose N := (p.1.1.1 * dim p.1.1.2)%N.
pose z' i := if (i < N)%N then p.2 (i %/ dim p.1.1.2)%N (i %% dim p.1.1.2)%N else z (i - N)%N.
have zE u k : (u < p.1.1.1)%N -> (k < dim p.1.1.2)%N -> z' (u * dim p.1.1.2 + k)%N = p.2 u k.
  move=> hu hk; rewrite /z'; have -> : (u * dim p.1.1.2 + k < N)%N by rewrite /N; nia.
  by rewrite divnMDl ?(leq_ltn_trans _ hk) // divn_small // addn0 modnMDl modn_small.
have zE' i : z' (N + i)%N = z i by rewrite /z' ltnNge leq_addr /= addKn.
exists z'; split=> [idx|hz].
  rewrite TT_cons /= sum_bents -h1; congr (_ + _); last by apply: eq_bigr => i _; rewrite -/N zE'.
  by apply: eq_bigr => u _; apply: eq_bigr => k _; rewrite zE.
have sz : size (ents (map fst (p :: zl))) = (N + size (ents (map fst zl)))%N by rewrite /= ents_cons size_cat size_bents.
rewrite sz in hz; move=> p' [<-|hp'] u k hu hk.
  by rewrite -zE //; apply: hz; apply: leq_trans (leq_addr _ _); rewrite /N; nia.
by apply: h2 hp' _ _ hu hk => i hi; rewrite -zE'; apply: hz; rewrite ltn_add2l.
Qed.
Lemma coef_TT (l : seq blk) (z : nat -> C) : exists zl : seq zblk, [/\ map fst zl = l,
  forall idx, \sum_(i < size (ents l)) z i * nth (fun=> 0) (ents l) i idx = TT dim zl idx &
  zcoef zl -> forall i, (i < size (ents l))%N -> z i = 0].
Proof.
elim: l z => [|q l IH] z; first by exists [::]; split=> // idx; rewrite /TT big_nil big_ord0.
have [zl [e1 e2 e3]] := IH (fun i => z (q.1.1 * dim q.1.2 + i)%N).
exists ((q, fun u k => z (u * dim q.1.2 + k)%N) :: zl); split; first by rewrite /= e1.
  by move=> idx; rewrite TT_cons sum_bents /= e2.
move=> hz i; rewrite ents_cons size_cat size_bents => hi.
case: (ltnP i (q.1.1 * dim q.1.2)) => h.
  have d0 : (0 < dim q.1.2)%N by case: (dim q.1.2) h => //; rewrite muln0.
  rewrite (divn_eq i (dim q.1.2)); apply: (hz _ (or_introl erefl)) => /=; rewrite ?ltn_pmod // ltn_divLR //.
rewrite -(subnKC h); apply: e3; last by rewrite ltn_subLR.
by move=> p hp; apply: hz; right.
Qed.
Lemma ind_TT ld (l : seq blk) : ind ld (ents l) <->
  forall zl : seq zblk, map fst zl = l -> (forall idx, valid ld idx -> TT dim zl idx = 0) -> zcoef zl.
Proof.
split=> [h zl e hz|h z hz].
  have [z [h1 h2]] := TT_coef zl; apply: h2; rewrite e in h1 *; apply: h => idx v; by rewrite h1 hz.
have [zl [e1 e2 e3]] := coef_TT l z; apply: e3; apply: h e1 _ => idx v; by rewrite -e2 hz.
Qed.
End Ind.
