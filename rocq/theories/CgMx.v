(** CgMx: the hypotheses [cg_ok] of the theorems on tensor products, from matrices.
    Mathematics only: no part of /repo is modelled here. *)
From Coq Require Import ZArith.
From mathcomp Require Import all_ssreflect all_algebra.
From mathcomp Require Import zify.
From mathcomp.real_closed Require Import mxtens.
From Verif Require Import Base McRing Nd NdProofs Reps RepSpec RepOps Reduced ReducedProofs Intw TpProofs Su2CgEq.

Set Implicit Arguments.
Unset Strict Implicit.
Unset Printing Implicit Defensive.

Import Order.POrderTheory GRing.Theory Num.Theory.
Local Open Scope ring_scope.

Section CgMx.
Variable C : numClosedFieldType.

Lemma tens_mul_at m n d (A : 'M[C]_m) (B : 'M[C]_n) (V : 'M[C]_(m * n, d)) i j k :
  ((A *t B) *m V) (mxtens_index (i, j)) k = \sum_i' \sum_j' A i i' * B j j' * V (mxtens_index (i', j')) k.
Proof.
rewrite mxE sum_tens; apply: eq_bigr => i' _; apply: eq_bigr => j' _.
by rewrite tensmxE.
Qed.

Variables (G : irreps C) (T : theory C) (i1 i2 : label G).
Local Notation d1 := (dim_of i1).
Local Notation d2 := (dim_of i2).
Local Notation d3 i3 := (dim_of (i3 : label G)).
Local Notation X_ i a := (mx3 (dim_of i) (dim_of i) (rX (rep_of (i : label G))) a).
Local Notation H_ i a := (mx3 (dim_of i) (dim_of i) (rH (rep_of (i : label G))) a).
Local Notation L := (mul_of i1 i2).
Variables (B : forall i3 : label G, 'M[C]_(d1 * d2, d3 i3)) (Bd : forall i3 : label G, 'M[C]_(d3 i3, d1 * d2)).

Record cg_mx : Prop := CgMx {
  cm_1 : is_rep T d1 (rep_of i1);
  cm_2 : is_rep T d2 (rep_of i2);
  cm_3 : forall i3, List.In i3 L -> is_rep T (d3 i3) (rep_of i3);
  cm_ne : L <> [::];
  cm_s : forall i3, List.In i3 L -> shape (cg_of i1 i2 i3) = [:: 1%N; d1; d2; d3 i3];
  cm_g : forall i3 (i : 'I_d1) (j : 'I_d2) (k : 'I_(d3 i3)), List.In i3 L ->
    get (cg_of i1 i2 i3) [:: 0%N; i : nat; j : nat; k : nat] = B i3 (mxtens_index (i, j)) k;
  cm_X : forall i3 a, List.In i3 L -> (a < th_l T)%N -> B i3 *m (X_ i3 a)^T = tact (X_ i1 a)^T (X_ i2 a)^T *m B i3;
  cm_H : forall i3 b, List.In i3 L -> (b < th_h T)%N -> B i3 *m (H_ i3 b)^T = ((H_ i1 b)^T *t (H_ i2 b)^T) *m B i3;
  cm_dim : sumn [seq d3 i3 | i3 <- L] = (d1 * d2)%N;
  cm_full : \sum_(i3 <- L) B i3 *m Bd i3 = 1%:M }.

Lemma cg_mx_z i3 : cg_mx -> List.In i3 L -> cgz i1 i2 i3 = 1%N.
Proof. by move=> h hi; rewrite /cgz (cm_s h hi). Qed.

Theorem cg_mx_ok : cg_mx -> cg_ok T i1 i2.
Proof.
move=> h; have z i3 := @cg_mx_z i3 h; split; try by case: h.
- by move=> i3 /z ->.
- by move=> i3 hi; rewrite z // (cm_s h hi).
- move=> i3 a u i j k hi ha; rewrite z // => hu h1 h2 h3; case: u hu => // _.
  have /matrixP/(_ (mxtens_index (Ordinal h1, Ordinal h2)) (Ordinal h3)) := cm_X h hi ha.
  rewrite tact_mul mxE => e.
  transitivity (\sum_(k' < d3 i3) B i3 (mxtens_index (Ordinal h1, Ordinal h2)) k' * (X_ i3 a)^T k' (Ordinal h3)).
    by apply: eq_bigr => x _; rewrite !mxE mulrC /gen; congr (_ * _); exact: (cm_g h (Ordinal h1) (Ordinal h2) x hi).
  rewrite e; congr (_ + _); apply: eq_bigr => x _; rewrite !mxE /gen; congr (_ * _).
    by rewrite -(cm_g h x (Ordinal h2) (Ordinal h3) hi).
  by rewrite -(cm_g h (Ordinal h1) x (Ordinal h3) hi).
- move=> i3 a u i j k hi ha; rewrite z // => hu h1 h2 h3; case: u hu => // _.
  have /matrixP/(_ (mxtens_index (Ordinal h1, Ordinal h2)) (Ordinal h3)) := cm_H h hi ha.
  rewrite tens_mul_at mxE => e.
  transitivity (\sum_(k' < d3 i3) B i3 (mxtens_index (Ordinal h1, Ordinal h2)) k' * (H_ i3 a)^T k' (Ordinal h3)).
    by apply: eq_bigr => x _; rewrite !mxE mulrC /gen; congr (_ * _); exact: (cm_g h (Ordinal h1) (Ordinal h2) x hi).
  rewrite e; apply: eq_bigr => x _; apply: eq_bigr => y _; rewrite !mxE /gen; congr (_ * _).
  by rewrite -(cm_g h x y (Ordinal h3) hi).
- rewrite -[RHS](cm_dim h); congr sumn; apply: List.map_ext_in => i3 hi.
  by rewrite z // mul1n.
- move=> v hv i j hi hj; pose V : 'rV[C]_(d1 * d2) := \row_x v (mxtens_unindex x).1 (mxtens_unindex x).2.
  have V0 : V = 0.
    rewrite -[V]mulmx1 -(cm_full h) mulmx_sumr.
    have s i3 : List.In i3 L -> V *m (B i3 *m Bd i3) = 0.
      move=> hl; rewrite mulmxA; suff -> : V *m B i3 = 0 by rewrite mul0mx.
      apply/rowP=> k; rewrite !mxE sum_tens.
      rewrite -[RHS](hv i3 0%N k) ?z //; apply: eq_bigr => x _; apply: eq_bigr => y _.
      by rewrite (cm_g h) // mxE mxtens_indexK.
    elim: L s => [|x l IH] s; first by rewrite big_nil.
    by rewrite big_cons s /=; [rewrite add0r IH // => y hy; apply: s; right | left].
  by have /rowP/(_ (mxtens_index (Ordinal hi, Ordinal hj))) := V0; rewrite !mxE mxtens_indexK.
Qed.
End CgMx.
