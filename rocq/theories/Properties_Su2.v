(** Properties C36, C37: generators of SU2 and of its real forms. *)
From Coq Require Import ZArith.
From mathcomp Require Import all_ssreflect all_algebra.
From mathcomp Require Import zify.
From Verif Require Import Base McRing Nd NdProofs Reps RepSpec RepOps Reduced ReducedProofs Su2 Su2Proofs So3Proofs.

Set Implicit Arguments.
Unset Strict Implicit.
Unset Printing Implicit Defensive.

Import GRing.Theory Num.Theory.
Local Open Scope ring_scope.

(** * Specification *)
Section Spec.
Variable C : numClosedFieldType.
(** The Levi-Civita symbol. *)
Definition levi_civita (e : nat -> nat -> nat -> int) : Prop :=
  forall i j k, (i < 3)%N -> (j < 3)%N -> (k < 3)%N ->
    2%:Z * e i j k = (i%:Z - j%:Z) * (j%:Z - k%:Z) * (k%:Z - i%:Z).
(** X satisfies [X_0, X_1] = X_2 and cyclic permutations. *)
Definition su2_relations (d : nat) (X : nat -> 'M[C]_d) : Prop :=
  [/\ X 0%N *m X 1%N - X 1%N *m X 0%N = X 2%N, X 1%N *m X 2%N - X 2%N *m X 1%N = X 0%N &
      X 2%N *m X 0%N - X 0%N *m X 2%N = X 1%N].
(** The Casimir operator is -s(s+1): X has spin s only. *)
Definition has_spin (s : C) (d : nat) (X : nat -> 'M[C]_d) : Prop :=
  X 0%N *m X 0%N + X 1%N *m X 1%N + X 2%N *m X 2%N = (- (s * (s + 1)))%:M.
End Spec.

Section Casimir.
Variable C : numClosedFieldType.
Lemma Mm_sq j : Mm C j *m Mm C j = \matrix_(i, k) (if (k == i :> nat) then mval C j i ^+ 2 else 0).
Proof.
apply/matrixP=> i k; rewrite !mxE (bigD1 i) //= big1 ?addr0 => [|x xi]; last first.
  by rewrite !mxE [(x == i :> nat)](negbTE xi) mul0r.
by rewrite !mxE eqxx; case: eqP => _; rewrite ?mulr0 // expr2.
Qed.
Lemma su2_casimir j : has_spin (j%:R / 2%:R) (Xm C j).
Proof.
rewrite /has_spin /Xm -!scalemxAl -!scalemxAr !scalerA.
have eB (A B : 'M[C]_j.+1) : (A - B) *m (A - B) = A *m A - A *m B - (B *m A - B *m B) by rewrite mulmxBl !mulmxBr.
have eD (A B : 'M[C]_j.+1) : (A + B) *m (A + B) = A *m A + A *m B + (B *m A + B *m B) by rewrite mulmxDl !mulmxDr.
rewrite eB eD Mm_sq Sm_St St_Sm; move: (Sm C j *m Sm C j) ((Sm C j)^T *m _) => U V.
apply/matrixP=> i k; rewrite !mxE -!val_eqE /= [(k == i :> nat)]eq_sym.
have n2 : (2%:R : C) != 0 by rewrite pnatr_eq0.
move: (U i k) (V i k) => u v.
have ii : 'i * 'i = -1 :> C by rewrite -expr2 sqrCi.
have -> : 1 / 2%:R * 'i * (1 / 2%:R * 'i) = - (1 / 2%:R * (1 / 2%:R)) :> C by rewrite mulrACA ii mulrN1.
rewrite ii; case: eqP => [_|_] /=; last by rewrite mulr0n; mcf.
have e : j%:R = (i + (j - i))%N%:R :> C by congr (_%:R); have := ltn_ord i; lia.
rewrite mulr1n /mval e; move: (j - i)%N (i : nat) => q n.
by mcf.
Qed.
Lemma so3_casimir l : has_spin (l%:R : C) (@Ym C l).
Proof.
have := su2_casimir (2 * l); rewrite /has_spin natrM [2%:R * _]mulrC mulfK ?pnatr_eq0 // => e.
have cj (A : 'M[C]_((2 * l).+1)) : (adj (Qm C l) *m A *m Qm C l) *m (adj (Qm C l) *m A *m Qm C l) = adj (Qm C l) *m (A *m A) *m Qm C l.
  by rewrite !mulmxA -[_ *m Qm C l *m adj _]mulmxA Qm_unitary' mulmx1.
by rewrite /Ym !cj -!mulmxDl -!mulmxDr e mul_mx_scalar -scalemxAl Qm_unitary scalemx1.
Qed.
End Casimir.

Section Props.
Variable C : numClosedFieldType.

(** ** C36 *)
Theorem C36_table : levi_civita (table3 su2_table).
Proof. by case=> [|[|[|i]]] // [|[|[|j]]] // [|[|[|k]]]. Qed.
Theorem C36_su2_rep j : exists r, su2_rep C j = Ok r /\ is_rep (su2_th C) j.+1 r /\
  su2_relations (mx3 j.+1 j.+1 (rX r)) /\ has_spin (j%:R / 2%:R) (mx3 j.+1 j.+1 (rX r)) /\
  forall a, (a < 3)%N -> adj (mx3 j.+1 j.+1 (rX r) a) = - mx3 j.+1 j.+1 (rX r) a.
Proof.
have [X [e [sX gX]]] := su2_X_ok C j; have [r [er [hr ha]]] := su2_rep_ok C j; exists r; split=> //; split=> //.
move: er; rewrite /su2_rep e /= => -[<-] /=; split; first by rewrite /su2_relations !gX //; split; [exact: X01|exact: X12|exact: X20].
split; first by rewrite /has_spin !gX //; exact: su2_casimir.
by move=> a ha'; rewrite gX // Xm_adj.
Qed.
(** The spin-1/2 generators are not zero. *)
Example C36_example : exists r, su2_rep C 1 = Ok r /\ get (rX r) [:: 1; 1; 1]%N = 'i / 2%:R.
Proof.
have [X [e [sX gX]]] := su2_X_ok C 1; exists (MkRep (su2_A C) X (su2_H C 1)); rewrite /su2_rep e; split=> //=.
have /matrixP/(_ (Ordinal (isT : 1 < 2)%N) (Ordinal (isT : 1 < 2)%N)) := gX 1%N isT.
rewrite !mxE /= => ->; rewrite /mval; have n2 : (2%:R : C) != 0 by rewrite pnatr_eq0.
by mcf.
Qed.

(** ** C37 *)
Theorem C37_change_of_basis_unitary l : let Q := mx2 (2 * l).+1 (2 * l).+1 (real_to_complex C l) in
  adj Q *m Q = 1%:M /\ Q *m adj Q = 1%:M.
Proof. exact: real_to_complex_unitary. Qed.
(** The assertion on the imaginary part never fires: the result is Ok. *)
Theorem C37_so3_rep l : exists r, so3_rep C l = Ok r /\ is_rep (su2_th C) (2 * l).+1 r /\ real_nd (rX r) /\
  su2_relations (mx3 (2 * l).+1 (2 * l).+1 (rX r)) /\ has_spin l%:R (mx3 (2 * l).+1 (2 * l).+1 (rX r)) /\
  forall a, (a < 3)%N -> (mx3 (2 * l).+1 (2 * l).+1 (rX r) a)^T = - mx3 (2 * l).+1 (2 * l).+1 (rX r) a.
Proof.
have [X [e [sX [xr gX]]]] := so3_X_ok C l; have [r [er [hr [hre ha]]]] := so3_rep_ok C l.
exists r; split=> //; split=> //; split=> //; move: er hr; rewrite /so3_rep e /= => -[<-] [_ _ _ _ hm] /=.
split; last by split; [rewrite /has_spin !gX //; exact: so3_casimir | move=> a ha'; rewrite gX // Ym_anti].
by split; rewrite (mr_comm hm) //= !big_ord_recl big_ord0 /= /table3 /= ?scale0r ?scale1r ?addr0 ?add0r.
Qed.
Theorem C37_o3_rep l p : p \in [:: 1; -1] -> exists r, o3_rep C l p = Ok r /\ is_rep (o3_th C) (2 * l).+1 r /\
  real_nd (rX r) /\ real_nd (rH r) /\ mx3 (2 * l).+1 (2 * l).+1 (rH r) 0 = p%:~R%:M /\
  forall a, (a < 3)%N -> (mx3 (2 * l).+1 (2 * l).+1 (rX r) a)^T = - mx3 (2 * l).+1 (2 * l).+1 (rX r) a.
Proof. exact: o3_rep_ok. Qed.
Theorem C37_o3_same_rotations l p r s : o3_rep C l p = Ok r -> so3_rep C l = Ok s -> rX r = rX s /\ rA r = rA s.
Proof. by rewrite /o3_rep /so3_rep; case: so3_X => //= X [<-] [<-]. Qed.
Theorem C37_z2_rep p : p \in [:: 1; -1] ->
  is_rep (z2_th C) 1 (z2_rep C p) /\ mx3 1 1 (rH (z2_rep C p)) 0 = p%:~R%:M.
Proof. exact: z2_rep_ok. Qed.
Theorem C37_su2real_half t : odd t -> exists r, su2r_rep C t = Ok r /\ is_rep (su2_th C) (t.+1 * 2) r /\ real_nd (rX r) /\
  forall a, (a < 3)%N -> (mx3 (t.+1 * 2) (t.+1 * 2) (rX r) a)^T = - mx3 (t.+1 * 2) (t.+1 * 2) (rX r) a.
Proof. exact: su2r_rep_half. Qed.
Theorem C37_su2real_int l : su2r_rep C (2 * l) = so3_rep C l.
Proof. exact: su2r_rep_int. Qed.
Example C37_example : exists r, so3_rep C 1 = Ok r /\ mx3 3 3 (rX r) 0 != 0.
Proof.
have [r [e [_ [_ [[h0 h1 h2] [hs _]]]]]] := C37_so3_rep 1; exists r; split=> //; apply/eqP => z.
move: h0 h2 hs; rewrite /has_spin z !mulmx0 !mul0mx subrr => <-; rewrite !mul0mx => <-.
rewrite !mul0mx !addr0 => /matrixP/(_ ord0 ord0)/eqP; rewrite !mxE /= mulr1n eq_sym oppr_eq0 mul1r.
by rewrite -(natrD _ 1 1) pnatr_eq0.
Qed.
End Props.
