(** RepSpec: what a representation is, in terms of matrices.

    A [theory] fixes a Lie algebra by its structure constants, a set of
    relations between words in the discrete generators, and the adjoint action
    of the discrete generators on the Lie algebra. *)
From mathcomp Require Import all_ssreflect all_algebra.
From Verif Require Import Base Nd Reps.

Set Implicit Arguments.
Unset Strict Implicit.
Unset Printing Implicit Defensive.

Import GRing.Theory Num.Theory.
Local Open Scope ring_scope.

Section Spec.
Variable C : numClosedFieldType.

Record theory := Theory {
  th_l : nat;                               (* dimension of the Lie algebra *)
  th_h : nat;                               (* number of discrete generators *)
  th_A : nat -> nat -> nat -> C;            (* [X_i, X_j] = sum_k A_ijk X_k *)
  th_rel : seq nat -> seq nat -> Prop;      (* words u, v with u(H) = v(H) *)
  th_adj : (nat -> nat -> nat -> C) -> Prop (* c: H_b X_i = (sum_j c_bij X_j) H_b *)
}.

(** The product of the generators H_b, b in w. *)
Definition word (d : nat) (H : nat -> 'M[C]_d) (w : seq nat) : 'M[C]_d :=
  foldr (fun b M => H b *m M) 1%:M w.

(** The matrices X_i (i < l) and H_b (b < h) form a representation. *)
Record is_mrep (T : theory) (d : nat) (X H : nat -> 'M[C]_d) : Prop := IsMRep {
  mr_comm : forall i j, (i < th_l T)%N -> (j < th_l T)%N ->
    X i *m X j - X j *m X i = \sum_(k < th_l T) th_A T i j k *: X k;
  mr_rel : forall u v, th_rel T u v -> all (fun b => b < th_h T)%N (u ++ v) ->
    word H u = word H v;
  mr_adj : forall c, th_adj T c -> forall b i, (b < th_h T)%N -> (i < th_l T)%N ->
    H b *m X i = (\sum_(j < th_l T) c b i j *: X j) *m H b }.

(** The arrays have the right shapes and hold such matrices. *)
Record is_rep (T : theory) (d : nat) (r : rep C) : Prop := IsRep {
  ir_sA : shape (rA r) = [:: th_l T; th_l T; th_l T];
  ir_A : forall i j k, (i < th_l T)%N -> (j < th_l T)%N -> (k < th_l T)%N ->
    get (rA r) [:: i; j; k] = th_A T i j k;
  ir_sX : shape (rX r) = [:: th_l T; d; d];
  ir_sH : shape (rH r) = [:: th_h T; d; d];
  ir_m : is_mrep T (mx3 d d (rX r)) (mx3 d d (rH r)) }.
End Spec.
