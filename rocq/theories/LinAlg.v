(** LinAlg: model of the linear algebra of lie_nn/_src/util.py (gram_schmidt,
    extend_basis, nullspace, sequential_nullspace, infer_change_of_basis,
    basis_intersection, is_irreducible) and of infer_change_of_basis.py,
    clebsch_gordan.py (generic part), is_irreducible.py, properties.py and
    real.py:7-9.

    Arithmetic is exact, and the tests on dtypes are not modelled.  round_fn is the
    parameter [rnd] and np.linalg.eigh the parameter [eigh]: it takes an array and
    returns the eigenvalues and the matrix of eigenvectors, or fails. *)
From Coq Require Import ZArith String Ascii.
From mathcomp Require Import all_ssreflect all_algebra.
From Verif Require Import Base Nd Reps Sl2c.

Set Implicit Arguments.
Unset Strict Implicit.
Unset Printing Implicit Defensive.

Import GRing.Theory Num.Theory.
Local Open Scope ring_scope.
Local Open Scope string_scope.

Section LinAlg.
Variable C : numClosedFieldType.
Notation nd := (nd C).
Variable rnd : nd -> nd.
Variable eigh : nd -> res (nd * nd).
Variable eps : C.

(** np.dot(np.conj(w), v), np.linalg.norm(v) and v - np.dot(np.conj(w), v) * w on
    vectors of length n. *)
Definition vdot (n : nat) (w v : nd) : C := \sum_(k < n) (get w [:: k : nat])^* * get v [:: k : nat].
Definition vnorm (n : nat) (v : nd) : C := sqrtC (\sum_(k < n) `|get v [:: k : nat]| ^+ 2).
Definition axpy (n : nat) (v w : nd) : nd := Nd [:: n] (fun idx => get v idx - vdot n w v * get w idx).

(** util.py:223-231 and 253-260: the body of the loops.  The vector added to Q, if any. *)
Definition gs_new (n : nat) (Q : seq nd) (a : nd) : option nd :=
  let v := foldl (axpy n) a Q in
  if eps < vnorm n v then Some (rnd (scale (vnorm n v)^-1 v)) else None.
Definition gs_row (n : nat) (Q : seq nd) (a : nd) : seq nd :=
  if gs_new n Q a is Some v then rcons Q v else Q.

(** util.py:212-232: gram_schmidt. *)
Definition gram_schmidt (a : nd) : res nd :=
  match shape a with
  | [:: _; n] =>
    let Q := foldl (gs_row n) [::] (rows a) in
    if Q is [::] then Ok (zeros [:: 0%N; n]) else stack Q
  | _ => Err AssertionError
  end.

(** util.py:235-265: extend_basis with returns="Q" and returns="E". *)
Definition eb_row (n : nat) (QE : seq nd * seq nd) (a : nd) : seq nd * seq nd :=
  if gs_new n QE.1 a is Some v then (rcons QE.1 v, rcons QE.2 v) else QE.
Definition eb_loop (a : nd) : res (seq nd * seq nd) :=
  do Q <- gram_schmidt a;
  let n := nth 0%N (shape a) 1 in
  Ok (foldl (eb_row n) (rows Q, [::]) (rows (eye n))).
Definition extend_basis_Q (a : nd) : res nd := do QE <- eb_loop a; stack QE.1.
Definition extend_basis_E (a : nd) : res nd := do QE <- eb_loop a; stack QE.2.

(** Rows of [a] at the positions where [p] holds: a[mask]. *)
Definition select0 (p : nat -> bool) (a : nd) : nd :=
  let l := [seq i <- iota 0 (len a) | p i] in
  Nd (size l :: behead (shape a)) (fun idx => get a (nth 0%N l (head 0%N idx) :: behead idx)).

(** util.py:268-299: nullspace. *)
Definition nullspace (a : nd) : res nd :=
  do _ <- passert (size (shape a) == 2%N);
  do g <- matmul (conj (transpose2 a)) a;
  do e <- eigh (rnd g);
  let X := select0 (fun i => `|get e.1 [:: i]| < eps) (transpose2 e.2) in
  do P <- matmul (conj (transpose2 X)) X;
  gram_schmidt (rnd P).

(** util.py:302-344: sequential_nullspace on the list of the elements of the
    generator (their evaluation is not modelled); [S] is None before the first. *)
Fixpoint seq_null (S : option nd) (As : seq nd) (dim : int) : res nd :=
  match As with
  | [::] => Err ValueError
  | a :: As' =>
    do S' <- match S with
             | None => nullspace a
             | Some s => do t <- matmul a (transpose2 s); do N <- nullspace t; matmul N s
             end;
    if (len S' : int) <= dim then Ok S' else seq_null (Some S') As' dim
  end.
Definition sequential_nullspace (As : seq nd) (dim : int) : res nd := seq_null None As dim.

(** np.concatenate(l, axis=0) *)
Definition concat0 (l : seq nd) : res nd :=
  match l with [::] => Err ValueError | a :: l' => foldR (@concat2 C) a l' end.
(** X[np.newaxis] for a matrix. *)
Definition promote (x : nd) : nd :=
  if size (shape x) == 2%N then Nd (1%N :: shape x) (fun idx => get x (behead idx)) else x.

(** util.py:347-388: infer_change_of_basis. *)
Definition icb (X1 X2 : nd) : res nd :=
  let X1 := promote X1 in let X2 := promote X2 in
  match shape X1, shape X2 with
  | [:: n; d1; _], [:: _; d2; _] =>
    do _ <- passert (shape X1 == [:: n; d1; d1]);
    do _ <- passert (shape X2 == [:: n; d2; d2]);
    do As <- mapR (fun p : nd * nd =>
        do u <- np_kron p.1 (eye d2);
        do v <- np_kron (eye d1) (transpose2 p.2);
        sub u v) (zip (rows X1) (rows X2));
    do A <- concat0 As;
    do S <- nullspace A;
    reshape_m1 S [:: d1; d2]
  | _, _ => Err ValueError
  end.

(** util.py:587-589 and is_irreducible.py:7-9. *)
Definition is_irreducible_u (X : nd) : res bool := do Q <- icb X X; Ok (len Q == 1%N).
Definition is_irreducible (r : rep C) : res bool := do Y <- concat2 (rX r) (rH r); is_irreducible_u Y.

(** infer_change_of_basis.py:9-46.  np.testing.assert_allclose(x, y, rtol, atol) is
    the assertion that np.allclose holds. *)
Definition rep_icb (r1 r2 : rep C) : res nd :=
  do _ <- assert_r (close_ (rA r1) (rA r2));
  do Y1 <- concat2 (rX r1) (rH r1);
  do Y2 <- concat2 (rX r2) (rH r2);
  do A <- icb Y2 Y1;
  do x <- einsum2 "aij" "bjk" "abik" Y2 A;
  do y <- einsum2 "bij" "ajk" "abik" A Y1;
  do _ <- assert_r (allclose (atol8 C) (atol8 C) x y);
  do d <- dim r2;
  Ok (rnd (scale (sqrtC d%:R) A)).

(** np.moveaxis(a, 1, 3) on a 4-dimensional array. *)
Definition moveaxis13 (a : nd) : res nd :=
  match shape a with
  | [:: z; k; i; j] => Ok (Nd [:: z; i; j; k] (fun idx =>
      get a [:: nth 0%N idx 0; nth 0%N idx 3; nth 0%N idx 1; nth 0%N idx 2]))
  | _ => Err ValueError
  end.
(** clebsch_gordan.py:10-27: the generic overload. *)
Definition cg_gen (r1 r2 r3 : rep C) : res nd :=
  do tp <- tensor_product r1 r2;
  do cg <- rep_icb tp r3;
  do d3 <- dim r3; do d1 <- dim r1; do d2 <- dim r2;
  do cg <- reshape_m1 cg [:: d3; d1; d2];
  moveaxis13 cg.

(** real.py:7-9: is_real. *)
Definition is_real (r : rep C) : res bool := do S <- rep_icb r (conjugate r); Ok (0 < len S)%N.

(** np.transpose(x, (0, 2, 1)) *)
Definition transpose021 (x : nd) : res nd :=
  match shape x with
  | [:: n; i; j] => Ok (Nd [:: n; j; i] (fun idx => get x [:: nth 0%N idx 0; nth 0%N idx 2; nth 0%N idx 1]))
  | _ => Err ValueError
  end.
(** properties.py:6-13: is_unitary, with atol=1e-13 and the default rtol=1e-5. *)
Definition atol13 : C := (10%:R ^+ 13)^-1.
Definition is_unitary (r : rep C) : res bool :=
  do Ht <- transpose021 (rH r);
  do HH <- matmul (rH r) (conj Ht);
  do d <- dim r;
  do h <- allclose (rtol5 C) atol13 HH (eye d);
  do Xt <- transpose021 (rX r);
  do XX <- add (rX r) (conj Xt);
  do x <- allclose (rtol5 C) atol13 XX (zeros [::]);
  Ok (h && x).

(** np.reshape(b, (b.shape[0], -1)) *)
Definition flat2 (b : nd) : res nd :=
  if len b == 0%N then Err ValueError else reshape b [:: len b; (nprod (shape b) %/ len b)%N].
(** x[lo:hi] along the first axis. *)
Definition rows_slice (lo hi : nat) (a : nd) : nd :=
  Nd ((hi - lo)%N :: behead (shape a)) (fun idx => get a ((lo + head 0%N idx)%N :: behead idx)).
(** util.py:391-440: basis_intersection. *)
Definition basis_intersection (b1 b2 : nd) : res (nd * nd) :=
  do _ <- passert (behead (shape b1) == behead (shape b2));
  if (size (shape b1) == 0%N) || (size (shape b2) == 0%N) then Err IndexError else
  do b1 <- flat2 b1; do b2 <- flat2 b2;
  do p11 <- matmul b1 (transpose2 b1); do p12 <- matmul (scale (-1) b1) (transpose2 b2);
  do p21 <- matmul (scale (-1) b2) (transpose2 b1); do p22 <- matmul b2 (transpose2 b2);
  do r1 <- concat_last [:: p11; p12]; do r2 <- concat_last [:: p21; p22];
  do p <- concat2 r1 r2;
  do e <- eigh (rnd p);
  let v := transpose2 (select0 (fun i => get e.1 [:: i] < eps) (transpose2 e.2)) in
  let x1 := rows_slice 0 (len b1) v in
  do g1 <- matmul x1 (transpose2 x1); do y1 <- gram_schmidt g1;
  let x2 := rows_slice (len b1) (len v) v in
  do g2 <- matmul x2 (transpose2 x2); do y2 <- gram_schmidt g2;
  Ok (y1, y2).
End LinAlg.
