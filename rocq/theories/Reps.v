(** Reps: model of rep.py, direct_sum.py, tensor_product.py (generic part),
    group_product.py (generic part), change_basis.py, change_algebra.py,
    conjugate.py, and the matrix helpers of util.py. *)
From Coq Require Import ZArith String Ascii.
From mathcomp Require Import all_ssreflect all_algebra.
From Verif Require Import Base Nd.

Set Implicit Arguments.
Unset Strict Implicit.
Unset Printing Implicit Defensive.

Import GRing.Theory Num.Theory.
Local Open Scope ring_scope.
Local Open Scope string_scope.

Section Reps.
Variable C : numClosedFieldType.
Implicit Types a b : nd C.

(** np.allclose with its default tolerances rtol=1e-5, atol=1e-8. *)
Definition rtol5 : C := (10%:R ^+ 5)^-1.
Definition atol8 : C := (10%:R ^+ 8)^-1.
Definition close_ a b : res bool := allclose rtol5 atol8 a b.
Definition assert_r (b : res bool) : res unit := do b <- b; passert b.

(** util.py:183-209: util.direct_sum of two arrays (..., m, n) and (..., p, q). *)
Definition direct_sum2 a b : res (nd C) :=
  let ra := size (shape a) in let rb := size (shape b) in
  if (ra < 2)%N || (rb < 2)%N then Err ValueError else
  let ba := take (ra - 2) (shape a) in let bb := take (rb - 2) (shape b) in
  let m := nth 0%N (shape a) (ra - 2) in let n := nth 0%N (shape a) (ra - 1) in
  let p := nth 0%N (shape b) (rb - 2) in let q := nth 0%N (shape b) (rb - 1) in
  do s <- bshape ba bb;
  Ok (Nd (s ++ [:: (m + p)%N; (n + q)%N]) (fun idx =>
    let r := size s in let bi := take r idx in
    let i := nth 0%N idx r in let j := nth 0%N idx r.+1 in
    if (i < m)%N && (j < n)%N then get a (bidx ba bi ++ [:: i; j])
    else if (m <= i)%N && (n <= j)%N then get b (bidx bb bi ++ [:: (i - m)%N; (j - n)%N])
    else 0)).
Fixpoint direct_sum_l (l : seq (nd C)) : res (nd C) :=
  match l with
  | [::] => Err TypeError
  | [:: a] => Ok a
  | a :: l' => do b <- direct_sum_l l'; direct_sum2 a b
  end.

(** util.py:177-180: util.kron, through np.kron on matrices. *)
Definition np_kron a b : res (nd C) :=
  match shape a, shape b with
  | [:: m; n], [:: p; q] =>
    Ok (Nd [:: (m * p)%N; (n * q)%N] (fun idx =>
      let i := nth 0%N idx 0 in let j := nth 0%N idx 1 in
      get a [:: (i %/ p)%N; (j %/ q)%N] * get b [:: (i %% p)%N; (j %% q)%N]))
  | _, _ => Err ValueError
  end.
Fixpoint kron_l (l : seq (nd C)) : res (nd C) :=
  match l with
  | [::] => Err TypeError
  | [:: a] => Ok a
  | a :: l' => do b <- kron_l l'; np_kron a b
  end.

(** util.py:173-174: commutator. *)
Definition commutator a b : res (nd C) :=
  do ab <- matmul a b; do ba <- matmul b a; sub ab ba.

(** np.linalg.inv of a matrix, exact. *)
Definition nd_of_mx (r c : nat) (M : 'M[C]_(r, c)) : nd C :=
  Nd [:: r; c] (fun idx =>
    oapp (fun i => oapp (fun j => M i j) 0 (insub (nth 0%N idx 1))) 0 (insub (nth 0%N idx 0))).
Definition np_inv a : res (nd C) :=
  match shape a with
  | [:: n; m] => if (n == m) && (mx2 n n a \in unitmx) then Ok (nd_of_mx (invmx (mx2 n n a)))
                 else Err LinAlgError
  | _ => Err LinAlgError
  end.
(** np.linalg.pinv of a matrix: the Moore-Penrose inverse, from a full-rank
    factorisation M = L R as R* (R R* )^-1 (L* L)^-1 L*. *)
Definition adj (r c : nat) (M : 'M[C]_(r, c)) : 'M[C]_(c, r) := map_mx conjC M^T.
Definition pinv_mx (r c : nat) (M : 'M[C]_(r, c)) : 'M[C]_(c, r) :=
  let L := col_base M in let R := row_base M in
  adj R *m invmx (R *m adj R) *m (invmx (adj L *m L) *m adj L).
Definition np_pinv a : res (nd C) :=
  match shape a with
  | [:: n; m] => Ok (nd_of_mx (pinv_mx (mx2 n m a)))
  | _ => Err LinAlgError
  end.

(** rep.py:86-121: a representation as the triple of its arrays. *)
Record rep := MkRep { rA : nd C; rX : nd C; rH : nd C }.

(** rep.py:13-20. *)
Definition lie_dim (r : rep) : res nat :=
  match shape (rA r) with
  | [::] => Err IndexError
  | d :: _ => do _ <- passert (shape (rA r) == [:: d; d; d]); Ok d
  end.
(** rep.py:23-29. *)
Definition dim (r : rep) : res nat :=
  if (size (shape (rX r)) < 2)%N then Err IndexError else Ok (nth 0%N (shape (rX r)) 1).
(** H.shape[0]. *)
Definition len0 a : res nat := if shape a is d :: _ then Ok d else Err IndexError.

(** rep.py:123-128. *)
Definition create_trivial (r : rep) : res rep :=
  do l <- lie_dim r; do h <- len0 (rH r);
  Ok (MkRep (rA r) (zeros [:: l; 1; 1]%N) (ones [:: h; 1; 1]%N)).

(** rep.py:72-77. *)
Definition is_trivial (r : rep) : res bool :=
  do d <- dim r;
  Ok ((d == 1%N) && all (fun idx => get (rX r) idx == 0) (all_idx (shape (rX r)))
      && all (fun idx => get (rH r) idx == 1) (all_idx (shape (rH r)))).

(** direct_sum.py:8-16. *)
Definition direct_sum (r1 r2 : rep) : res rep :=
  do _ <- assert_r (close_ (rA r1) (rA r2));
  do h1 <- len0 (rH r1); do h2 <- len0 (rH r2);
  do _ <- passert (h1 == h2);
  do X <- direct_sum2 (rX r1) (rX r2);
  do H <- direct_sum2 (rH r1) (rH r2);
  Ok (MkRep (rA r1) X H).

(** tensor_product.py:11-25. *)
Definition tensor_product (r1 r2 : rep) : res rep :=
  do _ <- assert_r (close_ (rA r1) (rA r2));
  do d1 <- dim r1; do d2 <- dim r2;
  let I1 := eye d1 in let I2 := eye d2 in
  do h1 <- len0 (rH r1); do h2 <- len0 (rH r2);
  do _ <- passert (h1 == h2);
  let d := (d1 * d2)%N in
  do l1 <- len0 (rX r1);
  do a <- einsum2 "aij" "kl" "aikjl" (rX r1) I2;
  do b <- einsum2 "ij" "akl" "aikjl" I1 (rX r2);
  do x <- add a b;
  do X <- reshape x [:: l1; d; d];
  do h <- einsum2 "aij" "akl" "aikjl" (rH r1) (rH r2);
  do H <- reshape h [:: h1; d; d];
  Ok (MkRep (rA r1) X H).

(** tensor_product.py:128-139: square and multiply on the bits of n. *)
Fixpoint tensor_power_loop (fuel : nat) (r : rep) (n : Z) (result : rep) : res rep :=
  match fuel with
  | O => Err OutOfFuel
  | S f =>
    do result <- (if Z.eqb (Z.land n 1) 1 then tensor_product r result else Ok result);
    let n := Z.shiftr n 1 in
    if Z.eqb n 0 then Ok result
    else do r <- tensor_product r r; tensor_power_loop f r n result
  end.
Definition tensor_power (fuel : nat) (r : rep) (n : Z) : res rep :=
  do t <- create_trivial r; tensor_power_loop fuel r n t.

(** group_product.py:22-49. *)
Definition group_product (r1 r2 : rep) : res rep :=
  do l1 <- lie_dim r1; do l2 <- lie_dim r2;
  let l := (l1 + l2)%N in
  let A := assign_block (assign_block (zeros [:: l; l; l]) [:: 0; 0; 0]%N (rA r1)) [:: l1; l1; l1] (rA r2) in
  do d1 <- dim r1; do d2 <- dim r2;
  let d := (d1 * d2)%N in
  let I1 := eye d1 in let I2 := eye d2 in
  do a <- einsum2 "aij" "kl" "aikjl" (rX r1) I2;
  do x1 <- reshape a [:: l1; d; d];
  do b <- einsum2 "ij" "akl" "aikjl" I1 (rX r2);
  do x2 <- reshape b [:: l2; d; d];
  let X := assign_block (assign_block (zeros [:: l; d; d]) [:: 0; 0; 0]%N x1) [:: l1; 0; 0]%N x2 in
  do h1 <- len0 (rH r1); do h2 <- len0 (rH r2);
  do a <- einsum2 "aij" "kl" "aikjl" (rH r1) I2;
  do y1 <- reshape a [:: h1; d; d];
  do b <- einsum2 "ij" "akl" "aikjl" I1 (rH r2);
  do y2 <- reshape b [:: h2; d; d];
  let H := assign_block (assign_block (zeros [:: (h1 + h2)%N; d; d]) [:: 0; 0; 0]%N y1) [:: h1; 0; 0]%N y2 in
  Ok (MkRep A X H).
(** group_product.py:52-54. *)
Definition group_product3 (r1 r2 r3 : rep) : res rep :=
  do r <- group_product r1 r2; group_product r r3.

(** group_product.py:91-127: the generators of TabulatedIrrepProduct(rep1, rep2);
    lie_dim is the one of its algebra, dim = rep1.dim * rep2.dim. *)
Definition tip_algebra (r1 r2 : rep) : res (nd C) :=
  do l1 <- lie_dim r1; do l2 <- lie_dim r2;
  let l := (l1 + l2)%N in
  Ok (assign_block (assign_block (zeros [:: l; l; l]) [:: 0; 0; 0]%N (rA r1)) [:: l1; l1; l1] (rA r2)).
Definition tip_dim (r1 r2 : rep) : res nat := do d1 <- dim r1; do d2 <- dim r2; Ok (d1 * d2)%N.
Definition tip_X (r1 r2 : rep) : res (nd C) :=
  do d1 <- dim r1; do d2 <- dim r2; do d <- tip_dim r1 r2;
  do A <- tip_algebra r1 r2; do l <- len0 A;
  do l1 <- lie_dim r1; do l2 <- lie_dim r2;
  do a <- einsum2 "aij" "kl" "aikjl" (rX r1) (eye d2);
  do x1 <- reshape a [:: l1; d; d];
  do b <- einsum2 "ij" "akl" "aikjl" (eye d1) (rX r2);
  do x2 <- reshape b [:: l2; d; d];
  Ok (assign_block (assign_block (zeros [:: l; d; d]) [:: 0; 0; 0]%N x1) [:: l1; 0; 0]%N x2).
Definition tip_H (r1 r2 : rep) : res (nd C) :=
  do d1 <- dim r1; do d2 <- dim r2; do d <- tip_dim r1 r2;
  do h1 <- len0 (rH r1); do h2 <- len0 (rH r2);
  do a <- einsum2 "aij" "kl" "aikjl" (rH r1) (eye d2);
  do y1 <- reshape a [:: h1; d; d];
  do b <- einsum2 "ij" "akl" "aikjl" (eye d1) (rH r2);
  do y2 <- reshape b [:: h2; d; d];
  Ok (assign_block (assign_block (zeros [:: (h1 + h2)%N; d; d]) [:: 0; 0; 0]%N y1) [:: h1; 0; 0]%N y2).
Definition tip_rep (r1 r2 : rep) : res rep :=
  do A <- tip_algebra r1 r2; do X <- tip_X r1 r2; do H <- tip_H r1 r2; Ok (MkRep A X H).

(** change_basis.py:9-27. *)
Definition change_basis (r : rep) (Q : nd C) : res rep :=
  do iQ <- np_pinv Q;
  do a <- matmul Q (rX r); do X <- matmul a iQ;
  do b <- matmul Q (rH r); do H <- matmul b iQ;
  Ok (MkRep (rA r) X H).

(** change_algebra.py:6-23. *)
Definition change_algebra (r : rep) (Q : nd C) : res rep :=
  do iQ <- np_pinv Q;
  do A <- einsum4 "ia" "jb" "abc" "ck" "ijk" Q Q (rA r) iQ;
  do X <- einsum2 "ia" "auv" "iuv" Q (rX r);
  Ok (MkRep A X (rH r)).

(** conjugate.py:9-15. *)
Definition conjugate (r : rep) : rep := MkRep (rA r) (conj (rX r)) (conj (rH r)).
End Reps.
