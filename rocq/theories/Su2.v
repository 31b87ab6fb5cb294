(** Su2: model of the generators of SU2 (lie_nn/_src/irreps/su2.py 50-91), of the
    real forms SO3, O3 and SU2Real and of Z2.

    Floats are exact elements of C: rep.j / 2.0 is j/2, 0.5 is 1/2, np.sqrt is
    [sqrtC]. *)
From Coq Require Import ZArith.
From mathcomp Require Import all_ssreflect all_algebra.
From Verif Require Import Base Nd Reps Reduced.

Set Implicit Arguments.
Unset Strict Implicit.
Unset Printing Implicit Defensive.

Import GRing.Theory Num.Theory.
Local Open Scope ring_scope.

Section Su2.
Variable C : numClosedFieldType.

(** np.arange(a, a + n) for an integer number n of unit steps. *)
Definition arange (a : C) (n : nat) : seq C := [seq a + i%:R | i <- iota 0 n].
(** np.diag(v, k=1), np.diag(v, k=-1), np.diag(v). *)
Definition diag_up (v : seq C) : nd C :=
  Nd [:: (size v).+1; (size v).+1] (fun idx => let i := nth 0%N idx 0 in
    if nth 0%N idx 1 == i.+1 then nth 0 v i else 0).
Definition diag_low (v : seq C) : nd C :=
  Nd [:: (size v).+1; (size v).+1] (fun idx => let i := nth 0%N idx 1 in
    if nth 0%N idx 0 == i.+1 then nth 0 v i else 0).
Definition diag (v : seq C) : nd C :=
  Nd [:: size v; size v] (fun idx => let i := nth 0%N idx 0 in
    if nth 0%N idx 1 == i then nth 0 v i else 0).

(** SU2.continuous_generators (su2.py:53-70).  j >= 0 by __post_init__.  The ranges
    np.arange(-hj, hj), np.arange(-hj + 1, hj + 1), np.arange(-hj, hj + 1) have j, j
    and j + 1 elements. *)
Definition su2_raising (j : nat) : nd C :=
  let hj := j%:R / 2%:R in
  diag_low [seq - sqrtC (hj * (hj + 1) - m * (m + 1)) | m <- arange (- hj) j].
Definition su2_lowering (j : nat) : nd C :=
  let hj := j%:R / 2%:R in
  diag_up [seq sqrtC (hj * (hj + 1) - m * (m - 1)) | m <- arange (- hj + 1) j].
Definition su2_X (j : nat) : res (nd C) :=
  let hj := j%:R / 2%:R in
  do s <- add (su2_raising j) (su2_lowering j);
  do d <- sub (su2_raising j) (su2_lowering j);
  stack [:: scale (1 / 2%:R) s; diag [seq 'i * m | m <- arange (- hj) j.+1]; scale (- (1 / 2%:R * 'i)) d].
(** SU2.discrete_generators (su2.py:50-51). *)
Definition su2_H (j : nat) : nd C := @zeros C [:: 0%N; j.+1; j.+1].
(** SU2.algebra (su2.py:72-91): the literal array. *)
Definition su2_table : seq (seq (seq int)) :=
  [:: [:: [:: 0; 0; 0]; [:: 0; 0; 1]; [:: 0; -1; 0]];
      [:: [:: 0; 0; -1]; [:: 0; 0; 0]; [:: 1; 0; 0]];
      [:: [:: 0; 1; 0]; [:: -1; 0; 0]; [:: 0; 0; 0]]].
Definition table3 (t : seq (seq (seq int))) (i j k : nat) : int := nth 0 (nth [::] (nth [::] t i) j) k.
Definition su2_A : nd C :=
  Nd [:: 3; 3; 3]%N (fun idx => (table3 su2_table (nth 0%N idx 0) (nth 0%N idx 1) (nth 0%N idx 2))%:~R).
Definition su2_rep (j : nat) : res (rep C) := do X <- su2_X j; Ok (MkRep su2_A X (su2_H j)).

(** change_basis_real_to_complex (so3_real.py:11-21; the same code for integer j in
    su2_real.py:13-25).  The assignments of the loops are to distinct entries, so the
    result is the function below; (-1j) ** l multiplies it.  For l < 0 the matrix
    would have a negative size (ValueError): l is a natural number here. *)
Definition real_q (l : nat) : nd C :=
  Nd [:: (2 * l).+1; (2 * l).+1]%N (fun idx =>
    let r := nth 0%N idx 0 in let c := nth 0%N idx 1 in
    if (r < l)%N then                          (* m = r - l < 0 *)
      let a := (l - r)%N in
      if c == (l + a)%N then 1 / sqrtC 2%:R
      else if c == (l - a)%N then - 'i / sqrtC 2%:R else 0
    else if r == l then (c == l)%:R
    else                                       (* m = r - l > 0 *)
      let a := (r - l)%N in
      if c == (l + a)%N then (-1) ^+ a / sqrtC 2%:R
      else if c == (l - a)%N then 'i * (-1) ^+ a / sqrtC 2%:R else 0).
Definition real_to_complex (l : nat) : nd C := scale ((- 'i) ^+ l) (real_q l).

(** The check np.all(np.abs(np.imag(X)) < 1e-5) of so3_real.py:67 and su2_real.py:88. *)
Definition imag_small (X : nd C) : bool :=
  all (fun idx => `|'Im (get X idx)| < (10%:R ^+ 5)^-1) (all_idx (shape X)).
(** SO3.continuous_generators (so3_real.py:63-68). *)
Definition so3_X (l : nat) : res (nd C) :=
  do X <- su2_X (2 * l);
  let Q := real_to_complex l in
  do Y <- matmul (conj (transpose2 Q)) X;
  do Y <- matmul Y Q;
  do _ <- passert (imag_small Y);
  Ok (nd_real Y).
Definition so3_rep (l : nat) : res (rep C) :=
  do X <- so3_X l; Ok (MkRep su2_A X (zeros [:: 0%N; (2 * l).+1; (2 * l).+1])).
(** O3 (o3_real.py:54-61): SO3's generators and the inversion p * np.eye(dim)[None]. *)
Definition o3_rep (l : nat) (p : int) : res (rep C) :=
  do X <- so3_X l;
  Ok (MkRep su2_A X (Nd [:: 1; (2 * l).+1; (2 * l).+1]%N (fun idx => p%:~R * (nth 0%N idx 1 == nth 0%N idx 2)%:R))).
(** SU2Real (su2_real.py:80-106), t = 2j.  Integer spins as SO3; for half-integers
    the complex array [d, i, j] becomes the real array [d, i, 2, j, 2]. *)
Definition su2r_X (t : nat) : res (nd C) :=
  if odd t then
    do X <- su2_X t;
    reshape_m1 (Nd [:: 3; t.+1; 2; t.+1; 2]%N (fun idx =>
      let z := get X [:: nth 0%N idx 0; nth 0%N idx 1; nth 0%N idx 3] in
      match nth 0%N idx 2, nth 0%N idx 4 with
      | 0%N, 0%N => 'Re z | 0%N, _ => - 'Im z | _, 0%N => 'Im z | _, _ => 'Re z
      end)) [:: (2 * t.+1)%N; (2 * t.+1)%N]
  else so3_X t./2.
Definition su2r_rep (t : nat) : res (rep C) :=
  let d := if odd t then (2 * t.+1)%N else t.+1 in
  do X <- su2r_X t; Ok (MkRep su2_A X (zeros [:: 0%N; d; d])).
(** Z2 (z2.py:45-52): no continuous generator, the discrete one is p. *)
Definition z2_rep (p : int) : rep C :=
  MkRep (zeros [:: 0%N; 0%N; 0%N]) (zeros [:: 0%N; 1%N; 1%N])
        (Nd [:: 1; 1; 1]%N (fun idx => p%:~R * (nth 0%N idx 1 == nth 0%N idx 2)%:R)).
End Su2.
