(** Su2Cg: model of the Clebsch-Gordan coefficients of SU2
    (lie_nn/_src/irreps/su2.py 27-33 and 132-230).

    Half-integers are represented by their doubles: the spin j is the natural number
    n = 2j (SU2.j itself) and m is the integer x = 2m.  The floats x / 2, j1 + m1 ...
    are exact; so is the arithmetic of Fraction. *)
From Coq Require Import ZArith.
From mathcomp Require Import all_ssreflect all_algebra.
From Verif Require Import Base Nd Labels.

Set Implicit Arguments.
Unset Strict Implicit.
Unset Printing Implicit Defensive.

Import Order.TotalTheory GRing.Theory Num.Theory.
Local Open Scope ring_scope.

Section Su2Cg.
Variable C : numClosedFieldType.

(** int(h / 2): truncation towards zero. *)
Definition trunc2 (h : int) : int := if 0 <= h then ((absz h)./2)%:Z else - ((absz h)./2)%:Z.
(** f(h / 2) (su2.py:203-205): the assertion fails for half-integers, factorial raises
    ValueError on negative integers. *)
Definition hfact (h : int) : res nat :=
  do _ <- passert (~~ odd (absz h));
  if h < 0 then Err ValueError else Ok (((absz h)./2)`!)%N.
(** (-1) ** (h / 2) for an integer h / 2.  For a half-integer Python computes a complex
    float; that case is never reached and is an error here. *)
Definition sign2 (h : int) : res C :=
  if odd (absz h) then Err TypeError else Ok ((-1) ^+ (absz h)./2).

Definition max3 (a b c : int) : int := Num.max (Num.max a b) c.
Definition min3 (a b c : int) : int := Num.min (Num.min a b) c.

(** clebsch_gordanSU2coeffs (su2.py:192-230), arguments doubled. *)
Definition su2_coeff (n1 x1 n2 x2 n3 x3 : int) : res C :=
  if x3 != x1 + x2 then Ok 0 else
  let vmin := trunc2 (max3 (- n1 + n2 + x3) (- n1 + x1) 0) in
  let vmax := trunc2 (min3 (n2 + n3 + x1) (n3 - n1 + n2) (n3 + x3)) in
  do f1 <- hfact (n3 + n1 - n2); do f2 <- hfact (n3 - n1 + n2); do f3 <- hfact (n1 + n2 - n3);
  do f4 <- hfact (n3 + x3); do f5 <- hfact (n3 - x3);
  do g1 <- hfact (n1 + n2 + n3 + 2); do g2 <- hfact (n1 - x1); do g3 <- hfact (n1 + x1);
  do g4 <- hfact (n2 - x2); do g5 <- hfact (n2 + x2);
  let K : C := (n3 + 1)%:~R * ((f1 * f2 * f3 * f4 * f5)%N%:R / (g1 * g2 * g3 * g4 * g5)%N%:R) in
  do S <- foldR (fun S v =>
      do s <- sign2 (2 * v + n2 + x2);
      do h1 <- hfact (n2 + n3 + x1 - 2 * v); do h2 <- hfact (n1 - x1 + 2 * v);
      do h3 <- hfact (2 * v); do h4 <- hfact (n3 - n1 + n2 - 2 * v); do h5 <- hfact (n3 + x3 - 2 * v);
      do h6 <- hfact (2 * v + n1 - n2 - x3);
      Ok (S + s * ((h1 * h2)%N%:R / (h3 * h4 * h5 * h6)%N%:R)))
    (0 : C) (pyrange vmin (vmax + 1) 1);
  Ok (if 0 < S then sqrtC (K * S ^+ 2) else - sqrtC (K * S ^+ 2)).

(** mat[i, j, k] = c; an index outside the array is an error here (Python wraps
    negative ones; never reached). *)
Definition set3 (X : nd C) (i j k : int) (c : C) : res (nd C) :=
  if (0 <= i) && (0 <= j) && (0 <= k) && valid (shape X) [:: absz i; absz j; absz k] then
    Ok (Nd (shape X) (fun idx => if idx == [:: absz i; absz j; absz k] then c else get X idx))
  else Err IndexError.

(** clebsch_gordanSU2mat (su2.py:132-160). *)
Definition su2_cgmat (n1 n2 n3 : nat) : res (nd C) :=
  let mat := @zeros C [:: n1.+1; n2.+1; n3.+1] in
  if n3%:Z \in pyrange `|n1%:Z - n2%:Z| (n1%:Z + n2%:Z + 1) 2 then
    foldR (fun mat xy =>
        if `|xy.1 + xy.2| <= n3%:Z then
          do c <- su2_coeff n1%:Z xy.1 n2%:Z xy.2 n3%:Z (xy.1 + xy.2);
          set3 mat (trunc2 (n1%:Z + xy.1)) (trunc2 (n2%:Z + xy.2)) (trunc2 (n3%:Z + xy.1 + xy.2)) c
        else Ok mat)
      mat [seq (x, y) | x <- pyrange (- n1%:Z) (n1%:Z + 1) 2, y <- pyrange (- n2%:Z) (n2%:Z + 1) 2]
  else Ok mat.

(** SU2.clebsch_gordan (su2.py:27-33). *)
Definition su2_cg (n1 n2 n3 : nat) : res (nd C) :=
  do l <- su2_mul n1%:Z n2%:Z;
  if n3%:Z \in l then
    do m <- su2_cgmat n1 n2 n3;
    Ok (Nd (1%N :: shape m) (fun idx => get m (behead idx)))
  else Ok (zeros [:: 0%N; n1.+1; n2.+1; n3.+1]).
End Su2Cg.
