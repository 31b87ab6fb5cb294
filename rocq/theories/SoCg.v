(** SoCg: model of SO3.clebsch_gordan, O3.clebsch_gordan and Z2.clebsch_gordan
    (lie_nn/_src/irreps/so3_real.py 37-50, o3_real.py 30-35, z2.py 26-31). *)
From Coq Require Import ZArith String Ascii.
From mathcomp Require Import all_ssreflect all_algebra.
From Verif Require Import Base Nd Reps Reduced Labels Su2 Su2Cg.

Set Implicit Arguments.
Unset Strict Implicit.
Unset Printing Implicit Defensive.

Import GRing.Theory Num.Theory.
Local Open Scope ring_scope.
Local Open Scope string_scope.

Section SoCg.
Variable C : numClosedFieldType.

(** so3_real.py:37-50.  Labels are natural numbers, as in [so3_X]. *)
Definition so3_cg (l1 l2 l3 : nat) : res (nd C) :=
  do c <- su2_cg C (2 * l1) (2 * l2) (2 * l3);
  do c <- einsum4 "ij" "kl" "mn" "zikn" "zjlm" (real_to_complex C l1) (real_to_complex C l2)
            (conj (transpose2 (real_to_complex C l3))) c;
  do _ <- passert (imag_small c);
  Ok (nd_real c).
(** o3_real.py:30-35; a label is (l, p). *)
Definition o3_cg (a b c : nat * int) : res (nd C) :=
  if a.2 * b.2 == c.2 then so3_cg a.1 b.1 c.1
  else Ok (zeros [:: 0; (2 * a.1).+1; (2 * b.1).+1; (2 * c.1).+1]%N).
(** z2.py:26-31. *)
Definition z2_cg (p1 p2 p3 : int) : nd C :=
  if p1 * p2 == p3 then ones [:: 1; 1; 1; 1]%N else zeros [:: 0; 1; 1; 1]%N.
End SoCg.
