(** Labels: model of the labels of the tabulated irreps: dimensions, selection
    rules, orders and iterators of irreps/*.py and of TabulatedIrrepProduct.

    Python integers are [int].  SU2Real's half-integers j (floats) are represented
    by the integer 2j; the float operations on half-integers below 2**51 are exact.
    A generator is represented by the list of its values, an infinite one by the
    list of the values of its first n outer rounds. *)
From Coq Require Import ZArith.
From mathcomp Require Import all_ssreflect all_algebra.
From Verif Require Import Base.

Set Implicit Arguments.
Unset Strict Implicit.
Unset Printing Implicit Defensive.

Import GRing.Theory Num.Theory.
Local Open Scope ring_scope.

(** range(a, b, s), s > 0. *)
Definition pyrange (a b : int) (s : nat) : seq int :=
  [seq a + (s * i)%N%:Z | i <- iota 0 (if a < b then ((absz (b - a) + s.-1) %/ s)%N else 0%N)].

(** Python's comparison of tuples of equal length 2, with the operators of the
    elements. *)
Definition lt2 (S T : Type) (eqS : rel S) (ltS : rel S) (eqT : rel T) (ltT : rel T) (x y : S * T) : bool :=
  if eqS x.1 y.1 then (if eqT x.2 y.2 then false else ltT x.2 y.2) else ltS x.1 y.1.
(** Tuples of integers of any length: a proper prefix is smaller. *)
Fixpoint lts (x y : seq int) : bool :=
  match x, y with
  | _, [::] => false
  | [::], _ :: _ => true
  | a :: x', b :: y' => if a == b then lts x' y' else a < b
  end.
Definition ltz2 : rel (int * int) := lt2 (fun a b : int => a == b) (fun a b : int => a < b) (fun a b : int => a == b) (fun a b : int => a < b).

(** ** SU2 (su2.py:12-49) *)
Definition su2_new (j : int) : res int := do _ <- passert (0 <= j); Ok j.
Definition su2_mul (j1 j2 : int) : res (seq int) := mapR su2_new (pyrange `|j1 - j2| (j1 + j2 + 1) 2).
Definition su2_dim (j : int) : int := j + 1.
Definition su2_lt (j1 j2 : int) : bool := j1 < j2.
Definition su2_iter (n : nat) : res (seq int) := mapR su2_new [seq i%:Z | i <- iota 0 n].
Definition su2_is_scalar (j : int) : bool := j == 0.

(** ** SO3 (so3_real.py:24-65): no check on l *)
Definition so3_mul (l1 l2 : int) : seq int := pyrange `|l1 - l2| (l1 + l2 + 1) 1.
Definition so3_dim (l : int) : int := 2 * l + 1.
Definition so3_lt (l1 l2 : int) : bool := l1 < l2.
Definition so3_iter (n : nat) : seq int := [seq i%:Z | i <- iota 0 n].

(** ** O3 (o3_real.py:11-52), pairs (l, p).  (-1) ** l is for l >= 0. *)
Definition o3_mul (a b : int * int) : seq (int * int) :=
  [seq (l, a.2 * b.2) | l <- pyrange `|a.1 - b.1| (a.1 + b.1 + 1) 1].
Definition o3_dim (a : int * int) : int := 2 * a.1 + 1.
Definition o3_key (a : int * int) : int * int := (a.1, - ((-1) ^+ absz a.1) * a.2).
Definition o3_lt (a b : int * int) : bool := ltz2 (o3_key a) (o3_key b).
Definition o3_iter (n : nat) : seq (int * int) :=
  flatten [seq [:: (l%:Z, 1 * (-1) ^+ l); (l%:Z, - 1 * (-1) ^+ l)] | l <- iota 0 n].

(** ** Z2 (z2.py:10-43) *)
Definition z2_mul (p1 p2 : int) : seq int := [:: p1 * p2].
Definition z2_dim (p : int) : int := 1.
Definition z2_lt (p1 p2 : int) : bool := p2 < p1.
Definition z2_iter : seq int := [:: 1; -1].

(** ** SL2C (sl2c.py:14-58) *)
Definition sl2c_new (x : int * int) : res (int * int) :=
  do _ <- passert (0 <= x.1); do _ <- passert (0 <= x.2); Ok x.
Definition sl2c_mul (a b : int * int) : res (seq (int * int)) :=
  mapR sl2c_new [seq (l, k) | l <- pyrange `|a.1 - b.1| (a.1 + b.1 + 1) 2, k <- pyrange `|a.2 - b.2| (a.2 + b.2 + 1) 2].
Definition sl2c_dim (a : int * int) : int := (a.1 + 1) * (a.2 + 1).
Definition sl2c_key (a : int * int) : int * int := (a.1 + a.2, a.1).
Definition sl2c_lt (a b : int * int) : bool := ltz2 (sl2c_key a) (sl2c_key b).
Definition sl2c_iter (n : nat) : res (seq (int * int)) :=
  mapR sl2c_new (flatten [seq [seq (l, s%:Z - l) | l <- pyrange 0 (s%:Z + 1) 1] | s <- iota 0 n]).

(** ** SO13 (so13.py:15-59) *)
Definition so13_new (x : int * int) : res (int * int) :=
  do _ <- passert (0 <= x.1); do _ <- passert (0 <= x.2); do _ <- passert (((x.1 + x.2) %% 2)%Z == 0); Ok x.
Definition so13_mul (a b : int * int) : res (seq (int * int)) :=
  do a' <- sl2c_new a; do b' <- sl2c_new b; do l <- sl2c_mul a' b'; mapR so13_new l.
Definition so13_dim (a : int * int) : int := sl2c_dim a.
Definition so13_lt (a b : int * int) : bool := ltz2 (sl2c_key a) (sl2c_key b).
Definition so13_iter (n : nat) : res (seq (int * int)) :=
  mapR so13_new (flatten [seq [seq (l, (2 * s)%N%:Z - l) | l <- pyrange 0 ((2 * s)%N%:Z + 1) 1] | s <- iota 0 n]).

(** ** SU2Real (su2_real.py:31-80), with t = 2j *)
Definition su2r_new (t : int) : res int := do _ <- passert (0 <= t); Ok t.
Definition su2r_mul (t1 t2 : int) : res (seq int) := mapR su2r_new (pyrange `|t1 - t2| (t1 + t2 + 2) 2).
Definition su2r_dim (t : int) : int := if (t %% 2)%Z == 0 then t + 1 else 2 * (t + 1).
Definition su2r_lt (t1 t2 : int) : bool := t1 < t2.
Definition su2r_iter (n : nat) : res (seq int) := mapR su2r_new [seq i%:Z | i <- iota 0 n].

(** ** SUN and its subclasses (sun.py:441-523): orders and iterators *)
Definition sun_lt (a b : seq int) : bool := lts a b.
Definition sun_len_new (n : nat) (S : seq int) : res (seq int) := do _ <- passert (size S == n); Ok S.
Definition su2__iter (n : nat) : res (seq (seq int)) := mapR (sun_len_new 2) [seq [:: j%:Z; 0] | j <- iota 0 n].
Definition su3_iter (n : nat) : res (seq (seq int)) :=
  mapR (sun_len_new 3) (flatten [seq [seq [:: j1%:Z; j2; 0] | j2 <- pyrange 0 (j1%:Z + 1) 1] | j1 <- iota 0 n]).
Definition su4_iter (n : nat) : res (seq (seq int)) :=
  mapR (sun_len_new 4) (flatten [seq flatten [seq [seq [:: j1%:Z; j2; j3; 0] | j3 <- pyrange 0 (j2 + 1) 1] | j2 <- pyrange 0 (j1%:Z + 1) 1] | j1 <- iota 0 n]).

(** ** TabulatedIrrepProduct (group_product.py:53-93): pairs (rep1, rep2).  The
    factors are of any two classes; the generator of rep2 is re-created for every
    element of that of rep1.  from_string and iterator raise NotImplementedError. *)
Section Product.
Variables (I1 I2 : eqType) (mul1 : I1 -> I1 -> res (seq I1)) (mul2 : I2 -> I2 -> res (seq I2)).
Variables (dim1 : I1 -> int) (dim2 : I2 -> int) (lt1 : rel I1) (lt2' : rel I2).
Definition prod_mul (a b : I1 * I2) : res (seq (I1 * I2)) :=
  do xs <- mul1 a.1 b.1;
  do yss <- mapR (fun x => do ys <- mul2 a.2 b.2; Ok [seq (x, y) | y <- ys]) xs;
  Ok (flatten yss).
Definition prod_dim (a : I1 * I2) : int := dim1 a.1 * dim2 a.2.
Definition prod_lt : rel (I1 * I2) := lt2 (fun x y => x == y) lt1 (fun x y => x == y) lt2'.
End Product.
