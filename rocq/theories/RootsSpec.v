(** RootsSpec: the standard facts on the root systems A_n, B_n, C_n and D_n, stated
    without reference to the code. *)
From mathcomp Require Import all_ssreflect all_algebra.
From Verif Require Import Roots.

Set Implicit Arguments.
Unset Strict Implicit.
Unset Printing Implicit Defensive.

Import GRing.Theory Num.Theory.
Local Open Scope ring_scope.

(** The inner product, and the pairing <v, a^vee> = 2 (v, a) / (a, a). *)
Definition ip (u v : seq rat) : rat := \sum_(k < size u) u`_k * v`_k.
Definition pairing (v a : seq rat) : rat := 2 * ip v a / ip a a.

(** The dimension of the space of the standard realisation, and the ranks for which the
    code returns a result. *)
Definition ambient (g : series) (n : nat) : nat := if g is SA then n.+1 else n.
Definition valid_rank (g : series) (n : nat) : bool := (if g is SA then 0 < n else 1 < n)%N.

(** The Cartan matrices (rows are coroots, columns are roots), from the Dynkin diagrams:
    a chain, whose last edge is double towards the short root for B and C; for D the last
    node is joined to the one before its predecessor. *)
Definition chain (i j : nat) : bool := (j == i.+1) || (i == j.+1).
Definition std_cartan (g : series) (n i j : nat) : int :=
  if i == j then 2%:Z else
  match g with
  | SA => if chain i j then - 1%:Z else 0
  | SB => if chain i j then if i == (n - 1)%N then - 2%:Z else - 1%:Z else 0
  | SC => if chain i j then if j == (n - 1)%N then - 2%:Z else - 1%:Z else 0
  | SD => if ((i < n - 1)%N && (j < n - 1)%N && chain i j)
             || ((i == n - 1) && (j + 2 == n - 1)%N)%N || ((j == n - 1) && (i + 2 == n - 1))%N
          then - 1%:Z else 0
  end.

(** The number of positive roots and the Coxeter number. *)
Definition num_positive (g : series) (n : nat) : nat :=
  match g with SA => (n * n.+1)./2 | SB | SC => n ^ 2 | SD => n * (n - 1) end%N.
Definition coxeter (g : series) (n : nat) : nat :=
  match g with SA => n.+1 | SB | SC => 2 * n | SD => 2 * n - 2 end%N.

(** Vectors given by their coordinates. *)
Definition is_vec (m : nat) (v : seq rat) (f : nat -> rat) : Prop :=
  size v = m /\ forall k, (k < m)%N -> v`_k = f k.
Definition bas (i : nat) (k : nat) : rat := (k == i)%:R.

(** The positive roots: e_j - e_i for j < i, then e_j + e_i for j < i (not for A), e_i (for B)
    and 2 e_i (for C). *)
Definition standard_root (g : series) (n : nat) (v : seq rat) : Prop :=
  let m := ambient g n in
  (exists j i, (j < i < m)%N /\ is_vec m v (fun k => bas j k - bas i k))
  \/ (g <> SA /\ exists j i, (j < i < m)%N /\ is_vec m v (fun k => bas j k + bas i k))
  \/ (g = SB /\ exists i, (i < m)%N /\ is_vec m v (bas i))
  \/ (g = SC /\ exists i, (i < m)%N /\ is_vec m v (fun k => 2 * bas i k)).

(** v is a combination of the vectors a with natural coefficients. *)
Definition natural_combination (a : seq (seq rat)) (v : seq rat) : Prop :=
  exists c : nat -> nat,
    is_vec (size v) v (fun k => \sum_(i < size a) (c i)%:R * (nth [::] a i)`_k).
