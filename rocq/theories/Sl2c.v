(** Sl2c: model of lie_nn/_src/irreps/sl2c.py 31-99 and 118-151 (Clebsch-Gordan
    coefficients, generators and structure constants), and of np.concatenate(axis=-1)
    and the implicit mode of np.einsum.

    Weights are natural numbers (SL2C.__post_init__ rejects negative ones, see
    [sl2c_new] in Labels.v). *)
From Coq Require Import ZArith String Ascii.
From mathcomp Require Import all_ssreflect all_algebra.
From Verif Require Import Base Nd Reps Perm Labels Su2 Su2Cg.

Set Implicit Arguments.
Unset Strict Implicit.
Unset Printing Implicit Defensive.

Import GRing.Theory Num.Theory.
Local Open Scope ring_scope.
Local Open Scope string_scope.

Section Sl2c.
Variable C : numClosedFieldType.
Notation nd := (nd C).

(** np.concatenate(l, axis=-1) *)
Definition lastdim (a : nd) : nat := last 0%N (shape a).
Definition initdims (a : nd) : seq nat := take (size (shape a)).-1 (shape a).
(** The array holding position k of the last axis, and the position in it. *)
Fixpoint pick (l : seq nd) (k : nat) : nd * nat :=
  match l with
  | [::] => (zeros [::], k)
  | a :: l' => if (k < lastdim a)%N then (a, k) else pick l' (k - lastdim a)
  end.
Definition concat_last (l : seq nd) : res nd :=
  match l with
  | [::] => Err ValueError
  | a :: _ =>
    if (0 < size (shape a))%N && all (fun b => (size (shape b) == size (shape a)) && (initdims b == initdims a)) l
    then Ok (Nd (rcons (initdims a) (sumn [seq lastdim b | b <- l]))
      (fun idx => let x := pick l (last 0%N idx) in get x.1 (rcons (take (size idx).-1 idx) x.2)))
    else Err ValueError
  end.

(** np.einsum without "->": the output has the labels that occur exactly once, in
    alphabetical order. *)
Definition count_label (c : ascii) (ls : seq ascii) : nat := count (Ascii.eqb c) ls.
Definition implicit_out (ops : seq (seq ascii * nd)) : seq ascii :=
  let ls := flatten [seq o.1 | o <- ops] in
  [seq c <- [seq ascii_of_nat i | i <- iota 0 256] | count_label c ls == 1%N].
Definition einsum_implicit (ops : seq (seq ascii * nd)) : res nd := einsum_ops ops (implicit_out ops).

(** clebsch_gordansl2mat (sl2c.py:118-151): fastcgmat(l / 2, k / 2, i / 2) is
    [su2_cgmat] on the doubled spins. *)
Definition sl2c_full (l k : nat) : res nd :=
  do bs <- mapR (fun i => su2_cgmat C l k (absz i)) (pyrange `|l%:Z - k%:Z| (l%:Z + k%:Z + 1) 2);
  concat_last bs.
Definition sl2c_cgmat (a b c : nat * nat) : res nd :=
  do B1 <- sl2c_full c.1 c.2;
  do B2a <- su2_cgmat C a.1 b.1 c.1;
  do B2b <- su2_cgmat C a.2 b.2 c.2;
  do B3a <- sl2c_full a.1 a.2;
  do B3b <- sl2c_full b.1 b.2;
  do t <- einsum_implicit [:: (labels "abc", B1); (labels "dea", B2a); (labels "ghb", B2b); (labels "dgk", B3a); (labels "ehn", B3b)];
  einsum_implicit [:: (labels "cab", t)].
(** SL2C.clebsch_gordan (sl2c.py:36-42). *)
Definition zz (a : nat * nat) : int * int := (a.1%:Z, a.2%:Z).
Definition sl2c_d (a : nat * nat) : nat := (a.1.+1 * a.2.+1)%N.
Definition sl2c_cg (a b c : nat * nat) : res nd :=
  do L <- sl2c_mul (zz a) (zz b);
  if zz c \in L then
    do m <- sl2c_cgmat a b c;
    Ok (Nd (1%N :: shape m) (fun idx => get m (behead idx)))
  else Ok (zeros [:: 0%N; sl2c_d a; sl2c_d b; sl2c_d c]).

(** SL2C.continuous_generators (sl2c.py:63-83).  vmap(kron_add) on two arrays with
    three rows stacks the results row by row (util.py:118-157). *)
Definition kron_add (x y : nd) : res nd :=
  do u <- np_kron x (eye (len y));
  do v <- np_kron (eye (len x)) y;
  add u (conj v).
Definition vmap2 (f : nd -> nd -> res nd) (x y : nd) : res nd :=
  do _ <- passert (len x == len y);
  do o <- mapR (fun p => f p.1 p.2) (zip (rows x) (rows y));
  stack o.
Definition sl2c_X (a : nat * nat) : res nd :=
  do Xl <- su2_X C a.1;
  do Xk <- su2_X C a.2;
  do re <- vmap2 kron_add Xl Xk;
  do im <- vmap2 kron_add Xl (scale (-1) Xk);
  do X <- concat2 re im;
  do c <- sl2c_cg (a.1, 0%N) (0%N, a.2) a;
  do c <- reshape c [:: sl2c_d a; sl2c_d a];
  do Y <- matmul (transpose2 c) X;
  matmul Y (conj c).
(** SL2C.algebra (sl2c.py:85-99): assignments in the order of
    itertools.permutations((0, 1, 2)); the last assignment to an entry wins. *)
Definition perms3 : seq (nat * nat * nat) :=
  [:: (0, 1, 2); (0, 2, 1); (1, 0, 2); (1, 2, 0); (2, 0, 1); (2, 1, 0)]%N.
Definition z_int (z : BinNums.Z) : int :=
  match z with Z0 => 0 | Zpos p => (nat_of_pos p)%:Z | Zneg p => - (nat_of_pos p)%:Z end.
(** kk: the factor of [algebra[3 + i, 3 + j, k]], 1 for SL2C and -1 for SO13. *)
Definition lorentz_assign (kk : int) : seq (seq nat * int) :=
  flatten [seq (let: (i, j, k) := p in let s := z_int (permutation_sign [:: i; j; k]) in
    [:: ([:: i; j; k], s); ([:: 3 + i; 3 + j; k]%N, kk * s); ([:: i; 3 + j; 3 + k]%N, s); ([:: 3 + i; j; 3 + k]%N, s)]) | p <- perms3].
Definition lorentz_at (kk : int) (idx : seq nat) : int :=
  foldl (fun v (x : seq nat * int) => if x.1 == idx then x.2 else v) 0 (lorentz_assign kk).
Definition sl2c_A : nd := Nd [:: 6; 6; 6]%N (fun idx => (lorentz_at 1 idx)%:~R).
Definition sl2c_rep (a : nat * nat) : res (rep C) :=
  do X <- sl2c_X a; Ok (MkRep sl2c_A X (zeros [:: 0%N; sl2c_d a; sl2c_d a])).
End Sl2c.
