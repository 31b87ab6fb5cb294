(** SonAdj: model of the class SON_adjoint of lie_nn/_src/irreps/son.py.

    The arrays contain integers; they are modelled over an arbitrary ring.  A stack of square
    matrices is the list of its slices. *)
From Coq Require Import ZArith.
From mathcomp Require Import all_ssreflect all_algebra.
From Verif Require Import Base.

Set Implicit Arguments.
Unset Strict Implicit.
Unset Printing Implicit Defensive.

Import GRing.Theory.
Local Open Scope ring_scope.

Section Model.
Variable R : ringType.

(** son.py:69-73 E: an index out of range raises IndexError. *)
Definition E_ (i j rank : nat) : res 'M[R]_rank :=
  if (i < rank)%N && (j < rank)%N
  then Ok (\matrix_(a, b) (((a : nat) == i) && ((b : nat) == j))%:R) else Err IndexError.

(** x - y, and np.stack of a list of matrices, which refuses an empty list. *)
Definition msub n (x y : res 'M[R]_n) : res 'M[R]_n := do a <- x; do b <- y; Ok (a - b).
Definition stack n (l : seq (res 'M[R]_n)) : res (seq 'M[R]_n) :=
  do l' <- mapR id l; if l' is [::] then Err ValueError else Ok l'.

(** [f(i, j) for i in range(m) for j in range(m) if i != j]. *)
Definition offdiag T (f : nat -> nat -> T) (m : nat) : seq T :=
  flatten [seq [seq f i j | j <- iota 0 m & i != j] | i <- iota 0 m].

(** son.py:88-149 SON_adjoint.continuous_generators. *)
Definition adjoint_generators (n : nat) : res (seq 'M[R]_n) :=
  if ~~ odd n then
    let n2 := (n %/ 2)%N in
    do Hs <- stack [seq msub (E_ i i n) (E_ (i + n2) (i + n2) n) | i <- iota 0 n2];
    do Xs <- stack (offdiag (fun i j => msub (E_ i j n) (E_ (n2 + j) (n2 + i) n)) n2);
    do Ys <- stack (offdiag (fun i j => msub (E_ i (n2 + j) n) (E_ j (n2 + i) n)) n2);
    do Zs <- stack (offdiag (fun i j => msub (E_ (n2 + i) j n) (E_ (n2 + j) i n)) n2);
    Ok (Hs ++ Xs ++ Ys ++ Zs)
  else
    let n2 := ((n - 1) %/ 2)%N in
    do Hs <- stack [seq msub (E_ i i n) (E_ (i + n2) (i + n2) n) | i <- iota 0 n2];
    do Xs <- stack (offdiag (fun i j => msub (E_ i j n) (E_ (n2 + j) (n2 + i) n)) n2);
    do Ys <- stack (offdiag (fun i j => msub (E_ i (n2 + j) n) (E_ j (n2 + i) n)) n2);
    do Zs <- stack (offdiag (fun i j => msub (E_ (n2 + i) j n) (E_ (n2 + j) i n)) n2);
    do Us <- stack [seq msub (E_ i (n - 1) n) (E_ (n - 1) i n) | i <- iota 0 n];
    do Vs <- stack [seq msub (E_ (n2 + i) (n - 1) n) (E_ (n - 1) i n) | i <- iota 0 n2];
    Ok (Hs ++ Xs ++ Ys ++ Zs ++ Us ++ Vs).

(** son.py:79-82 __init__ and son.py:151-152 discrete_generators: the constructor asserts
    n >= 3, and there are no discrete generators. *)
Definition son_adjoint (n : nat) : res (seq 'M[R]_n * seq 'M[R]_n) :=
  do _ <- passert (3 <= n)%N;
  do X <- adjoint_generators n;
  Ok (X, [::]).
End Model.
