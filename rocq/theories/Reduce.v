(** Reduce: model of lie_nn/_src/reduce.py and of util.py:563-585 (decompose_rep_into_irreps).

    Arithmetic is exact.  np.linalg.eigh is the parameter [eigh], np.linalg.eig the parameter
    [eig] (eigenvalues and matrix of eigenvectors, or an error) and np.random.rand(n) the
    parameter [rand].  The thresholds are parameters: e1 that of infer_change_of_basis, e2
    that of eigenspaces and e3 that of gram_schmidt inside decompose_rep_into_irreps (1e-10
    in the code), e4 that of infer_change_of_basis in reduce (1e-4 in the code). *)
From Coq Require Import ZArith String Ascii.
From mathcomp Require Import all_ssreflect all_algebra.
From Verif Require Import Base Nd Reps Sl2c LinAlg Finite Reduced.

Set Implicit Arguments.
Unset Strict Implicit.
Unset Printing Implicit Defensive.

Import GRing.Theory Num.Theory.
Local Open Scope ring_scope.
Local Open Scope string_scope.

Section Reduce.
Variable C : numClosedFieldType.
Notation nd := (nd C).
Notation id_ := (fun x : nd => x).
Variable eigh eig : nd -> res (nd * nd).
Variable rand : nat -> nd.
Variables e1 e2 e3 e4 : C.

(** util.py:572-574: the random element of the commutant. *)
Definition draw (X : nd) : res nd :=
  do Q <- icb id_ eigh e1 X X;
  einsum2 "n" "nij" "ij" (rand (len Q)) Q.
(** util.py:580-583: the body of the loop. *)
Definition compress (X W : nd) : res nd :=
  do B <- gram_schmidt id_ e3 (transpose2 W);
  do P <- matmul (conj (transpose2 B)) B;
  do B <- gram_schmidt id_ e3 P;
  do Y <- matmul B X;
  matmul Y (conj (transpose2 B)).
(** util.py:563-585; the fuel is enough for the loop of unique_with_tol. *)
Definition decompose (X : nd) : res (seq nd) :=
  do M <- draw X;
  do e <- eig M;
  do sp <- eigenspaces (len e.1).+1 e2 e.1 e.2;
  mapR (fun vW : nd * nd => compress X vW.2) sp.

(** GenericRep as the irreps of a ReducedRep (no selection rule, no Clebsch-Gordan arrays). *)
Definition generic : irreps C :=
  Irreps (label := rep C) id (fun r => nth 0%N (shape (rX r)) 1) (fun _ _ => [::]) (fun _ _ _ => zeros [::]).
(** reduce.py:36-41: the body of the loop. *)
Definition reduce_block (r : rep C) (l : nat) (Y : nd) : res (nd * rep C) :=
  let ir := MkRep (rA r) (rows_slice 0 l Y) (rows_slice l (len Y) Y) in
  do Q <- rep_icb id_ eigh e4 ir r;
  do Q <- einsum1 "mij" "imj" Q;
  do d <- dim r; do k <- dim ir;
  do Q <- reshape Q [:: d; k];
  Ok (Q, ir).
(** reduce.py:25-45: the overload for Rep; Python's sorted is stable, and so is sort. *)
Definition reduce_rep (r : rep C) : res (reducedrep generic) :=
  do Y <- concat2 (rX r) (rH r);
  do Ys <- decompose Y;
  let Ys := sort (fun a b : nd => nth 0%N (shape a) 1 <= nth 0%N (shape b) 1)%N Ys in
  do l <- lie_dim r;
  do L <- mapR (reduce_block r l) Ys;
  do Q <- concat_last [seq p.1 | p <- L];
  Ok (ReducedRep (rA r) [seq @MulIrrep C generic 1 p.2 | p <- L] (Some Q)).

(** reduce.py:10-16 and 19-22: the overloads for MulIrrep and ReducedRep. *)
Definition reduce_mul (G : irreps C) (m : mulirrep G) : reducedrep G := ReducedRep (mul_A m) [:: m] None.
Definition reduce_reduced (G : irreps C) (R : reducedrep G) : reducedrep G := R.
End Reduce.
