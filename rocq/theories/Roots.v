(** Roots: model of lie_nn/_src/lie_algebra_utils.py and of the weights and
    dimensions of lie_nn/_src/irreps/son.py and lie_nn/_src/irreps/spn.py.

    All the numbers are rationals, and arithmetic is exact.  A one-dimensional array is
    the list of its entries, a two-dimensional one the list of its rows.  In each function
    the vectors have one length, so that numpy's check of the shapes of the operands never
    fails and is left out.  Ranks are natural numbers (np.identity refuses negative ones). *)
From Coq Require Import ZArith.
From mathcomp Require Import all_ssreflect all_algebra.
From Verif Require Import Base Parse.

Set Implicit Arguments.
Unset Strict Implicit.
Unset Printing Implicit Defensive.

Import GRing.Theory Num.Theory.
Local Open Scope ring_scope.

Definition vec := seq rat.

(** Entrywise sum, difference and multiples; row i of np.identity(m); u.dot(v). *)
Definition vadd (u v : vec) : vec := [seq p.1 + p.2 | p <- zip u v].
Definition vsub (u v : vec) : vec := [seq p.1 - p.2 | p <- zip u v].
Definition vscale (a : rat) (u : vec) : vec := [seq a * x | x <- u].
Definition eps (m i : nat) : vec := mkseq (fun k => (k == i)%:R) m.
Definition dot (u v : vec) : rat := \sum_(p <- zip u v) p.1 * p.2.

(** Python's sum of a list of vectors of length m.  It is never used on an empty list. *)
Definition vsum (m : nat) (l : seq vec) : vec := foldl vadd (nseq m 0) l.

(** np.concatenate of lists of rows: an empty list is an array of shape (0,), which cannot be
    concatenated with matrices, and there must be at least one array. *)
Definition concat (l : seq (seq vec)) : res (seq vec) :=
  if (l == [::]) || has (@nilp _) l then Err ValueError else Ok (flatten l).

(** l[-k] for k > 0. *)
Definition from_end (l : seq vec) (k : nat) : res vec :=
  if (k <= size l)%N then Ok (nth [::] l (size l - k)) else Err IndexError.

(** sep.join(l) and " " * n. *)
Fixpoint pjoin (sep : str) (l : seq str) : str :=
  match l with [::] => [::] | [:: x] => x | x :: l' => x ++ sep ++ pjoin sep l' end.
Definition spaces (n : nat) : str := nseq n 32%N.

(** str(i) for a natural number: its decimal digits. *)
Fixpoint digits_fuel (f n : nat) : str :=
  if f is f'.+1 then if (n < 10)%N then [:: (48 + n)%N]
                     else rcons (digits_fuel f' (n %/ 10)) (48 + n %% 10)%N else [::].
Definition digits (n : nat) : str := digits_fuel n.+1 n.

(** "---", "   ", "=>=0\n", "=<=0\n". *)
Definition dashes : str := [:: 45; 45; 45]%N.
Definition gap : str := [:: 32; 32; 32]%N.
Definition nl : str := [:: 10]%N.
Definition zero : str := [:: 48]%N.
Definition bar : str := [:: 124]%N.
Definition tailB : str := [:: 61; 62; 61; 48; 10]%N.
Definition tailC : str := [:: 61; 60; 61; 48; 10]%N.

Definition range (a b : nat) : seq nat := iota a (b - a).

(** The tuple returned by the RootsWeights functions. *)
Record root_data := RootData {
  simple_roots : seq vec; positive_roots : seq vec; fundamental_weights : seq vec;
  maximal_root : vec; dynkin : str }.

(** lie_algebra_utils.py:4-19 RootsWeightsA. *)
Definition RootsWeightsA (rank : nat) : res root_data :=
  let m := rank.+1 in let e := eps m in
  do roots <- concat [seq [:: vsub (e i) (e i.+1)] | i <- range 0 (m - 1)];
  do w1 <- concat [seq [seq vsub (e j) (e i) | j <- range 0 i] | i <- range 1 m];
  let w2 := [seq vsub (vsum m [seq e j | j <- range 0 i])
                      (vscale (i%:R / rank.+1%:R) (vsum m [seq e j | j <- range 0 m]))
            | i <- range 1 rank.+1] in
  let w3 := 1 :: nseq (rank - 1) 0 ++ [:: -1] in
  let d := pjoin dashes [seq zero | i <- range 1 rank.+1] ++ nl
           ++ pjoin gap [seq digits i | i <- range 1 rank.+1] in
  Ok (RootData roots w1 w2 w3 d).

(** lie_algebra_utils.py:22-40 RootsWeightsB. *)
Definition RootsWeightsB (rank : nat) : res root_data :=
  let e := eps rank in let epsilon := [seq e i | i <- range 0 rank] in
  do last <- from_end epsilon 1;
  do roots <- concat [:: [seq vsub (e i) (e i.+1) | i <- range 0 (rank - 1)]; [:: last]];
  do w1 <- concat [:: [seq vadd (e j) (e i) | i <- range 1 rank, j <- range 0 i];
                      [seq vsub (e j) (e i) | i <- range 1 rank, j <- range 0 i]];
  do w1 <- concat [:: w1; epsilon];
  do w2 <- concat [:: [seq vsum rank [seq e j | j <- range 0 i] | i <- range 1 rank];
                      [:: vscale (1 / 2) (vsum rank epsilon)]];
  let w3 := [:: 1; 1] ++ nseq (rank - 2) 0 in
  let d := pjoin dashes [seq zero | i <- range 1 rank] ++ tailB
           ++ pjoin gap [seq digits i | i <- range 1 rank.+1] in
  Ok (RootData roots w1 w2 w3 d).

(** lie_algebra_utils.py:43-59 RootsWeightsC. *)
Definition RootsWeightsC (rank : nat) : res root_data :=
  let e := eps rank in let epsilon := [seq e i | i <- range 0 rank] in
  do last <- from_end epsilon 1;
  do roots <- concat [:: [seq vsub (e i) (e i.+1) | i <- range 0 (rank - 1)]; [:: vscale 2 last]];
  do w1 <- concat [:: [seq vadd (e j) (e i) | i <- range 1 rank, j <- range 0 i];
                      [seq vsub (e j) (e i) | i <- range 1 rank, j <- range 0 i]];
  do w2 <- concat [:: w1; [seq vscale 2 v | v <- epsilon]];
  let w3 := [seq vsum rank [seq e j | j <- range 0 i] | i <- range 1 rank.+1] in
  let w4 := [:: 2] ++ nseq (rank - 1) 0 in
  let d := pjoin dashes [seq zero | i <- range 1 rank] ++ tailC
           ++ pjoin gap [seq digits i | i <- range 1 rank.+1] in
  Ok (RootData roots w2 w3 w4 d).

(** lie_algebra_utils.py:62-91 RootsWeightsD. *)
Definition RootsWeightsD (rank : nat) : res root_data :=
  let e := eps rank in let epsilon := [seq e i | i <- range 0 rank] in
  do last <- from_end epsilon 1;
  do last2 <- from_end epsilon 2;
  do roots <- concat [:: [seq vsub (e i) (e i.+1) | i <- range 0 (rank - 1)]; [:: vadd last last2]];
  do w1 <- concat [:: [seq vadd (e i) (e j) | i <- range 1 rank, j <- range 0 i];
                      [seq vsub (e j) (e i) | i <- range 1 rank, j <- range 0 i]];
  let weight_sum := [seq vsum rank [seq e j | j <- range 0 i] | i <- range 1 (rank - 1)] in
  let half := vscale (1 / 2) (vsum rank epsilon) in
  do w2 <- (if size weight_sum == 0%N
            then concat [:: [:: vsub half (e (rank - 1)%N)]; [:: half]]
            else concat [:: weight_sum; [:: vsub half (e (rank - 1)%N)]; weight_sum; [:: half]]);
  let w3 := [:: 1; 1] ++ nseq (rank - 2) 0 in
  let pad := spaces (4 * (rank - 2)) in
  let d := pad ++ zero ++ nl ++ pad ++ bar ++ nl
           ++ pjoin dashes [seq zero | i <- range 1 rank] ++ nl
           ++ pjoin gap [seq digits i | i <- range 1 (rank - 1)] ++ gap ++ digits rank
           ++ pad ++ nl ++ pad ++ bar ++ nl ++ pad ++ zero ++ nl in
  Ok (RootData roots w1 w2 w3 d).

(** lie_algebra_utils.py:94-101 cartan_matrix. *)
Definition cartan_matrix (roots : seq vec) : seq (seq rat) :=
  [seq [seq (if i == j then 2
             else 2 * dot (nth [::] roots i) (nth [::] roots j)
                  / dot (nth [::] roots i) (nth [::] roots i))
       | j <- range 0 (size roots)] | i <- range 0 (size roots)].

(** lie_algebra_utils.py:104-110 weyl_dim. *)
Definition weyl_dim (weight : vec) (positiveroots : seq vec) (weylvector : vec) : rat :=
  \prod_(b <- positiveroots) (dot (vadd weight weylvector) b / dot weylvector b).

(** lie_algebra_utils.py:113-137 structure_algebra; any other group name raises
    UnboundLocalError. *)
Inductive series := SA | SB | SC | SD.
Record structure := Structure {
  tsDim : nat; sa_data : root_data; WeylVector : vec; CoxeterNumber : rat;
  CartanMatrix : seq (seq rat) }.

Definition roots_weights (g : series) : nat -> res root_data :=
  match g with
  | SA => RootsWeightsA | SB => RootsWeightsB | SC => RootsWeightsC | SD => RootsWeightsD
  end.

(** sum(PositiveRoots) / 2. *)
Definition weyl_vector (pos : seq vec) : vec := vscale (1 / 2) (vsum (size (head [::] pos)) pos).

Definition structure_algebra (g : series) (rank : nat) : res structure :=
  do d <- roots_weights g rank;
  Ok (Structure (size (dynkin d)) d (weyl_vector (positive_roots d))
        ((2 * size (positive_roots d))%:R / rank%:R) (cartan_matrix (simple_roots d))).

(** son.py:12-18 and spn.py:11-14 root_weights. *)
Definition son_root_weights (rank : nat) : res (seq vec * seq vec * vec) :=
  do d <- (if ~~ odd rank then RootsWeightsD rank else RootsWeightsB rank);
  Ok (positive_roots d, fundamental_weights d, weyl_vector (positive_roots d)).
Definition spn_root_weights (rank : nat) : res (seq vec * seq vec * vec) :=
  do d <- RootsWeightsC rank;
  Ok (positive_roots d, fundamental_weights d, weyl_vector (positive_roots d)).

(** son.py:21-23 and spn.py:17-19 weights. *)
Definition weights (S : seq int) (fw : seq vec) : res vec :=
  do l <- mapR (fun i => if (i < size fw)%N then Ok (vscale (nth 0 S i)%:~R (nth [::] fw i))
                         else Err IndexError) (range 0 (size S));
  Ok (vsum (size S) l).

(** int(x): truncation towards zero. *)
Definition py_trunc (x : rat) : int :=
  if 0 <= numq x then divz (numq x) (denq x) else - divz (- numq x) (denq x).

(** son.py:51-53 and spn.py:47-49 dim. *)
Definition rep_dim (root_weights : nat -> res (seq vec * seq vec * vec)) (S : seq int) : res int :=
  do r <- root_weights (size S);
  do w <- weights S r.1.2;
  Ok (py_trunc (weyl_dim w r.1.1 r.2)).
Definition son_dim : seq int -> res int := rep_dim son_root_weights.
Definition spn_dim : seq int -> res int := rep_dim spn_root_weights.

(** son.py:55-57 and spn.py:51-53 is_scalar. *)
Definition weights_is_scalar (S : seq int) : bool := all (fun s => s == 0) S.
