(** So13: model of lie_nn/_src/irreps/so13.py 62-149 (generators, structure constants
    and the four-vector representation of SO13).

    Weights are natural numbers (SO13.__post_init__, [so13_new] in Labels.v).  Exact
    arithmetic: round_to_sqrt_rational is the identity.  np.linalg.eigh (inside
    infer_change_of_basis) and scipy.linalg.sqrtm are parameters. *)
From Coq Require Import ZArith String Ascii.
From mathcomp Require Import all_ssreflect all_algebra.
From Verif Require Import Base Nd Reps Labels Su2 Su2Cg Sl2c Util LinAlg.

Set Implicit Arguments.
Unset Strict Implicit.
Unset Printing Implicit Defensive.

Import GRing.Theory Num.Theory.
Local Open Scope ring_scope.

Section So13.
Variable C : numClosedFieldType.
Notation nd := (nd C).
Variable eigh : nd -> res (nd * nd).
Variable eps : C.
Variable sqrtm : nd -> res nd.

(** X[k:] *= c *)
Definition scale_from (k : nat) (c : C) (a : nd) : nd :=
  Nd (shape a) (fun idx => if (k <= head 0%N idx)%N then get a idx * c else get a idx).
(** SO13.continuous_generators (so13.py:65-85). *)
Definition so13_X (a : nat * nat) : res nd :=
  do X <- sl2c_X C a;
  let X := scale_from 3 'i X in
  do S <- icb (fun x => x) eigh eps (conj X) X;
  let S := scale (sqrtC (sl2c_d a)%:R) S in
  if len S == 0%N then
    do _ <- passert (a.1 != a.2);
    Ok X
  else
    do _ <- passert (a.1 == a.2);
    do W <- sqrtm (slice0 S 0);
    do iW <- np_inv W;
    do Y <- matmul W X;
    do Z <- matmul Y iW;
    Ok (nd_Re Z).
(** SO13.algebra (so13.py:87-105), SO13.discrete_generators (62-63). *)
Definition so13_A : nd := Nd [:: 6; 6; 6]%N (fun idx => (lorentz_at (-1) idx)%:~R).
Definition so13_rep (a : nat * nat) : res (rep C) :=
  do X <- so13_X a; Ok (MkRep so13_A X (zeros [:: 0%N; sl2c_d a; sl2c_d a])).

(** SO13.four_vector (so13.py:107-149): the literal array. *)
Definition four_vector_X : seq (seq (seq int)) :=
  [:: [:: [:: 0; 0; 0; 0]; [:: 0; 0; 0; 0]; [:: 0; 0; 0; -1]; [:: 0; 0; 1; 0]];
      [:: [:: 0; 0; 0; 0]; [:: 0; 0; 0; 1]; [:: 0; 0; 0; 0]; [:: 0; -1; 0; 0]];
      [:: [:: 0; 0; 0; 0]; [:: 0; 0; -1; 0]; [:: 0; 1; 0; 0]; [:: 0; 0; 0; 0]];
      [:: [:: 0; 1; 0; 0]; [:: 1; 0; 0; 0]; [:: 0; 0; 0; 0]; [:: 0; 0; 0; 0]];
      [:: [:: 0; 0; 1; 0]; [:: 0; 0; 0; 0]; [:: 1; 0; 0; 0]; [:: 0; 0; 0; 0]];
      [:: [:: 0; 0; 0; 1]; [:: 0; 0; 0; 0]; [:: 0; 0; 0; 0]; [:: 1; 0; 0; 0]]].
Definition four_vector_at (a i j : nat) : int := nth 0 (nth [::] (nth [::] four_vector_X a) i) j.
Definition four_vector : rep C :=
  MkRep so13_A
    (Nd [:: 6; 4; 4]%N (fun idx => (four_vector_at (nth 0%N idx 0) (nth 0%N idx 1) (nth 0%N idx 2))%:~R))
    (zeros [:: 0; 4; 4]%N).
End So13.
