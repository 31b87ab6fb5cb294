(** Sun: model of lie_nn/_src/irreps/sun.py 1-258 and 381-523 (weights, Gelfand-Tsetlin
    patterns, ladder operators, generators, algebra, tensor product rule).

    Weights are lists of [int], patterns lists of weights.  Python generators are the
    lists of what they yield.  Fractions are exact ([rat]); floats are the exact numbers
    of C, [x ** 0.5] is [sqrtC x].  Recursion is on fuel where the code recurses on the
    length of a weight (fuel = length) and structural otherwise. *)
From Coq Require Import ZArith String Ascii.
From mathcomp Require Import all_ssreflect all_algebra.
From Verif Require Import Base Nd Reps Util.

Set Implicit Arguments.
Unset Strict Implicit.
Unset Printing Implicit Defensive.

Import GRing.Theory Num.Theory.
Local Open Scope ring_scope.

Definition weight := seq int.
Definition pattern := seq weight.

(** range(z) for an int z; range(a, b) for naturals is [iota a (b - a)]. *)
Definition zrange (z : int) : seq int :=
  [seq k%:Z | k <- iota 0 (if z is Posz k then k else 0%N)].
(** itertools.product over a list of iterables. *)
Fixpoint iproduct (ls : seq (seq int)) : seq (seq int) :=
  match ls with
  | [::] => [:: [::]]
  | l :: ls' => [seq x :: y | x <- l, y <- iproduct ls']
  end.

(** _is_valid_S (sun.py:17-18); _assert_valid_S (21-26) is [passert] of it. *)
Definition valid_S (S : weight) : bool :=
  (0 < size S)%N && all (fun p => p.2 <= p.1) (zip S (behead S)).

(** dim (sun.py:29-40). *)
Definition weyl (S : weight) : rat :=
  foldl (fun d i =>
    foldl (fun d j => d * (1 + (S`_i - S`_j)%:~R / (j%:Z - i%:Z)%:~R)) d
      (iota i.+1 (size S - i.+1))) 1 (iota 0 (size S)).
Definition dimS (S : weight) : res int :=
  do _ <- passert (valid_S S);
  let d := weyl S in
  do _ <- passert (denq d == 1);
  Ok (numq d).

(** S_to_Ss (sun.py:46-57). *)
Definition S_to_Ss (S : weight) : res (seq weight) :=
  do _ <- passert (valid_S S);
  if size S == 1%N then Ok [::]
  else
    let diff := [seq p.1 - p.2 | p <- zip S (behead S)] in
    Ok [seq [seq S`_i - x`_i | i <- iota 0 (size S - 1)]
       | x <- iproduct [seq rev (zrange (s + 1)) | s <- diff]].

(** S_to_Ms (sun.py:60-71). *)
Fixpoint S_to_Ms_fuel (fuel : nat) (S : weight) : res (seq pattern) :=
  do _ <- passert (valid_S S);
  match fuel with
  | 0%N => Err OutOfFuel
  | fuel'.+1 =>
    let one := if size S == 1%N then [:: [:: S]] else [::] in
    do Ss <- S_to_Ss S;
    do Mss <- mapR (fun T => do Ms <- S_to_Ms_fuel fuel' T; Ok [seq S :: M | M <- Ms]) Ss;
    Ok (one ++ flatten Mss)
  end.
Definition S_to_Ms (S : weight) : res (seq pattern) := S_to_Ms_fuel (size S) S.

(** index_to_M (sun.py:77-87).  A function that runs off its end returns None; adding None
    to a tuple is a TypeError. *)
Fixpoint index_loop (rec : weight -> int -> res (option pattern)) (S : weight) (Ss : seq weight)
    (index : int) : res (option pattern) :=
  match Ss with
  | [::] => Ok None
  | T :: Ss' =>
    do d <- dimS T;
    if index < d then
      do M <- rec T index;
      match M with Some M => Ok (Some (S :: M)) | None => Err TypeError end
    else index_loop rec S Ss' (index - d)
  end.
Fixpoint index_to_M_fuel (fuel : nat) (S : weight) (index : int) : res (option pattern) :=
  do _ <- passert (valid_S S);
  do d <- dimS S;
  do _ <- passert (index < d);
  match fuel with
  | 0%N => Err OutOfFuel
  | fuel'.+1 =>
    if size S == 1%N then Ok (Some [:: S])
    else
      do Ss <- S_to_Ss S;
      index_loop (index_to_M_fuel fuel') S Ss index
  end.
Definition index_to_M (S : weight) (index : int) : res (option pattern) :=
  index_to_M_fuel (size S) S index.

(** M_to_index (sun.py:90-100): the loop over S_to_Ss(S), then the recursion on M[1:]. *)
Fixpoint find_row (M1 : weight) (Ss : seq weight) (index : int) : res (option int) :=
  match Ss with
  | [::] => Ok None
  | T :: Ss' =>
    if M1 == T then Ok (Some index)
    else do d <- dimS T; find_row M1 Ss' (index + d)
  end.
Fixpoint M_to_index (M : pattern) : res (option int) :=
  match M with
  | [::] => Err IndexError
  | M0 :: M' =>
    do _ <- passert (valid_S M0);
    if size M0 == 1%N then Ok (Some 0)
    else
      do Ss <- S_to_Ss M0;
      match M' with
      | [::] => if Ss is [::] then Ok None else Err IndexError
      | M1 :: _ =>
        do r <- find_row M1 Ss 0;
        match r with
        | None => Ok None
        | Some index =>
          do i <- M_to_index M';
          match i with Some i => Ok (Some (index + i)) | None => Err TypeError end
        end
      end
  end.

(** M[i][j].  Out of range reads (IndexError in Python) read 0; every read below is in
    range when M is triangular, which the patterns of S_to_Ms are. *)
Definition ent (M : pattern) (i j : nat) : int := (nth [::] M i)`_j.

(** triangular_triplet, is_valid_M, unique_pairs (sun.py:107-123). *)
Definition triangular_triplet (M : pattern) : seq (int * int * int) :=
  [seq (ent M (i - 1) j, ent M (i - 1) j.+1, ent M i j)
  | i <- iota 1 (size M - 1), j <- iota 0 (size M - i)].
Definition is_valid_M (M : pattern) : bool :=
  all (fun t => let: (m1, m2, m3) := t in [&& m3 <= m1, m2 <= m3 & 0 <= m2]) (triangular_triplet M).
Definition unique_pairs (n start : nat) : seq (nat * nat) :=
  [seq (i, j) | i <- iota start (n - start), j <- iota 0 (n - i)].

(** M_to_sigma, M_to_p_weight (sun.py:126-133). *)
Definition M_to_sigma (M : pattern) : seq int := [seq \sum_(x <- row) x | row <- M] ++ [:: 0].
Definition M_to_p_weight (M : pattern) : seq int :=
  let sigma := rev (M_to_sigma M) in
  rev [seq p.2 - p.1 | p <- zip sigma (behead sigma)].

(** M_add_at_lk (sun.py:192-198). *)
Definition M_add (M : pattern) (l k : nat) (inc : int) : pattern :=
  [seq [seq if (i == l) && (j == k) then ent M i j + inc else ent M i j
       | j <- iota 0 (size (nth [::] M i))] | i <- iota 0 (size M)].
Definition M_add_at_lk (M : pattern) (l k : nat) (inc : int) : option pattern :=
  let M := M_add M l k inc in if is_valid_M M then Some M else None.

(** mul_rep (sun.py:142-155).  [k + 1 < len(pattern) and l < len(pattern[k + 1])] decides the
    IndexError of line 148 (the reads of pattern[k][l] are in range by unique_pairs).
    [None] is the emptied t_weight. *)
Fixpoint mul_loop (n : nat) (M : pattern) (ps : seq (nat * nat)) (t : weight) : option weight :=
  match ps with
  | [::] => Some t
  | (l, k) :: ps' =>
    let d := if (k.+1 < size M)%N && (l < size (nth [::] M k.+1))%N
             then ent M k l - ent M k.+1 l else ent M k l in
    let t := set_nth 0 t (n - k - 1) (t`_(n - k - 1) + d) in
    if (1 <= n - k - 1)%N && (t`_(n - k - 2) < t`_(n - k - 1)) then None
    else mul_loop n M ps' t
  end.
Definition mul_rep (S1 S2 : weight) : res (seq weight) :=
  let n := size S1 in
  do Ms <- S_to_Ms S1;
  Ok (pmap (fun M => if mul_loop n M (unique_pairs n 0) S2 is Some t
                     then if t is [::] then None else Some [seq x - last 0 t | x <- t]
                     else None) Ms).

Section Ladder.
Variable C : numClosedFieldType.
Notation nd := (nd C).

(** M_to_z_weight (sun.py:136-139). *)
Definition M_to_z_weight (M : pattern) : seq C :=
  let w := rev (M_to_p_weight M) in
  rev [seq (p.2 - p.1)%:~R / 2%:R | p <- zip (behead w) w].

(** compute_coeff_upper (sun.py:158-172), compute_coeff_lower (175-189).  The products are
    exact integer products; the true division by zero raises. *)
Definition coeff (num den : int) : res C :=
  if den == 0 then Err ZeroDivisionError
  else
    let x : C := - num%:~R / den%:~R in
    do _ <- passert (0 <= x);
    Ok (sqrtC x).
Definition compute_coeff_upper (M : pattern) (k l : nat) : res C :=
  let n := size M in
  let num := \prod_(q <- iota 0 (n - k + 1)) (ent M (k - 1) q - ent M k l + l%:Z - q%:Z) in
  let num := num * \prod_(q <- iota 0 (n - k - 1)) (ent M k.+1 q - ent M k l + l%:Z - q%:Z - 1) in
  let den := \prod_(q <- iota 0 (n - k) | q != l)
               ((ent M k q - ent M k l + l%:Z - q%:Z) * (ent M k q - ent M k l + l%:Z - q%:Z - 1)) in
  coeff num den.
Definition compute_coeff_lower (M : pattern) (k l : nat) : res C :=
  let n := size M in
  let num := \prod_(q <- iota 0 (n - k + 1)) (ent M (k - 1) q - ent M k l + l%:Z - q%:Z + 1) in
  let num := num * \prod_(q <- iota 0 (n - k - 1)) (ent M k.+1 q - ent M k l + l%:Z - q%:Z) in
  let den := \prod_(q <- iota 0 (n - k) | q != l)
               ((ent M k q - ent M k l + l%:Z - q%:Z + 1) * (ent M k q - ent M k l + l%:Z - q%:Z)) in
  coeff num den.

(** upper_ladder, lower_ladder (sun.py:201-230): <N| J(l) |M>. *)
Definition upper_ladder (l : nat) (N M : pattern) : res C :=
  let n := size M in
  let l := l.+1 in
  do cs <- mapR (compute_coeff_upper M l) [seq k <- iota 0 (n - l) | M_add_at_lk M l k 1 == Some N];
  Ok (\sum_(c <- cs) c).
Definition lower_ladder (l : nat) (N M : pattern) : res C :=
  let n := size M in
  let l := l.+1 in
  do cs <- mapR (compute_coeff_lower M l) [seq k <- iota 0 (n - l) | M_add_at_lk M l k (-1) == Some N];
  Ok (\sum_(c <- cs) c).

(** np.array(nested lists).reshape(a, b, c). *)
Definition np_array3 (a b c : nat) (L : seq (seq (seq C))) : res nd :=
  let fl := flatten (map flatten L) in
  if size fl == (a * (b * c))%N
  then Ok (Nd [:: a; b; c] (fun idx => nth 0 fl (ravel [:: a; b; c] idx)))
  else Err ValueError.

(** upper_ladder_matrices, lower_ladder_matrices (sun.py:233-248), given the ladder. *)
Definition ladder_matrices (ladder : nat -> pattern -> pattern -> res C) (S : weight) : res nd :=
  do L <- mapR (fun l =>
            do Ns <- S_to_Ms S;
            mapR (fun N => do Ms <- S_to_Ms S; mapR (ladder l N) Ms) Ns)
          (iota 0 (size S - 1));
  do d <- dimS S;
  np_array3 (size S - 1) `|d|%N `|d|%N L.
Definition upper_ladder_matrices : weight -> res nd := ladder_matrices upper_ladder.
Definition lower_ladder_matrices : weight -> res nd := ladder_matrices lower_ladder.

(** Jz_matrices (sun.py:251-258): np.zeros, then Jz[l, i, i] = z[l]; an index i >= dim(S)
    would be an IndexError. *)
Definition Jz_matrices (S : weight) : res nd :=
  let n := size S in
  do d <- dimS S;
  do Ms <- S_to_Ms S;
  if (`|d|%N < size Ms)%N && (1 < n)%N then Err IndexError
  else Ok (Nd [:: (n - 1)%N; `|d|%N; `|d|%N] (fun idx =>
    let i := nth 0%N idx 1 in
    if (i == nth 0%N idx 2) && (i < size Ms)%N
    then nth 0 (M_to_z_weight (nth [::] Ms i)) (nth 0%N idx 0) else 0)).

(** E_basis (sun.py:381-390); fuel bounds |k - l|. *)
Fixpoint E_basis_fuel (fuel : nat) (k l : nat) (Jp Jm : nd) : res nd :=
  do _ <- passert (k != l);
  match fuel with
  | 0%N => Err OutOfFuel
  | fuel'.+1 =>
    if (k.+1 == l)%N then Ok (slice0 Jp k)
    else if (k < l)%N then
      do E <- E_basis_fuel fuel' k.+1 l Jp Jm; commutator (slice0 Jp k) E
    else if (k == l.+1)%N then Ok (slice0 Jm l)
    else do E <- E_basis_fuel fuel' k.-1 l Jp Jm; commutator (slice0 Jm k.-1) E
  end.
Definition E_basis (k l : nat) (Jp Jm : nd) : res nd := E_basis_fuel (k + l) k l Jp Jm.

(** generators (sun.py:393-418). *)
Definition su_pairs (N : nat) : seq (nat * nat) :=
  [seq (k, l) | k <- iota 0 N, l <- iota k.+1 (N - k.+1)].
Definition sun_generators (S : weight) : res nd :=
  let N := size S in
  if N == 1%N then Ok (zeros [:: 1; 1; 1]%N)
  else
    do Jp <- upper_ladder_matrices S;
    do Jm <- lower_ladder_matrices S;
    do Jz <- Jz_matrices S;
    do Li <- mapR (fun p => do a <- E_basis p.1 p.2 Jp Jm; do b <- E_basis p.2 p.1 Jp Jm;
                            do s <- add a b; Ok (scale 'i s)) (su_pairs N);
    do Xi <- stack Li;
    do Lr <- mapR (fun p => do a <- E_basis p.1 p.2 Jp Jm; do b <- E_basis p.2 p.1 Jp Jm;
                            sub a b) (su_pairs N);
    do Xr <- stack Lr;
    let Xd := scale (2%:R * 'i) Jz in
    do X <- concat2 Xi Xr;
    concat2 X Xd.

(** np.reshape(a, (d1, ..., dk, -1)). *)
Definition reshape_last (a : nd) (sh : seq nat) : res nd :=
  if nprod sh == 0%N then Err ValueError
  else reshape a (rcons sh (nprod (shape a) %/ nprod sh)%N).
(** algebra (sun.py:421-438); round_to_sqrt_rational is the identity (exact arithmetic). *)
Definition sun_algebra_of (S : weight) : res nd :=
  let m := (size S ^ 2 - 1)%N in
  do X <- sun_generators S;
  do x <- reshape_last X [:: m];
  do pix <- np_pinv x;
  do C1 <- einsum2 "iab" "jbc" "ijac" X X;
  do C2 <- einsum2 "jab" "ibc" "ijac" X X;
  do D <- sub C1 C2;
  do D <- reshape_last D [:: m; m];
  do A <- einsum2 "ijz" "zk" "ijk" D pix;
  Ok (nd_Re A).
(** SUN.algebra (sun.py:484-487). *)
Definition sun_algebra (S : weight) : res nd :=
  if S == [:: 0] then Ok (zeros [:: 1; 1; 1]%N)
  else sun_algebra_of (1 :: nseq (size S - 1) 0).
(** SUN.__post_init__ (445-448), SUN as a representation (dim 470-472, discrete_generators
    478-479, continuous_generators 481-482).  SU2_, SU3 and SU4 (490-523) replace the
    checks by len(S) == 2, 3, 4. *)
Definition sun_new (S : weight) : res weight :=
  do _ <- passert (valid_S S);
  do _ <- passert (last 0 S == 0);
  Ok S.
Definition sun_rep (S : weight) : res (rep C) :=
  do X <- sun_generators S;
  do A <- sun_algebra S;
  do d <- dimS S;
  Ok (MkRep A X (zeros [:: 0%N; `|d|%N; `|d|%N])).
End Ladder.

(** Python's strict order on tuples. *)
Fixpoint lexlt (T : eqType) (lt : rel T) (s t : seq T) : bool :=
  match s, t with
  | x :: s', y :: t' => if x == y then lexlt lt s' t' else lt x y
  | [::], _ :: _ => true
  | _, [::] => false
  end.
(** SUN.__mul__ (456-457): the sorted list of the distinct weights of mul_rep; a weight that
    SUN.__post_init__ refuses raises. *)
Definition sun_mul (S1 S2 : weight) : res (seq weight) :=
  do l <- mul_rep S1 S2;
  mapR sun_new (sort (fun s t => ~~ lexlt <%R t s) (undup l)).
