(** Finite: model of finite.py (the representations of the symmetric groups) and of
    util.regular_representation, util.unique_with_tol and util.eigenspaces. *)
From mathcomp Require Import all_ssreflect all_algebra.
From Verif Require Import Base Nd Reps.

Set Implicit Arguments.
Unset Strict Implicit.
Unset Printing Implicit Defensive.

Import GRing.Theory Num.Theory.
Local Open Scope ring_scope.

Section Finite.
Variable C : numClosedFieldType.
Notation nd := (nd C).

(** The assignment m[idx] = x of one entry, idx within the shape. *)
Definition set_at (m : nd) (idx : seq nat) (x : C) : nd :=
  Nd (shape m) (fun i => if i == idx then x else get m i).

(** finite.py:12-22: _permutation_matrix; the fancy assignment m[p, range(n)] = 1 checks
    all the indices.  Entries of p are natural numbers. *)
Definition permutation_matrix (p : seq nat) : res nd :=
  let n := size p in
  if ~~ all (fun i => i < n)%N p then Err IndexError else
  Ok (foldl (fun m (ik : nat * nat) => set_at m [:: ik.1; ik.2] 1) (zeros [:: n; n]) (zip p (iota 0 n))).

(** finite.py:25-33: _transposition_matrix. *)
Definition transposition_matrix (n i j : nat) : res nd :=
  do _ <- passert (i < n)%N;
  do _ <- passert (j < n)%N;
  let m := eye n in
  let m := set_at m [:: i; i] 0 in
  let m := set_at m [:: j; j] 0 in
  let m := set_at m [:: i; j] 1 in
  let m := set_at m [:: j; i] 1 in
  Ok m.

(** m[None, :, :] *)
Definition expand0 (m : nd) : nd := Nd (1%N :: shape m) (fun idx => get m (behead idx)).

(** finite.py:36-60: Sn_natural. *)
Definition sn_natural_H (n : nat) : res nd :=
  if n == 1%N then Ok (zeros [:: 0; 1; 1]%N) else
  if n == 2%N then do m <- transposition_matrix 2 0 1; Ok (expand0 m) else
  do t <- transposition_matrix n 0 1;
  do c <- permutation_matrix [seq (i.+1 %% n)%N | i <- iota 0 n];
  stack [:: t; c].
Definition sn_natural (n : int) : res (rep C) :=
  do _ <- passert (1 <= n);
  let n := `|n|%N in
  do H <- sn_natural_H n;
  Ok (MkRep (zeros [:: 0; 0; 0]%N) (zeros [:: 0%N; n; n]) H).

(** finite.py:66-115: Sn_standard. *)
Definition sn_H_tr (n : nat) : nd :=
  foldl (fun m i => set_at (set_at m [:: i; i] 1) [:: 0%N; i] (-1))
        (set_at (zeros [:: n.-1; n.-1]) [:: 0; 0]%N (-1)) (iota 1 (n - 2)).
Definition sn_H_cy (n : nat) : nd :=
  set_at (foldl (fun m i => set_at (set_at m [:: i.+1; i] 1) [:: 0%N; i] (-1))
                (zeros [:: n.-1; n.-1]) (iota 0 (n - 2)))
         [:: 0%N; (n - 2)%N] (-1).
Definition sn_standard (n : int) : res (rep C) :=
  do _ <- passert (2%:Z <= n);
  let n := `|n|%N in
  do H <- (if n == 2%N then Ok (scale (-1) (ones [:: 1; 1; 1]%N)) else stack [:: sn_H_tr n; sn_H_cy n]);
  Ok (MkRep (zeros [:: 0; 0; 0]%N) (zeros [:: 0%N; n.-1; n.-1]) H).

(** finite.py:121-142: Sn_trivial; for n <= 0 the method falls through and returns None. *)
Definition sn_trivial_H (n : int) : option nd :=
  if n == 1 then Some (ones [:: 0; 1; 1]%N) else
  if n == 2%:Z then Some (ones [:: 1; 1; 1]%N) else
  if 3%:Z <= n then Some (ones [:: 2; 1; 1]%N) else None.
Definition sn_trivial (n : int) : option (rep C) :=
  omap (MkRep (zeros [:: 0; 0; 0]%N) (zeros [:: 0; 1; 1]%N)) (sn_trivial_H n).

(** finite.py:62-63 and 117-118: create_trivial. *)
Definition sn_create_trivial (r : rep C) : res (rep C) :=
  do h <- len0 (rH r); Ok (MkRep (rA r) (zeros [:: 0; 1; 1]%N) (ones [:: h; 1; 1]%N)).

(** util.py:592-606: regular_representation.  The table has shape (n, m) and natural
    entries; the three index arrays broadcast against each other. *)
Definition regular_representation (n m : nat) (t : nat -> nat -> nat) : res nd :=
  if ~~ [|| m == n, m == 1%N | n == 1%N] then Err IndexError else
  let w := if n == 1%N then m else n in
  let cells := [seq (let: (i, j) := ij in
                     ((if n == 1%N then 0%N else i), t i (if m == 1%N then 0%N else j), (if n == 1%N then 0%N else j)))
               | ij <- allpairs pair (iota 0 n) (iota 0 w)] in
  if ~~ all (fun c => c.1.2 < n)%N cells then Err IndexError else
  Ok (foldl (fun a c => set_at a [:: c.1.1; c.1.2; c.2] 1) (zeros [:: n; n; n]) cells).

(** util.py:502-545: unique_with_tol.  Labels -1 are None; the loop runs on fuel.
    Division of an integer array (a dtype error) is not modelled. *)
Definition sq_dist (k : nat) (a : nd) (i j : nat) : C :=
  sqrtC (\sum_(x < k) `|get a [:: i; x : nat] - get a [:: j; x : nat]| ^+ 2).
Fixpoint uwt_loop (fuel : nat) (near : nat -> nat -> bool) (inv : seq (option nat)) (index : nat)
    : res (seq (option nat)) :=
  match fuel with
  | 0 => Err OutOfFuel
  | f.+1 =>
    if all isSome inv then Ok inv else
    let i := find (fun o => ~~ isSome o) inv in
    if has (fun jo : nat * option nat => near i jo.1 && isSome jo.2) (zip (iota 0 (size inv)) inv)
    then Err ValueError else
    uwt_loop f near [seq (if near i jo.1 then Some index else jo.2) | jo <- zip (iota 0 (size inv)) inv] index.+1
  end.
Definition unique_with_tol (fuel : nat) (tol : C) (a : nd) : res (nd * seq nat) :=
  do _ <- passert (0 < size (shape a))%N;
  let n := len a in
  if n == 0%N then Err ValueError else
  let k := (nprod (shape a) %/ n)%N in
  do b <- reshape a [:: n; k];
  do inv <- uwt_loop fuel (fun i j => sq_dist k b i j < tol) (nseq n None) 0;
  let inv := [seq odflt 0%N o | o <- inv] in
  let m := (foldr maxn 0%N inv).+1 in
  let centers := Nd [:: m; k] (fun idx =>
    let q := nth 0%N idx 0 in
    (\sum_(i <- [seq i <- iota 0 n | nth 0%N inv i == q]) get b [:: i; nth 0%N idx 1]) /
    (count_mem q inv)%:R) in
  do c <- reshape centers (m :: behead (shape a));
  Ok (c, inv).

(** util.py:548-562: eigenspaces; vec[:, i == j] is the array of the selected columns. *)
Definition select_cols (vec : nd) (mask : seq bool) : res nd :=
  if shape vec is [:: r; c] then
    if size mask != c then Err IndexError else
    let cols := [seq j <- iota 0 c | nth false mask j] in
    Ok (Nd [:: r; size cols] (fun idx => get vec [:: nth 0%N idx 0; nth 0%N cols (nth 0%N idx 1)]))
  else Err IndexError.
Definition eigenspaces (fuel : nat) (eps : C) (val vec : nd) : res (seq (nd * nd)) :=
  do u <- unique_with_tol fuel eps val;
  let: (c, inv) := u in
  mapR (fun j => do W <- select_cols vec [seq i == j | i <- inv]; Ok (slice0 c j, W)) (iota 0 (len c)).
End Finite.
