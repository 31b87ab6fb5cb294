(** Perm: model of lie_nn/_src/discrete_groups/perm.py (whole file) and of
    [permutation_sign] (lie_nn/_src/util.py:488-499).

    Simplifications: entries of tuples are natural numbers (negative Python
    ints are never permutations entries); Python sets of tuples are
    duplicate-free lists, and every statement about them is by membership. *)
From mathcomp Require Import all_ssreflect.
From Verif Require Import Base.

Set Implicit Arguments.
Unset Strict Implicit.
Unset Printing Implicit Defensive.

Notation tup := (seq nat).

(** perm.py:9-10: [sorted(set(p)) == list(range(len(p)))]. *)
Definition is_perm (p : tup) : bool := sort leq (undup p) == iota 0 (size p).

(** perm.py:13-14. *)
Definition identity (n : nat) : tup := [seq i | i <- iota 0 n].

(** Python list indexing [p[i]] for a natural [i]: IndexError out of range. *)
Definition getitem (T : Type) (p : seq T) (i : nat) : res T :=
  nth (Err IndexError) [seq Ok x | x <- p] i.

(** perm.py:17-23. *)
Definition compose (p1 p2 : tup) : res tup :=
  do _ <- passert (is_perm p1 && is_perm p2);
  do _ <- passert (size p1 == size p2);
  mapR (fun i => do j <- getitem p2 i; getitem p1 j) (iota 0 (size p1)).

(** Python [p.index(x)]: ValueError when absent. *)
Definition pyindex (T : eqType) (p : seq T) (x : T) : res nat :=
  if x \in p then Ok (index x p) else Err ValueError.

(** perm.py:26-27. *)
Definition inverse (p : tup) : res tup :=
  mapR (fun i => pyindex p i) (iota 0 (size p)).

(** Python [pool.pop(j)] for a natural [j]: the removed element and the rest. *)
Definition pop (T : Type) (s : seq T) (j : nat) : res (T * seq T) :=
  do x <- getitem s j; Ok (x, take j s ++ drop j.+1 s).

(** perm.py:35-43.  Loop of [k] rounds with state (i, n, pool, p). *)
Fixpoint from_int_loop (k i n : nat) (pool p : tup) : res tup :=
  match k with
  | 0 => Ok p
  | k'.+1 =>
    if n == 0 then Err ZeroDivisionError else
    let j := i %% n in
    let i := i %/ n in
    do xr <- pop pool j;
    from_int_loop k' i n.-1 xr.2 (rcons p xr.1)
  end.
Definition from_int (i n : nat) : res tup := from_int_loop n i n (iota 0 n) [::].

(** perm.py:46-56. *)
Fixpoint to_int_loop (p : tup) (pool : tup) (i m : nat) : res nat :=
  match p with
  | [::] => Ok i
  | j :: p' =>
    do k <- pyindex pool j;
    let i := i + k * m in
    let m := m * size pool in
    do xr <- pop pool k;
    to_int_loop p' xr.2 i m
  end.
Definition to_int (p : tup) : res nat := to_int_loop p (iota 0 (size p)) 0 1.

(** perm.py:59-60: a set comprehension. *)
Definition group (n : nat) : res (seq tup) :=
  do s <- mapR (fun i => from_int i n) (iota 0 n`!); Ok (undup s).

(** Python [set.union(list)] for sets as duplicate-free lists. *)
Definition set_union (T : eqType) (s t : seq T) : seq T := undup (s ++ t).

(** perm.py:63-69.  One round of the [while True] loop. *)
Definition germinate_step (s : seq tup) : res (seq tup) :=
  do inv <- mapR inverse s;
  let s := set_union s inv in
  do cmp <- mapR (fun pq => compose pq.1 pq.2) [seq (p1, p2) | p1 <- s, p2 <- s];
  Ok (set_union s cmp).
Fixpoint germinate (fuel : nat) (s : seq tup) : res (seq tup) :=
  match fuel with
  | 0 => Err OutOfFuel
  | f.+1 =>
    let n := size s in
    do s' <- germinate_step s;
    if size s' == n then Ok s' else germinate f s'
  end.

(** Loops "for x in s: if not test(x): return False" whose test may raise. *)
Fixpoint allR (T : Type) (f : T -> res bool) (s : seq T) : res bool :=
  match s with
  | [::] => Ok true
  | x :: s' => do b <- f x; if b then allR f s' else Ok false
  end.

(** perm.py:72-93. *)
Definition is_group (g : seq tup) : res bool :=
  match g with
  | [::] => Ok false
  | p0 :: _ =>
    let n := size p0 in
    do _ <- passert (all (fun p => size p == n) g);
    if identity n \notin g then Ok false else
    do b <- allR (fun p => do q <- inverse p; Ok (q \in g)) g;
    if ~~ b then Ok false else
    allR (fun pq => do q <- compose pq.1 pq.2; Ok (q \in g))
         [seq (p1, p2) | p1 <- g, p2 <- g]
  end.

(** perm.py:96-112.  The inner [while] loop, on fuel. *)
Fixpoint cycle_loop (fuel : nat) (p : tup) (i : nat) (c : tup) : res tup :=
  match fuel with
  | 0 => Err OutOfFuel
  | f.+1 =>
    do pi <- getitem p i;
    if pi != head 0 c then cycle_loop f p pi (rcons c pi) else Ok c
  end.
(** [min(c)]. *)
Definition minl (c : tup) : nat := foldr minn (head 0 c) c.
Definition to_cycles_body (fuel : nat) (p : tup) (cycles : seq tup) (i : nat) : res (seq tup) :=
  do c <- cycle_loop fuel p i [:: i];
  if 2 <= size c then
    do k <- pyindex c (minl c);
    let c := drop k c ++ take k c in
    Ok (set_union cycles [:: c])
  else Ok cycles.
Definition to_cycles (fuel : nat) (p : tup) : res (seq tup) :=
  foldR (to_cycles_body fuel p) [::] (iota 0 (size p)).

(** perm.py:115-120.  Signs are booleans-as-integers: [1] and [-1] in Z. *)
From Coq Require Import ZArith.
Definition sign (fuel : nat) (p : tup) : res Z :=
  do cs <- to_cycles fuel p;
  Ok (foldl (fun (s : Z) (c : tup) => if size c %% 2 == 0 then (- s)%Z else s) 1%Z cs).

(** util.py:488-499. *)
Definition permutation_sign (p : tup) : Z :=
  if size p == 1 then 1%Z else
  let trans :=
    sumn [seq sumn [seq (if nth 0 p j < nth 0 p i then 1 else 0)
                   | j <- iota i.+1 (size p - i.+1)]
         | i <- iota 0 (size p)] in
  if trans %% 2 == 0 then 1%Z else (-1)%Z.
