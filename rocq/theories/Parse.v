(** Parse: model of the from_string methods: su2.py:19-21, so3_real.py:28-30,
    o3_real.py:16-21, z2.py:13-17, sl2c.py:24-28, so13.py:28-32, sun.py:450-454 (and
    son.py:30-34, spn.py:26-30), reduced_rep.py:16-22 and 65-71.

    A Python str is the list of its code points.  Of the Unicode white space and decimal
    digits, only the ASCII ones are recognised; CPython's limit of 4300 digits on int()
    is not modelled. *)
From mathcomp Require Import all_ssreflect all_algebra.
From Verif Require Import Base Nd Reps Reduced Labels Sun.

Set Implicit Arguments.
Unset Strict Implicit.
Unset Printing Implicit Defensive.

Import GRing.Theory Num.Theory.
Local Open Scope ring_scope.

Definition str := seq nat.
(** Code points: ( is 40, ) 41, + 43, comma 44, - 45, 0 48, 9 57, _ 95, e 101, o 111, x 120. *)
Definition isdigit (c : nat) : bool := (48 <= c <= 57)%N.
Definition isspace (c : nat) : bool := ((9 <= c <= 13) || (28 <= c <= 32))%N.

(** s.strip() *)
Fixpoint lstrip (s : str) : str := if s is c :: s' then if isspace c then lstrip s' else s else [::].
Definition strip (s : str) : str := rev (lstrip (rev (lstrip s))).

(** int(s): white space, a sign, digits with single underscores between them. *)
Fixpoint int_body (s : str) (acc : nat) (digit : bool) : option nat :=
  match s with
  | [::] => if digit then Some acc else None
  | c :: s' =>
    if isdigit c then int_body s' (acc * 10 + (c - 48))%N true
    else if (c == 95)%N && digit then int_body s' acc false
    else None
  end.
Definition py_int (s : str) : res int :=
  let nat_ s := int_body s 0 false in
  match strip s with
  | c :: s' =>
    if (c == 45)%N then if nat_ s' is Some n then Ok (- n%:Z) else Err ValueError
    else if (c == 43)%N then if nat_ s' is Some n then Ok n%:Z else Err ValueError
    else if nat_ (c :: s') is Some n then Ok n%:Z else Err ValueError
  | [::] => Err ValueError
  end.

(** s.split(c) for a single character c. *)
Fixpoint split (c : nat) (s : str) : seq str :=
  match s with
  | [::] => [:: [::]]
  | x :: s' =>
    if x == c then [::] :: split c s'
    else if split c s' is h :: t then (x :: h) :: t else [:: [:: x]]
  end.

(** re.match(r"\((\d+),(\d+)\)", s): the two groups.  The match is of a prefix of s; as a
    digit is neither a comma nor a parenthesis the first (greedy) attempt decides. *)
Fixpoint span (s : str) : str * str :=
  if s is c :: s' then if isdigit c then let r := span s' in (c :: r.1, r.2) else ([::], s)
  else ([::], [::]).
Definition match_pair (s : str) : option (str * str) :=
  if s is 40%N :: s1 then
    let: (d1, r1) := span s1 in
    if d1 is [::] then None
    else if r1 is 44%N :: r1' then
      let: (d2, r2) := span r1' in
      if d2 is [::] then None
      else if r2 is 41%N :: _ then Some (d1, d2) else None
    else None
  else None.
(** re.match(r"\((\d+(?:,\d+)*)\)", s): the group.  [digit]: the last character read is a
    digit. *)
Fixpoint match_list_loop (s : str) (digit : bool) (acc : str) : option str :=
  match s with
  | [::] => None
  | c :: s' =>
    if isdigit c then match_list_loop s' true (rcons acc c)
    else if digit && (c == 44)%N then match_list_loop s' false (rcons acc c)
    else if digit && (c == 41)%N then Some acc
    else None
  end.
Definition match_list (s : str) : option str :=
  if s is 40%N :: s1 then match_list_loop s1 false [::] else None.

Definition su2_from_string (s : str) : res int := do j <- py_int s; su2_new j.
Definition so3_from_string (s : str) : res int := py_int s.
(** {"e": 1, "o": -1}[c] *)
Definition parity (s : str) : res int :=
  if s == [:: 101%N] then Ok 1 else if s == [:: 111%N] then Ok (-1) else Err KeyError.
(** int(s[:-1]) is evaluated before s[-1]; on the empty string it raises. *)
Definition o3_from_string (s : str) : res (int * int) :=
  let s := strip s in
  do l <- py_int (take (size s).-1 s);
  do p <- if s is [::] then Err IndexError else parity [:: last 0%N s];
  Ok (l, p).
Definition z2_from_string (s : str) : res int := parity (strip s).
Definition sl2c_from_string (s : str) : res (int * int) :=
  if match_pair (strip s) is Some (a, b) then
    do l <- py_int a; do k <- py_int b; sl2c_new (l, k)
  else Err AssertionError.
Definition so13_from_string (s : str) : res (int * int) :=
  if match_pair (strip s) is Some (a, b) then
    do l <- py_int a; do k <- py_int b; so13_new (l, k)
  else Err AssertionError.
(** m.group on None is an AttributeError.  [new] is the constructor: SUN's checks, a test
    of the length for SU2_, SU3, SU4, no test for SON and SPN. *)
Definition weights_from_string (new : seq int -> res (seq int)) (s : str) : res (seq int) :=
  if match_list s is Some g then
    do S <- mapR py_int (split 44 g); new S
  else Err AttributeError.
Definition sun_from_string : str -> res (seq int) := weights_from_string sun_new.

(** MulIrrep.from_string (reduced_rep.py:16-22); cls is cls_irrep.from_string. *)
Definition mul_from_string (L : Type) (cls : str -> res L) (s : str) : res (int * L) :=
  if (120 \in s)%N then
    match split 120 s with
    | [:: m; r] => do m <- py_int m; do r <- cls r; Ok (m, r)
    | _ => Err ValueError
    end
  else do r <- cls s; Ok (1, r).

(** ReducedRep.from_string (reduced_rep.py:65-71, 81-103): the terms, then from_irreps. *)
Definition terms_from_string (L : Type) (cls : str -> res L) (s : str) : res (seq (int * L)) :=
  mapR (mul_from_string cls) (split 43 s).
Definition reduced_from_string (C : numClosedFieldType) (G : irreps C) (cls : str -> res (label G))
    (s : str) (Q : option (nd C)) : res (reducedrep G) :=
  do ts <- terms_from_string cls s;
  do l <- mapR (fun t : int * label G => do _ <- passert (0 <= t.1); Ok (MulIrrep `|t.1|%N t.2)) ts;
  from_irreps l Q.
