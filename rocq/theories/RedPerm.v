(** RedPerm: model of the permutation part of
    lie_nn/_src/reduced_tensor_product.py (lines 83-90, 126-154, 260-290, 366-453).

    Strings are lists of code points (naturals).  A signed permutation is a pair
    (sign, tuple).  Python sets / frozensets are duplicate-free lists; where a set
    is itself an element of a set (reduce_permutation_base) it is represented by
    its sorted duplicate-free list, so that equality of representations is
    equality of sets. *)
From mathcomp Require Import all_ssreflect all_algebra.
From Verif Require Import Base Perm.

Set Implicit Arguments.
Unset Strict Implicit.
Unset Printing Implicit Defensive.
Import GRing.Theory Num.Theory.

(** A signed permutation / signed multi-index. *)
Notation sp := (int * seq nat)%type.

Notation code_minus := 45.
Notation code_eq := 61.

(** [str.split("=")]. *)
Fixpoint split_on (c : nat) (s : seq nat) : seq (seq nat) :=
  match s with
  | [::] => [:: [::]]
  | x :: s' =>
    if x == c then [::] :: split_on c s' else
    match split_on c s' with
    | [::] => [:: [:: x]]
    | w :: ws => (x :: w) :: ws
    end
  end.

(** reduced_tensor_product.py:262: [(-1 if f.startswith("-") else 1, f.replace("-", ""))]. *)
Definition parse_term (f : seq nat) : sp :=
  ((if (if f is x :: _ then x == code_minus else false) then (-1)%R else 1%R),
   [seq x <- f | x != code_minus]).

(** [set(f) == set(g)]. *)
Definition same_set (T : eqType) (f g : seq T) : bool :=
  all (fun x => x \in g) f && all (fun x => x \in f) g.

(** One round of the loop, lines 282-288. *)
Definition gpr_step (s : seq sp) : res (seq sp) :=
  do inv <- mapR (fun p : sp => do q <- inverse p.2; Ok (p.1, q)) s;
  let s := set_union s inv in
  do cmp <- mapR (fun pq : sp * sp =>
                    do q <- compose pq.1.2 pq.2.2; Ok ((pq.1.1 * pq.2.1)%R, q))
                 [seq (p1, p2) | p1 <- s, p2 <- s];
  Ok (set_union s cmp).
Fixpoint gpr_loop (fuel : nat) (s : seq sp) : res (seq sp) :=
  match fuel with
  | 0 => Err OutOfFuel
  | f.+1 =>
    let n := size s in
    do s' <- gpr_step s;
    if size s' == n then Ok s' else gpr_loop f s'
  end.

(** Lines 259-290.  (The lru_cache decorator is the identity.) *)
Definition germinate_perm_repr (fuel : nat) (formula : seq nat) : res (seq nat * seq sp) :=
  let formulas := [seq parse_term f | f <- split_on code_eq formula] in
  let (s0, f0) := head (1%R, [::]) formulas in
  do _ <- passert (s0 == 1%R);
  do _ <- foldR (fun _ (sf : sp) =>
            if (size (undup sf.2) != size sf.2) || ~~ same_set sf.2 f0 then Err RuntimeError
            else if size f0 != size sf.2 then Err RuntimeError else Ok tt) tt formulas;
  do perm_repr <- mapR (fun sf : sp => do p <- mapR (fun i => pyindex sf.2 i) f0; Ok (sf.1, p)) formulas;
  do r <- gpr_loop fuel (undup perm_repr);
  Ok (f0, r).

(** Lines 366-376.  [sub_f0] is the frozenset as a duplicate-free list in any order. *)
Definition subrepr_permutation (sub_f0 : seq nat) (perm_repr : seq sp) : seq sp :=
  let sor := sort leq sub_f0 in
  undup [seq (sp.1, [seq index i sor | i <- sp.2 & i \in sub_f0])
        | sp <- perm_repr
        & all (fun ji : nat * nat => (ji.2 \in sub_f0) || (ji.2 == ji.1))
              (zip (iota 0 (size sp.2)) sp.2)].

(** Lines 400-402: the list of itertools.product of range(d) for d in dims. *)
Fixpoint full_base (dims : seq nat) : seq (seq nat) :=
  if dims is d :: dims' then [seq k :: e | k <- iota 0 d, e <- full_base dims'] else [:: [::]].

(** Python's order on tuples of ints (lexicographic, shorter prefix first), on
    signed multi-indices, and on lists of them. *)
Fixpoint lexle (T : eqType) (le : rel T) (s t : seq T) : bool :=
  match s, t with
  | [::], _ => true
  | _ :: _, [::] => false
  | x :: s', y :: t' => if x == y then lexle le s' t' else le x y
  end.
Definition sp_le (a b : sp) : bool :=
  if a.1 == b.1 then lexle leq a.2 b.2 else (a.1 <= b.1)%R.
Definition sps_le : rel (seq sp) := lexle sp_le.
Definition spss_le : rel (seq (seq sp)) := lexle sps_le.

(** frozenset of signed multi-indices, canonically. *)
Definition fset1 (xs : seq sp) : seq sp := sort sp_le (undup xs).
Definition fset2 (xs : seq (seq sp)) : seq (seq sp) := sort sps_le (undup xs).

(** [tuple(x[i] for i in p)] on indices in range. *)
Definition act (x : seq nat) (p : seq nat) : seq nat := [seq nth 0 x i | i <- p].

(** Lines 405-427. *)
Definition orbit_of (perm_repr : seq sp) (x : seq nat) : seq sp :=
  undup [seq (sp.1, act x sp.2) | sp <- perm_repr].
Definition neg_sp (a : sp) : sp := ((- a.1)%R, a.2).
Definition reduce_permutation_base (perm_repr : seq sp) (dims : seq nat) : seq (seq (seq sp)) :=
  undup [seq (let xs := orbit_of perm_repr x in fset2 [:: fset1 xs; fset1 [seq neg_sp a | a <- xs]])
        | x <- full_base dims
        & ((-1)%R, x) \notin orbit_of perm_repr x].

Section Matrix.
Variable C : numClosedFieldType.

(** Lines 445-448: [j = 0; for k, d in zip(e, dims): j *= d; j += k]. *)
Definition flat (e dims : seq nat) : nat := foldl (fun j kd => j * kd.2 + kd.1) 0 (zip e dims).

(** [prod(dims)], util.py:8-10. *)
Definition prodn (s : seq nat) : nat := foldl muln 1 s.

(** [max(x, key=lambda xs: sum(s for s, x in xs))]: the first maximal element. *)
Definition sgn_sum (xs : seq sp) : int := foldl (fun a (b : sp) => (a + b.1)%R) 0%R xs.
Definition max_by (x : seq (seq sp)) : seq sp :=
  foldl (fun best xs => if (sgn_sum best < sgn_sum xs)%R then xs else best) (head [::] x) (behead x).

(** [Q[i, j] = s / len(x) ** 0.5] for all (s, e) in x, on a zero row (lines 442-449). *)
Definition fill_row (x : seq sp) (dims : seq nat) : res (seq C) :=
  foldR (fun row (se : sp) =>
           let j := flat se.2 dims in
           if j < size row then Ok (set_nth 0%R row j ((se.1)%:~R / sqrtC (size x)%:R)%R)
           else Err IndexError)
        (nseq (prodn dims) 0%R) x.

(** Lines 430-453.  Result: the rows of Q (the final reshape only regroups each
    row, in row-major order).  The [np.testing.assert_allclose(Q @ Q.T, eye)] is
    modelled exactly. *)
Definition dotp (u v : seq C) : C := (\sum_(ab <- zip u v) ab.1 * ab.2)%R.
Definition reduce_permutation_matrix (base : seq (seq (seq sp))) (dims : seq nat) : res (seq (seq C)) :=
  let base := sort spss_le [seq sort sps_le [seq sort sp_le xs | xs <- x] | x <- base] in
  do Q <- mapR (fun x => fill_row (max_by x) dims) base;
  do _ <- passert (all (fun i => all (fun j =>
            dotp (nth [::] Q i) (nth [::] Q j) == (i == j)%:R%R) (iota 0 (size Q)))
          (iota 0 (size Q)));
  Ok Q.

(** Lines 379-397 with the iteration order of the frozenset made explicit: [order]
    lists [sub_f0] in the order in which Python iterates over it.
    [None] in the result of the first function stands for the basis. *)
Definition sub_dims (order dims : seq nat) : seq nat := [seq nth 0 dims i | i <- order].
Definition reduce_subgroup_dim (order : seq nat) (perm_repr : seq sp) (dims : seq nat) : nat :=
  let sub := subrepr_permutation order perm_repr in
  let sd := sub_dims order dims in
  if size sub == 1 then prodn sd else size (reduce_permutation_base sub sd).
Definition eye_rows (n : nat) : seq (seq C) :=
  [seq [seq (i == j)%:R%R | j <- iota 0 n] | i <- iota 0 n].
Definition reduce_subgroup_permutation (order : seq nat) (perm_repr : seq sp) (dims : seq nat) : res (seq (seq C)) :=
  let sub := subrepr_permutation order perm_repr in
  let sd := sub_dims order dims in
  if size sub == 1 then Ok (eye_rows (prodn sd)) else
  reduce_permutation_matrix (reduce_permutation_base sub sd) sd.
End Matrix.

(** Lines 83-89 ([_to_reducedrep]) and 126-154: the irreps given by keyword.

    ReducedRep (reduced_rep.py:50) defines no [__eq__], so [!=] on line 139
    compares objects by identity.  An object is [(id, payload)]; [!=] looks only at
    [id].  A keyword argument is either an existing ReducedRep object ([inl]) or a
    TabulatedIrrep / MulIrrep ([inr]), for which [_to_reducedrep] builds a new
    object; [fresh] is the next unused identity.  Python's dict is an association
    list in insertion order; keys are strings. *)
Section Assign.
Variable V : Type.
Definition obj := (nat * V)%type.
Definition to_reducedrep (fresh : nat) (a : obj + V) : obj :=
  match a with inl o => o | inr v => (fresh, v) end.
Fixpoint to_reducedreps (fresh : nat) (d : seq (seq nat * (obj + V))) : seq (seq nat * obj) :=
  if d is (k, a) :: d' then (k, to_reducedrep fresh a) :: to_reducedreps fresh.+1 d' else [::].

Fixpoint dget (d : seq (seq nat * obj)) (k : seq nat) : option obj :=
  if d is (k', o) :: d' then if k' == k then Some o else dget d' k else None.
(** [d[k] = o]: replaces in place or appends. *)
Fixpoint dset (d : seq (seq nat * obj)) (k : seq nat) (o : obj) : seq (seq nat * obj) :=
  if d is (k', o') :: d' then if k' == k then (k, o) :: d' else (k', o') :: dset d' k o
  else [:: (k, o)].

(** Lines 138-144 for one pair (i, j) of letters. *)
Definition assign_pair (d : seq (seq nat * obj)) (ij : nat * nat) : res (seq (seq nat * obj)) :=
  let i := [:: ij.1] in let j := [:: ij.2] in
  do _ <- match dget d i, dget d j with
          | Some oi, Some oj => if oi.1 != oj.1 then Err RuntimeError else Ok tt
          | _, _ => Ok tt
          end;
  let d := if dget d i is Some oi then dset d j oi else d in
  let d := if dget d j is Some oj then dset d i oj else d in
  Ok d.

(** Lines 130-154; [perm_repr] is listed in the order in which Python iterates. *)
Definition assign_irreps (f0 : seq nat) (perm_repr : seq sp) (fresh : nat)
    (kw : seq (seq nat * (obj + V))) : res (seq obj) :=
  let d := to_reducedreps fresh kw in
  do _ <- (if has (fun ko => size ko.1 != 1) d then Err TypeError else Ok tt);
  do d <- foldR (fun d (p : sp) => foldR assign_pair d (zip f0 (act f0 p.2))) d perm_repr;
  do _ <- (if all (fun i => isSome (dget d [:: i])) f0 then Ok tt else Err RuntimeError);
  do _ <- (if all (fun ko => has (fun i => ko.1 == [:: i]) f0) d then Ok tt else Err RuntimeError);
  mapR (fun i => if dget d [:: i] is Some o then Ok o else Err RuntimeError) f0.
End Assign.
