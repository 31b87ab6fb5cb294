(** Util: model of util.vmap, check_algebra_vs_generators,
    infer_algebra_from_generators, GenericRep.from_generators, Rep.exp_map and of
    jax_utils.matrix_power and jax_utils.exp_map. *)
From Coq Require Import ZArith String Ascii.
From mathcomp Require Import all_ssreflect all_algebra.
From Verif Require Import Base Nd Reps.

Set Implicit Arguments.
Unset Strict Implicit.
Unset Printing Implicit Defensive.

Import GRing.Theory Num.Theory.
Local Open Scope ring_scope.
Local Open Scope string_scope.

(** Inserting in a list at a position, and removing a position. *)
Definition insert_at (T : Type) (k : nat) (x : T) (s : seq T) : seq T := take k s ++ x :: drop k s.
Definition rem_at (T : Type) (k : nat) (s : seq T) : seq T := take k s ++ drop k.+1 s.
(** list.insert(k, x): positions are clipped to the list. *)
Definition py_insert (T : Type) (k : int) (x : T) (s : seq T) : seq T :=
  match k with
  | Posz k => insert_at (minn k (size s)) x s
  | Negz k => insert_at (size s - k.+1) x s
  end.
(** The axis [ax] of an array with r axes, counted from the end when negative. *)
Definition norm_axis (ax : int) (r : nat) : option nat :=
  match ax with
  | Posz k => if (k < r)%N then Some k else None
  | Negz k => if (k < r)%N then Some (r - k.+1)%N else None
  end.

Section Util.
Variable C : numClosedFieldType.
Notation nd := (nd C).

(** np.take(a, i, ax) *)
Definition take_ax (a : nd) (i p : nat) : nd :=
  Nd (rem_at p (shape a)) (fun idx => get a (insert_at p i idx)).
(** np.stack(l, axis=ax); numpy's AxisError is a ValueError. *)
Definition stack_ax (ax : int) (l : seq nd) : res nd :=
  match l with
  | [::] => Err ValueError
  | a :: _ =>
    if ~~ all (fun b => shape b == shape a) l then Err ValueError else
    if norm_axis ax (size (shape a)).+1 is Some p
    then Ok (Nd (insert_at p (size l) (shape a)) (fun idx => get (nth a l (nth 0%N idx p)) (rem_at p idx)))
    else Err ValueError
  end.

(** The values returned by the mapped functions: an array or a tuple of arrays. *)
Inductive vout := VArr of nd | VTup of seq nd.

(** arg.shape[in_axis] for the arguments that are mapped. *)
Fixpoint axis_dims (args : seq nd) (axes : seq (option int)) : res (seq nat) :=
  match args, axes with
  | a :: args', Some ax :: axes' =>
    if norm_axis ax (size (shape a)) is Some p
    then do l <- axis_dims args' axes'; Ok (nth 0%N (shape a) p :: l) else Err IndexError
  | _ :: args', None :: axes' => axis_dims args' axes'
  | _, _ => Ok [::]
  end.
(** The slices at position i. *)
Definition slices (args : seq nd) (axes : seq (option int)) (i : nat) : seq nd :=
  [seq (if p.2 is Some ax
        then if norm_axis ax (size (shape p.1)) is Some q then take_ax p.1 i q else p.1
        else p.1) | p <- zip args axes].

(** tuple(np.stack(list, axis=out_axes) for list in zip( *output)); outputs that mix
    tuples and arrays are not modelled. *)
Definition vtuples (l : seq vout) : res (seq (seq nd)) :=
  mapR (fun o => if o is VTup t then Ok t else Err TypeError) l.
Definition varrays (l : seq vout) : res (seq nd) :=
  mapR (fun o => if o is VArr t then Ok t else Err TypeError) l.
Definition columns (l : seq (seq nd)) : seq (seq nd) :=
  let n := foldr minn (size (head [::] l)) [seq size t | t <- l] in
  [seq [seq nth (zeros [::]) t j | t <- l] | j <- iota 0 n].

(** util.py:118-159: vmap.  [junk] is the uninitialised content of np.empty, only
    visible when out_shape is None: np.empty(None) has shape (). *)
Variable junk : seq nat -> C.
Definition vmap (f : seq nd -> res vout) (in_axes : int + seq (option int)) (out_axes : int)
    (out_shape : option (seq nat)) (args : seq nd) : res vout :=
  let axes := match in_axes with inl k => nseq (size args) (Some k) | inr l => l end in
  do _ <- passert (size axes == size args);
  do dims <- axis_dims args axes;
  do _ <- passert (size (undup dims) == 1%N);
  let dim := head 0%N dims in
  do output <- mapR (fun i => f (slices args axes i)) (iota 0 dim);
  match output with
  | [::] => Ok (VArr (Nd (if out_shape is Some s then py_insert out_axes 0%N s else [::]) junk))
  | VTup _ :: _ => do l <- vtuples output; do t <- mapR (stack_ax out_axes) (columns l); Ok (VTup t)
  | VArr _ :: _ => do l <- varrays output; do t <- stack_ax out_axes l; Ok (VArr t)
  end.

(** A function of two arrays as an argument of vmap, and back. *)
Definition fun2 (f : nd -> nd -> res nd) (l : seq nd) : res vout :=
  match l with [:: a; b] => do c <- f a b; Ok (VArr c) | _ => Err TypeError end.
Definition arr (o : res vout) : res nd := do o <- o; if o is VArr a then Ok a else Err TypeError.

(** util.py:440-448: check_algebra_vs_generators.  np.testing.assert_allclose fails
    exactly when np.allclose is False. *)
Definition commutators (X : nd) : res nd :=
  arr (vmap (vmap (fun2 (@commutator C)) (inr [:: Some 0; None]) 0 None)
            (inr [:: None; Some 0]) 1 None [:: X; X]).
Definition check_algebra (rtol atol : C) (assert_ : bool) (A X : nd) : res bool :=
  do L <- commutators X;
  do R <- einsum2 "ijk" "kab" "ijab" A X;
  do b <- allclose rtol atol L R;
  do _ <- (if assert_ then passert b else Ok tt);
  Ok b.

(** util.py:451-486: infer_algebra_from_generators.  The array is real: the assignment
    keeps the real part.  [rnd] is round_fn. *)
Definition nd_Re (a : nd) : nd := Nd (shape a) (fun idx => 'Re (get a idx)).
Definition rtol10 : C := (10%:R ^+ 10)^-1.
Definition flat_rows (X : nd) : res nd :=
  if len X == 0%N then Err ValueError else reshape X [:: len X; (nprod (shape X) %/ len X)%N].
Definition infer_row (X P : nd) (i j : nat) : res nd :=
  do x <- commutator (slice0 X i) (slice0 X j);
  do v <- reshape x [:: 1%N; nprod (shape x)];
  do w <- matmul v P;
  Ok (nd_Re w).
Definition infer_algebra (rnd : nd -> nd) (rtol atol : C) (X : nd) : res (option nd) :=
  if size (shape X) == 0%N then Err IndexError else
  let n := len X in
  do F <- flat_rows X;
  do P <- np_pinv F;
  do rows <- mapR (fun p : nat * nat => infer_row X P p.1 p.2) (allpairs pair (iota 0 n) (iota 0 n));
  let A := rnd (Nd [:: n; n; n] (fun idx =>
    get (nth (zeros [::]) rows (nth 0%N idx 0 * n + nth 0%N idx 1)) [:: 0%N; nth 0%N idx 2])) in
  do b <- check_algebra rtol atol false A X;
  Ok (if b then Some A else None).

(** rep.py:100-111: GenericRep.from_generators. *)
Definition from_generators (rnd : nd -> nd) (X : nd) (H : option nd) : res (option (rep C)) :=
  do A <- infer_algebra rnd rtol10 rtol10 X;
  if A is Some A then
    if H is Some H then Ok (Some (MkRep A X H)) else
    if (size (shape X) < 2)%N then Err IndexError else
    let d := nth 0%N (shape X) 1 in Ok (Some (MkRep A X (zeros [:: 0%N; d; d])))
  else Ok None.

(** np.linalg.matrix_power(h, k) with an integer exponent, exact. *)
Definition mxpow (d : nat) (M : 'M[C]_d) (k : nat) : 'M[C]_d := iter k (mulmx M) 1%:M.
Definition np_matrix_power (h : nd) (k : int) : res nd :=
  match shape h with
  | [:: n; m] =>
    if n != m then Err LinAlgError else
    match k with
    | Posz k => Ok (nd_of_mx (mxpow (mx2 n n h) k))
    | Negz k => do g <- np_inv h; Ok (nd_of_mx (mxpow (mx2 n n g) k.+1))
    end
  | _ => Err LinAlgError
  end.

(** rep.py:54-70: Rep.exp_map.  [expm] is scipy.linalg.expm. *)
Variable expm : nd -> res nd.
Definition exp_map (r : rep C) (a : nd) (ks : seq int) : res nd :=
  do L <- einsum2 "a" "aij" "ij" a (rX r);
  do E <- expm L;
  foldR (fun out (kh : int * nd) => do p <- np_matrix_power kh.2 kh.1; matmul p out) E
        (rev (zip ks (rows (rH r)))).

(** jax_utils.py:14-38: matrix_power.  [empty t] is the content of jnp.empty at step t;
    n is an exact integer (jnp.divmod rounds towards minus infinity, as Z.div). *)
Definition jpow_body (empty : nat -> nd) (t : nat) (c : Z * nd * nd) : res (Z * nd * nd) :=
  let: (n, z, result) := c in
  let new_n := Z.div n 2 in let bit := Z.modulo n 2 in
  do new_result <- (if Z.eqb bit 0 then Ok result else matmul z result);
  do new_z <- (if Z.eqb new_n 0 then Ok (Nd (shape z) (get (empty t))) else matmul z z);
  Ok (new_n, new_z, new_result).
Definition jax_matrix_power (empty : nat -> nd) (F : nd) (n : Z) : res nd :=
  if Z.eqb n 1 then Ok F else
  do c <- foldR (fun c t => jpow_body empty t c) (n, F, eye (len F)) (iota 0 32);
  Ok c.2.
(** jax_utils.py:41-51: exp_map.  jax.vmap requires equal lengths; it maps over the
    first axis. *)
Definition jax_exp_map (empty : nat -> nd) (r : rep C) (a : nd) (ks : seq Z) : res nd :=
  do _ <- (if size ks == len (rH r) then Ok tt else Err ValueError);
  do discrete <- mapR (fun hk : nd * Z => jax_matrix_power empty hk.1 hk.2) (zip (rows (rH r)) ks);
  do L <- einsum2 "a" "aij" "ij" a (rX r);
  do E <- expm L;
  foldR (fun out x => matmul x out) E (rev discrete).
End Util.
