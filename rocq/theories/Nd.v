(** Nd: numpy arrays of exact scalars.

    An array is a shape and an entry function on multi-indices; only indices
    within the shape are meaningful ([valid]).  Scalars range over an arbitrary
    [numClosedFieldType] (complex numbers in exact arithmetic), so dtypes and
    rounding are not modelled.  Shape errors are exceptions. *)
From Coq Require Import String Ascii.
From mathcomp Require Import all_ssreflect all_algebra.
From Verif Require Import Base.

Set Implicit Arguments.
Unset Strict Implicit.
Unset Printing Implicit Defensive.

Import GRing.Theory Num.Theory.
Local Open Scope ring_scope.

Section Nd.
Variable C : numClosedFieldType.

Record nd := Nd { shape : seq nat; get : seq nat -> C }.

Definition nprod (sh : seq nat) : nat := foldr muln 1%N sh.
Definition valid (sh idx : seq nat) : bool :=
  (size idx == size sh) && all2 (fun i d => (i < d)%N) idx sh.

(** Row-major position of a multi-index, and back. *)
Fixpoint ravel (sh idx : seq nat) : nat :=
  match sh, idx with
  | _ :: sh', i :: idx' => (i * nprod sh' + ravel sh' idx')%N
  | _, _ => 0%N
  end.
Fixpoint unravel (sh : seq nat) (k : nat) : seq nat :=
  match sh with
  | [::] => [::]
  | _ :: sh' => (k %/ nprod sh')%N :: unravel sh' (k %% nprod sh')
  end.
Definition all_idx (sh : seq nat) : seq (seq nat) := [seq unravel sh k | k <- iota 0 (nprod sh)].

(** np.reshape to a shape without -1. *)
Definition reshape (a : nd) (sh : seq nat) : res nd :=
  if nprod sh == nprod (shape a)
  then Ok (Nd sh (fun idx => get a (unravel (shape a) (ravel sh idx))))
  else Err ValueError.
(** np.reshape(a, (-1, d1, ..., dk)): the missing dimension is inferred. *)
Definition reshape_m1 (a : nd) (sh : seq nat) : res nd :=
  if nprod sh == 0%N then Err ValueError
  else reshape a ((nprod (shape a) %/ nprod sh)%N :: sh).

Definition zeros (sh : seq nat) : nd := Nd sh (fun _ => 0).
Definition ones (sh : seq nat) : nd := Nd sh (fun _ => 1).
Definition eye (n : nat) : nd :=
  Nd [:: n; n] (fun idx => (nth 0%N idx 0 == nth 0%N idx 1)%:R).
Definition conj (a : nd) : nd := Nd (shape a) (fun idx => (get a idx)^*).
Definition scale (c : C) (a : nd) : nd := Nd (shape a) (fun idx => c * get a idx).
Definition transpose2 (a : nd) : nd :=
  Nd [:: nth 0%N (shape a) 1; nth 0%N (shape a) 0] (fun idx => get a [:: nth 0%N idx 1; nth 0%N idx 0]).

(** Broadcasting: shapes aligned on the right, a dimension 1 is repeated. *)
Fixpoint bshape_rev (s1 s2 : seq nat) : option (seq nat) :=
  match s1, s2 with
  | [::], s | s, [::] => Some s
  | d1 :: s1', d2 :: s2' =>
    if (d1 == d2) || (d1 == 1%N) || (d2 == 1%N)
    then omap (cons (if d1 == 1%N then d2 else d1)) (bshape_rev s1' s2') else None
  end.
Definition bshape (s1 s2 : seq nat) : res (seq nat) :=
  if bshape_rev (rev s1) (rev s2) is Some s then Ok (rev s) else Err ValueError.
(** The entry read in an operand of shape sh for the index idx of the result. *)
Definition bidx (sh idx : seq nat) : seq nat :=
  [seq (if p.1 == 1%N then 0%N else p.2) | p <- zip sh (drop (size idx - size sh) idx)].
Definition bmap2 (f : C -> C -> C) (a b : nd) : res nd :=
  do s <- bshape (shape a) (shape b);
  Ok (Nd s (fun idx => f (get a (bidx (shape a) idx)) (get b (bidx (shape b) idx)))).
Definition add := bmap2 +%R.
Definition sub := bmap2 (fun x y => x - y).

(** np.allclose(a, b, rtol, atol). *)
Definition allclose (rtol atol : C) (a b : nd) : res bool :=
  do s <- bshape (shape a) (shape b);
  Ok (all (fun idx => let x := get a (bidx (shape a) idx) in
                      let y := get b (bidx (shape b) idx) in
                      `|x - y| <= atol + rtol * `|y|) (all_idx s)).

(** np.matmul: the last two axes, with broadcast of the others. *)
Definition matmul (a b : nd) : res nd :=
  let ra := size (shape a) in let rb := size (shape b) in
  if (ra < 2)%N || (rb < 2)%N then Err ValueError else
  let ba := take (ra - 2) (shape a) in let bb := take (rb - 2) (shape b) in
  let n := nth 0%N (shape a) (ra - 2) in let k := nth 0%N (shape a) (ra - 1) in
  let k' := nth 0%N (shape b) (rb - 2) in let m := nth 0%N (shape b) (rb - 1) in
  if k != k' then Err ValueError else
  do s <- bshape ba bb;
  Ok (Nd (s ++ [:: n; m]) (fun idx =>
    let r := size s in let bi := take r idx in
    let i := nth 0%N idx r in let j := nth 0%N idx r.+1 in
    \sum_(l < k) get a (bidx ba bi ++ [:: i; l : nat]) * get b (bidx bb bi ++ [:: l : nat; j]))).

(** np.einsum: labels are the characters of the subscripts.  Every label of the
    output must occur in an operand, and equal labels must have equal dimensions
    (numpy also lets a dimension 1 stretch, which the code does not use). *)
Definition labels (s : string) : seq ascii := list_ascii_of_string s.
Definition env := seq (ascii * nat).
Fixpoint lookup (e : env) (c : ascii) : option nat :=
  match e with [::] => None | p :: e' => if Ascii.eqb p.1 c then Some p.2 else lookup e' c end.
Definition lookup0 (e : env) (c : ascii) : nat := odflt 0%N (lookup e c).

(** Dimension of every label, in order of first occurrence. *)
Fixpoint bind_dims (ls : seq ascii) (sh : seq nat) (e : env) : res env :=
  match ls, sh with
  | [::], [::] => Ok e
  | c :: ls', d :: sh' =>
    match lookup e c with
    | None => bind_dims ls' sh' (rcons e (c, d))
    | Some d' => if d == d' then bind_dims ls' sh' e else Err ValueError
    end
  | _, _ => Err ValueError
  end.
Fixpoint bind_all (ops : seq (seq ascii * nd)) (e : env) : res env :=
  match ops with
  | [::] => Ok e
  | o :: ops' => do e <- bind_dims o.1 (shape o.2) e; bind_all ops' e
  end.
(** Sum over the labels that do not occur in the output. *)
Fixpoint sum_labels (ds : env) (e : env) (f : env -> C) : C :=
  match ds with
  | [::] => f e
  | cd :: ds' => \sum_(v < cd.2) sum_labels ds' ((cd.1, v : nat) :: e) f
  end.
Definition term (ops : seq (seq ascii * nd)) (e : env) : C :=
  foldr (fun (o : seq ascii * nd) acc => get o.2 [seq lookup0 e c | c <- o.1] * acc) 1 ops.
Definition mem_label (c : ascii) (ls : seq ascii) : bool := has (Ascii.eqb c) ls.
Definition einsum_ops (ops : seq (seq ascii * nd)) (out : seq ascii) : res nd :=
  do dims <- bind_all ops [::];
  if ~~ all (fun c => isSome (lookup dims c)) out then Err ValueError else
  let summed := [seq cd <- dims | ~~ mem_label cd.1 out] in
  Ok (Nd [seq lookup0 dims c | c <- out]
         (fun idx => sum_labels summed (zip out idx) (term ops))).
Definition einsum1 (s1 : string) (out : string) (a : nd) : res nd :=
  einsum_ops [:: (labels s1, a)] (labels out).
Definition einsum2 (s1 s2 : string) (out : string) (a b : nd) : res nd :=
  einsum_ops [:: (labels s1, a); (labels s2, b)] (labels out).
Definition einsum3 (s1 s2 s3 : string) (out : string) (a b c : nd) : res nd :=
  einsum_ops [:: (labels s1, a); (labels s2, b); (labels s3, c)] (labels out).
Definition einsum4 (s1 s2 s3 s4 : string) (out : string) (a b c d : nd) : res nd :=
  einsum_ops [:: (labels s1, a); (labels s2, b); (labels s3, c); (labels s4, d)] (labels out).

(** x[k] along the first axis; iteration over the first axis. *)
Definition slice0 (a : nd) (k : nat) : nd := Nd (behead (shape a)) (fun idx => get a (k :: idx)).
Definition len (a : nd) : nat := head 0%N (shape a).
Definition rows (a : nd) : seq nd := [seq slice0 a k | k <- iota 0 (len a)].

(** np.stack(l, axis=0): all shapes equal, at least one array. *)
Definition stack (l : seq nd) : res nd :=
  match l with
  | [::] => Err ValueError
  | a :: _ =>
    if all (fun b => shape b == shape a) l
    then Ok (Nd (size l :: shape a) (fun idx => get (nth a l (head 0%N idx)) (behead idx)))
    else Err ValueError
  end.

(** np.concatenate([a, b], axis=0). *)
Definition concat2 (a b : nd) : res nd :=
  if behead (shape a) == behead (shape b)
  then Ok (Nd ((len a + len b)%N :: behead (shape a))
      (fun idx => if (head 0%N idx < len a)%N then get a idx
                  else get b ((head 0%N idx - len a)%N :: behead idx)))
  else Err ValueError.

(** out[off_1 : off_1 + n_1, ..., off_k : ...] = a, with shape a = (n_1, ..., n_k). *)
Definition in_block (off sh idx : seq nat) : bool :=
  all (fun p : nat * nat * nat => (p.1.1 <= p.2) && (p.2 < p.1.1 + p.1.2))%N (zip (zip off sh) idx).
Definition assign_block (out : nd) (off : seq nat) (a : nd) : nd :=
  Nd (shape out) (fun idx => if in_block off (shape a) idx
    then get a [seq (p.2 - p.1)%N | p <- zip off idx] else get out idx).

(** Equality of arrays. *)
Definition nd_eq (a b : nd) : Prop :=
  shape a = shape b /\ forall idx, valid (shape a) idx -> get a idx = get b idx.

(** Matrices read off arrays. *)
Definition mx2 (r c : nat) (a : nd) : 'M[C]_(r, c) := \matrix_(i, j) get a [:: i : nat; j : nat].
Definition mx3 (r c : nat) (a : nd) (k : nat) : 'M[C]_(r, c) := \matrix_(i, j) get a [:: k; i : nat; j : nat].
End Nd.

Arguments zeros {C} sh.
Arguments ones {C} sh.
Arguments eye {C} n.
Arguments bidx : simpl never.
Arguments bshape : simpl never.
Arguments all_idx : simpl never.
