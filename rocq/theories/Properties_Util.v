(** Properties C33 (check and inference of the algebra), C34 (exp_map), C35 (jax
    matrix_power) and C63 (vmap). *)
From Coq Require Import ZArith String Ascii.
From mathcomp Require Import all_ssreflect all_algebra.
From mathcomp.real_closed Require Import mxtens.
From mathcomp Require Import zify.
From Verif Require Import Base McRing Nd NdProofs Reps RepSpec RepProofs RepOps Util VmapProofs AlgProofs ExpProofs Properties_Reps.

Set Implicit Arguments.
Unset Strict Implicit.
Unset Printing Implicit Defensive.

Import Order.Theory GRing.Theory Num.Theory.
Local Open Scope ring_scope.

Section Props.
Variable C : numClosedFieldType.
Notation nd := (nd C).
(** The content of np.empty: every theorem holds for all of them. *)
Variable junk : seq nat -> C.

(** ** C63: vmap *)
(** np.take: the slice at position i of the axis p. *)
Theorem C63_take (a : nd) i p idx : (p < size (shape a))%N ->
  shape (take_ax a i p) = take p (shape a) ++ drop p.+1 (shape a) /\
  get (take_ax a i p) idx = get a (take p idx ++ i :: drop p idx).
Proof. by []. Qed.
(** An axis is counted from the end when it is negative. *)
Theorem C63_axis (ax : int) r p : norm_axis ax r = Some p <-> (p < r)%N /\ (ax = p%:Z \/ ax = p%:Z - r%:Z).
Proof. exact: norm_axisP. Qed.
(** The slice at position i of the result along out_axes is the value of the function
    on the slices at position i of the mapped arguments. *)
Theorem C63_vmap f in_axes oax osh args n p sh (out : nat -> nd) :
  let axes := axes_of in_axes (size args) in
  size axes = size args -> all (axis_ok n) (zip args axes) -> has isSome axes -> (0 < n)%N ->
  (forall i, (i < n)%N -> f (slices args axes i) = Ok (VArr (out i)) /\ shape (out i) = sh) ->
  norm_axis oax (size sh).+1 = Some p ->
  exists r, [/\ vmap junk f in_axes oax osh args = Ok (VArr r),
    shape r = take p sh ++ n :: drop p sh &
    forall i, (i < n)%N -> nd_eq (take_ax r i p) (out i)].
Proof.
move=> axes es al hs n0 fP ep; have [r [-> rs rg]] := vmap_arr junk osh es al hs n0 fP ep.
have le := norm_axis_lt ep; rewrite ltnS in le.
exists r; split=> // i hi; have [_ so] := fP i hi; split=> [|idx] /=.
  by rewrite rs insert_atK.
by rewrite rs insert_atK // => /valid_size ss; rewrite rg.
Qed.
(** Functions that return tuples: every component is stacked. *)
Theorem C63_tuple f in_axes oax osh args n m (p : nat -> nat) (sh : nat -> seq nat) (out : nat -> nat -> nd) :
  let axes := axes_of in_axes (size args) in
  size axes = size args -> all (axis_ok n) (zip args axes) -> has isSome axes -> (0 < n)%N ->
  (forall i, (i < n)%N -> f (slices args axes i) = Ok (VTup [seq out i j | j <- iota 0 m])) ->
  (forall i j, (i < n)%N -> (j < m)%N -> shape (out i j) = sh j) ->
  (forall j, (j < m)%N -> norm_axis oax (size (sh j)).+1 = Some (p j)) ->
  exists r, [/\ vmap junk f in_axes oax osh args = Ok (VTup r), size r = m &
    forall i j, (i < n)%N -> (j < m)%N -> nd_eq (take_ax (nth (zeros [::]) r j) i (p j)) (out i j)].
Proof.
move=> axes es al hs n0 fP sP ep; have [r [-> rs rg]] := vmap_tup junk osh es al hs n0 fP sP ep.
exists r; split=> // i j hi hj; have [rsh rget] := rg j hj.
have le := norm_axis_lt (ep j hj); rewrite ltnS in le; have so := sP i j hi hj.
split=> [|idx] /=; first by rewrite rsh insert_atK.
by rewrite rsh insert_atK // => /valid_size ss; rewrite rget.
Qed.
(** A mapped axis of length 0: an array of shape out_shape with a 0 inserted, the
    mapped function is not called; without out_shape, an uninitialised scalar. *)
Theorem C63_empty f in_axes oax osh args : let axes := axes_of in_axes (size args) in
  size axes = size args -> all (axis_ok 0) (zip args axes) -> has isSome axes ->
  vmap junk f in_axes oax osh args =
  Ok (VArr (Nd (if osh is Some s then py_insert oax 0%N s else [::]) junk)).
Proof. exact: vmap_empty. Qed.
(** Where list.insert and np.stack agree on the position of the axis: nonnegative out_axes. *)
Theorem C63_empty_position (k : nat) (s : seq nat) : (k <= size s)%N ->
  norm_axis k (size s).+1 = Some k /\ py_insert k 0%N s = take k s ++ 0%N :: drop k s.
Proof. by move=> le; rewrite /= ltnS le /insert_at (minn_idPl le). Qed.
(** For out_axes=-1 they disagree: the axis of length 0 is inserted one place too early. *)
Theorem C63_empty_position_refuted : norm_axis (-1) 3 = Some 2%N /\ py_insert (-1) 0%N [:: 5; 7]%N = [:: 5; 0; 7]%N.
Proof. by []. Qed.
(** The errors. *)
Theorem C63_len f l oax osh args : size l != size args ->
  vmap junk f (inr l) oax osh args = Err AssertionError.
Proof. exact: vmap_len. Qed.
Theorem C63_nothing_mapped f l oax osh args : size l = size args -> ~~ has isSome l ->
  vmap junk f (inr l) oax osh args = Err AssertionError.
Proof. exact: vmap_nomap. Qed.
Theorem C63_no_axis f in_axes oax osh args : let axes := axes_of in_axes (size args) in
  size axes = size args -> ~~ all (@axis_in C) (zip args axes) ->
  vmap junk f in_axes oax osh args = Err IndexError.
Proof. exact: vmap_noaxis. Qed.
Theorem C63_lengths_differ f in_axes oax osh args q1 q2 x0 : let axes := axes_of in_axes (size args) in
  size axes = size args -> all (@axis_in C) (zip args axes) ->
  (q1 < size args)%N -> (q2 < size args)%N ->
  isSome (nth None axes q1) -> isSome (nth None axes q2) ->
  axis_len (nth x0 (zip args axes) q1) <> axis_len (nth x0 (zip args axes) q2) ->
  vmap junk f in_axes oax osh args = Err AssertionError.
Proof. exact: vmap_dims_differ. Qed.
Theorem C63_fun_error f in_axes oax osh args n k e : let axes := axes_of in_axes (size args) in
  size axes = size args -> all (axis_ok n) (zip args axes) -> has isSome axes ->
  (k < n)%N -> f (slices args axes k) = Err e ->
  (forall i, (i < k)%N -> exists o, f (slices args axes i) = Ok o) ->
  vmap junk f in_axes oax osh args = Err e.
Proof. exact: vmap_fun_err. Qed.
Theorem C63_shapes_differ f in_axes oax osh args n k (out : nat -> nd) :
  let axes := axes_of in_axes (size args) in
  size axes = size args -> all (axis_ok n) (zip args axes) -> has isSome axes -> (k < n)%N ->
  (forall i, (i < n)%N -> f (slices args axes i) = Ok (VArr (out i))) ->
  shape (out k) <> shape (out 0%N) ->
  vmap junk f in_axes oax osh args = Err ValueError.
Proof. exact: vmap_shapes_differ. Qed.
(** Example: transposing the columns of a (2, 3) array: in_axes=-1, out_axes=0. *)
Definition ex_arr : nd := Nd [:: 2; 3]%N (fun idx => (nth 0%N idx 0 * 10 + nth 0%N idx 1)%:R).
Definition ex_id (l : seq nd) : res (vout C) := if l is [:: a] then Ok (VArr a) else Err TypeError.
Example C63_example : exists r, [/\ vmap junk ex_id (inl (-1)) 0 None [:: ex_arr] = Ok (VArr r), shape r = [:: 3; 2]%N &
  get r [:: 2; 1]%N = 12%:R].
Proof.
have [||||||r [-> rs rg]] := @C63_vmap ex_id (inl (-1)) 0 None [:: ex_arr] 3 0 [:: 2%N] (fun i => take_ax ex_arr i 1).
- by []. - by []. - by []. - by []. - by move=> i hi. - by [].
exists r; split=> //; have [|e h] := rg 2%N; first by [].
by have := h [:: 1%N]; rewrite e => /(_ isT).
Qed.

(** ** C33: check_algebra_vs_generators *)
(** True exactly when every entry of [X_i, X_j] is close to that of sum_k A_ijk X_k;
    with assert_=True, AssertionError instead of False. *)
Theorem C33_check rtol atol n d asrt (A X : nd) : shape A = [:: n; n; n] -> shape X = [:: n; d; d] -> (0 < n)%N ->
  exists b : bool, check_algebra junk rtol atol asrt A X = (if asrt && ~~ b then Err AssertionError else Ok b) /\
  (b <-> forall i j (u v : 'I_d), (i < n)%N -> (j < n)%N ->
    let L := mx3 d d X i *m mx3 d d X j - mx3 d d X j *m mx3 d d X i in
    let R := \sum_(k < n) get A [:: i; j; k : nat] *: mx3 d d X k in
    `|L u v - R u v| <= atol + rtol * `|R u v|).
Proof.
by move=> sA sX n0; have [b [_ e bP]] := check_algebraP junk rtol atol asrt sA sX n0; exists b; split.
Qed.
(** A representation passes the check, and with zero tolerances nothing else does. *)
Theorem C33_check_rep (T : theory C) d r rtol atol asrt : is_rep T d r -> 0 <= rtol -> 0 <= atol ->
  check_algebra junk rtol atol asrt (rA r) (rX r) = Ok true.
Proof.
move=> h r0 a0; case: (posnP (th_l T)) => [l0|lp].
  by apply: (@check_algebra0 C junk rtol atol asrt d); rewrite -?l0 ?(ir_sA h) ?(ir_sX h).
have [b [_ -> bP]] := check_algebraP junk rtol atol asrt (ir_sA h) (ir_sX h) lp.
suff m : match_within rtol atol (th_l T) (fun i j k => get (rA r) [:: i; j; k]) (mx3 d d (rX r)).
  by have -> : b by [apply/bP]; rewrite andbF.
move=> i j u v hi hj /=; rewrite /comm (mr_comm (ir_m h)) //.
rewrite (eq_bigr (fun k : 'I_(th_l T) => get (rA r) [:: i; j; k : nat] *: mx3 d d (rX r) k)); last first.
  by move=> k _; rewrite (ir_A h).
by rewrite subrr normr0 addr_ge0 // mulr_ge0.
Qed.
Theorem C33_check_exact n d (A X : nd) : shape A = [:: n; n; n] -> shape X = [:: n; d; d] -> (0 < n)%N ->
  check_algebra junk 0 0 false A X = Ok true <->
  forall i j, (i < n)%N -> (j < n)%N ->
    mx3 d d X i *m mx3 d d X j - mx3 d d X j *m mx3 d d X i = \sum_(k < n) get A [:: i; j; k : nat] *: mx3 d d X k.
Proof.
move=> sA sX n0; have [b [-> _ bP]] := check_algebraP junk 0 0 false sA sX n0.
split=> [[/bP m] i j hi hj | h].
  apply/matrixP => u v; apply/eqP; rewrite -subr_eq0 -normr_eq0 eq_le normr_ge0 andbT.
  by have := m i j u v hi hj; rewrite /= mul0r addr0.
by congr Ok; apply/bP => i j u v hi hj /=; rewrite /comm h // subrr normr0 mul0r addr0.
Qed.
(** No generators: always True; an algebra that is not a 3-tensor: ValueError. *)
Theorem C33_check_empty rtol atol asrt d (A X : nd) : shape A = [:: 0; 0; 0]%N -> shape X = [:: 0%N; d; d] ->
  check_algebra junk rtol atol asrt A X = Ok true.
Proof. exact: check_algebra0. Qed.
Theorem C33_check_shape rtol atol asrt n d (A X : nd) : shape X = [:: n; d; d] -> size (shape A) != 3%N ->
  check_algebra junk rtol atol asrt A X = Err ValueError.
Proof. exact: check_algebra_shape. Qed.

(** ** C33: infer_algebra_from_generators *)
(** Linearly independent generators, closed under commutators with real structure
    constants that round_fn leaves alone: the constants are found. *)
Theorem C33_infer rnd rtol atol n d (X : nd) (c : nat -> nat -> nat -> C) :
  shape X = [:: n; d; d] -> (0 < n)%N -> 0 <= rtol -> 0 <= atol ->
  (forall e : nat -> C, \sum_(k < n) e k *: mx3 d d X k = 0 -> forall k, (k < n)%N -> e k = 0) ->
  (forall i j, (i < n)%N -> (j < n)%N ->
     mx3 d d X i *m mx3 d d X j - mx3 d d X j *m mx3 d d X i = \sum_(k < n) c i j k *: mx3 d d X k) ->
  (forall i j k, (i < n)%N -> (j < n)%N -> (k < n)%N -> c i j k \is Num.real) ->
  (forall a : nd, shape a = [:: n; n; n] ->
    (forall i j k, (i < n)%N -> (j < n)%N -> (k < n)%N -> get a [:: i; j; k] = c i j k) -> nd_eq (rnd a) a) ->
  exists A, [/\ infer_algebra junk rnd rtol atol X = Ok (Some A), shape A = [:: n; n; n] &
    forall i j k, (i < n)%N -> (j < n)%N -> (k < n)%N -> get A [:: i; j; k] = c i j k].
Proof.
move=> sX n0 r0 a0 li cl cr hr.
have [A [sA gA ->]] := infer_algebraE junk rnd rtol atol sX n0.
have gA' i j k : (i < n)%N -> (j < n)%N -> (k < n)%N -> get A [:: i; j; k] = c i j k.
  move=> hi hj hk; have := gA i j (Ordinal hk) hi hj => /= ->.
  by rewrite (struct_indep (c := c) _ li) /=; [apply/Creal_ReP; exact: cr | exact: cl].
have [sR gR] := hr A sA gA'; rewrite sA in sR.
have gR' i j k : (i < n)%N -> (j < n)%N -> (k < n)%N -> get (rnd A) [:: i; j; k] = c i j k.
  by move=> hi hj hk; rewrite gR ?gA' // sR !valid_cons hi hj hk.
exists (rnd A); split=> //.
have [b [-> _ bP]] := check_algebraP junk rtol atol false sR sX n0.
suff -> : b by [].
apply/bP => i j u v hi hj /=; rewrite /comm cl //.
rewrite (eq_bigr (fun k : 'I_n => get (rnd A) [:: i; j; k : nat] *: mx3 d d X k)); last first.
  by move=> k _; rewrite gR'.
by rewrite subrr normr0 addr_ge0 // mulr_ge0.
Qed.
(** Such constants are unique, antisymmetric and satisfy the Jacobi identity. *)
Theorem C33_unique n d (X : nat -> 'M[C]_d) (c c' : nat -> nat -> nat -> C) :
  (forall e : nat -> C, \sum_(k < n) e k *: X k = 0 -> forall k, (k < n)%N -> e k = 0) ->
  (forall i j, (i < n)%N -> (j < n)%N -> X i *m X j - X j *m X i = \sum_(k < n) c i j k *: X k) ->
  (forall i j, (i < n)%N -> (j < n)%N -> X i *m X j - X j *m X i = \sum_(k < n) c' i j k *: X k) ->
  forall i j k, (i < n)%N -> (j < n)%N -> (k < n)%N -> c i j k = c' i j k.
Proof.
by move=> li e e' i j k hi hj hk; apply: (indep_uniq (c := c i j) (c' := c' i j) li _ hk); rewrite -e -?e'.
Qed.
Theorem C33_antisymmetric n d (X : nat -> 'M[C]_d) (c : nat -> nat -> nat -> C) :
  (forall e : nat -> C, \sum_(k < n) e k *: X k = 0 -> forall k, (k < n)%N -> e k = 0) ->
  (forall i j, (i < n)%N -> (j < n)%N -> X i *m X j - X j *m X i = \sum_(k < n) c i j k *: X k) ->
  forall i j k, (i < n)%N -> (j < n)%N -> (k < n)%N -> c i j k = - c j i k.
Proof. exact: indep_antisym. Qed.
Theorem C33_jacobi n d (X : nat -> 'M[C]_d) (c : nat -> nat -> nat -> C) :
  (forall e : nat -> C, \sum_(k < n) e k *: X k = 0 -> forall k, (k < n)%N -> e k = 0) ->
  (forall i j, (i < n)%N -> (j < n)%N -> X i *m X j - X j *m X i = \sum_(k < n) c i j k *: X k) ->
  forall i j k m, (i < n)%N -> (j < n)%N -> (k < n)%N -> (m < n)%N ->
    \sum_(l < n) (c i j l * c l k m + c j k l * c l i m + c k i l * c l j m) = 0.
Proof. exact: indep_jacobi. Qed.
(** Whatever the generators and round_fn: an algebra that is returned passes the check. *)
Theorem C33_infer_sound rnd rtol atol n d (X : nd) A : shape X = [:: n; d; d] -> (0 < n)%N ->
  infer_algebra junk rnd rtol atol X = Ok (Some A) -> check_algebra junk rtol atol false A X = Ok true.
Proof.
move=> sX n0; have [B [_ _ ->]] := infer_algebraE junk rnd rtol atol sX n0.
by case E: (check_algebra _ _ _ _ _ _) => [[]|] //= [<-].
Qed.
(** With exact comparison, None is returned exactly when the linearly independent
    generators are not closed with real structure constants. *)
Theorem C33_infer_none n d (X : nd) : shape X = [:: n; d; d] -> (0 < n)%N ->
  (forall e : nat -> C, \sum_(k < n) e k *: mx3 d d X k = 0 -> forall k, (k < n)%N -> e k = 0) ->
  infer_algebra junk id 0 0 X = Ok None <->
  ~ exists c : nat -> nat -> nat -> C, (forall i j k, (i < n)%N -> (j < n)%N -> (k < n)%N -> c i j k \is Num.real) /\
    forall i j, (i < n)%N -> (j < n)%N ->
      mx3 d d X i *m mx3 d d X j - mx3 d d X j *m mx3 d d X i = \sum_(k < n) c i j k *: mx3 d d X k.
Proof.
move=> sX n0 li; split=> [e [c [cr cl]]|ne].
  have [|A [e' _ _]] := C33_infer (rnd := id) sX n0 (lexx 0) (lexx 0) li cl cr; first by [].
  by rewrite e in e'.
have [A [sA gA ->]] := infer_algebraE junk id 0 0 sX n0.
have [b [eb _ _]] := check_algebraP junk 0 0 false sA sX n0; rewrite eb /=.
case: b eb => // eb; case: ne; exists (fun i j k => get A [:: i; j; k]); split.
  by move=> i j k hi hj hk; rewrite (gA i j (Ordinal hk) hi hj) Creal_Re.
by move/(C33_check_exact sA sX n0): eb.
Qed.
(** No generators: reshape((0, -1)) raises. *)
Theorem C33_infer_empty rnd rtol atol d (X : nd) : shape X = [:: 0%N; d; d] ->
  infer_algebra junk rnd rtol atol X = Err ValueError.
Proof. by move=> sX; rewrite /infer_algebra /flat_rows /len sX. Qed.

(** Two generators a E_00 and E_01: [a E_00, E_01] = a E_01. *)
Definition ex_gen (a : C) : nd := Nd [:: 2; 2; 2]%N (fun idx =>
  if idx == [:: 0; 0; 0]%N then a else (idx == [:: 1; 0; 1]%N)%:R).
Definition ex_c (a : C) (i j k : nat) : C :=
  if (k == 1%N) then (if (i == 0%N) && (j == 1%N) then a else if (i == 1%N) && (j == 0%N) then - a else 0) else 0.
Lemma ex_gen_indep a : a != 0 -> forall e : nat -> C, \sum_(k < 2) e k *: mx3 2 2 (ex_gen a) k = 0 -> forall k, (k < 2)%N -> e k = 0.
Proof.
move=> a0 e; rewrite !big_ord_recr big_ord0 /= add0r => /matrixP h [|[|//]] _.
  have := h (inord 0) (inord 0); rewrite !mxE !inordK //= mulr0 addr0 => /eqP.
  by rewrite mulf_eq0 (negbTE a0) orbF => /eqP.
by have := h (inord 0) (inord 1); rewrite !mxE !inordK //= mulr0 add0r mulr1.
Qed.
Lemma ex_gen_closed a i j : (i < 2)%N -> (j < 2)%N ->
  mx3 2 2 (ex_gen a) i *m mx3 2 2 (ex_gen a) j - mx3 2 2 (ex_gen a) j *m mx3 2 2 (ex_gen a) i =
  \sum_(k < 2) ex_c a i j k *: mx3 2 2 (ex_gen a) k.
Proof.
move=> hi hj; rewrite !big_ord_recr big_ord0 /=; apply/matrixP => u v.
case: i hi => [|[|//]] _; case: j hj => [|[|//]] _; rewrite !mxE !big_ord_recr !big_ord0 /= !mxE /=;
case: u => [[|[|//]] hu]; case: v => [[|[|//]] hv]; rewrite /= /ex_c /=;
by rewrite ?(mulr0, mul0r, addr0, add0r, subr0, subrr, mulr1, mul1r, sub0r, oppr0).
Qed.
Lemma rtol10_ge0 : 0 <= rtol10 C.
Proof. by rewrite /rtol10 invr_ge0 exprn_ge0 // ler0n. Qed.
Example C33_infer_example : exists A, [/\ infer_algebra junk id (rtol10 C) (rtol10 C) (ex_gen 1) = Ok (Some A),
  shape A = [:: 2; 2; 2]%N & forall i j k, (i < 2)%N -> (j < 2)%N -> (k < 2)%N -> get A [:: i; j; k] = ex_c 1 i j k].
Proof.
apply: (@C33_infer id _ _ 2 2 (ex_gen 1) (ex_c 1)) => //.
- exact: rtol10_ge0.
- exact: rtol10_ge0.
- exact: ex_gen_indep (oner_neq0 _).
- exact: ex_gen_closed.
by move=> i j k _ _ _; rewrite /ex_c; do 3?case: ifP => _; rewrite ?rpredN ?rpred0 ?rpred1.
Qed.
(** "Closed under commutators implies that the algebra is inferred" is false: for
    structure constants that are not real the imaginary parts are dropped and None is
    returned, with the default tolerances. *)
Theorem C33_complex_refuted : [/\
  forall e : nat -> C, \sum_(k < 2) e k *: mx3 2 2 (ex_gen 'i) k = 0 -> forall k, (k < 2)%N -> e k = 0,
  forall i j, (i < 2)%N -> (j < 2)%N ->
    mx3 2 2 (ex_gen 'i) i *m mx3 2 2 (ex_gen 'i) j - mx3 2 2 (ex_gen 'i) j *m mx3 2 2 (ex_gen 'i) i =
    \sum_(k < 2) ex_c 'i i j k *: mx3 2 2 (ex_gen 'i) k &
  infer_algebra junk id (rtol10 C) (rtol10 C) (ex_gen 'i) = Ok None].
Proof.
have i0 : 'i != 0 :> C by apply: neq0Ci.
have li := ex_gen_indep i0; have cl := @ex_gen_closed 'i; split=> //.
have [A [sA gA ->]] := infer_algebraE junk id (rtol10 C) (rtol10 C) (erefl : shape (ex_gen 'i) = [:: 2; 2; 2]%N) isT.
have [b [eb _ bP]] := check_algebraP junk (rtol10 C) (rtol10 C) false sA (erefl : shape (ex_gen 'i) = [:: 2; 2; 2]%N) isT.
rewrite [id A]/= eb /=; suff -> : b = false by [].
apply/negP => /bP m; have := m 0%N 1%N (inord 0) (inord 1) isT isT.
have gz (k : 'I_2) : get A [:: 0%N; 1%N; k : nat] = 0.
  rewrite gA // (struct_indep (c := ex_c 'i) _ li); last exact: cl.
  by case: k => [[|[|//]] hk]; rewrite /ex_c /= ?raddf0 // Re_i.
rewrite /= big1 => [|k _]; last by rewrite gz scale0r.
have -> : (0 : 'M[C]_2) (inord 0) (inord 1) = 0 by rewrite mxE.
rewrite normr0 mulr0 addr0 subr0 /comm cl // !big_ord_recr big_ord0 /= !mxE !inordK //= /ex_c /=.
rewrite mul0r add0r add0r mulr1 normCi => le.
have : (1 : C) <= 10%:R^-1.
  apply: le_trans le _; rewrite lef_pinv ?posrE ?exprn_gt0 ?ltr0n // -[X in X <= _]expr1.
  by rewrite ler_eexpn2l // ltr1n.
by rewrite invr_ge1 ?unitfE ?pnatr_eq0 // ?ltr0n // lern1.
Qed.
(** GenericRep.from_generators: the inferred algebra, X, and the given discrete
    generators or none. *)
Theorem C33_from_generators n d (X : nd) (H : option nd) (c : nat -> nat -> nat -> C) :
  shape X = [:: n; d; d] -> (0 < n)%N ->
  (forall e : nat -> C, \sum_(k < n) e k *: mx3 d d X k = 0 -> forall k, (k < n)%N -> e k = 0) ->
  (forall i j, (i < n)%N -> (j < n)%N ->
     mx3 d d X i *m mx3 d d X j - mx3 d d X j *m mx3 d d X i = \sum_(k < n) c i j k *: mx3 d d X k) ->
  (forall i j k, (i < n)%N -> (j < n)%N -> (k < n)%N -> c i j k \is Num.real) ->
  exists A, [/\ from_generators junk id X H = Ok (Some (MkRep A X (if H is Some H then H else zeros [:: 0%N; d; d]))),
    shape A = [:: n; n; n] &
    forall i j k, (i < n)%N -> (j < n)%N -> (k < n)%N -> get A [:: i; j; k] = c i j k].
Proof.
move=> sX n0 li cl cr; rewrite /from_generators.
have [|A [-> sA gA]] := C33_infer (rnd := id) sX n0 rtol10_ge0 rtol10_ge0 li cl cr; first by [].
by exists A; split=> //=; case: H => [H|] //; rewrite sX.
Qed.
(** Without discrete generators the result is a representation. *)
Theorem C33_from_generators_rep n d (X : nd) r : shape X = [:: n; d; d] -> (0 < n)%N ->
  (forall e : nat -> C, \sum_(k < n) e k *: mx3 d d X k = 0 -> forall k, (k < n)%N -> e k = 0) ->
  (exists c : nat -> nat -> nat -> C, (forall i j k, (i < n)%N -> (j < n)%N -> (k < n)%N -> c i j k \is Num.real) /\
    forall i j, (i < n)%N -> (j < n)%N ->
      mx3 d d X i *m mx3 d d X j - mx3 d d X j *m mx3 d d X i = \sum_(k < n) c i j k *: mx3 d d X k) ->
  from_generators junk id X None = Ok (Some r) ->
  is_rep (Theory n 0 (fun i j k => get (rA r) [:: i; j; k]) (fun _ _ => False) (fun _ => False)) d r.
Proof.
move=> sX n0 li [c [cr cl]]; have [A [-> sA gA]] := C33_from_generators None sX n0 li cl cr.
case=> <-; split=> //=; split=> //= i j hi hj; rewrite cl //.
by apply: eq_bigr => k _; rewrite gA.
Qed.

(** ** C34: exp_map *)
(** h_0^k_0 h_1^k_1 ... times expm(sum_i a_i X_i), for as many discrete generators as
    there are both parameters and generators; ex is the matrix function computed by
    scipy.linalg.expm. *)
Theorem C34_exp_map (expm : nd -> res nd) (ex : forall d, 'M[C]_d -> 'M[C]_d) l h d (r : rep C) (a : nd) (ks : seq int) :
  (forall d (L : nd), shape L = [:: d; d] -> exists E, [/\ expm L = Ok E, shape E = [:: d; d] & mx2 d d E = ex d (mx2 d d L)]) ->
  shape (rX r) = [:: l; d; d] -> shape (rH r) = [:: h; d; d] -> shape a = [:: l] ->
  (forall b, (b < size ks)%N -> (b < h)%N -> (0 <= nth 0 ks b) || (mx3 d d (rH r) b \in unitmx)) ->
  exists R, [/\ exp_map expm r a ks = Ok R, shape R = [:: d; d] &
    mx2 d d R = (\big[mulmx/1%:M]_(b <- iota 0 (minn (size ks) h)) zpow (mx3 d d (rH r) b) (nth 0 ks b)) *m
                ex d (\sum_(i < l) get a [:: i : nat] *: mx3 d d (rX r) i)].
Proof.
move=> es sX sH sa ok; have := exp_mapP ks es sX sH sa => /=.
have zE : zip ks (iota 0 h) = [seq (nth 0 ks b, b) | b <- iota 0 (minn (size ks) h)].
  apply: (@eq_from_nth _ (0, 0%N)) => [|b]; first by rewrite size_zip size_map !size_iota.
  rewrite size_zip size_iota => hb; have /andP[b1 b2] : (b < size ks)%N && (b < h)%N by rewrite -leq_min.
  rewrite (nth_map 0%N) ?size_iota // nth_zip_cond size_zip size_iota hb /=.
  by rewrite !nth_iota.
rewrite zE; set M := ex d _; set s := iota 0 _.
have -> : powers_ok (mx3 d d (rH r)) [seq (nth 0 ks b, b) | b <- s].
  rewrite /powers_ok all_map; apply/allP => b; rewrite mem_iota add0n /= leq_min => /andP[b1 b2].
  exact: ok.
case=> R [-> sR mR]; exists R; split=> //; rewrite mR.
elim: s {zE mR} => [|b s IH] /=; first by rewrite big_nil mul1mx.
by rewrite big_cons -mulmxA -IH.
Qed.
(** A negative power of a singular generator. *)
Theorem C34_singular (expm : nd -> res nd) (ex : forall d, 'M[C]_d -> 'M[C]_d) l h d (r : rep C) (a : nd) (ks : seq int) b :
  (forall d (L : nd), shape L = [:: d; d] -> exists E, [/\ expm L = Ok E, shape E = [:: d; d] & mx2 d d E = ex d (mx2 d d L)]) ->
  shape (rX r) = [:: l; d; d] -> shape (rH r) = [:: h; d; d] -> shape a = [:: l] ->
  (b < size ks)%N -> (b < h)%N -> nth 0 ks b < 0 -> mx3 d d (rH r) b \notin unitmx ->
  exp_map expm r a ks = Err LinAlgError.
Proof.
move=> es sX sH sa b1 b2 kb nu; have := exp_mapP ks es sX sH sa => /=; case: ifP => // /allP po _.
have := po (nth 0 ks b, b); rewrite /zpow_ok /= (negbTE nu) orbF leNgt kb; case/(_ _)/negP => //.
have -> : (nth 0 ks b, b) = nth (0, 0%N) (zip ks (iota 0 h)) b.
  by rewrite nth_zip_cond size_zip size_iota leq_min b1 b2 /= nth_iota.
by apply: mem_nth; rewrite size_zip size_iota leq_min b1.
Qed.
(** The power: positive, zero, negative. *)
Theorem C34_power d (M : 'M[C]_d.+1) (k : nat) :
  zpow M k = M ^+ k /\ zpow M (- k.+1%:Z) = (invmx M) ^+ k.+1.
Proof.
have E (N : 'M[C]_d.+1) m : mxpow N m = N ^+ m by elim: m => [|m IH] //=; rewrite exprS -IH.
by split; [exact: E | rewrite -NegzE; exact: E].
Qed.
(** A tensor product exponentiates to the Kronecker product, a direct sum to the block
    matrix, given that expm does so on the Lie algebra element. *)
Theorem C34_tensor_product (expm : nd -> res nd) (ex : forall d, 'M[C]_d -> 'M[C]_d) T d1 d2 (r1 r2 r : rep C) a ks R1 R2 :
  (forall d (L : nd), shape L = [:: d; d] -> exists E, [/\ expm L = Ok E, shape E = [:: d; d] & mx2 d d E = ex d (mx2 d d L)]) ->
  is_rep T d1 r1 -> is_rep T d2 r2 -> tensor_product r1 r2 = Ok r -> shape a = [:: th_l T] ->
  (let L1 := \sum_(i < th_l T) get a [:: i : nat] *: mx3 d1 d1 (rX r1) i in
   let L2 := \sum_(i < th_l T) get a [:: i : nat] *: mx3 d2 d2 (rX r2) i in
   ex (d1 * d2)%N (L1 *t 1%:M + 1%:M *t L2) = ex d1 L1 *t ex d2 L2) ->
  exp_map expm r1 a ks = Ok R1 -> exp_map expm r2 a ks = Ok R2 ->
  exists R, [/\ exp_map expm r a ks = Ok R, shape R = [:: (d1 * d2)%N; (d1 * d2)%N] &
    mx2 (d1 * d2) (d1 * d2) R = mx2 d1 d1 R1 *t mx2 d2 d2 R2].
Proof. by move=> es h1 h2 e sa hx e1 e2; apply: (exp_map_tensor es h1 h2 e sa hx e1 e2). Qed.
Theorem C34_direct_sum (expm : nd -> res nd) (ex : forall d, 'M[C]_d -> 'M[C]_d) T d1 d2 (r1 r2 r : rep C) a ks R1 R2 :
  (forall d (L : nd), shape L = [:: d; d] -> exists E, [/\ expm L = Ok E, shape E = [:: d; d] & mx2 d d E = ex d (mx2 d d L)]) ->
  is_rep T d1 r1 -> is_rep T d2 r2 -> direct_sum r1 r2 = Ok r -> shape a = [:: th_l T] ->
  (let L1 := \sum_(i < th_l T) get a [:: i : nat] *: mx3 d1 d1 (rX r1) i in
   let L2 := \sum_(i < th_l T) get a [:: i : nat] *: mx3 d2 d2 (rX r2) i in
   ex (d1 + d2)%N (block_mx L1 0 0 L2) = block_mx (ex d1 L1) 0 0 (ex d2 L2)) ->
  exp_map expm r1 a ks = Ok R1 -> exp_map expm r2 a ks = Ok R2 ->
  exists R, [/\ exp_map expm r a ks = Ok R, shape R = [:: (d1 + d2)%N; (d1 + d2)%N] &
    mx2 (d1 + d2) (d1 + d2) R = block_mx (mx2 d1 d1 R1) 0 0 (mx2 d2 d2 R2)].
Proof. by move=> es h1 h2 e sa hx e1 e2; apply: (exp_map_direct_sum es h1 h2 e sa hx e1 e2). Qed.
(** Example: the running representation X = E_01, H = diag(1, -1), with the exponential
    series cut at the second order, which is exact for the nilpotent matrices that occur. *)
Definition ex3 d (L : 'M[C]_d) : 'M[C]_d := 1%:M + L + 2%:R^-1 *: (L *m L).
Definition expm3 (L : nd) : res nd :=
  if shape L is [:: n; m] then if n == m then Ok (nd_of_mx (ex3 (mx2 n n L))) else Err ValueError else Err ValueError.
Lemma expm3_ok d (L : nd) : shape L = [:: d; d] -> exists E, [/\ expm3 L = Ok E, shape E = [:: d; d] & mx2 d d E = ex3 (mx2 d d L)].
Proof. by move=> sL; rewrite /expm3 sL eqxx; eexists; split; [by []|by []|rewrite mx2_of_mx]. Qed.
Lemma ex3_tens d1 d2 (A : 'M[C]_d1) (B : 'M[C]_d2) : A *m A = 0 -> B *m B = 0 ->
  ex3 (A *t 1%:M + 1%:M *t B) = ex3 A *t ex3 B.
Proof.
move=> a0 b0; rewrite /ex3 a0 b0 !scaler0 !addr0 mulmxDl !mulmxDr !tensmx_mul a0 b0 !mul1mx !mulmx1.
rewrite tens0mx tensmx0 add0r addr0 tensDl !tensDr tens1 -!addrA; congr (_ + _).
rewrite addrCA; congr (_ + (_ + _)).
by rewrite -mulr2n -scaler_nat scalerA mulVf ?scale1r // pnatr_eq0.
Qed.
Definition ex_a : nd := Nd [:: 1%N] (fun _ => 5%:R).
Example C34_example : exists r R, [/\ tensor_product (ex_rep C) (ex_rep C) = Ok r,
  exp_map expm3 r ex_a [:: 3%:Z] = Ok R &
  exists R1, exp_map expm3 (ex_rep C) ex_a [:: 3%:Z] = Ok R1 /\ mx2 4 4 R = mx2 2 2 R1 *t mx2 2 2 R1].
Proof.
have h := ex_rep_ok C; have [r [e [hr _]]] := tensor_product_ok h h; exists r.
have [||||R1 [e1 s1 _]] := @C34_exp_map expm3 ex3 1 1 2 (ex_rep C) ex_a [:: 3%:Z] expm3_ok.
- by []. - by []. - by []. - by move=> [|b].
have [||R [eR sR mR]] := @C34_tensor_product expm3 ex3 _ 2 2 _ _ _ ex_a [:: 3%:Z] _ _ expm3_ok h h e _ _ e1 e1.
- by [].
- rewrite /= big_ord1; apply: ex3_tens; rewrite -scalemxAl -scalemxAr; set P := _ *m _;
  by (suff -> : P = 0 by rewrite !scaler0); apply/matrixP => u v; rewrite !mxE !big_ord_recr big_ord0 /= !mxE /=;
     case: u => [[|[|//]] ?]; case: v => [[|[|//]] ?] /=; rewrite ?(mulr0, mul0r, addr0).
by exists R; split=> //; exists R1.
Qed.

(** ** C35: jax_utils.matrix_power *)
(** F^n for 0 <= n < 2^32, whatever jnp.empty contains. *)
Theorem C35_matrix_power (empty : nat -> nd) d (F : nd) (n : Z) : shape F = [:: d.+1; d.+1] ->
  Z.le 0 n -> Z.lt n (Z.pow 2 32) ->
  exists R, [/\ jax_matrix_power empty F n = Ok R, shape R = [:: d.+1; d.+1] &
    mx2 d.+1 d.+1 R = mx2 d.+1 d.+1 F ^+ Z.to_nat n].
Proof.
move=> sF n0 n1; have [R [-> sR mR]] := jax_matrix_powerP empty n sF; exists R; split=> //.
by rewrite mR Z.mod_small //; case: (C34_power (mx2 d.+1 d.+1 F) (Z.to_nat n)).
Qed.
(** Any integer: the exponent is taken modulo 2^32; in particular negative exponents do
    not give inverses. *)
Theorem C35_modulo (empty : nat -> nd) d (F : nd) (n : Z) : shape F = [:: d; d] ->
  exists R, [/\ jax_matrix_power empty F n = Ok R, shape R = [:: d; d] &
    mx2 d d R = mxpow (mx2 d d F) (Z.to_nat (Z.modulo n (Z.pow 2 32)))].
Proof. exact: jax_matrix_powerP. Qed.
(** jax_utils.exp_map agrees with Rep.exp_map when both expm agree and the discrete
    parameters are in range; there must be as many as discrete generators. *)
Theorem C35_exp_map (empty : nat -> nd) (expm : nd -> res nd) (ex : forall d, 'M[C]_d -> 'M[C]_d) l h d (r : rep C) (a : nd) (ks : seq Z) :
  (forall d (L : nd), shape L = [:: d; d] -> exists E, [/\ expm L = Ok E, shape E = [:: d; d] & mx2 d d E = ex d (mx2 d d L)]) ->
  shape (rX r) = [:: l; d; d] -> shape (rH r) = [:: h; d; d] -> shape a = [:: l] ->
  size ks = h -> (forall b, (b < h)%N -> Z.le 0 (nth Z0 ks b) /\ Z.lt (nth Z0 ks b) (Z.pow 2 32)) ->
  exists R R', [/\ jax_exp_map expm empty r a ks = Ok R, exp_map expm r a [seq Posz (Z.to_nat k) | k <- ks] = Ok R' & nd_eq R R'].
Proof.
move=> es sX sH sa sk rg.
have [R [eR sR mR]] := @jax_exp_mapP C expm ex es empty l h d r a ks sX sH sa sk.
have kE : [seq Posz (Z.to_nat (Z.modulo k (Z.pow 2 32))) | k <- ks] = [seq Posz (Z.to_nat k) | k <- ks].
  apply: (@eq_from_nth _ 0); rewrite !size_map // => b hb.
  by rewrite !(nth_map Z0) // Z.mod_small //; apply: rg; rewrite -sk.
have := exp_mapP [seq Posz (Z.to_nat k) | k <- ks] es sX sH sa => /=.
have -> : powers_ok (mx3 d d (rH r)) (zip [seq Posz (Z.to_nat k) | k <- ks] (iota 0 h)).
  by move: (iota 0 h) => s; elim: ks s {sk rg eR mR kE} => [|k ks IH] [|b s] //=; rewrite IH.
case=> R' [e' s' m']; exists R, R'; split=> //.
rewrite kE -m' in mR; split; first by rewrite sR.
case=> [|i [|j [|? ?]]]; rewrite sR ?valid_cons // ?andbF // valid_nil andbT => /andP[hi hj].
by move/matrixP: mR => /(_ (Ordinal hi) (Ordinal hj)); rewrite !mxE.
Qed.
Theorem C35_exp_map_len (empty : nat -> nd) (expm : nd -> res nd) l h d (r : rep C) (a : nd) (ks : seq Z) :
  shape (rX r) = [:: l; d; d] -> shape (rH r) = [:: h; d; d] -> size ks <> h ->
  jax_exp_map expm empty r a ks = Err ValueError.
Proof. exact: jax_exp_map_len. Qed.
Example C35_example (empty : nat -> nd) : exists R,
  jax_matrix_power empty (slice0 (ex_gen 2%:R) 0) 5 = Ok R /\ get R [:: 0; 0]%N = 32%:R.
Proof.
have [||| R [-> sR mR]] := @C35_matrix_power empty 1 (slice0 (ex_gen 2%:R) 0) 5; [by []|by []|by []|].
exists R; split=> //; have /matrixP/(_ 0 0) := mR; rewrite [LHS]mxE => ->.
rewrite (_ : Z.to_nat 5 = 5%N) // !exprS expr0 mulr1.
have E (M N : 'M[C]_2) : M 0 1 = 0 -> (M * N) 0 0 = M 0 0 * N 0 0.
  move=> m; rewrite mxE big_ord_recl big_ord1; have -> : lift ord0 ord0 = 1 :> 'I_2 by apply/val_inj.
  by rewrite m mul0r addr0.
by rewrite !E !mxE //= -!natrM.
Qed.
End Props.
