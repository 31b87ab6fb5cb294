(** VmapProofs: what util.vmap computes. *)
From Coq Require Import ZArith String Ascii.
From mathcomp Require Import all_ssreflect all_algebra.
From mathcomp.zify Require Import zify.
From Verif Require Import Base Nd NdProofs Reps Util.

Set Implicit Arguments.
Unset Strict Implicit.
Unset Printing Implicit Defensive.

Import GRing.Theory Num.Theory.
Local Open Scope ring_scope.

Section Lists.
Variable T : Type.
Implicit Types (s : seq T) (x : T).

Lemma size_insert_at k x s : size (insert_at k x s) = (size s).+1.
Proof. by rewrite size_cat /= addnS -size_cat cat_take_drop. Qed.
Lemma size_rem_at k s : (k < size s)%N -> size (rem_at k s) = (size s).-1.
Proof. by move=> lt; rewrite size_cat size_take size_drop lt; lia. Qed.
Lemma insert_atK k x s : (k <= size s)%N -> rem_at k (insert_at k x s) = s.
Proof.
move=> le; rewrite /rem_at /insert_at take_size_cat ?size_takel //.
rewrite drop_cat size_takel // ltnNge leqnSn /= -[in (_ - k)%N]add1n addnK /=.
by rewrite drop0 cat_take_drop.
Qed.
Lemma rem_atK x0 k s : (k < size s)%N -> insert_at k (nth x0 s k) (rem_at k s) = s.
Proof.
move=> lt; rewrite /rem_at /insert_at take_size_cat ?size_takel ?(ltnW lt) //.
rewrite drop_size_cat ?size_takel ?(ltnW lt) //.
by rewrite -(drop_nth x0 lt) cat_take_drop.
Qed.
Lemma nth_insert_at x0 k x s : (k <= size s)%N -> nth x0 (insert_at k x s) k = x.
Proof. by move=> le; rewrite nth_cat size_takel // ltnn subnn. Qed.
End Lists.

Lemma valid_insert_at p n sh i idx : (p <= size sh)%N -> size idx = size sh ->
  valid (insert_at p n sh) (insert_at p i idx) = (i < n)%N && valid sh idx.
Proof.
elim: p sh idx => [|p IH] sh idx le es.
  by rewrite /insert_at !take0 !drop0 /= valid_cons.
case: sh idx le es => [|d sh] [|j idx] //= le [es].
have -> : insert_at p.+1 n (d :: sh) = d :: insert_at p n sh by [].
have -> : insert_at p.+1 i (j :: idx) = j :: insert_at p i idx by [].
by rewrite !valid_cons IH // andbCA.
Qed.
Lemma valid_size sh idx : valid sh idx -> size idx = size sh.
Proof. by case/andP => /eqP. Qed.
(** Every index of an array with an axis inserted at p is an index with a coordinate inserted. *)
Lemma valid_insertP p n sh idx : (p <= size sh)%N -> valid (insert_at p n sh) idx ->
  exists i idx', [/\ idx = insert_at p i idx', (i < n)%N & valid sh idx'].
Proof.
move=> le v; have es := valid_size v; rewrite size_insert_at in es.
have ps : (p < size idx)%N by rewrite es ltnS.
have e := rem_atK 0%N ps; exists (nth 0%N idx p), (rem_at p idx); split=> //.
  by move: v; rewrite -{1}e valid_insert_at ?size_rem_at ?es // => /andP[].
by move: v; rewrite -{1}e valid_insert_at ?size_rem_at ?es // => /andP[].
Qed.

Lemma norm_axis_lt ax r p : norm_axis ax r = Some p -> (p < r)%N.
Proof. by case: ax => k /=; case: ifP => // lt [<-] //; move: lt; lia. Qed.
(** The axis ax is p, or p - r when it is counted from the end. *)
Lemma norm_axisP ax r p : norm_axis ax r = Some p <-> (p < r)%N /\ (ax = p%:Z \/ ax = p%:Z - r%:Z).
Proof.
case: ax => k /=; split.
- by case: ifP => // lt [<-]; split=> //; left.
- by case=> lt [[->]|]; [rewrite lt | lia].
- by case: ifP => // lt [<-]; lia.
- case=> lt [|e]; first by lia.
  have -> : (k < r)%N by lia.
  by congr Some; lia.
Qed.

Section Vmap.
Variable C : numClosedFieldType.
Notation nd := (nd C).
Implicit Types (a : nd) (args : seq nd).

Lemma stack_axP ax (l : seq nd) sh p : (0 < size l)%N -> all (fun b => shape b == sh) l ->
  norm_axis ax (size sh).+1 = Some p ->
  exists r, [/\ stack_ax ax l = Ok r, shape r = insert_at p (size l) sh &
    forall i idx, (i < size l)%N -> size idx = size sh -> get r (insert_at p i idx) = get (nth (zeros [::]) l i) idx].
Proof.
case: l => //= a l _ /andP[/eqP ea al] e.
have le := norm_axis_lt e; rewrite ltnS in le.
rewrite ea e eqxx al /=; eexists; split; [by []| by [] |].
move=> i idx lt es /=; rewrite nth_insert_at ?es // insert_atK ?es //.
by rewrite (set_nth_default (zeros [::])).
Qed.
Lemma stack_ax_shapes ax (l : seq nd) i : (i < size l)%N ->
  shape (nth (zeros [::]) l i) <> shape (nth (zeros [::]) l 0) -> stack_ax ax l = Err ValueError.
Proof.
case: l => //= a l lt ne; rewrite eqxx /=; case: ifP => // /negbFE al.
case: i lt ne => [|i] //= lt [].
by move/(all_nthP (zeros [::])): al => /(_ i lt) /eqP.
Qed.
Lemma stack_ax_axis ax (l : seq nd) sh : all (fun b => shape b == sh) l ->
  norm_axis ax (size sh).+1 = None -> stack_ax ax l = Err ValueError.
Proof. by case: l => //= a l /andP[/eqP ea al] e; rewrite ea eqxx al e. Qed.

(** The axis of an argument has length n, when it is mapped. *)
Definition axis_ok (n : nat) (q : nd * option int) : bool :=
  if q.2 is Some ax then
    if norm_axis ax (size (shape q.1)) is Some p then nth 0%N (shape q.1) p == n else false
  else true.

Lemma axis_dims_ok n args (axes : seq (option int)) : size axes = size args ->
  all (axis_ok n) (zip args axes) -> axis_dims args axes = Ok (nseq (count isSome axes) n).
Proof.
elim: args axes => [|a args IH] [|[ax|] axes] //= [es].
- rewrite /axis_ok /=; case: norm_axis => // p /andP[/eqP -> al]; rewrite IH //=.
- by move=> al; rewrite IH.
Qed.
Lemma undup_nseq (k n : nat) : size (undup (nseq k n)) = (0 < k)%N.
Proof.
elim: k => //= k IH; case: ifP => [|/negbT].
  by rewrite mem_nseq => /andP[k0 _]; rewrite IH k0.
by rewrite mem_nseq eqxx andbT lt0n negbK => /eqP ->.
Qed.

Variable junk : seq nat -> C.
Definition axes_of (in_axes : int + seq (option int)) (k : nat) : seq (option int) :=
  match in_axes with inl a => nseq k (Some a) | inr l => l end.

Lemma vmap_dims f in_axes oax osh args n : let axes := axes_of in_axes (size args) in
  size axes = size args -> all (axis_ok n) (zip args axes) -> has isSome axes ->
  vmap junk f in_axes oax osh args =
  (do output <- mapR (fun i => f (slices args axes i)) (iota 0 n);
   match output with
   | [::] => Ok (VArr (Nd (if osh is Some s then py_insert oax 0%N s else [::]) junk))
   | VTup _ :: _ => do l <- vtuples output; do t <- mapR (stack_ax oax) (columns l); Ok (VTup t)
   | VArr _ :: _ => do l <- varrays output; do t <- stack_ax oax l; Ok (VArr t)
   end).
Proof.
rewrite /vmap -/(axes_of in_axes (size args)) => es al; rewrite has_count => cp.
rewrite es eqxx /= (axis_dims_ok es al) /= undup_nseq cp /=.
by case: count cp.
Qed.

Theorem vmap_arr f in_axes oax osh args n p sh (out : nat -> nd) :
  let axes := axes_of in_axes (size args) in
  size axes = size args -> all (axis_ok n) (zip args axes) -> has isSome axes -> (0 < n)%N ->
  (forall i, (i < n)%N -> f (slices args axes i) = Ok (VArr (out i)) /\ shape (out i) = sh) ->
  norm_axis oax (size sh).+1 = Some p ->
  exists r, [/\ vmap junk f in_axes oax osh args = Ok (VArr r), shape r = insert_at p n sh &
    forall i idx, (i < n)%N -> size idx = size sh -> get r (insert_at p i idx) = get (out i) idx].
Proof.
move=> axes es al hs n0 fP ep; rewrite (vmap_dims _ _ _ es al hs) -/axes.
rewrite (mapR_ok_in (g := fun i => VArr (out i))); last first.
  by move=> i; rewrite mem_iota add0n => /andP[_ lt]; have [-> _] := fP i lt.
cbv beta iota delta [rbind].
have vE : varrays [seq VArr (out i) | i <- iota 0 n] = Ok [seq out i | i <- iota 0 n].
  by rewrite /varrays; elim: (iota 0 n) => //= i l ->.
have sE : size [seq out i | i <- iota 0 n] = n by rewrite size_map size_iota.
have [||r [rE rs rg]] := @stack_axP oax [seq out i | i <- iota 0 n] sh p _ _ ep.
- by rewrite sE.
- rewrite all_map; apply/allP => i; rewrite mem_iota add0n => /andP[_ lt] /=.
  by have [_ ->] := fP i lt.
exists r; case: n n0 vE rE {fP sE al} (sE) rs rg => // n _ vE rE sE rs rg.
rewrite vE; cbv beta iota delta [rbind]; rewrite [map _ _]/= in rE *; rewrite rE.
split=> //; first by rewrite rs sE.
move=> i idx lt es'; rewrite rg ?sE // (nth_map 0%N) ?size_iota // nth_iota //.
Qed.

(** Tuples: every component is stacked. *)
Theorem vmap_tup f in_axes oax osh args n m (p : nat -> nat) (sh : nat -> seq nat) (out : nat -> nat -> nd) :
  let axes := axes_of in_axes (size args) in
  size axes = size args -> all (axis_ok n) (zip args axes) -> has isSome axes -> (0 < n)%N ->
  (forall i, (i < n)%N -> f (slices args axes i) = Ok (VTup [seq out i j | j <- iota 0 m])) ->
  (forall i j, (i < n)%N -> (j < m)%N -> shape (out i j) = sh j) ->
  (forall j, (j < m)%N -> norm_axis oax (size (sh j)).+1 = Some (p j)) ->
  exists r, [/\ vmap junk f in_axes oax osh args = Ok (VTup r), size r = m &
    forall j, (j < m)%N -> shape (nth (zeros [::]) r j) = insert_at (p j) n (sh j) /\
      forall i idx, (i < n)%N -> size idx = size (sh j) ->
        get (nth (zeros [::]) r j) (insert_at (p j) i idx) = get (out i j) idx].
Proof.
move=> axes es al hs n0 fP shP ep; rewrite (vmap_dims _ _ _ es al hs) -/axes.
set T := fun i => [seq out i j | j <- iota 0 m].
rewrite (mapR_ok_in (g := fun i => VTup (T i))); last first.
  by move=> i; rewrite mem_iota add0n => /andP[_ lt]; rewrite fP.
cbv beta iota delta [rbind].
have vE : vtuples [seq VTup (T i) | i <- iota 0 n] = Ok [seq T i | i <- iota 0 n].
  by rewrite /vtuples; elim: (iota 0 n) => //= i l ->.
have cE : columns [seq T i | i <- iota 0 n] = [seq [seq out i j | i <- iota 0 n] | j <- iota 0 m].
  rewrite /columns; have -> : foldr minn (size (head [::] [seq T i | i <- iota 0 n])) [seq size t | t <- [seq T i | i <- iota 0 n]] = m.
    have -> : size (head [::] [seq T i | i <- iota 0 n]) = m.
      by case: n n0 {al fP shP vE} => //= n _; rewrite size_map size_iota.
    by rewrite -map_comp; elim: (iota 0 n) => //= i l ->; rewrite size_map size_iota minnn.
  apply/eq_in_map => j; rewrite mem_iota add0n => /andP[_ lt]; rewrite -map_comp; apply: eq_map => i /=.
  by rewrite (nth_map 0%N) ?size_iota // nth_iota.
have sP j : (j < m)%N -> exists r, [/\ stack_ax oax [seq out i j | i <- iota 0 n] = Ok r,
    shape r = insert_at (p j) n (sh j) & forall i idx, (i < n)%N -> size idx = size (sh j) ->
      get r (insert_at (p j) i idx) = get (out i j) idx].
  move=> lt; have sE : size [seq out i j | i <- iota 0 n] = n by rewrite size_map size_iota.
  have [||r [rE rs rg]] := @stack_axP oax [seq out i j | i <- iota 0 n] (sh j) (p j) _ _ (ep j lt).
  - by rewrite sE.
  - by rewrite all_map; apply/allP => i; rewrite mem_iota add0n => /andP[_ lti] /=; rewrite shP.
  exists r; split=> //; first by rewrite rs sE.
  by move=> i idx lti es'; rewrite rg ?sE // (nth_map 0%N) ?size_iota // nth_iota.
have [r rE] : exists r, mapR (stack_ax oax) (columns [seq T i | i <- iota 0 n]) = Ok r.
  rewrite cE; have : all (fun j => j < m)%N (iota 0 m).
    by apply/allP => j; rewrite mem_iota add0n => /andP[].
  elim: (iota 0 m) => [|j l IH] /=; first by exists [::].
  by case/andP=> lt /IH[t ->]; have [r [-> _ _]] := sP j lt; exists (r :: t).
exists r; split.
- by case: n n0 vE rE {fP shP cE sP al} => // n _ vE rE; rewrite vE; cbv beta iota delta [rbind]; rewrite rE.
- by rewrite (mapR_size rE) cE size_map size_iota.
move=> j lt; have [r' [e1 e2 e3]] := sP j lt.
have := mapR_nth [::] (zeros [::]) rE (i := j).
rewrite cE size_map size_iota (nth_map 0%N) ?size_iota // nth_iota // add0n e1 => /(_ lt) [<-].
by [].
Qed.

(** A mapped axis of length 0. *)
Theorem vmap_empty f in_axes oax osh args : let axes := axes_of in_axes (size args) in
  size axes = size args -> all (axis_ok 0) (zip args axes) -> has isSome axes ->
  vmap junk f in_axes oax osh args =
  Ok (VArr (Nd (if osh is Some s then py_insert oax 0%N s else [::]) junk)).
Proof. by move=> axes es al hs; rewrite (vmap_dims _ _ _ es al hs). Qed.

(** The errors. *)
Theorem vmap_len f l oax osh args : size l != size args ->
  vmap junk f (inr l) oax osh args = Err AssertionError.
Proof. by rewrite /vmap => /negbTE ->. Qed.
Theorem vmap_nomap f l oax osh args : size l = size args -> ~~ has isSome l ->
  vmap junk f (inr l) oax osh args = Err AssertionError.
Proof.
move=> es hs; rewrite /vmap es eqxx /=.
have -> : axis_dims args l = Ok [::]; last by [].
elim: args l es hs => [|a args IH] [|[ax|] l] //= [es] hs; exact: IH.
Qed.
(** Every mapped argument has its axis. *)
Definition axis_in (q : nd * option int) : bool :=
  if q.2 is Some ax then isSome (norm_axis ax (size (shape q.1))) else true.
Definition axis_len (q : nd * option int) : nat :=
  if q.2 is Some ax then if norm_axis ax (size (shape q.1)) is Some p then nth 0%N (shape q.1) p else 0%N else 0%N.
Lemma axis_dimsE args (axes : seq (option int)) : size axes = size args ->
  all axis_in (zip args axes) ->
  axis_dims args axes = Ok [seq axis_len q | q <- zip args axes & isSome q.2].
Proof.
elim: args axes => [|a args IH] [|[ax|] axes] //= [es].
- by rewrite /axis_in /axis_len /=; case: norm_axis => // p /= al; rewrite IH.
- by move=> al; rewrite IH.
Qed.
Theorem vmap_noaxis f in_axes oax osh args : let axes := axes_of in_axes (size args) in
  size axes = size args -> ~~ all axis_in (zip args axes) ->
  vmap junk f in_axes oax osh args = Err IndexError.
Proof.
move=> axes es al; rewrite /vmap -/(axes_of in_axes (size args)) -/axes es eqxx /=.
have -> : axis_dims args axes = Err IndexError; last by [].
elim: args axes es al => [|a args IH] [|[ax|] axes] //= [es].
- by rewrite /axis_in /=; case: norm_axis => //= p al; rewrite IH.
- by move=> al; rewrite IH.
Qed.
Theorem vmap_dims_differ f in_axes oax osh args q1 q2 x0 : let axes := axes_of in_axes (size args) in
  size axes = size args -> all axis_in (zip args axes) ->
  (q1 < size args)%N -> (q2 < size args)%N ->
  isSome (nth None axes q1) -> isSome (nth None axes q2) ->
  axis_len (nth x0 (zip args axes) q1) <> axis_len (nth x0 (zip args axes) q2) ->
  vmap junk f in_axes oax osh args = Err AssertionError.
Proof.
move=> axes es al l1 l2 s1 s2 ne; rewrite /vmap -/(axes_of in_axes (size args)) -/axes es eqxx /=.
rewrite axis_dimsE //=; set D := [seq _ | _ <- _ & _].
have inD q : (q < size args)%N -> isSome (nth None axes q) -> axis_len (nth x0 (zip args axes) q) \in D.
  move=> lt sq; rewrite /D; have sz : (q < size (zip args axes))%N by rewrite size_zip es minnn.
  have : isSome (nth x0 (zip args axes) q).2.
    by move: (x0) => [y0 o0]; rewrite nth_zip ?es //= (set_nth_default None) ?es.
  elim: (zip args axes) q sz {lt sq} => [|z l IH] [|q] //= lt h; first by rewrite h /= inE eqxx.
  by case: ifP => _; rewrite /= ?inE IH ?orbT.
have d1 := inD q1 l1 s1; have d2 := inD q2 l2 s2.
suff /negbTE -> : size (undup D) != 1%N by [].
apply/negP => /eqP e1; move: d1 d2 ne; rewrite -!(mem_undup D).
by case: (undup D) e1 => [|y [|]] //= _; rewrite !inE => /eqP -> /eqP ->.
Qed.
(** The first error of the mapped function is raised. *)
Theorem vmap_fun_err f in_axes oax osh args n k e : let axes := axes_of in_axes (size args) in
  size axes = size args -> all (axis_ok n) (zip args axes) -> has isSome axes ->
  (k < n)%N -> f (slices args axes k) = Err e ->
  (forall i, (i < k)%N -> exists o, f (slices args axes i) = Ok o) ->
  vmap junk f in_axes oax osh args = Err e.
Proof.
move=> axes es al hs lt fk fi; rewrite (vmap_dims _ _ _ es al hs) -/axes.
suff -> : mapR (fun i => f (slices args axes i)) (iota 0 n) = Err e by [].
have -> : n = (k + (n - k))%N by lia.
rewrite iotaD add0n.
have h : forall m l, (m <= k)%N -> mapR (fun i => f (slices args axes i)) l = Err e ->
   mapR (fun i => f (slices args axes i)) (iota (k - m) m ++ l) = Err e.
  elim=> [|m IH] l le e' //=; have [o ->] /= : exists o, f (slices args axes (k - m.+1)) = Ok o by apply: fi; lia.
  by have -> : (k - m.+1).+1 = (k - m)%N by [lia]; rewrite IH //; lia.
have := h k (iota k (n - k)) (leqnn k); rewrite subnn => -> //.
by have -> : (n - k)%N = (n - k).-1.+1 by [lia]; rewrite /= fk.
Qed.
(** Outputs of different shapes cannot be stacked. *)
Theorem vmap_shapes_differ f in_axes oax osh args n k (out : nat -> nd) :
  let axes := axes_of in_axes (size args) in
  size axes = size args -> all (axis_ok n) (zip args axes) -> has isSome axes -> (k < n)%N ->
  (forall i, (i < n)%N -> f (slices args axes i) = Ok (VArr (out i))) ->
  shape (out k) <> shape (out 0%N) ->
  vmap junk f in_axes oax osh args = Err ValueError.
Proof.
move=> axes es al hs lt fP ne; rewrite (vmap_dims _ _ _ es al hs) -/axes.
rewrite (mapR_ok_in (g := fun i => VArr (out i))); last first.
  by move=> i; rewrite mem_iota add0n => /andP[_ lti]; rewrite fP.
cbv beta iota delta [rbind].
have vE : varrays [seq VArr (out i) | i <- iota 0 n] = Ok [seq out i | i <- iota 0 n].
  by rewrite /varrays; elim: (iota 0 n) => //= i l ->.
have sE : stack_ax oax [seq out i | i <- iota 0 n] = Err ValueError.
  apply: (@stack_ax_shapes oax _ k); first by rewrite size_map size_iota.
  by rewrite !(nth_map 0%N) ?size_iota ?nth_iota ?add0n //; apply: leq_ltn_trans lt.
by case: n lt vE sE {al fP} => // n _ vE sE; rewrite vE; cbv beta iota delta [rbind]; rewrite sE.
Qed.
End Vmap.
