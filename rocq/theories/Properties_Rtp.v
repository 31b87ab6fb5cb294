(** Properties_Rtp: IrrepsArray.sorted and simplify (C12), the contraction loop of
    _reduced_tensor_product_basis (C13), and the equivariance of the basis that it
    returns (C67). *)
From Coq Require Import ZArith String Ascii List Permutation.
From mathcomp Require Import all_ssreflect all_algebra.
From mathcomp Require Import zify.
From Verif Require Import Base Nd NdProofs Reps Sl2c LinAlg Perm RedPerm Rtp RtpArr RtpLoop RtpFuel RtpPres RtpEqv.

Set Implicit Arguments.
Unset Strict Implicit.
Unset Printing Implicit Defensive.

Import GRing.Theory Num.Theory.
Local Open Scope ring_scope.

(** * Specification *)
Section Spec.
Variable C : numClosedFieldType.
Variable L : eqType.
Variable dim : L -> nat.
Notation mi := (nat * L)%type.
(** A strict total order. *)
Definition strict_order (lt : rel L) : Prop :=
  [/\ irreflexive lt, transitive lt & forall a b, [|| a == b, lt a b | lt b a]].
(** The (mul, irrep) pairs with their arrays. *)
Definition pairs (b : irrarr C L) : seq (mi * nd C) := zip (ia_irreps b) (ia_list b).
(** The columns: for each block and each copy u < mul, the irrep and the entries
    x[idx, u, k]. *)
Definition columns (b : irrarr C L) : seq (L * (seq nat -> nat -> C)) :=
  flatten [seq [seq (p.1.2, fun idx k => get p.2 (idx ++ [:: u; k])) | u <- iota 0 p.1.1] | p <- pairs b].
(** Equality of columns on indices of r axes. *)
Definition same_columns (r : nat) : seq (L * (seq nat -> nat -> C)) -> seq (L * (seq nat -> nat -> C)) -> Prop :=
  List.Forall2 (fun c c' => c.1 = c'.1 /\ forall idx k, size idx = r -> c.2 idx k = c'.2 idx k).
Definition total_dim (irs : seq mi) : nat := sumn [seq (m.1 * dim m.2)%N | m <- irs].
(** (irrep, mul) in lexicographic order. *)
Definition lex_le (lt : rel L) (a b : mi) : bool := if a.2 == b.2 then (a.1 <= b.1)%N else lt a.2 b.2.
(** Neighbours differ. *)
Definition no_repeat (s : seq L) : bool := sorted (fun a b => a != b) s.
(** An IrrepsArray whose blocks all have the leading shape ld. *)
Definition has_lead (ld : seq nat) (b : irrarr C L) : Prop :=
  pairs b <> [::] /\ List.Forall (fun p => shape p.2 = ld ++ [:: p.1.1; dim p.1.2]) (pairs b) /\ size (ia_irreps b) = size (ia_list b).
(** The basis a[i1, ..., in, c] intertwines the action of a generator on the last axis
    (block-diagonal, with the matrices Y of the irreps irs) with the sum of its actions X
    on the other axes; a discrete generator acts on all the other axes in turn. *)
Definition basis_equivariant (Y : L -> nat -> nat -> C) (X : seq mi * option (nd C) -> nat -> nat -> C)
    (irr : seq (seq mi * option (nd C))) (irs : seq mi) (a : nd C) : Prop :=
  let dims := map (rdim dim) irr in let D := total_dim irs in
  shape a = rcons dims D /\
  forall idx c, valid dims idx -> (c < D)%N ->
    \sum_(c' < D) bdiag dim Y irs c c' * get a (rcons idx c') =
    \sum_(i <- iota 0 (size irr)) \sum_(l < nth 0%N dims i)
        X (nth ([::], None) irr i) l (nth 0%N idx i) * get a (rcons (upd idx i l) c).
Definition basis_equivariantH (Y : L -> nat -> nat -> C) (X : seq mi * option (nd C) -> nat -> nat -> C)
    (irr : seq (seq mi * option (nd C))) (irs : seq mi) (a : nd C) : Prop :=
  let dims := map (rdim dim) irr in let D := total_dim irs in
  shape a = rcons dims D /\
  forall idx c, valid dims idx -> (c < D)%N ->
    \sum_(c' < D) bdiag dim Y irs c c' * get a (rcons idx c') =
    foldr (fun i (g : seq nat -> C) idx => \sum_(l < nth 0%N dims i) X (nth ([::], None) irr i) l (nth 0%N idx i) * g (upd idx i l))
      (fun idx => get a (rcons idx c)) (iota 0 (size irr)) idx.
End Spec.

Section C12.
Variable C : numClosedFieldType.
Variable L : eqType.
Variable lt : rel L.
Variable dim : L -> nat.
Notation mi := (nat * L)%type.
Local Notation irrarr := (irrarr C L).

Lemma pairs_mk (l : seq (mi * nd C)) : pairs (mk l) = l.
Proof. exact: blocks_mk. Qed.
Lemma columns_mk (l : seq (mi * nd C)) : columns (mk l) = cols l.
Proof. by rewrite /columns pairs_mk. Qed.
Lemma has_leadP ld (b : irrarr) : has_lead dim ld b <-> exists2 l, b = mk l & wf dim ld l.
Proof.
split=> [[ne [h sz]]|[l -> [l0 w]]].
  exists (pairs b); last by split=> //; case: (pairs b) ne => //= ne; case: ne.
  by case: b sz {ne h} => irs xs /= sz; exact: mk_blocks.
by split; [|split]; rewrite ?pairs_mk //; [case: l l0 {w} | rewrite !size_map].
Qed.
(** IrrepsArray(irreps, list) accepts exactly the lists whose blocks agree. *)
Theorem C12_accepts (irs : seq mi) (xs : seq (nd C)) b :
  ia_new dim irs xs = Ok b <-> b = IrrArr irs xs /\ exists ld, has_lead dim ld b.
Proof.
split=> [/ia_new_inv[-> sz [ld w]]|[-> [ld /has_leadP[l e w]]]].
  by split; [rewrite -mk_blocks | exists ld; apply/has_leadP; exists (zip irs xs)].
by move: (ia_new_wf w); rewrite -[map fst l]/(ia_irreps (mk l)) -[map snd l]/(ia_list (mk l)) -e.
Qed.
(** sorted() only reorders the blocks. *)
Theorem C12_sorted ld (b : irrarr) : has_lead dim ld b -> exists b',
  [/\ ia_sorted lt dim b = Ok b', has_lead dim ld b', Permutation (pairs b') (pairs b),
      total_dim dim (ia_irreps b') = total_dim dim (ia_irreps b) &
      strict_order lt -> sorted (lex_le lt) (ia_irreps b')].
Proof.
case/has_leadP => l -> w; rewrite (ia_sortedE lt w); exists (mk (sortb lt l)).
have P := sortb_perm lt l; split=> //.
- by apply/has_leadP; eexists; [reflexivity|]; apply: wf_perm (Permutation_sym P) w.
- by rewrite !pairs_mk.
- by rewrite /total_dim /= -!tdim_irreps; apply: tdim_perm.
case=> h1 h2 h3; have := sortb_sorted h1 h2 h3 l; apply: sub_sorted => x y.
by rewrite key_leE.
Qed.
(** simplify() keeps the columns in their order and merges neighbours. *)
Theorem C12_simplify ld (b : irrarr) : has_lead dim ld b -> exists b',
  [/\ ia_simplify dim b = Ok b', has_lead dim ld b', same_columns (size ld) (columns b') (columns b),
      total_dim dim (ia_irreps b') = total_dim dim (ia_irreps b) &
      no_repeat [seq m.2 | m <- ia_irreps b']].
Proof.
case/has_leadP => l -> w; have [l' -> [w' c lab]] := simplifyP w; exists (mk l'); split=> //.
- by apply/has_leadP; exists l'.
- by rewrite !columns_mk.
- rewrite /total_dim /= -!tdim_irreps -!size_ents; have := ents_ceqs dim c.
  by elim=> //= x y s t _ _ ->.
rewrite /= -map_comp -[map _ l']/([seq q.1.2 | q <- l']) lab.
case: {lab c} [seq _ | q <- l] => //= a s; rewrite /no_repeat.
have gen : exists2 t, merge_lab a s = a :: t & path (fun a b => a != b) a t.
  elim: s a => [|x s IH] a /=; first by exists [::].
  case: (boolP (x == a)) => [_|ne]; first exact: IH.
  by have [t -> p] := IH x; exists (x :: t) => //=; rewrite eq_sym ne.
by case: gen => t ->.
Qed.
(** The array is not changed by simplify(). *)
Theorem C12_simplify_array ld (b b' : irrarr) : has_lead dim ld b -> nprod ld <> 0%N -> ia_simplify dim b = Ok b' ->
  exists a a', [/\ ia_array b = Ok a, ia_array b' = Ok a',
    shape a = rcons ld (total_dim dim (ia_irreps b)) /\ shape a' = shape a &
    forall i, valid (shape a) i -> get a' i = get a i].
Proof.
case/has_leadP => l -> w n0; have [l' -> [w' c _]] := simplifyP w; case=> <-.
have [a -> [sa ga]] := ia_arrayP w n0; have [a' -> [sa' ga']] := ia_arrayP w' n0; exists a, a'.
have ee := ents_ceqs dim c; have e : tdim dim l' = tdim dim l.
  by rewrite -!size_ents; elim: ee => //= x y s t _ _ ->.
split=> //; first by rewrite sa sa' e /total_dim /= tdim_irreps.
move=> i; rewrite sa; case/lastP: i => [|idx k]; first by move/valid_size; rewrite size_rcons.
rewrite -!cats1 => v; have sz : size idx = size ld.
  by have := valid_size v; rewrite !size_cat !addn1 => -[].
move: v; rewrite valid_cat // valid_cons => /and3P[vi hk _]; rewrite !cats1 ga // ga' ?e //.
have gen s t : List.Forall2 (fun f g : seq nat -> C => forall i, size i = size ld -> f i = g i) s t ->
    forall k, nth (fun=> 0) s k idx = nth (fun=> 0) t k idx.
  by elim=> [|x y s' t' h _ IH] [|k'] //=; apply: h.
exact: gen ee k.
Qed.
(** After sorted().simplify() the labels are strictly increasing, and the columns are the
    old ones in another order. *)
Theorem C12_sorted_simplify ld (b : irrarr) : has_lead dim ld b -> strict_order lt -> exists b' cs,
  [/\ (do b1 <- ia_sorted lt dim b; ia_simplify dim b1) = Ok b', has_lead dim ld b',
      uniq [seq m.2 | m <- ia_irreps b'] /\ sorted lt [seq m.2 | m <- ia_irreps b'],
      Permutation cs (columns b) /\ same_columns (size ld) (columns b') cs &
      total_dim dim (ia_irreps b') = total_dim dim (ia_irreps b)].
Proof.
move=> hb st; have [b1 [e1 h1 P d1 _]] := C12_sorted hb.
have [b2 [e2 h2 c2 d2 _]] := C12_simplify h1; exists b2, (columns b1); rewrite e1 /= e2; split=> //.
- case: st => i1 i2 i3; case/has_leadP: hb e1 h1 e2 {P d1 c2 d2} => l -> w; rewrite (ia_sortedE lt w) => -[<-] _.
  have w' := wf_perm (Permutation_sym (sortb_perm lt l)) w.
  have [l' -> [_ _ lab]] := simplifyP w'; case=> <-.
  rewrite /= -map_comp -[map _ l']/([seq q.1.2 | q <- l']) lab.
  have s := sortb_labels i1 i2 i3 l; split=> //; exact: sorted_lt_uniq i1 i2 _ s.
- by split=> //; rewrite /columns; apply: Permutation_flatten; apply: Permutation_map'.
by rewrite d2.
Qed.
(** No IrrepsArray is empty. *)
Theorem C12_empty : ia_new dim [::] ([::] : seq (nd C)) = Err AssertionError.
Proof. by []. Qed.
End C12.
(** Three blocks, two of them with the same label. *)
Example C12_example (C : numClosedFieldType) :
  let x m d := zeros [:: 2; m; d]%N : nd C in let dm l := l.+1 in
  exists b b', [/\ ia_new dm [:: (1, 1); (2, 0); (3, 1)]%N [:: x 1 2; x 2 1; x 3 2]%N = Ok b,
    (do b1 <- ia_sorted ltn dm b; ia_simplify dm b1) = Ok b', ia_irreps b' = [:: (2, 0); (4, 1)]%N & strict_order ltn].
Proof.
do 2 eexists; split; [reflexivity | vm_compute; reflexivity | by [] |].
by split; [exact: ltnn | exact: ltn_trans | move=> a b /=; rewrite -neq_ltn; exact: orbN].
Qed.

Section C13.
Variable C : numClosedFieldType.
Notation nd := (nd C).
Variable L : eqType.
Variable lt : rel L.
Variable dim : L -> nat.
Variable mulL : L -> L -> res (seq L).
Variable cgL : L -> L -> L -> res nd.
Variable rnd : nd -> nd.
Variable eigh : nd -> res (nd * nd).
Variable eps : C.
Variable ford : seq nat -> seq nat.
Hypothesis ford_perm : forall f, perm_eq (ford f) f.
Notation mi := (nat * L)%type.
Notation rrep := (seq mi * option nd)%type.
Local Notation rtp := (rtp lt dim mulL cgL rnd eigh eps ford).
Local Notation rtp_body := (rtp_body lt dim mulL cgL rnd eigh eps ford).

(** The recursive calls get strictly fewer representations: the result does not depend on
    what they would do on lists that are not shorter. *)
Theorem C13_recursion_smaller rec rec' (irr : seq rrep) G fuel :
  (forall s g, (size s < size irr)%N -> rec s g = rec' s g) -> (size irr <= fuel)%N -> (0 < fuel)%N ->
  rtp_body rec irr G fuel = rtp_body rec' irr G fuel.
Proof. by move=> h s f0; apply: body_ext. Qed.
(** The algorithm stops: with fuel above the number of representations the result is
    never OutOfFuel and is always the same. *)
Theorem C13_terminates fuel (irr : seq rrep) G :
  (forall a b, mulL a b <> Err OutOfFuel) -> (forall a b c, cgL a b c <> Err OutOfFuel) -> (forall a, eigh a <> Err OutOfFuel) ->
  (size irr < fuel)%N ->
  rtp fuel irr G <> Err OutOfFuel /\ rtp fuel irr G = rtp (size irr).+1 irr G.
Proof. by move=> h1 h2 h3 hf; split; [apply: noof_rtp | apply: rtp_fuel]. Qed.
(** The pair that is merged has the smallest dimension of all the pairs. *)
Theorem C13_greedy fs G dims : (1 < size fs)%N -> exists i j d,
  [/\ greedy ford fs G dims = Some (d, (i, j, fset_union (nth [::] fs i) (nth [::] fs j))),
      (i < j < size fs)%N, d = reduce_subgroup_dim (ford (fset_union (nth [::] fs i) (nth [::] fs j))) G dims &
      forall i' j', (i' < j' < size fs)%N ->
        (d <= reduce_subgroup_dim (ford (fset_union (nth [::] fs i') (nth [::] fs j'))) G dims)%N].
Proof.
move=> s; have [i [j [e ij js h]]] := greedyP ford G dims s; exists i, j, (pdim ford fs G dims (i, j)).
by split=> //; [rewrite ij | move=> i' j' /andP[h1 h2]; exact: h].
Qed.
(** Every block of the result has one axis for each of the representations. *)
Theorem C13_covers fuel (irr : seq rrep) G b : rtp fuel irr G = Ok b -> has_lead dim (map (rdim dim) irr) b.
Proof.
move=> e; have := @Inv_rtp C L lt dim mulL cgL rnd eigh eps ford ford_perm (fun _ _ _ _ => True) _ (fun _ _ _ => True) (fun=> True) _ _ _ _ _ _ fuel irr G b e.
case=> // l [-> w _]; apply/has_leadP; exists l => //.
by move: w; rewrite -{1}(size_map (rdim dim)) masked_all.
Qed.
(** Without representations there is no pair to take. *)
Theorem C13_empty fuel G : rtp fuel.+1 [::] G = Err TypeError.
Proof. by []. Qed.

(** ** C67 *)
Hypothesis ford_id : forall f, sorted ltn f -> ford f = f.
Variable Y : L -> nat -> nat -> C.
Variable X : rrep -> nat -> nat -> C.
Local Notation rtp_out := (rtp_out lt dim mulL cgL rnd eigh eps ford).
Let rr0 := (([::] : seq mi), (None : option nd)).

Lemma rtp_out_inv fuel (irr : seq rrep) G irs a xs : rtp_out fuel irr G = Ok (irs, a, xs) ->
  exists b, [/\ rtp fuel irr G = Ok b, irs = ia_irreps b & ia_array b = Ok a].
Proof.
rewrite /Rtp.rtp_out; case e: (Rtp.rtp _ _ _ _ _ _ _ _ _ _ _) => [b|] //=.
by case ea: (ia_array _) => [a'|] //= [<- <- _]; exists b.
Qed.
Lemma array_dims (irr : seq rrep) l (a : nd) : wf dim (map (rdim dim) irr) l -> ia_array (mk l) = Ok a ->
  shape a = rcons (map (rdim dim) irr) (tdim dim l) /\ forall idx c, valid (map (rdim dim) irr) idx -> (c < tdim dim l)%N ->
  get a (rcons idx c) = nth (fun=> 0) (ents dim l) c idx.
Proof.
move=> w; case: (nprod (map (rdim dim) irr) =P 0%N) => [n0|n0]; last by have [a' -> h] := ia_arrayP w n0; case=> <-.
rewrite /ia_array; case: l w => [|p l] [//= _ w]; have [lp _] := wfb_lead (List.Forall_inv w).
by rewrite /reshape_last lp n0.
Qed.
(** A generator of the Lie algebra: the basis intertwines its action on the last axis
    with the sum of its actions on the other axes. *)
Theorem C67_continuous fuel (irr : seq rrep) G irs (a : nd) xs :
  cgs dim mulL cgL (cg_eqv dim Y) -> gens_ok dim Y X irr -> rtp_out fuel irr G = Ok (irs, a, xs) ->
  basis_equivariant dim Y X irr irs a.
Proof.
move=> hcg ok /rtp_out_inv[b [e -> ea]]; set dims := map (rdim dim) irr; set D := total_dim dim (ia_irreps b).
have [l [eb w h]] := rtp_eqv ford_id X ford_perm hcg e; rewrite eb in ea *.
have [sa ga] := array_dims w ea.
have eD : D = tdim dim l by rewrite /D eb /total_dim /= tdim_irreps.
rewrite /basis_equivariant -/dims -eb -/D eD {1}eb /=; split=> // idx c vi hc; have [cl [k [hin hk gc ->]]] := array_row Y w vi ga hc.
have vi' : valid (masked (iota 0 (size irr)) dims) idx by rewrite -(size_map (rdim dim)) masked_all.
have := proj1 (List.Forall_forall _ _) (h ok) cl hin ok idx k vi' hk => ->.
rewrite big_seq [RHS]big_seq; apply: eq_bigr => i; rewrite mem_iota add0n => /= hi.
rewrite /act (nth_map rr0) //; apply: eq_bigr => j _; rewrite gc //.
rewrite -[map _ irr]masked_all; apply: valid_upd; rewrite ?masked_all ?mem_iota ?size_map //.
by rewrite (nth_map rr0).
Qed.
(** A discrete generator acts on every axis in turn. *)
Theorem C67_discrete fuel (irr : seq rrep) G irs (a : nd) xs :
  cgs dim mulL cgL (cg_eqvH dim Y) -> gens_ok dim Y X irr -> rtp_out fuel irr G = Ok (irs, a, xs) ->
  basis_equivariantH dim Y X irr irs a.
Proof.
move=> hcg ok /rtp_out_inv[b [e -> ea]]; set dims := map (rdim dim) irr; set D := total_dim dim (ia_irreps b).
have [l [eb w h]] := rtp_eqvH ford_id X ford_perm hcg e; rewrite eb in ea *.
have [sa ga] := array_dims w ea.
have eD : D = tdim dim l by rewrite /D eb /total_dim /= tdim_irreps.
rewrite /basis_equivariantH -/dims -eb -/D eD {1}eb /=; split=> // idx c vi hc; have [cl [k [hin hk gc ->]]] := array_row Y w vi ga hc.
have vi' : valid (masked (iota 0 (size irr)) dims) idx by rewrite -(size_map (rdim dim)) masked_all.
have := proj1 (List.Forall_forall _ _) (h ok) cl hin ok idx k vi' hk => ->.
have sub : {subset iota 0 (size irr) <= iota 0 (size irr)} by [].
rewrite /acts; set F := (fun _ _ => _ : seq nat -> C).
suff gen s : {subset s <= iota 0 (size irr)} -> forall i, valid dims i ->
    foldr (act dim X irr) cl.2 s i k = foldr F (fun i => get a (rcons i c)) s i by exact: gen.
elim: s => [|i s IH] {}sub idx' {}vi /=; first by rewrite gc.
have hi : (i < size irr)%N by have := sub i; rewrite inE eqxx mem_iota add0n => /(_ isT).
rewrite {1}/act /F /dims (nth_map rr0) //; apply: eq_bigr => j _; rewrite IH //.
  by move=> x hx; apply: sub; rewrite inE hx orbT.
rewrite -[dims]masked_all; apply: valid_upd; rewrite ?masked_all ?mem_iota ?size_map //.
by rewrite (nth_map rr0).
Qed.
End C13.
