(** Properties C07-C11: index symmetries (lie_nn/_src/reduced_tensor_product.py). *)
From mathcomp Require Import all_ssreflect all_fingroup all_algebra.
From mathcomp Require Import zify.
From Verif Require Import Base Perm PermProofs Closure RedPerm RedPermProofs RedPermBasis RedPermSub RedPermAssign.

Set Implicit Arguments.
Unset Strict Implicit.
Unset Printing Implicit Defensive.
Import GRing.Theory Num.Theory.

(** ** C07.  A formula is [render ((false, f0) :: ts)]: the words f0, w1, ..., wk
    joined by '=', a word preceded by '-' when its flag is true.  [gen sinv smul A]
    is the smallest set containing A closed under inverse and product, and
    [formula_gens] the signed permutations that carry f0 to the words. *)
Theorem C07_formula_generates_group f0 ts (n := size f0) :
  plain f0 -> all (fun t => plain t.2) ts -> uniq f0 ->
  all (fun t : bool * seq nat => perm_eq t.2 f0) ts ->
  exists2 r, (exists fuel, germinate_perm_repr fuel (render ((false, f0) :: ts)) = Ok (f0, r)) &
    uniq r /\ forall a, (a \in r) <->
      exists2 x : bool * 'S_n, gen (@sinv n) (@smul n) (formula_gens f0 ((false, f0) :: ts) n) x
                & a = ((if x.1 then (-1)%R else 1%R), [seq val (x.2 i) | i <- enum 'I_n]).
Proof.
move=> p0 pt u0 pe.
have [r [B [E LB HB]]] := germinate_perm_reprP p0 pt u0 pe (ltnSn (2 * n`!)).
exists r; first by exists (2 * n`!).+1.
split; first by case: LB.
have Es (x : bool * 'S_n) : senc x = ((if x.1 then (-1)%R else 1%R), [seq val (x.2 i) | i <- enum 'I_n]).
  by congr pair.
move=> a; split.
  by case/(clists_memP _ LB) => x /HB gx ->; exists x.
by case=> x /HB xB; rewrite -Es => ->; rewrite (clists_mem (@senc_inj n) _ LB).
Qed.

(** The result is a group of signed permutations in the sense used by C08-C11. *)
Theorem C07_formula_signed_group fuel f0 ts r :
  plain f0 -> all (fun t => plain t.2) ts -> uniq f0 ->
  all (fun t : bool * seq nat => perm_eq t.2 f0) ts -> 2 * (size f0)`! < fuel ->
  germinate_perm_repr fuel (render ((false, f0) :: ts)) = Ok (f0, r) ->
  signed_group (size f0) r.
Proof.
move=> p0 pt u0 pe lt; set n := size f0.
have [r' [B [-> LB HB]]] := germinate_perm_reprP p0 pt u0 pe lt; case=> Er; subst r'.
have memB a := clists_memP a LB.
have inr x : x \in B -> senc x \in r by rewrite (clists_mem (@senc_inj n) _ LB).
have nthE (x y : 'S_n) : [seq nth 0 (pseq x) i | i <- pseq y] = pseq (y * x)%g.
  apply: (@eq_from_nth _ 0); rewrite size_map !size_pseq // => i li.
  by rewrite (nth_map 0) ?size_pseq // -[i]/(val (Ordinal li)) !nth_pseq permM.
have iotaE : iota 0 n = pseq (1 : 'S_n)%g by rewrite -identity_pseq /identity map_id.
have oneB : (false, 1%g) \in B.
  have g1 : gen (@sinv n) (@smul n) (formula_gens f0 ((false, f0) :: ts) n) (false, 1%g).
    apply: gen_in; rewrite inE /=; apply/orP; left; rewrite /places /=.
    by apply/forallP => k; rewrite perm1.
  exact/HB.
split.
- by move=> a /memB[[b x] _ ->] /=; case: b; [right | left].
- move=> a /memB[[b x] _ ->] /=; have := pseq_perm x; rewrite is_permE; rewrite size_pseq; exact.
- by rewrite iotaE; apply: (inr (false, 1%g)).
- move=> _ _ /memB[[b x] /HB xB ->] /memB[[c y] /HB yB ->] /=.
  rewrite nthE bsgnM; apply: (inr (smul (b, x) (c, y))).
  by apply/HB; apply: gen_mul.
- move=> _ /memB[[b x] /HB xB ->] /=; exists (pseq (x^-1)%g).
    by apply: (inr (sinv (b, x))); apply/HB; apply: gen_inv.
  by rewrite nthE mulVg iotaE.
Qed.

Theorem C07_malformed_raises fuel f0 ts : plain f0 -> all (fun t => plain t.2) ts ->
  (~~ uniq f0 \/ has (fun t : bool * seq nat => ~~ perm_eq t.2 f0) ts) ->
  germinate_perm_repr fuel (render ((false, f0) :: ts)) = Err RuntimeError.
Proof. exact: germinate_perm_repr_raises. Qed.

Theorem C07_leading_minus_raises fuel f0 ts : plain f0 -> all (fun t => plain t.2) ts ->
  germinate_perm_repr fuel (render ((true, f0) :: ts)) = Err AssertionError.
Proof. exact: germinate_perm_repr_neg. Qed.

(** "ij=-ji" is [105; 106; 61; 45; 106; 105]. *)
Example C07_example :
  render [:: (false, [:: 105; 106]); (true, [:: 106; 105])] = [:: 105; 106; 61; 45; 106; 105]
  /\ plain [:: 105; 106]
  /\ germinate_perm_repr 10 [:: 105; 106; 61; 45; 106; 105] =
       Ok ([:: 105; 106], [:: ((-1)%R, [:: 1; 0]); (1%R, [:: 0; 1])]).
Proof. by split; [|split]; vm_compute. Qed.

Print Assumptions C07_formula_generates_group.
Print Assumptions C07_formula_signed_group.
Print Assumptions C07_malformed_raises.
Print Assumptions C07_leading_minus_raises.

(** ** C08.  [flat e dims] is the row-major position of the multi-index [e],
    [full_base dims] lists the multi-indices; the tensor entry is
    [entry i e = Q[i, e]]. *)
Theorem C08_symmetric_basis (C : numClosedFieldType) n (G : seq sp) dims :
  signed_group n G -> size dims = n ->
  (forall s p i, (s, p) \in G -> i < n -> nth 0 dims (nth 0 p i) = nth 0 dims i) ->
  exists2 Q, reduce_permutation_matrix C (reduce_permutation_base G dims) dims = Ok Q &
    [/\ size Q = size (reduce_permutation_base G dims),
        forall row, row \in Q -> size row = prodn dims &
        let entry i e := nth 0%R (nth [::] Q i) (flat e dims) in
        [/\ forall i j, i < size Q -> j < size Q ->
              (\sum_(e <- full_base dims) entry i e * entry j e = (i == j)%:R)%R,
            forall i e s p, i < size Q -> valid_index dims e -> (s, p) \in G ->
              entry i e = (s%:~R * entry i [seq nth 0%N e k | k <- p])%R &
            forall T : seq nat -> C,
              (forall e s p, valid_index dims e -> (s, p) \in G ->
                 T e = s%:~R * T [seq nth 0%N e k | k <- p])%R ->
              forall e, valid_index dims e ->
                (T e = \sum_(i < size Q) (\sum_(e' <- full_base dims) entry i e' * T e') * entry i e)%R]].
Proof. exact: basis_ok. Qed.

(** The indexing used above: multi-indices are listed without repetition and
    [flat] numbers them 0 .. prod(dims)-1 in row-major order. *)
Theorem C08_full_base dims : uniq (full_base dims) /\
  (forall e, (e \in full_base dims) =
     (size e == size dims) && all (fun kd : nat * nat => kd.1 < kd.2) (zip e dims)) /\
  [seq flat e dims | e <- full_base dims] = iota 0 (\prod_(d <- dims) d).
Proof.
split; first exact: full_base_uniq; split; first exact: mem_full_base.
rewrite flat_full_base; congr iota; elim: dims => [|d dims IH]; first by rewrite big_nil.
by rewrite prodn_cons big_cons IH.
Qed.

(** reduced_symmetric_tensor_product_basis uses {(1, p) for p in permutations}: this
    is a signed group for every order. *)
Theorem C08_all_permutations_group n (ps : seq (seq nat)) :
  (forall p, (p \in ps) = perm_eq p (iota 0 n)) ->
  signed_group n [seq (1%R, p) | p <- ps].
Proof.
move=> H; have ex p : perm_eq p (iota 0 n) -> exists x : 'S_n, p = pseq x.
  move=> pe; have sz := perm_size pe; rewrite size_iota in sz.
  by apply: is_permP => //; rewrite is_permE sz.
have pp (x : 'S_n) : perm_eq (pseq x) (iota 0 n) by have := pseq_perm x; rewrite is_permE size_pseq.
have nthE (x y : 'S_n) : [seq nth 0 (pseq x) i | i <- pseq y] = pseq (y * x)%g.
  apply: (@eq_from_nth _ 0); rewrite size_map !size_pseq // => i li.
  by rewrite (nth_map 0) ?size_pseq // -[i]/(val (Ordinal li)) !nth_pseq permM.
have inG p : perm_eq p (iota 0 n) -> (1%R : int, p) \in [seq (1%R : int, p) | p <- ps].
  by move=> pe; apply/mapP; exists p; rewrite ?H.
split.
- by move=> a /mapP[p _ ->]; left.
- by move=> a /mapP[p]; rewrite H => pe ->.
- exact: inG.
- move=> a b /mapP[p]; rewrite H => /ex[x ->] -> /mapP[q]; rewrite H => /ex[y ->] -> /=.
  by rewrite mulr1 nthE inG.
- move=> a /mapP[p]; rewrite H => /ex[x ->] -> /=; exists (pseq (x^-1)%g); first exact: inG.
  by rewrite nthE mulVg -identity_pseq /identity map_id.
Qed.

Example C08_example : let G := [:: (1%R, [:: 0; 1]); ((-1)%R, [:: 1; 0])] in
  [/\ reduce_permutation_base G [:: 2; 2] =
        [:: [:: [:: ((-1)%R, [:: 0; 1]); (1%R, [:: 1; 0])]; [:: ((-1)%R, [:: 1; 0]); (1%R, [:: 0; 1])]]],
      size (reduce_permutation_base G [:: 3; 3]) = 3 & signed_group 2 G].
Proof.
split=> //; split.
- by move=> a; rewrite !inE => /orP[] /eqP->; [left | right].
- by move=> a; rewrite !inE => /orP[] /eqP->.
- by [].
- by move=> a b; rewrite !inE => /orP[] /eqP-> /orP[] /eqP->.
- move=> a; rewrite !inE => /orP[] /eqP->; [by exists [:: 0; 1] | by exists [:: 1; 0]].
Qed.

Print Assumptions C08_symmetric_basis.
Print Assumptions C08_full_base.
Print Assumptions C08_all_permutations_group.

(** ** C09 *)
Theorem C09_return_dim (C : numClosedFieldType) order G dims Q :
  reduce_subgroup_permutation C order G dims = Ok Q ->
  reduce_subgroup_dim order G dims = size Q.
Proof.
rewrite /reduce_subgroup_permutation /reduce_subgroup_dim; case: ifP => _.
  by case=> <-; rewrite /eye_rows size_map size_iota.
rewrite /reduce_permutation_matrix; case E: (mapR _ _) => [rows|] //=.
by rewrite /passert; case: (all _ _) => //= -[<-]; rewrite (mapR_size E) size_sort size_map.
Qed.

(** For the sorted iteration order the basis is always built, and the dimension is
    that of the space of symmetric tensors: there is a basis of that many rows. *)
Theorem C09_return_dim_sorted (C : numClosedFieldType) n (G : seq sp) dims sub :
  signed_group n G -> size dims = n -> uniq sub -> all (fun i => i < n) sub -> sorted leq sub ->
  (forall s p i, (s, p) \in G -> i < n -> nth 0 dims (nth 0 p i) = nth 0 dims i) ->
  exists2 Q, reduce_subgroup_permutation C sub G dims = Ok Q &
    reduce_subgroup_dim sub G dims = size Q.
Proof.
move=> GG szd us ls st cst.
suff [Q E] : exists Q, reduce_subgroup_permutation C sub G dims = Ok Q.
  by exists Q => //; apply: C09_return_dim E.
rewrite /reduce_subgroup_permutation; case: ifP => _; first by eexists.
have SG := subrepr_group GG us ls.
have [||Q E _] := basis_ok C (dims := sub_dims sub dims) SG; first 2 last.
- by exists Q.
- by rewrite size_map.
move=> s q i /(mem_subrepr GG us ls)[p [pG fx [sq al H]]] li.
have Es : sort leq sub = sub by apply: sorted_sort leq_trans _ st.
rewrite Es in H; have lq : nth 0 q i < size sub by apply: (allP al); rewrite mem_nth ?sq.
rewrite !(nth_map 0) // H // (cst s p) //; apply: (allP ls); exact: mem_nth.
Qed.

(** Python iterates over the frozenset in hash order, which need not be increasing
    (CPython lists frozenset({1, 2, 8}) as 8, 1, 2), while subrepr_permutation
    numbers the indices in increasing order.  The dimension then is wrong. *)
Theorem C09_unsorted_iteration_refuted :
  let swap := [:: 0; 2; 1; 3; 4; 5; 6; 7; 8] in
  let G := [:: (1%R, iota 0 9); (1%R, swap)] in
  let dims := [:: 1; 2; 2; 1; 1; 1; 1; 1; 3] in
  [/\ signed_group 9 G,
      forall s p i, (s, p) \in G -> i < 9 -> nth 0 dims (nth 0 p i) = nth 0 dims i,
      reduce_subgroup_dim [:: 1; 2; 8] G dims = 9 &
      reduce_subgroup_dim [:: 8; 1; 2] G dims = 10].
Proof.
split.
- split.
  + by move=> a; rewrite !inE => /orP[] /eqP->; left.
  + by move=> a; rewrite !inE => /orP[] /eqP->; rewrite //=; apply/allP.
  + by [].
  + by move=> a b; rewrite !inE => /orP[] /eqP-> /orP[] /eqP->.
  + by move=> a; rewrite !inE => /orP[] /eqP->; [exists (iota 0 9) | exists [:: 0; 2; 1; 3; 4; 5; 6; 7; 8]].
- by move=> s p i; rewrite !inE => /orP[] /eqP[_ ->]; do 9! [case: i => [|i] //].
- by vm_compute.
- by vm_compute.
Qed.

Example C09_example : reduce_subgroup_dim [:: 0; 2] [:: (1%R, [:: 0; 1; 2]); (1%R, [:: 2; 1; 0])] [:: 3; 7; 3] = 6.
Proof. by []. Qed.

Print Assumptions C09_return_dim.
Print Assumptions C09_return_dim_sorted.
Print Assumptions C09_unsorted_iteration_refuted.

(** ** C10 *)
Theorem C10_subrepr_spec n (G : seq sp) sub s q :
  signed_group n G -> uniq sub -> all (fun i => i < n) sub ->
  let sor := sort leq sub in
  ((s, q) \in subrepr_permutation sub G) <->
  exists p, [/\ (s, p) \in G,
     forall i, i < n -> i \notin sub -> nth 0 p i = i,
     size q = size sub, all (fun k => k < size sub) q &
     forall k, k < size sub -> nth 0 sor (nth 0 q k) = nth 0 p (nth 0 sor k)].
Proof.
move=> GG us ls /=; split.
  by case/(mem_subrepr GG us ls) => p [pG fx [sz al H]]; exists p.
by case=> p [pG fx sz al H]; apply/(mem_subrepr GG us ls); exists p.
Qed.

Theorem C10_subrepr_group n (G : seq sp) sub :
  signed_group n G -> uniq sub -> all (fun i => i < n) sub ->
  signed_group (size sub) (subrepr_permutation sub G).
Proof. exact: subrepr_group. Qed.

Theorem C10_subrepr_order sub sub' G : perm_eq sub sub' ->
  subrepr_permutation sub G = subrepr_permutation sub' G.
Proof.
move=> pe; rewrite /subrepr_permutation.
have -> : sort leq sub = sort leq sub' by apply/perm_sortP => //; [exact: leq_total | exact: leq_trans | exact: anti_leq].
have H x : (x \in sub) = (x \in sub') by apply: perm_mem.
congr undup; rewrite (@eq_filter _ _ (fun sp : sp => all (fun ji : nat * nat => (ji.2 \in sub') || (ji.2 == ji.1)) (zip (iota 0 (size sp.2)) sp.2))).
  by apply: eq_map => a; congr (_, map _ _); apply: eq_filter.
by move=> a; apply: eq_all => ji; rewrite H.
Qed.

Example C10_example : subrepr_permutation [:: 2; 0] [:: (1%R, [:: 0; 1; 2]); ((-1)%R, [:: 2; 1; 0])]
  = [:: (1%R, [:: 0; 1]); ((-1)%R, [:: 1; 0])].
Proof. by []. Qed.

Print Assumptions C10_subrepr_spec.
Print Assumptions C10_subrepr_group.
Print Assumptions C10_subrepr_order.

(** ** C11.  [related f0 G a b]: some element of [G] moves the letter a to the letter b.
    [given a] is the object passed for the letter a (after [_to_reducedrep]). *)
Theorem C11_propagates V f0 (G : seq sp) fresh (kw : seq (seq nat * (obj V + V))) :
  signed_group (size f0) G -> uniq f0 -> all (fun ka => size ka.1 == 1) kw ->
  let given a := dget (to_reducedreps fresh kw) [:: a] in
  (forall a b oa ob, related f0 G a b -> given a = Some oa -> given b = Some ob -> oa = ob) ->
  (forall a, a \in f0 -> exists2 b, related f0 G b a & given b <> None) ->
  (forall k, k \in [seq x.1 | x <- kw] -> exists2 a, a \in f0 & k = [:: a]) ->
  exists2 os, assign_irreps f0 G fresh kw = Ok os &
    size os = size f0 /\
    forall i b o o', i < size f0 -> related f0 G b (nth 0 f0 i) -> given b = Some o -> nth o' os i = o.
Proof. by move=> GG uf k1 /=; apply: assign_ok. Qed.

Theorem C11_missing_raises V f0 (G : seq sp) fresh (kw : seq (seq nat * (obj V + V))) a :
  signed_group (size f0) G -> uniq f0 -> all (fun ka => size ka.1 == 1) kw ->
  a \in f0 -> (forall b, related f0 G b a -> dget (to_reducedreps fresh kw) [:: b] = None) ->
  assign_irreps f0 G fresh kw = Err RuntimeError.
Proof. by move=> GG uf k1 af H; apply: assign_missing H. Qed.

Theorem C11_foreign_key_raises V f0 (G : seq sp) fresh (kw : seq (seq nat * (obj V + V))) k :
  signed_group (size f0) G -> uniq f0 -> all (fun ka => size ka.1 == 1) kw ->
  k \in [seq x.1 | x <- kw] -> (forall a, a \in f0 -> k <> [:: a]) ->
  assign_irreps f0 G fresh kw = Err RuntimeError.
Proof. by move=> GG uf k1 kin H; apply: assign_extra kin H. Qed.

Theorem C11_conflict_raises V f0 (G : seq sp) fresh (kw : seq (seq nat * (obj V + V))) a b oa ob :
  signed_group (size f0) G -> uniq f0 -> all (fun ka => size ka.1 == 1) kw ->
  related f0 G a b ->
  dget (to_reducedreps fresh kw) [:: a] = Some oa -> dget (to_reducedreps fresh kw) [:: b] = Some ob ->
  oa.1 <> ob.1 -> assign_irreps f0 G fresh kw = Err RuntimeError.
Proof. by move=> GG uf k1; apply: assign_conflict. Qed.

(** "Giving equal irreps for two related indices is accepted" is false: ReducedRep
    compares by identity, so passing the same TabulatedIrrep [v] for both indices
    raises, for every irrep. *)
Theorem C11_equal_irreps_accepted_refuted V (v : V) fresh i j :
  i != j ->
  assign_irreps [:: i; j] [:: (1%R, [:: 0; 1]); (1%R, [:: 1; 0])] fresh
    [:: ([:: i], inr v); ([:: j], inr v)] = Err RuntimeError.
Proof.
move=> ij; rewrite /assign_irreps /=.
have E k : ([:: k] == [:: k]) = true by rewrite eqxx.
have E1 : ([:: i] == [:: j]) = false by rewrite eqseq_cons andbT; apply/negbTE.
have E2 : ([:: j] == [:: i]) = false by rewrite eqseq_cons andbT eq_sym; apply/negbTE.
by rewrite /assign_pair /= !(E, E1, E2) /= !(E, E1, E2) /= eqxx /= !(E, E1, E2) /=
  ?eqxx /= ?(E, E1, E2) /= ?eqxx /= ?(E, E1, E2) /= ?(E, E1, E2) /= (ltn_eqF (ltnSn fresh)).
Qed.

Example C11_example : assign_irreps [:: 105; 106] [:: (1%R, [:: 0; 1]); (1%R, [:: 1; 0])] 7
    [:: ([:: 106], inr tt)] = Ok [:: (7, tt); (7, tt)].
Proof. by []. Qed.

Print Assumptions C11_propagates.
Print Assumptions C11_missing_raises.
Print Assumptions C11_foreign_key_raises.
Print Assumptions C11_conflict_raises.
Print Assumptions C11_equal_irreps_accepted_refuted.
