(** RedPermBasis: reduce_permutation_base / reduce_permutation_matrix give an
    orthonormal basis of the tensors with the required symmetry. *)
From mathcomp Require Import all_ssreflect all_fingroup all_algebra.
From mathcomp Require Import zify.
From Verif Require Import Base Perm PermProofs RedPerm LexOrder McRing.

Set Implicit Arguments.
Unset Strict Implicit.
Unset Printing Implicit Defensive.
Import GRing.Theory Num.Theory.

(** ** multi-indices *)
Definition valid_index (dims e : seq nat) : bool :=
  (size e == size dims) && all (fun kd : nat * nat => kd.1 < kd.2) (zip e dims).

Lemma prodn_cons d dims : prodn (d :: dims) = d * prodn dims.
Proof.
have H a s : foldl muln a s = a * foldl muln 1 s.
  elim: s a => [|x s IH] a /=; first by rewrite muln1.
  by rewrite mul1n IH [in RHS]IH mulnA.
by rewrite /prodn /= mul1n H.
Qed.

Lemma flat_cons k e d dims : size e = size dims ->
  flat (k :: e) (d :: dims) = k * prodn dims + flat e dims.
Proof.
have H j s t : size s = size t ->
   foldl (fun j kd => j * kd.2 + kd.1) j (zip s t) = j * prodn t + foldl (fun j kd => j * kd.2 + kd.1) 0 (zip s t).
  elim: s t j => [|x s IH] [|y t] j //=; first by rewrite /prodn /= muln1 addn0.
  case=> sz; rewrite IH // [in RHS]IH // prodn_cons mul0n add0n mulnDl mulnA addnA.
  by [].
by move=> sz; rewrite /flat /= mul0n add0n H.
Qed.

Lemma mem_full_base dims e : (e \in full_base dims) = valid_index dims e.
Proof.
elim: dims e => [|d dims IH] e /=; first by rewrite inE /valid_index; case: e.
apply/allpairsP/idP => [[[k e'] /= [kd e'b ->]]|].
  rewrite IH in e'b; rewrite mem_iota in kd; case/andP: e'b => /eqP sz al.
  by rewrite /valid_index /= sz eqxx al andbT.
case: e => // k e; rewrite /valid_index /= eqSS => /and3P[sz kd al]; exists (k, e) => /=.
by rewrite mem_iota kd IH /valid_index sz al.
Qed.

Lemma flat_full_base dims : [seq flat e dims | e <- full_base dims] = iota 0 (prodn dims).
Proof.
elim: dims => //= d dims IH; rewrite prodn_cons.
have szb e : e \in full_base dims -> size e = size dims by rewrite mem_full_base => /andP[/eqP].
rewrite map_allpairs.
have -> : [seq flat (k :: e) (d :: dims) | k <- iota 0 d, e <- full_base dims] =
          flatten [seq iota (k * prodn dims) (prodn dims) | k <- iota 0 d].
  rewrite /allpairs_dep; congr flatten; apply: eq_map => k.
  rewrite -[k * _ in RHS]addn0 iotaDl -IH -map_comp; apply/eq_in_map => e eb /=.
  by rewrite flat_cons // szb.
have H a : flatten [seq iota (k * prodn dims) (prodn dims) | k <- iota a d] = iota (a * prodn dims) (d * prodn dims).
  elim: d a => //= d IHd a; rewrite IHd (mulSn d) iotaD; congr (_ ++ iota _ _); by rewrite mulSn addnC.
by rewrite (H 0) mul0n.
Qed.

Lemma full_base_uniq dims : uniq (full_base dims).
Proof. by apply: (map_uniq (f := flat^~ dims)); rewrite flat_full_base iota_uniq. Qed.

Lemma flat_lt dims e : valid_index dims e -> flat e dims < prodn dims.
Proof.
rewrite -mem_full_base => eb; have : flat e dims \in iota 0 (prodn dims).
  by rewrite -flat_full_base; apply: map_f.
by rewrite mem_iota.
Qed.

Lemma flat_inj dims e e' : valid_index dims e -> valid_index dims e' ->
  flat e dims = flat e' dims -> e = e'.
Proof.
rewrite -!mem_full_base => eb eb' E.
have u : uniq [seq flat e dims | e <- full_base dims] by rewrite flat_full_base iota_uniq.
apply/eqP; have := nth_uniq 0 _ _ u; move=> /(_ (index e (full_base dims)) (index e' (full_base dims))).
rewrite !size_map !index_mem => /(_ eb eb').
rewrite !(nth_map e) ?index_mem // !nth_index // E eqxx => /esym/eqP EE.
by rewrite -(nth_index e eb) EE nth_index.
Qed.

Section Rows.
Variable C : numClosedFieldType.
Local Open Scope ring_scope.

Implicit Types (X : seq sp) (dims : seq nat).

(** value of the row of [X] at the multi-index [e] *)
Definition rowf X (e : seq nat) : C := \sum_(a <- X | a.2 == e) (a.1)%:~R / sqrtC (size X)%:R.

Lemma fill_row_ok dims X : uniq [seq a.2 | a <- X] -> all (fun a : sp => valid_index dims a.2) X ->
  exists2 row, fill_row C X dims = Ok row &
    size row = prodn dims /\ forall e, valid_index dims e -> nth 0 row (flat e dims) = rowf X e.
Proof.
rewrite /fill_row /rowf; move: (sqrtC (size X)%:R) => c.
pose f (row : seq C) (se : sp) :=
  let j := flat se.2 dims in
  if (j < size row)%N then Ok (set_nth 0 row j ((se.1)%:~R / c)) else Err IndexError.
rewrite -/f.
suff H row0 : size row0 = prodn dims -> uniq [seq a.2 | a <- X] ->
  (forall a, a \in X -> nth 0 row0 (flat a.2 dims) = 0) ->
  all (fun a : sp => valid_index dims a.2) X ->
  exists2 row, foldR f row0 X = Ok row & size row = prodn dims /\ forall e, valid_index dims e ->
     nth 0 row (flat e dims) = nth 0 row0 (flat e dims) + \sum_(a <- X | a.2 == e) (a.1)%:~R / c.
  move=> u al; have [|||row E [sz H']] := H (nseq (prodn dims) 0) _ u.
  - by rewrite size_nseq.
  - by move=> a _; rewrite nth_nseq if_same.
  - exact: al.
  by exists row => //; split=> // e /H' ->; rewrite nth_nseq if_same add0r.
elim: X row0 => [|[s e] X IH] row0 sz /=.
  by move=> _ _ _; exists row0 => //; split=> // e _; rewrite big_nil addr0.
case/andP=> ne u z0 /andP[ve al].
rewrite {1}/f /= sz flat_lt //=; set row1 := set_nth _ _ _ _.
have sz1 : size row1 = prodn dims.
  by rewrite size_set_nth sz; apply/maxn_idPr; rewrite flat_lt.
have n1 e' : valid_index dims e' -> nth 0 row1 (flat e' dims) =
    if e' == e then s%:~R / c else nth 0 row0 (flat e' dims).
  move=> ve'; rewrite nth_set_nth /=; case: (e' =P e) => [->|nE]; first by rewrite eqxx.
  by case: eqP => // /(flat_inj ve' ve).
have [||row E [szr H']] := IH row1 sz1 u.
- move=> a aX; rewrite n1; last exact: (allP al).
  by case: eqP => [Ea|_]; [case/negP: ne; rewrite -Ea; apply: map_f | apply: z0; rewrite inE aX orbT].
- exact: al.
exists row => //; split=> // e' ve'; rewrite H' // n1 // big_cons /= eq_sym.
case: eqP => [<-|//].
by rewrite (z0 (s, e)) ?mem_head // add0r.
Qed.

Lemma dotp_full dims (u v : seq C) : size u = prodn dims -> size v = prodn dims ->
  dotp u v = \sum_(e <- full_base dims) nth 0 u (flat e dims) * nth 0 v (flat e dims).
Proof.
move=> su sv; rewrite /dotp -(big_map (flat^~ dims) xpredT (fun j => nth 0 u j * nth 0 v j)) flat_full_base.
rewrite (big_nth (0, 0)) size_zip su sv minnn /index_iota subn0.
by apply: eq_bigr => i _; rewrite nth_zip ?su ?sv.
Qed.
End Rows.

Section Basis.
Variable C : numClosedFieldType.
Variables (G : seq sp) (n : nat) (dims : seq nat).
Hypothesis Gsign : forall a, a \in G -> a.1 = 1%R \/ a.1 = (-1)%R.
Hypothesis Gperm : forall a, a \in G -> is_perm a.2 /\ size a.2 = n.
Hypothesis Gid : (1%R, iota 0 n) \in G.
Hypothesis Gmul : forall a b, a \in G -> b \in G -> ((a.1 * b.1)%R, act a.2 b.2) \in G.
Hypothesis Ginv : forall a, a \in G -> exists2 q, (a.1, q) \in G & act a.2 q = iota 0 n.
Hypothesis Gdims : forall a, a \in G -> act dims a.2 = dims.
Hypothesis sz_dims : size dims = n.

Lemma act_act (x p q : seq nat) : all (fun i => i < size p) q -> act (act x p) q = act x (act p q).
Proof.
move=> /allP H; rewrite /act -map_comp; apply/eq_in_map => i /H lt /=.
by rewrite (nth_map 0).
Qed.

Lemma act_id (x : seq nat) : size x = n -> act x (iota 0 n) = x.
Proof. by move=> <-; rewrite /act map_nth_iota0 // take_size. Qed.

Lemma act_G x a b : a \in G -> b \in G -> act (act x a.2) b.2 = act x (act a.2 b.2).
Proof.
move=> aG bG; apply: act_act; apply/allP => i; have [pb szb] := Gperm bG; have [_ sza] := Gperm aG.
by rewrite is_perm_mem // szb sza.
Qed.

Lemma valid_act x a : a \in G -> valid_index dims x -> valid_index dims (act x a.2).
Proof.
move=> aG /andP[/eqP sz /allP al]; have [pa sza] := Gperm aG.
rewrite /valid_index size_map sza sz_dims eqxx /=; apply/(all_nthP (0, 0)) => i.
rewrite size_zip size_map sza sz_dims minnn => li.
rewrite nth_zip ?size_map ?sza //= (nth_map 0) ?sza //.
set j := nth 0 a.2 i; have lj : j < n by rewrite -sza -is_perm_mem // mem_nth // sza.
have -> : nth 0 dims i = nth 0 dims j.
  by rewrite -{1}(Gdims aG) (nth_map 0) ?sza.
have := al (nth 0 x j, nth 0 dims j); apply.
by rewrite -nth_zip // mem_nth // size_zip sz sz_dims minnn.
Qed.

Notation orb := (orbit_of G).

Lemma mem_orb s y x : reflect (exists2 a, a \in G & s = a.1 /\ y = act x a.2) ((s, y) \in orb x).
Proof.
rewrite /orbit_of mem_undup; apply: (iffP mapP) => -[a aG].
  by case=> -> ->; exists a.
by case=> -> ->; exists a.
Qed.

Lemma orb_self x : size x = n -> (1%R, x) \in orb x.
Proof. by move=> sz; apply/mem_orb; exists (1%R, iota 0 n) => //=; rewrite act_id. Qed.

Lemma orb_sign s y x : (s, y) \in orb x -> s = 1%R \/ s = (-1)%R.
Proof. by case/mem_orb=> a aG [-> _]; apply: Gsign. Qed.

Lemma orb_valid s y x : valid_index dims x -> (s, y) \in orb x -> valid_index dims y.
Proof. by move=> vx /mem_orb[a aG [_ ->]]; apply: valid_act. Qed.

Lemma sq1 (s : int) : s = 1%R \/ s = (-1)%R -> (s * s)%R = 1%R.
Proof. by case=> ->. Qed.

Lemma orb_trans s y t z x : (s, y) \in orb x -> (t, z) \in orb y -> ((s * t)%R, z) \in orb x.
Proof.
move=> /mem_orb[a aG [-> ->]] /mem_orb[b bG [-> ->]]; apply/mem_orb.
by exists ((a.1 * b.1)%R, act a.2 b.2); [apply: Gmul | rewrite act_G].
Qed.

Lemma orb_sym s y x : size x = n -> (s, y) \in orb x -> (s, x) \in orb y.
Proof.
move=> sz /mem_orb[a aG [-> ->]]; have [q qG Eq] := Ginv aG; apply/mem_orb.
exists (a.1, q) => //=; split=> //.
by rewrite -[q]/((a.1, q).2) (act_G x aG qG) /= Eq act_id.
Qed.

Definition live x := ((-1)%R, x) \notin orb x.

Lemma live_sign s t y x : size x = n -> live x -> (s, y) \in orb x -> (t, y) \in orb x -> s = t.
Proof.
move=> sz lx sy ty; have sy' := orb_sym sz sy.
have := orb_trans ty sy'; case: (orb_sign sy) => Es; case: (orb_sign ty) => Et; rewrite Es Et //.
  by move=> H; rewrite /live H in lx.
by move=> H; rewrite /live H in lx.
Qed.

Lemma orb_eq s y x : size x = n -> (s, y) \in orb x ->
  forall a, (a \in orb y) = (((s * a.1)%R, a.2) \in orb x).
Proof.
move=> sz sy [t z] /=; apply/idP/idP => [tz|stz]; first exact: orb_trans tz.
have -> : t = (s * (s * t))%R by rewrite mulrA (sq1 (orb_sign sy)) mul1r.
exact: orb_trans (orb_sym sz sy) stz.
Qed.

Lemma live_orb s y x : size x = n -> size y = n -> (s, y) \in orb x -> live x -> live y.
Proof.
move=> szx szy sy lx; apply: contra lx => H.
have sx := orb_sym szx sy.
have h1 := orb_trans sy (orb_trans H sx).
by rewrite mulN1r mulrN (sq1 (orb_sign sy)) in h1.
Qed.

Definition key x := fset2 [:: fset1 (orb x); fset1 [seq neg_sp a | a <- orb x]].

Lemma mem_neg (X : seq sp) a : (a \in [seq neg_sp b | b <- X]) = (neg_sp a \in X).
Proof.
have negK : cancel neg_sp neg_sp by move=> [s e]; rewrite /neg_sp /= opprK.
by rewrite -{1}[a]negK (mem_map (can_inj negK)).
Qed.

Lemma key_orb s y x : size x = n -> (s, y) \in orb x -> key y = key x.
Proof.
move=> sz sy; have E := orb_eq sz sy; case: (orb_sign sy) => Es; rewrite Es in E.
  have Eo : orb y =i orb x by move=> a; rewrite E mul1r; case: a.
  rewrite /key (fset1_eq Eo); congr (fset2 [:: _; _]); apply: fset1_eq => a.
  by rewrite !mem_neg Eo.
have Eo : orb y =i [seq neg_sp a | a <- orb x] by move=> a; rewrite E mem_neg mulN1r.
have En : [seq neg_sp a | a <- orb y] =i orb x.
  by move=> [t e]; rewrite mem_neg E /= mulN1r opprK.
rewrite /key (fset1_eq Eo) (fset1_eq En); apply: fset2_eq => a.
by rewrite !inE orbC.
Qed.

(** [X] is a representative of the class of [x], up to a global sign *)
Definition sgnd (b : bool) (a : sp) : sp := if b then neg_sp a else a.
Lemma mem_key X x : X \in key x -> uniq X /\ exists b, forall a, (a \in X) = (sgnd b a \in orb x).
Proof.
rewrite mem_fset2 !inE => /orP[|] /eqP ->; rewrite uniq_fset1; split=> //.
  by exists false => a; rewrite mem_fset1.
by exists true => a; rewrite mem_fset1 mem_neg.
Qed.

Notation base := (reduce_permutation_base G dims).

Lemma mem_base K : reflect (exists x, [/\ valid_index dims x, live x & K = key x]) (K \in base).
Proof.
rewrite mem_undup; apply: (iffP mapP) => [[x]|[x [vx lx ->]]].
  by rewrite mem_filter mem_full_base => /andP[lx vx] ->; exists x.
by exists x => //; rewrite mem_filter mem_full_base vx andbT.
Qed.

Definition kbase := sort spss_le base.
Lemma sorted_base : sort spss_le [seq sort sps_le [seq sort sp_le xs | xs <- x] | x <- base] = kbase.
Proof.
rewrite /kbase; congr (sort spss_le _); rewrite -[RHS]map_id; apply/eq_in_map => K /mem_base[x [_ _ ->]].
have -> : [seq sort sp_le xs | xs <- key x] = key x.
  rewrite -[RHS]map_id; apply/eq_in_map => X; rewrite mem_fset2 !inE => /orP[|] /eqP ->; exact: sort_fset1.
exact: sort_fset2.
Qed.

Lemma kbase_uniq : uniq kbase. Proof. by rewrite sort_uniq undup_uniq. Qed.
Lemma mem_kbase K : (K \in kbase) = (K \in base). Proof. by rewrite mem_sort. Qed.

Lemma max_by_mem (x : seq (seq sp)) : x != [::] -> max_by x \in x.
Proof.
case: x => // a x _; rewrite /max_by /=.
elim: x a => [|b x IH] a /=; first by rewrite mem_head.
set c := if _ then _ else _; have := IH c; rewrite /c; case: ifP => _; rewrite !inE => /orP[->|->];
  by rewrite ?orbT.
Qed.

Lemma valid_size x : valid_index dims x -> size x = n.
Proof. by case/andP=> /eqP ->. Qed.

(** the set chosen for the class [K] *)
Definition pick K := max_by K.
Lemma pickP K : K \in base -> exists x b,
  [/\ valid_index dims x, live x, K = key x, uniq (pick K) &
      forall a, (a \in pick K) = (sgnd b a \in orb x)].
Proof.
case/mem_base=> x [vx lx EK].
have : pick K \in key x.
  rewrite /pick EK; apply: max_by_mem; apply/eqP => E0.
  by have := mem_fset2 [:: fset1 (orb x); fset1 [seq neg_sp a | a <- orb x]] (fset1 (orb x)); rewrite -/(key x) E0 mem_head.
by case/mem_key=> u [b Hb]; exists x, b.
Qed.

Lemma sgnd2 b a : (sgnd b a).2 = a.2. Proof. by case: b. Qed.

Lemma pick_ok K : K \in base -> uniq [seq a.2 | a <- pick K] /\ all (fun a : sp => valid_index dims a.2) (pick K).
Proof.
case/pickP=> x [b [vx lx EK u H]]; split.
  rewrite map_inj_in_uniq // => -[s e] [t e'] /=; rewrite !H => Hs Ht E; subst e'.
  congr (_, _); have szx := valid_size vx.
  case: b Hs Ht {H} => /= Hs Ht; last exact: live_sign Hs Ht.
  by apply: oppr_inj; apply: live_sign Hs Ht.
apply/allP => -[s e]; rewrite H => Hs.
by case: b Hs {H} => /= Hs; apply: orb_valid Hs.
Qed.

Lemma pick_key K a : K \in base -> a \in pick K -> live a.2 /\ K = key a.2.
Proof.
move=> Kb; have [x [b [vx lx EK u H]]] := pickP Kb; rewrite H => Ha.
have [s Hs] : exists s, (s, a.2) \in orb x.
  by exists (sgnd b a).1; rewrite -(sgnd2 b a); case: (sgnd b a) Ha.
have szx := valid_size vx.
split; last by rewrite (key_orb szx Hs).
by apply: (live_orb szx _ Hs lx); apply: valid_size; apply: orb_valid Hs.
Qed.

Local Open Scope ring_scope.
Notation R K := (rowf C (pick K)).

(** Orthonormality *)
Lemma sum_fiber (X : seq sp) (F : sp -> C) : all (fun a : sp => valid_index dims a.2) X ->
  \sum_(e <- full_base dims) \sum_(a <- X | a.2 == e) F a = \sum_(a <- X) F a.
Proof.
move=> /allP al; rewrite (exchange_big_dep xpredT) //= big_seq [RHS]big_seq; apply: eq_bigr => a aX.
rewrite (eq_bigl (fun e => e == a.2)); last by move=> e; rewrite eq_sym.
have ub := full_base_uniq dims; have ab : a.2 \in full_base dims by rewrite mem_full_base al.
by rewrite -big_filter filter_pred1_uniq // big_seq1.
Qed.

Lemma rowf_mem K a : K \in base -> a \in pick K -> R K a.2 = a.1%:~R / sqrtC (size (pick K))%:R.
Proof.
move=> Kb aK; rewrite /rowf; have [u2 _] := pick_ok Kb.
have u : uniq (pick K) by exact: map_uniq u2.
rewrite big_mkcond (bigD1_seq a) //= eqxx big_seq_cond big1 ?addr0 // => c /andP[cK ne].
case: eqP => // E; case/negP: ne; apply/eqP.
have inj : {in pick K &, injective (fun a : sp => a.2)}.
  move=> p q pK qK Ep; apply/eqP; rewrite -(nth_index p pK) -(nth_index p qK) -[_ == _]negbK.
  apply/negP => ne; have := nth_uniq [::] (_ : (index p (pick K) < size [seq a.2 | a <- pick K])%N) (_ : (index q (pick K) < size [seq a.2 | a <- pick K])%N) u2.
  rewrite !size_map !index_mem => /(_ pK qK); rewrite !(nth_map p) ?index_mem // !nth_index // Ep eqxx.
  by move=> /esym/eqP Ei; rewrite Ei eqxx in ne.
exact: inj.
Qed.

Lemma rowf_out K e : (forall a, a \in pick K -> a.2 != e) -> R K e = 0.
Proof.
move=> H; rewrite /rowf big_seq_cond big1 // => a /andP[aK /eqP E].
by have := H a aK; rewrite E eqxx.
Qed.

Lemma pick_gt0 K : K \in base -> (0 < size (pick K))%N.
Proof.
move=> Kb; have [x [b [vx lx EK u H]]] := pickP Kb; have szx := valid_size vx.
have : sgnd b (1, x) \in pick K by rewrite H; case: b {H} => /=; rewrite ?/neg_sp /= ?opprK orb_self.
by case: (pick K).
Qed.

Lemma sgn_pick K a : K \in base -> a \in pick K -> (a.1 * a.1)%R = 1.
Proof.
move=> Kb; have [x [b [vx lx EK u H]]] := pickP Kb; rewrite H => Ha; apply: sq1.
case: b Ha {H} => /=; case: a => s e /= Ha; have := orb_sign Ha => //.
by case=> [E|/oppr_inj E]; [right; rewrite -[s]opprK E | left].
Qed.

Lemma row_orth K L : K \in base -> L \in base ->
  \sum_(e <- full_base dims) R K e * R L e = (K == L)%:R.
Proof.
move=> Kb Lb; case: eqP => [<-{L Lb}|ne].
  rewrite [LHS](_ : _ = \sum_(e <- full_base dims) \sum_(a <- pick K | a.2 == e) ((size (pick K))%:R : C)^-1).
    rewrite sum_fiber; last by case: (pick_ok Kb).
    rewrite big_const_seq count_predT iter_addr_0 -[X in X *+ _]mulr1 -mulrnAr -/(1%:R).
    by rewrite -[1 *+ _]/((size (pick K))%:R) mulVf // pnatr_eq0 -lt0n pick_gt0.
  apply: eq_bigr => e _.
  have [/hasP[a aK /eqP <-]|/hasPn no] := boolP (has (fun a : sp => a.2 == e) (pick K)); last first.
    rewrite rowf_out // mul0r big_seq_cond big1 // => a /andP[aK E].
    by have := no a aK; rewrite E.
  rewrite rowf_mem // mulrACA -invfM -[sqrtC _ * _]expr2 sqrtCK -intrM (sgn_pick Kb aK) mul1r.
  have [u2 _] := pick_ok Kb; rewrite big_const_seq.
  have -> : count (fun a0 : sp => a0.2 == a.2) (pick K) = 1%N; last by rewrite /= addr0.
  rewrite -(count_map (fun a : sp => a.2) (pred1 a.2)) count_uniq_mem // map_f //.
apply: big1_seq => e /andP[_ eb].
have [/hasP[a aK /eqP Ea]|/hasPn no] := boolP (has (fun a : sp => a.2 == e) (pick K)); last first.
  by rewrite rowf_out ?mul0r.
have [/hasP[c cL /eqP Ec]|/hasPn no] := boolP (has (fun a : sp => a.2 == e) (pick L)); last first.
  by rewrite [R L e]rowf_out ?mulr0.
have [_ EK] := pick_key Kb aK; have [_ EL] := pick_key Lb cL.
by case: ne; rewrite EK EL Ea Ec.
Qed.

(** Symmetry *)
Definition symmetric (T : seq nat -> C) := forall x a, valid_index dims x -> a \in G ->
  T x = a.1%:~R * T (act x a.2).

Lemma pick_act K x a s : K \in base -> valid_index dims x -> a \in G ->
  (s, x) \in pick K -> ((s * a.1)%R, act x a.2) \in pick K.
Proof.
move=> Kb vx aG; have [z [b [vz lz EK u H]]] := pickP Kb; rewrite !H => Hx.
have xa : (a.1, act x a.2) \in orb x by apply/mem_orb; exists a.
case: b Hx {H} => /= Hx; last exact: orb_trans Hx xa.
by have := orb_trans Hx xa; rewrite mulNr.
Qed.

Lemma row_sym K : K \in base -> symmetric (R K).
Proof.
move=> Kb x a vx aG; have sx := valid_size vx.
have [/hasP[[s e] sK /eqP /= Ea]|/hasPn no] := boolP (has (fun a : sp => a.2 == x) (pick K)).
  subst e; have H := pick_act Kb vx aG sK.
  have -> : R K x = s%:~R / sqrtC (size (pick K))%:R := rowf_mem Kb sK.
  have -> : R K (act x a.2) = (s * a.1)%:~R / sqrtC (size (pick K))%:R := rowf_mem Kb H.
  by rewrite mulrA -intrM mulrCA (sq1 (Gsign aG)) mulr1.
rewrite !rowf_out ?mulr0 // => -[t e] tK /=; apply/eqP => Ee; subst e.
have va := valid_act aG vx; have [q qG Eq] := Ginv aG.
have := pick_act Kb va qG tK; rewrite (act_G x aG qG) /= Eq act_id // => H.
by have := no _ H; rewrite eqxx.
Qed.

(** Completeness *)
Lemma sym_zero T x : symmetric T -> valid_index dims x -> ~~ live x -> T x = 0.
Proof.
move=> sT vx; rewrite negbK => /mem_orb[a aG [Ea Ex]].
have := sT x a vx aG; rewrite -Ea -Ex mulN1r => /eqP; rewrite -addr_eq0 -mulr2n mulrn_eq0 => /orP[//|/eqP//].
Qed.

Lemma sym_orb T x s y : symmetric T -> valid_index dims x -> (s, y) \in orb x -> T y = s%:~R * T x.
Proof.
move=> sT vx /[dup] /orb_sign es /mem_orb[a aG [Es ->]].
by rewrite (sT x a vx aG) mulrA -Es -intrM (sq1 es) mul1r.
Qed.

Lemma row_complete T : symmetric T -> forall e, valid_index dims e ->
  T e = \sum_(K <- kbase) (\sum_(e' <- full_base dims) R K e' * T e') * R K e.
Proof.
move=> sT e ve; have sze := valid_size ve.
have [le|de] := boolP (live e); last first.
  rewrite (sym_zero sT ve de) big_seq big1 // => K; rewrite mem_kbase => Kb.
  rewrite [R K e]rowf_out ?mulr0 // => a aK; apply/eqP => Ea; have [la _] := pick_key Kb aK.
  by rewrite Ea (negbTE de) in la.
have Kb : key e \in base by apply/mem_base; exists e.
rewrite (bigD1_seq (key e)) ?kbase_uniq ?mem_kbase //= [X in _ + X]big_seq_cond [X in _ + X]big1 ?addr0; last first.
  move=> K /andP[]; rewrite mem_kbase => KB ne; rewrite [R K e]rowf_out ?mulr0 // => a aK.
  by apply/eqP => Ea; have [_ EK] := pick_key KB aK; rewrite EK Ea eqxx in ne.
have [x [b [vx lx EK u H]]] := pickP Kb.
have eK : exists s, (s, e) \in pick (key e).
  have /mem_key[_ [b' H']] : fset1 (orb e) \in key x by rewrite -EK mem_fset2 mem_head.
  have : (1%R, e) \in fset1 (orb e) by rewrite mem_fset1 orb_self.
  rewrite H' => He; exists (sgnd b (sgnd b' (1, e))).1; rewrite H.
  by case: (b') He; case: (b) => /=; rewrite /neg_sp /= ?opprK.
case: eK => s sK.
have -> : R (key e) e = s%:~R / sqrtC (size (pick (key e)))%:R := rowf_mem Kb sK.
have Tx : forall a, a \in pick (key e) -> T a.2 = (a.1 * s)%:~R * T e.
  move=> [t y] tK /=; have := tK; have := sK; rewrite !H => He Hy.
  have szx := valid_size vx.
  have /(sym_orb sT ve) -> : ((s * t)%R, y) \in orb e.
    case: (b) He Hy => /= He Hy.
      by have := orb_trans (orb_sym szx He) Hy; rewrite mulrNN.
    exact: orb_trans (orb_sym szx He) Hy.
  by rewrite [(s * t)%R]mulrC.
have -> : \sum_(e' <- full_base dims) R (key e) e' * T e' =
   \sum_(e' <- full_base dims) \sum_(a <- pick (key e) | a.2 == e') s%:~R * T e / sqrtC (size (pick (key e)))%:R.
  apply: eq_bigr => e' _; rewrite /rowf mulr_suml big_seq_cond [RHS]big_seq_cond; apply: eq_bigr => a /andP[aK /eqP <-].
  by rewrite Tx // mulrAC mulrA -intrM mulrA (sgn_pick Kb aK) mul1r.
rewrite sum_fiber; last by case: (pick_ok Kb).
rewrite big_const_seq count_predT iter_addr_0.
have N0 : sqrtC (size (pick (key e)))%:R != 0 :> C.
  by rewrite sqrtC_eq0 pnatr_eq0 -lt0n pick_gt0.
have NN : (size (pick (key e)))%:R = sqrtC (size (pick (key e)))%:R * sqrtC (size (pick (key e)))%:R :> C.
  by rewrite -expr2 sqrtCK.
have ss : s%:~R * s%:~R = 1 :> C by rewrite -intrM (sgn_pick Kb sK).
move: N0 NN; set r := sqrtC _; set N := size _ => N0 NN.
transitivity (s%:~R * s%:~R * T e * (N%:R / (r * r))); last by mcf.
by rewrite ss mul1r NN mulfV ?mulr1 // mulf_neq0.
Qed.

Lemma reduce_permutation_matrix_ok :
  exists2 Q, reduce_permutation_matrix C base dims = Ok Q &
    [/\ size Q = size base,
        forall row, row \in Q -> size row = prodn dims &
        forall i e, (i < size base)%N -> valid_index dims e ->
          nth 0 (nth [::] Q i) (flat e dims) = R (nth [::] kbase i) e].
Proof.
rewrite /reduce_permutation_matrix sorted_base.
pose fr K := if fill_row C (pick K) dims is Ok r then r else [::].
have fok K : K \in base -> fill_row C (pick K) dims = Ok (fr K) /\ (size (fr K) = prodn dims /\
    forall e, valid_index dims e -> nth 0 (fr K) (flat e dims) = R K e).
  by move=> /pick_ok[u al]; rewrite /fr; have [row -> H] := fill_row_ok C u al.
rewrite (@mapR_ok_in _ _ _ fr) /=; last by move=> K; rewrite mem_kbase => /fok[].
have szk : size kbase = size base by rewrite size_sort.
have nk i : (i < size kbase)%N -> nth [::] kbase i \in base by move=> li; rewrite -mem_kbase mem_nth.
have -> /= : all (fun i => all (fun j =>
            dotp (nth [::] (map fr kbase) i) (nth [::] (map fr kbase) j) == (i == j)%:R%R) (iota 0 (size (map fr kbase))))
          (iota 0 (size (map fr kbase))).
  apply/allP => i; rewrite mem_iota size_map add0n => /andP[_ li]; apply/allP => j.
  rewrite mem_iota add0n => /andP[_ lj]; rewrite !(nth_map [::]) //.
  have [_ [si Hi]] := fok _ (nk i li); have [_ [sj Hj]] := fok _ (nk j lj).
  rewrite (dotp_full si sj); apply/eqP.
  rewrite [LHS](_ : _ = \sum_(e <- full_base dims) R (nth [::] kbase i) e * R (nth [::] kbase j) e).
    by rewrite row_orth ?nk // nth_uniq ?kbase_uniq.
  by rewrite big_seq [RHS]big_seq; apply: eq_bigr => e; rewrite mem_full_base => ve; rewrite Hi ?Hj.
exists (map fr kbase) => //; split; first by rewrite size_map.
  by move=> row /mapP[K]; rewrite mem_kbase => /fok[_ [sz _]] ->.
move=> i e; rewrite -szk => li ve; rewrite (nth_map [::]) //.
by have [_ [_ ->]] := fok _ (nk i li).
Qed.
End Basis.
