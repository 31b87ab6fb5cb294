(** PermSign: cycle decomposition and the two sign functions, against
    mathcomp's orbits ([porbit]) and signature ([odd_perm]). *)
From Coq Require Import ZArith.
From mathcomp Require Import all_ssreflect all_fingroup.
From mathcomp Require Import zify.
From Verif Require Import Base Perm PermProofs.

Set Implicit Arguments.
Unset Strict Implicit.
Unset Printing Implicit Defensive.

(** ** inversions *)
Section Inversions.
Variable n : nat.
Implicit Types s t : 'S_n.

Definition inv2 s (i j : 'I_n) : bool := (i < j) != (s i < s j).
Definition ninv s : nat := \sum_(i < n) \sum_(j < n | i < j) (s j < s i).

Lemma inv2C s i j : i != j -> inv2 s i j = inv2 s j i.
Proof.
move=> ne; rewrite /inv2.
have : (s i : nat) != s j by rewrite (inj_eq val_inj) (inj_eq perm_inj).
have : (i : nat) != j by [].
by case: (ltngtP i j) => //; case: (ltngtP (s i) (s j)).
Qed.

Lemma ninvE s : ninv s = \sum_(p : 'I_n * 'I_n | p.1 < p.2) inv2 s p.1 p.2.
Proof.
rewrite /ninv pair_big_dep /=; apply: eq_bigr => -[i j] /= lt; rewrite /inv2 lt.
have : (s i : nat) != s j by rewrite (inj_eq val_inj) (inj_eq perm_inj) -val_eqE /= neq_ltn lt.
by case: ltngtP.
Qed.

Lemma sum_sym (h : 'I_n -> 'I_n -> nat) : (forall i j, i != j -> h i j = h j i) ->
  \sum_(p : 'I_n * 'I_n | p.1 != p.2) h p.1 p.2 = (\sum_(p : 'I_n * 'I_n | p.1 < p.2) h p.1 p.2).*2.
Proof.
move=> hC; rewrite (bigID (fun p : 'I_n * 'I_n => p.1 < p.2)) /= -addnn; congr (_ + _).
  apply: eq_bigl => -[i j] /=; rewrite andbC -val_eqE /=.
  by case: ltngtP.
rewrite (reindex_inj (h := fun p : 'I_n * 'I_n => (p.2, p.1))) /=; last first.
  by move=> [a b] [c d] /= [-> ->].
have -> : \sum_(p : 'I_n * 'I_n | p.1 < p.2) h p.1 p.2 = \sum_(p : 'I_n * 'I_n | p.1 < p.2) h p.2 p.1.
  by apply: eq_bigr => -[i j] /= lt; apply: hC; rewrite -val_eqE /= neq_ltn lt.
by apply: eq_bigl => -[i j] /=; rewrite -val_eqE /= -leqNgt; case: ltngtP.
Qed.

Lemma sum_sym_perm (h : 'I_n -> 'I_n -> nat) s : (forall i j, i != j -> h i j = h j i) ->
  \sum_(p : 'I_n * 'I_n | p.1 < p.2) h (s p.1) (s p.2) = \sum_(p : 'I_n * 'I_n | p.1 < p.2) h p.1 p.2.
Proof.
move=> hC; apply: double_inj; rewrite -sum_sym //.
rewrite -(@sum_sym (fun i j => h (s i) (s j))) => [|i j ne]; last first.
  by apply: hC; rewrite (inj_eq perm_inj).
rewrite [RHS](reindex_inj (h := fun p : 'I_n * 'I_n => (s p.1, s p.2))) /=; last first.
  by move=> [a b] [c d] /= [/perm_inj -> /perm_inj ->].
by apply: eq_bigl => p; rewrite (inj_eq perm_inj).
Qed.

Lemma odd_ninvM s t : odd (ninv (s * t)%g) = odd (ninv s) (+) odd (ninv t).
Proof.
rewrite -oddD !ninvE -(sum_sym_perm s (h := fun i j => nat_of_bool (inv2 t i j))); last first.
  by move=> i j ne; rewrite inv2C.
rewrite -big_split /=; elim/big_rec2: _ => // -[i j] a b _ E /=.
rewrite !oddD E; congr (_ (+) _).
by rewrite !oddb /inv2 !permM; do 3!case: (_ < _).
Qed.
End Inversions.

Lemma odd_ninvV n (s : 'S_n) : odd (ninv (s^-1)%g) = odd (ninv s).
Proof.
have : odd (ninv (s * s^-1)%g) = false.
  rewrite mulgV /ninv big1 // => i _; rewrite big1 // => j lt.
  by rewrite !perm1 ltnNge ltnW.
by rewrite odd_ninvM; do 2!case: odd.
Qed.

Lemma odd_ninvJ n (s t : 'S_n) : odd (ninv (s ^ t)%g) = odd (ninv s).
Proof. by rewrite conjgE !odd_ninvM odd_ninvV; do 2!case: odd. Qed.

Lemma ninv_tperm01 n : ninv (tperm (inord 0) (inord 1) : 'S_n.+2) = 1.
Proof.
rewrite /ninv (bigD1 (inord 0)) //= (bigD1 (inord 1)) /=; last by rewrite !inordK.
rewrite tpermR tpermL !inordK //= big1 ?addn0 => [|j /andP[lt ne]]; last first.
  have n0 : inord 0 != j by apply: contraTneq lt => <-; rewrite inordK.
  rewrite eq_sym in ne; by rewrite tpermD //; case: (val j) lt.
rewrite big1 ?addn0 // => i ne; rewrite big1 // => j lt; apply/eqP; rewrite eqb0 -leqNgt.
have i0 : 0 < i by move: ne; rewrite -val_eqE /= inordK // lt0n.
have j1 : 1 < j by apply: leq_trans lt.
have -> : tperm (inord 0) (inord 1) j = j.
  by rewrite tpermD // -val_eqE /= inordK // neq_ltn ?j1 ?(ltnW j1).
by case: (tpermP _ _ i) => [E|_|_ _]; rewrite ?inordK ?(ltnW j1) ?(ltnW lt).
Qed.

Lemma odd_ninv_tperm n (a b : 'I_n) : a != b -> odd (ninv (tperm a b)).
Proof.
case: n a b => [[]//|[|n]] a b ne; first by rewrite (ord1 a) (ord1 b) eqxx in ne.
pose u1 := tperm (inord 0) a : 'S_n.+2.
pose c := u1 (inord 1).
have na : c != a.
  rewrite -(tpermL (inord 0 : 'I_n.+2) a) (inj_eq perm_inj) -val_eqE /= !inordK //.
have -> : tperm a b = (tperm (inord 0) (inord 1) ^ (u1 * tperm c b))%g.
  rewrite tpermJ !permM -/c tpermL /u1 tpermL.
  by rewrite tpermD // eq_sym.
by rewrite odd_ninvJ ninv_tperm01.
Qed.

Lemma odd_ninvE n (s : 'S_n) : odd (ninv s) = odd_perm s.
Proof.
have [ts -> nts] := prod_tpermP s; elim: ts nts => [|[a b] ts IH] /=.
  move=> _; rewrite big_nil odd_perm1.
  rewrite /ninv big1 // => i _; rewrite big1 // => j lt.
  by rewrite !perm1 ltnNge ltnW.
by case/andP=> /= ne /IH E; rewrite big_cons odd_ninvM E odd_permM odd_tperm /dpair /= ne odd_ninv_tperm.
Qed.

(** [Zsign b] is the integer sign of a parity. *)
Definition Zsign (b : bool) : Z := if b then (-1)%Z else 1%Z.

Lemma sumn_big (T : Type) (r : seq T) F : sumn [seq F i | i <- r] = \sum_(i <- r) F i.
Proof. by elim: r => [|x r IH]; rewrite ?big_nil // big_cons /= IH. Qed.

Lemma permutation_signE n (s : 'S_n) : permutation_sign (pseq s) = Zsign (odd_perm s).
Proof.
rewrite /permutation_sign !size_pseq.
case: eqP => [n1|_].
  have -> : s = 1%g; last by rewrite odd_perm1.
  by subst n; apply/permP=> i; rewrite (ord1 (s i)) (ord1 (perm_one _ i)).
rewrite sumn_big -[n in iota 0 n]subn0 big_mkord -odd_ninvE.
have -> : \sum_(i < n) sumn [seq if nth 0 (pseq s) j < nth 0 (pseq s) i then 1 else 0
             | j <- iota i.+1 (n - i.+1)] = ninv s.
  apply: eq_bigr => i _; rewrite sumn_big.
  rewrite -/(index_iota i.+1 n) big_geq_mkord /=.
  by apply: eq_big => j //= _; rewrite !nth_pseq; case: ltnP.
by rewrite modn2; case: odd.
Qed.

(** ** cycles *)
Section Cycles.
Variables (n : nat) (s : 'S_n).

Lemma getitem_pseq (i : 'I_n) : getitem (pseq s) i = Ok (val (s i)).
Proof. by rewrite (getitem_ok 0) ?size_pseq // nth_pseq. Qed.

Notation ord x := #|porbit s x|.
(** The cycle of [x]: x, s(x), s(s(x)), ... *)
Definition cyc (x : 'I_n) : tup := [seq val y | y <- traject s x (ord x)].

Lemma ord_gt0 x : 0 < ord x.
Proof. by apply/card_gt0P; exists x; apply: porbit_id. Qed.

Lemma ord_le x : ord x <= n.
Proof. by rewrite -[X in _ <= X](card_ord n) max_card. Qed.

Lemma cycle_loopP (x : 'I_n) k fuel : k.+1 <= ord x -> ord x <= k + fuel ->
  cycle_loop fuel (pseq s) (val (iter k s x)) [seq val y | y <- traject s x k.+1]
  = Ok (cyc x).
Proof.
elim: fuel k => [|f IH] k le1 le2.
  by rewrite addn0 in le2; have := leq_trans le1 le2; rewrite ltnn.
rewrite /cycle_loop -/cycle_loop getitem_pseq /= -iterS.
have [E|ne] := eqVneq (iter k.+1 s x) x.
  rewrite E eqxx /=; congr Ok; rewrite /cyc.
  case: (ltngtP k.+1 (ord x)) le1 => // [lt|<-] _ //=.
  have := nth_uniq x _ _ (uniq_traject_porbit s x); move=> /(_ k.+1 0); rewrite !size_traject lt.
  rewrite ord_gt0 => /(_ erefl erefl).
  by rewrite !nth_traject ?ord_gt0 // E eqxx.
rewrite (inj_eq val_inj) ne.
have lt : k.+1 < ord x.
  rewrite ltn_neqAle le1 andbT; apply: contraNneq ne => ->.
  by rewrite iter_porbit.
by have := IH k.+1 lt; rewrite trajectSr map_rcons /=; apply; rewrite addSnnS.
Qed.

Lemma cycle_loop_orbit fuel (x : 'I_n) : n <= fuel ->
  cycle_loop fuel (pseq s) x [:: val x] = Ok (cyc x).
Proof.
move=> le; have := @cycle_loopP x 0 fuel; apply; first exact: ord_gt0.
by rewrite add0n (leq_trans _ le) // ord_le.
Qed.

Lemma rot_traject k m (x : 'I_n) : k <= m -> iter m s x = x ->
  drop k (traject s x m) ++ take k (traject s x m) = traject s (iter k s x) m.
Proof.
move=> le E; apply: (@eq_from_nth _ x); first by rewrite -/(rot _ _) size_rot !size_traject.
move=> i; rewrite -/(rot _ _) size_rot size_traject => lt; rewrite /rot.
rewrite nth_cat size_drop size_traject nth_drop.
rewrite [RHS](set_nth_default (iter k s x)) ?size_traject // [RHS]nth_traject //.
case: ifP => [l1|/negbT l1].
  by rewrite nth_traject; [rewrite addnC iterD | lia].
rewrite nth_take; last by lia.
rewrite nth_traject; last by lia.
by rewrite -iterD -{1}E -iterD; congr (iter _ s x); lia.
Qed.

(** The smallest element of the orbit of [x]. *)
Definition pmin (x : 'I_n) : 'I_n := [arg min_(y < x | y \in porbit s x) val y].

Lemma pminP x : pmin x \in porbit s x /\ (forall y, y \in porbit s x -> pmin x <= y).
Proof. by rewrite /pmin; case: arg_minnP; [exact: porbit_id | move=> y]. Qed.

Lemma mem_cyc x (y : 'I_n) : (val y \in cyc x) = (y \in porbit s x).
Proof. by rewrite /cyc mem_map ?porbit_traject //; exact: val_inj. Qed.

Lemma minl_in c : c != [::] -> minl c \in c.
Proof.
rewrite /minl; case: c => // a c _ /=.
elim: c => [|b c IH] /=; first by rewrite minnn mem_head.
rewrite minnCA; case: leqP => _; first by rewrite !inE eqxx orbT.
by move: IH; rewrite !inE => /orP[->//|->]; rewrite !orbT.
Qed.

Lemma minl_le c y : y \in c -> minl c <= y.
Proof.
rewrite /minl; elim: c (head 0 c) => // a c IH h; rewrite inE /= geq_min => /orP[/eqP->|/IH->].
  by rewrite leqnn.
by rewrite orbT.
Qed.

Lemma minl_cyc x : minl (cyc x) = pmin x.
Proof.
have [m1 m2] := pminP x; apply/eqP; rewrite eqn_leq minl_le ?mem_cyc //=.
have : minl (cyc x) \in cyc x.
  by apply: minl_in; rewrite -size_eq0 /cyc size_map size_traject -lt0n ord_gt0.
case/mapP=> y; rewrite -porbit_traject => /m2 H ->; exact: H.
Qed.

Lemma porbit_pmin x : porbit s (pmin x) = porbit s x.
Proof. by apply/eqP; rewrite eq_porbit_mem; case: (pminP x). Qed.

Lemma pmin_same x y : porbit s x = porbit s y -> pmin x = pmin y.
Proof.
move=> E; apply: val_inj; apply/eqP; rewrite eqn_leq.
have [a1 a2] := pminP x; have [b1 b2] := pminP y.
by rewrite a2 ?b2 // ?E // -E.
Qed.

Lemma cyc_rot x (k := index (minl (cyc x)) (cyc x)) :
  drop k (cyc x) ++ take k (cyc x) = cyc (pmin x).
Proof.
rewrite {1 2}/cyc -map_drop -map_take -map_cat.
have lk : k < ord x.
  have -> : ord x = size (cyc x) by rewrite size_map size_traject.
  by rewrite /k index_mem minl_in // -size_eq0 size_map size_traject -lt0n ord_gt0.
have E : iter k s x = pmin x.
  apply: val_inj; rewrite [RHS](esym (minl_cyc x)) -[RHS](@nth_index _ 0 _ (cyc x)); last first.
    by rewrite minl_in // -size_eq0 size_map size_traject -lt0n ord_gt0.
  by rewrite -/k (nth_map x) ?size_traject // nth_traject.
rewrite rot_traject ?iter_porbit //; last exact: ltnW.
by rewrite E /cyc porbit_pmin.
Qed.

Lemma to_cycles_bodyE fuel cs (x : 'I_n) : n <= fuel ->
  to_cycles_body fuel (pseq s) cs x =
  Ok (if 2 <= ord x then set_union cs [:: cyc (pmin x)] else cs).
Proof.
move=> le; rewrite /to_cycles_body cycle_loop_orbit //= size_map size_traject.
case: ifP => // _; rewrite /pyindex minl_in /=; last first.
  by rewrite -size_eq0 size_map size_traject -lt0n ord_gt0.
by rewrite cyc_rot.
Qed.

Lemma to_cyclesE fuel : n <= fuel -> exists cs,
  [/\ to_cycles fuel (pseq s) = Ok cs, uniq cs &
      cs =i [seq cyc (pmin x) | x <- enum 'I_n & 2 <= ord x]].
Proof.
move=> le; rewrite /to_cycles size_pseq iota_enum.
have : uniq ([::] : seq tup) by [].
suff H : forall (xs : seq 'I_n) (cs0 : seq tup), uniq cs0 -> exists cs,
   [/\ foldR (to_cycles_body fuel (pseq s)) cs0 [seq val x | x <- xs] = Ok cs, uniq cs &
      cs =i cs0 ++ [seq cyc (pmin x) | x <- xs & 2 <= ord x]] by move=> /(H (enum 'I_n)).
elim=> [|x xs IH] cs0 u0 /=; first by exists cs0; split=> //; rewrite cats0.
rewrite to_cycles_bodyE //=; set c1 := if _ then _ else _.
have u1 : uniq c1 by rewrite /c1; case: ifP => // _; apply: undup_uniq.
have [cs [-> u E]] := IH c1 u1; exists cs; split=> // c; rewrite E /c1.
case: ifP => //= _; rewrite !mem_cat mem_undup mem_cat !inE.
by rewrite -orbA.
Qed.

Lemma cyc_pmin_inj x y : cyc (pmin x) = cyc (pmin y) -> pmin x = pmin y.
Proof.
rewrite /cyc => E; apply: val_inj.
have : head 0 (cyc (pmin x)) = head 0 (cyc (pmin y)) by rewrite /cyc E.
by rewrite /cyc; have := ord_gt0 (pmin x); have := ord_gt0 (pmin y); do 2!case: (ord _) => // ? .
Qed.

(** The final list is, up to order, one cycle per non-trivial orbit. *)
Lemma to_cycles_perm fuel : n <= fuel -> exists cs,
  to_cycles fuel (pseq s) = Ok cs /\
  perm_eq cs [seq cyc x | x <- enum 'I_n & (pmin x == x) && (2 <= ord x)].
Proof.
move=> le; have [cs [E u m]] := to_cyclesE le; exists cs; split=> //.
apply: uniq_perm => //.
  rewrite map_inj_in_uniq; first by apply: filter_uniq; apply: enum_uniq.
  move=> x y.
  rewrite !mem_filter => /andP[/andP[/eqP Ex _] _] /andP[/andP[/eqP Ey _] _].
  by rewrite -{1}Ex -{1}Ey => /cyc_pmin_inj; rewrite Ex Ey.
move=> c; rewrite m; apply/mapP/mapP => -[x]; rewrite mem_filter.
  move=> /andP[lx _] ->; exists (pmin x) => //.
  rewrite mem_filter mem_enum porbit_pmin lx andbT andbT; apply/eqP.
  by apply: pmin_same; rewrite porbit_pmin.
case/andP=> /andP[/eqP Ex lx] _ ->; exists x; last by rewrite Ex.
by rewrite mem_filter lx mem_enum.
Qed.

Lemma sign_fold (cs : seq tup) a :
  foldl (fun (s : Z) (c : tup) => if size c %% 2 == 0 then (- s)%Z else s) (Zsign a) cs
  = Zsign (a (+) odd (count (fun c : tup => ~~ odd (size c)) cs)).
Proof.
elim: cs a => [|c cs IH] a /=; first by rewrite addbF.
have -> : (if size c %% 2 == 0 then (- Zsign a)%Z else Zsign a) = Zsign (a (+) ~~ odd (size c)).
  by rewrite modn2; case: (odd _); case: a.
by rewrite IH; congr Zsign; rewrite oddD -addbA; case: (odd (size c)).
Qed.

Lemma pmin_idem x : pmin (pmin x) = pmin x.
Proof. by apply: pmin_same; rewrite porbit_pmin. Qed.

Lemma sum_ord : \sum_(x : 'I_n | pmin x == x) ord x = n.
Proof.
rewrite -[RHS](card_ord n) -sum1_card [RHS](partition_big pmin (fun x => pmin x == x)) /=; last first.
  by move=> x _; rewrite pmin_idem.
apply: eq_bigr => x /eqP Ex; rewrite -sum1_card; apply: eq_bigl => y.
apply/idP/eqP => [|<-]; last by rewrite porbit_sym; case: (pminP y).
by rewrite -eq_porbit_mem => /eqP /pmin_same ->.
Qed.

Lemma card_porbits_min : #|porbits s| = \sum_(x : 'I_n | pmin x == x) 1.
Proof.
rewrite sum1_card.
have -> : porbits s = [set porbit s x | x in [pred x | pmin x == x]].
  apply/setP=> X; apply/imsetP/imsetP => -[x _ ->]; last by exists x.
  by exists (pmin x); rewrite ?porbit_pmin // inE pmin_idem.
apply: card_in_imset => x y; rewrite !inE => /eqP Ex /eqP Ey /pmin_same.
by rewrite Ex Ey.
Qed.

Lemma odd_permE : odd_perm s = odd (count (fun c : tup => ~~ odd (size c))
   [seq cyc x | x <- enum 'I_n & (pmin x == x) && (2 <= ord x)]).
Proof.
rewrite /odd_perm card_ord card_porbits_min -{1}sum_ord -oddD -big_split /=.
rewrite count_map count_filter -sum1_count big_enum_cond /=.
rewrite big_mkcond [in RHS]big_mkcond /=.
elim/big_rec2: _ => // x a b _ E; rewrite !oddD E; congr (_ (+) _).
rewrite size_map size_traject; have := ord_gt0 x.
case: (pmin x == x) => /=; last by rewrite andbF.
by case: (ord x) => [|[|k]] //= _; rewrite oddD /= andbT; case: (odd k).
Qed.

Lemma signE fuel : n <= fuel -> sign fuel (pseq s) = Ok (Zsign (odd_perm s)).
Proof.
move=> le; have [cs [E pe]] := to_cycles_perm le; rewrite /sign E /=; congr Ok.
rewrite -[1%Z]/(Zsign false) sign_fold addFb odd_permE; congr (Zsign (odd _)).
by move/seq.permP: pe; apply.
Qed.
End Cycles.
