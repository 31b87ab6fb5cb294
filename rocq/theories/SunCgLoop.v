(** SunCgLoop: search_state, construct_lower_cg and the loop of clebsch_gordan_matrix. *)
From Coq Require Import ZArith String Ascii.
From Verif Require Import McRing.
From mathcomp Require Import all_ssreflect all_algebra.
From mathcomp.real_closed Require Import mxtens.
From mathcomp.zify Require Import zify.
From Verif Require Import Base Nd NdProofs Reps RepProofs Pinv IcbProofs ReducedProofs LinAlg LinAlgProofs BiProofs RtpArr.
From Verif Require Import Sun SunDet SunDim SunRow SunLadder SunMx SunTog SunLR SunTp SunCg SunHw SunCgProofs SunCgSearch.

Set Implicit Arguments.
Unset Strict Implicit.
Unset Printing Implicit Defensive.

Import GRing.Theory Num.Theory Order.Theory.
Local Open Scope ring_scope.

Section Search.
Variable C : numClosedFieldType.
Variable S : weight.
Hypothesis vS : valid_S S.
Hypothesis S0 : 0 <= last 0 S.
Notation n := (size S).
Notation G := (gtp (size S) S).

Lemma search_lP Mp Mc ls : Mp \in G -> Mc \in G -> {in ls, forall l, (l.+1 < n)%N} ->
  exists r, search_l C Mp Mc ls = Ok r /\
    match r with Some l => l \in ls /\ jel S C l Mc Mp != 0
    | None => {in ls, forall l, jel S C l Mc Mp = 0} end.
Proof using vS S0.
move=> hp hc; elim: ls => [|l ls ih] h /=; first by exists None.
rewrite (lower_ladderE vS S0) ?h ?inE ?eqxx //=.
case: eqP => [z|/eqP nz]; last by exists (Some l); rewrite inE eqxx.
have [l' hl'|r [-> hr]] := ih; first by apply: h; rewrite inE hl' orbT.
exists r; split=> //; case: r hr => [l' [h1 h2]|hr]; first by rewrite inE h1 orbT.
by move=> l'; rewrite inE => /orP[/eqP ->|/hr].
Qed.
Lemma search_pP L Mc Mps : Mc \in G -> {subset Mps <= G} ->
  exists r, search_p C n L Mc Mps = Ok r /\
    match r with Some (Mp, l) => [/\ Mp \in G, Mp \notin L, (l.+1 < n)%N & jel S C l Mc Mp != 0]
    | None => forall Mp l, Mp \in Mps -> Mp \notin L -> (l.+1 < n)%N -> jel S C l Mc Mp = 0 end.
Proof using vS S0.
move=> hc; elim: Mps => [|M Ms ih] h /=; first by exists None.
have [M' hM'|r [er hr]] := ih; first by apply: h; rewrite inE hM' orbT.
have hM : M \in G by apply: h; rewrite inE eqxx.
have nx (hz : M \in L \/ (forall l, (l.+1 < n)%N -> jel S C l Mc M = 0)) : r = None ->
  forall Mp l, Mp \in M :: Ms -> Mp \notin L -> (l.+1 < n)%N -> jel S C l Mc Mp = 0.
  move=> e; rewrite e in hr; move=> Mp l; rewrite inE => /orP[/eqP ->|h1] h2 hl; last exact: hr.
  by case: hz => [h3|]; [rewrite h3 in h2 | exact].
case: ifP => hL.
  rewrite er; exists r; split=> //; case: r hr er nx => // _ _ nx; apply: nx => //; by left.
have [l|r' [-> hr']] := @search_lP M Mc (iota 0 (n - 1)) hM hc; first by rewrite mem_iota; lia.
case: r' hr' => [l [h1 h2]|hz] /=.
  by exists (Some (M, l)); split=> //; split=> //; rewrite ?hL //; move: h1; rewrite mem_iota; lia.
rewrite er; exists r; split=> //; case: r hr er nx => // _ _ nx; apply: nx => //; right=> l hl.
by apply: hz; rewrite mem_iota; lia.
Qed.
Lemma search_cP L Mcs : {subset Mcs <= L} -> {subset Mcs <= G} ->
  (exists Mc Mp l, [/\ Mc \in Mcs, Mp \in G, Mp \notin L & (l.+1 < n)%N /\ jel S C l Mc Mp != 0]) ->
  exists Mc Mp l, search_c C n L G Mcs = Ok (Mc, Mp, l) /\
    [/\ Mc \in L, Mp \in G, Mp \notin L, (l.+1 < n)%N & jel S C l Mc Mp != 0].
Proof using vS S0.
elim: Mcs => [|M Ms ih] h1 h2 [Mc [Mp [l [hc hp hL [hl nz]]]]] //=.
have hM : M \in G by apply: h2; rewrite inE eqxx.
have [//|r [-> hr]] := @search_pP L M G hM; case: r hr => [[Mp' l'] [g1 g2 g3 g4]|hz] /=.
  by exists M, Mp', l'; split=> //; split=> //; apply: h1; rewrite inE eqxx.
apply: ih => [x hx|x hx|]; first by apply: h1; rewrite inE hx orbT.
  by apply: h2; rewrite inE hx orbT.
exists Mc, Mp, l; split=> //; move: hc; rewrite inE => /orP[/eqP e|//].
by rewrite e hz ?eqxx in nz.
Qed.
Lemma search_stateP L M : topM S \in L -> {subset L <= G} -> M \in G -> M \notin L ->
  exists Mc Mp l, search_state C L = Ok (Mc, Mp, l) /\
    [/\ Mc \in L, Mp \in G, Mp \notin L, (l.+1 < n)%N & jel S C l Mc Mp != 0].
Proof using vS S0.
move=> tL sub hM hL; have [Mc [Mp [l [h1 h2 h3 h4 h5]]]] := crossing vS C tL hM hL.
have [M0 [L' eL]] : exists M0 L', L = M0 :: L' by case: (L) tL => // a b _; exists a, b.
have hM0 : M0 \in G by apply: sub; rewrite eL inE eqxx.
have [[z1 z2] r0 _] := (GP vS M0).1 hM0.
have e : exists M0', M0 = S :: M0'.
  by case: (M0) r0 z1 => [|x y] /=; [case: (n) (vS) => //; case: (S) | move=> -> _; exists y].
have [M0' eM0] := e; have z1' : (size M0').+1 = n by rewrite -z1 eM0.
have -> : search_state C L = search_c C n L G L by rewrite /search_state eL eM0 (S_to_MsE vS) /= z1'.
apply: search_cP => //; by exists Mc, Mp, l.
Qed.
End Search.

Lemma sum_dm (R : ringType) (d1 d2 : nat) (f : nat -> nat -> R) : (0 < d2)%N ->
  \sum_(k < d1 * d2) f (k %/ d2)%N (k %% d2)%N = \sum_(i < d1) \sum_(j < d2) f i j.
Proof.
move=> h; rewrite pair_big /= (reindex (@mxtens_index d1 d2)) /=; last first.
  by exists (@mxtens_unindex d1 d2) => x _; rewrite ?mxtens_indexK ?mxtens_unindexK.
by apply: eq_bigr => -[i j] _ /=; rewrite divnMDl // divn_small // addn0 modnMDl modn_small.
Qed.

Lemma sq_div (C : fieldType) (x y : C) : x != 0 -> (x ^+ 2)^-1 * x * y = y / x.
Proof. by move=> x0; rewrite expr2 invfM -[_ * x]mulrA mulVf // mulr1 mulrC. Qed.

Section Low.
Variable C : numClosedFieldType.
Notation nd := (nd C).
Variables S1 S2 S : weight.
Hypothesis v1 : valid_S S1.
Hypothesis v2 : valid_S S2.
Hypothesis v3 : valid_S S.
Hypothesis s1 : 0 <= last 0 S1.
Hypothesis s2 : 0 <= last 0 S2.
Hypothesis s3 : 0 <= last 0 S.
Hypothesis sz : size S2 = size S1.
Hypothesis sz3 : size S = size S1.
Notation n := (size S1).
Notation G := (gtp (size S) S).
Notation d1 := (size (gtp (size S1) S1)).
Notation d2 := (size (gtp (size S2) S2)).
Notation d3 := (size (gtp (size S) S)).
Notation pW := (pW C S1 S2).

Definition colA (A : nd) (alpha m : nat) : 'cV[C]_(d1 * d2) :=
  \col_i get A [:: alpha; (i %/ d2)%N; (i %% d2)%N; m].
Lemma dotE m (x : 'cV[C]_m) : dot x x = \sum_i `|x i 0| ^+ 2.
Proof using. by rewrite /dot mxE; apply: eq_bigr => i _; rewrite /adj !mxE mulrC normCK. Qed.
Lemma lower_cgE2 Mp Mc l alpha A : Mp \in G -> Mc \in G -> (l.+1 < n)%N ->
  let y := jel S C l Mc Mp *: (adj (pW l) *m colA A alpha (index Mc G)) in
  exists CG, (forall i : 'I_(d1 * d2), get CG [:: (i %/ d2)%N; (i %% d2)%N] = y i 0) /\
    lower_cg S1 S2 S Mp Mc l alpha A =
      if sqrtC (dot y y) == 0 then Err ValueError else Ok (scale (sqrtC (dot y y))^-1 CG).
Proof using v1 v2 v3 s1 s2 s3 sz sz3.
move=> hp hc hl y; set c := jel _ _ _ _ _ in y *; set mc := index Mc G in y *.
have hl2 : (l.+1 < size S2)%N by rewrite sz.
have hl3 : (l.+1 < size S)%N by rewrite sz3.
have [hmc hmp] : (index Mc G < d3)%N /\ (index Mp G < d3)%N by rewrite !index_mem.
rewrite /lower_cg !dimSE //= (idxME v3 hc) /= (idxME v3 hp) /=; set f := (fun idx : seq nat => _ : res C).
pose t n1 n2 (m : nat * nat) := (if n2 == m.2 then get A [:: alpha; m.1; m.2; mc] * jel S1 C l (pat S1 m.1) (pat S1 n1) * c else 0)
  + (if n1 == m.1 then get A [:: alpha; m.1; m.2; mc] * jel S2 C l (pat S2 m.2) (pat S2 n2) * c else 0).
pose g (idx : seq nat) : C := \sum_(i < d1) \sum_(j < d2) t (nth 0%N idx 0) (nth 0%N idx 1) (i : nat, j : nat).
have [|CG [eCG sCG gCG]] := @tabRE C [:: d1; d2] f g.
  move=> [|n1 [|n2 [|? ?]]] //; rewrite !valid_cons => /and3P[h1 h2 _]; rewrite /f /=.
  rewrite (@mapR_ok_in _ _ _ (t n1 n2)) /=; last first.
    case=> m1 m2 /allpairsP[[a b] [/= ha hb [-> ->]]]; rewrite !mem_iota add0n /= in ha hb.
    rewrite !(patME v1) // !(patME v2) // !(patME v3) //.
    have u1 := lower_ladderE v1 s1 C hl (patG ha) (patG h1).
    have u2 := lower_ladderE v2 s2 C hl2 (patG hb) (patG h2).
    have u3 : upper_ladder C l (pat S (index Mc G)) (pat S (index Mp G)) = Ok c.
      by rewrite (upper_ladderE v3 s3) ?patG // /pat !nth_index.
    by rewrite /t /=; case: eqP => _; case: eqP => _; rewrite /= ?u1 ?u2 /= ?u3.
  rewrite big_map big_allpairs /= /g -(big_mkord xpredT (fun i => \sum_(j < d2) t n1 n2 (i, j : nat))).
  by rewrite /index_iota subn0; congr Ok; apply: eq_bigr => i _; rewrite -(big_mkord xpredT (fun j => t n1 n2 (i, j))) /index_iota subn0.
have gy (i : 'I_(d1 * d2)) : get CG [:: (i %/ d2)%N; (i %% d2)%N] = y i 0.
  have [i1 i2] := ltn_div v2 (ltn_ord i).
  rewrite gCG; last by rewrite !valid_cons i1 i2.
  rewrite /g /= -(@sum_dm _ d1 d2 (fun a b => t (i %/ d2)%N (i %% d2)%N (a, b))) ?dd0 //.
  rewrite !mxE big_distrr /=; apply: eq_bigr => k _; rewrite pW_adjE //.
  rewrite (_ : tensX _ _ = (pW l)^T); last by rewrite /SunCgProofs.pW /tensX linearD /= !trmx_tens !trmx1.
  rewrite mxE pWE // mxE /t /eA /= [(k %% d2)%N == _]eq_sym [(k %/ d2)%N == _]eq_sym.
  by case: eqP => _; case: eqP => _; rewrite ?addr0 ?add0r ?mulr0 //; rewrite -/mc; mcring.
rewrite eCG /=.
rewrite -(@sum_dm _ d1 d2 (fun a b => `|get CG [:: a; b]| ^+ 2)) ?dd0 //.
under eq_bigr => k _ do rewrite gy.
by rewrite -dotE; exists CG.
Qed.
Lemma lower_cgE Mp Mc l alpha A : Mp \in G -> Mc \in G -> (l.+1 < n)%N ->
  let y := jel S C l Mc Mp *: (adj (pW l) *m colA A alpha (index Mc G)) in
  sqrtC (dot y y) != 0 ->
  exists X, lower_cg S1 S2 S Mp Mc l alpha A = Ok X /\
    forall i : 'I_(d1 * d2), get X [:: (i %/ d2)%N; (i %% d2)%N] = ((sqrtC (dot y y))^-1 *: y) i 0.
Proof using v1 v2 v3 s1 s2 s3 sz sz3.
move=> hp hc hl y nz; have [CG [gy ->]] := @lower_cgE2 Mp Mc l alpha A hp hc hl.
rewrite (negbTE nz); eexists; split; first by reflexivity.
by move=> i; rewrite [RHS]mxE -gy.
Qed.
Lemma lower_cg_ok Mp Mc l alpha A X : Mp \in G -> Mc \in G -> (l.+1 < n)%N ->
  lower_cg S1 S2 S Mp Mc l alpha A = Ok X -> exists t,
  \col_(i < d1 * d2) get X [:: (i %/ d2)%N; (i %% d2)%N] = t *: (adj (pW l) *m colA A alpha (index Mc G)).
Proof using v1 v2 v3 s1 s2 s3 sz sz3.
move=> hp hc hl; have [CG [gy ->]] := @lower_cgE2 Mp Mc l alpha A hp hc hl.
case: ifP => // _ [<-]; set y := _ *: _ in gy *; exists ((sqrtC (dot y y))^-1 * jel S C l Mc Mp).
by rewrite -scalerA -/y; apply/colP => i; rewrite [RHS]mxE -gy mxE.
Qed.

(** The columns of the identity, by patterns. *)
Definition dl (M : pattern) : 'cV[C]_d3 := \col_j (pat S j == M)%:R.
Lemma dl_delta (j : 'I_d3) : delta_mx j 0 = dl (pat S j).
Proof using.
by apply/colP => i; rewrite !mxE eqxx andbT nth_uniq ?gtp_uniq // -val_eqE.
Qed.
Lemma dl_sum (f : pattern -> C) M : M \in G -> \sum_(j < d3) f (pat S j) * (pat S j == M)%:R = f M.
Proof using.
move=> hM; have hi : (index M G < d3)%N by rewrite index_mem.
rewrite (bigD1 (Ordinal hi)) //= big1 => [|j ne]; rewrite /pat ?nth_index //.
  by rewrite eqxx mulr1 addr0.
case: eqP => [e|_]; last by rewrite mulr0.
by case/eqP: ne; apply: val_inj; rewrite /= -e index_uniq ?gtp_uniq.
Qed.
Lemma dl_dot M : M \in G -> dot (dl M) (dl M) = 1.
Proof using.
move=> hM; rewrite -(dl_sum (fun=> 1) hM) dotE; apply: eq_bigr => j _; rewrite mxE normr_nat mul1r.
by case: (_ == _); rewrite ?expr1n ?expr0n.
Qed.
Lemma Jp_top l : (l.+1 < size S)%N -> Jp S C l *m dl (topM S) = 0.
Proof using v3.
move=> hl; apply/colP => i; rewrite !mxE.
under eq_bigr => j _ do rewrite !mxE.
rewrite (dl_sum (fun M => jel S C l (pat S i) M)) ?topG //; apply/eqP; apply: contraT => nz.
have hi : pat S i \in G by apply: patG.
have [q lq st] := jel_neq0 hl nz; have := ht_le v3 hi; rewrite (ht_step v3 lq (topG v3) hi st).
by rewrite ger_addl.
Qed.
Lemma Jz_dl l M : (2%:R *: Jz S C l) *m dl M = (wz S l M)%:~R *: dl M.
Proof using.
apply/colP => i; rewrite -scalemxAl !mxE (bigD1 i) //= big1 => [|j ne]; rewrite !mxE.
  rewrite eqxx mulr1n addr0; case: eqP => [->|_]; rewrite ?mulr0 // !mulr1 mulrC divfK //.
  by rewrite pnatr_eq0.
by rewrite eq_sym (negbTE ne) mulr0n mul0r.
Qed.
Notation lam := (fun l => (wz S l (topM S))%:~R : C).
Lemma sysT : hwsys n.-1 (cc C) lam (Jp S C) (fun l => 2%:R *: Jz S C l) (dl (topM S)).
Proof using v3 sz3. clear v1 v2 s1 s2 s3 sz.
have := @sysV C S lam (dl (topM S)) v3; rewrite (_ : (size S).-1 = n.-1); last by rewrite sz3.
by apply=> l hl; [apply: Jp_top; rewrite sz3; lia | apply: Jz_dl].
Qed.
Lemma size_z T M : valid_S T -> M \in gtp (size T) T -> size (M_to_z_weight C M) = (size T).-1.
Proof using. clear v1 v2 v3 s1 s2 s3 sz sz3.
by move=> vT h; rewrite size_rev size_map size_zip size_behead size_rev (size_p_weight vT) //; lia.
Qed.
Lemma zgood i l M : M \in G -> (i < d1 * d2)%N -> (l < n.-1)%N -> ~~ zbad C S1 S2 M i -> zsum S1 S2 l i = wz S l M.
Proof using v1 v2 v3 sz sz3.
move=> hM hi hl; rewrite negbK => /eqP /(congr1 (fun s => nth 0 s l)); have [h1 h2] := ltn_div v2 hi.
have hl3 : (l < (size S).-1)%N by rewrite sz3.
have hl2 : (l < (size S2).-1)%N by rewrite sz.
have [z1 z2] : size (M_to_z_weight C (pat S1 (i %/ d2))) = n.-1 /\ size (M_to_z_weight C (pat S2 (i %% d2))) = n.-1.
  by rewrite (size_z v1) ?patG // (size_z v2) ?patG // sz.
rewrite (z_weightE C v3 hM hl3) (nth_map (0, 0)); last by rewrite size_zip z1 z2 minnn.
rewrite nth_zip ?z1 ?z2 //= (z_weightE C v1) ?patG // (z_weightE C v2) ?patG //=.
rewrite -mulrDl => /(mulIf (invr_neq0 (two0 C))); rewrite -rmorphD => /intr_inj //.
Qed.
Lemma hw_z (v : 'cV[C]_(d1 * d2)) : hw (topM S) v -> forall l, (l < n.-1)%N -> zW C S1 S2 l *m v = lam l *: v.
Proof using v1 v2 v3 sz sz3.
move=> [_ h] l hl; apply/colP => i; rewrite !mxE (bigD1 i) //= big1 => [|j ne]; rewrite zWE.
  rewrite eqxx mulr1n addr0; have [/h ->|/zgood e] := boolP (zbad C S1 S2 (topM S) i); first by rewrite !mulr0.
  by rewrite e ?topG.
by rewrite eq_sym (negbTE ne) mulr0n mul0r.
Qed.

Lemma colA_set A alpha m m' X :
  colA (set_col A alpha m X) alpha m' = if m' == m then \col_i get X [:: (i %/ d2)%N; (i %% d2)%N] else colA A alpha m'.
Proof using. by apply/colP => i; rewrite mxE /= eqxx /=; case: eqP => _; rewrite mxE. Qed.
(** Each column but the first is a multiple of a lowering operator applied to one column. *)
Definition chain (A : nd) (alpha : nat) (L : seq pattern) : Prop :=
  {in L, forall M, M = topM S \/ exists Mc l t, [/\ Mc \in L, Mc \in G, (l.+1 < n)%N, jel S C l Mc M != 0
    & colA A alpha (index M G) = t *: (adj (pW l) *m colA A alpha (index Mc G))]}.
Lemma while_chain fuel alpha A L A' L' : topM S \in L -> {subset L <= G} -> uniq L -> chain A alpha L ->
  cg_while fuel S1 S2 S alpha d3 A L = Ok (A', L') ->
  [/\ chain A' alpha L', {subset L' <= G}, uniq L' & size L' = d3]
  /\ {in L, forall M, colA A' alpha (index M G) = colA A alpha (index M G)}.
Proof using v1 v2 v3 s1 s2 s3 sz sz3.
elim: fuel A L => [|fuel ih] A L tL sub uL cL /=; first by case: eqP => // e [<- <-].
case: eqP => [e [<- <-] //|/eqP ne].
have le : (size L <= d3)%N by apply: uniq_leq_size.
have [M hM nM] : exists2 M, M \in G & M \notin L.
  have [/allP h|/allPn [M h1 h2]] := boolP (all (mem L) G); last by exists M.
  by case/eqP: ne; apply/eqP; rewrite eqn_leq le uniq_leq_size // gtp_uniq.
have [Mc [Mp [l [-> [hc hp pL hl nz]]]]] := search_stateP C v3 s3 tL sub hM nM.
rewrite [rbind _ _]/= (idxME v3 hp) [rbind _ _]/=.
have cG := sub _ hc; have hl1 : (l.+1 < n)%N by rewrite -sz3.
case eX: lower_cg => [X|] //; rewrite [rbind _ _]/=.
have [t et] := lower_cg_ok hp cG hl1 eX.
have old N : N \in L -> colA (set_col A alpha (index Mp G) X) alpha (index N G) = colA A alpha (index N G).
  move=> hN; rewrite colA_set; case: eqP => [e|_] //; suff e' : N = Mp by rewrite -e' hN in pL.
  by rewrite -(nth_index [::] (sub _ hN)) e nth_index.
move=> /ih[||||h1 h2].
- by rewrite mem_rcons inE tL orbT.
- by move=> x; rewrite mem_rcons inE => /orP[/eqP ->|/sub].
- by rewrite rcons_uniq pL.
- move=> N; rewrite mem_rcons inE => /orP[/eqP ->|hN].
    right; exists Mc, l, t; split=> //; first by rewrite mem_rcons inE hc orbT.
    by rewrite (old _ hc) -et colA_set eqxx.
  case: (cL _ hN) => [|[Mc' [l' [t' [g1 g2 g3 g4 g5]]]]]; [by left | right].
  by exists Mc', l', t'; split; rewrite ?mem_rcons ?inE ?g1 ?orbT // (old _ hN) (old _ g1).
by split=> // N hN; rewrite h2 ?mem_rcons ?inE ?hN ?orbT // old.
Qed.

(** All weights of S have multiplicity one. *)
Hypothesis mf : forall M N, M \in G -> N \in G -> (forall i, sg S i M = sg S i N) -> M = N.
Lemma Jm_dl l Mc Mp : (l.+1 < size S)%N -> Mc \in G -> Mp \in G -> jel S C l Mc Mp != 0 ->
  adj (Jp S C l) *m dl Mc = jel S C l Mc Mp *: dl Mp.
Proof using v3 mf.
move=> hl hc hp nz; rewrite Jp_adj //; apply/colP => i; rewrite !mxE.
under eq_bigr => j _ do rewrite !mxE.
rewrite (dl_sum (fun M => jel S C l M (pat S i))) //.
have hi : pat S i \in G by apply: patG.
case: eqP => [->|ne]; first by rewrite mulr1.
rewrite mulr0; apply/eqP; apply: contraT => nz'; case: ne.
have [q lq st] := jel_neq0 hl nz; have [q' lq' st'] := jel_neq0 hl nz'.
apply: mf => // k; have := sg_step v3 k lq hp hc st; rewrite (sg_step v3 k lq' hi hc st').
exact: addIr.
Qed.

Variable v : 'cV[C]_(d1 * d2).
Hypothesis sysv : hwsys n.-1 (cc C) lam pW (zW C S1 S2) v.
Hypothesis v11 : dot v v = 1.
Definition inv (A : nd) (alpha : nat) (L : seq pattern) : Prop :=
  {in L, forall M, exists a w, [/\ wok n.-1 w, dl M = a *: vw (Jp S C) (dl (topM S)) w
    & colA A alpha (index M G) = a *: vw pW v w]}.
Lemma whileP fuel alpha A L : topM S \in L -> {subset L <= G} -> uniq L -> inv A alpha L ->
  (d3 <= size L + fuel)%N ->
  exists A' L', [/\ cg_while fuel S1 S2 S alpha d3 A L = Ok (A', L'), inv A' alpha L',
    [/\ {subset L' <= G}, uniq L' & size L' = d3], shape A' = shape A
    & forall idx, nth 0%N idx 0 != alpha -> get A' idx = get A idx].
Proof using v1 v2 v3 s1 s2 s3 sz sz3 mf sysv v11.
elim: fuel A L => [|fuel ih] A L tL sub uL iL hf /=; rewrite ?addn0 in hf;
  have le : (size L <= d3)%N by [apply: uniq_leq_size | apply: uniq_leq_size].
  have e : size L = d3 by apply/eqP; rewrite eqn_leq le hf.
  by rewrite e eqxx; exists A, L.
case: eqP => [e|/eqP ne]; first by exists A, L.
have [M hM nM] : exists2 M, M \in G & M \notin L.
  have [/allP h|/allPn [M h1 h2]] := boolP (all (mem L) G); last by exists M.
  by case/eqP: ne; apply/eqP; rewrite eqn_leq le uniq_leq_size // gtp_uniq.
have [Mc [Mp [l [-> [hc hp pL hl nz]]]]] := search_stateP C v3 s3 tL sub hM nM.
rewrite [rbind _ _]/= (idxME v3 hp) [rbind _ _]/=.
have cG := sub _ hc; have hl1 : (l.+1 < n)%N by rewrite -sz3.
have hl' : (l < n.-1)%N by move: hl1; clear; lia.
have [a [w [wo e1 e2]]] := iL _ hc.
set c := jel S C l Mc Mp in nz.
have c0 : 0 < c by rewrite lt_def nz jel_ge0.
have wl : wok n.-1 (l :: w) by rewrite /= wo andbT.
have eJ : c *: dl Mp = a *: vw (Jp S C) (dl (topM S)) (l :: w).
  by rewrite -Jm_dl // e1 -scalemxAr.
have eW : adj (pW l) *m colA A alpha (index Mc G) = a *: vw pW v (l :: w).
  by rewrite e2 -scalemxAr.
have nv : dot (dl (topM S)) (dl (topM S)) = dot v v by rewrite v11 dl_dot // topG.
have dW : dot (a *: vw pW v (l :: w)) (a *: vw pW v (l :: w)) = c ^+ 2.
  rewrite dotZl dotZr -(gram sysT sysv nv) // -dotZr -dotZl -eJ dotZl dotZr dl_dot // mulr1.
  by rewrite conj_Creal ?ger0_real ?ltW // expr2.
have sq : sqrtC (dot (c *: (a *: vw pW v (l :: w))) (c *: (a *: vw pW v (l :: w)))) = c ^+ 2.
  rewrite dotZl dotZr dW conj_Creal ?ger0_real ?ltW // (_ : c * _ = (c ^+ 2) ^+ 2); last by mcring.
  by rewrite sqrCK // exprn_ge0 // ltW.
have [|X [eX gX]] := @lower_cgE Mp Mc l alpha A hp cG hl1.
  by rewrite eW sq expf_neq0.
rewrite eX [rbind _ _]/=.
have [|||||A' [L' [eA iA' hL' sA gA]]] := ih (set_col A alpha (index Mp G) X) (rcons L Mp).
- by rewrite mem_rcons inE tL orbT.
- by move=> x; rewrite mem_rcons inE => /orP[/eqP ->|/sub].
- by rewrite rcons_uniq pL.
- move=> N; rewrite mem_rcons inE => /orP[/eqP ->|hN].
    exists (a / c), (l :: w); split=> //.
      by rewrite [a / c]mulrC -scalerA -eJ scalerA mulVf ?scale1r.
    rewrite colA_set eqxx; apply/colP => i; rewrite mxE gX eW -/c sq 2!scalerA [LHS]mxE [RHS]mxE; congr (_ * _).
    rewrite mulrA; exact: sq_div.
  have [a' [w' [g1 g2 g3]]] := iL _ hN; exists a', w'; split=> //; rewrite colA_set.
  case: eqP => [e|_] //; suff e' : N = Mp by rewrite -e' hN in pL.
  by rewrite -(nth_index [::] (sub _ hN)) e nth_index.
- by rewrite size_rcons; move: hf; clear; lia.
exists A', L'; split=> // idx hx.
by rewrite gA //= (negbTE hx).
Qed.
End Low.

(** What the loop leaves alone, for any weights. *)
Lemma while_ok (C : numClosedFieldType) fuel S1 S2 S3 alpha d3 (A : nd C) L A' L' :
  cg_while fuel S1 S2 S3 alpha d3 A L = Ok (A', L') ->
  [/\ size L' = d3, shape A' = shape A & forall idx, nth 0%N idx 0 != alpha -> get A' idx = get A idx].
Proof.
elim: fuel A L => [|fuel ih] A L /=; first by case: eqP => // e [<- <-].
case: eqP => [e [<- <-] //|_]; case: search_state => // -[[Mc Mp] l] /=; case: idxM => // mp /=.
case: lower_cg => // X /= /ih[h1 h2 h3]; split=> // idx hx; by rewrite h3 //= (negbTE hx).
Qed.
Lemma fold_ok (C : numClosedFieldType) f S1 S2 S3 d3 (s : nd C * seq pattern) al : size s.2 = d3 ->
  foldR (fun (s : nd C * seq pattern) alpha => cg_while f S1 S2 S3 alpha d3 s.1 s.2) s al = Ok s.
Proof.
move=> e; elim: al => //= a al ih.
have -> : cg_while f S1 S2 S3 a d3 s.1 s.2 = Ok s by case: f ih => [|f] _ /=; rewrite e eqxx; case: (s).
exact: ih.
Qed.

Section Main.
Variable C : numClosedFieldType.
Notation nd := (nd C).
Notation id_ := (fun x : nd => x).
Variables S1 S2 S : weight.
Hypothesis v1 : valid_S S1.
Hypothesis v2 : valid_S S2.
Hypothesis v3 : valid_S S.
Hypothesis s1 : 0 <= last 0 S1.
Hypothesis s2 : 0 <= last 0 S2.
Hypothesis s3 : 0 <= last 0 S.
Hypothesis sz : size S2 = size S1.
Hypothesis sz3 : size S = size S1.
Notation n := (size S1).
Notation G := (gtp (size S) S).
Notation d1 := (size (gtp (size S1) S1)).
Notation d2 := (size (gtp (size S2) S2)).
Notation d3 := (size (gtp (size S) S)).
Notation pW := (pW C S1 S2).
Notation zW := (zW C S1 S2).

(** The slice C[alpha] as a matrix. *)
Definition sliceM (alpha : nat) (R : nd) : 'M[C]_(d1 * d2, d3) :=
  \matrix_(i, j) get R [:: alpha; (i %/ d2)%N; (i %% d2)%N; j : nat].

Lemma index_top : index (topM S) G = (d3 - 1)%N.
Proof using v3. clear v1 v2 s1 s2 s3 sz sz3.
have d0 := dd0 v3; rewrite -(last_top v3) -nth_last index_uniq ?gtp_uniq ?subn1 //.
by move: d0; case: (size G).
Qed.
Definition cg_init (k : nat) (E : nd) : nd := Nd [:: k; d1; d2; d3] (fun idx =>
  if (nth 0%N idx 3 == d3 - 1)%N then get E [:: nth 0%N idx 0; nth 0%N idx 1; nth 0%N idx 2] else 0).
Lemma sun_cgE eigh eps k E : cg_eldest id_ eigh eps S1 S2 (topM S) = Ok E -> shape E = [:: k; d1; d2] ->
  sun_cg id_ eigh eps S1 S2 S =
    do r <- foldR (fun (s : nd * seq pattern) alpha => cg_while d3 S1 S2 S alpha d3 s.1 s.2)
              (cg_init k E, [:: topM S]) (iota 0 k); Ok r.1.
Proof using v1 v2 v3.
move=> eE sE; rewrite /sun_cg !dimSE //= (S_to_MsE v3) /=.
move: (last_top v3) (dd0 v3).
case eG: G => [|x l] //= lt _; by rewrite lt eE /= /len sE /cg_init eG.
Qed.
(** Every run that ends leaves the slices alpha >= 1 empty but for the eldest column. *)
Lemma tail_zero eigh eps k E R : cg_eldest id_ eigh eps S1 S2 (topM S) = Ok E -> shape E = [:: k; d1; d2] ->
  sun_cg id_ eigh eps S1 S2 S = Ok R ->
  shape R = [:: k; d1; d2; d3] /\
  forall idx, nth 0%N idx 0 != 0%N -> get R idx = get (cg_init k E) idx.
Proof using v1 v2 v3.
move=> eE sE; rewrite (sun_cgE eE sE); case: k eE sE => [|k] eE sE /=; first by case=> <-.
case e: cg_while => [[A L]|] //=; have [h1 h2 h3] := while_ok e.
by rewrite fold_ok //= => -[<-].
Qed.

Hypothesis mf : forall M N, M \in G -> N \in G -> (forall i, sg S i M = sg S i N) -> M = N.
Lemma main_mf : exists2 e0 : C, 0 < e0 & forall eigh eps, eigh_correct eigh -> 0 < eps -> eps <= e0 ->
  exists k E R, [/\ cg_eldest id_ eigh eps S1 S2 (topM S) = Ok E, shape E = [:: k; d1; d2],
    sun_cg id_ eigh eps S1 S2 S = Ok R /\ shape R = [:: k; d1; d2; d3],
    forall x : 'rV[C]_(d1 * d2), hw (topM S) x^T <-> (x <= vmat S1 S2 k E)%MS &
    (0 < k)%N -> let F := sliceM 0 R in
    [/\ adj F *m F = 1%:M,
        forall l, (l < n.-1)%N -> F *m Jp S C l = pW l *m F,
        forall l, (l < n.-1)%N -> F *m adj (Jp S C l) = adj (pW l) *m F &
        forall l, (l < n.-1)%N -> F *m (2%:R *: Jz S C l) = zW l *m F]].
Proof using v1 v2 v3 s1 s2 s3 sz sz3 mf.
have sM3 : size (topM S) = n by rewrite size_mkseq sz3.
have [e0 e00 h0] := eldestE C v1 v2 s1 s2 sz sM3; exists e0 => // eigh eps ok p0 le.
have [k [E [eE sE o1 hE]]] := h0 eigh eps ok p0 le; exists k, E.
case: (posnP k) => [k0|k0].
  exists (cg_init k E); rewrite (sun_cgE eE sE) k0 /=; split=> //; by rewrite k0 in sE hE.
pose x := row (Ordinal k0) (vmat S1 S2 k E); pose v : 'cV[C]_(d1 * d2) := x^T.
have hv : hw (topM S) v by apply/hE; apply: row_sub.
have v11 : dot v v = 1.
  have := congr1 (fun A : 'M_k => A (Ordinal k0) (Ordinal k0)) o1; rewrite [RHS]mxE eqxx -[true%:R]/(1 : C) => <-.
  by rewrite /dot !mxE; apply: eq_bigr => i _; rewrite /adj !mxE mulrC.
have sysv := sysW v1 v2 sz hv.1 (hw_z v1 v2 v3 sz sz3 hv).
have tG := topG v3.
have iv : inv S v (cg_init k E) 0 [:: topM S].
  move=> M; rewrite inE => /eqP ->; exists 1, [::]; split=> //=; rewrite scale1r //.
  by apply/colP => i; rewrite !mxE /= index_top eqxx.
have [|||A [L [eA iA [subL uL szL] sA gA]]] := whileP v1 v2 v3 s1 s2 s3 sz sz3 mf sysv v11 _ _ _ iv (leq_addl 1 d3).
- by rewrite inE.
- by move=> M; rewrite inE => /eqP ->.
- by [].
have eR : sun_cg id_ eigh eps S1 S2 S = Ok A.
  by rewrite (sun_cgE eE sE) -(prednK k0) [iota _ _]/= /foldR -/(foldR _) (prednK k0) eA /= fold_ok.
have sR : shape A = [:: k; d1; d2; d3] by rewrite sA.
exists A; split=> // _ F.
have inL (j : 'I_d3) : pat S j \in L.
  have [h1 h2] := uniq_min_size uL subL (eq_leq (esym szL)); by rewrite h2 patG.
have /fin_all_exists [a /fin_all_exists [w aw]] := fun j : 'I_d3 => iA _ (inL j).
have wo j : wok n.-1 (w j) by have [] := aw j.
have gen j : delta_mx j 0 = a j *: vw (Jp S C) (dl C S (topM S)) (w j) by rewrite dl_delta; have [] := aw j.
have FE : F = isom pW v a w.
  apply: delta_ext => j; rewrite isom_col; have [_ _ <-] := aw j.
  apply/colP => i; rewrite -colE !mxE /pat index_uniq ?gtp_uniq //.
have nv : dot (dl C S (topM S)) (dl C S (topM S)) = dot v v by rewrite v11 dl_dot.
have sT := sysT C v3 sz3.
split=> [|l hl|l hl|l hl]; rewrite FE.
- exact: (isom_orth sT sysv nv wo gen).
- exact: (isom_p sT sysv nv wo gen).
- exact: (isom_q sT sysv nv wo gen).
have [/(_ l l hl hl) e1 _ _ _] := sT; have [/(_ l l hl hl) e2 _ _ _] := sysv.
rewrite eqxx in e1 e2; rewrite -e1 -e2 mulmxBr mulmxBl !mulmxA.
rewrite (isom_p sT sysv nv wo gen) // (isom_q sT sysv nv wo gen) // -!mulmxA.
by rewrite (isom_p sT sysv nv wo gen) // (isom_q sT sysv nv wo gen).
Qed.
End Main.
