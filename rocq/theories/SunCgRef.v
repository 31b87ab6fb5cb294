(** SunCgRef: where clebsch_gordan_matrix is not equivariant. *)
From Coq Require Import ZArith String Ascii.
From Verif Require Import McRing.
From mathcomp Require Import all_ssreflect all_algebra.
From mathcomp.real_closed Require Import mxtens.
From mathcomp.zify Require Import zify.
From Verif Require Import Base Nd NdProofs Reps RepProofs Pinv IcbProofs ReducedProofs LinAlg LinAlgProofs BiProofs RtpArr.
From Verif Require Import Sun SunDet SunDim SunRow SunLadder SunMx SunTog SunLR SunTp SunCg SunHw SunCgProofs SunCgSearch SunCgLoop SunIrr.

Set Implicit Arguments.
Unset Strict Implicit.
Unset Printing Implicit Defensive.

Import GRing.Theory Num.Theory Order.Theory.
Local Open Scope ring_scope.

Section Ref.
Variable C : numClosedFieldType.
Notation nd := (nd C).
Notation id_ := (fun x : nd => x).
Variables S1 S2 S : weight.
Hypothesis v1 : valid_S S1.
Hypothesis v2 : valid_S S2.
Hypothesis v3 : valid_S S.
Hypothesis s1 : 0 <= last 0 S1.
Hypothesis s2 : 0 <= last 0 S2.
Hypothesis s3 : 0 <= last 0 S.
Hypothesis sz : size S2 = size S1.
Hypothesis sz3 : size S = size S1.
Notation n := (size S1).
Notation G := (gtp (size S) S).
Notation d1 := (size (gtp (size S1) S1)).
Notation d2 := (size (gtp (size S2) S2)).
Notation d3 := (size (gtp (size S) S)).
Notation pW := (pW C S1 S2).

Lemma slice_dl alpha R M : M \in G -> sliceM S1 S2 S alpha R *m dl C S M = colA S1 S2 R alpha (index M G).
Proof using.
move=> hM; apply/colP => i; rewrite !mxE; have hi : (index M G < d3)%N by rewrite index_mem.
rewrite (bigD1 (Ordinal hi)) //= big1 => [|j ne]; rewrite !mxE /pat ?nth_index //.
  by rewrite eqxx mulr1 addr0.
case: eqP => [e|_]; last by rewrite mulr0.
by case/eqP: ne; apply: val_inj; rewrite /= -e index_uniq ?gtp_uniq.
Qed.

Variables (eigh : nd -> res (nd * nd)) (eps : C) (k : nat) (E R : nd).
Hypothesis eE : cg_eldest id_ eigh eps S1 S2 (topM S) = Ok E.
Hypothesis sE : shape E = [:: k; d1; d2].
Hypothesis nzE : forall alpha, (alpha < k)%N -> colA S1 S2 (cg_init S1 S2 S k E) alpha (d3 - 1) != 0.
Hypothesis eR : sun_cg id_ eigh eps S1 S2 S = Ok R.

(** A pattern that every step up shares with another pattern. *)
Definition shared (M : pattern) : Prop := forall l Mc, (l.+1 < n)%N -> Mc \in G -> jel S C l Mc M != 0 ->
  exists2 N, N \in G & N <> M /\ jel S C l Mc N != 0.
Lemma shared_refuted M : (0 < k)%N -> M \in G -> M <> topM S -> shared M ->
  ~ ((forall l, (l < n.-1)%N -> sliceM S1 S2 S 0 R *m Jp S C l = pW l *m sliceM S1 S2 S 0 R) /\
     (forall l, (l < n.-1)%N -> sliceM S1 S2 S 0 R *m adj (Jp S C l) = adj (pW l) *m sliceM S1 S2 S 0 R)).
Proof using v1 v2 v3 s1 s2 s3 sz sz3 eE sE nzE eR.
move=> k0 hM nt sh [hp hm]; have tG := topG v3.
move: eR; rewrite (sun_cgE v1 v2 v3 eE sE) -(prednK k0) [iota _ _]/= /foldR -/(foldR _) (prednK k0).
case e: cg_while => [[A L]|] //=; have [h1 _ _] := while_ok e; rewrite fold_ok //= => -[eA].
rewrite {}eA in e.
have [||||[cL sub uL szL] hc] := while_chain v1 v2 v3 s1 s2 s3 sz sz3 _ _ _ _ e.
- by rewrite inE.
- by move=> N; rewrite inE => /eqP ->.
- by [].
- by move=> N; rewrite inE => /eqP ->; left.
have inL : L =i G by have [_ h] := uniq_min_size uL sub (eq_leq (esym szL)).
set F := sliceM _ _ _ _ _ in hp hm.
have Ft : F *m dl C S (topM S) != 0.
  by rewrite slice_dl // hc ?inE // index_top // nzE.
have inj := @intertwiner_inj C S v3 _ F pW _ Ft.
have hF : forall l : nat, (l.+1 < size S)%N -> F *m Jp S C l = pW l *m F by move=> l hl; apply: hp; lia.
case: (cL M); first by rewrite inL.
  by [].
move=> [Mc [l [t [_ cG hl nz eM]]]].
have : F *m (dl C S M - t *: (adj (Jp S C l) *m dl C S Mc)) = 0.
  rewrite mulmxBr -scalemxAr mulmxA hm -?mulmxA ?slice_dl // ?eM ?subrr //; lia.
move=> /(inj hF) /eqP; rewrite subr_eq0 => /eqP e1.
have val N : N \in G -> (M == N)%:R = t * jel S C l Mc N.
  move=> hN; have [j ej _] := xfE (dl C S M) hN; have := congr1 (fun z : 'cV_d3 => z j 0) e1.
  rewrite /= mxE ej [N == M]eq_sym => ->; rewrite mxE; congr (_ * _).
  have hl3 : (l.+1 < size S)%N by rewrite sz3.
  rewrite Jp_adj // !mxE; under eq_bigr => i _ do rewrite !mxE.
  by rewrite (dl_sum (fun T => jel S C l T (pat S j))) // ej.
have [N hN [NM nzN]] := sh l Mc hl cG nz.
have := val N hN; case: eqP => [e2|_]; first by case: NM.
move=> /esym/eqP; rewrite mulf_eq0 (negbTE nzN) orbF => /eqP t0.
by have := val M hM; rewrite eqxx t0 mul0r => /eqP; rewrite oner_eq0.
Qed.

(** The slices alpha >= 1. *)
Lemma tail_refuted alpha : (0 < alpha)%N -> (alpha < k)%N -> (1 < d3)%N ->
  ~ (forall l, (l < n.-1)%N -> sliceM S1 S2 S alpha R *m Jp S C l = pW l *m sliceM S1 S2 S alpha R).
Proof using v1 v2 v3 s1 s2 s3 sz sz3 eE sE nzE eR.
move=> a0 ak dd hp; have tG := topG v3; have [_ gR] := tail_zero v1 v2 v3 eE sE eR.
have [M hM nM] : exists2 M, M \in G & M <> topM S.
  have i0 : (0 < d3)%N by lia.
  exists (pat S 0); first exact: patG.
  move=> e; have := index_top v3; rewrite -e /pat index_uniq ?gtp_uniq //; lia.
have [|| |Mc [Mp [l [h1 h2 h3 h4 [hl nz]]]]] := @crossing S v3 C [:: topM S] M; rewrite ?inE //; first exact/eqP.
move: h1 h4; rewrite !inE => /eqP eMc /eqP nMp; rewrite eMc in nz.
set F := sliceM _ _ _ _ _ in hp.
have ht : (d3 - 1 < d3)%N by rewrite subn1 ltn_predL dd0.
have FE i j : F i j = if (j == d3 - 1 :> nat)%N then colA S1 S2 (cg_init S1 S2 S k E) alpha (d3 - 1) i 0 else 0.
  rewrite !mxE gR /=; last by rewrite -lt0n.
  by rewrite eqxx; case: eqP.
have F0 : F *m dl C S Mp = 0.
  apply/colP => i; rewrite !mxE big1 // => j _; rewrite FE; case: eqP => [e|_]; last by rewrite mul0r.
  rewrite [dl _ _ _ _ _]mxE; case: eqP => [e'|_]; last by rewrite mulr0.
  by case: nMp; rewrite -e' e -(index_top v3) /pat nth_index.
have hl' : (l < n.-1)%N by rewrite -sz3; move: hl; clear; case: (size S) => // m; rewrite ltnS.
case/eqP: (nzE ak); apply/colP => i; rewrite [RHS]mxE; apply/eqP.
have := congr1 (fun z : 'cV_(d1 * d2) => z i 0) (congr1 (fun A => A *m dl C S Mp) (hp l hl')).
rewrite /= -[pW l *m F *m _]mulmxA F0 mulmx0 -mulmxA [RHS]mxE mxE (bigD1 (Ordinal ht)) //= big1 => [|j ne]; last first.
  rewrite FE; case: eqP => [e|_]; last by rewrite mul0r.
  by case/eqP: ne; apply: val_inj.
rewrite addr0 FE eqxx [(_ *m _) _ _]mxE; under eq_bigr => j _ do rewrite !mxE.
rewrite (dl_sum (fun T => jel S C l (pat S (d3 - 1)) T)) // -(index_top v3) /pat nth_index //.
by move=> /eqP; rewrite mulf_eq0 (negbTE nz) orbF index_top.
Qed.
End Ref.

Lemma eldest_nz (C : numClosedFieldType) S1 S2 S k (E : nd C) : valid_S S ->
  vmat S1 S2 k E *m adj (vmat S1 S2 k E) = 1%:M ->
  forall alpha, (alpha < k)%N -> colA S1 S2 (cg_init S1 S2 S k E) alpha (size (gtp (size S) S) - 1) != 0.
Proof.
move=> v o1 al hal; apply/eqP => e0.
have r0 : row (Ordinal hal) (vmat S1 S2 k E) = 0.
  apply/rowP => i; have := congr1 (fun z : 'cV_(_ * _) => z i 0) e0; rewrite /= !mxE /= eqxx //.
have := congr1 (row (Ordinal hal)) o1; rewrite row_mul r0 mul0mx => /rowP/(_ (Ordinal hal)).
by rewrite !mxE eqxx => /esym/eqP; rewrite oner_eq0.
Qed.

(** The sum of the highest weights: the product of the highest vectors. *)
Section Cartan.
Variable C : numClosedFieldType.
Notation nd := (nd C).
Notation id_ := (fun x : nd => x).
Variables S1 S2 S : weight.
Hypothesis v1 : valid_S S1.
Hypothesis v2 : valid_S S2.
Hypothesis v3 : valid_S S.
Hypothesis sz : size S2 = size S1.
Hypothesis sz3 : size S = size S1.
Hypothesis add : forall j, S`_j = S1`_j + S2`_j.
Notation n := (size S1).
Notation d1 := (size (gtp (size S1) S1)).
Notation d2 := (size (gtp (size S2) S2)).
Definition tt : 'cV[C]_(d1 * d2) := dl C S1 (topM S1) *t dl C S2 (topM S2).
Lemma ttE i : tt i 0 = (pat S1 (i %/ d2) == topM S1)%:R * (pat S2 (i %% d2) == topM S2)%:R.
Proof using. by rewrite /tt !mxE. Qed.
Lemma tt_neq0 : tt != 0.
Proof using v1 v2.
have h1 : (index (topM S1) (gtp n S1) < d1)%N by rewrite index_mem topG.
have h2 : (index (topM S2) (gtp (size S2) S2) < d2)%N by rewrite index_mem topG.
apply/eqP => /colP/(_ (mxtens_index (Ordinal h1, Ordinal h2))); rewrite ttE mxE /= divnMDl ?dd0 // modnMDl.
rewrite divn_small // modn_small // addn0 /pat !nth_index ?topG // !eqxx mulr1 => /eqP.
by rewrite oner_eq0.
Qed.
Lemma sg_top i : (i <= n)%N -> sg S i (topM S) = sg S1 i (topM S1) + sg S2 i (topM S2).
Proof using sz sz3 add. clear v1 v2 v3.
move=> hi; rewrite /sg sz sz3 -big_split /=; apply: eq_bigr => j _.
have hj := ltn_ord j; rewrite !topM_ent ?sz ?sz3 ?add //; lia.
Qed.
Lemma tt_hw : hw (topM S) tt.
Proof using v1 v2 v3 sz sz3 add.
split=> [l hl|i].
  have e (A : 'M[C]_d1) (B : 'M[C]_d2) : (A *t B) *m tt = (A *m dl C S1 (topM S1)) *t (B *m dl C S2 (topM S2)).
    exact: (@tensmx_mul _ _ _ _ _ 1 1).
  have z1 (B : 'cV[C]_d2) : (0 : 'cV[C]_d1) *t B = 0 by apply: tens0mx.
  have z2 (B : 'cV[C]_d1) : B *t (0 : 'cV[C]_d2) = 0 by apply: tensmx0.
  by rewrite /pW /tensX mulmxDl !e !mul1mx !Jp_top ?sz // ?z1 ?z2 ?addr0 //; lia.
rewrite ttE; have [h1 h2] := ltn_div v2 (ltn_ord i).
case: eqP => [e1|_]; last by rewrite mul0r.
case: eqP => [e2|_]; last by rewrite mulr0.
rewrite /zbad e1 e2; suff -> : [seq p.1 + p.2 | p <- zip (M_to_z_weight C (topM S1)) (M_to_z_weight C (topM S2))]
  = M_to_z_weight C (topM S) by rewrite eqxx.
have z1 := size_z C v1 (topG v1); have z2 := size_z C v2 (topG v2); have z3 := size_z C v3 (topG v3).
have ss : size [seq p.1 + p.2 | p <- zip (M_to_z_weight C (topM S1)) (M_to_z_weight C (topM S2))] = n.-1.
  by rewrite size_map size_zip z1 z2 sz minnn.
apply: (@eq_from_nth _ 0); first by rewrite ss z3 sz3.
rewrite ss => l hl; have hl2 : (l < (size S2).-1)%N by rewrite sz.
have hl3 : (l < (size S).-1)%N by rewrite sz3.
rewrite (nth_map (0, 0)); last by rewrite size_zip z1 z2 sz minnn.
rewrite nth_zip ?z1 ?z2 ?sz //= (z_weightE C v1 (topG v1) hl) (z_weightE C v2 (topG v2) hl2) (z_weightE C v3 (topG v3) hl3).
rewrite -mulrDl -rmorphD; congr (_%:~R / _); rewrite /wz !sg_top; try by lia.
Qed.
Lemma eldest_pos (k : nat) (E : nd) : (forall x : 'rV[C]_(d1 * d2), hw (topM S) x^T <-> (x <= vmat S1 S2 k E)%MS) -> (0 < k)%N.
Proof using v1 v2 v3 sz sz3 add.
move=> h; case: k h => // h; have := (h tt^T).1; rewrite trmxK => /(_ tt_hw).
move=> /submxP[D e]; have := tt_neq0; rewrite -[tt]trmxK e (flatmx0 (vmat _ _ _ _)) mulmx0 trmx0.
by rewrite eqxx.
Qed.
End Cartan.
