(** SunCgProofs: the arrays of SunCg.v as matrices. *)
From Coq Require Import ZArith String Ascii.
From Verif Require Import McRing.
From mathcomp Require Import all_ssreflect all_algebra.
From mathcomp.real_closed Require Import mxtens.
From mathcomp.zify Require Import zify.
From Verif Require Import Base Nd NdProofs Reps RepProofs Pinv IcbProofs ReducedProofs LinAlg LinAlgProofs BiProofs RtpArr.
From Verif Require Import Sun SunDet SunDim SunRow SunLadder SunMx SunCg SunHw.

Set Implicit Arguments.
Unset Strict Implicit.
Unset Printing Implicit Defensive.

Import GRing.Theory Num.Theory Order.Theory.
Local Open Scope ring_scope.

Section P.
Variable C : numClosedFieldType.
Notation nd := (nd C).
Notation id_ := (fun x : nd => x).

Lemma tabRE sh (f : seq nat -> res C) (g : seq nat -> C) :
  (forall idx, valid sh idx -> f idx = Ok (g idx)) ->
  exists r, [/\ tabR sh f = Ok r, shape r = sh & forall idx, valid sh idx -> get r idx = g idx].
Proof.
move=> h; rewrite /tabR (@mapR_ok_in _ _ _ g) => [|idx]; last by rewrite mem_all_idx; apply: h.
eexists; split; [reflexivity | by [] |] => idx v /=.
rewrite /all_idx -map_comp (nth_map 0%N) ?size_iota ?ravel_lt // nth_iota ?ravel_lt //= add0n ravelK //.
Qed.

(** One weight. *)
Section One.
Variable S : weight.
Hypothesis vS : valid_S S.
Hypothesis S0 : 0 <= last 0 S.
Notation dd := (size (gtp (size S) S)).
Lemma dd0 : (0 < dd)%N. Proof using vS. clear S0. exact: gtp_gt0. Qed.
Lemma patME i : (i < dd)%N -> patM S i = Ok (pat S i).
Proof using vS. by move=> h; rewrite /patM index_to_ME. Qed.
Lemma idxME M : M \in gtp (size S) S -> idxM M = Ok (index M (gtp (size S) S)).
Proof using vS. by move=> h; rewrite /idxM (M_to_indexE vS). Qed.
Lemma jel_ge0 l N M : (l.+1 < size S)%N -> M \in gtp (size S) S -> N \in gtp (size S) S -> 0 <= jel S C l N M.
Proof using vS. clear S0.
move=> hl hM hN; apply: sumr_ge0 => q st; rewrite sqrtC_ge0; apply: (@uA_ge0 _ vS C l q M N) => //.
Qed.
Lemma Jp_adj l : (l.+1 < size S)%N -> adj (Jp S C l) = (Jp S C l)^T.
Proof using vS. clear S0.
move=> hl; apply/matrixP => i j; rewrite !mxE conj_Creal // ger0_real // jel_ge0 // patG //.
Qed.
End One.

Section Two.
Variables S1 S2 : weight.
Hypothesis v1 : valid_S S1.
Hypothesis v2 : valid_S S2.
Hypothesis s1 : 0 <= last 0 S1.
Hypothesis s2 : 0 <= last 0 S2.
Hypothesis sz : size S2 = size S1.
Notation n := (size S1).
Notation d1 := (size (gtp (size S1) S1)).
Notation d2 := (size (gtp (size S2) S2)).

(** The action on the tensor product. *)
Definition pW (l : nat) : 'M[C]_(d1 * d2) := tensX (Jp S1 C l) (Jp S2 C l).
Definition zW (l : nat) : 'M[C]_(d1 * d2) := 2%:R *: tensX (Jz S1 C l) (Jz S2 C l).
Definition zsum (l : nat) (i : nat) : int := wz S1 l (pat S1 (i %/ d2)) + wz S2 l (pat S2 (i %% d2)).
Lemma un_eq (i j : 'I_(d1 * d2)) : (i == j) =
  ((mxtens_unindex i).1 == (mxtens_unindex j).1) && ((mxtens_unindex i).2 == (mxtens_unindex j).2).
Proof using. by rewrite -(can_eq (@mxtens_unindexK d1 d2)); case: (mxtens_unindex i); case: (mxtens_unindex j). Qed.
Lemma zWE l i j : zW l i j = (zsum l i)%:~R *+ (i == j).
Proof using.
rewrite un_eq !mxE /=; set a := _ == _; set b := _ == _; rewrite /zsum.
have h : 2%:R != 0 :> C by rewrite pnatr_eq0.
case: a; case: b; rewrite ?mulr1n ?mulr0n ?(mulr0, mul0r, mulr1, mul1r, addr0, add0r) //.
by rewrite -mulrDl mulrC divfK // -rmorphD.
Qed.
Lemma pW_adjE l : (l.+1 < n)%N -> adj (pW l) = tensX (Jp S1 C l)^T (Jp S2 C l)^T.
Proof using v1 v2 sz. by move=> hl; rewrite /pW /tensX adjD !adj_tens !adj1 !Jp_adj ?sz. Qed.
Lemma tensX0 m1 m2 : tensX (0 : 'M[C]_m1) (0 : 'M[C]_m2) = 0.
Proof using. by rewrite /tensX tens0mx tensmx0 addr0. Qed.
Lemma tensXZ m1 m2 a (A : 'M[C]_m1) (B : 'M[C]_m2) : tensX (a *: A) (a *: B) = a *: tensX A B.
Proof using. by rewrite /tensX tensZl tensZr scalerDr. Qed.

(** c l k of the ladder systems. *)
Definition cc (l k : nat) : C := (cartan l k)%:~R.
Lemma JzJm S l l' : valid_S S -> (l'.+1 < size S)%N ->
  Jz S C l *m (Jp S C l')^T - (Jp S C l')^T *m Jz S C l = - ((cc l l' / 2%:R) *: (Jp S C l')^T).
Proof using.
move=> v hl; rewrite -[Jz S C l]Jz_tr -!trmx_mul -linearB /= -[Jp S C l' *m _ - _]opprB JzJp //.
by rewrite linearN linearZ.
Qed.
Lemma two0 : 2%:R != 0 :> C. Proof using. by rewrite pnatr_eq0. Qed.
Lemma sysW lam (v : 'cV[C]_(d1 * d2)) :
  (forall l, (l < n.-1)%N -> pW l *m v = 0) -> (forall l, (l < n.-1)%N -> zW l *m v = lam l *: v) ->
  hwsys n.-1 cc lam pW zW v.
Proof using v1 v2 sz. clear s1 s2.
have ln l : (l < n.-1)%N -> (l.+1 < n)%N by lia.
move=> h3 h4; split=> // l k hl hk; rewrite pW_adjE ?ln //.
  rewrite /pW comm_tensX !JpJm ?sz ?ln //; case: eqP => _; last exact: tensX0.
  by rewrite tensXZ.
rewrite /zW -scalemxAl -scalemxAr -scalerBr comm_tensX !JzJm ?sz ?ln //.
rewrite /tensX tensNl tensNr -opprD -/(tensX _ _) tensXZ -scaleNr scalerA mulrN mulrC divfK //.
exact: two0.
Qed.
Lemma sysV S lam (v : 'cV[C]_(size (gtp (size S) S))) : valid_S S ->
  (forall l, (l < (size S).-1)%N -> Jp S C l *m v = 0) ->
  (forall l, (l < (size S).-1)%N -> (2%:R *: Jz S C l) *m v = lam l *: v) ->
  hwsys (size S).-1 cc lam (Jp S C) (fun l => 2%:R *: Jz S C l) v.
Proof using. clear s1 s2 sz v1 v2.
have ln l : (l < (size S).-1)%N -> (l.+1 < size S)%N by lia.
move=> v0 h3 h4; split=> // l k hl hk; rewrite Jp_adj ?ln //; first by rewrite JpJm ?ln.
rewrite -scalemxAl -scalemxAr -scalerBr JzJm ?ln // scalerN scalerA mulrC divfK ?two0 //.
by rewrite scaleNr.
Qed.

(** construct_highest_weight_constraint. *)
Section Constraint.
Variable M3 : pattern.
Hypothesis sM3 : size M3 = n.
Definition zbad (i : nat) : bool :=
  [seq p.1 + p.2 | p <- zip (M_to_z_weight C (pat S1 (i %/ d2))) (M_to_z_weight C (pat S2 (i %% d2)))]
    != M_to_z_weight C M3.
Definition eA (l n1 n2 m1 m2 : nat) : C :=
  (if n2 == m2 then jel S1 C l (pat S1 n1) (pat S1 m1) else 0) +
  (if n1 == m1 then jel S2 C l (pat S2 n2) (pat S2 m2) else 0).
Lemma ltn_div i : (i < d1 * d2)%N -> (i %/ d2 < d1)%N /\ (i %% d2 < d2)%N.
Proof using v2. by move=> h; rewrite ltn_divLR ?ltn_pmod // dd0. Qed.
Lemma pWE l (i j : 'I_(d1 * d2)) : pW l i j = eA l (i %/ d2) (i %% d2) (j %/ d2) (j %% d2).
Proof using.
rewrite /pW /tensX !mxE /eA -!val_eqE /=; congr (_ + _); case: eqP => _; rewrite ?mulr1 ?mulr0 ?mul1r ?mul0r //.
Qed.
Lemma hwc_AE : exists A, [/\ hwc_A C S1 S2 n d1 d2 = Ok A, shape A = [:: d1; d2; d1; d2; (n - 1)%N] &
  forall m1 m2 n1 n2 l, valid [:: d1; d2; d1; d2; (n - 1)%N] [:: m1; m2; n1; n2; l] ->
  get A [:: m1; m2; n1; n2; l] = eA l n1 n2 m1 m2].
Proof using v1 v2 s1 s2 sz. clear sM3.
rewrite /hwc_A; set f := (fun idx : seq nat => _ : res C).
have [|A [eA' sA gA]] := @tabRE [:: d1; d2; d1; d2; (n - 1)%N] f
  (fun idx => eA (nth 0%N idx 4) (nth 0%N idx 2) (nth 0%N idx 3) (nth 0%N idx 0) (nth 0%N idx 1)).
  move=> [|m1 [|m2 [|n1 [|n2 [|l [|? ?]]]]]] //; rewrite !valid_cons /f /= => /and5P[h1 h2 h3 h4 /andP[h5 _]].
  have hl : (l.+1 < n)%N by lia.
  rewrite !(patME v1) // !(patME v2) // /eA.
  have u1 := upper_ladderE v1 s1 C hl (patG h1) (patG h3).
  have hl2 : (l.+1 < size S2)%N by rewrite sz.
  have u2 := upper_ladderE v2 s2 C hl2 (patG h2) (patG h4).
  by case: eqP => _; case: eqP => _ /=; rewrite ?u1 ?u2 /= ?add0r ?addr0.
by exists A; split=> // m1 m2 n1 n2 l h; rewrite gA.
Qed.
Lemma pr0 : (d1 * d2 != 0)%N.
Proof using v1 v2. by rewrite -lt0n muln_gt0 !dd0. Qed.
Lemma hwc_A2E : exists A A2, [/\ hwc_A C S1 S2 n d1 d2 = Ok A, Sun.reshape_last A [:: d1; d2] = Ok A2,
  shape A2 = [:: d1; d2; (d1 * (d2 * (n - 1)))%N] &
  forall m1 m2 n1 n2 l, valid [:: d1; d2; d1; d2; (n - 1)%N] [:: m1; m2; n1; n2; l] ->
  get A2 [:: m1; m2; ravel [:: d1; d2; (n - 1)%N] [:: n1; n2; l]] = eA l n1 n2 m1 m2].
Proof using v1 v2 s1 s2 sz. clear sM3.
have [A [eA' sA gA]] := hwc_AE; exists A.
have kE : (nprod (shape A) %/ nprod [:: d1; d2] = d1 * (d2 * (n - 1)))%N.
  rewrite sA /= !muln1 -[X in (X %/ _)%N]/(d1 * (d2 * (d1 * (d2 * (n - 1)))))%N [X in (X %/ _)%N]mulnA mulKn //.
  by rewrite lt0n pr0.
rewrite /Sun.reshape_last kE (_ : (nprod [:: d1; d2] == 0)%N = false); last first.
  by rewrite /= muln1 (negbTE pr0).
have [|A2 e2 sh2] := @reshape_ok C A [:: d1; d2; (d1 * (d2 * (n - 1)))%N].
  by rewrite sA /= !muln1.
exists A2; split=> // m1 m2 n1 n2 l h; rewrite -gA //.
apply: (reshape_eq e2); first by rewrite sA.
by rewrite sA /= !muln1 !addn0.
Qed.
Lemma hwc_BE : hwc_B C S1 S2 M3 d1 d2 = Ok [seq m <- [seq (m1, m2) | m1 <- iota 0 d1, m2 <- iota 0 d2]
  | zbad (m.1 * d2 + m.2)].
Proof using v1 v2. clear sM3 s1 s2 sz.
rewrite /hwc_B (@mapR_ok_in _ _ _ (fun m : nat * nat => (m, zbad (m.1 * d2 + m.2)))) /=.
  by rewrite filter_map -map_comp map_id_in.
case=> m1 m2 /allpairsP[[a b] [/= ha hb [-> ->]]]; rewrite !mem_iota in ha hb.
rewrite (patME v1) // (patME v2) //= /zbad divnMDl ?dd0 // modnMDl divn_small // modn_small // addn0 //.
Qed.
Lemma hwcE : exists K r, [/\ highest_weight_constraint id_ S1 S2 M3 = Ok r, shape r = [:: K; (d1 * d2)%N] &
  forall x : 'cV[C]_(d1 * d2), mx2 K (d1 * d2) r *m x = 0 <->
    (forall l, (l < n.-1)%N -> pW l *m x = 0) /\ (forall i : 'I_(d1 * d2), zbad i -> x i 0 = 0)].
Proof using v1 v2 s1 s2 sz sM3.
have [A [A2 [e1 e2 sh2 g2]]] := hwc_A2E; rewrite /highest_weight_constraint !dimSE //= sM3 e1 /= e2 /= hwc_BE /=.
set B := [seq m <- _ | _].
set k := (d1 * (d2 * (n - 1)))%N in sh2.
have sc : shape (hwc_cat d1 d2 A2 B) = [:: d1; d2; (k + size B)%N] by rewrite /hwc_cat sh2.
have kE : (nprod (shape (hwc_cat d1 d2 A2 B)) %/ nprod [:: (d1 * d2)%N] = k + size B)%N.
  by rewrite sc /= !muln1 mulnA mulKn // lt0n pr0.
rewrite /Sun.reshape_last kE (_ : (nprod [:: (d1 * d2)%N] == 0)%N = false); last first.
  by rewrite /= muln1 (negbTE pr0).
have [|r er sr] := @reshape_ok C (hwc_cat d1 d2 A2 B) [:: (d1 * d2)%N; (k + size B)%N].
  by rewrite sc /= !muln1 mulnA.
rewrite er /=; exists (k + size B)%N; eexists; split; [reflexivity | by rewrite /= sr |].
have gr y i : (y < k + size B)%N -> (i < d1 * d2)%N -> get r [:: i; y] = get (hwc_cat d1 d2 A2 B) [:: (i %/ d2)%N; (i %% d2)%N; y].
  move=> hy hi; have [h1 h2] := ltn_div hi.
  apply: (reshape_eq er); rewrite sc ?valid_cons /= ?h1 ?h2 ?hy //.
  by rewrite !muln1 !addn0 addnA [(_ %/ _ * (_ * _))%N]mulnA -mulnDl -divn_eq.
move=> x.
have rowA n1 n2 l : (n1 < d1)%N -> (n2 < d2)%N -> (l < n - 1)%N -> forall hy hi,
    (mx2 (k + size B) (d1 * d2) (transpose2 r) *m x) (@Ordinal (k + size B) (ravel [:: d1; d2; (n - 1)%N] [:: n1; n2; l]) hy) 0
    = (pW l *m x) (@Ordinal (d1 * d2) (n1 * d2 + n2) hi) 0.
  move=> h1 h2 h3 hy hi; rewrite !mxE; apply: eq_bigr => j _; congr (_ * _).
  have [j1 j2] := ltn_div (ltn_ord j).
  have v5 : valid [:: d1; d2; d1; d2; (n - 1)%N] [:: (j %/ d2)%N; (j %% d2)%N; n1; n2; l].
    by rewrite !valid_cons j1 j2 h1 h2 h3.
  have yk : (ravel [:: d1; d2; (n - 1)%N] [:: n1; n2; l] < k)%N.
    have : valid [:: d1; d2; (n - 1)%N] [:: n1; n2; l] by rewrite !valid_cons h1 h2 h3.
    by move/ravel_lt; rewrite /= !muln1.
  rewrite pWE !mxE /= gr // {1}/hwc_cat sh2 [get _ _]/= -[X in (X < _)%N]/(ravel [:: d1; d2; (n - 1)%N] [:: n1; n2; l]) yk.
  rewrite (g2 _ _ _ _ _ v5) /=.
  have -> : ((n1 * d2 + n2) %/ d2 = n1)%N by rewrite divnMDl ?dd0 // divn_small // addn0.
  by have -> : ((n1 * d2 + n2) %% d2 = n2)%N by rewrite modnMDl modn_small.
have rowB t (hy : (k + t < k + size B)%N) : (t < size B)%N -> exists2 i : 'I_(d1 * d2), 
    ((i %/ d2)%N, (i %% d2)%N) = nth (0%N, 0%N) B t &
    (mx2 (k + size B) (d1 * d2) (transpose2 r) *m x) (Ordinal hy) 0 = x i 0.
  move=> ht; have := mem_nth (0%N, 0%N) ht; rewrite mem_filter => /andP[_ /allpairsP[[m1 m2] [/= h1 h2 e]]].
  rewrite !mem_iota !add0n in h1 h2.
  have hi : (m1 * d2 + m2 < d1 * d2)%N by nia.
  have dE : ((m1 * d2 + m2) %/ d2 = m1)%N by rewrite divnMDl ?dd0 // divn_small // addn0.
  have mE : ((m1 * d2 + m2) %% d2 = m2)%N by rewrite modnMDl modn_small.
  exists (Ordinal hi); first by rewrite /= dE mE e.
  rewrite !mxE (bigD1 (Ordinal hi)) //= big1 ?addr0 => [|j ne]; rewrite !mxE /= gr // /hwc_cat sh2 /=.
    by rewrite ltnNge leq_addr /= addKn e dE mE eqxx mul1r.
  rewrite ltnNge leq_addr /= addKn e; case: eqP => [[e1' e2']|_]; last by rewrite mul0r.
  by case/eqP: ne; apply/val_inj; rewrite /= (divn_eq j d2) e1' e2'.
split=> [h|[hA hB]].
  split=> [l hl|i bi].
    have hl' : (l < n - 1)%N by rewrite subn1.
    apply/colP => i; rewrite [RHS]mxE; have [h1 h2] := ltn_div (ltn_ord i).
    have yk : (ravel [:: d1; d2; (n - 1)%N] [:: (i %/ d2)%N; (i %% d2)%N; l] < k + size B)%N.
      apply: (@leq_trans k); last exact: leq_addr.
      have : valid [:: d1; d2; (n - 1)%N] [:: (i %/ d2)%N; (i %% d2)%N; l] by rewrite !valid_cons h1 h2 hl'.
      by move/ravel_lt; rewrite /= !muln1.
    have hi : (i %/ d2 * d2 + i %% d2 < d1 * d2)%N by rewrite -divn_eq.
    have := rowA _ _ _ h1 h2 hl' yk hi; rewrite h mxE => ->; congr ((_ *m x) _ 0).
    by apply: val_inj; rewrite /= -divn_eq.
  have [h1 h2] := ltn_div (ltn_ord i).
  have iB : ((i %/ d2)%N, (i %% d2)%N) \in B.
    rewrite mem_filter /= -divn_eq bi; apply/allpairsP; exists ((i %/ d2)%N, (i %% d2)%N).
    by rewrite /= !mem_iota h1 h2.
  have ht : (index ((i %/ d2)%N, (i %% d2)%N) B < size B)%N by rewrite index_mem.
  have hy : (k + index ((i %/ d2)%N, (i %% d2)%N) B < k + size B)%N by rewrite ltn_add2l.
  have [j] := rowB _ hy ht; rewrite nth_index // => -[e1' e2']; rewrite h mxE => /esym.
  by rewrite (_ : j = i) //; apply: val_inj; rewrite /= (divn_eq j d2) e1' e2' -divn_eq.
apply/colP => -[y hy]; rewrite [RHS]mxE; have [yk|yk] := ltnP y k.
  have yn : (y < nprod [:: d1; d2; (n - 1)%N])%N by rewrite /= !muln1.
  have := unravel_valid yn; have := unravelK yn.
  case: (unravel _ y) => [|n1 [|n2 [|l [|? ?]]]] // yE; rewrite !valid_cons => /and4P[h1 h2 h3 _].
  have hi : (n1 * d2 + n2 < d1 * d2)%N by nia.
  move: hy; rewrite -yE => hy; rewrite (rowA _ _ _ h1 h2 h3 hy hi) hA ?mxE //; lia.
have ye : (k + (y - k) = y)%N by rewrite subnKC.
have hy' : (k + (y - k) < k + size B)%N by rewrite ye.
have ht : (y - k < size B)%N by rewrite -(ltn_add2l k).
have [i ei] := rowB _ hy' ht.
rewrite (_ : Ordinal hy' = Ordinal hy); last by apply: val_inj.
move=> ->; apply: hB; have := mem_nth (0%N, 0%N) ht; rewrite -ei mem_filter => /andP[] /=.
by rewrite -divn_eq.
Qed.

(** clebsch_gordan_eldest. *)
Definition hw (x : 'cV[C]_(d1 * d2)) : Prop :=
  (forall l, (l < n.-1)%N -> pW l *m x = 0) /\ (forall i : 'I_(d1 * d2), zbad i -> x i 0 = 0).
Definition vmat (k : nat) (E : nd) : 'M[C]_(k, d1 * d2) :=
  \matrix_(a, i) get E [:: a : nat; (i %/ d2)%N; (i %% d2)%N].
Definition Rv (m : nat) : 'M[C]_m := \matrix_(i, j) (i == rev_ord j)%:R.
Lemma Rv2 m : Rv m *m Rv m = 1%:M.
Proof using.
apply/matrixP => i j; rewrite !mxE (bigD1 (rev_ord i)) //= big1 ?addr0 => [|k ne]; rewrite !mxE.
  by rewrite rev_ordK eqxx mul1r (inj_eq rev_ord_inj).
by rewrite (_ : (i == _) = false) ?mul0r //; apply/negP => /eqP e; case/eqP: ne; rewrite e rev_ordK.
Qed.
Lemma Rv_tr m : (Rv m)^T = Rv m.
Proof using.
apply/matrixP => i j; rewrite !mxE; congr (_%:R); congr nat_of_bool.
by apply/eqP/eqP => ->; rewrite rev_ordK.
Qed.
Lemma Rv_adj m : adj (Rv m) = Rv m.
Proof using. by rewrite /adj Rv_tr; apply/matrixP => i j; rewrite !mxE conjC_nat. Qed.
Lemma flip1E p q (a : nd) : shape a = [:: p; q] -> mx2 p q (flip1 a) = mx2 p q a *m Rv q.
Proof using.
move=> sa; apply/matrixP => i j; rewrite !mxE (bigD1 (rev_ord j)) //= big1 ?addr0 => [|k ne]; rewrite !mxE.
  by rewrite eqxx mulr1 sa.
by rewrite (negbTE ne) mulr0.
Qed.
Lemma eldestE : exists2 e0 : C, 0 < e0 & forall eigh eps, eigh_correct eigh -> 0 < eps -> eps <= e0 ->
  exists k E, [/\ cg_eldest id_ eigh eps S1 S2 M3 = Ok E, shape E = [:: k; d1; d2],
    vmat k E *m adj (vmat k E) = 1%:M & forall x : 'rV[C]_(d1 * d2), hw x^T <-> (x <= vmat k E)%MS].
Proof using v1 v2 s1 s2 sz sM3.
have [K [r [er sr kr]]] := hwcE.
pose A := mx2 K (d1 * d2) (flip1 r).
have AE : A = mx2 K (d1 * d2) r *m Rv (d1 * d2) by apply: flip1E.
have ps : psd (adj A *m A) by exists K, (adj A); rewrite adjK.
have [dl dl0 st] := psd_stretch ps; have gp := psd_gap ps dl0 st.
have N1 : 0 < ((d1 * d2).+1%:R : C) by rewrite ltr0n.
have [e0 e00 h0] := min_pos [:: dl; ((d1 * d2).+1%:R : C)^-1]; exists e0 => //.
move=> eigh eps ok p0 le; rewrite /cg_eldest er /=.
have ne : (d1 * d2)%:R * eps ^+ 2 < 1.
  have le1 : eps <= ((d1 * d2).+1%:R : C)^-1.
    by apply: (le_trans le); apply: h0; rewrite ?inE ?eqxx ?orbT // invr_gt0.
  have : (d1 * d2).+1%:R * eps <= 1 by rewrite mulrC -ler_pdivl_mulr // div1r.
  move=> h1; apply: (@le_lt_trans _ _ ((d1 * d2)%:R * eps)).
    rewrite expr2 mulrA; apply: ler_pimulr; first by rewrite mulr_ge0 ?ler0n // ltW.
    apply: (le_trans le1); rewrite invf_le1 // -[1]/(1%:R) ler_nat //.
  by apply: lt_le_trans h1; rewrite mulrSr mulrDl mul1r ltr_addl.
have sf : shape (flip1 r) = [:: K; (d1 * d2)%N] by [].
have [|k [b [eb [sb [b1 bK]]]]] := nullspaceP ok p0 ne sf.
  move=> c x x0 ex; case: (gp c x x0 ex) => [|h]; [by left | right].
  by apply: le_trans h; apply: (le_trans le); apply: h0; rewrite ?inE ?eqxx.
rewrite eb /= !dimSE //=; rewrite /reshape_m1 sb.
have -> : (nprod [:: d1; d2] == 0)%N = false by rewrite /= muln1 (negbTE pr0).
have -> : (nprod [:: k; (d1 * d2)%N] %/ nprod [:: d1; d2] = k)%N by rewrite /= !muln1 mulnK // lt0n pr0.
have [|E eE sE] := @reshape_ok C (flip1 b) [:: k; d1; d2]; first by rewrite /= sb /= !muln1.
have vE : vmat k E = mx2 k (d1 * d2) b *m Rv (d1 * d2).
  rewrite -(flip1E sb); apply/matrixP => i j; rewrite !mxE; have [j1 j2] := ltn_div (ltn_ord j).
  have sfb : shape (flip1 b) = [:: k; (d1 * d2)%N] by [].
  apply: (reshape_eq eE); first by rewrite sfb !valid_cons !ltn_ord.
  by rewrite sfb /= !muln1 !addn0 -divn_eq.
exists k, E; rewrite eE vE; split=> // [|x].
  by rewrite adjM Rv_adj mulmxA -(mulmxA _ (Rv _) (Rv _)) Rv2 mulmx1.
have xE : x = (x *m Rv (d1 * d2)) *m Rv (d1 * d2) by rewrite -mulmxA Rv2 mulmx1.
rewrite [in X in _ <-> X]xE submxMfree; last by apply/row_freeP; exists (Rv (d1 * d2)); rewrite Rv2.
rewrite -bK (flip1E sr) trmx_mul Rv_tr mulmxA -(mulmxA _ (Rv _) (Rv _)) Rv2 mulmx1.
by rewrite kr.
Qed.
End Constraint.
End Two.
End P.
