(** Property C62: basis_intersection (util.py:391-440).

    Arithmetic is exact and round_fn is the identity.  np.linalg.eigh is any function
    satisfying [eigh_correct_real]: on a real symmetric matrix it returns real
    eigenvalues and a real orthogonal matrix of eigenvectors.  [eighr0] (BiProofs.v) is
    one such function, which is also correct on Hermitian matrices. *)
From Coq Require Import ZArith String Ascii.
From mathcomp Require Import all_ssreflect all_algebra.
From mathcomp Require Import zify.
From Verif Require Import Base McRing Nd NdProofs Reps Pinv RepSpec RepProofs RepOps Sl2c.
From Verif Require Import LinAlg GsMx LinAlgProofs CgGenProofs BiProofs.

Set Implicit Arguments.
Unset Strict Implicit.
Unset Printing Implicit Defensive.

Import Order.POrderTheory GRing.Theory Num.Theory.
Local Open Scope ring_scope.

Section Props.
Variable C : numClosedFieldType.
Notation nd := (nd C).
Notation id_ := (fun x : nd => x).

(** The entries of an array are real. *)
Definition nd_real (a : nd) : Prop := forall idx, valid (shape a) idx -> get a idx \is Num.real.
(** y1 and y2 have orthonormal rows, and both y1 @ basis1 and y2 @ basis2 span the
    intersection of the spans of the bases ([bmx]: the elements of a basis, flattened, as
    the rows of a matrix). *)
Definition intersection (s : seq nat) (n1 n2 : nat) (b1 b2 y1 y2 : nd) : Prop :=
  let B1 := bmx n1 s b1 in let B2 := bmx n2 s b2 in
  exists k1 k2, shape y1 = [:: k1; n1] /\ shape y2 = [:: k2; n2] /\
  let Y1 := mx2 k1 n1 y1 in let Y2 := mx2 k2 n2 y2 in
  [/\ Y1 *m adj Y1 = 1%:M, Y2 *m adj Y2 = 1%:M &
    forall x : 'rV[C]_(nprod s), let both := (x <= B1)%MS && (x <= B2)%MS in
      (x <= Y1 *m B1)%MS = both /\ (x <= Y2 *m B2)%MS = both].

Lemma nd_realP n s (b : nd) : shape b = n :: s -> nd_real b -> realm (bmx n s b).
Proof.
move=> sb r i k; rewrite mxE conj_Creal //; apply: r.
by rewrite sb valid_cons ltn_ord unravel_valid.
Qed.
Lemma bi_okP eigh eps s n1 n2 b1 b2 : bi_ok eigh eps s n1 n2 b1 b2 ->
  exists y1 y2, basis_intersection id_ eigh eps b1 b2 = Ok (y1, y2) /\ intersection s n1 n2 b1 b2 y1 y2.
Proof.
case=> k1 [k2 [y1 [y2 [e [s1 [s2 [o1 o2 m1 m2]]]]]]]; exists y1, y2; split=> //.
by exists k1, k2; split=> //; split=> //; split=> // x; rewrite m1 m2 sub_capmx.
Qed.

(** For every pair of real bases, all small enough thresholds give the intersection. *)
Theorem C62_intersection (eigh : nd -> res (nd * nd)) s n1 n2 (b1 b2 : nd) : eigh_correct_real eigh ->
  shape b1 = n1 :: s -> shape b2 = n2 :: s -> (0 < n1)%N -> (0 < n2)%N -> nd_real b1 -> nd_real b2 ->
  exists e0 : C, 0 < e0 /\ forall eps, 0 < eps -> eps < e0 ->
  exists y1 y2, basis_intersection id_ eigh eps b1 b2 = Ok (y1, y2) /\ intersection s n1 n2 b1 b2 y1 y2.
Proof.
move=> eP s1 s2 p1 p2 /(nd_realP s1) r1 /(nd_realP s2) r2.
have [U [d [U1 eU dr rU]]] := spectral_real (psd_herm (bi_gram_psd r1 r2)) (bi_gram_real r1 r2).
pose sl := fun i => d 0 i == 0; pose P0 := selprj U sl.
have pp0 : pairproj (bmx n1 s b1) (bmx n2 s b2) P0.
  have [h1 h2 h3] := selprjP sl U1; split=> // x1 x2.
  rewrite -(P_ker r1 r2 U1 eU (fun i => erefl (sl i))) mul_row_col mulmxN.
  by split=> [->|/eqP]; rewrite ?subrr // subr_eq0 => /eqP.
have sE i : sl i = (d 0 i == 0) by [].
have [d1 d10 st1] : exists2 dl : C, 0 < dl & stretch (ulsubmx P0) dl.
  by apply: psd_stretch; rewrite /P0 -(LtL sl U1 rU); exists (n1 + n2)%N, (adj (lsubmx P0)); rewrite adjK.
have [d2 d20 st2] : exists2 dl : C, 0 < dl & stretch (drsubmx P0) dl.
  by apply: psd_stretch; rewrite /P0 -(RtR sl U1 rU); exists (n1 + n2)%N, (adj (rsubmx P0)); rewrite adjK.
have [d3 d30 st3] := psd_stretch (bi_gram_psd r1 r2).
have gp := psd_gap (bi_gram_psd r1 r2) d30 st3.
have [dl dl0 h] := min_pos [:: d1; d2; d3].
have [l1 l2 l3] : [/\ dl <= d1, dl <= d2 & dl <= d3] by split; apply: h => //; rewrite !inE eqxx ?orbT.
have mono n (Q : 'M[C]_n) x : 0 < x -> dl <= x -> stretch Q x -> stretch Q dl.
  move=> x0 le st w hw; apply: le_trans (st w hw); apply: ler_wpmul2r; first exact: nrm2_ge0.
  by rewrite ler_expn2r // nnegrE ltW.
pose m := (n1 + n2).+1; have m0 : 0 < m%:R :> C by rewrite ltr0n.
exists (dl / m%:R); split; first by rewrite divr_gt0.
move=> eps e0 le; apply: bi_okP.
have lm : eps * m%:R < dl by rewrite -ltr_pdivl_mulr.
have le1 : eps <= dl.
  by apply: le_trans (ltW lm); rewrite ler_pmulr // ler1n.
have ne n : (n < m)%N -> n%:R * eps ^+ 2 < dl ^+ 2.
  move=> nm; apply: (@le_lt_trans _ _ ((eps * m%:R) ^+ 2)); last first.
    by rewrite ltr_expn2r // ?nnegrE ?mulr_ge0 ?ltW //.
  rewrite exprMn mulrC ler_pmul2r ?exprn_gt0 // -natrX ler_nat; apply: (leq_trans (ltnW nm)).
  by rewrite -[X in (X <= _)%N]expn1 leq_exp2l //; rewrite /m; case: (n1) p1.
apply: (@biP _ _ eP _ e0 _ _ _ _ _ s1 s2 p1 p2 r1 r2 dl).
- by move=> c x x0 ec; case: (gp c x x0 ec) => [->|h3]; [left | right; apply: le_trans h3; apply: le_trans l3].
- by move=> P rP pp; rewrite (pairproj_uniq pp pp0); split; [apply: mono st1 | apply: mono st2].
- by apply: ne; rewrite /m ltnS leq_addr.
- by apply: ne; rewrite /m ltnS leq_addl.
Qed.

(** For orthonormal bases the threshold only has to separate the eigenvalues 1 - cos of the
    nonzero principal angles from 0, and to be small with respect to the sizes. *)
Theorem C62_orthonormal (eigh : nd -> res (nd * nd)) eps s n1 n2 (b1 b2 : nd) : eigh_correct_real eigh -> 0 < eps ->
  shape b1 = n1 :: s -> shape b2 = n2 :: s -> (0 < n1)%N -> (0 < n2)%N -> nd_real b1 -> nd_real b2 ->
  let B1 := bmx n1 s b1 in let B2 := bmx n2 s b2 in
  B1 *m B1^T = 1%:M -> B2 *m B2^T = 1%:M ->
  gap (block_mx 1%:M (- B1 *m B2^T) (- B2 *m B1^T) 1%:M) eps ->
  4%:R * n1%:R * eps ^+ 2 < 1 -> 4%:R * n2%:R * eps ^+ 2 < 1 ->
  exists y1 y2, basis_intersection id_ eigh eps b1 b2 = Ok (y1, y2) /\ intersection s n1 n2 b1 b2 y1 y2.
Proof.
move=> eP e0 s1 s2 p1 p2 /(nd_realP s1) r1 /(nd_realP s2) r2 B1 B2 o1 o2 gp ne1 ne2; apply: bi_okP.
have [U [d [U1 eU dr rU]]] := spectral_real (psd_herm (bi_gram_psd r1 r2)) (bi_gram_real r1 r2).
pose sl := fun i => d 0 i == 0; pose P0 := selprj U sl.
have pp0 : pairproj (bmx n1 s b1) (bmx n2 s b2) P0.
  have [h1 h2 h3] := selprjP sl U1; split=> // x1 x2.
  rewrite -(P_ker r1 r2 U1 eU (fun i => erefl (sl i))) mul_row_col mulmxN.
  by split=> [->|/eqP]; rewrite ?subrr // subr_eq0 => /eqP.
have sE i : sl i = (d 0 i == 0) by [].
have [hf1 hf2] := core_half r1 r2 U1 eU rU sE o1 o2.
have st n (Q : 'M[C]_n) : 2%:R *: (Q *m Q) = Q -> stretch Q (2%:R^-1).
  move=> q w /submxP[z ->]; have e : z *m Q *m Q = 2%:R^-1 *: (z *m Q).
    by rewrite -mulmxA -[in RHS]q -scalemxAr scalerA mulVf ?scale1r // pnatr_eq0.
  rewrite e {2}/nrm2 hipZl hipZr fmorphV conjC_nat mulrA -expr2 //.
have half n : 4%:R * n%:R * eps ^+ 2 < 1 -> n%:R * eps ^+ 2 < 2%:R^-1 ^+ 2.
  move=> h; rewrite exprVn -natrX -[X in _ < X]mul1r ltr_pdivl_mulr ?ltr0n // mulrC mulrA //.
apply: (@biP _ _ eP _ e0 _ _ _ _ _ s1 s2 p1 p2 r1 r2 (2%:R^-1)).
- by rewrite bi_gramE o1 o2.
- by move=> P rP pp; rewrite (pairproj_uniq pp pp0); split; apply: st.
- exact: half.
- exact: half.
Qed.

(** An empty basis is refused by the reshape, and so are bases of different shapes. *)
Theorem C62_empty (eigh : nd -> res (nd * nd)) eps s n1 n2 (b1 b2 : nd) :
  shape b1 = n1 :: s -> shape b2 = n2 :: s -> n1 = 0%N \/ n2 = 0%N ->
  basis_intersection id_ eigh eps b1 b2 = Err ValueError.
Proof.
move=> s1 s2 h; rewrite /basis_intersection s1 s2 /= eqxx /=.
case: (posnP n1) => [z|n10]; first by rewrite {1}/flat2 /len s1 z.
have [f1 [-> _ _]] := flat2P s1 n10; case: h => [z|z]; first by rewrite z in n10.
by rewrite /= {1}/flat2 /len s2 z.
Qed.
Theorem C62_mismatch (eigh : nd -> res (nd * nd)) eps (b1 b2 : nd) :
  behead (shape b1) <> behead (shape b2) -> basis_intersection id_ eigh eps b1 b2 = Err AssertionError.
Proof. by move/eqP/negbTE => h; rewrite /basis_intersection h. Qed.

(** Complex bases: the code transposes without conjugating, so for the bases (1, i, 0, 0)
    and (0, 0, 1, i), whose spans meet in 0 only, the result is not empty and y1 @ basis1
    spans the first basis. *)
Definition cb1 : nd := Nd [:: 1; 4]%N (fun idx => nth 0 [:: 1; 'i; 0; 0] (nth 0%N idx 1)).
Definition cb2 : nd := Nd [:: 1; 4]%N (fun idx => nth 0 [:: 0; 0; 1; 'i] (nth 0%N idx 1)).
Theorem C62_complex_refuted (eigh : nd -> res (nd * nd)) (eps : C) : eigh_correct_real eigh -> 0 < eps -> eps < 1 ->
  let B1 := bmx 1 [:: 4%N] cb1 in let B2 := bmx 1 [:: 4%N] cb2 in
  [/\ B1 != 0, (B1 :&: B2 == (0 : 'M_4))%MS &
    exists y1 y2, basis_intersection id_ eigh eps cb1 cb2 = Ok (y1, y2) /\
    exists k1, shape y1 = [:: k1; 1%N] /\ (B1 <= mx2 k1 1 y1 *m B1)%MS].
Proof.
move=> eP e0 e1 B1 B2.
have i0 : (0 < 1)%N by [].
have b1E (k : 'I_4) : B1 0 k = nth 0 [:: 1; 'i; 0; 0] k by rewrite mxE /= ?divn1 ?muln1.
have b2E (k : 'I_4) : B2 0 k = nth 0 [:: 0; 0; 1; 'i] k by rewrite mxE /= ?divn1 ?muln1.
have p11 : B1 *m B1^T = 0.
  by apply/matrixP=> i j; rewrite !ord1 mxE !big_ord_recl big_ord0 ![_^T _ _]mxE !b1E /= -!expr2 sqrCi expr1n !expr0n /= !addr0 subrr mxE.
have p12 : B1 *m B2^T = 0.
  by apply/matrixP=> i j; rewrite !ord1 mxE !big_ord_recl big_ord0 ![_^T _ _]mxE !b1E !b2E /= !(mulr0, mul0r, addr0) mxE.
have p21 : B2 *m B1^T = 0.
  by apply/matrixP=> i j; rewrite !ord1 mxE !big_ord_recl big_ord0 ![_^T _ _]mxE !b1E !b2E /= !(mulr0, mul0r, addr0) mxE.
have p22 : B2 *m B2^T = 0.
  by apply/matrixP=> i j; rewrite !ord1 mxE !big_ord_recl big_ord0 ![_^T _ _]mxE !b2E /= -!expr2 sqrCi expr1n !expr0n /= !(addr0, add0r) subrr mxE.
have gr : bi_gram B1 B2 = 0 by rewrite bi_gramE p11 p22 !mulNmx p12 p21 !oppr0 block_mx0.
split.
- by apply/eqP=> z; have := b1E 0; rewrite z mxE /= => /eqP; rewrite eq_sym oner_eq0.
- rewrite sub0mx andbT submx0; apply/eqP.
  have /submxP[y1 e1'] := capmxSl B1 B2; have /submxP[y2 e2'] := capmxSr B1 B2.
  have y0 : y1 = 0.
    apply/matrixP=> i j; have := congr1 (fun M : 'M[C]_4 => M i 0) (etrans (esym e1') e2').
    by rewrite !mxE !big_ord1 b1E b2E /= mulr1 mulr0 !ord1.
  by rewrite e1' y0 mul0mx.
have re : realm (bi_gram B1 B2) by move=> i j; rewrite gr mxE conjC0.
have ps : psd (bi_gram B1 B2) by exists 0%N, 0; rewrite mul0mx.
have gp : gap (bi_gram B1 B2) eps.
  by move=> c x x0; rewrite gr mul0mx => /esym/eqP; rewrite scaler_eq0 (negbTE x0) orbF => /eqP; left.
have [U [d [sl [k1 [k2 [y1 [y2 [[U1 eU rU sE] [er [s1 [s2 [[a1 a2 a3] _]]]]]]]]]]]] :=
  @bi_run C eigh eP eps e0 [:: 4%N] 1 1 cb1 cb2 (erefl _) (erefl _) i0 i0 re ps gp.
exists y1, y2; split=> //; exists k1; split=> //.
have d0 : diag_mx d = 0.
  have := congr1 (fun M => adj U *m M *m U) eU; rewrite -/B1 -/B2 gr mulmx0 mul0mx => h.
  by rewrite h !mulmxA (mulmx1C U1) mul1mx -mulmxA (mulmx1C U1) mulmx1.
have P1 : selprj U sl = 1%:M.
  rewrite /selprj; have -> : diag_mx (\row_i (sl i)%:R) = 1%:M :> 'M[C]_(1 + 1).
    apply/matrixP=> i j; rewrite !mxE sE; have /matrixP/(_ i i) := d0; rewrite !mxE eqxx mulr1n => ->.
    by rewrite eqxx.
  rewrite mulmx1; have -> : adj U^T = (adj U)^T by apply/matrixP=> i j; rewrite !mxE.
  by rewrite -trmx_mul U1 trmx1.
have Q1 : ulsubmx (selprj U sl) = 1%:M by rewrite P1 scalar_mx_block block_mxKul.
rewrite Q1 in a2 a3.
have st : stretch (1%:M : 'M[C]_1) 1 by move=> w _; rewrite expr1n mul1r mulmx1.
have ne : 1%:R * eps ^+ 2 < 1 ^+ 2 by rewrite mul1r expr1n exprn_ilt1 ?ltW.
have eq := gs_span (adj1 _ 1) st ne a1 a2 a3.
by rewrite -[X in (X <= _)%MS]mul1mx submxMr // eq.
Qed.

(** The example of the docstring. *)
Definition db1 : nd := Nd [:: 2; 3]%N (fun idx => nth 0 (nth [::] [:: [:: 1; 0; 0]; [:: 0; 0; 1]] (nth 0%N idx 0)) (nth 0%N idx 1)).
Definition db2 : nd := Nd [:: 2; 3]%N (fun idx => nth 0 (nth [::] [:: [:: 1; 1; 0]; [:: 0; 1; 0]] (nth 0%N idx 0)) (nth 0%N idx 1)).
Example C62_example : exists e0 : C, 0 < e0 /\ forall eps, 0 < eps -> eps < e0 ->
  exists y1 y2 k1, basis_intersection id_ (@eighr0 C) eps db1 db2 = Ok (y1, y2) /\ shape y1 = [:: k1; 2%N] /\
  forall x : 'rV[C]_3, (x <= mx2 k1 2 y1 *m mx2 2 3 db1)%MS <-> exists c, x = c *: \row_j (j == 0)%:R.
Proof.
have r1 : nd_real db1.
  by case=> [|[|[|i]] [|[|[|[|j]]] [|l idx]]] //= _; rewrite ?real0 ?real1.
have r2 : nd_real db2.
  by case=> [|[|[|i]] [|[|[|[|j]]] [|l idx]]] //= _; rewrite ?real0 ?real1.
have [e0 [p h]] := @C62_intersection _ [:: 3%N] 2 2 db1 db2 (@eighr0_real C) (erefl _) (erefl _) (erefl true) (erefl true) r1 r2.
exists e0; split=> // eps q1 q2; have [y1 [y2 [e [k1 [k2 [s1 [_ [_ _ sp]]]]]]]] := h eps q1 q2.
exists y1, y2, k1; split=> //; split=> // x.
have bE (b : nd) : bmx 2 [:: 3%N] b = mx2 2 3 b.
  by apply/matrixP=> i j; rewrite !mxE /= divn1.
have := (sp x).1; rewrite !bE => ->; split.
  case/andP=> /submxP[u eu] /submxP[v ev]; exists (u 0 0); apply/rowP=> j.
  have /rowP/(_ (inord 2)) := etrans (esym eu) ev; rewrite !mxE !big_ord_recl !big_ord0 !mxE /= !inordK //=.
  rewrite !(mulr0, mulr1, addr0, add0r) => u1.
  rewrite eu !mxE !big_ord_recl big_ord0 !mxE /= u1 mul0r !addr0.
  by case: j => -[|[|[|]]].
case=> c ->; apply/andP; split; apply: scalemx_sub.
  apply/submxP; exists (\row_j (j == 0)%:R); apply/rowP=> j; rewrite !mxE !big_ord_recl big_ord0 !mxE /=.
  by case: j => -[|[|[|]]] //= h'; rewrite !(mul0r, mulr0, mulr1, addr0).
apply/submxP; exists (\row_j (if j == 0 then 1 else -1)); apply/rowP=> j; rewrite !mxE !big_ord_recl big_ord0 !mxE /=.
by case: j => -[|[|[|]]] //= h'; rewrite !(mul0r, mul1r, mulr0, mulr1, addr0) ?subrr.
Qed.
End Props.
