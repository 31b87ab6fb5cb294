(** GsMx: the Gram-Schmidt process on row vectors, orthogonal projectors, and the
    spectral theorem for Hermitian matrices. *)
From mathcomp Require Import all_ssreflect all_algebra.
From Verif Require Import Base Nd NdProofs Reps Pinv.

Set Implicit Arguments.
Unset Strict Implicit.
Unset Printing Implicit Defensive.

Import Order.POrderTheory Order.TotalTheory GRing.Theory Num.Theory.
Local Open Scope ring_scope.

Section GsMx.
Variable C : numClosedFieldType.
Variable n : nat.
Notation V := 'rV[C]_n.
Implicit Types (ws : seq V) (u v w a b : V).

(** Hermitian products and norms of rows. *)
Definition hip v w : C := (v *m adj w) 0 0.
Definition nrm2 v : C := hip v v.

Lemma hipE v w : v *m adj w = (hip v w)%:M.
Proof. by rewrite [LHS]mx11_scalar. Qed.
Lemma hip_conj v w : (hip v w)^* = hip w v.
Proof. by rewrite /hip -[w in RHS]adjK -adjM !mxE. Qed.
Lemma hipDl u v w : hip (u + v) w = hip u w + hip v w.
Proof. by rewrite /hip mulmxDl mxE. Qed.
Lemma hipNl v w : hip (- v) w = - hip v w.
Proof. by rewrite /hip mulNmx mxE. Qed.
Lemma hipZl c v w : hip (c *: v) w = c * hip v w.
Proof. by rewrite /hip -scalemxAl mxE. Qed.
Lemma hipDr u v w : hip w (u + v) = hip w u + hip w v.
Proof. by rewrite /hip adjD mulmxDr mxE. Qed.
Lemma hipNr v w : hip w (- v) = - hip w v.
Proof. by rewrite /hip adjN mulmxN mxE. Qed.
Lemma hipZr c v w : hip w (c *: v) = c^* * hip w v.
Proof. by rewrite /hip adjZ -scalemxAr mxE. Qed.
Lemma nrm2E v : nrm2 v = \sum_k `|v 0 k| ^+ 2.
Proof. by rewrite /nrm2 /hip mxE; apply: eq_bigr => k _; rewrite !mxE normCK. Qed.
Lemma nrm2_ge0 v : 0 <= nrm2 v.
Proof. by rewrite nrm2E sumr_ge0 // => k _; rewrite exprn_ge0. Qed.
Lemma nrm2_eq0 v : (nrm2 v == 0) = (v == 0).
Proof.
apply/eqP/eqP => [h|->]; last by rewrite /nrm2 /hip mul0mx mxE.
by apply: adj_sq0; rewrite hipE -/(nrm2 v) h raddf0.
Qed.

(** The projector on the span of a list of orthonormal rows. *)
Definition prj ws : 'M[C]_n := \sum_(w <- ws) adj w *m w.
Definition orthon ws := forall i j, (i < size ws)%N -> (j < size ws)%N ->
  hip (nth 0 ws i) (nth 0 ws j) = (i == j)%:R.

Lemma prj_rcons ws w : prj (rcons ws w) = prj ws + adj w *m w.
Proof. by rewrite /prj -cats1 big_cat big_seq1. Qed.
Lemma prj_adj ws : adj (prj ws) = prj ws.
Proof.
elim/last_ind: ws => [|ws w ih]; first by rewrite /prj big_nil adj0.
by rewrite prj_rcons adjD ih adjM adjK.
Qed.

Lemma orthon0 : orthon [::]. Proof. by []. Qed.
Lemma orthon_rcons ws w : orthon (rcons ws w) <->
  [/\ orthon ws, nrm2 w = 1 & forall u, u \in ws -> hip u w = 0].
Proof.
split=> [h|[h1 h2 h3]].
  split.
  - move=> i j hi hj; have := h i j; rewrite size_rcons !nth_rcons hi hj; apply; exact: ltnW.
  - by have := h (size ws) (size ws); rewrite size_rcons !nth_rcons ltnn eqxx; apply.
  - move=> u /(nthP 0)[i hi <-]; have := h i (size ws).
    rewrite size_rcons !nth_rcons hi ltnn eqxx => ->; rewrite ?ltnS ?(ltnW hi) //.
    by rewrite (ltn_eqF hi).
move=> i j; rewrite size_rcons !nth_rcons !ltnS (leq_eqVlt i) (leq_eqVlt j).
case/orP=> [/eqP->|hi]; case/orP=> [/eqP->|hj]; rewrite ?ltnn ?eqxx ?hi ?hj //.
- by rewrite (gtn_eqF hj) -hip_conj h3 ?mem_nth // conjC0.
- by rewrite (ltn_eqF hi) h3 ?mem_nth.
- exact: h1.
Qed.

Lemma hip_prj ws : orthon ws -> forall u, u \in ws -> u *m prj ws = u.
Proof.
elim/last_ind: ws => [|ws w ih] //= /orthon_rcons[h1 h2 h3] u.
rewrite prj_rcons mulmxDr mulmxA hipE mul_scalar_mx mem_rcons inE => /orP[/eqP->|hu]; last first.
  by rewrite (ih h1 _ hu) h3 // scale0r addr0.
rewrite -/(nrm2 w) h2 scale1r /prj mulmx_sumr big1_seq ?add0r // => v /= hv.
by rewrite mulmxA hipE -hip_conj h3 // conjC0 mul_scalar_mx scale0r.
Qed.
Lemma prj_idem ws : orthon ws -> prj ws *m prj ws = prj ws.
Proof.
move=> h; rewrite {1}/prj mulmx_suml; apply: eq_big_seq => w hw.
by rewrite -mulmxA hip_prj.
Qed.
Lemma prj_sub p ws (M : 'M[C]_(p, n)) : (forall w, w \in ws -> (w <= M)%MS) -> (prj ws <= M)%MS.
Proof.
move=> h; rewrite /prj big_seq_cond summx_sub // => w /andP[hw _].
by rewrite mulmx_sub ?h.
Qed.

(** One row after another: v -= <w, v> w. *)
Lemma foldl_prj ws a : orthon ws ->
  foldl (fun v w => v - hip v w *: w) a ws = a - a *m prj ws.
Proof.
elim/last_ind: ws a => [|ws w ih] a; first by rewrite /prj big_nil mulmx0 subr0.
case/orthon_rcons=> h1 h2 h3; rewrite foldl_rcons ih //.
have -> : hip (a - a *m prj ws) w = hip a w.
  rewrite hipDl hipNl; suff -> : hip (a *m prj ws) w = 0 by rewrite subr0.
  rewrite /hip -mulmxA /prj mulmx_suml big1_seq ?mulmx0 ?mxE // => u /= hu.
  by rewrite -mulmxA hipE h3 // -scalemx1 scale0r mulmx0.
by rewrite prj_rcons mulmxDr mulmxA hipE mul_scalar_mx opprD addrA.
Qed.

Section Step.
Variable eps : C.
Hypothesis eps0 : 0 <= eps.
Definition resid ws a : V := a - a *m prj ws.
Definition gs_step ws a : seq V :=
  let r := resid ws a in
  if eps < sqrtC (nrm2 r) then rcons ws ((sqrtC (nrm2 r))^-1 *: r) else ws.

Lemma resid_orth ws a u : orthon ws -> u \in ws -> hip u (resid ws a) = 0.
Proof.
move=> h hu; rewrite /resid hipDr hipNr.
by rewrite {2}/hip adjM prj_adj mulmxA hip_prj // -/(hip u a) subrr.
Qed.
Lemma resid_rcons ws w b : orthon (rcons ws w) ->
  nrm2 (resid (rcons ws w) b) = nrm2 (resid ws b) - `|hip (resid ws b) w| ^+ 2.
Proof.
move=> /orthon_rcons[h1 h2 h3].
have e : resid (rcons ws w) b = resid ws b - hip (resid ws b) w *: w.
  rewrite /resid prj_rcons mulmxDr mulmxA hipE mul_scalar_mx opprD addrA.
  congr (_ - _ *: w); rewrite hipDl hipNl; apply/esym; rewrite -[RHS]subr0; congr (_ - _).
  rewrite /hip -mulmxA /prj mulmx_suml big1_seq ?mulmx0 ?mxE // => u /= hu.
  by rewrite -mulmxA hipE h3 // -scalemx1 scale0r mulmx0.
rewrite e; move: (resid ws b) => r; rewrite {1}/nrm2 hipDl hipNl hipZl !hipDr !hipNr !hipZr.
rewrite -/(nrm2 w) h2 mulr1 -(hip_conj r w) -/(nrm2 r) normCK mulrC.
by rewrite subrr mulr0 subr0.
Qed.

Lemma gs_step_inv p (M : 'M[C]_(p, n)) ws a : orthon ws -> (forall w, w \in ws -> (w <= M)%MS) -> (a <= M)%MS ->
  [/\ orthon (gs_step ws a), forall w, w \in gs_step ws a -> (w <= M)%MS,
      nrm2 (resid (gs_step ws a) a) <= eps ^+ 2 &
      forall b, nrm2 (resid (gs_step ws a) b) <= nrm2 (resid ws b)].
Proof.
move=> h hM ha; rewrite /gs_step /=; set r := resid ws a.
case: ifP => [he|he]; last first.
  split=> //; have : sqrtC (nrm2 r) <= eps.
    rewrite real_leNgt ?he //; first by rewrite ger0_real ?sqrtC_ge0 ?nrm2_ge0.
    by rewrite ger0_real.
  by move=> le; rewrite -[nrm2 _]sqrtCK ler_expn2r // ?nnegrE ?sqrtC_ge0 ?nrm2_ge0.
set s := sqrtC (nrm2 r); have s0 : 0 < s by apply: le_lt_trans he.
have s2 : s * s = nrm2 r by rewrite -expr2 sqrtCK.
have sr : s^* = s by rewrite conj_Creal // ger0_real // ltW.
have si : (s^-1)^* = s^-1 by rewrite fmorphV sr.
have on : orthon (rcons ws (s^-1 *: r)).
  apply/orthon_rcons; split=> //.
    by rewrite /nrm2 hipZl hipZr -/(nrm2 r) si -s2 mulKf ?mulVf // gt_eqF.
  by move=> u hu; rewrite hipZr resid_orth // mulr0.
split=> //.
- move=> w; rewrite mem_rcons inE => /orP[/eqP->|/hM//].
  rewrite scalemx_sub // /r /resid addmx_sub // eqmx_opp.
  by apply: submx_trans (prj_sub hM); rewrite mulmx_sub.
- rewrite resid_rcons // -/r hipZr si -/(nrm2 r) -s2 mulKf ?gt_eqF //.
  rewrite ger0_norm ?(ltW s0) // -expr2 subrr; exact: exprn_ge0.
- by move=> b; rewrite resid_rcons // ler_subl_addr ler_addl exprn_ge0.
Qed.

Lemma gs_fold_inv p (M : 'M[C]_(p, n)) (l : seq V) ws : orthon ws -> (forall w, w \in ws -> (w <= M)%MS) ->
  (forall a, a \in l -> (a <= M)%MS) ->
  let ws' := foldl gs_step ws l in
  [/\ orthon ws', forall w, w \in ws' -> (w <= M)%MS,
      forall a, a \in l -> nrm2 (resid ws' a) <= eps ^+ 2 &
      forall b, nrm2 (resid ws' b) <= nrm2 (resid ws b)].
Proof.
elim: l ws => [|a l ih] ws h hM hl /=; first by split.
have [h1 h2 h3 h4] := gs_step_inv h hM (hl a (mem_head _ _)).
have [|k1 k2 k3 k4] := ih (gs_step ws a) h1 h2.
  by move=> b hb; apply: hl; rewrite inE hb orbT.
split=> //; last by move=> b; apply: le_trans (h4 b).
by move=> b; rewrite inE => /orP[/eqP->|/k3//]; apply: le_trans h3.
Qed.
End Step.

(** The rows as a matrix. *)
Definition rowsmx ws : 'M[C]_(size ws, n) := \matrix_(i < size ws) nth 0 ws i.
Lemma rowsmx_prj ws : adj (rowsmx ws) *m rowsmx ws = prj ws.
Proof.
apply/matrixP=> i j; rewrite mxE /prj summxE (big_nth 0) big_mkord.
by apply: eq_bigr => k _; rewrite !mxE big_ord1 !mxE.
Qed.
Lemma rowsmx_on ws : orthon ws -> rowsmx ws *m adj (rowsmx ws) = 1%:M.
Proof.
move=> h; apply/matrixP=> i j; rewrite [RHS]mxE -(h i j) // mxE /hip mxE.
by apply: eq_bigr => k _; rewrite !mxE.
Qed.

Lemma prj_trace ws : orthon ws -> \tr (prj ws) = (size ws)%:R.
Proof. by move=> h; rewrite -rowsmx_prj mxtrace_mulC rowsmx_on // mxtrace1. Qed.
Lemma nrm2_trace m (R : 'M[C]_(m, n)) : \tr (R *m adj R) = \sum_i nrm2 (row i R).
Proof.
apply: eq_bigr => i _; rewrite nrm2E mxE; apply: eq_bigr => k _.
by rewrite !mxE normCK.
Qed.
Lemma orthon_size ws : orthon ws -> (size ws <= n)%N.
Proof.
move=> h; have := mxrankM_maxr (rowsmx ws) (adj (rowsmx ws)).
rewrite rowsmx_on // mxrank1 => /leq_trans; apply; exact: rank_leq_row.
Qed.

(** Eigenvectors of a Hermitian matrix. *)
Section Spectral.
Variable G : 'M[C]_n.
Hypothesis herm : adj G = G.

Definition eigvec w c := w *m G = c *: w.
Lemma herm_real w c : nrm2 w = 1 -> eigvec w c -> c \is Num.real.
Proof.
move=> w1 e; apply/CrealP.
have h : hip (w *m G) w = c by rewrite e hipZl -/(nrm2 w) w1 mulr1.
rewrite -{1}h hip_conj /hip adjM herm mulmxA -/(hip (w *m G) w) //.
Qed.
Lemma herm_col w c : nrm2 w = 1 -> eigvec w c -> G *m adj w = c *: adj w.
Proof.
move=> w1 e; rewrite -{1}herm -adjM e adjZ; congr (_ *: _).
exact/CrealP/(herm_real w1 e).
Qed.

Definition eiglist ws := orthon ws /\ forall w, w \in ws -> exists c, eigvec w c.
Lemma on_mem1 ws w : orthon ws -> w \in ws -> nrm2 w = 1.
Proof. by move=> h /(nthP 0)[i hi <-]; rewrite /nrm2 h // eqxx. Qed.
Lemma eiglist_comm ws : eiglist ws -> prj ws *m G = G *m prj ws.
Proof.
case=> h e; rewrite /prj mulmx_suml mulmx_sumr; apply: eq_big_seq => w hw.
have [c ec] := e w hw; rewrite mulmxA (herm_col (on_mem1 h hw) ec) -mulmxA ec.
by rewrite -scalemxAl -scalemxAr.
Qed.
Lemma eiglist_extend ws : eiglist ws -> (size ws < n)%N -> exists w, eiglist (rcons ws w).
Proof.
move=> L lt; have [h e] := L; pose P := 1%:M - prj ws.
have PG : P *m G = G *m P by rewrite mulmxBl mulmxBr mul1mx mulmx1 (eiglist_comm L).
have P2 : P *m P = P.
  by rewrite {1}/P mulmxBl mul1mx {2}/P mulmxBr mulmx1 prj_idem // subrr subr0.
have P0 : P != 0.
  apply/eqP=> /(congr1 mxtrace); rewrite linearB /= mxtrace1 prj_trace // linear0.
  by move/eqP; rewrite subr_eq0 eqr_nat => /eqP eq; move: lt; rewrite -eq ltnn.
pose B := row_base P; have Bf : row_free B := row_base_free P.
have r0 : (0 < \rank P)%N by rewrite lt0n mxrank_eq0.
have BP : B *m P = B.
  have /submxP[D ->] : (B <= P)%MS by rewrite eq_row_base.
  by rewrite -mulmxA P2.
have /submxP[G' eG] : (B *m G <= B)%MS.
  by rewrite -BP -mulmxA PG mulmxA BP eq_row_base mulmx_sub.
have [c /rootP cr] : exists c, root (char_poly G') c.
  by apply/closed_rootP; rewrite size_char_poly; case: (\rank P) r0.
have /eigenvalueP[y ey y0] : eigenvalue G' c by rewrite eigenvalue_root_char; apply/rootP.
pose v := y *m B.
have v0 : v != 0 by apply: contra y0 => /eqP z; apply/eqP/(row_free_inj Bf); rewrite mul0mx.
have ev : eigvec v c by rewrite /eigvec /v -mulmxA eG mulmxA ey scalemxAl.
have vP : v *m P = v by rewrite /v -mulmxA BP.
have n0 : 0 < nrm2 v by rewrite lt_def nrm2_eq0 v0 nrm2_ge0.
pose s := sqrtC (nrm2 v); have s0 : 0 < s by rewrite sqrtC_gt0.
have s2 : s * s = nrm2 v by rewrite -expr2 sqrtCK.
have si : (s^-1)^* = s^-1 by rewrite conj_Creal // realV ger0_real // ltW.
exists (s^-1 *: v); split.
  apply/orthon_rcons; split=> //.
    by rewrite /nrm2 hipZl hipZr -/(nrm2 v) si -s2 mulKf ?mulVf // gt_eqF.
  move=> u hu; rewrite hipZr -vP /hip adjM.
  have -> : adj P = P by rewrite /P adjB adj1 prj_adj.
  by rewrite mulmxA /P mulmxBr mulmx1 hip_prj // subrr mul0mx mxE mulr0.
move=> w; rewrite mem_rcons inE => /orP[/eqP->|/e//]; exists c.
by rewrite /eigvec -scalemxAl ev scalerA mulrC -scalerA.
Qed.
Lemma eiglist_size k : (k <= n)%N -> exists ws, eiglist ws /\ size ws = k.
Proof.
elim: k => [|k ih] hk; first by exists [::].
have [ws [L sz]] := ih (ltnW hk).
have [|w Lw] := eiglist_extend L; first by rewrite sz.
by exists (rcons ws w); rewrite size_rcons sz.
Qed.

Theorem spectral : exists (U : 'M[C]_n) (d : 'rV[C]_n),
  [/\ U *m adj U = 1%:M, G = U *m diag_mx d *m adj U & forall i, d 0 i \is Num.real].
Proof.
have [ws [[on e] sz]] := eiglist_size (leqnn n).
pose W : 'M[C]_n := \matrix_(i < n) nth 0 ws i.
pose d : 'rV[C]_n := \row_i hip (nth 0 ws i *m G) (nth 0 ws i).
have WW : W *m adj W = 1%:M.
  apply/matrixP=> i j; rewrite [RHS]mxE -(on i j) ?sz // mxE /hip mxE.
  by apply: eq_bigr => k _; rewrite !mxE.
have dE i : nth 0 ws (i : 'I_n) *m G = d 0 i *: nth 0 ws i /\ d 0 i \is Num.real.
  have hi : nth 0 ws i \in ws by rewrite mem_nth ?sz.
  have [c ec] := e _ hi; have n1 := on_mem1 on hi.
  have dc : d 0 i = c by rewrite mxE ec hipZl -/(nrm2 _) n1 mulr1.
  by rewrite dc; split=> //; apply: herm_real ec.
have WG : W *m G = diag_mx d *m W.
  apply/row_matrixP=> i; rewrite row_mul rowK (dE i).1 mul_diag_mx.
  by apply/rowP=> j; rewrite !mxE.
have W1 : adj W *m W = 1%:M by apply: mulmx1C.
exists (adj W), d; rewrite adjK; split=> //; last by move=> i; exact: (dE i).2.
by rewrite -mulmxA -WG mulmxA W1 mul1mx.
Qed.
End Spectral.
End GsMx.

Section Null.
Variable C : numClosedFieldType.

(** A projector whose rows are all close to the span of orthonormal rows of its
    image is the projector on that span. *)
Lemma prj_exact n k r (P : 'M[C]_n) (B : 'M[C]_(k, n)) (eps : C) :
  adj P = P -> P *m P = P -> \tr P = r%:R -> B *m adj B = 1%:M -> (B <= P)%MS ->
  (forall i, nrm2 (row i P - row i P *m (adj B *m B)) <= eps ^+ 2) ->
  n%:R * eps ^+ 2 < 1 -> adj B *m B = P.
Proof.
move=> Ph P2 Pt B1 BP res ne; set S := adj B *m B.
have Sh : adj S = S by rewrite /S adjM adjK.
have S2 : S *m S = S by rewrite /S mulmxA -(mulmxA _ B) B1 mulmx1.
have bp : B *m P = B by case/submxP: BP => D ->; rewrite -mulmxA P2.
have SP : S *m P = S by rewrite /S -mulmxA bp.
have PS : P *m S = S by rewrite -{1}Sh -{1}Ph -adjM SP.
pose R := P - S.
have RR : R *m adj R = R.
  by rewrite /R adjB Ph Sh mulmxBl !mulmxBr P2 PS SP S2 subrr subr0.
have St : \tr S = k%:R by rewrite /S mxtrace_mulC B1 mxtrace1.
have tr1 : \tr R < 1.
  rewrite -RR nrm2_trace; apply: le_lt_trans ne.
  have -> : n%:R * eps ^+ 2 = \sum_(i < n) eps ^+ 2 by rewrite mulr_natl sumr_const card_ord.
  apply: ler_sum => i _; rewrite /R; have := res i; rewrite -row_mul PS.
  by rewrite linearB.
have tr0 : 0 <= \tr R.
  by rewrite -RR nrm2_trace sumr_ge0 // => i _; exact: nrm2_ge0.
have rk : r = k.
  move: tr1 tr0; rewrite /R linearB /= Pt St subr_ge0 ltr_subl_addr -(natrD _ 1) ltr_nat ler_nat add1n ltnS.
  by move=> h1 h2; apply/eqP; rewrite eqn_leq h1 h2.
have t0 : \tr (R *m adj R) = 0 by rewrite RR /R linearB /= Pt St rk subrr.
have R0 : R = 0.
  apply/row_matrixP=> i; apply/eqP; rewrite row0 -nrm2_eq0.
  move/eqP: t0; rewrite nrm2_trace psumr_eq0; last by move=> j _; exact: nrm2_ge0.
  by move/allP/(_ i (mem_index_enum _)).
by apply/esym/eqP; rewrite -subr_eq0 -/R R0.
Qed.

(** The projector on the eigenvectors selected by s. *)
Definition selprj n (U : 'M[C]_n) (s : pred 'I_n) : 'M[C]_n :=
  adj (U^T) *m diag_mx (\row_i (s i)%:R) *m U^T.
Lemma diag_sel n (s : pred 'I_n) :
  let D := diag_mx (\row_i (s i)%:R : 'rV[C]_n) in adj D = D /\ D *m D = D.
Proof.
split; last first.
  rewrite mulmx_diag; congr diag_mx; apply/rowP=> i; rewrite !mxE.
  by case: (s i); rewrite ?mulr1 ?mulr0.
apply/matrixP=> i j; rewrite !mxE eq_sym; case: eqP => [->|_]; rewrite ?mulr0n ?rmorph0 //.
by rewrite !mulr1n conjC_nat.
Qed.
Lemma selprjP n (U : 'M[C]_n) s : U *m adj U = 1%:M -> let P := selprj U s in
  [/\ adj P = P, P *m P = P & \tr P = #|s|%:R].
Proof.
move=> U1 P; have [d1 d2] := diag_sel s.
have T1 : U^T *m adj (U^T) = 1%:M.
  have := mulmx1C U1; move/(congr1 trmx); rewrite trmx_mul trmx1 => <-.
  by congr (_ *m _); apply/matrixP=> i j; rewrite !mxE.
split.
- by rewrite /P /selprj !adjM adjK d1 mulmxA.
- rewrite /P /selprj !mulmxA -(mulmxA _ (U^T) (adj _)) T1 mulmx1.
  by rewrite -(mulmxA (adj _) (diag_mx _) (diag_mx _)) d2.
- rewrite /P /selprj -mulmxA mxtrace_mulC -mulmxA T1 mulmx1 mxtrace_diag.
  rewrite -sum1_card natr_sum [RHS]big_mkcond /=; apply: eq_bigr => i _; rewrite mxE unfold_in.
  by case: (s i).
Qed.

(** The kernel of A from the eigenvectors of A^H A. *)
Lemma selprj_ker m n (A : 'M[C]_(m, n)) (U : 'M[C]_n) (d : 'rV[C]_n) (s : pred 'I_n) (x : 'rV[C]_n) :
  U *m adj U = 1%:M -> adj A *m A = U *m diag_mx d *m adj U -> (forall i, s i = (d 0 i == 0)) ->
  (A *m x^T = 0) <-> (x *m selprj U s = x).
Proof.
move=> U1 e sE; have U1' := mulmx1C U1.
have aT : adj (U^T) = (adj U)^T by apply/matrixP=> i j; rewrite !mxE.
have dd : diag_mx d *m diag_mx (\row_i (s i)%:R) = 0 :> 'M[C]_n.
  rewrite mulmx_diag; apply/matrixP=> i j; rewrite !mxE sE.
  by case: eqP => [->|]; rewrite ?mul0r ?mulr0 mul0rn.
have PT : (selprj U s)^T = U *m diag_mx (\row_i (s i)%:R) *m adj U.
  by rewrite /selprj !trmx_mul trmxK aT trmxK tr_diag_mx mulmxA.
split=> [h|h].
- have h0 : diag_mx d *m (adj U *m x^T) = 0.
    have : adj A *m A *m x^T = 0 by rewrite -mulmxA h mulmx0.
    rewrite e -!mulmxA => /(congr1 (mulmx (adj U))); rewrite mulmxA U1' mul1mx mulmx0 => <-.
    by rewrite mulmxA.
  apply: trmx_inj; rewrite trmx_mul PT -!mulmxA.
  have -> : diag_mx (\row_i (s i)%:R) *m (adj U *m x^T) = adj U *m x^T.
    apply/matrixP=> i j; move/matrixP/(_ i j): h0; rewrite !mul_diag_mx !mxE sE.
    by case: eqP => [_ _|/eqP d0 /eqP]; rewrite ?mul1r // mulf_eq0 (negPf d0) => /eqP->; rewrite mulr0.
  by rewrite mulmxA U1 mul1mx.
- rewrite -h trmx_mul PT.
  suff z : A *m (U *m diag_mx (\row_i (s i)%:R) *m adj U) = 0 by rewrite mulmxA z mul0mx.
  apply: adj_sq0'; rewrite adjM -mulmxA (mulmxA (adj A)) e.
  suff -> : U *m diag_mx d *m adj U *m (U *m diag_mx (\row_i (s i)%:R) *m adj U) = 0 by rewrite mulmx0.
  by rewrite !mulmxA -(mulmxA _ (adj U) U) U1' mulmx1 -(mulmxA U) dd mulmx0 mul0mx.
Qed.
End Null.
