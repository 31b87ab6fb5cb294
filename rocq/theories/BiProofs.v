(** BiProofs: basis_intersection (util.py:391-440). *)
From Coq Require Import ZArith String Ascii.
From mathcomp Require Import all_ssreflect all_algebra.
From mathcomp Require Import zify.
From Verif Require Import Base McRing Nd NdProofs Reps Pinv RepSpec RepProofs RepOps ReducedProofs TpProofs Sl2c.
From Verif Require Import LinAlg GsMx LinAlgProofs IcbProofs CgGenProofs.

Set Implicit Arguments.
Unset Strict Implicit.
Unset Printing Implicit Defensive.

Import Order.POrderTheory GRing.Theory Num.Theory.
Local Open Scope ring_scope.

Section Bi.
Variable C : numClosedFieldType.
Notation nd := (nd C).
Notation id_ := (fun x : nd => x).

Definition realm m n (A : 'M[C]_(m, n)) : Prop := forall i j, (A i j)^* = A i j.
Lemma realm_adj m n (A : 'M[C]_(m, n)) : realm A -> adj A = A^T.
Proof. by move=> r; apply/matrixP=> i j; rewrite !mxE r. Qed.
Lemma realm_mul m n p (A : 'M[C]_(m, n)) (B : 'M[C]_(n, p)) : realm A -> realm B -> realm (A *m B).
Proof. by move=> ra rb i j; rewrite !mxE rmorph_sum; apply: eq_bigr => k _; rewrite rmorphM ra rb. Qed.
Lemma realm_tr m n (A : 'M[C]_(m, n)) : realm A -> realm A^T.
Proof. by move=> r i j; rewrite mxE. Qed.

(** Cauchy-Schwarz. *)
Lemma cauchy n (v w : 'rV[C]_n) : `|hip v w| ^+ 2 <= nrm2 v * nrm2 w.
Proof.
have [->|w0] := eqVneq w 0.
  rewrite /nrm2 /hip (_ : adj (0 : 'rV[C]_n) = 0) ?mulmx0 ?mxE ?normr0 ?expr0n ?mulr0 //.
  by apply/matrixP=> i j; rewrite !mxE conjC0.
have n0 : 0 < nrm2 w by rewrite lt_def nrm2_eq0 w0 nrm2_ge0.
have := nrm2_ge0 (nrm2 w *: v - hip v w *: w).
rewrite /nrm2 hipDl hipNl !hipDr !hipNr !hipZl !hipZr -/(nrm2 v) -/(nrm2 w).
have e : (nrm2 w)^* = nrm2 w by rewrite /nrm2 hip_conj.
rewrite e normCK hip_conj.
have -> : nrm2 w * (nrm2 w * nrm2 v) - nrm2 w * (hip w v * hip v w) -
   (hip v w * (nrm2 w * hip w v) - hip v w * (hip w v * nrm2 w)) = nrm2 w * (nrm2 v * nrm2 w - hip v w * hip w v) by mcring.
by rewrite pmulr_rge0 // subr_ge0.
Qed.

(** The smallest positive value of a finite family. *)
Lemma min_pos (s : seq C) : exists2 dl : C, 0 < dl & forall x, x \in s -> 0 < x -> dl <= x.
Proof.
elim: s => [|x s [dl d0 h]]; first by exists 1; rewrite ?ltr01.
have [x0|nx] := boolP (0 < x); last first.
  by exists dl => // y; rewrite inE => /orP[/eqP->|]; [rewrite (negbTE nx) | exact: h].
have s0 : 0 < dl + x by rewrite addr_gt0.
exists (dl * x / (dl + x)); first by rewrite divr_gt0 ?mulr_gt0.
move=> y; rewrite inE => /orP[/eqP-> _|hy y0].
  by rewrite ler_pdivr_mulr // mulrC ler_pmul2l // ler_addl ltW.
apply: (le_trans _ (h y hy y0)); rewrite ler_pdivr_mulr // ler_pmul2l // ler_addr ltW //.
Qed.
(** A positive semi-definite Hermitian matrix has a gap. *)
Definition psd n (Q : 'M[C]_n) : Prop := exists m (V : 'M[C]_(n, m)), Q = V *m adj V.
Lemma psd_herm n (Q : 'M[C]_n) : psd Q -> adj Q = Q.
Proof. by case=> m [V ->]; rewrite adjM adjK. Qed.
Lemma psd_ev n (Q : 'M[C]_n) (c : C) (x : 'rV[C]_n) : psd Q -> x != 0 -> x *m Q = c *: x -> 0 <= c.
Proof.
case=> m [V ->] x0 e.
have n0 : 0 < nrm2 x by rewrite lt_def nrm2_eq0 x0 nrm2_ge0.
have : 0 <= nrm2 (x *m V) by apply: nrm2_ge0.
rewrite /nrm2 /hip adjM mulmxA -[x *m V *m _]mulmxA e -scalemxAl mxE -/(hip x x) -/(nrm2 x).
by rewrite pmulr_lge0.
Qed.
Lemma spec_rows n (Q : 'M[C]_n) : psd Q -> exists (U : 'M[C]_n) (d : 'rV[C]_n),
  [/\ U *m adj U = 1%:M, adj U *m U = 1%:M, Q = U *m diag_mx d *m adj U & forall i, 0 <= d 0 i].
Proof.
move=> ps; have [U [d [u1 e dr]]] := spectral (psd_herm ps).
have u2 := mulmx1C u1; exists U, d; split=> // i.
have ev : row i (adj U) *m Q = d 0 i *: row i (adj U).
  rewrite -row_mul e !mulmxA u2 mul1mx; apply/rowP=> j.
  by rewrite mul_diag_mx !mxE.
apply: psd_ev ps _ ev; apply/eqP => z; have /matrixP/(_ i i) := u2; rewrite [RHS]mxE eqxx.
have -> : (adj U *m U) i i = (row i (adj U) *m U) 0 i by rewrite -row_mul [RHS]mxE.
by rewrite z mul0mx mxE => /esym/eqP; rewrite oner_eq0.
Qed.
Lemma nrm2_U n (U : 'M[C]_n) (x : 'rV[C]_n) : U *m adj U = 1%:M -> nrm2 (x *m U) = nrm2 x.
Proof. by move=> u; rewrite /nrm2 /hip adjM mulmxA -(mulmxA x) u mulmx1. Qed.
(** On its row space the matrix stretches by at least dl. *)
Lemma psd_stretch n (Q : 'M[C]_n) : psd Q -> exists2 dl : C, 0 < dl &
  forall w : 'rV[C]_n, (w <= Q)%MS -> dl ^+ 2 * nrm2 w <= nrm2 (w *m Q).
Proof.
move=> ps; have [U [d [u1 u2 e d0]]] := spec_rows ps.
have [dl dl0 h] := min_pos [seq d 0 i | i <- enum 'I_n]; exists dl => // w /submxP[z ew].
pose y := z *m U; have wE : w *m U = y *m diag_mx d by rewrite ew e !mulmxA -(mulmxA _ (adj U)) u2 mulmx1.
have -> : nrm2 w = nrm2 (y *m diag_mx d) by rewrite -wE nrm2_U.
have -> : nrm2 (w *m Q) = nrm2 (y *m diag_mx d *m diag_mx d).
  rewrite -(@nrm2_U _ U) // [in LHS]e !mulmxA -(mulmxA _ (adj U)) u2 mulmx1.
  by rewrite wE.
rewrite !nrm2E mulr_sumr; apply: ler_sum => k _; rewrite !mul_mx_diag !mxE !normrM !exprMn.
have [->|dk] := eqVneq (d 0 k) 0; first by rewrite normr0 expr0n /= !(mul0r, mulr0).
have dp : 0 < d 0 k by rewrite lt_def dk d0.
rewrite [X in _ <= X]mulrC; apply: ler_wpmul2r; first by rewrite -exprMn exprn_ge0 // mulr_ge0.
rewrite gtr0_norm // ler_expn2r ?nnegrE ?(ltW dl0) ?(ltW dp) //.
by apply: h => //; apply: map_f; rewrite mem_enum.
Qed.

Definition stretch n (Q : 'M[C]_n) (dl : C) : Prop :=
  forall w : 'rV[C]_n, (w <= Q)%MS -> dl ^+ 2 * nrm2 w <= nrm2 (w *m Q).
Lemma psd_gap n (Q : 'M[C]_n) (dl : C) : psd Q -> 0 < dl -> stretch Q dl -> gap Q dl.
Proof.
move=> ps d0 st c x x0 e; have [->|c0] := eqVneq c 0; [by left | right].
have e' : adj x *m Q = c^* *: adj x by rewrite -{1}(psd_herm ps) -adjM e adjZ.
have ax0 : adj x != 0 by apply: contra x0 => /eqP z; rewrite -(adjK x) z; apply/eqP/matrixP=> i j; rewrite !mxE conjC0.
have cge : 0 <= c^* := psd_ev ps ax0 e'.
have cr : c^* = c by rewrite -{2}(conjCK c) [in RHS]conj_Creal // ger0_real.
have n0 : 0 < nrm2 (adj x) by rewrite lt_def nrm2_eq0 ax0 nrm2_ge0.
have sub : (adj x <= Q)%MS.
  have -> : adj x = (c^*)^-1 *: (adj x *m Q) by rewrite e' scalerA mulVf ?scale1r // conjC_eq0.
  by rewrite scalemx_sub // submxMl.
have := st _ sub; rewrite e' {2}/nrm2 hipZl hipZr mulrA -/(nrm2 _) ler_pmul2r // !cr.
rewrite cr in cge; rewrite -expr2 ler_sqr ?nnegrE // ltW //.
Qed.

(** Gram-Schmidt on the rows of a positive semi-definite matrix spans its row space. *)
Lemma gs_span n k (Q : 'M[C]_n) (B : 'M[C]_(k, n)) (eps dl : C) :
  adj Q = Q -> stretch Q dl -> n%:R * eps ^+ 2 < dl ^+ 2 ->
  B *m adj B = 1%:M -> (B <= Q)%MS ->
  (forall i, nrm2 (row i Q - row i Q *m (adj B *m B)) <= eps ^+ 2) -> (B :=: Q)%MS.
Proof.
move=> Qh st ne B1 BQ res; set S := adj B *m B.
have Sh : adj S = S by rewrite /S adjM adjK.
have S2 : S *m S = S by rewrite /S mulmxA -(mulmxA _ B) B1 mulmx1.
pose R := Q - Q *m S.
have RS : R *m S = 0 by rewrite /R mulmxBl -mulmxA S2 subrr.
have rR i : row i R = row i Q - row i Q *m S by rewrite /R linearB /= row_mul.
have R0 : R = 0.
  apply/row_matrixP=> i; rewrite row0; apply/eqP; rewrite -nrm2_eq0.
  set w := row i R.
  have wS : w *m S = 0 by rewrite /w -row_mul RS row0.
  have wQ : (w <= Q)%MS.
    rewrite /w rR; apply: addmx_sub; first exact: row_sub.
    by rewrite eqmx_opp /S !mulmxA; apply: mulmx_sub.
  have e : w *m Q = w *m adj R by rewrite /R adjB adjM Sh Qh mulmxBr mulmxA wS mul0mx subr0.
  have h1 := st w wQ.
  have h2 : nrm2 (w *m Q) <= nrm2 w * (n%:R * eps ^+ 2).
    rewrite e nrm2E.
    have -> : nrm2 w * (n%:R * eps ^+ 2) = \sum_(j < n) nrm2 w * eps ^+ 2.
      by rewrite sumr_const card_ord mulr_natl mulrnAr.
    apply: ler_sum => j _.
    have -> : (w *m adj R) 0 j = hip w (row j R).
      by rewrite /hip !mxE; apply: eq_bigr => l _; rewrite !mxE.
    apply: (le_trans (cauchy _ _)); apply: ler_wpmul2l; first exact: nrm2_ge0.
    by rewrite rR.
  have h := le_trans h1 h2; rewrite mulrC in h.
  rewrite eq_le nrm2_ge0 andbT.
  have : nrm2 w * (dl ^+ 2 - n%:R * eps ^+ 2) <= 0 by rewrite mulrBr subr_le0.
  by rewrite pmulr_lle0 // subr_gt0.
apply/eqmxP; rewrite BQ /=.
have -> : Q = Q *m S by apply/eqP; rewrite -subr_eq0 -/R R0.
by rewrite /S mulmxA submxMl.
Qed.

(** Real symmetric matrices have real eigenvectors. *)
Local Notation cj := (map_mx (@conjC C)).
Definition allreal n (ws : seq 'rV[C]_n) : Prop := forall w, w \in ws -> realm w.
Lemma eiglist_real n (G : 'M[C]_n) ws : adj G = G -> realm G -> eiglist G ws -> allreal ws -> (size ws < n)%N ->
  exists w, eiglist G (rcons ws w) /\ allreal (rcons ws w).
Proof.
move=> Gh Gr L ar lt; have [w0 [on0 ev0]] := eiglist_extend Gh L lt.
have [on1 n1 ort] := (proj1 (orthon_rcons _ _) on0).
have [c ec] : exists c, eigvec G w0 c by apply: ev0; rewrite mem_rcons inE eqxx.
have cr := herm_real Gh n1 ec.
have Gc : cj G = G by apply/matrixP=> i j; rewrite mxE Gr.
have ec' : eigvec G (cj w0) c.
  by rewrite /eigvec -{1}Gc -map_mxM ec map_mxZ /= conj_Creal.
have oc u : u \in ws -> hip u (cj w0) = 0.
  move=> hu; rewrite -(conjC0 C) -(ort u hu) /hip !mxE rmorph_sum; apply: eq_bigr => k _.
  by rewrite rmorphM !mxE (ar u hu).
suff [v [v0 vr ve vo]] : exists v : 'rV[C]_n, [/\ v != 0, realm v, eigvec G v c & forall u, u \in ws -> hip u v = 0].
  have p0 : 0 < nrm2 v by rewrite lt_def nrm2_eq0 v0 nrm2_ge0.
  pose s := sqrtC (nrm2 v); have s0 : 0 < s by rewrite sqrtC_gt0.
  have s2 : s * s = nrm2 v by rewrite -expr2 sqrtCK.
  have si : (s^-1)^* = s^-1 by rewrite conj_Creal // realV ger0_real // ltW.
  exists (s^-1 *: v); split; last first.
    move=> w; rewrite mem_rcons inE => /orP[/eqP->|/ar//] i j.
    by rewrite mxE rmorphM /= si vr.
  split.
    apply/orthon_rcons; split=> //; first by rewrite /nrm2 hipZl hipZr -/(nrm2 v) si -s2 mulKf ?mulVf // gt_eqF.
    by move=> u hu; rewrite hipZr vo // mulr0.
  move=> w; rewrite mem_rcons inE => /orP[/eqP->|hw]; last by apply: ev0; rewrite mem_rcons inE hw orbT.
  by exists c; rewrite /eigvec -scalemxAl ve scalerA mulrC -scalerA.
have [z|nz] := eqVneq (w0 + cj w0) 0.
  exists ('i *: w0); split.
  - rewrite scaler_eq0 negb_or neq0Ci /=; apply/eqP=> z0; move: n1; rewrite z0 /nrm2 /hip mul0mx mxE.
    by move/eqP; rewrite eq_sym oner_eq0.
  - move=> i j; rewrite mxE rmorphM /= conjCi.
    have /matrixP/(_ i j) := z; rewrite !mxE => /eqP; rewrite addr_eq0 => /eqP {2}->.
    by rewrite mulNr mulrN.
  - by rewrite /eigvec -scalemxAl ec scalerA mulrC -scalerA.
  - by move=> u hu; rewrite hipZr ort // mulr0.
exists (w0 + cj w0); split=> //.
- by move=> i j; rewrite !mxE rmorphD conjCK addrC.
- by rewrite /eigvec mulmxDl ec ec' scalerDr.
- by move=> u hu; rewrite hipDr ort // oc // addr0.
Qed.
Theorem spectral_real n (G : 'M[C]_n) : adj G = G -> realm G -> exists (U : 'M[C]_n) (d : 'rV[C]_n),
  [/\ U *m adj U = 1%:M, G = U *m diag_mx d *m adj U, forall i, d 0 i \is Num.real & realm U].
Proof.
move=> Gh Gr.
have ex k : (k <= n)%N -> exists ws, [/\ eiglist G ws, allreal ws & size ws = k].
  elim: k => [|k ih] hk; first by exists [::].
  have [ws [L ar sz]] := ih (ltnW hk).
  have [|w [Lw aw]] := eiglist_real Gh Gr L ar; first by rewrite sz.
  by exists (rcons ws w); rewrite size_rcons sz.
have [ws [[on e] ar sz]] := ex n (leqnn n).
pose W : 'M[C]_n := \matrix_(i < n) nth 0 ws i.
pose d : 'rV[C]_n := \row_i hip (nth 0 ws i *m G) (nth 0 ws i).
have WW : W *m adj W = 1%:M.
  apply/matrixP=> i j; rewrite [RHS]mxE -(on i j) ?sz // mxE /hip mxE.
  by apply: eq_bigr => k _; rewrite !mxE.
have dE i : nth 0 ws (i : 'I_n) *m G = d 0 i *: nth 0 ws i /\ d 0 i \is Num.real.
  have hi : nth 0 ws i \in ws by rewrite mem_nth ?sz.
  have [c ec] := e _ hi; have n1 := on_mem1 on hi.
  have dc : d 0 i = c by rewrite mxE ec hipZl -/(nrm2 _) n1 mulr1.
  by rewrite dc; split=> //; apply: herm_real ec.
have WG : W *m G = diag_mx d *m W.
  apply/row_matrixP=> i; rewrite row_mul rowK (dE i).1 mul_diag_mx.
  by apply/rowP=> j; rewrite !mxE.
have W1 : adj W *m W = 1%:M by apply: mulmx1C.
exists (adj W), d; rewrite adjK; split=> //; first by rewrite -mulmxA -WG mulmxA W1 mul1mx.
  by move=> i; exact: (dE i).2.
by move=> i j; rewrite !mxE conjCK (ar (nth 0 ws j)) // mem_nth ?sz.
Qed.

(** np.linalg.eigh on a real symmetric matrix returns real eigenvectors. *)
Definition eigh_correct_real (eigh : nd -> res (nd * nd)) : Prop :=
  forall n g, shape g = [:: n; n] -> (mx2 n n g)^T = mx2 n n g -> realm (mx2 n n g) ->
  exists e, [/\ eigh g = Ok e, eigh_res n g e & realm (mx2 n n e.2)].

(** Such an eigh exists. *)
Definition realb m n (A : 'M[C]_(m, n)) : bool := [forall i, [forall j, (A i j)^* == A i j]].
Lemma realbP m n (A : 'M[C]_(m, n)) : reflect (realm A) (realb A).
Proof.
by apply: (iffP forallP) => h i; [move=> j; have /forallP/(_ j)/eqP := h i | apply/forallP=> j; apply/eqP].
Qed.
Lemma eighr_exists n (G : 'M[C]_n) : (adj G == G) && realb G -> exists p, eigh_dec G p && realb p.1.
Proof.
case/andP=> /eqP h /realbP r; have [U [d [h1 h2 h3 h4]]] := spectral_real h r.
exists (U, d); rewrite /eigh_dec /= h1 -h2 !eqxx /=; apply/andP; split; first by apply/forallP.
by apply/realbP.
Qed.
Definition eighr0 (g : nd) : res (nd * nd) :=
  match shape g with
  | [:: n; n'] =>
    if (n == n') then
      match boolP ((adj (mx2 n n g) == mx2 n n g) && realb (mx2 n n g)) with
      | AltTrue h => let p := xchoose (eighr_exists h) in
          Ok (Nd [:: n] (fun idx => oapp (fun i => p.2 0 i) 0 (insub (head 0%N idx))), nd_of_mx p.1)
      | AltFalse _ => eigh0 g
      end
    else Err LinAlgError
  | _ => Err LinAlgError
  end.
Theorem eighr0_real : eigh_correct_real eighr0.
Proof.
move=> n g sg hg rg; have ag : adj (mx2 n n g) = mx2 n n g by rewrite realm_adj.
rewrite /eighr0 sg eqxx.
case: {-}_ / boolP => [h|]; last by rewrite ag eqxx; move/negP; case; apply/realbP.
have := xchooseP (eighr_exists h); set p := xchoose _ => /andP[/and3P[/eqP p1 /eqP p2 /forallP p3] /realbP p4].
eexists; split; first by []; last by rewrite /= mx2_nd_of_mx.
split=> //; split=> //=; rewrite mx2_nd_of_mx.
set d := rv n _; have -> : d = p.2 by apply/rowP=> i; rewrite mxE /= valK.
by split.
Qed.
Theorem eighr0_correct : eigh_correct eighr0.
Proof.
move=> n g sg hg; have := eigh0_correct sg hg; rewrite /eighr0 sg eqxx.
case: {-}_ / boolP => [h _|//].
have := xchooseP (eighr_exists h); set p := xchoose _ => /andP[/and3P[/eqP p1 /eqP p2 /forallP p3] /realbP p4].
eexists; split; first by []; split=> //; split=> //=; rewrite mx2_nd_of_mx.
set d := rv n _; have -> : d = p.2 by apply/rowP=> i; rewrite mxE /= valK.
by split.
Qed.

(** ** The intersection, as matrices *)
Lemma gram_span m n (L : 'M[C]_(m, n)) : (adj L *m L :=: L)%MS.
Proof.
apply/eqmxP; rewrite submxMl /= submxE; apply/eqP/adj_sq0'.
by rewrite adjM -mulmxA (mulmxA (adj L)) mulmx_coker mulmx0.
Qed.
Section Core.
Variables (n1 n2 d : nat) (B1 : 'M[C]_(n1, d)) (B2 : 'M[C]_(n2, d)).
Hypotheses (r1 : realm B1) (r2 : realm B2).
Let K : 'M[C]_(n1 + n2, d) := col_mx B1 (- B2).
Definition bi_gram : 'M[C]_(n1 + n2) := col_mx B1 (- B2) *m (col_mx B1 (- B2))^T.
Lemma K_real : realm K.
Proof.
move=> i j; rewrite /K -(splitK i); case: (split i) => k /=; rewrite ?col_mxEu ?col_mxEd //.
by rewrite mxE rmorphN /= r2.
Qed.
Lemma bi_gram_real : realm bi_gram.
Proof. by apply: realm_mul; [|apply: realm_tr]; exact: K_real. Qed.
Lemma bi_gram_sym : bi_gram^T = bi_gram.
Proof. by rewrite /bi_gram trmx_mul trmxK. Qed.
Lemma bi_gram_psd : psd bi_gram.
Proof. by exists d, K; rewrite realm_adj //; exact: K_real. Qed.
Lemma bi_gramE : bi_gram = block_mx (B1 *m B1^T) (- B1 *m B2^T) (- B2 *m B1^T) (B2 *m B2^T).
Proof.
rewrite /bi_gram tr_col_mx mul_col_row linearN /= mulmxN mulNmx mulNmx mulNmx mulmxN opprK //.
Qed.

Variables (U : 'M[C]_(n1 + n2)) (e : 'rV[C]_(n1 + n2)) (s : pred 'I_(n1 + n2)).
Hypotheses (U1 : U *m adj U = 1%:M) (eU : bi_gram = U *m diag_mx e *m adj U) (rU : realm U).
Hypothesis sE : forall i, s i = (e 0 i == 0).
Let P := selprj U s.
Lemma P_real : realm P.
Proof.
rewrite /P /selprj; apply: realm_mul; [apply: realm_mul|exact: realm_tr].
  by rewrite realm_adj; [rewrite trmxK | exact: realm_tr].
by move=> i j; rewrite !mxE rmorphMn /= conjC_nat.
Qed.
Lemma P_sym : P^T = P.
Proof. by have [h _ _] := selprjP s U1; rewrite -(realm_adj P_real). Qed.
Lemma P_idem : P *m P = P. Proof. by have [_ h _] := selprjP s U1. Qed.
Lemma P_ker (x : 'rV[C]_(n1 + n2)) : x *m K = 0 <-> x *m P = x.
Proof.
rewrite -(@selprj_ker C d _ K^T U e s x U1) //; last first.
  by rewrite realm_adj; [rewrite trmxK | exact/realm_tr/K_real].
by rewrite -trmx_mul; split=> [->|/(congr1 trmx)]; rewrite ?trmx0 ?trmxK // trmx0.
Qed.
Lemma PK : P *m K = 0.
Proof. by apply/row_matrixP=> i; rewrite row_mul row0; apply/P_ker; rewrite -row_mul P_idem. Qed.
Let L := lsubmx P.
Let R := rsubmx P.
Lemma LR : P = row_mx L R. Proof. by rewrite hsubmxK. Qed.
Lemma LBRB : L *m B1 = R *m B2.
Proof. by have := PK; rewrite LR /K mul_row_col mulmxN => /eqP; rewrite subr_eq0 => /eqP. Qed.
Lemma L_real : realm L. Proof. by move=> i j; rewrite mxE P_real. Qed.
Lemma R_real : realm R. Proof. by move=> i j; rewrite mxE P_real. Qed.
Lemma LtL : adj L *m L = ulsubmx P.
Proof.
have := P_idem; rewrite -{1}P_sym {1 2}LR tr_row_mx mul_col_row => h.
by rewrite -h block_mxKul realm_adj //; exact: L_real.
Qed.
Lemma RtR : adj R *m R = drsubmx P.
Proof.
have := P_idem; rewrite -{1}P_sym {1 2}LR tr_row_mx mul_col_row => h.
by rewrite -h block_mxKdr realm_adj //; exact: R_real.
Qed.
Lemma cap_sub m (X : 'M[C]_(m, d)) : (X <= B1)%MS -> (X <= B2)%MS ->
  exists y : 'M[C]_(m, n1 + n2), X = y *m L *m B1 /\ X = y *m R *m B2.
Proof.
move=> /submxP[y1 e1] /submxP[y2 e2]; pose y := row_mx y1 y2.
have yK : y *m K = 0 by rewrite /y /K mul_row_col mulmxN -e1 -e2 subrr.
have yP : y *m P = y.
  by apply/row_matrixP=> i; rewrite row_mul; apply/P_ker; rewrite -row_mul yK row0.
have : row_mx (y *m L) (y *m R) = y by rewrite -mul_mx_row -LR.
by rewrite /y => /eq_row_mx[z1 z2]; exists y; rewrite z1 z2.
Qed.
Lemma core1 : (ulsubmx P *m B1 :=: B1 :&: B2)%MS.
Proof.
apply: (eqmx_trans (eqmxMr B1 _)); first by rewrite -LtL; exact: gram_span.
apply/eqmxP; rewrite sub_capmx submxMl LBRB submxMl /=.
have [y [ey _]] := cap_sub (capmxSl B1 B2) (capmxSr B1 B2).
by rewrite -LBRB ey -mulmxA submxMl.
Qed.
Lemma core2 : (drsubmx P *m B2 :=: B1 :&: B2)%MS.
Proof.
apply: (eqmx_trans (eqmxMr B2 _)); first by rewrite -RtR; exact: gram_span.
apply/eqmxP; rewrite sub_capmx submxMl -LBRB submxMl /=.
have [y [_ ey]] := cap_sub (capmxSl B1 B2) (capmxSr B1 B2).
by rewrite LBRB ey -mulmxA submxMl.
Qed.
(** For orthonormal rows the two blocks are half a projector. *)
Lemma core_half : B1 *m B1^T = 1%:M -> B2 *m B2^T = 1%:M ->
  2%:R *: (ulsubmx P *m ulsubmx P) = ulsubmx P /\ 2%:R *: (drsubmx P *m drsubmx P) = drsubmx P.
Proof.
move=> o1 o2.
have LL : L *m L^T = R *m R^T.
  have -> : L *m L^T = L *m B1 *m (L *m B1)^T by rewrite trmx_mul mulmxA -(mulmxA L) o1 mulmx1.
  by rewrite LBRB trmx_mul mulmxA -(mulmxA R) o2 mulmx1.
have hP : L *m L^T + R *m R^T = P by rewrite -[RHS]P_idem -{2}P_sym LR tr_row_mx mul_row_col.
have [PL PR] : P *m L = L /\ P *m R = R.
  have := P_idem; rewrite {2}LR mul_mx_row [RHS]LR => /eq_row_mx[]; by split.
rewrite -!LtL -RtR (realm_adj L_real) (realm_adj R_real); split.
  rewrite mulmxA -(mulmxA L^T) -mulmxA scalemxAr scalemxAl.
  have -> : 2%:R *: (L *m L^T) = P by rewrite -hP -LL scaler_nat mulr2n.
  by rewrite PL.
rewrite mulmxA -(mulmxA R^T) -mulmxA scalemxAr scalemxAl.
have -> : 2%:R *: (R *m R^T) = P by rewrite -hP LL scaler_nat mulr2n.
by rewrite PR.
Qed.
End Core.

(** ** The program *)
(** The rows of a basis, flattened. *)
Definition bmx (n : nat) (s : seq nat) (b : nd) : 'M[C]_(n, nprod s) := \matrix_(i, k) get b ((i : nat) :: unravel s k).
(** The orthogonal projector on the pairs (x1, x2) with x1 B1 = x2 B2. *)
Definition pairproj n1 n2 d (B1 : 'M[C]_(n1, d)) (B2 : 'M[C]_(n2, d)) (P : 'M[C]_(n1 + n2)) : Prop :=
  [/\ adj P = P, P *m P = P & forall (x1 : 'rV[C]_n1) (x2 : 'rV[C]_n2), x1 *m B1 = x2 *m B2 <-> row_mx x1 x2 *m P = row_mx x1 x2].
Lemma pairproj_uniq n1 n2 d (B1 : 'M[C]_(n1, d)) (B2 : 'M[C]_(n2, d)) P P' : pairproj B1 B2 P -> pairproj B1 B2 P' -> P = P'.
Proof.
move=> [h1 h2 h3] [g1 g2 g3].
have st Q Q' : Q *m Q = Q -> (forall (x1 : 'rV[C]_n1) (x2 : 'rV[C]_n2), row_mx x1 x2 *m Q = row_mx x1 x2 -> row_mx x1 x2 *m Q' = row_mx x1 x2) -> Q *m Q' = Q.
  move=> q h; apply/row_matrixP=> i; rewrite row_mul -[row i Q]hsubmxK; apply: h.
  by rewrite hsubmxK -row_mul q.
have a : P *m P' = P by apply: st => // x1 x2 /h3/g3.
have b : P' *m P = P' by apply: st => // x1 x2 /g3/h3.
by rewrite -b -g1 -{2}h1 -adjM a h1.
Qed.
Lemma flat2P n s (b : nd) : shape b = n :: s -> (0 < n)%N ->
  exists f, [/\ flat2 b = Ok f, shape f = [:: n; nprod s] & mx2 n (nprod s) f = bmx n s b].
Proof.
move=> sb n0; rewrite /flat2 /len sb /= gtn_eqF // mulKn //.
rewrite /reshape sb /= muln1 eqxx; eexists; split; [by []| by []|].
apply/matrixP=> i k; rewrite !mxE /= muln1 addn0 divnMDl ?modnMDl; last by have := ltn_ord k; lia.
by rewrite divn_small ?addn0 ?modn_small.
Qed.
Lemma mx2_scale m n c (a : nd) : mx2 m n (scale c a) = c *: mx2 m n a.
Proof. by apply/matrixP=> i j; rewrite !mxE. Qed.
Lemma blockP n1 n2 (a b c d : nd) : shape a = [:: n1; n1] -> shape b = [:: n1; n2] -> shape c = [:: n2; n1] -> shape d = [:: n2; n2] ->
  exists q1 q2 p, [/\ concat_last [:: a; b] = Ok q1, concat_last [:: c; d] = Ok q2, concat2 q1 q2 = Ok p,
    shape p = [:: (n1 + n2)%N; (n1 + n2)%N] &
    mx2 (n1 + n2) (n1 + n2) p = block_mx (mx2 n1 n1 a) (mx2 n1 n2 b) (mx2 n2 n1 c) (mx2 n2 n2 d)].
Proof.
move=> sa sb sc sd; rewrite /concat_last /initdims /lastdim /= sa sb sc sd /= !eqxx /= !addn0.
do 3 eexists; split; [by []|by []|by rewrite /concat2 /len /= eqxx|by []|].
apply/matrixP=> i j; rewrite -(splitK i) -(splitK j); case: (split i) => k; case: (split j) => l /=;
  rewrite ?block_mxEul ?block_mxEur ?block_mxEdl ?block_mxEdr !mxE /= /pick /lastdim ?sa ?sb ?sc ?sd /=;
  rewrite ?ltn_ord ?ltnNge ?leq_addr /= ?addKn // -ltnNge ltn_ord //.
Qed.
Local Arguments concat_last : simpl never.
Section Prog.
Variable eigh : nd -> res (nd * nd).
Hypothesis eighP : eigh_correct_real eigh.
Variables (eps : C) (eps0 : 0 < eps).
Variables (s : seq nat) (n1 n2 : nat) (b1 b2 : nd).
Hypotheses (sb1 : shape b1 = n1 :: s) (sb2 : shape b2 = n2 :: s) (n10 : (0 < n1)%N) (n20 : (0 < n2)%N).
Let B1 := bmx n1 s b1.
Let B2 := bmx n2 s b2.
Theorem bi_run : realm (bi_gram B1 B2) -> psd (bi_gram B1 B2) -> gap (bi_gram B1 B2) eps ->
  exists (U : 'M[C]_(n1 + n2)) (d : 'rV[C]_(n1 + n2)) (sl : pred 'I_(n1 + n2)) k1 k2 y1 y2,
  [/\ U *m adj U = 1%:M, bi_gram B1 B2 = U *m diag_mx d *m adj U, realm U & forall i, sl i = (d 0 i == 0)] /\
  basis_intersection id_ eigh eps b1 b2 = Ok (y1, y2) /\
  shape y1 = [:: k1; n1] /\ shape y2 = [:: k2; n2] /\
  let Y1 := mx2 k1 n1 y1 in let Y2 := mx2 k2 n2 y2 in
  let Q1 := ulsubmx (selprj U sl) in let Q2 := drsubmx (selprj U sl) in
  [/\ Y1 *m adj Y1 = 1%:M, (Y1 <= Q1)%MS & forall i, nrm2 (row i Q1 - row i Q1 *m (adj Y1 *m Y1)) <= eps ^+ 2] /\
  [/\ Y2 *m adj Y2 = 1%:M, (Y2 <= Q2)%MS & forall i, nrm2 (row i Q2 - row i Q2 *m (adj Y2 *m Y2)) <= eps ^+ 2].
Proof.
move=> gr ps gp; rewrite /basis_intersection sb1 sb2 /= eqxx /=.
have [f1 [-> sf1 mf1]] := flat2P sb1 n10; have [f2 [-> sf2 mf2]] := flat2P sb2 n20; rewrite /=.
have [p11 [-> [s11 m11]]] := matmul_2_2 sf1 (shape_tr sf1); rewrite /=.
have ss1 : shape (scale (-1) f1) = [:: n1; nprod s] by [].
have ss2 : shape (scale (-1) f2) = [:: n2; nprod s] by [].
have [p12 [-> [s12 m12]]] := matmul_2_2 ss1 (shape_tr sf2); rewrite /=.
have [p21 [-> [s21 m21]]] := matmul_2_2 ss2 (shape_tr sf1); rewrite /=.
have [p22 [-> [s22 m22]]] := matmul_2_2 sf2 (shape_tr sf2); rewrite /=.
have [t1 [t2 [p [-> /= -> /= -> /= sp mp]]]] := blockP s11 s12 s21 s22.
have {mp} mp : mx2 (n1 + n2) (n1 + n2) p = bi_gram B1 B2.
  by rewrite mp bi_gramE m11 m12 m21 m22 !mx2_scale !(mx2_tr sf1) !(mx2_tr sf2) mf1 mf2 !scaleN1r.
have [|| e [-> [s1 [s2 [U1 eU dr]]] rU]] := eighP sp; first by rewrite mp bi_gram_sym.
  by rewrite mp.
rewrite mp in eU; rewrite /=.
set U := mx2 _ _ e.2 in U1 eU rU; set d := rv _ e.1 in eU dr.
have [r [sX PX]] := select0P (fun i => get e.1 [:: i] < eps) s2.
set X := select0 _ _ in sX PX *; set sl := (fun i : 'I_(n1 + n2) => _) in PX.
have sE i : sl i = (d 0 i == 0).
  have d0 : 0 <= d 0 i.
    have ev : row i (adj U) *m bi_gram B1 B2 = d 0 i *: row i (adj U).
      rewrite -row_mul eU !mulmxA (mulmx1C U1) mul1mx; apply/rowP=> j.
      by rewrite mul_diag_mx !mxE.
    apply: psd_ev ps _ ev; apply/eqP => z.
    have /matrixP/(_ i i) := mulmx1C U1; rewrite [RHS]mxE eqxx.
    have -> : (adj U *m U) i i = (row i (adj U) *m U) 0 i by rewrite -row_mul [RHS]mxE.
    by rewrite z mul0mx mxE => /esym/eqP; rewrite oner_eq0.
  by rewrite -(gapE eps0 i gp U1 eU) ger0_norm // /sl /d mxE.
have rX : realm (mx2 r (n1 + n2) X).
  move=> i j; rewrite mxE /X /select0 /len /= s2 /=.
  set l := [seq _ <- _ | _]; have hr : r = size l by move: sX; rewrite /X /select0 /len /= s2 /= => -[<-].
  have : nth 0%N l i \in l by rewrite mem_nth // -hr.
  rewrite mem_filter mem_iota add0n => /andP[_ /andP[_ hk]].
  by have := rU j (Ordinal hk); rewrite mxE.
have XX : (mx2 r (n1 + n2) X)^T *m mx2 r (n1 + n2) X = selprj U sl by rewrite -(realm_adj rX) PX.
have l1 : len f1 = n1 by rewrite /len sf1.
have lv : len (transpose2 X) = (n1 + n2)%N by rewrite /len (shape_tr sX).
rewrite l1 lv; clearbody X.
set x1 := rows_slice 0 n1 _; set x2 := rows_slice n1 _ _.
have sx1 : shape x1 = [:: n1; r] by rewrite /x1 /rows_slice /= sX /= subn0.
have sx2 : shape x2 = [:: n2; r] by rewrite /x2 /rows_slice /= sX /= addKn.
have mx1 : mx2 n1 r x1 = usubmx (mx2 r (n1 + n2) X)^T by apply/matrixP=> i j; rewrite !mxE.
have mx2' : mx2 n2 r x2 = dsubmx (mx2 r (n1 + n2) X)^T by apply/matrixP=> i j; rewrite !mxE.
have [g1 [-> [sg1 mg1]]] := matmul_2_2 sx1 (shape_tr sx1); rewrite /=.
have [g2 [eg2 [sg2 mg2]]] := matmul_2_2 sx2 (shape_tr sx2).
have {mg1} mg1 : mx2 n1 n1 g1 = ulsubmx (selprj U sl).
  by rewrite mg1 (mx2_tr sx1) mx1 -XX; apply/matrixP=> i j; rewrite !mxE; apply: eq_bigr => k _; rewrite !mxE.
have {mg2} mg2 : mx2 n2 n2 g2 = drsubmx (selprj U sl).
  by rewrite mg2 (mx2_tr sx2) mx2' -XX; apply/matrixP=> i j; rewrite !mxE; apply: eq_bigr => k _; rewrite !mxE.
have [k1 [y1 [-> [sy1 [a1 a2 a3]]]]] := gram_schmidtP (ltW eps0) sg1; rewrite /= eg2 /=.
have [k2 [y2 [-> [sy2 [c1 c2 c3]]]]] := gram_schmidtP (ltW eps0) sg2; rewrite /=.
rewrite mg1 in a2 a3; rewrite mg2 in c2 c3.
exists U, d, sl, k1, k2, y1, y2; split=> //.
Qed.
Hypotheses (r1 : realm B1) (r2 : realm B2).
Definition bi_ok : Prop := exists k1 k2 y1 y2, basis_intersection id_ eigh eps b1 b2 = Ok (y1, y2) /\
    shape y1 = [:: k1; n1] /\ shape y2 = [:: k2; n2] /\
    let Y1 := mx2 k1 n1 y1 in let Y2 := mx2 k2 n2 y2 in
    [/\ Y1 *m adj Y1 = 1%:M, Y2 *m adj Y2 = 1%:M,
        (Y1 *m B1 :=: B1 :&: B2)%MS & (Y2 *m B2 :=: B1 :&: B2)%MS].
Theorem biP (dl : C) : gap (bi_gram B1 B2) eps ->
  (forall P, realm P -> pairproj B1 B2 P -> stretch (ulsubmx P) dl /\ stretch (drsubmx P) dl) ->
  n1%:R * eps ^+ 2 < dl ^+ 2 -> n2%:R * eps ^+ 2 < dl ^+ 2 -> bi_ok.
Proof.
move=> gp st ne1 ne2.
have [U [d [sl [k1 [k2 [y1 [y2 [[U1 eU rU sE] [er [s1 [s2 [[a1 a2 a3] [c1 c2 c3]]]]]]]]]]]]] :=
  bi_run (bi_gram_real r1 r2) (bi_gram_psd r1 r2) gp.
have pp : pairproj B1 B2 (selprj U sl).
  have [h1 h2 h3] := selprjP sl U1; split=> // x1 x2.
  rewrite -(P_ker r1 r2 U1 eU sE) mul_row_col mulmxN.
  by split=> [->|/eqP]; rewrite ?subrr // subr_eq0 => /eqP.
have [st1 st2] := st _ (P_real sl rU) pp.
have [h1 _ _] := pp.
have q1 : adj (ulsubmx (selprj U sl)) = ulsubmx (selprj U sl) by rewrite -{2}h1; apply/matrixP=> i j; rewrite !mxE.
have q2 : adj (drsubmx (selprj U sl)) = drsubmx (selprj U sl) by rewrite -{2}h1; apply/matrixP=> i j; rewrite !mxE.
exists k1, k2, y1, y2; split=> //; split=> //; split=> //; split=> //.
  apply: (eqmx_trans (eqmxMr B1 (gs_span q1 st1 ne1 a1 a2 a3))).
  exact: (core1 r1 r2 U1 eU rU sE).
apply: (eqmx_trans (eqmxMr B2 (gs_span q2 st2 ne2 c1 c2 c3))).
exact: (core2 r1 r2 U1 eU rU sE).
Qed.
End Prog.
End Bi.
