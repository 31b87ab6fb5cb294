(** Properties_ReduceGen: reduce for all but special weights, and a function eig. *)
From Coq Require Import ZArith String Ascii.
From mathcomp Require Import all_ssreflect all_algebra.
From mathcomp Require Import zify.
From mathcomp.real_closed Require Import mxtens.
From Verif Require Import Base McRing Nd NdProofs Reps Pinv RepSpec RepProofs RepOps LinAlg GsMx LinAlgProofs IcbProofs CgGenProofs Reduced Reduce ReduceMx ReduceProofs ReduceRun ReduceMain Properties_Reduce.

Set Implicit Arguments.
Unset Strict Implicit.
Unset Printing Implicit Defensive.

Import Order.POrderTheory GRing.Theory Num.Theory.
Local Open Scope ring_scope.

Section Props.
Variable C : numClosedFieldType.
Notation nd := (nd C).
Notation rep := (rep C).
Notation id_ := (fun x : nd => x).

(** ** The hypothesis on np.linalg.eig is satisfiable *)
Definition dgz n (A : 'M[C]_n) (p : 'M[C]_n * 'rV[C]_n) : bool := (p.1 \in unitmx) && (A *m p.1 == p.1 *m diag_mx p.2).
Definition dgr n (A : 'M[C]_n) : seq C := undup (sval (closed_field_poly_normal (char_poly A))).
Definition dgb n (A : 'M[C]_n) : bool := (1%:M <= \sum_(x <- dgr A^T) eigenspace A^T x)%MS.
Lemma dgb_ex n (A : 'M[C]_n) : dgb A -> exists p, dgz A p.
Proof.
move=> h.
have : exists2 rs, uniq rs & (\sum_(x <- rs) eigenspace A^T x :=: 1%:M)%MS.
  exists (dgr A^T); first exact: undup_uniq.
  by apply/eqmxP; rewrite submx1 [X in _ && X]h.
move/diagonalizablePeigen => [P uP /(diagonalizable_forLR uP) [D eA]].
exists (P^T, D); rewrite /dgz /= unitmx_tr uP /=; apply/eqP/trmx_inj.
rewrite !trmx_mul trmxK tr_diag_mx eA conjumx ?unitmx_inv // invmxK !mulmxA mulmxV // mul1mx.
by [].
Qed.
Lemma dgb_of n (A : 'M[C]_n) : diagonalizable A -> dgb A.
Proof.
move=> [V [w [uV eA]]]; have uT : V^T \in unitmx by rewrite unitmx_tr.
have eT : V^T *m A^T = diag_mx w *m V^T by rewrite -trmx_mul eA trmx_mul tr_diag_mx.
rewrite /dgb -(mulVmx uT); apply: submx_trans (submxMl _ _) _; apply/row_subP=> i.
have ev : row i V^T *m A^T = w 0 i *: row i V^T.
  by rewrite -row_mul eT; apply/rowP=> j; rewrite !mxE (bigD1 i) //= big1 ?addr0 => [|x nx]; rewrite !mxE ?eqxx // eq_sym (negbTE nx) mul0r.
have n0 : row i V^T != 0 by have := row_free_unit V^T; rewrite uT => /row_freeP [B eB]; apply/eqP => z; have := congr1 (fun M => row i M) eB; rewrite row_mul z mul0mx => /rowP/(_ i); rewrite !mxE eqxx => /esym/eqP; rewrite oner_eq0.
have hr : w 0 i \in dgr A^T.
  rewrite mem_undup; case: (closed_field_poly_normal _) => rs /= ec.
  have : root (char_poly A^T) (w 0 i).
    rewrite -eigenvalue_root_char; apply/eigenvalueP; by exists (row i V^T).
  rewrite ec rootZ ?lead_coef_eq0 ?monic_neq0 ?char_poly_monic //.
  by rewrite root_prod_XsubC.
rewrite (big_rem _ hr) /=; apply: submx_trans _ (addsmxSl _ _).
exact/eigenspaceP.
Qed.
Definition eig0 (g : nd) : res (nd * nd) :=
  match shape g with
  | [:: n; n'] =>
    if (n == n') then
      match boolP (dgb (mx2 n n g)) with
      | AltTrue h => let p := xchoose (dgb_ex h) in
          Ok (Nd [:: n] (fun idx => oapp (fun i => p.2 0 i) 0 (insub (head 0%N idx))), nd_of_mx p.1)
      | AltFalse _ => Err LinAlgError
      end
    else Err LinAlgError
  | _ => Err LinAlgError
  end.
Theorem C61_eig_exists : eig_correct eig0.
Proof.
move=> n g sg hg; rewrite /eig0 sg eqxx.
case: {-}_ / boolP => [h|]; last by rewrite (dgb_of hg).
have := xchooseP (dgb_ex h); set p := xchoose _ => /andP[p1 /eqP p2].
eexists; split; first by []; split=> //=; first by rewrite mx2_nd_of_mx.
rewrite mx2_nd_of_mx p2; congr (_ *m diag_mx _).
by apply/rowP=> i; rewrite mxE /= valK.
Qed.

Lemma colM m n p (A : 'M[C]_(m, n)) (B : 'M[C]_(n, p)) j : col j (A *m B) = A *m col j B.
Proof. by apply/colP=> i; rewrite !mxE; apply: eq_bigr => x _; rewrite !mxE. Qed.
Lemma colD n (V : 'M[C]_n) (w : 'rV[C]_n) j : col j (V *m diag_mx w) = w 0 j *: col j V.
Proof. by rewrite mul_mx_diag; apply/colP=> i; rewrite !mxE mulrC. Qed.
Lemma col_eq m n (A B : 'M[C]_(m, n)) : (forall j, col j A = col j B) -> A = B.
Proof. by move=> h; apply/matrixP=> i j; have /colP/(_ i) := h j; rewrite !mxE. Qed.
Lemma col_unit n (V : 'M[C]_n) j : V \in unitmx -> col j V != 0.
Proof.
move=> uV; apply/eqP => z; have := congr1 (col j) (mulVmx uV); rewrite colM z mulmx0 => /colP/(_ j).
by rewrite !mxE eqxx => /esym/eqP; rewrite oner_eq0.
Qed.

(** ** Generic weights *)
Section Rep.
Variables (T : theory C) (d : nat) (r : rep).
Hypothesis hr : is_rep T d r.
Hypothesis l0 : (0 < th_l T)%N.
Hypothesis d0 : (0 < d)%N.
Hypothesis real : real_rep r.
Notation N := (th_l T + th_h T)%N.

(** When no irrep occurs twice, reduce succeeds for all weights outside finitely many
    hyperplanes. *)
Theorem C61_generic (M0 : 'M[C]_d) : morphism T r r M0 -> diagonalizable M0 ->
  (forall S, morphism T r r S -> forall x : C, exists s : C, forall v : 'cV[C]_d, M0 *m v = x *: v -> S *m v = s *: v) ->
  exists2 e1m : C, 0 < e1m & forall eigh e1, eigh_correct eigh -> 0 < e1 -> e1 <= e1m ->
  exists (k : nat) (L : seq 'rV[C]_k), all (fun a => a != 0) L /\ forall rand, rand_ok rand ->
    (forall a, a \in L -> \sum_(i < k) a 0 i * get (rand k) [:: i : nat] != 0) ->
  forall eig, eig_correct eig ->
  exists2 e2m : C, 0 < e2m & forall e2, 0 < e2 -> e2 <= e2m ->
  exists2 e0 : C, 0 < e0 & forall e3 e4, 0 < e3 -> e3 <= e0 -> 0 < e4 -> e4 <= e0 ->
  exists R, reduce_rep eigh eig rand e1 e2 e3 e4 r = Ok R /\ reduction T d r R.
Proof using hr l0 d0 real.
move=> hM [V [w [uV MV]]] hS; have [Y [eY [sY gY]]] := concat_gens hr.
have [a a0 ha] := gap2_small N (mx3 d d Y) (mx3 d d Y); have [b b0 hb] := small_sq C (d * d).
have [e0 p [la lb]] := small2 a0 b0; exists e0 => // eigh e1 ok p1 le.
have N0 : (0 < N)%N by rewrite addn_gt0 l0.
have sm := hb e1 p1 (le_trans le lb); have gp := ha e1 p1 (le_trans le la).
have cE S : intertw N (mx3 d d Y) (mx3 d d Y) S <-> morphism T r r S.
  by rewrite -morphism_gens; split=> h x hx; have := h x hx; rewrite !gY.
have [k [B [eb [sb [_ fr]]]]] := icbP ok p1 N0 d0 d0 sm sY sY gp.
have hB (i : 'I_k) : morphism T r r (mx3 d d B i).
  apply/cE/fr; exists (fun x : nat => (x == i :> nat)%:R); rewrite (bigD1 i) //= eqxx scale1r big1 ?addr0 // => j ne.
  by rewrite (_ : _ == _ = false) ?scale0r //; apply: negbTE.
have cV j : M0 *m col j V = w 0 j *: col j V.
  by rewrite -colM MV colD.
have [chi hchi] : exists chi : 'I_k -> 'I_d -> C, forall (i : 'I_k) j, mx3 d d B i *m col j V = chi i j *: col j V.
  have h (i : 'I_k) : exists f : 'I_d -> C, forall j, mx3 d d B i *m col j V = f j *: col j V.
    have h' (j : 'I_d) : exists s : C, mx3 d d B i *m col j V = s *: col j V.
      by have [s es] := hS _ (hB i) (w 0 j); exists s; apply: es; apply: cV.
    by have [f hf] := fin_all_exists h'; exists f.
  by have [f hf] := fin_all_exists h; exists f.
have [c eM0] := (fr M0).1 ((cE M0).2 hM).
have sumV (f : nat -> C) j : (\sum_(i < k) f i *: mx3 d d B i) *m col j V = (\sum_(i < k) f i * chi i j) *: col j V.
  by rewrite mulmx_suml scaler_suml; apply: eq_bigr => i _; rewrite -scalemxAl hchi scalerA.
have wE j : w 0 j = \sum_(i < k) c i * chi i j.
  apply/eqP; rewrite -subr_eq0; have := col_unit j uV; apply: contraR => nz.
  have : (w 0 j - \sum_(i < k) c i * chi i j) *: col j V = 0 by rewrite scalerBl -cV -sumV -eM0 subrr.
  by move/eqP; rewrite scaler_eq0 (negbTE nz).
pose L := [seq (\row_i (chi i q.1 - chi i q.2) : 'rV[C]_k) | q <- enum [finType of 'I_d * 'I_d] & w 0 q.1 != w 0 q.2].
exists k, L; split.
  apply/allP=> _ /mapP[q + ->]; rewrite mem_filter => /andP[ne _]; apply: contra_neq ne => /rowP z.
  by rewrite !wE; apply: eq_bigr => i _; congr (_ * _); apply/eqP; rewrite -subr_eq0; have := z i; rewrite !mxE => ->.
move=> rand rk hL eig okg; pose f i := get (rand k) [:: i]; pose mu j := \sum_(i < k) f i * chi i j.
have sep j j' : mu j = mu j' -> w 0 j = w 0 j'.
  move=> E; apply/eqP/negPn/negP => ne.
  have : (\row_i (chi i j - chi i j') : 'rV[C]_k) \in L.
    by apply/mapP; exists (j, j') => //; rewrite mem_filter ne mem_enum.
  move/hL/eqP; apply; transitivity (mu j - mu j'); last by rewrite E subrr.
  by rewrite /mu -sumrB; apply: eq_bigr => i _; rewrite mxE mulrC mulrBr.
have [M [eM sM gM]] : exists M, [/\ draw eigh rand e1 Y = Ok M, shape M = [:: d; d] & mx2 d d M = \sum_(i < k) f i *: mx3 d d B i].
  rewrite /draw eb /= /len sb /= /einsum2 /einsum_ops /= rk sb /= eqxx /=.
  eexists; split; [reflexivity | by [] |].
  apply/matrixP=> i j; rewrite !mxE summxE /=.
  by apply: eq_bigr => x _; rewrite /term /= /lookup0 /= !mxE mulr1.
have dV : mx2 d d M *m V = V *m diag_mx (\row_j mu j) by apply: col_eq => j; rewrite colM colD mxE gM sumV.
apply: (C61_multiplicity_free hr l0 d0 real ok okg eY eM sM).
- by apply/cE/fr; exists f.
- by exists V, (\row_j mu j).
- move=> S mS x.
  have uE (v : 'cV[C]_d) : mx2 d d M *m v = x *: v -> forall j, mu j * (invmx V *m v) j 0 = x * (invmx V *m v) j 0.
    move=> hv j; have : diag_mx (\row_j mu j) *m (invmx V *m v) = x *: (invmx V *m v).
      have eM' : mx2 d d M = V *m diag_mx (\row_j mu j) *m invmx V by rewrite -dV mulmxK.
      by rewrite scalemxAr -hv eM' !mulmxA mulVmx // mul1mx.
    by rewrite mul_diag_mx => /colP/(_ j); rewrite !mxE.
  have [j0 /eqP mj|no] := pickP (fun j => mu j == x); last first.
    exists 0 => v /uE hv; rewrite scale0r (_ : v = 0) ?mulmx0 //.
    rewrite -[v](mulKVmx uV) (_ : invmx V *m v = 0) ?mulmx0 //; apply/colP=> j; rewrite [RHS]mxE.
    apply/eqP; have /eqP := hv j; rewrite -subr_eq0 -mulrBl mulf_eq0 subr_eq0.
    by have := no j; rewrite /= => ->.
  have [s es] := hS S mS (w 0 j0); exists s => v /uE hv; apply: es.
  rewrite -[v](mulKVmx uV); move: (invmx V *m v) hv => u hv; rewrite mulmxA MV -mulmxA scalemxAr; congr (_ *m _).
  rewrite mul_diag_mx; apply/colP=> j; rewrite !mxE.
  have /eqP := hv j; rewrite -subr_eq0 -mulrBl mulf_eq0 subr_eq0 => /orP[/eqP E|/eqP z].
    by congr (_ * _); apply: sep; rewrite E.
  by rewrite z !mulr0.
Qed.

(** In particular it succeeds for some real weights strictly between 0 and 1, the range
    of np.random.rand. *)
Theorem C61_real_weights (M0 : 'M[C]_d) : morphism T r r M0 -> diagonalizable M0 ->
  (forall S, morphism T r r S -> forall x : C, exists s : C, forall v : 'cV[C]_d, M0 *m v = x *: v -> S *m v = s *: v) ->
  exists2 e1m : C, 0 < e1m & forall eigh e1, eigh_correct eigh -> 0 < e1 -> e1 <= e1m ->
  exists rand, [/\ rand_ok rand, forall n i, (i < n)%N -> 0 < get (rand n) [:: i] < 1 & 
  forall eig, eig_correct eig ->
  exists2 e2m : C, 0 < e2m & forall e2, 0 < e2 -> e2 <= e2m ->
  exists2 e0 : C, 0 < e0 & forall e3 e4, 0 < e3 -> e3 <= e0 -> 0 < e4 -> e4 <= e0 ->
  exists R, reduce_rep eigh eig rand e1 e2 e3 e4 r = Ok R /\ reduction T d r R].
Proof using hr l0 d0 real.
move=> hM dg hS; have [e1m p h] := C61_generic hM dg hS; exists e1m => // eigh e1 ok p1 le.
have [k [L [L0 hL]]] := h eigh e1 ok p1 le.
pose P := \prod_(a <- L) rVpoly a.
have P0 : P != 0.
  rewrite /P; elim: (L) L0 => [|a l IH] /=; first by rewrite big_nil oner_eq0.
  case/andP=> a0 /IH l1; rewrite big_cons mulf_neq0 //; apply: contra_neq a0 => z.
  by rewrite -[a]rVpolyK z linear0.
have [m hm] : exists m : nat, ~~ root P (m.+2%:R^-1).
  pose ts := [seq (m.+2%:R^-1 : C) | m <- iota 0 (size P)].
  have u : uniq ts.
    rewrite map_inj_uniq ?iota_uniq // => x y /invr_inj/eqP; rewrite eqr_nat => /eqP; by case.
  have : ~~ all (root P) ts by apply/negP => al; have := max_poly_roots P0 al u; rewrite size_map size_iota ltnn.
  by case/allPn => _ /mapP[m _ ->] hm; exists m.
set t : C := m.+2%:R^-1 in hm; have t0 : 0 < t by rewrite invr_gt0 ltr0n.
have t1 : t < 1 by rewrite invf_lt1 ?ltr0n // ltr1n.
exists (fun n => Nd [:: n] (fun idx => t ^+ (head 0%N idx).+1)); split=> // [n i _|].
  by rewrite /= exprn_gt0 // exprn_ilt1 // ltW.
apply: hL => // a La /=.
have -> : \sum_(i < k) a 0 i * t ^+ i.+1 = t * (rVpoly a).[t].
  rewrite horner_poly mulr_sumr; apply: eq_bigr => i _; rewrite valK exprS mulrCA.
  by [].
apply: mulf_neq0; first by rewrite gt_eqF.
move: hm; apply: contra => z.
by rewrite /P (big_rem _ La) rootM; apply/orP; left.
Qed.
End Rep.
(** The rotations of the plane. *)
Example C61_rotation_generic : exists2 e1m : C, 0 < e1m & forall e1, 0 < e1 -> e1 <= e1m ->
  exists rand, [/\ rand_ok rand, forall n i, (i < n)%N -> 0 < get (rand n) [:: i] < 1 & 
  exists2 e2m : C, 0 < e2m & forall e2, 0 < e2 -> e2 <= e2m ->
  exists2 e0 : C, 0 < e0 & forall e3 e4, 0 < e3 -> e3 <= e0 -> 0 < e4 -> e4 <= e0 ->
  exists R, reduce_rep (@eigh0 C) eig0 rand e1 e2 e3 e4 (ex_rep (Jr C)) = Ok R /\ reduction (ex_th C) 2 (ex_rep (Jr C)) R].
Proof.
have hJ : morphism (ex_th C) (ex_rep (Jr C)) (ex_rep (Jr C)) (Jr C) by apply/ex_mor.
have [e1m p h] := C61_real_weights (ex_is (Jr C)) isT isT (Jr_real C) hJ (Jr_dg C) (@Jr_sc C).
exists e1m => // e1 p1 le; have [rand [rk r01 hr]] := h _ e1 (@eigh0_correct C) p1 le.
by exists rand; split=> //; apply: hr; apply: C61_eig_exists.
Qed.
End Props.
