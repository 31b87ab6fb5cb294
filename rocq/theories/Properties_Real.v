(** Properties_Real: make_explicitly_real (C76). *)
From Coq Require Import ZArith String Ascii.
From mathcomp Require Import all_ssreflect all_algebra.
From mathcomp Require Import zify.
From Verif Require Import Base McRing Nd NdProofs Reps RepSpec RepProofs Pinv RepOps RepOps2 ReducedProofs LinAlg GsMx LinAlgProofs IcbProofs CgGenProofs Real.
From Verif Require Import Properties_LinAlg.

Set Implicit Arguments.
Unset Strict Implicit.
Unset Printing Implicit Defensive.

Import Order.POrderTheory Order.TotalTheory GRing.Theory Num.Theory.
Local Open Scope ring_scope.

Section Real.
Variable C : numClosedFieldType.
Notation nd := (nd C).
Notation id_ := (fun x : nd => x).
Local Notation cj A := (map_mx conjC A).

(** * Specification *)
(** The matrices R X R^-1 and R H R^-1 are real. *)
Definition real_basis (T : theory C) d (r : rep C) (R : 'M[C]_d) : Prop :=
  [/\ R \in unitmx, forall a, (a < th_l T)%N -> cj (R *m mx3 d d (rX r) a *m invmx R) = R *m mx3 d d (rX r) a *m invmx R &
      forall a, (a < th_h T)%N -> cj (R *m mx3 d d (rH r) a *m invmx R) = R *m mx3 d d (rH r) a *m invmx R].

(** * Matrices *)
Lemma cjK m n (A : 'M[C]_(m, n)) : cj (cj A) = A.
Proof. by apply/matrixP=> i j; rewrite !mxE conjCK. Qed.
Lemma cj_inv n (A : 'M[C]_n) : cj (invmx A) = invmx (cj A).
Proof. exact: map_invmx. Qed.
Lemma cj_unit n (A : 'M[C]_n) : (cj A \in unitmx) = (A \in unitmx).
Proof. exact: map_unitmx. Qed.
Lemma mx3_conj d (x : nd) a : mx3 d d (conj x) a = cj (mx3 d d x a).
Proof. by apply/matrixP=> i j; rewrite !mxE. Qed.
Lemma from_real n (R X : 'M[C]_n) : R \in unitmx -> cj (R *m X *m invmx R) = R *m X *m invmx R ->
  (invmx (cj R) *m R) *m X = cj X *m (invmx (cj R) *m R).
Proof.
move=> uR; rewrite !map_mxM cj_inv => e; have := congr1 (fun M => invmx (cj R) *m M *m R) e.
by rewrite -!mulmxA mulVmx // mulmx1 !mulmxA mulVmx ?cj_unit // mul1mx.
Qed.
Lemma tr_skew n (S X : 'M[C]_n) : X + adj X = 0 -> S *m X = cj X *m S -> S^T *m X = cj X *m S^T.
Proof.
move=> sk e; have aX : adj X = - X by apply/eqP; rewrite -addr_eq0 addrC sk.
have tX : X^T = - cj X by rewrite -[X^T]cjK -/(adj X) aX; apply/matrixP=> i j; rewrite !mxE rmorphN.
have := congr1 trmx e; rewrite !trmx_mul tX (_ : (cj X)^T = - X) ?mulNmx ?mulmxN; last by rewrite -aX; apply/matrixP=> i j; rewrite !mxE.
by move/oppr_inj.
Qed.
Lemma tr_unitary n (S H : 'M[C]_n) : H *m adj H = 1%:M -> S *m H = cj H *m S -> S^T *m H = cj H *m S^T.
Proof.
move=> u e; have u' := mulmx1C u; have := congr1 trmx e; rewrite !trmx_mul (_ : (cj H)^T = adj H) => [e'|]; last by apply/matrixP=> i j; rewrite !mxE.
have u2 : cj H *m H^T = 1%:M by rewrite -[H^T]cjK -/(adj H) -map_mxM u map_mx1.
have := congr1 (fun M => cj H *m M *m H) e'; rewrite !mulmxA u2 mul1mx => ->.
by rewrite -!mulmxA u' mulmx1.
Qed.
Lemma to_real n (Q X : 'M[C]_n) (g : C) : 0 < g -> Q *m cj Q = g%:M -> (Q *m Q) *m X = cj X *m (Q *m Q) ->
  Q \in unitmx /\ cj (Q *m X *m invmx Q) = Q *m X *m invmx Q.
Proof.
move=> g0 e h; have ng : g != 0 by rewrite gt_eqF.
have e1 : Q *m (g^-1 *: cj Q) = 1%:M by rewrite -scalemxAr e scale_scalar_mx mulVf.
have [uQ _] := mulmx1_unit e1; split=> //.
have iQ : invmx Q = g^-1 *: cj Q by rewrite -[LHS]mulmx1 -e1 mulmxA mulVmx // mul1mx.
have cQ : cj Q = g *: invmx Q by rewrite iQ scalerA mulfV // scale1r.
rewrite !map_mxM cj_inv cQ invmxZ; last by rewrite unitmxZ ?unitfE ?unitmx_inv.
rewrite invmxK -scalemxAl -scalemxAr -scalemxAl scalerA mulVf ?scale1r //.
have cX : cj X = Q *m Q *m X *m invmx Q *m invmx Q.
  by rewrite h !mulmxA mulmxK // mulmxK.
by rewrite cX !mulmxA mulVmx // mul1mx mulmxKV.
Qed.

Section Eigh.
Variable eigh : nd -> res (nd * nd).
Hypothesis eighP : eigh_correct eigh.
Variable sqrtm : nd -> res nd.
Hypothesis sqrtmP : sqrtm_correct sqrtm.
Variable eps : C.
Hypothesis eps0 : 0 < eps.
Variable T : theory C.
Hypothesis N0 : (0 < th_l T + th_h T)%N.

(** * The solutions of S rho = conj(rho) S *)
Lemma frame_mem d1 d2 w k (S : nat -> 'M[C]_(d1, d2)) K i : frame w k S K -> (i < k)%N -> K (S i).
Proof.
move=> [_ f] hi; apply/f; exists (fun j => (j == i)%:R); rewrite (bigD1 (Ordinal hi)) //= eqxx scale1r big1 ?addr0 // => j.
by rewrite -val_eqE /= => /negPf->; rewrite scale0r.
Qed.
Lemma line_frame d1 d2 w k (S : nat -> 'M[C]_(d1, d2)) K (S0 : 'M[C]_(d1, d2)) : w != 0 -> frame w k S K -> K S0 -> S0 != 0 ->
  (forall A, K A -> exists s, A = s *: S0) -> k = 1%N.
Proof.
move=> w0 fr k0 n0 line; have [f1 f2] := fr.
have kp : (0 < k)%N.
  rewrite lt0n; apply/eqP=> k_0; move/f2: k0 => [c]; rewrite k_0 big_ord0 => e; by rewrite e eqxx in n0.
apply/eqP; rewrite eqn_leq kp andbT leqNgt; apply/negP=> k1.
have [s0 e0] := line _ (frame_mem fr kp); have [s1 e1] := line _ (frame_mem fr k1).
have nz i s : (i < k)%N -> S i = s *: S0 -> s != 0.
  move=> hi e; apply/eqP=> z; have := f1 i i hi hi; rewrite e z scale0r mul0mx mxtrace0 eqxx mul1r => /esym/eqP; exact/negP.
have n00 := nz _ _ kp e0; have n1 := nz _ _ k1 e1.
have e10 : S 1%N = (s1 / s0) *: S 0%N by rewrite e1 e0 scalerA -mulrA mulVf // mulr1.
have := f1 1%N 0%N k1 kp; rewrite e10 -scalemxAl mxtraceZ f1 // eqxx mul1r mul0r => /eqP.
by rewrite !mulf_eq0 invr_eq0 (negPf n00) (negPf n1) (negPf w0).
Qed.

(** * C76: make_explicitly_real (real.py:12-20) *)
Theorem C76_real d (r : rep C) : is_rep T d r -> is_rep T d (conjugate r) -> (0 < d)%N ->
  (d * d)%:R * eps ^+ 2 < 1 -> gap_rep T d d r (conjugate r) eps ->
  exact_unitary T d r -> irreducible T d r -> (exists R, real_basis T r (R : 'M_d)) ->
  exists r', [/\ make_explicitly_real id_ eigh sqrtm eps r = Ok r', is_rep T d r',
    exists Q : 'M[C]_d, [/\ Q \in unitmx,
      forall a, (a < th_l T)%N -> mx3 d d (rX r') a = Q *m mx3 d d (rX r) a *m invmx Q &
      forall a, (a < th_h T)%N -> mx3 d d (rH r') a = Q *m mx3 d d (rH r) a *m invmx Q],
    forall a, (a < th_l T)%N -> cj (mx3 d d (rX r') a) = mx3 d d (rX r') a &
    forall a, (a < th_h T)%N -> cj (mx3 d d (rH r') a) = mx3 d d (rH r') a].
Proof.
case: d => // d; set D := d.+1 => hr hc d0 ne gp [uH uX] irr [R [uR rX_ rH_]].
have D0 : D%:R != 0 :> C by rewrite pnatr_eq0.
have [k [b [eb [sb fr]]]] := rep_icbP eighP eps0 hr hc N0 d0 d0 ne gp.
have [S0 eS0] : exists S0, S0 = invmx (cj R) *m R by eexists.
have uS0 : S0 \in unitmx by rewrite eS0 unitmx_mul unitmx_inv cj_unit uR.
have mor (A : 'M[C]_D) : morphism T r (conjugate r) A <->
    (forall a, (a < th_l T)%N -> A *m mx3 D D (rX r) a = cj (mx3 D D (rX r) a) *m A) /\
    (forall a, (a < th_h T)%N -> A *m mx3 D D (rH r) a = cj (mx3 D D (rH r) a) *m A).
  by split=> [] [x y]; split=> a ha; [have := x a ha|have := y a ha|have := x a ha|have := y a ha]; rewrite mx3_conj.
have m0 : morphism T r (conjugate r) S0.
  by apply/mor; rewrite eS0; split=> a ha; apply: from_real => //; [exact: rX_|exact: rH_].
have line A : morphism T r (conjugate r) A -> exists s, A = s *: S0.
  move=> mA; have [|c ec] := @schur C T D r (invmx S0 *m A) d0 irr.
    move/mor: mA => [ax ah]; move/mor: m0 => [bx bh].
    have st (X : 'M[C]_D) : A *m X = cj X *m A -> S0 *m X = cj X *m S0 -> invmx S0 *m A *m X = X *m (invmx S0 *m A).
      move=> e1 e2; rewrite -mulmxA e1.
      have -> : cj X = S0 *m X *m invmx S0 by rewrite e2 mulmxK.
      by rewrite -!mulmxA mulKmx.
    by split=> a ha; apply: st; [exact: ax|exact: bx|exact: ah|exact: bh].
  by exists c; rewrite -mul_mx_scalar -ec mulKVmx.
have S0n : S0 != 0 by apply/eqP=> z; move: uS0; rewrite z unitmxE det0 unitr0.
have k1 : k = 1%N by apply: (line_frame D0 fr m0 S0n line).
subst k; set S := mx3 D D b 0; have mS : morphism T r (conjugate r) S by apply: (frame_mem fr).
have [s es] := line _ mS; have [fr1 _] := fr; have trS := fr1 0%N 0%N isT isT; rewrite eqxx mul1r -/S in trS.
have sS : S *m cj S = (s * s^*)%:M.
  rewrite es map_mxZ -scalemxAl -scalemxAr scalerA eS0 map_mxM cj_inv cjK mulmxA.
  by rewrite -(mulmxA _ R) mulmxV // mulmx1 mulVmx ?cj_unit // scale_scalar_mx mulr1.
have mT : morphism T r (conjugate r) S^T.
  move/mor: mS => [ax ah]; apply/mor; split=> a ha; [apply: tr_skew; [exact: uX|exact: ax]|apply: tr_unitary; [exact: uH|exact: ah]].
have s0 : s != 0.
  apply/eqP=> z; move: trS; rewrite es z scale0r mul0mx mxtrace0 => /esym/eqP; exact/negP.
have [t0 et0] := line _ mT; pose t := t0 / s; have et : S^T = t *: S by rewrite et0 es scalerA -mulrA mulVf // mulr1.
have tt : t * t = 1.
  have e2 : S = t *: (t *: S) by rewrite -{1}(trmxK S) et linearZ /= et.
  have : (t * t - 1) *: S == 0 by rewrite scalerBl scale1r -scalerA -e2 subrr.
  rewrite scaler_eq0 subr_eq0 => /orP[/eqP //|]; rewrite es scaler_eq0 (negPf s0) (negPf S0n) //.
have sa : S *m adj S = (t^* * (s * s^*))%:M by rewrite /adj et map_mxZ -scalemxAr sS scale_scalar_mx.
have pos : 0 < s * s^* by rewrite mul_conjC_gt0.
have t1 : t = 1.
  have : (t - 1) * (t + 1) == 0 by rewrite mulrDr mulr1 mulrBl mul1r tt addrA subrK subrr.
  rewrite mulf_eq0 subr_eq0 addr_eq0 => /orP[/eqP //|/eqP tn].
  move: trS; rewrite sa mxtrace_scalar tn rmorphN1 mulN1r => e.
  have := ltr0n C D; rewrite -e mulNrn oppr_gt0 => h; have := pmulrn_lgt0 (s * s^*) (isT : (0 < D)%N).
  by rewrite pos => /(lt_trans h); rewrite ltxx.
have St : S^T = S by rewrite et t1 scale1r.
rewrite t1 rmorph1 mul1r in sa.
have uS : S \in unitmx by rewrite es unitmxZ ?unitfE.
have nS : S *m adj S = adj S *m S.
  have u : S *m ((s * s^*)^-1 *: adj S) = 1%:M by rewrite -scalemxAr sa scale_scalar_mx mulVf // gt_eqF.
  have := mulmx1C u; rewrite -scalemxAl -u -scalemxAr => /scalerI -> //; by rewrite invr_eq0 gt_eqF.
have ssl : shape (slice0 b 0) = [:: D; D] by rewrite /slice0 /= sb.
have := sqrtmP ssl; cbv zeta; rewrite mx3_slice -/S => /(_ nS uS) [Q [eQ shQ QQ [p ep]]].
have [g g0 eg] := sqrt_real St sa pos ep QQ.
set q := mx2 D D Q in QQ ep eg.
have tr X : S *m X = cj X *m S -> q \in unitmx /\ cj (q *m X *m invmx q) = q *m X *m invmx q.
  by rewrite -QQ; apply: to_real g0 eg.
have uq : q \in unitmx by move: uS; rewrite -QQ unitmx_mul => /andP[].
have [r' [er [hr' [_ [gX gH]]]]] := change_basis_unit hr shQ uq.
move/mor: mS => [mX mH].
have RX a : (a < th_l T)%N -> cj (mx3 D D (rX r') a) = mx3 D D (rX r') a.
  by move=> ha; rewrite gX //; have [_ ->] := tr _ (mX a ha).
have RH a : (a < th_h T)%N -> cj (mx3 D D (rH r') a) = mx3 D D (rH r') a.
  by move=> ha; rewrite gH //; have [_ ->] := tr _ (mH a ha).
exists r'; split=> //; last by exists q.
rewrite /make_explicitly_real eb /= /len sb /= eQ /= er /=.
suff -> : norm_imag (rX r') = 0 by rewrite lt_gtF // ?invr_gt0 ?exprn_gt0 ?ltr0n.
rewrite /norm_imag big1 ?sqrtC0 // => i _; have := unravel_valid (ltn_ord i).
move: (unravel _ _) => u; rewrite (ir_sX hr'); case: u => [|x [|y [|z [|? ?]]]]; rewrite ?valid_cons ?andbF //= => /and4P[hx hy hz _].
have /matrixP/(_ (Ordinal hy) (Ordinal hz)) := RX x hx; rewrite !mxE /= => /CrealP.
by move=> /Creal_ImP->; rewrite expr0n.
Qed.

(** No non-zero solution of S rho = conj(rho) S: the ValueError of real.py:14-15. *)
Theorem C76_not_real d (r : rep C) : is_rep T d r -> is_rep T d (conjugate r) -> (0 < d)%N ->
  (d * d)%:R * eps ^+ 2 < 1 -> gap_rep T d d r (conjugate r) eps ->
  (forall S : 'M[C]_d, morphism T r (conjugate r) S -> S = 0) ->
  make_explicitly_real id_ eigh sqrtm eps r = Err ValueError.
Proof.
move=> hr hc d0 ne gp no; have [k [b [eb [sb fr]]]] := rep_icbP eighP eps0 hr hc N0 d0 d0 ne gp.
rewrite /make_explicitly_real eb /= /len sb /=; have [//|k0] := posnP k.
have := no _ (frame_mem fr k0); have [f _] := fr; have := f 0%N 0%N k0 k0 => e z.
by move: e; rewrite z mul0mx mxtrace0 eqxx mul1r => /esym/eqP; rewrite pnatr_eq0; case: (d) d0.
Qed.
(** Two independent solutions, as for a representation that is not irreducible: the assert
    of real.py:16 fails. *)
Theorem C76_several d (r : rep C) (S1 S2 : 'M[C]_d) : is_rep T d r -> is_rep T d (conjugate r) -> (0 < d)%N ->
  (d * d)%:R * eps ^+ 2 < 1 -> gap_rep T d d r (conjugate r) eps ->
  morphism T r (conjugate r) S1 -> morphism T r (conjugate r) S2 -> S1 != 0 -> (forall c, S2 != c *: S1) ->
  make_explicitly_real id_ eigh sqrtm eps r = Err AssertionError.
Proof.
move=> hr hc d0 ne gp m1 m2 n1 ind; have [k [b [eb [sb fr]]]] := rep_icbP eighP eps0 hr hc N0 d0 d0 ne gp.
have [_ sp] := fr; move/sp: m1 => [c1 e1]; move/sp: m2 => [c2 e2].
rewrite /make_explicitly_real eb /= /len sb /=; case: k fr sb sp e1 e2 => [|[|k]] //= fr sb sp e1 e2.
  by move: n1; rewrite e1 big_ord0 eqxx.
rewrite big_ord1 in e1; rewrite big_ord1 in e2.
have c0 : c1 (@ord0 0) != 0 by apply/eqP=> z; move: n1; rewrite e1 z scale0r eqxx.
by have := ind (c2 (@ord0 0) / c1 (@ord0 0)); rewrite e1 e2 scalerA -mulrA mulVf // mulr1 eqxx.
Qed.
End Eigh.

(** Whatever sqrtm, eigh and the rounding do, a returned representation has real continuous
    generators up to 1e-10. *)
Theorem C76_checked rnd eigh sqrtm eps (r r' : rep C) : make_explicitly_real rnd eigh sqrtm eps r = Ok r' ->
  norm_imag (rX r') <= tol10 C.
Proof.
rewrite /make_explicitly_real; case: (rep_icb _ _ _ _ _) => //= S; case: ifP => // _; case: (passert _) => //= _.
case: (sqrtm _) => //= Q; case: (change_basis _ _) => //= r0; case: ifP => // h [<-].
have p : 0 <= norm_imag (rX r0).
  by rewrite sqrtC_ge0 sumr_ge0 // => i _; rewrite real_exprn_even_ge0 // Creal_Im.
have q : 0 <= tol10 C by rewrite invr_ge0 exprn_ge0 ?ler0n.
by rewrite real_leNgt ?h ?ger0_real.
Qed.

(** * Examples *)
(** The weight 1 of U(1) is not equivalent to its conjugate. *)
Example C76_example_not_real : make_explicitly_real id_ (@eigh0 C) (@sqrtm0 C) (eps4 C) (u1 C [:: 1]) = Err ValueError.
Proof.
apply: (C76_not_real (@eigh0_correct C) _ (eps4_gt0 C) _ (u1_ok C [:: 1]) (u1_conj C [:: 1]) isT (eps4_small C (n := 1) isT) (@u1_conj_gap C [:: 1])) => //.
move=> S [h _]; have := h 0%N isT; rewrite (u1_conjX C [:: 1]) (u1X C [:: 1]) => /matrixP/(_ 0 0); rewrite u1w_mul mul_u1w /= => /eqP.
rewrite mulr1 -subr_eq0 => q; apply/matrixP=> i j; rewrite !ord1 mxE; apply/eqP.
have : 'i * 2%:R * S 0 0 == 0.
  move: q; suff -> : S 0 0 * 'i - 'i * (-1)%:~R * S 0 0 = 'i * 2%:R * S 0 0 by [].
  by rewrite mulrN1z; mcring.
by rewrite !mulf_eq0 (negPf (neq0Ci C)) pnatr_eq0.
Qed.
(** The weights (1, -1) have two independent solutions. *)
Example C76_example_several : make_explicitly_real id_ (@eigh0 C) (@sqrtm0 C) (eps4 C) (u1 C [:: 1; -1]) = Err AssertionError.
Proof.
pose E i j : 'M[C]_2 := delta_mx (inord i) (inord j).
have m i j : (i < 2)%N -> (j < 2)%N -> i != j -> morphism (u1_theory C) (u1 C [:: 1; -1]) (conjugate (u1 C [:: 1; -1])) (E i j).
  move=> hi hj ij; split=> // -[|a] // _; rewrite (u1_conjX C [:: 1; -1]) (u1X C [:: 1; -1]); apply/matrixP=> x l; rewrite u1w_mul mul_u1w mxE.
  case: eqP => [->|_]; last by rewrite !(mul0r, mulr0).
  case: eqP => [->|_]; last by rewrite !(mul0r, mulr0).
  by rewrite !(@inordK 1) //= mul1r mulr1; move: i j hi hj ij => [|[|i]] [|[|j]] //= _ _ _; rewrite ?opprK.
apply: (C76_several (S1 := E 0%N 1%N) (S2 := E 1%N 0%N) (@eigh0_correct C) _ (eps4_gt0 C) _ (u1_ok C [:: 1; -1]) (u1_conj C [:: 1; -1]) isT (eps4_small C (n := 4) isT) (@u1_conj_gap C [:: 1; -1])) => //; try exact: m.
  by apply/eqP=> /matrixP/(_ (inord 0) (inord 1)); rewrite !mxE !eqxx => /eqP; rewrite oner_eq0.
move=> c; apply/eqP=> /matrixP/(_ (inord 1) (inord 0)); rewrite !mxE !eqxx -!val_eqE /= !inordK //= mulr0 => /eqP.
by rewrite oner_eq0.
Qed.

(** The dihedral group of the square: a rotation diag(i, -i) and the reflection that swaps
    the two basis vectors.  Irreducible, not real as given, equivalent to a real one. *)
Definition dih_theory : theory C := Theory 0 2 (fun _ _ _ => 0) (fun _ _ => False) (fun _ => False).
Definition dih : rep C := MkRep (zeros [:: 0; 0; 0]%N) (zeros [:: 0; 2; 2]%N)
  (Nd [:: 2; 2; 2]%N (fun idx => if idx == [:: 0; 0; 0]%N then 'i else if idx == [:: 0; 1; 1]%N then - 'i
     else ((idx == [:: 1; 0; 1]%N) || (idx == [:: 1; 1; 0]%N))%:R)).
Local Notation i0 := (inord 0 : 'I_2).
Local Notation i1 := (inord 1 : 'I_2).
Local Notation H0 := (mx3 2 2 (rH dih) 0).
Local Notation H1 := (mx3 2 2 (rH dih) 1).
Lemma ii : 'i * 'i = -1 :> C.
Proof. by rewrite -expr2 sqrCi. Qed.
Ltac ex2 := rewrite ?(summxE, sum2, mxE) -?val_eqE /= ?inordK //= ?(rmorphN, rmorph1, rmorph0, conjCi) ?(mulrN, mulNr, mulr0, mul0r, mulr1, mul1r, addr0, add0r, opprK, ii, oppr0).
Lemma dih_ok : is_rep dih_theory 2 dih.
Proof. by split=> //; split. Qed.
Lemma dih_conj : is_rep dih_theory 2 (conjugate dih).
Proof. by split=> //; split. Qed.
Lemma dih_unitary : exact_unitary dih_theory 2 dih.
Proof. by split=> // -[|[|a]] // _; apply: mx22P; ex2. Qed.
Lemma dih_lap S : let L := lap 2 (gens 0 2 (conjugate dih)) (gens 0 2 dih) S in
  [/\ L i0 i0 = 4%:R * S i0 i0 + 2%:R * (S i0 i0 - S i1 i1), L i0 i1 = 2%:R * (S i0 i1 - S i1 i0),
      L i1 i0 = 2%:R * (S i1 i0 - S i0 i1) & L i1 i1 = 4%:R * S i1 i1 + 2%:R * (S i1 i1 - S i0 i0)].
Proof.
rewrite /= /lap !big_ord_recl big_ord0 addr0 /= /ad /gens /=.
have e4 : 4%:R = - ('i * 'i) * 4%:R :> C by rewrite ii opprK mul1r.
by split; rewrite ?(sum2, mxE) -?val_eqE /= ?inordK //= ?(rmorphN, rmorph1, rmorph0, conjCi) /=; try rewrite e4; mcring.
Qed.
Lemma dih_gap : gap_rep dih_theory 2 2 dih (conjugate dih) (eps4 C).
Proof.
move=> c S S0 e; have [] := dih_lap S; rewrite /= e !mxE.
set p := S _ _; set t := S _ _; set q := S _ _; set r := S _ _ => ep eq er et.
have cs (x : C) n : (0 < n)%N -> x != 0 -> c * x = n%:R * x -> c = 0 \/ eps4 C <= c.
  by move=> n0 x0 /(mulIf x0) ->; right; exact: eps4_le.
have [u0|u0] := eqVneq (p + t) 0; last by apply: (cs _ 4%N _ u0) => //; rewrite mulrDr ep et; mcring.
have [v0|v0] := eqVneq (p - t) 0; last by apply: (cs _ 8%N _ v0) => //; rewrite mulrBr ep et; mcring.
have [w0|w0] := eqVneq (q - r) 0; last by apply: (cs _ 4%N _ w0) => //; rewrite mulrBr eq er; mcring.
have [c0|c0] := eqVneq c 0; first by left.
have two : 2%:R != 0 :> C by rewrite pnatr_eq0.
have p0 : p = 0.
  have e2 : 2%:R * p = (p + t) + (p - t) by mcring.
  by apply/eqP; rewrite -(inj_eq (mulfI two)) mulr0 e2 u0 v0 addr0.
have t0 : t = 0 by move: u0; rewrite p0 add0r.
have q0 : q = 0 by apply/eqP; rewrite -(inj_eq (mulfI c0)) mulr0 eq w0 mulr0.
have r0 : r = 0 by move: w0; rewrite q0 sub0r => /eqP; rewrite oppr_eq0 => /eqP.
by case/eqP: S0; apply: mx22P; rewrite [RHS]mxE -/p -/q -/r -/t.
Qed.
Lemma ord2 (j : 'I_2) : j = i0 \/ j = i1.
Proof. by case: j => [[|[|j]] hj] //; [left|right]; apply/val_inj; rewrite /= inordK. Qed.
Lemma rv2P (x y : 'rV[C]_2) : x 0 i0 = y 0 i0 -> x 0 i1 = y 0 i1 -> x = y.
Proof. by move=> h0 h1; apply/rowP=> j; have [->|->] := ord2 j. Qed.
Lemma dih_irr : irreducible dih_theory 2 dih.
Proof.
move=> U [_ inv]; have [->|nU] := eqVneq U 0; [by left|right].
have st a (x : 'rV[C]_2) : (a < 2)%N -> (x <= U)%MS -> (x *m (mx3 2 2 (rH dih) a)^T <= U)%MS.
  by move=> ha hx; apply: submx_trans (inv a ha); apply: submxMr.
have b0 : (delta_mx 0 i0 : 'rV[C]_2) *m H1^T = delta_mx 0 i1.
  by apply: rv2P; rewrite !mxE sum2 !mxE -!val_eqE /= !inordK //=; mcring.
have b1 : (delta_mx 0 i1 : 'rV[C]_2) *m H1^T = delta_mx 0 i0.
  by apply: rv2P; rewrite !mxE sum2 !mxE -!val_eqE /= !inordK //=; mcring.
suff dU : ((delta_mx 0 i0 : 'rV[C]_2) <= U)%MS /\ ((delta_mx 0 i1 : 'rV[C]_2) <= U)%MS.
  rewrite -sub1mx; apply/row_subP=> k; rewrite row1; by case: dU => d0 d1; have [->|->] := ord2 k.
have /matrix0Pn[i [j nz]] := nU.
pose x := row i U; have xU : (x <= U)%MS by rewrite row_sub.
have z0 : (x *m H0^T) 0 i0 = 'i * U i i0 by rewrite mxE sum2 !mxE /= !inordK //=; mcring.
have z1 : (x *m H0^T) 0 i1 = - 'i * U i i1 by rewrite mxE sum2 !mxE /= !inordK //=; mcring.
have two (c : C) : c != 0 -> 2%:R * c != 0 by move=> ?; rewrite mulf_neq0 // pnatr_eq0.
have sc (c : C) (v : 'rV[C]_2) : c != 0 -> (c *: v <= U)%MS -> (v <= U)%MS.
  by move=> c0 h; have := scalemx_sub c^-1 h; rewrite scalerA mulVf // scale1r.
have comb (c : C) : ((x + c *: (x *m H0^T))%R <= U)%MS by apply: addmx_sub => //; apply: scalemx_sub; apply: st.
have vE (y z : 'rV[C]_2) (c : C) k : (y + c *: z) 0 k = y 0 k + c * z 0 k by rewrite !mxE.
have w0 : x + - 'i *: (x *m H0^T) = (2%:R * U i i0) *: delta_mx 0 i0.
  apply: rv2P; rewrite vE ?z0 ?z1 !mxE -!val_eqE /= !inordK //=.
    by rewrite mulrA mulNr ii; mcring.
  by rewrite mulrA mulrNN ii; mcring.
have w1 : x + 'i *: (x *m H0^T) = (2%:R * U i i1) *: delta_mx 0 i1.
  apply: rv2P; rewrite vE ?z0 ?z1 !mxE -!val_eqE /= !inordK //=.
    by rewrite mulrA ii; mcring.
  by rewrite mulrA mulrN ii; mcring.
have [ej|ej] := ord2 j; rewrite ej in nz.
  have d0 : ((delta_mx 0 i0 : 'rV[C]_2) <= U)%MS by apply: sc (two _ nz) _; rewrite -w0.
  by split=> //; rewrite -b0; apply: st.
have d1 : ((delta_mx 0 i1 : 'rV[C]_2) <= U)%MS by apply: sc (two _ nz) _; rewrite -w1.
by split=> //; rewrite -b1; apply: st.
Qed.
Definition dihR : 'M[C]_2 := \matrix_(i, j) (if i == i0 then 1 else if j == i0 then 'i else - 'i).
Lemma dihR_unit : dihR \in unitmx.
Proof.
pose V : 'M[C]_2 := \matrix_(i, j) (2%:R^-1 * (if j == i0 then 1 else if i == i0 then - 'i else 'i)).
have e : dihR *m V = 1%:M.
  have h : 2%:R^-1 + 2%:R^-1 = 1 :> C by rewrite -mulr2n -[2%:R^-1]mul1r -mulrnAl divff // pnatr_eq0.
  apply: mx22P; rewrite mxE sum2 !mxE -!val_eqE /= !inordK //= ?mul1r ?mulr1 ?mulr1n ?mulr0n ?addr0 //.
  - by mcring.
  - by mcring.
  - by transitivity (- ('i * 'i) * (2%:R^-1 + 2%:R^-1) : C); [mcring|rewrite h ii opprK mulr1].
by have [] := mulmx1_unit e.
Qed.
Lemma dih_real : real_basis dih_theory dih dihR.
Proof.
have cR : map_mx conjC dihR = dihR *m H1.
  by apply: mx22P; rewrite !mxE sum2 !mxE -!val_eqE /= !inordK //= ?(rmorph1, rmorphN, conjCi) /=; mcring.
split=> //; first exact: dihR_unit.
have uc : map_mx conjC dihR \in unitmx by rewrite cj_unit dihR_unit.
have key (H : 'M[C]_2) : H1 *m map_mx conjC H = H *m H1 ->
    map_mx conjC (dihR *m H *m invmx dihR) = dihR *m H *m invmx dihR.
  move=> e; rewrite !map_mxM cj_inv; apply: (can_inj (mulmxK uc)).
  rewrite mulmxKV // [in RHS]cR [in RHS]mulmxA mulmxKV ?dihR_unit // cR -mulmxA e mulmxA //.
by move=> [|[|a]] // _; apply: key; apply: mx22P; rewrite !mxE !sum2 !mxE /= !inordK //= ?(rmorph1, rmorph0, rmorphN, conjCi) /=; mcring.
Qed.
(** The matrices of the rotation and of the reflection become real. *)
Example C76_example : exists r', make_explicitly_real id_ (@eigh0 C) (@sqrtm0 C) (eps4 C) dih = Ok r' /\
  (forall a, (a < 2)%N -> map_mx conjC (mx3 2 2 (rH r') a) = mx3 2 2 (rH r') a) /\ map_mx conjC H0 != H0.
Proof.
have [r' [e _ _ _ h]] := C76_real (@eigh0_correct C) (@sqrtm0_correct C) (eps4_gt0 C) (isT : (0 < th_l dih_theory + th_h dih_theory)%N)
  dih_ok dih_conj isT (eps4_small C (n := 4) isT) dih_gap dih_unitary dih_irr (ex_intro _ _ dih_real).
exists r'; split=> //; split; first exact: h.
apply/eqP=> /matrixP/(_ i0 i0); rewrite !mxE /= !inordK //= conjCi => /eqP.
by rewrite eq_sym -addr_eq0 -mulr2n -mulr_natl mulf_eq0 pnatr_eq0 (negPf (neq0Ci C)).
Qed.
End Real.
