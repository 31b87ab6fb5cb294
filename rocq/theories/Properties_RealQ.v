(** Properties_RealQ: make_explicitly_real does not check the discrete generators (C76). *)
From Coq Require Import ZArith String Ascii.
From mathcomp Require Import all_ssreflect all_algebra.
From mathcomp Require Import zify.
From Verif Require Import Base McRing Nd NdProofs Reps RepSpec RepProofs Pinv RepOps RepOps2 ReducedProofs LinAlg GsMx LinAlgProofs IcbProofs CgGenProofs Real.
From Verif Require Import Properties_LinAlg Properties_Real.

Set Implicit Arguments.
Unset Strict Implicit.
Unset Printing Implicit Defensive.

Import Order.POrderTheory Order.TotalTheory GRing.Theory Num.Theory.
Local Open Scope ring_scope.

Section Quaternion.
Variable C : numClosedFieldType.
Notation nd := (nd C).
Notation id_ := (fun x : nd => x).
Local Notation cj A := (map_mx conjC A).
Local Notation i0 := (inord 0 : 'I_2).
Local Notation i1 := (inord 1 : 'I_2).

(** The quaternion group: diag(i, -i) and [[0, -1], [1, 0]]. *)
Definition quat_theory : theory C := Theory 0 2 (fun _ _ _ => 0) (fun _ _ => False) (fun _ => False).
Definition quat : rep C := MkRep (zeros [:: 0; 0; 0]%N) (zeros [:: 0; 2; 2]%N)
  (Nd [:: 2; 2; 2]%N (fun idx => if idx == [:: 0; 0; 0]%N then 'i else if idx == [:: 0; 1; 1]%N then - 'i
     else if idx == [:: 1; 0; 1]%N then -1 else (idx == [:: 1; 1; 0]%N)%:R)).
Local Notation H0 := (mx3 2 2 (rH quat) 0).
Local Notation H1 := (mx3 2 2 (rH quat) 1).
Ltac ex2 := rewrite ?(summxE, sum2, mxE) -?val_eqE /= ?inordK //= ?(rmorphN, rmorph1, rmorph0, conjCi) ?(mulrN, mulNr, mulr0, mul0r, mulr1, mul1r, addr0, add0r, opprK, ii, oppr0).
Lemma quat_ok : is_rep quat_theory 2 quat.
Proof. by split=> //; split. Qed.
Lemma quat_conj : is_rep quat_theory 2 (conjugate quat).
Proof. by split=> //; split. Qed.
Lemma quat_unitary : exact_unitary quat_theory 2 quat.
Proof. by split=> // -[|[|a]] // _; apply: mx22P; ex2. Qed.
Lemma quat_lap S : let L := lap 2 (gens 0 2 (conjugate quat)) (gens 0 2 quat) S in
  [/\ L i0 i0 = 4%:R * S i0 i0 + 2%:R * (S i0 i0 - S i1 i1), L i0 i1 = 2%:R * (S i0 i1 + S i1 i0),
      L i1 i0 = 2%:R * (S i1 i0 + S i0 i1) & L i1 i1 = 4%:R * S i1 i1 + 2%:R * (S i1 i1 - S i0 i0)].
Proof.
rewrite /= /lap !big_ord_recl big_ord0 addr0 /= /ad /gens /=.
have e4 : 4%:R = - ('i * 'i) * 4%:R :> C by rewrite ii opprK mul1r.
by split; rewrite ?(sum2, mxE) -?val_eqE /= ?inordK //= ?(rmorphN, rmorph1, rmorph0, conjCi) /=; try rewrite e4; mcring.
Qed.
Lemma quat_gap : gap_rep quat_theory 2 2 quat (conjugate quat) (eps4 C).
Proof.
move=> c S S0 e; have [] := quat_lap S; rewrite /= e !mxE.
set p := S _ _; set t := S _ _; set q := S _ _; set r := S _ _ => ep eq er et.
have cs (x : C) n : (0 < n)%N -> x != 0 -> c * x = n%:R * x -> c = 0 \/ eps4 C <= c.
  by move=> n0 x0 /(mulIf x0) ->; right; exact: eps4_le.
have [u0|u0] := eqVneq (p + t) 0; last by apply: (cs _ 4%N _ u0) => //; rewrite mulrDr ep et; mcring.
have [v0|v0] := eqVneq (p - t) 0; last by apply: (cs _ 8%N _ v0) => //; rewrite mulrBr ep et; mcring.
have [w0|w0] := eqVneq (q + r) 0; last by apply: (cs _ 4%N _ w0) => //; rewrite mulrDr eq er; mcring.
have [c0|c0] := eqVneq c 0; first by left.
have two : 2%:R != 0 :> C by rewrite pnatr_eq0.
have p0 : p = 0.
  have e2 : 2%:R * p = (p + t) + (p - t) by mcring.
  by apply/eqP; rewrite -(inj_eq (mulfI two)) mulr0 e2 u0 v0 addr0.
have t0 : t = 0 by move: u0; rewrite p0 add0r.
have q0 : q = 0 by apply/eqP; rewrite -(inj_eq (mulfI c0)) mulr0 eq w0 mulr0.
have r0 : r = 0 by move: w0; rewrite q0 add0r.
by case/eqP: S0; apply: mx22P; rewrite [RHS]mxE -/p -/q -/r -/t.
Qed.
Lemma quat_irr : irreducible quat_theory 2 quat.
Proof.
move=> U [_ inv]; have [->|nU] := eqVneq U 0; [by left|right].
have st a (x : 'rV[C]_2) : (a < 2)%N -> (x <= U)%MS -> (x *m (mx3 2 2 (rH quat) a)^T <= U)%MS.
  by move=> ha hx; apply: submx_trans (inv a ha); apply: submxMr.
have b0 : (delta_mx 0 i0 : 'rV[C]_2) *m H1^T = delta_mx 0 i1.
  by apply: rv2P; rewrite !mxE sum2 !mxE -!val_eqE /= !inordK //=; mcring.
have b1 : (delta_mx 0 i1 : 'rV[C]_2) *m H1^T = - 1 *: delta_mx 0 i0.
  by apply: rv2P; rewrite !mxE sum2 !mxE -!val_eqE /= !inordK //=; mcring.
suff dU : ((delta_mx 0 i0 : 'rV[C]_2) <= U)%MS /\ ((delta_mx 0 i1 : 'rV[C]_2) <= U)%MS.
  rewrite -sub1mx; apply/row_subP=> k; rewrite row1; by case: dU => d0 d1; have [->|->] := ord2 k.
have /matrix0Pn[i [j nz]] := nU.
pose x := row i U; have xU : (x <= U)%MS by rewrite row_sub.
have z0 : (x *m H0^T) 0 i0 = 'i * U i i0 by rewrite mxE sum2 !mxE /= !inordK //=; mcring.
have z1 : (x *m H0^T) 0 i1 = - 'i * U i i1 by rewrite mxE sum2 !mxE /= !inordK //=; mcring.
have two (c : C) : c != 0 -> 2%:R * c != 0 by move=> ?; rewrite mulf_neq0 // pnatr_eq0.
have sc (c : C) (v : 'rV[C]_2) : c != 0 -> (c *: v <= U)%MS -> (v <= U)%MS.
  by move=> c0 h; have := scalemx_sub c^-1 h; rewrite scalerA mulVf // scale1r.
have comb (c : C) : ((x + c *: (x *m H0^T))%R <= U)%MS by apply: addmx_sub => //; apply: scalemx_sub; apply: st.
have vE (y z : 'rV[C]_2) (c : C) k : (y + c *: z) 0 k = y 0 k + c * z 0 k by rewrite !mxE.
have w0 : x + - 'i *: (x *m H0^T) = (2%:R * U i i0) *: delta_mx 0 i0.
  apply: rv2P; rewrite vE ?z0 ?z1 !mxE -!val_eqE /= !inordK //=.
    by rewrite mulrA mulNr ii; mcring.
  by rewrite mulrA mulrNN ii; mcring.
have w1 : x + 'i *: (x *m H0^T) = (2%:R * U i i1) *: delta_mx 0 i1.
  apply: rv2P; rewrite vE ?z0 ?z1 !mxE -!val_eqE /= !inordK //=.
    by rewrite mulrA ii; mcring.
  by rewrite mulrA mulrN ii; mcring.
have [ej|ej] := ord2 j; rewrite ej in nz.
  have d0 : ((delta_mx 0 i0 : 'rV[C]_2) <= U)%MS by apply: sc (two _ nz) _; rewrite -w0.
  by split=> //; rewrite -b0; apply: st.
have d1 : ((delta_mx 0 i1 : 'rV[C]_2) <= U)%MS by apply: sc (two _ nz) _; rewrite -w1.
by split=> //; apply: (sc (-1)); rewrite ?oppr_eq0 ?oner_eq0 // -b1; apply: st.
Qed.

(** The solutions of S rho = conj(rho) S are the multiples of the second matrix. *)
Lemma quat_mor (A : 'M[C]_2) : morphism quat_theory quat (conjugate quat) A <-> exists s, A = s *: H1.
Proof.
split=> [[_ h]|[s ->]].
  have h0 := h 0%N isT; have h1 := h 1%N isT; exists (A i1 i0).
  have a00 := congr1 (fun M : 'M[C]_2 => M i0 i0) h0; have a11 := congr1 (fun M : 'M[C]_2 => M i1 i1) h0.
  have a01 := congr1 (fun M : 'M[C]_2 => M i0 i0) h1.
  rewrite ?(sum2, mxE) /= ?inordK //= ?(rmorphN, rmorph1, rmorph0, conjCi) !(mulrN, mulNr, mulr0, mul0r, mulr1, mul1r, addr0, add0r, opprK) in a00 a11 a01.
  have z (x : C) : x * 'i = - ('i * x) -> x = 0.
    move=> e; have : 'i * 2%:R * x == 0 by apply/eqP; rewrite -[RHS](addrN ('i * x)) -e; mcring.
    by rewrite !mulf_eq0 (negPf (neq0Ci C)) pnatr_eq0 /= => /eqP.
  apply: mx22P; rewrite !mxE /= ?inordK //= ?(mulr0, mulr1, mulrN) //; first exact: z.
  by apply: z; rewrite -a11 opprK.
split=> // -[|[|a]] // _; apply: mx22P; ex2; mcring.
Qed.

(** An irreducible unitary representation with discrete generators that make_explicitly_real
    returns, without an error, in a form that is not real: line 18 of real.py tests the
    continuous generators only.  No change of basis makes it real. *)
Theorem C76_discrete_refuted eigh sqrtm : eigh_correct eigh -> sqrtm_correct sqrtm ->
  [/\ is_rep quat_theory 2 quat, exact_unitary quat_theory 2 quat, irreducible quat_theory 2 quat,
      forall R, ~ real_basis quat_theory quat (R : 'M_2) &
      exists r', make_explicitly_real id_ eigh sqrtm (eps4 C) quat = Ok r' /\
        ~ (forall a, (a < 2)%N -> cj (mx3 2 2 (rH r') a) = mx3 2 2 (rH r') a)].
Proof.
move=> eighP sqrtmP.
have HH : H1 *m H1 = - 1%:M by apply: mx22P; ex2.
have cH : cj H1 = H1 by apply: mx22P; ex2.
have tH : H1^T = - H1 by apply: mx22P; ex2.
have nob R : ~ real_basis quat_theory quat (R : 'M_2).
  move=> [uR _ rH_]; have [S0 eS0] : exists S0, S0 = invmx (cj R) *m R by eexists.
  have /quat_mor[s es] : morphism quat_theory quat (conjugate quat) S0.
    by split=> // a ha; rewrite mx3_conj eS0; apply: from_real => //; apply: rH_.
  have : S0 *m cj S0 = 1%:M.
    by rewrite eS0 map_mxM cj_inv cjK mulmxA -(mulmxA _ R) mulmxV // mulmx1 mulVmx ?cj_unit.
  rewrite es map_mxZ cH -scalemxAl -scalemxAr scalerA HH => /matrixP/(_ 0 0); rewrite !mxE eqxx mulr1n mulrN1 => e.
  by have := mul_conjC_ge0 s; rewrite -[s * s^*]opprK e oppr_ge0 ler10.
split; [exact: quat_ok|exact: quat_unitary|exact: quat_irr|exact: nob|].
have [k [b [eb [sb fr]]]] := rep_icbP eighP (eps4_gt0 C) quat_ok quat_conj isT isT isT (eps4_small C (n := 4) isT) quat_gap.
have n2 : 2%:R != 0 :> C by rewrite pnatr_eq0.
have H1n : H1 != 0 by apply/eqP=> z; move/matrixP/(_ 0 0): HH; rewrite z mul0mx !mxE eqxx => /esym/eqP; rewrite oppr_eq0 oner_eq0.
have m1 : morphism quat_theory quat (conjugate quat) H1 by apply/quat_mor; exists 1; rewrite scale1r.
have k1 : k = 1%N by apply: (line_frame n2 fr m1 H1n) => A /quat_mor.
subst k; have /quat_mor[s es] := frame_mem fr (isT : (0 < 1)%N).
have s0 : s != 0.
  apply/eqP=> z; have [f _] := fr; have := f 0%N 0%N isT isT.
  by rewrite es z scale0r mul0mx mxtrace0 eqxx mul1r => /esym/eqP; exact/negP.
have uH : H1 \in unitmx.
  have e : H1 *m (- H1) = 1%:M by rewrite mulmxN HH opprK.
  by have [] := mulmx1_unit e.
have ssl : shape (slice0 b 0) = [:: 2; 2]%N by rewrite /slice0 /= sb.
have uS : s *: H1 \in unitmx by rewrite unitmxZ ?unitfE.
have aS : adj (s *: H1) = (- s^*) *: H1.
  have -> : adj (s *: H1) = s^* *: adj H1 by apply/matrixP=> x y; rewrite !mxE rmorphM.
  by rewrite /adj tH map_mxN cH scalerN scaleNr.
have nS : (s *: H1) *m adj (s *: H1) = adj (s *: H1) *m (s *: H1).
  by rewrite aS -!scalemxAl -!scalemxAr !scalerA mulrC.
have := sqrtmP 1%N _ ssl; cbv zeta; rewrite mx3_slice es => /(_ nS uS)[Q [eQ shQ QQ _]].
set q := mx2 2 2 Q in QQ.
have uq : q \in unitmx.
  by move: uS; rewrite -QQ unitmx_mul => /andP[].
have [r' [er [hr' [_ [_ gH]]]]] := change_basis_unit quat_ok shQ uq.
exists r'; split.
  rewrite /make_explicitly_real eb /= /len sb /= eQ /= er /=.
  suff -> : norm_imag (rX r') = 0 by rewrite lt_gtF // ?invr_gt0 ?exprn_gt0 ?ltr0n.
  by rewrite /norm_imag big1 ?sqrtC0 // => -[i hi]; exfalso; move: hi; rewrite (ir_sX hr').
move=> h; apply: (nob q); split=> // a ha; have := h a ha; by rewrite gH.
Qed.
End Quaternion.
