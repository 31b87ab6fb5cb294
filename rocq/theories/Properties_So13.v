(** Property C39: the generators of SO13 and the four-vector representation. *)
From Coq Require Import ZArith String Ascii.
From mathcomp Require Import all_ssreflect all_algebra.
From mathcomp Require Import zify.
From Verif Require Import Base McRing Nd NdProofs Reps RepSpec RepProofs Pinv LinAlg LinAlgProofs CgGenProofs.
From Verif Require Import Su2 SoCgProofs Sl2c Sl2cProofs So13 CasimirGap So13Proofs Properties_SoCg.

Set Implicit Arguments.
Unset Strict Implicit.
Unset Printing Implicit Defensive.

Import Order.Theory GRing.Theory Num.Theory.
Local Open Scope ring_scope.

Section Props.
Variable C : numClosedFieldType.
Notation nd := (nd C).

(** The structure constants of [so13_th] are those of the Lorentz algebra with
    [K, K] = - J. *)
Lemma so13_lorentz d (X H : nat -> 'M[C]_d) : is_mrep (so13_th C) X H -> lorentz_algebra (-1) X.
Proof.
case=> /= cm _ _ J K a; rewrite {}/J {}/K; have m3 : (a %% 3 < 3)%N by exact: ltn_pmod.
have e b c : (a %% 3 == b)%N -> ((a + c) %% 3 = (b + c) %% 3)%N by move=> /eqP <-; rewrite modnDml.
pose c i j k : C := (lorentz (-1) i j k)%:~R.
have {}cm i j : (i < 6)%N -> (j < 6)%N -> X i *m X j - X j *m X i =
    c i j 0%N *: X 0%N + c i j 1%N *: X 1%N + c i j 2%N *: X 2%N + c i j 3%N *: X 3%N + c i j 4%N *: X 4%N + c i j 5%N *: X 5%N.
  by move=> hi hj; rewrite cm // !big_ord_recl big_ord0 addr0 /= !addrA.
rewrite -[a.+2]addn2 -[a.+1]addn1.
case: (a %% 3)%N m3 e => [|[|[|//]]] _ e;
  rewrite (e _ 1%N (eqxx _)) (e _ 2%N (eqxx _)) ![(_ %% 3)%N]/= ![(3 + _)%N]/=.
all: split; rewrite cm // /c /lorentz /eps3 /=.
all: rewrite ?scale0r ?scale1r ?scaleN1r ?addr0 ?add0r //.
Qed.

Lemma conj_comm d (W M A : 'M[C]_d) : adj W *m W = 1%:M -> M *m (W *m A *m adj W) = W *m A *m adj W *m M ->
  adj W *m M *m W *m A = A *m (adj W *m M *m W).
Proof.
move=> u e; transitivity (adj W *m (M *m (W *m A *m adj W)) *m W).
  by rewrite !mulmxA -[_ *m adj W *m W]mulmxA u mulmx1.
by rewrite e !mulmxA u mul1mx.
Qed.

Section So13.
Variable eigh : nd -> res (nd * nd).
Hypothesis eighP : eigh_correct eigh.
Variable eps : C.
Hypothesis eps0 : 0 < eps.
Hypothesis eps1 : eps <= 3%:R / 2%:R.
Variable sqrtm : nd -> res nd.
Hypothesis sqrtmP : sqrtm_correct sqrtm.

(** For every (l, k), even or odd: the code returns a representation of so(1,3), with
    anti-Hermitian rotations and Hermitian boosts, absolutely irreducible, and real
    when l = k.  The dimension bound is the one of gram_schmidt (eps = 1e-4 in the code). *)
Theorem C39_so13 l k : let d := (l.+1 * k.+1)%N in (d * d)%:R * eps ^+ 2 < 1 ->
  exists r, [/\ so13_rep eigh eps sqrtm (l, k) = Ok r, is_rep (so13_th C) d r &
    let X := mx3 d d (rX r) in [/\ lorentz_algebra (-1) X,
      forall a, (a < 6)%N -> adj (X a) = if (a < 3)%N then - X a else X a,
      forall M, (forall a, (a < 6)%N -> M *m X a = X a *m M) -> exists c, M = c%:M &
      l = k -> forall idx, get (rX r) idx \is Num.real]].
Proof.
move=> d small; rewrite /so13_rep.
have [X [-> [sX [[W [uW gW]] [re _]]]]] := so13_X_ok eighP eps0 eps1 sqrtmP small.
rewrite [rbind _ _]/=; set r := MkRep _ _ _; exists r.
have uW' := mulmx1C uW.
have ir : is_rep (so13_th C) d r.
  split=> //=; first by move=> i j c hi hj hc; rewrite lorentz_atE.
  split=> //= i j hi hj; rewrite !gW //.
  have mm A B : W *m A *m adj W *m (W *m B *m adj W) = W *m (A *m B) *m adj W.
    by rewrite !mulmxA -[_ *m adj W *m W]mulmxA uW' mulmx1.
  rewrite !mm -mulmxBl -mulmxBr AB_comm // mulmx_sumr mulmx_suml; apply: eq_bigr => c _.
  by rewrite gW // -scalemxAr -scalemxAl.
split=> //; split; first exact: so13_lorentz (ir_m ir).
- by move=> a ha; rewrite [rX r]/= gW // !adjM adjK AB_adj mulmxA; case: ifP => _; rewrite ?mulmxN ?mulNmx.
- move=> M hM; pose N := adj W *m M *m W.
  have hN a : (a < 6)%N -> N *m AB C l k a = AB C l k a *m N.
    by move=> ha; have := hM a ha; rewrite [rX r]/= gW // => e; exact: conj_comm e.
  have [c eN] := AB_commutant hN; exists c.
  have -> : M = W *m N *m adj W by rewrite /N !mulmxA uW mul1mx -mulmxA uW mulmx1.
  by rewrite eN mul_mx_scalar -scalemxAl uW scalemx1.
exact: re.
Qed.
(** When l <> k nothing is made real: the generators are those of SL2C with the boosts
    multiplied by i. *)
Theorem C39_so13_complex l k : let d := (l.+1 * k.+1)%N in (d * d)%:R * eps ^+ 2 < 1 -> l <> k ->
  exists r s, [/\ so13_rep eigh eps sqrtm (l, k) = Ok r, sl2c_rep C (l, k) = Ok s &
    forall a, (a < 6)%N -> mx3 d d (rX r) a = (if (a < 3)%N then 1 else 'i) *: mx3 d d (rX s) a].
Proof.
move=> d small lk; rewrite /so13_rep.
have [X [-> [sX [_ [_ /(_ lk) g]]]]] := so13_X_ok eighP eps0 eps1 sqrtmP small.
have [s [es [_ gs]]] := sl2c_rep_ok C l k.
eexists; exists s; split=> [//|//|a ha] /=.
by rewrite g // gs //; case: ltnP => h3; [rewrite scale1r AB_J|rewrite AB_K].
Qed.
End So13.

(** The vector representation: an instance of the theorem. *)
Example C39_example : exists r,
  [/\ so13_rep (@eigh0 C) (1 / 10%:R) (@sqrtm0 C) (1, 1)%N = Ok r, is_rep (so13_th C) 4 r &
      forall idx, get (rX r) idx \is Num.real].
Proof.
have h0 : (0 : C) < 1 / 10%:R by rewrite divr_gt0 ?ltr01 ?ltr0n.
have h1 : (1 / 10%:R : C) <= 3%:R / 2%:R.
  by rewrite ler_pdivr_mulr ?ltr0n // mulrAC ler_pdivl_mulr ?ltr0n // mul1r -natrM ler_nat.
have [|r [e ir [_ _ _ re]]] := @C39_so13 _ (@eigh0_correct C) _ h0 h1 _ (@sqrtm0_correct C) 1 1.
  rewrite expr_div_n expr1n mul1r ltr_pdivr_mulr ?exprn_gt0 ?ltr0n // mul1r -natrX ltr_nat //.
exists r; split; [exact: e | exact: ir | by move=> idx; exact: re].
Qed.

Theorem C39_four_vector : is_rep (so13_th C) 4 (four_vector C) /\
  lorentz_algebra (-1) (mx3 4 4 (rX (four_vector C))) /\
  forall a, (a < 6)%N -> let X := mx3 4 4 (rX (four_vector C)) a in X^T *m eta C + eta C *m X = 0.
Proof.
split; first exact: four_vector_ok.
split; first exact: so13_lorentz (ir_m (four_vector_ok C)).
exact: four_vector_minkowski.
Qed.
(** The form is the Minkowski one. *)
Example C39_eta : [/\ eta C 0 0 = 1, eta C 1 1 = -1, eta C (inord 2) (inord 2) = -1, eta C (inord 3) (inord 3) = -1 & eta C 0 1 = 0].
Proof. by rewrite !mxE !eqxx -!val_eqE /= !inordK. Qed.
End Props.
