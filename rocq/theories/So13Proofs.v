(** So13Proofs: the generators of SO13. *)
From Coq Require Import ZArith String Ascii.
From mathcomp Require Import all_ssreflect all_algebra.
From mathcomp Require Import zify.
From mathcomp.real_closed Require Import mxtens.
From Verif Require Import Base McRing Nd NdProofs Reps RepSpec RepProofs RepOps Pinv LinAlg LinAlgProofs IcbProofs GsMx CgGenProofs Labels.
From Verif Require Import Su2 Su2Proofs Su2Cg Su2CgEq SoCgProofs Sl2c Sl2cMx Sl2cProofs Util CasimirGap So13 Properties_Su2.

Set Implicit Arguments.
Unset Strict Implicit.
Unset Printing Implicit Defensive.

Import Order.Theory GRing.Theory Num.Theory.
Local Open Scope ring_scope.

Local Arguments stack : simpl never.

Section Abs.
Variable C : numClosedFieldType.

(** S -> x1 S - S x2, as a matrix, is a Lie algebra morphism in (x1, x2). *)
Lemma Kmx_mul d1 d2 (x1 y1 : 'M[C]_d1) (x2 y2 : 'M[C]_d2) :
  Kmx x1 x2 *m Kmx y1 y2 = (x1 *m y1) *t 1%:M - x1 *t y2^T - y1 *t x2^T + 1%:M *t (y2 *m x2)^T.
Proof.
rewrite /Kmx mulmxBl !mulmxBr !tensmx_mul !mul1mx !mulmx1 trmx_mul opprB addrA.
by rewrite [RHS]addrAC -!addrA; congr (_ + (_ + _)); rewrite addrC.
Qed.
Lemma tensBl m n p q (A A' : 'M[C]_(m, n)) (B : 'M[C]_(p, q)) : (A - A') *t B = A *t B - A' *t B.
Proof. by apply/matrixP=> i j; rewrite !mxE mulrBl. Qed.
Lemma tensBr m n p q (A : 'M[C]_(m, n)) (B B' : 'M[C]_(p, q)) : A *t (B - B') = A *t B - A *t B'.
Proof. by apply/matrixP=> i j; rewrite !mxE mulrBr. Qed.
Lemma Kmx_comm d1 d2 (x1 y1 : 'M[C]_d1) (x2 y2 : 'M[C]_d2) :
  Kmx x1 x2 *m Kmx y1 y2 - Kmx y1 y2 *m Kmx x1 x2 = Kmx (x1 *m y1 - y1 *m x1) (x2 *m y2 - y2 *m x2).
Proof.
rewrite !Kmx_mul /Kmx tensBl linearB /= tensBr; apply/matrixP=> i j; rewrite !mxE; mcring.
Qed.
Lemma Kmx_triple d1 d2 (X1 : nat -> 'M[C]_d1) (X2 : nat -> 'M[C]_d2) :
  su2_triple X1 -> su2_triple X2 -> su2_triple (fun a => Kmx (X1 a) (X2 a)).
Proof. by case=> h1 h2 h3 [k1 k2 k3]; split; rewrite Kmx_comm ?h1 ?h2 ?h3 ?k1 ?k2 ?k3. Qed.
Lemma cj_triple d (X : nat -> 'M[C]_d) : su2_triple X -> su2_triple (fun a => cj (X a)).
Proof. by case=> h1 h2 h3; split; rewrite -!cjM -[LHS]map_mxB ?h1 ?h2 ?h3. Qed.

(** Two commuting anti-Hermitian representations of su(2) and the generators made
    from them. *)
Section Two.
Variable D : nat.
Variables A B : nat -> 'M[C]_D.
Hypothesis hA : forall a, adj (A a) = - A a.
Hypothesis hB : forall a, adj (B a) = - B a.
Hypothesis tA : su2_triple A.
Hypothesis tB : su2_triple B.
Hypothesis cAB : forall a b, A a *m B b = B b *m A a.
Definition gens (a : nat) : 'M[C]_D := if (a < 3)%N then A a + B a else 'i *: (A (a - 3) - B (a - 3)).

Let P a := Kmx (cj (B a)) (A a).
Let Q a := Kmx (cj (A a)) (B a).
Lemma KP a : (a < 3)%N -> Kmx (cj (gens a)) (gens a) = P a + Q a.
Proof.
rewrite /gens => ->; rewrite /P /Q /Kmx /cj map_mxD linearD /=.
by apply/matrixP=> i j; rewrite !mxE; mcring.
Qed.
Lemma KQ a : Kmx (cj (gens (3 + a))) (gens (3 + a)) = 'i *: (P a - Q a).
Proof.
rewrite /gens /= addKn /P /Q /Kmx /cj; apply/matrixP=> i j; rewrite !mxE /= rmorphM rmorphB conjCi /=.
mcring.
Qed.
Lemma cj_adjN (X : nat -> 'M[C]_D) a : adj (X a) = - X a -> adj (cj (X a)) = - cj (X a).
Proof. by move=> h; rewrite /cj -map_mxN -h; apply/matrixP=> i j; rewrite !mxE. Qed.
Lemma hP a : adj (P a) = - P a.
Proof.
rewrite /P Kmx_adj hA cj_adjN // /Kmx; apply/matrixP=> i j; rewrite !mxE; mcring.
Qed.
Lemma hQ a : adj (Q a) = - Q a.
Proof.
rewrite /Q Kmx_adj hB cj_adjN // /Kmx; apply/matrixP=> i j; rewrite !mxE; mcring.
Qed.
Lemma cPQ a b : P a *m Q b = Q b *m P a.
Proof.
have e : cj (B a) *m cj (A b) = cj (A b) *m cj (B a) by rewrite -!cjM cAB.
apply/eqP; rewrite -subr_eq0 Kmx_comm e cAB !subrr.
by rewrite /Kmx tens0mx trmx0 tensmx0 subrr.
Qed.
Lemma gens_gap (eps : C) : eps <= 3%:R / 2%:R -> gap2 6 (fun a => cj (gens a)) gens eps.
Proof.
move=> he c S S0 e.
suff: c = 0 \/ 3%:R / 2%:R <= c by case=> [->|h]; [left|right; exact: le_trans h].
apply: (@casimir2_gap C _ P Q (vecr S)^T).
- by apply: Kmx_triple => //; exact: cj_triple.
- by apply: Kmx_triple => //; exact: cj_triple.
- by move=> a b _ _; exact: cPQ.
- apply: contra S0 => /eqP e0; rewrite -(vecrK S) -[vecr S]trmxK e0 trmx0.
  by apply/eqP; apply/matrixP=> i j; rewrite !mxE.
have := lap_gram 6 (fun a => cj (gens a)) gens S; rewrite e => h.
have {h} : (\sum_(a < 6) adj (Kmx (cj (gens a)) (gens a)) *m Kmx (cj (gens a)) (gens a)) *m (vecr S)^T = c *: (vecr S)^T.
  by rewrite h !linearZ.
move=> <-; congr (_ *m _); rewrite (@big_split_ord _ _ _ 3 3) /= /casimir -big_split /=.
rewrite -opprD -big_split /= scalerN scaler_sumr -sumrN; apply: eq_bigr => a _.
rewrite KP // KQ adjD adjZ adjB conjCi !hP !hQ -!scalemxAl -!scalemxAr scalerA.
rewrite mulNr -expr2 sqrCi opprK scale1r.
have := cPQ a a; move: (P a) (Q a) => U V cUV.
rewrite !(mulmxDl, mulmxDr, mulmxBl, mulmxBr, mulNmx, mulmxN) cUV.
by apply/matrixP=> i j; rewrite !mxE; mcring.
Qed.

Lemma gens_intertw (T : 'M[C]_D) : intertw 6 (fun a => cj (gens a)) gens T <->
  forall a, (a < 3)%N -> cj (B a) *m T = T *m A a /\ cj (A a) *m T = T *m B a.
Proof.
have n2 : (2%:R : C) != 0 by rewrite pnatr_eq0.
have cD (X Y : 'M[C]_D) : cj (X + Y) = cj X + cj Y by rewrite /cj map_mxD.
have cS (X Y : 'M[C]_D) : cj ('i *: (X - Y)) = - 'i *: (cj X - cj Y) by rewrite /cj map_mxZ map_mxB conjCi.
split=> [h a ha|h a ha].
  have := h a (ltn_trans ha _); rewrite /gens ha => /(_ isT) e1.
  have := h (3 + a)%N; rewrite /gens /= addKn => /(_ ha) e2.
  move: e1 e2; rewrite cD cS -!scalemxAl -scalemxAr mulmxDl mulmxDr mulmxBl mulmxBr => e1.
  rewrite -[- 'i]mulr1 mulNr -mulrN -scalerA => /(scalerI (neq0Ci C)); rewrite scaleN1r opprB => e2.
  have d2 (x y u v : 'M[C]_D) : x + y = u + v -> y - x = u - v -> y = u /\ x = v.
    move=> h1 h2; split; apply: (scalerI n2); rewrite !scaler_nat !mulr2n.
      have -> : y + y = (x + y) + (y - x) by apply/matrixP=> i j; rewrite !mxE; mcring.
      by rewrite h1 h2; apply/matrixP=> i j; rewrite !mxE; mcring.
    have -> : x + x = (x + y) - (y - x) by apply/matrixP=> i j; rewrite !mxE; mcring.
    by rewrite h1 h2; apply/matrixP=> i j; rewrite !mxE; mcring.
  exact: d2.
rewrite /gens; case: ifP => h3.
  have [e1 e2] := h a h3; by rewrite cD mulmxDl mulmxDr e1 e2 addrC.
have [|e1 e2] := h (a - 3)%N; first by lia.
by rewrite cS -!scalemxAl -scalemxAr mulmxBl mulmxBr e1 e2 scaleNr -scalerN opprB.
Qed.
End Two.
End Abs.

Section Conc.
Variable C : numClosedFieldType.
Notation Xm := (Xm C).
Notation Fm := (Fm C).

Definition fcj l k (M : 'M[C]_(l.+1 * k.+1)) : 'M[C]_(l.+1 * k.+1) := (Fm l k)^T *m M *m Fm l k.
Lemma fcjM l k (M N : 'M[C]_(l.+1 * k.+1)) : fcj M *m fcj N = fcj (M *m N).
Proof. by rewrite /fcj !mulmxA -[_ *m Fm l k *m (Fm l k)^T]mulmxA Fm_full mulmx1. Qed.
Lemma fcjB l k (M N : 'M[C]_(l.+1 * k.+1)) : fcj M - fcj N = fcj (M - N).
Proof. by rewrite /fcj mulmxBr mulmxBl. Qed.
Lemma fcjD l k (M N : 'M[C]_(l.+1 * k.+1)) : fcj M + fcj N = fcj (M + N).
Proof. by rewrite /fcj mulmxDr mulmxDl. Qed.
Lemma fcjN l k (M : 'M[C]_(l.+1 * k.+1)) : - fcj M = fcj (- M).
Proof. by rewrite /fcj mulmxN mulNmx. Qed.
Lemma fcjZ l k c (M : 'M[C]_(l.+1 * k.+1)) : c *: fcj M = fcj (c *: M).
Proof. by rewrite /fcj -scalemxAr -scalemxAl. Qed.
Lemma fcj_scalar l k (c : C) : fcj c%:M = c%:M :> 'M[C]_(l.+1 * k.+1).
Proof. by rewrite /fcj mul_mx_scalar -scalemxAl Fm_full' scalemx1. Qed.
Lemma fcj_inj l k (M : 'M[C]_(l.+1 * k.+1)) : M = Fm l k *m fcj M *m (Fm l k)^T.
Proof. by rewrite /fcj !mulmxA Fm_full mul1mx -mulmxA Fm_full mulmx1. Qed.
Lemma adj_real m n (M : 'M[C]_(m, n)) : cj M = M -> adj M = M^T.
Proof. by move=> h; rewrite -[in RHS]h; apply/matrixP=> i j; rewrite !mxE. Qed.
Lemma adj_fcj l k (M : 'M[C]_(l.+1 * k.+1)) : adj (fcj M) = fcj (adj M).
Proof.
rewrite /fcj !adjM (adj_real (Fm_real C l k)) mulmxA; congr (_ *m _ *m _).
by rewrite adj_real ?trmxK // cjT Fm_real.
Qed.
Lemma cj_fcj l k (M : 'M[C]_(l.+1 * k.+1)) : cj (fcj M) = fcj (cj M).
Proof. by rewrite /fcj !cjM cjT Fm_real. Qed.

Definition Al l k a : 'M[C]_(l.+1 * k.+1) := fcj (Xm l a *t 1%:M).
Definition Bl l k a : 'M[C]_(l.+1 * k.+1) := fcj (1%:M *t cj (Xm k a)).
Lemma cj1 n : cj (1%:M : 'M[C]_n) = 1%:M.
Proof. by rewrite /cj map_mx1. Qed.
Lemma Al_adj l k a : adj (Al l k a) = - Al l k a.
Proof. by rewrite /Al adj_fcj adj_tens adj1 Xm_adj fcjN; congr fcj; apply/matrixP=> i j; rewrite !mxE mulNr. Qed.
Lemma Bl_adj l k a : adj (Bl l k a) = - Bl l k a.
Proof.
rewrite /Bl adj_fcj adj_tens adj1 (cj_adjN (Xm_adj _ _ _)) fcjN; congr fcj.
by apply/matrixP=> i j; rewrite !mxE mulrN.
Qed.
Lemma Xm_triple l : su2_triple (Xm l).
Proof. by split; [exact: X01|exact: X12|exact: X20]. Qed.
Lemma Al_triple l k : su2_triple (Al l k).
Proof.
by case: (Xm_triple l) => h1 h2 h3; split; rewrite /Al !fcjM fcjB !tensmx_mul !mulmx1 -tensBl ?h1 ?h2 ?h3.
Qed.
Lemma Bl_triple l k : su2_triple (Bl l k).
Proof.
by case: (cj_triple (Xm_triple k)) => h1 h2 h3; split; rewrite /Bl !fcjM fcjB !tensmx_mul !mulmx1 -tensBr ?h1 ?h2 ?h3.
Qed.
Lemma AlBl l k a b : Al l k a *m Bl l k b = Bl l k b *m Al l k a.
Proof. by rewrite /Al /Bl !fcjM !tensmx_mul !mul1mx !mulmx1. Qed.
Lemma Gm_AB s l k a : Gm C s l k a = Al l k a + sg C s *: Bl l k a.
Proof.
rewrite /Gm /Tm /tact /Al /Bl fcjZ fcjD /fcj; congr (_ *m (_ + _) *m _).
by apply/matrixP=> i j; rewrite !mxE; mcring.
Qed.
Lemma cj_Bl l k a : cj (Bl l k a) = fcj (1%:M *t Xm k a).
Proof. by rewrite /Bl cj_fcj cj_tens cjK cj1. Qed.
Lemma cj_Al l k a : cj (Al l k a) = fcj (cj (Xm l a) *t 1%:M).
Proof. by rewrite /Al cj_fcj cj_tens cj1. Qed.

Lemma tens_scl m n (c : C) : (c%:M : 'M[C]_m) *t (1%:M : 'M[C]_n) = c%:M.
Proof. by rewrite -[c%:M]scalemx1 -[1%:M in X in _ *t X = _]scale1r scale_tens mulr1 tens1 scalemx1. Qed.
Lemma tens_scr m n (c : C) : (1%:M : 'M[C]_m) *t (c%:M : 'M[C]_n) = c%:M.
Proof. by rewrite -[(c%:M : 'M_n)]scalemx1 -[X in X *t _]scale1r scale_tens mul1r tens1 scalemx1. Qed.
Definition AB l k := gens (Al l k) (Bl l k).
Definition ABintertw l k := intertw 6 (fun a => cj (AB l k a)) (AB l k).
(** Different spins: no intertwiner. *)
Lemma AB_diff l k T : l != k -> ABintertw T -> T = 0 :> 'M[C]_(l.+1 * k.+1).
Proof.
move=> lk /gens_intertw h.
have n2 : (2%:R : C) != 0 by rewrite pnatr_eq0.
have sq a : (a < 3)%N -> cj (Bl l k a) *m cj (Bl l k a) *m T = T *m (Al l k a *m Al l k a).
  by move=> /h[e _]; rewrite -mulmxA e mulmxA e mulmxA.
have := su2_casimir C l; have := su2_casimir C k; rewrite /has_spin.
set ck := - _; set cl := - (_ / _ * _) => ek el.
have eA : Al l k 0 *m Al l k 0 + Al l k 1 *m Al l k 1 + Al l k 2 *m Al l k 2 = cl%:M.
  rewrite /Al !fcjM !tensmx_mul mul1mx !fcjD -!tensDl el.
  by rewrite tens_scl fcj_scalar.
have eB : cj (Bl l k 0) *m cj (Bl l k 0) + cj (Bl l k 1) *m cj (Bl l k 1) + cj (Bl l k 2) *m cj (Bl l k 2) = ck%:M.
  rewrite !cj_Bl !fcjM !tensmx_mul mul1mx !fcjD -!tensDr ek.
  by rewrite tens_scr fcj_scalar.
have: ck%:M *m T = T *m cl%:M by rewrite -eA -eB !mulmxDl !mulmxDr !sq.
rewrite mul_scalar_mx mul_mx_scalar => /eqP; rewrite -subr_eq0 -scalerBl scaler_eq0 => /orP[|/eqP//].
move=> e; exfalso; move: e; rewrite subr_eq0 eqr_opp; apply/negP.
have q (j : nat) : j%:R / 2%:R * (j%:R / 2%:R + 1) = (j * j.+2)%:R / 4%:R :> C.
  have -> : (4%:R : C) = 2%:R * 2%:R by rewrite -natrM.
  by rewrite natrM -[j.+2]addn2 natrD; mcf.
rewrite !q (inj_eq (mulIf _)) ?invr_eq0 ?pnatr_eq0 // eqr_nat; move: lk; apply: contra => /eqP e.
by apply/eqP; nia.
Qed.

(** The exchange of the two factors. *)
Definition Pm m : 'M[C]_(m * m) := \matrix_(x, y)
  (((mxtens_unindex x).1 == (mxtens_unindex y).2) && ((mxtens_unindex x).2 == (mxtens_unindex y).1))%:R.
Lemma Pm_l m n (M : 'M[C]_(m * m, n)) i j c : (Pm m *m M) (mxtens_index (i, j)) c = M (mxtens_index (j, i)) c.
Proof.
rewrite mxE (bigD1 (mxtens_index (j, i))) //= big1 ?addr0 => [|x]; first by rewrite !mxE !mxtens_indexK /= !eqxx mul1r.
case: (mxtens_indexP x) => u v; rewrite !mxE !mxtens_indexK /=.
case: (i =P v) => [->|_]; last by rewrite mul0r.
by case: (j =P u) => [->|_]; rewrite ?eqxx //= mul0r.
Qed.
Lemma Pm_r m n (M : 'M[C]_(n, m * m)) i j c : (M *m Pm m) c (mxtens_index (i, j)) = M c (mxtens_index (j, i)).
Proof.
rewrite mxE (bigD1 (mxtens_index (j, i))) //= big1 ?addr0 => [|x]; first by rewrite !mxE !mxtens_indexK /= !eqxx mulr1.
case: (mxtens_indexP x) => u v; rewrite !mxE !mxtens_indexK /=.
case: (u =P j) => [->|_]; last by rewrite mulr0.
by case: (v =P i) => [->|_]; rewrite ?eqxx //= mulr0.
Qed.
Lemma Pm_tens m (M N : 'M[C]_m) : Pm m *m (M *t N) = (N *t M) *m Pm m.
Proof.
apply/matrixP=> x y; case: (mxtens_indexP x) => i j; case: (mxtens_indexP y) => u v.
by rewrite Pm_l Pm_r !tensmxE mulrC.
Qed.
Lemma Pm_sq m : Pm m *m Pm m = 1%:M.
Proof.
apply/matrixP=> x y; case: (mxtens_indexP x) => i j; case: (mxtens_indexP y) => u v.
rewrite Pm_l !mxE !mxtens_indexK /=.
by rewrite (inj_eq (can_inj (@mxtens_indexK m m))) xpair_eqE andbC.
Qed.
Lemma Pm_tr m : (Pm m)^T = Pm m.
Proof. by apply/matrixP=> x y; rewrite !mxE eq_sym andbC eq_sym. Qed.
Lemma Pm_cj m : cj (Pm m) = Pm m.
Proof. by apply/matrixP=> x y; rewrite !mxE; case: (_ && _); rewrite ?rmorph1 ?rmorph0. Qed.

Definition Ol l : 'M[C]_(l.+1 * l.+1) := fcj (Pm l.+1).
Lemma Ol_sq l : Ol l *m Ol l = 1%:M.
Proof. by rewrite /Ol fcjM Pm_sq fcj_scalar. Qed.
Lemma Ol_cj l : cj (Ol l) = Ol l.
Proof. by rewrite /Ol cj_fcj Pm_cj. Qed.
Lemma Ol_tr l : (Ol l)^T = Ol l.
Proof. by rewrite /Ol /fcj !trmx_mul trmxK Pm_tr mulmxA. Qed.
Lemma Ol_intertw l : ABintertw (Ol l).
Proof.
apply/gens_intertw => a ha; rewrite cj_Bl cj_Al /Al /Bl /Ol !fcjM; split; congr fcj.
  by rewrite Pm_tens.
by rewrite Pm_tens.
Qed.

(** Matrices that commute with the generators of a spin representation are scalar. *)
Lemma su2_commutant l (M : 'M[C]_l.+1) : (forall a, (a < 3)%N -> M *m Xm l a = Xm l a *m M) -> exists c, M = c%:M.
Proof.
move=> h; have i0 := neq0Ci C.
have hM : M *m Mm C l = Mm C l *m M.
  by have := h 1%N isT; rewrite /Su2Proofs.Xm -scalemxAl -scalemxAr => /(scalerI i0).
have hS : M *m Sm C l = Sm C l *m M.
  have -> : Sm C l = Xm l 0 - 'i *: Xm l 2.
    have n2 : (2%:R : C) != 0 by rewrite pnatr_eq0.
    rewrite /Su2Proofs.Xm scalerA mulrCA -expr2 sqrCi mulrN1 scaleNr opprK -scalerDr.
    by apply/matrixP=> i j; rewrite !mxE; mcf.
  have := h 0%N isT; have := h 2%N isT; move: (Xm l 0) (Xm l 2) => U V e2 e0.
  by rewrite mulmxBl mulmxBr -scalemxAl -scalemxAr e0 e2.
have dg i j : (i != j) -> M i j = 0.
  move=> ij; have /matrixP/(_ i j) := hM; rewrite !mxE (bigD1 j) //= big1 ?addr0 => [|u ne]; last first.
    by rewrite !mxE val_eqE eq_sym (negPf ne) mulr0.
  rewrite (bigD1 i) //= big1 ?addr0 => [|u ne]; last by rewrite !mxE val_eqE (negPf ne) mul0r.
  rewrite !mxE !eqxx => /eqP; rewrite mulrC -subr_eq0 -mulrBl mulf_eq0 => /orP[|/eqP//].
  rewrite /mval opprD addrACA subrr add0r subr_eq0 eqr_nat => e; case/negP: ij; apply/eqP/val_inj/esym/eqP; exact: e.
have st (i : nat) (hi : (i.+1 < l.+1)%N) : M (Ordinal hi) (Ordinal hi) = M (Ordinal (ltnW hi)) (Ordinal (ltnW hi)).
  have /matrixP/(_ (Ordinal (ltnW hi)) (Ordinal hi)) := hS; rewrite !mxE.
  rewrite (bigD1 (Ordinal (ltnW hi))) //= big1 ?addr0 => [|u ne]; last by rewrite dg ?mul0r // eq_sym.
  rewrite (bigD1 (Ordinal hi)) //= big1 ?addr0 => [|u ne]; last by rewrite [M u _]dg ?mulr0.
  rewrite !mxE /= eqxx mulrC => /mulfI -> //.
  by rewrite -sqrf_eq0 expr2 lad2 pnatr_eq0 muln_eq0 /= subn_eq0 -ltnNge.
exists (M ord0 ord0); apply/matrixP=> i j; rewrite mxE; have [<-|ij] := eqVneq i j; last by rewrite dg.
rewrite mulr1n; case: i => i; elim: i => [|i ih] hi; first by congr (M _ _); exact: val_inj.
by rewrite st ih; congr (M _ _); exact: val_inj.
Qed.

Lemma cj_scalar n (c : C) : cj (c%:M : 'M[C]_n) = (c^*)%:M.
Proof. by rewrite /cj map_scalar_mx. Qed.
Lemma tens_commutant l k (M : 'M[C]_(l.+1 * k.+1)) :
  (forall a, (a < 3)%N -> M *m (Xm l a *t 1%:M) = (Xm l a *t 1%:M) *m M) ->
  (forall a, (a < 3)%N -> M *m (1%:M *t cj (Xm k a)) = (1%:M *t cj (Xm k a)) *m M) ->
  exists c, M = c%:M.
Proof.
move=> h1 h2; pose blk (i i' : 'I_l.+1) : 'M[C]_k.+1 := \matrix_(j, j') M (mxtens_index (i, j)) (mxtens_index (i', j')).
have hb i i' : exists c, blk i i' = c%:M.
  suff [c e] : exists c, cj (blk i i') = c%:M by exists c^*; rewrite -[blk _ _]cjK e cj_scalar.
  apply: su2_commutant => a ha; rewrite -[Xm k a]cjK -!cjM; congr cj.
  apply/matrixP=> j j'; have /matrixP/(_ (mxtens_index (i, j)) (mxtens_index (i', j'))) := h2 a ha.
  rewrite [LHS]mxE [RHS]mxE !sum_tensC => e; rewrite [LHS]mxE [RHS]mxE.
  move: e; rewrite (bigD1 i') //= [X in _ + X]big1 ?addr0 => [|u ne]; last first.
    by apply: big1 => v _; rewrite tensmxE !mxE (negPf ne) mul0r mulr0.
  rewrite [in RHS](bigD1 i) //= [X in _ = _ + X]big1 ?addr0 => [|u ne]; last first.
    by apply: big1 => v _; rewrite tensmxE !mxE eq_sym (negPf ne) !mul0r.
  move=> e; transitivity (\sum_(j0 < k.+1) M (mxtens_index (i, j)) (mxtens_index (i', j0)) * (1%:M *t cj (Xm k a)) (mxtens_index (i', j0)) (mxtens_index (i', j'))).
    by apply: eq_bigr => u _; rewrite tensmxE [blk _ _ _ _]mxE [1%:M _ _]mxE eqxx mul1r.
  by rewrite e; apply: eq_bigr => u _; rewrite tensmxE [blk _ _ _ _]mxE [1%:M _ _]mxE eqxx mul1r.
pose t := \matrix_(i < l.+1, i' < l.+1) blk i i' ord0 ord0.
have ht i i' : blk i i' = (t i i')%:M.
  by have [c e] := hb i i'; rewrite mxE e mxE eqxx mulr1n.
have eM : M = t *t 1%:M.
  apply/matrixP=> x y; case: (mxtens_indexP x) => i j; case: (mxtens_indexP y) => i' j'.
  have /matrixP/(_ j j') := ht i i'; rewrite [LHS]mxE => ->; rewrite tensmxE [RHS]mulrC.
  by rewrite [LHS]mxE [1%:M _ _]mxE -mulr_natl.
suff [c e] : exists c, t = c%:M by exists c; rewrite eM e tens_scl.
apply: su2_commutant => a ha; have := h1 a ha; rewrite eM !tensmx_mul mulmx1 => /matrixP e.
apply/matrixP=> i j; have := e (mxtens_index (i, ord0)) (mxtens_index (j, ord0)).
by rewrite !tensmxE [1%:M _ _]mxE eqxx !mulr1.
Qed.
Lemma sw_inv n (O A B : 'M[C]_n) : O *m O = 1%:M -> B *m O = O *m A -> O *m B = A *m O.
Proof. by move=> o2 e; rewrite -[B]mulmx1 -o2 [B *m _]mulmxA e !mulmxA o2 mul1mx. Qed.
Lemma sw_comm n (O A B T : 'M[C]_n) : O *m B = A *m O -> B *m T = T *m A -> O *m T *m A = A *m (O *m T).
Proof. by move=> e1 e2; rewrite -mulmxA -e2 mulmxA e1 mulmxA. Qed.
(** Equal spins: the intertwiners are the multiples of Ol. *)
Lemma AB_same l T : ABintertw T -> exists z, T = z *: Ol l.
Proof.
move=> /gens_intertw h.
have [M eM] : exists M, Ol l *m T = fcj M.
  by exists (Fm l l *m (Ol l *m T) *m (Fm l l)^T); rewrite /fcj !mulmxA Fm_full' mul1mx -mulmxA Fm_full' mulmx1.
have /gens_intertw o := @Ol_intertw l.
have o1 a : (a < 3)%N -> Ol l *m cj (Bl l l a) = Al l l a *m Ol l.
  by move=> /o[e _]; apply: sw_inv e; exact: Ol_sq.
have o2 a : (a < 3)%N -> Ol l *m cj (Al l l a) = Bl l l a *m Ol l.
  by move=> /o[_ e]; apply: sw_inv e; exact: Ol_sq.
have inj (X Y : 'M[C]_(l.+1 * l.+1)) : fcj X = fcj Y -> X = Y by move=> e; rewrite [X]fcj_inj e -fcj_inj.
have [c e] : exists c, M = c%:M.
  apply: tens_commutant => a ha; apply: inj; rewrite -!fcjM -eM -/(Al l l a) -/(Bl l l a).
    by have [e _] := h a ha; apply: sw_comm e; exact: o1.
  by have [_ e] := h a ha; apply: sw_comm e; exact: o2.
exists c; rewrite -[T]mul1mx -(Ol_sq l) -mulmxA eM e fcj_scalar mul_mx_scalar //.
Qed.
End Conc.

(** * The matrix square root *)
Section Sqrtm.
Variable C : numClosedFieldType.
Notation nd := (nd C).

(** scipy.linalg.sqrtm on a multiple of a Hermitian matrix: the matrix with the same
    eigenvectors and the principal square roots of the eigenvalues. *)
Definition sqrtm_correct (sqrtm : nd -> res nd) : Prop :=
  forall n s (z : C) (U : 'M[C]_n) (d : 'rV[C]_n), shape s = [:: n; n] -> U *m adj U = 1%:M ->
  (forall i, d 0 i \is Num.real) -> mx2 n n s = z *: (U *m diag_mx d *m adj U) ->
  exists w, sqrtm s = Ok w /\ shape w = [:: n; n] /\ mx2 n n w = U *m diag_mx (map_mx sqrtC (z *: d)) *m adj U.

(** The result does not depend on the diagonalisation. *)
Lemma sqrtm_unique n (U V : 'M[C]_n) (d e : 'rV[C]_n) (f : C -> C) : U *m adj U = 1%:M -> V *m adj V = 1%:M ->
  U *m diag_mx d *m adj U = V *m diag_mx e *m adj V ->
  U *m diag_mx (map_mx f d) *m adj U = V *m diag_mx (map_mx f e) *m adj V.
Proof.
move=> uU uV h; have [M MM] : exists M, M = adj V *m U by exists (adj V *m U).
have uU' := mulmx1C uU; have uV' := mulmx1C uV.
have eM : M *m diag_mx d = diag_mx e *m M.
  have := congr1 (fun X => adj V *m X *m U) h; rewrite !mulmxA -mulmxA uU' mulmx1 uV' mul1mx.
  by rewrite MM -!mulmxA.
have eF : M *m diag_mx (map_mx f d) = diag_mx (map_mx f e) *m M.
  apply/matrixP=> i j; have /matrixP/(_ i j) := eM.
  rewrite !mul_mx_diag !mul_diag_mx !mxE mulrC => /eqP; rewrite -subr_eq0 -mulrBl mulf_eq0 subr_eq0.
  by case/orP=> /eqP e1; [rewrite e1 mulrC | rewrite e1 mul0r mulr0].
have -> : U = V *m M by rewrite MM mulmxA uV mul1mx.
rewrite -[V *m M *m _]mulmxA eF adjM !mulmxA -[_ *m M *m adj M]mulmxA.
have -> : M *m adj M = 1%:M; last by rewrite mulmx1.
by rewrite MM adjM adjK !mulmxA -[_ *m U *m _]mulmxA uU mulmx1.
Qed.
(** A correct square root exists. *)
Definition phase n (S : 'M[C]_n) : C :=
  if [pick ij : 'I_n * 'I_n | S ij.1 ij.2 != 0] is Some ij then adj S ij.1 ij.2 / S ij.1 ij.2 else 1.
Definition unphase n (S : 'M[C]_n) : 'M[C]_n := sqrtC (phase S) *: S.
Definition sqrtm0 (s : nd) : res nd :=
  match shape s with
  | [:: n; n'] =>
    if n == n' then
      match boolP (adj (unphase (mx2 n n s)) == unphase (mx2 n n s)) with
      | AltTrue h => let p := xchoose (eigh_exists h) in
          Ok (nd_of_mx (p.1 *m diag_mx (map_mx sqrtC ((sqrtC (phase (mx2 n n s)))^-1 *: p.2)) *m adj p.1))
      | AltFalse _ => Err LinAlgError
      end
    else Err LinAlgError
  | _ => Err LinAlgError
  end.
Theorem sqrtm0_correct : sqrtm_correct sqrtm0.
Proof.
move=> n s z U d ss uU dr es; rewrite /sqrtm0 ss eqxx.
set S := mx2 n n s in es *.
have hO : adj (U *m diag_mx d *m adj U) = U *m diag_mx d *m adj U.
  rewrite !adjM adjK mulmxA; congr (_ *m _ *m _); apply/matrixP=> i j; rewrite !mxE eq_sym rmorphMn /=.
  by case: eqP => [->|//]; move/CrealP: (dr j) => ->.
have ph : phase S * (phase S)^* = 1 /\ adj S = phase S *: S.
  rewrite /phase; case: pickP => [[i j] /= ne|h]; last first.
    split; first by rewrite rmorph1 mulr1.
    have S0 : S = 0 by apply/matrixP=> i j; rewrite [RHS]mxE; have /negbFE/eqP := h (i, j).
    by rewrite S0 adj0 scaler0.
  have z0 : z != 0 by apply: contra ne => /eqP e; rewrite es e scale0r mxE.
  have aS : adj S = (z^* / z) *: S.
    by rewrite es adjZ hO scalerA divfK.
  have -> : adj S i j / S i j = z^* / z by rewrite aS mxE mulfK.
  split=> //; by rewrite rmorphM fmorphV conjCK mulrA divfK // divff // conjC_eq0.
set w := phase S in ph *; case: ph => w1 aS.
have w0 : w != 0 by apply/eqP=> e; move/eqP: w1; rewrite e mul0r eq_sym oner_eq0.
have sw0 : sqrtC w != 0 by rewrite sqrtC_eq0.
have sw1 : sqrtC w * (sqrtC w)^* = 1.
  by apply/eqP; rewrite -normCK -normrX sqrtCK -(@eqr_expn2 _ 2) ?ler01 // expr1n normCK w1.
have hG : adj (unphase S) = unphase S.
  rewrite /unphase -/w adjZ aS scalerA; congr (_ *: _).
  by rewrite -[X in _ * X = _]sqrtCK expr2 mulrA [_^* * _]mulrC sw1 mul1r.
case: {-}_ / boolP => [h|]; last by rewrite hG eqxx.
have := xchooseP (eigh_exists h); set p := xchoose _ => /and3P[/eqP p1 /eqP p2 /forallP p3].
eexists; split; first by []; split=> //; rewrite mx2_nd_of_mx; apply: sqrtm_unique => //.
rewrite !linearZ /= -?scalemxAr -?scalemxAl -p2 /unphase -/w scalerA mulVf // scale1r.
by rewrite -es.
Qed.

Lemma sqrt_invol sqrtm n (O : 'M[C]_n) (z : C) (s : nd) : sqrtm_correct sqrtm -> shape s = [:: n; n] ->
  mx2 n n s = z *: O -> z * z^* = 1 -> O *m O = 1%:M -> cj O = O -> O^T = O ->
  exists w, sqrtm s = Ok w /\ shape w = [:: n; n] /\
    let W := mx2 n n w in [/\ W *m W = z *: O, W^T = W & W *m adj W = 1%:M].
Proof.
move=> sq ss es zz oo oc ot.
have /spectral[U [d [uU eO dr]]] : adj O = O by rewrite adj_real.
have uU' := mulmx1C uU.
have dm (x y : 'rV[C]_n) : U *m diag_mx x *m adj U *m (U *m diag_mx y *m adj U) = U *m diag_mx (\row_i (x 0 i * y 0 i)) *m adj U.
  rewrite !mulmxA -[_ *m adj U *m U]mulmxA uU' mulmx1 -[_ *m diag_mx x *m _]mulmxA; congr (_ *m _ *m _).
  by apply/matrixP=> i j; rewrite mul_diag_mx !mxE mulrnAr.
have d2 i : d 0 i * d 0 i = 1.
  have := oo; rewrite eO dm => h.
  have := congr1 (fun X => adj U *m X *m U) h; rewrite !mulmxA uU' mul1mx -mulmxA uU' mulmx1 mulmx1 uU'.
  by move/matrixP/(_ i i); rewrite !mxE eqxx.
have [|w [-> [sw ew]]] := sq n s z U d ss uU dr; first by rewrite es eO.
exists w; split=> //; split=> //; rewrite /= ew; split.
- rewrite dm [in RHS]eO scalemxAl scalemxAr -linearZ /=; congr (_ *m diag_mx _ *m _).
  by apply/rowP=> i; rewrite !mxE -expr2 sqrtCK.
- have -> : U *m diag_mx (map_mx sqrtC (z *: d)) *m adj U = ((sqrtC z + sqrtC (- z)) / 2%:R)%:M + ((sqrtC z - sqrtC (- z)) / 2%:R) *: O.
    have n2 : (2%:R : C) != 0 by rewrite pnatr_eq0.
    set al := (_ / _); set be := (_ / _ in RHS).
    have -> : diag_mx (map_mx sqrtC (z *: d)) = al%:M + be *: diag_mx d.
      apply/matrixP=> i j; rewrite !mxE; have [->|_] := eqVneq i j; last by rewrite !mulr0n mulr0 addr0.
      rewrite !mulr1n; have: (d 0 j == 1) || (d 0 j == -1) by rewrite -sqrf_eq1 expr2 d2.
      by case/orP=> /eqP->; rewrite ?mulr1 ?mulrN1 /al /be; mcf.
    rewrite mulmxDr mulmxDl mul_mx_scalar -scalemxAl uU scalemx1 -scalemxAr -scalemxAl -eO //.
  by rewrite linearD /= tr_scalar_mx linearZ /= ot.
rewrite !adjM adjK [U *m (_ *m _)]mulmxA.
have -> : adj (diag_mx (map_mx sqrtC (z *: d))) = diag_mx (\row_i (sqrtC (z * d 0 i))^*).
  by apply/matrixP=> i j; rewrite !mxE eq_sym rmorphMn /=; case: eqP => [->|].
rewrite dm.
have -> : diag_mx (\row_i ((map_mx sqrtC (z *: d)) 0 i * (\row_i0 (sqrtC (z * d 0 i0))^* : 'rV[C]_n) 0 i)) = 1%:M.
  apply/matrixP=> i j; rewrite !mxE; congr (_ *+ _); rewrite -normCK -normrX sqrtCK.
  apply/eqP; rewrite -(@eqr_expn2 _ 2) ?ler01 // expr1n normCK rmorphM mulrACA zz mul1r.
  by move/CrealP: (dr i) => ->; rewrite d2.
by rewrite mulmx1.
Qed.
End Sqrtm.

(** * The representations *)
Section Rep.
Variable C : numClosedFieldType.
Notation nd := (nd C).
Variable eigh : nd -> res (nd * nd).
Hypothesis eighP : eigh_correct eigh.
Variable eps : C.
Hypothesis eps0 : 0 < eps.
Hypothesis eps1 : eps <= 3%:R / 2%:R.
Variable sqrtm : nd -> res nd.
Hypothesis sqrtmP : sqrtm_correct sqrtm.

Definition so13_th : theory C := Theory 6 0 (fun i j k => (lorentz (-1) i j k)%:~R) (fun _ _ => False) (fun _ => False).

Lemma AB_J l k a : (a < 3)%N -> AB C l k a = Gm C true l k a.
Proof. by move=> ha; rewrite /AB /gens ha Gm_AB scale1r. Qed.
Lemma AB_K l k a : (3 <= a)%N -> AB C l k a = 'i *: Gm C false l k (a - 3).
Proof. by move=> ha; rewrite /AB /gens ltnNge ha /= Gm_AB scaleN1r. Qed.
Lemma AB_comm l k i j : (i < 6)%N -> (j < 6)%N ->
  AB C l k i *m AB C l k j - AB C l k j *m AB C l k i = \sum_(c < 6) (lorentz (-1) i j c)%:~R *: AB C l k c.
Proof.
pose J a := Gm C true l k a; pose K a := 'i *: Gm C false l k a.
have e a : AB C l k a = if (a < 3)%N then J a else K (a - 3)%N.
  by case: ltnP => ha; [rewrite AB_J | rewrite AB_K].
move=> hi hj; rewrite !e; under eq_bigr do rewrite e.
apply: (@lorentz_comm C (-1) _ J K) => // a b ha hb.
- by rewrite /J Gm_comm.
- rewrite /K -!scalemxAl -!scalemxAr !scalerA -expr2 sqrCi -scalerBr Gm_comm // scaler_sumr.
  by apply: eq_bigr => c _; rewrite scalerA /J !mulN1r rmorphN.
rewrite /J /K -scalemxAl -scalemxAr -scalerBr Gm_comm // scaler_sumr.
by apply: eq_bigr => c _; rewrite !scalerA mulrC.
Qed.
Lemma AB_adj l k a : adj (AB C l k a) = if (a < 3)%N then - AB C l k a else AB C l k a.
Proof.
rewrite /AB /gens; case: ifP => _; first by rewrite adjD Al_adj Bl_adj opprD.
by rewrite adjZ adjB Al_adj Bl_adj conjCi -opprD scalerN scaleNr opprK.
Qed.

Lemma AB_commutant l k (N : 'M[C]_(l.+1 * k.+1)) : (forall a, (a < 6)%N -> N *m AB C l k a = AB C l k a *m N) ->
  exists c, N = c%:M.
Proof.
move=> h; have n2 : (2%:R : C) != 0 by rewrite pnatr_eq0.
have hAB a : (a < 3)%N -> N *m Al C l k a = Al C l k a *m N /\ N *m Bl C l k a = Bl C l k a *m N.
  move=> ha; have := h a; rewrite /AB /gens ha => /(_ (ltn_trans ha (isT : (3 < 6)%N))) e1.
  have := h (3 + a)%N; rewrite /AB /gens /= addKn => /(_ ha); rewrite -scalemxAl -scalemxAr => /(scalerI (neq0Ci C)).
  move: e1; move: (Al C l k a) (Bl C l k a) => A B; rewrite mulmxDr mulmxDl mulmxBr mulmxBl => e1 e2.
  split; apply: (scalerI n2); rewrite !scaler_nat !mulr2n.
    have -> : N *m A + N *m A = (N *m A + N *m B) + (N *m A - N *m B) by rewrite addrACA subrr addr0.
    by rewrite e1 e2 addrACA subrr addr0.
  have -> : N *m B + N *m B = (N *m A + N *m B) - (N *m A - N *m B).
    by move: (N *m A) (N *m B) => U V; apply/matrixP=> i j; rewrite !mxE; mcring.
  rewrite e1 e2; by move: (A *m N) (B *m N) => U V; apply/matrixP=> i j; rewrite !mxE; mcring.
have [M eM] : exists M, N = fcj M.
  by exists (Fm C l k *m N *m (Fm C l k)^T); rewrite /fcj !mulmxA Fm_full' mul1mx -mulmxA Fm_full' mulmx1.
have inj (X Y : 'M[C]_(l.+1 * k.+1)) : fcj X = fcj Y -> X = Y by move=> e; rewrite [X]fcj_inj e -fcj_inj.
have [c e] : exists c, M = c%:M.
  apply: tens_commutant => a ha; apply: inj; rewrite -!fcjM -eM -/(Al C l k a) -/(Bl C l k a); exact: (hAB a ha).1 || exact: (hAB a ha).2.
by exists c; rewrite eM e fcj_scalar.
Qed.
Lemma gap2_ext N d1 d2 (X1 Y1 : nat -> 'M[C]_d1) (X2 Y2 : nat -> 'M[C]_d2) e :
  (forall a, (a < N)%N -> X1 a = Y1 a) -> (forall a, (a < N)%N -> X2 a = Y2 a) -> gap2 N Y1 Y2 e -> gap2 N X1 X2 e.
Proof.
move=> h1 h2 g c S S0 el; apply: g S0 _; rewrite -el /lap; apply: eq_bigr => a _.
by rewrite h1 ?h2.
Qed.
Lemma frame_in d1 d2 k (S : nat -> 'M[C]_(d1, d2)) K i : frame 1 k S K -> (i < k)%N -> K (S i).
Proof.
move=> [_ h] hi; apply/h; exists (fun j => (j == i)%:R).
rewrite (bigD1 (Ordinal hi)) //= eqxx scale1r big1 ?addr0 // => j ne.
by have /negPf -> : (j : nat) != i; [move: ne; rewrite -val_eqE|rewrite scale0r].
Qed.
Lemma cj_conj d (X : nd) a : mx3 d d (conj X) a = cj (mx3 d d X a).
Proof. by apply/matrixP=> i j; rewrite !mxE. Qed.
(** Conjugating by a unitary symmetric square root of the intertwiner makes the
    matrices real. *)
Lemma real_of_sqrt d (W S X : 'M[C]_d) : W *m W = S -> W^T = W -> W *m adj W = 1%:M -> cj X *m S = S *m X ->
  cj (W *m X *m adj W) = W *m X *m adj W.
Proof.
move=> ww wt wu h; have wu' := mulmx1C wu.
have cW : cj W = adj W by rewrite -[in RHS]wt; apply/matrixP=> i j; rewrite !mxE.
have cA : cj (adj W) = W by rewrite -cW cjK.
rewrite !cjM cW cA -[adj W *m cj X *m W]mulmx1 -wu !mulmxA -[_ *m W *m W]mulmxA ww.
by rewrite -[adj W *m cj X *m S]mulmxA h -ww !mulmxA wu' mul1mx.
Qed.

Theorem so13_X_ok l k : ((l.+1 * k.+1) * (l.+1 * k.+1))%:R * eps ^+ 2 < 1 ->
  exists X, so13_X eigh eps sqrtm (l, k) = Ok X /\ shape X = [:: 6; sl2c_d (l, k); sl2c_d (l, k)]%N /\
  (exists W, W *m adj W = 1%:M /\ forall a, (a < 6)%N -> mx3 (l.+1 * k.+1) (l.+1 * k.+1) X a = W *m AB C l k a *m adj W) /\
  (l = k -> forall idx, get X idx \is Num.real) /\
  (l <> k -> forall a, (a < 6)%N -> mx3 (l.+1 * k.+1) (l.+1 * k.+1) X a = AB C l k a).
Proof.
move=> small; rewrite /so13_X; have [X0 [-> [sX0 gX0]]] := sl2c_X_ok C l k.
set d := (l.+1 * k.+1)%N in small *; rewrite [rbind _ _]/=.
set X := scale_from 3 'i X0; have sX : shape X = [:: 6; d; d]%N by [].
have gX a : (a < 6)%N -> mx3 d d X a = AB C l k a.
  move=> ha; have := gX0 a ha; case: ltnP => h3 e.
    by rewrite AB_J // -e; apply/matrixP=> i j; rewrite !mxE /= leqNgt h3.
  by rewrite AB_K // -e; apply/matrixP=> i j; rewrite !mxE /= h3 mulrC.
have sc : shape (conj X) = [:: 6; d; d]%N by [].
have gc a : (a < 6)%N -> mx3 d d (conj X) a = cj (AB C l k a) by move=> ha; rewrite cj_conj gX.
have d0 : (0 < d)%N by [].
have [|n [b [-> [sb fr]]]] := icbP eighP eps0 (isT : (0 < 6)%N) d0 d0 small sc sX.
  apply: (gap2_ext gc gX); apply: gens_gap eps1.
  + exact: Al_adj.
  + exact: Bl_adj.
  + exact: Al_triple.
  + exact: Bl_triple.
  + exact: AlBl.
have fr' T : ABintertw T <-> intertw 6 (mx3 d d (conj X)) (mx3 d d X) T.
  by split=> h a ha; have := h a ha; rewrite gX // gc.
rewrite [rbind _ _]/= /len [shape (scale _ _)]/= sb [head _ _]/=.
have [lk|/eqP lk] := eqVneq l k; last first.
  have n0 : n = 0%N.
    case: n sb fr => [//|n] sb fr; exfalso.
    have /fr'/(AB_diff (introN eqP lk)) e := frame_in fr (ltn0Sn n).
    have [/(_ 0%N 0%N isT isT) + _] := fr; rewrite e mul0mx mxtrace0 mul1r => /eqP.
    by rewrite eq_sym oner_eq0.
  rewrite n0 eqxx; exists X; split=> //; split=> //; split.
    by exists 1%:M; rewrite adj1 mulmx1; split=> // a ha; rewrite mul1mx mulmx1 gX.
  by split=> // _ a ha; rewrite gX.
subst k.
have n0 : n == 0%N = false.
  apply/negP=> /eqP n0; move: fr; rewrite n0 => -[_ /(_ (Ol C l))[/(_ (proj1 (fr' _) (@Ol_intertw C l)))[c e] _]].
  have := Ol_sq C l; rewrite e big_ord0 mul0mx => /matrixP/(_ ord0 ord0)/eqP; rewrite !mxE eqxx eq_sym oner_eq0 //.
rewrite n0.
have hn : (0 < n)%N by rewrite lt0n n0.
have [z ez] := AB_same (proj2 (fr' _) (frame_in fr hn)).
have zz : z * z^* * d%:R = 1.
  have [/(_ 0%N 0%N hn hn) + _] := fr; rewrite ez adjZ -scalemxAl -scalemxAr scalerA mul1r (adj_real (Ol_cj C l)) Ol_tr Ol_sq.
  by rewrite linearZ /= mxtrace1.
have dr : (d%:R : C) >= 0 by rewrite ler0n.
have cd : (sqrtC (d%:R : C))^* = sqrtC d%:R by apply: geC0_conj; rewrite sqrtC_ge0.
set S := slice0 _ _.
have ss : shape S = [:: d; d] by rewrite /S /= sb.
have eS : mx2 d d S = (sqrtC d%:R * z) *: Ol C l.
  by rewrite -scalerA -ez; apply/matrixP=> i j; rewrite !mxE.
have zz' : (sqrtC d%:R * z) * (sqrtC d%:R * z)^* = 1.
  by rewrite rmorphM cd mulrACA -expr2 sqrtCK mulrC.
have [w [-> [sw [ww wt wu]]]] := sqrt_invol sqrtmP ss eS zz' (Ol_sq C l) (Ol_cj C l) (Ol_tr C l).
set W := mx2 d d w in ww wt wu.
rewrite [rbind _ _]/= /np_inv sw eqxx.
have uW : W \in unitmx by case/mulmx1_unit: wu.
rewrite uW [rbind _ _]/=; have eV : invmx W = adj W by rewrite -[LHS]mulmx1 -wu mulKmx.
have [Y [-> [sY gY]]] := matmul_2_3 sw sX; rewrite [rbind _ _]/=.
have sV : shape (nd_of_mx (invmx W)) = [:: d; d] by [].
have [Z [-> [sZ gZ]]] := matmul_3_2 sV sY; rewrite [rbind _ _]/=.
exists (nd_Re Z); split=> //; split; first by rewrite /= sZ.
split.
  exists W; split=> // a ha.
  have e : mx3 d d Z a = W *m AB C l l a *m adj W by rewrite gZ // mx2_nd_of_mx gY // gX // eV.
  have hs : cj (AB C l l a) *m ((sqrtC d%:R * z) *: Ol C l) = ((sqrtC d%:R * z) *: Ol C l) *m AB C l l a.
    by rewrite -scalemxAr -scalemxAl (@Ol_intertw C l a ha).
  have := real_of_sqrt ww wt wu hs; rewrite -e => /matrixP r; apply/matrixP=> i j; rewrite [LHS]mxE [RHS]mxE /=.
  by apply/Creal_ReP/CrealP; have := r i j; rewrite !mxE.
by split=> // _ idx; exact: Creal_Re.
Qed.
End Rep.

(** * The four-vector representation *)
Section Four.
Variable C : numClosedFieldType.
Definition isum (n : nat) (f : nat -> int) : int := foldr (fun k s => f k + s) 0 (iota 0 n).
Lemma isumE n f : (isum n f)%:~R = \sum_(k < n) (f k)%:~R :> C.
Proof.
rewrite /isum -(big_mkord xpredT (fun k => (f k)%:~R)) /index_iota subn0.
elim: (iota 0 n) => [|k s ih]; first by rewrite big_nil.
by rewrite big_cons -ih -rmorphD.
Qed.
Lemma int_all1 n (P : nat -> bool) : all P (iota 0 n) -> forall i, (i < n)%N -> P i.
Proof. by move=> /allP h i hi; apply: h; rewrite mem_iota. Qed.
Lemma four_vector_comm i j p q : (i < 6)%N -> (j < 6)%N -> (p < 4)%N -> (q < 4)%N ->
  isum 4 (fun r => four_vector_at i p r * four_vector_at j r q) - isum 4 (fun r => four_vector_at j p r * four_vector_at i r q)
  = isum 6 (fun k => lorentz (-1) i j k * four_vector_at k p q).
Proof.
move=> hi hj hp hq; apply/eqP; move: q hq; apply: int_all1; move: p hp; apply: int_all1.
by move: j hj; apply: int_all1; move: i hi; apply: int_all1; vm_compute.
Qed.
Lemma four_vector_ok : is_rep (so13_th C) 4 (four_vector C).
Proof.
split=> //=; first by move=> i j k hi hj hk; rewrite lorentz_atE.
split=> //= i j hi hj; apply/matrixP=> p q.
have := congr1 (fun z : int => z%:~R : C) (@four_vector_comm i j p q hi hj (ltn_ord p) (ltn_ord q)).
rewrite rmorphB /= !isumE => e; rewrite [LHS]mxE [X in _ + X]mxE [X in X + _]mxE [X in _ - X]mxE summxE.
transitivity (\sum_(k < 4) (four_vector_at i p k * four_vector_at j k q)%:~R - \sum_(k < 4) (four_vector_at j p k * four_vector_at i k q)%:~R : C).
  by congr (_ - _); apply: eq_bigr => k _; rewrite !mxE /= rmorphM.
by rewrite e; apply: eq_bigr => k _; rewrite !mxE /= rmorphM.
Qed.
(** The Minkowski form diag(1, -1, -1, -1). *)
Definition eta : 'M[C]_4 := \matrix_(i, j) (if i == j then (if i == 0 then 1 else -1) else 0).
Lemma four_vector_minkowski a : (a < 6)%N ->
  let X := mx3 4 4 (rX (four_vector C)) a in X^T *m eta + eta *m X = 0.
Proof.
move=> ha /=; apply/matrixP=> p q; rewrite !mxE.
rewrite (bigD1 q) //= big1 ?addr0 => [|k /negPf ne]; last by rewrite !mxE ne mulr0.
rewrite (bigD1 p) //= big1 ?addr0 => [|k /negPf ne]; last by rewrite !mxE eq_sym ne mul0r.
rewrite !mxE !eqxx /=.
pose e (i : nat) : int := if i == 0%N then 1 else -1.
have E (i : 'I_4) : (if i == 0 then 1 else -1 : C) = (e i)%:~R by rewrite /e -val_eqE /=; case: ifP.
rewrite !E -!rmorphM -rmorphD /= -[0]/(0%:~R); congr (_%:~R).
have: all (fun a => all (fun p => all (fun q => four_vector_at a q p * e q + e p * four_vector_at a p q == 0) (iota 0 4)) (iota 0 4)) (iota 0 6) by vm_compute.
by move=> /int_all1/(_ a ha)/int_all1/(_ p (ltn_ord p))/int_all1/(_ q (ltn_ord q))/eqP.
Qed.
End Four.
