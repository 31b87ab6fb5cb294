(** Sl2cMx: the coupled bases of SL(2,C), their Clebsch-Gordan matrices, and the
    Lorentz algebra.  Mathematics only: no part of /repo is modelled here. *)
From Coq Require Import ZArith.
From mathcomp Require Import all_ssreflect all_algebra.
From mathcomp Require Import zify.
From mathcomp.real_closed Require Import mxtens.
From Verif Require Import Base McRing Nd NdProofs Reps RepSpec RepProofs RepOps Reduced ReducedProofs Labels LabelProofs.
From Verif Require Import CgSum Su2 Su2Proofs So3Proofs Su2Cg Su2CgProofs Su2CgEq Su2Irr CgMx SoCg SoCgProofs.

Set Implicit Arguments.
Unset Strict Implicit.
Unset Printing Implicit Defensive.

Import Order.POrderTheory GRing.Theory Num.Theory.
Local Open Scope ring_scope.

Section Pk.
(** Position c of a concatenation of blocks of sizes n + 1. *)
Fixpoint pk (ns : seq nat) (c : nat) : nat * nat :=
  match ns with
  | [::] => (0%N, c)
  | n :: ns' => if (c < n.+1)%N then (n, c) else pk ns' (c - n.+1)
  end.
Lemma sum_pk (V : zmodType) (f : nat * nat -> V) ns :
  \sum_(0 <= c < sumn [seq n.+1 | n <- ns]) f (pk ns c) = \sum_(n <- ns) \sum_(k < n.+1) f (n, k : nat).
Proof.
elim: ns => [|n ns IH]; first by rewrite big_nil big_geq.
rewrite big_cons -IH [sumn _]/= (@big_cat_nat _ _ _ n.+1) ?leq_addr //=; congr (_ + _).
  by rewrite big_mkord; apply: eq_bigr => k _; rewrite ltn_ord.
rewrite -{1}[n.+1]add0n big_addn addKn; apply: eq_bigr => k _.
by rewrite ltnNge leq_addl /= addnK.
Qed.
Lemma pk_in ns c : (c < sumn [seq n.+1 | n <- ns])%N -> (pk ns c).1 \in ns /\ ((pk ns c).2 < (pk ns c).1.+1)%N.
Proof.
elim: ns c => [//|n ns IH] c /= hc; case: ifP => h; first by rewrite inE eqxx.
by have [|h1 h2] := IH (c - n.+1)%N; [lia | rewrite inE h1 orbT].
Qed.
End Pk.

Section Sl2cMx.
Variable C : numClosedFieldType.
Notation Bm := (Bm C).
Notation Xm := (Xm C).
Notation cj := (@cj C _ _).

(** * The coupled basis of (l, k): an orthogonal matrix *)
Definition Fm (l k : nat) : 'M[C]_(l.+1 * k.+1) :=
  \matrix_(x, c) let y := pk (su2_list l k) c in ce C l k y.1 (mxtens_unindex x).1 (mxtens_unindex x).2 y.2.
Lemma Fm_at l k i j c : Fm l k (mxtens_index (i, j)) c = ce C l k (pk (su2_list l k) c).1 i j (pk (su2_list l k) c).2.
Proof. by rewrite mxE mxtens_indexK. Qed.
Lemma Fm_full l k : Fm l k *m (Fm l k)^T = 1%:M.
Proof.
rewrite -proj_full; apply/matrixP=> x y; rewrite -[x]mxtens_unindexK -[y]mxtens_unindexK.
case: (mxtens_unindex x) (mxtens_unindex y) => i j [i' j']; rewrite mxE /proj summxE.
pose f (y : nat * nat) := ce C l k y.1 i j y.2 * ce C l k y.1 i' j' y.2.
transitivity (\sum_(0 <= c < l.+1 * k.+1) f (pk (su2_list l k) c)).
  by rewrite big_mkord; apply: eq_bigr => c _; rewrite [_^T _ _]mxE !Fm_at.
have eD : (l.+1 * k.+1 = sumn [seq n.+1 | n <- su2_list l k])%N by rewrite -su2_list_dim sumnE big_map.
rewrite [in LHS]eD sum_pk; apply: eq_bigr => n _; rewrite mxE; apply: eq_bigr => z _.
by rewrite [_^T _ _]mxE !Bm_at.
Qed.
Lemma Fm_full' l k : (Fm l k)^T *m Fm l k = 1%:M.
Proof. exact: mulmx1C (Fm_full l k). Qed.
Lemma Fm_real l k : cj (Fm l k) = Fm l k.
Proof. by apply/matrixP=> i j; rewrite !mxE; apply/CrealP; exact: ce_real. Qed.

(** * Exchanging the two middle factors *)
Section Swap.
Variables p q r s : nat.
(** ((d, g), (e, h)) -> ((d, e), (g, h)) *)
Definition swi (x : 'I_(p * r * (q * s))) : 'I_(p * q * (r * s)) :=
  let y := mxtens_unindex x in let u := mxtens_unindex y.1 in let v := mxtens_unindex y.2 in
  mxtens_index (mxtens_index (u.1, v.1), mxtens_index (u.2, v.2)).
Lemma swiE d g e h : swi (mxtens_index (mxtens_index (d, g), mxtens_index (e, h))) = mxtens_index (mxtens_index (d, e), mxtens_index (g, h)).
Proof. by rewrite /swi !mxtens_indexK. Qed.
End Swap.
Lemma swiK p q r s : cancel (@swi p q r s) (@swi p r q s).
Proof.
move=> x; rewrite -[x]mxtens_unindexK; case: (mxtens_unindex x) => a b.
rewrite -[a]mxtens_unindexK -[b]mxtens_unindexK; case: (mxtens_unindex a) (mxtens_unindex b) => d g [e h].
by rewrite !swiE.
Qed.
Definition Sw p q r s : 'M[C]_(p * r * (q * s), p * q * (r * s)) := \matrix_(x, y) (y == swi x)%:R.
Lemma Sw_mul p q r s n (M : 'M[C]_(p * q * (r * s), n)) x j : (Sw p q r s *m M) x j = M (swi x) j.
Proof.
rewrite mxE (bigD1 (swi x)) //= mxE eqxx mul1r big1 ?addr0 // => y ny.
by rewrite mxE (negbTE ny) mul0r.
Qed.
Lemma Sw_tr p q r s : (Sw p q r s)^T = Sw p r q s.
Proof.
apply/matrixP=> x y; rewrite !mxE; congr (nat_of_bool _)%:R.
by apply/eqP/eqP => ->; rewrite swiK.
Qed.
Lemma Sw_unit p q r s : Sw p q r s *m (Sw p q r s)^T = 1%:M.
Proof.
apply/matrixP=> x y; rewrite Sw_mul Sw_tr !mxE; congr (nat_of_bool _)%:R.
by rewrite swiK eq_sym.
Qed.
Lemma Sw_unit' p q r s : (Sw p q r s)^T *m Sw p q r s = 1%:M.
Proof. by rewrite Sw_tr -[X in _ *m X]trmxK Sw_tr Sw_unit. Qed.
Lemma Sw_tens p q r s (A : 'M[C]_p) (B : 'M[C]_q) (D : 'M[C]_r) (E : 'M[C]_s) :
  Sw p q r s *m ((A *t B) *t (D *t E)) = ((A *t D) *t (B *t E)) *m Sw p q r s.
Proof.
set M := (A *t B) *t _; set N := (A *t D) *t _.
suff e : Sw p q r s *m M *m (Sw p q r s)^T = N by rewrite -e -[RHS]mulmxA Sw_unit' mulmx1.
rewrite -mulmxA; apply/matrixP=> x y; rewrite Sw_mul -[_ *m _]trmxK trmx_mul trmxK mxE Sw_mul mxE.
rewrite -[x]mxtens_unindexK -[y]mxtens_unindexK; case: (mxtens_unindex x) (mxtens_unindex y) => a b [a' b'].
rewrite -[a]mxtens_unindexK -[b]mxtens_unindexK -[a']mxtens_unindexK -[b']mxtens_unindexK.
case: (mxtens_unindex a) (mxtens_unindex b) (mxtens_unindex a') (mxtens_unindex b') => d g [e h] [d' g'] [e' h'].
by rewrite !swiE /M /N !tensmxE; mcring.
Qed.
Lemma Sw_tact p q r s (A : 'M[C]_p) (B : 'M[C]_q) (D : 'M[C]_r) (E : 'M[C]_s) :
  Sw p q r s *m tact (tact A B) (tact D E) = tact (tact A D) (tact B E) *m Sw p q r s.
Proof.
rewrite /tact -[in LHS](tens1 C r s) -[in LHS](tens1 C p q) -[in RHS](tens1 C q s) -[in RHS](tens1 C p r).
rewrite !tensDl !tensDr !mulmxDr !mulmxDl !Sw_tens -!addrA; congr (_ + _).
by rewrite addrCA.
Qed.

(** * Clebsch-Gordan matrices *)
Notation d_ a := (a.1.+1 * a.2.+1)%N.
Definition Em (a b c : nat * nat) : 'M[C]_(d_ a * d_ b, d_ c) :=
  (Fm a.1 a.2 *t Fm b.1 b.2)^T *m (Sw a.1.+1 b.1.+1 a.2.+1 b.2.+1 *m ((Bm a.1 b.1 c.1 *t Bm a.2 b.2 c.2) *m Fm c.1 c.2)).

Definition sg (s : bool) : C := if s then 1 else -1.
(** Generators in the uncoupled basis (real for s = true, imaginary for s = false). *)
Definition Tm (s : bool) (l k : nat) (a : nat) : 'M[C]_(l.+1 * k.+1) := tact (Xm l a) (sg s *: cj (Xm k a)).
Definition Gm (s : bool) (l k : nat) (a : nat) : 'M[C]_(l.+1 * k.+1) := (Fm l k)^T *m Tm s l k a *m Fm l k.

Lemma Gm_tr s l k a : (Gm s l k a)^T = (Fm l k)^T *m (Tm s l k a)^T *m Fm l k.
Proof. by rewrite /Gm !trmx_mul trmxK mulmxA. Qed.
Lemma Bm_Xc n1 n2 n3 a s : tri n1 n2 n3 ->
  Bm n1 n2 n3 *m (sg s *: cj (Xm n3 a))^T = tact (sg s *: cj (Xm n1 a))^T (sg s *: cj (Xm n2 a))^T *m Bm n1 n2 n3.
Proof.
move=> h; have e : Bm n1 n2 n3 *m (cj (Xm n3 a))^T = tact (cj (Xm n1 a))^T (cj (Xm n2 a))^T *m Bm n1 n2 n3.
  rewrite -[in LHS](Bm_real C n1 n2 n3) -cjT -cjM Bm_X // cjM Bm_real; congr (_ *m _).
  rewrite /tact [LHS]map_mxD -!/(SoCgProofs.cj _) !cj_tens -!cjT.
  by congr (_ *t _ + _ *t _); rewrite /SoCgProofs.cj map_mx1.
rewrite !trZ -scalemxAr e scalemxAl; congr (_ *m _); rewrite /tact scalerDr.
by congr (_ + _); apply/matrixP=> i j; rewrite !mxE; mcring.
Qed.
Lemma tens_tact m n p q (A : 'M[C]_(m, n)) (B : 'M[C]_(p, q)) (X : 'M[C]_n) (Y : 'M[C]_q) X' Y' :
  A *m X = X' *m A -> B *m Y = Y' *m B -> (A *t B) *m tact X Y = tact X' Y' *m (A *t B).
Proof. by move=> h1 h2; rewrite /tact mulmxDr mulmxDl !tensmx_mul !mulmx1 !mul1mx h1 h2. Qed.

Lemma Em_equiv s (a b c : nat * nat) i : tri a.1 b.1 c.1 -> tri a.2 b.2 c.2 ->
  Em a b c *m (Gm s c.1 c.2 i)^T = tact (Gm s a.1 a.2 i)^T (Gm s b.1 b.2 i)^T *m Em a b c.
Proof.
move=> h1 h2; rewrite !Gm_tr {1}/Em -!mulmxA [Fm c.1 c.2 *m (_ *m _)]mulmxA Fm_full mul1mx.
rewrite /Tm !tact_tr [X in _ *m (_ *m X)]mulmxA (tens_tact (Bm_X C i h1) (Bm_Xc i s h2)) -[tact _ _ *m _ *m _]mulmxA.
rewrite [X in _ *m X]mulmxA Sw_tact -[_ *m Sw _ _ _ _ *m _]mulmxA mulmxA /Em.
rewrite [in RHS]mulmxA; congr (_ *m _); rewrite trmx_tens.
by apply: tens_tact; rewrite -!mulmxA Fm_full mulmx1.
Qed.
Lemma Em_real a b c : cj (Em a b c) = Em a b c.
Proof.
rewrite /Em !cjM cjT !cj_tens !Fm_real !Bm_real; congr (_ *m (_ *m _)).
by apply/matrixP=> x y; rewrite !mxE; case: eqP => _; rewrite ?rmorph1 ?rmorph0.
Qed.
Lemma Em_gram a b c c' : (Em a b c)^T *m Em a b c' =
  (Fm c.1 c.2)^T *m (((Bm a.1 b.1 c.1)^T *m Bm a.1 b.1 c'.1) *t ((Bm a.2 b.2 c.2)^T *m Bm a.2 b.2 c'.2)) *m Fm c'.1 c'.2.
Proof.
rewrite /Em !trmx_mul trmxK !mulmxA -[_ *m (Fm _ _ *t _) *m _]mulmxA.
have -> : (Fm a.1 a.2 *t Fm b.1 b.2) *m (Fm a.1 a.2 *t Fm b.1 b.2)^T = 1%:M by rewrite trmx_tens tensmx_mul !Fm_full tens1.
by rewrite mulmx1 -[_ *m _^T *m Sw _ _ _ _]mulmxA Sw_unit' mulmx1 trmx_tens -[_ *m (Bm _ _ _ *t _)]mulmxA tensmx_mul.
Qed.
Lemma Em_full a b : \sum_(l <- su2_list a.1 b.1) \sum_(k <- su2_list a.2 b.2) Em a b (l, k) *m (Em a b (l, k))^T = 1%:M.
Proof.
set U := (Fm a.1 a.2 *t Fm b.1 b.2)^T *m Sw a.1.+1 b.1.+1 a.2.+1 b.2.+1.
have e l k : Em a b (l, k) *m (Em a b (l, k))^T = U *m ((Bm a.1 b.1 l *m (Bm a.1 b.1 l)^T) *t (Bm a.2 b.2 k *m (Bm a.2 b.2 k)^T)) *m U^T.
  rewrite /Em /U /= !trmx_mul trmxK -!mulmxA; congr (_ *m (_ *m _)).
  rewrite [Fm l k *m (_ *m _)]mulmxA Fm_full mul1mx trmx_tens !mulmxA; congr (_ *m _ *m _).
  by rewrite tensmx_mul.
under eq_bigr => l _ do (under eq_bigr => k _ do rewrite e).
have -> : \sum_(l <- su2_list a.1 b.1) \sum_(k <- su2_list a.2 b.2) U *m ((Bm a.1 b.1 l *m (Bm a.1 b.1 l)^T) *t (Bm a.2 b.2 k *m (Bm a.2 b.2 k)^T)) *m U^T
   = U *m (proj C a.1 b.1 *t proj C a.2 b.2) *m U^T.
  rewrite /proj; have sl (I : Type) (s : seq I) m n (F : I -> 'M[C]_m) (M : 'M[C]_n) : (\sum_(i <- s) F i) *t M = \sum_(i <- s) (F i *t M).
    by elim/big_rec2: _ => [|i y1 y2 _ <-]; rewrite ?tens0mx ?tensDl //; apply/matrixP=> x y; rewrite !mxE mul0r.
  have sr (I : Type) (s : seq I) m n (F : I -> 'M[C]_m) (M : 'M[C]_n) : M *t (\sum_(i <- s) F i) = \sum_(i <- s) (M *t F i).
    by elim/big_rec2: _ => [|i y1 y2 _ <-]; rewrite ?tensDr //; apply/matrixP=> x y; rewrite !mxE mulr0.
  rewrite sl mulmx_sumr mulmx_suml; apply: eq_bigr => l _; rewrite sr mulmx_sumr mulmx_suml.
  by apply: eq_bigr => k _.
rewrite !proj_full tens1 mulmx1 /U trmx_mul trmxK -!mulmxA [Sw _ _ _ _ *m (_ *m _)]mulmxA Sw_unit mul1mx.
by rewrite trmx_tens tensmx_mul !Fm_full' tens1.
Qed.

(** * The trivial couplings *)
Lemma frac1 (a b c d : C) : a != 0 -> b != 0 -> c != 0 -> d != 0 -> d * (a * b * c / (d * a * c * b)) = 1.
Proof. by move=> *; mcf. Qed.
Lemma ce_right l i k : (i <= l)%N -> (k <= l)%N -> ce C l 0 l i 0 k = (i == k)%:R.
Proof.
move=> hi hk; have -> : ce C l 0 l i 0 k = cge C 0 0 l i 0 k by rewrite -ceE !addn0 !add0n.
rewrite /cge !addn0 eq_sym; case: eqP => // <-; rewrite /cgc /cgS /cgK /cgF big_ord_recl big_ord0 /cgt /cb /= !add0n !subn0 !addn0.
have f n := fact_neq0 C n; have n1 : ((l + 1)%N%:R : C) != 0 by rewrite pnatr_eq0 addn1.
rewrite !fact0 !mul1n !muln1 addr0 expr0 !mul1r mulr1n addn1 factS !natrM.
have -> : l.+1%:R * ((l`!)%:R * (i`!)%:R * ((l - i)`!)%:R / (l.+1%:R * (l`!)%:R * ((l - i)`!)%:R * (i`!)%:R)) = 1 :> C.
  by apply: frac1; rewrite ?f // -addn1.
rewrite sqrtC1 mul1r binE //; have := f l; have := f i; have := f (l - i)%N; move: (l`!)%:R (i`!)%:R ((l-i)`!)%:R => a b c *; by mcf.
Qed.
Lemma ce_left l j k : (j <= l)%N -> (k <= l)%N -> ce C 0 l l 0 j k = (j == k)%:R.
Proof.
move=> hi hk; have -> : ce C 0 l l 0 j k = cge C 0 l 0 0 j k by rewrite -ceE !addn0 !add0n.
rewrite /cge !addn0 !add0n eq_sym; case: eqP => // <-; rewrite /cgc /cgS /cgK /= !add0n !subn0 !addn0.
have f n := fact_neq0 C n; have n1 : ((l + 1)%N%:R : C) != 0 by rewrite pnatr_eq0 addn1.
have -> : cgF C l 0 j 0 0 = (-1) ^+ j * (l`!)%:R.
  rewrite /cgF (bigD1 (Ordinal (hi : (j < l.+1)%N))) //= big1 ?addr0 => [|v nv].
    rewrite /cgt /cb leqnn subnn bin0 addn0 add0n mulr1 binE //.
    by have := f j; have := f (l - j)%N; move: (_ ^+ j) (l`!)%:R (j`!)%:R ((l-j)`!)%:R => s a b c *; mcf.
  rewrite /cgt /cb; case: leqP => [vj|_]; last by rewrite !(mulr0, mul0r).
  have lt : (0 < j - v)%N.
    by rewrite subn_gt0 ltn_neqAle vj andbT; apply: contraNneq nv => e; apply/eqP/val_inj.
  by rewrite (bin_small lt) !(mulr0, mul0r).
rewrite !fact0 !mul1n !muln1 addn1 factS !natrM.
have -> : l.+1%:R * ((l`!)%:R * (j`!)%:R * ((l - j)`!)%:R / (l.+1%:R * (l`!)%:R * ((l - j)`!)%:R * (j`!)%:R)) = 1 :> C.
  by apply: frac1; rewrite ?f // -addn1.
rewrite sqrtC1 mul1r mulrAC -mulrA [_ * (_ * _)]mulrA; have := f l; rewrite -signr_odd.
by case: (odd j); rewrite ?expr0 ?expr1; move: (l`!)%:R => a *; mcf.
Qed.
End Sl2cMx.
