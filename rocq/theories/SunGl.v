(** SunGl: from the relations between the ladder matrices to a representation of gl(n).

    The matrices E_ij built by nested commutators of the raising matrices satisfy the relations
    of the matrix units.  The Serre relations are not assumed: they follow from the fact that
    the lowering matrices are the adjoints of the raising ones. *)
From Coq Require Import ZArith.
From Verif Require Import McRing.
From mathcomp Require Import all_ssreflect all_algebra.
From mathcomp.zify Require Import zify.
From Verif Require Import Base Nd NdProofs Reps Pinv.

Set Implicit Arguments.
Unset Strict Implicit.
Unset Printing Implicit Defensive.

Import GRing.Theory Num.Theory Order.Theory.
Local Open Scope ring_scope.

Section Comm.
Variables (C : numClosedFieldType) (d : nat).
Implicit Types A B X Y : 'M[C]_d.
Definition cm A B : 'M[C]_d := A *m B - B *m A.
Lemma cmDl A B X : cm (A + B) X = cm A X + cm B X.
Proof. by rewrite /cm mulmxDl mulmxDr opprD addrACA. Qed.
Lemma cmDr A B X : cm X (A + B) = cm X A + cm X B.
Proof. by rewrite /cm mulmxDl mulmxDr opprD addrACA. Qed.
Lemma cmZl a A X : cm (a *: A) X = a *: cm A X.
Proof. by rewrite /cm -scalemxAl -scalemxAr scalerBr. Qed.
Lemma cmZr a A X : cm X (a *: A) = a *: cm X A.
Proof. by rewrite /cm -scalemxAl -scalemxAr scalerBr. Qed.
Lemma cmNl A X : cm (- A) X = - cm A X.
Proof. by rewrite -scaleN1r cmZl scaleN1r. Qed.
Lemma cmNr A X : cm X (- A) = - cm X A.
Proof. by rewrite -scaleN1r cmZr scaleN1r. Qed.
Lemma cmBl A B X : cm (A - B) X = cm A X - cm B X.
Proof. by rewrite cmDl cmNl. Qed.
Lemma cmBr A B X : cm X (A - B) = cm X A - cm X B.
Proof. by rewrite cmDr cmNr. Qed.
Lemma cm0l X : cm 0 X = 0. Proof. by rewrite /cm mul0mx mulmx0 subrr. Qed.
Lemma cm0r X : cm X 0 = 0. Proof. by rewrite /cm mul0mx mulmx0 subrr. Qed.
Lemma cmC A B : cm A B = - cm B A. Proof. by rewrite /cm opprB. Qed.
Lemma cmxx A : cm A A = 0. Proof. by rewrite /cm subrr. Qed.
Lemma cm_suml (I : Type) (r : seq I) (F : I -> 'M[C]_d) X : cm (\sum_(i <- r) F i) X = \sum_(i <- r) cm (F i) X.
Proof. by elim/big_rec2: _ => [|i x y _ <-]; rewrite ?cm0l // cmDl. Qed.
Lemma cm_sumr (I : Type) (r : seq I) (F : I -> 'M[C]_d) X : cm X (\sum_(i <- r) F i) = \sum_(i <- r) cm X (F i).
Proof. by elim/big_rec2: _ => [|i x y _ <-]; rewrite ?cm0r // cmDr. Qed.
Lemma cm_tr A B : (cm A B)^T = - cm A^T B^T.
Proof. by rewrite /cm linearB /= !trmx_mul opprB. Qed.
Lemma jac A B X : cm A (cm B X) = cm (cm A B) X + cm B (cm A X).
Proof.
rewrite /cm !mulmxBr !mulmxBl !mulmxA.
set a := A *m B *m X; set b := A *m X *m B; set c := B *m X *m A; set e := X *m B *m A.
set f := B *m A *m X; set g := X *m A *m B.
rewrite (_ : a - b - (c - e) = (a - f - (g - e)) + (f - c - (b - g))) //.
move: a b c e f g => a b c e f g.
apply/matrixP=> i j; rewrite !mxE; mcring.
Qed.
Lemma jacl A B X : cm (cm A B) X = cm A (cm B X) - cm B (cm A X).
Proof. by rewrite jac addrK. Qed.

Lemma mxtrace_adj A : \tr (adj A *m A) = 0 -> A = 0.
Proof.
rewrite /mxtrace => h.
have h0 (i j : 'I_d) : A j i = 0.
  have p (k : 'I_d) : true -> 0 <= (adj A *m A) k k.
    by move=> _; rewrite mxE sumr_ge0 // => l _; rewrite !mxE mulrC -normCK exprn_ge0.
  move/eqP: h; rewrite psumr_eq0 // => /allP/(_ i); rewrite mem_index_enum /= => /(_ isT).
  rewrite mxE psumr_eq0 => [|l _]; last by rewrite !mxE mulrC -normCK exprn_ge0.
  by move=> /allP/(_ j); rewrite mem_index_enum !mxE mulrC -normCK expf_eq0 /= normr_eq0 => /(_ isT)/eqP.
by apply/matrixP=> i j; rewrite h0 mxE.
Qed.
Lemma cm_kill p x : cm (adj p) (cm p x) = 0 -> cm p x = 0.
Proof.
set u := cm p x => h; apply: mxtrace_adj.
have -> : adj u = cm (adj x) (adj p) by rewrite /u /cm adjB !adjM.
rewrite /cm mulmxBl linearB /= -!mulmxA [\tr (adj p *m _)]mxtrace_mulC -!mulmxA.
by rewrite -linearB /= -mulmxBr -/(cm _ _) h mulmx0 linear0.
Qed.
End Comm.

Section Gl.
Variables (C : numClosedFieldType) (n d : nat) (p H : nat -> 'M[C]_d).
Notation m k := (p k)^T.
Hypothesis padj : forall k, (k.+1 < n)%N -> adj (p k) = m k.
Hypothesis HT : forall i, (H i)^T = H i.
Hypothesis HH : forall i j, cm (H i) (H j) = 0.
Hypothesis Hp : forall i k, (k.+1 < n)%N -> cm (H i) (p k) = ((i == k)%:R - (i == k.+1)%:R) *: p k.
Hypothesis pm : forall k l, (k.+1 < n)%N -> (l.+1 < n)%N ->
  cm (p k) (m l) = if k == l then H k - H k.+1 else 0.

(** EU s i = E_{i,i+s+1}. *)
Fixpoint EU (s i : nat) : 'M[C]_d := if s is s'.+1 then cm (p i) (EU s' i.+1) else p i.
Definition E (i j : nat) : 'M[C]_d :=
  if (i < j)%N then EU (j - i.+1) i else if i == j then H i else (EU (i - j.+1) j)^T.

Lemma mp k l : (k.+1 < n)%N -> (l.+1 < n)%N -> cm (m k) (p l) = if k == l then H k.+1 - H k else 0.
Proof using pm.
by move=> hk hl; rewrite cmC pm // eq_sym; case: eqP => [->|_]; rewrite ?oppr0 // opprB.
Qed.
Lemma H_EU k s i : (i + s.+1 < n)%N -> cm (H k) (EU s i) = ((k == i)%:R - (k == i + s.+1)%N%:R) *: EU s i.
Proof using Hp.
elim: s i => [|s IH] i hs /=; first by rewrite Hp ?addn1 //; lia.
rewrite jac Hp; last by lia.
rewrite IH; last by lia.
rewrite cmZl cmZr -scalerDl addSnnS; congr (_ *: _); mcring.
Qed.
Lemma serre1 k i : (k.+1 < n)%N -> (i.+1 < n)%N -> (k.+1 < i)%N || (i.+1 < k)%N -> cm (p k) (p i) = 0.
Proof using padj Hp pm.
move=> hk hi ki; apply: cm_kill; rewrite padj // jac mp // eqxx mp //.
rewrite (_ : (k == i) = false) ?cm0r ?addr0; last by move: ki; clear; lia.
rewrite cmBl !Hp // -scalerBl (_ : (_ - _ - _) = 0) ?scale0r //.
rewrite (_ : (k == i) = false) 1?(_ : (k == i.+1) = false) 1?(_ : (k.+1 == i) = false) 1?(_ : (k.+1 == i.+1) = false) ?subr0 //;
  move: ki; clear; lia.
Qed.
Lemma far k s i : (k.+1 < n)%N -> (i + s.+1 < n)%N -> (k.+1 < i)%N || (i + s.+1 < k)%N -> cm (p k) (EU s i) = 0.
Proof using padj Hp pm.
elim: s i => [|s IH] i hk hs ki /=; first by apply: serre1; move: hk hs ki; clear; lia.
by rewrite jac serre1 ?IH ?cm0l ?cm0r ?addr0 //; move: hk hs ki; clear; lia.
Qed.
Lemma right s i : (i + s.+2 < n)%N -> cm (EU s i) (p (i + s.+1)%N) = EU s.+1 i.
Proof using padj Hp pm.
elim: s i => [|s IH] i hs /=; first by rewrite addn1.
rewrite jacl (_ : (i + s.+2 = i.+1 + s.+1)%N) ?IH ?addSnnS //.
by rewrite serre1 ?cm0r ?subr0 //; move: hs; clear; lia.
Qed.
Lemma low0 k i : (k.+1 < n)%N -> (i.+1 < n)%N -> cm (m k) (EU 0 i) = if k == i then H i.+1 - H i else 0.
Proof using pm. by move=> hk hi; rewrite /= mp //; case: eqP => // ->. Qed.
Lemma low k s i : (k.+1 < n)%N -> (i + s.+2 < n)%N ->
  cm (m k) (EU s.+1 i) = if k == i then EU s i.+1 else if k == (i + s.+1)%N then - EU s i else 0.
Proof using padj Hp pm.
move=> hk; elim: s i => [|s IH] i hs.
  rewrite /= jac !mp //; try by move: hs; clear; lia.
  case: (k =P i) => [->|ki].
    rewrite (_ : (i == i.+1) = false) ?cm0r ?addr0; last by clear; lia.
    rewrite cmBl !Hp; try by move: hs; clear; lia.
    rewrite -scalerBl !eqxx (_ : (i == i.+1) = false) 1?(_ : (i.+1 == i.+2) = false) 1?(_ : (i == i.+2) = false); try by clear; lia.
    by rewrite !subr0 scale1r.
  rewrite cm0l add0r addn1; case: (k =P i.+1) => [->|_]; last by rewrite cm0r.
  rewrite cmBr [cm _ (H i.+2)]cmC [cm _ (H i.+1)]cmC opprK !Hp; try by move: hs; clear; lia.
  rewrite -scaleNr -scalerDl !eqxx (_ : (i.+2 == i) = false) 1?(_ : (i.+2 == i.+1) = false) 1?(_ : (i.+1 == i) = false); try by clear; lia.
  by rewrite subrr oppr0 add0r sub0r scaleN1r.
rewrite [EU s.+2 i]/= -/(EU s.+1 i.+1) jac IH; last by move: hs; clear; lia.
rewrite mp //; last by move: hs; clear; lia.
case: (k =P i) => [->|ki].
  rewrite (_ : (i == i.+1) = false) 1?(_ : (i == i.+1 + s.+1)%N = false) ?cm0r ?addr0; try by clear; lia.
  rewrite cmBl !H_EU; try by move: hs; clear; lia.
  rewrite -scalerBl !eqxx (_ : (i == i.+1) = false) 1?(_ : (i.+1 == i.+1 + s.+2)%N = false) 1?(_ : (i == i.+1 + s.+2)%N = false); try by clear; lia.
  by rewrite !subr0 scale1r.
rewrite cm0l add0r; case: (k =P i.+1) => [->|ki'].
  have -> : (i.+1 == i + s.+2)%N = false by clear; lia.
  by apply: far; move: hs; clear; lia.
rewrite (_ : (i + s.+2 = i.+1 + s.+1)%N); last by clear; lia.
case: (k =P (i.+1 + s.+1)%N) => [_|_]; last by rewrite cm0r.
by rewrite cmNr.
Qed.
Lemma mid k s i : (k.+1 < n)%N -> (i + s.+1 < n)%N -> k.+1 != i -> k != (i + s.+1)%N -> cm (p k) (EU s i) = 0.
Proof using padj Hp pm.
move=> hk hs k1 k2; case: s hs k2 => [|s] hs k2.
  have [->|ki] := eqVneq k i; first by rewrite cmxx.
  by apply: serre1 => //; move: hs k1 k2 ki; clear; lia.
apply: cm_kill; rewrite padj // jac mp // eqxx low //.
have -> : cm (H k.+1 - H k) (EU s.+1 i) = (- (k == i)%:R - (k == i + s.+1)%N%:R) *: EU s.+1 i.
  rewrite cmBl !H_EU // -scalerBl (negbTE k1) (negbTE k2) subr0 sub0r addrC; congr ((_ - _%:R) *: _).
  by move: k1 k2; clear; lia.
case: (k =P i) => [->|ki].
  rewrite (_ : (i == i + s.+1)%N = false) ?subr0 ?scaleN1r ?addNr //; clear; lia.
rewrite oppr0 sub0r; case: (k =P (i + s.+1)%N) => [->|_]; last by rewrite cm0r oppr0 scale0r addr0.
by rewrite cmNr -cmC right // scaleN1r addNr.
Qed.

Lemma E_lt i j : (i < j)%N -> E i j = EU (j - i.+1) i. Proof using. by rewrite /E => ->. Qed.
Lemma E_eq i : E i i = H i. Proof using. by rewrite /E ltnn eqxx. Qed.
Lemma E_gt i j : (j < i)%N -> E i j = (EU (i - j.+1) j)^T.
Proof using. by move=> h; rewrite /E ltnNge ltnW //= gtn_eqF. Qed.
Lemma E_tr i j : (E i j)^T = E j i.
Proof using HT.
by have [h|h|->] := ltngtP i j; rewrite ?E_eq ?HT // (E_lt h) (E_gt h) ?trmxK.
Qed.
Lemma E_p k : E k k.+1 = p k. Proof using. by rewrite E_lt // subnn. Qed.
Lemma E_m k : E k.+1 k = m k. Proof using. by rewrite E_gt // subnn. Qed.

Lemma HE k i j : (i < n)%N -> (j < n)%N -> cm (H k) (E i j) = ((k == i)%:R - (k == j)%:R) *: E i j.
Proof using Hp HH HT.
move=> hi hj; have [h|h|->] := ltngtP i j; last by rewrite subrr scale0r E_eq HH.
  rewrite (E_lt h) H_EU; last by move: h hj; clear; lia.
  by rewrite (_ : (i + (j - i.+1).+1 = j)%N) //; move: h; clear; lia.
rewrite (E_gt h) -[H k]HT -[LHS]opprK -cm_tr H_EU; last by move: h hi; clear; lia.
rewrite (_ : (j + (i - j.+1).+1 = i)%N); last by move: h; clear; lia.
by rewrite linearZ /= -scaleNr opprB.
Qed.
Lemma pE k i j : (k.+1 < n)%N -> (i < n)%N -> (j < n)%N ->
  cm (p k) (E i j) = (k.+1 == i)%:R *: E k j - (j == k)%:R *: E i k.+1.
Proof using padj Hp pm HT.
move=> hk hi hj; have [h|h|e] := ltngtP i j.
- rewrite (E_lt h); case: (k.+1 =P i) => [e|ne].
    rewrite (_ : (j == k) = false) ?scale0r ?subr0 ?scale1r; last by move: h e; clear; lia.
    rewrite E_lt; last by move: h e; clear; lia.
    rewrite (_ : (j - k.+1 = (j - i.+1).+1)%N) /= ?e //; move: h e; clear; lia.
  rewrite scale0r sub0r; case: (j =P k) => [e|ne'].
    rewrite scale1r E_lt; last by move: h e; clear; lia.
    rewrite (_ : (k.+1 - i.+1 = (j - i.+1).+1)%N) -?right; try by move: h e hk; clear; lia.
    by rewrite -cmC; congr (cm (p _) _); move: h e; clear; lia.
  by rewrite scale0r oppr0 mid //; move: h hj ne ne'; clear; lia.
- rewrite (E_gt h) -[p k]trmxK -[LHS]opprK -cm_tr.
  case: (posnP (i - j.+1)) => e.
    have {h e} e : i = j.+1 by move: h e; clear; lia.
    rewrite e subnn low0 //; last by rewrite -e.
    rewrite eqSS eq_sym; case: (j =P k) => [->|_]; last by rewrite linear0 oppr0 !scale0r subrr.
    by rewrite !scale1r !E_eq linearB /= !HT opprB.
  case es : (i - j.+1)%N => [|s]; first by rewrite es in e.
  rewrite low //; last by move: es hi; clear; lia.
  rewrite eq_sym; case: (j =P k) => [ejk|ne].
    rewrite (_ : (k.+1 == i) = false); last by move: ejk es; clear; lia.
    rewrite scale0r sub0r scale1r E_gt; last by move: ejk es; clear; lia.
    by rewrite ejk (_ : (i - k.+2 = s)%N) //; move: ejk es; clear; lia.
  rewrite scale0r subr0 (_ : (k == j + s.+1)%N = (k.+1 == i)); last by move: es; clear; lia.
  case: (k.+1 =P i) => [ek|_]; last by rewrite linear0 oppr0 scale0r.
  rewrite linearN opprK scale1r E_gt; last by move: ek es; clear; lia.
  by rewrite (_ : (k - j.+1 = s)%N) //; move: ek es; clear; lia.
- subst j; rewrite E_eq cmC Hp //; case: (i =P k) => [->|_].
    by rewrite (_ : (k == k.+1) = false) 1?(_ : (k.+1 == k) = false) ?subr0 ?scale0r ?sub0r ?scale1r ?E_p //; clear; lia.
  by rewrite sub0r scaleNr opprK scale0r subr0 eq_sym; case: (k.+1 =P i) => [<-|]; rewrite ?scale0r // E_p.
Qed.

(** The representation of gl(n). *)
Definition Phi (A : 'M[C]_n) : 'M[C]_d := \sum_(i < n) \sum_(j < n) A i j *: E i j.
Lemma PhiD A B : Phi (A + B) = Phi A + Phi B.
Proof using.
rewrite /Phi -big_split; apply: eq_bigr => i _; rewrite -big_split; apply: eq_bigr => j _.
by rewrite /= mxE scalerDl.
Qed.
Lemma PhiZ a A : Phi (a *: A) = a *: Phi A.
Proof using.
rewrite /Phi scaler_sumr; apply: eq_bigr => i _; rewrite scaler_sumr; apply: eq_bigr => j _.
by rewrite mxE scalerA.
Qed.
Lemma PhiN A : Phi (- A) = - Phi A. Proof using. by rewrite -scaleN1r PhiZ scaleN1r. Qed.
Lemma PhiB A B : Phi (A - B) = Phi A - Phi B. Proof using. by rewrite PhiD PhiN. Qed.
Lemma Phi0 : Phi 0 = 0. Proof using. by rewrite -[0](scale0r 0) PhiZ scale0r. Qed.
Lemma Phi_sum (I : Type) (r : seq I) (F : I -> 'M[C]_n) : Phi (\sum_(i <- r) F i) = \sum_(i <- r) Phi (F i).
Proof using. by elim/big_rec2: _ => [|i x y _ <-]; rewrite ?Phi0 // PhiD. Qed.
Lemma Phi_tr A : Phi A^T = (Phi A)^T.
Proof using HT.
rewrite /Phi linear_sum exchange_big; apply: eq_bigr => i _; rewrite linear_sum; apply: eq_bigr => j _.
by rewrite /= linearZ /= E_tr mxE.
Qed.
Lemma Phi_delta i j : Phi (delta_mx i j) = E i j.
Proof using.
rewrite /Phi (bigD1 i) //= [X in _ + X]big1 => [|i' ne]; last first.
  by rewrite big1 // => j' _; rewrite mxE (negbTE ne) scale0r.
rewrite addr0 (bigD1 j) //= big1 => [|j' ne]; last by rewrite mxE (negbTE ne) andbF scale0r.
by rewrite mxE !eqxx scale1r addr0.
Qed.
Definition good X := forall A, Phi (cm X A) = cm (Phi X) (Phi A).
Lemma goodD X Y : good X -> good Y -> good (X + Y).
Proof using. by move=> hX hY A; rewrite cmDl (PhiD (cm X A)) (PhiD X) hX hY cmDl. Qed.
Lemma goodZ a X : good X -> good (a *: X).
Proof using. by move=> hX A; rewrite cmZl !PhiZ hX cmZl. Qed.
Lemma good_sum (I : Type) (r : seq I) (F : I -> 'M[C]_n) : (forall i, good (F i)) -> good (\sum_(i <- r) F i).
Proof using.
move=> h; elim/big_ind: _ => // [A|X Y]; last exact: goodD.
by rewrite cm0l Phi0 cm0l.
Qed.
Lemma good_cm X Y : good X -> good Y -> good (cm X Y).
Proof using. by move=> hX hY A; rewrite jacl PhiB hX hY hY hX hX -jacl. Qed.
Lemma good_tr X : good X -> good X^T.
Proof using HT.
move=> h A; rewrite -[A]trmxK -[LHS]opprK -PhiN -cm_tr Phi_tr h cm_tr opprK !Phi_tr //.
Qed.
Lemma goodP X : (forall i j, Phi (cm X (delta_mx i j)) = cm (Phi X) (E i j)) -> good X.
Proof using.
move=> h A; rewrite [A]matrix_sum_delta cm_sumr !Phi_sum cm_sumr; apply: eq_bigr => i _.
rewrite cm_sumr !Phi_sum cm_sumr; apply: eq_bigr => j _.
by rewrite cmZr !PhiZ cmZr Phi_delta h.
Qed.
Lemma delta_mul (i j k l : 'I_n) : delta_mx i j *m delta_mx k l = (j == k)%:R *: delta_mx i l :> 'M[C]_n.
Proof using.
apply/matrixP=> a b; rewrite !mxE (bigD1 j) //= !mxE eqxx andbT big1 => [|x ne]; last first.
  by rewrite !mxE (negbTE ne) andbF mul0r.
by rewrite addr0 -!natrM !mulnb; congr (_%:R); case: (_ == _) (_ == _) (_ == _) => [] [] [].
Qed.
Lemma good_p (i j : 'I_n) : (j = i.+1 :> nat) -> good (delta_mx i j).
Proof using padj HT HH Hp pm.
move=> e; apply: goodP => k l; rewrite /cm !delta_mul PhiB !PhiZ !Phi_delta -/(cm _ _).
have h : (i.+1 < n)%N by rewrite -e.
by rewrite e E_p pE // -!val_eqE /= e.
Qed.
Lemma good_H (i : 'I_n) : good (delta_mx i i).
Proof using padj HT HH Hp pm.
apply: goodP => k l; rewrite /cm !delta_mul PhiB !PhiZ !Phi_delta -/(cm _ _) E_eq HE // scalerBl.
by rewrite [l == i]eq_sym -!val_eqE /=; congr (_ - _); case: eqP => [->|]; rewrite ?scale0r.
Qed.
Lemma good_lt (i j : 'I_n) : (i < j)%N -> good (delta_mx i j).
Proof using padj HT HH Hp pm.
move: {2}(j - i.+1)%N (erefl (j - i.+1)%N) => s; elim: s i => [|s IH] i es h.
  by apply: good_p; move: es h; clear; lia.
have hi : (i.+1 < n)%N by move: (ltn_ord j) h; clear; lia.
have -> : delta_mx i j = cm (delta_mx i (Ordinal hi)) (delta_mx (Ordinal hi) j) :> 'M[C]_n.
  rewrite /cm !delta_mul eqxx scale1r (_ : (j == i) = false) ?scale0r ?subr0 //.
  by apply/eqP=> e; move: h; rewrite e ltnn.
by apply: good_cm; [apply: good_p | apply: IH => /=; move: es h; clear; lia].
Qed.
Theorem Phi_cm X A : Phi (cm X A) = cm (Phi X) (Phi A).
Proof using padj HT HH Hp pm.
suff: good X by apply.
rewrite [X]matrix_sum_delta; apply: good_sum => i; apply: good_sum => j; apply: goodZ.
have [h|h|/val_inj->] := ltngtP i j; [exact: good_lt | | exact: good_H].
by rewrite -trmx_delta; apply: good_tr; apply: good_lt.
Qed.

(** The kernel on traceless matrices. *)
Lemma E_all0 (i j : 'I_n) : i != j -> E i j = 0 -> forall k l : 'I_n, k != l -> E k l = 0.
Proof using padj HT HH Hp pm.
move=> ij e.
have br (a b c : 'I_n) : a != c -> E a c = cm (E a b) (E b c).
  move=> ac; rewrite -!Phi_delta -Phi_cm; congr Phi; rewrite /cm !delta_mul eqxx scale1r eq_sym (negbTE ac).
  by rewrite scale0r subr0.
have r1 (l : 'I_n) : l != i -> E i l = 0 by move=> h; rewrite (br i j l) 1?eq_sym // e cm0l.
have r0 (l : 'I_n) : l != j -> E l j = 0 by move=> h; rewrite (br l i j) // e cm0r.
move=> k l kl; have [ki|ki] := eqVneq k i; first by subst k; apply: r1; rewrite eq_sym.
have [lj|lj] := eqVneq l j; first by subst l; apply: r0.
have [li|li] := eqVneq l i.
  subst l; rewrite (br k j i) //.
  have [kj|kj] := eqVneq k j; last by rewrite r0 // cm0l.
  subst k; have z : E j j = E i i.
    have := Phi_cm (delta_mx i j) (delta_mx j i); rewrite !Phi_delta e cm0l /cm !delta_mul !eqxx !scale1r PhiB !Phi_delta.
    by move/eqP; rewrite subr_eq0 => /eqP.
  have := HE j (ltn_ord j) (ltn_ord i); rewrite -[H j]E_eq z E_eq HE // !eqxx.
  have ne : (i == j :> nat) = false by apply/negbTE; move: ij; rewrite -val_eqE.
  rewrite ne [(j == i :> nat)]eq_sym ne sub0r subr0 scale1r scaleN1r => /esym/eqP.
  rewrite -subr_eq0 opprK -mulr2n -scaler_nat scaler_eq0 pnatr_eq0 /= => /eqP z0.
  by rewrite z0 oppr0.
by rewrite (br k i l) // r1 // cm0r.
Qed.
Lemma Phi_inj (X : 'M[C]_n) : (exists k, (k.+1 < n)%N /\ p k != 0) -> \tr X = 0 -> Phi X = 0 -> X = 0.
Proof using padj HT HH Hp pm.
move=> [k [hk pk]] tX X0.
have nz (i j : 'I_n) : i != j -> E i j != 0.
  move=> ij; apply: contra pk => /eqP e; rewrite -E_p.
  apply/eqP; apply: (E_all0 ij e (k := Ordinal (ltnW hk)) (l := Ordinal hk)); rewrite -val_eqE /=.
  by clear; lia.
have off (i j : 'I_n) : i != j -> X i j = 0.
  move=> ij; have : Phi (cm (cm X (delta_mx j i)) (delta_mx j i)) = 0 by rewrite !Phi_cm X0 !cm0l.
  have -> : cm (cm X (delta_mx j i)) (delta_mx j i) = (- 2%:R * X i j) *: delta_mx j i.
    have z : delta_mx j i *m delta_mx j i = 0 :> 'M[C]_n by rewrite delta_mul (negbTE ij) scale0r.
    have s : delta_mx j i *m X *m delta_mx j i = X i j *: delta_mx j i.
      apply/matrixP=> a b; rewrite !mxE (bigD1 j) //= big1 ?addr0 => [|x ne]; last by rewrite [delta_mx _ _ _ _]mxE (negbTE ne) mulr0.
      rewrite [delta_mx j i j b]mxE eqxx /= mxE (bigD1 i) //= big1 ?addr0 => [|x ne]; last by rewrite mxE (negbTE ne) andbF mul0r.
      by rewrite mxE eqxx andbT mulrAC -natrM mulnb mulrC.
    rewrite /cm mulmxBl mulmxBr -[X *m _ *m _]mulmxA z mulmx0 !mulmxA z mul0mx s sub0r subr0.
    by rewrite -scalerA scaleNr -opprD -mulr2n -scaler_nat.
  have ji : j != i by rewrite eq_sym.
  rewrite PhiZ Phi_delta => /eqP; rewrite scaler_eq0 (negbTE (nz j i ji)) orbF.
  by rewrite mulf_eq0 oppr_eq0 pnatr_eq0 /= => /eqP.
have dg (i j : 'I_n) : X i i = X j j.
  have [->//|ij] := eqVneq i j.
  have : Phi (cm X (delta_mx i j)) = 0 by rewrite Phi_cm X0 cm0l.
  have -> : cm X (delta_mx i j) = (X i i - X j j) *: delta_mx i j.
    apply/matrixP=> a b; rewrite /cm !mxE (bigD1 i) //= big1 ?addr0 => [|x ne]; last by rewrite mxE (negbTE ne) mulr0.
    rewrite (bigD1 j) //= [X in _ - (_ + X)]big1 ?addr0 => [|x ne]; last by rewrite mxE (negbTE ne) andbF mul0r.
    rewrite !mxE !eqxx /= andbT; have [->|ai] := eqVneq a i; last by rewrite off // !mul0r subrr mulr0.
    have [->|bj] := eqVneq b j; first by rewrite mulr1 mul1r mulr1.
    by rewrite [X j b]off 1?eq_sym // !mulr0 subrr.
  rewrite PhiZ Phi_delta => /eqP; rewrite scaler_eq0 (negbTE (nz i j ij)) orbF subr_eq0 => /eqP//.
have n0 : (0 < n)%N by move: hk; clear; lia.
have x0 (i : 'I_n) : X i i = 0.
  move: tX; rewrite /mxtrace (eq_bigr (fun=> X i i)) => [|j _]; last exact: dg.
  by rewrite sumr_const card_ord -mulr_natr => /eqP; rewrite mulf_eq0 pnatr_eq0 (gtn_eqF n0) orbF => /eqP.
by apply/matrixP=> i j; rewrite mxE; have [->|ij] := eqVneq i j; [apply: x0 | apply: off].
Qed.
End Gl.
