(** SunGenEq: equivariance for the ladder matrices and for the generators are equivalent. *)
From Coq Require Import ZArith.
From Verif Require Import McRing.
From mathcomp Require Import all_ssreflect all_algebra.
From mathcomp.real_closed Require Import mxtens.
From mathcomp.zify Require Import zify.
From Verif Require Import Base Nd NdProofs Reps RepSpec RepProofs Pinv.
From Verif Require Import Sun SunDet SunDim SunRow SunLadder SunMx SunTog SunLR SunTp SunCg SunHw SunCgProofs SunCgSearch SunGl SunBasis SunGen.

Set Implicit Arguments.
Unset Strict Implicit.
Unset Printing Implicit Defensive.

Import GRing.Theory Num.Theory Order.Theory.
Local Open Scope ring_scope.

Section Rel.
Variables (C : numClosedFieldType) (m d : nat) (F : 'M[C]_(m, d)).
Definition rel (T : 'M[C]_m) (X : 'M[C]_d) : Prop := F *m X = T *m F.
Lemma relD T T' X X' : rel T X -> rel T' X' -> rel (T + T') (X + X').
Proof. by rewrite /rel mulmxDl mulmxDr => -> ->. Qed.
Lemma relZ a T X : rel T X -> rel (a *: T) (a *: X).
Proof. by rewrite /rel -scalemxAl -scalemxAr => ->. Qed.
Lemma relN T X : rel T X -> rel (- T) (- X).
Proof. by rewrite /rel mulNmx mulmxN => ->. Qed.
Lemma relB T T' X X' : rel T X -> rel T' X' -> rel (T - T') (X - X').
Proof. by move=> h h'; apply: relD => //; apply: relN. Qed.
Lemma rel_cm T T' X X' : rel T X -> rel T' X' -> rel (cm T T') (cm X X').
Proof. by rewrite /rel /cm mulmxBl mulmxBr !mulmxA => h h'; rewrite h h' -!mulmxA h h' . Qed.
End Rel.

Section Equi.
Variables (C : numClosedFieldType) (n m d : nat).
Variables (TE : nat -> nat -> 'M[C]_m) (E3 : nat -> nat -> 'M[C]_d).
Variable F : 'M[C]_(m, d).
Notation rel := (rel F).
Notation q := (size (su_pairs n)).
Notation N2 := (q + q + n.-1)%N.
Lemma rel_gX : (forall k l, (k < n)%N -> (l < n)%N -> k != l -> rel (TE k l) (E3 k l)) ->
  (forall t, (t.+1 < n)%N -> rel (TE t t - TE t.+1 t.+1) (E3 t t - E3 t.+1 t.+1)) ->
  forall g, (g < N2)%N -> rel (gX n TE g) (gX n E3 g).
Proof.
move=> h1 h2 g hg; rewrite /gX.
have pp a : (a < q)%N -> ((nth (0%N, 0%N) (su_pairs n) a).1 < (nth (0%N, 0%N) (su_pairs n) a).2 < n)%N.
  by move=> ha; rewrite -mem_pairs -surjective_pairing mem_nth.
case: ifP => [hq|/negbT]; first by have := pp g hq => h; apply: relZ; apply: relD; apply: h1; lia.
rewrite -leqNgt => hq; case: ifP => [hq2|/negbT].
  have hq3 : (g - q < q)%N by lia.
  by have := pp _ hq3 => h; apply: relB; apply: h1; lia.
by rewrite -leqNgt => hq2; apply: relZ; apply: h2; lia.
Qed.
Lemma gX_rel : (forall g, (g < N2)%N -> rel (gX n TE g) (gX n E3 g)) ->
  forall k l, (k < l < n)%N -> rel (TE k l) (E3 k l) /\ rel (TE l k) (E3 l k).
Proof.
move=> h k l kl.
have hg : (index (k, l) (su_pairs n) < q)%N by rewrite index_mem mem_pairs.
have h1 : rel (gX n TE (Ordinal hg)) (gX n E3 (Ordinal hg)).
  by apply: h; rewrite -addnA; apply: ltn_addr; rewrite /=.
have h2 : rel (gX n TE (q + Ordinal hg)) (gX n E3 (q + Ordinal hg)).
  by apply: h; rewrite -addnA ltn_add2l; apply: ltn_addr; rewrite /=.
move: h1 h2; rewrite !gX1 !gX2 /= !nth_index ?mem_pairs // => /(relZ (- 'i)).
rewrite !scalerA mulNr -expr2 sqrCi opprK !scale1r => h1 h2.
have two : (2%:R : C) != 0 by rewrite pnatr_eq0.
have hf (V : lmodType C) (x y : V) : 2%:R^-1 *: (x + y + (x - y)) = x.
  by rewrite addrACA subrr addr0 -mulr2n -scaler_nat scalerA mulVf // scale1r.
have hf' (V : lmodType C) (x y : V) : 2%:R^-1 *: (x + y - (x - y)) = y.
  by rewrite opprB [x + y]addrC addrACA subrr addr0 -mulr2n -scaler_nat scalerA mulVf // scale1r.
split; first by have := relZ 2%:R^-1 (relD h1 h2); rewrite !hf.
by have := relZ 2%:R^-1 (relB h1 h2); rewrite !hf'.
Qed.
End Equi.

Section Tens.
Variables (C : numClosedFieldType) (n d1 d2 : nat).
Variables (E1 : nat -> nat -> 'M[C]_d1) (E2 : nat -> nat -> 'M[C]_d2).
Definition tE k l := tensX (E1 k l) (E2 k l).
Lemma tensXD a1 a2 (A A' : 'M[C]_a1) (B B' : 'M[C]_a2) : tensX (A + A') (B + B') = tensX A B + tensX A' B'.
Proof. by rewrite /tensX tensDl tensDr addrACA. Qed.
Lemma tensXN a1 a2 (A : 'M[C]_a1) (B : 'M[C]_a2) : tensX (- A) (- B) = - tensX A B.
Proof. by rewrite -scaleN1r -[- B]scaleN1r tensXZ scaleN1r. Qed.
Lemma tensX_tr a1 a2 (A : 'M[C]_a1) (B : 'M[C]_a2) : tensX A^T B^T = (tensX A B)^T.
Proof. by rewrite /tensX linearD /= !trmx_tens !trmx1. Qed.
Lemma gX_tens g : gX n tE g = tensX (gX n E1 g) (gX n E2 g).
Proof.
rewrite /gX; case: ifP => _; first by rewrite tensXZ tensXD.
by case: ifP => _; rewrite ?tensXZ tensXD tensXN.
Qed.
End Tens.

Section Sun.
Variable C : numClosedFieldType.
Variables S1 S2 S3 : weight.
Hypothesis v1 : valid_S S1.
Hypothesis v2 : valid_S S2.
Hypothesis v3 : valid_S S3.
Variable n : nat.
Hypothesis z1 : size S1 = n.
Hypothesis z2 : size S2 = n.
Hypothesis z3 : size S3 = n.
Notation dm S := (size (gtp (size S) S)).
Variable F : 'M[C]_(dm S1 * dm S2, dm S3).
Notation q := (size (su_pairs n)).
Notation N2 := (q + q + n.-1)%N.
Notation rel := (rel F).
Notation tE := (tE (ES C S1) (ES C S2)).
Definition eqU := forall k, (k.+1 < n)%N -> rel (tensX (Jp S1 C k) (Jp S2 C k)) (Jp S3 C k).
Definition eqL := forall k, (k.+1 < n)%N -> rel (tensX (Jp S1 C k)^T (Jp S2 C k)^T) (Jp S3 C k)^T.
Lemma eqU_EU s i : eqU -> (i + s.+1 < n)%N -> rel (tensX (EU (Jp S1 C) s i) (EU (Jp S2 C) s i)) (EU (Jp S3 C) s i).
Proof using.
move=> h; elim: s i => [|s IH] i hi /=; first by apply: h; move: hi; clear; lia.
by rewrite /cm -comm_tensX; apply: rel_cm; [apply: h | apply: IH]; move: hi; clear; lia.
Qed.
Lemma eqL_EU s i : eqL -> (i + s.+1 < n)%N ->
  rel (tensX (EU (Jp S1 C) s i)^T (EU (Jp S2 C) s i)^T) (EU (Jp S3 C) s i)^T.
Proof using.
move=> h; elim: s i => [|s IH] i hi /=; first by apply: h; move: hi; clear; lia.
rewrite !cm_tr tensXN /cm -comm_tensX; apply: relN.
by apply: rel_cm; [apply: h | apply: IH]; move: hi; clear; lia.
Qed.
Lemma rel_generators : (eqU /\ eqL) <->
  forall g, (g < N2)%N -> rel (tensX (gX n (ES C S1) g) (gX n (ES C S2) g)) (gX n (ES C S3) g).
Proof using v1 v2 v3 z1 z2 z3.
split=> [[hU hL] g hg|h].
  rewrite -gX_tens; apply: rel_gX hg => [k l hk hl kl|t ht].
    rewrite /SunGenEq.tE; have [lt|gt|e] := ltngtP k l; last by rewrite e eqxx in kl.
      by rewrite /ES !(E_lt _ _ lt); apply: eqU_EU => //; move: lt hl; clear; lia.
    by rewrite /ES !(E_gt _ _ gt); apply: eqL_EU => //; move: gt hk; clear; lia.
  have hc S : valid_S S -> size S = n -> ES C S t t - ES C S t.+1 t.+1 = cm (Jp S C t) (Jp S C t)^T.
    by move=> v z; rewrite pm ?z // eqxx /ES !E_eq.
  rewrite hc // /SunGenEq.tE -tensXN -tensXD !hc // /cm -comm_tensX.
  by apply: rel_cm; [apply: hU | apply: hL].
have {}h g : (g < N2)%N -> rel (gX n tE g) (gX n (ES C S3) g) by rewrite gX_tens; apply: h.
have h' k : (k.+1 < n)%N -> rel (tE k k.+1) (ES C S3 k k.+1) /\ rel (tE k.+1 k) (ES C S3 k.+1 k).
  by move=> hk; apply: (gX_rel h); rewrite ltnSn.
split=> k hk; have [a b] := h' k hk; move: a b; rewrite /SunGenEq.tE /ES !E_p !E_m //.
Qed.
End Sun.
