(** SunHw: highest weight vectors and the words in the lowering operators applied to them.
    The Gram matrix of these words depends only on the weight (Shapovalov's form), so that two
    highest weight vectors of the same weight generate isometric modules. *)
From Coq Require Import ZArith.
From Verif Require Import McRing.
From mathcomp Require Import all_ssreflect all_algebra.
From Verif Require Import Base Nd Reps Pinv.

Set Implicit Arguments.
Unset Strict Implicit.
Unset Printing Implicit Defensive.

Import GRing.Theory Num.Theory.
Local Open Scope ring_scope.

Section Words.
Variable C : numClosedFieldType.
Variables (r : nat) (c : nat -> nat -> C) (lam : nat -> C).

(** p: raising operators; adj p: lowering operators; z: their commutators; v: the vector. *)
Definition hwsys m (p z : nat -> 'M[C]_m) (v : 'cV[C]_m) : Prop :=
  [/\ forall l k, (l < r)%N -> (k < r)%N ->
        p l *m adj (p k) - adj (p k) *m p l = if l == k then z l else 0,
      forall l k, (l < r)%N -> (k < r)%N ->
        z l *m adj (p k) - adj (p k) *m z l = - c l k *: adj (p k),
      forall l, (l < r)%N -> p l *m v = 0 &
      forall l, (l < r)%N -> z l *m v = lam l *: v].

Definition wok (w : seq nat) := all (fun k => (k < r)%N) w.
Definition vw m (p : nat -> 'M[C]_m) (v : 'cV[C]_m) (w : seq nat) : 'cV[C]_m :=
  foldr (fun k x => adj (p k) *m x) v w.
Definition zw (l : nat) (w : seq nat) : C := lam l - \sum_(k <- w) c l k.
Fixpoint raise (l : nat) (w : seq nat) : seq (C * seq nat) :=
  if w is k :: w' then
    [seq (a.1, k :: a.2) | a <- raise l w'] ++ (if l == k then [:: (zw l w', w')] else [::])
  else [::].
Definition lin m (p : nat -> 'M[C]_m) (v : 'cV[C]_m) (s : seq (C * seq nat)) : 'cV[C]_m :=
  \sum_(a <- s) a.1 *: vw p v a.2.
Definition sok (s : seq (C * seq nat)) := all (fun a => wok a.2) s.

Lemma raise_ok l w : wok w -> sok (raise l w).
Proof.
elim: w => //= k w ih /andP[hk hw]; rewrite /sok all_cat; apply/andP; split.
  by rewrite all_map; apply/allP => a ha /=; rewrite hk; apply: (allP (ih hw)).
by case: ifP => //= _; rewrite hw.
Qed.

Section One.
Variables (m : nat) (p z : nat -> 'M[C]_m) (v : 'cV[C]_m).
Hypothesis sys : hwsys p z v.

Lemma z_vw l w : (l < r)%N -> wok w -> z l *m vw p v w = zw l w *: vw p v w.
Proof using sys.
case: sys => _ h2 _ h4 hl; elim: w => [|k w ih] /=; first by rewrite /zw big_nil subr0 h4.
case/andP=> hk hw; have := h2 l k hl hk; move/eqP; rewrite subr_eq => /eqP e.
rewrite mulmxA e mulmxDl -mulmxA ih // -scalemxAl -scalemxAr -scalerDl; congr (_ *: _).
rewrite /zw big_cons; mcring.
Qed.
Lemma p_vw l w : (l < r)%N -> wok w -> p l *m vw p v w = lin p v (raise l w).
Proof using sys.
case: (sys) => h1 _ h3 _ hl; elim: w => [|k w ih] /=; first by rewrite /lin big_nil h3.
case/andP=> hk hw; have := h1 l k hl hk; move/eqP; rewrite subr_eq => /eqP e.
rewrite mulmxA e mulmxDl -mulmxA ih // /lin big_cat big_map addrC; congr (_ + _).
  by rewrite mulmx_sumr; apply: eq_bigr => a _; rewrite -scalemxAr.
by case: eqP => [_|_]; rewrite ?big_nil ?mul0mx // big_seq1 /= z_vw.
Qed.
End One.

Definition dot m (x y : 'cV[C]_m) : C := (adj x *m y) 0 0.
Lemma dotDr m (x y y' : 'cV[C]_m) : dot x (y + y') = dot x y + dot x y'.
Proof. by rewrite /dot mulmxDr mxE. Qed.
Lemma dotZr m a (x y : 'cV[C]_m) : dot x (a *: y) = a * dot x y.
Proof. by rewrite /dot -scalemxAr mxE. Qed.
Lemma dotZl m a (x y : 'cV[C]_m) : dot (a *: x) y = a^* * dot x y.
Proof. by rewrite /dot adjZ -scalemxAl mxE. Qed.
Lemma dot_sumr m (I : Type) (s : seq I) (F : I -> 'cV[C]_m) x :
  dot x (\sum_(i <- s) F i) = \sum_(i <- s) dot x (F i).
Proof. by rewrite /dot mulmx_sumr summxE. Qed.
Lemma dot_suml m (I : Type) (s : seq I) (F : I -> 'cV[C]_m) x :
  dot (\sum_(i <- s) F i) x = \sum_(i <- s) dot (F i) x.
Proof.
elim: s => [|i s ih]; first by rewrite !big_nil /dot adj0 mul0mx mxE.
by rewrite !big_cons -ih /dot adjD mulmxDl mxE.
Qed.
Lemma dot_eq0 m (x : 'cV[C]_m) : dot x x = 0 -> x = 0.
Proof.
move=> e; apply: adj_sq0'; apply/matrixP => i j; rewrite (ord1 i) (ord1 j) [RHS]mxE; exact: e.
Qed.

Section Two.
Variables (m1 m2 : nat) (p1 z1 : nat -> 'M[C]_m1) (v1 : 'cV[C]_m1) (p2 z2 : nat -> 'M[C]_m2) (v2 : 'cV[C]_m2).
Hypothesis sys1 : hwsys p1 z1 v1.
Hypothesis sys2 : hwsys p2 z2 v2.
Hypothesis nv : dot v1 v1 = dot v2 v2.

Lemma gram w w' : wok w -> wok w' -> dot (vw p1 v1 w) (vw p1 v1 w') = dot (vw p2 v2 w) (vw p2 v2 w').
Proof using sys1 sys2 nv.
elim: w w' => [|k w ih] w' /=.
  case: w' => [|k w'] //= _ /andP[hk hw].
  have z m (p z : nat -> 'M[C]_m) v : hwsys p z v -> dot v (adj (p k) *m vw p v w') = 0.
    by move=> [_ _ h3 _]; rewrite /dot mulmxA -adjM h3 // adj0 mul0mx mxE.
  by rewrite (z _ _ _ _ sys1) (z _ _ _ _ sys2).
case/andP=> hk hw hw'.
have e m (p z : nat -> 'M[C]_m) v : hwsys p z v ->
    dot (adj (p k) *m vw p v w) (vw p v w') = \sum_(a <- raise k w') a.1 * dot (vw p v w) (vw p v a.2).
  move=> sys; rewrite /dot adjM adjK -mulmxA (p_vw sys) // -[LHS]/(dot _ _) dot_sumr.
  by apply: eq_bigr => a _; rewrite dotZr.
rewrite (e _ _ _ _ sys1) (e _ _ _ _ sys2) big_seq [RHS]big_seq; apply: eq_bigr => a ha.
by congr (_ * _); apply: ih => //; apply: (allP (raise_ok k hw')).
Qed.
Lemma gram_lin s t : sok s -> sok t -> dot (lin p1 v1 s) (lin p1 v1 t) = dot (lin p2 v2 s) (lin p2 v2 t).
Proof using sys1 sys2 nv.
move=> hs ht; rewrite !dot_suml big_seq [RHS]big_seq; apply: eq_bigr => a ha.
rewrite !dotZl !dot_sumr; congr (_ * _); rewrite big_seq [RHS]big_seq; apply: eq_bigr => b hb.
by rewrite !dotZr gram //; [apply: (allP hs) | apply: (allP ht)].
Qed.
Lemma lin0 s : sok s -> lin p1 v1 s = 0 -> lin p2 v2 s = 0.
Proof using sys1 sys2 nv.
move=> hs e; apply: dot_eq0; rewrite -gram_lin // e /dot mulmx0 mxE //.
Qed.

(** Every basis vector of the first space is a multiple of a word. *)
Variables (a : 'I_m1 -> C) (w : 'I_m1 -> seq nat).
Hypothesis wo : forall j, wok (w j).
Hypothesis gen : forall j, delta_mx j 0 = a j *: vw p1 v1 (w j).
Definition isom : 'M[C]_(m2, m1) := \matrix_(i, j) (a j * vw p2 v2 (w j) i 0).

Lemma isom_col j : isom *m delta_mx j 0 = a j *: vw p2 v2 (w j).
Proof using. by rewrite -colE; apply/matrixP => i k; rewrite !mxE (ord1 k). Qed.
Lemma isom_vw u : wok u -> isom *m vw p1 v1 u = vw p2 v2 u.
Proof using sys1 sys2 nv wo gen.
move=> hu; set x := vw p1 v1 u.
have xE : x = \sum_j x j 0 *: (delta_mx j 0 : 'cV_m1).
  by rewrite [LHS]matrix_sum_delta; apply: eq_bigr => j _; rewrite big_ord1.
pose s := (1, u) :: [seq (- (x j 0 * a j), w j) | j <- enum 'I_m1].
have hs : sok s by rewrite /sok /= hu all_map; apply/allP => j _; apply: wo.
have l1 : lin p1 v1 s = 0.
  rewrite /lin big_cons big_map big_enum /= scale1r -/x [X in X + _]xE -big_split big1 // => j _ /=.
  by rewrite gen scalerA scaleNr subrr.
have := lin0 hs l1; rewrite /lin big_cons big_map big_enum /= scale1r => /eqP.
under eq_bigr => j _ do rewrite scaleNr.
rewrite sumrN subr_eq0 => /eqP ->; rewrite [X in isom *m X]xE mulmx_sumr; apply: eq_bigr => j _.
by rewrite -scalemxAr isom_col scalerA.
Qed.
Lemma isom_v : isom *m v1 = v2.
Proof using sys1 sys2 nv wo gen. exact: (@isom_vw [::]). Qed.
Lemma delta_ext m n (A B : 'M[C]_(m, n)) : (forall j, A *m delta_mx j (0 : 'I_1) = B *m delta_mx j 0) -> A = B.
Proof using. by move=> h; apply/matrixP => i j; have := h j; rewrite -!colE => /matrixP/(_ i 0); rewrite !mxE. Qed.
Lemma isom_q k : (k < r)%N -> isom *m adj (p1 k) = adj (p2 k) *m isom.
Proof using sys1 sys2 nv wo gen.
move=> hk; apply: delta_ext => j; rewrite -!mulmxA isom_col gen -!scalemxAr; congr (_ *: _).
by rewrite -[adj (p1 k) *m _]/(vw p1 v1 (k :: w j)) isom_vw //= hk wo.
Qed.
Lemma isom_p k : (k < r)%N -> isom *m p1 k = p2 k *m isom.
Proof using sys1 sys2 nv wo gen.
move=> hk; apply: delta_ext => j; rewrite -!mulmxA isom_col gen -!scalemxAr; congr (_ *: _).
rewrite (p_vw sys1) // (p_vw sys2) // mulmx_sumr big_seq [RHS]big_seq; apply: eq_bigr => b hb.
by rewrite -scalemxAr isom_vw //; apply: (allP (raise_ok k (wo j))).
Qed.
Lemma isom_orth : adj isom *m isom = 1%:M.
Proof using sys1 sys2 nv wo gen.
apply/matrixP => i j.
have e n (A B : 'M[C]_(n, m1)) : (adj A *m B) i j = dot (A *m delta_mx i 0) (B *m delta_mx j 0).
  by rewrite /dot -!colE !mxE; apply: eq_bigr => k _; rewrite /adj !mxE.
rewrite e !isom_col dotZl dotZr -gram // -dotZr -dotZl -!gen.
by rewrite -[X in dot X _]mul1mx -[X in dot _ X]mul1mx -e mulmx1 /adj !mxE eq_sym conjC_nat.
Qed.
End Two.
End Words.
