(** Pinv: adjoints, the Moore-Penrose inverse, and its defining equations. *)
From mathcomp Require Import all_ssreflect all_algebra.
From Verif Require Import Base Nd NdProofs Reps.

Set Implicit Arguments.
Unset Strict Implicit.
Unset Printing Implicit Defensive.

Import GRing.Theory Num.Theory.
Local Open Scope ring_scope.

Section Pinv.
Variable C : numClosedFieldType.

Lemma adjM m n p (A : 'M[C]_(m, n)) (B : 'M[C]_(n, p)) : adj (A *m B) = adj B *m adj A.
Proof. by rewrite /adj trmx_mul map_mxM. Qed.
Lemma adjK m n (A : 'M[C]_(m, n)) : adj (adj A) = A.
Proof. by apply/matrixP=> i j; rewrite !mxE conjCK. Qed.
Lemma adjD m n (A B : 'M[C]_(m, n)) : adj (A + B) = adj A + adj B.
Proof. by apply/matrixP=> i j; rewrite !mxE rmorphD. Qed.
Lemma adjB m n (A B : 'M[C]_(m, n)) : adj (A - B) = adj A - adj B.
Proof. by apply/matrixP=> i j; rewrite !mxE rmorphB. Qed.
Lemma adjN m n (A : 'M[C]_(m, n)) : adj (- A) = - adj A.
Proof. by apply/matrixP=> i j; rewrite !mxE rmorphN. Qed.
Lemma adjZ m n c (A : 'M[C]_(m, n)) : adj (c *: A) = c^* *: adj A.
Proof. by apply/matrixP=> i j; rewrite !mxE rmorphM. Qed.
Lemma adj0 m n : adj (0 : 'M[C]_(m, n)) = 0.
Proof. by apply/matrixP=> i j; rewrite !mxE rmorph0. Qed.
Lemma adj1 n : adj (1%:M : 'M[C]_n) = 1%:M.
Proof. by apply/matrixP=> i j; rewrite !mxE eq_sym; case: eqP; rewrite ?rmorph1 ?rmorph0. Qed.

Lemma adj_unit n (A : 'M[C]_n) : (adj A \in unitmx) = (A \in unitmx).
Proof. by rewrite /adj map_unitmx unitmx_tr. Qed.
Lemma adj_inv n (A : 'M[C]_n) : adj (invmx A) = invmx (adj A).
Proof. by rewrite /adj trmx_inv map_invmx. Qed.

(** The norm is definite. *)
Lemma adj_sq0 m n (A : 'M[C]_(m, n)) : A *m adj A = 0 -> A = 0.
Proof.
move=> h; apply/matrixP=> i j; rewrite mxE.
have /eqP : (A *m adj A) i i = 0 by rewrite h mxE.
rewrite mxE psumr_eq0; last by move=> k _; rewrite !mxE mul_conjC_ge0.
by move=> /allP/(_ j); rewrite mem_index_enum => /(_ isT) /=; rewrite !mxE mul_conjC_eq0 => /eqP.
Qed.
Lemma adj_sq0' m n (A : 'M[C]_(m, n)) : adj A *m A = 0 -> A = 0.
Proof. by move=> h; rewrite -[A]adjK (@adj_sq0 _ _ (adj A)) ?adj0 // adjK. Qed.

Lemma row_free_gram m n (R : 'M[C]_(m, n)) : row_free R -> R *m adj R \in unitmx.
Proof.
move=> fr; rewrite -row_free_unit; apply: inj_row_free => v h.
apply: (row_free_inj fr); rewrite mul0mx; apply: adj_sq0.
by rewrite adjM mulmxA -(mulmxA v) h mul0mx.
Qed.
Lemma row_full_gram m n (L : 'M[C]_(m, n)) : row_full L -> adj L *m L \in unitmx.
Proof.
move=> fu; rewrite -{2}(adjK L); apply: row_free_gram.
by rewrite /row_free /adj mxrank_map mxrank_tr.
Qed.

(** The four Penrose equations. *)
Record is_pinv m n (M : 'M[C]_(m, n)) (P : 'M[C]_(n, m)) : Prop := IsPinv {
  pi_1 : M *m P *m M = M; pi_2 : P *m M *m P = P;
  pi_3 : adj (M *m P) = M *m P; pi_4 : adj (P *m M) = P *m M }.

(** They determine the inverse. *)
Lemma is_pinv_uniq m n (M : 'M[C]_(m, n)) P P' : is_pinv M P -> is_pinv M P' -> P = P'.
Proof.
move=> [a1 a2 a3 a4] [b1 b2 b3 b4].
have e1 : M *m P = M *m P'.
  rewrite -a3 -{1}b1 -!mulmxA mulmxA adjM a3 b3 mulmxA a1 //.
have e2 : P *m M = P' *m M.
  rewrite -a4 -{1}b1 -!mulmxA mulmxA adjM b4 a4 -mulmxA [M *m (P *m M)]mulmxA a1 //.
by rewrite -a2 e2 -mulmxA e1 mulmxA b2.
Qed.

Lemma pinv_factor m n r (L : 'M[C]_(m, r)) (R : 'M[C]_(r, n)) : row_full L -> row_free R ->
  is_pinv (L *m R) (adj R *m invmx (R *m adj R) *m (invmx (adj L *m L) *m adj L)).
Proof.
move=> fL fR; have gR := row_free_gram fR; have gL := row_full_gram fL.
set A := invmx (R *m adj R); set B := invmx (adj L *m L).
have hA x (X : 'M[C]_(r, x)) : R *m (adj R *m (A *m X)) = X by rewrite !mulmxA mulmxV // mul1mx.
have hB x (X : 'M[C]_(r, x)) : B *m (adj L *m (L *m X)) = X by rewrite !mulmxA -(mulmxA B) mulVmx // mul1mx.
have hA' x (X : 'M[C]_(r, x)) : A *m (R *m (adj R *m X)) = X by rewrite !mulmxA -(mulmxA A) mulVmx // mul1mx.
have MP : L *m R *m (adj R *m A *m (B *m adj L)) = L *m (B *m adj L) by rewrite -!mulmxA hA.
have PM : adj R *m A *m (B *m adj L) *m (L *m R) = adj R *m A *m R by rewrite -!mulmxA hB.
have aA : adj A = A by rewrite adj_inv adjM adjK.
have aB : adj B = B by rewrite adj_inv adjM adjK.
split.
- by rewrite MP -!mulmxA hB.
- by rewrite PM -!mulmxA hA'.
- by rewrite MP !adjM aB adjK mulmxA.
- by rewrite PM !adjM aA adjK mulmxA.
Qed.

Theorem pinv_mxP m n (M : 'M[C]_(m, n)) : is_pinv M (pinv_mx M).
Proof. by have := pinv_factor (col_base_full M) (row_base_free M); rewrite mulmx_base. Qed.

Lemma pinvE m n (M : 'M[C]_(m, n)) P : is_pinv M P -> pinv_mx M = P.
Proof. by move=> h; apply: is_pinv_uniq (pinv_mxP M) h. Qed.

(** Full column rank: a left inverse. *)
Lemma pinv_left m n (M : 'M[C]_(m, n)) : row_full M -> pinv_mx M *m M = 1%:M.
Proof.
move=> /row_fullP[B hB]; have [h _ _ _] := pinv_mxP M.
by rewrite -[LHS]mul1mx -hB -mulmxA [M *m (_ *m _)]mulmxA h.
Qed.
Lemma pinv_right m n (M : 'M[C]_(m, n)) : row_free M -> M *m pinv_mx M = 1%:M.
Proof.
move=> /row_freeP[B hB]; have [h _ _ _] := pinv_mxP M.
by rewrite -[LHS]mulmx1 -hB mulmxA h.
Qed.
Lemma pinv_unit n (M : 'M[C]_n) : M \in unitmx -> pinv_mx M = invmx M.
Proof.
move=> u; apply: pinvE; split; rewrite ?mulmxV ?mulVmx ?mul1mx //; exact: adj1.
Qed.
(** (N M)^+ = M^-1 N^+ when M is invertible and N has full column rank. *)
Lemma pinv_mulr m n (N : 'M[C]_(m, n)) (M : 'M[C]_n) : M \in unitmx -> row_full N ->
  pinv_mx (N *m M) = invmx M *m pinv_mx N.
Proof.
move=> u f; have [a1 a2 a3 a4] := pinv_mxP N; apply: pinvE.
have e1 : N *m M *m (invmx M *m pinv_mx N) = N *m pinv_mx N by rewrite mulmxA mulmxK.
have e2 : invmx M *m pinv_mx N *m (N *m M) = 1%:M.
  by rewrite mulmxA -[_ *m N]mulmxA pinv_left // mulmx1 mulVmx.
by split; rewrite ?e1 ?e2 ?mul1mx ?adj1 // mulmxA a1.
Qed.
(** (U N)^+ = N^+ U* when U is unitary. *)
Lemma pinv_unitary m n (U : 'M[C]_m) (N : 'M[C]_(m, n)) : adj U *m U = 1%:M ->
  pinv_mx (U *m N) = pinv_mx N *m adj U.
Proof.
move=> u; have [a1 a2 a3 a4] := pinv_mxP N; apply: pinvE.
have e : pinv_mx N *m adj U *m (U *m N) = pinv_mx N *m N by rewrite -mulmxA [adj U *m _]mulmxA u mul1mx.
split.
- by rewrite -mulmxA e -mulmxA [N *m _]mulmxA a1.
- by rewrite e mulmxA a2.
- by rewrite mulmxA -[U *m N *m _]mulmxA [LHS]adjM adjK [adj (U *m _)]adjM a3 mulmxA.
- by rewrite e a4.
Qed.
End Pinv.
