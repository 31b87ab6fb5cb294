(** RepProofs: operations on representations. *)
From Coq Require Import ZArith String Ascii.
From mathcomp Require Import all_ssreflect all_algebra.
From mathcomp.real_closed Require Import mxtens.
From mathcomp Require Import zify.
From Verif Require Import Base McRing Nd NdProofs Reps RepSpec.

Set Implicit Arguments.
Unset Strict Implicit.
Unset Printing Implicit Defensive.

Import GRing.Theory Num.Theory.
Local Open Scope ring_scope.
Local Open Scope string_scope.

Section Proofs.
Variable C : numClosedFieldType.

(** ** Evaluation of the einsum calls *)
Lemma einsum_aij_kl l m n p q (a b : nd C) : shape a = [:: l; m; n] -> shape b = [:: p; q] ->
  exists c, einsum2 "aij" "kl" "aikjl" a b = Ok c /\ shape c = [:: l; m; p; n; q] /\
  forall x i k j o, get c [:: x; i; k; j; o] = get a [:: x; i; j] * get b [:: k; o].
Proof.
move=> ea eb; rewrite /einsum2 /einsum_ops /= ea eb /=.
eexists; split; first by []; split=> // x i k j o.
by rewrite /= /term /= /lookup0 /= mulr1.
Qed.
Lemma einsum_ij_akl l m n p q (a b : nd C) : shape a = [:: m; n] -> shape b = [:: l; p; q] ->
  exists c, einsum2 "ij" "akl" "aikjl" a b = Ok c /\ shape c = [:: l; m; p; n; q] /\
  forall x i k j o, get c [:: x; i; k; j; o] = get a [:: i; j] * get b [:: x; k; o].
Proof.
move=> ea eb; rewrite /einsum2 /einsum_ops /= ea eb /=.
eexists; split; first by []; split=> // x i k j o.
by rewrite /= /term /= /lookup0 /= mulr1.
Qed.
Lemma einsum_aij_akl l m n p q (a b : nd C) : shape a = [:: l; m; n] -> shape b = [:: l; p; q] ->
  exists c, einsum2 "aij" "akl" "aikjl" a b = Ok c /\ shape c = [:: l; m; p; n; q] /\
  forall x i k j o, get c [:: x; i; k; j; o] = get a [:: x; i; j] * get b [:: x; k; o].
Proof.
move=> ea eb; rewrite /einsum2 /einsum_ops /= ea eb /= eqxx /=.
eexists; split; first by []; split=> // x i k j o.
by rewrite /= /term /= /lookup0 /= mulr1.
Qed.

(** ** Matrices *)
Notation comm X Y := (X *m Y - Y *m X).

Lemma word_ext d (H H' : nat -> 'M[C]_d) h w : (forall b, (b < h)%N -> H b = H' b) ->
  all (fun b => b < h)%N w -> word H w = word H' w.
Proof. by move=> e; elim: w => [//|b w IH] /= /andP[hb hw]; rewrite e // IH. Qed.

Lemma is_mrep_ext T d (X X' H H' : nat -> 'M[C]_d) :
  (forall i, (i < th_l T)%N -> X i = X' i) -> (forall b, (b < th_h T)%N -> H b = H' b) ->
  is_mrep T X H -> is_mrep T X' H'.
Proof.
move=> eX eH [h1 h2 h3]; split.
- move=> i j hi hj; rewrite -!eX // h1 //; apply: eq_bigr => k _; by rewrite eX.
- move=> u v r hw; have := hw; rewrite all_cat => /andP[hu hv].
  by rewrite -(word_ext eH hu) -(word_ext eH hv) (h2 u v).
- move=> c hc b i hb hi; rewrite -eX // -eH // (h3 _ hc) //.
  by congr (_ *m _); apply: eq_bigr => k _; rewrite eX.
Qed.

Lemma sum_block d1 d2 n (c : 'I_n -> C) (X : 'I_n -> 'M[C]_d1) (Y : 'I_n -> 'M[C]_d2) :
  \sum_k c k *: block_mx (X k) 0 0 (Y k) = block_mx (\sum_k c k *: X k) 0 0 (\sum_k c k *: Y k).
Proof.
elim/big_rec3: _ => [|k x y z _ ->]; first by rewrite -block_mx0 //; apply/matrixP=> i j; rewrite !mxE; case: split => ?; rewrite mxE; case: split => ?; rewrite mxE.
by rewrite scale_block_mx !scaler0 add_block_mx !addr0.
Qed.

Lemma word_block d1 d2 (H1 : nat -> 'M[C]_d1) (H2 : nat -> 'M[C]_d2) w :
  word (fun b => block_mx (H1 b) 0 0 (H2 b)) w = block_mx (word H1 w) 0 0 (word H2 w).
Proof.
elim: w => [|b w IH] /=; first by rewrite -scalar_mx_block.
by rewrite IH mulmx_block !mulmx0 !mul0mx !addr0 !add0r.
Qed.

Lemma is_mrep_block T d1 d2 X1 H1 X2 H2 : @is_mrep C T d1 X1 H1 -> @is_mrep C T d2 X2 H2 ->
  is_mrep T (fun i => block_mx (X1 i) 0 0 (X2 i)) (fun b => block_mx (H1 b) 0 0 (H2 b)).
Proof.
move=> [a1 b1 c1] [a2 b2 c2]; split.
- move=> i j hi hj; rewrite !mulmx_block !mulmx0 !mul0mx !addr0 !add0r opp_block_mx add_block_mx.
  by rewrite a1 // a2 // !oppr0 !addr0 sum_block.
- by move=> u v r hw; rewrite !word_block (b1 u v) // (b2 u v).
- move=> c hc b i hb hi; rewrite sum_block !mulmx_block !mulmx0 !mul0mx !addr0 !add0r.
  by rewrite (c1 _ hc) // (c2 _ hc).
Qed.

Lemma tensDl m n p q (A A' : 'M[C]_(m, n)) (B : 'M[C]_(p, q)) : (A + A') *t B = A *t B + A' *t B.
Proof. by apply/matrixP=> i j; rewrite !mxE mulrDl. Qed.
Lemma tensDr m n p q (A : 'M[C]_(m, n)) (B B' : 'M[C]_(p, q)) : A *t (B + B') = A *t B + A *t B'.
Proof. by apply/matrixP=> i j; rewrite !mxE mulrDr. Qed.
Lemma tensNl m n p q (A : 'M[C]_(m, n)) (B : 'M[C]_(p, q)) : (- A) *t B = - (A *t B).
Proof. by apply/matrixP=> i j; rewrite !mxE mulNr. Qed.
Lemma tensNr m n p q (A : 'M[C]_(m, n)) (B : 'M[C]_(p, q)) : A *t (- B) = - (A *t B).
Proof. by apply/matrixP=> i j; rewrite !mxE mulrN. Qed.
Lemma tensZl m n p q c (A : 'M[C]_(m, n)) (B : 'M[C]_(p, q)) : (c *: A) *t B = c *: (A *t B).
Proof. by apply/matrixP=> i j; rewrite !mxE mulrA. Qed.
Lemma tensZr m n p q c (A : 'M[C]_(m, n)) (B : 'M[C]_(p, q)) : A *t (c *: B) = c *: (A *t B).
Proof. by apply/matrixP=> i j; rewrite !mxE mulrCA. Qed.
Lemma tens_suml m n p q (I : Type) (r : seq I) (A : I -> 'M[C]_(m, n)) (B : 'M[C]_(p, q)) :
  (\sum_(i <- r) A i) *t B = \sum_(i <- r) A i *t B.
Proof. by elim/big_rec2: _ => [|i x y _ <-]; rewrite ?tens0mx // tensDl. Qed.
Lemma tens_sumr m n p q (I : Type) (r : seq I) (A : 'M[C]_(m, n)) (B : I -> 'M[C]_(p, q)) :
  A *t (\sum_(i <- r) B i) = \sum_(i <- r) A *t B i.
Proof. by elim/big_rec2: _ => [|i x y _ <-]; rewrite ?tensmx0 // tensDr. Qed.
Lemma tens1 m n : 1%:M *t 1%:M = 1%:M :> 'M[C]_(m * n).
Proof.
apply/matrixP=> i j; case: (mxtens_indexP i) => i1 i2; case: (mxtens_indexP j) => j1 j2.
rewrite tensmxE !mxE -natrM mulnb (inj_eq (can_inj (@mxtens_indexK _ _))).
by rewrite /eq_op /=.
Qed.

Lemma word_tens d1 d2 (H1 : nat -> 'M[C]_d1) (H2 : nat -> 'M[C]_d2) w :
  word (fun b => H1 b *t H2 b) w = word H1 w *t word H2 w.
Proof.
elim: w => [|b w IH] /=; first by rewrite tens1.
by rewrite IH tensmx_mul.
Qed.

(** The generators of the tensor product. *)
Definition tensX d1 d2 (X1 : 'M[C]_d1) (X2 : 'M[C]_d2) := X1 *t 1%:M + 1%:M *t X2.

Lemma comm_tensX d1 d2 (X1 Y1 : 'M[C]_d1) (X2 Y2 : 'M[C]_d2) :
  comm (tensX X1 X2) (tensX Y1 Y2) = tensX (comm X1 Y1) (comm X2 Y2).
Proof.
rewrite /tensX !mulmxDl !mulmxDr !tensmx_mul !mulmx1 !mul1mx.
rewrite tensDl tensDr tensNl tensNr.
set a := (X1 *m Y1) *t _; set b := X1 *t Y2; set c := Y1 *t X2; set d := _ *t (X2 *m Y2).
set a' := (Y1 *m X1) *t _; set d' := _ *t (Y2 *m X2).
by apply/matrixP => i j; rewrite !mxE; mcring.
Qed.

Lemma sum_tensX d1 d2 n (c : 'I_n -> C) (X : 'I_n -> 'M[C]_d1) (Y : 'I_n -> 'M[C]_d2) :
  \sum_k c k *: tensX (X k) (Y k) = tensX (\sum_k c k *: X k) (\sum_k c k *: Y k).
Proof.
rewrite /tensX tens_suml tens_sumr -big_split /=; apply: eq_bigr => k _.
by rewrite scalerDr tensZl tensZr.
Qed.

Lemma is_mrep_tens T d1 d2 X1 H1 X2 H2 : @is_mrep C T d1 X1 H1 -> @is_mrep C T d2 X2 H2 ->
  is_mrep T (fun i => tensX (X1 i) (X2 i)) (fun b => H1 b *t H2 b).
Proof.
move=> [a1 b1 c1] [a2 b2 c2]; split.
- by move=> i j hi hj; rewrite comm_tensX a1 // a2 // sum_tensX.
- by move=> u v r hw; rewrite !word_tens (b1 u v) // (b2 u v).
- move=> c hc b i hb hi; rewrite sum_tensX /tensX mulmxDl mulmxDr !tensmx_mul !mulmx1 !mul1mx.
  by rewrite (c1 _ hc) // (c2 _ hc).
Qed.

(** ** Arrays *)
Lemma bidx1 l x : (x < l)%N -> (if l == 1%N then 0%N else x) = x.
Proof. by case: (l =P 1%N) => [->|//]; rewrite ltnS leqn0 => /eqP->. Qed.

Lemma direct_sum2_3 l d1 d2 (a b : nd C) : shape a = [:: l; d1; d1] -> shape b = [:: l; d2; d2] ->
  exists c, direct_sum2 a b = Ok c /\ shape c = [:: l; (d1 + d2)%N; (d1 + d2)%N] /\
  forall x, (x < l)%N -> mx3 (d1 + d2) (d1 + d2) c x = block_mx (mx3 d1 d1 a x) 0 0 (mx3 d2 d2 b x).
Proof.
move=> ea eb; rewrite /direct_sum2 ea eb /= bshape_same /=.
eexists; split; first by []; split=> // x hx.
apply/matrixP=> i j; rewrite [LHS]mxE /= bidx1 //=.
case: (split_ordP i) => i' ->; case: (split_ordP j) => j' ->;
  rewrite ?block_mxEul ?block_mxEur ?block_mxEdl ?block_mxEdr !mxE /=.
- by [].
- by rewrite leqNgt ltn_ord.
- by rewrite [(d1 <= j')%N]leqNgt ltn_ord andbF.
- by rewrite !leq_addr !addKn.
Qed.

Lemma close_A T d1 d2 r1 r2 : @is_rep C T d1 r1 -> @is_rep C T d2 r2 -> close_ (rA r1) (rA r2) = Ok true.
Proof.
move=> h1 h2; apply: allclose_eq; rewrite ?invr_ge0 ?exprn_ge0 ?ler0n //.
split; first by rewrite (ir_sA h1) (ir_sA h2).
move=> [|i [|j [|k [|??]]]]; rewrite (ir_sA h1) ?valid_cons // ?andbF // => /and4P[hi hj hk _].
by rewrite (ir_A h1) // (ir_A h2).
Qed.

Theorem direct_sum_ok T d1 d2 (r1 r2 : rep C) : is_rep T d1 r1 -> is_rep T d2 r2 ->
  exists r, direct_sum r1 r2 = Ok r /\ is_rep T (d1 + d2) r /\ rA r = rA r1 /\
  (forall i, (i < th_l T)%N -> mx3 (d1 + d2) (d1 + d2) (rX r) i = block_mx (mx3 d1 d1 (rX r1) i) 0 0 (mx3 d2 d2 (rX r2) i)) /\
  (forall i, (i < th_h T)%N -> mx3 (d1 + d2) (d1 + d2) (rH r) i = block_mx (mx3 d1 d1 (rH r1) i) 0 0 (mx3 d2 d2 (rH r2) i)).
Proof.
move=> h1 h2; rewrite /direct_sum (close_A h1 h2) /= /len0 (ir_sH h1) (ir_sH h2) /= eqxx /=.
have [X [-> [sX eX]]] := direct_sum2_3 (ir_sX h1) (ir_sX h2).
have [H [-> [sH eH]]] := direct_sum2_3 (ir_sH h1) (ir_sH h2).
eexists; split; first by []; split; last by [].
split=> //=; [exact: ir_sA h1|exact: ir_A h1|].
by apply: is_mrep_ext (is_mrep_block (ir_m h1) (ir_m h2)) => i hi; rewrite ?eX ?eH.
Qed.

(** The Kronecker forms, after reshaping. *)
Lemma tens_entry d1 d2 (A : 'M[C]_d1) (B : 'M[C]_d2) (f g : nat -> nat -> C) (i j : 'I_(d1 * d2)) :
  (forall i j, A i j = f i j) -> (forall i j, B i j = g i j) ->
  (A *t B) i j = f (i %/ d2)%N (j %/ d2)%N * g (i %% d2)%N (j %% d2)%N.
Proof. by move=> hA hB; rewrite mxE hA hB. Qed.

Lemma mx3_tens l d1 d2 (a c : nd C) (f f' g g' : nat -> nat -> nat -> C) (A A' : nat -> 'M[C]_d1) (B B' : nat -> 'M[C]_d2) :
  shape a = [:: l; d1; d2; d1; d2] ->
  reshape a [:: l; (d1 * d2)%N; (d1 * d2)%N] = Ok c ->
  (forall x i k j o, (x < l)%N -> (i < d1)%N -> (k < d2)%N -> (j < d1)%N -> (o < d2)%N ->
     get a [:: x; i; k; j; o] = f x i j * g x k o + f' x i j * g' x k o) ->
  (forall x i j, A x i j = f x i j) -> (forall x i j, B x i j = g x i j) ->
  (forall x i j, A' x i j = f' x i j) -> (forall x i j, B' x i j = g' x i j) ->
  shape c = [:: l; (d1 * d2)%N; (d1 * d2)%N] /\
  forall x, (x < l)%N -> mx3 (d1 * d2) (d1 * d2) c x = A x *t B x + A' x *t B' x.
Proof.
move=> e ec h hA hB hA' hB'; have [c' [e1 [e2 e3]]] := reshape_split2 e.
move: ec; rewrite e1 => -[<-]; split=> // x hx; apply/matrixP=> i j; rewrite mxE e3 //.
have d20 : (0 < d2)%N by case: d2 i {B g h hB e e1 e2 e3 B' g' hB' j} => [|//]; rewrite muln0 => -[].
rewrite h ?ltn_mod ?ltn_divLR // mxE.
by rewrite (tens_entry _ _ (hA x) (hB x)) (tens_entry _ _ (hA' x) (hB' x)).
Qed.

Lemma reshape_ok (a : nd C) sh : nprod sh = nprod (shape a) -> exists c, reshape a sh = Ok c.
Proof. by move=> e; rewrite /reshape e eqxx; eexists. Qed.

Lemma nprod_split2 l d1 d2 : nprod [:: l; (d1 * d2)%N; (d1 * d2)%N] = nprod [:: l; d1; d2; d1; d2].
Proof. by rewrite /=; nia. Qed.

Lemma mx3_tens1 l d1 d2 (a c : nd C) (f g : nat -> nat -> nat -> C) (A : nat -> 'M[C]_d1) (B : nat -> 'M[C]_d2) :
  shape a = [:: l; d1; d2; d1; d2] ->
  reshape a [:: l; (d1 * d2)%N; (d1 * d2)%N] = Ok c ->
  (forall x i k j o, (x < l)%N -> (i < d1)%N -> (k < d2)%N -> (j < d1)%N -> (o < d2)%N ->
     get a [:: x; i; k; j; o] = f x i j * g x k o) ->
  (forall x i j, A x i j = f x i j) -> (forall x i j, B x i j = g x i j) ->
  shape c = [:: l; (d1 * d2)%N; (d1 * d2)%N] /\
  forall x, (x < l)%N -> mx3 (d1 * d2) (d1 * d2) c x = A x *t B x.
Proof.
move=> e ec h hA hB.
have [] := @mx3_tens l d1 d2 a c f (fun _ _ _ => 0) g (fun _ _ _ => 0) A (fun _ => 0) B (fun _ => 0) e ec.
- by move=> *; rewrite h // mulr0 addr0.
- by []. - by []. - by move=> *; rewrite mxE. - by move=> *; rewrite mxE.
by move=> s q; split=> // x hx; rewrite q // tensmx0 addr0.
Qed.

(** X1 and X2 of the stated shapes, any leading dimension. *)
Lemma tp_X l d1 d2 (X1 X2 : nd C) : shape X1 = [:: l; d1; d1] -> shape X2 = [:: l; d2; d2] ->
  exists c, (do a <- einsum2 "aij" "kl" "aikjl" X1 (eye d2);
             do b <- einsum2 "ij" "akl" "aikjl" (eye d1) X2;
             do x <- add a b; reshape x [:: l; (d1 * d2)%N; (d1 * d2)%N]) = Ok c /\
  shape c = [:: l; (d1 * d2)%N; (d1 * d2)%N] /\
  forall x, (x < l)%N -> mx3 (d1 * d2) (d1 * d2) c x = tensX (mx3 d1 d1 X1 x) (mx3 d2 d2 X2 x).
Proof.
move=> e1 e2.
have [a [-> [sa ga]]] := einsum_aij_kl e1 (erefl (shape (eye d2))).
have [b [-> [sb gb]]] := einsum_ij_akl (erefl (shape (eye d1))) e2.
rewrite /= /add; have [x [-> [sx gx]]] := bmap2_same +%R (etrans sa (esym sb)).
rewrite sa in sx gx; rewrite /=.
have [|c ec] := @reshape_ok x [:: l; (d1 * d2)%N; (d1 * d2)%N]; first by rewrite sx nprod_split2.
exists c; split=> //.
apply: (mx3_tens (f := fun x i j => get X1 [:: x; i; j]) (g := fun _ k o => (k == o)%:R)
  (f' := fun _ i j => (i == j)%:R) (g' := fun x k o => get X2 [:: x; k; o]) sx ec).
- by move=> x0 i k j o *; rewrite gx ?ga ?gb // !valid_cons; do 5?[apply/andP; split].
- by move=> *; rewrite mxE.
- by move=> *; rewrite mxE.
- by move=> *; rewrite mxE.
- by move=> *; rewrite mxE.
Qed.

Lemma tp_H l d1 d2 (X1 X2 : nd C) : shape X1 = [:: l; d1; d1] -> shape X2 = [:: l; d2; d2] ->
  exists c, (do a <- einsum2 "aij" "akl" "aikjl" X1 X2; reshape a [:: l; (d1 * d2)%N; (d1 * d2)%N]) = Ok c /\
  shape c = [:: l; (d1 * d2)%N; (d1 * d2)%N] /\
  forall x, (x < l)%N -> mx3 (d1 * d2) (d1 * d2) c x = mx3 d1 d1 X1 x *t mx3 d2 d2 X2 x.
Proof.
move=> e1 e2.
have [a [-> [sa ga]]] := einsum_aij_akl e1 e2; rewrite /=.
have [|c ec] := @reshape_ok a [:: l; (d1 * d2)%N; (d1 * d2)%N]; first by rewrite sa nprod_split2.
exists c; split=> //.
apply: (mx3_tens1 (f := fun x i j => get X1 [:: x; i; j]) (g := fun x k o => get X2 [:: x; k; o]) sa ec).
- by move=> *; rewrite ga.
- by move=> *; rewrite mxE.
- by move=> *; rewrite mxE.
Qed.

Theorem tensor_product_ok T d1 d2 (r1 r2 : rep C) : is_rep T d1 r1 -> is_rep T d2 r2 ->
  exists r, tensor_product r1 r2 = Ok r /\ is_rep T (d1 * d2) r /\ rA r = rA r1 /\
  (forall i, (i < th_l T)%N -> mx3 (d1 * d2) (d1 * d2) (rX r) i = tensX (mx3 d1 d1 (rX r1) i) (mx3 d2 d2 (rX r2) i)) /\
  (forall i, (i < th_h T)%N -> mx3 (d1 * d2) (d1 * d2) (rH r) i = mx3 d1 d1 (rH r1) i *t mx3 d2 d2 (rH r2) i).
Proof.
move=> h1 h2; rewrite /tensor_product (close_A h1 h2) /= /dim /len0 (ir_sX h1) (ir_sX h2) (ir_sH h1) (ir_sH h2) /= eqxx /=.
have [X [+ [sX eX]]] := tp_X (ir_sX h1) (ir_sX h2).
have [H [+ [sH eH]]] := tp_H (ir_sH h1) (ir_sH h2).
case: (einsum2 "aij" "akl" _ _ _) => [a|//] /= EH.
case: (einsum2 "aij" "kl" _ _ _) => [b|//] /=.
case: (einsum2 "ij" "akl" _ _ _) => [c|//] /=.
case: (add b c) => [x|//] /= ->; rewrite /= EH /=.
eexists; split; first by []; split; last by [].
split=> //=; [exact: ir_sA h1|exact: ir_A h1|].
by apply: is_mrep_ext (is_mrep_tens (ir_m h1) (ir_m h2)) => i hi; rewrite ?eX ?eH.
Qed.
End Proofs.
