(** NdProofs: lemmas on arrays. *)
From Coq Require Import String Ascii.
From mathcomp Require Import all_ssreflect all_algebra.
From mathcomp.real_closed Require Import mxtens.
From mathcomp Require Import zify.
From Verif Require Import Base Nd.

Set Implicit Arguments.
Unset Strict Implicit.
Unset Printing Implicit Defensive.

Import GRing.Theory Num.Theory.
Local Open Scope ring_scope.

Lemma valid_cons d sh i idx : valid (d :: sh) (i :: idx) = (i < d)%N && valid sh idx.
Proof. by rewrite /valid /= eqSS andbCA. Qed.
Lemma valid_nil idx : valid [::] idx = (idx == [::]).
Proof. by case: idx. Qed.
Lemma validS d sh idx : valid (d :: sh) idx -> idx = head 0%N idx :: behead idx.
Proof. by case: idx. Qed.

Lemma ravel_lt sh idx : valid sh idx -> (ravel sh idx < nprod sh)%N.
Proof.
elim: sh idx => [|d sh IH] [|i idx] //; rewrite valid_cons => /andP[lt /IH h] /=.
apply: (@leq_trans (i.+1 * nprod sh)); first by rewrite mulSn addnC ltn_add2r.
by rewrite leq_mul2r lt orbT.
Qed.

Lemma ravelK sh idx : valid sh idx -> unravel sh (ravel sh idx) = idx.
Proof.
elim: sh idx => [|d sh IH] [|i idx] //; rewrite valid_cons => /andP[lt v] /=.
have h := ravel_lt v.
rewrite divnMDl ?(leq_ltn_trans _ h) // divn_small // addn0 modnMDl modn_small //.
by rewrite IH.
Qed.

Lemma unravel_valid sh k : (k < nprod sh)%N -> valid sh (unravel sh k).
Proof.
elim: sh k => [|d sh IH] k //= lt; rewrite valid_cons.
have h : (0 < nprod sh)%N by case: (nprod sh) lt => [|//]; rewrite muln0.
by rewrite ltn_divLR // lt IH // ltn_mod.
Qed.

Lemma unravelK sh k : (k < nprod sh)%N -> ravel sh (unravel sh k) = k.
Proof.
elim: sh k => [|d sh IH] k /=; first by case: k.
move=> lt. have h : (0 < nprod sh)%N by case: (nprod sh) lt => [|//]; rewrite muln0.
by rewrite IH ?ltn_mod // -divn_eq.
Qed.

Lemma mem_all_idx sh idx : (idx \in all_idx sh) = valid sh idx.
Proof.
apply/mapP/idP => [[k]|v]; first by rewrite mem_iota add0n /= => lt ->; exact: unravel_valid.
by exists (ravel sh idx); rewrite ?mem_iota ?add0n ?ravelK //= ravel_lt.
Qed.

Lemma bshape_same s : bshape s s = Ok s.
Proof.
rewrite /bshape; suff -> : forall r, bshape_rev r r = Some r by rewrite revK.
by elim=> [//|d r IH] /=; rewrite eqxx /= IH /=; case: (d =P 1%N) => [->|].
Qed.

Lemma bidx_same sh idx : valid sh idx -> bidx sh idx = idx.
Proof.
rewrite /bidx => /andP[/eqP e h]; rewrite e subnn drop0.
elim: sh idx e h => [|d sh IH] [|i idx] //= [e] /andP[lt h]; rewrite IH //.
by case: (d =P 1%N) lt => [->|//]; rewrite ltnS leqn0 => /eqP->.
Qed.

Section Arr.
Variable C : numClosedFieldType.
Implicit Types a b : nd C.

Lemma nd_eq_refl a : nd_eq a a. Proof. by []. Qed.
Lemma nd_eq_sym a b : nd_eq a b -> nd_eq b a.
Proof. by case=> e h; split=> // idx; rewrite -e => /h. Qed.
Lemma nd_eq_trans a b c : nd_eq a b -> nd_eq b c -> nd_eq a c.
Proof. by move=> [e h] [e' h']; split=> [|idx v]; rewrite ?e // h // h' // -e. Qed.

(** allclose of equal arrays. *)
Lemma allclose_eq rtol atol a b : 0 <= rtol -> 0 <= atol -> nd_eq a b -> allclose rtol atol a b = Ok true.
Proof.
move=> r0 a0 [e h]; rewrite /allclose e bshape_same /=; congr Ok.
apply/allP=> idx; rewrite mem_all_idx => v; rewrite !bidx_same // -?e ?h ?e //.
by rewrite subrr normr0 addr_ge0 // mulr_ge0.
Qed.
(** With zero tolerances allclose is equality on equal shapes. *)
Lemma allclose_same_shape rtol atol a b : shape a = shape b ->
  allclose rtol atol a b = Ok (all (fun idx => `|get a idx - get b idx| <= atol + rtol * `|get b idx|) (all_idx (shape a))).
Proof.
move=> e; rewrite /allclose e bshape_same /=; congr Ok; apply: eq_in_all => idx.
by rewrite mem_all_idx => v; rewrite !bidx_same // e.
Qed.

Lemma bmap2_same f a b : shape a = shape b -> exists c, bmap2 f a b = Ok c /\ shape c = shape a /\
  forall idx, valid (shape a) idx -> get c idx = f (get a idx) (get b idx).
Proof.
move=> e; rewrite /bmap2 -e bshape_same /=; eexists; split; first by [].
by split=> //= idx v; rewrite !bidx_same.
Qed.

Lemma mx3P (r c : nat) a b k k' : (forall i j : nat, (i < r)%N -> (j < c)%N -> get a [:: k; i; j] = get b [:: k'; i; j]) ->
  mx3 r c a k = mx3 r c b k'.
Proof. by move=> h; apply/matrixP=> i j; rewrite !mxE h. Qed.
Lemma mx2P (r c : nat) a b : (forall i j : nat, (i < r)%N -> (j < c)%N -> get a [:: i; j] = get b [:: i; j]) ->
  mx2 r c a = mx2 r c b.
Proof. by move=> h; apply/matrixP=> i j; rewrite !mxE h. Qed.
Lemma mx2_eye n : mx2 n n (eye n) = 1%:M :> 'M[C]_n.
Proof. by apply/matrixP=> i j; rewrite !mxE /=. Qed.
Lemma mx3_slice r c a k : mx2 r c (slice0 a k) = mx3 r c a k.
Proof. by apply/matrixP=> i j; rewrite !mxE. Qed.

(** Splitting p < d1*d2 as (p / d2, p % d2): row-major positions agree. *)
Lemma ravel_split2 l d1 d2 x p q :
  ravel [:: l; (d1 * d2)%N; (d1 * d2)%N] [:: x; p; q]
  = ravel [:: l; d1; d2; d1; d2] [:: x; (p %/ d2)%N; (p %% d2)%N; (q %/ d2)%N; (q %% d2)%N].
Proof.
rewrite /= !muln1 !addn0 {1}(divn_eq p d2) {1}(divn_eq q d2).
set p1 := (p %/ d2)%N; set p2 := (p %% d2)%N; set q1 := (q %/ d2)%N; set q2 := (q %% d2)%N.
nia.
Qed.
Lemma valid_split2 l d1 d2 x p q : (x < l)%N -> (p < d1 * d2)%N -> (q < d1 * d2)%N ->
  valid [:: l; d1; d2; d1; d2] [:: x; (p %/ d2)%N; (p %% d2)%N; (q %/ d2)%N; (q %% d2)%N].
Proof.
move=> hx hp hq; rewrite !valid_cons hx /=.
have d20 : (0 < d2)%N by case: d2 hp {hq} => [|//]; rewrite muln0.
by rewrite !ltn_divLR // hp hq !ltn_mod d20.
Qed.

Lemma reshape_split2 l d1 d2 a : shape a = [:: l; d1; d2; d1; d2] ->
  exists b, reshape a [:: l; (d1 * d2)%N; (d1 * d2)%N] = Ok b /\ shape b = [:: l; (d1 * d2)%N; (d1 * d2)%N] /\
  forall x p q, (x < l)%N -> (p < d1 * d2)%N -> (q < d1 * d2)%N ->
  get b [:: x; p; q] = get a [:: x; (p %/ d2)%N; (p %% d2)%N; (q %/ d2)%N; (q %% d2)%N].
Proof.
move=> e; rewrite /reshape e ifT; last by apply/eqP => /=; nia.
eexists; split; first by []; split=> // x p q hx hp hq.
rewrite -[LHS]/(get a (unravel _ (ravel _ [:: x; p; q]))).
by rewrite ravel_split2 ravelK // valid_split2.
Qed.
End Arr.
