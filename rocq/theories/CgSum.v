(** CgSum: the alternating sum in the Clebsch-Gordan coefficients of SU(2), its two
    three-term recurrences and the normalisation.  Mathematics only: no part of
    /repo is modelled here. *)
From mathcomp Require Import all_ssreflect all_algebra.
From mathcomp Require Import zify.
From Verif Require Import McRing.

Set Implicit Arguments.
Unset Strict Implicit.
Unset Printing Implicit Defensive.

Import Order.POrderTheory GRing.Theory Num.Theory.
Local Open Scope ring_scope.

Section CgSum.
Variable R : numFieldType.

(** C(r, M - v), zero when v > M. *)
Definition cb (r M v : nat) : R := if (v <= M)%N then ('C(r, M - v))%:R else 0.
Lemma cbSS r M v : cb r M.+1 v.+1 = cb r M v.
Proof. by rewrite /cb ltnS subSS. Qed.
Lemma cbS r M v : (M.+1%:R - v%:R) * cb r M.+1 v = (r%:R - M%:R + v%:R) * cb r M v.
Proof.
rewrite /cb; case: (ltngtP v M.+1) => h.
- have -> : (v <= M)%N by lia.
  have [k e] : exists k, M = (v + k)%N by exists (M - v)%N; lia.
  rewrite e -addnS !addKn; have := mul_bin_left r k.
  case: (leqP k r) => kr.
    move/(congr1 (fun x => x%:R : R)); rewrite !natrM natrB // => E.
    by transitivity (k.+1%:R * ('C(r, k.+1))%:R : R); [mcring|rewrite E natrD; mcring].
  by rewrite !bin_small ?mulr0 // ltnW.
- by have -> : (v <= M)%N = false by [lia]; rewrite !mulr0.
- by have -> : (v <= M)%N = false by [lia]; rewrite h subrr mul0r mulr0.
Qed.

(** The sum. *)
Definition cgt (q r M a b v : nat) : R :=
  (-1) ^+ v * ('C(q, v))%:R * cb r M v * ((q - v + b)`!)%:R * ((a + v)`!)%:R.
Definition cgF (q r M a b : nat) : R := \sum_(v < q.+1) cgt q r M a b v.

Lemma bin_left q v : (v.+1)%:R * ('C(q, v.+1))%:R = (q - v)%:R * ('C(q, v))%:R :> R.
Proof. by rewrite -!natrM mul_bin_left. Qed.

(** Splitting (M+1) F(M+1), the second part being shifted by one. *)
Lemma cgF_up q r M a b :
  M.+1%:R * cgF q r M.+1 a b =
  \sum_(v < q.+1) (-1) ^+ v * ('C(q, v))%:R * cb r M v * ((a + v)`!)%:R *
    ((r%:R - M%:R + v%:R) * ((q - v + b)`!)%:R - (a + v).+1%:R * (q - v)%:R * ((q - v).-1 + b)`!%:R).
Proof.
transitivity (\sum_(v < q.+1) ((-1) ^+ v * ('C(q, v))%:R * ((M.+1%:R - v%:R) * cb r M.+1 v) * ((q - v + b)`!)%:R * ((a + v)`!)%:R)
  + \sum_(v < q.+1) ((-1) ^+ v * (v%:R * ('C(q, v))%:R) * cb r M.+1 v * ((q - v + b)`!)%:R * ((a + v)`!)%:R)).
  rewrite /cgF big_distrr /= -big_split; apply: eq_bigr => v _; rewrite /cgt /=.
  by move: (_ ^+ v) => s; mcring.
rewrite [X in _ + X]big_ord_recl /= mul0r mulr0 !mul0r add0r.
rewrite [X in _ = X](eq_bigr (fun v : 'I_q.+1 => (-1) ^+ v * ('C(q, v))%:R * ((r%:R - M%:R + v%:R) * cb r M v) * ((q - v + b)`!)%:R * ((a + v)`!)%:R
   + (-1) ^+ v.+1 * ((q - v)%:R * ('C(q, v))%:R) * cb r M v * (((q - v).-1 + b)`!)%:R * ((a + v).+1`!)%:R)); last first.
  move=> v _; rewrite exprS factS natrM; move: (_ ^+ v) => s; mcring.
rewrite big_split /=; congr (_ + _).
  by apply: eq_bigr => v _; rewrite cbS.
rewrite big_ord_recr /= subnn mul0r mulr0 !mul0r addr0; apply: eq_bigr => v _.
by rewrite /bump /= add1n cbSS bin_left addnS subnS.
Qed.

(** Lowering recurrence. *)
Lemma cgF_rec1 q r M a b (b2 : R) : (0 < b)%N || (M < q)%N -> b2 = M.+1%:R + a%:R - r%:R ->
  M.+1%:R * cgF q r M.+1 a b = b%:R * cgF q r M a.+1 b.-1 - b2 * cgF q r M a b.
Proof.
move=> hb ->; rewrite cgF_up /cgF !big_distrr /= -sumrB; apply: eq_bigr => v _; rewrite /cgt.
have vq : (v <= q)%N by rewrite -ltnS.
move: (_ ^+ v) => s; rewrite addSn factS natrM.
case: (posnP (q - v + b)) => [z|].
  have zb : b = 0%N by lia.
  have zv : v = q :> nat by lia.
  move: hb; rewrite zb /= => Mq; have -> : cb r M v = 0 by rewrite /cb zv leqNgt Mq.
  by rewrite !(mulr0, mul0r) subr0.
move=> pos; have fk : ((q - v + b)`!)%:R = (q - v + b)%:R * ((q - v + b).-1`!)%:R :> R.
  by rewrite -natrM -{1}(prednK pos) factS prednK.
have e1 : (q - v)%:R * ((q - v).-1 + b)`!%:R = (q - v)%:R * (q - v + b).-1`!%:R :> R.
  by case: (q - v)%N => [|k]; rewrite ?mul0r.
have e2 : b%:R * ((q - v) + b.-1)`!%:R = b%:R * (q - v + b).-1`!%:R :> R.
  by case: (b) => [|k]; rewrite ?mul0r //= addnS.
have eq : q%:R = v%:R + (q - v)%:R :> R by rewrite -natrD subnKC.
rewrite -[_ * _ * ((q - v).-1 + b)`!%:R]mulrA e1 fk natrD.
transitivity (s * ('C(q, v))%:R * cb r M v * ((a + v)`!)%:R * (a + v).+1%:R * (b%:R * ((q - v) + b.-1)`!%:R)
  - (M.+1%:R + a%:R - r%:R) * (s * ('C(q, v))%:R * cb r M v * ((q - v)%:R + b%:R) * ((q - v + b).-1`!)%:R * ((a + v)`!)%:R)).
  by rewrite e2 -[(a + v).+1]addn1 natrD -[M.+1]addn1 [(a + v)%:R]natrD; mcring.
by mcring.
Qed.

(** Splitting (q + r - M) F(M). *)
Lemma cgF_down q r M a b :
  (q%:R + r%:R - M%:R) * cgF q r M a b =
  \sum_(v < q.+1) (-1) ^+ v * ('C(q, v))%:R * cb r M.+1 v *
    ((M.+1%:R - v%:R) * ((q - v + b)`!)%:R * ((a + v)`!)%:R - v%:R * ((q - v + b).+1`!)%:R * ((a + v).-1`!)%:R).
Proof.
transitivity (\sum_(v < q.+1) ((-1) ^+ v * ('C(q, v))%:R * ((r%:R - M%:R + v%:R) * cb r M v) * ((q - v + b)`!)%:R * ((a + v)`!)%:R)
  + \sum_(v < q.+1) ((-1) ^+ v * ((q - v)%:R * ('C(q, v))%:R) * cb r M v * ((q - v + b)`!)%:R * ((a + v)`!)%:R)).
  rewrite /cgF big_distrr /= -big_split; apply: eq_bigr => v _; rewrite /cgt /=.
  have eq : q%:R = v%:R + (q - v)%:R :> R by rewrite -natrD subnKC // -ltnS.
  by rewrite eq; move: (_ ^+ v) => s; mcring.
rewrite [X in _ + X]big_ord_recr /= subnn mul0r mulr0 !mul0r addr0.
rewrite [X in _ = X](eq_bigr (fun v : 'I_q.+1 => (-1) ^+ v * ('C(q, v))%:R * ((M.+1%:R - v%:R) * cb r M.+1 v) * ((q - v + b)`!)%:R * ((a + v)`!)%:R
   - (-1) ^+ v * (v%:R * ('C(q, v))%:R) * cb r M.+1 v * ((q - v + b).+1`!)%:R * ((a + v).-1`!)%:R)); last first.
  by move=> v _; move: (_ ^+ v) => s; mcring.
rewrite big_split /=; congr (_ + _).
  by apply: eq_bigr => v _; rewrite cbS.
rewrite sumrN big_ord_recl /= mul0r mulr0 !mul0r add0r -sumrN; apply: eq_bigr => v _.
rewrite /bump /= add1n cbSS bin_left addnS subnS /=.
have -> : ((q - v).-1 + b).+1 = (q - v + b)%N by have := ltn_ord v; lia.
by rewrite exprS mulN1r !mulNr opprK.
Qed.

(** Raising recurrence. *)
Lemma cgF_rec2 q r M a b (a2 : R) : (0 < a)%N || (r <= M)%N -> a2 = q%:R + b%:R - M%:R ->
  (q%:R + r%:R - M%:R) * cgF q r M a b = a%:R * cgF q r M.+1 a.-1 b.+1 - a2 * cgF q r M.+1 a b.
Proof.
move=> ha ->; rewrite cgF_down /cgF !big_distrr /= -sumrB; apply: eq_bigr => v _; rewrite /cgt.
have vq : (v <= q)%N by rewrite -ltnS.
move: (_ ^+ v) => s; rewrite addnS.
case: (posnP (a + v)) => [z|].
  have za : a = 0%N by lia.
  have zv : v = 0%N :> nat by lia.
  move: ha; rewrite za /= => rM; have -> : cb r M.+1 v = 0 by rewrite /cb zv /= bin_small.
  by rewrite !(mulr0, mul0r) subr0.
move=> pos; have fk : ((a + v)`!)%:R = (a + v)%:R * ((a + v).-1`!)%:R :> R.
  by rewrite -natrM -{1}(prednK pos) factS prednK.
have e2 : a%:R * (a.-1 + v)`!%:R = a%:R * (a + v).-1`!%:R :> R.
  by case: (a) => [|k]; rewrite ?mul0r.
have eq : q%:R = v%:R + (q - v)%:R :> R by rewrite -natrD subnKC.
have gk : ((q - v + b).+1`!)%:R = ((q - v)%:R + b%:R + 1) * ((q - v + b)`!)%:R :> R.
  by rewrite factS natrM mulrS natrD addrC.
rewrite fk gk natrD.
transitivity (s * ('C(q, v))%:R * cb r M.+1 v * (((q - v)%:R + b%:R + 1) * ((q - v + b)`!)%:R) * (a%:R * (a.-1 + v)`!%:R)
  - (q%:R + b%:R - M%:R) * (s * ('C(q, v))%:R * cb r M.+1 v * ((q - v + b)`!)%:R * ((a%:R + v%:R) * (a + v).-1`!%:R))).
  by rewrite e2 eq -[M.+1]addn1 natrD; mcring.
by mcring.
Qed.
(** The case M = -1. *)
Lemma cgF_rec2_0 q r a b : (0 < a)%N ->
  a%:R * cgF q r 0 a.-1 b.+1 - (q%:R + b%:R + 1) * cgF q r 0 a b = 0.
Proof.
case: a => // a _.
have F0 x y : cgF q r 0 x y = ((q + y)`!)%:R * (x`!)%:R.
  rewrite /cgF big_ord_recl big1 ?addr0 => [|v _]; last by rewrite /cgt /cb /= mulr0 !mul0r.
  by rewrite /cgt /cb /= !bin0 subn0 addn0 !mul1r.
rewrite !F0 /= addnS !factS !natrM -[(q + b).+1]addn1 !natrD; mcring.
Qed.
(** Outside the range. *)
Lemma cgF_big q r M a b : (q + r < M)%N -> cgF q r M a b = 0.
Proof.
move=> h; rewrite /cgF big1 // => v _; rewrite /cgt.
have -> : cb r M v = 0 by rewrite /cb; have := ltn_ord v; case: ifP => // _ hv; rewrite bin_small //; lia.
by rewrite mulr0 !mul0r.
Qed.
Lemma cgF_top q r a b : cgF q r (q + r) a b = (-1) ^+ q * (b`!)%:R * ((a + q)`!)%:R.
Proof.
rewrite /cgF big_ord_recr big1 /= ?add0r => [|v _].
  by rewrite /cgt /cb leq_addr subnn addKn !binn !mulr1.
rewrite /cgt; have -> : cb r (q + r) v = 0 by rewrite /cb; have := ltn_ord v; case: ifP => // _ hv; rewrite bin_small //; lia.
by rewrite mulr0 !mul0r.
Qed.

(** The convolution behind the normalisation. *)
Lemma conv q r p : (\sum_(i < p.+1) 'C(q + i, q) * 'C(r + (p - i), r) = 'C(p + q + r + 1, p))%N.
Proof.
elim: r p => [|r IHr] p.
  under eq_bigr do rewrite bin0 muln1.
  elim: p => [|p IHp]; first by rewrite big_ord_recl big_ord0 /= !addn0 binn bin0.
  rewrite big_ord_recr /= IHp; have -> : (p.+1 + q + 0 + 1 = (p + q + 0 + 1).+1)%N by lia.
  rewrite binS addnC; congr (_ + _)%N; rewrite -[in RHS]bin_sub; last by lia.
  by congr 'C(_, _); lia.
elim: p => [|p IHp]; first by rewrite big_ord_recl big_ord0 /= !addn0 !binn bin0.
have -> : (p.+1 + q + r.+1 + 1 = (p + q + r.+1 + 1).+1)%N by lia.
rewrite binS -{}IHp; have -> : (p + q + r.+1 + 1 = p.+1 + q + r + 1)%N by lia.
rewrite -IHr big_ord_recr [in RHS]big_ord_recr /= subnn !addn0 !binn.
rewrite addnAC -big_split /=; congr (_ + _)%N; apply: eq_bigr => i _; rewrite -mulnDr; congr (_ * _)%N.
have -> : (r.+1 + (p.+1 - i) = (r + (p.+1 - i)).+1)%N by lia.
rewrite binS addnC; congr (_ + _)%N; congr 'C(_, _); have := ltn_ord i; lia.
Qed.
End CgSum.
