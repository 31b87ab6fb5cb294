(** SunRow: three consecutive rows a, b, c of a Gelfand-Tsetlin pattern.  Signs of the ladder
    coefficients, their exchange under two moves in the same row, and their sum. *)
From Verif Require Import McRing.
From mathcomp Require Import all_ssreflect all_algebra.
From mathcomp.zify Require Import zify.
From Verif Require Import SunLagr.

Set Implicit Arguments.
Unset Strict Implicit.
Unset Printing Implicit Defensive.

Import GRing.Theory Num.Theory Order.Theory.
Local Open Scope ring_scope.

Definition unum (a b c : nat -> int) (m l : nat) : int :=
  (\prod_(q < m.+1) (a q - b l + l%:Z - q%:Z)) * \prod_(q < m.-1) (c q - b l + l%:Z - q%:Z - 1).
Definition uden (b : nat -> int) (m l : nat) : int :=
  \prod_(q < m | (q : nat) != l) ((b q - b l + l%:Z - q%:Z) * (b q - b l + l%:Z - q%:Z - 1)).
(** The rows interlace. *)
Definition rows_ok (a b c : nat -> int) (m : nat) : Prop :=
  (forall q, (q < m)%N -> a q.+1 <= b q <= a q) /\
  (forall q, (q.+1 < m)%N -> b q.+1 <= c q <= b q).
Definition up (a b c : nat -> int) (q : nat) : bool := (b q < a q) && ((q == 0%N) || (b q < c q.-1)).
Definition dn (a b c : nat -> int) (m q : nat) : bool := (a q.+1 < b q) && ((m <= q.+1)%N || (c q < b q)).

Lemma sgn_prod (R : realDomainType) N l (f : nat -> R) : (l <= N)%N ->
  (forall q, (q < l)%N -> 0 < f q) -> (forall q, (l <= q < N)%N -> f q < 0) ->
  0 < (-1) ^+ (N - l) * \prod_(q < N) f q.
Proof.
move=> lN fp fn; elim: N lN fn => [|N IH] lN fn.
  by rewrite big_ord0 mulr1 sub0n expr0 ltr01.
rewrite big_ord_recr /=; have [e|ne] := eqVneq l N.+1.
  by rewrite e subnn expr0 mul1r mulr_gt0 ?fp ?e // prodr_gt0 // => q _; apply: fp; rewrite e ltnW // ltnS.
have l' : (l <= N)%N by rewrite -ltnS ltn_neqAle ne.
have -> : (-1) ^+ (N.+1 - l) * (\prod_(q < N) f q * f N) = ((-1) ^+ (N - l) * \prod_(q < N) f q) * - f N.
  by rewrite subSn // exprS mulN1r mulrN mulNr mulrA.
rewrite mulr_gt0 //.
- by apply: IH => // q /andP[h1 h2]; apply: fn; rewrite h1 ltnW.
- by rewrite oppr_gt0 fn // l' /=.
Qed.

Section Row.
Variables (a b c : nat -> int) (m : nat).
Hypothesis ok : rows_ok a b c m.

Lemma b_mono p q : (p <= q < m)%N -> b q <= b p.
Proof.
elim: q => [|q IH]; first by rewrite leqn0 => /andP[/eqP->].
case/andP; rewrite leq_eqVlt => /orP[/eqP->//|pq] qm.
have /andP[h1 h2] := ok.2 q qm; apply: (le_trans h1); apply: (le_trans h2).
by apply: IH; rewrite -ltnS pq ltnW.
Qed.
Lemma a_ge p q : (p <= q < m)%N -> b q <= a p.
Proof.
move=> h; apply: (le_trans (b_mono h)); have pm : (p < m)%N by lia.
by have /andP[_ ->] := ok.1 p pm.
Qed.
Lemma a_le p q : (p < q <= m)%N -> a q <= b p.
Proof.
case: q => // q /andP[h1 h2]; have /andP[h3 _] := ok.1 q h2; apply: (le_trans h3).
by apply: b_mono; rewrite -ltnS h1.
Qed.
Lemma c_ge p q : (p < q < m)%N -> b q <= c p.
Proof.
move=> /andP[h1 h2]; have pm : (p.+1 < m)%N by lia.
have /andP[h3 _] := ok.2 p pm.
by apply: le_trans h3; apply: b_mono; rewrite h1.
Qed.
Lemma c_le p q : (p <= q)%N -> (q.+1 < m)%N -> c q <= b p.
Proof.
move=> h1 h2; have /andP[_ h3] := ok.2 q h2; apply: (le_trans h3); apply: b_mono.
by rewrite h1 ltnW.
Qed.

Lemma up_signs l : (l < m)%N -> up a b c l -> 0 < uden b m l /\ unum a b c m l < 0.
Proof.
move=> lm /andP[u1 u2]; split.
  apply: prodr_gt0 => q /=; rewrite neq_ltn => /orP[h|h].
    have bq : b l < b q.
      move: u2; rewrite -leqn0 leqNgt (leq_ltn_trans _ h) //= => u2; apply: (lt_le_trans u2).
      by apply: c_le; case: (l) h lm => //= l'; lia.
    by rewrite mulr_gt0 //; lia.
  have bq : b q <= b l by apply: b_mono; rewrite ltnW //=.
  by rewrite nmulr_rgt0; lia.
have s1 := @sgn_prod _ m.+1 l.+1 (fun q => a q - b l + l%:Z - q%:Z).
have s2 := @sgn_prod _ m.-1 l (fun q => c q - b l + l%:Z - q%:Z - 1).
have {}s1 : 0 < (-1) ^+ (m.+1 - l.+1) * \prod_(q < m.+1) (a q - b l + l%:Z - q%:Z).
  apply: s1 => [|q h|q /andP[h1 h2]]; first exact: ltnW.
    have : b l < a q; last by lia.
    have [->//|ne] := eqVneq q l.
    have h' : (q < l)%N by rewrite ltn_neqAle ne.
    apply: (lt_le_trans u1); case: (l) h' lm => // l' h' lm; apply: (le_trans (_ : a l'.+1 <= b l')).
      have lm' : (l' < m)%N by lia.
      by have /andP[] := ok.1 l' lm'.
    by apply: a_ge; lia.
  have qm : (l < q <= m)%N by lia.
  by have := a_le qm; lia.
have {}s2 : 0 < (-1) ^+ (m.-1 - l) * \prod_(q < m.-1) (c q - b l + l%:Z - q%:Z - 1).
  apply: s2 => [|q h|q /andP[h1 h2]]; first by lia.
    have : b l < c q; last by lia.
    have u2' : b l < c l.-1 by move: u2; rewrite -leqn0 leqNgt (leq_ltn_trans _ h).
    have [->//|ne] := eqVneq q l.-1.
    apply: (lt_le_trans u2'); apply: (le_trans (_ : c l.-1 <= b l.-1)); first by apply: c_le => //; lia.
    by apply: c_ge; lia.
  have qm : (q.+1 < m)%N by lia.
  by have := c_le h1 qm; lia.
have := mulr_gt0 s1 s2; rewrite mulrACA -exprD -/(unum a b c m l).
have -> : (m.+1 - l.+1 + (m.-1 - l) = (m.-1 - l).*2.+1)%N by lia.
by rewrite exprS -mul2n exprM sqrrN !expr1n mulr1 mulN1r oppr_gt0.
Qed.

Lemma notup_num l : (l < m)%N -> ~~ up a b c l -> unum a b c m l = 0.
Proof.
move=> lm; rewrite negb_and -leNgt => /orP[h|].
  have e : a l = b l by have /andP[h1 h2] := ok.1 l lm; lia.
  have lm' : (l < m.+1)%N by apply: ltnW.
  by rewrite /unum (bigD1 (Ordinal lm')) //= e subrr add0r subrr !mul0r.
rewrite negb_or -lt0n -leNgt => /andP[l0 h].
have e : c l.-1 = b l.
  have lm' : (l.-1.+1 < m)%N by lia.
  have /andP[h1 h2] := ok.2 l.-1 lm'; rewrite prednK // in h1; lia.
have lm' : (l.-1 < m.-1)%N by lia.
rewrite /unum mulrC (bigD1 (Ordinal lm')) //= e.
have -> : b l - b l + l%:Z - (l.-1)%:Z - 1 = 0 by lia.
by rewrite !mul0r.
Qed.
End Row.

(** One entry of the row b changed. *)
Definition upd (b : nat -> int) (q : nat) (x : int) : nat -> int := fun j => if j == q then b j + x else b j.
Lemma updE b q x : upd b q x q = b q + x. Proof. by rewrite /upd eqxx. Qed.
Lemma updNE b q x j : j != q -> upd b q x j = b j. Proof. by rewrite /upd => /negbTE->. Qed.

Lemma iotaE m : iota 0 m = index_iota 0 m. Proof. by rewrite /index_iota subn0. Qed.

Lemma rows_up a b c m q : rows_ok a b c m -> (q < m)%N -> up a b c q <-> rows_ok a (upd b q 1) c m.
Proof.
move=> [h1 h2] qm; split=> [/andP[u1 u2]|[g1 g2]].
  split=> j hj; have := h1 j; have := h2 j.
    by rewrite /upd hj; case: (j =P q) => [->|_] _ /(_ isT); lia.
  rewrite hj => /(_ isT) h _; rewrite /upd; case: (j.+1 =P q) => [e|ne]; case: (j =P q) => [e'|ne']; try lia.
  by move: u2; rewrite -e /=; lia.
rewrite /up; have := g1 q qm; rewrite updE => h; apply/andP; split; first by lia.
case: q qm {h g1} g2 => //= q qm g2; have := g2 q qm; rewrite updE updNE; lia.
Qed.
Lemma rows_dn a b c m q : rows_ok a b c m -> (q < m)%N -> dn a b c m q <-> rows_ok a (upd b q (-1)) c m.
Proof.
move=> [h1 h2] qm; split=> [/andP[u1 u2]|[g1 g2]].
  split=> j hj; have := h1 j; have := h2 j.
    by rewrite /upd hj; case: (j =P q) => [->|_] _ /(_ isT); lia.
  rewrite hj => /(_ isT) h _; rewrite /upd; case: (j.+1 =P q) => [e|ne]; case: (j =P q) => [e'|ne']; try lia.
  by move: u2; rewrite -e'; lia.
rewrite /dn; have := g1 q qm; rewrite updE => h; apply/andP; split; first by lia.
case: leqP => // qm' /=; have := g2 q qm'; rewrite updE; lia.
Qed.
Lemma up_dn a b c m q : rows_ok a b c m -> (q < m)%N -> up a (upd b q (-1)) c q.
Proof.
move=> [h1 h2] qm; rewrite /up updE; have := h1 q qm => h; apply/andP; split; first by lia.
case: q qm {h} => //= q qm; have := h2 q qm; lia.
Qed.

Section Sum.
Variable F : numFieldType.
Definition usq (a b c : nat -> int) (m l : nat) : F := - (unum a b c m l)%:~R / (uden b m l)%:~R.

Variables (a b c : nat -> int) (m : nat).
Hypothesis ok : rows_ok a b c m.
Hypothesis m0 : (0 < m)%N.

Let B q : int := b q - q%:Z.
Let L1 := [seq B q | q <- iota 0 m].
Let L2 := [seq B q - 1 | q <- iota 0 m].
Let PZ := L1 ++ L2.
Let RZ := [seq a q - q%:Z | q <- iota 0 m.+1] ++ [seq c q - q%:Z - 1 | q <- iota 0 m.-1].

Lemma B_lt p q : (p < q < m)%N -> B q < B p.
Proof using ok m0. by move=> h; have := b_mono ok (_ : (p <= q < m)%N); rewrite /B; lia. Qed.
Lemma B_inj : {in iota 0 m &, injective B}.
Proof using ok m0.
move=> p q; rewrite !mem_iota !add0n /= => hp hq; case: (ltngtP p q) => // h e.
- by have := @B_lt p q; rewrite h hq e ltxx => /(_ isT).
- by have := @B_lt q p; rewrite h hp e ltxx => /(_ isT).
Qed.
Lemma uniq1 : uniq L1.
Proof using ok m0. by rewrite map_inj_in_uniq ?iota_uniq //; exact: B_inj. Qed.
Lemma uniq2 : uniq L2.
Proof using ok m0. by rewrite map_inj_in_uniq ?iota_uniq // => p q hp hq e; apply: B_inj => //; lia. Qed.
(** A double point comes from two equal neighbours in b. *)
Lemma double_pt p q : (p < m)%N -> (q < m)%N -> B p - 1 = B q ->
  [/\ q = p.+1, a q = b q, b p = b q & c p = b q].
Proof using ok m0.
move=> hp hq e; have [h|h|h] := ltngtP p q; last by rewrite h in e; lia.
  have [|ne] := eqVneq q p.+1.
    move=> eq; subst q; have := ok.1 p hp; have := ok.1 p.+1 hq; have := ok.2 p hq; rewrite /B in e.
    by split=> //; lia.
  have h1 := @B_lt p p.+1; have h2 := @B_lt p.+1 q.
  have {}h1 : B p.+1 < B p by apply: h1; lia.
  have {}h2 : B q < B p.+1 by apply: h2; lia.
  lia.
by have := @B_lt q p; rewrite h hp => /(_ isT); lia.
Qed.
Lemma mem1 z : reflect (exists2 q, (q < m)%N & z = B q) (z \in L1).
Proof. by apply: (iffP mapP) => -[q]; rewrite ?mem_iota => h e; exists q; rewrite ?mem_iota. Qed.
Lemma mem2 z : reflect (exists2 q, (q < m)%N & z = B q - 1) (z \in L2).
Proof. by apply: (iffP mapP) => -[q]; rewrite ?mem_iota => h e; exists q; rewrite ?mem_iota. Qed.
Lemma countP z : count_mem z PZ = ((z \in L1) + (z \in L2))%N.
Proof using ok m0. by rewrite count_cat !count_uniq_mem // ?uniq1 ?uniq2. Qed.

Lemma count_ok z : (1 < count_mem z PZ)%N -> (count_mem z PZ <= count_mem z RZ)%N.
Proof using ok m0.
rewrite countP; case: mem1 => [[q hq ->]|_]; case: mem2 => [[p hp e]|_] //= _.
have [e1 e2 e3 e4] := double_pt hp hq (esym e).
have i1 : B q \in [seq a q - q%:Z | q <- iota 0 m.+1].
  by apply/mapP; exists q; [rewrite mem_iota; lia | rewrite /B e2].
have i2 : B q \in [seq c q - q%:Z - 1 | q <- iota 0 m.-1].
  by apply/mapP; exists p; [rewrite mem_iota; lia | rewrite /B; lia].
have cm (s : seq int) : B q \in s -> (0 < count_mem (B q) s)%N by rewrite -has_count has_pred1.
have := leq_add (cm _ i1) (cm _ i2); rewrite -count_cat -/RZ; exact.
Qed.

Lemma numE (b' : nat -> int) l : \prod_(y <- RZ) (b' l - l%:Z - y) = unum a b' c m l.
Proof using m0.
rewrite /RZ big_cat !big_map !iotaE !big_mkord /unum /=.
have -> : \prod_(i < m.+1) (b' l - l%:Z - (a i - i%:Z)) = (-1) ^+ m.+1 * \prod_(q < m.+1) (a q - b' l + l%:Z - q%:Z).
  by rewrite -[X in _ ^+ X]card_ord -prodr_const -big_split; apply: eq_bigr => i _ /=; lia.
have -> : \prod_(i < m.-1) (b' l - l%:Z - (c i - i%:Z - 1)) = (-1) ^+ m.-1 * \prod_(q < m.-1) (c q - b' l + l%:Z - q%:Z - 1).
  by rewrite -[X in _ ^+ X]card_ord -prodr_const -big_split; apply: eq_bigr => i _ /=; lia.
rewrite mulrACA -exprD; have -> : (m.+1 + m.-1 = 2 * m)%N by lia.
by rewrite exprM sqrrN !expr1n mul1r.
Qed.

Lemma den1 q : (q < m)%N -> B q \notin L2 -> \prod_(y <- PZ | y != B q) (B q - y) = uden b m q.
Proof using ok m0.
move=> hq nq; rewrite /PZ big_cat !big_map !iotaE !big_mkord /uden.
have -> : \prod_(i < m | B i != B q) (B q - B i) = \prod_(i < m | (i : nat) != q) (B q - B i).
  apply: eq_bigl => i; congr (~~ _); apply/eqP/eqP => [e|->] //.
  by apply: B_inj e; rewrite mem_iota //=.
have -> : \prod_(i < m | B i - 1 != B q) (B q - (B i - 1)) = \prod_(i < m | (i : nat) != q) (B q - (B i - 1)).
  rewrite [LHS](eq_bigl xpredT) => [|i]; last first.
    by apply/eqP => e; case/mem2: nq; exists (i : nat).
  by rewrite (bigD1 (Ordinal hq)) //= opprB addrCA subrr addr0 mul1r; apply: eq_bigl.
by rewrite -big_split; apply: eq_bigr => i _ /=; rewrite /B; nia.
Qed.
Lemma den2 q : (q < m)%N -> B q - 1 \notin L1 ->
  \prod_(y <- PZ | y != B q - 1) (B q - 1 - y) = - uden (upd b q (-1)) m q.
Proof using ok m0.
move=> hq nq; rewrite /PZ big_cat !big_map !iotaE !big_mkord /uden.
have -> : \prod_(i < m | B i - 1 != B q - 1) (B q - 1 - (B i - 1)) = \prod_(i < m | (i : nat) != q) (B q - 1 - (B i - 1)).
  apply: eq_bigl => i; congr (~~ _); apply/eqP/eqP => [e|->] //.
  by apply: B_inj; rewrite ?mem_iota //=; lia.
have -> : \prod_(i < m | B i != B q - 1) (B q - 1 - B i) = - \prod_(i < m | (i : nat) != q) (B q - 1 - B i).
  rewrite [LHS](eq_bigl xpredT) => [|i]; last first.
    by apply/eqP => e; case/mem1: nq; exists (i : nat).
  rewrite (bigD1 (Ordinal hq)) //= addrAC subrr sub0r mulN1r; congr (- _); exact: eq_bigl.
rewrite /= mulNr -big_split; congr (- _); apply: eq_bigr => i hi /=; rewrite updE updNE // /B; nia.
Qed.

Lemma num0 (b' : nat -> int) l : b' l - l%:Z \in RZ -> unum a b' c m l = 0.
Proof using m0.
move=> h; rewrite -numE; apply/eqP; rewrite prodf_seq_eq0; apply/hasP; exists (b' l - l%:Z) => //=.
by rewrite subrr.
Qed.
Lemma notdn_num q : (q < m)%N -> ~~ dn a b c m q -> unum a (upd b q (-1)) c m q = 0.
Proof using ok m0.
move=> qm nd; apply: num0; rewrite updE mem_cat; apply/orP.
move: nd; rewrite negb_and -leNgt => /orP[h|].
  left; apply/mapP; exists q.+1; first by rewrite mem_iota; lia.
  by have := ok.1 q qm; lia.
rewrite negb_or -ltnNge -leNgt => /andP[h1 h2].
right; apply/mapP; exists q; first by rewrite mem_iota; lia.
by have := ok.2 q h1; lia.
Qed.
Lemma sumRP : \sum_(z <- PZ) z - \sum_(z <- RZ) z =
  2%:R * (\sum_(q < m) b q) - \sum_(q < m.+1) a q - \sum_(q < m.-1) c q.
Proof using m0.
rewrite /PZ /RZ !big_cat !big_map !iotaE !big_mkord /= !sumrB /=.
rewrite !sumr_const !card_ord.
have e : \sum_(i < m.+1) (i : nat)%:Z + \sum_(i < m.-1) (i : nat)%:Z = 2%:R * (\sum_(i < m) (i : nat)%:Z) + 1.
  case: (m) m0 => // k _; rewrite big_ord_recr /= big_ord_recr /=.
  by move: (\sum_(i < k) _) => s; lia.
move: e (\sum_(i < m) b i) (\sum_(i < m.+1) a i) (\sum_(i < m.-1) c i).
move: (\sum_(i < m) _) (\sum_(i < m.+1) _) (\sum_(i < m.-1) _) => s1 s2 s3 e t1 t2 t3.
have -> : (1 : int) *+ m = m%:Z by rewrite natz.
have -> : (1 : int) *+ m.-1 = m%:Z - 1 by rewrite natz; lia.
lia.
Qed.

Lemma row_sum :
  \sum_(q < m | dn a b c m q) usq a (upd b q (-1)) c m q - \sum_(q < m | up a b c q) usq a b c m q =
  (2%:R * (\sum_(q < m) b q) - \sum_(q < m.+1) a q - \sum_(q < m.-1) c q)%:~R.
Proof using ok m0.
pose i2F (s : seq int) : seq F := map intr s.
have cE z s : count_mem (z%:~R : F) (i2F s) = count_mem z s.
  by rewrite /i2F count_map; apply: eq_count => y /=; rewrite eqr_int.
have lE z : lterm (i2F PZ) (i2F RZ) z%:~R = (\prod_(y <- RZ) (z - y))%:~R / (\prod_(y <- PZ | y != z) (z - y))%:~R.
  rewrite /lterm /i2F !big_map !rmorph_prod; congr (_ / _).
    by apply: eq_bigr => y _; rewrite rmorphB.
  by apply: eq_big => y; rewrite ?eqr_int // => _; rewrite rmorphB.
have h1 : size (i2F PZ) = size (i2F RZ).
  rewrite /i2F !size_map !size_cat !size_map !size_iota; lia.
have h2 x : (1 < count_mem x (i2F PZ))%N -> (count_mem x (i2F PZ) <= count_mem x (i2F RZ))%N.
  move=> hx; have : x \in i2F PZ by rewrite -has_pred1 has_count ltnW.
  by case/mapP=> z _ e; move: hx; rewrite e !cE; apply: count_ok.
have := lagrange_mult h1 h2.
rewrite /i2F !big_map -!rmorph_sum -rmorphB sumRP => <- /=.
under [RHS]eq_bigl => z do rewrite -/(i2F PZ) cE.
under [RHS]eq_bigr => z _ do rewrite lE.
rewrite [in RHS]/PZ big_cat !big_map !iotaE !big_mkord /= addrC -sumrN; congr (_ + _).
  rewrite big_mkcond [RHS]big_mkcond; apply: eq_bigr => q _; have hq := ltn_ord q.
  rewrite countP (introT (mem1 _)) /=; last by exists (q : nat).
  case: mem2 => [[p hp e]|ne] /=.
    have [e1 e2 e3 e4] := double_pt hp hq (esym e).
    by rewrite /up e2 ltxx.
  rewrite (numE b) den1 //; last by apply/mem2.
  case: ifP => [u|/negbT u]; first by rewrite /usq mulNr opprK.
  by rewrite (notup_num ok) // mul0r.
rewrite big_mkcond [RHS]big_mkcond; apply: eq_bigr => q _; have hq := ltn_ord q.
rewrite countP (introT (mem2 _)) /=; last by exists (q : nat).
case: mem1 => [[p hp e]|ne] /=.
  have [e1 e2 e3 e4] := double_pt hq hp e.
  by rewrite /dn e4 e3 ltxx orbF leqNgt -e1 hp andbF.
have -> : \prod_(y <- RZ) (B q - 1 - y) = unum a (upd b q (-1)) c m q.
  by rewrite -numE updE; apply: eq_bigr => y _; rewrite /B; lia.
rewrite den2 //; last by apply/mem1.
case: ifP => [u|/negbT u]; first by rewrite /usq rmorphN /= invrN mulrN mulNr.
by rewrite notdn_num // mul0r.
Qed.
End Sum.

(** A whole pattern seen as a function, the squared coefficient of one raising step, and
    the exchange of two steps. *)
Definition fadd (f : nat -> nat -> int) (k q : nat) (x : int) : nat -> nat -> int :=
  fun i => if i == k then upd (f i) q x else f i.
Section Exchange.
Variable F : numFieldType.
Definition uA (n : nat) (f : nat -> nat -> int) (l q : nat) : F :=
  usq F (f l) (f l.+1) (f l.+2) (n - l.+1) q.

Lemma usqM a b c m q a' b' c' m' q' :
  usq F a b c m q * usq F a' b' c' m' q' =
  (unum a b c m q * unum a' b' c' m' q')%:~R / (uden b m q * uden b' m' q')%:~R.
Proof. by rewrite /usq mulrACA mulrNN -invfM !rmorphM. Qed.

Lemma unum_upd a b c m q l : q != l -> unum a (upd b q 1) c m l = unum a b c m l.
Proof. by move=> h; rewrite /unum updNE // eq_sym. Qed.

Lemma exch_row a b c m q q' : (q < m)%N -> (q' < m)%N -> q != q' ->
  usq F a b c m q * usq F a b c m q' = usq F a (upd b q' 1) c m q * usq F a (upd b q 1) c m q'.
Proof.
move=> hq hq' ne; rewrite !usqM !unum_upd // 1?eq_sym //; congr (_ / _%:~R).
have ne' : q' != q by rewrite eq_sym.
have i1 : (Ordinal hq' : nat) != q by [].
have i2 : (Ordinal hq : nat) != q' by [].
rewrite /uden (bigD1 (Ordinal hq')) //= [X in _ * X](bigD1 (Ordinal hq)) //=.
rewrite [X in _ = X * _](bigD1 (Ordinal hq')) //= [X in _ = _ * X](bigD1 (Ordinal hq)) //=.
rewrite !updE !updNE //.
have e1 : \prod_(i < m | ((i : nat) != q) && (i != Ordinal hq'))
    ((upd b q' 1 i - b q + q%:Z - i%:Z) * (upd b q' 1 i - b q + q%:Z - i%:Z - 1)) =
  \prod_(i < m | ((i : nat) != q) && (i != Ordinal hq'))
    ((b i - b q + q%:Z - i%:Z) * (b i - b q + q%:Z - i%:Z - 1)).
  by apply: eq_bigr => i /andP[_ h]; rewrite updNE.
have e2 : \prod_(i < m | ((i : nat) != q') && (i != Ordinal hq))
    ((upd b q 1 i - b q' + q'%:Z - i%:Z) * (upd b q 1 i - b q' + q'%:Z - i%:Z - 1)) =
  \prod_(i < m | ((i : nat) != q') && (i != Ordinal hq))
    ((b i - b q' + q'%:Z - i%:Z) * (b i - b q' + q'%:Z - i%:Z - 1)).
  by apply: eq_bigr => i /andP[_ h]; rewrite updNE.
rewrite {}e1 {}e2; move: (\prod_(_ < m | _) _) (\prod_(_ < m | _) _) => P1 P2.
rewrite mulrACA [RHS]mulrACA; congr (_ * _); nia.
Qed.

Lemma exch_adj a b c d m q q' : (q < m)%N -> (q' < m.-1)%N ->
  usq F a b c m q * usq F b c d m.-1 q' = usq F a b (upd c q' 1) m q * usq F (upd b q 1) c d m.-1 q'.
Proof.
move=> hq hq'; rewrite !usqM; congr (_%:~R / _).
have hq2 : (q < m.-1.+1)%N by lia.
rewrite /unum ![\prod_(_ < m.-1) (_ - b q + _ - _ - 1)](bigD1 (Ordinal hq')) //=.
rewrite ![\prod_(_ < m.-1.+1) (_ - c q' + _ - _)](bigD1 (Ordinal hq2)) //= !updE.
have e1 : \prod_(i < m.-1 | i != Ordinal hq') (upd c q' 1 i - b q + q%:Z - i%:Z - 1) =
  \prod_(i < m.-1 | i != Ordinal hq') (c i - b q + q%:Z - i%:Z - 1).
  by apply: eq_bigr => i h; rewrite updNE.
have e2 : \prod_(i < m.-1.+1 | i != Ordinal hq2) (upd b q 1 i - c q' + q'%:Z - i%:Z) =
  \prod_(i < m.-1.+1 | i != Ordinal hq2) (b i - c q' + q'%:Z - i%:Z).
  by apply: eq_bigr => i h; rewrite updNE.
rewrite {}e1 {}e2.
move: (\prod_(_ < m.+1) _) (\prod_(_ < m.-1.-1) _) (\prod_(_ < m.-1 | _) _) (\prod_(_ < m.-1.+1 | _) _) => P1 P2 P3 P4.
have -> : forall x y z t u : int, x * (y * z) * (t * u * P2) = (y * t) * (x * z * u * P2) by move=> *; nia.
have -> : forall x y z t u : int, x * (y * z) * (t * u * P2) = (y * t) * (x * z * u * P2) by move=> *; nia.
by congr (_ * _); nia.
Qed.

Lemma exch n f l q l' q' : (q < n - l.+1)%N -> (q' < n - l'.+1)%N -> (l, q) != (l', q') ->
  uA n f l q * uA n f l' q' = uA n (fadd f l'.+1 q' 1) l q * uA n (fadd f l.+1 q 1) l' q'.
Proof.
wlog : l q l' q' / (l <= l')%N => [H|].
  have [h|h] := leqP l l'; first exact: H.
  move=> h1 h2 h3; rewrite mulrC [RHS]mulrC; apply: H => //; first exact: ltnW.
  by rewrite eq_sym.
move=> ll hq hq' ne; rewrite /uA /fadd.
have [e|nl] := eqVneq l l'.
  subst l'; have {}ne : q != q' by apply: contra ne => /eqP->.
  have -> : (l == l.+1) = false by lia.
  have -> : (l.+2 == l.+1) = false by lia.
  by rewrite !eqxx; apply: exch_row.
have [e|nl2] := eqVneq l' l.+1.
  subst l'; rewrite !eqxx.
  have -> : (l == l.+2) = false by lia.
  have -> : (l.+1 == l.+2) = false by lia.
  have -> : (l.+2 == l.+1) = false by lia.
  have -> : (l.+3 == l.+1) = false by lia.
  rewrite (_ : (n - l.+2 = (n - l.+1).-1)%N); last by lia.
  by apply: exch_adj => //; lia.
have -> : (l == l'.+1) = false by lia.
have -> : (l.+1 == l'.+1) = false by lia.
have -> : (l.+2 == l'.+1) = false by lia.
have -> : (l'.+1 == l.+1) = false by lia.
have -> // : (l'.+2 == l.+1) = false by lia.
Qed.
End Exchange.
