(** SunLagr: the sum of the residues of a rational function whose numerator and denominator
    are monic of the same degree, with double poles cancelled by double roots. *)
From mathcomp Require Import all_ssreflect all_algebra.
From mathcomp.zify Require Import zify.

Set Implicit Arguments.
Unset Strict Implicit.
Unset Printing Implicit Defensive.

Import GRing.Theory Num.Theory.
Local Open Scope ring_scope.

Section Lagrange.
Variable F : fieldType.
Implicit Types (p r : seq F) (x : F).

Definition mon p : {poly F} := \prod_(y <- p) ('X - y%:P).
Lemma mon_monic p : mon p \is monic. Proof. exact: monic_prod_XsubC. Qed.
Lemma size_mon p : size (mon p) = (size p).+1. Proof. exact: size_prod_XsubC. Qed.
Lemma mon_cons a p : mon (a :: p) = ('X - a%:P) * mon p. Proof. by rewrite /mon big_cons. Qed.
Lemma mon_lead p : (mon p)`_(size p) = 1.
Proof. by have /monicP := mon_monic p; rewrite lead_coefE size_mon. Qed.
Lemma mon_vieta a p : (mon (a :: p))`_(size p) = - \sum_(y <- a :: p) y.
Proof.
elim: p a => [|b p IH] a; first by rewrite mon_cons /mon big_nil mulr1 coefB coefX coefC sub0r big_seq1.
rewrite mon_cons mulrBl coefB coefXM /= mul_polyC coefZ.
by rewrite -[(size p).+1]/(size (b :: p)) mon_lead mulr1 IH [in RHS]big_cons opprD addrC.
Qed.
Lemma mon_eval p x : (mon p).[x] = \prod_(y <- p) (x - y).
Proof. by rewrite /mon horner_prod; apply: eq_bigr => y _; rewrite hornerXsubC. Qed.

Definition lterm p r x : F := (\prod_(y <- r) (x - y)) / (\prod_(y <- p | y != x) (x - y)).

Lemma lagrange_uniq p r : uniq p -> size p = size r ->
  \sum_(x <- p) lterm p r x = \sum_(x <- p) x - \sum_(x <- r) x.
Proof.
case: p => [|a p] u s; first by case: r s => // _; rewrite !big_nil subrr.
case: r s => // b r [s]; set P := a :: p; set R := b :: r.
pose h := mon R - mon P.
pose L := \sum_(x <- P) (lterm P R x) *: mon [seq y <- P | y != x].
have nz x : \prod_(y <- P | y != x) (x - y) != 0.
  by rewrite -big_filter prodf_seq_neq0; apply/allP => y; rewrite mem_filter => /andP[h1 _] /=; rewrite subr_eq0 eq_sym.
have sf x : x \in P -> size [seq y <- P | y != x] = size p.
  by move=> xP; rewrite -rem_filter // size_rem.
have sL : (size L <= size P)%N.
  rewrite /L big_seq; apply: (big_ind (fun q : {poly F} => size q <= size P)%N); first by rewrite size_poly0.
  - by move=> q1 q2 h1 h2; apply: leq_trans (size_add _ _) _; rewrite geq_max h1.
  - by move=> x xP; apply: leq_trans (size_scale_leq _ _) _; rewrite size_mon sf.
have sh : (size h <= size P)%N.
  apply/leq_sizeP => i; rewrite leq_eqVlt /h coefB => /orP[/eqP<-|hi].
    by rewrite mon_lead /= s -[(size r).+1]/(size R) mon_lead subrr.
  by rewrite !nth_default ?subrr // size_mon //= -s.
have hL : h = L.
  apply/eqP; rewrite -subr_eq0; apply/eqP; apply: (@roots_geq_poly_eq0 _ _ P) => //; last first.
    by apply: leq_trans (size_add _ _) _; rewrite size_opp geq_max sh.
  apply/allP => x xP; rewrite rootE /h /L !hornerE horner_sum.
  rewrite [\sum_(_ <- _) _](bigD1_seq x) // [X in - (_ + X)]big1_seq ?addr0 => [|y /andP[yx _]]; last first.
    rewrite hornerZ mon_eval; apply/eqP; rewrite mulf_eq0; apply/orP; right.
    rewrite prodf_seq_eq0; apply/hasP; exists x; rewrite ?subrr ?eqxx //.
    by rewrite mem_filter eq_sym yx.
  have PE : (mon P).[x] = 0 by rewrite mon_eval (bigD1_seq x) //= subrr mul0r.
  have fE : (mon [seq y <- P | y != x]).[x] = \prod_(y <- P | y != x) (x - y) by rewrite mon_eval big_filter.
  by rewrite hornerZ PE fE /lterm mulfVK // mon_eval subr0 subrr.
have : h`_(size p) = L`_(size p) by rewrite hL.
rewrite /h coefB mon_vieta s mon_vieta -s opprK addrC => ->.
rewrite /L coef_sum big_seq [RHS]big_seq; apply: eq_bigr => x xP.
by rewrite coefZ -(sf x xP) mon_lead mulr1.
Qed.

Lemma lagrange_mult p r : size p = size r ->
  (forall x, (1 < count_mem x p)%N -> (count_mem x p <= count_mem x r)%N) ->
  \sum_(x <- p | count_mem x p == 1%N) lterm p r x = \sum_(x <- p) x - \sum_(x <- r) x.
Proof.
have [n] := ubnP (size p); elim: n p r => // n IH p r hn s hc.
have [u|nu] := boolP (uniq p).
  rewrite -lagrange_uniq // big_seq_cond [RHS]big_seq; apply: eq_bigl => x.
  by rewrite count_uniq_mem //; case: (x \in p).
have [x hx] : exists x, (1 < count_mem x p)%N.
  have /hasP[x _ h] : has (fun x => (1 < count_mem x p)%N) p; last by exists x.
  apply: contraR nu => /hasPn h; apply: count_mem_uniq => x.
  have [xp|xp] := boolP (x \in p); last by apply/count_memPn.
  have := h x xp; rewrite -leqNgt; move: xp; rewrite -has_pred1 has_count; case: (count_mem x p) => [|[]] //.
set c := count_mem x p; pose p' := [seq y <- p | y != x].
pose r' := nseq (count_mem x r - c) x ++ [seq y <- r | y != x].
have cr := hc x hx.
have fx (q : seq F) : [seq y <- q | y == x] = nseq (count_mem x q) x.
  have /all_pred1P e : all (pred1 x) [seq y <- q | y == x] by apply: filter_all.
  by rewrite e size_filter.
have pp : perm_eq p (nseq c x ++ p').
  by rewrite -fx perm_sym; apply/permPl; apply: perm_filterC.
have pr : perm_eq r (nseq c x ++ r').
  rewrite /r' catA -nseqD subnKC // -fx perm_sym; apply/permPl; apply: perm_filterC.
have xp' : x \notin p' by rewrite mem_filter eqxx.
have cp' y : y != x -> count_mem y p' = count_mem y p.
  by move=> yx; rewrite (permP pp) count_cat count_nseq /= [x == y]eq_sym (negbTE yx) mul0n.
have cr' y : y != x -> count_mem y r' = count_mem y r.
  by move=> yx; rewrite [RHS](permP pr) [RHS]count_cat [X in (X + _)%N]count_nseq /= [x == y]eq_sym (negbTE yx) mul0n.
have c0 : (0 < c)%N by apply: ltnW.
have := perm_size pp; rewrite size_cat size_nseq => sp.
have := perm_size pr; rewrite size_cat size_nseq => sr.
have lt y : y != x -> lterm p r y = lterm p' r' y.
  move=> yx; rewrite /lterm (perm_big _ pr) (perm_big _ pp) /= !big_cat /=.
  have -> : \prod_(i <- nseq c x | i != y) (y - i) = \prod_(i <- nseq c x) (y - i).
    rewrite big_seq_cond [RHS]big_seq; apply: eq_bigl => i.
    by rewrite mem_nseq; case: (i =P x) => [->|]; rewrite ?andbF // [x == y]eq_sym yx andbT.
  rewrite -mulf_div divff ?mul1r // prodf_seq_neq0; apply/allP => i; rewrite mem_nseq => /andP[_ /eqP->].
  by rewrite /= subr_eq0.
have -> : \sum_(i <- p | count_mem i p == 1%N) lterm p r i = \sum_(i <- p' | count_mem i p' == 1%N) lterm p' r' i.
  rewrite big_filter_cond /=; apply: congr_big => // i.
  - by have [->|ix] := eqVneq i x; [rewrite (gtn_eqF hx) | rewrite cp'].
  - move=> ci; apply: lt; apply: contraTneq ci => ->; by rewrite (gtn_eqF hx).
rewrite IH.
- have sE q q' : perm_eq q (nseq c x ++ q') -> \sum_(i <- q) i = \sum_(i <- nseq c x) i + \sum_(i <- q') i.
    by move=> e; rewrite (perm_big _ e) big_cat.
  by rewrite (sE _ _ pp) (sE _ _ pr) opprD addrACA subrr add0r.
- by move: hn; rewrite sp; move: (size p') c0 => k; clear; lia.
- by apply/eqP; rewrite -(eqn_add2l c) -sp -sr s.
move=> y hy; have yx : y != x.
  by apply: contraTneq hy => ->; rewrite (count_memPn xp').
by move: hy; rewrite cp' // cr' //; apply: hc.
Qed.
End Lagrange.
