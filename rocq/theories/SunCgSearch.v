(** SunCgSearch: the graph of the lowering operators and search_state. *)
From Coq Require Import ZArith String Ascii.
From Verif Require Import McRing.
From mathcomp Require Import all_ssreflect all_algebra.
From mathcomp.zify Require Import zify.
From Verif Require Import Base Nd NdProofs Reps Sun SunDet SunDim SunRow SunLadder SunMx SunTog SunLR SunTp SunCg.

Set Implicit Arguments.
Unset Strict Implicit.
Unset Printing Implicit Defensive.

Import GRing.Theory Num.Theory Order.Theory.
Local Open Scope ring_scope.

Lemma lexlt_asymm (T : eqType) (lt : rel T) : (forall x y, lt x y -> ~~ lt y x) ->
  forall s t, lexlt lt s t -> ~~ lexlt lt t s.
Proof.
move=> h; elim=> [|x s ih] [|y t] //=; rewrite [y == x]eq_sym; case: eqP => _; [exact: ih | exact: h].
Qed.
Lemma lexlt_first (T : eqType) (lt : rel T) (x0 : T) s t : size s = size t -> s <> t ->
  (forall k, (k < size s)%N -> (forall j, (j < k)%N -> nth x0 s j = nth x0 t j) ->
     nth x0 s k <> nth x0 t k -> lt (nth x0 s k) (nth x0 t k)) -> lexlt lt s t.
Proof.
elim: s t => [|x s ih] [|y t] //= [sz] ne h; case: eqP => [e|nxy]; last exact: (h 0%N).
apply: ih => // [st|k hk hj hn]; first by apply: ne; rewrite e st.
by apply: (h k.+1) => // -[|j] //= hj'; apply: hj.
Qed.
Lemma last_max (T : eqType) (r : rel T) (x0 top : T) s : (forall x y, r x y -> ~~ r y x) -> pairwise r s ->
  top \in s -> (forall x, x \in s -> x <> top -> r x top) -> last x0 s = top.
Proof.
move=> as_ /(pairwiseP x0) pw tin h; have s0 : (0 < size s)%N by case: (s) tin.
have lin : nth x0 s (size s).-1 \in s by apply: mem_nth; case: (size s) s0.
rewrite -nth_last; apply/eqP; apply: contraT => /eqP ne.
have i1 : (index top s < size s)%N by rewrite index_mem.
have := h _ lin ne => /as_; rewrite -[in X in r X _](nth_index x0 tin) pw ?inE //; first by case: (size s) s0.
have : index top s != (size s).-1 by apply/eqP => e; apply: ne; rewrite -e nth_index.
by move: i1; case: (size s) s0 => //= m _; rewrite ltnS leq_eqVlt => /orP[->|].
Qed.

Section S.
Variable S : weight.
Hypothesis vS : valid_S S.
Let n := size S.
Let G := gtp n S.
Variable C : numClosedFieldType.

Lemma topG : topM S \in G.
Proof using vS. by apply/(mem_gtp _ vS); apply: topM_gt. Qed.
Lemma last_top : last [::] G = topM S.
Proof using vS.
have asy : forall x y : pattern, lexlt (lexlt <%R) x y -> ~~ lexlt (lexlt <%R) y x.
  apply: lexlt_asymm; apply: lexlt_asymm => x y h; by rewrite -leNgt ltW.
apply: (@last_max _ (lexlt (lexlt <%R)) [::] _ G asy) => [||M hM ne]; [exact: gtp_lt | exact: topG |].
have [[s1 s2] r0 g] := (GP vS M).1 hM; rewrite -/n in s1 s2 g.
have st : size (topM S) = n by rewrite size_mkseq.
have sr k : (k < n)%N -> size (nth [::] (topM S) k) = (n - k)%N.
  by move=> hk; rewrite nth_mkseq // size_takel // leq_subr.
apply: (@lexlt_first _ _ [::]) => //; first by rewrite s1 st.
rewrite s1 => k hk hj hn; apply: (@lexlt_first _ _ 0) => //; first by rewrite s2 // sr.
rewrite s2 // => q hq _; rewrite -/(ent M k q) -/(ent (topM S) k q) => /eqP nq; rewrite lt_def eq_sym nq /=.
case: k hk hj hn hq nq => [|k] hk hj hn hq nq; first by case: hn; rewrite r0 nth_mkseq ?subn0 ?take_size.
have e : ent M k q = ent (topM S) k q by rewrite /ent hj.
rewrite !topM_ent in e *; try lia.
by rewrite -e; have /andP[] := g k q ltac:(lia).
Qed.

Lemma jel_gt0 l q N M : lvl S l q -> M \in G -> N \in G -> step l q M N -> 0 < jel S C l N M.
Proof using vS.
move=> lq hM hN st; have [hl hq] := lq; rewrite /jel (bigD1 (Ordinal hq)) //=.
apply: ltr_spaddl; last first.
  apply: sumr_ge0 => q' /andP[st' _]; rewrite sqrtC_ge0; apply: (@uA_ge0 _ vS C l q' M N) => //; split=> //; exact: ltn_ord.
rewrite sqrtC_gt0 /uA /usq.
have [_ _ g] := (GP vS M).1 hM; have ok := @gtf_rows _ vS _ l g.
have u : up (ent M l) (ent M l.+1) (ent M l.+2) q by rewrite -(step_G vS lq hM) (eqP st).
have [d0 n0] := up_signs ok hq u.
by apply: divr_gt0; rewrite ?oppr_gt0 ?ltr0z ?ltrz0.
Qed.
Lemma jel_neq0 l N M : (l.+1 < n)%N -> jel S C l N M != 0 -> exists2 q, lvl S l q & step l q M N.
Proof using.
move=> hl h; have [/existsP[q st]|/existsPn no] := boolP [exists q : 'I_(n - l.+1), step l q M N].
  by exists q => //; split.
by case/eqP: h; rewrite /jel big_pred0 // => q; apply/negbTE; apply: no.
Qed.

(** Every pattern but the highest can be raised. *)
Lemma raisable M : M \in G -> M <> topM S -> exists l q, lvl S l q /\ M_add M l.+1 q 1 \in G.
Proof using vS.
move=> hM ne; have [[s1 s2] r0 g] := (GP vS M).1 hM; rewrite -/n in s1 s2 g.
pose viol (k : nat) := has (fun q => ent M k.+1 q < ent M k q) (iota 0 (n - k.+1)).
have [/hasP[k0]|/hasPn no] := boolP (has viol (iota 0 n.-1)); last first.
  case: ne; have [[t1 t2] u0 gt] := (GP vS (topM S)).1 topG.
  have hs : shp n M by []. have ht : shp n (topM S) by [].
  apply: (pat_ext hs ht) => i j; elim: i j => [|i ih] j hi hj; first by rewrite /ent r0 u0.
  have := no i; rewrite mem_iota => /(_ ltac:(lia)) /hasPn /(_ j); rewrite mem_iota => /(_ ltac:(lia)).
  rewrite -leNgt => le; have /andP[_ ge] := g i j ltac:(lia).
  have -> : ent M i.+1 j = ent M i j by apply/eqP; rewrite eq_le ge le.
  by rewrite ih ?topM_ent //; lia.
rewrite mem_iota /= add0n => hk0 vk0.
have ex : exists k, (k < n.-1)%N && viol k by exists k0; rewrite hk0.
have ub k : (k < n.-1)%N && viol k -> (k <= n.-1)%N by case/andP => /ltnW.
have [k /andP[hk /hasP[q hq lt]] mx] := ex_maxnP ex ub; rewrite mem_iota add0n /= in hq.
have lq : lvl S k q by split; rewrite -/n; lia.
exists k, q; split=> //; rewrite (step_G vS lq hM) /up lt /=.
case: (q =P 0%N) => //= q0; case: (ltrP (ent M k.+1 q) (ent M k.+2 q.-1)) => // le.
have /andP[h1 h2] := g k q.-1 ltac:(lia); rewrite prednK in h1; last by lia.
suff : ent M k.+2 q.-1 = ent M k.+1 q.-1 by move=> e; rewrite e in le; lia.
apply/eqP; rewrite eq_le; have /andP[h3 h4] := g k.+1 q.-1 ltac:(lia); rewrite h4 /=.
rewrite leNgt; apply/negP => lt2.
suff : (k.+1 <= k)%N by rewrite ltnn.
apply: mx; rewrite (_ : (k.+1 < n.-1)%N); last by lia.
by apply/hasP; exists q.-1 => //; rewrite mem_iota; lia.
Qed.

Definition ht (M : pattern) : int := \sum_(i < n.+1) sg S i M.
Lemma ht_step l q M N : lvl S l q -> M \in G -> N \in G -> step l q M N -> ht N = ht M + 1.
Proof using vS.
move=> lq hM hN st; have [hl hq] := lq; have hl' : (l.+1 < n.+1)%N by rewrite -/n in hl; lia.
rewrite /ht (bigD1 (Ordinal hl')) //= [in RHS](bigD1 (Ordinal hl')) //= (sg_step vS _ lq hM hN st) eqxx.
rewrite (eq_bigr (fun i : 'I_n.+1 => sg S i M)) => [|i ne]; first by rewrite [_ + 1]addrC; lia.
rewrite (sg_step vS _ lq hM hN st); have -> : (i == l.+1 :> nat) = false by apply/negbTE.
exact: addr0.
Qed.
Lemma ht_le M : M \in G -> ht M <= ht (topM S).
Proof using vS.
move=> hM; have [_ r0 g] := (GP vS M).1 hM; apply: ler_sum => i _; apply: ler_sum => j _.
have := ltn_ord j; have := ltn_ord i; move: (nat_of_ord i) (nat_of_ord j) => {i j} i j hi hj; rewrite -/n in g hj.
rewrite topM_ent -/n; last by lia.
elim: i j hi hj => [|i ih] j hi hj; first by rewrite /ent r0.
by have /andP[_ h] := g i j ltac:(lia); apply: (le_trans h); apply: ih; lia.
Qed.
(** A set of patterns that contains the highest one but is not all has a way down. *)
Lemma crossing (L : seq pattern) M : topM S \in L -> M \in G -> M \notin L ->
  exists Mc Mp l, [/\ Mc \in L, Mc \in G, Mp \in G, Mp \notin L & (l.+1 < n)%N /\ jel S C l Mc Mp != 0].
Proof using vS.
move=> tL; move: {2}`|ht (topM S) - ht M|%N (leqnn `|ht (topM S) - ht M|%N) => k.
elim: k M => [|k ih] M hk hM hL.
  have ne : M <> topM S by move=> e; rewrite e tL in hL.
  have [l [q [lq hN]]] := raisable hM ne.
  have := ht_le hN; have := ht_step lq hM hN (eqxx _); lia.
have ne : M <> topM S by move=> e; rewrite e tL in hL.
have [l [q [lq hN]]] := raisable hM ne; have st : step l q M (M_add M l.+1 q 1) by apply: eqxx.
have [NL|NL] := boolP (M_add M l.+1 q 1 \in L).
  exists (M_add M l.+1 q 1), M, l; split=> //; have [hl _] := lq.
  by split=> //; rewrite gt_eqF // (jel_gt0 lq).
apply: (ih _ _ hN NL); have := ht_le hN; have := ht_step lq hM hN st; have := ht_le hM; lia.
Qed.
End S.
