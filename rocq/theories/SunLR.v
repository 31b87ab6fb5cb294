(** SunLR: the rule of mul_rep.  The patterns that fail its test cancel in pairs in every
    alternating sum, and the weights of all patterns are symmetric. *)
From Coq Require Import ZArith String Ascii.
From Verif Require Import McRing.
From mathcomp Require Import all_ssreflect all_algebra perm.
From mathcomp.zify Require Import zify.
From Verif Require Import Base Nd Sun SunDet SunDim SunRow SunTog.

Set Implicit Arguments.
Unset Strict Implicit.
Unset Printing Implicit Defensive.

Import GRing.Theory Num.Theory Order.Theory.
Local Open Scope ring_scope.

Lemma find_iota (p : pred nat) N i : (i < N)%N -> p i -> (forall j, (j < i)%N -> ~~ p j) -> find p (iota 0 N) = i.
Proof.
move=> iN pi h; have hs : has p (iota 0 N) by apply/hasP; exists i; rewrite ?mem_iota.
have fN : (find p (iota 0 N) < N)%N by rewrite -[X in (_ < X)%N](size_iota 0 N) -has_find.
have := nth_find 0%N hs; rewrite nth_iota // add0n => pf.
case: (ltngtP (find p (iota 0 N)) i) => // [lt|lt]; first by have := h _ lt; rewrite pf.
by have := before_find 0%N lt; rewrite nth_iota // add0n pi.
Qed.
Lemma big_invol (V : zmodType) (T : eqType) (l : seq T) (phi : T -> T) (F : T -> V) : uniq l ->
  {in l, forall x, phi x \in l} -> {in l, cancel phi phi} ->
  \sum_(x <- l) F x = \sum_(x <- l) F (phi x).
Proof.
move=> u h1 h2; have inj : {in l &, injective phi} by move=> x y hx hy e; rewrite -(h2 x hx) e h2.
rewrite -[RHS](big_map phi predT F); apply: perm_big; rewrite perm_sym; apply: uniq_perm => //.
  by rewrite map_inj_in_uniq.
move=> x; apply/mapP/idP => [[y hy ->]|hx]; first exact: h1.
by exists (phi x); [exact: h1 | rewrite h2].
Qed.

(** The sum of row k, and the weight of a pattern: the number of letters p. *)
Definition rsum (n : nat) (M : pattern) (k : nat) : int := \sum_(q < n) ent M k q.
Definition wt (n : nat) (M : pattern) (p : nat) : int := rsum n M (n - p.+1) - rsum n M (n - p).
(** The toggle of row k + 1 at J. *)
Definition ptog (n : nat) (J : int) (k : nat) (M : pattern) : pattern :=
  let m := (n - k.+1)%N in
  set_nth [::] M k.+1 (mkseq (tog (ent M k) (ent M k.+1) (ent M k.+2) m J) m).
Definition pgap (n : nat) (M : pattern) (k : nat) (J : int) : int :=
  gap (ent M k) (ent M k.+1) (ent M k.+2) (n - k.+1) J.

Section Gt.
Variables (S : weight) (M : pattern).
Hypothesis vS : valid_S S.
Hypothesis gt : is_gt S M.
Notation n := (size S).

Lemma gt_rows k : (k.+1 < n)%N -> rows_ok (ent M k) (ent M k.+1) (ent M k.+2) (n - k.+1).
Proof using gt. clear vS; move=> kn; case: gt => _ _ _ g; split=> q qm; apply: g; lia. Qed.
Lemma gt_out k q : (n <= k + q)%N -> ent M k q = 0.
Proof using gt. clear vS.
move=> h; rewrite /ent; case: gt => sM _ sr _; have [kn|kn] := ltnP k n.
  by rewrite nth_default // sr //; lia.
by rewrite (nth_default [::]) ?nth_nil // sM.
Qed.
Lemma gt_out' k q : (n <= k)%N -> ent M k q = 0.
Proof using gt. clear vS. by move=> h; apply: gt_out; lia. Qed.
Lemma S_mono i j : (i <= j < n)%N -> S`_j <= S`_i.
Proof.
have [_ h] := elimT (valid_SP _) vS; elim: j => [|j IH]; first by rewrite leqn0 => /andP[/eqP->].
case/andP; rewrite leq_eqVlt => /orP[/eqP->//|ij] jn.
by apply: (le_trans (h j jn)); apply: IH; lia.
Qed.
Lemma gt_bounds k q : (k + q < n)%N -> S`_n.-1 <= ent M k q <= S`_0.
Proof.
elim: k q => [|k IH] q h.
  rewrite /ent; case: gt => _ -> _ _.
  by rewrite !S_mono //; lia.
have [_ _ _ g] := gt; have /andP[h1 h2] := g k q ltac:(lia).
have /andP[h3 _] := IH q.+1 ltac:(lia); have /andP[_ h4] := IH q ltac:(lia).
by rewrite (le_trans h3 h1) (le_trans h2 h4).
Qed.
Lemma rsumE k : rsum n M k = \sum_(q < n - k) ent M k q.
Proof using gt. clear vS.
rewrite /rsum -(big_mkord predT (ent M k)) (@big_cat_nat _ _ _ (n - k)) ?leq_subr //= big_mkord.
by rewrite [X in _ + X]big_nat_cond [X in _ + X]big1 ?addr0 // => q /andP[h _]; apply: gt_out; lia.
Qed.

Section Toggle.
Variables (k : nat) (J : int).
Hypothesis kn : (k.+1 < n)%N.
Local Notation m := (n - k.+1)%N.
Local Notation M' := (ptog n J k M).

Lemma ent_ptog i q : ent M' i q =
  if (i == k.+1) && (q < m)%N then tog (ent M k) (ent M k.+1) (ent M k.+2) m J q else ent M i q.
Proof.
rewrite {1}/ent /ptog nth_set_nth /=; case: eqP => [->|_] //=.
case: ltnP => h; first by rewrite nth_mkseq.
by rewrite nth_default ?size_mkseq // gt_out //; lia.
Qed.
Lemma ptog_row i : i != k.+1 -> ent M' i =1 ent M i.
Proof. by move=> h q; rewrite ent_ptog (negbTE h). Qed.
Lemma ptog_gt : is_gt S M'.
Proof.
case: gt => sM M0 sr g; have ok := gt_rows kn; have [ok1 ok2] := rows_tog J ok.
split.
- by rewrite size_set_nth sM; apply/maxn_idPr.
- by rewrite nth_set_nth.
- by move=> i hi; rewrite nth_set_nth /=; case: eqP => [->|_]; rewrite ?size_mkseq ?sr.
move=> i j hij; rewrite !ent_ptog.
have [e|ne] := eqVneq i k.
  subst i; rewrite (_ : (k == k.+1) = false) ?eqxx /=; last by lia.
  by rewrite (_ : (j < m)%N = true); [apply: ok1; lia | lia].
have [e|ne'] := eqVneq i k.+1.
  subst i; rewrite (_ : (k.+2 == k.+1) = false) /=; last by lia.
  have -> : (j.+1 < m)%N by lia.
  have -> : (j < m)%N by lia.
  by apply: ok2; lia.
by rewrite (_ : (i.+1 == k.+1) = false) /=; [apply: g | lia].
Qed.
Lemma ptogK : ptog n J k M' = M.
Proof.
have ok := gt_rows kn; case: gt => sM _ sr _.
have mx : maxn k.+2 (maxn k.+2 n) = n by lia.
apply: (@eq_from_nth _ [::]) => [|i]; rewrite {1}/ptog size_set_nth size_set_nth sM mx // => hi.
rewrite nth_set_nth /=; case: eqP => [->|ne]; last by rewrite nth_set_nth /= (negbTE (introN eqP ne)).
apply: (@eq_from_nth _ 0) => [|q]; rewrite size_mkseq; first by rewrite sr.
move=> hq; rewrite nth_mkseq // -[RHS]/(ent M k.+1 q) -[RHS](togK J ok hq).
apply: tog_ext; try by apply: ptog_row; lia.
by rewrite ent_ptog eqxx hq.
Qed.
Lemma ptog_ppart i q K : J <= K -> ppart (ent M' i q) K = ppart (ent M i q) K.
Proof.
move=> JK; rewrite ent_ptog; case: ifP => // /andP[/eqP-> h].
by rewrite ppart_tog //; apply: gt_rows.
Qed.
Lemma ptog_pgap j K : J <= K -> pgap n M' j K = pgap n M j K.
Proof.
by move=> JK; rewrite /pgap /gap; congr (_ *+ 2 - _ - _); apply: eq_bigr => q _; rewrite ptog_ppart.
Qed.
Hypothesis H : forall q, (q < m)%N -> J < ent M k.+1 q -> J < ent M k q.+1.
Lemma rsum_ptog : rsum n M' k.+1 = rsum n M k + rsum n M k.+2 + pgap n M k J - rsum n M k.+1.
Proof.
have m0 : (0 < m)%N by lia.
have := sum_tog (gt_rows kn) m0 H; rewrite big_split /= -/(pgap n M k J) => e.
have -> : rsum n M' k.+1 = \sum_(q < m) tog (ent M k) (ent M k.+1) (ent M k.+2) m J q.
  rewrite /rsum (big_ord_widen n (tog (ent M k) (ent M k.+1) (ent M k.+2) m J)) ?leq_subr //.
  rewrite [RHS]big_mkcond /=; apply: eq_bigr => q _; rewrite ent_ptog eqxx /=.
  by case: ltnP => // h; rewrite gt_out //; lia.
rewrite (rsumE k) (rsumE k.+1) (rsumE k.+2).
have -> : (n - k)%N = m.+1 by lia.
have -> : (n - k.+2)%N = m.-1 by lia.
by rewrite -e; mcring.
Qed.
Lemma rsum_ptogN i : i != k.+1 -> rsum n M' i = rsum n M i.
Proof. by move=> h; apply: eq_bigr => q _; rewrite ptog_row. Qed.
Lemma wt_ptog p : (p < n)%N -> wt n M' p =
  if p == m then wt n M m.-1 - pgap n M k J else
  if p == m.-1 then wt n M m + pgap n M k J else wt n M p.
Proof.
move=> pn; rewrite /wt.
have e1 : (n - m.+1)%N = k by lia.
have e2 : (n - m)%N = k.+1 by lia.
have e3 : (n - m.-1.+1)%N = k.+1 by lia.
have e4 : (n - m.-1)%N = k.+2 by lia.
case: eqP => [->|ne]; first by rewrite e1 e2 e3 e4 rsum_ptog rsum_ptogN; [mcring | lia].
case: eqP => [->|ne']; first by rewrite e1 e2 e3 e4 rsum_ptog rsum_ptogN; [mcring | lia].
by rewrite !rsum_ptogN //; lia.
Qed.
End Toggle.

(** The gap beyond the entries. *)
Lemma pgap_top k (J : int) : (k.+1 < n)%N -> S`_0 <= J -> pgap n M k J = 0.
Proof.
move=> kn hJ; rewrite /pgap /gap.
have z i N : (i + N <= n)%N -> \sum_(q < N) ppart (ent M i q) J = 0.
  move=> h; apply: big1 => q _; have hq := ltn_ord q; rewrite /ppart ltNge.
  by rewrite (le_trans _ hJ) //; have /andP[] := @gt_bounds i q ltac:(lia).
by rewrite !z ?mul0rn ?subr0 //; lia.
Qed.
Lemma top_H k : (k.+1 < n)%N ->
  forall q, (q < n - k.+1)%N -> S`_0 < ent M k.+1 q -> S`_0 < ent M k q.+1.
Proof.
by move=> kn q qm; rewrite ltNge; have /andP[_ ->] := @gt_bounds k.+1 q ltac:(lia).
Qed.
End Gt.

(** ** The test of mul_rep *)
Section Rule.
Variables (S lam : weight).
Hypothesis vS : valid_S S.
Notation n := (size S).
Hypothesis slam : size lam = n.
Hypothesis vlam : forall i, (i.+1 < n)%N -> lam`_i.+1 <= lam`_i.

Definition ldiff (k : nat) : int := lam`_(n - k.+2) - lam`_(n - k.+1).
Lemma ldiff_ge0 k : (k.+1 < n)%N -> 0 <= ldiff k.
Proof.
by move=> kn; rewrite /ldiff subr_ge0 (_ : (n - k.+1 = (n - k.+2).+1)%N); [apply: vlam; lia | lia].
Qed.

Definition dd (M : pattern) (k i : nat) : int := ent M k i - ent M k.+1 i.
(** t_weight before the step (l, k). *)
Definition st (M : pattern) (l k p : nat) : int :=
  lam`_p + \sum_(i < l + (n - p.+1 < k)%N) dd M (n - p.+1) i.
Definition pass (M : pattern) (l k : nat) : bool :=
  (n <= k.+1)%N || (0 <= ldiff k + chk (ent M k) (ent M k.+1) (ent M k.+2) l).
Definition good (M : pattern) : bool := all (fun l => all (pass M l) (iota 0 (n - l))) (iota 0 n).

Section Loop.
Variable M : pattern.
Hypothesis gt : is_gt S M.
Lemma mul_loop_row l k c rest : (k + c = n - l)%N -> (l <= n)%N ->
  mul_loop n M ([seq (l, k) | k <- iota k c] ++ rest) (mkseq (st M l k) n) =
  if all (pass M l) (iota k c) then mul_loop n M rest (mkseq (st M l.+1 0) n) else None.
Proof.
elim: c k => [|c IH] k kc ln /=.
  congr mul_loop; apply: (@eq_from_nth _ 0); rewrite ?size_mkseq // => p pn; rewrite !nth_mkseq //.
  rewrite /st ltn0 addn0; congr (_ + _); case: ltnP => h; first by rewrite addn1.
  by rewrite addn0 big_ord_recr /= /dd !(gt_out gt) ?subrr ?addr0 //; lia.
have kn : (k < n)%N by lia.
have {}IH := IH k.+1 ltac:(lia) ln.
have -> : (if (k.+1 < size M)%N && (l < size (nth [::] M k.+1))%N then ent M k l - ent M k.+1 l else ent M k l) = dd M k l.
  rewrite /dd; case: ifP => // h; rewrite [ent M k.+1 l](_ : _ = 0) ?subr0 //.
  by rewrite /ent; move/negbT: h; rewrite negb_and -!leqNgt => /orP[] h; [rewrite (nth_default [::]) ?nth_nil | rewrite nth_default].
have tE : set_nth 0 (mkseq (st M l k) n) (n - k - 1) ((mkseq (st M l k) n)`_(n - k - 1) + dd M k l) = mkseq (st M l k.+1) n.
  apply: (@eq_from_nth _ 0); first by rewrite size_set_nth !size_mkseq; lia.
  move=> p; rewrite size_set_nth size_mkseq => hp; have pn : (p < n)%N by lia.
  rewrite nth_set_nth /= !nth_mkseq //; last by lia.
  case: eqP => [->|ne]; rewrite /st; last by have -> : (n - p.+1 < k.+1)%N = (n - p.+1 < k)%N by lia.
  have -> : (n - (n - k - 1).+1)%N = k by lia.
  by rewrite ltnn ltnSn addn0 addn1 big_ord_recr /= addrA.
rewrite tE; have -> : (1 <= n - k - 1)%N && ((mkseq (st M l k.+1) n)`_(n - k - 2) < (mkseq (st M l k.+1) n)`_(n - k - 1)) = ~~ pass M l k.
  rewrite /pass negb_or -ltNge -ltnNge; have -> : (1 <= n - k - 1)%N = (k.+1 < n)%N by lia.
  case: ltnP => //= kn'; rewrite !nth_mkseq; try lia.
  rewrite /st /ldiff /chk.
  have -> : (n - (n - k - 2).+1)%N = k.+1 by lia.
  have -> : (n - (n - k - 1).+1)%N = k by lia.
  have -> : (n - k.+2 = n - k - 2)%N by lia.
  have -> : (n - k.+1 = n - k - 1)%N by lia.
  rewrite ltnn ltnSn addn0 addn1 -/(dd M k) /dd.
  by move: (\sum_(i < l) _) (\sum_(i < l.+1) _) => x y; lia.
by case: (pass M l k) => //=.
Qed.
Lemma mul_loop_rows l c : (l + c = n)%N ->
  mul_loop n M (flatten [seq [seq (l, k) | k <- iota 0 (n - l)] | l <- iota l c]) (mkseq (st M l 0) n) =
  if all (fun l => all (pass M l) (iota 0 (n - l))) (iota l c) then Some (mkseq (st M n 0) n) else None.
Proof.
elim: c l => [|c IH] l lc /=; first by rewrite -lc addn0.
rewrite mul_loop_row; [|by lia..].
by case: (all (pass M l) _) => //=; apply: IH; lia.
Qed.
Lemma mul_loopE : mul_loop n M (unique_pairs n 0) lam =
  if good M then Some (mkseq (fun p => lam`_p + wt n M p) n) else None.
Proof.
have -> : lam = mkseq (st M 0 0) n.
  apply: (@eq_from_nth _ 0); rewrite ?size_mkseq // slam => p pn.
  by rewrite nth_mkseq // /st ltn0 big_ord0 addr0.
rewrite /unique_pairs subn0 mul_loop_rows // /good.
case: ifP => // _; congr Some; apply: (@eq_from_nth _ 0); rewrite ?size_mkseq // => p pn.
rewrite !nth_mkseq // /st !ltn0 !addn0 big_ord0 addr0 /wt /rsum; congr (_ + _).
by rewrite -sumrB; apply: eq_bigr => i _; rewrite /dd; have -> : (n - p.+1).+1 = (n - p)%N by lia.
Qed.

Lemma goodP : good M <-> forall k l, (k.+1 < n)%N -> (l <= n - k.+1)%N ->
  0 <= ldiff k + chk (ent M k) (ent M k.+1) (ent M k.+2) l.
Proof.
split=> [/allP g k l kn hl|g].
  have /g/allP/(_ k) : l \in iota 0 n by rewrite mem_iota; lia.
  by rewrite mem_iota /= add0n /pass => /(_ ltac:(lia)); rewrite leqNgt kn.
apply/allP => l; rewrite mem_iota => hl; apply/allP => k; rewrite mem_iota => hk; rewrite /pass.
by case: leqP => //= kn; apply: g => //; lia.
Qed.
Lemma good_gap k J : good M -> (k.+1 < n)%N -> 0 <= ldiff k + pgap n M k J.
Proof.
move=> /goodP g kn; apply: gap_chk => //; try exact: (gt_rows gt); try by apply: (gt_out gt); lia.
- by lia.
- exact: ldiff_ge0.
- by move=> l hl; apply: g.
Qed.
End Loop.

(** The first violation, from the top. *)
Definition viol (M : pattern) (s k : nat) : bool := ldiff k + pgap n M k (S`_0 - s%:Z) < 0.
Definition bound : nat := (absz (S`_0 - S`_n.-1)%R).+1.
Definition bad (M : pattern) : bool := has (fun s => has (viol M s) (iota 0 n.-1)) (iota 0 bound).
Definition vs (M : pattern) : nat := find (fun s => has (viol M s) (iota 0 n.-1)) (iota 0 bound).
Definition vk (M : pattern) : nat := find (viol M (vs M)) (iota 0 n.-1).
Definition phi (M : pattern) : pattern := ptog n (S`_0 - (vs M)%:Z) (vk M) M.

Lemma good_bad M : is_gt S M -> good M = ~~ bad M.
Proof.
move=> gt; apply/idP/idP => [g|].
  apply/hasPn => s _; apply/hasPn => k; rewrite mem_iota => hk.
  by rewrite /viol -leNgt; apply: good_gap => //; lia.
apply: contraR => ng.
have [k [l [kn hl lt]]] : exists k l, [/\ (k.+1 < n)%N, (l <= n - k.+1)%N & ldiff k + chk (ent M k) (ent M k.+1) (ent M k.+2) l < 0].
  case/allPn: ng => l; rewrite mem_iota => hl /allPn[k]; rewrite mem_iota => hk.
  by rewrite /pass negb_or -ltNge -ltnNge => /andP[kn lt]; exists k, l; split=> //; lia.
have [J [J1 J2 e]] : exists J, [/\ S`_n.-1 <= J, J <= S`_0 & chk (ent M k) (ent M k.+1) (ent M k.+2) l = pgap n M k J].
  have ok := gt_rows gt kn.
  move: hl; rewrite leq_eqVlt => /orP[/eqP e|hl]; last first.
    exists (ent M k.+1 l); have /andP[h1 h2] := @gt_bounds S M vS gt k.+1 l ltac:(lia).
    by split=> //; apply: (chk_gap ok _ hl); lia.
  exists S`_n.-1; have /andP[h1 h2] := @gt_bounds S M vS gt 0 n.-1 ltac:(lia).
  split=> //; first exact: le_trans h1 h2.
  rewrite e; apply: chk_gap_last => //; try by apply: (gt_out gt); lia.
    by lia.
  by move=> q hq; have /andP[] := @gt_bounds S M vS gt k q ltac:(lia).
apply/hasP; exists (absz (S`_0 - J)%R); first by rewrite mem_iota /bound; lia.
apply/hasP; exists k; first by rewrite mem_iota; lia.
rewrite /viol; have -> : S`_0 - (absz (S`_0 - J)%R)%:Z = J by lia.
by rewrite -e.
Qed.
End Rule.

Section Cancel.
Variables (S lam : weight).
Hypothesis vS : valid_S S.
Notation n := (size S).
Hypothesis slam : size lam = n.
Hypothesis vlam : forall i, (i.+1 < n)%N -> lam`_i.+1 <= lam`_i.
Notation viol := (viol S lam).
Notation vs := (vs S lam).
Notation vk := (vk S lam).
Notation phi := (phi S lam).
Notation bad := (bad S lam).

Lemma badP M : bad M -> [/\ (vs M < bound S)%N, (vk M < n.-1)%N, viol M (vs M) (vk M),
  forall s k, (s < vs M)%N -> (k < n.-1)%N -> ~~ viol M s k & forall k, (k < vk M)%N -> ~~ viol M (vs M) k].
Proof.
move=> b; have b1 := b; have b2 := b; rewrite /SunLR.bad in b1 b2.
have h1 : (vs M < bound S)%N by rewrite -[X in (_ < X)%N](size_iota 0) /SunLR.vs -has_find.
have h2 := nth_find 0%N b1; rewrite -/(vs M) nth_iota // add0n in h2.
have h3 : (vk M < n.-1)%N by rewrite -[X in (_ < X)%N](size_iota 0) /SunLR.vk -has_find.
split=> //.
- by have := nth_find 0%N h2; rewrite -/(vk M) nth_iota.
- move=> s k hs hk; have := before_find 0%N hs; rewrite nth_iota ?add0n; last by lia.
  by move/negbT/hasPn => /(_ k); rewrite mem_iota => -> //; lia.
- by move=> k hk; have := before_find 0%N hk; rewrite nth_iota ?add0n; [move=> -> | lia].
Qed.

Section One.
Variable M : pattern.
Hypothesis gt : is_gt S M.
Hypothesis bM : bad M.
Notation J := (S`_0 - (vs M)%:Z).
Lemma vkn : ((vk M).+1 < n)%N.
Proof. by have [_ h _ _ _] := badP bM; lia. Qed.
Lemma vs_gt0 : (0 < vs M)%N.
Proof.
rewrite lt0n; apply/eqP => e; have [_ _ + _ _] := badP bM; rewrite e /SunLR.viol subr0.
rewrite (pgap_top vS gt) ?vkn ?lexx // addr0 ltNge.
by rewrite (ldiff_ge0 vS slam vlam) ?vkn.
Qed.
Lemma first_step : ldiff S lam (vk M) + pgap n M (vk M) J = -1 /\
  (forall q, (q < n - (vk M).+1)%N -> J < ent M (vk M).+1 q -> J < ent M (vk M) q.+1).
Proof.
have [_ hk v h _] := badP bM; have s0 := vs_gt0.
have := h (vs M).-1 (vk M) ltac:(lia) hk; move: v; rewrite /SunLR.viol -leNgt.
have -> : S`_0 - (vs M).-1%:Z = J + 1 by lia.
move=> v1 v2; have [e H] := @gap_step _ _ _ _ J (gt_rows gt vkn) ltac:(have := vkn; lia) ltac:(rewrite /pgap in v1 v2; lia).
by split=> //; move: v1 v2 e; rewrite /pgap; lia.
Qed.
Lemma phi_gt : is_gt S (phi M).
Proof. by apply: (ptog_gt vS gt); apply: vkn. Qed.
Lemma phi_viol s k : (s <= vs M)%N -> viol (phi M) s k = viol M s k.
Proof. by move=> h; rewrite /SunLR.viol /SunLR.phi (ptog_pgap vS gt vkn) //; lia. Qed.
Lemma phi_vs : vs (phi M) = vs M.
Proof.
have [h1 h2 v h3 h4] := badP bM; apply: find_iota => //.
  by apply/hasP; exists (vk M); rewrite ?mem_iota // phi_viol.
move=> s hs; apply/hasPn => k; rewrite mem_iota => hk; rewrite phi_viol 1?ltnW //.
by apply: h3 => //; lia.
Qed.
Lemma phi_vk : vk (phi M) = vk M.
Proof.
have [h1 h2 v h3 h4] := badP bM; rewrite /SunLR.vk phi_vs; apply: find_iota; rewrite ?phi_viol //.
by move=> k hk; rewrite phi_viol // h4.
Qed.
Lemma phi_bad : bad (phi M).
Proof.
have [h1 h2 v h3 h4] := badP bM.
apply/hasP; exists (vs M); first by rewrite mem_iota.
by apply/hasP; exists (vk M); rewrite ?mem_iota // phi_viol.
Qed.
Lemma phiK : phi (phi M) = M.
Proof. by rewrite {1}/SunLR.phi phi_vs phi_vk (ptogK vS gt _ vkn). Qed.
(** The shifted weight of phi M is that of M with two neighbours exchanged. *)
Notation f := (fun (M : pattern) (p : nat) => lam`_p + wt n M p - p%:Z).
Notation m := (n - (vk M).+1)%N.
Lemma phi_wt p : (p < n)%N -> f (phi M) p = f M (if p == m then m.-1 else if p == m.-1 then m else p).
Proof.
move=> pn; have [e H] := first_step; have kn := vkn.
rewrite /SunLR.phi (wt_ptog vS gt vkn H pn).
have e1 : ldiff S lam (vk M) = lam`_m.-1 - lam`_m by rewrite /ldiff; congr (_ `_ _ - _); lia.
case: eqP => [->|ne]; first by move: e; rewrite e1; lia.
by case: eqP => [->|ne'] //; move: e; rewrite e1; lia.
Qed.
Lemma m_bounds : (0 < m < n)%N. Proof. by have := vkn; lia. Qed.
End One.

(** Alternating functions of the first n values. *)
Definition swap (m p : nat) : nat := if p == m then m.-1 else if p == m.-1 then m else p.
Variables (V : zmodType) (A : (nat -> int) -> V).
Hypothesis A_ext : forall f g : nat -> int, (forall p, (p < n)%N -> f p = g p) -> A f = A g.
Hypothesis A_alt : forall (f : nat -> int) m, (0 < m < n)%N -> A (fun p => f (swap m p)) = - A f.
Hypothesis V2 : forall x : V, x + x = 0 -> x = 0.

Theorem cancel_bad :
  \sum_(M <- gtp n S) A (fun p => lam`_p + wt n M p - p%:Z) =
  \sum_(M <- gtp n S | good S lam M) A (fun p => lam`_p + wt n M p - p%:Z).
Proof.
rewrite (bigID (good S lam)) /= [X in _ + X](_ : _ = 0) ?addr0 //.
rewrite -big_filter; apply: V2; set l := filter _ _.
have ul : uniq l by rewrite filter_uniq // gtp_uniq.
have lP M : M \in l -> is_gt S M /\ bad M.
  rewrite mem_filter => /andP[g /(mem_gtp _ vS) gt]; split=> //.
  by move: g; rewrite (good_bad vS slam vlam gt) negbK.
have Pl M : is_gt S M -> bad M -> M \in l.
  by move=> gt b; rewrite mem_filter (good_bad vS slam vlam gt) b; apply/(mem_gtp _ vS).
rewrite {2}(@big_invol _ _ _ phi) //; first last.
- by move=> M /lP[gt b]; apply: phiK.
- by move=> M /lP[gt b]; apply: Pl; [apply: phi_gt | apply: phi_bad].
rewrite -big_split /= big_seq big1 // => M /lP[gt b].
pose f p := lam`_p + wt n M p - p%:Z.
rewrite [X in _ + X](_ : _ = A (fun p => f (swap (n - (vk M).+1) p))).
  by rewrite (A_alt f (m_bounds b)) subrr.
by apply: A_ext => p pn; rewrite (phi_wt gt b).
Qed.
End Cancel.
