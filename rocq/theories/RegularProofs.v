(** RegularProofs: the regular representation of a multiplication table, and products of
    permutation matrices. *)
From mathcomp Require Import all_ssreflect all_fingroup all_algebra.
From mathcomp.zify Require Import zify.
From Verif Require Import Base Nd NdProofs Reps Perm PermProofs Finite FiniteProofs.

Set Implicit Arguments.
Unset Strict Implicit.
Unset Printing Implicit Defensive.

Import GRing.Theory Num.Theory.
Local Open Scope ring_scope.

(** Spec: t is the multiplication table of a group on {0..n-1} with identity e. *)
Record group_table (n e : nat) (t : nat -> nat -> nat) : Prop := GroupTable {
  gt_e : (e < n)%N;
  gt_closed : forall i j, (i < n)%N -> (j < n)%N -> (t i j < n)%N;
  gt_assoc : forall i j k, (i < n)%N -> (j < n)%N -> (k < n)%N -> t (t i j) k = t i (t j k);
  gt_1l : forall i, (i < n)%N -> t e i = i;
  gt_1r : forall i, (i < n)%N -> t i e = i;
  gt_inv : forall i, (i < n)%N -> exists2 j, (j < n)%N & t j i = e }.

Section Reg.
Variable C : numClosedFieldType.
Notation nd := (nd C).

Lemma regularP n t :
  (forall i j, (i < n)%N -> (j < n)%N -> (t i j < n)%N) ->
  exists D : nd, [/\ regular_representation C n n t = Ok D, shape D = [:: n; n; n] &
    forall g x h, (g < n)%N -> (h < n)%N -> get D [:: g; x; h] = (x == t g h)%:R].
Proof.
move=> ht; rewrite /regular_representation eqxx /=.
set cells := map _ _.
have hc c : c \in cells -> exists g h, [/\ (g < n)%N, (h < n)%N & c = (g, t g h, h)].
  move=> /mapP[[i j] /allpairsP[[i' j'] [/= hi hj [-> ->]]] ->].
  move: hi hj; rewrite !mem_iota !add0n; case: (n =P 1%N) => [->|_] hi hj.
    exists 0%N, 0%N; split=> //; do 2!congr pair; congr t; lia.
  by exists i', j'.
have hc2 g h : (g < n)%N -> (h < n)%N -> (g, t g h, h) \in cells.
  move=> hg hh; apply/mapP; exists (g, h).
    apply/allpairsP; exists (g, h); split=> //=; rewrite mem_iota //.
    by case: ifP.
  case: (n =P 1%N) => // hn1; have [-> ->] : g = 0%N /\ h = 0%N by lia.
  by [].
have -> : all (fun c : nat * nat * nat => c.1.2 < n)%N cells.
  by apply/allP => c /hc[g [h [hg hh ->]]] /=; exact: ht.
eexists; split=> //.
  by rewrite (@shape_foldl_set C _ (fun c : nat * nat * nat => [:: c.1.1; c.1.2; c.2])).
move=> g x h hg hh; rewrite (@get_foldl_set C _ (fun c : nat * nat * nat => [:: c.1.1; c.1.2; c.2])) /=.
have -> : has (fun c : nat * nat * nat => [:: g; x; h] == [:: c.1.1; c.1.2; c.2]) cells = (x == t g h).
  apply/hasP/eqP => [[c /hc[g' [h' [_ _ ->]]] /eqP[-> -> ->]] // |->].
  by exists (g, t g h, h); rewrite ?hc2 /=.
by case: eqP.
Qed.

Lemma regular_range n t g h : (g < n)%N -> (h < n)%N -> (n <= t g h)%N ->
  regular_representation C n n t = Err IndexError.
Proof.
move=> hg hh hn; rewrite /regular_representation eqxx /=; case: ifP => // /negbFE /allP H.
suff /H : (g, t g h, h) \in [seq (let: (i, j) := ij in
                     ((if n == 1%N then 0%N else i), t i (if n == 1%N then 0%N else j), (if n == 1%N then 0%N else j)))
               | ij <- allpairs pair (iota 0 n) (iota 0 (if n == 1%N then n else n))] by rewrite /= ltnNge hn.
apply/mapP; exists (g, h).
  apply/allpairsP; exists (g, h); split=> //=; rewrite mem_iota //.
  by case: ifP.
case: (n =P 1%N) => // hn1; have [-> ->] : g = 0%N /\ h = 0%N by lia.
by [].
Qed.

Lemma regular_shape n m t : m <> n -> m <> 1%N -> n <> 1%N ->
  regular_representation C n m t = Err IndexError.
Proof. by rewrite /regular_representation; do 3![case: eqP => //]. Qed.

Section Table.
Variables (n e : nat) (t : nat -> nat -> nat).
Hypothesis gt : group_table n e t.
Variable D : nd.
Hypothesis eD : regular_representation C n n t = Ok D.
Notation R := (mx3 n n D).

Lemma regE (g : nat) (x h : 'I_n) : (g < n)%N -> R g x h = (x == t g h :> nat)%:R.
Proof.
move=> hg; have [D' [e' _ h']] := regularP (gt_closed gt).
by move: e'; rewrite eD => -[e']; rewrite e' mxE h'.
Qed.
Lemma tl_inj g x y : (g < n)%N -> (x < n)%N -> (y < n)%N -> t g x = t g y -> x = y.
Proof.
move=> hg hx hy h; have [j hj hje] := gt_inv gt hg.
by rewrite -[x](gt_1l gt) // -[y](gt_1l gt) // -hje !(gt_assoc gt) // h.
Qed.
Lemma reg_mul g h : (g < n)%N -> (h < n)%N -> R g *m R h = R (t g h).
Proof.
move=> hg hh; apply/matrixP => x k; rewrite mxE regE ?(gt_closed gt) //.
have hk := gt_closed gt hh (ltn_ord k).
rewrite (bigD1 (Ordinal hk)) //= !regE //= eqxx mulr1 big1 ?addr0 => [|j hj].
  by rewrite (gt_assoc gt).
by rewrite !regE // (_ : (j == t h k :> nat) = false) ?mulr0 //; apply: negbTE.
Qed.
Lemma reg_1 : R e = 1%:M.
Proof. by apply/matrixP => x k; rewrite regE ?(gt_e gt) // (gt_1l gt) // mxE. Qed.
Lemma reg_faithful g h : (g < n)%N -> (h < n)%N -> R g = R h -> g = h.
Proof.
move=> hg hh /matrixP /(_ (Ordinal hg) (Ordinal (gt_e gt))).
rewrite !regE //= !(gt_1r gt) // eqxx; case: (g =P h) => // _ /eqP.
by rewrite oner_eq0.
Qed.
Lemma reg_perm g : (g < n)%N -> is_perm_mx (R g).
Proof.
move=> hg.
pose f (x : 'I_n) : 'I_n := Ordinal (gt_closed gt hg (ltn_ord x)).
have fi : injective f by move=> x y [] /tl_inj h; apply: val_inj; exact: h.
apply/is_perm_mxP; exists (perm fi)^-1%g; apply/matrixP => x k; rewrite regE // !mxE.
have -> : ((perm fi)^-1%g x == k) = (x == perm fi k) by rewrite -(inj_eq (@perm_inj _ (perm fi))) permKV.
by rewrite permE.
Qed.
Lemma reg_trace g : (g < n)%N -> \tr (R g) = if g == e then n%:R else 0.
Proof.
move=> hg; rewrite /mxtrace; case: eqP => [->|hge].
  by under eq_bigr => i _ do rewrite regE ?(gt_e gt) // (gt_1l gt) // eqxx; rewrite sumr_const card_ord.
apply: big1 => i _; rewrite regE //; case: eqP => // h; case: hge.
have [j hj hje] := gt_inv gt (ltn_ord i).
(* cancel i on the right *)
have [k hk hkj] := gt_inv gt hj.
have hij : t i j = e.
  rewrite -[t i j](gt_1l gt) ?(gt_closed gt) // -hkj -(gt_assoc gt) ?(gt_closed gt) //.
  by rewrite (gt_assoc gt hk hj) // hje (gt_1r gt).
by rewrite -[g](gt_1r gt) // -hij -(gt_assoc gt) // -h.
Qed.
End Table.
End Reg.

Section Group.
(** The table of a finite group, its elements numbered by enum_rank. *)
Variable gT : finGroupType.
Definition elt (i : nat) : gT := nth 1%g (enum gT) i.
Definition num (x : gT) : nat := enum_rank x.
Definition table (i j : nat) : nat := num (elt i * elt j)%g.
Lemma num_lt x : (num x < #|gT|)%N. Proof. exact: ltn_ord. Qed.
Lemma elt_num x : elt (num x) = x.
Proof. by rewrite /elt /num -[RHS]enum_rankK (enum_val_nth 1%g). Qed.
Lemma num_elt i : (i < #|gT|)%N -> num (elt i) = i.
Proof.
move=> hi; rewrite /num /elt.
have -> : nth 1%g (enum gT) i = enum_val (Ordinal hi) by rewrite (enum_val_nth 1%g).
by rewrite enum_valK.
Qed.
Lemma table_group : group_table #|gT| (num 1%g) table.
Proof.
split.
- exact: num_lt.
- by move=> *; exact: num_lt.
- by move=> i j k hi hj hk; rewrite /table !elt_num mulgA.
- by move=> i hi; rewrite /table elt_num mul1g num_elt.
- by move=> i hi; rewrite /table elt_num mulg1 num_elt.
- by move=> i hi; exists (num (elt i)^-1%g); rewrite ?num_lt // /table elt_num mulVg.
Qed.
Lemma table_num x y : table (num x) (num y) = num (x * y)%g.
Proof. by rewrite /table !elt_num. Qed.
Lemma num_inj : injective num.
Proof. exact: can_inj elt_num. Qed.
End Group.

Section Compose.
Variable C : numClosedFieldType.
Lemma permutation_matrix_pseq n (s : 'S_n) : exists M : nd C,
  [/\ permutation_matrix C (pseq s) = Ok M, shape M = [:: n; n] & mx2 n n M = perm_mx (s^-1)%g].
Proof.
have hp : all (fun i => i < size (pseq s))%N (pseq s).
  by apply/allP => i; rewrite -(is_perm_mem _ (pseq_perm s)).
have [M [e sM gM]] := permutation_matrixP C hp; rewrite size_pseq in sM gM.
exists M; split=> //; apply/matrixP => i k; rewrite !mxE gM // nth_pseq.
by rewrite -(inj_eq (@perm_inj _ s)) permKV.
Qed.
End Compose.
