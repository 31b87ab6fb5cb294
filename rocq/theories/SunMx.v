(** SunMx: the arrays of upper_ladder_matrices, lower_ladder_matrices and Jz_matrices. *)
From Coq Require Import ZArith String Ascii.
From Verif Require Import McRing.
From mathcomp Require Import all_ssreflect all_algebra.
From mathcomp.zify Require Import zify.
From Verif Require Import Base Nd NdProofs Reps Sun SunDim SunRow SunLadder.

Set Implicit Arguments.
Unset Strict Implicit.
Unset Printing Implicit Defensive.

Import GRing.Theory Num.Theory Order.Theory.
Local Open Scope ring_scope.

Lemma size_flat_unif (T : Type) (ss : seq (seq T)) c : all (fun s => size s == c) ss ->
  size (flatten ss) = (size ss * c)%N.
Proof. by elim: ss => //= s ss IH /andP[/eqP e h]; rewrite size_cat e IH // mulSn. Qed.
Lemma nth_flat_unif (T : Type) (x0 : T) (ss : seq (seq T)) c i k : all (fun s => size s == c) ss ->
  (k < c)%N -> (i < size ss)%N -> nth x0 (flatten ss) (i * c + k) = nth x0 (nth [::] ss i) k.
Proof.
elim: ss i => //= s ss IH [|i] /andP[/eqP e h] hk hi; rewrite nth_cat e ?mul0n ?add0n ?hk //.
by rewrite mulSn -addnA ltnNge leq_addr /= addKn IH.
Qed.

Lemma nth_diffs (T R : Type) (f : T * T -> R) (x0 : T) (y0 : R) (s : seq T) i : (i.+1 < size s)%N ->
  nth y0 [seq f p | p <- zip s (behead s)] i = f (nth x0 s i, nth x0 s i.+1).
Proof.
move=> h; have hz : (i < size (zip s (behead s)))%N by rewrite size_zip size_behead; lia.
by rewrite (nth_map (x0, x0)) // nth_zip_cond hz nth_behead.
Qed.
Lemma nth_diffs' (T R : Type) (f : T * T -> R) (x0 : T) (y0 : R) (s : seq T) i : (i.+1 < size s)%N ->
  nth y0 [seq f p | p <- zip (behead s) s] i = f (nth x0 s i.+1, nth x0 s i).
Proof.
move=> h; have hz : (i < size (zip (behead s) s))%N by rewrite size_zip size_behead; lia.
by rewrite (nth_map (x0, x0)) // nth_zip_cond hz nth_behead.
Qed.

Section Mx.
Variable C : numClosedFieldType.
Notation nd := (nd C).

Lemma np_array3E a b c (L : seq (seq (seq C))) (f : nat -> nat -> nat -> C) :
  L = [seq [seq [seq f i j k | k <- iota 0 c] | j <- iota 0 b] | i <- iota 0 a] ->
  exists2 r, np_array3 a b c L = Ok r & shape r = [:: a; b; c] /\
    forall i j k, (i < a)%N -> (j < b)%N -> (k < c)%N -> get r [:: i; j; k] = f i j k.
Proof.
move=> ->; rewrite /np_array3.
set fl := flatten (map flatten _).
have u1 : all (fun s => size s == (b * c)%N) (map flatten [seq [seq [seq f i j k | k <- iota 0 c] | j <- iota 0 b] | i <- iota 0 a]).
  apply/allP=> _ /mapP[_ /mapP[i _ ->] ->]; rewrite (@size_flat_unif _ _ c) ?size_map ?size_iota //.
  by apply/allP=> _ /mapP[j _ ->]; rewrite size_map size_iota.
rewrite (size_flat_unif u1) !size_map size_iota eqxx; eexists; first by reflexivity.
split=> // i j k hi hj hk; rewrite /= /nprod /= !muln1 addn0.
have hjk : (j * c + k < b * c)%N.
  by apply: (@leq_trans (j * c + c)); rewrite ?ltn_add2l // -mulSnr leq_mul2r hj orbT.
rewrite (nth_flat_unif _ u1) ?size_map ?size_iota //.
rewrite (nth_map [::]) ?size_map ?size_iota // (nth_map 0%N) ?size_iota // nth_iota // add0n.
rewrite (@nth_flat_unif _ _ _ c) ?size_map ?size_iota //; last first.
  by apply/allP=> _ /mapP[? _ ->]; rewrite size_map size_iota.
by rewrite (nth_map 0%N) ?size_iota // nth_iota // add0n (nth_map 0%N) ?size_iota // nth_iota // add0n.
Qed.

Section S.
Variable S : weight.
Hypothesis vS : valid_S S.
Hypothesis S0 : 0 <= last 0 S.
Let n := size S.
Let G := gtp n S.
Let d := size G.

Lemma map_patE (T : Type) (f : pattern -> T) : map f G = [seq f (pat S i) | i <- iota 0 d].
Proof.
rewrite -[G in LHS](mkseq_nth [::]) -map_comp; exact: eq_map.
Qed.
Lemma ladder_matricesE ladder (g : nat -> pattern -> pattern -> C) :
  (forall l N M, (l.+1 < n)%N -> M \in G -> N \in G -> ladder l N M = Ok (g l N M)) ->
  exists2 r, ladder_matrices ladder S = Ok r & shape r = [:: n.-1; d; d] /\
    forall l i j, (l < n.-1)%N -> (i < d)%N -> (j < d)%N -> get r [:: l; i; j] = g l (pat S i) (pat S j).
Proof using vS. clear S0.
move=> h; rewrite /ladder_matrices (dimSE vS) subn1.
rewrite (@mapR_map_in _ _ _ (fun l => [seq [seq g l (pat S i) (pat S j) | j <- iota 0 d] | i <- iota 0 d])) => [|l].
  rewrite /= -/d; apply: (@np_array3E _ _ _ _ (fun l i j => g l (pat S i) (pat S j))).
  by [].
rewrite mem_iota add0n => /andP[_ hl]; rewrite (S_to_MsE vS) /= -/n -/G.
have hl' : (l.+1 < n)%N by rewrite -ltn_predRL.
rewrite (@mapR_map_in _ _ _ (fun N => [seq g l N (pat S j) | j <- iota 0 d])) => [|N hN].
  by congr Ok; rewrite (map_patE (fun N => [seq g l N (pat S j) | j <- iota 0 d])).
by rewrite (@mapR_map_in _ _ _ (g l N)) => [|M hM]; [rewrite map_patE | apply: h].
Qed.
Lemma upper_matricesE : exists2 U, upper_ladder_matrices C S = Ok U &
  shape U = [:: n.-1; d; d] /\ forall l, (l < n.-1)%N -> mx3 d d U l = Jp S C l.
Proof using vS S0.
have [|U e [sh h]] := @ladder_matricesE (upper_ladder C) (fun l N M => jel S C l N M).
  by move=> l N M hl hM hN; apply: upper_ladderE.
by exists U => //; split=> // l hl; apply/matrixP=> i j; rewrite !mxE h.
Qed.
Lemma lower_matricesE : exists2 U, lower_ladder_matrices C S = Ok U &
  shape U = [:: n.-1; d; d] /\ forall l, (l < n.-1)%N -> mx3 d d U l = (Jp S C l)^T.
Proof using vS S0.
have [|U e [sh h]] := @ladder_matricesE (lower_ladder C) (fun l N M => jel S C l M N).
  by move=> l N M hl hM hN; apply: lower_ladderE.
by exists U => //; split=> // l hl; apply/matrixP=> i j; rewrite !mxE h.
Qed.

Lemma nth_sigma M i : M \in G -> (M_to_sigma M)`_i = sg S i M.
Proof using vS. clear S0.
move=> /(GP vS)[[s1 s2] _ _]; rewrite /M_to_sigma nth_cat size_map s1 /sg -/n.
case: ltnP => hi; last first.
  have -> : (n - i = 0)%N by lia.
  by rewrite big_ord0; case: (i - n)%N => [|[]].
by rewrite (nth_map [::]) ?s1 // (big_nth 0) big_mkord s2.
Qed.
Lemma size_sigma M : M \in G -> size (M_to_sigma M) = n.+1.
Proof using vS. clear S0. by move=> /(GP vS)[[s1 s2] _ _]; rewrite size_cat size_map s1 addn1. Qed.
Lemma size_p_weight M : M \in G -> size (M_to_p_weight M) = n.
Proof using vS. clear S0.
by move=> h; rewrite size_rev size_map size_zip size_behead size_rev size_sigma //; lia.
Qed.
Lemma nth_p_weight M i : M \in G -> (i < n)%N -> (M_to_p_weight M)`_i = sg S i M - sg S i.+1 M.
Proof using vS. clear S0.
move=> h hi; have := size_p_weight h; rewrite size_rev => sz.
rewrite nth_rev sz // (nth_diffs _ 0) /= ?size_rev ?size_sigma //; last by lia.
rewrite !nth_rev ?size_sigma //; try lia.
by rewrite -!nth_sigma //; congr (_`__ - _`__); lia.
Qed.
Lemma z_weightE M l : M \in G -> (l < n.-1)%N -> nth 0 (M_to_z_weight C M) l = (wz S l M)%:~R / 2%:R.
Proof using vS. clear S0.
move=> h hl; rewrite /M_to_z_weight.
have sz : size (zip (behead (rev (M_to_p_weight M))) (rev (M_to_p_weight M))) = n.-1.
  by rewrite size_zip size_behead size_rev size_p_weight //; lia.
have hw : ((n.-1 - l.+1).+1 < size (rev (M_to_p_weight M)))%N by rewrite size_rev size_p_weight //; lia.
rewrite nth_rev size_map sz // (nth_diffs' _ 0) //=.
rewrite [(rev _)`__]nth_rev ?[(rev _)`__.+1]nth_rev ?size_p_weight //; try lia.
have -> : (n - (n.-1 - l.+1).+1 = l.+1)%N by lia.
have -> : (n - (n.-1 - l.+1).+2 = l)%N by lia.
have l1 : (l.+1 < n)%N by lia.
have l2 : (l < n)%N by lia.
rewrite (nth_p_weight h l1) (nth_p_weight h l2); congr (_%:~R / _); rewrite /wz.
move: (sg _ l.+1 M) (sg _ l M) (sg _ l.+2 M) => x y z; lia.
Qed.
Lemma Jz_matricesE : exists2 U, Jz_matrices C S = Ok U &
  shape U = [:: n.-1; d; d] /\ forall l, (l < n.-1)%N -> mx3 d d U l = Jz S C l.
Proof using vS. clear S0.
rewrite /Jz_matrices (dimSE vS) /= (S_to_MsE vS) /= ltnn /= subn1; eexists; first by reflexivity.
split=> // l hl; apply/matrixP=> i j; rewrite !mxE /= ltn_ord andbT -val_eqE /=.
case: ifP => _; last by rewrite mulr0n.
by rewrite mulr1n z_weightE // mem_nth.
Qed.
End S.
End Mx.
