(** LexOrder: Python's lexicographic order on tuples is a total order, hence
    sorting a duplicate-free list gives a canonical form of the set. *)
From mathcomp Require Import all_ssreflect all_algebra.
From Verif Require Import Base Perm RedPerm.

Set Implicit Arguments.
Unset Strict Implicit.
Unset Printing Implicit Defensive.
Import GRing.Theory Num.Theory.

Section Lex.
Variables (T : eqType) (le : rel T).
Hypothesis le_total : total le.
Hypothesis le_trans : transitive le.
Hypothesis le_anti : antisymmetric le.

Lemma lexle_total : total (lexle le).
Proof.
elim=> [|x s IH] [|y t] //=; rewrite eq_sym; case: eqP => [_|_]; [exact: IH | exact: le_total].
Qed.

Lemma lexle_trans : transitive (lexle le).
Proof.
move=> t s u; elim: s t u => [|x s IH] [|y t] [|z u] //=.
case: (x =P y) => [->|nxy].
  by case: (y =P z) => // _; apply: IH.
case: (y =P z) => [<-|nyz]; first by move/eqP/negbTE: nxy => ->.
case: (x =P z) => [E|_] lxy lyz; last exact: le_trans lyz.
by case: nxy; apply: le_anti; rewrite lxy E lyz.
Qed.

Lemma lexle_anti : antisymmetric (lexle le).
Proof.
elim=> [|x s IH] [|y t] //=; rewrite [y == x]eq_sym; case: eqP => [->|ne] H; first by rewrite (IH t).
by case: ne; apply: le_anti.
Qed.
End Lex.

Lemma leq_tup_total : total (lexle leq). Proof. exact: lexle_total leq_total. Qed.
Lemma leq_tup_trans : transitive (lexle leq). Proof. exact: lexle_trans leq_trans anti_leq. Qed.
Lemma leq_tup_anti : antisymmetric (lexle leq). Proof. exact: lexle_anti anti_leq. Qed.

Lemma sp_le_total : total sp_le.
Proof.
move=> [a s] [b t]; rewrite /sp_le /= eq_sym; case: eqP => [_|_]; first exact: leq_tup_total.
exact: Order.TotalTheory.le_total.
Qed.

Lemma sp_le_trans : transitive sp_le.
Proof.
move=> [b t] [a s] [c u]; rewrite /sp_le /=.
case: (a =P b) => [->|nab].
  by case: (b =P c) => // _; apply: leq_tup_trans.
case: (b =P c) => [<-|nbc]; first by move/eqP/negbTE: nab => ->.
case: (a =P c) => [E|_] lab lbc; last exact: Order.POrderTheory.le_trans lbc.
by case: nab; apply: Order.POrderTheory.le_anti; rewrite lab E lbc.
Qed.

Lemma sp_le_anti : antisymmetric sp_le.
Proof.
move=> [a s] [b t]; rewrite /sp_le /= [b == a]eq_sym; case: eqP => [->|ne] H.
  by rewrite (leq_tup_anti H).
by case: ne; apply: Order.POrderTheory.le_anti.
Qed.

Lemma sps_le_total : total sps_le. Proof. exact: lexle_total sp_le_total. Qed.
Lemma sps_le_trans : transitive sps_le. Proof. exact: lexle_trans sp_le_trans sp_le_anti. Qed.
Lemma sps_le_anti : antisymmetric sps_le. Proof. exact: lexle_anti sp_le_anti. Qed.
Lemma spss_le_total : total spss_le. Proof. exact: lexle_total sps_le_total. Qed.
Lemma spss_le_trans : transitive spss_le. Proof. exact: lexle_trans sps_le_trans sps_le_anti. Qed.
Lemma spss_le_anti : antisymmetric spss_le. Proof. exact: lexle_anti sps_le_anti. Qed.

Lemma fset1_eq s t : s =i t -> fset1 s = fset1 t.
Proof.
move=> E; apply/(perm_sortP sp_le_total sp_le_trans sp_le_anti).
by apply: uniq_perm; rewrite ?undup_uniq // => x; rewrite !mem_undup.
Qed.

Lemma fset2_eq s t : s =i t -> fset2 s = fset2 t.
Proof.
move=> E; apply/(perm_sortP sps_le_total sps_le_trans sps_le_anti).
by apply: uniq_perm; rewrite ?undup_uniq // => x; rewrite !mem_undup.
Qed.

Lemma mem_fset1 s : fset1 s =i s. Proof. by move=> x; rewrite mem_sort mem_undup. Qed.
Lemma mem_fset2 s : fset2 s =i s. Proof. by move=> x; rewrite mem_sort mem_undup. Qed.
Lemma uniq_fset1 s : uniq (fset1 s). Proof. by rewrite sort_uniq undup_uniq. Qed.
Lemma uniq_fset2 s : uniq (fset2 s). Proof. by rewrite sort_uniq undup_uniq. Qed.
Lemma sort_fset1 s : sort sp_le (fset1 s) = fset1 s.
Proof. by apply: sorted_sort; [exact: sp_le_trans | apply: sort_sorted; exact: sp_le_total]. Qed.
Lemma sort_fset2 s : sort sps_le (fset2 s) = fset2 s.
Proof. by apply: sorted_sort; [exact: sps_le_trans | apply: sort_sorted; exact: sps_le_total]. Qed.
