(** Properties C42, C44, C45: labels of the tabulated irreps. *)
From Coq Require Import ZArith.
From mathcomp Require Import all_ssreflect all_algebra.
From Verif Require Import Base Labels LabelProofs.

Set Implicit Arguments.
Unset Strict Implicit.
Unset Printing Implicit Defensive.

Import GRing.Theory Num.Theory.
Local Open Scope ring_scope.

(** ** C42: selection rules *)
Theorem C42_su2 : selection_rule nonneg su2_dim su2_mul.
Proof. exact: su2_selection. Qed.
Theorem C42_su2_members j1 j2 L j : 0 <= j1 -> 0 <= j2 -> su2_mul j1 j2 = Ok L ->
  (j \in L) = triangle2 j1 j2 j.
Proof. by move=> h1 h2; rewrite su2_mulE => -[<-]; apply: mem_range2. Qed.
Theorem C42_so3 : selection_rule nonneg so3_dim (fun a b => Ok (so3_mul a b)).
Proof. exact: so3_selection. Qed.
Theorem C42_so3_members l1 l2 l : 0 <= l1 -> 0 <= l2 -> (l \in so3_mul l1 l2) = triangle l1 l2 l.
Proof. exact: mem_range1. Qed.
Theorem C42_o3 : selection_rule valid_o3 o3_dim (fun a b => Ok (o3_mul a b)).
Proof. exact: o3_selection. Qed.
Theorem C42_o3_members a b x : valid_o3 a -> valid_o3 b ->
  (x \in o3_mul a b) = triangle a.1 b.1 x.1 && (x.2 == a.2 * b.2).
Proof.
move=> /andP[a1 _] /andP[b1 _]; rewrite -mem_range1 //.
by apply/mapP/andP => [[l hl ->]|[hl /eqP e]] //; exists x.1 => //; rewrite -e; case: x {hl e}.
Qed.
Theorem C42_z2 : selection_rule valid_z2 z2_dim (fun a b => Ok (z2_mul a b)).
Proof. exact: z2_selection. Qed.
Theorem C42_sl2c : selection_rule valid_sl2c sl2c_dim sl2c_mul.
Proof. exact: sl2c_selection. Qed.
Theorem C42_sl2c_members a b L x : valid_sl2c a -> valid_sl2c b -> sl2c_mul a b = Ok L ->
  (x \in L) = triangle2 a.1 b.1 x.1 && triangle2 a.2 b.2 x.2.
Proof. by move=> ha hb; rewrite sl2c_mulE => -[<-]; apply: mem_sl2c_range. Qed.
Theorem C42_so13 : selection_rule valid_so13 so13_dim so13_mul.
Proof. exact: so13_selection. Qed.
Theorem C42_so13_members a b L x : valid_so13 a -> valid_so13 b -> so13_mul a b = Ok L ->
  (x \in L) = triangle2 a.1 b.1 x.1 && triangle2 a.2 b.2 x.2.
Proof. by move=> ha hb; rewrite so13_mulE // => -[<-]; apply: mem_sl2c_range; apply: so13_sl2c. Qed.
(** The product of any two classes which satisfy the rule. *)
Theorem C42_product (I1 I2 : eqType) (v1 : pred I1) (v2 : pred I2) (d1 : I1 -> int) (d2 : I2 -> int) mul1 mul2 :
  selection_rule v1 d1 mul1 -> selection_rule v2 d2 mul2 ->
  selection_rule (fun x => v1 x.1 && v2 x.2) (prod_dim d1 d2) (prod_mul mul1 mul2).
Proof. exact: prod_selection. Qed.
(** SU2Real: the list is the right one, but the dimensions balance exactly when the
    two spins are not both half-integers (the real irreps of half-integer spin have
    twice the dimension, and their products contain every irrep four times). *)
Theorem C42_su2real_members t1 t2 L t : nonneg t1 -> nonneg t2 -> su2r_mul t1 t2 = Ok L ->
  (t \in L) = triangle2 t1 t2 t.
Proof. by move=> h1 h2; rewrite su2r_mulE // => -[<-]; apply: su2r_mem. Qed.
Theorem C42_su2real_balance t1 t2 L : nonneg t1 -> nonneg t2 -> su2r_mul t1 t2 = Ok L ->
  (\sum_(t <- L) su2r_dim t == su2r_dim t1 * su2r_dim t2) = ~~ (odd (absz t1) && odd (absz t2)).
Proof. by move=> h1 h2; rewrite su2r_mulE // => -[<-]; apply: su2r_balance. Qed.
Theorem C42_su2real_refuted : ~ selection_rule nonneg su2r_dim su2r_mul.
Proof.
move=> h; have [L [e _ _ _]] := h 1 1 isT isT.
by move/eqP; rewrite (@C42_su2real_balance 1 1 L).
Qed.
Example C42_example : su2_mul 3 2 = Ok [:: 1; 3; 5] /\ o3_mul (1, -1) (2, 1) = [:: (1, -1); (2, -1); (3, -1)]
  /\ so13_mul (1, 1) (1, 1) = Ok [:: (0, 0); (0, 2); (2, 0); (2, 2)]
  /\ prod_mul su2_mul (fun a b => Ok (z2_mul a b)) (1, -1) (1, 1) = Ok [:: (0, -1); (2, -1)].
Proof. by []. Qed.

(** ** C44: iterators *)
Theorem C44_su2 : enumerates nonneg su2_lt 0 su2_iter.
Proof. exact: su2_enum. Qed.
Theorem C44_so3 : enumerates nonneg so3_lt 0 (fun n => Ok (so3_iter n)).
Proof. exact: so3_enum. Qed.
Theorem C44_su2real : enumerates nonneg su2r_lt 0 su2r_iter.
Proof. exact: su2r_enum. Qed.
Theorem C44_o3 : enumerates valid_o3 o3_lt (0, 1) (fun n => Ok (o3_iter n)).
Proof. exact: o3_enum. Qed.
Theorem C44_z2 : [/\ pairwise z2_lt z2_iter, uniq z2_iter, ohead z2_iter = Some 1 & z2_iter =i valid_z2].
Proof. by have [h1 h2 h3] := z2_enum. Qed.
Theorem C44_sl2c : enumerates valid_sl2c sl2c_lt (0, 0) sl2c_iter.
Proof. exact: sl2c_enum. Qed.
Theorem C44_so13 : enumerates valid_so13 so13_lt (0, 0) so13_iter.
Proof. exact: so13_enum. Qed.
Theorem C44_su2_ : enumerates (valid_sun 2) sun_lt [:: 0; 0] su2__iter.
Proof. exact: su2__enum. Qed.
Theorem C44_su3 : enumerates (valid_sun 3) sun_lt [:: 0; 0; 0] su3_iter.
Proof. exact: su3_enum. Qed.
Theorem C44_su4 : enumerates (valid_sun 4) sun_lt [:: 0; 0; 0; 0] su4_iter.
Proof. exact: su4_enum. Qed.
Example C44_example : so13_iter 2 = Ok [:: (0, 0); (0, 2); (1, 1); (2, 0)]
  /\ o3_iter 2 = [:: (0, 1); (0, -1); (1, -1); (1, 1)]
  /\ su3_iter 2 = Ok [:: [:: 0; 0; 0]; [:: 1; 0; 0]; [:: 1; 1; 0]].
Proof. by []. Qed.

(** ** C45: __lt__ *)
Theorem C45_su2 : strict_total predT su2_lt.
Proof. exact: ltz_total. Qed.
Theorem C45_so3 : strict_total predT so3_lt.
Proof. exact: ltz_total. Qed.
Theorem C45_su2real : strict_total predT su2r_lt.
Proof. exact: ltz_total. Qed.
Theorem C45_o3 : strict_total predT o3_lt.
Proof. exact: o3_lt_total. Qed.
Theorem C45_z2 : strict_total valid_z2 z2_lt.
Proof. exact: z2_total. Qed.
Theorem C45_sl2c : strict_total predT sl2c_lt.
Proof. exact: sl2c_lt_total. Qed.
Theorem C45_so13 : strict_total predT so13_lt.
Proof. exact: sl2c_lt_total. Qed.
(** Tuples of any lengths (SUN compares the tuples S). *)
Theorem C45_sun : strict_total predT sun_lt.
Proof. exact: lts_total. Qed.
Theorem C45_product (I1 I2 : eqType) (v1 : pred I1) (v2 : pred I2) lt1 lt2 :
  strict_total v1 lt1 -> strict_total v2 lt2 ->
  strict_total (fun x => v1 x.1 && v2 x.2) (prod_lt lt1 lt2).
Proof. exact: prod_lt_total. Qed.
Example C45_example : o3_lt (1, -1) (1, 1) && ~~ o3_lt (1, 1) (1, -1) && sl2c_lt (0, 2) (1, 1)
  && sun_lt [:: 2; 1; 0] [:: 2; 2; 0] && prod_lt su2_lt z2_lt (1, 1) (1, -1).
Proof. by []. Qed.
