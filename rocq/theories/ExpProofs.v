(** ExpProofs: Rep.exp_map, jax_utils.matrix_power and jax_utils.exp_map. *)
From Coq Require Import ZArith String Ascii.
From mathcomp Require Import all_ssreflect all_algebra.
From mathcomp Require Import mxtens.
From mathcomp.zify Require Import zify.
From Verif Require Import Base Nd NdProofs Reps Util RepSpec RepProofs RepOps ReducedProofs.

Set Implicit Arguments.
Unset Strict Implicit.
Unset Printing Implicit Defensive.

Import GRing.Theory Num.Theory.
Local Open Scope ring_scope.
Local Open Scope string_scope.

Section Pow.
Variable C : numClosedFieldType.
Notation nd := (nd C).
Variable d : nat.
Implicit Types M : 'M[C]_d.

Lemma mxpowD M m n : mxpow M (m + n) = mxpow M m *m mxpow M n.
Proof. by elim: m => [|m IH]; rewrite ?mul1mx // addSn /= IH mulmxA. Qed.
Lemma mxpow1 M : mxpow M 1 = M.
Proof. by rewrite /= mulmx1. Qed.

(** The power of a matrix to an integer exponent. *)
Definition zpow M (k : int) : 'M[C]_d :=
  match k with Posz k => mxpow M k | Negz k => mxpow (invmx M) k.+1 end.
(** ... is defined for a negative exponent only if the matrix is invertible. *)
Definition zpow_ok M (k : int) : bool := (0 <= k) || (M \in unitmx).

Lemma np_matrix_powerP (h : nd) k : shape h = [:: d; d] ->
  if zpow_ok (mx2 d d h) k
  then exists p, [/\ np_matrix_power h k = Ok p, shape p = [:: d; d] & mx2 d d p = zpow (mx2 d d h) k]
  else np_matrix_power h k = Err LinAlgError.
Proof.
move=> sh; rewrite /np_matrix_power sh eqxx /=; case: k => k; rewrite /zpow_ok /=.
  by eexists; split; [reflexivity| reflexivity | rewrite mx2_of_mx].
rewrite /np_inv sh eqxx /=; case: (mx2 d d h \in unitmx) => //=.
by eexists; split; [reflexivity| reflexivity | rewrite !mx2_of_mx].
Qed.
End Pow.

Section Exp.
Variable C : numClosedFieldType.
Notation nd := (nd C).
(** scipy.linalg.expm of square matrices is some matrix function [ex]. *)
Variables (expm : nd -> res nd) (ex : forall d, 'M[C]_d -> 'M[C]_d).
Definition expm_spec : Prop := forall d (L : nd), shape L = [:: d; d] ->
  exists E, [/\ expm L = Ok E, shape E = [:: d; d] & mx2 d d E = ex (mx2 d d L)].

Definition lin_comb d (l : nat) (a : nd) (X : nd) : 'M[C]_d := \sum_(i < l) get a [:: i : nat] *: mx3 d d X i.
Lemma einsum_aX l d (a X : nd) : shape a = [:: l] -> shape X = [:: l; d; d] ->
  exists L, [/\ einsum2 "a" "aij" "ij" a X = Ok L, shape L = [:: d; d] & mx2 d d L = lin_comb d l a X].
Proof.
move=> sa sX; rewrite /einsum2 /einsum_ops /bind_all /= sa sX /= eqxx /=.
eexists; split; [by []| by [] |]; apply/matrixP => i j; rewrite mxE summxE /=.
by apply: eq_bigr => k _; rewrite /term /= !mxE mulr1.
Qed.

(** h_0^k_0 ( ... (h_r^k_r M)). *)
Definition powers d (H : nat -> 'M[C]_d) (ks : seq (int * nat)) (M : 'M[C]_d) : 'M[C]_d :=
  foldr (fun kb N => zpow (H kb.2) kb.1 *m N) M ks.
Definition powers_ok d (H : nat -> 'M[C]_d) (ks : seq (int * nat)) : bool :=
  all (fun kb => zpow_ok (H kb.2) kb.1) ks.

Lemma zip_rows (T : Type) (ks : seq T) (H : nd) : zip ks (rows H) = [seq (kb.1, slice0 H kb.2) | kb <- zip ks (iota 0 (len H))].
Proof.
rewrite /rows; elim: (iota 0 (len H)) ks => [|b l IH] [|k ks] //=; by rewrite IH.
Qed.

Lemma foldR_rev (S A : Type) (f : A -> S -> res A) a s x :
  foldR f a (rev (x :: s)) = (do b <- foldR f a (rev s); f b x).
Proof.
rewrite rev_cons -cats1; elim: (rev s) a => [|y l IH] a /=; first by case: (f a x).
by case: (f a y) => //= b; rewrite IH.
Qed.

Lemma fold_powers h d (H E : nd) (ks : seq (int * nat)) : shape H = [:: h; d; d] -> shape E = [:: d; d] ->
  let F := foldR (fun out (kh : int * nd) => do p <- np_matrix_power kh.2 kh.1; matmul p out) E
        (rev [seq (kb.1, slice0 H kb.2) | kb <- ks]) in
  if powers_ok (mx3 d d H) ks
  then exists R, [/\ F = Ok R, shape R = [:: d; d] & mx2 d d R = powers (mx3 d d H) ks (mx2 d d E)]
  else F = Err LinAlgError.
Proof.
move=> sH sE /=; elim: ks => [|[k b] ks IH]; first by exists E.
rewrite [map _ _]/= foldR_rev [powers_ok _ _]/= [powers _ _ _]/=.
have ss : shape (slice0 H b) = [:: d; d] by rewrite /= sH.
have := np_matrix_powerP k ss; rewrite mx3_slice; move: IH.
case: ifP => po; last by rewrite andbF => ->.
case=> R [-> sR mR]; rewrite andbT; cbv beta iota delta [rbind]; rewrite [(k, _).2]/= [(k, _).1]/=.
case: ifP => ok; last by move=> ->.
case=> p [-> sp mp]; have [c [-> [sc mc]]] := matmul_2_2 sp sR.
by exists c; rewrite mc mp mR.
Qed.

Theorem exp_mapP l h d (r : rep C) (a : nd) (ks : seq int) : expm_spec ->
  shape (rX r) = [:: l; d; d] -> shape (rH r) = [:: h; d; d] -> shape a = [:: l] ->
  let kb := zip ks (iota 0 h) in
  if powers_ok (mx3 d d (rH r)) kb
  then exists R, [/\ exp_map expm r a ks = Ok R, shape R = [:: d; d] &
    mx2 d d R = powers (mx3 d d (rH r)) kb (ex (lin_comb d l a (rX r)))]
  else exp_map expm r a ks = Err LinAlgError.
Proof.
move=> es sX sH sa kb; rewrite /exp_map; have [L [-> sL mL]] := einsum_aX sa sX.
cbv beta iota delta [rbind]; have [E [-> sE mE]] := es _ _ sL.
rewrite zip_rows /len sH [head _ _]/=; have := fold_powers kb sH sE.
by rewrite mE mL.
Qed.

(** Products: direct sums and tensor products. *)
Lemma mxpow_block d1 d2 (A : 'M[C]_d1) (B : 'M[C]_d2) k :
  mxpow (block_mx A 0 0 B) k = block_mx (mxpow A k) 0 0 (mxpow B k).
Proof.
elim: k => [|k IH] /=; first by rewrite -scalar_mx_block.
by rewrite IH mulmx_block !mulmx0 !mul0mx !addr0 !add0r.
Qed.
Lemma mxpow_tens d1 d2 (A : 'M[C]_d1) (B : 'M[C]_d2) k :
  mxpow (A *t B) k = mxpow A k *t mxpow B k.
Proof. by elim: k => [|k IH] /=; rewrite ?tens1 // IH tensmx_mul. Qed.
Lemma inv_tens d1 d2 (A : 'M[C]_d1) (B : 'M[C]_d2) : A \in unitmx -> B \in unitmx ->
  A *t B \in unitmx /\ invmx (A *t B) = invmx A *t invmx B.
Proof.
move=> uA uB; have e : A *t B *m (invmx A *t invmx B) = 1%:M by rewrite tensmx_mul !mulmxV // tens1.
have [u _] := mulmx1_unit e; split=> //.
by rewrite -[RHS]mul1mx -(mulVmx u) -mulmxA e mulmx1.
Qed.
Lemma inv_block d1 d2 (A : 'M[C]_d1) (B : 'M[C]_d2) : A \in unitmx -> B \in unitmx ->
  block_mx A 0 0 B \in unitmx /\ invmx (block_mx A 0 0 B) = block_mx (invmx A) 0 0 (invmx B).
Proof.
move=> uA uB; have e : block_mx A 0 0 B *m block_mx (invmx A) 0 0 (invmx B) = 1%:M.
  by rewrite mulmx_block !mulmx0 !mul0mx !addr0 !add0r !mulmxV // -scalar_mx_block.
have [u _] := mulmx1_unit e; split=> //.
by rewrite -[RHS]mul1mx -(mulVmx u) -mulmxA e mulmx1.
Qed.
Lemma zpow_tens d1 d2 (A : 'M[C]_d1) (B : 'M[C]_d2) k : zpow_ok A k -> zpow_ok B k ->
  zpow_ok (A *t B) k /\ zpow (A *t B) k = zpow A k *t zpow B k.
Proof.
case: k => k; first by rewrite /= mxpow_tens.
rewrite /zpow_ok /= => uA uB; have [u ->] := inv_tens uA uB; split=> //.
by rewrite mxpow_tens tensmx_mul.
Qed.
Lemma zpow_block d1 d2 (A : 'M[C]_d1) (B : 'M[C]_d2) k : zpow_ok A k -> zpow_ok B k ->
  zpow_ok (block_mx A 0 0 B) k /\ zpow (block_mx A 0 0 B) k = block_mx (zpow A k) 0 0 (zpow B k).
Proof.
case: k => k; first by rewrite /= mxpow_block.
by rewrite /zpow_ok /zpow [(_ <= _) || _]/= [_ || (_ \in _)]/= => uA uB; have [u ->] := inv_block uA uB; rewrite mxpow_block.
Qed.
Lemma powers_tens d1 d2 (H1 : nat -> 'M[C]_d1) (H2 : nat -> 'M[C]_d2) (H : nat -> 'M[C]_(d1 * d2)) ks M1 M2 :
  {in [seq kb.2 | kb <- ks], forall b, H b = H1 b *t H2 b} -> powers_ok H1 ks -> powers_ok H2 ks ->
  powers_ok H ks /\ powers H ks (M1 *t M2) = powers H1 ks M1 *t powers H2 ks M2.
Proof.
elim: ks => [|[k b] ks IH] //= hH /andP[o1 p1] /andP[o2 p2].
have [| | |-> ->] := IH _ _ _; [by move=> c hc; apply: hH; rewrite inE hc orbT | by [] | by [] |].
rewrite hH ?inE ?eqxx //; have [-> ->] := zpow_tens o1 o2.
by rewrite tensmx_mul.
Qed.
Lemma powers_block d1 d2 (H1 : nat -> 'M[C]_d1) (H2 : nat -> 'M[C]_d2) (H : nat -> 'M[C]_(d1 + d2)) ks M1 M2 :
  {in [seq kb.2 | kb <- ks], forall b, H b = block_mx (H1 b) 0 0 (H2 b)} -> powers_ok H1 ks -> powers_ok H2 ks ->
  powers_ok H ks /\ powers H ks (block_mx M1 0 0 M2) = block_mx (powers H1 ks M1) 0 0 (powers H2 ks M2).
Proof.
elim: ks => [|[k b] ks IH] //= hH /andP[o1 p1] /andP[o2 p2].
have [| | |-> ->] := IH _ _ _; [by move=> c hc; apply: hH; rewrite inE hc orbT | by [] | by [] |].
rewrite hH ?inE ?eqxx //; have [-> ->] := zpow_block o1 o2.
by rewrite mulmx_block !mulmx0 !mul0mx !addr0 !add0r.
Qed.
End Exp.

Section Jax.
Variable C : numClosedFieldType.
Notation nd := (nd C).
Variable empty : nat -> nd.

Definition zmp d (F : 'M[C]_d) (n : Z) := mxpow F (Z.to_nat n).
Lemma zmpD d (F : 'M[C]_d) m n : Z.le 0 m -> Z.le 0 n -> zmp F (Z.add m n) = zmp F m *m zmp F n.
Proof. by move=> m0 n0; rewrite /zmp Z2Nat.inj_add // mxpowD. Qed.

Definition p2 (t : nat) : Z := Z.pow 2 (Z.of_nat t).
Lemma p2S t : p2 t.+1 = Z.mul (p2 t) 2.
Proof. by rewrite /p2 Nat2Z.inj_succ Z.pow_succ_r; [rewrite Z.mul_comm | apply: Nat2Z.is_nonneg]. Qed.
Lemma p2_pos t : Z.lt 0 (p2 t).
Proof. by apply: Z.pow_pos_nonneg => //; apply: Nat2Z.is_nonneg. Qed.

(** The loop invariant: t binary digits of n0 are consumed. *)
Record jinv d (F : 'M[C]_d) (n0 : Z) (t : nat) (c : Z * nd * nd) : Prop := JInv {
  ji_n : c.1.1 = Z.div n0 (p2 t);
  ji_sz : shape c.1.2 = [:: d; d];
  ji_z : c.1.1 <> Z0 -> mx2 d d c.1.2 = zmp F (p2 t);
  ji_sr : shape c.2 = [:: d; d];
  ji_r : mx2 d d c.2 = zmp F (Z.modulo n0 (p2 t)) }.

Lemma jpow_step d (F : 'M[C]_d) n0 t c s : jinv F n0 t c ->
  exists c', jpow_body empty s c = Ok c' /\ jinv F n0 t.+1 c'.
Proof.
case: c => [[n z] r] [/= en sz ez sr er]; rewrite /jpow_body.
have divE : Z.div n0 (p2 t.+1) = Z.div n 2.
  by rewrite p2S en Zdiv.Zdiv_Zdiv // ; [apply: Z.lt_le_incl; apply: p2_pos].
have modE : Z.modulo n0 (p2 t.+1) = Z.add (Z.modulo n0 (p2 t)) (Z.mul (p2 t) (Z.modulo n 2)).
  by rewrite p2S en Z.rem_mul_r //; have := p2_pos t; lia.
have [rr [-> srr err]] : exists rr, [/\ (if Z.eqb (Z.modulo n 2) 0 then Ok r else matmul z r) = Ok rr,
   shape rr = [:: d; d] & mx2 d d rr = zmp F (Z.modulo n0 (p2 t.+1))].
  case: Z.eqb_spec => b; first by exists r; split=> //; rewrite er modE b Z.mul_0_r Z.add_0_r.
  have [m [-> [sm mm]]] := matmul_2_2 sz sr; exists m; split=> //.
  have nz : n <> Z0 by move=> e; apply: b; rewrite e.
  have -> : Z.modulo n0 (p2 t.+1) = Z.add (p2 t) (Z.modulo n0 (p2 t)).
    rewrite modE; have -> : Z.modulo n 2 = Zpos xH by have := Z.mod_pos_bound n 2 (erefl : Z.lt 0 2); lia.
    by rewrite Z.mul_1_r Z.add_comm.
  rewrite zmpD; first by rewrite mm ez // er.
  - by apply: Z.lt_le_incl; apply: p2_pos.
  - by have [] := Z.mod_pos_bound n0 (p2 t) (p2_pos t).
cbv beta iota delta [rbind].
have [zz [-> szz ezz]] : exists zz, [/\ (if Z.eqb (Z.div n 2) 0 then Ok (Nd (shape z) (get (empty s))) else matmul z z) = Ok zz,
   shape zz = [:: d; d] & Z.div n 2 <> Z0 -> mx2 d d zz = zmp F (p2 t.+1)].
  case: Z.eqb_spec => b; first by eexists; split; [reflexivity| exact: sz | ].
  have [m [-> [sm mm]]] := matmul_2_2 sz sz; exists m; split=> // _.
  have nz : n <> Z0 by move=> e; apply: b; rewrite e.
  have p0 : Z.le 0 (p2 t) by apply: Z.lt_le_incl; apply: p2_pos.
  have -> : p2 t.+1 = Z.add (p2 t) (p2 t) by rewrite p2S; lia.
  by rewrite zmpD // mm ez.
eexists; split; first by [].
by split=> //=; rewrite -divE.
Qed.

Lemma jpow_loop d (F : 'M[C]_d) n0 m t c : jinv F n0 t c ->
  exists c', foldR (fun c s => jpow_body empty s c) c (iota t m) = Ok c' /\ jinv F n0 (t + m) c'.
Proof.
elim: m t c => [|m IH] t c h /=; first by exists c; rewrite addn0.
have [c' [-> h']] := jpow_step t h; rewrite /=.
by have [c2 [-> h2]] := IH _ _ h'; exists c2; rewrite addnS -addSn.
Qed.

Theorem jax_matrix_powerP d (F : nd) (n : Z) : shape F = [:: d; d] ->
  exists R, [/\ jax_matrix_power empty F n = Ok R, shape R = [:: d; d] &
    mx2 d d R = mxpow (mx2 d d F) (Z.to_nat (Z.modulo n (Z.pow 2 32)))].
Proof.
move=> sF; rewrite /jax_matrix_power; case: Z.eqb_spec => [-> | n1].
  by exists F; split=> //; rewrite /= mulmx1.
have h0 : jinv (mx2 d d F) n 0 (n, F, eye (len F)).
  split=> //=; rewrite ?Z.div_1_r ?Z.mod_1_r //.
  - by rewrite /zmp /= mulmx1.
  - by rewrite /len sF.
  - by rewrite /len sF mx2_eye.
have [c [-> [_ _ _ sr er]]] := jpow_loop 32 h0.
by exists c.2.
Qed.
End Jax.

Section Exp2.
Variable C : numClosedFieldType.
Notation nd := (nd C).
Variables (expm : nd -> res nd) (ex : forall d, 'M[C]_d -> 'M[C]_d).
Hypothesis es : expm_spec expm ex.

(** The powers only read the generators below h. *)
Lemma zip_iota_mem (T : Type) (ks : seq T) h b : b \in [seq kb.2 | kb <- zip ks (iota 0 h)] -> (b < h)%N.
Proof.
move=> hb; suff: b \in iota 0 h by rewrite mem_iota add0n => /andP[].
by move: (iota 0 h) hb => s; elim: ks s => [|k ks IH] [|c s] //=; rewrite !inE => /orP[->|/IH ->]; rewrite ?orbT.
Qed.
Lemma exp_map_ok l h d (r : rep C) a ks R : shape (rX r) = [:: l; d; d] -> shape (rH r) = [:: h; d; d] ->
  shape a = [:: l] -> exp_map expm r a ks = Ok R ->
  [/\ powers_ok (mx3 d d (rH r)) (zip ks (iota 0 h)), shape R = [:: d; d] &
    mx2 d d R = powers (mx3 d d (rH r)) (zip ks (iota 0 h)) (ex (lin_comb d l a (rX r)))].
Proof.
move=> sX sH sa e; have := exp_mapP ks es sX sH sa; rewrite /= e; case: ifP => // po [R' [[<-] s m]].
by [].
Qed.

Theorem exp_map_tensor T d1 d2 (r1 r2 r : rep C) a ks R1 R2 :
  is_rep T d1 r1 -> is_rep T d2 r2 -> tensor_product r1 r2 = Ok r -> shape a = [:: th_l T] ->
  (let L1 := lin_comb d1 (th_l T) a (rX r1) in let L2 := lin_comb d2 (th_l T) a (rX r2) in
   ex (tensX L1 L2) = ex L1 *t ex L2) ->
  exp_map expm r1 a ks = Ok R1 -> exp_map expm r2 a ks = Ok R2 ->
  exists R, [/\ exp_map expm r a ks = Ok R, shape R = [:: (d1 * d2)%N; (d1 * d2)%N] &
    mx2 (d1 * d2) (d1 * d2) R = mx2 d1 d1 R1 *t mx2 d2 d2 R2].
Proof.
move=> h1 h2 e sa hx e1 e2.
have [r' [e' [h [_ [eX eH]]]]] := tensor_product_ok h1 h2; move: e'; rewrite e => -[rr]; rewrite -{}rr in h eX eH.
have [p1 s1 m1] := exp_map_ok (ir_sX h1) (ir_sH h1) sa e1.
have [p2 s2 m2] := exp_map_ok (ir_sX h2) (ir_sH h2) sa e2.
have Lx : lin_comb (d1 * d2) (th_l T) a (rX r) = tensX (lin_comb d1 (th_l T) a (rX r1)) (lin_comb d2 (th_l T) a (rX r2)).
  by rewrite /lin_comb -sum_tensX; apply: eq_bigr => i _; rewrite eX.
have := exp_mapP ks es (ir_sX h) (ir_sH h) sa; rewrite /= Lx hx.
have [|-> ->] := powers_tens (H := mx3 (d1 * d2) (d1 * d2) (rH r)) (ks := zip ks (iota 0 (th_h T)))
  (ex (lin_comb d1 (th_l T) a (rX r1))) (ex (lin_comb d2 (th_l T) a (rX r2))) _ p1 p2.
  by move=> b /zip_iota_mem hb; rewrite eH.
by rewrite -m1 -m2.
Qed.

Theorem exp_map_direct_sum T d1 d2 (r1 r2 r : rep C) a ks R1 R2 :
  is_rep T d1 r1 -> is_rep T d2 r2 -> direct_sum r1 r2 = Ok r -> shape a = [:: th_l T] ->
  (let L1 := lin_comb d1 (th_l T) a (rX r1) in let L2 := lin_comb d2 (th_l T) a (rX r2) in
   ex (block_mx L1 0 0 L2) = block_mx (ex L1) 0 0 (ex L2)) ->
  exp_map expm r1 a ks = Ok R1 -> exp_map expm r2 a ks = Ok R2 ->
  exists R, [/\ exp_map expm r a ks = Ok R, shape R = [:: (d1 + d2)%N; (d1 + d2)%N] &
    mx2 (d1 + d2) (d1 + d2) R = block_mx (mx2 d1 d1 R1) 0 0 (mx2 d2 d2 R2)].
Proof.
move=> h1 h2 e sa hx e1 e2.
have [r' [e' [h [_ [eX eH]]]]] := direct_sum_ok h1 h2; move: e'; rewrite e => -[rr]; rewrite -{}rr in h eX eH.
have [p1 s1 m1] := exp_map_ok (ir_sX h1) (ir_sH h1) sa e1.
have [p2 s2 m2] := exp_map_ok (ir_sX h2) (ir_sH h2) sa e2.
have Lx : lin_comb (d1 + d2) (th_l T) a (rX r) = block_mx (lin_comb d1 (th_l T) a (rX r1)) 0 0 (lin_comb d2 (th_l T) a (rX r2)).
  by rewrite /lin_comb -sum_block; apply: eq_bigr => i _; rewrite eX.
have := exp_mapP ks es (ir_sX h) (ir_sH h) sa; rewrite /= Lx hx.
have [|-> ->] := powers_block (H := mx3 (d1 + d2) (d1 + d2) (rH r)) (ks := zip ks (iota 0 (th_h T)))
  (ex (lin_comb d1 (th_l T) a (rX r1))) (ex (lin_comb d2 (th_l T) a (rX r2))) _ p1 p2.
  by move=> b /zip_iota_mem hb; rewrite eH.
by rewrite -m1 -m2.
Qed.

(** jax_utils.exp_map agrees with Rep.exp_map. *)
Variable empty : nat -> nd.
Lemma jax_discrete h d (H : nd) (ks : seq Z) s : shape H = [:: h; d; d] ->
  exists D, [/\ mapR (fun hk : nd * Z => jax_matrix_power empty hk.1 hk.2) (zip [seq slice0 H b | b <- s] ks) = Ok D,
    forall E, shape E = [:: d; d] -> exists R, [/\ foldR (fun out x => matmul x out) E (rev D) = Ok R, shape R = [:: d; d] &
      mx2 d d R = powers (mx3 d d H) (zip [seq Posz (Z.to_nat (Z.modulo k (Z.pow 2 32))) | k <- ks] s) (mx2 d d E)] &
    size D = minn (size s) (size ks)].
Proof.
move=> sH; elim: s ks => [|b s IH] [|k ks]; try by exists [::]; split=> // E sE; exists E; split=> //; case: (map _ _).
have [D [eD fD sD]] := IH ks.
rewrite [map _ _]/= [zip _ _]/= [mapR _ _]/=.
have ss : shape (slice0 H b) = [:: d; d] by rewrite /= sH.
have [R [-> sR mR]] := jax_matrix_powerP empty k ss; cbv beta iota delta [rbind].
rewrite eD; exists (R :: D); split=> //; last by rewrite /= sD minnSS.
move=> E sE; have [R' [eR sR' mR']] := fD E sE; rewrite foldR_rev eR; cbv beta iota delta [rbind].
have [c [-> [sc mc]]] := matmul_2_2 sR sR'; exists c; split=> //.
by rewrite mc mR mR' mx3_slice.
Qed.
Theorem jax_exp_mapP l h d (r : rep C) (a : nd) (ks : seq Z) :
  shape (rX r) = [:: l; d; d] -> shape (rH r) = [:: h; d; d] -> shape a = [:: l] -> size ks = h ->
  exists R, [/\ jax_exp_map expm empty r a ks = Ok R, shape R = [:: d; d] &
    mx2 d d R = powers (mx3 d d (rH r)) (zip [seq Posz (Z.to_nat (Z.modulo k (Z.pow 2 32))) | k <- ks] (iota 0 h))
                       (ex (lin_comb d l a (rX r)))].
Proof.
move=> sX sH sa sk; rewrite /jax_exp_map /len sH [head _ _]/= sk eqxx /rows /len sH [head _ _]/=.
have [D [eD fD _]] := jax_discrete ks (iota 0 h) sH.
cbv beta iota delta [rbind]; rewrite eD.
have [L [-> sL mL]] := einsum_aX sa sX; have [E [-> sE mE]] := es sL.
by have [R [-> sR mR]] := fD E sE; exists R; rewrite mR mE mL.
Qed.
Theorem jax_exp_map_len l h d (r : rep C) (a : nd) (ks : seq Z) :
  shape (rX r) = [:: l; d; d] -> shape (rH r) = [:: h; d; d] -> size ks <> h ->
  jax_exp_map expm empty r a ks = Err ValueError.
Proof. by move=> sX sH /eqP /negbTE sk; rewrite /jax_exp_map /len sH [head _ _]/= sk. Qed.
End Exp2.
