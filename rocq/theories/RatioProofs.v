(** RatioProofs: C14-C17. *)
From Coq Require Import ZArith Lia List Bool Znumtheory.
Import ListNotations.
From Verif Require Import Base Ratio.
Local Open Scope Z_scope.

(** ** normalize_integer_ratio *)
Lemma normalize_ok n d : d <> 0 ->
  let (n', d') := normalize_integer_ratio n d in
  n' * d = n * d' /\ 0 < d' /\ Z.gcd n' d' = 1.
Proof.
intros d0. unfold normalize_integer_ratio.
assert (g0 : 0 < Z.gcd n d).
{ assert (h := Z.gcd_nonneg n d). assert (Z.gcd n d <> 0) by (intro e; apply Z.gcd_eq_0_r in e; lia). lia. }
destruct (Z.gcd_divide_l n d) as [a Ha]. destruct (Z.gcd_divide_r n d) as [b Hb].
set (g := Z.gcd n d) in *.
assert (Hg : Z.gcd a b = 1).
{ assert (h := Z.gcd_mul_mono_r_nonneg a b g ltac:(lia)). rewrite <- Ha, <- Hb in h. fold g in h. nia. }
destruct (Z.ltb_spec d 0) as [l|l].
- replace (n / - g) with (- a) by (rewrite Ha at 1; apply Z.div_unique_exact; lia).
  replace (d / - g) with (- b) by (rewrite Hb at 1; apply Z.div_unique_exact; lia).
  split; [nia|split; [nia|]]. now rewrite Z.gcd_opp_l, Z.gcd_opp_r.
- replace (n / g) with a by (rewrite Ha at 1; symmetry; apply Z.div_mul; lia).
  replace (d / g) with b by (rewrite Hb at 1; symmetry; apply Z.div_mul; lia).
  split; [nia|split; [nia|assumption]].
Qed.

(** ** The loop of limit_denominator on one element, d0 > m *)
Section Loop.
Variables (n0 d0 m : Z).
Hypothesis d0_gt : m < d0.
Hypothesis m_pos : 1 <= m.
Hypothesis cop : Z.gcd n0 d0 = 1.

Record inv (s : ld_state) : Prop := Inv {
  i_n : n0 = p1 s * nn s + p0 s * dd s;
  i_d : d0 = q1 s * nn s + q0 s * dd s;
  i_det : p1 s * q0 s - p0 s * q1 s = 1 \/ p1 s * q0 s - p0 s * q1 s = -1;
  i_q0 : 0 <= q0 s <= m;
  i_q1 : 0 <= q1 s <= m;
  i_dd : 0 <= dd s;
  i_nn : q1 s <> 0 -> dd s < nn s;
  i_q01 : q1 s = 0 -> q0 s = 1 /\ p0 s = 0 /\ p1 s = 1 }.

Lemma inv_init : inv (ld_init n0 d0).
Proof using All. constructor; cbn [ld_init p0 q0 p1 q1 nn dd]; lia. Qed.

Lemma inv_dd s : inv s -> 0 < dd s.
Proof using All.
intros [H1 H2 H3 H4 H5 H6 H7]. assert (dd s <> 0); [|lia]. intro e. rewrite e in *.
assert (d1 : (nn s | Z.gcd n0 d0)) by (apply Z.gcd_greatest; [exists (p1 s) | exists (q1 s)]; lia).
rewrite cop in d1. apply Z.divide_1_r in d1. destruct d1 as [e1|e1]; rewrite e1 in *; nia.
Qed.

Lemma stop_eq s : ld_stop m d0 s = (m <? ld_q2 s).
Proof using All. unfold ld_stop. destruct (Z.leb_spec d0 m); [lia|]. apply orb_false_r. Qed.

Lemma inv_next s : inv s -> ld_stop m d0 s = false ->
  inv (ld_next m d0 s) /\ dd (ld_next m d0 s) < dd s.
Proof using All.
intros I E. assert (P := inv_dd s I). destruct I as [H1 H2 H3 H4 H5 H6 H7 H8].
unfold ld_next. rewrite E. rewrite stop_eq in E. apply Z.ltb_ge in E.
unfold ld_q2 in *. unfold ld_a in *.
assert (M := Z.mod_pos_bound (nn s) (dd s) P).
assert (D := Z.div_mod (nn s) (dd s) ltac:(lia)).
set (a := nn s / dd s) in *. set (r := nn s mod dd s) in *.
assert (A : q1 s <> 0 -> 1 <= a) by (intro h; specialize (H7 h); nia).
split; [|cbn [p0 q0 p1 q1 nn dd]; lia].
constructor; cbn [p0 q0 p1 q1 nn dd]; try nia.
Qed.

Lemma loop_ok fuel s : inv s -> (Z.to_nat (dd s) < fuel)%nat ->
  exists s', ld_loop1 fuel m d0 s = Ok s' /\ inv s' /\ m < ld_q2 s'.
Proof using All.
revert s. induction fuel as [|f IH]; intros s I L; [lia|]. simpl.
destruct (ld_stop m d0 s) eqn:E.
- exists s. split; [reflexivity|split; [assumption|]]. rewrite stop_eq in E. now apply Z.ltb_lt.
- destruct (inv_next s I E) as [I' l]. apply IH; [assumption|].
  assert (P := inv_dd _ I'). lia.
Qed.

(** Data available at the end of the loop. *)
Record fin (s : ld_state) (k n1 d1 t : Z) : Prop := Fin {
  f_k : k = (m - q0 s) / q1 s;
  f_n1 : n1 = p0 s + k * p1 s;
  f_d1 : d1 = q0 s + k * q1 s;
  f_t : t = 1 \/ t = -1;
  f_det : p1 s * d1 - n1 * q1 s = t;
  f_e2 : p1 s * d0 - n0 * q1 s = t * dd s;
  f_e1 : n1 * d0 - n0 * d1 = - (t * (nn s - k * dd s));
  f_D : 0 < dd s;
  f_E : 0 < nn s - k * dd s;
  f_q1 : 1 <= q1 s <= m;
  f_d1r : 1 <= d1 <= m;
  f_sum : m < d1 + q1 s;
  f_k0 : 0 <= k;
  f_bD : (m + 1) * dd s <= d0;
  f_bE : q1 s * (nn s - k * dd s) <= d0 }.

Lemma final_data s : inv s -> m < ld_q2 s -> exists k n1 d1 t, fin s k n1 d1 t.
Proof using All.
intros I E. assert (P := inv_dd s I). destruct I as [H1 H2 H3 H4 H5 H6 H7 H8].
unfold ld_q2, ld_a in E.
assert (M := Z.mod_pos_bound (nn s) (dd s) P).
assert (D := Z.div_mod (nn s) (dd s) ltac:(lia)).
set (a := nn s / dd s) in *. set (r := nn s mod dd s) in *.
assert (Q1 : 1 <= q1 s).
{ destruct (Z.eq_dec (q1 s) 0) as [e|e]; [|lia]. rewrite e, (proj1 (H8 e)) in E. lia. }
assert (M' := Z.mod_pos_bound (m - q0 s) (q1 s) ltac:(lia)).
assert (D' := Z.div_mod (m - q0 s) (q1 s) ltac:(lia)).
set (k := (m - q0 s) / q1 s) in *. set (r' := (m - q0 s) mod q1 s) in *.
assert (K0 : 0 <= k) by (apply Z.div_pos; lia).
assert (KA : k + 1 <= a) by nia.
exists k, (p0 s + k * p1 s), (q0 s + k * q1 s), (p1 s * q0 s - p0 s * q1 s).
constructor; try reflexivity; try assumption; try nia.
Qed.

(** No fraction with denominator at most m is strictly between the two candidates. *)
Lemma best s k n1 d1 t : fin s k n1 d1 t -> forall p q, 1 <= q <= m ->
  Z.abs (p1 s * d0 - n0 * q1 s) * q <= Z.abs (p * d0 - n0 * q) * q1 s \/
  Z.abs (n1 * d0 - n0 * d1) * q <= Z.abs (p * d0 - n0 * q) * d1.
Proof using All.
intros F p q Hq. destruct F as [Fk Fn1 Fd1 Ft Fdet Fe2 Fe1 FD FE Fq1 Fd1r Fsum Fk0 FbD FbE].
assert (Tt : t * t = 1) by (destruct Ft; subst t; lia).
set (al := t * (p1 s * q - p * q1 s)). set (be := t * (p * d1 - n1 * q)).
assert (Eq : q = al * d1 + be * q1 s).
{ transitivity (t * q * (p1 s * d1 - n1 * q1 s)); [rewrite Fdet; nia|unfold al, be; ring]. }
assert (Ep : p = al * n1 + be * p1 s).
{ transitivity (t * p * (p1 s * d1 - n1 * q1 s)); [rewrite Fdet; nia|unfold al, be; ring]. }
assert (Ev : p * d0 - n0 * q = t * (be * dd s - al * (nn s - k * dd s))).
{ rewrite Ep, Eq. transitivity (al * (n1 * d0 - n0 * d1) + be * (p1 s * d0 - n0 * q1 s)); [ring|].
  rewrite Fe1, Fe2. ring. }
rewrite Ev, Fe1, Fe2. clearbody al be.
clear Ev Fe1 Fe2 Fdet Ep.
set (DD := dd s) in *. set (EE := nn s - k * DD) in *. clearbody DD EE.
rewrite Z.abs_opp, !Z.abs_mul.
assert (T : Z.abs t = 1) by (destruct Ft; subst t; reflexivity). rewrite T, !Z.mul_1_l.
destruct (Z.le_gt_cases al 0) as [h|h].
- left. assert (B : 1 <= be) by nia.
  rewrite (Z.abs_eq DD) by lia. rewrite Z.abs_eq by nia.
  assert (0 <= - al * EE) by nia. assert (0 <= - al * d1) by nia.
  rewrite Eq. nia.
- right. assert (B : be <= 0) by nia.
  rewrite (Z.abs_eq EE) by lia. rewrite Z.abs_neq by nia.
  assert (0 <= - be * DD) by nia. assert (0 <= - be * q1 s) by nia.
  rewrite Eq. nia.
Qed.
End Loop.

(** p/q is a best approximation of n/d among the fractions of denominator at most m. *)
Definition best_approx (n d m p q : Z) : Prop :=
  1 <= q <= m /\ forall p' q', 1 <= q' <= m ->
  Z.abs (p * d - n * q) * q' <= Z.abs (p' * d - n * q') * q.

Lemma coprime_det a b c d t : t = 1 \/ t = -1 -> a * d - c * b = t -> Z.gcd a b = 1 /\ Z.gcd c d = 1.
Proof.
intros T E.
assert (H : forall x y, (Z.gcd x y | t) -> Z.gcd x y = 1).
{ intros x y h. assert (g := Z.gcd_nonneg x y). apply (Z.divide_1_r_nonneg _ g).
  destruct T as [e|e]; rewrite e in h; [assumption|]. now apply Z.divide_opp_r in h. }
split; apply H; rewrite <- E.
- apply Z.divide_sub_r; [apply Z.divide_mul_l, Z.gcd_divide_l|apply Z.divide_mul_r, Z.gcd_divide_r].
- apply Z.divide_sub_r; [apply Z.divide_mul_r, Z.gcd_divide_r|apply Z.divide_mul_l, Z.gcd_divide_l].
Qed.

Lemma limit_denominator1_gt n d m fuel : 1 <= m -> m < d -> Z.gcd n d = 1 ->
  (Z.to_nat d < fuel)%nat ->
  exists p q, limit_denominator1 fuel n d m = Ok (p, q) /\ best_approx n d m p q /\ Z.gcd p q = 1.
Proof.
intros m1 md g L. unfold limit_denominator1.
destruct (loop_ok n d m md m1 g fuel (ld_init n d) ltac:(now apply inv_init) L) as [s [E [I S]]].
rewrite E. simpl rbind.
destruct (final_data n d m md ltac:(assumption) ltac:(assumption) s I S) as [k [n1 [d1 [t F]]]].
assert (B := best n d m md m1 g s k n1 d1 t F). destruct F as [Fk Fn1 Fd1 Ft Fdet Fe2 Fe1 FD FE Fq1 Fd1r Fsum Fk0 FbD FbE].
unfold ld_final. rewrite <- Fk, <- Fn1, <- Fd1.
destruct (Z.ltb_spec d m); [lia|].
destruct (coprime_det _ _ _ _ _ Ft Fdet) as [c2 c1].
destruct (Z.leb_spec (Z.abs (d1 * (p1 s * d - n * q1 s))) (Z.abs (q1 s * (n1 * d - n * d1)))) as [h|h];
  rewrite !Z.abs_mul, (Z.abs_eq d1), (Z.abs_eq (q1 s)) in h by lia; clear Fe1 Fe2 Fdet.
- exists (p1 s), (q1 s). split; [reflexivity|split; [|assumption]]. split; [assumption|].
  intros p' q' Hq. destruct (B p' q' Hq) as [b|b]; [assumption|]. clear B.
  set (A := Z.abs (p1 s * d - n * q1 s)) in *. set (A' := Z.abs (n1 * d - n * d1)) in *.
  set (A2 := Z.abs (p' * d - n * q')) in *.
  apply (Z.mul_le_mono_pos_l _ _ d1); [lia|].
  apply Z.le_trans with (q1 s * A' * q'); [nia|].
  apply Z.le_trans with (q1 s * (A2 * d1)); [|nia]. rewrite <- Z.mul_assoc. apply Z.mul_le_mono_nonneg_l; lia.
- exists n1, d1. split; [reflexivity|split; [|assumption]]. split; [assumption|].
  intros p' q' Hq. destruct (B p' q' Hq) as [b|b]; [|assumption]. clear B.
  set (A := Z.abs (p1 s * d - n * q1 s)) in *. set (A' := Z.abs (n1 * d - n * d1)) in *.
  set (A2 := Z.abs (p' * d - n * q')) in *.
  apply (Z.mul_le_mono_pos_l _ _ (q1 s)); [lia|].
  apply Z.le_trans with (d1 * A * q'); [nia|].
  apply Z.le_trans with (d1 * (A2 * q1 s)); [|nia]. rewrite <- Z.mul_assoc. apply Z.mul_le_mono_nonneg_l; lia.
Qed.

Lemma limit_denominator1_lt n d m fuel : d < m -> (0 < fuel)%nat ->
  limit_denominator1 fuel n d m = Ok (n, d).
Proof.
intros l f. destruct fuel as [|f']; [lia|]. unfold limit_denominator1. simpl.
replace (ld_stop m d (ld_init n d)) with true.
- simpl. unfold ld_final. destruct (Z.ltb_spec d m); [reflexivity|lia].
- symmetry. unfold ld_stop. destruct (Z.leb_spec d m); [apply orb_true_r|lia].
Qed.

Lemma limit_denominator1_eq n m fuel : 1 <= m -> (0 < fuel)%nat ->
  limit_denominator1 fuel n m m = Ok (0, 1).
Proof.
intros l f. destruct fuel as [|f']; [lia|]. unfold limit_denominator1. simpl.
replace (ld_stop m m (ld_init n m)) with true.
- simpl rbind. unfold ld_final. cbn [ld_init p0 q0 p1 q1 nn dd].
  destruct (Z.ltb_spec m m); [lia|]. rewrite Zdiv_0_r.
  destruct (Z.leb_spec (Z.abs ((1 + 0 * 0) * (1 * m - n * 0))) (Z.abs (0 * ((0 + 0 * 1) * m - n * (1 + 0 * 0))))) as [h|h].
  + rewrite Z.mul_0_l in h. lia.
  + f_equal.
- symmetry. unfold ld_stop. destruct (Z.leb_spec m m); [apply orb_true_r|lia].
Qed.

(** ** The array loop computes the elements independently *)
Lemma ld_loop_map m fuel st st' :
  Forall2 (fun s s' => ld_loop1 fuel m (fst s) (snd s) = Ok (snd s') /\ fst s' = fst s) st st' ->
  (0 < fuel)%nat -> ld_loop fuel m st = Ok st'.
Proof.
revert st st'. induction fuel as [|f IH]; intros st st' H L; [lia|]. simpl.
destruct (forallb (fun s => ld_stop m (fst s) (snd s)) st) eqn:A.
- f_equal. clear IH L. induction H as [|[d s] [d' s'] st st' [h1 h2] h IH]; [reflexivity|].
  simpl in A. apply andb_true_iff in A. destruct A as [A1 A2]. simpl in h1, h2. rewrite A1 in h1.
  f_equal; [congruence|now apply IH].
- assert (F : (0 < f)%nat).
  { destruct f; [|lia]. exfalso. clear IH L. induction H as [|[d s] [d' s'] st st' [h1 h2] h IH]; [discriminate|].
    simpl in A, h1. destruct (ld_stop m d s); [now apply IH|discriminate]. }
  apply IH; [|assumption]. clear IH A L. induction H as [|[d s] [d' s'] st st' [h1 h2] h IH]; [constructor|].
  simpl. constructor; [|assumption]. simpl in *. split; [|assumption].
  unfold ld_next in *. destruct (ld_stop m d s) eqn:e; [|assumption].
  destruct f; [lia|]. simpl. now rewrite e.
Qed.

Lemma limit_denominator_map m fuel nds rs : (0 < fuel)%nat ->
  Forall2 (fun nd r => limit_denominator1 fuel (fst nd) (snd nd) m = Ok r) nds rs ->
  limit_denominator fuel nds m = Ok rs.
Proof.
intros L H. unfold limit_denominator.
assert (E : exists st, Forall2 (fun nd s => ld_loop1 fuel m (snd nd) (ld_init (fst nd) (snd nd)) = Ok (snd s)
   /\ fst s = snd nd) nds st /\
   rs = map (fun nds => ld_final m (fst (fst nds)) (snd (fst nds)) (snd (snd nds))) (combine nds st)).
{ induction H as [|[n d] r nds rs h H IH]; [exists nil; split; [constructor|reflexivity]|].
  destruct IH as [st [E1 E2]]. unfold limit_denominator1 in h. simpl in h.
  destruct (ld_loop1 fuel m d (ld_init n d)) as [s|e] eqn:e1; [|discriminate]. simpl in h.
  exists ((d, s) :: st). split; [constructor; [split; [assumption|reflexivity]|assumption]|].
  simpl. f_equal; [congruence|assumption]. }
destruct E as [st [E1 E2]].
rewrite (ld_loop_map m fuel _ st); [simpl; now rewrite E2| |assumption].
clear E2 H. induction E1 as [|[n d] s nds st [h1 h2] H IH]; simpl; constructor; [|assumption].
simpl in *. split; assumption.
Qed.

(** ** int64 *)
Lemma wrap_id x : - 2 ^ 63 <= x < 2 ^ 63 -> wrap x = x.
Proof. intros h. unfold wrap. rewrite Z.mod_small; lia. Qed.
Lemma wrap_eq x y : exists k, y = x + k * 2 ^ 64 -> wrap x = wrap y.
Proof. exists 0. intro h. f_equal. lia. Qed.
Lemma wrap_spec x : exists k, wrap x = x + k * 2 ^ 64.
Proof.
exists (- ((x + 2 ^ 63) / 2 ^ 64)). unfold wrap.
assert (h := Z.div_mod (x + 2 ^ 63) (2 ^ 64) ltac:(lia)). lia.
Qed.
Lemma wrap_cong x k : wrap (x + k * 2 ^ 64) = wrap x.
Proof. unfold wrap. replace (x + k * 2 ^ 64 + 2 ^ 63) with (x + 2 ^ 63 + k * 2 ^ 64) by ring. now rewrite Z.mod_add by lia. Qed.
Lemma wrap_addr x y : wrap (x + wrap y) = wrap (x + y).
Proof. destruct (wrap_spec y) as [k ->]. rewrite Z.add_assoc. apply wrap_cong. Qed.
Lemma wrap_sub x y : wrap (wrap x - wrap y) = wrap (x - y).
Proof.
destruct (wrap_spec x) as [k ->]. destruct (wrap_spec y) as [l ->].
replace (x + k * 2 ^ 64 - (y + l * 2 ^ 64)) with (x - y + (k - l) * 2 ^ 64) by ring. apply wrap_cong.
Qed.
Lemma wrap_subr x y : wrap (x - wrap y) = wrap (x - y).
Proof.
destruct (wrap_spec y) as [l ->].
replace (x - (y + l * 2 ^ 64)) with (x - y + (- l) * 2 ^ 64) by ring. apply wrap_cong.
Qed.

Section Int64.
Variables (n0 d0 m : Z).
Hypothesis m_pos : 1 <= m.
Hypothesis d0_gt : m < d0.
Hypothesis cop : Z.gcd n0 d0 = 1.
Hypothesis n0_small : - 2 ^ 62 < n0 < 2 ^ 62.
Hypothesis d0_small : d0 < 2 ^ 62.

(** Numerators of fractions close to n0/d0 are at most |n0| + 1. *)
Lemma num_bound p q e : 0 <= q <= d0 -> - d0 <= e <= d0 -> p * d0 - n0 * q = e -> Z.abs p <= Z.abs n0 + 1.
Proof.
intros Hq He E.
assert (h : Z.abs (p * d0) <= (Z.abs n0 + 1) * d0).
{ replace (p * d0) with (n0 * q + e) by lia.
  assert (Z.abs (n0 * q) <= Z.abs n0 * d0) by (rewrite Z.abs_mul, (Z.abs_eq q) by lia; apply Z.mul_le_mono_nonneg_l; lia).
  lia. }
rewrite Z.abs_mul, (Z.abs_eq d0) in h by lia. apply Z.mul_le_mono_pos_r in h; lia.
Qed.

Lemma nn_bound s : inv n0 d0 m s -> Z.abs (nn s) < 2 ^ 62 + 1.
Proof.
intros I. destruct I as [H1 H2 H3 H4 H5 H6 H7 H8].
destruct (Z.eq_dec (q1 s) 0) as [e|e].
- destruct (H8 e) as [e0 [e1 e2]]. rewrite e0, e1, e2, e in *. lia.
- specialize (H7 e). assert (nn s <= d0) by (clear -H2 H4 H5 H6 H7 e; nia). lia.
Qed.

Lemma w_a_ok s : inv n0 d0 m s -> w_a s = ld_a s.
Proof.
intros I. assert (P := inv_dd n0 d0 m d0_gt m_pos cop s I). assert (B := nn_bound s I).
unfold w_a, ld_a, wdiv. apply wrap_id.
assert (h := Z.div_mod (nn s) (dd s) ltac:(lia)). assert (h' := Z.mod_pos_bound (nn s) (dd s) P).
set (a := nn s / dd s) in *. set (r := nn s mod dd s) in *.
assert (h2 : Z.abs a <= Z.abs (nn s) + 1) by (clear -h h' P; nia). lia.
Qed.

Lemma w_q2_ok s : inv n0 d0 m s -> w_q2 s = ld_q2 s.
Proof.
intros I. unfold w_q2, ld_q2. rewrite (w_a_ok s I). unfold wadd, wmul. rewrite wrap_addr. apply wrap_id.
assert (P := inv_dd n0 d0 m d0_gt m_pos cop s I). destruct I as [H1 H2 H3 H4 H5 H6 H7 H8].
destruct (Z.eq_dec (q1 s) 0) as [e|e].
- rewrite e, (proj1 (H8 e)). lia.
- specialize (H7 e). unfold ld_a.
  assert (h := Z.div_mod (nn s) (dd s) ltac:(lia)). assert (h' := Z.mod_pos_bound (nn s) (dd s) P).
  set (a := nn s / dd s) in *. set (r := nn s mod dd s) in *.
  assert (A0 : 0 <= a) by (clear -h h' P H7; nia). assert (A1 : 0 <= a * q1 s <= d0) by (clear -h h' P H7 H2 H4 H5 A0; nia). lia.
Qed.

Lemma w_next_ok s : inv n0 d0 m s -> w_next m d0 s = ld_next m d0 s.
Proof.
intros I. unfold w_next, ld_next.
assert (S : w_stop m d0 s = ld_stop m d0 s) by (unfold w_stop, ld_stop; now rewrite w_q2_ok).
rewrite S. destruct (ld_stop m d0 s) eqn:E; [reflexivity|].
assert (N := inv_next n0 d0 m d0_gt m_pos cop s I E). destruct N as [I' L].
assert (P := inv_dd n0 d0 m d0_gt m_pos cop _ I').
assert (P0 := inv_dd n0 d0 m d0_gt m_pos cop _ I).
unfold ld_next in I', L, P. rewrite E in I', L, P. cbn [dd] in L, P.
rewrite (w_q2_ok s I), (w_a_ok s I). unfold wadd, wsub, wmul. rewrite wrap_addr, wrap_subr.
assert (D : dd s <= d0).
{ clear -I P0 d0_gt m_pos. destruct I as [H1 H2 H3 H4 H5 H6 H7 H8].
  destruct (Z.eq_dec (q1 s) 0) as [e|e]; [rewrite e, (proj1 (H8 e)) in H2; lia|]. specialize (H7 e). clear -H7 H2 H4 H5 P0 e; nia. }
assert (B : Z.abs (p0 s + ld_a s * p1 s) <= Z.abs n0 + 1).
{ destruct I' as [H1 H2 H3 H4 H5 H6 H7 H8]. cbn [p0 q0 p1 q1 nn dd] in *.
  set (p2 := p0 s + ld_a s * p1 s) in *. set (d' := nn s - ld_a s * dd s) in *.
  apply (num_bound p2 (ld_q2 s) ((p2 * q1 s - p1 s * ld_q2 s) * d')); [lia| |].
  - destruct H3 as [e|e]; rewrite e; lia.
  - rewrite H1, H2. ring. }
rewrite !wrap_id by lia. reflexivity.
Qed.

Lemma w_loop1_ok fuel s : inv n0 d0 m s -> w_loop1 fuel m d0 s = ld_loop1 fuel m d0 s.
Proof.
revert s. induction fuel as [|f IH]; intros s I; [reflexivity|]. simpl.
assert (S : w_stop m d0 s = ld_stop m d0 s) by (unfold w_stop, ld_stop; now rewrite w_q2_ok).
rewrite S. destruct (ld_stop m d0 s) eqn:E; [reflexivity|].
rewrite (w_next_ok s I). apply IH. now apply (inv_next n0 d0 m d0_gt m_pos cop s I).
Qed.

Lemma w_final_ok s : inv n0 d0 m s -> m < ld_q2 s -> w_final m n0 d0 s = ld_final m n0 d0 s.
Proof.
intros I S. assert (I2 := I).
destruct (final_data n0 d0 m d0_gt m_pos cop s I S) as [k [n1 [d1 [t F]]]].
destruct F as [Fk Fn1 Fd1 Ft Fdet Fe2 Fe1 FD FE Fq1 Fd1r Fsum Fk0 FbD FbE].
unfold w_final, ld_final.
assert (K : wdiv (wsub m (q0 s)) (q1 s) = k).
{ destruct I as [H1 H2 H3 H4 H5 H6 H7 H8]. unfold wdiv, wsub. rewrite (wrap_id (m - q0 s)) by lia. rewrite <- Fk. apply wrap_id. assert (k <= m) by (clear -Fd1 Fd1r H4 Fq1 Fk0; nia). lia. }
rewrite K, <- Fk. unfold wadd, wmul, wsub.
rewrite !(wrap_addr (q0 s)), !(wrap_addr (p0 s)), <- Fd1, <- Fn1.
assert (EB : nn s - k * dd s <= d0) by (clear -FbE Fq1 FE; nia).
assert (N1 : Z.abs n1 <= Z.abs n0 + 1).
{ apply (num_bound n1 d1 (- (t * (nn s - k * dd s)))); [lia| |assumption]. destruct Ft as [e|e]; rewrite e; lia. }
rewrite (wrap_id d1), (wrap_id n1) by lia.
rewrite !wrap_sub. rewrite Fe1, Fe2.
assert (DB : dd s <= d0) by (clear -FbD FD m_pos; nia).
assert (X1 : wrap (t * dd s) = t * dd s) by (apply wrap_id; destruct Ft as [e|e]; rewrite e; lia).
assert (X2 : wrap (- (t * (nn s - k * dd s))) = - (t * (nn s - k * dd s))) by (apply wrap_id; destruct Ft as [e|e]; rewrite e; lia).
rewrite X1, X2.
assert (Y1 : - d0 <= d1 * (t * dd s) <= d0) by (clear -Ft FbD Fd1r FD; destruct Ft as [e|e]; rewrite e; nia).
assert (Y2 : - d0 <= q1 s * - (t * (nn s - k * dd s)) <= d0) by (clear -Ft FbE Fq1 FE; destruct Ft as [e|e]; rewrite e; nia).
unfold wabs. rewrite !(wrap_id (_ * _)) by lia. rewrite !(wrap_id (Z.abs _)) by lia. reflexivity.
Qed.
End Int64.

Lemma w_limit_denominator1_ok n d m fuel : 1 <= m < 2 ^ 62 -> 1 <= d < 2 ^ 62 -> - 2 ^ 62 < n < 2 ^ 62 ->
  Z.gcd n d = 1 -> (Z.to_nat d < fuel)%nat ->
  w_limit_denominator1 fuel n d m = limit_denominator1 fuel n d m.
Proof.
intros Hm Hd Hn g L. unfold w_limit_denominator1, limit_denominator1.
destruct (Z.lt_ge_cases m d) as [l|l].
- assert (I := inv_init n d m l ltac:(lia) g).
  rewrite w_loop1_ok with (n0 := n) by (assumption || lia).
  destruct (loop_ok n d m l ltac:(lia) g fuel (ld_init n d) I L) as [s [E [I' S]]].
  rewrite E. simpl. f_equal. apply w_final_ok; assumption || lia.
- destruct fuel as [|f]; [lia|]. simpl.
  replace (ld_stop m d (ld_init n d)) with true
    by (symmetry; unfold ld_stop; destruct (Z.leb_spec d m); [apply orb_true_r|lia]).
  replace (w_stop m d (ld_init n d)) with true
    by (symmetry; unfold w_stop; destruct (Z.leb_spec d m); [apply orb_true_r|lia]).
  simpl. unfold w_final, ld_final. cbn [ld_init p0 q0 p1 q1 nn dd].
  destruct (Z.ltb_spec d m); [reflexivity|].
  unfold wdiv. rewrite !Zdiv_0_r. unfold wmul, wadd, wsub, wabs.
  repeat (rewrite (wrap_id 0) || rewrite ?Z.mul_0_l, ?Z.mul_0_r, ?Z.add_0_r, ?Z.add_0_l, ?Z.mul_1_l, ?Z.sub_0_r
    || rewrite (wrap_id 1) || rewrite (wrap_id d) || rewrite (wrap_id (0 - n)) || rewrite (wrap_id n) || rewrite (wrap_id (Z.abs d)) || rewrite (wrap_id (Z.abs 0))); try (simpl Z.abs; lia).
  reflexivity.
Qed.
