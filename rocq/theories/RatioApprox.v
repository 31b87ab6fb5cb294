(** RatioApprox: as_approx_integer_ratio and round_to_sqrt_rational (C17, C64). *)
From Coq Require Import ZArith Lia List Bool Znumtheory.
Import ListNotations.
From Verif Require Import Base Ratio RatioProofs.
Local Open Scope Z_scope.

(** The standard model of floating-point division: relative error at most 2^-53. *)
Definition fdiv_ok (fdiv : Z -> Z -> Z * Z) : Prop :=
  forall a b, 0 <= a -> 0 < b ->
  0 < snd (fdiv a b) /\
  2 ^ 53 * Z.abs (fst (fdiv a b) * b - a * snd (fdiv a b)) <= a * snd (fdiv a b).

(** Exact division meets it. *)
Lemma exact_div_ok : fdiv_ok (fun a b => (a, b)).
Proof. intros a b ha hb. simpl fst; simpl snd. split; [assumption|]. replace (a * b - a * b) with 0 by ring. simpl Z.abs. nia. Qed.

Lemma round_div_ok a b : 0 < b -> 2 * Z.abs (round_div a b * b - a) <= b.
Proof.
intros hb. unfold round_div.
assert (h := Z.div_mod a b ltac:(lia)). assert (h' := Z.mod_pos_bound a b hb).
set (q := a / b) in *. set (r := a mod b) in *.
destruct (Z.ltb_spec (2 * r) b); [nia|]. destruct (Z.ltb_spec b (2 * r)); [nia|].
destruct (Z.even q); nia.
Qed.

(** n/d approximates N/D with relative error at most 1/e. *)
Definition close (e N D n d : Z) : Prop := e * Z.abs (N * d - n * D) <= Z.abs N * d.

Lemma big_eq : big = 2 ^ 51. Proof. reflexivity. Qed.

Section Approx.
Variable fdiv : Z -> Z -> Z * Z.
Hypothesis F : fdiv_ok fdiv.

Lemma pos_spec N D : 0 < N <= D -> 0 < D ->
  exists n d, as_approx_integer_ratio_pos fdiv N D = Ok (n, d) /\ n = N * 2 ^ 51 / D /\
  0 <= n <= 2 ^ 51 /\ 1 <= d <= 2 ^ 51 + 1 /\ (n = 0 -> d = 1) /\ (1 <= n -> close (2 ^ 50) N D n d).
Proof.
intros HN HD. unfold as_approx_integer_ratio_pos.
destruct (Z.ltb_spec 0 N) as [_|]; [|lia]. destruct (Z.leb_spec N D) as [_|]; [|lia].
simpl rbind. rewrite big_eq.
assert (h := Z.div_mod (N * 2 ^ 51) D ltac:(lia)). assert (h' := Z.mod_pos_bound (N * 2 ^ 51) D HD).
set (n := N * 2 ^ 51 / D) in *. set (r0 := (N * 2 ^ 51) mod D) in *.
assert (n0 : 0 <= n) by (apply Z.div_pos; lia).
assert (n1 : n <= 2 ^ 51).
{ unfold n. apply Z.div_le_upper_bound; [assumption|]. rewrite (Z.mul_comm D), (Z.mul_comm N).
  apply Z.mul_le_mono_nonneg_l; lia. }
destruct (F (n * D) N) as [S B]; [nia|lia|].
set (s := snd (fdiv (n * D) N)) in *. set (r := fst (fdiv (n * D) N)) in *.
assert (R := round_div_ok r s S). set (d := round_div r s) in *.
eexists _, _. split; [reflexivity|]. split; [reflexivity|].
split; [lia|].
assert (K1 : Z.abs (N * d - n * D) * 4 <= 3 * N).
{ assert (E : n * D <= N * 2 ^ 51) by (rewrite h; rewrite (Z.mul_comm n); lia).
  assert (T1 : 2 * Z.abs (N * (d * s - r)) <= N * s).
  { rewrite Z.abs_mul, (Z.abs_eq N) by lia. clear -R HN. nia. }
  assert (T2 : 4 * Z.abs (r * N - n * D * s) <= N * s).
  { assert (n * D * s <= N * 2 ^ 51 * s) by (apply Z.mul_le_mono_nonneg_r; lia). lia. }
  assert (T3 : 4 * Z.abs ((N * d - n * D) * s) <= 3 * N * s).
  { replace ((N * d - n * D) * s) with (N * (d * s - r) + (r * N - n * D * s)) by ring. lia. }
  rewrite Z.abs_mul, (Z.abs_eq s) in T3 by lia.
  apply (Z.mul_le_mono_pos_r _ _ s S). lia. }
assert (K2 : n * D <= N * 2 ^ 51) by (rewrite h; rewrite (Z.mul_comm n); lia).
assert (Ub : d <= 2 ^ 51 + 1).
{ assert (N * d <= N * (2 ^ 51 + 1)) by lia. apply (Z.mul_le_mono_pos_l _ _ N); lia. }
assert (C1 : 1 <= n -> 2 ^ 50 <= d).
{ intros h1. assert (N * 2 ^ 51 < (n + 1) * D) by (rewrite h; rewrite Z.mul_add_distr_r, (Z.mul_comm n); lia).
  assert ((n + 1) * D <= 2 * (n * D)) by (clear -HD h1; nia).
  assert (N * (2 ^ 50 - 1) < N * d) by lia. apply Z.mul_lt_mono_pos_l in H1; lia. }
assert (C0 : n = 0 -> d = 0).
{ intros e. rewrite e in K1. assert (Z.abs (N * d) * 4 <= 3 * N) by lia.
  rewrite Z.abs_mul, (Z.abs_eq N) in H by lia. assert (Z.abs d < 1); [|lia].
  apply (Z.mul_lt_mono_pos_l N); lia. }
split.
- destruct (Z.eqb_spec d 0); [lia|]. destruct (Z.eq_dec n 0) as [e|e]; [now specialize (C0 e)|]. specialize (C1 ltac:(lia)). lia.
- split.
  + intros e. now rewrite (C0 e).
  + intros h1. specialize (C1 h1). destruct (Z.eqb_spec d 0); [lia|]. unfold close.
    rewrite (Z.abs_eq N) by lia. assert (N * 2 ^ 50 <= N * d) by (apply Z.mul_le_mono_nonneg_l; lia). lia.
Qed.

Lemma close_normalize e N D n d s : 0 <= e -> 0 < D -> 0 < d -> (s = 1 \/ s = -1) -> close e N D n d ->
  let (n', d') := normalize_integer_ratio (s * n) d in
  0 < d' /\ Z.gcd n' d' = 1 /\ close e (s * N) D n' d' /\ n' * d = s * n * d'.
Proof.
intros e0 D0 d0 Hs C. assert (h := normalize_ok (s * n) d ltac:(lia)).
destruct (normalize_integer_ratio (s * n) d) as [n' d']. destruct h as [h1 [h2 h3]].
split; [assumption|split; [assumption|split; [|assumption]]].
unfold close in *.
assert (E : Z.abs (s * N * d' - n' * D) * d = Z.abs (N * d - n * D) * d').
{ rewrite <- (Z.abs_eq d) at 1 by lia. rewrite <- (Z.abs_eq d') at 2 by lia. rewrite <- !Z.abs_mul.
  replace ((s * N * d' - n' * D) * d) with (s * ((N * d - n * D) * d')).
  - destruct Hs as [e1|e1]; rewrite e1; lia.
  - replace ((s * N * d' - n' * D) * d) with (s * N * d' * d - D * (n' * d)) by ring. rewrite h1. ring. }
assert (A : Z.abs (s * N) = Z.abs N) by (destruct Hs as [e1|e1]; rewrite e1; lia). rewrite A.
apply (Z.mul_le_mono_pos_r _ _ d d0).
rewrite <- Z.mul_assoc, E.
replace (Z.abs N * d' * d) with (Z.abs N * d * d') by ring. rewrite Z.mul_assoc.
apply Z.mul_le_mono_nonneg_r; lia.
Qed.

Lemma normalize_small n d B : 0 < d -> Z.abs n <= B -> d <= B ->
  let (n', d') := normalize_integer_ratio n d in Z.abs n' <= B /\ d' <= B.
Proof.
intros d0 hn hd. unfold normalize_integer_ratio. destruct (Z.ltb_spec d 0); [lia|].
assert (g0 : 1 <= Z.gcd n d).
{ assert (h := Z.gcd_nonneg n d). assert (Z.gcd n d <> 0) by (intro e; apply Z.gcd_eq_0_r in e; lia). lia. }
destruct (Z.gcd_divide_l n d) as [a Ha]. destruct (Z.gcd_divide_r n d) as [b Hb].
set (g := Z.gcd n d) in *.
replace (n / g) with a by (rewrite Ha at 1; symmetry; apply Z.div_mul; lia).
replace (d / g) with b by (rewrite Hb at 1; symmetry; apply Z.div_mul; lia).
assert (Z.abs a <= Z.abs n) by (rewrite Ha, Z.abs_mul; nia).
assert (b <= d) by (rewrite Hb; nia). lia.
Qed.

(** The reciprocal branch: (n, d) approximates the computed reciprocal y = N'/D' of N/D;
    then d/n approximates N/D. *)
Lemma close_inv N D N' D' n d : 0 < N -> 0 < D -> 0 < N' -> 0 < D' -> 0 < n -> 0 < d ->
  2 ^ 53 * Z.abs (N' * N - D * D') <= D * D' -> close (2 ^ 50) N' D' n d ->
  close (2 ^ 49) N D d n.
Proof.
unfold close. intros N0 D0 N0' D0' n0 d0 E C.
rewrite (Z.abs_eq N') in C by lia. rewrite (Z.abs_eq N) by lia.
set (e1 := n * D' - N' * d).
assert (A1 : 2 ^ 50 * Z.abs (N * e1) <= N * N' * d).
{ rewrite Z.abs_mul, (Z.abs_eq N) by lia.
  replace (Z.abs e1) with (Z.abs (N' * d - n * D')) by (unfold e1; lia).
  rewrite (Z.mul_comm N), Z.mul_assoc, (Z.mul_comm _ N). rewrite <- (Z.mul_assoc N N').
  apply Z.mul_le_mono_nonneg_l; lia. }
assert (A2 : 2 ^ 53 * Z.abs (N * N' * d - D * D' * d) <= D * D' * d).
{ replace (N * N' * d - D * D' * d) with ((N' * N - D * D') * d) by ring.
  rewrite Z.abs_mul, (Z.abs_eq d) by lia. rewrite Z.mul_assoc. apply Z.mul_le_mono_nonneg_r; lia. }
assert (EQ : (N * n - d * D) * D' = (N * N' * d - D * D' * d) + N * e1) by (unfold e1; ring).
assert (EN : N * n * D' = N * N' * d + N * e1) by (unfold e1; ring).
apply (Z.mul_le_mono_pos_r _ _ D' D0').
rewrite EN. rewrite <- Z.mul_assoc. rewrite <- (Z.abs_eq D') at 1 by lia. rewrite <- Z.abs_mul, EQ.
assert (0 < D * D' * d) by (apply Z.mul_pos_pos; [apply Z.mul_pos_pos|]; lia).
lia.
Qed.

Lemma fdiv_pos a b : 0 < a -> 0 < b -> 0 < fst (fdiv a b).
Proof.
intros ha hb. destruct (F a b ltac:(lia) hb) as [S B].
set (s := snd (fdiv a b)) in *. set (r := fst (fdiv a b)) in *.
assert (0 < a * s) by (apply Z.mul_pos_pos; assumption).
assert (0 < r * b) by lia. clear -H0 hb. nia.
Qed.

(** What the result (n, d) must satisfy for x = N/D. *)
Definition approx_ok (N D n d : Z) : Prop :=
  0 < d /\ Z.gcd n d = 1 /\ Z.abs n <= 2 ^ 51 + 1 /\ d <= 2 ^ 51 + 1 /\
  (close (2 ^ 49) N D n d /\ Z.sgn n = Z.sgn N \/ n = 0 /\ d = 1 /\ Z.abs N * 2 ^ 51 < D).

Lemma close_weaken e e' N D n d : 0 <= e' <= e -> close e N D n d -> close e' N D n d.
Proof.
unfold close. intros h c.
assert (e' * Z.abs (N * d - n * D) <= e * Z.abs (N * d - n * D)) by (apply Z.mul_le_mono_nonneg_r; lia). lia.
Qed.

Lemma finish N D n d s : 0 < D -> 0 < N -> s = 1 \/ s = -1 -> 0 < n <= 2 ^ 51 + 1 -> 0 < d <= 2 ^ 51 + 1 ->
  close (2 ^ 49) N D n d ->
  let (n', d') := normalize_integer_ratio (s * n) d in approx_ok (s * N) D n' d'.
Proof.
intros D0 N0 Hs Hn Hd C.
assert (h := close_normalize (2 ^ 49) N D n d s ltac:(lia) D0 ltac:(lia) Hs C).
assert (h2 := normalize_small (s * n) d (2 ^ 51 + 1) ltac:(lia) ltac:(destruct Hs as [e|e]; rewrite e; lia) ltac:(lia)).
destruct (normalize_integer_ratio (s * n) d) as [n' d']. destruct h as [h1 [h3 [h4 h5]]]. destruct h2 as [h6 h7].
unfold approx_ok. split; [assumption|]. split; [assumption|]. split; [assumption|]. split; [assumption|]. left.
split; [assumption|].
assert (Z.sgn n' = s).
{ assert (hs : Z.sgn (n' * d) = Z.sgn (s * n * d')) by now rewrite h5.
  rewrite !Z.sgn_mul in hs.
  rewrite (Z.sgn_pos d), (Z.sgn_pos d'), (Z.sgn_pos n) in hs by lia. destruct Hs as [e|e]; rewrite e in *; lia. }
rewrite H, Z.sgn_mul, (Z.sgn_pos N) by lia. destruct Hs as [e|e]; rewrite e; reflexivity.
Qed.

Lemma sgn_abs N : N <> 0 -> (Z.sgn N = 1 \/ Z.sgn N = -1) /\ Z.sgn N * Z.abs N = N.
Proof. lia. Qed.

Lemma approx_zero D : 0 < D -> as_approx_integer_ratio fdiv 0 D = Ok (0, 1).
Proof.
intros D0. unfold as_approx_integer_ratio. cbn [Z.sgn Z.abs]. change (0 =? 0) with true. cbv iota beta.
destruct (F 1 1 ltac:(lia) ltac:(lia)) as [S B]. assert (P := fdiv_pos 1 1 ltac:(lia) ltac:(lia)).
destruct (fdiv 1 1) as [yn yd]. cbn [fst snd] in *.
destruct (Z.leb_spec 1 1) as [_|]; [|lia]. simpl fst; simpl snd.
destruct (pos_spec 1 1 ltac:(lia) ltac:(lia)) as [n [d [E1 _]]]. rewrite E1. simpl rbind.
destruct (Z.leb_spec yn yd) as [h|h]; cbn [fst snd];
[destruct (pos_spec yn yd ltac:(lia) ltac:(lia)) as [n2 [d2 [E2 _]]]; rewrite E2 | rewrite E1];
 simpl rbind; destruct (Z.leb_spec 0 D); reflexivity || lia.
Qed.

Lemma approx_le1 N D : 0 < D -> N <> 0 -> Z.abs N <= D ->
  exists n d, as_approx_integer_ratio fdiv N D = Ok (n, d) /\ approx_ok N D n d.
Proof.
intros D0 Nn L. destruct (sgn_abs N Nn) as [Hs Es].
unfold as_approx_integer_ratio.
set (s := Z.sgn N) in *. set (A := Z.abs N) in *.
assert (A0 : 0 < A) by (unfold A; lia). destruct (Z.eqb_spec A 0) as [|_]; [lia|].
destruct (F D A ltac:(lia) A0) as [S B]. assert (P := fdiv_pos D A D0 A0).
destruct (fdiv D A) as [yn yd]. cbn [fst snd] in *.
destruct (Z.leb_spec A D) as [_|]; [|lia]. cbn [fst snd].
destruct (pos_spec A D ltac:(lia) D0) as [n [d [E1 [En [Bn [Bd [Z0 C]]]]]]]. rewrite E1. simpl rbind.
assert (E2 : exists r, as_approx_integer_ratio_pos fdiv (fst (if yn <=? yd then (yn, yd) else (1, 1)))
   (snd (if yn <=? yd then (yn, yd) else (1, 1))) = Ok r).
{ destruct (Z.leb_spec yn yd) as [h|h]; cbn [fst snd].
  - destruct (pos_spec yn yd ltac:(lia) ltac:(lia)) as [n2 [d2 [E2 _]]]. now exists (n2, d2).
  - destruct (pos_spec 1 1 ltac:(lia) ltac:(lia)) as [n2 [d2 [E2 _]]]. now exists (n2, d2). }
destruct E2 as [r E2]. rewrite E2. simpl rbind.
destruct (Z.ltb_spec 0 d) as [_|]; [|lia]. simpl rbind.
destruct (Z.eq_dec n 0) as [e|e].
- specialize (Z0 e). rewrite e, Z0. rewrite Z.mul_0_r. exists 0, 1. split; [reflexivity|].
  unfold approx_ok. split; [lia|]. split; [reflexivity|]. split; [cbn; lia|]. split; [lia|]. right. split; [reflexivity|split; [reflexivity|]].
  fold A. rewrite e in En. symmetry in En. apply Z.div_small_iff in En; [|lia]. lia.
- specialize (C ltac:(lia)).
  assert (h := finish A D n d s D0 A0 Hs ltac:(lia) ltac:(lia) (close_weaken (2 ^ 50) (2 ^ 49) _ _ _ _ ltac:(lia) C)).
  destruct (normalize_integer_ratio (s * n) d) as [n' d']. rewrite Es in h. now exists n', d'.
Qed.

(** Above 1: everything turns on the computed reciprocal y = yn/yd. *)
Lemma approx_gt1 N D : 0 < D -> D < Z.abs N ->
  snd (fdiv D (Z.abs N)) <= fst (fdiv D (Z.abs N)) * 2 ^ 51 ->
  exists n d, as_approx_integer_ratio fdiv N D = Ok (n, d) /\ approx_ok N D n d.
Proof.
intros D0 L Y. destruct (sgn_abs N ltac:(lia)) as [Hs Es].
unfold as_approx_integer_ratio.
set (s := Z.sgn N) in *. set (A := Z.abs N) in *.
assert (A0 : 0 < A) by (unfold A; lia). destruct (Z.eqb_spec A 0) as [|_]; [lia|].
destruct (F D A ltac:(lia) A0) as [S B]. assert (P := fdiv_pos D A D0 A0).
destruct (fdiv D A) as [yn yd]. cbn [fst snd] in *.
destruct (Z.leb_spec A D) as [|_]; [lia|]. cbn [fst snd].
destruct (pos_spec 1 1 ltac:(lia) ltac:(lia)) as [n [d [E1 _]]]. rewrite E1. simpl rbind.
set (b := if yn <=? yd then (yn, yd) else (1, 1)).
assert (Hb : 0 < fst b <= snd b /\ snd b <= fst b * 2 ^ 51 /\ 2 ^ 53 * Z.abs (fst b * A - D * snd b) <= D * snd b).
{ unfold b. destruct (Z.leb_spec yn yd) as [h|h]; cbn [fst snd]; [lia|]. split; [lia|split; [lia|]].
  rewrite !Z.mul_1_l, Z.mul_1_r.
  assert (yd * A <= yn * A) by (apply Z.mul_le_mono_nonneg_r; lia).
  assert (T : 2 ^ 53 * (A - D) * yd <= D * yd).
  { assert (2 ^ 53 * ((A - D) * yd) <= D * yd); [|lia].
    replace ((A - D) * yd) with (yd * A - D * yd) by ring. lia. }
  apply Z.mul_le_mono_pos_r in T; [|assumption]. rewrite Z.abs_eq by lia. lia. }
destruct Hb as [b0 [b1 b2]].
destruct (pos_spec (fst b) (snd b) b0 ltac:(lia)) as [n2 [d2 [E2 [En [Bn [Bd [Z0 C]]]]]]].
rewrite E2. simpl rbind.
assert (n1 : 1 <= n2) by (rewrite En; apply Z.div_le_lower_bound; lia).
destruct (Z.ltb_spec 0 n2) as [_|]; [|lia]. simpl rbind.
assert (C2 := close_inv A D (fst b) (snd b) n2 d2 A0 D0 ltac:(lia) ltac:(lia) ltac:(lia) ltac:(lia) b2 (C n1)).
assert (h := finish A D d2 n2 s D0 A0 Hs ltac:(lia) ltac:(lia) C2).
destruct (normalize_integer_ratio (s * d2) n2) as [n' d']. rewrite Es in h. now exists n', d'.
Qed.

Lemma approx_raises N D : 0 < D -> D < Z.abs N ->
  fst (fdiv D (Z.abs N)) * 2 ^ 51 < snd (fdiv D (Z.abs N)) ->
  as_approx_integer_ratio fdiv N D = Err AssertionError.
Proof.
intros D0 L Y. unfold as_approx_integer_ratio.
set (s := Z.sgn N) in *. set (A := Z.abs N) in *.
assert (A0 : 0 < A) by (unfold A; lia). destruct (Z.eqb_spec A 0) as [|_]; [lia|].
destruct (F D A ltac:(lia) A0) as [S B]. assert (P := fdiv_pos D A D0 A0).
destruct (fdiv D A) as [yn yd]. cbn [fst snd] in *.
destruct (Z.leb_spec A D) as [|_]; [lia|]. cbn [fst snd].
destruct (pos_spec 1 1 ltac:(lia) ltac:(lia)) as [n [d [E1 _]]]. rewrite E1. simpl rbind.
destruct (Z.leb_spec yn yd) as [h|h]; [|lia]. cbn [fst snd].
destruct (pos_spec yn yd ltac:(lia) ltac:(lia)) as [n2 [d2 [E2 [En _]]]].
rewrite E2. simpl rbind.
rewrite Z.div_small in En by lia. rewrite En. reflexivity.
Qed.

Lemma recip_bound N D : 0 < D -> 0 < N ->
  (4 * N <= (2 ^ 53 - 1) * D -> snd (fdiv D N) <= fst (fdiv D N) * 2 ^ 51) /\
  ((2 ^ 53 + 1) * D < 4 * N -> fst (fdiv D N) * 2 ^ 51 < snd (fdiv D N)).
Proof.
intros D0 N0. destruct (F D N ltac:(lia) N0) as [S B].
set (s := snd (fdiv D N)) in *. set (r := fst (fdiv D N)) in *.
split; intros h.
- assert (4 * N * s <= (2 ^ 53 - 1) * D * s) by (apply Z.mul_le_mono_nonneg_r; lia).
  apply (Z.mul_le_mono_pos_l _ _ N N0). lia.
- assert ((2 ^ 53 + 1) * D * s < 4 * N * s) by (apply Z.mul_lt_mono_pos_r; lia).
  apply (Z.mul_lt_mono_pos_l N); lia.
Qed.

Lemma approx_small N D : 0 < D -> 4 * Z.abs N <= (2 ^ 53 - 1) * D ->
  exists n d, as_approx_integer_ratio fdiv N D = Ok (n, d) /\ approx_ok N D n d.
Proof.
intros D0 h. destruct (Z.eq_dec N 0) as [e|e].
- rewrite e, approx_zero by assumption. exists 0, 1. split; [reflexivity|]. unfold approx_ok, close. simpl. lia.
- destruct (Z.le_gt_cases (Z.abs N) D); [now apply approx_le1|].
  apply approx_gt1; try assumption. now apply recip_bound; [|lia|].
Qed.

(** ** round_to_sqrt_rational *)
Lemma frac_unique p q p' q' : Z.gcd p q = 1 -> Z.gcd p' q' = 1 -> 0 < q -> 0 < q' -> p * q' = p' * q -> p = p' /\ q = q'.
Proof.
intros g g' h h' E.
assert (D1 : (q | q')).
{ apply Z.gauss with p; [rewrite E; exists p'; ring|now rewrite Z.gcd_comm]. }
assert (D2 : (q' | q)).
{ apply Z.gauss with p'; [rewrite <- E; exists p; ring|now rewrite Z.gcd_comm]. }
assert (q = q') by (apply Z.divide_antisym_nonneg; [lia|lia|assumption|assumption]). split; [|assumption].
rewrite H in E. apply Z.mul_reg_r in E; lia.
Qed.

Lemma abs_lt1 a : Z.abs a < 1 -> a = 0. Proof. lia. Qed.
Lemma abs_tri a b c : Z.abs (a - b) <= Z.abs (a - c) + Z.abs (c - b). Proof. lia. Qed.

(** |n/d - p/q| <= |p/q| / e, 2 p m < e, q < m: limit_denominator recovers p/q. *)
Lemma limit_recovers n d p q m e fuel : 0 < d -> Z.gcd n d = 1 -> 0 <= p -> 0 < q < m -> Z.gcd p q = 1 ->
  close e p q n d -> 2 * p * m < e -> (Z.to_nat d < fuel)%nat ->
  limit_denominator1 fuel n d m = Ok (p, q).
Proof.
intros d0 g p0 Hq g' C Sm L. unfold close in C. rewrite (Z.abs_eq p) in C by lia.
assert (e0 : 0 < e) by (assert (0 <= 2 * p * m) by (apply Z.mul_nonneg_nonneg; lia); lia).
assert (K : forall a b, 0 < b <= m -> Z.gcd a b = 1 ->
   Z.abs (a * d - n * b) * q <= Z.abs (p * d - n * q) * b -> (a, b) = (p, q)).
{ intros a b Hb gb H.
  assert (Z.abs (a * q - p * b) < 1).
  { apply (Z.mul_lt_mono_pos_r (e * d)); [apply Z.mul_pos_pos; lia|].
    assert (T : Z.abs (a * q - p * b) * d <= 2 * (Z.abs (p * d - n * q) * b)).
    { rewrite <- (Z.abs_eq d) at 1 by lia. rewrite <- Z.abs_mul.
      replace ((a * q - p * b) * d) with (q * (a * d - n * b) - b * (p * d - n * q)) by ring.
      assert (X : Z.abs (q * (a * d - n * b)) = Z.abs (a * d - n * b) * q) by (rewrite Z.abs_mul, (Z.abs_eq q) by lia; ring).
      assert (Y : Z.abs (b * (p * d - n * q)) = Z.abs (p * d - n * q) * b) by (rewrite Z.abs_mul, (Z.abs_eq b) by lia; ring).
      lia. }
    assert (T2 : e * (Z.abs (p * d - n * q) * b) <= p * d * b).
    { rewrite Z.mul_assoc. apply Z.mul_le_mono_nonneg_r; lia. }
    assert (T3 : p * d * b <= p * d * m) by (apply Z.mul_le_mono_nonneg_l; [apply Z.mul_nonneg_nonneg|]; lia).
    assert (T4 : 2 * p * m * d < e * d) by (apply Z.mul_lt_mono_pos_r; lia).
    assert (T5 : e * (Z.abs (a * q - p * b) * d) <= e * (2 * (Z.abs (p * d - n * q) * b))) by (apply Z.mul_le_mono_nonneg_l; lia).
    lia. }
  apply abs_lt1 in H0. destruct (frac_unique a b p q gb g' ltac:(lia) ltac:(lia) ltac:(lia)) as [-> ->]. reflexivity. }
destruct (Z.lt_ge_cases m d) as [l|l].
- destruct (limit_denominator1_gt n d m fuel ltac:(lia) l g L) as [a [b [E [[Hb B] gb]]]].
  rewrite E. f_equal. apply K; [lia|assumption|]. apply B. lia.
- assert (E : (n, d) = (p, q)).
  { apply K; [lia|assumption|]. replace (n * d - n * d) with 0 by ring. rewrite Z.abs_0, Z.mul_0_l; apply Z.mul_nonneg_nonneg; lia. }
  injection E as -> ->. apply limit_denominator1_lt; lia.
Qed.

(** x**2 = N2/D2 within relative error 2^-50 of p/q: the result is sqrt(p/q). *)
Lemma sqrt_recovers sg N2 D2 p q M fuel : 0 <= p -> 0 < q <= M * M -> Z.gcd p q = 1 -> 0 <= N2 -> 0 < D2 ->
  close (2 ^ 50) p q N2 D2 ->
  2 * p * (M * M + 1) < 2 ^ 48 -> (Z.to_nat (2 ^ 52) < fuel)%nat ->
  round_to_sqrt_rational1 fdiv fuel sg N2 D2 M = Ok (sg, p, q).
Proof.
intros p0 Hq g N0 D0 C Sm L. unfold round_to_sqrt_rational1.
unfold close in C. rewrite (Z.abs_eq p) in C by lia.
assert (qp : 0 < q) by lia.
assert (mm : 1 <= M * M) by lia.
assert (psm : p < 2 ^ 46).
{ assert (p * 2 <= p * (M * M + 1)) by (apply Z.mul_le_mono_nonneg_l; lia). lia. }
assert (Sx : 4 * Z.abs N2 <= (2 ^ 53 - 1) * D2).
{ rewrite Z.abs_eq by lia. apply (Z.mul_le_mono_pos_r _ _ q qp).
  assert (p * D2 <= 2 ^ 46 * D2) by (apply Z.mul_le_mono_nonneg_r; lia).
  assert (D2 * 1 <= D2 * q) by (apply Z.mul_le_mono_nonneg_l; lia). lia. }
destruct (approx_small N2 D2 D0 Sx) as [n [d [E A]]]. rewrite E. simpl rbind. cbn [fst snd].
destruct A as [d0 [gn [bn [bd A]]]].
rewrite (limit_recovers n d p q (M * M + 1) (2 ^ 48) fuel); try assumption; try lia; [reflexivity| ].
unfold close. rewrite (Z.abs_eq p) by lia.
destruct A as [[A _]|[-> [-> A]]].
- unfold close in A. rewrite (Z.abs_eq N2) in A by lia.
  apply (Z.mul_le_mono_pos_r _ _ D2 D0).
  rewrite <- Z.mul_assoc. rewrite <- (Z.abs_eq D2) at 1 by lia. rewrite <- Z.abs_mul.
  replace ((p * d - n * q) * D2) with ((p * D2 - N2 * q) * d + (N2 * d - n * D2) * q) by ring.
  assert (X : 2 ^ 50 * Z.abs ((p * D2 - N2 * q) * d) <= p * D2 * d).
  { rewrite Z.abs_mul, (Z.abs_eq d), Z.mul_assoc by lia. apply Z.mul_le_mono_nonneg_r; lia. }
  assert (Y : 2 ^ 49 * Z.abs ((N2 * d - n * D2) * q) <= N2 * d * q).
  { rewrite Z.abs_mul, (Z.abs_eq q), Z.mul_assoc by lia. apply Z.mul_le_mono_nonneg_r; lia. }
  assert (W : N2 * q * d <= 2 * (p * D2 * d)).
  { rewrite (Z.mul_assoc 2). apply Z.mul_le_mono_nonneg_r; [lia|]. lia. }
  lia.
- rewrite (Z.abs_eq N2) in A by lia.
  destruct (Z.eq_dec p 0) as [->|pn]; [simpl; lia|]. exfalso.
  (* p/q >= 1/q > 2^-47, so x**2 is not tiny *)
  assert (qs : q * 2 <= 2 ^ 48).
  { assert (1 * (M * M + 1) <= p * (M * M + 1)) by (apply Z.mul_le_mono_nonneg_r; lia). lia. }
  assert (U : N2 * 2 ^ 51 * q < D2 * q) by (apply Z.mul_lt_mono_pos_r; lia).
  assert (V : 1 * D2 <= p * D2) by (apply Z.mul_le_mono_nonneg_r; lia).
  assert (V2 : D2 * (q * 2) <= D2 * 2 ^ 48) by (apply Z.mul_le_mono_nonneg_l; lia).
  lia.
Qed.
End Approx.
