(** Properties C14-C17 and C64: rational rounding (lie_nn/_src/util.py 22-93). *)
From Coq Require Import ZArith Lia List Bool.
Import ListNotations.
From Verif Require Import Base Ratio RatioProofs RatioApprox.
Local Open Scope Z_scope.

(** ** C14: normalize_integer_ratio *)
Theorem C14_normalize n d : d <> 0 ->
  let (n', d') := normalize_integer_ratio n d in
  n' * d = n * d' /\ 0 < d' /\ Z.gcd n' d' = 1.
Proof. exact (normalize_ok n d). Qed.
(** The zero denominator is not rejected: the sign of the numerator or 0 comes out, over 0. *)
Theorem C14_zero_denominator n : n <> 0 -> normalize_integer_ratio n 0 = (Z.sgn n, 0).
Proof.
intros h. unfold normalize_integer_ratio. rewrite Z.gcd_0_r. change (0 <? 0) with false. cbv iota zeta.
rewrite (Z.div_0_l (Z.abs n)) by lia. f_equal. symmetry. apply Z.div_unique_exact; lia.
Qed.
Example C14_example : normalize_integer_ratio 6 (-4) = (-3, 2) /\ -4 <> 0.
Proof. split; [reflexivity|lia]. Qed.

(** ** C15: limit_denominator *)
(** The closest fractions of denominator at most m, above the bound; the loop terminates. *)
Theorem C15_best_approximation n d m : 1 <= m -> m < d -> Z.gcd n d = 1 ->
  exists p q, (forall fuel, (Z.to_nat d < fuel)%nat -> limit_denominator1 fuel n d m = Ok (p, q)) /\
  Z.gcd p q = 1 /\ 1 <= q <= m /\
  (* |p/q - n/d| <= |p'/q' - n/d| for every p'/q' with q' <= m *)
  forall p' q', 1 <= q' <= m -> Z.abs (p * d - n * q) * q' <= Z.abs (p' * d - n * q') * q.
Proof.
intros m1 md g.
destruct (limit_denominator1_gt n d m (S (Z.to_nat d)) m1 md g (Nat.lt_succ_diag_r _)) as [p [q [E [[Hq B] gq]]]].
exists p, q. split; [|now split; [|split]].
intros fuel L. destruct (limit_denominator1_gt n d m fuel m1 md g L) as [p' [q' [E' _]]]. rewrite E'.
assert (M : forall f s r, ld_loop1 f m d s = Ok r -> forall f', (f <= f')%nat -> ld_loop1 f' m d s = Ok r).
{ induction f as [|f IH]; intros s r; [discriminate|]. intros e f' l. destruct f' as [|f']; [lia|].
  simpl in *. destruct (ld_stop m d s); [assumption|]. apply IH; [assumption|lia]. }
unfold limit_denominator1 in *.
destruct (ld_loop1 (S (Z.to_nat d)) m d (ld_init n d)) as [s|] eqn:e; [|discriminate].
rewrite (M _ _ _ e fuel ltac:(lia)) in E'. congruence.
Qed.
(** Below the bound the fraction is returned unchanged. *)
Theorem C15_below_bound n d m fuel : d < m -> (0 < fuel)%nat -> limit_denominator1 fuel n d m = Ok (n, d).
Proof. exact (limit_denominator1_lt n d m fuel). Qed.
(** A denominator equal to the bound is rounded to 0/1, whatever the numerator: the property
    asks for n/d itself. *)
Theorem C15_boundary_refuted : forall n m fuel, 1 <= m -> (0 < fuel)%nat ->
  limit_denominator1 fuel n m m = Ok (0, 1).
Proof. exact limit_denominator1_eq. Qed.
(** The array loop runs until every element has stopped, and does not disturb the others. *)
Theorem C15_elementwise m fuel nds rs : (0 < fuel)%nat ->
  Forall2 (fun nd r => limit_denominator1 fuel (fst nd) (snd nd) m = Ok r) nds rs ->
  limit_denominator fuel nds m = Ok rs.
Proof. exact (limit_denominator_map m fuel nds rs). Qed.
Theorem C15_array_terminates m nds fuel : 1 <= m ->
  Forall (fun nd => 1 <= snd nd /\ Z.gcd (fst nd) (snd nd) = 1 /\ (Z.to_nat (snd nd) < fuel)%nat) nds ->
  (0 < fuel)%nat -> exists rs, limit_denominator fuel nds m = Ok rs /\ length rs = length nds.
Proof.
intros m1 H L.
assert (E : exists rs, Forall2 (fun nd r => limit_denominator1 fuel (fst nd) (snd nd) m = Ok r) nds rs).
{ induction H as [|[n d] nds [h1 [h2 h3]] H [rs IH]]; [exists nil; constructor|]. simpl in *.
  destruct (Z.lt_trichotomy d m) as [l|[l|l]].
  - exists ((n, d) :: rs). constructor; [now apply limit_denominator1_lt|assumption].
  - exists ((0, 1) :: rs). constructor; [|assumption]. rewrite l. now apply limit_denominator1_eq.
  - destruct (limit_denominator1_gt n d m fuel m1 l h2 h3) as [p [q [E _]]].
    exists ((p, q) :: rs). now constructor. }
destruct E as [rs E]. exists rs. split; [now apply limit_denominator_map|].
clear -E. induction E; simpl; congruence.
Qed.
Example C15_example : limit_denominator1 200 355 113 10 = Ok (22, 7) /\ Z.gcd 355 113 = 1 /\
  limit_denominator 200 [(355, 113); (1, 3); (3, 10); (-7, 12)] 10 = Ok [(22, 7); (1, 3); (0, 1); (-4, 7)].
Proof. repeat split; vm_compute; reflexivity. Qed.

(** ** C16: no overflow changes the result *)
Theorem C16_int64 n d m fuel : 1 <= m < 2 ^ 62 -> 1 <= d < 2 ^ 62 -> - 2 ^ 62 < n < 2 ^ 62 ->
  Z.gcd n d = 1 -> (Z.to_nat d < fuel)%nat ->
  w_limit_denominator1 fuel n d m = limit_denominator1 fuel n d m.
Proof. exact (w_limit_denominator1_ok n d m fuel). Qed.
(** The results of as_approx_integer_ratio are in that range. *)
Theorem C16_range fdiv N D n d : fdiv_ok fdiv -> 0 < D -> 4 * Z.abs N <= (2 ^ 53 - 1) * D ->
  as_approx_integer_ratio fdiv N D = Ok (n, d) ->
  1 <= d < 2 ^ 62 /\ - 2 ^ 62 < n < 2 ^ 62 /\ Z.gcd n d = 1.
Proof.
intros F D0 h E. destruct (approx_small fdiv F N D D0 h) as [n' [d' [E' [A1 [A2 [A3 [A4 _]]]]]]].
rewrite E in E'. injection E' as -> ->. split; [lia|split; [lia|assumption]].
Qed.
Example C16_example : w_limit_denominator1 200 355 113 10 = Ok (22, 7) /\
  (* the intermediate product does overflow *) wmul (2 ^ 61) (2 ^ 61 - 1) <> 2 ^ 61 * (2 ^ 61 - 1).
Proof. split; [vm_compute; reflexivity|vm_compute; discriminate]. Qed.

(** ** C17: as_approx_integer_ratio.  x = N/D; [fdiv_ok] bounds the relative error of the
    floating-point divisions by 2^-53.  The doubles of magnitude below 2^51 are multiples of
    1/4 near 2^51, hence at most 2^51 - 1/4; those above are at least 2^51 + 1/2. *)
Theorem C17_accuracy fdiv N D : fdiv_ok fdiv -> 0 < D -> 4 * Z.abs N <= (2 ^ 53 - 1) * D ->
  exists n d, as_approx_integer_ratio fdiv N D = Ok (n, d) /\ 0 < d /\ Z.gcd n d = 1 /\
  ((* |x - n/d| <= 2^-49 |x| *) 2 ^ 49 * Z.abs (N * d - n * D) <= Z.abs N * d /\ Z.sgn n = Z.sgn N \/
   (* |x| < 2^-51 *) n = 0 /\ d = 1 /\ Z.abs N * 2 ^ 51 < D).
Proof.
intros F D0 h. destruct (approx_small fdiv F N D D0 h) as [n [d [E [A1 [A2 [_ [_ A]]]]]]].
now exists n, d.
Qed.
(** At 2^51 itself the reciprocal is a power of two, which no division rounds. *)
Theorem C17_accuracy_at_2p51 fdiv N D : fdiv_ok fdiv -> 0 < D -> Z.abs N = 2 ^ 51 * D ->
  fst (fdiv D (Z.abs N)) * 2 ^ 51 = snd (fdiv D (Z.abs N)) ->
  exists n d, as_approx_integer_ratio fdiv N D = Ok (n, d) /\ 0 < d /\ Z.gcd n d = 1 /\
  2 ^ 49 * Z.abs (N * d - n * D) <= Z.abs N * d /\ Z.sgn n = Z.sgn N.
Proof.
intros F D0 h e. destruct (approx_gt1 fdiv F N D D0 ltac:(lia) ltac:(lia)) as [n [d [E [A1 [A2 [_ [_ A]]]]]]].
exists n, d. repeat (split; [assumption|]). destruct A as [A|[_ [_ A]]]; [exact A|lia].
Qed.
Theorem C17_large_raises fdiv N D : fdiv_ok fdiv -> 0 < D -> (2 ^ 53 + 1) * D < 4 * Z.abs N ->
  as_approx_integer_ratio fdiv N D = Err AssertionError.
Proof.
intros F D0 h. apply approx_raises; try assumption; [lia|]. apply recip_bound; assumption || lia.
Qed.
Theorem C17_zero fdiv D : fdiv_ok fdiv -> 0 < D -> as_approx_integer_ratio fdiv 0 D = Ok (0, 1).
Proof. intros F. now apply approx_zero. Qed.
Example C17_example : fdiv_ok (fun a b => (a, b)) /\
  as_approx_integer_ratio (fun a b => (a, b)) (-3) 8 = Ok (-3, 8) /\
  as_approx_integer_ratio (fun a b => (a, b)) (2 ^ 51 + 1) 1 = Err AssertionError.
Proof. split; [exact exact_div_ok|]. split; vm_compute; reflexivity. Qed.

(** ** C64: square roots of rationals survive the rounding of Clebsch-Gordan coefficients.
    x = sg * sqrt(p/q) with computed square N2/D2 within relative error 2^-50 of p/q. *)
Theorem C64_sqrt_rational_fixed fdiv sg N2 D2 p q M fuel : fdiv_ok fdiv ->
  0 <= p -> 0 < q <= M * M -> Z.gcd p q = 1 -> 0 <= N2 -> 0 < D2 ->
  2 ^ 50 * Z.abs (p * D2 - N2 * q) <= p * D2 ->
  2 * p * (M * M + 1) < 2 ^ 48 -> (Z.to_nat (2 ^ 52) < fuel)%nat ->
  round_to_sqrt_rational1 fdiv fuel sg N2 D2 M = Ok (sg, p, q).
Proof.
intros F p0 Hq g N0 D0 C. apply (sqrt_recovers fdiv F); try assumption.
unfold close. now rewrite (Z.abs_eq p).
Qed.
(** With the default bound 4096: every p/q <= 1 whose denominator is at most 2^22. *)
Corollary C64_default fdiv sg N2 D2 p q fuel : fdiv_ok fdiv ->
  0 <= p <= q -> 0 < q < 2 ^ 22 -> Z.gcd p q = 1 -> 0 <= N2 -> 0 < D2 ->
  2 ^ 50 * Z.abs (p * D2 - N2 * q) <= p * D2 -> (Z.to_nat (2 ^ 52) < fuel)%nat ->
  round_to_sqrt_rational1 fdiv fuel sg N2 D2 4096 = Ok (sg, p, q).
Proof. intros. apply C64_sqrt_rational_fixed; try assumption; lia. Qed.
(** The denominator max_denominator**2 + 1 itself, which the bound admits, rounds to 0. *)
Theorem C64_boundary_refuted : forall sg fuel, (0 < fuel)%nat ->
  round_to_sqrt_rational1 (fun a b => (a, b)) fuel sg 1 (4096 * 4096 + 1) 4096 = Ok (sg, 0, 1).
Proof.
intros sg fuel L. unfold round_to_sqrt_rational1.
replace (as_approx_integer_ratio (fun a b => (a, b)) 1 (4096 * 4096 + 1)) with (@Ok (Z * Z) (1, 16777217))
  by (vm_compute; reflexivity).
cbn [rbind fst snd]. change (4096 * 4096 + 1) with 16777217. rewrite limit_denominator1_eq by (assumption || lia). reflexivity.
Qed.
Example C64_example : round_to_sqrt_rational1 (fun a b => (a, b)) 60 (-1) 333333333333333333 1000000000000000000 4096 = Ok (-1, 1, 3) /\
  2 ^ 50 * Z.abs (1 * 1000000000000000000 - 333333333333333333 * 3) <= 1 * 1000000000000000000 /\ Z.gcd 1 3 = 1.
Proof. split; [vm_compute; reflexivity|split; [vm_compute; discriminate|reflexivity]]. Qed.
