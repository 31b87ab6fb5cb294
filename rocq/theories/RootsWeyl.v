(** RootsWeyl: fundamental weights, Weyl vectors and positive roots of
    lie_algebra_utils.py. *)
From Coq Require Import ZArith.
From Verif Require Import McRing.
From mathcomp Require Import all_ssreflect all_algebra.
From mathcomp Require Import zify.
From Verif Require Import Base Parse Roots RootsProofs RootsSpec RootsCartan.

Set Implicit Arguments.
Unset Strict Implicit.
Unset Printing Implicit Defensive.

Import GRing.Theory Num.Theory.
Local Open Scope ring_scope.

Lemma two : (2 : rat) = 2%:R. Proof. by []. Qed.

Lemma size_pw m i : size (pw m i) = m. Proof. exact: size_psum. Qed.
Lemma nth_pw m i k : (pw m i)`_k = ((k < m)%N && (k < i)%N)%:R. Proof. exact: nth_psum. Qed.
Lemma eeE m : vsum m (ee m) = pw m m. Proof. by rewrite /pw range0. Qed.
Lemma size_half m : size (half m) = m. Proof. by rewrite /half size_vscale eeE size_pw. Qed.
Lemma nth_half m k : (half m)`_k = 1 / 2 * (k < m)%N%:R.
Proof. by rewrite /half nth_vscale eeE nth_pw andbb. Qed.

Lemma size_fundA n i : size (vsub (pw n.+1 i) (vscale (i%:R / n.+1%:R) (pw n.+1 n.+1))) = n.+1.
Proof. by apply: size_vsub; rewrite ?size_vscale size_pw. Qed.

(** The i-th fundamental weight. *)
Definition omega (g : series) (n i : nat) : vec :=
  match g with
  | SA => vsub (pw n.+1 i.+1) (vscale (i.+1%:R / n.+1%:R) (pw n.+1 n.+1))
  | SB => if (i < n - 1)%N then pw n i.+1 else half n
  | SC => pw n i.+1
  | SD => if (i < n - 2)%N then pw n i.+1 else if (i == n - 2)%N then vsub (half n) (eps n (n - 1)) else half n
  end.
Lemma size_omega g n i : size (omega g n i) = ambient g n.
Proof.
rewrite /omega /ambient; case: g; rewrite ?size_fundA ?size_pw //; first by case: ifP; rewrite ?size_pw ?size_half.
case: ifP => _; rewrite ?size_pw //; case: ifP => _; rewrite ?size_half //.
by apply: size_vsub; rewrite ?size_half ?size_eps.
Qed.

Lemma apairB g n i u v : size u = size v -> apair g n i (vsub u v) = apair g n i u - apair g n i v.
Proof. by move=> e; rewrite /apair; case: g; try case: ifP => _; rewrite !nth_vsub //; mcring. Qed.
Lemma apairD g n i u v : size u = size v -> apair g n i (vadd u v) = apair g n i u + apair g n i v.
Proof. by move=> e; rewrite /apair; case: g; try case: ifP => _; rewrite !nth_vadd //; mcring. Qed.
Lemma apairZ g n i a v : apair g n i (vscale a v) = a * apair g n i v.
Proof. by rewrite /apair; case: g; try case: ifP => _; rewrite !nth_vscale //; mcring. Qed.

Lemma pairing_omega g n i j : valid_rank g n -> (i < n)%N -> (j < n)%N ->
  pairing (omega g n i) (alpha g n j) = (i == j)%:R.
Proof.
move=> vn hi hj; rewrite /pairing ip_alpha ?size_omega // ip_alpha_alpha //.
have : [\/ (i < j)%N, i = j | (j < i)%N] by case: (ltngtP i j) => h; [constructor 1|constructor 3|constructor 2].
rewrite /valid_rank in vn; rewrite /omega /norm2; case: g vn => vn.
- rewrite apairB ?size_vscale ?size_pw // apairZ /apair !nth_pw; case=> H; bval; rewrite ?mulr0; exact/eqP.
- rewrite /apair; case hi': (i < n - 1)%N; case hj': (j < n - 1)%N; cbv match;
    rewrite ?nth_pw ?nth_half; case=> H; (try by exfalso; lia); bval; exact/eqP.
- rewrite /apair; case hj': (j < n - 1)%N; cbv match;
    rewrite ?nth_pw ?nth_half; case=> H; (try by exfalso; lia); bval; exact/eqP.
- rewrite /apair; case hi': (i < n - 2)%N; case hi2: (i == n - 2)%N; (try by exfalso; lia);
    case hj': (j < n - 1)%N; cbv match;
    rewrite ?nth_vsub ?size_half ?size_eps // ?nth_pw ?nth_half ?nth_eps; case=> H; (try by exfalso; lia); bval; exact/eqP.
Qed.

(** The list has the right elements, except the last one for D. *)
Lemma size_fundamentals g n : valid_rank g n -> (g = SD -> n = 2%N) -> size (fundamentals g n) = n.
Proof.
case: g => /= vn h; rewrite ?size_cat ?size_map ?size_iota /=; try lia.
by rewrite h.
Qed.
Lemma size_fundD n : (2 < n)%N -> size (fundamentals SD n) = (2 * n - 2)%N.
Proof. by move=> h; rewrite /= /fwD h !size_cat /= size_map size_iota; lia. Qed.
Lemma nth_fundamentals g n i : valid_rank g n -> (i < n)%N -> (g = SD -> (i < n - 1)%N) ->
  nth [::] (fundamentals g n) i = omega g n i.
Proof.
rewrite /valid_rank /fundamentals /omega; case: g => vn hi hD.
- by rewrite (nth_map 0%N) ?size_iota // nth_iota.
- rewrite nth_cat size_map size_iota; case: ifP => h.
    by rewrite (nth_map 0%N) ?size_iota // nth_iota.
  by have -> : (i - (n - 1) = 0)%N by lia.
- by rewrite (nth_map 0%N) ?size_iota // nth_iota.
- rewrite /fwD nth_cat size_map size_iota; case: ifP => h.
    by rewrite (nth_map 0%N) ?size_iota // nth_iota.
  have e : i = (n - 2)%N by have := hD erefl; lia.
  by rewrite e subnn eqxx.
Qed.
Lemma nth_fundD n : (2 < n)%N -> nth [::] (fundamentals SD n) (n - 1) = pw n 1.
Proof.
move=> h; rewrite /= /fwD h nth_cat size_map size_iota ifF; last by lia.
rewrite (_ : (n - 1 - (n - 2) = 1)%N); last by lia.
by rewrite /= nth_cat size_map size_iota ifT; [rewrite (nth_map 0%N) ?size_iota ?nth_iota //|]; lia.
Qed.
Lemma last_fundD n : last [::] (fundamentals SD n) = half n.
Proof. by rewrite /= /fwD !catA last_cat. Qed.

(** The Weyl vector. *)
Definition rho (g : series) (n k : nat) : rat :=
  match g with
  | SA => n%:R / 2 - k%:R
  | SB => n%:R - k%:R - 1 / 2
  | SC => n%:R - k%:R
  | SD => n%:R - k%:R - 1
  end.

Lemma all_positives g n : all (fun v => size v == ambient g n) (positives g n).
Proof.
case: g => /=; rewrite ?all_cat; try (apply/andP; split); try (apply/andP; split).
all: try by apply/allP => v /allpairsPdep[i [j [_ _ ->]]]; rewrite ?eB ?eD.
  by rewrite all_eps.
by apply/allP => v /mapP[u /mapP[i _ ->] ->]; rewrite size_vscale size_eps.
Qed.
Lemma positives_gt0 g n : valid_rank g n -> (0 < size (positives g n))%N.
Proof.
case: g => /= vn; rewrite ?size_cat ?addn_gt0.
all: by rewrite pm_gt0 ?orbT //; lia.
Qed.
Lemma head_positives g n : valid_rank g n -> size (head [::] (positives g n)) = ambient g n.
Proof.
move=> /positives_gt0; case E: (positives g n) => [|v l] //= _.
by have := all_positives g n; rewrite E => /= /andP[/eqP].
Qed.
Lemma size_weyl g n : valid_rank g n -> size (weyl_vector (positives g n)) = ambient g n.
Proof. by move=> vn; rewrite /weyl_vector size_vscale size_vsum head_positives ?all_positives. Qed.

Lemma ring1 (F : fieldType) (x y : F) : x - 1 - y - y = x - 1 - 2%:R * y. Proof. mcring. Qed.
Lemma ring2 (F : fieldType) (x y : F) : x - 1 - y + y = x - 1. Proof. mcring. Qed.
Lemma sum_pm m k : (k < m)%N -> \sum_(v <- pm m) v`_k = m%:R - 1 - 2 * k%:R.
Proof.
move=> h; rewrite /pm big_pairs.
rewrite (eq_bigr (fun i => \sum_(0 <= j < i) (k == j)%:R - \sum_(0 <= j < i) (k == i)%:R)); last first.
  by move=> i _; rewrite -sumrB; apply: eq_bigr => j _; rewrite nth_eB h.
rewrite sumrB sum_pairs_lo sum_pairs_hi h; cbv match.
have -> : (m - 1 - k)%:R = m%:R - 1 - k%:R :> rat by rewrite !natrB //; lia.
exact: ring1.
Qed.
Lemma sum_pp m k : (k < m)%N -> \sum_(v <- pp m) v`_k = m%:R - 1.
Proof.
move=> h; rewrite /pp big_pairs.
rewrite (eq_bigr (fun i => \sum_(0 <= j < i) (k == j)%:R + \sum_(0 <= j < i) (k == i)%:R)); last first.
  by move=> i _; rewrite -big_split; apply: eq_bigr => j _; rewrite nth_eD h.
rewrite big_split sum_pairs_lo sum_pairs_hi h; cbv match.
have -> : (m - 1 - k)%:R = m%:R - 1 - k%:R :> rat by rewrite !natrB //; lia.
exact: ring2.
Qed.
Lemma sum_pp' m k : (k < m)%N -> \sum_(v <- pp' m) v`_k = m%:R - 1.
Proof.
move=> h; rewrite -(sum_pp h) /pp' /pp !big_pairs.
by apply: eq_bigr => i _; apply: eq_bigr => j _; rewrite !nth_eD addrC.
Qed.
Lemma sum_ee m k : (k < m)%N -> \sum_(v <- ee m) v`_k = 1.
Proof. by move=> h; rewrite -(@nth_vsum m) ?all_eps // eeE nth_pw h. Qed.

Lemma nth_weyl g n k : valid_rank g n -> (k < ambient g n)%N ->
  (weyl_vector (positives g n))`_k = rho g n k.
Proof.
move=> vn hk; rewrite /weyl_vector nth_vscale nth_vsum ?head_positives ?all_positives //.
case: g vn hk => vn hk; rewrite /positives ?big_cat /= ?sum_pm ?sum_pp ?sum_pp' ?sum_ee //.
- by rewrite mulrS two; mcfield.
- by rewrite two; mcfield.
- rewrite big_map (eq_bigr (fun v : vec => 2 * v`_k)) => [|v _]; last by rewrite nth_vscale.
  by rewrite -mulr_sumr sum_ee // two; mcfield.
- by rewrite two; mcfield.
Qed.
