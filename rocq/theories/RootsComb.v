(** RootsComb: the positive roots are natural combinations of the simple roots, bounded by
    the highest one; Weyl's dimension formula on the first weights. *)
From Coq Require Import ZArith.
From Verif Require Import McRing.
From mathcomp Require Import all_ssreflect all_algebra.
From mathcomp Require Import zify.
From Verif Require Import Base Parse Roots RootsProofs RootsSpec RootsCartan RootsWeyl RootsPos.

Set Implicit Arguments.
Unset Strict Implicit.
Unset Printing Implicit Defensive.

Import GRing.Theory Num.Theory.
Local Open Scope ring_scope.

(** Combinations of the roots e_i - e_{i+1}. *)
Lemma chain_sum (c : nat -> rat) N m k : (k < m)%N ->
  \sum_(i < N) c i * (vsub (eps m i) (eps m i.+1))`_k =
  (if (k < N)%N then c k else 0) - (if (0 < k <= N)%N then c k.-1 else 0).
Proof.
move=> hk; elim: N => [|N IH].
  by rewrite big_ord0 ltn0 ifF ?subr0 //; lia.
rewrite big_ord_recr /= IH nth_eB hk /=.
have [h|h|h|h] : [\/ (k < N)%N, k = N, k = N.+1 | (N.+1 < k)%N].
  case: (ltngtP k N) => h; [by constructor 1| |by constructor 2].
  case: (eqVneq k N.+1) => e; [by constructor 3|constructor 4; lia].
all: case: (posnP k) => k0; bval; cbv match; cbn [nat_of_bool].
all: rewrite ?mulr0n ?mulr1n ?subrr ?subr0 ?sub0r ?mulr0 ?mulr1 ?addr0 ?add0r ?oppr0 ?mulrN1 ?add0r ?h //.
all: try (by exfalso; lia).
by rewrite addrC.
Qed.

(** The coordinates of a combination of the simple roots. *)
Definition comb (g : series) (n : nat) (c : nat -> rat) (k : nat) : rat :=
  let prev := if (0 < k)%N then c k.-1 else 0 in
  match g with
  | SA => (if (k < n)%N then c k else 0) - prev
  | SB => c k - prev
  | SC => (if k == (n - 1)%N then 2 * c k else c k) - prev
  | SD => if k == (n - 1)%N then c k - prev
          else if k == (n - 2)%N then c k + c k.+1 - prev else c k - prev
  end.
Lemma combE g n (c : nat -> rat) k : valid_rank g n -> (k < ambient g n)%N ->
  \sum_(i < size (simples g n)) c i * (nth [::] (simples g n) i)`_k = comb g n c k.
Proof.
move=> vn hk; rewrite size_simples //.
rewrite (eq_bigr (fun i : 'I_n => c i * (alpha g n i)`_k)); last by move=> i _; rewrite nth_simples.
rewrite /comb /alpha; case: g vn hk => vn hk; rewrite /ambient /valid_rank in vn hk.
  rewrite chain_sum //; case: (posnP k) => k0; bval; cbv match => //.
  all: try by (case: ifP => ?; bval).
all: case: n vn hk => // n vn hk; rewrite big_ord_recr /= ifF; last by lia.
all: rewrite (eq_bigr (fun i : 'I_n => c i * (vsub (eps n.+1 i) (eps n.+1 i.+1))`_k)); last by
  move=> i _; rewrite ifT //; have := ltn_ord i; lia.
all: rewrite chain_sum // ?nth_vscale ?nth_eD ?nth_eps.
all: have [h|h|h] : [\/ (k.+1 < n)%N, k.+1 = n | k = n] by
  case: (ltngtP k.+1 n) => h; [by constructor 1|constructor 3; lia|by constructor 2].
all: case: (posnP k) => k0; bval; cbv match; cbn [nat_of_bool].
all: rewrite ?mulr0n ?mulr1n ?subrr ?subr0 ?sub0r ?add0r ?mulr0 ?mulr1 ?addr0 ?add0r ?oppr0 ?h ?k0 //.
all: try (by exfalso; lia).
all: by [rewrite addrC | rewrite addrC mulrC | rewrite addrAC].
Qed.

(** The coefficients of the highest root. *)
Definition cmax (g : series) (n k : nat) : nat :=
  match g with
  | SA => 1
  | SB => if k == 0 then 1 else 2
  | SC => if k == n - 1 then 1 else 2
  | SD => if (k == 0) || (n - 2 <= k) then 1 else 2
  end%N.

(** The same coordinates with natural coefficients. *)
Definition prev (c : nat -> nat) (k : nat) : nat := if (0 < k)%N then c k.-1 else 0%N.
Definition top (g : series) (n : nat) (c : nat -> nat) (k : nat) : nat :=
  match g with
  | SA => if k < n then c k else 0
  | SB => c k
  | SC => if k == n - 1 then 2 * c k else c k
  | SD => if k == n - 1 then c k else if k == n - 2 then c k + c k.+1 else c k
  end%N.
Lemma comb_nat g n c k : comb g n (fun i => (c i)%:R) k = (top g n c k)%:R - (prev c k)%:R.
Proof.
rewrite /comb /top /prev (fun_if (fun m : nat => m%:R : rat)).
case: g => //; first by rewrite (fun_if (fun m : nat => m%:R : rat)).
  by case: ifP => // _; rewrite natrM.
by case: ifP => // _; case: ifP => // _; rewrite natrD.
Qed.
Lemma comb_diff g n c k (a b : nat) : (a + prev c k = top g n c k + b)%N ->
  a%:R - b%:R = comb g n (fun i => (c i)%:R) k.
Proof.
move=> e; rewrite comb_nat; apply/eqP; rewrite subr_eq addrAC eq_sym subr_eq -!natrD.
by rewrite e.
Qed.
Lemma comb_sum g n c k (a : nat) : (a + prev c k = top g n c k)%N ->
  a%:R = comb g n (fun i => (c i)%:R) k.
Proof. by move=> e; rewrite -[LHS]subr0; apply: (@comb_diff g n c k a 0); rewrite addn0. Qed.

Lemma coefs g n v : valid_rank g n -> v \in positives g n ->
  exists c : nat -> nat, (forall k, (g = SD -> 2 < n)%N -> (k < n)%N -> (c k <= cmax g n k)%N) /\
    forall k, (k < ambient g n)%N -> v`_k = comb g n (fun i => (c i)%:R) k.
Proof.
move=> vn /mem_positives.
case=> [[j [i [h [_ E]]]]|[[gA [j [i [h [_ E]]]]]|[[gB [i [h [_ E]]]]|[gC [i [h [_ E]]]]]]].
- exists (fun k => (j <= k < i)%N : nat); split=> [k _ _|k hk].
    by rewrite /cmax; case: g {vn h E} => //; try case: ifP => _; case: (_ && _).
  rewrite E //; apply: comb_diff; rewrite /prev /top {E}.
  by case: g vn h hk; rewrite /valid_rank /ambient => vn h hk; case: (posnP k) => k0;
    repeat (case: ifP => ?); lia.
- exists (fun k => match g with
    | SD => if k == n - 1 then 1 else if k == n - 2 then (i < n - 1)%N : nat else (j <= k) + (i <= k)
    | SC => if k == n - 1 then 1 else (j <= k) + (i <= k)
    | _ => (j <= k) + (i <= k) end)%N; split=> [k hD kn|k hk].
    move: h; rewrite /cmax /ambient; case: g gA hD {vn E} => // _ hD h;
    repeat (case: ifP => ?); lia.
  rewrite E // /bas -natrD; apply: comb_sum; rewrite /prev /top {E}.
  case: g gA vn h hk => // _; rewrite /valid_rank /ambient => vn h hk; case: (posnP k) => k0;
    case: (ltngtP k j) => h1; case: (ltngtP k i) => h2; (try (by exfalso; lia)); (try (by bval));
    (case: (eqVneq k (n - 1)%N) => h3; try (by bval));
    (case: (eqVneq k (n - 2)%N) => h4; try (by bval));
    (case: (eqVneq i (n - 1)%N) => h5; try (by bval));
    (try (by exfalso; lia)); (case: (eqVneq i (n - 2)%N) => h6; (try (by exfalso; lia)); try (by bval)).
- subst g; exists (fun k => (i <= k)%N : nat); split=> [k _ _|k hk].
    by clear E; rewrite /cmax; repeat (case: ifP => ?); lia.
  rewrite E //; apply: comb_sum; rewrite /prev /top {E}.
  by rewrite /ambient in h hk; case: (posnP k) => k0; lia.
- subst g; exists (fun k => if k == (n - 1)%N then 1%N else (2 * (i <= k))%N); split=> [k _ _|k hk].
    by clear E; rewrite /cmax; repeat (case: ifP => ?); lia.
  rewrite E // /bas two -natrM; apply: comb_sum; rewrite /prev /top {E}.
  rewrite /ambient /valid_rank in vn h hk; case: (posnP k) => k0; repeat (case: ifP => ?); lia.
Qed.

Lemma highest_coefs g n : valid_rank g n -> (g = SD -> 2 < n)%N ->
  forall k, (k < ambient g n)%N -> (highest g n)`_k = comb g n (fun i => (cmax g n i)%:R) k.
Proof.
move=> vn hD k hk.
have H2 (s : seq rat) i : ([:: 1; 1] ++ s)`_i = if (i < 2)%N then 1 else s`_(i - 2) by case: i => [|[|i]] //=; rewrite subn2.
case: g vn hD hk => vn hD hk; rewrite /highest /valid_rank /ambient in vn hk *.
- have -> : (1 :: nseq (n - 1) (0 : rat) ++ [:: -1])`_k = (k == 0%N)%:R - (k == n)%:R.
    case: k hk => [|k] hk /=; first by rewrite (_ : (0 == n)%N = false) ?subr0 //; lia.
    rewrite nth_cat size_nseq nth_nseq sub0r; case: ifP => h.
      by rewrite (_ : (k.+1 == n) = false) ?mulr0n ?if_same ?oppr0 //; lia.
    have -> : (k - (n - 1) = 0)%N by lia.
    by have -> : (k.+1 == n) = true by lia.
  apply: comb_diff; rewrite /prev /top /cmax; case: (posnP k) => k0; repeat (case: ifP => ?); lia.
- have -> : ([:: 1; 1] ++ nseq (n - 2) (0 : rat))`_k = (k < 2)%N%:R by rewrite H2 nth_nseq if_same; case: ifP.
  apply: comb_sum; rewrite /prev /top /cmax; case: (posnP k) => k0; repeat (case: ifP => ?); lia.
- have -> : ([:: 2] ++ nseq (n - 1) (0 : rat))`_k = (2 * (k == 0))%N%:R.
    by case: k {hk} => [|k] //=; rewrite nth_nseq if_same.
  apply: comb_sum; rewrite /prev /top /cmax; case: (posnP k) => k0; repeat (case: ifP => ?); lia.
- have -> : ([:: 1; 1] ++ nseq (n - 2) (0 : rat))`_k = (k < 2)%N%:R by rewrite H2 nth_nseq if_same; case: ifP.
  have := hD erefl => {hD} h3.
  apply: comb_sum; rewrite /prev /top /cmax; case: (posnP k) => k0; repeat (case: ifP => ?); lia.
Qed.
Lemma size_highest g n : valid_rank g n -> size (highest g n) = ambient g n.
Proof.
by case: g; rewrite /valid_rank /ambient /highest /= ?size_cat ?size_nseq /= => h; lia.
Qed.

Lemma comb_natural g n (c : nat -> nat) v : valid_rank g n -> size v = ambient g n ->
  (forall k, (k < ambient g n)%N -> v`_k = comb g n (fun i => (c i)%:R) k) ->
  natural_combination (simples g n) v.
Proof.
move=> vn sv E; exists c; split=> // k; rewrite sv => hk.
by rewrite E // -(combE (fun i => (c i)%:R) vn hk).
Qed.
Lemma size_positive g n v : v \in positives g n -> size v = ambient g n.
Proof. by move/(allP (all_positives g n))/eqP. Qed.

Lemma positive_natural g n v : valid_rank g n -> v \in positives g n ->
  natural_combination (simples g n) v.
Proof.
by move=> vn vp; have [c [_ E]] := coefs vn vp; apply: comb_natural E; rewrite // (size_positive vp).
Qed.
Lemma combB g n (a b : nat -> rat) k :
  comb g n a k - comb g n b k = comb g n (fun i => a i - b i) k.
Proof.
by rewrite /comb two; case: g; repeat (case: ifP => _); mcring.
Qed.
Lemma highest_natural g n v : valid_rank g n -> (g = SD -> 2 < n)%N -> v \in positives g n ->
  natural_combination (simples g n) (vsub (highest g n) v).
Proof.
move=> vn hD vp; have [c [bnd E]] := coefs vn vp.
have sz : size (vsub (highest g n) v) = ambient g n by rewrite (size_vsub (size_highest vn)) ?(size_positive vp).
exists (fun i => (cmax g n i - c i)%N); split=> // k; rewrite sz => hk.
rewrite nth_vsub ?size_highest ?(size_positive vp) // E // highest_coefs // combB.
rewrite -(combE _ vn hk); apply: eq_bigr => i _; rewrite natrB //.
by apply: bnd => //; apply: leq_trans (ltn_ord i) _; rewrite size_simples.
Qed.
Lemma highest_positive g n : valid_rank g n -> highest g n \in positives g n.
Proof.
move=> vn; apply/mem_positives; have sz := size_highest vn.
case: g vn sz => vn sz; rewrite /valid_rank /ambient in vn sz; rewrite /standard_root /ambient.
- left; exists 0%N, n; split; first by lia.
  split=> // k hk; rewrite highest_coefs // ; symmetry; apply: (@comb_diff SA n _ k (k == 0%N) (k == n)).
  by rewrite /prev /top /cmax; case: (posnP k) => k0; repeat (case: ifP => ?); lia.
- right; left; split=> //; exists 0%N, 1%N; split; first by lia.
  split=> // k hk; rewrite highest_coefs // /bas -natrD ; symmetry; apply: (@comb_sum SB n _ k ((k == 0%N) + (k == 1%N))).
  by rewrite /prev /top /cmax; case: (posnP k) => k0; repeat (case: ifP => ?); lia.
- right; right; right; split=> //; exists 0%N; split; first by lia.
  split=> // k hk; rewrite highest_coefs // /bas two -natrM ; symmetry; apply: (@comb_sum SC n _ k (2 * (k == 0%N))).
  by rewrite /prev /top /cmax; case: (posnP k) => k0; repeat (case: ifP => ?); lia.
- right; left; split=> //; exists 0%N, 1%N; split; first by lia.
  split=> // k hk; rewrite /highest /bas -natrD.
  by case: k hk => [|[|k]] hk //; rewrite /= nth_nseq if_same.
Qed.
