(** RootsDim: Weyl's dimension formula as evaluated by son.py and spn.py. *)
From Coq Require Import ZArith.
From Verif Require Import McRing.
From mathcomp Require Import all_ssreflect all_algebra.
From mathcomp Require Import zify.
From Verif Require Import Base Parse Roots RootsProofs RootsSpec RootsCartan RootsWeyl RootsPos.

Set Implicit Arguments.
Unset Strict Implicit.
Unset Printing Implicit Defensive.

Import Order.TTheory GRing.Theory Num.Theory.
Local Open Scope ring_scope.

Ltac fside := repeat split; by apply/eqP.

Section Dim.
Variables (g : series) (n : nat).
Hypotheses (gA : g <> SA) (vn : valid_rank g n).

Local Notation rv := (weyl_vector (positives g n)).

Lemma n1 : (1 < n)%N. Proof. by move: gA vn; case: g. Qed.
Lemma amb : ambient g n = n. Proof. by move: gA; case: g. Qed.
Lemma srv : size rv = n. Proof. by rewrite size_weyl // amb. Qed.
Lemma nrv k : (k < n)%N -> rv`_k = rho g n k. Proof. by move=> h; rewrite nth_weyl ?amb. Qed.

(** 2 rho_0. *)
Definition s2 : nat := match g with SB => 2 * n - 1 | SC => 2 * n | _ => 2 * n - 2 end%N.

Lemma rhoB j i : rho g n j - rho g n i = i%:R - j%:R.
Proof. by rewrite /rho; case: g gA => // _; mcring. Qed.
Lemma rhoD j i : rho g n j + rho g n i = s2%:R - j%:R - i%:R.
Proof.
have h := n1; rewrite /rho /s2; case: g gA => // _.
- by rewrite natrB; [rewrite natrM two; mcfield|lia].
- by rewrite natrM; mcring.
- by rewrite natrB; [rewrite natrM; mcring|lia].
Qed.
Lemma s2_gt j i : (j < i < n)%N -> (j + i < s2)%N.
Proof. by have h := n1; rewrite /s2; case: g gA => // _; lia. Qed.

Lemma dot_pm v j i : size v = n -> dot v (vsub (eps n j) (eps n i)) = v`_j - v`_i.
Proof. by move=> sv; rewrite (dotC sv) ?eB // dot_eB. Qed.
Lemma dot_pp v j i : size v = n -> dot v (vadd (eps n j) (eps n i)) = v`_j + v`_i.
Proof. by move=> sv; rewrite (dotC sv) ?eD // dot_eD. Qed.
Lemma dot_e v i : size v = n -> dot v (eps n i) = v`_i.
Proof. by move=> sv; rewrite (dotC sv) ?size_eps // dot_eps. Qed.
Lemma dot_e2 v i : size v = n -> dot v (vscale 2 (eps n i)) = 2 * v`_i.
Proof. by move=> sv; rewrite (dotC sv) ?size_vscale ?size_eps // dotZl ?size_eps // dot_eps. Qed.

Lemma mem_form b : b \in positives g n ->
  [\/ exists j i, (j < i < n)%N /\ b = vsub (eps n j) (eps n i),
      exists j i, (j < i < n)%N /\ b = vadd (eps n j) (eps n i),
      g = SB /\ exists i, (i < n)%N /\ b = eps n i |
      g = SC /\ exists i, (i < n)%N /\ b = vscale 2 (eps n i)].
Proof.
have X m v f : is_vec m v f -> forall w, size w = m -> (forall k, (k < m)%N -> w`_k = f k) -> v = w.
  by move=> iv w sw E; apply/(is_vecP v sw E).
move=> /mem_positives; rewrite /standard_root amb.
case=> [[j [i [h V]]]|[[_ [j [i [h V]]]]|[[gB [i [h V]]]|[gC [i [h V]]]]]].
- by constructor 1; exists j, i; split=> //; apply: (X _ _ _ V) => [|k hk]; rewrite ?eB // nth_eB hk.
- by constructor 2; exists j, i; split=> //; apply: (X _ _ _ V) => [|k hk]; rewrite ?eD // nth_eD hk.
- constructor 3; split=> //; exists i; split=> //.
  by apply: (X _ _ _ V) => [|k hk]; rewrite ?size_eps // nth_eps hk.
- constructor 4; split=> //; exists i; split=> //.
  by apply: (X _ _ _ V) => [|k hk]; rewrite ?size_vscale ?size_eps // nth_vscale nth_eps hk.
Qed.

Lemma rho_gt0 i : g <> SD -> (i < n)%N -> 0 < rho g n i.
Proof.
move=> gD h; rewrite /rho; case: g gA gD => // _ _.
  have -> : n%:R - i%:R - 1 / 2 = (2 * (n - i) - 1)%:R / 2%:R :> rat.
    rewrite natrB; last by lia.
    by rewrite natrM natrB; [rewrite two; mcfield|lia].
  by rewrite divr_gt0 // ltr0n; lia.
by rewrite subr_gt0 ltr_nat.
Qed.
Lemma dot_rho_gt0 b : b \in positives g n -> 0 < dot rv b.
Proof.
move/mem_form => [[j [i [h ->]]]|[j [i [h ->]]]|[gB [i [h ->]]]|[gC [i [h ->]]]].
- by rewrite dot_pm ?srv // !nrv ?rhoB ?subr_gt0 ?ltr_nat; lia.
- rewrite dot_pp ?srv // !nrv ?rhoD; try lia.
  by rewrite -addrA -opprD -natrD subr_gt0 ltr_nat; exact: s2_gt.
- by rewrite dot_e ?srv // nrv // rho_gt0 // gB.
- by rewrite dot_e2 ?srv // nrv // mulr_gt0 // rho_gt0 // gC.
Qed.

Definition wd (w : vec) : rat := weyl_dim w (positives g n) rv.

Lemma wdE w : size w = n -> wd w = \prod_(b <- positives g n) (1 + dot w b / dot rv b).
Proof.
move=> sw; rewrite /wd /weyl_dim big_seq_cond [RHS]big_seq_cond; apply: eq_bigr => b; rewrite andbT => hb.
have sb : size b = n by rewrite (eqP (allP (all_positives g n) _ hb)) amb.
rewrite (dotDl sw srv sb) mulrDl divff 1?addrC //.
by rewrite gt_eqF // dot_rho_gt0.
Qed.

Lemma wd_zero w : size w = n -> (forall k, w`_k = 0) -> wd w = 1.
Proof.
move=> sw w0; rewrite wdE // big1_seq // => b /andP[_ hb].
have sb : size b = n by rewrite (eqP (allP (all_positives g n) _ hb)) amb.
by rewrite (dotE sw sb) big1 ?mul0r ?addr0 // => k _; rewrite w0 mul0r.
Qed.

(** A dominant weight has dimension at least 1. *)
Definition dominant (w : vec) : Prop := forall b, b \in positives g n -> 0 <= dot w b.
Lemma wd_ge1 w : size w = n -> dominant w -> 1 <= wd w.
Proof.
move=> sw dw; rewrite wdE // big_seq.
elim/big_rec: _ => // b x hb x1; rewrite -[1](mulr1 1) ler_pmul //.
by rewrite ler_addl divr_ge0 ?dw // ltW // dot_rho_gt0.
Qed.

(** The products of the factors of e_0. *)
Lemma tele1 m : (0 < m)%N -> \prod_(1 <= i < m) (1 + 1 / i%:R) = m%:R :> rat.
Proof.
case: m => // m _; elim: m => [|m IH]; first by rewrite big_geq.
rewrite big_nat_recr //= IH.
have : m.+1%:R != 0 :> rat by rewrite pnatr_eq0.
by rewrite [m.+2%:R]mulrS; move: m.+1%:R => x x0; mcfield; fside.
Qed.
Lemma tele2 (s : nat) m : (0 < m)%N -> (m <= s)%N ->
  \prod_(1 <= i < m) (1 + 1 / (s%:R - i%:R)) = s%:R / (s%:R - m%:R + 1) :> rat.
Proof.
case: m => // m _; elim: m => [|m IH] hs.
  by rewrite big_geq // subrK divff // pnatr_eq0; lia.
rewrite big_nat_recr //= IH; last by lia.
have a0 : s%:R - m.+1%:R != 0 :> rat by rewrite subr_eq0 eqr_nat; lia.
have b0 : s%:R - m.+1%:R + 1 != 0 :> rat.
  by rewrite -natrB ?natr1 ?pnatr_eq0 //; [rewrite -[1]/(1%:R) -natrD pnatr_eq0; lia|lia].
rewrite [m.+2%:R]mulrS opprD addrA.
move: a0 b0; move: (s%:R : rat) (m.+1%:R : rat) => x y a0 b0.
have c0 : x - 1 - y + 1 != 0 by rewrite (_ : x - 1 - y + 1 = x - y) //; mcring.
by mcfield; fside.
Qed.

Lemma prod_first (F : nat -> nat -> rat) m :
  (forall i j, (0 < j < i)%N -> (i < m)%N -> F i j = 1) ->
  \prod_(1 <= i < m) \prod_(0 <= j < i) F i j = \prod_(1 <= i < m) F i 0%N.
Proof.
move=> F1; rewrite big_nat [RHS]big_nat; apply: eq_bigr => i hi.
rewrite big_ltn ?big_nat ?big1 ?mulr1 //; last by lia.
by move=> j hj; apply: F1; lia.
Qed.

Lemma wd_e0 : wd (pw n 1) = (match g with SB => (2 * n).+1 | _ => 2 * n end)%:R.
Proof.
have h1 := n1; have sw : size (pw n 1) = n by rewrite size_pw.
have w0 k : (pw n 1)`_k = (k == 0%N)%:R.
  by rewrite nth_pw (_ : (k < n)%N && (k < 1)%N = (k == 0%N)) //; lia.
rewrite wdE //.
have PM : \prod_(b <- pm n) (1 + dot (pw n 1) b / dot rv b) = n%:R.
  rewrite /pm big_pairs prod_first => [|i j h h'].
    rewrite -(@tele1 n) 1?big_nat 1?[RHS]big_nat; last by lia.
    apply: eq_bigr => i hi; rewrite !dot_pm ?srv // !w0 !nrv ?rhoB; try lia.
    by rewrite (_ : (i == 0)%N = false) ?subr0 //; lia.
  rewrite dot_pm // !w0.
  have [-> ->] : (i == 0)%N = false /\ (j == 0)%N = false by lia.
  by rewrite subrr mul0r addr0.
have sn : (n <= s2)%N by rewrite /s2; case: g gA => // _; lia.
have PP : \prod_(b <- pp n) (1 + dot (pw n 1) b / dot rv b) = s2%:R / (s2%:R - n%:R + 1).
  rewrite /pp big_pairs prod_first => [|i j h h'].
    rewrite -(@tele2 s2 n) //; last by lia.
    rewrite big_nat [RHS]big_nat; apply: eq_bigr => i hi.
    rewrite !dot_pp ?srv // !w0 !nrv ?rhoD; try lia.
    by rewrite (_ : (i == 0)%N = false) ?addr0 ?subr0 //; lia.
  rewrite dot_pp // !w0.
  have [-> ->] : (i == 0)%N = false /\ (j == 0)%N = false by lia.
  by rewrite addr0 mul0r addr0.
have EE (F : vec -> rat) : (forall i, (0 < i < n)%N -> F (eps n i) = 1) ->
    \prod_(b <- ee n) F b = F (eps n 0).
  move=> F1; rewrite big_map -[n in iota 0 n](subn0 n) -/(index_iota 0 n).
  rewrite big_ltn ?big_nat ?big1 ?mulr1 //; last by lia.
have n0 : n%:R != 0 :> rat by rewrite pnatr_eq0; lia.
have nn0 : n.+1%:R != 0 :> rat by rewrite pnatr_eq0.
have tw : 2%:R != 0 :> rat by [].
have r0 : rv`_0 = rho g n 0 by apply: nrv; lia.
have sR : size rv = n by exact: srv.
move: rv PP PM r0 sR => R PP PM r0 sR.
have : g <> SA by [].
rewrite /positives; move: PP PM sn EE r0; rewrite /s2 /rho.
case: g => // PP PM sn EE r0 _; rewrite !big_cat /= ?PP ?PM.
- rewrite EE => [|i hi]; last by rewrite !dot_e // w0 (_ : (i == 0)%N = false) ?mul0r ?addr0 //; lia.
  rewrite !dot_e // w0 eqxx ?mulr1n r0 natrB; last by lia.
  have x0 : 2%:R * n%:R - 1 != 0 :> rat by rewrite -natrM -(natrB _ (n := 1%N)) ?pnatr_eq0; lia.
  rewrite [in RHS]mulrS !natrM two mulr0n subr0.
  move: x0 n0; move: (n%:R : rat) => x x0 n0.
  have y0 : 2%:R * x - 1 - x + 1 != 0 by rewrite (_ : _ - _ - _ + _ = x) //; mcring.
  have z0 : x - 1 / 2%:R != 0.
    apply: contraNneq x0 => e.
    have -> : 2%:R * x - 1 = 2%:R * (x - 1 / 2%:R) by mcfield; fside.
    by rewrite e mulr0.
  by mcfield; repeat split; apply/eqP; rewrite ?[x * _]mulrC.
- rewrite big_map EE => [|i hi]; last by rewrite !dot_e2 // w0 (_ : (i == 0)%N = false) ?mulr0 ?mul0r ?addr0 //; lia.
  rewrite !dot_e2 // w0 eqxx ?mulr1n r0 natrM two mulr0n subr0.
  rewrite mulrS in nn0; move: n0 nn0; move: (n%:R : rat) => x x0 xx0.
  have y0 : 2%:R * x - x + 1 != 0 by rewrite (_ : _ - _ + _ = 1 + x) //; mcring.
  by mcfield; split; apply/eqP; [exact: y0|exact: mulf_neq0].
- have -> : \prod_(b <- pp' n) (1 + dot (pw n 1) b / dot R b) = \prod_(b <- pp n) (1 + dot (pw n 1) b / dot R b).
    rewrite /pp' /pp !big_pairs; apply: eq_bigr => i _; apply: eq_bigr => j _.
    by rewrite !dot_pp //; congr (_ + _ / _); rewrite addrC.
  rewrite PP natrB ?natrM; last by lia.
  have x0 : n%:R - 1 != 0 :> rat by rewrite -(natrB _ (n := 1%N)) ?pnatr_eq0; lia.
  move: x0 n0; move: (n%:R : rat) => x x0 n0.
  have y0 : 2%:R * x - 2%:R - x + 1 != 0 by rewrite (_ : _ - _ - _ + _ = x - 1) //; mcring.
  by mcfield; fside.
Qed.
End Dim.

Lemma py_trunc_nat (m : nat) : py_trunc m%:R = m.
Proof. by rewrite /py_trunc -[m%:R]/((Posz m)%:~R) numq_int denq_int divz1. Qed.
