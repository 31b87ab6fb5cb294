(** RootsReps: the weights and the dimensions computed by son.py and spn.py. *)
From Coq Require Import ZArith.
From Verif Require Import McRing.
From mathcomp Require Import all_ssreflect all_algebra.
From mathcomp Require Import zify.
From Verif Require Import Base Parse Roots RootsProofs RootsSpec RootsCartan RootsWeyl RootsPos RootsDim.

Set Implicit Arguments.
Unset Strict Implicit.
Unset Printing Implicit Defensive.

Import Order.TTheory GRing.Theory Num.Theory.
Local Open Scope ring_scope.

Lemma weightsE (S : seq int) fw : (size S <= size fw)%N ->
  (forall i, (i < size S)%N -> size (nth [::] fw i) = size S) ->
  exists2 w, weights S fw = Ok w &
    size w = size S /\ forall k, w`_k = \sum_(i < size S) (nth 0 S i)%:~R * (nth [::] fw i)`_k.
Proof.
move=> h sf; rewrite /weights range0.
rewrite (mapR_ok_in (g := fun i => vscale (nth 0 S i)%:~R (nth [::] fw i))) => [|i]; last first.
  by rewrite mem_iota /= => hi; rewrite ifT //; apply: leq_trans h; lia.
have a : all (fun v => size v == size S) [seq vscale (nth 0 S i)%:~R (nth [::] fw i) | i <- iota 0 (size S)].
  apply/allP => v /mapP[i]; rewrite mem_iota /= => hi ->; rewrite size_vscale sf //; lia.
eexists; first by [].
split=> [|k]; first exact: size_vsum.
rewrite nth_vsum // big_map -[X in iota 0 X](subn0 (size S)) -/(index_iota 0 _) big_mkord.
by apply: eq_bigr => i _; rewrite nth_vscale.
Qed.

(** An entry outside of the list of fundamental weights. *)
Lemma weights_err (S : seq int) fw : (size fw < size S)%N -> weights S fw = Err IndexError.
Proof.
move=> h; rewrite /weights range0 (@mapR_err_in _ _ _ IndexError _ (size fw)) //.
- by rewrite mem_iota.
- by rewrite ltnn.
by move=> y _ /=; case: ifP => _; [right; eexists|left].
Qed.

(** The fundamental weights used by son.py and spn.py for a label with n entries: the last
    one of D_n is e_0 when n > 2. *)
Section Reps.
Variables (g : series) (n : nat).
Hypotheses (gA : g <> SA) (vn : valid_rank g n).
Local Notation rv := (weyl_vector (positives g n)).
Local Notation F i := (nth [::] (fundamentals g n) i).


Lemma fundE i : (i < n)%N ->
  F i = omega g n i \/ [/\ g = SD, (2 < n)%N, i = (n - 1)%N & F i = pw n 1].
Proof.
move=> hi; have h := n1 gA vn.
have [->|hD] : g = SD \/ g <> SD by case: g; [right|right|right|left].
  have [n2|n2] : (n = 2 \/ 2 < n)%N by lia.
    by left; subst n; case: i hi => [|[|i]].
  have [hi'|->] : (i < n - 1 \/ i = n - 1)%N by lia.
    by left; apply: nth_fundamentals.
  by right; split=> //; apply: nth_fundD.
by left; apply: nth_fundamentals.
Qed.

Lemma fund_size : (n <= size (fundamentals g n))%N.
Proof.
have h := n1 gA vn.
have [e|hD] : g = SD \/ g <> SD by case: g; [right|right|right|left].
  have [n2|n2] : (n = 2 \/ 2 < n)%N by lia.
    by rewrite size_fundamentals.
  by rewrite e size_fundD //; lia.
by rewrite size_fundamentals.
Qed.

Lemma fund_vec i : (i < n)%N -> size (F i) = n.
Proof.
by move=> /fundE[->|[_ _ _ ->]]; rewrite ?size_omega ?amb ?size_pw.
Qed.

Lemma repE (rw : nat -> res (seq vec * seq vec * vec)) (S : seq int) : size S = n ->
  rw n = Ok (positives g n, fundamentals g n, rv) ->
  exists2 w, rep_dim rw S = Ok (py_trunc (wd g n w)) &
    size w = n /\ forall k, w`_k = \sum_(i < n) (nth 0 S i)%:~R * (F i)`_k.
Proof.
move=> sS E; rewrite /rep_dim sS E /=.
have [||w -> [sw wE]] := @weightsE S (fundamentals g n).
- by rewrite sS fund_size.
- by rewrite sS => i hi; rewrite fund_vec.
by exists w; rewrite ?sw //; split=> // k; rewrite wE sS.
Qed.

(** Sufficient conditions for a weight to be dominant. *)
Definition dom (w : vec) : Prop :=
  (forall j i, (j < i < n)%N -> 0 <= w`_j - w`_i /\ 0 <= w`_j + w`_i)
  /\ (g <> SD -> forall i, (i < n)%N -> 0 <= w`_i).
Lemma dom_dominant w : size w = n -> dom w -> dominant g n w.
Proof.
move=> sw [d1 d2] b /(mem_form gA)[[j [i [h ->]]]|[j [i [h ->]]]|[gB [i [h ->]]]|[gC [i [h ->]]]].
- by rewrite dot_pm //; case: (d1 j i h).
- by rewrite dot_pp //; case: (d1 j i h).
- by rewrite dot_e //; apply: d2; rewrite ?gB.
- by rewrite dot_e2 //; apply: mulr_ge0 => //; apply: d2; rewrite ?gC.
Qed.

Lemma dom_pw p : dom (pw n p).
Proof.
split=> [j i h|_ i h]; rewrite !nth_pw ?ler0n // subr_ge0 ler_nat; split; last by rewrite addr_ge0 ?ler0n.
by case: (ltnP i n) => //= _; case: (ltnP i p) => //= h'; rewrite (_ : _ && _) //; lia.
Qed.
Lemma dom_half : dom (half n).
Proof.
split=> [j i h|_ i h]; rewrite !nth_half.
  have [-> ->] : (j < n)%N /\ (i < n)%N by lia.
  by rewrite subrr; split.
by rewrite h.
Qed.
Lemma dom_fund i : (i < n)%N -> dom (F i).
Proof.
move=> hi; case: (fundE hi) => [->|[_ _ _ ->]]; last exact: dom_pw.
have h1 := n1 gA vn.
rewrite /omega; case E: g gA => // _; try exact: dom_pw; case: ifP => _; try exact: dom_pw; first exact: dom_half.
case: ifP => _; last exact: dom_half.
split=> [j k h|]; last by rewrite E.
rewrite !nth_vsub ?size_half ?size_eps // !nth_half !nth_eps.
have [-> -> ->] : [/\ (j < n)%N = true, (k < n)%N = true & (j == n - 1)%N = false] by split; lia.
by case: (k == n - 1)%N; split.
Qed.

Lemma dom_comb (c : nat -> rat) w : (forall i, (i < n)%N -> 0 <= c i) ->
  (forall k, w`_k = \sum_(i < n) c i * (F i)`_k) -> dom w.
Proof.
move=> c0 wE; split=> [j i h|gD k hk]; rewrite !wE -?sumrB -?big_split; try split;
  apply: sumr_ge0 => l _ /=; have [D1 D2] := dom_fund (ltn_ord l).
- by rewrite -mulrBr mulr_ge0 ?c0 //; case: (D1 _ _ h).
- by rewrite -mulrDr mulr_ge0 ?c0 //; case: (D1 _ _ h).
- by rewrite mulr_ge0 ?c0 // D2.
Qed.
End Reps.

(** Truncation towards zero keeps a number that is at least 1 positive. *)
Lemma py_trunc_ge1 x : 1 <= x -> 0 < py_trunc x.
Proof.
move=> x1; rewrite /py_trunc.
have n0 : 0 <= numq x by rewrite numq_ge0; apply: le_trans x1.
rewrite n0; have := denq_gt0 x; have : denq x <= numq x.
  rewrite -(ler_int rat_numDomainType) -[(denq x)%:~R]mul1r -ler_pdivl_mulr ?ltr0z ?denq_gt0 //.
  by rewrite divq_num_den.
move: (denq x) (numq x) => d m dm d0.
have d0' : d != 0 by rewrite gt_eqF.
have := @leq_div2r `|d|%N `|d|%N `|m|%N; lia.
Qed.

Definition series_of (is_son : bool) (n : nat) : series :=
  if is_son then if odd n then SB else SD else SC.
Definition root_weights_of (is_son : bool) : nat -> res (seq vec * seq vec * vec) :=
  if is_son then son_root_weights else spn_root_weights.

Lemma series_ofA b n : series_of b n <> SA.
Proof. by rewrite /series_of; case: b => //; case: odd. Qed.
Lemma series_of_valid b n : valid_rank (series_of b n) n = (1 < n)%N.
Proof. by rewrite /series_of; case: b => //; case: odd. Qed.

Lemma root_weights_ofE b n : (1 < n)%N -> root_weights_of b n =
  Ok (positives (series_of b n) n, fundamentals (series_of b n) n,
      weyl_vector (positives (series_of b n) n)).
Proof.
move=> h; have := @roots_weightsE (series_of b n) n; rewrite series_of_valid => /(_ h)[d].
rewrite /root_weights_of /series_of; case: b => /= [|E]; last by rewrite /spn_root_weights E.
by rewrite /son_root_weights if_neg; case: odd => /= ->.
Qed.

Lemma root_weights_of_err b n : ~~ (1 < n)%N ->
  root_weights_of b n = Err (if (n == 0)%N then IndexError else ValueError).
Proof.
by case: b; rewrite /root_weights_of /son_root_weights /spn_root_weights; case: n => [|[|n]].
Qed.

Lemma dim_err b S : ~~ (1 < size S)%N ->
  rep_dim (root_weights_of b) S = Err (if (size S == 0)%N then IndexError else ValueError).
Proof. by move=> /root_weights_of_err E; rewrite /rep_dim E. Qed.

Lemma dim_ofE b S : (1 < size S)%N -> let n := size S in let g := series_of b n in
  exists2 w, rep_dim (root_weights_of b) S = Ok (py_trunc (wd g n w)) &
    size w = n /\ forall k, w`_k = \sum_(i < n) (nth 0 S i)%:~R * (nth [::] (fundamentals g n) i)`_k.
Proof.
move=> h n g; apply: repE; rewrite ?series_of_valid ?root_weights_ofE //; exact: series_ofA.
Qed.

Lemma dim_scalar b S : (1 < size S)%N -> weights_is_scalar S -> rep_dim (root_weights_of b) S = Ok 1.
Proof.
move=> h /all_nthP s0; have [w -> [sw wE]] := dim_ofE b h.
rewrite wd_zero ?series_of_valid ?py_trunc_nat // ?sw; first exact: series_ofA.
by move=> k; rewrite wE big1 // => i _; rewrite (eqP (s0 0 i _)) ?mul0r.
Qed.

Lemma dim_pos b S : (1 < size S)%N -> all (fun s => 0 <= s) S ->
  exists2 d, rep_dim (root_weights_of b) S = Ok d & 0 < d.
Proof.
move=> h /all_nthP s0; have [w -> [sw wE]] := dim_ofE b h.
eexists; first by []; apply: py_trunc_ge1; apply: wd_ge1; rewrite ?series_of_valid //; first exact: series_ofA.
apply: dom_dominant => //; first exact: series_ofA.
apply: (@dom_comb _ _ (@series_ofA _ _) _ (fun i => (nth 0 S i)%:~R) w _ wE); rewrite ?series_of_valid //.
by move=> i hi; rewrite ler0z s0.
Qed.

(** A label with a single 1, at place p. *)
Lemma dim_unit b n p : (1 < n)%N -> (p < n)%N ->
  nth [::] (fundamentals (series_of b n) n) p = pw n 1 ->
  rep_dim (root_weights_of b) (mkseq (fun i => (i == p)%:Z) n) =
  Ok (match series_of b n with SB => (2 * n).+1 | _ => 2 * n end)%:Z.
Proof.
move=> h hp E; have := @dim_ofE b (mkseq (fun i => (i == p)%:Z) n); rewrite size_mkseq => /(_ h)[w -> [sw wE]].
have -> : w = pw n 1.
  apply: (@eq_from_nth _ 0); rewrite ?size_pw // => k _; rewrite wE (bigD1 (Ordinal hp)) //=.
  rewrite nth_mkseq // eqxx mul1r E big1 ?addr0 // => i hi.
  by rewrite nth_mkseq // (_ : (i == p :> nat) = false) ?mul0r //; apply/negbTE.
by rewrite wd_e0 ?py_trunc_nat ?series_of_valid //; exact: series_ofA.
Qed.

Lemma fund0 b n : (1 < n)%N -> (series_of b n = SD -> 2 < n)%N ->
  nth [::] (fundamentals (series_of b n) n) 0 = pw n 1.
Proof.
move=> h hD; have hA := @series_ofA b n; have v := series_of_valid b n.
rewrite nth_fundamentals ?v //; [|by lia|by lia].
by move: hA hD; rewrite /omega; case: (series_of b n) => // _ hD; rewrite ifT //; try lia; have := hD erefl; lia.
Qed.
