(** RootsCartan: simple roots, Cartan matrices, fundamental weights and Weyl vectors of
    lie_algebra_utils.py. *)
From Coq Require Import ZArith.
From Verif Require Import McRing.
From mathcomp Require Import all_ssreflect all_algebra.
From mathcomp Require Import zify.
From Verif Require Import Base Parse Roots RootsProofs RootsSpec.

Set Implicit Arguments.
Unset Strict Implicit.
Unset Printing Implicit Defensive.

Import GRing.Theory Num.Theory.
Local Open Scope ring_scope.

Arguments vadd : simpl never.
Arguments vsub : simpl never.
Arguments vscale : simpl never.
Arguments eps : simpl never.
Arguments sr : simpl never.
Arguments pw : simpl never.
Arguments pm : simpl never.

Lemma ip_dot u v : size u = size v -> ip u v = dot u v.
Proof. by move=> e; rewrite (dotE erefl (esym e)). Qed.

(** The lists of simple roots. *)
Definition simples (g : series) (n : nat) : seq vec :=
  match g with
  | SA => sr n.+1 n
  | SB => sr n (n - 1) ++ [:: eps n (n - 1)]
  | SC => sr n (n - 1) ++ [:: vscale 2 (eps n (n - 1))]
  | SD => sr n (n - 1) ++ [:: vadd (eps n (n - 1)) (eps n (n - 2))]
  end.
Definition positives (g : series) (n : nat) : seq vec :=
  match g with
  | SA => pm n.+1
  | SB => (pp n ++ pm n) ++ ee n
  | SC => (pp n ++ pm n) ++ [seq vscale 2 v | v <- ee n]
  | SD => pp' n ++ pm n
  end.
Definition fundamentals (g : series) (n : nat) : seq vec :=
  match g with
  | SA => [seq vsub (pw n.+1 i) (vscale (i%:R / n.+1%:R) (pw n.+1 n.+1)) | i <- iota 1 n]
  | SB => [seq pw n i | i <- iota 1 (n - 1)] ++ [:: half n]
  | SC => [seq pw n i | i <- iota 1 n]
  | SD => fwD n
  end.
Definition highest (g : series) (n : nat) : vec :=
  match g with
  | SA => 1 :: nseq (n - 1) 0 ++ [:: -1]
  | SB | SD => [:: 1; 1] ++ nseq (n - 2) 0
  | SC => [:: 2] ++ nseq (n - 1) 0
  end.

Lemma roots_weightsE g n : valid_rank g n -> exists d, roots_weights g n =
  Ok (RootData (simples g n) (positives g n) (fundamentals g n) (highest g n) d).
Proof.
case: g => h; [exact: RootsA_ok|exact: RootsB_ok|exact: RootsC_ok|exact: RootsD_ok].
Qed.
Lemma roots_weights_err g n : ~~ valid_rank g n -> exists e, roots_weights g n = Err e.
Proof.
case: g => h; [rewrite /= RootsA_err //|rewrite /= RootsB_err //|rewrite /= RootsC_err //|rewrite /= RootsD_err //];
  by eexists.
Qed.

Lemma size_sr m n : size (sr m n) = n. Proof. by rewrite size_map size_iota. Qed.
Lemma nth_sr m n i : (i < n)%N -> nth [::] (sr m n) i = vsub (eps m i) (eps m i.+1).
Proof. by move=> h; rewrite (nth_map 0%N) ?size_iota // nth_iota. Qed.
Lemma size_simples g n : valid_rank g n -> size (simples g n) = n.
Proof. by case: g => /= h; rewrite ?size_cat size_sr //= addn1; lia. Qed.

(** alpha_i as a vector, and its product with another vector. *)
Definition alpha (g : series) (n i : nat) : vec :=
  match g with
  | SA => vsub (eps n.+1 i) (eps n.+1 i.+1)
  | SB => if (i < n - 1)%N then vsub (eps n i) (eps n i.+1) else eps n (n - 1)
  | SC => if (i < n - 1)%N then vsub (eps n i) (eps n i.+1) else vscale 2 (eps n (n - 1))
  | SD => if (i < n - 1)%N then vsub (eps n i) (eps n i.+1) else vadd (eps n (n - 1)) (eps n (n - 2))
  end.
Lemma nth_simples g n i : valid_rank g n -> (i < n)%N -> nth [::] (simples g n) i = alpha g n i.
Proof.
case: g => /= vn h; first (by rewrite nth_sr); rewrite nth_cat size_sr; case: ifP => hi; rewrite ?nth_sr //;
  by have -> : (i - (n - 1) = 0)%N by lia.
Qed.
Lemma size_alpha g n i : size (alpha g n i) = ambient g n.
Proof. by case: g; rewrite /alpha /ambient; try case: ifP; rewrite ?eB ?eD ?size_vscale ?size_eps. Qed.

Definition apair (g : series) (n i : nat) (v : vec) : rat :=
  match g with
  | SA => v`_i - v`_i.+1
  | SB => if (i < n - 1)%N then v`_i - v`_i.+1 else v`_(n - 1)
  | SC => if (i < n - 1)%N then v`_i - v`_i.+1 else 2 * v`_(n - 1)
  | SD => if (i < n - 1)%N then v`_i - v`_i.+1 else v`_(n - 1) + v`_(n - 2)
  end.
Lemma dot_alpha g n i v : size v = ambient g n -> dot (alpha g n i) v = apair g n i v.
Proof.
rewrite /alpha /apair; case: g => sv; try case: ifP => h; rewrite ?dot_eB ?dot_eD ?dotZl ?dot_eps //.
by rewrite size_eps.
Qed.
Lemma ip_alpha g n i v : size v = ambient g n -> ip v (alpha g n i) = apair g n i v.
Proof.
move=> sv; rewrite ip_dot ?size_alpha // (dotC sv) ?size_alpha // dot_alpha //.
Qed.

Ltac bval1 b :=
  lazymatch b with
  | true => fail
  | false => fail
  | _ => (have -> : b = true by lia) || (have -> : b = false by lia)
  end.
Ltac bval := repeat match goal with
  | |- context [nat_of_bool ?b] => bval1 b
  | |- context [if ?b then _ else _] => bval1 b
  end.

Definition norm2 (g : series) (n i : nat) : rat :=
  match g with
  | SA | SD => 2
  | SB => if (i < n - 1)%N then 2 else 1
  | SC => if (i < n - 1)%N then 2 else 4
  end.
Lemma ip_alpha_alpha g n i : valid_rank g n -> (i < n)%N -> ip (alpha g n i) (alpha g n i) = norm2 g n i.
Proof.
move=> vn h; rewrite ip_alpha ?size_alpha // /apair /alpha /norm2; case: g vn => vn; rewrite /valid_rank in vn; try case hi: (i < n - 1)%N; cbv match;
  rewrite ?nth_vscale ?nth_eB ?nth_eD ?nth_eps; bval; exact/eqP.
Qed.

Lemma cartanE roots i j : (i < size roots)%N -> (j < size roots)%N ->
  nth 0 (nth [::] (cartan_matrix roots) i) j =
  (if i == j then 2 else 2 * dot (nth [::] roots i) (nth [::] roots j)
                        / dot (nth [::] roots i) (nth [::] roots i)).
Proof.
move=> hi hj; rewrite /cartan_matrix range0.
rewrite (nth_map 0%N) ?size_iota // (nth_map 0%N) ?size_iota // !nth_iota //.
Qed.

Lemma cartan_std g n i j : valid_rank g n -> (i < n)%N -> (j < n)%N ->
  nth 0 (nth [::] (cartan_matrix (simples g n)) i) j = (std_cartan g n i j)%:~R.
Proof.
move=> vn hi hj; rewrite cartanE ?size_simples // !nth_simples // !dot_alpha ?size_alpha //.
rewrite /std_cartan; case: eqP => [//|ne].
have : [\/ j = i.+1, i = j.+1 | ~~ chain i j].
  rewrite /chain; case: (eqVneq j i.+1) => [->|?]; first by constructor 1.
  by case: (eqVneq i j.+1) => [->|?]; [constructor 2|constructor 3].
rewrite /apair /alpha /chain; case: g vn => vn; rewrite /valid_rank in vn.
- by rewrite !nth_eB; case=> H; (try by exfalso; lia); bval; exact/eqP.
- case hi': (i < n - 1)%N; case hj': (j < n - 1)%N; try lia; cbv match;
    rewrite ?nth_eB ?nth_eps; case=> H; (try by exfalso; lia); bval; exact/eqP.
- case hi': (i < n - 1)%N; case hj': (j < n - 1)%N; try lia; cbv match;
    by rewrite ?nth_vscale ?nth_eB ?nth_eps; case=> H; (try by exfalso; lia); bval; exact/eqP.
- case hi': (i < n - 1)%N; case hj': (j < n - 1)%N; try lia; cbv match.
  + by rewrite ?nth_eB ?nth_eD; case=> H; (try by exfalso; lia); bval; exact/eqP.
  + rewrite ?nth_eB ?nth_eD => _; case: (ltngtP (i + 2) (n - 1)) => hi2; bval; exact/eqP.
  + rewrite ?nth_eB ?nth_eD => _; case: (ltngtP (j + 2) (n - 1)) => hj2; bval; exact/eqP.
Qed.
