(** Properties_Roots: the root systems of lie_algebra_utils.py (C56) and the dimensions of
    the representations of son.py and spn.py (C68). *)
From Coq Require Import ZArith.
From Verif Require Import McRing.
From mathcomp Require Import all_ssreflect all_algebra.
From mathcomp Require Import zify.
From Verif Require Import Base Parse Roots RootsProofs RootsSpec RootsCartan RootsWeyl RootsPos RootsComb
  RootsDim RootsReps.

Set Implicit Arguments.
Unset Strict Implicit.
Unset Printing Implicit Defensive.

Import Order.TTheory GRing.Theory Num.Theory.
Local Open Scope ring_scope.

Lemma saE g n s : structure_algebra g n = Ok s -> valid_rank g n /\ exists d,
  s = Structure (size d) (RootData (simples g n) (positives g n) (fundamentals g n) (highest g n) d)
        (weyl_vector (positives g n)) ((2 * size (positives g n))%:R / n%:R) (cartan_matrix (simples g n)).
Proof.
rewrite /structure_algebra => E.
have [vn|vn] := boolP (valid_rank g n).
  by have [d Ed] := roots_weightsE vn; move: E; rewrite Ed /= => -[<-]; split=> //; exists d.
by have [e Ee] := roots_weights_err vn; move: E; rewrite Ee.
Qed.

(** The ranks that are accepted. *)
Theorem C56_defined g n : (exists s, structure_algebra g n = Ok s) <-> valid_rank g n.
Proof.
split=> [[s /saE[]//]|vn].
by have [d Ed] := roots_weightsE vn; rewrite /structure_algebra Ed; eexists.
Qed.
Theorem C56_rejected g n : ~~ valid_rank g n -> structure_algebra g n =
  Err (match g with SA => ValueError | SD => IndexError | _ => if n == 0%N then IndexError else ValueError end).
Proof.
by case: g => h; rewrite /structure_algebra /roots_weights ?RootsA_err ?RootsB_err ?RootsC_err ?RootsD_err.
Qed.
Example C56_defined_ex : valid_rank SB 5 /\ ~~ valid_rank SB 1 /\ ~~ valid_rank SD 0.
Proof. by []. Qed.

(** There are n simple roots, and their Cartan matrix is the standard one. *)
Theorem C56_simple g n s : structure_algebra g n = Ok s ->
  size (simple_roots (sa_data s)) = n /\ all (fun v => size v == ambient g n) (simple_roots (sa_data s)).
Proof.
move=> /saE[vn [d ->]] /=; rewrite size_simples //; split=> //.
apply/(all_nthP [::]) => i; rewrite size_simples // => hi.
by rewrite nth_simples // size_alpha.
Qed.
Theorem C56_cartan g n s : structure_algebra g n = Ok s ->
  CartanMatrix s = mkseq (fun i => mkseq (fun j => (std_cartan g n i j)%:~R) n) n.
Proof.
move=> /saE[vn [d ->]] /=.
have sz : size (cartan_matrix (simples g n)) = n by rewrite size_map range0 size_iota size_simples.
apply: (@eq_from_nth _ [::]) => [|i hi]; first by rewrite sz size_mkseq.
have {}hi : (i < n)%N by rewrite -sz.
rewrite [RHS]nth_mkseq //.
have szi : size (nth [::] (cartan_matrix (simples g n)) i) = n.
  by rewrite (nth_map 0%N) ?range0 ?size_iota ?size_simples // size_map size_iota.
apply: (@eq_from_nth _ 0) => [|j hj]; first by rewrite szi size_mkseq.
have {}hj : (j < n)%N by rewrite -szi.
by rewrite [RHS]nth_mkseq // cartan_std.
Qed.
Theorem C56_cartan_pairing g n s i j : structure_algebra g n = Ok s -> (i < n)%N -> (j < n)%N ->
  pairing (nth [::] (simple_roots (sa_data s)) j) (nth [::] (simple_roots (sa_data s)) i) =
  (std_cartan g n i j)%:~R.
Proof.
move=> /saE[vn [d ->]] hi hj /=.
rewrite -cartan_std // cartanE ?size_simples // !nth_simples // /pairing.
rewrite !ip_dot ?size_alpha // (dotC (size_alpha g n j) (size_alpha g n i)).
case: eqP => [->|//]; rewrite mulfK //.
rewrite -ip_dot // ip_alpha_alpha // /norm2.
by case: g vn => //= vn; case: ifP.
Qed.
Example C56_cartan_ex : std_cartan SB 3 2 1 = - 2%:Z /\ std_cartan SB 3 1 2 = - 1%:Z /\ std_cartan SD 5 2 4 = - 1%:Z.
Proof. by []. Qed.

(** The positive roots are those of the standard realisation, without repetition; there are
    as many as there should be and each is a sum of simple roots. *)
Theorem C56_positive g n s : structure_algebra g n = Ok s ->
  [/\ uniq (positive_roots (sa_data s)),
      forall v, v \in positive_roots (sa_data s) <-> standard_root g n v,
      size (positive_roots (sa_data s)) = num_positive g n &
      forall v, v \in positive_roots (sa_data s) -> natural_combination (simple_roots (sa_data s)) v].
Proof.
move=> /saE[vn [d ->]] /=; split; [exact: uniq_positives|exact: mem_positives|exact: size_positives|].
by move=> v; exact: positive_natural.
Qed.
(** The simple roots are positive roots. *)
Theorem C56_simple_positive g n s v : structure_algebra g n = Ok s ->
  v \in simple_roots (sa_data s) -> v \in positive_roots (sa_data s).
Proof.
move=> /saE[vn [d ->]] /= /(nthP [::])[i]; rewrite size_simples // => hi <-.
rewrite nth_simples //; apply/mem_positives; have sz := size_alpha g n i.
rewrite /standard_root; move: sz; rewrite /alpha /ambient; case: g vn => vn; rewrite /valid_rank in vn;
  case hi': (i < n - 1)%N => sz.
- by left; exists i, i.+1; split; [lia|split=> // k hk; rewrite nth_eB hk].
- by left; exists i, i.+1; split; [lia|split=> // k hk; rewrite nth_eB hk].
- by left; exists i, i.+1; split; [lia|split=> // k hk; rewrite nth_eB hk].
- by right; right; left; split=> //; exists (n - 1)%N; split; [lia|split=> // k hk; rewrite nth_eps hk /bas].
- by left; exists i, i.+1; split; [lia|split=> // k hk; rewrite nth_eB hk].
- by right; right; right; split=> //; exists (n - 1)%N; split; [lia|split=> // k hk; rewrite nth_vscale nth_eps hk].
- by left; exists i, i.+1; split; [lia|split=> // k hk; rewrite nth_eB hk].
- right; left; split=> //; exists (n - 2)%N, (n - 1)%N; split; first by lia.
  by split=> // k hk; rewrite nth_eD hk addrC.
Qed.
Example C56_positive_ex : num_positive SC 4 = 16%N /\ standard_root SB 2 [:: 0; 1].
Proof.
split=> //; right; right; left; split=> //; exists 1%N; split=> //.
by split=> // -[|[|k]].
Qed.

(** The fundamental weights are dual to the simple coroots for A, B, C and D_2. *)
Theorem C56_fundamental g n s : structure_algebra g n = Ok s -> (g = SD -> n = 2%N) ->
  size (fundamental_weights (sa_data s)) = n /\
  forall i j, (i < n)%N -> (j < n)%N ->
    pairing (nth [::] (fundamental_weights (sa_data s)) i) (nth [::] (simple_roots (sa_data s)) j) = (i == j)%:R.
Proof.
move=> /saE[vn [d ->]] hD /=; rewrite size_fundamentals //; split=> // i j hi hj.
rewrite nth_simples //.
have [e|e] : (g = SD /\ n = 2%N) \/ g <> SD by case: g hD {vn} => hD; [right|right|right|left; split=> //; exact: hD].
  case: e => eg en; rewrite -(@pairing_omega g n) //; congr (pairing _ _).
  by move: hi; rewrite eg en; case: i => [|[|i]].
by rewrite nth_fundamentals ?pairing_omega.
Qed.
(** For D_n with n > 2 the list is too long by n - 2 and its entry number n - 1 is not dual
    to the simple roots: its pairing with the simple root n - 1 is 0 and not 1.  The last
    entry of the list is the missing weight. *)
Theorem C56_fundamental_D_refuted n s : structure_algebra SD n = Ok s -> (2 < n)%N ->
  [/\ size (fundamental_weights (sa_data s)) = (2 * n - 2)%N,
      size (fundamental_weights (sa_data s)) <> n,
      forall i j, (i < n - 1)%N -> (j < n)%N ->
        pairing (nth [::] (fundamental_weights (sa_data s)) i) (nth [::] (simple_roots (sa_data s)) j) = (i == j)%:R,
      pairing (nth [::] (fundamental_weights (sa_data s)) (n - 1)) (nth [::] (simple_roots (sa_data s)) (n - 1)) = 0 &
      forall j, (j < n)%N ->
        pairing (last [::] (fundamental_weights (sa_data s))) (nth [::] (simple_roots (sa_data s)) j) = (n - 1 == j)%N%:R].
Proof.
move=> /saE[vn [d ->]] h; rewrite /sa_data /fundamental_weights /simple_roots size_fundD //; split=> [//||i j hi hj||j hj].
- by lia.
- by rewrite nth_simples // nth_fundamentals ?pairing_omega //; lia.
- rewrite nth_simples ?nth_fundD //; last by lia.
  rewrite /pairing ip_alpha ?size_pw // /apair ltnn !nth_pw.
  have [-> ->] : ((n - 1 < n) && (n - 1 < 1) = false /\ (n - 2 < n) && (n - 2 < 1) = false)%N by lia.
  by rewrite addr0 mulr0 mul0r.
- rewrite nth_simples // last_fundD -(@pairing_omega SD n) //; last by lia.
  by congr (pairing _ _); rewrite /omega ifF ?ifF //; lia.
Qed.
Example C56_fundamental_ex : (exists s, structure_algebra SA 4 = Ok s) /\ (exists s, structure_algebra SD 3 = Ok s).
Proof. by split; apply/C56_defined. Qed.

(** The Weyl vector pairs to 1 with every simple coroot. *)
Theorem C56_weyl_vector g n s i : structure_algebra g n = Ok s -> (i < n)%N ->
  size (WeylVector s) = ambient g n /\
  pairing (WeylVector s) (nth [::] (simple_roots (sa_data s)) i) = 1.
Proof. by move=> /saE[vn [d ->]] hi /=; rewrite size_weyl // nth_simples // pairing_weyl. Qed.

(** The Coxeter number. *)
Theorem C56_coxeter g n s : structure_algebra g n = Ok s -> CoxeterNumber s = (coxeter g n)%:R.
Proof.
move=> /saE[vn [d ->]] /=; rewrite size_positives.
have n0 : n%:R != 0 :> rat by rewrite pnatr_eq0; move: vn; case: g => /= ?; lia.
apply: (mulIf n0); rewrite divfK // -natrM; congr (_%:R).
rewrite /num_positive /coxeter; case: g vn => /= vn; try nia.
by have := odd_double_half (n * n.+1); rewrite oddM /= andbN; lia.
Qed.

(** The maximal root is a positive root, and exceeds every other one by a sum of simple
    roots.  (D_2 is not simple.) *)
Theorem C56_maximal g n s : structure_algebra g n = Ok s ->
  maximal_root (sa_data s) \in positive_roots (sa_data s) /\
  ((g = SD -> 2 < n)%N -> forall v, v \in positive_roots (sa_data s) ->
     natural_combination (simple_roots (sa_data s)) (vsub (maximal_root (sa_data s)) v)).
Proof.
move=> /saE[vn [d ->]] /=; split; first exact: highest_positive.
by move=> h v; exact: highest_natural.
Qed.
Theorem C56_maximal_D2_refuted s : structure_algebra SD 2 = Ok s ->
  ~ (forall v, v \in positive_roots (sa_data s) ->
     natural_combination (simple_roots (sa_data s)) (vsub (maximal_root (sa_data s)) v)).
Proof.
move=> /saE[vn [d ->]] /= H.
have /H[c [_ E]] : vsub (eps 2 0) (eps 2 1) \in positives SD 2.
  by apply/mem_positives; left; exists 0%N, 1%N; split=> //; split=> // -[|[|k]].
have e0 := E 0%N isT; have e1 := E 1%N isT.
rewrite !big_ord_recr big_ord0 /eps /= in e0; rewrite !big_ord_recr big_ord0 /eps /= in e1.
have e0' : 0%:R = (c 0%N + c 1%N)%:R :> rat.
  have -> : (c 0%N + c 1%N)%:R = 1 - (1 - 0) :> rat by rewrite e0 natrD; mcring.
  by mcring.
have e1' : (2 + c 0%N)%:R = (c 1%N)%:R :> rat.
  have -> : (c 1%N)%:R = (1 - (0 - 1)) + (c 0%N)%:R :> rat by rewrite e1; mcring.
  by rewrite natrD; mcring.
by move: e0' e1' => /eqP + /eqP; rewrite !eqr_nat => /eqP ? /eqP ?; lia.
Qed.

(** The first component of the structure is not the dimension of the algebra, nor its rank:
    it is the number of characters of the drawing of the Dynkin diagram. *)
Theorem C56_tsDim_refuted : exists s, structure_algebra SA 1 = Ok s /\
  tsDim s <> 1%N /\ tsDim s = 3%N /\ tsDim s = size (dynkin (sa_data s)) /\
  exists s2, structure_algebra SA 2 = Ok s2 /\ tsDim s2 <> 2%N /\ tsDim s2 <> 8%N.
Proof. by eexists; split; [|split; [|split; [|split; [|eexists; split; [|split]]]]]. Qed.

(** * Dimensions of representations (C68) *)

(** SON and SPN need labels with at least two entries. *)
Theorem C68_rejected S : ~~ (1 < size S)%N ->
  son_dim S = Err (if (size S == 0)%N then IndexError else ValueError) /\
  spn_dim S = Err (if (size S == 0)%N then IndexError else ValueError).
Proof. by move=> h; split; [exact: (@dim_err true)|exact: (@dim_err false)]. Qed.
(** The trivial representation has dimension 1. *)
Theorem C68_trivial S : (1 < size S)%N -> weights_is_scalar S -> son_dim S = Ok 1 /\ spn_dim S = Ok 1.
Proof. by move=> h s; split; [exact: (@dim_scalar true)|exact: (@dim_scalar false)]. Qed.
(** Every dominant label has a positive dimension. *)
Theorem C68_positive S : (1 < size S)%N -> all (fun s => 0 <= s) S ->
  (exists2 d, son_dim S = Ok d & 0 < d) /\ (exists2 d, spn_dim S = Ok d & 0 < d).
Proof. by move=> h s; split; [exact: (@dim_pos true)|exact: (@dim_pos false)]. Qed.
(** The label (1, 0, ..., 0) is the vector representation: of SO(2n+1) for odd n, SO(2n) for
    even n > 2 and Sp(2n) for every n. *)
Definition first_label (n : nat) : seq int := mkseq (fun i => (i == 0%N)%:Z) n.
Theorem C68_vector n : (1 < n)%N -> (odd n || (2 < n)%N) ->
  son_dim (first_label n) = Ok (if odd n then (2 * n).+1 else 2 * n)%N%:Z.
Proof.
move=> h h2; rewrite -[son_dim]/(rep_dim (root_weights_of true)) (@dim_unit true) //; try lia.
  by rewrite /series_of; case: odd.
by apply: fund0 => //; move: h2; rewrite /series_of; case: odd.
Qed.
Theorem C68_vector_spn n : (1 < n)%N -> spn_dim (first_label n) = Ok (2 * n)%N%:Z.
Proof.
move=> h; rewrite -[spn_dim]/(rep_dim (root_weights_of false)) (@dim_unit false) //; try lia.
exact: fund0.
Qed.
Example C68_ex : son_dim (first_label 3) = Ok 7%:Z /\ son_dim (first_label 4) = Ok 8%:Z.
Proof. by rewrite !C68_vector. Qed.
(** The last Dynkin label of SO(2n) should give a half-spin representation, of dimension
    2^(n-1): for every even n > 4 the code gives the dimension 2n of the vector
    representation instead. *)
Definition last_label (n : nat) : seq int := mkseq (fun i => (i == n - 1)%N%:Z) n.
Theorem C68_spin_refuted n : ~~ odd n -> (4 < n)%N ->
  son_dim (last_label n) = Ok (2 * n)%N%:Z /\ son_dim (last_label n) <> Ok (2 ^ (n - 1))%N%:Z.
Proof.
move=> o h.
have E : son_dim (last_label n) = Ok (2 * n)%N%:Z.
  rewrite -[son_dim]/(rep_dim (root_weights_of true)) (@dim_unit true) ?/series_of ?(negbTE o) //; try lia.
  by apply: nth_fundD; lia.
split=> //; rewrite E => -[] /eqP; apply/negP.
rewrite neq_ltn (leq_trans _ (_ : 2 * (n - 1) * 2 <= _)%N) //; first by lia.
have -> : (n - 1 = (n - 4).+1.+2)%N by lia.
have [m ->] : exists m, (n - 4 = m.+1)%N by exists (n - 5)%N; lia.
have := ltn_expl m (isT : 1 < 2)%N.
rewrite !expnS; nia.
Qed.
