(** Properties C46-C50: SU(N) on the Gelfand-Tsetlin basis. *)
From Coq Require Import ZArith String Ascii.
From Verif Require Import McRing.
From mathcomp Require Import all_ssreflect all_algebra.
From mathcomp.zify Require Import zify.
From Verif Require Import Base Nd NdProofs Reps Sun SunDet SunDim SunRow SunLadder SunMx.

Set Implicit Arguments.
Unset Strict Implicit.
Unset Printing Implicit Defensive.

Import GRing.Theory Num.Theory Order.Theory.
Local Open Scope ring_scope.

(** The highest weights: non-empty and non-increasing. *)
Definition dominant (S : weight) : Prop :=
  (0 < size S)%N /\ forall i, (i.+1 < size S)%N -> S`_i.+1 <= S`_i.
Lemma dominantP S : dominant S <-> valid_S S.
Proof. by split=> [h|/valid_SP//]; apply/valid_SP. Qed.

(** ** C46: dim *)
(** The Weyl dimension formula. *)
Definition weyl_dim (S : weight) : rat :=
  \prod_(i < size S) \prod_(l < i) ((S`_l - S`_i)%:~R / (i%:R - l%:R) + 1).
Theorem C46_dim S : dominant S -> exists (d : nat) Ms,
  [/\ dimS S = Ok d%:Z, (0 < d)%N, S_to_Ms S = Ok Ms, size Ms = d & d%:R = weyl_dim S].
Proof.
move=> /dominantP v; exists (size (gtp (size S) S)), (gtp (size S) S).
split; rewrite ?dimSE ?S_to_MsE ?gtp_gt0 // size_gtp // weylE vdmE.
apply: eq_bigr => i _; apply: eq_bigr => l _.
have h : (i : nat)%:R - (l : nat)%:R != 0 :> rat.
  by rewrite subr_eq0 eqr_nat; have := ltn_ord l; lia.
apply: (mulIf h); rewrite [in RHS]mulrDl mul1r !divfK // rmorphB /=; mcring.
Qed.
(** The weights that are not dominant are refused. *)
Theorem C46_refused S : ~ dominant S -> dimS S = Err AssertionError /\ S_to_Ms S = Err AssertionError.
Proof.
move=> nd; have nv : ~~ valid_S S by apply/negP => /dominantP.
by split; [rewrite /dimS (negbTE nv) | apply: S_to_Ms_err].
Qed.
Example C46_example : dominant [:: 3; 1; 0] /\ dimS [:: 3; 1; 0] = Ok 15.
Proof.
have d : dominant [:: 3; 1; 0] by split=> // -[|[|]].
by split=> //; rewrite (dimSE ((dominantP _).1 d)).
Qed.

(** ** C47: S_to_Ms *)
(** [is_gt S M] (SunDim): M has size S rows, row i has size S - i entries, row 0 is S and
    neighbouring rows interlace. *)
Theorem C47_patterns S : dominant S -> exists Ms,
  [/\ S_to_Ms S = Ok Ms, (forall M, M \in Ms <-> is_gt S M), uniq Ms &
      forall i j, (i < j < size Ms)%N -> lexlt (lexlt <%R) (nth [::] Ms i) (nth [::] Ms j)].
Proof.
move=> /dominantP v; exists (gtp (size S) S); split; rewrite ?S_to_MsE ?gtp_uniq //.
- by move=> M; apply: mem_gtp.
- move=> i j /andP[ij jn]; have := gtp_lt (size S) S; move/(pairwiseP [::]); apply=> //.
  by rewrite inE; apply: ltn_trans jn.
Qed.
(** is_valid_M accepts every one of them when the weight is non-negative... *)
Theorem C47_is_valid_M S M : dominant S -> 0 <= last 0 S -> is_gt S M -> is_valid_M M.
Proof.
move=> /dominantP v S0 /(mem_gtp _ v) h; exact: valid_G h.
Qed.
(** ... and, among the triangular patterns with at least two rows, nothing else; with a
    negative entry in the first row it refuses a pattern. *)
Theorem C47_is_valid_M_only S M : dominant S -> size M = size S -> nth [::] M 0 = S ->
  (forall i, (i < size S)%N -> size (nth [::] M i) = (size S - i)%N) -> is_valid_M M -> is_gt S M.
Proof.
move=> d s1 r0 s2 /allP h; split=> // i j hij.
have : (ent M i j, ent M i j.+1, ent M i.+1 j) \in triangular_triplet M.
  apply/allpairsPdep; exists i.+1, j; rewrite !mem_iota s1 subSS subn0; split=> //; try lia.
by move/h => /and3P[-> -> _].
Qed.
Theorem C47_negative_refuted : exists S M, [/\ dominant S, is_gt S M & is_valid_M M = false].
Proof.
exists [:: 0; -1], [:: [:: 0; -1]; [:: 0]]; split=> //; first by split=> // -[].
by split=> //= -[|[|]] // [|].
Qed.
Example C47_example : S_to_Ms [:: 1; 1; 0] =
  Ok [:: [:: [:: 1; 1; 0]; [:: 1; 0]; [:: 0]]; [:: [:: 1; 1; 0]; [:: 1; 0]; [:: 1]]; [:: [:: 1; 1; 0]; [:: 1; 1]; [:: 1]]].
Proof. by []. Qed.

(** ** C48: index_to_M and M_to_index *)
Theorem C48_index S : dominant S -> exists (d : nat) Ms,
  [/\ dimS S = Ok d%:Z, S_to_Ms S = Ok Ms,
      (forall i, (i < d)%N -> index_to_M S i%:Z = Ok (Some (nth [::] Ms i))),
      (forall i M, (i < d)%N -> index_to_M S i%:Z = Ok (Some M) -> M_to_index M = Ok (Some i%:Z)) &
      forall M, M \in Ms -> exists i : nat,
        [/\ M_to_index M = Ok (Some i%:Z), (i < d)%N & index_to_M S i%:Z = Ok (Some M)]].
Proof.
move=> /dominantP v; exists (size (gtp (size S) S)), (gtp (size S) S).
split; rewrite ?dimSE ?S_to_MsE //.
- by move=> i hi; apply: index_to_ME.
- by move=> i M hi; rewrite index_to_ME // => -[<-]; apply: index_to_M_to_index.
- move=> M hM; exists (index M (gtp (size S) S)); split; first exact: M_to_indexE.
    by rewrite index_mem.
  by rewrite index_to_ME ?index_mem // nth_index.
Qed.
Theorem C48_too_large S (d i : int) : dominant S -> dimS S = Ok d -> d <= i -> index_to_M S i = Err AssertionError.
Proof. by move=> /dominantP v; rewrite dimSE // => -[<-]; apply: index_to_M_err. Qed.
(** A negative index is not refused: it gives the first pattern. *)
Theorem C48_negative_refuted : exists S M, [/\ dominant S, index_to_M S (-1) = Ok (Some M) & M_to_index M = Ok (Some 0)].
Proof.
exists [:: 1; 0], [:: [:: 1; 0]; [:: 0]]; split=> //; first by split=> // -[].
Qed.
Example C48_example : index_to_M [:: 1; 1; 0] 2 = Ok (Some [:: [:: 1; 1; 0]; [:: 1; 1]; [:: 1]])
  /\ M_to_index [:: [:: 1; 1; 0]; [:: 1; 1]; [:: 1]] = Ok (Some 2).
Proof. by []. Qed.

Section Ladders.
Variable C : numClosedFieldType.
Notation nd := (nd C).

(** ** C49: the coefficients and the ladder matrices *)
(** A move between two patterns, up or down, has a coefficient: no division by zero, no failed
    assertion, and the two directions agree. *)
Theorem C49_coeff S M N k q : dominant S -> is_gt S M -> is_gt S N -> (0 < k < size S)%N -> (q < size S - k)%N ->
  (forall i j, ent N i j = ent M i j + ((i == k) && (j == q))%:Z) ->
  exists x : C, [/\ 0 <= x, compute_coeff_upper C M k q = Ok x & compute_coeff_lower C N k q = Ok x].
Proof.
move=> /dominantP v /(mem_gtp _ v) hM /(mem_gtp _ v) hN; case: k => // l hl hq e.
have lq : lvl S l q by split.
have st : step l q M N.
  apply/(stepP v lq hM hN) => i j; rewrite e faddE; case: (_ && _) => //; exact: addr0.
exists (sqrtC (uA C (size S) (ent M) l q)); split.
- rewrite sqrtC_ge0; exact: uA_ge0 st.
- exact: coeff_up_step st.
- exact: (coeff_dn_step v C lq hM hN st).
Qed.
(** A move that leaves the patterns may divide by zero. *)
Theorem C49_outside_refuted : exists M k q, is_gt [:: 1; 1; 0] M /\ compute_coeff_upper C M k q = Err ZeroDivisionError.
Proof.
exists [:: [:: 1; 1; 0]; [:: 1; 1]; [:: 1]], 1%N, 1%N; split.
  by apply/(@mem_gtp [:: 1; 1; 0]).
by rewrite /compute_coeff_upper /coeff /= !big_cons !big_nil.
Qed.
Theorem C49_transpose S : dominant S -> 0 <= last 0 S -> exists (d : nat) (U L : nd),
  [/\ dimS S = Ok d%:Z, upper_ladder_matrices C S = Ok U, lower_ladder_matrices C S = Ok L,
      shape U = [:: (size S).-1; d; d] /\ shape L = shape U &
      forall l i j, (l < (size S).-1)%N -> (i < d)%N -> (j < d)%N -> get L [:: l; i; j] = get U [:: l; j; i]].
Proof.
move=> /dominantP v S0; have [U eU [sU hU]] := upper_matricesE C v S0; have [L eL [sL hL]] := lower_matricesE C v S0.
exists (size (gtp (size S) S)), U, L; split; rewrite ?dimSE // ?sU ?sL //.
move=> l i j hl hi hj; have := hL l hl; rewrite -hU // => /matrixP/(_ (Ordinal hi) (Ordinal hj)).
by rewrite !mxE.
Qed.

(** ** C50: the commutators *)
Definition comm d (A B : 'M[C]_d) := A *m B - B *m A.
(** The three relations asked, and those between different levels. *)
Theorem C50_commutators S : dominant S -> 0 <= last 0 S -> exists (d : nat) (U L Z : nd),
  [/\ dimS S = Ok d%:Z, upper_ladder_matrices C S = Ok U, lower_ladder_matrices C S = Ok L & Jz_matrices C S = Ok Z] /\
  let n := (size S).-1 in
  let p := mx3 d d U in let m := mx3 d d L in let z := mx3 d d Z in
  [/\ (forall l, (l < n)%N -> comm (z l) (p l) = p l),
      (forall l, (l < n)%N -> comm (z l) (m l) = - m l),
      (forall l, (l < n)%N -> comm (p l) (m l) = 2%:R *: z l) &
      [/\ forall l k, (l < n)%N -> (k < n)%N -> l != k -> comm (p l) (m k) = 0,
          forall l k, (l < n)%N -> (k < n)%N -> (l == k.+1) || (k == l.+1) -> comm (z l) (p k) = - (2%:R^-1 *: p k),
          forall l k, (l < n)%N -> (k < n)%N -> (l.+1 < k)%N || (k.+1 < l)%N -> comm (z l) (p k) = 0 &
          forall l k, (l < n)%N -> (k < n)%N -> comm (z l) (z k) = 0]].
Proof.
move=> /dominantP v S0; have [U eU [sU hU]] := upper_matricesE C v S0; have [L eL [sL hL]] := lower_matricesE C v S0.
have [Z eZ [sZ hZ]] := Jz_matricesE C v.
exists (size (gtp (size S) S)), U, L, Z; split; rewrite ?dimSE //.
rewrite /comm; have two : 2%:R / 2%:R = 1 :> C by rewrite divff // pnatr_eq0.
have l1 l : (l < (size S).-1)%N -> (l.+1 < size S)%N by lia.
have zp l k : (l < (size S).-1)%N -> (k < (size S).-1)%N -> let d := size (gtp (size S) S) in
    mx3 d d Z l *m mx3 d d U k - mx3 d d U k *m mx3 d d Z l = ((cartan l k)%:~R / 2%:R) *: mx3 d d U k.
  by move=> hl hk d; rewrite /d hZ // hU // JzJp // l1.
split=> [l hl|l hl|l hl|].
- by rewrite zp // /cartan eqxx -[2%:R%:~R]/(2%:R) two scale1r.
- rewrite hZ // hL // -[Jz S C l]Jz_tr -!trmx_mul -linearB /=.
  rewrite -[Jp S C l *m _ - _]opprB JzJp ?l1 // /cartan eqxx -[2%:R%:~R]/(2%:R) two scale1r.
  by rewrite linearN.
- by rewrite hU // hL // hZ // JpJm ?l1 // eqxx.
split=> [l k hl hk ne|l k hl hk adj|l k hl hk far|l k hl hk].
- by rewrite hU // hL // JpJm ?l1 // (negbTE ne).
- rewrite zp // /cartan adj; have -> : (l == k) = false by lia.
  by rewrite mulNr mul1r scaleNr.
- rewrite zp // /cartan; have -> : (l == k) = false by lia.
  have -> : (l == k.+1) || (k == l.+1) = false by lia.
  by rewrite mul0r scale0r.
- by rewrite !hZ // Jz_comm subrr.
Qed.
(** For a weight with a negative entry (accepted by SU3 and SU4) is_valid_M empties the
    ladders and the third relation is lost. *)
Theorem C50_negative_refuted : exists S (U L Z : nd),
  [/\ dominant S, upper_ladder_matrices C S = Ok U, lower_ladder_matrices C S = Ok L, Jz_matrices C S = Ok Z &
      comm (mx3 2 2 U 0) (mx3 2 2 L 0) != 2%:R *: mx3 2 2 Z 0].
Proof.
have dm : dominant [:: 0; -1] by split=> // -[].
have v : valid_S [:: 0; -1] by apply/dominantP.
have [Z eZ [sZ hZ]] := Jz_matricesE C v.
have [|U eU [sU hU]] := @ladder_matricesE C _ v (upper_ladder C) (fun _ _ _ => 0).
  move=> l N M; case: l => // _ hM hN; rewrite /upper_ladder.
  have s1 : size M = 2%N by have [[]] := (GP v M).1 hM.
  rewrite s1 /=; suff -> : M_add_at_lk M 1 0 1 == Some N = false by rewrite /= big_nil.
  rewrite /M_add_at_lk; move: hM; rewrite /gtp /= !inE => /orP[|] /eqP -> //.
have [|L eL [sL hL]] := @ladder_matricesE C _ v (lower_ladder C) (fun _ _ _ => 0).
  move=> l N M; case: l => // _ hM hN; rewrite /lower_ladder.
  have s1 : size M = 2%N by have [[]] := (GP v M).1 hM.
  rewrite s1 /=; suff -> : M_add_at_lk M 1 0 (-1) == Some N = false by rewrite /= big_nil.
  rewrite /M_add_at_lk; move: hM; rewrite /gtp /= !inE => /orP[|] /eqP -> //.
exists [:: 0; -1], U, L, Z; split=> //; rewrite (hZ 0%N) // /comm.
apply/eqP => /matrixP/(_ ord0 ord0); rewrite !mxE !big1; first last.
- by move=> k _; rewrite !mxE hU // mul0r.
- by move=> k _; rewrite !mxE hL // mul0r.
rewrite subrr eqxx mulr1n mulrCA divff ?pnatr_eq0 // mulr1 => /esym/eqP; rewrite intr_eq0.
by rewrite /wz /sg /= !big_ord_recl !big_ord0.
Qed.
Example C49_example : let S : weight := [:: 2; 1; 0] in dominant S /\ 0 <= last 0 S /\ dimS S = Ok 8.
Proof.
move=> S; have d : dominant S by split=> // -[|[|]].
by split=> //; split=> //; rewrite (dimSE ((dominantP _).1 d)).
Qed.
End Ladders.
