(** Properties C40, C41, C43: Clebsch-Gordan coefficients of SU2, and C32 for SU2. *)
From Coq Require Import ZArith.
From mathcomp Require Import all_ssreflect all_algebra.
From mathcomp Require Import zify.
From mathcomp.real_closed Require Import mxtens.
From Verif Require Import Base McRing Nd NdProofs Reps RepSpec RepOps Reduced ReducedProofs Intw TpProofs TpReduced TpSnap Labels LabelProofs.
From Verif Require Import CgSum Su2 Su2Proofs Su2Cg Su2CgProofs Su2CgEq Su2Irr Properties_Reduced.

Set Implicit Arguments.
Unset Strict Implicit.
Unset Printing Implicit Defensive.

Import Order.POrderTheory GRing.Theory Num.Theory.
Local Open Scope ring_scope.

(** * Specification *)
Section Spec.
Variable C : numClosedFieldType.
(** The selection rule on doubled spins. *)
Definition selected (n1 n2 n3 : nat) : Prop :=
  [/\ (n3 <= n1 + n2)%N, (n1 <= n2 + n3)%N, (n2 <= n1 + n3)%N & ~~ odd (n1 + n2 + n3)].
(** C[u, i, j, k] intertwines the generators g3 with g1 and g2:
    the identity of check_representation_triplet. *)
Definition equivariant (l d1 d2 d3 z : nat) (g1 g2 g3 : nat -> nat -> nat -> C) (c : nd C) : Prop :=
  forall a u i j k, (a < l)%N -> (u < z)%N -> (i < d1)%N -> (j < d2)%N -> (k < d3)%N ->
    \sum_(k' < d3) g3 a k k' * get c [:: u; i; j; k' : nat] =
    \sum_(i' < d1) g1 a i' i * get c [:: u; i' : nat; j; k] + \sum_(j' < d2) g2 a j' j * get c [:: u; i; j' : nat; k].
(** Orthonormal columns: c and c' (for labels n, n') on the same tensor product. *)
Definition orthonormal (d1 d2 d3 d3' : nat) (same : bool) (c c' : nd C) : Prop :=
  forall k k', (k < d3)%N -> (k' < d3')%N ->
    \sum_(i < d1) \sum_(j < d2) get c [:: 0%N; i : nat; j : nat; k] * (get c' [:: 0%N; i : nat; j : nat; k'])^*
    = (same && (k == k'))%:R.
End Spec.

Lemma selectedP n1 n2 n3 : reflect (selected n1 n2 n3) (tri n1 n2 n3).
Proof. by apply: (iffP and4P). Qed.

Section Props.
Variable C : numClosedFieldType.
(** The array of generators of spin n / 2. *)
Let gX (r : rep C) : nat -> nat -> nat -> C := fun a i k => get (rX r) [:: a; i; k].

(** ** C40 *)
Theorem C40_su2 n1 n2 n3 : selected n1 n2 n3 -> exists r1 r2 r3 c,
  [/\ su2_rep C n1 = Ok r1, su2_rep C n2 = Ok r2, su2_rep C n3 = Ok r3, su2_cg C n1 n2 n3 = Ok c &
      equivariant 3 n1.+1 n2.+1 n3.+1 1 (gX r1) (gX r2) (gX r3) c].
Proof.
move/selectedP=> h; have [r1 [e1 _]] := su2_rep_ok C n1; have [r2 [e2 _]] := su2_rep_ok C n2.
have [r3 [e3 _]] := su2_rep_ok C n3; have [c [e4 _]] := su2_cg_ok C h.
exists r1, r2, r3, c; split=> // a [|u] i j k ha // _ hi hj hk.
by have := su2_equivariant C h ha hi hj hk; rewrite /gen /= e1 e2 e3 e4.
Qed.
(** The coefficients are real, and zero unless m3 = m1 + m2. *)
Theorem C40_su2_real n1 n2 n3 c i j k : selected n1 n2 n3 -> su2_cg C n1 n2 n3 = Ok c ->
  (i < n1.+1)%N -> (j < n2.+1)%N -> (k < n3.+1)%N ->
  get c [:: 0%N; i; j; k] \is Num.real /\ ((n1 + n2 + 2 * k != n3 + 2 * i + 2 * j)%N -> get c [:: 0%N; i; j; k] = 0).
Proof.
move/selectedP=> h; have [X [-> [_ gc]]] := su2_cg_ok C h => -[<-] hi hj hk; rewrite gc //.
split; first exact: ce_real.
move/triP: h => [p [q [r [-> -> ->]]]] ne; rewrite ceE /cge; case: eqP => // e; case/eqP: ne; lia.
Qed.

(** ** C41 *)
Theorem C41_su2_orthonormal n1 n2 n3 n3' c c' : selected n1 n2 n3 -> selected n1 n2 n3' ->
  su2_cg C n1 n2 n3 = Ok c -> su2_cg C n1 n2 n3' = Ok c' ->
  orthonormal n1.+1 n2.+1 n3.+1 n3'.+1 (n3 == n3') c c'.
Proof.
move=> /selectedP h /selectedP h'; have [X [-> [_ gc]]] := su2_cg_ok C h; have [X' [-> [_ gc']]] := su2_cg_ok C h'.
move=> [<-] [<-] k k' hk hk'.
transitivity (((Bm C n1 n2 n3)^T *m Bm C n1 n2 n3') (Ordinal hk) (Ordinal hk')).
  rewrite mxE sum_tens; apply: eq_bigr => i _; apply: eq_bigr => j _.
  by rewrite mxE !Bm_at gc // gc' // (CrealP (ce_real C _ _ _ _ _ _)).
case: eqP => [e|/eqP ne]; last by rewrite Bm_orth // mxE.
by move: h' hk'; rewrite -e => h' hk'; rewrite Bm_norm // !mxE -val_eqE /=.
Qed.
(** Together with the count of dimensions (C42_su2): the concatenated matrix is square
    and orthogonal, so its rows are orthonormal as well. *)
Theorem C41_su2_complete n1 n2 L i j i' j' : su2_mul n1%:Z n2%:Z = Ok L ->
  (i < n1.+1)%N -> (j < n2.+1)%N -> (i' < n1.+1)%N -> (j' < n2.+1)%N ->
  exists cs : seq (nd C), mapR (su2_cg C n1 n2) (map absz L) = Ok cs /\
  \sum_(c <- cs) \sum_(k < nth 0%N (shape c) 3) get c [:: 0%N; i; j; k : nat] * get c [:: 0%N; i'; j'; k : nat]
  = ((i == i') && (j == j'))%:R.
Proof.
move=> eL hi hj hi' hj'; have -> : map absz L = su2_list n1 n2 by rewrite /su2_list eL.
pose f n3 := getR (zeros [::]) (su2_cg C n1 n2 n3).
exists (map f (su2_list n1 n2)); split.
  by apply: mapR_ok_in => n3; rewrite su2_listP /f => h; have [X [-> _]] := su2_cg_ok C h.
have /matrixP/(_ (mxtens_index (Ordinal hi, Ordinal hj)) (mxtens_index (Ordinal hi', Ordinal hj'))) := proj_full C n1 n2.
rewrite /proj summxE mxE (can_eq (@mxtens_indexK _ _)) xpair_eqE -!val_eqE /= => <-.
rewrite big_map [LHS]big_seq [RHS]big_seq; apply: eq_bigr => n3; rewrite su2_listP /f => h.
have [X [-> [sX gc]]] := su2_cg_ok C h; rewrite /= sX /= mxE; apply: eq_bigr => k _.
by rewrite [_^T _ _]mxE !Bm_at !gc.
Qed.

(** ** C43 *)
Theorem C43_su2 n1 n2 n3 : exists c L, [/\ su2_mul n1%:Z n2%:Z = Ok L, su2_cg C n1 n2 n3 = Ok c &
  shape c = [:: (n3%:Z \in L) : nat; n1.+1; n2.+1; n3.+1]].
Proof.
have [L [eL _ _ _ _]] := @su2_selection n1 n2 isT isT.
have eT : (n3%:Z \in L) = tri n1 n2 n3 by rewrite -mem_su2; move: eL; rewrite su2_mulE => -[->].
case: (boolP (tri n1 n2 n3)) => h.
  by have [c [e [s _]]] := su2_cg_ok C h; exists c, L; rewrite eT h.
by exists (zeros [:: 0%N; n1.+1; n2.+1; n3.+1]), L; split=> //; [exact: su2_cg_empty | rewrite eT (negbTE h)].
Qed.

(** ** C32 for SU2: no hypothesis on the coefficients is left *)
Theorem C32_su2_irreps n1 n2 : let G := su2_irreps C in
  exists r, @tp_irreps C G n1 n2 = Ok r /\ reduces (su2_th C) r (@rep_of C G n1) (@rep_of C G n2) /\
  r_irreps r = [seq MulIrrep (G := G) 1 i3 | i3 <- su2_list n1 n2].
Proof.
move=> G; have h := @su2_cg_complete C n1 n2; have [r [e [hr hi]]] := C32_irreps (isT : (0 < th_l (su2_th C))%N) h.
exists r; split=> //; split=> //; rewrite hi.
apply: List.map_ext_in => n3 /InP hn; have ht : tri n1 n2 n3 by rewrite -su2_listP.
by rewrite /cgz (proj1 (su2_cgE C ht)).
Qed.
Theorem C32_su2_reduced (r1 r2 : reducedrep (su2_irreps C)) R1 R2 : red_ok (su2_th C) r1 -> red_ok (su2_th C) r2 ->
  red_rep r1 = Ok R1 -> red_rep r2 = Ok R2 ->
  reduces_snap (su2_th C) (tp_reduced r1 r2) (red_dim r1 * red_dim r2) R1 R2 (all_int r1 r2).
Proof. by move=> h1 h2; apply: C32_reduced => // m1 m2 _ _; exact: su2_cg_complete. Qed.
(** Two spins 1/2: the singlet coefficient is 1/sqrt 2 up to sign. *)
Example C41_example : exists c, su2_cg C 1 1 0 = Ok c /\
  get c [:: 0; 0; 1; 0]%N ^+ 2 + get c [:: 0; 1; 0; 0]%N ^+ 2 = 1.
Proof.
have h : selected 1 1 0 by split.
have [c [e [_ gc]]] := su2_cg_ok C (introT (selectedP 1 1 0) h); exists c; split=> //.
have := C41_su2_orthonormal h h e e (isT : (0 < 1)%N) (isT : (0 < 1)%N); rewrite /= mulr1n => <-.
rewrite !big_ord_recl !big_ord0 /= /bump /= !addr0.
have r i j : (i < 2)%N -> (j < 2)%N -> (get c [:: 0%N; i; j; 0%N])^* = get c [:: 0%N; i; j; 0%N].
  by move=> hi hj; rewrite gc // (CrealP (ce_real C _ _ _ _ _ _)).
have z i : (i < 2)%N -> get c [:: 0%N; i; i; 0%N] = 0.
  by move=> hi; have [_ ->] := C40_su2_real h e hi hi (isT : (0 < 1)%N) => //; case: i hi => [|[|]].
by rewrite !r // !z // !mul0r add0r addr0 !expr2.
Qed.
End Props.
