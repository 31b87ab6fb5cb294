(** Properties C52 and C69: the Clebsch-Gordan coefficients of SU(N) and the irreducibility of the
    modules of the Gelfand-Tsetlin basis. *)
From Coq Require Import ZArith String Ascii.
From Verif Require Import McRing.
From mathcomp Require Import all_ssreflect all_algebra.
From mathcomp.real_closed Require Import mxtens.
From mathcomp.zify Require Import zify.
From Verif Require Import Base Nd NdProofs Reps RepProofs Pinv IcbProofs ReducedProofs LinAlg LinAlgProofs BiProofs RtpArr.
From Verif Require Import Sun SunDet SunDim SunRow SunLadder SunMx SunTog SunLR SunTp.
From Verif Require Import SunCg SunHw SunCgProofs SunCgSearch SunCgLoop SunIrr SunCgRef Properties_Sun.

Set Implicit Arguments.
Unset Strict Implicit.
Unset Printing Implicit Defensive.

Import GRing.Theory Num.Theory Order.Theory.
Local Open Scope ring_scope.

Section C52.
Variable C : numClosedFieldType.
Notation nd := (nd C).
Notation id_ := (fun x : nd => x).

(** The arrays of upper_ladder_matrices, lower_ladder_matrices and Jz_matrices; they exist for
    every dominant S with 0 <= last S (C50). *)
Definition ladders (S : weight) (d : nat) (U L Z : nd) : Prop :=
  [/\ dimS S = Ok d%:Z, upper_ladder_matrices C S = Ok U, lower_ladder_matrices C S = Ok L & Jz_matrices C S = Ok Z].
(** A weight accepted by all functions of sun.py. *)
Definition weight_ok (n : nat) (S : weight) : Prop := [/\ size S = n, dominant S & 0 <= last 0 S].
(** C[alpha] as a matrix from the third space to the product of the first two. *)
Definition slice (d1 d2 d3 alpha : nat) (R : nd) : 'M[C]_(d1 * d2, d3) :=
  \matrix_(i, j) get R [:: alpha; (i %/ d2)%N; (i %% d2)%N; j : nat].
(** X3 and X1 x 1 + 1 x X2 agree through F. *)
Definition equivariant (n d1 d2 d3 : nat) (T1 T2 T3 : nd) (F : 'M[C]_(d1 * d2, d3)) : Prop :=
  forall l, (l < n.-1)%N ->
  F *m mx3 d3 d3 T3 l = (mx3 d1 d1 T1 l *t 1%:M + 1%:M *t mx3 d2 d2 T2 l) *m F.
(** Patterns are determined by the sums of their rows: the weights have multiplicity one. *)
Definition mult_free (S : weight) : Prop := forall M N, is_gt S M -> is_gt S N ->
  (forall i, \sum_(x <- nth [::] M i) x = \sum_(x <- nth [::] N i) x) -> M = N.

Lemma laddersE n S d U L Z : weight_ok n S -> ladders S d U L Z ->
  [/\ valid_S S, 0 <= last 0 S, d = size (gtp (size S) S) &
      [/\ forall l, (l < n.-1)%N -> mx3 (size (gtp (size S) S)) (size (gtp (size S) S)) U l = Jp S C l,
          forall l, (l < n.-1)%N -> mx3 (size (gtp (size S) S)) (size (gtp (size S) S)) L l = adj (Jp S C l) &
          forall l, (l < n.-1)%N -> mx3 (size (gtp (size S) S)) (size (gtp (size S) S)) Z l = Jz S C l]].
Proof.
move=> [<- /dominantP v s0] [e1 e2 e3 e4]; split=> //; first by move: e1; rewrite dimSE // => -[].
have [U' eU [_ hU]] := upper_matricesE C v s0; have [L' eL [_ hL]] := lower_matricesE C v s0.
have [Z' eZ [_ hZ]] := Jz_matricesE C v.
move: e2 e3 e4; rewrite eU eL eZ => -[<-] [<-] [<-]; split=> // l hl; rewrite hL // Jp_adj //; lia.
Qed.
Lemma laddersX n S : weight_ok n S -> exists d U L Z, ladders S d U L Z.
Proof.
move=> [_ /dominantP v s0].
have [U eU _] := upper_matricesE C v s0; have [L eL _] := lower_matricesE C v s0; have [Z eZ _] := Jz_matricesE C v.
by exists (size (gtp (size S) S)), U, L, Z; split=> //; rewrite dimSE.
Qed.
Lemma sgE S M i : is_gt S M -> (i < size S)%N -> sg S i M = \sum_(x <- nth [::] M i) x.
Proof.
move=> gt hi; have [_ _ h _] := gt; rewrite (big_nth 0) big_mkord h //.
Qed.
Lemma mult_freeP S : valid_S S -> mult_free S ->
  forall M N, M \in gtp (size S) S -> N \in gtp (size S) S -> (forall i, sg S i M = sg S i N) -> M = N.
Proof.
move=> v mf M N /(mem_gtp _ v) gM /(mem_gtp _ v) gN h; apply: mf => // i.
have [hi|hi] := ltnP i (size S); first by rewrite -!(sgE _ hi).
by have [s1 _ _ _] := gM; have [s2 _ _ _] := gN; rewrite !nth_default ?big_nil ?s1 ?s2.
Qed.

(** ** The highest weight vectors: clebsch_gordan_eldest returns an orthonormal basis of the
    vectors that all raising operators kill and whose weights are those of S3. *)
Theorem C52_eldest n S1 S2 S3 d1 U1 L1 Z1 d2 U2 L2 Z2 : weight_ok n S1 -> weight_ok n S2 -> weight_ok n S3 ->
  ladders S1 d1 U1 L1 Z1 -> ladders S2 d2 U2 L2 Z2 ->
  exists2 e0 : C, 0 < e0 & forall eigh eps, eigh_correct eigh -> 0 < eps -> eps <= e0 ->
  exists Ms k E, [/\ S_to_Ms S3 = Ok Ms, cg_eldest id_ eigh eps S1 S2 (last [::] Ms) = Ok E, shape E = [:: k; d1; d2] &
    let V : 'M[C]_(k, d1 * d2) := \matrix_(a, i) get E [:: a : nat; (i %/ d2)%N; (i %% d2)%N] in
    V *m adj V = 1%:M /\
    forall x : 'rV[C]_(d1 * d2), (x <= V)%MS <->
      (forall l, (l < n.-1)%N -> (mx3 d1 d1 U1 l *t 1%:M + 1%:M *t mx3 d2 d2 U2 l) *m x^T = 0) /\
      (forall l, (l < n.-1)%N -> (mx3 d1 d1 Z1 l *t 1%:M + 1%:M *t mx3 d2 d2 Z2 l) *m x^T =
         ((S3`_(n - l.+2) - S3`_(n - l.+1))%:~R / 2%:R) *: x^T)].
Proof.
move=> w1; have [z1 _ _] := w1; subst n; move=> w2 [z3 /dominantP v3 _] h1 h2; have [v1 s1 -> [hU1 _ hZ1]] := laddersE w1 h1.
have [v2 s2 -> [hU2 _ hZ2]] := laddersE w2 h2; have [z2 _ _] := w2.
have sz : size S2 = size S1 by [].
have sM3 : size (topM S3) = size S1 by rewrite size_mkseq z3.
have [e0 e00 h0] := eldestE C v1 v2 s1 s2 sz sM3; exists e0 => // eigh eps ok p0 le.
have [k [E [eE sE o1 hE]]] := h0 eigh eps ok p0 le; exists (gtp (size S3) S3), k, E.
rewrite S_to_MsE // last_top //; split=> //; split=> // x; rewrite -hE /hw; set n := size S1 in z3 *.
have wt l : (l < n.-1)%N -> wz S3 l (topM S3) = S3`_(n - l.+2) - S3`_(n - l.+1).
  move=> hl; have dsg i : (i < n)%N -> sg S3 i (topM S3) = sg S3 i.+1 (topM S3) + S3`_(n - i.+1).
    move=> hi; rewrite /sg z3 (_ : (n - i = (n - i.+1).+1)%N); last by lia.
    rewrite big_ord_recr /= topM_ent ?z3; last by lia.
    by congr (_ + _); apply: eq_bigr => j _; have hj := ltn_ord j; rewrite !topM_ent ?z3 //; lia.
  rewrite /wz (dsg l) ?(dsg l.+1); try lia.
have zx : (forall l, (l < n.-1)%N -> zW C S1 S2 l *m x^T = (wz S3 l (topM S3))%:~R *: x^T) <->
    (forall l, (l < n.-1)%N -> tensX (mx3 _ _ Z1 l) (mx3 _ _ Z2 l) *m x^T =
      ((S3`_(n - l.+2) - S3`_(n - l.+1))%:~R / 2%:R) *: x^T).
  have t0 := two0 C; split=> h l hl; have := h l hl; rewrite hZ1 // hZ2 // /zW -scalemxAl -(wt l hl).
    by move=> /(congr1 (fun z => 2%:R^-1 *: z)); rewrite !scalerA mulVf // scale1r mulrC.
  by move=> ->; rewrite scalerA mulrC divfK.
rewrite -zx; split=> -[hp hz]; split.
- by move=> l hl; rewrite -(hp l hl) hU1 // hU2.
- move=> l hl; apply/colP => i; rewrite !mxE (bigD1 i) //= big1 => [|j ne]; rewrite zWE.
    rewrite eqxx mulr1n addr0; have [/hz|/(zgood v1 v2 v3 sz z3 (topG v3) (ltn_ord i) hl) e] := boolP (zbad C S1 S2 (topM S3) i).
      by rewrite !mxE => ->; rewrite !mulr0.
    by rewrite e mxE.
  by rewrite eq_sym (negbTE ne) mulr0n mul0r.
- by move=> l hl; rewrite /pW -hU1 // -hU2 //; apply: hp.
move=> i bi.
have [h|/allPn [l]] := boolP (all (fun l => zsum S1 S2 l i == wz S3 l (topM S3)) (iota 0 n.-1)).
  move: bi; rewrite /zbad; case/negP; apply/eqP.
  have [i1 i2] := ltn_div v2 (ltn_ord i).
  have y1 := size_z C v1 (patG i1); have y2 := size_z C v2 (patG i2); have y3 := size_z C v3 (topG v3).
  have ss : size [seq p.1 + p.2 | p <- zip (M_to_z_weight C (pat S1 (i %/ size (gtp (size S2) S2))))
      (M_to_z_weight C (pat S2 (i %% size (gtp (size S2) S2))))] = n.-1.
    by rewrite size_map size_zip y1 y2 sz minnn.
  apply: (@eq_from_nth _ 0); first by rewrite ss y3 z3.
  rewrite ss => l hl; have l1 : (l < (size S1).-1)%N by [].
  have l2 : (l < (size S2).-1)%N by rewrite z2.
  have l3 : (l < (size S3).-1)%N by rewrite z3.
  rewrite (nth_map (0, 0)); last by rewrite size_zip y1 y2 sz minnn.
  rewrite nth_zip ?y1 ?y2 ?sz //= (z_weightE C v1 (patG i1) l1) (z_weightE C v2 (patG i2) l2) (z_weightE C v3 (topG v3) l3).
  rewrite -mulrDl -rmorphD; congr (_%:~R / _); apply/eqP; apply: (allP h); by rewrite mem_iota.
rewrite mem_iota add0n => /andP[_ hl] ne; have := congr1 (fun z : 'cV_(_ * _) => z i 0) (hz l hl).
rewrite /= !mxE (bigD1 i) //= big1 => [|j nj]; last by rewrite zWE eq_sym (negbTE nj) mulr0n mul0r.
rewrite zWE eqxx mulr1n addr0 mxE => /eqP; rewrite -subr_eq0 -mulrBl mulf_eq0 subr_eq0 => /orP[|/eqP //].
by rewrite eqr_int (negbTE ne).
Qed.

(** ** S3 without weight multiplicities: the slice C[0] is an isometric equivariant map. *)
Theorem C52_multiplicity_free n S1 S2 S3 d1 U1 L1 Z1 d2 U2 L2 Z2 d3 U3 L3 Z3 :
  weight_ok n S1 -> weight_ok n S2 -> weight_ok n S3 ->
  ladders S1 d1 U1 L1 Z1 -> ladders S2 d2 U2 L2 Z2 -> ladders S3 d3 U3 L3 Z3 -> mult_free S3 ->
  exists2 e0 : C, 0 < e0 & forall eigh eps, eigh_correct eigh -> 0 < eps -> eps <= e0 ->
  exists k R, [/\ sun_cg id_ eigh eps S1 S2 S3 = Ok R, shape R = [:: k; d1; d2; d3],
    (forall j, S3`_j = S1`_j + S2`_j) -> (0 < k)%N &
    (0 < k)%N -> let F := slice d1 d2 d3 0 R in
    [/\ adj F *m F = 1%:M, equivariant n U1 U2 U3 F, equivariant n L1 L2 L3 F & equivariant n Z1 Z2 Z3 F]].
Proof.
move=> w1; have [z1 _ _] := w1; subst n; move=> w2 w3 h1 h2 h3 mf; have [v1 s1 -> [hU1 hL1 hZ1]] := laddersE w1 h1.
have [v2 s2 -> [hU2 hL2 hZ2]] := laddersE w2 h2; have [v3 s3 -> [hU3 hL3 hZ3]] := laddersE w3 h3.
have [sz _ _] := w2; have [sz3 _ _] := w3.
have [e0 e00 h0] := main_mf C v1 v2 v3 s1 s2 s3 sz sz3 (mult_freeP v3 mf); exists e0 => // eigh eps ok p0 le.
have [k [E [R [eE sE [eR sR] hE hF]]]] := h0 eigh eps ok p0 le; exists k, R; split=> // [add|k0].
  exact: (eldest_pos v1 v2 v3 sz sz3 add hE).
have [o1 o2 o3 o4] := hF k0; split=> // l hl.
- by rewrite hU1 // hU2 // hU3 // o2.
- by rewrite hL1 // hL2 // hL3 // o3 // pW_adjE -?Jp_adj ?sz //; lia.
- rewrite hZ1 // hZ2 // hZ3 //; have := o4 l hl; rewrite /zW -scalemxAr -scalemxAl.
  by move=> /(scalerI (two0 C)).
Qed.
(** The cases: SU(2), and the symmetric powers of every SU(N). *)
Lemma mult_free_SU2 S : dominant S -> size S = 2%N -> mult_free S.
Proof.
move=> /dominantP v s2 M N gM gN h; have [a1 a2 a3 _] := gM; have [b1 b2 b3 _] := gN.
have hr : nth [::] M 1 = nth [::] N 1.
  have := h 1%N; have := a3 1%N; have := b3 1%N; rewrite s2 => /(_ erefl) sN /(_ erefl) sM.
  case: (nth _ M 1) sM => [|x [|? ?]] // _; case: (nth _ N 1) sN => [|y [|? ?]] // _.
  by rewrite !big_seq1 => ->.
apply: (@eq_from_nth _ [::]); first by rewrite a1 b1.
rewrite a1 s2 => -[|[|i]] // _; by rewrite a2 b2.
Qed.
Lemma mult_free_row a b m : dominant (a :: nseq m b) -> mult_free (a :: nseq m b).
Proof.
set S := a :: nseq m b => /dominantP v M N gM gN h.
have ent_b (T : pattern) i j : is_gt S T -> (0 < j)%N -> (i + j < size S)%N -> ent T i j = b.
  move=> gT; elim: i j => [|i ih] j j0 hj.
    have [_ r0 _ _] := gT; rewrite /ent r0; case: j j0 hj => //= j _ hj; rewrite nth_nseq.
    by move: hj; rewrite /= size_nseq add0n ltnS => ->.
  have [_ _ g] := (GP v T).1 ((mem_gtp _ v).2 gT); have /andP[g1 g2] := g i j ltac:(lia).
  have e1 : ent T i j = b by apply: ih => //; lia.
  have e2 : ent T i j.+1 = b by apply: ih => //; lia.
  by rewrite e1 in g2; rewrite e2 in g1; apply/eqP; rewrite eq_le g2 g1.
have hM := (mem_gtp _ v).2 gM; have hN := (mem_gtp _ v).2 gN.
have [p1 _ _] := (GP v M).1 hM; have [p2 _ _] := (GP v N).1 hN.
apply: (pat_ext p1 p2) => i [|j] hi hj; last by rewrite !ent_b //; lia.
have := h i; rewrite -!(sgE _ hi) // /sg (_ : (size S - i = (size S - i).-1.+1)%N); last by lia.
rewrite !big_ord_recl; under eq_bigr => q _.
  rewrite ent_b //; last by have := ltn_ord q; rewrite lift0; lia.
  over.
under [in RHS]eq_bigr => q _.
  rewrite ent_b //; last by have := ltn_ord q; rewrite lift0; lia.
  over.
by move/addIr.
Qed.
Corollary C52_SU2 S1 S2 S3 d1 U1 L1 Z1 d2 U2 L2 Z2 d3 U3 L3 Z3 :
  weight_ok 2 S1 -> weight_ok 2 S2 -> weight_ok 2 S3 ->
  ladders S1 d1 U1 L1 Z1 -> ladders S2 d2 U2 L2 Z2 -> ladders S3 d3 U3 L3 Z3 ->
  exists2 e0 : C, 0 < e0 & forall eigh eps, eigh_correct eigh -> 0 < eps -> eps <= e0 ->
  exists k R, [/\ sun_cg id_ eigh eps S1 S2 S3 = Ok R, shape R = [:: k; d1; d2; d3] &
    (0 < k)%N -> let F := slice d1 d2 d3 0 R in
    [/\ adj F *m F = 1%:M, equivariant 2 U1 U2 U3 F, equivariant 2 L1 L2 L3 F & equivariant 2 Z1 Z2 Z3 F]].
Proof.
move=> w1 w2 w3 h1 h2 h3; have [z3 dm _] := w3.
have [e0 e00 h0] := C52_multiplicity_free w1 w2 w3 h1 h2 h3 (mult_free_SU2 dm z3); exists e0 => // eigh eps ok p0 le.
by have [k [R [r1 r2 _ r3]]] := h0 eigh eps ok p0 le; exists k, R.
Qed.
Corollary C52_symmetric n S1 S2 a b d1 U1 L1 Z1 d2 U2 L2 Z2 d3 U3 L3 Z3 :
  let S3 := a :: nseq n.-1 b in
  weight_ok n S1 -> weight_ok n S2 -> weight_ok n S3 ->
  ladders S1 d1 U1 L1 Z1 -> ladders S2 d2 U2 L2 Z2 -> ladders S3 d3 U3 L3 Z3 ->
  exists2 e0 : C, 0 < e0 & forall eigh eps, eigh_correct eigh -> 0 < eps -> eps <= e0 ->
  exists k R, [/\ sun_cg id_ eigh eps S1 S2 S3 = Ok R, shape R = [:: k; d1; d2; d3] &
    (0 < k)%N -> let F := slice d1 d2 d3 0 R in
    [/\ adj F *m F = 1%:M, equivariant n U1 U2 U3 F, equivariant n L1 L2 L3 F & equivariant n Z1 Z2 Z3 F]].
Proof.
move=> S3 w1 w2 w3 h1 h2 h3; have [z3 dm _] := w3.
have [e0 e00 h0] := C52_multiplicity_free w1 w2 w3 h1 h2 h3 (mult_free_row dm); exists e0 => // eigh eps ok p0 le.
by have [k [R [r1 r2 _ r3]]] := h0 eigh eps ok p0 le; exists k, R.
Qed.
(** SU(3): 3 x 3 contains the symmetric square (6), which has no multiplicities. *)
Example C52_example : let S1 : weight := [:: 1; 0; 0] in let S3 : weight := [:: 2; 0; 0] in
  [/\ weight_ok 3 S1, weight_ok 3 S3, mult_free S3, (forall j, S3`_j = S1`_j + S1`_j) &
      exists d U L Z, ladders S1 d U L Z].
Proof.
have o1 : weight_ok 3 [:: 1; 0; 0] by split=> //; split=> // -[|[|]].
have o3 : weight_ok 3 [:: 2; 0; 0] by split=> //; split=> // -[|[|]].
split=> //; [|by move=> [|[|[|[|j]]]] | exact: laddersX o1].
by apply: (@mult_free_row 2 0 2); case: o3.
Qed.

(** ** The slices C[alpha] with alpha >= 1 are never equivariant: only their last column is
    filled, since the list of the patterns already done is not reset. *)
Theorem C52_multiplicity_refuted n S1 S2 S3 d1 U1 L1 Z1 d2 U2 L2 Z2 d3 U3 L3 Z3 :
  weight_ok n S1 -> weight_ok n S2 -> weight_ok n S3 ->
  ladders S1 d1 U1 L1 Z1 -> ladders S2 d2 U2 L2 Z2 -> ladders S3 d3 U3 L3 Z3 -> (1 < d3)%N ->
  exists2 e0 : C, 0 < e0 & forall eigh eps, eigh_correct eigh -> 0 < eps -> eps <= e0 ->
  forall R alpha, sun_cg id_ eigh eps S1 S2 S3 = Ok R -> (0 < alpha)%N -> (alpha < nth 0%N (shape R) 0)%N ->
  ~ equivariant n U1 U2 U3 (slice d1 d2 d3 alpha R).
Proof.
move=> w1; have [z1 _ _] := w1; subst n; move=> w2 w3 h1 h2 h3; have [v1 s1 -> [hU1 _ _]] := laddersE w1 h1.
have [v2 s2 -> [hU2 _ _]] := laddersE w2 h2; have [v3 s3 -> [hU3 _ _]] := laddersE w3 h3.
have [sz _ _] := w2; have [sz3 _ _] := w3; move=> dd.
have sM3 : size (topM S3) = size S1 by rewrite size_mkseq.
have [e0 e00 h0] := eldestE C v1 v2 s1 s2 sz sM3; exists e0 => // eigh eps ok p0 le R alpha eR a0.
have [k [E [eE sE o1 hE]]] := h0 eigh eps ok p0 le; have [sR _] := tail_zero v1 v2 v3 eE sE eR.
rewrite sR /= => ak eq; apply: (tail_refuted v1 v2 v3 s1 s2 s3 sz sz3 eE sE (eldest_nz v3 o1) eR a0 ak dd).
by move=> l hl; rewrite -hU3 // eq // hU1 // hU2.
Qed.

(** ** S3 = (2, 1, 0), the adjoint representation of SU(3): whatever S1 and S2, C[0] is not
    equivariant either; construct_lower_cg normalises a single lowered column, but the two
    patterns of weight zero are reached by the same operator. *)
Definition adjoint3 : weight := [:: 2; 1; 0].
Lemma adjoint3_shared S1 : size S1 = 3%N -> shared C S1 adjoint3 [:: adjoint3; [:: 1; 1]; [:: 1]].
Proof.
move=> z1 l Mc; rewrite z1 => hl hc nz; have v : valid_S adjoint3 by [].
have [q [lq1 lq2] st] := @jel_neq0 adjoint3 C l _ _ hl nz.
set N : pattern := [:: adjoint3; [:: 2; 0]; [:: 1]].
have hN : N \in gtp 3 adjoint3 by apply/(mem_gtp _ v); split=> // [[|[|[|]]]|[|[|[|]]] [|[|[|]]]].
have hM : [:: adjoint3; [:: 1; 1]; [:: 1]] \in gtp 3 adjoint3.
  by apply/(mem_gtp _ v); split=> // [[|[|[|]]]|[|[|[|]]] [|[|[|]]]].
have lq : lvl adjoint3 l q by split.
have up1 := step_G v lq hM; rewrite (eqP st) hc in up1.
clear lq; case: l hl lq1 lq2 st up1 nz => [|[|//]] _ lq1 lq2 st up1 nz; last first.
  by move: lq2 up1; case: q st => // st _; rewrite /up.
case: q lq2 st up1 => [|[|//]] lq2 st up1; last by move: up1; rewrite /up.
exists N => //; split=> //; rewrite gt_eqF // (@jel_gt0 adjoint3 v C 0 1) //.
Qed.
Theorem C52_adjoint_refuted S1 S2 d1 U1 L1 Z1 d2 U2 L2 Z2 d3 U3 L3 Z3 :
  weight_ok 3 S1 -> weight_ok 3 S2 ->
  ladders S1 d1 U1 L1 Z1 -> ladders S2 d2 U2 L2 Z2 -> ladders adjoint3 d3 U3 L3 Z3 ->
  exists2 e0 : C, 0 < e0 & forall eigh eps, eigh_correct eigh -> 0 < eps -> eps <= e0 ->
  exists k E, [/\ cg_eldest id_ eigh eps S1 S2 [:: adjoint3; [:: 2; 1]; [:: 2]] = Ok E, shape E = [:: k; d1; d2],
    (forall j, adjoint3`_j = S1`_j + S2`_j) -> (0 < k)%N &
    (0 < k)%N -> forall R, sun_cg id_ eigh eps S1 S2 adjoint3 = Ok R ->
    ~ (equivariant 3 U1 U2 U3 (slice d1 d2 d3 0 R) /\ equivariant 3 L1 L2 L3 (slice d1 d2 d3 0 R))].
Proof.
have v3 : valid_S adjoint3 by [].
have w3 : weight_ok 3 adjoint3 by split=> //; apply/dominantP.
move=> w1 w2 h1 h2 h3; have [v1 s1 -> [hU1 hL1 _]] := laddersE w1 h1.
have [v2 s2 -> [hU2 hL2 _]] := laddersE w2 h2; have [_ s3 -> [hU3 hL3 _]] := laddersE w3 h3.
have [z1 _ _] := w1; have [z2 _ _] := w2.
have sz : size S2 = size S1 by rewrite z1 z2.
have sz3 : size adjoint3 = size S1 by rewrite z1.
have sM3 : size (topM adjoint3) = size S1 by rewrite size_mkseq.
have [e0 e00 h0] := eldestE C v1 v2 s1 s2 sz sM3; exists e0 => // eigh eps ok p0 le.
have [k [E [eE sE o1 hE]]] := h0 eigh eps ok p0 le; exists k, E; split=> // [add|k0 R eR [eu el]].
  exact: (eldest_pos v1 v2 v3 sz sz3 add hE).
pose M : pattern := [:: adjoint3; [:: 1; 1]; [:: 1]].
have hM : M \in gtp (size adjoint3) adjoint3.
  by apply/(mem_gtp _ v3); split=> // [[|[|[|]]]|[|[|[|]]] [|[|[|]]]].
apply: (shared_refuted v1 v2 v3 s1 s2 s3 sz sz3 eE sE (eldest_nz v3 o1) eR k0 hM) => //.
  exact: adjoint3_shared.
have zp : (size S1).-1 = 3.-1 by rewrite z1.
split=> l; rewrite zp => hl.
  by rewrite -hU3 // eu // hU1 // hU2.
by rewrite -hL3 // el // hL1 // hL2 // pW_adjE -?Jp_adj ?z1 ?z2 //.
Qed.
Example C52_example_adjoint : [/\ weight_ok 3 [:: 1; 0; 0], weight_ok 3 [:: 1; 1; 0] &
  forall j, adjoint3`_j = [:: 1; 0; 0]`_j + [:: 1; 1; 0]`_j].
Proof. by split; [split=> //; split=> // -[|[|]] | split=> //; split=> // -[|[|]] | move=> [|[|[|[|j]]]]]. Qed.

(** ** C69: the modules are irreducible: a matrix that commutes with the ladder operators is
    scalar. *)
Theorem C69_irreducible n S d U L Z (A : 'M[C]_d) : weight_ok n S -> ladders S d U L Z ->
  (forall l, (l < n.-1)%N -> A *m mx3 d d U l = mx3 d d U l *m A) ->
  (forall l, (l < n.-1)%N -> A *m mx3 d d L l = mx3 d d L l *m A) -> exists c, A = c%:M.
Proof.
move=> w; have [z1 _ _] := w; subst n; move=> h; have [v s0 e [hU hL _]] := laddersE w h.
move: A; rewrite e => A c1 c2; apply: (schur v) => l hl; have hl' : (l < (size S).-1)%N by lia.
  by rewrite -hU // c1.
by rewrite -Jp_adj // -hL // c2.
Qed.
(** The highest pattern is the only vector, up to a scalar, that all raising operators kill. *)
Theorem C69_highest n S d U L Z (x : 'cV[C]_d) : weight_ok n S -> ladders S d U L Z ->
  (forall l, (l < n.-1)%N -> mx3 d d U l *m x = 0) <-> (forall i : 'I_d, (i.+1 < d)%N -> x i 0 = 0).
Proof.
move=> w; have [z1 _ _] := w; subst n; move=> h; have [v s0 e [hU hL _]] := laddersE w h.
have it := index_top v; have tp := Jp_top C v.
move: x; rewrite e => x; split=> [k i hi|k l hl].
  have e' : x = xf x (topM S) *: dl C S (topM S).
    by apply: (kill_dl v) => l hl; rewrite -hU; [apply: k | ]; lia.
  rewrite e' !mxE; case: eqP => [ep|_]; last by rewrite mulr0.
  by move: hi; rewrite -[i : nat](index_uniq [::] (ltn_ord i) (gtp_uniq _ _)) -/(pat S i) ep it; lia.
have ht : (size (gtp (size S) S) - 1 < size (gtp (size S) S))%N by have := dd0 v; lia.
have -> : x = x (Ordinal ht) 0 *: dl C S (topM S).
  apply/colP => i; rewrite !mxE; have [hi|hi] := ltnP i.+1 (size (gtp (size S) S)).
    rewrite k //; case: eqP => [ep|_]; last by rewrite mulr0.
    by move: hi; rewrite -[i : nat](index_uniq [::] (ltn_ord i) (gtp_uniq _ _)) -/(pat S i) ep it; lia.
  have -> : i = Ordinal ht by apply: val_inj => /=; have := ltn_ord i; lia.
  have -> : pat S (Ordinal ht) = topM S by rewrite /pat /= -[X in nth _ _ X]it nth_index ?topG.
  by rewrite eqxx mulr1.
by rewrite hU // -scalemxAr tp ?scaler0 //; lia.
Qed.
End C52.
