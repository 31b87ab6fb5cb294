(** Property C70: SU(N) as a representation; C52 in terms of the generators. *)
From Coq Require Import ZArith String Ascii.
From Verif Require Import McRing.
From mathcomp Require Import all_ssreflect all_algebra.
From mathcomp.real_closed Require Import mxtens.
From mathcomp.zify Require Import zify.
From Verif Require Import Base Nd NdProofs Reps RepSpec RepProofs Pinv AlgProofs LinAlg.
From Verif Require Import Sun SunDet SunDim SunRow SunLadder SunMx SunTog SunLR SunTp SunCg SunHw SunCgProofs SunCgSearch SunCgLoop SunIrr.
From Verif Require Import SunGl SunBasis SunGen SunGenEq Properties_Sun Properties_SunCg.

Set Implicit Arguments.
Unset Strict Implicit.
Unset Printing Implicit Defensive.

Import GRing.Theory Num.Theory Order.Theory.
Local Open Scope ring_scope.

Section C70.
Variable C : numClosedFieldType.
Notation nd := (nd C).

(** The basis of su(n): i(e_kl + e_lk), then e_kl - e_lk for k < l in lexicographic order, then
    i(e_tt - e_(t+1)(t+1)). *)
Definition eu (n k l : nat) : 'M[C]_n := \matrix_(a, b) ((a == k :> nat) && (b == l :> nat))%:R.
Definition below (n : nat) : seq (nat * nat) := [seq (k, l) | k <- iota 0 n, l <- iota k.+1 (n - k.+1)].
Definition su_basis (n : nat) : seq 'M[C]_n :=
  [seq 'i *: (eu n p.1 p.2 + eu n p.2 p.1) | p <- below n] ++
  [seq eu n p.1 p.2 - eu n p.2 p.1 | p <- below n] ++
  [seq 'i *: (eu n t t - eu n t.+1 t.+1) | t <- iota 0 n.-1].
(** f are the structure constants of these matrices. *)
Definition su_constants (n : nat) (f : nat -> nat -> nat -> C) : Prop :=
  let m := (n ^ 2 - 1)%N in let t := nth 0 (su_basis n) in
  forall i j, (i < m)%N -> (j < m)%N -> t i *m t j - t j *m t i = \sum_(k < m) f i j k *: t k.
(** A Lie algebra with constants f, and no discrete generators. *)
Definition lie_theory (m : nat) (f : nat -> nat -> nat -> C) : theory C :=
  Theory m 0 f (fun _ _ => False) (fun _ => False).

Lemma size_su_basis n : (0 < n)%N -> size (su_basis n) = (n ^ 2 - 1)%N.
Proof. by move=> n0; rewrite size_basis // !size_cat !size_map size_iota addnA. Qed.
Lemma su_basisE n g : (0 < n)%N -> (g < n ^ 2 - 1)%N -> nth 0 (su_basis n) g = su_gen C n g.
Proof.
move=> n0; rewrite size_basis // => hg; rewrite /su_basis /su_gen /gX !nth_cat !size_map -!/(su_pairs n).
have [h|h] := ltnP g (size (su_pairs n)); first by rewrite (nth_map (0%N, 0%N)).
have [h2|h2] := ltnP (g - size (su_pairs n)) (size (su_pairs n)).
  by rewrite (nth_map (0%N, 0%N)) // (_ : (g < _ + _)%N = true) //; lia.
rewrite (_ : (g < _ + _)%N = false); last by lia.
have h3 : (g - size (su_pairs n) - size (su_pairs n) < n.-1)%N by lia.
by rewrite (nth_map 0%N) ?size_iota // nth_iota // add0n -subnDA.
Qed.

Section Rep.
Variables (n : nat) (n1 : (1 < n)%N).
Notation m := (n ^ 2 - 1)%N.
Let n0 : (0 < n)%N. Proof. exact: ltn_trans n1. Qed.
Lemma su_constants_sc : su_constants n (sc C n).
Proof.
move=> i j; rewrite /= => hi hj; rewrite !su_basisE //; move: hi hj; rewrite size_basis // => hi hj.
rewrite -/(cm _ _) sc_su //; apply: eq_bigr => k _; rewrite su_basisE // size_basis //.
Qed.
(** The constants are unique, so [su_constants] determines the array. *)
Lemma su_constants_uniq f : su_constants n f -> forall i j k, (i < m)%N -> (j < m)%N -> (k < m)%N -> f i j k = sc C n i j k.
Proof.
move=> h i j k hi hj hk; have := h i j hi hj; rewrite su_constants_sc // => e.
apply/esym/eqP; rewrite -subr_eq0; apply/eqP.
move: hi hj hk e; rewrite size_basis // => hi hj hk e.
apply: (su_gen_indep (c := fun k => sc C n i j k - f i j k) n0) => //.
rewrite (eq_bigr (fun g : 'I__ => sc C n i j g *: nth 0 (su_basis n) g - f i j g *: nth 0 (su_basis n) g)); last first.
  by move=> g _; rewrite scalerBl su_basisE // size_basis.
by rewrite sumrB e subrr.
Qed.
Lemma sun_repE S : size S = n -> dominant S -> 0 <= last 0 S -> exists r,
  [/\ sun_rep C S = Ok r, shape (rX r) = [:: m; size (gtp (size S) S); size (gtp (size S) S)],
      forall g, (g < m)%N -> mx3 (size (gtp (size S) S)) (size (gtp (size S) S)) (rX r) g = gX n (ES C S) g &
      is_rep (lie_theory m (sc C n)) (size (gtp (size S) S)) r].
Proof.
move=> sS /dominantP v s0; rewrite /sun_rep.
have n1' : (1 < size S)%N by rewrite sS.
have [X [-> sX mX]] := sun_generatorsE C v s0 n1'.
have [A [eA sA gA]] := sun_algebra_ofE C n1'.
rewrite /sun_algebra (_ : (S == [:: 0]) = false); last by apply/eqP => e; rewrite e in n1'.
rewrite eA (dimSE v); cbv beta iota delta [rbind]; eexists; split; first by [].
all: subst n; rewrite ?size_basis // /=.
split=> //=; rewrite ?size_basis //.
split=> //= i j hi hj; rewrite -/(cm _ _) !mX // comm_gX //; apply: eq_bigr => k _; by rewrite mX.
Qed.
End Rep.

(** ** C70: for a dominant weight with last entry >= 0 the arrays of SUN form a representation
    of su(n), with the structure constants of the basis above. *)
Theorem C70_representation n : (1 < n)%N -> exists f, su_constants n f /\
  forall S, size S = n -> dominant S -> 0 <= last 0 S -> exists (d : nat) r,
  [/\ dimS S = Ok d%:Z, sun_rep C S = Ok r & is_rep (lie_theory (n ^ 2 - 1) f) d r].
Proof.
move=> n1; exists (sc C n); split=> [|S sS dS s0]; first exact: su_constants_sc.
have [r [e sX mX h]] := sun_repE n1 sS dS s0.
by exists (size (gtp (size S) S)), r; split=> //; rewrite dimSE //; apply/dominantP.
Qed.
(** The checks of SUN let exactly these weights with last entry 0 through. *)
Theorem C70_accepted S : sun_new S = Ok S <-> dominant S /\ last 0 S = 0.
Proof.
rewrite /sun_new /passert; case: ifP => v; last by split=> // -[/dominantP]; rewrite v.
case: eqP => e /=; split=> //; last by case.
by move=> _; split=> //; apply/dominantP.
Qed.
(** The generators are the images of the basis matrices under a linear map that respects
    commutators; they are antihermitian. *)
Theorem C70_homomorphism n S d r : (1 < n)%N -> size S = n -> dominant S -> 0 <= last 0 S ->
  dimS S = Ok d%:Z -> sun_rep C S = Ok r ->
  exists phi : 'M[C]_n -> 'M[C]_d,
  [/\ forall a A B, phi (a *: A + B) = a *: phi A + phi B,
      forall A B, phi (A *m B - B *m A) = phi A *m phi B - phi B *m phi A,
      forall g, (g < n ^ 2 - 1)%N -> mx3 d d (rX r) g = phi (nth 0 (su_basis n) g) &
      forall g, (g < n ^ 2 - 1)%N -> adj (mx3 d d (rX r) g) = - mx3 d d (rX r) g].
Proof.
move=> n1 sS dS s0; have v : valid_S S by apply/dominantP.
rewrite dimSE // => -[<-]; have [r' [-> sX mX h]] := sun_repE n1 sS dS s0 => -[<-].
have n0 : (0 < n)%N by apply: ltn_trans n1.
subst n; exists (@PhiS C S); split=> [a A B|A B|g hg|g hg].
- by rewrite /PhiS PhiD PhiZ.
- exact: (PhiS_cm v A B).
- by rewrite mX // su_basisE // PhiS_gen // -size_basis.
- by rewrite mX // adj_gX // -size_basis.
Qed.
(** Unless all entries of S are equal the generators are linearly independent. *)
Theorem C70_faithful n S d r : (1 < n)%N -> size S = n -> dominant S -> 0 <= last 0 S ->
  dimS S = Ok d%:Z -> sun_rep C S = Ok r -> S`_0 != last 0 S ->
  forall c : nat -> C, \sum_(g < n ^ 2 - 1) c g *: mx3 d d (rX r) g = 0 -> forall g, (g < n ^ 2 - 1)%N -> c g = 0.
Proof.
move=> n1 sS dS s0; have v : valid_S S by apply/dominantP.
rewrite dimSE // => -[<-]; have [r' [-> sX mX h]] := sun_repE n1 sS dS s0 => -[<-] ne c e g hg.
have n0 : (0 < n)%N by apply: ltn_trans n1.
have [/existsP[k hk]|/existsPn no] := boolP [exists k : 'I_n.-1, S`_k != S`_k.+1]; last first.
  have eq k : (k < n)%N -> S`_k = S`_0.
    elim: k => // k IH hk; have hk' : (k < n.-1)%N by lia.
    by have := no (Ordinal hk'); rewrite negbK /= => /eqP <-; apply: IH; apply: ltnW.
  by rewrite -nth_last sS eq ?eqxx // in ne; lia.
move: e hg; rewrite size_basis // => e hg; subst n; apply: (indep_gX v) hg => //.
  have := ltn_ord k => hk'; exists (size S - k.+2)%N; split; first by lia.
  apply: p_neq0 => //; first by lia.
  by rewrite (_ : (size S - (size S - k.+2).+2 = k)%N) 1?(_ : (size S - (size S - k.+2).+1 = k.+1)%N) //; lia.
by rewrite -[RHS]e; apply: eq_bigr => i _; rewrite mX // size_basis.
Qed.
(** A matrix that commutes with the generators is scalar. *)
Theorem C70_irreducible n S d r : (1 < n)%N -> size S = n -> dominant S -> 0 <= last 0 S ->
  dimS S = Ok d%:Z -> sun_rep C S = Ok r ->
  forall B : 'M[C]_d, (forall g, (g < n ^ 2 - 1)%N -> B *m mx3 d d (rX r) g = mx3 d d (rX r) g *m B) -> exists c, B = c%:M.
Proof.
move=> n1 sS dS s0; have v : valid_S S by apply/dominantP.
rewrite dimSE // => -[<-]; have [r' [-> sX mX h]] := sun_repE n1 sS dS s0 => -[<-] B hB.
have n0 : (0 < n)%N by apply: ltn_trans n1.
have {}hB g : (g < size (su_pairs n) + size (su_pairs n) + n.-1)%N -> B *m gX n (ES C S) g = gX n (ES C S) g *m B.
  by move=> hg; rewrite -mX ?size_basis //; apply: hB; rewrite size_basis.
have hp k : (k.+1 < n)%N -> B *m Jp S C k = Jp S C k *m B /\ B *m (Jp S C k)^T = (Jp S C k)^T *m B.
  by move=> hk; have := @gX_rel C n _ _ _ _ B hB k k.+1; rewrite ltnSn hk /ES E_p E_m; apply.
subst n; apply: (schur v) => l hl; by have [] := hp l hl.
Qed.
(** U(1) written as SUN((0,)). *)
Theorem C70_trivial : exists r, [/\ dimS [:: 0] = Ok 1, sun_rep C [:: 0] = Ok r & is_rep (lie_theory 1 (fun _ _ _ => 0)) 1 r].
Proof.
have v : valid_S [:: 0] by [].
rewrite /sun_rep dimSE //; eexists; split=> //; split=> //=; split=> //= i j hi hj.
rewrite big1 => [|k _]; last by rewrite scale0r.
by apply/matrixP => a b; rewrite !mxE !big1 ?subrr // => k _; rewrite !mxE mul0r.
Qed.
(** SU2_, SU3 and SU4 accept weights with a negative entry; the arrays are then no
    representation of su(2), whatever the constants. *)
Theorem C70_negative_refuted : exists S r, [/\ dominant S, dimS S = Ok 2, sun_rep C S = Ok r &
  forall f, su_constants 2 f -> ~ is_rep (lie_theory 3 f) 2 r].
Proof.
have dm : dominant [:: 0; -1] by split=> // -[].
have v : valid_S [:: 0; -1] by apply/dominantP.
have [Z eZ [sZ hZ]] := Jz_matricesE C v.
have [|U eU [sU hU]] := @ladder_matricesE C _ v (upper_ladder C) (fun _ _ _ => 0).
  move=> l N M; case: l => // _ hM hN; rewrite /upper_ladder.
  have s1 : size M = 2%N by have [[]] := (GP v M).1 hM.
  rewrite s1 /=; suff -> : M_add_at_lk M 1 0 1 == Some N = false by rewrite /= big_nil.
  rewrite /M_add_at_lk; move: hM; rewrite /gtp /= !inE => /orP[|] /eqP -> //.
have [|L eL [sL hL]] := @ladder_matricesE C _ v (lower_ladder C) (fun _ _ _ => 0).
  move=> l N M; case: l => // _ hM hN; rewrite /lower_ladder.
  have s1 : size M = 2%N by have [[]] := (GP v M).1 hM.
  rewrite s1 /=; suff -> : M_add_at_lk M 1 0 (-1) == Some N = false by rewrite /= big_nil.
  rewrite /M_add_at_lk; move: hM; rewrite /gtp /= !inE => /orP[|] /eqP -> //.
have [X [eX sX X0 X1 X2]] : exists X, [/\ sun_generators C [:: 0; -1] = Ok X, shape X = [:: 3; 2; 2]%N,
    mx3 2 2 X 0 = 0, mx3 2 2 X 1 = 0 & mx3 2 2 X 2 != 0].
  rewrite /sun_generators /upper_ladder_matrices /lower_ladder_matrices eU eL eZ; cbv beta iota delta [rbind].
  have uE (x y : 'I_2) : get (slice0 U 0) [:: x : nat; y : nat] = 0 by rewrite /= hU.
  have lE (x y : 'I_2) : get (slice0 L 0) [:: x : nat; y : nat] = 0 by rewrite /= hL.
  have su : shape (slice0 U 0) = [:: 2; 2]%N by rewrite /= sU.
  have sl : shape (slice0 L 0) = [:: 2; 2]%N by rewrite /= sL.
  have H := @stackE C ([:: 0; -1] : weight) _ (su_pairs (size ([:: 0; -1] : weight)))
      (fun p => do a <- E_basis p.1 p.2 U L; do b <- E_basis p.2 p.1 U L;
                do s <- add a b; Ok (scale 'i s)) (fun _ : nat * nat => 0 : 'M[C]_(size (gtp 2 ([:: 0; -1] : weight)))) isT.
  have [|Li [Xi [-> -> sXi mXi]]] := H; last clear H.
    move=> p; rewrite (_ : su_pairs _ = [:: (0, 1)%N]) // inE => /eqP -> /=; rewrite /add.
    have [c [-> [sc gc]]] := @bmap2_same C +%R _ _ (etrans su (esym sl)).
    exists (scale 'i c); split=> //; first by rewrite /= sc.
    apply/matrixP => x y; rewrite !mxE /= gc; last by rewrite su !valid_cons !ltn_ord.
    by rewrite uE lE addr0 mulr0.
  cbv beta iota delta [rbind].
  have H := @stackE C ([:: 0; -1] : weight) _ (su_pairs (size ([:: 0; -1] : weight)))
      (fun p => do a <- E_basis p.1 p.2 U L; do b <- E_basis p.2 p.1 U L; sub a b) (fun _ : nat * nat => 0 : 'M[C]_(size (gtp 2 ([:: 0; -1] : weight)))) isT.
  have [|Lr [Xr [-> -> sXr mXr]]] := H.
    move=> p; rewrite (_ : su_pairs _ = [:: (0, 1)%N]) // inE => /eqP -> /=; rewrite /sub.
    have [c [-> [sc gc]]] := @bmap2_same C (fun x y => x - y) _ _ (etrans su (esym sl)).
    exists c; split=> //; first by rewrite sc.
    apply/matrixP => x y; rewrite !mxE /= gc; last by rewrite su !valid_cons !ltn_ord.
    by rewrite uE lE subrr.
  cbv beta iota delta [rbind].
  rewrite /concat2 sXi sXr /= sZ /= /len /= sXi sXr sZ /=.
  eexists; split; first by [].
  - by [].
  - by rewrite -(mXi (0, 0)%N 0%N isT); apply/matrixP => x y; rewrite !mxE.
  - by rewrite -(mXr (0, 0)%N 0%N isT); apply/matrixP => x y; rewrite !mxE.
  apply/eqP => /matrixP/(_ ord0 ord0); rewrite !mxE /=.
  have := hZ 0%N isT => /matrixP/(_ ord0 ord0); rewrite !mxE eqxx mulr1n => -> /eqP.
  rewrite !mulf_eq0 pnatr_eq0 /= invr_eq0 pnatr_eq0 orbF (negbTE (neq0Ci C)) intr_eq0.
  by rewrite /wz /sg /= !big_ord_recl !big_ord0.
have [A [eA sA gA]] := @sun_algebra_ofE C [:: 0; -1] isT.
exists [:: 0; -1]; rewrite /sun_rep eX /sun_algebra /= in eA *; rewrite eA dimSE //; eexists; split=> // f hf [_ _ _ _ [/= cm _ _]].
have := cm 0%N 1%N isT isT; rewrite X0 X1 mulmx0 subrr !big_ord_recl big_ord0 /= X0 X1 !scaler0 !add0r addr0.
move/esym/eqP; rewrite scaler_eq0 (negbTE X2) orbF => /eqP f0.
have := hf 0%N 1%N isT isT; rewrite !big_ord_recl big_ord0 /= f0 scale0r !addr0.
move/matrixP/(_ ord0 ord0); rewrite !mxE !big_ord_recl !big_ord0 /= !mxE /=.
rewrite !mulr0n !(subrr, addr0, add0r, subr0, mulr0, mul0r, mulr1, mul1r) mulrN1 -opprD -mulr2n => /eqP.
by rewrite oppr_eq0 -mulr_natr mulf_eq0 pnatr_eq0 orbF (negbTE (neq0Ci C)).
Qed.
Example C70_example : let S : weight := [:: 2; 1; 0] in
  [/\ size S = 3%N, dominant S, 0 <= last 0 S, S`_0 != last 0 S & dimS S = Ok 8].
Proof.
move=> S; have d : dominant S by split=> // -[|[|]].
by split=> //; rewrite (dimSE ((dominantP _).1 d)).
Qed.

Lemma gen_ok n S X : (1 < n)%N -> valid_S S -> 0 <= last 0 S -> size S = n -> sun_generators C S = Ok X ->
  forall g, (g < n ^ 2 - 1)%N -> mx3 (size (gtp (size S) S)) (size (gtp (size S) S)) X g = gX n (ES C S) g.
Proof.
move=> n1 v s z; subst n; have [X' [-> sX mX]] := sun_generatorsE C v s n1; move=> [<-] g.
by rewrite size_basis //; [apply: mX | apply: ltn_trans n1].
Qed.

(** ** C52 in terms of the generators: being equivariant for the raising and the lowering
    matrices is the same as being equivariant for the generators of SUN. *)
Theorem C52_generators n S1 S2 S3 d1 U1 L1 Z1 d2 U2 L2 Z2 d3 U3 L3 Z3 X1 X2 X3 (F : 'M[C]_(d1 * d2, d3)) : (1 < n)%N ->
  weight_ok n S1 -> weight_ok n S2 -> weight_ok n S3 ->
  ladders S1 d1 U1 L1 Z1 -> ladders S2 d2 U2 L2 Z2 -> ladders S3 d3 U3 L3 Z3 ->
  sun_generators C S1 = Ok X1 -> sun_generators C S2 = Ok X2 -> sun_generators C S3 = Ok X3 ->
  (equivariant n U1 U2 U3 F /\ equivariant n L1 L2 L3 F) <->
  (forall g, (g < n ^ 2 - 1)%N ->
    F *m mx3 d3 d3 X3 g = (mx3 d1 d1 X1 g *t 1%:M + 1%:M *t mx3 d2 d2 X2 g) *m F).
Proof.
move=> n1 w1 w2 w3 h1 h2 h3.
have n0 : (0 < n)%N by apply: ltn_trans n1.
have [v1 s1 e1 [hU1 hL1 _]] := laddersE w1 h1; have [v2 s2 e2 [hU2 hL2 _]] := laddersE w2 h2.
have [v3 s3 e3 [hU3 hL3 _]] := laddersE w3 h3.
have [z1 _ _] := w1; have [z2 _ _] := w2; have [z3 _ _] := w3; move: F; rewrite {}e1 {}e2 {}e3 => F.
move=> /(gen_ok n1 v1 s1 z1) g1 /(gen_ok n1 v2 s2 z2) g2 /(gen_ok n1 v3 s3 z3) g3.
have r := rel_generators v1 v2 v3 z1 z2 z3 F.
have lt l : (l < n.-1)%N -> (l.+1 < n)%N by lia.
have lt' l : (l.+1 < n)%N -> (l < n.-1)%N by lia.
transitivity (eqU n F /\ eqL n F).
  split=> -[a b]; split=> l hl.
  - by have := a l (lt' l hl); rewrite hU1 ?hU2 ?hU3 //; lia.
  - by have := b l (lt' l hl); rewrite hL1 ?hL2 ?hL3 ?Jp_adj ?z1 ?z2 ?z3 //; lia.
  - by rewrite hU1 // hU2 // hU3 //; apply: a; apply: lt.
  - by rewrite hL1 // hL2 // hL3 // !Jp_adj ?z1 ?z2 ?z3 //; try lia; apply: b; apply: lt.
rewrite r -size_basis //; split=> h g hg; first by rewrite g1 // g2 // g3 //; apply: h.
by have := h g hg; rewrite g1 // g2 // g3.
Qed.
End C70.
