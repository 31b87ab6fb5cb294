(** TpSnap: the rounding at the end of tensor_product of two ReducedReps, and
    the overloads that wrap an argument (C32). *)
From Coq Require Import ZArith String Ascii.
From mathcomp Require Import all_ssreflect all_algebra.
From mathcomp.real_closed Require Import mxtens.
From mathcomp Require Import zify.
From Verif Require Import Base McRing Nd NdProofs Reps RepSpec RepProofs RepPower Pinv RepOps RepOps2 Reduced ReducedProofs Intw TpProofs TpReduced.

Set Implicit Arguments.
Unset Strict Implicit.
Unset Printing Implicit Defensive.

Import Order.POrderTheory GRing.Theory Num.Theory.
Local Open Scope ring_scope.

Section Snap.
Variable C : numClosedFieldType.
Variable G : irreps C.
Local Notation rX := (@rX C).
Local Notation rH := (@rH C).
Implicit Types m : mulirrep G.

(** No entry of Q is within the tolerances of a real, or of the identity's entry,
    without being equal to it. *)
Definition snap_free (D : nat) (Q : nd C) : Prop :=
  ((forall i j, (i < D)%N -> (j < D)%N -> `|'Im (get Q [:: i; j])| <= atol8 C) ->
     forall i j, (i < D)%N -> (j < D)%N -> 'Im (get Q [:: i; j]) = 0) /\
  ((forall i j, (i < D)%N -> (j < D)%N -> `|get Q [:: i; j] - (i == j)%:R| <= atol8 C + rtol5 C * (i == j)%:R) ->
     forall i j, (i < D)%N -> (j < D)%N -> get Q [:: i; j] = (i == j)%:R).
(** Q' is Q up to the tolerances. *)
Definition snap_near (D : nat) (Q Q' : nd C) : Prop :=
  forall i j, (i < D)%N -> (j < D)%N -> `|get Q' [:: i; j] - get Q [:: i; j]| <= atol8 C + (atol8 C + rtol5 C * (i == j)%:R).

Lemma atol_ge0 : 0 <= atol8 C. Proof. by rewrite /atol8 invr_ge0 exprn_ge0 // ler0n. Qed.
Lemma rtol_ge0 : 0 <= rtol5 C. Proof. by rewrite /rtol5 invr_ge0 exprn_ge0 // ler0n. Qed.

Lemma close_imagP D (Q : nd C) b : shape Q = [:: D; D] -> close_ (nd_imag Q) (zero0 C) = Ok b ->
  b = true -> forall i j, (i < D)%N -> (j < D)%N -> `|'Im (get Q [:: i; j])| <= atol8 C.
Proof.
move=> s; rewrite /close_ /allclose /= s /= => -[<-] /allP h i j hi hj.
have /h : [:: i; j] \in all_idx [:: D; D] by rewrite mem_all_idx !valid_cons hi hj.
rewrite subr0 normr0 mulr0 addr0 -[X in bidx X]s /=.
by rewrite bidx_same ?s // !valid_cons hi hj.
Qed.
Lemma close_eyeP D (Q : nd C) b : shape Q = [:: D; D] -> close_ Q (eye D) = Ok b ->
  b = true -> forall i j, (i < D)%N -> (j < D)%N -> `|get Q [:: i; j] - (i == j)%:R| <= atol8 C + rtol5 C * (i == j)%:R.
Proof.
move=> s; rewrite /close_ allclose_same_shape ?s // => -[<-] /allP h i j hi hj.
have /h : [:: i; j] \in all_idx [:: D; D] by rewrite mem_all_idx !valid_cons hi hj.
by rewrite /= normr_nat.
Qed.

Lemma ImRe0 (x : C) : 'Im x = 0 -> 'Re x = x.
Proof. by move=> h; rewrite [RHS]Crect h mulr0 addr0. Qed.
Lemma Re_near (x : C) : `|'Re x - x| = `|'Im x|.
Proof. by rewrite {2}[x]Crect opprD addNKr normrN normrM normCi mul1r. Qed.

(** Entries equal to integers. *)
Lemma is_z_Im (x : C) : is_z x -> 'Im x = 0.
Proof. by move=> [z ->]; apply/Creal_ImP; rewrite realz. Qed.
Lemma is_z_lt1 (x : C) : is_z x -> `|x| < 1 -> x = 0.
Proof.
move=> [z ->]; rewrite -intr_norm -[1]/(1%:~R) ltr_int => h; suff -> : z = 0 by []; lia.
Qed.
Lemma tol_lt1 b : atol8 C + rtol5 C * (b : bool)%:R < 1.
Proof.
have h n : (0 < n)%N -> (10%:R ^+ n)^-1 <= (10%:R : C)^-1.
  move=> n0; rewrite lef_pinv ?posrE ?exprn_gt0 ?ltr0n // -{1}[10%:R]expr1 ler_weexpn2l // ler1n //.
have h8 : atol8 C <= (10%:R : C)^-1 by exact: h.
have h5 : rtol5 C * b%:R <= (10%:R : C)^-1.
  by case: b; rewrite ?mulr1 ?mulr0 ?invr_ge0 ?ler0n //; exact: h.
apply: le_lt_trans (ler_add h8 h5) _.
rewrite -mulr2n -[_ *+ 2]mulr_natl -[X in _ < X](@divff _ (10%:R : C)) ?pnatr_eq0 //.
by rewrite ltr_pmul2r ?invr_gt0 ?ltr0n // ltr_nat.
Qed.
Lemma int_snap_free D Q : int_mx D Q -> snap_free D Q.
Proof.
move=> h; split=> [_|hc] i j hi hj; first by apply: is_z_Im; exact: h.
apply/eqP; rewrite -subr_eq0; apply/eqP; apply: is_z_lt1; last exact: le_lt_trans (hc i j hi hj) (tol_lt1 _).
by apply: is_zD; [exact: h|rewrite -mulN1r; apply: is_zM; [exists (-1); rewrite rmorphN|exact: is_z_nat]].
Qed.

(** A good change of basis stays good when it is replaced by an equal one, and can
    be left out when it is the identity. *)
Lemma tp_good_ext (T : theory C) (r : reducedrep G) e1 e2 R1 R2 Q Q' (r' : reducedrep G) : tp_good T r e1 e2 R1 R2 Q -> r_A r' = r_A r -> r_irreps r' = r_irreps r ->
  r_Q r' = Some Q' -> shape Q' = shape Q ->
  (forall i j, (i < e1 * e2)%N -> (j < e1 * e2)%N -> get Q' [:: i; j] = get Q [:: i; j]) ->
  tp_good T r' e1 e2 R1 R2 Q'.
Proof.
move=> [gQ gs gA gne gm gd gf gX gH] eA ei eQ es eg.
have ed : red_dim r' = (e1 * e2)%N by rewrite -gd /red_dim ei.
split=> //; rewrite ?es ?ei ?eA //.
- by apply/rfreeP; move/rfreeP: gf; congr is_true; congr row_free; apply/matrixP=> i j; rewrite !mxE eg.
- move=> a ha; have := gX a ha; apply: intw_ext => // i j hi hj; rewrite ?add0n ?eg //.
  by move: hj; rewrite bdim_bof -[X in (_ < X)%N]/(red_dim r) gd.
- move=> a ha; have := gH a ha; apply: intw_ext => // i j hi hj; rewrite ?add0n ?eg //.
  by move: hj; rewrite bdim_bof -[X in (_ < X)%N]/(red_dim r) gd.
Qed.

Lemma tp_good_none (T : theory C) (r : reducedrep G) e1 e2 R1 R2 Q (r' : reducedrep G) : (0 < th_l T)%N -> is_rep T e1 R1 -> is_rep T e2 R2 ->
  tp_good T r e1 e2 R1 R2 Q -> r_A r' = r_A r -> r_irreps r' = r_irreps r -> r_Q r' = None ->
  (forall i j, (i < e1 * e2)%N -> (j < e1 * e2)%N -> get Q [:: i; j] = (i == j)%:R) ->
  red_ok T r' /\ exists R R', red_rep r' = Ok R /\ tensor_product R1 R2 = Ok R' /\ rep_eq R R'.
Proof.
move=> l0 h1 h2 g eA ei eQ eg; have [gQ gs gA gne gm gd gf gX gH] := g.
have ed : red_dim r' = (e1 * e2)%N by rewrite -gd /red_dim ei.
have hr : red_ok T r'.
  by split=> //; rewrite ?eA ?ei ?eQ // gA; [exact: ir_sA h1|exact: ir_A h1].
split=> //.
have [R [eR [hR [aR [xR yR]]]]] := red_rep_ok hr.
have [R' [eR' [hR' [aR' [xR' yR']]]]] := tensor_product_ok h1 h2.
exists R, R'; do 2!split=> //.
have Q1 : mx2 (e1 * e2) (e1 * e2) Q = 1%:M by apply/matrixP=> i j; rewrite !mxE eg.
have xR2 a : (a < th_l T)%N -> mx3 (red_dim r') (red_dim r') (rX R) a = mxf (red_dim r') (dsl (map (mblk rX a) (r_irreps r'))).
  by move=> ha; rewrite xR // /conjQ eQ.
have yR2 a : (a < th_h T)%N -> mx3 (red_dim r') (red_dim r') (rH R) a = mxf (red_dim r') (dsl (map (mblk rH a) (r_irreps r'))).
  by move=> ha; rewrite yR // /conjQ eQ.
rewrite ed ei in hR xR2 yR2.
apply: is_rep_eq hR hR' _ _ _ => [|a ha|a ha]; first by rewrite aR aR' eA.
- have [_] := intw_conj gd gf (gX a ha); rewrite Q1 invmx1 mulmx1 mul1mx => e.
  by rewrite xR2 // e tpf_csX xR'.
- have [_] := intw_conj gd gf (gH a ha); rewrite Q1 invmx1 mulmx1 mul1mx => e.
  by rewrite yR2 // e tpf_csH yR'.
Qed.

(** ** tensor_product(ReducedRep, ReducedRep) *)
Definition cgs_ok (T : theory C) (ms1 ms2 : seq (mulirrep G)) : Prop :=
  forall m1 m2, List.In m1 ms1 -> List.In m2 ms2 -> cg_ok T (m_rep m1) (m_rep m2).

(** r reduces the tensor product of the representations R1 and R2. *)
Definition reduces (T : theory C) (r : reducedrep G) (R1 R2 : rep C) : Prop :=
  red_ok T r /\ exists R R', red_rep r = Ok R /\ tensor_product R1 R2 = Ok R' /\ rep_eq R R'.

Section Two.
Variables (T : theory C) (r1 r2 : reducedrep G) (R1 R2 : rep C).
Hypothesis h1 : red_ok T r1.
Hypothesis h2 : red_ok T r2.
Hypothesis hp : cgs_ok T (r_irreps r1) (r_irreps r2).
Hypothesis q1 : red_rep r1 = Ok R1.
Hypothesis q2 : red_rep r2 = Ok R2.
Local Notation D := (red_dim r1 * red_dim r2)%N.

Theorem tp_reduced_ok : exists Q0 r,
  reduces T (ReducedRep (r_A r1) (r_irreps r) (Some Q0)) R1 R2 /\
  tp_reduced r1 r2 = Ok r /\ r_A r = r_A r1 /\ red_dim r = D /\
  shape (q_or_eye r) = [:: D; D] /\ snap_near D Q0 (q_or_eye r) /\
  (snap_free D Q0 -> reduces T r R1 R2) /\
  (all_int r1 r2 -> snap_free D Q0).
Proof.
have [Q0 [r [g [e [eA [ei [[re [id [Q [c1 [eQ [c2 er]]]]]] az]]]]]]] := tp_reduced_pre h1 h2 hp q1 q2.
exists Q0, r.
have l0 := ro_l h1.
have [R1' [q1' [hR1 _]]] := red_rep_ok h1; move: q1'; rewrite q1 => -[q]; rewrite -{R1'}q in hR1.
have [R2' [q2' [hR2 _]]] := red_rep_ok h2; move: q2'; rewrite q2 => -[q]; rewrite -{R2'}q in hR2.
have sQ0 := tg_s g; have dD := tg_d g.
have sQ : shape Q = [:: D; D] by rewrite eQ; case: (re).
have dr : red_dim r = D by rewrite -dD /red_dim ei.
split; first by rewrite ei; exact: tp_good_ok hR1 hR2 g.
do 3!split=> //.
have i1 := close_imagP sQ0 c1; have i2 := close_eyeP sQ c2.
have n1 i j : (i < D)%N -> (j < D)%N -> `|get Q [:: i; j] - get Q0 [:: i; j]| <= atol8 C.
  move=> hi hj; rewrite eQ; case ere: re; last by rewrite subrr normr0 atol_ge0.
  by rewrite /= Re_near; exact: i1.
split; first by rewrite /q_or_eye er; case: (id) => //; rewrite /= dr.
split.
  move=> i j hi hj; rewrite /q_or_eye er; case eid: id => /=.
    rewrite -[X in `|X|](subrKA (get Q [:: i; j])) [X in _ <= X]addrC.
    apply: le_trans (ler_norm_add _ _) _; apply: ler_add; last exact: n1.
    by rewrite distrC; exact: i2.
  apply: le_trans (n1 i j hi hj) _; rewrite ler_addl addr_ge0 ?atol_ge0 // mulr_ge0 ?rtol_ge0 //; exact: ler0n.
split; last by move=> /az; exact: int_snap_free.
move=> [f1 f2].
have eq0 i j : (i < D)%N -> (j < D)%N -> get Q [:: i; j] = get Q0 [:: i; j].
  move=> hi hj; rewrite eQ; case ere: re => //=.
  by apply: ImRe0; apply: f1 => //; exact: i1.
case: id c2 er i2 => c2 er i2.
- apply: tp_good_none (ro_l h1) hR1 hR2 g _ _ er _ => //.
  move=> i j hi hj; apply: f2 => // i' j' hi' hj'.
  by rewrite -eq0 //; exact: i2.
- have g' := tp_good_ext (r' := r) g eA ei er _ eq0.
  by apply: tp_good_ok (ro_l h1) hR1 hR2 (g' _); rewrite sQ.
Qed.
End Two.

(** ** The other overloads *)
Lemma reduces_eq T d1 d2 (r : reducedrep G) (R1 R2 R1' R2' : rep C) : is_rep T d1 R1 -> is_rep T d2 R2 ->
  is_rep T d1 R1' -> is_rep T d2 R2' -> rep_eq R1 R1' -> rep_eq R2 R2' -> reduces T r R1 R2 -> reduces T r R1' R2'.
Proof.
move=> h1 h2 h1' h2' [eA1 [eX1 eH1]] [eA2 [eX2 eH2]] [hr [R [R' [e [e' q]]]]]; split=> //.
have [S [eS [hS [aS [xS yS]]]]] := tensor_product_ok h1 h2.
have [S' [eS' [hS' [aS' [xS' yS']]]]] := tensor_product_ok h1' h2'.
exists R, S'; do 2!split=> //; move: e'; rewrite eS => -[ER]; rewrite -{R'}ER in q.
have mX (a b : nd C) l d : shape a = [:: l; d; d] -> nd_eq a b -> forall i, (i < l)%N -> mx3 d d a i = mx3 d d b i.
  by move=> sa [es eg] i hi; apply/matrixP=> x y; rewrite !mxE eg // sa !valid_cons hi !ltn_ord.
have q' : rep_eq S S'.
  apply: is_rep_eq hS hS' _ _ _; first by rewrite aS aS'.
  - by move=> a ha; rewrite xS // xS' // (mX _ _ _ _ (ir_sX h1) eX1) // (mX _ _ _ _ (ir_sX h2) eX2).
  - by move=> a ha; rewrite yS // yS' // (mX _ _ _ _ (ir_sH h1) eH1) // (mX _ _ _ _ (ir_sH h2) eH2).
case: q q' => [a [b c]] [a' [b' c']]; split; first by rewrite a.
by split; [exact: nd_eq_trans b b'|exact: nd_eq_trans c c'].
Qed.

Lemma rep_eq_refl (R : rep C) : rep_eq R R. Proof. by []. Qed.
Lemma rep_eq_sym (R R' : rep C) : rep_eq R R' -> rep_eq R' R.
Proof. by move=> [a [b c]]; do 2!split=> //; exact: nd_eq_sym. Qed.

Theorem tp_irreps_ok T (i1 i2 : label G) : (0 < th_l T)%N -> cg_ok T i1 i2 ->
  exists r, tp_irreps i1 i2 = Ok r /\ reduces T r (rep_of i1) (rep_of i2) /\
  r_irreps r = [seq MulIrrep (cgz i1 i2 i3) i3 | i3 <- mul_of i1 i2].
Proof.
move=> l0 h; have [r [Q [e [g i]]]] := tp_irreps_good h; exists r.
by do 2!split=> //; have [] := tp_good_ok l0 (co_1 h) (co_2 h) g.
Qed.

Theorem tp_mul_ok T m1 m2 R1 R2 : (0 < th_l T)%N -> mul_ok T m1 -> mul_ok T m2 -> cg_ok T (m_rep m1) (m_rep m2) ->
  mul_rep m1 = Ok R1 -> mul_rep m2 = Ok R2 ->
  exists r, tp_mul m1 m2 = Ok r /\ reduces T r R1 R2 /\
  r_irreps r = [seq MulIrrep (m_mul m1 * m_mul m2 * cgz (m_rep m1) (m_rep m2) i3)%N i3 | i3 <- mul_of (m_rep m1) (m_rep m2)].
Proof.
move=> l0 h1 h2 h e1 e2; have [r [Q [e [g [i _]]]]] := tp_mul_good (proj1 h1) (proj1 h2) h e1 e2.
exists r; do 2!split=> //;
have [S1 [q1 [k1 _]]] := mul_rep_ok (proj1 h1) (proj2 h1); move: q1; rewrite e1 => -[q]; rewrite -{S1}q in k1;
have [S2 [q2 [k2 _]]] := mul_rep_ok (proj1 h2) (proj2 h2); move: q2; rewrite e2 => -[q]; rewrite -{S2}q in k2;
by have [] := tp_good_ok l0 k1 k2 g.
Qed.

Lemma mul1P T (i : label G) : is_rep T (dim_of i) (rep_of i) ->
  exists R, [/\ mul_rep (MulIrrep 1 i) = Ok R, rep_eq R (rep_of i) & is_rep T (dim_of i) R].
Proof.
move=> h; have [R [e [h' _]]] := @mul_rep_ok C G T (MulIrrep 1 i) erefl h.
by exists R; split=> //; [exact: mul1_rep h e|rewrite /mul_dim mul1n in h'].
Qed.

Theorem tp_mul_irrep_ok T m1 (i2 : label G) R1 : (0 < th_l T)%N -> mul_ok T m1 -> cg_ok T (m_rep m1) i2 ->
  mul_rep m1 = Ok R1 -> exists r, tp_mul_irrep m1 i2 = Ok r /\ reduces T r R1 (rep_of i2).
Proof.
move=> l0 h1 h e1; have h2 := co_2 h; have [R2 [e2 q k]] := mul1P h2.
have [r [e [hr _]]] := @tp_mul_ok T m1 (MulIrrep 1 i2) R1 R2 l0 h1 (Logic.conj erefl h2) h e1 e2.
exists r; split=> //.
have [S1 [q1 [k1 _]]] := mul_rep_ok (proj1 h1) (proj2 h1); move: q1; rewrite e1 => -[q']; rewrite -{S1}q' in k1.
exact: (reduces_eq k1 k k1 h2 (rep_eq_refl _) q hr).
Qed.
Theorem tp_irrep_mul_ok T (i1 : label G) m2 R2 : (0 < th_l T)%N -> mul_ok T m2 -> cg_ok T i1 (m_rep m2) ->
  mul_rep m2 = Ok R2 -> exists r, tp_irrep_mul i1 m2 = Ok r /\ reduces T r (rep_of i1) R2.
Proof.
move=> l0 h2 h e2; have h1 := co_1 h; have [R1 [e1 q k]] := mul1P h1.
have [r [e [hr _]]] := @tp_mul_ok T (MulIrrep 1 i1) m2 R1 R2 l0 (Logic.conj erefl h1) h2 h e1 e2.
exists r; split=> //.
have [S2 [q2 [k2 _]]] := mul_rep_ok (proj1 h2) (proj2 h2); move: q2; rewrite e2 => -[q']; rewrite -{S2}q' in k2.
exact: (reduces_eq k k2 h1 k2 q (rep_eq_refl _) hr).
Qed.

(** The ReducedRep made of one MulIrrep. *)
Lemma red_of_mulP T m R0 : (0 < th_l T)%N -> mul_ok T m -> mul_rep m = Ok R0 ->
  exists R, [/\ red_rep (red_of_mul m) = Ok R, red_ok T (red_of_mul m), rep_eq R R0 & red_dim (red_of_mul m) = mul_dim m].
Proof.
move=> l0 hm e0.
have hr : red_ok T (red_of_mul m).
  split=> //=; [exact: ir_sA (proj2 hm)|exact: ir_A (proj2 hm)|by move=> ? [<-|]].
have [R [e _]] := red_rep_ok hr.
have [|_ [h1 [h2 [h3 h4]]]] := @red_one C G T m None R0 R l0 hm e0 _ e; first by [].
have [S0 [q0 [k0 _]]] := mul_rep_ok (proj1 hm) (proj2 hm); move: q0; rewrite e0 => -[q']; rewrite -{S0}q' in k0.
exists R; split=> //; first exact: is_rep_eq h1 k0 h2 h3 h4.
by rewrite /red_dim /= addn0.
Qed.

(** What the overloads with a ReducedRep return: a reduction of R1 (x) R2, up to
    the rounding of the change of basis Q0. *)
Definition reduces_snap T (res0 : res (reducedrep G)) (D : nat) (R1 R2 : rep C) (int : Prop) : Prop :=
  exists Q0 r, reduces T (ReducedRep (r_A r) (r_irreps r) (Some Q0)) R1 R2 /\
  res0 = Ok r /\ red_dim r = D /\ shape (q_or_eye r) = [:: D; D] /\ snap_near D Q0 (q_or_eye r) /\
  (snap_free D Q0 -> reduces T r R1 R2) /\ (int -> snap_free D Q0).

Lemma tp_reduced_snap T r1 r2 d1 d2 (R1 R2 R1' R2' : rep C) : red_ok T r1 -> red_ok T r2 ->
  cgs_ok T (r_irreps r1) (r_irreps r2) -> red_rep r1 = Ok R1 -> red_rep r2 = Ok R2 ->
  red_dim r1 = d1 -> red_dim r2 = d2 -> rep_eq R1 R1' -> rep_eq R2 R2' -> is_rep T d1 R1' -> is_rep T d2 R2' ->
  reduces_snap T (tp_reduced r1 r2) (d1 * d2) R1' R2' (all_int r1 r2).
Proof.
move=> h1 h2 hp q1 q2 <- <- e1 e2 k1 k2.
have [R1'' [q1' [hR1 _]]] := red_rep_ok h1; move: q1'; rewrite q1 => -[q]; rewrite -{R1''}q in hR1.
have [R2'' [q2' [hR2 _]]] := red_rep_ok h2; move: q2'; rewrite q2 => -[q]; rewrite -{R2''}q in hR2.
have [Q0 [r [t1 [t2 [t3 [t4 [t5 [t6 [t7 t8]]]]]]]]] := tp_reduced_ok h1 h2 hp q1 q2.
have tr := reduces_eq hR1 hR2 k1 k2 e1 e2.
exists Q0, r; split; first by rewrite t3; exact: tr.
by do 4!split=> //; split=> // /t7; exact: tr.
Qed.

Lemma cgs_ok1 T m r2 : (forall m2, List.In m2 (r_irreps r2) -> cg_ok T (m_rep m) (m_rep m2)) ->
  cgs_ok T (r_irreps (red_of_mul m)) (r_irreps r2).
Proof. by move=> h m1 m2 /= [<-|//]; exact: h. Qed.

Theorem tp_mul_red_ok T m1 (r2 : reducedrep G) (R1 R2 : rep C) : mul_ok T m1 -> red_ok T r2 ->
  (forall m2, List.In m2 (r_irreps r2) -> cg_ok T (m_rep m1) (m_rep m2)) ->
  mul_rep m1 = Ok R1 -> red_rep r2 = Ok R2 ->
  reduces_snap T (tp_mul_red m1 r2) (mul_dim m1 * red_dim r2) R1 R2 (all_int (red_of_mul m1) r2).
Proof.
move=> h1 h2 h e1 e2; have [R1' [q1 k1 i1 d1]] := red_of_mulP (ro_l h2) h1 e1.
have [S1 [s1 [z1 _]]] := mul_rep_ok (proj1 h1) (proj2 h1); move: s1; rewrite e1 => -[q']; rewrite -{S1}q' in z1.
have [S2 [s2 [z2 _]]] := red_rep_ok h2; move: s2; rewrite e2 => -[q']; rewrite -{S2}q' in z2.
exact: tp_reduced_snap k1 h2 (cgs_ok1 h) q1 e2 d1 erefl i1 (rep_eq_refl _) z1 z2.
Qed.
(** As the code calls the overload above with the arguments in the other order,
    the result reduces R2 (x) R1. *)
Theorem tp_red_mul_swapped T (r1 : reducedrep G) m2 (R1 R2 : rep C) : red_ok T r1 -> mul_ok T m2 ->
  (forall m1, List.In m1 (r_irreps r1) -> cg_ok T (m_rep m2) (m_rep m1)) ->
  red_rep r1 = Ok R1 -> mul_rep m2 = Ok R2 ->
  reduces_snap T (tp_red_mul r1 m2) (mul_dim m2 * red_dim r1) R2 R1 (all_int (red_of_mul m2) r1).
Proof. by move=> h1 h2 h e1 e2; exact: tp_mul_red_ok h2 h1 h e2 e1. Qed.

Theorem tp_irrep_red_ok T (i1 : label G) (r2 : reducedrep G) (R2 : rep C) : is_rep T (dim_of i1) (rep_of i1) -> red_ok T r2 ->
  (forall m2, List.In m2 (r_irreps r2) -> cg_ok T i1 (m_rep m2)) -> red_rep r2 = Ok R2 ->
  reduces_snap T (tp_irrep_red i1 r2) (dim_of i1 * red_dim r2) (rep_of i1) R2 (all_int (red_of_mul (MulIrrep 1 i1)) r2).
Proof.
move=> h1 h2 h e2; have [R1 [e1 q k]] := mul1P h1.
have [R1' [q1 k1 i1' d1]] := red_of_mulP (m := MulIrrep 1 i1) (ro_l h2) (Logic.conj erefl h1) e1.
have [S2 [s2 [z2 _]]] := red_rep_ok h2; move: s2; rewrite e2 => -[q']; rewrite -{S2}q' in z2.
rewrite /mul_dim mul1n in d1.
have i2 : rep_eq R1' (rep_of i1).
  case: i1' q => [a [b c]] [a' [b' c']]; split; first by rewrite a.
  by split; [exact: nd_eq_trans b b'|exact: nd_eq_trans c c'].
exact: tp_reduced_snap k1 h2 (cgs_ok1 (m := MulIrrep 1 i1) h) q1 e2 d1 erefl i2 (rep_eq_refl _) h1 z2.
Qed.
Theorem tp_red_irrep_swapped T (r1 : reducedrep G) (i2 : label G) (R1 : rep C) : red_ok T r1 -> is_rep T (dim_of i2) (rep_of i2) ->
  (forall m1, List.In m1 (r_irreps r1) -> cg_ok T i2 (m_rep m1)) -> red_rep r1 = Ok R1 ->
  reduces_snap T (tp_red_irrep r1 i2) (dim_of i2 * red_dim r1) (rep_of i2) R1 (all_int (red_of_mul (MulIrrep 1 i2)) r1).
Proof. by move=> h1 h2 h e1; exact: tp_irrep_red_ok h2 h1 h e1. Qed.
End Snap.
