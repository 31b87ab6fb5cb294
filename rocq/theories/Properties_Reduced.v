(** Properties C27 (overloads), C31 and C32: MulIrrep, ReducedRep and the
    specialised overloads. *)
From Coq Require Import ZArith String Ascii.
From mathcomp Require Import all_ssreflect all_algebra.
From mathcomp.real_closed Require Import mxtens.
From mathcomp Require Import zify.
From Verif Require Import Base McRing Nd NdProofs Reps RepSpec RepProofs RepPower Pinv RepOps RepOps2 Reduced ReducedProofs Intw TpProofs TpReduced TpSnap.

Set Implicit Arguments.
Unset Strict Implicit.
Unset Printing Implicit Defensive.

Import Order.POrderTheory GRing.Theory Num.Theory.
Local Open Scope ring_scope.

Section Example.
Variable C : numClosedFieldType.

(** A running example, U(1) x Z/2: the irrep (n, s) has X = n and H = (-1)^s. *)
Definition u1_label := (nat * bool)%type.
Definition u1_rep (i : u1_label) : rep C :=
  MkRep (zeros [:: 1; 1; 1]%N) (Nd [:: 1; 1; 1]%N (fun _ => i.1%:R)) (Nd [:: 1; 1; 1]%N (fun _ => (-1) ^+ i.2)).
Definition u1 : irreps C :=
  @Irreps C u1_label u1_rep (fun _ => 1%N) (fun i j => [:: ((i.1 + j.1)%N, i.2 (+) j.2)]) (fun _ _ _ => Nd [:: 1; 1; 1; 1]%N (fun _ => 1)).
Definition u1_theory : theory C :=
  Theory 1 1 (fun _ _ _ => 0) (fun u v => u = [:: 0; 0]%N /\ v = [::]) (fun c => c 0%N 0%N 0%N = 1).

Lemma u1_rep_ok i : is_rep u1_theory 1 (u1_rep i).
Proof.
split=> //; split.
- by move=> [|?] [|?] // _ _; rewrite subrr big_ord1 scale0r.
- move=> u v [-> ->] _ /=; rewrite mulmx1; apply/matrixP=> p q; rewrite !ord1.
  by rewrite !mxE big_ord1 !mxE /= -expr2 sqrr_sign.
- move=> c hc [|?] [|?] // _ _; rewrite big_ord1 hc scale1r; apply/matrixP=> p q; rewrite !ord1.
  by rewrite !mxE !big_ord1 !mxE /= mulrC.
Qed.
Lemma u1_mul_ok n i : (0 < n)%N -> mul_ok u1_theory (MulIrrep n (i : label u1)).
Proof. by move=> n0; split=> //; exact: u1_rep_ok. Qed.
Lemma u1_cg_ok (i j : label u1) : cg_ok u1_theory i j.
Proof.
split=> //=; try exact: u1_rep_ok.
- by move=> ? _; exact: u1_rep_ok.
- move=> i3 [|?] u [|?] [|?] [|?] //= [<-|//] _ _ _ _ _; rewrite !big_ord1 /gen /= !mulr1.
  by rewrite natrD.
- move=> i3 [|?] u [|?] [|?] [|?] //= [<-|//] _ _ _ _ _; rewrite !big_ord1 /gen /= !mulr1.
  by case: (i.2); case: (j.2) => //=; rewrite ?expr0 ?expr1 ?mulr1 ?mul1r ?mulrNN ?mulr1.
- move=> v h [|?] [|?] // _ _.
  by have := h _ 0%N 0%N (or_introl erefl) erefl erefl; rewrite !big_ord1 /= mulr1.
Qed.
Lemma u1_cg_int (i j : label u1) : cg_int i j.
Proof.
move=> r0 Q0; rewrite /tp_irreps (close_A (u1_rep_ok i) (u1_rep_ok j)) /=.
rewrite /np_inv /=; set M := mx2 _ _ _.
have M1 : M = 1%:M by apply/matrixP=> p q; rewrite !ord1 !mxE.
rewrite M1 unitmx1 invmx1 /= => -[<-] /= [<-] [|?] [|?] // _ _.
by rewrite /nd_of_mx /= insubT //= mxE; exists 1.
Qed.

(** One copy of each of (0, +) and (1, -), in the given basis. *)
Definition ex_red : reducedrep u1 := ReducedRep (zeros [:: 1; 1; 1]%N) [:: MulIrrep 1 ((0%N, false) : label u1); MulIrrep 1 ((1%N, true) : label u1)] None.
Lemma ex_red_ok : red_ok u1_theory ex_red.
Proof. by split=> // m /= [<-|[<-|]] //; exact: u1_mul_ok. Qed.
(** Two copies of (0, +). *)
Definition ex_mul : mulirrep u1 := MulIrrep 2 ((0%N, false) : label u1).

Lemma ex_int : all_int (red_of_mul ex_mul) ex_red.
Proof.
split; first by move=> *; exact: u1_cg_int.
by split=> i j hi hj; exact: is_z_nat.
Qed.
Lemma ex_int2 : all_int ex_red ex_red.
Proof.
split; first by move=> *; exact: u1_cg_int.
by split=> i j hi hj; exact: is_z_nat.
Qed.
End Example.

Section Props.
Variable C : numClosedFieldType.

(** ** C27: the overloads of change_basis *)
Theorem C27_reduced (G : irreps C) T (r : reducedrep G) (Q : nd C) : red_ok T r ->
  shape Q = [:: red_dim r; red_dim r] -> mx2 (red_dim r) (red_dim r) Q \in unitmx ->
  exists r' R R1 R2, change_basis_reduced r Q = Ok r' /\ r_irreps r' = r_irreps r /\ red_ok T r' /\
    red_rep r' = Ok R1 /\ red_rep r = Ok R /\ change_basis R Q = Ok R2 /\ rep_eq R1 R2.
Proof. exact: change_basis_reduced_ok. Qed.
Theorem C27_mul (G : irreps C) T (m : mulirrep G) (Q : nd C) : (0 < th_l T)%N -> mul_ok T m ->
  shape Q = [:: mul_dim m; mul_dim m] -> mx2 (mul_dim m) (mul_dim m) Q \in unitmx ->
  exists R R1 R2, red_ok T (change_basis_mul m Q) /\ red_rep (change_basis_mul m Q) = Ok R1 /\
    mul_rep m = Ok R /\ change_basis R Q = Ok R2 /\ rep_eq R1 R2.
Proof. exact: change_basis_mul_ok. Qed.
Theorem C27_irrep (G : irreps C) T (i : label G) (Q : nd C) : (0 < th_l T)%N -> is_rep T (dim_of i) (rep_of i) ->
  shape Q = [:: dim_of i; dim_of i] -> mx2 (dim_of i) (dim_of i) Q \in unitmx ->
  exists R1 R2, red_ok T (change_basis_irrep i Q) /\ red_rep (change_basis_irrep i Q) = Ok R1 /\
    change_basis (rep_of i) Q = Ok R2 /\ rep_eq R1 R2.
Proof. exact: change_basis_irrep_ok. Qed.
(** The 2x2 matrix ((1, 1), (0, 1)). *)
Definition ex_Q2 : nd C := Nd [:: 2; 2]%N (fun idx => if idx == [:: 1; 0]%N then 0 else 1).
Lemma ex_Q2_unit : mx2 2 2 ex_Q2 \in unitmx.
Proof.
pose B : 'M[C]_2 := \matrix_(i, j) if i == j then 1 else if (i == 0%N :> nat) then -1 else 0.
have /mulmx1_unit[] // : mx2 2 2 ex_Q2 *m B = 1%:M.
apply/matrixP=> p q; rewrite !mxE !big_ord_recr !big_ord0 /= !mxE /=.
by case: p => [[|[|p]] hp] //; case: q => [[|[|q]] hq] //=; rewrite ?(mulr0, mul0r, mulr1, mul1r, addr0, add0r, addNr).
Qed.
Example C27_reduced_example : exists r' R1, change_basis_reduced (ex_red C) ex_Q2 = Ok r' /\ red_rep r' = Ok R1 /\ is_rep (u1_theory C) 2 R1.
Proof.
have [r' [R [R1 [R2 [e1 [e2 [e3 [e4 _]]]]]]]] := C27_reduced (ex_red_ok C) (erefl : shape ex_Q2 = _) ex_Q2_unit.
exists r', R1; split=> //; split=> //.
have [S [q [h _]]] := red_rep_ok e3; move: q h; rewrite e4 /red_dim e2 => -[<-].
by [].
Qed.

(** ** C31: MulIrrep and ReducedRep *)
Theorem C31_mul (G : irreps C) T (m : mulirrep G) : (0 < m_mul m)%N -> is_rep T (dim_of (m_rep m)) (rep_of (m_rep m)) ->
  exists r, mul_rep m = Ok r /\ is_rep T (mul_dim m) r /\ rA r = rA (rep_of (m_rep m)) /\
  (forall a, (a < th_l T)%N -> mx3 (mul_dim m) (mul_dim m) (rX r) a = (1%:M : 'M[C]_(m_mul m)) *t mx3 _ _ (rX (rep_of (m_rep m))) a) /\
  (forall a, (a < th_h T)%N -> mx3 (mul_dim m) (mul_dim m) (rH r) a = (1%:M : 'M[C]_(m_mul m)) *t mx3 _ _ (rH (rep_of (m_rep m))) a).
Proof. exact: mul_rep_ok. Qed.
(** mul = 0: utils.direct_sum() of no arrays raises. *)
Theorem C31_mul_zero_refuted (G : irreps C) T (m : mulirrep G) : m_mul m = 0%N -> (0 < th_l T)%N ->
  is_rep T (dim_of (m_rep m)) (rep_of (m_rep m)) -> mul_rep m = Err TypeError.
Proof. exact: mul_rep_zero. Qed.

(** The generators of a sum of copies, without the change of basis: block diagonal,
    with m_mul blocks for each MulIrrep. *)
Fixpoint sum_gens (G : irreps C) (g : rep C -> nd C) (ms : seq (mulirrep G)) (a : nat) : 'M[C]_(sumn (map (@mul_dim C G) ms)) :=
  match ms with
  | [::] => 0
  | m :: ms' => block_mx ((1%:M : 'M[C]_(m_mul m)) *t mx3 (dim_of (m_rep m)) (dim_of (m_rep m)) (g (rep_of (m_rep m))) a) 0 0 (sum_gens g ms' a)
  end.
Lemma sum_gensE (G : irreps C) g (ms : seq (mulirrep G)) a : sum_gens g ms a = red_block g ms a.
Proof.
elim: ms => [|m ms IH]; first by apply/matrixP=> -[].
by rewrite red_block_cons mblk_tens -IH.
Qed.
Theorem C31_reduced (G : irreps C) T (r : reducedrep G) : red_ok T r ->
  let Q := mx2 (red_dim r) (red_dim r) (q_or_eye r) in
  exists R, red_rep r = Ok R /\ is_rep T (red_dim r) R /\ rA R = r_A r /\ Q \in unitmx /\
  (forall a, (a < th_l T)%N -> mx3 (red_dim r) (red_dim r) (rX R) a = Q *m sum_gens (@rX C) (r_irreps r) a *m invmx Q) /\
  (forall a, (a < th_h T)%N -> mx3 (red_dim r) (red_dim r) (rH R) a = Q *m sum_gens (@rH C) (r_irreps r) a *m invmx Q).
Proof.
move=> h Q; have [R [e [hR [eA [eX eH]]]]] := red_rep_ok h; have [sQ [uQ cQ]] := q_or_eyeP h.
exists R; do 4!split=> //.
split=> a ha; [rewrite eX //|rewrite eH //]; rewrite cQ; congr (_ *m _ *m _); exact/esym/sum_gensE.
Qed.
(** No Lie algebra generators: np.stack of an empty list raises. *)
Theorem C31_no_generators_refuted (G : irreps C) (r : reducedrep G) : shape (r_A r) = [:: 0%N; 0%N; 0%N] -> red_rep r = Err ValueError.
Proof. exact: red_rep_empty. Qed.
Theorem C31_from_irreps (G : irreps C) T (l : seq (mulirrep G)) (Q : option (nd C)) : (0 < th_l T)%N -> l <> [::] ->
  (forall m, List.In m l -> mul_ok T m) ->
  (forall q, Q = Some q -> shape q = [:: sumn (map (@mul_dim C G) l); sumn (map (@mul_dim C G) l)] /\
     mx2 (sumn (map (@mul_dim C G) l)) (sumn (map (@mul_dim C G) l)) q \in unitmx) ->
  exists r, from_irreps l Q = Ok r /\ r_irreps r = l /\ r_Q r = Q /\ red_ok T r.
Proof. exact: from_irreps_ok. Qed.
Example C31_example : (exists R, mul_rep (ex_mul C) = Ok R /\ is_rep (u1_theory C) 2 R) /\
  exists r, from_irreps [:: ex_mul C; MulIrrep 3 ((5%N, true) : label (u1 C))] None = Ok r /\ red_ok (u1_theory C) r /\ red_dim r = 5%N.
Proof.
split; first by have [R [e [h _]]] := @C31_mul _ _ (ex_mul C) erefl (u1_rep_ok C _); exists R.
have [||||r [e [i [q h]]]] := @C31_from_irreps (u1 C) (u1_theory C) [:: ex_mul C; MulIrrep 3 ((5%N, true) : label (u1 C))] None => //.
  by move=> m /= [<-|[<-|//]]; exact: u1_mul_ok.
by exists r; split=> //; split=> //; rewrite /red_dim i.
Qed.

(** ** C32: the overloads of tensor_product *)
Theorem C32_irreps (G : irreps C) T (i1 i2 : label G) : (0 < th_l T)%N -> cg_ok T i1 i2 ->
  exists r, tp_irreps i1 i2 = Ok r /\ reduces T r (rep_of i1) (rep_of i2) /\
  r_irreps r = [seq MulIrrep (cgz i1 i2 i3) i3 | i3 <- mul_of i1 i2].
Proof. exact: tp_irreps_ok. Qed.
Theorem C32_mul (G : irreps C) T (m1 m2 : mulirrep G) R1 R2 : (0 < th_l T)%N -> mul_ok T m1 -> mul_ok T m2 -> cg_ok T (m_rep m1) (m_rep m2) ->
  mul_rep m1 = Ok R1 -> mul_rep m2 = Ok R2 ->
  exists r, tp_mul m1 m2 = Ok r /\ reduces T r R1 R2 /\
  r_irreps r = [seq MulIrrep (m_mul m1 * m_mul m2 * cgz (m_rep m1) (m_rep m2) i3)%N i3 | i3 <- mul_of (m_rep m1) (m_rep m2)].
Proof. exact: tp_mul_ok. Qed.
Theorem C32_mul_irrep (G : irreps C) T (m1 : mulirrep G) (i2 : label G) R1 : (0 < th_l T)%N -> mul_ok T m1 -> cg_ok T (m_rep m1) i2 ->
  mul_rep m1 = Ok R1 -> exists r, tp_mul_irrep m1 i2 = Ok r /\ reduces T r R1 (rep_of i2).
Proof. exact: tp_mul_irrep_ok. Qed.
Theorem C32_irrep_mul (G : irreps C) T (i1 : label G) (m2 : mulirrep G) R2 : (0 < th_l T)%N -> mul_ok T m2 -> cg_ok T i1 (m_rep m2) ->
  mul_rep m2 = Ok R2 -> exists r, tp_irrep_mul i1 m2 = Ok r /\ reduces T r (rep_of i1) R2.
Proof. exact: tp_irrep_mul_ok. Qed.
(** With a ReducedRep the change of basis is rounded at the end, so the result is
    exact only if the exact change of basis is unchanged by the rounding
    ([snap_free]); in general it is within the tolerances of the exact one
    ([snap_near]).  Integer changes of basis are unchanged. *)
Theorem C32_reduced (G : irreps C) T (r1 r2 : reducedrep G) R1 R2 : red_ok T r1 -> red_ok T r2 ->
  cgs_ok T (r_irreps r1) (r_irreps r2) -> red_rep r1 = Ok R1 -> red_rep r2 = Ok R2 ->
  reduces_snap T (tp_reduced r1 r2) (red_dim r1 * red_dim r2) R1 R2 (all_int r1 r2).
Proof.
move=> h1 h2 hp q1 q2.
have [R1'' [q1' [hR1 _]]] := red_rep_ok h1; move: q1'; rewrite q1 => -[q]; rewrite -{R1''}q in hR1.
have [R2'' [q2' [hR2 _]]] := red_rep_ok h2; move: q2'; rewrite q2 => -[q]; rewrite -{R2''}q in hR2.
by apply: (tp_reduced_snap h1 h2 hp q1 q2 erefl erefl _ _ hR1 hR2).
Qed.
Theorem C32_mul_reduced (G : irreps C) T (m1 : mulirrep G) (r2 : reducedrep G) (R1 R2 : rep C) : mul_ok T m1 -> red_ok T r2 ->
  (forall m2, List.In m2 (r_irreps r2) -> cg_ok T (m_rep m1) (m_rep m2)) ->
  mul_rep m1 = Ok R1 -> red_rep r2 = Ok R2 ->
  reduces_snap T (tp_mul_red m1 r2) (mul_dim m1 * red_dim r2) R1 R2 (all_int (red_of_mul m1) r2).
Proof. exact: tp_mul_red_ok. Qed.
Theorem C32_irrep_reduced (G : irreps C) T (i1 : label G) (r2 : reducedrep G) (R2 : rep C) : is_rep T (dim_of i1) (rep_of i1) -> red_ok T r2 ->
  (forall m2, List.In m2 (r_irreps r2) -> cg_ok T i1 (m_rep m2)) -> red_rep r2 = Ok R2 ->
  reduces_snap T (tp_irrep_red i1 r2) (dim_of i1 * red_dim r2) (rep_of i1) R2 (all_int (red_of_mul (MulIrrep 1 i1)) r2).
Proof. exact: tp_irrep_red_ok. Qed.
(** The overloads with the ReducedRep on the left swap the arguments: the result
    reduces R2 (x) R1, which is not R1 (x) R2. *)
Theorem C32_reduced_mul_swapped (G : irreps C) T (r1 : reducedrep G) (m2 : mulirrep G) (R1 R2 : rep C) : red_ok T r1 -> mul_ok T m2 ->
  (forall m1, List.In m1 (r_irreps r1) -> cg_ok T (m_rep m2) (m_rep m1)) ->
  red_rep r1 = Ok R1 -> mul_rep m2 = Ok R2 ->
  reduces_snap T (tp_red_mul r1 m2) (mul_dim m2 * red_dim r1) R2 R1 (all_int (red_of_mul m2) r1).
Proof. exact: tp_red_mul_swapped. Qed.
Theorem C32_reduced_irrep_swapped (G : irreps C) T (r1 : reducedrep G) (i2 : label G) (R1 : rep C) : red_ok T r1 -> is_rep T (dim_of i2) (rep_of i2) ->
  (forall m1, List.In m1 (r_irreps r1) -> cg_ok T i2 (m_rep m1)) -> red_rep r1 = Ok R1 ->
  reduces_snap T (tp_red_irrep r1 i2) (dim_of i2 * red_dim r1) (rep_of i2) R1 (all_int (red_of_mul (MulIrrep 1 i2)) r1).
Proof. exact: tp_red_irrep_swapped. Qed.

Lemma ex_cgs (ms1 ms2 : seq (mulirrep (u1 C))) : cgs_ok (u1_theory C) ms1 ms2.
Proof. by move=> *; exact: u1_cg_ok. Qed.
Theorem C32_reduced_mul_refuted : exists (T : theory C) (G : irreps C) (r1 r : reducedrep G) (m2 : mulirrep G) (R1 R2 R S : rep C),
  red_ok T r1 /\ mul_ok T m2 /\ red_rep r1 = Ok R1 /\ mul_rep m2 = Ok R2 /\
  tp_red_mul r1 m2 = Ok r /\ red_rep r = Ok R /\ tensor_product R1 R2 = Ok S /\
  get (rX R) [:: 0; 1; 1]%N <> get (rX S) [:: 0; 1; 1]%N.
Proof.
have h1 := ex_red_ok C; have h2 : mul_ok (u1_theory C) (ex_mul C) by exact: u1_mul_ok.
have [R1 [q1 [k1 [a1 [x1 y1]]]]] := red_rep_ok h1.
have [R2 [q2 [k2 [a2 [x2 y2]]]]] := mul_rep_ok (proj1 h2) (proj2 h2).
have [Q0 [r [_ [e [_ [_ [_ [hs hi]]]]]]]] := C32_reduced_mul_swapped h1 h2 (fun m1 _ => u1_cg_ok _ _) q1 q2.
have [_ [R [S' [eR [eS' [_ [[sq gq] _]]]]]]] := hs (hi (ex_int C)).
have [S [eS [kS [_ [xS _]]]]] := tensor_product_ok k1 k2.
have [S'' [eS'' [kS' [_ [xS' _]]]]] := tensor_product_ok k2 k1; move: eS''; rewrite eS' => -[q]; rewrite -{S''}q in kS' xS'.
exists (u1_theory C), (u1 C), (ex_red C), r, (ex_mul C), R1, R2, R, S; do 7!split=> //.
rewrite gq; last by rewrite sq (ir_sX kS').
have lt : (1 < red_dim (ex_red C) * mul_dim (ex_mul C))%N by [].
have lt' : (1 < mul_dim (ex_mul C) * red_dim (ex_red C))%N by [].
have /matrixP/(_ (Ordinal lt) (Ordinal lt)) := xS 0%N erefl; rewrite x1 // x2 // !mxE /= => ->.
have /matrixP/(_ (Ordinal lt') (Ordinal lt')) := xS' 0%N erefl; rewrite x1 // x2 // !mxE /= => ->.
by rewrite !(mulr0, mul0r, mulr1, mul1r, addr0, add0r); apply/eqP; rewrite oner_eq0.
Qed.
Example C32_example : exists r, tp_reduced (ex_red C) (ex_red C) = Ok r /\ red_dim r = 4%N /\ red_ok (u1_theory C) r.
Proof.
have [R [e _]] := red_rep_ok (ex_red_ok C).
have [Q0 [r [_ [q [d [_ [_ [h i]]]]]]]] := C32_reduced (ex_red_ok C) (ex_red_ok C) (@ex_cgs _ _) e e.
by exists r; split=> //; split=> //; case: (h (i (ex_int2 C))).
Qed.
End Props.
