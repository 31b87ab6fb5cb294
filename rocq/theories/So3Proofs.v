(** So3Proofs: the real bases of SO3, O3 and SU2Real. *)
From Coq Require Import ZArith.
From mathcomp Require Import all_ssreflect all_algebra.
From mathcomp Require Import zify.
From mathcomp.real_closed Require Import mxtens.
From Verif Require Import Base McRing Nd NdProofs Reps RepSpec RepProofs RepOps Reduced ReducedProofs Su2 Su2Proofs.

Set Implicit Arguments.
Unset Strict Implicit.
Unset Printing Implicit Defensive.

Import Order.POrderTheory GRing.Theory Num.Theory.
Local Open Scope ring_scope.

Section So3Proofs.
Variable C : numClosedFieldType.
Notation nd := (nd C).
Local Arguments stack : simpl never.

Lemma sqrt2_neq0 : sqrtC (2%:R : C) != 0.
Proof. by rewrite sqrtC_eq0 pnatr_eq0. Qed.
Lemma sqrt2_sq : sqrtC (2%:R : C) * sqrtC 2%:R = 2%:R.
Proof. by rewrite -expr2 sqrtCK. Qed.
Lemma sqrt2_real : (sqrtC (2%:R : C))^* = sqrtC 2%:R.
Proof. by apply: geC0_conj; rewrite sqrtC_ge0 ler0n. Qed.

(** * Matrices with entries on the diagonal and the antidiagonal *)
Section Cross.
Variable n : nat.
Definition cross (a b : 'I_n -> C) : 'M[C]_n :=
  \matrix_(i, k) (a i *+ (k == i) + b i *+ (k == rev_ord i)).

Lemma rev_eq (i k : 'I_n) : (k == rev_ord i) = (i == rev_ord k).
Proof. by apply/eqP/eqP => ->; rewrite rev_ordK. Qed.

Lemma mul_cross a b (M : 'M[C]_n) i k : (cross a b *m M) i k = a i * M i k + b i * M (rev_ord i) k.
Proof.
rewrite mxE; under eq_bigr do rewrite mxE mulrDl.
rewrite big_split /= (bigD1 i) //= [X in _ + X + _]big1 ?addr0 => [|l /negbTE ->]; last by rewrite mulr0n mul0r.
rewrite [X in _ + X](bigD1 (rev_ord i)) //= [X in _ + (_ + X)]big1 ?addr0 => [|l /negbTE ->]; last by rewrite mulr0n mul0r.
by rewrite !eqxx !mulr1n.
Qed.
Lemma mul_crossr a b (M : 'M[C]_n) i k : (M *m cross a b) i k = M i k * a k + M i (rev_ord k) * b (rev_ord k).
Proof.
rewrite mxE; under eq_bigr do rewrite mxE mulrDr.
rewrite big_split /= (bigD1 k) //= [X in _ + X + _]big1 ?addr0 => [|l]; last first.
  by rewrite eq_sym => /negbTE ->; rewrite mulr0n mulr0.
rewrite [X in _ + X](bigD1 (rev_ord k)) //= [X in _ + (_ + X)]big1 ?addr0 => [|l]; last first.
  by rewrite rev_eq => /negbTE ->; rewrite mulr0n mulr0.
by rewrite rev_ordK !eqxx !mulr1n.
Qed.
Lemma adj_cross a b : adj (cross a b) = cross (fun i => (a i)^*) (fun i => (b (rev_ord i))^*).
Proof.
apply/matrixP=> i k; rewrite !mxE rmorphD !rmorphMn /= [i == k]eq_sym rev_eq.
congr (_ + _); first by case: eqP => [->|].
by case: eqP => [->|].
Qed.
Lemma map_cross a b : map_mx conjC (cross a b) = cross (fun i => (a i)^*) (fun i => (b i)^*).
Proof. by apply/matrixP=> i k; rewrite !mxE rmorphD !rmorphMn. Qed.
End Cross.

(** * change_basis_real_to_complex *)
Section Basis.
Variable l : nat.
Local Notation n := (2 * l).+1.
Definition qa (i : 'I_n) : C :=
  if (i < l)%N then - 'i / sqrtC 2%:R else if (i == l :> nat) then 1 else (-1) ^+ (i - l) / sqrtC 2%:R.
Definition qb (i : 'I_n) : C :=
  if (i < l)%N then 1 / sqrtC 2%:R else if (i == l :> nat) then 0 else 'i * (-1) ^+ (i - l) / sqrtC 2%:R.
Definition Qm : 'M[C]_n := cross qa qb.

Lemma real_q_cross : mx2 n n (real_q C l) = Qm.
Proof.
apply/matrixP=> i k; rewrite !mxE /= /qa /qb.
have rk : (k == rev_ord i) = (k == (2 * l - i)%N :> nat) by rewrite -val_eqE /= subSS.
have ik : (k == i) = (k == i :> nat) by [].
have := ltn_ord i; rewrite rk ik => hi.
case: ltngtP => h.
- have -> : (l + (l - i) = 2 * l - i)%N by lia.
  have -> : (l - (l - i) = i)%N by lia.
  case: eqP => [e|]; rewrite ?mulr1n ?mulr0n ?addr0 ?add0r; last by case: eqP.
  have -> : (k == i :> nat) = false by lia.
  by rewrite mulr0n add0r.
- have -> : (l + (i - l) = i)%N by lia.
  have -> : (l - (i - l) = 2 * l - i)%N by lia.
  case: eqP => [e|]; rewrite ?mulr1n ?mulr0n ?addr0 ?add0r; last by case: eqP.
  have -> : (k == (2 * l - i)%N :> nat) = false by lia.
  by rewrite mulr0n addr0.
- by rewrite h mul0rn addr0.
Qed.

Lemma sign_sq (a : nat) : ((-1) ^+ a * (-1) ^+ a = 1 :> C).
Proof. by rewrite -exprMn mulrNN mulr1 expr1n. Qed.
Lemma sign_conj (a : nat) : ((-1) ^+ a)^* = (-1) ^+ a :> C.
Proof. by rewrite rmorphX rmorphN1. Qed.


Definition eps (i : nat) : C := (-1) ^+ (i + l).
Lemma eps_sq i : eps i * eps i = 1.
Proof. exact: sign_sq. Qed.
Lemma eps_rev (i : 'I_n) : eps (rev_ord i) = eps i.
Proof.
rewrite /eps /= subSS -signr_odd -[RHS]signr_odd; congr (_ ^+ nat_of_bool _).
by have := ltn_ord i; lia.
Qed.
Lemma sign_eps (i : 'I_n) : (l <= i)%N -> (-1) ^+ (i - l) = eps i.
Proof. by move=> h; rewrite /eps -signr_odd -[RHS]signr_odd; congr (_ ^+ nat_of_bool _); lia. Qed.
Lemma isq : (sqrtC (2%:R : C))^-1 * (sqrtC 2%:R)^-1 = 2%:R^-1.
Proof. by rewrite -invfM sqrt2_sq. Qed.
Lemma isq_real : ((sqrtC (2%:R : C))^-1)^* = (sqrtC 2%:R)^-1.
Proof. by rewrite fmorphV sqrt2_real. Qed.

Lemma qab_rev (i : 'I_n) : i != l :> nat -> eps i * (qb (rev_ord i))^* = qa i /\ eps i * (qa (rev_ord i))^* = qb i.
Proof.
move=> il; rewrite /qa /qb /= subSS; have hi := ltn_ord i.
have conj_div (x y : C) : (x / y)^* = x^* / y^* by rewrite fmorph_div.
case: (ltngtP i l) il => // h _.
- have -> : (2 * l - i < l)%N = false by lia.
  have -> : (2 * l - i == l)%N = false by lia.
  have -> : (-1) ^+ (2 * l - i - l) = eps i by rewrite /eps -signr_odd -[RHS]signr_odd; congr (_ ^+ nat_of_bool _); lia.
  have ec : (eps i)^* = eps i by apply: sign_conj.
  rewrite !conj_div rmorphM /= conjCi !sqrt2_real ec; split; last by rewrite mulrA eps_sq.
  transitivity (eps i * eps i * (- 'i / sqrtC 2%:R)); first by mcring.
  by rewrite eps_sq mul1r.
- have -> : (2 * l - i < l)%N by lia.
  rewrite !conj_div rmorph1 rmorphN conjCi opprK !sqrt2_real; rewrite (sign_eps (ltnW h)).
  by split; rewrite mulrA ?mulr1 // [eps i * 'i]mulrC.
Qed.
Lemma q_mid (i : 'I_n) : i = l :> nat -> [/\ qa i = 1, qb i = 0, rev_ord i = i & eps i = 1].
Proof.
move=> e; rewrite /qa /qb e ltnn eqxx; split=> //.
  by apply: val_inj; rewrite /= subSS; lia.
by rewrite /eps addnn -signr_odd odd_double.
Qed.
Lemma q_norm (i : 'I_n) : qa i * (qa i)^* + qb i * (qb i)^* = 1.
Proof.
have [/eqP e|il] := boolP (i == l :> nat).
  by have [-> -> _ _] := q_mid e; rewrite rmorph1 mulr1 mul0r addr0.
have n2 : (2%:R : C) != 0 by rewrite pnatr_eq0.
have half : 2%:R^-1 + 2%:R^-1 = 1 :> C by mcf.
have nd x : x * x^* = 1 -> x / sqrtC 2%:R * (x / sqrtC 2%:R)^* = 2%:R^-1 :> C.
  by move=> h; rewrite rmorphM isq_real mulrACA h isq mul1r.
have ii : 'i * ('i)^* = 1 :> C by rewrite conjCi mulrN -expr2 sqrCi opprK.
have s1 a : (-1) ^+ a * ((-1) ^+ a)^* = 1 :> C by rewrite sign_conj sign_sq.
rewrite /qa /qb; case: (ltngtP i l) il => // h _.
  rewrite !nd //; first by rewrite rmorph1 mulr1.
  by rewrite rmorphN mulrNN.
by rewrite !nd // rmorphM mulrACA ii s1 mulr1.
Qed.
Lemma q_square (i : 'I_n) : i != l :> nat -> qa i * qa i + qb i * qb i = 0.
Proof.
move=> il; have nd x y : x / sqrtC 2%:R * (y / sqrtC 2%:R) = x * y / 2%:R :> C by rewrite mulrACA isq.
have i2 : 'i * 'i = -1 :> C by rewrite -expr2 sqrCi.
rewrite /qa /qb; case: (ltngtP i l) il => // h _; rewrite !nd.
  by rewrite mulrNN i2 mulr1 -mulrDl addNr mul0r.
by rewrite mulrACA i2 sign_sq mulr1 -mulrDl subrr mul0r.
Qed.
Lemma q_orth (i : 'I_n) : qa i * (qb (rev_ord i))^* + qb i * (qa (rev_ord i))^* = 0.
Proof.
have [/eqP e|il] := boolP (i == l :> nat).
  by have [_ q r _] := q_mid e; rewrite r q rmorph0 mulr0 mul0r addr0.
have ri : rev_ord i != l :> nat by rewrite /= subSS; have := ltn_ord i; lia.
have [<- <-] := qab_rev il; rewrite -!mulrA -mulrDr -!rmorphM -rmorphD /=.
by rewrite addrC q_square // rmorph0 mulr0.
Qed.
Lemma Qm_unitary' : Qm *m adj Qm = 1%:M.
Proof.
apply/matrixP=> i k; rewrite /Qm adj_cross mul_cross !mxE rev_ordK [i == k]eq_sym.
transitivity ((qa i * (qa i)^* + qb i * (qb i)^* ) *+ (k == i)
  + (qa i * (qb (rev_ord i))^* + qb i * (qa (rev_ord i))^* ) *+ (k == rev_ord i)).
  by case: (k == i); case: (k == rev_ord i); rewrite ?mulr1n ?mulr0n; mcring.
by rewrite q_norm q_orth mul0rn addr0.
Qed.
Lemma Qm_unitary : adj Qm *m Qm = 1%:M.
Proof. exact: mulmx1C Qm_unitary'. Qed.

(** The real structure: e_m -> (-1)^m e_{-m}. *)
Definition Jm : 'M[C]_n := cross (fun _ => 0) (fun i => eps i).
Lemma eps_real i : (eps i)^* = eps i.
Proof. exact: sign_conj. Qed.
Lemma Jm_adj : adj Jm = Jm.
Proof.
rewrite adj_cross; apply/matrixP=> i k; rewrite !mxE rmorph0; congr (_ + _ *+ _).
by rewrite eps_rev eps_real.
Qed.
Lemma mul_J (M : 'M[C]_n) i k : (Jm *m M) i k = eps i * M (rev_ord i) k.
Proof. by rewrite mul_cross mul0r add0r. Qed.
Lemma mul_Jr (M : 'M[C]_n) i k : (M *m Jm) i k = M i (rev_ord k) * eps k.
Proof. by rewrite mul_crossr mulr0 add0r eps_rev. Qed.
Lemma Jm_sq : Jm *m Jm = 1%:M.
Proof.
apply/matrixP=> i k; rewrite mul_J !mxE rev_ordK eps_rev mul0rn add0r [i == k]eq_sym.
by case: (k == i); rewrite ?mulr1n ?eps_sq ?mulr0n ?mulr0.
Qed.
Lemma Qm_conj : map_mx conjC Qm = Jm *m Qm.
Proof.
apply/matrixP=> i k; rewrite mul_J map_cross !mxE rev_ordK.
have [/eqP e|il] := boolP (i == l :> nat).
  have [q1 q2 r ->] := q_mid e; rewrite r q1 q2 rmorph1 rmorph0 mul1r addrC.
  by rewrite !mul0rn ?add0r ?addr0.
have [<- <-] := qab_rev il.
rewrite !rmorphM !conjCK !eps_real addrC.
by case: (k == i); case: (k == rev_ord i); rewrite ?mulr1n ?mulr0n ?addr0 ?add0r ?mulrDr ?mulr0.
Qed.
Lemma J_S : Jm *m Sm C (2 * l) *m Jm = - (Sm C (2 * l))^T.
Proof.
apply/matrixP=> i k; rewrite mul_Jr mul_J !mxE /=.
have hi := ltn_ord i; have hk := ltn_ord k; rewrite !subSS.
have -> : (2 * l - k == (2 * l - i).+1)%N = (i == k.+1 :> nat) by lia.
case: eqP => [e|_]; last by rewrite mulr0 mul0r oppr0.
have -> : lad C (2 * l) (2 * l - i) = lad C (2 * l) k by rewrite /lad; congr (sqrtC _%:R); nia.
by rewrite e mulrAC {1}/eps addSn exprS mulN1r !mulNr -/(eps k) eps_sq mul1r.
Qed.
Lemma J_M : Jm *m Mm C (2 * l) *m Jm = - Mm C (2 * l).
Proof.
apply/matrixP=> i k; rewrite mul_Jr mul_J !mxE /=.
have hi := ltn_ord i; have hk := ltn_ord k; rewrite !subSS.
have -> : (2 * l - k == 2 * l - i)%N = (k == i :> nat) by lia.
case: eqP => [->|_]; last by rewrite mulr0 mul0r oppr0.
rewrite mulrAC eps_sq mul1r /mval natrB; last by [].
have n2 : (2%:R : C) != 0 by rewrite pnatr_eq0.
by rewrite natrM; mcf.
Qed.
Lemma J_X a : Jm *m Xm C (2 * l) a *m Jm = map_mx conjC (Xm C (2 * l) a).
Proof.
have sT : map_mx conjC (Sm C (2 * l)) = Sm C (2 * l).
  by apply/matrixP=> i k; rewrite !mxE; case: ifP; rewrite ?lad_real ?conjC0.
have mT : map_mx conjC (Mm C (2 * l)) = Mm C (2 * l).
  by apply/matrixP=> i k; rewrite !mxE; case: ifP; rewrite ?mval_real ?conjC0.
have half : (1 / 2%:R : C)^* = 1 / 2%:R by rewrite fmorph_div rmorph1 rmorph_nat.
have J_St : Jm *m (Sm C (2 * l))^T *m Jm = - Sm C (2 * l).
  have -> : (Sm C (2 * l))^T = - (Jm *m Sm C (2 * l) *m Jm) by rewrite J_S opprK.
  by rewrite mulmxN mulNmx !mulmxA Jm_sq mul1mx -mulmxA Jm_sq mulmx1.
case: a => [|[|a]]; rewrite /= -scalemxAr -scalemxAl map_mxZ.
- by rewrite half mulmxBr mulmxBl J_S J_St opprK map_mxB -map_trmx sT addrC.
- by rewrite J_M conjCi scalerN scaleNr mT.
- by rewrite mulmxDr mulmxDl J_S J_St rmorphM half conjCi mulrN scaleNr map_mxD -map_trmx sT -opprD scalerN addrC.
Qed.

(** * The transformed generators *)
Definition Ym a : 'M[C]_n := adj Qm *m Xm C (2 * l) a *m Qm.
Lemma adjM m q r (A : 'M[C]_(m, q)) (B : 'M[C]_(q, r)) : adj (A *m B) = adj B *m adj A.
Proof. by rewrite /adj trmx_mul map_mxM. Qed.
Lemma adjK m q (A : 'M[C]_(m, q)) : adj (adj A) = A.
Proof. by apply/matrixP=> i k; rewrite !mxE conjCK. Qed.
Lemma adj_conj m q (A : 'M[C]_(m, q)) : map_mx conjC (adj A) = adj (map_mx conjC A).
Proof. by apply/matrixP=> i k; rewrite !mxE. Qed.
Lemma Ym_real a : map_mx conjC (Ym a) = Ym a.
Proof.
rewrite /Ym !map_mxM adj_conj Qm_conj -J_X adjM Jm_adj -!mulmxA; congr (_ *m _).
by rewrite [Jm *m (Jm *m Qm)]mulmxA Jm_sq mul1mx [Jm *m (Jm *m _)]mulmxA Jm_sq mul1mx.
Qed.
Lemma Ym_adj a : adj (Ym a) = - Ym a.
Proof. by rewrite /Ym !adjM adjK Xm_adj mulNmx mulmxN mulmxA. Qed.
Lemma Ym_anti a : (Ym a)^T = - Ym a.
Proof. by rewrite -Ym_adj /adj -map_trmx Ym_real. Qed.
End Basis.

(** * The arrays *)
Definition real_nd (X : nd) : Prop := forall idx, valid (shape X) idx -> get X idx \is Num.real.

Lemma phase_unit l : ((- 'i : C) ^+ l)^* * (- 'i) ^+ l = 1.
Proof. by rewrite rmorphX rmorphN /= conjCi opprK -exprMn mulrN -expr2 sqrCi opprK expr1n. Qed.

Lemma real_to_complex_mx l : mx2 (2 * l).+1 (2 * l).+1 (real_to_complex C l) = (- 'i) ^+ l *: Qm l.
Proof. by rewrite -real_q_cross; apply/matrixP=> i k; rewrite !mxE. Qed.
Lemma real_to_complex_unitary l : let Q := mx2 (2 * l).+1 (2 * l).+1 (real_to_complex C l) in
  adj Q *m Q = 1%:M /\ Q *m adj Q = 1%:M.
Proof.
rewrite /= real_to_complex_mx; set z := _ ^+ l; have e : adj (z *: Qm l) = z^* *: adj (Qm l).
  by apply/matrixP=> i k; rewrite !mxE rmorphM.
rewrite e -!scalemxAl -!scalemxAr !scalerA [z * _]mulrC phase_unit !scale1r.
by split; [exact: Qm_unitary | exact: Qm_unitary'].
Qed.

Lemma mx3_get d (X : nd) l a i k : shape X = [:: l; d; d] -> (a < l)%N -> (i < d)%N -> (k < d)%N ->
  exists (i' k' : 'I_d), get X [:: a; i; k] = mx3 d d X a i' k'.
Proof. by move=> _ _ hi hk; exists (Ordinal hi), (Ordinal hk); rewrite mxE. Qed.

Lemma real_conj (x : C) : x^* = x -> x \is Num.real.
Proof. by move=> h; apply/CrealP. Qed.
Lemma valid3 l d idx : valid [:: l; d; d] idx -> exists a i k, [/\ idx = [:: a; i; k], (a < l)%N, (i < d)%N & (k < d)%N].
Proof.
case: idx => [|a [|i [|k [|]]]]; rewrite /valid //= ?andbF // => /and4P[h1 h2 h3 _].
by exists a, i, k.
Qed.

Lemma so3_X_ok l : exists X, so3_X C l = Ok X /\ shape X = [:: 3; (2 * l).+1; (2 * l).+1]%N /\ real_nd X /\
  forall a, (a < 3)%N -> mx3 (2 * l).+1 (2 * l).+1 X a = Ym l a.
Proof.
have [X [e [sX gX]]] := su2_X_ok C (2 * l); rewrite /so3_X e; set n := (2 * l).+1 in sX gX *.
have sQ : shape (real_to_complex C l) = [:: n; n] by [].
have sQ' : shape (conj (transpose2 (real_to_complex C l))) = [:: n; n] by [].
have [Y [e1 [sY gY]]] := matmul_2_3 sQ' sX.
have [Z [e2 [sZ gZ]]] := matmul_3_2 sQ sY.
rewrite [LHS]/= in e1; rewrite /= e1 /= e2 /=.
have cQ : mx2 n n (conj (transpose2 (real_to_complex C l))) = ((- 'i) ^+ l)^* *: adj (Qm l).
  rewrite -real_q_cross; apply/matrixP=> i k; rewrite [LHS]mxE [RHS]mxE /= rmorphM.
  by rewrite /adj /map_mx !mxE.
have gZ' a : (a < 3)%N -> mx3 n n Z a = Ym l a.
  move=> ha; rewrite gZ // gY // cQ real_to_complex_mx gX //.
  by rewrite -!scalemxAl -!scalemxAr scalerA phase_unit scale1r.
have rZ : real_nd Z.
  move=> idx; rewrite sZ => /valid3[a [i [k [-> ha hi hk]]]].
  have [i' [k' ->]] := mx3_get sZ ha hi hk; rewrite gZ' //; apply: real_conj.
  by have := congr1 (fun M : 'M[C]_n => M i' k') (Ym_real l a); rewrite mxE.
have -> : imag_small Z.
  apply/allP => idx; rewrite mem_all_idx => /rZ h.
  have /CrealP := h; move=> hc; have -> : 'Im (get Z idx) = 0 by rewrite (Creal_ImP _ h).
  by rewrite normr0 invr_gt0 exprn_gt0 // ltr0n.
rewrite /=; eexists; split; first by []; split=> //; split.
  by move=> idx v; rewrite /= Creal_Re.
move=> a ha; rewrite -gZ' //; apply: mx3P => i k hi hk /=.
by apply/Creal_ReP; apply: rZ; rewrite sZ /valid /= ha hi hk.
Qed.

Lemma Ym_mrep l H : is_mrep (su2_th C) (Ym l) H.
Proof.
have h : is_mrep (su2_th C) (Xm C (2 * l)) (fun _ => 0).
  by apply: su2_mrep; [exact: X01|exact: X12|exact: X20].
have := is_mrep_conj (Q := adj (Qm l)) (P := Qm l) (Qm_unitary' l) (or_introl (Qm_unitary l)) h.
by case=> a _ _; split.
Qed.

Lemma so3_rep_ok l : exists r, so3_rep C l = Ok r /\ is_rep (su2_th C) (2 * l).+1 r /\ real_nd (rX r) /\
  forall a, (a < 3)%N -> (mx3 (2 * l).+1 (2 * l).+1 (rX r) a)^T = - mx3 (2 * l).+1 (2 * l).+1 (rX r) a.
Proof.
have [X [e [sX [rX gX]]]] := so3_X_ok l; rewrite /so3_rep e /=; eexists; split; first by [].
split; last by split=> // a ha; rewrite /= gX // Ym_anti.
split=> //=; apply: (@is_mrep_ext C (su2_th C) _ (Ym l) _ (fun _ => 0)) => [i hi|//|]; [by rewrite gX|exact: Ym_mrep].
Qed.

(** O(3): inversion squares to one and commutes with the rotations. *)
Definition o3_th : theory C :=
  Theory 3 1 (fun i j k => (table3 su2_table i j k)%:~R) (fun u v => u = [:: 0; 0]%N /\ v = [::])
    (fun c => forall b i j, c b i j = (i == j)%:R).
Lemma o3_rep_ok l p : p \in [:: 1; -1] -> exists r, o3_rep C l p = Ok r /\ is_rep o3_th (2 * l).+1 r /\
  real_nd (rX r) /\ real_nd (rH r) /\ mx3 (2 * l).+1 (2 * l).+1 (rH r) 0 = p%:~R%:M /\
  forall a, (a < 3)%N -> (mx3 (2 * l).+1 (2 * l).+1 (rX r) a)^T = - mx3 (2 * l).+1 (2 * l).+1 (rX r) a.
Proof.
move=> hp; have [X [e [sX [rX gX]]]] := so3_X_ok l; rewrite /o3_rep e /=; eexists; split; first by [].
set H := Nd _ _; have eH : mx3 (2 * l).+1 (2 * l).+1 H 0 = p%:~R%:M.
  by apply/matrixP=> i k; rewrite !mxE /= mulr_natr.
split; last first.
  split=> //; split; last by split=> // a ha; rewrite /= gX // Ym_anti.
  by move=> idx v; rewrite /= rpredM ?rpred_int ?rpred_nat.
split=> //=; apply: (@is_mrep_ext C _ _ (Ym l) _ (fun _ => p%:~R%:M)) => /=.
- by move=> i hi; rewrite gX.
- by case.
split=> /=.
- by case: (Ym_mrep (l := l) (fun _ => 0)).
- move=> u v [-> ->] _ /=; rewrite mulmx1 -scalar_mxM -rmorphM /=.
  by move: hp; rewrite !inE => /orP[]/eqP->; rewrite ?mulr1 ?mulrNN ?mulr1.
- move=> c hc b i _ hi; rewrite (bigD1 (Ordinal hi)) //= hc eqxx scale1r big1 ?addr0 ?scalar_mxC //.
  by move=> k nk; rewrite hc; case: eqP => [ek|]; rewrite ?scale0r //; case/eqP: nk; apply: val_inj.
Qed.

(** Z2. *)
Definition z2_th : theory C := Theory 0 1 (fun _ _ _ => 0) (fun u v => u = [:: 0; 0]%N /\ v = [::]) (fun _ => True).
Lemma z2_rep_ok p : p \in [:: 1; -1] -> is_rep z2_th 1 (z2_rep C p) /\ mx3 1 1 (rH (z2_rep C p)) 0 = p%:~R%:M.
Proof.
move=> hp; have eH : mx3 1 1 (rH (z2_rep C p)) 0 = p%:~R%:M by apply/matrixP=> i k; rewrite !mxE /= mulr_natr.
split=> //; split=> //; split=> //= u v [-> ->] _ /=; rewrite mulmx1 eH -scalar_mxM -rmorphM /=.
by move: hp; rewrite !inE => /orP[]/eqP->; rewrite ?mulr1 ?mulrNN ?mulr1.
Qed.

(** * SU2Real *)
(** The real form of a complex matrix. *)
Definition J2 : 'M[C]_2 := \matrix_(i, k) match i : nat, k : nat with 0%N, 1%N => -1 | 1%N, 0%N => 1 | _, _ => 0 end.
Lemma J2_sq : J2 *m J2 = - 1%:M.
Proof.
apply/matrixP=> i k; rewrite !mxE !big_ord_recl big_ord0 !mxE /=.
by case: i => [[|[|]]] // hi; case: k => [[|[|]]] // hk; rewrite /= ?mulr0 ?mul0r ?mulr1 ?mul1r ?mulN1r ?addr0 ?add0r ?oppr0.
Qed.
Lemma J2_tr : J2^T = - J2.
Proof.
apply/matrixP=> i k; rewrite !mxE.
by case: i => [[|[|]]] // hi; case: k => [[|[|]]] // hk; rewrite /= ?opprK ?oppr0.
Qed.
Definition Re_mx n (M : 'M[C]_n) : 'M[C]_n := map_mx (fun z => 'Re z) M.
Definition Im_mx n (M : 'M[C]_n) : 'M[C]_n := map_mx (fun z => 'Im z) M.
Definition realify n (M : 'M[C]_n) : 'M[C]_(n * 2) := Re_mx M *t 1%:M + Im_mx M *t J2.
Lemma ReM_mx n (M N : 'M[C]_n) : Re_mx (M *m N) = Re_mx M *m Re_mx N - Im_mx M *m Im_mx N.
Proof.
by apply/matrixP=> i k; rewrite !mxE raddf_sum /= -sumrB; apply: eq_bigr => x _; rewrite !mxE ReM.
Qed.
Lemma ImM_mx n (M N : 'M[C]_n) : Im_mx (M *m N) = Re_mx M *m Im_mx N + Im_mx M *m Re_mx N.
Proof.
apply/matrixP=> i k; rewrite !mxE raddf_sum /= -big_split; apply: eq_bigr => x _; rewrite !mxE ImM.
by rewrite [X in _ + X]mulrC.
Qed.
Lemma realifyM n (M N : 'M[C]_n) : realify (M *m N) = realify M *m realify N.
Proof.
rewrite /realify mulmxDl !mulmxDr !tensmx_mul !mulmx1 !mul1mx J2_sq tensNr ReM_mx ImM_mx.
by rewrite !tensDl tensNl [LHS]addrACA [X in _ + X = _]addrC.
Qed.
Lemma realifyB n (M N : 'M[C]_n) : realify (M - N) = realify M - realify N.
Proof.
have r : Re_mx (M - N) = Re_mx M - Re_mx N by apply/matrixP=> i k; rewrite !mxE raddfB.
have q : Im_mx (M - N) = Im_mx M - Im_mx N by apply/matrixP=> i k; rewrite !mxE raddfB.
by rewrite /realify r q !tensDl !tensNl opprD addrACA.
Qed.
Lemma realify_tr n (M : 'M[C]_n) : (realify M)^T = realify (adj M).
Proof.
have r : Re_mx (adj M) = (Re_mx M)^T by apply/matrixP=> i k; rewrite !mxE Re_conj.
have q : Im_mx (adj M) = - (Im_mx M)^T by apply/matrixP=> i k; rewrite !mxE Im_conj.
by rewrite /realify linearD /= !trmx_tens trmx1 J2_tr tensNr r q tensNl.
Qed.

Lemma su2r_X_half t : odd t -> exists X, su2r_X C t = Ok X /\ shape X = [:: 3; t.+1 * 2; t.+1 * 2]%N /\
  real_nd X /\ forall a, (a < 3)%N -> mx3 (t.+1 * 2) (t.+1 * 2) X a = realify (Xm C t a).
Proof.
move=> ot; have [X [e [sX gX]]] := su2_X_ok C t; rewrite /su2r_X ot e /=.
set Y := Nd _ _; have sY : shape Y = [:: 3; t.+1; 2; t.+1; 2]%N by [].
have [Z [e2 [sZ gZ]]] := reshape_split2 sY.
have -> : reshape_m1 Y [:: (2 * t.+1)%N; (2 * t.+1)%N] = Ok Z.
  rewrite -e2 /reshape_m1 sY [(2 * t.+1)%N]mulnC; set q := nprod [:: (t.+1 * 2)%N; (t.+1 * 2)%N].
  have -> : nprod [:: 3; t.+1; 2; t.+1; 2]%N = (3 * q)%N by rewrite /q /=; nia.
  have q0 : (0 < q)%N by rewrite /q /=; nia.
  by rewrite mulnK //; case: eqP q0 => // ->.
exists Z; split=> //; split=> //; split.
  move=> idx; rewrite sZ => /valid3[a [i [k [-> ha hi hk]]]]; rewrite gZ //=.
  by case: (i %% 2)%N => [|?]; case: (k %% 2)%N => [|?]; rewrite ?rpredN ?Creal_Re ?Creal_Im.
move=> a ha; apply/matrixP=> i k; rewrite mxE gZ //.
case: (mxtens_indexP i) => i1 i2; case: (mxtens_indexP k) => k1 k2.
have dv (u : 'I_t.+1) (v : 'I_2) : (mxtens_index (u, v) %/ 2 = u)%N by rewrite /= divnMDl // divn_small ?addn0.
have md (u : 'I_t.+1) (v : 'I_2) : (mxtens_index (u, v) %% 2 = v)%N by rewrite /= modnMDl modn_small.
rewrite !dv !md /realify mxE !tensmxE [Re_mx _ _ _]mxE [Im_mx _ _ _]mxE -gX // [mx3 _ _ _ _ _ _]mxE mxE [J2 _ _]mxE /=.
case: i2 => [[|[|]]] // hi; case: k2 => [[|[|]]] // hk; rewrite -val_eqE /= ?mulr0 ?mulr1 ?mulrN1 ?addr0 ?add0r //.
Qed.
Lemma su2r_X_int l : su2r_X C (2 * l) = so3_X C l.
Proof. by rewrite /su2r_X oddM /= mul2n doubleK. Qed.

Lemma su2r_rep_half t : odd t -> exists r, su2r_rep C t = Ok r /\ is_rep (su2_th C) (t.+1 * 2) r /\ real_nd (rX r) /\
  forall a, (a < 3)%N -> (mx3 (t.+1 * 2) (t.+1 * 2) (rX r) a)^T = - mx3 (t.+1 * 2) (t.+1 * 2) (rX r) a.
Proof.
move=> ot; have [X [e [sX [rX gX]]]] := su2r_X_half ot; rewrite /su2r_rep ot e /= [(2 * t.+1)%N]mulnC.
eexists; split; first by [].
have rN (M : 'M[C]_t.+1) : realify (- M) = - realify M.
  have r0 : realify 0 = 0 :> 'M[C]_(t.+1 * 2) by rewrite -(subrr (0 : 'M[C]_t.+1)) realifyB subrr.
  by have := realifyB 0 M; rewrite sub0r r0 sub0r.
split; last by split=> // a ha; rewrite /= gX // realify_tr Xm_adj rN.
split=> //=; apply: su2_mrep; rewrite !gX // -!realifyM -realifyB; congr realify.
- exact: X01.
- exact: X12.
- exact: X20.
Qed.
Lemma su2r_rep_int l : su2r_rep C (2 * l) = so3_rep C l.
Proof. by rewrite /su2r_rep su2r_X_int oddM. Qed.
End So3Proofs.
