(** Su2CgEq: the Clebsch-Gordan arrays of SU2 are equivariant and orthonormal. *)
From Coq Require Import ZArith.
From mathcomp Require Import all_ssreflect all_algebra.
From mathcomp Require Import zify.
From mathcomp.real_closed Require Import mxtens.
From Verif Require Import Base McRing Nd NdProofs Labels LabelProofs CgSum Su2 Su2Proofs Su2Cg Su2CgProofs.

Set Implicit Arguments.
Unset Strict Implicit.
Unset Printing Implicit Defensive.

Import Order.POrderTheory Order.TotalTheory GRing.Theory Num.Theory.
Local Open Scope ring_scope.

Section Su2CgEq.
Variable C : numClosedFieldType.
Notation lad := (lad C).
Notation cgc := (cgc C).
Notation cgK := (cgK C).

Lemma sqrt_rel (X Y Z k : C) : 0 <= X -> 0 <= Y -> 0 <= k -> X * Y = k ^+ 2 * Z ->
  sqrtC X * sqrtC Y = k * sqrtC Z.
Proof. by move=> hX hY hk e; rewrite -rootCMl // e rootCMl ?exprn_ge0 // sqrCK. Qed.

Lemma cgK_ge0 p q r M a1 b1 a2 b2 : 0 <= cgK p q r M a1 b1 a2 b2.
Proof. by rewrite /cgK mulr_ge0 ?divr_ge0 ?ler0n. Qed.

Section Rec.
Variables p q r : nat.

(** Changing M, (a1, b1) and (a2, b2) by one. *)
Lemma cgK_M M a1 b1 a2 b2 : (M < q + r)%N ->
  (M.+1 * (q + r - M))%:R * cgK p q r M.+1 a1 b1 a2 b2 = M.+1%:R ^+ 2 * cgK p q r M a1 b1 a2 b2.
Proof.
move=> h; rewrite /cgK factS; have -> : (q + r - M = (q + r - M.+1).+1)%N by lia.
rewrite factS; move: (q + r - M.+1)%N => k; rewrite !natrM expr2.
by rewrite !invfM; mcring.
Qed.
Lemma cgK_M' M a1 b1 a2 b2 : (M < q + r)%N ->
  (M.+1 * (q + r - M))%:R * cgK p q r M a1 b1 a2 b2 = (q + r - M)%:R ^+ 2 * cgK p q r M.+1 a1 b1 a2 b2.
Proof.
move=> h; rewrite /cgK factS; have -> : (q + r - M = (q + r - M.+1).+1)%N by lia.
rewrite factS; move: (q + r - M.+1)%N => k; rewrite !natrM expr2.
by rewrite !invfM; mcring.
Qed.
Lemma cgK_1 M a1 b1 a2 b2 :
  (b1.+1 * a1.+1)%:R * cgK p q r M a1.+1 b1 a2 b2 = b1.+1%:R ^+ 2 * cgK p q r M a1 b1.+1 a2 b2.
Proof.
rewrite /cgK !factS !natrM !invfM; have n1 : a1.+1%:R != 0 :> C by rewrite pnatr_eq0.
have n2 : b1.+1%:R != 0 :> C by rewrite pnatr_eq0.
have := mulfV n1; have := mulfV n2; move: (a1.+1%:R : C) (b1.+1%:R : C) (a1.+1%:R^-1) (b1.+1%:R^-1) => x y x' y' e1 e2.
transitivity ((x * x') * (y * y') * (y * ((q + r + 1)%:R * (r`!%:R * q`!%:R * p`!%:R * M`!%:R * (q + r - M)`!%:R * (((p + q + r + 1)`!)%:R^-1 * a1`!%:R^-1 * (b1`!)%:R^-1 * a2`!%:R^-1 * b2`!%:R^-1))))).
  by rewrite e1 mulr1; mcring.
by rewrite e2 mul1r expr2; mcring.
Qed.
Lemma cgK_s1 M a1 b1 a2 b2 : cgK p q r M a1 b1 a2 b2 = cgK p q r M b1 a1 a2 b2.
Proof. by rewrite /cgK; congr (_ * (_ / _%:R)); rewrite -!mulnA [(b1`! * (a1`! * _))%N]mulnCA. Qed.
Lemma cgK_s2 M a1 b1 a2 b2 : cgK p q r M a1 b1 a2 b2 = cgK p q r M a2 b2 a1 b1.
Proof. by rewrite /cgK; congr (_ * (_ / _%:R)); rewrite -!mulnA; congr (_ * _)%N; rewrite mulnA mulnC -mulnA. Qed.
Lemma cgK_1' M a1 b1 a2 b2 :
  (b1.+1 * a1.+1)%:R * cgK p q r M a1 b1.+1 a2 b2 = a1.+1%:R ^+ 2 * cgK p q r M a1.+1 b1 a2 b2.
Proof. by rewrite cgK_s1 mulnC cgK_1 cgK_s1. Qed.

(** The five ladder factors. *)
Lemma lad_M M a1 b1 a2 b2 : (M < q + r)%N ->
  lad (q + r) M * sqrtC (cgK p q r M.+1 a1 b1 a2 b2) = M.+1%:R * sqrtC (cgK p q r M a1 b1 a2 b2).
Proof. by move=> h; apply: sqrt_rel; rewrite ?ler0n ?cgK_ge0 // cgK_M. Qed.
Lemma lad_M' M a1 b1 a2 b2 : (M < q + r)%N ->
  lad (q + r) M * sqrtC (cgK p q r M a1 b1 a2 b2) = (q + r - M)%:R * sqrtC (cgK p q r M.+1 a1 b1 a2 b2).
Proof. by move=> h; apply: sqrt_rel; rewrite ?ler0n ?cgK_ge0 // cgK_M'. Qed.
Lemma lad_1 n i M a1 a2 b2 : (a1.+1 + i = n)%N ->
  lad n i * sqrtC (cgK p q r M a1.+1 i a2 b2) = i.+1%:R * sqrtC (cgK p q r M a1 i.+1 a2 b2).
Proof.
move=> e; apply: sqrt_rel; rewrite ?ler0n ?cgK_ge0 //.
by have -> : (n - i = a1.+1)%N by [lia]; rewrite cgK_1.
Qed.
Lemma lad_1' n i M a1 a2 b2 : (a1.+1 + i = n)%N ->
  lad n i * sqrtC (cgK p q r M a1 i.+1 a2 b2) = a1.+1%:R * sqrtC (cgK p q r M a1.+1 i a2 b2).
Proof.
move=> e; apply: sqrt_rel; rewrite ?ler0n ?cgK_ge0 //.
by have -> : (n - i = a1.+1)%N by [lia]; rewrite cgK_1'.
Qed.

(** An entry of the array, zero off the diagonal k + p = i + j. *)
Definition cge (i j k : nat) : C := if (k + p == i + j)%N then cgc p q r i j k else 0.
(** Ladder factor with the convention of a missing neighbour. *)
Definition ladp (n i : nat) : C := if i is i'.+1 then lad n i' else 0.
Lemma lad_end n : lad n n = 0.
Proof. by rewrite /Su2Proofs.lad subnn muln0 sqrtC0. Qed.

Lemma cge_up i j l : (i <= p + r)%N -> (j <= p + q)%N -> (l <= q + r)%N ->
  lad (q + r) l * cge i j l.+1 = ladp (p + r) i * cge i.-1 j l + ladp (p + q) j * cge i j.-1 l.
Proof.
move=> hi hj hl; rewrite /cge; case: (altP (l.+1 + p =P i + j)%N) => [e|ne]; last first.
  rewrite mulr0; case: i j ne {hi hj} => [|i] [|j] /= ne; rewrite ?mul0r ?addr0 ?add0r //.
  - by have /negbTE -> : (l + p)%N != (0 + j)%N by [lia]; rewrite mulr0.
  - by have /negbTE -> : (l + p)%N != (i + 0)%N by [lia]; rewrite mulr0.
  - have /negbTE -> : (l + p)%N != (i + j.+1)%N by lia.
    by have /negbTE -> : (l + p)%N != (i.+1 + j)%N by [lia]; rewrite !mulr0 addr0.
set a1 := (p + r - i)%N; set a2 := (p + q - j)%N; set W := sqrtC (cgK p q r l a1 i a2 j).
set D : C := ((q`! * r`!)%N%:R)^-1.
have e1 : lad (q + r) l * cgc p q r i j l.+1 = W * D * (-1) ^+ j * (l.+1%:R * cgF C q r l.+1 a1 i).
  rewrite /Su2CgProofs.cgc /cgS -/a1 -/a2; case: (ltngtP l (q + r)) hl => // hl _.
    rewrite mulrA lad_M // -/W -/D; move: ((-1) ^+ j) => s; mcring.
  by rewrite hl lad_end mul0r cgF_big ?mulr0.
have e2 : ladp (p + r) i * (if (l + p == i.-1 + j)%N then cgc p q r i.-1 j l else 0) = W * D * (-1) ^+ j * (i%:R * cgF C q r l a1.+1 i.-1).
  rewrite /W /a1; case: i e hi {a1 W e1} => [|i] e hi; rewrite ?mul0r ?mulr0 //=.
  have -> : (l + p == i + j)%N by lia.
  rewrite /Su2CgProofs.cgc /cgS -/a2; have -> : (p + r - i = (p + r - i.+1).+1)%N by lia.
  rewrite mulrA lad_1; last by lia.
  rewrite -/D; move: ((-1) ^+ j) (sqrtC _) => s w; mcring.
have e3 : ladp (p + q) j * (if (l + p == i + j.-1)%N then cgc p q r i j.-1 l else 0) = - (W * D * (-1) ^+ j * (j%:R * cgF C q r l a1 i)).
  rewrite /W /a2; case: j e hj {a2 W e1 e2} => [|j] e hj; rewrite ?mul0r ?mulr0 ?oppr0 //=.
  have -> : (l + p == i + j)%N by lia.
  rewrite /Su2CgProofs.cgc /cgS -/a1; have -> : (p + q - j = (p + q - j.+1).+1)%N by lia.
  rewrite cgK_s2 mulrA lad_1; last by lia.
  rewrite cgK_s2 -/D exprS; move: ((-1) ^+ j) (sqrtC _) => s w; mcring.
rewrite e1 e2 e3 (@cgF_rec1 C q r l a1 i j%:R); [by mcring | by apply/orP; case: (i) e hj => [|?] e hj; [right; lia|left] | ].
have -> : (r%:R : C) = (r + 0)%N%:R by rewrite addn0.
by apply/eqP; rewrite eq_sym subr_eq -!natrD; apply/eqP; congr _%:R; rewrite /a1; lia.
Qed.

Lemma cge_down i j l : (i <= p + r)%N -> (j <= p + q)%N -> (l <= q + r)%N ->
  ladp (q + r) l * cge i j l.-1 = lad (p + r) i * cge i.+1 j l + lad (p + q) j * cge i j.+1 l.
Proof.
move=> hi hj hl; rewrite /cge; case: (altP (l + p =P i + j + 1)%N) => [e|ne]; last first.
  have /negbTE -> : (l + p)%N != (i.+1 + j)%N by lia.
  have /negbTE -> : (l + p)%N != (i + j.+1)%N by lia.
  rewrite !mulr0 addr0; case: l ne {hl} => [|l] ne /=; rewrite ?mul0r //.
  by have /negbTE -> : (l + p)%N != (i + j)%N by [lia]; rewrite mulr0.
have -> : (l + p == i.+1 + j)%N by lia.
have -> : (l + p == i + j.+1)%N by lia.
set a1 := (p + r - i)%N; set a2 := (p + q - j)%N; set W := sqrtC (cgK p q r l a1 i a2 j).
set D : C := ((q`! * r`!)%N%:R)^-1.
have e2 : lad (p + r) i * cgc p q r i.+1 j l = W * D * (-1) ^+ j * (a1%:R * cgF C q r l a1.-1 i.+1).
  rewrite /Su2CgProofs.cgc /cgS -/a2; case: (ltngtP i (p + r)) hi => // hi _; last first.
    by rewrite /a1 hi subnn lad_end !mul0r mulr0.
  have -> : (p + r - i.+1 = a1.-1)%N by rewrite /a1; lia.
  have ea : a1 = a1.-1.+1 by rewrite /a1; lia.
  rewrite mulrA lad_1' -/D; last by rewrite /a1; lia.
  rewrite -ea -/W; move: ((-1) ^+ j) => s; mcring.
have e3 : lad (p + q) j * cgc p q r i j.+1 l = - (W * D * (-1) ^+ j * (a2%:R * cgF C q r l a1 i)).
  rewrite /Su2CgProofs.cgc /cgS -/a1; case: (ltngtP j (p + q)) hj => // hj _; last first.
    by rewrite /a2 hj subnn lad_end !mul0r mulr0 oppr0.
  have -> : (p + q - j.+1 = a2.-1)%N by rewrite /a2; lia.
  have ea : a2 = a2.-1.+1 by rewrite /a2; lia.
  rewrite cgK_s2 mulrA lad_1' -/D; last by rewrite /a2; lia.
  rewrite -ea cgK_s2 -/W exprS; move: ((-1) ^+ j) => s; mcring.
rewrite e2 e3; case: l e hl {e2 e3} @W => [|l] e hl W /=.
  rewrite mul0r; have := @cgF_rec2_0 C q r a1 i; have -> : q%:R + i%:R + 1 = a2%:R :> C.
    by have -> : a2 = (q + i).+1 by [rewrite /a2; lia]; rewrite mulrS natrD addrC.
  move=> h; transitivity (W * D * (-1) ^+ j * (a1%:R * cgF C q r 0 a1.-1 i.+1 - a2%:R * cgF C q r 0 a1 i)); last by mcring.
  by rewrite h ?mulr0 // /a1; lia.
have -> : (l + p == i + j)%N by lia.
transitivity (W * D * (-1) ^+ j * ((q%:R + r%:R - l%:R) * cgF C q r l a1 i)).
  rewrite /Su2CgProofs.cgc /cgS -/a1 -/a2 mulrA lad_M' // -/W -/D natrB ?natrD; last by lia.
  move: ((-1) ^+ j) => s; mcring.
rewrite (@cgF_rec2 C q r l a1 i a2%:R); [by mcring | by rewrite /a1; lia | ].
by apply/eqP; rewrite eq_sym subr_eq -!natrD; apply/eqP; congr _%:R; rewrite /a2; lia.
Qed.

(** Normalisation at the top weight. *)
Lemma cgc_top a : (a <= p)%N -> cgc p q r (r + (p - a)) (q + a) (q + r) ^+ 2 =
  ('C(q + a, q) * 'C(r + (p - a), r))%N%:R / ('C(p + q + r + 1, p))%:R.
Proof.
move=> ha; rewrite /Su2CgProofs.cgc exprMn sqrtCK /Su2CgProofs.cgK /cgS cgF_top.
have -> : (p + r - (r + (p - a)) = a)%N by lia.
have -> : (p + q - (q + a) = p - a)%N by lia.
rewrite subnn fact0 muln1 [(a + q)%N]addnC; set k := (p - a)%N.
rewrite [('C(q + a, q) * _)%N%:R]natrM [('C(q + a, q))%:R]binE ?leq_addr // [('C(r + k, r))%:R]binE ?leq_addr // [('C(p + q + r + 1, p))%:R]binE; last by lia.
have -> : (p + q + r + 1 - p = (q + r).+1)%N by lia.
rewrite !addKn factS addn1 !natrM.
have s1 : ((-1) ^+ q : C) ^+ 2 = 1 by rewrite sqrr_sign.
have s2 : ((-1) ^+ (q + a) : C) ^+ 2 = 1 by rewrite sqrr_sign.
move: ((-1) ^+ q) ((-1) ^+ (q + a)) s1 s2 => s t; rewrite !expr2 => s1 s2.
move: (fact_neq0 C r) (fact_neq0 C q) (fact_neq0 C p) (fact_neq0 C (q + r)) (fact_neq0 C a) (fact_neq0 C k)
  (fact_neq0 C (q + a)) (fact_neq0 C (r + k)) (fact_neq0 C (p + q + r + 1)).
have m0 : (q + r).+1%:R != 0 :> C by rewrite pnatr_eq0.
move: (r`!)%:R (q`!)%:R (p`!)%:R ((q + r)`!)%:R (a`!)%:R (k`!)%:R ((q + a)`!)%:R ((r + k)`!)%:R ((p + q + r + 1)`!)%:R ((q + r).+1%:R) m0
  => u1 u2 u3 u4 u5 u6 u7 u8 u9 m h0 h1 h2 h3 h4 h5 h6 h7 h8 h9.
transitivity ((s * s) * (t * t) * (m * (u1 * u2 * u3 * u4 / (u9 * u5 * u8 * u6 * u7)) * (1 / (u2 * u1) * (u8 * u7)) * (1 / (u2 * u1) * (u8 * u7)))).
  by mcf.
by rewrite s1 s2; mcf.
Qed.
Lemma cge_norm : \sum_(i < (p + r).+1) \sum_(j < (p + q).+1) cge i j (q + r) ^+ 2 = 1.
Proof.
rewrite (reindex_inj rev_ord_inj) /=.
pose g (a : nat) : C := if (a <= p)%N then cgc p q r (r + (p - a)) (q + a) (q + r) ^+ 2 else 0.
rewrite (eq_bigr (fun a : 'I_(p + r).+1 => g a)) => [|a _]; last first.
  rewrite /g /cge subSS; have ha := ltn_ord a; case: leqP => hap.
    have hq : (q + a < (p + q).+1)%N by lia.
    rewrite (bigD1 (Ordinal hq)) //= big1 ?addr0 => [|j nj].
      have -> : (q + r + p == p + r - a + (q + a))%N by lia.
      by congr (cgc _ _ _ _ _ _ ^+ 2); lia.
    have /negbTE -> : (q + r + p)%N != (p + r - a + j)%N; last by rewrite expr0n.
    by apply: contra nj => /eqP e; apply/eqP/val_inj => /=; lia.
  rewrite big1 // => j _; have hj := ltn_ord j.
  by have /negbTE -> : (q + r + p)%N != (p + r - a + j)%N by [lia]; rewrite expr0n.
rewrite -(big_mkord xpredT g) (@big_cat_nat _ _ _ p.+1) //=; last by lia.
rewrite [X in _ + X]big_nat [X in _ + X]big1 ?addr0 => [|a /andP[h _]]; last by rewrite /g leqNgt h.
rewrite big_mkord (eq_bigr (fun a : 'I_p.+1 => ('C(q + a, q) * 'C(r + (p - a), r))%N%:R / ('C(p + q + r + 1, p))%:R)) => [|a _]; last first.
  have ha := ltn_ord a; rewrite /g -ltnS ha cgc_top //.
rewrite -big_distrl /= -natr_sum conv divff // pnatr_eq0 -lt0n bin_gt0; lia.
Qed.
End Rec.

(** * Matrices *)
(** The entries from the three spins. *)
Definition ce (n1 n2 n3 i j k : nat) : C :=
  cge ((n1 + n2 - n3)./2) ((n2 + n3 - n1)./2) ((n1 + n3 - n2)./2) i j k.
Lemma ceE p q r i j k : ce (p + r) (p + q) (q + r) i j k = cge p q r i j k.
Proof. by rewrite /ce; congr (cge _ _ _ i j k); lia. Qed.
Definition Bm (n1 n2 n3 : nat) : 'M[C]_(n1.+1 * n2.+1, n3.+1) :=
  \matrix_(x, k) ce n1 n2 n3 (mxtens_unindex x).1 (mxtens_unindex x).2 k.
(** The action on a tensor product. *)
Definition tact m n (A : 'M[C]_m) (B : 'M[C]_n) : 'M[C]_(m * n) := A *t 1%:M + 1%:M *t B.

Lemma sum_tens m n (F : 'I_(m * n) -> C) : \sum_x F x = \sum_(i < m) \sum_(j < n) F (mxtens_index (i, j)).
Proof.
rewrite (reindex (@mxtens_index m n)) /=; last by exists (@mxtens_unindex m n) => x _; rewrite ?mxtens_indexK ?mxtens_unindexK.
by rewrite pair_bigA /=; apply: eq_bigr => -[i j] _.
Qed.
Lemma tact_mul m n d (A : 'M[C]_m) (B : 'M[C]_n) (V : 'M[C]_(m * n, d)) i j k :
  (tact A B *m V) (mxtens_index (i, j)) k =
  \sum_i' A i i' * V (mxtens_index (i', j)) k + \sum_j' B j j' * V (mxtens_index (i, j')) k.
Proof.
rewrite mulmxDl mxE; congr (_ + _); rewrite mxE sum_tens.
  apply: eq_bigr => i' _; rewrite (bigD1 j) //= big1 ?addr0 => [|j' nj]; rewrite tensmxE mxE.
    by rewrite eqxx mulr1.
  by rewrite eq_sym (negbTE nj) mulr0 mul0r.
rewrite exchange_big; apply: eq_bigr => j' _; rewrite (bigD1 i) //= big1 ?addr0 => [|i' ni]; rewrite tensmxE mxE.
  by rewrite eqxx mul1r.
by rewrite eq_sym (negbTE ni) !mul0r.
Qed.

Lemma sumS1 j k (f : nat -> C) : (k <= j)%N ->
  \sum_(x < j.+1) (if (k == x.+1)%N then lad j x else 0) * f x = ladp j k * f k.-1.
Proof.
case: k => [|k] hk; first by rewrite mul0r big1 // => x _; rewrite mul0r.
have hk' : (k < j.+1)%N by lia.
rewrite (bigD1 (Ordinal hk')) //= big1 ?addr0 ?eqxx // => x nx.
rewrite eqSS; case: eqP => [e|]; rewrite ?mul0r //; by case/eqP: nx; apply: val_inj.
Qed.
Lemma sumS2 j k (f : nat -> C) : (k <= j)%N ->
  \sum_(x < j.+1) (if (x == k.+1 :> nat)%N then lad j k else 0) * f x = lad j k * f k.+1.
Proof.
rewrite leq_eqVlt => /orP[/eqP->|hk].
  by rewrite lad_end mul0r big1 // => x _; case: ifP => _; rewrite mul0r.
rewrite (bigD1 (Ordinal (n := j.+1) (m := k.+1) hk)) //= big1 ?addr0 ?eqxx // => x nx.
by case: eqP => [e|]; rewrite ?mul0r //; case/eqP: nx; apply: val_inj.
Qed.
Lemma sumM j k (f : nat -> C) : (k <= j)%N ->
  \sum_(x < j.+1) (if (x == k :> nat)%N then mval C j k else 0) * f x = mval C j k * f k.
Proof.
move=> hk; rewrite (bigD1 (Ordinal (n := j.+1) (m := k) hk)) //= big1 ?addr0 ?eqxx // => x nx.
by case: eqP => [e|]; rewrite ?mul0r //; case/eqP: nx; apply: val_inj.
Qed.
Lemma Bm_at n1 n2 n3 i j k : Bm n1 n2 n3 (mxtens_index (i, j)) k = ce n1 n2 n3 i j k.
Proof. by rewrite mxE mxtens_indexK. Qed.

Lemma Bm_up n1 n2 n3 : tri n1 n2 n3 -> Bm n1 n2 n3 *m (Sm C n3)^T = tact (Sm C n1)^T (Sm C n2)^T *m Bm n1 n2 n3.
Proof.
move/triP=> [p [q [r [-> -> ->]]]]; apply/matrixP=> x k; case: (mxtens_indexP x) => i j; rewrite tact_mul mxE.
have h1 : \sum_(k' < (q + r).+1) Bm (p + r) (p + q) (q + r) (mxtens_index (i, j)) k' * (Sm C (q + r))^T k' k
  = lad (q + r) k * cge p q r i j k.+1.
  rewrite -(@sumS2 _ _ (fun x => cge p q r i j x)); last by rewrite -ltnS.
  by apply: eq_bigr => k' _; rewrite Bm_at ceE !mxE mulrC.
have h2 : \sum_(i' < (p + r).+1) (Sm C (p + r))^T i i' * Bm (p + r) (p + q) (q + r) (mxtens_index (i', j)) k
  = ladp (p + r) i * cge p q r i.-1 j k.
  rewrite -(@sumS1 _ _ (fun x => cge p q r x j k)); last by rewrite -ltnS.
  by apply: eq_bigr => i' _; rewrite Bm_at ceE !mxE.
have h3 : \sum_(j' < (p + q).+1) (Sm C (p + q))^T j j' * Bm (p + r) (p + q) (q + r) (mxtens_index (i, j')) k
  = ladp (p + q) j * cge p q r i j.-1 k.
  rewrite -(@sumS1 _ _ (fun x => cge p q r i x k)); last by rewrite -ltnS.
  by apply: eq_bigr => j' _; rewrite Bm_at ceE !mxE.
by rewrite h1 h2 h3; apply: cge_up; rewrite -ltnS.
Qed.
Lemma Bm_dn n1 n2 n3 : tri n1 n2 n3 -> Bm n1 n2 n3 *m Sm C n3 = tact (Sm C n1) (Sm C n2) *m Bm n1 n2 n3.
Proof.
move/triP=> [p [q [r [-> -> ->]]]]; apply/matrixP=> x k; case: (mxtens_indexP x) => i j; rewrite tact_mul mxE.
have h1 : \sum_(k' < (q + r).+1) Bm (p + r) (p + q) (q + r) (mxtens_index (i, j)) k' * Sm C (q + r) k' k
  = ladp (q + r) k * cge p q r i j k.-1.
  rewrite -(@sumS1 _ _ (fun x => cge p q r i j x)); last by rewrite -ltnS.
  by apply: eq_bigr => k' _; rewrite Bm_at ceE !mxE mulrC.
have h2 : \sum_(i' < (p + r).+1) Sm C (p + r) i i' * Bm (p + r) (p + q) (q + r) (mxtens_index (i', j)) k
  = lad (p + r) i * cge p q r i.+1 j k.
  rewrite -(@sumS2 _ _ (fun x => cge p q r x j k)); last by rewrite -ltnS.
  by apply: eq_bigr => i' _; rewrite Bm_at ceE !mxE.
have h3 : \sum_(j' < (p + q).+1) Sm C (p + q) j j' * Bm (p + r) (p + q) (q + r) (mxtens_index (i, j')) k
  = lad (p + q) j * cge p q r i j.+1 k.
  rewrite -(@sumS2 _ _ (fun x => cge p q r i x k)); last by rewrite -ltnS.
  by apply: eq_bigr => j' _; rewrite Bm_at ceE !mxE.
by rewrite h1 h2 h3; apply: cge_down; rewrite -ltnS.
Qed.
Lemma Bm_M n1 n2 n3 : tri n1 n2 n3 -> Bm n1 n2 n3 *m Mm C n3 = tact (Mm C n1) (Mm C n2) *m Bm n1 n2 n3.
Proof.
move/triP=> [p [q [r [-> -> ->]]]]; apply/matrixP=> x k; case: (mxtens_indexP x) => i j; rewrite tact_mul mxE.
have h1 : \sum_(k' < (q + r).+1) Bm (p + r) (p + q) (q + r) (mxtens_index (i, j)) k' * Mm C (q + r) k' k
  = mval C (q + r) k * cge p q r i j k.
  rewrite -(@sumM _ _ (fun x => cge p q r i j x)); last by rewrite -ltnS.
  by apply: eq_bigr => k' _; rewrite Bm_at ceE !mxE mulrC eq_sym; case: eqP => // ->.
have h2 : \sum_(i' < (p + r).+1) Mm C (p + r) i i' * Bm (p + r) (p + q) (q + r) (mxtens_index (i', j)) k
  = mval C (p + r) i * cge p q r i j k.
  rewrite -(@sumM _ _ (fun x => cge p q r x j k)); last by rewrite -ltnS.
  by apply: eq_bigr => i' _; rewrite Bm_at ceE !mxE.
have h3 : \sum_(j' < (p + q).+1) Mm C (p + q) j j' * Bm (p + r) (p + q) (q + r) (mxtens_index (i, j')) k
  = mval C (p + q) j * cge p q r i j k.
  rewrite -(@sumM _ _ (fun x => cge p q r i x k)); last by rewrite -ltnS.
  by apply: eq_bigr => j' _; rewrite Bm_at ceE !mxE.
rewrite h1 h2 h3 /cge; case: eqP => [e|_]; last by rewrite !mulr0 addr0.
rewrite -mulrDl; congr (_ * _); rewrite /mval !natrD.
have -> : k%:R = i%:R + j%:R - p%:R :> C by rewrite -natrD -e natrD addrK.
have nz2 : (2%:R : C) != 0 by rewrite pnatr_eq0.
by mcf.
Qed.

(** ** Equivariance *)
Lemma tact_lin m n (c d : C) (A A' : 'M[C]_m) (B B' : 'M[C]_n) :
  tact (c *: A + d *: A') (c *: B + d *: B') = c *: tact A B + d *: tact A' B'.
Proof.
apply/matrixP=> x y; case: (mxtens_indexP x) => i j; case: (mxtens_indexP y) => i' j'.
rewrite /tact !mxE; mcring.
Qed.
Lemma tact_tr m n (A : 'M[C]_m) (B : 'M[C]_n) : (tact A B)^T = tact A^T B^T.
Proof. by rewrite /tact linearD /= !trmx_tens !trmx1. Qed.
Definition Xlin (a : nat) : C * C * C :=
  match a with
  | 0%N => (1 / 2%:R, - (1 / 2%:R), 0) | 1%N => (0, 0, 'i) | _ => (1 / 2%:R * 'i, 1 / 2%:R * 'i, 0)
  end.
Lemma XmE j a : Xm C j a = (Xlin a).1.1 *: Sm C j + (Xlin a).1.2 *: (Sm C j)^T + (Xlin a).2 *: Mm C j.
Proof.
case: a => [|[|a]] /=; rewrite ?scale0r ?addr0 ?add0r //.
  by rewrite scaleNr -scalerBr.
by rewrite -scalerDr.
Qed.
Lemma Bm_X n1 n2 n3 a : tri n1 n2 n3 ->
  Bm n1 n2 n3 *m (Xm C n3 a)^T = tact (Xm C n1 a)^T (Xm C n2 a)^T *m Bm n1 n2 n3.
Proof.
move=> h; have tl j : (Xm C j a)^T = (Xlin a).1.1 *: (Sm C j)^T + (Xlin a).1.2 *: Sm C j + (Xlin a).2 *: Mm C j.
  by rewrite XmE !linearD /= !linearZ /= trmxK Mm_tr.
rewrite !tl; move: (Xlin a) => [[u v] w] /=.
have e : tact (u *: (Sm C n1)^T + v *: Sm C n1 + w *: Mm C n1) (u *: (Sm C n2)^T + v *: Sm C n2 + w *: Mm C n2)
  = u *: tact (Sm C n1)^T (Sm C n2)^T + v *: tact (Sm C n1) (Sm C n2) + w *: tact (Mm C n1) (Mm C n2).
  rewrite -tact_lin -[X in X + w *: tact _ _]scale1r -tact_lin.
  by rewrite !scale1r.
rewrite e !mulmxDr !mulmxDl -!scalemxAr -!scalemxAl; congr (_ *: _ + _ *: _ + _ *: _).
- exact: Bm_up.
- exact: Bm_dn.
- exact: Bm_M.
Qed.

(** ** Maps commuting with the ladder operators *)
Lemma lad_neq0 n k : (k < n)%N -> lad n k != 0.
Proof. by move=> h; rewrite sqrtC_eq0 pnatr_eq0 muln_eq0 negb_or /= subn_eq0 -ltnNge. Qed.
Lemma intertwine_weight n m (G : 'M[C]_(n.+1, m.+1)) : Mm C n *m G = G *m Mm C m ->
  forall (i : 'I_n.+1) (j : 'I_m.+1), (2 * i + m != 2 * j + n)%N -> G i j = 0.
Proof.
move=> h i j ne; move/matrixP/(_ i j): h; rewrite !mxE.
rewrite (bigD1 i) //= big1 ?addr0 => [|x nx]; last by rewrite !mxE [(x == i :> nat)](negbTE nx) mul0r.
rewrite (bigD1 j) //= big1 ?addr0 => [|x nx]; last by rewrite !mxE eq_sym [(x == j :> nat)](negbTE nx) mulr0.
rewrite !mxE !eqxx mulrC => /eqP; rewrite -subr_eq0 -mulrBr mulf_eq0 => /orP[/eqP//|].
rewrite subr_eq0 /mval => /eqP e; case/eqP: ne; apply/eqP; rewrite -(eqr_nat C) (natrD _ (2 * i)) (natrD _ (2 * j)) !natrM.
have nz2 : (2%:R : C) != 0 by rewrite pnatr_eq0.
apply/eqP; transitivity (2%:R * (- (n%:R / 2%:R) + i%:R) + n%:R + m%:R : C); first by mcf.
by rewrite e; mcf.
Qed.
Lemma intertwine_St n m (G : 'M[C]_(n.+1, m.+1)) : (Sm C n)^T *m G = G *m (Sm C m)^T ->
  forall (i : 'I_n) (j : 'I_m.+1), lad n i * G (widen_ord (leqnSn n) i) j =
    if insub j.+1 is Some j' then lad m j * G (lift ord0 i) j' else 0.
Proof.
move=> h i j; move/matrixP/(_ (lift ord0 i) j): h; rewrite !mxE => h.
transitivity (\sum_j0 (Sm C n)^T (lift ord0 i) j0 * G j0 j).
  rewrite (bigD1 (widen_ord (leqnSn n) i)) //= big1 ?addr0 => [|x nx]; rewrite !mxE /= /bump /= add1n ?eqxx //.
  rewrite eqSS; case: eqP => [e|]; last by rewrite mul0r.
  by case/eqP: nx; apply: val_inj.
rewrite {}h; case: insubP => [j' _ ej'|].
  rewrite (bigD1 j') //= big1 ?addr0 => [|x nx]; rewrite !mxE ?ej' ?eqxx // 1?mulrC //.
  case: eqP => [e|]; last by rewrite mul0r.
  by case/eqP: nx; apply: val_inj; rewrite /= e ej'.
rewrite ltnS -leqNgt => hj; rewrite big1 // => x _; rewrite !mxE; case: eqP => [e|]; last by rewrite mulr0.
by have := ltn_ord x; lia.
Qed.
Lemma intertwine0 n m (G : 'M[C]_(n.+1, m.+1)) : (m < n)%N -> Mm C n *m G = G *m Mm C m ->
  (Sm C n)^T *m G = G *m (Sm C m)^T -> G = 0.
Proof.
move=> mn hM hS; have hw := intertwine_weight hM; have hs := intertwine_St hS.
have key t : forall (i : 'I_n.+1) (j : 'I_m.+1), (m - j <= t)%N -> G i j = 0.
  elim: t => [|t IH] i j hj; have hij := ltn_ord j; have hi := ltn_ord i.
    case: (eqVneq (2 * i + m)%N (2 * j + n)%N) => [e|]; last exact: hw.
    have lin : (i < n)%N by lia.
    have := hs (Ordinal lin) j; case: insubP => [j' h|_]; first by rewrite ltnS in h; lia.
    have -> : widen_ord (leqnSn n) (Ordinal lin) = i by apply: val_inj.
    by move/eqP; rewrite mulf_eq0 (negbTE (lad_neq0 lin)) => /eqP.
  case: (eqVneq (2 * i + m)%N (2 * j + n)%N) => [e|]; last exact: hw.
  have lin : (i < n)%N by lia.
  have := hs (Ordinal lin) j; have -> : widen_ord (leqnSn n) (Ordinal lin) = i by apply: val_inj.
  case: insubP => [j' _ ej|_].
    have -> : G (lift ord0 (Ordinal lin)) j' = 0 by apply: IH; rewrite ej; lia.
    by rewrite mulr0 => /eqP; rewrite mulf_eq0 (negbTE (lad_neq0 lin)) => /eqP.
  by move/eqP; rewrite mulf_eq0 (negbTE (lad_neq0 lin)) => /eqP.
by apply/matrixP=> i j; rewrite mxE; apply: (key m); lia.
Qed.
Lemma intertwine1 n (G : 'M[C]_n.+1) : Mm C n *m G = G *m Mm C n ->
  (Sm C n)^T *m G = G *m (Sm C n)^T -> G = (G ord_max ord_max)%:M.
Proof.
move=> hM hS; have hw := intertwine_weight hM; have hs := intertwine_St hS.
have key t : forall i : 'I_n.+1, (n - i <= t)%N -> G i i = G ord_max ord_max.
  elim: t => [|t IH] i hj; have hi := ltn_ord i.
    by have -> : i = ord_max by apply: val_inj => /=; lia.
  case: (ltnP i n) => lin; last by have -> : i = ord_max by apply: val_inj => /=; lia.
  have := hs (Ordinal lin) i; have -> : widen_ord (leqnSn n) (Ordinal lin) = i by apply: val_inj.
  case: insubP => [j' _ ej|]; last by rewrite ltnS lin.
  have -> : lift ord0 (Ordinal lin) = j' by apply: val_inj; rewrite ej.
  have -> : G j' j' = G ord_max ord_max by apply: IH; rewrite ej; lia.
  by move/(mulfI (lad_neq0 lin)).
apply/matrixP=> i j; rewrite mxE; case: eqP => [<-|ne]; first by rewrite mulr1n (key n) //; lia.
by rewrite mulr0n hw //; apply/eqP=> e; apply: ne; apply: val_inj => /=; lia.
Qed.

(** ** Orthonormality *)
Lemma Bm_gram n1 n2 n3 n3' : tri n1 n2 n3 -> tri n1 n2 n3' ->
  let G := (Bm n1 n2 n3)^T *m Bm n1 n2 n3' in
  [/\ Mm C n3 *m G = G *m Mm C n3', (Sm C n3)^T *m G = G *m (Sm C n3')^T & Sm C n3 *m G = G *m Sm C n3'].
Proof.
move=> h h' G; rewrite /G; split.
- by rewrite -mulmxA Bm_M // !mulmxA; congr (_ *m _); rewrite -{1}[Mm C n3]Mm_tr -trmx_mul Bm_M // trmx_mul tact_tr !Mm_tr.
- by rewrite -mulmxA Bm_up // !mulmxA; congr (_ *m _); rewrite -trmx_mul Bm_dn // trmx_mul tact_tr.
- by rewrite -mulmxA Bm_dn // !mulmxA; congr (_ *m _); rewrite -{1}[Sm C n3]trmxK -trmx_mul Bm_up // trmx_mul tact_tr !trmxK.
Qed.
Lemma Bm_orth n1 n2 n3 n3' : tri n1 n2 n3 -> tri n1 n2 n3' -> n3 != n3' -> (Bm n1 n2 n3)^T *m Bm n1 n2 n3' = 0.
Proof.
move=> h h'; rewrite neq_ltn => /orP[lt|lt]; last by have [a b _] := Bm_gram h h'; apply: intertwine0.
have [a b _] := Bm_gram h' h; have := intertwine0 lt a b; rewrite -[X in X^T *m _]/(Bm n1 n2 n3') => /(congr1 trmx).
by rewrite trmx_mul trmxK trmx0.
Qed.
Lemma Bm_norm n1 n2 n3 : tri n1 n2 n3 -> (Bm n1 n2 n3)^T *m Bm n1 n2 n3 = 1%:M.
Proof.
move=> h; have [a b _] := Bm_gram h h; rewrite (intertwine1 a b); congr (_%:M).
move/triP: h => [p [q [r [e1 e2 e3]]]]; rewrite {a b} e1 e2 e3 !mxE sum_tens -[RHS](cge_norm p q r).
by apply: eq_bigr => i _; apply: eq_bigr => j _; rewrite !mxE mxtens_indexK /= ceE expr2.
Qed.
End Su2CgEq.
