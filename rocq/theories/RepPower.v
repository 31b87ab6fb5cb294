(** RepPower: trivial representations and tensor powers (C25, C30). *)
From Coq Require Import ZArith String Ascii.
From mathcomp Require Import all_ssreflect all_algebra.
From mathcomp.real_closed Require Import mxtens.
From mathcomp Require Import zify.
From Verif Require Import Base McRing Nd NdProofs Reps RepSpec RepProofs.

Set Implicit Arguments.
Unset Strict Implicit.
Unset Printing Implicit Defensive.

Import GRing.Theory Num.Theory.
Local Open Scope ring_scope.

(** Digit t (t = 0 is the most significant) of p written with n digits in base d. *)
Definition digit (d n t p : nat) : nat := ((p %/ d ^ (n - t.+1)) %% d)%N.

Lemma digit_hi d m n t p : (t < m)%N -> (0 < d)%N -> digit d (m + n) t p = digit d m t (p %/ d ^ n).
Proof.
move=> lt d0; rewrite /digit -divnMA -expnD; congr ((_ %/ d ^ _) %% _)%N; lia.
Qed.
Lemma digit_lo d m n t p : (t < n)%N -> (0 < d)%N -> digit d (m + n) (m + t) p = digit d n t (p %% d ^ n).
Proof.
move=> lt d0; rewrite /digit.
have -> : (m + n - (m + t).+1 = n - t.+1)%N by lia.
set k := (n - t.+1)%N.
have e : (d ^ n = d ^ t * (d * d ^ k))%N by rewrite -expnS -expnD; congr (d ^ _)%N; rewrite /k; lia.
have {1}-> : (p = (p %/ d ^ n * d ^ t * d) * d ^ k + p %% d ^ n)%N by rewrite {1}(divn_eq p (d ^ n)) {2}e; lia.
by rewrite divnMDl ?expn_gt0 ?d0 // modnMDl.
Qed.

(** Numbers below d^n are determined by their digits. *)
Lemma digits_inj d n p q : (0 < d)%N -> (p < d ^ n)%N -> (q < d ^ n)%N ->
  (forall t, (t < n)%N -> digit d n t p = digit d n t q) -> p = q.
Proof.
move=> d0; elim: n p q => [|n IH] p q; first by rewrite expn0 !ltnS !leqn0 => /eqP-> /eqP->.
move=> hp hq h.
have e : (p %/ d ^ n = q %/ d ^ n)%N.
  have := h 0%N erefl; rewrite /digit subSS subn0 !modn_small //; rewrite ltn_divLR ?expn_gt0 ?d0 // -expnS //.
rewrite (divn_eq p (d ^ n)) (divn_eq q (d ^ n)) e; congr (_ + _)%N.
apply: IH; rewrite ?ltn_mod ?expn_gt0 ?d0 // => t lt.
by rewrite -!(@digit_lo d 1) // h.
Qed.

Section Power.
Variable C : numClosedFieldType.

Lemma prod_digits d n p q : (0 < d)%N -> (p < d ^ n)%N -> (q < d ^ n)%N ->
  \prod_(t < n) ((digit d n t p == digit d n t q)%:R : C) = (p == q)%:R.
Proof.
move=> d0 hp hq; case: (p =P q) => [->|ne].
  by rewrite big1 // => t _; rewrite eqxx.
have /existsP[t ht] : [exists t : 'I_n, digit d n t p != digit d n t q].
  rewrite -negb_forall; apply/negP => /forallP h; apply: ne.
  by apply: (digits_inj d0 hp hq) => t lt; apply/eqP; exact: (h (Ordinal lt)).
by rewrite (bigD1 t) //= (negbTE ht) mul0r.
Qed.

(** The entries of the n-fold tensor power. *)
Definition powX (d n : nat) (X : nd C) (x p q : nat) : C :=
  \sum_(s < n) \prod_(t < n)
    (if t == s then get X [:: x; digit d n t p; digit d n t q]
     else (digit d n t p == digit d n t q)%:R).
Definition powH (d n : nat) (H : nd C) (x p q : nat) : C :=
  \prod_(t < n) get H [:: x; digit d n t p; digit d n t q].

Lemma powX_add d m n X x p q : (0 < d)%N -> (p < d ^ m * d ^ n)%N -> (q < d ^ m * d ^ n)%N ->
  powX d (m + n) X x p q =
  powX d m X x (p %/ d ^ n)%N (q %/ d ^ n)%N * ((p %% d ^ n == q %% d ^ n)%N)%:R
  + ((p %/ d ^ n == q %/ d ^ n)%N)%:R * powX d n X x (p %% d ^ n)%N (q %% d ^ n)%N.
Proof.
move=> d0 hp hq; have dn0 : (0 < d ^ n)%N by rewrite expn_gt0 d0.
rewrite /powX big_split_ord /=; congr (_ + _).
- rewrite mulr_suml; apply: eq_bigr => s _; rewrite big_split_ord /=; congr (_ * _).
    by apply: eq_bigr => t _; rewrite !digit_hi.
  rewrite -(prod_digits d0 (ltn_pmod p dn0) (ltn_pmod q dn0)).
  apply: eq_bigr => t _; rewrite !digit_lo // ifF //.
  by apply/negbTE; rewrite -val_eqE /=; have := ltn_ord s; lia.
- rewrite mulr_sumr; apply: eq_bigr => s _; rewrite big_split_ord /=; congr (_ * _).
    have h1 : (p %/ d ^ n < d ^ m)%N by rewrite ltn_divLR.
    have h2 : (q %/ d ^ n < d ^ m)%N by rewrite ltn_divLR.
    rewrite -(prod_digits d0 h1 h2); apply: eq_bigr => t _; rewrite !digit_hi // ifF //.
    by apply/negbTE; rewrite -val_eqE /=; have := ltn_ord t; lia.
  apply: eq_bigr => t _; rewrite !digit_lo //.
  by rewrite -val_eqE /= eqn_add2l val_eqE.
Qed.
Lemma powH_add d m n H x p q : (0 < d)%N ->
  powH d (m + n) H x p q =
  powH d m H x (p %/ d ^ n)%N (q %/ d ^ n)%N * powH d n H x (p %% d ^ n)%N (q %% d ^ n)%N.
Proof.
move=> d0; rewrite /powH big_split_ord /=; congr (_ * _); apply: eq_bigr => t _.
  by rewrite !digit_hi.
by rewrite !digit_lo.
Qed.

(** p is the n-th tensor power of r. *)
Definition is_power (T : theory C) (d : nat) (r : rep C) (n : nat) (p : rep C) : Prop :=
  [/\ is_rep T (d ^ n) p, rA p = rA r,
   forall x i j, (x < th_l T)%N -> (i < d ^ n)%N -> (j < d ^ n)%N -> get (rX p) [:: x; i; j] = powX d n (rX r) x i j
 & forall x i j, (x < th_h T)%N -> (i < d ^ n)%N -> (j < d ^ n)%N -> get (rH p) [:: x; i; j] = powH d n (rH r) x i j].

Lemma entry3 r c (a : nd C) k i j (hi : (i < r)%N) (hj : (j < c)%N) : get a [:: k; i; j] = mx3 r c a k (Ordinal hi) (Ordinal hj).
Proof. by rewrite mxE. Qed.

Lemma power_tens T d r m n p q : is_rep T d r -> (0 < d)%N -> is_power T d r m p -> is_power T d r n q ->
  exists u, tensor_product p q = Ok u /\ is_power T d r (m + n) u.
Proof.
move=> hr d0 [p1 p2 p3 p4] [q1 q2 q3 q4].
have [u [e [u1 [u2 [u3 u4]]]]] := tensor_product_ok p1 q1.
have dn0 : (0 < d ^ n)%N by rewrite expn_gt0 d0.
exists u; split=> //; split; [by rewrite expnD|by rewrite u2| |].
- move=> x i j hx; rewrite expnD => hi hj; rewrite (entry3 _ _ hi hj) u3 // powX_add // /tensX.
  rewrite !mxE /= p3 ?q3 ?ltn_divLR ?ltn_mod //.
- move=> x i j hx; rewrite expnD => hi hj; rewrite (entry3 _ _ hi hj) u4 // powH_add //.
  by rewrite !mxE /= p4 ?q4 ?ltn_divLR ?ltn_mod.
Qed.

Lemma power1 T d r : is_rep T d r -> is_power T d r 1 r.
Proof.
move=> hr; split=> //.
- move=> x i j hx; rewrite expn1 => hi hj; rewrite /powX !big_ord1 eqxx /digit subnn expn0 !divn1 !modn_small //.
- by move=> x i j hx; rewrite expn1 => hi hj; rewrite /powH !big_ord1 /digit subnn expn0 !divn1 !modn_small.
Qed.

Lemma create_trivial_ok T d r : @is_rep C T d r ->
  exists t, create_trivial r = Ok t /\ is_rep T 1 t /\ rA t = rA r /\
  (forall i, mx3 1 1 (rX t) i = 0) /\ (forall b, mx3 1 1 (rH t) b = 1%:M).
Proof.
move=> h; rewrite /create_trivial /lie_dim /len0 (ir_sA h) /= eqxx /= (ir_sH h) /=.
have eX i : mx3 1 1 (zeros [:: th_l T; 1; 1]%N) i = 0 :> 'M[C]_1 by apply/matrixP=> j k; rewrite !mxE.
have eH i : mx3 1 1 (ones [:: th_h T; 1; 1]%N) i = 1%:M :> 'M[C]_1 by apply/matrixP=> j k; rewrite !mxE /= !ord1 eqxx.
eexists; split; first by []; split; last by [].
split=> //=; [exact: ir_sA h|exact: ir_A h|].
have ew w : word (mx3 1 1 (ones [:: th_h T; 1; 1]%N)) w = 1%:M :> 'M[C]_1.
  by elim: w => [//|b w IH] /=; rewrite IH eH mulmx1.
split.
- by move=> i j _ _; rewrite !eX mul0mx subrr big1 // => k _; rewrite eX scaler0.
- by move=> u v _ _; rewrite !ew.
- by move=> c _ b i _ _; rewrite eX mulmx0 big1 ?mul0mx // => j _; rewrite eX scaler0.
Qed.

Lemma power0 T d r t : @is_rep C T d r -> create_trivial r = Ok t -> is_power T d r 0 t.
Proof.
move=> h e; have [t' [e' [h1 [h2 [h3 h4]]]]] := create_trivial_ok h.
move: e'; rewrite e => -[e']; rewrite -e' in h1 h2 h3 h4; split=> //.
- move=> x i j hx hi hj; rewrite (entry3 _ _ hi hj) /powX big_ord0.
  by rewrite (h3 x : mx3 (d ^ 0) (d ^ 0) _ x = 0) mxE.
- move=> x i j hx hi hj; rewrite (entry3 _ _ hi hj) /powH big_ord0.
  rewrite (h4 x : mx3 (d ^ 0) (d ^ 0) _ x = 1%:M) mxE.
  by rewrite -val_eqE /=; move: hi hj; rewrite expn0 !ltnS !leqn0 => /eqP-> /eqP->.
Qed.

Lemma tensor_power_loop_ok T d r0 : @is_rep C T d r0 -> (0 < d)%N ->
  forall fuel r n result m k, Z.le Z0 n -> (Z.to_nat n < fuel)%nat ->
  is_power T d r0 m r -> is_power T d r0 k result ->
  exists u, tensor_power_loop fuel r n result = Ok u /\ is_power T d r0 (k + m * Z.to_nat n) u.
Proof.
move=> h0 d0; elim=> [|f IH] r n result m k n0 lt hr hres; first lia.
rewrite /=.
have M1 : Z.land n 1 = Z.modulo n 2 by rewrite -(Z.land_ones n 1).
have E : n = Z.add (Z.mul 2 (Z.shiftr n 1)) (Z.land n 1).
  by rewrite M1 Z.shiftr_div_pow2 //; exact: (Z.div_mod n 2).
have B : Z.land n 1 = Z0 \/ Z.land n 1 = Zpos xH.
  by have := Z.mod_pos_bound n 2 ltac:(lia); rewrite M1; lia.
have S0 : Z.le Z0 (Z.shiftr n 1) by apply/Z.shiftr_nonneg.
set b := Z.land n 1 in E B *; set n' := Z.shiftr n 1 in E S0 *.
have [res' [e1 h1]] : exists res', (if Z.eqb b (Zpos xH) then tensor_product r result else Ok result) = Ok res'
    /\ is_power T d r0 (k + m * Z.to_nat b) res'.
  case: B => ->; first by exists result; split=> //; rewrite muln0 addn0.
  have [u [e hu]] := power_tens h0 d0 hr hres.
  by exists u; split=> //; rewrite /= muln1 addnC.
rewrite e1 /=; case: Z.eqb_spec => [z|nz].
  exists res'; split=> //; have -> : Z.to_nat n = Z.to_nat b by rewrite E z; lia.
  exact: h1.
have [r2 [e2 h2]] := power_tens h0 d0 hr hr; rewrite e2 /=.
have lt' : (Z.to_nat n' < f)%nat by lia.
have [u [eu hu]] := IH r2 n' res' _ _ S0 lt' h2 h1.
exists u; split=> //.
have -> : (k + m * Z.to_nat n = k + m * Z.to_nat b + (m + m) * Z.to_nat n')%N.
  by have -> : Z.to_nat n = (2 * Z.to_nat n' + Z.to_nat b)%N; [lia|nia].
exact: hu.
Qed.

Theorem tensor_power_ok T d (r : rep C) n fuel : is_rep T d r -> (0 < d)%N -> Z.le Z0 n -> (Z.to_nat n < fuel)%nat ->
  exists u, tensor_power fuel r n = Ok u /\ is_power T d r (Z.to_nat n) u.
Proof.
move=> h d0 n0 lt; have [t [et _]] := create_trivial_ok h; rewrite /tensor_power et /=.
have [u [e hu]] := tensor_power_loop_ok h d0 n0 lt (power1 h) (power0 h et).
by exists u; split=> //; move: hu; rewrite mul1n.
Qed.

(** Negative exponents: n >> 1 stays negative, the loop never ends. *)
Theorem tensor_power_negative T d (r : rep C) n fuel : is_rep T d r -> (0 < d)%N -> Z.lt n Z0 ->
  tensor_power fuel r n = Err OutOfFuel.
Proof.
move=> h d0 n0; have [t [et _]] := create_trivial_ok h; rewrite /tensor_power et /=.
suff G : forall f res r1 k m n, Z.lt n Z0 -> is_power T d r k res -> is_power T d r m r1 ->
    tensor_power_loop f r1 n res = Err OutOfFuel.
  exact: (G _ _ _ _ _ _ n0 (power0 h et) (power1 h)).
move=> {n n0}; elim=> [//|f IH] res r1 k m n n0 hres hr /=.
have S0 : Z.lt (Z.shiftr n 1) Z0 by apply/Z.shiftr_neg.
have [r2 [e2 h2]] := power_tens h d0 hr hr.
have [res' [k' [e1 h1]]] : exists res' k', (if Z.eqb (Z.land n 1) 1 then tensor_product r1 res else Ok res) = Ok res'
    /\ is_power T d r k' res'.
  case: Z.eqb; last by exists res, k.
  by have [u [e hu]] := power_tens h d0 hr hres; exists u, (m + k)%N.
rewrite e1 /=; case: Z.eqb_spec => [z|nz]; first lia.
by rewrite e2 /=; exact: (IH _ _ k' (m + m)%N).
Qed.
End Power.
