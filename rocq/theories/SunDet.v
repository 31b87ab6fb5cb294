(** SunDet: determinants of polynomials with strictly increasing degrees, the sum of a
    product over a box, and the branching identity of the Weyl product. *)
From mathcomp Require Import all_ssreflect all_algebra.
From mathcomp.zify Require Import zify.

Set Implicit Arguments.
Unset Strict Implicit.
Unset Printing Implicit Defensive.

Import GRing.Theory Num.Theory.
Local Open Scope ring_scope.

Section Newton.
Variable F : fieldType.
Variable u : nat -> F.

Definition newt (k : nat) : {poly F} := \prod_(l < k) ('X - (u l)%:P).
Lemma newt_monic k : newt k \is monic.
Proof. exact: monic_prod_XsubC. Qed.
Lemma size_newt k : size (newt k) = k.+1.
Proof. by rewrite /newt size_prod_XsubC -[index_enum _]enumT size_enum_ord. Qed.
Lemma newt_coef k : (newt k)`_k = 1.
Proof. by have /monicP := newt_monic k; rewrite lead_coefE size_newt. Qed.
Lemma newt_eval k x : (newt k).[x] = \prod_(l < k) (x - u l).
Proof. by rewrite horner_prod; apply: eq_bigr => l _; rewrite hornerXsubC. Qed.
Lemma newt_eval0 k i : (i < k)%N -> (newt k).[u i] = 0.
Proof. by move=> h; rewrite newt_eval (bigD1 (Ordinal h)) //= subrr mul0r. Qed.

Lemma newt_expand j (p : {poly F}) : (size p <= j.+1)%N ->
  exists c : nat -> F, [/\ p = \sum_(k < j.+1) c k *: newt k, c j = p`_j & forall k, (j < k)%N -> c k = 0].
Proof.
elim: j p => [|j IH] p hp.
  exists (fun k => if k == 0%N then p`_0 else 0); split=> //; last by case.
  by rewrite big_ord1 /= /newt big_ord0 alg_polyC; apply: size1_polyC.
have [|c [e _ c0]] := IH (p - p`_j.+1 *: newt j.+1).
  apply/leq_sizeP => i; rewrite leq_eqVlt coefB coefZ => /orP[/eqP<-|hi].
    by rewrite newt_coef mulr1 subrr.
  by rewrite [p`_i]nth_default ?(leq_trans hp) // [(newt _)`_i]nth_default ?size_newt // mulr0 subr0.
exists (fun k => if k == j.+1 then p`_j.+1 else c k); split=> [||k hk]; rewrite ?eqxx //.
- rewrite big_ord_recr /= eqxx; apply/eqP; rewrite -subr_eq {1}e; apply/eqP.
  by apply: eq_bigr => k _ /=; rewrite ltn_eqF.
- by rewrite gtn_eqF // c0 // ltnW.
Qed.

Lemma det_poly n (p : nat -> {poly F}) : (forall j, (size (p j) <= j.+1)%N) ->
  \det (\matrix_(i < n, j < n) (p j).[u i]) = (\prod_(i < n) \prod_(l < i) (u i - u l)) * \prod_(j < n) (p j)`_j.
Proof.
move=> hp; have /fin_all_exists[c hc] : forall j : 'I_n, exists c : nat -> F,
    [/\ p j = \sum_(k < j.+1) c k *: newt k, c j = (p j)`_j & forall k, (j < k)%N -> c k = 0].
  by move=> j; apply: newt_expand.
have -> : \matrix_(i < n, j < n) (p j).[u i] =
    (\matrix_(i < n, k < n) (newt k).[u i]) *m (\matrix_(k < n, j < n) c j k).
  apply/matrixP => i j; rewrite !mxE; have [e _ c0] := hc j; rewrite e horner_sum.
  rewrite (big_ord_widen n (fun k => (c j k *: newt k).[u i])) // [RHS](bigID (fun k : 'I_n => (k < j.+1)%N)) /=.
  rewrite [X in _ = _ + X]big1 ?addr0 => [|k]; last by rewrite -leqNgt => /c0 h; rewrite !mxE h mulr0.
  by apply: eq_bigr => k _; rewrite !mxE hornerZ mulrC.
rewrite det_mulmx det_trig; last by apply/is_trig_mxP => i k h; rewrite mxE newt_eval0.
rewrite -[\det (\matrix_(k, j) _)]det_tr det_trig; last first.
  by apply/is_trig_mxP => j k h; rewrite !mxE; have [_ _ ->] := hc j.
congr (_ * _); apply: eq_bigr => i _; rewrite !mxE ?newt_eval //.
by have [_ -> _] := hc i.
Qed.
End Newton.

(** Binomial polynomials. *)
Section Binom.
Variable F : numFieldType.
Definition binp (j : nat) : {poly F} := (j`!%:R)^-1 *: newt (fun k => k%:R) j.
Definition bin_ (j : nat) (x : F) : F := (binp j).[x].
Lemma binE j x : bin_ j x = (j`!%:R)^-1 * \prod_(l < j) (x - l%:R).
Proof. by rewrite /bin_ hornerZ newt_eval. Qed.
Lemma size_binp j : (size (binp j) <= j.+1)%N.
Proof. by rewrite (leq_trans (size_scale_leq _ _)) // size_newt. Qed.
Lemma binp_coef j : (binp j)`_j = (j`!%:R)^-1.
Proof. by rewrite coefZ newt_coef mulr1. Qed.
Lemma bin0_ x : bin_ 0 x = 1.
Proof. by rewrite binE big_ord0 fact0 invr1 mulr1. Qed.
Lemma bin_diff j x : bin_ j.+1 (x + 1) - bin_ j.+1 x = bin_ j x.
Proof.
rewrite !binE big_ord_recl big_ord_recr /= -mulrBr.
have -> : \prod_(i < j) (x + 1 - (bump 0 i)%:R) = \prod_(l < j) (x - l%:R).
  by apply: eq_bigr => i _; rewrite /bump /= add1n -addn1 natrD; rewrite opprD [- _ - 1]addrC addrA addrK.
rewrite [X in X - _]mulrC -mulrBr subr0.
have -> : x + 1 - (x - j%:R) = j.+1%:R :> F by rewrite opprB addrC addrA subrK -addn1 natrD.
by rewrite factS natrM invfM [_^-1 / _]mulrC -!mulrA [_ * j.+1%:R]mulrC mulKf // pnatr_eq0.
Qed.
Lemma bin_sum j (x : F) m : \sum_(k < m) bin_ j (x + k%:R) = bin_ j.+1 (x + m%:R) - bin_ j.+1 x.
Proof.
elim: m => [|m IH]; first by rewrite big_ord0 addr0 subrr.
rewrite big_ord_recr /= IH -(bin_diff j) [RHS](_ : _ = bin_ j.+1 (x + m%:R + 1) - bin_ j.+1 x).
  by rewrite addrC addrA subrK.
by rewrite -addrA -[m.+1]addn1 natrD.
Qed.

Definition vdm n (u : nat -> F) : F := \det (\matrix_(i < n, j < n) bin_ j (u i)).
Lemma vdmE n u : vdm n u = \prod_(i < n) \prod_(l < i) ((u i - u l) / (i%:R - l%:R)).
Proof.
rewrite /vdm det_poly; last exact: size_binp.
rewrite -big_split /=; apply: eq_bigr => i _; rewrite binp_coef big_split /=; congr (_ * _).
rewrite prodfV; congr (_^-1); case: i => i /= _; elim: i => [|i IH]; first by rewrite big_ord0 fact0.
rewrite big_ord_recl /= subr0 factS natrM IH; congr (_ * _); apply: eq_bigr => k _ /=.
by rewrite /bump /= add1n !mulrS opprD addrACA subrr add0r.
Qed.

Lemma vdm_diff n u : vdm n.+1 u = \det (\matrix_(i < n, j < n) (bin_ j.+1 (u i.+1) - bin_ j.+1 (u i))).
Proof.
pose L : 'M[F]_n.+1 := \matrix_(i, j) ((i == j)%:R - (i == j.+1 :> nat)%:R).
pose A : 'M[F]_n.+1 := \matrix_(i, j) bin_ j (u i).
have dL : \det L = 1.
  rewrite det_trig ?big1 // => [i _|]; first by rewrite mxE eqxx ltn_eqF // subr0.
  apply/is_trig_mxP => i j h; rewrite mxE [i == j](ltn_eqF h) ltn_eqF ?subr0 // ltnW // ltnS; exact: ltnW.
have LA i j : (L *m A) i j = bin_ j (u i) - (if (i : nat) is i'.+1 then bin_ j (u i') else 0).
  rewrite mxE; under eq_bigr do rewrite !mxE mulrBl; rewrite sumrB; congr (_ - _).
    rewrite (bigD1 i) //= eqxx mul1r big1 ?addr0 // => k; rewrite eq_sym => /negbTE ->; exact: mul0r.
  case: i => [[|i] hi] /=; first by rewrite big1 // => k _; rewrite mul0r.
  rewrite (bigD1 (Ordinal (ltnW hi))) //= eqxx mul1r big1 ?addr0 // => k hk.
  by rewrite eqSS eq_sym -[i]/(nat_of_ord (Ordinal (ltnW hi))) (inj_eq val_inj) (negbTE hk) mul0r.
have -> : vdm n.+1 u = \det (L *m A) by rewrite det_mulmx dL mul1r.
rewrite (expand_det_col _ ord0) (bigD1 ord0) //= big1 ?addr0 => [|i i0]; last first.
  by case: i i0 => [[|i] hi] // _; rewrite LA /= !bin0_ subrr mul0r.
rewrite LA /= bin0_ subr0 mul1r /cofactor addn0 expr0 mul1r; congr (\det _); apply/matrixP => i j.
by rewrite [LHS]mxE [LHS]mxE LA [RHS]mxE /=.
Qed.
End Binom.
