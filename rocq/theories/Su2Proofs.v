(** Su2Proofs: the generators of SU2 satisfy su(2) and are anti-Hermitian. *)
From Coq Require Import ZArith.
From mathcomp Require Import all_ssreflect all_algebra.
From mathcomp Require Import zify.
From Verif Require Import Base McRing Nd NdProofs Reps RepSpec RepOps Reduced ReducedProofs Su2.

Set Implicit Arguments.
Unset Strict Implicit.
Unset Printing Implicit Defensive.

Import Order.POrderTheory GRing.Theory Num.Theory.
Local Open Scope ring_scope.

Section Su2Proofs.
Variable C : numClosedFieldType.
Notation nd := (nd C).
Local Arguments stack : simpl never.
Local Arguments arange : simpl never.

(** * The matrices *)
(** s_i^2 = (i + 1)(j - i). *)
Definition lad (j i : nat) : C := sqrtC ((i.+1 * (j - i))%:R).
Definition mval (j i : nat) : C := - (j%:R / 2%:R) + i%:R.
Definition Sm (j : nat) : 'M[C]_j.+1 := \matrix_(i, k) (if (k == i.+1 :> nat) then lad j i else 0).
Definition Mm (j : nat) : 'M[C]_j.+1 := \matrix_(i, k) (if (k == i :> nat) then mval j i else 0).
Definition Xm (j a : nat) : 'M[C]_j.+1 :=
  match a with
  | 0%N => (1 / 2%:R) *: (Sm j - (Sm j)^T)
  | 1%N => 'i *: Mm j
  | _ => (1 / 2%:R * 'i) *: (Sm j + (Sm j)^T)
  end.

Lemma lad2 j i : lad j i * lad j i = (i.+1 * (j - i))%:R.
Proof. by rewrite -expr2 sqrtCK. Qed.
Lemma lad_real j i : (lad j i)^* = lad j i.
Proof. by apply: geC0_conj; rewrite sqrtC_ge0 ler0n. Qed.
Lemma mval_real j i : (mval j i)^* = mval j i.
Proof. by rewrite rmorphD rmorphN fmorph_div !rmorph_nat. Qed.

Lemma Sm_Mm j : Sm j *m Mm j - Mm j *m Sm j = Sm j.
Proof.
apply/matrixP=> i k; rewrite !mxE (bigD1 k) //= big1 ?addr0 => [|l lk]; last first.
  by rewrite !mxE [(k == l :> nat)]eq_sym [(l == k :> nat)](negbTE lk) mulr0.
rewrite (bigD1 i) //= big1 ?addr0 => [|l li]; last first.
  by rewrite !mxE [(l == i :> nat)](negbTE li) mul0r.
rewrite !mxE !eqxx; case: eqP => [e|_]; last by rewrite mul0r mulr0 subr0.
by rewrite e /mval mulrS; mcring.
Qed.
Lemma Mm_tr j : (Mm j)^T = Mm j.
Proof. by apply/matrixP=> i k; rewrite !mxE eq_sym; case: eqP => // ->. Qed.
Lemma St_Mm j : (Sm j)^T *m Mm j - Mm j *m (Sm j)^T = - (Sm j)^T.
Proof.
have := congr1 trmx (Sm_Mm j); rewrite linearB /= !trmx_mul Mm_tr => e.
by rewrite -[in RHS]e opprB.
Qed.
Lemma Sm_St j : Sm j *m (Sm j)^T = \matrix_(i, k) (if (k == i :> nat) then ((i.+1 * (j - i))%:R : C) else 0).
Proof.
apply/matrixP=> i k; rewrite !mxE.
have [lij|] := boolP (i < j)%N; last first.
  move=> h; have ej : i = j :> nat by have := ltn_ord i; lia.
  rewrite big1 => [|l _]; first by rewrite ej subnn muln0; case: ifP.
  have n : (l == i.+1 :> nat) = false by have := ltn_ord l; lia.
  by rewrite !mxE n mul0r.
rewrite (bigD1 (Ordinal (n := j.+1) (m := i.+1) lij)) //= big1 ?addr0 => [|l hl]; last first.
  rewrite !mxE; case: eqP => [e|]; last by rewrite mul0r.
  by case/eqP: hl; apply: val_inj.
rewrite !mxE eqxx /= eqSS eq_sym; case: eqP => [->|_]; last by rewrite mulr0.
by rewrite lad2.
Qed.
Lemma St_Sm j : (Sm j)^T *m Sm j = \matrix_(i, k) (if (k == i :> nat) then ((i * (j - i).+1)%:R : C) else 0).
Proof.
apply/matrixP=> i k; rewrite !mxE.
case: (posnP i) => [i0|ip].
  rewrite big1 => [|l _]; first by rewrite i0 mul0n; case: ifP.
  by rewrite !mxE i0 mul0r.
have lij : (i.-1 < j.+1)%N by have := ltn_ord i; lia.
rewrite (bigD1 (Ordinal lij)) //= big1 ?addr0 => [|l hl]; last first.
  rewrite !mxE; case: eqP => [e|]; last by rewrite mul0r.
  by case/eqP: hl; apply: val_inj => /=; rewrite e.
rewrite !mxE /= (prednK ip) eqxx; case: eqP => [_|_]; last by rewrite mulr0.
by rewrite lad2 prednK //; congr (_ * _)%:R; have := ltn_ord i; lia.
Qed.
Lemma comm_S j : Sm j *m (Sm j)^T - (Sm j)^T *m Sm j = - (2%:R *: Mm j).
Proof.
rewrite Sm_St St_Sm; apply/matrixP=> i k; rewrite !mxE; case: eqP => [_|_]; last by rewrite mulr0 subr0 oppr0.
have e : j%:R = (i + (j - i))%N%:R :> C by congr (_%:R); have := ltn_ord i; lia.
rewrite /mval e; move: (j - i)%N (i : nat) => q n; have n2 : (2%:R : C) != 0 by rewrite pnatr_eq0.
by mcf.
Qed.

(** * Commutators *)
Lemma X01 j : Xm j 0 *m Xm j 1 - Xm j 1 *m Xm j 0 = Xm j 2.
Proof.
rewrite /Xm -!scalemxAl -!scalemxAr !scalerA ['i * _]mulrC -scalerBr; congr (_ *: _).
rewrite mulmxBl mulmxBr.
have -> : Sm j *m Mm j - (Sm j)^T *m Mm j - (Mm j *m Sm j - Mm j *m (Sm j)^T)
  = (Sm j *m Mm j - Mm j *m Sm j) - ((Sm j)^T *m Mm j - Mm j *m (Sm j)^T) by rewrite !opprB addrACA [RHS]addrACA -[- _ + _]addrC.
by rewrite Sm_Mm St_Mm opprK.
Qed.
Lemma X12 j : Xm j 1 *m Xm j 2 - Xm j 2 *m Xm j 1 = Xm j 0.
Proof.
rewrite /Xm -!scalemxAl -!scalemxAr !scalerA [_ * 'i * 'i]mulrC -scalerBr.
have -> : 'i * (1 / 2%:R * 'i) = - (1 / 2%:R) :> C by rewrite mulrCA -expr2 sqrCi mulrN1.
rewrite scaleNr -scalerN; congr (_ *: _).
rewrite mulmxDl mulmxDr opprB.
have -> : Sm j *m Mm j + (Sm j)^T *m Mm j - (Mm j *m Sm j + Mm j *m (Sm j)^T)
  = (Sm j *m Mm j - Mm j *m Sm j) + ((Sm j)^T *m Mm j - Mm j *m (Sm j)^T) by rewrite opprD addrACA.
by rewrite Sm_Mm St_Mm.
Qed.
Lemma X20 j : Xm j 2 *m Xm j 0 - Xm j 0 *m Xm j 2 = Xm j 1.
Proof.
rewrite /Xm -!scalemxAl -!scalemxAr !scalerA [1 / 2%:R * (_ * 'i)]mulrC -scalerBr.
rewrite mulmxDl !mulmxBl !mulmxBr !mulmxDr.
set A := Sm j *m Sm j; set B := Sm j *m _; set D := (Sm j)^T *m Sm j; set E := (Sm j)^T *m _.
have -> : A - B + (D - E) - (A + B - (D + E)) = - 2%:R *: (B - D).
  by rewrite scaleNr !scaler_nat; apply/matrixP=> i k; rewrite !mxE; mcring.
rewrite comm_S scalerN -scaleNr !scalerA; congr (_ *: _).
have n2 : (2%:R : C) != 0 by rewrite pnatr_eq0.
by mcf.
Qed.

Lemma Xm_adj j a : adj (Xm j a) = - Xm j a.
Proof.
have sT : map_mx conjC (Sm j) = Sm j by apply/matrixP=> i k; rewrite !mxE; case: ifP; rewrite ?lad_real ?conjC0.
have mT : map_mx conjC (Mm j) = Mm j by apply/matrixP=> i k; rewrite !mxE; case: ifP; rewrite ?mval_real ?conjC0.
have half : (1 / 2%:R : C)^* = 1 / 2%:R by rewrite fmorph_div rmorph1 rmorph_nat.
case: a => [|[|a]]; rewrite /adj /= linearZ /= map_mxZ.
- by rewrite half linearB /= trmxK map_mxB -map_trmx sT -scalerN opprB.
- by rewrite Mm_tr mT conjCi scaleNr.
- by rewrite rmorphM half conjCi mulrN scaleNr linearD /= trmxK map_mxD -map_trmx sT addrC.
Qed.

(** * The array *)
Lemma su2_X_ok j : exists X, su2_X C j = Ok X /\ shape X = [:: 3; j.+1; j.+1]%N /\
  forall a, (a < 3)%N -> mx3 j.+1 j.+1 X a = Xm j a.
Proof.
rewrite /su2_X /add /sub; set hj := j%:R / _.
have sr : shape (su2_raising C j) = [:: j.+1; j.+1] by rewrite /= size_map size_map size_iota.
have sl : shape (su2_lowering C j) = [:: j.+1; j.+1] by rewrite /= size_map size_map size_iota.
have gr i k : (i < j.+1)%N -> (k < j.+1)%N -> get (su2_raising C j) [:: i; k] = - (if i == k.+1 then lad j k else 0).
  move=> hi hk; rewrite /=; case: eqP => [e|]; last by rewrite oppr0.
  rewrite (nth_map 0) ?size_map ?size_iota; last by lia.
  rewrite (nth_map 0%N) ?size_iota ?nth_iota; [|by lia|by lia].
  rewrite add0n; congr (- sqrtC _); have ej : j = (k + (j - k))%N by lia.
  rewrite /hj {1 2 3 4}ej natrM; move: (j - k)%N => q; have n2 : (2%:R : C) != 0 by rewrite pnatr_eq0.
  by mcf.
have gl i k : (i < j.+1)%N -> (k < j.+1)%N -> get (su2_lowering C j) [:: i; k] = (if k == i.+1 then lad j i else 0).
  move=> hi hk; rewrite /=; case: eqP => [e|] //.
  rewrite (nth_map 0) ?size_map ?size_iota; last by lia.
  rewrite (nth_map 0%N) ?size_iota ?nth_iota; [|by lia|by lia].
  rewrite add0n; congr (sqrtC _); have ej : j = (i + (j - i))%N by lia.
  rewrite /hj {1 2 3 4}ej natrM; move: (j - i)%N => q; have n2 : (2%:R : C) != 0 by rewrite pnatr_eq0.
  by mcf.
have gm i : (i < j.+1)%N -> nth 0 [seq 'i * m | m <- arange (- hj) j.+1] i = 'i * mval j i.
  by move=> hi; rewrite (nth_map 0) ?size_map ?size_iota // (nth_map 0%N) ?size_iota // nth_iota.
have [s [-> [ss gs]]] := @bmap2_same C +%R _ _ (etrans sr (esym sl)).
have [d [-> [sd gd]]] := @bmap2_same C (fun x y => x - y) _ _ (etrans sr (esym sl)).
rewrite /=; set l := [:: _; _; _].
have [//|//||X [-> [sX gX]]] := @stack_ok C 3 [:: j.+1; j.+1] l.
  by case=> [|[|[|]]] // _; rewrite /= ?ss ?sd ?sr // size_map size_map size_iota.
exists X; split=> //; split=> // a ha; apply/matrixP=> i k; rewrite mxE gX //.
have v : valid (shape (su2_raising C j)) [:: i : nat; k : nat] by rewrite sr /valid /= !ltn_ord.
case: a ha => [|[|[|]]] // _; rewrite /= !mxE.
- by rewrite gs // gr // gl // addrC.
- by case: ifP => _; [exact: gm | rewrite mulr0].
- rewrite gd // gr // gl // mulNr -mulrN opprB opprK addrC.
  by rewrite addrC.
Qed.

(** * The representation *)
Definition su2_th : theory C :=
  Theory 3 0 (fun i j k => (table3 su2_table i j k)%:~R) (fun _ _ => False) (fun _ => False).

Lemma su2_comm d (X : nat -> 'M[C]_d) :
  X 0%N *m X 1%N - X 1%N *m X 0%N = X 2%N -> X 1%N *m X 2%N - X 2%N *m X 1%N = X 0%N ->
  X 2%N *m X 0%N - X 0%N *m X 2%N = X 1%N ->
  forall i j, (i < 3)%N -> (j < 3)%N ->
  X i *m X j - X j *m X i = \sum_(k < 3) (table3 su2_table i j k)%:~R *: X k.
Proof.
move=> h1 h2 h3 i j; rewrite !big_ord_recl big_ord0 addr0.
case: i => [|[|[|i]]] //; case: j => [|[|[|j]]] // _ _; rewrite /= /table3 /= ?scale0r ?scale1r ?scaleN1r ?addr0 ?add0r ?subrr //.
- by rewrite -h3 opprB.
- by rewrite -h1 opprB.
- by rewrite -h2 opprB.
Qed.
Lemma is_mrep_ext T d (X X' H H' : nat -> 'M[C]_d) : (forall i, (i < th_l T)%N -> X i = X' i) ->
  (forall i, (i < th_h T)%N -> H i = H' i) -> is_mrep T X H -> is_mrep T X' H'.
Proof.
move=> hX hH [a b c]; split.
- move=> i j hi hj; rewrite -!hX // a //; apply: eq_bigr => k _; by rewrite hX.
- move=> u v r w; have e s : all (fun b => b < th_h T)%N s -> word H' s = word H s.
    by elim: s => //= x s IH /andP[hx /IH ->]; rewrite hH.
  by move: (w); rewrite all_cat => /andP[wu wv]; rewrite !e //; apply: b.
- move=> q hq x i hx hi; rewrite -hX // -hH // (c q) //; congr (_ *m _).
  by apply: eq_bigr => k _; rewrite hX.
Qed.

Lemma su2_mrep d (X H : nat -> 'M[C]_d) :
  X 0%N *m X 1%N - X 1%N *m X 0%N = X 2%N -> X 1%N *m X 2%N - X 2%N *m X 1%N = X 0%N ->
  X 2%N *m X 0%N - X 0%N *m X 2%N = X 1%N -> is_mrep su2_th X H.
Proof. by move=> h1 h2 h3; split=> //=; apply: su2_comm. Qed.

Lemma su2_rep_ok j : exists r, su2_rep C j = Ok r /\ is_rep su2_th j.+1 r /\
  forall a, (a < 3)%N -> adj (mx3 j.+1 j.+1 (rX r) a) = - mx3 j.+1 j.+1 (rX r) a.
Proof.
have [X [e [sX gX]]] := su2_X_ok j; rewrite /su2_rep e /=; eexists; split; first by [].
split; last by move=> a ha /=; rewrite gX // Xm_adj.
split=> //=; apply: su2_mrep; rewrite !gX //.
- exact: X01.
- exact: X12.
- exact: X20.
Qed.
End Su2Proofs.
