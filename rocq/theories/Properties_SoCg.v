(** Properties C38, C43, C65 and C32 for SO3, O3, Z2 and SL2C. *)
From Coq Require Import ZArith.
From mathcomp Require Import all_ssreflect all_algebra.
From mathcomp Require Import zify.
From mathcomp.real_closed Require Import mxtens.
From Verif Require Import Base McRing Nd NdProofs Reps RepSpec RepOps Reduced ReducedProofs Intw TpProofs TpReduced TpSnap Labels LabelProofs.
From Verif Require Import CgSum Su2 Su2Proofs So3Proofs Su2Cg Su2CgProofs Su2CgEq Su2Irr CgMx SoCg SoCgProofs Sl2c Sl2cMx Sl2cProofs.
From Verif Require Import Properties_Reduced Properties_Cg.

Set Implicit Arguments.
Unset Strict Implicit.
Unset Printing Implicit Defensive.

Import Order.POrderTheory GRing.Theory Num.Theory.
Local Open Scope ring_scope.

(** * Specification *)
Section Spec.
Variable C : numClosedFieldType.
(** The discrete generators act on the tensor product by h1 (x) h2. *)
Definition equivariantH (n d1 d2 d3 z : nat) (h1 h2 h3 : nat -> nat -> nat -> C) (c : nd C) : Prop :=
  forall a u i j k, (a < n)%N -> (u < z)%N -> (i < d1)%N -> (j < d2)%N -> (k < d3)%N ->
    \sum_(k' < d3) h3 a k k' * get c [:: u; i; j; k' : nat] =
    \sum_(i' < d1) \sum_(j' < d2) h1 a i' i * h2 a j' j * get c [:: u; i' : nat; j' : nat; k].
(** The columns of all the arrays together span the tensor product. *)
Definition complete (d1 d2 : nat) (cs : seq (nd C)) : Prop :=
  forall i j i' j', (i < d1)%N -> (j < d2)%N -> (i' < d1)%N -> (j' < d2)%N ->
    \sum_(c <- cs) \sum_(k < nth 0%N (shape c) 3) get c [:: 0%N; i; j; k : nat] * (get c [:: 0%N; i'; j'; k : nat])^*
    = ((i == i') && (j == j'))%:R.
(** The structure constants of the Lorentz algebra: generators 0-2 are rotations J,
    3-5 boosts K; [J, J] = J, [J, K] = K, [K, K] = kk J. *)
Definition lorentz_algebra (kk : C) (d : nat) (Z : nat -> 'M[C]_d) : Prop :=
  let J a := Z (a %% 3)%N in let K a := Z (3 + a %% 3)%N in
  forall a, [/\ J a *m J a.+1 - J a.+1 *m J a = J a.+2, K a *m K a.+1 - K a.+1 *m K a = kk *: J a.+2,
    J a *m K a.+1 - K a.+1 *m J a = K a.+2, J a *m K a.+2 - K a.+2 *m J a = - K a.+1 & J a *m K a - K a *m J a = 0].
End Spec.

(** * From matrices to arrays *)
Section Gen.
Variable C : numClosedFieldType.
Let gX (r : rep C) : nat -> nat -> nat -> C := fun a i k => get (rX r) [:: a; i; k].
Let gH (r : rep C) : nat -> nat -> nat -> C := fun a i k => get (rH r) [:: a; i; k].
Variables (d1 d2 d3 : nat) (B : 'M[C]_(d1 * d2, d3)) (c : nd C).
Hypothesis gc : forall (i : 'I_d1) (j : 'I_d2) (k : 'I_d3), get c [:: 0%N; i : nat; j : nat; k : nat] = B (mxtens_index (i, j)) k.

Lemma equiv_mx n r1 r2 r3 :
  (forall a, (a < n)%N -> B *m (mx3 d3 d3 (rX r3) a)^T = tact (mx3 d1 d1 (rX r1) a)^T (mx3 d2 d2 (rX r2) a)^T *m B) ->
  equivariant n d1 d2 d3 1 (gX r1) (gX r2) (gX r3) c.
Proof.
move=> H a [|u] i j k ha // _ hi hj hk.
have /matrixP/(_ (mxtens_index (Ordinal hi, Ordinal hj)) (Ordinal hk)) := H a ha; rewrite mxE tact_mul => E.
transitivity (\sum_k' B (mxtens_index (Ordinal hi, Ordinal hj)) k' * (mx3 d3 d3 (rX r3) a)^T k' (Ordinal hk)).
  by apply: eq_bigr => k' _; rewrite (gc (Ordinal hi) (Ordinal hj)) !mxE mulrC.
rewrite E; congr (_ + _); apply: eq_bigr => x _; rewrite !mxE.
  by rewrite (gc _ (Ordinal hj) (Ordinal hk)).
by rewrite (gc (Ordinal hi) _ (Ordinal hk)).
Qed.
Lemma equivH_mx n r1 r2 r3 :
  (forall a, (a < n)%N -> B *m (mx3 d3 d3 (rH r3) a)^T = ((mx3 d1 d1 (rH r1) a)^T *t (mx3 d2 d2 (rH r2) a)^T) *m B) ->
  equivariantH n d1 d2 d3 1 (gH r1) (gH r2) (gH r3) c.
Proof.
move=> H a [|u] i j k ha // _ hi hj hk.
have /matrixP/(_ (mxtens_index (Ordinal hi, Ordinal hj)) (Ordinal hk)) := H a ha; rewrite mxE tens_mul_at => E.
transitivity (\sum_k' B (mxtens_index (Ordinal hi, Ordinal hj)) k' * (mx3 d3 d3 (rH r3) a)^T k' (Ordinal hk)).
  by apply: eq_bigr => k' _; rewrite (gc (Ordinal hi) (Ordinal hj)) !mxE mulrC.
rewrite E; apply: eq_bigr => x _; apply: eq_bigr => y _; rewrite !mxE.
by rewrite (gc _ _ (Ordinal hk)).
Qed.
Lemma orth_mx d3' (B' : 'M[C]_(d1 * d2, d3')) c' (same : bool) :
  (forall (i : 'I_d1) (j : 'I_d2) (k : 'I_d3'), get c' [:: 0%N; i : nat; j : nat; k : nat] = B' (mxtens_index (i, j)) k) ->
  (forall k k', (B^T *m cj B') k k' = (same && (k == k' :> nat))%:R) -> orthonormal d1 d2 d3 d3' same c c'.
Proof.
move=> gc' H k k' hk hk'; have := H (Ordinal hk) (Ordinal hk'); rewrite mxE sum_tens /= => <-.
apply: eq_bigr => i _; apply: eq_bigr => j _; rewrite [B^T _ _]mxE [cj _ _ _]mxE.
by rewrite (gc i j (Ordinal hk)) (gc' i j (Ordinal hk')).
Qed.
End Gen.

Section Props.
Variable C : numClosedFieldType.
Let gX (r : rep C) : nat -> nat -> nat -> C := fun a i k => get (rX r) [:: a; i; k].
Let gH (r : rep C) : nat -> nat -> nat -> C := fun a i k => get (rH r) [:: a; i; k].
Local Notation N l := ((2 * l).+1).

Lemma complete_mx (I : eqType) (s : seq I) (f : I -> nd C) d1 d2 (d3 : I -> nat) (B : forall x, 'M[C]_(d1 * d2, d3 x)) :
  (forall x, x \in s -> nth 0%N (shape (f x)) 3 = d3 x) ->
  (forall x (i : 'I_d1) (j : 'I_d2) (k : 'I_(d3 x)), x \in s -> get (f x) [:: 0%N; i : nat; j : nat; k : nat] = B x (mxtens_index (i, j)) k) ->
  \sum_(x <- s) B x *m (cj (B x))^T = 1%:M -> complete d1 d2 (map f s).
Proof.
move=> hs gc H i j i' j' hi hj hi' hj'; rewrite big_map.
have /matrixP/(_ (mxtens_index (Ordinal hi, Ordinal hj)) (mxtens_index (Ordinal hi', Ordinal hj'))) := H.
rewrite summxE mxE (can_eq (@mxtens_indexK _ _)) xpair_eqE -!val_eqE /= => <-.
rewrite [LHS]big_seq [RHS]big_seq; apply: eq_bigr => x hx; rewrite hs // mxE; apply: eq_bigr => k _.
by rewrite [_^T _ _]mxE [cj _ _ _]mxE (gc x (Ordinal hi) (Ordinal hj)) // (gc x (Ordinal hi') (Ordinal hj')).
Qed.

(** The selection rule on integer spins. *)
Definition selected3 (l1 l2 l3 : nat) : Prop := [/\ (l3 <= l1 + l2)%N, (l1 <= l2 + l3)%N & (l2 <= l1 + l3)%N].
Lemma selected3P l1 l2 l3 : selected3 l1 l2 l3 <-> tri (2 * l1) (2 * l2) (2 * l3).
Proof. rewrite /selected3 /tri; split=> [[h1 h2 h3]|]; [lia | move=> h; split; lia]. Qed.
Lemma Dm_gram l1 l2 l3 l3' k k' : tri (2 * l1) (2 * l2) (2 * l3) -> tri (2 * l1) (2 * l2) (2 * l3') ->
  ((Dm C l1 l2 l3)^T *m cj (Dm C l1 l2 l3')) k k' = ((l3 == l3') && (k == k' :> nat))%:R.
Proof.
move=> h h'.
have q l : cj (Qz C l) *m (Qz C l)^T = 1%:M by exact: Qz_1.
have q' l : Qz C l *m (cj (Qz C l))^T = 1%:M by rewrite -cjT -[RHS]trmx1 -(q l) trmx_mul trmxK cjT.
have p l : (cj (Qz C l))^T *m Qz C l = 1%:M by apply: mulmx1C; exact: q'.
have -> : (Dm C l1 l2 l3)^T *m cj (Dm C l1 l2 l3') = (cj (Qz C l3))^T *m ((Bm C (2 * l1) (2 * l2) (2 * l3))^T *m Bm C (2 * l1) (2 * l2) (2 * l3')) *m Qz C l3'.
  rewrite /Dm !trmx_mul trmxK !cjM cjK Bm_real cjT cj_tens trmx_tens -!mulmxA [(Qz C l1 *t _) *m (_ *m _)]mulmxA.
  by rewrite tensmx_mul !q' tens1 mul1mx.
case: eqP => [e|ne]; last by rewrite Bm_orth ?mulmx0 ?mul0mx ?mxE //; apply/eqP=> e; apply: ne; lia.
by move: h' k'; rewrite -e => h' k'; rewrite Bm_norm // mulmx1 p mxE.
Qed.

(** ** C65: SO3 *)
Theorem C65_so3 l1 l2 l3 : selected3 l1 l2 l3 -> exists r1 r2 r3 c,
  [/\ so3_rep C l1 = Ok r1, so3_rep C l2 = Ok r2, so3_rep C l3 = Ok r3, so3_cg C l1 l2 l3 = Ok c /\ real_nd c &
      equivariant 3 (N l1) (N l2) (N l3) 1 (gX r1) (gX r2) (gX r3) c].
Proof.
move/selected3P=> h.
have R l : exists r, so3_rep C l = Ok r /\ forall a, (a < 3)%N -> mx3 (N l) (N l) (rX r) a = Ym C l a.
  by have [r [e _]] := so3_rep_ok C l; exists r; split=> // a ha; have := so3_X_at C l ha; rewrite e.
have [r1 [e1 g1]] := R l1; have [r2 [e2 g2]] := R l2; have [r3 [e3 g3]] := R l3.
have [c [ec [_ [rc gc]]]] := so3_cg_ok C h; exists r1, r2, r3, c; split=> //.
by apply: (equiv_mx gc) => a ha; rewrite g1 // g2 // g3 // Dm_equiv.
Qed.
Theorem C65_so3_orthonormal l1 l2 l3 l3' c c' : selected3 l1 l2 l3 -> selected3 l1 l2 l3' ->
  so3_cg C l1 l2 l3 = Ok c -> so3_cg C l1 l2 l3' = Ok c' ->
  orthonormal (N l1) (N l2) (N l3) (N l3') (l3 == l3') c c'.
Proof.
move=> /selected3P h /selected3P h'; have [X [-> [_ [_ gc]]]] := so3_cg_ok C h; have [X' [-> [_ [_ gc']]]] := so3_cg_ok C h'.
by move=> [<-] [<-]; apply: (orth_mx gc gc') => k k'; exact: Dm_gram.
Qed.
Theorem C65_so3_complete l1 l2 : exists cs, mapR (so3_cg C l1 l2) (map absz (so3_mul l1%:Z l2%:Z)) = Ok cs /\ complete (N l1) (N l2) cs.
Proof.
rewrite -/(so3_list l1 l2); pose f l := getR (zeros [::]) (so3_cg C l1 l2 l).
exists (map f (so3_list l1 l2)); split.
  by apply: mapR_ok_in => l; rewrite so3_listP /f => h; have [X [-> _]] := so3_cg_ok C h.
apply: (@complete_mx _ _ f (N l1) (N l2) (fun l => N l) (fun l => Dm C l1 l2 l)); last exact: so3_full.
  by move=> l; rewrite so3_listP /f => h; have [X [-> [-> _]]] := so3_cg_ok C h.
by move=> l i j k; rewrite so3_listP /f => h; have [X [-> [_ [_ g]]]] := so3_cg_ok C h.
Qed.
(** ** C65: O3; the parity is a second, discrete, generator *)
Theorem C65_o3 l1 l2 l3 (p1 p2 : int) : selected3 l1 l2 l3 -> sgn p1 -> sgn p2 -> exists r1 r2 r3 c,
  [/\ o3_rep C l1 p1 = Ok r1, o3_rep C l2 p2 = Ok r2, o3_rep C l3 (p1 * p2) = Ok r3,
      o3_cg C (l1, p1) (l2, p2) (l3, p1 * p2) = Ok c /\ real_nd c &
      equivariant 3 (N l1) (N l2) (N l3) 1 (gX r1) (gX r2) (gX r3) c /\ equivariantH 1 (N l1) (N l2) (N l3) 1 (gH r1) (gH r2) (gH r3) c].
Proof.
move/selected3P=> h s1 s2.
have s12 : sgn (p1 * p2) by move: s1 s2; rewrite /sgn !inE => /orP[]/eqP-> /orP[]/eqP->.
have R l p : sgn p -> exists r, o3_rep C l p = Ok r /\ (forall a, (a < 3)%N -> mx3 (N l) (N l) (rX r) a = Ym C l a) /\ mx3 (N l) (N l) (rH r) 0 = p%:~R%:M.
  move=> hp; have [r [e _]] := o3_rep_ok C l hp; exists r; split=> //; split=> [a ha|].
    by have := o3_X_at C l p ha; rewrite e.
  by have := o3_H_at C l p; rewrite e.
have [r1 [e1 [g1 k1]]] := R l1 p1 s1; have [r2 [e2 [g2 k2]]] := R l2 p2 s2; have [r3 [e3 [g3 k3]]] := R l3 _ s12.
have [c [ec [_ [rc gc]]]] := so3_cg_ok C h; exists r1, r2, r3, c; rewrite /o3_cg /= eqxx; split=> //; split.
  by apply: (equiv_mx gc) => a ha; rewrite g1 // g2 // g3 // Dm_equiv.
apply: (equivH_mx gc) => -[|//] _; rewrite k1 k2 k3 !tr_scalar_mx mul_mx_scalar rmorphM /=.
by rewrite -[p1%:~R%:M]scalemx1 -[p2%:~R%:M]scalemx1 scale_tens tens1 -scalemxAl mul1mx.
Qed.
Theorem C65_o3_complete l1 l2 (p1 p2 : int) : exists cs,
  mapR (fun c => o3_cg C (l1, p1) (l2, p2) (absz c.1, c.2)) (o3_mul (l1%:Z, p1) (l2%:Z, p2)) = Ok cs /\ complete (N l1) (N l2) cs.
Proof.
have [cs [e h]] := C65_so3_complete l1 l2; exists cs; split=> //; rewrite -e /o3_mul /so3_mul /=.
by elim: (pyrange _ _ _) => //= x s ->; rewrite /o3_cg /= eqxx.
Qed.
(** ** C65: Z2; the only generator is discrete *)
Theorem C65_z2 (p1 p2 : int) : sgn p1 -> sgn p2 ->
  equivariantH 1 1 1 1 1 (gH (z2_rep C p1)) (gH (z2_rep C p2)) (gH (z2_rep C (p1 * p2))) (z2_cg C p1 p2 (p1 * p2)) /\
  z2_mul p1 p2 = [:: p1 * p2] /\ complete 1 1 (map (z2_cg C p1 p2) (z2_mul p1 p2)).
Proof.
move=> s1 s2; split; last split=> //.
  have H p : sgn p -> mx3 1 1 (rH (z2_rep C p)) 0 = p%:~R%:M by move=> hp; case: (z2_rep_ok C hp).
  have s12 : sgn (p1 * p2) by move: s1 s2; rewrite /sgn !inE => /orP[]/eqP-> /orP[]/eqP->.
  apply: (@equivH_mx C 1 1 1 (const_mx 1)); first by move=> i j k; rewrite /z2_cg eqxx mxE.
  move=> [|//] _; rewrite !H // !tr_scalar_mx mul_mx_scalar rmorphM /=.
  by rewrite -[p1%:~R%:M]scalemx1 -[p2%:~R%:M]scalemx1 scale_tens tens1 -scalemxAl mul1mx.
case=> [|//] [|//] [|//] [|//] _ _ _ _; rewrite /z2_mul /= big_cons big_nil /z2_cg eqxx /= big_ord_recl big_ord0.
by rewrite rmorph1 mulr1 !addr0.
Qed.

(** ** C38: SL2C *)
Theorem C38_sl2c l k : exists r, sl2c_rep C (l, k) = Ok r /\ is_rep (sl2c_th C) (l.+1 * k.+1) r /\
  shape (rX r) = [:: 6; l.+1 * k.+1; l.+1 * k.+1]%N /\ lorentz_algebra 1 (mx3 (l.+1 * k.+1) (l.+1 * k.+1) (rX r)).
Proof.
have [r [e [h g]]] := sl2c_rep_ok C l k; exists r; split=> //; split=> //; split; first exact: ir_sX h.
pose J b := mx3 (l.+1 * k.+1) (l.+1 * k.+1) (rX r) (b %% 3)%N; pose K b := mx3 (l.+1 * k.+1) (l.+1 * k.+1) (rX r) (3 + b %% 3)%N.
move=> a; rewrite -!/(J _) -!/(K _).
have m3 b : (b %% 3 < 3)%N by exact: ltn_pmod.
have hJ b : J b = Gm C true l k (b %% 3) by have h3 := m3 b; rewrite /J g ?h3 //; lia.
have hK b : K b = Gm C false l k (b %% 3).
  have h3 := m3 b; rewrite /K g; last by lia.
  by rewrite ltnNge leq_addr /= addKn.
rewrite !hJ !hK !Gm_comm // !big_ord_recl !big_ord0 !addr0 /=.
have [x [hx e1 e2 e3]] : exists x, [/\ (x < 3)%N, a %% 3 = x, a.+1 %% 3 = x.+1 %% 3 & a.+2 %% 3 = x.+2 %% 3]%N.
  by exists (a %% 3)%N; split=> //; lia.
rewrite e1 e2 e3; case: x hx {e1 e2 e3} => [|[|[|x]]] // _; rewrite /eps3 /table3 /=;
  split; rewrite ?scale0r ?scale1r ?scaleN1r ?addr0 ?add0r //.
Qed.
(** The tabulated structure constants are those of the theory. *)
Theorem C38_sl2c_algebra i j k : (i < 6)%N -> (j < 6)%N -> (k < 6)%N ->
  get (sl2c_A C) [:: i; j; k] = th_A (sl2c_th C) i j k /\ get (sl2c_A C) [:: j; i; k] = - get (sl2c_A C) [:: i; j; k].
Proof.
move=> hi hj hk; rewrite /= !lorentz_atE //; split=> //; rewrite -rmorphN; congr (_%:~R).
have H : all (fun i => all (fun j => all (fun k => lorentz 1 j i k == - lorentz 1 i j k) (iota 0 6)) (iota 0 6)) (iota 0 6) by vm_compute.
have I n : (n < 6)%N -> n \in iota 0 6 by rewrite mem_iota add0n.
by move/allP/(_ _ (I _ hi))/allP/(_ _ (I _ hj))/allP/(_ _ (I _ hk))/eqP: H.
Qed.
(** ** C65: SL2C *)
Definition selected2 (a b c : nat * nat) : Prop := selected a.1 b.1 c.1 /\ selected a.2 b.2 c.2.
Lemma selected2P a b c : selected2 a b c <-> tri a.1 b.1 c.1 && tri a.2 b.2 c.2.
Proof. by split=> [[/selectedP-> /selectedP->]|/andP[/selectedP h /selectedP h']]. Qed.
Theorem C65_sl2c a b c : selected2 a b c -> exists ra rb rc t,
  [/\ sl2c_rep C a = Ok ra, sl2c_rep C b = Ok rb, sl2c_rep C c = Ok rc, sl2c_cg C a b c = Ok t &
      equivariant 6 (sl2c_d a) (sl2c_d b) (sl2c_d c) 1 (gX ra) (gX rb) (gX rc) t].
Proof.
move/selected2P=> /andP[h h'].
have R x : exists r, sl2c_rep C x = Ok r /\ forall i, (i < 6)%N -> mx3 (sl2c_d x) (sl2c_d x) (rX r) i = Gm C (i < 3)%N x.1 x.2 (if (i < 3)%N then i else (i - 3)%N).
  by case: x => l k; have [r [e [_ g]]] := sl2c_rep_ok C l k; exists r.
have [r1 [e1 g1]] := R a; have [r2 [e2 g2]] := R b; have [r3 [e3 g3]] := R c.
have [t [et [_ gt]]] := sl2c_cg_ok C h h'; exists r1, r2, r3, t; split=> //.
by apply: (equiv_mx gt) => i hi; rewrite g1 // g2 // g3 //; exact: Em_equiv.
Qed.
Theorem C65_sl2c_orthonormal a b c c' t t' : selected2 a b c -> selected2 a b c' ->
  sl2c_cg C a b c = Ok t -> sl2c_cg C a b c' = Ok t' ->
  orthonormal (sl2c_d a) (sl2c_d b) (sl2c_d c) (sl2c_d c') (c == c') t t'.
Proof.
move=> /selected2P/andP[h1 h2] /selected2P/andP[h1' h2'].
have [X [-> [_ g]]] := sl2c_cg_ok C h1 h2; have [X' [-> [_ g']]] := sl2c_cg_ok C h1' h2' => -[<-] [<-].
apply: (orth_mx g g') => k k'; rewrite Em_real Em_gram.
case: eqP => [e|ne].
  by move: h1' h2' {g'} k'; rewrite -e => h1' h2' k'; rewrite !Bm_norm // tens1 mulmx1 Fm_full' mxE.
have [/eqP e1|n1] := boolP (c.1 == c'.1).
  have n2 : c.2 != c'.2 by apply/eqP=> e2; apply: ne; case: (c) (c') e1 e2 => [? ?] [? ?] /= -> ->.
  by rewrite [X in _ *t X]Bm_orth // tensmx0 mulmx0 mul0mx mxE.
by rewrite Bm_orth // tens0mx mulmx0 mul0mx mxE.
Qed.
Theorem C65_sl2c_complete a b L : sl2c_mul (zz a) (zz b) = Ok L -> exists cs,
  mapR (fun c => sl2c_cg C a b (absz c.1, absz c.2)) L = Ok cs /\ complete (sl2c_d a) (sl2c_d b) cs.
Proof.
move=> eL; pose f c := getR (zeros [::]) (sl2c_cg C a b c).
exists (map f (sl2c_list a b)); split.
  rewrite /sl2c_list eL /= -map_comp; apply: mapR_ok_in => c hc /=.
  have : (absz c.1, absz c.2) \in sl2c_list a b by rewrite /sl2c_list eL; apply/mapP; exists c.
  by rewrite sl2c_listP /f => /andP[h1 h2]; have [X [-> _]] := sl2c_cg_ok C h1 h2.
apply: (@complete_mx _ _ f (sl2c_d a) (sl2c_d b) sl2c_d (fun c => Em C a b c)).
- by move=> c; rewrite sl2c_listP /f => /andP[h1 h2]; have [X [-> [-> _]]] := sl2c_cg_ok C h1 h2.
- by move=> c i j k; rewrite sl2c_listP /f => /andP[h1 h2]; have [X [-> [_ g]]] := sl2c_cg_ok C h1 h2.
by rewrite sl2c_listE big_allpairs -[RHS](Em_full C a b); apply: eq_bigr => l _; apply: eq_bigr => k _; rewrite Em_real.
Qed.

(** ** C43 *)
Theorem C43_so3 l1 l2 l3 : exists c, so3_cg C l1 l2 l3 = Ok c /\
  shape c = [:: (l3%:Z \in so3_mul l1%:Z l2%:Z) : nat; N l1; N l2; N l3].
Proof.
have -> : (l3%:Z \in so3_mul l1%:Z l2%:Z) = tri (2 * l1) (2 * l2) (2 * l3).
  rewrite -so3_listP /so3_list; apply/idP/mapP => [h|[x hx ->]]; first by exists l3%:Z.
  by rewrite gez0_abs //; move: hx; rewrite /so3_mul => /mapP[i _ ->]; lia.
case: (boolP (tri _ _ _)) => h.
  by have [c [e [s _]]] := so3_cg_ok C h; exists c.
by have [c [e s]] := so3_cg_empty C h; exists c.
Qed.
Theorem C43_o3 l1 l2 l3 (p1 p2 p3 : int) : exists c, o3_cg C (l1, p1) (l2, p2) (l3, p3) = Ok c /\
  shape c = [:: ((l3%:Z, p3) \in o3_mul (l1%:Z, p1) (l2%:Z, p2)) : nat; N l1; N l2; N l3].
Proof.
have -> : ((l3%:Z, p3) \in o3_mul (l1%:Z, p1) (l2%:Z, p2)) = (l3%:Z \in so3_mul l1%:Z l2%:Z) && (p1 * p2 == p3).
  rewrite /o3_mul /so3_mul /=; apply/mapP/andP => [[x hx [-> ->]]|[hx /eqP <-]]; first by rewrite eqxx.
  by exists l3%:Z.
rewrite /o3_cg /=; case: eqP => _; last by rewrite andbF; eexists.
by rewrite andbT; exact: C43_so3.
Qed.
Theorem C43_z2 (p1 p2 p3 : int) : shape (z2_cg C p1 p2 p3) = [:: (p3 \in z2_mul p1 p2) : nat; 1; 1; 1]%N.
Proof. by rewrite /z2_cg /z2_mul inE [p3 == _]eq_sym; case: eqP. Qed.
Theorem C43_sl2c a b c : exists t L, [/\ sl2c_mul (zz a) (zz b) = Ok L, sl2c_cg C a b c = Ok t &
  shape t = [:: (zz c \in L) : nat; sl2c_d a; sl2c_d b; sl2c_d c]].
Proof.
case: (boolP (tri a.1 b.1 c.1 && tri a.2 b.2 c.2)) => h.
  have /andP[h1 h2] := h; have [t [e [s _]]] := sl2c_cg_ok C h1 h2; exists t, (sl2c_range (zz a) (zz b)).
  by rewrite sl2c_mulE sl2c_in h.
exists (zeros [:: 0%N; sl2c_d a; sl2c_d b; sl2c_d c]), (sl2c_range (zz a) (zz b)).
by rewrite sl2c_mulE sl2c_in (negbTE h) sl2c_cg_empty.
Qed.

(** ** C32: no hypothesis on the coefficients is left *)
Theorem C32_so3_reduced (r1 r2 : reducedrep (so3_irreps C)) R1 R2 : red_ok (su2_th C) r1 -> red_ok (su2_th C) r2 ->
  red_rep r1 = Ok R1 -> red_rep r2 = Ok R2 ->
  reduces_snap (su2_th C) (tp_reduced r1 r2) (red_dim r1 * red_dim r2) R1 R2 (all_int r1 r2).
Proof. by move=> h1 h2; apply: C32_reduced => // m1 m2 _ _; exact: so3_cg_complete. Qed.
Theorem C32_sl2c_reduced (r1 r2 : reducedrep (sl2c_irreps C)) R1 R2 : red_ok (sl2c_th C) r1 -> red_ok (sl2c_th C) r2 ->
  red_rep r1 = Ok R1 -> red_rep r2 = Ok R2 ->
  reduces_snap (sl2c_th C) (tp_reduced r1 r2) (red_dim r1 * red_dim r2) R1 R2 (all_int r1 r2).
Proof. by move=> h1 h2; apply: C32_reduced => // m1 m2 _ _; exact: sl2c_cg_complete. Qed.
Theorem C32_so3_irreps (l1 l2 : nat) : let G := so3_irreps C in
  exists r, @tp_irreps C G l1 l2 = Ok r /\ reduces (su2_th C) r (@rep_of C G l1) (@rep_of C G l2).
Proof. by move=> G; have [r [e [h _]]] := C32_irreps (isT : (0 < th_l (su2_th C))%N) (@so3_cg_complete C l1 l2); exists r. Qed.
Theorem C32_o3_irreps (a b : nat * int) : sgn a.2 -> sgn b.2 -> let G := o3_irreps C in
  exists r, @tp_irreps C G a b = Ok r /\ reduces (o3_th C) r (@rep_of C G a) (@rep_of C G b).
Proof. by move=> h1 h2 G; have [r [e [h _]]] := C32_irreps (isT : (0 < th_l (o3_th C))%N) (@o3_cg_complete C a b h1 h2); exists r. Qed.
Theorem C32_sl2c_irreps (a b : nat * nat) : let G := sl2c_irreps C in
  exists r, @tp_irreps C G a b = Ok r /\ reduces (sl2c_th C) r (@rep_of C G a) (@rep_of C G b).
Proof. by move=> G; have [r [e [h _]]] := C32_irreps (isT : (0 < th_l (sl2c_th C))%N) (@sl2c_cg_complete C a b); exists r. Qed.

(** Two four-vectors couple to a scalar: 16 coefficients whose squares sum to one. *)
Example C65_example : exists t, sl2c_cg C (1, 1)%N (1, 1)%N (0, 0)%N = Ok t /\ shape t = [:: 1; 4; 4; 1]%N /\
  \sum_(i < 4) \sum_(j < 4) get t [:: 0%N; i : nat; j : nat; 0%N] * (get t [:: 0%N; i : nat; j : nat; 0%N])^* = 1.
Proof.
have h : selected2 (1, 1)%N (1, 1)%N (0, 0)%N by split; split.
have [t [e [s _]]] := @sl2c_cg_ok C (1, 1)%N (1, 1)%N (0, 0)%N isT isT.
exists t; split; [exact: e | split; first exact: s].
exact: (C65_sl2c_orthonormal h h e e (isT : (0 < 1)%N) (isT : (0 < 1)%N)).
Qed.
End Props.
