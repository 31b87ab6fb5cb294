(** ReduceMx: the linear algebra behind reduce: eigenspaces of an element of the
    commutant, small thresholds, rows of blocks. *)
From Coq Require Import ZArith String Ascii.
From mathcomp Require Import all_ssreflect all_algebra.
From mathcomp Require Import zify.
From mathcomp.real_closed Require Import mxtens.
From Verif Require Import Base Nd NdProofs Reps Pinv RepSpec RepProofs RepOps Reduced ReducedProofs TpProofs LinAlg GsMx LinAlgProofs IcbProofs BiProofs.

Set Implicit Arguments.
Unset Strict Implicit.
Unset Printing Implicit Defensive.

Import Order.POrderTheory GRing.Theory Num.Theory.
Local Open Scope ring_scope.

Section ReduceMx.
Variable C : numClosedFieldType.
Notation nd := (nd C).
Notation id_ := (fun x : nd => x).

(** ** Small thresholds *)
Lemma small2 (a b : C) : 0 < a -> 0 < b -> exists2 e0 : C, 0 < e0 & e0 <= a /\ e0 <= b.
Proof.
move=> a0 b0; have [e0 p h] := min_pos [:: a; b].
by exists e0 => //; split; apply: h; rewrite ?inE ?eqxx ?orbT.
Qed.
Lemma small_all K (P : nat -> C -> Prop) :
  (forall q, (q < K)%N -> exists2 e0 : C, 0 < e0 & forall e, 0 < e -> e <= e0 -> P q e) ->
  exists2 e0 : C, 0 < e0 & forall q, (q < K)%N -> forall e, 0 < e -> e <= e0 -> P q e.
Proof.
elim: K => [|K ih] h; first by exists 1; rewrite ?ltr01.
have [|a a0 ha] := ih; first by move=> q hq; apply: h; rewrite ltnS ltnW.
have [b b0 hb] := h K (ltnSn K); have [e0 p [la lb]] := small2 a0 b0.
exists e0 => // q; rewrite ltnS leq_eqVlt => /orP[/eqP->|hq] e p0 le.
  by apply: hb => //; apply: le_trans le lb.
by apply: ha => //; apply: le_trans le la.
Qed.
Lemma small_sq n : exists2 e0 : C, 0 < e0 & forall e, 0 < e -> e <= e0 -> n%:R * e ^+ 2 < 1.
Proof.
have N1 : 0 < (n.+1%:R : C) by rewrite ltr0n.
exists (n.+1%:R)^-1; rewrite ?invr_gt0 // => e e0 le1.
have h1 : n.+1%:R * e <= 1 by rewrite mulrC -ler_pdivl_mulr // div1r.
apply: (@le_lt_trans _ _ (n%:R * e)).
  rewrite expr2 mulrA; apply: ler_pimulr; first by rewrite mulr_ge0 ?ler0n // ltW.
  apply: (le_trans le1); rewrite invf_le1 // -[1]/(1%:R) ler_nat //.
by apply: lt_le_trans h1; rewrite mulrSr mulrDl mul1r ltr_addl.
Qed.
(** The commutant equations have a gap. *)
Lemma gap2_small N d1 d2 (X1 : nat -> 'M[C]_d1) (X2 : nat -> 'M[C]_d2) :
  exists2 e0 : C, 0 < e0 & forall e, 0 < e -> e <= e0 -> gap2 N X1 X2 e.
Proof.
pose K (a : 'I_N) := Kmx (X1 a) (X2 a).
pose A : 'M[C]_(N * (d1 * d2), d1 * d2) := \matrix_(i, j) K (mxtens_unindex i).1 (mxtens_unindex i).2 j.
have AK i p q : A (mxtens_index (i, p)) q = K i p q by rewrite mxE mxtens_indexK.
have ps : psd (adj A *m A) by exists (N * (d1 * d2))%N, (adj A); rewrite adjK.
have [dl dl0 st] := psd_stretch ps; have gp := psd_gap ps dl0 st.
exists dl => // e e0 le c S S0 eS.
have := gp c (vecr S)^T; rewrite (blocks_gram AK) /K lap_gram eS !linearZ /= => /(_ _ erefl) [|->|h].
- apply: contra S0 => /eqP z; rewrite -[S]vecrK -[vecr S]trmxK z trmx0.
  by apply/eqP/matrixP=> i j; rewrite !mxE.
- by left.
- by right; apply: le_trans le h.
Qed.
(** Below a threshold gram_schmidt keeps all the independent vectors. *)
Lemma gs_stable (a : nd) : exists2 e0 : C, 0 < e0 & forall e, 0 < e -> e <= e0 ->
  gram_schmidt id_ e a = gram_schmidt id_ 0 a.
Proof.
rewrite /gram_schmidt; case: (shape a) => [|m [|n [|? ?]]]; try by exists 1; rewrite ?ltr01.
suff [e0 p h] : exists2 e0 : C, 0 < e0 & forall e, 0 < e -> e <= e0 ->
    foldl (gs_row id_ e n) [::] (rows a) = foldl (gs_row id_ 0 n) [::] (rows a).
  by exists e0 => // e h1 h2; rewrite h.
elim: (rows a) [::] => [|x l ih] Q /=; first by exists 1; rewrite ?ltr01.
have [e1 p1 h1] := ih (gs_row id_ 0 n Q x).
rewrite /gs_row /gs_new in h1 *; set v := foldl _ x Q in h1 *.
have [v0|v0] := boolP (0 < vnorm n v).
  rewrite v0 in h1; have v2 : 0 < vnorm n v / 2%:R by rewrite divr_gt0 ?ltr0n.
  have [e0 p [le1 le2]] := small2 p1 v2; exists e0 => // e p0 le; rewrite -/(gs_row id_ e n).
  have -> : e < vnorm n v.
    apply: le_lt_trans le _; apply: le_lt_trans le2 _; rewrite ltr_pdivr_mulr ?ltr0n //.
    by rewrite mulr_natr mulr2n ltr_addl.
  by apply: h1 => //; apply: le_trans le le1.
rewrite (negbTE v0) in h1; exists e1 => // e p0 le.
have -> : (e < vnorm n v) = false by apply/negP => h; rewrite (lt_trans p0 h) in v0.
by apply: h1.
Qed.

(** ** A stable subspace and its complement *)
Section Blk.
Variables (d k N : nat) (X : nat -> 'M[C]_d) (P : 'M[C]_d) (E : 'M[C]_(d, k)) (F0 : 'M[C]_(k, d)).
Hypothesis PX : forall a, (a < N)%N -> P *m X a = X a *m P.
Hypothesis EE : adj E *m E = 1%:M.
Hypothesis PE : P *m E = E.
Hypothesis PF : P = E *m F0.
Variables (F : 'M[C]_(k, d)) (Y : nat -> 'M[C]_k).
Hypothesis FP : F = adj E *m P.
Hypothesis YE : forall a, (a < N)%N -> Y a = adj E *m X a *m E.
Lemma blk_EF : E *m F = P.
Proof. by rewrite FP {1}PF (mulmxA (adj E)) EE mul1mx -PF. Qed.
Lemma blk_FE : F *m E = 1%:M.
Proof. by rewrite FP -mulmxA PE EE. Qed.
Lemma blk_XE a : (a < N)%N -> X a *m E = E *m Y a.
Proof.
move=> ha; have e : X a *m E = E *m (F *m X a *m E) by rewrite !mulmxA blk_EF PX // -mulmxA PE.
by rewrite YE // -(mulmxA (adj E)) [in RHS]e (mulmxA (adj E)) EE mul1mx -e.
Qed.
Lemma blk_FX a : (a < N)%N -> F *m X a = Y a *m F.
Proof. by move=> ha; rewrite YE // -!mulmxA blk_EF -PX // FP mulmxA. Qed.
End Blk.

Section Core.
Variables (d N : nat) (X : nat -> 'M[C]_d).
Hypothesis Xr : forall a, (a < N)%N -> map_mx conjC (X a) = X a.
Variables (M V : 'M[C]_d) (w : 'rV[C]_d) (lab : 'I_d -> nat).
Hypothesis MX : forall a, (a < N)%N -> M *m X a = X a *m M.
Hypothesis uV : V \in unitmx.
Hypothesis MV : M *m V = V *m diag_mx w.
Hypothesis labP : forall i j, w 0 i = w 0 j -> lab i = lab j.
Definition Dq q : 'M[C]_d := diag_mx (\row_i (lab i == q)%:R).
Let cV := map_mx conjC V.
Definition Pq q := cV *m Dq q *m invmx cV.
Lemma ucV : cV \in unitmx. Proof. by rewrite map_unitmx. Qed.
Lemma Dq_idem q : Dq q *m Dq q = Dq q.
Proof. by rewrite mulmx_diag; congr diag_mx; apply/rowP=> i; rewrite !mxE -natrM mulnb andbb. Qed.
Lemma Pq_idem q : Pq q *m Pq q = Pq q.
Proof. by rewrite /Pq !mulmxA mulmxKV ?ucV // -(mulmxA cV) Dq_idem. Qed.
Lemma Pq_orth q q' : q != q' -> Pq q *m Pq q' = 0.
Proof.
move=> ne; rewrite /Pq !mulmxA mulmxKV ?ucV // -(mulmxA cV).
have -> : Dq q *m Dq q' = 0.
  rewrite mulmx_diag; apply/matrixP=> i j; rewrite !mxE; case: (lab i =P q) => [->|_]; last by rewrite mul0r mul0rn.
  by rewrite (negbTE ne) mulr0 mul0rn.
by rewrite mulmx0 mul0mx.
Qed.
Lemma Pq_sum K : (forall i, lab i < K)%N -> \sum_(q < K) Pq q = 1%:M.
Proof.
move=> h; rewrite -mulmx_suml -mulmx_sumr (_ : \sum_(q < K) Dq q = 1%:M) ?mulmx1 ?mulmxV ?ucV //.
apply/matrixP=> i j; rewrite summxE !mxE (bigD1 (Ordinal (h i))) //= !mxE eqxx big1 ?addr0 // => q ne.
by rewrite !mxE eq_sym -val_eqE /= in ne *; rewrite (negbTE ne) mul0rn.
Qed.
Lemma Z_sep a i j : (a < N)%N -> lab i != lab j -> (invmx V *m X a *m V) i j = 0.
Proof.
move=> ha ne; set Z := invmx V *m X a *m V.
have e : diag_mx w *m Z = Z *m diag_mx w.
  have wE : diag_mx w = invmx V *m M *m V by rewrite -mulmxA MV mulmxA mulVmx // mul1mx.
  by rewrite wE /Z !mulmxA !mulmxK // -(mulmxA (invmx V) M) MX // !mulmxA.
have /matrixP/(_ i j) := e; rewrite mul_diag_mx mul_mx_diag !mxE.
rewrite -/(Z i j) => h; apply/eqP; apply: contraT => z0.
by move: h; rewrite mulrC => /(mulfI z0) /labP/eqP; rewrite (negbTE ne).
Qed.
Lemma Vq_comm a q : (a < N)%N -> V *m Dq q *m invmx V *m X a = X a *m (V *m Dq q *m invmx V).
Proof using MX uV MV labP.
move=> ha; have e : Dq q *m (invmx V *m X a *m V) = invmx V *m X a *m V *m Dq q.
  apply/matrixP=> i j; rewrite mul_diag_mx mul_mx_diag !mxE.
  have [le|ne] := eqVneq (lab i) (lab j); first by rewrite le mulrC.
  by have := Z_sep ha ne; rewrite mxE => ->; rewrite mulr0 mul0r.
have := congr1 (fun T => V *m T *m invmx V) e; rewrite !mulmxA mulmxV // mul1mx => <-.
by rewrite !mulmxK.
Qed.
Lemma Pq_comm a q : (a < N)%N -> Pq q *m X a = X a *m Pq q.
Proof.
move=> ha; have e := Vq_comm q ha.
have DR : map_mx conjC (Dq q) = Dq q.
  by rewrite map_diag_mx; congr diag_mx; apply/rowP=> i; rewrite !mxE conjC_nat.
by have := congr1 (map_mx (@conjC C)) e; rewrite !map_mxM map_invmx DR Xr.
Qed.
(** An orthonormal basis of the rows of V^T with label q. *)
Lemma Pq_basis q k (B : 'M[C]_(k, d)) : (B :=: Dq q *m V^T)%MS ->
  Pq q *m adj B = adj B /\ exists F0, Pq q = adj B *m F0.
Proof.
move=> h; have /submxP[G eB] : (B <= Dq q *m V^T)%MS by rewrite h.
have /submxP[G' eV] : (Dq q *m V^T <= B)%MS by rewrite h.
have DA : adj (Dq q) = Dq q.
  by apply/matrixP=> i j; rewrite !mxE; case: (eqVneq i j) => [->|_]; rewrite ?mulr1n ?mulr0n ?conjC_nat ?conjC0.
have VA : adj V^T = cV by apply/matrixP=> i j; rewrite !mxE.
split; first by rewrite eB !adjM VA DA /Pq !mulmxA mulmxKV ?ucV // -(mulmxA cV) Dq_idem.
exists (adj G' *m invmx cV); rewrite mulmxA -adjM -eV adjM VA DA //.
Qed.
Lemma Vq_stable q k (B : 'M[C]_(k, d)) : (B :=: Dq q *m V^T)%MS -> forall a, (a < N)%N -> exists G, X a *m B^T = B^T *m G.
Proof using MX uV MV labP.
move=> h a ha; have /submxP[G eB] : (B <= Dq q *m V^T)%MS by rewrite h.
have /submxP[G' eV] : (Dq q *m V^T <= B)%MS by rewrite h.
have DT : (Dq q)^T = Dq q by rewrite tr_diag_mx.
have e1 : V *m Dq q *m invmx V *m B^T = B^T.
  by rewrite eB !trmx_mul trmxK DT !mulmxA mulmxKV // -(mulmxA V) Dq_idem.
have e2 : V *m Dq q = B^T *m G'^T by rewrite -trmx_mul -eV trmx_mul trmxK DT.
exists (G'^T *m invmx V *m X a *m B^T); rewrite -{1}e1 mulmxA -Vq_comm // e2 !mulmxA //.
Qed.
End Core.

(** ** Restriction of a representation *)
Lemma is_mrep_restrict (T : theory C) d k (X H : nat -> 'M[C]_d) (Y Z : nat -> 'M[C]_k) (E : 'M[C]_(d, k)) (B : 'M[C]_(k, d)) :
  B *m E = 1%:M -> (forall a, (a < th_l T)%N -> X a *m E = E *m Y a) -> (forall a, (a < th_h T)%N -> H a *m E = E *m Z a) ->
  is_mrep T X H -> is_mrep T Y Z.
Proof.
move=> BE hX hH [ha hb hc].
have inj n (U W : 'M[C]_(k, n)) : E *m U = E *m W -> U = W.
  by move=> e; rewrite -[U]mul1mx -[W]mul1mx -BE -!mulmxA e.
split.
- move=> i j hi hj; apply: inj; rewrite mulmxBr !mulmxA -!hX // -!mulmxA -!hX // !mulmxA -mulmxBl ha //.
  by rewrite mulmx_suml mulmx_sumr; apply: eq_bigr => l _; rewrite -scalemxAl hX // -scalemxAr.
- have wd u : all (fun b => b < th_h T)%N u -> word H u *m E = E *m word Z u.
    by elim: u => [|b u ih] /=; [rewrite mul1mx mulmx1 | case/andP=> h1 h2; rewrite -mulmxA ih // !mulmxA hH].
  move=> u v r hw; apply: inj; have := hw; rewrite all_cat => /andP[h1 h2].
  by rewrite -!wd // (hb _ _ r).
- move=> c hcc b i h1 h2; apply: inj; rewrite mulmxA -hH // -mulmxA -hX // mulmxA (hc _ hcc) // -mulmxA hH // !mulmxA; congr (_ *m _).
  by rewrite mulmx_suml mulmx_sumr; apply: eq_bigr => l _; rewrite -scalemxAl hX // -scalemxAr.
Qed.

(** ** Rows of blocks *)
Fixpoint colsl (xs : seq (nat * (nat -> nat -> C))) (i c : nat) : C :=
  match xs with
  | [::] => 0
  | x :: xs' => if (c < x.1)%N then x.2 i c else colsl xs' i (c - x.1)
  end.
Lemma colsl_intertw (I : Type) (s : seq I) (k : I -> nat) (f g : I -> nat -> nat -> C) d (x : nat -> nat -> C) :
  (forall q, List.In q s -> forall i c, (i < d)%N -> (c < k q)%N ->
    \sum_(j < d) x i j * f q j c = \sum_(c' < k q) f q i c' * g q c' c) ->
  let L := [seq (k q, f q) | q <- s] in let D := sumn (map k s) in
  forall i c, (i < d)%N -> (c < D)%N ->
    \sum_(j < d) x i j * colsl L j c = \sum_(c' < D) colsl L i c' * dsl [seq (k q, g q) | q <- s] c' c.
Proof.
move=> h /=; elim: s h => [|q s ih] h i c hi //=.
move=> hc; rewrite big_split_ord /=.
have lt (c' : 'I_(k q)) : (c' < k q)%N by [].
have ge (c' : nat) : (k q + c' < k q)%N = false by rewrite ltnNge leq_addr.
have [hck|hck] := ltnP c (k q).
  rewrite [X in _ + X]big1 ?addr0 => [|c' _]; last by rewrite !ge /= ?andbF /= mulr0.
  rewrite h //; first by apply: eq_bigr => c' _; rewrite !lt.
  by left.
rewrite [X in X + _]big1 ?add0r => [|c' _]; last by rewrite !lt (leqNgt (k q) c') lt /= mulr0.
rewrite ih => [|q' hq'|//|]; last by rewrite -(ltn_add2l (k q)) subnKC.
  by apply: eq_bigr => c' _; rewrite !ge leq_addr addKn.
by apply: h; right.
Qed.
Lemma colsl_span (I : Type) (s : seq I) (k : I -> nat) (f : I -> nat -> nat -> C) q : List.In q s ->
  exists o, (o + k q <= sumn (map k s))%N /\
    forall i c, (c < k q)%N -> colsl [seq (k q, f q) | q <- s] i (o + c) = f q i c.
Proof.
elim: s => [//|q' s ih] /= [->|/ih [o [h1 h2]]].
  by exists 0%N; rewrite add0n leq_addr; split=> // i c hc; rewrite add0n hc.
exists (k q' + o)%N; rewrite -addnA leq_add2l; split=> // i c hc.
by rewrite -addnA ltnNge leq_addr addKn h2.
Qed.
End ReduceMx.
