(** IcbProofs: infer_change_of_basis finds the intertwiners. *)
From Coq Require Import ZArith String Ascii.
From mathcomp Require Import all_ssreflect all_algebra.
From mathcomp Require Import zify.
From mathcomp.real_closed Require Import mxtens.
From Verif Require Import Base Nd NdProofs Reps Pinv RepSpec RepProofs RepOps ReducedProofs TpProofs LinAlg GsMx LinAlgProofs.

Set Implicit Arguments.
Unset Strict Implicit.
Unset Printing Implicit Defensive.

Import Order.POrderTheory GRing.Theory Num.Theory.
Local Open Scope ring_scope.

Local Arguments stack : simpl never.

Section IcbProofs.
Variable C : numClosedFieldType.
Notation nd := (nd C).
Notation id_ := (fun x : nd => x).

(** np.concatenate of matrices of one shape. *)
Lemma foldR_concat m c (l : seq nd) k0 (acc : nd) : shape acc = [:: k0; c] ->
  all (fun b => shape b == [:: m; c]) l ->
  exists A, foldR (@concat2 C) acc l = Ok A /\ shape A = [:: (k0 + size l * m)%N; c] /\
  (forall p q, (p < k0)%N -> get A [:: p; q] = get acc [:: p; q]) /\
  (forall i p q, (i < size l)%N -> (p < m)%N ->
     get A [:: (k0 + (i * m + p))%N; q] = get (nth (zeros [::]) l i) [:: p; q]).
Proof.
elim: l k0 acc => [|b l ih] k0 acc sa /=.
  by move=> _; exists acc; rewrite mul0n addn0.
case/andP=> /eqP sb sl; rewrite {1}/concat2 /len sa sb /= eqxx /=.
set acc' := Nd _ _.
have [A [eA [sA [g1 g2]]]] := ih (k0 + m)%N acc' erefl sl.
exists A; split=> //; split; first by rewrite sA mulSn addnA.
split=> [p q hp|[|i] p q hi hp].
- by rewrite g1 ?(leq_trans hp) ?leq_addr //= hp.
- by rewrite mul0n add0n g1 ?ltn_add2l //= ltnNge leq_addr addKn.
- by rewrite mulSn -!addnA addnA g2.
Qed.
Lemma concat0P m c (l : seq nd) : (0 < size l)%N -> all (fun b => shape b == [:: m; c]) l ->
  exists A, concat0 l = Ok A /\ shape A = [:: (size l * m)%N; c] /\
  forall i p q, (i < size l)%N -> (p < m)%N ->
     get A [:: (i * m + p)%N; q] = get (nth (zeros [::]) l i) [:: p; q].
Proof.
case: l => [//|a l] _ /= /andP[/eqP sa sl].
have [A [eA [sA [g1 g2]]]] := foldR_concat sa sl.
exists A; split=> //; split; first by rewrite sA mulSn.
case=> [|i] p q hi hp /=; first by rewrite mul0n g1.
by rewrite mulSn -addnA g2.
Qed.

Lemma sum_tensC m n (F : 'I_(m * n) -> C) : \sum_x F x = \sum_(i < m) \sum_(j < n) F (mxtens_index (i, j)).
Proof.
rewrite pair_big /= (reindex (@mxtens_index m n)) /=; last first.
  by exists (@mxtens_unindex m n) => x _; rewrite ?mxtens_indexK ?mxtens_unindexK.
by apply: eq_bigr => -[].
Qed.
(** The Gram matrix and the kernel of a matrix made of blocks of rows. *)
Lemma blocks_gram N m c (A : 'M[C]_(N * m, c)) (K : 'I_N -> 'M[C]_(m, c)) :
  (forall i p q, A (mxtens_index (i, p)) q = K i p q) ->
  adj A *m A = \sum_i adj (K i) *m K i.
Proof.
move=> h; apply/matrixP=> x y; rewrite mxE sum_tensC summxE; apply: eq_bigr => i _.
by rewrite [RHS]mxE; apply: eq_bigr => p _; rewrite !mxE !h.
Qed.
Lemma blocks_ker N m c (A : 'M[C]_(N * m, c)) (K : 'I_N -> 'M[C]_(m, c)) (x : 'cV[C]_c) :
  (forall i p q, A (mxtens_index (i, p)) q = K i p q) ->
  A *m x = 0 <-> forall i, K i *m x = 0.
Proof.
move=> h; have E i p : (A *m x) (mxtens_index (i, p)) 0 = (K i *m x) p 0.
  by rewrite !mxE; apply: eq_bigr => q _; rewrite h.
split=> [e i|e]; apply/colP=> p; first by rewrite -E e !mxE.
by case: (mxtens_indexP p) => i p'; rewrite E e !mxE.
Qed.

(** Row-major vectorisation and the operator S -> x1 S - S x2. *)
Section Vec.
Variables d1 d2 : nat.
Definition vecr (S : 'M[C]_(d1, d2)) : 'rV[C]_(d1 * d2) :=
  \row_k S (mxtens_unindex k).1 (mxtens_unindex k).2.
Definition unvecr (v : 'rV[C]_(d1 * d2)) : 'M[C]_(d1, d2) := \matrix_(i, j) v 0 (mxtens_index (i, j)).
Lemma vecrK : cancel vecr unvecr.
Proof. by move=> S; apply/matrixP=> i j; rewrite !mxE mxtens_indexK. Qed.
Lemma unvecrK : cancel unvecr vecr.
Proof. by move=> v; apply/rowP=> k; rewrite !mxE -surjective_pairing mxtens_unindexK. Qed.
Lemma vecr_is_linear : linear vecr.
Proof. by move=> c S T; apply/rowP=> k; rewrite !mxE. Qed.
Canonical vecr_linear := Linear vecr_is_linear.
Lemma vecr_hip (S T : 'M[C]_(d1, d2)) : hip (vecr S) (vecr T) = \tr (S *m adj T).
Proof.
rewrite /hip mxE sum_tensC; apply: eq_bigr => i _; rewrite mxE; apply: eq_bigr => j _.
by rewrite !mxE mxtens_indexK.
Qed.

Definition Kmx (x1 : 'M[C]_d1) (x2 : 'M[C]_d2) : 'M[C]_(d1 * d2) := x1 *t (1%:M : 'M_d2) - (1%:M : 'M_d1) *t x2^T.
Lemma adj_tens m n p q (A : 'M[C]_(m, n)) (B : 'M[C]_(p, q)) : adj (A *t B) = adj A *t adj B.
Proof. by apply/matrixP=> i j; rewrite !mxE rmorphM. Qed.
Lemma Kmx_adj x1 x2 : adj (Kmx x1 x2) = Kmx (adj x1) (adj x2).
Proof.
rewrite /Kmx adjB !adj_tens !adj1; congr (_ - _ *t _).
by apply/matrixP=> i j; rewrite !mxE.
Qed.
Lemma Kmx_vec x1 x2 S : Kmx x1 x2 *m (vecr S)^T = (vecr (x1 *m S - S *m x2))^T.
Proof.
rewrite /Kmx mulmxBl linearB /= [in RHS]linearB /=; congr (_ - _); apply/colP=> k; case: (mxtens_indexP k) => i j.
- rewrite !mxE sum_tensC mxtens_indexK /=; apply: eq_bigr => i' _.
  rewrite (bigD1 j) //= big1 ?addr0 => [|j' ne]; rewrite !mxE !mxtens_indexK /=.
    by rewrite eqxx mulr1.
  by rewrite eq_sym (negPf ne) mulr0 mul0r.
- rewrite !mxE sum_tensC mxtens_indexK /= (bigD1 i) //= [X in _ + X]big1 ?addr0 => [|i' ne]; last first.
    by apply: big1 => j' _; rewrite !mxE !mxtens_indexK /= eq_sym (negPf ne) !mul0r.
  by apply: eq_bigr => j' _; rewrite !mxE !mxtens_indexK /= eqxx mul1r mulrC.
Qed.

(** The operator sum_a ad_a^H ad_a for ad_a(S) = X1_a S - S X2_a. *)
Definition ad (x1 : 'M[C]_d1) (x2 : 'M[C]_d2) (S : 'M[C]_(d1, d2)) := x1 *m S - S *m x2.
Definition lap (N : nat) (X1 : nat -> 'M[C]_d1) (X2 : nat -> 'M[C]_d2) (S : 'M[C]_(d1, d2)) : 'M[C]_(d1, d2) :=
  \sum_(a < N) ad (adj (X1 a)) (adj (X2 a)) (ad (X1 a) (X2 a) S).
Definition gap2 N X1 X2 (eps : C) : Prop :=
  forall c S, S != 0 -> lap N X1 X2 S = c *: S -> c = 0 \/ eps <= c.
Definition intertw (N : nat) (X1 : nat -> 'M[C]_d1) (X2 : nat -> 'M[C]_d2) (S : 'M[C]_(d1, d2)) : Prop :=
  forall a, (a < N)%N -> X1 a *m S = S *m X2 a.

Lemma lap_gram N (X1 : nat -> 'M[C]_d1) (X2 : nat -> 'M[C]_d2) S :
  (\sum_(a < N) adj (Kmx (X1 a) (X2 a)) *m Kmx (X1 a) (X2 a)) *m (vecr S)^T = (vecr (lap N X1 X2 S))^T.
Proof.
rewrite /lap mulmx_suml linear_sum /= linear_sum /=; apply: eq_bigr => a _.
by rewrite -mulmxA Kmx_vec Kmx_adj Kmx_vec.
Qed.

(** The block of rows of one pair of generators. *)
Lemma icb_block (x1 x2 : nd) : shape x1 = [:: d1; d1] -> shape x2 = [:: d2; d2] ->
  exists c, (do u <- np_kron x1 (eye d2); do v <- np_kron (eye d1) (transpose2 x2); sub u v) = Ok c /\
  shape c = [:: (d1 * d2)%N; (d1 * d2)%N] /\
  mx2 (d1 * d2) (d1 * d2) c = Kmx (mx2 d1 d1 x1) (mx2 d2 d2 x2).
Proof.
move=> s1 s2; rewrite /np_kron s1 /= s2 /=.
set u := Nd _ _; set v := Nd _ _.
have [c [e [sc gc]]] := @bmap2_same _ (fun x y => x - y) u v erefl.
exists c; split; first exact: e; split=> //.
apply/matrixP=> i j; rewrite !mxE gc; last by rewrite /valid /= !ltn_ord.
by rewrite /= -!val_eqE.
Qed.
End Vec.

(** The list of the blocks. *)
Lemma icb_blocks N d1 d2 (X1 X2 : nd) : shape X1 = [:: N; d1; d1] -> shape X2 = [:: N; d2; d2] ->
  exists As, mapR (fun p : nd * nd =>
        do u <- np_kron p.1 (eye d2);
        do v <- np_kron (eye d1) (transpose2 p.2);
        sub u v) (zip (rows X1) (rows X2)) = Ok As /\
  size As = N /\ all (fun b => shape b == [:: (d1 * d2)%N; (d1 * d2)%N]) As /\
  forall i, (i < N)%N -> mx2 (d1 * d2) (d1 * d2) (nth (zeros [::]) As i) = Kmx (mx3 d1 d1 X1 i) (mx3 d2 d2 X2 i).
Proof.
move=> s1 s2; rewrite /rows /len s1 s2 /=.
have: forall i, i \in iota 0 N -> (i < N)%N by move=> i; rewrite mem_iota.
suff H l k : (forall i, i \in iota k l -> (i < N)%N) -> exists As, mapR (fun p : nd * nd =>
        do u <- np_kron p.1 (eye d2);
        do v <- np_kron (eye d1) (transpose2 p.2);
        sub u v) (zip [seq slice0 X1 k | k <- iota k l] [seq slice0 X2 k | k <- iota k l]) = Ok As /\
  size As = l /\ all (fun b => shape b == [:: (d1 * d2)%N; (d1 * d2)%N]) As /\
  forall i, (i < l)%N -> mx2 (d1 * d2) (d1 * d2) (nth (zeros [::]) As i) = Kmx (mx3 d1 d1 X1 (k + i)) (mx3 d2 d2 X2 (k + i)).
  exact: H.
elim: l k => [|l ih] k hk /=; first by exists [::].
have z1 : shape (slice0 X1 k) = [:: d1; d1] by rewrite /= s1.
have z2 : shape (slice0 X2 k) = [:: d2; d2] by rewrite /= s2.
have [c [+ [sc gc]]] := icb_block z1 z2; rewrite /= => ->.
have [|As [-> [sz [al g]]]] := ih k.+1.
  by move=> i hi; apply: hk; rewrite inE hi orbT.
exists (c :: As); split=> //; split; first by rewrite /= sz.
split; first by rewrite /= sc eqxx.
case=> [|i] hi /=; last by rewrite g // addnS addSn.
rewrite gc addn0; congr Kmx; by apply/matrixP=> p q; rewrite !mxE.
Qed.

(** k matrices form an orthogonal basis (for tr(S T^H)) of the space K, with squared
    norms w. *)
Definition frame d1 d2 (w : C) (k : nat) (S : nat -> 'M[C]_(d1, d2)) (K : 'M[C]_(d1, d2) -> Prop) : Prop :=
  (forall i j, (i < k)%N -> (j < k)%N -> \tr (S i *m adj (S j)) = (i == j)%:R * w) /\
  forall T, K T <-> exists c : nat -> C, T = \sum_(i < k) c i *: S i.

Section Icb.
Variable eigh : nd -> res (nd * nd).
Hypothesis eighP : eigh_correct eigh.
Variable eps : C.
Hypothesis eps0 : 0 < eps.

Theorem icbP N d1 d2 (X1 X2 : nd) : (0 < N)%N -> (0 < d1)%N -> (0 < d2)%N ->
  (d1 * d2)%:R * eps ^+ 2 < 1 -> shape X1 = [:: N; d1; d1] -> shape X2 = [:: N; d2; d2] ->
  gap2 N (mx3 d1 d1 X1) (mx3 d2 d2 X2) eps ->
  exists k b, icb id_ eigh eps X1 X2 = Ok b /\ shape b = [:: k; d1; d2] /\
    frame 1 k (mx3 d1 d2 b) (intertw N (mx3 d1 d1 X1) (mx3 d2 d2 X2)).
Proof.
move=> N0 d10 d20 ne s1 s2 gp.
rewrite /icb /promote s1 s2 /= s1 s2 !eqxx /=.
have [As [-> [sz [al gA]]]] := icb_blocks s1 s2; rewrite /=.
have [|A [-> [sA g]]] := @concat0P (d1 * d2)%N (d1 * d2)%N As _ al; first by rewrite sz.
rewrite /=; rewrite sz in sA g.
pose K (i : 'I_N) := Kmx (mx3 d1 d1 X1 i) (mx3 d2 d2 X2 i).
have AK i p q : mx2 (N * (d1 * d2)) (d1 * d2) A (mxtens_index (i, p)) q = K i p q.
  by rewrite mxE /= g // /K -gA // mxE.
have [|k [b [eb [sb [b1 bK]]]]] := nullspaceP eighP eps0 ne sA.
  move=> c x x0; rewrite (blocks_gram AK).
  have -> : x = (vecr (unvecr x^T))^T by rewrite unvecrK trmxK.
  rewrite lap_gram -!linearZ /= => /trmx_inj/(can_inj (@vecrK d1 d2)) e.
  apply: gp e; apply: contra x0 => /eqP z.
  by rewrite -[x]trmxK -(unvecrK x^T) z linear0 trmx0.
rewrite eb /= /reshape_m1 sb /= muln1.
have D0 : (0 < d1 * d2)%N by rewrite muln_gt0 d10.
rewrite (gtn_eqF D0) muln1 mulnK //.
have [|c [ec [sc gc]]] := @reshapeP _ b [:: k; d1; d2]; first by rewrite sb /= !muln1.
exists k, c; split=> //; split=> //.
have SB (i : 'I_k) : vecr (mx3 d1 d2 c i) = row i (mx2 k (d1 * d2) b).
  apply/rowP=> q; case: (mxtens_indexP q) => u v; rewrite !mxE mxtens_indexK /=.
  apply: gc; first by rewrite sb /valid /= ltn_ord (mxtens_index_proof (u, v)).
  by rewrite sb /= !muln1 !addn0.
split=> [i j hi hj|T].
  rewrite mulr1 -vecr_hip (SB (Ordinal hi)) (SB (Ordinal hj)).
  move/matrixP/(_ (Ordinal hi) (Ordinal hj)): b1; rewrite [RHS]mxE => <-.
  by rewrite /hip !mxE; apply: eq_bigr => q _; rewrite !mxE.
have E : intertw N (mx3 d1 d1 X1) (mx3 d2 d2 X2) T <-> mx2 (N * (d1 * d2)) (d1 * d2) A *m (vecr T)^T = 0.
  rewrite (blocks_ker _ AK); split=> [h i|h a ha].
    by rewrite /K Kmx_vec h // subrr linear0 trmx0.
  have := h (Ordinal ha); rewrite /K Kmx_vec -[RHS]trmx0 => /trmx_inj.
  rewrite -[RHS](linear0 (vecr_linear d1 d2)) => /(can_inj (@vecrK d1 d2)) /eqP.
  by rewrite subr_eq0 => /eqP.
rewrite E bK; split.
- case/submxP=> y ey; exists (fun i => if insub i is Some o then y 0 o else 0).
  apply: (can_inj (@vecrK d1 d2)); rewrite ey mulmx_sum_row linear_sum; apply: eq_bigr => i _.
  by rewrite linearZ /= SB valK.
- case=> y ->; rewrite linear_sum summx_sub // => i _.
  by rewrite linearZ /= SB scalemx_sub // row_sub.
Qed.
Lemma icb_mismatch N N' d1 d2 (X1 X2 : nd) : shape X1 = [:: N; d1; d1] -> shape X2 = [:: N'; d2; d2] -> N != N' ->
  icb id_ eigh eps X1 X2 = Err AssertionError.
Proof. by move=> s1 s2 ne; rewrite /icb /promote s1 s2 /= s1 s2 eqxx /= eqseq_cons eq_sym (negPf ne). Qed.
Lemma icb_empty d1 d2 (X1 X2 : nd) : shape X1 = [:: 0; d1; d1]%N -> shape X2 = [:: 0; d2; d2]%N ->
  icb id_ eigh eps X1 X2 = Err ValueError.
Proof. by move=> s1 s2; rewrite /icb /promote s1 s2 /= s1 s2 !eqxx /= /rows /len s1 s2. Qed.

Lemma frame_ext d1 d2 w k (S S' : nat -> 'M[C]_(d1, d2)) K K' : (forall i, (i < k)%N -> S i = S' i) ->
  (forall T, K T <-> K' T) -> frame w k S K -> frame w k S' K'.
Proof.
move=> e eK [h1 h2]; split=> [i j hi hj|T]; first by rewrite -!e // h1.
rewrite -eK h2; split=> -[c ->]; exists c; apply: eq_bigr => i _; by rewrite e.
Qed.
Lemma frame_scale d1 d2 w c k (S S' : nat -> 'M[C]_(d1, d2)) K : c != 0 -> (forall i, (i < k)%N -> S' i = c *: S i) ->
  frame w k S K -> frame (c * c^* * w) k S' K.
Proof.
move=> c0 e [h1 h2]; split=> [i j hi hj|T].
  by rewrite !e // adjZ -scalemxAl -scalemxAr !linearZ /= h1 // mulrA mulrCA.
rewrite h2; split=> -[y ->].
  exists (fun i => y i / c); apply: eq_bigr => i _; by rewrite e // scalerA divfK.
exists (fun i => y i * c); apply: eq_bigr => i _; by rewrite e // scalerA.
Qed.

(** ** Representations *)
Lemma einsum_YA M k d1 d2 (Y A : nd) : shape Y = [:: M; d2; d2] -> shape A = [:: k; d2; d1] ->
  exists c, einsum2 "aij" "bjk" "abik" Y A = Ok c /\ shape c = [:: M; k; d2; d1] /\
  forall a b i l, get c [:: a; b; i; l] = \sum_(j < d2) get Y [:: a; i; j : nat] * get A [:: b; j : nat; l].
Proof.
move=> s1 s2; rewrite /einsum2 /einsum_ops /= s1 s2 /= eqxx /=.
eexists; split; first by []; split=> // a b i l /=.
by apply: eq_bigr => j _; rewrite /term /= /lookup0 /= mulr1.
Qed.
Lemma einsum_AY M k d1 d2 (Y A : nd) : shape Y = [:: M; d1; d1] -> shape A = [:: k; d2; d1] ->
  exists c, einsum2 "bij" "ajk" "abik" A Y = Ok c /\ shape c = [:: M; k; d2; d1] /\
  forall a b i l, get c [:: a; b; i; l] = \sum_(j < d1) get A [:: b; i; j : nat] * get Y [:: a; j : nat; l].
Proof.
move=> s1 s2; rewrite /einsum2 /einsum_ops /= s1 s2 /= eqxx /=.
eexists; split; first by []; split=> // a b i l /=.
by apply: eq_bigr => j _; rewrite /term /= /lookup0 /= mulr1.
Qed.

(** The generators of a representation, first the X and then the H. *)
Definition gens (l d : nat) (r : rep C) (a : nat) : 'M[C]_d :=
  if (a < l)%N then mx3 d d (rX r) a else mx3 d d (rH r) (a - l).
Definition morphism (T : theory C) (d1 d2 : nat) (r1 r2 : rep C) (Q : 'M[C]_(d2, d1)) : Prop :=
  (forall a, (a < th_l T)%N -> Q *m mx3 d1 d1 (rX r1) a = mx3 d2 d2 (rX r2) a *m Q) /\
  (forall a, (a < th_h T)%N -> Q *m mx3 d1 d1 (rH r1) a = mx3 d2 d2 (rH r2) a *m Q).
Definition gap_rep (T : theory C) (d1 d2 : nat) (r1 r2 : rep C) (e : C) : Prop :=
  gap2 (th_l T + th_h T) (gens (th_l T) d2 r2) (gens (th_l T) d1 r1) e.

Lemma concat_gens T d (r : rep C) : is_rep T d r ->
  exists Y, concat2 (rX r) (rH r) = Ok Y /\ shape Y = [:: (th_l T + th_h T)%N; d; d] /\
  forall a, mx3 d d Y a = gens (th_l T) d r a.
Proof.
move=> h; rewrite /concat2 /len (ir_sX h) (ir_sH h) /= eqxx; eexists; split; first by [].
split=> // a; rewrite /gens; case: ifP => ha; by apply/matrixP=> i j; rewrite !mxE /= ha.
Qed.
Lemma morphism_gens T d1 d2 (r1 r2 : rep C) Q :
  intertw (th_l T + th_h T) (gens (th_l T) d2 r2) (gens (th_l T) d1 r1) Q <-> morphism T r1 r2 Q.
Proof.
split=> [h|[hX hH] a ha].
  split=> a ha; first by have := h a; rewrite /gens ha => ->; rewrite // ltn_addr.
  by have := h (th_l T + a)%N; rewrite ltn_add2l => /(_ ha); rewrite /gens ltnNge leq_addr /= addKn => ->.
rewrite /gens; case: ifP => hl; first by rewrite hX.
by rewrite hH // -(ltn_add2l (th_l T)) subnKC // leqNgt hl.
Qed.

Theorem rep_icbP T d1 d2 (r1 r2 : rep C) : is_rep T d1 r1 -> is_rep T d2 r2 ->
  (0 < th_l T + th_h T)%N -> (0 < d1)%N -> (0 < d2)%N -> (d2 * d1)%:R * eps ^+ 2 < 1 ->
  gap_rep T d1 d2 r1 r2 eps ->
  exists k b, rep_icb id_ eigh eps r1 r2 = Ok b /\ shape b = [:: k; d2; d1] /\
    frame d2%:R k (mx3 d2 d1 b) (morphism T r1 r2).
Proof.
move=> h1 h2 N0 d10 d20 ne gp; rewrite /rep_icb (close_A h1 h2) /=.
have [Y1 [-> [s1 g1]]] := concat_gens h1; have [Y2 [-> [s2 g2]]] := concat_gens h2; rewrite /=.
have [|k [b [-> [sb [f1 f2]]]]] := icbP N0 d20 d10 ne s2 s1.
  move=> c S S0; have -> : lap (th_l T + th_h T) (mx3 d2 d2 Y2) (mx3 d1 d1 Y1) S = lap (th_l T + th_h T) (gens (th_l T) d2 r2) (gens (th_l T) d1 r1) S.
    by apply: eq_bigr => a _; rewrite g1 g2.
  exact: gp.
have fr : frame 1 k (mx3 d2 d1 b) (morphism T r1 r2).
  split=> // S; rewrite -f2 -morphism_gens; split=> h a ha; have := h a ha; by rewrite g1 g2.
rewrite /=; have [x [-> [sx gx]]] := einsum_YA s2 sb; have [y [-> [sy gy]]] := einsum_AY s1 sb; rewrite /=.
have -> : allclose (atol8 C) (atol8 C) x y = Ok true.
  apply: allclose_eq; rewrite ?invr_ge0 ?exprn_ge0 ?ler0n //.
  split; first by rewrite sx sy.
  move=> [|a [|z [|i [|l [|? ?]]]]]; rewrite sx ?valid_cons // ?andbF // => /and5P[ha hz hi hl _].
  rewrite gx gy.
  have /f2 E : exists c : nat -> C, mx3 d2 d1 b z = \sum_(i0 < k) c i0 *: mx3 d2 d1 b i0.
    exists (fun i0 => (i0 == z)%:R); rewrite (bigD1 (Ordinal hz)) //= eqxx scale1r big1 ?addr0 // => i0 ne0.
    by rewrite -val_eqE /= in ne0; rewrite (negPf ne0) scale0r.
  have /matrixP/(_ (Ordinal hi) (Ordinal hl)) := E a ha; rewrite !mxE => F.
  transitivity (\sum_j mx3 d2 d2 Y2 a (Ordinal hi) j * mx3 d2 d1 b z j (Ordinal hl)).
    by apply: eq_bigr => j _; rewrite !mxE.
  by rewrite F; apply: eq_bigr => j _; rewrite !mxE.
rewrite /= /dim (ir_sX h2) /=; eexists; eexists; split; first by []; split; first exact: sb.
have sq : sqrtC (d2%:R : C) * (sqrtC d2%:R)^* * 1 = d2%:R.
  rewrite mulr1 conj_Creal; first by rewrite -expr2 sqrtCK.
  by rewrite ger0_real // sqrtC_ge0 ler0n.
rewrite -{1}sq; apply: frame_scale fr; first by rewrite sqrtC_eq0 pnatr_eq0 -lt0n.
by move=> i hi; apply/matrixP=> p q; rewrite !mxE.
Qed.
End Icb.
End IcbProofs.
