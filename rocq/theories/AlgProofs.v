(** AlgProofs: check_algebra_vs_generators and infer_algebra_from_generators. *)
From Coq Require Import ZArith String Ascii.
From mathcomp Require Import all_ssreflect all_algebra.
From mathcomp Require Import mxtens.
From mathcomp.zify Require Import zify.
From Verif Require Import Base Nd NdProofs Reps Util VmapProofs Pinv RepOps ReducedProofs McRing.

Set Implicit Arguments.
Unset Strict Implicit.
Unset Printing Implicit Defensive.

Import GRing.Theory Num.Theory.
Local Open Scope ring_scope.
Local Open Scope string_scope.

Section Alg.
Variable C : numClosedFieldType.
Notation nd := (nd C).

Lemma commutatorP d (a b : nd) : shape a = [:: d; d] -> shape b = [:: d; d] ->
  exists c, [/\ commutator a b = Ok c, shape c = [:: d; d] &
    mx2 d d c = mx2 d d a *m mx2 d d b - mx2 d d b *m mx2 d d a].
Proof.
move=> sa sb; rewrite /commutator.
have [x [-> [sx ex]]] := matmul_2_2 sa sb; have [y [-> [sy ey]]] := matmul_2_2 sb sa.
cbv beta iota delta [rbind sub].
have [|z [-> [sz ez]]] := @bmap2_same C (fun u v => u - v) x y; first by rewrite sx sy.
exists z; split=> //; first by rewrite sz sx.
rewrite -ex -ey; apply/matrixP => i j; rewrite !mxE ez // sx.
by rewrite !valid_cons !ltn_ord.
Qed.

(** [X_i, X_j] as a matrix. *)
Definition comm (d : nat) (X : nat -> 'M[C]_d) i j : 'M[C]_d := X i *m X j - X j *m X i.

Variable junk : seq nat -> C.

Lemma commutatorsP n d (X : nd) : shape X = [:: n; d; d] -> (0 < n)%N ->
  exists L, [/\ commutators junk X = Ok L, shape L = [:: n; n; d; d] &
    forall i j (a b : 'I_d), (i < n)%N -> (j < n)%N ->
      get L [:: i; j; a : nat; b : nat] = comm (mx3 d d X) i j a b].
Proof.
move=> sX n0; rewrite /commutators.
have cP i j : (i < n)%N -> (j < n)%N -> exists c, [/\ commutator (take_ax X i 0) (take_ax X j 0) = Ok c,
    shape c = [:: d; d] & mx2 d d c = comm (mx3 d d X) i j].
  move=> hi hj; have [||c [ce sc mc]] := @commutatorP d (take_ax X i 0) (take_ax X j 0).
  - by rewrite /= sX.
  - by rewrite /= sX.
  by exists c; split=> //; rewrite mc /comm.
(* the inner vmap *)
have iP j : (j < n)%N -> exists r, [/\ vmap junk (fun2 (@commutator C)) (inr [:: Some 0; None]) 0 None [:: X; take_ax X j 0] = Ok (VArr r),
   shape r = [:: n; d; d] & forall i (a b : 'I_d), (i < n)%N -> get r [:: i; a : nat; b : nat] = comm (mx3 d d X) i j a b].
  move=> hj.
  pose out i := if commutator (take_ax X i 0) (take_ax X j 0) is Ok c then c else zeros [::].
  have [||||||r [rE rs rg]] := @vmap_arr C junk (fun2 (@commutator C)) (inr [:: Some 0; None]) 0 None [:: X; take_ax X j 0] n 0%N [:: d; d] out.
  - by [].
  - by rewrite /= /axis_ok /= sX /= eqxx.
  - by [].
  - by [].
  - move=> i hi; rewrite /slices /= sX /= /out; have [c [-> sc _]] := cP i j hi hj.
    by split.
  - by [].
  exists r; split=> // i a b hi; have := rg i [:: a : nat; b : nat] hi erefl.
  rewrite /insert_at /= => ->; rewrite /out; have [c [-> sc mc]] := cP i j hi hj.
  by rewrite -mc mxE.
pose out j := if vmap junk (fun2 (@commutator C)) (inr [:: Some 0; None]) 0 None [:: X; take_ax X j 0] is Ok (VArr r) then r else zeros [::].
pose f := vmap junk (fun2 (@commutator C)) (inr [:: Some 0; None]) 0 None; rewrite -/f.
have [||||||r [rE rs rg]] := @vmap_arr C junk f (inr [:: None; Some 0]) 1 None [:: X; X] n 1%N [:: n; d; d] out.
- by [].
- by rewrite /= /axis_ok /= sX /= eqxx.
- by [].
- by [].
- move=> j hj; rewrite /slices /= sX /= /out /f; have [r [-> sr _]] := iP j hj; by split.
- by [].
exists r; rewrite rE; split=> // i j a b hi hj.
have := rg j [:: i; a : nat; b : nat] hj erefl; rewrite /insert_at /= => ->.
by rewrite /out; have [r' [-> _ ->]] := iP j hj.
Qed.
Lemma commutators0 d (X : nd) : shape X = [:: 0%N; d; d] -> commutators junk X = Ok (Nd [::] junk).
Proof. by move=> sX; rewrite /commutators vmap_empty //= /axis_ok /= sX. Qed.

Lemma einsum_AX n d (A X : nd) : shape A = [:: n; n; n] -> shape X = [:: n; d; d] ->
  exists c, [/\ einsum2 "ijk" "kab" "ijab" A X = Ok c, shape c = [:: n; n; d; d] &
  forall i j a b, get c [:: i; j; a; b] = \sum_(k < n) get A [:: i; j; k : nat] * get X [:: k : nat; a; b]].
Proof.
move=> sA sX; rewrite /einsum2 /einsum_ops /bind_all /= sA sX /= ?eqxx /=.
eexists; split; [by []| by [] |] => i j a b /=.
by apply: eq_bigr => k _; rewrite /term /= mulr1.
Qed.

(** The check, entrywise. *)
Definition match_within (rtol atol : C) n d (A : nat -> nat -> nat -> C) (X : nat -> 'M[C]_d) : Prop :=
  forall i j (a b : 'I_d), (i < n)%N -> (j < n)%N ->
    let R := \sum_(k < n) A i j k *: X k in
    `|comm X i j a b - R a b| <= atol + rtol * `|R a b|.

Lemma check_algebraP rtol atol n d asrt (A X : nd) : shape A = [:: n; n; n] -> shape X = [:: n; d; d] -> (0 < n)%N ->
  exists b, [/\ check_algebra junk rtol atol false A X = Ok b,
    check_algebra junk rtol atol asrt A X = (if asrt && ~~ b then Err AssertionError else Ok b) &
    b <-> match_within rtol atol n (fun i j k => get A [:: i; j; k]) (mx3 d d X)].
Proof.
move=> sA sX n0; rewrite /check_algebra.
have [L [-> sL gL]] := commutatorsP sX n0; have [R [-> sR gR]] := einsum_AX sA sX.
cbv beta iota delta [rbind].
rewrite allclose_same_shape ?sL ?sR //.
set b := all _ _; exists b; split=> //; first by case: asrt b => [] [].
have RE i j (x y : 'I_d) : get R [:: i; j; x : nat; y : nat] = (\sum_(k < n) get A [:: i; j; k : nat] *: mx3 d d X k) x y.
  by rewrite gR summxE; apply: eq_bigr => k _; rewrite !mxE.
rewrite /b; split=> [/allP al i j x y hi hj /= | m].
  have := al [:: i; j; x : nat; y : nat]; rewrite mem_all_idx !valid_cons hi hj !ltn_ord gL // RE; exact.
apply/allP => idx; rewrite mem_all_idx.
case: idx => [|i [|j [|x [|y [|z l]]]]] //; rewrite !valid_cons ?valid_nil ?andbF //.
case/and5P => hi hj hx hy _; have := m i j (Ordinal hx) (Ordinal hy) hi hj.
by rewrite /= -RE -gL.
Qed.
Lemma check_algebra0 rtol atol asrt d (A X : nd) : shape A = [:: 0%N; 0%N; 0%N] -> shape X = [:: 0%N; d; d] ->
  check_algebra junk rtol atol asrt A X = Ok true.
Proof.
move=> sA sX; rewrite /check_algebra (commutators0 sX).
have [R [-> sR gR]] := einsum_AX sA sX.
by cbv beta iota delta [rbind]; rewrite /allclose sR /=; case: asrt.
Qed.
Lemma check_algebra_shape rtol atol asrt n d (A X : nd) : shape X = [:: n; d; d] -> size (shape A) != 3%N ->
  check_algebra junk rtol atol asrt A X = Err ValueError.
Proof.
move=> sX sA; rewrite /check_algebra.
have [L ->] : exists L, commutators junk X = Ok L.
  case: n sX => [|n] sX; first by eexists; apply: commutators0 sX.
  by have [L [-> _ _]] := commutatorsP sX isT; exists L.
cbv beta iota delta [rbind]; suff -> : einsum2 "ijk" "kab" "ijab" A X = Err ValueError by [].
rewrite /einsum2 /einsum_ops /bind_all.
suff -> : bind_dims (labels "ijk") (shape A) [::] = Err ValueError by [].
by case: (shape A) sA => [|u [|v [|w [|z l]]]].
Qed.

(** Row-major flattening of a matrix. *)
Definition flat (d : nat) (M : 'M[C]_d) : 'rV[C]_(d * d) :=
  \row_k M (mxtens_unindex k).1 (mxtens_unindex k).2.
Lemma flat_inj d : injective (@flat d).
Proof.
move=> M N /rowP e; apply/matrixP => i j.
by have := e (mxtens_index (i, j)); rewrite !mxE mxtens_indexK.
Qed.
Lemma flat_sum d n (c : 'I_n -> C) (X : 'I_n -> 'M[C]_d) :
  flat (\sum_k c k *: X k) = \sum_k c k *: flat (X k).
Proof.
apply/rowP => k; rewrite mxE !summxE; apply: eq_bigr => i _; by rewrite !mxE.
Qed.
Lemma flat0 d : flat (0 : 'M[C]_d) = 0.
Proof. by apply/rowP => k; rewrite !mxE. Qed.

(** The generators are linearly independent. *)
Definition lin_indep n d (X : nat -> 'M[C]_d) : Prop :=
  forall c : nat -> C, \sum_(k < n) c k *: X k = 0 -> forall k, (k < n)%N -> c k = 0.
Definition flats n d (X : nat -> 'M[C]_d) : 'M[C]_(n, d * d) := \matrix_(i, k) flat (X i) 0 k.
Lemma mul_flats n d (X : nat -> 'M[C]_d) (u : 'rV[C]_n) : u *m flats n X = flat (\sum_k u 0 k *: X k).
Proof.
by rewrite flat_sum; apply/rowP => k; rewrite mxE summxE; apply: eq_bigr => i _; rewrite !mxE.
Qed.
Lemma indep_free n d (X : nat -> 'M[C]_d) : lin_indep n X <-> row_free (flats n X).
Proof.
split=> [li|rf c e].
  rewrite -kermx_eq0; apply/eqP/row_matrixP => i; rewrite row0; apply/rowP => k.
  have : row i (kermx (flats n X)) *m flats n X = 0 by rewrite -row_mul mulmx_ker row0.
  rewrite mul_flats -flat0 => /flat_inj e.
  pose c m := if insub m is Some k' then row i (kermx (flats n X)) 0 k' else 0.
  have cE (k' : 'I_n) : c k' = row i (kermx (flats n X)) 0 k' by rewrite /c valK.
  by rewrite -cE li ?mxE //; rewrite -[RHS]e; apply: eq_bigr => k' _; rewrite cE.
move=> k hk; pose u : 'rV[C]_n := \row_i c i.
have : u *m flats n X = 0.
  by rewrite mul_flats -flat0; congr flat; rewrite -[RHS]e; apply: eq_bigr => i _; rewrite mxE.
rewrite -(mul0mx _ (flats n X)) => /(row_free_inj rf) /rowP /(_ (Ordinal hk)).
by rewrite !mxE.
Qed.

(** The rows computed by the inference. *)
Lemma nth_allpairs_iota (T : Type) (x0 : T) (f : nat -> nat -> T) m q i j : (i < m)%N -> (j < q)%N ->
  nth x0 [seq f p.1 p.2 | p <- allpairs pair (iota 0 m) (iota 0 q)] (i * q + j) = f i j.
Proof.
move=> hi hj; suff h s : nth x0 [seq f p.1 p.2 | p <- allpairs pair (iota s m) (iota 0 q)] (i * q + j) = f (s + i)%N j by exact: h.
elim: i m s hi => [|i IH] [|m] s //= hi.
  rewrite map_cat nth_cat !size_map size_iota hj -map_comp (nth_map 0%N) ?size_iota //=.
  by rewrite nth_iota // addn0.
rewrite map_cat nth_cat !size_map size_iota mulSn -addnA ltnNge leq_addr /= addKn addnS -addSn; exact: IH.
Qed.
Lemma ravel_flat d n i (k : 'I_(d * d)) :
  ravel [:: n; (d * d)%N] [:: i; k : nat] = ravel [:: n; d; d] [:: i; (mxtens_unindex k).1 : nat; (mxtens_unindex k).2 : nat].
Proof. by rewrite /= !muln1 !addn0 -divn_eq. Qed.
Lemma reshape_flat n d (X : nd) : shape X = [:: n; d; d] ->
  exists F, [/\ reshape X [:: n; (d * d)%N] = Ok F, shape F = [:: n; (d * d)%N] &
    mx2 n (d * d) F = flats n (mx3 d d X)].
Proof.
move=> sX; rewrite /reshape sX.
have -> : nprod [:: n; (d * d)%N] = nprod [:: n; d; d] by rewrite /= !muln1.
rewrite eqxx; eexists; split; [by []| by [] |].
apply/matrixP => i k; rewrite !mxE.
rewrite [get _ _]/(get X _) ravel_flat ravelK //.
by rewrite !valid_cons !ltn_ord.
Qed.

Definition struct n d (X : nat -> 'M[C]_d) i j (k : 'I_n) : C :=
  'Re ((flat (comm X i j) *m pinv_mx (flats n X)) 0 k).

Lemma infer_algebraE rnd rtol atol n d (X : nd) : shape X = [:: n; d; d] -> (0 < n)%N ->
  exists A, [/\ shape A = [:: n; n; n],
    forall i j (k : 'I_n), (i < n)%N -> (j < n)%N -> get A [:: i; j; k : nat] = struct (mx3 d d X) i j k &
    infer_algebra junk rnd rtol atol X =
    (do b <- check_algebra junk rtol atol false (rnd A) X; Ok (if b then Some (rnd A) else None))].
Proof.
move=> sX n0; rewrite /infer_algebra /flat_rows /len sX.
have -> : (head 0%N [:: n; d; d] == 0%N) = false by apply/eqP => /=; lia.
have -> : (nprod [:: n; d; d] %/ head 0%N [:: n; d; d] = d * d)%N by rewrite /= mulKn // muln1.
rewrite [head _ _]/= [size _ == _]/=.
have [F [-> sF mF]] := reshape_flat sX.
cbv beta iota delta [rbind]; rewrite /np_pinv sF mF.
set P := nd_of_mx _.
have rowP i j : (i < n)%N -> (j < n)%N -> exists w, infer_row X P i j = Ok w /\
    forall k : 'I_n, get w [:: 0%N; k : nat] = struct (mx3 d d X) i j k.
  move=> hi hj; rewrite /infer_row.
  have ss k : shape (slice0 X k) = [:: d; d] by rewrite /= sX.
  have [c [-> sc mc]] := commutatorP (ss i) (ss j); rewrite !mx3_slice in mc.
  cbv beta iota delta [rbind]; rewrite sc.
  have [v [-> sv vE]] : exists v, [/\ reshape c [:: 1%N; nprod [:: d; d]] = Ok v, shape v = [:: 1%N; (d * d)%N] &
      mx2 1 (d * d) v = flat (comm (mx3 d d X) i j)].
    have -> : nprod [:: d; d] = (d * d)%N by rewrite /= muln1.
    rewrite /reshape sc; have -> : nprod [:: 1%N; (d * d)%N] = nprod [:: d; d] by rewrite /= !muln1 mul1n.
    rewrite eqxx; eexists; split; [by []| by [] |].
    rewrite -[comm _ _ _]mc; apply/rowP => k; rewrite !mxE [get _ _]/(get c _); congr (get c _).
    have -> : ravel [:: 1%N; (d * d)%N] [:: (0 : 'I_1) : nat; k : nat] = ravel [:: d; d] [:: (mxtens_unindex k).1 : nat; (mxtens_unindex k).2 : nat].
      by rewrite /= !muln1 !addn0 -divn_eq.
    by rewrite ravelK // !valid_cons !ltn_ord.
  have [w [-> [sw mw]]] := @matmul_2_2 C 1 (d * d) n v P sv erefl.
  eexists; split; first by [].
  by move=> k; rewrite /struct -vE -[pinv_mx _]mx2_of_mx -/P -mw mxE.
pose W i j := if infer_row X P i j is Ok w then w else zeros [::].
rewrite (mapR_ok_in (g := fun p : nat * nat => W p.1 p.2)); last first.
  move=> [i j] /allpairsP[[i' j'] [/= hi hj [-> ->]]]; move: hi hj; rewrite !mem_iota !add0n => hi hj.
  by rewrite /W; have [w [-> _]] := rowP i' j' hi hj.
cbv beta iota delta [rbind].
eexists; split; last by [].
- by [].
move=> i j k hi hj /=.
by rewrite nth_allpairs_iota // /W; have [w [-> ->]] := rowP i j hi hj.
Qed.

(** Linearly independent generators: the inferred constants are the structure constants. *)
Lemma struct_indep n d (X : nat -> 'M[C]_d) (c : nat -> nat -> nat -> C) i j (k : 'I_n) : lin_indep n X ->
  comm X i j = \sum_(k < n) c i j k *: X k -> struct X i j k = 'Re (c i j k).
Proof.
move=> /indep_free li e; rewrite /struct e.
have -> : \sum_(k < n) c i j k *: X k = \sum_k (\row_(k < n) c i j k) 0 k *: X k.
  by apply: eq_bigr => m _; rewrite mxE.
by rewrite -mul_flats -mulmxA pinv_right // mulmx1 mxE.
Qed.
(** The structure constants of linearly independent matrices are unique. *)
Lemma indep_uniq n d (X : nat -> 'M[C]_d) (c c' : nat -> C) : lin_indep n X ->
  \sum_(k < n) c k *: X k = \sum_(k < n) c' k *: X k -> forall k, (k < n)%N -> c k = c' k.
Proof.
move=> li e k hk; apply/eqP; rewrite -subr_eq0; apply/eqP.
apply: (li (fun k => c k - c' k)) => //.
rewrite -[RHS](subrr (\sum_(k < n) c k *: X k)) {2}e -sumrB.
by apply: eq_bigr => m _; rewrite scalerBl.
Qed.
(** They are antisymmetric and satisfy the Jacobi identity. *)
Lemma indep_antisym n d (X : nat -> 'M[C]_d) (c : nat -> nat -> nat -> C) : lin_indep n X ->
  (forall i j, (i < n)%N -> (j < n)%N -> comm X i j = \sum_(k < n) c i j k *: X k) ->
  forall i j k, (i < n)%N -> (j < n)%N -> (k < n)%N -> c i j k = - c j i k.
Proof.
move=> li cl i j k hi hj hk; apply: (indep_uniq (c := c i j) (c' := fun k => - c j i k) li _ hk).
rewrite -cl // -[comm X i j]opprK /comm opprB -/(comm X j i) cl // -sumrN.
by apply: eq_bigr => m _; rewrite scaleNr.
Qed.
Lemma indep_jacobi n d (X : nat -> 'M[C]_d) (c : nat -> nat -> nat -> C) : lin_indep n X ->
  (forall i j, (i < n)%N -> (j < n)%N -> comm X i j = \sum_(k < n) c i j k *: X k) ->
  forall i j k m, (i < n)%N -> (j < n)%N -> (k < n)%N -> (m < n)%N ->
    \sum_(l < n) (c i j l * c l k m + c j k l * c l i m + c k i l * c l j m) = 0.
Proof.
move=> li cl i j k m hi hj hk hm.
pose K i j k m := \sum_(l < n) c i j l * c l k m.
have KE a b e : (a < n)%N -> (b < n)%N -> (e < n)%N -> comm X a b *m X e - X e *m comm X a b = \sum_(m < n) K a b e m *: X m.
  move=> ha hb he; rewrite (cl a b) // mulmx_suml mulmx_sumr -sumrB.
  transitivity (\sum_(l < n) c a b l *: (\sum_(m < n) c l e m *: X m)).
    by apply: eq_bigr => l _; rewrite -cl // /comm scalerBr -scalemxAl -scalemxAr.
  rewrite (eq_bigr (fun l : 'I_n => \sum_(m < n) (c a b l * c l e m) *: X m)); last first.
    by move=> l _; rewrite scaler_sumr; apply: eq_bigr => q _; rewrite scalerA.
  by rewrite exchange_big; apply: eq_bigr => q _; rewrite /K scaler_suml.
rewrite !big_split /= -/(K i j k m) -/(K j k i m) -/(K k i j m).
apply: (li (fun m => K i j k m + K j k i m + K k i j m)) => //.
rewrite (eq_bigr (fun q : 'I_n => K i j k q *: X q + K j k i q *: X q + K k i j q *: X q)); last first.
  by move=> q _; rewrite !scalerDl.
rewrite !big_split /= -!KE // /comm !mulmxBl !mulmxBr !mulmxA.
by apply/matrixP => u v; rewrite !mxE; mcring.
Qed.
End Alg.
