(** TpProofs: the specialised tensor_product overloads (C32). *)
From Coq Require Import ZArith String Ascii.
From mathcomp Require Import all_ssreflect all_algebra.
From mathcomp.real_closed Require Import mxtens.
From mathcomp Require Import zify.
From Verif Require Import Base McRing Nd NdProofs Reps RepSpec RepProofs RepPower Pinv RepOps RepOps2 Reduced ReducedProofs Intw.

Set Implicit Arguments.
Unset Strict Implicit.
Unset Printing Implicit Defensive.

Import GRing.Theory Num.Theory.
Local Open Scope ring_scope.

Section Tp.
Variable C : numClosedFieldType.
Local Notation rX := (@rX C).
Local Notation rH := (@rH C).

(** Integers in C. *)
Definition is_z (x : C) : Prop := exists z : int, x = z%:~R.
Lemma is_z_nat n : is_z n%:R. Proof. by exists n%:Z; rewrite pmulrn. Qed.
Lemma is_zM x y : is_z x -> is_z y -> is_z (x * y).
Proof. by move=> [a ->] [b ->]; exists (a * b); rewrite intrM. Qed.
Lemma is_zD x y : is_z x -> is_z y -> is_z (x + y).
Proof. by move=> [a ->] [b ->]; exists (a + b); rewrite intrD. Qed.
Lemma is_z_sum n (F : 'I_n -> C) : (forall i, is_z (F i)) -> is_z (\sum_i F i).
Proof. by move=> h; apply: (big_ind is_z) => //; [exists 0|exact: is_zD]. Qed.
(** The matrix Q has integer entries. *)
Definition int_mx D (Q : nd C) : Prop := forall i j, (i < D)%N -> (j < D)%N -> is_z (get Q [:: i; j]).

Lemma reshapeP (a : nd C) sh : nprod sh = nprod (shape a) -> exists c, reshape a sh = Ok c /\ shape c = sh /\
  forall idx idx', valid (shape a) idx' -> ravel sh idx = ravel (shape a) idx' -> get c idx = get a idx'.
Proof.
move=> e; rewrite /reshape e eqxx; eexists; split; first by []; split=> //= idx idx' v ->.
by rewrite ravelK.
Qed.

Lemma mapR_cons (A B : Type) (f : A -> res B) x s : mapR f (x :: s) = do y <- f x; do ys <- mapR f s; Ok (y :: ys).
Proof. by []. Qed.

(** ** Kronecker sums as matrices *)
Definition gen (g : rep C -> nd C) (R : rep C) (a i j : nat) : C := get (g R) [:: a; i; j].
Definition csX (R1 R2 : rep C) (a : nat) : seq (pair2 C) := [:: (gen rX R1 a, @dl C); (@dl C, gen rX R2 a)].
Definition csH (R1 R2 : rep C) (a : nat) : seq (pair2 C) := [:: (gen rH R1 a, gen rH R2 a)].

Lemma tpf_csX R1 R2 a e1 e2 : mxf (e1 * e2) (tpf (csX R1 R2 a) e2) = tensX (mx3 e1 e1 (rX R1) a) (mx3 e2 e2 (rX R2) a).
Proof.
apply/matrixP=> i j; rewrite !mxE /tpf /csX !big_cons big_nil /= addr0 /gen /dl.
by rewrite -!val_eqE /=.
Qed.
Lemma tpf_csH R1 R2 a e1 e2 : mxf (e1 * e2) (tpf (csH R1 R2 a) e2) = mx3 e1 e1 (rH R1) a *t mx3 e2 e2 (rH R2) a.
Proof. by apply/matrixP=> i j; rewrite !mxE /tpf /csH !big_cons big_nil /= addr0 /gen. Qed.

(** ** Inverse of a matrix whose rows intertwine *)
Definition trf (f : nat -> nat -> C) i j := f j i.
Definition trb (b : blk C) : blk C := (b.1, trf b.2).
Lemma dsl_tr (bs : seq (blk C)) i j : dsl (map (@bexp C) (map trb bs)) i j = dsl (map (@bexp C) bs) j i.
Proof.
elim: bs i j => [//|[[m d] f] bs IH] i j /=; rewrite IH /trf andbC.
by case: ifP => _; [rewrite eq_sym|rewrite andbC].
Qed.
Lemma bdim_tr bs : bdim (map trb bs) = bdim bs.
Proof. by rewrite /bdim -map_comp. Qed.

Lemma intw_inv D XT (bs : seq (blk C)) (Qt : nat -> nat -> C) (M : 'M[C]_D) : bdim bs = D ->
  (forall i j : 'I_D, M i j = Qt j i) -> M \in unitmx -> intw D (trf XT) (map trb bs) Qt 0 ->
  intw D XT bs (fun i j => get (nd_of_mx (invmx M)) [:: i; j]) 0.
Proof.
move=> E eM u /intw_mx; rewrite bdim_tr => h; apply/intw_mx.
rewrite E in h *.
have e1 : \matrix_(i < D, j < D) Qt i j = M^T by apply/matrixP=> i j; rewrite !mxE eM.
have e2 : mxf D (trf XT) = (mxf D XT)^T by apply/matrixP=> i j; rewrite !mxE.
have e3 : mxf D (dsl (map (@bexp C) (map trb bs))) = (mxf D (dsl (map (@bexp C) bs)))^T.
  by apply/matrixP=> i j; rewrite !mxE dsl_tr.
have e4 : \matrix_(i < D, j < D) get (nd_of_mx (invmx M)) [:: i : nat; j : nat] = invmx M := mx2_of_mx _.
rewrite e1 e2 e3 -!trmx_mul in h; move/trmx_inj: h => h; rewrite e4.
by rewrite -[LHS](mulKmx u) (mulmxA M) h (mulmxK u).
Qed.
Lemma rfree_inv D (M : 'M[C]_D) : M \in unitmx -> rfree D D (fun i j => get (nd_of_mx (invmx M)) [:: i; j]).
Proof. by move=> u; apply/rfreeP; rewrite -/(mx2 _ _ _) mx2_of_mx row_free_unit unitmx_inv. Qed.

Section G.
Variable G : irreps C.
Implicit Types m : mulirrep G.

Definition bof (g : rep C -> nd C) (a : nat) m : blk C := (m_mul m, dim_of (m_rep m), gen g (rep_of (m_rep m)) a).
Lemma bdim_bof g a (ms : seq (mulirrep G)) : bdim (map (bof g a) ms) = sumn (map (@mul_dim C G) ms).
Proof. by rewrite /bdim -map_comp. Qed.
Lemma dsl_bof g a (ms : seq (mulirrep G)) : dsl (map (@bexp C) (map (bof g a) ms)) = dsl (map (mblk g a) ms).
Proof. by rewrite -map_comp. Qed.

(** ** What the overloads have to return *)
Record tp_good (T : theory C) (r : reducedrep G) (e1 e2 : nat) (R1 R2 : rep C) (Q : nd C) : Prop := TpGood {
  tg_Q : r_Q r = Some Q;
  tg_s : shape Q = [:: (e1 * e2)%N; (e1 * e2)%N];
  tg_A : r_A r = rA R1;
  tg_ne : r_irreps r <> [::];
  tg_m : forall m, List.In m (r_irreps r) -> mul_ok T m;
  tg_d : red_dim r = (e1 * e2)%N;
  tg_f : rfree (e1 * e2) (e1 * e2) (fun i j => get Q [:: i; j]);
  tg_X : forall a, (a < th_l T)%N -> intw (e1 * e2) (tpf (csX R1 R2 a) e2) (map (bof rX a) (r_irreps r)) (fun i j => get Q [:: i; j]) 0;
  tg_H : forall a, (a < th_h T)%N -> intw (e1 * e2) (tpf (csH R1 R2 a) e2) (map (bof rH a) (r_irreps r)) (fun i j => get Q [:: i; j]) 0 }.

Lemma intw_conj D XT g a (ms : seq (mulirrep G)) (Q : nd C) : sumn (map (@mul_dim C G) ms) = D ->
  rfree D D (fun i j => get Q [:: i; j]) -> intw D XT (map (bof g a) ms) (fun i j => get Q [:: i; j]) 0 ->
  mx2 D D Q \in unitmx /\ mx2 D D Q *m mxf D (dsl (map (mblk g a) ms)) *m invmx (mx2 D D Q) = mxf D XT.
Proof.
move=> E /rfreeP f /intw_mx; rewrite bdim_bof E dsl_bof => h.
have u : mx2 D D Q \in unitmx by rewrite -row_free_unit.
by split=> //; rewrite -h mulmxK.
Qed.

Theorem tp_good_ok T r e1 e2 R1 R2 Q : (0 < th_l T)%N -> is_rep T e1 R1 -> is_rep T e2 R2 -> tp_good T r e1 e2 R1 R2 Q ->
  red_ok T r /\ exists R R', red_rep r = Ok R /\ tensor_product R1 R2 = Ok R' /\ rep_eq R R'.
Proof.
move=> l0 h1 h2 [gQ gs gA gne gm gd gf gX gH].
have u : mx2 (e1 * e2) (e1 * e2) Q \in unitmx.
  by rewrite -row_free_unit; exact: (proj1 (rfreeP _ _ _) gf).
have hr : red_ok T r.
  split=> //; [by rewrite gA; exact: ir_sA h1|by rewrite gA; exact: ir_A h1|].
  by move=> q; rewrite gQ gd => -[<-].
split=> //.
have [R [eR [hR [aR [xR yR]]]]] := red_rep_ok hr.
have [R' [eR' [hR' [aR' [xR' yR']]]]] := tensor_product_ok h1 h2.
exists R, R'; do 2!split=> //.
have xR2 a : (a < th_l T)%N -> mx3 (red_dim r) (red_dim r) (rX R) a =
   mx2 (red_dim r) (red_dim r) Q *m mxf (red_dim r) (dsl (map (mblk rX a) (r_irreps r))) *m invmx (mx2 (red_dim r) (red_dim r) Q).
  by move=> ha; rewrite xR // /conjQ gQ.
have yR2 a : (a < th_h T)%N -> mx3 (red_dim r) (red_dim r) (rH R) a =
   mx2 (red_dim r) (red_dim r) Q *m mxf (red_dim r) (dsl (map (mblk rH a) (r_irreps r))) *m invmx (mx2 (red_dim r) (red_dim r) Q).
  by move=> ha; rewrite yR // /conjQ gQ.
rewrite gd in hR xR2 yR2.
apply: is_rep_eq hR hR' _ _ _ => [|a ha|a ha]; first by rewrite aR aR'.
- by rewrite xR2 // (proj2 (intw_conj gd gf (gX a ha))) tpf_csX xR'.
- by rewrite yR2 // (proj2 (intw_conj gd gf (gH a ha))) tpf_csH yR'.
Qed.

(** ** Tabulated irreps *)
Section Irreps.
Variables (T : theory C) (i1 i2 : label G).
Local Notation d1 := (dim_of i1).
Local Notation d2 := (dim_of i2).
Definition cgz (i3 : label G) : nat := head 0%N (shape (cg_of i1 i2 i3)).

(** The Clebsch-Gordan coefficients of i1 and i2 are a complete set of equivariant maps. *)
Record cg_ok : Prop := CgOk {
  co_1 : is_rep T d1 (rep_of i1);
  co_2 : is_rep T d2 (rep_of i2);
  co_3 : forall i3, List.In i3 (mul_of i1 i2) -> is_rep T (dim_of i3) (rep_of i3);
  co_ne : mul_of i1 i2 <> [::];
  co_z : forall i3, List.In i3 (mul_of i1 i2) -> (0 < cgz i3)%N;
  co_s : forall i3, List.In i3 (mul_of i1 i2) -> shape (cg_of i1 i2 i3) = [:: cgz i3; d1; d2; dim_of i3];
  co_X : forall i3 a u i j k, List.In i3 (mul_of i1 i2) -> (a < th_l T)%N -> (u < cgz i3)%N ->
    (i < d1)%N -> (j < d2)%N -> (k < dim_of i3)%N ->
    \sum_(k' < dim_of i3) gen rX (rep_of i3) a k k' * get (cg_of i1 i2 i3) [:: u; i; j; k' : nat] =
    \sum_(i' < d1) gen rX (rep_of i1) a i' i * get (cg_of i1 i2 i3) [:: u; i' : nat; j; k] +
    \sum_(j' < d2) gen rX (rep_of i2) a j' j * get (cg_of i1 i2 i3) [:: u; i; j' : nat; k];
  co_H : forall i3 b u i j k, List.In i3 (mul_of i1 i2) -> (b < th_h T)%N -> (u < cgz i3)%N ->
    (i < d1)%N -> (j < d2)%N -> (k < dim_of i3)%N ->
    \sum_(k' < dim_of i3) gen rH (rep_of i3) b k k' * get (cg_of i1 i2 i3) [:: u; i; j; k' : nat] =
    \sum_(i' < d1) \sum_(j' < d2) gen rH (rep_of i1) b i' i * gen rH (rep_of i2) b j' j * get (cg_of i1 i2 i3) [:: u; i' : nat; j' : nat; k];
  co_dim : sumn [seq (cgz i3 * dim_of i3)%N | i3 <- mul_of i1 i2] = (d1 * d2)%N;
  co_inj : forall v : nat -> nat -> C,
    (forall i3 u k, List.In i3 (mul_of i1 i2) -> (u < cgz i3)%N -> (k < dim_of i3)%N ->
      \sum_(i < d1) \sum_(j < d2) v i j * get (cg_of i1 i2 i3) [:: u; i : nat; j : nat; k] = 0) ->
    forall i j, (i < d1)%N -> (j < d2)%N -> v i j = 0 }.

Hypothesis H : cg_ok.
Local Notation D := (d1 * d2)%N.

Lemma tp_block_ok i3 : List.In i3 (mul_of i1 i2) -> exists mt, tp_block i1 i2 i3 = Ok (cgz i3, mt) /\
  shape mt = [:: (cgz i3 * dim_of i3)%N; D] /\
  forall u i j k, (u < cgz i3)%N -> (i < d1)%N -> (j < d2)%N -> (k < dim_of i3)%N ->
  get mt [:: (u * dim_of i3 + k)%N; (i * d2 + j)%N] = get (cg_of i1 i2 i3) [:: u; i; j; k].
Proof.
move=> hi; rewrite /tp_block /moveaxis31 (co_s H hi) /=.
set a := Nd _ _.
have [|c [e [s g]]] := @reshapeP a [:: (cgz i3 * dim_of i3)%N; D]; first by rewrite /= !muln1 !mulnA.
rewrite e /=; exists c; split=> //; split=> // u i j k hu h1 h2 hk.
rewrite (g _ [:: u; k; i; j]) //; first by rewrite !valid_cons hu h1 h2 hk.
rewrite /= !muln1 !addn0; nia.
Qed.

Fixpoint cgQ (outs : seq (label G)) (Qt : nat -> nat -> C) (s : nat) : Prop :=
  match outs with
  | [::] => True
  | i3 :: outs' =>
    (forall u i j k, (u < cgz i3)%N -> (i < d1)%N -> (j < d2)%N -> (k < dim_of i3)%N ->
      Qt (i * d2 + j)%N (s + (u * dim_of i3 + k))%N = get (cg_of i1 i2 i3) [:: u; i; j; k]) /\
    cgQ outs' Qt (s + cgz i3 * dim_of i3)%N
  end.
Definition odim (outs : seq (label G)) := sumn [seq (cgz i3 * dim_of i3)%N | i3 <- outs].

Lemma cgQ_ext outs Qt Qt' s s' : (forall p c, (p < D)%N -> (c < odim outs)%N -> Qt p (s + c)%N = Qt' p (s' + c)%N) ->
  cgQ outs Qt s -> cgQ outs Qt' s'.
Proof.
elim: outs s s' => [//|i3 outs IH] s s' e /= [h1 h2]; split.
- move=> u i j k hu hi hj hk; rewrite -e ?h1 //; first exact: join_idx.
  by rewrite /odim /=; have := join_idx hu hk; lia.
- apply: IH h2 => p c hp hc; rewrite -!addnA; apply: e => //.
  by rewrite /odim /= -/(odim outs); lia.
Qed.

Lemma tp_blocks_ok outs : (forall i3, List.In i3 outs -> List.In i3 (mul_of i1 i2)) -> outs <> [::] ->
  exists bs CG, mapR (tp_block i1 i2) outs = Ok bs /\ [seq b.1 | b <- bs] = [seq cgz i3 | i3 <- outs] /\
  concat0 [seq b.2 | b <- bs] = Ok CG /\ shape CG = [:: odim outs; D] /\ cgQ outs (fun p c => get CG [:: c; p]) 0.
Proof.
elim: outs => [//|i3 [|i3' outs] IH] hin _.
  have [mt [e [s g]]] := tp_block_ok (hin i3 (or_introl erefl)).
  exists [:: (cgz i3, mt)], mt; rewrite /= e /=; split=> //; split=> //; split=> //.
  by split; [rewrite s /odim /= addn0|split].
have [bs [CG [e1 [e2 [e3 [e4 e5]]]]]] := IH (fun x hx => hin x (or_intror hx)) (fun e => List.nil_cons (esym e)).
have [mt [e [s g]]] := tp_block_ok (hin i3 (or_introl erefl)).
have ne : [seq b.2 | b <- bs] <> [::] by case: (bs) e2.
exists ((cgz i3, mt) :: bs).
have cc : concat0 [seq b.2 | b <- (cgz i3, mt) :: bs] = do b <- concat0 [seq b.2 | b <- bs]; concat2 mt b.
  by rewrite /=; case: (map _ bs) ne.
have [CG' [c1 [c2 c3]]] : exists CG', concat2 mt CG = Ok CG' /\ shape CG' = [:: odim [:: i3, i3' & outs]; D] /\
    forall c p, get CG' [:: c; p] = if (c < cgz i3 * dim_of i3)%N then get mt [:: c; p] else get CG [:: (c - cgz i3 * dim_of i3)%N; p].
  by rewrite /concat2 /len s e4 eqxx; eexists; split; first by [].
rewrite mapR_cons e1 e cc e3; exists CG'; split; first by [].
split; first by rewrite /= e2.
split=> //; split=> //.
split; first by move=> u i j k hu hi hj hk; rewrite c3 join_idx // add0n g.
apply: cgQ_ext e5 => p c hp hc; rewrite c3 !add0n.
by rewrite ltnNge leq_addr /= addKn.
Qed.

Lemma cgQ_intw outs Qt s (cs : seq (pair2 C)) (f3 : label G -> nat -> nat -> C) :
  (forall i3 u i j k, List.In i3 outs -> (u < cgz i3)%N -> (i < d1)%N -> (j < d2)%N -> (k < dim_of i3)%N ->
   \sum_(k' < dim_of i3) f3 i3 k k' * get (cg_of i1 i2 i3) [:: u; i; j; k' : nat] =
   \sum_(i' < d1) \sum_(j' < d2) (\sum_(c <- cs) c.1 i' i * c.2 j' j) * get (cg_of i1 i2 i3) [:: u; i' : nat; j' : nat; k]) ->
  cgQ outs Qt s -> intw D (trf (tpf cs d2)) (map trb [seq (cgz i3, dim_of i3, f3 i3) | i3 <- outs]) Qt s.
Proof.
elim: outs s => [//|i3 outs IH] s h /= [h1 h2]; split; last by apply: IH h2 => x *; apply: h => //; right.
move=> p u k hp hu hk; have [i [j [hi hj ->]]] := split_idx hp.
have -> : \sum_(p' < D) trf (tpf cs d2) (i * d2 + j)%N p' * Qt p' (s + (u * dim_of i3 + k))%N =
    \sum_(p' < D) tpf [seq (trf c.1, trf c.2) | c <- cs] d2 (i * d2 + j)%N p' * Qt p' (s + (u * dim_of i3 + k))%N.
  by apply: eq_bigr => p' _; rewrite /trf /tpf big_map.
rewrite (sum_tpf _ d1 i (fun p' => Qt p' (s + (u * dim_of i3 + k))%N) hj).
transitivity (\sum_(k' < dim_of i3) f3 i3 k k' * get (cg_of i1 i2 i3) [:: u; i; j; k' : nat]).
  rewrite h //; last by left.
  apply: eq_bigr => i' _; apply: eq_bigr => j' _; rewrite h1 // big_map; congr (_ * _).
by apply: eq_bigr => k' _; rewrite h1 // mulrC.
Qed.

Lemma cgQ_zero outs Qt s (w : nat -> C) : cgQ outs Qt s ->
  (forall c, (c < odim outs)%N -> \sum_(p < D) w p * Qt p (s + c)%N = 0) ->
  forall i3 u k, List.In i3 outs -> (u < cgz i3)%N -> (k < dim_of i3)%N ->
  \sum_(i < d1) \sum_(j < d2) w (i * d2 + j)%N * get (cg_of i1 i2 i3) [:: u; i : nat; j : nat; k] = 0.
Proof.
elim: outs s => [//|i3 outs IH] s /= [h1 h2] hw x u k [<-|hin] hu hk.
- rewrite -[RHS](hw (u * dim_of i3 + k)%N); last by rewrite /odim /=; have := join_idx hu hk; lia.
  rewrite (sum_mul d1 d2 (fun p => w p * Qt p (s + (u * dim_of i3 + k))%N)).
  by apply: eq_bigr => i _; apply: eq_bigr => j _; rewrite h1.
- apply: (IH _ h2) => // c hc; rewrite -[RHS](hw (cgz i3 * dim_of i3 + c)%N) ?addnA //.
  by rewrite /odim /= -/(odim outs); lia.
Qed.

Theorem tp_irreps_good : exists r Q, tp_irreps i1 i2 = Ok r /\ tp_good T r d1 d2 (rep_of i1) (rep_of i2) Q /\
  r_irreps r = [seq MulIrrep (cgz i3) i3 | i3 <- mul_of i1 i2].
Proof.
rewrite /tp_irreps (close_A (co_1 H) (co_2 H)) /=.
have [bs [CG [e1 [e2 [e3 [e4 e5]]]]]] := tp_blocks_ok (fun i3 h => h) (co_ne H).
rewrite e1 /= e3 /= /np_inv e4 /odim (co_dim H) eqxx.
set M := mx2 D D CG.
have fr : rfree D D (fun p c => get CG [:: c; p]).
  move=> w hw p hp; have [i [j [hi hj ->]]] := split_idx hp.
  have := (co_inj H) (fun i j => w (i * d2 + j)%N) _ i j hi hj; apply.
  by apply: (cgQ_zero e5) => c; rewrite /odim (co_dim H) => hc; exact: hw.
have uM : M \in unitmx.
  rewrite -unitmx_tr -row_free_unit; move/rfreeP: fr; congr (is_true (row_free _)).
  by apply/matrixP=> i j; rewrite !mxE.
have ei : [seq MulIrrep p.1.1 p.2 | p <- zip bs (mul_of i1 i2)] = [seq MulIrrep (cgz i3) i3 | i3 <- mul_of i1 i2].
  clear -e2; elim: (mul_of i1 i2) bs e2 => [|x s IH] [|b bs] //= [q1 /IH q2].
  by rewrite q1 q2.
have dE : bdim [seq (cgz i3, dim_of i3, gen rX (rep_of i3) 0) | i3 <- mul_of i1 i2] = D.
  by rewrite -(co_dim H) /bdim -map_comp.
rewrite uM /= ei; eexists; exists (nd_of_mx (invmx M)); split; first by [].
split=> //; split=> //=.
- by case: (mul_of i1 i2) (co_ne H).
- move=> m; elim: (mul_of i1 i2) (co_z H) (co_3 H) => [//|x s IH] h3 h4 /= [<-|hin].
    by split; [apply: h3; left|apply: h4; left].
  by apply: IH hin => y hy; [apply: h3|apply: h4]; right.
- by rewrite /red_dim /= -(co_dim H) -map_comp.
- exact: rfree_inv.
- move=> a ha; rewrite -map_comp.
  apply: (intw_inv (Qt := fun p c => get CG [:: c; p])) => //; first by rewrite -(co_dim H) /bdim -map_comp.
    by move=> i j; rewrite mxE.
  apply: cgQ_intw e5 => // i3 u i j k hin hu hi hj hk; rewrite (co_X H) //.
  rewrite -[RHS]/(\sum_(i' < d1) \sum_(j' < d2) (\sum_(c <- csX (rep_of i1) (rep_of i2) a) c.1 i' i * c.2 j' j) * get (cg_of i1 i2 i3) [:: u; i' : nat; j' : nat; k]).
  transitivity (\sum_(i' < d1) \sum_(j' < d2) (gen rX (rep_of i1) a i' i * dl C j' j + dl C i' i * gen rX (rep_of i2) a j' j) * get (cg_of i1 i2 i3) [:: u; i' : nat; j' : nat; k]); last first.
    by apply: eq_bigr => i' _; apply: eq_bigr => j' _; rewrite !big_cons big_nil addr0.
  transitivity (\sum_(i' < d1) gen rX (rep_of i1) a i' i * (\sum_(j' < d2) dl C j' j * get (cg_of i1 i2 i3) [:: u; i' : nat; j' : nat; k]) +
     \sum_(i' < d1) dl C i' i * \sum_(j' < d2) gen rX (rep_of i2) a j' j * get (cg_of i1 i2 i3) [:: u; i' : nat; j' : nat; k]).
    congr (_ + _).
      by apply: eq_bigr => i' _; rewrite (sum_dl (fun j' => get (cg_of i1 i2 i3) [:: u; i' : nat; j'; k]) hj).
    by rewrite (sum_dl (fun i' => \sum_(j' < d2) gen rX (rep_of i2) a j' j * get (cg_of i1 i2 i3) [:: u; i'; j' : nat; k]) hi).
  rewrite -big_split; apply: eq_bigr => i' _ /=; rewrite !mulr_sumr -big_split; apply: eq_bigr => j' _ /=; mcring.
- move=> a ha; rewrite -map_comp.
  apply: (intw_inv (Qt := fun p c => get CG [:: c; p])) => //; first by rewrite -(co_dim H) /bdim -map_comp.
    by move=> i j; rewrite mxE.
  apply: cgQ_intw e5 => // i3 u i j k hin hu hi hj hk; rewrite (co_H H) //.
  by apply: eq_bigr => i' _; apply: eq_bigr => j' _; rewrite !big_cons big_nil addr0.
Qed.
End Irreps.

(** ** Multiples of tabulated irreps *)
Lemma eyeE n i j : get (eye n : nd C) [:: i; j] = dl C i j.
Proof. by []. Qed.

Lemma einsum_kron (q a b : nd C) x1 x2 x3 x4 y1 y2 z1 z2 : shape q = [:: x1; x2; x3; x4] -> shape a = [:: y1; y2] -> shape b = [:: z1; z2] ->
  exists c, einsum3 "ijsk" "ur" "vt" "uivjrtsk" q a b = Ok c /\ shape c = [:: y1; x1; z1; x2; y2; z2; x3; x4] /\
  forall u i v j r t s k, get c [:: u; i; v; j; r; t; s; k] = get q [:: i; j; s; k] * (get a [:: u; r] * get b [:: v; t]).
Proof.
move=> sq sa sb; rewrite /einsum3 /einsum_ops /= sq sa sb /=.
eexists; split; first by []; split=> // u i v j r t s k.
by rewrite /term /= mulr1.
Qed.

Section Mul.
Variables (m1 m2 : mulirrep G).
Local Notation u1 := (m_mul m1).
Local Notation u2 := (m_mul m2).
Local Notation d1 := (dim_of (m_rep m1)).
Local Notation d2 := (dim_of (m_rep m2)).
Local Notation D0 := (d1 * d2)%N.
Local Notation D := (mul_dim m1 * mul_dim m2)%N.

Lemma tp_mul_block_ok (Q : nd C) N s m : shape Q = [:: D0; N] -> (s + mul_dim m <= N)%N ->
  exists q, tp_mul_block m1 m2 Q s m = Ok q /\ shape q = [:: D; (u1 * u2 * m_mul m * dim_of (m_rep m))%N] /\
  forall u i v j r t x k, (u < u1)%N -> (i < d1)%N -> (v < u2)%N -> (j < d2)%N -> (r < u1)%N -> (t < u2)%N ->
    (x < m_mul m)%N -> (k < dim_of (m_rep m))%N ->
    get q [:: idx4 d1 u2 d2 u i v j; (((r * u2 + t) * m_mul m + x) * dim_of (m_rep m) + k)%N] =
    dl C u r * dl C v t * get Q [:: (i * d2 + j)%N; (s + (x * dim_of (m_rep m) + k))%N].
Proof.
move=> sQ le; rewrite /tp_mul_block /cols sQ.
have -> : minn (mul_dim m) (N - s) = mul_dim m by rewrite /minn; case: ifP => //; lia.
set a := Nd _ _; set d := dim_of (m_rep m); set n := m_mul m.
have [|c [-> [sc gc]]] := @reshapeP a [:: d1; d2; n; d]; first by rewrite /= /mul_dim -/d -/n !muln1 !mulnA.
rewrite /=.
have [q [-> [sq gq]]] := @einsum_kron c (eye u1) (eye u2) _ _ _ _ _ _ _ _ sc erefl erefl.
rewrite /= sq.
have [|o [-> [so go]]] := @reshapeP q [:: (u1 * d1 * u2 * d2)%N; (u1 * u2 * n * d)%N].
  by rewrite sq /= !muln1; lia.
exists o; split=> //; split; first by rewrite so /mul_dim !mulnA.
move=> u i v j r t x k hu hi hv hj hr ht hx hk.
rewrite (go _ [:: u; i; v; j; r; t; x; k]); first last.
- by rewrite sq /idx4 /= !muln1 !addn0; lia.
- by rewrite sq !valid_cons hu hi hv hj hr ht hx hk.
rewrite gq !eyeE mulrC; congr (_ * _).
rewrite (gc _ [:: (i * d2 + j)%N; (x * d + k)%N]) //.
- by rewrite /= /mul_dim -/n -/d !valid_cons !join_idx.
- by rewrite /= /mul_dim -/n -/d !muln1 !addn0; lia.
Qed.

Definition kdim (ms : seq (mulirrep G)) := sumn [seq (u1 * u2 * m_mul m * dim_of (m_rep m))%N | m <- ms].
Definition msh (ms : seq (mulirrep G)) := [seq (m_mul m, dim_of (m_rep m)) | m <- ms].

Lemma kronQ_ext sh (Q Q' Q2 : nat -> nat -> C) s s' s2 :
  (forall p c, (p < D)%N -> (c < sumn [seq (u1 * u2 * b.1 * b.2)%N | b <- sh])%N -> Q' p (s' + c)%N = Q2 p (s2 + c)%N) ->
  kronQ u1 d1 u2 d2 sh Q s Q' s' -> kronQ u1 d1 u2 d2 sh Q s Q2 s2.
Proof.
elim: sh s s' s2 => [//|[n d] sh IH] s s' s2 e /= [h1 h2]; split.
- move=> u i v j r t x k hu hi hv hj hr ht hx hk; rewrite -e ?h1 //; first exact: lt4.
  rewrite /=; have : (((r * u2 + t) * n + x) * d + k < u1 * u2 * n * d)%N by do 3!apply: join_idx => //.
  by move=> lt; apply: leq_trans lt (leq_addr _ _).
- apply: IH h2 => p c hp hc; rewrite -!addnA; apply: e => //.
  by rewrite /= ltn_add2l.
Qed.

Lemma tp_mul_loop_ok (Q : nd C) N s ms : shape Q = [:: D0; N] -> (s + sumn (map (@mul_dim C G) ms) <= N)%N -> ms <> [::] ->
  exists qs Q', tp_mul_loop m1 m2 Q s ms = Ok qs /\ hconcat qs = Ok Q' /\ shape Q' = [:: D; kdim ms] /\
  kronQ u1 d1 u2 d2 (msh ms) (fun i j => get Q [:: i; j]) s (fun i j => get Q' [:: i; j]) 0.
Proof.
move=> sQ; elim: ms s => [//|m ms IH] s le _.
have [|q [eq1 [sq gq]]] := tp_mul_block_ok (s := s) (m := m) sQ; first by move: le => /=; lia.
case: ms IH le => [|m' ms] IH le.
  exists [:: q], q; rewrite /= eq1 /=; split=> //; split=> //; split; first by rewrite sq /kdim /= addn0.
  by split=> // *; rewrite add0n gq.
have [|//|qs [Q' [e1 [e2 [s2 k2]]]]] := IH (s + mul_dim m)%N; first by move: le => /=; lia.
have [Q2 [e3 [s3 g3]]] : exists Q2, hconcat2 q Q' = Ok Q2 /\ shape Q2 = [:: D; kdim [:: m, m' & ms]] /\
    forall i j, get Q2 [:: i; j] = if (j < u1 * u2 * m_mul m * dim_of (m_rep m))%N then get q [:: i; j]
       else get Q' [:: i; (j - u1 * u2 * m_mul m * dim_of (m_rep m))%N].
  by rewrite /hconcat2 sq s2 eqxx; eexists; split; first by [].
exists (q :: qs), Q2; split.
  by rewrite -[LHS]/(do q <- tp_mul_block m1 m2 Q s m; do qs <- tp_mul_loop m1 m2 Q (s + mul_dim m) (m' :: ms); Ok (q :: qs)) eq1 e1.
split.
  by case: (qs) e2 => [//|q' qs'] e2; rewrite -[LHS]/(do b <- hconcat (q' :: qs'); hconcat2 q b) e2.
split=> //; split.
- move=> u i v j r t x k hu hi hv hj hr ht hx hk; rewrite g3 add0n.
  have -> : (((r * u2 + t) * m_mul m + x) * dim_of (m_rep m) + k < u1 * u2 * m_mul m * dim_of (m_rep m))%N.
    by do 3!apply: join_idx => //.
  by rewrite gq.
- apply: kronQ_ext k2 => p c hp hc; rewrite g3 !add0n.
  by rewrite ltnNge leq_addr /= addKn.
Qed.

(** Integer entries. *)
Lemma kronQ_int sh (Q Q' : nat -> nat -> C) s s' :
  (forall p c, (p < D0)%N -> (c < sumn [seq (b.1 * b.2)%N | b <- sh])%N -> is_z (Q p (s + c)%N)) ->
  kronQ u1 d1 u2 d2 sh Q s Q' s' ->
  forall p c, (p < D)%N -> (c < sumn [seq (u1 * u2 * b.1 * b.2)%N | b <- sh])%N -> is_z (Q' p (s' + c)%N).
Proof.
elim: sh s s' => [//|[n d] sh IH] s s' hQ /= [h1 h2] p c hp hc.
case: (ltnP c (u1 * u2 * n * d)) => lt.
- have [u [i [v [j [hu hi hv hj ->]]]]] := split4 hp.
  have [rtx [k [hrtx hk ->]]] := split_idx lt; have [rt [x [hrt hx ->]]] := split_idx hrtx; have [r [t [hr ht ->]]] := split_idx hrt.
  rewrite h1 //; apply: is_zM; first by apply: is_zM; exact: is_z_nat.
  apply: hQ; first exact: join_idx.
  by apply: leq_trans (join_idx hx hk) _; rewrite /= leq_addr.
- have -> : (s' + c = s' + u1 * u2 * n * d + (c - u1 * u2 * n * d))%N by lia.
  apply: (IH _ _ _ h2) => //; last by lia.
  move=> q e hq he; rewrite -addnA; apply: hQ => //=.
  by rewrite ltn_add2l.
Qed.

Variable T : theory C.
Hypothesis (u10 : (0 < u1)%N) (u20 : (0 < u2)%N).
Hypothesis H : cg_ok T (m_rep m1) (m_rep m2).

Lemma dl_mulf d i j : (0 < d)%N -> mulf d (@dl C) i j = dl C i j.
Proof.
move=> d0; rewrite [X in _ = dl C X _](divn_eq i d) [X in _ = dl C _ X](divn_eq j d) /mulf /dl.
case: eqP => [->|ne]; first by rewrite eqn_add2l.
case: eqP => // e; case: ne.
by have := congr1 (fun x => (x %/ d)%N) e; rewrite /= !divnMDl // !(divn_small (ltn_pmod _ d0)) !addn0.
Qed.

Theorem tp_mul_good R1 R2 : mul_rep m1 = Ok R1 -> mul_rep m2 = Ok R2 ->
  exists r Q, tp_mul m1 m2 = Ok r /\ tp_good T r (mul_dim m1) (mul_dim m2) R1 R2 Q /\
  r_irreps r = [seq MulIrrep (u1 * u2 * cgz (m_rep m1) (m_rep m2) i3)%N i3 | i3 <- mul_of (m_rep m1) (m_rep m2)] /\
  (forall r0 Q0, tp_irreps (m_rep m1) (m_rep m2) = Ok r0 -> r_Q r0 = Some Q0 -> int_mx D0 Q0 -> int_mx D Q).
Proof.
move=> eR1 eR2; rewrite /tp_mul.
have cA : close_ (mul_A m1) (mul_A m2) = Ok true := close_A (co_1 H) (co_2 H).
have [r0 [Q0 [e0 [g0 i0]]]] := tp_irreps_good H.
rewrite cA /= e0 /= (tg_Q g0).
have ne := tg_ne g0.
have [|qs [Q [e1 [e2 [s k]]]]] := tp_mul_loop_ok (s := 0) (tg_s g0) _ ne.
  by rewrite add0n -(tg_d g0).
have kd : kdim (r_irreps r0) = D.
  have := tg_d g0; rewrite /red_dim /kdim /mul_dim => E.
  rewrite (_ : u1 * d1 * (u2 * d2) = u1 * u2 * D0)%N; last by lia.
  rewrite -E; elim: (r_irreps r0) => [|m ms /= ->]; first by rewrite /= muln0.
  by rewrite mulnDr !mulnA.
rewrite e1 /= e2 /=; eexists; exists Q; split; first by []; split; last first.
  split; first by rewrite /= i0 -map_comp.
  move=> r0' Q0' [<-]; rewrite (tg_Q g0) => -[<-] hz p c hp hc.
  rewrite -[c]add0n; apply: (kronQ_int _ k) => //.
    move=> q e hq he; apply: hz => //; rewrite -(tg_d g0) /red_dim add0n.
    by move: he; rewrite /msh -map_comp.
  by rewrite /msh -map_comp -/(kdim _) kd.
have [R1' [eR1' [hR1 [aR1 [xR1 yR1]]]]] := mul_rep_ok u10 (co_1 H); move: eR1'; rewrite eR1 => -[q]; rewrite -{R1'}q in hR1 aR1 xR1 yR1.
have [R2' [eR2' [hR2 [aR2 [xR2 yR2]]]]] := mul_rep_ok u20 (co_2 H); move: eR2'; rewrite eR2 => -[q]; rewrite -{R2'}q in hR2 aR2 xR2 yR2.
have tr (m : mulirrep G) (g : rep C -> nd C) n R : (forall a, (a < n)%N -> mx3 (mul_dim m) (mul_dim m) (g R) a = (1%:M : 'M[C]_(m_mul m)) *t mx3 _ _ (g (rep_of (m_rep m))) a) ->
    forall a i j, (a < n)%N -> (i < mul_dim m)%N -> (j < mul_dim m)%N -> gen g R a i j = mulf (dim_of (m_rep m)) (gen g (rep_of (m_rep m)) a) i j.
  move=> h a i j ha hi hj; have := h a ha; rewrite -mblk_tens => /matrixP/(_ (Ordinal hi) (Ordinal hj)).
  by rewrite !mxE.
have key (cs0 cs : seq (pair2 C)) g a : 
   (forall p p', (p < D)%N -> (p' < D)%N -> tpf (mulcs d1 d2 cs0) (mul_dim m2) p p' = tpf cs (mul_dim m2) p p') ->
   intw D0 (tpf cs0 d2) (map (bof g a) (r_irreps r0)) (fun i j => get Q0 [:: i; j]) 0 ->
   intw D (tpf cs (mul_dim m2)) (map (bof g a) [seq MulIrrep (u1 * u2 * m_mul m)%N (m_rep m) | m <- r_irreps r0]) (fun i j => get Q [:: i; j]) 0.
  move=> ec hi.
  have : kronQ u1 d1 u2 d2 [seq b.1 | b <- map (bof g a) (r_irreps r0)] (fun i j => get Q0 [:: i; j]) 0 (fun i j => get Q [:: i; j]) 0.
    by rewrite -map_comp.
  move=> kk; have := kron_intw kk hi; rewrite -!map_comp.
  by apply: intw_ext.
have dd p : (p < D)%N -> (p %/ mul_dim m2 < mul_dim m1)%N /\ (p %% mul_dim m2 < mul_dim m2)%N.
  move=> hp; have : (0 < mul_dim m2)%N by case: (mul_dim m2) hp => //; rewrite muln0.
  by move=> h; rewrite ltn_mod h ltn_divLR.
have pos p m : (p < mul_dim m)%N -> (0 < dim_of (m_rep m))%N by rewrite /mul_dim; case: (dim_of _) => //; rewrite muln0.
split=> //=.
- by rewrite s kd.
- by case: (r_irreps r0) ne.
- have := tg_m g0; elim: (r_irreps r0) => [//|m ms IH] hm /= x [<-|hin]; last by apply: IH hin => y hy; apply: hm; right.
  have [z1 z2] : mul_ok T m by apply: hm; left.
  by split=> //=; rewrite !muln_gt0 u10 u20.
- rewrite /red_dim /= -map_comp -kd /kdim; congr sumn; exact: eq_map.
- have f0 : rfree D0 (sumn [seq (b.1 * b.2)%N | b <- msh (r_irreps r0)]) (fun i j => get Q0 [:: i; j]).
    have -> : sumn [seq (b.1 * b.2)%N | b <- msh (r_irreps r0)] = D0 by rewrite -(tg_d g0) /msh -map_comp.
    exact: tg_f g0.
  have := kron_free k f0.
  have -> : sumn [seq (u1 * u2 * b.1 * b.2)%N | b <- msh (r_irreps r0)] = D by rewrite -kd /kdim /msh -map_comp.
  by [].
- move=> a ha; apply: key (tg_X g0 ha) => p p' /dd[h1 h2] /dd[h3 h4].
  rewrite /tpf /mulcs /csX /= !big_cons !big_nil /= !(tr _ rX _ _ xR1) // !(tr _ rX _ _ xR2) //.
  by rewrite !dl_mulf //; [exact: pos h1|exact: pos h2].
- move=> a ha; apply: key (tg_H g0 ha) => p p' /dd[h1 h2] /dd[h3 h4].
  by rewrite /tpf /mulcs /csH /= !big_cons !big_nil /= !(tr _ rH _ _ yR1) // !(tr _ rH _ _ yR2).
Qed.
End Mul.
End G.
End Tp.
