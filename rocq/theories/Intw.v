(** Intw: intertwining matrices given by their entries; the algebra behind the
    specialised tensor products (C32).  Nothing here refers to the model of the
    tensor_product overloads. *)
From Coq Require Import ZArith String Ascii.
From mathcomp Require Import all_ssreflect all_algebra.
From mathcomp.real_closed Require Import mxtens.
From mathcomp Require Import zify.
From Verif Require Import Base McRing Nd NdProofs Reps RepSpec RepProofs RepPower Pinv RepOps RepOps2 Reduced ReducedProofs.

Set Implicit Arguments.
Unset Strict Implicit.
Unset Printing Implicit Defensive.

Import GRing.Theory Num.Theory.
Local Open Scope ring_scope.

Section Intw.
Variable C : numClosedFieldType.
Implicit Types (Q XT : nat -> nat -> C).

Definition dl (i j : nat) : C := (i == j)%:R.

Lemma sum_mul m n (F : nat -> C) : \sum_(k < m * n) F k = \sum_(i < m) \sum_(j < n) F (i * n + j)%N.
Proof.
elim: m => [|m IH]; first by rewrite !big_ord0.
rewrite big_ord_recr /= -IH mulSnr big_split_ord /=; congr (_ + _).
Qed.
Lemma sum_dl n r (F : nat -> C) : (r < n)%N -> \sum_(i < n) dl i r * F i = F r.
Proof.
move=> hr; rewrite (bigD1 (Ordinal hr)) //= /dl eqxx mul1r [X in _ + X]big1 ?addr0 //.
by move=> i; rewrite -val_eqE /= => /negbTE->; rewrite mul0r.
Qed.
Lemma sum_dl' n r (F : nat -> C) : (r < n)%N -> \sum_(i < n) dl r i * F i = F r.
Proof. by move=> hr; rewrite -[RHS](sum_dl F hr); apply: eq_bigr => i _; rewrite /dl eq_sym. Qed.

(** ** Blocks (multiplicity, dimension, matrix) *)
Definition blk := (nat * nat * (nat -> nat -> C))%type.
Definition bexp (b : blk) : sq C :=
  ((b.1.1 * b.1.2)%N, fun i j => if (i %/ b.1.2 == j %/ b.1.2)%N then b.2 (i %% b.1.2)%N (j %% b.1.2)%N else 0).
Definition bdim (bs : seq blk) : nat := sumn [seq (b.1.1 * b.1.2)%N | b <- bs].

(** Columns s .. of Q intertwine XT with the direct sum of the blocks. *)
Fixpoint intw D XT (bs : seq blk) Q (s : nat) : Prop :=
  match bs with
  | [::] => True
  | b :: bs' =>
    (forall p u k, (p < D)%N -> (u < b.1.1)%N -> (k < b.1.2)%N ->
      \sum_(p' < D) XT p p' * Q p' (s + (u * b.1.2 + k))%N = \sum_(k' < b.1.2) Q p (s + (u * b.1.2 + k'))%N * b.2 k' k) /\
    intw D XT bs' Q (s + b.1.1 * b.1.2)
  end.

Lemma bexp_sum m d (f : nat -> nat -> C) (F : nat -> C) u k : (u < m)%N -> (k < d)%N ->
  \sum_(c < m * d) F c * (bexp (m, d, f)).2 c (u * d + k)%N = \sum_(k' < d) F (u * d + k')%N * f k' k.
Proof.
move=> hu hk; have d0 : (0 < d)%N by case: (d) hk.
rewrite (sum_mul m d (fun c => F c * (bexp (m, d, f)).2 c (u * d + k)%N)).
rewrite (bigD1 (Ordinal hu)) //= [X in _ + X]big1 ?addr0.
  by apply: eq_bigr => k' _; rewrite !divnMDl // !divn_small // addn0 eqxx !modnMDl !modn_small.
move=> i; rewrite -val_eqE /= => ne; apply: big1 => j _.
by rewrite !divnMDl // !divn_small // !addn0 (negbTE ne) mulr0.
Qed.

Lemma split_idx m d c : (c < m * d)%N -> exists u k, [/\ (u < m)%N, (k < d)%N & c = (u * d + k)%N].
Proof.
move=> h; have d0 : (0 < d)%N by case: (d) h => //; rewrite muln0.
by exists (c %/ d)%N, (c %% d)%N; rewrite ltn_divLR // ltn_mod d0 h -divn_eq.
Qed.
Lemma join_idx m d u k : (u < m)%N -> (k < d)%N -> (u * d + k < m * d)%N.
Proof. nia. Qed.

Lemma sum_split n m (F : nat -> C) : \sum_(c < n + m) F c = \sum_(c < n) F c + \sum_(c < m) F (n + c)%N.
Proof. by rewrite big_split_ord. Qed.

Lemma intwP D XT bs Q s : intw D XT bs Q s <->
  (forall p c, (p < D)%N -> (c < bdim bs)%N ->
   \sum_(p' < D) XT p p' * Q p' (s + c)%N = \sum_(c' < bdim bs) Q p (s + c')%N * dsl (map bexp bs) c' c).
Proof.
elim: bs s => [|[[m d] f] bs IH] s; first by split.
rewrite [intw _ _ _ _ _]/= IH; pose n := (m * d)%N.
rewrite -[bdim (_ :: _)]/(n + bdim bs)%N -[map bexp (_ :: _)]/(bexp (m, d, f) :: map bexp bs) -/n.
have first p c : (c < n)%N -> \sum_(c' < n + bdim bs) Q p (s + c')%N * dsl (bexp (m, d, f) :: map bexp bs) c' c
    = \sum_(c' < n) Q p (s + c')%N * (bexp (m, d, f)).2 c' c.
  move=> hc; rewrite (sum_split _ _ (fun c' => Q p (s + c')%N * dsl (bexp (m, d, f) :: map bexp bs) c' c)).
  rewrite [X in _ + X]big1 ?addr0.
    by apply: eq_bigr => c' _; rewrite /= -/n hc ltn_ord.
  move=> c' _; rewrite /= -/n (ltnNge (n + c')) leq_addr /= (leqNgt n c) hc /= ?andbF; by rewrite mulr0.
have second p c : \sum_(c' < n + bdim bs) Q p (s + c')%N * dsl (bexp (m, d, f) :: map bexp bs) c' (n + c)%N
    = \sum_(c' < bdim bs) Q p (s + n + c')%N * dsl (map bexp bs) c' c.
  rewrite (sum_split _ _ (fun c' => Q p (s + c')%N * dsl (bexp (m, d, f) :: map bexp bs) c' (n + c)%N)).
  rewrite [X in X + _]big1 ?add0r.
    apply: eq_bigr => c' _; rewrite /= -/n !(ltnNge (n + _)) !leq_addr /= !addKn addnA //.
  move=> c' _; rewrite /= -/n (ltnNge (n + c)) leq_addr /= andbF (leqNgt n c') ltn_ord /=; by rewrite mulr0.
split.
- move=> [h1 h2] p c hp hc; case: (ltnP c n) => hcn.
    have [u [k [hu hk ec]]] := split_idx hcn.
    by rewrite first // ec h1 // (bexp_sum f (fun c' => Q p (s + c')%N)).
  have [c' ec] : exists c', c = (n + c')%N by exists (c - n)%N; lia.
  rewrite ec second -h2 //; last by lia.
  by apply: eq_bigr => p' _; rewrite addnA.
- move=> h; split.
  + move=> p u k hp hu hk; have lt := join_idx hu hk; rewrite h //; last by rewrite -/n; lia.
    by rewrite first // (bexp_sum f (fun c' => Q p (s + c')%N)).
  + move=> p c hp hc; have := h p (n + c)%N hp; rewrite second => <-; last by lia.
    by apply: eq_bigr => p' _; rewrite addnA.
Qed.

Lemma intw_ext D XT XT' bs Q Q' s s' :
  (forall p p', (p < D)%N -> (p' < D)%N -> XT p p' = XT' p p') ->
  (forall p c, (p < D)%N -> (c < bdim bs)%N -> Q p (s + c)%N = Q' p (s' + c)%N) ->
  intw D XT bs Q s -> intw D XT' bs Q' s'.
Proof.
move=> eX eQ /intwP h; apply/intwP=> p c hp hc.
transitivity (\sum_(p' < D) XT p p' * Q p' (s + c)%N); first by apply: eq_bigr => p' _; rewrite -eX ?eQ.
by rewrite h //; apply: eq_bigr => c' _; rewrite eQ.
Qed.

Lemma intw_cat D XT bs1 bs2 Q s : intw D XT (bs1 ++ bs2) Q s <-> intw D XT bs1 Q s /\ intw D XT bs2 Q (s + bdim bs1).
Proof.
elim: bs1 s => [|b bs1 IH] s /=; first by rewrite /bdim /= addn0; split=> [|[]].
rewrite IH /bdim /= addnA; split; first by move=> [h1 [h2 h3]].
by move=> [[h1 h2] h3].
Qed.
Lemma bdim_cat bs1 bs2 : bdim (bs1 ++ bs2) = (bdim bs1 + bdim bs2)%N.
Proof. by rewrite /bdim map_cat sumn_cat. Qed.

(** The matrix form. *)
Lemma intw_mx D XT bs Q : intw D XT bs Q 0 <->
  mxf D XT *m (\matrix_(i < D, j < bdim bs) Q i j) = (\matrix_(i < D, j < bdim bs) Q i j) *m mxf (bdim bs) (dsl (map bexp bs)).
Proof.
rewrite intwP; split.
- move=> h; apply/matrixP=> p c; rewrite !mxE.
  transitivity (\sum_(p' < D) XT p p' * Q p' (0 + c)%N); first by apply: eq_bigr => i _; rewrite !mxE.
  by rewrite h //; apply: eq_bigr => i _; rewrite !mxE.
- move=> /matrixP h p c hp hc; have := h (Ordinal hp) (Ordinal hc); rewrite !mxE => e.
  transitivity (\sum_j mxf D XT (Ordinal hp) j * (\matrix_(i, j0) Q i j0) j (Ordinal hc)).
    by apply: eq_bigr => i _; rewrite !mxE.
  by rewrite e; apply: eq_bigr => i _; rewrite !mxE.
Qed.

(** ** Independence of the rows *)
Definition rfree D N Q := forall w : nat -> C,
  (forall c, (c < N)%N -> \sum_(p < D) w p * Q p c = 0) -> forall p, (p < D)%N -> w p = 0.

Lemma rfreeP D N Q : rfree D N Q <-> row_free (\matrix_(i < D, j < N) Q i j).
Proof.
split=> [h|h].
- rewrite -kermx_eq0; apply/eqP/row_matrixP=> i; rewrite row0.
  set K := kermx _; pose w p := if insub p is Some p' then K i p' else 0.
  have wE (p : 'I_D) : w p = K i p by rewrite /w valK.
  apply/rowP=> p; rewrite [LHS]mxE [RHS]mxE -wE; apply: h => // c hc.
  have /matrixP/(_ i (Ordinal hc)) := mulmx_ker (\matrix_(i < D, j < N) Q i j); rewrite !mxE => e.
  by rewrite -[RHS]e; apply: eq_bigr => j _; rewrite wE !mxE.
- move=> w hw p hp; pose v : 'rV[C]_D := \row_i w i.
  have : v *m (\matrix_(i < D, j < N) Q i j) = 0.
    by apply/rowP=> c; rewrite !mxE -[RHS](hw c) //; apply: eq_bigr => j _; rewrite !mxE.
  move/eqP; rewrite mulmx_free_eq0 // => /eqP/rowP/(_ (Ordinal hp)); by rewrite !mxE.
Qed.

(** ** Kronecker sums of pairs *)
Definition pair2 := ((nat -> nat -> C) * (nat -> nat -> C))%type.
Definition tpf (cs : seq pair2) (d2 p p' : nat) : C :=
  \sum_(c <- cs) c.1 (p %/ d2)%N (p' %/ d2)%N * c.2 (p %% d2)%N (p' %% d2)%N.

Lemma sum_tpf cs d1 d2 i j (F : nat -> C) : (j < d2)%N ->
  \sum_(p < d1 * d2) tpf cs d2 (i * d2 + j)%N p * F p =
  \sum_(i' < d1) \sum_(j' < d2) (\sum_(c <- cs) c.1 i i' * c.2 j j') * F (i' * d2 + j')%N.
Proof.
move=> hj; have d0 : (0 < d2)%N by case: (d2) hj.
rewrite (sum_mul _ _ (fun p => tpf cs d2 (i * d2 + j)%N p * F p)).
apply: eq_bigr => i' _; apply: eq_bigr => j' _; congr (_ * _).
by rewrite /tpf; apply: eq_bigr => c _; rewrite !divnMDl // !divn_small // !addn0 !modnMDl !modn_small.
Qed.

(** m copies of f. *)
Definition mulf (d : nat) (f : nat -> nat -> C) (i j : nat) : C :=
  if (i %/ d == j %/ d)%N then f (i %% d)%N (j %% d)%N else 0.
Lemma mulfE d f u i v j : (i < d)%N -> (j < d)%N -> mulf d f (u * d + i) (v * d + j) = dl u v * f i j.
Proof.
move=> hi hj; have d0 : (0 < d)%N by case: (d) hi.
by rewrite /mulf !divnMDl // !divn_small // !addn0 !modnMDl !modn_small // /dl; case: eqP; rewrite ?mul1r ?mul0r.
Qed.

(** q (x) 1 (x) 1, columns of the block (m, d) starting at s and s'. *)
Section Kron.
Variables m1 d1 m2 d2 : nat.
Let D0 := (d1 * d2)%N.
Let D := ((m1 * d1) * (m2 * d2))%N.
Definition idx4 (u i v j : nat) : nat := ((u * d1 + i) * (m2 * d2) + (v * d2 + j))%N.
Fixpoint kronQ (sh : seq (nat * nat)) Q s Q' s' : Prop :=
  match sh with
  | [::] => True
  | (m, d) :: sh' =>
    (forall u i v j r t x k, (u < m1)%N -> (i < d1)%N -> (v < m2)%N -> (j < d2)%N -> (r < m1)%N -> (t < m2)%N ->
       (x < m)%N -> (k < d)%N ->
       Q' (idx4 u i v j) (s' + (((r * m2 + t) * m + x) * d + k))%N = dl u r * dl v t * Q (i * d2 + j)%N (s + (x * d + k))%N) /\
    kronQ sh' Q (s + m * d)%N Q' (s' + m1 * m2 * m * d)%N
  end.
Lemma split4 p : (p < D)%N -> exists u i v j, [/\ (u < m1)%N, (i < d1)%N, (v < m2)%N, (j < d2)%N & p = idx4 u i v j].
Proof.
move=> hp; have [a [b [ha hb ->]]] := split_idx hp.
have [u [i [hu hi ->]]] := split_idx ha; have [v [j [hv hj ->]]] := split_idx hb.
by exists u, i, v, j.
Qed.
Lemma sum4 (F : nat -> C) : \sum_(p < D) F p = \sum_(u < m1) \sum_(i < d1) \sum_(v < m2) \sum_(j < d2) F (idx4 u i v j).
Proof.
rewrite /D (sum_mul _ _ F) (sum_mul m1 d1 (fun a => \sum_(b < m2 * d2) F (a * (m2 * d2) + b)%N)).
apply: eq_bigr => u _; apply: eq_bigr => i _.
by rewrite (sum_mul m2 d2 (fun b => F ((u * d1 + i) * (m2 * d2) + b)%N)).
Qed.
Lemma lt4 u i v j : (u < m1)%N -> (i < d1)%N -> (v < m2)%N -> (j < d2)%N -> (idx4 u i v j < D)%N.
Proof. by move=> *; apply: join_idx; apply: join_idx. Qed.

Definition mulcs (cs : seq pair2) : seq pair2 := [seq (mulf d1 c.1, mulf d2 c.2) | c <- cs].
Lemma tpf_mul cs u i v j u' i' v' j' : (i < d1)%N -> (v < m2)%N -> (j < d2)%N -> (i' < d1)%N -> (v' < m2)%N -> (j' < d2)%N ->
  tpf (mulcs cs) (m2 * d2) (idx4 u i v j) (idx4 u' i' v' j') =
  dl u u' * dl v v' * \sum_(c <- cs) c.1 i i' * c.2 j j'.
Proof.
move=> hi hv hj hi' hv' hj'.
have h1 := join_idx hv hj; have h2 := join_idx hv' hj'; have d0 : (0 < m2 * d2)%N by case: (m2 * d2)%N h1.
rewrite /tpf big_map mulr_sumr; apply: eq_bigr => c _ /=.
rewrite /idx4 !divnMDl // !divn_small // !addn0 !modnMDl !modn_small // !mulfE //; mcring.
Qed.

Lemma kron_intw cs bs Q s Q' s' : kronQ [seq b.1 | b <- bs] Q s Q' s' -> intw D0 (tpf cs d2) bs Q s ->
  intw D (tpf (mulcs cs) (m2 * d2)) [seq ((m1 * m2 * b.1.1)%N, b.1.2, b.2) | b <- bs] Q' s'.
Proof.
elim: bs s s' => [//|[[m d] f] bs IH] s s' /= [h1 h2] [i1 i2].
split; last by apply: IH i2.
move=> p c k hp hc hk; have [u [i [v [j [hu hi hv hj ->]]]]] := split4 hp.
have [rt [x [hrt hx ec]]] := split_idx hc; have [r [t [hr ht ert]]] := split_idx hrt.
rewrite {c}ec {rt}ert in hc hrt *.
rewrite (sum4 (fun p' => tpf (mulcs cs) (m2 * d2) (idx4 u i v j) p' * Q' p' (s' + (((r * m2 + t) * m + x) * d + k))%N)).
have hij : (i * d2 + j < D0)%N by apply: join_idx.
transitivity (dl u r * dl v t * \sum_(k' < d) Q (i * d2 + j)%N (s + (x * d + k'))%N * f k' k); last first.
  by rewrite mulr_sumr; apply: eq_bigr => k' _; rewrite h1 // mulrA.
rewrite -i1 // (sum_tpf cs d1 i (fun p' => Q p' (s + (x * d + k))%N) hj).
transitivity (\sum_(u' < m1) dl u u' * \sum_(i' < d1) \sum_(v' < m2) dl v v' * \sum_(j' < d2)
   (dl u' r * dl v' t) * ((\sum_(c <- cs) c.1 i i' * c.2 j j') * Q (i' * d2 + j')%N (s + (x * d + k))%N)).
  apply: eq_bigr => u' _; rewrite mulr_sumr; apply: eq_bigr => i' _; rewrite mulr_sumr; apply: eq_bigr => v' _.
  rewrite mulrA mulr_sumr; apply: eq_bigr => j' _; rewrite tpf_mul // h1 //; mcring.
rewrite (sum_dl' (fun u' => \sum_(i' < d1) \sum_(v' < m2) dl v v' * \sum_(j' < d2)
   (dl u' r * dl v' t) * ((\sum_(c <- cs) c.1 i i' * c.2 j j') * Q (i' * d2 + j')%N (s + (x * d + k))%N)) hu).
rewrite mulr_sumr; apply: eq_bigr => i' _.
rewrite (sum_dl' (fun v' => \sum_(j' < d2)
   (dl u r * dl v' t) * ((\sum_(c <- cs) c.1 i i' * c.2 j j') * Q (i' * d2 + j')%N (s + (x * d + k))%N)) hv).
by rewrite mulr_sumr.
Qed.

(** All columns of the blocks vanish against w. *)
Lemma kron_free_aux sh Q s Q' s' (w : nat -> C) r t : kronQ sh Q s Q' s' -> (r < m1)%N -> (t < m2)%N ->
  (forall c, (c < sumn [seq (m1 * m2 * b.1 * b.2)%N | b <- sh])%N -> \sum_(p < D) w p * Q' p (s' + c)%N = 0) ->
  forall c, (c < sumn [seq (b.1 * b.2)%N | b <- sh])%N -> \sum_(p < D0) w (idx4 r (p %/ d2) t (p %% d2)) * Q p (s + c)%N = 0.
Proof.
move=> + hr ht; elim: sh s s' => [//|[m d] sh IH] s s' /= [h1 h2] hw c hc.
case: (ltnP c (m * d)) => lt.
- have [x [k [hx hk ->]]] := split_idx lt.
  have lt' : (((r * m2 + t) * m + x) * d + k < m1 * m2 * m * d)%N by do 3!apply: join_idx => //.
  rewrite -[RHS](hw (((r * m2 + t) * m + x) * d + k)%N); last by apply: leq_trans lt' (leq_addr _ _).
  rewrite (sum4 (fun p => w p * Q' p (s' + (((r * m2 + t) * m + x) * d + k))%N)).
  rewrite (sum_mul d1 d2 (fun p => w (idx4 r (p %/ d2) t (p %% d2)) * Q p (s + (x * d + k))%N)).
  transitivity (\sum_(u < m1) dl u r * \sum_(i < d1) \sum_(v < m2) dl v t * \sum_(j < d2)
     w (idx4 u i v j) * Q (i * d2 + j)%N (s + (x * d + k))%N); last first.
    apply: eq_bigr => u _; rewrite mulr_sumr; apply: eq_bigr => i _; rewrite mulr_sumr; apply: eq_bigr => v _.
    rewrite mulrA mulr_sumr; apply: eq_bigr => j _; rewrite h1 //; mcring.
  rewrite (sum_dl (fun u => \sum_(i < d1) \sum_(v < m2) dl v t * \sum_(j < d2)
     w (idx4 u i v j) * Q (i * d2 + j)%N (s + (x * d + k))%N) hr).
  apply: eq_bigr => i _.
  rewrite (sum_dl (fun v => \sum_(j < d2) w (idx4 r i v j) * Q (i * d2 + j)%N (s + (x * d + k))%N) ht).
  apply: eq_bigr => j _; have d0 : (0 < d2)%N by case: (d2) j => [[]|].
  by rewrite divnMDl // divn_small // addn0 modnMDl modn_small.
- have [c' ec] : exists c', c = (m * d + c')%N by exists (c - m * d)%N; lia.
  have := IH _ _ h2 _ c'; rewrite ec addnA; apply; last by lia.
  move=> c0 hc0; rewrite -[RHS](hw (m1 * m2 * m * d + c0)%N) ?addnA //; by lia.
Qed.

Lemma kron_free sh Q Q' : kronQ sh Q 0 Q' 0 -> rfree D0 (sumn [seq (b.1 * b.2)%N | b <- sh]) Q ->
  rfree D (sumn [seq (m1 * m2 * b.1 * b.2)%N | b <- sh]) Q'.
Proof.
move=> h f w hw p hp; have [u [i [v [j [hu hi hv hj ->]]]]] := split4 hp.
have := f (fun p => w (idx4 u (p %/ d2) v (p %% d2))) _ (i * d2 + j)%N (join_idx hi hj).
rewrite divnMDl ?divn_small ?addn0 ?modnMDl ?modn_small //; last by case: (d2) hj.
by apply; exact: (kron_free_aux h hu hv).
Qed.
End Kron.

(** ** Columns supported on a rectangle of rows *)
Record item := Item { it_i : nat; it_j : nat; it_e1 : nat; it_e2 : nat; it_n : nat; it_q : nat -> nat -> C }.
Definition inb (x : item) (a b : nat) : bool :=
  [&& it_i x <= a, a < it_i x + it_e1 x, it_j x <= b & b < it_j x + it_e2 x]%N.
Fixpoint colf (P : seq item) (a b c : nat) : C :=
  match P with
  | [::] => 0
  | x :: P' => if (c < it_n x)%N then if inb x a b then it_q x ((a - it_i x) * it_e2 x + (b - it_j x))%N c else 0
               else colf P' a b (c - it_n x)
  end.
Definition pdim (P : seq item) : nat := sumn (map it_n P).
Lemma colf_rcons P x a b c : (c < pdim P + it_n x)%N ->
  colf (rcons P x) a b c = if (c < pdim P)%N then colf P a b c
     else if inb x a b then it_q x ((a - it_i x) * it_e2 x + (b - it_j x))%N (c - pdim P)%N else 0.
Proof.
elim: P c => [|y P IH] c; first by rewrite /pdim /= add0n subn0 => ->.
rewrite /pdim /= -/(pdim P) => hc; case: (ltnP c (it_n y)) => h1; first by rewrite (leq_trans h1 (leq_addr _ _)).
rewrite IH; last by lia.
rewrite subnDA (_ : (c - it_n y < pdim P) = (c < it_n y + pdim P))%N //; lia.
Qed.

Section Rect.
Variables e1 e2 : nat.
(** A generator of the whole space that preserves the rectangle of x and acts there by Xx. *)
Definition restr (x : item) (XT Xx : nat -> nat -> C) : Prop :=
  [/\ (it_i x + it_e1 x <= e1)%N, (it_j x + it_e2 x <= e2)%N &
  forall a b i j, (a < e1)%N -> (b < e2)%N -> (i < it_e1 x)%N -> (j < it_e2 x)%N ->
  XT (a * e2 + b)%N ((it_i x + i) * e2 + (it_j x + j))%N =
    if inb x a b then Xx ((a - it_i x) * it_e2 x + (b - it_j x))%N (i * it_e2 x + j)%N else 0].

Lemma sum_rect (x : item) (F : nat -> nat -> C) : (it_i x + it_e1 x <= e1)%N -> (it_j x + it_e2 x <= e2)%N ->
  (forall a b, (a < e1)%N -> (b < e2)%N -> ~~ inb x a b -> F a b = 0) ->
  \sum_(a < e1) \sum_(b < e2) F a b = \sum_(i < it_e1 x) \sum_(j < it_e2 x) F (it_i x + i)%N (it_j x + j)%N.
Proof.
move=> h1 h2 z.
have one (s e n : nat) (f : nat -> C) : (s + e <= n)%N -> (forall a, (a < n)%N -> ~~ ((s <= a) && (a < s + e))%N -> f a = 0) ->
    \sum_(a < n) f a = \sum_(i < e) f (s + i)%N.
  move=> le zf; have -> : n = (s + (e + (n - (s + e))))%N by lia.
  rewrite sum_split big1 ?add0r.
    rewrite (sum_split _ _ (fun c => f (s + c)%N)) [X in _ + X]big1 ?addr0 // => i _.
    by apply: zf; have := ltn_ord i; lia.
  by move=> i _; apply: zf; have := ltn_ord i; lia.
rewrite (one (it_i x) (it_e1 x) _ (fun a => \sum_(b < e2) F a b)) //.
  apply: eq_bigr => i _; rewrite (one (it_j x) (it_e2 x) _ (F _)) // => b hb out.
  by apply: z => //; [have := ltn_ord i; lia|rewrite /inb; have := ltn_ord i; lia].
by move=> a ha out; apply: big1 => b _; apply: z => //; rewrite /inb; lia.
Qed.

Lemma inb_at x i j : (i < it_e1 x)%N -> (j < it_e2 x)%N -> inb x (it_i x + i) (it_j x + j).
Proof. by rewrite /inb; lia. Qed.

Fixpoint pintw (P : seq item) (XT : nat -> nat -> C) (Xs : seq (nat -> nat -> C)) (bss : seq (seq blk)) : Prop :=
  match P, Xs, bss with
  | [::], [::], [::] => True
  | x :: P', Xx :: Xs', bs :: bss' =>
      [/\ restr x XT Xx, it_n x = bdim bs, intw (it_e1 x * it_e2 x) Xx bs (it_q x) 0 & pintw P' XT Xs' bss']
  | _, _, _ => False
  end.
Definition colQ (P : seq item) (p c : nat) : C := colf P (p %/ e2) (p %% e2) c.

Lemma rect_intw x XT Xx bs : restr x XT Xx -> it_n x = bdim bs -> intw (it_e1 x * it_e2 x) Xx bs (it_q x) 0 ->
  intw (e1 * e2) XT bs (colQ [:: x]) 0.
Proof.
move=> [l1 l2 hX] n /intwP h; apply/intwP => p c hp hc.
have [a [b [ha hb ->]]] := split_idx hp; have e0 : (0 < e2)%N by case: (e2) hb.
rewrite (sum_mul e1 e2 (fun p' => XT (a * e2 + b)%N p' * colQ [:: x] p' (0 + c)%N)).
pose F a' b' := XT (a * e2 + b)%N (a' * e2 + b')%N *
   (if inb x a' b' then it_q x ((a' - it_i x) * it_e2 x + (b' - it_j x))%N c else 0).
transitivity (\sum_(a' < e1) \sum_(b' < e2) F a' b').
  apply: eq_bigr => a' _; apply: eq_bigr => b' _; congr (_ * _).
  by rewrite /colQ /= n hc divnMDl // divn_small // addn0 modnMDl modn_small.
rewrite (sum_rect l1 l2); last by move=> a' b' _ _ /negbTE o; rewrite /F o mulr0.
transitivity (if inb x a b then \sum_(p' < it_e1 x * it_e2 x) Xx ((a - it_i x) * it_e2 x + (b - it_j x))%N p' * it_q x p' (0 + c)%N else 0).
  rewrite (sum_mul (it_e1 x) (it_e2 x) (fun p' => Xx ((a - it_i x) * it_e2 x + (b - it_j x))%N p' * it_q x p' c)).
  case: ifP => ib.
    apply: eq_bigr => i _; apply: eq_bigr => j _.
    by rewrite /F hX // ib inb_at // !addKn.
  by apply: big1 => i _; apply: big1 => j _; rewrite /F hX // ib mul0r.
transitivity (\sum_(c' < bdim bs) (if inb x a b then it_q x ((a - it_i x) * it_e2 x + (b - it_j x))%N c' else 0) * dsl (map bexp bs) c' c).
  case: ifP => ib; last by rewrite big1 // => c' _; rewrite mul0r.
  rewrite h //; apply: join_idx; move: ib; rewrite /inb; lia.
apply: eq_bigr => c' _; congr (_ * _).
by rewrite /colQ /= n ltn_ord divnMDl // divn_small // addn0 modnMDl modn_small.
Qed.

Lemma pintw_intw P XT Xs bss : pintw P XT Xs bss -> intw (e1 * e2) XT (flatten bss) (colQ P) 0 /\ pdim P = bdim (flatten bss).
Proof.
elim: P Xs bss => [|x P IH] [|Xx Xs] [|bs bss] //= [hr n hi /IH[h1 h2]].
split; last by rewrite /pdim /= bdim_cat n -h2.
apply/intw_cat; split.
- apply: intw_ext (rect_intw hr n hi) => // p c hp hc.
  by rewrite /colQ /= !add0n n hc.
- apply: intw_ext h1 => // p c hp hc.
  by rewrite /colQ /= add0n n ltnNge leq_addr /= addKn.
Qed.

(** Every row index lies in the rectangle of an item whose columns are independent. *)
Lemma colQ_item P x0 k (w : nat -> C) : (k < size P)%N ->
  (forall c, (c < pdim P)%N -> \sum_(p < e1 * e2) w p * colQ P p c = 0) ->
  forall c, (c < it_n (nth x0 P k))%N -> \sum_(p < e1 * e2) w p * colQ [:: nth x0 P k] p c = 0.
Proof.
elim: P k => [//|x P IH] [|k] /= hk hw c hc.
- rewrite -[RHS](hw c); last by rewrite /pdim /=; lia.
  by apply: eq_bigr => p _; rewrite /colQ /= hc.
- apply: IH hc => // c' hc'; rewrite -[RHS](hw (it_n x + c')%N); last by rewrite /pdim /= -/(pdim P); lia.
  by apply: eq_bigr => p _; rewrite /colQ /= ltnNge leq_addr /= addKn.
Qed.
Lemma rect_free x (w : nat -> C) : (it_i x + it_e1 x <= e1)%N -> (it_j x + it_e2 x <= e2)%N ->
  rfree (it_e1 x * it_e2 x) (it_n x) (it_q x) ->
  (forall c, (c < it_n x)%N -> \sum_(p < e1 * e2) w p * colQ [:: x] p c = 0) ->
  forall a b, inb x a b -> w (a * e2 + b)%N = 0.
Proof.
move=> l1 l2 f hw a b ib.
pose v p := w ((it_i x + p %/ it_e2 x) * e2 + (it_j x + p %% it_e2 x))%N.
have := f v _ ((a - it_i x) * it_e2 x + (b - it_j x))%N; rewrite /v.
have [i1 i2] : (a - it_i x < it_e1 x)%N /\ (b - it_j x < it_e2 x)%N by move: ib; rewrite /inb; lia.
have e0 : (0 < it_e2 x)%N by lia.
rewrite divnMDl // divn_small // addn0 modnMDl modn_small // !subnKC; try by move: ib; rewrite /inb; lia.
apply; last exact: join_idx.
move=> c hc; rewrite -[RHS](hw c hc).
rewrite (sum_mul _ _ (fun p => w ((it_i x + p %/ it_e2 x) * e2 + (it_j x + p %% it_e2 x))%N * it_q x p c)).
rewrite (sum_mul e1 e2 (fun p => w p * colQ [:: x] p c)).
pose F a' b' := w (a' * e2 + b')%N * (if inb x a' b' then it_q x ((a' - it_i x) * it_e2 x + (b' - it_j x))%N c else 0).
transitivity (\sum_(a' < e1) \sum_(b' < e2) F a' b').
  rewrite (sum_rect l1 l2); last by move=> a' b' _ _ /negbTE o; rewrite /F o mulr0.
  apply: eq_bigr => i _; apply: eq_bigr => j _; rewrite /F inb_at // !addKn.
  by rewrite divnMDl // divn_small // addn0 modnMDl modn_small.
apply: eq_bigr => a' _; apply: eq_bigr => b' _; congr (_ * _).
have e0' : (0 < e2)%N by have := ltn_ord b'; lia.
by rewrite /colQ /= hc divnMDl // divn_small // addn0 modnMDl modn_small.
Qed.

Lemma colQ_free P : (forall a b, (a < e1)%N -> (b < e2)%N -> exists x0 k, (k < size P)%N /\
    [/\ inb (nth x0 P k) a b, (it_i (nth x0 P k) + it_e1 (nth x0 P k) <= e1)%N, (it_j (nth x0 P k) + it_e2 (nth x0 P k) <= e2)%N &
     rfree (it_e1 (nth x0 P k) * it_e2 (nth x0 P k)) (it_n (nth x0 P k)) (it_q (nth x0 P k))]) ->
  rfree (e1 * e2) (pdim P) (colQ P).
Proof.
move=> h w hw p hp; have [a [b [ha hb ->]]] := split_idx hp.
have [x0 [k [hk [ib l1 l2 f]]]] := h a b ha hb.
by apply: (rect_free l1 l2 f _ ib); exact: colQ_item.
Qed.
End Rect.
End Intw.
