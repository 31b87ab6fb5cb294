(** RtpSpan: linear combinations of the columns of a basis, and operators on them. *)
From Coq Require Import ZArith String Ascii List Permutation.
From mathcomp Require Import all_ssreflect all_algebra.
From mathcomp Require Import zify.
From Verif Require Import Base Nd NdProofs Reps Sl2c LinAlg Perm RedPerm Rtp RtpArr RtpLoop RtpPres RtpEqv.
From Verif Require Intw.

Set Implicit Arguments.
Unset Strict Implicit.
Unset Printing Implicit Defensive.

Import GRing.Theory Num.Theory.
Local Open Scope ring_scope.

Section Spn.
Variable C : numClosedFieldType.
Implicit Types (ld : seq nat) (gs : seq (seq nat -> C)) (T : seq nat -> C).
(** T is a linear combination of the functions gs on the indices of the shape ld. *)
Definition spn ld gs T : Prop := exists z : nat -> C, forall idx, valid ld idx ->
  T idx = \sum_(i < size gs) z i * nth (fun=> 0) gs i idx.

Lemma spn_ext ld gs T T' : (forall idx, valid ld idx -> T idx = T' idx) -> spn ld gs T -> spn ld gs T'.
Proof. by move=> e [z h]; exists z => idx v; rewrite -e // h. Qed.
Lemma spn_empty ld gs T : nprod ld = 0%N -> spn ld gs T.
Proof. by move=> e; exists (fun=> 0) => idx /ravel_lt; rewrite e. Qed.
Lemma spn_nth ld gs i : (i < size gs)%N -> spn ld gs (nth (fun=> 0) gs i).
Proof.
move=> hi; exists (fun j => (j == i)%:R) => idx _.
rewrite (bigD1 (Ordinal hi)) //= eqxx mul1r big1 ?addr0 // => j ne.
by case: eqP => [e|_]; rewrite ?mul0r //; case/eqP: ne; apply: val_inj.
Qed.
Lemma In_nth (A : Type) (x0 x : A) s : List.In x s -> exists2 i, (i < size s)%N & nth x0 s i = x.
Proof. by elim: s => //= y s IH [->|/IH[i hi e]]; [exists 0%N | exists i.+1]. Qed.
Lemma nth_In (A : Type) (x0 : A) s i : (i < size s)%N -> List.In (nth x0 s i) s.
Proof. by elim: s i => //= y s IH [|i] hi; [left | right; apply: IH]. Qed.
Lemma spn_In ld gs g : List.In g gs -> spn ld gs g.
Proof. by move=> /(In_nth (fun=> 0))[i hi <-]; apply: spn_nth. Qed.
Lemma spn_sum ld gs n (a : 'I_n -> C) (g : 'I_n -> seq nat -> C) : (forall w, spn ld gs (g w)) ->
  spn ld gs (fun idx => \sum_(w < n) a w * g w idx).
Proof.
move=> /fin_all_exists[z hz]; exists (fun i => \sum_(w < n) a w * z w i) => idx v.
under [RHS]eq_bigr do rewrite mulr_suml.
rewrite [RHS]exchange_big /=; apply: eq_bigr => w _; rewrite (hz w idx v) mulr_sumr.
by apply: eq_bigr => i _; rewrite mulrA.
Qed.
Lemma spn0 ld gs : spn ld gs (fun=> 0).
Proof. by exists (fun=> 0) => idx _; rewrite big1 // => i _; rewrite mul0r. Qed.
Lemma spn_add ld gs c T T' : spn ld gs T -> spn ld gs T' -> spn ld gs (fun idx => T idx + c * T' idx).
Proof.
move=> [z hz] [z' hz']; exists (fun i => z i + c * z' i) => idx v; rewrite hz // hz' // mulr_sumr -big_split /=.
by apply: eq_bigr => i _; rewrite mulrDl mulrA.
Qed.
Lemma spn_bigs (A : Type) (r : seq A) ld gs (a : A -> C) (g : A -> seq nat -> C) : (forall w, List.In w r -> spn ld gs (g w)) ->
  spn ld gs (fun idx => \sum_(w <- r) a w * g w idx).
Proof.
elim: r => [|w r IH] h; first by apply: spn_ext (spn0 ld gs) => idx _; rewrite big_nil.
apply: (@spn_ext _ _ (fun idx => \sum_(w <- r) a w * g w idx + a w * g w idx)); first by move=> idx _; rewrite big_cons addrC.
by apply: spn_add; [apply: IH => x hx; apply: h; right | apply: h; left].
Qed.
Lemma spn_trans ld gs gs' T : (forall g, List.In g gs -> spn ld gs' g) -> spn ld gs T -> spn ld gs' T.
Proof.
move=> h [z hz]; apply: spn_ext (_ : spn ld gs' (fun idx => \sum_(i < size gs) z i * nth (fun=> 0) gs i idx)).
  by move=> idx v; rewrite hz.
by apply: spn_sum => w; apply: h; apply: nth_In.
Qed.

(** A function of two indices whose slices are linear combinations. *)
Lemma spn_tensor ld1 ld2 gs1 gs2 (M : seq nat -> seq nat -> C) :
  (forall j, valid ld2 j -> spn ld1 gs1 (M ^~ j)) -> (forall i, valid ld1 i -> spn ld2 gs2 (M i)) ->
  exists z : nat -> nat -> C, forall i j, valid ld1 i -> valid ld2 j ->
    M i j = \sum_(a < size gs1) \sum_(b < size gs2) z a b * (nth (fun=> 0) gs1 a i * nth (fun=> 0) gs2 b j).
Proof.
move=> h1 h2; pose A := \matrix_(a < size gs1, i < nprod ld1) nth (fun=> 0) gs1 a (unravel ld1 i).
pose B := \matrix_(b < size gs2, j < nprod ld2) nth (fun=> 0) gs2 b (unravel ld2 j).
pose Mm := \matrix_(i < nprod ld1, j < nprod ld2) M (unravel ld1 i) (unravel ld2 j).
have /submxP[D e1] : (Mm^T <= A)%MS.
  apply/row_subP => j; have [z hz] := h1 _ (unravel_valid (ltn_ord j)); apply/submxP; exists (\row_a z a).
  by apply/rowP => i; rewrite !mxE hz ?unravel_valid //; apply: eq_bigr => a _; rewrite !mxE.
have e2 : (Mm <= B)%MS.
  apply/row_subP => i; have [z hz] := h2 _ (unravel_valid (ltn_ord i)); apply/submxP; exists (\row_a z a).
  by apply/rowP => j; rewrite !mxE hz ?unravel_valid //; apply: eq_bigr => a _; rewrite !mxE.
pose Z := D^T *m pinvmx B.
have eM : Mm = A^T *m Z *m B.
  by rewrite -{1}(mulmxKpV e2) -[Mm in LHS]trmxK e1 trmx_mul /Z !mulmxA.
exists (fun a b => if insub a is Some a' then if insub b is Some b' then Z a' b' else 0 else 0) => i j vi vj.
have := congr1 (fun X : 'M_(_, _) => X (Ordinal (ravel_lt vi)) (Ordinal (ravel_lt vj))) eM; rewrite mxE /= !ravelK // => ->.
rewrite mxE; under eq_bigr do rewrite mxE mulr_suml.
rewrite exchange_big /=; apply: eq_bigr => a _; apply: eq_bigr => b _; rewrite !valK !mxE /= !ravelK //.
by rewrite mulrAC [in RHS]mulrC.
Qed.
End Spn.

Section Ents.
Variable C : numClosedFieldType.
Notation nd := (nd C).
Variable L : eqType.
Variable dim : L -> nat.
Notation mi := (nat * L)%type.
Notation blk := (mi * nd)%type.
Local Notation ents := (ents dim).
Lemma In_flatten (A : Type) (x : A) ss : List.In x (flatten ss) <-> exists s, List.In s ss /\ List.In x s.
Proof.
elim: ss => [|s ss IH] /=; first by split=> // -[s []].
split=> [/List.in_app_iff[h|/IH[t [h1 h2]]]|[t [[<-|h1] h2]]].
- by exists s; split=> //; left.
- by exists t; split=> //; right.
- by apply/List.in_app_iff; left.
- by apply/List.in_app_iff; right; apply/IH; exists t.
Qed.
Lemma In_iota u m : List.In u (iota 0 m) <-> (u < m)%N.
Proof.
rewrite -[(u < m)%N]/(0 <= u < 0 + m)%N -mem_iota; elim: (iota 0 m) => //= v s IH; rewrite inE; split=> [[->|/IH->]|/orP[/eqP ->|/IH]].
- by rewrite eqxx.
- by rewrite orbT.
- by left.
- by right.
Qed.
Lemma In_colsP (l : seq blk) c : List.In c (cols l) <-> exists q u, [/\ List.In q l, (u < q.1.1)%N & c = (q.1.2, fun idx k => get q.2 (idx ++ [:: u; k]))].
Proof.
rewrite In_flatten; split.
  by case=> s [/List.in_map_iff[q [<- hq]] /List.in_map_iff[u [<- /In_iota hu]]]; exists q, u.
case=> q [u [hq hu ->]]; exists (bcols q); split; first by apply/List.in_map_iff; exists q.
by apply/List.in_map_iff; exists u; split=> //; apply/In_iota.
Qed.
Lemma In_entsP (l : seq blk) g : List.In g (ents l) <-> exists q u k, [/\ List.In q l, (u < q.1.1)%N, (k < dim q.1.2)%N &
  g = (fun idx => get q.2 (idx ++ [:: u; k]))].
Proof.
rewrite In_flatten; split.
  case=> s [/List.in_map_iff[c [<- /In_colsP[q [u [hq hu ->]]]]] /List.in_map_iff[k [<- /In_iota hk]]].
  by exists q, u, k.
case=> q [u [k [hq hu hk ->]]]; exists (cents dim (q.1.2, fun idx k => get q.2 (idx ++ [:: u; k]))); split.
  by apply/List.in_map_iff; eexists; split; first reflexivity; apply/In_colsP; exists q, u.
by apply/List.in_map_iff; exists k; split=> //; apply/In_iota.
Qed.
Lemma spn_gen ld (l : seq blk) q u k : List.In q l -> (u < q.1.1)%N -> (k < dim q.1.2)%N ->
  spn ld (ents l) (fun idx => get q.2 (idx ++ [:: u; k])).
Proof. by move=> hq hu hk; apply: spn_In; apply/In_entsP; exists q, u, k. Qed.
Lemma spn_ents ld (l l' : seq blk) T : (forall q u k, List.In q l -> (u < q.1.1)%N -> (k < dim q.1.2)%N ->
    spn ld (ents l') (fun idx => get q.2 (idx ++ [:: u; k]))) -> spn ld (ents l) T -> spn ld (ents l') T.
Proof. by move=> h; apply: spn_trans => g /In_entsP[q [u [k [hq hu hk ->]]]]; apply: h. Qed.
Lemma spn_perm ld (l l' : seq blk) T : Permutation l l' -> spn ld (ents l) T -> spn ld (ents l') T.
Proof. by move=> p; apply: spn_ents => q u k hq; apply: spn_gen; exact: Permutation_in hq. Qed.
Lemma spn_incl ld (l l' : seq blk) T : (forall q, List.In q l -> List.In q l') -> spn ld (ents l) T -> spn ld (ents l') T.
Proof. by move=> h; apply: spn_ents => q u k hq; apply: spn_gen; exact: h. Qed.
Lemma spn_ceqs ld (l l' : seq blk) T : ceqs ld (cols l) (cols l') -> spn ld (ents l) T -> spn ld (ents l') T.
Proof.
move=> /(ents_ceqs dim) h [z hz]; exists z => idx v; rewrite hz //.
have -> : size (ents l') = size (ents l) by elim: h => //= ? ? ? ? _ _ ->.
apply: eq_bigr => i _; congr (_ * _); have := valid_size v; elim: h (nat_of_ord i) => [|f g s t e _ IH] [|j] //= sz.
  exact: e.
exact: IH.
Qed.

(** The coefficients, block by block. *)
Notation zblk := (blk * (nat -> nat -> C))%type.
Definition TT (zl : seq zblk) (idx : seq nat) : C :=
  \sum_(p <- zl) \sum_(u < p.1.1.1) \sum_(k < dim p.1.1.2) p.2 u k * get p.1.2 (idx ++ [:: u : nat; k : nat]).
Lemma TT_cons p zl idx : TT (p :: zl) idx = \sum_(u < p.1.1.1) \sum_(k < dim p.1.1.2) p.2 u k * get p.1.2 (idx ++ [:: u : nat; k : nat]) + TT zl idx.
Proof. by rewrite /TT big_cons. Qed.
Lemma spn_TT ld (l : seq blk) T : spn ld (ents l) T -> exists2 zl : seq zblk, map fst zl = l & forall idx, valid ld idx -> T idx = TT zl idx.
Proof.
case=> z hz; suff [zl e1 e2] : exists2 zl : seq zblk, map fst zl = l & forall idx, valid ld idx ->
    \sum_(i < size (ents l)) z i * nth (fun=> 0) (ents l) i idx = TT zl idx.
  by exists zl => // idx v; rewrite hz // e2.
move=> {hz T}; elim: l z => [|q l IH] z; first by exists [::] => // idx v; rewrite /TT big_nil big_ord0.
have [zl e1 e2] := IH (fun i => z (q.1.1 * dim q.1.2 + i)%N).
exists ((q, fun u k => z (u * dim q.1.2 + k)%N) :: zl); rewrite /= ?e1 // => idx v.
rewrite TT_cons /= -e2 // ents_cons size_cat size_bents.
rewrite (Intw.sum_split _ _ (fun i => z i * nth (fun=> 0) (flatten [seq cents dim i | i <- bcols q] ++ ents l) i idx)); congr (_ + _).
  rewrite (Intw.sum_mul _ _ (fun i => z i * nth (fun=> 0) (flatten [seq cents dim i | i <- bcols q] ++ ents l) i idx)).
  apply: eq_bigr => u _; apply: eq_bigr => k _; have hu := ltn_ord u; have hk := ltn_ord k.
  have hc : (u * dim q.1.2 + k < q.1.1 * dim q.1.2)%N by nia.
  rewrite nth_cat size_bents hc nth_bents // divnMDl ?(leq_ltn_trans _ hk) // divn_small // addn0.
  by rewrite modnMDl modn_small.
by apply: eq_bigr => i _; rewrite nth_cat size_bents ltnNge leq_addr /= addKn.
Qed.
Lemma TT_spn ld (zl : seq zblk) : spn ld (ents (map fst zl)) (TT zl).
Proof.
apply: (@spn_ext _ _ _ (fun idx => \sum_(p <- zl) 1 * \sum_(u < p.1.1.1) 1 * \sum_(k < dim p.1.1.2) p.2 u k * get p.1.2 (idx ++ [:: u : nat; k : nat]))).
  by move=> idx _; apply: eq_bigr => p _; rewrite mul1r; apply: eq_bigr => u _; rewrite mul1r.
apply: spn_bigs => p hp; apply: spn_sum => u; apply: spn_sum => k; apply: spn_gen => //.
by apply/List.in_map_iff; exists p.
Qed.

(** ** The algebra generated by operators on the irreps *)
Section Alg.
Variables (K : Type) (Y : K -> L -> nat -> nat -> C).
Inductive alg : (L -> nat -> nat -> C) -> Prop :=
| alg_gen t : alg (Y t)
| alg_one : alg (fun _ i j => (i == j)%:R)
| alg_lin c A B : alg A -> alg B -> alg (fun a i j => A a i j + c * B a i j)
| alg_mul A B : alg A -> alg B -> alg (fun a i j => \sum_(k < dim a) A a i k * B a k j).
(** The algebra contains the matrix units of every finite set of irreps. *)
Definition dense : Prop := forall labs a i j, uniq labs -> a \in labs -> (i < dim a)%N -> (j < dim a)%N ->
  exists2 A, alg A & forall b i' j', b \in labs -> (i' < dim b)%N -> (j' < dim b)%N ->
    A b i' j' = ((b == a) && (i' == i) && (j' == j))%:R.

(** The operators on the tensors. *)
Variable ld : seq nat.
Definition linop (A : (seq nat -> C) -> seq nat -> C) : Prop :=
  (forall f g, (forall idx, valid ld idx -> f idx = g idx) -> forall idx, valid ld idx -> A f idx = A g idx) /\
  (forall c f g idx, valid ld idx -> A (fun i => f i + c * g i) idx = A f idx + c * A g idx).
Lemma linop0 A idx : linop A -> valid ld idx -> A (fun=> 0) idx = 0.
Proof.
case=> e h v; have h1 := h 1 (fun=> 0) (fun=> 0) _ v.
have : A (fun=> 0) idx = A (fun=> 0) idx + A (fun=> 0) idx.
  by rewrite -[X in _ + X]mul1r -h1; apply: e => // i _; rewrite mul1r addr0.
by move/eqP; rewrite -subr_eq subrr => /eqP.
Qed.
Lemma linop_bigs A (I : Type) (r : seq I) (c : I -> C) h idx : linop A -> valid ld idx ->
  A (fun i => \sum_(w <- r) c w * h w i) idx = \sum_(w <- r) c w * A (h w) idx.
Proof.
move=> lA v; have [e l] := lA; elim: r => [|w r IH].
  by rewrite big_nil -[RHS](linop0 lA v); apply: e => // i _; rewrite big_nil.
rewrite big_cons -IH addrC -l //; apply: e => // i _; by rewrite big_cons addrC.
Qed.
Lemma linop_scale A c f idx : linop A -> valid ld idx -> A (fun i => c * f i) idx = c * A f idx.
Proof.
move=> lA v; have := linop_bigs [:: tt] (fun=> c) (fun=> f) lA v; rewrite big_cons big_nil addr0 => <-.
by apply: (proj1 lA) => // i _; rewrite big_cons big_nil addr0.
Qed.
Variable A : K -> (seq nat -> C) -> seq nat -> C.
Hypothesis linA : forall t, linop (A t).
Definition blk_eqv (q : blk) : Prop := forall t u k idx, (u < q.1.1)%N -> (k < dim q.1.2)%N -> valid ld idx ->
  \sum_(k' < dim q.1.2) Y t q.1.2 k k' * get q.2 (idx ++ [:: u; k' : nat]) = A t (fun i => get q.2 (i ++ [:: u; k])) idx.
Definition zap (O : L -> nat -> nat -> C) (zl : seq zblk) : seq zblk :=
  [seq (p.1, fun u k : nat => \sum_(k' < dim p.1.1.2) p.2 u (k' : nat) * O p.1.1.2 (k' : nat) k) | p <- zl].
Lemma map_fst_zap O zl : map fst (zap O zl) = map fst zl.
Proof. by rewrite /zap -map_comp; apply: eq_map. Qed.
(** A property of tensors kept by the operators. *)
Variable S : (seq nat -> C) -> Prop.
Hypothesis S_ext : forall f g, (forall idx, valid ld idx -> f idx = g idx) -> S f -> S g.
Hypothesis S_lin : forall c f g, S f -> S g -> S (fun idx => f idx + c * g idx).
Hypothesis S_op : forall t f, S f -> S (A t f).
Lemma closure O : alg O -> forall zl, List.Forall (fun p : zblk => blk_eqv p.1) zl -> S (TT zl) -> S (TT (zap O zl)).
Proof.
elim=> [t|| c A1 B1 _ IA _ IB| A1 B1 _ IA _ IB] zl hz hS.
- apply: S_ext (S_op t hS) => idx v; rewrite /TT.
  transitivity (A t (fun i => \sum_(p <- zl) 1 * \sum_(u < p.1.1.1) \sum_(k < dim p.1.1.2) p.2 u k * get p.1.2 (i ++ [:: u : nat; k : nat])) idx).
    by apply: (proj1 (linA t)) => // i _; apply: eq_bigr => p _; rewrite mul1r.
  rewrite (linop_bigs _ _ _ (linA t) v) /zap big_map; elim: hz => [|p s hp _ IH]; rewrite ?big_nil ?big_cons //.
  rewrite {}IH; congr (_ + _); rewrite mul1r /=.
  transitivity (\sum_(u < p.1.1.1) 1 * A t (fun i => \sum_(k < dim p.1.1.2) p.2 u k * get p.1.2 (i ++ [:: u : nat; k : nat])) idx).
    rewrite -(linop_bigs _ _ _ (linA t) v); apply: (proj1 (linA t)) => // i _; apply: eq_bigr => u _; by rewrite mul1r.
  apply: eq_bigr => u _; rewrite mul1r (linop_bigs _ _ _ (linA t) v).
  under [RHS]eq_bigr do rewrite mulr_suml.
  rewrite [RHS]exchange_big /=; apply: eq_bigr => k _; rewrite -(hp t u k) // mulr_sumr.
  by apply: eq_bigr => k' _; rewrite mulrA.
- apply: S_ext hS => idx v; rewrite /TT /zap big_map; apply: eq_bigr => p _; apply: eq_bigr => u _; apply: eq_bigr => k _ /=.
  congr (_ * _); rewrite (bigD1 k) //= eqxx mulr1 big1 ?addr0 // => k' ne.
  by case: eqP => [e|_]; rewrite ?mulr0 //; case/eqP: ne; apply: val_inj.
- apply: S_ext (S_lin c (IA _ hz hS) (IB _ hz hS)) => idx v.
  rewrite /TT /zap !big_map mulr_sumr -big_split /=; apply: eq_bigr => p _; rewrite mulr_sumr -big_split /=.
  apply: eq_bigr => u _; rewrite mulr_sumr -big_split /=; apply: eq_bigr => k _.
  rewrite mulrA -mulrDl; congr (_ * _); rewrite mulr_sumr -big_split /=; apply: eq_bigr => k' _.
  by rewrite mulrDr mulrCA.
have hz' : List.Forall (fun p : zblk => blk_eqv p.1) (zap A1 zl).
  by rewrite /zap; elim: hz => [|p s hp _ IH]; constructor.
apply: S_ext (IB _ hz' (IA _ hz hS)) => idx v; rewrite /TT /zap !big_map; apply: eq_bigr => p _; apply: eq_bigr => u _.
apply: eq_bigr => k _ /=; congr (_ * _); under [RHS]eq_bigr do rewrite mulr_sumr.
by rewrite [RHS]exchange_big /=; apply: eq_bigr => j _; rewrite mulr_suml; apply: eq_bigr => k' _; rewrite mulrA.
Qed.
End Alg.
End Ents.
