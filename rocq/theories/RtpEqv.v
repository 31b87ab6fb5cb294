(** RtpEqv: the basis computed by _reduced_tensor_product_basis (Rtp.v) is equivariant
    when the Clebsch-Gordan arrays are. *)
From Coq Require Import ZArith String Ascii List Permutation.
From mathcomp Require Import all_ssreflect all_algebra.
From mathcomp Require Import zify.
From Verif Require Import Base Nd NdProofs Reps Sl2c LinAlg Perm RedPerm Rtp RtpArr RtpLoop RtpPres.
From Verif Require Intw.

Set Implicit Arguments.
Unset Strict Implicit.
Unset Printing Implicit Defensive.

Import GRing.Theory Num.Theory.
Local Open Scope ring_scope.

(** * Changing one index *)
Definition upd (idx : seq nat) (i l : nat) : seq nat := set_nth 0%N idx i l.
Lemma size_upd idx i l : (i < size idx)%N -> size (upd idx i l) = size idx.
Proof. by move=> h; rewrite size_set_nth; apply/maxn_idPr. Qed.
Lemma nth_upd idx i l j : nth 0%N (upd idx i l) j = if j == i then l else nth 0%N idx j.
Proof. by rewrite nth_set_nth. Qed.
Lemma upd_upd idx i j l m : i <> j -> (i < size idx)%N -> (j < size idx)%N -> upd (upd idx i l) j m = upd (upd idx j m) i l.
Proof.
move=> ne hi hj; apply: (@eq_from_nth _ 0%N); first by rewrite !size_upd ?size_upd.
by move=> k _; rewrite !nth_upd; case: (k =P j) => [->|//]; case: eqP => // e; case: ne.
Qed.
Lemma valid_upd f dims idx i l : valid (masked f dims) idx -> i \in f -> (i < size dims)%N -> (l < nth 0%N dims i)%N ->
  valid (masked f dims) (upd idx i l).
Proof.
move=> /valid_nth[e h] fi hi hl; rewrite size_masked in e h.
apply/valid_nth; rewrite size_masked size_upd ?e //; split=> // j hj; rewrite nth_upd.
by case: eqP => [->|_]; [rewrite nth_masked // fi | exact: h].
Qed.
Lemma bidx_upd_out f dims idx i l : size idx = size dims -> (i < size dims)%N -> i \notin f ->
  bidx (masked f dims) (upd idx i l) = bidx (masked f dims) idx.
Proof.
move=> e hi nf; apply: (@eq_from_nth _ 0%N); first by rewrite !size_bidx ?size_masked ?size_upd ?e.
move=> j; rewrite size_bidx ?size_masked ?size_upd ?e // => hj; rewrite !nth_bidx ?size_masked ?size_upd ?e //.
rewrite nth_upd; case: (j =P i) => [->|//]; by rewrite nth_masked // (negbTE nf).
Qed.
Lemma bidx_upd_in f dims idx i l : size idx = size dims -> (i < size dims)%N -> i \in f -> (l < nth 0%N dims i)%N ->
  bidx (masked f dims) (upd idx i l) = upd (bidx (masked f dims) idx) i l.
Proof.
move=> e hi fi hl; apply: (@eq_from_nth _ 0%N); first by rewrite !(size_bidx, size_upd) ?size_masked ?size_upd ?size_bidx ?size_masked ?e.
move=> j; rewrite size_bidx ?size_masked ?size_upd ?e // => hj; rewrite !nth_bidx ?size_masked ?size_upd ?e //.
rewrite !nth_upd nth_bidx ?size_masked ?e //; case: (j =P i) => [->|//].
by rewrite nth_masked // fi; case: eqP => // e1; rewrite e1 in hl; case: l hl.
Qed.
Lemma nth_bidx_in f g dims idx i : {subset f <= g} -> valid (masked g dims) idx -> (i < size dims)%N -> i \in f ->
  nth 0%N (bidx (masked f dims) idx) i = nth 0%N idx i.
Proof.
move=> sub /valid_nth[e h] hi fi; rewrite size_masked in e h; rewrite nth_bidx ?size_masked //.
by case: eqP => // e1; have := h i hi; move: e1; rewrite !nth_masked // fi (sub _ fi) => ->; case: (nth _ _ _).
Qed.

(** * The position of an index with axes of dimension 1 left out *)
Lemma nprod_filter (p : pred nat) (d : nat -> nat) s : nprod [seq if p i then d i else 1%N | i <- s] = nprod [seq d i | i <- filter p s].
Proof. by elim: s => //= i s ->; case: (p i); rewrite //= mul1n. Qed.
Lemma ravel_filter (p : pred nat) (d x : nat -> nat) s : {in s, forall i, ~~ p i -> x i = 0%N} ->
  ravel [seq if p i then d i else 1%N | i <- s] [seq x i | i <- s] = ravel [seq d i | i <- filter p s] [seq x i | i <- filter p s].
Proof.
elim: s => //= i s IH h; rewrite IH; last by move=> j hj; apply: h; rewrite inE hj orbT.
have := h i (mem_head _ _); case: (p i) => /= [_|/(_ isT) ->]; last by rewrite mul0n.
by rewrite nprod_filter.
Qed.
Lemma sorted_filter f n : sorted ltn f -> all (fun i => (i < n)%N) f -> f = [seq i <- iota 0 n | i \in f].
Proof.
move=> so al; apply: (irr_sorted_eq ltn_trans ltnn so); first by apply: sorted_filter; [exact: ltn_trans | exact: iota_ltn_sorted].
by move=> i; rewrite mem_filter mem_iota add0n; case: (boolP (i \in f)) => // /(allP al) ->.
Qed.
Lemma unravel_masked f dims idx : sorted ltn f -> all (fun i => (i < size dims)%N) f -> valid (masked f dims) idx ->
  unravel [seq nth 0%N dims i | i <- f] (ravel (masked f dims) idx) = [seq nth 0%N idx i | i <- f].
Proof.
move=> so al v; have /valid_nth[e h] := v; rewrite size_masked in e h.
have -> : ravel (masked f dims) idx = ravel [seq nth 0%N dims i | i <- f] [seq nth 0%N idx i | i <- f].
  have ei : idx = [seq nth 0%N idx i | i <- iota 0 (size dims)] by rewrite -e -/(mkseq _ _) mkseq_nth.
  rewrite {1}ei /masked (@ravel_filter (fun i => i \in f) (nth 0%N dims) (nth 0%N idx)).
    by rewrite -sorted_filter.
  move=> i; rewrite mem_iota add0n => /= hi nf; have := h i hi; rewrite nth_masked // (negbTE nf).
  by case: (nth _ _ _).
apply: ravelK; apply/valid_nth; rewrite !size_map; split=> // j hj; rewrite !(nth_map 0%N) //.
have fi : nth 0%N f j \in f by rewrite mem_nth.
by have hi := allP al _ fi; have := h _ hi; rewrite nth_masked // fi.
Qed.
Lemma pick_all_nth (T : Type) (x0 : T) (s t : seq T) idx : pick_all s idx = Ok t -> t = [seq nth x0 s i | i <- idx] /\ all (fun i => (i < size s)%N) idx.
Proof.
rewrite /pick_all; elim: idx t => [|i idx IH] t /=; first by case=> <-.
have := drop_nth x0 (s := s) (n := i); case: (ltnP i (size s)) => [h /(_ isT) ->|h _]; last by rewrite drop_oversize.
by case e: (mapR _ _) => [y|] //= [<-]; have [<- ->] := IH _ e.
Qed.

Section Eqv.
Variable C : numClosedFieldType.
Notation nd := (nd C).
Variable L : eqType.
Variable dim : L -> nat.
Notation mi := (nat * L)%type.
Notation rrep := (seq mi * option nd)%type.
Notation dims irr := (map (rdim dim) irr).
Local Notation rr0 := (([::] : seq mi), (None : option nd)).
(** The matrices of one generator in the irreps and in the representations. *)
Variable Y : L -> nat -> nat -> C.
Variable X : rrep -> nat -> nat -> C.

(** The block-diagonal generator of a list of irreps with multiplicities. *)
Fixpoint bdiag (irs : seq mi) (a b : nat) : C :=
  if irs is (m, ir) :: irs' then
    let w := (m * dim ir)%N in
    if (a < w)%N && (b < w)%N then
      if (a %/ dim ir == b %/ dim ir)%N then Y ir (a %% dim ir)%N (b %% dim ir)%N else 0
    else if (w <= a)%N && (w <= b)%N then bdiag irs' (a - w) (b - w) else 0
  else 0.
(** X is Q B Q^-1 (B for Q = None). *)
Definition gen_ok (r : rrep) : Prop :=
  let d := rdim dim r in
  if r.2 is Some Q then forall l c, (l < d)%N -> (c < d)%N ->
    \sum_(e < d) X r l e * get Q [:: e : nat; c] = \sum_(e < d) get Q [:: l; e : nat] * bdiag r.1 e c
  else forall l c, (l < d)%N -> (c < d)%N -> X r l c = bdiag r.1 l c.

Definition gens_ok (irr : seq rrep) := List.Forall gen_ok irr.
(** The action on the index i. *)
Definition act (irr : seq rrep) (i : nat) (g : seq nat -> nat -> C) : seq nat -> nat -> C := fun idx k =>
  \sum_(l < rdim dim (nth rr0 irr i)) X (nth rr0 irr i) l (nth 0%N idx i) * g (upd idx i l) k.
(** Row s + u d + k of the block-diagonal matrix. *)
Lemma bdiag_row s1 m ir s2 u k (h : nat -> C) : (u < m)%N -> (k < dim ir)%N ->
  \sum_(c < sumn [seq (p.1 * dim p.2)%N | p <- s1 ++ (m, ir) :: s2])
     bdiag (s1 ++ (m, ir) :: s2) (sumn [seq (p.1 * dim p.2)%N | p <- s1] + u * dim ir + k)%N c * h c
  = \sum_(k' < dim ir) Y ir k k' * h (sumn [seq (p.1 * dim p.2)%N | p <- s1] + u * dim ir + k')%N.
Proof.
move=> hu hk; elim: s1 h => [|[m0 ir0] s1 IH] h; rewrite ?cat0s ?cat_cons [map _ _]/= [sumn _]/=.
  rewrite (Intw.sum_split _ _ (fun c => bdiag ((m, ir) :: s2) (sumn [::] + u * dim ir + k)%N c * h c)).
  rewrite [X in _ + X]big1 => [|c _]; last first.
    have e1 : (u * dim ir + k < m * dim ir)%N by nia.
    by rewrite /= add0n (ltnNge (m * dim ir + c)) leq_addr andbF leqNgt e1 /= mul0r.
  rewrite addr0 (Intw.sum_mul _ _ (fun c => bdiag ((m, ir) :: s2) (sumn [::] + u * dim ir + k)%N c * h c)).
  rewrite (bigD1 (Ordinal hu)) //= [X in _ + X]big1 => [|u' ne]; last first.
    apply: big1 => k' _; have h1 := ltn_ord u'; have h2 := ltn_ord k'.
    have e1 : (u * dim ir + k < m * dim ir)%N by nia.
    have e2 : (u' * dim ir + k' < m * dim ir)%N by nia.
    rewrite add0n e1 e2 /= !divnMDl ?(leq_ltn_trans _ hk) // !divn_small // !addn0.
    by case: eqP => [e|]; rewrite ?mul0r //; case/eqP: ne; apply: val_inj.
  rewrite addr0; apply: eq_bigr => k' _; have h2 := ltn_ord k'.
  have e1 : (u * dim ir + k < m * dim ir)%N by nia.
  have e2 : (u * dim ir + k' < m * dim ir)%N by nia.
  by rewrite add0n e1 e2 /= !divnMDl ?(leq_ltn_trans _ hk) // !divn_small // eqxx !modnMDl !modn_small.
set w := (m0 * dim ir0)%N; set t := sumn _.
have -> : sumn [seq (p.1 * dim p.2)%N | p <- (m0, ir0) :: s1] = (w + sumn [seq (p.1 * dim p.2)%N | p <- s1])%N by [].
set t1 := sumn _; rewrite -!addnA (Intw.sum_split _ _ (fun c => bdiag ((m0, ir0) :: s1 ++ (m, ir) :: s2) (w + (t1 + (u * dim ir + k)))%N c * h c)).
rewrite big1 ?add0r => [|c _]; last first.
  rewrite /= -/w (ltnNge (w + _)) leq_addr /= [(w <= c)%N]leqNgt ltn_ord /= mul0r //.
rewrite (eq_bigr (fun c : 'I_t => bdiag (s1 ++ (m, ir) :: s2) (t1 + u * dim ir + k)%N c * h (w + c)%N)) => [|c _].
  by rewrite (IH (fun c => h (w + c)%N)); apply: eq_bigr => k' _; rewrite !addnA.
by rewrite /= -/w (ltnNge (w + _)) !leq_addr /= !addKn !addnA.
Qed.

(** * One continuous generator *)
Definition eqv (irr : seq rrep) (f : seq nat) (ir : L) (g : seq nat -> nat -> C) : Prop :=
  gens_ok irr -> forall idx k, valid (masked f (dims irr)) idx -> (k < dim ir)%N ->
  \sum_(k' < dim ir) Y ir k k' * g idx k' = \sum_(i <- f) act irr i g idx k.
Definition ext_on (irr : seq rrep) f ir (g g' : seq nat -> nat -> C) :=
  forall idx k, valid (masked f (dims irr)) idx -> (k < dim ir)%N -> g idx k = g' idx k.
Definition bounded (irr : seq rrep) (f : seq nat) := all (fun i => (i < size irr)%N) f.
Lemma act_ext irr f ir i g g' : i \in f -> (i < size irr)%N -> ext_on irr f ir g g' -> ext_on irr f ir (act irr i g) (act irr i g').
Proof.
move=> fi hi e idx k v hk; apply: eq_bigr => l _; rewrite e //; apply: valid_upd => //; first by rewrite size_map.
by rewrite (nth_map rr0).
Qed.

Lemma eqv_ext irr f ir g g' : bounded irr f -> ext_on irr f ir g g' -> eqv irr f ir g -> eqv irr f ir g'.
Proof.
move=> bd e h ok idx k v hk; transitivity (\sum_(k' < dim ir) Y ir k k' * g idx k').
  by apply: eq_bigr => k' _; rewrite e.
rewrite h // [LHS]big_seq [RHS]big_seq; apply: eq_bigr => i fi; apply: (@act_ext irr f ir) => //.
exact: (allP bd).
Qed.
Lemma act_lin irr i n (a : 'I_n -> C) g idx k :
  act irr i (fun idx k => \sum_(w < n) a w * g w idx k) idx k = \sum_(w < n) a w * act irr i (g w) idx k.
Proof.
rewrite /act; under [RHS]eq_bigr do rewrite mulr_sumr.
rewrite [RHS]exchange_big /=; apply: eq_bigr => l _; rewrite mulr_sumr; apply: eq_bigr => w _.
by rewrite mulrCA.
Qed.
Lemma eqv_lin irr f ir n (a : 'I_n -> C) g : (forall w, eqv irr f ir (g w)) ->
  eqv irr f ir (fun idx k => \sum_(w < n) a w * g w idx k).
Proof.
move=> h ok idx k v hk; under [RHS]eq_bigr do rewrite act_lin.
rewrite exchange_big /=; under [RHS]eq_bigr => w _ do rewrite -mulr_sumr -(h w ok idx k v hk) mulr_sumr.
rewrite [RHS]exchange_big /=; apply: eq_bigr => k' _; rewrite mulr_sumr; apply: eq_bigr => w _.
by rewrite mulrCA.
Qed.

(** get_initial_basis: the rows of Q^-1 intertwine. *)
Lemma init_q_eqv r q : gen_ok r -> init_q dim r = Ok q -> shape q = [:: rdim dim r; rdim dim r] ->
  forall j c, (j < rdim dim r)%N -> (c < rdim dim r)%N ->
  \sum_(l < rdim dim r) X r l j * get q [:: l : nat; c] = \sum_(e < rdim dim r) bdiag r.1 c e * get q [:: j; e : nat].
Proof.
rewrite /gen_ok /init_q; set d := rdim dim r; case: (r.2) => [Q|] ok.
  rewrite /np_inv; case es: (shape Q) => [|n [|n' [|]]] //; case: ifP => //= /andP[/eqP _ un] [<-] /= [e] _ j c hj hc.
  rewrite e in un *; set Qm := mx2 d d Q in un *.
  pose Xm := \matrix_(a < d, b < d) X r a b; pose Bm := \matrix_(a < d, b < d) bdiag r.1 a b.
  have h : Xm *m Qm = Qm *m Bm.
    apply/matrixP => a b; rewrite !mxE; have := ok a b (ltn_ord a) (ltn_ord b) => h.
    transitivity (\sum_(e < d) X r a e * get Q [:: e : nat; b : nat]); first by apply: eq_bigr => x _; rewrite !mxE.
    by rewrite h; apply: eq_bigr => x _; rewrite !mxE.
  have {}h : invmx Qm *m Xm = Bm *m invmx Qm.
    by rewrite -[LHS](mulmxK un) -(mulmxA (invmx Qm)) h mulmxA mulVmx // mul1mx.
  have := congr1 (fun M : 'M_d => M (Ordinal hc) (Ordinal hj)) h; rewrite !mxE /= => {}h.
  transitivity (\sum_j0 invmx Qm (Ordinal hc) j0 * Xm j0 (Ordinal hj)).
    by apply: eq_bigr => x _; rewrite [Xm _ _]mxE valK (insubT (fun i => i < d)%N hc) /= mulrC.
  rewrite h; apply: eq_bigr => x _; rewrite [Bm _ _]mxE; congr (_ * _).
  by rewrite valK (insubT (fun i => i < d)%N hj).
case=> <- _ j c hj hc /=.
rewrite (eq_bigr (fun l : 'I_d => (l == c :> nat)%:R * X r l j)) => [|l _]; last by rewrite mulrC.
rewrite (Intw.sum_dl (fun l => X r l j) hc) ok //.
rewrite (eq_bigr (fun l : 'I_d => (j == l :> nat)%:R * bdiag r.1 c l)) => [|l _]; last by rewrite mulrC.
by rewrite (Intw.sum_dl' (fun l => bdiag r.1 c l) hj).
Qed.
Lemma gens_nth irr i : gens_ok irr -> (i < size irr)%N -> gen_ok (nth rr0 irr i).
Proof. by move=> h hi; apply: Forall_nth'. Qed.
Lemma eqv_init irr i r q s1 m ir s2 u : (i < size irr)%N -> nth rr0 irr i = r -> init_q dim r = Ok q ->
  shape q = [:: rdim dim r; rdim dim r] -> r.1 = s1 ++ (m, ir) :: s2 -> (u < m)%N ->
  eqv irr [:: i] ir (fun idx k => get q [:: nth 0%N idx i; (sumn [seq (p.1 * dim p.2)%N | p <- s1] + u * dim ir + k)%N]).
Proof.
move=> hi er eq sq e1 hu ok idx k v hk; have okr := gens_nth ok hi; rewrite er in okr.
rewrite big_cons big_nil addr0 /act er.
have /valid_nth[sz h] := v; rewrite size_masked size_map in sz h.
have hj : (nth 0%N idx i < rdim dim r)%N by have := h i hi; rewrite nth_masked ?size_map // inE eqxx (nth_map rr0) // er.
set c := (_ + k)%N.
have hc : (c < rdim dim r)%N.
  rewrite /c /rdim e1 map_cat sumn_cat /=; nia.
rewrite (eq_bigr (fun l : 'I_(rdim dim r) => X r l (nth 0%N idx i) * get q [:: l : nat; c])) => [|l _]; last first.
  by rewrite nth_upd eqxx.
rewrite (init_q_eqv okr eq sq hj hc) /c /rdim e1.
by rewrite (bdiag_row s1 s2 (fun e => get q [:: nth 0%N idx i; e]) hu hk).
Qed.

(** The product of two bases. *)
Lemma act_left irr fa fb i (g1 g2 : seq nat -> nat -> C) idx p q : uniq (fa ++ fb) -> bounded irr (fa ++ fb) ->
  valid (masked (fset_union fa fb) (dims irr)) idx -> i \in fa ->
  act irr i (fun idx' _ => g1 (bidx (masked fa (dims irr)) idx') p * g2 (bidx (masked fb (dims irr)) idx') q) idx 0%N =
  act irr i g1 (bidx (masked fa (dims irr)) idx) p * g2 (bidx (masked fb (dims irr)) idx) q.
Proof.
move=> un bd v fi; have hi : (i < size irr)%N by apply: (allP bd); rewrite mem_cat fi.
have sz : size idx = size (dims irr) by rewrite (valid_size v) size_masked.
have nb : i \notin fb by move: un; rewrite cat_uniq => /and3P[_ /hasPn h _]; apply/negP => /h /=; rewrite fi.
have hl (l : 'I_(rdim dim (nth rr0 irr i))) : (l < nth 0%N (dims irr) i)%N by rewrite (nth_map rr0).
rewrite /act mulr_suml; apply: eq_bigr => l _; rewrite -mulrA.
rewrite (bidx_upd_in sz _ fi (hl l)) ?size_map // (bidx_upd_out _ sz _ nb) ?size_map //.
rewrite (@nth_bidx_in fa (fset_union fa fb)) ?size_map // => x hx; by rewrite mem_fset_union hx.
Qed.
Lemma act_right irr fa fb i (g1 g2 : seq nat -> nat -> C) idx p q : uniq (fa ++ fb) -> bounded irr (fa ++ fb) ->
  valid (masked (fset_union fa fb) (dims irr)) idx -> i \in fb ->
  act irr i (fun idx' _ => g1 (bidx (masked fa (dims irr)) idx') p * g2 (bidx (masked fb (dims irr)) idx') q) idx 0%N =
  g1 (bidx (masked fa (dims irr)) idx) p * act irr i g2 (bidx (masked fb (dims irr)) idx) q.
Proof.
move=> un bd v fi; rewrite mulrC -(@act_left irr fb fa) //.
- by rewrite /act; apply: eq_bigr => l _; rewrite [g1 _ _ * _]mulrC.
- by rewrite uniq_catC.
- by rewrite /bounded all_cat andbC -all_cat.
- by rewrite (masked_eq _ (g := fset_union fa fb)) // => x; rewrite !mem_fset_union orbC.
Qed.

Definition cg_eqv (i1 i2 i3 : L) (z : nat) (cg : nd) : Prop :=
  forall w i j k, (w < z)%N -> (i < dim i1)%N -> (j < dim i2)%N -> (k < dim i3)%N ->
    \sum_(k' < dim i3) Y i3 k k' * get cg [:: w; i; j; k' : nat] =
    \sum_(i' < dim i1) Y i1 i' i * get cg [:: w; i' : nat; j; k] + \sum_(j' < dim i2) Y i2 j' j * get cg [:: w; i; j' : nat; k].
Definition prodc (irr : seq rrep) fa fb ir1 ir2 (cg : nd) (w : nat) (g1 g2 : seq nat -> nat -> C) : seq nat -> nat -> C := fun idx k =>
  \sum_(i < dim ir1) \sum_(j < dim ir2)
     g1 (bidx (masked fa (dims irr)) idx) i * g2 (bidx (masked fb (dims irr)) idx) j * get cg [:: w; i : nat; j : nat; k].
Lemma act_prodc irr fa fb ir1 ir2 cg w g1 g2 i idx k :
  act irr i (prodc irr fa fb ir1 ir2 cg w g1 g2) idx k = \sum_(p < dim ir1) \sum_(q < dim ir2)
    act irr i (fun idx' _ => g1 (bidx (masked fa (dims irr)) idx') p * g2 (bidx (masked fb (dims irr)) idx') q) idx 0%N
    * get cg [:: w; p : nat; q : nat; k].
Proof.
rewrite /act /prodc; under eq_bigr do rewrite mulr_sumr.
rewrite exchange_big /=; apply: eq_bigr => p _; under eq_bigr do rewrite mulr_sumr.
rewrite exchange_big /=; apply: eq_bigr => q _; rewrite mulr_suml; apply: eq_bigr => l _.
by rewrite mulrA.
Qed.
Lemma eqv_prod irr fa fb ir1 ir2 ir cg z w g1 g2 : uniq (fa ++ fb) -> bounded irr (fa ++ fb) ->
  cg_eqv ir1 ir2 ir z cg -> (w < z)%N -> eqv irr fa ir1 g1 -> eqv irr fb ir2 g2 ->
  eqv irr (fset_union fa fb) ir (prodc irr fa fb ir1 ir2 cg w g1 g2).
Proof.
move=> un bd hcg hw h1 h2 ok idx k v hk.
have va : valid (masked fa (dims irr)) (bidx (masked fa (dims irr)) idx).
  by apply: valid_bidx v => x hx; rewrite mem_fset_union hx.
have vb : valid (masked fb (dims irr)) (bidx (masked fb (dims irr)) idx).
  by apply: valid_bidx v => x hx; rewrite mem_fset_union hx orbT.
set ia := bidx (masked fa _) idx in va *; set ib := bidx (masked fb _) idx in vb *.
rewrite (perm_big _ (fset_union_disj un)) big_cat /=.
rewrite !(eq_bigr _ (fun i _ => act_prodc irr fa fb ir1 ir2 cg w g1 g2 i idx k)).
transitivity (\sum_(p < dim ir1) \sum_(q < dim ir2) (\sum_(i <- fa) act irr i g1 ia p) * g2 ib q * get cg [:: w; p : nat; q : nat; k]
  + \sum_(p < dim ir1) \sum_(q < dim ir2) g1 ia p * (\sum_(i <- fb) act irr i g2 ib q) * get cg [:: w; p : nat; q : nat; k]); last first.
  congr (_ + _).
    rewrite [RHS]exchange_big /=; apply: eq_bigr => p _; rewrite [RHS]exchange_big /=; apply: eq_bigr => q _.
    rewrite -mulrA mulr_suml big_seq [RHS]big_seq; apply: eq_bigr => i fi; rewrite (act_left _ _ _ _ un bd v fi).
    by rewrite mulrA.
  rewrite [RHS]exchange_big /=; apply: eq_bigr => p _; rewrite [RHS]exchange_big /=; apply: eq_bigr => q _.
  rewrite -mulrA mulr_suml mulr_sumr big_seq [RHS]big_seq; apply: eq_bigr => i fi; rewrite (act_right _ _ _ _ un bd v fi).
  by rewrite mulrA.
transitivity (\sum_(p < dim ir1) \sum_(q < dim ir2) (\sum_(k' < dim ir1) Y ir1 p k' * g1 ia k') * g2 ib q * get cg [:: w; p : nat; q : nat; k]
  + \sum_(p < dim ir1) \sum_(q < dim ir2) g1 ia p * (\sum_(k' < dim ir2) Y ir2 q k' * g2 ib k') * get cg [:: w; p : nat; q : nat; k]); last first.
  by congr (_ + _); apply: eq_bigr => p _; apply: eq_bigr => q _; rewrite ?(h1 ok ia p va (ltn_ord p)) ?(h2 ok ib q vb (ltn_ord q)).
transitivity (\sum_(p < dim ir1) \sum_(q < dim ir2) g1 ia p * g2 ib q * (\sum_(k' < dim ir) Y ir k k' * get cg [:: w; p : nat; q : nat; k' : nat])).
  rewrite /prodc; under eq_bigr do rewrite mulr_sumr.
  rewrite exchange_big /=; apply: eq_bigr => p _; under eq_bigr do rewrite mulr_sumr.
  rewrite exchange_big /=; apply: eq_bigr => q _; rewrite mulr_sumr; apply: eq_bigr => k' _; by rewrite mulrCA.
under eq_bigr => p _ do under eq_bigr => q _ do rewrite hcg // mulrDr.
under eq_bigr => p _ do rewrite big_split /=.
rewrite big_split /=; congr (_ + _).
  transitivity (\sum_(p < dim ir1) \sum_(q < dim ir2) \sum_(i' < dim ir1) Y ir1 i' p * g1 ia p * g2 ib q * get cg [:: w; i' : nat; q : nat; k]).
    by apply: eq_bigr => p _; apply: eq_bigr => q _; rewrite mulr_sumr; apply: eq_bigr => i' _; rewrite mulrCA !mulrA.
  under [LHS]eq_bigr do rewrite exchange_big /=.
  rewrite [LHS]exchange_big /=; apply: eq_bigr => i' _; rewrite [LHS]exchange_big /=; apply: eq_bigr => q _.
  by rewrite !mulr_suml.
apply: eq_bigr => p _.
transitivity (\sum_(q < dim ir2) \sum_(i' < dim ir2) g1 ia p * (Y ir2 i' q * g2 ib q) * get cg [:: w; p : nat; i' : nat; k]).
  by apply: eq_bigr => q _; rewrite mulr_sumr; apply: eq_bigr => i' _; rewrite mulrCA !mulrA [Y _ _ _ * _]mulrC.
rewrite [LHS]exchange_big /=; apply: eq_bigr => i' _; by rewrite mulr_sumr mulr_suml.
Qed.

(** The recursive call. *)
Lemma gens_pick irr l sub : pick_all irr l = Ok sub -> gens_ok irr -> gens_ok sub.
Proof.
move=> /(pick_all_nth rr0)[-> al] ok; apply: (@nth_Forall' _ _ rr0) => i; rewrite size_map => hi.
by rewrite (nth_map 0%N) //; apply: gens_nth => //; apply: (allP al); rewrite mem_nth.
Qed.
Lemma act_sub irr f g idx k p : sorted ltn f -> bounded irr f -> (p < size f)%N -> valid (masked f (dims irr)) idx ->
  let sub := [seq nth rr0 irr i | i <- f] in
  act sub p g [seq nth 0%N idx i | i <- f] k =
  act irr (nth 0%N f p) (fun idx k => g (unravel (dims sub) (ravel (masked f (dims irr)) idx)) k) idx k.
Proof.
move=> so bd hp v sub; have fi : nth 0%N f p \in f by rewrite mem_nth.
have hi := allP bd _ fi; rewrite /act {1 2}/sub !(nth_map 0%N) //; apply: eq_bigr => l _.
have -> : dims sub = [seq nth 0%N (dims irr) i | i <- f].
  rewrite -map_comp; apply/eq_in_map => i /(allP bd) h /=; by rewrite (nth_map rr0).
rewrite unravel_masked //; first last.
- apply: valid_upd => //; rewrite ?size_map // (nth_map rr0) //; exact: ltn_ord.
- by apply/allP => i /(allP bd) h; rewrite size_map.
congr (_ * g _ _); apply: (@eq_from_nth _ 0%N); rewrite ?size_upd ?size_map // => j hj.
rewrite nth_upd !(nth_map 0%N) // nth_upd nth_uniq //.
by move: so; rewrite ltn_sorted_uniq_leq => /andP[].
Qed.
Lemma eqv_sub irr f sub ir g : pick_all irr f = Ok sub -> sorted ltn f -> bounded irr f -> eqv sub (iota 0 (size sub)) ir g ->
  eqv irr f ir (fun idx k => g (unravel (dims sub) (ravel (masked f (dims irr)) idx)) k).
Proof.
move=> ep so bd h ok idx k v hk; have [es _] := pick_all_nth rr0 ep.
have bd' : all (fun i => (i < size (dims irr))%N) f by apply/allP => i /(allP bd) hh; rewrite size_map.
have ed : dims sub = [seq nth 0%N (dims irr) i | i <- f].
  rewrite es -map_comp; apply/eq_in_map => i /(allP bd) hh /=; by rewrite (nth_map rr0).
have vs : valid (masked (iota 0 (size sub)) (dims sub)) [seq nth 0%N idx i | i <- f].
  rewrite -(size_map (rdim dim)) masked_all ed; apply/valid_nth; rewrite !size_map; split=> // j hj.
  rewrite !(nth_map 0%N) //; have fi : nth 0%N f j \in f by rewrite mem_nth.
  have /valid_nth[_ hv] := v; have := hv (nth 0%N f j); rewrite size_masked => /(_ (allP bd' _ fi)).
  by rewrite nth_masked ?(allP bd' _ fi) // fi.
rewrite {1}ed unravel_masked // (h (gens_pick ep ok) _ _ vs hk) es size_map.
pose G idx0 k0 := g (unravel (dims [seq nth rr0 irr i0 | i0 <- f]) (ravel (masked f (dims irr)) idx0)) k0.
rewrite -/G; pose h' i := act irr i G idx k; transitivity (\sum_(p <- iota 0 (size f)) h' (nth 0%N f p)); last first.
  by rewrite -(big_map (nth 0%N f) xpredT h') -/(mkseq _ _) mkseq_nth.
rewrite [LHS]big_seq [RHS]big_seq; apply: eq_bigr => p; rewrite mem_iota add0n => /= hp.
exact: act_sub.
Qed.

(** * One discrete generator *)
Definition acts (irr : seq rrep) (s : seq nat) (g : seq nat -> nat -> C) : seq nat -> nat -> C := foldr (act irr) g s.
Definition eqvH (irr : seq rrep) (f : seq nat) (ir : L) (g : seq nat -> nat -> C) : Prop :=
  gens_ok irr -> forall idx k, valid (masked f (dims irr)) idx -> (k < dim ir)%N ->
  \sum_(k' < dim ir) Y ir k k' * g idx k' = acts irr f g idx k.
Lemma acts_ext irr f ir s g g' : {subset s <= f} -> bounded irr f -> ext_on irr f ir g g' ->
  ext_on irr f ir (acts irr s g) (acts irr s g').
Proof.
elim: s => //= i s IH sub bd e; apply: act_ext; first by apply: sub; rewrite inE eqxx.
  by apply: (allP bd); apply: sub; rewrite inE eqxx.
by apply: IH => // j hj; apply: sub; rewrite inE hj orbT.
Qed.
Lemma act_eq irr i g g' : (forall idx k, g idx k = g' idx k) -> forall idx k, act irr i g idx k = act irr i g' idx k.
Proof. by move=> e idx k; apply: eq_bigr => l _; rewrite e. Qed.
Lemma acts_lin irr s n (a : 'I_n -> C) g idx k :
  acts irr s (fun idx k => \sum_(w < n) a w * g w idx k) idx k = \sum_(w < n) a w * acts irr s (g w) idx k.
Proof.
elim: s idx k => //= i s IH idx k; rewrite -act_lin; exact: act_eq.
Qed.
Lemma eqvH_ext irr f ir g g' : bounded irr f -> ext_on irr f ir g g' -> eqvH irr f ir g -> eqvH irr f ir g'.
Proof.
move=> bd e h ok idx k v hk; transitivity (\sum_(k' < dim ir) Y ir k k' * g idx k').
  by apply: eq_bigr => k' _; rewrite e.
by rewrite h //; apply: (@acts_ext irr f ir).
Qed.
Lemma eqvH_lin irr f ir n (a : 'I_n -> C) g : (forall w, eqvH irr f ir (g w)) ->
  eqvH irr f ir (fun idx k => \sum_(w < n) a w * g w idx k).
Proof.
move=> h ok idx k v hk; rewrite acts_lin.
under [RHS]eq_bigr => w _ do rewrite -(h w ok idx k v hk) mulr_sumr.
rewrite [RHS]exchange_big /=; apply: eq_bigr => k' _; rewrite mulr_sumr; apply: eq_bigr => w _.
by rewrite mulrCA.
Qed.
Lemma eqvH_init irr i r q s1 m ir s2 u : (i < size irr)%N -> nth rr0 irr i = r -> init_q dim r = Ok q ->
  shape q = [:: rdim dim r; rdim dim r] -> r.1 = s1 ++ (m, ir) :: s2 -> (u < m)%N ->
  eqvH irr [:: i] ir (fun idx k => get q [:: nth 0%N idx i; (sumn [seq (p.1 * dim p.2)%N | p <- s1] + u * dim ir + k)%N]).
Proof.
move=> hi er eq sq e1 hu ok idx k v hk; have := eqv_init hi er eq sq e1 hu ok v hk; rewrite big_cons big_nil addr0.
by move=> ->.
Qed.

(** The actions on different indices commute. *)
Lemma act_comm irr i j g idx k : i <> j -> (i < size idx)%N -> (j < size idx)%N ->
  act irr i (act irr j g) idx k = act irr j (act irr i g) idx k.
Proof.
move=> ne hi hj; rewrite /act; under [LHS]eq_bigr do rewrite mulr_sumr.
under [RHS]eq_bigr do rewrite mulr_sumr.
rewrite [RHS]exchange_big /=; apply: eq_bigr => l _; apply: eq_bigr => m _.
rewrite !nth_upd upd_upd //; case: (j =P i) => [e|_]; first by case: ne.
by case: (i =P j) => [//|_]; rewrite mulrCA.
Qed.
Lemma act_extz irr i g g' n : (i < n)%N -> (forall idx k, size idx = n -> g idx k = g' idx k) ->
  forall idx k, size idx = n -> act irr i g idx k = act irr i g' idx k.
Proof. by move=> hi e idx k sz; apply: eq_bigr => l _; rewrite e // size_upd // sz. Qed.
Lemma acts_perm irr n s t g : Permutation s t -> uniq s -> all (fun i => (i < n)%N) s ->
  forall idx k, size idx = n -> acts irr s g idx k = acts irr t g idx k.
Proof.
elim=> [|x s' t' _ IH|x y s'|s1 s2 s3 p1 h1 _ h2] //=.
- by case/andP => _ u /andP[hx al]; apply: act_extz => //; apply: IH.
- case/and3P; rewrite inE negb_or => /andP[/eqP ne _] _ _ /and3P[hy hx _] idx k sz.
  by apply: act_comm => //; rewrite sz.
- move=> u al idx k sz; rewrite h1 // h2 //; first by rewrite -(perm_uniq (Permutation_perm p1)).
  by rewrite -(Permutation_all _ p1).
Qed.

(** The product. *)
Lemma act_prodc_left irr fa fb ir1 ir2 ir cg w g1 g2 i : uniq (fa ++ fb) -> bounded irr (fa ++ fb) -> i \in fa ->
  ext_on irr (fset_union fa fb) ir (act irr i (prodc irr fa fb ir1 ir2 cg w g1 g2)) (prodc irr fa fb ir1 ir2 cg w (act irr i g1) g2).
Proof.
move=> un bd fi idx k v hk; rewrite act_prodc; apply: eq_bigr => p _; apply: eq_bigr => q _.
by rewrite (act_left _ _ _ _ un bd v fi).
Qed.
Lemma act_prodc_right irr fa fb ir1 ir2 ir cg w g1 g2 i : uniq (fa ++ fb) -> bounded irr (fa ++ fb) -> i \in fb ->
  ext_on irr (fset_union fa fb) ir (act irr i (prodc irr fa fb ir1 ir2 cg w g1 g2)) (prodc irr fa fb ir1 ir2 cg w g1 (act irr i g2)).
Proof.
move=> un bd fi idx k v hk; rewrite act_prodc; apply: eq_bigr => p _; apply: eq_bigr => q _.
by rewrite (act_right _ _ _ _ un bd v fi).
Qed.
Lemma bounded_union irr fa fb : bounded irr (fa ++ fb) -> bounded irr (fset_union fa fb).
Proof. by move=> bd; apply/allP => i; rewrite mem_fset_union -mem_cat; apply: (allP bd). Qed.
Lemma acts_prodc irr fa fb ir1 ir2 ir cg w g1 g2 sa sb : uniq (fa ++ fb) -> bounded irr (fa ++ fb) ->
  {subset sa <= fa} -> {subset sb <= fb} ->
  ext_on irr (fset_union fa fb) ir (acts irr (sa ++ sb) (prodc irr fa fb ir1 ir2 cg w g1 g2))
    (prodc irr fa fb ir1 ir2 cg w (acts irr sa g1) (acts irr sb g2)).
Proof.
move=> un bd; elim: sa => [|i sa IH] ha hb /=.
  elim: sb hb => [|j sb IHb] hb //= idx k v hk.
  have fj : j \in fb by apply: hb; rewrite inE eqxx.
  rewrite -(act_prodc_right _ _ _ _ _ _ un bd fj v hk); apply: (@act_ext irr (fset_union fa fb) ir) => //.
  - by rewrite mem_fset_union fj orbT.
  - by apply: (allP bd); rewrite mem_cat fj orbT.
  - by apply: IHb => x hx; apply: hb; rewrite inE hx orbT.
move=> idx k v hk; have fi : i \in fa by apply: ha; rewrite inE eqxx.
rewrite -(act_prodc_left _ _ _ _ _ _ un bd fi v hk); apply: (@act_ext irr (fset_union fa fb) ir) => //.
- by rewrite mem_fset_union fi.
- by apply: (allP bd); rewrite mem_cat fi.
- by apply: IH => // x hx; apply: ha; rewrite inE hx orbT.
Qed.
Definition cg_eqvH (i1 i2 i3 : L) (z : nat) (cg : nd) : Prop :=
  forall w i j k, (w < z)%N -> (i < dim i1)%N -> (j < dim i2)%N -> (k < dim i3)%N ->
    \sum_(k' < dim i3) Y i3 k k' * get cg [:: w; i; j; k' : nat] =
    \sum_(i' < dim i1) \sum_(j' < dim i2) Y i1 i' i * Y i2 j' j * get cg [:: w; i' : nat; j' : nat; k].
Lemma eqvH_prod irr fa fb ir1 ir2 ir cg z w g1 g2 : uniq (fa ++ fb) -> bounded irr (fa ++ fb) ->
  cg_eqvH ir1 ir2 ir z cg -> (w < z)%N -> eqvH irr fa ir1 g1 -> eqvH irr fb ir2 g2 ->
  eqvH irr (fset_union fa fb) ir (prodc irr fa fb ir1 ir2 cg w g1 g2).
Proof.
move=> un bd hcg hw h1 h2 ok idx k v hk.
have va : valid (masked fa (dims irr)) (bidx (masked fa (dims irr)) idx).
  by apply: valid_bidx v => x hx; rewrite mem_fset_union hx.
have vb : valid (masked fb (dims irr)) (bidx (masked fb (dims irr)) idx).
  by apply: valid_bidx v => x hx; rewrite mem_fset_union hx orbT.
have sz : size idx = size irr by rewrite (valid_size v) size_masked size_map.
have -> : acts irr (fset_union fa fb) (prodc irr fa fb ir1 ir2 cg w g1 g2) idx k = acts irr (fa ++ fb) (prodc irr fa fb ir1 ir2 cg w g1 g2) idx k.
  apply: (@acts_perm irr (size irr)) => //; first by apply: perm_Permutation; apply: fset_union_disj.
    by rewrite (perm_uniq (fset_union_disj un)).
  exact: bounded_union.
rewrite (acts_prodc _ _ _ _ _ _ un bd (fun x h => h) (fun x h => h) v hk) /prodc.
set ia := bidx (masked fa _) idx in va *; set ib := bidx (masked fb _) idx in vb *.
transitivity (\sum_(p < dim ir1) \sum_(q < dim ir2) g1 ia p * g2 ib q * (\sum_(k' < dim ir) Y ir k k' * get cg [:: w; p : nat; q : nat; k' : nat])).
  under eq_bigr do rewrite mulr_sumr.
  rewrite exchange_big /=; apply: eq_bigr => p _; under eq_bigr do rewrite mulr_sumr.
  rewrite exchange_big /=; apply: eq_bigr => q _; rewrite mulr_sumr; apply: eq_bigr => k' _; by rewrite mulrCA.
transitivity (\sum_(p' < dim ir1) \sum_(q' < dim ir2) (\sum_(p < dim ir1) Y ir1 p' p * g1 ia p) * (\sum_(q < dim ir2) Y ir2 q' q * g2 ib q)
   * get cg [:: w; p' : nat; q' : nat; k]); last first.
  by apply: eq_bigr => p _; apply: eq_bigr => q _; rewrite (h1 ok ia p va (ltn_ord p)) (h2 ok ib q vb (ltn_ord q)).
transitivity (\sum_(p < dim ir1) \sum_(q < dim ir2) \sum_(p' < dim ir1) \sum_(q' < dim ir2)
   (Y ir1 p' p * g1 ia p) * (Y ir2 q' q * g2 ib q) * get cg [:: w; p' : nat; q' : nat; k]).
  apply: eq_bigr => p _; apply: eq_bigr => q _; rewrite hcg // mulr_sumr; apply: eq_bigr => p' _.
  rewrite mulr_sumr; apply: eq_bigr => q' _; rewrite mulrA; congr (_ * _).
  by rewrite mulrACA [g1 _ _ * _]mulrC [g2 _ _ * _]mulrC.
transitivity (\sum_(p' < dim ir1) \sum_(q' < dim ir2) \sum_(p < dim ir1) \sum_(q < dim ir2)
   (Y ir1 p' p * g1 ia p) * (Y ir2 q' q * g2 ib q) * get cg [:: w; p' : nat; q' : nat; k]).
  under [LHS]eq_bigr do rewrite exchange_big /=.
  rewrite [LHS]exchange_big /=; apply: eq_bigr => p' _.
  under [LHS]eq_bigr do rewrite exchange_big /=.
  by rewrite [LHS]exchange_big.
apply: eq_bigr => p' _; apply: eq_bigr => q' _; rewrite !mulr_suml; apply: eq_bigr => p _.
by rewrite mulr_sumr mulr_suml.
Qed.

(** The recursive call. *)
Lemma eqvH_sub irr f sub ir g : pick_all irr f = Ok sub -> sorted ltn f -> bounded irr f -> eqvH sub (iota 0 (size sub)) ir g ->
  eqvH irr f ir (fun idx k => g (unravel (dims sub) (ravel (masked f (dims irr)) idx)) k).
Proof.
move=> ep so bd h ok idx k v hk; have [es _] := pick_all_nth rr0 ep.
have bd' : all (fun i => (i < size (dims irr))%N) f by apply/allP => i /(allP bd) hh; rewrite size_map.
have ed : dims sub = [seq nth 0%N (dims irr) i | i <- f].
  rewrite es -map_comp; apply/eq_in_map => i /(allP bd) hh /=; by rewrite (nth_map rr0).
have vs : valid (masked (iota 0 (size sub)) (dims sub)) [seq nth 0%N idx i | i <- f].
  rewrite -(size_map (rdim dim)) masked_all ed; apply/valid_nth; rewrite !size_map; split=> // j hj.
  rewrite !(nth_map 0%N) //; have fi : nth 0%N f j \in f by rewrite mem_nth.
  have /valid_nth[_ hv] := v; have := hv (nth 0%N f j); rewrite size_masked => /(_ (allP bd' _ fi)).
  by rewrite nth_masked ?(allP bd' _ fi) // fi.
rewrite {1}ed unravel_masked // (h (gens_pick ep ok) _ _ vs hk).
have gen s : all (fun p => (p < size f)%N) s -> forall idx k, valid (masked f (dims irr)) idx -> (k < dim ir)%N ->
    acts sub s g [seq nth 0%N idx i | i <- f] k =
    acts irr [seq nth 0%N f p | p <- s] (fun idx k => g (unravel (dims sub) (ravel (masked f (dims irr)) idx)) k) idx k.
  elim: s => [|p s IH] /= => [_|/andP[hp al]] x l vx hl; first by rewrite ed unravel_masked.
  rewrite {1}es (act_sub _ _ so bd hp vx); apply: (@act_ext irr f ir) => //; first by rewrite mem_nth.
    by apply: (allP bd); rewrite mem_nth.
  by move=> y l' vy hl'; rewrite -es ed unravel_masked // -ed IH.
rewrite gen //; last by rewrite es size_map; apply/allP => p; rewrite mem_iota.
by rewrite es size_map -/(mkseq _ _) mkseq_nth.
Qed.
End Eqv.

(** * The result of the algorithm *)
Section Result.
Variable C : numClosedFieldType.
Notation nd := (nd C).
Variable L : eqType.
Variable lt : rel L.
Variable dim : L -> nat.
Variable mulL : L -> L -> res (seq L).
Variable cgL : L -> L -> L -> res nd.
Variable rnd : nd -> nd.
Variable eigh : nd -> res (nd * nd).
Variable eps : C.
Variable ford : seq nat -> seq nat.
Hypothesis ford_id : forall f, sorted ltn f -> ford f = f.
Notation mi := (nat * L)%type.
Notation rrep := (seq mi * option nd)%type.
Notation dims irr := (map (rdim dim) irr).
Variable Y : L -> nat -> nat -> C.
Variable X : rrep -> nat -> nat -> C.
Local Notation rtp := (rtp lt dim mulL cgL rnd eigh eps ford).
(** The Clebsch-Gordan arrays that are used. *)
Definition cgs (P : L -> L -> L -> nat -> nd -> Prop) : Prop := forall i1 i2 irs i3 cg z,
  mulL i1 i2 = Ok irs -> i3 \in irs -> cgL i1 i2 i3 = Ok cg -> shape cg = [:: z; dim i1; dim i2; dim i3] -> P i1 i2 i3 z cg.
Hypothesis ford_perm : forall f, perm_eq (ford f) f.

Lemma rtp_eqv fuel irr G b : cgs (cg_eqv dim Y) -> rtp fuel irr G = Ok b ->
  exists l, [/\ b = mk l, wf dim (dims irr) l & gens_ok dim Y X irr -> 
    List.Forall (fun c => eqv dim Y X irr (iota 0 (size irr)) c.1 c.2) (cols l)].
Proof.
move=> hcg e; pose Pc irr f ir g := bounded irr f -> eqv dim Y X irr f ir g.
have := @Inv_rtp C L lt dim mulL cgL rnd eigh eps ford ford_perm Pc _ (fun _ _ _ => True) (fun=> True) _ _ _ _ _ _ fuel irr G b e; case; try by [].
- by move=> irr' f ir g g' he h bd; apply: eqv_ext (h bd).
- by move=> irr' f ir n a g _ h bd; apply: eqv_lin => w; apply: h.
- by move=> irr' i r q s1 m ir s2 u hi er eq sq e1 hu _; apply: eqv_init eq sq e1 hu.
- move=> irr' fa fb ir1 ir2 irs ir cg z w g1 g2 un bd em hi ec es hw h1 h2 _.
  move: (bd); rewrite all_cat => /andP[ba bb].
  by apply: eqv_prod (hcg _ _ _ _ _ _ em hi ec es) hw (h1 ba) (h2 bb).
- move=> irr' f sub ir g; rewrite /Pc => ep so bd h _; rewrite ford_id // in ep; apply: eqv_sub => //.
  by apply: h; apply/allP => i; rewrite mem_iota.
move=> l [-> w h]; exists l; split=> //; first by rewrite -(size_map (rdim dim)) masked_all in w.
move=> ok; apply: List.Forall_impl h => c h; apply: h; by apply/allP => i; rewrite mem_iota.
Qed.
Lemma rtp_eqvH fuel irr G b : cgs (cg_eqvH dim Y) -> rtp fuel irr G = Ok b ->
  exists l, [/\ b = mk l, wf dim (dims irr) l & gens_ok dim Y X irr -> 
    List.Forall (fun c => eqvH dim Y X irr (iota 0 (size irr)) c.1 c.2) (cols l)].
Proof.
move=> hcg e; pose Pc irr f ir g := bounded irr f -> eqvH dim Y X irr f ir g.
have := @Inv_rtp C L lt dim mulL cgL rnd eigh eps ford ford_perm Pc _ (fun _ _ _ => True) (fun=> True) _ _ _ _ _ _ fuel irr G b e; case; try by [].
- by move=> irr' f ir g g' he h bd; apply: eqvH_ext (h bd).
- by move=> irr' f ir n a g _ h bd; apply: eqvH_lin => w; apply: h.
- by move=> irr' i r q s1 m ir s2 u hi er eq sq e1 hu _; apply: eqvH_init eq sq e1 hu.
- move=> irr' fa fb ir1 ir2 irs ir cg z w g1 g2 un bd em hi ec es hw h1 h2 _.
  move: (bd); rewrite all_cat => /andP[ba bb].
  by apply: eqvH_prod (hcg _ _ _ _ _ _ em hi ec es) hw (h1 ba) (h2 bb).
- move=> irr' f sub ir g; rewrite /Pc => ep so bd h _; rewrite ford_id // in ep; apply: eqvH_sub => //.
  by apply: h; apply/allP => i; rewrite mem_iota.
move=> l [-> w h]; exists l; split=> //; first by rewrite -(size_map (rdim dim)) masked_all in w.
move=> ok; apply: List.Forall_impl h => c h; apply: h; by apply/allP => i; rewrite mem_iota.
Qed.
End Result.

(** * The array of the result *)
Section Array.
Variable C : numClosedFieldType.
Notation nd := (nd C).
Variable L : eqType.
Variable dim : L -> nat.
Notation mi := (nat * L)%type.
Notation blk := (mi * nd)%type.
Notation rrep := (seq mi * option nd)%type.
Notation dims irr := (map (rdim dim) irr).
Variable Y : L -> nat -> nat -> C.

Lemma ents_cat (l1 l2 : seq blk) : ents dim (l1 ++ l2) = ents dim l1 ++ ents dim l2.
Proof. by rewrite /ents cols_cat map_cat flatten_cat. Qed.
Lemma tdim_split (l : seq blk) c : (c < tdim dim l)%N -> exists l1 p l2 u k,
  [/\ l = l1 ++ p :: l2, (u < p.1.1)%N, (k < dim p.1.2)%N & c = (tdim dim l1 + u * dim p.1.2 + k)%N].
Proof.
elim: l c => //= p l IH c; rewrite /tdim /= -/(tdim dim l) => hc.
case: (ltnP c (p.1.1 * dim p.1.2)) => h.
  have [u [k [hu hk e]]] := Intw.split_idx h.
  by exists [::], p, l, u, k.
have [|l1 [q [l2 [u [k [-> hu hk e]]]]]] := IH (c - p.1.1 * dim p.1.2)%N; first lia.
exists (p :: l1), q, l2, u, k; split=> //; rewrite /tdim /= -/(tdim dim l1); lia.
Qed.
Lemma ents_at (l1 l2 : seq blk) p u k z idx : (u < p.1.1)%N -> (k < dim p.1.2)%N ->
  nth z (ents dim (l1 ++ p :: l2)) (tdim dim l1 + u * dim p.1.2 + k) idx = get p.2 (idx ++ [:: u; k]).
Proof.
move=> hu hk; rewrite ents_cat nth_cat size_ents ltnNge -addnA leq_addr /= addKn ents_cons nth_cat size_bents.
rewrite Intw.join_idx // nth_bents ?Intw.join_idx // divnMDl ?(leq_ltn_trans _ hk) // divn_small // addn0.
by rewrite modnMDl modn_small.
Qed.
Lemma tdim_irreps (l : seq blk) : tdim dim l = sumn [seq (m.1 * dim m.2)%N | m <- map fst l].
Proof. by rewrite /tdim -map_comp. Qed.
Lemma tdim_perm (l l' : seq blk) : Permutation l l' -> tdim dim l = tdim dim l'.
Proof. by move=> p; apply: Permutation_sumn; apply: Permutation_map'. Qed.
Lemma In_cols (l1 l2 : seq blk) p u : (u < p.1.1)%N -> List.In (p.1.2, fun idx k => get p.2 (idx ++ [:: u; k])) (cols (l1 ++ p :: l2)).
Proof.
move=> hu; rewrite cols_cat; apply: List.in_or_app; right; rewrite /cols /=; apply: List.in_or_app; left.
rewrite /bcols; have : u \in iota 0 p.1.1 by rewrite mem_iota.
by elim: (iota _ _) => //= v s IH; rewrite inE => /orP[/eqP <-|/IH]; [left | right].
Qed.
(** The block-diagonal generator applied to the last axis. *)
Lemma array_row (l : seq blk) ld a c idx : wf dim ld l -> valid ld idx ->
  (forall i c', valid ld i -> (c' < tdim dim l)%N -> get a (rcons i c') = nth (fun=> 0) (ents dim l) c' i) ->
  (c < tdim dim l)%N -> exists cl k, [/\ List.In cl (cols l), (k < dim cl.1)%N,
    forall i, valid ld i -> get a (rcons i c) = cl.2 i k &
    \sum_(c' < tdim dim l) bdiag dim Y (map fst l) c c' * get a (rcons idx c') = \sum_(k' < dim cl.1) Y cl.1 k k' * cl.2 idx k'].
Proof.
move=> w vi ga hc; have [l1 [p [l2 [u [k [el hu hk ec]]]]]] := tdim_split hc.
exists (p.1.2, fun idx k => get p.2 (idx ++ [:: u; k])), k; split=> //.
- by rewrite el; apply: In_cols.
- by move=> i v; rewrite ga // {1}el ec ents_at.
rewrite (eq_bigr (fun c' : 'I_(tdim dim l) => bdiag dim Y (map fst l) c c' * nth (fun=> 0) (ents dim l) c' idx)) => [|c' _]; last first.
  by rewrite ga.
rewrite tdim_irreps el map_cat /= ec tdim_irreps.
case: p hu hk {ec} el => -[m ir] x /= hu hk el.
rewrite (bdiag_row Y (map fst l1) (map fst l2) (fun c' => nth (fun=> 0) (ents dim (l1 ++ (m, ir, x) :: l2)) c' idx) hu hk).
by apply: eq_bigr => k' _; rewrite -tdim_irreps (@ents_at l1 l2 (m, ir, x)).
Qed.
End Array.
