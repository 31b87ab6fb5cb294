(** ReducedProofs: MulIrrep and ReducedRep are representations (C31), and the
    change_basis overloads agree with the generic one (C27). *)
From Coq Require Import ZArith String Ascii.
From mathcomp Require Import all_ssreflect all_algebra.
From mathcomp.real_closed Require Import mxtens.
From mathcomp Require Import zify.
From Verif Require Import Base McRing Nd NdProofs Reps RepSpec RepProofs RepPower Pinv RepOps RepOps2 Reduced.

Set Implicit Arguments.
Unset Strict Implicit.
Unset Printing Implicit Defensive.

Import GRing.Theory Num.Theory.
Local Open Scope ring_scope.

Section RProofs.
Variable C : numClosedFieldType.

(** ** Block diagonal matrices given by their entries *)
Definition sq := (nat * (nat -> nat -> C))%type.
Fixpoint dsl (xs : seq sq) (i j : nat) : C :=
  match xs with
  | [::] => 0
  | x :: xs' => if (i < x.1)%N && (j < x.1)%N then x.2 i j
                else if (x.1 <= i)%N && (x.1 <= j)%N then dsl xs' (i - x.1) (j - x.1) else 0
  end.
Definition sdim (xs : seq sq) : nat := sumn (map fst xs).
Definition mxf n (f : nat -> nat -> C) : 'M[C]_n := \matrix_(i, j) f i j.

Lemma dsl_block n f xs N : mxf (n + N) (dsl ((n, f) :: xs)) = block_mx (mxf n f) 0 0 (mxf N (dsl xs)).
Proof.
apply/matrixP=> i j; rewrite -(splitK i) -(splitK j).
case: (split i) => i'; case: (split j) => j'; rewrite /unsplit ?block_mxEul ?block_mxEur ?block_mxEdl ?block_mxEdr !mxE /=.
- by rewrite !ltn_ord.
- by rewrite !ltn_ord /= ltnNge leq_addr /= leqNgt ltn_ord.
- by rewrite !ltn_ord /= ltnNge leq_addr /= (leqNgt _ j') ltn_ord.
- by rewrite !(ltnNge (_ + _)) !leq_addr /= !addKn.
Qed.

Lemma direct_sum2_2 n m (a b : nd C) : shape a = [:: n; n] -> shape b = [:: m; m] ->
  exists c, direct_sum2 a b = Ok c /\ shape c = [:: (n + m)%N; (n + m)%N] /\
  forall i j, get c [:: i; j] = if (i < n)%N && (j < n)%N then get a [:: i; j]
     else if (n <= i)%N && (n <= j)%N then get b [:: (i - n)%N; (j - n)%N] else 0.
Proof. by move=> sa sb; rewrite /direct_sum2 sa sb /=; eexists; split; first by []. Qed.

(** The block list of square matrices. *)
Definition sq_of (a : nd C) : sq := (len a, fun i j => get a [:: i; j]).
Lemma direct_sum_l_ok (xs : seq (nd C)) : xs <> [::] -> all (fun a => shape a == [:: len a; len a]) xs ->
  exists c, direct_sum_l xs = Ok c /\ shape c = [:: sdim (map sq_of xs); sdim (map sq_of xs)] /\
  forall i j, (i < sdim (map sq_of xs))%N -> (j < sdim (map sq_of xs))%N -> get c [:: i; j] = dsl (map sq_of xs) i j.
Proof.
elim: xs => [//|a [|b xs] IH] _ /= /andP[/eqP en h].
  exists a; split=> //; rewrite /sdim /= /sq_of /= addn0; split=> //.
  by move=> i j -> ->.
have [//|//|c [e [s g]]] := IH.
have [c' [e' [s' g']]] := direct_sum2_2 en s.
exists c'; split; first by move: e; rewrite /= => ->.
rewrite s'; split; first by rewrite {3 4}/sdim.
move=> i j hi hj; rewrite g'.
case: (ltnP i (len a)) => h1; case: (ltnP j (len a)) => h2 //=.
by rewrite g // ltn_subLR.
Qed.

Lemma dsl_nseq m d (f : nat -> nat -> C) i j : (i < m * d)%N -> (j < m * d)%N ->
  dsl (nseq m (d, f)) i j = if (i %/ d == j %/ d)%N then f (i %% d)%N (j %% d)%N else 0.
Proof.
elim: m i j => [//|m IH] i j; rewrite mulSn => hi hj /=.
case: (ltnP i d) => h1; case: (ltnP j d) => h2 /=.
- by rewrite !divn_small // !modn_small.
- rewrite divn_small //; case: eqP => // e; have := divn_gt0 j (leq_ltn_trans (leq0n _) h1); lia.
- rewrite (divn_small h2); case: eqP => // e; have := divn_gt0 i (leq_ltn_trans (leq0n _) h2); lia.
- rewrite IH; try lia.
  case: d f h1 h2 hi hj IH => [|d] f h1 h2 hi hj IH; first by move: hi; rewrite muln0.
  have E k : (d.+1 <= k)%N -> (k %/ d.+1 = ((k - d.+1) %/ d.+1).+1)%N /\ (k %% d.+1 = (k - d.+1) %% d.+1)%N.
    by move=> le; rewrite -{1 3}(subnK le) divnDr ?dvdnn // divnn modnDr addn1.
  by have [-> ->] := E _ h1; have [-> ->] := E _ h2; rewrite eqSS.
Qed.
Lemma sdim_nseq m d (f : nat -> nat -> C) : sdim (nseq m (d, f)) = (m * d)%N.
Proof. by rewrite /sdim map_nseq sumn_nseq mulnC. Qed.

Lemma is_mrep_0 (T : theory C) (X H : nat -> 'M[C]_0) : is_mrep T X H.
Proof. by split=> *; apply/matrixP=> -[]. Qed.

Lemma is_mrep_mult (T : theory C) m d (X H : nat -> 'M[C]_d) : is_mrep T X H ->
  is_mrep T (fun a => (1%:M : 'M[C]_m) *t X a) (fun a => (1%:M : 'M[C]_m) *t H a).
Proof.
move=> [ha hb hc]; split.
- move=> i j hi hj; rewrite !tensmx_mul mulmx1 -tensNr -tensDr ha // tens_sumr.
  by apply: eq_bigr => k _; rewrite tensZr.
- have wd w : word (fun a => (1%:M : 'M[C]_m) *t H a) w = 1%:M *t word H w.
    by elim: w => [|b w IH] /=; rewrite ?tens1 // IH tensmx_mul mulmx1.
  by move=> u v r hw; rewrite !wd (hb _ _ r).
- move=> c hcc b i h1 h2; rewrite tensmx_mul mulmx1 (hc _ hcc) // !mulmx_suml tens_sumr.
  by apply: eq_bigr => j _; rewrite -!scalemxAl tensmx_mul mulmx1 tensZr.
Qed.

Section G.
Variable G : irreps C.
Implicit Types m : mulirrep G.

Lemma rows_nth (X : nd C) k : (k < len X)%N -> nth X (rows X) k = slice0 X k.
Proof. by move=> h; rewrite /rows (nth_map 0%N) ?size_iota // nth_iota. Qed.

Lemma stack_ok (l : nat) (sh : seq nat) (xs : seq (nd C)) : size xs = l -> (0 < l)%N ->
  (forall k, (k < l)%N -> shape (nth (zeros [::]) xs k) = sh) ->
  exists c, stack xs = Ok c /\ shape c = l :: sh /\
  forall k idx, (k < l)%N -> get c (k :: idx) = get (nth (zeros [::]) xs k) idx.
Proof.
case: xs => [|a xs] /= <- // _ h; have h0 := h 0%N erefl; rewrite /= in h0.
have -> : (shape a == shape a) && all (fun b => shape b == shape a) xs.
  rewrite eqxx; apply/(all_nthP (zeros [::])) => k hk; rewrite h0.
  by rewrite (h k.+1).
eexists; split; first by []; rewrite /= h0; split=> // k idx hk.
by rewrite (set_nth_default (zeros [::])).
Qed.

Lemma direct_sum_nseq (m d : nat) (x : nd C) : (0 < m)%N -> shape x = [:: d; d] ->
  exists c, direct_sum_l (nseq m x) = Ok c /\ shape c = [:: (m * d)%N; (m * d)%N] /\
  forall i j, (i < m * d)%N -> (j < m * d)%N ->
  get c [:: i; j] = if (i %/ d == j %/ d)%N then get x [:: i %% d; j %% d]%N else 0.
Proof.
move=> m0 sx.
have E : map sq_of (nseq m x) = nseq m (d, fun i j => get x [:: i; j]) by rewrite map_nseq /sq_of /len sx.
have [||c [e [s g]]] := @direct_sum_l_ok (nseq m x).
- by case: (m) m0.
- by rewrite all_nseq /len sx eqxx orbT.
rewrite E sdim_nseq in s g; exists c; split=> //; split=> // i j hi hj.
by rewrite g // dsl_nseq.
Qed.

Lemma mul_stack_ok m (X : nd C) l : (0 < m_mul m)%N -> shape X = [:: l; dim_of (m_rep m); dim_of (m_rep m)] ->
  exists c, mul_stack m X = Ok c /\ shape c = [:: l; mul_dim m; mul_dim m] /\
  forall a i j, (a < l)%N -> (i < mul_dim m)%N -> (j < mul_dim m)%N ->
  let d := dim_of (m_rep m) in
  get c [:: a; i; j] = if (i %/ d == j %/ d)%N then get X [:: a; i %% d; j %% d]%N else 0.
Proof.
move=> m0 sX; rewrite /mul_stack /len0 sX /=; set d := dim_of (m_rep m) in sX *.
case: (l =P 0%N) => [->|/eqP l0]; first by eexists; split; first by [].
have lX : len X = l by rewrite /len sX.
pose f (x : nd C) := if direct_sum_l (nseq (m_mul m) x) is Ok c then c else x.
have ok k : (k < l)%N -> exists c, direct_sum_l (nseq (m_mul m) (slice0 X k)) = Ok c /\ shape c = [:: mul_dim m; mul_dim m] /\
    forall i j, (i < mul_dim m)%N -> (j < mul_dim m)%N ->
    get c [:: i; j] = if (i %/ d == j %/ d)%N then get X [:: k; i %% d; j %% d]%N else 0.
  by move=> hk; apply: direct_sum_nseq => //; rewrite /slice0 sX.
have fE : mapR (fun x => direct_sum_l (nseq (m_mul m) x)) (rows X) = Ok (map f (rows X)).
  have : forall k, (k < l)%N -> direct_sum_l (nseq (m_mul m) (slice0 X k)) = Ok (f (slice0 X k)).
    by move=> k /ok[c [e _]]; rewrite /f e.
  rewrite /rows lX => H.
  have : forall k, k \in iota 0 l -> direct_sum_l (nseq (m_mul m) (slice0 X k)) = Ok (f (slice0 X k)).
    by move=> k; rewrite mem_iota => hk; apply: H.
  elim: (iota 0 l) => [//|k s IH] h /=; rewrite h ?mem_head //= IH // => k' hk'.
  by apply: h; rewrite inE hk' orbT.
rewrite fE /=.
have fn k : (k < l)%N -> nth (zeros [::]) (map f (rows X)) k = f (slice0 X k).
  by move=> hk; rewrite (nth_map X) ?rows_nth ?lX // /rows size_map size_iota lX.
have [|||c [e [s g]]] := @stack_ok l [:: mul_dim m; mul_dim m] (map f (rows X)).
- by rewrite size_map /rows size_map size_iota lX.
- by rewrite lt0n.
- by move=> k hk; rewrite fn // /f; have [c [-> [-> _]]] := ok k hk.
exists c; split=> //; split=> // a i j ha hi hj /=.
by rewrite g // fn // /f; have [c' [-> [_ g']]] := ok a ha; rewrite g'.
Qed.

(** m copies: 1 (x) X. *)
Lemma mul_mx m (X c : nd C) l : (0 < m_mul m)%N -> shape X = [:: l; dim_of (m_rep m); dim_of (m_rep m)] ->
  mul_stack m X = Ok c -> forall a, (a < l)%N ->
  mx3 (mul_dim m) (mul_dim m) c a = (1%:M : 'M[C]_(m_mul m)) *t mx3 (dim_of (m_rep m)) (dim_of (m_rep m)) X a.
Proof.
move=> m0 sX e a ha; have [c' [e' [s g]]] := mul_stack_ok m0 sX.
move: e'; rewrite e => -[q]; rewrite -{c'}q in s g.
apply/matrixP=> i j; rewrite !mxE g // -val_eqE /=.
by case: eqP; rewrite ?mul1r ?mul0r.
Qed.

Theorem mul_rep_ok T m : (0 < m_mul m)%N -> is_rep T (dim_of (m_rep m)) (rep_of (m_rep m)) ->
  exists r, mul_rep m = Ok r /\ is_rep T (mul_dim m) r /\ rA r = rA (rep_of (m_rep m)) /\
  (forall a, (a < th_l T)%N -> mx3 (mul_dim m) (mul_dim m) (rX r) a = (1%:M : 'M[C]_(m_mul m)) *t mx3 _ _ (rX (rep_of (m_rep m))) a) /\
  (forall a, (a < th_h T)%N -> mx3 (mul_dim m) (mul_dim m) (rH r) a = (1%:M : 'M[C]_(m_mul m)) *t mx3 _ _ (rH (rep_of (m_rep m))) a).
Proof.
move=> m0 h.
have [X [eX [sX _]]] := mul_stack_ok m0 (ir_sX h).
have [H [eH [sH _]]] := mul_stack_ok m0 (ir_sH h).
rewrite /mul_rep /mul_X /mul_H eX eH /=.
eexists; split; first by [].
have gX := mul_mx m0 (ir_sX h) eX; have gH := mul_mx m0 (ir_sH h) eH.
split; last by split.
split=> //=; [exact: ir_sA h|exact: ir_A h|].
by apply: is_mrep_ext (is_mrep_mult (m_mul m) (ir_m h)) => a ha; rewrite ?gX ?gH.
Qed.

(** A zero multiplicity raises TypeError as soon as there is a generator. *)
Theorem mul_rep_zero T m : m_mul m = 0%N -> (0 < th_l T)%N -> is_rep T (dim_of (m_rep m)) (rep_of (m_rep m)) ->
  mul_rep m = Err TypeError.
Proof.
move=> m0 l0 h; rewrite /mul_rep /mul_X /mul_stack /len0 (ir_sX h) /= /rows /len (ir_sX h) /= m0.
by case: (th_l T) l0.
Qed.

(** ** ReducedRep *)
(** The entries of the direct sum of mul_i copies of irrep_i. *)
Definition mblk (g : rep C -> nd C) (a : nat) m : sq :=
  let d := dim_of (m_rep m) in
  (mul_dim m, fun i j => if (i %/ d == j %/ d)%N then get (g (rep_of (m_rep m))) [:: a; i %% d; j %% d]%N else 0).
Definition red_block (g : rep C -> nd C) (ms : seq (mulirrep G)) (a : nat) : 'M[C]_(sumn (map (@mul_dim C G) ms)) :=
  mxf _ (dsl (map (mblk g a) ms)).

Definition mul_ok T m := (0 < m_mul m)%N /\ is_rep T (dim_of (m_rep m)) (rep_of (m_rep m)).

(** The hypotheses on a ReducedRep. *)
Record red_ok (T : theory C) (r : reducedrep G) : Prop := RedOk {
  ro_l : (0 < th_l T)%N;
  ro_sA : shape (r_A r) = [:: th_l T; th_l T; th_l T];
  ro_A : forall i j k, (i < th_l T)%N -> (j < th_l T)%N -> (k < th_l T)%N -> get (r_A r) [:: i; j; k] = th_A T i j k;
  ro_ne : r_irreps r <> [::];
  ro_m : forall m, List.In m (r_irreps r) -> mul_ok T m;
  ro_Q : forall Q, r_Q r = Some Q -> shape Q = [:: red_dim r; red_dim r] /\ mx2 (red_dim r) (red_dim r) Q \in unitmx }.

Definition conjQ (r : reducedrep G) (M : 'M[C]_(red_dim r)) : 'M[C]_(red_dim r) :=
  if r_Q r is Some Q then mx2 _ _ Q *m M *m invmx (mx2 _ _ Q) else M.

Lemma matmul_2_2 (l m n : nat) (a b : nd C) : shape a = [:: l; m] -> shape b = [:: m; n] ->
  exists c, matmul a b = Ok c /\ shape c = [:: l; n] /\ mx2 l n c = mx2 l m a *m mx2 m n b.
Proof.
move=> sa sb; rewrite /matmul sa sb /= eqxx /=; eexists; split; first by []; split=> //.
by apply/matrixP=> i j; rewrite !mxE /=; apply: eq_bigr => k _; rewrite !mxE.
Qed.

Lemma red_gen_ok T r (gens : mulirrep G -> res (nd C)) (g : rep C -> nd C) n a : red_ok T r -> (a < n)%N ->
  (forall m, mul_ok T m -> gens m = mul_stack m (g (rep_of (m_rep m))) /\
     shape (g (rep_of (m_rep m))) = [:: n; dim_of (m_rep m); dim_of (m_rep m)]) ->
  exists c, red_gen r gens a = Ok c /\ shape c = [:: red_dim r; red_dim r] /\
  mx2 (red_dim r) (red_dim r) c = conjQ (red_block g (r_irreps r) a).
Proof.
move=> h ha hg; rewrite /red_gen.
have hm := ro_m h.
have [xs [exs [sxs gxs]]] : exists xs, mapR (fun m => do a0 <- gens m; index0 a0 a) (r_irreps r) = Ok xs /\
   [seq shape x | x <- xs] = [seq [:: mul_dim m; mul_dim m] | m <- r_irreps r] /\
   forall i j, dsl (map sq_of xs) i j = dsl (map (mblk g a) (r_irreps r)) i j.
  elim: (r_irreps r) hm => [_|m ms IH hm]; first by exists [::].
  have hm1 : mul_ok T m by apply: hm; left.
  have [xs [exs [sxs gxs]]] := IH (fun y hy => hm y (or_intror hy)).
  have [eg sg] := hg m hm1.
  have [c [ec [sc gc]]] := mul_stack_ok (proj1 hm1) sg.
  exists (slice0 c a :: xs); rewrite /= eg ec /= /index0 /len0 sc /= ha /= exs /=; split=> //.
  split; first by rewrite sxs.
  have -> : len (slice0 c a) = mul_dim m by rewrite /len /slice0 /= sc.
  by move=> i j; rewrite gxs; case: ifP => // /andP[hi hj]; rewrite gc.
rewrite exs /=.
have ne : xs <> [::].
  by move=> e; move: sxs; rewrite e; case: (r_irreps r) (ro_ne h).
have sq : all (fun a => shape a == [:: len a; len a]) xs.
  rewrite -[X in is_true X](all_map (@shape C) (fun s => s == [:: head 0%N s; head 0%N s])) sxs all_map.
  by elim: (r_irreps r) => //= m ms ->; rewrite eqxx.
have [c [ec [sc gc]]] := direct_sum_l_ok ne sq.
have N : sdim (map sq_of xs) = red_dim r.
  rewrite /sdim -map_comp /red_dim; congr sumn.
  by rewrite (map_comp (head 0%N) (@shape C)) sxs -map_comp; apply: eq_map.
rewrite N in sc gc; rewrite ec /=.
have gc' : mx2 (red_dim r) (red_dim r) c = red_block g (r_irreps r) a.
  by apply/matrixP=> i j; rewrite !mxE gc // gxs.
rewrite /conjQ; case EQ: (r_Q r) => [Q|]; last by exists c.
have [sQ uQ] := ro_Q h EQ.
rewrite /np_inv sQ eqxx uQ /=.
have [c1 [-> [s1 g1]]] := matmul_2_2 sQ sc; rewrite /=.
have [c2 [-> [s2 g2]]] := matmul_2_2 s1 (erefl : shape (nd_of_mx (invmx (mx2 (red_dim r) (red_dim r) Q))) = _).
by exists c2; split=> //; split=> //; rewrite g2 g1 mx2_of_mx gc'.
Qed.

Lemma invmx_mul n (A B : 'M[C]_n) : A \in unitmx -> B \in unitmx -> invmx (A *m B) = invmx B *m invmx A.
Proof.
move=> a b; have ab : A *m B \in unitmx by rewrite unitmx_mul a b.
apply: (can_inj (mulKmx ab)); rewrite mulmxV // -mulmxA (mulmxA B) mulmxV // mul1mx mulmxV //.
Qed.

Lemma mapR_iota (T : Type) (x0 : T) (f : nat -> res T) n : (forall k, (k < n)%N -> exists y, f k = Ok y) ->
  exists ys, mapR f (iota 0 n) = Ok ys /\ size ys = n /\ forall k, (k < n)%N -> f k = Ok (nth x0 ys k).
Proof.
have gen s : (forall k, k \in s -> exists y, f k = Ok y) ->
    exists ys, mapR f s = Ok ys /\ size ys = size s /\ forall k, (k < size s)%N -> f (nth 0%N s k) = Ok (nth x0 ys k).
  elim: s => [_|a s IH h]; first by exists [::].
  have [y ey] := h a (mem_head _ _).
  have [|ys [e [sz g]]] := IH; first by move=> k hk; apply: h; rewrite inE hk orbT.
  exists (y :: ys); rewrite /= ey /= e /= sz; split=> //; split=> // -[|k] //= hk; exact: g.
move=> h; have [|ys [e [sz g]]] := gen (iota 0 n); first by move=> k; rewrite mem_iota => /h.
rewrite size_iota in sz g; exists ys; split=> //; split=> // k hk.
by rewrite -g // nth_iota.
Qed.

Lemma red_stack_ok T r (gens : mulirrep G -> res (nd C)) (g : rep C -> nd C) n : red_ok T r -> (0 < n)%N ->
  (forall m, mul_ok T m -> gens m = mul_stack m (g (rep_of (m_rep m))) /\
     shape (g (rep_of (m_rep m))) = [:: n; dim_of (m_rep m); dim_of (m_rep m)]) ->
  exists c, (do xs <- mapR (red_gen r gens) (iota 0 n); stack xs) = Ok c /\ shape c = [:: n; red_dim r; red_dim r] /\
  forall a, (a < n)%N -> mx3 (red_dim r) (red_dim r) c a = conjQ (red_block g (r_irreps r) a).
Proof.
move=> h n0 hg.
have ok a (ha : (a < n)%N) := red_gen_ok h ha hg.
have [|ys [e [sz gy]]] := mapR_iota (zeros [::]) (f := red_gen r gens) (n := n).
  by move=> k /ok[c [-> _]]; exists c.
rewrite e /=.
have sy k : (k < n)%N -> shape (nth (zeros [::]) ys k) = [:: red_dim r; red_dim r] /\
     mx2 (red_dim r) (red_dim r) (nth (zeros [::]) ys k) = conjQ (red_block g (r_irreps r) k).
  by move=> hk; have [c [e' ?]] := ok k hk; move: e'; rewrite gy // => -[->].
have [c [ec [sc gc]]] := stack_ok sz n0 (fun k hk => proj1 (sy k hk)).
exists c; split=> //; split=> // a ha; rewrite -(proj2 (sy a ha)).
by apply/matrixP=> i j; rewrite !mxE gc.
Qed.

Lemma mblk_tens (g : rep C -> nd C) a m :
  mxf (mul_dim m) (mblk g a m).2 = (1%:M : 'M[C]_(m_mul m)) *t mx3 (dim_of (m_rep m)) (dim_of (m_rep m)) (g (rep_of (m_rep m))) a.
Proof. by apply/matrixP=> i j; rewrite !mxE /= -val_eqE /=; case: eqP; rewrite ?mul1r ?mul0r. Qed.

(** Block diagonal sums of representations. *)
Lemma red_block_cons g m ms a : red_block g (m :: ms) a = block_mx (mxf (mul_dim m) (mblk g a m).2) 0 0 (red_block g ms a).
Proof. exact: dsl_block. Qed.
Lemma is_mrep_red_block T ms : (forall m, List.In m ms -> mul_ok T m) -> is_mrep T (red_block (@rX C) ms) (red_block (@rH C) ms).
Proof.
elim: ms => [|m ms IH] h; first exact: is_mrep_0.
have h1 : mul_ok T m by apply: h; left.
have := is_mrep_block (is_mrep_mult (m_mul m) (ir_m (proj2 h1))) (IH (fun x hx => h x (or_intror hx))).
by apply: is_mrep_ext => a _; rewrite red_block_cons mblk_tens.
Qed.
Lemma is_mrep_conjQ T r : red_ok T r -> forall X H, is_mrep T X H -> is_mrep T (fun a => conjQ (r := r) (X a)) (fun a => conjQ (r := r) (H a)).
Proof.
move=> h X H hm; rewrite /conjQ; case E: (r_Q r) => [Q|//].
have [sQ uQ] := ro_Q h E.
by apply: is_mrep_conj => //; [exact: mulVmx|left; exact: mulmxV].
Qed.

Theorem red_rep_ok T (r : reducedrep G) : red_ok T r ->
  exists R, red_rep r = Ok R /\ is_rep T (red_dim r) R /\ rA R = r_A r /\
  (forall a, (a < th_l T)%N -> mx3 (red_dim r) (red_dim r) (rX R) a = conjQ (red_block (@rX C) (r_irreps r) a)) /\
  (forall a, (a < th_h T)%N -> mx3 (red_dim r) (red_dim r) (rH R) a = conjQ (red_block (@rH C) (r_irreps r) a)).
Proof.
move=> h; rewrite /red_rep /red_X /red_H.
have -> : red_lie_dim r = Ok (th_l T) by rewrite /red_lie_dim (ro_sA h) eqxx.
have [X [eX [sX gX]]] := red_stack_ok (g := @rX C) (gens := @mul_X C G) h (ro_l h)
  (fun m hm => Logic.conj erefl (ir_sX (proj2 hm))).
rewrite /= eX /=.
have [H [eH [sH gH]]] : exists H, match r_irreps r with
  | [::] => Err IndexError
  | m :: _ => do H <- mul_H m; do n <- len0 H;
      if n == 0%N then Ok (zeros [:: 0%N; red_dim r; red_dim r])
      else do xs <- mapR (red_gen r (@mul_H C G)) (iota 0 n); stack xs end = Ok H /\
    shape H = [:: th_h T; red_dim r; red_dim r] /\
    forall a, (a < th_h T)%N -> mx3 (red_dim r) (red_dim r) H a = conjQ (red_block (@rH C) (r_irreps r) a).
  have [m [hm ->]] : exists m, mul_ok T m /\ match r_irreps r with
      | [::] => Err IndexError
      | m :: _ => do H <- mul_H m; do n <- len0 H;
        if n == 0%N then Ok (zeros [:: 0%N; red_dim r; red_dim r])
        else do xs <- mapR (red_gen r (@mul_H C G)) (iota 0 n); stack xs end =
      do H <- mul_H m; do n <- len0 H;
        if n == 0%N then Ok (zeros [:: 0%N; red_dim r; red_dim r])
        else do xs <- mapR (red_gen r (@mul_H C G)) (iota 0 n); stack xs.
    move: (ro_ne h) (ro_m h); case: (r_irreps r) => [//|m ms] _ hm.
    by exists m; split=> //; apply: hm; left.
  have [c [ec [sc _]]] := mul_stack_ok (proj1 hm) (ir_sH (proj2 hm)).
  rewrite {1}/mul_H ec /= /len0 sc /=; case: eqP => [->|/eqP n0]; first by eexists; split; first by [].
  apply: red_stack_ok h _ _; first by rewrite lt0n.
  by move=> m' hm'; split=> //; exact: ir_sH (proj2 hm').
rewrite eH /=; eexists; split; first by []; split; last by split.
split=> //=; [exact: ro_sA h|exact: ro_A h|].
by apply: is_mrep_ext (is_mrep_conjQ h (is_mrep_red_block (ro_m h))) => a ha; rewrite ?gX ?gH.
Qed.

(** Generators of an empty algebra: np.stack of an empty list raises. *)
Theorem red_rep_empty (r : reducedrep G) : shape (r_A r) = [:: 0%N; 0%N; 0%N] -> red_rep r = Err ValueError.
Proof. by move=> s; rewrite /red_rep /red_X /red_lie_dim s. Qed.

(** from_irreps (reduced_rep.py:81-103). *)
Theorem from_irreps_ok T (l : seq (mulirrep G)) (Q : option (nd C)) : (0 < th_l T)%N -> l <> [::] ->
  (forall m, List.In m l -> mul_ok T m) ->
  (forall q, Q = Some q -> shape q = [:: sumn (map (@mul_dim C G) l); sumn (map (@mul_dim C G) l)] /\
     mx2 (sumn (map (@mul_dim C G) l)) (sumn (map (@mul_dim C G) l)) q \in unitmx) ->
  exists r, from_irreps l Q = Ok r /\ r_irreps r = l /\ r_Q r = Q /\ red_ok T r.
Proof.
move=> l0 ne h hQ; rewrite /from_irreps; case: l ne h hQ => [//|m l] _ h hQ.
have hm : mul_ok T m by apply: h; left.
have -> : foldR (fun _ m' => assert_r (close_ (mul_A m) (mul_A m'))) tt (behead (m :: l)) = Ok tt.
  have {}h m' : List.In m' l -> mul_ok T m' by move=> i; apply: h; right.
  elim: l h {hQ} => [//|m' l IH] h /=; have hm' : mul_ok T m' by apply: h; left.
  rewrite (close_A (proj2 hm) (proj2 hm')) /=.
  by rewrite IH // => x hx; apply: h; right.
have -> : passert (if Q is Some q then shape q == [:: sumn (map (@mul_dim C G) (m :: l)); sumn (map (@mul_dim C G) (m :: l))] else true) = Ok tt.
  by case: Q hQ => [q|//] hQ; rewrite (proj1 (hQ q erefl)) eqxx.
rewrite /=; eexists; split; first by []; split=> //; split=> //.
by split=> //=; [exact: ir_sA (proj2 hm)|exact: ir_A (proj2 hm)].
Qed.

(** ** change_basis overloads *)
Lemma change_basis_unit T d (r : rep C) (Q : nd C) : is_rep T d r -> shape Q = [:: d; d] -> mx2 d d Q \in unitmx ->
  exists r', change_basis r Q = Ok r' /\ is_rep T d r' /\ rA r' = rA r /\
  (forall i, (i < th_l T)%N -> mx3 d d (rX r') i = mx2 d d Q *m mx3 d d (rX r) i *m invmx (mx2 d d Q)) /\
  (forall b, (b < th_h T)%N -> mx3 d d (rH r') b = mx2 d d Q *m mx3 d d (rH r) b *m invmx (mx2 d d Q)).
Proof.
move=> h sQ uQ.
have fu : row_full (mx2 d d Q) by rewrite row_full_unit.
have [r' [e [h' [a [x y]]]]] := change_basis_ok h sQ fu (or_introl erefl).
by exists r'; split=> //; split=> //; split=> //; rewrite pinv_unit // in x y.
Qed.

(** The two representations have equal algebra and generators. *)
Definition rep_eq (r1 r2 : rep C) := rA r1 = rA r2 /\ nd_eq (rX r1) (rX r2) /\ nd_eq (rH r1) (rH r2).

Lemma is_rep_eq T d (r1 r2 : rep C) : is_rep T d r1 -> is_rep T d r2 -> rA r1 = rA r2 ->
  (forall a, (a < th_l T)%N -> mx3 d d (rX r1) a = mx3 d d (rX r2) a) ->
  (forall a, (a < th_h T)%N -> mx3 d d (rH r1) a = mx3 d d (rH r2) a) -> rep_eq r1 r2.
Proof.
move=> h1 h2 eA eX eH; split=> //; split.
- by apply: nd_eq3 (ir_sX h1) (ir_sX h2) eX.
- by apply: nd_eq3 (ir_sH h1) (ir_sH h2) eH.
Qed.

Theorem change_basis_reduced_ok T (r : reducedrep G) (Q : nd C) : red_ok T r ->
  shape Q = [:: red_dim r; red_dim r] -> mx2 (red_dim r) (red_dim r) Q \in unitmx ->
  exists r' R R1 R2, change_basis_reduced r Q = Ok r' /\ r_irreps r' = r_irreps r /\ red_ok T r' /\
    red_rep r' = Ok R1 /\ red_rep r = Ok R /\ change_basis R Q = Ok R2 /\ rep_eq R1 R2.
Proof.
move=> h sQ uQ; rewrite /change_basis_reduced.
have [R [eR [hR [aR [xR yR]]]]] := red_rep_ok h.
have [R2 [eR2 [hR2 [aR2 [xR2 yR2]]]]] := change_basis_unit hR sQ uQ.
have [Q' [eQ [sQ' gQ]]] : exists Q', (match r_Q r with None => Ok Q | Some q => matmul Q q end) = Ok Q' /\
    shape Q' = [:: red_dim r; red_dim r] /\ mx2 (red_dim r) (red_dim r) Q' =
      mx2 (red_dim r) (red_dim r) Q *m (if r_Q r is Some q then mx2 (red_dim r) (red_dim r) q else 1%:M).
  case E: (r_Q r) => [q|]; last by exists Q; rewrite mulmx1.
  by have [sq uq] := ro_Q h E; apply: matmul_2_2.
have u1 : (if r_Q r is Some q then mx2 (red_dim r) (red_dim r) q else 1%:M) \in unitmx.
  by case E: (r_Q r) => [q|]; [exact: (proj2 (ro_Q h E))|rewrite unitmx1].
have uQ' : mx2 (red_dim r) (red_dim r) Q' \in unitmx by rewrite gQ unitmx_mul uQ u1.
rewrite eQ /=; pose r' := ReducedRep (r_A r) (r_irreps r) (Some Q').
have h' : red_ok T r'.
  by split=> //=; [exact: ro_l h|exact: ro_sA h|exact: ro_A h|exact: ro_ne h|exact: ro_m h|move=> q [<-]].
have [R1 [eR1 [hR1 [aR1 [xR1 yR1]]]]] := red_rep_ok h'.
exists r', R, R1, R2; do 6!split=> //.
have key M : conjQ (r := r') M = mx2 (red_dim r) (red_dim r) Q *m conjQ (r := r) M *m invmx (mx2 (red_dim r) (red_dim r) Q).
  rewrite {1}/conjQ /= /red_dim /= -/(red_dim r) gQ /conjQ; move: u1; case: (r_Q r) => [q|] u1; rewrite ?mulmx1 //.
  by rewrite invmx_mul // !mulmxA.
apply: is_rep_eq hR1 hR2 _ _ _ => [|a ha|a ha]; first by rewrite aR1 aR2 aR.
- by rewrite xR1 // xR2 // xR //; exact: key.
- by rewrite yR1 // yR2 // yR //; exact: key.
Qed.

Lemma red_one T m (Q : option (nd C)) R0 R : (0 < th_l T)%N -> mul_ok T m -> mul_rep m = Ok R0 ->
  (forall q, Q = Some q -> shape q = [:: mul_dim m; mul_dim m] /\ mx2 (mul_dim m) (mul_dim m) q \in unitmx) ->
  red_rep (ReducedRep (mul_A m) [:: m] Q) = Ok R ->
  red_ok T (ReducedRep (mul_A m) [:: m] Q) /\ is_rep T (mul_dim m) R /\ rA R = rA R0 /\
  let cj (M : 'M_(mul_dim m)) := if Q is Some q then mx2 _ _ q *m M *m invmx (mx2 _ _ q) else M in
  (forall a, (a < th_l T)%N -> mx3 (mul_dim m) (mul_dim m) (rX R) a = cj (mx3 (mul_dim m) (mul_dim m) (rX R0) a)) /\
  (forall a, (a < th_h T)%N -> mx3 (mul_dim m) (mul_dim m) (rH R) a = cj (mx3 (mul_dim m) (mul_dim m) (rH R0) a)).
Proof.
move=> l0 hm e0 hQ eR; set r := ReducedRep _ _ _ in eR *.
have E : red_dim r = mul_dim m by rewrite /red_dim /= addn0.
have hr : red_ok T r.
  split=> //=; [exact: ir_sA (proj2 hm)|exact: ir_A (proj2 hm)|by move=> x [<-|[]]|].
  by rewrite E.
have [R' [eR' [hR [aR [xR yR]]]]] := red_rep_ok hr; move: eR'; rewrite eR => -[e']; rewrite -{R'}e' in hR aR xR yR.
have [R0' [eR0 [hR0 [aR0 [xR0 yR0]]]]] := mul_rep_ok (proj1 hm) (proj2 hm).
move: eR0; rewrite e0 => -[e']; rewrite -{R0'}e' in hR0 aR0 xR0 yR0.
have one g a : red_block g [:: m] a = mxf (sumn [:: mul_dim m]) (mblk g a m).2.
  apply/matrixP=> i j; rewrite !mxE /=.
  have lt (x : 'I_(sumn [:: mul_dim m])) : (x < mul_dim m)%N by apply: leq_trans (ltn_ord x) _; rewrite /= addn0.
  by rewrite !lt.
split=> //; rewrite /conjQ /= in xR yR.
have xR' a : (a < th_l T)%N -> mx3 (red_dim r) (red_dim r) (rX R) a =
   if Q is Some q then mx2 (red_dim r) (red_dim r) q *m mxf (red_dim r) (mblk (@rX C) a m).2 *m invmx (mx2 (red_dim r) (red_dim r) q) else mxf (red_dim r) (mblk (@rX C) a m).2.
  by move=> ha; rewrite xR // one.
have yR' a : (a < th_h T)%N -> mx3 (red_dim r) (red_dim r) (rH R) a =
   if Q is Some q then mx2 (red_dim r) (red_dim r) q *m mxf (red_dim r) (mblk (@rH C) a m).2 *m invmx (mx2 (red_dim r) (red_dim r) q) else mxf (red_dim r) (mblk (@rH C) a m).2.
  by move=> ha; rewrite yR // one.
clear xR yR; rewrite E in hR xR' yR'.
split=> //; split; first by rewrite aR aR0.
by split=> a ha; rewrite ?xR' ?yR' // mblk_tens ?xR0 ?yR0.
Qed.

Theorem change_basis_mul_ok T m (Q : nd C) : (0 < th_l T)%N -> mul_ok T m ->
  shape Q = [:: mul_dim m; mul_dim m] -> mx2 (mul_dim m) (mul_dim m) Q \in unitmx ->
  exists R R1 R2, red_ok T (change_basis_mul m Q) /\ red_rep (change_basis_mul m Q) = Ok R1 /\
    mul_rep m = Ok R /\ change_basis R Q = Ok R2 /\ rep_eq R1 R2.
Proof.
move=> l0 hm sQ uQ.
have [R [eR [hR _]]] := mul_rep_ok (proj1 hm) (proj2 hm).
have [R2 [eR2 [hR2 [aR2 [xR2 yR2]]]]] := change_basis_unit hR sQ uQ.
have hr : red_ok T (change_basis_mul m Q).
  split=> //=; [exact: ir_sA (proj2 hm)|exact: ir_A (proj2 hm)|by move=> x [<-|[]]|].
  by move=> q [<-]; rewrite /red_dim /= addn0.
have [R1 [eR1 _]] := red_rep_ok hr.
have [|_ [hR1 [aR1 [xR1 yR1]]]] := red_one l0 hm eR _ eR1; first by move=> q [<-].
exists R, R1, R2; do 4!split=> //.
apply: is_rep_eq hR1 hR2 _ _ _ => [|a ha|a ha]; first by rewrite aR1 aR2.
- by rewrite xR1 // xR2.
- by rewrite yR1 // yR2.
Qed.

(** One copy is the irrep itself. *)
Lemma mul1_rep T (i : label G) R : is_rep T (dim_of i) (rep_of i) -> mul_rep (MulIrrep 1 i) = Ok R -> rep_eq R (rep_of i).
Proof.
move=> h; rewrite /mul_rep /mul_X /mul_H.
have one X l : shape X = [:: l; dim_of i; dim_of i] -> exists c, mul_stack (MulIrrep 1 i) X = Ok c /\ nd_eq c X.
  move=> sX; have [c [e [s g]]] := @mul_stack_ok (MulIrrep 1 i) X l erefl sX.
  exists c; split=> //; rewrite /mul_dim /= mul1n in s g; split; first by rewrite s sX.
  case=> [|a [|u [|v [|? ?]]]]; rewrite s // !valid_cons => /and4P[ha hu hv _].
  by rewrite g // !divn_small // !modn_small.
have [X [eX qX]] := one _ _ (ir_sX h); have [H [eH qH]] := one _ _ (ir_sH h).
by rewrite eX eH /= => -[<-]; split.
Qed.

Theorem change_basis_irrep_ok T (i : label G) (Q : nd C) : (0 < th_l T)%N -> is_rep T (dim_of i) (rep_of i) ->
  shape Q = [:: dim_of i; dim_of i] -> mx2 (dim_of i) (dim_of i) Q \in unitmx ->
  exists R1 R2, red_ok T (change_basis_irrep i Q) /\ red_rep (change_basis_irrep i Q) = Ok R1 /\
    change_basis (rep_of i) Q = Ok R2 /\ rep_eq R1 R2.
Proof.
move=> l0 h sQ uQ.
have E : mul_dim (MulIrrep 1 i) = dim_of i by rewrite /mul_dim mul1n.
have hm : mul_ok T (MulIrrep 1 i) by [].
have [R2 [eR2 [hR2 [aR2 [xR2 yR2]]]]] := change_basis_unit h sQ uQ.
have [||R [R1 [R2' [hr [eR1 [eR [eR2' [q1 [q2 q3]]]]]]]]] := @change_basis_mul_ok T (MulIrrep 1 i) Q l0 hm.
- by rewrite E.
- by rewrite E.
have [a1 [a2 a3]] := mul1_rep h eR.
have [R' [eR' [hR _]]] := mul_rep_ok (proj1 hm) (proj2 hm).
move: eR'; rewrite eR => -[e']; rewrite -{R'}e' in hR; rewrite E in hR.
have [R3 [eR3 [hR3 [aR3 [xR3 yR3]]]]] := change_basis_unit hR sQ uQ.
move: eR2'; rewrite eR3 => -[e']; rewrite -{R2'}e' in q1 q2 q3.
exists R1, R2; do 3!split=> //.
have [b1 [b2 b3]] : rep_eq R3 R2.
  apply: is_rep_eq hR3 hR2 _ _ _ => [|a ha|a ha]; first by rewrite aR3 aR2.
  - rewrite xR3 // xR2 //; congr (_ *m _ *m _); apply/matrixP=> u v; rewrite !mxE.
    by apply: (proj2 a2); rewrite (proj1 a2) (ir_sX h) !valid_cons ha !ltn_ord.
  - rewrite yR3 // yR2 //; congr (_ *m _ *m _); apply/matrixP=> u v; rewrite !mxE.
    by apply: (proj2 a3); rewrite (proj1 a3) (ir_sH h) !valid_cons ha !ltn_ord.
by split; [rewrite q1|split; [exact: nd_eq_trans q2 b2|exact: nd_eq_trans q3 b3]].
Qed.
End G.
End RProofs.
