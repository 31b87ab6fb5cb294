(** Properties C53 (representations of the symmetric groups), C54 (regular representation)
    and C55 (unique_with_tol, eigenspaces). *)
From mathcomp Require Import all_ssreflect all_fingroup all_algebra.
From mathcomp.zify Require Import zify.
From Verif Require Import Base Nd NdProofs Reps RepSpec Perm PermProofs Finite FiniteProofs RegularProofs ClusterProofs.

Set Implicit Arguments.
Unset Strict Implicit.
Unset Printing Implicit Defensive.

Import Order.Theory GRing.Theory Num.Theory.
Local Open Scope ring_scope.

Section Props.
Variable C : numClosedFieldType.
Notation nd := (nd C).

(** ** C53: the symmetric groups *)
(** Every permutation is a word in the generators, so a representation of Sn_theory is a
    representation of the symmetric group. *)
Theorem C53_generators n (s : 'S_n.+1) :
  exists2 w, all (fun b => b < sn_gens n.+1)%N w & forall k : 'I_n.+1, weval n.+1 w k = s k :> nat.
Proof. exact: perm_word. Qed.

Theorem C53_natural (n : nat) : (0 < n)%N ->
  exists r, [/\ sn_natural C n%:Z = Ok r, is_rep (Sn_theory C n) n r &
    forall w i k, all (fun b => b < sn_gens n)%N w ->
      word (mx3 n n (rH r)) w i k = (i == weval n w k :> nat)%:R].
Proof.
move=> n0; have [r er] : exists r, sn_natural C n%:Z = Ok r.
  rewrite /sn_natural (_ : 1 <= n%:Z) ?absz_nat; last by lia.
  by have [? [-> _ _]] := @sn_natural_HP C n n0; eexists.
by exists r; have [_ h1 h2] := sn_naturalP er.
Qed.
Theorem C53_natural_raises (n : int) : n <= 0 -> sn_natural C n = Err AssertionError.
Proof. by move=> h; rewrite /sn_natural (_ : (1 <= n) = false) //; lia. Qed.
Example C53_natural_ex : sn_gens 5 = 2%N /\ weval 5 [:: 0; 1]%N 0%N = 0%N /\ weval 5 [:: 0; 1]%N 4%N = 1%N.
Proof. by []. Qed.

(** Two words have the same matrix only if they are the same permutation. *)
Theorem C53_natural_faithful (n : nat) r u v : (0 < n)%N -> sn_natural C n%:Z = Ok r ->
  all (fun b => b < sn_gens n)%N u -> all (fun b => b < sn_gens n)%N v ->
  word (mx3 n n (rH r)) u = word (mx3 n n (rH r)) v ->
  forall k, (k < n)%N -> weval n u k = weval n v k.
Proof.
move=> n0 er hu hv /matrixP h k hk; have [r' [er' _ hw]] := C53_natural n0.
move: er'; rewrite er => -[er']; subst r'.
have := h (Ordinal (weval_lt hu hk)) (Ordinal hk); rewrite !hw //= eqxx.
by case: (weval n u k =P weval n v k) => // _ /eqP; rewrite oner_eq0.
Qed.

(** Sn_standard is the subrepresentation of Sn_natural on the vectors e_(a+1) - e_0. *)
Theorem C53_standard (n : nat) : (0 < n)%N ->
  exists r rn, [/\ sn_standard C n.+1%:Z = Ok r, sn_natural C n.+1%:Z = Ok rn,
   is_rep (Sn_theory C n.+1) n r &
   forall w, all (fun b => b < sn_gens n.+1)%N w ->
     word (mx3 n.+1 n.+1 (rH rn)) w *m basisB C n = basisB C n *m word (mx3 n n (rH r)) w].
Proof.
move=> n0; have [r er] : exists r, sn_standard C n.+1%:Z = Ok r.
  rewrite /sn_standard (_ : 2%:Z <= n.+1%:Z) ?absz_nat; last by lia.
  cbv beta iota delta [rbind passert]; case: eqP => [_|hn]; first by eexists.
  have shtr : shape (sn_H_tr C n.+1) = [:: n; n].
    rewrite /sn_H_tr; have gen l (m : nd) : shape (foldl (fun m i => set_at (set_at m [:: i; i] 1) [:: 0%N; i] (-1)) m l) = shape m by elim: l m => //= x l IH m; rewrite IH.
    by rewrite gen.
  have shcy : shape (sn_H_cy C n.+1) = [:: n; n].
    rewrite /sn_H_cy; have gen l (m : nd) : shape (foldl (fun m i => set_at (set_at m [:: i.+1; i] 1) [:: 0%N; i] (-1)) m l) = shape m by elim: l m => //= x l IH m; rewrite IH.
    by rewrite /= gen.
  by rewrite /stack [all _ _]/= shtr shcy eqxx; eexists.
have [rn [ern _ _]] := C53_natural (ltn0Sn n).
exists r, rn; have [_ h1 h2] := sn_standardP er; split=> //; exact: h2.
Qed.
Theorem C53_basis (n m : nat) (M N : 'M[C]_(n, m)) : basisB C n *m M = basisB C n *m N -> M = N.
Proof. exact: basisB_inj. Qed.
Theorem C53_standard_raises (n : int) : n <= 1 -> sn_standard C n = Err AssertionError.
Proof. by move=> h; rewrite /sn_standard (_ : (2%:Z <= n) = false) //; lia. Qed.
Theorem C53_standard_faithful (n : nat) r u v : sn_standard C n.+1%:Z = Ok r ->
  all (fun b => b < sn_gens n.+1)%N u -> all (fun b => b < sn_gens n.+1)%N v ->
  word (mx3 n n (rH r)) u = word (mx3 n n (rH r)) v ->
  forall k, (k < n.+1)%N -> weval n.+1 u k = weval n.+1 v k.
Proof. exact: sn_standard_faithful. Qed.

(** Sn_trivial is the trivial representation; for n <= 0 discrete_generators returns None. *)
Theorem C53_trivial (n : nat) : (0 < n)%N -> exists2 r, sn_trivial C n%:Z = Some r &
  is_rep (Sn_theory C n) 1 r /\ forall w, all (fun b => b < sn_gens n)%N w -> word (mx3 1 1 (rH r)) w = 1%:M.
Proof. by move=> n0; have := sn_trivialP C n%:Z; rewrite (_ : 1 <= n%:Z) //; lia. Qed.
Theorem C53_trivial_none (n : int) : n <= 0 -> sn_trivial C n = None.
Proof. by move=> h; have := sn_trivialP C n; rewrite (_ : (1 <= n) = false) //; lia. Qed.

(** create_trivial gives Sn_trivial. *)
Theorem C53_create_trivial (n d : nat) r : is_rep (Sn_theory C n) d r -> (0 < n)%N ->
  exists r', [/\ sn_create_trivial r = Ok r', is_rep (Sn_theory C n) 1 r' &
    forall w, word (mx3 1 1 (rH r')) w = 1%:M].
Proof.
move=> hr n0; rewrite /sn_create_trivial /len0 (ir_sH hr); eexists; split; first by [].
  split=> //=; [exact: ir_sA hr|split=> //= u v _ _].
  have hw w : word (mx3 1 1 (ones [:: sn_gens n; 1; 1]%N)) w = 1%:M :> 'M[C]_1.
    by elim: w => //= b w ->; rewrite mulmx1; apply/matrixP => i j; rewrite !mxE !ord1.
  by rewrite !hw.
by elim=> //= b w ->; rewrite mulmx1; apply/matrixP => i j; rewrite !mxE !ord1.
Qed.

(** The relations of the transposition t and the cycle c: t^2 = c^n = (t c)^(n-1) = 1, in
    every representation (so in the three above). *)
Theorem C53_relations (n d : nat) (X H : nat -> 'M[C]_d) : (2 < n)%N -> is_mrep (Sn_theory C n) X H ->
  [/\ H 0%N *m H 0%N = 1%:M, iter n (mulmx (H 1%N)) 1%:M = 1%:M &
      iter n.-1 (mulmx (H 0%N *m H 1%N)) 1%:M = 1%:M].
Proof.
move=> n2 hm; have g2 : sn_gens n = 2%N by case: n n2 {hm} => [|[|[|]]].
have W u : all (fun b => b < 2)%N u -> (forall k, (k < n)%N -> weval n u k = k) -> word H u = 1%:M.
  by move=> hu hk; apply: (mr_rel hm (v := [::]) hk); rewrite cats0 /= g2.
split.
- by have := W [:: 0; 0]%N isT; rewrite /= mulmx1; apply=> k _; exact: weval_tr2.
- rewrite -[RHS](W (nseq n 1%N)); first by elim: (n) => //= m ->.
    by rewrite all_nseq orbT.
  by move=> k; exact: weval_cyn.
- rewrite -[RHS](W (flatten (nseq n.-1 [:: 0; 1]%N))).
  + by elim: (n.-1) => //= m ->; rewrite mulmxA.
  + by elim: (n.-1).
  + by move=> k hk; apply: weval_trcy => //; exact: ltn_trans n2.
Qed.

(** _permutation_matrix p: column k is e_(p_k); the matrices multiply like the permutations. *)
Theorem C53_permutation_matrix p : all (fun i => i < size p)%N p ->
  exists M : nd, [/\ permutation_matrix C p = Ok M, shape M = [:: size p; size p] &
    forall i k, (k < size p)%N -> get M [:: i; k] = (i == nth 0%N p k)%:R].
Proof. exact: permutation_matrixP. Qed.
Theorem C53_permutation_matrix_raises p i : i \in p -> (size p <= i)%N -> permutation_matrix C p = Err IndexError.
Proof.
move=> hi hs; rewrite /permutation_matrix; case: ifP => // /negbFE /allP /(_ _ hi).
by rewrite ltnNge hs.
Qed.
Theorem C53_permutation_mul n (p q : seq nat) : is_perm p -> is_perm q -> size p = n -> size q = n ->
  exists s P Q S, [/\ compose p q = Ok s, permutation_matrix C p = Ok P, permutation_matrix C q = Ok Q,
    permutation_matrix C s = Ok S & mx2 n n S = mx2 n n P *m mx2 n n Q].
Proof.
move=> hp hq sp sq; have [s ->] := is_permP hp sp; have [t ->] := is_permP hq sq.
have [P [eP _ mP]] := permutation_matrix_pseq C s.
have [Q [eQ _ mQ]] := permutation_matrix_pseq C t.
have [S [eS _ mS]] := permutation_matrix_pseq C (t * s)%g.
exists (pseq (t * s)%g), P, Q, S; split=> //; first exact: compose_pseq.
by rewrite mP mQ mS -perm_mxM invMg.
Qed.
Theorem C53_transposition n i j : (i < n)%N -> (j < n)%N ->
  exists M : nd, [/\ transposition_matrix C n i j = Ok M, shape M = [:: n; n] &
    forall a k, get M [:: a; k] = (a == if k == i then j else if k == j then i else k)%:R].
Proof. exact: transposition_matrixP. Qed.
Theorem C53_transposition_raises n i j : (n <= i)%N || (n <= j)%N ->
  transposition_matrix C n i j = Err AssertionError.
Proof.
rewrite /transposition_matrix; case: (ltnP i n) => hi //=.
by move=> hj; rewrite ltnNge hj.
Qed.

(** ** C54: the regular representation *)
Theorem C54_entries n t : (forall i j, (i < n)%N -> (j < n)%N -> (t i j < n)%N) ->
  exists D : nd, [/\ regular_representation C n n t = Ok D, shape D = [:: n; n; n] &
    forall g x h, (g < n)%N -> (h < n)%N -> get D [:: g; x; h] = (x == t g h)%:R].
Proof. exact: regularP. Qed.
Theorem C54_regular n e t : group_table n e t -> exists D : nd, [/\ regular_representation C n n t = Ok D,
  forall g h, (g < n)%N -> (h < n)%N -> mx3 n n D g *m mx3 n n D h = mx3 n n D (t g h),
  mx3 n n D e = 1%:M,
  forall g, (g < n)%N -> is_perm_mx (mx3 n n D g) /\ \tr (mx3 n n D g) = if g == e then n%:R else 0 &
  forall g h, (g < n)%N -> (h < n)%N -> mx3 n n D g = mx3 n n D h -> g = h].
Proof.
move=> gt; have [D [eD _ _]] := regularP C (gt_closed gt); exists D; split=> //.
- by move=> g h hg hh; rewrite (reg_mul gt eD).
- exact: (reg_1 gt eD).
- by move=> g hg; split; [exact: (reg_perm gt eD hg) | rewrite (reg_trace gt eD)].
- exact: (reg_faithful gt eD).
Qed.
(** Every finite group has such a table; the elements are numbered by num. *)
Theorem C54_group (gT : finGroupType) : exists D : nd,
  [/\ regular_representation C #|gT| #|gT| (@table gT) = Ok D,
  forall x y : gT, mx3 #|gT| #|gT| D (num x) *m mx3 #|gT| #|gT| D (num y) = mx3 #|gT| #|gT| D (num (x * y)%g),
  mx3 #|gT| #|gT| D (num (1 : gT)%g) = 1%:M &
  forall x y : gT, mx3 #|gT| #|gT| D (num x) = mx3 #|gT| #|gT| D (num y) -> x = y].
Proof.
have gt := table_group gT; have [D [eD h1 h2 _ h4]] := C54_regular gt; exists D; split=> //.
- by move=> x y; rewrite h1 ?num_lt // table_num.
- by move=> x y /h4 h; apply: num_inj; apply: h; exact: num_lt.
Qed.
Example C54_ex : ~~ abelian [set: 'S_3].
Proof.
apply/negP => /centsP/(_ (tperm ord0 (inord 1)) (in_setT _) (tperm ord0 (inord 2)) (in_setT _)) /permP /(_ ord0).
by rewrite !permM !tpermL tpermD ?tpermD // -?val_eqE /= ?inordK // => /eqP; rewrite -val_eqE /= !inordK.
Qed.
Theorem C54_range n t g h : (g < n)%N -> (h < n)%N -> (n <= t g h)%N ->
  regular_representation C n n t = Err IndexError.
Proof. exact: regular_range. Qed.
Theorem C54_shape n m t : m <> n -> m <> 1%N -> n <> 1%N -> regular_representation C n m t = Err IndexError.
Proof. exact: regular_shape. Qed.
(** A table of shape (n, 1) is broadcast and accepted. *)
Theorem C54_shape_refuted : exists n m t D, m <> n /\ regular_representation C n m t = Ok D.
Proof. by exists 2%N, 1%N, (fun _ _ => 0%N); eexists. Qed.

(** ** C55: unique_with_tol *)
(** It finds the clustering in order of first occurrence, with the means, when there is one;
    otherwise it raises.  It stops after at most n rounds when tol > 0. *)
Theorem C55_unique (a : nd) n sh tol : shape a = n :: sh -> (0 < n)%N -> 0 < tol ->
  forall fuel, (n < fuel)%N ->
  (exists c inv, [/\ unique_with_tol fuel tol a = Ok (c, inv), clustering n (fun i j => edist a i j < tol) inv,
      shape c = nlabels inv :: sh &
      forall q r, (q < nlabels inv)%N -> valid sh r -> get c (q :: r) = mean a inv q r]) \/
  (unique_with_tol fuel tol a = Err ValueError /\ forall inv, ~ clustering n (fun i j => edist a i j < tol) inv).
Proof. by move=> sa n0 ht fuel hf; exact: uwtP sa n0 _ _ hf ht. Qed.
(** The clustering is unique. *)
Theorem C55_clustering_unique (a : nd) n tol inv inv' : 0 < tol ->
  clustering n (fun i j => edist a i j < tol) inv -> clustering n (fun i j => edist a i j < tol) inv' -> inv = inv'.
Proof. by move=> ht; apply: clustering_unique => i _; rewrite edist_refl. Qed.
(** The labels are 0, ..., nlabels - 1 and all occur. *)
Theorem C55_labels n near inv : (0 < n)%N -> clustering n near inv ->
  forall q, (q \in inv) = (q < nlabels inv)%N.
Proof. exact: clustering_labels. Qed.
(** Equal elements get the same label. *)
Theorem C55_equal (a : nd) n tol inv : clustering n (fun i j => edist a i j < tol) inv ->
  forall i j, (i < n)%N -> (j < n)%N ->
  (forall r, valid (behead (shape a)) r -> get a (i :: r) = get a (j :: r)) -> nth 0%N inv i = nth 0%N inv j.
Proof.
move=> hinv i j hi hj hij.
have mi : nth 0%N inv i \in inv by rewrite mem_nth ?(cl_size hinv).
apply/esym/eqP; rewrite (cl_near hinv) //.
have <- : edist a (index (nth 0%N inv i) inv) i = edist a (index (nth 0%N inv i) inv) j.
  rewrite /edist; congr sqrtC; apply: eq_big_seq => r; rewrite mem_all_idx => hr.
  by rewrite hij.
by rewrite -(cl_near hinv) // eqxx.
Qed.
Example C55_ex : clustering 4 (fun i j => i %% 2 == j %% 2)%N [:: 0; 1; 0; 1]%N.
Proof.
split=> //.
- by move=> p q; rewrite !inE => /or4P[] /eqP -> //; case: p => [|p].
- by move=> q [|[|[|[|j]]]]; rewrite // !inE => /or4P[] /eqP -> //.
Qed.
(** 0 - 1 - 2 with 0 and 2 far apart: the clusters are not distinct. *)
Example C55_ex_raises : uwt_loop 4 (fun i j => (i <= j.+1) && (j <= i.+1))%N (nseq 3 None) 0 = Err ValueError.
Proof. by []. Qed.
(** For tol <= 0 the loop never ends; empty and scalar arrays raise. *)
Theorem C55_diverges (a : nd) n sh tol : shape a = n :: sh -> (0 < n)%N -> tol <= 0 ->
  forall fuel, unique_with_tol fuel tol a = Err OutOfFuel.
Proof. by move=> sa n0 ht fuel; exact: uwt_diverges sa n0 _ _ ht. Qed.
Theorem C55_empty fuel tol (a : nd) sh : shape a = 0%N :: sh -> unique_with_tol fuel tol a = Err ValueError.
Proof. exact: uwt_empty. Qed.
Theorem C55_scalar fuel tol (a : nd) : shape a = [::] -> unique_with_tol fuel tol a = Err AssertionError.
Proof. exact: uwt_scalar. Qed.

(** A clustering exists when nearness is an equivalence relation. *)
Theorem C55_exists (a : nd) n sh tol : shape a = n :: sh -> (0 < n)%N -> 0 < tol ->
  (forall i j k, (i < n)%N -> (j < n)%N -> (k < n)%N ->
    edist a i j < tol -> edist a i k < tol -> edist a j k < tol) ->
  exists c inv, unique_with_tol n.+1 tol a = Ok (c, inv) /\
    forall i j, (i < n)%N -> (j < n)%N -> (nth 0%N inv i == nth 0%N inv j) = (edist a i j < tol).
Proof.
move=> sa n0 ht he.
have hr i : (i < n)%N -> edist a i i < tol by rewrite edist_refl.
have [[c [inv [e hc _ _]]]|[_ hno]] := uwtP sa n0 (ltnSn n) ht.
  by exists c, inv; split=> //; exact: clustering_equiv hc.
have [|[inv [_ hinv]]|[hl _]] := @loopP n (fun i j => edist a i j < tol) n.+1 (ltnSn n).
- exact: hr.
- by case: (hno inv).
- by case: (loop_equiv hr he (inv_state0 _ _) hl).
Qed.

(** eigenspaces groups the columns of vec by the clusters of the eigenvalues. *)
Theorem C55_eigenspaces eps (val vec : nd) n d : shape val = [:: n] -> shape vec = [:: d; n] ->
  (0 < n)%N -> 0 < eps -> forall fuel, (n < fuel)%N ->
  (exists inv s, [/\ clustering n (fun i j => edist val i j < eps) inv,
     eigenspaces fuel eps val vec = Ok s, size s = nlabels inv &
     forall q, (q < nlabels inv)%N -> exists v W, [/\ nth (val, vec) s q = (v, W),
       shape v = [::], get v [::] = mean val inv q [::],
       shape W = [:: d; count_mem q inv] &
       forall x y, get W [:: x; y] = get vec [:: x; nth 0%N [seq j <- iota 0 n | nth 0%N inv j == q] y]]]) \/
  (eigenspaces fuel eps val vec = Err ValueError /\ forall inv, ~ clustering n (fun i j => edist val i j < eps) inv).
Proof. by move=> sv sw n0 he fuel hf; exact: eigenspacesP. Qed.
End Props.
