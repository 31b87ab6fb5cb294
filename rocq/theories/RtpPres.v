(** RtpPres: a property of columns that is kept by the operations of
    _reduced_tensor_product_basis (Rtp.v) holds of its result. *)
From Coq Require Import ZArith String Ascii List Permutation.
From mathcomp Require Import all_ssreflect all_algebra.
From mathcomp Require Import zify.
From Verif Require Import Base Nd NdProofs Reps Sl2c LinAlg Perm RedPerm Rtp RtpArr RtpLoop.

Set Implicit Arguments.
Unset Strict Implicit.
Unset Printing Implicit Defensive.

Import GRing.Theory Num.Theory.
Local Open Scope ring_scope.

(** * Masked shapes *)
Lemma size_masked f dims : size (masked f dims) = size dims.
Proof. by rewrite size_map size_iota. Qed.
Lemma nth_masked f dims i : (i < size dims)%N -> nth 0%N (masked f dims) i = if i \in f then nth 0%N dims i else 1%N.
Proof. by move=> h; rewrite (nth_map 0%N) ?size_iota // nth_iota. Qed.
Lemma masked_all dims : masked (iota 0 (size dims)) dims = dims.
Proof.
apply: (@eq_from_nth _ 0%N); rewrite size_masked // => i hi.
by rewrite nth_masked // mem_iota add0n hi.
Qed.
Lemma masked_eq f g dims : f =i g -> masked f dims = masked g dims.
Proof. by move=> e; apply: eq_map => i; rewrite e. Qed.

Lemma bshape_rev_same (s t u : seq nat) : size s = size u -> size t = size u ->
  (forall i, (i < size u)%N -> [/\ (nth 0%N s i == nth 0%N t i) || (nth 0%N s i == 1%N) || (nth 0%N t i == 1%N) &
     nth 0%N u i = if nth 0%N s i == 1%N then nth 0%N t i else nth 0%N s i]) -> bshape_rev s t = Some u.
Proof.
elim: u s t => [|d u IH] [|a s] [|b t] //= [es] [et] h.
have [h1 h2] := h 0%N isT; rewrite /= in h1 h2; rewrite h1 (IH s t) //= ?h2 // => i hi.
exact: (h i.+1).
Qed.
Lemma bshape_masked fa fb dims : bshape (masked fa dims) (masked fb dims) = Ok (masked (fset_union fa fb) dims).
Proof.
rewrite /bshape (@bshape_rev_same _ _ (rev (masked (fset_union fa fb) dims))); first by rewrite revK.
- by rewrite !size_rev !size_masked.
- by rewrite !size_rev !size_masked.
move=> i; rewrite size_rev size_masked => hi; rewrite !nth_rev ?size_masked // !nth_masked ?mem_fset_union; try lia.
set k := (size dims - i.+1)%N; case: (k \in fa); case: (k \in fb) => /=; rewrite ?eqxx ?orbT //=; split=> //.
  by case: eqP.
by case: eqP => // ->.
Qed.
(** The indices read by broadcasting. *)
Lemma bidxE sh idx : size idx = size sh ->
  bidx sh idx = [seq (if p.1 == 1%N then 0%N else p.2) | p <- zip sh idx].
Proof. by move=> e; rewrite /bidx e subnn drop0. Qed.
Lemma size_bidx sh idx : size idx = size sh -> size (bidx sh idx) = size sh.
Proof. by move=> e; rewrite bidxE // size_map size_zip e minnn. Qed.
Lemma nth_bidx sh idx i : size idx = size sh -> (i < size sh)%N ->
  nth 0%N (bidx sh idx) i = if nth 0%N sh i == 1%N then 0%N else nth 0%N idx i.
Proof.
move=> e h; rewrite bidxE // (nth_map (0%N, 0%N)) ?size_zip ?e ?minnn // nth_zip //.
Qed.
Lemma valid_nth sh idx : valid sh idx <-> size idx = size sh /\ forall i, (i < size sh)%N -> (nth 0%N idx i < nth 0%N sh i)%N.
Proof.
rewrite /valid; split=> [/andP[/eqP e]|[e h]].
  rewrite all2E e eqxx /= => /allP h; split=> // i hi; apply: (h (_, _)).
  by rewrite -nth_zip // mem_nth // size_zip e minnn.
rewrite e eqxx /= all2E e eqxx /=; apply/allP => -[a b] /(nthP (0%N, 0%N))[i]; rewrite size_zip e minnn => hi.
by rewrite nth_zip // => -[<- <-] /=; apply: h.
Qed.
Lemma valid_bidx f g dims idx : {subset f <= g} -> valid (masked g dims) idx -> valid (masked f dims) (bidx (masked f dims) idx).
Proof.
move=> sub /valid_nth[e h]; rewrite size_masked in e h.
have e' : size idx = size (masked f dims) by rewrite size_masked.
apply/valid_nth; split; rewrite ?size_bidx // size_masked => i hi; rewrite nth_bidx ?size_masked // nth_masked //.
have := h i hi; rewrite nth_masked //; case: (boolP (i \in f)) => [hf|//].
by rewrite (sub _ hf); case: eqP => [->|].
Qed.

Section Pres.
Variable C : numClosedFieldType.
Notation nd := (nd C).
Variable L : eqType.
Variable lt : rel L.
Variable dim : L -> nat.
Variable mulL : L -> L -> res (seq L).
Variable cgL : L -> L -> L -> res nd.
Variable rnd : nd -> nd.
Variable eigh : nd -> res (nd * nd).
Variable eps : C.
Variable ford : seq nat -> seq nat.
Hypothesis ford_perm : forall f, perm_eq (ford f) f.
Notation mi := (nat * L)%type.
Notation blk := (mi * nd)%type.
Notation irrarr := (irrarr C L).
Notation rrep := (seq mi * option nd)%type.
Notation col := (L * (seq nat -> nat -> C))%type.
Notation dims irr := (map (rdim dim) irr).

(** The matrix of get_initial_basis. *)
Definition init_q (r : rrep) : res nd :=
  if r.2 is Some Q then do Qi <- np_inv Q; Ok (transpose2 Qi) else Ok (eye (rdim dim r)).

Variable Pc : seq rrep -> seq nat -> L -> (seq nat -> nat -> C) -> Prop.
Hypothesis Pc_ext : forall irr f ir g g',
  (forall idx k, valid (masked f (dims irr)) idx -> (k < dim ir)%N -> g idx k = g' idx k) ->
  Pc irr f ir g -> Pc irr f ir g'.
(** A property of the coefficients of the linear combinations, and of the permutation bases. *)
Variable Ac : seq rrep -> seq nat -> C -> Prop.
Variable Pp : nd -> Prop.
Hypothesis Pp_sub : forall (irr : seq rrep) f G p, subgroup_perm C ford f G (dims irr) = Ok p -> Pp p.
Hypothesis Ac_bi : forall (irr : seq rrep) f pb perm m ir x R0 R P P2, Pp pb -> flat2 pb = Ok perm ->
  wfb dim (masked f (dims irr)) ((m, ir), x) -> (forall u, (u < m)%N -> Pc irr f ir (fun idx k => get x (idx ++ [:: u; k]))) ->
  at_last0 x = Ok R0 -> (0 < m)%N -> reshape R0 [:: (nprod (shape R0) %/ m)%N; m] = Ok R ->
  basis_intersection rnd eigh eps (transpose2 R) (perm_opt perm (transpose2 R)) = Ok (P, P2) ->
  forall c v w, shape P = [:: v; m] -> (c < v)%N -> (w < m)%N -> Ac irr f (get P [:: c; w]).
Hypothesis Pc_lin : forall irr f ir n (a : 'I_n -> C) g, (forall w, Ac irr f (a w)) -> (forall w, Pc irr f ir (g w)) ->
  Pc irr f ir (fun idx k => \sum_(w < n) a w * g w idx k).
Hypothesis Pc_init : forall irr i r q s1 m ir s2 u, (i < size irr)%N -> nth ([::], None) irr i = r -> init_q r = Ok q ->
  shape q = [:: rdim dim r; rdim dim r] ->
  r.1 = s1 ++ (m, ir) :: s2 -> (u < m)%N ->
  Pc irr [:: i] ir (fun idx k => get q [:: nth 0%N idx i; (sumn [seq (p.1 * dim p.2)%N | p <- s1] + u * dim ir + k)%N]).
Hypothesis Pc_prod : forall irr fa fb ir1 ir2 irs ir cg z w g1 g2, uniq (fa ++ fb) -> all (fun i => (i < size irr)%N) (fa ++ fb) ->
  mulL ir1 ir2 = Ok irs -> ir \in irs -> cgL ir1 ir2 ir = Ok cg -> shape cg = [:: z; dim ir1; dim ir2; dim ir] -> (w < z)%N ->
  Pc irr fa ir1 g1 -> Pc irr fb ir2 g2 ->
  Pc irr (fset_union fa fb) ir (fun idx k => \sum_(i < dim ir1) \sum_(j < dim ir2)
     g1 (bidx (masked fa (dims irr)) idx) i * g2 (bidx (masked fb (dims irr)) idx) j * get cg [:: w; i : nat; j : nat; k]).
Hypothesis Pc_sub : forall irr f sub ir g, pick_all irr (ford f) = Ok sub -> sorted ltn f -> all (fun i => (i < size irr)%N) f ->
  Pc sub (iota 0 (size sub)) ir g ->
  Pc irr f ir (fun idx k => g (unravel (dims sub) (ravel (masked f (dims irr)) idx)) k).

Definition Pcs irr f (cs : seq col) : Prop := List.Forall (fun c => Pc irr f c.1 c.2) cs.
Definition Inv irr f (b : irrarr) : Prop :=
  exists l, [/\ b = mk l, wf dim (masked f (dims irr)) l & Pcs irr f (cols l)].

Lemma Pcs_ceqs irr f cs cs' : ceqs (masked f (dims irr)) cs cs' -> Pcs irr f cs -> Pcs irr f cs'.
Proof.
elim=> [|c c' s t [h1 h2] _ IH] // h; constructor.
  rewrite -h1; apply: Pc_ext (List.Forall_inv h) => idx k v _; exact: h2 (valid_size v).
exact: IH (List.Forall_inv_tail h).
Qed.
Lemma Inv_sorted irr f b b' : Inv irr f b -> ia_sorted lt dim b = Ok b' -> Inv irr f b'.
Proof.
case=> l [-> w p]; rewrite (ia_sortedE lt w) => -[<-]; exists (sortb lt l).
have pm := Permutation_sym (sortb_perm lt l).
split=> //; [exact: wf_perm pm w | exact: Permutation_Forall' (cols_perm pm) p].
Qed.
Lemma Inv_simplify irr f b b' : Inv irr f b -> ia_simplify dim b = Ok b' -> Inv irr f b'.
Proof.
case=> l [-> w p]; have [l' -> [w' c _]] := simplifyP w; case=> <-; exists l'; split=> //.
exact: Pcs_ceqs (ceqs_sym c) p.
Qed.
Lemma Inv_ss irr f b b' : Inv irr f b -> (do b <- ia_sorted lt dim b; ia_simplify dim b) = Ok b' -> Inv irr f b'.
Proof. by move=> h; case e: (ia_sorted _ _ _) => [c|] //=; apply: Inv_simplify; apply: Inv_sorted e. Qed.

Lemma zero_Pc irr f ir : Pc irr f ir (fun _ _ => 0).
Proof.
have := @Pc_lin irr f ir 0 (fun=> 0) (fun _ _ _ => 0); rewrite /=; move=> /(_ (fun w : 'I_0 => match w with Ordinal _ h => False_ind _ (Bool.diff_false_true h) end)) h.
apply: Pc_ext (h _) => [idx k _ _|]; last by case.
by rewrite big_ord0.
Qed.
(** A block satisfies Pc when its columns do. *)
Lemma Pcs_bcols irr f (p : blk) : (forall u, (u < p.1.1)%N -> Pc irr f p.1.2 (fun idx k => get p.2 (idx ++ [:: u; k]))) ->
  Pcs irr f (bcols p).
Proof.
move=> h; rewrite /bcols; have : all (fun u => u < p.1.1)%N (iota 0 p.1.1) by apply/allP => u; rewrite mem_iota add0n.
elim: (iota _ _) => [|u us IH] /=; first by constructor.
by case/andP => hu /IH; constructor=> //; apply: h.
Qed.
Lemma bcols_Pcs irr f (p : blk) u : Pcs irr f (bcols p) -> (u < p.1.1)%N ->
  Pc irr f p.1.2 (fun idx k => get p.2 (idx ++ [:: u; k])).
Proof.
rewrite /bcols => h hu; have ui : u \in iota 0 p.1.1 by rewrite mem_iota add0n.
by elim: (iota _ _) ui h => //= v us IH; rewrite inE => /orP[/eqP <- h|m h]; [exact: List.Forall_inv h | exact: IH m (List.Forall_inv_tail h)].
Qed.
Lemma Pcs_cols irr f l : Pcs irr f (cols l) <-> List.Forall (fun p => Pcs irr f (bcols p)) l.
Proof.
elim: l => [|p l IH]; first by split=> _; constructor.
rewrite -cat1s cols_cat {1}/cols /= cats0; split=> [h|h].
  by move/List.Forall_app: h => [h1 h2]; constructor=> //; apply/IH.
apply/List.Forall_app; split; [exact: List.Forall_inv h | apply/IH; exact: List.Forall_inv_tail h].
Qed.

(** ** Products *)
Lemma ravel4 ld idx w m1 m2 d w' u v k z c : valid ld idx -> z = (w * m1 * m2)%N ->
  c = ((w' * m1 + u) * m2 + v)%N ->
  ravel (ld ++ [:: z; d]) (idx ++ [:: c; k]) = ravel (ld ++ [:: w; m1; m2; d]) (idx ++ [:: w'; u; v; k]).
Proof.
move=> vi -> ->; rewrite !ravel_cat ?(valid_size vi) //= !muln1 !addn0.
congr (_ + _)%N; [by rewrite !mulnA | nia].
Qed.
Lemma prod_oneP irr fa fb (p1 p2 : blk) irs ir q : uniq (fa ++ fb) -> all (fun i => (i < size irr)%N) (fa ++ fb) ->
  wfb dim (masked fa (dims irr)) p1 -> wfb dim (masked fb (dims irr)) p2 ->
  Pcs irr fa (bcols p1) -> Pcs irr fb (bcols p2) ->
  mulL p1.1.2 p2.1.2 = Ok irs -> ir \in irs -> prod_one dim cgL p1 p2 ir = Ok q ->
  [/\ wfb dim (masked (fset_union fa fb) (dims irr)) q, Pcs irr (fset_union fa fb) (bcols q) & q.1.2 = ir].
Proof.
move=> un al w1 w2 P1 P2 mu iri; rewrite /prod_one; case ecg: (cgL _ _ _) => [cg|] //=.
case: p1 p2 w1 w2 P1 P2 mu ecg => -[m1 ir1] x1 [[m2 ir2] x2] /= w1 w2 P1 P2 mu ecg.
rewrite /wfb /= in w1 w2.
have n2 (s : seq nat) x y : nth 0%N (s ++ [:: x; y]) (size s + 2 - 2) = x by rewrite addnK nth_cat ltnn subnn.
have n1 (s : seq nat) x y : nth 0%N (s ++ [:: x; y]) (size s + 2 - 1) = y.
  by rewrite addn2 subn1 nth_cat /= ltnNge leqnSn /= subSnn.
have [l1 _] : lead x1 = masked fa (dims irr) /\ True by split=> //; rewrite /lead w1 size_cat addnK take_size_cat.
have [l2 _] : lead x2 = masked fb (dims irr) /\ True by split=> //; rewrite /lead w2 size_cat addnK take_size_cat.
rewrite /einsum_prod l1 l2 w1 w2 !size_cat /= !n2 !n1 !(ltnNge _ 2) !leq_addl /=.
case ecs: (shape cg) => [|z [|c1 [|c2 [|kk [|]]]]] //; case: ifP => // /andP[/eqP e1 /eqP e2].
rewrite bshape_masked; cbn [rbind]; set ld := masked (fset_union fa fb) (dims irr).
set x := Nd _ _; have lz : len cg = z by rewrite /len ecs.
have -> : take (size (shape x) - 4) (shape x) = ld by rewrite /= size_cat addnK take_size_cat.
case er: (reshape _ _) => [y|] //= [<-]; have [sy np] := reshape_shape er.
split=> //; apply: Pcs_bcols => c /= hc; rewrite lz in hc er sy np.
have m10 : (0 < m1)%N by case: (m1) hc => //; rewrite muln0 mul0n.
have m20 : (0 < m2)%N by case: (m2) hc => //; rewrite muln0.
set w := (c %/ m2 %/ m1)%N; set u := (c %/ m2 %% m1)%N; set v := (c %% m2)%N.
have hw : (w < z)%N by rewrite /w ltn_divLR // ltn_divLR // mulnAC (mulnC z) mulnC mulnA mulnAC mulnC -mulnA mulnC.
have hu : (u < m1)%N by rewrite ltn_pmod.
have hv : (v < m2)%N by rewrite ltn_pmod.
have ec : c = ((w * m1 + u) * m2 + v)%N by rewrite -divn_eq -divn_eq.
case: (kk =P dim ir) => [ek|nk]; last first.
  apply: Pc_ext (zero_Pc _ _ _) => idx k vi hk; case: nk.
  have : (nprod ld * (z * m1 * m2 * dim ir) = nprod ld * (z * m1 * m2 * kk))%N.
    move: np; rewrite /= !nprod_cat /= !muln1 => ->; by rewrite !mulnA.
  have n0 : (0 < nprod ld)%N by apply: leq_ltn_trans (ravel_lt vi).
  move/eqP; rewrite eqn_pmul2l // eqn_pmul2l ?(leq_ltn_trans _ hc) // => /eqP //.
have hcs : shape cg = [:: z; dim ir1; dim ir2; dim ir] by rewrite ecs e1 e2 ek.
have := Pc_prod un al mu iri ecg hcs hw (bcols_Pcs P1 hu) (bcols_Pcs P2 hv); apply: Pc_ext => idx k vi hk /=.
rewrite (@reshape_eq _ x y _ _ (idx ++ [:: w; u; v; k]) er).
- by rewrite /= -/ld take_size_cat ?(valid_size vi) // drop_size_cat ?(valid_size vi).
- by rewrite /= valid_cat ?(valid_size vi) // vi !valid_cons valid_nil hw hu hv ek hk.
- by rewrite [shape x]/= ek; apply: ravel4.
Qed.

Lemma Forall_flatten (T : Type) (P : T -> Prop) ss : List.Forall (List.Forall P) ss -> List.Forall P (flatten ss).
Proof. by elim=> [|s ss' h _ IH] /=; [constructor | apply/List.Forall_app]. Qed.
Lemma mapR_Forall (S T : Type) (P : S -> Prop) (Q : T -> Prop) (f : S -> res T) s t : mapR f s = Ok t ->
  List.Forall P s -> (forall x y, P x -> f x = Ok y -> Q y) -> List.Forall Q t.
Proof.
move=> /mapR_Forall2 h + hq; elim: h => [|x y s' t' e _ IH] hp; constructor.
  exact: hq (List.Forall_inv hp) e.
exact: IH (List.Forall_inv_tail hp).
Qed.
Lemma mapR_mem (S : eqType) (T : Type) (f : S -> res T) (Q : T -> Prop) s t : mapR f s = Ok t ->
  (forall x y, x \in s -> f x = Ok y -> Q y) -> List.Forall Q t.
Proof.
move=> /mapR_Forall2 h hq; elim: h hq => [|x y s' t' e _ IH] hq; constructor.
  by apply: hq e; rewrite inE eqxx.
by apply: IH => x' y' m; apply: hq; rewrite inE m orbT.
Qed.
Lemma Forall_pairs (S T : Type) (P : S -> Prop) (Q : T -> Prop) s t : List.Forall P s -> List.Forall Q t ->
  List.Forall (fun xy => P xy.1 /\ Q xy.2) [seq (x, y) | x <- s, y <- t].
Proof.
move=> hs ht; apply: Forall_flatten; elim: hs => [|x s' px _ IH] /=; constructor=> //.
by elim: ht => [|y t' qy _ IH'] /=; constructor.
Qed.
Lemma Forall_and (T : Type) (P Q : T -> Prop) s : List.Forall P s -> List.Forall Q s -> List.Forall (fun x => P x /\ Q x) s.
Proof. by elim=> [|x s' h _ IH] hq; constructor; [split=> //; apply: List.Forall_inv hq | apply: IH (List.Forall_inv_tail hq)]. Qed.

(** A list of blocks with the same leading shape. *)
Lemma Inv_new irr f (l : seq blk) b :
  List.Forall (fun p => wfb dim (masked f (dims irr)) p /\ Pcs irr f (bcols p)) l ->
  ia_new dim (map fst l) (map snd l) = Ok b -> Inv irr f b.
Proof.
move=> h /ia_new_inv[-> _ [ld [l0 w]]]; move: l0 w; rewrite -/(blocks (mk l)) blocks_mk => l0 w.
exists l; split=> //; first by split=> //; apply: List.Forall_impl h => p [].
by apply/Pcs_cols; apply: List.Forall_impl h => p [].
Qed.
Lemma Inv_product irr fa fb b1 b2 b : uniq (fa ++ fb) -> all (fun i => (i < size irr)%N) (fa ++ fb) ->
  Inv irr fa b1 -> Inv irr fb b2 -> reduce_basis_product lt dim mulL cgL b1 b2 = Ok b -> Inv irr (fset_union fa fb) b.
Proof.
move=> un al i1 i2; rewrite /reduce_basis_product.
case e1: (ia_sorted _ _ b1) => [c1|] //=; case e1': (ia_simplify _ c1) => [c1'|] //=.
case e2: (ia_sorted _ _ b2) => [c2|] //=; case e2': (ia_simplify _ c2) => [c2'|] //=.
have [l1 [-> [_ w1] /Pcs_cols p1]] := Inv_simplify (Inv_sorted i1 e1) e1'.
have [l2 [-> [_ w2] /Pcs_cols p2]] := Inv_simplify (Inv_sorted i2 e2) e2'.
rewrite !blocks_mk; case el: (mapR _ _) => [ls|] //=; case en: (ia_new _ _ _) => [c|] //=.
apply: Inv_ss; apply: Inv_new en; apply: Forall_flatten.
apply: (mapR_Forall el (Forall_pairs (Forall_and w1 p1) (Forall_and w2 p2))) => -[q1 q2] t [[/= wq1 pq1] [wq2 pq2]] /=.
case em: (mulL _ _) => [irs|] //= et; apply: (mapR_mem et) => ir q m eq.
by have [h1 h2 _] := prod_oneP un al wq1 wq2 pq1 pq2 em m eq.
Qed.

(** ** The constraint by the permutation basis *)
Lemma Inv_constrain irr f rb pb b : Pp pb -> Inv irr f rb -> constrain dim rnd eigh eps rb pb = Ok b -> Inv irr f b.
Proof.
move=> hpb; case=> l [-> [_ w] /Pcs_cols p]; rewrite /constrain blocks_mk; case: (passert _) => //= _.
case ef: (flat2 _) => [perm|] //=; case el: (mapR _ _) => [ls|] //= en.
apply: Inv_new en; apply: Forall_flatten.
apply: (mapR_Forall el (Forall_and w p)) => -[[m ir] x] t [/= wx px].
rewrite /constrain_one /=; case ea: (at_last0 _) => [R0|] //=; case: (posnP m) => [_|m0] //=.
case er: (reshape _ _) => [R|] //=; case eb: (basis_intersection _ _ _ _ _) => [[P P2]|] //=.
case: ifP => [_|_ [<-]]; last by constructor.
rewrite /wfb /= in wx; rewrite /einsum_P; case es: (shape P) => [|v [|u [|]]] //=.
have n2 (s : seq nat) a c : nth 0%N (s ++ [:: a; c]) (size s + 2 - 2) = a by rewrite addnK nth_cat ltnn subnn.
have n1 (s : seq nat) a c : nth 0%N (s ++ [:: a; c]) (size s + 2 - 1) = c.
  by rewrite addn2 subn1 nth_cat /= ltnNge leqnSn /= subSnn.
have lx : lead x = masked f (dims irr) by rewrite /lead wx size_cat addnK take_size_cat.
rewrite lx wx size_cat /= n2 n1 ltnNge leq_addl /=; case: eqP => //= e -[<-]; constructor; last by constructor.
split; first by rewrite /wfb /= /len es.
apply: Pcs_bcols => c /=; rewrite /len es /= => hc.
have px' (a : 'I_u) := @bcols_Pcs _ _ _ a px (eq_ind_r (fun n => (a < n)%N) (ltn_ord a) e).
have hA (a : 'I_u) : Ac irr f (get P [:: c; a : nat]).
  have es' : shape P = [:: v; m] by rewrite es -e.
  have ha : (a < m)%N by rewrite e.
  exact: (Ac_bi hpb ef wx (fun a' ha' => bcols_Pcs px ha') ea m0 er eb es' hc ha).
apply: Pc_ext (Pc_lin hA px') => idx k vi hk /=.
have sz : size idx = size (masked f (dims irr)) := valid_size vi.
by rewrite -sz n2 n1; apply: eq_bigr => a _; rewrite addnK take_size_cat.
Qed.

(** ** The initial bases *)
Lemma masked1 n i (ds : seq nat) : size ds = n -> (i < n)%N ->
  masked [:: i] ds = nseq i 1%N ++ nth 0%N ds i :: nseq (n - i - 1) 1%N.
Proof.
move=> e h; apply: (@eq_from_nth _ 0%N).
  by rewrite size_masked size_cat /= !size_nseq; lia.
move=> j; rewrite size_masked => hj; rewrite nth_masked // inE nth_cat size_nseq.
case: ltnP => h'; first by rewrite nth_nseq h'; case: eqP => // ej; lia.
case: eqP => [->|ne]; first by rewrite subnn.
have -> : (j - i)%N = (j - i.+1).+1 by lia.
rewrite /= nth_nseq; case: ifP => //; lia.
Qed.
Lemma nprod_nseq1 n : nprod (nseq n 1%N) = 1%N.
Proof. by elim: n => //= n ->. Qed.
Lemma ravel_nseq1 n idx : valid (nseq n 1%N) idx -> ravel (nseq n 1%N) idx = 0%N.
Proof. by move=> v; have := ravel_lt v; rewrite nprod_nseq1; case: (ravel _ _). Qed.
Lemma ravel_masked1 n i d idx : valid (nseq i 1%N ++ d :: nseq (n - i - 1) 1%N) idx ->
  ravel (nseq i 1%N ++ d :: nseq (n - i - 1) 1%N) idx = nth 0%N idx i.
Proof.
move=> v; have sz := valid_size v; rewrite size_cat /= !size_nseq in sz.
have si : size (take i idx) = size (nseq i 1%N) by rewrite size_take size_nseq; case: ltnP => //; lia.
have hi : (i < size idx)%N by lia.
move: v; rewrite -{1 2}(cat_take_drop i idx) (drop_nth 0%N hi) valid_cat // ravel_cat // valid_cons.
case/and3P => v1 v2 v3; rewrite ravel_nseq1 // mul0n add0n /= ravel_nseq1 // nprod_nseq1 muln1 addn0 //.
Qed.
Lemma Inv_init irr i b : (i < size irr)%N -> init_basis dim (size irr) i (nth ([::], None) irr i) = Ok b ->
  Inv irr [:: i] b.
Proof.
move=> hi; set r := nth _ _ _; rewrite /init_basis -/(init_q r); case eq: (init_q r) => [q|] //=.
set d := rdim dim r; set ld := nseq i 1%N ++ d :: nseq (size irr - i - 1) 1%N.
have eld : masked [:: i] (dims irr) = ld by rewrite (@masked1 (size irr)) ?size_map // (nth_map ([::], None)).
have -> : (nseq i 1%N ++ d :: nseq (size irr - i - 1) 1%N ++ [:: d])%SEQ = rcons ld d by rewrite /ld -cats1 -catA.
have nld : nprod ld = d by rewrite nprod_cat /= !nprod_nseq1 mul1n muln1.
case ex: (reshape _ _) => [x|] //=; have [sx np] := reshape_shape ex.
have sq : shape q = [:: d; d].
  move: np; rewrite -cats1 nprod_cat nld /= muln1; move: eq; rewrite /init_q; case: (r.2) => [Q|] //=; last by case=> <-.
  rewrite /np_inv; case: (shape Q) => [|a [|b' [|]]] //; case: ifP => //= /andP[/eqP e _] [<-] /=.
  rewrite ?muln1 => h.
  have -> : a = d by nia.
  by [].
have gx idx c : valid ld idx -> (c < d)%N -> get x (rcons idx c) = get q [:: nth 0%N idx i; c].
  move=> vi hc; apply: (reshape_eq ex).
    by rewrite sq valid2 hc andbT; have := ravel_lt vi; rewrite nld ravel_masked1.
  rewrite sq -!cats1 ravel_cat ?(valid_size vi) // ravel_masked1 // ravel2 /= !muln1 addn0 //.
case eb: (init_blocks _ _ _ _) => [xs|] //= en; have [_ sz _] := ia_new_inv en.
have ini : initdims x = ld by rewrite /initdims sx size_rcons /= -cats1 take_size_cat.
have las : lastdim x = d by rewrite /lastdim sx last_rcons.
have gen irs : forall s1 ys, r.1 = s1 ++ irs ->
    init_blocks dim x (sumn [seq (p.1 * dim p.2)%N | p <- s1]) irs = Ok ys -> size irs = size ys /\
    List.Forall (fun p => wfb dim (masked [:: i] (dims irr)) p /\ Pcs irr [:: i] (bcols p)) (zip irs ys).
  elim: irs => [|[m ir] irs IH] s1 ys er /=; first by case=> <-; split=> //; constructor.
  set c0 := sumn _; case ey: (reshape _ _) => [y|] //=; case eys: (init_blocks _ _ _ _) => [ys'|] //= [<-].
  have [sy npy] := reshape_shape ey.
  have er' : r.1 = (s1 ++ [:: (m, ir)]) ++ irs by rewrite -catA.
  have := IH (s1 ++ [:: (m, ir)]) ys' er'; rewrite map_cat sumn_cat /= addn0 => /(_ eys)[-> h]; split=> //.
  constructor=> //; rewrite /wfb /= sy ini eld; split=> //; apply: Pcs_bcols => u /= hu.
  have hd : (c0 + m * dim ir <= d)%N.
    by rewrite /d /rdim er map_cat sumn_cat /= addnA leq_addr.
  apply: Pc_ext (Pc_init hi erefl eq sq er hu) => idx k; rewrite eld => vi hk.
  have hc : (u * dim ir + k < m * dim ir)%N by nia.
  have em : (minn (c0 + m * dim ir) d - minn c0 d = m * dim ir)%N by lia.
  have ec : minn c0 d = c0 by lia.
  rewrite (@reshape_eq _ _ y _ _ (rcons idx (u * dim ir + k)%N) ey) /=.
  - have -> : take (size (rcons idx (u * dim ir + k)%N) - 1) (rcons idx (u * dim ir + k)%N) = idx.
      by rewrite size_rcons subn1 /= -cats1 take_size_cat.
    rewrite last_rcons las ec addnA.
    by rewrite gx //; lia.
  - by rewrite las em ini -!cats1 valid_cat ?(valid_size vi) // vi valid_cons valid_nil hc.
  - by rewrite las em ini -!cats1 !ravel_cat ?(valid_size vi) //= !muln1 !addn0.
have [_ h] := gen r.1 [::] xs erefl eb; apply: (Inv_new h).
by rewrite -/(unzip1 _) -/(unzip2 _) unzip1_zip ?unzip2_zip ?sz.
Qed.

(** ** The reshape of the result of the recursive call *)
Lemma Inv_reshape irr f sub b b' : pick_all irr (ford f) = Ok sub -> sorted ltn f -> all (fun i => (i < size irr)%N) f ->
  Inv sub (iota 0 (size sub)) b -> ia_reshape dim b (masked f (dims irr)) None = Ok b' -> Inv irr f b'.
Proof.
move=> ep so al [l [-> [_ w] /Pcs_cols p]].
rewrite -(size_map (rdim dim)) masked_all in w.
rewrite /ia_reshape -[zip _ _]/(blocks (mk l)) blocks_mk /=; case em: (mapR _ _) => [xs|] //= en.
have [_ sz _] := ia_new_inv en; rewrite size_map in sz.
have {}en : ia_new dim (map fst (zip (map fst l) xs)) (map snd (zip (map fst l) xs)) = Ok b'.
  by rewrite -/(unzip1 _) -/(unzip2 _) unzip1_zip ?unzip2_zip // size_map sz.
apply: Inv_new en; have h2 := mapR_Forall2 em; elim: h2 w p {em sz} => [|q y l' ys e _ IH] w p /=; first by constructor.
constructor; last exact: IH (List.Forall_inv_tail w) (List.Forall_inv_tail p).
have {}w := List.Forall_inv w; have {}p := List.Forall_inv p; rewrite /wfb /= in w *.
have [sy np] := reshape_shape e; split=> //; apply: Pcs_bcols => u /= hu.
have := Pc_sub ep so al (bcols_Pcs p hu); apply: Pc_ext => idx k vi hk.
have q0 : (0 < q.1.1 * dim q.1.2)%N by rewrite muln_gt0 (leq_ltn_trans _ hu) // (leq_ltn_trans _ hk).
have nn : nprod (masked f (dims irr)) = nprod (dims sub).
  by move: np; rewrite w !nprod_cat /= !muln1 => /eqP; rewrite eqn_pmul2r // => /eqP.
have rl : (ravel (masked f (dims irr)) idx < nprod (dims sub))%N by rewrite -nn ravel_lt.
have vu := unravel_valid rl.
apply/esym; apply: (reshape_eq e).
  by rewrite w valid_cat ?(valid_size vu) // vu valid2 hu.
by rewrite w !ravel_cat ?(valid_size vi) ?(valid_size vu) // unravelK.
Qed.

(** ** The loop *)
Local Notation loop := (rtp_loop lt dim mulL cgL rnd eigh eps ford).
Local Notation rtp := (rtp lt dim mulL cgL rnd eigh eps ford).
Lemma part_all n fs f : part n fs -> f \in fs -> all (fun i => (i < n)%N) f.
Proof.
case=> pe _ hf; apply/allP => i hi; have : i \in flatten fs by apply/flattenP; exists f.
by rewrite (perm_mem pe) mem_iota add0n.
Qed.
Lemma sorted_iota f n : sorted ltn f -> perm_eq f (iota 0 n) -> f = iota 0 n.
Proof.
move=> so pe; apply: (sorted_eq leq_trans anti_leq) => //; last exact: iota_sorted.
by move: so; rewrite ltn_sorted_uniq_leq => /andP[].
Qed.
Lemma Inv_loop rec irr G fuel bases b : part (size irr) (map fst bases) ->
  List.Forall (fun fb => Inv irr fb.1 fb.2) bases ->
  (forall s g c, (size s < size irr)%N -> rec s g = Ok c -> Inv s (iota 0 (size s)) c) ->
  loop rec irr G fuel bases = Ok b -> Inv irr (iota 0 (size irr)) b.
Proof.
move=> pt + hrec; elim: fuel bases pt => [|fuel IH] bases // pt hb.
case: (size bases =P 1%N) => [e|e1].
  case: bases e hb {IH pt} => [|[f b1] [|]] //= _ hb; have {hb} /= hb := List.Forall_inv hb.
  by rewrite /passert; case: eqP => //= <-; apply: Inv_ss.
case: (size bases =P 2%N) => [e|e2].
  case: bases e hb pt {IH e1} => [|[fa b1] [|[fb b2] [|]]] //= _ hb [/= pe _].
  have /= h1 := List.Forall_inv hb; have /= h2 := List.Forall_inv (List.Forall_inv_tail hb).
  rewrite cats0 in pe; have un : uniq (fa ++ fb) by rewrite (perm_uniq pe) iota_uniq.
  have al : all (fun i => (i < size irr)%N) (fa ++ fb) by apply/allP => i; rewrite (perm_mem pe) mem_iota add0n.
  have fe : fset_union fa fb = iota 0 (size irr).
    by apply: sorted_iota (fset_union_sorted _ _) _; apply: seq.perm_trans (fset_union_disj un) pe.
  rewrite fe; case ep: (reduce_basis_product _ _ _ _ _ _) => [c|] //=.
  have := Inv_product un al h1 h2 ep; rewrite fe => hc.
  case: ifP => _; first exact: Inv_ss.
  case eS: (subgroup_perm _ _ _ _ _) => [p|] //=; case ec: (constrain _ _ _ _ _ _) => [c'|] //=.
  by apply: Inv_ss; apply: Inv_constrain (Pp_sub eS) _ ec.
rewrite loop_many //=; case: (ltnP 1 (size bases)) => [s3|]; last first.
  case: bases e1 e2 {IH pt hb} => [|b1 [|]] //= _ _ _.
have s3' : (1 < size (map fst bases))%N by rewrite size_map.
have [i [j [-> ij js _]]] := greedyP ford G (dims irr) s3'.
case E: (pick_all _ _) => [sub|] //=.
have [pt' sf] := part_merge pt ij js.
have h : (size sub < size irr)%N.
  rewrite (pick_all_size E) (perm_size (ford_perm _)) sf; apply: part_lt => //; rewrite size_map; lia.
case er: (rec _ _) => [ab|] //=; case es: (ia_reshape _ _ _ _) => [ab'|] //=.
apply: IH; first by rewrite map_fst_merge.
rewrite size_map in js; have P := del2_perm ([::], IrrArr [::] [::]) ij js.
constructor.
  apply: (Inv_reshape E (fset_union_sorted _ _) _ (hrec _ _ _ h er) es).
  by apply: part_all pt' _; rewrite inE eqxx.
exact: List.Forall_inv_tail (List.Forall_inv_tail (Permutation_Forall' P hb)).
Qed.
Lemma Inv_bases irr bases : rtp_bases dim irr = Ok bases -> List.Forall (fun fb => Inv irr fb.1 fb.2) bases.
Proof.
move=> h; apply: (mapR_Forall (P := fun p => (p.1 < size irr)%N /\ nth ([::], None) irr p.1 = p.2) h).
  apply: (@nth_Forall' _ _ (0%N, ([::], None))) => i; rewrite size_zip size_iota minnn => hi.
  by rewrite nth_zip ?size_iota //= nth_iota.
move=> [i r] fb [/= hi <-]; case e: (init_basis _ _ _ _) => [b|] //= [<-] /=; exact: Inv_init e.
Qed.
Lemma Inv_rtp fuel irr G b : rtp fuel irr G = Ok b -> Inv irr (iota 0 (size irr)) b.
Proof.
elim: fuel irr G b => [|fuel IH] irr G b //; rewrite [rtp _ _ _]/= /rtp_body.
case e: (rtp_bases _ _) => [bases|] //; cbn [rbind]; have [pt _] := rtp_bases_part e.
by apply: Inv_loop (Inv_bases e) _ => // s g c _; apply: IH.
Qed.
End Pres.
