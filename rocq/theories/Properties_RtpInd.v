(** Properties_RtpInd: the columns of the basis returned by _reduced_tensor_product_basis are
    linearly independent, so that it is a basis of the symmetric tensors (C73). *)
From Coq Require Import ZArith String Ascii List Permutation.
From mathcomp Require Import all_ssreflect all_algebra.
From mathcomp Require Import zify.
From Verif Require Import Base Nd NdProofs Reps RepOps Reduced Labels LabelProofs Su2 Su2Cg Su2CgProofs Su2CgEq Su2Proofs So3Proofs Su2Irr SoCg SoCgProofs So13Proofs Sl2c LinAlg BiProofs CgGenProofs.
From Verif Require Import Perm RedPerm RedPermBasis RedPermSub Rtp RtpArr RtpLoop RtpPres RtpEqv RtpStab RtpReal RtpSym RtpSymAll RtpTwo RtpCon RtpSpan RtpFull RtpFullCon RtpFullAll RtpDense RtpInd RtpIndAll.
From Verif Require Import Properties_Cg Properties_SoCg Properties_Rtp Properties_RtpInst Properties_RtpSym Properties_RedPerm Properties_RtpSq Properties_RtpFull.

Set Implicit Arguments.
Unset Strict Implicit.
Unset Printing Implicit Defensive.

Import Order.POrderTheory GRing.Theory Num.Theory.
Local Open Scope ring_scope.

(** * Specification *)
Section Spec.
Variable C : numClosedFieldType.
(** No combination of the slices a[..., c], c < D, vanishes but the trivial one. *)
Definition independent (ds : seq nat) (D : nat) (a : nd C) : Prop :=
  forall z : nat -> C, (forall idx, valid ds idx -> \sum_(c < D) z c * get a (rcons idx (c : nat)) = 0) ->
  forall c, (c < D)%N -> z c = 0.
End Spec.

(** The slices as a family of tensors. *)
Section Slices.
Variable C : numClosedFieldType.
Definition slices D (a : nd C) : seq (seq nat -> C) := mkseq (fun c idx => get a (rcons idx c)) D.
Lemma slices_spn ds D a T : in_span ds D a T <-> spn ds (slices D a) T.
Proof.
split=> -[z hz]; exists z => idx v; rewrite hz // ?size_mkseq; by apply: eq_bigr => c _; rewrite nth_mkseq.
Qed.
Lemma slices_ind ds D a : independent ds D a <-> ind ds (slices D a).
Proof.
rewrite /independent /ind size_mkseq; split=> h z hz; apply: h => idx v; have e0 := hz idx v; rewrite -[RHS]e0;
  by apply: eq_bigr => c _; rewrite nth_mkseq.
Qed.
Lemma ind_le ds (gs hs : seq (seq nat -> C)) : ind ds hs -> (forall h, List.In h hs -> spn ds gs h) -> (size hs <= size gs)%N.
Proof.
move=> /ind_emx fh hg; have sub : (emx ds hs <= emx ds gs)%MS.
  apply/row_subP => i; have -> : row i (emx ds hs) = \row_x nth (fun=> 0) hs i (unravel ds x).
    by apply/rowP => x; rewrite !mxE.
  by apply: spn_emx; apply: hg; apply: nth_In.
by have := mxrankS sub; rewrite (eqP fh) => h; apply: leq_trans h (rank_leq_row _).
Qed.
(** The size of an independent family is determined by its span. *)
Lemma dim_uniq ds D a (S : (seq nat -> C) -> Prop) hs : independent ds D a -> (forall T, in_span ds D a T <-> S T) ->
  ind ds hs -> (forall T, spn ds hs T <-> S T) -> D = size hs.
Proof.
move=> /slices_ind ia sa ih sh; apply/eqP; rewrite eqn_leq; apply/andP; split.
  rewrite -[D in (D <= _)%N](size_mkseq (fun c idx => get a (rcons idx c))); apply: ind_le ia _ => g hg.
  by apply/sh/sa/slices_spn; apply: spn_In.
rewrite -[D in (_ <= D)%N](size_mkseq (fun c idx => get a (rcons idx c))); apply: ind_le ih _ => g hg.
by apply/slices_spn/sa/sh; apply: spn_In.
Qed.
End Slices.

Section Main.
Variable C : numClosedFieldType.
Notation nd := (nd C).
Notation id_ := (fun x : nd => x).
Variable L : eqType.
Variable lt : rel L.
Variable dim : L -> nat.
Variable mulL : L -> L -> res (seq L).
Variable cgL : L -> L -> L -> res nd.
Variable eigh : nd -> res (nd * nd).
Variable ford : seq nat -> seq nat.
Notation mi := (nat * L)%type.
Notation rrep := (seq mi * option nd)%type.
Local Notation rtp_out := (rtp_out lt dim mulL cgL id_ eigh).
Hypothesis dim_pos : forall ir, (0 < dim ir)%N.
Hypothesis eighP : eigh_correct_real eigh.
Hypothesis ford_perm : forall f, perm_eq (ford f) f.
Hypothesis ford_id : forall f, sorted ltn f -> ford f = f.
(** The Clebsch-Gordan arrays are real and complete, and the dimensions of the irreps of a
    product add up. *)
Theorem C73_independent fuel (irr : seq rrep) G :
  cg_full dim mulL cgL -> cg_count dim mulL cgL -> cgs dim mulL cgL (cg_real dim) ->
  List.Forall (@real_rep C L) irr -> signed_group (size irr) G -> fixes irr G ->
  small_eps (fun e => forall irs a xs, rtp_out e ford fuel irr G = Ok (irs, a, xs) ->
    independent (map (rdim dim) irr) (total_dim dim irs) a).
Proof.
move=> fu hc hr rl GG fx; have rl' : reals dim irr by apply: List.Forall_impl rl => r; exact: real_repP.
have ok : sub_ok dim irr G by [].
have h := rtp_ind lt dim_pos eighP ford_perm ford_id fu hc hr fuel ok.
apply: ev_imp h => e _ h irs a xs /rtp_out_inv[b [er -> ea]] z hz.
have /has_leadP[l eb w] := C13_covers ford_perm er; rewrite eb in ea; have [sa ga] := array_dims w ea.
have eD : total_dim dim (ia_irreps b) = tdim dim l by rewrite eb /total_dim /= tdim_irreps.
rewrite eD in hz *; have := h _ er; rewrite /Indb masked_dims eb blocks_mk => hi; rewrite -size_ents.
apply: hi => idx v; have e0 := hz idx v; rewrite -[RHS]e0 size_ents.
by apply: eq_bigr => c _; rewrite ga.
Qed.
End Main.

(** The coefficients of a tensor in an independent family are unique. *)
Corollary C73_unique (C : numClosedFieldType) ds D (a : nd C) T (z z' : nat -> C) : independent ds D a ->
  (forall idx, valid ds idx -> T idx = \sum_(c < D) z c * get a (rcons idx (c : nat))) ->
  (forall idx, valid ds idx -> T idx = \sum_(c < D) z' c * get a (rcons idx (c : nat))) ->
  forall c, (c < D)%N -> z c = z' c.
Proof.
move=> h e e' c hc; apply/eqP; rewrite -subr_eq0; apply/eqP; apply: (h (fun c => z c - z' c)) c hc => idx v.
by under eq_bigr do rewrite mulrBl; rewrite sumrB -e // -e' // subrr.
Qed.

(** The sorted indices: a basis of the fully symmetric tensors. *)
Section Sorted.
Variable C : numClosedFieldType.
Variables (n d : nat).
Local Notation ds := (nseq n d.+1).
Local Notation A := [set t : n.-tuple 'I_d.+1 | sorted leq (map val t)].
Definition sorted_fam : seq (seq nat -> C) := [seq (fun idx => (sort leq idx == map val t)%:R) | t : n.-tuple 'I_d.+1 <- enum A].
Lemma size_sorted : size sorted_fam = 'C(n + d, n).
Proof. by rewrite size_map -cardE card_sorted_tuples. Qed.
Lemma valid_tuple (t : n.-tuple 'I_d.+1) : valid ds (map val t).
Proof.
apply/valid_nth; rewrite size_map size_tuple size_nseq; split=> // i hi.
by rewrite nth_nseq hi (nth_map ord0) ?size_tuple //; exact: ltn_ord.
Qed.
Lemma tuple_valid s : valid ds s -> exists t : n.-tuple 'I_d.+1, map val t = s.
Proof.
move=> /valid_nth; rewrite size_nseq => -[sz h].
have st : size (map (@inord d) s) == n by rewrite size_map sz.
exists (Tuple st); rewrite /= -map_comp -[RHS]map_id; apply/eq_in_map => x /(nthP 0%N)[i hi <-] /=.
by rewrite inordK //; have := h i; rewrite -{1}sz nth_nseq -sz hi => ->.
Qed.
Lemma sort_leq_id s : sorted leq s -> sort leq s = s.
Proof. by move=> h; apply: sorted_sort => //; exact: leq_trans. Qed.
Lemma sorted_ind : ind ds sorted_fam.
Proof.
move=> z hz i; rewrite size_map => hi.
have [t0 _] : exists t0 : n.-tuple 'I_d.+1, True by exists [tuple of nseq n ord0].
have ti : nth t0 (enum A) i \in A by rewrite -mem_enum mem_nth.
have si : sort leq (map val (nth t0 (enum A) i)) = map val (nth t0 (enum A) i) by apply: sort_leq_id; move: ti; rewrite inE.
have := hz _ (valid_tuple (nth t0 (enum A) i)); rewrite size_map (bigD1 (Ordinal hi)) //= (nth_map t0) // si.
rewrite eqxx mulr1 big1 ?addr0 // => j ne; rewrite (nth_map t0) // si.
case: eqP => [e|_]; last by rewrite mulr0.
have /val_inj/eqP : val (nth t0 (enum A) i) = val (nth t0 (enum A) j) by apply: (inj_map val_inj).
by rewrite nth_uniq ?enum_uniq // eq_sym => /eqP e'; case/eqP: ne; apply: val_inj.
Qed.
Lemma valid_perm (s t : seq nat) : perm_eq s t -> valid ds s -> valid ds t.
Proof.
move=> pe /valid_nth; rewrite size_nseq => -[sz h]; apply/valid_nth; rewrite size_nseq -(perm_size pe) sz; split=> // i hi.
rewrite nth_nseq hi; have : nth 0%N t i \in s by rewrite (perm_mem pe) mem_nth // -(perm_size pe) sz.
by move=> /(nthP 0%N)[j hj <-]; have := h j; rewrite nth_nseq -sz hj => ->.
Qed.
Lemma sorted_span T : spn ds sorted_fam T <->
  forall p idx, perm_eq p (iota 0 n) -> valid ds idx -> T idx = T [seq nth 0%N idx i | i <- p].
Proof.
have pmt p (idx : seq nat) : perm_eq p (iota 0 n) -> size idx = n -> perm_eq [seq nth 0%N idx i | i <- p] idx.
  by move=> pe sz; apply: seq.perm_trans (perm_map _ pe) _; rewrite -sz map_nth_iota0 // take_size.
split=> [[z hz] p idx pe vi|sy].
  have sz : size idx = n by rewrite (valid_size vi) size_nseq.
  have pm := pmt p idx pe sz; rewrite !hz //; last by apply: valid_perm vi; rewrite perm_sym.
  apply: eq_bigr => i _; congr (_ * _); have hi : (i < size (enum A))%N by apply: leq_trans (ltn_ord i) _; rewrite size_map.
  by rewrite !(nth_map [tuple of nseq n ord0]) // (perm_sortP leq_total leq_trans anti_leq _ _ pm).
pose t0 : n.-tuple 'I_d.+1 := [tuple of nseq n ord0].
exists (fun i => T (map val (nth t0 (enum A) i))) => idx vi.
have sz : size idx = n by rewrite (valid_size vi) size_nseq.
have ps : perm_eq (sort leq idx) idx by rewrite perm_sort.
have [t et] : exists t : n.-tuple 'I_d.+1, map val t = sort leq idx.
  by apply: tuple_valid; apply: valid_perm vi; rewrite perm_sym.
have tA : t \in enum A by rewrite mem_enum inE et sort_sorted //; exact: leq_total.
have hi : (index t (enum A) < size sorted_fam)%N by rewrite size_map index_mem.
rewrite (bigD1 (Ordinal hi)) //= nth_index // (nth_map t0) ?index_mem // nth_index // et eqxx mulr1 big1 ?addr0.
  have /(perm_iotaP 0%N)[p pe ->] := ps; apply: sy => //; by rewrite -sz.
move=> j ne; rewrite (nth_map t0); last by apply: leq_trans (ltn_ord j) _; rewrite size_map.
rewrite -et; case: eqP => [e0|_]; last by rewrite mulr0.
have /val_inj e : val t = val (nth t0 (enum A) j) by apply: (inj_map val_inj).
case/eqP: ne; apply: val_inj; rewrite /= e index_uniq ?enum_uniq //.
by apply: leq_trans (ltn_ord j) _; rewrite size_map.
Qed.
End Sorted.

(** ** SU2, O3 and Z2: a basis of the symmetric tensors *)
Section Inst.
Variable C : numClosedFieldType.
Notation nd := (nd C).
Notation id_ := (fun x : nd => x).
Variable eigh : nd -> res (nd * nd).
Hypothesis eighP : eigh_correct_real eigh.
Let ford_id (f : seq nat) := f.
Local Lemma ford1 f : sorted ltn f -> ford_id f = f. Proof. by []. Qed.
Local Lemma ford2 f : perm_eq (ford_id f) f. Proof. by []. Qed.

Lemma su2_cg_count : cg_count S su2_mulN (su2_cg C).
Proof.
move=> n1 n2 ns zz em hz; have ens : ns = su2_list n1 n2.
  by rewrite /su2_list; move: em; rewrite /su2_mulN; case: (su2_mul _ _) => //= l [].
rewrite -su2_list_dim -ens sumnE big_map [LHS]big_seq [RHS]big_seq; apply: eq_bigr => n3 h3.
have [cg [ec es]] := hz n3 h3; move: h3; rewrite ens su2_listP => h; have [X [eX [sX _]]] := su2_cg_ok C h.
by move: ec es; rewrite eX => -[<-]; rewrite sX => -[<-]; rewrite mul1n.
Qed.
Lemma o3_cg_count : cg_count o3_dimN o3_mulN (o3_cgN C).
Proof.
move=> [l1 b1] [l2 b2] cs zz em hz.
have hcs c : c \in cs -> tri (2 * l1) (2 * l2) (2 * c.1) /\ sg c.2 = sg b1 * sg b2.
  move: em; rewrite /o3_mulN /= => -[<-] /mapP[[x y]]; rewrite /o3_mul => /mapP[x' hx [-> ->]] -> /=; split; last by case: (b1); case: (b2).
  by rewrite -so3_listP; apply/mapP; exists x'.
have -> : sumn [seq (zz c * o3_dimN c)%N | c <- cs] = sumn [seq o3_dimN c | c <- cs].
  rewrite !sumnE !big_map [LHS]big_seq [RHS]big_seq; apply: eq_bigr => c hc; have [cg [ec es]] := hz c hc.
  have [ht hb] := hcs c hc; have [X [e [sX _]]] := so3_cg_ok C ht.
  by move: ec es; rewrite /o3_cgN /o3_cg /= hb eqxx e => -[<-]; rewrite sX => -[<-]; rewrite mul1n.
move: em => -[<-]; rewrite -[RHS]so3_dims /so3_list /so3_mul /o3_mul /=.
by move: (pyrange _ _ _) => s; congr sumn; rewrite -!map_comp.
Qed.
Lemma z2_cg_count : cg_count (fun=> 1%N) z2_mulN (z2_cgN C).
Proof.
move=> a b cs zz [<-] hz /=; have [cg [[<-]]] := hz _ (mem_head _ _).
rewrite /z2_cg; have -> : sg a * sg b == sg (sg a * sg b == 1) by case: (a); case: (b).
by rewrite /= => -[<-].
Qed.

Theorem C73_su2 fuel (irr : seq (seq (nat * nat) * option nd)) G :
  List.Forall (@real_rep C _) irr -> signed_group (size irr) G -> fixes irr G ->
  small_eps (fun e : C => forall irs a xs, rtp_out ltn S su2_mulN (su2_cg C) id_ eigh e ford_id fuel irr G = Ok (irs, a, xs) ->
    independent (map (rdim S) irr) (total_dim S irs) a).
Proof. by move=> rl GG fx; apply: (C73_independent ltn _ eighP ford2 ford1 fuel (@su2_cg_full C) su2_cg_count (@su2_cg_real C)). Qed.
Theorem C73_o3 fuel (irr : seq (seq (nat * (nat * bool)) * option nd)) G :
  List.Forall (@real_rep C _) irr -> signed_group (size irr) G -> fixes irr G ->
  small_eps (fun e : C => forall irs a xs, rtp_out o3_ltN o3_dimN o3_mulN (o3_cgN C) id_ eigh e ford_id fuel irr G = Ok (irs, a, xs) ->
    independent (map (rdim o3_dimN) irr) (total_dim o3_dimN irs) a).
Proof. by move=> rl GG fx; apply: (C73_independent o3_ltN _ eighP ford2 ford1 fuel (@o3_cg_full C) o3_cg_count (@o3_cg_real C)). Qed.
Theorem C73_z2 fuel (irr : seq (seq (nat * bool) * option nd)) G :
  List.Forall (@real_rep C _) irr -> signed_group (size irr) G -> fixes irr G ->
  small_eps (fun e : C => forall irs a xs, rtp_out z2_ltN (fun=> 1%N) z2_mulN (z2_cgN C) id_ eigh e ford_id fuel irr G = Ok (irs, a, xs) ->
    independent (map (rdim (fun=> 1%N)) irr) (total_dim (fun=> 1%N) irs) a).
Proof. by move=> rl GG fx; apply: (C73_independent z2_ltN _ eighP ford2 ford1 fuel (@z2_cg_full C) z2_cg_count (@z2_cg_real C)). Qed.

(** ** reduced_symmetric_tensor_product_basis: the dimensions of the irreps of the symmetric
    power of a representation of dimension d + 1 add up to a binomial coefficient *)
Theorem C73_su2_symmetric_power fuel (r : seq (nat * nat) * option nd) order d : real_rep r -> rdim S r = d.+1 ->
  small_eps (fun e => forall irs a xs, rtp_symmetric ltn S su2_mulN (su2_cg C) id_ eigh e ford_id fuel r order = Ok (irs, a, xs) ->
    total_dim S irs = 'C(order + d, order) /\ independent (nseq order d.+1) (total_dim S irs) a).
Proof.
move=> rr ed; have h1 := C72_su2_symmetric_power eighP fuel order rr.
have := @C73_su2 fuel (nseq order r) [seq (1, p) | p <- permutations (iota 0 order)].
have hr : List.Forall (@real_rep C _) (nseq order r) by elim: order {h1} => /= [|o IH]; constructor.
rewrite size_nseq => /(_ hr (C08_all_permutations_group (fun p => mem_permutations _ p))).
have fx : fixes (nseq order r) [seq (1 : int, p) | p <- permutations (iota 0 order)].
  move=> s p i /mapP[p']; rewrite mem_permutations => pe [_ ->]; rewrite size_nseq => hi.
  by rewrite !nth_nseq hi (permeq_nth_lt pe).
move=> /(_ fx) h2; apply: ev_imp (ev_and h1 h2) => e _ [g1 g2] irs a xs er.
have i2 := g2 _ _ _ er; rewrite map_nseq ed in i2; split=> //.
rewrite -(size_sorted C); apply: (dim_uniq i2 _ (@sorted_ind C order d) (@sorted_span C order d)) => T.
by have := g1 _ _ _ er T; rewrite ed.
Qed.
(** ij=ji for an irrep of SU2: the result is there, with as many columns as there are pairs i <= j. *)
Theorem C73_su2_symmetric_square n fuel :
  small_eps (fun e => exists (irs : seq (nat * nat)) (a : nd) (xs : seq nd),
    rtp_out ltn S su2_mulN (su2_cg C) id_ eigh e ford_id fuel.+1 [:: one_irrep C n; one_irrep C n] (swap_group 1) = Ok (irs, a, xs) /\
    (total_dim S irs * 2 = n.+1 * n.+2)%N).
Proof.
have h1 := C71_symmetric_square n fuel eighP.
have hs : (1 : int) = 1 \/ (1 : int) = -1 by left.
have rl : List.Forall (@real_rep C _) [:: one_irrep C n; one_irrep C n] by repeat constructor.
have fx : fixes [:: one_irrep C n; one_irrep C n] (swap_group 1).
  by move=> s p i; rewrite !inE => /orP[] /eqP[_ ->]; case: i => [|[|]].
have h2 := @C73_su2 fuel.+1 [:: one_irrep C n; one_irrep C n] (swap_group 1) rl (swap_signed hs) fx.
have h3 := @C72_su2 C eigh eighP fuel.+1 [:: one_irrep C n; one_irrep C n] (swap_group 1) rl (swap_signed hs) fx (ltac:(by [])).
apply: ev_imp (ev_and h1 (ev_and h2 h3)) => e _ [[[[irs a] xs] er] [g2 g3]]; exists irs, a, xs; split=> //.
have := g2 _ _ _ er; have := g3 _ _ _ er; rewrite /= !rdim_one => s3 i2.
have -> : total_dim S irs = 'C(2 + n, 2).
  rewrite -(size_sorted C); apply: (dim_uniq i2 s3 (@sorted_ind C 2 n)) => T; apply: (iff_trans (@sorted_span C 2 n T)); split=> sy.
    move=> s p idx; rewrite !inE => /orP[] /eqP[-> ->] vi; rewrite mul1r; exact: sy.
  move=> p idx pe vi; rewrite (sy 1 p idx) ?mul1r //; case: p pe => [|x [|y [|z p]]] pe; try by have := perm_size pe.
  have hx : x \in iota 0 2 by rewrite -(perm_mem pe) inE eqxx.
  have hy : y \in iota 0 2 by rewrite -(perm_mem pe) !inE eqxx orbT.
  have := perm_uniq pe; move: hx hy; rewrite !inE => /orP[] /eqP -> /orP[] /eqP -> //.
rewrite bin2 add2n -[n.+2.-1]/(n.+1) muln2 [RHS]mulnC -[RHS]odd_double_half oddM.
by have -> : odd n.+2 && odd n.+1 = false by rewrite /=; case: (odd n).
Qed.
End Inst.
