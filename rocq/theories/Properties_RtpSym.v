(** Properties_RtpSym: the basis returned by _reduced_tensor_product_basis has the symmetry
    of the permutation group that it is given, and does not depend on the tolerance when
    this is small (C71). *)
From Coq Require Import ZArith String Ascii List Permutation.
From mathcomp Require Import all_ssreflect all_algebra.
From mathcomp Require Import zify.
From Verif Require Import Base Nd NdProofs Reps RepOps Reduced Labels LabelProofs Su2 Su2Cg Su2CgProofs Su2CgEq Su2Proofs So3Proofs Su2Irr SoCg SoCgProofs So13Proofs Sl2c LinAlg BiProofs CgGenProofs.
From Verif Require Import Perm RedPerm RedPermBasis RedPermSub Rtp RtpArr RtpLoop RtpPres RtpEqv RtpStab RtpReal RtpSym RtpSymAll.
From Verif Require Import Properties_Cg Properties_SoCg Properties_Rtp Properties_RtpInst.

Set Implicit Arguments.
Unset Strict Implicit.
Unset Printing Implicit Defensive.

Import Order.POrderTheory GRing.Theory Num.Theory.
Local Open Scope ring_scope.

(** * Specification *)
Section Spec.
Variable C : numClosedFieldType.
Variable L : eqType.
Variable dim : L -> nat.
Notation mi := (nat * L)%type.
Notation rrep := (seq mi * option (nd C))%type.
(** a[x_1, ..., x_n, c] = s a[x_p(1), ..., x_p(n), c] *)
Definition basis_symmetric (irr : seq rrep) (D : nat) (a : nd C) (s : int) (p : seq nat) : Prop :=
  forall idx c, valid (map (rdim dim) irr) idx -> (c < D)%N ->
    get a (rcons idx c) = s%:~R * get a (rcons [seq nth 0%N idx i | i <- p] c).
(** The change of basis of a representation is real. *)
Definition real_rep (r : rrep) : Prop :=
  if r.2 is Some Q then forall idx, valid (shape Q) idx -> get Q idx \is Num.real else True.
(** The group permutes equal representations. *)
Definition fixes (irr : seq rrep) (G : seq sp) : Prop := forall s p i, (s, p) \in G -> (i < size irr)%N ->
  nth ([::], None) irr (nth 0%N p i) = nth ([::], None) irr i.
(** A property of the tolerance holds when this is small enough. *)
Definition small_eps (P : C -> Prop) : Prop := exists2 e0 : C, 0 < e0 & forall e, 0 < e -> e < e0 -> P e.
End Spec.

Section Real.
Variable C : numClosedFieldType.
Lemma realm_inv n (A : 'M[C]_n) : realm A -> realm (invmx A).
Proof.
have cj (B : 'M[C]_n) : realm B <-> map_mx conjC B = B.
  by split=> [h|h i j]; [apply/matrixP => i j; rewrite mxE h | rewrite -{2}h mxE].
by move/cj => h; apply/cj; rewrite map_invmx h.
Qed.
Variable L : eqType.
Variable dim : L -> nat.
Lemma real_repP (r : seq (nat * L) * option (nd C)) : real_rep r -> q_real dim r.
Proof.
rewrite /real_rep => h q i j; rewrite /init_q; case: (r.2) h => [Q|] h; last first.
  by case=> <- _ _ /=; case: eqP; rewrite ?real1 ?real0.
rewrite /np_inv; case sQ: (shape Q) => [|a [|b [|]]] //; case: ifP => //= /andP[/eqP e u] [<-] hi hj; subst b.
have rm : realm (invmx (mx2 a a Q)).
  by apply: realm_inv => x y; apply: conj_Creal; rewrite mxE h // sQ valid2 !ltn_ord.
rewrite /transpose2 /=; case: insubP => [y _ _|_] /=; last by case: insubP => [? _ _|_] /=; rewrite rpred0.
by case: insubP => [x _ _|_] /=; [apply/CrealP; apply: rm | rewrite rpred0].
Qed.
End Real.

Section Main.
Variable C : numClosedFieldType.
Notation nd := (nd C).
Notation id_ := (fun x : nd => x).
Variable L : eqType.
Variable lt : rel L.
Variable dim : L -> nat.
Variable mulL : L -> L -> res (seq L).
Variable cgL : L -> L -> L -> res nd.
Variable eigh : nd -> res (nd * nd).
Variable ford : seq nat -> seq nat.
Notation mi := (nat * L)%type.
Notation rrep := (seq mi * option nd)%type.
Local Notation rtp_out := (rtp_out lt dim mulL cgL id_ eigh).

(** The result does not depend on the tolerance when this is small. *)
Theorem C71_tolerance fuel (irr : seq rrep) G : exists r, small_eps (fun e => rtp_out e ford fuel irr G = r).
Proof.
have [r h] := evc_rtp lt dim mulL cgL id_ eigh ford fuel irr G.
by eexists; apply: ev_imp h => e _ he; rewrite /Rtp.rtp_out he.
Qed.

Hypothesis eighP : eigh_correct_real eigh.
Hypothesis ford_perm : forall f, perm_eq (ford f) f.
Hypothesis ford_id : forall f, sorted ltn f -> ford f = f.
Variables (I J : Type) (Yc : I -> L -> nat -> nat -> C) (Yd : J -> L -> nat -> nat -> C).
(** The Clebsch-Gordan arrays are real and equivariant, the irreps irreducible. *)
Theorem C71_symmetric fuel (irr : seq rrep) G :
  cgs dim mulL cgL (cg_real dim) -> (forall t, cgs dim mulL cgL (cg_eqv dim (Yc t))) ->
  (forall t, cgs dim mulL cgL (cg_eqvH dim (Yd t))) -> irreducibles dim Yc Yd ->
  List.Forall (@real_rep C L) irr -> signed_group (size irr) G -> fixes irr G ->
  (size irr = 1%N -> (-1, iota 0 (size irr)) \notin G) ->
  small_eps (fun e => forall irs a xs, rtp_out e ford fuel irr G = Ok (irs, a, xs) ->
    shape a = rcons (map (rdim dim) irr) (total_dim dim irs) /\
    forall s p, (s, p) \in G -> basis_symmetric dim irr (total_dim dim irs) a s p).
Proof.
move=> hr hc hd irrd rl GG fx neg; have rl' : reals dim irr by apply: List.Forall_impl rl => r; exact: real_repP.
have h := rtp_sym lt eighP ford_perm ford_id rl' GG fx neg hr fuel.
apply: ev_imp h => e _ h irs a xs /rtp_out_inv[b [er -> ea]].
have [l [eb w hs]] := h _ er.
have w' : wf dim (map (rdim dim) irr) l by move: w; rewrite masked_dims.
rewrite eb in ea; have [sa ga] := array_dims w' ea.
have eD : total_dim dim (ia_irreps b) = tdim dim l by rewrite eb /total_dim /= tdim_irreps.
rewrite eD; split=> // s p hp idx c vi hc'.
have [cl [k [hin hk gc _]]] := array_row (fun _ _ _ => 0) w' vi ga hc'.
have pe := sg_perm GG hp; have vp : valid (map (rdim dim) irr) (RedPerm.act idx p).
  by apply: valid_actp vi => // i; apply: fx hp.
rewrite !gc //; have er0 := er; move: er; case: (fuel) => [|fuel'] //; rewrite [Rtp.rtp _ _ _ _ _ _ _ _ _ _ _]/= /rtp_body => er.
have [bs ebs] : exists bs, rtp_bases dim irr = Ok bs by move: er; case: (rtp_bases _ _) => // bs _; exists bs.
suff sm : col_sym dim irr cl.1 cl.2 s p by apply: sm.
apply: (col_sym_all irrd (Xc := fun t => gen_of dim (Yc t)) (Xd := fun t => gen_of dim (Yd t)) pe) => //.
- by move=> i; apply: fx hp.
- by move=> t; apply: bases_gens ebs.
- by move=> t; apply: bases_gens ebs.
- move=> t; have [l' [eb' _ hl]] := rtp_eqv ford_id (gen_of dim (Yc t)) ford_perm (hc t) er0.
  have el : l' = l by rewrite -(blocks_mk l') -(blocks_mk l) -eb -eb'.
  by rewrite el in hl; apply: (proj1 (List.Forall_forall _ _) (hl (bases_gens (Yc t) ebs)) _ hin).
- move=> t; have [l' [eb' _ hl]] := rtp_eqvH ford_id (gen_of dim (Yd t)) ford_perm (hd t) er0.
  have el : l' = l by rewrite -(blocks_mk l') -(blocks_mk l) -eb -eb'.
  by rewrite el in hl; apply: (proj1 (List.Forall_forall _ _) (hl (bases_gens (Yd t) ebs)) _ hin).
move=> d0 idx' vi'; apply: (proj1 (List.Forall_forall _ _) hs _ hin) => //; rewrite masked_dims //.
by apply: valid_actp vi' => // i; apply: fx hp.
Qed.
End Main.

(** ** SU2, O3 and Z2 *)
Section Irr.
Variable C : numClosedFieldType.
(** Anti-Hermitian matrices whose commutant is the scalars have no invariant subspace. *)
Lemma anti_irreducible (T : Type) d (Y : T -> 'M[C]_d) : (forall t, adj (Y t) = - Y t) ->
  (forall S : 'M[C]_d, (forall t, S *m Y t = Y t *m S) -> exists c, S = c%:M) ->
  forall U : 'M[C]_d, (forall t, (U *m Y t <= U)%MS) -> U = 0 \/ row_full U.
Proof.
case: d Y => [|d] Y ah sc U iU; first by left; apply/matrixP => -[].
have [P [Ph P2 PU]] := sub_prj U.
have [c ec] : exists c, P = c%:M.
  apply: sc => t; have e1 : P *m Y t *m P = P *m Y t.
    have /submxP[D e] : (P *m Y t <= P)%MS by rewrite PU (submx_trans _ (iU t)) // submxMr // PU.
    by rewrite e -mulmxA P2.
  have := congr1 (@adj C _ _) e1; rewrite !adjM Ph ah mulNmx mulmxN => /eqP; rewrite eqr_opp => /eqP.
  by rewrite mulmxA e1.
have : c * c = c.
  by move: P2; rewrite ec -scalar_mxM => /matrixP/(_ ord0 ord0); rewrite !mxE !eqxx !mulr1n.
move/eqP; rewrite -subr_eq0 -{3}[c]mulr1 -mulrBr mulf_eq0 subr_eq0 => /orP[/eqP z|/eqP o].
  by left; apply/eqP; rewrite -submx0 -PU ec z raddf0 sub0mx.
by right; rewrite -sub1mx -PU ec o submx_refl.
Qed.
End Irr.

Section Inst.
Variable C : numClosedFieldType.
Notation nd := (nd C).
Notation id_ := (fun x : nd => x).
Variable eigh : nd -> res (nd * nd).
Hypothesis eighP : eigh_correct_real eigh.
Let ford_id (f : seq nat) := f.
Local Lemma ford1 f : sorted ltn f -> ford_id f = f. Proof. by []. Qed.
Local Lemma ford2 f : perm_eq (ford_id f) f. Proof. by []. Qed.
Local Notation none := (fun t : void => match t with end).

Lemma su2_ymx (t : 'I_3) n : ymx S (@su2_Y C t) n = Xm C n t.
Proof.
apply/matrixP => i j; rewrite !mxE /su2_Y /su2_rep; have [X [-> [sX gX]]] := su2_X_ok C n.
by rewrite /= -gX // mxE.
Qed.
Theorem C71_su2_irreducible : irreducibles S (fun t : 'I_3 => @su2_Y C t) none.
Proof.
move=> n U h _; apply: (anti_irreducible (Y := fun t : 'I_3 => Xm C n t)); first by move=> t; exact: Xm_adj.
  by move=> M hM; apply: su2_commutant => a ha; exact: (hM (Ordinal ha)).
by move=> t; rewrite -su2_ymx; exact: h.
Qed.
Lemma su2_cg_real : cgs S su2_mulN (su2_cg C) (cg_real S).
Proof.
move=> n1 n2 ns n3 cg z em hin ec es w i j k hw hi hj hk.
have sel : tri n1 n2 n3.
  by rewrite -su2_listP /su2_list; move: em; rewrite /su2_mulN; case: (su2_mul _ _) => //= l [e]; rewrite e.
have [c' [ec' [es' gc]]] := su2_cg_ok C sel; move: ec'; rewrite ec => -[e5]; rewrite -e5 in es' gc.
by move: es'; rewrite es => -[ez]; move: hw; rewrite ez ltnS leqn0 => /eqP->; rewrite gc // ce_real.
Qed.
Lemma su2_cg_eqv (t : 'I_3) : cgs S su2_mulN (su2_cg C) (cg_eqv S (@su2_Y C t)).
Proof.
move=> n1 n2 ns n3 cg z em hin ec es w i j k hw hi hj hk.
have sel : tri n1 n2 n3.
  by rewrite -su2_listP /su2_list; move: em; rewrite /su2_mulN; case: (su2_mul _ _) => //= l [e]; rewrite e.
have [r1 [r2 [r3 [c [e1 e2 e3 e4 eqv]]]]] := C40_su2 C (selectedP _ _ _ sel).
move: e4; rewrite ec => -[e4]; move: es; rewrite /su2_Y e1 e2 e3 /= e4 => es.
have [c' [ec' [es' _]]] := su2_cg_ok C sel; move: ec'; rewrite ec e4 => -[e5]; rewrite -e5 es in es'.
by apply: eqv => //; case: es' hw => ->.
Qed.
Theorem C71_su2 fuel (irr : seq (seq (nat * nat) * option nd)) G :
  List.Forall (@real_rep C _) irr -> signed_group (size irr) G -> fixes irr G ->
  (size irr = 1%N -> (-1, iota 0 (size irr)) \notin G) ->
  small_eps (fun e : C => forall irs a xs, rtp_out ltn S su2_mulN (su2_cg C) id_ eigh e ford_id fuel irr G = Ok (irs, a, xs) ->
    shape a = rcons (map (rdim S) irr) (total_dim S irs) /\
    forall s p, (s, p) \in G -> basis_symmetric S irr (total_dim S irs) a s p).
Proof.
by apply: (C71_symmetric ltn eighP ford2 ford1) C71_su2_irreducible => //; [exact: su2_cg_real | exact: su2_cg_eqv].
Qed.

Lemma o3_ymx (t : 'I_3) a : ymx o3_dimN (@o3_Y C t) a = Ym C a.1 t.
Proof.
apply/matrixP => i j; rewrite mxE /o3_Y /o3_rep; have [X [-> [_ [_ gX]]]] := so3_X_ok C a.1.
by rewrite -gX // mxE.
Qed.
Theorem C71_o3_irreducible : irreducibles o3_dimN (fun t : 'I_3 => @o3_Y C t) none.
Proof.
move=> a U h _; apply: (anti_irreducible (Y := fun t : 'I_3 => Ym C a.1 t)); first by move=> t; exact: Ym_adj.
  move=> M hM; have [|c ec] := @su2_commutant C (2 * a.1) (Qm C a.1 *m M *m adj (Qm C a.1)).
    move=> t ht; have := hM (Ordinal ht); rewrite /Ym /= => e.
    have := congr1 (fun A => Qm C a.1 *m A *m adj (Qm C a.1)) e; rewrite /= !mulmxA Qm_unitary' mul1mx.
    by rewrite -!(mulmxA _ (Qm C a.1)) Qm_unitary' mulmx1 !mulmxA.
  exists c; have := congr1 (fun A => adj (Qm C a.1) *m A *m Qm C a.1) ec.
  by rewrite /= !mulmxA Qm_unitary mul1mx -!mulmxA Qm_unitary mulmx1 => ->; rewrite mul_scalar_mx -scalemxAr Qm_unitary scalemx1.
by move=> t; rewrite -o3_ymx; exact: h.
Qed.
Lemma o3_cg_real : cgs o3_dimN o3_mulN (o3_cgN C) (cg_real o3_dimN).
Proof.
move=> [l1 b1] [l2 b2] ns [l3 b3] cg z em hin ec es w i j k hw hi hj hk.
have [ez _] := o3_cg_case em hin ec es.
move: em hin ec; rewrite /o3_mulN /o3_cgN /= => -[<-] hin.
have [hl hb] : l3 \in so3_list l1 l2 /\ sg b3 = sg b1 * sg b2.
  case/mapP: hin => -[x y]; rewrite /o3_mul => /mapP[x' hx [-> ->]] [-> ->]; split; last by case: (b1); case: (b2).
  by apply/mapP; exists x'.
have ht : tri (2 * l1) (2 * l2) (2 * l3) by rewrite -so3_listP.
have [c' [ec' [es' [rc _]]]] := so3_cg_ok C ht.
by rewrite /o3_cg /= hb eqxx ec' => -[<-]; rewrite ez in hw; apply: rc; rewrite es'; apply/andP; split=> //; apply/and4P; split=> //; apply/andP.
Qed.
Lemma o3_cg_eqv (t : 'I_3) : cgs o3_dimN o3_mulN (o3_cgN C) (cg_eqv o3_dimN (@o3_Y C t)).
Proof.
move=> a1 a2 ns a3 cg z em hin ec es w i j k hw hi hj hk.
have [ez [r1 [r2 [r3 [e1 e2 e3 [eqv _]]]]]] := o3_cg_case em hin ec es.
by rewrite /o3_Y e1 e2 e3; apply: eqv => //; rewrite -ez.
Qed.
Theorem C71_o3 fuel (irr : seq (seq (nat * (nat * bool)) * option nd)) G :
  List.Forall (@real_rep C _) irr -> signed_group (size irr) G -> fixes irr G ->
  (size irr = 1%N -> (-1, iota 0 (size irr)) \notin G) ->
  small_eps (fun e : C => forall irs a xs, rtp_out o3_ltN o3_dimN o3_mulN (o3_cgN C) id_ eigh e ford_id fuel irr G = Ok (irs, a, xs) ->
    shape a = rcons (map (rdim o3_dimN) irr) (total_dim o3_dimN irs) /\
    forall s p, (s, p) \in G -> basis_symmetric o3_dimN irr (total_dim o3_dimN irs) a s p).
Proof.
by apply: (C71_symmetric o3_ltN eighP ford2 ford1) C71_o3_irreducible => //; [exact: o3_cg_real | exact: o3_cg_eqv].
Qed.

Lemma z2_cg_real : cgs (fun=> 1%N) z2_mulN (z2_cgN C) (cg_real (fun=> 1%N)).
Proof.
move=> a1 a2 ns a3 cg z [<-] hin [<-] es w i j k hw hi hj hk.
by rewrite /z2_cg; case: ifP => _ /=; rewrite ?rpred0 ?rpred1.
Qed.
Theorem C71_z2 fuel (irr : seq (seq (nat * bool) * option nd)) G :
  List.Forall (@real_rep C _) irr -> signed_group (size irr) G -> fixes irr G ->
  (size irr = 1%N -> (-1, iota 0 (size irr)) \notin G) ->
  small_eps (fun e : C => forall irs a xs, rtp_out z2_ltN (fun=> 1%N) z2_mulN (z2_cgN C) id_ eigh e ford_id fuel irr G = Ok (irs, a, xs) ->
    shape a = rcons (map (rdim (fun=> 1%N)) irr) (total_dim (fun=> 1%N) irs) /\
    forall s p, (s, p) \in G -> basis_symmetric (fun=> 1%N) irr (total_dim (fun=> 1%N) irs) a s p).
Proof.
apply: (C71_symmetric (Yc := none) (Yd := none) z2_ltN eighP ford2 ford1) => //.
- exact: z2_cg_real.
- move=> a U _ _; case: (eqVneq U 0) => [->|n0]; first by left.
  right; rewrite /row_full eqn_leq rank_leq_row lt0n mxrank_eq0 //.
Qed.
End Inst.
