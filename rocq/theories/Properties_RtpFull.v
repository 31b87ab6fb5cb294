(** Properties_RtpFull: the basis returned by _reduced_tensor_product_basis spans all the
    tensors that have the symmetry of the permutation group that it is given (C72). *)
From Coq Require Import ZArith String Ascii List Permutation.
From mathcomp Require Import all_ssreflect all_algebra.
From mathcomp Require Import zify.
From Verif Require Import Base Nd NdProofs Reps RepOps Reduced Labels LabelProofs Su2 Su2Cg Su2CgProofs Su2CgEq Su2Proofs So3Proofs Su2Irr SoCg SoCgProofs So13Proofs Sl2c LinAlg BiProofs CgGenProofs.
From Verif Require Import Perm RedPerm RedPermBasis RedPermSub Rtp RtpArr RtpLoop RtpPres RtpEqv RtpStab RtpReal RtpSym RtpSymAll RtpTwo RtpCon RtpSpan RtpFull RtpFullCon RtpFullAll RtpDense.
From Verif Require Import Properties_Cg Properties_SoCg Properties_Rtp Properties_RtpInst Properties_RtpSym Properties_RedPerm Properties_RtpSq.

Set Implicit Arguments.
Unset Strict Implicit.
Unset Printing Implicit Defensive.

Import Order.POrderTheory GRing.Theory Num.Theory.
Local Open Scope ring_scope.

(** * Specification *)
Section Spec.
Variable C : numClosedFieldType.
(** T[x_1, ..., x_n] = s T[x_p(1), ..., x_p(n)] for the signed permutations of the group. *)
Definition tensor_symmetric (ds : seq nat) (G : seq sp) (T : seq nat -> C) : Prop :=
  forall s p idx, (s, p) \in G -> valid ds idx -> T idx = s%:~R * T [seq nth 0%N idx i | i <- p].
(** T is a combination of the slices a[..., c], c < D. *)
Definition in_span (ds : seq nat) (D : nat) (a : nd C) (T : seq nat -> C) : Prop :=
  exists z : nat -> C, forall idx, valid ds idx -> T idx = \sum_(c < D) z c * get a (rcons idx (c : nat)).
End Spec.

Section Main.
Variable C : numClosedFieldType.
Notation nd := (nd C).
Notation id_ := (fun x : nd => x).
Variable L : eqType.
Variable lt : rel L.
Variable dim : L -> nat.
Variable mulL : L -> L -> res (seq L).
Variable cgL : L -> L -> L -> res nd.
Variable eigh : nd -> res (nd * nd).
Variable ford : seq nat -> seq nat.
Notation mi := (nat * L)%type.
Notation rrep := (seq mi * option nd)%type.
Local Notation rtp_out := (rtp_out lt dim mulL cgL id_ eigh).
Hypothesis lt_irr : irreflexive lt.
Hypothesis lt_tr : transitive lt.
Hypothesis lt_tot : forall a b, [|| a == b, lt a b | lt b a].
Hypothesis eighP : eigh_correct_real eigh.
Hypothesis ford_perm : forall f, perm_eq (ford f) f.
Hypothesis ford_id : forall f, sorted ltn f -> ford f = f.
Variables (I J : Type) (Yc : I -> L -> nat -> nat -> C) (Yd : J -> L -> nat -> nat -> C).
(** The Clebsch-Gordan arrays are real, equivariant and complete; the generators generate
    all the matrices of every finite set of irreps. *)
Theorem C72_complete fuel (irr : seq rrep) G :
  dense dim (YY Yc Yd) -> cg_full dim mulL cgL ->
  cgs dim mulL cgL (cg_real dim) -> (forall t, cgs dim mulL cgL (cg_eqv dim (Yc t))) ->
  (forall t, cgs dim mulL cgL (cg_eqvH dim (Yd t))) ->
  List.Forall (@real_rep C L) irr -> signed_group (size irr) G -> fixes irr G ->
  small_eps (fun e => forall irs a xs, rtp_out e ford fuel irr G = Ok (irs, a, xs) ->
    forall T, tensor_symmetric (map (rdim dim) irr) G T -> in_span (map (rdim dim) irr) (total_dim dim irs) a T).
Proof.
move=> dn fu hr hc hd rl GG fx; have rl' : reals dim irr by apply: List.Forall_impl rl => r; exact: real_repP.
have ok : sub_ok dim irr G by [].
have h := rtp_full lt_irr lt_tr lt_tot eighP ford_perm ford_id dn fu hr hc hd fuel ok.
apply: ev_imp h => e _ h irs a xs /rtp_out_inv[b [er -> ea]] T hT.
have /has_leadP[l eb w] := C13_covers ford_perm er; rewrite eb in ea; have [sa ga] := array_dims w ea.
have eD : total_dim dim (ia_irreps b) = tdim dim l by rewrite eb /total_dim /= tdim_irreps.
have [z hz] := h _ er T (proj2 (@symF_symT _ _ dim _ _ _) hT).
exists z => idx vi; rewrite eD hz ?masked_dims // eb blocks_mk size_ents.
by apply: eq_bigr => c _; rewrite ga.
Qed.

(** The span of a basis that has the symmetry has it. *)
Lemma span_symmetric (irr : seq rrep) G D (a : nd) T : signed_group (size irr) G -> fixes irr G ->
  (forall s p, (s, p) \in G -> basis_symmetric dim irr D a s p) ->
  in_span (map (rdim dim) irr) D a T -> tensor_symmetric (map (rdim dim) irr) G T.
Proof.
move=> GG fx h [z hz] s p idx hp vi; rewrite !hz // => [|]; last first.
  have pe := sg_perm GG hp; by apply: valid_actp vi => // i; apply: fx hp.
by rewrite mulr_sumr; apply: eq_bigr => c _; rewrite (h s p hp) // mulrCA.
Qed.
End Main.

(** ** SU2, O3 and Z2: exactly the symmetric tensors *)
Section Inst.
Variable C : numClosedFieldType.
Notation nd := (nd C).
Notation id_ := (fun x : nd => x).
Variable eigh : nd -> res (nd * nd).
Hypothesis eighP : eigh_correct_real eigh.
Let ford_id (f : seq nat) := f.
Local Lemma ford1 f : sorted ltn f -> ford_id f = f. Proof. by []. Qed.
Local Lemma ford2 f : perm_eq (ford_id f) f. Proof. by []. Qed.

Theorem C72_su2 fuel (irr : seq (seq (nat * nat) * option nd)) G :
  List.Forall (@real_rep C _) irr -> signed_group (size irr) G -> fixes irr G ->
  (size irr = 1%N -> (-1, iota 0 (size irr)) \notin G) ->
  small_eps (fun e : C => forall irs a xs, rtp_out ltn S su2_mulN (su2_cg C) id_ eigh e ford_id fuel irr G = Ok (irs, a, xs) ->
    forall T, in_span (map (rdim S) irr) (total_dim S irs) a T <-> tensor_symmetric (map (rdim S) irr) G T).
Proof.
move=> rl GG fx ng; have h1 := C71_su2 eighP fuel rl GG fx ng.
have h2 := C72_complete ltnn ltn_trans su2_tot eighP ford2 ford1 fuel (@su2_dense C) (@su2_cg_full C) (@su2_cg_real C) (@su2_cg_eqv C) (fun t : void => match t with end) rl GG fx.
apply: ev_imp (ev_and h1 h2) => e _ [g1 g2] irs a xs er T; have [_ sy] := g1 _ _ _ er.
by split; [exact: span_symmetric GG fx sy | exact: g2 er T].
Qed.
Theorem C72_o3 fuel (irr : seq (seq (nat * (nat * bool)) * option nd)) G :
  List.Forall (@real_rep C _) irr -> signed_group (size irr) G -> fixes irr G ->
  (size irr = 1%N -> (-1, iota 0 (size irr)) \notin G) ->
  small_eps (fun e : C => forall irs a xs, rtp_out o3_ltN o3_dimN o3_mulN (o3_cgN C) id_ eigh e ford_id fuel irr G = Ok (irs, a, xs) ->
    forall T, in_span (map (rdim o3_dimN) irr) (total_dim o3_dimN irs) a T <-> tensor_symmetric (map (rdim o3_dimN) irr) G T).
Proof.
move=> rl GG fx ng; have h1 := C71_o3 eighP fuel rl GG fx ng.
have h2 := C72_complete o3_irr o3_tr o3_tot eighP ford2 ford1 fuel (@o3_dense C) (@o3_cg_full C) (@o3_cg_real C) (@o3_cg_eqv C) (@o3_cg_eqvP C) rl GG fx.
apply: ev_imp (ev_and h1 h2) => e _ [g1 g2] irs a xs er T; have [_ sy] := g1 _ _ _ er.
by split; [exact: span_symmetric GG fx sy | exact: g2 er T].
Qed.
Theorem C72_z2 fuel (irr : seq (seq (nat * bool) * option nd)) G :
  List.Forall (@real_rep C _) irr -> signed_group (size irr) G -> fixes irr G ->
  (size irr = 1%N -> (-1, iota 0 (size irr)) \notin G) ->
  small_eps (fun e : C => forall irs a xs, rtp_out z2_ltN (fun=> 1%N) z2_mulN (z2_cgN C) id_ eigh e ford_id fuel irr G = Ok (irs, a, xs) ->
    forall T, in_span (map (rdim (fun=> 1%N)) irr) (total_dim (fun=> 1%N) irs) a T <-> tensor_symmetric (map (rdim (fun=> 1%N)) irr) G T).
Proof.
move=> rl GG fx ng; have h1 := C71_z2 eighP fuel rl GG fx ng.
have h2 := C72_complete z2_irr z2_tr z2_tot eighP ford2 ford1 fuel (@z2_dense C) (@z2_cg_full C) (@z2_cg_real C) (fun t : void => match t with end) (@z2_cg_eqvP C) rl GG fx.
apply: ev_imp (ev_and h1 h2) => e _ [g1 g2] irs a xs er T; have [_ sy] := g1 _ _ _ er.
by split; [exact: span_symmetric GG fx sy | exact: g2 er T].
Qed.

(** ** reduced_symmetric_tensor_product_basis: exactly the fully symmetric tensors *)
Theorem C72_su2_symmetric_power fuel (r : seq (nat * nat) * option nd) order : real_rep r ->
  small_eps (fun e => forall irs a xs, rtp_symmetric ltn S su2_mulN (su2_cg C) id_ eigh e ford_id fuel r order = Ok (irs, a, xs) ->
    forall T, in_span (nseq order (rdim S r)) (total_dim S irs) a T <->
      forall p idx, perm_eq p (iota 0 order) -> valid (nseq order (rdim S r)) idx -> T idx = T [seq nth 0%N idx i | i <- p]).
Proof.
move=> rr; have := @C72_su2 fuel (nseq order r) [seq (1, p) | p <- permutations (iota 0 order)].
have h1 : List.Forall (@real_rep C _) (nseq order r) by elim: order => /= [|o IH]; constructor.
rewrite size_nseq => /(_ h1 (C08_all_permutations_group (fun p => mem_permutations _ p))).
have fx : fixes (nseq order r) [seq (1 : int, p) | p <- permutations (iota 0 order)].
  move=> s p i /mapP[p']; rewrite mem_permutations => pe [_ ->]; rewrite size_nseq => hi.
  by rewrite !nth_nseq hi (permeq_nth_lt pe).
have ng : order = 1%N -> (-1, iota 0 order) \notin [seq (1 : int, p) | p <- permutations (iota 0 order)].
  by move=> _; apply/mapP => -[].
case/(_ fx ng) => [e0 p0 h]; exists e0 => // e h1' h2 irs a xs /(h e h1' h2){}h T.
have {h} := h T; rewrite map_nseq => h; split=> [/h sy p idx pe vi|sy].
  by rewrite -[RHS]mul1r (sy 1 p) //; apply/mapP; exists p => //; rewrite mem_permutations.
by apply/h => s p idx /mapP[p' hp' [-> ->]] vi; rewrite mul1r; apply: sy => //; rewrite -mem_permutations.
Qed.
(** ** ij=ji for an irrep of SU2: the result is there, and spans the symmetric matrices *)
Theorem C72_su2_symmetric_square n fuel :
  small_eps (fun e => exists (irs : seq (nat * nat)) (a : nd) (xs : seq nd),
    rtp_out ltn S su2_mulN (su2_cg C) id_ eigh e ford_id fuel.+1 [:: one_irrep C n; one_irrep C n] (swap_group 1) = Ok (irs, a, xs) /\
    forall M : nat -> nat -> C, (forall i j, (i <= n)%N -> (j <= n)%N -> M i j = M j i) <->
      exists z : nat -> C, forall i j, (i <= n)%N -> (j <= n)%N -> M i j = \sum_(c < total_dim S irs) z c * get a [:: i; j; c : nat]).
Proof.
have h1 := C71_symmetric_square n fuel eighP.
have hs : (1 : int) = 1 \/ (1 : int) = -1 by left.
have rl : List.Forall (@real_rep C _) [:: one_irrep C n; one_irrep C n] by repeat constructor.
have fx : fixes [:: one_irrep C n; one_irrep C n] (swap_group 1).
  by move=> s p i; rewrite !inE => /orP[] /eqP[_ ->]; case: i => [|[|]].
have h2 := @C72_su2 fuel.+1 [:: one_irrep C n; one_irrep C n] (swap_group 1) rl (swap_signed hs) fx (ltac:(by [])).
apply: ev_imp (ev_and h1 h2) => e _ [[[[irs a] xs] er] h]; exists irs, a, xs; split=> // M.
have {h} := h _ _ _ er (fun idx => M (nth 0%N idx 0) (nth 0%N idx 1)); rewrite /= !rdim_one.
have vP (idx : seq nat) : valid [:: n.+1; n.+1] idx -> exists i j, [/\ idx = [:: i; j], (i <= n)%N & (j <= n)%N].
  by case: idx => [|i [|j [|]]] //; rewrite !valid_cons ?valid_nil ?andbF //= !ltnS andbT => /andP[? ?]; exists i, j.
have vI i j : (i <= n)%N -> (j <= n)%N -> valid [:: n.+1; n.+1] [:: i; j] by move=> hi hj; rewrite !valid_cons valid_nil !ltnS hi hj.
move=> h; split=> [sy|[z hz]].
  have [|z hz] := proj2 h.
    by move=> s p idx; rewrite !inE => /orP[] /eqP[-> ->] /vP[i [j [-> hi hj]]]; rewrite mul1r //= sy.
  by exists z => i j hi hj; rewrite (hz [:: i; j]) //; exact: vI.
move=> i j hi hj; have sy : tensor_symmetric [:: n.+1; n.+1] (swap_group 1) (fun idx => M (nth 0%N idx 0) (nth 0%N idx 1)).
  by apply/h; exists z => idx /vP[i' [j' [-> hi' hj']]]; rewrite /= hz.
by rewrite (sy 1 [:: 1; 0]%N [:: i; j]) ?mul1r ?inE ?eqxx ?orbT //; exact: vI.
Qed.
End Inst.
