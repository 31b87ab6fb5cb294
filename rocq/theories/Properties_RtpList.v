(** Properties_RtpList: reduced_tensor_product_basis of a list of representations without
    symmetry always succeeds and returns an invertible change of basis (C74). *)
From Coq Require Import ZArith String Ascii List Permutation.
From mathcomp Require Import all_ssreflect all_algebra.
From mathcomp Require Import zify.
From Verif Require Import Base Nd NdProofs Reps RepOps Reduced Labels LabelProofs Su2 Su2Cg Su2CgProofs Su2CgEq Su2Proofs So3Proofs Su2Irr SoCg SoCgProofs So13Proofs Sl2c LinAlg BiProofs CgGenProofs.
From Verif Require Import Perm RedPerm RedPermBasis RedPermSub Rtp RtpArr RtpLoop RtpPres RtpEqv RtpStab RtpReal RtpSym RtpSymAll RtpTwo RtpCon RtpSpan RtpFull RtpFullCon RtpFullAll RtpDense RtpInd RtpIndAll RtpList.
From Verif Require Import Properties_Cg Properties_SoCg Properties_Rtp Properties_RtpInst Properties_RtpSym Properties_RedPerm Properties_RtpSq Properties_RtpFull Properties_RtpInd.

Set Implicit Arguments.
Unset Strict Implicit.
Unset Printing Implicit Defensive.

Import Order.POrderTheory GRing.Theory Num.Theory.
Local Open Scope ring_scope.

(** * Specification *)
Section Spec.
Variable C : numClosedFieldType.
Variable L : eqType.
Variable dim : L -> nat.
Notation rrep := (seq (nat * L) * option (nd C))%type.
(** A representation of positive dimension, in its own basis or with an invertible matrix. *)
Definition proper_rep (r : rrep) : Prop := (0 < rdim dim r)%N /\
  (if r.2 is Some Q then shape Q = [:: rdim dim r; rdim dim r] /\ \det (mx2 (rdim dim r) (rdim dim r) Q) <> 0 else True).
(** The slices a[..., c] are a basis of all the tensors with the shape ds, and as many as
    the irreps irs have dimensions. *)
Definition basis_of_all (ds : seq nat) (irs : seq (nat * L)) (a : nd C) : Prop :=
  [/\ shape a = rcons ds (nprod ds), total_dim dim irs = nprod ds, independent ds (nprod ds) a &
      forall T, in_span ds (nprod ds) a T].
End Spec.

Section Main.
Variable C : numClosedFieldType.
Notation nd := (nd C).
Variable L : eqType.
Variable lt : rel L.
Variable dim : L -> nat.
Variable mulL : L -> L -> res (seq L).
Variable cgL : L -> L -> L -> res nd.
Variable ford : seq nat -> seq nat.
Notation rrep := (seq (nat * L) * option nd)%type.
Hypothesis dim_pos : forall ir, (0 < dim ir)%N.
Hypothesis ford_id : forall f, sorted ltn f -> ford f = f.

(** Nothing depends on the rounding, the eigenvector routine or the tolerance. *)
Theorem C74_list fuel (irr : seq rrep) :
  cg_full dim mulL cgL -> cg_count dim mulL cgL -> (forall i1 i2, exists irs, mulL i1 i2 = Ok irs) ->
  (0 < size irr <= fuel)%N -> List.Forall (proper_rep dim) irr ->
  exists irs a xs, (forall rnd eigh eps, rtp_list lt dim mulL cgL rnd eigh eps ford fuel irr = Ok (irs, a, xs)) /\
    basis_of_all dim (map (rdim dim) irr) irs a.
Proof.
move=> fu hc hm hs pr; set ds := map _ _.
have gr : List.Forall (good_rep dim) irr.
  apply: List.Forall_impl pr => r [r0 hq]; split=> //; case: (r.2) hq => // Q [sQ dQ]; split=> //.
  by rewrite unitmxE unitfE; apply/eqP.
have [b eb [l [el w hi hf]]] := rtp_total lt ford_id dim_pos fu hc hm hs gr; subst b.
rewrite masked_dims -/ds in w hf; rewrite /Indb blocks_mk masked_dims -/ds in hi.
have n0 : nprod ds <> 0%N.
  rewrite /ds; elim: pr => //= r s [r0 _] _ IH; move: IH; nia.
have eD : tdim dim l = nprod ds by rewrite -size_ents; exact: ind_size.
have [a ea [sa ga]] := ia_arrayP w n0; rewrite eD in sa ga.
exists (ia_irreps (mk l)), a, (ia_list (mk l)); split.
  by move=> rnd eigh eps; rewrite /rtp_list /rtp_out (eb (rnd, eigh, eps)) /= ea.
have sz : size (ents dim l) = nprod ds by rewrite size_ents.
split=> //; first by rewrite -eD tdim_irreps.
  move=> z hz c hcc; apply: (hi z) => [idx v|]; last by rewrite sz.
  have e0 := hz idx v; rewrite -[RHS]e0 sz; by apply: eq_bigr => j _; rewrite ga.
move=> T; have [z hz] := hf T; exists z => idx v; rewrite hz // sz; by apply: eq_bigr => j _; rewrite ga.
Qed.
End Main.

(** ** SU2, O3 and Z2 *)
Section Inst.
Variable C : numClosedFieldType.
Notation nd := (nd C).
Let ford_id (f : seq nat) := f.
Local Lemma ford1 f : sorted ltn f -> ford_id f = f. Proof. by []. Qed.

(** The list is also equivariant for the generators of the representations (C67). *)
Theorem C74_su2 fuel (irr : seq (seq (nat * nat) * option nd)) :
  (0 < size irr <= fuel)%N -> List.Forall (proper_rep S) irr ->
  exists irs a xs, (forall rnd eigh eps, rtp_list ltn S su2_mulN (su2_cg C) rnd eigh eps ford_id fuel irr = Ok (irs, a, xs)) /\
    basis_of_all S (map (rdim S) irr) irs a /\
    forall t X, (t < 3)%N -> gens_ok S (su2_Y C t) X irr -> basis_equivariant S (su2_Y C t) X irr irs a.
Proof.
move=> hs pr; have [|irs [a [xs [e b]]]] := C74_list ltn (fun n : nat => ltn0Sn n) ford1 (@su2_cg_full C) (@su2_cg_count C) _ hs pr.
  by move=> n1 n2; rewrite /su2_mulN su2_mulE; eexists.
exists irs, a, xs; split=> //; split=> // t X ht hx.
exact: (C67_su2 ht hx (e id (fun _ => Err LinAlgError) 0)).
Qed.
Theorem C74_o3 fuel (irr : seq (seq (nat * (nat * bool)) * option nd)) :
  (0 < size irr <= fuel)%N -> List.Forall (proper_rep o3_dimN) irr ->
  exists irs a xs, (forall rnd eigh eps, rtp_list o3_ltN o3_dimN o3_mulN (o3_cgN C) rnd eigh eps ford_id fuel irr = Ok (irs, a, xs)) /\
    basis_of_all o3_dimN (map (rdim o3_dimN) irr) irs a.
Proof.
move=> hs pr; apply: (C74_list o3_ltN _ ford1 (@o3_cg_full C) (@o3_cg_count C) _ hs pr) => // a b.
by eexists.
Qed.
Theorem C74_z2 fuel (irr : seq (seq (nat * bool) * option nd)) :
  (0 < size irr <= fuel)%N -> List.Forall (proper_rep (fun=> 1%N)) irr ->
  exists irs a xs, (forall rnd eigh eps, rtp_list z2_ltN (fun=> 1%N) z2_mulN (z2_cgN C) rnd eigh eps ford_id fuel irr = Ok (irs, a, xs)) /\
    basis_of_all (fun=> 1%N) (map (rdim (fun=> 1%N)) irr) irs a.
Proof.
move=> hs pr; apply: (C74_list z2_ltN _ ford1 (@z2_cg_full C) (@z2_cg_count C) _ hs pr) => // a b.
by eexists.
Qed.
(** Example: spin 1/2 twice, one of them in another basis, and 2 x spin 1. *)
Definition example_reps : seq (seq (nat * nat) * option nd) :=
  [:: one_irrep C 1%N; ([:: (1, 1)%N], Some (Nd [:: 2; 2]%N (fun idx => if idx == [:: 0; 0]%N then 0 else 1 : C))); ([:: (2, 2)%N], None)].
Lemma C74_example : exists irs a xs, (forall rnd eigh eps, rtp_list ltn S su2_mulN (su2_cg C) rnd eigh eps ford_id 3
     example_reps = Ok (irs, a, xs)) /\
   total_dim S irs = 24%N /\ shape a = [:: 2; 2; 6; 24]%N.
Proof.
have [|irs [a [xs [e [[sa et _ _] _]]]]] := @C74_su2 3 example_reps isT.
  constructor; first by [].
  constructor; last by repeat constructor.
  split=> //=; split=> //; rewrite /rdim /=.
  set M := mx2 _ _ _; rewrite (expand_det_row M ord0) big_ord_recl big_ord1 /cofactor !det_mx11 !mxE /=.
  rewrite !mul0r add0r mul1r !mulr1; apply/eqP; by rewrite signr_eq0.
by exists irs, a, xs; split=> //.
Qed.
End Inst.
