(** RtpFuel: _reduced_tensor_product_basis (Rtp.v) never runs out of fuel. *)
From Coq Require Import ZArith String Ascii List Permutation.
From mathcomp Require Import all_ssreflect all_algebra.
From mathcomp Require Import zify.
From Verif Require Import Base Nd NdProofs Reps Sl2c LinAlg Perm RedPerm Rtp RtpArr RtpLoop.

Set Implicit Arguments.
Unset Strict Implicit.
Unset Printing Implicit Defensive.

Import GRing.Theory Num.Theory.
Local Open Scope ring_scope.

(** * No function but the loops runs out of fuel *)
Definition noof (T : Type) (x : res T) : Prop := x <> Err OutOfFuel.
Lemma noof_bind (S T : Type) (x : res S) (f : S -> res T) : noof x -> (forall a, noof (f a)) -> noof (rbind x f).
Proof. by case: x => [a|e] //= h _ [e']; case: h; rewrite e'. Qed.
Lemma noof_mapR (S T : Type) (f : S -> res T) s : (forall x, noof (f x)) -> noof (mapR f s).
Proof. by move=> h; elim: s => //= x s IH; apply: noof_bind => // y; apply: noof_bind. Qed.
Lemma noof_foldR (S A : Type) (f : A -> S -> res A) a s : (forall b x, noof (f b x)) -> noof (foldR f a s).
Proof. by move=> h; elim: s a => //= x s IH a; apply: noof_bind. Qed.
Ltac nf := repeat match goal with
  | |- noof (Ok _) => discriminate
  | |- noof (Err _) => discriminate
  | |- noof (rbind _ _) => apply: noof_bind; [| let a := fresh "a" in intro a]
  | |- noof (mapR _ _) => apply: noof_mapR; let a := fresh "a" in intro a
  | |- noof (foldR _ _ _) => apply: noof_foldR; let a := fresh "a" in intro a; let b := fresh "b" in intro b
  | |- noof (passert _) => rewrite /passert
  | |- noof (if ?b then _ else _) => case: b
  | |- noof (let _ := _ in _) => cbv zeta
  | |- noof (match ?b with _ => _ end) => destruct b
  end.

Section NoOof.
Variable C : numClosedFieldType.
Notation nd := (nd C).
Variable L : eqType.
Variable lt : rel L.
Variable dim : L -> nat.
Variable mulL : L -> L -> res (seq L).
Variable cgL : L -> L -> L -> res nd.
Variable rnd : nd -> nd.
Variable eigh : nd -> res (nd * nd).
Variable eps : C.
Variable ford : seq nat -> seq nat.
Hypothesis ford_perm : forall f, perm_eq (ford f) f.
Hypothesis mulL_noof : forall a b, noof (mulL a b).
Hypothesis cgL_noof : forall a b c, noof (cgL a b c).
Hypothesis eigh_noof : forall a, noof (eigh a).
Notation irrarr := (irrarr C L).

Lemma noof_new irs xs : noof (@ia_new C L dim irs xs).
Proof. by rewrite /ia_new; nf; rewrite /ia_check; nf. Qed.
Lemma noof_reshape (a : nd) s : noof (reshape a s).
Proof. by rewrite /reshape; nf. Qed.
Lemma noof_pick_all (T : Type) (s : seq T) l : noof (pick_all s l).
Proof. by rewrite /pick_all; nf. Qed.
Lemma noof_sorted b : noof (@ia_sorted C L lt dim b).
Proof. by rewrite /ia_sorted; nf; try exact: noof_new; apply: noof_pick_all. Qed.
Lemma noof_simplify b : noof (@ia_simplify C L dim b).
Proof. by rewrite /ia_simplify; nf; try exact: noof_new; rewrite /simp_step /concat_m2; nf. Qed.
Lemma noof_ia_reshape b s l : noof (@ia_reshape C L dim b s l).
Proof. by rewrite /ia_reshape; nf; try exact: noof_new; apply: noof_reshape. Qed.
Lemma noof_init n i r : noof (@init_basis C L dim n i r).
Proof.
rewrite /init_basis; nf; try exact: noof_new; try exact: noof_reshape.
  by rewrite /np_inv; nf.
by move: 0%N; elim: r.1 => //= m irs IH c; nf; [apply: noof_reshape | apply: IH].
Qed.
Lemma noof_bshape s t : noof (bshape s t).
Proof. by rewrite /bshape; nf. Qed.
Lemma noof_product b1 b2 : noof (@reduce_basis_product C L lt dim mulL cgL b1 b2).
Proof.
rewrite /reduce_basis_product; nf; try exact: noof_new; try exact: noof_simplify; try exact: noof_sorted.
- exact: mulL_noof.
- rewrite /prod_one; nf; [exact: cgL_noof | | exact: noof_reshape].
  by rewrite /einsum_prod; nf; apply: noof_bshape.
Qed.
Lemma noof_matmul (a b : nd) : noof (matmul a b).
Proof. by rewrite /matmul; nf; apply: noof_bshape. Qed.
Lemma noof_gs a : noof (gram_schmidt rnd eps a).
Proof. by rewrite /gram_schmidt; nf; rewrite /stack; nf. Qed.
Lemma noof_bi b1 b2 : noof (basis_intersection rnd eigh eps b1 b2).
Proof.
rewrite /basis_intersection; nf; try exact: noof_matmul; try exact: eigh_noof; try exact: noof_gs.
all: by rewrite /flat2 /concat_last /concat2; nf; apply: noof_reshape.
Qed.
Lemma noof_constrain rb pb : noof (@constrain C L dim rnd eigh eps rb pb).
Proof.
rewrite /constrain; nf; try exact: noof_new.
  by rewrite /flat2; nf; apply: noof_reshape.
rewrite /constrain_one; nf; try exact: noof_bi; try exact: noof_reshape; first by rewrite /at_last0; nf.
by rewrite /einsum_P; nf.
Qed.
Lemma noof_subgroup f G dims : noof (subgroup_perm C ford f G dims).
Proof.
rewrite /subgroup_perm; nf; last by rewrite /reshape_m1; nf; apply: noof_reshape.
rewrite /reduce_subgroup_permutation; nf; rewrite /reduce_permutation_matrix; nf.
by rewrite /fill_row; nf.
Qed.

Local Notation loop := (rtp_loop lt dim mulL cgL rnd eigh eps ford).
Local Notation rtp := (rtp lt dim mulL cgL rnd eigh eps ford).
Lemma noof_loop rec irr G fuel bases : part (size irr) (map fst bases) ->
  (forall s g, (size s < size irr)%N -> noof (rec s g)) ->
  (size bases <= fuel)%N -> (0 < fuel)%N -> noof (loop rec irr G fuel bases).
Proof.
move=> pt ext; elim: fuel bases pt => [|fuel IH] bases // pt s1 _.
case: (size bases =P 1%N) => [e|e1].
  by case: bases e {IH pt s1} => [|b [|]] //= _; nf; [apply: noof_sorted | apply: noof_simplify].
case: (size bases =P 2%N) => [e|e2].
  case: bases e {IH pt e1 s1} => [|b [|c [|]]] //= _; nf; try exact: noof_sorted; try exact: noof_simplify.
  - exact: noof_product.
  - exact: noof_subgroup.
  - exact: noof_constrain.
rewrite !loop_many //=; case: (ltnP 1 (size bases)) => [s3|]; last first.
  by case: bases e1 e2 {IH pt s1} => [|b [|]].
have s3' : (1 < size (map fst bases))%N by rewrite size_map.
have [i [j [-> ij js _]]] := greedyP ford G (map (rdim dim) irr) s3'.
case E: (pick_all _ _) => [sub|er] /=; last by case=> e'; move: E; rewrite e'; apply: noof_pick_all.
have [pt' sf] := part_merge pt ij js.
have h : (size sub < size irr)%N.
  rewrite (pick_all_size E) (perm_size (ford_perm _)) sf; apply: part_lt => //; rewrite size_map; lia.
apply: noof_bind; first exact: ext; move=> ab; apply: noof_bind; first exact: noof_ia_reshape; move=> ab'.
rewrite size_map in js; have sz := size_del2 ij js.
by apply: IH; rewrite ?map_fst_merge //= ?sz; lia.
Qed.
Lemma noof_rtp fuel irr G : (size irr < fuel)%N -> noof (rtp fuel irr G).
Proof.
elim: fuel irr G => [|fuel IH] irr G // s1; rewrite [rtp _ _ _]/= /rtp_body.
case e: (rtp_bases _ _) => [bases|er]; cbn [rbind]; last first.
  move: e; have : noof (rtp_bases dim irr) by rewrite /rtp_bases; nf; apply: noof_init.
  by move=> h e [e']; apply: h; rewrite e e'.
have [pt sz] := rtp_bases_part e; apply: noof_loop => //; last by rewrite sz ltnW.
by move=> s g h; apply: IH; lia.
Qed.
End NoOof.

