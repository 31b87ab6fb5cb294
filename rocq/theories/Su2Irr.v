(** Su2Irr: SU2 as a family of tabulated irreps: completeness of its Clebsch-Gordan
    coefficients, and the hypotheses of the theorems on tensor products. *)
From Coq Require Import ZArith.
From mathcomp Require Import all_ssreflect all_algebra.
From mathcomp Require Import zify.
From mathcomp.real_closed Require Import mxtens.
From Verif Require Import Base McRing Nd NdProofs Reps RepSpec RepOps Reduced ReducedProofs Intw TpProofs Labels LabelProofs CgSum Su2 Su2Proofs Su2Cg Su2CgProofs Su2CgEq.

Set Implicit Arguments.
Unset Strict Implicit.
Unset Printing Implicit Defensive.

Import Order.POrderTheory Order.TotalTheory GRing.Theory Num.Theory.
Local Open Scope ring_scope.

(** SU2 (su2.py:11-91) as an instance of [irreps]; the defaults of the matches are
    never reached ([su2_rep_ok], [su2_cg_ok], [su2_mulE]). *)
Definition getR (T : Type) (d : T) (x : res T) : T := if x is Ok a then a else d.
Definition su2_list (n1 n2 : nat) : seq nat := [seq absz j | j <- getR [::] (su2_mul n1%:Z n2%:Z)].
Definition su2_irreps (C : numClosedFieldType) : irreps C :=
  @Irreps C nat (fun j => getR (MkRep (zeros [::]) (zeros [::]) (zeros [::])) (su2_rep C j)) S su2_list
    (fun a b c => getR (zeros [::]) (su2_cg C a b c)).

Section Su2Irr.
Variable C : numClosedFieldType.
Notation Bm := (Bm C).
Notation ce := (ce C).

Lemma su2_listP n1 n2 n3 : (n3 \in su2_list n1 n2) = tri n1 n2 n3.
Proof.
rewrite /su2_list su2_mulE /= -mem_su2; apply/mapP/idP => [[j]|h]; last by exists n3%:Z.
rewrite mem_pyrange // => /and3P[h1 h2 h3] ->; rewrite mem_pyrange // gez0_abs; last by lia.
by rewrite h1 h2 h3.
Qed.
Lemma su2_list_dim n1 n2 : (\sum_(n3 <- su2_list n1 n2) n3.+1 = n1.+1 * n2.+1)%N.
Proof.
have := @range_dim2 n1 n2 isT isT; rewrite /su2_list su2_mulE /= big_map => e.
apply/eqP; rewrite -eqz_nat; apply/eqP.
transitivity ((n1%:Z + 1) * (n2%:Z + 1)); last by lia.
rewrite -e (big_morph Posz PoszD (erefl 0)) [LHS]big_seq [RHS]big_seq; apply: eq_bigr => j.
by rewrite mem_pyrange // => /and3P[h1 _ _]; lia.
Qed.
Lemma su2_list_uniq n1 n2 : uniq (su2_list n1 n2).
Proof.
rewrite /su2_list su2_mulE /= map_inj_in_uniq ?pyrange_uniq // => a b.
by rewrite !mem_pyrange // => /and3P[h1 _ _] /and3P[h2 _ _]; lia.
Qed.

(** * Completeness *)
Lemma cgc_real p q r i j k : cgc C p q r i j k \is Num.real.
Proof. by rewrite /cgc rpredM ?cgS_real // ger0_real // sqrtC_ge0 cgK_ge0. Qed.
Lemma ce_real n1 n2 n3 i j k : ce n1 n2 n3 i j k \is Num.real.
Proof. by rewrite /Su2CgEq.ce /cge; case: ifP => _; [exact: cgc_real|exact: real0]. Qed.
Definition proj n1 n2 : 'M[C]_(n1.+1 * n2.+1) := \sum_(n3 <- su2_list n1 n2) Bm n1 n2 n3 *m (Bm n1 n2 n3)^T.

Lemma proj_Bm n1 n2 n3 : n3 \in su2_list n1 n2 -> proj n1 n2 *m Bm n1 n2 n3 = Bm n1 n2 n3.
Proof.
move=> h; rewrite /proj mulmx_suml (bigD1_seq n3) ?su2_list_uniq //= big_seq_cond big1 ?addr0.
  by rewrite -mulmxA Bm_norm ?mulmx1 // -su2_listP.
by move=> n /andP[hn ne]; rewrite -mulmxA Bm_orth ?mulmx0 // -su2_listP.
Qed.
Lemma proj_tr n1 n2 : (proj n1 n2)^T = proj n1 n2.
Proof. by rewrite /proj linear_sum; apply: eq_bigr => n _; rewrite /= trmx_mul trmxK. Qed.
Lemma proj_idem n1 n2 : proj n1 n2 *m proj n1 n2 = proj n1 n2.
Proof.
rewrite {2 3}/proj mulmx_sumr [LHS]big_seq [RHS]big_seq; apply: eq_bigr => n hn.
by rewrite mulmxA proj_Bm.
Qed.
Lemma proj_trace n1 n2 : \tr (proj n1 n2) = (n1.+1 * n2.+1)%:R.
Proof.
rewrite /proj linear_sum /= -[in RHS](su2_list_dim n1 n2) natr_sum [LHS]big_seq [RHS]big_seq; apply: eq_bigr => n hn.
by rewrite mxtrace_mulC Bm_norm ?mxtrace1 // -su2_listP.
Qed.
Lemma proj_real n1 n2 x y : proj n1 n2 x y \is Num.real.
Proof.
rewrite /proj summxE rpred_sum // => n _; rewrite mxE rpred_sum // => z _.
by rewrite !mxE rpredM // ce_real.
Qed.
Lemma real_sq0 n (M : 'M[C]_n) : (forall x y, M x y \is Num.real) -> \tr (M *m M^T) = 0 -> M = 0.
Proof.
move=> hr; have e : \tr (M *m M^T) = \sum_x \sum_y M x y ^+ 2.
  by apply: eq_bigr => x _; rewrite mxE; apply: eq_bigr => y _; rewrite mxE expr2.
have ge x y : 0 <= M x y ^+ 2 by rewrite real_exprn_even_ge0.
rewrite e => /psumr_eq0P h; apply/matrixP=> x y; rewrite mxE.
have /psumr_eq0P h' := h (fun i _ => sumr_ge0 _ (fun k _ => ge i k)) x isT.
by have /eqP := h' (fun k _ => ge x k) y isT; rewrite expf_eq0 => /eqP.
Qed.
Lemma proj_full n1 n2 : proj n1 n2 = 1%:M.
Proof.
have : 1%:M - proj n1 n2 = 0.
  apply: real_sq0 => [x y|]; first by rewrite !mxE rpredB ?realn ?proj_real.
  rewrite linearB /= trmx1 proj_tr mulmxBl mul1mx mulmxBr mulmx1 proj_idem subrr subr0.
  by rewrite linearB /= mxtrace1 proj_trace subrr.
by move/eqP; rewrite subr_eq0 => /eqP.
Qed.

(** * The arrays *)
Lemma su2_cg_ok n1 n2 n3 : tri n1 n2 n3 -> exists X, su2_cg C n1 n2 n3 = Ok X /\
  shape X = [:: 1; n1.+1; n2.+1; n3.+1]%N /\
  forall i j k, (i < n1.+1)%N -> (j < n2.+1)%N -> (k < n3.+1)%N -> get X [:: 0%N; i; j; k] = ce n1 n2 n3 i j k.
Proof.
move=> h; rewrite /su2_cg su2_mulE /= mem_su2 h; move/triP: h => [p [q [r [-> -> ->]]]].
have [X [-> [sX gX]]] := su2_cgmatE C p q r; rewrite /=; eexists; split; first by [].
by rewrite /= sX; split=> // i j k hi hj hk; rewrite gX // ceE.
Qed.
Lemma su2_cg_empty n1 n2 n3 : ~~ tri n1 n2 n3 -> su2_cg C n1 n2 n3 = Ok (zeros [:: 0%N; n1.+1; n2.+1; n3.+1]).
Proof. by move=> h; rewrite /su2_cg su2_mulE /= mem_su2 (negbTE h). Qed.

(** * The hypotheses of C32 *)
Lemma su2_is_rep j : is_rep (su2_th C) j.+1 (rep_of (j : label (su2_irreps C))).
Proof. by have [r [e [h _]]] := su2_rep_ok C j; rewrite /= e. Qed.
Lemma su2_genX j a i k : (a < 3)%N -> (i < j.+1)%N -> (k < j.+1)%N ->
  gen (@rX C) (rep_of (j : label (su2_irreps C))) a i k = Xm C j a (inord i) (inord k).
Proof.
move=> ha hi hk; rewrite /gen /= /su2_rep; have [X [-> [sX gX]]] := su2_X_ok C j.
by rewrite /= -gX // mxE !inordK.
Qed.
Lemma su2_cgE n1 n2 n3 : tri n1 n2 n3 ->
  shape (@cg_of C (su2_irreps C) n1 n2 n3) = [:: 1; n1.+1; n2.+1; n3.+1]%N /\
  forall i j k, (i < n1.+1)%N -> (j < n2.+1)%N -> (k < n3.+1)%N ->
    get (@cg_of C (su2_irreps C) n1 n2 n3) [:: 0%N; i; j; k] = ce n1 n2 n3 i j k.
Proof. by move=> h; have [X [e [sX gX]]] := su2_cg_ok h; rewrite /= e. Qed.
Lemma InP (T : eqType) (x : T) s : List.In x s <-> x \in s.
Proof.
elim: s => [|y s IH] //=; rewrite inE; split=> [[->|/IH ->]|/orP[/eqP ->|/IH]]; rewrite ?eqxx ?orbT //; by [left|right].
Qed.

Lemma su2_equivariant n1 n2 n3 a i j k : tri n1 n2 n3 -> (a < 3)%N -> (i < n1.+1)%N -> (j < n2.+1)%N -> (k < n3.+1)%N ->
  let G := su2_irreps C in let cg := @cg_of C G n1 n2 n3 in
  \sum_(k' < n3.+1) gen (@rX C) (rep_of (n3 : label G)) a k k' * get cg [:: 0%N; i; j; k' : nat] =
  \sum_(i' < n1.+1) gen (@rX C) (rep_of (n1 : label G)) a i' i * get cg [:: 0%N; i' : nat; j; k] +
  \sum_(j' < n2.+1) gen (@rX C) (rep_of (n2 : label G)) a j' j * get cg [:: 0%N; i; j' : nat; k].
Proof.
move=> h ha hi hj hk G cg; have [_ gc] := su2_cgE h; rewrite /cg.
have /matrixP/(_ (mxtens_index (Ordinal hi, Ordinal hj)) (Ordinal hk)) := Bm_X C a h.
rewrite tact_mul mxE => e.
rewrite (eq_bigr (fun k' : 'I_n3.+1 => Bm n1 n2 n3 (mxtens_index (Ordinal hi, Ordinal hj)) k' * (Xm C n3 a)^T k' (Ordinal hk))) => [|x _]; last first.
  by rewrite gc // su2_genX // Bm_at mxE mulrC; congr (_ * Xm C n3 a _ _); apply: val_inj; rewrite /= inordK.
rewrite e; congr (_ + _); apply: eq_bigr => x _; rewrite Bm_at mxE gc // su2_genX //;
  by congr (Xm C _ a _ _ * _); apply: val_inj; rewrite /= inordK.
Qed.

Theorem su2_cg_complete n1 n2 : @cg_ok C (su2_irreps C) (su2_th C) n1 n2.
Proof.
have z n3 : tri n1 n2 n3 -> @cgz C (su2_irreps C) n1 n2 n3 = 1%N.
  by move=> h; rewrite /cgz (proj1 (su2_cgE h)).
have tP n3 : List.In n3 (su2_list n1 n2) -> tri n1 n2 n3 by move/InP; rewrite su2_listP.
split.
- exact: su2_is_rep.
- exact: su2_is_rep.
- by move=> i3 _; exact: su2_is_rep.
- move=> e; have := su2_list_dim n1 n2; rewrite [su2_list n1 n2]e big_nil; lia.
- by move=> i3 /tP h; rewrite z.
- by move=> i3 /tP h; rewrite z //; case: (su2_cgE h).
- move=> i3 a u i j k /tP h ha; rewrite z // => hu; case: u hu => // _.
  exact: su2_equivariant.
- by [].
- rewrite sumnE big_map -[RHS](su2_list_dim n1 n2) [LHS]big_seq [RHS]big_seq; apply: eq_bigr => i3.
  by rewrite su2_listP => /z ->; rewrite mul1n.
- move=> v hv i j hi hj; pose V : 'rV[C]_(n1.+1 * n2.+1) := \row_x v (mxtens_unindex x).1 (mxtens_unindex x).2.
  have V0 : V = 0.
    rewrite -[V]mulmx1 -(proj_full n1 n2) /proj mulmx_sumr big_seq big1 // => n3 hn; rewrite mulmxA.
    suff -> : V *m Bm n1 n2 n3 = 0 by rewrite mul0mx.
    apply/rowP=> k; rewrite !mxE sum_tens.
    have ht : tri n1 n2 n3 by rewrite -su2_listP.
    rewrite -[RHS](hv n3 0%N k) ?InP ?z //; apply: eq_bigr => x _; apply: eq_bigr => y _.
    by rewrite (proj2 (su2_cgE ht)) // Bm_at mxE mxtens_indexK.
  by have /rowP/(_ (mxtens_index (Ordinal hi, Ordinal hj))) := V0; rewrite !mxE mxtens_indexK.
Qed.
End Su2Irr.
