(** RtpDense: the generators of SU2, O3 and Z2 generate all the matrices of every finite
    set of irreps ([dense], RtpSpan.v), and their Clebsch-Gordan arrays are complete
    ([cg_full], RtpFull.v). *)
From Coq Require Import ZArith String Ascii List Permutation.
From mathcomp Require Import all_ssreflect all_algebra.
From mathcomp Require Import zify.
From mathcomp.real_closed Require Import mxtens.
From Verif Require Import Base McRing Nd NdProofs Reps RepOps Reduced Labels LabelProofs Su2 Su2Cg Su2CgProofs Su2CgEq Su2Proofs So3Proofs Su2Irr SoCg SoCgProofs So13Proofs Sl2c LinAlg BiProofs CgGenProofs.
From Verif Require Import Perm RedPerm RedPermBasis RedPermSub Rtp RtpArr RtpLoop RtpPres RtpEqv RtpStab RtpReal RtpSym RtpSymAll RtpCon RtpSpan RtpFull RtpFullCon.
From Verif Require Import Properties_Su2 Properties_Cg Properties_SoCg Properties_Rtp Properties_RtpInst Properties_RtpSym.

Set Implicit Arguments.
Unset Strict Implicit.
Unset Printing Implicit Defensive.

Import Order.POrderTheory GRing.Theory Num.Theory.
Local Open Scope ring_scope.

Section Gen.
Variable C : numClosedFieldType.
Variable L : eqType.
Variable dim : L -> nat.
Variable (T : Type) (Y : T -> L -> nat -> nat -> C).
Notation alg := (alg dim Y).
Notation ymx := (ymx dim).

Lemma ymx_one a : ymx (fun _ i j => (i == j)%:R) a = 1%:M :> 'M[C]_(dim a).
Proof. by apply/matrixP=> i j; rewrite !mxE. Qed.
Lemma ymx_lin c (A B : L -> nat -> nat -> C) a : ymx (fun a i j => A a i j + c * B a i j) a = ymx A a + c *: ymx B a.
Proof. by apply/matrixP=> i j; rewrite !mxE. Qed.
Lemma ymx_mul (A B : L -> nat -> nat -> C) a : ymx (fun a i j => \sum_(k < dim a) A a i k * B a k j) a = ymx A a *m ymx B a.
Proof. by apply/matrixP=> i j; rewrite !mxE; apply: eq_bigr => k _; rewrite !mxE. Qed.

Definition sepr (a b : L) : Prop := exists2 A, alg A & ymx A a = 1%:M /\ ymx A b = 0.
(** An operator that is a scalar on both irreps, with different values. *)
Lemma sepr_scalar A a b (x y : C) : alg A -> ymx A a = x%:M -> ymx A b = y%:M -> x != y -> sepr a b.
Proof.
move=> hA ea eb ne; have n0 : x - y != 0 by rewrite subr_eq0.
pose c := (x - y)^-1; pose B := fun a i j => A a i j + (- y) * ((i == j)%:R : C).
pose Z := fun (a : L) (i j : nat) => (i == j)%:R + (-1) * ((i == j)%:R : C).
exists (fun a i j => Z a i j + c * B a i j).
  by apply: alg_lin; apply: alg_lin => //; exact: alg_one.
by rewrite !ymx_lin !ymx_one ea eb; split; apply/matrixP=> i j; rewrite !mxE /c;
   case: eqP => _; rewrite ?mulr1n ?mulr0n; mcf.
Qed.
Lemma dense_intro : (forall a b, a != b -> sepr a b) -> (forall a (i j : 'I_(dim a)), exists2 A, alg A & ymx A a = delta_mx i j) ->
  dense dim Y.
Proof.
move=> hs hl labs a i j _ _ hi hj.
have [P [hP [Pa Pb]]] : exists P, alg P /\ ymx P a = 1%:M /\ forall b, b \in labs -> b != a -> ymx P b = 0.
  elim: labs => [|b labs [P [hP [Pa Pb]]]]; first by exists (fun _ i j => (i == j)%:R); split; [exact: alg_one|rewrite ymx_one].
  case: (eqVneq b a) => [->|ne].
    by exists P; do 2!split=> //; move=> c; rewrite inE => /orP[/eqP->|]; [rewrite eqxx|exact: Pb].
  rewrite eq_sym in ne; have [A hA [Aa Ab]] := hs _ _ ne; exists (fun a i j => \sum_(k < dim a) A a i k * P a k j).
  split; first exact: alg_mul.
  rewrite ymx_mul Aa Pa mul1mx; split=> // c; rewrite ymx_mul inE => /orP[/eqP->|hc nc]; first by rewrite Ab mul0mx.
  by rewrite Pb // mulmx0.
have [A hA eA] := hl a (Ordinal hi) (Ordinal hj).
pose M := fun a i j => \sum_(k < dim a) A a i k * P a k j; exists M; first exact: alg_mul.
move=> b i' j' hb hi' hj'.
have -> : M b i' j' = ymx M b (Ordinal hi') (Ordinal hj') by rewrite mxE.
rewrite /M ymx_mul; case: (eqVneq b a) => [e|ne]; last by rewrite Pb // mulmx0 mxE.
by subst b; rewrite Pa mulmx1 eA mxE.
Qed.
End Gen.

(** ** SU2 *)
Section Su2Full.
Variable C : numClosedFieldType.
Variable n : nat.
Variable P : 'M[C]_n.+1 -> Prop.
Hypothesis P1 : P 1%:M.
Hypothesis Plin : forall c A B, P A -> P B -> P (A + c *: B).
Hypothesis Pmul : forall A B, P A -> P B -> P (A *m B).
Hypothesis PX : forall t, (t < 3)%N -> P (Xm C n t).

Lemma P0 : P 0.
Proof. by have := Plin (-1) P1 P1; rewrite scaleN1r subrr. Qed.
Lemma Pscale c A : P A -> P (c *: A).
Proof. by move=> h; have := Plin c P0 h; rewrite add0r. Qed.
Lemma PM : P (Mm C n).
Proof.
have := Pscale (- 'i) (PX (t := 1%N) isT); rewrite /Xm scalerA mulNr -expr2 sqrCi opprK.
by rewrite scale1r.
Qed.
Lemma PS : P (Sm C n).
Proof.
have n2 : (2%:R : C) != 0 by rewrite pnatr_eq0.
have -> : Sm C n = Xm C n 0 + (- 'i) *: Xm C n 2.
  rewrite /Xm scaleNr scalerA mulrCA -expr2 sqrCi mulrN1 scaleNr opprK -scalerDr.
  by apply/matrixP=> i j; rewrite !mxE; mcf.
by apply: Plin; apply: PX.
Qed.
Lemma PSt : P (Sm C n)^T.
Proof.
have n2 : (2%:R : C) != 0 by rewrite pnatr_eq0.
have -> : (Sm C n)^T = Sm C n + (- 2%:R) *: Xm C n 0.
  by apply/matrixP=> i j; rewrite !mxE; mcf.
by apply: Plin; [exact: PS | apply: PX].
Qed.
Lemma Mm_diag : Mm C n = diag_mx (\row_i mval C n i).
Proof. by apply/matrixP=> i j; rewrite !mxE val_eqE eq_sym; case: eqP => _; rewrite ?mulr1n ?mulr0n. Qed.
Lemma Pii (i : 'I_n.+1) : P (delta_mx i i).
Proof.
have [d [hd [d1 dj]]] : exists d : 'rV[C]_n.+1, P (diag_mx d) /\ d 0 i = 1 /\ forall j, j \in enum 'I_n.+1 -> j != i -> d 0 j = 0.
  elim: (enum _) => [|k s [d [hd [di dj]]]].
    by exists (const_mx 1); rewrite diag_const_mx mxE.
  case: (eqVneq k i) => [->|ne].
    by exists d; do 2!split=> //; move=> j; rewrite inE => /orP[/eqP->|]; [rewrite eqxx|exact: dj].
  pose c := (mval C n i - mval C n k)^-1.
  have n0 : mval C n i - mval C n k != 0.
    by rewrite /mval opprD addrACA subrr add0r subr_eq0 eqr_nat val_eqE eq_sym.
  exists (\row_j (c * (mval C n j - mval C n k) * d 0 j)).
  have -> : diag_mx (\row_j (c * (mval C n j - mval C n k) * d 0 j)) = (c *: (Mm C n + (- mval C n k) *: 1%:M)) *m diag_mx d.
    rewrite Mm_diag -diag_const_mx -linearZ -raddfD -linearZ mulmx_diag; congr diag_mx.
    by apply/rowP=> j; rewrite !mxE mulr1.
  split; first by apply: Pmul => //; apply: Pscale; apply: Plin => //; exact: PM.
  rewrite mxE di /c mulVf // mul1r; split=> // j; rewrite mxE inE => /orP[/eqP->|hj nj]; first by rewrite subrr mulr0 mul0r.
  by rewrite dj // mulr0.
suff -> : delta_mx i i = diag_mx d by [].
apply/matrixP=> a b; rewrite !mxE; case: (eqVneq a b) => [<-|ne].
  by case: (eqVneq a i) => [->|na]; rewrite mulr1n ?d1 // dj ?mem_enum.
by rewrite mulr0n; case: eqP => // <-; rewrite eq_sym (negPf ne).
Qed.
Lemma Ptrans (i j k : 'I_n.+1) : P (delta_mx i j) -> P (delta_mx j k) -> P (delta_mx i k).
Proof. by move=> h1 h2; have := Pmul h1 h2; rewrite mul_delta_mx. Qed.
Lemma Punit (M : 'M[C]_n.+1) (i j : 'I_n.+1) : P M -> M i j != 0 -> P (delta_mx i j).
Proof.
move=> hM ne; have := Pscale (M i j)^-1 (Pmul (Pmul (Pii i) hM) (Pii j)).
have -> // : delta_mx i i *m M *m delta_mx j j = M i j *: delta_mx i j.
  apply/matrixP=> a b; rewrite !mxE (bigD1 j) //= big1 ?addr0 => [|k nk]; last by rewrite !mxE (negPf nk) mulr0.
  rewrite !mxE eqxx /= (bigD1 i) //= big1 ?addr0 => [|k nk]; last by rewrite !mxE (negPf nk) andbF mul0r.
  by rewrite !mxE eqxx andbT; case: (a == i); case: (b == j); rewrite ?mulr1 ?mulr0 ?mul1r ?mul0r.
by rewrite scalerA mulVf // scale1r.
Qed.
Lemma Pnext (i j : 'I_n.+1) : j = i.+1 :> nat -> P (delta_mx i j) /\ P (delta_mx j i).
Proof.
move=> e; have nz : lad C n i != 0 by apply: lad_neq0; have := ltn_ord j; rewrite e ltnS.
by split; [apply: (Punit PS); rewrite mxE e eqxx | apply: (Punit PSt); rewrite !mxE e eqxx].
Qed.
Lemma Pij (i j : 'I_n.+1) : P (delta_mx i j).
Proof.
have zero (k : nat) (hk : (k < n.+1)%N) : P (delta_mx (Ordinal hk) ord0) /\ P (delta_mx ord0 (Ordinal hk)).
  elim: k hk => [|k IH] hk.
    by have -> : Ordinal hk = ord0 by [apply: val_inj]; split; exact: Pii.
  have [h1 h2] := IH (ltnW hk); have [h3 h4] := @Pnext (Ordinal (ltnW hk)) (Ordinal hk) (erefl _).
  by split; [exact: Ptrans h4 h1 | exact: Ptrans h2 h3].
case: i j => [i hi] [j hj]; exact: Ptrans (zero i hi).1 (zero j hj).2.
Qed.
Lemma Pall (M : 'M[C]_n.+1) : P M.
Proof.
rewrite (matrix_sum_delta M).
have Psum (F : 'I_n.+1 -> 'M[C]_n.+1) s : (forall i, P (F i)) -> P (\sum_(i <- s) F i).
  move=> h; elim: s => [|x s IH]; first by rewrite big_nil; exact: P0.
  by rewrite big_cons addrC -[F x]scale1r; apply: Plin.
by apply: (Psum) => i; apply: (Psum) => j; apply: Pscale; exact: Pij.
Qed.
End Su2Full.

Section Inst.
Variable C : numClosedFieldType.
Local Notation none := (fun t : void => match t with end).
Local Notation su2Y := (YY (fun t : 'I_3 => @su2_Y C t) none).
Lemma alg_sum3 (L : eqType) (dim : L -> nat) (T : Type) (Y : T -> L -> nat -> nat -> C) A B D : alg dim Y A -> alg dim Y B -> alg dim Y D ->
  exists2 E, alg dim Y E & forall a, ymx dim E a = ymx dim A a *m ymx dim A a + ymx dim B a *m ymx dim B a + ymx dim D a *m ymx dim D a.
Proof.
move=> hA hB hD; eexists.
  by apply: (alg_lin 1); [apply: (alg_lin 1); apply: alg_mul; [exact: hA|exact: hA|exact: hB|exact: hB] | apply: alg_mul; exact: hD].
by move=> a; rewrite !ymx_lin !ymx_mul !scale1r.
Qed.
Lemma su2_dense : dense S su2Y.
Proof.
apply: dense_intro => [a b ne|a i j].
  have g (t : nat) (ht : (t < 3)%N) : alg S su2Y (@su2_Y C t) by exact: (alg_gen S su2Y (inl (Ordinal ht))).
  have [E hE eE] := alg_sum3 (g 0%N isT) (g 1%N isT) (g 2%N isT).
  have eX n t (ht : (t < 3)%N) : ymx S (@su2_Y C t) n = Xm C n t by have := su2_ymx C (Ordinal ht) n.
  have ec n : ymx S E n = (- (n%:R / 2%:R * (n%:R / 2%:R + 1)))%:M.
    by rewrite eE !eX //; exact: su2_casimir.
  apply: (sepr_scalar hE (ec a) (ec b)); rewrite eqr_opp.
  have q (n : nat) : n%:R / 2%:R * (n%:R / 2%:R + 1) = (n * (n + 2))%N%:R / 4%:R :> C.
    have n2 : (2%:R : C) != 0 by rewrite pnatr_eq0.
    by rewrite -[4%N]/(2 * 2)%N !natrM natrD; mcf.
  have n4 : (4%:R : C)^-1 != 0 by rewrite invr_eq0 pnatr_eq0.
  rewrite !q; apply: contra ne => /eqP/(mulIf n4)/eqP; rewrite eqr_nat => /eqP e.
  by apply/eqP; nia.
apply: (@Pall C a (fun M => exists2 A, alg S su2Y A & ymx S A a = M)).
- by exists (fun _ i j => (i == j)%:R); [exact: alg_one | rewrite ymx_one].
- by move=> c A B [A' hA <-] [B' hB <-]; eexists; [exact: (alg_lin c hA hB) | rewrite ymx_lin].
- by move=> A B [A' hA <-] [B' hB <-]; eexists; [exact: (alg_mul hA hB) | rewrite ymx_mul].
by move=> t ht; exists (@su2_Y C t); [exact: (alg_gen S su2Y (inl (Ordinal ht))) | have := su2_ymx C (Ordinal ht) a].
Qed.

Lemma o3_Pmx (a : nat * bool) : ymx o3_dimN (@o3_P C) a = (sg a.2)%:~R%:M.
Proof.
have := o3_H_at C a.1 (sg a.2) => e; rewrite -e; apply/matrixP=> i j.
by rewrite !mxE.
Qed.
Local Notation o3Y := (YY (fun t : 'I_3 => @o3_Y C t) (fun _ : unit => @o3_P C)).
Lemma o3_dense : dense o3_dimN o3Y.
Proof.
apply: dense_intro => [a b ne|a].
  case: (eqVneq a.1 b.1) => [e|n1].
    apply: (sepr_scalar (alg_gen _ _ (inr tt)) (o3_Pmx a) (o3_Pmx b)); rewrite eqr_int.
    by case: a b e ne => [l x] [l' y] /= ->; rewrite xpair_eqE eqxx /=; case: x; case: y.
  have g (t : nat) (ht : (t < 3)%N) : alg o3_dimN o3Y (@o3_Y C t) by exact: (alg_gen _ o3Y (inl (Ordinal ht))).
  have [E hE eE] := alg_sum3 (g 0%N isT) (g 1%N isT) (g 2%N isT).
  have eX n t (ht : (t < 3)%N) : ymx o3_dimN (@o3_Y C t) n = Ym C n.1 t by have := o3_ymx C (Ordinal ht) n.
  have ec n : ymx o3_dimN E n = (- (n.1%:R * (n.1%:R + 1)))%:M.
    by rewrite eE !eX //; exact: so3_casimir.
  apply: (sepr_scalar hE (ec a) (ec b)); rewrite eqr_opp -![_%:R + 1](natrD _ _ 1) -!natrM eqr_nat.
  by apply: contra n1 => /eqP e; apply/eqP; nia.
have full : forall M : 'M[C]_((2 * a.1).+1), exists2 A, alg o3_dimN o3Y A & ymx o3_dimN A a = adj (Qm C a.1) *m M *m Qm C a.1.
  apply: (@Pall C _ (fun M => exists2 A, alg o3_dimN o3Y A & ymx o3_dimN A a = adj (Qm C a.1) *m M *m Qm C a.1)).
  - by exists (fun _ i j => (i == j)%:R); [exact: alg_one | rewrite ymx_one mulmx1 Qm_unitary].
  - move=> c A B [A' hA eA] [B' hB eB]; eexists; first exact: (alg_lin c hA hB).
    by rewrite ymx_lin eA eB mulmxDr mulmxDl -scalemxAr -scalemxAl.
  - move=> A B [A' hA eA] [B' hB eB]; eexists; first exact: (alg_mul hA hB).
    by rewrite ymx_mul eA eB !mulmxA -(mulmxA _ (Qm C a.1) (adj _)) Qm_unitary' mulmx1.
  by move=> t ht; exists (@o3_Y C t); [exact: (alg_gen _ o3Y (inl (Ordinal ht))) | have := o3_ymx C (Ordinal ht) a].
move=> i j; have [A hA eA] := full (Qm C a.1 *m delta_mx i j *m adj (Qm C a.1)); exists A => //.
by rewrite eA !mulmxA Qm_unitary mul1mx -mulmxA Qm_unitary mulmx1.
Qed.

Lemma z2_Pmx a : ymx (fun=> 1%N) (@z2_P C) a = (sg a)%:~R%:M.
Proof.
have hs : SoCgProofs.sgn (sg a) by case: a.
have [_ <-] := z2_rep_ok C hs; apply/matrixP=> i j.
by rewrite !mxE.
Qed.
Local Notation z2Y := (YY (none : void -> bool -> nat -> nat -> C) (fun _ : unit => @z2_P C)).
Lemma z2_dense : dense (fun=> 1%N) z2Y.
Proof.
apply: dense_intro => [a b ne|a i j].
  apply: (sepr_scalar (alg_gen _ _ (inr tt)) (z2_Pmx a) (z2_Pmx b)); rewrite eqr_int.
  by case: a b ne => [] [].
exists (fun _ i j => (i == j)%:R); first exact: alg_one.
by rewrite ymx_one; apply/matrixP=> x y; rewrite !mxE !ord1.
Qed.

(** ** The Clebsch-Gordan arrays *)
Lemma mapR_getR (A : Type) (g : A -> res (nd C)) l ds : mapR g l = Ok ds -> ds = map (fun x => getR (zeros [::]) (g x)) l.
Proof.
elim: l ds => [|x s IH] ds /=; first by case.
by case: (g x) => //= c; case: (mapR g s) IH => //= r IH [<-]; rewrite -(IH r).
Qed.
Lemma su2_cg_full : cg_full S su2_mulN (su2_cg C).
Proof.
move=> n1 n2 ns em; have ens : ns = su2_list n1 n2.
  by rewrite /su2_list; move: em; rewrite /su2_mulN; case: (su2_mul _ _) => //= l [].
exists (fun=> 1%N), (fun n3 => getR (zeros [::]) (su2_cg C n1 n2 n3)); split=> [n3|i j hi hj].
  by rewrite ens su2_listP => h; have [X [-> [sX _]]] := su2_cg_ok C h.
exists (fun n3 _ k => get (getR (zeros [::]) (su2_cg C n1 n2 n3)) [:: 0%N; i; j; k]) => i' j' hi' hj'.
have [l [el _ _ _ _]] := @su2_selection n1 n2 isT isT.
have [cs [ecs]] := C41_su2_complete C el hi hj hi' hj'; rewrite eq_sym [j == j']eq_sym => <-.
have -> : cs = map (fun n3 => getR (zeros [::]) (su2_cg C n1 n2 n3)) ns.
  have e2 : map absz l = ns by rewrite ens /su2_list el.
  by rewrite e2 in ecs; rewrite (mapR_getR ecs).
rewrite big_map [LHS]big_seq [RHS]big_seq; apply: eq_bigr => n3; rewrite ens su2_listP => h.
by have [X [-> [sX _]]] := su2_cg_ok C h; rewrite big_ord_recl big_ord0 addr0 /= sX.
Qed.
Lemma o3_cg_full : cg_full o3_dimN o3_mulN (o3_cgN C).
Proof.
move=> [l1 b1] [l2 b2] cs em.
have hcs c : c \in cs -> tri (2 * l1) (2 * l2) (2 * c.1) /\ sg c.2 = sg b1 * sg b2.
  move: em; rewrite /o3_mulN /= => -[<-] /mapP[[x y]]; rewrite /o3_mul => /mapP[x' hx [-> ->]] -> /=; split; last by case: (b1); case: (b2).
  by rewrite -so3_listP; apply/mapP; exists x'.
pose f c := getR (zeros [::]) (o3_cgN C (l1, b1) (l2, b2) c).
have ok c : c \in cs -> o3_cgN C (l1, b1) (l2, b2) c = Ok (f c) /\ shape (f c) = [:: 1%N; o3_dimN (l1, b1); o3_dimN (l2, b2); o3_dimN c].
  by move=> /hcs[ht hb]; have [X [e [sX _]]] := so3_cg_ok C ht; rewrite /f /o3_cgN /o3_cg /= hb eqxx e.
exists (fun=> 1%N), f; split=> // i j hi hj.
exists (fun c _ k => (get (f c) [:: 0%N; i; j; k])^*) => i' j' hi' hj'.
have [ds [eds co]] := C65_o3_complete C l1 l2 (sg b1) (sg b2).
rewrite -(co i' j' i j) //.
have -> : ds = map f cs.
  move: em => -[<-]; rewrite -map_comp (mapR_getR eds); apply/eq_in_map => -[x y] /mapP[x' _ [-> ->]].
  by rewrite /f /o3_cgN /=; congr (getR _ (o3_cg _ _ _ (_, _))); case: (b1); case: (b2).
rewrite big_map [LHS]big_seq [RHS]big_seq; apply: eq_bigr => c /ok[_ sX].
by rewrite big_ord_recl big_ord0 addr0 /= sX; apply: eq_bigr => k _; rewrite mulrC.
Qed.
Lemma z2_cg_full : cg_full (fun=> 1%N) z2_mulN (z2_cgN C).
Proof.
move=> a b cs [<-]; exists (fun=> 1%N), (fun c => z2_cg C (sg a) (sg b) (sg c)); split=> [c|i j hi hj].
  rewrite /z2_mul /= mem_seq1 => /eqP->; split=> //; rewrite /z2_cg.
  by case: a; case: b.
exists (fun _ _ _ => 1) => i' j' hi' hj'; rewrite /z2_mul /= !big_cons big_nil !big_ord_recl !big_ord0 /= !addr0 mul1r.
have -> : (i' == i) by move: hi hi'; rewrite !ltnS !leqn0 => /eqP-> /eqP->.
have -> : (j' == j) by move: hj hj'; rewrite !ltnS !leqn0 => /eqP-> /eqP->.
by rewrite /z2_cg; case: a; case: b.
Qed.
Lemma o3_cg_eqvP (t : unit) : cgs o3_dimN o3_mulN (o3_cgN C) (cg_eqvH o3_dimN (@o3_P C)).
Proof.
move=> a1 a2 ns a3 cg z em hin ec es w i j k hw hi hj hk.
have [ez [r1 [r2 [r3 [e1 e2 e3 [_ eqv]]]]]] := o3_cg_case em hin ec es.
by rewrite /o3_P e1 e2 e3; apply: eqv => //; rewrite -ez.
Qed.
Lemma z2_cg_eqvP (t : unit) : cgs (fun=> 1%N) z2_mulN (z2_cgN C) (cg_eqvH (fun=> 1%N) (@z2_P C)).
Proof.
move=> a1 a2 ns a3 cg z [<-] hin [<-] es w i j k hw hi hj hk.
have hs b : SoCgProofs.sgn (sg b) by case: b.
have e3 : sg a3 = sg a1 * sg a2 by move: hin; rewrite inE => /eqP->; case: (a1); case: (a2).
have [eqv _] := C65_z2 C (hs a1) (hs a2); rewrite /z2_P e3; apply: eqv => //.
by move: es; rewrite e3 /z2_cg eqxx /= => -[->].
Qed.

(** ** The orders of the labels *)
Lemma su2_tot (a b : nat) : [|| a == b, (a < b)%N | (b < a)%N].
Proof. by case: ltngtP. Qed.
Lemma z2_irr : irreflexive z2_ltN. Proof. by case. Qed.
Lemma z2_tr : transitive z2_ltN. Proof. by move=> [] [] []. Qed.
Lemma z2_tot a b : [|| a == b, z2_ltN a b | z2_ltN b a]. Proof. by case: a; case: b. Qed.
Lemma o3_irr : irreflexive o3_ltN.
Proof. by move=> a; have [h _ _] := o3_lt_total; apply: negbTE; exact: h. Qed.
Lemma o3_tr : transitive o3_ltN.
Proof. by move=> b a c; have [_ h _] := o3_lt_total; exact: h. Qed.
Lemma o3_tot a b : [|| a == b, o3_ltN a b | o3_ltN b a].
Proof.
have [_ _ h] := o3_lt_total; rewrite /o3_ltN; case: eqP => //= ne; apply: h => //.
by apply/eqP => -[e1 e2]; apply: ne; case: a b e1 e2 => [l x] [l' y] /= [->]; case: x; case: y.
Qed.
End Inst.
