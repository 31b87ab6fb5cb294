(** CgGenProofs: the generic clebsch_gordan, is_irreducible, is_real, is_unitary, and
    the existence of a correct eigh. *)
From Coq Require Import ZArith String Ascii.
From mathcomp Require Import all_ssreflect all_algebra.
From mathcomp Require Import zify.
From mathcomp.real_closed Require Import mxtens.
From Verif Require Import Base Nd NdProofs Reps Pinv RepSpec RepProofs RepOps ReducedProofs TpProofs LinAlg GsMx LinAlgProofs IcbProofs.

Set Implicit Arguments.
Unset Strict Implicit.
Unset Printing Implicit Defensive.

Import Order.POrderTheory GRing.Theory Num.Theory.
Local Open Scope ring_scope.

Local Arguments stack : simpl never.

Section CgGen.
Variable C : numClosedFieldType.
Notation nd := (nd C).
Notation id_ := (fun x : nd => x).

(** A correct eigh exists, by the spectral theorem. *)
Definition eigh_dec n (G : 'M[C]_n) (p : 'M[C]_n * 'rV[C]_n) : bool :=
  [&& p.1 *m adj p.1 == 1%:M, G == p.1 *m diag_mx p.2 *m adj p.1 & [forall i, p.2 0 i \is Num.real]].
Lemma eigh_exists n (G : 'M[C]_n) : adj G == G -> exists p, eigh_dec G p.
Proof.
move=> /eqP/spectral[U [d [h1 h2 h3]]]; exists (U, d); rewrite /eigh_dec /= h1 -h2 !eqxx /=.
by apply/forallP.
Qed.
Definition eigh0 (g : nd) : res (nd * nd) :=
  match shape g with
  | [:: n; n'] =>
    if (n == n') then
      match boolP (adj (mx2 n n g) == mx2 n n g) with
      | AltTrue h => let p := xchoose (eigh_exists h) in
          Ok (Nd [:: n] (fun idx => oapp (fun i => p.2 0 i) 0 (insub (head 0%N idx))), nd_of_mx p.1)
      | AltFalse _ => Err LinAlgError
      end
    else Err LinAlgError
  | _ => Err LinAlgError
  end.
Lemma mx2_nd_of_mx m n (M : 'M[C]_(m, n)) : mx2 m n (nd_of_mx M) = M.
Proof. by apply/matrixP=> i j; rewrite !mxE /= !valK. Qed.
Theorem eigh0_correct : eigh_correct eigh0.
Proof.
move=> n g sg hg; rewrite /eigh0 sg eqxx.
case: {-}_ / boolP => [h|]; last by rewrite hg eqxx.
have := xchooseP (eigh_exists h); set p := xchoose _ => /and3P[/eqP p1 /eqP p2 /forallP p3].
eexists; split; first by []; split=> //; split=> //=; rewrite mx2_nd_of_mx.
set d := rv n _; have -> : d = p.2 by apply/rowP=> i; rewrite mxE /= valK.
by split.
Qed.

Section Gen.
Variable eigh : nd -> res (nd * nd).
Hypothesis eighP : eigh_correct eigh.
Variable eps : C.
Hypothesis eps0 : 0 < eps.

(** ** clebsch_gordan *)
(** The identities of an equivariant array c[i, j, k] (see util.py check_representation_triplet). *)
Definition cg_equiv (T : theory C) (d1 d2 d3 : nat) (r1 r2 r3 : rep C) (c : nat -> nat -> nat -> C) : Prop :=
  (forall a i j l, (a < th_l T)%N -> (i < d1)%N -> (j < d2)%N -> (l < d3)%N ->
     \sum_(k < d3) c i j k * get (rX r3) [:: a; l; k : nat] =
     \sum_(i' < d1) get (rX r1) [:: a; i' : nat; i] * c i' j l +
     \sum_(j' < d2) get (rX r2) [:: a; j' : nat; j] * c i j' l) /\
  (forall a i j l, (a < th_h T)%N -> (i < d1)%N -> (j < d2)%N -> (l < d3)%N ->
     \sum_(k < d3) c i j k * get (rH r3) [:: a; l; k : nat] =
     \sum_(i' < d1) \sum_(j' < d2) get (rH r1) [:: a; i' : nat; i] * get (rH r2) [:: a; j' : nat; j] * c i' j' l).
Definition tgens (l d1 d2 : nat) (r1 r2 : rep C) (a : nat) : 'M[C]_(d1 * d2) :=
  if (a < l)%N then tensX (mx3 d1 d1 (rX r1) a) (mx3 d2 d2 (rX r2) a)
  else mx3 d1 d1 (rH r1) (a - l) *t mx3 d2 d2 (rH r2) (a - l).

Definition cgmx d1 d2 d3 (c : nat -> nat -> nat -> C) : 'M[C]_(d3, d1 * d2) :=
  \matrix_(l, x) c (mxtens_unindex x).1 (mxtens_unindex x).2 l.

Lemma cg_equivE T d1 d2 d3 r1 r2 r3 tp c : is_rep T d1 r1 -> is_rep T d2 r2 -> is_rep T d3 r3 ->
  tensor_product r1 r2 = Ok tp ->
  morphism T tp r3 (cgmx d1 d2 d3 c) <-> cg_equiv T d1 d2 d3 r1 r2 r3 c.
Proof.
move=> h1 h2 h3; have [tp' [-> [ht [_ [eX eH]]]]] := tensor_product_ok h1 h2 => -[<-].
rewrite /morphism /cg_equiv.
have EX a i j l : (a < th_l T)%N ->
   ((cgmx d1 d2 d3 c *m mx3 (d1 * d2) (d1 * d2) (rX tp') a) l (mxtens_index (i, j)) = 
   \sum_(i' < d1) get (rX r1) [:: a; i' : nat; i : nat] * c i' j l +
   \sum_(j' < d2) get (rX r2) [:: a; j' : nat; j : nat] * c i j' l).
  move=> ha; rewrite eX // mulmxDr mxE; congr (_ + _); rewrite mxE sum_tensC.
    apply: eq_bigr => i' _; rewrite (bigD1 j) //= big1 ?addr0 => [|j' ne].
      by rewrite !mxE !mxtens_indexK /= eqxx mulr1 mulrC.
    by rewrite !mxE !mxtens_indexK /= (negPf ne) !mulr0.
  rewrite (bigD1 i) //= [X in _ + X]big1 ?addr0 => [|i' ne].
    by apply: eq_bigr => j' _; rewrite !mxE !mxtens_indexK /= eqxx mul1r mulrC.
  by apply: big1 => j' _; rewrite !mxE !mxtens_indexK /= (negPf ne) mul0r mulr0.
have EH a i j l : (a < th_h T)%N ->
   ((cgmx d1 d2 d3 c *m mx3 (d1 * d2) (d1 * d2) (rH tp') a) l (mxtens_index (i, j)) = 
   \sum_(i' < d1) \sum_(j' < d2) get (rH r1) [:: a; i' : nat; i : nat] * get (rH r2) [:: a; j' : nat; j : nat] * c i' j' l).
  move=> ha; rewrite eH // mxE sum_tensC; apply: eq_bigr => i' _; apply: eq_bigr => j' _.
  by rewrite !mxE !mxtens_indexK /= mulrC.
have E3 (x : nd) a i j l : (mx3 d3 d3 x a *m cgmx d1 d2 d3 c) l (mxtens_index (i, j)) =
   \sum_(k < d3) c i j k * get x [:: a; l : nat; k : nat].
  by rewrite mxE; apply: eq_bigr => k _; rewrite !mxE !mxtens_indexK /= mulrC.
split=> -[k1 k2]; split=> a.
- move=> i j l ha hi hj hl; have /matrixP/(_ (Ordinal hl) (mxtens_index (Ordinal hi, Ordinal hj))) := k1 a ha.
  by rewrite EX // E3.
- move=> i j l ha hi hj hl; have /matrixP/(_ (Ordinal hl) (mxtens_index (Ordinal hi, Ordinal hj))) := k2 a ha.
  by rewrite EH // E3.
- move=> ha; apply/matrixP=> l x; case: (mxtens_indexP x) => i j; rewrite EX // E3.
  by rewrite k1.
- move=> ha; apply/matrixP=> l x; case: (mxtens_indexP x) => i j; rewrite EH // E3.
  by rewrite k2.
Qed.

Theorem cg_genP T d1 d2 d3 (r1 r2 r3 : rep C) : is_rep T d1 r1 -> is_rep T d2 r2 -> is_rep T d3 r3 ->
  (0 < th_l T + th_h T)%N -> (0 < d1)%N -> (0 < d2)%N -> (0 < d3)%N -> (d3 * (d1 * d2))%:R * eps ^+ 2 < 1 ->
  gap2 (th_l T + th_h T) (gens (th_l T) d3 r3) (tgens (th_l T) d1 d2 r1 r2) eps ->
  exists k b, cg_gen id_ eigh eps r1 r2 r3 = Ok b /\ shape b = [:: k; d1; d2; d3] /\
  (forall z z', (z < k)%N -> (z' < k)%N ->
     \sum_(i < d1) \sum_(j < d2) \sum_(l < d3) get b [:: z; i : nat; j : nat; l : nat] * (get b [:: z'; i : nat; j : nat; l : nat])^*
     = (z == z')%:R * d3%:R) /\
  forall c : nat -> nat -> nat -> C, cg_equiv T d1 d2 d3 r1 r2 r3 c <->
    exists y : nat -> C, forall i j l, (i < d1)%N -> (j < d2)%N -> (l < d3)%N ->
      c i j l = \sum_(z < k) y z * get b [:: z : nat; i; j; l].
Proof.
move=> h1 h2 h3 N0 d10 d20 d30 ne gp; rewrite /cg_gen.
have [tp [etp [ht [_ [eX eH]]]]] := tensor_product_ok h1 h2; rewrite etp /=.
have D0 : (0 < d1 * d2)%N by rewrite muln_gt0 d10.
have [|k [b [-> [sb [f1 f2]]]]] := rep_icbP eighP eps0 ht h3 N0 D0 d30 ne.
  move=> c S S0; have -> : lap (th_l T + th_h T) (gens (th_l T) d3 r3) (gens (th_l T) (d1 * d2) tp) S = lap (th_l T + th_h T) (gens (th_l T) d3 r3) (tgens (th_l T) d1 d2 r1 r2) S.
    apply: eq_bigr => a _.
    have -> : gens (th_l T) (d1 * d2) tp a = tgens (th_l T) d1 d2 r1 r2 a; last by [].
    rewrite /gens /tgens; case: ifP => ha; first by rewrite eX.
    by rewrite eH // -(ltn_add2l (th_l T)) subnKC // leqNgt ha.
  exact: gp.
rewrite /= /dim (ir_sX h1) (ir_sX h2) (ir_sX h3) /= /reshape_m1 sb /=.
have -> : (d3 * (d1 * (d2 * 1)) == 0)%N = false by apply/negbTE; rewrite muln1 -lt0n muln_gt0 d30.
have -> : (k * (d3 * (d1 * d2 * 1)) %/ (d3 * (d1 * (d2 * 1))))%N = k.
  by rewrite !muln1 mulnK // muln_gt0 d30.
have [|c [-> [sc gc]]] := @reshapeP _ b [:: k; d3; d1; d2]; first by rewrite sb /= !muln1.
rewrite /= /moveaxis13 sc; eexists; eexists; split; first by []; split; first by [].
have gb z (i : 'I_d1) (j : 'I_d2) (l : 'I_d3) : (z < k)%N -> get c [:: z; l : nat; i : nat; j : nat] = mx3 d3 (d1 * d2) b z l (mxtens_index (i, j)).
  move=> hz; rewrite mxE; apply: gc; first by rewrite sb /valid /= hz ltn_ord (mxtens_index_proof (i, j)).
  by rewrite sb /= !muln1 !addn0.
split=> [z z' hz hz' /=|e].
  rewrite -f1 // /mxtrace exchange_big /=.
  under eq_bigr => j _ do rewrite exchange_big /=.
  rewrite exchange_big /=; apply: eq_bigr => l _; rewrite mxE sum_tensC exchange_big /=.
  apply: eq_bigr => i _; apply: eq_bigr => j _; by rewrite !gb // [adj _ _ _]mxE [_^T _ _]mxE.
rewrite -(cg_equivE e h1 h2 h3 etp) f2; split=> -[y ey]; exists y.
- move=> i j l hi hj hl; move/matrixP/(_ (Ordinal hl) (mxtens_index (Ordinal hi, Ordinal hj))): ey.
  rewrite mxE mxtens_indexK /= => ->; rewrite summxE; apply: eq_bigr => z _.
  by rewrite mxE -gb.
- apply/matrixP=> l x; case: (mxtens_indexP x) => i j; rewrite mxE mxtens_indexK /= ey // summxE.
  by apply: eq_bigr => z _; rewrite mxE -gb.
Qed.

(** ** is_irreducible *)
Lemma morphism1 T d (r : rep C) : morphism T r r (1%:M : 'M[C]_d).
Proof. by split=> a _; rewrite mulmx1 mul1mx. Qed.
Lemma frame_one d1 d2 k (S : nat -> 'M[C]_(d1, d2)) K : frame 1 k S K -> (0 < k)%N <-> exists T, T != 0 /\ K T.
Proof.
move=> [h1 h2]; split=> [k0|[T [T0 /h2[c e]]]].
  exists (S 0%N); split.
    apply/eqP=> z; have := h1 0%N 0%N k0 k0; rewrite z mul0mx linear0 eqxx mulr1 => /esym/eqP.
    by rewrite oner_eq0.
  apply/h2; exists (fun i => (i == 0%N)%:R); rewrite (bigD1 (Ordinal k0)) //= scale1r big1 ?addr0 // => i.
  by rewrite -val_eqE /= => /negPf ->; rewrite scale0r.
by case: k e {h1 h2} => // e; move: T0; rewrite e big_ord0 eqxx.
Qed.
Lemma frame_scalar d k (S : nat -> 'M[C]_d) K : (0 < d)%N -> frame 1 k S K -> K 1%:M ->
  k = 1%N <-> forall T, K T -> exists c, T = c%:M.
Proof.
move=> d0 fr K1; have [h1 h2] := fr.
have n1 : (1%:M : 'M[C]_d) != 0 by case: (d) d0 => // d' _; apply: oner_neq0.
split=> [k1 T|sc].
  rewrite k1 in h2; have /h2[c ec] := K1; rewrite big_ord1 in ec.
  case/h2=> y ->; rewrite big_ord1 /=; exists (y 0%N / c 0%N).
  have c0 : c 0%N != 0 by apply: contra n1 => /eqP z; rewrite ec z scale0r.
  by rewrite -scalemx1 ec scalerA divfK.
have k0 : (0 < k)%N by apply/(frame_one fr); exists 1%:M.
apply/eqP; rewrite eqn_leq k0 andbT leqNgt; apply/negP=> k2.
have KS i : (i < k)%N -> K (S i).
  move=> hi; apply/h2; exists (fun j => (j == i)%:R); rewrite (bigD1 (Ordinal hi)) //= eqxx scale1r big1 ?addr0 // => j.
  by rewrite -val_eqE /= => /negPf ->; rewrite scale0r.
have [c0 e0] := sc _ (KS _ k0); have [c1 e1] := sc _ (KS _ k2).
have tE a b : \tr (a%:M *m adj (b%:M : 'M[C]_d)) = a * b^* * d%:R.
  by rewrite -[a%:M]scalemx1 -[b%:M]scalemx1 adjZ adj1 -scalemxAl mul1mx !linearZ /= mxtrace1 mulrA.
have := h1 0%N 1%N k0 k2; rewrite e0 e1 tE mul0r => /eqP.
have := h1 0%N 0%N k0 k0; rewrite e0 tE eqxx mulr1 => f0.
have := h1 1%N 1%N k2 k2; rewrite e1 tE eqxx mulr1 => f1.
rewrite !mulf_eq0 conjC_eq0 pnatr_eq0 (gtn_eqF d0) orbF => /orP[] /eqP z.
  by move/eqP: f0; rewrite z !mul0r eq_sym oner_eq0.
by move/eqP: f1; rewrite z !mul0r eq_sym oner_eq0.
Qed.

Theorem is_irreducibleP T d (r : rep C) : is_rep T d r -> (0 < th_l T + th_h T)%N -> (0 < d)%N ->
  (d * d)%:R * eps ^+ 2 < 1 -> gap_rep T d d r r eps ->
  exists b, is_irreducible id_ eigh eps r = Ok b /\
    (b <-> forall S : 'M[C]_d, morphism T r r S -> exists c, S = c%:M).
Proof.
move=> h N0 d0 ne gp; rewrite /is_irreducible /is_irreducible_u.
have [Y [-> [s1 g1]]] := concat_gens h; rewrite /=.
have [|k [b [-> [sb fr]]]] := icbP eighP eps0 N0 d0 d0 ne s1 s1.
  move=> c S S0; have -> : lap (th_l T + th_h T) (mx3 d d Y) (mx3 d d Y) S = lap (th_l T + th_h T) (gens (th_l T) d r) (gens (th_l T) d r) S.
    by apply: eq_bigr => a _; rewrite g1.
  exact: gp.
rewrite /= /len sb /=; eexists; split; first by [].
have fr' : frame 1 k (mx3 d d b) (morphism T r r).
  apply: frame_ext fr => // S; rewrite -morphism_gens; split=> hh a ha; have := hh a ha; by rewrite g1.
rewrite -(frame_scalar d0 fr' (morphism1 T d r)); split=> /eqP //.
Qed.

(** No invariant subspace (of column vectors) but 0 and the whole space; a subspace
    is given by the rows of U. *)
Definition invariant (T : theory C) d (r : rep C) (U : 'M[C]_d) : Prop :=
  (forall a, (a < th_l T)%N -> (U *m (mx3 d d (rX r) a)^T <= U)%MS) /\
  (forall a, (a < th_h T)%N -> (U *m (mx3 d d (rH r) a)^T <= U)%MS).
Definition irreducible (T : theory C) d (r : rep C) : Prop :=
  forall U : 'M[C]_d, invariant T r U -> U = 0 \/ row_full U.
Definition exact_unitary (T : theory C) d (r : rep C) : Prop :=
  (forall a, (a < th_h T)%N -> mx3 d d (rH r) a *m adj (mx3 d d (rH r) a) = 1%:M) /\
  (forall a, (a < th_l T)%N -> mx3 d d (rX r) a + adj (mx3 d d (rX r) a) = 0).

Lemma schur T d (r : rep C) (S : 'M[C]_d) : (0 < d)%N -> irreducible T d r -> morphism T r r S -> exists c, S = c%:M.
Proof.
move=> d0 irr [mX mH].
have [c cr] : exists c, root (char_poly S^T) c.
  by apply/closed_rootP; rewrite size_char_poly; case: (d) d0.
have /eigenvalueP[y ey y0] : eigenvalue S^T c by rewrite eigenvalue_root_char.
pose U := kermx (S^T - c%:M).
have inv (M : 'M[C]_d) : S *m M = M *m S -> (U *m M^T <= U)%MS.
  move=> e; apply/sub_kermxP; rewrite -mulmxA.
  have -> : M^T *m (S^T - c%:M) = (S^T - c%:M) *m M^T.
    by rewrite mulmxBr mulmxBl scalar_mxC -!trmx_mul e.
  by rewrite mulmxA mulmx_ker mul0mx.
case: (irr U).
- by split=> a ha; apply: inv; [exact: mX|exact: mH].
- move=> U0; have /sub_kermxP: y *m (S^T - c%:M) = 0 by rewrite mulmxBr ey mul_mx_scalar subrr.
  by rewrite -/U U0 submx0 (negPf y0).
- move=> fu; exists c; have : 1%:M *m (S^T - c%:M) = 0 by apply/sub_kermxP; rewrite submx_full.
  by rewrite mul1mx => /eqP; rewrite subr_eq0 => /eqP /(congr1 trmx); rewrite trmxK tr_scalar_mx.
Qed.

Lemma sub_prj d (U : 'M[C]_d) : exists P : 'M[C]_d, [/\ adj P = P, P *m P = P & (P :=: U)%MS].
Proof.
have e0 : (0 : C) <= 0 by [].
have [|||on sub res _] := @gs_fold_inv _ d 0 e0 d U [seq row i U | i <- enum 'I_d] [::].
- exact: orthon0.
- by [].
- by move=> a /mapP[i _ ->]; exact: row_sub.
set ws := foldl _ _ _ in on sub res.
exists (prj ws); split; [exact: prj_adj|exact: prj_idem|].
apply/eqmxP; rewrite (prj_sub sub) /=; apply/row_subP=> i.
have : nrm2 (resid ws (row i U)) <= 0 ^+ 2 by apply: res; apply: map_f; rewrite mem_enum.
rewrite expr0n /= => le; have : nrm2 (resid ws (row i U)) == 0 by rewrite eq_le le nrm2_ge0.
by rewrite nrm2_eq0 subr_eq0 => /eqP ->; exact: submxMl.
Qed.

Lemma unitary_irreducible T d (r : rep C) : exact_unitary T d r ->
  (forall S : 'M[C]_d, morphism T r r S -> exists c, S = c%:M) -> irreducible T d r.
Proof.
move=> [uH uX] sc U [iX iH]; have [P [Ph P2 PU]] := sub_prj U.
have tadj (M : 'M[C]_d) : adj (M^T) = (adj M)^T by apply/matrixP=> i j; rewrite !mxE.
have inv (Y : 'M[C]_d) : (U *m Y <= U)%MS -> P *m Y *m P = P *m Y.
  move=> s; have /submxP[D e] : (P *m Y <= P)%MS by rewrite PU (submx_trans _ s) // submxMr // PU.
  by rewrite e -mulmxA P2.
have mor : morphism T r r P^T.
  have fin (M : 'M[C]_d) : P *m M^T = M^T *m P -> P^T *m M = M *m P^T.
    by move=> e; apply: trmx_inj; rewrite !trmx_mul trmxK e.
  split=> a ha; apply: fin.
  - set X := mx3 _ _ _ _; have xs : adj X = - X by apply/eqP; rewrite -addr_eq0 addrC; apply/eqP/uX.
    have e1 := inv _ (iX a ha); have := congr1 (@adj C d d) e1.
    rewrite !adjM Ph tadj -/X xs linearN /= mulNmx mulmxN => /eqP.
    by rewrite eqr_opp mulmxA -/X e1 => /eqP.
  - set H := mx3 _ _ _ _; have hu : H *m adj H = 1%:M := uH a ha.
    have e1 := inv _ (iH a ha).
    have TT : H^T *m adj (H^T) = 1%:M by rewrite tadj -trmx_mul (mulmx1C hu) trmx1.
    have full : (U <= U *m H^T)%MS.
      have un : H^T \in unitmx by case/mulmx1_unit: TT.
      have : (U *m H^T == U)%MS; last by case/andP.
      rewrite -(geq_leqif (mxrank_leqif_eq (iH a ha))) mxrankMfree //.
      by rewrite row_free_unit.
    have : (U *m adj (H^T) <= U)%MS.
      have := submxMr (adj (H^T)) full; by rewrite -mulmxA TT mulmx1.
    move/inv => e2; have := congr1 (@adj C d d) e2; rewrite !adjM Ph adjK mulmxA e1.
    by move=> ->.
have [c ec] := sc _ mor; have Pc : P = c%:M by rewrite -[P]trmxK ec tr_scalar_mx.
case: (posnP d) => [d0|d0].
  by left; apply/matrixP=> i; exfalso; have := ltn_ord i; rewrite {2}d0.
move: P2; rewrite Pc -scalar_mxM => /matrixP/(_ (Ordinal d0) (Ordinal d0)); rewrite !mxE eqxx !mulr1n => /eqP.
rewrite -subr_eq0 -{3}[c]mulr1 -mulrBr mulf_eq0 subr_eq0 => /orP[] /eqP z.
  left; apply/eqP; rewrite -submx0 -PU Pc z; rewrite raddf0; exact: submx_refl.
by right; rewrite -sub1mx -PU Pc z submx_refl.
Qed.

(** ** is_real *)
Theorem is_realP T d (r : rep C) : is_rep T d r -> is_rep T d (conjugate r) ->
  (0 < th_l T + th_h T)%N -> (0 < d)%N -> (d * d)%:R * eps ^+ 2 < 1 -> gap_rep T d d r (conjugate r) eps ->
  exists b, is_real id_ eigh eps r = Ok b /\
    (b <-> exists S : 'M[C]_d, S != 0 /\ morphism T r (conjugate r) S).
Proof.
move=> h h' N0 d0 ne gp; rewrite /is_real.
have [k [b [-> [sb fr]]]] := rep_icbP eighP eps0 h h' N0 d0 d0 ne gp.
rewrite /= /len sb /=; eexists; split; first by [].
have fr1 : frame 1 k (fun i => (sqrtC d%:R)^-1 *: mx3 d d b i) (morphism T r (conjugate r)).
  have s0 : sqrtC (d%:R : C) != 0 by rewrite sqrtC_eq0 pnatr_eq0 -lt0n.
  have sr : ((sqrtC (d%:R : C))^-1)^* = (sqrtC d%:R)^-1.
    by rewrite conj_Creal // realV ger0_real // sqrtC_ge0 ler0n.
  have := @frame_scale C d d d%:R (sqrtC d%:R)^-1 k (mx3 d d b) (fun i => (sqrtC d%:R)^-1 *: mx3 d d b i) (morphism T r (conjugate r)).
  rewrite sr; have -> : (sqrtC (d%:R : C))^-1 / sqrtC d%:R * d%:R = 1.
    by rewrite -mulrA -{3}[d%:R]sqrtCK expr2 mulKf // mulVf.
  by apply=> //; rewrite invr_eq0.
exact: (frame_one fr1).
Qed.
End Gen.

(** ** is_unitary *)
Lemma transpose021P l d d' (x : nd) : shape x = [:: l; d; d'] -> exists y, transpose021 x = Ok y /\ shape y = [:: l; d'; d] /\
  forall a, mx3 d' d (conj y) a = adj (mx3 d d' x a).
Proof. by move=> sx; rewrite /transpose021 sx; eexists; split=> //; split=> // a; apply/matrixP=> i j; rewrite !mxE. Qed.
Lemma matmul_3_3 l m n p (x y : nd) : shape x = [:: l; m; n] -> shape y = [:: l; n; p] ->
  exists c, matmul x y = Ok c /\ shape c = [:: l; m; p] /\
  forall a, (a < l)%N -> mx3 m p c a = mx3 m n x a *m mx3 n p y a.
Proof.
move=> sx sy; rewrite /matmul sx sy /= eqxx /= bshape_same /=; eexists; split; first by [].
split=> // a ha; apply/matrixP=> i j; rewrite !mxE /=; apply: eq_bigr => k _; rewrite !mxE /bidx /=.
by case: eqP => // l1; move: ha; rewrite l1 ltnS leqn0 => /eqP ->.
Qed.
Lemma bidx_2_3 d a i j : (i < d)%N -> (j < d)%N -> bidx [:: d; d] [:: a; i; j] = [:: i; j].
Proof. by move=> hi hj; rewrite -[RHS](@bidx_same [:: d; d]) // !valid_cons hi hj. Qed.
Lemma allclose_eye l d rt at_ (x : nd) : shape x = [:: l; d; d] ->
  exists b, allclose rt at_ x (eye d) = Ok b /\
  (b <-> forall a (i j : 'I_d), (a < l)%N -> `|mx3 d d x a i j - (i == j)%:R| <= at_ + rt * (i == j)%:R).
Proof.
move=> sx; rewrite /allclose sx.
have -> : bshape [:: l; d; d] (shape (eye d)) = Ok [:: l; d; d].
  by rewrite /bshape /= !eqxx /=; case: eqP.
cbv beta iota delta [rbind]; eexists; split; first by []; split.
- move=> /allP h a i j ha; have := h [:: a; i : nat; j : nat].
  rewrite mem_all_idx !valid_cons ha !ltn_ord => /(_ isT); cbv zeta.
  rewrite [shape (eye d)]/= bidx_2_3 // (@bidx_same [:: l; d; d]); last by rewrite !valid_cons ha !ltn_ord.
  by rewrite !mxE normr_nat.
- move=> h; apply/allP=> -[|a [|i [|j [|? ?]]]]; rewrite mem_all_idx ?valid_cons ?andbF // => /and4P[ha hi hj _]; cbv zeta.
  rewrite [shape (eye d)]/= bidx_2_3 // (@bidx_same [:: l; d; d]); last by rewrite !valid_cons ha hi hj.
  by have := h a (Ordinal hi) (Ordinal hj) ha; rewrite mxE -val_eqE /= normr_nat.
Qed.
Lemma allclose_zero l d rt at_ (x : nd) : shape x = [:: l; d; d] ->
  exists b, allclose rt at_ x (zeros [::]) = Ok b /\
  (b <-> forall a (i j : 'I_d), (a < l)%N -> `|mx3 d d x a i j| <= at_).
Proof.
move=> sx; rewrite /allclose sx /= /bshape /=.
have -> : rev (match rev [:: l; d; d] with [::] => [::] | d1 :: s => d1 :: s end) = [:: l; d; d] by [].
rewrite /=; eexists; split; first by []; split.
- move=> /allP h a i j ha; have := h [:: a; i : nat; j : nat].
  rewrite mem_all_idx /= !valid_cons ha !ltn_ord /= => /(_ isT).
  rewrite (@bidx_same [:: l; d; d]) //; last by rewrite !valid_cons ha !ltn_ord.
  by rewrite subr0 normr0 mulr0 addr0 mxE.
- move=> h; apply/allP=> -[|a [|i [|j [|? ?]]]]; rewrite mem_all_idx /= ?valid_cons // ?andbF // => /and4P[ha hi hj _].
  rewrite (@bidx_same [:: l; d; d]) //; last by rewrite !valid_cons ha hi hj.
  rewrite subr0 normr0 mulr0 addr0; have := h a (Ordinal hi) (Ordinal hj) ha.
  by rewrite mxE.
Qed.

Theorem is_unitaryP T d (r : rep C) : is_rep T d r ->
  exists b, is_unitary r = Ok b /\ (b <->
  (forall a (i j : 'I_d), (a < th_h T)%N ->
     `|(mx3 d d (rH r) a *m adj (mx3 d d (rH r) a)) i j - (i == j)%:R| <= atol13 C + rtol5 C * (i == j)%:R) /\
  (forall a (i j : 'I_d), (a < th_l T)%N ->
     `|(mx3 d d (rX r) a + adj (mx3 d d (rX r) a)) i j| <= atol13 C)).
Proof.
move=> h; rewrite /is_unitary.
have [Ht [-> [sHt gHt]]] := transpose021P (ir_sH h); rewrite /=.
have [HH [-> [sHH gHH]]] := matmul_3_3 (ir_sH h) (sHt : shape (conj Ht) = _).
rewrite /= /dim (ir_sX h) /=.
have [b1 [-> e1]] := allclose_eye (rtol5 C) (atol13 C) sHH; rewrite /=.
have [Xt [-> [sXt gXt]]] := transpose021P (ir_sX h); rewrite /=.
have [|XX [+ [sXX gXX]]] := @bmap2_same _ +%R (rX r) (conj Xt); first by rewrite /= sXt (ir_sX h).
rewrite -/(add _ _) => ->; rewrite /= (ir_sX h) in sXX *.
have [b2 [-> e2]] := allclose_zero (rtol5 C) (atol13 C) sXX; rewrite /=.
eexists; split; first by []; split=> [/andP[/e1 h1 /e2 h2]|[h1 h2]].
- split=> a i j ha; first by have := h1 a i j ha; rewrite gHH // gHt.
  have := h2 a i j ha; rewrite mxE gXX ?(ir_sX h) ?valid_cons ?ha ?ltn_ord //.
  by have := gXt a => /matrixP/(_ i j); rewrite [X in X = _]mxE => ->; rewrite !mxE.
- apply/andP; split; [apply/e1|apply/e2] => a i j ha.
    by have := h1 a i j ha; rewrite gHH // gHt.
  have := h2 a i j ha; rewrite [X in _ -> `|X| <= _]mxE gXX ?(ir_sX h) ?valid_cons ?ha ?ltn_ord //.
  by have := gXt a => /matrixP/(_ i j); rewrite [X in X = _]mxE => ->; rewrite !mxE.
Qed.
Lemma exact_is_unitary T d (r : rep C) : is_rep T d r -> exact_unitary T d r -> is_unitary r = Ok true.
Proof.
move=> h [uH uX]; have [b [-> e]] := is_unitaryP h; congr Ok; apply/e; split=> a i j ha.
  by rewrite uH // mxE subrr normr0 addr_ge0 ?mulr_ge0 ?invr_ge0 ?exprn_ge0 ?ler0n.
by rewrite uX // mxE normr0 invr_ge0 exprn_ge0 ?ler0n.
Qed.
Lemma adj_block m1 m2 n1 n2 (A : 'M[C]_(m1, n1)) B D (E : 'M[C]_(m2, n2)) :
  adj (block_mx A B D E) = block_mx (adj A) (adj D) (adj B) (adj E).
Proof. by rewrite /adj tr_block_mx map_block_mx. Qed.
Lemma unitary_direct_sum T d1 d2 (r1 r2 r : rep C) : is_rep T d1 r1 -> is_rep T d2 r2 ->
  exact_unitary T d1 r1 -> exact_unitary T d2 r2 -> direct_sum r1 r2 = Ok r -> exact_unitary T (d1 + d2) r.
Proof.
move=> h1 h2 [H1 X1] [H2 X2]; have [r' [-> [_ [_ [eX eH]]]]] := direct_sum_ok h1 h2 => -[<-].
split=> a ha; rewrite ?eX ?eH // adj_block !adj0.
  by rewrite mulmx_block !mulmx0 !mul0mx !addr0 !add0r H1 // H2 // -scalar_mx_block.
by rewrite add_block_mx X1 // X2 // !addr0 block_mx0.
Qed.
Lemma unitary_tensor_product T d1 d2 (r1 r2 r : rep C) : is_rep T d1 r1 -> is_rep T d2 r2 ->
  exact_unitary T d1 r1 -> exact_unitary T d2 r2 -> tensor_product r1 r2 = Ok r -> exact_unitary T (d1 * d2) r.
Proof.
move=> h1 h2 [H1 X1] [H2 X2]; have [r' [-> [_ [_ [eX eH]]]]] := tensor_product_ok h1 h2 => -[<-].
split=> a ha; rewrite ?eX ?eH // ?adj_tens.
  by rewrite tensmx_mul H1 // H2 // tens1.
rewrite /tensX adjD !adj_tens !adj1 addrACA -tensDl -tensDr X1 // X2 //.
by rewrite tens0mx tensmx0 addr0.
Qed.
Lemma unitary_change_basis T d d' (r r' : rep C) (Q : nd) : is_rep T d r -> shape Q = [:: d'; d] ->
  adj (mx2 d' d Q) *m mx2 d' d Q = 1%:M -> mx2 d' d Q *m adj (mx2 d' d Q) = 1%:M ->
  d' = d \/ nonempty_rel T ->
  exact_unitary T d r -> change_basis r Q = Ok r' -> exact_unitary T d' r'.
Proof.
move=> h sQ q1 q2 dd [H1 X1].
have fu : row_full (mx2 d' d Q) by apply/row_fullP; exists (adj (mx2 d' d Q)).
have [r2 [-> [_ [_ [eX eH]]]]] := change_basis_ok h sQ fu dd => -[<-].
have pE : pinv_mx (mx2 d' d Q) = adj (mx2 d' d Q).
  by apply: pinvE; split; rewrite ?q1 ?q2 ?mul1mx ?adj1.
split=> a ha; rewrite ?eX ?eH // pE !adjM adjK.
  by rewrite !mulmxA -(mulmxA _ (adj _) (mx2 _ _ _)) q1 mulmx1 -(mulmxA _ (mx3 _ _ _ _) (adj _)) H1 // mulmx1.
by rewrite mulmxA -!mulmxDl -mulmxDr X1 // mulmx0 mul0mx.
Qed.
End CgGen.
