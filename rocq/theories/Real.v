(** Real: model of make_explicitly_real (lie_nn/_src/real.py:12-20), and the square root of
    a symmetric unitary matrix. *)
From Coq Require Import ZArith String Ascii.
From mathcomp Require Import all_ssreflect all_algebra.
From mathcomp Require Import zify.
From Verif Require Import Base McRing Nd NdProofs Reps RepSpec RepProofs Pinv RepOps LinAlg GsMx LinAlgProofs IcbProofs CgGenProofs.

Set Implicit Arguments.
Unset Strict Implicit.
Unset Printing Implicit Defensive.

Import Order.POrderTheory Order.TotalTheory GRing.Theory Num.Theory.
Local Open Scope ring_scope.

Section Model.
Variable C : numClosedFieldType.
Notation nd := (nd C).
Variable rnd : nd -> nd.
Variable eigh : nd -> res (nd * nd).
(** scipy.linalg.sqrtm *)
Variable sqrtm : nd -> res nd.
Variable eps : C.
(** np.linalg.norm(x.imag), of the flattened array. *)
Definition norm_imag (x : nd) : C := sqrtC (\sum_(i < nprod (shape x)) 'Im (get x (unravel (shape x) i)) ^+ 2).
Definition tol10 : C := (10%:R ^+ 10)^-1.
(** real.py:12-20; change_basis is the overload for a generic representation
    (change_basis.py:9-27), the others return a ReducedRep with the same generators. *)
Definition make_explicitly_real (r : rep C) : res (rep C) :=
  do S <- rep_icb rnd eigh eps r (conjugate r);
  if len S == 0%N then Err ValueError else
  do _ <- passert (len S == 1%N);
  do Q <- sqrtm (slice0 S 0);
  do r' <- change_basis r Q;
  if tol10 < norm_imag (rX r') then Err ValueError else Ok r'.
(** On a normal invertible matrix A, sqrtm returns a square root that is a function, that is
    a polynomial, of A. *)
Definition sqrtm_correct : Prop := forall d (S : nd), shape S = [:: d.+1; d.+1] -> let A : 'M[C]_d.+1 := mx2 d.+1 d.+1 S in
  A *m adj A = adj A *m A -> A \in unitmx ->
  exists Q, [/\ sqrtm S = Ok Q, shape Q = [:: d.+1; d.+1], mx2 d.+1 d.+1 Q *m mx2 d.+1 d.+1 Q = A &
    exists p : {poly C}, mx2 d.+1 d.+1 Q = horner_mx A p].
End Model.

Section Sqrt.
Variable C : numClosedFieldType.
Variable d : nat.
Local Notation M := 'M[C]_d.+1.
Local Notation cj A := (map_mx conjC A).
Lemma horner_tr (A : M) p : A^T = A -> (horner_mx A p)^T = horner_mx A p.
Proof.
move=> sA; elim/poly_ind: p => [|p c IH]; first by rewrite rmorph0 trmx0.
rewrite rmorphD rmorphM /= horner_mx_X horner_mx_C linearD /= tr_scalar_mx trmx_mul IH sA.
by congr (_ + _); apply: comm_mx_horner.
Qed.
Lemma sqrt_real (S Q : M) p (c : C) : S^T = S -> S *m adj S = c%:M -> 0 < c -> Q = horner_mx S p -> Q *m Q = S ->
  exists2 g : C, 0 < g & Q *m cj Q = g%:M.
Proof.
move=> sS uS c0 eQ QQ; have tQ : Q^T = Q by rewrite eQ horner_tr.
have aQ : adj Q = cj Q by rewrite /adj tQ.
have aS : adj S = cj S by rewrite /adj sS.
have cS : comm_mx S (adj S).
  rewrite /comm_mx; have u : S *m (c^-1 *: adj S) = 1%:M by rewrite -scalemxAr uS scale_scalar_mx mulVf // gt_eqF.
  have := mulmx1C u; rewrite -scalemxAl => e; rewrite uS; apply: (@scalerI _ _ c^-1); first by rewrite invr_eq0 gt_eqF.
  by rewrite e scale_scalar_mx mulVf // gt_eqF.
have cQ : comm_mx Q (adj Q).
  rewrite aQ eQ map_horner_mx; apply: comm_mx_horner; apply: comm_horner_mx; by rewrite -aS.
exists (sqrtC c); first by rewrite sqrtC_gt0.
rewrite -aQ; set P := Q *m adj Q; set g := sqrtC c; have g0 : 0 < g by rewrite sqrtC_gt0.
have PP : P *m P = c%:M.
  by rewrite /P -mulmxA (mulmxA (adj Q)) -cQ -mulmxA (mulmxA Q Q) QQ -(uS) -QQ adjM QQ //.
have z : (P - g%:M) *m (P + g%:M) = 0.
  by rewrite mulmxBl !mulmxDr PP -scalar_mxM -expr2 sqrtCK (scalar_mxC g P) [g%:M *m P + _]addrC subrr.
have fr : row_free (P + g%:M).
  rewrite -kermx_eq0; apply/eqP/row_matrixP => i; rewrite row0; set v := row i _.
  have vz : v *m (P + g%:M) = 0 by rewrite /v -row_mul mulmx_ker row0.
  have := congr1 (fun u => u *m adj v) vz; rewrite mul0mx mulmxDr mulmxDl => /matrixP/(_ 0 0); rewrite mxE [RHS]mxE.
  have -> : (v *m P *m adj v) 0 0 = nrm2 (v *m Q) by rewrite /nrm2 /hip adjM /P !mulmxA.
  have -> : (v *m g%:M *m adj v) 0 0 = g * nrm2 v by rewrite mul_mx_scalar -scalemxAl mxE.
  move/eqP; rewrite paddr_eq0 ?nrm2_ge0 ?mulr_ge0 ?nrm2_ge0 ?ltW // => /andP[_].
  by rewrite mulf_eq0 gt_eqF //= nrm2_eq0 => /eqP.
have : P - g%:M = 0 by apply: (row_free_inj fr); rewrite /= z mul0mx.
by move/eqP; rewrite subr_eq0 => /eqP.
Qed.
End Sqrt.

(** * A correct sqrtm exists *)
Section Exists.
Variable C : numClosedFieldType.
Lemma interpolate (rs : seq C) (f : C -> C) : uniq rs -> exists p : {poly C}, forall r, r \in rs -> p.[r] = f r.
Proof.
elim: rs => [|r rs IH] /=; first by exists 0.
case/andP=> nr /IH[p hp]; pose w := \prod_(x <- rs) ('X - x%:P).
have wr : w.[r] != 0 by rewrite -rootE /w root_prod_XsubC.
exists (p + ((f r - p.[r]) / w.[r])%:P * w) => x; rewrite inE !hornerE => /orP[/eqP ->|hx].
  by rewrite divfK // addrC subrK.
have /eqP -> : w.[x] == 0 by rewrite -rootE /w root_prod_XsubC.
by rewrite mulr0 addr0 hp.
Qed.
Lemma herm_diag n (G : 'M[C]_n) : adj G = G -> diagonalizable G.
Proof.
move=> /spectral[U [d [h1 h2 h3]]]; have uU : U \in unitmx by case/mulmx1_unit: h1.
have iU : invmx U = adj U by rewrite -[LHS]mulmx1 -h1 mulmxA mulVmx // mul1mx.
exists (invmx U); rewrite ?unitmx_inv //; apply/diagonalizable_forLR; rewrite ?unitmx_inv //.
by exists d; rewrite invmxK conjumx // iU -h2.
Qed.
Lemma normal_diag n (A : 'M[C]_n) : A *m adj A = adj A *m A -> diagonalizable A.
Proof.
move=> nA; pose H1 := A + adj A; pose H2 := 'i *: (A - adj A).
have a1 : adj H1 = H1 by rewrite /H1 adjD adjK addrC.
have a2 : adj H2 = H2.
  apply/matrixP=> i j; rewrite !mxE rmorphM rmorphB /= conjCi conjCK mulNr -mulrN opprB //.
have cm : comm_mx H1 H2.
  by rewrite /comm_mx /H1 /H2 -scalemxAl -scalemxAr; congr (_ *: _); rewrite mulmxDl !mulmxBr mulmxBl !mulmxDr nA addrA subrK opprD addrA addrK.
have [P uP] : codiagonalizable [:: H1; H2].
  apply/codiagonalizableP; split=> [X Y|X]; rewrite !inE.
    by move=> /orP[] /eqP -> /orP[] /eqP -> //; apply: comm_mx_sym.
  by move=> /orP[] /eqP ->; apply: herm_diag.
rewrite /= andbT => /andP[/(diagonalizable_forP _ uP) d1 /(diagonalizable_forP _ uP) d2].
exists P => //; apply/(diagonalizable_forP _ uP) => i j ij.
have eA : A = 2%:R^-1 *: (H1 - 'i *: H2).
  rewrite /H1 /H2 scalerA -expr2 sqrCi scaleN1r opprK addrACA subrr addr0 -mulr2n -scaler_nat scalerA mulVf ?scale1r // pnatr_eq0 //.
rewrite eA -scalemxAr -scalemxAl mulmxBr mulmxBl -scalemxAr -scalemxAl !mxE.
by have := d1 i j ij; have := d2 i j ij; rewrite !mxE => -> ->; rewrite mulr0 subr0 mulr0.
Qed.
Lemma sqrt_exists d (A : 'M[C]_d.+1) : A *m adj A == adj A *m A -> exists p, horner_mx A p *m horner_mx A p == A.
Proof.
move=> /eqP/normal_diag/diagonalizableP[rs u dv]; have [p hp] := interpolate sqrtC u; exists p.
have : horner_mx A (p ^+ 2 - 'X) = 0.
  apply/mxminpoly_minP; apply: dvdp_trans dv _; apply: uniq_roots_dvdp; last by rewrite uniq_rootsE.
  by apply/allP => r hr; rewrite rootE hornerD hornerN hornerX horner_exp hp // sqrtCK subrr.
by rewrite rmorphB rmorphX /= horner_mx_X => /eqP; rewrite subr_eq0 expr2.
Qed.
Definition sqrtm0 (s : nd C) : res (nd C) :=
  match shape s with
  | [:: n.+1; m] =>
    if n.+1 == m then
      match boolP (mx2 n.+1 n.+1 s *m adj (mx2 n.+1 n.+1 s) == adj (mx2 n.+1 n.+1 s) *m mx2 n.+1 n.+1 s) with
      | AltTrue h => Ok (nd_of_mx (horner_mx (mx2 n.+1 n.+1 s) (xchoose (sqrt_exists h))))
      | AltFalse _ => Err LinAlgError
      end
    else Err LinAlgError
  | _ => Err LinAlgError
  end.
Lemma sqrtm0_correct : sqrtm_correct sqrtm0.
Proof.
move=> d S sS A nA uA; rewrite /sqrtm0 sS eqxx; case: {-}_ / boolP => h; last by rewrite nA eqxx in h.
eexists; split=> //; rewrite mx2_of_mx; first exact: (eqP (xchooseP (sqrt_exists h))).
by eexists.
Qed.
End Exists.
