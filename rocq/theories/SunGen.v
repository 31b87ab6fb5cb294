(** SunGen: the generators of SU(N) on the Gelfand-Tsetlin basis and the structure constants. *)
From Coq Require Import ZArith String Ascii.
From Verif Require Import McRing.
From mathcomp Require Import all_ssreflect all_algebra.
From mathcomp.real_closed Require Import mxtens.
From mathcomp.zify Require Import zify.
From Verif Require Import Base Nd NdProofs Reps RepSpec RepProofs RepOps ReducedProofs Pinv Util AlgProofs.
From Verif Require Import Sun SunDet SunDim SunRow SunLadder SunMx SunTog SunLR SunTp SunCg SunHw SunCgProofs SunCgSearch SunGl SunBasis.

Set Implicit Arguments.
Unset Strict Implicit.
Unset Printing Implicit Defensive.

Import GRing.Theory Num.Theory Order.Theory.
Local Open Scope ring_scope.
Local Open Scope string_scope.

Section Gen.
Variable C : numClosedFieldType.
Notation nd := (nd C).
Section One.
Variable S : weight.
Hypothesis vS : valid_S S.
Hypothesis S0 : 0 <= last 0 S.
Notation n := (size S).
Notation G := (gtp (size S) S).
Notation d := (size (gtp (size S) S)).
Notation q := (size (su_pairs (size S))).
Notation p := (Jp S C).

Definition wH (i : nat) (M : pattern) : int := sg S i.+1 M - sg S i M.
Definition H (i : nat) : 'M[C]_d := diag_mx (\row_a (wH i (pat S a))%:~R).
Lemma padj k : (k.+1 < n)%N -> adj (p k) = (p k)^T.
Proof using vS. by move=> h; apply: Jp_adj. Qed.
Lemma HT i : (H i)^T = H i. Proof using. exact: tr_diag_mx. Qed.
Lemma HH i j : cm (H i) (H j) = 0.
Proof using. by rewrite /cm diag_mxC subrr. Qed.
Lemma Hp i k : (k.+1 < n)%N -> cm (H i) (p k) = ((i == k)%:R - (i == k.+1)%:R) *: p k.
Proof using vS. clear S0.
move=> hk; rewrite /cm mul_diag_mx mul_mx_diag; apply/matrixP => a b; rewrite !mxE [_ * jel _ _ _ _ _]mulrC -mulrBr.
rewrite /jel mulr_suml mulr_sumr; apply: eq_bigr => t st; rewrite mulrC; congr (_ * _).
have lq : lvl S k t by [].
rewrite -rmorphB /= /wH !(sg_step vS _ lq _ _ st) ?patG //.
move: (sg S i.+1 _) (sg S i _) => x y.
rewrite eqSS (_ : x + (i == k)%:Z - (y + (i == k.+1)%:Z) - (x - y) = (i == k)%:Z - (i == k.+1)%:Z).
  by rewrite rmorphB.
by lia.
Qed.
Lemma pm k l : (k.+1 < n)%N -> (l.+1 < n)%N -> cm (p k) (p l)^T = if k == l then H k - H k.+1 else 0.
Proof using vS. clear S0.
move=> hk hl; rewrite /cm JpJm //; case: (k == l) => //.
apply/matrixP => a b; rewrite !mxE; case: (a == b); rewrite ?mulr1n ?mulr0n ?mulr0 ?subr0 //.
rewrite mulrCA mulfV ?pnatr_eq0 // mulr1 -rmorphB /= /wz /wH; congr (_%:~R).
by move: (sg S k.+1 _) (sg S k _) (sg S k.+2 _) => x y z; lia.
Qed.
Definition ES : nat -> nat -> 'M[C]_d := E p H.
Definition PhiS : 'M[C]_n -> 'M[C]_d := Phi (n := n) p H.
Lemma PhiS_cm X Y : PhiS (cm X Y) = cm (PhiS X) (PhiS Y).
Proof using vS. exact: (Phi_cm padj HT HH Hp pm). Qed.
Lemma PhiS_un k l : (k < n)%N -> (l < n)%N -> PhiS (un C n k l) = ES k l.
Proof using.
move=> hk hl; rewrite -[ES k l](Phi_delta p H (Ordinal hk) (Ordinal hl)); congr Phi.
by apply/matrixP => a b; rewrite !mxE -!val_eqE.
Qed.
Notation N2 := (q + q + n.-1)%N.
Lemma n_gt0 : (0 < n)%N. Proof using vS. by case/valid_SP: vS. Qed.
Lemma gX_ext e (E1 E2 : nat -> nat -> 'M[C]_e) g : (forall k l, (k < n)%N -> (l < n)%N -> E1 k l = E2 k l) ->
  (g < N2)%N -> gX n E1 g = gX n E2 g.
Proof using vS. clear S0.
move=> h hg; rewrite /gX.
have pp a : (a < q)%N -> let k := (nth (0%N, 0%N) (su_pairs n) a).1 in let l := (nth (0%N, 0%N) (su_pairs n) a).2 in (k < n)%N /\ (l < n)%N.
  move=> ha; have : nth (0%N, 0%N) (su_pairs n) a \in su_pairs n by apply: mem_nth.
  by case: (nth _ _ a) => k l; rewrite mem_pairs /= => /andP[kl ln]; split=> //; apply: ltn_trans ln.
case: ifP => [hq|/negbT]; first by have [h1 h2] := pp g hq; rewrite !h.
rewrite -leqNgt => hq; case: ifP => [hq2|/negbT].
  have hq3 : (g - q < q)%N by move: hq hq2; clear; lia.
  by have [h1 h2] := pp _ hq3; rewrite !h.
rewrite -leqNgt => hq2; have h1 : ((g - (q + q)).+1 < n)%N by move: n_gt0 hg hq2; clear; lia.
by rewrite !h //; apply: ltn_trans h1.
Qed.
Lemma PhiS_gen g : (g < N2)%N -> PhiS (su_gen C n g) = gX n ES g.
Proof using vS. clear S0.
move=> hg; transitivity (gX n (fun k l => PhiS (un C n k l)) g); last first.
  by apply: gX_ext => // k l hk hl; apply: PhiS_un.
rewrite /su_gen /gX; case: ifP => _; first by rewrite [LHS]PhiZ PhiD.
by case: ifP => _; [exact: PhiB | rewrite [LHS]PhiZ PhiB].
Qed.

(** The structure constants. *)
Definition sc (m : nat) (i j k : nat) : C := crd m (en (cm (su_gen C m i) (su_gen C m j))) k.
Lemma sc_gen m d' (F : nat -> nat -> 'M[C]_d') i j : (0 < m)%N ->
  (i < size (su_pairs m) + size (su_pairs m) + m.-1)%N -> (j < size (su_pairs m) + size (su_pairs m) + m.-1)%N ->
  \sum_(k < size (su_pairs m) + size (su_pairs m) + m.-1) sc m i j k *: gX m F k =
  \sum_(k < m) \sum_(l < m) en (cm (su_gen C m i) (su_gen C m j)) k l *: F k l.
Proof using. clear S vS S0.
move=> m0 hi hj; apply: spanE => // [k l hk hl|].
  have e : adj (cm (su_gen C m i) (su_gen C m j)) = - cm (su_gen C m i) (su_gen C m j).
    rewrite /cm adjB !adjM !su_gen_adj // !mulNmx !mulmxN !opprK.
    by rewrite opprB.
  move: (cm _ _) e => K /matrixP/(_ (Ordinal hl) (Ordinal hk)); rewrite !mxE.
  by rewrite (enE _ (Ordinal hl) (Ordinal hk)) (enE _ (Ordinal hk) (Ordinal hl)) => ->; rewrite opprK.
under eq_bigr => t _ do rewrite enE.
by rewrite -/(\tr _) linearB /= mxtrace_mulC subrr.
Qed.
Lemma sc_real m i j k : sc m i j k \is Num.real. Proof using. exact: crd_real. Qed.
Lemma sc_su m i j : (0 < m)%N ->
  (i < size (su_pairs m) + size (su_pairs m) + m.-1)%N -> (j < size (su_pairs m) + size (su_pairs m) + m.-1)%N ->
  cm (su_gen C m i) (su_gen C m j) = \sum_(k < size (su_pairs m) + size (su_pairs m) + m.-1) sc m i j k *: su_gen C m k.
Proof using. by move=> m0 hi hj; rewrite sc_gen // sum_un. Qed.
Lemma comm_gX i j : (i < N2)%N -> (j < N2)%N -> cm (gX n ES i) (gX n ES j) = \sum_(k < N2) sc n i j k *: gX n ES k.
Proof using vS. clear S0.
move=> hi hj; rewrite -!PhiS_gen // -PhiS_cm sc_gen ?n_gt0 //.
by apply: eq_bigr => k _; apply: eq_bigr => l _; rewrite enE.
Qed.
Lemma indep_gX : (exists k, (k.+1 < n)%N /\ p k != 0) -> lin_indep N2 (gX n ES).
Proof using vS. clear S0.
move=> nz c e; apply: (su_gen_indep n_gt0).
apply: (Phi_inj padj HT HH Hp pm nz).
  rewrite linear_sum /= big1 // => g _; rewrite linearZ /= su_gen_tr ?n_gt0 ?mulr0 //.
rewrite Phi_sum -[RHS]e; apply: eq_bigr => g _; rewrite PhiZ; congr (_ *: _); exact: PhiS_gen.
Qed.

(** The generators are antihermitian. *)
Lemma adj_EU s i : (i + s.+1 < n)%N -> adj (EU p s i) = (EU p s i)^T.
Proof using vS. clear S0.
elim: s i => [|s IH] i hs /=; first by apply: padj; move: hs; clear; lia.
have h : adj (EU p s i.+1) = (EU p s i.+1)^T by apply: IH; move: hs; clear; lia.
by rewrite cm_tr /cm adjB !adjM h padj ?opprB //; move: hs; clear; lia.
Qed.
Lemma adj_ES k l : (k < n)%N -> (l < n)%N -> adj (ES k l) = ES l k.
Proof using vS. clear S0.
move=> hk hl; have [h|h|->] := ltngtP k l.
- by rewrite /ES (E_lt _ _ h) (E_gt _ _ h) adj_EU //; move: h hl; clear; lia.
- by rewrite /ES (E_lt _ _ h) (E_gt _ _ h) -adj_EU ?adjK //; move: h hk; clear; lia.
- rewrite /ES E_eq; apply/matrixP => a b; rewrite !mxE eq_sym; case: (a =P b) => [->|_]; rewrite ?mulr1n ?mulr0n ?conjC0 //.
  by rewrite rmorph_int.
Qed.
Lemma adj_gX g : (g < N2)%N -> adj (gX n ES g) = - gX n ES g.
Proof using vS. clear S0.
move: g; apply: (@gX_ind _ n _ ES (fun X => adj X = - X)) => [|k l h|k l h|t h]; first exact: n_gt0.
- have hk : (k < n)%N by move: h; clear; lia.
  have hl : (l < n)%N by move: h; clear; lia.
  by rewrite adjZ adjD !adj_ES // conjCi addrC scaleNr.
- have hk : (k < n)%N by move: h; clear; lia.
  have hl : (l < n)%N by move: h; clear; lia.
  by rewrite adjB !adj_ES // opprB.
- by rewrite adjZ adjB !adj_ES // ?conjCi ?scaleNr //; apply: ltnW.
Qed.

(** The arrays. *)
Section Arrays.
Variables U L : nd.
Hypothesis sU : shape U = [:: n.-1; d; d].
Hypothesis sL : shape L = [:: n.-1; d; d].
Hypothesis mU : forall l, (l < n.-1)%N -> mx3 d d U l = p l.
Hypothesis mL : forall l, (l < n.-1)%N -> mx3 d d L l = (p l)^T.
Lemma E_basisE f k l : (k < n)%N -> (l < n)%N -> k != l -> (k - l + (l - k) <= f)%N ->
  exists e, [/\ E_basis_fuel f k l U L = Ok e, shape e = [:: d; d] & mx2 d d e = ES k l].
Proof using vS sU sL mU mL. clear S0.
elim: f k l => [|f IH] k l hk hl kl hf; first by exfalso; move: kl hf; clear; lia.
have slU t : shape (slice0 U t) = [:: d; d] by rewrite /= sU.
have slL t : shape (slice0 L t) = [:: d; d] by rewrite /= sL.
rewrite /= kl /=; case: (k.+1 =P l) => [e|k1].
  subst l; exists (slice0 U k); split=> //; rewrite mx3_slice mU ?[ES _ _]E_p //; move: hl; clear; lia.
case: ltnP => h.
  have [||||e [-> se me]] := IH k.+1 l; try by move: h hf hk hl k1; clear; lia.
  have [c [ec sc mc]] := commutatorP (slU k) se.
  exists c; split=> //; rewrite mc mx3_slice mU ?me; last by move: h hl; clear; lia.
  rewrite -/(cm _ _) /ES !E_lt //; last by move: h k1; clear; lia.
  by rewrite (_ : (l - k.+1 = (l - k.+2).+1)%N) //; move: h k1; clear; lia.
case: (k =P l.+1) => [e|k2].
  subst k; exists (slice0 L l); split=> //; rewrite mx3_slice mL ?[ES _ _]E_m //; move: hk; clear; lia.
have [||||e [-> se me]] := IH k.-1 l; try by move: h hf hk hl kl k2; clear; lia.
have [c [ec sc mc]] := commutatorP (slL k.-1) se.
exists c; split=> //; rewrite mc mx3_slice mL ?me; last by move: kl h hk; clear; lia.
rewrite -/(cm _ _) /ES !E_gt; try by move: kl h k2; clear; lia.
have -> : (k - l.+1 = (k.-1 - l.+1).+1)%N by move: kl h k2; clear; lia.
rewrite -(right padj Hp pm); last by move: kl h k2 hk; clear; lia.
have -> : (l + (k.-1 - l.+1).+1 = k.-1)%N by move: kl h k2; clear; lia.
by rewrite cm_tr -cmC.
Qed.
Lemma E_basisP k l : (k < n)%N -> (l < n)%N -> k != l ->
  exists e, [/\ E_basis k l U L = Ok e, shape e = [:: d; d] & mx2 d d e = ES k l].
Proof using vS sU sL mU mL. clear S0.
by move=> hk hl kl; apply: E_basisE => //; clear; lia.
Qed.
End Arrays.

Lemma stackE (T : eqType) (l : seq T) (f : T -> res nd) (F : T -> 'M[C]_d) : (0 < size l)%N ->
  (forall x, x \in l -> exists e, [/\ f x = Ok e, shape e = [:: d; d] & mx2 d d e = F x]) ->
  exists Ls r, [/\ mapR f l = Ok Ls, stack Ls = Ok r, shape r = [:: size l; d; d] &
    forall x0 i, (i < size l)%N -> mx3 d d r i = F (nth x0 l i)].
Proof using. clear vS S0.
move=> l0 h.
pose g x := if f x is Ok e then e else zeros [::].
have hg x : x \in l -> [/\ f x = Ok (g x), shape (g x) = [:: d; d] & mx2 d d (g x) = F x].
  by move=> hx; have [e [ee se me]] := h x hx; rewrite /g ee.
rewrite (mapR_ok_in (g := g)) => [|x hx]; last by have [] := hg x hx.
case: l l0 h hg => // x1 l _ _ hg.
have [|r [e [sr gr]]] := @stack_ok C (size (x1 :: l)) [:: d; d] (map g (x1 :: l)) (size_map _ _) isT.
  by move=> k hk; rewrite (nth_map x1) //; have [] := hg _ (mem_nth x1 hk).
exists (map g (x1 :: l)), r; split=> // x0 i hi; have [_ _ <-] := hg _ (mem_nth x0 hi).
by apply/matrixP => a b; rewrite !mxE gr // (nth_map x0).
Qed.
Lemma sun_generatorsE : (1 < n)%N -> exists X, [/\ sun_generators C S = Ok X, shape X = [:: N2; d; d] &
  forall g, (g < N2)%N -> mx3 d d X g = gX n ES g].
Proof using vS S0.
move=> n1; rewrite /sun_generators (_ : (n == 1%N) = false); last by move: n1; clear; lia.
have [U -> [sU mU]] := upper_matricesE C vS S0.
have [L -> [sL mL]] := lower_matricesE C vS S0.
have [Z -> [sZ mZ]] := Jz_matricesE C vS.
cbv beta iota delta [rbind].
have q0 : (0 < q)%N.
  by have := size_pairs n; rewrite -addnn; move: n1; clear; case: q => //; lia.
have [|Li [Xi [-> -> sXi mXi]]] := @stackE _ (su_pairs n) (fun p => do a <- E_basis p.1 p.2 U L; do b <- E_basis p.2 p.1 U L;
                            do s <- add a b; Ok (scale 'i s)) (fun p => 'i *: (ES p.1 p.2 + ES p.2 p.1)) q0.
  move=> [k l]; rewrite mem_pairs /= => /andP[kl hl]; have hk : (k < n)%N by apply: ltn_trans hl.
  have [|a [-> sa ma]] := @E_basisP U L sU sL mU mL k l hk hl; first by rewrite neq_ltn kl.
  have [|b [-> sb mb]] := @E_basisP U L sU sL mU mL l k hl hk; first by rewrite neq_ltn kl orbT.
  cbv beta iota delta [rbind].
  rewrite /add; have [c [-> [sc gc]]] := @bmap2_same C +%R a b (etrans sa (esym sb)).
  exists (scale 'i c); split=> //; first by rewrite /= sc.
  rewrite -ma -mb; apply/matrixP => x y; rewrite !mxE /= gc // sa.
  by rewrite !valid_cons !ltn_ord.
cbv beta iota delta [rbind].
have [|Lr [Xr [-> -> sXr mXr]]] := @stackE _ (su_pairs n) (fun p => do a <- E_basis p.1 p.2 U L; do b <- E_basis p.2 p.1 U L;
                            sub a b) (fun p => ES p.1 p.2 - ES p.2 p.1) q0.
  move=> [k l]; rewrite mem_pairs /= => /andP[kl hl]; have hk : (k < n)%N by apply: ltn_trans hl.
  have [|a [-> sa ma]] := @E_basisP U L sU sL mU mL k l hk hl; first by rewrite neq_ltn kl.
  have [|b [-> sb mb]] := @E_basisP U L sU sL mU mL l k hl hk; first by rewrite neq_ltn kl orbT.
  cbv beta iota delta [rbind].
  rewrite /sub; have [c [-> [sc gc]]] := @bmap2_same C (fun x y => x - y) a b (etrans sa (esym sb)).
  exists c; split=> //; first by rewrite sc.
  rewrite -ma -mb; apply/matrixP => x y; rewrite !mxE /= gc // sa.
  by rewrite !valid_cons !ltn_ord.
cbv beta iota delta [rbind].
rewrite /concat2 sXi sXr /= eqxx sZ /= eqxx /len /= sXi sXr sZ /=.
eexists; split; first by []; first by [].
move=> g hg; rewrite /gX; apply/matrixP => x y; rewrite mxE /=.
have [h1|h1] := ltnP g q.
  have -> : (g < q + q)%N by move: h1; clear; lia.
  by rewrite -(mXi (0%N, 0%N) g h1) mxE.
have [h2|h2] := ltnP g (q + q).
  have h3 : (g - q < q)%N by move: h1 h2; clear; lia.
  by rewrite -(mXr (0%N, 0%N) _ h3) mxE.
have h3 : ((g - (q + q)).+1 < n)%N by move: n1 hg h2; clear; lia.
have h4 : (g - (q + q) < n.-1)%N by move: h3; clear; lia.
have -> : get Z [:: (g - (q + q))%N; x : nat; y : nat] = Jz S C (g - (q + q)) x y by rewrite -(mZ _ h4) mxE.
have := pm h3 h3; rewrite eqxx /cm JpJm // eqxx => e.
by rewrite /ES !E_eq -e !mxE mulrA [2%:R * _]mulrC.
Qed.

(** Some raising matrix is not zero unless all the entries of S are equal. *)
Lemma wz_top l : (l < n.-1)%N -> wz S l (topM S) = S`_(n - l.+2) - S`_(n - l.+1).
Proof using vS. clear S0.
move=> hl; have sgt i : sg S i (topM S) = \sum_(j < n - i) S`_j.
  by apply: eq_bigr => j _; rewrite topM_ent //; have := ltn_ord j; lia.
have e1 : (n - l = (n - l.+2).+2)%N by move: hl; clear; lia.
have e2 : (n - l.+1 = (n - l.+2).+1)%N by move: hl; clear; lia.
rewrite /wz !sgt e1 e2 !big_ord_recr /=.
by move: (\sum_(_ < _) _) S`_(n - l.+2) S`_(n - l.+2).+1 => x y z; clear; lia.
Qed.
Lemma p_neq0 k : (k.+1 < n)%N -> S`_(n - k.+2) != S`_(n - k.+1) -> p k != 0.
Proof using vS. clear S0.
move=> hk; apply: contra => /eqP e.
have := pm hk hk; rewrite eqxx e /cm mul0mx mulmx0 subrr => /esym.
have hi : (index (topM S) G < d)%N by rewrite index_mem topG.
move/matrixP/(_ (Ordinal hi) (Ordinal hi)); rewrite !mxE eqxx !mulr1n /pat /= nth_index ?topG //.
rewrite -rmorphB /= => /eqP; rewrite intr_eq0 => /eqP.
have := @wz_top k; rewrite /wz /wH; set x := sg S k.+1 _; set y := sg S k _; set z := sg S k.+2 _ => h.
have {}h : 2%:R * x - y - z = S`_(n - k.+2) - S`_(n - k.+1) by apply: h; move: hk; clear; lia.
move: S`_(n - k.+2) S`_(n - k.+1) h => u v; clearbody x y z; clear; lia.
Qed.
End One.

(** The structure constants computed from the fundamental representation. *)
Lemma einsum_iab (X : nd) m d : shape X = [:: m; d; d] -> exists c, [/\ einsum2 "iab" "jbc" "ijac" X X = Ok c,
  shape c = [:: m; m; d; d] &
  forall i j (a b : 'I_d), get c [:: i; j; a : nat; b : nat] = (mx3 d d X i *m mx3 d d X j) a b].
Proof.
move=> sX; rewrite /einsum2 /einsum_ops /bind_all /= sX /= ?eqxx /=.
eexists; split; [by []| by [] |] => i j a b /=.
by rewrite mxE; apply: eq_bigr => k _; rewrite /term /= mulr1 !mxE.
Qed.
Lemma einsum_jab (X : nd) m d : shape X = [:: m; d; d] -> exists c, [/\ einsum2 "jab" "ibc" "ijac" X X = Ok c,
  shape c = [:: m; m; d; d] &
  forall i j (a b : 'I_d), get c [:: i; j; a : nat; b : nat] = (mx3 d d X j *m mx3 d d X i) a b].
Proof.
move=> sX; rewrite /einsum2 /einsum_ops /bind_all /= sX /= ?eqxx /=.
eexists; split; [by []| by [] |] => i j a b /=.
by rewrite mxE; apply: eq_bigr => k _; rewrite /term /= mulr1 !mxE.
Qed.
Lemma einsum_ijz (D P : nd) m r k : shape D = [:: m; m; r] -> shape P = [:: r; k] -> exists c, [/\ einsum2 "ijz" "zk" "ijk" D P = Ok c,
  shape c = [:: m; m; k] &
  forall i j (x : nat), get c [:: i; j; x] = \sum_(z < r) get D [:: i; j; z : nat] * get P [:: z : nat; x]].
Proof.
move=> sD sP; rewrite /einsum2 /einsum_ops /bind_all /= sD sP /= ?eqxx /=.
eexists; split; [by []| by [] |] => i j a /=.
by apply: eq_bigr => z _; rewrite /term /= mulr1.
Qed.
Definition fund (m : nat) : weight := 1 :: nseq (m - 1) 0.
Lemma size_fund m : (0 < m)%N -> size (fund m) = m.
Proof. by move=> h; rewrite /= size_nseq; lia. Qed.
Lemma valid_fund m : valid_S (fund m).
Proof.
apply/valid_SP; split=> // i; rewrite /= size_nseq ltnS => hi.
by case: i hi => [|i] hi /=; rewrite !nth_nseq; do 2?case: ifP.
Qed.
Lemma last_fund m : 0 <= last 0 (fund m).
Proof. by rewrite /fund /=; case: (m - 1)%N => //= k; elim: k => //=. Qed.
Lemma sun_algebra_ofE (S : weight) : (1 < size S)%N ->
  let N2 := (size (su_pairs (size S)) + size (su_pairs (size S)) + (size S).-1)%N in
  exists A, [/\ sun_algebra_of C (fund (size S)) = Ok A, shape A = [:: N2; N2; N2] &
  forall i j k, (i < N2)%N -> (j < N2)%N -> (k < N2)%N -> get A [:: i; j; k] = sc (size S) i j k].
Proof.
move: (size S) => n n1 N2; have n0 : (0 < n)%N by apply: ltn_trans n1.
have vF := valid_fund n; have lF := last_fund n.
have sF := size_fund n0; have [F eF] : exists F, F = fund n by exists (fund n).
rewrite -eF in vF lF sF *.
have [d [X [eX sX li e]]] : exists d X, [/\ sun_generators C F = Ok X, shape X = [:: N2; d; d], lin_indep N2 (mx3 d d X) &
    forall i j, (i < N2)%N -> (j < N2)%N -> AlgProofs.comm (mx3 d d X) i j = \sum_(k < N2) sc n i j k *: mx3 d d X k].
  rewrite {}/N2; subst n; have [X [eX sX mX]] := sun_generatorsE vF lF n1.
  exists (size (gtp (size F) F)), X; split=> //.
    move=> c ec; apply: (indep_gX vF); last by rewrite -[RHS]ec; apply: eq_bigr => l _; rewrite mX.
    exists (size F - 2)%N; split; first by move: n1; clear; lia.
    apply: p_neq0 => //; first by move: n1; clear; lia.
    rewrite (_ : (size F - (size F - 2).+2 = 0)%N); last by move: n1; clear; lia.
    rewrite (_ : (size F - (size F - 2).+1 = 1)%N); last by move: n1; clear; lia.
    by rewrite eF /= nth_nseq; case: ifP.
  move=> i j hi hj; rewrite /AlgProofs.comm !mX // -/(cm _ _) comm_gX //; apply: eq_bigr => l _; by rewrite mX.
rewrite /sun_algebra_of eX sF (_ : (n ^ 2 - 1 = N2)%N); last exact: size_basis.
cbv beta iota delta [rbind]; rewrite /Sun.reshape_last sX.
have N0 : (0 < N2)%N by rewrite /N2; lia.
rewrite (_ : nprod [:: N2] = N2) ?(gtn_eqF N0); last by rewrite /nprod /= muln1.
have -> : (nprod [:: N2; d; d] %/ N2 = d * d)%N by rewrite /= mulKn // muln1.
rewrite [rcons _ _]/=; have [x [-> sx mx]] := reshape_flat sX; cbv beta iota delta [rbind]; rewrite /np_pinv sx mx.
have [C1 [-> s1 g1]] := einsum_iab sX; have [C2 [-> s2 g2]] := einsum_jab sX.
cbv beta iota delta [rbind]; rewrite /sub.
have [D [-> [sD gD]]] := @bmap2_same C (fun x y => x - y) C1 C2 (etrans s1 (esym s2)).
cbv beta iota delta [rbind]; rewrite sD s1 (_ : nprod [:: N2; N2] = (N2 * N2)%N); last by rewrite /= muln1.
rewrite (_ : (N2 * N2 == 0)%N = false); last by rewrite muln_eq0 orbb gtn_eqF.
have -> : (nprod [:: N2; N2; d; d] %/ (N2 * N2) = d * d)%N.
  by rewrite /= muln1 mulnA mulKn // muln_gt0 N0.
have [D' [-> [sD' gD']]] : exists c, reshape D (rcons [:: N2; N2] (d * d)%N) = Ok c /\ shape c = [:: N2; N2; (d * d)%N] /\
   forall i j (z : 'I_(d * d)), (i < N2)%N -> (j < N2)%N -> get c [:: i; j; z : nat] = flat (AlgProofs.comm (mx3 d d X) i j) 0 z.
  rewrite /reshape sD s1 (_ : nprod _ = nprod [:: N2; N2; d; d]) ?eqxx; last by rewrite /= !muln1.
  eexists; split; [by []|split; first by []] => i j z hi hj; rewrite [get _ _]/(get D _).
  have -> : ravel (rcons [:: N2; N2] (d * d)%N) [:: i; j; z : nat] =
      ravel [:: N2; N2; d; d] [:: i; j; (mxtens_unindex z).1 : nat; (mxtens_unindex z).2 : nat].
    by rewrite /= !muln1 !addn0 -divn_eq.
  have va : valid [:: N2; N2; d; d] [:: i; j; (mxtens_unindex z).1 : nat; (mxtens_unindex z).2 : nat].
    by rewrite !valid_cons hi hj !ltn_ord.
  by rewrite ravelK // -/(get D _) gD ?s1 // g1 g2 /flat !mxE.
cbv beta iota delta [rbind].
have [A [-> sA gA]] := @einsum_ijz D' (nd_of_mx (pinv_mx (flats N2 (mx3 d d X)))) N2 (d * d) N2 sD' erefl.
exists (nd_Re A); split=> //.
move=> i j k hi hj hk; rewrite /nd_Re /= gA.
have := struct_indep (Ordinal hk) li (e i j hi hj); rewrite /struct /= [RHS](Creal_ReP _ _) ?sc_real // => <-; congr ('Re _).
rewrite mxE; apply: eq_bigr => z _; rewrite gD' //; congr (_ * _).
by rewrite valK /= insubT.
Qed.
End Gen.
