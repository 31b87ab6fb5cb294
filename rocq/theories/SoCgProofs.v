(** SoCgProofs: the Clebsch-Gordan coefficients of SO3, O3 and Z2 are real, equivariant
    and complete. *)
From Coq Require Import ZArith String Ascii.
From mathcomp Require Import all_ssreflect all_algebra.
From mathcomp Require Import zify.
From mathcomp.real_closed Require Import mxtens.
From Verif Require Import Base McRing Nd NdProofs Reps RepSpec RepOps Reduced ReducedProofs Intw TpProofs Labels LabelProofs.
From Verif Require Import CgSum Su2 Su2Proofs So3Proofs Su2Cg Su2CgProofs Su2CgEq Su2Irr CgMx SoCg.

Set Implicit Arguments.
Unset Strict Implicit.
Unset Printing Implicit Defensive.

Import Order.POrderTheory GRing.Theory Num.Theory.
Local Open Scope ring_scope.

Section Flip.
Variable C : numClosedFieldType.

(** * m -> -m *)
Lemma cgF_flip q r M a b : (M <= q + r)%N -> cgF C q r (q + r - M) b a = (-1) ^+ q * cgF C q r M a b.
Proof.
move=> hM; rewrite /cgF (reindex_inj rev_ord_inj) /= big_distrr /=; apply: eq_bigr => v _.
rewrite subSS /cgt; have hv : (v <= q)%N by rewrite -ltnS.
have e : (-1) ^+ (q - v) = (-1) ^+ q * (-1) ^+ v :> C.
  by rewrite -exprD -signr_odd -[RHS]signr_odd; congr (_ ^+ nat_of_bool _); lia.
have -> : cb C r (q + r - M) (q - v) = cb C r M v.
  rewrite /cb; case: (leqP v M) => vM; case: leqP => h.
  - case: (leqP (M - v) r) => mr; first by rewrite -[in RHS]bin_sub //; congr ('C(_, _)%:R); lia.
    by rewrite !bin_small //; lia.
  - by rewrite bin_small //; lia.
  - by rewrite bin_small //; lia.
  - by [].
rewrite e bin_sub // subKn // [(v + a)%N]addnC [(b + (q - v))%N]addnC.
by move: (_ ^+ q) (_ ^+ v) => s t; mcring.
Qed.
Lemma cge_flip p q r i j k : (i <= p + r)%N -> (j <= p + q)%N -> (k <= q + r)%N ->
  cge C p q r (p + r - i) (p + q - j) (q + r - k) = (-1) ^+ p * cge C p q r i j k.
Proof.
move=> hi hj hk; rewrite /cge.
have -> : (q + r - k + p == p + r - i + (p + q - j))%N = (k + p == i + j)%N by lia.
case: ifP => h; last by rewrite mulr0.
rewrite /cgc /cgS !subKn // cgF_flip //.
have -> : cgK C p q r (q + r - k) i (p + r - i) j (p + q - j) = cgK C p q r k (p + r - i) i (p + q - j) j.
  rewrite /cgK subKn //; congr (_ * (_%:R / _%:R)); first by rewrite mulnAC.
  by rewrite -!mulnA; congr (_ * _)%N; rewrite mulnCA [(j`! * _)%N]mulnC.
have e : (-1) ^+ (p + q - j) * (-1) ^+ q = (-1) ^+ p * (-1) ^+ j :> C.
  by rewrite -!exprD -signr_odd -[RHS]signr_odd; congr (_ ^+ nat_of_bool _); lia.
transitivity (sqrtC (cgK C p q r k (p + r - i) i (p + q - j) j) * (((-1) ^+ (p + q - j) * (-1) ^+ q) / (q`! * r`!)%:R * cgF C q r k (p + r - i) i)).
  by move: (_ ^+ q) (_ ^+ (_ - _)) (_^-1) => s t u; mcring.
by rewrite e; move: (_ ^+ p) (_ ^+ j) (_^-1) => s t u; mcring.
Qed.
Lemma ce_flip n1 n2 n3 i j k : tri n1 n2 n3 -> (i <= n1)%N -> (j <= n2)%N -> (k <= n3)%N ->
  ce C n1 n2 n3 (n1 - i) (n2 - j) (n3 - k) = (-1) ^+ (n1 + n2 - n3)./2 * ce C n1 n2 n3 i j k.
Proof.
move/triP=> [p [q [r [-> -> ->]]]] hi hj hk; rewrite !ceE cge_flip //.
by have -> : ((p + r + (p + q) - (q + r))./2 = p)%N by lia.
Qed.
End Flip.

Section So3.
Variable C : numClosedFieldType.
Notation Bm := (Bm C).
Notation Jm := (Jm C).
Notation Qm := (Qm C).
Notation N l := (2 * l).+1.

Lemma mul_Jr' m l (M : 'M[C]_(m, N l)) i k : (M *m Jm l) i k = M i (rev_ord k) * eps C l k.
Proof.
rewrite mxE (bigD1 (rev_ord k)) //= big1 ?addr0 => [|x nx]; rewrite mxE mul0rn add0r.
  by rewrite rev_ordK eqxx mulr1n eps_rev.
by rewrite rev_eq (negbTE nx) mulr0n mulr0.
Qed.
Lemma flip_B l1 l2 l3 : tri (2 * l1) (2 * l2) (2 * l3) ->
  (Jm l1 *t Jm l2) *m Bm (2 * l1) (2 * l2) (2 * l3) *m Jm l3 = (-1) ^+ (l1 + l2 + l3) *: Bm (2 * l1) (2 * l2) (2 * l3).
Proof.
move=> h; apply/matrixP=> x k; rewrite mul_Jr' -[x]mxtens_unindexK; case: (mxtens_unindex x) => i j.
rewrite tens_mul_at (bigD1 (rev_ord i)) //= [X in _ + X]big1 ?addr0 => [|i' ni]; last first.
  by apply: big1 => j' _; rewrite [Jm l1 _ _]mxE mul0rn add0r (negbTE ni) mulr0n !mul0r.
rewrite (bigD1 (rev_ord j)) //= [X in _ + X]big1 ?addr0 => [|j' nj]; last first.
  by rewrite [Jm l2 _ _]mxE mul0rn add0r (negbTE nj) mulr0n mulr0 mul0r.
rewrite [Jm l1 _ _]mxE [Jm l2 _ _]mxE !mul0rn !add0r !eqxx !mulr1n [RHS]mxE !Bm_at /= !subSS.
rewrite ce_flip //; try by rewrite -ltnS.
case: (boolP (k + (l1 + l2 - l3) == i + j)%N) => [/eqP e|ne].
  have -> : ((2 * l1 + 2 * l2 - 2 * l3)./2 = l1 + l2 - l3)%N by lia.
  rewrite /eps; have s : (-1) ^+ (i + l1) * (-1) ^+ (j + l2) * (-1) ^+ (l1 + l2 - l3) * (-1) ^+ (k + l3) = (-1) ^+ (l1 + l2 + l3) :> C.
    move: h => /and4P[h _ _ _]; rewrite -!exprD -signr_odd -[RHS]signr_odd; congr (_ ^+ nat_of_bool _); lia.
  by rewrite -s; move: (_ ^+ _) (_ ^+ _) (_ ^+ _) (_ ^+ _) => a b c d; mcring.
have -> : ce C (2 * l1) (2 * l2) (2 * l3) i j k = 0 by rewrite /ce /cge; case: eqP => // e; case/eqP: ne; move: e; lia.
by rewrite !mulr0 mul0r.
Qed.

(** * Change of basis with the phase *)
Definition Qz l : 'M[C]_(N l) := (- 'i) ^+ l *: Qm l.
Lemma Qz_mx l : mx2 (N l) (N l) (real_to_complex C l) = Qz l.
Proof. exact: real_to_complex_mx. Qed.
Lemma Qz_unitary l : adj (Qz l) *m Qz l = 1%:M /\ Qz l *m adj (Qz l) = 1%:M.
Proof. by rewrite -Qz_mx; exact: real_to_complex_unitary. Qed.
Definition cj m n (A : 'M[C]_(m, n)) : 'M[C]_(m, n) := map_mx conjC A.
Lemma Qz_conj l : cj (Qz l) = (-1) ^+ l *: (Jm l *m Qz l).
Proof.
rewrite /cj /Qz map_mxZ -scalemxAr -Qm_conj scalerA; congr (_ *: _).
by rewrite rmorphX rmorphN /= conjCi opprK -exprMn mulrN mulN1r opprK.
Qed.
Lemma Jm_real l : cj (Jm l) = Jm l.
Proof. by rewrite /cj map_cross; apply/matrixP=> i k; rewrite !mxE rmorph0 eps_real. Qed.
Lemma Jm_tr l : (Jm l)^T = Jm l.
Proof. by rewrite -[RHS]Jm_adj /adj -{1}(Jm_real l) map_trmx. Qed.
Lemma Qz_conj' l : Qz l = (-1) ^+ l *: (Jm l *m cj (Qz l)).
Proof. by rewrite Qz_conj -scalemxAr scalerA sign_sq scale1r mulmxA Jm_sq mul1mx. Qed.
Lemma cjM m n p (A : 'M[C]_(m, n)) (B : 'M[C]_(n, p)) : cj (A *m B) = cj A *m cj B.
Proof. exact: map_mxM. Qed.
Lemma cjT m n (A : 'M[C]_(m, n)) : cj A^T = (cj A)^T.
Proof. by rewrite /cj map_trmx. Qed.
Lemma cj_tens m n p q (A : 'M[C]_(m, n)) (B : 'M[C]_(p, q)) : cj (A *t B) = cj A *t cj B.
Proof. by apply/matrixP=> i j; rewrite !mxE rmorphM. Qed.
Lemma cjK m n (A : 'M[C]_(m, n)) : cj (cj A) = A.
Proof. by apply/matrixP=> i j; rewrite !mxE conjCK. Qed.
Lemma Bm_real n1 n2 n3 : cj (Bm n1 n2 n3) = Bm n1 n2 n3.
Proof. by apply/matrixP=> i j; rewrite !mxE; apply/CrealP; exact: ce_real. Qed.

Definition Dm l1 l2 l3 : 'M[C]_(N l1 * N l2, N l3) := (Qz l1 *t Qz l2)^T *m Bm (2 * l1) (2 * l2) (2 * l3) *m cj (Qz l3).

Lemma scale_tens m n p q (a b : C) (A : 'M[C]_(m, n)) (B : 'M[C]_(p, q)) : (a *: A) *t (b *: B) = (a * b) *: (A *t B).
Proof. by apply/matrixP=> i j; rewrite !mxE mulrACA. Qed.
Lemma trZ m n (a : C) (A : 'M[C]_(m, n)) : (a *: A)^T = a *: A^T.
Proof. by apply/matrixP=> i j; rewrite !mxE. Qed.
Lemma Dm_real l1 l2 l3 : tri (2 * l1) (2 * l2) (2 * l3) -> cj (Dm l1 l2 l3) = Dm l1 l2 l3.
Proof.
move=> h; rewrite /Dm !cjM cjK cjT cj_tens Bm_real {1}(Qz_conj l1) {1}(Qz_conj l2) {1}(Qz_conj' l3).
rewrite scale_tens -tensmx_mul trZ trmx_mul [(Jm l1 *t _)^T]trmx_tens !Jm_tr -!scalemxAl -!scalemxAr scalerA -!mulmxA.
rewrite [Bm _ _ _ *m (Jm l3 *m _)]mulmxA [(Jm l1 *t Jm l2) *m (_ *m _)]mulmxA [(Jm l1 *t Jm l2) *m (_ *m Jm l3)]mulmxA.
by rewrite flip_B // -scalemxAl -scalemxAr scalerA -!exprD addnn -signr_odd odd_double expr0 scale1r.
Qed.

Lemma Qz_1 l : cj (Qz l) *m (Qz l)^T = 1%:M.
Proof. have [_ e] := Qz_unitary l; by rewrite -[RHS]trmx1 -e trmx_mul /adj -cjT trmxK. Qed.
Lemma Ym_Qz l a : (Ym C l a)^T = (Qz l)^T *m (Xm C (2 * l) a)^T *m cj (Qz l).
Proof.
rewrite /Ym !trmx_mul /adj map_trmx trmxK mulmxA /cj /Qz map_mxZ trZ -!scalemxAl -!scalemxAr scalerA mulrC.
by rewrite phase_unit scale1r.
Qed.
Lemma Dm_equiv l1 l2 l3 a : tri (2 * l1) (2 * l2) (2 * l3) ->
  Dm l1 l2 l3 *m (Ym C l3 a)^T = tact (Ym C l1 a)^T (Ym C l2 a)^T *m Dm l1 l2 l3.
Proof.
move=> h; rewrite /Dm !Ym_Qz -!mulmxA [cj (Qz l3) *m (_ *m _)]mulmxA Qz_1 mul1mx.
rewrite [Bm _ _ _ *m (_ *m _)]mulmxA Bm_X // -!mulmxA !mulmxA; congr (_ *m _ *m _).
rewrite /tact mulmxDl mulmxDr trmx_tens !tensmx_mul !mulmx1 !mul1mx -!mulmxA !Qz_1 !mulmx1 //.
Qed.
Lemma tens1 m n : (1%:M : 'M[C]_m) *t (1%:M : 'M[C]_n) = 1%:M.
Proof.
apply/matrixP=> x y; rewrite -[x]mxtens_unindexK -[y]mxtens_unindexK; case: (mxtens_unindex x) (mxtens_unindex y) => i j [k l].
by rewrite tensmxE !mxE (can_eq (@mxtens_indexK _ _)) xpair_eqE; case: eqP; case: eqP; rewrite ?mulr1 ?mulr0 ?mul0r.
Qed.
Lemma Dm_full l1 l2 : \sum_(n3 <- su2_list (2 * l1) (2 * l2)) (Qz l1 *t Qz l2)^T *m (Bm (2 * l1) (2 * l2) n3 *m (Bm (2 * l1) (2 * l2) n3)^T) *m cj (Qz l1 *t Qz l2) = 1%:M.
Proof.
rewrite -mulmx_suml -mulmx_sumr -/(proj C (2 * l1) (2 * l2)) proj_full mulmx1 cj_tens trmx_tens tensmx_mul.
have e l : (Qz l)^T *m cj (Qz l) = 1%:M.
  have [e _] := Qz_unitary l; by rewrite -[RHS]trmx1 -e trmx_mul /adj -cjT trmxK.
by rewrite !e tens1.
Qed.

(** * The arrays *)
Lemma einsum_so3 z m n p (Q1 Q2 Q3 c : nd C) : shape Q1 = [:: m; m] -> shape Q2 = [:: n; n] -> shape Q3 = [:: p; p] ->
  shape c = [:: z; m; n; p] -> exists e, einsum4 "ij" "kl" "mn" "zikn" "zjlm" Q1 Q2 Q3 c = Ok e /\
  shape e = [:: z; m; n; p] /\ forall u (j : 'I_m) (l : 'I_n) (k : 'I_p), (u < z)%N ->
  get e [:: u; j : nat; l : nat; k : nat] = \sum_(i < m) \sum_(i' < n) \sum_(k' < p)
    get Q1 [:: i : nat; j : nat] * get Q2 [:: i' : nat; l : nat] * get Q3 [:: k : nat; k' : nat] * get c [:: u; i : nat; i' : nat; k' : nat].
Proof.
move=> s1 s2 s3 s4; rewrite /einsum4 /einsum_ops /bind_all /= s1 s2 s3 s4 /= !eqxx /=.
eexists; split; first by []; split=> // u j l k hu.
rewrite /term /=; apply: eq_bigr => x _; apply: eq_bigr => y _; apply: eq_bigr => w _.
by rewrite mulr1 !mulrA.
Qed.
Lemma so3_cg_ok l1 l2 l3 : tri (2 * l1) (2 * l2) (2 * l3) -> exists X, so3_cg C l1 l2 l3 = Ok X /\
  shape X = [:: 1%N; N l1; N l2; N l3] /\ real_nd X /\
  forall (i : 'I_(N l1)) (j : 'I_(N l2)) (k : 'I_(N l3)), get X [:: 0%N; i : nat; j : nat; k : nat] = Dm l1 l2 l3 (mxtens_index (i, j)) k.
Proof.
move=> h; have [c [e [sc gc]]] := su2_cg_ok C h; rewrite /so3_cg e /=.
have [X [e1 [sX gX]]] := @einsum_so3 1 (N l1) (N l2) (N l3) (real_to_complex C l1) (real_to_complex C l2) (conj (transpose2 (real_to_complex C l3))) c erefl erefl erefl sc.
rewrite e1 /=.
have gD (i : 'I_(N l1)) (j : 'I_(N l2)) (k : 'I_(N l3)) : get X [:: 0%N; i : nat; j : nat; k : nat] = Dm l1 l2 l3 (mxtens_index (i, j)) k.
  rewrite gX // /Dm -!mulmxA mxE sum_tens; apply: eq_bigr => x _; apply: eq_bigr => y _.
  rewrite [X in _ = _ * X]mxE big_distrr /=; apply: eq_bigr => w _; rewrite gc // [_^T _ _]mxE tensmxE Bm_at -!Qz_mx [cj _ _ _]mxE.
  by rewrite ![mx2 _ _ _ _ _]mxE /=; mcring.
have rX : real_nd X.
  move=> idx; rewrite sX; case: idx => [|u [|i [|j [|k [|]]]]]; rewrite /valid //= ?andbF // => /and5P[hu hi hj hk _].
  case: u hu => // _; apply: real_conj; rewrite (gD (Ordinal hi) (Ordinal hj) (Ordinal hk)).
  by have /matrixP/(_ (mxtens_index (Ordinal hi, Ordinal hj)) (Ordinal hk)) := Dm_real h; rewrite mxE.
have -> : imag_small X.
  apply/allP => idx; rewrite mem_all_idx => /rX hr; have -> : 'Im (get X idx) = 0 by rewrite (Creal_ImP _ hr).
  by rewrite normr0 invr_gt0 exprn_gt0 // ltr0n.
rewrite /=; eexists; split; first by []; split=> //; split.
  by move=> idx v; rewrite /= Creal_Re.
move=> i j k; rewrite /= -gD; apply/Creal_ReP; apply: rX; rewrite sX /valid /= !ltn_ord //.
Qed.
Lemma so3_cg_empty l1 l2 l3 : ~~ tri (2 * l1) (2 * l2) (2 * l3) -> exists X, so3_cg C l1 l2 l3 = Ok X /\ shape X = [:: 0%N; N l1; N l2; N l3].
Proof.
move=> h; rewrite /so3_cg su2_cg_empty //=.
have [X [e1 [sX gX]]] := @einsum_so3 0 (N l1) (N l2) (N l3) (real_to_complex C l1) (real_to_complex C l2) (conj (transpose2 (real_to_complex C l3))) (zeros [:: 0%N; N l1; N l2; N l3]) erefl erefl erefl erefl.
rewrite e1 /=; have -> : imag_small X by rewrite /imag_small sX.
by eexists; split; first by [].
Qed.

(** * The families of irreps *)
Definition so3_list (l1 l2 : nat) : seq nat := [seq absz l | l <- so3_mul l1%:Z l2%:Z].
Definition rep0 : rep C := MkRep (zeros [::]) (zeros [::]) (zeros [::]).
Definition so3_irreps : irreps C :=
  @Irreps C nat (fun l => getR rep0 (so3_rep C l)) (fun l => N l) so3_list (fun a b c => getR (zeros [::]) (so3_cg C a b c)).
Definition o3_list (a b : nat * int) : seq (nat * int) := [seq (absz c.1, c.2) | c <- o3_mul (a.1%:Z, a.2) (b.1%:Z, b.2)].
Definition o3_irreps : irreps C :=
  @Irreps C (nat * int)%type (fun a => getR rep0 (o3_rep C a.1 a.2)) (fun a => N a.1) o3_list
    (fun a b c => getR (zeros [::]) (o3_cg C a b c)).
Definition z2_irreps : irreps C := @Irreps C int (z2_rep C) (fun=> 1%N) z2_mul (z2_cg C).

Lemma so3_listE l1 l2 : [seq (2 * l)%N | l <- so3_list l1 l2] = su2_list (2 * l1) (2 * l2).
Proof.
rewrite /so3_list /so3_mul /su2_list su2_mulE /= /pyrange.
have -> : `|(2 * l1)%N%:Z - (2 * l2)%N%:Z| = 2 * `|l1%:Z - l2%:Z| by lia.
set n := (if _ then _ else _); set n' := (if _ then _ else _); have -> : n' = n.
  by rewrite /n /n'; case: ifP => h1; case: ifP => h2; lia.
by rewrite -!map_comp; apply: eq_map => i /=; lia.
Qed.
Lemma so3_listP l1 l2 l3 : (l3 \in so3_list l1 l2) = tri (2 * l1) (2 * l2) (2 * l3).
Proof.
by rewrite -su2_listP -so3_listE mem_map // => a b; lia.
Qed.
Lemma o3_listE l1 p1 l2 p2 : o3_list (l1, p1) (l2, p2) = [seq (l, p1 * p2) | l <- so3_list l1 l2].
Proof. by rewrite /o3_list /o3_mul /so3_list /so3_mul /= -!map_comp. Qed.

Lemma so3_dims l1 l2 : sumn [seq N l | l <- so3_list l1 l2] = (N l1 * N l2)%N.
Proof. by rewrite -su2_list_dim -so3_listE sumnE !big_map. Qed.
Lemma so3_full l1 l2 : \sum_(l3 <- so3_list l1 l2) Dm l1 l2 l3 *m ((cj (Dm l1 l2 l3))^T) = 1%:M.
Proof.
rewrite -(Dm_full l1 l2) -so3_listE big_map; apply: eq_bigr => l _.
rewrite -cjT /Dm !trmx_mul !cjM !trmxK !cjT cjK Bm_real -!mulmxA [cj (Qz l) *m (_ *m _)]mulmxA.
by rewrite Qz_1 mul1mx.
Qed.
Lemma so3_X_at l a : (a < 3)%N -> mx3 (N l) (N l) (rX (getR rep0 (so3_rep C l))) a = Ym C l a.
Proof. by move=> ha; rewrite /so3_rep; have [X [-> [_ [_ gX]]]] := so3_X_ok C l; rewrite /= gX. Qed.
Lemma o3_X_at l p a : (a < 3)%N -> mx3 (N l) (N l) (rX (getR rep0 (o3_rep C l p))) a = Ym C l a.
Proof. by move=> ha; rewrite /o3_rep; have [X [-> [_ [_ gX]]]] := so3_X_ok C l; rewrite /= gX. Qed.
Lemma o3_H_at l p : mx3 (N l) (N l) (rH (getR rep0 (o3_rep C l p))) 0 = p%:~R%:M.
Proof.
rewrite /o3_rep; have [X [-> [_ [_ gX]]]] := so3_X_ok C l; rewrite /=.
by apply/matrixP=> i k; rewrite !mxE /= mulr_natr.
Qed.

Theorem so3_cg_complete (l1 l2 : label so3_irreps) : cg_ok (su2_th C) l1 l2.
Proof.
have rep l : is_rep (su2_th C) (N l) (getR rep0 (so3_rep C l)) by have [r [-> [h _]]] := so3_rep_ok C l.
have tP l3 : List.In l3 (so3_list l1 l2) -> tri (2 * l1) (2 * l2) (2 * l3) by move/InP; rewrite so3_listP.
apply: (@cg_mx_ok C so3_irreps (su2_th C) l1 l2 (Dm l1 l2) (fun l3 => (cj (Dm l1 l2 l3))^T)).
split; rewrite //=.
- by move=> e; have := so3_dims l1 l2; rewrite [so3_list l1 l2]e /=; lia.
- by move=> l3 /tP h; have [X [-> [sX _]]] := so3_cg_ok h.
- by move=> l3 i j k /tP h; have [X [-> [_ [_ gX]]]] := so3_cg_ok h.
- by move=> l3 a /tP h ha; rewrite !so3_X_at // Dm_equiv.
- exact: so3_dims.
- exact: so3_full.
Qed.
Definition sgn (p : int) : bool := p \in [:: 1; -1 : int].
Theorem o3_cg_complete (a b : label o3_irreps) : sgn a.2 -> sgn b.2 -> cg_ok (o3_th C) a b.
Proof.
case: a b => [l1 p1] [l2 p2] /= h1 h2.
have h12 : sgn (p1 * p2) by move: h1 h2; rewrite /sgn !inE => /orP[]/eqP-> /orP[]/eqP->.
have rep l p : sgn p -> is_rep (o3_th C) (N l) (getR rep0 (o3_rep C l p)).
  by move=> hp; have [r [-> [h _]]] := o3_rep_ok C l hp.
have tP c : List.In c (o3_list (l1, p1) (l2, p2)) -> tri (2 * l1) (2 * l2) (2 * c.1) /\ c.2 = p1 * p2.
  by rewrite o3_listE => /InP/mapP[l hl ->]; rewrite -so3_listP.
apply: (@cg_mx_ok C o3_irreps (o3_th C) (l1, p1) (l2, p2) (fun c => Dm l1 l2 c.1) (fun c => (cj (Dm l1 l2 c.1))^T)).
split; rewrite /=.
- exact: rep.
- exact: rep.
- by move=> [l3 p3] /tP [_ /= ->]; apply: rep.
- rewrite o3_listE => e; have := so3_dims l1 l2; case: (so3_list l1 l2) e => //=; lia.
- by move=> [l3 p3] /tP[/= h ->]; rewrite /o3_cg /= eqxx; have [X [-> [sX _]]] := so3_cg_ok h.
- by move=> [l3 p3] i j k /tP[/= h e3]; rewrite /o3_cg /= e3 eqxx; have [X [-> [_ [_ gX]]]] := so3_cg_ok h.
- by move=> [l3 p3] a /tP[/= h ->] ha; rewrite !o3_X_at // Dm_equiv.
- move=> [l3 p3] [|//] /tP[/= h ->] _; rewrite !o3_H_at !tr_scalar_mx mul_mx_scalar rmorphM /=.
  rewrite -[p1%:~R%:M]scalemx1 -[p2%:~R%:M]scalemx1 scale_tens tens1 -scalemxAl mul1mx //.
- by rewrite o3_listE -map_comp; exact: so3_dims.
- by rewrite o3_listE big_map; exact: so3_full.
Qed.
Theorem z2_cg_complete (p1 p2 : label z2_irreps) : sgn p1 -> sgn p2 -> cg_ok (z2_th C) p1 p2.
Proof.
move=> h1 h2; have h12 : sgn (p1 * p2) by move: h1 h2; rewrite /sgn !inE => /orP[]/eqP-> /orP[]/eqP->.
have rep p : sgn p -> is_rep (z2_th C) 1 (z2_rep C p) by move=> hp; case: (z2_rep_ok C hp).
have H p : sgn p -> mx3 1 1 (rH (z2_rep C p)) 0 = p%:~R%:M by move=> hp; case: (z2_rep_ok C hp).
apply: (@cg_mx_ok C z2_irreps (z2_th C) p1 p2 (fun c => const_mx 1) (fun c => const_mx 1)).
split; rewrite //=.
- exact: rep.
- exact: rep.
- by move=> c [<-|//]; apply: rep.
- by move=> c [<-|//]; rewrite /z2_cg eqxx.
- by move=> c i j k [<-|//]; rewrite /z2_cg eqxx mxE.
- move=> c [|//] [<-|//] _; rewrite !H // !tr_scalar_mx mul_mx_scalar rmorphM /=.
  by rewrite -[p1%:~R%:M]scalemx1 -[p2%:~R%:M]scalemx1 scale_tens tens1 -scalemxAl mul1mx.
- rewrite big_cons big_nil addr0; apply/matrixP=> x y; rewrite mxE big_ord_recl big_ord0 !mxE mulr1 addr0.
  by rewrite [x]ord1 [y]ord1 eqxx.
Qed.
End So3.
