(** LinAlgProofs: gram_schmidt, extend_basis, nullspace and sequential_nullspace on
    arrays, without rounding. *)
From Coq Require Import ZArith String Ascii.
From mathcomp Require Import all_ssreflect all_algebra.
From mathcomp Require Import zify.
From Verif Require Import Base Nd NdProofs Reps Pinv RepProofs RepOps ReducedProofs LinAlg GsMx.

Set Implicit Arguments.
Unset Strict Implicit.
Unset Printing Implicit Defensive.

Import Order.POrderTheory GRing.Theory Num.Theory.
Local Open Scope ring_scope.

Local Arguments stack : simpl never.

Section LinAlgProofs.
Variable C : numClosedFieldType.
Notation nd := (nd C).
Notation id_ := (fun x : nd => x).

Section Gs.
Variable eps : C.
Hypothesis eps0 : 0 <= eps.
Variable n : nat.
Definition rv (v : nd) : 'rV[C]_n := \row_j get v [:: j : nat].
Notation gs_row_ := (gs_row id_ eps n).

Lemma vdotE w v : vdot n w v = hip (rv v) (rv w).
Proof. by rewrite /hip mxE; apply: eq_bigr => k _; rewrite !mxE mulrC. Qed.
Lemma vnormE v : vnorm n v = sqrtC (nrm2 (rv v)).
Proof. by rewrite nrm2E /vnorm; congr sqrtC; apply: eq_bigr => k _; rewrite mxE. Qed.
Lemma rv_axpy v w : rv (axpy n v w) = rv v - hip (rv v) (rv w) *: rv w.
Proof. by apply/rowP=> j; rewrite !mxE /= vdotE. Qed.
Lemma rv_scale c v : rv (scale c v) = c *: rv v.
Proof. by apply/rowP=> j; rewrite !mxE. Qed.
Lemma rv_fold a Q : rv (foldl (axpy n) a Q) = foldl (fun v w => v - hip v w *: w) (rv a) (map rv Q).
Proof. by elim: Q a => //= q Q ih a; rewrite ih rv_axpy. Qed.
Lemma gs_rowE Q a : orthon (map rv Q) -> map rv (gs_row_ Q a) = gs_step eps (map rv Q) (rv a).
Proof.
move=> on; rewrite /gs_row /gs_new /gs_step vnormE rv_fold foldl_prj // -/(resid _ _).
by case: ifP => // _; rewrite map_rcons rv_scale rv_fold foldl_prj.
Qed.
Definition good (Q : seq nd) := all (fun v => shape v == [:: n]) Q.
Lemma gs_row_good Q a : good Q -> shape a = [:: n] -> good (gs_row_ Q a).
Proof.
move=> g sa; rewrite /gs_row /gs_new; case: ifP => // _; rewrite /good all_rcons -/(good Q) g andbT /=.
have {}sa : shape a == [:: n] by rewrite sa.
by elim: Q a sa {g} => [|q Q ih] a sa //=; apply: ih; rewrite /= eqxx.
Qed.
Lemma gs_foldE p (M : 'M[C]_(p, n)) l Q : orthon (map rv Q) -> good Q -> good l ->
  (forall w, w \in map rv Q -> (w <= M)%MS) -> (forall a, a \in map rv l -> (a <= M)%MS) ->
  let Q' := foldl gs_row_ Q l in
  [/\ good Q', map rv Q' = foldl (gs_step eps) (map rv Q) (map rv l) &
      [/\ orthon (map rv Q'), forall w, w \in map rv Q' -> (w <= M)%MS &
      forall a, a \in map rv l -> nrm2 (resid (map rv Q') a) <= eps ^+ 2]].
Proof.
move=> on g gl hM hl Q'; have [h1 h2 h3 _] := gs_fold_inv eps0 on hM hl.
suff [s1 s2] : good Q' /\ map rv Q' = foldl (gs_step eps) (map rv Q) (map rv l) by rewrite s2.
rewrite /Q'; clear Q' h1 h2 h3; elim: l Q on g gl hM hl => //= a l ih Q on g /andP[/eqP ga gl] hM hl.
have E := gs_rowE a on.
have [k1 k2 _ _] := gs_step_inv eps0 on hM (hl (rv a) (mem_head _ _)).
case: (ih (gs_row_ Q a)); rewrite ?E //.
- exact: gs_row_good.
- by move=> b hb; apply: hl; rewrite inE hb orbT.
Qed.
End Gs.

Lemma rows_size (a : nd) : size (rows a) = len a.
Proof. by rewrite size_map size_iota. Qed.
Lemma rv_rows m n (a : nd) : shape a = [:: m; n] -> map (@rv n) (rows a) = [seq row i (mx2 m n a) | i <- enum 'I_m].
Proof.
move=> sa; rewrite /rows -map_comp /len sa /=.
apply: (@eq_from_nth _ 0); first by rewrite [LHS]size_map [RHS]size_map size_iota size_enum_ord.
move=> i; rewrite size_map size_iota => hi.
rewrite (nth_map 0%N) ?size_iota // nth_iota // add0n (nth_map (Ordinal hi)) ?size_enum_ord //.
by apply/rowP=> j; rewrite !mxE /= nth_enum_ord.
Qed.
Lemma rows_good m n (a : nd) : shape a = [:: m; n] -> good n (rows a).
Proof. by move=> sa; rewrite /good /rows all_map; apply/allP => k _; rewrite /= sa. Qed.

(** A list of vectors as an array. *)
Lemma stack_rv n (Q : seq nd) : good n Q -> (0 < size Q)%N ->
  exists B, stack Q = Ok B /\ shape B = [:: size Q; n] /\
    mx2 (size Q) n B = \matrix_(i < size Q) nth 0 (map (@rv n) Q) i /\
    forall i j, (i < size Q)%N -> get B [:: i; j] = get (nth (zeros [::]) Q i) [:: j].
Proof.
move=> g h; have [|B [e [sB gB]]] := @stack_ok _ (size Q) [:: n] Q erefl h.
  by move=> k hk; move/all_nthP: g => /(_ (zeros [::]) k hk)/eqP.
exists B; split=> //; split=> //; split; last by move=> i j; exact: gB.
by apply/matrixP=> i j; rewrite !mxE gB // (nth_map (zeros [::])) // mxE.
Qed.

Lemma rowsmxE n (ws : seq 'rV[C]_n) k (e : k = size ws) (B : 'M[C]_(k, n)) :
  B = \matrix_(i < k) nth 0 ws i -> orthon ws ->
  B *m adj B = 1%:M /\ adj B *m B = prj ws.
Proof. by move: B; rewrite e => B -> on; split; [exact: rowsmx_on | exact: rowsmx_prj]. Qed.

Theorem gram_schmidtP (eps : C) m n (a : nd) : 0 <= eps -> shape a = [:: m; n] ->
  let A := mx2 m n a in
  exists k b, gram_schmidt id_ eps a = Ok b /\ shape b = [:: k; n] /\
  let B := mx2 k n b in
  [/\ B *m adj B = 1%:M, (B <= A)%MS &
      forall i, nrm2 (row i A - row i A *m (adj B *m B)) <= eps ^+ 2].
Proof.
move=> e0 sa A; rewrite /gram_schmidt sa.
have [|||||g E [on sub res]] := @gs_foldE eps e0 n m A (rows a) [::] => //.
- exact: rows_good sa.
- by move=> x; rewrite (rv_rows sa) => /mapP[i _ ->]; exact: row_sub.
set Q := foldl _ _ _ in g E on sub res *; rewrite (rv_rows sa) in res.
have R i : nrm2 (row i A - row i A *m prj (map (@rv n) Q)) <= eps ^+ 2.
  by apply: res; apply: map_f; rewrite mem_enum.
case: (posnP (size Q)) => [/size0nil Q0|q0].
  rewrite Q0; exists 0%N, (zeros [:: 0; n]%N); split=> //; split=> //; split.
  - by apply/matrixP; case.
  - by apply/row_subP; case.
  - move=> i; have := R i; rewrite Q0 /prj big_nil.
    suff -> : adj (mx2 0 n (zeros [:: 0; n]%N)) *m mx2 0 n (zeros [:: 0; n]%N) = 0 :> 'M[C]_n by [].
    by apply/matrixP=> x y; rewrite !mxE big_ord0.
have [b [eb [sb [B _]]]] := stack_rv g q0.
exists (size Q), b; split; first by rewrite -eb; case: (Q) q0.
split=> //; have [|b1 b2] := rowsmxE _ B on; first by rewrite size_map.
split=> //; last by rewrite b2.
apply/row_subP=> i; rewrite B rowK; apply: sub; apply: mem_nth; by rewrite size_map.
Qed.

(** extend_basis *)
Lemma eb_foldE eps n (Q0 E l : seq nd) :
  exists E', foldl (eb_row id_ eps n) (Q0 ++ E, E) l = (Q0 ++ E', E') /\
             Q0 ++ E' = foldl (gs_row id_ eps n) (Q0 ++ E) l.
Proof.
elim: l E => [|a l ih] E /=; first by exists E.
rewrite {2}/eb_row {2}/gs_row /=; case: gs_new => [v|]; last exact: ih.
by rewrite rcons_cat; exact: ih.
Qed.
Lemma orthon_rows k n (b : nd) : shape b = [:: k; n] -> mx2 k n b *m adj (mx2 k n b) = 1%:M ->
  orthon (map (@rv n) (rows b)).
Proof.
move=> sb h i j; rewrite size_map rows_size /len sb /= => hi hj.
rewrite !(nth_map (zeros [::])) ?rows_size /len ?sb //.
rewrite !(nth_map 0%N) ?size_iota /len ?sb // !nth_iota // !add0n /hip.
move/matrixP/(_ (Ordinal hi) (Ordinal hj)): h; rewrite [RHS]mxE => <-.
by rewrite !mxE; apply: eq_bigr => l _; rewrite !mxE.
Qed.

Lemma unitary_dim k n (B : 'M[C]_(k, n)) : B *m adj B = 1%:M -> adj B *m B = 1%:M -> k = n.
Proof.
move=> h1 h2; have : \tr (B *m adj B) = \tr (adj B *m B) by rewrite mxtrace_mulC.
by rewrite h1 h2 !mxtrace1 => /eqP; rewrite eqr_nat => /eqP.
Qed.
Lemma prj_exact1 n (ws : seq 'rV[C]_n) (eps : C) : orthon ws ->
  (forall i, nrm2 (resid ws (row i 1%:M)) <= eps ^+ 2) -> n%:R * eps ^+ 2 < 1 ->
  prj ws = 1%:M /\ size ws = n.
Proof.
move=> on res ne; have h1 := rowsmx_on on; have h2 := rowsmx_prj ws.
have E : adj (rowsmx ws) *m rowsmx ws = 1%:M.
  apply: (@prj_exact _ n (size ws) n _ _ eps) => //; rewrite ?adj1 ?mulmx1 ?mxtrace1 ?submx1 //.
  by move=> i; rewrite h2; exact: res.
by rewrite -h2; split=> //; apply: unitary_dim h1 E.
Qed.

Theorem extend_basisP (eps : C) m n (a : nd) : 0 <= eps -> n%:R * eps ^+ 2 < 1 -> shape a = [:: m; n] -> (0 < n)%N ->
  exists k b q, gram_schmidt id_ eps a = Ok b /\ shape b = [:: k; n] /\ (k <= n)%N /\
  extend_basis_Q id_ eps a = Ok q /\ shape q = [:: n; n] /\
  [/\ mx2 n n q *m adj (mx2 n n q) = 1%:M,
      (forall i j, (i < k)%N -> (j < n)%N -> get q [:: i; j] = get b [:: i; j]) &
      if k == n then extend_basis_E id_ eps a = Err ValueError else
      exists e, extend_basis_E id_ eps a = Ok e /\ shape e = [:: (n - k)%N; n] /\
        forall i j, (i < n - k)%N -> (j < n)%N -> get e [:: i; j] = get q [:: (k + i)%N; j]].
Proof.
move=> e0 ne sa n0.
have [k [b [eb [sb [b1 bA _]]]]] := gram_schmidtP e0 sa.
pose Q0 := rows b; have on0 := orthon_rows sb b1.
have [E [fE QE]] := eb_foldE eps n Q0 [::] (rows (eye n)).
rewrite cats0 in fE QE.
have se : shape (eye n : nd) = [:: n; n] by [].
have m1 : mx2 n n (eye n : nd) = 1%:M by apply/matrixP=> i j; rewrite !mxE.
have [|||||g _ [on _ res]] := @gs_foldE eps e0 n n 1%:M (rows (eye n)) Q0 => //.
- exact: rows_good sb.
- exact: rows_good se.
- by move=> w _; exact: submx1.
- by move=> w _; exact: submx1.
rewrite -QE in g on res.
have R i : nrm2 (resid (map (@rv n) (Q0 ++ E)) (row i 1%:M)) <= eps ^+ 2.
  by apply: res; rewrite (rv_rows se) m1; apply: map_f; rewrite mem_enum.
have [P1 sz] := prj_exact1 on R ne.
rewrite size_map in sz.
have sQ0 : size Q0 = k by rewrite /Q0 rows_size /len sb.
have szE : size E = (n - k)%N by rewrite -sz size_cat sQ0 addKn.
have kn : (k <= n)%N by rewrite -sz size_cat sQ0 leq_addr.
have q0 : (0 < size (Q0 ++ E))%N by rewrite sz.
have [q [eq [sq [Q gq]]]] := stack_rv g q0.
have q1 := rowsmxE (esym (size_map _ _)) Q on; rewrite sz in sq Q gq q1.
exists k, b, q; split=> //; split=> //; split=> //.
split; first by rewrite /extend_basis_Q /eb_loop eb /= sa /= fE.
split=> //; split.
- by case: q1.
- move=> i j hi hj; rewrite gq ?(leq_trans hi) // nth_cat sQ0 hi.
  by rewrite (nth_map 0%N) ?size_iota /len ?sb // nth_iota.
- rewrite /extend_basis_E /eb_loop eb /= sa /= fE /=; case: eqP => [kn'|/eqP kn'].
    by move: szE; rewrite kn' subnn => /size0nil ->.
  have gE : good n E by move: g; rewrite /good all_cat => /andP[].
  have E0 : (0 < size E)%N by rewrite szE subn_gt0 ltn_neqAle kn' kn.
  have [e [ee [se' [_ ge]]]] := stack_rv gE E0; rewrite szE in se' ge.
  exists e; split=> //; split=> // i j hi hj; rewrite ge // gq; last by rewrite -ltn_subRL.
  by rewrite nth_cat sQ0 ltnNge leq_addr addKn.
Qed.

(** A correct result of np.linalg.eigh on a Hermitian matrix, and a correct eigh. *)
Definition eigh_res (n : nat) (g : nd) (e : nd * nd) : Prop :=
  shape e.1 = [:: n] /\ shape e.2 = [:: n; n] /\
  let U := mx2 n n e.2 in let d := rv n e.1 in
  [/\ U *m adj U = 1%:M, mx2 n n g = U *m diag_mx d *m adj U & forall i, d 0 i \is Num.real].
Definition eigh_correct (eigh : nd -> res (nd * nd)) : Prop :=
  forall n g, shape g = [:: n; n] -> adj (mx2 n n g) = mx2 n n g ->
  exists e, eigh g = Ok e /\ eigh_res n g e.
(** No eigenvalue lies between 0 and eps. *)
Definition gap (n : nat) (G : 'M[C]_n) (eps : C) : Prop :=
  forall (c : C) (x : 'cV[C]_n), x != 0 -> G *m x = c *: x -> c = 0 \/ eps <= c.

Lemma mx2_conjT m n (a : nd) : shape a = [:: m; n] -> mx2 n m (conj (transpose2 a)) = adj (mx2 m n a).
Proof. by move=> sa; apply/matrixP=> i j; rewrite !mxE. Qed.
Lemma mx2_tr m n (a : nd) : shape a = [:: m; n] -> mx2 n m (transpose2 a) = (mx2 m n a)^T.
Proof. by move=> sa; apply/matrixP=> i j; rewrite !mxE. Qed.
Lemma shape_tr m n (a : nd) : shape a = [:: m; n] -> shape (transpose2 a) = [:: n; m].
Proof. by move=> sa; rewrite /= sa. Qed.

Lemma select0P n (s : nat -> bool) (v : nd) : shape v = [:: n; n] ->
  let X := select0 s (transpose2 v) in
  exists r, shape X = [:: r; n] /\
  adj (mx2 r n X) *m mx2 r n X = selprj (mx2 n n v) (fun i : 'I_n => s i).
Proof.
move=> sv; rewrite /select0 (shape_tr sv) /len (shape_tr sv) /=.
set l := [seq i <- iota 0 n | s i]; exists (size l); split=> //.
apply/matrixP=> i j; rewrite /selprj -mulmxA mul_diag_mx !mxE.
transitivity (\sum_(x <- l) (get v [:: i : nat; x])^* * get v [:: j : nat; x]).
  rewrite [RHS](big_nth 0%N) big_mkord; apply: eq_bigr => k _; rewrite !mxE /=.
  by [].
rewrite /l big_filter big_mkcond /= -[X in iota _ X]subn0 -/(index_iota 0 n) big_mkord.
apply: eq_bigr => k _; rewrite !mxE; case: (s k); rewrite ?mul1r // mul0r mulr0 //.
Qed.

Section Null.
Variable eigh : nd -> res (nd * nd).
Hypothesis eighP : eigh_correct eigh.
Variable eps : C.
Hypothesis eps0 : 0 < eps.

Lemma col_mulmx m n p (A : 'M[C]_(m, n)) (B : 'M[C]_(n, p)) i : col i (A *m B) = A *m col i B.
Proof. by rewrite !colE mulmxA. Qed.
Lemma gapE n (G U : 'M[C]_n) (d : 'rV[C]_n) i : gap G eps -> U *m adj U = 1%:M ->
  G = U *m diag_mx d *m adj U -> (`|d 0 i| < eps) = (d 0 i == 0).
Proof.
move=> gp U1 e; have U1' := mulmx1C U1.
have ev : G *m col i U = d 0 i *: col i U.
  rewrite e -!col_mulmx -(mulmxA _ (adj U)) U1' mulmx1 mul_mx_diag.
  by apply/matrixP=> a b; rewrite !mxE mulrC.
have nz : col i U != 0.
  apply/eqP=> z; have /matrixP/(_ i i) := U1'; rewrite [RHS]mxE eqxx.
  have -> : (adj U *m U) i i = (adj U *m col i U) i 0 by rewrite -col_mulmx [RHS]mxE.
  by rewrite z mulmx0 mxE => /esym/eqP; rewrite oner_eq0.
case: (gp _ _ nz ev) => [->|h]; first by rewrite normr0 eqxx eps0.
have d0 : 0 < d 0 i := lt_le_trans eps0 h.
rewrite gt_eqF // ger0_norm ?ltW //; apply/negbTE; apply/negP => lt.
by have := lt_le_trans lt h; rewrite ltxx.
Qed.

Theorem nullspaceP m n (a : nd) : n%:R * eps ^+ 2 < 1 -> shape a = [:: m; n] ->
  let A := mx2 m n a in gap (adj A *m A) eps ->
  exists k b, nullspace id_ eigh eps a = Ok b /\ shape b = [:: k; n] /\
  let B := mx2 k n b in
  B *m adj B = 1%:M /\ forall x : 'rV[C]_n, A *m x^T = 0 <-> (x <= B)%MS.
Proof.
move=> ne sa A gp; rewrite /nullspace sa /=.
have st : shape (conj (transpose2 a)) = [:: n; m] by rewrite /= sa.
have [g [-> [sg mg]]] := matmul_2_2 st sa.
rewrite (mx2_conjT sa) -/A in mg.
have hg : adj (mx2 n n g) = mx2 n n g by rewrite mg adjM adjK.
rewrite /=; have [e [-> [s1 [s2 [U1 eU dr]]]]] := eighP sg hg; rewrite /=.
have [r [sX PX]] := select0P (fun i => `|get e.1 [:: i]| < eps) s2.
set X := select0 _ _ in sX PX *; set s := (fun i : 'I_n => _) in PX.
have sXt : shape (conj (transpose2 X)) = [:: n; r] by exact: (shape_tr sX).
have [p [-> [sp mp]]] := matmul_2_2 sXt sX; rewrite /= (mx2_conjT sX) PX in mp.
have sE i : s i = (rv n e.1 0 i == 0).
  by rewrite -(@gapE n (adj A *m A) _ _ i gp U1) ?mxE // -mg.
have [h1 h2 h3] := selprjP s U1.
have [k [b [eb [sb [b1 b2 b3]]]]] := gram_schmidtP (ltW eps0) sp; rewrite mp in b2 b3.
exists k, b; split=> //; split=> //; split=> // x.
have PE := prj_exact h1 h2 h3 b1 b2 b3 ne.
rewrite (selprj_ker x U1 _ sE); last by rewrite -mg.
rewrite -PE; split=> [<-|/submxP[D ->]]; first by rewrite mulmxA submxMl.
by rewrite mulmxA -(mulmxA D) b1 mulmx1.
Qed.

(** sequential_nullspace.  [inker As x]: every matrix of the list annihilates x. *)
Fixpoint inker (n : nat) (As : seq nd) (x : 'rV[C]_n) : Prop :=
  if As is a :: As' then mx2 (len a) n a *m x^T = 0 /\ inker As' x else True.
Definition onbasis (n k : nat) (S : 'M[C]_(k, n)) (K : 'rV[C]_n -> Prop) : Prop :=
  S *m adj S = 1%:M /\ forall x, K x <-> (x <= S)%MS.
Definition dim_gt (n : nat) (K : 'rV[C]_n -> Prop) (d : int) : Prop :=
  forall k (S : 'M[C]_(k, n)), onbasis S K -> d < k%:Z.

Lemma inker_rcons n As a (x : 'rV[C]_n) : inker (rcons As a) x <-> inker As x /\ mx2 (len a) n a *m x^T = 0.
Proof. elim: As => [|b As ih] /=; first by split=> [[h _]|[_ h]]. by rewrite ih; split=> [[h [h1 h2]]|[[h h1] h2]]. Qed.
Lemma onbasis_rank n k (S : 'M[C]_(k, n)) K : onbasis S K -> \rank S = k.
Proof.
case=> h _; apply/eqP; rewrite eqn_leq rank_leq_row /=.
by have := mxrankM_maxl S (adj S); rewrite h mxrank1.
Qed.
Lemma onbasis_dim n k k' (S : 'M[C]_(k, n)) (S' : 'M[C]_(k', n)) K : onbasis S K -> onbasis S' K -> k = k'.
Proof.
move=> h h'; rewrite -(onbasis_rank h) -(onbasis_rank h'); case: h h' => _ h [_ h'].
apply/eqP; rewrite eqn_leq !mxrankS //.
- by apply/row_subP=> i; apply/h; apply/h'; exact: row_sub.
- by apply/row_subP=> i; apply/h'; apply/h; exact: row_sub.
Qed.

Variable n : nat.
Hypothesis ne : n%:R * eps ^+ 2 < 1.
(** The gap condition for the matrix [a] restricted to the joint kernel of [As]. *)
Definition gap_on (As : seq nd) (a : nd) : Prop :=
  forall k (S : 'M[C]_(k, n)), onbasis S (inker As) ->
  let R := mx2 (len a) n a *m S^T in gap (adj R *m R) eps.

Lemma seq_step As a s k : shape a = [:: len a; n] -> shape s = [:: k; n] ->
  onbasis (mx2 k n s) (inker As) -> gap_on As a ->
  exists k' b, (do t <- matmul a (transpose2 s); do N <- nullspace id_ eigh eps t; matmul N s) = Ok b /\
    shape b = [:: k'; n] /\ onbasis (mx2 k' n b) (inker (rcons As a)).
Proof.
move=> sa ss onb gp; have [t [-> [st mt]]] := matmul_2_2 sa (shape_tr ss).
rewrite (mx2_tr ss) in mt; have [s1 sK] := onb.
have kn : (k <= n)%N by rewrite -(onbasis_rank onb) rank_leq_col.
have ke : k%:R * eps ^+ 2 < 1.
  apply: le_lt_trans ne; apply: ler_wpmul2r; first by rewrite exprn_ge0 ?ltW.
  by rewrite ler_nat.
have [|k' [N [eN [sN [N1 NK]]]]] := nullspaceP ke st; first by rewrite mt; exact: gp.
rewrite /= eN /=; have [b [-> [sb mb]]] := matmul_2_2 sN ss.
exists k', b; split=> //; split=> //; split.
  by rewrite mb adjM mulmxA -(mulmxA _ (mx2 k n s)) s1 mulmx1.
move=> x; rewrite inker_rcons mb sK; split.
- case=> /submxP[y ->] h; apply: submxMr; apply/NK.
  by rewrite mt -mulmxA -trmx_mul.
- case/submxP=> y ->; split; first by rewrite mulmxA submxMl.
  rewrite mulmxA trmx_mul mulmxA -mt; apply/NK; exact: submxMl.
Qed.

(** The claim for the matrices [As] to come, after those of [pre]. *)
Definition seq_claim (pre As : seq nd) (d : int) (r : res nd) : Prop :=
  match r with
  | Ok b => exists A1 a A2 k, [/\ As = A1 ++ a :: A2, shape b = [:: k; n],
      onbasis (mx2 k n b) (inker (pre ++ rcons A1 a)), k%:Z <= d &
      forall B1 c B2, A1 = B1 ++ c :: B2 -> dim_gt (inker (n := n) (pre ++ rcons B1 c)) d]
  | Err e => e = ValueError /\
      forall B1 c B2, As = B1 ++ c :: B2 -> dim_gt (inker (n := n) (pre ++ rcons B1 c)) d
  end.

Lemma seq_claim_cons pre a As d r k (S : 'M[C]_(k, n)) : onbasis S (inker (rcons pre a)) -> d < k%:Z ->
  seq_claim (rcons pre a) As d r -> seq_claim pre (a :: As) d r.
Proof.
move=> onb lt; have big : dim_gt (inker (n := n) (rcons pre a)) d by move=> k' S' h; rewrite -(onbasis_dim onb h).
case: r => [b [A1 [c [A2 [k' [-> sb ob le h]]]]]|e [-> h]].
  exists (a :: A1), c, A2, k'; split=> //; first by rewrite -cat_rcons.
  case=> [|x B1] y B2 [<- E]; first by rewrite cats1.
  by rewrite /= -cat_rcons; apply: (h B1 y B2).
split=> // -[|x B1] y B2 [<- E]; first by rewrite cats1.
by rewrite /= -cat_rcons; apply: (h B1 y B2).
Qed.

Lemma seq_null_someP As pre d s k : all (fun a => shape a == [:: len a; n]) As ->
  (forall A1 a A2, As = A1 ++ a :: A2 -> gap_on (pre ++ A1) a) ->
  shape s = [:: k; n] -> onbasis (mx2 k n s) (inker pre) ->
  seq_claim pre As d (seq_null id_ eigh eps (Some s) As d).
Proof.
elim: As pre s k => [|a As ih] pre s k /=.
  by move=> _ _ _ _; split=> // -[].
case/andP=> /eqP sa sAs gp ss onb.
have [|k' [b [-> [sb onb']]]] := seq_step sa ss onb.
  by have := gp [::] a As erefl; rewrite cats0.
rewrite /= /len sb /=; case: ifP => le.
  exists [::], a, As, k'; split=> //; first by rewrite cats1.
  by case.
apply: (seq_claim_cons onb'); first by rewrite Order.TotalTheory.ltNge le.
apply: (ih _ _ k') => // A1 c A2 E; rewrite cat_rcons; apply: (gp (a :: A1) c A2).
by rewrite E.
Qed.

Theorem sequential_nullspaceP As d : all (fun a => shape a == [:: len a; n]) As ->
  (forall A1 a A2, As = A1 ++ a :: A2 -> gap_on A1 a) ->
  seq_claim [::] As d (sequential_nullspace id_ eigh eps As d).
Proof.
case: As => [|a As] /=; first by move=> _ _; split=> // -[].
case/andP=> /eqP sa sAs gp; rewrite /sequential_nullspace /=.
have on1 : onbasis (1%:M : 'M[C]_n) (inker [::]).
  by split=> [|x]; rewrite ?adj1 ?mulmx1 // submx1.
have [|k [b [-> [sb [b1 bK]]]]] := nullspaceP ne sa.
  by have := gp [::] a As erefl n 1%:M on1; rewrite trmx1 mulmx1.
have onb : onbasis (mx2 k n b) (inker [:: a]).
  by split=> // x; rewrite -bK /=; split=> [[]|].
rewrite /= /len sb /=; case: ifP => le.
  by exists [::], a, As, k; split=> // -[].
apply: (seq_claim_cons (pre := [::]) onb); first by rewrite Order.TotalTheory.ltNge le.
apply: (@seq_null_someP As [:: a] d b k) => // A1 c A2 E; apply: (gp (a :: A1) c A2).
by rewrite E.
Qed.
End Null.
End LinAlgProofs.
