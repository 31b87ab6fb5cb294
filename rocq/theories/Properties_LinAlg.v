(** Properties C18-C22, C59, C60 and C66: the linear algebra of util.py and the
    functions of generic representations built on it.

    Arithmetic is exact and round_fn is the identity.  np.linalg.eigh is any function
    satisfying [eigh_correct]: on a Hermitian matrix it returns real eigenvalues and a
    unitary matrix of eigenvectors.  [eigh0] (CgGenProofs.v) is one such function. *)
From Coq Require Import ZArith String Ascii.
From mathcomp Require Import all_ssreflect all_algebra.
From mathcomp.real_closed Require Import mxtens.
From mathcomp Require Import zify.
From Verif Require Import Base McRing Nd NdProofs Reps RepSpec RepProofs Pinv RepOps RepOps2 Sl2c.
From Verif Require Import LinAlg GsMx LinAlgProofs IcbProofs CgGenProofs Properties_Reps.

Set Implicit Arguments.
Unset Strict Implicit.
Unset Printing Implicit Defensive.

Import Order.POrderTheory Order.TotalTheory GRing.Theory Num.Theory.
Local Open Scope ring_scope.

Section Props.
Variable C : numClosedFieldType.
Notation nd := (nd C).
Notation id_ := (fun x : nd => x).

(** ** C18: gram_schmidt *)
(** The rows of the result are orthonormal, lie in the row space of the input, and the
    component of every input row orthogonal to them has norm at most eps. *)
Theorem C18_gram_schmidt (eps : C) m n (a : nd) : 0 <= eps -> shape a = [:: m; n] ->
  let A := mx2 m n a in
  exists k b, gram_schmidt id_ eps a = Ok b /\ shape b = [:: k; n] /\
  let B := mx2 k n b in
  [/\ B *m adj B = 1%:M, (B <= A)%MS &
      forall i, \sum_j `|(row i A - row i A *m adj B *m B) 0 j| ^+ 2 <= eps ^+ 2].
Proof.
move=> e0 sa A; have [k [b [h1 [h2 [h3 h4 h5]]]]] := gram_schmidtP e0 sa.
exists k, b; split=> //; split=> //; split=> // i.
have := h5 i; rewrite mulmxA /nrm2 /hip mxE => le; apply: le_trans le; rewrite le_eqVlt; apply/orP; left; apply/eqP.
by apply: eq_bigr => j _; rewrite normCK !mxE.
Qed.
(** With eps = 0 the result spans the row space exactly; its number of rows is the rank. *)
Theorem C18_exact m n (a : nd) : shape a = [:: m; n] ->
  exists k b, gram_schmidt id_ 0 a = Ok b /\ shape b = [:: k; n] /\
  let B := mx2 k n b in [/\ B *m adj B = 1%:M, (B :=: mx2 m n a)%MS & k = \rank (mx2 m n a)].
Proof.
move=> sa; have [k [b [h1 [h2 [h3 h4 h5]]]]] := gram_schmidtP (lexx 0) sa.
exists k, b; split=> //; split=> //.
have eq : (mx2 k n b :=: mx2 m n a)%MS.
  apply/eqmxP; rewrite h4 /=; apply/row_subP=> i.
  have := h5 i; rewrite expr0n /= => le; have : nrm2 (row i (mx2 m n a) - row i (mx2 m n a) *m (adj (mx2 k n b) *m mx2 k n b)) == 0.
    by apply/eqP/le_anti; rewrite le nrm2_ge0.
  by rewrite nrm2_eq0 subr_eq0 => /eqP ->; rewrite mulmxA submxMl.
split=> //; rewrite -eq; apply/eqP; rewrite eq_sym eqn_leq rank_leq_row /=.
by have := mxrankM_maxl (mx2 k n b) (adj (mx2 k n b)); rewrite h3 mxrank1.
Qed.
(** Arrays that are not matrices are refused. *)
Theorem C18_not_matrix (eps : C) (a : nd) : size (shape a) <> 2%N -> gram_schmidt id_ eps a = Err AssertionError.
Proof. by rewrite /gram_schmidt; case: (shape a) => [|? [|? []]]. Qed.

(** The matrix [[1, 2], [2, 4], [0, 1]]. *)
Definition ex_mat : nd := Nd [:: 3; 2]%N (fun idx => (nth 0%N [:: 1; 2; 2; 4; 0; 1]%N (head 0%N idx * 2 + nth 0%N idx 1))%:R).
Example C18_example : exists b, gram_schmidt id_ 0 ex_mat = Ok b /\ shape b = [:: 2; 2]%N.
Proof.
have [k [b [h1 [h2 [_ _ e]]]]] := C18_exact (erefl : shape ex_mat = _); exists b; split=> //; rewrite h2 e.
suff /eqP -> : row_full (mx2 3 2 ex_mat) by [].
apply/row_fullP; exists (\matrix_(i < 2, j < 3) (nth 0 [:: 1; 0; -2%:R; 0; 0; 1] (i * 3 + j))).
apply/matrixP=> -[[|[|i]] hi] // -[[|[|j]] hj] //; rewrite !mxE !big_ord_recr big_ord0 /= !mxE /=; by mcring.
Qed.

(** ** C66: extend_basis *)
(** returns="Q": a unitary matrix whose first rows are those of gram_schmidt;
    returns="E": its other rows, and a ValueError (np.stack of an empty list) when
    there is none. *)
Theorem C66_extend_basis (eps : C) m n (a : nd) : 0 <= eps -> n%:R * eps ^+ 2 < 1 -> shape a = [:: m; n] -> (0 < n)%N ->
  exists k b q, gram_schmidt id_ eps a = Ok b /\ shape b = [:: k; n] /\ (k <= n)%N /\
  extend_basis_Q id_ eps a = Ok q /\ shape q = [:: n; n] /\
  [/\ mx2 n n q *m adj (mx2 n n q) = 1%:M,
      (forall i j, (i < k)%N -> (j < n)%N -> get q [:: i; j] = get b [:: i; j]) &
      if k == n then extend_basis_E id_ eps a = Err ValueError else
      exists e, extend_basis_E id_ eps a = Ok e /\ shape e = [:: (n - k)%N; n] /\
        forall i j, (i < n - k)%N -> (j < n)%N -> get e [:: i; j] = get q [:: (k + i)%N; j]].
Proof. exact: extend_basisP. Qed.
(** Hence the rows of E are orthonormal and orthogonal to the rows of A. *)
Theorem C66_complement m n (a : nd) : shape a = [:: m; n] -> (0 < n)%N -> (\rank (mx2 m n a) < n)%N ->
  exists e, extend_basis_E id_ 0 a = Ok e /\ shape e = [:: (n - \rank (mx2 m n a))%N; n] /\
  let E := mx2 (n - \rank (mx2 m n a)) n e in
  E *m adj E = 1%:M /\ mx2 m n a *m adj E = 0.
Proof.
move=> sa n0 rk; have [k' [b' [g1 [g2 [g3 g4 g5]]]]] := C18_exact sa.
have [||||k [b [q [h1 [h2 [h3 [h4 [h5 [h6 h7]]]]]]]]] := @C66_extend_basis 0 m n a; rewrite ?expr0n ?mulr0 ?ltr01 //.
move: h1; rewrite g1 => -[bb]; rewrite -{}bb in h2 h7; move: h2; rewrite g2 => -[kk]; rewrite -{}kk in h3 h7 *; rewrite -g5 in rk *.
rewrite ltn_eqF // => -[e [e1 [e2 e3]]]; exists e; split=> //; split=> //.
have U i j : (mx2 n n q *m adj (mx2 n n q)) i j = (i == j)%:R by rewrite h6 mxE.
have lt (i : 'I_(n - k')) : (k' + i < n)%N by move: (ltn_ord i); lia.
have lt' (i : 'I_k') : (i < n)%N by apply: leq_trans (ltn_ord i) _; exact: ltnW.
split.
  apply/matrixP=> i j; have := U (Ordinal (lt i)) (Ordinal (lt j)); rewrite -val_eqE /= eqn_add2l => u.
  rewrite [RHS]mxE -val_eqE -u !mxE; apply: eq_bigr => x _; by rewrite !mxE /= !e3.
suff z : mx2 k' n b' *m adj (mx2 (n - k') n e) = 0.
  have /submxP[D ->] : (mx2 m n a <= mx2 k' n b')%MS by rewrite g4.
  by rewrite -mulmxA z mulmx0.
apply/matrixP=> i j; have := U (Ordinal (lt' i)) (Ordinal (lt j)); rewrite -val_eqE /=.
rewrite ltn_eqF ?ltn_addr // => u.
rewrite [RHS]mxE -[RHS]u !mxE; apply: eq_bigr => x _; by rewrite !mxE /= h7 // !e3.
Qed.
Definition ex_row : nd := Nd [:: 1; 3]%N (fun idx => (nth 0%N idx 1).+1%:R).
Example C66_example : exists e, extend_basis_E id_ 0 ex_row = Ok e /\ shape e = [:: 2; 3]%N.
Proof.
have rk : \rank (mx2 1 3 ex_row) = 1%N.
  rewrite rank_rV; suff -> : mx2 1 3 ex_row != 0 by [].
  by apply/eqP=> /matrixP/(_ 0 0); rewrite !mxE /= => /eqP; rewrite oner_eq0.
have [||e [h1 [h2 _]]] := C66_complement (erefl : shape ex_row = _) => //; first by rewrite rk.
by exists e; rewrite h2 rk.
Qed.

Section Eigh.
Variable eigh : nd -> res (nd * nd).
Hypothesis eighP : eigh_correct eigh.
Variable eps : C.
Hypothesis eps0 : 0 < eps.

(** ** C19: nullspace *)
(** If no eigenvalue of A^H A lies strictly between 0 and eps, the result is an
    orthonormal basis of the kernel.  Its number of rows is dim ker A. *)
Theorem C19_nullspace m n (a : nd) : n%:R * eps ^+ 2 < 1 -> shape a = [:: m; n] ->
  let A := mx2 m n a in gap (adj A *m A) eps ->
  exists b, nullspace id_ eigh eps a = Ok b /\ shape b = [:: (n - \rank A)%N; n] /\
  let B := mx2 (n - \rank A) n b in
  B *m adj B = 1%:M /\ forall x : 'rV[C]_n, A *m x^T = 0 <-> (x <= B)%MS.
Proof.
move=> ne sa A gp; have [k [b [h1 [h2 [h3 h4]]]]] := nullspaceP eighP eps0 ne sa gp.
suff kk : k = (n - \rank A)%N by rewrite -kk; exists b.
have <- : \rank (mx2 k n b) = k.
  apply/eqP; rewrite eqn_leq rank_leq_row.
  by have := mxrankM_maxl (mx2 k n b) (adj (mx2 k n b)); rewrite h3 mxrank1.
rewrite -(mxrank_tr A) -mxrank_ker; apply/eqP; rewrite eqn_leq !mxrankS //.
  apply/row_subP=> i; apply/h4; apply: trmx_inj; rewrite trmx_mul trmxK trmx0.
  by apply/sub_kermxP; exact: row_sub.
apply/row_subP=> i; apply/sub_kermxP; have /h4 := row_sub i (mx2 k n b).
by move/(congr1 trmx); rewrite trmx_mul trmxK trmx0.
Qed.
Theorem C19_not_matrix (a : nd) : size (shape a) <> 2%N -> nullspace id_ eigh eps a = Err AssertionError.
Proof. by rewrite /nullspace; case: eqP. Qed.

(** ** C20: sequential_nullspace *)
(** [inker As x]: A x = 0 for every A of the list; [onbasis S K]: the rows of S are an
    orthonormal basis of K; [dim_gt K d]: K has dimension greater than d; [gap_on]: the
    gap condition of C19 for the next matrix restricted to the joint kernel of the
    previous ones.  The elements are consumed up to the first prefix whose joint kernel
    has dimension at most [d]; a ValueError when there is none. *)
Theorem C20_sequential_nullspace n (As : seq nd) (d : int) : n%:R * eps ^+ 2 < 1 ->
  all (fun a => shape a == [:: len a; n]) As ->
  (forall A1 a A2, As = A1 ++ a :: A2 -> gap_on eps n A1 a) ->
  match sequential_nullspace id_ eigh eps As d with
  | Ok b => exists A1 a A2 k, [/\ As = A1 ++ a :: A2, shape b = [:: k; n],
      onbasis (mx2 k n b) (inker (rcons A1 a)), k%:Z <= d &
      forall B1 c B2, A1 = B1 ++ c :: B2 -> dim_gt (inker (n := n) (rcons B1 c)) d]
  | Err e => e = ValueError /\
      forall B1 c B2, As = B1 ++ c :: B2 -> dim_gt (inker (n := n) (rcons B1 c)) d
  end.
Proof. by move=> ne sA gp; have := @sequential_nullspaceP C eigh eighP eps eps0 n ne As d sA gp. Qed.

(** ** C21: infer_change_of_basis *)
(** util.infer_change_of_basis: the slices are orthonormal (for tr S T^H) and span
    exactly the S with X1[a] S = S X2[a] for all a.  [gap2] is the gap condition: the
    Laplacian sum_a ad_a^H ad_a, ad_a S = X1[a] S - S X2[a], has no eigenvalue strictly
    between 0 and eps. *)
Theorem C21_infer_change_of_basis N d1 d2 (X1 X2 : nd) : (0 < N)%N -> (0 < d1)%N -> (0 < d2)%N ->
  (d1 * d2)%:R * eps ^+ 2 < 1 -> shape X1 = [:: N; d1; d1] -> shape X2 = [:: N; d2; d2] ->
  gap2 N (mx3 d1 d1 X1) (mx3 d2 d2 X2) eps ->
  exists k b, icb id_ eigh eps X1 X2 = Ok b /\ shape b = [:: k; d1; d2] /\
  (forall i j, (i < k)%N -> (j < k)%N -> \tr (mx3 d1 d2 b i *m adj (mx3 d1 d2 b j)) = (i == j)%:R) /\
  forall S : 'M[C]_(d1, d2), (forall a, (a < N)%N -> mx3 d1 d1 X1 a *m S = S *m mx3 d2 d2 X2 a) <->
    exists c : nat -> C, S = \sum_(i < k) c i *: mx3 d1 d2 b i.
Proof.
move=> h1 h2 h3 h4 h5 h6 h7; have [k [b [eb [sb [f1 f2]]]]] := icbP eighP eps0 h1 h2 h3 h4 h5 h6 h7.
by exists k, b; split=> //; split=> //; split=> // i j hi hj; rewrite f1 // mulr1.
Qed.
(** Stacks of different lengths are refused, and so are empty ones. *)
Theorem C21_mismatch N N' d1 d2 (X1 X2 : nd) : shape X1 = [:: N; d1; d1] -> shape X2 = [:: N'; d2; d2] -> N <> N' ->
  icb id_ eigh eps X1 X2 = Err AssertionError.
Proof. by move=> s1 s2 /eqP ne; exact: icb_mismatch s1 s2 ne. Qed.
Theorem C21_empty d1 d2 (X1 X2 : nd) : shape X1 = [:: 0; d1; d1]%N -> shape X2 = [:: 0; d2; d2]%N ->
  icb id_ eigh eps X1 X2 = Err ValueError.
Proof. exact: icb_empty. Qed.
(** The version for representations: the slices Q are orthogonal with tr Q Q^H = dim of
    the second one, and span exactly the Q with Q rho1 = rho2 Q. *)
Theorem C21_rep T d1 d2 (r1 r2 : rep C) : is_rep T d1 r1 -> is_rep T d2 r2 ->
  (0 < th_l T + th_h T)%N -> (0 < d1)%N -> (0 < d2)%N -> (d2 * d1)%:R * eps ^+ 2 < 1 ->
  gap_rep T d1 d2 r1 r2 eps ->
  exists k b, rep_icb id_ eigh eps r1 r2 = Ok b /\ shape b = [:: k; d2; d1] /\
  (forall i j, (i < k)%N -> (j < k)%N -> \tr (mx3 d2 d1 b i *m adj (mx3 d2 d1 b j)) = (i == j)%:R * d2%:R) /\
  forall Q : 'M[C]_(d2, d1),
    ((forall a, (a < th_l T)%N -> Q *m mx3 d1 d1 (rX r1) a = mx3 d2 d2 (rX r2) a *m Q) /\
     (forall a, (a < th_h T)%N -> Q *m mx3 d1 d1 (rH r1) a = mx3 d2 d2 (rH r2) a *m Q)) <->
    exists c : nat -> C, Q = \sum_(i < k) c i *: mx3 d2 d1 b i.
Proof. exact: rep_icbP. Qed.

(** ** C22: clebsch_gordan *)
(** [cg_equiv]: the two identities (Lie generators and discrete generators) that
    check_representation_triplet tests.  The slices returned are orthogonal and span
    exactly the arrays satisfying them. *)
Theorem C22_clebsch_gordan T d1 d2 d3 (r1 r2 r3 : rep C) : is_rep T d1 r1 -> is_rep T d2 r2 -> is_rep T d3 r3 ->
  (0 < th_l T + th_h T)%N -> (0 < d1)%N -> (0 < d2)%N -> (0 < d3)%N -> (d3 * (d1 * d2))%:R * eps ^+ 2 < 1 ->
  gap2 (th_l T + th_h T) (gens (th_l T) d3 r3) (tgens (th_l T) d1 d2 r1 r2) eps ->
  exists k b, cg_gen id_ eigh eps r1 r2 r3 = Ok b /\ shape b = [:: k; d1; d2; d3] /\
  (forall z z', (z < k)%N -> (z' < k)%N ->
     \sum_(i < d1) \sum_(j < d2) \sum_(l < d3) get b [:: z; i : nat; j : nat; l : nat] * (get b [:: z'; i : nat; j : nat; l : nat])^*
     = (z == z')%:R * d3%:R) /\
  (forall z, (z < k)%N -> cg_equiv T d1 d2 d3 r1 r2 r3 (fun i j l => get b [:: z; i; j; l])) /\
  forall c : nat -> nat -> nat -> C, cg_equiv T d1 d2 d3 r1 r2 r3 c ->
    exists y : nat -> C, forall i j l, (i < d1)%N -> (j < d2)%N -> (l < d3)%N ->
      c i j l = \sum_(z < k) y z * get b [:: z : nat; i; j; l].
Proof.
move=> h1 h2 h3 N0 d10 d20 d30 ne gp; have [k [b [e [sb [o sp]]]]] := cg_genP eighP eps0 h1 h2 h3 N0 d10 d20 d30 ne gp.
exists k, b; split=> //; split=> //; split=> //; split=> [z hz|c /sp //].
apply/sp; exists (fun y => (y == z)%:R) => i j l _ _ _.
rewrite (bigD1 (Ordinal hz)) //= eqxx mul1r big1 ?addr0 // => y; rewrite -val_eqE /= => /negPf ->.
by rewrite mul0r.
Qed.

(** ** C59: is_irreducible *)
(** True exactly when the matrices commuting with every generator are the scalars. *)
Theorem C59_is_irreducible T d (r : rep C) : is_rep T d r -> (0 < th_l T + th_h T)%N -> (0 < d)%N ->
  (d * d)%:R * eps ^+ 2 < 1 -> gap_rep T d d r r eps ->
  exists b, is_irreducible id_ eigh eps r = Ok b /\
    (b <-> forall S : 'M[C]_d,
       (forall a, (a < th_l T)%N -> S *m mx3 d d (rX r) a = mx3 d d (rX r) a *m S) ->
       (forall a, (a < th_h T)%N -> S *m mx3 d d (rH r) a = mx3 d d (rH r) a *m S) -> exists c, S = c%:M).
Proof.
move=> h1 h2 h3 h4 h5; have [b [e1 e2]] := is_irreducibleP eighP eps0 h1 h2 h3 h4 h5; exists b; split=> //.
by rewrite e2; split=> h S; [move=> hX hH; apply: h|case; exact: h].
Qed.
(** For unitary representations this is irreducibility: no invariant subspace other
    than 0 and the whole space.  [invariant T r U]: the row space of U is stable under
    v -> X v and v -> H v. *)
Theorem C59_unitary T d (r : rep C) : is_rep T d r -> (0 < th_l T + th_h T)%N -> (0 < d)%N ->
  (d * d)%:R * eps ^+ 2 < 1 -> gap_rep T d d r r eps -> exact_unitary T d r ->
  exists b, is_irreducible id_ eigh eps r = Ok b /\ (b <-> irreducible T d r).
Proof.
move=> h1 h2 h3 h4 h5 u; have [b [e1 e2]] := is_irreducibleP eighP eps0 h1 h2 h3 h4 h5; exists b; split=> //.
rewrite e2; split=> [h|irr S]; first exact: unitary_irreducible.
exact: schur.
Qed.
(** In general an irreducible representation is always recognised. *)
Theorem C59_irreducible T d (r : rep C) : is_rep T d r -> (0 < th_l T + th_h T)%N -> (0 < d)%N ->
  (d * d)%:R * eps ^+ 2 < 1 -> gap_rep T d d r r eps -> irreducible T d r ->
  is_irreducible id_ eigh eps r = Ok true.
Proof.
move=> h1 h2 h3 h4 h5 irr; have [b [-> e2]] := is_irreducibleP eighP eps0 h1 h2 h3 h4 h5.
congr Ok; apply/e2 => S; exact: schur.
Qed.

(** ** C60: is_real *)
Theorem C60_is_real T d (r : rep C) : is_rep T d r -> is_rep T d (conjugate r) ->
  (0 < th_l T + th_h T)%N -> (0 < d)%N -> (d * d)%:R * eps ^+ 2 < 1 -> gap_rep T d d r (conjugate r) eps ->
  exists b, is_real id_ eigh eps r = Ok b /\
    (b <-> exists S : 'M[C]_d, S != 0 /\
      (forall a, (a < th_l T)%N -> S *m mx3 d d (rX r) a = map_mx conjC (mx3 d d (rX r) a) *m S) /\
      (forall a, (a < th_h T)%N -> S *m mx3 d d (rH r) a = map_mx conjC (mx3 d d (rH r) a) *m S)).
Proof.
move=> h1 h2 h3 h4 h5 h6; have [b [e1 e2]] := is_realP eighP eps0 h1 h2 h3 h4 h5 h6; exists b; split=> //.
have cX a : mx3 d d (rX (conjugate r)) a = map_mx conjC (mx3 d d (rX r) a) by apply/matrixP=> i j; rewrite !mxE.
have cH a : mx3 d d (rH (conjugate r)) a = map_mx conjC (mx3 d d (rH r) a) by apply/matrixP=> i j; rewrite !mxE.
rewrite e2; split=> -[S [S0 [hX hH]]]; exists S; split=> //; split=> a ha; by rewrite ?hX ?hH // ?cX ?cH.
Qed.
End Eigh.

(** ** C60: is_unitary *)
(** The exact meaning of the test: H H^H = 1 up to 1e-13 (plus the default relative
    tolerance 1e-5 on the diagonal) and X + X^H = 0 up to 1e-13. *)
Theorem C60_is_unitary T d (r : rep C) : is_rep T d r ->
  exists b, is_unitary r = Ok b /\ (b <->
  (forall a (i j : 'I_d), (a < th_h T)%N ->
     `|(mx3 d d (rH r) a *m adj (mx3 d d (rH r) a)) i j - (i == j)%:R|
       <= (10%:R ^+ 13)^-1 + (10%:R ^+ 5)^-1 * (i == j)%:R) /\
  (forall a (i j : 'I_d), (a < th_l T)%N ->
     `|(mx3 d d (rX r) a + adj (mx3 d d (rX r) a)) i j| <= (10%:R ^+ 13)^-1)).
Proof. exact: is_unitaryP. Qed.
(** Unitary representations pass; [exact_unitary]: H H^H = 1 and X + X^H = 0. *)
Theorem C60_exact T d (r : rep C) : is_rep T d r -> exact_unitary T d r -> is_unitary r = Ok true.
Proof. exact: exact_is_unitary. Qed.
Theorem C60_direct_sum T d1 d2 (r1 r2 : rep C) : is_rep T d1 r1 -> is_rep T d2 r2 ->
  exact_unitary T d1 r1 -> exact_unitary T d2 r2 ->
  exists r, direct_sum r1 r2 = Ok r /\ exact_unitary T (d1 + d2) r /\ is_unitary r = Ok true.
Proof.
move=> h1 h2 u1 u2; have [r [e [h _]]] := direct_sum_ok h1 h2; exists r; split=> //.
have u := unitary_direct_sum h1 h2 u1 u2 e; by split=> //; exact: exact_is_unitary h u.
Qed.
Theorem C60_tensor_product T d1 d2 (r1 r2 : rep C) : is_rep T d1 r1 -> is_rep T d2 r2 ->
  exact_unitary T d1 r1 -> exact_unitary T d2 r2 ->
  exists r, tensor_product r1 r2 = Ok r /\ exact_unitary T (d1 * d2) r /\ is_unitary r = Ok true.
Proof.
move=> h1 h2 u1 u2; have [r [e [h _]]] := tensor_product_ok h1 h2; exists r; split=> //.
have u := unitary_tensor_product h1 h2 u1 u2 e; by split=> //; exact: exact_is_unitary h u.
Qed.
Theorem C60_change_basis T d (r : rep C) (Q : nd) : is_rep T d r -> shape Q = [:: d; d] ->
  adj (mx2 d d Q) *m mx2 d d Q = 1%:M -> exact_unitary T d r ->
  exists r', change_basis r Q = Ok r' /\ exact_unitary T d r' /\ is_unitary r' = Ok true.
Proof.
move=> h sQ q1 u; have fu : row_full (mx2 d d Q) by apply/row_fullP; exists (adj (mx2 d d Q)).
have [r' [e [h' _]]] := change_basis_ok h sQ fu (or_introl erefl); exists r'; split=> //.
have u' := unitary_change_basis h sQ q1 (mulmx1C q1) (or_introl erefl) u e.
by split=> //; exact: exact_is_unitary h' u'.
Qed.

(** ** Examples *)
(** The tolerance 1e-4 that the code uses by default. *)
Definition eps4 : C := (10%:R ^+ 4)^-1.
Lemma eps4_gt0 : 0 < eps4. Proof. by rewrite invr_gt0 exprn_gt0 // ltr0n. Qed.
Lemma eps4_small n : (n <= 9)%N -> n%:R * eps4 ^+ 2 < 1.
Proof.
move=> h; rewrite /eps4 exprVn -exprM ltr_pdivr_mulr ?mul1r ?exprn_gt0 ?ltr0n // -natrX ltr_nat.
by apply: leq_trans (h : (n < 10 ^ 1)%N) _; rewrite leq_exp2l.
Qed.
Lemma eps4_le n : (0 < n)%N -> eps4 <= n%:R.
Proof.
move=> h; apply: (@le_trans _ _ 1); last by rewrite ler1n.
by rewrite /eps4 invf_le1 ?exprn_gt0 ?ltr0n // exprn_ege1 // ler1n.
Qed.

(** C19: the kernel of [[1, i]]. *)
Definition ex_1i : nd := Nd [:: 1; 2]%N (fun idx => if nth 0%N idx 1 == 0%N then 1 else 'i).
Lemma sum2 (F : 'I_2 -> C) : \sum_i F i = F (inord 0) + F (inord 1).
Proof.
rewrite !big_ord_recl big_ord0 addr0; congr (F _ + F _); by apply/val_inj; rewrite /= inordK.
Qed.
Lemma ex_1i_gap : gap (adj (mx2 1 2 ex_1i) *m mx2 1 2 ex_1i) eps4.
Proof.
move=> c x x0 e; have i2 : 'i * 'i = -1 :> C by rewrite -expr2 sqrCi.
pose y := x (inord 0) 0; pose z := x (inord 1) 0.
have w : (mx2 1 2 ex_1i *m x) 0 0 = y + 'i * z.
  by rewrite mxE sum2 !mxE /= !inordK //= mul1r.
have ej (j : 'I_2) : (mx2 1 2 ex_1i 0 j)^* * (y + 'i * z) = c * x j 0.
  have := congr1 (fun M : 'cV[C]_2 => M j 0) e; rewrite -mulmxA mxE big_ord1 w => h.
  by move: h; rewrite [X in X * _]mxE [X in X^* * _]mxE [X in _ = X]mxE.
have e0 := ej (inord 0); have e1 := ej (inord 1).
rewrite mxE /= inordK //= rmorph1 mul1r in e0; rewrite mxE /= inordK //= conjCi in e1.
have e2 : c * (y - 'i * z) = 0.
  transitivity (c * y - 'i * (c * z)); first by mcring.
  by rewrite -e0 -e1; transitivity ((1 + 'i * 'i) * (y + 'i * z)); [mcring|rewrite i2 subrr mul0r].
move/eqP: e2; rewrite mulf_eq0 => /orP[/eqP|]; first by left.
rewrite subr_eq0 => /eqP yz; right.
have z0 : z != 0.
  apply: contra x0 => /eqP z0; apply/eqP/colP => j; rewrite mxE.
  have [->|->] : j = inord 0 \/ j = inord 1.
    by case: j => [[|[|j]] hj] //; [left|right]; apply/val_inj; rewrite /= inordK.
  - by rewrite -/y yz z0 mulr0.
  - by rewrite -/z z0.
suff -> : c = 2%:R by exact: eps4_le.
by apply: (mulIf z0); rewrite -e1 yz; transitivity (- ('i * 'i) * (2%:R * z)); [mcring|rewrite i2 opprK mul1r].
Qed.
Example C19_example : exists b, nullspace id_ (@eigh0 C) eps4 ex_1i = Ok b /\ shape b = [:: 1; 2]%N.
Proof.
have [b [h1 [h2 _]]] := C19_nullspace (@eigh0_correct C) eps4_gt0 (eps4_small (n := 2) isT) (erefl : shape ex_1i = _) ex_1i_gap.
have rk : \rank (mx2 1 2 ex_1i) = 1%N.
  rewrite rank_rV; suff -> : mx2 1 2 ex_1i != 0 by [].
  by apply/eqP=> /matrixP/(_ 0 0); rewrite !mxE /= => /eqP; rewrite oner_eq0.
by exists b; rewrite h2 rk.
Qed.

(** C20: the first two coordinates vanish in C^3. *)
Definition ex_e (k : nat) : nd := Nd [:: 1; 3]%N (fun idx => (nth 0%N idx 1 == k)%:R).
Lemma gap_rank1 k (R : 'M[C]_(1, k)) : R *m adj R = 1%:M -> gap (adj R *m R) eps4.
Proof.
move=> RR c x x0 e; have : R *m x = c *: (R *m x) by rewrite scalemxAr -e !mulmxA RR mul1mx.
move/eqP; rewrite -subr_eq0 -{1}[R *m x]scale1r -scalerBl scaler_eq0 subr_eq0 => /orP[/eqP <-|/eqP z].
  by right; apply: (eps4_le (n := 1)).
left; move/eqP: e; rewrite -mulmxA z mulmx0 eq_sym scaler_eq0 (negPf x0) orbF => /eqP //.
Qed.
Lemma ex_eE (k : nat) (x : 'rV[C]_3) : (k < 3)%N -> (mx2 1 3 (ex_e k) *m x^T = 0) <-> x 0 (inord k) = 0.
Proof.
move=> hk; have E : (mx2 1 3 (ex_e k) *m x^T) 0 0 = x 0 (inord k).
  rewrite mxE (bigD1 (inord k)) //= big1 ?addr0 => [|j ne]; rewrite !mxE /=.
    by rewrite inordK // eqxx mul1r.
  by rewrite -(inordK hk) val_eqE (negPf ne) mul0r.
split=> h; first by rewrite -E h mxE.
by apply/matrixP=> i j; rewrite !ord1 E h mxE.
Qed.
Lemma ex_gap_on : forall A1 a A2, [:: ex_e 0; ex_e 1] = A1 ++ a :: A2 -> gap_on eps4 3 A1 a.
Proof.
have main As (k : nat) : (k < 3)%N -> (forall x : 'rV[C]_3, x = delta_mx 0 (inord k) -> inker As x) -> gap_on eps4 3 As (ex_e k).
  move=> hk hA k' S [S1 SK] /=; apply: gap_rank1.
  have d : mx2 1 3 (ex_e k) = delta_mx 0 (inord k).
    apply/matrixP=> i j; rewrite !mxE !ord1 eqxx /= -val_eqE /= inordK //.
  have /submxP[D e] : ((delta_mx 0 (inord k) : 'rV[C]_3) <= S)%MS by apply/SK; exact: hA.
  have PS : delta_mx 0 (inord k) *m (adj S *m S) = delta_mx 0 (inord k) :> 'rV_3.
    by rewrite e mulmxA -(mulmxA D) S1 mulmx1.
  rewrite d adjM; set w := delta_mx _ _ in d e PS *.
  have wr : map_mx conjC w = w by apply/matrixP=> i j; rewrite !mxE; case: (_ && _); rewrite ?rmorph1 ?rmorph0.
  have aw : adj w = w^T by rewrite /adj -map_trmx wr.
  have -> : w *m S^T *m (adj S^T *m adj w) = map_mx conjC (w *m (adj S *m S) *m w^T).
    rewrite !map_mxM /= -aw wr -!mulmxA; congr (_ *m _).
    have cc m n (M : 'M[C]_(m, n)) : map_mx conjC (map_mx conjC M) = M by apply/matrixP=> i j; rewrite !mxE conjCK.
    by rewrite aw -map_trmx wr /adj cc trmxK.
  rewrite PS map_mxM -map_trmx wr; apply/matrixP=> i j; rewrite !ord1 !mxE (bigD1 (inord k)) //= big1 ?addr0.
    by rewrite !mxE eqxx mulr1.
  by move=> l ne; rewrite !mxE (negPf ne) mul0r.
case=> [|a1 [|a2 A1]] a A2 [<-].
- by move=> _; apply: main.
- case=> <- _; apply: main => // x -> /=; split=> //; apply/ex_eE => //.
  by rewrite mxE eqxx /= -val_eqE /= !inordK.
- by case=> _; case: A1.
Qed.
Example C20_example : exists b, sequential_nullspace id_ (@eigh0 C) eps4 [:: ex_e 0; ex_e 1] 1 = Ok b /\ shape b = [:: 1; 3]%N.
Proof.
have bs k K : (k <= 3)%N -> (forall x : 'rV[C]_3, K x <-> forall j : 'I_3, (j < 3 - k)%N -> x 0 j = 0) ->
    onbasis (\matrix_(i < k) delta_mx 0 (inord (3 - k + i)) : 'M[C]_(k, 3)) K.
  move=> k3 eK; have lt (i : 'I_k) : (3 - k + i < 3)%N by move: (ltn_ord i); lia.
  split=> [|x].
    apply/matrixP=> i j; rewrite !mxE (bigD1 (inord (3 - k + i))) //= big1 ?addr0 => [|l ne]; rewrite !mxE.
      by rewrite eqxx mul1r /= -val_eqE /= !inordK // eqn_add2l val_eqE; case: (i == j); rewrite ?rmorph1 ?rmorph0.
    by rewrite (negPf ne) andbF mul0r.
  rewrite eK; split=> [h|/submxP[D ->] j hj].
    apply/submxP; exists (\row_i x 0 (inord (3 - k + i))); apply/rowP=> j; rewrite [RHS]mxE.
    case: (ltnP j (3 - k)) => hj.
      rewrite h // big1 // => i _; rewrite !mxE eqxx /= -val_eqE /= inordK //.
      by rewrite ltn_eqF ?mulr0 // ltn_addr.
    have lj : (j - (3 - k) < k)%N by move: (ltn_ord j); lia.
    rewrite (bigD1 (Ordinal lj)) //= big1 ?addr0 => [|i ne]; rewrite !mxE /=.
      by rewrite subnKC // inord_val eqxx mulr1.
    rewrite -val_eqE /= inordK //; case: eqP => [e|]; last by rewrite mulr0.
    by move: ne; rewrite -val_eqE /= e addKn eqxx.
  rewrite mxE big1 // => i _; rewrite !mxE eqxx /= -val_eqE /= inordK //.
  by rewrite ltn_eqF ?mulr0 // ltn_addr.
have k1 (x : 'rV[C]_3) : inker [:: ex_e 0] x <-> forall j : 'I_3, (j < 3 - 2)%N -> x 0 j = 0.
  rewrite /= ex_eE //; split=> [[h _] j hj|h]; last by split=> //; apply: h; rewrite inordK.
  by rewrite -h; congr (x 0 _); apply/val_inj; rewrite /= inordK //; lia.
have k2 (x : 'rV[C]_3) : inker [:: ex_e 0; ex_e 1] x <-> forall j : 'I_3, (j < 3 - 1)%N -> x 0 j = 0.
  rewrite /= !ex_eE //; split=> [[h [h' _]] j hj|h]; last by split; [|split=> //]; apply: h; rewrite inordK.
  have [j0|j1] : j = 0%N :> nat \/ j = 1%N :> nat by lia.
    by rewrite -h; congr (x 0 _); apply/val_inj; rewrite /= inordK.
  by rewrite -h'; congr (x 0 _); apply/val_inj; rewrite /= inordK.
have b1 := bs 1%N _ isT k2; have b2 := bs 2%N _ isT k1.
have := C20_sequential_nullspace (@eigh0_correct C) eps4_gt0 1 (eps4_small (n := 3) isT) (isT : all (fun a : nd => shape a == [:: len a; 3%N]) [:: ex_e 0; ex_e 1]) ex_gap_on.
case: sequential_nullspace => [b [A1 [a [A2 [k [E sb ob le _]]]]]|e [_ h]]; last first.
  by have := h [:: ex_e 0] (ex_e 1) [::] erefl _ _ b1.
exists b; split=> //; rewrite sb; congr (_ :: _).
case: A1 E ob => [[<- _] ob|a1 [[<- <- _] ob|a2 A1 [_ _]]]; last by case: A1.
  by have e := onbasis_dim ob b2; rewrite e in le.
exact: onbasis_dim ob b1.
Qed.

(** Representations of the abelian algebra of dimension one: X = i diag(w_0, ..., w_(d-1)). *)
Definition u1_theory : theory C := Theory 1 0 (fun _ _ _ => 0) (fun _ _ => False) (fun _ => False).
Definition u1 (w : seq int) : rep C :=
  MkRep (zeros [:: 1; 1; 1]%N)
    (Nd [:: 1%N; size w; size w] (fun idx => (nth 0%N idx 1 == nth 0%N idx 2)%:R * ('i * (nth 0 w (nth 0%N idx 1))%:~R)))
    (zeros [:: 0%N; size w; size w]).
Definition u1w d (w : 'I_d -> int) : 'M[C]_d := diag_mx (\row_j ('i * (w j)%:~R)).
Lemma u1X w : mx3 (size w) (size w) (rX (u1 w)) 0 = u1w (fun j : 'I_(size w) => nth 0 w j).
Proof. by apply/matrixP=> i j; rewrite !mxE /= -val_eqE; case: eqP => _; rewrite ?mul1r ?mulr1n // mul0r mulr0n. Qed.
Lemma u1_ok w : is_rep u1_theory (size w) (u1 w).
Proof.
split=> //; split=> //.
by move=> [|?] [|?] // _ _; rewrite subrr big_ord1 scale0r.
Qed.
Lemma u1w_adj d (w : 'I_d -> int) : adj (u1w w) = - u1w w.
Proof.
apply/matrixP=> i j; rewrite !mxE eq_sym; case: eqP => [->|_]; rewrite ?mulr1n ?mulr0n ?rmorph0 ?oppr0 //.
by rewrite rmorphM /= conjCi rmorph_int mulNr.
Qed.
Lemma u1_unitary w : exact_unitary u1_theory (size w) (u1 w).
Proof. by split=> // -[|a] // _; rewrite u1X u1w_adj subrr. Qed.
(** The Laplacian is diagonal with eigenvalues (w_j - v_k)^2. *)
Lemma u1w_mul d d' (w : 'I_d -> int) (M : 'M[C]_(d, d')) j k : (u1w w *m M) j k = 'i * (w j)%:~R * M j k.
Proof. by rewrite mul_diag_mx !mxE. Qed.
Lemma mul_u1w d d' (w : 'I_d' -> int) (M : 'M[C]_(d, d')) j k : (M *m u1w w) j k = M j k * ('i * (w k)%:~R).
Proof. by rewrite mul_mx_diag !mxE. Qed.
Lemma u1_gap d1 d2 (w : 'I_d1 -> int) (v : 'I_d2 -> int) X1 X2 : X1 0%N = u1w w -> X2 0%N = u1w v -> gap2 1 X1 X2 eps4.
Proof.
move=> e1 e2 c S S0; rewrite /lap big_ord1 /= e1 e2 !u1w_adj => /matrixP e.
have aE (M : 'M[C]_(d1, d2)) j k : ad (u1w w) (u1w v) M j k = 'i * ((w j)%:~R - (v k)%:~R) * M j k.
  by rewrite /ad mxE u1w_mul [X in _ + X]mxE mul_u1w; mcring.
have E (j : 'I_d1) (k : 'I_d2) : ((w j - v k) ^+ 2)%:~R * S j k = c * S j k.
  have <- : (c *: S) j k = c * S j k by rewrite mxE.
  rewrite -e; have -> (M : 'M[C]_(d1, d2)) : ad (- u1w w) (- u1w v) M = - ad (u1w w) (u1w v) M.
    by rewrite /ad mulNmx mulmxN opprB addrC opprK.
  rewrite mxE !aE rmorphX rmorphB /=.
  set p := _ - _; transitivity (- ('i * 'i) * (p ^+ 2 * S j k)); last by mcring.
  by rewrite -expr2 sqrCi opprK mul1r.
have [j [k nz]] : exists j k, S j k != 0.
  case: (pickP (fun jk : 'I_d1 * 'I_d2 => S jk.1 jk.2 != 0)) => [[j k] h|h]; first by exists j, k.
  by case/eqP: S0; apply/matrixP=> j k; have /negbFE/eqP := h (j, k); rewrite mxE.
have /(mulIf nz) <- := E j k.
have [->|n0] := eqVneq (w j - v k) 0; first by left; rewrite expr0n.
right; have : 0 < (w j - v k) ^+ 2 by rewrite exprn_even_gt0 //= n0.
by case: ((w j - v k) ^+ 2) => // n h; exact: eps4_le.
Qed.
Lemma u1_gap_rep w v : gap_rep u1_theory (size w) (size v) (u1 w) (u1 v) eps4.
Proof. by apply: u1_gap; rewrite /gens /=; exact: u1X. Qed.

(** C21: intertwiners from weights (1, 1, -1) to weights (-1, 1). *)
Example C21_example : exists b, rep_icb id_ (@eigh0 C) eps4 (u1 [:: 1; 1; -1]) (u1 [:: -1; 1]) = Ok b /\
  exists k, shape b = [:: k; 2; 3]%N /\ (0 < k)%N.
Proof.
have [k [b [e [sb [_ sp]]]]] := C21_rep (@eigh0_correct C) eps4_gt0 (u1_ok [:: 1; 1; -1]) (u1_ok [:: -1; 1])
  isT isT isT (eps4_small (n := 6) isT) (@u1_gap_rep [:: 1; 1; -1] [:: -1; 1]).
exists b; split=> //; exists k; split=> //.
have : exists c : nat -> C, (delta_mx 0 (inord 2) : 'M[C]_(2, 3)) = \sum_(i < k) c i *: mx3 2 3 b i.
  apply/sp; split=> // -[|a] // _; rewrite !u1X.
  apply/matrixP=> j l; rewrite u1w_mul mul_u1w mxE; case: eqP => [->|_]; last by rewrite !(mul0r, mulr0).
  case: eqP => [->|_]; last by rewrite !(mul0r, mulr0).
  by rewrite (@inordK 2 2) //= mul1r mulr1.
case: k sb {sp} => // sb [c]; rewrite big_ord0 => /matrixP/(_ 0 (inord 2)); rewrite !mxE !eqxx => /eqP.
by rewrite oner_eq0.
Qed.

(** C22: the coupling of weight 1 with the weights (1, -1) to weight 2. *)
Example C22_example : exists k b, cg_gen id_ (@eigh0 C) eps4 (u1 [:: 1]) (u1 [:: 1; -1]) (u1 [:: 2%:Z]) = Ok b /\
  shape b = [:: k; 1; 2; 1]%N /\ (0 < k)%N.
Proof.
have gp : gap2 1 (gens 1 1 (u1 [:: 2%:Z])) (tgens 1 1 2 (u1 [:: 1]) (u1 [:: 1; -1])) eps4.
  apply: (@u1_gap 1 (1 * 2) (fun _ => 2%:Z) (fun x => 1 + nth 0 [:: 1; -1] (mxtens_unindex x).2)).
    by rewrite /gens /= (u1X [:: 2%:Z]); congr diag_mx; apply/rowP=> j; rewrite !mxE ord1.
  rewrite /tgens /= (u1X [:: 1]) (u1X [:: 1; -1]); apply/matrixP=> x y.
  case: (mxtens_indexP x) => a b; case: (mxtens_indexP y) => a' b'.
  rewrite /tensX !mxE !mxtens_indexK /= !ord1 eqxx (inj_eq (can_inj (@mxtens_indexK 1 2))).
  rewrite xpair_eqE eqxx /=; case: eqP => [->|_]; rewrite ?mulr1n ?mulr0n ?mulr0 ?mul0r ?addr0 // mulr1 mul1r.
  by rewrite mul0n add0n modn_small // rmorphD /= mulrDr.
have [k [b [e [sb [_ [_ sp]]]]]] := C22_clebsch_gordan (@eigh0_correct C) eps4_gt0 (u1_ok [:: 1]) (u1_ok [:: 1; -1])
  (u1_ok [:: 2%:Z]) isT isT isT isT (eps4_small (n := 2) isT) gp.
exists k, b; split=> //; split=> //.
have [|y h] := sp (fun _ j _ => (j == 0%N)%:R); last first.
  case: k sb {sp e gp} h => // sb h; have := h 0%N 0%N 0%N isT isT isT; rewrite big_ord0 eqxx => /eqP.
  by rewrite oner_eq0.
split=> // -[|a] // [|i] // [|[|j]] // [|l] // _ _ _ _; rewrite !big_ord1 sum2 /= !inordK //=.
- by rewrite !(mul1r, mul0r, mulr1, mulr0, addr0) mulr_natr mulr2n.
- by rewrite !(mul1r, mul0r, mulr1, mulr0, addr0).
Qed.

(** C59: a reducible unitary representation is recognised as such. *)
Example C59_example : is_irreducible id_ (@eigh0 C) eps4 (u1 [:: 1; -1]) = Ok false.
Proof.
have [b [-> e]] := C59_is_irreducible (@eigh0_correct C) eps4_gt0 (u1_ok [:: 1; -1]) isT isT (eps4_small (n := 4) isT)
  (@u1_gap_rep [:: 1; -1] [:: 1; -1]).
congr Ok; apply/negbTE/negP => /e h.
have [|//|c] := h (delta_mx 0 0 : 'M[C]_2).
  move=> [|a] // _; rewrite !u1X; apply/matrixP=> j l; rewrite u1w_mul mul_u1w mxE.
  case: eqP => [->|_]; last by rewrite !(mul0r, mulr0).
  by case: eqP => [->|_]; rewrite !(mul0r, mulr0, mul1r, mulr1).
move=> /matrixP s; have := s 0 0; have := s (inord 1) (inord 1); rewrite !mxE !eqxx mulr1n.
by rewrite -!val_eqE /= !inordK //= => <- /eqP; rewrite oner_eq0.
Qed.
(** The algebra [X0, X1] = X1 acting by X0 = diag(1, 0), X1 = E_01: only the scalars
    commute with it, but the first coordinate axis is invariant.  is_irreducible answers
    True for it although the representation is reducible. *)
Definition axb_A (i j k : nat) : C := if k != 1%N then 0 else if (i == 0%N) && (j == 1%N) then 1 else if (i == 1%N) && (j == 0%N) then -1 else 0.
Definition axb_theory : theory C := Theory 2 0 axb_A (fun _ _ => False) (fun _ => False).
Definition axb : rep C :=
  MkRep (Nd [:: 2; 2; 2]%N (fun idx => axb_A (nth 0%N idx 0) (nth 0%N idx 1) (nth 0%N idx 2)))
        (Nd [:: 2; 2; 2]%N (fun idx => ((idx == [:: 0; 0; 0]%N) || (idx == [:: 1; 0; 1]%N))%:R)) (zeros [:: 0; 2; 2]%N).
Lemma mx22P (A B : 'M[C]_2) : A (inord 0) (inord 0) = B (inord 0) (inord 0) -> A (inord 0) (inord 1) = B (inord 0) (inord 1) ->
  A (inord 1) (inord 0) = B (inord 1) (inord 0) -> A (inord 1) (inord 1) = B (inord 1) (inord 1) -> A = B.
Proof.
have E (j : 'I_2) : j = inord 0 \/ j = inord 1.
  by case: j => [[|[|j]] hj] //; [left|right]; apply/val_inj; rewrite /= inordK.
by move=> h1 h2 h3 h4; apply/matrixP=> i j; have [->|->] := E i; have [->|->] := E j.
Qed.
Lemma axb_ok : is_rep axb_theory 2 axb.
Proof.
split=> //; split=> //.
by move=> [|[|?]] [|[|?]] // _ _; apply: mx22P; rewrite ?(summxE, sum2, mxE) /= ?inordK //= /axb_A /=; mcring.
Qed.
Lemma axb_gens a : (a < 2)%N -> gens 2 2 axb a = if a == 0%N then delta_mx (inord 0) (inord 0) else delta_mx (inord 0) (inord 1).
Proof.
by case: a => [|[|a]] // _; rewrite /gens /=; apply: mx22P; rewrite !mxE -!val_eqE /= !inordK.
Qed.
Lemma axb_lap S : let L := lap 2 (gens 2 2 axb) (gens 2 2 axb) S in
  [/\ L (inord 0) (inord 0) = S (inord 0) (inord 0) - S (inord 1) (inord 1), L (inord 0) (inord 1) = S (inord 0) (inord 1),
      L (inord 1) (inord 0) = 3%:R * S (inord 1) (inord 0) & L (inord 1) (inord 1) = S (inord 1) (inord 1) - S (inord 0) (inord 0)].
Proof.
rewrite /= /lap !big_ord_recl big_ord0 addr0 /= !axb_gens //= /ad.
have dE (i j k l : nat) : (i < 2)%N -> (j < 2)%N -> (k < 2)%N -> (l < 2)%N ->
    delta_mx (inord i) (inord j) (inord k : 'I_2) (inord l : 'I_2) = ((k == i) && (l == j))%:R :> C.
  by move=> *; rewrite mxE -!val_eqE /= !inordK.
by split; rewrite ?(sum2, mxE) -?val_eqE /= ?inordK //= ?rmorph1 ?rmorph0; mcring.
Qed.
Theorem C59_reducible_refuted (eigh : nd -> res (nd * nd)) : eigh_correct eigh ->
  is_rep axb_theory 2 axb /\ is_irreducible id_ eigh eps4 axb = Ok true /\ ~ irreducible axb_theory 2 axb.
Proof.
move=> eighP; split; first exact: axb_ok.
have gp : gap_rep axb_theory 2 2 axb axb eps4.
  move=> c S S0 e; have [] := axb_lap S; rewrite /= e !mxE.
  set p := S _ _; set t := S _ _; set q := S _ _; set r := S _ _ => ep eq er et.
  have cs (x : C) n : (0 < n)%N -> x != 0 -> c * x = n%:R * x -> c = 0 \/ eps4 <= c.
    by move=> n0 x0 /(mulIf x0) ->; right; exact: eps4_le.
  have [q0|q0] := eqVneq q 0; last by apply: (cs q 1%N); rewrite // mul1r.
  have [r0|r0] := eqVneq r 0; last by apply: (cs r 3%N).
  have [c0|c0] := eqVneq c 0; [by left|].
  have pt : t = - p.
    have : c * (p + t) = 0 by rewrite mulrDr ep et; mcring.
    by move/eqP; rewrite mulf_eq0 (negPf c0) addrC addr_eq0 => /eqP.
  have [p0|p0] := eqVneq p 0; last by apply: (cs p 2%N); rewrite // ep pt opprK mulr2n mulrDl mul1r.
  by case/eqP: S0; apply: mx22P; rewrite [RHS]mxE -/p -/q -/r -/t ?pt ?p0 ?q0 ?r0 ?oppr0.
split; last first.
  pose U : 'M[C]_2 := delta_mx 0 0.
  case/(_ U).
  - split=> // -[|[|a]] // _; have -> : U = delta_mx (inord 0) (inord 0) by congr delta_mx; apply/val_inj; rewrite /= inordK.
      suff -> : (delta_mx (inord 0) (inord 0) : 'M[C]_2) *m (mx3 2 2 (rX axb) 0)^T = delta_mx (inord 0) (inord 0) by [].
      by apply: mx22P; rewrite ?(sum2, mxE) -?val_eqE /= ?inordK //=; mcring.
    suff -> : (delta_mx (inord 0) (inord 0) : 'M[C]_2) *m (mx3 2 2 (rX axb) 1)^T = 0 by rewrite sub0mx.
    by apply: mx22P; rewrite ?(sum2, mxE) -?val_eqE /= ?inordK //=; mcring.
  - by move=> /matrixP/(_ 0 0); rewrite !mxE !eqxx => /eqP; rewrite oner_eq0.
  - by rewrite /row_full mxrank_delta.
have [b [-> e]] := C59_is_irreducible eighP eps4_gt0 axb_ok isT isT (eps4_small (n := 4) isT) gp.
congr Ok; apply/e => S hX _; exists (S (inord 0) (inord 0)).
have h0 := hX 0%N isT; have h1 := hX 1%N isT.
have h01 := congr1 (fun M : 'M[C]_2 => M (inord 0) (inord 1)) h0; have h10 := congr1 (fun M : 'M[C]_2 => M (inord 1) (inord 0)) h0.
have h11 := congr1 (fun M : 'M[C]_2 => M (inord 0) (inord 1)) h1.
rewrite ?(sum2, mxE) /= ?inordK //= !(mulr0, mul0r, mulr1, mul1r, addr0, add0r) in h01 h10 h11.
apply: mx22P; rewrite [RHS]mxE -val_eqE /= !inordK //= ?mulr1n ?mulr0n //.
Qed.

(** C60: a unitary representation, the sum and the product of two, and is_real. *)
Example C60_example : is_unitary (u1 [:: 1; -2%:Z]) = Ok true /\
  exists r, tensor_product (u1 [:: 1; -2%:Z]) (u1 [:: 0; 1; 3%:Z]) = Ok r /\ is_unitary r = Ok true.
Proof.
split; first exact: C60_exact (u1_ok _) (u1_unitary _).
by have [r [e [_ u]]] := C60_tensor_product (u1_ok [:: 1; -2%:Z]) (u1_ok [:: 0; 1; 3%:Z]) (u1_unitary _) (u1_unitary _); exists r.
Qed.
(** H = 1 + 1e-6 is accepted although it is not unitary: the default relative
    tolerance 1e-5 of np.allclose is in force. *)
Definition h_theory : theory C := Theory 0 1 (fun _ _ _ => 0) (fun _ _ => False) (fun _ => False).
Definition h_rep : rep C := MkRep (zeros [:: 0; 0; 0]%N) (zeros [:: 0; 1; 1]%N) (Nd [:: 1; 1; 1]%N (fun _ => 1 + (10%:R ^+ 6)^-1)).
Example C60_tolerance : is_rep h_theory 1 h_rep /\ is_unitary h_rep = Ok true /\ ~ exact_unitary h_theory 1 h_rep.
Proof.
have ok : is_rep h_theory 1 h_rep by [].
have x0 : 0 < (10%:R ^+ 6)^-1 :> C by rewrite invr_gt0 exprn_gt0 // ltr0n.
have E : (mx3 1 1 (rH h_rep) 0 *m adj (mx3 1 1 (rH h_rep) 0)) 0 0 = (1 + (10%:R ^+ 6)^-1) ^+ 2.
  by rewrite mxE big_ord1 !mxE /= rmorphD rmorph1 fmorphV rmorphX rmorph_nat expr2.
split=> //; split; last first.
  case=> /(_ 0%N isT)/matrixP/(_ 0 0); rewrite E mxE => /eqP; rewrite gt_eqF // exprn_egt1 // ltr_addl //.
have [b [-> e]] := C60_is_unitary ok; congr Ok; apply/e; split=> // -[|a] // i j _.
rewrite !ord1 E eqxx mulr1 sqrrD expr1n mul1r -addrA addrAC subrr add0r ger0_norm; last by rewrite addr_ge0 ?exprn_ge0 ?mulrn_wge0 // ltW.
have x1 : (10%:R ^+ 6)^-1 <= 1 :> C by rewrite invf_le1 ?exprn_gt0 ?ltr0n // exprn_ege1 // ler1n.
have x10 : (10%:R ^+ 5)^-1 = 10%:R * (10%:R ^+ 6)^-1 :> C.
  have gen (t : C) n : t != 0 -> (t ^+ n)^-1 = t * (t ^+ n.+1)^-1 by move=> t0; rewrite exprS invfM mulrA mulfV ?mul1r.
  by apply: gen; rewrite pnatr_eq0.
rewrite x10; set x := _^-1 in x0 x1 *.
apply: (@le_trans _ _ (3%:R * x)); last first.
  by rewrite ler_paddl ?ler_pmul2r ?ler_nat // invr_ge0 exprn_ge0 ?ler0n.
have -> : 3%:R * x = x *+ 2 + x by mcring.
by rewrite ler_add2l expr2 -[X in _ <= X]mulr1 ler_pmul2l.
Qed.
(** Weights (1, -1) are conjugate to themselves; weight 1 is not. *)
Lemma u1_conj w : is_rep u1_theory (size w) (conjugate (u1 w)).
Proof.
split=> //; split=> //.
by move=> [|?] [|?] // _ _; rewrite subrr big_ord1 scale0r.
Qed.
Lemma u1_conjX w : mx3 (size w) (size w) (rX (conjugate (u1 w))) 0 = u1w (fun j : 'I_(size w) => - nth 0 w j).
Proof.
apply/matrixP=> i j; rewrite !mxE /= -val_eqE; case: eqP => _; rewrite ?mul1r ?mulr1n ?mul0r ?rmorph0 //.
by rewrite rmorphM /= conjCi rmorph_int rmorphN /= mulrN mulNr.
Qed.
Lemma u1_conj_gap w : gap_rep u1_theory (size w) (size w) (u1 w) (conjugate (u1 w)) eps4.
Proof. by apply: u1_gap; rewrite /gens /=; [exact: u1_conjX|exact: u1X]. Qed.
Example C60_example_real : is_real id_ (@eigh0 C) eps4 (u1 [:: 1; -1]) = Ok true /\ is_real id_ (@eigh0 C) eps4 (u1 [:: 1]) = Ok false.
Proof.
split.
- have [b [-> e]] := C60_is_real (@eigh0_correct C) eps4_gt0 (u1_ok [:: 1; -1]) (u1_conj [:: 1; -1]) isT isT (eps4_small (n := 4) isT)
    (@u1_conj_gap [:: 1; -1]).
  congr Ok; apply/e; exists (delta_mx (inord 0) (inord 1)); split.
    apply/eqP=> /matrixP/(_ (inord 0) (inord 1)); rewrite !mxE !eqxx => /eqP; by rewrite oner_eq0.
  split=> // -[|a] // _.
  have -> : map_mx conjC (mx3 2 2 (rX (u1 [:: 1; -1])) 0) = mx3 2 2 (rX (conjugate (u1 [:: 1; -1]))) 0.
    by apply/matrixP=> i j; rewrite !mxE.
  rewrite (u1_conjX [:: 1; -1]) (u1X [:: 1; -1]); apply/matrixP=> j l; rewrite u1w_mul mul_u1w mxE.
  case: eqP => [->|_]; last by rewrite !(mul0r, mulr0).
  case: eqP => [->|_]; last by rewrite !(mul0r, mulr0).
  by rewrite !(@inordK 1) //= mul1r mulr1.
- have [b [-> e]] := C60_is_real (@eigh0_correct C) eps4_gt0 (u1_ok [:: 1]) (u1_conj [:: 1]) isT isT (eps4_small (n := 1) isT)
    (@u1_conj_gap [:: 1]).
  congr Ok; apply/negbTE/negP => /e[S [S0 [h _]]]; case/eqP: S0.
  have := h 0%N isT; have -> : map_mx conjC (mx3 1 1 (rX (u1 [:: 1])) 0) = mx3 1 1 (rX (conjugate (u1 [:: 1]))) 0.
    by apply/matrixP=> i j; rewrite !mxE.
  rewrite (u1_conjX [:: 1]) (u1X [:: 1]) => /matrixP/(_ 0 0); rewrite u1w_mul mul_u1w /= => /eqP.
  rewrite mulr1 -subr_eq0 => q; apply/matrixP=> i j; rewrite !ord1 mxE; apply/eqP.
  have : 'i * 2%:R * S 0 0 == 0.
    move: q; suff -> : S 0 0 * 'i - 'i * (-1)%:~R * S 0 0 = 'i * 2%:R * S 0 0 by [].
    by rewrite mulrN1z; mcring.
  by rewrite !mulf_eq0 (negPf (neq0Ci C)) pnatr_eq0.
Qed.
End Props.
