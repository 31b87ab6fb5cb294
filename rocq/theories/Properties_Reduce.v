(** Properties_Reduce: C61, the reduction of a representation. *)
From Coq Require Import ZArith String Ascii.
From mathcomp Require Import all_ssreflect all_algebra.
From mathcomp Require Import zify.
From mathcomp.real_closed Require Import mxtens.
From Verif Require Import Base McRing Nd NdProofs Reps Pinv RepSpec RepProofs RepOps Sl2c Sl2cProofs Reduced ReducedProofs TpProofs LinAlg GsMx LinAlgProofs IcbProofs BiProofs Finite ClusterProofs Properties_Finite Reduce ReduceMx ReduceProofs ReduceRun ReduceMain.

Set Implicit Arguments.
Unset Strict Implicit.
Unset Printing Implicit Defensive.

Import Order.POrderTheory GRing.Theory Num.Theory.
Local Open Scope ring_scope.

Section Props.
Variable C : numClosedFieldType.
Notation nd := (nd C).

(** The overloads for MulIrrep and ReducedRep. *)
Theorem C61_mul T (G : irreps C) (m : mulirrep G) : (0 < th_l T)%N -> mul_ok T m ->
  r_irreps (reduce_mul m) = [:: m] /\ red_ok T (reduce_mul m) /\
  exists r r', mul_rep m = Ok r /\ red_rep (reduce_mul m) = Ok r' /\ rep_eq r' r.
Proof.
move=> l0 hm; split=> //.
have ok : red_ok T (reduce_mul m).
  by split=> //= [||_ [<-|]] //; [exact: ir_sA hm.2 | exact: ir_A hm.2].
split=> //; have [r' [er' [h' [aA [gX gH]]]]] := red_rep_ok ok.
have [r [er [h [bA [kX kH]]]]] := mul_rep_ok hm.1 hm.2.
exists r, r'; split=> //; split=> //.
have D : red_dim (reduce_mul m) = mul_dim m by rewrite /red_dim /= addn0.
have blk (g : rep C -> nd) a : forall i j, (i < mul_dim m)%N -> (j < mul_dim m)%N ->
    dsl (map (mblk g a) [:: m]) i j = (mblk g a m).2 i j by move=> i j hi hj; rewrite /= hi hj.
have ent (g : rep C -> nd) a (x : nd) :
    mx3 (red_dim (reduce_mul m)) (red_dim (reduce_mul m)) x a = red_block g [:: m] a ->
    mx3 (mul_dim m) (mul_dim m) x a = mxf (mul_dim m) (mblk g a m).2.
  move=> e; apply/matrixP=> i j; rewrite !mxE -blk //.
  have hi : (i < red_dim (reduce_mul m))%N by rewrite D. have hj : (j < red_dim (reduce_mul m))%N by rewrite D.
  by have /matrixP/(_ (Ordinal hi) (Ordinal hj)) := e; rewrite !mxE.
have h2 : is_rep T (mul_dim m) r' by rewrite -D.
apply: is_rep_eq h2 h _ _ _ => [|a ha|a ha]; first by rewrite aA bA.
  by rewrite kX // (ent (@rX C)) ?mblk_tens // gX.
by rewrite kH // (ent (@rH C)) ?mblk_tens // gH.
Qed.
Theorem C61_reduced (G : irreps C) (R : reducedrep G) : reduce_reduced R = R.
Proof. by []. Qed.

(** ** The overload for Rep *)
(** All the entries are real. *)
Definition real_nd (a : nd) : Prop := forall idx, valid (shape a) idx -> get a idx \is Num.real.
Definition real_rep (r : rep C) : Prop := real_nd (rX r) /\ real_nd (rH r).
Lemma real_gens T d r : is_rep T d r -> real_rep r -> forall a, (a < th_l T + th_h T)%N ->
  map_mx conjC (gens (th_l T) d r a) = gens (th_l T) d r a.
Proof.
move=> h [hX hH] a ha; rewrite /gens; case: ifP => hl; apply/matrixP=> i j; rewrite !mxE conj_Creal //.
  by apply: hX; rewrite (ir_sX h) /valid /= hl !ltn_ord.
apply: hH; rewrite (ir_sH h) /valid /= !ltn_ord !andbT.
by rewrite -(ltn_add2l (th_l T)) subnKC // leqNgt hl.
Qed.

Section Rep.
Variables (T : theory C) (d : nat) (r : rep C).
Hypothesis hr : is_rep T d r.
Hypothesis l0 : (0 < th_l T)%N.
Hypothesis d0 : (0 < d)%N.
Notation N := (th_l T + th_h T)%N.
Notation Xg := (gens (th_l T) d r).

(** The matrix M is an element of the commutant, and any element of the commutant is
    reached for some weights. *)
Theorem C61_draw : exists2 e1m : C, 0 < e1m & forall eigh e1, eigh_correct eigh -> 0 < e1 -> e1 <= e1m ->
  exists Y, [/\ concat2 (rX r) (rH r) = Ok Y,
    forall rand, rand_ok rand -> exists M, [/\ draw eigh rand e1 Y = Ok M, shape M = [:: d; d] & morphism T r r (mx2 d d M)] &
    forall S : 'M[C]_d, morphism T r r S -> exists2 rand, rand_ok rand &
      exists M, [/\ draw eigh rand e1 Y = Ok M, shape M = [:: d; d] & mx2 d d M = S]].
Proof using hr l0 d0.
have [Y [eY [sY gY]]] := concat_gens hr.
have [a a0 ha] := gap2_small N (mx3 d d Y) (mx3 d d Y); have [b b0 hb] := small_sq C (d * d).
have [e0 p [la lb]] := small2 a0 b0; exists e0 => // eigh e1 ok p1 le.
have N0 : (0 < N)%N by rewrite addn_gt0 l0.
have sm := hb e1 p1 (le_trans le lb); have gp := ha e1 p1 (le_trans le la).
have cE S : intertw N (mx3 d d Y) (mx3 d d Y) S <-> morphism T r r S.
  by rewrite -morphism_gens; split=> h x hx; have := h x hx; rewrite !gY.
exists Y; split=> // [rand rk|S /cE hS].
  by have [M [? ? /cE ?]] := drawP ok rk N0 d0 p1 sm sY gp; exists M.
have [k [B [eb [sb [_ fr]]]]] := icbP ok p1 N0 d0 d0 sm sY sY gp.
have [c eS] := (fr S).1 hS; pose rand n : nd := Nd [:: n] (fun idx => c (head 0%N idx)).
exists rand => //.
rewrite /draw eb /= /len sb /= /einsum2 /einsum_ops /= sb /= eqxx /=.
eexists; split; [reflexivity | by [] |]; rewrite eS.
apply/matrixP=> i j; rewrite !mxE summxE /=.
by apply: eq_bigr => x _; rewrite /term /= /lookup0 /= !mxE mulr1.
Qed.

Hypothesis real : real_rep r.

(** Reduce of a real representation: when the matrix M is diagonalizable and the
    thresholds e3 and e4 are small enough, the function either raises ValueError or
    returns a ReducedRep with the generators of r, whose summands are irreducible and
    pairwise inequivalent. *)
Theorem C61_reduce eigh eig rand e1 e2 Y M : eigh_correct eigh -> eig_correct eig -> 0 < e2 ->
  concat2 (rX r) (rH r) = Ok Y -> draw eigh rand e1 Y = Ok M -> shape M = [:: d; d] ->
  morphism T r r (mx2 d d M) -> diagonalizable (mx2 d d M) ->
  exists2 e0 : C, 0 < e0 & forall e3 e4, 0 < e3 -> e3 <= e0 -> 0 < e4 -> e4 <= e0 ->
  (exists R, reduce_rep eigh eig rand e1 e2 e3 e4 r = Ok R /\ reduction T d r R) \/
  reduce_rep eigh eig rand e1 e2 e3 e4 r = Err ValueError.
Proof using hr l0 d0 real.
move=> ok okg p2 eY eM sM /morphism_gens MX dg; have [e [ee he]] := okg d M sM dg.
have [[_ er]|[inv cl [e0 p h]]] := run hr l0 d0 (real_gens hr real) ok eY eM ee MX he p2.
  by exists 1; rewrite ?ltr01 // => e3 e4 _ _ _ _; right; rewrite er.
exists e0 => // e3 e4 p3 le3 p4 le4.
by have [[_ h']|[_ ->]] := h e3 e4 p3 le3 p4 le4; [left | right].
Qed.

(** It raises as soon as an irrep occurs twice: the commutant is not commutative. *)
Theorem C61_multiplicity_refuted eigh eig rand e1 e2 Y M (S S' : 'M[C]_d) : eigh_correct eigh -> eig_correct eig -> 0 < e2 ->
  concat2 (rX r) (rH r) = Ok Y -> draw eigh rand e1 Y = Ok M -> shape M = [:: d; d] ->
  morphism T r r (mx2 d d M) -> diagonalizable (mx2 d d M) ->
  morphism T r r S -> morphism T r r S' -> S *m S' <> S' *m S ->
  exists2 e0 : C, 0 < e0 & forall e3 e4, 0 < e3 -> e3 <= e0 -> 0 < e4 -> e4 <= e0 ->
  reduce_rep eigh eig rand e1 e2 e3 e4 r = Err ValueError.
Proof using hr l0 d0 real.
move=> ok okg p2 eY eM sM /morphism_gens MX dg /morphism_gens hS /morphism_gens hS' ne.
have [e [ee he]] := okg d M sM dg.
have [[_ er]|[inv cl [e0 p h]]] := run hr l0 d0 (real_gens hr real) ok eY eM ee MX he p2.
  by exists 1; rewrite ?ltr01 // => e3 e4 _ _ _ _; rewrite er.
exists e0 => // e3 e4 p3 le3 p4 le4.
have [[sc _]|[_ ->]//] := h e3 e4 p3 le3 p4 le4; exfalso; apply: ne.
have uV : mx2 d d e.2 \in unitmx by case: he.
have [s e1'] := sc S hS; have [s' e2'] := sc S' hS'.
apply: (can_inj (mulmxK uV)); rewrite -!mulmxA e1' e2' !mulmxA e1' e2' -!mulmxA; congr (_ *m _).
by rewrite !mulmx_diag; congr diag_mx; apply/rowP=> i; rewrite !mxE mulrC.
Qed.

(** It succeeds when the elements of the commutant act by scalars on the eigenspaces of
    M, for small thresholds. *)
Theorem C61_multiplicity_free eigh eig rand e1 Y M : eigh_correct eigh -> eig_correct eig ->
  concat2 (rX r) (rH r) = Ok Y -> draw eigh rand e1 Y = Ok M -> shape M = [:: d; d] ->
  morphism T r r (mx2 d d M) -> diagonalizable (mx2 d d M) ->
  (forall S, morphism T r r S -> forall x : C, exists s : C, forall v : 'cV[C]_d, mx2 d d M *m v = x *: v -> S *m v = s *: v) ->
  exists2 e2m : C, 0 < e2m & forall e2, 0 < e2 -> e2 <= e2m ->
  exists2 e0 : C, 0 < e0 & forall e3 e4, 0 < e3 -> e3 <= e0 -> 0 < e4 -> e4 <= e0 ->
  exists R, reduce_rep eigh eig rand e1 e2 e3 e4 r = Ok R /\ reduction T d r R.
Proof using hr l0 d0 real.
move=> ok okg eY eM sM /morphism_gens MX dg hsc; have [e [ee he]] := okg d M sM dg.
have [s1 s2 uV MV] := he.
have dE i j : edist e.1 i j = `|get e.1 [:: i] - get e.1 [:: j]|.
  rewrite /edist s1 /= big_seq1 sqrCK //.
have [e2m p2m hm] := min_pos [seq edist e.1 i j | i <- iota 0 d, j <- iota 0 d].
exists e2m => // e2 p2 le2.
have nr i j : (i < d)%N -> (j < d)%N -> (edist e.1 i j < e2) = (get e.1 [:: i] == get e.1 [:: j]).
  move=> hi hj; apply/idP/eqP => [lt|E]; last by rewrite dE E subrr normr0.
  apply/eqP; rewrite -subr_eq0 -normr_eq0 -dE; apply: contraTT lt => n0.
  have pos : 0 < edist e.1 i j by rewrite lt_def n0 dE normr_ge0.
  have le : e2m <= edist e.1 i j by apply: hm => //; apply/allpairsP; exists (i, j); rewrite !mem_iota.
  by apply/negP => lt; have := le_lt_trans le (lt_le_trans lt le2); rewrite ltxx.
have [[no _]|[inv cl [e0 p h]]] := run hr l0 d0 (real_gens hr real) ok eY eM ee MX he p2.
  have [|c [inv [eu hu]]] := C55_exists s1 d0 p2.
    by move=> i j k hi hj hk; rewrite !nr // => /eqP <- /eqP <-.
  exfalso; have [[c' [inv' [_ cl _ _]]]|[eu' _]] := uwtP s1 d0 (ltnSn d) p2; first exact: no cl.
  by rewrite eu' in eu.
exists e0 => // e3 e4 p3 le3 p4 le4; have [[_ h']|[nsc _]] := h e3 e4 p3 le3 p4 le4; first exact: h'.
exfalso; apply: nsc => S /morphism_gens hS.
have lab i j : (i < d)%N -> (j < d)%N -> (nth 0%N inv i == nth 0%N inv j) = (get e.1 [:: i] == get e.1 [:: j]).
  move=> hi hj; rewrite -nr //; apply: (clustering_equiv _ _ cl) => // [x hx|x y z hx hy hz]; first by rewrite nr.
  by rewrite !nr // => /eqP <- /eqP <-.
have [l [sl hl]] := @choose_seq C 0 (nlabels inv) (fun q s => forall v : 'cV[C]_d, mx2 d d M *m v = get e.1 [:: index q inv] *: v -> S *m v = s *: v)
  (fun q _ => hsc S hS (get e.1 [:: index q inv])).
exists (nth 0 l); apply/matrixP=> i j; rewrite mul_mx_diag [in RHS]mxE.
have qi : nth 0%N inv j \in inv by rewrite mem_nth // (cl_size cl).
have := hl (nth 0%N inv j) _ (col j (mx2 d d e.2)); rewrite -(clustering_labels d0 cl) => /(_ qi).
have ix : (index (nth 0%N inv j) inv < d)%N by rewrite -[X in (_ < X)%N](cl_size cl) index_mem.
have <- : get e.1 [:: nat_of_ord j] = get e.1 [:: index (nth 0%N inv j) inv].
  by apply/eqP; rewrite -lab // nth_index.
have cm (A : 'M[C]_d) : A *m col j (mx2 d d e.2) = col j (A *m mx2 d d e.2).
  by apply/colP=> u; rewrite !mxE; apply: eq_bigr => x _; rewrite !mxE.
rewrite [mx2 d d M *m _]cm MV => H; have {}H : S *m col j (mx2 d d e.2) = nth 0 l (nth 0%N inv j) *: col j (mx2 d d e.2).
  by apply: H; rewrite mul_mx_diag; apply/colP=> u; rewrite !mxE mulrC.
by move/colP/(_ i): H; rewrite cm [LHS]mxE => ->; rewrite !mxE mulrC.
Qed.

(** Some draw succeeds when the commutant has an element that separates its
    eigenvectors. *)
Theorem C61_weights (M0 : 'M[C]_d) : morphism T r r M0 -> diagonalizable M0 ->
  (forall S, morphism T r r S -> forall x : C, exists s : C, forall v : 'cV[C]_d, M0 *m v = x *: v -> S *m v = s *: v) ->
  exists2 e1m : C, 0 < e1m & forall eigh eig e1, eigh_correct eigh -> eig_correct eig -> 0 < e1 -> e1 <= e1m ->
  exists2 rand, rand_ok rand & exists2 e2m : C, 0 < e2m & forall e2, 0 < e2 -> e2 <= e2m ->
  exists2 e0 : C, 0 < e0 & forall e3 e4, 0 < e3 -> e3 <= e0 -> 0 < e4 -> e4 <= e0 ->
  exists R, reduce_rep eigh eig rand e1 e2 e3 e4 r = Ok R /\ reduction T d r R.
Proof using hr l0 d0 real.
move=> hM dg hS; have [e1m p1 h1] := C61_draw; exists e1m => // eigh eig e1 ok okg p le.
have [Y [eY _ hd]] := h1 eigh e1 ok p le; have [rand rk [M [eM sM gM]]] := hd M0 hM.
exists rand => //; rewrite -gM in hM dg hS.
exact: (C61_multiplicity_free ok okg eY eM sM hM dg hS).
Qed.
End Rep.

(** ** Examples *)
(** One generator and no relation. *)
Definition ex_th : theory C := Theory 1 0 (fun _ _ _ => 0) (fun _ _ => False) (fun _ => False).
Definition ex_rep (d : nat) (X : 'M[C]_d) : rep C :=
  MkRep (zeros [:: 1; 1; 1]%N) (Nd [:: 1%N; d; d] (fun idx => get (nd_of_mx X) (behead idx))) (zeros [:: 0%N; d; d]).
Lemma ex_X d (X : 'M[C]_d) a : mx3 d d (rX (ex_rep X)) a = X.
Proof. by rewrite -[RHS]mx2_of_mx; apply/matrixP=> i j; rewrite !mxE. Qed.
Lemma ex_is d (X : 'M[C]_d) : is_rep ex_th d (ex_rep X).
Proof.
split=> //; split=> // -[|i] [|j] //= _ _.
by rewrite !ex_X subrr big_ord1 scale0r.
Qed.
Lemma ex_mor d (X S : 'M[C]_d) : morphism ex_th (ex_rep X) (ex_rep X) S <-> S *m X = X *m S.
Proof.
split=> [[h _]|h]; first by have := h 0%N isT; rewrite !ex_X.
by split=> -[|a] //= _; rewrite !ex_X.
Qed.
Definition m22 (a b c e : C) : 'M[C]_2 := \matrix_(i, j) (if i == 0 then if j == 0 then a else b else if j == 0 then c else e).
Lemma m22_eq (A : 'M[C]_2) : A = m22 (A 0 0) (A 0 1) (A 1 0) (A 1 1).
Proof.
by apply/matrixP=> -[[|[|i]] hi] // -[[|[|j]] hj] //; rewrite !mxE /=; congr (A _ _); apply: val_inj.
Qed.
Lemma m22_mul a b c e a' b' c' e' : m22 a b c e *m m22 a' b' c' e' =
  m22 (a * a' + b * c') (a * b' + b * e') (c * a' + e * c') (c * b' + e * e').
Proof.
by apply/matrixP=> -[[|[|i]] hi] // -[[|[|j]] hj] //; rewrite !mxE !big_ord_recr big_ord0 /= !mxE /= add0r.
Qed.
Lemma m22_inj a b c e a' b' c' e' : m22 a b c e = m22 a' b' c' e' -> [/\ a = a', b = b', c = c' & e = e'].
Proof.
by move/matrixP=> h; split; [have := h 0 0 | have := h 0 1 | have := h 1 0 | have := h 1 1]; rewrite !mxE.
Qed.
Lemma m22_1 : 1%:M = m22 1 0 0 1.
Proof. by apply/matrixP=> -[[|[|i]] hi] // -[[|[|j]] hj] //; rewrite !mxE. Qed.
Lemma ex_real a b c e : a \is Num.real -> b \is Num.real -> c \is Num.real -> e \is Num.real ->
  real_rep (ex_rep (m22 a b c e)).
Proof.
move=> ha hb hc hd; split=> -[|[|?] [|i [|j [|? ?]]]] //; rewrite /= valid_cons //= ?valid_cons ?andbF // => /and3P[hi hj _].
rewrite !insubT /= mxE; by do 2!case: ifP.
Qed.

Lemma m22_D a b c e a' b' c' e' : m22 a b c e + m22 a' b' c' e' = m22 (a + a') (b + b') (c + c') (e + e').
Proof. by apply/matrixP=> -[[|[|i]] hi] // -[[|[|j]] hj] //; rewrite !mxE. Qed.
Lemma m22_Z x a b c e : x *: m22 a b c e = m22 (x * a) (x * b) (x * c) (x * e).
Proof. by apply/matrixP=> -[[|[|i]] hi] // -[[|[|j]] hj] //; rewrite !mxE. Qed.
Lemma diag22 (w : 'rV[C]_2) : diag_mx w = m22 (w 0 0) 0 0 (w 0 1).
Proof.
apply/matrixP=> -[[|[|i]] hi] // -[[|[|j]] hj] //; rewrite !mxE /= -?val_eqE /= ?mulr1n ?mulr0n //; congr (w _ _); exact: val_inj.
Qed.
Lemma ii : 'i * 'i = -1 :> C. Proof. by rewrite -expr2 sqrCi. Qed.

(** The rotations of the plane: the two irreps are complex. *)
Definition Jr : 'M[C]_2 := m22 0 (-1) 1 0.
Lemma Jr_real : real_rep (ex_rep Jr).
Proof. by apply: ex_real; rewrite ?rpredN ?real0 ?real1. Qed.
Lemma Jr_dg : diagonalizable Jr.
Proof.
exists (m22 1 1 (-'i) 'i), (\row_i if i == 0 then 'i else - 'i); split.
    have : m22 1 1 (-'i) 'i *m (2%:R^-1 *: m22 1 'i 1 (-'i)) = 1%:M.
      rewrite m22_1 m22_Z m22_mul; have n2 : (2%:R : C) != 0 by rewrite pnatr_eq0.
      congr m22; rewrite ?mulrN ?mulNr ?mulr1 ?mul1r ?subrr ?addNr //.
      - by rewrite -mulr2n -mulr_natr mulVf.
      - by rewrite [_^-1 * 'i]mulrC mulrA ii mulN1r opprK -mulr2n -mulr_natr mulVf.
    by case/mulmx1_unit.
  rewrite diag22 !mxE /= !m22_mul; congr m22; rewrite ?mulNr ?mulrN ?ii ?mul0r ?mul1r ?mulr0 ?mulr1 ?add0r ?addr0 ?opprK ?subr0 ?oppr0 ?add0r //.
Qed.
Lemma Jr_sc S : morphism ex_th (ex_rep Jr) (ex_rep Jr) S -> forall x : C, exists s : C, forall v : 'cV[C]_2, Jr *m v = x *: v -> S *m v = s *: v.
Proof.
move=> /ex_mor; rewrite (m22_eq S); set p := S 0 0; set q := S 0 1; set u := S 1 0; set v := S 1 1.
  rewrite !m22_mul !(mulr0, mul0r, mulr1, mul1r, addr0, add0r, mulrN1, mulN1r) => /m22_inj [-> _ -> _] x.
  exists (p + u * x) => w hw.
  have -> : m22 p (- u) u p = p%:M + u *: Jr.
    by rewrite -scalemx1 m22_1 !m22_Z m22_D; congr m22; rewrite ?(mulr0, mulr1, addr0, add0r, mulrN, mulNr, opprK).
  by rewrite mulmxDl mul_scalar_mx -scalemxAl hw scalerA -scalerDl.
Qed.
Example C61_rotation : exists2 e1m : C, 0 < e1m & forall eigh eig e1, eigh_correct eigh -> eig_correct eig -> 0 < e1 -> e1 <= e1m ->
  exists2 rand, rand_ok rand & exists2 e2m : C, 0 < e2m & forall e2, 0 < e2 -> e2 <= e2m ->
  exists2 e0 : C, 0 < e0 & forall e3 e4, 0 < e3 -> e3 <= e0 -> 0 < e4 -> e4 <= e0 ->
  exists R, reduce_rep eigh eig rand e1 e2 e3 e4 (ex_rep Jr) = Ok R /\ reduction ex_th 2 (ex_rep Jr) R.
Proof. by apply: (C61_weights (ex_is Jr) isT isT Jr_real _ Jr_dg Jr_sc); apply/ex_mor. Qed.
(** Twice the trivial representation: reduce raises. *)
Example C61_twice : exists2 e1m : C, 0 < e1m & forall eigh eig e1, eigh_correct eigh -> eig_correct eig -> 0 < e1 -> e1 <= e1m ->
  exists2 rand, rand_ok rand & forall e2, 0 < e2 -> exists2 e0 : C, 0 < e0 & forall e3 e4, 0 < e3 -> e3 <= e0 -> 0 < e4 -> e4 <= e0 ->
  reduce_rep eigh eig rand e1 e2 e3 e4 (ex_rep (m22 0 0 0 0)) = Err ValueError.
Proof.
have z : m22 0 0 0 0 = 0 by apply/matrixP=> -[[|[|i]] hi] // -[[|[|j]] hj] //; rewrite !mxE.
have hM (S : 'M[C]_2) : morphism ex_th (ex_rep (m22 0 0 0 0)) (ex_rep (m22 0 0 0 0)) S by apply/ex_mor; rewrite z mulmx0 mul0mx.
have rX : real_rep (ex_rep (m22 0 0 0 0)) by apply: ex_real; rewrite real0.
have [e1m p1 h1] := C61_draw (ex_is (m22 0 0 0 0)) isT isT; exists e1m => // eigh eig e1 ok okg p le.
have [Y [eY _ hd]] := h1 eigh e1 ok p le; have [rand rk [M [eM sM gM]]] := hd (m22 1 0 0 (1 + 1)) (hM _).
exists rand => // e2 p2.
apply: (C61_multiplicity_refuted (ex_is (m22 0 0 0 0)) isT isT rX ok okg p2 eY eM sM (hM _) _ (hM (m22 0 1 0 0)) (hM (m22 0 0 1 0))).
  rewrite gM; exists 1%:M, (\row_i if i == 0 then 1 else 1 + 1); split; first exact: unitmx1.
  by rewrite mulmx1 mul1mx diag22 !mxE.
rewrite !m22_mul => /m22_inj [+ _ _ _]; rewrite !(mulr0, mul0r, mulr1, addr0, add0r) => /eqP.
by rewrite oner_eq0.
Qed.

(** ** A complex representation *)
(** The rows of B are the transposes of the eigenvectors, so that B X B^H is not the
    restriction of X to an eigenspace when the eigenvectors are not real: here reduce
    raises for all weights, although the representation is the sum of two inequivalent
    irreps (its commutant is commutative). *)
Definition zc : C := 3%:R + 4%:R * 'i.
Definition zcc : C := 3%:R - 4%:R * 'i.
Definition Xc : 'M[C]_2 := m22 0 zc zcc 0.
Lemma zzc : zc * zcc = 25%:R.
Proof.
transitivity (9%:R - 16%:R * ('i * 'i) : C); first by rewrite /zc /zcc; mcring.
by rewrite ii; mcring.
Qed.
Lemma zsq : zc * zc + zcc * zcc = - 14%:R.
Proof.
transitivity (18%:R + 32%:R * ('i * 'i) : C); first by rewrite /zc /zcc; mcring.
by rewrite ii; mcring.
Qed.
Lemma zcJ : zc^* = zcc.
Proof. by rewrite /zc rmorphD rmorphM /= !conjC_nat conjCi mulrN. Qed.
Lemma zccJ : zcc^* = zc. Proof. by rewrite -zcJ conjCK. Qed.
Lemma Xc_sq : Xc *m Xc = 25%:R%:M.
Proof. by rewrite m22_mul !(mulr0, mul0r, addr0, add0r) [zcc * _]mulrC zzc -scalemx1 m22_1 m22_Z !mulr1 !mulr0. Qed.
Lemma Xc_comm S : S *m Xc = Xc *m S -> exists a b, S = a%:M + b *: Xc.
Proof.
have z1 : zc != 0 by apply/eqP => z; have := zzc; rewrite z mul0r => /esym/eqP; rewrite pnatr_eq0.
rewrite (m22_eq S); set p := S 0 0; set q := S 0 1; set u := S 1 0; set v := S 1 1.
rewrite !m22_mul !(mulr0, mul0r, addr0, add0r) => /m22_inj [e1 e2 _ _].
have pv : p = v by apply: (mulIf z1); rewrite e2 mulrC.
exists p, (q / zc); rewrite -scalemx1 m22_1 !m22_Z m22_D !(mulr0, mulr1, addr0, add0r); congr m22 => //.
- by rewrite divfK.
- by apply: (mulfI z1); rewrite -e1 mulrA [zc * (q / _)]mulrCA divff // mulr1.
Qed.
Lemma ex_mrep k (X H : nat -> 'M[C]_k) : is_mrep ex_th X H.
Proof. by split=> // -[|i] [|j] //= _ _; rewrite subrr big_ord1 scale0r. Qed.
Lemma mE2 m n (A : 'M[C]_(m, 2)) (B : 'M[C]_(2, n)) i j : (A *m B) i j = A i 0 * B 0 j + A i 1 * B 1 j.
Proof. by rewrite mxE !big_ord_recr big_ord0 /= add0r; congr (A i _ * B _ j + A i _ * B _ j); apply: val_inj. Qed.
Lemma bad2 (B U0 : 'M[C]_2) : B *m adj B = 1%:M ->
  (forall U : 'M[C]_2, U *m (B *m Xc *m adj B) = Xc *m U -> exists s, U = s *: U0) -> False.
Proof.
move=> b1 h; have b2 : adj B *m B = 1%:M by exact: mulmx1C.
have [s es] : exists s, adj B = s *: U0 by apply: h; rewrite !mulmxA b2 mul1mx.
have [t et] : exists t, Xc *m adj B = t *: U0 by apply: h; rewrite !mulmxA -(mulmxA Xc) b2 mulmx1.
have s0 : s != 0.
  apply/eqP => z; have := b2; rewrite es z scale0r mul0mx => /matrixP/(_ 0 0); rewrite !mxE /= => /esym/eqP.
  by rewrite oner_eq0.
have : Xc = (t / s)%:M.
  rewrite -[LHS]mulmx1 -b2 mulmxA et -scalemx1 -b2 es -!scalemxAl scalerA divfK //.
move/matrixP/(_ 0 1); rewrite !mxE /= => z; have := zzc; rewrite z mulr0n mul0r => /esym/eqP.
by rewrite pnatr_eq0.
Qed.
Lemma X00 : Xc 0 0 = 0. Proof. by rewrite mxE. Qed.
Lemma X01 : Xc 0 1 = zc. Proof. by rewrite mxE. Qed.
Lemma X10 : Xc 1 0 = zcc. Proof. by rewrite mxE. Qed.
Lemma X11 : Xc 1 1 = 0. Proof. by rewrite mxE. Qed.
Definition XcE := (X00, X01, X10, X11).
Lemma bad_s (b c x y : C) : zc * c = b * x -> zcc * b = c * x -> b * b^* + c * c^* = 1 ->
  y = b * zc * c^* + c * zcc * b^* -> y * y = 25%:R -> False.
Proof.
move=> e0 e1 n1 ey y2; have n25 : (25%:R : C) != 0 by rewrite pnatr_eq0.
have x2 : x * x = 25%:R.
  have [z|z] := eqVneq b 0.
    have cn : c != 0 by apply/eqP => zv; have := n1; rewrite z zv !mul0r addr0 => /esym/eqP; rewrite oner_eq0.
    by apply: (mulfI cn); rewrite mulrA -e1 -mulrA -e0 mulrA [zcc * _]mulrC zzc mulrC.
  by apply: (mulfI z); rewrite mulrA -e0 -mulrA -e1 mulrA zzc mulrC.
have xJ : x^* = x.
  have : (x - 5%:R) * (x + 5%:R) == 0.
    have -> : (x - 5%:R) * (x + 5%:R) = x * x - 25%:R by mcring.
    by rewrite x2 subrr.
  by rewrite mulf_eq0 subr_eq0 addr_eq0 => /orP[] /eqP ->; rewrite ?rmorphN /= conjC_nat.
have e1J : zc * b^* = c^* * x by rewrite -{1}xJ -rmorphM -e1 rmorphM /= zccJ.
have bc : b * b^* = c * c^*.
  apply: (mulfI n25); rewrite -{1}zzc -x2.
  transitivity ((zcc * b) * (zc * b^*)); first by mcring.
  by rewrite e1 e1J; mcring.
have bb : 2%:R * (b * b^*) = 1 by transitivity (b * b^* + b * b^*); [mcring | rewrite {2}bc n1].
have xy : x * y = - 7%:R.
  rewrite ey; transitivity ((b * zc) * (c^* * x) + (c * x) * (zcc * b^*)); first by mcring.
  rewrite -e1J -e1; transitivity ((zc * zc + zcc * zcc) * (b * b^*)); first by mcring.
  by rewrite zsq; transitivity (- 7%:R * (2%:R * (b * b^*))); [mcring | rewrite bb mulr1].
have : (x * y) * (x * y) = (x * x) * (y * y) by mcring.
rewrite xy x2 y2 => /eqP; rewrite mulrNN -!natrM eqr_nat.
by [].
Qed.
Lemma bad1 (B : 'M[C]_(1, 2)) (U0 : 'M[C]_(2, 1)) (G : 'M[C]_1) : B *m adj B = 1%:M -> Xc *m B^T = B^T *m G ->
  U0 != 0 -> U0 *m (B *m Xc *m adj B) = Xc *m U0 -> False.
Proof.
move=> b1 hG U00 hU; set b := B 0 0; set c := B 0 1; set x := G 0 0; set u := U0 0 0; set v := U0 1 0.
set y := (B *m Xc *m adj B) 0 0.
have n25 : (25%:R : C) != 0 by rewrite pnatr_eq0.
have e0 : zc * c = b * x.
  by have /matrixP/(_ 0 0) := hG; rewrite mE2 [(_ *m G) _ _]mxE big_ord1 !XcE !mxE mul0r add0r.
have e1 : zcc * b = c * x.
  by have /matrixP/(_ 1 0) := hG; rewrite mE2 [(_ *m G) _ _]mxE big_ord1 !XcE !mxE mul0r addr0.
have n1 : b * b^* + c * c^* = 1.
  by have /matrixP/(_ 0 0) := b1; rewrite mE2 !mxE.
have ey : y = b * zc * c^* + c * zcc * b^*.
  by rewrite /y !mE2 !XcE !mxE !mulr0 add0r addr0 addrC.
have u0 : u * y = zc * v.
  by have /matrixP/(_ 0 0) := hU; rewrite [(U0 *m _) _ _]mxE big_ord1 [(Xc *m U0) _ _]mE2 !XcE mul0r add0r.
have u1 : v * y = zcc * u.
  by have /matrixP/(_ 1 0) := hU; rewrite [(U0 *m _) _ _]mxE big_ord1 [(Xc *m U0) _ _]mE2 !XcE mul0r addr0.
have y2 : y * y = 25%:R.
  have [z|z] := eqVneq u 0.
    have vn : v != 0.
      apply: contra_neq U00 => zv; apply/matrixP=> -[[|[|i]] hi] // j; rewrite ord1 mxE.
        by rewrite -[RHS]z; congr (U0 _ _); apply: val_inj.
      by rewrite -[RHS]zv; congr (U0 _ _); apply: val_inj.
    by apply: (mulfI vn); rewrite mulrA u1 -mulrA u0 mulrA [zcc * _]mulrC zzc mulrC.
  by apply: (mulfI z); rewrite mulrA u0 -mulrA u1 mulrA zzc mulrC.
exact: bad_s e0 e1 n1 ey y2.
Qed.
Theorem C61_complex_refuted eigh eig rand e1 e2 Y M : eigh_correct eigh -> eig_correct eig -> 0 < e2 ->
  concat2 (rX (ex_rep Xc)) (rH (ex_rep Xc)) = Ok Y -> draw eigh rand e1 Y = Ok M -> shape M = [:: 2; 2]%N ->
  morphism ex_th (ex_rep Xc) (ex_rep Xc) (mx2 2 2 M) ->
  exists2 e0 : C, 0 < e0 & forall e3 e4, 0 < e3 -> e3 <= e0 -> 0 < e4 -> e4 <= e0 ->
  reduce_rep eigh eig rand e1 e2 e3 e4 (ex_rep Xc) = Err ValueError.
Proof.
move=> ok okg p2 eY eM sM hM.
have z1 : zc != 0 by apply/eqP => z; have := zzc; rewrite z mul0r => /esym/eqP; rewrite pnatr_eq0.
have n5 : (5%:R : C) != 0 by rewrite pnatr_eq0.
have dg : diagonalizable (mx2 2 2 M).
  have /ex_mor/Xc_comm [a [b ->]] := hM.
  exists (m22 zc zc 5%:R (- 5%:R)), (\row_i if i == 0 then a + b * 5%:R else a - b * 5%:R); split.
    have n10 : 10%:R * zc != 0 by rewrite mulf_neq0 // pnatr_eq0.
    have : m22 zc zc 5%:R (- 5%:R) *m ((10%:R * zc)^-1 *: m22 5%:R zc 5%:R (- zc)) = 1%:M.
      rewrite -scalemxAr m22_mul m22_Z m22_1; congr m22.
      - by rewrite (_ : _ + _ = 10%:R * zc) ?mulVf //; mcring.
      - by rewrite mulrN subrr mulr0.
      - by rewrite mulNr subrr mulr0.
      - by rewrite (_ : _ + _ = 10%:R * zc) ?mulVf //; mcring.
    by case/mulmx1_unit.
  rewrite mulmxDl mul_scalar_mx -scalemxAl diag22 !mxE /= !m22_mul !m22_Z m22_D; congr m22; try by mcring.
  - by rewrite [zcc * zc]mulrC zzc; mcring.
  - by rewrite [zcc * zc]mulrC zzc; mcring.
have [e [ee he]] := okg 2%N M sM dg; move/morphism_gens in hM.
apply: (run_err (ex_is Xc) isT isT ok eY eM ee hM he p2) => k B Z k0 b1 inva sZ gZ.
have X0 : gens 1 2 (ex_rep Xc) 0 = Xc by rewrite /gens /= ex_X.
have {inva}[G hG] := inva 0%N isT; have {}gZ := gZ 0%N isT; rewrite X0 in hG gZ.
split.
  split; [exact: ir_sA (ex_is Xc) | exact: ir_A (ex_is Xc) | by rewrite /= sZ | by rewrite /= /len sZ | exact: ex_mrep].
have mor (U : 'M[C]_(2, k)) : morphism ex_th (ir_of ex_th (ex_rep Xc) Z) (ex_rep Xc) U <-> U *m (B *m Xc *m adj B) = Xc *m U.
  rewrite ir_morph -gZ; split=> [h|h]; first by rewrite h // X0.
  by case=> //= _; rewrite X0.
case=> U0 [U00 /mor hU hall].
have : (k <= 2)%N.
  have <- : \rank B = k; last exact: rank_leq_col.
  by apply/eqP; rewrite eqn_leq rank_leq_row /=; have := mxrankM_maxl B (adj B); rewrite b1 mxrank1.
have {}hall U : U *m (B *m Xc *m adj B) = Xc *m U -> exists s, U = s *: U0 by move/mor; apply: hall.
clear -k0 b1 hG U00 hU hall; case: k k0 B b1 G hG U0 U00 hU hall => [|[|[|k]]]; last by [].
- by [].
- by move=> _ B b1 G hG U0 U00 hU _ _; apply: bad1 b1 hG U00 hU.
- by move=> _ B b1 _ _ U0 _ _ hall _; apply: bad2 b1 hall.
Qed.
(** That representation has no multiplicity. *)
Lemma C61_complex_simple (S S' : 'M[C]_2) : morphism ex_th (ex_rep Xc) (ex_rep Xc) S -> morphism ex_th (ex_rep Xc) (ex_rep Xc) S' ->
  S *m S' = S' *m S.
Proof.
move=> /ex_mor/Xc_comm [a [b ->]] /ex_mor/Xc_comm [a' [b' ->]].
rewrite !(mulmxDl, mulmxDr) -!scalar_mxM [a' * a]mulrC -!addrA; congr (_ + _).
by rewrite !mul_scalar_mx !mul_mx_scalar -!scalemxAl -!scalemxAr !scalerA [b' * b]mulrC addrCA.
Qed.
Example C61_complex_draw : exists2 e1m : C, 0 < e1m & forall eigh eig e1, eigh_correct eigh -> eig_correct eig -> 0 < e1 -> e1 <= e1m ->
  exists2 rand, rand_ok rand & forall e2, 0 < e2 -> exists2 e0 : C, 0 < e0 & forall e3 e4, 0 < e3 -> e3 <= e0 -> 0 < e4 -> e4 <= e0 ->
  reduce_rep eigh eig rand e1 e2 e3 e4 (ex_rep Xc) = Err ValueError.
Proof.
have hM : morphism ex_th (ex_rep Xc) (ex_rep Xc) Xc by exact/ex_mor.
have [e1m p1 h1] := C61_draw (ex_is Xc) isT isT; exists e1m => // eigh eig e1 ok okg p le.
have [Y [eY _ hd]] := h1 eigh e1 ok p le; have [rand rk [M [eM sM gM]]] := hd Xc hM.
exists rand => // e2 p2.
by apply: (C61_complex_refuted ok okg p2 eY eM sM); rewrite gM.
Qed.
End Props.
