(** ReduceProofs: decompose_rep_into_irreps and reduce. *)
From Coq Require Import ZArith String Ascii.
From mathcomp Require Import all_ssreflect all_algebra.
From mathcomp Require Import zify.
From mathcomp.real_closed Require Import mxtens.
From Verif Require Import Base Nd NdProofs Reps Pinv RepSpec RepProofs RepOps Sl2c Sl2cProofs Reduced ReducedProofs TpProofs LinAlg GsMx LinAlgProofs IcbProofs BiProofs Finite ClusterProofs Properties_LinAlg Reduce ReduceMx.

Set Implicit Arguments.
Unset Strict Implicit.
Unset Printing Implicit Defensive.

Import Order.POrderTheory GRing.Theory Num.Theory.
Local Open Scope ring_scope.

Section ReduceProofs.
Variable C : numClosedFieldType.
Notation nd := (nd C).
Notation id_ := (fun x : nd => x).

(** Finite choice. *)
Lemma choose_seq (T : Type) (x0 : T) K (R : nat -> T -> Prop) : (forall q, (q < K)%N -> exists x, R q x) ->
  exists l : seq T, size l = K /\ forall q, (q < K)%N -> R q (nth x0 l q).
Proof.
elim: K => [|K ih] h; first by exists [::].
have [|l [sl hl]] := ih; first by move=> q hq; apply: h; rewrite ltnS ltnW.
have [x hx] := h K (ltnSn K); exists (rcons l x); rewrite size_rcons sl; split=> // q.
rewrite ltnS leq_eqVlt nth_rcons sl => /orP[/eqP->|hq]; first by rewrite ltnn eqxx.
by rewrite hq; apply: hl.
Qed.

(** ** The body of the loop of decompose_rep_into_irreps *)
Lemma compressP N d n (X W : nd) : shape X = [:: N; d; d] -> shape W = [:: d; n] ->
  exists k B Y, [/\ shape B = [:: k; d], mx2 k d B *m adj (mx2 k d B) = 1%:M, (mx2 k d B :=: (mx2 d n W)^T)%MS &
    [/\ k = \rank (mx2 d n W), shape Y = [:: N; k; k],
        forall a, (a < N)%N -> mx3 k k Y a = mx2 k d B *m mx3 d d X a *m adj (mx2 k d B) &
        exists2 e0 : C, 0 < e0 & forall e, 0 < e -> e <= e0 -> compress e X W = Ok Y]].
Proof.
move=> sX sW; have sT : shape (transpose2 W) = [:: n; d] by rewrite /= sW.
have [k1 [B1 [e1 [s1 [b1 m1 r1]]]]] := C18_exact sT.
have sT1 : shape (conj (transpose2 B1)) = [:: d; k1] by rewrite /= s1.
have [P [eP [sP gP]]] := matmul_2_2 sT1 s1; rewrite (mx2_conjT s1) in gP.
have [k [B [e2 [s2 [b2 m2 r2]]]]] := C18_exact sP.
have [Z [eZ [sZ gZ]]] := matmul_2_3 s2 sX.
have sT2 : shape (conj (transpose2 B)) = [:: d; k] by rewrite /= s2.
have [Y [eY [sY gY]]] := matmul_3_2 sT2 sZ.
have mP : (mx2 d d P :=: mx2 k1 d B1)%MS.
  apply/eqmxP; rewrite gP submxMl /= -{1}[mx2 k1 d B1]mul1mx -b1 -mulmxA submxMl //.
have mB : (mx2 k d B :=: (mx2 d n W)^T)%MS.
  by apply: eqmx_trans m2 (eqmx_trans mP (eqmx_trans m1 _)); rewrite (mx2_tr sW).
exists k, B, Y; split=> //; split=> //.
- by rewrite r2 mP m1 (mx2_tr sW) mxrank_tr.
- by move=> a ha; rewrite gY // gZ // (mx2_conjT s2).
have [a a0 ha] := gs_stable (transpose2 W); have [b b0 hb] := gs_stable P.
have [e0 p [la lb]] := small2 a0 b0; exists e0 => // e ep le.
by rewrite /compress ha ?(le_trans le) // e1 /= eP /= hb ?(le_trans le) // e2 /= eZ /= eY.
Qed.

(** ** The random element of the commutant *)
Definition rand_ok (rand : nat -> nd) := forall n, shape (rand n) = [:: n].
Lemma drawP eigh rand (e1 : C) N d (X : nd) : eigh_correct eigh -> rand_ok rand -> (0 < N)%N -> (0 < d)%N -> 0 < e1 ->
  (d * d)%:R * e1 ^+ 2 < 1 -> shape X = [:: N; d; d] -> gap2 N (mx3 d d X) (mx3 d d X) e1 ->
  exists M, [/\ draw eigh rand e1 X = Ok M, shape M = [:: d; d] & intertw N (mx3 d d X) (mx3 d d X) (mx2 d d M)].
Proof.
move=> ok rk N0 d0 p0 sm sX gp; have [k [b [eb [sb [_ fr]]]]] := icbP ok p0 N0 d0 d0 sm sX sX gp.
rewrite /draw eb /= /len sb /= /einsum2 /einsum_ops /= rk sb /= eqxx /=.
eexists; split; [reflexivity | by [] |].
apply/fr; exists (fun i => get (rand k) [:: i]); apply/matrixP=> i j; rewrite !mxE summxE /=.
by apply: eq_bigr => c _; rewrite /term /= /lookup0 /= !mxE mulr1.
Qed.

(** The result of np.linalg.eig on a diagonalizable matrix. *)
Definition diagonalizable n (A : 'M[C]_n) : Prop := exists (V : 'M[C]_n) (w : 'rV[C]_n), V \in unitmx /\ A *m V = V *m diag_mx w.
Definition eig_res (n : nat) (m : nd) (e : nd * nd) : Prop :=
  [/\ shape e.1 = [:: n], shape e.2 = [:: n; n], mx2 n n e.2 \in unitmx &
      mx2 n n m *m mx2 n n e.2 = mx2 n n e.2 *m diag_mx (\row_i get e.1 [:: i : nat])].
Definition eig_correct (eig : nd -> res (nd * nd)) : Prop :=
  forall n m, shape m = [:: n; n] -> diagonalizable (mx2 n n m) -> exists e, eig m = Ok e /\ eig_res n m e.

(** ** One block *)
Section Block.
Variables (T : theory C) (d : nat) (r : rep C).
Hypothesis hr : is_rep T d r.
Hypothesis l0 : (0 < th_l T)%N.
Hypothesis d0 : (0 < d)%N.
Notation N := (th_l T + th_h T)%N.
Notation Xg := (gens (th_l T) d r).
(** Multiplication by an element of the commutant is a scalar on the image of E. *)
Definition one k (E : 'M[C]_(d, k)) : Prop :=
  forall S, intertw N Xg Xg S -> exists s : C, S *m E = s *: E.
Record stable k (E : 'M[C]_(d, k)) (F : 'M[C]_(k, d)) (Y : nd) : Prop := Stable {
  st_s : shape Y = [:: N; k; k];
  st_k : (0 < k)%N;
  st_XE : forall a, (a < N)%N -> Xg a *m E = E *m mx3 k k Y a;
  st_FX : forall a, (a < N)%N -> F *m Xg a = mx3 k k Y a *m F;
  st_FE : F *m E = 1%:M }.
Definition ir_of (Y : nd) : rep C := MkRep (rA r) (rows_slice 0 (th_l T) Y) (rows_slice (th_l T) (len Y) Y).
(** A block whose intertwiners do not form a line. *)
Lemma block_err k (Y : nd) : is_rep T k (ir_of Y) -> (0 < k)%N ->
  (~ exists U0 : 'M[C]_(d, k), [/\ U0 != 0, morphism T (ir_of Y) r U0 & forall U, morphism T (ir_of Y) r U -> exists s : C, U = s *: U0]) ->
  exists2 e0 : C, 0 < e0 & forall e4 eigh, 0 < e4 -> e4 <= e0 -> eigh_correct eigh ->
    reduce_block eigh e4 r (th_l T) Y = Err ValueError.
Proof using hr l0 d0.
move=> ir_rep k0 no.
have [a a0 ha] := gap2_small N Xg (gens (th_l T) k (ir_of Y)); have [b b0 hb] := small_sq C (d * k).
have [e0 p [la lb]] := small2 a0 b0; exists e0 => // e4 eigh p0 le ok.
have N0 : (0 < N)%N by rewrite addn_gt0 l0.
have [||m [Q [eQ [sQ [on sp]]]]] := @rep_icbP _ _ ok e4 p0 T k d (ir_of Y) r ir_rep hr N0 k0 d0.
- by apply: hb => //; apply: le_trans le lb.
- by apply: ha => //; apply: le_trans le la.
have dE : dim r = Ok d by rewrite /dim (ir_sX hr).
have kE : dim (ir_of Y) = Ok k by rewrite /dim (ir_sX ir_rep).
rewrite /reduce_block -/(ir_of Y) eQ /=.
have [Q' [eQ' sQ']] : exists Q', einsum1 "mij" "imj" Q = Ok Q' /\ shape Q' = [:: d; m; k].
  by rewrite /einsum1 /einsum_ops /= sQ /= ; eexists; split; first by [].
rewrite eQ' /= dE /= kE /= /reshape sQ' /= !muln1 (_ : (_ == _) = false) //.
have dk0 : (0 < d * k)%N by rewrite muln_gt0 d0 k0.
have m1 : m != 1%N.
  apply/eqP => e; subst m; apply: no; exists (mx3 d k Q 0); split.
  - apply/eqP => z; have := on 0%N 0%N isT isT; rewrite z mul0mx mxtrace0 mul1r => /esym/eqP.
    by rewrite pnatr_eq0 -leqn0 leqNgt d0.
  - by apply/sp; exists (fun _ => 1); rewrite big_ord1 scale1r.
  - by move=> U /sp [c ->]; exists (c 0%N); rewrite big_ord1.
by apply/negbTE; move: dk0 m1; clear; nia.
Qed.
Section Y.
Variables (k : nat) (E : 'M[C]_(d, k)) (F : 'M[C]_(k, d)) (Y : nd).
Hypothesis st : stable E F Y.
Lemma ir_X a : (a < th_l T)%N -> mx3 k k (rX (ir_of Y)) a = mx3 k k Y a.
Proof. by move=> ha; apply/matrixP=> i j; rewrite !mxE. Qed.
Lemma ir_H a : mx3 k k (rH (ir_of Y)) a = mx3 k k Y (th_l T + a).
Proof. by apply/matrixP=> i j; rewrite !mxE. Qed.
Lemma ir_rep : is_rep T k (ir_of Y).
Proof using st hr.
split; [exact: ir_sA hr | exact: ir_A hr | by rewrite /= (st_s st) /= subn0 | by rewrite /= /len (st_s st) /= addKn |].
have gX a : (a < th_l T)%N -> Xg a = mx3 d d (rX r) a by move=> ha; rewrite /gens ha.
have gH a : Xg (th_l T + a)%N = mx3 d d (rH r) a by rewrite /gens ltnNge leq_addr addKn.
apply: is_mrep_restrict (st_FE st) _ _ (ir_m hr) => a ha.
  by rewrite ir_X // -gX // (st_XE st) // ltn_addr.
by rewrite ir_H -gH (st_XE st) // ltn_add2l.
Qed.
Lemma ir_morph (Q : 'M[C]_(d, k)) : morphism T (ir_of Y) r Q <-> forall a, (a < N)%N -> Q *m mx3 k k Y a = Xg a *m Q.
Proof using.
split=> [[h1 h2] a ha|h].
  rewrite /gens; case: ifP => hl; first by rewrite -h1 // ir_X.
  have e : (th_l T + (a - th_l T) = a)%N by rewrite subnKC // leqNgt hl.
  by rewrite -h2 ?ir_H ?e // -(ltn_add2l (th_l T)) e.
split=> a ha; first by rewrite ir_X // h ?ltn_addr // /gens ha.
by rewrite ir_H h ?ltn_add2l // /gens ltnNge leq_addr addKn.
Qed.
Lemma E_neq0 : E != 0.
Proof using st.
apply/eqP => z; have := st_FE st; rewrite z mulmx0 => /matrixP/(_ (Ordinal (st_k st)) (Ordinal (st_k st))).
by rewrite !mxE eqxx => /esym/eqP; rewrite oner_eq0.
Qed.
Lemma one_morph : one E <-> forall Q, morphism T (ir_of Y) r Q -> exists s : C, Q = s *: E.
Proof using st.
split=> [h Q /ir_morph hQ|h S hS].
  have [|s e] := h (Q *m F); last by exists s; rewrite -e -mulmxA (st_FE st) mulmx1.
  by move=> a ha; rewrite mulmxA -hQ // -!mulmxA (st_FX st).
apply: h; apply/ir_morph => a ha; rewrite -mulmxA -(st_XE st) // mulmxA.
by rewrite -(hS a ha) mulmxA.
Qed.
Lemma E_morph : morphism T (ir_of Y) r E.
Proof using st. by apply/ir_morph => a ha; rewrite (st_XE st). Qed.

Lemma blockP : exists2 e0 : C, 0 < e0 & forall eigh e4, eigh_correct eigh -> 0 < e4 -> e4 <= e0 ->
  (one E /\ exists c Q, [/\ reduce_block eigh e4 r (th_l T) Y = Ok (Q, ir_of Y), c != 0, shape Q = [:: d; k] & mx2 d k Q = c *: E]) \/
  (~ one E /\ reduce_block eigh e4 r (th_l T) Y = Err ValueError).
Proof using st hr l0 d0.
have [a a0 ha] := gap2_small N Xg (gens (th_l T) k (ir_of Y)); have [b b0 hb] := small_sq C (d * k).
have [e0 p [la lb]] := small2 a0 b0; exists e0 => // eigh e4 ok p0 le.
have N0 : (0 < N)%N by rewrite addn_gt0 l0.
have [||m [Q [eQ [sQ [on sp]]]]] := @rep_icbP _ _ ok e4 p0 T k d (ir_of Y) r ir_rep hr N0 (st_k st) d0.
- by apply: hb => //; apply: le_trans le lb.
- by apply: ha => //; apply: le_trans le la.
have dE : dim r = Ok d by rewrite /dim (ir_sX hr).
have kE : dim (ir_of Y) = Ok k by rewrite /dim (ir_sX ir_rep).
rewrite /reduce_block -/(ir_of Y) eQ /=.
have [Q' [eQ' [sQ' gQ']]] : exists Q', einsum1 "mij" "imj" Q = Ok Q' /\ shape Q' = [:: d; m; k] /\
    forall i c j, get Q' [:: i; c; j] = get Q [:: c; i; j].
  rewrite /einsum1 /einsum_ops /= sQ /= ; eexists; split; first by []; split=> // i c j /=.
  by rewrite /term /= /lookup0 /= mulr1.
rewrite eQ' /= dE /= kE /=.
have dk0 : (0 < d * k)%N by rewrite muln_gt0 d0 (st_k st).
have [m1|m1] := eqVneq m 1%N.
  left; subst m.
  have spQ (U : 'M[C]_(d, k)) : morphism T (ir_of Y) r U -> exists s : C, U = s *: mx3 d k Q 0.
    by move/sp => [c ->]; exists (c 0%N); rewrite big_ord1.
  have [c eE] := spQ _ E_morph.
  have c0 : c != 0 by apply/eqP => z; have := E_neq0; rewrite eE z scale0r eqxx.
  have QE : mx3 d k Q 0 = c^-1 *: E by rewrite eE scalerA mulVf // scale1r.
  split; first by apply/one_morph => U /spQ [s ->]; exists (s * c^-1); rewrite QE scalerA.
  have [|Z [eZ [sZ gZ]]] := @reshapeP _ Q' [:: d; k]; first by rewrite sQ' /= !muln1 mul1n.
  exists c^-1, Z; rewrite eZ /= invr_eq0; split=> //; rewrite -QE; apply/matrixP=> i j; rewrite !mxE.
  rewrite (gZ _ [:: i : nat; 0%N; j : nat]) ?gQ' //; rewrite sQ' /valid /= ?ltn_ord //.
  by rewrite !muln1 !mul1n mul0n add0n.
right; split; last first.
  rewrite /reshape sQ' /= !muln1 (_ : (_ == _) = false) //.
  by apply/negbTE; move: dk0 m1; clear; nia.
move/one_morph => h; case: m sQ on sp m1 {sQ' eQ} => [|[|m]] // _ on sp _.
  have [c e] := (sp E).1 E_morph; have := E_neq0; rewrite e big_ord0 eqxx //.
have mo i : (i < m.+2)%N -> morphism T (ir_of Y) r (mx3 d k Q i).
  move=> hi; apply/sp; exists (fun j => (j == i)%:R); rewrite (bigD1 (Ordinal hi)) //= eqxx scale1r big1 ?addr0 // => j ne.
  by rewrite -val_eqE /= in ne; rewrite (negPf ne) scale0r.
have [s0 q0] := h _ (mo 0%N isT); have [s1 q1] := h _ (mo 1%N isT).
have dd : (d%:R : C) != 0 by rewrite pnatr_eq0 -lt0n.
have := on 0%N 0%N isT isT; have := on 0%N 1%N isT isT; have := on 1%N 1%N isT isT.
rewrite q0 q1 !adjZ -!scalemxAl -!scalemxAr !linearZ /= !mul0r !mul1r => h11 /eqP h01 h00.
move: h01; rewrite !mulf_eq0 => /orP[/eqP z|/orP[/eqP z|/eqP z]].
- by move: h00; rewrite z mul0r => /esym/eqP; rewrite (negbTE dd).
- by move: h11; rewrite z mul0r mulr0 => /esym/eqP; rewrite (negbTE dd).
- by move: h00; rewrite z !mulr0 => /esym/eqP; rewrite (negbTE dd).
Qed.
End Y.
End Block.
End ReduceProofs.
