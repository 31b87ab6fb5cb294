(** ReduceRun: the result of reduce. *)
From Coq Require Import ZArith String Ascii.
From mathcomp Require Import all_ssreflect all_algebra.
From mathcomp Require Import zify.
From mathcomp.real_closed Require Import mxtens.
From Verif Require Import Base Nd NdProofs Reps Pinv RepSpec RepProofs RepOps Sl2c Sl2cProofs Reduced ReducedProofs TpProofs LinAlg GsMx LinAlgProofs IcbProofs BiProofs Finite ClusterProofs Properties_Finite Reduce ReduceMx ReduceProofs.

Set Implicit Arguments.
Unset Strict Implicit.
Unset Printing Implicit Defensive.

Import Order.POrderTheory GRing.Theory Num.Theory.
Local Open Scope ring_scope.

Section ReduceRun.
Variable C : numClosedFieldType.
Notation nd := (nd C).
Notation id_ := (fun x : nd => x).

(** ** Assembling the blocks *)
Lemma In_mem (s : seq nat) q : List.In q s <-> q \in s.
Proof.
elim: s => [//|x s ih] /=; rewrite inE; split=> [[->|/ih->]|/orP[/eqP->|/ih]]; rewrite ?eqxx ?orbT //; by [left | right].
Qed.
Lemma pick_colsl (l : seq nd) i c : (c < sumn [seq lastdim b | b <- l])%N ->
  get (pick l c).1 [:: i; (pick l c).2] = colsl [seq (lastdim b, fun i c => get b [:: i; c]) | b <- l] i c.
Proof.
elim: l c => [//|b l ih] c /= hc; case: ifP => h //.
by apply: ih; rewrite -(ltn_add2l (lastdim b)) subnKC // leqNgt h.
Qed.
Lemma concat_cols d (s : seq nat) (k : nat -> nat) (Q : nat -> nd) : s <> [::] ->
  (forall q, q \in s -> shape (Q q) = [:: d; k q]) ->
  exists Z, [/\ concat_last (map Q s) = Ok Z, shape Z = [:: d; sumn (map k s)] &
    forall i c, (c < sumn (map k s))%N -> get Z [:: i; c] = colsl [seq (k q, fun i c => get (Q q) [:: i; c]) | q <- s] i c].
Proof.
case: s => [//|q s] _ h.
have ld : [seq lastdim b | b <- map Q (q :: s)] = map k (q :: s).
  by rewrite -map_comp; apply/eq_in_map => x hx; rewrite /= /lastdim h.
have hA : (0 < size (shape (Q q)))%N && all (fun b : nd => (size (shape b) == size (shape (Q q))) && (initdims b == initdims (Q q))) (Q q :: map Q s).
  rewrite -[Q q :: _]/(map Q (q :: s)) all_map h ?mem_head //; apply/allP => x hx.
  by rewrite /preim /= /initdims !h ?mem_head //= !eqxx.
rewrite [map Q (q :: s)]/= (concat_last_cons hA).
eexists; split; first reflexivity.
  by rewrite -[Q q :: _]/(map Q (q :: s)) ld [LHS]/= /initdims h ?mem_head.
move=> i c hc; transitivity (get (pick (map Q (q :: s)) c).1 [:: i; (pick (map Q (q :: s)) c).2]); first by [].
rewrite pick_colsl ?ld // -map_comp; congr (colsl _ i c).
by apply/eq_in_map => x hx; rewrite /= /lastdim h.
Qed.
Lemma square_case D d (Q x : nd) (B : 'M[C]_D) G a : D = d -> mx3 d d x a *m mx2 d D Q = mx2 d D Q *m B ->
  mx2 d D Q *m G = 1%:M -> mx2 D D Q \in unitmx /\ mx2 D D Q *m B *m invmx (mx2 D D Q) = mx3 D D x a.
Proof.
move=> e; subst d => h g.
have u : mx2 D D Q \in unitmx by case/mulmx1_unit: g.
by split=> //; rewrite -h mulmxK.
Qed.

Section Asm.
Variables (T : theory C) (d : nat) (r : rep C).
Hypothesis hr : is_rep T d r.
Hypothesis l0 : (0 < th_l T)%N.
Hypothesis d0 : (0 < d)%N.
Notation N := (th_l T + th_h T)%N.
Notation Xg := (gens (th_l T) d r).
Variables (K : nat) (k : nat -> nat) (E : forall q, 'M[C]_(d, k q)) (F : forall q, 'M[C]_(k q, d)) (Y : nat -> nd).
Hypothesis st : forall q, (q < K)%N -> stable T r (E q) (F q) (Y q).
Hypothesis EF1 : \sum_(q < K) E q *m F q = 1%:M.
Hypothesis FE0 : forall q q', (q < K)%N -> (q' < K)%N -> q != q' -> F q *m E q' = 0.

Notation ir q := (ir_of T r (Y q)).
Notation mi q := (@MulIrrep C (generic C) 1 (ir_of T r (Y q))).

Lemma k_sum : (\sum_(q < K) k q)%N = d.
Proof using EF1 st.
apply/eqP; rewrite -(eqr_nat C) -(mxtrace1 C d) -EF1 raddf_sum natr_sum; apply/eqP/eq_bigr => q _ /=.
by rewrite mxtrace_mulC (st_FE (st (ltn_ord q))) mxtrace1.
Qed.

Section S.
Variable s : seq nat.
Hypothesis ps : perm_eq s (iota 0 K).
Lemma s_mem q : (q \in s) = (q < K)%N.
Proof using ps. by rewrite (perm_mem ps) mem_iota. Qed.
Lemma s_sum : sumn (map k s) = d.
Proof using ps EF1 st. by rewrite sumnE big_map (perm_big _ ps) /= -{1}(subn0 K) big_mkord k_sum. Qed.
Lemma s_ne : s <> [::].
Proof using ps EF1 st d0. by move=> e; have := s_sum; rewrite e /= => z; have := d0; rewrite -z. Qed.
Lemma dim_mi q : (q < K)%N -> mul_dim (mi q) = k q.
Proof using st. by move=> hq; rewrite /mul_dim mul1n /= (st_s (st hq)). Qed.

Variables (Q : nat -> nd) (c : nat -> C).
Hypothesis sQ : forall q, (q < K)%N -> shape (Q q) = [:: d; k q].
Hypothesis gQ : forall q, (q < K)%N -> mx2 d (k q) (Q q) = c q *: E q.
Hypothesis c0 : forall q, (q < K)%N -> c q != 0.

Theorem assemble : exists Z, concat_last (map Q s) = Ok Z /\
  let R := ReducedRep (rA r) [seq mi q | q <- s] (Some Z) in
  [/\ red_ok T R, red_dim R = d & exists r', red_rep R = Ok r' /\ rep_eq r' r].
Proof using st EF1 FE0 ps sQ gQ c0 hr l0 d0.
have [|Z [eZ sZ gZ]] := @concat_cols d s k Q s_ne; first by move=> q; rewrite s_mem => /sQ.
exists Z; split=> //; set R := ReducedRep _ _ _ => /=.
have dm : map (@mul_dim C (generic C)) [seq mi q | q <- s] = map k s.
  by rewrite -map_comp; apply/eq_in_map => q; rewrite s_mem => hq; rewrite /comp dim_mi.
have D : red_dim R = d by rewrite /red_dim [r_irreps _]/= dm s_sum.
have sD : sumn (map k s) = red_dim R by rewrite D s_sum.
rewrite sD in sZ gZ.
(* the intertwining relation *)
have key (g : rep C -> nd) a : (forall q, (q < K)%N -> mx3 d d (g r) a *m E q = E q *m mx3 (k q) (k q) (g (ir q)) a) ->
    mx3 d d (g r) a *m mx2 d (red_dim R) Z = mx2 d (red_dim R) Z *m red_block g (r_irreps R) a.
  move=> h; pose f q i j := get (Q q) [:: i; j]; pose x i j := get (g r) [:: a; i; j].
  have H q : List.In q s -> forall i j, (i < d)%N -> (j < k q)%N ->
    \sum_(u < d) x i u * f q u j = \sum_(v < k q) f q i v * (mblk g a (mi q)).2 v j.
    move=> /In_mem; rewrite s_mem => hq i j hi hj.
    have := h q hq; have cq := c0 hq.
    have -> : E q = (c q)^-1 *: mx2 d (k q) (Q q) by rewrite gQ // scalerA mulVf // scale1r.
    rewrite -scalemxAr -scalemxAl => /(can_inj (scalerK _)) => /(_ (invr_neq0 cq)).
    move=> /matrixP/(_ (Ordinal hi) (Ordinal hj)); rewrite !mxE => e.
    transitivity (\sum_u mx3 d d (g r) a (Ordinal hi) u * mx2 d (k q) (Q q) u (Ordinal hj)).
      by apply: eq_bigr => u _; rewrite !mxE.
    rewrite e; apply: eq_bigr => v _; rewrite !mxE /=.
    have -> : nth 0%N (behead (shape (Y q))) 0 = k q by rewrite (st_s (st hq)).
    by rewrite !divn_small // !modn_small.
  have := @colsl_intertw C nat s k f (fun q => (mblk g a (mi q)).2) d x H; rewrite /= sD => {}H.
  apply/matrixP=> i j; rewrite !mxE.
  transitivity (\sum_(u < d) x i u * colsl [seq (k q, f q) | q <- s] u j).
    by apply: eq_bigr => u _; rewrite !mxE gZ.
  rewrite H //; apply: eq_bigr => v _; rewrite !mxE gZ // /red_block; congr (_ * dsl _ v j).
  rewrite -[in RHS]map_comp; apply/eq_in_map => q; rewrite s_mem => hq.
  by rewrite /comp -(dim_mi hq).
(* the right inverse *)
have [G hG] : exists G, mx2 d (red_dim R) Z *m G = 1%:M.
  have sp q : (q < K)%N -> exists H : 'M[C]_(red_dim R, k q), mx2 d (red_dim R) Z *m H = E q.
    move=> hq; have [|o [ho go]] := @colsl_span C _ s k (fun q i j => get (Q q) [:: i; j]) q.
      by apply/In_mem; rewrite s_mem.
    have lt (j : 'I_(k q)) : (o + j < red_dim R)%N by rewrite -sD; apply: leq_trans ho; rewrite ltn_add2l.
    exists (\matrix_(u, j) ((u == Ordinal (lt j))%:R * (c q)^-1)); apply/matrixP=> i j; rewrite !mxE.
    rewrite (bigD1 (Ordinal (lt j))) //= !mxE eqxx mul1r big1 ?addr0 => [|u ne]; last first.
      by rewrite !mxE (negbTE ne) mul0r mulr0.
    rewrite /= gZ // go //; have /matrixP/(_ i j) := gQ hq; rewrite !mxE => ->.
    by rewrite mulrAC mulfV ?mul1r // c0.
  have : forall n, (n <= K)%N -> exists G, mx2 d (red_dim R) Z *m G = \sum_(q < n) E q *m F q.
    elim=> [|n ih] hn; first by exists 0; rewrite big_ord0 mulmx0.
    have [G hG] := ih (ltnW hn); have [H hH] := sp n hn.
    by exists (G + H *m F n); rewrite big_ord_recr /= mulmxDr hG mulmxA hH.
  by move=> /(_ K (leqnn K)); rewrite EF1.
have hX a (ha : (a < th_l T)%N) := square_case D (key (@rX C) a (fun q hq => esym ((E_morph (st hq)).1 a ha))) hG.
have hH a (ha : (a < th_h T)%N) := square_case D (key (@rH C) a (fun q hq => esym ((E_morph (st hq)).2 a ha))) hG.
have ok : red_ok T R.
  split=> //; [exact: ir_sA hr | exact: ir_A hr | by move: s_ne; rewrite /=; case: (s) | |].
  - move=> m /= /List.in_map_iff [q [<- /In_mem]]; rewrite s_mem => hq; split=> //.
    by have := ir_rep hr (st hq); rewrite /= (st_s (st hq)).
  - by move=> _ [<-]; split; [rewrite {1}D | exact: (hX _ l0).1].
split=> //; have [r' [er' [h' [aA [gX gH]]]]] := red_rep_ok ok.
exists r'; split=> //; have hr' : is_rep T (red_dim R) r by rewrite D.
apply: is_rep_eq h' hr' aA _ _ => a ha; first by rewrite gX //; exact: (hX _ ha).2.
by rewrite gH //; exact: (hH _ ha).2.
Qed.
End S.

(** The blocks are irreducible and pairwise inequivalent. *)
Lemma blk_end q q' (U : 'M[C]_(k q', k q)) : (q < K)%N -> (q' < K)%N -> one T r (E q) ->
  (forall a, (a < N)%N -> U *m mx3 (k q) (k q) (Y q) a = mx3 (k q') (k q') (Y q') a *m U) ->
  exists s : C, E q' *m U = s *: E q.
Proof using st.
move=> hq hq' h1 hU; have [|s e] := h1 (E q' *m U *m F q).
  move=> a ha; rewrite !mulmxA (st_XE (st hq')) // -(mulmxA (E q')) -hU // -!mulmxA.
  by rewrite (st_FX (st hq)).
by exists s; rewrite -e -mulmxA (st_FE (st hq)) mulmx1.
Qed.
Lemma blk_schur q (U : 'M[C]_(k q)) : (q < K)%N -> one T r (E q) -> morphism T (ir q) (ir q) U -> exists s : C, U = s%:M.
Proof using st.
move=> hq h1 [hX hH]; have [|s e] := blk_end hq hq h1 (U := U).
  move=> a ha; have [hl|hl] := ltnP a (th_l T); first by have := hX a hl; rewrite !ir_X.
  have := hH (a - th_l T)%N; rewrite !ir_H subnKC // => -> //.
  by rewrite -(ltn_add2l (th_l T)) subnKC.
exists s; rewrite -[U]mul1mx -(st_FE (st hq)) -mulmxA e -scalemxAr (st_FE (st hq)).
by rewrite scalemx1.
Qed.
Lemma blk_disj q q' (U : 'M[C]_(k q', k q)) : (q < K)%N -> (q' < K)%N -> q != q' -> one T r (E q) -> morphism T (ir q) (ir q') U -> U = 0.
Proof using st FE0.
move=> hq hq' ne h1 [hX hH]; have [|s e] := blk_end hq hq' h1 (U := U).
  move=> a ha; have [hl|hl] := ltnP a (th_l T); first by have := hX a hl; rewrite !ir_X.
  have := hH (a - th_l T)%N; rewrite !ir_H subnKC // => -> //.
  by rewrite -(ltn_add2l (th_l T)) subnKC.
by rewrite -[U]mul1mx -(st_FE (st hq')) -mulmxA e -scalemxAr FE0 ?scaler0 // eq_sym.
Qed.
End Asm.

(** ** The eigenspaces *)
Section Run.
Variables (T : theory C) (d : nat) (r : rep C).
Hypothesis hr : is_rep T d r.
Hypothesis l0 : (0 < th_l T)%N.
Hypothesis d0 : (0 < d)%N.
Notation N := (th_l T + th_h T)%N.
Notation Xg := (gens (th_l T) d r).
Hypothesis real : forall a, (a < N)%N -> map_mx conjC (Xg a) = Xg a.
Variables (M : nd) (e : nd * nd).
Hypothesis MX : intertw N Xg Xg (mx2 d d M).
Hypothesis he : eig_res d M e.
Notation V := (mx2 d d e.2).
Notation w := (\row_i get e.1 [:: nat_of_ord i]).
Notation lab inv := (fun i : 'I_d => nth 0%N inv i).

Lemma W_eqmx (inv : seq nat) q (W : nd) n : size inv = d -> n = count_mem q inv ->
  (forall x y, get W [:: x; y] = get e.2 [:: x; nth 0%N [seq j <- iota 0 d | nth 0%N inv j == q] y]) ->
  ((mx2 d n W)^T :=: Dq C (lab inv) q *m V^T)%MS.
Proof using.
move=> si -> gW; set s := [seq j <- iota 0 d | _] in gW.
have hs : size s = count_mem q inv.
  rewrite /s size_filter -[in RHS](mkseq_nth 0%N inv) si /mkseq count_map; by apply: eq_count.
have ms j : (j \in s) = (j < d)%N && (nth 0%N inv j == q) by rewrite mem_filter mem_iota andbC.
have rD i : row i (Dq C (lab inv) q *m V^T) = (nth 0%N inv i == q)%:R *: row i V^T.
  by apply/rowP=> j; rewrite !mxE (bigD1 i) //= !mxE eqxx mulr1n big1 ?addr0 // => u ne; rewrite !mxE [i == u]eq_sym (negbTE ne) mulr0n mul0r.
apply/eqmxP/andP; split; apply/row_subP => i.
  have [hi hi2] : (nth 0%N s i < d)%N /\ nth 0%N inv (nth 0%N s i) == q.
    by apply/andP; rewrite -ms mem_nth // hs.
  have -> : row i (mx2 d (count_mem q inv) W)^T = row (Ordinal hi) (Dq C (lab inv) q *m V^T).
    by rewrite rD hi2 scale1r; apply/rowP=> j; rewrite !mxE gW.
  exact: row_sub.
rewrite rD; case: eqP => [hi|_]; last by rewrite scale0r sub0mx.
rewrite scale1r; have hs' : nat_of_ord i \in s by rewrite ms ltn_ord hi eqxx.
have lt : (index (nat_of_ord i) s < count_mem q inv)%N by rewrite -hs index_mem.
have -> : row i V^T = row (Ordinal lt) (mx2 d (count_mem q inv) W)^T.
  by apply/rowP=> j; rewrite !mxE gW /= nth_index.
exact: row_sub.
Qed.

Section Inv.
Variables (e2 : C) (inv : seq nat).
Hypothesis cl : clustering d (fun i j => edist e.1 i j < e2) inv.
Notation P q := (Pq V (lab inv) q).
Lemma lab_eq i j : w 0 i = w 0 j -> lab inv i = lab inv j.
Proof using cl he.
rewrite !mxE => h; apply: (C55_equal cl) => // x; case: he => -> _ _ _ /=.
by case: x.
Qed.
Lemma lab_lt (i : 'I_d) : (lab inv i < nlabels inv)%N.
Proof using cl d0. by rewrite -(clustering_labels d0 cl) mem_nth // (cl_size cl). Qed.

Lemma spaceP q (Y0 W : nd) : (q < nlabels inv)%N -> shape Y0 = [:: N; d; d] -> (forall a, mx3 d d Y0 a = Xg a) ->
  shape W = [:: d; count_mem q inv] ->
  (forall x y, get W [:: x; y] = get e.2 [:: x; nth 0%N [seq j <- iota 0 d | nth 0%N inv j == q] y]) ->
  exists BY : nd * nd, let k := len BY.1 in let E := adj (mx2 k d BY.1) in let F := adj E *m P q in
  [/\ stable T r E F BY.2, E *m F = P q, P q *m E = E &
    exists2 e0 : C, 0 < e0 & forall e3, 0 < e3 -> e3 <= e0 -> compress e3 Y0 W = Ok BY.2].
Proof using cl he MX real d0.
move=> hq sY gY sW gW; have [k [B [Y [sB b1 mB [kr sY' gY' ok]]]]] := compressP sY sW.
exists (B, Y); rewrite /= /len sB /=; set E := adj _.
have EA : adj E = mx2 k d B by rewrite adjK.
have mD := eqmx_trans mB (W_eqmx (cl_size cl) erefl gW).
have uV : V \in unitmx by case: he.
have MV : mx2 d d M *m V = V *m diag_mx w by case: he.
have [PE [F0 PF]] := Pq_basis uV mD.
have XP a : (a < N)%N -> P q *m Xg a = Xg a *m P q.
  move=> ha; apply: (Pq_comm real _ uV MV lab_eq) => // b hb.
  by rewrite MX.
have EE : adj E *m E = 1%:M by rewrite EA.
have YE a : (a < N)%N -> mx3 k k Y a = adj E *m Xg a *m E by move=> ha; rewrite gY' // gY EA.
split=> //; last exact: (blk_EF EE PF erefl).
split=> //.
- rewrite kr lt0n; apply/negP; rewrite mxrank_eq0 => /eqP z.
  have : (Dq C (lab inv) q *m V^T <= (0 : 'M[C]_d))%MS.
    by rewrite -(W_eqmx (cl_size cl) erefl gW) z trmx0 sub0mx.
  rewrite submx0 => /eqP; have uT : V^T \in unitmx by rewrite unitmx_tr.
  move/(congr1 (fun A => A *m invmx V^T)); rewrite mul0mx mulmxK // => D0.
  have qi : q \in inv by rewrite (clustering_labels d0 cl).
  have qd : (index q inv < d)%N by rewrite -(cl_size cl) index_mem.
  have /matrixP/(_ (Ordinal qd) (Ordinal qd)) := D0; rewrite !mxE eqxx /= nth_index // eqxx mulr1n.
  by move/eqP; rewrite oner_eq0.
- exact: (blk_XE XP EE PE PF erefl YE).
- exact: (blk_FX XP EE PF erefl YE).
- exact: (blk_FE EE PE erefl).
Qed.

(** Every element of the commutant is a scalar on every eigenspace. *)
Definition scalars : Prop := forall S, intertw N Xg Xg S ->
  exists s : nat -> C, S *m V = V *m diag_mx (\row_i s (lab inv i)).
Lemma intertw_conj S : intertw N Xg Xg S -> intertw N Xg Xg (map_mx conjC S).
Proof using real.
by move=> h a ha; rewrite -{1}(real ha) -{2}(real ha) -!map_mxM h.
Qed.
Lemma scalarsP (k : nat -> nat) (E : forall q, 'M[C]_(d, k q)) (F : forall q, 'M[C]_(k q, d)) :
  (forall q, (q < nlabels inv)%N -> E q *m F q = P q /\ P q *m E q = E q) ->
  (forall q, (q < nlabels inv)%N -> one T r (E q)) <-> scalars.
Proof using he real cl d0.
move=> hEF; have uV : V \in unitmx by case: he.
have uc : map_mx conjC V \in unitmx by rewrite map_unitmx.
have cc (A : 'M[C]_d) : map_mx conjC (map_mx conjC A) = A by apply/matrixP=> i j; rewrite !mxE conjCK.
have diagc (s : nat -> C) : map_mx conjC (diag_mx (\row_i s (lab inv i))) = diag_mx (\row_i (s (lab inv i))^* : 'rV[C]_d).
  by rewrite map_diag_mx; congr diag_mx; apply/rowP=> i; rewrite !mxE.
split=> [h S /intertw_conj hS|h q hq S /intertw_conj hS].
  have [l [sl hl]] := @choose_seq C 0 (nlabels inv) (fun q s => map_mx conjC S *m E q = s *: E q) (fun q hq => h q hq _ hS).
  exists (fun q => (nth 0 l q)^*).
  apply: (can_inj cc); rewrite !map_mxM.
  rewrite (_ : map_mx conjC (diag_mx _) = diag_mx (\row_i nth 0 l (lab inv i))); last first.
    by rewrite map_diag_mx; congr diag_mx; apply/rowP=> i; rewrite !mxE conjCK.
  rewrite -[map_mx conjC S]mulmx1 -(Pq_sum uV lab_lt) mulmx_sumr mulmx_suml.
  transitivity (map_mx conjC V *m \sum_(q < nlabels inv) nth 0 l q *: Dq C (lab inv) q).
    rewrite mulmx_sumr; apply: eq_bigr => q _; have [EF PE] := hEF q (ltn_ord q).
    by rewrite -{1}EF !mulmxA hl // -!scalemxAl EF /Pq mulmxKV // -scalemxAr.
  congr (_ *m _); apply/matrixP=> i j; rewrite summxE !mxE (bigD1 (Ordinal (lab_lt i))) //= !mxE eqxx.
  rewrite big1 ?addr0 => [|q ne]; first by case: (i == j); rewrite ?mulr1n ?mulr0n ?mulr1 ?mulr0.
  by rewrite -val_eqE /= in ne; rewrite !mxE eq_sym (negbTE ne) mul0rn mulr0.
have [s /(congr1 (map_mx (@conjC C)))] := h _ hS; rewrite !map_mxM cc diagc => e'.
exists (s q)^*; have [EF PE] := hEF q hq; rewrite -{1}PE mulmxA.
suff -> : S *m P q = (s q)^* *: P q by rewrite -scalemxAl PE.
rewrite /Pq !mulmxA e' -(mulmxA _ (diag_mx _)) scalemxAl scalemxAr; congr (_ *m _ *m _).
rewrite mulmx_diag /Dq; apply/matrixP=> i j; rewrite !mxE.
by case: (eqVneq (nth 0%N inv i) q) => [->|_]; rewrite ?mulr1 ?mulr0 ?mul0rn ?mulr0 // mulr_natr.
Qed.
End Inv.
End Run.
End ReduceRun.
