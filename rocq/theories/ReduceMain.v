(** ReduceMain: when reduce succeeds, and what it returns. *)
From Coq Require Import ZArith String Ascii.
From mathcomp Require Import all_ssreflect all_algebra.
From mathcomp Require Import zify.
From mathcomp.real_closed Require Import mxtens.
From Verif Require Import Base Nd NdProofs Reps Pinv RepSpec RepProofs RepOps Sl2c Sl2cProofs Reduced ReducedProofs TpProofs LinAlg GsMx LinAlgProofs IcbProofs BiProofs Finite ClusterProofs Properties_Finite Reduce ReduceMx ReduceProofs ReduceRun.

Set Implicit Arguments.
Unset Strict Implicit.
Unset Printing Implicit Defensive.

Import Order.POrderTheory GRing.Theory Num.Theory.
Local Open Scope ring_scope.

Section ReduceMain.
Variable C : numClosedFieldType.
Notation nd := (nd C).
Notation id_ := (fun x : nd => x).

Lemma mapR_nth_ok (A B : Type) (x0 : A) (y0 : B) (f : A -> res B) s t : size s = size t ->
  (forall i, (i < size s)%N -> f (nth x0 s i) = Ok (nth y0 t i)) -> mapR f s = Ok t.
Proof.
elim: s t => [|x s ih] [|y t] //= [sz] h; rewrite (h 0%N) //= (ih t) // => i hi.
exact: (h i.+1).
Qed.
Lemma mapR_comp (A B D : Type) (g : A -> B) (f : B -> res D) s : mapR f (map g s) = mapR (fun x => f (g x)) s.
Proof. by elim: s => //= x s ->. Qed.
Lemma all_or K (A B : nat -> Prop) : (forall q, (q < K)%N -> A q \/ B q) ->
  (forall q, (q < K)%N -> A q) \/ exists2 q, (q < K)%N & B q.
Proof.
elim: K => [|K ih] h; first by left.
have [|hA|[q hq hB]] := ih; first by move=> q hq; apply: h; rewrite ltnS ltnW.
  have [a|b] := h K (ltnSn K); last by right; exists K.
  by left=> q; rewrite ltnS leq_eqVlt => /orP[/eqP->|/hA].
by right; exists q => //; rewrite ltnS ltnW.
Qed.

(** The irreps of the result. *)
Definition irr (R : reducedrep (generic C)) (i : nat) : rep C :=
  m_rep (nth (@MulIrrep C (generic C) 1 (MkRep (zeros [::]) (zeros [::]) (zeros [::]))) (r_irreps R) i).

(** R has the algebra and the generators of r; its summands have multiplicity 1, are
    irreducible (their endomorphisms are the scalars) and pairwise inequivalent. *)
Record reduction (T : theory C) (d : nat) (r : rep C) (R : reducedrep (generic C)) : Prop := Reduction {
  rd_ok : red_ok T R;
  rd_dim : red_dim R = d;
  rd_rep : exists r', red_rep R = Ok r' /\ rep_eq r' r;
  rd_mul : forall m, List.In m (r_irreps R) -> m_mul m = 1%N;
  rd_irr : forall i k, (i < size (r_irreps R))%N -> dim (irr R i) = Ok k ->
    forall U : 'M[C]_k, morphism T (irr R i) (irr R i) U -> exists s : C, U = s%:M;
  rd_disj : forall i j k l, (i < size (r_irreps R))%N -> (j < size (r_irreps R))%N -> i != j ->
    dim (irr R i) = Ok k -> dim (irr R j) = Ok l -> forall U : 'M[C]_(l, k), morphism T (irr R i) (irr R j) U -> U = 0 }.

Section Main.
Variables (T : theory C) (d : nat) (r : rep C).
Hypothesis hr : is_rep T d r.
Hypothesis l0 : (0 < th_l T)%N.
Hypothesis d0 : (0 < d)%N.
Notation N := (th_l T + th_h T)%N.
Notation Xg := (gens (th_l T) d r).
Hypothesis real : forall a, (a < N)%N -> map_mx conjC (Xg a) = Xg a.
Variables (eigh eig : nd -> res (nd * nd)) (rand : nat -> nd) (e1 e2 : C) (Y0 M : nd) (e : nd * nd).
Hypothesis ok : eigh_correct eigh.
Hypothesis eY : concat2 (rX r) (rH r) = Ok Y0.
Hypothesis eM : draw eigh rand e1 Y0 = Ok M.
Hypothesis ee : eig M = Ok e.
Hypothesis MX : intertw N Xg Xg (mx2 d d M).
Hypothesis he : eig_res d M e.
Hypothesis p2 : 0 < e2.

Theorem run :
  ((forall inv, ~ clustering d (fun i j => edist e.1 i j < e2) inv) /\
   forall e3 e4, reduce_rep eigh eig rand e1 e2 e3 e4 r = Err ValueError) \/
  exists2 inv, clustering d (fun i j => edist e.1 i j < e2) inv &
  exists2 e0 : C, 0 < e0 & forall e3 e4, 0 < e3 -> e3 <= e0 -> 0 < e4 -> e4 <= e0 ->
    (scalars T d r e inv /\ exists R, reduce_rep eigh eig rand e1 e2 e3 e4 r = Ok R /\ reduction T d r R) \/
    (~ scalars T d r e inv /\ reduce_rep eigh eig rand e1 e2 e3 e4 r = Err ValueError).
Proof using All.
have [Y [eY' [sY gY]]] := concat_gens hr; move: eY'; rewrite eY => -[q]; rewrite -{Y}q in sY gY.
case: (he) => s1 s2 uV MV; rewrite /reduce_rep /decompose eY /= eM /= ee /= /len s1 /=.
have [[inv [s [cl es sz hs]]]|[es no]] := eigenspacesP s1 s2 d0 (ltnSn d) p2; last first.
  by left; split=> // e3 e4; rewrite es.
right; exists inv => //; rewrite es /=; set K := nlabels inv in sz hs *.
have lE : lie_dim r = Ok (th_l T) by rewrite /lie_dim (ir_sA hr) eqxx.
have sp q (hq : (q < K)%N) : exists BY : nd * nd, let k := len BY.1 in let E := adj (mx2 k d BY.1) in
  let F := adj E *m Pq (mx2 d d e.2) (fun i : 'I_d => nth 0%N inv i) q in
  [/\ stable T r E F BY.2, E *m F = Pq (mx2 d d e.2) (fun i : 'I_d => nth 0%N inv i) q,
    Pq (mx2 d d e.2) (fun i : 'I_d => nth 0%N inv i) q *m E = E &
    exists2 e0 : C, 0 < e0 & forall e3, 0 < e3 -> e3 <= e0 -> compress e3 Y0 (nth e s q).2 = Ok BY.2].
  have [v [W [eW _ _ sW gW]]] := hs q hq.
  have -> : nth e s q = (v, W) by rewrite (set_nth_default (e.1, e.2)) ?sz.
  exact: (spaceP d0 real MX he cl hq sY gY sW gW).
have [l [sl hl]] := choose_seq (zeros [::], zeros [::]) sp.
pose B q := nth (zeros [::], zeros [::] : nd) l q; pose k q := len (B q).1; pose Y q := (B q).2.
pose E q : 'M[C]_(d, k q) := adj (mx2 (k q) d (B q).1).
pose P q := Pq (mx2 d d e.2) (fun i : 'I_d => nth 0%N inv i) q.
pose F q : 'M[C]_(k q, d) := adj (E q) *m P q.
have st q : (q < K)%N -> stable T r (E q) (F q) (Y q) by move=> /hl [].
have EF q : (q < K)%N -> E q *m F q = P q /\ P q *m E q = E q by move=> /hl [].
have EF1 : \sum_(q < K) E q *m F q = 1%:M.
  rewrite -(Pq_sum uV (lab_lt d0 cl)); apply: eq_bigr => q _; exact: (EF q (ltn_ord q)).1.
have FE0 q q' : (q < K)%N -> (q' < K)%N -> q != q' -> F q *m E q' = 0.
  by move=> hq hq' ne; rewrite /F -(EF q' hq').2 mulmxA -(mulmxA (adj _)) (Pq_orth _ uV ne) mulmx0 mul0mx.
have [a a0 ha] := @small_all C K (fun q e3 => compress e3 Y0 (nth e s q).2 = Ok (Y q)) (fun q hq => let: And4 _ _ _ h := hl q hq in h).
have [b b0 hb] := @small_all C K (fun q e4 => forall eigh, eigh_correct eigh -> 
    (one T r (E q) /\ exists c Q, [/\ reduce_block eigh e4 r (th_l T) (Y q) = Ok (Q, ir_of T r (Y q)), c != 0, shape Q = [:: d; k q] & mx2 d (k q) Q = c *: E q]) \/
    (~ one T r (E q) /\ reduce_block eigh e4 r (th_l T) (Y q) = Err ValueError))
  (fun q hq => let: ex_intro2 e0 p h := blockP hr l0 d0 (st q hq) in ex_intro2 _ _ e0 p (fun e4 p4 le eigh' ok' => h eigh' e4 ok' p4 le)).
have [e0 p [la lb]] := small2 a0 b0; exists e0 => // e3 e4 p3 le3 p4 le4.
have -> : mapR (fun vW : nd * nd => compress e3 Y0 vW.2) s = Ok [seq Y q | q <- iota 0 K].
  apply: (@mapR_nth_ok _ _ e (zeros [::])); rewrite ?size_map ?size_iota // sz => q hq.
  by rewrite (nth_map 0%N) ?size_iota // nth_iota // add0n; apply: ha => //; apply: le_trans le3 la.
rewrite lE; cbv beta iota zeta delta [rbind]; rewrite sort_map; set s' := sort _ _.
have ps : perm_eq s' (iota 0 K) by rewrite perm_sort.
have ms q : (q \in s') = (q < K)%N by rewrite (perm_mem ps) mem_iota.
have us : uniq s' by rewrite (perm_uniq ps) iota_uniq.
rewrite mapR_comp.
have hb' q (hq : (q < K)%N) := hb q hq e4 p4 (le_trans le4 lb) eigh ok.
have [hall|[q hq [no er]]] := all_or hb'; last first.
  right; split; first by move/(scalarsP d0 real he cl EF) => /(_ q hq).
  rewrite (@mapR_err_in _ _ _ ValueError s' q) // ?ms // => q' hq'; rewrite ms in hq'.
  by have [[_ [c [Q [-> _ _ _]]]]|[_ ->]] := hb' q' hq'; [right; eexists | left].
left; split; first by apply/(scalarsP d0 real he cl EF) => q hq; exact: (hall q hq).1.
have [lc [sc hc]] := @choose_seq (C * nd)%type (0, zeros [::]) K (fun q cQ =>
   [/\ reduce_block eigh e4 r (th_l T) (Y q) = Ok (cQ.2, ir_of T r (Y q)), cQ.1 != 0, shape cQ.2 = [:: d; k q] & mx2 d (k q) cQ.2 = cQ.1 *: E q])
   (fun q hq => let: ex_intro c (ex_intro Q h) := (hall q hq).2 in ex_intro _ (c, Q) h).
pose c q := (nth (0, zeros [::] : nd) lc q).1; pose Q q := (nth (0 : C, zeros [::]) lc q).2.
have -> : mapR (fun q => reduce_block eigh e4 r (th_l T) (Y q)) s' = Ok [seq (Q q, ir_of T r (Y q)) | q <- s'].
  by apply: mapR_ok_in => q; rewrite ms => /hc [].
rewrite /= -!map_comp.
have [|||Z [eZ [rok rdim rrep]]] := assemble hr l0 d0 st EF1 FE0 ps (Q := Q) (c := c).
- by move=> q /hc [].
- by move=> q /hc [].
- by move=> q /hc [].
rewrite (_ : [seq _ | q <- s'] = map Q s') // eZ /=; eexists; split; first by [].
have irE i : (i < size s')%N -> irr (ReducedRep (rA r) [seq @MulIrrep C (generic C) 1 (ir_of T r (Y q)) | q <- s'] (Some Z)) i = ir_of T r (Y (nth 0%N s' i)).
  by move=> hi; rewrite /irr /= (nth_map 0%N).
have nK i : (i < size s')%N -> (nth 0%N s' i < K)%N by move=> hi; rewrite -ms mem_nth.
have dE i : (i < size s')%N -> dim (ir_of T r (Y (nth 0%N s' i))) = Ok (k (nth 0%N s' i)).
  by move=> hi; rewrite /dim /= (st_s (st _ (nK i hi))).
split=> //.
- by move=> m /List.in_map_iff [q [<- _]].
- move=> i k' /=; rewrite size_map => hi; rewrite irE // dE // => -[<-] U hU.
  exact: (blk_schur st (nK i hi) (hall _ (nK i hi)).1 hU).
- move=> i j k1 k2 /=; rewrite size_map => hi hj ne; rewrite !irE // !dE // => -[<-] [<-] U hU.
  by apply: (blk_disj st FE0 (nK i hi) (nK j hj) _ (hall _ (nK i hi)).1 hU); rewrite nth_uniq.
Qed.
End Main.

(** The same without the hypothesis that the generators are real, when no block has a
    line of intertwiners. *)
Section Err.
Variables (T : theory C) (d : nat) (r : rep C).
Hypothesis hr : is_rep T d r.
Hypothesis l0 : (0 < th_l T)%N.
Hypothesis d0 : (0 < d)%N.
Notation N := (th_l T + th_h T)%N.
Notation Xg := (gens (th_l T) d r).
Variables (eigh eig : nd -> res (nd * nd)) (rand : nat -> nd) (e1 e2 : C) (Y0 M : nd) (e : nd * nd).
Hypothesis ok : eigh_correct eigh.
Hypothesis eY : concat2 (rX r) (rH r) = Ok Y0.
Hypothesis eM : draw eigh rand e1 Y0 = Ok M.
Hypothesis ee : eig M = Ok e.
Hypothesis MX : intertw N Xg Xg (mx2 d d M).
Hypothesis he : eig_res d M e.
Hypothesis p2 : 0 < e2.
Hypothesis bad : forall k (B : 'M[C]_(k, d)) (Y : nd), (0 < k)%N -> B *m adj B = 1%:M ->
  (forall a, (a < N)%N -> exists G, Xg a *m B^T = B^T *m G) -> shape Y = [:: N; k; k] ->
  (forall a, (a < N)%N -> mx3 k k Y a = B *m Xg a *m adj B) ->
  is_rep T k (ir_of T r Y) /\ ~ exists U0 : 'M[C]_(d, k),
    [/\ U0 != 0, morphism T (ir_of T r Y) r U0 & forall U, morphism T (ir_of T r Y) r U -> exists s : C, U = s *: U0].

Theorem run_err : exists2 e0 : C, 0 < e0 & forall e3 e4, 0 < e3 -> e3 <= e0 -> 0 < e4 -> e4 <= e0 ->
  reduce_rep eigh eig rand e1 e2 e3 e4 r = Err ValueError.
Proof using All.
have [Y [eY' [sY gY]]] := concat_gens hr; move: eY'; rewrite eY => -[q]; rewrite -{Y}q in sY gY.
case: (he) => s1 s2 uV MV; rewrite /reduce_rep /decompose eY /= eM /= ee /= /len s1 /=.
have [[inv [s [cl es sz hs]]]|[es no]] := eigenspacesP s1 s2 d0 (ltnSn d) p2; last first.
  by exists 1; rewrite ?ltr01 // => e3 e4 _ _ _ _; rewrite es.
rewrite es /=; set K := nlabels inv in sz hs *.
have lE : lie_dim r = Ok (th_l T) by rewrite /lie_dim (ir_sA hr) eqxx.
have sp q (hq : (q < K)%N) : exists Y : nd,
    (exists2 e0 : C, 0 < e0 & forall e3, 0 < e3 -> e3 <= e0 -> compress e3 Y0 (nth e s q).2 = Ok Y) /\
    (exists2 e0 : C, 0 < e0 & forall e4, 0 < e4 -> e4 <= e0 -> reduce_block eigh e4 r (th_l T) Y = Err ValueError).
  have [v [W [eW _ _ sW gW]]] := hs q hq.
  have -> : nth e s q = (v, W) by rewrite (set_nth_default (e.1, e.2)) ?sz.
  have [k [B [Y [sB b1 mB [kr sY' gY' ok']]]]] := compressP sY sW; exists Y; split=> //.
  have mD := eqmx_trans mB (W_eqmx (cl_size cl) erefl gW).
  have k0 : (0 < k)%N.
    rewrite kr lt0n; apply/negP; rewrite mxrank_eq0 => /eqP z.
    have : (Dq C (fun i : 'I_d => nth 0%N inv i) q *m (mx2 d d e.2)^T <= (0 : 'M[C]_d))%MS.
      by rewrite -(W_eqmx (cl_size cl) erefl gW) z trmx0 sub0mx.
    rewrite submx0 => /eqP; have uT : (mx2 d d e.2)^T \in unitmx by rewrite unitmx_tr.
    move/(congr1 (fun A => A *m invmx (mx2 d d e.2)^T)); rewrite mul0mx mulmxK // => D0.
    have qi : q \in inv by rewrite (clustering_labels d0 cl).
    have qd : (index q inv < d)%N by rewrite -(cl_size cl) index_mem.
    have /matrixP/(_ (Ordinal qd) (Ordinal qd)) := D0; rewrite !mxE eqxx /= nth_index // eqxx mulr1n.
    by move/eqP; rewrite oner_eq0.
  have XM a : (a < N)%N -> mx2 d d M *m Xg a = Xg a *m mx2 d d M by move=> ha; rewrite MX.
  have [||hir hno] := @bad k (mx2 k d B) Y k0 b1 _ sY' _.
  - exact: (Vq_stable XM uV MV (lab_eq he cl) mD).
  - by move=> a ha; rewrite gY' // gY.
  have [e0 p h] := block_err hr l0 d0 hir k0 hno; exists e0 => // e4 p4 le; exact: h.
have [l [sl hl]] := choose_seq (zeros [::]) sp; pose Y q := nth (zeros [::] : nd) l q.
have [a a0 ha] := @small_all C K (fun q e3 => compress e3 Y0 (nth e s q).2 = Ok (Y q)) (fun q hq => (hl q hq).1).
have [b b0 hb] := @small_all C K (fun q e4 => reduce_block eigh e4 r (th_l T) (Y q) = Err ValueError) (fun q hq => (hl q hq).2).
have [e0 p [la lb]] := small2 a0 b0; exists e0 => // e3 e4 p3 le3 p4 le4.
have -> : mapR (fun vW : nd * nd => compress e3 Y0 vW.2) s = Ok [seq Y q | q <- iota 0 K].
  apply: (@mapR_nth_ok _ _ e (zeros [::])); rewrite ?size_map ?size_iota // sz => q hq.
  by rewrite (nth_map 0%N) ?size_iota // nth_iota // add0n; apply: ha => //; apply: le_trans le3 la.
rewrite lE; cbv beta iota zeta delta [rbind]; rewrite sort_map; set s' := sort _ _.
have ms q : (q \in s') = (q < K)%N by rewrite mem_sort mem_iota.
rewrite mapR_comp (@mapR_err_in _ _ _ ValueError s' 0%N) ?ms //; first by apply: hb => //; apply: le_trans le4 lb.
by move=> q; rewrite ms => hq; left; apply: hb => //; apply: le_trans le4 lb.
Qed.
End Err.
End ReduceMain.
