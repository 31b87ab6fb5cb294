(** Properties_RtpSq: the square of an irrep of SU2 with a symmetry of the two indices (C71):
    the antisymmetric one always raises, the symmetric one succeeds. *)
From Coq Require Import ZArith String Ascii List Permutation.
From mathcomp Require Import all_ssreflect all_algebra.
From mathcomp Require Import zify.
From mathcomp Require Import mxtens.
From Verif Require Import Base Nd NdProofs Reps RepOps Reduced Labels LabelProofs Su2 Su2Cg Su2CgProofs Su2CgEq Su2Proofs Su2Irr SoCg Sl2c LinAlg BiProofs CgGenProofs.
From Verif Require Import Perm RedPerm RedPermBasis RedPermSub Rtp RtpArr RtpLoop RtpPres RtpEqv RtpStab RtpReal RtpSym RtpTwo RtpCon.
From Verif Require Import Properties_Rtp Properties_RtpInst Properties_RtpSym Properties_RedPerm.

Set Implicit Arguments.
Unset Strict Implicit.
Unset Printing Implicit Defensive.

Import Order.POrderTheory GRing.Theory Num.Theory.
Local Open Scope ring_scope.

(** The group of the formulas ij=ji (s = 1) and ij=-ji (s = -1). *)
Definition swap_group (s : int) : seq sp := [:: (1%R, [:: 0; 1]%N); (s, [:: 1; 0]%N)].

(** Its two elements in one order or the other. *)
Definition swap_of (s : int) (G : seq sp) : Prop := G = swap_group s \/ G = rev (swap_group s).

Section Sq.
Variable C : numClosedFieldType.
Notation nd := (nd C).
Notation id_ := (fun x : nd => x).
Let ford_id (f : seq nat) := f.

Lemma swap_signed s : s = 1 \/ s = -1 -> signed_group 2 (swap_group s).
Proof.
case=> ->; split.
- by move=> a; rewrite !inE => /orP[] /eqP->; [left | left].
- by move=> a; rewrite !inE => /orP[] /eqP->.
- by [].
- by move=> a b; rewrite !inE => /orP[] /eqP-> /orP[] /eqP->.
- by move=> a; rewrite !inE => /orP[] /eqP->; [exists [:: 0; 1]%N | exists [:: 1; 0]%N].
- by move=> a; rewrite !inE => /orP[] /eqP->; [left | right].
- by move=> a; rewrite !inE => /orP[] /eqP->.
- by [].
- by move=> a b; rewrite !inE => /orP[] /eqP-> /orP[] /eqP->.
- by move=> a; rewrite !inE => /orP[] /eqP->; [exists [:: 0; 1]%N | exists [:: 1; 0]%N].
Qed.
Lemma swap_mem s G a : swap_of s G -> (a \in G) = (a \in swap_group s).
Proof. by case=> -> //; rewrite mem_rev. Qed.
Lemma swap_signed' s G : s = 1 \/ s = -1 -> swap_of s G -> signed_group 2 G.
Proof.
move=> /swap_signed[h1 h2 h3 h4 h5] hG; have m := swap_mem _ hG; split=> [a|a||a b|a]; rewrite ?m //; first exact: h1.
- exact: h2.
- exact: h4.
- by move=> /h5[q hq e]; exists q; rewrite ?m.
Qed.
Lemma mapR_In (S T : Type) (f : S -> res T) s t x : mapR f s = Ok t -> List.In x s -> exists y, f x = Ok y.
Proof.
move=> /mapR_Forall2; elim=> [|x' y s' t' e _ IH] //= [<-|/IH //]; by exists y.
Qed.

Lemma mapR_total (S T : Type) (f : S -> res T) (Q : T -> Prop) s : (forall x, List.In x s -> exists2 y, f x = Ok y & Q y) ->
  exists2 t, mapR f s = Ok t & List.Forall Q t /\ forall x y, List.In x s -> f x = Ok y -> List.In y t.
Proof.
elim: s => [|x s IH] h; first by exists [::] => //; split=> //; constructor.
have [y ey qy] := h x (or_introl erefl); have [|t et [qt it]] := IH; first by move=> x' hx; apply: h; right.
exists (y :: t); first by rewrite /= ey /= et.
split; first by constructor.
by move=> x' y' [<-|hx] e; [left; move: e; rewrite ey => -[] | right; apply: it hx e].
Qed.
Lemma bigneq0 (I : finType) (F : I -> C) : \sum_i F i != 0 -> exists i, F i != 0.
Proof.
move=> h; case: (boolP [exists i, F i != 0]) => [/existsP //|/existsPn z].
by case/eqP: h; apply: big1 => i _; apply/eqP; rewrite -[_ == _]negbK z.
Qed.

Section N.
Variable n : nat.
Local Notation irr := [:: one_irrep C n; one_irrep C n].
Local Notation dims := [:: n.+1; n.+1].
Lemma su2_sq : exists irs, [/\ su2_mulN n n = Ok irs, irs <> [::], (2 * n)%N \in irs & forall ir, ir \in irs -> tri n n ir].
Proof.
have e : su2_mulN n n = Ok (su2_list n n) by rewrite /su2_mulN /su2_list; case: (su2_mul _ _) (su2_mulE n%:Z n%:Z) => //=.
have h : (2 * n)%N \in su2_list n n by rewrite su2_listP /tri; lia.
by exists (su2_list n n); split=> // [h'|ir]; [rewrite h' in h | rewrite su2_listP].
Qed.
Lemma su2_two : exists b1 b2 (l : seq (nat * nat * nd)), [/\ rtp_bases S irr = Ok [:: ([:: 0%N], b1); ([:: 1%N], b2)],
  reduce_basis_product ltn S su2_mulN (su2_cg C) b1 b2 = Ok (mk l), wf S dims l,
  List.Forall (fun q => (0 < q.1.1)%N /\ tri n n q.1.2 /\ forall u i j k, (u < q.1.1)%N -> (i <= n)%N -> (j <= n)%N -> (k <= q.1.2)%N ->
    get q.2 [:: i; j; u; k] = ce C n n q.1.2 i j k) l &
  exists2 q, List.In q l & q.1.2 = (2 * n)%N].
Proof.
have [irs [e1 e2 e3 e4]] := su2_sq.
have [|b1 [b2 [l [h1 h2 h3 h4 h5]]]] := @two_ok C _ ltn S su2_mulN (su2_cg C) n n irs e1 e2.
  by move=> ir /e4 t; have [X [-> [sX _]]] := su2_cg_ok C t; exists X, 1%N.
exists b1, b2, l; split=> //; last exact: h5.
apply: List.Forall_impl h4 => q [q0 hc]; split=> //.
have gc u : (u < q.1.1)%N -> is_cg S (su2_cg C) n n irs q.1.2 (fun idx k => get q.2 (idx ++ [:: u; k])).
  move=> hu; have := @Forall_nth' _ _ (n, fun _ _ => 0) _ u hc; rewrite /bcols size_map size_iota => /(_ hu).
  by rewrite (nth_map 0%N) ?size_iota // nth_iota.
have [hi _] := gc 0%N q0; split=> [|u i j k hu ii jj kk]; first exact: e4.
have [_ [cg [z [w [ecg scg hw g]]]]] := gc u hu; rewrite (g i j k) //.
have [X [eX [sX gX]]] := su2_cg_ok C (e4 _ hi); move: ecg; rewrite eX => -[ee]; rewrite -ee in scg hw g *.
by move: scg; rewrite sX => -[ez]; move: hw; rewrite -ez ltnS leqn0 => /eqP ->; rewrite gX.
Qed.

(** The last step. *)
Lemma su2_last s G : s = 1 \/ s = -1 -> swap_of s G -> exists l : seq (nat * nat * nd), [/\ forall fuel rnd eigh eps,
    rtp ltn S su2_mulN (su2_cg C) rnd eigh eps ford_id fuel.+1 irr G =
    (do p <- subgroup_perm C ford_id (iota 0 2) G dims;
     do ab <- constrain S rnd eigh eps (mk l) p; do b <- ia_sorted ltn S ab; ia_simplify S b),
  wf S dims l,
  List.Forall (fun q => (0 < q.1.1)%N /\ tri n n q.1.2 /\ forall u i j k, (u < q.1.1)%N -> (i <= n)%N -> (j <= n)%N -> (k <= q.1.2)%N ->
    get q.2 [:: i; j; u; k] = ce C n n q.1.2 i j k) l &
  exists2 q, List.In q l & q.1.2 = (2 * n)%N].
Proof.
move=> hs hG; have [b1 [b2 [l [e1 e2 wl hl hq]]]] := su2_two; exists l; split=> // fuel rnd eigh eps.
rewrite [LHS]/= /rtp_body e1; cbn [rbind rtp_loop]; rewrite e2; cbn [rbind].
have -> : fset_union ([:: 0%N], b1).1 ([:: 1%N], b2).1 = iota 0 2 by vm_compute.
have -> : (size (subrepr_permutation (iota 0 2) G) == 1%N) = false by case: hs hG => -> [] ->; vm_compute.
by rewrite /= !rdim_one.
Qed.
Lemma swap_dims s G (hG : swap_of s G) a p i : (a, p) \in G -> (i < size dims)%N -> nth 0%N dims (nth 0%N p i) = nth 0%N dims i.
Proof. by rewrite (swap_mem _ hG) !inE => /orP[] /eqP[_ ->]; case: i => [|[|]]. Qed.
Lemma swap_size s G : s = 1 \/ s = -1 -> swap_of s G -> size (subrepr_permutation (iota 0 (size dims)) G) <> 1%N.
Proof. by move=> hs hG; apply/eqP; case: hs hG => -> [] ->; vm_compute. Qed.
Lemma validP idx : valid dims idx -> exists i j, [/\ idx = [:: i; j], (i <= n)%N & (j <= n)%N].
Proof. by case: idx => [|i [|j [|]]] //; rewrite !valid_cons valid_nil andbT => /andP[hi hj]; exists i, j. Qed.
(** The component 0 of the largest irrep. *)
Lemma ce_top i j : ce C n n (2 * n) i j 0 != 0 -> (i = 0 /\ j = 0)%N.
Proof.
rewrite /ce /cge; have -> : ((n + n - 2 * n)./2 = 0)%N by lia.
by case: ifP => [/eqP e _|_ /eqP //]; split; lia.
Qed.

(** ij=-ji raises for every spin, tolerance and rounding. *)
Lemma antisymmetric_raises G fuel rnd eigh eps r : swap_of (-1) G ->
  rtp_out ltn S su2_mulN (su2_cg C) rnd eigh eps ford_id fuel irr G <> Ok r.
Proof.
move=> hG; case: r => -[irs a] xs /rtp_out_inv[b [er _ _]]; have hs : (-1 : int) = 1 \/ (-1 : int) = -1 by right.
have [l [e wl hl [q hq lq]]] := su2_last hs hG.
move: er; case: fuel => // fuel; rewrite e.
case ep: (subgroup_perm _ _ _ _ _) => [pb|] //=; rewrite /constrain; case: (passert _) => //= _.
case ef: (flat2 pb) => [perm|] //=; rewrite blocks_mk; case em: (mapR _ _) => [ls|] //= _.
have [k [sp sym]] := @perm_basis_sym C ford_id (fun _ _ => erefl) G dims pb perm (swap_signed' hs hG) (swap_dims hG) (swap_size hs hG) ep ef.
have wq : wfb S dims q := proj1 (List.Forall_forall _ _) (proj2 wl) _ hq.
have [q0 [_ gq]] := proj1 (List.Forall_forall _ _) hl _ hq.
have [y ey] := mapR_In em hq; move: ey; case: q {hq} lq wq q0 gq => -[m ir] x /= -> wx m0 gx.
apply: (constrain_one_empty wx m0 _ sp) => // idx u i /validP[i1 [i2 [-> h1 h2]]] hu hi.
rewrite /= gx // => /ce_top[-> ->].
have := sym i (-1) [:: 1; 0]%N [:: 0; 0]%N hi; rewrite /= (swap_mem _ hG) !inE eqxx orbT => /(_ isT isT) h.
have e2 : get perm [:: i; ravel dims [:: 0; 0]%N] = - get perm [:: i; ravel dims [:: 0; 0]%N].
  by rewrite {1}h mulN1r.
by apply/eqP; rewrite -[_ == 0](@mulrn_eq0 _ _ 2) // mulr2n {1}e2 addNr.
Qed.

Theorem C71_antisymmetric_refuted fuel rnd eigh eps r :
  rtp_out ltn S su2_mulN (su2_cg C) rnd eigh eps ford_id fuel irr (swap_group (-1)) <> Ok r.
Proof. by apply: antisymmetric_raises; left. Qed.

(** ij=ji succeeds for every spin. *)
Lemma symmetric_succeeds G eigh fuel : eigh_correct_real eigh -> swap_of 1 G ->
  small_eps (fun eps => exists r, rtp_out ltn S su2_mulN (su2_cg C) id_ eigh eps ford_id fuel.+1 irr G = Ok r).
Proof.
move=> eP hG; have hs : (1 : int) = 1 \/ (1 : int) = -1 by left.
have [l [e wl hl [q hq lq]]] := su2_last hs hG.
have [k [pb [[ep spb fok hp] k0]]] := @perm_basis_ok C ford_id (fun _ _ => erefl) G dims (swap_signed' hs hG) (swap_dims hG) (swap_size hs hG) (ltn0Sn _).
have symP (T : seq nat -> C) : (forall i j, T [:: i; j] = T [:: j; i]) -> symT dims G T.
  move=> h a p idx; rewrite (swap_mem _ hG) !inE => /orP[] /eqP[-> ->] /validP[i [j [-> _ _]]]; rewrite mul1r //.
  by rewrite h.
have kp : (0 < k)%N.
  rewrite lt0n; apply/eqP => kz.
  by have /eqP := k0 kz (fun=> 1) (symP (fun=> 1) (fun _ _ => erefl)) [:: 0; 0]%N isT; rewrite oner_eq0.
have [perm ef] := fok kp; have [sp _ cmp] := hp _ ef.
have rp : allreal perm by apply: flat2_real ef; apply: subgroup_perm_real ep.
have as1 : passert (all (fun x => lead x == behead (shape pb)) (ia_list (mk l))) = Ok tt.
  rewrite /passert spb /=; have -> // : all (fun x : nd => lead x == dims) (map snd l).
  by elim: (l) (proj2 wl) => //= p l' IH h; rewrite (proj1 (wfb_lead (List.Forall_inv h))) eqxx IH //; exact: List.Forall_inv_tail h.
have nz ir : tri n n ir -> exists i j, [/\ (i <= n)%N, (j <= n)%N & ce C n n ir i j 0 != 0].
  move=> t; have := congr1 (fun M : 'M_(ir.+1) => M ord0 ord0) (Bm_norm C t); rewrite !mxE eqxx.
  rewrite sum_tens => h; have := oner_neq0 C; rewrite -[X in X != _]h => /bigneq0[i /bigneq0[j]].
  rewrite !mxE mxtens_indexK mulf_eq0 orbb => h'.
  by exists i, j; split=> //; rewrite -ltnS.
have blk q' : List.In q' l -> ev (fun eps => (exists2 s, constrain_one id_ eigh eps perm q' = Ok s & List.Forall (wfb S dims) s) /\
    (q'.1.2 = (2 * n)%N -> constrain_one id_ eigh eps perm q' <> Ok [::])).
  move=> hin; have wq : wfb S dims q' := proj1 (List.Forall_forall _ _) (proj2 wl) _ hin.
  have [q0 [tq gq]] := proj1 (List.Forall_forall _ _) hl _ hin.
  case: q' hin wq q0 tq gq => -[m ir] x /= _ wx m0 tq gx.
  have gx' u idx j : (u < m)%N -> valid dims idx -> (j <= ir)%N -> get x (idx ++ [:: u; j]) = ce C n n ir (nth 0%N idx 0) (nth 0%N idx 1) j.
    by move=> hu /validP[a [b [-> ha hb]]] hj; rewrite /= gx.
  have rx idx u : valid dims idx -> (u < m)%N -> get x (idx ++ [:: u; 0%N]) \is Num.real.
    by move=> vi hu; rewrite gx' // ce_real.
  have := constrain_one_span eP wx m0 (ltn0Sn _) rx rp sp; apply: ev_imp => eps _ [tot con].
  have [a [b [ha hb nab]]] := nz ir tq.
  have vab : valid dims [:: a; b] by rewrite !valid_cons valid_nil !ltnS ha hb.
  have [s es] : exists s, constrain_one id_ eigh eps perm ((m, ir), x) = Ok s.
    have [c hc _] := cmp (fun idx => (idx == [:: a; b])%:R + (idx == [:: b; a])%:R) (ltac:(by apply: symP => i j; rewrite addrC !eqseq_cons !andbT (andbC (j == a)) (andbC (j == b)))).
    have [i] : exists i : 'I_k, c i * get perm [:: i : nat; ravel dims [:: a; b]] != 0.
      by apply: bigneq0; rewrite -hc // eqxx -natrD pnatr_eq0.
    rewrite mulf_eq0 negb_or => /andP[_ np]; apply: (tot i (ltn_ord i)).
    by exists [:: a; b], 0%N; split=> //; rewrite gx'.
  have [v [P [y [es' sy gy _ sp']]]] := con s es; split.
    exists s => //; rewrite es'; case: ifP => _; repeat constructor; exact: sy.
  move=> eir; rewrite es es' => -[]; case: (posnP v) => // v0 _; case/eqP: nab.
  pose T idx := ce C n n ir (nth 0%N idx 0) (nth 0%N idx 1) 0.
  have Ts : symT dims G T.
    apply: symP => i j; rewrite /T /= eir; case: (eqVneq (ce C n n (2 * n) i j 0) 0) => [z|/ce_top[-> ->] //].
    by rewrite z; case: (eqVneq (ce C n n (2 * n) j i 0) 0) => [-> //|nz']; move: z (nz'); case/ce_top: nz' => -> -> ->; rewrite eqxx.
  have zE idx : valid dims idx -> \sum_(u < m) (u == 0%N :> nat)%:R * get x (idx ++ [:: u : nat; 0%N]) = T idx.
    move=> vi; rewrite (bigD1 (Ordinal m0)) //= mul1r gx' // big1 ?addr0 // => u nu.
    by rewrite (negPf nu : (u == 0%N :> nat) = false) mul0r.
  have [c hc mc] := cmp T Ts; have [||d hd] := sp' (fun u => (u == 0%N)%:R) c.
  - by move=> idx vi; rewrite zE // hc.
  - by move=> i hi /(mc i hi)[idx vi /andP[h1 h2]]; exists idx, 0%N; split=> //; rewrite gx'.
  by have := hd _ vab; rewrite zE // v0 big_ord0.
have := ev_forall blk; apply: ev_imp => eps _ /List.Forall_forall h.
have [ls els [fls ils]] := @mapR_total _ _ (constrain_one id_ eigh eps perm) (List.Forall (wfb S dims)) l (fun x hx => proj1 (h x hx)).
rewrite /rtp_out e ep; cbn [rbind]; rewrite /constrain as1; cbn [rbind]; rewrite ef; cbn [rbind]; rewrite blocks_mk els; cbn [rbind].
have wf' : wf S dims (flatten ls).
  split; last exact: Forall_flatten.
  have [[s es _] ne] := h _ hq; have := ils _ _ hq es; have {ne} := ne lq; rewrite es.
  move=> hne; have s0 : (0 < size s)%N by case: (s) hne.
  by elim: (ls) => [|t ls' IH] //= [->|hin]; rewrite size_cat addn_gt0; [rewrite s0 | rewrite IH // orbT].
rewrite (ia_new_wf wf'); cbn [rbind]; rewrite (ia_sortedE ltn wf'); cbn [rbind].
have [l' -> [wl' _ _]] := simplifyP (wf_perm (Permutation_sym (sortb_perm ltn (flatten ls))) wf'); cbn [rbind].
by have [a -> _] := ia_arrayP wl' (ltac:(by []) : nprod dims <> 0%N); eexists.
Qed.
Theorem C71_symmetric_square eigh fuel : eigh_correct_real eigh ->
  small_eps (fun eps => exists r, rtp_out ltn S su2_mulN (su2_cg C) id_ eigh eps ford_id fuel.+1 irr (swap_group 1) = Ok r).
Proof. by move=> eP; apply: symmetric_succeeds => //; left. Qed.

(** One index with i=-i: the sign is ignored, and the result does not vanish. *)
Theorem C71_single_refuted fuel rnd eigh eps : exists irs a xs,
  rtp_out ltn S su2_mulN (su2_cg C) rnd eigh eps ford_id fuel.+1 [:: one_irrep C n] [:: (1, [:: 0%N]); (-1, [:: 0%N])] = Ok (irs, a, xs) /\
  ~ basis_symmetric S [:: one_irrep C n] (total_dim S irs) a (-1) [:: 0%N].
Proof.
have [x [ex sx gx]] := init_one C S 1 0 n; have w : wfb S [:: n.+1] ((1%N, n), x) by [].
have wl : wf S [:: n.+1] [:: ((1%N, n), x)] by split=> //; constructor.
have [a ea [sa ga]] := ia_arrayP wl (ltac:(by []) : nprod [:: n.+1] <> 0%N).
exists [:: (1%N, n)], a, [:: x]; split.
  rewrite /rtp_out /= /rtp_body /rtp_bases [mapR _ _]/= ex; cbn [rbind rtp_loop fst snd]; rewrite /passert /=.
  by rewrite (proj1 (ss_one ltn w)) /= (proj2 (ss_one ltn w)) /= ea.
have e1 : get a [:: 0; 0]%N = 1.
  by rewrite (ga [:: 0%N] 0%N) // /ents /cols /= (gx [:: 0%N] 0%N).
move=> /(_ [:: 0%N] 0%N isT isT) /=; rewrite e1 mulN1r => /eqP.
by rewrite -subr_eq0 opprK -(natrD _ 1 1) pnatr_eq0.
Qed.
End N.

(** reduced_symmetric_tensor_product_basis. *)
Theorem C71_su2_symmetric_power eigh fuel (r : seq (nat * nat) * option nd) order : eigh_correct_real eigh -> real_rep r ->
  small_eps (fun eps => forall irs a xs, rtp_symmetric ltn S su2_mulN (su2_cg C) id_ eigh eps ford_id fuel r order = Ok (irs, a, xs) ->
    shape a = rcons (nseq order (rdim S r)) (total_dim S irs) /\
    forall p, perm_eq p (iota 0 order) -> basis_symmetric S (nseq order r) (total_dim S irs) a 1 p).
Proof.
move=> eP rr; have := @C71_su2 C eigh eP fuel (nseq order r) [seq (1, p) | p <- permutations (iota 0 order)].
have h1 : List.Forall (@real_rep C _) (nseq order r) by elim: order => /= [|o IH]; constructor.
rewrite size_nseq => /(_ h1 (C08_all_permutations_group (fun p => mem_permutations _ p))).
have fx : fixes (nseq order r) [seq (1 : int, p) | p <- permutations (iota 0 order)].
  move=> s p i /mapP[p']; rewrite mem_permutations => pe [_ ->]; rewrite size_nseq => hi.
  by rewrite !nth_nseq hi (permeq_nth_lt pe).
have ng : order = 1%N -> (-1, iota 0 order) \notin [seq (1 : int, p) | p <- permutations (iota 0 order)].
  by move=> _; apply/mapP => -[].
case/(_ fx ng) => [e0 p0 h]; exists e0 => // e h1' h2 irs a xs /(h e h1' h2)[-> hs].
rewrite map_nseq; split=> // p pe; apply: hs; apply/mapP; exists p => //.
by rewrite mem_permutations.
Qed.
End Sq.
