(** RtpList: _reduced_tensor_product_basis (Rtp.v) without symmetry always succeeds, whatever
    the linear algebra it never calls. *)
From Coq Require Import ZArith String Ascii List Permutation.
From mathcomp Require Import all_ssreflect all_algebra.
From mathcomp Require Import zify.
From Verif Require Import Base Nd NdProofs Reps RepOps Sl2c LinAlg BiProofs.
From Verif Require Import Perm RedPerm RedPermBasis RedPermSub Rtp RtpArr RtpLoop RtpPres RtpEqv RtpStab RtpReal RtpSym RtpSymAll RtpCon RtpSpan RtpFull RtpFullCon RtpFullAll RtpInd RtpIndAll.

Set Implicit Arguments.
Unset Strict Implicit.
Unset Printing Implicit Defensive.

Import Order.POrderTheory GRing.Theory Num.Theory.
Local Open Scope ring_scope.

Definition triv (n : nat) : seq sp := [:: (1, iota 0 n)].

Lemma subrepr_triv f n : sorted ltn f -> all (fun i => (i < n)%N) f -> subrepr_permutation f (triv n) = triv (size f).
Proof.
move=> so al; rewrite /subrepr_permutation /triv /= size_iota.
have -> : all (fun ji : nat * nat => (ji.2 \in f) || (ji.2 == ji.1)) (zip (iota 0 n) (iota 0 n)).
  by elim: n 0%N {al} => //= n IH m; rewrite eqxx orbT IH.
have uf : uniq f by apply: sorted_uniq so; [exact: ltn_trans | exact: ltnn].
have sf : sort leq f = f.
  by apply: sorted_sort; [exact: leq_trans | move: so; rewrite ltn_sorted_uniq_leq => /andP[]].
rewrite /= -(RtpEqv.sorted_filter so al) sf; congr [:: (_, _)].
apply: (@eq_from_nth _ 0%N); rewrite size_map ?size_iota // => i hi.
by rewrite (nth_map 0%N) // nth_iota // add0n index_uniq.
Qed.
Lemma triv_group n : signed_group n (triv n).
Proof.
have mi : map (nth 0%N (iota 0 n)) (iota 0 n) = iota 0 n.
  by rewrite -[n in map _ (iota 0 n)](size_iota 0 n) map_nth_iota0 ?take_size.
split; rewrite ?inE ?eqxx //; try by case=> s p; rewrite inE => /eqP[-> ->]; auto.
  by case=> s p [s' p']; rewrite !inE => /eqP[-> ->] /eqP[-> ->] /=; rewrite mi.
by case=> s p; rewrite inE => /eqP[-> ->]; exists (iota 0 n); rewrite ?inE ?eqxx.
Qed.

Section Ind.
Variable C : numClosedFieldType.
(** As many independent tensors as there are entries span everything, and conversely. *)
Lemma ind_all ld (gs : seq (seq nat -> C)) T : ind ld gs -> size gs = nprod ld -> spn ld gs T.
Proof.
move=> /ind_emx h e.
have /submxP[D hD] : (\row_x T (unravel ld x) <= emx ld gs)%MS.
  apply: submx_trans (submx1 _) _; rewrite sub1mx /row_full; move: h; rewrite /row_free => /eqP ->; by rewrite e.
exists (fun i => if insub i is Some o then D 0 o else 0) => idx v.
have /rowP/(_ (Ordinal (ravel_lt v))) := hD; rewrite !mxE /= ravelK // => ->.
by apply: eq_bigr => i _; rewrite valK mxE /= ravelK.
Qed.
Lemma ind_size ld (gs : seq (seq nat -> C)) : ind ld gs -> (forall T, spn ld gs T) -> size gs = nprod ld.
Proof.
move=> /ind_emx; rewrite /row_free => /eqP h a; rewrite -h; apply/eqP; rewrite eqn_leq rank_leq_col /=.
rewrite -[X in (X <= _)%N](mxrank1 C); apply: mxrankS; apply/row_subP => i.
have := spn_emx (a (fun idx => (ravel ld idx == i)%:R)); congr (_ <= _)%MS.
by apply/rowP => x; rewrite !mxE unravelK // eq_sym.
Qed.
End Ind.

Section Total.
Variable C : numClosedFieldType.
Notation nd := (nd C).
Variable L : eqType.
Variable lt : rel L.
Variable dim : L -> nat.
Variable mulL : L -> L -> res (seq L).
Variable cgL : L -> L -> L -> res nd.
Variable ford : seq nat -> seq nat.
Hypothesis ford_id : forall f, sorted ltn f -> ford f = f.
Notation mi := (nat * L)%type.
Notation blk := (mi * nd)%type.
Notation rrep := (seq mi * option nd)%type.
Notation dims irr := (map (rdim dim) irr).
Local Notation rr0 := (([::] : seq mi), (None : option nd)).
Local Notation ents := (ents dim).
Local Notation Indb := (@Indb C L dim).
Hypothesis dim_pos : forall ir, (0 < dim ir)%N.
Hypothesis hfull : cg_full dim mulL cgL.
Hypothesis hcount : cg_count dim mulL cgL.
Hypothesis hmul : forall i1 i2, exists irs, mulL i1 i2 = Ok irs.

(** A reduced representation: of positive dimension, with an invertible matrix if any. *)
Definition good_rep (r : rrep) : Prop := (0 < rdim dim r)%N /\
  (if r.2 is Some Q then shape Q = [:: rdim dim r; rdim dim r] /\ mx2 (rdim dim r) (rdim dim r) Q \in unitmx else True).
(** A basis of all the tensors on the indices f. *)
Definition Good (irr : seq rrep) f (b : irrarr C L) : Prop := exists l, [/\ b = mk l, wf dim (masked f (dims irr)) l,
  Indb irr f (mk l) & forall T, spn (masked f (dims irr)) (ents l) T].

Lemma Full_triv (irr : seq rrep) f (l : seq blk) : Full dim (triv (size irr)) irr f (mk l) -> forall T, spn (masked f (dims irr)) (ents l) T.
Proof.
move=> h T; have := h T; rewrite blocks_mk; apply => s p idx; rewrite inE => /eqP[-> ->] _ v.
have sz : size idx = size irr by rewrite (valid_size v) size_masked size_map.
by rewrite mul1r /RedPerm.act -sz map_nth_iota0 // take_size.
Qed.

Lemma Good_ss irr f b : Good irr f b -> exists2 b', (do b <- ia_sorted lt dim b; ia_simplify dim b) = Ok b' & Good irr f b'.
Proof.
case=> l [-> w hi hf].
have F : Full dim (triv (size irr)) irr f (mk l) by move=> T _; rewrite blocks_mk.
have := Indb_ss (lt := lt) w hi; have := Full_ss (lt := lt) w F; rewrite (ia_sortedE lt w) /=.
have [l' -> [w' _ _]] := simplifyP (wf_perm (Permutation_sym (sortb_perm lt l)) w) => /(_ _ erefl) F' /(_ _ erefl) I'.
by exists (mk l') => //; exists l'; split=> //; exact: Full_triv.
Qed.

Lemma init_ok irr i : (i < size irr)%N -> good_rep (nth rr0 irr i) ->
  exists2 b, init_basis dim (size irr) i (nth rr0 irr i) = Ok b & Good irr [:: i] b.
Proof.
move=> hi; set r := nth _ _ _ => -[d0 hq].
suff [l e w] : exists2 l, init_basis dim (size irr) i r = Ok (mk l) & wf dim (masked [:: i] (dims irr)) l.
  exists (mk l) => //; exists l; split=> //; first exact: Indb_init hi e.
  by apply: Full_triv; exact: Full_init hi e.
rewrite /init_basis -/(init_q dim r); set d := rdim dim r in d0 hq *.
have [q -> sq] : exists2 q, init_q dim r = Ok q & shape q = [:: d; d].
  rewrite /init_q; case: (r.2) hq => [Q [sQ uQ]|_]; last by eexists; [reflexivity|].
  by rewrite /np_inv sQ eqxx uQ /=; eexists; [reflexivity|].
cbn [rbind]; set ld := nseq i 1%N ++ d :: nseq (size irr - i - 1) 1%N.
have -> : masked [:: i] (dims irr) = ld by rewrite (@masked1 (size irr)) ?size_map // (nth_map rr0).
have -> : (nseq i 1%N ++ d :: nseq (size irr - i - 1) 1%N ++ [:: d])%SEQ = rcons ld d by rewrite /ld -cats1 -catA.
have nld : nprod ld = d by rewrite nprod_cat /= !nprod_nseq1 mul1n muln1.
have [x -> sx] := reshape_ok (a := q) (sh := rcons ld d) (ltac:(by rewrite -cats1 nprod_cat nld sq /= !muln1)).
cbn [rbind]; have ini : initdims x = ld by rewrite /initdims sx size_rcons /= -cats1 take_size_cat.
have las : lastdim x = d by rewrite /lastdim sx last_rcons.
have gen irs : forall c, (c + sumn [seq (m.1 * dim m.2)%N | m <- irs] <= d)%N ->
    exists l, [/\ init_blocks dim x c irs = Ok (map snd l), map fst l = irs & List.Forall (wfb dim ld) l].
  elim: irs => [|[m ir] irs IH] c hc /=; first by exists [::]; split=> //; constructor.
  rewrite /= in hc; set sl := slice_last _ _ _.
  have ssl : shape sl = rcons ld (m * dim ir)%N.
    by rewrite /sl /slice_last /= ini las; congr rcons; lia.
  have [y -> sy] := reshape_ok (a := sl) (sh := initdims x ++ [:: m; dim ir]) (ltac:(by rewrite ssl ini -cats1 !nprod_cat /= !muln1)).
  have [|l [-> e2 h]] := IH (c + m * dim ir)%N; first by lia.
  exists ((m, ir, y) :: l); split=> //=; [by rewrite e2 | constructor=> //; by rewrite /wfb /= sy ini].
have [|l [-> e2 h]] := gen r.1 0%N; first by rewrite add0n.
have wl : wf dim ld l.
  split=> //; rewrite -(size_map fst) e2; move: d0; rewrite /d /rdim; by case: (r.1).
by exists l => //; cbn [rbind]; rewrite -e2; apply: ia_new_wf wl.
Qed.

Lemma prod_one_total (irr : seq rrep) fa fb (p1 p2 : blk) ir cg z :
  wfb dim (masked fa (dims irr)) p1 -> wfb dim (masked fb (dims irr)) p2 ->
  cgL p1.1.2 p2.1.2 ir = Ok cg -> shape cg = [:: z; dim p1.1.2; dim p2.1.2; dim ir] ->
  exists2 q, prod_one dim cgL p1 p2 ir = Ok q & wfb dim (masked (fset_union fa fb) (dims irr)) q.
Proof.
move=> w1 w2 ecg ecs; have key q : prod_one dim cgL p1 p2 ir = Ok q -> wfb dim (masked (fset_union fa fb) (dims irr)) q.
  by move=> e; have [] := prod_one_cols w1 w2 ecg ecs e.
suff [q e] : exists q, prod_one dim cgL p1 p2 ir = Ok q by exists q => //; exact: key.
move: key; rewrite /prod_one ecg /= => _.
case: p1 p2 w1 w2 ecg ecs => -[m1 ir1] x1 [[m2 ir2] x2] /= w1 w2 ecg ecs.
rewrite /wfb /= in w1 w2.
have n2 (s : seq nat) x y : nth 0%N (s ++ [:: x; y]) (size s + 2 - 2) = x by rewrite addnK nth_cat ltnn subnn.
have n1 (s : seq nat) x y : nth 0%N (s ++ [:: x; y]) (size s + 2 - 1) = y.
  by rewrite addn2 subn1 nth_cat /= ltnNge leqnSn /= subSnn.
have l1 : lead x1 = masked fa (dims irr) by rewrite /lead w1 size_cat addnK take_size_cat.
have l2 : lead x2 = masked fb (dims irr) by rewrite /lead w2 size_cat addnK take_size_cat.
rewrite /einsum_prod l1 l2 w1 w2 !size_cat /= !n2 !n1 !(ltnNge _ 2) !leq_addl /= ecs !eqxx /=.
rewrite bshape_masked; cbn [rbind]; set ld := masked (fset_union fa fb) (dims irr).
set x := Nd _ _; have lz : len cg = z by rewrite /len ecs.
have -> : take (size (shape x) - 4) (shape x) = ld by rewrite /= size_cat addnK take_size_cat.
have [y -> _] := reshape_ok (a := x) (sh := ld ++ [:: (len cg * m1 * m2)%N; dim ir]) (ltac:(by rewrite lz /= !nprod_cat /= !muln1; lia)).
by eexists.
Qed.

Lemma mapR_total (S T : Type) (f : S -> res T) (P : T -> Prop) s : List.Forall (fun x => exists2 y, f x = Ok y & P y) s ->
  exists t, mapR f s = Ok t /\ List.Forall P t.
Proof.
elim=> [|x s' [y e h] _ [t [et ht]]] /=; first by exists [::]; split=> //; constructor.
by exists (y :: t); rewrite e /= et; split=> //; constructor.
Qed.

Lemma product_ok irr fa fb b1 b2 : uniq (fa ++ fb) -> all (fun i => (i < size irr)%N) (fa ++ fb) ->
  Good irr fa b1 -> Good irr fb b2 ->
  exists2 b, reduce_basis_product lt dim mulL cgL b1 b2 = Ok b & Good irr (fset_union fa fb) b.
Proof.
move=> un al [l1 [-> w1 i1 f1]] [l2 [-> w2 i2 f2]].
suff [l e w] : exists2 l, reduce_basis_product lt dim mulL cgL (mk l1) (mk l2) = Ok (mk l) & wf dim (masked (fset_union fa fb) (dims irr)) l.
  exists (mk l) => //; exists l; split=> //; first exact: (Indb_product hfull hcount un w1 w2 i1 i2 e).
  apply: Full_triv; apply: (Full_product hfull (triv_group _) un al w1 w2 _ _ e) => T _; by rewrite blocks_mk.
rewrite /reduce_basis_product (ia_sortedE lt w1) /=; have pm1 := Permutation_sym (sortb_perm lt l1).
have [k1 -> [wk1 _ _]] := simplifyP (wf_perm pm1 w1); cbn [rbind].
rewrite (ia_sortedE lt w2) /=; have pm2 := Permutation_sym (sortb_perm lt l2).
have [k2 -> [wk2 _ _]] := simplifyP (wf_perm pm2 w2); cbn [rbind]; rewrite !blocks_mk.
set ld := masked (fset_union fa fb) (dims irr); set prods := (fun pp : blk * blk => _).
have [ls [els hls]] : exists ls, mapR prods [seq (p1, p2) | p1 <- k1, p2 <- k2] = Ok ls /\ List.Forall (wf dim ld) ls.
  apply: mapR_total; apply: List.Forall_impl (Forall_pairs (proj2 wk1) (proj2 wk2)) => -[q1 q2] [/= wq1 wq2].
  rewrite /prods /=; have [irs em] := hmul q1.1.2 q2.1.2; rewrite em /=; have [zz [cg [hcg _]]] := hfull em.
  have irs0 : (0 < size irs)%N.
    have := hcount em (zz := zz) (fun ir hir => ex_intro _ (cg ir) (hcg ir hir)).
    have := dim_pos q1.1.2; have := dim_pos q2.1.2; case: (irs) => //=; nia.
  have [|t [et ht]] := @mapR_total _ _ (prod_one dim cgL q1 q2) (wfb dim ld) irs.
    apply/List.Forall_forall => ir hin; have [|ecg ecs] := hcg ir.
      by elim: (irs) hin => //= x s IH [->|/IH h]; rewrite inE ?eqxx // h orbT.
    exact: prod_one_total ecg ecs.
  by exists t => //; split=> //; rewrite (mapR_size et).
rewrite els; cbn [rbind]; have wl : wf dim ld (flatten ls).
  split; last by apply: Forall_flatten; apply: List.Forall_impl hls => l [].
  have ls0 : (0 < size ls)%N.
    rewrite (mapR_size els); have [+ _] := wk1; have [+ _] := wk2.
    by case: (k1) => // q1 s1; case: (k2).
  by case: (ls) ls0 hls => //= l s _ hls; have [h _] := List.Forall_inv hls; rewrite size_cat addn_gt0 h.
rewrite (ia_new_wf wl); cbn [rbind]; rewrite (ia_sortedE lt wl); cbn [rbind].
have [l -> [w _ _]] := simplifyP (wf_perm (Permutation_sym (sortb_perm lt _)) wl).
by exists l.
Qed.

Lemma reshape_good irr f sub b : pick_all irr f = Ok sub -> sorted ltn f -> all (fun i => (i < size irr)%N) f ->
  Good sub (iota 0 (size sub)) b ->
  exists2 b', ia_reshape dim b (masked f (dims irr)) None = Ok b' & Good irr f b'.
Proof.
move=> ep so bd [l [-> w hi hf]]; have [es _] := pick_all_nth rr0 ep.
have ed : dims sub = [seq nth 0%N (dims irr) i | i <- f].
  rewrite es -map_comp; apply/eq_in_map => i /(allP bd) hh /=; by rewrite (nth_map rr0).
have np : nprod (masked f (dims irr)) = nprod (dims sub).
  by rewrite /masked nprod_filter size_map -RtpEqv.sorted_filter // -ed.
have [l' e [w' e1]] : exists2 l', ia_reshape dim (mk l) (masked f (dims irr)) None = Ok (mk l') &
    wf dim (masked f (dims irr)) l' /\ map fst l' = map fst l.
  rewrite /ia_reshape -[zip _ _]/(blocks (mk l)) blocks_mk /=.
  have [l' [-> e1 h]] : exists l', [/\ mapR (fun p : blk => reshape p.2 (masked f (dims irr) ++ [:: p.1.1; dim p.1.2])) l = Ok (map snd l'),
      map fst l' = map fst l & List.Forall (wfb dim (masked f (dims irr))) l'].
    case: w => _; rewrite masked_dims; elim=> [|p s wp _ [t [et e1 ht]]] /=; first by exists [::]; split=> //; constructor.
    have [y ey sy] := reshape_ok (a := p.2) (sh := masked f (dims irr) ++ [:: p.1.1; dim p.1.2]) (ltac:(by rewrite wp !nprod_cat np)).
    by exists ((p.1, y) :: t); rewrite ey /= et e1; split=> //; constructor.
  cbn [rbind]; have w' : wf dim (masked f (dims irr)) l'.
    by split=> //; rewrite -(size_map fst) e1 size_map; case: w.
  by exists l' => //; rewrite -e1; apply: ia_new_wf w'.
exists (mk l') => //; exists l'; have hi' := Indb_reshape ep so bd w hi e; split=> // T.
move: (hi') => /ind_all; rewrite blocks_mk => h; apply: h; rewrite size_ents np.
have := ind_size (ld := dims sub) (gs := ents l); rewrite /RtpIndAll.Indb blocks_mk masked_dims in hi.
rewrite masked_dims in hf; move=> /(_ hi hf) <-; rewrite size_ents /tdim.
have em : forall s : seq blk, [seq (p.1.1 * dim p.1.2)%N | p <- s] = [seq (m.1 * dim m.2)%N | m <- map fst s] by move=> s; rewrite -map_comp.
by rewrite !em e1.
Qed.

(** The arguments that are not used. *)
Notation args := ((nd -> nd) * (nd -> res (nd * nd)) * C)%type.
Local Notation loop u := (rtp_loop lt dim mulL cgL u.1.1 u.1.2 u.2 ford).
Local Notation rtp u := (rtp lt dim mulL cgL u.1.1 u.1.2 u.2 ford).

Lemma loop_list (rec : args -> seq rrep -> seq sp -> res (irrarr C L)) (irr : seq rrep) : List.Forall good_rep irr ->
  (forall s, (0 < size s < size irr)%N -> List.Forall good_rep s ->
     exists2 b, forall u, rec u s (triv (size s)) = Ok b & Good s (iota 0 (size s)) b) ->
  forall fuel bases, part (size irr) (map fst bases) -> List.Forall (fun fb => Good irr fb.1 fb.2) bases ->
  (0 < size bases <= fuel)%N ->
  exists2 b, forall u, loop u (rec u) irr (triv (size irr)) fuel bases = Ok b & Good irr (iota 0 (size irr)) b.
Proof.
move=> hg hrec; set n := size irr in hrec *; elim=> [|fuel IH] bases pt hb /andP[s1 s2]; first by lia.
case: (size bases =P 1%N) => [e|e1].
  case: bases e hb pt {IH s1 s2} => [|[f b] [|]] //= _ hb [/=]; rewrite cats0 andbT => pe /andP[_ so].
  have ef := sorted_iota so pe; have /= h := List.Forall_inv hb; rewrite ef -/n in h *.
  have [b' eb h'] := Good_ss h; exists b' => // u; by rewrite /passert eqxx.
case: (size bases =P 2%N) => [e|e2].
  case: bases e hb pt {IH s1 s2 e1} => [|[fa b1] [|[fb b2] [|]]] //= _ hb [/= pe _].
  have /= h1 := List.Forall_inv hb; have /= h2 := List.Forall_inv (List.Forall_inv_tail hb).
  rewrite cats0 in pe; have un : uniq (fa ++ fb) by rewrite (perm_uniq pe) iota_uniq.
  have al : all (fun i => (i < n)%N) (fa ++ fb) by apply/allP => i; rewrite (perm_mem pe) mem_iota add0n.
  have fe : fset_union fa fb = iota 0 n.
    by apply: sorted_iota (fset_union_sorted _ _) _; apply: seq.perm_trans (fset_union_disj un) pe.
  have [c ec hc] := product_ok un al h1 h2; rewrite fe in hc.
  have [b' eb h'] := Good_ss hc; exists b' => // u; rewrite ec fe /= subrepr_triv ?iota_ltn_sorted //.
  by apply/allP => i; rewrite mem_iota add0n.
have s3' : (1 < size (map fst bases))%N by rewrite size_map; lia.
have [i [j [eg ij js _]]] := greedyP ford (triv n) (dims irr) s3'.
set f := fset_union _ _ in eg; have so : sorted ltn f by exact: fset_union_sorted.
have [pt' sf] := part_merge pt ij js.
have bd : all (fun i => (i < n)%N) f by apply: part_all pt' _; rewrite inE eqxx.
have E := @pick_all_ok _ rr0 irr f bd; set sub := map _ _ in E.
have ss : size sub = size f by rewrite size_map.
have hs : (0 < size sub < n)%N.
  rewrite ss; apply/andP; split; first by case: pt' => _ /= /andP[/andP[+ _] _]; rewrite -/f lt0n size_eq0.
  by rewrite sf; apply: part_lt => //; rewrite size_map; lia.
have hgs : List.Forall good_rep sub.
  rewrite /sub; elim: (f) bd => /= [|x t IHt]; first by constructor.
  case/andP => hx /IHt; constructor => //; exact: (proj1 (List.Forall_forall _ _) hg _ (nth_In _ hx)).
have [ab eab hab] := hrec sub hs hgs; have [ab' eab' hab'] := reshape_good E so bd hab.
rewrite size_map in js; have P := del2_perm ([::], IrrArr [::] [::]) ij js.
have [|||b eb hb'] := IH ((f, ab') :: del_at i (del_at j bases)).
- by rewrite map_fst_merge.
- by constructor=> //; exact: List.Forall_inv_tail (List.Forall_inv_tail (Permutation_Forall' P hb)).
- by move: (Permutation_size P) => /= sz; lia.
exists b => // u; rewrite loop_many //= eg ford_id // E /= subrepr_triv // -ss eab /= eab' /=; exact: eb.
Qed.

Theorem rtp_total fuel (irr : seq rrep) : (0 < size irr <= fuel)%N -> List.Forall good_rep irr ->
  exists2 b, forall u : args, rtp u fuel irr (triv (size irr)) = Ok b & Good irr (iota 0 (size irr)) b.
Proof.
elim: fuel irr => [|fuel IH] irr /andP[n0 hn] hg; first by lia.
have [bases eb hb] : exists2 bases, rtp_bases dim irr = Ok bases & List.Forall (fun fb => Good irr fb.1 fb.2) bases.
  suff [t [et ht]] : exists t, rtp_bases dim irr = Ok t /\ List.Forall (fun fb => Good irr fb.1 fb.2) t by exists t.
  apply: mapR_total; apply: (@nth_Forall' _ _ (0%N, rr0)) => i; rewrite size_zip size_iota minnn => hi.
  rewrite nth_zip ?size_iota //= nth_iota // add0n.
  have [|b e h] := @init_ok irr i hi; first exact: (proj1 (List.Forall_forall _ _) hg _ (nth_In _ hi)).
  by rewrite e; exists ([:: i], b).
have [pt sz] := rtp_bases_part eb.
have [||b e h] := @loop_list (fun u => rtp u fuel) irr hg _ fuel.+1 bases pt hb.
- by move=> s /andP[s0 hs] gs; apply: IH => //; rewrite s0 /=; lia.
- by rewrite sz n0.
by exists b => // u; rewrite /= /rtp_body eb /=; exact: e.
Qed.
End Total.
