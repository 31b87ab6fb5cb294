(** RtpIndAll: the columns of the basis computed by _reduced_tensor_product_basis (Rtp.v)
    are linearly independent: every step of the computation. *)
From Coq Require Import ZArith String Ascii List Permutation.
From mathcomp Require Import all_ssreflect all_algebra.
From mathcomp Require Import zify.
From Verif Require Import Base Nd NdProofs Reps RepOps Sl2c LinAlg BiProofs Properties_Bi.
From Verif Require Import Perm RedPerm RedPermBasis RedPermSub Rtp RtpArr RtpLoop RtpPres RtpEqv RtpStab RtpReal RtpSym RtpSymAll RtpCon RtpSpan RtpFull RtpFullCon RtpFullAll RtpInd.

Set Implicit Arguments.
Unset Strict Implicit.
Unset Printing Implicit Defensive.

Import Order.POrderTheory GRing.Theory Num.Theory.
Local Open Scope ring_scope.

Section Steps.
Variable C : numClosedFieldType.
Notation nd := (nd C).
Notation id_ := (fun x : nd => x).
Variable L : eqType.
Variable lt : rel L.
Variable dim : L -> nat.
Variable mulL : L -> L -> res (seq L).
Variable cgL : L -> L -> L -> res nd.
Notation mi := (nat * L)%type.
Notation blk := (mi * nd)%type.
Notation rrep := (seq mi * option nd)%type.
Notation zblk := (blk * (nat -> nat -> C))%type.
Notation dims irr := (map (rdim dim) irr).
Local Notation rr0 := (([::] : seq mi), (None : option nd)).
Local Notation ents := (ents dim).
Definition Indb (irr : seq rrep) f (b : irrarr C L) : Prop := ind (masked f (dims irr)) (ents (blocks b)).

Lemma Indb_ss irr f l b : wf dim (masked f (dims irr)) l -> Indb irr f (mk l) ->
  (do b <- ia_sorted lt dim (mk l); ia_simplify dim b) = Ok b -> Indb irr f b.
Proof.
move=> w; rewrite /Indb blocks_mk => h; rewrite (ia_sortedE lt w) /=; have pm := Permutation_sym (sortb_perm lt l).
have [l' -> [w' c _]] := simplifyP (wf_perm pm w); case=> <-; rewrite blocks_mk.
apply: ind_count h _ _ => [g hg|].
  by apply: spn_ceqs (ceqs_sym c) _; apply: spn_perm pm _; apply: spn_In.
have e : size (ents l') = size (ents (sortb lt l)).
  by have := ents_ceqs dim (ceqs_sym c); elim=> //= ? ? ? ? _ _ ->.
by rewrite e !size_ents (tdim_perm dim pm).
Qed.

Lemma Indb_init irr i b : (i < size irr)%N -> init_basis dim (size irr) i (nth rr0 irr i) = Ok b -> Indb irr [:: i] b.
Proof.
move=> hi eb; apply: ind_full => [T|].
  by apply: (Full_init (G := [::]) hi eb) => s p idx.
have -> : nprod (masked [:: i] (dims irr)) = rdim dim (nth rr0 irr i).
  by rewrite (@masked1 (size irr)) ?size_map // (nth_map rr0) // nprod_cat /= !nprod_nseq1 mul1n muln1.
move: eb; set r := nth _ _ _; rewrite /init_basis -/(init_q dim r); case: (init_q dim r) => [q|] //=.
case: (reshape _ _) => [x|] //=; case: (init_blocks _ _ _ _) => [xs|] //= en; have [-> sz _] := ia_new_inv en.
rewrite blocks_mk size_ents /rdim /tdim.
elim: (r.1) (xs) => [|m s IH] [|y ys] //=; by rewrite leq_add2l.
Qed.

(** The dimensions of the irreps of a product add up to the product of the dimensions. *)
Definition cg_count : Prop := forall i1 i2 irs (zz : L -> nat), mulL i1 i2 = Ok irs ->
  (forall ir, ir \in irs -> exists cg, cgL i1 i2 ir = Ok cg /\ shape cg = [:: zz ir; dim i1; dim i2; dim ir]) ->
  sumn [seq (zz ir * dim ir)%N | ir <- irs] = (dim i1 * dim i2)%N.
Hypothesis hfull : cg_full dim mulL cgL.
Hypothesis hcount : cg_count.

Lemma tdim_flatten (ls : seq (seq blk)) : tdim dim (flatten ls) = sumn [seq tdim dim l | l <- ls].
Proof. by elim: ls => //= l ls <-; rewrite /tdim map_cat sumn_cat. Qed.
Lemma bidx_comb1 fa ds i j : valid (masked fa ds) i -> bidx (masked fa ds) (comb (size ds) fa i j) = i.
Proof.
move=> /valid_nth[si hi]; rewrite size_masked in si hi.
have sc : size (comb (size ds) fa i j) = size (masked fa ds) by rewrite size_comb size_masked.
apply: (@eq_from_nth _ 0%N); rewrite size_bidx ?sc // size_masked // => x hx.
rewrite nth_bidx ?size_masked ?size_comb // nth_comb //; have := hi x hx; rewrite nth_masked //.
by case: (x \in fa) => /=; [case: eqP => // -> | ]; case: (nth _ i x).
Qed.
Lemma bidx_comb2 fa fb ds i j : {in fa, forall x, x \notin fb} -> valid (masked fb ds) j -> bidx (masked fb ds) (comb (size ds) fa i j) = j.
Proof.
move=> dj /valid_nth[sj hj]; rewrite size_masked in sj hj.
have sc : size (comb (size ds) fa i j) = size (masked fb ds) by rewrite size_comb size_masked.
apply: (@eq_from_nth _ 0%N); rewrite size_bidx ?sc // size_masked // => x hx.
rewrite nth_bidx ?size_masked ?size_comb // nth_comb //; have := hj x hx; rewrite nth_masked //.
case: (boolP (x \in fa)) => [/dj/negPf -> /=|_]; first by case: (nth _ j x).
by case: (x \in fb) => /=; [case: eqP => // -> | ]; case: (nth _ j x).
Qed.
Lemma Indb_product irr fa fb l1 l2 b : uniq (fa ++ fb) ->
  wf dim (masked fa (dims irr)) l1 -> wf dim (masked fb (dims irr)) l2 -> Indb irr fa (mk l1) -> Indb irr fb (mk l2) ->
  reduce_basis_product lt dim mulL cgL (mk l1) (mk l2) = Ok b -> Indb irr (fset_union fa fb) b.
Proof.
move=> un w1 w2 h1 h2; rewrite /reduce_basis_product.
have s1 := Indb_ss w1 h1; have s2 := Indb_ss w2 h2; move: s1 s2.
rewrite (ia_sortedE lt w1) /=; have pm1 := Permutation_sym (sortb_perm lt l1).
have [k1 -> [wk1 c1 _]] := simplifyP (wf_perm pm1 w1); cbn [rbind].
rewrite (ia_sortedE lt w2) /=; have pm2 := Permutation_sym (sortb_perm lt l2).
have [k2 -> [wk2 c2 _]] := simplifyP (wf_perm pm2 w2); cbn [rbind].
move=> /(_ _ erefl) g1 /(_ _ erefl) g2; rewrite /Indb !blocks_mk in g1 g2.
rewrite !blocks_mk; case el: (mapR _ _) => [ls|] //=; case en: (ia_new _ _ _) => [c|] //=.
have [ec sz [ld wl]] := ia_new_inv en; rewrite -/(blocks (mk (flatten ls))) blocks_mk in ec wl.
set f := fset_union fa fb.
have wL : wf dim (masked f (dims irr)) (flatten ls).
  split; first by case: wl.
  apply: Forall_flatten; apply: (mapR_Forall el (Forall_pairs (proj2 wk1) (proj2 wk2))) => -[q1 q2] t [/= wq1 wq2].
  case em: (mulL _ _) => [irs|] //= et; apply: (mapR_mem et) => ir q hir eq.
  have [zz [cg [hcg _]]] := hfull em; have [ecg ecs] := hcg ir hir.
  by have [] := prod_one_cols wq1 wq2 ecg ecs eq.
rewrite ec; apply: Indb_ss => //; rewrite /Indb blocks_mk.
have dj : {in fa, forall x, x \notin fb}.
  by move=> x hx; move: un; rewrite cat_uniq => /and3P[_ /hasPn h _]; apply/negP => /h /=; rewrite hx.
apply: (ind_count (ind_tensor (ld := masked f (dims irr)) (pa := bidx (masked fa (dims irr))) (pb := bidx (masked fb (dims irr))) g1 g2 _)).
- move=> i j vi vj; exists (comb (size (dims irr)) fa i j); first exact: valid_comb.
  by rewrite bidx_comb1 // bidx_comb2.
- move=> g /List.in_map_iff[t [<- ht]].
  have {}ht : (t < size (ents k1) * size (ents k2))%N by apply/In_iota.
  have n0 : (0 < size (ents k2))%N by case: (size (ents k2)) ht => //; rewrite muln0.
  by apply: (prod_pair_span hfull wk1 wk2 el); rewrite ?ltn_pmod // ltn_divLR.
rewrite size_mkseq !size_ents tdim_flatten.
have ht t q1 q2 : List.In q1 k1 -> List.In q2 k2 ->
    (do irs <- mulL q1.1.2 q2.1.2; mapR (prod_one dim cgL q1 q2) irs) = Ok t -> tdim dim t = (q1.1.1 * dim q1.1.2 * (q2.1.1 * dim q2.1.2))%N.
  move=> hq1 hq2; case em: (mulL _ _) => [irs|] //= et.
  have wq1 := proj1 (List.Forall_forall _ _) (proj2 wk1) _ hq1; have wq2 := proj1 (List.Forall_forall _ _) (proj2 wk2) _ hq2.
  have [zz [cg [hcg _]]] := hfull em.
  have e : tdim dim t = sumn [seq (zz ir * dim ir * (q1.1.1 * q2.1.1))%N | ir <- irs].
    have {}hcg ir : ir \in irs -> cgL q1.1.2 q2.1.2 ir = Ok (cg ir) /\ shape (cg ir) = [:: zz ir; dim q1.1.2; dim q2.1.2; dim ir] by exact: hcg.
    have h := mapR_Forall2 et; clear em et; elim: h hcg => [|ir q s t' eq _ IH] //= hcg.
    have [ecg ecs] := hcg ir (mem_head _ _); have [_ e1 _] := prod_one_cols wq1 wq2 ecg ecs eq.
    rewrite /tdim /= -/(tdim dim t') IH; last by move=> x hx; apply: hcg; rewrite inE hx orbT.
    by rewrite e1 /=; congr (_ + _)%N; lia.
  have := hcount em (zz := zz) (fun ir hir => ex_intro _ (cg ir) (hcg ir hir)).
  rewrite e; have -> : sumn [seq (zz ir * dim ir * (q1.1.1 * q2.1.1))%N | ir <- irs] = (sumn [seq (zz ir * dim ir)%N | ir <- irs] * (q1.1.1 * q2.1.1))%N.
    by elim: (irs) => //= x s ->; rewrite mulnDl.
  by move=> ->; lia.
apply: eq_leq.
have e1 : sumn [seq tdim dim l | l <- ls] = sumn [seq (pp.1.1.1 * dim pp.1.1.2 * (pp.2.1.1 * dim pp.2.1.2))%N | pp <- [seq (p1, p2) | p1 <- k1, p2 <- k2]].
  have : forall pp, List.In pp [seq (p1, p2) | p1 <- k1, p2 <- k2] -> List.In pp.1 k1 /\ List.In pp.2 k2.
    elim: (k1) => //= q1 s IH pp /List.in_app_iff[/List.in_map_iff[q2 [<- h]]|/IH[? ?]]; split=> //; by [left | right].
  move: (mapR_Forall2 el); elim=> [|pp t s t' et _ IH] //= hin.
  have [i1 i2] := hin pp (or_introl erefl); rewrite (ht _ _ _ i1 i2 et) IH // => x hx; apply: hin; by right.
rewrite e1 /tdim; elim: (k1) => //= q1 s IH; rewrite map_cat sumn_cat IH mulnDl; congr (_ + _)%N.
by elim: (k2) => /= [|q2 s' IH']; rewrite ?muln0 // IH' mulnDr.
Qed.
End Steps.

Lemma map_expd n f y : uniq f -> all (fun i => (i < n)%N) f -> size y = size f -> [seq nth 0%N (expd n f y) i | i <- f] = y.
Proof.
move=> uf al sy; apply: (@eq_from_nth _ 0%N); rewrite size_map // => j hj.
have fi : nth 0%N f j \in f by rewrite mem_nth.
by rewrite (nth_map 0%N) // nth_expd ?(allP al _ fi) // fi index_uniq.
Qed.

Section Con.
Variable C : numClosedFieldType.
Notation nd := (nd C).
Variable L : eqType.
Variable dim : L -> nat.
Notation mi := (nat * L)%type.
Notation blk := (mi * nd)%type.
Notation zblk := (blk * (nat -> nat -> C))%type.
(** A combination of the blocks that are returned, as a combination of the given blocks. *)
Lemma con_zl ld k (perm : nd) (l : seq blk) ls : List.Forall2 (fun q t => con_block dim ld q.1.1 q.1.2 q.2 perm k t) l ls ->
  forall zl' : seq zblk, map fst zl' = flatten ls -> exists zl : seq zblk, [/\ map fst zl = l,
    forall idx, valid ld idx -> TT dim zl idx = TT dim zl' idx & zcoef dim zl -> zcoef dim zl'].
Proof.
elim=> [|q t l' ls' [v [P [y [es sy gy hP _]]]] _ IH] zl' /=; first by case: zl' => // _; exists [::].
rewrite es; case: (posnP v) => [v0|v0] /=.
  move=> /IH[zl [e1 e2 e3]]; exists ((q, fun _ _ => 0) :: zl); split; first by rewrite /= e1.
    move=> idx vi; rewrite TT_cons e2 // big1 ?add0r // => u _; rewrite big1 // => j _; by rewrite mul0r.
  by move=> h; apply: e3 => p hp; apply: h; right.
case: zl' => // -[q' z] zl' /= [-> /IH[zl [e1 e2 e3]]].
exists ((q, fun u j => \sum_(c < v) z c j * P c u) :: zl); split; first by rewrite /= e1.
  move=> idx vi; rewrite !TT_cons e2 //=; congr (_ + _).
  rewrite [RHS]exchange_big [LHS]exchange_big /=; apply: eq_bigr => j _.
  under [RHS]eq_bigr => c _ do rewrite gy //  mulr_sumr.
  rewrite [RHS]exchange_big /=; apply: eq_bigr => u _; rewrite mulr_suml; apply: eq_bigr => c _; by rewrite mulrA.
move=> h p [<-|hp] u j /= hu hj; last by apply: e3 hp _ _ hu hj => p' hp'; apply: h; right.
apply: (hP (fun c => z c j) _ u hu) => w hw; exact: (h _ (or_introl erefl) w j hw hj).
Qed.
End Con.

Section Main.
Variable C : numClosedFieldType.
Notation nd := (nd C).
Notation id_ := (fun x : nd => x).
Variable L : eqType.
Variable lt : rel L.
Variable dim : L -> nat.
Hypothesis dim_pos : forall ir, (0 < dim ir)%N.
Variable mulL : L -> L -> res (seq L).
Variable cgL : L -> L -> L -> res nd.
Variable eigh : nd -> res (nd * nd).
Hypothesis eighP : eigh_correct_real eigh.
Variable ford : seq nat -> seq nat.
Hypothesis ford_perm : forall f, perm_eq (ford f) f.
Hypothesis ford_id : forall f, sorted ltn f -> ford f = f.
Notation mi := (nat * L)%type.
Notation blk := (mi * nd)%type.
Notation rrep := (seq mi * option nd)%type.
Notation dims irr := (map (rdim dim) irr).
Local Notation rr0 := (([::] : seq mi), (None : option nd)).
Local Notation loop := (rtp_loop lt dim mulL cgL id_ eigh).
Local Notation rtp := (rtp lt dim mulL cgL id_ eigh).
Local Notation Inv := (Inv dim).
Hypothesis hfull : cg_full dim mulL cgL.
Hypothesis hcount : cg_count dim mulL cgL.
Hypothesis hreal : cgs dim mulL cgL (cg_real dim).
Local Notation Pr := (Pr dim).
Local Notation Indb := (@Indb C L dim).

Let prx := @Pr_ext C L dim.
Let prl := @Pr_lin C L dim.
Let pri := @Pr_init C L dim.
Let prb := Pr_bi (dim := dim) eighP.

Lemma Indb_reshape irr f sub l b' : pick_all irr f = Ok sub -> sorted ltn f ->
  all (fun i => (i < size irr)%N) f -> wf dim (masked (iota 0 (size sub)) (dims sub)) l -> Indb sub (iota 0 (size sub)) (mk l) ->
  ia_reshape dim (mk l) (masked f (dims irr)) None = Ok b' -> Indb irr f b'.
Proof.
move=> ep so bd [_ w]; rewrite /Indb blocks_mk masked_dims => hi; set n := size irr in bd *.
have [es _] := pick_all_nth rr0 ep.
have bd' : all (fun i => (i < size (dims irr))%N) f by apply/allP => i /(allP bd) hh; rewrite size_map.
have ed : dims sub = [seq nth 0%N (dims irr) i | i <- f].
  rewrite es -map_comp; apply/eq_in_map => i /(allP bd) hh /=; by rewrite (nth_map rr0).
have uf : uniq f by apply: sorted_uniq so; [exact: ltn_trans | exact: ltnn].
have sd : size (dims irr) = n by rewrite size_map.
rewrite masked_dims in w; rewrite /ia_reshape -[zip _ _]/(blocks (mk l)) blocks_mk /=; case em: (mapR _ _) => [xs|] //= en.
have [-> sz _] := ia_new_inv en; rewrite /blocks /= ?blocks_mk.
have -> : zip [seq i.1 | i <- zip [seq i.1 | i <- l] xs] [seq i.2 | i <- zip [seq i.1 | i <- l] xs] = zip [seq i.1 | i <- l] xs.
  by rewrite -/(unzip1 _) -/(unzip2 _) zip_unzip.
set gs := ents dim _.
have vex y : valid (dims sub) y -> valid (masked f (dims irr)) (expd n f y) by move=> vy; apply: valid_expd => //; rewrite -ed.
have : ind (dims sub) [seq (fun y => g (expd n f y)) | g <- gs].
  apply: ind_count hi _ _ => [g /In_entsP[q [u [k [hq hu hk ->]]]]|]; last first.
    rewrite size_map /gs !size_ents /tdim; elim: (l) (xs) => [|q s IH] [|y ys] //=; by rewrite leq_add2l.
  have [y [hy ey]] := In_zip fst (mapR_Forall2 em) hq.
  have wq := proj1 (List.Forall_forall _ _) w _ hq; rewrite /wfb in wq.
  apply: (@spn_ext _ _ _ ((fun g : seq nat -> C => fun y => g (expd n f y)) (fun idx => get y (idx ++ [:: u; k])))).
    move=> i vi /=; have [sy np] := reshape_shape ey; have v := vex i vi.
    apply: (reshape_eq ey); first by rewrite wq valid_cat ?(valid_size vi) // vi valid2 hu.
    rewrite wq !ravel_cat ?(valid_size v) ?(valid_size vi) //; congr (_ * _ + _)%N.
    have hl : (ravel (masked f (dims irr)) (expd n f i) < nprod (dims sub))%N.
      by move: (ravel_lt v); rewrite {2}/masked nprod_filter sd -sorted_filter // -ed.
    have si : size i = size f by rewrite (valid_size vi) ed size_map.
    by rewrite -[in RHS](map_expd uf bd si) -(unravel_masked so bd' v) -ed unravelK.
  apply: spn_In; apply/List.in_map_iff; exists (fun idx => get y (idx ++ [:: u; k])); split=> //.
  by apply/In_entsP; exists (q.1, y), u, k.
move=> h z hz i hgi; apply: (h z); rewrite size_map // => y vy; have e0 := hz _ (vex _ vy); rewrite -[RHS]e0.
by apply: eq_bigr => j _; rewrite (nth_map (fun=> 0)).
Qed.

Section Group.
Variables (irr : seq rrep) (G : seq sp).
Local Notation n := (size irr).
Hypothesis rl : reals dim irr.
Hypothesis GG : signed_group n G.
Hypothesis cst : forall s p i, (s, p) \in G -> (i < n)%N -> nth rr0 irr (nth 0%N p i) = nth rr0 irr i.

Lemma constrain_ind l pb : size (subrepr_permutation (iota 0 n) G) <> 1%N ->
  subgroup_perm C ford (iota 0 n) G (dims irr) = Ok pb -> Inv Pr irr (iota 0 n) (mk l) ->
  Indb irr (iota 0 n) (mk l) ->
  ev (fun e => forall b, constrain dim id_ eigh e (mk l) pb = Ok b -> Indb irr (iota 0 n) b).
Proof.
move=> n1 eS [l0 [el [_ w] /Pcs_cols hl]] hi.
have {}el : l0 = l by rewrite -(blocks_mk l) el blocks_mk.
subst l0; rewrite /constrain blocks_mk; rewrite /Indb blocks_mk masked_dims in hi.
case: (passert _) => [_|?] /=; last by apply: ev_true.
case ef: (flat2 pb) => [perm|] /=; last by apply: ev_true.
have m0P e (q : blk) t : constrain_one id_ eigh e perm q = Ok t -> (0 < q.1.1)%N.
  rewrite /constrain_one; case: (at_last0 _) => [R|] //=; by case: posnP.
case: (posnP (nprod (dims irr))) => [nz|nz].
  apply: ev_true => e _ b; case els: (mapR _ _) => [ls|] //=.
  have l0 : l = [::].
    case: (l) hi els => //= q s hi; case eq: (constrain_one _ _ _ _ _) => [t|] //= _.
    have hq := m0P _ _ _ eq; have := hi (fun=> 1) _ 0%N; rewrite size_ents /tdim /= addn_gt0 muln_gt0 hq dim_pos => h.
    have /eqP := h (fun idx v => ltac:(by have := ravel_lt v; rewrite nz)) isT; by rewrite oner_eq0.
  by move: els; rewrite l0 /= => -[<-] /ia_new_inv[-> _ _] z _ i.
have rp : allreal perm by apply: flat2_real ef; exact: subgroup_perm_real eS.
have sz : size (dims irr) = n by rewrite size_map.
have := @perm_basis_ok C ford ford_id G (dims irr); rewrite sz => /(_ GG _ n1 nz); case=> [|k [pb' [[eS' _ _ hk] _]]].
  by move=> s p i hp hi'; exact: (cst_dims dim GG cst hp hi').
have {eS'} epb : pb' = pb by move: eS'; rewrite eS => -[].
subst pb'; have {hk} [sp _ hk] := hk _ ef.
have pq q : List.In q l -> Pcs Pr irr (iota 0 n) (bcols q) by move=> hq; exact: (proj1 (List.Forall_forall _ _) hl _ hq).
have hb q : List.In q l -> ev (fun e => forall t, constrain_one id_ eigh e perm q = Ok t ->
    con_block dim (dims irr) q.1.1 q.1.2 q.2 perm k t).
  move=> hq; have wq := proj1 (List.Forall_forall _ _) w _ hq; rewrite masked_dims in wq.
  have [m0|m0] := posnP q.1.1; first by apply: ev_true => e _ t /m0P; rewrite m0.
  move: wq m0 (pq q hq); case: q {hq} => -[m ir] x wq m0 pqq.
  apply: ev_imp (constrain_one_span eighP wq m0 (dim_pos ir) _ rp sp); first by move=> e _ [_ h] t et; exact: h.
  move=> idx u vi hu; have h := bcols_Pcs pqq hu; apply: (h (iota_lt n) rl idx 0%N) => //.
  by rewrite masked_dims.
apply: ev_imp (ev_forall hb) => e _ he b; case els: (mapR _ _) => [ls|] //= /ia_new_inv[-> _ _].
rewrite /Indb -/(blocks (mk (flatten ls))) !blocks_mk masked_dims; apply/ind_TT => zl' ezl hz.
have fa : List.Forall2 (fun q t => con_block dim (dims irr) q.1.1 q.1.2 q.2 perm k t) l ls.
  have := mapR_Forall2 els; move: he; elim: (l) (ls) => [|q s IH] t he h2; inversion h2; subst; constructor.
    exact: (List.Forall_inv he).
  by apply: IH => //; exact: List.Forall_inv_tail he.
have [zl [e1 e2 e3]] := con_zl fa ezl; apply: e3; apply: (proj1 (ind_TT _ _ _) hi) e1 _ => idx v.
by rewrite e2 // hz.
Qed.

Lemma loop_ind (rec : C -> seq rrep -> seq sp -> res (irrarr C L)) :
  (forall s g, evc (fun e => rec e s g)) ->
  (forall e s g c, 0 < e -> (size s < n)%N -> rec e s g = Ok c -> Inv Pr s (iota 0 (size s)) c) ->
  (forall s g, (size s < n)%N -> sub_ok dim s g -> ev (fun e => forall c, rec e s g = Ok c -> Indb s (iota 0 (size s)) c)) ->
  forall fuel bases, part n (map fst bases) -> List.Forall (fun fb => Inv Pr irr fb.1 fb.2) bases ->
  List.Forall (fun fb => Indb irr fb.1 fb.2) bases -> (1 < size bases)%N ->
  ev (fun e => forall b, loop e ford (rec e) irr G fuel bases = Ok b -> Indb irr (iota 0 n) b).
Proof.
move=> hev hrec hrecF; elim=> [|fuel IH] bases pt hb hF s1; first by apply: ev_true.
case: (size bases =P 2%N) => [e|e2].
  case: bases e hb hF pt {IH s1} => [|[fa b1] [|[fb b2] [|]]] //= _ hb hF [/= pe _].
  have /= h1 := List.Forall_inv hb; have /= h2 := List.Forall_inv (List.Forall_inv_tail hb).
  have /= F1 := List.Forall_inv hF; have /= F2 := List.Forall_inv (List.Forall_inv_tail hF).
  rewrite cats0 in pe; have un : uniq (fa ++ fb) by rewrite (perm_uniq pe) iota_uniq.
  have al : all (fun i => (i < n)%N) (fa ++ fb) by apply/allP => i; rewrite (perm_mem pe) mem_iota add0n.
  have fe : fset_union fa fb = iota 0 n.
    by apply: sorted_iota (fset_union_sorted _ _) _; apply: seq.perm_trans (fset_union_disj un) pe.
  rewrite fe; case ep: (reduce_basis_product _ _ _ _ _ _) => [c|] /=; last by apply: ev_true.
  have hc : Inv Pr irr (iota 0 n) c.
    by rewrite -fe; apply: (Inv_product _ _ _ un al h1 h2 ep); [exact: prx | exact: prl | exact: (Pr_prod hreal)].
  have Fc : Indb irr (iota 0 n) c.
    move: h1 h2 F1 F2 ep => [l1 [-> w1 _]] [l2 [-> w2 _]] F1 F2 ep; rewrite -fe.
    exact: (Indb_product hfull hcount un w1 w2 F1 F2 ep).
  case: eqP => [u1|u1].
    apply: ev_true => e _ b eb; move: hc Fc eb => [l [-> w _]] Fc eb; exact: Indb_ss w Fc eb.
  case eS: (subgroup_perm _ _ _ _ _) => [p|] /=; last by apply: ev_true.
  have [l [el _ _]] := hc; subst c.
  apply: ev_imp (constrain_ind u1 eS hc Fc) => e e0 h b.
  case ec: (constrain _ _ _ _ _ _) => [c'|] //= eb.
  have hpb : allreal p := subgroup_perm_real eS.
  have := Inv_constrain prx (prb (eps := e)) prl hpb hc ec => -[l' [el' w' _]].
  have Fc' := h _ ec; subst c'; exact: Indb_ss w' Fc' eb.
have s3 : (2 < size bases)%N by rewrite ltn_neqAle eq_sym s1 andbT; apply/eqP.
have e1 : size bases <> 1%N by lia.
have s3' : (1 < size (map fst bases))%N by rewrite size_map.
have [i [j [eg ij js _]]] := greedyP ford G (dims irr) s3'.
set f := fset_union _ _ in eg.
suff : ev (fun e => forall b, (do sub <- pick_all irr (ford f); do ab <- rec e sub (subrepr_permutation f G);
        do ab <- ia_reshape dim ab (masked f (dims irr)) None;
        loop e ford (rec e) irr G fuel ((f, ab) :: del_at i (del_at j bases))) = Ok b -> Indb irr (iota 0 n) b).
  by apply: ev_imp => e _ h b; rewrite loop_many //= eg; apply: h.
case E: (pick_all _ _) => [sub|] /=; last by apply: ev_true.
have [pt' sf] := part_merge pt ij js.
have h : (size sub < n)%N.
  rewrite (pick_all_size E) (perm_size (ford_perm _)) sf; apply: part_lt => //; rewrite size_map; lia.
have bd : all (fun i => (i < n)%N) f by apply: part_all pt' _; rewrite inE eqxx.
have E' : pick_all irr f = Ok sub by rewrite -E ford_id //; exact: fset_union_sorted.
have sok := pick_sub_ok rl GG cst E' (fset_union_sorted _ _) bd.
have [r hr] := hev sub (subrepr_permutation f G).
case: r hr => [ab|er] hr; last by apply: ev_imp hr => e _ -> .
have [hab Fab] : Inv Pr sub (iota 0 (size sub)) ab /\ Indb sub (iota 0 (size sub)) ab.
  case: (ev_and hr (hrecF _ _ h sok)) => e0 p0 hr'; have [e [p1 p2]] : exists e : C, 0 < e /\ e < e0.
    by exists (e0 / 2%:R); rewrite divr_gt0 ?ltr0n // gtr_pmulr // invf_lt1 ?ltr0n // ltr1n.
  have [er eF] := hr' e p1 p2; split; [exact: hrec p1 h er | exact: eF].
case es: (ia_reshape dim ab (masked f (dims irr)) None) => [ab'|]; last first.
  by apply: ev_imp hr => e _ -> b /=; rewrite es.
rewrite size_map in js; have P := del2_perm ([::], IrrArr [::] [::]) ij js.
have := IH ((f, ab') :: del_at i (del_at j bases)); case.
- by rewrite map_fst_merge.
- constructor; last exact: List.Forall_inv_tail (List.Forall_inv_tail (Permutation_Forall' P hb)).
  apply: (Inv_reshape _ _ E (fset_union_sorted _ _) _ hab es); [exact: prx | exact: (Pr_sub ford_id) | exact: bd].
- constructor; last exact: List.Forall_inv_tail (List.Forall_inv_tail (Permutation_Forall' P hF)).
  move: hab Fab es => [l [-> w _]] Fab es; exact: (Indb_reshape E' (fset_union_sorted _ _) bd w Fab es).
- by move: (Permutation_size P) => /= sz; rewrite /=; lia.
move=> e0 p0 h0; have hh : ev (fun e => forall b, loop e ford (rec e) irr G fuel ((f, ab') :: del_at i (del_at j bases)) = Ok b -> Indb irr (iota 0 n) b) by exists e0.
by apply: ev_imp (ev_and hr hh) => e _ [-> h1] b /=; rewrite es; apply: h1.
Qed.
End Group.

Lemma Indb_bases (irr : seq rrep) bases : rtp_bases dim irr = Ok bases -> List.Forall (fun fb => Indb irr fb.1 fb.2) bases.
Proof.
move=> h; apply: (mapR_Forall (P := fun p => (p.1 < size irr)%N /\ nth rr0 irr p.1 = p.2) h).
  apply: (@nth_Forall' _ _ (0%N, rr0)) => i; rewrite size_zip size_iota minnn => hi.
  by rewrite nth_zip ?size_iota //= nth_iota.
move=> [i r] fb [/= hi <-]; case e: (init_basis _ _ _ _) => [b|] //= [<-] /=; exact: Indb_init e.
Qed.
Theorem rtp_ind fuel (irr : seq rrep) G : sub_ok dim irr G ->
  ev (fun e => forall b, rtp e ford fuel irr G = Ok b -> Indb irr (iota 0 (size irr)) b).
Proof.
elim: fuel irr G => [|fuel IH] irr G [rl GG cst]; first by apply: ev_true.
rewrite [fun e => _]/=; rewrite /rtp_body.
case eb: (rtp_bases _ _) => [bases|]; cbn [rbind]; last by apply: ev_true.
have [pt sz] := rtp_bases_part eb.
have hb : List.Forall (fun fb => Inv Pr irr fb.1 fb.2) bases by exact: (Inv_bases prx pri eb).
have hF := Indb_bases eb.
case: (ltnP 1 (size irr)) => [n2|n1].
  apply: (@loop_ind irr G rl GG cst (fun e => rtp e ford fuel)) => //; last by rewrite sz.
  - by move=> s g; apply: evc_rtp.
  - move=> e s g c e0 hs er.
    exact: (Inv_rtp ford_perm prx (fun _ _ _ _ => @subgroup_perm_real _ _ _ _ _ _) (prb (eps := e)) prl pri (Pr_prod hreal) (Pr_sub ford_id) er).
  - by move=> s g _; apply: IH.
apply: ev_true => e _ b; case: bases sz pt hb hF {eb} => [|[f b1] [|x bs]] sz _ hb hF; last by move: n1; rewrite -sz.
  by rewrite /rtp_loop /= /greedy.
rewrite /= /passert; case: eqP => //= ef es.
have [l [el w _]] := List.Forall_inv hb; have /= F := List.Forall_inv hF; rewrite /= in el w; subst b1; rewrite -ef.
exact: Indb_ss w F es.
Qed.
End Main.
