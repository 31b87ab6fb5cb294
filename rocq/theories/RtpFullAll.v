(** RtpFullAll: the basis returned by _reduced_tensor_product_basis (Rtp.v) spans all the
    tensors that have the symmetry of the group. *)
From Coq Require Import ZArith String Ascii List Permutation.
From mathcomp Require Import all_ssreflect all_algebra.
From mathcomp Require Import zify.
From Verif Require Import Base Nd NdProofs Reps RepOps Sl2c LinAlg BiProofs.
From Verif Require Import Perm RedPerm RedPermBasis RedPermSub Rtp RtpArr RtpLoop RtpPres RtpEqv RtpStab RtpReal RtpSym RtpSymAll RtpCon RtpSpan RtpFull RtpFullCon.

Set Implicit Arguments.
Unset Strict Implicit.
Unset Printing Implicit Defensive.

Import Order.POrderTheory GRing.Theory Num.Theory.
Local Open Scope ring_scope.
Local Notation actp := RedPerm.act.

Lemma spn_pull (C : numClosedFieldType) ld ld' (gs gs' : seq (seq nat -> C)) (phi : seq nat -> seq nat) T :
  (forall idx, valid ld' idx -> valid ld (phi idx)) -> (forall g, List.In g gs -> spn ld' gs' (fun idx => g (phi idx))) ->
  spn ld gs T -> spn ld' gs' (fun idx => T (phi idx)).
Proof.
move=> hv hg [z hz]; apply: (@spn_ext _ _ _ (fun idx => \sum_(i < size gs) z i * nth (fun=> 0) gs i (phi idx))).
  by move=> idx v; rewrite hz //; exact: hv.
by apply: spn_sum => i; apply: hg; apply: nth_In.
Qed.

(** The index with the entries of y at the positions f. *)
Definition expd (n : nat) (f y : seq nat) : seq nat := [seq if x \in f then nth 0%N y (index x f) else 0%N | x <- iota 0 n].
Lemma nth_expd n f y x : (x < n)%N -> nth 0%N (expd n f y) x = if x \in f then nth 0%N y (index x f) else 0%N.
Proof. by move=> h; rewrite (nth_map 0%N) ?size_iota // nth_iota. Qed.
Lemma size_expd n f y : size (expd n f y) = n. Proof. by rewrite size_map size_iota. Qed.
Lemma expd_map n f ds idx : size ds = n -> valid (masked f ds) idx -> expd n f [seq nth 0%N idx i | i <- f] = idx.
Proof.
move=> sd /valid_nth[si hi]; rewrite size_masked sd in si hi.
apply: (@eq_from_nth _ 0%N); rewrite size_expd // => x hx; rewrite nth_expd //.
case: (boolP (x \in f)) => hf; first by rewrite (nth_map 0%N) ?index_mem // nth_index.
by have := hi x hx; rewrite nth_masked ?sd // (negPf hf); case: (nth _ _ _).
Qed.
Lemma valid_expd n f ds y : size ds = n -> uniq f -> valid [seq nth 0%N ds i | i <- f] y -> valid (masked f ds) (expd n f y).
Proof.
move=> sd uf /valid_nth[sy hy]; rewrite size_map in sy hy.
apply/valid_nth; rewrite size_expd size_masked; split=> // x hx; rewrite nth_expd -?sd // nth_masked //.
case: (boolP (x \in f)) => hf //; have := hy (index x f); rewrite index_mem => /(_ hf).
by rewrite (nth_map 0%N) ?index_mem // nth_index.
Qed.
Lemma actp_expd n f y p q : sorted ltn f -> all (fun i => (i < n)%N) f -> perm_eq p (iota 0 n) -> RedPermSub.fixes n f p -> restricts f p q ->
  expd n f (actp y q) = actp (expd n f y) p.
Proof.
move=> so al pe fx [sq aq rs]; have sp : size p = n by rewrite (perm_size pe) size_iota.
have uf : uniq f by apply: sorted_uniq so; [exact: ltn_trans | exact: ltnn].
have es : sort leq f = f by apply: sorted_sort; [exact: leq_trans | move: so; rewrite ltn_sorted_uniq_leq => /andP[]].
apply: (@eq_from_nth _ 0%N); rewrite ?size_expd /RedPerm.act ?size_map ?sp // => x hx.
rewrite (nth_map 0%N) ?sp // !nth_expd ?(permeq_nth_lt pe hx) // (RedPermSub.fixes_sub pe fx hx).
case: (boolP (x \in f)) => hf //; have hi : (index x f < size f)%N by rewrite index_mem.
rewrite (nth_map 0%N) ?sq //; have := rs _ hi; rewrite es nth_index // => <-.
rewrite index_uniq //; have := allP aq (nth 0%N q (index x f)); apply; by rewrite mem_nth ?sq.
Qed.

Section Main.
Variable C : numClosedFieldType.
Notation nd := (nd C).
Notation id_ := (fun x : nd => x).
Variable L : eqType.
Variable lt : rel L.
Hypothesis lt_irr : irreflexive lt.
Hypothesis lt_tr : transitive lt.
Hypothesis lt_tot : forall a b, [|| a == b, lt a b | lt b a].
Variable dim : L -> nat.
Variable mulL : L -> L -> res (seq L).
Variable cgL : L -> L -> L -> res nd.
Variable eigh : nd -> res (nd * nd).
Hypothesis eighP : eigh_correct_real eigh.
Variable ford : seq nat -> seq nat.
Hypothesis ford_perm : forall f, perm_eq (ford f) f.
Hypothesis ford_id : forall f, sorted ltn f -> ford f = f.
Notation mi := (nat * L)%type.
Notation blk := (mi * nd)%type.
Notation rrep := (seq mi * option nd)%type.
Notation dims irr := (map (rdim dim) irr).
Local Notation rr0 := (([::] : seq mi), (None : option nd)).
Local Notation loop := (rtp_loop lt dim mulL cgL id_ eigh).
Local Notation rtp := (rtp lt dim mulL cgL id_ eigh).
Local Notation Inv := (Inv dim).
Variables (I J : Type) (Yc : I -> L -> nat -> nat -> C) (Yd : J -> L -> nat -> nat -> C).
Hypothesis dn : dense dim (YY Yc Yd).
Hypothesis hfull : cg_full dim mulL cgL.
Hypothesis hreal : cgs dim mulL cgL (cg_real dim).
Hypothesis hcc : forall t, cgs dim mulL cgL (cg_eqv dim (Yc t)).
Hypothesis hcd : forall t, cgs dim mulL cgL (cg_eqvH dim (Yd t)).
Local Notation Pq := (Pq dim Yc Yd).
Local Notation Xc := (fun t => gen_of dim (Yc t)).
Local Notation Xd := (fun t => gen_of dim (Yd t)).
Local Notation Full := (Full dim).

(** ** Pq is kept *)
Lemma Pq_ext irr f ir g g' : (forall idx k, valid (masked f (dims irr)) idx -> (k < dim ir)%N -> g idx k = g' idx k) ->
  Pq irr f ir g -> Pq irr f ir g'.
Proof.
move=> he [h1 h2 h3]; split; first exact: Pr_ext h1.
  by move=> bd t; apply: eqv_ext (h2 bd t).
by move=> bd t; apply: eqvH_ext (h3 bd t).
Qed.
Lemma Pq_lin irr f ir n (a : 'I_n -> C) g : (forall w, Ar dim irr f (a w)) -> (forall w, Pq irr f ir (g w)) ->
  Pq irr f ir (fun idx k => \sum_(w < n) a w * g w idx k).
Proof.
move=> ha hg; split; first by apply: Pr_lin => // w; case: (hg w).
  by move=> bd t; apply: eqv_lin => w; case: (hg w) => _ h _; apply: h.
by move=> bd t; apply: eqvH_lin => w; case: (hg w) => _ _ h; apply: h.
Qed.
Lemma Pq_init irr i r q s1 m ir s2 u : (i < size irr)%N -> nth rr0 irr i = r -> init_q dim r = Ok q ->
  shape q = [:: rdim dim r; rdim dim r] -> r.1 = s1 ++ (m, ir) :: s2 -> (u < m)%N ->
  Pq irr [:: i] ir (fun idx k => get q [:: nth 0%N idx i; (sumn [seq (p.1 * dim p.2)%N | p <- s1] + u * dim ir + k)%N]).
Proof.
move=> hi er eq sq e1 hu; split; first exact: Pr_init eq sq e1 hu.
  by move=> _ t; apply: eqv_init eq sq e1 hu.
by move=> _ t; apply: eqvH_init eq sq e1 hu.
Qed.
Lemma Pq_prod irr fa fb ir1 ir2 irs ir cg z w g1 g2 : uniq (fa ++ fb) -> all (fun i => (i < size irr)%N) (fa ++ fb) ->
  mulL ir1 ir2 = Ok irs -> ir \in irs -> cgL ir1 ir2 ir = Ok cg -> shape cg = [:: z; dim ir1; dim ir2; dim ir] -> (w < z)%N ->
  Pq irr fa ir1 g1 -> Pq irr fb ir2 g2 ->
  Pq irr (fset_union fa fb) ir (fun idx k => \sum_(i < dim ir1) \sum_(j < dim ir2)
     g1 (bidx (masked fa (dims irr)) idx) i * g2 (bidx (masked fb (dims irr)) idx) j * get cg [:: w; i : nat; j : nat; k]).
Proof.
move=> un bd em hi ec es hw [a1 a2 a3] [b1 b2 b3]; move: (bd); rewrite all_cat => /andP[ba bb]; split.
- exact: (Pr_prod hreal un bd em hi ec es hw a1 b1).
- by move=> _ t; apply: eqv_prod (hcc t em hi ec es) hw (a2 ba t) (b2 bb t).
- by move=> _ t; apply: eqvH_prod (hcd t em hi ec es) hw (a3 ba t) (b3 bb t).
Qed.
Lemma Pq_sub irr f sub ir g : pick_all irr (ford f) = Ok sub -> sorted ltn f -> all (fun i => (i < size irr)%N) f ->
  Pq sub (iota 0 (size sub)) ir g ->
  Pq irr f ir (fun idx k => g (unravel (dims sub) (ravel (masked f (dims irr)) idx)) k).
Proof.
move=> ep so bd [h1 h2 h3]; have ep' := ep; rewrite ford_id // in ep'; split; first exact: (Pr_sub ford_id ep so bd h1).
  by move=> _ t; apply: eqv_sub => //; apply: h2; apply: iota_lt.
by move=> _ t; apply: eqvH_sub => //; apply: h3; apply: iota_lt.
Qed.
Lemma Pq_bi eps irr f pb perm m ir (x R0 R P P2 : nd) : allreal pb -> flat2 pb = Ok perm ->
  wfb dim (masked f (dims irr)) ((m, ir), x) -> (forall u, (u < m)%N -> Pq irr f ir (fun idx k => get x (idx ++ [:: u; k]))) ->
  at_last0 x = Ok R0 -> (0 < m)%N -> reshape R0 [:: (nprod (shape R0) %/ m)%N; m] = Ok R ->
  basis_intersection id_ eigh eps (transpose2 R) (perm_opt perm (transpose2 R)) = Ok (P, P2) ->
  forall c v w, shape P = [:: v; m] -> (c < v)%N -> (w < m)%N -> Ar dim irr f (get P [:: c; w]).
Proof.
move=> rp ef wx hx; apply: (Pr_bi eighP rp ef wx) => u hu; by case: (hx u hu).
Qed.

(** ** The reshape of the result of the recursive call *)
Lemma In_zip (S T U : Type) (R : S -> T -> Prop) (h : S -> U) (s : seq S) (t : seq T) x : List.Forall2 R s t -> List.In x s ->
  exists y, List.In (h x, y) (zip (map h s) t) /\ R x y.
Proof.
elim=> [|a b s' t' r _ IH] //= [<-|/IH[y [h1 h2]]]; first by exists b; split=> //; left.
by exists y; split=> //; right.
Qed.
Lemma Full_reshape G irr f sub b b' : signed_group (size irr) G -> pick_all irr f = Ok sub -> sorted ltn f ->
  all (fun i => (i < size irr)%N) f -> Inv Pq sub (iota 0 (size sub)) b ->
  Full (subrepr_permutation f G) sub (iota 0 (size sub)) b ->
  ia_reshape dim b (masked f (dims irr)) None = Ok b' -> Full G irr f b'.
Proof.
move=> GG ep so bd [l [-> [_ w] _]] hf; set n := size irr in GG bd *.
have [es _] := pick_all_nth rr0 ep.
have bd' : all (fun i => (i < size (dims irr))%N) f by apply/allP => i /(allP bd) hh; rewrite size_map.
have ed : dims sub = [seq nth 0%N (dims irr) i | i <- f].
  rewrite es -map_comp; apply/eq_in_map => i /(allP bd) hh /=; by rewrite (nth_map rr0).
have uf : uniq f by apply: sorted_uniq so; [exact: ltn_trans | exact: ltnn].
have sd : size (dims irr) = n by rewrite size_map.
rewrite masked_dims in w; rewrite /ia_reshape -[zip _ _]/(blocks (mk l)) blocks_mk /=; case em: (mapR _ _) => [xs|] //= en.
have [-> sz _] := ia_new_inv en; move=> T hT; rewrite /blocks /= ?blocks_mk.
have -> : zip [seq i.1 | i <- zip [seq i.1 | i <- l] xs] [seq i.2 | i <- zip [seq i.1 | i <- l] xs] = zip [seq i.1 | i <- l] xs.
  by rewrite -/(unzip1 _) -/(unzip2 _) zip_unzip.
pose phi idx := [seq nth 0%N idx i | i <- f].
have vphi idx : valid (masked f (dims irr)) idx -> valid (dims sub) (phi idx).
  move=> v; rewrite ed; apply/valid_nth; rewrite !size_map; split=> // j hj.
  rewrite !(nth_map 0%N) //; have fi : nth 0%N f j \in f by rewrite mem_nth.
  have /valid_nth[_ hv] := v; have := hv (nth 0%N f j); rewrite size_masked => /(_ (allP bd' _ fi)).
  by rewrite nth_masked ?(allP bd' _ fi) // fi.
apply: (@spn_ext _ _ _ (fun idx => (fun y => T (expd n f y)) (phi idx))).
  by move=> idx v /=; rewrite (expd_map sd v).
apply: (@spn_pull _ (dims sub) _ (ents dim l) _ phi (fun y => T (expd n f y))) => //; last first.
  have := hf (fun y => T (expd n f y)); rewrite blocks_mk masked_dims; apply.
  move=> s q y /(mem_subrepr GG uf bd)[p [hp fx rs]] _; rewrite masked_dims => vy.
  rewrite (actp_expd _ so bd (sg_perm GG hp) fx rs); apply: hT => //.
  by apply: valid_expd => //; rewrite -ed.
move=> g /In_entsP[q [u [k [hq hu hk ->]]]].
have [y [hy ey]] := In_zip fst (mapR_Forall2 em) hq.
have wq := proj1 (List.Forall_forall _ _) w _ hq; rewrite /wfb in wq.
apply: spn_ext (@spn_gen C L dim (masked f (dims irr)) _ _ u k hy hu hk) => idx v /=.
have [sy np] := reshape_shape ey; have vs := vphi idx v.
apply: (reshape_eq ey); first by rewrite wq valid_cat ?(valid_size vs) // vs valid2 hu.
rewrite wq !ravel_cat ?(valid_size v) ?(valid_size vs) //; congr (_ * _ + _)%N.
have hl : (ravel (masked f (dims irr)) idx < nprod (dims sub))%N.
  by move: (ravel_lt v); rewrite {2}/masked nprod_filter sd -sorted_filter // -ed.
by rewrite /phi -(unravel_masked so bd' v) -ed unravelK.
Qed.

(** The labels of a product are distinct. *)
Lemma product_uniq b1 b2 b irr fa fb : Inv Pq irr fa b1 -> Inv Pq irr fb b2 -> uniq (fa ++ fb) -> all (fun i => (i < size irr)%N) (fa ++ fb) ->
  reduce_basis_product lt dim mulL cgL b1 b2 = Ok b -> exists l, b = mk l /\ uniq [seq q.1.2 | q <- l].
Proof.
move=> i1 i2 un al ep; have [l' [eb wl _]] := Inv_product Pq_ext Pq_lin Pq_prod un al i1 i2 ep.
move: ep; rewrite /reduce_basis_product.
case: (ia_sorted lt dim b1) => [c1|] //=; case: (ia_simplify dim c1) => [c1'|] //=.
case: (ia_sorted lt dim b2) => [c2|] //=; case: (ia_simplify dim c2) => [c2'|] //=.
case el: (mapR _ _) => [ls|] //=; case en: (ia_new _ _ _) => [c|] //=.
have [-> _ [ld w]] := ia_new_inv en; rewrite -/(blocks (mk (flatten ls))) blocks_mk in w *.
rewrite (ia_sortedE lt w) /=; have pm := Permutation_sym (sortb_perm lt (flatten ls)).
have [l -> [_ _ e]] := simplifyP (wf_perm pm w); case=> <-; exists l; split=> //; rewrite e.
by apply: sorted_lt_uniq lt_irr lt_tr _ _; apply: sortb_labels.
Qed.

Section Group.
Variables (irr : seq rrep) (G : seq sp).
Local Notation n := (size irr).
Hypothesis rl : reals dim irr.
Hypothesis GG : signed_group n G.
Hypothesis cst : forall s p i, (s, p) \in G -> (i < n)%N -> nth rr0 irr (nth 0%N p i) = nth rr0 irr i.
Hypothesis okc : forall t, gens_ok dim (Yc t) (Xc t) irr.
Hypothesis okd : forall t, gens_ok dim (Yd t) (Xd t) irr.
Definition sub_ok (s : seq rrep) (g : seq sp) : Prop := [/\ reals dim s, signed_group (size s) g &
  forall s' p i, (s', p) \in g -> (i < size s)%N -> nth rr0 s (nth 0%N p i) = nth rr0 s i].
Lemma pick_sub_ok f sub : pick_all irr f = Ok sub -> sorted ltn f -> all (fun i => (i < n)%N) f -> sub_ok sub (subrepr_permutation f G).
Proof.
move=> ep so bd; have [es al] := pick_all_nth rr0 ep.
have uf : uniq f by apply: sorted_uniq so; [exact: ltn_trans | exact: ltnn].
have sf : sort leq f = f by apply: sorted_sort; [exact: leq_trans | move: so; rewrite ltn_sorted_uniq_leq => /andP[]].
split.
- rewrite es; apply: (@nth_Forall' _ _ rr0) => i; rewrite size_map => hi.
  by rewrite (nth_map 0%N) //; apply: Forall_nth' rl _; apply: (allP al); rewrite mem_nth.
- by rewrite es size_map; exact: (subrepr_group GG uf bd).
move=> s q i /(mem_subrepr GG uf bd)[p [hp fx [sq aq rs]]]; rewrite es size_map => hi.
have hqi : (nth 0%N q i < size f)%N by apply: (allP aq); rewrite mem_nth ?sq.
rewrite !(nth_map 0%N) //; have := rs i hi; rewrite sf => ->; apply: cst hp _.
by apply: (allP bd); rewrite mem_nth.
Qed.

Lemma loop_full (rec : C -> seq rrep -> seq sp -> res (irrarr C L)) :
  (forall s g, evc (fun e => rec e s g)) ->
  (forall e s g c, 0 < e -> (size s < n)%N -> rec e s g = Ok c -> Inv Pq s (iota 0 (size s)) c) ->
  (forall s g, (size s < n)%N -> sub_ok s g -> ev (fun e => forall c, rec e s g = Ok c -> Full g s (iota 0 (size s)) c)) ->
  forall fuel bases, part n (map fst bases) -> List.Forall (fun fb => Inv Pq irr fb.1 fb.2) bases ->
  List.Forall (fun fb => Full G irr fb.1 fb.2) bases -> (1 < size bases)%N ->
  ev (fun e => forall b, loop e ford (rec e) irr G fuel bases = Ok b -> Full G irr (iota 0 n) b).
Proof.
move=> hev hrec hrecF; elim=> [|fuel IH] bases pt hb hF s1; first by apply: ev_true.
case: (size bases =P 2%N) => [e|e2].
  case: bases e hb hF pt {IH s1} => [|[fa b1] [|[fb b2] [|]]] //= _ hb hF [/= pe _].
  have /= h1 := List.Forall_inv hb; have /= h2 := List.Forall_inv (List.Forall_inv_tail hb).
  have /= F1 := List.Forall_inv hF; have /= F2 := List.Forall_inv (List.Forall_inv_tail hF).
  rewrite cats0 in pe; have un : uniq (fa ++ fb) by rewrite (perm_uniq pe) iota_uniq.
  have al : all (fun i => (i < n)%N) (fa ++ fb) by apply/allP => i; rewrite (perm_mem pe) mem_iota add0n.
  have fe : fset_union fa fb = iota 0 n.
    by apply: sorted_iota (fset_union_sorted _ _) _; apply: seq.perm_trans (fset_union_disj un) pe.
  rewrite fe; case ep: (reduce_basis_product _ _ _ _ _ _) => [c|] /=; last by apply: ev_true.
  have hc : Inv Pq irr (iota 0 n) c.
    by rewrite -fe; apply: (Inv_product _ _ _ un al h1 h2 ep); [exact: Pq_ext | exact: Pq_lin | exact: Pq_prod].
  have Fc : Full G irr (iota 0 n) c.
    move: h1 h2 F1 F2 ep => [l1 [-> w1 _]] [l2 [-> w2 _]] F1 F2 ep; rewrite -fe.
    exact: (Full_product hfull GG un al w1 w2 F1 F2 ep).
  case: eqP => [u1|u1].
    apply: ev_true => e _ b eb; move: hc Fc eb => [l [-> w _]] Fc eb; exact: Full_ss w Fc eb.
  case eS: (subgroup_perm _ _ _ _ _) => [p|] /=; last by apply: ev_true.
  have [l [el ul]] := product_uniq h1 h2 un al ep; subst c.
  apply: ev_imp (constrain_full eighP ford_id dn rl GG cst okc okd u1 eS hc ul Fc) => e e0 h b.
  case ec: (constrain _ _ _ _ _ _) => [c'|] //= eb.
  have hpb : allreal p := subgroup_perm_real eS.
  have := Inv_constrain Pq_ext (Pq_bi (eps := e)) Pq_lin hpb hc ec => -[l' [el' w' _]].
  have Fc' := h _ ec; subst c'; exact: Full_ss w' Fc' eb.
have s3 : (2 < size bases)%N by rewrite ltn_neqAle eq_sym s1 andbT; apply/eqP.
have e1 : size bases <> 1%N by lia.
have s3' : (1 < size (map fst bases))%N by rewrite size_map.
have [i [j [eg ij js _]]] := greedyP ford G (dims irr) s3'.
set f := fset_union _ _ in eg.
suff : ev (fun e => forall b, (do sub <- pick_all irr (ford f); do ab <- rec e sub (subrepr_permutation f G);
        do ab <- ia_reshape dim ab (masked f (dims irr)) None;
        loop e ford (rec e) irr G fuel ((f, ab) :: del_at i (del_at j bases))) = Ok b -> Full G irr (iota 0 n) b).
  by apply: ev_imp => e _ h b; rewrite loop_many //= eg; apply: h.
case E: (pick_all _ _) => [sub|] /=; last by apply: ev_true.
have [pt' sf] := part_merge pt ij js.
have h : (size sub < n)%N.
  rewrite (pick_all_size E) (perm_size (ford_perm _)) sf; apply: part_lt => //; rewrite size_map; lia.
have bd : all (fun i => (i < n)%N) f by apply: part_all pt' _; rewrite inE eqxx.
have E' : pick_all irr f = Ok sub by rewrite -E ford_id //; exact: fset_union_sorted.
have sok := pick_sub_ok E' (fset_union_sorted _ _) bd.
have [r hr] := hev sub (subrepr_permutation f G).
case: r hr => [ab|er] hr; last by apply: ev_imp hr => e _ -> .
have [hab Fab] : Inv Pq sub (iota 0 (size sub)) ab /\ Full (subrepr_permutation f G) sub (iota 0 (size sub)) ab.
  case: (ev_and hr (hrecF _ _ h sok)) => e0 p0 hr'; have [e [p1 p2]] : exists e : C, 0 < e /\ e < e0.
    by exists (e0 / 2%:R); rewrite divr_gt0 ?ltr0n // gtr_pmulr // invf_lt1 ?ltr0n // ltr1n.
  have [er eF] := hr' e p1 p2; split; [exact: hrec p1 h er | exact: eF].
case es: (ia_reshape dim ab (masked f (dims irr)) None) => [ab'|]; last first.
  by apply: ev_imp hr => e _ -> b /=; rewrite es.
rewrite size_map in js; have P := del2_perm ([::], IrrArr [::] [::]) ij js.
have := IH ((f, ab') :: del_at i (del_at j bases)); case.
- by rewrite map_fst_merge.
- constructor; last exact: List.Forall_inv_tail (List.Forall_inv_tail (Permutation_Forall' P hb)).
  apply: (Inv_reshape _ _ E (fset_union_sorted _ _) _ hab es); [exact: Pq_ext | exact: Pq_sub | exact: bd].
- constructor; last exact: List.Forall_inv_tail (List.Forall_inv_tail (Permutation_Forall' P hF)).
  exact: (Full_reshape GG E' (fset_union_sorted _ _) bd hab Fab es).
- by move: (Permutation_size P) => /= sz; rewrite /=; lia.
move=> e0 p0 h0; have hh : ev (fun e => forall b, loop e ford (rec e) irr G fuel ((f, ab') :: del_at i (del_at j bases)) = Ok b -> Full G irr (iota 0 n) b) by exists e0.
by apply: ev_imp (ev_and hr hh) => e _ [-> h1] b /=; rewrite es; apply: h1.
Qed.
End Group.

Lemma Full_bases G (irr : seq rrep) bases : rtp_bases dim irr = Ok bases -> List.Forall (fun fb => Full G irr fb.1 fb.2) bases.
Proof.
move=> h; apply: (mapR_Forall (P := fun p => (p.1 < size irr)%N /\ nth rr0 irr p.1 = p.2) h).
  apply: (@nth_Forall' _ _ (0%N, rr0)) => i; rewrite size_zip size_iota minnn => hi.
  by rewrite nth_zip ?size_iota //= nth_iota.
move=> [i r] fb [/= hi <-]; case e: (init_basis _ _ _ _) => [b|] //= [<-] /=; exact: Full_init e.
Qed.
Theorem rtp_full fuel (irr : seq rrep) G : sub_ok irr G ->
  ev (fun e => forall b, rtp e ford fuel irr G = Ok b -> Full G irr (iota 0 (size irr)) b).
Proof.
elim: fuel irr G => [|fuel IH] irr G [rl GG cst]; first by apply: ev_true.
rewrite [fun e => _]/=; rewrite /rtp_body.
case eb: (rtp_bases _ _) => [bases|]; cbn [rbind]; last by apply: ev_true.
have [pt sz] := rtp_bases_part eb.
have hb : List.Forall (fun fb => Inv Pq irr fb.1 fb.2) bases by exact: (Inv_bases Pq_ext Pq_init eb).
have hF := Full_bases G eb.
case: (ltnP 1 (size irr)) => [n2|n1].
  apply: (@loop_full irr G rl GG cst _ _ (fun e => rtp e ford fuel)) => //; last by rewrite sz.
  - by move=> t; exact: bases_gens eb.
  - by move=> t; exact: bases_gens eb.
  - by move=> s g; apply: evc_rtp.
  - move=> e s g c e0 hs er.
    exact: (Inv_rtp ford_perm Pq_ext (fun _ _ _ _ => @subgroup_perm_real _ _ _ _ _ _) (Pq_bi (eps := e)) Pq_lin Pq_init Pq_prod Pq_sub er).
  - by move=> s g _; apply: IH.
apply: ev_true => e _ b; case: bases sz pt hb hF {eb} => [|[f b1] [|x bs]] sz _ hb hF; last by move: n1; rewrite -sz.
  by rewrite /rtp_loop /= /greedy.
rewrite /= /passert; case: eqP => //= ef es.
have [l [el w _]] := List.Forall_inv hb; have /= F := List.Forall_inv hF; rewrite /= in el w; subst b1; rewrite -ef.
exact: Full_ss w F es.
Qed.
End Main.
