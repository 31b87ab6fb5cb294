(** RtpReal: the basis computed by _reduced_tensor_product_basis (Rtp.v) is real when the
    Clebsch-Gordan arrays and the changes of basis are. *)
From Coq Require Import ZArith String Ascii List Permutation.
From mathcomp Require Import all_ssreflect all_algebra.
From mathcomp Require Import zify.
From Verif Require Import Base Nd NdProofs Reps Pinv RepSpec RepProofs RepOps ReducedProofs Sl2c LinAlg GsMx LinAlgProofs CgGenProofs BiProofs.
From Verif Require Import Perm RedPerm Rtp RtpArr RtpLoop RtpPres RtpEqv Properties_Bi.

Set Implicit Arguments.
Unset Strict Implicit.
Unset Printing Implicit Defensive.

Import Order.POrderTheory GRing.Theory Num.Theory.
Local Open Scope ring_scope.

Section Bi.
Variable C : numClosedFieldType.
Notation nd := (nd C).
Notation id_ := (fun x : nd => x).
Variable eps : C.

Lemma InP (T : eqType) (x : T) s : List.In x s -> x \in s.
Proof. by elim: s => [|y s IH] //= [->|/IH h]; rewrite inE ?eqxx // h orbT. Qed.
(** ** gram_schmidt *)
Definition vreal (n : nat) (v : nd) : Prop := forall k, (k < n)%N -> get v [:: k] \is Num.real.
Lemma vdot_real n w v : vreal n w -> vreal n v -> vdot n w v \is Num.real.
Proof. by move=> hw hv; apply: rpred_sum => k _; rewrite rpredM ?hv // conj_Creal ?hw // hw. Qed.
Lemma axpy_real n v w : vreal n v -> vreal n w -> vreal n (axpy n v w).
Proof. by move=> hv hw k hk; rewrite /axpy /= rpredB ?rpredM ?hv ?hw // vdot_real. Qed.
Lemma gs_new_real n Q a v : List.Forall (vreal n) Q -> vreal n a -> gs_new id_ eps n Q a = Some v -> vreal n v.
Proof.
move=> hQ ha; rewrite /gs_new; case: ifP => // _ [<-] k hk.
have h : vreal n (foldl (axpy n) a Q).
  by elim: Q a ha hQ => [|w Q IH] a ha hQ //=; apply: IH (List.Forall_inv_tail hQ); apply: axpy_real (List.Forall_inv hQ).
rewrite /scale /= rpredM ?h // rpredV ger0_real // /vnorm sqrtC_ge0 sumr_ge0 // => i _.
by rewrite exprn_ge0.
Qed.
Lemma Forall_rcons (T : Type) (P : T -> Prop) s x : List.Forall P s -> P x -> List.Forall P (rcons s x).
Proof. by move=> hs hx; elim: s hs => [|y s IH] h /=; constructor => //; [exact: List.Forall_inv h | exact: IH (List.Forall_inv_tail h)]. Qed.
Lemma gs_loop_real n l Q : List.Forall (vreal n) Q -> List.Forall (vreal n) l ->
  List.Forall (vreal n) (foldl (gs_row id_ eps n) Q l).
Proof.
elim: l Q => [|a l IH] Q hQ hl //=; apply: IH (List.Forall_inv_tail hl); rewrite /gs_row.
case e: (gs_new _ _ _ _ _) => [v|//]; apply: Forall_rcons => //; exact: gs_new_real hQ (List.Forall_inv hl) e.
Qed.
Lemma gs_real m n (a y : nd) : shape a = [:: m; n] -> realm (mx2 m n a) -> gram_schmidt id_ eps a = Ok y ->
  forall c v w, shape y = [:: v; n] -> (c < v)%N -> (w < n)%N -> get y [:: c; w] \is Num.real.
Proof.
move=> sa ra; rewrite /gram_schmidt sa.
have hr : List.Forall (vreal n) (rows a).
  rewrite /rows /len sa /=; apply/List.Forall_forall => b /List.in_map_iff[k [<- /InP]].
  rewrite mem_iota add0n => /= hk w hw; rewrite /slice0 /=.
  by have := ra (Ordinal hk) (Ordinal hw); rewrite mxE => /CrealP.
have := gs_loop_real (List.Forall_nil _) hr; case: (foldl _ _ _) => [|b Q] h; first by case=> <- c v w [<-].
move: h; set QQ := b :: Q => h; rewrite /stack /QQ -/QQ; case: ifP => // _ [<-] c v w /= [hv _] hc hw.
have hc' : (c < size QQ)%N by rewrite /QQ /= hv.
exact: (Forall_nth' b h hc') hw.
Qed.

(** ** basis_intersection *)
Local Arguments concat_last : simpl never.
Lemma bi_real (eigh : nd -> res (nd * nd)) s n1 n2 (b1 b2 y1 y2 : nd) : eigh_correct_real eigh ->
  shape b1 = n1 :: s -> shape b2 = n2 :: s -> nd_real b1 -> nd_real b2 ->
  basis_intersection id_ eigh eps b1 b2 = Ok (y1, y2) ->
  forall c v w, shape y1 = [:: v; n1] -> (c < v)%N -> (w < n1)%N -> get y1 [:: c; w] \is Num.real.
Proof.
move=> eighP sb1 sb2 /(nd_realP sb1) r1 /(nd_realP sb2) r2.
case: (posnP n1) => [z|n10]; first by rewrite (C62_empty eigh eps sb1 sb2) //; left.
case: (posnP n2) => [z|n20]; first by rewrite (C62_empty eigh eps sb1 sb2) //; right.
rewrite /basis_intersection sb1 sb2 /= eqxx /=.
have [f1 [-> sf1 mf1]] := flat2P sb1 n10; have [f2 [-> sf2 mf2]] := flat2P sb2 n20; rewrite /=.
have [p11 [-> [s11 m11]]] := matmul_2_2 sf1 (shape_tr sf1); rewrite /=.
have ss1 : shape (scale (-1) f1) = [:: n1; nprod s] by [].
have ss2 : shape (scale (-1) f2) = [:: n2; nprod s] by [].
have [p12 [-> [s12 m12]]] := matmul_2_2 ss1 (shape_tr sf2); rewrite /=.
have [p21 [-> [s21 m21]]] := matmul_2_2 ss2 (shape_tr sf1); rewrite /=.
have [p22 [-> [s22 m22]]] := matmul_2_2 sf2 (shape_tr sf2); rewrite /=.
have [t1 [t2 [p [-> /= -> /= -> /= sp mp]]]] := blockP s11 s12 s21 s22.
have {mp} mp : mx2 (n1 + n2) (n1 + n2) p = bi_gram (bmx n1 s b1) (bmx n2 s b2).
  by rewrite mp bi_gramE m11 m12 m21 m22 !mx2_scale !(mx2_tr sf1) !(mx2_tr sf2) mf1 mf2 !scaleN1r.
have [|| e [-> [s1 [s2 _]] rU]] := eighP _ _ sp; first by rewrite mp bi_gram_sym.
  by rewrite mp; exact: bi_gram_real.
rewrite /=; set X := select0 _ _; have [r [sX _]] := select0P (fun i => get e.1 [:: i] < eps) s2.
have rX : realm (mx2 r (n1 + n2) X).
  move=> i j; rewrite mxE /X /select0 /len /= s2 /=.
  set l := [seq _ <- _ | _]; have hr : r = size l by move: sX; rewrite /select0 /len /= s2 /= => -[<-].
  have : nth 0%N l i \in l by rewrite mem_nth // -hr.
  rewrite mem_filter mem_iota add0n => /andP[_ /andP[_ hk]].
  by have := rU j (Ordinal hk); rewrite mxE.
rewrite -/X in sX; clearbody X.
have l1 : len f1 = n1 by rewrite /len sf1.
have lv : len (transpose2 X) = (n1 + n2)%N by rewrite /len (shape_tr sX).
rewrite l1 lv; set x1 := rows_slice 0 n1 _; set x2 := rows_slice n1 _ _.
have sx1 : shape x1 = [:: n1; r] by rewrite /x1 /rows_slice /= sX /= subn0.
have rx1 : realm (mx2 n1 r x1).
  by move=> i j; rewrite mxE /x1 /rows_slice /=; have := rX j (lshift n2 i); rewrite mxE.
have [g1 [-> [sg1 mg1]]] := matmul_2_2 sx1 (shape_tr sx1); rewrite /=.
have rg1 : realm (mx2 n1 n1 g1) by rewrite mg1 (mx2_tr sx1); apply: realm_mul => //; exact: realm_tr.
case eg: (gram_schmidt _ _ g1) => [z1|] //=; case: (matmul _ _) => //= g2; case: (gram_schmidt _ _ _) => //= z2 [<- _].
exact: gs_real sg1 rg1 eg.
Qed.
End Bi.

(** ** The permutation basis *)
Section Perm.
Variable C : numClosedFieldType.
Notation nd := (nd C).
Definition allreal (a : nd) : Prop := forall idx, get a idx \is Num.real.
Definition rows_real (Q : seq (seq C)) : Prop := forall i j, nth 0 (nth [::] Q i) j \is Num.real.
Lemma fill_row_real x dims (row : seq C) : fill_row C x dims = Ok row -> forall j, nth 0 row j \is Num.real.
Proof.
rewrite /fill_row; have : forall j, nth 0 (nseq (prodn dims) (0 : C)) j \is Num.real.
  by move=> j; rewrite nth_nseq; rewrite if_same real0.
move: (nseq _ _) => r0; move: (size x) => n; elim: x r0 => [|se x IH] r0 h /=; first by case=> <-.
case: ifP => //= _; apply: IH => j; rewrite nth_set_nth /=; case: ifP => // _.
by rewrite rpred_div ?realz // ger0_real // sqrtC_ge0 ler0n.
Qed.
Lemma rsp_real order G dims (Q : seq (seq C)) : reduce_subgroup_permutation C order G dims = Ok Q -> rows_real Q.
Proof.
rewrite /reduce_subgroup_permutation; case: ifP => _.
  case=> <- i j; rewrite /eye_rows; case: (ltnP i (prodn (sub_dims order dims))) => hi; last first.
    by rewrite [nth [::] _ i]nth_default ?size_map ?size_iota // nth_nil real0.
  rewrite (nth_map 0%N) ?size_iota //; case: (ltnP j (prodn (sub_dims order dims))) => hj; last first.
    by rewrite nth_default ?size_map ?size_iota // real0.
  by rewrite (nth_map 0%N) ?size_iota // realn.
rewrite /reduce_permutation_matrix; case E: (mapR _ _) => [rows|] //=; case: (passert _) => //= _ [<-].
move: (sort _ _) E => s E i j; have F := mapR_Forall2 E.
elim: F i => [|x r s' rs hx _ IH] [|i] /=; rewrite ?nth_nil ?real0 //; exact: fill_row_real hx j.
Qed.
Lemma reshape_allreal (a b : nd) sh : allreal a -> reshape a sh = Ok b -> allreal b.
Proof. by move=> h; rewrite /reshape; case: ifP => // _ [<-] idx; exact: h. Qed.
Lemma subgroup_perm_real ford f G dims p : subgroup_perm C ford f G dims = Ok p -> allreal p.
Proof.
rewrite /subgroup_perm; case E: (reduce_subgroup_permutation _ _ _ _) => [Q|] //=; have rQ := rsp_real E.
have r0 : allreal (rows_nd Q (sub_dims (ford f) dims)) by move=> idx; exact: rQ.
case: ifP => _; first by case=> <-.
by rewrite /reshape_m1; case: ifP => // _; exact: reshape_allreal.
Qed.
Lemma flat2_real (b p : nd) : allreal b -> flat2 b = Ok p -> allreal p.
Proof. by move=> h; rewrite /flat2; case: ifP => // _; apply: reshape_allreal h. Qed.
Lemma perm_opt_real (perm R : nd) : allreal perm -> allreal (perm_opt perm R).
Proof. by move=> h idx; exact: h. Qed.
End Perm.

(** ** The basis *)
Section Rtp.
Variable C : numClosedFieldType.
Notation nd := (nd C).
Notation id_ := (fun x : nd => x).
Variable L : eqType.
Variable lt : rel L.
Variable dim : L -> nat.
Variable mulL : L -> L -> res (seq L).
Variable cgL : L -> L -> L -> res nd.
Variable eigh : nd -> res (nd * nd).
Hypothesis eighP : eigh_correct_real eigh.
Variable eps : C.
Variable ford : seq nat -> seq nat.
Hypothesis ford_perm : forall f, perm_eq (ford f) f.
Hypothesis ford_id : forall f, sorted ltn f -> ford f = f.
Notation mi := (nat * L)%type.
Notation blk := (mi * nd)%type.
Notation rrep := (seq mi * option nd)%type.
Notation dims irr := (map (rdim dim) irr).
Local Notation rr0 := (([::] : seq mi), (None : option nd)).

(** The inverse of Q^T (the matrix of get_initial_basis) is real. *)
Definition q_real (r : rrep) : Prop := forall q i j, init_q dim r = Ok q ->
  (i < rdim dim r)%N -> (j < rdim dim r)%N -> get q [:: i; j] \is Num.real.
Definition reals (irr : seq rrep) : Prop := List.Forall q_real irr.
Definition cg_real (i1 i2 i3 : L) (z : nat) (cg : nd) : Prop := forall w i j k, (w < z)%N ->
  (i < dim i1)%N -> (j < dim i2)%N -> (k < dim i3)%N -> get cg [:: w; i; j; k] \is Num.real.
Definition col_real (irr : seq rrep) f ir (g : seq nat -> nat -> C) : Prop :=
  forall idx k, valid (masked f (dims irr)) idx -> (k < dim ir)%N -> g idx k \is Num.real.
Definition Pr (irr : seq rrep) f ir (g : seq nat -> nat -> C) : Prop := bounded irr f -> reals irr -> col_real irr f ir g.

(** The first components of the columns of a block, as in constrain. *)
Lemma block_R ld m ir (x R0 R : nd) : wfb dim ld ((m, ir), x) -> at_last0 x = Ok R0 -> (0 < m)%N ->
  reshape R0 [:: (nprod (shape R0) %/ m)%N; m] = Ok R ->
  [/\ (0 < dim ir)%N, shape (transpose2 R) = [:: m; nprod ld] &
    forall u idx, (u < m)%N -> valid ld idx -> get (transpose2 R) [:: u; ravel ld idx] = get x (idx ++ [:: u; 0%N])].
Proof.
rewrite /wfb /= => sx; rewrite /at_last0 /lastdim sx last_cat /=.
case: (posnP (dim ir)) => //= d0; rewrite size_cat addn2 /= => -[<-] m0.
have -> : initdims x = ld ++ [:: m].
  by rewrite /initdims sx size_cat addn2 /= take_cat ltnNge leqnSn /= subSnn.
rewrite /= nprod_cat /= muln1 mulnK // /reshape /= nprod_cat /= !muln1 eqxx => -[<-]; split=> // u idx hu vi.
rewrite /transpose2 /= muln1 addn0.
have -> : (ravel ld idx * m + u = ravel (ld ++ [:: m]) (idx ++ [:: u]))%N.
  by rewrite ravel_cat ?(valid_size vi) //= !muln1 addn0.
rewrite ravelK; first by rewrite -cats1 -catA.
by rewrite valid_cat ?(valid_size vi) // vi /= /valid /= hu.
Qed.
Lemma R_real irr f m ir (x R0 R : nd) : wfb dim (masked f (dims irr)) ((m, ir), x) -> at_last0 x = Ok R0 -> (0 < m)%N ->
  reshape R0 [:: (nprod (shape R0) %/ m)%N; m] = Ok R ->
  (forall u, (u < m)%N -> col_real irr f ir (fun idx k => get x (idx ++ [:: u; k]))) -> nd_real (transpose2 R).
Proof.
move=> wx ea m0 er h; have [d0 sR gR] := block_R wx ea m0 er.
move=> idx; rewrite sR; case: idx => [|u [|c [|]]] // /andP[_] /=; rewrite andbT => /andP[hu hc].
have vu := unravel_valid hc.
by have := gR u _ hu vu; rewrite unravelK //= => ->; apply: h.
Qed.

Lemma Pr_ext irr f ir g g' : (forall idx k, valid (masked f (dims irr)) idx -> (k < dim ir)%N -> g idx k = g' idx k) ->
  Pr irr f ir g -> Pr irr f ir g'.
Proof. by move=> he h bd rl idx k vi hk; rewrite -he //; exact: h. Qed.
Definition Ar (irr : seq rrep) f (a : C) : Prop := bounded irr f -> reals irr -> a \is Num.real.
Lemma Pr_bi irr f pb perm m ir (x R0 R P P2 : nd) : allreal pb -> flat2 pb = Ok perm ->
  wfb dim (masked f (dims irr)) ((m, ir), x) -> (forall u, (u < m)%N -> Pr irr f ir (fun idx k => get x (idx ++ [:: u; k]))) ->
  at_last0 x = Ok R0 -> (0 < m)%N -> reshape R0 [:: (nprod (shape R0) %/ m)%N; m] = Ok R ->
  basis_intersection id_ eigh eps (transpose2 R) (perm_opt perm (transpose2 R)) = Ok (P, P2) ->
  forall c v w, shape P = [:: v; m] -> (c < v)%N -> (w < m)%N -> Ar irr f (get P [:: c; w]).
Proof.
move=> rp ef wx hx ea m0 er eb c v w sP hc hw bd rl.
have [d0 sR _] := block_R wx ea m0 er.
have rR : nd_real (transpose2 R) by apply: (R_real wx ea m0 er) => u hu; apply: hx.
have [k so] : exists k, shape (perm_opt perm (transpose2 R)) = [:: k; nprod (masked f (dims irr))].
  move: eb; rewrite /basis_intersection sR; case: eqP => //= so _.
  by exists (len (perm_opt perm (transpose2 R))); rewrite /perm_opt /select0 /len /= -so.
apply: (bi_real eighP sR so rR _ eb sP hc hw) => idx _; apply: perm_opt_real; exact: flat2_real ef.
Qed.
Lemma Pr_lin irr f ir n (a : 'I_n -> C) g : (forall w, Ar irr f (a w)) -> (forall w, Pr irr f ir (g w)) ->
  Pr irr f ir (fun idx k => \sum_(w < n) a w * g w idx k).
Proof. move=> ha h bd rl idx k vi hk; apply: rpred_sum => w _; rewrite rpredM ?ha //; exact: h. Qed.
Lemma Pr_init irr i r q s1 m ir s2 u : (i < size irr)%N -> nth rr0 irr i = r -> init_q dim r = Ok q ->
  shape q = [:: rdim dim r; rdim dim r] -> r.1 = s1 ++ (m, ir) :: s2 -> (u < m)%N ->
  Pr irr [:: i] ir (fun idx k => get q [:: nth 0%N idx i; (sumn [seq (p.1 * dim p.2)%N | p <- s1] + u * dim ir + k)%N]).
Proof.
move=> hi er eq sq e1 hu bd rl idx k vi hk.
have rr : q_real r by rewrite -er; apply: Forall_nth'.
apply: (rr _ _ _ eq).
  have /valid_nth[_ hv] := vi; have := hv i; rewrite size_masked size_map => /(_ hi).
  by rewrite nth_masked ?size_map // inE eqxx (nth_map rr0) // er.
rewrite /rdim e1 map_cat sumn_cat -addnA ltn_add2l /=; apply: leq_trans (leq_addr _ _).
by apply: (@leq_trans (u.+1 * dim ir)); rewrite ?leq_mul2r ?hu ?orbT // mulSn addnC ltn_add2r.
Qed.
Lemma Pr_prod : cgs dim mulL cgL cg_real -> forall irr fa fb ir1 ir2 irs ir cg z w g1 g2, uniq (fa ++ fb) -> all (fun i => (i < size irr)%N) (fa ++ fb) ->
  mulL ir1 ir2 = Ok irs -> ir \in irs -> cgL ir1 ir2 ir = Ok cg -> shape cg = [:: z; dim ir1; dim ir2; dim ir] -> (w < z)%N ->
  Pr irr fa ir1 g1 -> Pr irr fb ir2 g2 ->
  Pr irr (fset_union fa fb) ir (fun idx k => \sum_(i < dim ir1) \sum_(j < dim ir2)
     g1 (bidx (masked fa (dims irr)) idx) i * g2 (bidx (masked fb (dims irr)) idx) j * get cg [:: w; i : nat; j : nat; k]).
Proof.
move=> hcg irr fa fb ir1 ir2 irs ir cg z w g1 g2 un bd em hi ec es hw h1 h2 bd' rl idx k vi hk.
move: (bd); rewrite all_cat => /andP[ba bb].
have sa : {subset fa <= fset_union fa fb} by move=> i hi'; rewrite mem_sort mem_undup mem_cat hi'.
have sb : {subset fb <= fset_union fa fb} by move=> i hi'; rewrite mem_sort mem_undup mem_cat hi' orbT.
apply: rpred_sum => i _; apply: rpred_sum => j _; rewrite !rpredM //.
- by apply: h1 => //; exact: valid_bidx vi.
- by apply: h2 => //; exact: valid_bidx vi.
- exact: (hcg _ _ _ _ _ _ em hi ec es).
Qed.
Lemma Pr_sub irr f sub ir g : pick_all irr (ford f) = Ok sub -> sorted ltn f -> all (fun i => (i < size irr)%N) f ->
  Pr sub (iota 0 (size sub)) ir g ->
  Pr irr f ir (fun idx k => g (unravel (dims sub) (ravel (masked f (dims irr)) idx)) k).
Proof.
move=> ep so bd h bd' rl idx k vi hk; rewrite ford_id // in ep.
have [es al] := pick_all_nth rr0 ep.
have rs : reals sub.
  rewrite es; apply: (@nth_Forall' _ _ rr0) => i; rewrite size_map => hi.
  by rewrite (nth_map 0%N) //; apply: Forall_nth' rl _; apply: (allP al); rewrite mem_nth.
apply: (h _ rs) hk; first by apply/allP => i; rewrite mem_iota.
rewrite -(size_map (rdim dim)) masked_all; apply: unravel_valid; move: (ravel_lt vi); congr (_ < _)%N.
rewrite /masked nprod_filter size_map -sorted_filter // es -map_comp; congr nprod.
by apply/eq_in_map => i /(allP bd) hh /=; rewrite (nth_map rr0).
Qed.

Lemma rtp_real fuel irr G b : cgs dim mulL cgL cg_real -> rtp lt dim mulL cgL id_ eigh eps ford fuel irr G = Ok b ->
  exists l, [/\ b = mk l, wf dim (dims irr) l & reals irr ->
    List.Forall (fun c => col_real irr (iota 0 (size irr)) c.1 c.2) (cols l)].
Proof.
move=> hcg e; have := Inv_rtp ford_perm Pr_ext (fun _ _ _ _ => @subgroup_perm_real _ _ _ _ _ _) Pr_bi Pr_lin Pr_init (Pr_prod hcg) Pr_sub e.
move=> [l [-> w h]]; exists l; split=> //; first by rewrite -(size_map (rdim dim)) masked_all in w.
move=> rl; apply: List.Forall_impl h => c h; apply: h => //; by apply/allP => i; rewrite mem_iota.
Qed.
End Rtp.
