(** RtpTwo: the product of two irreps in _reduced_tensor_product_basis: the initial
    bases and reduce_basis_product succeed, and the blocks of the result are the
    Clebsch-Gordan arrays. *)
From Coq Require Import ZArith String Ascii List Permutation.
From mathcomp Require Import all_ssreflect all_algebra.
From mathcomp Require Import zify.
From Verif Require Import Base Nd NdProofs Reps RepOps Labels Sl2c LinAlg.
From Verif Require Import Perm RedPerm RedPermBasis RedPermSub Rtp RtpArr RtpLoop RtpPres.

Set Implicit Arguments.
Unset Strict Implicit.
Unset Printing Implicit Defensive.

Import Order.POrderTheory GRing.Theory Num.Theory.
Local Open Scope ring_scope.

Section Two.
Variable C : numClosedFieldType.
Notation nd := (nd C).
Variable L : eqType.
Variable lt : rel L.
Variable dim : L -> nat.
Variable mulL : L -> L -> res (seq L).
Variable cgL : L -> L -> L -> res nd.
Notation mi := (nat * L)%type.
Notation blk := (mi * nd)%type.
Notation irrarr := (irrarr C L).
Notation rrep := (seq mi * option nd)%type.
(** One irrep. *)
Definition one_irrep (c : L) : rrep := ([:: (1%N, c)], None).

Lemma rdim_one c : rdim dim (one_irrep c) = dim c.
Proof. by rewrite /rdim /= mul1n addn0. Qed.

Lemma init_one n i c : exists x, [/\ init_basis dim n i (one_irrep c) = Ok (mk [:: ((1%N, c), x)]),
  shape x = ((nseq i 1 ++ dim c :: nseq (n - i - 1) 1) ++ [:: 1; dim c])%N%SEQ &
  forall idx k, valid (nseq i 1 ++ dim c :: nseq (n - i - 1) 1)%N%SEQ idx -> (k < dim c)%N ->
    get x (idx ++ [:: 0%N; k]) = (nth 0%N idx i == k)%:R].
Proof.
rewrite /init_basis rdim_one /=; set d := dim c; set ld := (nseq i 1 ++ d :: nseq (n - i - 1) 1)%N%SEQ.
have -> : (nseq i 1 ++ d :: nseq (n - i - 1) 1 ++ [:: d])%N%SEQ = rcons ld d by rewrite /ld -cats1 -catA.
have nld : nprod ld = d by rewrite nprod_cat /= !nprod_nseq1 mul1n muln1.
have [x ex sx] := reshape_ok (a := @eye C d) (sh := rcons ld d) (ltac:(by rewrite -cats1 nprod_cat nld /= !muln1)).
rewrite ex; cbn [rbind].
have ini : initdims x = ld by rewrite /initdims sx size_rcons /= -cats1 take_size_cat.
have las : lastdim x = d by rewrite /lastdim sx last_rcons.
have gx idx k : valid ld idx -> (k < d)%N -> get x (rcons idx k) = (nth 0%N idx i == k)%:R.
  move=> vi hk; rewrite (reshape_eq (j := [:: nth 0%N idx i; k]) ex) //.
    by rewrite valid2 hk andbT; have := ravel_lt vi; rewrite nld ravel_masked1.
  by rewrite -!cats1 ravel_cat ?(valid_size vi) // ravel_masked1 // ravel2 /= !muln1 addn0.
set sl := slice_last _ _ _; have ssl : shape sl = rcons ld d.
  by rewrite /sl /slice_last /= ini las add0n mul1n minnn min0n subn0.
have [y ey sy] := reshape_ok (a := sl) (sh := initdims x ++ [:: 1; d]%N) (ltac:(by rewrite ssl ini -cats1 !nprod_cat /= !muln1 mul1n)).
rewrite ey; cbn [rbind]; rewrite ini in sy; exists y; split=> //.
  have := @ia_new_wf _ _ dim ld [:: ((1%N, c), y)]; apply; split=> //; constructor=> //.
move=> idx k vi hk; rewrite (reshape_eq (j := rcons idx k) ey).
- rewrite /sl /slice_last /= las min0n add0n last_rcons size_rcons subn1 /= -!cats1 take_size_cat // cats1; exact: gx.
- by rewrite ssl -!cats1 valid_cat ?(valid_size vi) // vi valid_cons valid_nil hk.
- by rewrite ssl ini -!cats1 !ravel_cat ?(valid_size vi) //= ?muln1 ?addn0 ?mul1n ?add0n.
Qed.

Lemma cols1 (p : blk) l : cols (p :: l) = bcols p ++ cols l.
Proof. by []. Qed.
Lemma ss_one ld (p : blk) : wfb dim ld p -> ia_sorted lt dim (mk [:: p]) = Ok (mk [:: p]) /\ ia_simplify dim (mk [:: p]) = Ok (mk [:: p]).
Proof.
move=> w; have wl : wf dim ld [:: p] by split=> //; constructor.
split; last by rewrite /ia_simplify /=; case: p w wl => -[m ir] x w wl /=; exact: (ia_new_wf wl).
by rewrite (ia_sortedE lt wl).
Qed.

Variables a b : L.
Variable irs : seq L.
Hypothesis mu : mulL a b = Ok irs.
Hypothesis i0 : irs <> [::].
Hypothesis cgs : forall ir, ir \in irs -> exists cg z, [/\ cgL a b ir = Ok cg, shape cg = [:: z; dim a; dim b; dim ir] & (0 < z)%N].
(** A column of the product is a slice of a Clebsch-Gordan array. *)
Definition is_cg (ir : L) (g : seq nat -> nat -> C) : Prop := ir \in irs /\ exists cg z w,
  [/\ cgL a b ir = Ok cg, shape cg = [:: z; dim a; dim b; dim ir], (w < z)%N &
      forall i j k, (i < dim a)%N -> (j < dim b)%N -> (k < dim ir)%N -> g [:: i; j] k = get cg [:: w; i; j; k]].

Lemma prod_one_ok x1 x2 ir : ir \in irs ->
  shape x1 = [:: dim a; 1; 1; dim a]%N -> shape x2 = [:: 1; dim b; 1; dim b]%N ->
  (forall i k, (i < dim a)%N -> (k < dim a)%N -> get x1 [:: i; 0; 0; k]%N = (i == k)%:R) ->
  (forall j k, (j < dim b)%N -> (k < dim b)%N -> get x2 [:: 0; j; 0; k]%N = (j == k)%:R) ->
  exists q, [/\ prod_one dim cgL ((1%N, a), x1) ((1%N, b), x2) ir = Ok q,
    wfb dim [:: dim a; dim b] q, q.1.2 = ir, (0 < q.1.1)%N & List.Forall (fun c => is_cg c.1 c.2) (bcols q)].
Proof.
move=> hir s1 s2 g1 g2; have [cg [z [ecg scg z0]]] := cgs hir; rewrite /prod_one /= ecg /= /einsum_prod s1 s2 /= scg !eqxx /=.
have bs : bshape (lead x1) (lead x2) = Ok [:: dim a; dim b].
  rewrite /lead s1 s2 /=; have := bshape_masked [:: 0%N] [:: 1%N] [:: dim a; dim b].
  by rewrite /masked /=.
rewrite bs; cbn [rbind]; set x := Nd _ _.
have lz : len cg = z by rewrite /len scg.
have [y ey sy] := reshape_ok (a := x) (sh := [:: dim a; dim b; z; dim ir]) (ltac:(by rewrite /= !mul1n)).
have -> : take (size (shape x) - 4) (shape x) = [:: dim a; dim b] by [].
rewrite lz !muln1 /= ey /=; eexists; split=> //.
apply: (@nth_Forall' _ _ (a, fun _ _ => 0)) => w; rewrite /bcols size_map size_iota /= => hw.
rewrite (nth_map 0%N) ?size_iota // nth_iota // add0n /=; split=> //; exists cg, z, w; split=> // i j k hi hj hk /=.
rewrite (reshape_eq (j := [:: i; j; w; 0; 0; k]%N) ey); last 2 first.
- by rewrite /= !valid_cons valid_nil hi hj hw hk.
- by rewrite /= !muln1 !addn0 !mul1n !add0n.
rewrite /x /=.
have -> : bidx (lead x1) [:: i; j] = [:: i; 0%N].
  rewrite bidxE /lead s1 //=; case: eqP => // e; congr [:: _; _]; lia.
have -> : bidx (lead x2) [:: i; j] = [:: 0%N; j].
  rewrite bidxE /lead s2 //=; case: eqP => // e; congr [:: _; _]; lia.
rewrite (bigD1 (Ordinal hi)) //= (bigD1 (Ordinal hj)) //= g1 // g2 // !eqxx !mul1r !big1 ?addr0 // => [i' n|j' n].
  by rewrite big1 // => j' _; rewrite g1 // eq_sym (negPf n : ((i' : nat) == i) = false) !mul0r.
by rewrite g2 // eq_sym (negPf n : ((j' : nat) == j) = false) mulr0 mul0r.
Qed.

Lemma simp_pos (l l' : seq blk) : List.Forall (fun q => (0 < q.1.1)%N) l -> ia_simplify dim (mk l) = Ok (mk l') ->
  List.Forall (fun q => (0 < q.1.1)%N) l'.
Proof.
move=> h; rewrite /ia_simplify -/(blocks (mk l)) blocks_mk; case ef: (foldR _ _ _) => [acc|] //= /ia_new_inv[e _ _].
have {e} -> : l' = rev acc by rewrite -(blocks_mk l') e /blocks /= zip_map; elim: (rev acc) => //= -[? ?] ? ->.
apply: Forall_rev'; have : List.Forall (fun q : blk => (0 < q.1.1)%N) [::] by constructor.
elim: h [::] acc ef => [|p s hp _ IH] acc0 acc /=; first by case=> <-.
case es: (simp_step _ _) => [acc1|] //= ef h0; apply: IH ef _; move: es; rewrite /simp_step.
case: acc0 h0 => [|q acc0] h0; first by case=> <-; constructor.
case: ifP => _; first by case=> <-; constructor.
case: (concat_m2 _ _) => //= y [<-]; constructor; last exact: List.Forall_inv_tail h0.
by rewrite /= addn_gt0 (List.Forall_inv h0).
Qed.
(** The two bases, and their product. *)
Lemma two_ok : exists b1 b2 l, [/\ rtp_bases dim [:: one_irrep a; one_irrep b] = Ok [:: ([:: 0%N], b1); ([:: 1%N], b2)],
  reduce_basis_product lt dim mulL cgL b1 b2 = Ok (mk l), wf dim [:: dim a; dim b] l,
  List.Forall (fun q => (0 < q.1.1)%N /\ List.Forall (fun c => is_cg c.1 c.2) (bcols q)) l &
  forall ir, ir \in irs -> exists2 q, List.In q l & q.1.2 = ir].
Proof.
have [x1 [e1 s1 g1]] := init_one 2 0 a; have [x2 [e2 s2 g2]] := init_one 2 1 b.
rewrite /= in s1 s2.
exists (mk [:: ((1%N, a), x1)]), (mk [:: ((1%N, b), x2)]).
have -> : rtp_bases dim [:: one_irrep a; one_irrep b] = Ok [:: ([:: 0%N], mk [:: ((1%N, a), x1)]); ([:: 1%N], mk [:: ((1%N, b), x2)])].
  by rewrite /rtp_bases /= e1 /= e2.
have w1 : wfb dim [:: dim a; 1]%N ((1%N, a), x1) by [].
have w2 : wfb dim [:: 1; dim b]%N ((1%N, b), x2) by [].
rewrite /reduce_basis_product (proj1 (ss_one w1)); cbn [rbind]; rewrite (proj2 (ss_one w1)); cbn [rbind].
rewrite (proj1 (ss_one w2)); cbn [rbind]; rewrite (proj2 (ss_one w2)); cbn [rbind].
rewrite !blocks_mk /= mu /=.
have [qs [-> wq hq lq]] : exists qs, [/\ mapR (prod_one dim cgL ((1%N, a), x1) ((1%N, b), x2)) irs = Ok qs,
    List.Forall (wfb dim [:: dim a; dim b]) qs, List.Forall (fun q => (0 < q.1.1)%N /\ List.Forall (fun c => is_cg c.1 c.2) (bcols q)) qs &
    [seq q.1.2 | q <- qs] = irs].
  have h ir : ir \in irs -> _ := fun hi => @prod_one_ok x1 x2 ir hi s1 s2 _ _.
  have {}h ir : ir \in irs -> exists q, [/\ prod_one dim cgL ((1%N, a), x1) ((1%N, b), x2) ir = Ok q,
    wfb dim [:: dim a; dim b] q, q.1.2 = ir, (0 < q.1.1)%N & List.Forall (fun c => is_cg c.1 c.2) (bcols q)].
    move=> hi; apply: h => // [i k ii kk|j k jj kk].
      by apply: (g1 [:: i; 0%N]) => //; rewrite /= !valid_cons valid_nil ii.
    by apply: (g2 [:: 0%N; j]) => //; rewrite /= !valid_cons valid_nil jj.
  suff gen s : {subset s <= irs} -> exists qs, [/\ mapR (prod_one dim cgL ((1%N, a), x1) ((1%N, b), x2)) s = Ok qs,
    List.Forall (wfb dim [:: dim a; dim b]) qs, List.Forall (fun q => (0 < q.1.1)%N /\ List.Forall (fun c => is_cg c.1 c.2) (bcols q)) qs &
    [seq q.1.2 | q <- qs] = s] by exact: gen.
  elim: s => [|ir s IH] sb; first by exists [::]; split=> //=; constructor.
  have [q [eq wq lq q0 cq]] := h ir (sb _ (mem_head _ _)).
  have [|qs [es ws hs ls]] := IH; first by move=> i hi; apply: sb; rewrite inE hi orbT.
  by exists (q :: qs); split; rewrite /= ?eq /= ?es ?lq ?ls //; constructor.
rewrite /= cats0; have qn0 : (0 < size qs)%N by rewrite -(size_map (fun q => q.1.2)) lq; case: (irs) i0.
have wl : wf dim [:: dim a; dim b] qs by [].
rewrite (ia_new_wf wl); cbn [rbind]; rewrite (ia_sortedE lt wl); cbn [rbind].
have P := sortb_perm lt qs.
have ws := wf_perm (Permutation_sym P) wl.
have [l el [wl' ce lab]] := simplifyP ws; rewrite el; exists l; split=> //.
  have p0 : List.Forall (fun q : blk => (0 < q.1.1)%N) (sortb lt qs).
    by apply: (Permutation_Forall' (Permutation_sym P)); apply: List.Forall_impl hq => q [].
  have p1 := simp_pos p0 el; apply: Forall_and p1 _.
  have : List.Forall (fun c => is_cg c.1 c.2) (cols l).
    have : List.Forall (fun c => is_cg c.1 c.2) (cols (sortb lt qs)).
      apply: (Permutation_Forall' (cols_perm (Permutation_sym P))); apply: Forall_flatten.
      by elim: (qs) hq => [|q s IH] h /=; constructor; [exact: (proj2 (List.Forall_inv h)) | exact: IH (List.Forall_inv_tail h)].
    elim: ce => [|c c' s t [e h] _ IH] hf; constructor; last exact: IH (List.Forall_inv_tail hf).
    have [h1 [cg [z [w [h2 h3 h4 h5]]]]] := List.Forall_inv hf; rewrite /is_cg e; split=> //; exists cg, z, w; split=> // i j k hi hj hk.
    by rewrite h ?h5 // ?e // !valid_cons valid_nil hi hj.
  elim: (l) => [|q s IH] /=; first by constructor.
  by rewrite cols1 => /List.Forall_app[h1 h2]; constructor; [|exact: IH].
move=> ir hir; have : ir \in [seq q.1.2 | q <- l].
  have mm (s : seq L) : merged s =i s.
    case: s => [|c s] //=; elim: s c => [|c' s IH] c i //=.
    by case: ifP => [/eqP <-|_]; rewrite ?inE IH !inE // orbA orbb.
  rewrite lab mm; have : ir \in [seq q.1.2 | q <- qs] by rewrite lq.
  by rewrite (perm_mem (Permutation_perm (Permutation_map' (fun q : blk => q.1.2) P))).
elim: (l) => [|q s IH] //=; rewrite inE => /orP[/eqP ->|/IH[q' h e]]; first by exists q => //; left.
by exists q' => //; right.
Qed.
End Two.
