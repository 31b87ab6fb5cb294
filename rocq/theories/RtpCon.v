(** RtpCon: when constrain_rotation_basis_by_permutation_basis succeeds on a block. *)
From Coq Require Import ZArith String Ascii List Permutation.
From mathcomp Require Import all_ssreflect all_algebra.
From mathcomp Require Import zify.
From Verif Require Import Base Nd NdProofs Reps RepOps Labels SoCg Sl2c LinAlg BiProofs.
From Verif Require Import Perm RedPerm RedPermBasis RedPermSub Rtp RtpArr RtpLoop RtpPres RtpEqv RtpStab RtpReal RtpSym.
From Verif Require Import Properties_Bi Properties_RtpInst.

Set Implicit Arguments.
Unset Strict Implicit.
Unset Printing Implicit Defensive.

Import Order.POrderTheory GRing.Theory Num.Theory.
Local Open Scope ring_scope.

Section Ex.
Variable C : numClosedFieldType.
Notation nd := (nd C).
Notation id_ := (fun x : nd => x).
Variable L : eqType.
Variable dim : L -> nat.
Variable eigh : nd -> res (nd * nd).
Hypothesis eighP : eigh_correct_real eigh.

(** The rows that are kept. *)
Lemma perm_opt_rows k n2 m (perm R : nd) : shape perm = [:: k; n2] -> shape R = [:: m; n2] -> exists l,
  [/\ shape (perm_opt perm R) = [:: size l; n2],
      forall j t, get (perm_opt perm R) [:: j; t] = get perm [:: nth 0%N l j; t],
      forall i, (i \in l) = (i < k)%N && has (fun c => (get perm [:: i; c] != 0) && has (fun u => get R [:: u; c] != 0) (iota 0 m)) (iota 0 n2) &
      uniq l].
Proof.
move=> sp sR; pose cs := [seq c <- iota 0 n2 | ~~ all (fun u => get R [:: u; c] == 0) (iota 0 m)].
exists [seq p <- iota 0 k | ~~ all (fun c => get perm [:: p; c] == 0) cs]; split.
- by rewrite /perm_opt /select0 /len sR sp.
- by move=> j t; rewrite /perm_opt /select0 /len sR sp.
2: by rewrite filter_uniq ?iota_uniq.
move=> i; rewrite mem_filter mem_iota add0n /= andbC; congr (_ && _).
rewrite -has_predC; apply/hasP/hasP => -[c].
  by rewrite mem_filter -has_predC => /andP[h hc] /= n0; exists c => //; rewrite n0.
by move=> hc /andP[n0 h]; exists c; rewrite // mem_filter -has_predC h.
Qed.

Lemma constrain_one_inv ld m ir (x : nd) : wfb dim ld ((m, ir), x) -> (0 < m)%N -> (0 < dim ir)%N ->
  exists R, [/\ shape R = [:: m; nprod ld], forall u idx, (u < m)%N -> valid ld idx -> get R [:: u; ravel ld idx] = get x (idx ++ [:: u; 0%N]) &
    forall (perm : nd) rnd e, constrain_one rnd eigh e perm ((m, ir), x) =
    (do PP <- basis_intersection rnd eigh e R (perm_opt perm R);
     if (0 < len PP.1)%N then do y <- einsum_P PP.1 x; Ok [:: ((len PP.1, ir), y)] else Ok [::])].
Proof.
move=> wx m0 d0; have sx : shape x = ld ++ [:: m; dim ir] by [].
case ea: (at_last0 x) => [R0|er]; last first.
  by move: ea; rewrite /at_last0 /lastdim sx last_cat /= size_cat addn2; case: (dim ir) d0.
have sR0 : shape R0 = ld ++ [:: m].
  move: ea; rewrite /at_last0 /lastdim sx last_cat /= size_cat addn2; case: (dim ir) d0 sx => //= d _ sx [<-] /=.
  by rewrite /initdims sx size_cat addn2 /= take_cat ltnNge leqnSn /= subSnn.
case er: (reshape R0 [:: (nprod (shape R0) %/ m)%N; m]) => [R|e']; last first.
  by move: er; rewrite /reshape sR0 nprod_cat /= !muln1 mulnK ?eqxx.
have [_ sR gR] := block_R wx ea m0 er; exists (transpose2 R); split=> // perm rnd e.
by rewrite /constrain_one /= ea /=; case: (posnP m) m0 => // m0 _; rewrite er.
Qed.

(** No row meets the support of the block. *)
Lemma constrain_one_empty ld m ir (x perm : nd) k rnd e r : wfb dim ld ((m, ir), x) -> (0 < m)%N -> (0 < dim ir)%N ->
  shape perm = [:: k; nprod ld] ->
  (forall idx u i, valid ld idx -> (u < m)%N -> (i < k)%N -> get x (idx ++ [:: u; 0%N]) != 0 -> get perm [:: i; ravel ld idx] = 0) ->
  constrain_one rnd eigh e perm ((m, ir), x) <> Ok r.
Proof.
move=> wx m0 d0 sp h; have [R [sR gR ->]] := constrain_one_inv wx m0 d0.
have [l [so _ il _]] := perm_opt_rows sp sR.
have l0 : size l = 0%N.
  case El: l il => [|i l'] // /(_ i); rewrite inE eqxx /= => /esym/andP[hi /hasP[c]].
  rewrite mem_iota add0n => /= hc /andP[n0 /hasP[u]]; rewrite mem_iota add0n => /= hu n1.
  have := h (unravel ld c) u i (unravel_valid hc) hu hi; rewrite unravelK // => h'; case/eqP: n0; apply: h'.
  by rewrite -gR ?unravelK // unravel_valid.
rewrite /basis_intersection sR so l0 /= eqxx /=; case: (flat2 R) => //= f1.
by rewrite /flat2 /len so l0.
Qed.

(** A row that meets the support of the block. *)
Definition meets ld m (x perm : nd) i : Prop := exists idx u, [/\ valid ld idx, (u < m)%N, get x (idx ++ [:: u; 0%N]) != 0 &
  get perm [:: i; ravel ld idx] != 0].
(** The block that is returned: the columns with component 0 in the span of the rows that meet the block;
    the rows of P are independent. *)
Definition con_block ld m (ir : L) (x perm : nd) k (s : seq (nat * L * nd)) : Prop := exists v (P : nat -> nat -> C) y,
  [/\ s = (if (0 < v)%N then [:: ((v, ir), y)] else [::]), shape y = ld ++ [:: v; dim ir],
     forall idx c j, valid ld idx -> (c < v)%N -> (j < dim ir)%N ->
       get y (idx ++ [:: c; j]) = \sum_(u < m) P c u * get x (idx ++ [:: u : nat; j]),
     forall d : nat -> C, (forall u, (u < m)%N -> \sum_(c < v) d c * P c u = 0) -> forall c, (c < v)%N -> d c = 0 &
     forall z c : nat -> C, (forall idx, valid ld idx ->
         \sum_(u < m) z u * get x (idx ++ [:: u : nat; 0%N]) = \sum_(i < k) c i * get perm [:: i : nat; ravel ld idx]) ->
       (forall i, (i < k)%N -> c i != 0 -> meets ld m x perm i) ->
       exists d : nat -> C, forall idx, valid ld idx ->
         \sum_(u < m) z u * get x (idx ++ [:: u : nat; 0%N]) =
         \sum_(w < v) d w * \sum_(u < m) P w u * get x (idx ++ [:: u : nat; 0%N])].

Lemma constrain_one_span ld m ir (x perm : nd) k : wfb dim ld ((m, ir), x) -> (0 < m)%N -> (0 < dim ir)%N ->
  (forall idx u, valid ld idx -> (u < m)%N -> get x (idx ++ [:: u; 0%N]) \is Num.real) ->
  allreal perm -> shape perm = [:: k; nprod ld] ->
  ev (fun e => (forall i, (i < k)%N -> meets ld m x perm i -> exists s, constrain_one id_ eigh e perm ((m, ir), x) = Ok s) /\
    forall s, constrain_one id_ eigh e perm ((m, ir), x) = Ok s -> con_block ld m ir x perm k s).
Proof.
move=> wx m0 d0 hx rp sp; have [R [sR gR eR]] := constrain_one_inv wx m0 d0.
have [l [so gl il ul]] := perm_opt_rows sp sR.
have ml i : (i < k)%N -> meets ld m x perm i -> i \in l.
  move=> hi [idx [u [vi hu n0 n1]]]; rewrite il hi; apply/hasP; exists (ravel ld idx); rewrite ?mem_iota ?add0n ?ravel_lt // n1.
  by apply/hasP; exists u; rewrite ?mem_iota // gR.
case: (posnP (size l)) => [z|l0].
  apply: ev_true => e _; split=> [i hi /(ml _ hi)|s]; first by case: (l) z.
  by rewrite eR (C62_empty eigh e sR so) //; right.
have rR : nd_real R.
  move=> idx; rewrite sR; case: idx => [|u [|c' [|]]] // /andP[_] /=; rewrite andbT => /andP[hu hc'].
  by have := gR u _ hu (unravel_valid hc'); rewrite unravelK //= => ->; apply: hx => //; exact: unravel_valid.
have ro : nd_real (perm_opt perm R) by move=> idx _; exact: perm_opt_real.
have [e0 [p0 h]] := C62_intersection eighP sR so m0 l0 rR ro.
exists e0 => // e h1 h2; have {h} [y1 [y2 [eb [v [v' [s1 [_ [o1 _ sb]]]]]]]] := h e h1 h2.
have sx : shape x = ld ++ [:: m; dim ir] by [].
have n2 (s : seq nat) a c' : nth 0%N (s ++ [:: a; c']) (size s + 2 - 2) = a by rewrite addnK nth_cat ltnn subnn.
have n1 (s : seq nat) a c' : nth 0%N (s ++ [:: a; c']) (size s + 2 - 1) = c'.
  by rewrite addn2 subn1 nth_cat /= ltnNge leqnSn /= subSnn.
have lx : lead x = ld by rewrite /lead sx size_cat addnK take_size_cat.
have [y ey [sy gy]] : exists2 y, einsum_P y1 x = Ok y & shape y = ld ++ [:: v; dim ir] /\ forall idx c j, valid ld idx ->
    get y (idx ++ [:: c; j]) = \sum_(u < m) get y1 [:: c; u : nat] * get x (idx ++ [:: u : nat; j]).
  rewrite /einsum_P s1 sx size_cat /= lx n2 n1 eqxx ltnNge leq_addl /=; eexists; first by reflexivity.
  split=> // idx c j vi /=; have sz := valid_size vi; rewrite -sz n2 n1 addnK take_size_cat //.
rewrite eR eb /= /len s1 /= ey /=; split; first by move=> *; case: ifP => _; eexists.
move=> s es; exists v, (fun c u => get y1 [:: c; u]), y; split=> //.
- by move: es; case: (ltnP 0 v) => _ [<-].
- by move=> idx c j vi _ _; exact: gy.
- move=> d hd c hc; have : \row_(w < v) d w *m mx2 v m y1 = 0.
    by apply/rowP => u; rewrite !mxE; have e' := hd u (ltn_ord u); rewrite -[RHS]e'; apply: eq_bigr => w _; rewrite !mxE.
  move=> /(congr1 (fun A => A *m adj (mx2 v m y1))); rewrite -mulmxA o1 mulmx1 mul0mx => /rowP/(_ (Ordinal hc)).
  by rewrite !mxE.
move=> z c hz hc; set B1 := bmx _ _ _ in sb; set B2 := bmx _ _ _ in sb.
have B1E (u : 'I_m) t (ht : (t < nprod [:: nprod ld])%N) : B1 u (Ordinal ht) = get R [:: u : nat; t].
  by rewrite mxE /= divn1.
have B2E (i : 'I_(size l)) t (ht : (t < nprod [:: nprod ld])%N) : B2 i (Ordinal ht) = get perm [:: nth 0%N l i; t].
  have u1 : unravel [:: nprod ld] (Ordinal ht) = [:: t] by rewrite /= divn1.
  by rewrite mxE u1 gl.
pose t := (\row_(u < m) z u) *m B1.
have tE idx (vi : valid ld idx) : t 0 (Ordinal (ltac:(by rewrite /= muln1; exact: ravel_lt vi) : (ravel ld idx < nprod [:: nprod ld])%N))
    = \sum_(u < m) z u * get x (idx ++ [:: u : nat; 0%N]).
  by rewrite mxE; apply: eq_bigr => u _; rewrite mxE B1E gR.
have : (t <= mx2 v m y1 *m B1)%MS.
  have [e1 _] := sb t; rewrite e1; apply/andP; split; first exact: submxMl.
  apply/submxP; exists (\row_(i < size l) c (nth 0%N l i)); apply/rowP => -[j hj].
  have hj' : (j < nprod ld)%N by rewrite /= muln1 in hj.
  have vi := unravel_valid hj'.
  transitivity (\sum_(u < m) z u * get x (unravel ld j ++ [:: u : nat; 0%N])).
    by rewrite -(tE _ vi); congr (t 0 _); apply: val_inj; rewrite /= unravelK.
  rewrite hz // unravelK // mxE.
  transitivity (\sum_(i <- l) c i * get perm [:: i; j]); last first.
    by rewrite (big_nth 0%N) big_mkord; apply: eq_bigr => i _; rewrite mxE B2E.
  rewrite -(big_mkord xpredT (fun i => c i * get perm [:: i; j])) /index_iota subn0.
  rewrite (bigID (fun i => i \in l)) /= [X in _ + X]big1_seq ?addr0; last first.
    move=> i /andP[nl]; rewrite mem_iota add0n => /= hi; case: (eqVneq (c i) 0) => [->|n0]; first by rewrite mul0r.
    by case/negP: nl; apply: ml => //; apply: hc.
  rewrite -big_filter; apply: perm_big; apply: uniq_perm; rewrite ?filter_uniq ?iota_uniq // => i.
  by rewrite mem_filter mem_iota add0n il /=; case: (i < k)%N; rewrite ?andbF ?andbT.
case/submxP => d ed; exists (fun w => if insub w is Some i then d 0 i else 0) => idx vi.
rewrite -(tE idx vi) ed mxE; apply: eq_bigr => w _; rewrite valK; congr (_ * _).
by rewrite mxE; apply: eq_bigr => u _; rewrite B1E gR // mxE.
Qed.
End Ex.

(** The permutation basis spans the symmetric tensors. *)
Section PermBasis.
Variable C : numClosedFieldType.
Notation nd := (nd C).
Variable ford : seq nat -> seq nat.
Hypothesis ford_id : forall f, sorted ltn f -> ford f = f.
Definition symT dims (G : seq sp) (T : seq nat -> C) : Prop :=
  forall s p idx, (s, p) \in G -> valid dims idx -> T idx = s%:~R * T (RedPerm.act idx p).
Lemma perm_basis_ok (G : seq sp) dims : signed_group (size dims) G ->
  (forall s p i, (s, p) \in G -> (i < size dims)%N -> nth 0%N dims (nth 0%N p i) = nth 0%N dims i) ->
  size (subrepr_permutation (iota 0 (size dims)) G) <> 1%N -> (0 < nprod dims)%N ->
  exists k pb, [/\ subgroup_perm C ford (iota 0 (size dims)) G dims = Ok pb, shape pb = k :: dims,
    (0 < k)%N -> exists perm, flat2 pb = Ok perm &
    forall perm, flat2 pb = Ok perm -> [/\ shape perm = [:: k; nprod dims],
      forall i, (i < k)%N -> symT dims G (fun idx => get perm [:: i; ravel dims idx]) &
      forall T, symT dims G T -> exists2 c : nat -> C,
        forall idx, valid dims idx -> T idx = \sum_(i < k) c i * get perm [:: i : nat; ravel dims idx] &
        forall i, (i < k)%N -> c i != 0 -> exists2 idx, valid dims idx & (get perm [:: i; ravel dims idx] != 0) && (T idx != 0)]] /\
    (k = 0%N -> forall T, symT dims G T -> forall idx, valid dims idx -> T idx = 0).
Proof.
move=> GG cst /eqP/negbTE n1 nz; rewrite /subgroup_perm n1 ford_id ?iota_ltn_sorted // sub_dims_iota /reduce_subgroup_permutation n1 sub_dims_iota.
set n := size dims in GG cst *.
have SG : signed_group n (subrepr_permutation (iota 0 n) G).
  by have := subrepr_group GG (iota_uniq 0 n) (iota_lt n); rewrite size_iota.
have mS a : (a \in subrepr_permutation (iota 0 n) G) = (a \in G) by rewrite (subrepr_all GG) mem_undup.
have [||Q -> [sQ szr [_ sym cmp]]] := basis_ok C (dims := dims) SG; first by [].
  by move=> s p i; rewrite mS; apply: cst.
rewrite /= /reshape_m1 /n masked_all; case: (posnP (nprod dims)) nz => // nz _.
rewrite {1}/reshape /= mulnK // eqxx; set pb := Nd _ _; exists (size Q), pb.
have dv i e : valid dims e -> ((i * nprod dims + ravel dims e) %/ nprod dims = i)%N.
  by move/ravel_lt => h; rewrite divnMDl // divn_small // addn0.
have md i e : valid dims e -> ((i * nprod dims + ravel dims e) %% nprod dims = ravel dims e)%N.
  by move/ravel_lt => h; rewrite modnMDl modn_small.
have cmp' T : symT dims G T -> forall e, valid dims e -> T e = \sum_(i < size Q) (\sum_(e' <- full_base dims) nth 0 (nth [::] Q i) (flat e' dims) * T e') * nth 0 (nth [::] Q i) (flat e dims).
  move=> hT e ve; apply: cmp; rewrite ?valid_indexE // => e' s p; rewrite valid_indexE mS => v' hp; exact: hT.
split; last by move=> k0 T hT idx vi; rewrite cmp' // k0 big_ord0.
split=> //; first by move=> k0; rewrite /flat2 /len /=; case: (posnP (size Q)) k0 => // k0 _; rewrite mulKn // /reshape /= muln1 eqxx; eexists.
move=> perm; rewrite /flat2 /len /=; case: (posnP (size Q)) => // q0; rewrite mulKn // /reshape /= muln1 eqxx => -[<-].
set perm' := Nd _ _; have gp i e : valid dims e -> get perm' [:: i; ravel dims e] = nth 0 (nth [::] Q i) (flat e dims).
  move=> ve; have se := valid_size ve.
  by rewrite /= !muln1 !addn0 !(md _ _ ve) !ravelK // !(dv _ _ ve) !(md _ _ ve) !ravelK // flat_ravel.
split=> //.
- move=> i hi s p idx hp vi; have pe := sg_perm GG hp.
  have va : valid dims (RedPerm.act idx p).
    have sp : size p = n by rewrite (perm_size pe) size_iota.
    apply/valid_nth; rewrite /RedPerm.act size_map sp; split=> // j hj; rewrite (nth_map 0%N) ?sp //.
    have hpj : (nth 0 p j < n)%N by apply: permeq_nth_lt pe hj.
    by have /valid_nth[_ hv] := vi; rewrite -(cst s p j hp hj); apply: hv.
  by rewrite !gp //; apply: sym; rewrite ?valid_indexE // mS.
move=> T hT; exists (fun i => \sum_(e' <- full_base dims) nth 0 (nth [::] Q i) (flat e' dims) * T e').
  by move=> idx vi; rewrite cmp' //; apply: eq_bigr => i _; rewrite gp.
move=> i hi n0; case: (boolP (has (fun e => (nth 0 (nth [::] Q i) (flat e dims) != 0) && (T e != 0)) (full_base dims))) => [/hasP[e he h]|/hasPn h].
  have ve : valid dims e by rewrite -valid_indexE -mem_full_base.
  by exists e; rewrite ?gp.
case/eqP: n0; rewrite big1_seq // => e /andP[_ /h]; rewrite negb_and !negbK => /orP[/eqP ->|/eqP ->]; by rewrite ?mul0r ?mulr0.
Qed.
End PermBasis.
