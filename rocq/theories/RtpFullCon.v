(** RtpFullCon: the constraint by the permutation basis (Rtp.v) keeps all the symmetric
    tensors. *)
From Coq Require Import ZArith String Ascii List Permutation.
From mathcomp Require Import all_ssreflect all_algebra.
From mathcomp Require Import zify.
From Verif Require Import Base Nd NdProofs Reps RepOps Sl2c LinAlg BiProofs.
From Verif Require Import Perm RedPerm RedPermBasis RedPermSub Rtp RtpArr RtpLoop RtpPres RtpEqv RtpStab RtpReal RtpSym RtpSymAll RtpCon RtpSpan RtpFull.

Set Implicit Arguments.
Unset Strict Implicit.
Unset Printing Implicit Defensive.

Import Order.POrderTheory GRing.Theory Num.Theory.
Local Open Scope ring_scope.
Local Notation actp := RedPerm.act.

Section Ops.
Variable C : numClosedFieldType.
Notation nd := (nd C).
Variable L : eqType.
Variable dim : L -> nat.
Notation mi := (nat * L)%type.
Notation blk := (mi * nd)%type.
Notation rrep := (seq mi * option nd)%type.
Notation dims irr := (map (rdim dim) irr).
Local Notation rr0 := (([::] : seq mi), (None : option nd)).
Section One.
Variable X : rrep -> nat -> nat -> C.
Local Notation acts := (acts dim X).
Lemma acts0_ext (irr : seq rrep) s (f g : seq nat -> C) k : all (fun i => (i < size irr)%N) s ->
  (forall idx, valid (dims irr) idx -> f idx = g idx) ->
  forall idx, valid (dims irr) idx -> acts irr s (fun j _ => f j) idx k = acts irr s (fun j _ => g j) idx k.
Proof.
move=> al e; elim: s al => [_|i s IH /= /andP[hi hs]] idx v; first exact: e.
apply: eq_bigr => l _; congr (_ * _); apply: IH => //.
rewrite -(masked_dims dim irr); apply: valid_upd; rewrite ?masked_dims ?size_map ?mem_iota //.
by rewrite (nth_map rr0).
Qed.
Lemma acts0_lin (irr : seq rrep) s c (f g : seq nat -> C) idx k :
  acts irr s (fun j _ => f j + c * g j) idx k = acts irr s (fun j _ => f j) idx k + c * acts irr s (fun j _ => g j) idx k.
Proof.
elim: s idx => [|i s IH] idx //=; rewrite /RtpEqv.act mulr_sumr -big_split /=; apply: eq_bigr => l _.
by rewrite IH mulrDr; congr (_ + _); rewrite mulrCA.
Qed.
End One.

(** The operators of the generators on the tensors. *)
Variables (I J : Type) (Yc : I -> L -> nat -> nat -> C) (Yd : J -> L -> nat -> nat -> C).
Variables (Xc : I -> rrep -> nat -> nat -> C) (Xd : J -> rrep -> nat -> nat -> C).
Definition YY (t : I + J) := match t with inl t => Yc t | inr t => Yd t end.
Definition AA (irr : seq rrep) (t : I + J) (f : seq nat -> C) (idx : seq nat) : C :=
  match t with
  | inl t => \sum_(i <- iota 0 (size irr)) RtpEqv.act dim (Xc t) irr i (fun j _ => f j) idx 0%N
  | inr t => acts dim (Xd t) irr (iota 0 (size irr)) (fun j _ => f j) idx 0%N
  end.
Lemma AA_linop irr t : linop (dims irr) (AA irr t).
Proof.
case: t => t; split.
- move=> f g e idx v /=; rewrite big_seq [RHS]big_seq; apply: eq_bigr => i; rewrite mem_iota add0n => /= hi.
  have al : all (fun i => (i < size irr)%N) [:: i] by rewrite /= hi.
  exact: (acts0_ext (Xc t) 0 al e v).
- move=> c f g idx v /=; rewrite mulr_sumr -big_split /=; apply: eq_bigr => i _.
  exact: (acts0_lin (Xc t) irr [:: i]).
- by move=> f g e idx v /=; apply: acts0_ext e _ v; exact: iota_lt.
- by move=> c f g idx v /=; apply: acts0_lin.
Qed.
Lemma AA_relabel irr t p f idx : perm_eq p (iota 0 (size irr)) ->
  (forall i, (i < size irr)%N -> nth rr0 irr (nth 0%N p i) = nth rr0 irr i) -> size idx = size irr ->
  AA irr t f (actp idx p) = AA irr t (fun i => f (actp i p)) idx.
Proof.
move=> pe cst si; case: t => t /=.
  exact: (@act_all C L dim (Xc t) irr p pe cst (fun j _ => f j) idx 0%N si).
exact: (@acts_all C L dim (Xd t) irr p pe cst (fun j _ => f j) idx 0%N si).
Qed.
Lemma AA_sym irr G t f : signed_group (size irr) G ->
  (forall s p i, (s, p) \in G -> (i < size irr)%N -> nth rr0 irr (nth 0%N p i) = nth rr0 irr i) ->
  symT (dims irr) G f -> symT (dims irr) G (AA irr t f).
Proof.
move=> GG cst h s p idx hp v; have si : size idx = size irr by rewrite (valid_size v) size_map.
rewrite (AA_relabel _ _ (sg_perm GG hp) (fun i => @cst s p i hp) si) -(linop_scale _ _ (AA_linop irr t) v).
by apply: (proj1 (AA_linop irr t)) => // i vi; apply: h.
Qed.
Lemma AA_eqv irr (q : blk) : 
  (forall t u, (u < q.1.1)%N -> eqv dim (Yc t) (Xc t) irr (iota 0 (size irr)) q.1.2 (fun idx k => get q.2 (idx ++ [:: u; k]))) ->
  (forall t u, (u < q.1.1)%N -> eqvH dim (Yd t) (Xd t) irr (iota 0 (size irr)) q.1.2 (fun idx k => get q.2 (idx ++ [:: u; k]))) ->
  (forall t, gens_ok dim (Yc t) (Xc t) irr) -> (forall t, gens_ok dim (Yd t) (Xd t) irr) ->
  blk_eqv dim YY (dims irr) (AA irr) q.
Proof.
move=> hc hd okc okd [] t u k idx hu hk v /=.
  by rewrite (hc t u hu (okc t) idx k) ?masked_dims.
rewrite (hd t u hu (okd t) idx k) ?masked_dims //.
by rewrite (acts_k dim (Xd t) irr (iota 0 (size irr)) (fun i k => get q.2 (i ++ [:: u; k])) k idx 0%N).
Qed.
End Ops.

(** A sum over a list with one nonzero term. *)
Lemma big_lab (R : ringType) (A : Type) (B : eqType) (lab : A -> B) (F : A -> R) (s : seq A) p : uniq (map lab s) -> List.In p s ->
  (forall p', List.In p' s -> lab p' != lab p -> F p' = 0) -> \sum_(p' <- s) F p' = F p.
Proof.
elim: s => //= x s IH /andP[nx un] hp h; rewrite big_cons.
have hm y : List.In y s -> lab y \in map lab s.
  by elim: s {IH nx un hp h} => //= z s IHs [->|/IHs hy]; rewrite inE ?eqxx // hy orbT.
case: hp => [e|hp].
  rewrite -e; suff -> : \sum_(p' <- s) F p' = 0 by rewrite addr0.
  have {}h : forall p', List.In p' s -> F p' = 0.
    by move=> y hy; apply: h; [right | apply: contra nx => /eqP ey; rewrite e -ey; apply: hm].
  elim: s h {IH nx un hm} => [|z s IHs] h; rewrite ?big_nil // big_cons h ?add0r; [|by left].
  by apply: IHs => y hy; apply: h; right.
rewrite h ?add0r; [|by left|]; last by apply: contra nx => /eqP ->; apply: hm.
by apply: IH => // y hy; apply: h; right.
Qed.

Section Con.
Variable C : numClosedFieldType.
Notation nd := (nd C).
Notation id_ := (fun x : nd => x).
Variable L : eqType.
Variable dim : L -> nat.
Variable eigh : nd -> res (nd * nd).
Hypothesis eighP : eigh_correct_real eigh.
Variable ford : seq nat -> seq nat.
Hypothesis ford_id : forall f, sorted ltn f -> ford f = f.
Notation mi := (nat * L)%type.
Notation blk := (mi * nd)%type.
Notation rrep := (seq mi * option nd)%type.
Notation dims irr := (map (rdim dim) irr).
Local Notation rr0 := (([::] : seq mi), (None : option nd)).
Variables (I J : Type) (Yc : I -> L -> nat -> nat -> C) (Yd : J -> L -> nat -> nat -> C).
Hypothesis dn : dense dim (YY Yc Yd).
Local Notation Xc := (fun t => gen_of dim (Yc t)).
Local Notation Xd := (fun t => gen_of dim (Yd t)).
(** A real and equivariant column. *)
Definition Pq (irr : seq rrep) f ir (g : seq nat -> nat -> C) : Prop :=
  [/\ Pr dim irr f ir g, bounded irr f -> forall t, eqv dim (Yc t) (Xc t) irr f ir g &
      bounded irr f -> forall t, eqvH dim (Yd t) (Xd t) irr f ir g].

Section Group.
Variables (irr : seq rrep) (G : seq sp).
Local Notation n := (size irr).
Hypothesis rl : reals dim irr.
Hypothesis GG : signed_group n G.
Hypothesis cst : forall s p i, (s, p) \in G -> (i < n)%N -> nth rr0 irr (nth 0%N p i) = nth rr0 irr i.
Hypothesis okc : forall t, gens_ok dim (Yc t) (Xc t) irr.
Hypothesis okd : forall t, gens_ok dim (Yd t) (Xd t) irr.

Lemma symF_symT (T : seq nat -> C) : symF dim G irr (iota 0 n) T <-> symT (dims irr) G T.
Proof.
rewrite /symF /symT masked_dims; split=> h s p idx hp; last by move=> _; apply: h.
by apply: h => // i hi; rewrite mem_iota hi.
Qed.
Lemma block_one (q : blk) (perm : nd) k s (z : nat -> C) k0 (l' : seq blk) : 
  blk_eqv dim (YY Yc Yd) (dims irr) (AA dim Xc Xd irr) q -> (k0 < dim q.1.2)%N ->
  con_block dim (dims irr) q.1.1 q.1.2 q.2 perm k s -> (forall p, List.In p s -> List.In p l') ->
  (exists2 c : nat -> C, forall idx, valid (dims irr) idx ->
      \sum_(u < q.1.1) z u * get q.2 (idx ++ [:: u : nat; 0%N]) = \sum_(i < k) c i * get perm [:: i : nat; ravel (dims irr) idx] &
    forall i, (i < k)%N -> c i != 0 -> exists2 idx, valid (dims irr) idx &
      (get perm [:: i; ravel (dims irr) idx] != 0) && (\sum_(u < q.1.1) z u * get q.2 (idx ++ [:: u : nat; 0%N]) != 0)) ->
  spn (dims irr) (ents dim l') (fun idx => \sum_(u < q.1.1) z u * get q.2 (idx ++ [:: u : nat; k0])).
Proof.
move=> eq hk0 [v [P [y [es sy gy _ hd]]]] hin [c hc hm].
have d0 : (0 < dim q.1.2)%N by apply: leq_ltn_trans hk0.
have [i hi ci|d {}hd] := hd z c hc.
  have [idx vi /andP[n1 n2]] := hm i hi ci; have [u hu] : exists u : 'I_q.1.1, get q.2 (idx ++ [:: u : nat; 0%N]) != 0.
    apply/existsP; move: n2; apply: contraR; rewrite negb_exists => /forallP h; rewrite big1 // => u _.
    by have := h u; rewrite negbK => /eqP ->; rewrite mulr0.
  by exists idx, u.
pose e u := z u - \sum_(w < v) d w * P w u.
have e0 idx : valid (dims irr) idx -> \sum_(u < q.1.1) e u * get q.2 (idx ++ [:: u : nat; 0%N]) = 0.
  move=> vi; rewrite /e; under eq_bigr do rewrite mulrBl.
  rewrite sumrB hd // -[RHS](subrr (\sum_(w < v) d w * \sum_(u < q.1.1) P w u * get q.2 (idx ++ [:: u : nat; 0%N]))); congr (_ - _).
  under eq_bigr do rewrite mulr_suml.
  rewrite exchange_big /=; apply: eq_bigr => w _; rewrite mulr_sumr; apply: eq_bigr => u _; by rewrite mulrA.
have [O aO hO] := @dn [:: q.1.2] q.1.2 0%N k0 isT (mem_head _ _) d0 hk0.
pose zl : seq (blk * (nat -> nat -> C)) := [:: (q, fun u k => e u * (k == 0%N)%:R)].
have h0 : forall idx, valid (dims irr) idx -> TT dim (zap dim O zl) idx = 0.
  have := @closure C L dim (I + J)%type (YY Yc Yd) (dims irr) (AA dim Xc Xd irr) (AA_linop dim Xc Xd irr)
    (fun f => forall idx, valid (dims irr) idx -> f idx = 0) _ _ _ O aO zl; apply.
  - by move=> f g efg hf idx vi; rewrite -efg // hf.
  - by move=> a f g hf hg idx vi; rewrite hf // hg // mulr0 addr0.
  - move=> t f hf idx vi; rewrite -[RHS](linop0 (AA_linop dim Xc Xd irr t) vi).
    exact: (proj1 (AA_linop dim Xc Xd irr t)).
  - by constructor.
  - move=> idx vi; rewrite /TT big_cons big_nil addr0 -[RHS](e0 idx vi); apply: eq_bigr => u _ /=.
    rewrite (bigD1 (Ordinal d0)) //= mulr1 big1 ?addr0 // => k' ne.
    case: eqP => [ek|_]; rewrite ?mulr0 ?mul0r //; case/eqP: ne; exact: val_inj.
apply: (@spn_ext _ _ _ (fun idx => \sum_(w < v) d w * get y (idx ++ [:: w : nat; k0]))).
  move=> idx vi; have := h0 idx vi; rewrite /TT /zap big_cons big_nil addr0 /=.
  have -> : \sum_(u < q.1.1) \sum_(k1 < dim q.1.2) (\sum_(k' < dim q.1.2) e u * (k' == 0%N :> nat)%:R * O q.1.2 k' k1) * get q.2 (idx ++ [:: u : nat; k1 : nat])
     = \sum_(u < q.1.1) e u * get q.2 (idx ++ [:: u : nat; k0]).
    apply: eq_bigr => u _; rewrite (bigD1 (Ordinal hk0)) //= [X in _ + X]big1 ?addr0 => [|k1 ne].
      rewrite (bigD1 (Ordinal d0)) //= [X in _ + X]big1 ?addr0 => [|k' ne].
        by rewrite hO ?mem_head // !eqxx !mulr1.
      case: eqP => [ek|_]; rewrite ?mulr0 ?mul0r //; case/eqP: ne; exact: val_inj.
    rewrite big1 ?mul0r // => k' _; rewrite hO ?mem_head //.
    case: (k1 =P k0 :> nat) => [ek|_]; first by case/eqP: ne; exact: val_inj.
    by rewrite andbF mulr0.
  have -> : \sum_(u < q.1.1) e u * get q.2 (idx ++ [:: u : nat; k0]) = \sum_(u < q.1.1) z u * get q.2 (idx ++ [:: u : nat; k0])
      - \sum_(u < q.1.1) (\sum_(w < v) d w * P w u) * get q.2 (idx ++ [:: u : nat; k0]).
    by rewrite -sumrB; apply: eq_bigr => u _; rewrite mulrBl.
  move=> /eqP; rewrite subr_eq0 => /eqP ->.
  under [RHS]eq_bigr do rewrite mulr_suml.
  rewrite [RHS]exchange_big /=; apply: eq_bigr => w _; rewrite gy // mulr_sumr; apply: eq_bigr => u _.
  by rewrite mulrA.
apply: spn_sum => w; have v0 : (0 < v)%N by apply: leq_ltn_trans (ltn_ord w).
have := @spn_gen C L dim (dims irr) l' ((v, q.1.2), y) w k0; apply=> //.
by apply: hin; rewrite es v0; left.
Qed.

Lemma constrain_full l pb : size (subrepr_permutation (iota 0 n) G) <> 1%N ->
  subgroup_perm C ford (iota 0 n) G (dims irr) = Ok pb -> Inv dim Pq irr (iota 0 n) (mk l) -> uniq [seq q.1.2 | q <- l] ->
  Full dim G irr (iota 0 n) (mk l) ->
  ev (fun e => forall b, constrain dim id_ eigh e (mk l) pb = Ok b -> Full dim G irr (iota 0 n) b).
Proof.
move=> n1 eS [l0 [el [_ w] /Pcs_cols hl]] ul fu.
have {}el : l0 = l by rewrite -(blocks_mk l) el blocks_mk.
subst l0; rewrite /constrain blocks_mk.
case: (posnP (nprod (dims irr))) => [nz|nz].
  by apply: ev_true => e _ b _ T _; apply: spn_empty; rewrite masked_dims.
case: (passert _) => [_|?] /=; last by apply: ev_true.
case ef: (flat2 pb) => [perm|] /=; last by apply: ev_true.
have rp : allreal perm by apply: flat2_real ef; exact: subgroup_perm_real eS.
have sz : size (dims irr) = n by rewrite size_map.
have := @perm_basis_ok C ford ford_id G (dims irr); rewrite sz => /(_ GG _ n1 nz); case=> [|k [pb' [[eS' _ _ hk] _]]].
  by move=> s p i hp hi; exact: (cst_dims dim GG cst hp hi).
have {eS'} epb : pb' = pb by move: eS'; rewrite eS => -[].
subst pb'; have {hk} [sp _ hk] := hk _ ef.
have pq q : List.In q l -> Pcs Pq irr (iota 0 n) (bcols q) by move=> hq; exact: (proj1 (List.Forall_forall _ _) hl _ hq).
have eqq q : List.In q l -> blk_eqv dim (YY Yc Yd) (dims irr) (AA dim Xc Xd irr) q.
  move=> hq; apply: AA_eqv => // t u hu; have [_ h1 h2] := bcols_Pcs (pq q hq) hu; [apply: h1 | apply: h2]; exact: iota_lt.
have hb q : List.In q l -> ev (fun e => forall t, constrain_one id_ eigh e perm q = Ok t -> (0 < q.1.1)%N -> (0 < dim q.1.2)%N ->
    con_block dim (dims irr) q.1.1 q.1.2 q.2 perm k t).
  move=> hq; have wq := proj1 (List.Forall_forall _ _) w _ hq; rewrite masked_dims in wq.
  have [m0|m0] := posnP q.1.1; first by apply: ev_true => e _ t _; rewrite ?m0.
  have [d0|d0] := posnP (dim q.1.2); first by apply: ev_true => e _ t _ _; rewrite ?d0.
  move: wq m0 d0 (pq q hq); case: q {hq} => -[m ir] x wq m0 d0 pqq.
  apply: ev_imp (constrain_one_span eighP wq m0 d0 _ rp sp); first by move=> e _ [_ h] t et _ _; exact: h.
  move=> idx u vi hu; have [h _ _] := bcols_Pcs pqq hu; apply: (h (iota_lt n) rl idx 0%N) => //.
  by rewrite masked_dims.
apply: ev_imp (ev_forall hb) => e _ he b; case els: (mapR _ _) => [ls|] //= /ia_new_inv[-> _ _] T hT.
rewrite -/(blocks (mk (flatten ls))) !blocks_mk masked_dims.
have hT' := proj1 (symF_symT T) hT.
have := fu T hT; rewrite blocks_mk masked_dims => /spn_TT[zl ezl eT].
apply: (@spn_ext _ _ _ (fun idx => \sum_(p <- zl) 1 * \sum_(k0 < dim p.1.1.2) 1 * \sum_(u < p.1.1.1) p.2 u k0 * get p.1.2 (idx ++ [:: u : nat; k0 : nat]))).
  move=> idx vi; rewrite eT // /TT; apply: eq_bigr => p _; rewrite mul1r exchange_big /=.
  by apply: eq_bigr => k0 _; rewrite mul1r.
apply: spn_bigs => p hp; apply: spn_sum => k0; have d0 : (0 < dim p.1.1.2)%N by apply: leq_ltn_trans (ltn_ord k0).
case: (posnP p.1.1.1) => [m0|m0].
  by apply: spn_ext (spn0 _ _) => idx _; rewrite m0 big_ord0.
have hq : List.In p.1 l by rewrite -ezl; apply/List.in_map_iff; exists p.
have [s [es hs]] := mapR_In' els hq.
have hcon := proj1 (List.Forall_forall _ _) he _ hq s es m0 d0.
have hin r : List.In r s -> List.In r (flatten ls) by move=> hr; apply/In_flatten; exists s.
apply: (@block_one p.1 perm k s (fun u => p.2 u k0) k0 (flatten ls) (eqq _ hq) (ltn_ord k0) hcon hin).
apply: hk.
have uz : uniq (map (fun p : blk * (nat -> nat -> C) => p.1.1.2) zl) by move: ul; rewrite -ezl -map_comp.
have [O aO hO] := @dn _ p.1.1.2 k0 0%N uz (ltac:(by apply: InP; apply/List.in_map_iff; exists p)) (ltn_ord k0) d0.
have hz : List.Forall (fun p0 : blk * (nat -> nat -> C) => blk_eqv dim (YY Yc Yd) (dims irr) (AA dim Xc Xd irr) p0.1) zl.
  by apply/List.Forall_forall => p' hp'; apply: eqq; rewrite -ezl; apply/List.in_map_iff; exists p'.
have S_ext (f g : seq nat -> C) : (forall idx, valid (dims irr) idx -> f idx = g idx) -> symT (dims irr) G f -> symT (dims irr) G g.
  move=> efg hf s' p' idx hp' vi; rewrite -!efg //; first exact: hf.
  by apply: valid_actp vi; [exact: (sg_perm GG hp') | move=> i; exact: (cst hp')].
have := @closure C L dim (I + J)%type (YY Yc Yd) (dims irr) (AA dim Xc Xd irr) (AA_linop dim Xc Xd irr)
    (symT (dims irr) G) S_ext _ _ O aO zl hz (S_ext _ _ eT hT').
move=> hcl; apply: S_ext (hcl _ _) => [idx vi||].
- rewrite /TT /zap big_map (@big_lab _ _ _ (fun p : blk * (nat -> nat -> C) => p.1.1.2) _ zl p uz hp) /= => [|p' hp' ne].
    apply: eq_bigr => u _; rewrite (bigD1 (Ordinal d0)) //= [X in _ + X]big1 ?addr0 => [|k1 ne].
      rewrite (bigD1 k0) //= [X in _ + X]big1 ?addr0 => [|k' ne].
        by rewrite hO ?eqxx ?mulr1 //; apply: InP; apply/List.in_map_iff; exists p.
      rewrite hO ?eqxx //; last by apply: InP; apply/List.in_map_iff; exists p.
      by case: eqP => [ek|_]; rewrite ?mulr0 ?mul0r //; case/eqP: ne; exact: val_inj.
    rewrite big1 ?mul0r // => k' _; rewrite hO //; last by apply: InP; apply/List.in_map_iff; exists p.
    case: (k1 =P 0%N :> nat) => [ek|_]; first by case/eqP: ne; exact: val_inj.
    by rewrite andbF mulr0.
  rewrite big1 // => u _; rewrite big1 // => k1 _; rewrite big1 ?mul0r // => k' _.
  by rewrite hO ?(negPf ne) ?mulr0 //; apply: InP; apply/List.in_map_iff; exists p'.
- move=> c f g hf hg s' p' idx hp' vi; rewrite (hf s' p' idx hp' vi) (hg s' p' idx hp' vi) mulrDr; congr (_ + _).
  by rewrite mulrCA.
- by move=> t f hf; apply: AA_sym.
Qed.
End Group.
End Con.
