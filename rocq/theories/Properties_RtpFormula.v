(** Properties_RtpFormula: reduced_tensor_product_basis of a formula returns a basis of the
    tensors that have the symmetry written in the formula (C75). *)
From Coq Require Import ZArith String Ascii List Permutation.
From mathcomp Require Import all_ssreflect all_algebra all_fingroup.
From mathcomp Require Import zify.
From Verif Require Import Base Nd NdProofs Reps RepOps Reduced Labels LabelProofs Su2 Su2Cg Su2CgProofs Su2CgEq Su2Proofs So3Proofs Su2Irr SoCg SoCgProofs So13Proofs Sl2c LinAlg BiProofs CgGenProofs.
From Verif Require Import Perm PermProofs Closure RedPerm RedPermProofs RedPermBasis RedPermSub Rtp RtpArr RtpLoop RtpPres RtpEqv RtpStab RtpReal RtpSym RtpSymAll RtpTwo RtpCon RtpSpan RtpFull RtpFullCon RtpFullAll RtpDense RtpInd RtpIndAll RtpFormula RtpFormulaP.
From Verif Require Import Properties_Cg Properties_SoCg Properties_Rtp Properties_RtpInst Properties_RtpSym Properties_RedPerm Properties_RtpSq Properties_RtpFull Properties_RtpInd.

Set Implicit Arguments.
Unset Strict Implicit.
Unset Printing Implicit Defensive.

Import Order.POrderTheory GRing.Theory Num.Theory.
Local Open Scope ring_scope.

(** * Specification *)
Section Spec.
Variable C : numClosedFieldType.
(** T[f0] = T[w] for the terms w of the formula (-T[w] for -w), whatever the values v of the
    indices. *)
Definition formula_symmetric (ds : seq nat) (f0 : seq nat) (ts : seq (bool * seq nat)) (T : seq nat -> C) : Prop :=
  forall t (v : nat -> nat), t \in ts -> valid ds (map v f0) -> T (map v f0) = (if t.1 then -1 else 1) * T (map v t.2).
(** A formula f0 = t1 = t2 ... whose terms are rearrangements of the distinct indices f0. *)
Definition formula_ok (f0 : seq nat) (ts : seq (bool * seq nat)) : Prop :=
  [/\ plain f0, all (fun t => plain t.2) ts, uniq f0 & all (fun t : bool * seq nat => perm_eq t.2 f0) ts].
End Spec.

Section Sym.
Variable C : numClosedFieldType.
Variables (f0 : seq nat) (ts : seq (bool * seq nat)) (fuel : nat).
Hypothesis fok : formula_ok f0 ts.
Hypothesis lf : (2 * (size f0)`! < fuel)%N.
Local Notation n := (size f0).

Lemma nth_word (t : bool * seq nat) (x : 'S_n) v : perm_eq t.2 f0 -> places f0 t.2 x ->
  [seq nth 0%N (map v t.2) i | i <- pseq x] = map v f0.
Proof.
move=> pe /forallP h; have sw := perm_size pe.
apply: (@eq_from_nth _ 0%N); rewrite size_map size_pseq ?size_map // => k hk.
rewrite (nth_map 0%N) ?size_pseq // (nth_pseq x (Ordinal hk)) (nth_map 0%N) ?sw ?ltn_ord //.
by rewrite (eqP (h (Ordinal hk))) (nth_map 0%N).
Qed.
Lemma acts_comp idx (x y : 'S_n) : size idx = n ->
  [seq nth 0%N [seq nth 0%N idx i | i <- pseq x] i | i <- pseq y] = [seq nth 0%N idx i | i <- pseq (y * x)%g].
Proof.
move=> sz; apply: (@eq_from_nth _ 0%N); rewrite size_map size_pseq ?(size_map, size_pseq) // => k hk.
rewrite !(nth_map 0%N) ?size_pseq // ?(nth_pseq _ (Ordinal hk)) ?nth_pseq ?permM //.
Qed.
Lemma acts1 idx : size idx = n -> [seq nth 0%N idx i | i <- pseq (1%g : 'S_n)] = idx.
Proof.
move=> sz; apply: (@eq_from_nth _ 0%N); rewrite size_map size_pseq // => k hk.
by rewrite !(nth_map 0%N) ?size_pseq // (nth_pseq _ (Ordinal hk)) perm1.
Qed.
Lemma valid_act ds idx p : size ds = n -> perm_eq p (iota 0 n) ->
  (forall i, (i < n)%N -> nth 0%N ds (nth 0%N p i) = nth 0%N ds i) ->
  valid ds idx -> valid ds [seq nth 0%N idx i | i <- p].
Proof.
move=> sd pe hd /valid_nth[sz hv]; have sp : size p = n by rewrite (perm_size pe) size_iota.
apply/valid_nth; rewrite size_map sp sd; split=> // i hi.
by rewrite (nth_map 0%N) ?sp // -(hd _ hi); apply: hv; rewrite sd; exact: permeq_nth_lt pe hi.
Qed.

(** The symmetry of the group that the formula generates is the symmetry that it states. *)
Lemma formula_symmetricP G ds (T : seq nat -> C) : germinate_perm_repr fuel (render ((false, f0) :: ts)) = Ok (f0, G) ->
  size ds = n -> (forall s p i, (s, p) \in G -> (i < n)%N -> nth 0%N ds (nth 0%N p i) = nth 0%N ds i) ->
  tensor_symmetric ds G T <-> formula_symmetric ds f0 ts T.
Proof.
case: fok => p0 pt u0 pe eg sd hd.
have [r [B [eg' LB HB]]] := germinate_perm_reprP p0 pt u0 pe lf; move: eg'; rewrite eg => -[er]; subst r.
have sgP b : (bsgn b)%:~R = (if b then -1 else 1) :> C by case: b; rewrite ?mulrN1z.
have sq b : (bsgn b)%:~R * (bsgn b)%:~R = 1 :> C by rewrite sgP; case: b; rewrite ?mulrNN mulr1.
have inG x : x \in B -> senc x \in G by move=> hx; apply/(clists_memP _ LB); exists x.
have pp (x : 'S_n) : perm_eq (pseq x) (iota 0 n) by have := pseq_perm x; rewrite is_permE size_pseq.
have va x idx : x \in B -> valid ds idx -> valid ds [seq nth 0%N idx i | i <- pseq x.2].
  by move=> /inG hx; apply: valid_act => // i hi; exact: hd hx hi.
have szv idx : valid ds idx -> size idx = n by case/valid_nth => ->; rewrite sd.
have inv1 (x : 'S_n) idx : size idx = n -> [seq nth 0%N [seq nth 0%N idx i | i <- pseq x^-1%g] i | i <- pseq x] = idx.
  by move=> sz; rewrite acts_comp // mulgV acts1.
have inv2 (x : 'S_n) idx : size idx = n -> [seq nth 0%N [seq nth 0%N idx i | i <- pseq x] i | i <- pseq x^-1%g] = idx.
  by move=> sz; rewrite acts_comp // mulVg acts1.
split=> h.
  move=> t v ht vd; have pw : perm_eq t.2 f0 by apply: (allP pe).
  have [x _ px] := word_perm u0 pw.
  have gx : gen (@sinv n) (@smul n) (formula_gens f0 ((false, f0) :: ts) n) (t.1, x).
    by apply: gen_in; rewrite inE; apply/hasP; exists t; rewrite ?inE ?ht ?orbT //= eqxx.
  have /HB hb := gx; have /HB hi := gen_inv gx; rewrite /sinv /= in hi.
  have ew := nth_word v pw px.
  have eqw : [seq nth 0%N (map v f0) i | i <- pseq x^-1%g] = map v t.2.
    by rewrite -ew inv2 // size_map (perm_size pw).
  by rewrite (h _ _ _ (inG _ hi) vd) eqw sgP.
suff key x : gen (@sinv n) (@smul n) (formula_gens f0 ((false, f0) :: ts) n) x ->
    forall idx, valid ds idx -> T idx = (bsgn x.1)%:~R * T [seq nth 0%N idx i | i <- pseq x.2].
  by move=> s p idx /(clists_memP _ LB)[x /HB/key hx [-> ->]]; exact: hx.
elim=> {x} [x hA|x gx IH|x y gx IHx gy IHy] idx vi; last 2 first.
- have /HB hi := gen_inv gx; have vi' := va _ _ hi vi; rewrite /sinv /= in vi' *.
  by rewrite (IH _ vi') inv1 ?szv // mulrA sq mul1r.
- by have /HB hx := gx; rewrite (IHx _ vi) (IHy _ (va _ _ hx vi)) acts_comp ?szv // mulrA -intrM bsgnM.
move: hA; rewrite inE => /hasP[t ht /andP[/eqP et px]].
have hb : x \in B by apply/HB; apply: gen_in; rewrite inE; apply/hasP; exists t; rewrite ?et ?eqxx.
have pw : perm_eq t.2 f0 by move: ht; rewrite inE => /orP[/eqP -> //|]; exact: (allP pe).
pose v c := nth 0%N idx (index c t.2); have ei : idx = map v t.2.
  apply: (@eq_from_nth _ 0%N); rewrite ?size_map szv ?(perm_size pw) // => k hk.
  by rewrite (nth_map 0%N) ?(perm_size pw) // /v index_uniq ?(perm_size pw) // (perm_uniq pw).
have ew := nth_word v pw px; rewrite -ei in ew.
have vf : valid ds (map v f0) by rewrite -ew; exact: va.
rewrite ew -et; move: ht; rewrite inE => /orP[/eqP e|ht]; first by rewrite {1}ei e /= mul1r.
by rewrite (h _ _ ht vf) -ei sgP mulrA; case: t.1; rewrite ?mulrNN ?mulr1 mul1r.
Qed.
End Sym.

(** * The representations of the indices *)
Section Reps.
Variable C : numClosedFieldType.
Variable L : eqType.
Notation rrep := (seq (nat * L) * option (nd C))%type.
Variable heap : nat -> rrep.
Variables (f0 : seq nat) (G : seq sp).
Hypothesis uf : uniq f0.
Hypothesis GG : signed_group (size f0) G.

(** The keyword arguments are accepted exactly when they are representations of indices of
    the formula, related indices that are given have the same object, and every index is
    related to one that is given. *)
Theorem C75_accepted kw G' : G' =i G ->
  (exists irr, formula_reps heap f0 G' kw = Ok irr) <-> well_given f0 G kw.
Proof.
move=> eG; have [h1 h2] := formula_repsP heap uf GG eG kw.
by split=> [[irr /h2[]]|/h1].
Qed.
(** An index has the representation given for any index that is related to it; in
    particular the order in which the group is iterated over does not matter. *)
Theorem C75_value kw G' irr : G' =i G -> formula_reps heap f0 G' kw = Ok irr ->
  size irr = size f0 /\ forall c c' o, related f0 G c c' -> kw_obj kw c' = Some o ->
    nth ([::], None) irr (index c f0) = obj_rep heap kw o.
Proof.
move=> eG e; have [_ h2] := formula_repsP heap uf GG eG kw; have [_ [sz h]] := h2 _ e.
split=> // c c' o r k; have [hc _] := related_mem GG r.
by apply: h k; rewrite ?index_mem ?nth_index.
Qed.
(** The representation that a keyword argument stands for. *)
Definition given_rep (x : arg L) : rrep :=
  match x with
  | ArgIrrep ir => ([:: (1%N, ir)], None)
  | ArgMul m ir => ([:: (m, ir)], None)
  | ArgRep i => heap i
  | ArgOther => ([::], None)
  end.
(** Every keyword argument is the representation of the index that it names, and of those
    related to it. *)
Theorem C75_given kw G' irr c c' x : G' =i G -> formula_reps heap f0 G' kw = Ok irr -> uniq [seq p.1 | p <- kw] ->
  List.In ([:: c'], x) kw -> related f0 G c c' -> nth ([::], None) irr (index c f0) = given_rep x.
Proof.
move=> eG e u hin r; have [_ v] := C75_value eG e.
have [no _ _ _] : well_given f0 G kw by apply/(C75_accepted kw eG); exists irr.
have [k hk ek] := @In_nth _ ([::], ArgOther L) _ _ hin.
have ei : index [:: c'] [seq p.1 | p <- kw] = k.
  have := congr1 fst ek; rewrite /= -(nth_map ([::], ArgOther L) [::] fst hk) => <-.
  by rewrite index_uniq // size_map.
have ex : nth (ArgOther L) [seq p.2 | p <- kw] k = x by rewrite (nth_map ([::], ArgOther L)) // ek.
have nx : ~~ is_other x.
  apply/negP => ox; case/negP: no; apply/(has_nthP ([::], ArgOther L)); exists k; rewrite ?ek //.
have ko : kw_obj kw c' = Some (if x is ArgRep i then inl i else inr k) by rewrite /kw_obj ei hk ex.
rewrite (v _ _ _ r ko); case: x ex nx {ek hin ko} => [ir|m ir|i|] ex //= _; by rewrite ex.
Qed.
Theorem C75_order kw G1 G2 irr : G1 =i G -> G2 =i G -> formula_reps heap f0 G1 kw = Ok irr ->
  formula_reps heap f0 G2 kw = Ok irr.
Proof.
move=> e1 e2 h1; have wg : well_given f0 G kw by apply/(C75_accepted kw e1); exists irr.
have [irr2 h2] := (C75_accepted kw e2).2 wg; rewrite h2; congr Ok.
have [s1 v1] := C75_value e1 h1; have [s2 v2] := C75_value e2 h2; case: wg => _ _ _ ha.
apply: (@eq_from_nth _ ([::], None)); rewrite s2 ?s1 // => k hk.
have [c' [o [r ko]]] := ha _ (mem_nth 0%N hk).
by have := v1 _ _ _ r ko; have := v2 _ _ _ r ko; rewrite index_uniq // => -> ->.
Qed.
Theorem C75_fixes kw G' irr : G' =i G -> formula_reps heap f0 G' kw = Ok irr -> fixes irr G.
Proof.
move=> eG e s p i hp; have [sz v] := C75_value eG e; rewrite sz => hi.
have [_ _ _ ha] : well_given f0 G kw by apply/(C75_accepted kw eG); exists irr.
have lp := permeq_nth_lt (sg_perm GG hp) hi.
have [c' [o [r ko]]] := ha _ (mem_nth 0%N hi).
have r' : related f0 G (nth 0%N f0 (nth 0%N p i)) c'.
  have r1 : related f0 G (nth 0%N f0 i) (nth 0%N f0 (nth 0%N p i)) by exists s, p, i.
  exact: (related_trans uf GG (related_sym GG r1) r).
by have := v _ _ _ r ko; have := v _ _ _ r' ko; rewrite !index_uniq // => -> ->.
Qed.
End Reps.

(** * The whole function *)
Section Main.
Variable C : numClosedFieldType.
Notation nd := (nd C).
Notation id_ := (fun x : nd => x).
Variable L : eqType.
Variable lt : rel L.
Variable dim : L -> nat.
Variable mulL : L -> L -> res (seq L).
Variable cgL : L -> L -> L -> res nd.
Variable eigh : nd -> res (nd * nd).
Variable ford : seq nat -> seq nat.
Variable gord : seq sp -> seq sp.
Hypothesis gordP : forall G, gord G =i G.
Notation rrep := (seq (nat * L) * option nd)%type.
Variable heap : nat -> rrep.

(** The representations irr of the indices f0: those of the indices that are given, and
    those of the indices that the terms of the formula put in their places. *)
Definition index_reps (f0 : seq nat) (ts : seq (bool * seq nat)) (kw : seq (seq nat * arg L)) (irr : seq rrep) : Prop :=
  [/\ size irr = size f0,
      forall c o, c \in f0 -> kw_obj kw c = Some o -> nth ([::], None) irr (index c f0) = obj_rep heap kw o &
      forall t k, t \in ts -> (k < size f0)%N -> nth ([::], None) irr (index (nth 0%N t.2 k) f0) = nth ([::], None) irr k].
(** The columns of a are a basis of the tensors with the symmetry of the formula. *)
Definition formula_basis (f0 : seq nat) (ts : seq (bool * seq nat)) (irr : seq rrep) (irs : seq (nat * L)) (a : nd) : Prop :=
  independent (map (rdim dim) irr) (total_dim dim irs) a /\
  forall T, in_span (map (rdim dim) irr) (total_dim dim irs) a T <-> formula_symmetric (map (rdim dim) irr) f0 ts T.

Local Lemma main fuel1 fuel f0 ts kw : formula_ok f0 ts -> (2 * (size f0)`! < fuel1)%N ->
  (size f0 = 1%N -> all (fun t => ~~ t.1) ts) ->
  (forall c o, kw_obj kw c = Some o -> real_rep (obj_rep heap kw o)) ->
  (forall irr G, List.Forall (@real_rep C _) irr -> signed_group (size irr) G -> fixes irr G ->
    (size irr = 1%N -> (-1, iota 0 (size irr)) \notin G) ->
    small_eps (fun e : C => forall irs a xs, rtp_out lt dim mulL cgL id_ eigh e ford fuel irr G = Ok (irs, a, xs) ->
      independent (map (rdim dim) irr) (total_dim dim irs) a /\
      forall T, in_span (map (rdim dim) irr) (total_dim dim irs) a T <-> tensor_symmetric (map (rdim dim) irr) G T)) ->
  small_eps (fun e : C => forall irs a xs, rtp_formula heap lt dim mulL cgL id_ eigh e ford gord fuel1 fuel (render ((false, f0) :: ts)) kw = Ok (irs, a, xs) ->
    exists2 irr, index_reps f0 ts kw irr & formula_basis f0 ts irr irs a).
Proof.
move=> fok lf n1 rl H; have [p0 pt u0 pe] := fok.
have [G [B [eg LB HB]]] := germinate_perm_reprP p0 pt u0 pe lf.
have GG := C07_formula_signed_group p0 pt u0 pe lf eg.
rewrite /rtp_formula eg /=; case er: (formula_reps heap f0 (gord G) kw) => [irr|] /=; last first.
  by exists 1; rewrite ?ltr01.
have eG := gordP G; have [sz v] := C75_value u0 GG eG er; have fx := C75_fixes u0 GG eG er.
have [_ _ _ ha] : well_given f0 G kw by apply/(C75_accepted heap u0 GG kw eG); exists irr.
have rr : List.Forall (@real_rep C _) irr.
  apply: (@nth_Forall' _ _ ([::], None)) => k; rewrite sz => hk.
  have [c' [o [r ko]]] := ha _ (mem_nth 0%N hk).
  by have := v _ _ _ r ko; rewrite index_uniq // => ->; exact: rl ko.
have GG' : signed_group (size irr) G by rewrite sz.
have ng : size irr = 1%N -> (-1, iota 0 (size irr)) \notin G.
  rewrite sz => /n1 pos; apply/negP => /(clists_memP _ LB)[x /HB gx [e1 _]].
  suff e : x.1 = false by rewrite e in e1.
  elim: {e1} gx => {x} [x|x _ //|x y _ ex _ ey]; last by rewrite /smul /= ex ey.
  rewrite inE => /hasP[t ht /andP[/eqP <- _]]; move: ht; rewrite inE => /orP[/eqP -> //|ht].
  by apply: negbTE; exact: (allP pos).
have ds_ : size (map (rdim dim) irr) = size f0 by rewrite size_map.
have hd s p i : (s, p) \in G -> (i < size f0)%N -> nth 0%N (map (rdim dim) irr) (nth 0%N p i) = nth 0%N (map (rdim dim) irr) i.
  move=> hp hi; have lp := permeq_nth_lt (sg_perm GG hp) hi.
  by rewrite !(nth_map ([::], None)) ?sz // (fx _ _ _ hp) // sz.
apply: ev_imp (H irr G rr GG' fx ng) => e _ h irs a xs /h[h1 h2]; exists irr.
  split=> // [c o hc ko|t k ht hk]; first exact: (v c c o (related_refl GG hc) ko).
  have pw : perm_eq t.2 f0 by exact: (allP pe).
  have [x _ /forallP px] := word_perm u0 pw.
  have hw : nth 0%N t.2 k \in f0 by rewrite -(perm_mem pw) mem_nth // (perm_size pw).
  have hj : (index (nth 0%N t.2 k) f0 < size f0)%N by rewrite index_mem.
  have := px (Ordinal hj); rewrite /= nth_index // nth_uniq ?(perm_size pw) ?ltn_ord ?(perm_uniq pw) // => /eqP ek.
  have hx : senc (t.1, x) \in G.
    apply/(clists_memP _ LB); exists (t.1, x) => //; apply/HB; apply: gen_in.
    by rewrite inE; apply/hasP; exists t; rewrite ?inE ?ht ?orbT //= eqxx; apply/forallP.
  by have := fx _ _ (index (nth 0%N t.2 k) f0) hx; rewrite sz => /(_ hj); rewrite (nth_pseq x (Ordinal hj)) ek => ->.
split=> // T; apply: iff_trans (h2 T) _; exact: (formula_symmetricP fok lf T eg ds_ hd).
Qed.
End Main.

Section Inst.
Variable C : numClosedFieldType.
Notation nd := (nd C).
Notation id_ := (fun x : nd => x).
Variable eigh : nd -> res (nd * nd).
Hypothesis eighP : eigh_correct_real eigh.
Let ford_id (f : seq nat) := f.
Variable gord : seq sp -> seq sp.
Hypothesis gordP : forall G, gord G =i G.

Theorem C75_su2 (heap : nat -> seq (nat * nat) * option nd) fuel1 fuel f0 ts kw :
  formula_ok f0 ts -> (2 * (size f0)`! < fuel1)%N -> (size f0 = 1%N -> all (fun t => ~~ t.1) ts) ->
  (forall c o, kw_obj kw c = Some o -> real_rep (obj_rep heap kw o)) ->
  small_eps (fun e : C => forall irs a xs,
    rtp_formula heap ltn S su2_mulN (su2_cg C) id_ eigh e ford_id gord fuel1 fuel (render ((false, f0) :: ts)) kw = Ok (irs, a, xs) ->
    exists2 irr, index_reps heap f0 ts kw irr & formula_basis S f0 ts irr irs a).
Proof.
move=> fok lf n1 rl; apply: main => // irr G rr GG fx ng.
apply: ev_imp (ev_and (C73_su2 eighP fuel rr GG fx) (C72_su2 eighP fuel rr GG fx ng)) => e _ [h1 h2] irs a xs er.
by split; [exact: h1 er | exact: h2 er].
Qed.
Theorem C75_o3 (heap : nat -> seq (nat * (nat * bool)) * option nd) fuel1 fuel f0 ts kw :
  formula_ok f0 ts -> (2 * (size f0)`! < fuel1)%N -> (size f0 = 1%N -> all (fun t => ~~ t.1) ts) ->
  (forall c o, kw_obj kw c = Some o -> real_rep (obj_rep heap kw o)) ->
  small_eps (fun e : C => forall irs a xs,
    rtp_formula heap o3_ltN o3_dimN o3_mulN (o3_cgN C) id_ eigh e ford_id gord fuel1 fuel (render ((false, f0) :: ts)) kw = Ok (irs, a, xs) ->
    exists2 irr, index_reps heap f0 ts kw irr & formula_basis o3_dimN f0 ts irr irs a).
Proof.
move=> fok lf n1 rl; apply: main => // irr G rr GG fx ng.
apply: ev_imp (ev_and (C73_o3 eighP fuel rr GG fx) (C72_o3 eighP fuel rr GG fx ng)) => e _ [h1 h2] irs a xs er.
by split; [exact: h1 er | exact: h2 er].
Qed.
Theorem C75_z2 (heap : nat -> seq (nat * bool) * option nd) fuel1 fuel f0 ts kw :
  formula_ok f0 ts -> (2 * (size f0)`! < fuel1)%N -> (size f0 = 1%N -> all (fun t => ~~ t.1) ts) ->
  (forall c o, kw_obj kw c = Some o -> real_rep (obj_rep heap kw o)) ->
  small_eps (fun e : C => forall irs a xs,
    rtp_formula heap z2_ltN (fun=> 1%N) z2_mulN (z2_cgN C) id_ eigh e ford_id gord fuel1 fuel (render ((false, f0) :: ts)) kw = Ok (irs, a, xs) ->
    exists2 irr, index_reps heap f0 ts kw irr & formula_basis (fun=> 1%N) f0 ts irr irs a).
Proof.
move=> fok lf n1 rl; apply: main => // irr G rr GG fx ng.
apply: ev_imp (ev_and (C73_z2 eighP fuel rr GG fx) (C72_z2 eighP fuel rr GG fx ng)) => e _ [h1 h2] irs a xs er.
by split; [exact: h1 er | exact: h2 er].
Qed.
End Inst.

(** ** Giving both indices of ij=ji the same irrep raises: the two ReducedRep objects that
    _to_reducedrep creates are different *)
Section Same.
Variable C : numClosedFieldType.
Variable L : eqType.
Variable heap : nat -> seq (nat * L) * option (nd C).
Theorem C75_same_irrep_refuted lt dim mulL cgL rnd eigh eps ford gord fuel1 fuel (ir : L) : (forall G, gord G =i G) -> (4 < fuel1)%N ->
  rtp_formula heap lt dim mulL cgL rnd eigh eps ford gord fuel1 fuel [:: 105; 106; 61; 106; 105]%N%SEQ
    [:: ([:: 105%N], ArgIrrep ir); ([:: 106%N], ArgIrrep ir)] = Err RuntimeError.
Proof.
move=> gP lf; pose f0 := [:: 105; 106]%N%SEQ; pose ts := [:: (false, [:: 106; 105]%N%SEQ)].
have [G [B [eg LB HB]]] : exists r B, [/\ germinate_perm_repr fuel1 (render ((false, f0) :: ts)) = Ok (f0, r),
    clists (@senc 2) r B & forall x, (x \in B) <-> gen (@sinv 2) (@smul 2) (formula_gens f0 ((false, f0) :: ts) 2) x].
  by apply: (@germinate_perm_reprP fuel1 f0 ts).
have GG : signed_group (size f0) G by apply: C07_formula_signed_group eg.
have [x ex px] : exists2 x : 'S_2, mapR (fun i => pyindex [:: 106; 105]%N%SEQ i) f0 = Ok (pseq x) & places f0 [:: 106; 105]%N%SEQ x by apply: (@word_perm f0).
have hx : senc (false, x) \in G.
  apply/(clists_memP _ LB); exists (false, x) => //; apply/HB; apply: gen_in.
  by rewrite inE; apply/hasP; exists (false, [:: 106; 105]%N%SEQ); rewrite ?inE ?eqxx ?orbT.
have r : related f0 G 105 106.
  by exists 1, (pseq x), 0%N; split=> //; move: ex => -[<-].
rewrite /rtp_formula (_ : [:: 105; 106; 61; 106; 105]%N%SEQ = render ((false, f0) :: ts)) // eg; cbn [rbind fst snd].
rewrite /formula_reps /=; have := (pairsP GG 105%N 106%N (gP G)).2 r; rewrite propagateE; set d := (X in foldR _ X); move: (RtpFormulaP.pairs _ _) => ps hp.
have er d0 : (exists d', foldR prop_pair d0 ps = Ok d') \/ foldR prop_pair d0 ps = Err RuntimeError.
  elim: ps {hp} d0 => [|[i j] ps IH] d0 /=; first by left; exists d0.
  rewrite {1 3}/prop_pair /=; case: (dget d0 [:: i]) => [a|]; case: (dget d0 [:: j]) => [b|] //=; by case: eqP => //= _; right.
case: (er d) => [[d' e]|->] //=.
have [m1 m2 _] := @run_inv (fun _ _ => True) (fun _ _ _ => I) (fun _ _ _ _ _ => I) ps d d' (fun _ _ => I) e.
by have := m2 _ (inr 0%N) hp erefl; rewrite (m1 [:: 106%N] (inr 1%N)).
Qed.
End Same.

(** ** The symmetric and the antisymmetric square of an irrep of SU2, from the formulas ij=ji
    and ij=-ji *)
Section Square.
Variable C : numClosedFieldType.
Notation id_ := (fun x : nd C => x).
Let ford_id (f : seq nat) := f.
Variable heap : nat -> seq (nat * nat) * option (nd C).
Variable gord : seq sp -> seq sp.
Hypothesis gordP : forall G, gord G =i G.
Local Notation ij_ji := [:: 105; 106; 61; 106; 105]%N%SEQ.
Local Notation ij_mji := [:: 105; 106; 61; 45; 106; 105]%N%SEQ.
Local Notation f0 := [:: 105; 106]%N%SEQ.
Local Notation kw n := [:: ([:: 105%N], ArgIrrep n)].

Lemma square_reps n s : s = 1 \/ s = -1 -> formula_reps heap f0 (gord (rev (swap_group s))) (kw n) = Ok [:: one_irrep C n; one_irrep C n].
Proof.
move=> hs; have hG : swap_of s (rev (swap_group s)) by right.
have GG : signed_group (size f0) (rev (swap_group s)) := swap_signed' hs hG.
apply: (@C75_order C _ heap f0 (rev (swap_group s)) isT GG (kw n) (rev (swap_group s))) => //.
Qed.
Theorem C75_symmetric_square n eigh fuel1 fuel : eigh_correct_real eigh -> (4 < fuel1)%N ->
  small_eps (fun eps : C => exists r, rtp_formula heap ltn S su2_mulN (su2_cg C) id_ eigh eps ford_id gord fuel1 fuel.+1 ij_ji (kw n) = Ok r).
Proof.
move=> eP; case: fuel1 => [|[|[|[|[|k]]]]] // _.
have e : germinate_perm_repr k.+4.+1 ij_ji = Ok (f0, rev (swap_group 1)) by vm_compute.
have hG : swap_of 1 (rev (swap_group 1)) by right.
apply: ev_imp (symmetric_succeeds n fuel eP hG) => eps _ [r er]; exists r.
by rewrite /rtp_formula e; cbn [rbind fst snd]; rewrite square_reps; [exact: er | left].
Qed.
Theorem C75_antisymmetric_square_refuted n rnd eigh eps fuel1 fuel r : (4 < fuel1)%N ->
  rtp_formula heap ltn S su2_mulN (su2_cg C) rnd eigh eps ford_id gord fuel1 fuel ij_mji (kw n) <> Ok r.
Proof.
case: fuel1 => [|[|[|[|[|k]]]]] // _.
have e : germinate_perm_repr k.+4.+1 ij_mji = Ok (f0, rev (swap_group (-1))) by vm_compute.
have hG : swap_of (-1) (rev (swap_group (-1))) by right.
rewrite /rtp_formula e; cbn [rbind fst snd]; rewrite square_reps; last by right.
exact: antisymmetric_raises hG.
Qed.
End Square.

(** Three indices, two of them related: the representation given for i is found for j. *)
Example C75_example (C : numClosedFieldType) (heap : nat -> seq (nat * nat) * option (nd C)) :
  let f0 := [:: 105; 106; 107]%N%SEQ in let ts := [:: (false, [:: 106; 105; 107]%N%SEQ)] in
  formula_ok f0 ts /\ render ((false, f0) :: ts) = [:: 105; 106; 107; 61; 106; 105; 107]%N%SEQ /\
  (do fr <- germinate_perm_repr 13 (render ((false, f0) :: ts));
   formula_reps heap fr.1 fr.2 [:: ([:: 105%N], ArgIrrep 1%N); ([:: 107%N], ArgRep _ 4)]) = Ok [:: one_irrep C 1%N; one_irrep C 1%N; heap 4%N].
Proof. by split; [split | split]. Qed.

Print Assumptions C75_accepted.
Print Assumptions C75_value.
Print Assumptions C75_given.
Print Assumptions C75_order.
Print Assumptions C75_fixes.
Print Assumptions C75_su2.
Print Assumptions C75_o3.
Print Assumptions C75_z2.
Print Assumptions C75_same_irrep_refuted.
Print Assumptions C75_symmetric_square.
Print Assumptions C75_antisymmetric_square_refuted.
