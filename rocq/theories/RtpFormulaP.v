(** RtpFormulaP: how reduced_tensor_product_basis (RtpFormula.v) finds the representations
    of the indices of a formula. *)
From Coq Require Import ZArith String Ascii List Permutation.
From mathcomp Require Import all_ssreflect all_algebra.
From mathcomp Require Import zify.
From Verif Require Import Base Nd Reps Perm RedPerm RedPermBasis RedPermSub Rtp RtpArr RtpFormula.

Set Implicit Arguments.
Unset Strict Implicit.
Unset Printing Implicit Defensive.

(** The group carries the index named c to the index named c'. *)
Definition related (f0 : seq nat) (G : seq sp) (c c' : nat) : Prop :=
  exists s p k, [/\ (s, p) \in G, k < size f0, c = nth 0 f0 k & c' = nth 0 f0 (nth 0 p k)].

Section Rel.
Variables (f0 : seq nat) (G : seq sp).
Hypothesis uf : uniq f0.
Hypothesis GG : signed_group (size f0) G.
Local Notation n := (size f0).
Lemma related_mem c c' : related f0 G c c' -> c \in f0 /\ c' \in f0.
Proof.
case=> s [p [k [hp hk -> ->]]]; split; apply: mem_nth => //; exact: permeq_nth_lt (sg_perm GG hp) hk.
Qed.
Lemma related_refl c : c \in f0 -> related f0 G c c.
Proof.
move=> hc; have hi : index c f0 < n by rewrite index_mem.
by exists 1%R, (iota 0 n), (index c f0); rewrite (sg_id GG) nth_iota // add0n nth_index.
Qed.
Lemma related_sym c c' : related f0 G c c' -> related f0 G c' c.
Proof.
case=> s [p [k [hp hk -> ->]]]; have [q hq e] := sg_inv GG hp; rewrite /= in hq e.
have pe := sg_perm GG hp; have qe := sg_perm GG hq; have lk := permeq_nth_lt pe hk.
exists s, q, (nth 0 p k); split=> //; congr nth; apply: (permeq_inj pe) => //; first exact: permeq_nth_lt qe lk.
have sq : size q = n by rewrite (perm_size qe) size_iota.
have := congr1 (fun t => nth 0 t (nth 0 p k)) e; rewrite (nth_map 0) ?sq // nth_iota // add0n /= => ->.
Qed.
Lemma related_trans c c' c'' : related f0 G c c' -> related f0 G c' c'' -> related f0 G c c''.
Proof.
case=> s [p [k [hp hk -> ->]]] [t [q [k2 [hq hk2 e2 ->]]]].
have lk := permeq_nth_lt (sg_perm GG hp) hk.
have e : k2 = nth 0 p k by apply/eqP; rewrite -(nth_uniq 0 hk2 lk uf) e2.
have hm := sg_mul GG hq hp; rewrite /= in hm; exists (t * s)%R, [seq nth 0 q i | i <- p], k; split=> //.
by rewrite (nth_map 0) ?e // (perm_size (sg_perm GG hp)) size_iota.
Qed.
Definition pairs (G' : seq sp) : seq (nat * nat) := flatten [seq zip f0 [seq nth 0 f0 i | i <- a.2] | a : sp <- G'].
Lemma foldR_cat (S A : Type) (f : A -> S -> res A) a s t : foldR f a (s ++ t) = do b <- foldR f a s; foldR f b t.
Proof. by elim: s a => //= x s IH a; case: (f a x) => //= b. Qed.
Lemma propagateE G' d : propagate f0 G' d = foldR prop_pair d (pairs G').
Proof.
rewrite /propagate /pairs; elim: G' d => //= a G' IH d; rewrite foldR_cat.
by case: (foldR prop_pair d _) => //= b; rewrite IH.
Qed.
Lemma pairsP G' i j : G' =i G -> ((i, j) \in pairs G') <-> related f0 G i j.
Proof.
move=> eG; split.
  case/flattenP => _ /mapP[[s p] hp ->] /(nthP (0, 0))[k].
  rewrite eG in hp; have sp : size p = n by rewrite (perm_size (sg_perm GG hp)) size_iota.
  rewrite size_zip size_map sp minnn => hk; rewrite nth_zip ?size_map ?sp //= (nth_map 0) ?sp // => -[<- <-].
  by exists s, p, k.
case=> s [p [k [hp hk -> ->]]]; have sp : size p = n by rewrite (perm_size (sg_perm GG hp)) size_iota.
apply/flattenP; exists (zip f0 [seq nth 0 f0 i | i <- p]); first by apply/mapP; exists (s, p); rewrite ?eG.
apply/(nthP (0, 0)); exists k; first by rewrite size_zip size_map sp minnn.
by rewrite nth_zip ?size_map ?sp // (nth_map 0) ?sp.
Qed.
End Rel.

Section Reps.
Variable C : numClosedFieldType.
Variable L : eqType.
Notation rrep := (seq (nat * L) * option (nd C))%type.
Variable heap : nat -> rrep.
Notation kwargs := (seq (seq nat * arg L)).
(** The object that the caller gives for the index named c. *)
Definition kw_obj (kw : kwargs) (c : nat) : option obj :=
  let k := index [:: c] [seq p.1 | p <- kw] in
  if k < size kw then Some (if nth (ArgOther L) [seq p.2 | p <- kw] k is ArgRep i then inl i else inr k) else None.
Definition is_other (x : arg L) : bool := if x is ArgOther then true else false.

Lemma init_dictP (kw : kwargs) : if has (fun p => is_other p.2) kw then init_dict kw = Err AssertionError else
  exists2 d, init_dict kw = Ok d & [seq p.1 | p <- d] = [seq p.1 | p <- kw] /\ forall c, dget d [:: c] = kw_obj kw c.
Proof.
rewrite /init_dict; pose g (k : nat) (x : arg L) : obj := if x is ArgRep i then inl i else inr k.
have gen m : if has (fun p => is_other p.2) kw then
    mapR (fun p : nat * (seq nat * arg L) => do o <- to_reducedrep p.1 p.2.2; Ok (p.2.1, o)) (zip (iota m (size kw)) kw) = Err AssertionError
  else mapR (fun p : nat * (seq nat * arg L) => do o <- to_reducedrep p.1 p.2.2; Ok (p.2.1, o)) (zip (iota m (size kw)) kw) =
    Ok [seq (p.2.1, g p.1 p.2.2) | p <- zip (iota m (size kw)) kw].
  elim: kw m => //= -[k x] kw IH m /=; have := IH m.+1; case: x => [ir|mu ir|i|] //=; case: ifP => _ -> //.
have := gen 0; case: ifP => // _ ->; eexists; first by []; split.
  by elim: (kw) 0 => //= p s IH m; rewrite IH.
move=> c; rewrite /kw_obj.
have gen2 m : dget [seq (p.2.1, g p.1 p.2.2) | p <- zip (iota m (size kw)) kw] [:: c] =
    let k := index [:: c] [seq p.1 | p <- kw] in
    if k < size kw then Some (g (m + k) (nth (ArgOther L) [seq p.2 | p <- kw] k)) else None.
  elim: (kw) m => //= -[k x] s IH m; rewrite dget_cons /=; case: eqP => [_|_]; first by rewrite addn0.
  by rewrite IH /= ltnS addSnnS.
by have := gen2 0; rewrite /= add0n.
Qed.

Variables (f0 : seq nat) (G G' : seq sp).
Hypothesis uf : uniq f0.
Hypothesis GG : signed_group (size f0) G.
Hypothesis eG : G' =i G.
Local Definition R c c' : Prop := c = c' \/ related f0 G c c'.
Local Lemma Rr c : R c c. Proof. by left. Qed.
Local Lemma Rs c c' : R c c' -> R c' c. Proof. by case=> [->|h]; [left | right; exact: related_sym]. Qed.
Local Lemma Rt c c' c'' : R c c' -> R c' c'' -> R c c''.
Proof. by case=> [->//|h] [<-|h']; right=> //; exact: related_trans h h'. Qed.
Local Lemma Rp ij : ij \in pairs f0 G' -> R ij.1 ij.2.
Proof. by case: ij => i j /(pairsP GG _ _ eG) h; right. Qed.

(** All the arguments are representations and belong to indices of the formula; the
    related indices that are given have the same object; every index is related to one that
    is given. *)
Definition well_given (kw : kwargs) : Prop :=
  [/\ ~~ has (fun p => is_other p.2) kw, {subset [seq p.1 | p <- kw] <= [seq [:: c] | c <- f0]},
      forall c c' o o', related f0 G c c' -> kw_obj kw c = Some o -> kw_obj kw c' = Some o' -> o = o' &
      forall c, c \in f0 -> exists c' o, related f0 G c c' /\ kw_obj kw c' = Some o].

Lemma formula_repsP (kw : kwargs) :
  (well_given kw -> exists irr, formula_reps heap f0 G' kw = Ok irr) /\
  (forall irr, formula_reps heap f0 G' kw = Ok irr -> well_given kw /\ size irr = size f0 /\
     forall k c' o, k < size f0 -> related f0 G (nth 0 f0 k) c' -> kw_obj kw c' = Some o -> nth ([::], None) irr k = obj_rep heap kw o).
Proof.
have hd := init_dictP kw; rewrite /formula_reps; split.
  case=> no hk hc ha; rewrite (negPf no) in hd; case: hd => d -> [kd gd]; cbn [rbind].
  have -> : all (fun p : seq nat * obj => size p.1 == 1) d.
    apply/allP => p hp; have := hk p.1; rewrite -kd => /(_ (map_f _ hp)) /mapP[c _ ->] //.
  cbn [rbind]; rewrite propagateE.
  have [|d' ed] := run_ok Rr Rs Rt (ps := pairs f0 G') (d := d) Rp.
    move=> i j a b [<-|h]; rewrite !gd; first by move=> -> [].
    exact: hc h.
  rewrite ed; cbn [rbind]; have [m1 m2 _] := run_inv Rs Rt Rp ed.
  have ga c : c \in f0 -> exists o, dget d' [:: c] = Some o.
    move=> /ha[c' [o [h ho]]]; exists o; apply: (m2 (c', c)); last by rewrite gd.
    by apply/(pairsP GG _ _ eG); exact: related_sym.
  have -> : all (fun i => [:: i] \in [seq p.1 | p <- d']) f0.
    by apply/allP => c /ga[o e]; rewrite mem_dget e.
  cbn [rbind]; have -> : all (fun p : seq nat * obj => p.1 \in [seq [:: c] | c <- f0]) d'.
    apply/allP => p hp; have := map_f fst hp; move: (p.1) => /=.
    apply: (proj2 (run_keys (P := fun k => k \in [seq [:: c] | c <- f0]) _ ed)); last by move=> k; rewrite kd; exact: hk.
    by case=> i j /(pairsP GG _ _ eG)/(related_mem GG)[h1 h2]; rewrite !map_f.
  cbn [rbind]; elim: (f0) ga => [|c s IH] ga /=; first by exists [::].
  have [o ->] := ga c (mem_head _ _); have [|irr ->] := IH; first by move=> x hx; apply: ga; rewrite inE hx orbT.
  by eexists.
move=> irr; move: hd; case: ifP => [_ -> //|no [d -> [kd gd]]]; cbn [rbind]; case: ifP => //= _; rewrite propagateE.
case ed: (foldR _ _ _) => [d'|] //=; case: ifP => // al; case: ifP => // hk em; have [m1 m2 m3] := run_inv Rs Rt Rp ed.
have src c o : c \in f0 -> dget d' [:: c] = Some o -> exists2 c', related f0 G c c' & kw_obj kw c' = Some o.
  move=> hc /m3[e|[i [j [[<-] [->|h] e]]]]; rewrite gd in e; [exists c | exists c | exists i] => //; try exact: related_refl.
  exact: related_sym.
have fin c c' o : related f0 G c c' -> kw_obj kw c' = Some o -> dget d' [:: c] = Some o.
  by move=> h e; apply: (m2 (c', c)); rewrite ?gd //; apply/(pairsP GG _ _ eG); exact: related_sym.
split.
  split; first by rewrite no.
  - move=> k; rewrite -kd => hk'; apply: (proj1 (run_keys (P := fun k => k \in [seq [:: c] | c <- f0]) _ ed) _ _ hk').
      by case=> i j /(pairsP GG _ _ eG)/(related_mem GG)[h1 h2]; rewrite !map_f.
    by move=> k' /mapP[p hp ->]; exact: (allP hk _ hp).
  - move=> c c' o o' h e e'; have [hc _] := related_mem GG h.
    have := fin _ _ _ h e'; rewrite (fin c c o) //; [by case | exact: related_refl].
  move=> c hc; have := allP al _ hc; rewrite mem_dget; case e: (dget d' [:: c]) => [o|] // _.
  by have [c' h1 h2] := src _ _ hc e; exists c', o.
split; first by rewrite (mapR_size em).
move=> k c' o hk' h e; have h2 := mapR_Forall2 em.
have gen s t k0 : List.Forall2 (fun x y => (if dget d' [:: x] is Some o then Ok (obj_rep heap kw o) else Err KeyError) = Ok y) s t ->
    k0 < size s -> dget d' [:: nth 0 s k0] = Some o -> nth ([::], None) t k0 = obj_rep heap kw o.
  move=> H; elim: H k0 => [|x y s' t' exy _ IH] [|k0] //=; last exact: IH.
  by move=> _ e'; move: exy; rewrite e' => -[].
exact: gen h2 hk' (fin _ _ _ h e).
Qed.
End Reps.
