(** RedPermAssign: propagation of the given irreps along the index group (C11). *)
From mathcomp Require Import all_ssreflect all_fingroup all_algebra.
From mathcomp Require Import zify.
From Verif Require Import Base Perm RedPerm RedPermBasis RedPermSub.

Set Implicit Arguments.
Unset Strict Implicit.
Unset Printing Implicit Defensive.
Import GRing.Theory Num.Theory.

(** Specification: letters [a] and [b] of [f0] stand at positions related by an
    element of [G]. *)
Definition related (f0 : seq nat) (G : seq sp) (a b : nat) : Prop :=
  exists s p i, [/\ (s, p) \in G, i < size f0, a = nth 0 f0 i & b = nth 0 f0 (nth 0 p i)].

Section Rel.
Variables (f0 : seq nat) (G : seq sp).
Hypothesis GG : signed_group (size f0) G.
Hypothesis uf : uniq f0.

Lemma related_refl a : a \in f0 -> related f0 G a a.
Proof.
move=> af; exists 1%R, (iota 0 (size f0)), (index a f0).
by rewrite (sg_id GG) index_mem nth_iota ?index_mem // nth_index.
Qed.

Lemma related_mem a b : related f0 G a b -> a \in f0 /\ b \in f0.
Proof.
case=> s [p [i [pG li -> ->]]]; rewrite !mem_nth //.
exact: permeq_nth_lt (sg_perm GG pG) li.
Qed.

Lemma related_sym a b : related f0 G a b -> related f0 G b a.
Proof.
case=> s [p [i [pG li -> ->]]]; have [q qG E] := sg_inv GG pG; rewrite /= in qG E.
have pe := sg_perm GG pG; have qe := sg_perm GG qG; rewrite /= in pe qe.
have szq := perm_size qe; rewrite size_iota in szq.
have lpi := permeq_nth_lt pe li.
exists s, q, (nth 0 p i); split=> //; congr nth.
apply: (permeq_inj pe) => //; first exact: permeq_nth_lt qe lpi.
by have := congr1 (nth 0 ^~ (nth 0 p i)) E; rewrite (nth_map 0) ?szq // nth_iota // add0n.
Qed.

Lemma related_trans a b c : related f0 G a b -> related f0 G b c -> related f0 G a c.
Proof.
case=> s [p [i [pG li -> ->]]] [t [q [j [qG lj Eb ->]]]].
have pe := sg_perm GG pG; rewrite /= in pe; have szp := perm_size pe; rewrite size_iota in szp.
have Ej : j = nth 0 p i.
  apply/eqP; rewrite -(nth_uniq 0 _ _ uf) ?Eb //; exact: permeq_nth_lt pe li.
exists (t * s)%R, [seq nth 0 q k | k <- p], i; split=> //; first exact: (sg_mul GG qG pG).
by rewrite (nth_map 0) ?szp // Ej.
Qed.

Lemma mem_zip_related s p ij : (s, p) \in G -> ij \in zip f0 (act f0 p) -> related f0 G ij.1 ij.2.
Proof.
move=> pG; have pe := sg_perm GG pG; rewrite /= in pe; have szp := perm_size pe; rewrite size_iota in szp.
case/(nthP (0, 0)) => i; rewrite size_zip size_map szp minnn => li <-.
rewrite nth_zip ?size_map ?szp //= (nth_map 0) ?szp //; by exists s, p, i.
Qed.

Lemma related_zip a b : related f0 G a b -> exists s p, (s, p) \in G /\ (a, b) \in zip f0 (act f0 p).
Proof.
case=> s [p [i [pG li -> ->]]]; exists s, p; split=> //.
have pe := sg_perm GG pG; rewrite /= in pe; have szp := perm_size pe; rewrite size_iota in szp.
apply/(nthP (0, 0)); exists i; first by rewrite size_zip size_map szp minnn.
by rewrite nth_zip ?size_map ?szp //= (nth_map 0) ?szp.
Qed.
End Rel.

Section Dict.
Variable V : Type.
Implicit Types (d : seq (seq nat * obj V)) (k : seq nat) (o : obj V).

Lemma dget_dset d k k' o : dget (dset d k o) k' = if k == k' then Some o else dget d k'.
Proof.
elim: d => [|[x u] d IH] //=; case: (eqVneq x k) => [->|nxk] /=.
  by case: (eqVneq k k').
rewrite IH; case: (eqVneq x k') => [<-|] //.
by rewrite eq_sym (negbTE nxk).
Qed.

Lemma dset_keys d k o : [seq x.1 | x <- dset d k o] = if k \in [seq x.1 | x <- d]
  then [seq x.1 | x <- d] else rcons [seq x.1 | x <- d] k.
Proof.
elim: d => [|[x u] d IH] //=; rewrite inE eq_sym; case: (eqVneq x k) => [->|nxk] //=.
by rewrite IH; case: ifP.
Qed.

Lemma dget_mem d k : isSome (dget d k) = (k \in [seq x.1 | x <- d]).
Proof.
by elim: d => [|[x u] d IH] //=; rewrite inE eq_sym; case: (eqVneq x k).
Qed.

(** one pair: either RuntimeError, or both letters get the same object if one has one *)
Lemma assign_pairE d i j :
  assign_pair d (i, j) =
    match dget d [:: i], dget d [:: j] with
    | Some oi, Some oj => if oi.1 != oj.1 then Err RuntimeError
                          else Ok (dset (dset d [:: j] oi) [:: i] oi)
    | Some oi, None => Ok (dset (dset d [:: j] oi) [:: i] oi)
    | None, Some oj => Ok (dset d [:: i] oj)
    | None, None => Ok d
    end.
Proof.
rewrite /assign_pair /=; case Ei: (dget d [:: i]) => [oi|]; case Ej: (dget d [:: j]) => [oj|] //=.
- by case: ifP => //= _; rewrite dget_dset eqxx.
- by rewrite dget_dset eqxx.
Qed.

(** [d2] extends [d1] keeping identities. *)
Definition dext d1 d2 := forall k o, dget d1 k = Some o -> exists2 o', dget d2 k = Some o' & o'.1 = o.1.

Lemma dext_refl d : dext d d. Proof. by move=> k o E; exists o. Qed.
Lemma dext_trans d1 d2 d3 : dext d1 d2 -> dext d2 d3 -> dext d1 d3.
Proof. by move=> H1 H2 k o /H1[o' /H2[o'' E <-] <-]; exists o''. Qed.

Lemma assign_pair_spec d ij :
  assign_pair d ij = Err RuntimeError \/
  exists2 d', assign_pair d ij = Ok d' &
    [/\ dext d d',
        forall oi oj, dget d [:: ij.1] = Some oi -> dget d [:: ij.2] = Some oj -> oi.1 = oj.1,
        forall oi, dget d [:: ij.1] = Some oi -> isSome (dget d' [:: ij.2]) &
        forall k o, dget d' k = Some o ->
          dget d k = Some o \/ ((k = [:: ij.1] \/ k = [:: ij.2]) /\
             (dget d [:: ij.1] = Some o \/ dget d [:: ij.2] = Some o))].
Proof.
case: ij => i j; rewrite assign_pairE /=.
case Ei: (dget d [:: i]) => [oi|]; case Ej: (dget d [:: j]) => [oj|] //=.
- case: (eqVneq oi.1 oj.1) => [Eo|_]; last by left.
  right; exists (dset (dset d [:: j] oi) [:: i] oi) => //; split.
  + move=> k o Ek; rewrite !dget_dset; case: eqP => [Ek'|_].
      by exists oi => //; move: Ek; rewrite -Ek' Ei => -[<-].
    case: eqP => [Ek'|_]; last by exists o.
    by exists oi => //; move: Ek; rewrite -Ek' Ej => -[<-].
  + by move=> ? ? [<-] [<-].
  + by move=> ? _; rewrite !dget_dset eqxx; case: ifP.
  + move=> k o; rewrite !dget_dset; case: eqP => [<-|_].
      by move=> E; right; split; [left | left; exact: E].
    case: eqP => [<-|_]; last by left.
    by move=> E; right; split; [right | left; exact: E].
- right; exists (dset (dset d [:: j] oi) [:: i] oi) => //; split=> //.
  + move=> k o Ek; rewrite !dget_dset; case: eqP => [Ek'|_].
      by exists oi => //; move: Ek; rewrite -Ek' Ei => -[<-].
    case: eqP => [Ek'|_]; last by exists o.
    by move: Ek; rewrite -Ek' Ej.
  + by move=> ? _; rewrite !dget_dset eqxx; case: ifP.
  + move=> k o; rewrite !dget_dset; case: eqP => [<-|_].
      by move=> E; right; split; [left | left; exact: E].
    case: eqP => [<-|_]; last by left.
    by move=> E; right; split; [right | left; exact: E].
- right; exists (dset d [:: i] oj) => //; split=> //.
  + move=> k o Ek; rewrite !dget_dset; case: eqP => [Ek'|_]; last by exists o.
    by move: Ek; rewrite -Ek' Ei.
  + move=> k o; rewrite !dget_dset; case: eqP => [<-|_]; last by left.
    by move=> E; right; split; [left | right; exact: E].
- right; exists d => //; split=> //; first exact: dext_refl.
  by move=> k o ->; left.
Qed.
End Dict.

Section Loop.
Variable V : Type.
Notation step := (@assign_pair V).
Implicit Types (d : seq (seq nat * obj V)).

Lemma foldR_cat (S A : Type) (f : A -> S -> res A) a s t :
  foldR f a (s ++ t) = rbind (foldR f a s) (fun b => foldR f b t).
Proof. by elim: s a => //= x s IH a; case: (f a x) => //= b; rewrite IH. Qed.

Lemma foldR_flatten (S A : Type) (f : A -> S -> res A) a (ss : seq (seq S)) :
  foldR (fun a s => foldR f a s) a ss = foldR f a (flatten ss).
Proof.
by elim: ss a => //= s ss IH a; rewrite foldR_cat; case: (foldR f a s) => //= b; rewrite IH.
Qed.

Lemma foldR_map (S S' A : Type) (f : A -> S -> res A) (g : S' -> S) a s :
  foldR (fun a x => f a (g x)) a s = foldR f a (map g s).
Proof. by elim: s a => //= x s IH a; case: (f a (g x)) => //= b; rewrite IH. Qed.

Lemma loop_err_or_ok d (s : seq (nat * nat)) :
  foldR step d s = Err RuntimeError \/
  exists2 d', foldR step d s = Ok d' &
    [/\ dext d d',
        forall ij oi oj, ij \in s -> dget d [:: ij.1] = Some oi -> dget d [:: ij.2] = Some oj -> oi.1 = oj.1,
        forall ij oi, ij \in s -> dget d [:: ij.1] = Some oi -> isSome (dget d' [:: ij.2]) &
        forall k o, dget d' k = Some o -> dget d k = Some o \/
          exists2 ij, ij \in s & (k = [:: ij.1] \/ k = [:: ij.2])].
Proof.
elim: s d => [|ij s IH] d /=.
  by right; exists d => //; split=> //; [exact: dext_refl | left].
have [->|[d1 E1 [x1 p1 q1 r1]]] := assign_pair_spec d ij; first by left.
rewrite E1 /=; have [->|[d2 E2 [x2 p2 q2 r2]]] := IH d1; first by left.
right; exists d2 => //; split.
- exact: dext_trans x1 x2.
- move=> ij' oi oj; rewrite inE => /orP[/eqP->|ijs Ei Ej]; first exact: p1.
  have [oi' Ei' <-] := x1 _ _ Ei; have [oj' Ej' <-] := x1 _ _ Ej; exact: p2 ijs Ei' Ej'.
- move=> ij' oi; rewrite inE => /orP[/eqP->|ijs Ei].
    move/q1; case E: (dget d1 _) => [o|] // _; by have [o' ->] := x2 _ _ E.
  have [oi' Ei' _] := x1 _ _ Ei; exact: q2 ijs Ei'.
- move=> k o /r2[/r1[->|[Hk _]]|[ij' ijs Hk]]; first by left.
    by right; exists ij; rewrite ?mem_head.
  by right; exists ij' => //; rewrite inE ijs orbT.
Qed.

(** If every pair is compatible with an assignment [val] of objects to letters that
    the initial dictionary obeys, the loop does not raise and obeys it too. *)
Lemma loop_ok d (s : seq (nat * nat)) (val : nat -> obj V -> Prop) :
  (forall a o o', val a o -> val a o' -> o = o') ->
  (forall ij o, ij \in s -> val ij.1 o <-> val ij.2 o) ->
  (forall a o, dget d [:: a] = Some o -> val a o) ->
  exists2 d', foldR step d s = Ok d' & forall a o, dget d' [:: a] = Some o -> val a o.
Proof.
move=> fv; elim: s d => [|[i j] s IH] d hs hd /=; first by exists d.
have hij o := hs (i, j) o (mem_head _ _); rewrite /= in hij.
have hs' ij o : ij \in s -> val ij.1 o <-> val ij.2 o by move=> ijs; apply: hs; rewrite inE ijs orbT.
have [E|[d1 E1 [_ _ _ r1]]] := assign_pair_spec d (i, j).
  move: E; rewrite assign_pairE.
  case Ei: (dget d [:: i]) => [oi|]; case Ej: (dget d [:: j]) => [oj|] //.
  have -> : oi = oj by apply: (fv j); [apply/hij; exact: hd | exact: hd].
  by rewrite eqxx.
rewrite E1 /=; apply: IH => // a o /r1[/hd //|[Ha Ho]].
have v : val i o /\ val j o.
  by case: Ho => /= /hd v; split=> //; apply/hij.
by case: v => vi vj; case: Ha => -[->].
Qed.
End Loop.

Lemma mapR_ex (S : eqType) (T : Type) (f : S -> res T) (s : seq S) :
  (forall x, x \in s -> exists y, f x = Ok y) -> exists t, mapR f s = Ok t.
Proof.
elim: s => [|x s IH] H /=; first by exists [::].
have [y ->] := H x (mem_head _ _); have [|t ->] := IH; last by exists (y :: t).
by move=> z zs; apply: H; rewrite inE zs orbT.
Qed.

Section AssignThm.
Variables (V : Type) (f0 : seq nat) (G : seq sp) (fresh : nat) (kw : seq (seq nat * (obj V + V))).
Hypothesis GG : signed_group (size f0) G.
Hypothesis uf : uniq f0.
Notation d0 := (to_reducedreps fresh kw).
Notation given a := (dget d0 [:: a]).
Hypothesis keys1 : all (fun ka => size ka.1 == 1) kw.

Let prs := flatten [seq zip f0 (act f0 p.2) | p <- G].

Lemma mem_prs a b : (a, b) \in prs <-> related f0 G a b.
Proof.
split.
  case/flattenP => l /mapP[[s p] pG ->] /= H; exact: (mem_zip_related GG pG H).
case/(related_zip GG) => s [p [pG H]]; apply/flattenP.
by exists (zip f0 (act f0 p)) => //; apply/mapP; exists (s, p).
Qed.

Lemma loopE : foldR (fun d (p : sp) => foldR (@assign_pair V) d (zip f0 (act f0 p.2))) d0 G
  = foldR (@assign_pair V) d0 prs.
Proof.
by rewrite (foldR_map (fun d s => foldR (@assign_pair V) d s) (fun p : sp => zip f0 (act f0 p.2))) foldR_flatten.
Qed.

Lemma no_type_error : has (fun ko : seq nat * obj V => size ko.1 != 1) d0 = false.
Proof.
by elim: (kw) (fresh) keys1 => //= -[k a] l IH fr /= /andP[-> al] /=; apply: IH.
Qed.

Lemma d0_keys : [seq x.1 | x <- d0] = [seq x.1 | x <- kw].
Proof. by elim: (kw) (fresh) => //= -[k a] l IH fr /=; rewrite IH. Qed.

Lemma assign_conflict a b oa ob : related f0 G a b -> given a = Some oa -> given b = Some ob ->
  oa.1 <> ob.1 -> assign_irreps f0 G fresh kw = Err RuntimeError.
Proof.
move=> /mem_prs ab ga gb ne; rewrite /assign_irreps no_type_error /= loopE.
have [->|[d' _ [_ H _ _]]] // := loop_err_or_ok d0 prs.
by case: ne; apply: H ab ga gb.
Qed.

Lemma assign_missing a : a \in f0 -> (forall b, related f0 G b a -> given b = None) ->
  assign_irreps f0 G fresh kw = Err RuntimeError.
Proof.
move=> af H; rewrite /assign_irreps no_type_error /= loopE.
have [->|[d' E _]] // := loop_err_or_ok d0 prs; rewrite E /=.
suff -> : all (fun i => isSome (dget d' [:: i])) f0 = false by [].
apply/negP => /allP/(_ _ af); suff -> : dget d' [:: a] = None by [].
suff inv s d d2 : {subset s <= prs} -> (forall b, related f0 G b a -> dget d [:: b] = None) ->
   foldR (@assign_pair V) d s = Ok d2 -> forall b, related f0 G b a -> dget d2 [:: b] = None.
  apply: (inv prs d0) => //; exact: related_refl.
elim: s d => [|[i j] s IH] d /= sub hd; first by case=> <-.
have [->|[d1 E1 [_ _ _ r1]]] // := assign_pair_spec d (i, j); rewrite E1 /=.
apply: IH => [x xs|b ba]; first by apply: sub; rewrite inE xs orbT.
case Eb: (dget d1 [:: b]) => [o|] //.
have rij : related f0 G i j by apply/mem_prs/sub/mem_head.
have := r1 _ _ Eb; rewrite hd // => -[//|[/= Hb Ho]].
have ri : related f0 G i a.
  case: Hb => -[Eb']; subst b => //; exact: related_trans rij ba.
have rj : related f0 G j a by apply: related_trans ri => //; apply: related_sym.
by case: Ho => H'; rewrite hd in H'.
Qed.

Lemma assign_extra k : k \in [seq x.1 | x <- kw] -> (forall a, a \in f0 -> k <> [:: a]) ->
  assign_irreps f0 G fresh kw = Err RuntimeError.
Proof.
rewrite -d0_keys => kin nk; rewrite /assign_irreps no_type_error /= loopE.
have [->|[d' E [x _ _ _]]] // := loop_err_or_ok d0 prs; rewrite E /=.
case: ifP => //= _.
have -> : all (fun ko : seq nat * obj V => has (fun i => ko.1 == [:: i]) f0) d' =
   all (fun k => has (fun i => k == [:: i]) f0) [seq x.1 | x <- d'] by rewrite all_map.
have kin' : k \in [seq x.1 | x <- d'].
  rewrite -dget_mem; rewrite -dget_mem in kin; case E0: (dget d0 k) kin => [o|] // _.
  by have [o' ->] := x _ _ E0.
by case: allP => //= /(_ _ kin')/hasP[a af /eqP Ek]; case: (nk a af).
Qed.

(** All given related indices agree, every index has a given relative, no foreign key:
    the result is Ok and gives each index the object of its relatives. *)
Lemma assign_ok :
  (forall a b oa ob, related f0 G a b -> given a = Some oa -> given b = Some ob -> oa = ob) ->
  (forall a, a \in f0 -> exists2 b, related f0 G b a & given b <> None) ->
  (forall k, k \in [seq x.1 | x <- kw] -> exists2 a, a \in f0 & k = [:: a]) ->
  exists2 os, assign_irreps f0 G fresh kw = Ok os &
    size os = size f0 /\
    forall i b o o', i < size f0 -> related f0 G b (nth 0 f0 i) -> given b = Some o -> nth o' os i = o.
Proof.
move=> cons rep keys; rewrite /assign_irreps no_type_error /= loopE.
pose val a o := exists2 b, related f0 G b a & given b = Some o.
have fv a o o' : val a o -> val a o' -> o = o'.
  case=> b ba gb [c ca gc]; apply: cons gb gc; apply: related_trans ba _ => //.
  exact: related_sym.
have [d1 E1 hd] : exists2 d', foldR (@assign_pair V) d0 prs = Ok d' & forall a o, dget d' [:: a] = Some o -> val a o.
  apply: loop_ok => //.
    case=> i j o /mem_prs rij; split=> -[b rb gb]; exists b => //=.
      exact: related_trans rb rij.
    by apply: related_trans rb _ => //; apply: related_sym.
  move=> a o ga; have : [:: a] \in [seq x.1 | x <- kw] by rewrite -d0_keys -dget_mem ga.
  by case/keys => b bf [E]; exists a => //; rewrite E; apply: related_refl.
have [Ee|[d2 E2 [_ _ q r]]] := loop_err_or_ok d0 prs; first by rewrite Ee in E1.
rewrite E1 in E2; case: E2 => Ed; subst d2; rewrite E1 /=.
have some a : a \in f0 -> isSome (dget d1 [:: a]).
  move=> /rep[b rba]; case gb: (given b) => [o|] // _.
  have rba' : (b, a) \in prs by apply/mem_prs.
  exact: (q (b, a) o rba' gb).
have -> : all (fun i => isSome (dget d1 [:: i])) f0 by apply/allP.
rewrite /=; have -> : all (fun ko : seq nat * obj V => has (fun i => ko.1 == [:: i]) f0) d1.
  have -> : all (fun ko : seq nat * obj V => has (fun i => ko.1 == [:: i]) f0) d1 =
    all (fun k => has (fun i => k == [:: i]) f0) [seq x.1 | x <- d1] by rewrite all_map.
  apply/allP => k; rewrite -dget_mem; case Ek: (dget d1 k) => [o|] // _.
  have [E0|[[i j] /mem_prs rij Hk]] := r _ _ Ek.
    have : k \in [seq x.1 | x <- kw] by rewrite -d0_keys -dget_mem E0.
    by case/keys => a af ->; apply/hasP; exists a.
  have [fi fj] := related_mem GG rij.
  by apply/hasP; case: Hk => ->; [exists i | exists j].
have [os Eos] : exists os, mapR (fun i => if dget d1 [:: i] is Some o then Ok o else Err RuntimeError) f0 = Ok os.
  apply: mapR_ex => i /some; case: (dget d1 [:: i]) => // o _; by exists o.
exists os => //=; split; first exact: mapR_size Eos.
move=> i b o o' li rb gb; have := mapR_nth 0 o' Eos li.
case E: (dget d1 _) => [o2|] // [<-]; apply: fv; first exact: hd E.
by exists b.
Qed.
End AssignThm.
