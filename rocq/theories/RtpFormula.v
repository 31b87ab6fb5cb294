(** RtpFormula: reduced_tensor_product_basis of a formula
    (lie_nn/_src/reduced_tensor_product.py:83-90 and 126-157), on top of RedPerm.v
    (germinate_perm_repr) and Rtp.v (_reduced_tensor_product_basis). *)
From Coq Require Import ZArith String Ascii List Permutation.
From mathcomp Require Import all_ssreflect all_algebra.
From mathcomp Require Import zify.
From Verif Require Import Base Nd Reps Perm RedPerm RedPermBasis RedPermSub Rtp.

Set Implicit Arguments.
Unset Strict Implicit.
Unset Printing Implicit Defensive.

(** ReducedRep defines no __eq__ (reduced_rep.py:50), so that == and != on its instances
    compare the objects: [inl i] is the i-th object of the caller, [inr k] the object
    that _to_reducedrep creates for the k-th keyword argument. *)
Notation obj := (nat + nat)%type.
Notation dict := (seq (seq nat * obj)).
(** irreps_dict[k]; None when k is not a key. *)
Definition dget (d : dict) (k : seq nat) : option obj := ohead [seq p.2 | p <- d & p.1 == k].
(** irreps_dict[k] = v: in place, or at the end. *)
Definition dset (d : dict) (k : seq nat) (v : obj) : dict :=
  if k \in [seq p.1 | p <- d] then [seq if p.1 == k then (k, v) else p | p <- d] else rcons d (k, v).
(** Lines 137-143, one pair of index names. *)
Definition prop_pair (d : dict) (ij : nat * nat) : res dict :=
  let i := [:: ij.1] in let j := [:: ij.2] in
  do _ <- (match dget d i, dget d j with
           | Some a, Some b => if a != b then Err RuntimeError else Ok tt
           | _, _ => Ok tt
           end);
  let d := if dget d i is Some a then dset d j a else d in
  let d := if dget d j is Some b then dset d i b else d in
  Ok d.
(** Lines 135-143; the names of the index f0[i] are characters. *)
Definition propagate (f0 : seq nat) (G : seq sp) (d : dict) : res dict :=
  foldR (fun d (a : sp) => foldR prop_pair d (zip f0 [seq nth 0 f0 i | i <- a.2])) d G.

Section Formula.
Variable C : numClosedFieldType.
Notation nd := (nd C).
Variable L : eqType.
Notation rrep := (seq (nat * L) * option nd)%type.
(** The keyword arguments that _to_reducedrep distinguishes: a TabulatedIrrep, a MulIrrep,
    an object that is a ReducedRep, anything else. *)
Inductive arg := ArgIrrep of L | ArgMul of nat & L | ArgRep of nat | ArgOther.
(** The ReducedRep objects of the caller. *)
Variable heap : nat -> rrep.
(** Lines 83-90. *)
Definition to_reducedrep (k : nat) (x : arg) : res obj :=
  match x with
  | ArgIrrep _ | ArgMul _ _ => Ok (inr k)
  | ArgRep i => Ok (inl i)
  | ArgOther => Err AssertionError
  end.
(** The contents of an object (ReducedRep.from_irreps of one MulIrrep is in Reduced.v). *)
Definition obj_rep (kw : seq (seq nat * arg)) (o : obj) : rrep :=
  match o with
  | inl i => heap i
  | inr k => match nth ArgOther [seq p.2 | p <- kw] k with
             | ArgIrrep ir => ([:: (1, ir)], None)
             | ArgMul m ir => ([:: (m, ir)], None)
             | _ => ([::], None)
             end
  end.
(** Line 129. *)
Definition init_dict (kw : seq (seq nat * arg)) : res dict :=
  mapR (fun p : nat * (seq nat * arg) => do o <- to_reducedrep p.1 p.2.2; Ok (p.2.1, o)) (zip (iota 0 (size kw)) kw).
(** Lines 129-154. *)
Definition formula_reps (f0 : seq nat) (G : seq sp) (kw : seq (seq nat * arg)) : res (seq rrep) :=
  do d <- init_dict kw;
  do _ <- (if all (fun p : seq nat * obj => size p.1 == 1) d then Ok tt else Err TypeError);
  do d <- propagate f0 G d;
  do _ <- (if all (fun i => [:: i] \in [seq p.1 | p <- d]) f0 then Ok tt else Err RuntimeError);
  do _ <- (if all (fun p : seq nat * obj => p.1 \in [seq [:: c] | c <- f0]) d then Ok tt else Err RuntimeError);
  mapR (fun i => if dget d [:: i] is Some o then Ok (obj_rep kw o) else Err KeyError) f0.

Variable lt : rel L.
Variable dim : L -> nat.
Variable mulL : L -> L -> res (seq L).
Variable cgL : L -> L -> L -> res nd.
Variable rnd : nd -> nd.
Variable eigh : nd -> res (nd * nd).
Variable eps : C.
Variable ford : seq nat -> seq nat.
(** The order in which the frozenset perm_repr is iterated over. *)
Variable gord : seq sp -> seq sp.
(** Lines 126-157; the fuels bound the loops of germinate_perm_repr and of the recursion. *)
Definition rtp_formula (fuel1 fuel : nat) (formula : seq nat) (kw : seq (seq nat * arg)) : res (seq (nat * L) * nd * seq nd) :=
  do fr <- germinate_perm_repr fuel1 formula;
  do irr <- formula_reps fr.1 (gord fr.2) kw;
  rtp_out lt dim mulL cgL rnd eigh eps ford fuel irr fr.2.
End Formula.

(** * The dictionary *)
Lemma dget_cons p d k : dget (p :: d) k = if p.1 == k then Some p.2 else dget d k.
Proof. by rewrite /dget /=; case: eqP. Qed.
Lemma dget_rcons p d k : dget (rcons d p) k = if dget d k is Some o then Some o else if p.1 == k then Some p.2 else None.
Proof. by elim: d => [|q d IH]; rewrite ?rcons_cons !dget_cons //; case: ifP. Qed.
Lemma dget_mem d k : (dget d k == None) = (k \notin [seq p.1 | p <- d]).
Proof. by elim: d => [|p d IH]; rewrite ?dget_cons /= ?inE /= ?[k == _]eq_sym; last case: (p.1 == k) => /=. Qed.
Lemma mem_dget d k : (k \in [seq p.1 | p <- d]) = (dget d k != None).
Proof. by rewrite dget_mem negbK. Qed.
Lemma dget_set d k v k' : dget (dset d k v) k' = if k' == k then Some v else dget d k'.
Proof.
rewrite /dset; case: ifP => h.
  have gen d0 : dget [seq if p.1 == k then (k, v) else p | p <- d0] k' =
      if (k' == k) && (k \in [seq p.1 | p <- d0]) then Some v else dget d0 k'.
    elim: d0 => [|p d0 IH]; first by rewrite andbF.
    rewrite /= !dget_cons inE IH; case: (p.1 =P k) => [->|ne] /=; first by rewrite eqxx [k == k']eq_sym andbT; case: (k' =P k).
    rewrite [k == p.1]eq_sym (introF eqP ne) /=; case: (p.1 =P k') => [e|//]; case: (k' =P k) => // e'.
    by case: ne; rewrite e.
  by rewrite gen h andbT.
rewrite dget_rcons /= eq_sym; case: (k' =P k) => [->|_]; last by case: (dget d k').
by have /eqP -> : dget d k == None by rewrite dget_mem h.
Qed.
Lemma keys_set d k v k' : (k' \in [seq p.1 | p <- dset d k v]) = (k' == k) || (k' \in [seq p.1 | p <- d]).
Proof. by have := dget_mem (dset d k v) k'; rewrite dget_set; case: (k' == k) => /= [/esym/negbFE|]; rewrite ?dget_mem // => /negb_inj. Qed.

(** One step only adds entries. *)
Lemma prop_pairE d i j d' : prop_pair d (i, j) = Ok d' ->
  (forall k, dget d' k = if (k == [:: j]) && (dget d k == None) then dget d [:: i]
                         else if (k == [:: i]) && (dget d k == None) then dget d [:: j] else dget d k) /\
  (forall a b, dget d [:: i] = Some a -> dget d [:: j] = Some b -> a = b).
Proof.
rewrite /prop_pair /=; case ei: (dget d [:: i]) => [a|]; case ej: (dget d [:: j]) => [b|] /=.
- case: eqP => //= eab; subst b; rewrite dget_set eqxx => -[<-]; split=> [k|_ _ [<-] [<-]] //.
  by rewrite !dget_set; case: (k =P [:: i]) => [->|_]; rewrite ?ei ?andbF //=; case: (k =P [:: j]) => [->|_]; rewrite ?ej ?andbF.
- rewrite dget_set eqxx => -[<-]; split=> // k.
  rewrite !dget_set; case: (k =P [:: i]) => [->|_]; first by rewrite ei !andbF.
  by case: (k =P [:: j]) => [->|_] /=; rewrite ?ej.
- rewrite ?ej => -[<-]; split=> // k; rewrite dget_set; case: (k =P [:: i]) => [->|_] /=.
    by rewrite ei eqxx /=; case: eqP => // -[e]; move: ej; rewrite -e ei.
  by case: (k =P [:: j]) => [->|_] //=; rewrite ej.
rewrite ?ej => -[<-]; split=> // k; case: (k =P [:: j]) => [->|_] /=; first by rewrite ej.
by case: (k =P [:: i]) => [->|_] //=; rewrite ei.
Qed.
Lemma prop_pair_ok d i j : (forall a b, dget d [:: i] = Some a -> dget d [:: j] = Some b -> a = b) ->
  exists d', prop_pair d (i, j) = Ok d'.
Proof.
move=> h; rewrite /prop_pair /=; case ei: (dget d [:: i]) h => [a|]; case ej: (dget d [:: j]) => [b|] h; try by eexists.
by rewrite (h _ _ erefl erefl) eqxx; eexists.
Qed.

Section Run.
Variable R : nat -> nat -> Prop.
Hypothesis Rr : forall i, R i i.
Hypothesis Rs : forall i j, R i j -> R j i.
Hypothesis Rt : forall i j k, R i j -> R j k -> R i k.

(** A run that ends. *)
Lemma run_inv ps d d' : (forall ij, ij \in ps -> R ij.1 ij.2) -> foldR prop_pair d ps = Ok d' ->
  [/\ forall k o, dget d k = Some o -> dget d' k = Some o,
      forall ij o, ij \in ps -> dget d [:: ij.1] = Some o -> dget d' [:: ij.2] = Some o &
      forall k o, dget d' k = Some o -> dget d k = Some o \/ exists i j, [/\ k = [:: j], R i j & dget d [:: i] = Some o]].
Proof.
elim: ps d => [|[i j] ps IH] d hR /=; first by case=> <-; split=> // k o; left.
case e1: (prop_pair _ _) => [d1|] //= e2; have [h1 h2] := prop_pairE e1.
have [|m1 m2 m3] := IH _ _ e2; first by move=> ij h; apply: hR; rewrite inE h orbT.
have mo k o : dget d k = Some o -> dget d1 k = Some o by move=> hk; rewrite h1 hk !andbF.
have Rij : R i j := hR _ (mem_head _ _).
split=> [k o /mo /m1 //|[x y] o|k o /m3 h].
  rewrite inE => /orP[/eqP[-> ->]|h] /= hx; last by apply: (m2 (x, y)) h (mo _ _ hx).
  apply: m1; rewrite h1 eqxx /=; case ej: (dget d [:: j]) => [b|] //=.
  by rewrite andbF -(h2 _ _ hx ej).
have key k' : dget d1 k' = Some o -> dget d k' = Some o \/ exists i j, [/\ k' = [:: j], R i j & dget d [:: i] = Some o].
  rewrite h1; case: ifP => [/andP[/eqP -> _] hi|_]; first by right; exists i, j.
  by case: ifP => [/andP[/eqP -> _] hj|_]; [right; exists j, i; split=> //; exact: Rs | left].
case: h => [/key //|[x [y [-> rxy /key[hx|[u [v [[ex] ruv hu]]]]]]]]; right; first by exists x, y.
by exists u, y; split=> //; subst v; exact: Rt ruv rxy.
Qed.
(** A run succeeds when related entries agree. *)
Lemma run_ok ps d : (forall ij, ij \in ps -> R ij.1 ij.2) ->
  (forall i j a b, R i j -> dget d [:: i] = Some a -> dget d [:: j] = Some b -> a = b) ->
  exists d', foldR prop_pair d ps = Ok d'.
Proof.
elim: ps d => [|[i j] ps IH] d hR hc /=; first by eexists.
have Rij : R i j := hR _ (mem_head _ _).
have [d1 e1] := prop_pair_ok (fun a b => hc i j a b Rij); rewrite e1 /=.
have h1 : foldR prop_pair d [:: (i, j)] = Ok d1 by rewrite /= e1.
have [|_ _ m3] := run_inv _ h1; first by move=> ij; rewrite inE => /eqP ->.
apply: IH => [ij h|x y a b rxy hx hy]; first by apply: hR; rewrite inE h orbT.
have src z o : dget d1 [:: z] = Some o -> exists2 u, R u z & dget d [:: u] = Some o.
  by case/m3 => [hz|[u [v [[ez] ruv hu]]]]; [exists z | exists u; rewrite ?ez].
have [u ru hu] := src _ _ hx; have [v rv hv] := src _ _ hy.
by apply: (hc u v) hu hv; apply: Rt (Rt ru rxy) (Rs rv).
Qed.
Lemma run_keys ps d d' (P : seq nat -> Prop) : (forall ij, ij \in ps -> P [:: ij.1] /\ P [:: ij.2]) ->
  foldR prop_pair d ps = Ok d' -> (forall k, k \in [seq p.1 | p <- d'] -> P k) <-> (forall k, k \in [seq p.1 | p <- d] -> P k).
Proof.
elim: ps d => [|[i j] ps IH] d hP /=; first by case=> <-.
case e1: (prop_pair _ _) => [d1|] //= e2; have [h1 _] := prop_pairE e1.
have [pi pj] := hP _ (mem_head _ _); rewrite /= in pi pj.
apply: iff_trans (IH _ _ e2) _; first by move=> ij h; apply: hP; rewrite inE h orbT.
split=> h k; have := h k; rewrite !mem_dget h1.
  by move=> hk h0; apply: hk; move: h0; case: (dget d k) => [o|] //; rewrite !andbF.
case: ifP => [/andP[/eqP -> _] _ _ //|_]; case: ifP => [/andP[/eqP -> _] _ _ //|_]; exact.
Qed.
End Run.
