(** RtpLoop: the contraction loop of _reduced_tensor_product_basis (Rtp.v): the greedy
    choice, termination, and a principle to prove properties of the columns of the
    result. *)
From Coq Require Import ZArith String Ascii List Permutation.
From mathcomp Require Import all_ssreflect all_algebra.
From mathcomp Require Import zify.
From Verif Require Import Base Nd NdProofs Reps Sl2c LinAlg Perm RedPerm Rtp RtpArr.

Set Implicit Arguments.
Unset Strict Implicit.
Unset Printing Implicit Defensive.

Import GRing.Theory Num.Theory.
Local Open Scope ring_scope.

(** * Sets of indices *)
Lemma fset_unionE fa fb : perm_eq (fset_union fa fb) (undup (fa ++ fb)).
Proof. by rewrite perm_sort. Qed.
Lemma mem_fset_union fa fb i : (i \in fset_union fa fb) = (i \in fa) || (i \in fb).
Proof. by rewrite mem_sort mem_undup mem_cat. Qed.
Lemma fset_union_sorted fa fb : sorted ltn (fset_union fa fb).
Proof. by rewrite ltn_sorted_uniq_leq sort_uniq undup_uniq sort_sorted //; apply: leq_total. Qed.
Lemma fset_union_disj fa fb : uniq (fa ++ fb) -> perm_eq (fset_union fa fb) (fa ++ fb).
Proof. by move=> u; rewrite (perm_trans (fset_unionE _ _)) // undup_id. Qed.

(** The blocks of indices of the bases: non-empty increasing lists that together
    contain every index below n once. *)
Definition part (n : nat) (fs : seq (seq nat)) : Prop :=
  perm_eq (flatten fs) (iota 0 n) /\ all (fun f => (f != [::]) && sorted ltn f) fs.

Lemma del_at_perm (T : Type) x0 i (s : seq T) : (i < size s)%N -> Permutation s (nth x0 s i :: del_at i s).
Proof.
move=> h; rewrite -{1}(cat_take_drop i s) (drop_nth x0 h) /del_at.
exact: (Permutation_sym (Permutation_middle _ _ _)).
Qed.
Lemma nth_del_at (T : Type) x0 i j (s : seq T) : (i < j)%N -> (j < size s)%N -> nth x0 (del_at j s) i = nth x0 s i.
Proof. by move=> h hj; rewrite /del_at nth_cat size_take hj h nth_take. Qed.
Lemma size_del_at (T : Type) i (s : seq T) : (i < size s)%N -> size (del_at i s) = (size s).-1.
Proof. by move=> h; rewrite /del_at size_cat size_take h size_drop; lia. Qed.
Lemma size_del2 (T : Type) i j (s : seq T) : (i < j)%N -> (j < size s)%N -> size (del_at i (del_at j s)) = (size s - 2)%N.
Proof. by move=> ij js; have e := size_del_at js; rewrite size_del_at ?e; lia. Qed.
Lemma map_del_at (T U : Type) (g : T -> U) i s : map g (del_at i s) = del_at i (map g s).
Proof. by rewrite /del_at map_cat map_take map_drop. Qed.
Lemma del2_perm (T : Type) x0 i j (s : seq T) : (i < j)%N -> (j < size s)%N ->
  Permutation s (nth x0 s i :: nth x0 s j :: del_at i (del_at j s)).
Proof.
move=> ij js; apply: Permutation_trans (del_at_perm x0 js) _.
apply: Permutation_trans (perm_swap _ _ _); apply: perm_skip.
rewrite -(nth_del_at x0 ij js); apply: del_at_perm; rewrite size_del_at //; lia.
Qed.
Lemma Permutation_perm (T : eqType) (s t : seq T) : Permutation s t -> perm_eq s t.
Proof.
elim=> [|x s' t' _ IH|x y s'|s1 s2 s3 _ h1 _ h2] //; first by rewrite perm_cons.
  by apply/permEl; apply: (perm_catCA [:: y] [:: x] s').
exact: seq.perm_trans h1 h2.
Qed.
Lemma Permutation_all (T : Type) (p : pred T) s t : Permutation s t -> all p s = all p t.
Proof. by elim=> [|x s' t' _ /= ->|x y s' /=|s1 s2 s3 _ -> _ ->] //; rewrite andbCA. Qed.

(** Merging the blocks i and j. *)
Lemma part_merge n fs i j : part n fs -> (i < j)%N -> (j < size fs)%N ->
  let f := fset_union (nth [::] fs i) (nth [::] fs j) in
  part n (f :: del_at i (del_at j fs)) /\ size f = (size (nth [::] fs i) + size (nth [::] fs j))%N.
Proof.
case=> pe al ij js; have P := del2_perm [::] ij js; set fa := nth [::] fs i in P *; set fb := nth [::] fs j in P *.
have pf := Permutation_perm (Permutation_flatten P); rewrite /= in pf.
have un : uniq (fa ++ fb).
  have : uniq (fa ++ fb ++ flatten (del_at i (del_at j fs))) by rewrite -(perm_uniq pf) (perm_uniq pe) iota_uniq.
  by rewrite catA cat_uniq => /andP[].
have pu := fset_union_disj un; split; last by rewrite /= (perm_size pu) size_cat.
move: al; rewrite (Permutation_all _ P) /= => /and3P[/andP[na sa] /andP[nb sb] al].
split.
  apply: seq.perm_trans pe; rewrite perm_sym; apply: seq.perm_trans pf _.
  by rewrite /= catA perm_cat2r perm_sym.
rewrite /= al fset_union_sorted !andbT -size_eq0 (perm_size pu) size_cat addn_eq0 size_eq0; by rewrite (negbTE na).
Qed.

(** Three blocks: the union of two of them does not contain all the indices. *)
Lemma part_size n fs : part n fs -> sumn (map size fs) = n.
Proof. by case=> pe _; have := perm_size pe; rewrite size_flatten size_iota. Qed.
Lemma part_lt n fs i j : part n fs -> (2 < size fs)%N -> (i < j)%N -> (j < size fs)%N ->
  (size (nth [::] fs i) + size (nth [::] fs j) < n)%N.
Proof.
move=> pt s3 ij js; have P := del2_perm [::] ij js.
have := Permutation_sumn (Permutation_map' size P); rewrite (part_size pt) /= => ->.
case: pt => _; rewrite (Permutation_all _ P) /= => /and3P[_ _].
have : (0 < size (del_at i (del_at j fs)))%N by rewrite size_del2 //; lia.
case: (del_at i _) => //= f l _ /andP[/andP[f0 _] _]; have f1 : (0 < size f)%N by rewrite lt0n size_eq0.
lia.
Qed.

Section Loop.
Variable C : numClosedFieldType.
Notation nd := (nd C).
Variable L : eqType.
Variable lt : rel L.
Variable dim : L -> nat.
Variable mulL : L -> L -> res (seq L).
Variable cgL : L -> L -> L -> res nd.
Variable rnd : nd -> nd.
Variable eigh : nd -> res (nd * nd).
Variable eps : C.
Variable ford : seq nat -> seq nat.
Hypothesis ford_perm : forall f, perm_eq (ford f) f.
Notation mi := (nat * L)%type.
Notation blk := (mi * nd)%type.
Notation irrarr := (irrarr C L).
Notation rrep := (seq mi * option nd)%type.
Notation basis := (seq nat * irrarr)%type.

(** ** The greedy choice *)
Definition pdim (fs : seq (seq nat)) (G : seq sp) (dims : seq nat) (ij : nat * nat) : nat :=
  reduce_subgroup_dim (ford (fset_union (nth [::] fs ij.1) (nth [::] fs ij.2))) G dims.
Lemma mem_index_pairs n i j : ((i, j) \in index_pairs n) = (i < j)%N && (j < n)%N.
Proof.
apply/allpairsPdep/idP => [[a [b [ha hb [-> ->]]]]|/andP[h1 h2]].
  by move: ha hb; rewrite !mem_iota; lia.
by exists i, j; rewrite !mem_iota; split=> //; lia.
Qed.
Lemma greedyP fs G dims : (1 < size fs)%N -> exists i j,
  [/\ greedy ford fs G dims = Some (pdim fs G dims (i, j), (i, j, fset_union (nth [::] fs i) (nth [::] fs j))),
      (i < j)%N, (j < size fs)%N &
      forall i' j', (i' < j')%N -> (j' < size fs)%N -> (pdim fs G dims (i, j) <= pdim fs G dims (i', j'))%N].
Proof.
move=> s2; set n := size fs.
have gen (l : seq (nat * nat)) b : let r := foldl (greedy_step ford fs G dims) b l in
  let val ij := Some (pdim fs G dims ij, (ij.1, ij.2, fset_union (nth [::] fs ij.1) (nth [::] fs ij.2))) in
  [/\ (r = b \/ exists2 ij, ij \in l & r = val ij),
      (forall x, r = Some x -> forall ij, ij \in l -> (x.1 <= pdim fs G dims ij)%N),
      (forall x y, r = Some x -> b = Some y -> (x.1 <= y.1)%N) & (b <> None \/ l <> [::] -> r <> None)].
  elim: l b => [|ij l IH] b; first by rewrite /=; split; [left | | move=> x y -> [->] | case].
  cbn [foldl]; set b' := greedy_step _ _ _ _ b ij; have [h1 h2 h3 h4] := IH b'.
  have hb' : b' = b \/ b' = Some (pdim fs G dims ij, (ij.1, ij.2, fset_union (nth [::] fs ij.1) (nth [::] fs ij.2))).
    by rewrite /b' /greedy_step; case: ifP; [right | left].
  have nb' : b' <> None by rewrite /b' /greedy_step; case: ifP => //; case: b {IH b' h1 h2 h3 h4 hb'}.
  have lb' x : b' = Some x -> (x.1 <= pdim fs G dims ij)%N.
    rewrite /b' /greedy_step -/(pdim fs G dims ij); case: ifP => [_ [<-]//|].
    by case: b {IH b' h1 h2 h3 h4 hb' nb'} => // b h [<-]; rewrite leqNgt h.
  have lb x y : b' = Some x -> b = Some y -> (x.1 <= y.1)%N.
    rewrite /b' /greedy_step -/(pdim fs G dims ij) => + e; rewrite e; case: ifP => [h [<-]|_ [->] //].
    exact: ltnW.
  split=> //.
  - case: h1 => [->|[ij' m e]]; last by right; exists ij' => //; rewrite inE m orbT.
    by case: hb' => ->; [left | right; exists ij => //; rewrite inE eqxx].
  - move=> x e ij'; rewrite inE => /orP[/eqP ->|]; last exact: h2.
    case e' : b' nb' => [y|] // _; exact: leq_trans (h3 _ _ e e') (lb' _ e').
  - move=> x y e ey; case e' : b' nb' => [z|] // _; exact: leq_trans (h3 _ _ e e') (lb _ _ e' ey).
  - by move=> _; apply: h4; left.
have [h1 h2 _ h4] := gen (index_pairs n) None.
have ne : index_pairs n <> [::].
  have : (0, 1)%N \in index_pairs n by rewrite mem_index_pairs.
  by case: (index_pairs n).
have {h4} := h4 (or_intror ne); rewrite -/(greedy _ _ _ _) => nn; case: h1 => [//|[[i j]]].
rewrite mem_index_pairs => /andP[ij js] e; exists i, j; split=> // i' j' ij' js'.
by apply: (h2 _ e (i', j')); rewrite mem_index_pairs ij'.
Qed.

(** ** Termination *)
Local Notation loop := (rtp_loop lt dim mulL cgL rnd eigh eps ford).
Local Notation body := (rtp_body lt dim mulL cgL rnd eigh eps ford).
Local Notation rtp := (rtp lt dim mulL cgL rnd eigh eps ford).

Lemma pick_all_size (T : Type) (s t : seq T) idx : pick_all s idx = Ok t -> size t = size idx.
Proof.
rewrite /pick_all; elim: idx t => [|i idx IH] t /=; first by case=> <-.
by case: (ohead _) => //= x; case e: (mapR _ _) => [y|] //= [<-] /=; rewrite (IH _ e).
Qed.

Lemma loop_many rec irr G fuel bases : size bases <> 1%N -> size bases <> 2%N ->
  loop rec irr G fuel.+1 bases = (let dims := map (rdim dim) irr in
      match greedy ford (map fst bases) G dims with
      | None => Err TypeError
      | Some (_, (i, j, f)) =>
        do sub <- pick_all irr (ford f);
        do ab <- rec sub (subrepr_permutation f G);
        do ab <- ia_reshape dim ab (masked f dims) None;
        loop rec irr G fuel ((f, ab) :: del_at i (del_at j bases))
      end).
Proof. by case: bases => [|b1 [|b2 [|b3 bs]]]. Qed.

Lemma map_fst_merge (f : seq nat) (ab : irrarr) i j (bases : seq basis) :
  map fst ((f, ab) :: del_at i (del_at j bases)) = f :: del_at i (del_at j (map fst bases)).
Proof. by rewrite /= !map_del_at. Qed.

(** The result depends on the recursive calls on strictly shorter lists only, and is the
    same for every sufficient fuel. *)
Lemma loop_ext rec rec' irr G fuel fuel' bases : part (size irr) (map fst bases) ->
  (forall s g, (size s < size irr)%N -> rec s g = rec' s g) ->
  (size bases <= fuel)%N -> (size bases <= fuel')%N -> (0 < fuel)%N -> (0 < fuel')%N ->
  loop rec irr G fuel bases = loop rec' irr G fuel' bases.
Proof.
move=> pt ext; elim: fuel fuel' bases pt => [|fuel IH] [|fuel'] bases // pt s1 s2 _ _.
case: (size bases =P 1%N) => [e|e1].
  by case: bases e {IH pt s1 s2} => [|b [|]].
case: (size bases =P 2%N) => [e|e2].
  by case: bases e {IH pt e1 s1 s2} => [|b [|c [|]]].
rewrite !loop_many //=; case: (ltnP 1 (size bases)) => [s3|]; last first.
  by case: bases e1 e2 {IH pt s1 s2} => [|b [|]].
have s3' : (1 < size (map fst bases))%N by rewrite size_map.
have [i [j [-> ij js _]]] := greedyP G (map (rdim dim) irr) s3'.
case E: (pick_all _ _) => [sub|] //=.
have [pt' sf] := part_merge pt ij js.
have h : (size sub < size irr)%N.
  rewrite (pick_all_size E) (perm_size (ford_perm _)) sf; apply: part_lt => //; rewrite size_map; lia.
rewrite ext //; case: (rec' _ _) => //= ab; case: (ia_reshape _ _ _ _) => //= ab'.
rewrite size_map in js; have sz : size (del_at i (del_at j bases)) = (size bases - 2)%N.
  by rewrite size_del2.
by apply: IH; rewrite ?map_fst_merge //= ?sz; lia.
Qed.

Lemma rtp_bases_part (irr : seq rrep) bases : rtp_bases dim irr = Ok bases ->
  part (size irr) (map fst bases) /\ size bases = size irr.
Proof.
rewrite /rtp_bases => h.
have e : map fst bases = [seq [:: i] | i <- iota 0 (size irr)].
  have {h} := mapR_Forall2 h; set z := zip _ _ => h.
  have -> : iota 0 (size irr) = unzip1 z by rewrite unzip1_zip // size_iota.
  elim: h => //= x y l l' h _ ->; congr (_ :: _).
  by move: h; case: (init_basis _ _ _ _) => //= b [<-].
split; last by rewrite -(size_map fst) e size_map size_iota.
rewrite e; split; last by apply/allP => f /mapP[i _ ->].
by rewrite (_ : flatten _ = iota 0 (size irr)) //; elim: (iota _ _) => //= i l ->.
Qed.
Lemma body_ext rec rec' irr G fuel fuel' :
  (forall s g, (size s < size irr)%N -> rec s g = rec' s g) ->
  (size irr <= fuel)%N -> (size irr <= fuel')%N -> (0 < fuel)%N -> (0 < fuel')%N ->
  body rec irr G fuel = body rec' irr G fuel'.
Proof.
move=> ext s1 s2 f0 f0'; rewrite /rtp_body; case e: (rtp_bases _ _) => [bases|] //=.
by have [pt sz] := rtp_bases_part e; apply: loop_ext; rewrite ?sz.
Qed.
Lemma rtp_fuel fuel fuel' irr G : (size irr < fuel)%N -> (size irr < fuel')%N -> rtp fuel irr G = rtp fuel' irr G.
Proof.
elim: fuel fuel' irr G => [|fuel IH] [|fuel'] irr G // s1 s2; rewrite [LHS]/= [RHS]/=.
by apply: body_ext; rewrite ?(ltnW s1) ?(ltnW s2) // => s g h; apply: IH; lia.
Qed.
End Loop.
