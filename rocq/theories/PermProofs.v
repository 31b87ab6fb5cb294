(** PermProofs: proofs about the model of perm.py, against mathcomp's
    symmetric groups ['S_n] (an independent specification). *)
From Coq Require Import ZArith.
From mathcomp Require Import all_ssreflect all_fingroup.
From Verif Require Import Base Perm.

Set Implicit Arguments.
Unset Strict Implicit.
Unset Printing Implicit Defensive.

(** Specification: the tuple (s(0), ..., s(n-1)) of a permutation. *)
Definition pseq (n : nat) (s : 'S_n) : tup := [seq val (s i) | i <- enum 'I_n].

Lemma is_permE p : is_perm p = perm_eq p (iota 0 (size p)).
Proof.
rewrite /is_perm; apply/eqP/idP => [E|pe].
- have sz : size (undup p) = size p by rewrite -(size_sort leq (undup p)) E size_iota.
  have up : uniq p by rewrite -[uniq p]negbK -ltn_size_undup sz ltnn.
  by rewrite -E perm_sym perm_sort undup_id.
- rewrite undup_id; last by rewrite (perm_uniq pe) iota_uniq.
  have := perm_sortP leq_total leq_trans anti_leq p (iota 0 (size p)).
  move=> H; have /H -> := pe.
  by apply: sorted_sort; [exact: leq_trans | exact: iota_sorted].
Qed.

Lemma size_pseq n (s : 'S_n) : size (pseq s) = n.
Proof. by rewrite size_map size_enum_ord. Qed.

Lemma nth_pseq n (s : 'S_n) (i : 'I_n) x0 : nth x0 (pseq s) i = s i.
Proof. by rewrite (nth_map i) ?size_enum_ord // nth_ord_enum. Qed.

Lemma pseq_inj n : injective (@pseq n).
Proof.
move=> s t E; apply/permP=> i; apply: val_inj.
by rewrite /= -(nth_pseq s i 0) -(nth_pseq t i 0) E.
Qed.

Lemma pseq_perm n (s : 'S_n) : is_perm (pseq s).
Proof.
rewrite is_permE size_pseq -[X in iota 0 X](size_enum_ord n).
rewrite size_enum_ord -val_enum_ord /pseq map_comp; apply: perm_map.
apply: uniq_perm; rewrite ?enum_uniq //.
  by rewrite map_inj_uniq ?enum_uniq //; apply: perm_inj.
move=> i; rewrite mem_enum; apply/mapP; exists ((s^-1)%g i); by rewrite ?mem_enum ?permKV.
Qed.

Lemma is_perm_uniq p : is_perm p -> uniq p.
Proof. by rewrite is_permE => pe; rewrite (perm_uniq pe) iota_uniq. Qed.

Lemma is_perm_mem p i : is_perm p -> (i \in p) = (i < size p).
Proof. by rewrite is_permE => pe; rewrite (perm_mem pe) mem_iota. Qed.

Lemma is_permP n p : is_perm p -> size p = n -> exists s : 'S_n, p = pseq s.
Proof.
move=> pp sz.
have lt (i : 'I_n) : nth 0 p i < n.
  by rewrite -[X in _ < X]sz -is_perm_mem // mem_nth // sz.
have inj : injective (fun i : 'I_n => Ordinal (lt i)).
  move=> i j [] /eqP; rewrite nth_uniq ?sz ?is_perm_uniq // => /eqP H; exact: val_inj.
exists (perm inj); apply: (@eq_from_nth _ 0); rewrite ?size_pseq // => i; rewrite sz => li.
by rewrite -[i]/(val (Ordinal li)) nth_pseq permE.
Qed.

Lemma getitem_ok (T : Type) (p : seq T) x0 i : i < size p -> getitem p i = Ok (nth x0 p i).
Proof. by move=> lt; rewrite /getitem (nth_map x0). Qed.

Lemma getitem_err (T : Type) (p : seq T) i : size p <= i -> getitem p i = Err IndexError.
Proof. by move=> ge; rewrite /getitem nth_default // size_map. Qed.

Lemma iota_enum n : iota 0 n = [seq val i | i <- enum 'I_n].
Proof. by rewrite val_enum_ord. Qed.

Lemma compose_pseq n (s t : 'S_n) : compose (pseq s) (pseq t) = Ok (pseq (t * s)%g).
Proof.
rewrite /compose !pseq_perm /= !size_pseq eqxx /=.
rewrite (@mapR_ok_in _ _ _ (fun i => nth 0 (pseq s) (nth 0 (pseq t) i))).
  congr Ok; apply: (@eq_from_nth _ 0); first by rewrite size_map size_iota size_pseq.
  move=> i; rewrite size_map size_iota => li.
  rewrite (nth_map 0) ?size_iota // nth_iota // add0n.
  by rewrite -[i]/(val (Ordinal li)) !nth_pseq permM.
move=> i; rewrite mem_iota add0n => /andP[_ li].
rewrite (getitem_ok 0) ?size_pseq //= (getitem_ok 0) // size_pseq.
by rewrite -[i]/(val (Ordinal li)) nth_pseq.
Qed.

Lemma inverse_pseq n (s : 'S_n) : inverse (pseq s) = Ok (pseq (s^-1)%g).
Proof.
rewrite /inverse (@mapR_ok_in _ _ _ (fun i => index i (pseq s))); last first.
  move=> i; rewrite mem_iota size_pseq => /andP[_ li].
  by rewrite /pyindex is_perm_mem ?pseq_perm // size_pseq li.
congr Ok; apply: (@eq_from_nth _ 0); first by rewrite size_map size_iota !size_pseq.
move=> i; rewrite size_map size_iota size_pseq => li.
rewrite (nth_map 0) ?size_iota // nth_iota // add0n -[i]/(val (Ordinal li)) nth_pseq.
set j := Ordinal li.
have -> : val j = nth 0 (pseq s) ((s^-1)%g j) by rewrite nth_pseq permKV.
by rewrite index_uniq ?size_pseq //; exact/is_perm_uniq/pseq_perm.
Qed.

Lemma identity_pseq n : identity n = pseq (1 : 'S_n)%g.
Proof.
rewrite /identity map_id iota_enum; apply: eq_map => i; by rewrite perm1.
Qed.

(** Failure cases. *)
Lemma not_perm_missing p : ~~ is_perm p -> exists2 i, i < size p & i \notin p.
Proof.
move=> np; have [/allP H|] := boolP (all (fun i => i \in p) (iota 0 (size p))).
  have sz : size p <= size (iota 0 (size p)) by rewrite size_iota.
  case/negP: np; rewrite is_permE perm_sym; apply: uniq_perm; rewrite ?iota_uniq //.
    exact: (leq_size_uniq (iota_uniq 0 _) H sz).
  by case: (uniq_min_size (iota_uniq 0 _) H sz).
by case/allPn=> i; rewrite mem_iota => /andP[_ li] ni; exists i.
Qed.

Lemma inverse_err p : ~~ is_perm p -> inverse p = Err ValueError.
Proof.
move=> /not_perm_missing [i li ni]; apply: (@mapR_err_in _ _ _ _ _ i).
- by rewrite mem_iota.
- by rewrite /pyindex (negbTE ni).
- by move=> j _; rewrite /pyindex; case: ifP; [right; eexists | left].
Qed.

Lemma compose_err p q :
  ~~ (is_perm p && is_perm q && (size p == size q)) -> compose p q = Err AssertionError.
Proof. by rewrite /compose; case: (is_perm p && is_perm q) => //=; case: (_ == _). Qed.

(** ** germinate *)

Section Germinate.
Variable n : nat.
Implicit Types (A : {set 'S_n}) (s : seq tup).

(** [s] lists exactly the tuples of the permutations in [A], once each. *)
Definition lists (s : seq tup) (A : {set 'S_n}) :=
  uniq s /\ (s =i [seq pseq x | x <- enum A]).

Lemma lists_size s A : lists s A -> size s = #|A|.
Proof.
case=> us E; rewrite cardE -(size_map (@pseq n)); apply/eqP.
rewrite -uniq_size_uniq // map_inj_uniq ?enum_uniq //; exact: pseq_inj.
Qed.

Lemma lists_mem s A (x : 'S_n) : lists s A -> (pseq x \in s) = (x \in A).
Proof. by case=> _ ->; rewrite mem_map ?mem_enum //; exact: pseq_inj. Qed.

Lemma lists_memP s A p : lists s A -> reflect (exists2 x, x \in A & p = pseq x) (p \in s).
Proof.
case=> _ ->; apply: (iffP mapP) => -[x xA ->]; exists x => //; by rewrite mem_enum in xA *.
Qed.

Lemma lists_ex s : uniq s -> (forall p, p \in s -> is_perm p /\ size p = n) ->
  lists s [set x : 'S_n | pseq x \in s].
Proof.
move=> us H; split=> // p; apply/idP/mapP => [ps|[x]].
  have [pp sz] := H p ps; have [x E] := is_permP pp sz.
  by exists x => //; rewrite mem_enum inE -E.
by rewrite mem_enum inE => xs ->.
Qed.

Definition Ainv A := A :|: [set (x^-1)%g | x in A].
Definition Astep A := Ainv A :|: [set (x * y)%g | x in Ainv A, y in Ainv A].

Lemma germinate_stepP s A : lists s A ->
  exists2 s', germinate_step s = Ok s' & lists s' (Astep A).
Proof.
move=> LA; rewrite /germinate_step.
pose inv p := if inverse p is Ok q then q else [::].
have -> : mapR inverse s = Ok (map inv s).
  by apply: mapR_ok_in => p /(lists_memP _ LA)[x _ ->]; rewrite /inv inverse_pseq.
rewrite /=; set s1 := set_union _ _.
have L1 : lists s1 (Ainv A).
  split; first exact: undup_uniq.
  move=> p; rewrite mem_undup mem_cat; apply/orP/mapP.
    case=> [/(lists_memP _ LA)[x xA ->]|/mapP[q /(lists_memP _ LA)[x xA ->] ->]].
      by exists x; rewrite // mem_enum inE xA.
    rewrite /inv inverse_pseq; exists (x^-1)%g => //.
    by rewrite mem_enum inE; apply/orP; right; apply/imsetP; exists x.
  case=> x; rewrite mem_enum inE => /orP[xA|/imsetP[y yA ->]] ->.
    by left; rewrite (lists_mem _ LA).
  right; apply/mapP; exists (pseq y); first by rewrite (lists_mem _ LA).
  by rewrite /inv inverse_pseq.
pose cmp (pq : tup * tup) := if compose pq.1 pq.2 is Ok q then q else [::].
rewrite (@mapR_ok_in _ _ _ cmp) /=; last first.
  move=> [p q] /allpairsP[[p' q'] /= [/(lists_memP _ L1)[x _ ->] /(lists_memP _ L1)[y _ ->] [-> ->]]].
  by rewrite /cmp /= compose_pseq.
exists (set_union s1 (map cmp [seq (p1, p2) | p1 <- s1, p2 <- s1])) => //.
split; first exact: undup_uniq.
move=> p; rewrite mem_undup mem_cat; apply/orP/mapP.
  case=> [/(lists_memP _ L1)[x xA ->]|/mapP[q /allpairsP[[a b] /= []]]].
    by exists x; rewrite // mem_enum /Astep in_setU xA.
  move=> /(lists_memP _ L1)[x xA ->] /(lists_memP _ L1)[y yA ->] -> ->.
  exists (y * x)%g; last by rewrite /cmp /= compose_pseq.
  by rewrite mem_enum /Astep in_setU; apply/orP; right; apply/imset2P; exists y x.
case=> x; rewrite mem_enum /Astep in_setU => /orP[xA|/imset2P[y z yA zA ->]] ->.
  by left; rewrite (lists_mem _ L1).
right; apply/mapP; exists (pseq z, pseq y); last by rewrite /cmp /= compose_pseq.
by apply/allpairsP; exists (pseq z, pseq y) => /=; rewrite !(lists_mem _ L1).
Qed.

Lemma Astep_sub A : A \subset Astep A.
Proof. by rewrite /Astep /Ainv -setUA subsetUl. Qed.

Lemma Astep_gen A : <<Astep A>>%g = <<A>>%g.
Proof.
apply/eqP; rewrite eqEsubset !gen_subG; apply/andP; split; last first.
  exact: subset_trans (Astep_sub A) (subset_gen _).
have H1 : Ainv A \subset <<A>>%g.
  rewrite /Ainv subUset subset_gen; apply/subsetP=> _ /imsetP[x xA ->].
  by rewrite groupV mem_gen.
rewrite /Astep subUset H1; apply/subsetP=> _ /imset2P[x y xA yA ->].
by rewrite groupM // (subsetP H1).
Qed.

Lemma Astep_fix A : Astep A = A -> A != set0 -> <<A>>%g = A.
Proof.
move=> E /set0Pn[x0 x0A].
have inA x : x \in A -> (x^-1)%g \in A.
  by move=> xA; rewrite -E /Astep /Ainv !inE imset_f ?orbT.
have mulA x y : x \in A -> y \in A -> (x * y)%g \in A.
  move=> xA yA; rewrite -E /Astep in_setU; apply/orP; right.
  by apply/imset2P; exists x y; rewrite // /Ainv inE ?xA ?yA.
have gA : group_set A.
  apply/group_setP; split; last by move=> x y; apply: mulA.
  by rewrite -(mulgV x0) mulA ?inA.
by rewrite -[A]/(gval (Group gA)) genGid.
Qed.

(** Main lemma: fuel beyond the number of missing permutations suffices. *)
Lemma germinateP fuel s A : lists s A -> #|'S_n| - #|A| < fuel ->
  exists2 r, germinate fuel s = Ok r &
     lists r (if A == set0 then set0 else <<A>>%g).
Proof.
elim: fuel s A => // f IH s A LA lt /=.
have [s' -> L'] := germinate_stepP LA; rewrite /= (lists_size LA) (lists_size L').
case: eqP => E.
  have EA : Astep A = A.
    by apply/esym/eqP; rewrite eqEcard Astep_sub E leqnn.
  exists s' => //; rewrite EA in L'; case: eqP => [<- //|/eqP A0].
  by rewrite Astep_fix.
have lt' : #|A| < #|Astep A|.
  by rewrite ltn_neqAle subset_leq_card ?Astep_sub // andbT eq_sym; apply/eqP.
have [|r -> Lr] := IH s' (Astep A) L'.
  have le := max_card (mem (Astep A)); rewrite -ltnS (leq_trans _ lt) // ltnS.
  by rewrite ltn_sub2l // (leq_trans lt') //; apply: max_card.
exists r => //; move: Lr; rewrite Astep_gen.
have -> : (Astep A == set0) = (A == set0); last by [].
apply/eqP/eqP => [E0|E0].
  by apply/eqP; rewrite -subset0 -E0 Astep_sub.
rewrite E0 /Astep /Ainv !imset0 setU0 set0U.
by apply/setP=> x; rewrite inE; apply/imset2P=> -[? ?]; rewrite inE.
Qed.

Lemma lists_subseteq s A : lists s A -> s = [::] <-> A = set0.
Proof.
move=> LA; have H := lists_size LA; split=> [E0|E0].
  by move: H; rewrite E0 /= => /esym/eqP; rewrite cards_eq0 => /eqP.
by move: H; rewrite E0 cards0; case: (s).
Qed.
End Germinate.
