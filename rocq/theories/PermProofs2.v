(** PermProofs2: numbering of permutations, is_group, germinate failures. *)
From Coq Require Import ZArith.
From mathcomp Require Import all_ssreflect all_fingroup.
From Verif Require Import Base Perm PermProofs.

Set Implicit Arguments.
Unset Strict Implicit.
Unset Printing Implicit Defensive.

(** ** from_int / to_int *)

Definition cut (T : Type) (s : seq T) j := take j s ++ drop j.+1 s.

Lemma pop_ok (T : Type) (s : seq T) x0 j : j < size s -> pop s j = Ok (nth x0 s j, cut s j).
Proof. by move=> lt; rewrite /pop (getitem_ok x0). Qed.

Lemma size_cut (T : Type) (s : seq T) j : j < size s -> size (cut s j) = (size s).-1.
Proof.
move=> lt; rewrite size_cat size_takel 1?ltnW // size_drop.
by case: (size s) lt => // n; rewrite ltnS subSS => le; rewrite subnKC.
Qed.

Lemma perm_cut (T : eqType) (s : seq T) x0 j : j < size s ->
  perm_eq (nth x0 s j :: cut s j) s.
Proof.
move=> lt; rewrite -[X in perm_eq _ X](cat_take_drop j) (drop_nth x0) //.
by rewrite -cat1s perm_catCA.
Qed.

(** pure versions of the two loops *)
Fixpoint fi (k : nat) (pool : tup) (i : nat) : tup :=
  if k is k'.+1 then
    let j := i %% size pool in nth 0 pool j :: fi k' (cut pool j) (i %/ size pool)
  else [::].

Fixpoint ti (pool p : tup) : nat :=
  if p is j :: p' then let k := index j pool in k + size pool * ti (cut pool k) p' else 0.

Lemma from_int_loopE k i pool p : size pool = k ->
  from_int_loop k i k pool p = Ok (p ++ fi k pool i).
Proof.
elim: k i pool p => [|k IH] i pool p sz /=; first by rewrite cats0.
have lt : i %% k.+1 < size pool by rewrite sz ltn_mod.
by rewrite (pop_ok 0) //= IH ?size_cut ?sz ?ltn_mod // -cats1 -catA.
Qed.

Lemma to_int_loopE p pool i m : uniq pool -> perm_eq p pool ->
  to_int_loop p pool i m = Ok (i + m * ti pool p).
Proof.
elim: p pool i m => [|j p IH] pool i m up pe /=; first by rewrite muln0 addn0.
have jp : j \in pool by rewrite -(perm_mem pe) mem_head.
have lt : index j pool < size pool by rewrite index_mem.
rewrite /pyindex jp /= (pop_ok 0) //=.
have pc := perm_cut 0 lt; rewrite nth_index // in pc.
have pe' : perm_eq p (cut pool (index j pool)).
  by rewrite -(perm_cons j) perm_sym (perm_trans pc) // perm_sym.
rewrite IH //; last by have := perm_uniq pc; rewrite up /= => /andP[].
by rewrite mulnDr mulnA addnA [m * index _ _]mulnC.
Qed.

Lemma fi_perm k pool i : size pool = k -> perm_eq (fi k pool i) pool.
Proof.
elim: k pool i => [|k IH] pool i sz /=; first by rewrite (size0nil sz).
have lt : i %% size pool < size pool by rewrite sz ltn_mod.
by rewrite (perm_trans _ (perm_cut 0 lt)) // perm_cons IH // size_cut ?sz ?ltn_mod.
Qed.

Lemma fiK k pool i : size pool = k -> uniq pool -> i < k`! -> ti pool (fi k pool i) = i.
Proof.
elim: k pool i => [|k IH] pool i sz up /=; first by case: i.
rewrite factS => lti; rewrite sz.
have lt : i %% k.+1 < size pool by rewrite sz ltn_mod.
rewrite index_uniq // IH ?size_cut ?sz ?ltn_mod //.
- by rewrite mulnC addnC -divn_eq.
- by have := perm_uniq (perm_cut 0 lt); rewrite up /= => /andP[].
- by rewrite ltn_divLR // mulnC.
Qed.

Lemma tiP k pool p : size pool = k -> uniq pool -> perm_eq p pool ->
  fi k pool (ti pool p) = p /\ ti pool p < k`!.
Proof.
elim: k pool p => [|k IH] pool p sz up pe.
  by have := perm_size pe; rewrite sz => /size0nil ->.
case: p pe => [|j p] pe; first by have := perm_size pe; rewrite sz.
have jp : j \in pool by rewrite -(perm_mem pe) mem_head.
have lt : index j pool < size pool by rewrite index_mem.
have pc := perm_cut 0 lt; rewrite nth_index // in pc.
have pe' : perm_eq p (cut pool (index j pool)).
  by rewrite -(perm_cons j) perm_sym (perm_trans pc) // perm_sym.
have uc : uniq (cut pool (index j pool)) by have := perm_uniq pc; rewrite up /= => /andP[].
have [|E lt'] := IH (cut pool (index j pool)) p _ uc pe'; first by rewrite size_cut // sz.
rewrite sz in lt; rewrite /= sz mulnC addnC modnMDl modn_small // nth_index //.
rewrite divnMDl // divn_small // addn0 E; split=> //; rewrite factS.
apply: (@leq_trans (ti (cut pool (index j pool)) p * k.+1 + k.+1)); first by rewrite ltn_add2l.
by rewrite -mulSnr mulnC leq_mul2l lt' orbT.
Qed.

Lemma from_intE i n : from_int i n = Ok (fi n (iota 0 n) i).
Proof. by rewrite /from_int from_int_loopE ?size_iota. Qed.

Lemma to_intE p : is_perm p -> to_int p = Ok (ti (iota 0 (size p)) p).
Proof. by rewrite is_permE => pe; rewrite /to_int to_int_loopE ?iota_uniq // add0n mul1n. Qed.

Lemma from_int_perm i n : exists p, [/\ from_int i n = Ok p, is_perm p & size p = n].
Proof.
exists (fi n (iota 0 n) i); rewrite from_intE; have pe := @fi_perm n (iota 0 n) i (size_iota 0 n).
have sz := perm_size pe; rewrite size_iota in sz.
by split; rewrite // is_permE sz.
Qed.

Lemma to_int_from_int i n : i < n`! ->
  exists2 p, from_int i n = Ok p & to_int p = Ok i.
Proof.
move=> lt; have [p [E pp sz]] := from_int_perm i n; exists p => //.
rewrite to_intE // sz; move: E; rewrite from_intE => -[<-].
by rewrite fiK ?size_iota ?iota_uniq.
Qed.

Lemma from_int_to_int p : is_perm p ->
  exists2 i, to_int p = Ok i & from_int i (size p) = Ok p /\ i < (size p)`!.
Proof.
move=> pp; exists (ti (iota 0 (size p)) p); first exact: to_intE.
rewrite from_intE; rewrite is_permE in pp.
by have [-> ->] := tiP (size_iota 0 (size p)) (iota_uniq 0 (size p)) pp.
Qed.

Lemma groupP' n : exists g, [/\ group n = Ok g, uniq g, size g = n`! &
  forall p, (p \in g) = is_perm p && (size p == n)].
Proof.
rewrite /group (@mapR_ok_in _ _ _ (fi n (iota 0 n))) /=; last by move=> i _; apply: from_intE.
set s := map _ _; have us : uniq s.
  rewrite map_inj_in_uniq ?iota_uniq // => i j; rewrite !mem_iota !add0n /= => li lj E.
  by rewrite -(@fiK n (iota 0 n) i) ?size_iota ?iota_uniq // E fiK ?size_iota ?iota_uniq.
exists (undup s); split; rewrite ?undup_uniq ?undup_id ?size_map ?size_iota // => p.
apply/mapP/andP => [[i _ ->]|[pp /eqP sz]].
  have pe := @fi_perm n (iota 0 n) i (size_iota 0 n).
  by have sz := perm_size pe; rewrite size_iota in sz; rewrite is_permE sz pe.
have [i _] := from_int_to_int pp; rewrite sz from_intE => -[[E] lt].
by exists i; rewrite // mem_iota.
Qed.

(** ** failures of germinate *)

Lemma germinate_err_perm f s : (exists2 p, p \in s & ~~ is_perm p) ->
  germinate f.+1 s = Err ValueError.
Proof.
case=> p ps np; rewrite /= /germinate_step (@mapR_err_in _ _ _ ValueError _ p) ?inverse_err //.
move=> q _; have [qp|nq] := boolP (is_perm q); last by left; apply: inverse_err.
by right; have [x ->] := is_permP qp erefl; rewrite inverse_pseq; eexists.
Qed.

Lemma inverse_ok p : is_perm p -> exists q, [/\ inverse p = Ok q, is_perm q & size q = size p].
Proof.
by move=> qp; have [x E] := is_permP qp erefl; rewrite {1}E inverse_pseq; exists (pseq (x^-1)%g);
  split; rewrite ?pseq_perm ?size_pseq.
Qed.

Lemma germinate_err_size f s : (forall p, p \in s -> is_perm p) ->
  (exists p q, [/\ p \in s, q \in s & size p != size q]) ->
  germinate f.+1 s = Err AssertionError.
Proof.
move=> allp [p [q [ps qs ne]]]; rewrite /= /germinate_step.
pose inv p := if inverse p is Ok q then q else [::].
have invP r : is_perm r -> inverse r = Ok (inv r) /\ is_perm (inv r).
  by rewrite /inv => /inverse_ok[r' [-> rp _]].
rewrite (@mapR_ok_in _ _ _ inv) /=; last by move=> r /allp /invP[].
set s1 := set_union _ _.
have allp1 r : r \in s1 -> is_perm r.
  by rewrite mem_undup mem_cat => /orP[/allp//|/mapP[r' /allp /invP[_ H] ->]].
have in1 r : r \in s -> r \in s1 by rewrite mem_undup mem_cat => ->.
rewrite (@mapR_err_in _ _ _ AssertionError _ (p, q)) //=.
- by apply/allpairsP; exists (p, q); rewrite !in1.
- by apply: compose_err; rewrite (negbTE ne) andbF.
move=> _ /allpairsP[[a b] /= [/allp1 pa /allp1 pb ->]] /=.
have [E|nE] := boolP (size a == size b).
  right; have [x ->] := is_permP pa erefl; have [y ->] := is_permP pb (esym (eqP E)).
  by rewrite compose_pseq; eexists.
by left; apply: compose_err; rewrite (negbTE nE) andbF.
Qed.

(** ** is_group *)

Lemma allR_ok (T : Type) (f : T -> res bool) (g : T -> bool) s :
  (forall x, f x = Ok (g x)) -> allR f s = Ok (all g s).
Proof. by move=> fE; elim: s => //= x s ->; rewrite fE /=; case: (g x). Qed.

Lemma allR_ok_in (T : eqType) (f : T -> res bool) (g : T -> bool) (s : seq T) :
  {in s, forall x, f x = Ok (g x)} -> allR f s = Ok (all g s).
Proof.
elim: s => //= x s IH fE; rewrite fE ?mem_head //= IH; first by case: (g x).
by move=> y ys; apply: fE; rewrite inE ys orbT.
Qed.

Lemma is_group_ok n (g : seq tup) (A : {set 'S_n}) : lists g A ->
  is_group g = Ok (group_set A).
Proof.
move=> LA; case: g LA => [|p0 g] LA.
  congr Ok; apply/esym/negbTE/negP=> /group_setP[].
  by rewrite -(lists_mem _ LA).
have szg p : p \in p0 :: g -> size p = n by move/(lists_memP _ LA)=> [x _ ->]; rewrite size_pseq.
have sz0 : size p0 = n by apply: szg; rewrite mem_head.
rewrite /is_group; move: (p0 :: g) LA szg => {}g LA szg; rewrite sz0.
have -> /= : all (fun p => size p == n) g by apply/allP=> p /szg ->.
rewrite identity_pseq (lists_mem _ LA).
have [A1|nA1] := boolP (1%g \in A); last first.
  by congr Ok; apply/esym/negbTE/negP => /group_setP[A1]; rewrite A1 in nA1.
pose inv p := if inverse p is Ok q then q else [::].
rewrite (@allR_ok_in _ _ (fun p => inv p \in g)) /=; last first.
  by move=> p /(lists_memP _ LA)[x xA ->]; rewrite /inv inverse_pseq.
pose cmp (pq : tup * tup) := if compose pq.1 pq.2 is Ok q then q else [::].
rewrite (@allR_ok_in _ _ (fun p => cmp p \in g)) /=; last first.
  move=> [p q] /allpairsP[[p' q'] /= [/(lists_memP _ LA)[x _ ->] /(lists_memP _ LA)[y _ ->] [-> ->]]].
  by rewrite /cmp /= compose_pseq.
have [/allP Hi|/allPn Hi] /= := boolP (all _ g); last first.
  congr Ok; apply/esym/negbTE/negP => gA; case: Hi => p /(lists_memP _ LA)[x xA ->].
  by rewrite /inv inverse_pseq (lists_mem _ LA) -[A]/(gval (Group gA)) groupV /= xA.
congr Ok; apply/allP/group_setP => [H|[_ H]].
  split=> // x y xA yA; have := H (pseq y, pseq x); rewrite /cmp /= compose_pseq (lists_mem _ LA).
  by apply; apply/allpairsP; exists (pseq y, pseq x); rewrite !(lists_mem _ LA).
move=> _ /allpairsP[[p q] /= [/(lists_memP _ LA)[x xA ->] /(lists_memP _ LA)[y yA ->] ->]].
by rewrite /cmp /= compose_pseq (lists_mem _ LA) H.
Qed.
