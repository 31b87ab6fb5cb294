(** Properties C01-C06: permutations (lie_nn/_src/discrete_groups/perm.py and
    [permutation_sign] of lie_nn/_src/util.py). *)
From Coq Require Import ZArith.
From mathcomp Require Import all_ssreflect all_fingroup.
From Verif Require Import Base Perm PermProofs PermProofs2 PermSign.

Set Implicit Arguments.
Unset Strict Implicit.
Unset Printing Implicit Defensive.

(** Specification: [p] is a permutation tuple of 0..n-1. *)
Definition perm_of (n : nat) (p : seq nat) : bool := perm_eq p (iota 0 n).

Lemma perm_ofE n p : perm_of n p = is_perm p && (size p == n).
Proof.
apply/idP/andP => [pe|[pp /eqP <-]]; last by rewrite /perm_of -is_permE.
by have sz := perm_size pe; rewrite size_iota in sz; rewrite is_permE sz.
Qed.

Lemma perm_of_pseq n p : perm_of n p -> exists s : 'S_n, p = pseq s.
Proof. by rewrite perm_ofE => /andP[pp /eqP]; apply: is_permP. Qed.

Lemma pseq_perm_of n (s : 'S_n) : perm_of n (pseq s).
Proof. by rewrite perm_ofE pseq_perm size_pseq eqxx. Qed.

(** ** C01 *)
Theorem C01_from_int_is_permutation n i :
  exists2 p, from_int i n = Ok p & perm_of n p.
Proof.
by have [p [E pp sz]] := from_int_perm i n; exists p; rewrite // perm_ofE pp sz eqxx.
Qed.

Theorem C01_to_int_from_int n i : i < n`! ->
  exists2 p, from_int i n = Ok p & to_int p = Ok i.
Proof. exact: to_int_from_int. Qed.

Theorem C01_from_int_to_int n p : perm_of n p ->
  exists2 i, to_int p = Ok i & i < n`! /\ from_int i n = Ok p.
Proof.
by rewrite perm_ofE => /andP[pp /eqP <-]; have [i E [E2 lt]] := from_int_to_int pp; exists i.
Qed.

Theorem C01_group_enumerates n :
  exists g, [/\ group n = Ok g, uniq g, size g = n`! & forall p, (p \in g) = perm_of n p].
Proof.
by have [g [E u sz m]] := groupP' n; exists g; split=> // p; rewrite m perm_ofE.
Qed.

Example C01_example : from_int 3 3 = Ok [:: 0; 2; 1] /\ to_int [:: 0; 2; 1] = Ok 3
  /\ perm_of 3 [:: 0; 2; 1].
Proof. by []. Qed.

Print Assumptions C01_from_int_is_permutation.
Print Assumptions C01_to_int_from_int.
Print Assumptions C01_from_int_to_int.
Print Assumptions C01_group_enumerates.

(** ** C02.  The specification reads tuples as functions i |-> nth 0 p i. *)
Theorem C02_is_perm_correct p : is_perm p = perm_of (size p) p.
Proof. exact: is_permE. Qed.

Theorem C02_compose n p q : perm_of n p -> perm_of n q ->
  exists r, [/\ compose p q = Ok r, perm_of n r &
                forall i, i < n -> nth 0 r i = nth 0 p (nth 0 q i)].
Proof.
move=> /perm_of_pseq[x ->] /perm_of_pseq[y ->]; exists (pseq (y * x)%g).
rewrite compose_pseq pseq_perm_of; split=> // i li.
by rewrite -[i]/(val (Ordinal li)) !nth_pseq permM.
Qed.

Theorem C02_compose_raises p q :
  ~~ [&& perm_of (size p) p, perm_of (size q) q & size p == size q] ->
  compose p q = Err AssertionError.
Proof. by rewrite -!C02_is_perm_correct andbA; apply: compose_err. Qed.

Theorem C02_identity n : perm_of n (identity n) /\
  forall p, perm_of n p -> compose (identity n) p = Ok p /\ compose p (identity n) = Ok p.
Proof.
rewrite identity_pseq pseq_perm_of; split=> // p /perm_of_pseq[x ->].
by rewrite !compose_pseq mulg1 mul1g.
Qed.

Theorem C02_inverse n p : perm_of n p ->
  exists q, [/\ inverse p = Ok q, perm_of n q, compose p q = Ok (identity n)
              & compose q p = Ok (identity n)].
Proof.
move=> /perm_of_pseq[x ->]; exists (pseq (x^-1)%g).
by rewrite inverse_pseq pseq_perm_of !compose_pseq identity_pseq mulVg mulgV.
Qed.

Theorem C02_inverse_raises p : ~~ perm_of (size p) p -> inverse p = Err ValueError.
Proof. by rewrite -C02_is_perm_correct; apply: inverse_err. Qed.

Theorem C02_compose_assoc n p q r pq qr : perm_of n p -> perm_of n q -> perm_of n r ->
  compose p q = Ok pq -> compose q r = Ok qr -> compose pq r = compose p qr.
Proof.
move=> /perm_of_pseq[x ->] /perm_of_pseq[y ->] /perm_of_pseq[z ->].
by rewrite !compose_pseq => -[<-] [<-]; rewrite !compose_pseq mulgA.
Qed.

Example C02_example : compose [:: 1; 2; 0] [:: 1; 0; 2] = Ok [:: 2; 1; 0]
  /\ inverse [:: 1; 2; 0] = Ok [:: 2; 0; 1] /\ perm_of 3 [:: 1; 2; 0].
Proof. by []. Qed.

Print Assumptions C02_is_perm_correct.
Print Assumptions C02_compose.
Print Assumptions C02_compose_raises.
Print Assumptions C02_identity.
Print Assumptions C02_inverse.
Print Assumptions C02_inverse_raises.
Print Assumptions C02_compose_assoc.

(** ** C03.  Specification: the subgroup of 'S_n generated by the input. *)
Theorem C03_germinate n (s : seq (seq nat)) :
  uniq s -> s != [::] -> (forall p, p \in s -> perm_of n p) ->
  exists2 r, (forall fuel, n`! < fuel -> germinate fuel s = Ok r) &
    uniq r /\ forall p, (p \in r) <->
      (exists2 x : 'S_n, x \in <<[set y : 'S_n | pseq y \in s]>>%g & p = pseq x).
Proof.
move=> us s0 H; have LA : lists s [set y : 'S_n | pseq y \in s].
  by apply: lists_ex => // p /H; rewrite perm_ofE => /andP[? /eqP].
set A := [set _ | _] in LA *.
have A0 : (A == set0) = false.
  by apply/eqP=> /(lists_subseteq LA) E; rewrite E eqxx in s0.
have card : #|'S_n| = n`! by rewrite card_Sn.
have [|r E Lr] := @germinateP n n`!.+1 s A LA; first by rewrite ltnS card leq_subr.
rewrite A0 in Lr.
exists r; last first.
  by split; [case: Lr | move=> p; split=> [/(lists_memP _ Lr)|/(lists_memP _ Lr)]].
move=> fuel lt; rewrite -E.
have mono f g t u : f <= g -> germinate f t = Ok u -> germinate g t = Ok u.
  elim: f g t => //= f IH [|g] t //= le; case: (germinate_step t) => //= t'.
  by case: ifP => // _; apply: IH.
by rewrite E; apply: mono E.
Qed.

Theorem C03_germinate_empty fuel : 0 < fuel -> germinate fuel [::] = Ok [::].
Proof. by case: fuel. Qed.

Theorem C03_germinate_raises fuel s : 0 < fuel ->
  ((exists2 p, p \in s & ~~ perm_of (size p) p) -> germinate fuel s = Err ValueError) /\
  ((forall p, p \in s -> perm_of (size p) p) ->
   (exists p q, [/\ p \in s, q \in s & size p != size q]) ->
   germinate fuel s = Err AssertionError).
Proof.
case: fuel => // f _; split=> [[p ps np]|H].
  by apply: germinate_err_perm; exists p; rewrite // C02_is_perm_correct.
by apply: germinate_err_size => p /H; rewrite C02_is_perm_correct.
Qed.

Example C03_example : exists r, germinate 7 [:: [:: 1; 0; 2]; [:: 1; 2; 0]] = Ok r /\ size r = 6
  /\ uniq [:: [:: 1; 0; 2]; [:: 1; 2; 0]] /\ all (perm_of 3) [:: [:: 1; 0; 2]; [:: 1; 2; 0]].
Proof. by eexists; split; [vm_compute; reflexivity|]. Qed.

Print Assumptions C03_germinate.
Print Assumptions C03_germinate_empty.
Print Assumptions C03_germinate_raises.

(** ** C04 *)
Theorem C04_is_group n (g : seq (seq nat)) :
  uniq g -> (forall p, p \in g -> perm_of n p) ->
  is_group g = Ok (group_set [set y : 'S_n | pseq y \in g]).
Proof.
move=> ug H; apply: is_group_ok; apply: lists_ex => // p /H.
by rewrite perm_ofE => /andP[? /eqP].
Qed.

Theorem C04_germinate_is_group n (s r : seq (seq nat)) fuel :
  uniq s -> s != [::] -> (forall p, p \in s -> perm_of n p) -> n`! < fuel ->
  germinate fuel s = Ok r -> is_group r = Ok true.
Proof.
move=> us s0 H lt E; have [r' E' [ur m]] := C03_germinate us s0 H.
rewrite E' // in E; case: E => E; subst r'.
rewrite (@C04_is_group n) // => [|p /m[x _ ->]]; last exact: pseq_perm_of.
congr Ok; set A := <<_>>%g in m.
have -> : [set y : 'S_n | pseq y \in r] = A; last exact: groupP.
apply/setP=> y; rewrite inE; apply/idP/idP => [/m[x xA /pseq_inj ->] //|yA].
by apply/m; exists y.
Qed.

Example C04_example : is_group [:: [:: 0; 1; 2]; [:: 1; 2; 0]; [:: 2; 0; 1]] = Ok true
  /\ is_group [:: [:: 0; 1; 2]; [:: 1; 2; 0]] = Ok false.
Proof. by []. Qed.

Print Assumptions C04_is_group.
Print Assumptions C04_germinate_is_group.

(** ** C05.  Specification: mathcomp's [odd_perm] (parity of the number of
    transpositions in any decomposition). *)
Theorem C05_signs n (s : 'S_n) fuel : n <= fuel ->
  permutation_sign (pseq s) = (if odd_perm s then -1 else 1)%Z /\
  sign fuel (pseq s) = Ok (if odd_perm s then -1 else 1)%Z.
Proof. by move=> le; rewrite permutation_signE signE. Qed.

Theorem C05_signs_agree p fuel : perm_of (size p) p -> size p <= fuel ->
  sign fuel p = Ok (permutation_sign p).
Proof.
move=> /perm_of_pseq[s E] le; rewrite E; rewrite E size_pseq in le.
by have [-> ->] := C05_signs s le.
Qed.

Theorem C05_multiplicative n p q r : perm_of n p -> perm_of n q -> compose p q = Ok r ->
  permutation_sign r = (permutation_sign p * permutation_sign q)%Z.
Proof.
move=> /perm_of_pseq[x ->] /perm_of_pseq[y ->]; rewrite compose_pseq => -[<-].
by rewrite !permutation_signE odd_permM; do 2!case: (odd_perm _).
Qed.

Theorem C05_transposition n (a b : 'I_n) : a != b ->
  permutation_sign [seq (if i == val a then val b else if i == val b then val a else i) | i <- iota 0 n] = (-1)%Z.
Proof.
move=> ne; have -> : [seq (if i == val a then val b else if i == val b then val a else i) | i <- iota 0 n]
   = pseq (tperm a b).
  rewrite iota_enum -map_comp; apply: eq_map => i /=.
  case: tpermP => [->|->|/eqP/negbTE na /eqP/negbTE nb]; rewrite ?eqxx //.
    by rewrite -[val b == val a]/(b == a) eq_sym (negbTE ne).
  by rewrite -[_ == val a]/(i == a) na -[_ == val b]/(i == b) nb.
by rewrite permutation_signE odd_tperm ne.
Qed.

Example C05_example : permutation_sign [:: 1; 2; 0; 4; 3] = (-1)%Z
  /\ sign 5 [:: 1; 2; 0; 4; 3] = Ok (-1)%Z.
Proof. by []. Qed.

Print Assumptions C05_signs.
Print Assumptions C05_signs_agree.
Print Assumptions C05_multiplicative.
Print Assumptions C05_transposition.

(** ** C06 *)
(** Specification of a cycle of [s] started at its minimum [m]: the sequence
    m, s m, s (s m), ... of length the size of the orbit. *)
Theorem C06_to_cycles n (s : 'S_n) fuel : n <= fuel ->
  exists2 cs, to_cycles fuel (pseq s) = Ok cs &
   uniq cs /\
   forall c, (c \in cs) <->
     (exists m : 'I_n, [/\ s m != m,
        (forall j, j \in porbit s m -> m <= j) &
        c = [seq val (iter k s m) | k <- iota 0 #|porbit s m|]]).
Proof.
move=> le; have [cs [E u m]] := to_cyclesE s le; exists cs => //; split=> // c; rewrite m.
have cycE x : cyc s x = [seq val (iter k s x) | k <- iota 0 #|porbit s x|].
  rewrite /cyc; apply: (@eq_from_nth _ 0); rewrite !size_map size_traject ?size_iota // => i lt.
  by rewrite (nth_map x) ?size_traject // nth_traject // (nth_map 0) ?size_iota // nth_iota.
have ord2 x : (2 <= #|porbit s x|) = (s x != x).
  apply/idP/idP => [l2|/eqP ne].
    apply/eqP => Ex.
    have := uniq_traject_porbit s x; case: #|_| l2 => [|[|k]] //= _.
    by rewrite inE Ex eqxx.
  rewrite ltn_neqAle ord_gt0 andbT eq_sym; apply/eqP=> c1; case: ne.
  by have := iter_porbit s x; rewrite c1.
split.
  case/mapP=> x; rewrite mem_filter => /andP[lx _] ->; exists (pmin s x); rewrite -cycE; split=> //.
    by rewrite -ord2 porbit_pmin.
  by move=> j; rewrite porbit_pmin; case: (pminP s x) => _; apply.
case=> x [nx mn ->]; rewrite -cycE; apply/mapP; exists x; first by rewrite mem_filter ord2 nx mem_enum.
congr cyc; apply: val_inj; apply/eqP; have [p1 p2] := pminP s x.
by rewrite eqn_leq mn //= p2 // porbit_id.
Qed.

(** On a tuple with entries in range that is not a permutation the Python
    loop never ends: no amount of fuel suffices. *)
Theorem C06_to_cycles_diverges p : all (fun j => j < size p) p -> ~~ perm_of (size p) p ->
  forall fuel, to_cycles fuel p = Err OutOfFuel.
Proof.
move=> /allP inr; rewrite -C02_is_perm_correct => /not_perm_missing[i0 li0 ni0] fuel.
have get i : i < size p -> exists2 j, getitem p i = Ok j & j < size p /\ j \in p.
  move=> li; exists (nth 0 p i); first by rewrite (getitem_ok 0).
  by split; [apply: inr|]; apply: mem_nth.
have loop f i c : i < size p -> cycle_loop f p i c = Err OutOfFuel \/
    (exists2 c', cycle_loop f p i c = Ok c' & size c <= size c').
  elim: f i c => [|f IH] i c li; first by left.
  have [j E [lj _]] := get i li; rewrite /= E /=.
  case: ifP => _; last by right; exists c.
  have [->|[c' -> le]] := IH j (rcons c j) lj; first by left.
  by right; exists c' => //; rewrite size_rcons in le; apply: ltnW.
have div f i c : i < size p -> head 0 c = i0 -> c != [::] -> cycle_loop f p i c = Err OutOfFuel.
  elim: f i c => // f IH i c li hc c0; have [j E [lj jp]] := get i li; rewrite /= E /= hc.
  have -> : j != i0 by apply: contraNneq ni0 => <-.
  by apply: IH => //; case: (c) hc c0.
rewrite /to_cycles.
have : i0 \in iota 0 (size p) by rewrite mem_iota.
have : {subset iota 0 (size p) <= gtn (size p)} by move=> i; rewrite mem_iota.
elim: (iota 0 (size p)) [::] => //= i s IH cs sub; rewrite inE.
have li : i < size p by apply: (sub i); rewrite mem_head.
have sub' : {subset s <= gtn (size p)} by move=> j js; apply: sub; rewrite inE js orbT.
case/orP=> [/eqP E|is0]; first by rewrite /to_cycles_body -E div.
rewrite {1}/to_cycles_body; have [->//|[c -> lc]] /= := loop fuel i [:: i] li.
case: ifP => _; last exact: IH.
by rewrite /pyindex minl_in /=; [apply: IH | case: c lc].
Qed.

Example C06_example : to_cycles 5 [:: 1; 2; 0; 4; 3] = Ok [:: [:: 0; 1; 2]; [:: 3; 4]]
  /\ all (fun j => j < 2) [:: 1; 1] /\ ~~ perm_of 2 [:: 1; 1].
Proof. by []. Qed.

Print Assumptions C06_to_cycles.
Print Assumptions C06_to_cycles_diverges.
