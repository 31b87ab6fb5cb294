(** RootsPos: the positive roots of lie_algebra_utils.py are the standard ones, and natural
    combinations of the simple roots. *)
From Coq Require Import ZArith.
From Verif Require Import McRing.
From mathcomp Require Import all_ssreflect all_algebra.
From mathcomp Require Import zify.
From Verif Require Import Base Parse Roots RootsProofs RootsSpec RootsCartan RootsWeyl.

Set Implicit Arguments.
Unset Strict Implicit.
Unset Printing Implicit Defensive.

Import GRing.Theory Num.Theory.
Local Open Scope ring_scope.

Lemma pairing_weyl g n i : valid_rank g n -> (i < n)%N ->
  pairing (weyl_vector (positives g n)) (alpha g n i) = 1.
Proof.
move=> vn hi; rewrite /pairing ip_alpha ?size_weyl // ip_alpha_alpha //.
have H k : (k < ambient g n)%N -> (weyl_vector (positives g n))`_k = rho g n k by apply: nth_weyl.
rewrite /apair /norm2 /valid_rank in H vn *; case: g H vn => H vn; rewrite /ambient in H.
2-4: have e1 : (n - 1)%:R = n%:R - 1 :> rat by rewrite natrB //; lia.
4: have e2 : (n - 2)%:R = n%:R - 2%:R :> rat by rewrite natrB //; lia.
- by rewrite !H; [rewrite /rho mulrS two; mcfield|lia|lia].
- case h: (i < n - 1)%N; cbv match.
    by rewrite !H; [rewrite /rho mulrS two; mcfield|lia|lia].
  by rewrite H; [rewrite /rho e1 two; mcfield|lia].
- case h: (i < n - 1)%N; cbv match.
    by rewrite !H; [rewrite /rho mulrS two; mcfield|lia|lia].
  by rewrite H; [rewrite /rho e1 (_ : 4 = 4%:R :> rat) // two; mcfield|lia].
- case h: (i < n - 1)%N; cbv match.
    by rewrite !H; [rewrite /rho mulrS two; mcfield|lia|lia].
  by rewrite !H; [rewrite /rho e1 e2 two; mcfield|lia|lia].
Qed.

(** The positive roots as a set. *)
Lemma is_vecP m (w v : seq rat) f : size w = m -> (forall k, (k < m)%N -> w`_k = f k) ->
  v = w <-> is_vec m v f.
Proof.
move=> sw wE; split=> [->|[sv vE]]; first by split.
by apply: (@eq_from_nth _ 0) => [|k hk]; rewrite ?sv ?sw // vE ?wE // -sv.
Qed.

Lemma mem_pairs (T : eqType) (f : nat -> nat -> T) m v :
  v \in [seq f i j | i <- range 1 m, j <- range 0 i] <-> exists j i, (j < i < m)%N /\ v = f i j.
Proof.
split=> [/allpairsPdep[i [j [hi hj ->]]]|[j [i [h ->]]]].
  by exists j, i; split=> //; move: hi hj; rewrite /range !mem_iota; lia.
by apply/allpairsPdep; exists i, j; split=> //; rewrite /range mem_iota; lia.
Qed.
Lemma mem_pm m v : v \in pm m <-> exists j i, (j < i < m)%N /\ is_vec m v (fun k => bas j k - bas i k).
Proof.
have E j i : v = vsub (eps m j) (eps m i) <-> is_vec m v (fun k => bas j k - bas i k).
  by apply: is_vecP => [|k hk]; rewrite ?eB ?eD // ?nth_eB ?nth_eD hk.
by rewrite mem_pairs; split=> -[j [i [h /E e]]]; exists j, i.
Qed.
Lemma mem_pp m v : v \in pp m <-> exists j i, (j < i < m)%N /\ is_vec m v (fun k => bas j k + bas i k).
Proof.
have E j i : v = vadd (eps m j) (eps m i) <-> is_vec m v (fun k => bas j k + bas i k).
  by apply: is_vecP => [|k hk]; rewrite ?eB ?eD // ?nth_eB ?nth_eD hk.
by rewrite mem_pairs; split=> -[j [i [h /E e]]]; exists j, i.
Qed.
Lemma mem_pp' m v : v \in pp' m <-> exists j i, (j < i < m)%N /\ is_vec m v (fun k => bas j k + bas i k).
Proof.
have E j i : v = vadd (eps m i) (eps m j) <-> is_vec m v (fun k => bas j k + bas i k).
  by apply: is_vecP => [|k hk]; rewrite ?eB ?eD // ?nth_eB ?nth_eD hk addrC.
by rewrite mem_pairs; split=> -[j [i [h /E e]]]; exists j, i.
Qed.
Lemma mem_ee m v : v \in ee m <-> exists i, (i < m)%N /\ is_vec m v (bas i).
Proof.
split=> [/mapP[i]|[i [h e]]].
  rewrite mem_iota => /= h ->; exists i; split=> //; split; first exact: size_eps.
  by move=> k hk; rewrite nth_eps hk.
apply/mapP; exists i; rewrite ?mem_iota //.
by apply/(is_vecP _ (size_eps m i)); [|exact: e] => k hk; rewrite nth_eps hk.
Qed.
Lemma mem_ee2 m v : v \in [seq vscale 2 v | v <- ee m] <->
  exists i, (i < m)%N /\ is_vec m v (fun k => 2 * bas i k).
Proof.
split=> [/mapP[u /mapP[i]]|[i [h e]]].
  rewrite mem_iota => /= h -> ->; exists i; split=> //; split; first by rewrite size_vscale size_eps.
  by move=> k hk; rewrite nth_vscale nth_eps hk.
apply/mapP; exists (eps m i); first by apply/mapP; exists i; rewrite ?mem_iota.
have sz : size (vscale 2 (eps m i)) = m by rewrite size_vscale size_eps.
by apply/(is_vecP _ sz); [|exact: e] => k hk; rewrite nth_vscale nth_eps hk.
Qed.

Lemma mem_positives g n v : v \in positives g n <-> standard_root g n v.
Proof.
rewrite /positives /standard_root /ambient; case: g.
- rewrite mem_pm; split=> [h|[//|[[]//|[[]//|[]//]]]]; by left.
- rewrite !mem_cat; split=> [/orP[/orP[/mem_pp h|/mem_pm h]|/mem_ee h]|[h|[[_ h]|[[_ h]|[]//]]]].
  + by right; left.
  + by left.
  + by right; right; left.
  + by rewrite (mem_pm n v).2 ?orbT.
  + by rewrite (mem_pp n v).2.
  + by rewrite (mem_ee n v).2 ?orbT.
- rewrite !mem_cat; split=> [/orP[/orP[/mem_pp h|/mem_pm h]|/mem_ee2 h]|[h|[[_ h]|[[]//|[_ h]]]]].
  + by right; left.
  + by left.
  + by right; right; right.
  + by rewrite (mem_pm n v).2 ?orbT.
  + by rewrite (mem_pp n v).2.
  + by rewrite (mem_ee2 n v).2 ?orbT.
- rewrite !mem_cat; split=> [/orP[/mem_pp' h|/mem_pm h]|[h|[[_ h]|[[]//|[]//]]]].
  + by right; left.
  + by left.
  + by rewrite (mem_pm n v).2 ?orbT.
  + by rewrite (mem_pp' n v).2.
Qed.

(** Their number. *)
Lemma size_positives g n : size (positives g n) = num_positive g n.
Proof.
have b m : 'C(m, 2) = (m * (m - 1))./2 by rewrite bin2 subn1.
rewrite /positives /num_positive; case: g; rewrite ?size_cat ?size_map ?size_pairs ?size_iota.
- by rewrite b subn1 /= mulnC.
all: rewrite addnn b.
all: have e : ~~ odd (n * (n - 1)) by case: (n) => // k; rewrite subn1 /= oddM /= andNb.
all: have := odd_double_half (n * (n - 1)); rewrite (negbTE e) add0n => ->.
all: rewrite -?mulnn; case: (n) => [|k] //; nia.
Qed.

(** No positive root is listed twice. *)
Lemma uniq_pairs (T : eqType) (f : nat -> nat -> T) m :
  (forall i j i' j', (j < i < m)%N -> (j' < i' < m)%N -> f i j = f i' j' -> i = i' /\ j = j') ->
  uniq [seq f i j | i <- range 1 m, j <- range 0 i].
Proof.
move=> inj; apply: allpairs_uniq_dep; rewrite ?iota_uniq //; first by move=> i _; rewrite iota_uniq.
move=> p q /allpairsPdep[i [j [hi hj ->]]] /allpairsPdep[i' [j' [hi' hj' ->]]] /= e.
move: hi hj hi' hj'; rewrite /range !mem_iota => hi hj hi' hj'.
have [] := inj i j i' j' _ _ e; try lia.
by move=> -> ->.
Qed.

Lemma bool_ratE (b c : bool) : b%:R = c%:R :> rat -> b = c.
Proof. by case: b; case: c => // /eqP. Qed.

Lemma pm_inj m i j i' j' : (j < i < m)%N -> (j' < i' < m)%N ->
  vsub (eps m j) (eps m i) = vsub (eps m j') (eps m i') -> i = i' /\ j = j'.
Proof.
move=> h h' e.
have H k : (k < m)%N -> ((k == j) + (k == i') = (k == j') + (k == i))%N.
  move=> hk; have /eqP := congr1 (fun v => v`_k) e; rewrite !nth_eB hk /=.
  by rewrite subr_eq addrAC eq_sym subr_eq -!natrD eqr_nat => /eqP.
have /andP[ji im] := h; have /andP[ji' im'] := h'.
split; apply/eqP.
  have := H i im; rewrite eqxx (gtn_eqF ji) add0n.
  by case: (i == i') => //; case: (i == j').
have := H j (ltn_trans ji im); rewrite eqxx (ltn_eqF ji) addn0.
by case: (j == j') => //; case: (j == i').
Qed.
Lemma pp_inj m i j i' j' : (j < i < m)%N -> (j' < i' < m)%N ->
  vadd (eps m j) (eps m i) = vadd (eps m j') (eps m i') -> i = i' /\ j = j'.
Proof.
move=> h h' e.
have H k : (k < m)%N -> (k == j)%:R + (k == i)%:R = (k == j')%:R + (k == i')%:R :> rat.
  by move=> hk; have := congr1 (fun v => v`_k) e; rewrite !nth_eD hk.
have H' k : (k < m)%N -> ((k == j) + (k == i) = (k == j') + (k == i'))%N.
  by move=> hk; have /eqP := H k hk; rewrite -!natrD eqr_nat => /eqP.
have /andP[ji im] := h; have /andP[ji' im'] := h'.
have e1 : i = i'.
  have A : (i == i') || (i == j').
    by have := H' i im; rewrite eqxx (gtn_eqF ji); case: (i == j'); case: (i == i').
  have B : (i' == i) || (i' == j).
    by have := H' i' im'; rewrite eqxx (gtn_eqF ji'); case: (i' == i); case: (i' == j).
  by clear H H' e h h' im im'; lia.
split=> //; subst i'; apply/eqP.
by have := H' j (ltn_trans ji im); rewrite eqxx (ltn_eqF ji); case: (j == j').
Qed.

Lemma uniq_positives g n : uniq (positives g n).
Proof.
have upm m : uniq (pm m) by apply: uniq_pairs => i j i' j'; apply: pm_inj.
have upp m : uniq (pp m) by apply: uniq_pairs => i j i' j'; apply: pp_inj.
have upp' m : uniq (pp' m).
  apply: uniq_pairs => i j i' j' h h' e; apply: (pp_inj h h').
  apply: (@eq_from_nth _ 0) => [|k _]; rewrite ?eD // !nth_eD addrC [RHS]addrC -!nth_eD.
  by rewrite e.
have uee m : uniq (ee m).
  rewrite map_inj_in_uniq ?iota_uniq // => i j; rewrite !mem_iota => /= hi hj e.
  have := congr1 (fun v => v`_i) e; rewrite !nth_eps hi eqxx /=; case: eqP => //.
have nc k i j : (bas i k + bas j k : rat) = ((k == i) + (k == j))%N%:R by rewrite natrD.
have pmpp m v : v \in pm m -> v \notin pp m.
  move=> /mem_pm[j [i [h [_ E]]]]; apply/negP => /mem_pp[j' [i' [h' [_ E']]]].
  have /eqP := E i ltac:(lia); rewrite E'; last by lia.
  by rewrite nc eq_sym subr_eq /bas eqxx -natrD eqr_nat; lia.
have pppp' m v : (v \in pp' m) = (v \in pp m).
  by apply/idP/idP => [/mem_pp' h|/mem_pp h]; [apply/mem_pp|apply/mem_pp'].
have pmee m v : v \in ee m -> v \notin pm m.
  move=> /mem_ee[a [ha [_ E]]]; apply/negP => /mem_pm[j [i [h [_ E']]]].
  have /eqP := E i ltac:(lia); rewrite E'; last by lia.
  by rewrite subr_eq /bas -natrD eqr_nat; lia.
have ppee m v : v \in ee m -> v \notin pp m.
  move=> /mem_ee[a [ha [_ E]]]; apply/negP => /mem_pp[j [i [h [_ E']]]].
  have /eqP := E i ltac:(lia); have /eqP := E j ltac:(lia); rewrite !E'; try lia.
  by rewrite !nc /bas !eqr_nat; lia.
have pmee2 m v : v \in [seq vscale 2 v | v <- ee m] -> v \notin pm m.
  move=> /mem_ee2[a [ha [_ E]]]; apply/negP => /mem_pm[j [i [h [_ E']]]].
  have /eqP := E i ltac:(lia); rewrite E'; last by lia.
  by rewrite subr_eq /bas two -natrM -natrD eqr_nat; lia.
have ppee2 m v : v \in [seq vscale 2 v | v <- ee m] -> v \notin pp m.
  move=> /mem_ee2[a [ha [_ E]]]; apply/negP => /mem_pp[j [i [h [_ E']]]].
  have /eqP := E i ltac:(lia); rewrite !E'; try lia.
  by rewrite !nc /bas two -natrM !eqr_nat; lia.
case: g; rewrite /positives ?cat_uniq ?upm ?upp ?upp' ?uee //= ?andbT.
- apply/andP; split; apply/hasPn => v; first exact: pmpp.
  move=> h; have : v \notin pp n ++ pm n by rewrite mem_cat negb_or pmee ?ppee.
  by [].
- rewrite map_inj_uniq ?uee ?andbT; last first.
    move=> u v /= e; apply: (@eq_from_nth _ 0) => [|k _].
      by rewrite -(size_vscale 2 u) e size_vscale.
    by have := congr1 (fun w => w`_k) e; rewrite !nth_vscale; apply: mulfI.
  apply/andP; split; apply/hasPn => v; first exact: pmpp.
  move=> h; have : v \notin pp n ++ pm n by rewrite mem_cat negb_or pmee2 ?ppee2.
  by [].
- by apply/hasPn => v /pmpp; rewrite -pppp'.
Qed.
