(** ClusterProofs: unique_with_tol and eigenspaces. *)
From mathcomp Require Import all_ssreflect all_algebra.
From mathcomp.zify Require Import zify.
From Verif Require Import Base Nd NdProofs Reps Finite.

Set Implicit Arguments.
Unset Strict Implicit.
Unset Printing Implicit Defensive.

Import Order.Theory GRing.Theory Num.Theory.
Local Open Scope ring_scope.

(** Spec: labels of n elements in order of first occurrence, such that a label's elements
    are those near its first element. *)
Record clustering (n : nat) (near : nat -> nat -> bool) (inv : seq nat) : Prop := Clustering {
  cl_size : size inv = n;
  cl_order : forall p q, q \in inv -> (p < q)%N -> (index p inv < index q inv)%N;
  cl_near : forall q j, q \in inv -> (j < n)%N -> (nth 0%N inv j == q) = near (index q inv) j }.

Lemma index_nth (T : eqType) (x0 : T) (s : seq T) j : (index (nth x0 s j) s <= j)%N.
Proof. by rewrite leqNgt; apply/negP => h; have := before_find x0 h; rewrite /= eqxx. Qed.

Section Loop.
Variables (n : nat) (near : nat -> nat -> bool).
Local Open Scope nat_scope.

Definition relab (q i : nat) (l : seq (option nat)) : seq (option nat) :=
  [seq (if near i jo.1 then Some q else jo.2) | jo <- zip (iota 0 (size l)) l].

Lemma size_relab q i l : size (relab q i l) = size l.
Proof. by rewrite size_map size_zip size_iota minnn. Qed.
Lemma nth_relab q i l j : j < size l -> nth None (relab q i l) j = if near i j then Some q else nth None l j.
Proof.
move=> hj; rewrite (nth_map (0, None)) ?size_zip ?size_iota ?minnn //.
by rewrite nth_zip ?size_iota //= nth_iota.
Qed.
Lemma has_near i (l : seq (option nat)) :
  reflect (exists j, [/\ j < size l, near i j & isSome (nth None l j)])
    (has (fun jo : nat * option nat => near i jo.1 && isSome jo.2) (zip (iota 0 (size l)) l)).
Proof.
apply: (iffP (has_nthP (0, None))) => [[j]|[j [hj h1 h2]]].
  rewrite size_zip size_iota minnn => hj; rewrite nth_zip ?size_iota //= nth_iota // add0n.
  by move=> /andP[h1 h2]; exists j.
exists j; first by rewrite size_zip size_iota minnn.
by rewrite nth_zip ?size_iota //= nth_iota // h1 h2.
Qed.
Notation fnone l := (find (fun o : option nat => ~~ isSome o) l).

(** After q rounds. *)
Record inv_state (q : nat) (l : seq (option nat)) : Prop := InvState {
  is_size : size l = n;
  is_lt : forall p, Some p \in l -> p < q;
  is_in : forall p, p < q -> Some p \in l;
  is_near : forall p j, p < q -> j < n -> (nth None l j == Some p) = near (index (Some p) l) j;
  is_ord : forall p p', p < p' -> p' < q -> index (Some p) l < index (Some p') l;
  is_none : forall p, p < q -> index (Some p) l < fnone l }.

Lemma inv_state0 : inv_state 0 (nseq n None).
Proof. by split=> //; [rewrite size_nseq | move=> p; rewrite mem_nseq => /andP[]]. Qed.

Lemma inv_stateS q l : inv_state q l -> (forall i, i < n -> near i i) -> ~~ all isSome l ->
  (forall j, j < n -> near (fnone l) j -> nth None l j = None) ->
  inv_state q.+1 (relab q (fnone l) l).
Proof.
move=> [sl hlt hin hnear hord hnone] hrefl hall hfree.
set i := fnone l in hnone hfree *.
have hi : i < n by rewrite -sl -has_find -(negbK (has _ _)) -all_predC /=; apply: contraNN hall => /allP H; apply/allP => o /H /=; rewrite negbK.
have li : nth None l i = None.
  have := nth_find None (_ : has (fun o : option nat => ~~ isSome o) l); rewrite has_find sl -/i => /(_ hi).
  by case: (nth _ _ _).
have before j : j < i -> exists2 p, p < q & nth None l j = Some p.
  move=> hj; have := before_find None hj; move/negbFE; case E: (nth None l j) => [p|] // _.
  by exists p => //; apply: hlt; rewrite -E mem_nth // sl; lia.
set l' := relab q i l.
have sl' : size l' = n by rewrite size_relab.
have same j p : p < q -> j < n -> (nth None l' j == Some p) = (nth None l j == Some p).
  move=> hp hj; rewrite nth_relab ?sl //; case: ifP => // /hfree -> //.
  by apply/eqP => -[] ?; lia.
have newq j : j < n -> (nth None l' j == Some q) = near i j.
  move=> hj; rewrite nth_relab ?sl //; case: ifP => hn; first by rewrite eqxx.
  by apply/eqP => E; have := hlt q; rewrite -E mem_nth ?sl // ltnn => /(_ isT).
have idx p : p < q -> index (Some p) l' = index (Some p) l.
  move=> hp; have := hin p hp; rewrite -index_mem sl => hx.
  have h1 : nth None l' (index (Some p) l) == Some p by rewrite same // nth_index ?hin.
  have h2 : index (Some p) l' <= index (Some p) l.
    by rewrite -{1}(eqP h1); apply: index_nth.
  apply/eqP; rewrite eqn_leq h2 /=.
  have h3 : Some p \in l' by rewrite -index_mem sl'; lia.
  have h4 : nth None l (index (Some p) l') == Some p by rewrite -same ?nth_index //; lia.
  by rewrite -{1}(eqP h4); apply: index_nth.
have inq : Some q \in l' by rewrite -(eqP (_ : nth None l' i == Some q)) ?mem_nth ?sl' ?newq ?hrefl.
have idxq : index (Some q) l' = i.
  have h1 : nth None l' i == Some q by rewrite newq // hrefl.
  have h2 : index (Some q) l' <= i by rewrite -{1}(eqP h1); apply: index_nth.
  apply/eqP; rewrite eqn_leq h2 leqNgt /=; apply/negP => hlt'.
  have [p hp hpl] := before _ hlt'.
  have hx : index (Some q) l' < n by lia.
  have : nth None l' (index (Some q) l') == Some p by rewrite same // hpl.
  by rewrite nth_index // => /eqP[] ?; lia.
split=> //.
- move=> p /(nthP None)[j]; rewrite sl' => hj; rewrite nth_relab ?sl //; case: ifP => _.
    by move=> [<-].
  by move=> E; rewrite ltnS ltnW // hlt // -E mem_nth // sl.
- move=> p; rewrite ltnS leq_eqVlt => /orP[/eqP -> //|hp].
  have := hin p hp; rewrite -index_mem sl => hx.
  by rewrite -(eqP (_ : nth None l' (index (Some p) l) == Some p)) ?mem_nth ?sl' // same // nth_index ?hin.
- move=> p j; rewrite ltnS leq_eqVlt => /orP[/eqP -> hj|hp hj]; first by rewrite newq // idxq.
  by rewrite same // idx // hnear.
- move=> p p' hpp; rewrite ltnS leq_eqVlt => /orP[/eqP E|hp].
    by subst p'; rewrite idxq idx // hnone.
  by rewrite !idx ?hord //; lia.
- have fn : i < fnone l'.
    rewrite ltnNge; apply/negP => hle.
    have hf : fnone l' < n by lia.
    have : ~~ isSome (nth None l' (fnone l')) by apply: (@nth_find _ None (fun o : option nat => ~~ isSome o)); rewrite has_find sl'.
    rewrite nth_relab ?sl //; case: ifP => // hn.
    case: (ltnP (fnone l') i) => hc; first by have [p _ ->] := before _ hc.
    have E : fnone l' = i by lia.
    by move: hn; rewrite E hrefl.
  move=> p; rewrite ltnS leq_eqVlt => /orP[/eqP ->|hp]; first by rewrite idxq.
  by rewrite idx //; apply: ltn_trans fn; exact: hnone.
Qed.

Lemma loop_sound fuel q l r : (forall i, i < n -> near i i) -> inv_state q l ->
  uwt_loop fuel near l q = Ok r -> exists2 q', inv_state q' r & all isSome r.
Proof.
move=> hr; elim: fuel q l => //= f IH q l hl; case: ifP => [ha [<-]|ha]; first by exists q.
case: has_near => // hno; apply: IH; apply: inv_stateS => //; first by rewrite ha.
move=> j hj hn; case E: (nth None l j) => [p|] //; case: hno; exists j.
by rewrite (is_size hl) E.
Qed.

Lemma inv_clustering q l : inv_state q l -> all isSome l -> clustering n near [seq odflt 0 o | o <- l].
Proof.
move=> [sl hlt hin hnear hord hnone] ha.
have El : l = [seq Some x | x <- [seq odflt 0 o | o <- l]].
  by rewrite -map_comp -[LHS]map_id; apply/eq_in_map => o /(allP ha); case: o.
set inv := [seq odflt 0 o | o <- l] in El *.
have memE p : (Some p \in l) = (p \in inv) by rewrite El mem_map // => x y [].
have idxE p : index (Some p) l = index p inv by rewrite El index_map // => x y [].
split.
- by rewrite size_map.
- move=> p p' hp' hpp; rewrite -!idxE; apply: hord => //; apply: hlt; by rewrite memE.
- move=> p j hp hj; rewrite -idxE -hnear //; last by apply: hlt; rewrite memE.
  by rewrite El (nth_map 0) ?size_map ?sl.
Qed.

Lemma loop_complete fuel q inv : clustering n near inv -> (forall i, i < n -> near i i) ->
  (forall x, x \in inv -> x.+1 < fuel + q) -> 0 < fuel ->
  (forall p, p < q -> p \in inv) ->
  uwt_loop fuel near [seq (if x < q then Some x else None) | x <- inv] q = Ok [seq Some x | x <- inv].
Proof.
move=> [sinv hord hnear] hr; elim: fuel q => // f IH q hq _ hp /=.
set l := map _ inv.
case: ifP => [/allP ha|ha].
  congr Ok; apply/eq_in_map => x hx; have := ha (if x < q then Some x else None).
  by rewrite map_f // => /(_ isT); case: ifP.
have sl : size l = n by rewrite size_map.
have lE j : j < n -> nth None l j = if nth 0 inv j < q then Some (nth 0 inv j) else None.
  by move=> hj; rewrite (nth_map 0) ?sinv.
set i := fnone l.
have hi : i < n.
  rewrite -sl -has_find; apply/negbNE/negP => /hasPn H; move: ha => /negbT/allPn[o /H].
  by rewrite negbK => ->.
have li : q <= nth 0 inv i.
  have : ~~ isSome (nth None l i) by apply: (@nth_find _ None (fun o : option nat => ~~ isSome o)); rewrite has_find sl.
  by rewrite lE //; case: ltnP.
(* q occurs, and i is its first occurrence *)
have hin : q \in inv.
  move: li; rewrite leq_eqVlt => /orP[/eqP ->|hlt]; first by rewrite mem_nth ?sinv.
  have h1 : nth 0 inv i \in inv by rewrite mem_nth ?sinv.
  rewrite -index_mem; apply: ltn_trans (hord _ _ h1 hlt) _.
  by rewrite index_mem.
have iq : i = index q inv.
  apply/eqP; rewrite eqn_leq; apply/andP; split; last first.
    move: li; rewrite leq_eqVlt => /orP[/eqP E|hlt].
      by rewrite E; apply: index_nth.
    have h1 : nth 0 inv i \in inv by rewrite mem_nth ?sinv.
    apply: ltnW; apply: leq_trans (hord _ _ h1 hlt) _.
    by apply: index_nth.
  rewrite leqNgt; apply/negP => hlt.
  have := before_find None hlt; rewrite lE; last by lia.
  by rewrite nth_index // ltnn.
rewrite ifF; last first.
  apply/has_near => -[j []]; rewrite sl => hj; rewrite iq -hnear // => /eqP E.
  by rewrite lE // E ltnn.
rewrite -[X in uwt_loop f near X]/(relab q i l).
have -> : relab q i l = [seq (if x < q.+1 then Some x else None) | x <- inv].
  apply: (@eq_from_nth _ None); first by rewrite size_relab !size_map.
  rewrite size_relab sl => j hj; rewrite nth_relab ?sl // lE // iq -hnear // (nth_map 0) ?sinv // ltnS [in RHS]leq_eqVlt.
  by case: (nth 0 inv j =P q) => [->|_] /=; rewrite ?eqxx.
apply: IH.
- by move=> x /hq; rewrite addSnnS.
- by have := hq _ hin; lia.
- by move=> p; rewrite ltnS leq_eqVlt => /orP[/eqP -> //|]; exact: hp.
Qed.

Lemma count_relab q i l : i < size l -> near i i -> nth None l i = None ->
  count (fun o : option nat => ~~ isSome o) (relab q i l) < count (fun o : option nat => ~~ isSome o) l.
Proof.
move=> hi hr li.
have E (l' : seq (option nat)) : count (fun o : option nat => ~~ isSome o) l' = \sum_(j < size l') ~~ isSome (nth None l' j).
  by rewrite -sum1_count big_mkcond (big_nth None) big_mkord; apply: eq_bigr => j _; case: (isSome _).
rewrite !E size_relab (bigD1 (Ordinal hi)) //= [X in _ < X](bigD1 (Ordinal hi)) //= li nth_relab // hr /= add0n add1n ltnS.
by apply: leq_sum => j _; rewrite nth_relab //; case: ifP.
Qed.

Lemma loop_total fuel q l : (forall i, i < n -> near i i) -> size l = n ->
  count (fun o : option nat => ~~ isSome o) l < fuel ->
  (exists r, uwt_loop fuel near l q = Ok r) \/ uwt_loop fuel near l q = Err ValueError.
Proof.
move=> hr; elim: fuel q l => // f IH q l sl hc /=; case: ifP => [_|ha]; first by left; exists l.
case: ifP => _; first by right.
set i := fnone l.
have hi : i < n.
  rewrite -sl -has_find; apply/negbNE/negP => /hasPn H; move: ha => /negbT/allPn[o /H].
  by rewrite negbK => ->.
apply: IH; first by rewrite size_relab.
apply: leq_trans (hc : _ <= f); apply: count_relab; rewrite ?sl ?hr //.
have : ~~ isSome (nth None l i) by apply: (@nth_find _ None (fun o : option nat => ~~ isSome o)); rewrite has_find sl.
by case: (nth _ _ _).
Qed.

Lemma loop_diverges fuel q : 0 < n -> (forall i j, near i j = false) ->
  uwt_loop fuel near (nseq n None) q = Err OutOfFuel.
Proof.
move=> n0 hf; elim: fuel q => // f IH q /=.
rewrite ifF; last by case: n n0.
rewrite ifF; last by apply/has_near => -[j []]; rewrite hf.
rewrite -[X in uwt_loop f near X]/(relab q _ (nseq n None)).
suff -> : relab q (fnone (nseq n (@None nat))) (nseq n None) = nseq n None by [].
apply: (@eq_from_nth _ None); first by rewrite size_relab.
by rewrite size_relab => j hj; rewrite nth_relab // hf.
Qed.

Lemma loop_complete0 fuel inv : n < fuel -> (forall i, i < n -> near i i) ->
  clustering n near inv -> uwt_loop fuel near (nseq n None) 0 = Ok [seq Some x | x <- inv].
Proof.
move=> hf hr hinv; have -> : nseq n None = [seq (if x < 0 then Some x else None) | x <- inv].
  by rewrite -(cl_size hinv); elim: (inv) => //= x s ->.
apply: (@loop_complete fuel 0 inv hinv hr) => //; last by lia.
move=> x hx; rewrite addn0.
have hsub : {subset iota 0 x.+1 <= inv}.
  move=> p; rewrite mem_iota add0n ltnS => /andP[_]; rewrite leq_eqVlt => /orP[/eqP -> //|hp].
  rewrite -index_mem; apply: ltn_trans (cl_order hinv hx hp) _.
  by rewrite index_mem.
have := uniq_leq_size (iota_uniq 0 x.+1) hsub; rewrite size_iota (cl_size hinv) => ?.
exact: leq_ltn_trans hf.
Qed.

(** The loop finds the clustering when there is one and raises otherwise. *)
Lemma loopP fuel : n < fuel -> (forall i, i < n -> near i i) ->
  (exists inv, uwt_loop fuel near (nseq n None) 0 = Ok [seq Some x | x <- inv] /\ clustering n near inv) \/
  (uwt_loop fuel near (nseq n None) 0 = Err ValueError /\ forall inv, ~ clustering n near inv).
Proof.
move=> hf hr.
have hc : count (fun o : option nat => ~~ isSome o) (nseq n None) < fuel.
  by apply: leq_ltn_trans hf; rewrite -[X in _ <= X](size_nseq n (@None nat)) count_size.
have [[r er]|er] := @loop_total fuel 0 (nseq n None) hr (size_nseq _ _) hc.
- left; have [q hq ha] := loop_sound hr inv_state0 er; exists [seq odflt 0 o | o <- r]; split.
    by rewrite er -map_comp; congr Ok; rewrite -[LHS]map_id; apply/eq_in_map => o /(allP ha); case: o.
  exact: inv_clustering hq ha.
- by right; split=> // inv /(loop_complete0 hf hr); rewrite er.
Qed.

(** Nearness that is an equivalence has a clustering, whose classes are its classes. *)
Lemma loop_equiv fuel q l : (forall i, i < n -> near i i) ->
  (forall i j k, i < n -> j < n -> k < n -> near i j -> near i k -> near j k) ->
  inv_state q l -> uwt_loop fuel near l q <> Err ValueError.
Proof.
move=> hr he; elim: fuel q l => //= f IH q l hl; case: ifP => // ha.
have hi : fnone l < n.
  rewrite -(is_size hl) -has_find; apply/negbNE/negP => /hasPn H; move: ha => /negbT/allPn[o /H].
  by rewrite negbK => ->.
have hN : nth None l (fnone l) = None.
  have : ~~ isSome (nth None l (fnone l)) by apply: (@nth_find _ None (fun o : option nat => ~~ isSome o)); rewrite has_find (is_size hl).
  by case: (nth _ _ _).
have hfree j : j < n -> near (fnone l) j -> nth None l j = None.
  move=> hj hn; case E: (nth None l j) => [p|] //.
  have hp : p < q by apply: (is_lt hl); rewrite -E mem_nth // (is_size hl).
  have hx : index (Some p) l < n by rewrite -(is_size hl) index_mem; apply: (is_in hl).
  have h1 : near (index (Some p) l) j by rewrite -(is_near hl) // E.
  have h2 : near j (index (Some p) l) by apply: he h1 _ => //; exact: hr.
  have h3 : near j (fnone l) by apply: he hn _ => //; exact: hr.
  by have := he _ _ _ hj hx hi h2 h3; rewrite -(is_near hl) // hN.
rewrite ifF; last first.
  by apply/has_near => -[j []]; rewrite (is_size hl) => hj /hfree -> //.
apply: IH; apply: inv_stateS => //; by rewrite ha.
Qed.

Lemma clustering_equiv inv : (forall i, i < n -> near i i) ->
  (forall i j k, i < n -> j < n -> k < n -> near i j -> near i k -> near j k) ->
  clustering n near inv -> forall i j, i < n -> j < n -> (nth 0 inv i == nth 0 inv j) = near i j.
Proof.
move=> hr he hc i j hi hj.
have mi : nth 0 inv i \in inv by rewrite mem_nth ?(cl_size hc).
have hx : index (nth 0 inv i) inv < n by rewrite -(cl_size hc) index_mem.
have h1 : near (index (nth 0 inv i) inv) i by rewrite -(cl_near hc) // eqxx.
have h2 : near i (index (nth 0 inv i) inv) by apply: he h1 _ => //; exact: hr.
rewrite eq_sym (cl_near hc) //; apply/idP/idP => h; first exact: he h1 h.
exact: he h2 h.
Qed.

Lemma clustering_unique inv inv' : (forall i, i < n -> near i i) ->
  clustering n near inv -> clustering n near inv' -> inv = inv'.
Proof.
move=> hr /(loop_complete0 (ltnSn n) hr) h /(loop_complete0 (ltnSn n) hr); rewrite h => -[].
by move/inj_map; apply=> x y [].
Qed.
End Loop.

Section Arrays.
Variable C : numClosedFieldType.
Notation nd := (nd C).

(** Spec: the Euclidean distance of a[i] and a[j], and the mean of the elements with label q. *)
Definition edist (a : nd) (i j : nat) : C :=
  sqrtC (\sum_(r <- all_idx (behead (shape a))) `|get a (i :: r) - get a (j :: r)| ^+ 2).
Definition mean (a : nd) (inv : seq nat) (q : nat) (r : seq nat) : C :=
  (\sum_(i < size inv | nth 0%N inv i == q) get a ((i : nat) :: r)) / (count_mem q inv)%:R.

Lemma nprod_cons d sh : nprod (d :: sh) = (d * nprod sh)%N. Proof. by []. Qed.

Lemma edist_refl a i : edist a i i = 0.
Proof. by rewrite /edist big1 ?sqrtC0 // => r _; rewrite subrr normr0 expr0n. Qed.
Lemma edist_ge0 a i j : 0 <= edist a i j.
Proof. by rewrite sqrtC_ge0; apply: sumr_ge0 => r _; rewrite exprn_ge0. Qed.

Section Arr.
Variables (a : nd) (n : nat) (sh : seq nat).
Hypothesis sa : shape a = n :: sh.
Hypothesis n0 : (0 < n)%N.
Notation k := (nprod sh).

Lemma flatten_a : exists b : nd, [/\ reshape a [:: n; k] = Ok b,
  forall i x, (x < k)%N -> get b [:: i; x] = get a (i :: unravel sh x) &
  forall i j, sq_dist k b i j = edist a i j].
Proof using sa n0.
have [b [eb gb]] : exists b : nd, reshape a [:: n; k] = Ok b /\
    forall i x, (x < k)%N -> get b [:: i; x] = get a (i :: unravel sh x).
  rewrite /reshape sa !nprod_cons /= muln1 eqxx; eexists; split=> //= i x hx.
  rewrite ?muln1 ?addn0 divnMDl ?modnMDl; last by lia.
  by rewrite divn_small // addn0 modn_small.
exists b; split=> // i j.
rewrite /sq_dist /edist; congr sqrtC.
rewrite sa /= /all_idx big_map -[k in RHS]subn0 -/(index_iota 0 k) big_mkord.
by apply: eq_bigr => x _; rewrite !gb.
Qed.

Lemma sorted_max inv q0 : (forall p q, q \in inv -> (p < q)%N -> p \in inv) -> q0 \in inv ->
  forall q, (q \in inv) = (q < (foldr maxn 0%N inv).+1)%N.
Proof.
move=> hdown hin q.
have hle x : x \in inv -> (x <= foldr maxn 0%N inv)%N.
  elim: (inv) => //= y s IH; rewrite inE leq_max => /orP[/eqP ->|/IH ->]; by rewrite ?leqnn ?orbT.
have hmax : foldr maxn 0%N inv \in inv.
  have : inv <> [::] by case: (inv) hin.
  elim: (inv) => //= y s IH _; rewrite inE; case: s IH => [|z s] IH; first by rewrite /= maxn0 eqxx.
  by case: (leqP (foldr maxn 0%N (z :: s)) y) => h; rewrite ?eqxx ?IH ?orbT.
apply/idP/idP => [/hle //|]; rewrite ltnS leq_eqVlt => /orP[/eqP -> //|]; exact: hdown.
Qed.

Definition nlabels (inv : seq nat) : nat := (foldr maxn 0%N inv).+1.

Lemma uwtP fuel tol : (n < fuel)%N -> 0 < tol ->
  (exists c inv, [/\ unique_with_tol fuel tol a = Ok (c, inv), clustering n (fun i j => edist a i j < tol) inv,
      shape c = nlabels inv :: sh &
      forall q r, (q < nlabels inv)%N -> valid sh r -> get c (q :: r) = mean a inv q r]) \/
  (unique_with_tol fuel tol a = Err ValueError /\ forall inv, ~ clustering n (fun i j => edist a i j < tol) inv).
Proof using sa n0.
move=> hf ht.
have [b [eb gb db]] := flatten_a.
have hk : (nprod (shape a) %/ n = k)%N by rewrite sa nprod_cons mulKn.
have hp : (0 < size (shape a))%N by rewrite sa.
have hl : len a = n by rewrite /len sa.
rewrite /unique_with_tol hp hl (gtn_eqF n0) hk eb.
cbv beta iota zeta delta [rbind passert].
set near := (fun i j => sq_dist k b i j < tol).
have nearE : forall i j, near i j = (edist a i j < tol) by move=> i j; rewrite /near db.
have clE inv : clustering n near inv <-> clustering n (fun i j => edist a i j < tol) inv.
  by split=> -[h1 h2 h3]; split=> // q j hq hj; rewrite h3 // nearE.
have [|[inv [-> hinv]]|[-> hno]] := @loopP n near fuel hf.
- by move=> i hi; rewrite nearE edist_refl.
- left.
  have -> : [seq odflt 0%N o | o <- [seq Some x | x <- inv]] = inv by rewrite -map_comp map_id_in.
  rewrite /reshape /= sa /= muln1 eqxx; do 2!eexists; split=> //.
    exact/clE.
  move=> q r hq hr /=.
  have hrl := ravel_lt hr.
  rewrite ?muln1 divnMDl; last by lia.
  rewrite (divn_small hrl) addn0 ?muln1 modnMDl modn_small // divn1.
  rewrite /mean; congr (_ / _).
  rewrite big_filter (cl_size hinv) -[n in iota 0 n]subn0 -/(index_iota 0 n) big_mkord.
  by apply: eq_bigr => i _; rewrite gb // ravelK.
- by right; split=> // inv /clE /hno.
Qed.

Lemma uwt_diverges fuel tol : tol <= 0 -> unique_with_tol fuel tol a = Err OutOfFuel.
Proof using sa n0.
move=> ht.
have [b [eb gb db]] := flatten_a.
have hk : (nprod (shape a) %/ n = k)%N by rewrite sa nprod_cons mulKn.
have hp : (0 < size (shape a))%N by rewrite sa.
have hl : len a = n by rewrite /len sa.
rewrite /unique_with_tol hp hl (gtn_eqF n0) hk eb.
cbv beta iota zeta delta [rbind passert].
rewrite loop_diverges // => i j; apply/negbTE; rewrite db; apply/negP => h.
by have := lt_le_trans h ht; rewrite le_gtF ?edist_ge0.
Qed.
End Arr.

Lemma uwt_empty fuel tol (a : nd) sh : shape a = 0%N :: sh -> unique_with_tol fuel tol a = Err ValueError.
Proof. by move=> sa; rewrite /unique_with_tol /len sa. Qed.
Lemma uwt_scalar fuel tol (a : nd) : shape a = [::] -> unique_with_tol fuel tol a = Err AssertionError.
Proof. by move=> sa; rewrite /unique_with_tol sa. Qed.

Lemma clustering_labels n near inv : (0 < n)%N -> clustering n near inv ->
  forall q, (q \in inv) = (q < nlabels inv)%N.
Proof.
move=> n0 hinv; apply: (@sorted_max inv (nth 0%N inv 0)); last by rewrite mem_nth ?(cl_size hinv).
move=> p q hq hp; rewrite -index_mem; apply: ltn_trans (cl_order hinv hq hp) _.
by rewrite index_mem.
Qed.

Lemma eigenspacesP fuel eps (val vec : nd) n d : shape val = [:: n] -> shape vec = [:: d; n] ->
  (0 < n)%N -> (n < fuel)%N -> 0 < eps ->
  (exists inv s, [/\ clustering n (fun i j => edist val i j < eps) inv,
     eigenspaces fuel eps val vec = Ok s, size s = nlabels inv &
     forall q, (q < nlabels inv)%N -> exists v W, [/\ nth (val, vec) s q = (v, W),
       shape v = [::], get v [::] = mean val inv q [::],
       shape W = [:: d; count_mem q inv] &
       forall x y, get W [:: x; y] = get vec [:: x; nth 0%N [seq j <- iota 0 n | nth 0%N inv j == q] y]]]) \/
  (eigenspaces fuel eps val vec = Err ValueError /\ forall inv, ~ clustering n (fun i j => edist val i j < eps) inv).
Proof.
move=> sv sw n0 hf he; rewrite /eigenspaces.
have [[c [inv [-> hinv sc gc]]]|[-> hno]] := uwtP sv n0 hf he; last by right.
left; exists inv; cbv beta iota delta [rbind].
have hc q : [seq j <- iota 0 n | nth false [seq i == q | i <- inv] j] = [seq j <- iota 0 n | nth 0%N inv j == q].
  apply/eq_in_filter => j; rewrite mem_iota => /andP[_ hj].
  by rewrite (nth_map 0%N) ?(cl_size hinv).
have hs q : size [seq j <- iota 0 n | nth 0%N inv j == q] = count_mem q inv.
  rewrite size_filter -(cl_size hinv) -(count_map (nth 0%N inv) (pred1 q)).
  by rewrite -[X in count _ X](_ : inv = _) //; apply/esym/mkseq_nth.
pose g q := (slice0 c q, Nd [:: d; size [seq j <- iota 0 n | nth 0%N inv j == q]]
   (fun idx => get vec [:: nth 0%N idx 0; nth 0%N [seq j <- iota 0 n | nth 0%N inv j == q] (nth 0%N idx 1)])).
have -> : mapR (fun j => match select_cols vec [seq i == j | i <- inv] with
    | Ok W => Ok (slice0 c j, W) | Err e => Err e end) (iota 0 (len c)) = Ok [seq g q | q <- iota 0 (len c)].
  apply: mapR_ok_in => j _; rewrite /select_cols sw size_map (cl_size hinv) eqxx /=.
  by rewrite !hc.
exists [seq g q | q <- iota 0 (len c)]; rewrite size_map size_iota /len sc; split=> // q hq.
rewrite (nth_map 0%N) ?size_iota // nth_iota // add0n; do 2!eexists; split; first by [].
- by rewrite /= sc.
- by rewrite /= gc.
- by rewrite /= hs.
- by [].
Qed.
End Arrays.
