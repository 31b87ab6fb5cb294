(** SunBasis: the basis of su(n) used by sun.py generators, in terms of n x n matrices. *)
From Coq Require Import ZArith.
From Verif Require Import McRing.
From mathcomp Require Import all_ssreflect all_algebra.
From mathcomp.zify Require Import zify.
From Verif Require Import Base Nd NdProofs Reps Pinv Sun SunGl.

Set Implicit Arguments.
Unset Strict Implicit.
Unset Printing Implicit Defensive.

Import GRing.Theory Num.Theory Order.Theory.
Local Open Scope ring_scope.

Section Pairs.
Variable n : nat.
Notation q := (size (su_pairs n)).
Lemma mem_pairs k l : ((k, l) \in su_pairs n) = (k < l < n)%N.
Proof.
apply/allpairsPdep/idP => [[k' [l' []]]|h].
  by rewrite !mem_iota => h1 h2 [-> ->]; lia.
by exists k, l; rewrite !mem_iota; split=> //; lia.
Qed.
Lemma pairs_uniq : uniq (su_pairs n).
Proof.
apply: allpairs_uniq_dep; rewrite ?iota_uniq //; first by move=> k _; apply: iota_uniq.
by move=> [a b] [a' b'] /= _ _ [-> ->].
Qed.
Lemma size_pairs : (q.*2 = n * n.-1)%N.
Proof.
have -> : q = sumn [seq (n - k.+1)%N | k <- iota 0 n].
  by rewrite size_allpairs_dep; congr sumn; apply: eq_map => k; rewrite size_iota.
rewrite sumnE big_map -{1}[n]subn0 -/(index_iota 0 n) big_mkord (eq_bigr (fun k : 'I_n => (rev_ord k : nat))) => [|k _]; last by [].
rewrite (reindex_inj rev_ord_inj) /= (eq_bigr (fun k : 'I_n => k : nat)) => [|k _]; last by have := ltn_ord k; lia.
elim: n => [|m IH]; first by rewrite big_ord0.
by rewrite big_ord_recr /= doubleD IH -muln2; case: m {IH} => //= m; lia.
Qed.
Lemma size_basis : (0 < n)%N -> (n ^ 2 - 1 = q + q + n.-1)%N.
Proof.
by move=> n0; have := size_pairs; rewrite -addnn => ->; case: n n0 => //= m _; rewrite expnS expn1; lia.
Qed.
End Pairs.

Section Basis.
Variables (C : numClosedFieldType) (n : nat).
Notation q := (size (su_pairs n)).
Notation pr g := (nth (0%N, 0%N) (su_pairs n) g).

(** The generators built from matrices E k l. *)
Definition gX d (E : nat -> nat -> 'M[C]_d) (g : nat) : 'M[C]_d :=
  if (g < q)%N then 'i *: (E (pr g).1 (pr g).2 + E (pr g).2 (pr g).1)
  else if (g < q + q)%N then E (pr (g - q)).1 (pr (g - q)).2 - E (pr (g - q)).2 (pr (g - q)).1
  else let t := (g - (q + q))%N in 'i *: (E t t - E t.+1 t.+1).

Lemma sum3 (V : zmodType) (r : nat) (F : nat -> V) :
  \sum_(g < q + q + r) F g = \sum_(g < q) F g + \sum_(g < q) F (q + g)%N + \sum_(t < r) F (q + q + t)%N.
Proof. by rewrite !big_split_ord. Qed.
Lemma sum_pairs (V : zmodType) (F : nat * nat -> V) :
  \sum_(g < q) F (pr g) = \sum_(k < n) \sum_(l < n | (k < l)%N) F (k : nat, l : nat).
Proof.
transitivity (\sum_(p <- su_pairs n) F p); first by rewrite (big_nth (0%N, 0%N)) big_mkord.
rewrite /su_pairs big_allpairs_dep /= -{1}[n]subn0 -/(index_iota 0 n) big_mkord; apply: eq_bigr => k _.
by rewrite -/(index_iota k.+1 n) big_geq_mkord.
Qed.
Lemma gX1 d (E : nat -> nat -> 'M[C]_d) (g : 'I_q) : gX E g = 'i *: (E (pr g).1 (pr g).2 + E (pr g).2 (pr g).1).
Proof. by rewrite /gX ltn_ord. Qed.
Lemma gX2 d (E : nat -> nat -> 'M[C]_d) (g : 'I_q) : gX E (q + g) = E (pr g).1 (pr g).2 - E (pr g).2 (pr g).1.
Proof. by rewrite /gX ltnNge leq_addr /= ltn_add2l ltn_ord addKn. Qed.
Lemma gX3 d (E : nat -> nat -> 'M[C]_d) t : gX E (q + q + t) = 'i *: (E t t - E t.+1 t.+1).
Proof. by rewrite /gX ltnNge -addnA leq_addr /= addnA ltnNge leq_addr /= addKn. Qed.

Lemma abel (V : lmodType C) (x : nat -> C) (D : nat -> V) m :
  \sum_(t < m) (\sum_(s < t.+1) x s) *: (D t - D t.+1) = \sum_(t < m) x t *: D t - (\sum_(s < m) x s) *: D m.
Proof.
elim: m => [|m IH]; first by rewrite !big_ord0 scale0r subr0.
rewrite big_ord_recr IH [in RHS]big_ord_recr /= scalerBr !addrA; congr (_ - _).
by rewrite -addrA -[RHS]/(_ + _); congr (_ + _); rewrite big_ord_recr /= scalerDl addKr.
Qed.

(** The coordinates of an antihermitian traceless matrix. *)
Definition crd (M : nat -> nat -> C) (g : nat) : C :=
  if (g < q)%N then 'Im (M (pr g).1 (pr g).2)
  else if (g < q + q)%N then 'Re (M (pr (g - q)).1 (pr (g - q)).2)
  else \sum_(s < (g - (q + q)).+1) 'Im (M s s).
Lemma crd1 M (g : 'I_q) : crd M g = 'Im (M (pr g).1 (pr g).2).
Proof. by rewrite /crd ltn_ord. Qed.
Lemma crd2 M (g : 'I_q) : crd M (q + g) = 'Re (M (pr g).1 (pr g).2).
Proof. by rewrite /crd ltnNge leq_addr /= ltn_add2l ltn_ord addKn. Qed.
Lemma crd3 M t : crd M (q + q + t) = \sum_(s < t.+1) 'Im (M s s).
Proof. by rewrite /crd ltnNge -addnA leq_addr /= addnA ltnNge leq_addr /= addKn. Qed.
Lemma crd_real M g : crd M g \is Num.real.
Proof.
by rewrite /crd; case: ifP => _; [|case: ifP => _]; rewrite ?Creal_Im ?Creal_Re // rpred_sum // => s _; apply: Creal_Im.
Qed.

Lemma spanE d (E : nat -> nat -> 'M[C]_d) (M : nat -> nat -> C) : (0 < n)%N ->
  (forall k l, (k < n)%N -> (l < n)%N -> M l k = - (M k l)^*) -> \sum_(t < n) M t t = 0 ->
  \sum_(g < q + q + n.-1) crd M g *: gX E g = \sum_(k < n) \sum_(l < n) M k l *: E k l.
Proof.
move=> n0 ah tr0; rewrite (sum3 _ (fun g => crd M g *: gX E g)).
pose f k l := M k l *: E k l.
have hr (V : zmodType) (F : nat -> V) : \sum_(t < n) F t = \sum_(t < n.-1) F t + F n.-1.
  by rewrite -(big_ord_recr n.-1 (fun t : 'I_n.-1.+1 => F t)) (prednK n0).
have pairs2 : \sum_(g < q) crd M g *: gX E g + \sum_(g < q) crd M (q + g)%N *: gX E (q + g)%N =
    \sum_(k < n) \sum_(l < n | (k < l)%N) (f k l + f l k).
  rewrite -big_split /= -(sum_pairs (fun p => f p.1 p.2 + f p.2 p.1)); apply: eq_bigr => g _.
  have : pr g \in su_pairs n by apply: mem_nth.
  rewrite crd1 crd2 gX1 gX2; case: (pr g) => k l; rewrite mem_pairs /f /= => /andP[kl ln].
  rewrite scalerA scalerDr scalerBr addrACA -scalerDl -scalerBl [M l k]ah //; last exact: ltn_trans ln.
  set x := M k l; congr (_ *: _ + _ *: _); first by rewrite {3}[x]Crect addrC mulrC.
  rewrite {3}[x]Crect rmorphD rmorphM /= conjCi.
  rewrite !(conj_Creal _) ?Creal_Re ?Creal_Im //; mcring.
have diag : \sum_(t < n.-1) crd M (q + q + t)%N *: gX E (q + q + t)%N = \sum_(t < n) f t t.
  have im t : (t < n)%N -> M t t = 'i * 'Im (M t t).
    move=> tn; have r0 : 'Re (M t t) = 0.
      suff: 'Re (M t t) *+ 2 == 0 by rewrite mulrn_eq0 => /eqP.
      rewrite mulr2n addr_eq0; apply/eqP.
      by rewrite {1}(ah t t tn tn) raddfN /= Re_conj.
    by rewrite {1}[M t t]Crect r0 add0r.
  rewrite (eq_bigr (fun t : 'I_n.-1 => (\sum_(s < t.+1) M s s) *: (E t t - E t.+1 t.+1))) => [|t _]; last first.
    rewrite crd3 gX3 scalerA mulrC; congr (_ *: _); rewrite mulr_sumr; apply: eq_bigr => s _.
    by rewrite -im //; have := ltn_ord s; have := ltn_ord t; lia.
  rewrite (abel (fun s => M s s) (fun s => E s s)).
  have -> : \sum_(s < n.-1) M s s = - M n.-1 n.-1.
    by apply/eqP; rewrite -addr_eq0 -(hr _ (fun s => M s s)) tr0.
  by rewrite scaleNr opprK -(hr _ (fun s => f s s)).
rewrite pairs2 diag.
transitivity (\sum_(k < n) (\sum_(l < n | (k < l)%N) f k l + f k k + \sum_(l < n | (l < k)%N) f k l)); last first.
  apply: eq_bigr => k _; rewrite [RHS](bigID (fun l : 'I_n => (k < l)%N)) /= -addrA; congr (_ + _).
  rewrite [RHS](bigD1 k) /= ?ltnn //; congr (_ + _); apply: eq_bigl => l.
  by rewrite -leqNgt ltn_neqAle andbC.
rewrite !big_split /= [X in _ = _ + X](exchange_big_dep xpredT) //= [RHS]addrAC; congr (_ + _).
by rewrite -big_split; apply: eq_bigr => k _; rewrite big_split.
Qed.

(** The n x n matrix units and the generators they give: i(e_kl + e_lk), e_kl - e_lk for k < l
    and i(e_tt - e_(t+1,t+1)). *)
Definition un (k l : nat) : 'M[C]_n := \matrix_(a, b) ((a == k :> nat) && (b == l :> nat))%:R.
Definition su_gen (g : nat) : 'M[C]_n := gX un g.
Definition en (M : 'M[C]_n) (a b : nat) : C :=
  if insub a is Some i then if insub b is Some j then M i j else 0 else 0.
Lemma enE M (i j : 'I_n) : en M i j = M i j. Proof. by rewrite /en !valK. Qed.
Lemma sum_un (M : 'M[C]_n) : \sum_(k < n) \sum_(l < n) en M k l *: un k l = M.
Proof.
rewrite [RHS]matrix_sum_delta; apply: eq_bigr => i _; apply: eq_bigr => j _; rewrite enE; congr (_ *: _).
by apply/matrixP => a b; rewrite !mxE -!val_eqE.
Qed.
Lemma adj_un k l : adj (un k l) = un l k.
Proof. by apply/matrixP => a b; rewrite !mxE conjC_nat andbC. Qed.
Lemma tr_un k l : (k < n)%N -> \tr (un k l) = (k == l)%:R.
Proof.
move=> hk; rewrite /mxtrace (bigD1 (Ordinal hk)) //= big1 ?addr0 => [|a ne]; rewrite mxE ?eqxx //.
by rewrite -val_eqE in ne; rewrite (negbTE ne).
Qed.
Lemma gX_ind d (E : nat -> nat -> 'M[C]_d) (P : 'M[C]_d -> Prop) : (0 < n)%N ->
  (forall k l, (k < l < n)%N -> P ('i *: (E k l + E l k))) ->
  (forall k l, (k < l < n)%N -> P (E k l - E l k)) ->
  (forall t, (t.+1 < n)%N -> P ('i *: (E t t - E t.+1 t.+1))) -> forall g, (g < q + q + n.-1)%N -> P (gX E g).
Proof.
move=> n0 h1 h2 h3 g hg; rewrite /gX.
have pp a : (a < q)%N -> ((pr a).1 < (pr a).2 < n)%N by move=> ha; rewrite -mem_pairs -surjective_pairing mem_nth.
case: ifP => [hq|/negbT]; first by apply: h1; apply: pp.
rewrite -leqNgt => hq; case: ifP => [hq2|/negbT]; first by apply: h2; apply: pp; lia.
by rewrite -leqNgt => hq2; apply: h3; lia.
Qed.
Lemma su_gen_adj g : (0 < n)%N -> (g < q + q + n.-1)%N -> adj (su_gen g) = - su_gen g.
Proof.
move=> n0; apply: (@gX_ind _ un (fun X => adj X = - X)) => // [k l _|k l _|t _].
- by rewrite adjZ adjD !adj_un conjCi addrC scaleNr.
- by rewrite adjB !adj_un opprB.
- by rewrite adjZ adjB !adj_un conjCi scaleNr.
Qed.
Lemma su_gen_tr g : (0 < n)%N -> (g < q + q + n.-1)%N -> \tr (su_gen g) = 0.
Proof.
move=> n0; apply: (@gX_ind _ un (fun X => \tr X = 0)) => // [k l h|k l h|t h].
- rewrite linearZ linearD /= !tr_un; try lia.
  by rewrite (_ : (k == l) = false) 1?(_ : (l == k) = false) ?addr0 ?mulr0 //; lia.
- rewrite linearB /= !tr_un; try lia.
  by rewrite (_ : (k == l) = false) 1?(_ : (l == k) = false) ?subr0 //; lia.
- by rewrite linearZ linearB /= !tr_un ?eqxx ?subrr ?mulr0 //; lia.
Qed.
Lemma su_gen_indep (c : nat -> C) : (0 < n)%N -> \sum_(g < q + q + n.-1) c g *: su_gen g = 0 ->
  forall g, (g < q + q + n.-1)%N -> c g = 0.
Proof.
move=> n0 e0.
have ent (a b : 'I_n) : \sum_(g < q) c g * su_gen g a b + \sum_(g < q) c (q + g)%N * su_gen (q + g) a b +
    \sum_(t < n.-1) c (q + q + t)%N * su_gen (q + q + t) a b = 0.
  rewrite -(sum3 _ (fun g => c g * su_gen g a b)); move/matrixP/(_ a b): e0; rewrite summxE mxE => e; rewrite -[RHS]e.
  by apply: eq_bigr => g _; rewrite [in RHS]mxE.
have off g : (g < q)%N -> c g = 0 /\ c (q + g)%N = 0.
  move=> hg; have hp : pr g \in su_pairs n by apply: mem_nth.
  case ep : (pr g) => [k l]; rewrite ep mem_pairs in hp; case/andP: hp => kl hl.
  have hk : (k < n)%N by apply: ltn_trans hl.
  pose a := Ordinal hk; pose b := Ordinal hl.
  have p1 (g' : 'I_q) : su_gen g' a b = 'i * (g' == Ordinal hg)%:R.
    rewrite /su_gen gX1 !mxE /=; congr (_ * _).
    have : pr g' \in su_pairs n by apply: mem_nth.
    rewrite -val_eqE /= -(nth_uniq (0%N, 0%N) (ltn_ord g') hg (pairs_uniq n)) ep.
    by case: (pr g') => k' l'; rewrite mem_pairs /= => h'; rewrite -natrD xpair_eqE; congr (_%:R); lia.
  have p1' (g' : 'I_q) : su_gen g' b a = 'i * (g' == Ordinal hg)%:R.
    by rewrite -p1 /su_gen gX1 !mxE /= addrC; congr (_ * (_%:R + _%:R)); rewrite andbC.
  have p2 (g' : 'I_q) : su_gen (q + g') a b = (g' == Ordinal hg)%:R.
    rewrite /su_gen gX2 !mxE /=.
    have : pr g' \in su_pairs n by apply: mem_nth.
    rewrite -val_eqE /= -(nth_uniq (0%N, 0%N) (ltn_ord g') hg (pairs_uniq n)) ep.
    case: (pr g') => k' l'; rewrite mem_pairs /= => h'.
    rewrite (_ : (k == l') && (l == k') = false) ?subr0 ?xpair_eqE; last by lia.
    by rewrite [k == _]eq_sym [l == _]eq_sym.
  have p2' (g' : 'I_q) : su_gen (q + g') b a = - (g' == Ordinal hg)%:R.
    by rewrite -p2 /su_gen gX2 !mxE /= opprB; congr (_%:R - _%:R); rewrite andbC.
  have p3 t : su_gen (q + q + t) a b = 0 /\ su_gen (q + q + t) b a = 0.
    rewrite /su_gen gX3 !mxE /=.
    have z1 s : (k == s) && (l == s) = false by lia.
    have z2 s : (l == s) && (k == s) = false by lia.
    by rewrite !z1 !z2 !subr0 !mulr0.
  have sd (F : nat -> C) x : \sum_(g' < q) F g' * (x * (g' == Ordinal hg)%:R) = F g * x.
    rewrite (bigD1 (Ordinal hg)) //= eqxx mulr1 big1 ?addr0 // => g' ne.
    by rewrite (negbTE ne) !mulr0.
  have z3 (x : 'I_n.-1 -> C) : (forall t, x t = 0) -> \sum_(t < n.-1) c (q + q + t)%N * x t = 0.
    by move=> h; rewrite big1 // => t _; rewrite h mulr0.
  have := ent b a; rewrite (z3 (fun t => su_gen (q + q + t) b a)) ?addr0; last by move=> t; have [] := p3 t.
  have := ent a b; rewrite (z3 (fun t => su_gen (q + q + t) a b)) ?addr0; last by move=> t; have [] := p3 t.
  rewrite (eq_bigr (fun g' : 'I_q => c g' * ('i * (g' == Ordinal hg)%:R))) => [|g' _]; last by rewrite p1.
  rewrite [X in _ + X](eq_bigr (fun g' : 'I_q => c (q + g')%N * (1 * (g' == Ordinal hg)%:R))) => [|g' _]; last by rewrite p2 mul1r.
  rewrite sd (sd (fun g => c (q + g)%N)) mulr1 => e1.
  rewrite (eq_bigr (fun g' : 'I_q => c g' * ('i * (g' == Ordinal hg)%:R))) => [|g' _]; last by rewrite p1'.
  rewrite [X in _ + X](eq_bigr (fun g' : 'I_q => c (q + g')%N * (- 1 * (g' == Ordinal hg)%:R))) => [|g' _]; last by rewrite p2' mulN1r.
  rewrite sd (sd (fun g => c (q + g)%N)) mulrN1 => e2.
  have cg : c g * 'i = 0.
    have: (c g * 'i) *+ 2 == 0 by rewrite mulr2n -[X in _ == X]addr0 -{1}e1 -e2 addrACA subrr addr0.
    by rewrite mulrn_eq0 => /eqP.
  split; last by rewrite -e1 cg add0r.
  by move/eqP: cg; rewrite mulf_eq0 (negbTE (neq0Ci _)) orbF => /eqP.
have dg t : (t < n.-1)%N -> c (q + q + t)%N = 0.
  elim/ltn_ind: t => t IH ht; have htn : (t < n)%N by lia.
  have := ent (Ordinal htn) (Ordinal htn).
  rewrite big1 => [|g _]; last by have [-> _] := off g (ltn_ord g); rewrite mul0r.
  rewrite big1 => [|g _]; last by have [_ ->] := off g (ltn_ord g); rewrite mul0r.
  rewrite !add0r (bigD1 (Ordinal ht)) //= big1 ?addr0 => [|s ne]; last first.
    rewrite /su_gen gX3 !mxE /= !andbb; move: ne; rewrite -val_eqE /= => ne.
    rewrite [(t == s)]eq_sym (negbTE ne) sub0r; case: (t =P s.+1) => [e|_]; last by rewrite oppr0 !mulr0.
    by rewrite IH ?mul0r ?e //; rewrite -e.
  rewrite /su_gen gX3 !mxE /= !andbb eqxx (_ : (t == t.+1) = false) ?subr0 ?mulr1; last by lia.
  by move/eqP; rewrite mulf_eq0 (negbTE (neq0Ci _)) orbF => /eqP.
move=> g hg; have [h|h] := ltnP g q; first by have [] := off g h.
have [h2|h2] := ltnP g (q + q); last by rewrite -(subnKC h2); apply: dg; lia.
have hs : (g - q < q)%N by lia.
by rewrite -(subnKC h); have [] := off _ hs.
Qed.
End Basis.
