(** FiniteProofs: the symmetric group representations. *)
From mathcomp Require Import all_ssreflect all_fingroup all_algebra.
From mathcomp.zify Require Import zify.
From Verif Require Import Base Nd NdProofs Reps RepSpec Finite.

Set Implicit Arguments.
Unset Strict Implicit.
Unset Printing Implicit Defensive.

Import GRing.Theory Num.Theory.
Local Open Scope ring_scope.

(** Spec: the symmetric group on {0..n-1} generated by the transposition (0 1) and the
    cycle k -> k+1 mod n, acting on natural numbers. *)
Definition swap (i j k : nat) : nat := if k == i then j else if k == j then i else k.
Definition sgen (n b k : nat) : nat := if b is 0 then swap 0 1 k else (k.+1 %% n)%N.
Definition weval (n : nat) (w : seq nat) (k : nat) : nat := foldr (sgen n) k w.
Definition sn_gens (n : nat) : nat := if (n <= 1)%N then 0%N else if n == 2%N then 1%N else 2%N.

Definition Sn_theory (C : numClosedFieldType) (n : nat) : theory C :=
  Theory 0 (sn_gens n) (fun _ _ _ => 0)
    (fun u v => forall k, (k < n)%N -> weval n u k = weval n v k) (fun _ => True).

Section Gen.
Lemma swap_lt n i j k : (i < n -> j < n -> k < n -> swap i j k < n)%N.
Proof. by rewrite /swap; case: ifP => // _; case: ifP. Qed.
Lemma swapL i j : swap i j i = j.
Proof. by rewrite /swap eqxx. Qed.
Lemma swapR i j : swap i j j = i.
Proof. by rewrite /swap eqxx; case: eqP. Qed.
Lemma swapD i j k : k <> i -> k <> j -> swap i j k = k.
Proof. by rewrite /swap; do 2![case: eqP => //]. Qed.
Lemma sgen_lt n b k : (b < sn_gens n -> k < n -> sgen n b k < n)%N.
Proof.
rewrite /sn_gens; case: n => [|[|n]] //= hb hk; case: b hb => [|b] /= hb.
  exact: swap_lt.
by rewrite ltn_pmod.
Qed.
Lemma weval_lt n w k : all (fun b => b < sn_gens n)%N w -> (k < n)%N -> (weval n w k < n)%N.
Proof. by elim: w => //= b w IH /andP[hb hw] hk; apply: sgen_lt => //; exact: IH. Qed.
Lemma swap_inj i j : injective (swap i j).
Proof.
by move=> x y; rewrite /swap; case: (x =P i) => ?; case: (x =P j) => ?; case: (y =P i) => ?; case: (y =P j) => ?; lia.
Qed.
Lemma sgen_inj n b x y : (b < sn_gens n -> x < n -> y < n -> sgen n b x = sgen n b y -> x = y)%N.
Proof.
rewrite /sn_gens; case: n => [|[|n]] //= hb hx hy; case: b hb => [|b] /= hb.
  exact: swap_inj.
move=> h; have : (x.+1 = y.+1 %[mod n.+2])%N by [].
rewrite -[x.+1]addn1 -[y.+1]addn1 => /eqP; rewrite eqn_modDr !modn_small // => /eqP //.
Qed.
Lemma weval_inj n w x y : all (fun b => b < sn_gens n)%N w -> (x < n)%N -> (y < n)%N ->
  weval n w x = weval n w y -> x = y.
Proof.
elim: w => //= b w IH /andP[hb hw] hx hy /sgen_inj h; apply: (IH hw hx hy).
by apply: h => //; exact: weval_lt.
Qed.
End Gen.

Section Nat.
Variable C : numClosedFieldType.
Notation nd := (nd C).

Lemma get_foldl_set (T : Type) (f : T -> seq nat) (x : C) (l : seq T) (m : nd) idx :
  get (foldl (fun m t => set_at m (f t) x) m l) idx =
  if has (fun t => idx == f t) l then x else get m idx.
Proof.
elim: l m => //= t l IH m; rewrite IH /=.
by case: eqP => //=; case: ifP.
Qed.
Lemma shape_foldl_set (T : Type) (f : T -> seq nat) (x : C) (l : seq T) (m : nd) :
  shape (foldl (fun m t => set_at m (f t) x) m l) = shape m.
Proof. by elim: l m => //= t l IH m; rewrite IH. Qed.

Lemma permutation_matrixP p : all (fun i => i < size p)%N p ->
  exists M : nd, [/\ permutation_matrix C p = Ok M, shape M = [:: size p; size p] &
    forall i k, (k < size p)%N -> get M [:: i; k] = (i == nth 0%N p k)%:R].
Proof.
move=> hp; eexists; split; first by rewrite /permutation_matrix hp.
  exact: (@shape_foldl_set _ (fun ik : nat * nat => [:: ik.1; ik.2])).
move=> i k hk; rewrite (@get_foldl_set _ (fun ik : nat * nat => [:: ik.1; ik.2])) /=.
have -> : has (fun t : nat * nat => [:: i; k] == [:: t.1; t.2]) (zip p (iota 0 (size p))) = (i == nth 0%N p k).
  apply/(has_nthP (0%N, 0%N))/eqP => [[q]|->].
    rewrite size_zip size_iota minnn => hq; rewrite nth_zip ?size_iota //= nth_iota // add0n.
    by move=> /eqP [-> ->].
  exists k; first by rewrite size_zip size_iota minnn.
  by rewrite nth_zip ?size_iota //= nth_iota.
by case: eqP.
Qed.

Lemma transposition_matrixP n i j : (i < n)%N -> (j < n)%N ->
  exists M : nd, [/\ transposition_matrix C n i j = Ok M, shape M = [:: n; n] &
    forall a k, get M [:: a; k] = (a == swap i j k)%:R].
Proof.
move=> hi hj; eexists; split; first by rewrite /transposition_matrix hi hj.
  by [].
move=> a k /=; rewrite /swap !eqseq_cons !andbT.
case: (a =P j) => h1; case: (k =P i) => h2; case: (a =P i) => h3; case: (k =P j) => h4;
  case: (a =P k) => h5 //=; do ?[case: eqP => // ?]; exfalso; lia.
Qed.
End Nat.

Section Natural.
Variable C : numClosedFieldType.
Notation nd := (nd C).

(** The discrete generators of Sn_natural are the permutation matrices of the generators. *)
Lemma sn_natural_HP n : (0 < n)%N -> exists H : nd, [/\ sn_natural_H C n = Ok H,
  shape H = [:: sn_gens n; n; n] &
  forall b i k, (b < sn_gens n)%N -> (k < n)%N -> get H [:: b; i; k] = (i == sgen n b k)%:R].
Proof.
case: n => [|[|[|n]]] // _.
- by eexists; split.
- have -> : sn_natural_H C 2 = (do m <- transposition_matrix C 2 0 1; Ok (expand0 m)) by [].
  have [M [-> sM gM]] := @transposition_matrixP C 2 0 1 isT isT.
  eexists; split=> //=; first by rewrite sM.
  by case=> // i k _ _; rewrite gM.
have -> : sn_natural_H C n.+3 = (do t <- transposition_matrix C n.+3 0 1;
    do c <- permutation_matrix C [seq (i.+1 %% n.+3)%N | i <- iota 0 n.+3]; stack [:: t; c]) by [].
have [M [-> sM gM]] := @transposition_matrixP C n.+3 0 1 isT isT.
have hp : all (fun i => i < size [seq (i.+1 %% n.+3)%N | i <- iota 0 n.+3])%N
              [seq (i.+1 %% n.+3)%N | i <- iota 0 n.+3].
  by rewrite size_map size_iota all_map; apply/allP => i _ /=; rewrite ltn_pmod.
have [P [eP sP gP]] := permutation_matrixP C hp.
rewrite size_map size_iota in sP gP.
rewrite eP; cbv beta iota delta [rbind]; rewrite /stack /= sM sP eqxx /=; eexists; split=> //.
case=> [|[|b]] // i k _ hk /=; first by rewrite gM.
by rewrite gP // (nth_map 0%N) ?size_iota // nth_iota.
Qed.

Lemma mx_perm_word n (H : nat -> 'M[C]_n) w :
  (forall b i k, (b < sn_gens n)%N -> H b i k = (i == sgen n b k :> nat)%:R) ->
  all (fun b => b < sn_gens n)%N w ->
  forall i k, word H w i k = (i == weval n w k :> nat)%:R.
Proof.
move=> hH; elim: w => [_ i k|b w IH /= /andP[hb hw] i k]; first by rewrite mxE.
have hl : (weval n w k < n)%N by apply: weval_lt.
rewrite mxE (bigD1 (Ordinal hl)) //= hH // IH //= eqxx mulr1 big1 ?addr0 // => j hj.
by rewrite IH // (_ : (j == weval n w k :> nat) = false) ?mulr0 //; apply: negbTE.
Qed.

Lemma sn_naturalP (n : int) r : sn_natural C n = Ok r ->
  [/\ 1 <= n, is_rep (Sn_theory C `|n|%N) `|n|%N r &
   forall w i k, all (fun b => b < sn_gens `|n|)%N w ->
     word (mx3 `|n| `|n| (rH r)) w i k = (i == weval `|n| w k :> nat)%:R].
Proof.
rewrite /sn_natural; case: (lerP 1 n) => //= hn.
have n0 : (0 < `|n|)%N by lia.
have [H [-> sH gH]] := sn_natural_HP n0; move=> [<-].
have hw w : all (fun b => b < sn_gens `|n|)%N w -> forall i k,
    word (mx3 `|n| `|n| H) w i k = (i == weval `|n| w k :> nat)%:R.
  by apply: mx_perm_word => b i k hb; rewrite mxE gH.
split=> //; last by move=> w i k hb; rewrite hw.
split=> //=; split=> //= u v huv; rewrite all_cat => /andP[hu hv].
by apply/matrixP => i k; rewrite !hw // huv.
Qed.
End Natural.

Section Standard.
Variable C : numClosedFieldType.
Notation nd := (nd C).

Lemma sn_H_trE n i a : (0 < n)%N -> (i < n)%N -> (a < n)%N ->
  get (sn_H_tr C n.+1) [:: i; a] = ((0 < a) && (i == a))%N%:R - (i == 0%N)%:R.
Proof.
move=> n0 hi ha; rewrite /sn_H_tr.
have gen l (m : nd) : 0%N \notin l -> get (foldl (fun m i => set_at (set_at m [:: i; i] 1) [:: 0%N; i] (-1)) m l) [:: i; a] =
    if a \in l then (if i == 0%N then -1 else if i == a then 1 else get m [:: i; a]) else get m [:: i; a].
  elim: l m => //= b l IH m; rewrite !inE negb_or eq_sym => /andP[b0 hl]; rewrite IH //= !eqseq_cons !andbT.
  case: (a =P b) => [<-|_] /=; last by rewrite !andbF.
  by rewrite !andbT; case: (i =P 0%N); case: (i =P a); case: (a \in l).
rewrite gen ?mem_iota //=  !eqseq_cons !andbT.
have -> : (a < 1 + (n.+1 - 2))%N by lia.
rewrite andbT {gen}.
case: a ha => [|a] ha /=; case: i hi => [|i] hi //=; rewrite ?eqxx ?sub0r ?subr0 ?andbF //.
  by rewrite oppr0.
by rewrite eqSS; case: (i =P a).
Qed.

Lemma sn_H_cyE n i a : (0 < n)%N -> (i < n)%N -> (a < n)%N ->
  get (sn_H_cy C n.+1) [:: i; a] = (i == a.+1)%:R - (i == 0%N)%:R.
Proof.
move=> n0 hi ha; rewrite /sn_H_cy /=.
have gen l (m : nd) : get (foldl (fun m i => set_at (set_at m [:: i.+1; i] 1) [:: 0%N; i] (-1)) m l) [:: i; a] =
    if a \in l then (if i == 0%N then -1 else if i == a.+1 then 1 else get m [:: i; a]) else get m [:: i; a].
  elim: l m => //= b l IH m; rewrite !inE IH //= !eqseq_cons !andbT.
  case: (a =P b) => [<-|_] /=; last by rewrite !andbF.
  by rewrite !andbT; case: (i =P 0%N); case: (i =P a.+1); case: (a \in l).
rewrite gen mem_iota !eqseq_cons !andbT /= add0n {gen}.
case: i hi => [|i] hi /=.
  rewrite sub0r; case: eqP => //= ha2; suff -> : (a < n.+1 - 2)%N by [].
  by lia.
rewrite subr0; case: (i.+1 =P a.+1) => [h|] /=; last by case: ifP.
by suff -> : (a < n.+1 - 2)%N by []; lia.
Qed.

(** The vectors e_(a+1) - e_0. *)
Definition basisB (n : nat) : 'M[C]_(n.+1, n) := \matrix_(i, a) ((i == a.+1 :> nat)%:R - (i == ord0)%:R).

Lemma basisB_inj n m (M N : 'M[C]_(n, m)) : basisB n *m M = basisB n *m N -> M = N.
Proof.
move=> /matrixP h; apply/matrixP => a k.
have := h (lift ord0 a) k; rewrite !mxE.
have E (P : 'M[C]_(n, m)) : \sum_j basisB n (lift ord0 a) j * P j k = P a k.
  rewrite (bigD1 a) //= big1 ?addr0 => [|j hj]; rewrite mxE /= /bump /= add1n eqSS subr0.
    by rewrite eqxx mul1r.
  by rewrite eq_sym (_ : (j == a :> nat) = false) ?mul0r //; apply: negbTE.
by rewrite !E.
Qed.

Lemma sum_eq_nat (n : nat) (F : nat -> C) (a : nat) :
  \sum_(c < n) (c == a :> nat)%:R * F c = (a < n)%N%:R * F a.
Proof.
case: (ltnP a n) => ha; last first.
  rewrite mul0r big1 // => c _; rewrite (_ : (c == a :> nat) = false) ?mul0r //.
  by apply/eqP; have := ltn_ord c; lia.
rewrite (bigD1 (Ordinal ha)) //= eqxx big1 ?addr0 // => c hc.
by rewrite (_ : (c == a :> nat) = false) ?mul0r //; apply: negbTE.
Qed.

Lemma basisB_gen n (P : 'M[C]_n.+1) (S : 'M[C]_n) b : (b < sn_gens n.+1)%N ->
  (forall i k, P i k = (i == sgen n.+1 b k :> nat)%:R) ->
  (forall i a : 'I_n, S i a = if b is 0 then ((0 < a) && (i == a))%N%:R - (i == 0%N :> nat)%:R
                     else (i == a.+1 :> nat)%:R - (i == 0%N :> nat)%:R) ->
  P *m basisB n = basisB n *m S.
Proof.
move=> hb hP hS; apply/matrixP => i a; rewrite !mxE.
have -> : \sum_j P i j * basisB n j a = (i == sgen n.+1 b a.+1 :> nat)%:R - (i == sgen n.+1 b 0%N :> nat)%:R.
  under eq_bigr => j _ do rewrite mxE mulrBr.
  rewrite sumrB; congr (_ - _).
    rewrite (bigD1 (lift ord0 a)) //= /bump /= add1n eqxx mulr1 hP /= /bump /= add1n big1 ?addr0 // => j hj.
    rewrite (_ : (j == a.+1 :> nat) = false) ?mulr0 //; apply/negbTE; move: hj.
    by apply: contraNneq => h; apply/eqP/val_inj; rewrite /= h /bump /= add1n.
  rewrite (bigD1 ord0) //= mulr1 hP /= big1 ?addr0 // => j /negbTE ->; by rewrite mulr0.
have -> : \sum_j basisB n i j * S j a = \sum_(c < n)
   (if b is 0 then ((0 < a) && (c == a))%N%:R - (c == 0%N :> nat)%:R
                     else (c == a.+1 :> nat)%:R - (c == 0%N :> nat)%:R) * ((i == c.+1 :> nat)%:R - (i == ord0)%:R).
  by apply: eq_bigr => c _; rewrite mulrC hS mxE.
have n0 : (0 < n)%N by apply: leq_ltn_trans (ltn_ord a).
have i0 : (i == ord0) = (i == 0%N :> nat) by [].
rewrite !i0.
case: b hb {hP hS} => [|b] hb.
  have -> : \sum_(c < n) (((0 < a) && (c == a))%N%:R - (c == 0%N :> nat)%:R) * ((i == c.+1 :> nat)%:R - (i == 0%N :> nat)%:R) =
     (0 < a)%N%:R * ((i == a.+1 :> nat)%:R - (i == 0%N :> nat)%:R) - ((i == 1%N :> nat)%:R - (i == 0%N :> nat)%:R) :> C.
    under eq_bigr => c _ do rewrite mulrBl -mulnb natrM -mulrA.
    rewrite sumrB -mulr_sumr; congr (_ * _ - _).
      by rewrite (@sum_eq_nat n (fun c => (i == c.+1 :> nat)%:R - (i == 0%N :> nat)%:R) a) ltn_ord mul1r.
    by rewrite (@sum_eq_nat n (fun c => (i == c.+1 :> nat)%:R - (i == 0%N :> nat)%:R) 0) n0 mul1r.
  case: a {i0} => [[|a] ha] /=; first by rewrite /swap /= mul0r sub0r opprB.
  by rewrite /swap /= mul1r opprB addrA subrK.
have -> : \sum_(c < n) ((c == a.+1 :> nat)%:R - (c == 0%N :> nat)%:R) * ((i == c.+1 :> nat)%:R - (i == 0%N :> nat)%:R) =
     (a.+1 < n)%N%:R * ((i == a.+2 :> nat)%:R - (i == 0%N :> nat)%:R) - ((i == 1%N :> nat)%:R - (i == 0%N :> nat)%:R) :> C.
  under eq_bigr => c _ do rewrite mulrBl.
  rewrite sumrB; congr (_ - _).
    by rewrite (@sum_eq_nat n (fun c => (i == c.+1 :> nat)%:R - (i == 0%N :> nat)%:R) a.+1).
  by rewrite (@sum_eq_nat n (fun c => (i == c.+1 :> nat)%:R - (i == 0%N :> nat)%:R) 0) n0 mul1r.
rewrite /sgen (modn_small (n0 : 1 < n.+1)%N).
case: (ltnP a.+1 n) => han.
  by rewrite modn_small // mul1r opprB addrA subrK.
have -> : a = n.-1 :> nat by have := ltn_ord a; lia.
by rewrite prednK // modnn mul0r sub0r opprB.
Qed.

Lemma sn_standardP (n : nat) r : sn_standard C n.+1%:Z = Ok r ->
  [/\ (0 < n)%N, is_rep (Sn_theory C n.+1) n r &
   forall rn, sn_natural C n.+1%:Z = Ok rn -> forall w, all (fun b => b < sn_gens n.+1)%N w ->
     word (mx3 n.+1 n.+1 (rH rn)) w *m basisB n = basisB n *m word (mx3 n n (rH r)) w].
Proof.
rewrite /sn_standard; case: (lerP 2%:Z n.+1%:Z) => // hn.
have n0 : (0 < n)%N by lia.
cbv beta iota delta [rbind passert]; rewrite absz_nat.
set e := (if _ then _ else _) => h.
have [H [eH sH gH]] : exists H, [/\ e = Ok H, shape H = [:: sn_gens n.+1; n; n] &
   forall b i a, (b < sn_gens n.+1)%N -> (i < n)%N -> (a < n)%N -> get H [:: b; i; a] =
    if b is 0 then ((0 < a) && (i == a))%N%:R - (i == 0%N :> nat)%:R
                     else (i == a.+1 :> nat)%:R - (i == 0%N :> nat)%:R].
  rewrite /e; case: eqP => hn2.
    have -> : n = 1%N by lia.
    eexists; split=> //.
    by case=> [|b] [|i] [|a] // _ _ _; rewrite /= mulr1 sub0r.
  have shtr : shape (sn_H_tr C n.+1) = [:: n; n].
    rewrite /sn_H_tr; have gen l (m : nd) : shape (foldl (fun m i => set_at (set_at m [:: i; i] 1) [:: 0%N; i] (-1)) m l) = shape m by elim: l m => //= x l IH m; rewrite IH.
    by rewrite gen.
  have shcy : shape (sn_H_cy C n.+1) = [:: n; n].
    rewrite /sn_H_cy; have gen l (m : nd) : shape (foldl (fun m i => set_at (set_at m [:: i.+1; i] 1) [:: 0%N; i] (-1)) m l) = shape m by elim: l m => //= x l IH m; rewrite IH.
    by rewrite /= gen.
  rewrite /stack [all _ _]/= shtr shcy eqxx; eexists; split=> //.
    by rewrite /sn_gens; case: eqP (hn2) => // _ _; rewrite ltnNge n0.
  case=> [|[|b]] i a hb hi ha; first exact: sn_H_trE.
    exact: sn_H_cyE.
  by move: hb; rewrite /sn_gens; case: ifP => // _; case: eqP.
move: h; rewrite eH => [[<-]].
have inter rn : sn_natural C n.+1%:Z = Ok rn -> forall w, all (fun b => b < sn_gens n.+1)%N w ->
     word (mx3 n.+1 n.+1 (rH rn)) w *m basisB n = basisB n *m word (mx3 n n H) w.
  move=> /sn_naturalP[_ _ hw]; elim=> [_|b w IH /= /andP[hb hv]]; first by rewrite mul1mx mulmx1.
  rewrite -mulmxA IH // !mulmxA; congr (_ *m _).
  apply: (@basisB_gen _ _ _ b) => // [i k|i a]; last by rewrite mxE gH.
  by have := hw [:: b] i k; rewrite /= mulmx1 hb => /(_ isT) ->.
split=> //.
split=> //; split=> // u v huv; rewrite all_cat => /andP[hu hv].
have [rn ern] : exists rn, sn_natural C n.+1%:Z = Ok rn.
  by rewrite /sn_natural /=; have [? [-> _ _]] := @sn_natural_HP C n.+1 isT; eexists.
apply: (@basisB_inj n); rewrite -!(inter rn) //; congr (_ *m _).
have [_ _ hw] := sn_naturalP ern.
by apply/matrixP => i k; rewrite !hw // huv.
Qed.

Lemma sn_standard_faithful (n : nat) r u v : sn_standard C n.+1%:Z = Ok r ->
  all (fun b => b < sn_gens n.+1)%N u -> all (fun b => b < sn_gens n.+1)%N v ->
  word (mx3 n n (rH r)) u = word (mx3 n n (rH r)) v ->
  forall k, (k < n.+1)%N -> weval n.+1 u k = weval n.+1 v k.
Proof.
move=> hr hu hv huv; have [n0 _ inter] := sn_standardP hr.
have [rn ern] : exists rn, sn_natural C n.+1%:Z = Ok rn.
  by rewrite /sn_natural /=; have [? [-> _ _]] := @sn_natural_HP C n.+1 isT; eexists.
have [_ _ hw] := sn_naturalP ern.
have E w i (a : 'I_n) : all (fun b => b < sn_gens n.+1)%N w ->
    (word (mx3 n.+1 n.+1 (rH rn)) w *m basisB n) i a =
    (i == weval n.+1 w a.+1 :> nat)%:R - (i == weval n.+1 w 0 :> nat)%:R.
  move=> hb; rewrite mxE.
  under eq_bigr => j _ do rewrite mxE hw // mulrBr.
  rewrite sumrB; congr (_ - _).
    rewrite (bigD1 (lift ord0 a)) //= /bump /= add1n eqxx mulr1 /= big1 ?addr0 // => j hj.
    rewrite (_ : (j == a.+1 :> nat) = false) ?mulr0 //; apply/negbTE; move: hj.
    by apply: contraNneq => h; apply/eqP/val_inj; rewrite /= h /bump /= add1n.
  rewrite (bigD1 ord0) //= mulr1 /= big1 ?addr0 // => j /negbTE ->; by rewrite mulr0.
have main (a : 'I_n) (i : 'I_n.+1) : (i == weval n.+1 u a.+1 :> nat)%:R - (i == weval n.+1 u 0 :> nat)%:R =
     (i == weval n.+1 v a.+1 :> nat)%:R - (i == weval n.+1 v 0 :> nat)%:R :> C.
  by rewrite -!E // !inter // huv.
have ne w (a : 'I_n) : all (fun b => b < sn_gens n.+1)%N w -> (weval n.+1 w a.+1 == weval n.+1 w 0) = false.
  move=> hb; apply/eqP => /weval_inj h; have := h hb; rewrite ltnS ltn_ord => /(_ isT isT); lia.
have up w (a : 'I_n) : all (fun b => b < sn_gens n.+1)%N w -> (weval n.+1 w a.+1 < n.+1)%N.
  by move=> hb; apply: weval_lt; rewrite // ltnS.
have u0 w : all (fun b => b < sn_gens n.+1)%N w -> (weval n.+1 w 0 < n.+1)%N by move=> hb; apply: weval_lt.
case=> [_|k hk].
  have h0 := ne u (Ordinal n0) hu; rewrite eq_sym /= in h0.
  have := main (Ordinal n0) (Ordinal (u0 u hu)); rewrite /= eqxx h0 sub0r.
  case: (weval n.+1 u 0 =P weval n.+1 v 0) => // _; rewrite subr0; case: eqP => _ /eqP.
    by rewrite eq_sym -addr_eq0 -mulr2n pnatr_eq0.
  by rewrite oppr_eq0 oner_eq0.
have hk' : (k < n)%N by [].
have h0 := ne u (Ordinal hk') hu.
have := main (Ordinal hk') (Ordinal (up u (Ordinal hk') hu)); rewrite /= in h0 *; rewrite eqxx h0 subr0.
case: eqP => // _; case: eqP => _; rewrite ?subrr ?sub0r ?subr0 => /eqP.
  by rewrite -subr_eq0 opprK -mulr2n pnatr_eq0.
by rewrite oner_eq0.
Qed.
End Standard.

Section Trivial.
Variable C : numClosedFieldType.
Lemma sn_trivialP (n : int) : if 1 <= n then
    exists2 r, sn_trivial C n = Some r & is_rep (Sn_theory C `|n|%N) 1 r /\
      forall w, all (fun b => b < sn_gens `|n|)%N w -> word (mx3 1 1 (rH r)) w = 1%:M
  else sn_trivial C n = None.
Proof.
have one (m : nat) sA sX sH : sA = [:: 0; 0; 0]%N -> sX = [:: 0; 1; 1]%N -> sH = [:: sn_gens m; 1; 1]%N ->
    is_rep (Sn_theory C m) 1 (@MkRep C (zeros sA) (zeros sX) (ones sH)) /\
      forall w, all (fun b => b < sn_gens m)%N w -> word (mx3 1 1 (@ones C sH)) w = 1%:M.
  move=> -> -> ->; set H := ones _.
  have hw w : word (mx3 1 1 H) w = 1%:M.
    elim: w => //= b w ->; rewrite mulmx1; apply/matrixP => i j; by rewrite !mxE !ord1.
  by split=> // ; split=> //; split=> // u v _ _; rewrite !hw.
rewrite /sn_trivial /sn_trivial_H; case: (lerP 1 n) => h1.
  case: (n =P 1) => [->|n1] /=; first by eexists; [done|exact: one].
  case: (n =P 2%:Z) => [->|n2] /=; first by eexists; [done|exact: one].
  case: (lerP 3%:Z n) => h3 /=; last by lia.
  eexists; first by [].
  apply: one => //; suff -> : sn_gens `|n| = 2%N by []; rewrite /sn_gens.
  by rewrite (_ : (`|n| <= 1)%N = false) 1?(_ : (`|n|%N == 2%N) = false) //; lia.
case: (n =P 1) => [|n1]; first by lia.
case: (n =P 2%:Z) => [|n2]; first by lia.
by case: (lerP 3%:Z n) => h3 //=; lia.
Qed.
End Trivial.

Section Relations.
(** The usual relations hold between the generating permutations. *)
Lemma weval_tr2 n k : weval n [:: 0; 0]%N k = k.
Proof. by rewrite /= /swap; case: (k =P 0%N) => [->|] //; case: (k =P 1%N) => [->|h0 h1] //; do 2![case: eqP => //]. Qed.
Lemma weval_nseq n b m k : weval n (nseq m b) k = iter m (sgen n b) k.
Proof. by elim: m => //= m <-. Qed.
Lemma iter_cy n m k : (k < n)%N -> iter m (sgen n 1) k = ((k + m) %% n)%N.
Proof.
move=> hk; elim: m => [|m /= ->]; first by rewrite addn0 modn_small.
by rewrite -addn1 modnDml addn1 addnS.
Qed.
Lemma weval_cyn n k : (k < n)%N -> weval n (nseq n 1%N) k = k.
Proof. by move=> hk; rewrite weval_nseq iter_cy // modnDr modn_small. Qed.
Lemma weval_cat n u v k : weval n (u ++ v) k = weval n u (weval n v k).
Proof. by rewrite /weval foldr_cat. Qed.
Lemma weval_trcy n k : (1 < n)%N -> (k < n)%N ->
  weval n (flatten (nseq n.-1 [:: 0; 1]%N)) k = k.
Proof.
move=> n1 hk.
have E m : weval n (flatten (nseq m [:: 0; 1]%N)) k = if k == 0%N then 0%N else ((k.-1 + m) %% n.-1).+1.
  elim: m => [|m IH].
    rewrite /=; case: eqP => // h; rewrite addn0 modn_small; lia.
  rewrite -[flatten _]/([:: 0; 1]%N ++ flatten (nseq m [:: 0; 1]%N)) weval_cat IH.
  case: eqP => h0 /=; first by rewrite modn_small.
  have -> : ((k.-1 + m.+1) %% n.-1 = ((k.-1 + m) %% n.-1 + 1) %% n.-1)%N by rewrite modnDml addn1 addnS.
  set x := ((_ + m) %% _)%N; have : (x < n.-1)%N by rewrite ltn_mod; lia.
  move=> hx; case: (ltnP x.+2 n) => hx2.
    by rewrite !modn_small /swap //=; lia.
  have -> : x = n.-2 by lia.
  rewrite addn1 (_ : n.-2.+2 = n) ?modnn; last by lia.
  rewrite (_ : n.-2.+1 = n.-1) ?modnn //; lia.
rewrite E; case: eqP => [->|] // h; rewrite modnDr modn_small; lia.
Qed.
End Relations.

Section Generate.
(** The transposition and the cycle generate the whole symmetric group. *)
Variable n : nat.
Notation N := n.+1.
Definition wgood (w : seq nat) := all (fun b => b < sn_gens N)%N w.
Lemma adj_word (a : nat) : (a.+1 < N)%N -> exists2 w, wgood w & forall k, (k < N)%N -> weval N w k = swap a a.+1 k.
Proof.
move=> ha.
case: (ltnP 2 N) => hN; last first.
  have [-> en] : a = 0%N /\ n = 1%N by lia.
  by exists [:: 0]%N; rewrite // /wgood en.
have g2 : sn_gens N = 2%N by rewrite /sn_gens (_ : (N <= 1)%N = false) 1?(_ : (N == 2%N) = false) //; lia.
exists (nseq a 1%N ++ [:: 0%N] ++ nseq (N - a) 1%N).
  by rewrite /wgood !all_cat !all_nseq g2 /= !orbT.
move=> k hk; rewrite !weval_cat !weval_nseq /=.
have hs x : (swap 0 1 (x %% N) < N)%N by apply: swap_lt; rewrite // ?ltn_mod //; lia.
rewrite iter_cy; last by rewrite iter_cy.
rewrite iter_cy //.
case: (ltnP k a) => hka.
  rewrite [((k + (N - a)) %% N)%N]modn_small; last by lia.
  rewrite /swap (_ : (k == a) = false); last by lia.
  rewrite (_ : (k == a.+1) = false); last by lia.
  rewrite (_ : (k + (N - a) == 0)%N = false); last by lia.
  rewrite (_ : (k + (N - a) == 1)%N = false); last by lia.
  rewrite (_ : k + (N - a) + a = k + N)%N; last by lia.
  by rewrite modnDr modn_small.
have -> : (k + (N - a) = (k - a) + N)%N by lia.
rewrite modnDr [((k - a) %% N)%N]modn_small; last by lia.
rewrite /swap.
case: (k =P a) => [->|h1]; first by rewrite subnn /= modn_small; lia.
case: (k =P a.+1) => [->|h2].
  by rewrite (_ : a.+1 - a = 1)%N /= ?modn_small; lia.
rewrite (_ : (k - a == 0)%N = false); last by lia.
rewrite (_ : (k - a == 1)%N = false); last by lia.
rewrite modn_small; lia.
Qed.
Lemma wgood_cat u v : wgood (u ++ v) = wgood u && wgood v.
Proof. exact: all_cat. Qed.
Lemma tr_word (a d : nat) : (a + d < N)%N -> exists2 w, wgood w & forall k, (k < N)%N -> weval N w k = swap a (a + d) k.
Proof.
elim: d => [|d IH] hd.
  by exists [::] => // k hk; rewrite addn0 /swap /=; case: eqP.
rewrite addnS in hd; have [w gw hw] := IH (ltn_trans (ltnSn _) hd : (a + d < N)%N).
have [w' gw' hw'] := adj_word (hd : ((a + d).+1 < N)%N).
case: d {IH} hw hw' hd => [|d] hw hw' hd; first by exists w' => //; rewrite addn1; rewrite addn0 in hw'.
exists (w' ++ w ++ w'); first by rewrite !wgood_cat gw gw'.
move=> k hk.
have h1 : (swap (a + d.+1) (a + d.+1).+1 k < N)%N by apply: swap_lt => //; lia.
have h2 : (swap a (a + d.+1) (swap (a + d.+1) (a + d.+1).+1 k) < N)%N by apply: swap_lt => //; lia.
rewrite !weval_cat (hw' k hk) (hw _ h1) (hw' _ h2) [in RHS]addnS {h1 h2 hw hw'}.
have : (a < a + d.+1)%N by lia.
move: (a + d.+1)%N => b hb.
have [->|ka] := eqVneq k a; first by rewrite (@swapD b b.+1 a) ?swapL //; lia.
have [->|kb] := eqVneq k b; first by rewrite swapL (@swapD a b b.+1) ?swapR ?(@swapD a b.+1 b) //; lia.
have [->|kb1] := eqVneq k b.+1; first by rewrite !swapR (@swapD b b.+1 a) //; lia.
by rewrite !swapD //; apply/eqP.
Qed.

Lemma perm_word (s : 'S_N) : exists2 w, wgood w & forall k : 'I_N, weval N w k = s k :> nat.
Proof.
have [ts -> _] := prod_tpermP s.
elim: ts => [|[x y] ts [w gw hw]]; first by exists [::] => // k; rewrite big_nil perm1.
have [w' gw' hw'] : exists2 w', wgood w' & forall k : 'I_N, weval N w' k = tperm x y k :> nat.
  have tE (x' y' k : 'I_N) : (tperm x' y' k : nat) = swap x' y' k.
    by case: tpermP => [->|->|h1 h2]; rewrite ?swapL ?swapR // swapD // => /val_inj.
  have main (x' y' : 'I_N) : (x' <= y')%N -> exists2 w', wgood w' & forall k : 'I_N, weval N w' k = tperm x' y' k :> nat.
    move=> hxy; have hy : (x' + (y' - x') < N)%N by rewrite subnKC.
    have [w' gw' hw'] := tr_word hy.
    by exists w' => // k; rewrite hw' // subnKC // tE.
  by case: (leqP x y) => [|/ltnW] /main //; rewrite tpermC.
exists (w ++ w'); first by rewrite wgood_cat gw gw'.
by move=> k; rewrite big_cons permM weval_cat hw' hw.
Qed.
End Generate.
