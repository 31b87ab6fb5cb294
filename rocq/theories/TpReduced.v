(** TpReduced: tensor_product of two ReducedReps (C32). *)
From Coq Require Import ZArith String Ascii.
From mathcomp Require Import all_ssreflect all_algebra.
From mathcomp.real_closed Require Import mxtens.
From mathcomp Require Import zify.
From Verif Require Import Base McRing Nd NdProofs Reps RepSpec RepProofs RepPower Pinv RepOps RepOps2 Reduced ReducedProofs Intw TpProofs.

Set Implicit Arguments.
Unset Strict Implicit.
Unset Printing Implicit Defensive.

Import GRing.Theory Num.Theory.
Local Open Scope ring_scope.

Section TpR.
Variable C : numClosedFieldType.
Variable G : irreps C.
Local Notation rX := (@rX C).
Local Notation rH := (@rH C).
Implicit Types m : mulirrep G.
Local Notation msum ms := (sumn (map (@mul_dim C G) ms)).

(** ** The loops, as a list of column blocks *)
Definition dummy : reducedrep G := ReducedRep (zeros [::]) [::] None.
Definition rof m1 m2 : reducedrep G := if tp_mul m1 m2 is Ok r then r else dummy.
Definition qof m1 m2 : nd C := if r_Q (rof m1 m2) is Some q then q else zeros [::].
Definition it_of (i : nat) m1 (j : nat) m2 : item C :=
  Item i j (mul_dim m1) (mul_dim m2) (red_dim (rof m1 m2)) (fun p c => get (qof m1 m2) [:: p; c]).
Fixpoint e_in (i : nat) m1 (j : nat) (ms : seq (mulirrep G)) : seq (nat * mulirrep G * (nat * mulirrep G)) :=
  if ms is m2 :: ms' then ((i, m1), (j, m2)) :: e_in i m1 (j + mul_dim m2) ms' else [::].
Fixpoint e_out (i : nat) (ms ms2 : seq (mulirrep G)) : seq (nat * mulirrep G * (nat * mulirrep G)) :=
  if ms is m1 :: ms' then e_in i m1 0 ms2 ++ e_out (i + mul_dim m1) ms' ms2 else [::].
Definition items (E : seq (nat * mulirrep G * (nat * mulirrep G))) := [seq it_of e.1.1 e.1.2 e.2.1 e.2.2 | e <- E].
Definition eirr (E : seq (nat * mulirrep G * (nat * mulirrep G))) := flatten [seq r_irreps (rof e.1.2 e.2.2) | e <- E].

Variable T : theory C.
Definition pair_ok m1 m2 := mul_ok T m1 /\ mul_ok T m2 /\ cg_ok T (m_rep m1) (m_rep m2).

Lemma pair_good m1 m2 : pair_ok m1 m2 -> exists R1 R2, mul_rep m1 = Ok R1 /\ mul_rep m2 = Ok R2 /\
  tp_mul m1 m2 = Ok (rof m1 m2) /\ tp_good T (rof m1 m2) (mul_dim m1) (mul_dim m2) R1 R2 (qof m1 m2) /\
  r_irreps (rof m1 m2) = [seq MulIrrep (m_mul m1 * m_mul m2 * cgz (m_rep m1) (m_rep m2) i3)%N i3 | i3 <- mul_of (m_rep m1) (m_rep m2)] /\
  (forall r0 Q0, tp_irreps (m_rep m1) (m_rep m2) = Ok r0 -> r_Q r0 = Some Q0 -> int_mx (dim_of (m_rep m1) * dim_of (m_rep m2)) Q0 ->
     int_mx (mul_dim m1 * mul_dim m2) (qof m1 m2)).
Proof.
move=> [h1 [h2 h3]].
have [R1 [e1 _]] := mul_rep_ok (proj1 h1) (proj2 h1).
have [R2 [e2 _]] := mul_rep_ok (proj1 h2) (proj2 h2).
have [r [Q [e [g [i z]]]]] := tp_mul_good (proj1 h1) (proj1 h2) h3 e1 e2.
by exists R1, R2; rewrite /qof /rof e (tg_Q g).
Qed.

Section Loop.
Variables e1 e2 : nat.
Definition qinv (P : seq (item C)) (Q : nd C) : Prop :=
  shape Q = [:: e1; e2; (e1 * e2)%N] /\ forall a b c, get Q [:: a; b; c] = if (c < pdim P)%N then colf P a b c else 0.

Lemma qinv_step P x Q q : qinv P Q -> shape q = [:: it_e1 x; it_e2 x; it_n x] ->
  (forall a b c, (a < it_e1 x)%N -> (b < it_e2 x)%N -> (c < it_n x)%N -> get q [:: a; b; c] = it_q x (a * it_e2 x + b)%N c) ->
  qinv (rcons P x) (assign_block Q [:: it_i x; it_j x; pdim P] q).
Proof.
move=> [sQ gQ] sq gq; split=> // a b c; rewrite /= /in_block sq /= andbT gQ.
have -> : pdim (rcons P x) = (pdim P + it_n x)%N by rewrite /pdim map_rcons sumn_rcons.
case: (ltnP c (pdim P + it_n x)) => hc; last first.
  by rewrite !andbF; case: ltnP => // hc'; lia.
rewrite colf_rcons // andbT.
case: (ltnP c (pdim P)) => hc' /=; first by rewrite !andbF.
rewrite andbT /inb -!andbA; case: ifP => // /and4P[h1 h2 h3 h4].
by rewrite gq; try lia.
Qed.

Definition linv E (st : tp_state G) := [/\ s_irr st = eirr E, s_k st = pdim (items E) & qinv (items E) (s_Q st)].

Lemma inner_ok i m1 ms2 st E : (forall m2, List.In m2 ms2 -> pair_ok m1 m2) -> linv E st ->
  exists st', foldR (tp_inner i m1) st ms2 = Ok st' /\ linv (E ++ e_in i m1 (s_j st) ms2) st'.
Proof.
elim: ms2 st E => [|m2 ms2 IH] st E h hst; first by exists st; rewrite cats0.
have [R1 [R2 [_ [_ [et [g _]]]]]] := pair_good (h m2 (or_introl erefl)).
have gd := tg_d g.
have [|q [eq1 [sq gq]]] := @reshapeP C (qof m1 m2) [:: mul_dim m1; mul_dim m2; red_dim (rof m1 m2)].
  by rewrite (tg_s g) gd /= !muln1 !mulnA.
rewrite /= {1}/tp_inner et /= (tg_Q g) /= eq1 /=.
set st1 := TpState _ _ _ _.
have [||st' [e' i']] := IH st1 (rcons E ((i, m1), (s_j st, m2))).
- by move=> x hx; apply: h; right.
- case: hst => h1 h2 h3; split.
  + by rewrite /st1 /= h1 /eirr map_rcons flatten_rcons.
  + by rewrite /st1 /= h2 /items map_rcons /pdim map_rcons sumn_rcons.
  + rewrite /st1 /= h2 /items map_rcons; apply: qinv_step => // a b c ha hb hc /=.
    rewrite (gq _ [:: (a * mul_dim m2 + b)%N; c]) //; rewrite (tg_s g) -gd; last by rewrite /= !muln1 !addn0; lia.
    by rewrite !valid_cons hc gd join_idx.
exists st'; split=> //; move: i'; by rewrite cat_rcons.
Qed.

Lemma outer_ok r2 ms1 st E : (forall m1 m2, List.In m1 ms1 -> List.In m2 (r_irreps r2) -> pair_ok m1 m2) -> linv E st ->
  exists st', foldR (tp_outer r2) st ms1 = Ok st' /\ linv (E ++ e_out (s_j st) ms1 (r_irreps r2)) st'.
Proof.
elim: ms1 st E => [|m1 ms1 IH] st E h hst; first by exists st; rewrite cats0.
have [||st1 [e1' i1]] := @inner_ok (s_j st) m1 (r_irreps r2) (TpState (s_irr st) (s_Q st) (s_k st) 0) E.
- by move=> m2 h2; apply: h => //; left.
- by case: hst.
rewrite /= {1}/tp_outer e1' /=; set st2 := TpState _ _ _ _.
have [||st' [e' i']] := IH st2 (E ++ e_in (s_j st) m1 0 (r_irreps r2)).
- by move=> x y hx hy; apply: h => //; right.
- by case: i1.
by exists st'; split=> //; rewrite catA.
Qed.
End Loop.

(** ** Offsets *)
Definition at_ (ms : seq (mulirrep G)) (i : nat) m := exists l r, ms = l ++ m :: r /\ i = msum l.
Lemma at_lt ms i m : at_ ms i m -> (i + mul_dim m <= msum ms)%N.
Proof. by move=> [l [r [-> ->]]]; rewrite map_cat sumn_cat /=; lia. Qed.
Lemma at_In ms i m : at_ ms i m -> List.In m ms.
Proof. by move=> [l [r [-> _]]]; apply/List.in_or_app; right; left. Qed.

Lemma e_in_at i m1 pre ms x : List.In x (e_in i m1 (msum pre) ms) -> x.1 = (i, m1) /\ at_ (pre ++ ms) x.2.1 x.2.2.
Proof.
elim: ms pre => [//|m ms IH] pre /= [<-|h]; first by split=> //; exists pre, ms.
have e : (msum pre + mul_dim m)%N = msum (rcons pre m) by rewrite map_rcons sumn_rcons.
by rewrite e in h; have := IH _ h; rewrite cat_rcons.
Qed.
Lemma e_out_at pre ms ms2 x : List.In x (e_out (msum pre) ms ms2) -> at_ (pre ++ ms) x.1.1 x.1.2 /\ at_ ms2 x.2.1 x.2.2.
Proof.
elim: ms pre => [//|m ms IH] pre /= hx; case: (List.in_app_or _ _ _ hx) => h.
  have [-> h2] := @e_in_at _ _ [::] _ _ h; split=> //; by exists pre, ms.
have e : (msum pre + mul_dim m)%N = msum (rcons pre m) by rewrite map_rcons sumn_rcons.
by rewrite e in h; have := IH _ h; rewrite cat_rcons.
Qed.
(** Every pair of row indices is in some rectangle. *)
Lemma e_in_cover i m1 j ms b : (j <= b < j + msum ms)%N -> exists x, List.In x (e_in i m1 j ms) /\ (x.2.1 <= b < x.2.1 + mul_dim x.2.2)%N /\ x.1 = (i, m1).
Proof.
elim: ms j => [|m ms IH] j /= hb; first by lia.
case: (ltnP b (j + mul_dim m)) => lt; first by exists ((i, m1), (j, m)); split; [left|split=> //=; lia].
have [|x [h1 h2]] := IH (j + mul_dim m)%N; first by lia.
by exists x; split=> //; right.
Qed.
Lemma e_out_cover i ms ms2 a b : (i <= a < i + msum ms)%N -> (b < msum ms2)%N ->
  exists x, List.In x (e_out i ms ms2) /\ inb (it_of x.1.1 x.1.2 x.2.1 x.2.2) a b.
Proof.
elim: ms i => [|m ms IH] i /= ha hb; first by lia.
case: (ltnP a (i + mul_dim m)) => lt.
  have [|[[i' m'] [j m2]] [h1 [h2 h3]]] := @e_in_cover i m 0 ms2 b; first by lia.
  case: h3 h1 h2 => -> -> h1 /= h2.
  by exists ((i, m), (j, m2)); split; [apply/List.in_or_app; left|rewrite /inb /=; lia].
have [||x [h1 h2]] := IH (i + mul_dim m)%N => //; first by lia.
by exists x; split=> //; apply/List.in_or_app; right.
Qed.

Lemma dsl_at g a ms i m : at_ ms i m -> forall x y, (x < msum ms)%N -> (y < mul_dim m)%N ->
  dsl (map (mblk g a) ms) x (i + y) = if (i <= x < i + mul_dim m)%N then (mblk g a m).2 (x - i)%N y else 0.
Proof.
move=> [l [r [-> ->]]] {ms i}; elim: l => [|m' l IH] x y /=.
  rewrite add0n => hx hy; rewrite subn0 hy andbT; case: (ltnP x (mul_dim m)) => h //=.
  by rewrite leqNgt hy.
move=> hx hy; case: (ltnP x (mul_dim m')) => hx1 /=.
  rewrite ltnNge -addnA leq_addr /=.
  by case: (leqP (mul_dim m' + msum l) x) => // le; lia.
have -> : (mul_dim m' <= mul_dim m' + msum l + y)%N by lia.
have -> : (mul_dim m' + msum l + y - mul_dim m' = msum l + y)%N by lia.
rewrite IH //; last by move: hx; rewrite map_cat sumn_cat /=; lia.
have -> : (msum l <= x - mul_dim m' < msum l + mul_dim m)%N = (mul_dim m' + msum l <= x < mul_dim m' + msum l + mul_dim m)%N by lia.
by rewrite subnDA.
Qed.
Lemma dl_at i e x y : (y < e)%N -> dl C x (i + y) = if (i <= x < i + e)%N then dl C (x - i) y else 0.
Proof.
move=> hy; rewrite /dl; case: (boolP (i <= x < i + e)%N) => [/andP[h1 h2]|out].
  by rewrite -{1}(subnK h1) addnC eqn_add2l.
by case: eqP => // e'; move: out; rewrite e'; lia.
Qed.

(** The generators of the two unconjugated sums. *)
Definition bigX (r1 r2 : reducedrep G) a : seq (pair2 C) :=
  [:: (dsl (map (mblk rX a) (r_irreps r1)), @dl C); (@dl C, dsl (map (mblk rX a) (r_irreps r2)))].
Definition bigH (r1 r2 : reducedrep G) a : seq (pair2 C) :=
  [:: (dsl (map (mblk rH a) (r_irreps r1)), dsl (map (mblk rH a) (r_irreps r2)))].

Lemma div_idx e2 a b : (b < e2)%N -> ((a * e2 + b) %/ e2 = a)%N /\ ((a * e2 + b) %% e2 = b)%N.
Proof.
move=> hb; have e0 : (0 < e2)%N by case: (e2) hb.
by rewrite divnMDl // divn_small // addn0 modnMDl modn_small.
Qed.

Section Two.
Variables r1 r2 : reducedrep G.
Local Notation e1 := (red_dim r1).
Local Notation e2 := (red_dim r2).
Hypothesis h1 : red_ok T r1.
Hypothesis h2 : red_ok T r2.
Hypothesis hp : forall m1 m2, List.In m1 (r_irreps r1) -> List.In m2 (r_irreps r2) -> cg_ok T (m_rep m1) (m_rep m2).
Let E := e_out 0 (r_irreps r1) (r_irreps r2).

Lemma pair_all m1 m2 : List.In m1 (r_irreps r1) -> List.In m2 (r_irreps r2) -> pair_ok m1 m2.
Proof. by move=> i1 i2; split; [exact: ro_m h1 _ i1|split; [exact: ro_m h2 _ i2|exact: hp]]. Qed.

Lemma E_at x : List.In x E -> at_ (r_irreps r1) x.1.1 x.1.2 /\ at_ (r_irreps r2) x.2.1 x.2.2.
Proof. exact: (@e_out_at [::]). Qed.

(** Generators of MulIrreps, as functions. *)
Lemma gen_mul g n m R : (forall a, (a < n)%N -> mx3 (mul_dim m) (mul_dim m) (g R) a = (1%:M : 'M[C]_(m_mul m)) *t mx3 _ _ (g (rep_of (m_rep m))) a) ->
  forall a i j, (a < n)%N -> (i < mul_dim m)%N -> (j < mul_dim m)%N -> gen g R a i j = (mblk g a m).2 i j.
Proof.
move=> h a i j ha hi hj; have := h a ha; rewrite -mblk_tens => /matrixP/(_ (Ordinal hi) (Ordinal hj)).
by rewrite !mxE.
Qed.

Lemma restrX a x R1 R2 : (a < th_l T)%N -> List.In x E -> mul_rep x.1.2 = Ok R1 -> mul_rep x.2.2 = Ok R2 ->
  restr e1 e2 (it_of x.1.1 x.1.2 x.2.1 x.2.2) (tpf (bigX r1 r2 a) e2) (tpf (csX R1 R2 a) (mul_dim x.2.2)).
Proof.
move=> ha /E_at[a1 a2] q1 q2; move: x a1 a2 q1 q2 => [[i m1] [j m2]] /= a1 a2 q1 q2.
have [z1 [z2 _]] := pair_all (at_In a1) (at_In a2).
have [R1' [q1' [_ [_ [x1 _]]]]] := mul_rep_ok (proj1 z1) (proj2 z1); move: q1'; rewrite q1 => -[q]; rewrite -{R1'}q in x1.
have [R2' [q2' [_ [_ [x2 _]]]]] := mul_rep_ok (proj1 z2) (proj2 z2); move: q2'; rewrite q2 => -[q]; rewrite -{R2'}q in x2.
split; [exact: at_lt a1|exact: at_lt a2|].
move=> u v s t hu hv hs ht; rewrite /= in hs ht *.
have [b1 b2] := div_idx u hv.
have [|c1 c2] := @div_idx e2 (i + s)%N (j + t)%N; first by have := at_lt a2; rewrite /red_dim; lia.
rewrite /tpf b1 b2 c1 c2 /bigX /csX !big_cons !big_nil /= !addr0.
rewrite (dsl_at _ _ a1) // (dsl_at _ _ a2) // (dl_at j v ht) (dl_at i u hs) [inb _ _ _]andbA /=.
case: (boolP (i <= u < i + mul_dim m1)%N) => o1; last by rewrite !mul0r addr0.
case: (boolP (j <= v < j + mul_dim m2)%N) => o2; last by rewrite !mulr0 addr0.
rewrite /=.
have [|-> ->] := @div_idx (mul_dim m2) (u - i)%N (v - j)%N; first by lia.
have [|-> ->] := @div_idx (mul_dim m2) s t; first by [].
rewrite (gen_mul x1) //; last by lia.
by rewrite (gen_mul x2) //; lia.
Qed.
Lemma restrH a x R1 R2 : (a < th_h T)%N -> List.In x E -> mul_rep x.1.2 = Ok R1 -> mul_rep x.2.2 = Ok R2 ->
  restr e1 e2 (it_of x.1.1 x.1.2 x.2.1 x.2.2) (tpf (bigH r1 r2 a) e2) (tpf (csH R1 R2 a) (mul_dim x.2.2)).
Proof.
move=> ha /E_at[a1 a2] q1 q2; move: x a1 a2 q1 q2 => [[i m1] [j m2]] /= a1 a2 q1 q2.
have [z1 [z2 _]] := pair_all (at_In a1) (at_In a2).
have [R1' [q1' [_ [_ [_ x1]]]]] := mul_rep_ok (proj1 z1) (proj2 z1); move: q1'; rewrite q1 => -[q]; rewrite -{R1'}q in x1.
have [R2' [q2' [_ [_ [_ x2]]]]] := mul_rep_ok (proj1 z2) (proj2 z2); move: q2'; rewrite q2 => -[q]; rewrite -{R2'}q in x2.
split; [exact: at_lt a1|exact: at_lt a2|].
move=> u v s t hu hv hs ht; rewrite /= in hs ht *.
have [b1 b2] := div_idx u hv.
have [|c1 c2] := @div_idx e2 (i + s)%N (j + t)%N; first by have := at_lt a2; rewrite /red_dim; lia.
rewrite /tpf b1 b2 c1 c2 /bigH /csH !big_cons !big_nil /= !addr0.
rewrite (dsl_at _ _ a1) // (dsl_at _ _ a2) // [inb _ _ _]andbA /=.
case: (boolP (i <= u < i + mul_dim m1)%N) => o1; last by rewrite !mul0r.
case: (boolP (j <= v < j + mul_dim m2)%N) => o2; last by rewrite !mulr0.
rewrite /=.
have [|-> ->] := @div_idx (mul_dim m2) (u - i)%N (v - j)%N; first by lia.
have [|-> ->] := @div_idx (mul_dim m2) s t; first by [].
rewrite (gen_mul x1) //; last by lia.
by rewrite (gen_mul x2) //; lia.
Qed.

Lemma E_pintw XT g a (cs : rep C -> rep C -> seq (pair2 C)) :
  (forall x R1 R2, List.In x E -> mul_rep x.1.2 = Ok R1 -> mul_rep x.2.2 = Ok R2 ->
    restr e1 e2 (it_of x.1.1 x.1.2 x.2.1 x.2.2) XT (tpf (cs R1 R2) (mul_dim x.2.2))) ->
  (forall x R1 R2, List.In x E -> mul_rep x.1.2 = Ok R1 -> mul_rep x.2.2 = Ok R2 ->
    intw (mul_dim x.1.2 * mul_dim x.2.2) (tpf (cs R1 R2) (mul_dim x.2.2)) (map (bof g a) (r_irreps (rof x.1.2 x.2.2)))
       (fun i j => get (qof x.1.2 x.2.2) [:: i; j]) 0) ->
  exists Xs, pintw e1 e2 (items E) XT Xs [seq map (bof g a) (r_irreps (rof x.1.2 x.2.2)) | x <- E].
Proof.
have hE x : List.In x E -> pair_ok x.1.2 x.2.2.
  by move=> /E_at[a1 a2]; apply: pair_all; [exact: at_In a1|exact: at_In a2].
elim: E hE => [|x E' IH] hE hr hi; first by exists [::].
have [||Xs hX] := IH (fun y hy => hE y (or_intror hy)).
- by move=> y R1 R2 hy; apply: hr; right.
- by move=> y R1 R2 hy; apply: hi; right.
have [R1 [R2 [q1 [q2 _]]]] := pair_good (hE x (or_introl erefl)).
exists (tpf (cs R1 R2) (mul_dim x.2.2) :: Xs); split=> //=.
- by apply: hr => //; left.
- by rewrite bdim_bof.
- by apply: hi => //; left.
Qed.

Lemma E_dim : pdim (items E) = (e1 * e2)%N.
Proof.
have hE x : List.In x E -> pair_ok x.1.2 x.2.2.
  by move=> /E_at[a1 a2]; apply: pair_all; [exact: at_In a1|exact: at_In a2].
move: hE; rewrite /E /red_dim /pdim /items -map_comp; elim: (r_irreps r1) 0%N => [|m1 ms IH] i hE //=.
rewrite map_cat sumn_cat mulnDl; congr (_ + _)%N; last by apply: IH => x hx; apply: hE; apply/List.in_or_app; right.
have {}hE x : List.In x (e_in i m1 0 (r_irreps r2)) -> pair_ok x.1.2 x.2.2.
  by move=> hx; apply: hE; apply/List.in_or_app; left.
elim: (r_irreps r2) 0%N hE => [|m2 ms2 IH2] j hE /=; first by rewrite muln0.
rewrite IH2; last by move=> x hx; apply: hE; right.
have [R1 [R2 [_ [_ [_ [g _]]]]]] := pair_good (hE _ (or_introl erefl)).
by rewrite (tg_d g) mulnDr.
Qed.

Lemma E_free : rfree (e1 * e2) (e1 * e2) (colQ e2 (items E)).
Proof.
rewrite -{2}E_dim; apply: colQ_free => a b ha hb.
have [||x [hx ib]] := @e_out_cover 0 (r_irreps r1) (r_irreps r2) a b => //.
have [a1 a2] := E_at hx.
have [R1 [R2 [_ [_ [_ [g _]]]]]] := pair_good (pair_all (at_In a1) (at_In a2)).
set P := items E; have [k [hk ek]] : exists k, (k < size P)%N /\ nth (it_of x.1.1 x.1.2 x.2.1 x.2.2) P k = it_of x.1.1 x.1.2 x.2.1 x.2.2.
  rewrite /P /items -/E in hx *; elim: E hx {P} => [//|y E' IH] /= [->|hx]; first by exists 0%N.
  by have [k [hk ek]] := IH hx; exists k.+1.
exists (it_of x.1.1 x.1.2 x.2.1 x.2.2), k; split=> //; rewrite ek; split=> //=.
- exact: at_lt a1.
- exact: at_lt a2.
- by rewrite (tg_d g); exact: tg_f g.
Qed.

(** ** The result *)
Variables R1 R2 : rep C.
Hypothesis q1 : red_rep r1 = Ok R1.
Hypothesis q2 : red_rep r2 = Ok R2.
Local Notation D := (e1 * e2)%N.

Lemma q_or_eyeP (r : reducedrep G) : red_ok T r -> shape (q_or_eye r) = [:: red_dim r; red_dim r] /\
  mx2 (red_dim r) (red_dim r) (q_or_eye r) \in unitmx /\
  forall M, conjQ (r := r) M = mx2 _ _ (q_or_eye r) *m M *m invmx (mx2 _ _ (q_or_eye r)).
Proof.
move=> h; rewrite /q_or_eye /conjQ; case EQ: (r_Q r) => [Q|].
  by have [? ?] := ro_Q h EQ.
by rewrite mx2_eye unitmx1; split=> //; split=> // M; rewrite invmx1 mulmx1 mul1mx.
Qed.

Lemma einsum_qq (a b : nd C) x1 x2 y1 y2 : shape a = [:: x1; x2] -> shape b = [:: y1; y2] ->
  exists c, einsum2 "ij" "kl" "ikjl" a b = Ok c /\ shape c = [:: x1; y1; x2; y2] /\
  forall i k j l, get c [:: i; k; j; l] = get a [:: i; j] * get b [:: k; l].
Proof.
move=> sa sb; rewrite /einsum2 /einsum_ops /= sa sb /=.
eexists; split; first by []; split=> // i k j l.
by rewrite /term /= mulr1.
Qed.

Lemma kronqq (a b : nd C) x y : shape a = [:: x; x] -> shape b = [:: y; y] ->
  exists t c, einsum2 "ij" "kl" "ikjl" a b = Ok t /\ reshape t [:: (x * y)%N; (x * y)%N] = Ok c /\
  shape c = [:: (x * y)%N; (x * y)%N] /\ mx2 (x * y) (x * y) c = mx2 x x a *t mx2 y y b.
Proof.
move=> sa sb; have [t [e [st gt]]] := einsum_qq sa sb.
have [|c [ec [sc gc]]] := @reshapeP C t [:: (x * y)%N; (x * y)%N]; first by rewrite st /= !muln1; lia.
exists t, c; do 3!split=> //; apply/matrixP=> i j; rewrite !mxE /=.
have [i1 [i2 [a1 a2 ei]]] := split_idx (ltn_ord i); have [j1 [j2 [b1 b2 ej]]] := split_idx (ltn_ord j).
have [-> ->] : (i %/ y = i1)%N /\ (i %% y = i2)%N by rewrite ei; exact: div_idx.
have [-> ->] : (j %/ y = j1)%N /\ (j %% y = j2)%N by rewrite ej; exact: div_idx.
rewrite -gt; apply: gc; first by rewrite st !valid_cons a1 a2 b1 b2.
by rewrite st ei ej /= !muln1 !addn0; lia.
Qed.

Lemma tpf_bigX a : mxf D (tpf (bigX r1 r2 a) e2) = tensX (red_block rX (r_irreps r1) a) (red_block rX (r_irreps r2) a).
Proof. by apply/matrixP=> i j; rewrite !mxE /tpf /bigX !big_cons big_nil /= addr0 /dl -!val_eqE. Qed.
Lemma tpf_bigH a : mxf D (tpf (bigH r1 r2 a) e2) = red_block rH (r_irreps r1) a *t red_block rH (r_irreps r2) a.
Proof. by apply/matrixP=> i j; rewrite !mxE /tpf /bigH !big_cons big_nil /= addr0. Qed.

Lemma bof_eirr g a : flatten [seq map (bof g a) (r_irreps (rof x.1.2 x.2.2)) | x <- E] = map (bof g a) (eirr E).
Proof. by rewrite /eirr map_flatten -map_comp. Qed.

Lemma E_ne : eirr E <> [::].
Proof.
have hE x : List.In x E -> pair_ok x.1.2 x.2.2.
  by move=> /E_at[a1 a2]; apply: pair_all; [exact: at_In a1|exact: at_In a2].
move: hE; rewrite /E /eirr; case: (r_irreps r1) (ro_ne h1) => [//|m1 ms1] _; case: (r_irreps r2) (ro_ne h2) => [//|m2 ms2] _ hE /=.
have [? [? [_ [_ [_ [g _]]]]]] := pair_good (hE _ (or_introl erefl)); move: (tg_ne g) => /=.
by case: (r_irreps _).
Qed.
Lemma E_m m : List.In m (eirr E) -> mul_ok T m.
Proof.
have hE x : List.In x E -> pair_ok x.1.2 x.2.2.
  by move=> /E_at[a1 a2]; apply: pair_all; [exact: at_In a1|exact: at_In a2].
rewrite /eirr; elim: E hE => [//|x E' IH] hE /= hin; case: (List.in_app_or _ _ _ hin) => h.
  by have [? [? [_ [_ [_ [g _]]]]]] := pair_good (hE _ (or_introl erefl)); exact: (tg_m g).
by apply: IH => // y hy; apply: hE; right.
Qed.

(** Integer changes of basis. *)
Definition cg_int (i1 i2 : label G) : Prop :=
  forall r0 Q0, tp_irreps i1 i2 = Ok r0 -> r_Q r0 = Some Q0 -> int_mx (dim_of i1 * dim_of i2) Q0.
Definition all_int : Prop :=
  (forall m1 m2, List.In m1 (r_irreps r1) -> List.In m2 (r_irreps r2) -> cg_int (m_rep m1) (m_rep m2)) /\
  int_mx e1 (q_or_eye r1) /\ int_mx e2 (q_or_eye r2).

Lemma colf_int a b c : all_int -> (c < D)%N -> is_z (colf (items E) a b c).
Proof.
move=> [hz _]; rewrite -E_dim.
have hE x : List.In x E -> pair_ok x.1.2 x.2.2 /\ cg_int (m_rep x.1.2) (m_rep x.2.2).
  by move=> /E_at[a1 a2]; split; [apply: pair_all|apply: hz]; first [exact: at_In a1|exact: at_In a2].
elim: E c hE => [//|x E' IH] c hE; rewrite /pdim /= => hc.
have [hx hz'] := hE x (or_introl erefl).
have [R1' [R2' [_ [_ [_ [g [_ z]]]]]]] := pair_good hx.
case: (ltnP c (red_dim (rof x.1.2 x.2.2))) => lt; last first.
  apply: IH; first by move=> y hy; apply: hE; right.
  by rewrite /pdim; lia.
rewrite /inb /=; case: ifP => [/and4P[h1' h2' h3 h4]|_]; last by exists 0.
have [_ [_ k]] := hx; have [r0 [Q0 [e0 [g0 _]]]] := tp_irreps_good k.
apply: (z _ _ e0 (tg_Q g0) (hz' _ _ e0 (tg_Q g0))); first by apply: join_idx; lia.
by rewrite -(tg_d g).
Qed.

(** The change of basis before it is snapped. *)
Theorem tp_reduced_pre : exists Q0 r,
  tp_good T (ReducedRep (r_A r1) (eirr E) (Some Q0)) e1 e2 R1 R2 Q0 /\
  tp_reduced r1 r2 = Ok r /\ r_A r = r_A r1 /\ r_irreps r = eirr E /\
  (exists re id Q, close_ (nd_imag Q0) (zero0 C) = Ok re /\ Q = (if re then nd_real Q0 else Q0) /\
     close_ Q (eye D) = Ok id /\ r_Q r = if id then None else Some Q) /\
  (all_int -> int_mx D Q0).
Proof.
have [s1 [u1 c1]] := q_or_eyeP h1; have [s2 [u2 c2]] := q_or_eyeP h2.
have [t [Qtp [et [eQtp [sQtp gQtp]]]]] := kronqq s1 s2.
rewrite /tp_reduced et /= eQtp /=.
have [||st [est [i1 i2 [i3 i4]]]] := @outer_ok e1 e2 r2 (r_irreps r1) (TpState [::] (zeros [:: e1; e2; D]) 0 0) [::].
- by move=> m1 m2; exact: pair_all.
- by split.
rewrite est /= i2 /= -/E E_dim eqxx /=; rewrite /= -/E in i1 i2 i4.
have [|Qm [eQm [sQm gQm]]] := @reshapeP C (s_Q st) [:: D; D]; first by rewrite i3 /= !muln1 !mulnA.
rewrite eQm /=.
have [Q0 [eQ0 [sQ0 gQ0]]] := matmul_2_2 sQtp sQm.
rewrite eQ0 /=.
have gm p c : (p < D)%N -> (c < D)%N -> get Qm [:: p; c] = colQ e2 (items E) p c.
  move=> hlp hc; have [a [b [ha hb ->]]] := split_idx hlp.
  rewrite (gQm _ [:: a; b; c]) ?i3; first last.
  - by rewrite /= !muln1 !addn0; lia.
  - by rewrite !valid_cons ha hb hc.
  by rewrite i4 E_dim hc /colQ; have [-> ->] := div_idx a hb.
have gmx : mx2 D D Qm = \matrix_(i < D, j < D) colQ e2 (items E) i j.
  by apply/matrixP=> i j; rewrite !mxE gm.
have uQm : mx2 D D Qm \in unitmx.
  by rewrite -row_free_unit gmx; apply/rfreeP; exact: E_free.
have uQtp : mx2 D D Qtp \in unitmx.
  have inv : mx2 D D Qtp *m (invmx (mx2 e1 e1 (q_or_eye r1)) *t invmx (mx2 e2 e2 (q_or_eye r2))) = 1%:M.
    by rewrite gQtp tensmx_mul !mulmxV // tens1.
  by case: (mulmx1_unit inv).
have [R1' [q1' [hR1 [aR1 [xR1 yR1]]]]] := red_rep_ok h1; move: q1'; rewrite q1 => -[q]; rewrite -{R1'}q in hR1 aR1 xR1 yR1.
have [R2' [q2' [hR2 [aR2 [xR2 yR2]]]]] := red_rep_ok h2; move: q2'; rewrite q2 => -[q]; rewrite -{R2'}q in hR2 aR2 xR2 yR2.
have dE g a : bdim (map (bof g a) (eirr E)) = D.
  (* the total number of columns *)
  have hE x : List.In x E -> pair_ok x.1.2 x.2.2.
    by move=> /E_at[a1 a2]; apply: pair_all; [exact: at_In a1|exact: at_In a2].
  rewrite -bof_eirr -E_dim; elim: E hE => [//|x E' IH] hE /=.
  rewrite bdim_cat IH; last by move=> y hy; apply: hE; right.
  by rewrite /pdim /= bdim_bof.
have key XT BT g a : intw D BT (map (bof g a) (eirr E)) (colQ e2 (items E)) 0 ->
    mxf D XT *m mx2 D D Qtp = mx2 D D Qtp *m mxf D BT ->
    intw D XT (map (bof g a) (eirr E)) (fun i j => get Q0 [:: i; j]) 0.
  move=> /intw_mx hB hX; apply/intw_mx; rewrite dE in hB *.
  rewrite -gmx in hB; rewrite -/(mx2 D D Q0) gQ0 mulmxA hX -!mulmxA; congr (_ *m _); exact: hB.
pose r0 := ReducedRep (r_A r1) (eirr E) (Some Q0).
have good : tp_good T r0 e1 e2 R1 R2 Q0.
  split=> //=.
  - exact: E_ne.
  - exact: E_m.
  - by rewrite -(dE rX 0%N) bdim_bof.
  - by apply/rfreeP; rewrite -/(mx2 D D Q0) gQ0 row_free_unit unitmx_mul uQtp.
  - move=> a ha.
    have [||Xs hX] := @E_pintw (tpf (bigX r1 r2 a) e2) rX a (fun R1 R2 => csX R1 R2 a).
    + by move=> x S1 S2 hx; exact: restrX.
    + move=> x S1 S2 hx t1 t2; have [a1 a2] := E_at hx.
      have [S1' [S2' [t1' [t2' [_ [g _]]]]]] := pair_good (pair_all (at_In a1) (at_In a2)).
      by move: t1' t2'; rewrite t1 t2 => -[->] [->]; exact: (tg_X g).
    have [hi _] := pintw_intw hX; rewrite bof_eirr in hi.
    apply: key hi _; rewrite tpf_csX tpf_bigX xR1 // xR2 // c1 c2 gQtp.
    by rewrite /tensX mulmxDl mulmxDr !tensmx_mul !mul1mx !mulmx1 !mulmxKV.
  - move=> a ha.
    have [||Xs hX] := @E_pintw (tpf (bigH r1 r2 a) e2) rH a (fun R1 R2 => csH R1 R2 a).
    + by move=> x S1 S2 hx; exact: restrH.
    + move=> x S1 S2 hx t1 t2; have [a1 a2] := E_at hx.
      have [S1' [S2' [t1' [t2' [_ [g _]]]]]] := pair_good (pair_all (at_In a1) (at_In a2)).
      by move: t1' t2'; rewrite t1 t2 => -[->] [->]; exact: (tg_H g).
    have [hi _] := pintw_intw hX; rewrite bof_eirr in hi.
    apply: key hi _; rewrite tpf_csH tpf_bigH yR1 // yR2 // c1 c2 gQtp.
    by rewrite !tensmx_mul !mulmxKV.
have [re ere] : exists re, close_ (nd_imag Q0) (zero0 C) = Ok re.
  by rewrite /close_ /allclose /= sQ0 /=; eexists.
exists Q0; rewrite ere /=.
have [id eid] : exists id, close_ (if re then nd_real Q0 else Q0) (eye D) = Ok id.
  by rewrite /close_ allclose_same_shape; [eexists|case: (re); rewrite /= sQ0].
rewrite eid /=; eexists; split=> //; split; first by [].
split=> //; split=> //; split; first by exists re, id, (if re then nd_real Q0 else Q0).
move=> az i j hi hj; have := gQ0 => /matrixP/(_ (Ordinal hi) (Ordinal hj)); rewrite mxE /= => ->; rewrite mxE.
have zt p : is_z (mx2 D D Qtp (Ordinal hi) p).
  rewrite gQtp mxE /=; have [_ [z1 z2]] := az.
  have D0 : (0 < D)%N by apply: leq_ltn_trans hi.
  have e20 : (0 < e2)%N by move: D0; rewrite muln_gt0 => /andP[].
  have lt k : (k < D)%N -> (k %/ e2 < e1)%N by move=> hk; rewrite ltn_divLR.
  by rewrite !mxE; apply: is_zM; [apply: z1; exact: lt|apply: z2; exact: ltn_pmod].
apply: is_z_sum => p; apply: is_zM => //.
by rewrite mxE gm //; apply: colf_int.
Qed.
End Two.
End TpR.
