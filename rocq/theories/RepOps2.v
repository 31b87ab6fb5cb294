(** RepOps2: change of algebra, conjugate, trivial factors (C28 - C30). *)
From Coq Require Import ZArith String Ascii.
From mathcomp Require Import all_ssreflect all_algebra.
From mathcomp.real_closed Require Import mxtens.
From mathcomp Require Import zify.
From Verif Require Import Base McRing Nd NdProofs Reps RepSpec RepProofs RepPower Pinv RepOps.

Set Implicit Arguments.
Unset Strict Implicit.
Unset Printing Implicit Defensive.

Import GRing.Theory Num.Theory.
Local Open Scope ring_scope.
Local Open Scope string_scope.

Section Ops.
Variable C : numClosedFieldType.

Lemma nd_eq3 l d (a b : nd C) : shape a = [:: l; d; d] -> shape b = [:: l; d; d] ->
  (forall x, (x < l)%N -> mx3 d d a x = mx3 d d b x) -> nd_eq a b.
Proof.
move=> sa sb q; split; first by rewrite sa sb.
case=> [|x [|i [|j [|? ?]]]]; rewrite sa // !valid_cons => /and4P[hx hi hj _].
by rewrite (entry3 _ _ hi hj) (entry3 _ _ hi hj) q.
Qed.

(** ** Change of algebra *)

(** New generators X'_i = sum_a Q_ia X_a for i < m; P is a left inverse of Q. *)
Definition alg_theory (T : theory C) (m : nat) (Q P : nat -> nat -> C) : theory C :=
  Theory m (th_h T)
    (fun i j k => \sum_(a < th_l T) \sum_(b < th_l T) \sum_(c < th_l T) Q i a * Q j b * th_A T a b c * P c k)
    (th_rel T)
    (fun c' => exists c, th_adj T c /\ forall b i j,
       c' b i j = \sum_(a < th_l T) \sum_(a' < th_l T) Q i a * c b a a' * P a' j).

Lemma is_mrep_alg T m (Q P : nat -> nat -> C) d (X H : nat -> 'M[C]_d) :
  (forall c a, (c < th_l T)%N -> (a < th_l T)%N -> \sum_(k < m) P c k * Q k a = (c == a)%:R) ->
  is_mrep T X H -> is_mrep (alg_theory T m Q P) (fun i => \sum_(a < th_l T) Q i a *: X a) H.
Proof.
move=> PQ [ha hb hc].
have back (f : nat -> C) :
    \sum_(k < m) (\sum_(c < th_l T) f c * P c k) *: (\sum_(a < th_l T) Q k a *: X a) = \sum_(c < th_l T) f c *: X c.
  transitivity (\sum_(k < m) \sum_(c < th_l T) \sum_(a < th_l T) (f c * (P c k * Q k a)) *: X a).
    apply: eq_bigr => k _; rewrite scaler_suml; apply: eq_bigr => c _.
    by rewrite scaler_sumr; apply: eq_bigr => a _; rewrite scalerA mulrA.
  rewrite exchange_big /=; apply: eq_bigr => c _; rewrite exchange_big /=.
  rewrite (bigD1 c) //= [W in _ + W]big1 ?addr0; last first.
    move=> a ne; rewrite -scaler_suml -mulr_sumr PQ //.
    by rewrite eq_sym (inj_eq val_inj) (negbTE ne) mulr0 scale0r.
  by rewrite -scaler_suml -mulr_sumr PQ // eqxx mulr1.
split=> //=.
- move=> i j hi hj.
  pose f c := \sum_(a < th_l T) \sum_(b < th_l T) Q i a * Q j b * th_A T a b c.
  transitivity (\sum_(c < th_l T) f c *: X c).
    rewrite mulmx_suml (eq_bigr (fun a : 'I_(th_l T) => \sum_(b < th_l T) (Q i a * Q j b) *: (X a *m X b))); last first.
      by move=> a _; rewrite mulmx_sumr; apply: eq_bigr => b _; rewrite -scalemxAl -scalemxAr scalerA.
    rewrite [X in _ - X]mulmx_suml [X in _ - X](eq_bigr (fun b : 'I_(th_l T) => \sum_(a < th_l T) (Q i a * Q j b) *: (X b *m X a))); last first.
      by move=> b _; rewrite mulmx_sumr; apply: eq_bigr => a _; rewrite -scalemxAl -scalemxAr scalerA mulrC.
    rewrite [X in _ - X]exchange_big /= -sumrB.
    transitivity (\sum_(a < th_l T) \sum_(b < th_l T) \sum_(c < th_l T) (Q i a * Q j b * th_A T a b c) *: X c).
      apply: eq_bigr => a _; rewrite -sumrB; apply: eq_bigr => b _.
      by rewrite -scalerBr ha // scaler_sumr; apply: eq_bigr => c _; rewrite scalerA.
    rewrite (eq_bigr (fun a : 'I_(th_l T) => \sum_(c < th_l T) \sum_(b < th_l T) (Q i a * Q j b * th_A T a b c) *: X c)); last first.
      by move=> a _; rewrite exchange_big.
    rewrite exchange_big /=; apply: eq_bigr => c _; rewrite scaler_suml; apply: eq_bigr => a _.
    by rewrite scaler_suml.
  rewrite -back; apply: eq_bigr => k _; congr (_ *: _).
  rewrite (eq_bigr (fun c : 'I_(th_l T) => \sum_(a < th_l T) \sum_(b < th_l T) Q i a * Q j b * th_A T a b c * P c k)); last first.
    by move=> c _; rewrite mulr_suml; apply: eq_bigr => a _; rewrite mulr_suml.
  rewrite exchange_big /=; apply: eq_bigr => a _.
  by rewrite exchange_big.
- move=> c' [c [hcc e]] b i h1 h2.
  pose f a' := \sum_(a < th_l T) Q i a * c b a a'.
  rewrite (eq_bigr (fun j : 'I_m => (\sum_(a' < th_l T) f a' * P a' j) *: (\sum_(a < th_l T) Q j a *: X a))); last first.
    move=> j _; rewrite e exchange_big /=; congr (_ *: _); apply: eq_bigr => a' _.
    by rewrite mulr_suml.
  rewrite back mulmx_sumr.
  transitivity (\sum_(a < th_l T) \sum_(a' < th_l T) (Q i a * c b a a') *: (X a' *m H b)).
    apply: eq_bigr => a _; rewrite -scalemxAr (hc _ hcc) // mulmx_suml scaler_sumr.
    by apply: eq_bigr => a' _; rewrite -scalemxAl scalerA.
  rewrite exchange_big /= mulmx_suml; apply: eq_bigr => a' _.
  by rewrite -scalemxAl scaler_suml.
Qed.

Lemma einsum_ca_X m l u v (Q X : nd C) : shape Q = [:: m; l] -> shape X = [:: l; u; v] ->
  exists c, einsum2 "ia" "auv" "iuv" Q X = Ok c /\ shape c = [:: m; u; v] /\
  forall i p q, get c [:: i; p; q] = \sum_(a < l) get Q [:: i; a : nat] * get X [:: a : nat; p; q].
Proof.
move=> sQ sX; rewrite /einsum2 /einsum_ops /bind_all /= sQ sX /= eqxx /=.
eexists; split; first by []; split=> // i p q /=.
by apply: eq_bigr => a _; rewrite /term /= mulr1.
Qed.

Lemma einsum_ca_A m l (Q A P : nd C) : shape Q = [:: m; l] -> shape A = [:: l; l; l] -> shape P = [:: l; m] ->
  exists c, einsum4 "ia" "jb" "abc" "ck" "ijk" Q Q A P = Ok c /\ shape c = [:: m; m; m] /\
  forall i j k, get c [:: i; j; k] = \sum_(a < l) \sum_(b < l) \sum_(c < l)
    get Q [:: i; a : nat] * get Q [:: j; b : nat] * get A [:: a : nat; b : nat; c : nat] * get P [:: c : nat; k].
Proof.
move=> sQ sA sP; rewrite /einsum4 /einsum_ops /bind_all /= sQ sA sP /= !eqxx /= !eqxx /=.
eexists; split; first by []; split=> // i j k /=.
by do 3!(apply: eq_bigr => ? _); rewrite /term /= mulr1 !mulrA.
Qed.

(** Entries of a matrix given by natural numbers. *)
Definition ent m n (M : 'M[C]_(m, n)) (i j : nat) : C := get (nd_of_mx M) [:: i; j].
Lemma entE m n (M : 'M[C]_(m, n)) (i : 'I_m) (j : 'I_n) : ent M i j = M i j.
Proof. by rewrite -{2}(mx2_of_mx M) mxE. Qed.

Theorem change_algebra_ok T d m (r : rep C) (Q : nd C) : is_rep T d r -> shape Q = [:: m; th_l T] ->
  row_full (mx2 m (th_l T) Q) ->
  exists r', change_algebra r Q = Ok r' /\
  is_rep (alg_theory T m (fun i a => get Q [:: i; a]) (ent (pinv_mx (mx2 m (th_l T) Q)))) d r' /\
  rH r' = rH r /\
  (forall i, (i < m)%N -> mx3 d d (rX r') i = \sum_(a < th_l T) get Q [:: i; a : nat] *: mx3 d d (rX r) a).
Proof.
move=> h sQ fu; rewrite /change_algebra /np_pinv sQ /=.
set P := nd_of_mx _.
have [A [-> [sA eA]]] := einsum_ca_A sQ (ir_sA h) (erefl : shape P = _); rewrite /=.
have [X [-> [sX eX]]] := einsum_ca_X sQ (ir_sX h); rewrite /=.
eexists; split; first by [].
have gX i : mx3 d d X i = \sum_(a < th_l T) get Q [:: i; a : nat] *: mx3 d d (rX r) a.
  by apply/matrixP=> p q; rewrite mxE eX summxE; apply: eq_bigr => a _; rewrite !mxE.
split; last by split.
split=> //=.
- by move=> i j k hi hj hk; rewrite eA; do 3!(apply: eq_bigr => ? _); rewrite (ir_A h).
- exact: ir_sH h.
have PQ c a : (c < th_l T)%N -> (a < th_l T)%N ->
    \sum_(k < m) ent (pinv_mx (mx2 m (th_l T) Q)) c k * get Q [:: k : nat; a] = (c == a)%:R.
  move=> hc ha; have := pinv_left fu => /matrixP/(_ (Ordinal hc) (Ordinal ha)).
  rewrite !mxE -val_eqE /= => <-; apply: eq_bigr => k _.
  by rewrite -(entE _ (Ordinal hc) k) !mxE.
apply: is_mrep_ext (is_mrep_alg PQ (ir_m h)) => //.
Qed.

(** Changing by Q and then by its inverse gives the representation back. *)
Theorem change_algebra_back T d (r r1 r2 : rep C) (Q iQ : nd C) : is_rep T d r ->
  shape Q = [:: th_l T; th_l T] -> mx2 (th_l T) (th_l T) Q \in unitmx -> np_inv Q = Ok iQ ->
  change_algebra r Q = Ok r1 -> change_algebra r1 iQ = Ok r2 ->
  [/\ nd_eq (rA r2) (rA r), nd_eq (rX r2) (rX r) & rH r2 = rH r].
Proof.
move=> h sQ uQ eI e1 e2; set l := th_l T in sQ uQ *.
move: eI; rewrite /np_inv sQ eqxx uQ /= => -[eI].
set M := mx2 l l Q in uQ eI.
have sI : shape iQ = [:: l; l] by rewrite -eI.
have mI : mx2 l l iQ = invmx M by rewrite -eI mx2_of_mx.
have fQ : row_full M by rewrite row_full_unit.
have uI : mx2 l l iQ \in unitmx by rewrite mI unitmx_inv.
have fI : row_full (mx2 l l iQ) by rewrite row_full_unit.
have [t1 [q1 [i1 [H1 X1]]]] := change_algebra_ok h sQ fQ.
move: q1; rewrite e1 => -[q1]; rewrite -{t1}q1 in i1 H1 X1.
have [t2 [q2 [i2 [H2 X2]]]] := change_algebra_ok i1 (sI : shape iQ = [:: l; th_l (alg_theory T l _ _)]) fI.
move: q2; rewrite e2 => -[q2]; rewrite -{t2}q2 in i2 H2 X2.
have gQ (a b : 'I_l) : get Q [:: a : nat; b : nat] = M a b by rewrite /M mxE.
have gI (a b : 'I_l) : get iQ [:: a : nat; b : nat] = invmx M a b by rewrite -mI mxE.
have pQ (a b : 'I_l) : ent (pinv_mx M) a b = invmx M a b by rewrite entE pinv_unit.
have pI (a b : 'I_l) : ent (pinv_mx (mx2 l l iQ)) a b = M a b by rewrite entE pinv_unit // mI invmxK.
have IQ (i b : 'I_l) : \sum_(a < l) invmx M i a * M a b = (i == b)%:R.
  by have /matrixP/(_ i b) := mulVmx uQ; rewrite !mxE.
split; last by rewrite H2.
- split; first by rewrite (ir_sA i2) (ir_sA h).
  case=> [|i0 [|j0 [|k0 [|? ?]]]]; rewrite (ir_sA i2) //= !valid_cons => /and4P[hi hj hk _].
  rewrite (ir_A i2) // (ir_A h) //=.
  pose i := Ordinal hi; pose j := Ordinal hj; pose k := Ordinal hk.
  rewrite -[i0]/(i : nat) -[j0]/(j : nat) -[k0]/(k : nat) -/l.
  transitivity (\sum_(a < l) \sum_(b < l) \sum_(c < l) \sum_(a' < l) \sum_(b' < l) \sum_(c' < l)
     (invmx M i a * M a a') * ((invmx M j b * M b b') * (th_A T a' b' c' * (invmx M c' c * M c k)))).
    apply: eq_bigr => a _; apply: eq_bigr => b _; apply: eq_bigr => c _.
    rewrite mulr_sumr mulr_suml; apply: eq_bigr => a' _.
    rewrite mulr_sumr mulr_suml; apply: eq_bigr => b' _.
    rewrite mulr_sumr mulr_suml; apply: eq_bigr => c' _.
    rewrite gI gI gQ gQ pQ pI; mcring.
  transitivity (\sum_(a < l) \sum_(a' < l) (invmx M i a * M a a') *
      (\sum_(b < l) \sum_(b' < l) (invmx M j b * M b b') * \sum_(c < l) \sum_(c' < l) (th_A T a' b' c' * (invmx M c' c * M c k)))).
    apply: eq_bigr => a _.
    transitivity (\sum_(b < l) \sum_(a' < l) \sum_(c < l) \sum_(b' < l) \sum_(c' < l)
      (invmx M i a * M a a') * ((invmx M j b * M b b') * (th_A T a' b' c' * (invmx M c' c * M c k)))).
      by apply: eq_bigr => b _; rewrite exchange_big.
    rewrite exchange_big /=; apply: eq_bigr => a' _; rewrite mulr_sumr; apply: eq_bigr => b _.
    rewrite exchange_big /= mulr_sumr; apply: eq_bigr => b' _.
    by rewrite !mulr_sumr; apply: eq_bigr => c _; rewrite !mulr_sumr.
  have red (f : 'I_l -> C) (x : 'I_l) : \sum_(a < l) \sum_(a' < l) (invmx M x a * M a a') * f a' = f x.
    rewrite exchange_big /= (bigD1 x) //= [W in _ + W]big1 ?addr0; last first.
      by move=> a' ne; rewrite -mulr_suml IQ eq_sym (negbTE ne) mul0r.
    by rewrite -mulr_suml IQ eqxx mul1r.
  rewrite (red (fun a' => \sum_(b < l) \sum_(b' < l) (invmx M j b * M b b') * \sum_(c < l) \sum_(c' < l) (th_A T a' b' c' * (invmx M c' c * M c k)))).
  rewrite (red (fun b' => \sum_(c < l) \sum_(c' < l) (th_A T i b' c' * (invmx M c' c * M c k)))).
  rewrite exchange_big /= (bigD1 k) //= [W in _ + W]big1 ?addr0; last first.
    by move=> c' ne; rewrite -mulr_sumr IQ (negbTE ne) mulr0.
  by rewrite -mulr_sumr IQ eqxx mulr1.
- apply: (nd_eq3 (l := l) (d := d)); [exact: ir_sX i2|exact: ir_sX h|move=> x hx].
  rewrite X2 //=; pose i := Ordinal hx; rewrite -[x]/(i : nat) -/l.
  transitivity (\sum_(a < l) \sum_(b < l) (invmx M i a * M a b) *: mx3 d d (rX r) b).
    apply: eq_bigr => a _; rewrite X1 // scaler_sumr; apply: eq_bigr => b _.
    by rewrite gI gQ scalerA.
  rewrite exchange_big /= (bigD1 i) //= [W in _ + W]big1 ?addr0; last first.
    by move=> b ne; rewrite -scaler_suml IQ eq_sym (negbTE ne) scale0r.
  by rewrite -scaler_suml IQ eqxx scale1r.
Qed.

(** ** Conjugate *)
Definition conj_theory (T : theory C) : theory C :=
  Theory (th_l T) (th_h T) (fun i j k => (th_A T i j k)^* ) (th_rel T)
    (fun c' => exists c, th_adj T c /\ forall b i j, c' b i j = (c b i j)^* ).

Lemma is_mrep_conjC T d (X H : nat -> 'M[C]_d) : is_mrep T X H ->
  is_mrep (conj_theory T) (fun i => map_mx conjC (X i)) (fun b => map_mx conjC (H b)).
Proof.
move=> [ha hb hc].
have sm n (f : 'I_n -> C) (Y : 'I_n -> 'M[C]_d) :
    map_mx conjC (\sum_k f k *: Y k) = \sum_k (f k)^* *: map_mx conjC (Y k).
  by rewrite (raddf_sum (map_mx_additive _ _ _)) /=; apply: eq_bigr => k _; rewrite map_mxZ.
have wd w : word (fun b => map_mx conjC (H b)) w = map_mx conjC (word H w).
  by elim: w => [|b w IH] /=; rewrite ?map_mx1 // IH map_mxM.
split=> /=.
- by move=> i j hi hj; rewrite -!map_mxM -map_mxB ha // sm.
- by move=> u v r hw; rewrite !wd (hb _ _ r).
- move=> c' [c [hcc e]] b i h1 h2; rewrite -map_mxM (hc _ hcc) // map_mxM sm.
  by congr (_ *m _); apply: eq_bigr => j _; rewrite e.
Qed.

Lemma mx3_conj r c (a : nd C) k : mx3 r c (conj a) k = map_mx conjC (mx3 r c a k).
Proof. by apply/matrixP=> i j; rewrite !mxE. Qed.

(** In general the conjugate satisfies the conjugated relations; for a real
    algebra these are the relations of [rA r]. *)
Theorem conjugate_ok T d (r : rep C) : is_rep T d r ->
  is_mrep (conj_theory T) (mx3 d d (rX (conjugate r))) (mx3 d d (rH (conjugate r))).
Proof.
move=> h; apply: is_mrep_ext (is_mrep_conjC (ir_m h)) => i hi; rewrite /= mx3_conj //.
Qed.
Theorem conjugate_real T d (r : rep C) : is_rep T d r ->
  (forall i j k, (i < th_l T)%N -> (j < th_l T)%N -> (k < th_l T)%N -> th_A T i j k \is Num.real) ->
  is_rep (conj_theory T) d (conjugate r).
Proof.
move=> h re; split=> /=; [exact: ir_sA h| |exact: ir_sX h|exact: ir_sH h|exact: conjugate_ok h].
by move=> i j k hi hj hk; rewrite (ir_A h) // conj_Creal ?re.
Qed.
Theorem conjugate_twice (r : rep C) : let r' := conjugate (conjugate r) in
  [/\ rA r' = rA r, nd_eq (rX r') (rX r) & nd_eq (rH r') (rH r)].
Proof. by split=> //; split=> // idx _ /=; rewrite conjCK. Qed.

(** The counterexample: [X0, X1] = i X1. *)
Definition bad_rep : rep C :=
  MkRep (Nd [:: 2; 2; 2]%N (fun idx =>
           if idx == [:: 0; 1; 1]%N then 'i else if idx == [:: 1; 0; 1]%N then - 'i else 0))
        (Nd [:: 2; 2; 2]%N (fun idx => if idx == [:: 0; 0; 0]%N then 'i else if idx == [:: 1; 0; 1]%N then 1 else 0))
        (zeros [:: 0; 2; 2]%N).
Definition bad_theory : theory C :=
  Theory 2 0 (fun i j k => get (rA bad_rep) [:: i; j; k]) (fun _ _ => False) (fun _ => False).

Lemma bad_rep_ok : is_rep bad_theory 2 bad_rep.
Proof.
split=> //; split=> //= i j hi hj; apply/matrixP=> p q.
rewrite !mxE !big_ord_recr !big_ord0 /= !mxE /=.
by case: i hi => [|[|i]] // _; case: j hj => [|[|j]] // _; case: p => [[|[|p]] hp] //; case: q => [[|[|q]] hq] //=; rewrite ?(mulr0, mul0r, mulr1, mul1r, addr0, add0r, subr0, sub0r, subrr, oppr0).
Qed.

Theorem conjugate_bad : ~ is_mrep bad_theory (mx3 2 2 (rX (conjugate bad_rep))) (mx3 2 2 (rH (conjugate bad_rep))).
Proof.
case=> /(_ 0%N 1%N erefl erefl) /matrixP/(_ (Ordinal (erefl : (0 < 2)%N)) (Ordinal (erefl : (1 < 2)%N))) + _ _.
rewrite !mxE !big_ord_recr !big_ord0 /= !mxE /=.
rewrite !(mulr0, mul0r, mulr1, mul1r, addr0, add0r, subr0, sub0r, subrr, oppr0, rmorph0, rmorph1).
rewrite conjCi => /eqP; rewrite -subr_eq0 -opprD oppr_eq0 -mulr2n mulrn_eq0 /=.
by rewrite (negbTE (neq0Ci _)).
Qed.

(** ** Trivial factors *)
Theorem trivial_right T d (r t u : rep C) : is_rep T d r -> create_trivial r = Ok t -> tensor_product r t = Ok u ->
  [/\ rA u = rA r, nd_eq (rX u) (rX r) & nd_eq (rH u) (rH r)].
Proof.
move=> h et eu.
have [t' [et' [h1 [_ [X1 H1]]]]] := create_trivial_ok h.
move: et'; rewrite et => -[q]; rewrite -{t'}q in h1 X1 H1.
have [u' [eu' [h2 [A2 [X2 H2]]]]] := tensor_product_ok h h1.
move: eu'; rewrite eu => -[q]; rewrite -{u'}q in h2 A2 X2 H2.
have E (a : nd C) l : shape a = [:: l; (d * 1)%N; (d * 1)%N] -> shape a = [:: l; d; d] by rewrite muln1.
split=> //.
- split; first by rewrite (ir_sX h2) (ir_sX h) muln1.
  case=> [|x [|i [|j [|? ?]]]]; rewrite (ir_sX h2) // !valid_cons => /and4P[hx hi hj _].
  rewrite (entry3 _ _ hi hj) X2 // X1 /tensX tensmx0 addr0 !mxE /= !divn1 -val_eqE /= !modn1 mulr1 //.
- split; first by rewrite (ir_sH h2) (ir_sH h) muln1.
  case=> [|x [|i [|j [|? ?]]]]; rewrite (ir_sH h2) // !valid_cons => /and4P[hx hi hj _].
  by rewrite (entry3 _ _ hi hj) H2 // H1 !mxE /= !divn1 -val_eqE /= !modn1 mulr1.
Qed.
Theorem trivial_left T d (r t u : rep C) : is_rep T d r -> create_trivial r = Ok t -> tensor_product t r = Ok u ->
  [/\ rA u = rA r, nd_eq (rX u) (rX r) & nd_eq (rH u) (rH r)].
Proof.
move=> h et eu.
have [t' [et' [h1 [A1 [X1 H1]]]]] := create_trivial_ok h.
move: et'; rewrite et => -[q]; rewrite -{t'}q in h1 X1 H1 A1.
have [u' [eu' [h2 [A2 [X2 H2]]]]] := tensor_product_ok h1 h.
move: eu'; rewrite eu => -[q]; rewrite -{u'}q in h2 A2 X2 H2.
split; first by rewrite A2.
- split; first by rewrite (ir_sX h2) (ir_sX h) mul1n.
  case=> [|x [|i [|j [|? ?]]]]; rewrite (ir_sX h2) // !valid_cons => /and4P[hx hi hj _].
  rewrite (entry3 _ _ hi hj) X2 // X1 /tensX tens0mx add0r !mxE -val_eqE /=.
  have hi' := hi; have hj' := hj; rewrite mul1n in hi' hj'.
  by rewrite !divn_small ?modn_small //= mul1r.
- split; first by rewrite (ir_sH h2) (ir_sH h) mul1n.
  case=> [|x [|i [|j [|? ?]]]]; rewrite (ir_sH h2) // !valid_cons => /and4P[hx hi hj _].
  rewrite (entry3 _ _ hi hj) H2 // H1 !mxE -val_eqE /=.
  have hi' := hi; have hj' := hj; rewrite mul1n in hi' hj'.
  by rewrite !divn_small ?modn_small //= mul1r.
Qed.

Theorem is_trivialP T d (r : rep C) : is_rep T d r ->
  exists b, is_trivial r = Ok b /\
  (b <-> [/\ d = 1%N, forall i, (i < th_l T)%N -> mx3 d d (rX r) i = 0 & forall k, (k < th_h T)%N -> mx3 d d (rH r) k = 1%:M]).
Proof.
move=> h; rewrite /is_trivial /dim (ir_sX h) /=; eexists; split; first by [].
split.
- move=> /andP[/andP[/eqP e /allP hX] /allP hH]; subst d; split=> //.
  + move=> i hi; apply/matrixP=> p q; rewrite !mxE; apply/eqP/hX.
    by rewrite mem_all_idx !valid_cons hi !ltn_ord.
  + move=> i hi; apply/matrixP=> p q; rewrite !mxE !ord1 eqxx; apply/eqP/hH.
    by rewrite mem_all_idx (ir_sH h) !valid_cons hi.
- move=> [e hX hH]; move: hX hH; rewrite (ir_sH h) e eqxx /= => hX hH; apply/andP; split.
  + apply/allP; case=> [|x [|i [|j [|? ?]]]]; rewrite mem_all_idx // !valid_cons => /and4P[hx hi hj _].
    by rewrite (entry3 _ _ hi hj) hX // mxE.
  + apply/allP; case=> [|x [|i [|j [|? ?]]]]; rewrite mem_all_idx // !valid_cons => /and4P[hx hi hj _].
    by rewrite (entry3 _ _ hi hj) hH // mxE !ord1 eqxx.
Qed.
End Ops.
