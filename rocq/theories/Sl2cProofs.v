(** Sl2cProofs: the generators and the Clebsch-Gordan coefficients of SL2C. *)
From Coq Require Import ZArith String Ascii.
From mathcomp Require Import all_ssreflect all_algebra.
From mathcomp Require Import zify.
From mathcomp.real_closed Require Import mxtens.
From Verif Require Import Base McRing Nd NdProofs Reps RepSpec RepProofs RepOps Reduced ReducedProofs TpProofs Labels LabelProofs.
From Verif Require Import CgSum Su2 Su2Proofs So3Proofs Su2Cg Su2CgProofs Su2CgEq Su2Irr CgMx SoCg SoCgProofs Sl2c Sl2cMx.

Set Implicit Arguments.
Unset Strict Implicit.
Unset Printing Implicit Defensive.

Import Order.POrderTheory GRing.Theory Num.Theory.
Local Open Scope ring_scope.

Local Arguments stack : simpl never.

Section Sl2cProofs.
Variable C : numClosedFieldType.
Notation nd := (nd C).
Notation Bm := (Bm C).
Notation Fm := (Fm C).

Lemma su2_cgmat_ok n1 n2 n3 : tri n1 n2 n3 -> exists X, su2_cgmat C n1 n2 n3 = Ok X /\
  shape X = [:: n1.+1; n2.+1; n3.+1] /\
  forall i j k, (i < n1.+1)%N -> (j < n2.+1)%N -> (k < n3.+1)%N -> get X [:: i; j; k] = ce C n1 n2 n3 i j k.
Proof.
move/triP=> [p [q [r [-> -> ->]]]]; have [X [-> [sX gX]]] := su2_cgmatE C p q r.
by exists X; split=> //; split=> // i j k hi hj hk; rewrite gX // ceE.
Qed.

(** * np.concatenate *)
Lemma concat_last_cons (a : nd) l :
  (0 < size (shape a))%N && all (fun b : nd => (size (shape b) == size (shape a)) && (initdims b == initdims a)) (a :: l) ->
  concat_last (a :: l) = Ok (Nd (rcons (initdims a) (sumn [seq lastdim b | b <- a :: l]))
      (fun idx => let x := pick (a :: l) (last 0%N idx) in get x.1 (rcons (take (size idx).-1 idx) x.2))).
Proof. by move=> h; rewrite /concat_last h. Qed.
Lemma concat_cg l k ns (f : nat -> nd) : ns <> [::] ->
  (forall n, n \in ns -> shape (f n) = [:: l.+1; k.+1; n.+1]) ->
  (forall n i j c, n \in ns -> (i < l.+1)%N -> (j < k.+1)%N -> (c < n.+1)%N -> get (f n) [:: i; j; c] = ce C l k n i j c) ->
  exists X, concat_last (map f ns) = Ok X /\ shape X = [:: l.+1; k.+1; sumn [seq n.+1 | n <- ns]] /\
  forall i j c, (i < l.+1)%N -> (j < k.+1)%N -> (c < sumn [seq n.+1 | n <- ns])%N ->
    get X [:: i; j; c] = ce C l k (pk ns c).1 i j (pk ns c).2.
Proof.
move=> ne hs hg.
have ld : [seq lastdim b | b <- map f ns] = [seq n.+1 | n <- ns].
  by rewrite -map_comp; apply/eq_in_map => n /hs; rewrite /lastdim /= => ->.
have pE c : (c < sumn [seq n.+1 | n <- ns])%N -> pick (map f ns) c = (f (pk ns c).1, (pk ns c).2).
  elim: ns ne hs {hg ld} c => [//|n ns IH] _ hs c /=; rewrite /lastdim hs ?inE ?eqxx //= => hc.
  case: ifP => h //; case: ns IH hs hc => [|n' ns] IH hs hc; first by move: hc; rewrite /= addn0 h.
  by rewrite IH // => [m hm|]; [rewrite hs // inE hm orbT | move: hc => /=; lia].
have ini n : n \in ns -> initdims (f n) = [:: l.+1; k.+1] by move=> hn; rewrite /initdims hs.
have hA n0 : n0 \in ns -> (0 < size (shape (f n0)))%N && all (fun b : nd => (size (shape b) == size (shape (f n0))) && (initdims b == initdims (f n0))) (map f ns).
  move=> h0; rewrite all_map hs //=; apply/allP => n hn /=; rewrite hs // ini //.
  by rewrite ini //= !eqxx.
have [n0 [h0 ->]] : exists n0, n0 \in ns /\ concat_last (map f ns) = Ok (Nd (rcons (initdims (f n0)) (sumn [seq lastdim b | b <- map f ns]))
      (fun idx => let x := pick (map f ns) (last 0%N idx) in get x.1 (rcons (take (size idx).-1 idx) x.2))).
  case: ns ne hA {hs hg ld pE ini} => // n0 ns _ hA; exists n0; split; first by rewrite inE eqxx.
  by move: (hA n0); rewrite inE eqxx => /(_ isT) h; exact: concat_last_cons h.
eexists; split; first by []; split; first by rewrite [LHS]/= ini // ld.
move=> i j c hi hj hc; rewrite [LHS]/= pE //; have [h1 h2] := pk_in hc.
by rewrite -hg.
Qed.
Lemma sl2c_full_ok l k : exists X, sl2c_full C l k = Ok X /\ shape X = [:: l.+1; k.+1; (l.+1 * k.+1)%N] /\
  forall (i : 'I_l.+1) (j : 'I_k.+1) (c : 'I_(l.+1 * k.+1)), get X [:: i : nat; j : nat; c : nat] = Fm l k (mxtens_index (i, j)) c.
Proof.
pose f n := getR (zeros [::]) (su2_cgmat C l k n).
have hf n : n \in su2_list l k -> exists X, su2_cgmat C l k n = Ok X /\ f n = X /\ shape X = [:: l.+1; k.+1; n.+1] /\
    forall i j c, (i < l.+1)%N -> (j < k.+1)%N -> (c < n.+1)%N -> get X [:: i; j; c] = ce C l k n i j c.
  by rewrite su2_listP /f => h; have [X [-> h']] := su2_cgmat_ok h; exists X.
have eD : sumn [seq n.+1 | n <- su2_list l k] = (l.+1 * k.+1)%N by rewrite -su2_list_dim sumnE big_map.
have ne : su2_list l k <> [::] by move=> e; move: eD; rewrite e /=; lia.
have [n hn|n i j c hn|X [e [sX gX]]] := @concat_cg l k (su2_list l k) f ne.
- by have [X [_ [-> [sX _]]]] := hf n hn.
- by have [X [_ [-> [_ gX]]]] := hf n hn; apply: gX.
exists X; rewrite /sl2c_full.
have -> : mapR (fun i : int => su2_cgmat C l k (absz i)) (pyrange `|l%:Z - k%:Z| (l%:Z + k%:Z + 1) 2) = Ok (map f (su2_list l k)).
  rewrite /su2_list su2_mulE /= -map_comp; apply: mapR_ok_in => i hi /=.
  have [|Y [eY [fY _]]] := hf (absz i); last by rewrite eY -fY.
  by rewrite /su2_list su2_mulE /=; apply: map_f.
rewrite /= e sX eD; split=> //; split=> // i j c; rewrite gX //; last by rewrite eD.
by rewrite Fm_at.
Qed.

(** * The contraction *)
Lemma out5 (B1 B2 B3 B4 B5 : nd) : implicit_out [:: (labels "abc", B1); (labels "dea", B2); (labels "ghb", B3); (labels "dgk", B4); (labels "ehn", B5)] = labels "ckn".
Proof. by vm_compute. Qed.
Lemma out1 (B1 : nd) : implicit_out [:: (labels "cab", B1)] = labels "abc".
Proof. by vm_compute. Qed.

Lemma einsum5_ok a b c d e g h k n (B1 B2 B3 B4 B5 : nd) :
  shape B1 = [:: a; b; c] -> shape B2 = [:: d; e; a] -> shape B3 = [:: g; h; b] -> shape B4 = [:: d; g; k] -> shape B5 = [:: e; h; n] ->
  exists t, einsum_implicit [:: (labels "abc", B1); (labels "dea", B2); (labels "ghb", B3); (labels "dgk", B4); (labels "ehn", B5)] = Ok t /\
  shape t = [:: c; k; n] /\ forall x y z, get t [:: x; y; z] =
  \sum_(a' < a) \sum_(b' < b) \sum_(d' < d) \sum_(e' < e) \sum_(g' < g) \sum_(h' < h)
    get B1 [:: a' : nat; b' : nat; x] * (get B2 [:: d' : nat; e' : nat; a' : nat] * (get B3 [:: g' : nat; h' : nat; b' : nat] *
    (get B4 [:: d' : nat; g' : nat; y] * get B5 [:: e' : nat; h' : nat; z]))).
Proof.
move=> s1 s2 s3 s4 s5; rewrite /einsum_implicit out5 /einsum_ops /bind_all /= s1 s2 s3 s4 s5 /= ?eqxx /= ?eqxx /= ?eqxx /= ?eqxx /= ?eqxx /= ?eqxx /=.
eexists; split; first by []; split=> // x y z; rewrite /term /=.
do 6![apply: eq_bigr => ? _]; by rewrite mulr1.
Qed.
Lemma einsum_cab c a b (t : nd) : shape t = [:: c; a; b] -> exists r, einsum_implicit [:: (labels "cab", t)] = Ok r /\
  shape r = [:: a; b; c] /\ forall x y z, get r [:: x; y; z] = get t [:: z; x; y].
Proof.
move=> s; rewrite /einsum_implicit out1 /einsum_ops /bind_all /= s /=.
by eexists; split; first by []; split=> // x y z; rewrite /term /= mulr1.
Qed.
Lemma fubini6 (a b d e g h : nat) (f : nat -> nat -> nat -> nat -> nat -> nat -> C) :
  \sum_(a' < a) \sum_(b' < b) \sum_(d' < d) \sum_(e' < e) \sum_(g' < g) \sum_(h' < h) f a' b' d' e' g' h' =
  \sum_(d' < d) \sum_(g' < g) \sum_(e' < e) \sum_(h' < h) \sum_(a' < a) \sum_(b' < b) f a' b' d' e' g' h'.
Proof.
rewrite pair_bigA /= exchange_big /=; apply: eq_bigr => d' _.
rewrite exchange_big /= [RHS]exchange_big /=; apply: eq_bigr => e' _.
rewrite exchange_big /=; apply: eq_bigr => g' _.
by rewrite exchange_big /=; apply: eq_bigr => h' _; rewrite pair_bigA.
Qed.

Lemma sl2c_cgmat_ok (a b c : nat * nat) : tri a.1 b.1 c.1 -> tri a.2 b.2 c.2 -> exists X, sl2c_cgmat C a b c = Ok X /\
  shape X = [:: sl2c_d a; sl2c_d b; sl2c_d c] /\
  forall (i : 'I_(sl2c_d a)) (j : 'I_(sl2c_d b)) (k : 'I_(sl2c_d c)), get X [:: i : nat; j : nat; k : nat] = Em C a b c (mxtens_index (i, j)) k.
Proof.
move=> h1 h2; rewrite /sl2c_cgmat.
have [B1 [-> [s1 g1]]] := sl2c_full_ok c.1 c.2.
have [B2 [-> [s2 g2]]] := su2_cgmat_ok h1; have [B3 [-> [s3 g3]]] := su2_cgmat_ok h2.
have [B4 [-> [s4 g4]]] := sl2c_full_ok a.1 a.2; have [B5 [-> [s5 g5]]] := sl2c_full_ok b.1 b.2.
rewrite /=; have [t [-> [st gt]]] := einsum5_ok s1 s2 s3 s4 s5.
rewrite /=; have [X [-> [sX gX]]] := einsum_cab st.
exists X; split=> //; split=> // i j k; rewrite gX gt.
rewrite (fubini6 _ _ _ _ _ _ (fun a' b' d' e' g' h' => get B1 [:: a'; b'; k : nat] * (get B2 [:: d'; e'; a'] * (get B3 [:: g'; h'; b'] * (get B4 [:: d'; g'; i : nat] * get B5 [:: e'; h'; j : nat]))))).
rewrite /Em mxE sum_tens sum_tens; apply: eq_bigr => d _; apply: eq_bigr => g _.
rewrite sum_tens; apply: eq_bigr => e _; apply: eq_bigr => h _.
rewrite Sw_mul swiE [X in _ = _ * X]mxE big_distrr /= sum_tens; apply: eq_bigr => x _; apply: eq_bigr => y _.
by rewrite [_^T _ _]mxE !tensmxE !Bm_at g1 g2 // g3 // g4 g5; mcring.
Qed.

(** * SL2C.clebsch_gordan *)
Lemma sl2c_in (a b c : nat * nat) : (zz c \in sl2c_range (zz a) (zz b)) = tri a.1 b.1 c.1 && tri a.2 b.2 c.2.
Proof.
rewrite -!mem_su2; apply/allpairsP/andP => [[[x y] /= [hx hy [-> ->]]]|[hx hy]]; first by [].
by exists (c.1%:Z, c.2%:Z).
Qed.
Lemma sl2c_cg_ok (a b c : nat * nat) : tri a.1 b.1 c.1 -> tri a.2 b.2 c.2 -> exists X, sl2c_cg C a b c = Ok X /\
  shape X = [:: 1%N; sl2c_d a; sl2c_d b; sl2c_d c] /\
  forall (i : 'I_(sl2c_d a)) (j : 'I_(sl2c_d b)) (k : 'I_(sl2c_d c)), get X [:: 0%N; i : nat; j : nat; k : nat] = Em C a b c (mxtens_index (i, j)) k.
Proof.
move=> h1 h2; rewrite /sl2c_cg sl2c_mulE /= sl2c_in h1 h2 /=; have [X [-> [sX gX]]] := sl2c_cgmat_ok h1 h2.
by rewrite /=; eexists; split; first by []; rewrite /= sX.
Qed.
Lemma sl2c_cg_empty (a b c : nat * nat) : ~~ (tri a.1 b.1 c.1 && tri a.2 b.2 c.2) ->
  sl2c_cg C a b c = Ok (zeros [:: 0%N; sl2c_d a; sl2c_d b; sl2c_d c]).
Proof. by move=> h; rewrite /sl2c_cg sl2c_mulE /= sl2c_in (negbTE h). Qed.

(** * The generators *)
(** The coupling of (l, 0) and (0, k) is the coupled basis. *)
Lemma tri_r l : tri l 0 l. Proof. by rewrite /tri; lia. Qed.
Lemma tri_l l : tri 0 l l. Proof. by rewrite /tri; lia. Qed.
Lemma list_r l : su2_list l 0 = [:: l].
Proof.
have := su2_list_uniq l 0; have := @su2_listP l 0; have := su2_list_dim l 0.
case: (su2_list l 0) => [|x s]; first by rewrite big_nil; lia.
rewrite big_cons => hd hP _; have hx : x = l by move: (hP x); rewrite inE eqxx /tri; lia.
rewrite hx in hd *; case: s hd {hP} => // y s; rewrite big_cons; lia.
Qed.
Lemma list_l l : su2_list 0 l = [:: l].
Proof.
have := @su2_listP 0 l; have := su2_list_dim 0 l.
case: (su2_list 0 l) => [|x s]; first by rewrite big_nil; lia.
rewrite big_cons => hd hP; have hx : x = l by move: (hP x); rewrite inE eqxx /tri; lia.
rewrite hx in hd *; case: s hd {hP} => // y s; rewrite big_cons; lia.
Qed.
Lemma Fm_r l : Fm l 0 = 1%:M.
Proof.
apply/matrixP=> x c; case: (mxtens_indexP x) => i j; rewrite Fm_at list_r mxE -val_eqE /= [j]ord1 /=.
have hc : (c < l.+1)%N by have := ltn_ord c; rewrite [X in (_ < X)%N]muln1.
by rewrite hc ce_right ?leq_ord // [(i * 1)%N]muln1 addn0.
Qed.
Lemma Fm_l k : Fm 0 k = 1%:M.
Proof.
apply/matrixP=> x c; case: (mxtens_indexP x) => i j; rewrite Fm_at list_l mxE -val_eqE /= [i]ord1 /=.
have hc : (c < k.+1)%N by have := ltn_ord c; rewrite [X in (_ < X)%N]mul1n.
by rewrite hc ce_left ?leq_ord.
Qed.
Lemma Em_couple l k (i : 'I_l.+1) (j : 'I_k.+1) (c : 'I_(l.+1 * k.+1)) :
  Em C (l, 0%N) (0%N, k) (l, k) (mxtens_index (mxtens_index (i, ord0), mxtens_index (ord0, j))) c = Fm l k (mxtens_index (i, j)) c.
Proof.
rewrite /Em /= Fm_r Fm_l tens1 trmx1 mul1mx Sw_mul swiE mxE sum_tens (bigD1 i) //= (bigD1 j) //=.
rewrite tensmxE !Bm_at ce_right ?leq_ord // ce_left ?leq_ord // !eqxx !mul1r !big1 ?addr0 //.
  move=> x nx; apply: big1 => y _; rewrite tensmxE !Bm_at ce_right ?leq_ord // val_eqE eq_sym (negbTE nx).
  by rewrite !mul0r.
move=> y ny; rewrite tensmxE !Bm_at ce_left ?leq_ord // val_eqE eq_sym (negbTE ny).
by rewrite mulr0 mul0r.
Qed.

Lemma kron_add_ok m n (x y : nd) : shape x = [:: m; m] -> shape y = [:: n; n] ->
  exists c, kron_add x y = Ok c /\ shape c = [:: (m * n)%N; (m * n)%N] /\
  mx2 (m * n) (m * n) c = tact (mx2 m m x) (map_mx conjC (mx2 n n y)).
Proof.
move=> sx sy; rewrite /kron_add /np_kron /len sx sy /= /add; set u := Nd _ _; set v := conj _.
have [c [-> [sc gc]]] := @bmap2_same C (@GRing.add C) u v erefl.
exists c; split=> //; split=> //; apply/matrixP=> i j; case: (mxtens_indexP i) => i1 i2; case: (mxtens_indexP j) => j1 j2.
have dv (a : 'I_m) (b : 'I_n) : (mxtens_index (a, b) %/ n)%N = a.
  by rewrite /= divnMDl ?divn_small ?addn0 //; case: (n) b => [[]|].
have md (a : 'I_m) (b : 'I_n) : (mxtens_index (a, b) %% n)%N = b by rewrite /= modnMDl modn_small.
rewrite [LHS]mxE gc; last by apply/andP; split=> //; apply/and3P; split=> //; exact: ltn_ord.
rewrite [get u _]/= [get v _]/= !dv !md /tact [in RHS]mxE !tensmxE !mxE !val_eqE rmorphM /=.
by rewrite rmorph_nat.
Qed.
Lemma vmap2_kron m n (x y : nd) : shape x = [:: 3; m; m]%N -> shape y = [:: 3; n; n]%N ->
  exists c, vmap2 (@kron_add C) x y = Ok c /\ shape c = [:: 3; (m * n)%N; (m * n)%N]%N /\
  forall a, (a < 3)%N -> mx3 (m * n) (m * n) c a = tact (mx3 m m x a) (map_mx conjC (mx3 n n y a)).
Proof.
move=> sx sy; rewrite /vmap2 /rows /len sx sy /=.
have H a : exists c, kron_add (slice0 x a) (slice0 y a) = Ok c /\ shape c = [:: (m * n)%N; (m * n)%N] /\
  mx2 (m * n) (m * n) c = tact (mx3 m m x a) (map_mx conjC (mx3 n n y a)).
  by apply: kron_add_ok; rewrite /= ?sx ?sy.
have [c0 [-> [s0 g0]]] := H 0%N; have [c1 [-> [s1 g1]]] := H 1%N; have [c2 [-> [s2 g2]]] := H 2%N; rewrite /=.
have [//|//||c [-> [sc gc]]] := @stack_ok C 3 [:: (m * n)%N; (m * n)%N] [:: c0; c1; c2].
  by case=> [|[|[|]]].
exists c; split=> //; split=> // a ha; apply/matrixP=> i j; rewrite mxE gc //.
case: a ha => [|[|[|a]]] // _ /=; [rewrite -g0|rewrite -g1|rewrite -g2]; by rewrite mxE.
Qed.

Lemma sl2c_X_ok l k : exists X, sl2c_X C (l, k) = Ok X /\ shape X = [:: 6; sl2c_d (l, k); sl2c_d (l, k)]%N /\
  forall a, (a < 6)%N -> mx3 (l.+1 * k.+1) (l.+1 * k.+1) X a = Gm C (a < 3)%N l k (if (a < 3)%N then a else (a - 3)%N).
Proof.
rewrite /sl2c_X; have [Xl [-> [sl gl]]] := su2_X_ok C l; have [Xk [-> [sk gk]]] := su2_X_ok C k; rewrite [_.1]/= [_.2]/=.
have [re [e [sr gr]]] := vmap2_kron sl sk; rewrite /= e /=.
have sk' : shape (scale (-1) Xk) = [:: 3; k.+1; k.+1]%N by rewrite /= sk.
have [im [e' [si gi]]] := vmap2_kron sl sk'; rewrite e' /=.
rewrite /concat2 sr si eqxx /len sr si /=; set X := Nd _ _.
have sX : shape X = [:: 6; (l.+1 * k.+1)%N; (l.+1 * k.+1)%N]%N by [].
have [c [-> [sc gc]]] := @sl2c_cg_ok (l, 0%N) (0%N, k) (l, k) (tri_r l) (tri_l k); rewrite /=.
have [|c' [-> [sc' gc']]] := @reshapeP C c [:: sl2c_d (l, k); sl2c_d (l, k)].
  by rewrite sc /= /sl2c_d /= !muln1 !mul1n -[in LHS]mulnA.
have cF : mx2 (l.+1 * k.+1) (l.+1 * k.+1) c' = Fm l k.
  apply/matrixP=> x z; case: (mxtens_indexP x) => i j; rewrite mxE -(Em_couple i j z) -gc.
  apply: gc'; rewrite sc.
    by apply/andP; split=> //; do 4![apply/andP; split=> //]; exact: ltn_ord.
  by rewrite /ravel /sl2c_d /=; lia.
have sT : shape (transpose2 c') = [:: sl2c_d (l, k); sl2c_d (l, k)] by rewrite /= sc'.
rewrite /=; have [Y [-> [sY gY]]] := matmul_2_3 sT sX.
have sC : shape (conj c') = [:: sl2c_d (l, k); sl2c_d (l, k)] by rewrite /= sc'.
rewrite /=; have [Z [-> [sZ gZ]]] := matmul_3_2 sC sY.
exists Z; split=> //; split=> // a ha; rewrite gZ // gY // /Gm.
have -> : mx2 (sl2c_d (l, k)) (sl2c_d (l, k)) (transpose2 c') = (Fm l k)^T by rewrite -cF; apply/matrixP=> i j; rewrite !mxE.
have -> : mx2 (sl2c_d (l, k)) (sl2c_d (l, k)) (conj c') = Fm l k.
  by rewrite -[RHS]Fm_real -cF; apply/matrixP=> i j; rewrite !mxE.
congr (_ *m _ *m _); have -> : mx3 (sl2c_d (l, k)) (sl2c_d (l, k)) X a = if (a < 3)%N then mx3 (l.+1 * k.+1) (l.+1 * k.+1) re a else mx3 (l.+1 * k.+1) (l.+1 * k.+1) im (a - 3).
  by apply/matrixP=> i j; rewrite mxE /=; case: ifP => _; rewrite mxE.
case: ifP => h3; rewrite ?gr ?gi // /Tm /sg; try lia.
  by rewrite gl // gk // scale1r.
have h3' : (a - 3 < 3)%N by lia.
rewrite gl //; congr tact; rewrite -gk //; apply/matrixP=> i j; rewrite !mxE /= rmorphM rmorphN rmorph1 //.
Qed.

(** * The Lorentz algebra *)
Definition eps3 (i j k : nat) : int := table3 su2_table i j k.
Definition lorentz (kk : int) (i j k : nat) : int :=
  match (i < 3)%N, (j < 3)%N, (k < 3)%N with
  | true, true, true => eps3 i j k
  | false, false, true => kk * eps3 (i - 3) (j - 3) k
  | true, false, false => eps3 i (j - 3) (k - 3)
  | false, true, false => eps3 (i - 3) j (k - 3)
  | _, _, _ => 0
  end.
Lemma lorentz_atE kk i j k : kk \in [:: 1; -1] -> (i < 6)%N -> (j < 6)%N -> (k < 6)%N ->
  lorentz_at kk [:: i; j; k] = lorentz kk i j k.
Proof.
move=> hk hi hj hl.
have H : all (fun i => all (fun j => all (fun k => lorentz_at kk [:: i; j; k] == lorentz kk i j k) (iota 0 6)) (iota 0 6)) (iota 0 6).
  by move: hk; rewrite !inE => /orP[]/eqP->; vm_compute.
have I n : (n < 6)%N -> n \in iota 0 6 by rewrite mem_iota add0n.
by move/allP/(_ _ (I _ hi))/allP/(_ _ (I _ hj))/allP/(_ _ (I _ hl))/eqP: H.
Qed.
Lemma lorentz_comm kk d (J K : nat -> 'M[C]_d) :
  (forall i j, (i < 3)%N -> (j < 3)%N -> J i *m J j - J j *m J i = \sum_(k < 3) (eps3 i j k)%:~R *: J k) ->
  (forall i j, (i < 3)%N -> (j < 3)%N -> K i *m K j - K j *m K i = \sum_(k < 3) (kk * eps3 i j k)%:~R *: J k) ->
  (forall i j, (i < 3)%N -> (j < 3)%N -> J i *m K j - K j *m J i = \sum_(k < 3) (eps3 i j k)%:~R *: K k) ->
  let Z a := if (a < 3)%N then J a else K (a - 3)%N in
  forall i j, (i < 6)%N -> (j < 6)%N -> Z i *m Z j - Z j *m Z i = \sum_(k < 6) (lorentz kk i j k)%:~R *: Z k.
Proof.
move=> hJ hK hJK Z i j hi hj; rewrite (@big_split_ord _ _ _ 3 3) /= /Z.
have anti u v w : eps3 u v w = - eps3 v u w by case: u v w => [|[|[|u]]] [|[|[|v]]] [|[|[|w]]] //; rewrite /eps3 /table3 /= ?nth_nil ?oppr0 ?opprK //.
rewrite /lorentz; case: (ltnP i 3) => li; case: (ltnP j 3) => lj.
- rewrite hJ // [X in _ = _ + X]big1 ?addr0; last by move=> k _; rewrite scale0r.
  by apply: eq_bigr => k _; rewrite ltn_ord.
- rewrite [X in _ = X + _]big1 ?add0r; last by move=> k _; rewrite ltn_ord scale0r.
  rewrite hJK //; last by lia.
  by apply: eq_bigr => k _; rewrite addKn.
- rewrite [X in _ = X + _]big1 ?add0r; last by move=> k _; rewrite ltn_ord scale0r.
  rewrite -opprB hJK //; last by lia.
  rewrite -sumrN; apply: eq_bigr => k _; rewrite addKn /= [eps3 (i - 3) _ _]anti.
  by rewrite rmorphN scaleNr.
- rewrite [X in _ = _ + X]big1 ?addr0; last by move=> k _; rewrite scale0r.
  rewrite hK; try lia.
  by apply: eq_bigr => k _; rewrite ltn_ord.
Qed.

Lemma Xm_comm j a b : (a < 3)%N -> (b < 3)%N -> Xm C j a *m Xm C j b - Xm C j b *m Xm C j a = \sum_(k < 3) (eps3 a b k)%:~R *: Xm C j k.
Proof. by apply: su2_comm; [exact: X01 | exact: X12 | exact: X20]. Qed.
Lemma tact_comm m n (A A' : 'M[C]_m) (B B' : 'M[C]_n) :
  tact A B *m tact A' B' - tact A' B' *m tact A B = tact (A *m A' - A' *m A) (B *m B' - B' *m B).
Proof.
exact: comm_tensX.
Qed.
Lemma tact_sum m n (c : 'I_3 -> C) (A : nat -> 'M[C]_m) (B : nat -> 'M[C]_n) :
  tact (\sum_(k < 3) c k *: A k) (\sum_(k < 3) c k *: B k) = \sum_(k < 3) c k *: tact (A k) (B k).
Proof. by have /= := @sum_tensX C m n 3 c (fun k : 'I_3 => A k) (fun k : 'I_3 => B k) => ->. Qed.
Lemma Tm_comm s t l k a b : (a < 3)%N -> (b < 3)%N ->
  Tm C s l k a *m Tm C t l k b - Tm C t l k b *m Tm C s l k a = \sum_(c < 3) (eps3 a b c)%:~R *: Tm C (s == t) l k c.
Proof.
move=> ha hb; rewrite /Tm tact_comm Xm_comm // -(tact_sum (fun c : 'I_3 => (eps3 a b c)%:~R) (Xm C l) (fun c => sg C (s == t) *: cj (Xm C k c))); congr tact.
rewrite -!scalemxAl -!scalemxAr !scalerA [sg C t * _]mulrC -scalerBr -!cjM.
have -> : cj (Xm C k a *m Xm C k b) - cj (Xm C k b *m Xm C k a) = cj (\sum_(c < 3) (eps3 a b c)%:~R *: Xm C k c).
  by rewrite -Xm_comm // /cj map_mxB.
have -> : sg C s * sg C t = sg C (s == t) by case: s; case: t; rewrite /sg ?mulr1 ?mul1r ?mulrNN ?mulr1.
rewrite /cj raddf_sum scaler_sumr /=; apply: eq_bigr => c _.
by rewrite map_mxZ rmorph_int !scalerA mulrC.
Qed.
Lemma Gm_comm s t l k a b : (a < 3)%N -> (b < 3)%N ->
  Gm C s l k a *m Gm C t l k b - Gm C t l k b *m Gm C s l k a = \sum_(c < 3) (eps3 a b c)%:~R *: Gm C (s == t) l k c.
Proof.
move=> ha hb; rewrite /Gm.
have e A B : (Fm l k)^T *m A *m Fm l k *m ((Fm l k)^T *m B *m Fm l k) = (Fm l k)^T *m (A *m B) *m Fm l k.
  by rewrite !mulmxA -[_ *m Fm l k *m (Fm l k)^T]mulmxA Fm_full mulmx1.
rewrite !e -mulmxBl -mulmxBr Tm_comm // mulmx_sumr mulmx_suml; apply: eq_bigr => c _.
by rewrite -scalemxAr -scalemxAl.
Qed.

(** * The representations *)
Definition sl2c_th : theory C := Theory 6 0 (fun i j k => (lorentz 1 i j k)%:~R) (fun _ _ => False) (fun _ => False).
Lemma sl2c_rep_ok l k : exists r, sl2c_rep C (l, k) = Ok r /\ is_rep sl2c_th (l.+1 * k.+1) r /\
  forall a, (a < 6)%N -> mx3 (l.+1 * k.+1) (l.+1 * k.+1) (rX r) a = Gm C (a < 3)%N l k (if (a < 3)%N then a else (a - 3)%N).
Proof.
rewrite /sl2c_rep; have [X [-> [sX gX]]] := sl2c_X_ok l k; rewrite /=; eexists; split; first by [].
split; last by [].
split=> //=; first by move=> i j c hi hj hc; rewrite lorentz_atE.
pose Z a := if (a < 3)%N then Gm C true l k a else Gm C false l k (a - 3)%N.
apply: (@is_mrep_ext C sl2c_th _ Z _ (mx3 (l.+1 * k.+1) (l.+1 * k.+1) (zeros [:: 0%N; (l.+1 * k.+1)%N; (l.+1 * k.+1)%N]))) => //=.
  by move=> a ha; rewrite gX // /Z; case: ifP.
split=> //=; apply: lorentz_comm => i j hi hj; rewrite Gm_comm //.
by apply: eq_bigr => c _; rewrite mul1r.
Qed.
Definition sl2c_list (a b : nat * nat) : seq (nat * nat) := [seq (absz c.1, absz c.2) | c <- getR [::] (sl2c_mul (zz a) (zz b))].
Definition sl2c_irreps : irreps C :=
  @Irreps C (nat * nat)%type (fun a => getR (rep0 C) (sl2c_rep C a)) sl2c_d sl2c_list (fun a b c => getR (zeros [::]) (sl2c_cg C a b c)).
Lemma sl2c_listE a b : sl2c_list a b = [seq (l, k) | l <- su2_list a.1 b.1, k <- su2_list a.2 b.2].
Proof.
rewrite /sl2c_list sl2c_mulE /= /sl2c_range map_allpairs /su2_list !su2_mulE /=.
by rewrite allpairs_mapl allpairs_mapr.
Qed.
Lemma sl2c_listP a b c : (c \in sl2c_list a b) = tri a.1 b.1 c.1 && tri a.2 b.2 c.2.
Proof.
rewrite sl2c_listE -!su2_listP; apply/allpairsP/andP => [[[x y] /= [hx hy ->]]|[hx hy]]; first by [].
by exists c; case: c hx hy.
Qed.
Theorem sl2c_cg_complete (a b : label sl2c_irreps) : cg_ok sl2c_th a b.
Proof.
have rep c : is_rep sl2c_th (sl2c_d c) (getR (rep0 C) (sl2c_rep C c)) by case: c => l k; have [r [-> [h _]]] := sl2c_rep_ok l k.
have gX c i : (i < 6)%N -> mx3 (sl2c_d c) (sl2c_d c) (rX (getR (rep0 C) (sl2c_rep C c))) i =
    Gm C (i < 3)%N c.1 c.2 (if (i < 3)%N then i else (i - 3)%N).
  by case: c => l k hi; have [r [-> [_ g]]] := sl2c_rep_ok l k; apply: g.
have tP c : List.In c (sl2c_list a b) -> tri a.1 b.1 c.1 /\ tri a.2 b.2 c.2 by move/InP; rewrite sl2c_listP => /andP.
have dims : sumn [seq sl2c_d c | c <- sl2c_list a b] = (sl2c_d a * sl2c_d b)%N.
  rewrite sumnE big_map sl2c_listE big_allpairs.
  transitivity ((\sum_(l <- su2_list a.1 b.1) l.+1) * (\sum_(k <- su2_list a.2 b.2) k.+1))%N; last by rewrite !su2_list_dim /sl2c_d; lia.
  by rewrite big_distrl /=; apply: eq_bigr => l _; rewrite big_distrr.
apply: (@cg_mx_ok C sl2c_irreps sl2c_th a b (Em C a b) (fun c => (Em C a b c)^T)).
split; rewrite //=.
- by move=> e; move: dims; rewrite [sl2c_list a b]e /sl2c_d /=; lia.
- by move=> c /tP[h1 h2]; have [X [-> [sX _]]] := sl2c_cg_ok h1 h2.
- by move=> c i j k /tP[h1 h2]; have [X [-> [_ gE]]] := sl2c_cg_ok h1 h2.
- by move=> c i /tP[h1 h2] hi; rewrite !gX //; exact: Em_equiv.
- by rewrite sl2c_listE big_allpairs; exact: Em_full.
Qed.
End Sl2cProofs.
