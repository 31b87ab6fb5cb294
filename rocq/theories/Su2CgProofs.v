(** Su2CgProofs: the entries of the Clebsch-Gordan arrays of SU2 in closed form. *)
From Coq Require Import ZArith.
From mathcomp Require Import all_ssreflect all_algebra.
From mathcomp Require Import zify.
From Verif Require Import Base McRing Nd NdProofs Labels LabelProofs CgSum Su2Cg.

Set Implicit Arguments.
Unset Strict Implicit.
Unset Printing Implicit Defensive.

Import Order.POrderTheory Order.TotalTheory GRing.Theory Num.Theory.
Local Open Scope ring_scope.

Section Su2CgProofs.
Variable C : numClosedFieldType.

Lemma hfactE k h : h = (k.*2)%:Z -> hfact h = Ok k`!.
Proof. by move=> ->; rewrite /hfact /= odd_double doubleK. Qed.
Lemma trunc2E k h : h = (k.*2)%:Z -> trunc2 h = k%:Z.
Proof. by move=> ->; rewrite /trunc2 /= doubleK. Qed.
Lemma sign2E k h : h = (k.*2)%:Z -> sign2 C h = Ok ((-1) ^+ k).
Proof. by move=> ->; rewrite /sign2 /= odd_double doubleK. Qed.

(** The coefficient for 2 j1 = p + r, 2 j2 = p + q, 2 j3 = q + r; b = j + m, a = j - m. *)
Definition cgK (p q r M a1 b1 a2 b2 : nat) : C :=
  (q + r + 1)%N%:R * ((r`! * q`! * p`! * M`! * (q + r - M)`!)%N%:R / ((p + q + r + 1)`! * a1`! * b1`! * a2`! * b2`!)%N%:R).
Definition cgS (q r M a1 b1 b2 : nat) : C := (-1) ^+ b2 / (q`! * r`!)%N%:R * cgF C q r M a1 b1.
Definition cgc (p q r b1 b2 M : nat) : C :=
  sqrtC (cgK p q r M (p + r - b1) b1 (p + q - b2) b2) * cgS q r M (p + r - b1) b1 b2.

Lemma foldR_sum (S : eqType) (f : C -> S -> res C) (g : S -> C) l x :
  {in l, forall s, forall c, f c s = Ok (c + g s)} -> foldR f x l = Ok (x + \sum_(s <- l) g s).
Proof.
elim: l x => [|s l IH] x h /=; first by rewrite big_nil addr0.
rewrite h ?mem_head //= IH => [|t ht c]; last by apply: h; rewrite inE ht orbT.
by rewrite big_cons addrA.
Qed.

Lemma fact_neq0 n : (n`!)%:R != 0 :> C.
Proof. by rewrite pnatr_eq0 -lt0n fact_gt0. Qed.
Lemma binE n m : (m <= n)%N -> ('C(n, m))%:R = (n`!)%:R / ((m`!)%:R * ((n - m)`!)%:R) :> C.
Proof. by move=> h; rewrite -(bin_fact h) !natrM mulfK // mulf_neq0 ?fact_neq0. Qed.

Lemma cgS_real q r M a b b2 : cgS q r M a b b2 \is Num.real.
Proof.
rewrite /cgS realM // ?rpred_div ?rpredX ?rpredN ?rpred1 ?realn //.
by rewrite /cgF rpred_sum // => v _; rewrite /cgt /cb; case: ifP => _; rewrite !rpredM ?rpredX ?rpredN ?rpred1 ?realn ?rpred0.
Qed.

Lemma su2_coeffE p q r b1 b2 M a1 a2 (n1 n2 n3 x1 x2 x3 : int) :
  n1 = (p + r)%N%:Z -> n2 = (p + q)%N%:Z -> n3 = (q + r)%N%:Z ->
  (a1 + b1 = p + r)%N -> (a2 + b2 = p + q)%N -> (b1 + b2 = p + M)%N -> (M <= q + r)%N ->
  x1 = 2 * b1%:Z - n1 -> x2 = 2 * b2%:Z - n2 -> x3 = x1 + x2 ->
  su2_coeff C n1 x1 n2 x2 n3 x3 = Ok (sqrtC (cgK p q r M a1 b1 a2 b2) * cgS q r M a1 b1 b2).
Proof.
move=> e1 e2 e3 ea eb eM hM ex1 ex2 ex3; rewrite /su2_coeff ex3 eqxx /= -ex3.
have -> : trunc2 (max3 (- n1 + n2 + x3) (- n1 + x1) 0) = (M - r)%N%:Z.
  by apply: trunc2E; rewrite /max3; lia.
have -> : trunc2 (min3 (n2 + n3 + x1) (n3 - n1 + n2) (n3 + x3)) = (minn q M)%:Z.
  by apply: trunc2E; rewrite /min3; lia.
rewrite (@hfactE r); last by lia.
rewrite (@hfactE q); last by lia.
rewrite (@hfactE p); last by lia.
rewrite (@hfactE M); last by lia.
rewrite (@hfactE (q + r - M)); last by lia.
rewrite (@hfactE (p + q + r + 1)); last by lia.
rewrite (@hfactE a1); last by lia.
rewrite (@hfactE b1); last by lia.
rewrite (@hfactE a2); last by lia.
rewrite (@hfactE b2); last by lia.
rewrite /=.
have -> : (n3 + 1)%:~R = (q + r + 1)%N%:R :> C by rewrite e3 intrD natrD.
rewrite -/(cgK p q r M a1 b1 a2 b2).
pose g (v : int) : C := (-1) ^+ b2 / (q`! * r`!)%N%:R * cgt C q r M a1 b1 (absz v).
rewrite (@foldR_sum _ _ g) => [|v]; last first.
  rewrite mem_pyrange // => /and3P[h1 h2 _] c.
  have [w ew] : exists w : nat, v = w%:Z by exists (absz v); lia.
  have w1 : (w <= q)%N by lia.
  have w2 : (w <= M)%N by lia.
  have w3 : (M <= w + r)%N by lia.
  rewrite (@sign2E (w + b2)); last by lia.
  rewrite (@hfactE (q - w + b1)); last by lia.
  rewrite (@hfactE (a1 + w)); last by lia.
  rewrite (@hfactE w); last by lia.
  rewrite (@hfactE (q - w)); last by lia.
  rewrite (@hfactE (M - w)); last by lia.
  rewrite (@hfactE (w + r - M)); last by lia.
  rewrite /=; congr (Ok (_ + _)); rewrite /g ew /= /cgt /cb w2 !binE //; last by lia.
  have -> : (r - (M - w) = w + r - M)%N by lia.
  rewrite exprD !natrM.
  move: (fact_neq0 q) (fact_neq0 r) (fact_neq0 w) (fact_neq0 (q - w)) (fact_neq0 (M - w)) (fact_neq0 (w + r - M)).
  move: ((-1) ^+ w) ((-1) ^+ b2) => s t.
  move: (q`!)%:R (r`!)%:R (w`!)%:R ((q - w)`!)%:R ((M - w)`!)%:R ((w + r - M)`!)%:R => u1 u2 u3 u4 u5 u6 h1' h2' h3' h4' h5' h6'.
  by mcf.
rewrite add0r; have -> : \sum_(s <- pyrange (M - r)%N ((minn q M)%:Z + 1) 1) g s = cgS q r M a1 b1 b2.
  rewrite /pyrange big_map.
  have -> : (if ((M - r)%N%:Z < (minn q M)%:Z + 1)%R then (absz ((minn q M)%:Z + 1 - (M - r)%N%:Z)%R + 0) %/ 1 else 0)%N
    = ((minn q M).+1 - (M - r))%N by rewrite divn1 addn0; case: ifP; lia.
  rewrite (eq_bigr (fun i => (-1) ^+ b2 / (q`! * r`!)%N%:R * cgt C q r M a1 b1 (M - r + i))) => [|i _]; last first.
    by rewrite /g mul1n -PoszD.
  rewrite -big_distrr /= /cgS; congr (_ * _).
  set K := ((minn q M).+1 - (M - r))%N.
  transitivity (\sum_(0 <= i < K) cgt C q r M a1 b1 (i + (M - r))).
    by rewrite /index_iota subn0; apply: eq_bigr => i _; rewrite addnC.
  rewrite /K -(big_addn 0 (minn q M).+1 (M - r) xpredT (cgt C q r M a1 b1)) add0n /cgF -(big_mkord xpredT (cgt C q r M a1 b1)).
  rewrite [RHS](@big_cat_nat _ _ _ (M - r)) /=; [|by lia|by lia].
  rewrite [X in _ = _ + X](@big_cat_nat _ _ _ (minn q M).+1 (M - r)) /=; [|by lia|by lia].
  rewrite [X in _ = X + _]big_nat [X in _ = X + _]big1 ?add0r => [|i /andP[_ hi]]; last first.
    rewrite /cgt (_ : cb C r M i = 0) ?mulr0 ?mul0r // /cb; case: ifP => // _; rewrite bin_small //; lia.
  rewrite [X in _ = _ + X]big_nat [X in _ = _ + X]big1 ?addr0 // => i /andP[hi hq].
  by rewrite /cgt (_ : cb C r M i = 0) ?mulr0 ?mul0r // /cb; case: ifP => //; lia.
congr Ok; have hS := cgS_real q r M a1 b1 b2; have hK : 0 <= cgK p q r M a1 b1 a2 b2.
  by rewrite /cgK mulr_ge0 ?divr_ge0 ?ler0n.
move: (cgK _ _ _ _ _ _ _ _) (cgS _ _ _ _ _ _) hS hK => K S hS hK.
have eS : sqrtC (K * S ^+ 2) = sqrtC K * `|S|.
  by rewrite rootCMl // -[S ^+ 2]real_normK // sqrCK.
rewrite eS; case: real_ltP; rewrite ?real0 // => h; first by rewrite gtr0_norm.
by rewrite ler0_norm // mulrN opprK.
Qed.

(** * The array *)
(** A loop of assignments whose value depends on the index only. *)
Lemma foldR_set (S : eqType) (f : nd C -> S -> res (nd C)) (sh : seq nat) (c : pred S) (ix : S -> seq nat) (w : seq nat -> C) l X :
  shape X = sh ->
  {in l, forall s Y, shape Y = sh -> exists Y', f Y s = Ok Y' /\ shape Y' = sh /\
     forall idx, get Y' idx = if c s && (ix s == idx) then w idx else get Y idx} ->
  exists Y, foldR f X l = Ok Y /\ shape Y = sh /\
    forall idx, get Y idx = if has (fun s => c s && (ix s == idx)) l then w idx else get X idx.
Proof.
elim: l X => [|s l IH] X sX h /=; first by exists X.
have [Y [-> [sY gY]]] := h s (mem_head _ _) X sX; rewrite /=.
have [|Z [-> [sZ gZ]]] := IH Y sY; first by move=> t ht; apply: h; rewrite inE ht orbT.
exists Z; split=> //; split=> // idx; rewrite gZ gY.
by case: (has _ l); rewrite ?orbT ?orbF.
Qed.

Lemma pyrange_sym n : pyrange (- n%:Z) (n%:Z + 1) 2 = [seq 2 * b%:Z - n%:Z | b <- iota 0 n.+1].
Proof.
rewrite /pyrange; have -> : (if (- n%:Z < n%:Z + 1)%R then (absz (n%:Z + 1 - - n%:Z)%R + 1) %/ 2 else 0)%N = n.+1.
  by case: ifP; lia.
by apply: eq_map => i; lia.
Qed.

(** p, q, r from the doubled spins. *)
Definition tri (n1 n2 n3 : nat) : bool := [&& (n3 <= n1 + n2)%N, (n1 <= n2 + n3)%N, (n2 <= n1 + n3)%N & ~~ odd (n1 + n2 + n3)].
Lemma triP n1 n2 n3 : tri n1 n2 n3 -> exists p q r, [/\ n1 = (p + r)%N, n2 = (p + q)%N & n3 = (q + r)%N].
Proof.
move=> /and4P[h1 h2 h3 h4]; exists ((n1 + n2 - n3)./2), ((n2 + n3 - n1)./2), ((n1 + n3 - n2)./2).
split; lia.
Qed.
Lemma tri_pqr p q r : tri (p + r) (p + q) (q + r).
Proof. by rewrite /tri; apply/and4P; split; lia. Qed.
Lemma mem_su2 n1 n2 n3 : (n3%:Z \in pyrange `|n1%:Z - n2%:Z| (n1%:Z + n2%:Z + 1) 2) = tri n1 n2 n3.
Proof.
rewrite mem_pyrange // /tri; apply/and3P/and4P => [[h1 h2 h3]|[h1 h2 h3 h4]]; split; lia.
Qed.

Lemma su2_cgmatE p q r : exists X, su2_cgmat C (p + r) (p + q) (q + r) = Ok X /\
  shape X = [:: (p + r).+1; (p + q).+1; (q + r).+1]%N /\
  forall i j k, (i < (p + r).+1)%N -> (j < (p + q).+1)%N -> (k < (q + r).+1)%N ->
    get X [:: i; j; k] = if (k + p == i + j)%N then cgc p q r i j k else 0.
Proof.
rewrite /su2_cgmat mem_su2 tri_pqr.
lazymatch goal with |- context [foldR ?F _ _] => set f := F end.
set l := [seq (x, y) | x <- _, y <- _].
pose c (xy : int * int) := `|xy.1 + xy.2| <= (q + r)%N%:Z.
pose ix (xy : int * int) := [:: absz (trunc2 ((p + r)%N%:Z + xy.1)); absz (trunc2 ((p + q)%N%:Z + xy.2)); absz (trunc2 ((q + r)%N%:Z + xy.1 + xy.2))].
pose w (idx : seq nat) := cgc p q r (nth 0%N idx 0) (nth 0%N idx 1) (nth 0%N idx 2).
have memP x y : ((x, y) \in l) -> exists b1 b2, [/\ (b1 < (p + r).+1)%N, (b2 < (p + q).+1)%N, x = 2 * b1%:Z - (p + r)%N%:Z & y = 2 * b2%:Z - (p + q)%N%:Z].
  move/allpairsP => [[x' y'] /= [hx hy [-> ->]]]; move: hx hy; rewrite !pyrange_sym.
  by move=> /mapP[b1 h1 ->] /mapP[b2 h2 ->]; move: h1 h2; rewrite !mem_iota => h1 h2; exists b1, b2.
have [//||X [-> [sX gX]]] := @foldR_set _ f [:: (p + r).+1; (p + q).+1; (q + r).+1]%N c ix w l (zeros [:: (p + r).+1; (p + q).+1; (q + r).+1]%N).
  move=> [x y] /memP[b1 [b2 [h1 h2 ex ey]]] Y sY; rewrite /f /c /=.
  case: ifP => hc; last by exists Y.
  have [M eM] : exists M, (b1 + b2 = p + M)%N by exists (b1 + b2 - p)%N; lia.
  have hM : (M <= q + r)%N by lia.
  rewrite (@su2_coeffE p q r b1 b2 M (p + r - b1) (p + q - b2)) //; [|by lia|by lia] => /=.
  have t1 : trunc2 ((p + r)%N%:Z + x) = b1%:Z by apply: trunc2E; lia.
  have t2 : trunc2 ((p + q)%N%:Z + y) = b2%:Z by apply: trunc2E; lia.
  have t3 : trunc2 ((q + r)%N%:Z + x + y) = M%:Z by apply: trunc2E; lia.
  rewrite t1 t2 t3 /set3 /= sY /valid /= h1 h2 ltnS hM /=; eexists; split; first by [].
  split=> // idx /=; rewrite /ix /= t1 t2 t3 /= eq_sym; by case: eqP => // <-; rewrite /w /cgc.
exists X; split=> //; split=> // i j k hi hj hk; rewrite gX /=.
case: ifP => [/hasP[[x y] /memP[b1 [b2 [h1 h2 ex ey]]] /andP[hc /eqP e]]|/hasPn hn].
  move: hc; rewrite /c /= => hc.
  have t1 : trunc2 ((p + r)%N%:Z + x) = b1%:Z by apply: trunc2E; lia.
  have t2 : trunc2 ((p + q)%N%:Z + y) = b2%:Z by apply: trunc2E; lia.
  have t3 : trunc2 ((q + r)%N%:Z + x + y) = (b1 + b2 - p)%N%:Z by apply: trunc2E; lia.
  move: e; rewrite /ix /= t1 t2 t3 /=.
  by case=> <- <- <-; case: eqP => //; lia.
case: eqP => // e; exfalso.
have : (2 * i%:Z - (p + r)%N%:Z, 2 * j%:Z - (p + q)%N%:Z) \in l.
  by apply/allpairsP; exists (2 * i%:Z - (p + r)%N%:Z, 2 * j%:Z - (p + q)%N%:Z); split=> //=; rewrite pyrange_sym; apply/mapP; [exists i | exists j]; rewrite // mem_iota.
move/hn; rewrite /c /ix /=; set x := _ - _; set y := _ - _.
have t1 : trunc2 ((p + r)%N%:Z + x) = i%:Z by apply: trunc2E; lia.
have t2 : trunc2 ((p + q)%N%:Z + y) = j%:Z by apply: trunc2E; lia.
have t3 : trunc2 ((q + r)%N%:Z + x + y) = k%:Z by apply: trunc2E; lia.
by rewrite t1 t2 t3 /= eqxx andbT; lia.
Qed.
End Su2CgProofs.
