(** Properties_SonAdj: the generators of SON_adjoint (C57). *)
From Coq Require Import ZArith.
From mathcomp Require Import all_ssreflect all_algebra.
From mathcomp Require Import zify.
From Verif Require Import Base SonAdj.

Set Implicit Arguments.
Unset Strict Implicit.
Unset Printing Implicit Defensive.

Import Order.TTheory GRing.Theory Num.Theory.
Local Open Scope ring_scope.

(** * Specification *)
Section Spec.
Variable R : numFieldType.
(** The quadratic form of Fulton and Harris: e_a pairs with e_(a+m) where m = n/2 rounded
    down; when n is odd the last vector pairs with itself. *)
Definition partner (n a b : nat) : bool :=
  let m := n./2 in
  [|| (a < m)%N && (b == a + m)%N, (b < m)%N && (a == b + m)%N | [&& odd n, a == n.-1 & b == n.-1]].
Definition form (n : nat) : 'M[R]_n := \matrix_(a, b) (partner n a b)%:R.
(** The Lie algebra of the group that preserves the form. *)
Definition in_so n (X : 'M[R]_n) : Prop := X^T *m form n + form n *m X = 0.
(** X is a linear combination of the matrices of l. *)
Definition spanned n (l : seq 'M[R]_n) (X : 'M[R]_n) : Prop :=
  exists c : nat -> R, X = \sum_(i < size l) c i *: nth 0 l i.
End Spec.

(** * Lemmas *)
Section Lemmas.
Variable R : numFieldType.
Implicit Types n m i j k l : nat.

Definition E' n i j : 'M[R]_n := \matrix_(a, b) (((a : nat) == i) && ((b : nat) == j))%:R.
Lemma E_E i j n : (i < n)%N -> (j < n)%N -> E_ R i j n = Ok (E' n i j).
Proof. by rewrite /E_ => -> ->. Qed.

Lemma stack_ok n (T : eqType) (f : T -> res 'M[R]_n) (g : T -> 'M[R]_n) (s : seq T) :
  {in s, forall x, f x = Ok (g x)} -> s <> [::] -> stack [seq f x | x <- s] = Ok [seq g x | x <- s].
Proof.
move=> fg s0; rewrite /stack.
have -> : mapR id [seq f x | x <- s] = Ok [seq g x | x <- s].
  elim: s fg {s0} => //= x s IH fg; rewrite fg ?inE ?eqxx //= IH // => y ys.
  by rewrite fg // inE ys orbT.
by case: s s0 {fg}.
Qed.

Definition off m : seq (nat * nat) := flatten [seq [seq (i, j) | j <- iota 0 m & i != j] | i <- iota 0 m].
Lemma offdiagE T (f : nat -> nat -> T) m : offdiag f m = [seq f p.1 p.2 | p <- off m].
Proof.
rewrite /offdiag /off map_flatten -map_comp; congr flatten; apply: eq_map => i /=.
by rewrite -map_comp.
Qed.
Lemma mem_off m i j : ((i, j) \in off m) = [&& (i < m)%N, (j < m)%N & i != j].
Proof.
apply/flatten_mapP/and3P => [[k]|[hi hj ij]].
  by rewrite mem_iota => hk /mapP[l]; rewrite mem_filter mem_iota => /andP[kl hl] [-> ->].
by exists i; rewrite ?mem_iota //; apply/mapP; exists j; rewrite // mem_filter mem_iota ij.
Qed.
Lemma off_nil m : (off m == [::]) = (m <= 1)%N.
Proof.
apply/idP/idP => [/eqP E|].
  by rewrite leqNgt; apply/negP => h; have := mem_off m 0 1; rewrite E in_nil; lia.
by case: m => [|[|m]].
Qed.
Lemma size_off m : size (off m) = (m * (m - 1))%N.
Proof.
rewrite /off size_flatten /shape -map_comp.
have -> : [seq (size \o (fun i => [seq (i, j) | j <- iota 0 m & i != j])) i | i <- iota 0 m]
          = [seq (m - 1)%N | i <- iota 0 m].
  apply/eq_in_map => i; rewrite mem_iota /= => hi; rewrite size_map size_filter.
  have := count_predC (fun j => i != j) (iota 0 m); rewrite size_iota.
  rewrite [count (predC _) _](_ : _ = 1%N); first by lia.
  rewrite (eq_count (a2 := pred1 i)); last by move=> j /=; rewrite negbK eq_sym.
  by rewrite count_uniq_mem ?iota_uniq // mem_iota /= hi.
have S k x c : sumn [seq c | i <- iota x k] = (k * c)%N by elim: k x => [|k IH] x //=; rewrite IH mulSn.
exact: S.
Qed.

(** The lists of generators. *)
Definition Hs n m := [seq E' n i i - E' n (i + m) (i + m) | i <- iota 0 m].
Definition Xs n m := [seq E' n p.1 p.2 - E' n (m + p.2) (m + p.1) | p <- off m].
Definition Ys n m := [seq E' n p.1 (m + p.2) - E' n p.2 (m + p.1) | p <- off m].
Definition Zs n m := [seq E' n (m + p.1) p.2 - E' n (m + p.2) p.1 | p <- off m].
Definition Us n := [seq E' n i (n - 1) - E' n (n - 1) i | i <- iota 0 n].
Definition Vs n m := [seq E' n (m + i) (n - 1) - E' n (n - 1) i | i <- iota 0 m].

Lemma evenE n : ~~ odd n -> (3 < n)%N ->
  son_adjoint R n = Ok (Hs n n./2 ++ Xs n n./2 ++ Ys n n./2 ++ Zs n n./2, [::]).
Proof.
move=> o h; rewrite /son_adjoint /passert ifT; last by lia.
rewrite /adjoint_generators o divn2 /=; set m := n./2.
have nm : n = (m + m)%N by rewrite /m; lia.
rewrite (@stack_ok _ _ _ (fun i => E' n i i - E' n (i + m) (i + m))) /=; last 2 first.
- by move=> i; rewrite mem_iota /= => hi; rewrite /msub !E_E //=; lia.
- by move=> e; have := size_iota 0 m; rewrite e /=; lia.
have o0 : off m <> [::] by move/eqP; rewrite off_nil; lia.
rewrite !offdiagE.
rewrite (@stack_ok _ _ _ (fun p => E' n p.1 p.2 - E' n (m + p.2) (m + p.1))) //=; last first.
  by move=> [i j]; rewrite mem_off /= => hi; rewrite /msub !E_E //=; lia.
rewrite (@stack_ok _ _ _ (fun p => E' n p.1 (m + p.2) - E' n p.2 (m + p.1))) //=; last first.
  by move=> [i j]; rewrite mem_off /= => hi; rewrite /msub !E_E //=; lia.
rewrite (@stack_ok _ _ _ (fun p => E' n (m + p.1) p.2 - E' n (m + p.2) p.1)) //=.
by move=> [i j]; rewrite mem_off /= => hi; rewrite /msub !E_E //=; lia.
Qed.

Lemma oddE n : odd n -> (4 < n)%N ->
  son_adjoint R n = Ok (Hs n n./2 ++ Xs n n./2 ++ Ys n n./2 ++ Zs n n./2 ++ Us n ++ Vs n n./2, [::]).
Proof.
move=> o h; rewrite /son_adjoint /passert ifT; last by lia.
rewrite /adjoint_generators o (_ : (n - 1) %/ 2 = n./2)%N /=; last by lia.
set m := n./2.
have nm : n = (m + m).+1 by rewrite /m; lia.
rewrite (@stack_ok _ _ _ (fun i => E' n i i - E' n (i + m) (i + m))) /=; last 2 first.
- by move=> i; rewrite mem_iota /= => hi; rewrite /msub !E_E //=; lia.
- by move=> e; have := size_iota 0 m; rewrite e /=; lia.
have o0 : off m <> [::] by move/eqP; rewrite off_nil; lia.
rewrite !offdiagE.
rewrite (@stack_ok _ _ _ (fun p => E' n p.1 p.2 - E' n (m + p.2) (m + p.1))) //=; last first.
  by move=> [i j]; rewrite mem_off /= => hi; rewrite /msub !E_E //=; lia.
rewrite (@stack_ok _ _ _ (fun p => E' n p.1 (m + p.2) - E' n p.2 (m + p.1))) //=; last first.
  by move=> [i j]; rewrite mem_off /= => hi; rewrite /msub !E_E //=; lia.
rewrite (@stack_ok _ _ _ (fun p => E' n (m + p.1) p.2 - E' n (m + p.2) p.1)) //=; last first.
  by move=> [i j]; rewrite mem_off /= => hi; rewrite /msub !E_E //=; lia.
rewrite (@stack_ok _ _ _ (fun i => E' n i (n - 1) - E' n (n - 1) i)) /=; last 2 first.
- by move=> i; rewrite mem_iota /= => hi; rewrite /msub !E_E //=; lia.
- by case: (n) h.
rewrite (@stack_ok _ _ _ (fun i => E' n (m + i) (n - 1) - E' n (n - 1) i)) //=.
- by move=> i; rewrite mem_iota /= => hi; rewrite /msub !E_E //=; lia.
- by move=> e; have := size_iota 0 m; rewrite e /=; lia.
Qed.

(** The form and an elementary matrix. *)
Lemma form_l n i j (hi : (i < n)%N) (a b : 'I_n) :
  ((E' n i j)^T *m form R n) a b = (((a : nat) == j) && partner n i b)%:R.
Proof.
rewrite mxE (bigD1 (Ordinal hi)) //= !mxE /= eqxx /= -natrM mulnb big1 ?addr0 // => k /eqP hk.
by rewrite !mxE (_ : (k == i :> nat) = false) ?mul0r //; apply/negbTE/eqP => e; apply: hk; apply: val_inj.
Qed.
Lemma form_r n i j (hi : (i < n)%N) (a b : 'I_n) :
  (form R n *m E' n i j) a b = (partner n a i && ((b : nat) == j))%:R.
Proof.
rewrite mxE (bigD1 (Ordinal hi)) //= !mxE /= eqxx /= -natrM mulnb big1 ?addr0 // => k /eqP hk.
by rewrite !mxE (_ : (k == i :> nat) = false) ?mulr0 //; apply/negbTE/eqP => e; apply: hk; apply: val_inj.
Qed.
Lemma partnerC n a b : partner n a b = partner n b a.
Proof. by rewrite /partner orbCA; congr [|| _, _ | _]; rewrite [(a == _) && _]andbC. Qed.

(** E_ij - E_kl lies in so as soon as the partner of i is l and that of k is j. *)
Lemma soE n i j k l : (i < n)%N -> (k < n)%N ->
  (forall b, (b < n)%N -> partner n i b = (b == l)) -> (forall b, (b < n)%N -> partner n k b = (b == j)) ->
  in_so (E' n i j - E' n k l).
Proof.
move=> hi hk pi pk; rewrite /in_so; apply/matrixP => a b.
rewrite linearB /= mulmxBl mulmxBr !mxE.
have := form_l j hi a b; have := form_l l hk a b; have := form_r j hi a b; have := form_r l hk a b.
rewrite !mxE => -> -> -> ->; rewrite ![partner n a _]partnerC !pi ?pk //.
by rewrite -[X in _ + X]opprB subrr.
Qed.

Lemma partner_lo n i b : (i < n./2)%N -> (b < n)%N -> partner n i b = (b == n./2 + i)%N.
Proof. by rewrite /partner; case: (odd n) (odd_double_half n) => /= e h hb; lia. Qed.
Lemma partner_hi n i b : (i < n./2)%N -> (b < n)%N -> partner n (n./2 + i) b = (b == i).
Proof. by rewrite /partner; case: (odd n) (odd_double_half n) => /= e h hb; lia. Qed.
Lemma partner_last n b : odd n -> (b < n)%N -> partner n (n - 1) b = (b == n - 1)%N.
Proof. by rewrite /partner => o; rewrite o; move: (odd_double_half n); rewrite o /= => e hb; lia. Qed.

Lemma so_common n X : X \in Hs n n./2 ++ Xs n n./2 ++ Ys n n./2 ++ Zs n n./2 -> in_so X.
Proof.
have e := odd_double_half n.
rewrite !mem_cat => /or4P[] /mapP[].
- by move=> i; change nat in i; rewrite mem_iota /= => hi ->; rewrite [(i + _)%N]addnC; apply: soE => [||b hb|b hb]; try lia;
    rewrite ?partner_hi ?partner_lo //; lia.
- move=> [i j]; change nat in i; change nat in j; rewrite mem_off /= => hi ->; apply: soE => [||b hb|b hb]; try lia;
    rewrite ?partner_hi ?partner_lo //; lia.
- move=> [i j]; change nat in i; change nat in j; rewrite mem_off /= => hi ->; apply: soE => [||b hb|b hb]; try lia;
    rewrite ?partner_hi ?partner_lo //; lia.
- move=> [i j]; change nat in i; change nat in j; rewrite mem_off /= => hi ->; apply: soE => [||b hb|b hb]; try lia;
    rewrite ?partner_hi ?partner_lo //; lia.
Qed.
Lemma so_Vs n X : odd n -> X \in Vs n n./2 -> in_so X.
Proof.
have e := odd_double_half n => o /mapP[i]; change nat in i; rewrite o in e; rewrite mem_iota /= => hi ->.
by apply: soE => [||b hb|b hb]; try lia; rewrite ?partner_hi ?partner_last //; lia.
Qed.
(** E_i,last - E_last,i is not in so, unless it is 0. *)
Lemma so_Us n i : odd n -> (i < n - 1)%N -> ~ in_so (E' n i (n - 1) - E' n (n - 1) i).
Proof.
move=> o hi; rewrite /in_so => /matrixP H.
have e := odd_double_half n; rewrite o in e.
have hn : (n - 1 < n)%N by lia.
have hi' : (i < n)%N by lia.
have [p [hp pp pi]] : exists p, [/\ (p < n)%N, partner n i p & (p != i) && (p != n - 1)%N].
  have [h|h] := ltnP i n./2.
    by exists (n./2 + i)%N; rewrite partner_lo ?eqxx //; [split=> //; lia|lia].
  have [j hj] : exists j, i = (n./2 + j)%N by exists (i - n./2)%N; lia.
  by exists j; rewrite hj partner_hi ?eqxx; [split=> //; lia|lia|lia].
have := H (Ordinal hn) (Ordinal hp).
rewrite linearB /= mulmxBl mulmxBr !mxE.
have := form_l (n - 1)%N hi' (Ordinal hn) (Ordinal hp); have := form_l i hn (Ordinal hn) (Ordinal hp).
have := form_r (n - 1)%N hi' (Ordinal hn) (Ordinal hp); have := form_r i hn (Ordinal hn) (Ordinal hp).
rewrite !mxE => -> -> -> -> /=.
have [/negbTE-> /negbTE->] : p != i /\ (p != n - 1)%N by case/andP: pi.
rewrite pp eqxx !andbF /= (_ : (n - 1 == i)%N = false) /=; last by lia.
by rewrite subrr !subr0 addr0 => /eqP; rewrite oner_eq0.
Qed.

(** Linear combinations. *)
Lemma span_mem n (l : seq 'M[R]_n) X : X \in l -> spanned l X.
Proof.
move=> h; exists (fun i => (i == index X l)%:R); have hi : (index X l < size l)%N by rewrite index_mem.
rewrite (bigD1 (Ordinal hi)) //= eqxx scale1r nth_index // big1 ?addr0 // => k hk.
by rewrite (_ : (k == index X l :> nat) = false) ?scale0r //; apply/negbTE.
Qed.
Lemma span0 n (l : seq 'M[R]_n) : spanned l 0.
Proof. by exists (fun => 0); rewrite big1 // => i _; rewrite scale0r. Qed.
Lemma spanD n (l : seq 'M[R]_n) X Y : spanned l X -> spanned l Y -> spanned l (X + Y).
Proof.
move=> [c ->] [d ->]; exists (fun i => c i + d i); rewrite -big_split.
by apply: eq_bigr => i _; rewrite scalerDl.
Qed.
Lemma spanZ n (l : seq 'M[R]_n) a X : spanned l X -> spanned l (a *: X).
Proof. by move=> [c ->]; exists (fun i => a * c i); rewrite scaler_sumr; apply: eq_bigr => i _; rewrite scalerA. Qed.
Lemma span_sum n (l : seq 'M[R]_n) (T : eqType) (s : seq T) (F : T -> 'M[R]_n) :
  (forall x, x \in s -> spanned l (F x)) -> spanned l (\sum_(x <- s) F x).
Proof.
move=> H; rewrite big_seq; elim/big_ind: _ => [|X Y|//]; [exact: span0|exact: spanD].
Qed.

(** The partner of a basis vector, for even n. *)
Section Star.
Variable n : nat.
Hypothesis o : ~~ odd n.
Definition star (a : 'I_n) : 'I_n := insubd a (if (a < n./2)%N then n./2 + a else a - n./2)%N.
Lemma val_star (a : 'I_n) : star a = (if (a < n./2)%N then n./2 + a else a - n./2)%N :> nat.
Proof.
have e := odd_double_half n; rewrite (negbTE o) in e; have ha := ltn_ord a.
rewrite /star val_insubd; case: (a < n./2)%N / idP => h; rewrite ifT //; lia.
Qed.
Lemma partner_star (a b : 'I_n) : partner n a b = (b == star a).
Proof.
have e := odd_double_half n; rewrite (negbTE o) in e; have ha := ltn_ord a; have hb := ltn_ord b.
rewrite -val_eqE /= val_star /partner (negbTE o) /= orbF.
by case: (ltnP a n./2) => h /=; lia.
Qed.
Lemma starK : involutive star.
Proof.
move=> a; apply: val_inj; rewrite /= !val_star.
have e := odd_double_half n; rewrite (negbTE o) in e; have ha := ltn_ord a.
by case: (ltnP a n./2) => h /=; case: ltnP; lia.
Qed.

Lemma so_entry (X : 'M[R]_n) (a b : 'I_n) : in_so X -> X a b = - X (star b) (star a).
Proof.
move=> /matrixP/(_ (star a) b); rewrite !mxE (bigD1 (star b)) //= big1 => [|k hk]; last first.
  by rewrite !mxE partnerC partner_star (negbTE hk) mulr0.
rewrite !mxE partnerC partner_star eqxx mulr1 addr0 (bigD1 a) //= big1 => [|k hk]; last first.
  by rewrite !mxE partner_star starK (negbTE hk) mul0r.
rewrite !mxE partner_star starK eqxx mul1r addr0 => /eqP.
by rewrite addrC addr_eq0 => /eqP.
Qed.

Lemma so_decomp (X : 'M[R]_n) : in_so X ->
  X = \sum_(p <- index_enum [finType of 'I_n * 'I_n])
        (X p.1 p.2 / 2%:R) *: (E' n p.1 p.2 - E' n (star p.2) (star p.1)).
Proof.
move=> so.
have DX : X = \sum_(p : 'I_n * 'I_n) X p.1 p.2 *: E' n p.1 p.2.
  rewrite [LHS]matrix_sum_delta pair_big /=; apply: eq_bigr => -[i j] _ /=; congr (_ *: _).
  by apply/matrixP => a b; rewrite !mxE.
have DX' : X = - \sum_(p : 'I_n * 'I_n) X p.1 p.2 *: E' n (star p.2) (star p.1).
  rewrite [LHS]DX -sumrN.
  rewrite (reindex_inj (h := fun p : 'I_n * 'I_n => (star p.2, star p.1))) /=; last first.
    by move=> [i j] [k l] /= [/(inv_inj starK)-> /(inv_inj starK)->].
  by apply: eq_bigr => -[i j] _ /=; rewrite -scaleNr; congr (_ *: _); rewrite [in RHS](so_entry i j so) opprK.
have -> : \sum_(p <- index_enum [finType of 'I_n * 'I_n])
    (X p.1 p.2 / 2%:R) *: (E' n p.1 p.2 - E' n (star p.2) (star p.1)) =
  2%:R^-1 *: (\sum_(p : 'I_n * 'I_n) X p.1 p.2 *: E' n p.1 p.2
              - \sum_(p : 'I_n * 'I_n) X p.1 p.2 *: E' n (star p.2) (star p.1)).
  by rewrite -sumrB scaler_sumr; apply: eq_bigr => p _; rewrite -scalerBr scalerA mulrC.
by rewrite -DX -DX' -mulr2n -scaler_nat scalerA mulVf ?scale1r // pnatr_eq0.
Qed.

Lemma span_even (X : 'M[R]_n) : in_so X ->
  spanned (Hs n n./2 ++ Xs n n./2 ++ Ys n n./2 ++ Zs n n./2) X.
Proof.
move=> so; rewrite (so_decomp so); apply: span_sum => -[a b] _ /=; apply: spanZ.
have e := odd_double_half n; rewrite (negbTE o) in e; have ha := ltn_ord a; have hb := ltn_ord b.
rewrite !val_star; move: (a : nat) (b : nat) ha hb => i j hi hj.
set L := _ ++ _.
have HX k l : (k < n./2)%N -> (l < n./2)%N -> spanned L (E' n k l - E' n (n./2 + l) (n./2 + k)).
  move=> hk hl; apply: span_mem; rewrite !mem_cat.
  have [<-|kl] := eqVneq k l.
    by apply/orP; left; apply/mapP; exists k; rewrite ?mem_iota // addnC.
  by apply/orP; right; apply/orP; left; apply/mapP; exists (k, l); rewrite ?mem_off //= hk hl.
have [h|h] := ltnP i n./2; have [h'|h'] := ltnP j n./2.
- exact: HX.
- have [->|ne] := eqVneq i (j - n./2)%N.
    by rewrite (_ : n./2 + (j - n./2) = j)%N ?subrr; [exact: span0|lia].
  apply: span_mem; rewrite !mem_cat; apply/or4P; constructor 3; apply/mapP; exists (i, j - n./2)%N.
    by rewrite mem_off; lia.
  by rewrite /= (_ : n./2 + (j - n./2) = j)%N //; lia.
- have [ne|ne] := eqVneq (i - n./2)%N j.
    by rewrite (_ : n./2 + j = i)%N ?ne ?subrr; [exact: span0|lia].
  apply: span_mem; rewrite !mem_cat; apply/or4P; constructor 4; apply/mapP; exists (i - n./2, j)%N.
    by rewrite mem_off; lia.
  by rewrite /= (_ : n./2 + (i - n./2) = i)%N //; lia.
- rewrite -opprB -scaleN1r; apply: spanZ.
  have := HX (j - n./2)%N (i - n./2)%N.
  have [-> ->] : (n./2 + (i - n./2) = i /\ n./2 + (j - n./2) = j)%N by lia.
  by apply; lia.
Qed.
End Star.
End Lemmas.

(** * Theorems *)
Section Theorems.
Variable R : numFieldType.

(** n < 3 is refused, and there is a mistake for n = 3: np.stack gets an empty list. *)
Theorem C57_small n : (n < 3)%N -> son_adjoint R n = Err AssertionError.
Proof. by move=> h; rewrite /son_adjoint /passert ifF //; lia. Qed.
Theorem C57_three_refuted : son_adjoint R 3 = Err ValueError.
Proof. by rewrite /son_adjoint /adjoint_generators. Qed.

(** For even n the generators are in so(n) and span it; there are no discrete ones. *)
Theorem C57_even n : ~~ odd n -> (3 < n)%N -> exists2 l, son_adjoint R n = Ok (l, [::]) &
  (forall X, X \in l -> in_so X) /\ (forall X, in_so X -> spanned l X).
Proof.
move=> o h; eexists; first exact: evenE.
by split=> X; [exact: so_common|exact: span_even].
Qed.
(** They are not a basis: there are more of them than the dimension n(n-1)/2 of so(n),
    because each Y and each Z occurs twice, up to its sign. *)
Theorem C57_dependent_refuted n l : ~~ odd n -> (3 < n)%N -> son_adjoint R n = Ok (l, [::]) ->
  ('C(n, 2) < size l)%N /\
  exists i j : nat, [/\ (i < size l)%N, (j < size l)%N, i <> j, nth 0 l i <> 0 & nth 0 l i = - nth 0 l j].
Proof.
move=> o h; rewrite evenE // => -[<-].
have e := odd_double_half n; rewrite (negbTE o) in e.
have m1 : (1 < n./2)%N by lia.
split.
  rewrite !size_cat !size_map !size_off size_iota bin2.
  move: e; case: n./2 m1 {o h} => [//|m] m1 <-; rewrite add0n; have -> : (m.+1.*2 * m.+1.*2.-1)./2 = (m.+1 * m.+1.*2.-1)%N.
    by rewrite -doubleMl doubleK.
  rewrite -muln2; nia.
have y01 : ((0, 1) \in off n./2)%N by rewrite mem_off; lia.
have y10 : ((1, 0) \in off n./2)%N by rewrite mem_off; lia.
set P := Hs R n n./2 ++ Xs R n n./2; set Q := Zs R n n./2.
have -> : Hs R n n./2 ++ Xs R n n./2 ++ Ys R n n./2 ++ Q = P ++ Ys R n n./2 ++ Q by rewrite /P catA.
clearbody P Q.
have I p : p \in off n./2 -> (index p (off n./2) < size (Ys R n n./2))%N by rewrite size_map index_mem.
have N p : p \in off n./2 -> nth 0 (P ++ Ys R n n./2 ++ Q) (size P + index p (off n./2)) =
    E' R n p.1 (n./2 + p.2) - E' R n p.2 (n./2 + p.1).
  move=> hp; rewrite nth_cat ltnNge leq_addr /= addKn nth_cat I // (nth_map (0%N, 0%N)) ?index_mem //.
  by rewrite nth_index.
exists (size P + index (0, 1)%N (off n./2))%N, (size P + index (1, 0)%N (off n./2))%N.
rewrite !N //= !size_cat; have i1 := I _ y01; have i2 := I _ y10; split.
- by rewrite ltn_add2l (leq_trans i1) ?leq_addr.
- by rewrite ltn_add2l (leq_trans i2) ?leq_addr.
- move/addnI => ei; have := nth_index (0, 0)%N y01; rewrite ei nth_index //.
- have h0 : (0 < n)%N by lia.
  have h1 : (n./2 + 1 < n)%N by lia.
  move=> /matrixP/(_ (Ordinal h0) (Ordinal h1)); rewrite !mxE /= !eqxx /= subr0 => /eqP.
  by rewrite oner_eq0.
- by rewrite opprB.
Qed.

(** For odd n > 3 the generators Us are wrong: the n - 1 first of them are not in so(n).
    The other ones are. *)
Theorem C57_odd_refuted n : odd n -> (4 < n)%N ->
  exists A U V : seq 'M[R]_n,
    [/\ son_adjoint R n = Ok (A ++ U ++ V, [::]), size U = n,
        forall X, X \in A ++ V -> in_so X &
        forall i, (i < n)%N -> (i < n - 1)%N <-> ~ in_so (nth 0 U i)].
Proof.
move=> o h; exists (Hs R n n./2 ++ Xs R n n./2 ++ Ys R n n./2 ++ Zs R n n./2), (Us R n), (Vs R n n./2).
split; first by rewrite oddE // -!catA.
- by rewrite size_map size_iota.
- move=> X; rewrite mem_cat => /orP[]; [exact: so_common|exact: so_Vs].
- move=> i hi; rewrite (nth_map 0%N) ?size_iota // nth_iota // add0n; split; first exact: so_Us.
  move=> H; rewrite ltnNge; apply/negP => hi'; apply: H; rewrite (_ : i = n - 1)%N; last by lia.
  by rewrite subrr /in_so trmx0 mul0mx mulmx0 addr0.
Qed.
Example C57_ex : (exists l, son_adjoint R 6 = Ok (l, [::])) /\ (exists l, son_adjoint R 5 = Ok (l, [::])).
Proof. by split; eexists; [exact: evenE|exact: oddE]. Qed.
End Theorems.
