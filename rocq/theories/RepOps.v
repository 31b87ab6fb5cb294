(** RepOps: group products, changes of basis and of algebra, conjugates,
    trivial factors (C26 - C30). *)
From Coq Require Import ZArith String Ascii.
From mathcomp Require Import all_ssreflect all_algebra.
From mathcomp.real_closed Require Import mxtens.
From mathcomp Require Import zify.
From Verif Require Import Base McRing Nd NdProofs Reps RepSpec RepProofs RepPower Pinv.

Set Implicit Arguments.
Unset Strict Implicit.
Unset Printing Implicit Defensive.

Import GRing.Theory Num.Theory.
Local Open Scope ring_scope.
Local Open Scope string_scope.

Section Ops.
Variable C : numClosedFieldType.

(** ** Group products *)

(** Theory of the product group: block structure constants, the relations of
    both factors, and commuting discrete generators; a discrete generator of one
    factor acts on its own Lie algebra only. *)
Definition prod_theory (T1 T2 : theory C) : theory C :=
  let l1 := th_l T1 in let h1 := th_h T1 in
  Theory (l1 + th_l T2) (h1 + th_h T2)
    (fun i j k => if [&& i < l1, j < l1 & k < l1]%N then th_A T1 i j k
                  else if [&& l1 <= i, l1 <= j & l1 <= k]%N then th_A T2 (i - l1)%N (j - l1)%N (k - l1)%N
                  else 0)
    (fun u v =>
      [\/ th_rel T1 u v /\ all (fun b => b < h1)%N (u ++ v),
          exists u' v', [/\ th_rel T2 u' v', u = map (addn h1) u' & v = map (addn h1) v']
        | exists b c, [/\ (b < h1)%N, u = [:: b; (h1 + c)%N] & v = [:: (h1 + c)%N; b]]])
    (fun c => exists c1 c2, [/\ th_adj T1 c1, th_adj T2 c2 & forall b i j, c b i j =
        if (b < h1)%N then
          if (i < l1)%N then (if (j < l1)%N then c1 b i j else 0) else (i == j)%:R
        else if (i < l1)%N then (i == j)%:R
          else if (j < l1)%N then 0 else c2 (b - h1)%N (i - l1)%N (j - l1)%N]).

(** Generator a of the product: of the first factor for a < n, else of the second. *)
Definition prodM n d1 d2 (X1 : nat -> 'M[C]_d1) (X2 : nat -> 'M[C]_d2) (a : nat) : 'M[C]_(d1 * d2) :=
  if (a < n)%N then X1 a *t 1%:M else 1%:M *t X2 (a - n)%N.

Lemma prodM_l n d1 d2 X1 X2 a : (a < n)%N -> @prodM n d1 d2 X1 X2 a = X1 a *t 1%:M.
Proof. by rewrite /prodM => ->. Qed.
Lemma prodM_r n d1 d2 X1 X2 a : @prodM n d1 d2 X1 X2 (n + a) = 1%:M *t X2 a.
Proof. by rewrite /prodM ltnNge leq_addr /= addKn. Qed.

Lemma is_mrep_prod T1 T2 d1 d2 X1 H1 X2 H2 : @is_mrep C T1 d1 X1 H1 -> @is_mrep C T2 d2 X2 H2 ->
  is_mrep (prod_theory T1 T2) (prodM (th_l T1) X1 X2) (prodM (th_h T1) H1 H2).
Proof.
move=> [a1 b1 c1] [a2 b2 c2]; split=> /=.
- move=> i j hi hj.
  rewrite big_split_ord /=.
  case: (ltnP i (th_l T1)) => li; case: (ltnP j (th_l T1)) => lj.
  + rewrite !prodM_l // !tensmx_mul mulmx1 -tensNl -tensDl a1 // tens_suml.
    rewrite [X in _ = _ + X]big1 ?addr0; last first.
      by move=> k _; rewrite ltnNge leq_addr /= scale0r.
    by apply: eq_bigr => k _; rewrite ltn_ord /= prodM_l // tensZl.
  + have -> : j = (th_l T1 + (j - th_l T1))%N by lia.
    rewrite prodM_l // prodM_r !tensmx_mul !mulmx1 !mul1mx subrr.
    by rewrite !big1 ?addr0 // => k _; rewrite /= ?andbF /= scale0r.
  + have -> : i = (th_l T1 + (i - th_l T1))%N by lia.
    rewrite (prodM_l _ _ lj) prodM_r !tensmx_mul !mulmx1 !mul1mx subrr.
    by rewrite !big1 ?addr0 // => k _; rewrite /= ?andbF /= scale0r.
  + have ei : i = (th_l T1 + (i - th_l T1))%N by lia.
    have ej : j = (th_l T1 + (j - th_l T1))%N by lia.
    rewrite {1 2}ei {1 2}ej !prodM_r !tensmx_mul mulmx1 -tensNr -tensDr a2; try lia.
    rewrite tens_sumr [X in _ = X + _]big1 ?add0r; last first.
      by move=> k _; rewrite (leqNgt _ k) (ltn_ord k) /= ?andbF scale0r.
    by apply: eq_bigr => k _; rewrite leq_addr /= addKn prodM_r tensZr.
- have wl w : all (fun b => b < th_h T1)%N w -> word (prodM (th_h T1) H1 H2) w = word H1 w *t 1%:M.
    elim: w => [_|b w IH] /=; first by rewrite tens1.
    by move=> /andP[hb hw]; rewrite IH // prodM_l // tensmx_mul mulmx1.
  have wr w : word (prodM (th_h T1) H1 H2) (map (addn (th_h T1)) w) = 1%:M *t word H2 w.
    elim: w => [|b w IH] /=; first by rewrite tens1.
    by rewrite IH // prodM_r // tensmx_mul mulmx1.
  move=> u v [[r al]|[u' [v' [r -> ->]]]|[b [c [hb -> ->]]]] hw.
  + by move: (al); rewrite all_cat => /andP[??]; rewrite !wl // (b1 _ _ r).
  + rewrite !wr (b2 _ _ r) //; move: hw; rewrite -map_cat all_map; apply: sub_all => x /=; rewrite ltn_add2l //.
  + by rewrite /= !mulmx1 prodM_l // prodM_r !tensmx_mul !mulmx1 !mul1mx.
- move=> c [k1 [k2 [q1 q2 e]]] b i hb hi.
  rewrite big_split_ord /= mulmxDl.
  case: (ltnP b (th_h T1)) => lb; case: (ltnP i (th_l T1)) => li.
  + rewrite [X in _ = _ + X]mulmx_suml [X in _ = _ + X]big1 ?addr0; last first.
      by move=> j _; rewrite e lb li ltnNge leq_addr /= scale0r mul0mx.
    rewrite !prodM_l // tensmx_mul (c1 _ q1) // mulmx_suml tens_suml mulmx_suml; apply: eq_bigr => j _.
    by rewrite e lb li ltn_ord prodM_l // -!scalemxAl tensmx_mul mulmx1 tensZl.
  + rewrite [X in _ = X + _]mulmx_suml [X in _ = X + _]big1 ?add0r; last first.
      move=> j _; rewrite e lb ltnNge li /=; have /negbTE-> : i != j by have := ltn_ord j; lia.
      by rewrite scale0r mul0mx.
    have ei : i = (th_l T1 + (i - th_l T1))%N by lia.
    have hk : (i - th_l T1 < th_l T2)%N by lia.
    rewrite (bigD1 (Ordinal hk)) //= big1 ?addr0; last first.
      move=> j /eqP ne; rewrite e lb ltnNge li /=; case: eqP => [q|_]; last by rewrite scale0r.
      by case: ne; apply: val_inj => /=; rewrite q addKn.
    rewrite -ei e lb ltnNge li /= eqxx scale1r ei prodM_l // prodM_r !tensmx_mul !mulmx1 !mul1mx //.
  + rewrite [X in _ = _ + X]mulmx_suml [X in _ = _ + X]big1 ?addr0; last first.
      move=> j _; rewrite e ltnNge lb /= li; have /negbTE-> : i != (th_l T1 + j)%N by lia.
      by rewrite scale0r mul0mx.
    rewrite (bigD1 (Ordinal li)) //= big1 ?addr0; last first.
      move=> j /eqP ne; rewrite e ltnNge lb /= li; case: eqP => [q|_]; last by rewrite scale0r.
      by case: ne; apply: val_inj.
    have eb : b = (th_h T1 + (b - th_h T1))%N by lia.
    by rewrite e ltnNge lb /= li eqxx scale1r eb prodM_r prodM_l // !tensmx_mul !mulmx1 !mul1mx.
  + rewrite [X in _ = X + _]mulmx_suml [X in _ = X + _]big1 ?add0r; last first.
      by move=> j _; rewrite e ltnNge lb /= ltnNge li /= ltn_ord scale0r mul0mx.
    have eb : b = (th_h T1 + (b - th_h T1))%N by lia.
    have ei : i = (th_l T1 + (i - th_l T1))%N by lia.
    have -> : prodM (th_h T1) H1 H2 b = 1%:M *t H2 (b - th_h T1)%N by rewrite {1}eb prodM_r.
    have -> : prodM (th_l T1) X1 X2 i = 1%:M *t X2 (i - th_l T1)%N by rewrite {1}ei prodM_r.
    rewrite tensmx_mul mulmx1 (c2 _ q2); try lia.
    rewrite mulmx_suml tens_sumr mulmx_suml; apply: eq_bigr => j _.
    by rewrite e ltnNge lb /= ltnNge li /= ltnNge leq_addr /= addKn prodM_r -!scalemxAl tensmx_mul mulmx1 tensZr.
Qed.

Lemma gp_half1 l d1 d2 (X1 : nd C) : shape X1 = [:: l; d1; d1] ->
  exists c, (do a <- einsum2 "aij" "kl" "aikjl" X1 (eye d2); reshape a [:: l; (d1 * d2)%N; (d1 * d2)%N]) = Ok c /\
  shape c = [:: l; (d1 * d2)%N; (d1 * d2)%N] /\
  forall x, (x < l)%N -> mx3 (d1 * d2) (d1 * d2) c x = mx3 d1 d1 X1 x *t 1%:M.
Proof.
move=> e1.
have [a [-> [sa ga]]] := einsum_aij_kl e1 (erefl (shape (eye d2))); rewrite /=.
have [|c ec] := @reshape_ok _ a [:: l; (d1 * d2)%N; (d1 * d2)%N]; first by rewrite sa nprod_split2.
exists c; split=> //.
apply: (mx3_tens1 (f := fun x i j => get X1 [:: x; i; j]) (g := fun x k o => (k == o)%:R) sa ec).
- by move=> *; rewrite ga.
- by move=> *; rewrite mxE.
- by move=> *; rewrite mxE.
Qed.
Lemma gp_half2 l d1 d2 (X2 : nd C) : shape X2 = [:: l; d2; d2] ->
  exists c, (do a <- einsum2 "ij" "akl" "aikjl" (eye d1) X2; reshape a [:: l; (d1 * d2)%N; (d1 * d2)%N]) = Ok c /\
  shape c = [:: l; (d1 * d2)%N; (d1 * d2)%N] /\
  forall x, (x < l)%N -> mx3 (d1 * d2) (d1 * d2) c x = 1%:M *t mx3 d2 d2 X2 x.
Proof.
move=> e1.
have [a [-> [sa ga]]] := einsum_ij_akl (erefl (shape (eye d1))) e1; rewrite /=.
have [|c ec] := @reshape_ok _ a [:: l; (d1 * d2)%N; (d1 * d2)%N]; first by rewrite sa nprod_split2.
exists c; split=> //.
apply: (mx3_tens1 (f := fun x i j => (i == j)%:R) (g := fun x k o => get X2 [:: x; k; o]) sa ec).
- by move=> *; rewrite ga.
- by move=> *; rewrite mxE.
- by move=> *; rewrite mxE.
Qed.

(** Writing the two stacks into the two parts of a zero array. *)
Lemma gp_assign l1 l2 d (x1 x2 : nd C) a : shape x1 = [:: l1; d; d] -> shape x2 = [:: l2; d; d] -> (a < l1 + l2)%N ->
  mx3 d d (assign_block (assign_block (zeros [:: (l1 + l2)%N; d; d]) [:: 0; 0; 0]%N x1) [:: l1; 0; 0]%N x2) a
  = if (a < l1)%N then mx3 d d x1 a else mx3 d d x2 (a - l1)%N.
Proof.
move=> s1 s2 lt; apply/matrixP=> i j; rewrite mxE /assign_block /in_block /= s1 s2 /= !add0n !subn0 !ltn_ord /= !andbT.
by case: (ltnP a l1) => h; rewrite ?lt mxE ?subn0.
Qed.

Theorem group_product_ok T1 T2 d1 d2 (r1 r2 : rep C) : is_rep T1 d1 r1 -> is_rep T2 d2 r2 ->
  exists r, group_product r1 r2 = Ok r /\ is_rep (prod_theory T1 T2) (d1 * d2) r /\
  (forall i, (i < th_l T1 + th_l T2)%N -> mx3 (d1 * d2) (d1 * d2) (rX r) i = prodM (th_l T1) (mx3 d1 d1 (rX r1)) (mx3 d2 d2 (rX r2)) i) /\
  (forall b, (b < th_h T1 + th_h T2)%N -> mx3 (d1 * d2) (d1 * d2) (rH r) b = prodM (th_h T1) (mx3 d1 d1 (rH r1)) (mx3 d2 d2 (rH r2)) b).
Proof.
move=> h1 h2; rewrite /group_product /lie_dim (ir_sA h1) (ir_sA h2) !eqxx /= /dim (ir_sX h1) (ir_sX h2) /= /len0 (ir_sH h1) (ir_sH h2) /=.
have [X1 [+ [sX1 eX1]]] := gp_half1 d2 (ir_sX h1).
have [X2 [+ [sX2 eX2]]] := gp_half2 d1 (ir_sX h2).
have [H1 [+ [sH1 eH1]]] := gp_half1 d2 (ir_sH h1).
have [H2 [+ [sH2 eH2]]] := gp_half2 d1 (ir_sH h2).
case: (einsum2 "ij" "akl" "aikjl" _ (rH r2)) => [a|//] /= E1.
case: (einsum2 "aij" "kl" "aikjl" (rH r1) _) => [b|//] /= E2.
case: (einsum2 "ij" "akl" "aikjl" _ (rX r2)) => [c|//] /= E3.
case: (einsum2 "aij" "kl" "aikjl" (rX r1) _) => [d|//] /= E4.
rewrite E4 /= E3 /= E2 /= E1 /=.
eexists; split; first by [].
set r := MkRep _ _ _.
have gX i : (i < th_l T1 + th_l T2)%N -> mx3 (d1 * d2) (d1 * d2) (rX r) i = prodM (th_l T1) (mx3 d1 d1 (rX r1)) (mx3 d2 d2 (rX r2)) i.
  move=> hi; rewrite /r /= gp_assign // /prodM; case: ltnP => hh; rewrite ?eX1 // eX2 //; lia.
have gH i : (i < th_h T1 + th_h T2)%N -> mx3 (d1 * d2) (d1 * d2) (rH r) i = prodM (th_h T1) (mx3 d1 d1 (rH r1)) (mx3 d2 d2 (rH r2)) i.
  move=> hi; rewrite /r /= gp_assign // /prodM; case: ltnP => hh; rewrite ?eH1 // eH2 //; lia.
split=> //; split=> //; last first.
  by apply: is_mrep_ext (is_mrep_prod (ir_m h1) (ir_m h2)) => i hi; rewrite ?gX ?gH.
move=> i j k /= hi hj hk; rewrite /assign_block /in_block /= (ir_sA h1) (ir_sA h2) /= !add0n !subn0 !andbT hi hj hk !andbT.
case: (ltnP i) => hi'; case: (ltnP j) => hj'; case: (ltnP k) => hk' //=; rewrite ?(ir_A h1) ?(ir_A h2) //; lia.
Qed.

Theorem tip_rep_ok T1 T2 d1 d2 (r1 r2 : rep C) : is_rep T1 d1 r1 -> is_rep T2 d2 r2 ->
  tip_rep r1 r2 = group_product r1 r2.
Proof.
move=> h1 h2; rewrite /group_product /tip_rep /tip_algebra /tip_X /tip_H /tip_dim /tip_algebra /lie_dim (ir_sA h1) (ir_sA h2) !eqxx /= /dim (ir_sX h1) (ir_sX h2) /= /len0 (ir_sH h1) (ir_sH h2) /=.
case: (einsum2 "aij" "kl" "aikjl" (rX r1) _) => [a|//] /=.
case: (reshape a _) => [x1|//] /=.
case: (einsum2 "ij" "akl" "aikjl" _ (rX r2)) => [b|//] /=.
case: (reshape b _) => [x2|//] /=.
case: (einsum2 "aij" "kl" "aikjl" (rH r1) _) => [c|//] /=.
case: (reshape c _) => [y1|//] /=.
case: (einsum2 "ij" "akl" "aikjl" _ (rH r2)) => [e|//] /=.
by case: (reshape e _).
Qed.

Theorem group_product3_ok T1 T2 T3 d1 d2 d3 (r1 r2 r3 : rep C) :
  is_rep T1 d1 r1 -> is_rep T2 d2 r2 -> is_rep T3 d3 r3 ->
  exists r, group_product3 r1 r2 r3 = Ok r /\ is_rep (prod_theory (prod_theory T1 T2) T3) (d1 * d2 * d3) r.
Proof.
move=> h1 h2 h3; have [r [e [h _]]] := group_product_ok h1 h2; rewrite /group_product3 e /=.
by have [r' [e' [h' _]]] := group_product_ok h h3; exists r'.
Qed.

(** ** Changes of basis *)
Lemma matmul_2_3 l m n (Q X : nd C) : shape Q = [:: m; n] -> shape X = [:: l; n; n] ->
  exists c, matmul Q X = Ok c /\ shape c = [:: l; m; n] /\
  forall x, (x < l)%N -> mx3 m n c x = mx2 m n Q *m mx3 n n X x.
Proof.
move=> sQ sX; rewrite /matmul sQ sX /= eqxx /= /bshape /=; eexists; split; first by [].
split=> // x hx; apply/matrixP=> i j; rewrite !mxE /=; apply: eq_bigr => k _.
by rewrite !mxE /bidx /= bidx1.
Qed.
Lemma matmul_3_2 l m n p (Q X : nd C) : shape Q = [:: n; p] -> shape X = [:: l; m; n] ->
  exists c, matmul X Q = Ok c /\ shape c = [:: l; m; p] /\
  forall x, (x < l)%N -> mx3 m p c x = mx3 m n X x *m mx2 n p Q.
Proof.
move=> sQ sX; rewrite /matmul sQ sX /= eqxx /= /bshape /=; eexists; split; first by [].
split=> // x hx; apply/matrixP=> i j; rewrite !mxE /=; apply: eq_bigr => k _.
by rewrite !mxE /bidx /= bidx1.
Qed.

Lemma mx2_of_mx m n (M : 'M[C]_(m, n)) : mx2 m n (nd_of_mx M) = M.
Proof. by apply/matrixP=> i j; rewrite mxE /= !insubT /= ?ltn_ord // => ? ?; congr (M _ _); apply: val_inj. Qed.

(** The relations compare two nonempty words. *)
Definition nonempty_rel (T : theory C) : Prop := forall u v, th_rel T u v -> u <> [::] /\ v <> [::].

Lemma is_mrep_conj T d d' (Q : 'M[C]_(d', d)) (P : 'M[C]_(d, d')) X H :
  P *m Q = 1%:M -> Q *m P = 1%:M \/ nonempty_rel T -> is_mrep T X H ->
  is_mrep T (fun i => Q *m X i *m P) (fun b => Q *m H b *m P).
Proof.
move=> PQ full [a b c].
have cj (M N : 'M[C]_d) : Q *m M *m P *m (Q *m N *m P) = Q *m (M *m N) *m P.
  by rewrite -!mulmxA [P *m (Q *m _)]mulmxA PQ mul1mx.
have sm n (k : 'I_n -> C) (Y : 'I_n -> 'M[C]_d) : Q *m (\sum_i k i *: Y i) *m P = \sum_i k i *: (Q *m Y i *m P).
  by rewrite mulmx_sumr mulmx_suml; apply: eq_bigr => i _; rewrite -scalemxAr -scalemxAl.
have wd w : word (fun b => Q *m H b *m P) w = if w is [::] then 1%:M else Q *m word H w *m P.
  elim: w => [//|x w IH] /=; rewrite IH; case: w {IH} => [|y w]; first by rewrite /= !mulmx1.
  by rewrite cj.
split.
- by move=> i j hi hj; rewrite !cj -mulmxBl -mulmxBr a // sm.
- move=> u v r hw; rewrite !wd; case: full => [QP|/(_ _ _ r)[]]; last first.
    by case: u r hw => [//|x u] r hw _; case: v r hw => [//|y v] r hw _; rewrite (b _ _ r hw).
  have E w : (if w is [::] then 1%:M else Q *m word H w *m P) = Q *m word H w *m P.
    by case: w => //; rewrite mulmx1 QP.
  by rewrite !E (b _ _ r hw).
- by move=> k hk x i hx hi; rewrite cj (c k) // -cj sm.
Qed.

Theorem change_basis_ok T d d' (r : rep C) (Q : nd C) : is_rep T d r -> shape Q = [:: d'; d] ->
  row_full (mx2 d' d Q) -> d' = d \/ nonempty_rel T ->
  exists r', change_basis r Q = Ok r' /\ is_rep T d' r' /\ rA r' = rA r /\
  (forall i, (i < th_l T)%N -> mx3 d' d' (rX r') i = mx2 d' d Q *m mx3 d d (rX r) i *m pinv_mx (mx2 d' d Q)) /\
  (forall b, (b < th_h T)%N -> mx3 d' d' (rH r') b = mx2 d' d Q *m mx3 d d (rH r) b *m pinv_mx (mx2 d' d Q)).
Proof.
move=> h sQ fu dd; rewrite /change_basis /np_pinv sQ /=.
set P := nd_of_mx _.
have [a [-> [sa ea]]] := matmul_2_3 sQ (ir_sX h); rewrite /=.
have [X [-> [sX eX]]] := matmul_3_2 (erefl : shape P = _) sa; rewrite /=.
have [b [-> [sb eb]]] := matmul_2_3 sQ (ir_sH h); rewrite /=.
have [H [-> [sH eH]]] := matmul_3_2 (erefl : shape P = _) sb; rewrite /=.
eexists; split; first by [].
have gX i : (i < th_l T)%N -> mx3 d' d' X i = mx2 d' d Q *m mx3 d d (rX r) i *m pinv_mx (mx2 d' d Q).
  by move=> hi; rewrite eX // ea // mx2_of_mx.
have gH i : (i < th_h T)%N -> mx3 d' d' H i = mx2 d' d Q *m mx3 d d (rH r) i *m pinv_mx (mx2 d' d Q).
  by move=> hi; rewrite eH // eb // mx2_of_mx.
split=> //; split=> //=; [exact: ir_sA h|exact: ir_A h|].
have PQ := pinv_left fu.
have full : mx2 d' d Q *m pinv_mx (mx2 d' d Q) = 1%:M \/ nonempty_rel T.
  case: dd => [e|]; last by right.
  left; apply: pinv_right; move: fu; clear -e; move: (mx2 d' d Q); rewrite e => M.
  by rewrite row_free_unit row_full_unit.
by apply: is_mrep_ext (is_mrep_conj PQ full (ir_m h)) => i hi; rewrite ?gX ?gH.
Qed.

(** Q intertwines the old and the new representation. *)
Theorem change_basis_intertwines T d d' (r r' : rep C) (Q : nd C) : is_rep T d r -> shape Q = [:: d'; d] ->
  row_full (mx2 d' d Q) -> d' = d \/ nonempty_rel T -> change_basis r Q = Ok r' ->
  (forall i, (i < th_l T)%N -> mx3 d' d' (rX r') i *m mx2 d' d Q = mx2 d' d Q *m mx3 d d (rX r) i) /\
  (forall b, (b < th_h T)%N -> mx3 d' d' (rH r') b *m mx2 d' d Q = mx2 d' d Q *m mx3 d d (rH r) b).
Proof.
move=> h sQ fu dd e; have [r2 [e2 [_ [_ [eX eH]]]]] := change_basis_ok h sQ fu dd.
move: e; rewrite e2 => -[<-]; split=> i hi; rewrite ?eX ?eH // -mulmxA pinv_left ?mulmx1 //.
Qed.

(** An invertible Q, then an injective Q': the change by Q' Q. *)
Theorem change_basis_comp T d d' (r r1 r2 r3 : rep C) (Q Q' QQ : nd C) : is_rep T d r ->
  shape Q = [:: d; d] -> mx2 d d Q \in unitmx -> shape Q' = [:: d'; d] -> row_full (mx2 d' d Q') ->
  d' = d \/ nonempty_rel T ->
  matmul Q' Q = Ok QQ -> change_basis r Q = Ok r1 -> change_basis r1 Q' = Ok r2 -> change_basis r QQ = Ok r3 ->
  [/\ rA r2 = rA r3, nd_eq (rX r2) (rX r3) & nd_eq (rH r2) (rH r3)].
Proof.
move=> h sQ uQ sQ' fQ' dd eQQ e1 e2 e3.
have fQ : row_full (mx2 d d Q) by rewrite row_full_unit.
have [t1 [q1 [i1 [A1 [X1 H1]]]]] := change_basis_ok h sQ fQ (or_introl erefl).
move: q1; rewrite e1 => -[q1]; rewrite -{t1}q1 in i1 A1 X1 H1.
have [t2 [q2 [i2 [A2 [X2 H2]]]]] := change_basis_ok i1 sQ' fQ' dd.
move: q2; rewrite e2 => -[q2]; rewrite -{t2}q2 in i2 A2 X2 H2.
have [sQQ mQQ] : shape QQ = [:: d'; d] /\ mx2 d' d QQ = mx2 d' d Q' *m mx2 d d Q.
  move: eQQ; rewrite /matmul sQ sQ' /= eqxx /= => -[<-]; split=> //.
  by apply/matrixP=> i j; rewrite !mxE /=; apply: eq_bigr => k _; rewrite !mxE.
have fQQ : row_full (mx2 d' d QQ) by rewrite mQQ; case/row_fullP: fQ' => B hB; apply/row_fullP; exists (invmx (mx2 d d Q) *m B); rewrite mulmxA -(mulmxA _ B) hB mulmx1 mulVmx.
have [t3 [q3 [i3 [A3 [X3 H3]]]]] := change_basis_ok h sQQ fQQ dd.
move: q3; rewrite e3 => -[q3]; rewrite -{t3}q3 in i3 A3 X3 H3.
have mxnd l (a b : nd C) : shape a = [:: l; d'; d'] -> shape b = [:: l; d'; d'] ->
    (forall x, (x < l)%N -> mx3 d' d' a x = mx3 d' d' b x) -> nd_eq a b.
  move=> sa sb q; split; first by rewrite sa sb.
  case=> [|x [|i [|j [|? ?]]]]; rewrite sa // !valid_cons => /and4P[hx hi hj _].
  by rewrite (entry3 _ _ hi hj) (entry3 _ _ hi hj) q.
have pe : pinv_mx (mx2 d' d QQ) = invmx (mx2 d d Q) *m pinv_mx (mx2 d' d Q') by rewrite mQQ pinv_mulr.
split; first by rewrite A2 A1 A3.
- apply: (mxnd (th_l T)); [exact: ir_sX i2|exact: ir_sX i3|move=> x hx].
  by rewrite X2 // X3 // X1 // pe mQQ pinv_unit // !mulmxA.
- apply: (mxnd (th_h T)); [exact: ir_sH i2|exact: ir_sH i3|move=> x hx].
  by rewrite H2 // H3 // H1 // pe mQQ pinv_unit // !mulmxA.
Qed.
End Ops.
