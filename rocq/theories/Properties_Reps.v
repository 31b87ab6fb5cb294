(** Properties C23-C30: operations on generic representations. *)
From Coq Require Import ZArith String Ascii.
From mathcomp Require Import all_ssreflect all_algebra.
From mathcomp.real_closed Require Import mxtens.
From mathcomp Require Import zify.
From Verif Require Import Base McRing Nd NdProofs Reps RepSpec RepProofs RepPower Pinv RepOps RepOps2.

Set Implicit Arguments.
Unset Strict Implicit.
Unset Printing Implicit Defensive.

Import Order.Theory GRing.Theory Num.Theory.
Local Open Scope ring_scope.

Section Props.
Variable C : numClosedFieldType.

(** A running example: X = E_01 and H = diag(1, -1), with the relations
    [X, X] = 0, H H = 1 (the empty word) and H X = - X H. *)
Definition ex_rep : rep C :=
  MkRep (zeros [:: 1; 1; 1]%N)
        (Nd [:: 1; 2; 2]%N (fun idx => (idx == [:: 0; 0; 1]%N)%:R))
        (Nd [:: 1; 2; 2]%N (fun idx => if idx == [:: 0; 0; 0]%N then 1 else if idx == [:: 0; 1; 1]%N then -1 else 0)).
Definition ex_theory : theory C :=
  Theory 1 1 (fun _ _ _ => 0) (fun u v => u = [:: 0; 0]%N /\ v = [::]) (fun c => c 0%N 0%N 0%N = -1).
Lemma ex_rep_ok : is_rep ex_theory 2 ex_rep.
Proof.
split=> //; split.
- by move=> [|?] [|?] // _ _; rewrite subrr big_ord1 scale0r.
- move=> u v [-> ->] _ /=; rewrite mulmx1; apply/matrixP=> p q.
  rewrite !mxE !big_ord_recr !big_ord0 /= !mxE /=.
  by case: p => [[|[|p]] hp] //; case: q => [[|[|q]] hq] //=; rewrite ?(mulr0, mul0r, mulr1, mul1r, addr0, add0r, mulrNN).
- move=> c hc [|?] [|?] // _ _; rewrite big_ord1 hc; apply/matrixP=> p q.
  rewrite !mxE !big_ord_recr !big_ord0 /= !mxE /=.
  by case: p => [[|[|p]] hp] //; case: q => [[|[|q]] hq] //=; rewrite ?(mulr0, mul0r, mulr1, mul1r, addr0, add0r, mulrNN).
Qed.

(** ** C23: direct_sum *)
Theorem C23_direct_sum T d1 d2 (r1 r2 : rep C) : is_rep T d1 r1 -> is_rep T d2 r2 ->
  exists r, direct_sum r1 r2 = Ok r /\ is_rep T (d1 + d2) r /\ rA r = rA r1 /\
  (forall i, (i < th_l T)%N -> mx3 (d1 + d2) (d1 + d2) (rX r) i = block_mx (mx3 d1 d1 (rX r1) i) 0 0 (mx3 d2 d2 (rX r2) i)) /\
  (forall i, (i < th_h T)%N -> mx3 (d1 + d2) (d1 + d2) (rH r) i = block_mx (mx3 d1 d1 (rH r1) i) 0 0 (mx3 d2 d2 (rH r2) i)).
Proof. exact: direct_sum_ok. Qed.
(** Structure constants that differ by more than the tolerance in one entry. *)
Theorem C23_algebra_mismatch (r1 r2 : rep C) idx : shape (rA r1) = shape (rA r2) ->
  valid (shape (rA r1)) idx ->
  (10%:R ^+ 8)^-1 + (10%:R ^+ 5)^-1 * `|get (rA r2) idx| < `|get (rA r1) idx - get (rA r2) idx| ->
  direct_sum r1 r2 = Err AssertionError.
Proof.
move=> e v lt; rewrite /direct_sum /close_ allclose_same_shape //.
set b := all _ _; have -> // : b = false.
apply/negbTE/negP => /allP/(_ idx); rewrite mem_all_idx => /(_ v) le.
by have := lt_le_trans lt le; rewrite ltxx.
Qed.
(** Lie algebra dimensions that do not broadcast: np.allclose itself raises. *)
Theorem C23_lie_dim_mismatch T1 T2 d1 d2 (r1 r2 : rep C) : is_rep T1 d1 r1 -> is_rep T2 d2 r2 ->
  th_l T1 <> th_l T2 -> th_l T1 <> 1%N -> th_l T2 <> 1%N -> direct_sum r1 r2 = Err ValueError.
Proof.
move=> h1 h2 n n1 n2; rewrite /direct_sum /close_ /allclose (ir_sA h1) (ir_sA h2) /bshape /=.
by rewrite !(introF eqP).
Qed.
Theorem C23_discrete_mismatch T1 T2 d1 d2 (r1 r2 : rep C) : is_rep T1 d1 r1 -> is_rep T2 d2 r2 ->
  nd_eq (rA r1) (rA r2) -> th_h T1 <> th_h T2 -> direct_sum r1 r2 = Err AssertionError.
Proof.
move=> h1 h2 e n; rewrite /direct_sum /close_ allclose_eq ?invr_ge0 ?exprn_ge0 ?ler0n //=.
by rewrite /len0 (ir_sH h1) (ir_sH h2) /= (introF eqP).
Qed.
Example C23_example : exists r, direct_sum ex_rep ex_rep = Ok r /\ is_rep ex_theory 4 r /\
  get (rX r) [:: 0; 2; 3]%N = 1 /\ get (rX r) [:: 0; 0; 3]%N = 0.
Proof.
have [r [e [h _]]] := C23_direct_sum ex_rep_ok ex_rep_ok; exists r; split=> //; split=> //.
by move: e; rewrite /direct_sum (close_A ex_rep_ok ex_rep_ok) /= => -[<-].
Qed.

(** ** C24: tensor_product *)
Theorem C24_tensor_product T d1 d2 (r1 r2 : rep C) : is_rep T d1 r1 -> is_rep T d2 r2 ->
  exists r, tensor_product r1 r2 = Ok r /\ is_rep T (d1 * d2) r /\ rA r = rA r1.
Proof. by move=> h1 h2; have [r [e [h [eA _]]]] := tensor_product_ok h1 h2; exists r. Qed.
(** The entries, in row-major Kronecker layout. *)
Theorem C24_entries T d1 d2 (r1 r2 r : rep C) : is_rep T d1 r1 -> is_rep T d2 r2 -> tensor_product r1 r2 = Ok r ->
  forall i1 i2 j1 j2, (i1 < d1)%N -> (i2 < d2)%N -> (j1 < d1)%N -> (j2 < d2)%N ->
  (forall a, (a < th_l T)%N -> get (rX r) [:: a; i1 * d2 + i2; j1 * d2 + j2]%N =
     get (rX r1) [:: a; i1; j1] * (i2 == j2)%:R + (i1 == j1)%:R * get (rX r2) [:: a; i2; j2]) /\
  (forall b, (b < th_h T)%N -> get (rH r) [:: b; i1 * d2 + i2; j1 * d2 + j2]%N =
     get (rH r1) [:: b; i1; j1] * get (rH r2) [:: b; i2; j2]).
Proof.
move=> h1 h2 e i1 i2 j1 j2 hi1 hi2 hj1 hj2.
have [r' [e' [_ [_ [eX eH]]]]] := tensor_product_ok h1 h2.
move: e'; rewrite e => -[q]; rewrite -q in eX eH.
have hi : (i1 * d2 + i2 < d1 * d2)%N by nia.
have hj : (j1 * d2 + j2 < d1 * d2)%N by nia.
have d20 : (0 < d2)%N by lia.
split=> a ha; rewrite (entry3 _ _ hi hj) ?eX ?eH // /tensX !mxE -?val_eqE /= !divnMDl // !modnMDl !divn_small // !modn_small // !addn0 //.
Qed.
Theorem C24_discrete_mismatch T1 T2 d1 d2 (r1 r2 : rep C) : is_rep T1 d1 r1 -> is_rep T2 d2 r2 ->
  nd_eq (rA r1) (rA r2) -> th_h T1 <> th_h T2 -> tensor_product r1 r2 = Err AssertionError.
Proof.
move=> h1 h2 e n; rewrite /tensor_product /close_ allclose_eq ?invr_ge0 ?exprn_ge0 ?ler0n //=.
by rewrite /dim (ir_sX h1) (ir_sX h2) /= /len0 (ir_sH h1) (ir_sH h2) /= (introF eqP).
Qed.
Example C24_example : exists r, tensor_product ex_rep ex_rep = Ok r /\ is_rep ex_theory 4 r /\
  get (rX r) [:: 0; 0; 1]%N = 1 /\ get (rX r) [:: 0; 0; 2]%N = 1 /\ get (rH r) [:: 0; 3; 3]%N = 1.
Proof.
have [r [e [h _]]] := C24_tensor_product ex_rep_ok ex_rep_ok; exists r; split=> //; split=> //.
have [X1 _] := C24_entries (i1 := 0) (i2 := 0) (j1 := 0) (j2 := 1) ex_rep_ok ex_rep_ok e erefl erefl erefl erefl.
have [X2 _] := C24_entries (i1 := 0) (i2 := 0) (j1 := 1) (j2 := 0) ex_rep_ok ex_rep_ok e erefl erefl erefl erefl.
have [_ H] := C24_entries (i1 := 1) (i2 := 1) (j1 := 1) (j2 := 1) ex_rep_ok ex_rep_ok e erefl erefl erefl erefl.
move: (X1 0%N erefl) (X2 0%N erefl) (H 0%N erefl) => /= -> -> ->.
by rewrite !(mulr0, mul0r, mulr1, mul1r, addr0, add0r, mulrNN).
Qed.

(** ** C25: tensor_power *)
(** Indices p, q < d^n are read as n digits in base d, most significant first;
    X^(n) is the sum over the position at which X acts, H^(n) the product. *)
Theorem C25_tensor_power T d (r : rep C) n fuel : is_rep T d r -> (0 < d)%N -> Z.le Z0 n -> (Z.to_nat n < fuel)%nat ->
  exists u, tensor_power fuel r n = Ok u /\ is_rep T (d ^ Z.to_nat n) u /\ rA u = rA r /\
  (forall a p q, (a < th_l T)%N -> (p < d ^ Z.to_nat n)%N -> (q < d ^ Z.to_nat n)%N ->
     get (rX u) [:: a; p; q] = \sum_(s < Z.to_nat n) \prod_(t < Z.to_nat n)
       (if t == s then get (rX r) [:: a; digit d (Z.to_nat n) t p; digit d (Z.to_nat n) t q]
        else (digit d (Z.to_nat n) t p == digit d (Z.to_nat n) t q)%:R)) /\
  (forall b p q, (b < th_h T)%N -> (p < d ^ Z.to_nat n)%N -> (q < d ^ Z.to_nat n)%N ->
     get (rH u) [:: b; p; q] = \prod_(t < Z.to_nat n) get (rH r) [:: b; digit d (Z.to_nat n) t p; digit d (Z.to_nat n) t q]).
Proof.
move=> h d0 n0 lt; have [u [e [h1 h2 h3 h4]]] := tensor_power_ok h d0 n0 lt; exists u; do 3!(split=> //).
Qed.
(** The digits are those of the number. *)
Theorem C25_digits d n p : (0 < d)%N -> (p < d ^ n)%N -> p = (\sum_(t < n) digit d n t p * d ^ (n - t.+1))%N.
Proof.
move=> d0; elim: n p => [|n IH] p; first by rewrite expn0 big_ord0 ltnS leqn0 => /eqP.
move=> hp; rewrite big_ord_recl {1}(divn_eq p (d ^ n)) subn1 /=; congr (_ + _)%N.
  by rewrite /digit subn1 /= modn_small // ltn_divLR ?expn_gt0 ?d0 // -expnS.
rewrite {1}(IH (p %% d ^ n)%N) ?ltn_mod ?expn_gt0 ?d0 //; apply: eq_bigr => t _.
by rewrite -(@digit_lo d 1).
Qed.
(** A negative exponent makes the loop run forever. *)
Theorem C25_negative_diverges T d (r : rep C) n fuel : is_rep T d r -> (0 < d)%N -> Z.lt n Z0 ->
  tensor_power fuel r n = Err OutOfFuel.
Proof. exact: tensor_power_negative. Qed.
Example C25_example : exists u, tensor_power 6 ex_rep 5 = Ok u /\ is_rep ex_theory 32 u /\
  get (rX u) [:: 0; 0; 1]%N = 1.
Proof.
have [u [e [h1 [_ [hX _]]]]] := C25_tensor_power (n := 5) (fuel := 6) ex_rep_ok erefl (fun e => ltac:(discriminate e)) erefl.
exists u; split=> //; split=> //; rewrite hX //.
rewrite /= !big_ord_recr !big_ord0 /=.
by rewrite !(mulr0, mul0r, mulr1, mul1r, addr0, add0r).
Qed.

(** ** C26: group_product *)
Theorem C26_group_product T1 T2 d1 d2 (r1 r2 : rep C) : is_rep T1 d1 r1 -> is_rep T2 d2 r2 ->
  exists r, group_product r1 r2 = Ok r /\ is_rep (prod_theory T1 T2) (d1 * d2) r /\
  (forall i, (i < th_l T1 + th_l T2)%N -> mx3 (d1 * d2) (d1 * d2) (rX r) i =
     if (i < th_l T1)%N then mx3 d1 d1 (rX r1) i *t 1%:M else 1%:M *t mx3 d2 d2 (rX r2) (i - th_l T1)%N) /\
  (forall b, (b < th_h T1 + th_h T2)%N -> mx3 (d1 * d2) (d1 * d2) (rH r) b =
     if (b < th_h T1)%N then mx3 d1 d1 (rH r1) b *t 1%:M else 1%:M *t mx3 d2 d2 (rH r2) (b - th_h T1)%N).
Proof. exact: group_product_ok. Qed.
(** The generators of the two factors commute. *)
Theorem C26_factors_commute T1 T2 d1 d2 (r1 r2 r : rep C) : is_rep T1 d1 r1 -> is_rep T2 d2 r2 -> group_product r1 r2 = Ok r ->
  forall i j, (i < th_l T1)%N -> (j < th_l T2)%N ->
  let X := mx3 (d1 * d2) (d1 * d2) (rX r) in X i *m X (th_l T1 + j)%N = X (th_l T1 + j)%N *m X i.
Proof.
move=> h1 h2 e i j hi hj /=; have [r' [e' [_ [eX _]]]] := C26_group_product h1 h2.
move: e'; rewrite e => -[q]; rewrite -q in eX.
rewrite !eX ?ltn_add2l ?ltn_addr // hi ltnNge leq_addr /= addKn !tensmx_mul !mulmx1 !mul1mx //.
Qed.
Theorem C26_three_factors T1 T2 T3 d1 d2 d3 (r1 r2 r3 : rep C) :
  is_rep T1 d1 r1 -> is_rep T2 d2 r2 -> is_rep T3 d3 r3 ->
  exists r, group_product3 r1 r2 r3 = Ok r /\ is_rep (prod_theory (prod_theory T1 T2) T3) (d1 * d2 * d3) r.
Proof. exact: group_product3_ok. Qed.
Theorem C26_tabulated_product T1 T2 d1 d2 (r1 r2 : rep C) : is_rep T1 d1 r1 -> is_rep T2 d2 r2 ->
  tip_rep r1 r2 = group_product r1 r2.
Proof. exact: tip_rep_ok. Qed.
Example C26_example : exists r, group_product ex_rep (bad_rep C) = Ok r /\ is_rep (prod_theory ex_theory (bad_theory C)) 4 r.
Proof. by have [r [e [h _]]] := C26_group_product ex_rep_ok (bad_rep_ok C); exists r. Qed.

(** ** C27: change_basis *)
(** Q of full column rank (a left inverse exists).  Relations that equate a word
    with the empty word need Q square. *)
Theorem C27_change_basis T d d' (r : rep C) (Q : nd C) : is_rep T d r -> shape Q = [:: d'; d] ->
  (exists B, B *m mx2 d' d Q = 1%:M) ->
  d' = d \/ (forall u v, th_rel T u v -> u <> [::] /\ v <> [::]) ->
  exists r', change_basis r Q = Ok r' /\ is_rep T d' r' /\ rA r' = rA r /\
  (forall i, (i < th_l T)%N -> mx3 d' d' (rX r') i *m mx2 d' d Q = mx2 d' d Q *m mx3 d d (rX r) i) /\
  (forall b, (b < th_h T)%N -> mx3 d' d' (rH r') b *m mx2 d' d Q = mx2 d' d Q *m mx3 d d (rH r) b).
Proof.
move=> h sQ /row_fullP fu dd; have [r' [e [h' [eA _]]]] := change_basis_ok h sQ fu dd.
by exists r'; do 3!split=> //; exact: change_basis_intertwines h sQ fu dd e.
Qed.
(** For a square invertible Q: X' = Q X Q^-1. *)
Theorem C27_invertible T d (r : rep C) (Q : nd C) : is_rep T d r -> shape Q = [:: d; d] -> mx2 d d Q \in unitmx ->
  exists r', change_basis r Q = Ok r' /\ is_rep T d r' /\ rA r' = rA r /\
  (forall i, (i < th_l T)%N -> mx3 d d (rX r') i = mx2 d d Q *m mx3 d d (rX r) i *m invmx (mx2 d d Q)) /\
  (forall b, (b < th_h T)%N -> mx3 d d (rH r') b = mx2 d d Q *m mx3 d d (rH r) b *m invmx (mx2 d d Q)).
Proof.
move=> h sQ u; have fu : row_full (mx2 d d Q) by rewrite row_full_unit.
have [r' [e [h' [eA [eX eH]]]]] := change_basis_ok h sQ fu (or_introl erefl).
by exists r'; rewrite -pinv_unit.
Qed.
Theorem C27_composition T d d' (r r1 r2 r3 : rep C) (Q Q' QQ : nd C) : is_rep T d r ->
  shape Q = [:: d; d] -> mx2 d d Q \in unitmx -> shape Q' = [:: d'; d] -> (exists B, B *m mx2 d' d Q' = 1%:M) ->
  d' = d \/ (forall u v, th_rel T u v -> u <> [::] /\ v <> [::]) ->
  matmul Q' Q = Ok QQ -> change_basis r Q = Ok r1 -> change_basis r1 Q' = Ok r2 -> change_basis r QQ = Ok r3 ->
  [/\ rA r2 = rA r3, nd_eq (rX r2) (rX r3) & nd_eq (rH r2) (rH r3)].
Proof. by move=> h sQ u sQ' /row_fullP; exact: change_basis_comp. Qed.
(** The pseudo-inverse of the model is the Moore-Penrose inverse: it satisfies
    the four Penrose equations, which have a single solution. *)
Theorem C27_pinv_penrose m n (M : 'M[C]_(m, n)) : is_pinv M (pinv_mx M) /\ (forall P, is_pinv M P -> P = pinv_mx M).
Proof. by split; [exact: pinv_mxP|move=> P /pinvE]. Qed.
Definition ex_Q : nd C := Nd [:: 2; 2]%N (fun idx => if idx == [:: 1; 0]%N then 0 else 1).
Lemma ex_Q_unit : mx2 2 2 ex_Q \in unitmx.
Proof.
pose B : 'M[C]_2 := \matrix_(i, j) if i == j then 1 else if (i == 0%N :> nat) then -1 else 0.
have /mulmx1_unit[] // : mx2 2 2 ex_Q *m B = 1%:M.
apply/matrixP=> p q; rewrite !mxE !big_ord_recr !big_ord0 /= !mxE /=.
by case: p => [[|[|p]] hp] //; case: q => [[|[|q]] hq] //=; rewrite ?(mulr0, mul0r, mulr1, mul1r, addr0, add0r, addNr).
Qed.
Example C27_example : exists r', change_basis ex_rep ex_Q = Ok r' /\ is_rep ex_theory 2 r'.
Proof. by have [r' [e [h _]]] := C27_invertible ex_rep_ok (erefl : shape ex_Q = _) ex_Q_unit; exists r'. Qed.

(** ** C28: change_algebra *)
Theorem C28_change_algebra T d m (r : rep C) (Q : nd C) : is_rep T d r -> shape Q = [:: m; th_l T] ->
  (exists B, B *m mx2 m (th_l T) Q = 1%:M) ->
  exists r', change_algebra r Q = Ok r' /\
  shape (rA r') = [:: m; m; m] /\ shape (rX r') = [:: m; d; d] /\ rH r' = rH r /\
  (forall i, (i < m)%N -> mx3 d d (rX r') i = \sum_(a < th_l T) get Q [:: i; a : nat] *: mx3 d d (rX r) a) /\
  (forall i j, (i < m)%N -> (j < m)%N ->
    let X := mx3 d d (rX r') in X i *m X j - X j *m X i = \sum_(k < m) get (rA r') [:: i; j; k : nat] *: X k).
Proof.
move=> h sQ /row_fullP fu; have [r' [e [h' [eH eX]]]] := change_algebra_ok h sQ fu.
exists r'; split=> //; split; first exact: ir_sA h'.
split; first exact: ir_sX h'.
do 2!(split=> //); move=> i j hi hj /=; rewrite (mr_comm (ir_m h')) //.
by apply: eq_bigr => k _; rewrite (ir_A h').
Qed.
Theorem C28_back T d (r r1 r2 : rep C) (Q iQ : nd C) : is_rep T d r ->
  shape Q = [:: th_l T; th_l T] -> mx2 (th_l T) (th_l T) Q \in unitmx -> np_inv Q = Ok iQ ->
  change_algebra r Q = Ok r1 -> change_algebra r1 iQ = Ok r2 ->
  [/\ nd_eq (rA r2) (rA r), nd_eq (rX r2) (rX r) & rH r2 = rH r].
Proof. exact: change_algebra_back. Qed.
Example C28_example : exists r', change_algebra (bad_rep C) ex_Q = Ok r' /\
  let X := mx3 2 2 (rX r') in X 0%N *m X 1%N - X 1%N *m X 0%N = \sum_(k < 2) get (rA r') [:: 0%N; 1%N; k : nat] *: X k.
Proof.
have fu : exists B, B *m mx2 2 (th_l (bad_theory C)) ex_Q = 1%:M.
  by exists (invmx (mx2 2 2 ex_Q)); rewrite mulVmx ?ex_Q_unit.
have [r' [e [_ [_ [_ [_ h]]]]]] := C28_change_algebra (bad_rep_ok C) (erefl : shape ex_Q = _) fu.
by exists r'; split=> //; exact: h.
Qed.

(** ** C29: conjugate *)
(** For real structure constants the conjugate satisfies the relations of rep.A. *)
Theorem C29_conjugate_real T d (r : rep C) : is_rep T d r ->
  (forall i j k, (i < th_l T)%N -> (j < th_l T)%N -> (k < th_l T)%N -> th_A T i j k \is Num.real) ->
  let r' := conjugate r in
  [/\ rA r' = rA r, shape (rX r') = [:: th_l T; d; d], shape (rH r') = [:: th_h T; d; d],
   (forall i j, (i < th_l T)%N -> (j < th_l T)%N ->
     let X := mx3 d d (rX r') in X i *m X j - X j *m X i = \sum_(k < th_l T) get (rA r') [:: i; j; k : nat] *: X k)
 & forall u v, th_rel T u v -> all (fun b => b < th_h T)%N (u ++ v) ->
     word (mx3 d d (rH r')) u = word (mx3 d d (rH r')) v].
Proof.
move=> h re; have h' := conjugate_real h re; split=> //; [exact: ir_sX h'|exact: ir_sH h'| |].
- move=> i j hi hj X; rewrite /X (mr_comm (ir_m h')) //; apply: eq_bigr => k _.
  by rewrite -(ir_A h').
- by move=> u v r0 hw; rewrite (mr_rel (ir_m h') (v := v)).
Qed.
Theorem C29_involution (r : rep C) : let r' := conjugate (conjugate r) in
  [/\ rA r' = rA r, nd_eq (rX r') (rX r) & nd_eq (rH r') (rH r)].
Proof. exact: conjugate_twice. Qed.
(** Without reality the claim is false: A is not conjugated. *)
Theorem C29_complex_algebra_refuted : exists (T : theory C) (r : rep C), is_rep T 2 r /\ ~ is_mrep T (mx3 2 2 (rX (conjugate r))) (mx3 2 2 (rH (conjugate r))).
Proof. by exists (bad_theory C), (bad_rep C); split; [exact: bad_rep_ok|exact: conjugate_bad]. Qed.
Example C29_example : is_rep (conj_theory ex_theory) 2 (conjugate ex_rep).
Proof. by apply: conjugate_real ex_rep_ok _ => i j k _ _ _; exact: real0. Qed.

(** ** C30: create_trivial *)
Theorem C30_create_trivial T d (r : rep C) : is_rep T d r ->
  exists t, create_trivial r = Ok t /\ is_rep T 1 t /\ is_trivial t = Ok true /\ rA t = rA r.
Proof.
move=> h; have [t [e [h1 [h2 [h3 h4]]]]] := create_trivial_ok h; exists t; do 2!split=> //; split=> //.
have [b [-> hb]] := is_trivialP h1; congr Ok; apply/hb; split=> //.
Qed.
Theorem C30_is_trivial T d (r : rep C) : is_rep T d r ->
  exists b, is_trivial r = Ok b /\
  (b <-> [/\ d = 1%N, forall i, (i < th_l T)%N -> mx3 d d (rX r) i = 0 & forall k, (k < th_h T)%N -> mx3 d d (rH r) k = 1%:M]).
Proof. exact: is_trivialP. Qed.
Theorem C30_neutral T d (r t : rep C) : is_rep T d r -> create_trivial r = Ok t ->
  exists u v, tensor_product r t = Ok u /\ tensor_product t r = Ok v /\
  [/\ rA u = rA r, nd_eq (rX u) (rX r) & nd_eq (rH u) (rH r)] /\
  [/\ rA v = rA r, nd_eq (rX v) (rX r) & nd_eq (rH v) (rH r)].
Proof.
move=> h e; have [t' [e' [h' _]]] := create_trivial_ok h; move: e'; rewrite e => -[q]; rewrite -{t'}q in h'.
have [u [eu _]] := tensor_product_ok h h'; have [v [ev _]] := tensor_product_ok h' h.
exists u, v; do 3!split=> //; [exact: trivial_right h e eu|exact: trivial_left h e ev].
Qed.
Example C30_example : is_trivial ex_rep = Ok false /\ exists t, create_trivial ex_rep = Ok t /\ is_trivial t = Ok true.
Proof. by split=> //; have [t [e [_ [h _]]]] := C30_create_trivial ex_rep_ok; exists t. Qed.
End Props.
