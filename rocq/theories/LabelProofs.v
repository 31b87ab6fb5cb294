(** LabelProofs: selection rules, orders and iterators of the tabulated irreps. *)
From Coq Require Import ZArith.
From mathcomp Require Import all_ssreflect all_algebra.
From mathcomp Require Import zify.
From Verif Require Import Base Labels.

Set Implicit Arguments.
Unset Strict Implicit.
Unset Printing Implicit Defensive.

Import Order.POrderTheory Order.TotalTheory GRing.Theory Num.Theory.
Local Open Scope ring_scope.

(** * Specifications *)

(** A selection rule on the labels satisfying [valid]: the products exist, are valid
    labels, without repetition, do not depend on the order of the factors and have
    the right total dimension. *)
Definition selection_rule (T : eqType) (valid : pred T) (dim : T -> int) (mul : T -> T -> res (seq T)) : Prop :=
  forall a b, valid a -> valid b -> exists L,
    [/\ mul a b = Ok L, mul b a = Ok L, uniq L, all valid L & \sum_(x <- L) dim x = dim a * dim b].

(** A strict total order on the labels satisfying [valid]. *)
Definition strict_total (T : eqType) (valid : pred T) (lt : rel T) : Prop :=
  [/\ forall a, valid a -> ~~ lt a a,
      forall b a c, valid a -> valid b -> valid c -> lt a b -> lt b c -> lt a c
    & forall a b, valid a -> valid b -> a != b -> lt a b || lt b a].

(** [it n] are the values of the first [n] rounds of an infinite generator: it
    enumerates the valid labels, in increasing order, starting with [triv]. *)
Definition enumerates (T : eqType) (valid : pred T) (lt : rel T) (triv : T) (it : nat -> res (seq T)) : Prop :=
  exists L : nat -> seq T,
  [/\ forall n, it n = Ok (L n),
      forall n, [/\ pairwise lt (L n), uniq (L n) & all valid (L n)],
      forall n, exists M, L n.+1 = L n ++ M,
      forall x, valid x -> exists n, x \in L n
    & forall n, ohead (L n.+1) = Some triv].

(** * range *)
Lemma mem_pyrange a b s x : (0 < s)%N -> (x \in pyrange a b s) = [&& a <= x, x < b & (s %| absz (x - a)%R)%N].
Proof.
move=> s0; apply/mapP/idP => [[i]|].
  rewrite mem_iota /= add0n => hi ->.
  have hd : (s %| absz (a + (s * i)%N%:Z - a)%R)%N by rewrite addrC addKr absz_nat dvdn_mulr.
  rewrite hd andbT; move: hi; case: ifP => //= ab.
  set q := (_ %/ _)%N => hi.
  have : (q * s <= absz (b - a)%R + s.-1)%N by apply: leq_trunc_div.
  nia.
case/and3P => h1 h2 /dvdnP[k hk]; exists k; last by nia.
rewrite mem_iota /= add0n; have -> : a < b by lia.
rewrite leq_divRL //; nia.
Qed.

Lemma pyrange_lt a b s : (0 < s)%N -> pairwise (fun x y : int => x < y) (pyrange a b s).
Proof.
move=> s0; rewrite pairwise_map; set n := (if _ then _ else _).
have : pairwise (fun i j => i < j)%N (iota 0 n).
  by rewrite -sorted_pairwise; [exact: iota_ltn_sorted | exact: ltn_trans].
by apply: sub_pairwise => i j /=; nia.
Qed.

Lemma pyrange_uniq a b s : (0 < s)%N -> uniq (pyrange a b s).
Proof. by move=> s0; apply: pairwise_uniq (pyrange_lt _ _ s0) => x /=; rewrite ltxx. Qed.

Lemma pyrange1 b : pyrange 0 b%:Z 1 = [seq i%:Z | i <- iota 0 b].
Proof.
rewrite /pyrange; have -> : (if (0 < b%:Z)%R then (absz (b%:Z - 0)%R + 0) %/ 1 else 0)%N = b.
  by rewrite divn1 subr0 absz_nat addn0; case: b.
by apply: eq_map => i; rewrite mul1n add0r.
Qed.

(** * Sums of dimensions *)
Lemma sum_step2 (a : int) n : \sum_(i <- iota 0 n) (a + (2 * i)%N%:Z + 1) = n%:Z * (a + n%:Z).
Proof.
elim: n => [|n IH]; first by rewrite big_nil mul0r.
by rewrite -addn1 iotaD big_cat IH big_seq1 /=; nia.
Qed.
Lemma sum_step1 (a : int) n : \sum_(i <- iota 0 n) (2 * (a + (1 * i)%N%:Z) + 1) = n%:Z * (2 * a + n%:Z).
Proof.
elim: n => [|n IH]; first by rewrite big_nil mul0r.
by rewrite -addn1 iotaD big_cat IH big_seq1 /=; nia.
Qed.

Lemma range_dim2 (j1 j2 : int) : 0 <= j1 -> 0 <= j2 ->
  \sum_(j <- pyrange `|j1 - j2| (j1 + j2 + 1) 2) (j + 1) = (j1 + 1) * (j2 + 1).
Proof.
move=> h1 h2; rewrite big_map sum_step2.
have -> : `|j1 - j2| < j1 + j2 + 1 by lia.
set q := (_ %/ _)%N.
have -> : q = (minn (absz j1) (absz j2)).+1.
  rewrite /q; have -> : (absz (j1 + j2 + 1 - `|j1 - j2|)%R + 2.-1 = (minn (absz j1) (absz j2)).+1 * 2)%N by lia.
  by rewrite mulnK.
case: (leP j1 j2) => h; nia.
Qed.

Lemma range_dim1 (j1 j2 : int) : 0 <= j1 -> 0 <= j2 ->
  \sum_(j <- pyrange `|j1 - j2| (j1 + j2 + 1) 1) (2 * j + 1) = (2 * j1 + 1) * (2 * j2 + 1).
Proof.
move=> h1 h2; rewrite big_map sum_step1.
have -> : `|j1 - j2| < j1 + j2 + 1 by lia.
rewrite divn1.
have -> : (absz (j1 + j2 + 1 - `|j1 - j2|)%R + 1.-1 = (2 * minn (absz j1) (absz j2)).+1)%N by lia.
case: (leP j1 j2) => h; nia.
Qed.

Lemma range_symm (j1 j2 : int) s e : pyrange `|j1 - j2| (j1 + j2 + e) s = pyrange `|j2 - j1| (j2 + j1 + e) s.
Proof. by rewrite distrC [j1 + j2]addrC. Qed.

(** A constructor which checks its argument. *)
Lemma mapR_id (S : eqType) (f : S -> res S) (p : pred S) (l : seq S) :
  (forall x, p x -> f x = Ok x) -> all p l -> mapR f l = Ok l.
Proof.
move=> h; elim: l => //= x l IH /andP[px /IH ->].
by rewrite h.
Qed.

(** * Generators with an unbounded outer loop *)
Section Rounds.
Variables (T : eqType) (valid : pred T) (lt : rel T) (triv : T) (f : nat -> seq T).
Definition rounds n := flatten [seq f i | i <- iota 0 n].

Lemma roundsS n : rounds n.+1 = rounds n ++ f n.
Proof. by rewrite /rounds -addn1 iotaD map_cat flatten_cat /= cats0. Qed.

Lemma mem_rounds n x : reflect (exists2 i, (i < n)%N & x \in f i) (x \in rounds n).
Proof.
apply: (iffP flatten_mapP) => -[i].
  by rewrite mem_iota /= add0n; exists i.
by move=> hi hx; exists i => //; rewrite mem_iota.
Qed.

Lemma enum_rounds (it : nat -> res (seq T)) :
  (forall x, valid x -> ~~ lt x x) ->
  (forall i, pairwise lt (f i)) -> (forall i, all valid (f i)) ->
  (forall i j x y, (i < j)%N -> x \in f i -> y \in f j -> lt x y) ->
  (forall x, valid x -> exists i, x \in f i) ->
  ohead (f 0) = Some triv ->
  (forall n, it n = Ok (rounds n)) ->
  enumerates valid lt triv it.
Proof.
move=> irr hp hv hlt hex h0 hit; exists rounds; split=> //.
- move=> n; have hvn : all valid (rounds n).
    by apply/allP => x /mem_rounds[i _ hx]; apply: (allP (hv i)).
  have hpn : pairwise lt (rounds n).
    elim: n {hvn} => // n IH; rewrite roundsS pairwise_cat IH hp !andbT.
    by apply/allrelP => x y /mem_rounds[i hi hx] hy; apply: hlt hi hx hy.
  split=> //; elim: (rounds n) hpn hvn => //= x l IH /andP[hx hl] /andP[vx vl].
  rewrite IH // andbT; apply/negP => xl; move/allP: hx => /(_ x xl).
  exact/negP/irr.
- by move=> n; exists (f n); apply: roundsS.
- by move=> x /hex[i hi]; exists i.+1; rewrite roundsS mem_cat hi orbT.
- elim=> [|n IH]; first by rewrite /rounds /= cats0.
  by rewrite roundsS; case: (rounds n.+1) IH.
Qed.
End Rounds.

Lemma rounds1 (T : eqType) (g : nat -> T) n : rounds (fun i => [:: g i]) n = [seq g i | i <- iota 0 n].
Proof. exact: flatten_map1. Qed.

(** * Orders *)
Lemma lt2_total (S T : eqType) (vS : pred S) (vT : pred T) (ltS : rel S) (ltT : rel T) :
  strict_total vS ltS -> strict_total vT ltT ->
  strict_total (fun x => vS x.1 && vT x.2) (lt2 (fun x y => x == y) ltS (fun x y => x == y) ltT).
Proof.
move=> [iS tS totS] [iT tT totT]; split; rewrite /lt2.
- by move=> [a b] _ /=; rewrite !eqxx.
- move=> [b b'] [a a'] [c c'] /= /andP[va va'] /andP[vb vb'] /andP[vc vc'].
  have step : forall x y (z : bool), (if x == y :> T then false else z) = (x != y) && z by move=> x y z; case: eqP.
  rewrite !step.
  case: (a =P b) => [ab|nab] h1; case: (b =P c) => [bc|nbc] h2.
  + rewrite -bc ab eqxx; case/andP: h1 => n1 h1; case/andP: h2 => n2 h2.
    have h := tT _ _ _ va' vb' vc' h1 h2; rewrite h andbT.
    by apply/eqP => e; move: h; rewrite e; apply/negP/iT.
  + by rewrite ab; case: eqP.
  + by rewrite -bc; case: eqP.
  + have h := tS _ _ _ va vb vc h1 h2; case: eqP => // e.
    by move: h; rewrite e (negbTE (iS _ vc)).
- move=> [a a'] [b b'] /= /andP[va va'] /andP[vb vb'] n.
  rewrite [b == a]eq_sym [b' == a']eq_sym; case: eqP => [e|/eqP nab]; last exact: totS.
  case: eqP => [e'|/eqP nab']; last exact: totT.
  by move: n; rewrite e e' eqxx.
Qed.

Lemma strict_total_sub (T : eqType) (v w : pred T) (lt : rel T) :
  (forall x, w x -> v x) -> strict_total v lt -> strict_total w lt.
Proof.
move=> h [i t tot]; split.
- by move=> a /h; apply: i.
- by move=> b a c /h va /h vb /h vc; apply: t.
- by move=> a b /h va /h vb; apply: tot.
Qed.
(** Comparing by an injective key. *)
Lemma strict_total_key (S T : eqType) (v : pred S) (k : S -> T) (lt : rel T) :
  {in v &, injective k} -> strict_total predT lt -> strict_total v (fun a b => lt (k a) (k b)).
Proof.
move=> kI [i t tot]; split.
- by move=> a _; apply: i.
- by move=> b a c _ _ _; apply: t.
- by move=> a b va vb n; apply: tot => //; apply: contra n => /eqP/kI-> //.
Qed.
Lemma ltz_total (v : pred int) : strict_total v (fun a b : int => a < b).
Proof.
split.
- by move=> a _; rewrite ltxx.
- by move=> b a c _ _ _; apply: lt_trans.
- by move=> a b _ _; rewrite neq_lt.
Qed.
Lemma ltz2_total : strict_total predT ltz2.
Proof. by apply: strict_total_sub (lt2_total (ltz_total predT) (ltz_total predT)). Qed.

Lemma lts_total : strict_total predT lts.
Proof.
split.
- by move=> a _; elim: a => //= a l IH; rewrite eqxx.
- move=> b a c _ _ _; elim: b a c => [|b bs IH] [|a la] [|c cs] //=.
  case: (a =P b) => [ab|nab] h1; case: (b =P c) => [bc|nbc] h2.
  + by rewrite ab bc eqxx; apply: IH h1 h2.
  + by rewrite ab; case: eqP.
  + by rewrite -bc; case: eqP.
  + have h := lt_trans h1 h2; case: eqP => // e.
    by move: h; rewrite e ltxx.
- move=> a b _ _; elim: a b => [|a la IH] [|b bs] //=.
  rewrite eqseq_cons [b == a]eq_sym; case: (a =P b) => [_|/eqP n] /=; first exact: IH.
  by rewrite neq_lt in n.
Qed.

(** * Selection rules *)

(** Valid labels. *)
Definition nonneg : pred int := fun j => 0 <= j.
Definition valid_o3 : pred (int * int) := fun a => (0 <= a.1) && (a.2 \in [:: 1; -1]).
Definition valid_z2 : pred int := fun p => p \in [:: 1; -1].
Definition valid_sl2c : pred (int * int) := fun a => (0 <= a.1) && (0 <= a.2).
Definition valid_so13 : pred (int * int) := fun a => [&& 0 <= a.1, 0 <= a.2 & ~~ odd (absz (a.1 + a.2))].

(** The triangle rule and the parity rule. *)
Definition triangle (j1 j2 j : int) : bool := [&& j <= j1 + j2, j1 <= j + j2 & j2 <= j + j1].
Definition triangle2 (j1 j2 j : int) : bool := triangle j1 j2 j && ~~ odd (absz (j1 + j2 + j)).

Lemma su2_new_ok j : nonneg j -> su2_new j = Ok j.
Proof. by rewrite /nonneg /su2_new => ->. Qed.
Lemma sl2c_new_ok a : valid_sl2c a -> sl2c_new a = Ok a.
Proof. by rewrite /valid_sl2c /sl2c_new => /andP[-> ->]. Qed.
Lemma so13_new_ok a : valid_so13 a -> so13_new a = Ok a.
Proof.
rewrite /valid_so13 /so13_new => /and3P[h1 h2 h3]; rewrite h1 h2 /=.
by have -> : ((a.1 + a.2) %% 2)%Z == 0 by lia.
Qed.

Lemma range_nonneg (j1 j2 : int) e s : (0 < s)%N -> all nonneg (pyrange `|j1 - j2| e s).
Proof. by move=> s0; apply/allP => x; rewrite mem_pyrange // => /and3P[h _ _]; rewrite /nonneg; lia. Qed.

Lemma su2_mulE j1 j2 : su2_mul j1 j2 = Ok (pyrange `|j1 - j2| (j1 + j2 + 1) 2).
Proof. by rewrite /su2_mul (mapR_id su2_new_ok) // range_nonneg. Qed.

Lemma su2_selection : selection_rule nonneg su2_dim su2_mul.
Proof.
move=> j1 j2 h1 h2; exists (pyrange `|j1 - j2| (j1 + j2 + 1) 2); rewrite !su2_mulE; split=> //.
- by rewrite range_symm.
- exact: pyrange_uniq.
- exact: range_nonneg.
- exact: range_dim2.
Qed.

Lemma mem_range2 (j1 j2 j : int) : 0 <= j1 -> 0 <= j2 ->
  (j \in pyrange `|j1 - j2| (j1 + j2 + 1) 2) = triangle2 j1 j2 j.
Proof. by move=> h1 h2; rewrite mem_pyrange // /triangle2 /triangle; apply/idP/idP; lia. Qed.
Lemma mem_range1 (j1 j2 j : int) : 0 <= j1 -> 0 <= j2 ->
  (j \in pyrange `|j1 - j2| (j1 + j2 + 1) 1) = triangle j1 j2 j.
Proof. by move=> h1 h2; rewrite mem_pyrange // dvd1n /triangle; apply/idP/idP; lia. Qed.

Lemma so3_selection : selection_rule nonneg so3_dim (fun a b => Ok (so3_mul a b)).
Proof.
move=> j1 j2 h1 h2; exists (so3_mul j1 j2); split=> //.
- by rewrite /so3_mul range_symm.
- exact: pyrange_uniq.
- exact: range_nonneg.
- exact: range_dim1.
Qed.

Lemma o3_selection : selection_rule valid_o3 o3_dim (fun a b => Ok (o3_mul a b)).
Proof.
move=> [l1 p1] [l2 p2] /andP[/= h1 q1] /andP[/= h2 q2]; exists (o3_mul (l1, p1) (l2, p2)); split=> //.
- by rewrite /o3_mul /= range_symm mulrC.
- by rewrite map_inj_uniq ?pyrange_uniq // => x y [].
- rewrite all_map; apply/allP => x /(allP (range_nonneg _ _ _ (ltn0Sn 0))) /= hx.
  rewrite /valid_o3 /= [0 <= x]hx /=; move: q1 q2; rewrite !inE.
  by do 2 (case/orP => /eqP->).
- by rewrite big_map /=; apply: range_dim1.
Qed.

Lemma z2_selection : selection_rule valid_z2 z2_dim (fun a b => Ok (z2_mul a b)).
Proof.
move=> p1 p2 q1 q2; exists (z2_mul p1 p2); split=> //.
- by rewrite /z2_mul mulrC.
- rewrite /= andbT /valid_z2; move: q1 q2; rewrite /valid_z2 !inE.
  by do 2 (case/orP => /eqP->).
- by rewrite big_seq1.
Qed.

Definition sl2c_range (a b : int * int) : seq (int * int) :=
  [seq (l, k) | l <- pyrange `|a.1 - b.1| (a.1 + b.1 + 1) 2, k <- pyrange `|a.2 - b.2| (a.2 + b.2 + 1) 2].
Lemma sl2c_range_valid a b : all valid_sl2c (sl2c_range a b).
Proof.
apply/allP => x /allpairsP[[l k] /= [hl hk ->]]; rewrite /valid_sl2c /=.
by rewrite [0 <= l](allP (range_nonneg a.1 b.1 _ _) _ hl) // [0 <= k](allP (range_nonneg a.2 b.2 _ _) _ hk).
Qed.
Lemma sl2c_mulE a b : sl2c_mul a b = Ok (sl2c_range a b).
Proof. by rewrite /sl2c_mul (mapR_id sl2c_new_ok) // sl2c_range_valid. Qed.
Lemma sl2c_range_uniq a b : uniq (sl2c_range a b).
Proof. by apply: allpairs_uniq; rewrite ?pyrange_uniq // => -[? ?] [? ?]. Qed.
Lemma sum_allpairs (S T : Type) (f : S -> int) (g : T -> int) (s : seq S) (t : seq T) :
  \sum_(x <- [seq (x, y) | x <- s, y <- t]) f x.1 * g x.2 = (\sum_(x <- s) f x) * (\sum_(y <- t) g y).
Proof. by rewrite big_allpairs big_distrl /=; apply: eq_bigr => x _; rewrite big_distrr. Qed.
Lemma sl2c_range_dim a b : valid_sl2c a -> valid_sl2c b -> \sum_(x <- sl2c_range a b) sl2c_dim x = sl2c_dim a * sl2c_dim b.
Proof.
move=> /andP[a1 a2] /andP[b1 b2]; rewrite /sl2c_dim (sum_allpairs (fun x => x + 1) (fun x => x + 1)) !range_dim2 //; nia.
Qed.
Lemma sl2c_range_symm a b : sl2c_range a b = sl2c_range b a.
Proof. by rewrite /sl2c_range (range_symm a.1) (range_symm a.2). Qed.

Lemma sl2c_selection : selection_rule valid_sl2c sl2c_dim sl2c_mul.
Proof.
move=> a b ha hb; exists (sl2c_range a b); rewrite !sl2c_mulE; split=> //.
- by rewrite sl2c_range_symm.
- exact: sl2c_range_uniq.
- exact: sl2c_range_valid.
- exact: sl2c_range_dim.
Qed.
Lemma mem_sl2c_range a b x : valid_sl2c a -> valid_sl2c b ->
  (x \in sl2c_range a b) = triangle2 a.1 b.1 x.1 && triangle2 a.2 b.2 x.2.
Proof.
move=> /andP[a1 a2] /andP[b1 b2]; rewrite -!mem_range2 //.
apply/allpairsP/andP => [[[l k] /= [hl hk ->]]|[hl hk]] //.
by exists x; case: x hl hk.
Qed.

Lemma so13_sl2c a : valid_so13 a -> valid_sl2c a.
Proof. by case/and3P => h1 h2 _; apply/andP. Qed.
Lemma so13_range_valid a b : valid_so13 a -> valid_so13 b -> all valid_so13 (sl2c_range a b).
Proof.
move=> ha hb; apply/allP => x hx; have vx := allP (sl2c_range_valid a b) _ hx.
move: hx; rewrite mem_sl2c_range ?so13_sl2c // /triangle2 /triangle => h.
by case: a b x ha hb vx h => [a1 a2] [b1 b2] [x1 x2]; rewrite /valid_so13 /valid_sl2c /=; lia.
Qed.
Lemma so13_mulE a b : valid_so13 a -> valid_so13 b -> so13_mul a b = Ok (sl2c_range a b).
Proof.
move=> ha hb; rewrite /so13_mul !sl2c_new_ok ?so13_sl2c //= sl2c_mulE /=.
by rewrite (mapR_id so13_new_ok) // so13_range_valid.
Qed.
Lemma so13_selection : selection_rule valid_so13 so13_dim so13_mul.
Proof.
move=> a b ha hb; exists (sl2c_range a b); rewrite !so13_mulE //; split=> //.
- by rewrite sl2c_range_symm.
- exact: sl2c_range_uniq.
- exact: so13_range_valid.
- by apply: sl2c_range_dim; apply: so13_sl2c.
Qed.

(** SU2Real: the list is that of SU2 (the bound t1 + t2 + 2 of arange adds nothing). *)
Lemma su2r_mulE t1 t2 : nonneg t1 -> nonneg t2 -> su2r_mul t1 t2 = Ok (pyrange `|t1 - t2| (t1 + t2 + 2) 2).
Proof. by move=> _ _; rewrite /su2r_mul (mapR_id su2_new_ok) // range_nonneg. Qed.
Lemma su2r_mem t1 t2 t : nonneg t1 -> nonneg t2 ->
  (t \in pyrange `|t1 - t2| (t1 + t2 + 2) 2) = triangle2 t1 t2 t.
Proof. by rewrite /nonneg => h1 h2; rewrite mem_pyrange // /triangle2 /triangle; apply/idP/idP; lia. Qed.

(** Products. *)
Lemma prod_selection (I1 I2 : eqType) (v1 : pred I1) (v2 : pred I2) (d1 : I1 -> int) (d2 : I2 -> int) mul1 mul2 :
  selection_rule v1 d1 mul1 -> selection_rule v2 d2 mul2 ->
  selection_rule (fun x => v1 x.1 && v2 x.2) (prod_dim d1 d2) (prod_mul mul1 mul2).
Proof.
move=> s1 s2 [a a'] [b b'] /andP[/= va va'] /andP[/= vb vb'].
have [L1 [e1 e1' u1 w1 q1]] := s1 _ _ va vb; have [L2 [e2 e2' u2 w2 q2]] := s2 _ _ va' vb'.
exists [seq (x, y) | x <- L1, y <- L2]; rewrite /prod_mul /= e1 e1' e2 e2' /=.
split=> //.
- by rewrite (mapR_ok (g := fun x => [seq (x, y) | y <- L2])).
- by rewrite (mapR_ok (g := fun x => [seq (x, y) | y <- L2])).
- by apply: allpairs_uniq => // -[? ?] [? ?].
- apply/allP => x /allpairsP[[y z] /= [hy hz ->]] /=.
  by rewrite (allP w1 _ hy) (allP w2 _ hz).
- by rewrite /prod_dim /= sum_allpairs q1 q2; nia.
Qed.

(** * Iterators *)
Lemma su2_enum : enumerates nonneg su2_lt 0 su2_iter.
Proof.
apply: (@enum_rounds _ _ _ _ (fun i => [:: i%:Z])) => //.
- by move=> x _; rewrite /su2_lt ltxx.
- by move=> i j x y ij; rewrite !inE => /eqP-> /eqP->; rewrite /su2_lt; lia.
- by move=> x; rewrite /nonneg => x0; exists (absz x); rewrite inE; lia.
- move=> n; rewrite rounds1 /su2_iter (mapR_id su2_new_ok) //.
  by apply/allP => x /mapP[i _ ->].
Qed.
Lemma so3_enum : enumerates nonneg so3_lt 0 (fun n => Ok (so3_iter n)).
Proof.
have [L [h1 h2 h3 h4 h5]] := su2_enum; exists L; split=> // n.
rewrite -h1 /su2_iter (mapR_id su2_new_ok) //.
by apply/allP => x /mapP[i _ ->].
Qed.
Lemma su2r_enum : enumerates nonneg su2r_lt 0 su2r_iter.
Proof. exact: su2_enum. Qed.

Lemma sign_sq (n : nat) : ((-1) ^+ n * (-1) ^+ n = 1 :> int).
Proof. by rewrite -exprMn mulrNN mulr1 expr1n. Qed.
Lemma sign_case (n : nat) : ((-1) ^+ n = 1 :> int) \/ ((-1) ^+ n = -1 :> int).
Proof. by rewrite -signr_odd; case: odd; [right|left]. Qed.

Lemma o3_lt_total : strict_total predT o3_lt.
Proof.
apply: strict_total_key ltz2_total => -[l p] [m q] _ _ [<-] h.
by congr (_, _); case: (sign_case (absz l)) h => ->; lia.
Qed.
Lemma o3_enum : enumerates valid_o3 o3_lt (0, 1) (fun n => Ok (o3_iter n)).
Proof.
apply: (@enum_rounds _ _ _ _ (fun l => [:: (l%:Z, 1 * (-1) ^+ l); (l%:Z, - 1 * (-1) ^+ l)])) => //.
- by move=> x _; have [h _ _] := o3_lt_total; apply: h.
- by move=> i; rewrite /= andbT /o3_lt /ltz2 /lt2 /o3_key /= eqxx; case: (sign_case i) => ->.
- by move=> i; rewrite /= andbT /valid_o3 /=; case: (sign_case i) => ->.
- move=> i j x y ij hx hy; have [e1 e2] : x.1 = i%:Z /\ y.1 = j%:Z.
    by move: hx hy; rewrite !inE => /orP[]/eqP-> /orP[]/eqP->.
  by rewrite /o3_lt /ltz2 /lt2 /o3_key /= e1 e2; case: eqP; lia.
- move=> [l p] /andP[/= l0 hp]; exists (absz l); rewrite !inE !xpair_eqE.
  by move: hp; rewrite !inE; case: (sign_case (absz l)) => ->; lia.
Qed.

Lemma z2_total : strict_total valid_z2 z2_lt.
Proof.
have [i t tot] := ltz_total valid_z2; split=> // [b a c va vb vc h1 h2|a b va vb n].
  exact: t h2 h1.
by rewrite /z2_lt orbC; apply: tot.
Qed.
(** Z2's iterator is finite. *)
Lemma z2_enum : [/\ pairwise z2_lt z2_iter, uniq z2_iter & z2_iter =i valid_z2].
Proof. by []. Qed.

Lemma sl2c_lt_total : strict_total predT sl2c_lt.
Proof.
apply: strict_total_key ltz2_total => -[l p] [m q] _ _ [h e].
by congr (_, _); move: h e => /=; lia.
Qed.
Definition sl2c_round (s : nat) : seq (int * int) := [seq (l, s%:Z - l) | l <- pyrange 0 (s%:Z + 1) 1].
Lemma mem_sl2c_round s x : (x \in sl2c_round s) = valid_sl2c x && (x.1 + x.2 == s%:Z).
Proof.
apply/mapP/idP => [[l]|].
  by rewrite mem_pyrange // dvd1n andbT => h ->; rewrite /valid_sl2c /=; lia.
case: x => l k; rewrite /valid_sl2c /= => h; exists l; last by congr (_, _); lia.
by rewrite mem_pyrange // dvd1n; lia.
Qed.
Lemma sl2c_round_lt s : pairwise sl2c_lt (sl2c_round s).
Proof.
rewrite pairwise_map; apply: sub_pairwise (pyrange_lt _ _ (ltn0Sn 0)) => l k /= h.
rewrite /sl2c_lt /ltz2 /lt2 /sl2c_key /=; have -> : l + (s%:Z - l) == k + (s%:Z - k) by lia.
by case: eqP; lia.
Qed.
Lemma sl2c_round_cross i j x y : (i < j)%N -> x \in sl2c_round i -> y \in sl2c_round j -> sl2c_lt x y.
Proof.
rewrite !mem_sl2c_round /sl2c_lt /ltz2 /lt2 /sl2c_key /= => ij /andP[_ /eqP e1] /andP[_ /eqP e2].
by rewrite e1 e2; case: eqP; lia.
Qed.
Lemma sl2c_enum : enumerates valid_sl2c sl2c_lt (0, 0) sl2c_iter.
Proof.
apply: (@enum_rounds _ _ _ _ sl2c_round) => //.
- by move=> x _; have [h _ _] := sl2c_lt_total; apply: h.
- exact: sl2c_round_lt.
- by move=> i; apply/allP => x; rewrite mem_sl2c_round => /andP[].
- exact: sl2c_round_cross.
- move=> x vx; exists (absz (x.1 + x.2)); rewrite mem_sl2c_round vx /=.
  by case/andP: vx; lia.
- move=> n; rewrite /sl2c_iter (mapR_id sl2c_new_ok) //.
  by apply/allP => x /mem_rounds[i _]; rewrite mem_sl2c_round => /andP[].
Qed.
Lemma so13_enum : enumerates valid_so13 so13_lt (0, 0) so13_iter.
Proof.
have hv i : all valid_so13 (sl2c_round (2 * i)).
  by apply/allP => -[x1 x2]; rewrite mem_sl2c_round /valid_so13 /valid_sl2c /=; lia.
apply: (@enum_rounds _ _ _ _ (fun i => sl2c_round (2 * i))) => //.
- by move=> x _; have [h _ _] := sl2c_lt_total; apply: h.
- by move=> i; apply: sl2c_round_lt.
- by move=> i j x y ij; apply: sl2c_round_cross; rewrite ltn_pmul2l.
- move=> [x1 x2] vx; exists (absz (x1 + x2))./2; rewrite mem_sl2c_round so13_sl2c //=.
  by move: vx; rewrite /valid_so13 /=; lia.
- move=> n; rewrite /so13_iter (mapR_id so13_new_ok) //.
  by apply/allP => x /mem_rounds[i _ h]; apply: (allP (hv i)).
Qed.

(** ** SU2_, SU3, SU4 *)
(** A non-increasing tuple of length [n] which ends with 0. *)
Definition valid_sun (n : nat) : pred (seq int) :=
  fun S => [&& size S == n, sorted (fun a b : int => b <= a) S & last 1 S == 0].

Lemma sun_len_ok n S : valid_sun n S -> sun_len_new n S = Ok S.
Proof. by case/and3P => h _ _; rewrite /sun_len_new h. Qed.

Lemma su2__enum : enumerates (valid_sun 2) sun_lt [:: 0; 0] su2__iter.
Proof.
have hv i : all (valid_sun 2) [:: [:: i%:Z; 0]] by rewrite /= /valid_sun /=; lia.
apply: (@enum_rounds _ _ _ _ (fun j => [:: [:: j%:Z; 0]])) => //.
- by move=> x _; have [h _ _] := lts_total; apply: h.
- by move=> i j x y ij; rewrite !inE => /eqP-> /eqP->; rewrite /sun_lt /=; case: eqP; lia.
- move=> [|a [|b [|]]] //=; rewrite /valid_sun //= => h; exists (absz a); rewrite inE.
  by apply/eqP; congr [:: _; _]; lia.
- move=> n; rewrite rounds1 /su2__iter (mapR_id (@sun_len_ok 2)) //.
  by apply/allP => x /mapP[i _ ->]; have /andP[] := hv i.
Qed.

Definition su3_round (j1 : nat) : seq (seq int) := [seq [:: j1%:Z; j2; 0] | j2 <- pyrange 0 (j1%:Z + 1) 1].
Lemma mem_su3_round i x : (x \in su3_round i) = valid_sun 3 x && (head 0 x == i%:Z).
Proof.
apply/mapP/idP => [[j]|].
  by rewrite mem_pyrange // dvd1n andbT => h ->; rewrite /valid_sun /=; lia.
case: x => [|a [|b [|c [|]]]] //=; rewrite /valid_sun /= => h.
by exists b; [rewrite mem_pyrange // dvd1n; lia | congr [:: _; _; _]; lia].
Qed.
Lemma head_lt x y : size x = size y -> head 0 x < head 0 y -> sun_lt x y.
Proof. by case: x y => [|a x] [|b y] //= _ h; case: eqP => //; lia. Qed.
Lemma valid_head n x : valid_sun n.+1 x -> 0 <= head 0 x.
Proof.
case: x => [|a x] //= /and3P[_ /= h /eqP e].
have : all (fun b => b <= a) x by apply: (order_path_min _ h) => u v w ? ?; lia.
case/lastP: x e {h} => [|x z]; first by move=> /= ->.
by rewrite last_rcons all_rcons => -> /andP[].
Qed.
Lemma su3_enum : enumerates (valid_sun 3) sun_lt [:: 0; 0; 0] su3_iter.
Proof.
have hv i : all (valid_sun 3) (su3_round i) by apply/allP => x; rewrite mem_su3_round => /andP[].
apply: (@enum_rounds _ _ _ _ su3_round) => //.
- by move=> x _; have [h _ _] := lts_total; apply: h.
- move=> i; rewrite pairwise_map; apply: sub_pairwise (pyrange_lt _ _ (ltn0Sn 0)) => a b /= h.
  by rewrite /sun_lt /= eqxx; case: eqP; lia.
- move=> i j x y ij; rewrite !mem_su3_round => /andP[/and3P[/eqP e1 _ _] /eqP h1] /andP[/and3P[/eqP e2 _ _] /eqP h2].
  by apply: head_lt; [rewrite e1 e2|rewrite h1 h2; lia].
- by move=> x vx; exists (absz (head 0 x)); rewrite mem_su3_round vx (gez0_abs (valid_head vx)) eqxx.
- move=> n; rewrite /su3_iter (mapR_id (@sun_len_ok 3)) //.
  by apply/allP => x /mem_rounds[i _ h]; apply: (allP (hv i)).
Qed.

Definition su4_round (j1 : nat) : seq (seq int) :=
  flatten [seq [seq [:: j1%:Z; j2; j3; 0] | j3 <- pyrange 0 (j2 + 1) 1] | j2 <- pyrange 0 (j1%:Z + 1) 1].
Lemma mem_su4_round i x : (x \in su4_round i) = valid_sun 4 x && (head 0 x == i%:Z).
Proof.
apply/flatten_mapP/idP => [[j]|].
  rewrite mem_pyrange // dvd1n andbT => h /mapP[k].
  by rewrite mem_pyrange // dvd1n andbT => h' ->; rewrite /valid_sun /=; lia.
case: x => [|a [|b [|c [|d [|]]]]] //=; rewrite /valid_sun /= => h.
exists b; first by rewrite mem_pyrange // dvd1n; lia.
by apply/mapP; exists c; [rewrite mem_pyrange // dvd1n; lia | congr [:: _; _; _; _]; lia].
Qed.
Lemma pairwise_flatten (S T : eqType) (r : rel T) (f : S -> seq T) (q : rel S) (s : seq S) :
  pairwise q s -> (forall x, x \in s -> pairwise r (f x)) ->
  (forall x y u v, q x y -> u \in f x -> v \in f y -> r u v) -> pairwise r (flatten [seq f x | x <- s]).
Proof.
move=> + + hc; elim: s => //= x s IH /andP[/allP hx hs] hf.
rewrite pairwise_cat hf ?mem_head // IH // => [|y ys]; last by apply: hf; rewrite inE ys orbT.
rewrite !andbT; apply/allrelP => u v ux /flatten_mapP[y ys vy].
exact: hc (hx _ ys) ux vy.
Qed.
Lemma su4_enum : enumerates (valid_sun 4) sun_lt [:: 0; 0; 0; 0] su4_iter.
Proof.
have hv i : all (valid_sun 4) (su4_round i) by apply/allP => x; rewrite mem_su4_round => /andP[].
apply: (@enum_rounds _ _ _ _ su4_round) => //.
- by move=> x _; have [h _ _] := lts_total; apply: h.
- move=> i; apply: pairwise_flatten (pyrange_lt _ _ (ltn0Sn 0)) _ _ => [j _|j k u v jk].
    rewrite pairwise_map; apply: sub_pairwise (pyrange_lt _ _ (ltn0Sn 0)) => a b /= h.
    by rewrite /sun_lt /= !eqxx; case: eqP; lia.
  move=> /mapP[a _ ->] /mapP[b _ ->]; rewrite /sun_lt /= eqxx; case: eqP; lia.
- move=> i j x y ij; rewrite !mem_su4_round => /andP[/and3P[/eqP e1 _ _] /eqP h1] /andP[/and3P[/eqP e2 _ _] /eqP h2].
  by apply: head_lt; [rewrite e1 e2|rewrite h1 h2; lia].
- by move=> x vx; exists (absz (head 0 x)); rewrite mem_su4_round vx (gez0_abs (valid_head vx)) eqxx.
- move=> n; rewrite /su4_iter (mapR_id (@sun_len_ok 4)) //.
  by apply/allP => x /mem_rounds[i _ h]; apply: (allP (hv i)).
Qed.

Lemma prod_lt_total (I1 I2 : eqType) (v1 : pred I1) (v2 : pred I2) lt1 lt2 :
  strict_total v1 lt1 -> strict_total v2 lt2 ->
  strict_total (fun x => v1 x.1 && v2 x.2) (prod_lt lt1 lt2).
Proof. exact: lt2_total. Qed.

(** * SU2Real: the dimensions balance except for two half-integers *)
Lemma su2r_sum t1 t2 : nonneg t1 -> nonneg t2 ->
  \sum_(t <- pyrange `|t1 - t2| (t1 + t2 + 2) 2) su2r_dim t
  = (if odd (absz (t1 + t2)) then 2 else 1) * ((t1 + 1) * (t2 + 1)).
Proof.
rewrite /nonneg => h1 h2; rewrite -range_dim2 // big_distrr /=.
have p : perm_eq (pyrange `|t1 - t2| (t1 + t2 + 2) 2) (pyrange `|t1 - t2| (t1 + t2 + 1) 2).
  apply: uniq_perm; rewrite ?pyrange_uniq // => t.
  by rewrite su2r_mem // mem_range2.
rewrite (perm_big _ p) /= big_seq [RHS]big_seq; apply: eq_bigr => t.
rewrite mem_range2 // /triangle2 => /andP[/and3P[a b c] d]; rewrite /su2r_dim.
by case: ifP; case: ifP; lia.
Qed.
Lemma su2r_balance t1 t2 : nonneg t1 -> nonneg t2 ->
  (\sum_(t <- pyrange `|t1 - t2| (t1 + t2 + 2) 2) su2r_dim t == su2r_dim t1 * su2r_dim t2)
  = ~~ (odd (absz t1) && odd (absz t2)).
Proof.
move=> h1 h2; rewrite su2r_sum //; move: h1 h2; rewrite /nonneg /su2r_dim => h1 h2.
case o1: (odd (absz t1)); case o2: (odd (absz t2)); rewrite /=.
- have -> : (t1 %% 2)%Z == 0 = false by lia.
  have -> : (t2 %% 2)%Z == 0 = false by lia.
  have -> : odd (absz (t1 + t2)) = false by lia.
  by apply/eqP; nia.
- have -> : (t1 %% 2)%Z == 0 = false by lia.
  have -> : (t2 %% 2)%Z == 0 by lia.
  have -> : odd (absz (t1 + t2)) by lia.
  by apply/eqP; nia.
- have -> : (t1 %% 2)%Z == 0 by lia.
  have -> : (t2 %% 2)%Z == 0 = false by lia.
  have -> : odd (absz (t1 + t2)) by lia.
  by apply/eqP; nia.
- have -> : (t1 %% 2)%Z == 0 by lia.
  have -> : (t2 %% 2)%Z == 0 by lia.
  have -> : odd (absz (t1 + t2)) = false by lia.
  by apply/eqP; nia.
Qed.
