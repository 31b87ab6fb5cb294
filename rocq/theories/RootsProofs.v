(** RootsProofs: vectors of lie_algebra_utils.py in coordinates. *)
From Coq Require Import ZArith.
From Verif Require Import McRing.
From mathcomp Require Import all_ssreflect all_algebra.
From mathcomp Require Import zify.
From Verif Require Import Base Parse Roots.

Set Implicit Arguments.
Unset Strict Implicit.
Unset Printing Implicit Defensive.

Import GRing.Theory Num.Theory.
Local Open Scope ring_scope.

Lemma size_vadd u v m : size u = m -> size v = m -> size (vadd u v) = m.
Proof. by move=> su sv; rewrite size_map size_zip su sv minnn. Qed.
Lemma size_vsub u v m : size u = m -> size v = m -> size (vsub u v) = m.
Proof. by move=> su sv; rewrite size_map size_zip su sv minnn. Qed.
Lemma size_vscale a u : size (vscale a u) = size u. Proof. by rewrite size_map. Qed.
Lemma size_eps m i : size (eps m i) = m. Proof. by rewrite size_mkseq. Qed.

Lemma nth_vadd u v k : size u = size v -> (vadd u v)`_k = u`_k + v`_k.
Proof.
move=> e; case: (ltnP k (size u)) => h.
  by rewrite (nth_map (0, 0)) ?nth_zip // size_zip e minnn -e.
by rewrite !nth_default ?addr0 // -?e // size_map size_zip -e minnn.
Qed.
Lemma nth_vsub u v k : size u = size v -> (vsub u v)`_k = u`_k - v`_k.
Proof.
move=> e; case: (ltnP k (size u)) => h.
  by rewrite (nth_map (0, 0)) ?nth_zip // size_zip e minnn -e.
by rewrite !nth_default ?subr0 // -?e // size_map size_zip -e minnn.
Qed.
Lemma nth_vscale a u k : (vscale a u)`_k = a * u`_k.
Proof.
case: (ltnP k (size u)) => h; first by rewrite (nth_map 0).
by rewrite !nth_default ?mulr0 ?size_map.
Qed.
Lemma nth_eps m i k : (eps m i)`_k = ((k < m)%N && (k == i))%:R.
Proof.
case: (ltnP k m) => h; first by rewrite nth_mkseq.
by rewrite nth_default ?size_eps.
Qed.
Lemma nth_vsum m l k : all (fun v => size v == m) l -> (vsum m l)`_k = \sum_(v <- l) v`_k.
Proof.
rewrite /vsum => al.
suff H a : size a = m -> (foldl vadd a l)`_k = a`_k + \sum_(v <- l) v`_k.
  by rewrite H ?size_nseq // nth_nseq if_same add0r.
elim: l a al => [|v l IH] a /=; first by rewrite big_nil addr0.
move=> /andP[/eqP sv al] sa; rewrite IH ?big_cons ?addrA ?nth_vadd ?sa //.
exact: size_vadd.
Qed.
Lemma size_vsum m l : all (fun v => size v == m) l -> size (vsum m l) = m.
Proof.
rewrite /vsum => al.
have : size (nseq m (0 : rat)) = m by rewrite size_nseq.
elim: l (nseq m _) al => [|v l IH] a //= /andP[/eqP sv al] sa.
by apply: IH => //; apply: size_vadd.
Qed.

Lemma dotE m u v : size u = m -> size v = m -> dot u v = \sum_(k < m) u`_k * v`_k.
Proof.
move=> su sv; rewrite /dot (big_nth (0, 0)) size_zip su sv minnn big_mkord.
by apply: eq_bigr => k _; rewrite nth_zip ?su.
Qed.

Lemma dot_eps m i v : size v = m -> dot (eps m i) v = v`_i.
Proof.
move=> sv; rewrite (dotE (size_eps m i) sv); case: (ltnP i m) => h.
  rewrite (bigD1 (Ordinal h)) //= big1 ?addr0 => [|k ne]; rewrite nth_eps.
    by rewrite h eqxx mul1r.
  by move/eqP: ne => ne; case: eqP => [e|]; rewrite ?andbF ?mul0r //; case: ne; apply: val_inj.
rewrite big1 ?nth_default ?sv // => k _; rewrite nth_eps.
by case: eqP => [e|]; rewrite ?andbF ?mul0r //; have := ltn_ord k; rewrite e ltnNge h.
Qed.
Lemma dotDl m u v w : size u = m -> size v = m -> size w = m -> dot (vadd u v) w = dot u w + dot v w.
Proof.
move=> su sv sw; rewrite !(@dotE m) ?(size_vadd su sv) // -big_split /=.
by apply: eq_bigr => k _; rewrite nth_vadd ?su // mulrDl.
Qed.
Lemma dotBl m u v w : size u = m -> size v = m -> size w = m -> dot (vsub u v) w = dot u w - dot v w.
Proof.
move=> su sv sw; rewrite !(@dotE m) ?(size_vsub su sv) // -sumrB /=.
by apply: eq_bigr => k _; rewrite nth_vsub ?su // mulrBl.
Qed.
Lemma dotZl a u w : size u = size w -> dot (vscale a u) w = a * dot u w.
Proof.
move=> s; rewrite !(@dotE (size w)) ?size_vscale // mulr_sumr.
by apply: eq_bigr => k _; rewrite nth_vscale mulrA.
Qed.
Lemma dotC m u v : size u = m -> size v = m -> dot u v = dot v u.
Proof. by move=> su sv; rewrite !(@dotE m) //; apply: eq_bigr => k _; rewrite mulrC. Qed.

(** The pairs j < i < m, as in the comprehensions. *)
Lemma range0 n : range 0 n = iota 0 n. Proof. by rewrite /range subn0. Qed.

Section Pairs.
Variables (T : Type) (f : nat -> nat -> T) (R : Type) (idx : R) (op : Monoid.law idx).

Lemma big_pairs m (g : T -> R) :
  \big[op/idx]_(v <- [seq f i j | i <- range 1 m, j <- range 0 i]) g v =
  \big[op/idx]_(1 <= i < m) \big[op/idx]_(0 <= j < i) g (f i j).
Proof. by rewrite big_allpairs_dep. Qed.
End Pairs.

Lemma size_pairs (T : Type) (f : nat -> nat -> T) m :
  size [seq f i j | i <- range 1 m, j <- range 0 i] = 'C(m, 2).
Proof.
rewrite size_allpairs_dep -triangular_sum sumnE big_map /range.
case: m => [|m]; first by rewrite big_nil big_geq.
rewrite subn1 /= big_ltn // add0n /index_iota subn1 /=.
by apply: eq_bigr => i _; rewrite size_iota subn0.
Qed.

Lemma sum_pairs_lo m (k : nat) :
  \sum_(1 <= i < m) \sum_(0 <= j < i) ((k == j)%:R : rat) = (m - 1 - k)%:R.
Proof.
have inner i : \sum_(0 <= j < i) ((k == j)%:R : rat) = (k < i)%N%:R.
  elim: i => [|i IH]; first by rewrite big_geq.
  rewrite big_nat_recr //= IH -natrD; congr _%:R.
  by case: eqP; case: ltnP; case: ltnP => /=; lia.
elim: m => [|m IH]; first by rewrite big_geq.
case: m IH => [|m] IH; first by rewrite big_geq.
rewrite big_nat_recr //= IH inner -natrD; congr _%:R; lia.
Qed.
Lemma sum_pairs_hi m (k : nat) :
  \sum_(1 <= i < m) \sum_(0 <= j < i) ((k == i)%:R : rat) = (if (k < m)%N then k else 0%N)%:R.
Proof.
elim: m => [|m IH]; first by rewrite big_geq.
case: m IH => [|m] IH; first by rewrite big_geq //; case: ltnP => // h; have -> : k = 0%N by lia.
rewrite big_nat_recr //= IH big_const_nat subn0.
have -> n : iter n (+%R ((k == m.+1)%:R : rat)) 0 = (n * (k == m.+1))%N%:R.
  by elim: n => [|n IHn]; rewrite ?mul0n //= IHn -natrD mulSn.
rewrite -natrD; congr _%:R; case: (eqVneq k m.+1) => [->|ne]; rewrite ?muln1 ?muln0;
  do 2?[case: ifP => ?]; lia.
Qed.

(** The coordinates of the vectors that occur. *)
Definition isE m := (size_eps m).
Lemma eB m i j : size (vsub (eps m i) (eps m j)) = m. Proof. by apply: size_vsub; apply: size_eps. Qed.
Lemma eD m i j : size (vadd (eps m i) (eps m j)) = m. Proof. by apply: size_vadd; apply: size_eps. Qed.
Lemma nth_eB m i j k : (vsub (eps m i) (eps m j))`_k = ((k < m)%N && (k == i))%:R - ((k < m)%N && (k == j))%:R.
Proof. by rewrite nth_vsub ?size_eps // !nth_eps. Qed.
Lemma nth_eD m i j k : (vadd (eps m i) (eps m j))`_k = ((k < m)%N && (k == i))%:R + ((k < m)%N && (k == j))%:R.
Proof. by rewrite nth_vadd ?size_eps // !nth_eps. Qed.
Lemma dot_eB m i j v : size v = m -> dot (vsub (eps m i) (eps m j)) v = v`_i - v`_j.
Proof. by move=> sv; rewrite (@dotBl m) ?size_eps // !dot_eps. Qed.
Lemma dot_eD m i j v : size v = m -> dot (vadd (eps m i) (eps m j)) v = v`_i + v`_j.
Proof. by move=> sv; rewrite (@dotDl m) ?size_eps // !dot_eps. Qed.

Lemma all_eps m (s : seq nat) : all (fun v => size v == m) [seq eps m j | j <- s].
Proof. by apply/allP => v /mapP[j _ ->]; rewrite size_eps. Qed.
Lemma size_psum m i : size (vsum m [seq eps m j | j <- range 0 i]) = m.
Proof. by rewrite size_vsum ?all_eps. Qed.
Lemma nth_psum m i k : (vsum m [seq eps m j | j <- range 0 i])`_k = ((k < m)%N && (k < i)%N)%:R.
Proof.
rewrite nth_vsum ?all_eps // big_map range0.
elim: i => [|i IH]; first by rewrite big_nil ltn0 andbF.
rewrite -addn1 iotaD big_cat /= big_seq1 IH nth_eps -natrD; congr _%:R; lia.
Qed.

(** The results, when there are some. *)
Definition sr m n := [seq vsub (eps m i) (eps m i.+1) | i <- iota 0 n].
Definition pm m := [seq vsub (eps m j) (eps m i) | i <- range 1 m, j <- range 0 i].
Definition pp m := [seq vadd (eps m j) (eps m i) | i <- range 1 m, j <- range 0 i].
Definition ee m := [seq eps m i | i <- iota 0 m].
Definition pw m i := vsum m [seq eps m j | j <- range 0 i].
Definition half m := vscale (1 / 2) (vsum m (ee m)).

Lemma concat_ok l : (0 < size l)%N -> all (fun a => (0 < size a)%N) l -> concat l = Ok (flatten l).
Proof.
rewrite /concat => sl al; rewrite ifF //; apply/negP => /orP[/eqP l0|/hasP[a al' /nilP a0]].
  by rewrite l0 in sl.
by have := allP al _ al'; rewrite a0.
Qed.

Lemma RootsA_ok n : (0 < n)%N -> exists d, RootsWeightsA n =
  Ok (RootData (sr n.+1 n) (pm n.+1)
        [seq vsub (pw n.+1 i) (vscale (i%:R / n.+1%:R) (pw n.+1 n.+1)) | i <- iota 1 n]
        (1 :: nseq (n - 1) 0 ++ [:: -1]) d).
Proof.
move=> n0; rewrite /RootsWeightsA.
set d := pjoin _ _ ++ _; exists d.
rewrite !concat_ok ?size_map ?size_iota ?subSS ?subn0 //; try lia.
- rewrite /= range0; congr (Ok (RootData _ _ _ _ _)); last by rewrite /range !subSS !subn0.
  by rewrite /sr; elim: (iota 0 n) => //= i s ->.
- by apply/allP => _ /mapP[i hi ->]; move: hi; rewrite mem_iota size_map size_iota; lia.
- by apply/allP => _ /mapP[i hi ->].
Qed.

Lemma from_end_ee m k : (0 < k <= m)%N -> from_end (ee m) k = Ok (eps m (m - k)).
Proof.
move=> h; rewrite /from_end size_map size_iota ifT; last by lia.
by rewrite (nth_map 0%N) ?nth_iota ?size_iota //; lia.
Qed.
Lemma concat2 a b : (0 < size a)%N -> (0 < size b)%N -> concat [:: a; b] = Ok (a ++ b).
Proof. by rewrite /concat /= /nilp; case: a b => [|? ?] [|? ?] //= _ _; rewrite cats0. Qed.
Lemma pm_gt0 m : (1 < m)%N -> (0 < size (pm m))%N. Proof. by rewrite size_pairs bin_gt0. Qed.
Lemma pp_gt0 m : (1 < m)%N -> (0 < size (pp m))%N. Proof. by rewrite size_pairs bin_gt0. Qed.

Lemma RootsB_ok n : (1 < n)%N -> exists d, RootsWeightsB n =
  Ok (RootData (sr n (n - 1) ++ [:: eps n (n - 1)]) ((pp n ++ pm n) ++ ee n)
        ([seq pw n i | i <- iota 1 (n - 1)] ++ [:: half n])
        ([:: 1; 1] ++ nseq (n - 2) 0) d).
Proof.
move=> n1; rewrite /RootsWeightsB !range0 -/(ee n) from_end_ee; last by lia.
set d := pjoin _ _ ++ _; exists d.
rewrite -/(pp n) -/(pm n) -/(sr n (n - 1)) [rbind (Ok _) _]/=.
rewrite concat2 ?size_map ?size_iota //; last by lia.
rewrite [rbind (Ok _) _]/= concat2 ?pm_gt0 ?pp_gt0 // [rbind (Ok _) _]/=.
rewrite concat2 ?size_cat ?addn_gt0 ?pm_gt0 ?size_map ?size_iota ?orbT //; last by lia.
by rewrite [rbind (Ok _) _]/= concat2 ?size_map ?size_iota //; lia.
Qed.

Lemma RootsC_ok n : (1 < n)%N -> exists d, RootsWeightsC n =
  Ok (RootData (sr n (n - 1) ++ [:: vscale 2 (eps n (n - 1))])
        ((pp n ++ pm n) ++ [seq vscale 2 v | v <- ee n])
        [seq pw n i | i <- iota 1 n]
        ([:: 2] ++ nseq (n - 1) 0) d).
Proof.
move=> n1; rewrite /RootsWeightsC !range0 -/(ee n) from_end_ee; last by lia.
set d := pjoin _ _ ++ _; exists d.
rewrite -/(pp n) -/(pm n) -/(sr n (n - 1)) [rbind (Ok _) _]/=.
rewrite concat2 ?size_map ?size_iota //; last by lia.
rewrite [rbind (Ok _) _]/= concat2 ?pm_gt0 ?pp_gt0 // [rbind (Ok _) _]/=.
rewrite concat2 ?size_cat ?addn_gt0 ?pm_gt0 ?size_map ?size_iota ?orbT //; last by lia.
by rewrite /= /range subSS subn0.
Qed.

Definition pp' m := [seq vadd (eps m i) (eps m j) | i <- range 1 m, j <- range 0 i].
Definition wsD m := [seq pw m i | i <- iota 1 (m - 2)].
Definition fwD m := wsD m ++ [:: vsub (half m) (eps m (m - 1))]
                    ++ (if (2 < m)%N then wsD m else [::]) ++ [:: half m].

Lemma RootsD_ok n : (1 < n)%N -> exists d, RootsWeightsD n =
  Ok (RootData (sr n (n - 1) ++ [:: vadd (eps n (n - 1)) (eps n (n - 2))])
        (pp' n ++ pm n) (fwD n) ([:: 1; 1] ++ nseq (n - 2) 0) d).
Proof.
move=> n1; rewrite /RootsWeightsD !range0 -/(ee n) !from_end_ee; try lia.
set d := spaces _ ++ _; exists d.
rewrite -/(pp' n) -/(pm n) -/(sr n (n - 1)) -/(half n) [rbind (Ok _) _]/=.
rewrite concat2 ?size_map ?size_iota //; last by lia.
rewrite [rbind (Ok _) _]/= concat2 ?pm_gt0 // /pp' ?size_pairs ?bin_gt0 // -/(pp' n) [rbind (Ok _) _]/=.
have -> : [seq vsum n [seq eps n j | j <- range 0 i] | i <- range 1 (n - 1)] = wsD n.
  by rewrite /wsD /pw /range -subnDA.
have sw : size (wsD n) = (n - 2)%N by rewrite size_map size_iota.
rewrite /fwD; case: ltnP => h.
  rewrite ifF; last by lia.
  by rewrite concat_ok //= ?cats0 ?sw //=; lia.
rewrite ifT; last by lia.
rewrite concat_ok //= /wsD.
by have -> : (n - 2)%N = 0%N by lia.
Qed.

Lemma RootsA_err n : ~~ (0 < n)%N -> RootsWeightsA n = Err ValueError.
Proof. by case: n. Qed.
Lemma RootsB_err n : ~~ (1 < n)%N -> RootsWeightsB n = Err (if n == 0%N then IndexError else ValueError).
Proof. by case: n => [|[|n]]. Qed.
Lemma RootsC_err n : ~~ (1 < n)%N -> RootsWeightsC n = Err (if n == 0%N then IndexError else ValueError).
Proof. by case: n => [|[|n]]. Qed.
Lemma RootsD_err n : ~~ (1 < n)%N -> RootsWeightsD n = Err IndexError.
Proof. by case: n => [|[|n]]. Qed.
