(** SunDim: S_to_Ss and S_to_Ms enumerate the interlacing rows and patterns in strict
    lexicographic order; their number is the Weyl product. *)
From Coq Require Import ZArith String Ascii.
From Verif Require Import McRing.
From mathcomp Require Import all_ssreflect all_algebra perm.
From mathcomp.zify Require Import zify.
From Verif Require Import Base Nd Sun SunDet.

Set Implicit Arguments.
Unset Strict Implicit.
Unset Printing Implicit Defensive.

Import GRing.Theory Num.Theory Order.Theory.
Local Open Scope ring_scope.

(** lo, lo + 1, ..., hi. *)
Definition ivl (lo hi : int) : seq int :=
  [seq lo + k%:Z | k <- iota 0 (if (hi - lo + 1)%R is Posz m then m else 0%N)].
Lemma mem_ivl lo hi x : (x \in ivl lo hi) = (lo <= x <= hi).
Proof.
apply/mapP/idP => [[k]|/andP[h1 h2]].
  by rewrite mem_iota; case e: (hi - lo + 1) => [m|m] // hk ->; lia.
exists `|x - lo|%N; last by lia.
by rewrite mem_iota; case e: (hi - lo + 1) => [m|m]; lia.
Qed.
Lemma ivl_lt lo hi : pairwise <%R (ivl lo hi).
Proof.
rewrite /ivl; case: (hi - lo + 1) => [m|m] //; rewrite pairwise_map.
by apply: (@sub_pairwise _ ltn) => [x y /=|]; [lia | rewrite -(sorted_pairwise ltn_trans) iota_ltn_sorted].
Qed.
Lemma ivl_rev lo hi : [seq hi - x | x <- rev (zrange (hi - lo + 1))] = ivl lo hi.
Proof.
rewrite /zrange /ivl; case e: (hi - lo + 1) => [m|m] //.
rewrite -map_rev -map_comp; apply: (@eq_from_nth _ 0) => [|i].
  by rewrite !size_map size_rev.
rewrite size_map size_rev size_iota => hi'.
rewrite (nth_map 0%N) ?size_rev ?size_iota // nth_rev ?size_iota // nth_iota ?(nth_map 0%N) ?size_iota ?nth_iota //=.
- lia.
- by rewrite /= in hi'; lia.
Qed.
Lemma sum_ivl (R : zmodType) lo hi (g : int -> R) m : hi - lo + 1 = Posz m ->
  \sum_(t <- ivl lo hi) g t = \sum_(k < m) g (hi - k%:Z).
Proof.
move=> e; rewrite -ivl_rev /zrange e big_map -map_rev big_map.
rewrite (perm_big (iota 0 m)) /=; last by rewrite perm_rev.
by rewrite -{1}[m]subn0 -/(index_iota 0 m) big_mkord.
Qed.

Fixpoint irows (S : weight) : seq weight :=
  match S with
  | a :: ((b :: _) as S') => [seq x :: T | x <- ivl b a, T <- irows S']
  | _ => [:: [::]]
  end.
(** T interlaces S. *)
Fixpoint interl (S T : weight) : bool :=
  match S, T with
  | [:: _], [::] => true
  | a :: ((b :: _) as S'), t :: T' => (b <= t <= a) && interl S' T'
  | _, _ => false
  end.

Lemma irows2 a b (S : weight) : irows [:: a, b & S] = [seq x :: T | x <- ivl b a, T <- irows (b :: S)].
Proof. by []. Qed.
Lemma interl2 a b (S : weight) t T : interl [:: a, b & S] (t :: T) = (b <= t <= a) && interl (b :: S) T.
Proof. by []. Qed.
Lemma mem_irows (S T : weight) : (0 < size S)%N -> (T \in irows S) = interl S T.
Proof.
elim: S T => // a [|b S] IH T _; first by case: T.
rewrite irows2; case: T => [|t T]; first by apply/negbTE/allpairsP => -[[x y] [_ _]].
apply/allpairsP/idP => [[[x y] [h1 h2 [-> ->]]]|].
  by move: h1 h2; rewrite interl2 mem_ivl IH // => -> ->.
by rewrite interl2 -mem_ivl -IH // => /andP[h1 h2]; exists (t, T).
Qed.
Lemma interlP (S T : weight) : (0 < size S)%N ->
  reflect (size T = (size S).-1 /\ (forall i, (i.+1 < size S)%N -> S`_i.+1 <= T`_i <= S`_i)) (interl S T).
Proof.
move=> s0; apply: (iffP idP).
  elim: S T s0 => // a [|b S] IH T _; first by case: T.
  case: T => [|t T] //; rewrite interl2 => /andP[h /IH -/(_ isT)[s1 s2]]; split=> [|[|i] hi] /=; first by rewrite s1.
  - by [].
  - exact: s2.
elim: S T s0 => [|a [|b S] IH] T // _; first by case: T => // t T [].
case: T => [|t T] [] // [st] h; rewrite interl2 (h 0%N) //=.
by have := IH T; apply; split=> // i hi; apply: (h i.+1).
Qed.

Lemma irows_lt (S : weight) : pairwise (lexlt <%R) (irows S).
Proof.
elim: S => // a [|b S] IH //; rewrite irows2.
move: (ivl b a) (ivl_lt b a) => l; move: (irows _) IH => P hP.
elim: l => //= x l IHl /andP[hx hl].
rewrite pairwise_cat IHl // andbT; apply/andP; split.
  apply/allrelP => y z /mapP[T _ ->] /allpairsP[[w U] [/= hw _ ->]] /=.
  by have := allP hx _ hw; case: (x =P w) => // <-; rewrite ltxx.
by rewrite pairwise_map; apply: sub_pairwise hP => T U /=; rewrite eqxx.
Qed.

Lemma S_to_SsE S : valid_S S -> (1 < size S)%N -> S_to_Ss S = Ok (irows S).
Proof.
move=> v h; rewrite /S_to_Ss v /= gtn_eqF //; congr (Ok _).
have {v h} : (0 < size S)%N by apply: ltn_trans h.
elim: S => // a [|b S] IH _ //.
rewrite irows2 -IH //= allpairs_mapr -(ivl_rev b a) allpairs_mapl /= map_allpairs /=.
congr (flatten _); apply: eq_map => x; apply: eq_map => T.
rewrite !subn1 /= -[X in iota X _]addn0 iotaDl -map_comp; congr (_ :: _).
Qed.

Lemma valid_SP S : reflect ((0 < size S)%N /\ (forall i, (i.+1 < size S)%N -> S`_i.+1 <= S`_i)) (valid_S S).
Proof.
rewrite /valid_S; case: S => [|a S]; first by constructor; case.
rewrite /=; apply: (iffP idP) => [/(all_nthP (0, 0)) h|[_ h]].
  split=> // i hi; have sz : (i < minn (size S).+1 (size S))%N by move: hi => /=; lia.
  by have := h i; rewrite size_zip nth_zip_cond size_zip /= sz => /(_ isT).
apply/(all_nthP (0, 0)) => i; rewrite size_zip nth_zip_cond size_zip /= => hi.
by rewrite hi /=; apply: h; move: hi; rewrite leq_min => /andP[].
Qed.

Lemma irows_valid S T : valid_S S -> (1 < size S)%N -> T \in irows S -> valid_S T /\ size T = (size S).-1.
Proof.
move=> v h; rewrite mem_irows ?(ltn_trans _ h) // => hT.
have [st it] := elimT (interlP _ (ltn_trans (ltn0Sn 0) h)) hT; split=> //; apply/valid_SP; split; first by rewrite st; case: (S) h => [|? []].
move=> i; rewrite st => hi.
have /andP[_ h1] := it i.+1 ltac:(lia); have /andP[h2 _] := it i ltac:(lia).
exact: le_trans h1 h2.
Qed.

(** The sum of a product over the interlacing rows is the product of the sums. *)
Lemma sum_irows (R : comRingType) (S : weight) (f : nat -> int -> R) : (0 < size S)%N ->
  \sum_(T <- irows S) \prod_(i < (size S).-1) f i T`_i =
  \prod_(i < (size S).-1) \sum_(t <- ivl S`_i.+1 S`_i) f i t.
Proof.
elim: S f => // a [|b S] IH f _; first by rewrite big_seq1 !big_ord0.
rewrite irows2 big_allpairs_dep /= big_ord_recl /= mulr_suml; apply: eq_bigr => x _.
rewrite -(IH (fun i => f i.+1)) //= mulr_sumr; apply: eq_bigr => T _.
by rewrite big_ord_recl.
Qed.

Lemma foldl_mul (T : Type) (f : T -> rat) d s : foldl (fun d j => d * f j) d s = d * \prod_(j <- s) f j.
Proof. by elim: s d => [|x s IH] d /=; rewrite ?big_nil ?mulr1 // IH big_cons mulrA. Qed.

Lemma weylE S : weyl S = vdm (size S) (fun i => i%:R - (S`_i)%:~R).
Proof.
rewrite /weyl vdmE; set n := size S.
pose g i j : rat := 1 + (S`_i - S`_j)%:~R / (j%:Z - i%:Z)%:~R.
have -> : forall s d, foldl (fun d i => foldl (fun d j => d * g i j) d (iota i.+1 (n - i.+1))) d s
    = d * \prod_(i <- s) \prod_(j <- iota i.+1 (n - i.+1)) g i j.
  elim=> [|i s IH] d /=; first by rewrite big_nil mulr1.
  by rewrite foldl_mul IH big_cons mulrA.
rewrite mul1r -{1}[n]subn0 -/(index_iota 0 n) big_mkord.
under eq_bigr => i _ do rewrite -/(index_iota i.+1 n) (@big_nat_widenl _ _ _ _ 0) // big_mkord.
rewrite (exchange_big_dep predT) //=; apply: eq_bigr => j _.
rewrite (big_ord_widen_cond n predT (fun l => (j%:R - (S`_j)%:~R - (l%:R - (S`_l)%:~R)) / (j%:R - l%:R))) 1?ltnW //.
apply: eq_bigr => l hl; rewrite /g rmorphB /= [(j%:Z - _)%:~R]rmorphB /= -!pmulrn.
have nz : j%:R - l%:R != 0 :> rat by rewrite subr_eq0 eqr_nat gtn_eqF.
have dE (a c : rat) : c != 0 -> 1 + a / c = (c + a) / c by move=> c0; rewrite mulrDl divff.
by rewrite dE //; congr (_ / _); mcring.
Qed.

Lemma sum_ivl_bin lo hi i j : lo <= hi ->
  \sum_(t <- ivl lo hi) bin_ j (i%:R - t%:~R : rat) =
  bin_ j.+1 (i.+1%:R - lo%:~R) - bin_ j.+1 (i%:R - hi%:~R).
Proof.
move=> h; have [m e] : exists m, hi - lo + 1 = Posz m by exists (absz (hi - lo + 1)%R); lia.
rewrite (sum_ivl _ e).
have -> : i.+1%:R - lo%:~R = i%:R - hi%:~R + m%:R :> rat.
  have -> : m%:R = (hi - lo + 1)%:~R :> rat by rewrite e.
  by rewrite rmorphD rmorphB rmorph1 /= mulrS; mcring.
rewrite -bin_sum; apply: eq_bigr => k _; congr (bin_ _ _); rewrite rmorphB /= -pmulrn; mcring.
Qed.

Theorem branching S : valid_S S -> (1 < size S)%N -> \sum_(T <- irows S) weyl T = weyl S.
Proof.
move=> v h; have [_ sS] := elimT (valid_SP _) v; have s0 : (0 < size S)%N by apply: ltn_trans h.
rewrite weylE -(prednK s0) vdm_diff.
rewrite big_seq; under eq_bigr => T hT.
  have [_ sT] := irows_valid v h hT; rewrite weylE sT /vdm /determinant.
  under eq_bigr => s _ do under eq_bigr => i _ do rewrite mxE.
  over.
rewrite -big_seq exchange_big /=; apply: eq_bigr => s _; rewrite -mulr_sumr; congr (_ * _).
have := @sum_irows [comRingType of rat] S (fun i t => if (insub i : option 'I_(size S).-1) is Some i' then bin_ (s i') (i%:R - t%:~R) else 0%R) s0.
under eq_bigr => T _ do under eq_bigr => i _ do rewrite valK.
move=> ->; apply: eq_bigr => i _; rewrite mxE valK sum_ivl_bin //.
by apply: sS; rewrite -ltn_predRL.
Qed.

(** The list of patterns. *)
Fixpoint gtp (n : nat) (S : weight) : seq pattern :=
  match n with
  | 0%N => [::]
  | n'.+1 => if size S == 1%N then [:: [:: S]]
             else flatten [seq [seq S :: M | M <- gtp n' T] | T <- irows S]
  end.
Lemma S_to_Ms_fuelE n S : size S = n -> valid_S S -> S_to_Ms_fuel n S = Ok (gtp n S).
Proof.
elim: n S => [|n IH] S sS v; first by case: (S) sS v.
rewrite /= v /=; case: ifP => [/eqP s1|s1].
  by rewrite /S_to_Ss v /= s1 eqxx.
have h : (1 < size S)%N by case: (S) s1 v => [|? []].
rewrite S_to_SsE //= (@mapR_ok_in _ _ _ (fun T => [seq S :: M | M <- gtp n T])) // => T hT.
by have [vT sT] := irows_valid v h hT; rewrite IH // sT sS.
Qed.
Lemma S_to_MsE S : valid_S S -> S_to_Ms S = Ok (gtp (size S) S).
Proof. exact: S_to_Ms_fuelE. Qed.
Lemma S_to_Ms_err S : ~~ valid_S S -> S_to_Ms S = Err AssertionError.
Proof. by rewrite /S_to_Ms; case: (size S) => [|n] /= /negbTE ->. Qed.

Theorem size_gtp S : valid_S S -> (size (gtp (size S) S))%:R = weyl S.
Proof.
move: {-2}(size S) (erefl (size S)) => n; elim: n S => [|n IH] S sS v; first by case: (S) sS v.
rewrite [gtp _ _]/=; case: ifP => [/eqP s1|s1].
  by rewrite weylE s1 vdmE big_ord1 big_ord0.
have h : (1 < size S)%N by case: (S) s1 v => [|? []].
rewrite -branching // size_flatten sumnE !big_map natr_sum big_seq [RHS]big_seq; apply: eq_bigr => T hT.
by have [vT sT] := irows_valid v h hT; rewrite size_map IH // sT -sS.
Qed.

Theorem dimSE S : valid_S S -> dimS S = Ok (size (gtp (size S) S))%:Z.
Proof. by move=> v; rewrite /dimS v /= -size_gtp // pmulrn denq_int /= numq_int. Qed.

Lemma gtp_gt0 S : valid_S S -> (0 < size (gtp (size S) S))%N.
Proof.
move: {-2}(size S) (erefl (size S)) => n; elim: n S => [|n IH] S sS v; first by case: (S) sS v.
rewrite [gtp _ _]/=; case: ifP => // s1; have h : (1 < size S)%N by case: (S) s1 v => [|? []].
have : behead S \in irows S.
  rewrite mem_irows 1?ltnW //; apply/interlP; first exact: ltnW.
  split=> [|i hi]; rewrite ?size_behead // nth_behead lexx /=.
  by have [_ ->] := elimT (valid_SP _) v.
move=> hT; have [vT sT] := irows_valid v h hT; have := IH _ _ vT; rewrite sT -sS => /(_ erefl).
case e: (irows S) hT => [|U Us] // hT _ /=; rewrite size_cat addn_gt0.
have hU : U \in irows S by rewrite e inE eqxx.
by have [vU sU] := irows_valid v h hU; rewrite size_map IH // sU -sS.
Qed.

(** A Gelfand-Tsetlin pattern with top row S, by its entries. *)
Definition is_gt (S : weight) (M : pattern) : Prop :=
  [/\ size M = size S, nth [::] M 0 = S,
      forall i, (i < size S)%N -> size (nth [::] M i) = (size S - i)%N &
      forall i j, (i.+1 + j < size S)%N -> ent M i j.+1 <= ent M i.+1 j <= ent M i j].

Lemma gtpS n S : (1 < size S)%N ->
  gtp n.+1 S = flatten [seq [seq S :: M | M <- gtp n T] | T <- irows S].
Proof. by move=> h; rewrite /= gtn_eqF. Qed.

Lemma mem_gtp (S : weight) (M : pattern) : valid_S S -> M \in gtp (size S) S <-> is_gt S M.
Proof.
move: {-2}(size S) (erefl (size S)) => n; elim: n S M => [|n IH] S M sS v; first by case: (S) sS v.
have [s1|s1] := boolP (size S == 1%N).
  rewrite /= s1 inE; have sn : size S = 1%N by apply/eqP.
  split=> [/eqP->|[h1 h2 _ _]]; last first.
    by case: M h1 h2 => [|m [|m' M]]; rewrite sn //= => _ ->.
  split=> //=; rewrite sn //; last by case.
have h : (1 < size S)%N by case: (S) s1 v => [|? []].
rewrite gtpS //; split=> [/flattenP[_ /mapP[T hT ->] /mapP[N hN ->]]|].
  have [vT sT] := irows_valid v h hT; have nT : n = size T by rewrite sT -sS.
  have [g1 g2 g3 g4] := (IH _ _ nT vT).1 hN.
  have s0 : (0 < size S)%N by apply: ltnW.
  have [_ iT] : size T = (size S).-1 /\ (forall i, (i.+1 < size S)%N -> S`_i.+1 <= T`_i <= S`_i).
    by apply/(interlP _ s0); rewrite -mem_irows.
  split=> //=; [by rewrite g1 -nT | by case=> [|i] /= hi; rewrite ?subn0 // g3 -?nT -?sS; move: hi; rewrite -sS; lia |].
  case=> [|i] j hij; last by apply: g4; rewrite -nT; lia.
  by rewrite /ent /= g2; apply: iT; rewrite -sS; lia.
case: M => [|m M] [g1 g2 g3 g4]; first by rewrite -g1 in h.
rewrite /= in g1 g2; subst m.
have s1M : nth [::] M 0 \in irows S.
  rewrite mem_irows 1?ltnW //; apply/interlP; first exact: ltnW.
  by split=> [|i hi]; [rewrite (g3 1%N) // subn1 | apply: (g4 0%N)].
have [vT sT] := irows_valid v h s1M.
apply/flattenP; exists [seq S :: N | N <- gtp n (nth [::] M 0)]; first by apply/mapP; exists (nth [::] M 0).
apply/mapP; exists M => //; apply/IH => //; first by rewrite sT -sS.
split=> //; first by rewrite sT; lia.
- move=> i; rewrite sT => hi; have -> : nth [::] M i = nth [::] (S :: M) i.+1 by [].
  by rewrite g3; lia.
- by move=> i j; rewrite sT => hij; apply: (g4 i.+1 j); lia.
Qed.

Lemma gtp_lt n S : pairwise (lexlt (lexlt <%R)) (gtp n S).
Proof.
elim: n S => // n IH S /=; case: ifP => // _.
elim: (irows S) (irows_lt S) => //= T l IHl /andP[hT hl].
rewrite pairwise_cat IHl // andbT; apply/andP; split.
  apply/allrelP => M N /mapP[M' hM ->] /flattenP[_ /mapP[U hU ->] /mapP[N' hN ->]] /=.
  rewrite eqxx.
  have hd k R P : P \in gtp k R -> exists P', P = R :: P'.
    by case: k => //= k; case: ifP => [_|_]; [rewrite inE => /eqP-> | case/flattenP=> _ /mapP[? _ ->] /mapP[? _ ->]]; eexists.
  have [M'' ->] := hd _ _ _ hM; have [N'' ->] := hd _ _ _ hN => /=.
  have := allP hT _ hU; case: (T =P U) => // <-.
  suff -> : lexlt <%R T T = false by [].
  by elim: (T) => //= x t ->; rewrite eqxx.
by rewrite pairwise_map; apply: sub_pairwise (IH T) => M N /=; rewrite eqxx.
Qed.

Lemma lexlt_irr (T : eqType) (lt : rel T) : irreflexive (lexlt lt).
Proof. by elim=> //= x s; rewrite eqxx. Qed.
Lemma pairwise_irr_uniq (T : eqType) (lt : rel T) s : irreflexive lt -> pairwise lt s -> uniq s.
Proof. by move=> irr; apply: pairwise_uniq. Qed.
Lemma gtp_uniq n S : uniq (gtp n S).
Proof. exact: pairwise_irr_uniq (lexlt_irr _) (gtp_lt n S). Qed.
Lemma irows_uniq S : uniq (irows S).
Proof. exact: pairwise_irr_uniq (lexlt_irr _) (irows_lt S). Qed.

Lemma gtp_head n S M : M \in gtp n S -> nth [::] M 0 = S.
Proof.
by case: n => //= k; case: ifP => [_|_]; [rewrite inE => /eqP-> | case/flattenP=> _ /mapP[? _ ->] /mapP[? _ ->]].
Qed.
Notation below n S l := (flatten [seq [seq (S : weight) :: M | M <- gtp n T] | T <- l]).

Lemma index_loopE n rec (S : weight) (l : seq weight) (i : nat) :
  (forall T, T \in l -> valid_S T /\ size T = n) ->
  (forall T k, T \in l -> (k < size (gtp n T))%N -> rec T k%:Z = Ok (Some (nth [::] (gtp n T) k))) ->
  (i < size (below n S l))%N ->
  index_loop rec S l i = Ok (Some (nth [::] (below n S l) i)).
Proof.
elim: l i => [|T l IH] i vl hr //= hi.
have [vT sT] := vl T ltac:(by rewrite inE eqxx).
rewrite dimSE // sT [rbind _ _]/= ltz_nat nth_cat size_map; case: ifP => h.
  by rewrite hr ?inE ?eqxx //= (nth_map [::]).
have -> : i%:Z - (size (gtp n T))%:Z = (i - size (gtp n T))%N by lia.
rewrite IH // => [U hU|U k hU|]; [by apply: vl; rewrite inE hU orbT | by apply: hr; rewrite inE hU orbT |].
by move: hi h; rewrite size_cat size_map; move: (size (gtp n T)) (size (flatten _)) => a b; lia.
Qed.
Lemma index_to_M_fuelE n S (i : nat) : size S = n -> valid_S S -> (i < size (gtp n S))%N ->
  index_to_M_fuel n S i = Ok (Some (nth [::] (gtp n S) i)).
Proof.
elim: n S i => [|n IH] S i sS v hi; first by case: (S) sS v.
have -> : index_to_M_fuel n.+1 S i = (if size S == 1%N then Ok (Some [:: S])
    else do Ss <- S_to_Ss S; index_loop (index_to_M_fuel n) S Ss i).
  by rewrite [LHS]/= v [rbind _ _]/= dimSE // [rbind _ _]/= sS ltz_nat hi.
have [s1|s1] := boolP (size S == 1%N).
  by move: hi; rewrite /= s1; case: i.
have h : (1 < size S)%N by case: (S) s1 v => [|? []].
rewrite S_to_SsE //= (negbTE s1).
apply: index_loopE => [T hT|T k hT hk|]; last by move: hi; rewrite /= (negbTE s1).
- by have [vT sT] := irows_valid v h hT; rewrite sT sS.
- by have [vT sT] := irows_valid v h hT; apply: IH => //; rewrite sT sS.
Qed.
Theorem index_to_ME S (i : nat) : valid_S S -> (i < size (gtp (size S) S))%N ->
  index_to_M S i = Ok (Some (nth [::] (gtp (size S) S) i)).
Proof. by move=> v hi; apply: index_to_M_fuelE. Qed.
Lemma index_to_M_err S (i : int) : valid_S S -> (size (gtp (size S) S))%:Z <= i ->
  index_to_M S i = Err AssertionError.
Proof.
move=> v hi; rewrite /index_to_M.
by case e: (size S) hi => [|n] hi /=; rewrite v /= dimSE // e /= ltNge hi.
Qed.

Lemma find_rowE n (S M1 : weight) (l : seq weight) (M : pattern) (i : int) :
  (forall T, T \in l -> valid_S T /\ size T = n) -> M1 \in l -> M1 :: M \in gtp n M1 ->
  exists k : nat, find_row M1 l i = Ok (Some (i + k%:Z)) /\
    index (S :: M1 :: M) (below n S l) = (k + index (M1 :: M) (gtp n M1))%N.
Proof.
elim: l i => // T l IH i vl; rewrite inE /= => hM hg.
have inj : injective (cons S) by move=> a b [].
case: (M1 =P T) hM => [<- _|ne /= hM].
  exists 0%N; rewrite addr0; split=> //; rewrite index_cat add0n.
  by rewrite mem_map // hg index_map.
have [vT sT] := vl T ltac:(by rewrite inE eqxx).
rewrite dimSE //=; have [|k [-> e]] := IH (i + (size (gtp (size T) T))%:Z) _ hM hg.
  by move=> U hU; apply: vl; rewrite inE hU orbT.
exists (size (gtp n T) + k)%N; split; first by rewrite sT PoszD addrA.
rewrite index_cat ifF ?size_map ?e ?addnA //.
by apply/negbTE/mapP => -[N hN [eN]]; case: ne; rewrite -(gtp_head hN) -eN.
Qed.

Theorem M_to_indexE S M : valid_S S -> M \in gtp (size S) S ->
  M_to_index M = Ok (Some (index M (gtp (size S) S))%:Z).
Proof.
move: {-2}(size S) (erefl (size S)) => n; elim: n S M => [|n IH] S M sS v hM; first by case: (S) sS v.
have [s1|s1] := boolP (size S == 1%N).
  by move: hM; rewrite /= s1 inE => /eqP->; rewrite /= v s1 /= eqxx.
have h : (1 < size S)%N by case: (S) s1 v => [|? []].
move: hM; rewrite gtpS // => hM; have /flattenP[_ /mapP[T hT ->] /mapP[N hN eM]] := hM.
rewrite {M}eM in hM *; have [vT sT] := irows_valid v h hT.
have hd := gtp_head hN; case: N hN hd hM => [|N1 N] hN /= hd hM.
  by move: hd vT => <-.
subst N1; rewrite v (negbTE s1) /= S_to_SsE //=.
have [U hU|k [-> e]] := @find_rowE n S T (irows S) N 0 _ hT hN.
  by have [vU sU] := irows_valid v h hU; rewrite sU -sS.
by rewrite [rbind _ _]/= -/(M_to_index (T :: N)) (IH T) ?sT -?sS //= e add0r PoszD.
Qed.
Lemma index_to_M_to_index S (i : nat) : valid_S S -> (i < size (gtp (size S) S))%N ->
  M_to_index (nth [::] (gtp (size S) S) i) = Ok (Some i%:Z).
Proof. by move=> v hi; rewrite (@M_to_indexE S) // ?index_uniq ?gtp_uniq // mem_nth. Qed.
