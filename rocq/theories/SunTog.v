(** SunTog: three consecutive rows a, b, c of a Gelfand-Tsetlin pattern.  The reflection of
    the entries of b that are at most J in the interval that a, c and J leave them, and the
    counts used by the tensor product rule. *)
From Verif Require Import McRing.
From mathcomp Require Import all_ssreflect all_algebra.
From mathcomp.zify Require Import zify.
From Verif Require Import SunLagr SunRow.

Set Implicit Arguments.
Unset Strict Implicit.
Unset Printing Implicit Defensive.

Import GRing.Theory Num.Theory Order.Theory.
Local Open Scope ring_scope.

(** (x - J)^+ *)
Definition ppart (x J : int) : int := if J < x then x - J else 0.
(** 2 sum (b - J)^+ - sum (a - J)^+ - sum (c - J)^+ *)
Definition gap (a b c : nat -> int) (m : nat) (J : int) : int :=
  (\sum_(q < m) ppart (b q) J) *+ 2 - \sum_(q < m.+1) ppart (a q) J - \sum_(q < m.-1) ppart (c q) J.

(** The ends of the interval of b q. *)
Definition hi_ (a c : nat -> int) (J : int) (q : nat) : int :=
  Num.min J (if q is q'.+1 then Num.min (a q) (c q') else a q).
Definition lo_ (a c : nat -> int) (m q : nat) : int :=
  if (q.+1 < m)%N then Num.max (a q.+1) (c q) else a q.+1.
Definition tog (a b c : nat -> int) (m : nat) (J : int) (q : nat) : int :=
  if J < b q then b q else hi_ a c J q + lo_ a c m q - b q.

Lemma tog_ext a b c a' b' c' m J q : a =1 a' -> c =1 c' -> b q = b' q ->
  tog a b c m J q = tog a' b' c' m J q.
Proof. by move=> ea ec eb; rewrite /tog /hi_ /lo_ eb !ea; case: q {eb} => [|q]; rewrite ?ec. Qed.

Section Rows.
Variables (a b c : nat -> int) (m : nat) (J : int).
Hypothesis ok : rows_ok a b c m.

Lemma lo_le q : (q < m)%N -> lo_ a c m q <= b q.
Proof.
move=> qm; rewrite /lo_; have /andP[h1 h2] := ok.1 q qm.
case: ifP => // h; have /andP[h3 h4] := ok.2 q h; lia.
Qed.
Lemma le_hi q : (q < m)%N -> b q <= J -> b q <= hi_ a c J q.
Proof.
move=> qm bJ; rewrite /hi_; have /andP[h1 h2] := ok.1 q qm.
case: q qm bJ h1 h2 => [|q] qm bJ h1 h2; first by lia.
by have /andP[h3 h4] := ok.2 q qm; lia.
Qed.
Lemma tog_le q : (q < m)%N -> b q <= J -> lo_ a c m q <= tog a b c m J q <= hi_ a c J q.
Proof.
move=> qm bJ; have h1 := lo_le qm; have h2 := le_hi qm bJ.
by rewrite /tog ltNge bJ /=; lia.
Qed.
Lemma tog_leJ q : (q < m)%N -> (tog a b c m J q <= J) = (b q <= J).
Proof.
move=> qm; have [bJ|bJ] := leP (b q) J; last by rewrite /tog bJ leNgt bJ.
by have := tog_le qm bJ; rewrite /hi_; lia.
Qed.
Lemma rows_tog : rows_ok a (tog a b c m J) c m.
Proof.
split=> q qm.
  have [bJ|bJ] := leP (b q) J; last by rewrite /tog bJ; apply: ok.1.
  have := tog_le qm bJ; rewrite /lo_ /hi_ => h; apply/andP; split.
    by case/andP: h => h _; move: h; case: ifP => _; lia.
  by case/andP: h => _ h; move: h; case: (q) => [|q']; lia.
have qm' : (q < m)%N by lia.
have /andP[h3 h4] := ok.2 q qm; apply/andP; split.
  have [bJ|bJ] := leP (b q.+1) J; last by rewrite /tog bJ.
  by have /andP[_] := tog_le qm bJ; rewrite /hi_; lia.
have [bJ|bJ] := leP (b q) J; last by rewrite /tog bJ.
by have /andP[h _] := tog_le qm' bJ; move: h; rewrite /lo_ qm; lia.
Qed.
Lemma togK q : (q < m)%N -> tog a (tog a b c m J) c m J q = b q.
Proof.
move=> qm; rewrite {1}/tog ltNge tog_leJ // -ltNge /tog.
case: ltP => // _; lia.
Qed.
(** Above J nothing changes. *)
Lemma ppart_tog q K : (q < m)%N -> J <= K -> ppart (tog a b c m J q) K = ppart (b q) K.
Proof.
move=> qm JK; have := tog_leJ qm; rewrite /ppart.
have [bJ|bJ] := leP (b q) J; first by move=> h; rewrite !ltNge (le_trans h JK) (le_trans bJ JK).
by rewrite /tog bJ.
Qed.

(** The key count. *)
Lemma sum_tog : (0 < m)%N -> (forall q, (q < m)%N -> J < b q -> J < a q.+1) ->
  \sum_(q < m) (b q + tog a b c m J q) = \sum_(q < m.+1) a q + \sum_(q < m.-1) c q + gap a b c m J.
Proof.
move=> m0 H.
pose mn x := Num.min J x : int.
have e1 q : (q < m)%N -> b q + tog a b c m J q = ppart (b q) J *+ 2 + hi_ a c J q + mn (lo_ a c m q).
  move=> qm; have h1 := lo_le qm; rewrite /tog /ppart /mn mulr2n.
  case: ltP => bJ; last by lia.
  have h2 := H _ qm bJ; have h3 : J <= hi_ a c J q.
    rewrite /hi_; have /andP[h4 h5] := ok.1 q qm; case: q qm bJ h1 h2 h4 h5 => [|q] qm bJ h1 h2 h4 h5; first by lia.
    by have /andP[h6 h7] := ok.2 q qm; lia.
  have h4 : hi_ a c J q <= J by rewrite /hi_; lia.
  have h5 : a q.+1 <= lo_ a c m q by rewrite /lo_; case: ifP => _; lia.
  lia.
under eq_bigr => q _ do rewrite (e1 q (ltn_ord q)).
rewrite !big_split /= -addrA.
have -> : \sum_(q < m) hi_ a c J q + \sum_(q < m) mn (lo_ a c m q) =
    \sum_(q < m.+1) mn (a q) + \sum_(q < m.-1) mn (c q).
  move: m0 {e1 H}; case: (m) => // k _ /=.
  rewrite [\sum_(q < k.+1) hi_ _ _ _ _]big_ord_recl [\sum_(q < k.+1) mn _]big_ord_recr /=.
  rewrite [\sum_(q < k.+2) _]big_ord_recl [\sum_(q < k.+1) mn (a _)]big_ord_recr /=.
  have -> : lo_ a c k.+1 k = a k.+1 by rewrite /lo_ ltnn.
  have h : \sum_(i < k) hi_ a c J (lift ord0 i) + \sum_(i < k) mn (lo_ a c k.+1 i) =
      \sum_(i < k) mn (a (lift ord0 i)) + \sum_(i < k) mn (c i).
    rewrite -!big_split /=; apply: eq_bigr => i _.
    rewrite /hi_ /lo_ /bump /= add1n ltnS ltn_ord /mn; lia.
  have -> : hi_ a c J 0 = mn (a 0%N) by [].
  by move: h; move: (\sum_(i < k) _) (\sum_(i < k) _) (\sum_(i < k) _) (\sum_(i < k) _) (mn _) (mn _) => *; lia.
rewrite /gap.
have sp (f : nat -> int) k : \sum_(q < k) f q = \sum_(q < k) mn (f q) + \sum_(q < k) ppart (f q) J.
  by rewrite -big_split /=; apply: eq_bigr => q _; rewrite /mn /ppart; case: ltP => h; lia.
by rewrite (sp a) (sp c) mulr2n; mcring.
Qed.

(** The steps of the gap. *)
Lemma gap_step : (0 < m)%N -> gap a b c m J < gap a b c m (J + 1) ->
  gap a b c m J = gap a b c m (J + 1) - 1 /\ (forall q, (q < m)%N -> J < b q -> J < a q.+1).
Proof.
move=> m0.
pose ind x := ((J < x)%R : nat)%:Z : int.
have st (f : nat -> int) k : \sum_(q < k) ppart (f q) J = \sum_(q < k) ppart (f q) (J + 1) + \sum_(q < k) ind (f q).
  rewrite -big_split /=; apply: eq_bigr => q _; rewrite /ppart /ind.
  by case: ltP => h1; case: ltP => h2 /=; lia.
have e : gap a b c m J = gap a b c m (J + 1) + ((\sum_(q < m) ind (b q)) *+ 2 - \sum_(q < m.+1) ind (a q) - \sum_(q < m.-1) ind (c q)).
  by rewrite /gap (st a) (st b) (st c); mcring.
have e2 : (\sum_(q < m) ind (b q)) *+ 2 - \sum_(q < m.+1) ind (a q) - \sum_(q < m.-1) ind (c q) =
    \sum_(q < m) (ind (b q) - ind (a q.+1)) + \sum_(q < m.-1) (ind (b q) - ind (c q)) + ind (b m.-1) - ind (a 0%N).
  rewrite !big_split /= !sumrN [\sum_(q < m.+1) _]big_ord_recl /=.
  have -> : \sum_(q < m) ind (a (bump 0 q)) = \sum_(q < m) ind (a q.+1) by apply: eq_bigr => q _.
  have -> : \sum_(q < m) ind (b q) = \sum_(q < m.-1) ind (b q) + ind (b m.-1).
    by case: (m) m0 => // k _; rewrite big_ord_recr.
  by mcring.
have p1 : 0 <= \sum_(q < m.-1) (ind (b q) - ind (c q)).
  apply: sumr_ge0 => q _; have qm : (q.+1 < m)%N by case: q => /=; lia.
  by have /andP[_ h] := ok.2 _ qm; rewrite /ind; case: ltP => h1; case: ltP => h2 //=; lia.
have nn q : (q < m)%N -> 0 <= ind (b q) - ind (a q.+1).
  by move=> qm; have /andP[h _] := ok.1 _ qm; rewrite /ind; case: ltP => h1; case: ltP => h2 //=; lia.
have p2 : 0 <= \sum_(q < m) (ind (b q) - ind (a q.+1)) by apply: sumr_ge0 => q _; apply: nn.
have p3 : 0 <= ind (b m.-1) by rewrite /ind; case: ltP.
have p4 : 0 <= ind (a 0%N) <= 1 by rewrite /ind; case: ltP.
rewrite e e2 => h; split; first by lia.
have z : \sum_(q < m) (ind (b q) - ind (a q.+1)) = 0 by lia.
move=> q qm bJ; have := psumr_eq0P (fun (i : 'I_m) _ => nn i (ltn_ord i)) z (i := Ordinal qm) isT.
by rewrite /ind /= bJ /=; case: (ltP J (a q.+1)).
Qed.

End Rows.

(** Sums of positive parts, when the large entries come first. *)
Lemma sum_ppart (f : nat -> int) (J : int) k r : (r <= k)%N -> (forall q, (q < r)%N -> J <= f q) ->
  (forall q, (r <= q < k)%N -> f q <= J) -> \sum_(q < k) ppart (f q) J = \sum_(q < r) f q - J *+ r.
Proof.
elim: k r => [|k IH] r rk h1 h2.
  by move: rk; rewrite leqn0 => /eqP->; rewrite !big_ord0 mulr0n subrr.
rewrite big_ord_recr /=; have [e|ne] := eqVneq r k.+1.
  subst r; rewrite (IH k) //; first last.
  - by move=> q; rewrite ltnNge andbC andNb.
  - by move=> q qk; apply: h1; apply: ltnW.
  rewrite big_ord_recr /= mulrS /ppart; have := h1 k (ltnSn _); case: ltP => h3 h4; lia.
have rk' : (r <= k)%N by lia.
rewrite (IH r) //; last by move=> q /andP[? ?]; apply: h2; lia.
by rewrite /ppart ltNge h2 ?rk' ?ltnSn //= addr0.
Qed.
Lemma gapE (a b c : nat -> int) (m : nat) (J : int) ra rb rc :
  (ra <= m.+1)%N -> (forall q, (q < ra)%N -> J <= a q) -> (forall q, (ra <= q < m.+1)%N -> a q <= J) ->
  (rb <= m)%N -> (forall q, (q < rb)%N -> J <= b q) -> (forall q, (rb <= q < m)%N -> b q <= J) ->
  (rc <= m.-1)%N -> (forall q, (q < rc)%N -> J <= c q) -> (forall q, (rc <= q < m.-1)%N -> c q <= J) ->
  gap a b c m J = (\sum_(q < rb) b q) *+ 2 - \sum_(q < ra) a q - \sum_(q < rc) c q + J * (ra%:Z + rc%:Z - rb%:Z *+ 2).
Proof.
move=> *; rewrite /gap (@sum_ppart a J m.+1 ra) // (@sum_ppart b J m rb) // (@sum_ppart c J m.-1 rc) //.
have e k : J *+ k = J * k%:Z by rewrite -mulr_natr natz.
by rewrite !e; mcring.
Qed.

(** The excess tested by the tensor product rule at column l. *)
Definition chk (a b c : nat -> int) (l : nat) : int :=
  \sum_(q < l) (b q - c q) - \sum_(q < l.+1) (a q - b q).
Section Chk.
Variables (a b c : nat -> int) (m : nat).
Hypothesis ok : rows_ok a b c m.
Hypothesis m0 : (0 < m)%N.
Lemma chk_alt l : chk a b c l = (\sum_(q < l) b q) *+ 2 + b l - \sum_(q < l.+1) a q - \sum_(q < l) c q.
Proof. by rewrite /chk !big_split /= !sumrN [\sum_(i < l.+1) b i]big_ord_recr /=; mcring. Qed.

Lemma chk_gap l : (l < m)%N -> chk a b c l = gap a b c m (b l).
Proof.
move=> lm; rewrite chk_alt (@gapE _ _ _ _ _ l.+1 l l) //; first last.
- by move=> q /andP[h1 h2]; apply: (c_le ok) => //; lia.
- by move=> q ql; apply: (c_ge ok); lia.
- by lia.
- by move=> q h; apply: (b_mono ok).
- by move=> q ql; apply: (b_mono ok); lia.
- by lia.
- by move=> q /andP[h1 h2]; apply: (a_le ok); lia.
- by move=> q ql; apply: (a_ge ok); lia.
- by lia.
have -> : l.+1%:Z + l%:Z - l%:Z *+ 2 = 1 by lia.
by rewrite mulr1; mcring.
Qed.
Lemma chk_gap_last J : b m = 0 -> c m.-1 = 0 -> (forall q, (q <= m)%N -> J <= a q) ->
  chk a b c m = gap a b c m J.
Proof.
move=> bm cm aJ.
have bJ q : (q < m)%N -> J <= b q.
  by move=> qm; apply: (le_trans (aJ q.+1 qm)); have /andP[] := ok.1 q qm.
rewrite chk_alt (@gapE _ _ _ _ _ m.+1 m m.-1) //.
- have -> : m.+1%:Z + m.-1%:Z - m%:Z *+ 2 = 0 by lia.
  have -> : \sum_(q < m) c q = \sum_(q < m.-1) c q by case: (m) m0 cm => // k _ /= cm; rewrite big_ord_recr /= cm addr0.
  by rewrite bm mulr0; mcring.
- by move=> q; lia.
- by move=> q; lia.
- move=> q qm; have qm' : (q.+1 < m)%N by lia.
  have /andP[h _] := ok.2 q qm'; exact: le_trans (bJ _ qm') h.
- by move=> q; lia.
Qed.

Lemma gap_chk d J : b m = 0 -> c m.-1 = 0 -> 0 <= d -> (forall l, (l <= m)%N -> 0 <= d + chk a b c l) ->
  0 <= d + gap a b c m J.
Proof.
move=> bm cm d0 H.
(* r = the number of entries of b above J *)
have [r [rm r1 r2]] : exists r, [/\ (r <= m)%N, (forall q, (q < r)%N -> J < b q) & (forall q, (r <= q < m)%N -> b q <= J)].
  pose P q := (q == m) || (b q <= J); have exP : exists q, P q by exists m; rewrite /P eqxx.
  case: (ex_minnP exP) => r Pr rmin; exists r; have rm : (r <= m)%N by apply: rmin; rewrite /P eqxx.
  split=> // q.
    by move=> qr; rewrite ltNge; apply/negP => h; have := rmin q; rewrite /P h orbT => /(_ isT); lia.
  move=> /andP[rq qm]; case/orP: Pr => [/eqP|] h; first by lia.
  by apply: le_trans h; apply: (b_mono ok); rewrite rq.
have a1 q : (q < r)%N -> J <= a q.
  by move=> qr; apply: ltW; apply: (lt_le_trans (r1 q qr)); apply: (a_ge ok); lia.
have a2 q : (r < q < m.+1)%N -> a q <= J.
  by move=> /andP[h1 h2]; apply: (@le_trans _ _ (b r)); [apply: (a_le ok); lia | apply: r2; lia].
have c1 q : (q.+1 < r)%N -> J <= c q.
  by move=> qr; apply: ltW; apply: (lt_le_trans (r1 _ qr)); apply: (c_ge ok); lia.
have c2 q : (r <= q < m.-1)%N -> c q <= J.
  by move=> /andP[h1 h2]; apply: (@le_trans _ _ (b q)); [apply: (c_le ok); lia | apply: r2; lia].
have b1 q : (q < r)%N -> J <= b q by move=> h; apply: ltW; apply: r1.
have rm1 : (r <= m.+1)%N by lia.
have [ar|ar] := leP (a r) J.
- (* a has r large entries *)
  have aE q : (r <= q < m.+1)%N -> a q <= J.
    by move=> /andP[]; rewrite leq_eqVlt => /orP[/eqP<-//|h1] h2; apply: a2; rewrite h1.
  case: (posnP r) => [r0|rp].
    have -> : gap a b c m J = 0.
      by rewrite (@gapE _ _ _ _ _ 0 0 0) // ?r0 // ?big_ord0; move=> *; rewrite ?mulr0 //; try (apply: aE; lia); try (apply: r2; lia); apply: c2; lia.
    by rewrite addr0.
  have Hr := H r.-1 (leq_trans (leq_pred _) rm).
  have br := r1 r.-1; have {}br : J < b r.-1 by apply: br; lia.
  move: Hr; rewrite chk_alt prednK //.
  have sb : \sum_(q < r) b q = \sum_(q < r.-1) b q + b r.-1 by case: (r) rp => // k _; rewrite big_ord_recr.
  have [cJ|cJ] := boolP ((r == m) || (c r.-1 <= J)).
    rewrite (@gapE _ _ _ _ _ r r r.-1) //; last 3 first.
    - by lia.
    - by move=> q h; apply: c1; lia.
    - move=> q /andP[h1 h2]; case/orP: cJ => [/eqP e|e]; first by lia.
      by have [<-//|h3] := eqVneq r.-1 q; apply: c2; lia.
    have -> : r%:Z + r.-1%:Z - r%:Z *+ 2 = -1 by lia.
    rewrite sb; move: (\sum_(q < r.-1) b q) (\sum_(q < r) a q) (\sum_(q < r.-1) c q) => x y z; lia.
  move: cJ; rewrite negb_or -ltNge => /andP[nm cJ].
  have rm' : (r < m)%N by rewrite ltn_neqAle nm.
  have crb : c r.-1 <= b r.-1 by apply: (c_le ok); lia.
  rewrite (@gapE _ _ _ _ _ r r r) //; last 2 first.
  - by lia.
  - by move=> q h; have [->|h3] := eqVneq q r.-1; [apply: ltW | apply: c1; lia].
  have -> : r%:Z + r%:Z - r%:Z *+ 2 = 0 by lia.
  have sc : \sum_(q < r) c q = \sum_(q < r.-1) c q + c r.-1 by case: (r) rp => // k _; rewrite big_ord_recr.
  rewrite sb sc; move: (\sum_(q < r.-1) b q) (\sum_(q < r) a q) (\sum_(q < r.-1) c q) => x y z; lia.
(* a has r + 1 large entries *)
have aE q : (q < r.+1)%N -> J <= a q.
  by rewrite ltnS leq_eqVlt => /orP[/eqP->|]; [apply: ltW | apply: a1].
have [cJ|cJ] := boolP ((0 < r)%N && ((r == m) || (c r.-1 <= J))).
  case/andP: cJ => rp cJ.
  have Hr := H r.-1 (leq_trans (leq_pred _) rm).
  have br := r1 r.-1; have {}br : J < b r.-1 by apply: br; lia.
  have arb : a r <= b r.-1 by apply: (a_le ok); lia.
  move: Hr; rewrite chk_alt prednK //.
  have sb : \sum_(q < r) b q = \sum_(q < r.-1) b q + b r.-1 by case: (r) rp => // k _; rewrite big_ord_recr.
  rewrite (@gapE _ _ _ _ _ r.+1 r r.-1) //; last 3 first.
  - by lia.
  - by move=> q h; apply: c1; lia.
  - move=> q /andP[h1 h2]; case/orP: cJ => [/eqP e|e]; first by lia.
    by have [<-//|h3] := eqVneq r.-1 q; apply: c2; lia.
  have -> : r.+1%:Z + r.-1%:Z - r%:Z *+ 2 = 0 by lia.
  rewrite sb [\sum_(q < r.+1) _]big_ord_recr /=.
  move: (\sum_(q < r.-1) b q) (\sum_(q < r) a q) (\sum_(q < r.-1) c q) => x y z; lia.
have rm' : (r < m)%N.
  rewrite ltn_neqAle rm andbT; apply: contra cJ => /eqP e; rewrite e m0 eqxx //.
have Hr := H r rm.
have brJ : b r <= J by apply: r2; rewrite leqnn.
have cJ' q : (q < r)%N -> J <= c q.
  move=> qr; have [e|h3] := eqVneq q r.-1; last by apply: c1; lia.
  by apply: ltW; rewrite ltNge; apply: contra cJ; rewrite -e => ->; rewrite orbT andbT; lia.
move: Hr; rewrite chk_alt (@gapE _ _ _ _ _ r.+1 r r) //; last by lia.
have -> : r.+1%:Z + r%:Z - r%:Z *+ 2 = 1 by lia.
move: (\sum_(q < r) b q) (\sum_(q < r.+1) a q) (\sum_(q < r) c q) => x y z; lia.
Qed.
End Chk.
