(** SunIrr: a vector of the Gelfand-Tsetlin module killed by all raising operators is a multiple
    of the highest pattern; irreducibility. *)
From Coq Require Import ZArith String Ascii.
From Verif Require Import McRing.
From mathcomp Require Import all_ssreflect all_algebra.
From mathcomp.zify Require Import zify.
From Verif Require Import Base Nd NdProofs Reps RepProofs Pinv.
From Verif Require Import Sun SunDet SunDim SunRow SunLadder SunMx SunTog SunLR SunTp SunCg SunHw SunCgProofs SunCgSearch SunCgLoop.

Set Implicit Arguments.
Unset Strict Implicit.
Unset Printing Implicit Defensive.

Import GRing.Theory Num.Theory Order.Theory.
Local Open Scope ring_scope.

Section Irr.
Variable C : numClosedFieldType.
Variable S : weight.
Hypothesis vS : valid_S S.
Notation n := (size S).
Notation G := (gtp (size S) S).
Notation d := (size (gtp (size S) S)).

(** The coordinate of a pattern. *)
Definition xf (x : 'cV[C]_d) (M : pattern) : C := \sum_(k < d) x k 0 * (pat S k == M)%:R.
Lemma xf_pat x (k : 'I_d) : xf x (pat S k) = x k 0.
Proof using.
rewrite /xf (bigD1 k) //= eqxx mulr1 big1 ?addr0 // => j ne.
by rewrite nth_uniq ?gtp_uniq // val_eqE (negbTE ne) mulr0.
Qed.
Lemma xfE x M : M \in G -> exists2 k : 'I_d, pat S k = M & xf x M = x k 0.
Proof using.
move=> hM; have hi : (index M G < d)%N by rewrite index_mem.
by exists (Ordinal hi); rewrite -?xf_pat /pat /= nth_index.
Qed.
Lemma Jp_xf l x N : N \in G -> xf (Jp S C l *m x) N = \sum_(M <- G) jel S C l N M * xf x M.
Proof using.
move=> hN; have [k ek ->] := xfE (Jp S C l *m x) hN.
by rewrite mxE -(sum_pat S (fun M => jel S C l N M * xf x M)); apply: eq_bigr => j _; rewrite mxE xf_pat ek.
Qed.
Lemma xf_0 M : xf 0 M = 0.
Proof using. by rewrite /xf big1 // => j _; rewrite mxE mul0r. Qed.
Lemma xf0 x : (forall M, M \in G -> xf x M = 0) -> x = 0.
Proof using. by move=> h; apply/colP => k; rewrite mxE -xf_pat h // patG. Qed.

Definition tail_top (k : nat) (M : pattern) : Prop :=
  forall i j, (k <= i)%N -> (i + j < n)%N -> ent M i j = ent M k j.
Section Kill.
Variable x : 'cV[C]_d.
Hypothesis kx : forall l, (l.+1 < n)%N -> Jp S C l *m x = 0.
Lemma kill_tail m k M : (n <= m + k.+1)%N -> M \in G -> xf x M != 0 -> tail_top k M.
Proof using vS kx.
elim: m k M => [|m ih] k M hk hM nz.
  move=> i j ki ij; have -> // : i = k by lia.
have kn : (k.+1 < n)%N \/ (n <= k.+1)%N by case: (ltnP k.+1 n); [left | right].
case: kn => [kn|kn]; last by move=> i j ki ij; have -> // : i = k by lia.
have t1 N : N \in G -> xf x N != 0 -> tail_top k.+1 N by apply: ih; lia.
have [_ _ g] := (GP vS M).1 hM.
suff eq q : (q < n - k.+1)%N -> ent M k.+1 q = ent M k q.
  move=> i j; rewrite leq_eqVlt => /orP[/eqP <- //|ki] ij.
  by rewrite (t1 _ hM nz _ _ ki ij) eq //; lia.
move=> hq; apply/eqP; rewrite eq_le; have /andP[_ ->] /= := g k q ltac:(lia); rewrite leNgt; apply/negP => lt.
have lq : lvl S k q by split.
pose N := M_add M k.+1 q 1.
have hN : N \in G.
  rewrite (step_G vS lq hM) /up lt /=; case: (q =P 0%N) => //= q0.
  rewrite (t1 _ hM nz k.+2 q.-1) //; last by lia.
  have /andP[h1 _] := g k q.-1 ltac:(lia); rewrite prednK in h1; last by lia.
  exact: lt_le_trans h1.
have st : step k q M N by apply: eqxx.
have := Jp_xf k x hN; rewrite kx // xf_0 => /esym/eqP.
rewrite (bigD1_seq M) ?gtp_uniq //= big_seq_cond big1 ?addr0.
  by rewrite mulf_eq0 (negbTE nz) orbF gt_eqF // (jel_gt0 vS C lq).
move=> M' /andP[hM' ne].
apply/eqP; apply: contraT; rewrite mulf_eq0 negb_or => /andP[nj nx].
have [q' lq' st'] := jel_neq0 kn nj.
have e1 := elimT (stepP vS lq hM hN) st; have e2 := elimT (stepP vS lq' hM' hN) st'.
have [qq|qq] := eqVneq q' q.
  case/eqP: ne; rewrite qq in e2.
  have [h1 _ _] := (GP vS M).1 hM; have [h2 _ _] := (GP vS M').1 hM'.
  apply: (pat_ext h2 h1) => i j hi hj; have := e1 i j; rewrite e2 /fadd; case: ifP => // _.
  by rewrite /upd; case: ifP => // _; lia.
have r2 j : ent M k.+2 j = ent M' k.+2 j.
  have := e1 k.+2 j; rewrite e2 /fadd; have -> : (k.+2 == k.+1) = false by lia.
  by [].
have r1 j : (j < n - k.+2)%N -> ent M k.+1 j = ent M' k.+1 j.
  by move=> hj; rewrite -(t1 _ hM nz k.+2 j) ?r2 ?(t1 _ hM' nx k.+2 j) //; lia.
have a1 j : upd (ent M k.+1) q 1 j = upd (ent M' k.+1) q' 1 j.
  by have := e1 k.+1 j; rewrite e2 /fadd eqxx.
have [hq'1 hq'2] := lq'.
have [qs|qs] := ltnP q (n - k.+2).
  by have := a1 q; rewrite /upd eqxx eq_sym (negbTE qq) (r1 _ qs); lia.
have qs' : (q' < n - k.+2)%N by lia.
by have := a1 q'; rewrite /upd eqxx (negbTE qq) (r1 _ qs'); lia.
Qed.
Lemma kill_top M : M \in G -> xf x M != 0 -> M = topM S.
Proof using vS kx.
move=> hM nz; have t := @kill_tail n 0%N M ltac:(lia) hM nz.
have [h1 r1 _] := (GP vS M).1 hM; have [h2 r2 _] := (GP vS (topM S)).1 (topG vS).
apply: (pat_ext h1 h2) => i j hi hj; rewrite t //; last by lia.
by rewrite topM_ent; [rewrite /ent r1 | lia].
Qed.
Lemma kill_dl : x = xf x (topM S) *: dl C S (topM S).
Proof using vS kx.
apply/colP => k; rewrite !mxE -xf_pat; case: eqP => [->|ne]; first by rewrite mulr1.
rewrite mulr0; apply/eqP; apply: contraT => /(kill_top (patG (ltn_ord k))) e; by case: ne.
Qed.
End Kill.

(** A set of vectors that raising preserves and that contains no multiple of the highest
    pattern is {0}. *)
Lemma raise_zero (P : 'cV[C]_d -> Prop) :
  (forall l u, (l.+1 < n)%N -> P u -> P (Jp S C l *m u)) ->
  (forall c, P (c *: dl C S (topM S)) -> c = 0) -> forall u, P u -> u = 0.
Proof using vS.
move=> cl tp u; set m := `|ht S (topM S)|.+1%N.
have : forall u, P u -> forall m : nat, (forall M, M \in G -> xf u M != 0 -> ht S (topM S) - ht S M < m%:Z) -> u = 0.
  move=> {}u Pu k; elim: k u Pu => [|k ih] u Pu hu.
    apply: xf0 => M hM; apply/eqP; apply: contraT => nz; have := hu _ hM nz; have := ht_le vS hM; lia.
  have kx l : (l.+1 < n)%N -> Jp S C l *m u = 0.
    move=> hl; apply: ih => [|N hN nz]; first exact: cl.
    have [M hM nz'] : exists2 M, M \in G & jel S C l N M * xf u M != 0.
      have [/allP h|/allPn [M h1 h2]] := boolP (all (fun M => jel S C l N M * xf u M == 0) G); last by exists M.
      by case/eqP: nz; rewrite Jp_xf // big_seq big1 // => M hM; apply/eqP; apply: h.
    move: nz'; rewrite mulf_eq0 negb_or => /andP[nj nx]; have [q lq st] := jel_neq0 hl nj.
    by have := hu _ hM nx; have := ht_step vS lq hM hN st; lia.
  by have e := kill_dl kx; rewrite e; rewrite e in Pu; rewrite (tp _ Pu) scale0r.
move=> h Pu.
have [k hk] : exists k : nat, forall M, M \in G -> ht S (topM S) - ht S M < k%:Z.
  exists (\sum_(M <- G) `|ht S (topM S) - ht S M|%N).+1 => M hM.
  rewrite (bigD1_seq M) ?gtp_uniq //=; lia.
by apply: (h _ Pu k) => M hM _; apply: hk.
Qed.
(** An intertwiner that does not kill the highest pattern is injective. *)
Lemma intertwiner_inj m (F : 'M[C]_(m, d)) (B : nat -> 'M[C]_m) :
  (forall l, (l.+1 < n)%N -> F *m Jp S C l = B l *m F) -> F *m dl C S (topM S) != 0 ->
  forall u : 'cV_d, F *m u = 0 -> u = 0.
Proof using vS.
move=> hF nz; apply: raise_zero => [l u hl e|c]; first by rewrite mulmxA hF // -mulmxA e mulmx0.
by rewrite -scalemxAr => /eqP; rewrite scaler_eq0 (negbTE nz) orbF => /eqP.
Qed.
(** Schur. *)
Lemma schur (A : 'M[C]_d) : (forall l, (l.+1 < n)%N -> A *m Jp S C l = Jp S C l *m A) ->
  (forall l, (l.+1 < n)%N -> A *m (Jp S C l)^T = (Jp S C l)^T *m A) -> exists c, A = c%:M.
Proof using vS.
move=> h1 h2; pose t := dl C S (topM S).
have kx l : (l.+1 < n)%N -> Jp S C l *m (A *m t) = 0 by move=> hl; rewrite mulmxA -h1 // -mulmxA Jp_top // mulmx0.
pose c := xf (A *m t) (topM S); exists c; pose F := A - c%:M.
have Ft : F *m t = 0 by rewrite mulmxBl (kill_dl kx) mul_scalar_mx subrr.
have F2 l : (l.+1 < n)%N -> F *m (Jp S C l)^T = (Jp S C l)^T *m F.
  by move=> hl; rewrite mulmxBl mulmxBr h2 // scalar_mxC.
suff : F^T = 0 by move=> /(congr1 trmx); rewrite trmxK trmx0 => /eqP; rewrite subr_eq0 => /eqP.
apply: delta_ext => j; rewrite mul0mx.
apply: (@raise_zero (fun u => exists y, u = F^T *m y)); last by exists (delta_mx j 0).
  move=> l u hl [y ->]; exists (Jp S C l *m y); rewrite !mulmxA; congr (_ *m y); apply: trmx_inj.
  by rewrite !trmx_mul trmxK F2.
move=> a [y e]; have := congr1 (fun z => t^T *m z) e; rewrite mulmxA -trmx_mul Ft trmx0 mul0mx -scalemxAr.
have -> : t^T *m t = 1%:M.
  apply/matrixP => i k; rewrite (ord1 i) (ord1 k) [RHS]mxE eqxx -(dl_dot C (topG vS)) /dot /adj !mxE.
  by apply: eq_bigr => r _; rewrite !mxE conjC_nat.
by move=> /matrixP/(_ 0 0); rewrite !mxE eqxx mulr1.
Qed.
End Irr.
