(** CasimirGap: the eigenvalues of the Casimir operator of matrices with the relations
    of su(2) are n (n + 2) / 4 with n a natural number, by highest weight vectors. *)
From mathcomp Require Import all_ssreflect all_algebra.
From mathcomp.zify Require Import zify.
From Verif Require Import McRing.

Set Implicit Arguments.
Unset Strict Implicit.
Unset Printing Implicit Defensive.

Import Order.Theory GRing.Theory Num.Theory.
Local Open Scope ring_scope.

Section Gap.
Variable C : numClosedFieldType.

(** Every nonzero vector v yields an eigenvector of f that is still an eigenvector
    of all matrices g commuting with f of which v is one. *)
Lemma prod_kill n (f : 'M[C]_n) (s : seq C) (v : 'cV[C]_n) : v != 0 ->
  (foldr (fun x (M : 'M[C]_n) => M *m (f - x%:M)) 1%:M s) *m v = 0 ->
  exists (mu : C) (w : 'cV[C]_n), [/\ w != 0, f *m w = mu *: w &
    forall (g : 'M[C]_n) c, g *m f = f *m g -> g *m v = c *: v -> g *m w = c *: w].
Proof.
elim: s v => [|x s ih] v v0 /=; first by rewrite mul1mx => e; rewrite e eqxx in v0.
have [e _|e] := eqVneq ((f - x%:M) *m v) 0.
  exists x, v; split=> //.
  by move/eqP: e; rewrite mulmxBl mul_scalar_mx subr_eq0 => /eqP.
rewrite -mulmxA => /(ih _ e)[mu [w [w0 fw gw]]].
exists mu, w; split=> // g c cm gv; apply: gw => //.
rewrite mulmxA mulmxBr cm mul_mx_scalar -mul_scalar_mx -mulmxBl -mulmxA gv.
by rewrite -scalemxAr.
Qed.
Lemma eig_in n (f : 'M[C]_n) (v : 'cV[C]_n) : v != 0 ->
  exists (mu : C) (w : 'cV[C]_n), [/\ w != 0, f *m w = mu *: w &
    forall (g : 'M[C]_n) c, g *m f = f *m g -> g *m v = c *: v -> g *m w = c *: w].
Proof.
case: n f v => [|n] f v v0; first by move: v0; rewrite [v]flatmx0 eqxx.
have [rs ers] := closed_field_poly_normal (char_poly f).
apply: (@prod_kill _ f rs v v0).
have := Cayley_Hamilton f.
rewrite ers (monicP (char_poly_monic f)) scale1r => h.
have -> : foldr (fun x (M : 'M[C]_n.+1) => M *m (f - x%:M)) 1%:M rs = horner_mx f (\prod_(z <- rs) ('X - z%:P)).
  elim: rs {ers h} => [|x s ih] /=; first by rewrite big_nil; exact/esym/rmorph1.
  rewrite big_cons mulrC rmorphM /= -ih rmorphB /= horner_mx_X horner_mx_C.
  by [].
by rewrite h mul0mx.
Qed.

(** Ladder operators: [h, p] = p, [h, q] = -q, [p, q] = 2 h. *)
Section HW.
Variable n : nat.
Variables h p q : 'M[C]_n.
Hypothesis hp : h *m p - p *m h = p.
Hypothesis hq : h *m q - q *m h = - q.
Hypothesis pq : p *m q - q *m p = 2%:R *: h.

(** Vectors with pairwise distinct eigenvalues m + i s, infinitely many: one is 0. *)
Lemma chain_stops (x : 'M[C]_n) (s m : C) (v : 'cV[C]_n) : s != 0 -> h *m x - x *m h = s *: x ->
  h *m v = m *: v -> v != 0 -> exists k, iter k (mulmx x) v != 0 /\ iter k.+1 (mulmx x) v = 0.
Proof.
move=> s0 hx hv v0.
have ev k : h *m iter k (mulmx x) v = (m + k%:R * s) *: iter k (mulmx x) v.
  elim: k => [|k ih] /=; first by rewrite mul0r addr0.
  have -> : h *m (x *m iter k (mulmx x) v) = s *: (x *m iter k (mulmx x) v) + x *m (h *m iter k (mulmx x) v).
    by rewrite !mulmxA -[h *m x](subrK (x *m h)) hx mulmxDl -scalemxAl.
  rewrite ih -scalemxAr -scalerDl mulrS; congr (_ *: _); mcring.
have [K hK] : exists K, iter K (mulmx x) v = 0.
  have hr k : iter k (mulmx x) v != 0 -> root (char_poly h^T) (m + k%:R * s).
    move=> ne; rewrite -eigenvalue_root_char; apply/eigenvalueP.
    exists (iter k (mulmx x) v)^T; first by rewrite -trmx_mul ev linearZ.
    by apply: contra ne => /eqP e; rewrite -[iter _ _ _]trmxK e trmx0.
  case: (pickP (fun k : 'I_n.+1 => iter k (mulmx x) v == 0)) => [k /eqP e|H]; first by exists k.
  exfalso; pose rs := [seq m + (k : 'I_n.+1)%:R * s | k <- enum 'I_n.+1].
  have al : all (root (char_poly h^T)) rs by apply/allP=> _ /mapP[k _ ->]; apply: hr; rewrite H.
  have un : uniq rs.
    rewrite map_inj_uniq ?enum_uniq // => k l /addrI/(mulIf s0)/eqP; rewrite eqr_nat => /eqP e.
    exact: val_inj.
  have := max_poly_roots _ al un; rewrite -size_poly_eq0 size_char_poly /= size_map size_enum_ord.
  by move=> /(_ isT); rewrite ltnn.
have ex : exists K, iter K (mulmx x) v == 0 by exists K; apply/eqP.
case: (ex_minnP ex) => -[|k] /eqP e mn; first by rewrite /= in e; rewrite e eqxx in v0.
by exists k; split=> //; apply/negP=> /mn; rewrite ltnn.
Qed.

(** The Casimir operator h h + h + q p. *)
Let cas := h *m h + h + q *m p.
Lemma cas_h : cas *m h = h *m cas.
Proof.
have e1 : q *m p *m h = h *m (q *m p).
  have -> : h *m (q *m p) = (h *m q - q *m h) *m p + q *m (h *m p - p *m h) + q *m p *m h.
    by rewrite mulmxBl mulmxBr !mulmxA subrKA subrK.
  by rewrite hp hq mulNmx addNr add0r.
by rewrite /cas !mulmxDl !mulmxDr e1 !mulmxA.
Qed.
Lemma cas_p : cas *m p = p *m cas.
Proof.
have E1 : h *m p = p *m h + p by rewrite -[h *m p](subrK (p *m h)) hp addrC.
have E2 : q *m p = p *m q - 2%:R *: h by rewrite -pq opprB addrC subrK.
have E3 : h *m h *m p = p *m (h *m h) + 2%:R *: (p *m h) + p.
  by rewrite -mulmxA E1 mulmxDr mulmxA E1 mulmxDl -[p *m h *m h]mulmxA scaler_nat mulr2n !addrA.
have E4 : q *m p *m p = p *m (q *m p) - 2%:R *: (p *m h + p).
  by rewrite {1}E2 mulmxBl -scalemxAl E1 -[p *m q *m p]mulmxA.
rewrite /cas !mulmxDl !mulmxDr E3 E4 E1.
by apply/matrixP=> i j; rewrite !mxE; mcring.
Qed.

Lemma cas_eig (v : 'cV[C]_n) (al : C) : v != 0 -> cas *m v = al *: v ->
  exists k : nat, al = (k * k.+2)%:R / 4%:R.
Proof.
move=> v0 cv; have [m0 [w [w0 hw /(_ _ _ cas_h cv) cw]]] := eig_in h v0.
have [||k [u0 pu]] := @chain_stops p 1 m0 w _ _ hw w0; [exact: oner_neq0| |].
  by rewrite scale1r.
set u := iter k (mulmx p) w in u0 pu; have {}pu : p *m u = 0 by [].
have hu : h *m u = (m0 + k%:R) *: u.
  rewrite /u; elim: k {u u0 pu} => [|k ih] /=; first by rewrite addr0.
  have -> : h *m (p *m iter k (mulmx p) w) = p *m iter k (mulmx p) w + p *m (h *m iter k (mulmx p) w).
    by rewrite !mulmxA -[h *m p](subrK (p *m h)) hp mulmxDl.
  rewrite ih -scalemxAr -[X in X + _]scale1r -scalerDl mulrS; congr (_ *: _); mcring.
have cu : cas *m u = al *: u.
  by rewrite /u; elim: k {u u0 pu hu} => [//|k ih] /=; rewrite mulmxA cas_p -mulmxA ih scalemxAr.
set m := m0 + k%:R in hu.
have eal : al = m * m + m.
  have: cas *m u = (m * m + m) *: u.
    by rewrite /cas !mulmxDl -!mulmxA pu mulmx0 addr0 !hu -scalemxAr hu scalerA scalerDl.
  rewrite cu => /eqP; rewrite -subr_eq0 -scalerBl scaler_eq0 (negPf u0) orbF subr_eq0 => /eqP //.
have [||l [t0 qt]] := @chain_stops q (-1) m u _ _ hu u0; [by rewrite oppr_eq0 oner_neq0| |].
  by rewrite scaleN1r.
have hq' i : h *m iter i (mulmx q) u = (m - i%:R) *: iter i (mulmx q) u.
  elim: i => [|i ih] /=; first by rewrite subr0.
  have -> : h *m (q *m iter i (mulmx q) u) = - (q *m iter i (mulmx q) u) + q *m (h *m iter i (mulmx q) u).
    by rewrite !mulmxA -[h *m q](subrK (q *m h)) hq mulmxDl mulNmx.
  rewrite ih -scalemxAr -[X in X + _]scaleN1r -scalerDl mulrS; congr (_ *: _); mcring.
have pq' i : p *m iter i.+1 (mulmx q) u = (i.+1%:R * (2%:R * m - i%:R)) *: iter i (mulmx q) u.
  elim: i => [|i ih].
    rewrite /= mulmxA -[p *m q](subrK (q *m p)) pq mulmxDl -[q *m p *m u]mulmxA pu mulmx0 addr0.
    by rewrite -scalemxAl hu scalerA subr0 mul1r.
  have -> : iter i.+2 (mulmx q) u = q *m iter i.+1 (mulmx q) u by [].
  rewrite mulmxA -[p *m q](subrK (q *m p)) pq mulmxDl -[q *m p *m _]mulmxA ih -scalemxAl hq' scalerA -scalemxAr.
  rewrite -scalerDl; congr (_ *: _); rewrite ![_.+1%:R]mulrS; mcring.
have := pq' l; rewrite qt mulmx0 => /esym/eqP; rewrite scaler_eq0 (negPf t0) orbF mulf_eq0 pnatr_eq0 /=.
rewrite subr_eq0 => /eqP em; exists l; rewrite eal.
have {em} -> : m = l%:R / 2%:R by apply: (mulfI (x := 2%:R)); rewrite ?pnatr_eq0 // em mulrCA divff ?mulr1 ?pnatr_eq0.
have n2 : (2%:R : C) != 0 by rewrite pnatr_eq0.
rewrite natrM -[l.+2]addn2 natrD.
have -> : (4%:R : C) = 2%:R * 2%:R by rewrite -natrM.
by mcf.
Qed.
End HW.
End Gap.

Section Su2.
Variable C : numClosedFieldType.
Variable n : nat.

(** The relations of su(2). *)
Definition su2_triple (X : nat -> 'M[C]_n) : Prop :=
  [/\ X 0%N *m X 1%N - X 1%N *m X 0%N = X 2%N, X 1%N *m X 2%N - X 2%N *m X 1%N = X 0%N &
      X 2%N *m X 0%N - X 0%N *m X 2%N = X 1%N].
Definition casimir (X : nat -> 'M[C]_n) : 'M[C]_n := - \sum_(a < 3) X a *m X a.

Lemma sum3E (F : nat -> 'M[C]_n) : \sum_(a < 3) F a = F 0%N + F 1%N + F 2%N.
Proof. by rewrite !big_ord_recl big_ord0 addr0 addrA. Qed.

Lemma casimir_eig X (v : 'cV[C]_n) (al : C) : su2_triple X -> v != 0 -> casimir X *m v = al *: v ->
  exists k : nat, al = (k * k.+2)%:R / 4%:R.
Proof.
move=> [h01 h12 h20] v0 cv.
have i2 : 'i * 'i = -1 :> C by rewrite -expr2 sqrCi.
have e10 : X 1%N *m X 0%N = X 0%N *m X 1%N - X 2%N by rewrite -h01 opprB addrC subrK.
have e21 : X 2%N *m X 1%N = X 1%N *m X 2%N - X 0%N by rewrite -h12 opprB addrC subrK.
have e20 : X 2%N *m X 0%N = X 0%N *m X 2%N + X 1%N by rewrite -h20 addrC subrK.
pose h := 'i *: X 2%N; pose p := X 0%N + 'i *: X 1%N; pose q := - (X 0%N - 'i *: X 1%N).
have ex := (mulmxDl, mulmxDr, mulmxBl, mulmxBr, mulNmx, mulmxN, (=^~ scalemxAl), (=^~ scalemxAr)).
apply: (@cas_eig C n h p q _ _ _ v) => //.
- rewrite /h /p !ex e20 e21; apply/matrixP=> i j; rewrite !mxE.
  by rewrite ?(mulrDr, mulrBr, mulrN) ?mulrA ?i2; mcring.
- rewrite /h /q !ex e20 e21; apply/matrixP=> i j; rewrite !mxE.
  by rewrite ?(mulrDr, mulrBr, mulrN) ?mulrA ?i2; mcring.
- rewrite /h /p /q !ex e10; apply/matrixP=> i j; rewrite !mxE.
  by rewrite ?(mulrDr, mulrBr, mulrN) ?mulrA ?i2; mcring.
rewrite -cv /casimir (sum3E (fun a => X a *m X a)); congr (_ *m _).
rewrite /h /p /q !ex e10; apply/matrixP=> i j; rewrite !mxE.
by rewrite ?(mulrDr, mulrBr, mulrN) ?mulrA ?i2; mcring.
Qed.

(** Twice the sum of the Casimir operators of two commuting triples: no eigenvalue
    lies strictly between 0 and 3/2. *)
Lemma casimir_comm X Y : (forall a b, (a < 3)%N -> (b < 3)%N -> X a *m Y b = Y b *m X a) ->
  casimir X *m casimir Y = casimir Y *m casimir X.
Proof.
move=> cm; rewrite /casimir !mulmxN !mulNmx !opprK mulmx_suml mulmx_sumr.
apply: eq_bigr => a _; rewrite mulmx_sumr mulmx_suml; apply: eq_bigr => b _.
have e : X a *m X a *m Y b = Y b *m (X a *m X a) by rewrite -mulmxA cm // mulmxA cm // mulmxA.
by rewrite mulmxA e -mulmxA e mulmxA.
Qed.
Lemma casimir2_gap X Y (v : 'cV[C]_n) (c : C) : su2_triple X -> su2_triple Y ->
  (forall a b, (a < 3)%N -> (b < 3)%N -> X a *m Y b = Y b *m X a) ->
  v != 0 -> (2%:R *: (casimir X + casimir Y)) *m v = c *: v -> c = 0 \/ 3%:R / 2%:R <= c.
Proof.
move=> tX tY cm v0 ev; have [al [w [w0 aw H]]] := eig_in (casimir X) v0.
have cc := casimir_comm cm.
have /H{}H : (2%:R *: (casimir X + casimir Y)) *m casimir X = casimir X *m (2%:R *: (casimir X + casimir Y)).
  by rewrite -scalemxAl -scalemxAr mulmxDl mulmxDr cc.
have {}ew := H _ ev.
have bw : casimir Y *m w = (c / 2%:R - al) *: w.
  have n2 : (2%:R : C) != 0 by rewrite pnatr_eq0.
  apply: (scalerI n2); rewrite scalerA mulrBr mulrCA divff // mulr1 scalerBl -ew.
  by rewrite -scalemxAl mulmxDl aw scalerDr scalerA addrC addKr.
have [k ek] := casimir_eig tX w0 aw; have [l el] := casimir_eig tY w0 bw.
have {el} -> : c = 2%:R * ((k * k.+2)%:R / 4%:R + (l * l.+2)%:R / 4%:R).
  by rewrite -el -ek addrC subrK mulrCA divff ?mulr1 // pnatr_eq0.
have [->|k0] := eqVneq k 0%N; first have [->|l0] := eqVneq l 0%N.
- by left; rewrite !mul0n !mul0r addr0 mulr0.
all: right; rewrite -mulrDl -natrD.
all: have -> : (4%:R : C) = 2%:R * 2%:R by rewrite -natrM.
all: rewrite invfM !mulrA [2%:R * _]mulrC mulfK ?pnatr_eq0 //.
all: by rewrite ler_pmul2r ?invr_gt0 ?ltr0n // ler_nat; nia.
Qed.
End Su2.
