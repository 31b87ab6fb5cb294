(** SunTp: sums of alternants over the weights of the patterns of S: the product of the
    dimensions, and of the characters, by the alternant of the other factor. *)
From Coq Require Import ZArith String Ascii.
From Verif Require Import McRing.
From mathcomp Require Import all_ssreflect all_fingroup all_algebra perm.
From mathcomp.zify Require Import zify.
From Verif Require Import Base Nd Sun SunDet SunDim SunRow SunTog SunLR.

Set Implicit Arguments.
Unset Strict Implicit.
Unset Printing Implicit Defensive.

Import GRing.Theory Num.Theory Order.Theory.
Local Open Scope ring_scope.

Lemma valid_le (S : weight) : valid_S S -> forall i : nat, (i.+1 < @size int S)%N -> S`_i.+1 <= S`_i.
Proof. by move=> v i hi; have [_ h] := elimT (valid_SP _) v; apply: h. Qed.

(** ** The weights are symmetric *)
Section Sym.
Variable (S : weight).
Hypothesis vS : valid_S S.
Notation n := (size S).
Lemma sym_adj (V : zmodType) (g : (nat -> int) -> V) m : (0 < m < n)%N ->
  (forall f f' : nat -> int, (forall p, (p < n)%N -> f p = f' p) -> g f = g f') ->
  \sum_(M <- gtp n S) g (wt n M) = \sum_(M <- gtp n S) g (fun p => wt n M (swap m p)).
Proof.
move=> hm gE; pose k := (n - m.+1)%N; have kn : (k.+1 < n)%N by rewrite /k; lia.
rewrite (@big_invol _ _ _ (ptog n S`_0 k)) ?gtp_uniq //.
- rewrite big_seq [RHS]big_seq; apply: eq_bigr => M /(mem_gtp _ vS) gt; apply: gE => p pn.
  rewrite (wt_ptog vS gt kn (top_H vS gt kn) pn) (pgap_top vS gt kn (lexx _)) subr0 addr0 /swap.
  have -> : (n - k.+1)%N = m by rewrite /k; lia.
  by case: eqP => // _; case: eqP.
- by move=> M /(mem_gtp _ vS) gt; apply/(mem_gtp _ vS); apply: (ptog_gt vS gt _ kn).
- by move=> M /(mem_gtp _ vS) gt; apply: (ptogK vS gt _ kn).
Qed.

(** The weight as a function on 'I_n. *)
Definition wf (M : pattern) (i : 'I_n) : int := wt n M i.
Definition symm (s : 'S_n) : Prop := forall (V : zmodType) (g : ('I_n -> int) -> V),
  (forall f f', f =1 f' -> g f = g f') ->
  \sum_(M <- gtp n S) g (wf M) = \sum_(M <- gtp n S) g (fun i => wf M (s i)).
Lemma symm_mul s t : symm s -> symm t -> symm (s * t)%g.
Proof.
move=> hs ht V g gE; rewrite (hs V g gE) (ht V (fun w => g (fun i => w (s i)))).
  by apply: eq_bigr => M _; apply: gE => i; rewrite permM.
by move=> f f' e; apply: gE => i; apply: e.
Qed.
Lemma symm1 : symm 1%g.
Proof. by move=> V g gE; apply: eq_bigr => M _; apply: gE => i; rewrite perm1. Qed.
Lemma symm_adj (i j : 'I_n) : j = i.+1 :> nat -> symm (tperm i j).
Proof.
move=> e V g gE.
pose g' (f : nat -> int) := g (fun i : 'I_n => f i).
have h : (0 < j < n)%N by rewrite ltn_ord e.
rewrite (@sym_adj V g' j h) => [|f f' ef]; last by apply: gE => k; apply: ef.
apply: eq_bigr => M _; apply: gE => k; rewrite /wf; congr wt; rewrite /swap e /=.
by case: tpermP => [->|->|]; rewrite ?eqxx; [case: eqP => //; lia | rewrite e eqxx |
  move=> n1 n2; case: eqP => [h1|_]; [case: n2; apply: val_inj; rewrite /= h1 | case: eqP => // h1; case: n1; apply: val_inj]].
Qed.
Lemma symm_tperm (i j : 'I_n) : symm (tperm i j).
Proof.
wlog lt : i j / (i < j)%N.
  move=> h; case: (ltngtP i j) => [|lt|e]; [exact: h | by rewrite tpermC; apply: h |].
  by have -> : i = j by [apply: val_inj]; rewrite tperm1; apply: symm1.
move: {2}(j - i)%N (leqnn (j - i)%N) => d; elim: d i j lt => [|d IH] i j lt hd; first by lia.
have [e|ne] := eqVneq (j : nat) i.+1; first exact: symm_adj.
have kn : (j.-1 < n)%N by have := ltn_ord j; lia.
pose k := Ordinal kn; have kj : j = k.+1 :> nat by rewrite /=; lia.
have -> : tperm i j = (tperm k j * tperm i k * tperm k j)%g.
  have := tpermJ i k (tperm k j); rewrite tpermL tpermD; first last.
  - by apply/eqP => h; move: lt; rewrite h ltnn.
  - by apply/eqP => h; move: ne; rewrite -h /= => /eqP; lia.
  by rewrite conjgE tpermV mulgA => <-.
apply: symm_mul; [apply: symm_mul|]; try exact: symm_adj.
by apply: IH => /=; lia.
Qed.
Lemma symm_all s : symm s.
Proof.
case: (prod_tpermP s) => ts -> _; elim: ts => [|t ts IH]; first by rewrite big_nil; apply: symm1.
by rewrite big_cons; apply: symm_mul => //; apply: symm_tperm.
Qed.
End Sym.

(** ** Dimensions *)
Section Brauer.
Variables (R : numDomainType) (n : nat) (T : eqType) (l : seq T) (w : T -> 'I_n -> R) (x : 'I_n -> R).
Hypothesis sym : forall p q (g : ('I_n -> R) -> R), (forall f f', f =1 f' -> g f = g f') ->
  \sum_(t <- l) g (w t) = \sum_(t <- l) g (fun i => w t (tperm p q i)).
Definition cf (f : 'I_n -> 'I_n) (s : 'S_n) : R :=
  (\prod_i ('C(s i, f i))%:R) * \sum_(t <- l) \prod_i w t i ^+ (s i - f i).
Lemma cf_swap f s p q : f p = f q -> cf f (tperm p q * s)%g = cf f s.
Proof.
move=> e; have ef i : f (tperm p q i) = f i by case: tpermP => // ->.
have ri := perm_inj (s := tperm p q).
rewrite /cf; congr (_ * _).
  rewrite [RHS](reindex_inj ri) /=; apply: eq_bigr => i _.
  by rewrite permM ef.
rewrite (sym p q (g := fun w => \prod_i w i ^+ (s i - f i))) /=.
  apply: eq_bigr => t _; rewrite [RHS](reindex_inj ri) /=; apply: eq_bigr => i _.
  by rewrite permM ef tpermK.
by move=> g g' eg; apply: eq_bigr => i _; rewrite eg.
Qed.
Lemma cf_sum0 (f : 'I_n -> 'I_n) : ~~ injectiveb f -> \sum_s (-1) ^+ odd_perm s * cf f s = 0.
Proof.
case/injectivePn => p [q pq e].
pose u := \sum_s (-1) ^+ odd_perm s * cf f s.
have : u = - u.
  rewrite {1}/u (reindex_inj (mulgI (tperm p q))) /= -sumrN; apply: eq_bigr => s _.
  by rewrite odd_permM odd_tperm pq cf_swap // signr_addb mulN1r mulNr.
by move/eqP; rewrite -/u -subr_eq0 opprK -mulr2n mulrn_eq0 => /eqP.
Qed.
Lemma cf_perm (r s : 'S_n) : cf r s = (r == s)%:R * (size l)%:R.
Proof.
rewrite /cf; have [->|ne] := eqVneq r s.
  rewrite mul1r big1 ?mul1r => [|i _]; last by rewrite binn.
  rewrite (eq_bigr (fun _ => 1)) => [|t _]; last by rewrite big1 // => i _; rewrite subnn expr0.
  by rewrite big_const_seq count_predT iter_addr_0.
rewrite mul0r; suff [i hi] : exists i, (s i < r i)%N by rewrite (bigD1 i) //= bin_small // !mul0r.
apply/existsP; apply: contraNT ne; rewrite negb_exists => /forallP h.
have le i : (r i <= s i)%N by rewrite leqNgt; apply: h.
have e : (\sum_i (s i - r i) = 0)%N.
  have : (\sum_i (s i - r i) + \sum_i r i = \sum_i s i)%N.
    by rewrite -big_split; apply: eq_bigr => i _ /=; rewrite subnK.
  have -> : (\sum_i r i = \sum_(i < n) i)%N by rewrite [RHS](reindex_inj (@perm_inj _ r)).
  have -> : (\sum_i s i = \sum_(i < n) i)%N by rewrite [RHS](reindex_inj (@perm_inj _ s)).
  by move=> h1; lia.
apply/eqP/permP => i; apply: val_inj => /=; apply/eqP; rewrite eqn_leq le /= -subn_eq0.
by move/eqP: e; rewrite sum_nat_eq0 => /forallP/(_ i).
Qed.
Theorem brauer : \sum_(t <- l) \det (\matrix_(i, j < n) (x i + w t i) ^+ j) =
  (size l)%:R * \det (\matrix_(i, j < n) x i ^+ j).
Proof.
have bin k y z : (k < n)%N -> (y + z) ^+ k = \sum_(e < n) ('C(k, e))%:R * z ^+ (k - e) * y ^+ e :> R.
  move=> kn; rewrite addrC exprDn (big_ord_widen n (fun e => z ^+ (k - e) * y ^+ e *+ 'C(k, e))) //.
  rewrite big_mkcond /=; apply: eq_bigr => e _; case: ltnP => h.
    by rewrite -mulrA mulr_natl.
  by rewrite bin_small // !mul0r.
transitivity (\sum_(t <- l) \sum_(s : 'S_n) \sum_(f : {ffun 'I_n -> 'I_n})
    (-1) ^+ odd_perm s * \prod_i (('C(s i, f i))%:R * w t i ^+ (s i - f i) * x i ^+ f i)).
  apply: eq_bigr => t _; apply: eq_bigr => s _; rewrite -big_distrr /=; congr (_ * _).
  rewrite -(bigA_distr_bigA (fun (i e : 'I_n) => ('C(s i, e))%:R * w t i ^+ (s i - e) * x i ^+ e)) /=.
  by apply: eq_bigr => i _; rewrite mxE bin.
transitivity (\sum_(f : {ffun 'I_n -> 'I_n}) (\prod_i x i ^+ f i) * \sum_(s : 'S_n) (-1) ^+ odd_perm s * cf f s).
  under eq_bigr => t _ do rewrite exchange_big.
  rewrite exchange_big /=; apply: eq_bigr => f _; rewrite exchange_big big_distrr /=; apply: eq_bigr => s _.
  rewrite -big_distrr /= mulrCA; congr (_ * _); rewrite /cf mulrA big_distrr /=; apply: eq_bigr => t _.
  by rewrite !big_split /= mulrAC [X in _ = X * _]mulrC.
rewrite (bigID (fun f : {ffun 'I_n -> 'I_n} => injectiveb f)) /= addrC big1 ?add0r => [|f nf]; last first.
  by rewrite cf_sum0 ?mulr0.
rewrite (reindex (@pval _)) /=; last first.
  pose in_Sn := insubd (1%g : 'S_n).
  by exists in_Sn => /= f Uf; first apply: val_inj; apply: insubdK.
rewrite /determinant big_distrr /=; apply: eq_big => /= [s|s _]; first by rewrite (valP s).
rewrite [X in _ * X](bigD1 s) //= [X in _ * (_ + X)]big1 ?addr0 => [|r ne]; last first.
  by rewrite pvalE cf_perm eq_sym (negbTE ne) mul0r mulr0.
rewrite pvalE cf_perm eqxx mul1r mulrA mulrC; congr (_ * _); rewrite mulrC; congr (_ * _).
by apply: eq_bigr => i _; rewrite mxE.
Qed.
End Brauer.

Lemma vdm_mon (F : numFieldType) n : exists K : F, forall u : nat -> F,
  vdm n u = K * \det (\matrix_(i < n, j < n) u i ^+ j).
Proof.
exists (\prod_(j < n) (binp F j)`_j) => u; rewrite /vdm det_poly; last exact: size_binp.
have -> : \matrix_(i < n, j < n) u i ^+ j = \matrix_(i < n, j < n) ('X^j).[u i].
  by apply/matrixP => i j; rewrite !mxE hornerXn.
rewrite (@det_poly _ u n (fun j => 'X^j)) => [|j]; last by rewrite size_polyXn.
by rewrite [X in _ = _ * (_ * X)]big1 ?mulr1 1?mulrC // => j _; rewrite coefXn eqxx.
Qed.

Lemma tperm_swap n (m : nat) (hm : (0 < m < n)%N) (i j : 'I_n) : j = m.-1 :> nat -> i = m :> nat ->
  forall p : 'I_n, swap m p = tperm i j p.
Proof.
move=> ej ei p; rewrite /swap -ej -ei; case: tpermP => [->|->|n1 n2]; rewrite ?eqxx //.
  by case: eqP => // e; move: ej ei; rewrite e; lia.
by case: eqP => [h|_]; [case: n1; apply: val_inj | case: eqP => // h; case: n2; apply: val_inj].
Qed.
Lemma det_swap (R : comRingType) n (g : nat -> 'I_n -> R) (m : nat) : (0 < m < n)%N ->
  \det (\matrix_(i < n, j < n) g (swap m i) j) = - \det (\matrix_(i < n, j < n) g i j).
Proof.
move=> hm; have h1 : (m < n)%N by lia.
have h2 : (m.-1 < n)%N by lia.
have e := @tperm_swap n m hm (Ordinal h1) (Ordinal h2) erefl erefl.
have -> : \matrix_(i < n, j < n) g (swap m i) j = xrow (Ordinal h1) (Ordinal h2) (\matrix_(i < n, j < n) g i j).
  by apply/matrixP => i j; rewrite !mxE e.
rewrite xrowE det_mulmx det_perm odd_tperm.
by rewrite (_ : _ != _) ?expr1 ?mulN1r // -val_eqE /=; lia.
Qed.

(** ** The rule *)
Section Rule.
Variables (S lam : weight).
Hypothesis vS : valid_S S.
Notation n := (size S).
Hypothesis slam : size lam = n.
Hypothesis vlam : forall i, (i.+1 < n)%N -> lam`_i.+1 <= lam`_i.
Definition tw (M : pattern) : weight := mkseq (fun p => lam`_p + wt n M p) n.
Definition nrm (t : weight) : weight := [seq x - last 0 t | x <- t].
Lemma n_gt0 : (0 < n)%N. Proof. by case/andP: vS. Qed.

Lemma mul_repE : mul_rep S lam = Ok [seq nrm (tw M) | M <- gtp n S & good S lam M].
Proof.
rewrite /mul_rep S_to_MsE //=; congr Ok.
have : {subset gtp n S <= gtp n S} by [].
elim: {1 3 4}(gtp n S) => //= M l IH sub.
have gt : is_gt S M by apply/(mem_gtp _ vS); apply: sub; rewrite inE eqxx.
rewrite (mul_loopE vS slam gt) IH => [|N hN]; last by apply: sub; rewrite inE hN orbT.
by case: (good S lam M) => //=; rewrite -/(tw M); case e: (tw M) => //; have := size_mkseq (fun p => lam`_p + wt n M p) n; rewrite -/(tw M) e /= => h; have := n_gt0; rewrite -h.
Qed.
Lemma size_tw M : size (tw M) = n. Proof. exact: size_mkseq. Qed.
Lemma tw_valid M : is_gt S M -> good S lam M -> valid_S (tw M).
Proof.
move=> gt g; apply/valid_SP; rewrite size_tw; split=> [|i hi]; first exact: n_gt0.
rewrite !nth_mkseq ?(ltnW hi) //.
pose k := (n - i.+2)%N; have kn : (k.+1 < n)%N by rewrite /k; lia.
have := good_gap vS slam vlam gt S`_n.-1 g kn.
have ok := gt_rows gt kn; have z1 : ent M k.+1 (n - k.+1) = 0 by apply: (gt_out gt); lia.
have z2 : ent M k.+2 (n - k.+1).-1 = 0 by apply: (gt_out gt); lia.
rewrite /pgap -(chk_gap_last ok) //; last first.
- by move=> q hq; have /andP[] := @gt_bounds S M vS gt k q ltac:(lia).
- by lia.
rewrite /chk !sumrB /ldiff /wt.
have -> : (n - i.+1 = k.+1)%N by rewrite /k; lia.
have -> : (n - i = k.+2)%N by rewrite /k; lia.
have -> : (n - i.+2 = k)%N by rewrite /k.
have -> : (n - k.+2 = i)%N by rewrite /k; lia.
have ei : (n - k.+1 = i.+1)%N by rewrite /k; lia.
have rE (N : nat) j : (n <= j + N)%N -> (N <= n)%N -> \sum_(q < N) ent M j q = rsum n M j.
  move=> h1 h2; rewrite /rsum (big_ord_widen n (ent M j)) // big_mkcond /=; apply: eq_bigr => q _.
  by case: ltnP => // h; rewrite (gt_out gt) //; lia.
rewrite !rE; try by rewrite ?ei /k; lia.
Qed.
Lemma nrm_valid t : valid_S t -> [/\ valid_S (nrm t), size (nrm t) = size t & last 0 (nrm t) = 0].
Proof.
move=> v; have s0 : (0 < size t)%N by case/andP: v.
split; first last.
- rewrite -nth_last size_map (nth_map 0) -?nth_last ?subrr // ; by case: (size t) s0.
- by rewrite size_map.
apply/valid_SP; rewrite size_map; split=> // i hi; have [_ h] := elimT (valid_SP _) v.
by rewrite !(nth_map 0) ?(ltnW hi) // ler_sub // h.
Qed.
Lemma weyl_nrm t : weyl (nrm t) = weyl t.
Proof.
rewrite !weylE !vdmE size_map; apply: eq_bigr => i _; apply: eq_bigr => l _; congr (_ / _).
rewrite !(nth_map 0) ?(ltn_trans (ltn_ord l)) // !rmorphB /=; mcring.
Qed.
Lemma weyl_tw M : weyl (tw M) = vdm n (fun p => - ((lam`_p + wt n M p - p%:Z)%:~R)).
Proof.
rewrite weylE size_tw !vdmE; apply: eq_bigr => i _; apply: eq_bigr => l _; congr (_ / _).
rewrite !nth_mkseq // ?(ltn_trans (ltn_ord l)) // !rmorphB /= -!pmulrn; mcring.
Qed.

Theorem balance : \sum_(M <- gtp n S | good S lam M) weyl (tw M) = weyl S * weyl lam.
Proof.
have [K hK] := vdm_mon rat_numFieldType n.
pose A (f : nat -> int) : rat := vdm n (fun p => - (f p)%:~R).
have e := @cancel_bad S lam vS slam vlam _ A.
under eq_bigr => M _ do rewrite weyl_tw -/(A (fun p => lam`_p + wt n M p - p%:Z)).
rewrite -e; first last.
- by move=> y /eqP; rewrite -mulr2n mulrn_eq0 => /eqP.
- move=> f m hm; rewrite /A !hK -mulrN; congr (_ * _).
  exact: (@det_swap _ n (fun p j => (- (f p)%:~R) ^+ j) m hm).
- by move=> f g fg; rewrite /A !hK; congr (_ * \det _); apply/matrixP => i j; rewrite !mxE fg.
pose x (i : 'I_n) : rat := i%:R - (lam`_i)%:~R.
transitivity (\sum_(M <- gtp n S) K * \det (\matrix_(i, j < n) (x i + - (wf M i)%:~R) ^+ j)).
  apply: eq_bigr => M _; rewrite /A hK; congr (_ * \det _); apply/matrixP => i j; rewrite !mxE.
  congr (_ ^+ _); rewrite /x /wf; move: (wt n M i) => y; rewrite rmorphB rmorphD /= -pmulrn; mcring.
rewrite -big_distrr /= (@brauer _ n _ (gtp n S) (fun M i => - (wf M i)%:~R) x).
  rewrite size_gtp // mulrCA; congr (_ * _); rewrite [weyl lam]weylE slam hK; congr (_ * \det _).
move=> p q g gE; rewrite (@symm_all S vS (tperm p q) _ (fun w => g (fun i => - (w i)%:~R))) //.
by move=> f f' ef; apply: gE => i; rewrite ef.
Qed.
End Rule.

(** ** Characters *)
Section Char.
Variable F : numFieldType.
(** The alternant of the exponents f, and the character of the patterns of S. *)
Definition alt n (x : 'I_n -> F) (f : nat -> int) : F := \det (\matrix_(i < n, j < n) x j ^ f i).
Definition chi n (S : weight) (x : 'I_n -> F) : F := \sum_(M <- gtp n S) \prod_(p < n) x p ^ wt n M p.

Section One.
Variables (S lam : weight).
Hypothesis vS : valid_S S.
Notation n := (size S).
Hypothesis slam : size lam = n.
Hypothesis vlam : forall i, (i.+1 < n)%N -> lam`_i.+1 <= lam`_i.
Variable x : 'I_n -> F.
Hypothesis x0 : forall i, x i != 0.

Lemma alt_ext f g : (forall p, (p < n)%N -> f p = g p) -> alt x f = alt x g.
Proof. by move=> h; congr (\det _); apply/matrixP => i j; rewrite !mxE h. Qed.
Lemma alt_swap f m : (0 < m < n)%N -> alt x (fun p => f (swap m p)) = - alt x f.
Proof. exact: (@det_swap _ n (fun p j => x j ^ f p) m). Qed.

Theorem char_alt :
  \sum_(M <- gtp n S | good S lam M) alt x (fun p => lam`_p + wt n M p - p%:Z) =
  chi S x * alt x (fun p => lam`_p - p%:Z).
Proof.
rewrite -(@cancel_bad S lam vS slam vlam _ (alt x)); first last.
- by move=> y /eqP; rewrite -mulr2n mulrn_eq0 => /eqP.
- exact: alt_swap.
- exact: alt_ext.
transitivity (\sum_(M <- gtp n S) \sum_(s : 'S_n) ((-1) ^+ odd_perm s * \prod_(i < n) x (s i) ^ (lam`_i - i%:Z)) * \prod_(i < n) x (s i) ^ wf M i).
  apply: eq_bigr => M _; apply: eq_bigr => s _; rewrite -mulrA -big_split /=; congr (_ * _).
  apply: eq_bigr => i _; rewrite mxE -expfzDr //; congr (_ ^ _); rewrite /wf; lia.
rewrite exchange_big /= /alt /determinant big_distrr /=; apply: eq_bigr => s _.
rewrite -big_distrr /= mulrC; congr (_ * _).
  rewrite /chi (@symm_all S vS s _ (fun w => \prod_(i < n) x (s i) ^ w i)) /=.
    by apply: eq_bigr => M _; rewrite [RHS](reindex_inj (@perm_inj _ s)).
  by move=> f f' e; apply: eq_bigr => i _; rewrite e.
by congr (_ * _); apply: eq_bigr => i _; rewrite mxE.
Qed.
End One.

(** Only one pattern passes the test when the other factor is trivial. *)
Definition topM (S : weight) : pattern := mkseq (fun k => take (size S - k) S) (size S).
Lemma topM_ent (S : weight) k q : (k + q < size S)%N -> ent (topM S) k q = S`_q.
Proof. by move=> h; rewrite /ent nth_mkseq ?nth_take //; lia. Qed.
Lemma topM_gt (S : weight) : valid_S S -> is_gt S (topM S).
Proof.
move=> v; have s0 : (0 < size S)%N by case/andP: v.
split=> [||i hi|i j hij]; rewrite ?size_mkseq ?nth_mkseq ?subn0 ?take_size //.
  by rewrite size_takel ?leq_subr.
have h := valid_le v.
rewrite !topM_ent; try lia.
by rewrite lexx andbT h; lia.
Qed.
Lemma topM_wt (S : weight) p : valid_S S -> (p < size S)%N -> wt (size S) (topM S) p = S`_p.
Proof.
move=> v pn; have gt := topM_gt v; rewrite /wt !(rsumE gt).
have -> : (size S - (size S - p.+1) = p.+1)%N by lia.
have -> : (size S - (size S - p) = p)%N by lia.
rewrite big_ord_recr /= topM_ent; last by lia.
rewrite addrAC -sumrB big1 ?add0r // => q _; have hq := ltn_ord q.
by rewrite !topM_ent ?subrr //; lia.
Qed.
Lemma good_topM (S lam : weight) : valid_S S -> size lam = size S ->
  (forall i, (i.+1 < size S)%N -> lam`_i.+1 <= lam`_i) -> good S lam (topM S).
Proof.
move=> v sl vl; have gt := topM_gt v; apply/(goodP v sl) => k l kn hl.
have ld := ldiff_ge0 v sl vl kn.
suff : 0 <= chk (ent (topM S) k) (ent (topM S) k.+1) (ent (topM S) k.+2) l by lia.
have h := valid_le v.
rewrite /chk; move: hl; rewrite leq_eqVlt => /orP[/eqP e|hl].
  rewrite big_ord_recr /= [X in _ - (X + _)]big1 ?add0r => [|q _]; last first.
    by have hq := ltn_ord q; rewrite !topM_ent ?subrr //; lia.
  have -> : l = l.-1.+1 by lia.
  rewrite big_ord_recr /= big1 ?add0r => [|q _]; last first.
    by have hq := ltn_ord q; rewrite !topM_ent ?subrr //; lia.
  rewrite prednK ?(gt_out gt (k := k.+2)) ?(gt_out gt (k := k.+1) (q := l)); try lia.
  rewrite !topM_ent; try lia.
  by rewrite !subr0 subr_ge0 -{1}[l](@prednK l) ?h //; lia.
rewrite !big1 ?subrr // => q _; have hq := ltn_ord q; rewrite !topM_ent ?subrr //; lia.
Qed.
Lemma good0 (S : weight) M : valid_S S -> is_gt S M -> good S (nseq (size S) 0) M -> M = topM S.
Proof.
move=> v gt /(goodP v (size_nseq _ _)) g.
have ld k : ldiff S (nseq (size S) 0) k = 0 by rewrite /ldiff !nth_nseq !if_same subrr.
have eq l : forall k, (k.+1 + l < size S)%N -> ent M k l = ent M k.+1 l.
  elim/ltn_ind: l => l IH k hk; have := g k l ltac:(lia) ltac:(lia); rewrite ld add0r /chk.
  rewrite big_ord_recr /= [X in 0 <= X - _]big1 => [|q _]; last first.
    by have hq := ltn_ord q; rewrite (IH q) ?subrr //; lia.
  rewrite [X in 0 <= _ - (X + _)]big1 => [|q _]; last first.
    by have hq := ltn_ord q; rewrite (IH q) ?subrr //; lia.
  have [_ _ _ gg] := gt; have /andP[_ h] := gg k l hk; lia.
have e k q : (k + q < size S)%N -> ent M k q = S`_q.
  elim: k => [|k IH] h; first by rewrite /ent; case: gt => _ ->.
  by rewrite -eq // IH //; lia.
have [sM _ sr _] := gt; apply: (@eq_from_nth _ [::]); rewrite sM ?size_mkseq // => k hk.
apply: (@eq_from_nth _ 0); rewrite sr // ?nth_mkseq // ?size_takel ?leq_subr //.
move=> q hq; rewrite -/(ent M k q) e ?nth_take //; lia.
Qed.

(** Weyl's character formula for the patterns. *)
Theorem weyl_char (S : weight) (x : 'I_(size S) -> F) : valid_S S -> (forall i, x i != 0) ->
  chi S x * alt x (fun p => - p%:Z) = alt x (fun p => S`_p - p%:Z).
Proof.
move=> v x0; have h0 : forall i, (i.+1 < size S)%N -> (nseq (size S) 0 : weight)`_i.+1 <= (nseq (size S) 0 : weight)`_i.
  by move=> i _; rewrite !nth_nseq !if_same.
have := char_alt v (size_nseq _ _) h0 x0.
rewrite [X in _ = _ * X](@alt_ext S x _ (fun p => - p%:Z)) => [<-|p pn]; last by rewrite nth_nseq if_same add0r.
rewrite -big_filter (_ : filter _ _ = [:: topM S]).
  rewrite big_seq1; apply: alt_ext => p pn; rewrite nth_nseq if_same add0r topM_wt //.
have gT : good S (nseq (size S) 0) (topM S) by apply: good_topM => //; rewrite size_nseq.
apply: perm_small_eq => //; apply: uniq_perm => //; first by rewrite filter_uniq // gtp_uniq.
move=> M; rewrite mem_filter inE; apply/andP/eqP => [[g /(mem_gtp _ v) gt]|->]; first exact: good0 gt g.
by split=> //; apply/(mem_gtp _ v); apply: topM_gt.
Qed.
End Char.
