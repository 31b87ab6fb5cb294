(** Property C51: the tensor product rule of SU(N). *)
From Coq Require Import ZArith String Ascii.
From Verif Require Import McRing.
From mathcomp Require Import all_ssreflect all_algebra.
From mathcomp.zify Require Import zify.
From Verif Require Import Base Nd Sun SunDet SunDim SunRow SunTog SunLR SunTp LexOrder Properties_Sun.

Set Implicit Arguments.
Unset Strict Implicit.
Unset Printing Implicit Defensive.

Import GRing.Theory Num.Theory Order.Theory.
Local Open Scope ring_scope.

(** ** C51: mul_rep *)
(** The weight S1 + S2, with last entry 0. *)
Definition top_weight (S1 S2 : weight) : weight :=
  mkseq (fun i => S1`_i + S2`_i - (S1`_(size S1).-1 + S2`_(size S1).-1)) (size S1).

Theorem C51_weights S1 S2 : dominant S1 -> dominant S2 -> size S1 = size S2 -> exists l,
  [/\ mul_rep S1 S2 = Ok l, top_weight S1 S2 \in l &
      forall S, S \in l -> [/\ dominant S, size S = size S1 & last 0 S = 0]].
Proof.
move=> /dominantP v1 /dominantP v2 sz; have h2 := valid_le v2; rewrite -sz in h2.
have [s0 _] := elimT (valid_SP _) v1.
exists [seq nrm (tw S1 S2 M) | M <- gtp (size S1) S1 & good S1 S2 M].
split; first exact: (mul_repE v1 (esym sz)).
- apply/mapP; exists (topM S1).
    by rewrite mem_filter (good_topM v1 (esym sz) h2); apply/(mem_gtp _ v1); apply: topM_gt.
  have hl : ((size S1).-1 < size S1)%N by case: (size S1) s0.
  rewrite /nrm /tw -nth_last size_mkseq nth_mkseq // topM_wt // /mkseq -map_comp.
  by apply/eq_in_map => i /=; rewrite mem_iota => hi; rewrite topM_wt //; congr (_ - _); first exact: addrC; exact: addrC.
- move=> S /mapP[M]; rewrite mem_filter => /andP[g /(mem_gtp _ v1) gt] ->.
  have [n1 n2 n3] := nrm_valid (tw_valid v1 (esym sz) h2 gt g).
  by split; [apply/dominantP | rewrite n2 size_tw | ].
Qed.
(** A first factor that is not dominant is refused. *)
Theorem C51_refused S1 S2 : ~ dominant S1 -> mul_rep S1 S2 = Err AssertionError.
Proof.
by move=> nd; rewrite /mul_rep S_to_Ms_err //; apply/negP => /dominantP.
Qed.

(** The dimensions add up to the product of the dimensions. *)
Theorem C51_balance S1 S2 : dominant S1 -> dominant S2 -> size S1 = size S2 -> exists l ds d1 d2,
  [/\ mul_rep S1 S2 = Ok l, mapR dimS l = Ok ds, dimS S1 = Ok d1, dimS S2 = Ok d2 &
      \sum_(d <- ds) d = d1 * d2].
Proof.
move=> /dominantP v1 /dominantP v2 sz; have h2 := valid_le v2; rewrite -sz in h2.
pose l := [seq nrm (tw S1 S2 M) | M <- gtp (size S1) S1 & good S1 S2 M].
pose D (S : weight) : int := (size (gtp (size S) S))%:Z.
have vl S : S \in l -> valid_S S.
  move=> /mapP[M]; rewrite mem_filter => /andP[g /(mem_gtp _ v1) gt] ->.
  by have [] := nrm_valid (tw_valid v1 (esym sz) h2 gt g).
exists l, [seq D S | S <- l], (D S1), (D S2); split; rewrite ?dimSE //.
- exact: (mul_repE v1 (esym sz)).
- by apply: mapR_ok_in => S /vl v; rewrite dimSE.
apply/eqP; rewrite -(eqr_int rat_numDomainType); apply/eqP; rewrite big_map rmorphM rmorph_sum /=.
have DE S : valid_S S -> (D S)%:~R = weyl S :> rat by move=> v; rewrite -size_gtp // pmulrn.
rewrite !DE // -(balance v1 (esym sz) h2) big_seq (eq_bigr weyl) => [|S /vl]; last exact: DE.
rewrite -big_seq big_map big_filter; apply: eq_bigr => M _; exact: weyl_nrm.
Qed.

(** The character of a list of patterns: the letter p occurs (sum of row N - 1 - p) - (sum of
    row N - p) times. *)
Definition row_sum (M : pattern) (k : nat) : int := \sum_(y <- nth [::] M k) y.
Definition character (F : numFieldType) n (Ms : seq pattern) (x : 'I_n -> F) : F :=
  \sum_(M <- Ms) \prod_(p < n) x p ^ (row_sum M (n - p.+1) - row_sum M (n - p)).
Lemma character_chi (F : numFieldType) n (x : 'I_n -> F) S : valid_S S -> size S = n ->
  character (gtp (size S) S) x = chi S x.
Proof.
move=> v sS; case: n / sS x => x; rewrite /character /chi big_seq [RHS]big_seq.
apply: eq_bigr => M /(mem_gtp _ v) gt.
have re k : row_sum M k = rsum (size S) M k.
  rewrite rsumE // /row_sum (big_nth 0) big_mkord.
  have [hM _ sr _] := gt; have [kn|kn] := ltnP k (size S); first by rewrite sr.
  by rewrite nth_default ?hM // (eqP (_ : size S - k == 0)%N) ?big_ord0 //; lia.
by apply: eq_bigr => p _; rewrite /wt !re.
Qed.
Lemma alt_shift (F : numFieldType) n (x : 'I_n -> F) f c : (forall i, x i != 0) ->
  \prod_i x i = 1 -> alt x (fun p => f p - c) = alt x f.
Proof.
move=> x0 x1; rewrite /alt.
rewrite (_ : (\matrix_(i, j) _) = (\matrix_(i, j) x j ^ f i) *m diag_mx (\row_j x j ^ (- c))).
  rewrite det_mulmx det_diag (eq_bigr (fun j => x j ^ (- c))) => [|j _]; last by rewrite mxE.
  have pe : \prod_j x j ^ (- c) = (\prod_j x j) ^ (- c).
    by elim/big_rec2: _ => [|j y z _ ->]; rewrite ?exp1rz // expfzMl.
  by rewrite pe x1 exp1rz mulr1.
by apply/matrixP => i j; rewrite mul_mx_diag !mxE expfzDr.
Qed.
(** The character of the product is the product of the characters, at every element of the
    torus with distinct eigenvalues. *)
Theorem C51_character (F : numFieldType) S1 S2 (x : 'I_(size S1) -> F) :
  dominant S1 -> dominant S2 -> size S1 = size S2 ->
  injective x -> \prod_i x i = 1 ->
  exists l Ms1 Ms2 Mss, [/\ mul_rep S1 S2 = Ok l, S_to_Ms S1 = Ok Ms1, S_to_Ms S2 = Ok Ms2,
    mapR S_to_Ms l = Ok Mss & \sum_(Ms <- Mss) character Ms x = character Ms1 x * character Ms2 x].
Proof.
move=> /dominantP v1 /dominantP v2 sz xi x1; have h2 := valid_le v2; rewrite -sz in h2.
have x0 i : x i != 0 by apply/eqP => e; move: x1; rewrite (bigD1 i) //= e mul0r => /eqP; rewrite eq_sym oner_eq0.
pose l := [seq nrm (tw S1 S2 M) | M <- gtp (size S1) S1 & good S1 S2 M].
have lP S : S \in l -> valid_S S /\ size S = size S1.
  move=> /mapP[M]; rewrite mem_filter => /andP[g /(mem_gtp _ v1) gt] ->.
  by have [n1 n2 _] := nrm_valid (tw_valid v1 (esym sz) h2 gt g); rewrite n2 size_tw.
exists l, (gtp (size S1) S1), (gtp (size S2) S2), [seq gtp (size S) S | S <- l].
split; rewrite ?S_to_MsE //.
- exact: (mul_repE v1 (esym sz)).
- by apply: mapR_ok_in => S /lP[v _]; rewrite S_to_MsE.
have chE := @character_chi F _ x.
have a0 : alt x (fun p => - p%:Z) != 0.
  pose u i := if insub i is Some j then (x j)^-1 else 0.
  have uE (i : 'I_(size S1)) : u i = (x i)^-1 by rewrite /u valK.
  rewrite /alt -det_tr (_ : _^T = \matrix_(i < size S1, j < size S1) ('X^j).[u i]); last first.
    by apply/matrixP => i j; rewrite !mxE hornerXn uE exprVn exprnN.
  rewrite det_poly => [|j]; last by rewrite size_polyXn.
  rewrite mulf_neq0 //; first last.
    by apply/prodf_neq0 => j _; rewrite coefXn eqxx oner_eq0.
  apply/prodf_neq0 => i _; apply/prodf_neq0 => k _.
  have kn : (k < size S1)%N by apply: ltn_trans (ltn_ord i).
  rewrite subr_eq0 -[k : nat]/(Ordinal kn : nat) !uE (inj_eq invr_inj) (inj_eq xi).
  by apply/eqP => /(congr1 val) /= e; have := ltn_ord k; rewrite -e ltnn.
apply: (mulIf a0).
have wc S : valid_S S -> size S = size S1 ->
    chi S x * alt x (fun p => - p%:Z) = alt x (fun p => S`_p - p%:Z).
  by move=> v sS; move: (x) x0; rewrite -sS => y y0; apply: weyl_char.
rewrite !chE // -mulrA wc // -(char_alt v1 (esym sz) h2) //.
rewrite big_map big_seq (eq_bigr (fun S => chi S x)) => [|S /lP[]]; last exact: chE.
rewrite -big_seq mulr_suml big_seq (eq_bigr (fun S : weight => alt x (fun p => S`_p - p%:Z))); last first.
  by move=> S /lP[]; apply: wc.
rewrite -big_seq big_map big_filter; apply: eq_bigr => M _.
rewrite -[RHS](alt_shift _ (last 0 (tw S1 S2 M)) x0 x1); congr (\det _).
apply/matrixP => i j; rewrite !mxE; congr (_ ^ _).
by rewrite (nth_map 0) ?size_mkseq // nth_mkseq // addrAC.
Qed.

(** ** SUN.__mul__: the distinct weights of mul_rep, in strictly increasing lexicographic order. *)
Lemma lexlt_irr (s : weight) : lexlt <%R s s = false.
Proof. by elim: s => //= x s ih; rewrite eqxx. Qed.
Lemma lexlt_asym (s t : weight) : lexlt <%R s t -> lexlt <%R t s = false.
Proof.
elim: s t => [|x s ih] [|y t] //=; rewrite [y == x]eq_sym; case: eqP => [_|_]; first exact: ih.
by move=> h; apply/negbTE; rewrite -leNgt ltW.
Qed.
Lemma lexlt_total (s t : weight) : size s = size t -> [|| lexlt <%R s t, s == t | lexlt <%R t s].
Proof.
elim: s t => [|x s ih] [|y t] //= [st]; rewrite [y == x]eq_sym eqseq_cons.
by case: eqP => [_|/eqP]; [exact: ih | rewrite neq_lt].
Qed.
Theorem C51_mul S1 S2 : dominant S1 -> dominant S2 -> size S1 = size S2 -> exists l r,
  [/\ mul_rep S1 S2 = Ok l, sun_mul S1 S2 = Ok r, r =i l & sorted (lexlt <%R) r].
Proof.
move=> d1 d2 sz; have [l [lE _ lP]] := C51_weights d1 d2 sz.
exists l, (sort (fun s t => ~~ lexlt <%R t s) (undup l)); split=> //.
- rewrite /sun_mul lE /= (@mapR_ok_in _ _ _ id) ?map_id // => S; rewrite mem_sort mem_undup => /lP[d _ l0].
  by rewrite /sun_new ((dominantP S).1 d) l0 eqxx.
- by move=> S; rewrite mem_sort mem_undup.
set r := sort _ _.
have so : sorted (fun s t => ~~ lexlt <%R t s) r.
  apply: sort_sorted => s t; case h : (lexlt _ t s) => //=; by rewrite (lexlt_asym h).
have ur : uniq r by rewrite sort_uniq undup_uniq.
have sr S : S \in r -> size S = size S1 by rewrite mem_sort mem_undup => /lP[].
move: so ur sr; clearbody r; elim: r => [|s [|t r] ih] //= /andP[h so] ur sr.
apply/andP; split; last first.
  by have /andP[_ ur'] := ur; apply: ih => // S hS; apply: sr; rewrite inE hS orbT.
have := @lexlt_total s t; rewrite (negbTE h) orbF !sr ?inE ?eqxx ?orbT // => /(_ erefl) /orP[] // /eqP e.
by case/andP: ur; rewrite e inE eqxx.
Qed.
Example C51_example :
  [/\ dominant [:: 1; 0; 0], dominant [:: 1; 1; 0],
      mul_rep [:: 1; 0; 0] [:: 1; 1; 0] = Ok [:: [:: 0; 0; 0]; [:: 2; 1; 0]] &
      sun_mul [:: 1; 0; 0] [:: 1; 1; 0] = Ok [:: [:: 0; 0; 0]; [:: 2; 1; 0]]].
Proof. by split; do ?[by split=> // -[|[|]]]; vm_compute. Qed.
(** The square of the adjoint representation of SU(3), with the adjoint occurring twice. *)
Example C51_example8 : exists l,
  [/\ mul_rep [:: 2; 1; 0] [:: 2; 1; 0] = Ok l, size l = 6%N & count_mem [:: 2; 1; 0] l = 2%N].
Proof.
exists (if mul_rep [:: 2; 1; 0] [:: 2; 1; 0] is Ok l then l else [::]); split; by vm_compute.
Qed.
(** The eigenvalues 2, 3, 1/6 meet the hypotheses of C51_character. *)
Example C51_example_torus :
  let x (i : 'I_3) : rat := nth 0 [:: 2%:R; 3%:R; 6%:R^-1] i in injective x /\ \prod_i x i = 1.
Proof.
split; last by rewrite !big_ord_recl big_ord0 /= mulr1.
by move=> [[|[|[|//]]] hi] [[|[|[|//]]] hj] //= h; apply: val_inj.
Qed.
