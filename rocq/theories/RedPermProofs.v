(** RedPermProofs: germinate_perm_repr and subrepr_permutation. *)
From mathcomp Require Import all_ssreflect all_fingroup all_algebra.
From mathcomp Require Import zify.
From Verif Require Import Base Perm PermProofs PermProofs2 Closure RedPerm.

Set Implicit Arguments.
Unset Strict Implicit.
Unset Printing Implicit Defensive.
Import GRing.Theory Num.Theory.

(** ** rendering formulas (specification side) *)
Definition render_term (t : bool * seq nat) : seq nat :=
  if t.1 then code_minus :: t.2 else t.2.
Fixpoint join (c : nat) (ws : seq (seq nat)) : seq nat :=
  match ws with
  | [::] => [::]
  | [:: w] => w
  | w :: ws' => w ++ c :: join c ws'
  end.
Definition render (ts : seq (bool * seq nat)) : seq nat :=
  join code_eq [seq render_term t | t <- ts].
(** Index names: any characters except '-' and '='. *)
Definition plain (w : seq nat) : bool := (code_minus \notin w) && (code_eq \notin w).

Lemma split_on_nil c w : c \notin w -> split_on c w = [:: w].
Proof.
elim: w => //= x w IH; rewrite inE negb_or => /andP[cx cw].
by rewrite eq_sym (negbTE cx) IH.
Qed.

Lemma split_on_cat c w s : c \notin w -> split_on c (w ++ c :: s) = w :: split_on c s.
Proof.
elim: w => /= [|x w IH]; first by rewrite eqxx.
by rewrite inE negb_or => /andP[cx cw]; rewrite eq_sym (negbTE cx) IH.
Qed.

Lemma split_join (c : nat) (ws : seq (seq nat)) : ws != [::] -> all (fun w => c \notin w) ws -> split_on c (join c ws) = ws.
Proof.
elim: ws => // w [|w' ws] IH _; first by move=> /= /andP[cw _]; apply: split_on_nil.
case/andP=> cw cws; rewrite -[join _ _]/(w ++ c :: join c (w' :: ws)).
by rewrite split_on_cat // IH.
Qed.

Definition bsgn (b : bool) : int := if b then (-1)%R else 1%R.

Lemma parse_render t : plain t.2 -> parse_term (render_term t) = (bsgn t.1, t.2).
Proof.
case: t => b w /= /andP[mw _].
have flt : [seq x <- w | x != code_minus] = w.
  by apply/all_filterP/allP => x xw; apply: contraNneq mw => <-.
case: b; rewrite /parse_term /render_term /= ?flt //.
by case: w mw {flt} => [|x w] //=; rewrite inE negb_or => /andP[/negbTE]; rewrite eq_sym => ->.
Qed.

Lemma formulas_render (ts : seq (bool * seq nat)) : ts != [::] -> all (fun t => plain t.2) ts ->
  [seq parse_term f | f <- split_on code_eq (render ts)] = [seq (bsgn t.1, t.2) | t <- ts].
Proof.
move=> t0 /allP pl; rewrite /render split_join; last 2 first.
- by case: ts t0 {pl}.
- apply/allP=> _ /mapP[t /pl /andP[_ nt] ->]; rewrite /render_term; case: t.1 => //.
by rewrite -map_comp; apply/eq_in_map => t /pl; apply: parse_render.
Qed.

(** ** signed permutations *)
Section Signed.
Variable n : nat.
Notation fT := (prod_finType bool_finType (perm_finType (ordinal_finType n))).

Definition senc (x : bool * 'S_n) : sp := (bsgn x.1, pseq x.2).
Definition sinv (x : bool * 'S_n) : bool * 'S_n := (x.1, (x.2^-1)%g).
(** product: signs multiply, permutations compose as functions (x.2 after y.2). *)
Definition smul (x y : bool * 'S_n) : bool * 'S_n := (x.1 (+) y.1, (y.2 * x.2)%g).

Lemma bsgn_inj : injective bsgn. Proof. by case=> [] []. Qed.
Lemma bsgnM a b : (bsgn a * bsgn b)%R = bsgn (a (+) b). Proof. by case: a; case: b. Qed.

Lemma senc_inj : injective senc.
Proof. by case=> [a x] [b y] [] /bsgn_inj -> /pseq_inj ->. Qed.

Lemma gpr_loopP fuel (s : seq sp) (A : {set bool * 'S_n}) : clists senc s A ->
  2 * n`! < fuel ->
  exists r B, [/\ gpr_loop fuel s = Ok r, clists senc r B & forall x, (x \in B) <-> gen sinv smul A x].
Proof.
move=> LA lt.
have lt' : #|fT| - #|A| < fuel.
  apply: leq_ltn_trans lt; apply: (leq_trans (leq_subr _ _)).
  by rewrite card_prod card_bool card_Sn.
have [||r [B [E LB HB]]] := cloopP senc_inj (inv := sinv) (mul := smul)
   (einv := fun p : sp => do q <- inverse p.2; Ok (p.1, q))
   (ecmp := fun pq : sp * sp => do q <- compose pq.1.2 pq.2.2; Ok ((pq.1.1 * pq.2.1)%R, q))
   _ _ LA lt'.
- by case=> a x; rewrite /= inverse_pseq.
- by case=> a x [b y]; rewrite /= compose_pseq /= bsgnM.
exists r, B; split=> //.
Qed.
End Signed.

(** Specification of the generators written in a formula: the letter at position
    [k] of the first word [f0] stands at position [x k] of the word [w]. *)
Definition places (f0 w : seq nat) (n : nat) (x : 'S_n) : bool :=
  [forall k : 'I_n, nth 0 w (x k) == nth 0 f0 k].
Definition formula_gens (f0 : seq nat) (ts : seq (bool * seq nat)) (n : nat) : {set bool * 'S_n} :=
  [set bx : bool * 'S_n | has (fun t => (t.1 == bx.1) && places f0 t.2 bx.2) ts].

Lemma word_perm (f0 w : seq nat) : uniq f0 -> perm_eq w f0 ->
  exists2 x : 'S_(size f0), mapR (fun i => pyindex w i) f0 = Ok (pseq x) & places f0 w x.
Proof.
move=> u0 pe; have uw : uniq w by rewrite (perm_uniq pe).
have sz := perm_size pe.
have E : mapR (fun i => pyindex w i) f0 = Ok [seq index i w | i <- f0].
  by apply: mapR_ok_in => i i0; rewrite /pyindex (perm_mem pe) i0.
set p := [seq index i w | i <- f0] in E.
have szp : size p = size f0 by rewrite size_map.
have pp : is_perm p.
  rewrite is_permE szp; apply: uniq_perm; rewrite ?iota_uniq //.
    rewrite map_inj_in_uniq // => i j; rewrite -!(perm_mem pe) => iw jw EE.
    by rewrite -(nth_index 0 iw) EE nth_index.
  move=> k; rewrite mem_iota /= add0n; apply/mapP/idP => [[i i0 ->]|lk].
    by rewrite -sz index_mem (perm_mem pe).
  exists (nth 0 w k); first by rewrite -(perm_mem pe) mem_nth // sz.
  by rewrite index_uniq // sz.
have [x Ex] := is_permP pp szp; exists x; first by rewrite E Ex.
apply/forallP => k; apply/eqP; rewrite -(nth_pseq x k 0) -Ex (nth_map 0) //.
by rewrite nth_index // (perm_mem pe) mem_nth.
Qed.

Lemma places_uniq (f0 w : seq nat) (x y : 'S_(size f0)) : uniq w -> size w = size f0 ->
  places f0 w x -> places f0 w y -> x = y.
Proof.
move=> uw sz /forallP px /forallP py; apply/permP=> k; apply: val_inj; apply/eqP.
have /eqP ex := px k; have /eqP ey := py k.
have H := nth_uniq 0 (_ : (x k : nat) < size w) (_ : (y k : nat) < size w) uw.
by rewrite -H ?sz //= ex ey.
Qed.

Lemma same_set_perm (w f0 : seq nat) : uniq f0 ->
  (size (undup w) != size w) || ~~ same_set w f0 = ~~ perm_eq w f0.
Proof.
move=> u0; rewrite -negb_and; congr negb; apply/andP/idP => [[/eqP sz /andP[/allP s1 /allP s2]]|pe].
  have uw : uniq w by rewrite -[uniq w]negbK -ltn_size_undup sz ltnn.
  by apply: uniq_perm => // i; apply/idP/idP; [apply: s1 | apply: s2].
split; first by rewrite undup_id // (perm_uniq pe).
by apply/andP; split; apply/allP=> i; rewrite (perm_mem pe).
Qed.

Lemma check_formulas (f0 : seq nat) (fs : seq sp) : uniq f0 ->
  foldR (fun _ (sf : sp) =>
            if (size (undup sf.2) != size sf.2) || ~~ same_set sf.2 f0 then Err RuntimeError
            else if size f0 != size sf.2 then Err RuntimeError else Ok tt) tt fs
  = if all (fun sf : sp => perm_eq sf.2 f0) fs then Ok tt else Err RuntimeError.
Proof.
move=> u0; elim: fs => //= -[s w] fs IH /=; rewrite same_set_perm //.
case: (boolP (perm_eq w f0)) => //= pe; rewrite (perm_size pe) eqxx /=; exact: IH.
Qed.

Lemma germinate_perm_repr_raises fuel f0 ts : plain f0 -> all (fun t => plain t.2) ts ->
  (~~ uniq f0 \/ has (fun t : bool * seq nat => ~~ perm_eq t.2 f0) ts) ->
  germinate_perm_repr fuel (render ((false, f0) :: ts)) = Err RuntimeError.
Proof.
move=> p0 pt bad; rewrite /germinate_perm_repr formulas_render //=; last by rewrite p0.
have [u0|nu0] := boolP (uniq f0); last first.
  have -> //= : size (undup f0) != size f0.
  by rewrite neq_ltn ltn_size_undup nu0.
rewrite /= same_set_perm // perm_refl /= eqxx /= check_formulas //.
case: bad => [/negP//|/hasP[t tt nt]].
suff /negbTE -> : ~~ all (fun sf : sp => perm_eq sf.2 f0) [seq (bsgn t.1, t.2) | t <- ts] by [].
by rewrite all_map; apply/allPn; exists t.
Qed.

Lemma germinate_perm_repr_neg fuel f0 ts : plain f0 -> all (fun t => plain t.2) ts ->
  germinate_perm_repr fuel (render ((true, f0) :: ts)) = Err AssertionError.
Proof. by move=> p0 pt; rewrite /germinate_perm_repr formulas_render //= p0. Qed.

Lemma germinate_perm_reprP fuel (f0 : seq nat) ts (n := size f0) :
  plain f0 -> all (fun t => plain t.2) ts -> uniq f0 ->
  all (fun t : bool * seq nat => perm_eq t.2 f0) ts -> 2 * n`! < fuel ->
  exists r B, [/\ germinate_perm_repr fuel (render ((false, f0) :: ts)) = Ok (f0, r),
     clists (@senc n) r B & forall x, (x \in B) <-> gen (@sinv n) (@smul n) (formula_gens f0 ((false, f0) :: ts) n) x].
Proof.
move=> p0 pt u0 pe lt; rewrite /germinate_perm_repr formulas_render //=; last by rewrite p0.
rewrite same_set_perm // perm_refl /= eqxx /= check_formulas // all_map pe /=.
have [y0 E0 pl0] := word_perm u0 (perm_refl f0); rewrite E0 /=.
pose g (t : bool * seq nat) : sp := (bsgn t.1, if mapR (fun i => pyindex t.2 i) f0 is Ok p then p else [::]).
rewrite (_ : mapR _ [seq (bsgn t.1, t.2) | t <- ts] = Ok (map g ts)); last first.
  elim: ts pe {pt lt} => //= -[b w] ts IH /andP[pw pe].
  by rewrite /= IH //= /g /=; have [x -> _] := word_perm u0 pw.
pose s := undup ((1%R, pseq y0) :: map g ts).
rewrite [X in rbind X _]/= -[rbind _ _]/(rbind (gpr_loop fuel s) (fun r0 => Ok (f0, r0))).
have Ls : clists (@senc n) s (formula_gens f0 ((false, f0) :: ts) n).
  split; first exact: undup_uniq.
  move=> q; rewrite mem_undup; apply/idP/mapP.
    rewrite inE => /orP[/eqP->|/mapP[[b w] tin ->]].
      by exists (false, y0) => //; rewrite mem_enum inE /= pl0.
    have pw := allP pe _ tin; have [x E px] := word_perm u0 pw; exists (b, x); last by rewrite /g /= E.
    by rewrite mem_enum inE /=; apply/orP; right; apply/hasP; exists (b, w); rewrite //= eqxx.
  case=> -[b x]; rewrite mem_enum inE /= => /orP[/andP[/eqP <- px] ->|/hasP[[b' w] tin /= /andP[/eqP Eb px]] ->].
    by rewrite /senc /= (places_uniq u0 erefl px pl0) mem_head.
  subst b'; have pw := allP pe _ tin; have [x' E px'] := word_perm u0 pw.
  rewrite inE; apply/orP; right; apply/mapP; exists (b, w) => //.
  rewrite /g /= E /senc /=; congr (_, pseq _); apply: (@places_uniq f0 w) => //.
    by rewrite (perm_uniq pw).
  by rewrite (perm_size pw).
have [r [B [E LB HB]]] := gpr_loopP Ls lt.
by exists r, B; rewrite E.
Qed.
