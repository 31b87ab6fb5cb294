(** ParseProofs: lemmas about the parsers of Parse.v. *)
From mathcomp Require Import all_ssreflect all_algebra.
From mathcomp Require Import zify.
From Verif Require Import Base Nd Reps Reduced Labels Sun Parse.

Set Implicit Arguments.
Unset Strict Implicit.
Unset Printing Implicit Defensive.

Import Order.POrderTheory GRing.Theory Num.Theory.
Local Open Scope ring_scope.

(** Decimal numerals, printed. *)
Fixpoint dec_fuel (f n : nat) : str :=
  if f is f'.+1 then
    if (n < 10)%N then [:: (48 + n)%N] else rcons (dec_fuel f' (n %/ 10)) (48 + n %% 10)%N
  else [::].
Definition dec (n : nat) : str := dec_fuel n.+1 n.
Definition show_int (z : int) : str := if z is Negz n then 45%N :: dec n.+1 else dec `|z|%N.
(** sep.join(l) for a single character sep. *)
Fixpoint join (c : nat) (l : seq str) : str :=
  match l with
  | [::] => [::]
  | [:: x] => x
  | x :: l' => x ++ c :: join c l'
  end.

Definition step (a c : nat) : nat := (a * 10 + (c - 48))%N.
Lemma int_body_digits ds acc b : all isdigit ds -> int_body ds acc b = if b || (0 < size ds)%N then Some (foldl step acc ds) else None.
Proof.
elim: ds acc b => [|c ds ih] acc b /=; first by case: b.
by case/andP=> hc h; rewrite hc ih //= orbT.
Qed.
Lemma dec_fuelP f n : (n < f)%N -> all isdigit (dec_fuel f n) /\ (0 < size (dec_fuel f n))%N /\ foldl step 0%N (dec_fuel f n) = n.
Proof.
elim: f n => [//|f ih] n hn /=; case: (ltnP n 10) => h10.
  by rewrite /= /isdigit /step; split; [lia | split=> //; lia].
have [|a [b c]] := ih (n %/ 10)%N.
  apply: leq_trans (_ : (n <= f)%N); last by rewrite -ltnS.
  by rewrite ltn_Pdiv //; lia.
rewrite all_rcons a size_rcons -cats1 foldl_cat c /= /step /isdigit.
have := divn_eq n 10; have : (n %% 10 < 10)%N by rewrite ltn_mod.
by split; [rewrite andbT; lia | split=> //; lia].
Qed.
Lemma dec_digits n : all isdigit (dec n). Proof. by have [] := @dec_fuelP n.+1 n (ltnSn n). Qed.
Lemma dec_size n : (0 < size (dec n))%N. Proof. by have [_ []] := @dec_fuelP n.+1 n (ltnSn n). Qed.
Lemma dec_val n : foldl step 0%N (dec n) = n. Proof. by have [_ [_]] := @dec_fuelP n.+1 n (ltnSn n). Qed.
Global Opaque dec.

Definition nospace (s : str) : bool := all (fun c => ~~ isspace c) s.
Lemma lstrip_pad w s : all isspace w -> lstrip (w ++ s) = lstrip s.
Proof. by elim: w => //= c w ih /andP[-> /ih]. Qed.
Lemma lstrip_nospace s t : (0 < size s)%N -> nospace s -> lstrip (s ++ t) = s ++ t.
Proof. by case: s => //= c s _ /andP[/negbTE->]. Qed.
Lemma lstrip_id s : nospace s -> lstrip s = s.
Proof. by case: s => //= c s /andP[/negbTE->]. Qed.
Lemma strip_pad w1 w2 s : all isspace w1 -> all isspace w2 -> (0 < size s)%N -> nospace s -> strip (w1 ++ s ++ w2) = s.
Proof.
move=> h1 h2 s0 hs; rewrite /strip lstrip_pad // lstrip_nospace // rev_cat lstrip_pad ?all_rev //.
by rewrite lstrip_id ?revK // /nospace all_rev.
Qed.
Lemma strip_id s : nospace s -> strip s = s.
Proof. by move=> h; rewrite /strip !lstrip_id ?revK // /nospace all_rev. Qed.
Lemma digit_nospace c : isdigit c -> ~~ isspace c.
Proof. by rewrite /isdigit /isspace; lia. Qed.
Lemma digits_nospace ds : all isdigit ds -> nospace ds.
Proof. by move=> h; apply: sub_all h => c; exact: digit_nospace. Qed.

(** Digits, as any numeral. *)
Lemma py_int_digits ds : all isdigit ds -> (0 < size ds)%N -> py_int ds = Ok (foldl step 0%N ds)%:Z.
Proof.
move=> h s0; rewrite /py_int strip_id; last exact: digits_nospace.
case: ds h s0 => // c ds h _; have hc : isdigit c by case/andP: h.
have -> : (c == 45)%N = false by move: hc; rewrite /isdigit; lia.
have -> : (c == 43)%N = false by move: hc; rewrite /isdigit; lia.
by rewrite int_body_digits.
Qed.
Lemma py_int_strip s : py_int s = py_int (strip s).
Proof.
rewrite /py_int; suff -> : strip (strip s) = strip s by [].
have key (x : str) : lstrip (lstrip x) = lstrip x by elim: x => //= c x ih; case: ifP => [//|h] /=; rewrite h.
have hd (x : str) : exists w, all isspace w /\ x = w ++ lstrip x.
  elim: x => [|c x [w [hw e]]] /=; first by exists [::].
  by case: ifP => h; [exists (c :: w); rewrite /= h hw -e | exists [::]].
have nohead (x : str) : lstrip x = x -> lstrip (rev (lstrip (rev x))) = rev (lstrip (rev x)).
  move=> e; have [w [hw ew]] := hd (rev x); set y := lstrip (rev x) in ew *.
  have ex : x = rev y ++ rev w by rewrite -rev_cat -ew revK.
  case ey : (rev y) => [|c z] //=; move: e; rewrite ex ey /=; case: ifP => // sc eq.
  exfalso; have [v [_ ev]] := hd (z ++ rev w).
  by have := congr1 size ev; rewrite eq !size_cat /= size_cat; lia.
by rewrite /strip (nohead (lstrip s) (key s)) revK key.
Qed.
Lemma show_nospace z : nospace (show_int z).
Proof. by case: z => n; rewrite /show_int /=; exact: digits_nospace (dec_digits _). Qed.
Lemma show_size z : (0 < size (show_int z))%N.
Proof. by case: z => n //; exact: dec_size. Qed.
Lemma py_int_show z : py_int (show_int z) = Ok z.
Proof.
case: z => n; first by rewrite /show_int py_int_digits ?dec_digits ?dec_size // dec_val.
rewrite /py_int strip_id; last exact: show_nospace.
by rewrite /= int_body_digits ?dec_digits //= dec_size dec_val NegzE.
Qed.
Lemma py_int_show_pad w1 w2 z : all isspace w1 -> all isspace w2 -> py_int (w1 ++ show_int z ++ w2) = Ok z.
Proof. by move=> h1 h2; rewrite py_int_strip strip_pad ?show_size ?show_nospace // py_int_show. Qed.
(** A character that is not white space, a digit, a sign or an underscore. *)
Definition badchar (c : nat) : bool := [&& ~~ isspace c, ~~ isdigit c & c \notin [:: 43; 45; 95]%N].
Lemma int_body_bad s acc b : has badchar s -> int_body s acc b = None.
Proof.
elim: s acc b => //= c s ih acc b /orP[|h].
  case/and3P=> _ /negbTE-> ; rewrite !inE !negb_or => /and3P[_ _ /negbTE->] //.
by rewrite !ih //; case: ifP => //; case: ifP.
Qed.
Lemma lstrip_bad s : has badchar (lstrip s) = has badchar s.
Proof. by elim: s => //= c s ih; case: ifP => //= h; rewrite ih /badchar h. Qed.
Lemma py_int_bad s : has badchar s -> py_int s = Err ValueError.
Proof.
move=> h; have : has badchar (strip s) by rewrite /strip has_rev lstrip_bad has_rev lstrip_bad.
rewrite /py_int; case: (strip s) => [//|c t] hb.
have ht : c \in [:: 43; 45; 95]%N -> has badchar t.
  by move=> hc; move: hb => /=; rewrite {1}/badchar hc /= !andbF.
case: eqP => [ec|_]; first by rewrite int_body_bad // ht // ec.
case: eqP => [ec|_]; first by rewrite int_body_bad // ht // ec.
by rewrite int_body_bad.
Qed.

(** split and join *)
Lemma split_cat c x s : c \notin x -> split c (x ++ c :: s) = x :: split c s.
Proof.
elim: x => [|y x ih] /=; first by rewrite eqxx.
by rewrite inE negb_or eq_sym => /andP[/negbTE-> /ih->].
Qed.
Lemma split_none c x : c \notin x -> split c x = [:: x].
Proof. by elim: x => [|y x ih] //=; rewrite inE negb_or eq_sym => /andP[/negbTE-> /ih->]. Qed.
Lemma split_join c l : l <> [::] -> all (fun x : str => c \notin x) l -> split c (join c l) = l.
Proof.
elim: l => [//|x [|y l] ih] _ /andP[hx hl]; first by rewrite /= split_none.
by rewrite [join c _]/(x ++ c :: join c (y :: l)) split_cat // ih.
Qed.

(** The regular expressions *)
Lemma span_digits ds t : all isdigit ds -> ~~ isdigit (head 0%N t) -> span (ds ++ t) = (ds, t).
Proof.
elim: ds => [|c ds ih] /=; first by case: t => //= c t _ /negbTE->.
by case/andP=> -> h ht; rewrite ih.
Qed.
Lemma match_pairE a b t : all isdigit a -> all isdigit b -> (0 < size a)%N -> (0 < size b)%N ->
  match_pair (40%N :: a ++ 44%N :: b ++ 41%N :: t) = Some (a, b).
Proof.
move=> ha hb sa sb; rewrite /match_pair span_digits //.
by case: a ha sa => // x a _ _; rewrite span_digits //; case: b hb sb.
Qed.
Lemma match_loop_digits ds t b acc : all isdigit ds -> (0 < size ds)%N ->
  match_list_loop (ds ++ t) b acc = match_list_loop t true (acc ++ ds).
Proof.
elim: ds b acc => [//|c [|c' ds] ih] b acc /andP[hc h] _.
  by rewrite /= hc cats1.
by rewrite [LHS]/= hc -[LHS]/(match_list_loop ((c' :: ds) ++ t) true (rcons acc c)) ih // cat_rcons.
Qed.
Lemma match_loop_join l t b acc : l <> [::] -> all (all isdigit) l -> all (fun x : str => (0 < size x)%N) l ->
  match_list_loop (join 44 l ++ 41%N :: t) b acc = Some (acc ++ join 44 l).
Proof.
elim: l b acc => [//|x [|y l] ih] b acc _ /andP[hx hl] /andP[sx sl].
  by rewrite /= match_loop_digits.
rewrite [join 44 _]/(x ++ 44%N :: join 44 (y :: l)) -catA match_loop_digits // cat_cons.
rewrite [LHS]/= -[LHS]/(match_list_loop (join 44 (y :: l) ++ 41%N :: t) false (rcons (acc ++ x) 44%N)) ih //.
by rewrite -cats1 -!catA.
Qed.
Lemma lstrip_paren s : lstrip (40%N :: s) = 40%N :: s. Proof. by []. Qed.
(** strip leaves a prefix ending with ) in place. *)
Lemma strip_prefix s t : (0 < size s)%N -> nospace s -> exists t', strip (s ++ t) = s ++ t'.
Proof.
move=> s0 hs; rewrite /strip lstrip_nospace // rev_cat.
have hd (x : str) : exists w, all isspace w /\ x = w ++ lstrip x.
  elim: x => [|c x [w [hw e]]] /=; first by exists [::].
  by case: ifP => h; [exists (c :: w); rewrite /= h hw -e | exists [::]].
have [w [hw ew]] := hd (rev t).
rewrite {}ew -catA lstrip_pad //; case el : (lstrip (rev t)) => [|c u].
  by exists [::]; rewrite cat0s lstrip_id ?revK ?cats0 // /nospace all_rev.
exists (rev (c :: u)); rewrite -[in RHS](revK s) -rev_cat; congr rev.
have : lstrip (c :: u) = c :: u by rewrite -el; elim: (rev t) => //= d x ih; case: ifP => [//|h] /=; rewrite h.
rewrite /=; case: ifP => // _ e; exfalso.
by have [v [_ ev]] := hd u; have := congr1 size ev; rewrite e !size_cat /=; lia.
Qed.
