(** Property C58: the from_string methods read back what is printed.

    [show_int] is the decimal numeral of an integer, with a minus sign if it is negative
    (ParseProofs.v). *)
From Coq Require Import ZArith String Ascii.
From mathcomp Require Import all_ssreflect all_algebra.
From mathcomp Require Import zify.
From Verif Require Import Base Nd Reps Reduced Labels Sun Parse ParseProofs.

Set Implicit Arguments.
Unset Strict Implicit.
Unset Printing Implicit Defensive.

Import Order.POrderTheory GRing.Theory Num.Theory.
Local Open Scope ring_scope.

(** The code points of an ASCII literal. *)
Definition lit (s : string) : str := [seq nat_of_ascii c | c <- list_ascii_of_string s].
Definition blank (w : str) : bool := all isspace w.

(** ** SU2, SO3: an integer, possibly surrounded by white space *)
Theorem C58_int (w1 w2 : str) (z : int) : blank w1 -> blank w2 -> py_int (w1 ++ show_int z ++ w2) = Ok z.
Proof. exact: py_int_show_pad. Qed.
(** Every numeral is read as its value, also with leading zeros. *)
Theorem C58_numeral (ds : str) : all isdigit ds -> (0 < size ds)%N ->
  py_int ds = Ok (\sum_(i < size ds) (nth 0%N ds i - 48) * 10 ^ (size ds - i.+1))%N%:Z.
Proof.
move=> h s0; rewrite py_int_digits //; congr (Ok _%:Z).
suff key acc : foldl step acc ds = (acc * 10 ^ size ds + \sum_(i < size ds) (nth 0%N ds i - 48) * 10 ^ (size ds - i.+1))%N.
  by rewrite key.
clear h s0; elim: ds acc => [|c ds ih] acc /=; first by rewrite big_ord0 muln1 addn0.
rewrite ih big_ord_recl /= subSS subn0 addnA; congr (_ + _)%N.
by rewrite /step mulnDl expnS mulnA.
Qed.
(** Any other character is refused. *)
Theorem C58_refused (s : str) : has badchar s -> py_int s = Err ValueError.
Proof. exact: py_int_bad. Qed.
Theorem C58_su2 (j : int) : su2_from_string (show_int j) = if 0 <= j then Ok j else Err AssertionError.
Proof. by rewrite /su2_from_string py_int_show /= /su2_new /passert; case: ifP. Qed.
Theorem C58_so3 (l : int) : so3_from_string (show_int l) = Ok l.
Proof. exact: py_int_show. Qed.

(** ** O3, Z2 *)
Definition show_parity (p : int) : str := if p == 1 then lit "e" else lit "o".
Theorem C58_o3 (w1 w2 : str) (l p : int) : blank w1 -> blank w2 -> p = 1 \/ p = -1 ->
  o3_from_string (w1 ++ (show_int l ++ show_parity p) ++ w2) = Ok (l, p).
Proof.
move=> h1 h2 hp; rewrite /o3_from_string strip_pad //.
- have -> : size (show_int l ++ show_parity p) = (size (show_int l)).+1.
    by rewrite size_cat /show_parity; case: ifP => _; rewrite addn1.
  rewrite [_.+1.-1]/= take_size_cat // py_int_show /=.
  rewrite last_cat /=; case el: (show_int l ++ _) => [|c t].
    by have := show_size l; move/(congr1 size): el; rewrite size_cat /=; lia.
  by case: hp => ->.
- by rewrite size_cat; have := show_size l; lia.
- rewrite /nospace all_cat -/(nospace _) show_nospace /=.
  by rewrite /show_parity; case: ifP.
Qed.
(** The letter must be e or o. *)
Theorem C58_o3_letter (l : int) (c : nat) : ~~ isspace c -> c \notin lit "eo" ->
  o3_from_string (rcons (show_int l) c) = Err KeyError.
Proof.
move=> hs hc; rewrite /o3_from_string strip_id; last by rewrite /nospace all_rcons hs; exact: show_nospace.
rewrite size_rcons [_.+1.-1]/= -cats1 take_size_cat // py_int_show /= last_cat /=.
case el: (show_int l ++ _) => [|d t]; first by have := show_size l; move/(congr1 size): el; rewrite size_cat /=; lia.
by move: hc; rewrite /lit /= !inE negb_or /parity /= !eqseq_cons !andbT => /andP[/negbTE-> /negbTE->].
Qed.
Theorem C58_z2 (w1 w2 : str) (p : int) : blank w1 -> blank w2 -> p = 1 \/ p = -1 ->
  z2_from_string (w1 ++ show_parity p ++ w2) = Ok p.
Proof. by move=> h1 h2 [] ->; rewrite /z2_from_string strip_pad. Qed.

(** ** SL2C, SO13: a pair in parentheses *)
Definition show_pair (a : int * int) : str := 40%N :: show_int a.1 ++ 44%N :: show_int a.2 ++ [:: 41%N].
Lemma pair_match (a b : nat) w t : blank w -> match_pair (strip (w ++ show_pair (a%:Z, b%:Z) ++ t)) = Some (show_int a, show_int b).
Proof.
move=> hw; have -> : strip (w ++ show_pair (a%:Z, b%:Z) ++ t) = strip (show_pair (a%:Z, b%:Z) ++ t).
  by rewrite /strip lstrip_pad.
have [//||t' ->] := @strip_prefix (show_pair (a%:Z, b%:Z)) t.
  rewrite /nospace /show_pair /= all_cat /= all_cat /= andbT -!/(nospace _).
  by rewrite !(digits_nospace (dec_digits _)).
have -> : show_pair (a%:Z, b%:Z) ++ t' = 40%N :: dec a ++ 44%N :: dec b ++ 41%N :: t' by rewrite /show_pair /= -catA /= -catA.
by rewrite match_pairE ?dec_digits ?dec_size.
Qed.
(** White space before the pair, and anything after it, is ignored. *)
Theorem C58_sl2c (w t : str) (l k : nat) : blank w -> sl2c_from_string (w ++ show_pair (l%:Z, k%:Z) ++ t) = Ok (l%:Z, k%:Z).
Proof. by move=> hw; rewrite /sl2c_from_string pair_match // !py_int_show. Qed.
Theorem C58_so13 (w t : str) (l k : nat) : blank w ->
  so13_from_string (w ++ show_pair (l%:Z, k%:Z) ++ t) = if ~~ odd (l + k) then Ok (l%:Z, k%:Z) else Err AssertionError.
Proof.
move=> hw; rewrite /so13_from_string pair_match // !py_int_show /= /so13_new /passert /=.
have -> : (((l%:Z + k%:Z) %% 2)%Z == 0) = ~~ odd (l + k) by rewrite -PoszD modz_nat modn2; case: odd.
by case: ifP.
Qed.

(** ** SUN, SU2_, SU3, SU4, SON, SPN: a list in parentheses *)
Definition show_list (S : seq int) : str := 40%N :: join 44 (map show_int S) ++ [:: 41%N].
Lemma list_match (S : seq int) t : S <> [::] -> all (fun x => 0 <= x) S -> match_list (show_list S ++ t) = Some (join 44 (map show_int S)).
Proof.
move=> ne h; rewrite /match_list /show_list /= -catA match_loop_join //; first by case: S ne h.
  by rewrite all_map; apply: sub_all h => -[n|//] _; exact: dec_digits.
by rewrite all_map; apply/allP=> x _; exact: show_size.
Qed.
Lemma comma_notin (x : int) : (44 \notin show_int x)%N.
Proof.
have h (n : nat) : (44 \notin dec n)%N by apply/negP=> /(allP (dec_digits n)).
by case: x => n; rewrite /show_int ?inE //= h.
Qed.
(** For every class: the list of non-negative integers is read, then the constructor is called. *)
Theorem C58_weights (new : seq int -> res (seq int)) (S : seq int) (t : str) : S <> [::] -> all (fun x => 0 <= x) S ->
  weights_from_string new (show_list S ++ t) = new S.
Proof.
move=> ne h; rewrite /weights_from_string list_match // split_join; last first.
- by rewrite all_map; apply/allP=> x _; exact: comma_notin.
- by case: S ne h.
suff -> : mapR py_int (map show_int S) = Ok S by [].
by elim: S {ne h} => //= x S ih; rewrite py_int_show /= ih.
Qed.
Theorem C58_sun (S : seq int) : valid_S S -> last 0 S = 0 -> sun_from_string (show_list S) = Ok S.
Proof.
move=> v l0; rewrite /sun_from_string -[show_list S]cats0 C58_weights.
- by rewrite /sun_new v l0 eqxx.
- by case: S v {l0}.
move: v => /andP[s0]; case: S s0 l0 => // x S _ /=.
elim: S x => [|y S ih] x /=; first by move=> ->.
by move=> l0 /andP[le h]; have := ih y l0 h => /andP[y0 ->]; rewrite (le_trans y0 le) y0.
Qed.
(** White space before the list is not removed, unlike in SL2C. *)
Theorem C58_sun_blank (c : nat) (s : str) : isspace c -> sun_from_string (c :: s) = Err AttributeError.
Proof.
move=> hc; rewrite /sun_from_string /weights_from_string /match_list.
have {hc} : c <> 40%N by move=> e; rewrite e in hc.
by do 41! [case: c => [|c] //].
Qed.

(** ** MulIrrep, ReducedRep *)
Section Mul.
Variables (L : Type) (cls : str -> res L) (show : L -> str).
Hypothesis showP : forall x, cls (show x) = Ok x.
Hypothesis no_x : forall x, (120 \notin show x)%N.
Hypothesis no_plus : forall x, (43 \notin show x)%N.
Definition show_mul (t : int * L) : str := show_int t.1 ++ 120%N :: show t.2.
Lemma char_notin (c : nat) (z : int) : ~~ isdigit c -> c <> 45%N -> (c \notin show_int z)%N.
Proof.
move=> hd hm; have h (n : nat) : (c \notin dec n)%N by apply/negP=> /(allP (dec_digits n)); rewrite (negbTE hd).
by case: z => n; rewrite /show_int ?inE //= negb_or h andbT; apply/eqP.
Qed.
Theorem C58_mul (t : int * L) : mul_from_string cls (show_mul t) = Ok t.
Proof.
case: t => m x; rewrite /mul_from_string /show_mul mem_cat inE eqxx orbT split_cat; last exact: char_notin.
by rewrite split_none //= py_int_show /= showP.
Qed.
(** The multiplicity may be omitted. *)
Theorem C58_mul_one (x : L) : mul_from_string cls (show x) = Ok (1, x).
Proof. by rewrite /mul_from_string (negbTE (no_x x)) showP. Qed.
(** Terms joined by +. *)
Theorem C58_terms (ts : seq (int * L)) : ts <> [::] -> terms_from_string cls (join 43 (map show_mul ts)) = Ok ts.
Proof.
move=> ne; rewrite /terms_from_string split_join; last first.
- elim: ts {ne} => //= -[m x] ts ->; rewrite /show_mul mem_cat inE !negb_or char_notin //= no_plus //.
- by case: ts ne.
by elim: ts {ne} => //= t ts ih; rewrite C58_mul /= ih.
Qed.
End Mul.
(** ReducedRep.from_string is from_irreps of the printed terms; a negative multiplicity is
    refused. *)
Theorem C58_reduced (C : numClosedFieldType) (G : irreps C) (cls : str -> res (label G)) (show : label G -> str)
    (ts : seq (nat * label G)) (Q : option (nd C)) :
  (forall x, cls (show x) = Ok x) -> (forall x, (120 \notin show x)%N) -> (forall x, (43 \notin show x)%N) -> ts <> [::] ->
  reduced_from_string cls (join 43 [seq show_mul show (t.1%:Z, t.2) | t <- ts]) Q = from_irreps [seq MulIrrep t.1 t.2 | t <- ts] Q.
Proof.
move=> h1 h2 h3 ne; rewrite /reduced_from_string.
have -> : [seq show_mul show (t.1%:Z, t.2) | t <- ts] = map (show_mul show) [seq (t.1%:Z, t.2) | t <- ts] by rewrite -map_comp.
rewrite C58_terms //; last by case: ts ne.
rewrite /=; suff -> : mapR (fun t : int * label G => do _ <- passert (0 <= t.1); Ok (MulIrrep `|t.1|%N t.2)) [seq (t.1%:Z, t.2) | t <- ts] = Ok [seq MulIrrep t.1 t.2 | t <- ts] by [].
by elim: ts {ne} => //= t ts ->.
Qed.
(** The printed form of a MulIrrep of SO3, "2xSO3(l=1)", is not read back: __repr__ is not
    the format of from_string. *)
Theorem C58_repr_refuted (m l : int) :
  mul_from_string so3_from_string (show_int m ++ lit "xSO3(l=" ++ show_int l ++ lit ")") = Err ValueError.
Proof.
rewrite /mul_from_string mem_cat orbC /= split_cat; last exact: char_notin.
rewrite split_none; last first.
  rewrite /= !inE /= mem_cat negb_or char_notin //.
by rewrite py_int_show /= /so3_from_string py_int_bad.
Qed.

(** Examples. *)
Example C58_example_terms : terms_from_string so3_from_string (lit "0+1+2x2+0") = Ok [:: (1, 0); (1, 1); (2, 2); (1, 0)].
Proof. by []. Qed.
Example C58_example_o3 : o3_from_string (lit " 12o") = Ok (12%:Z, -1). Proof. by []. Qed.
Example C58_example_sun : sun_from_string (lit "(4,3,2,1,0)") = Ok [:: 4; 3; 2; 1; 0]. Proof. by []. Qed.
Example C58_example_so13 : so13_from_string (lit "(1,2)") = Err AssertionError. Proof. by []. Qed.
Example C58_example_underscore : py_int (lit "1_000") = Ok 1000%:Z /\ py_int (lit "1__0") = Err ValueError. Proof. by []. Qed.
Example C58_example_show : show_list [:: 10; 0] = lit "(10,0)" /\ show_mul show_int (3, -2) = lit "3x-2". Proof. by split; vm_compute. Qed.
