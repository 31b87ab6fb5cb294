(** Properties_RtpInst: C67 for SU2, O3 and Z2, where no hypothesis on the Clebsch-Gordan
    arrays is left. *)
From Coq Require Import ZArith String Ascii List Permutation.
From mathcomp Require Import all_ssreflect all_algebra.
From mathcomp Require Import zify.
From Verif Require Import Base Nd NdProofs Reps Reduced Labels LabelProofs Su2 Su2Cg Su2CgProofs Su2CgEq Su2Irr SoCg SoCgProofs Sl2c LinAlg.
From Verif Require Import Perm RedPerm Rtp RtpArr RtpEqv Properties_Cg Properties_SoCg Properties_Rtp.

Set Implicit Arguments.
Unset Strict Implicit.
Unset Printing Implicit Defensive.

Import GRing.Theory Num.Theory.
Local Open Scope ring_scope.

Section Inst.
Variable C : numClosedFieldType.
Notation nd := (nd C).
Variable rnd : nd -> nd.
Variable eigh : nd -> res (nd * nd).
Variable eps : C.
Let ford_id (f : seq nat) := f.
Local Lemma ford1 f : sorted ltn f -> ford_id f = f. Proof. by []. Qed.
Local Lemma ford2 f : perm_eq (ford_id f) f. Proof. by []. Qed.
Let rep0 : rep C := MkRep (zeros [::]) (zeros [::]) (zeros [::]).

(** ** SU2: the labels are the doubled spins *)
Definition su2_mulN (a b : nat) : res (seq nat) := do l <- su2_mul a%:Z b%:Z; Ok (map absz l).
Definition su2_Y (t n i j : nat) : C := get (rX (getR rep0 (su2_rep C n))) [:: t; i; j].
Theorem C67_su2 fuel irr G irs a xs t X : (t < 3)%N -> gens_ok S (su2_Y t) X irr ->
  rtp_out ltn S su2_mulN (su2_cg C) rnd eigh eps ford_id fuel irr G = Ok (irs, a, xs) ->
  basis_equivariant S (su2_Y t) X irr irs a.
Proof.
move=> ht; apply: C67_continuous ford2 ford1 _ _ _ _ _ _ _ _ _.
move=> n1 n2 ns n3 cg z em hin ec es w i j k hw hi hj hk.
have sel : tri n1 n2 n3.
  by rewrite -su2_listP /su2_list; move: em; rewrite /su2_mulN; case: (su2_mul _ _) => //= l [e]; rewrite e.
have [r1 [r2 [r3 [c [e1 e2 e3 e4 eqv]]]]] := C40_su2 C (selectedP _ _ _ sel).
move: e4; rewrite ec => -[e4]; move: es; rewrite /su2_Y e1 e2 e3 /= e4 => es.
have [c' [ec' [es' _]]] := su2_cg_ok C sel; move: ec'; rewrite ec e4 => -[e5]; rewrite -e5 es in es'.
by apply: eqv => //; case: es' hw => ->.
Qed.

(** ** O3: the labels are l and whether the parity is even *)
Definition sg (b : bool) : int := if b then 1 else -1.
Definition o3_mulN (a b : nat * bool) : res (seq (nat * bool)) :=
  Ok [seq (absz c.1, c.2 == 1) | c <- o3_mul (a.1%:Z, sg a.2) (b.1%:Z, sg b.2)].
Definition o3_cgN (a b c : nat * bool) : res nd := o3_cg C (a.1, sg a.2) (b.1, sg b.2) (c.1, sg c.2).
Definition o3_ltN (a b : nat * bool) : bool := o3_lt (a.1%:Z, sg a.2) (b.1%:Z, sg b.2).
Definition o3_dimN (a : nat * bool) : nat := (2 * a.1).+1.
Definition o3_Y (t : nat) (a : nat * bool) (i j : nat) : C := get (rX (getR rep0 (o3_rep C a.1 (sg a.2)))) [:: t; i; j].
Definition o3_P (a : nat * bool) (i j : nat) : C := get (rH (getR rep0 (o3_rep C a.1 (sg a.2)))) [:: 0%N; i; j].
Lemma o3_cg_case a b cs c cg z : o3_mulN a b = Ok cs -> c \in cs -> o3_cgN a b c = Ok cg ->
  shape cg = [:: z; o3_dimN a; o3_dimN b; o3_dimN c] ->
  z = 1%N /\ exists r1 r2 r3, [/\ o3_rep C a.1 (sg a.2) = Ok r1, o3_rep C b.1 (sg b.2) = Ok r2, o3_rep C c.1 (sg c.2) = Ok r3 &
  equivariant 3 (o3_dimN a) (o3_dimN b) (o3_dimN c) 1 (fun t i k => get (rX r1) [:: t; i; k]) (fun t i k => get (rX r2) [:: t; i; k]) (fun t i k => get (rX r3) [:: t; i; k]) cg /\
  equivariantH 1 (o3_dimN a) (o3_dimN b) (o3_dimN c) 1 (fun t i k => get (rH r1) [:: t; i; k]) (fun t i k => get (rH r2) [:: t; i; k]) (fun t i k => get (rH r3) [:: t; i; k]) cg].
Proof.
case: a b c => [l1 b1] [l2 b2] [l3 b3]; rewrite /o3_mulN /o3_cgN /o3_dimN /= => -[<-] hin ec es.
have hs b : SoCgProofs.sgn (sg b) by case: b.
have [hl hb] : l3 \in so3_list l1 l2 /\ sg b3 = sg b1 * sg b2.
  case/mapP: hin => -[x y]; rewrite /o3_mul => /mapP[x' hx [-> ->]] [-> ->]; split; last by case: (b1); case: (b2).
  by apply/mapP; exists x'.
have ht : tri (2 * l1) (2 * l2) (2 * l3) by rewrite -so3_listP.
have /selected3P sel := ht.
have [r1 [r2 [r3 [c [e1 e2 e3 [e4 _] eqv]]]]] := C65_o3 C sel (hs b1) (hs b2).
have [c' [ec' [es' _]]] := so3_cg_ok C ht.
move: ec; rewrite hb e4 => -[e5]; rewrite -e5; split.
  by move: e4; rewrite /o3_cg /= eqxx ec' => -[e6]; move: es; rewrite -e5 -e6 es' => -[].
by exists r1, r2, r3.
Qed.
Theorem C67_o3 fuel irr G irs a xs t X : (t < 3)%N -> gens_ok o3_dimN (o3_Y t) X irr ->
  rtp_out o3_ltN o3_dimN o3_mulN o3_cgN rnd eigh eps ford_id fuel irr G = Ok (irs, a, xs) ->
  basis_equivariant o3_dimN (o3_Y t) X irr irs a.
Proof.
move=> ht; apply: C67_continuous ford2 ford1 _ _ _ _ _ _ _ _ _.
move=> a1 a2 ns a3 cg z em hin ec es w i j k hw hi hj hk.
have [ez [r1 [r2 [r3 [e1 e2 e3 [eqv _]]]]]] := o3_cg_case em hin ec es.
by rewrite /o3_Y e1 e2 e3; apply: eqv => //; rewrite -ez.
Qed.
Theorem C67_o3_parity fuel irr G irs a xs X : gens_ok o3_dimN o3_P X irr ->
  rtp_out o3_ltN o3_dimN o3_mulN o3_cgN rnd eigh eps ford_id fuel irr G = Ok (irs, a, xs) ->
  basis_equivariantH o3_dimN o3_P X irr irs a.
Proof.
apply: C67_discrete ford2 ford1 _ _ _ _ _ _ _ _ _.
move=> a1 a2 ns a3 cg z em hin ec es w i j k hw hi hj hk.
have [ez [r1 [r2 [r3 [e1 e2 e3 [_ eqv]]]]]] := o3_cg_case em hin ec es.
by rewrite /o3_P e1 e2 e3; apply: eqv => //; rewrite -ez.
Qed.

(** ** Z2: the labels are the parities *)
Definition z2_mulN (a b : bool) : res (seq bool) := Ok [seq p == 1 | p <- z2_mul (sg a) (sg b)].
Definition z2_cgN (a b c : bool) : res nd := Ok (z2_cg C (sg a) (sg b) (sg c)).
Definition z2_P (a : bool) (i j : nat) : C := get (rH (z2_rep C (sg a))) [:: 0%N; i; j].
Definition z2_ltN (a b : bool) : bool := z2_lt (sg a) (sg b).
Theorem C67_z2 fuel irr G irs a xs X : gens_ok (fun=> 1%N) z2_P X irr ->
  rtp_out z2_ltN (fun=> 1%N) z2_mulN z2_cgN rnd eigh eps ford_id fuel irr G = Ok (irs, a, xs) ->
  basis_equivariantH (fun=> 1%N) z2_P X irr irs a.
Proof.
apply: C67_discrete ford2 ford1 _ _ _ _ _ _ _ _ _.
move=> a1 a2 ns a3 cg z [<-] hin [<-] es w i j k hw hi hj hk.
have hs b : SoCgProofs.sgn (sg b) by case: b.
have e3 : sg a3 = sg a1 * sg a2 by move: hin; rewrite inE => /eqP->; case: (a1); case: (a2).
have [eqv _] := C65_z2 C (hs a1) (hs a2); rewrite /z2_P e3; apply: eqv => //.
by move: es; rewrite e3 /z2_cg eqxx /= => -[->].
Qed.
(** Two vectors of Z2 representations, without symmetry: the result is there. *)
Example C67_z2_example : let r : seq (nat * bool) * option nd := ([:: (1%N, true); (1%N, false)], None) in
  let X (r' : seq (nat * bool) * option nd) := bdiag (fun=> 1%N) z2_P r'.1 in
  gens_ok (fun=> 1%N) z2_P X [:: r; r] /\
  exists a xs, rtp_list z2_ltN (fun=> 1%N) z2_mulN z2_cgN rnd eigh eps ford_id 3 [:: r; r] = Ok ([:: (2%N, true); (2%N, false)], a, xs).
Proof.
split; first by repeat constructor.
set x := rtp_list _ _ _ _ _ _ _ _ _ _.
have : (if x is Ok (irs, _, _) then irs == [:: (2%N, true); (2%N, false)] else false) = true by vm_compute.
by case: x => [[[irs a] xs]|] //= /eqP->; exists a, xs.
Qed.
End Inst.
