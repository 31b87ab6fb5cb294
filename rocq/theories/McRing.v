(* Proof automation only: no part of /repo is modelled here.

   [mcring] and [mcfield] decide ring and field identities over an arbitrary
   mathcomp commutative ring or field.  They reify a goal into the expression
   type below and call the correctness theorems of the standard library's
   [ring] and [field] tactics, which are stated for any ring. *)
From Coq Require Import ZArith Ring_polynom Ring_theory InitialRing Field_theory.
From Coq Require Import BinList.
From mathcomp Require Import all_ssreflect all_algebra.
Set Implicit Arguments. Unset Strict Implicit. Unset Printing Implicit Defensive.
Import GRing.Theory.
Local Open Scope ring_scope.

(* natural-number expressions below %:R, and ring expressions *)
Inductive nexp := NX of nat | NO | NS of nexp | NA of nexp & nexp | NM of nexp & nexp.
Inductive rexp :=
  | RX of nat | RO | RI | RN of nexp | RA of rexp & rexp | ROp of rexp
  | RM of rexp & rexp | RMn of rexp & nexp | RV of rexp | RP of rexp & nat.

Fixpoint nev (l : seq nat) (e : nexp) : nat :=
  match e with
  | NX i => seq.nth 0%N l i
  | NO => 0%N
  | NS e => (nev l e).+1
  | NA a b => (nev l a + nev l b)%N
  | NM a b => (nev l a * nev l b)%N
  end.

Fixpoint rev (R : unitRingType) (l : seq R) (ln : seq nat) (e : rexp) : R :=
  match e with
  | RX i => seq.nth 0 l i
  | RO => 0
  | RI => 1
  | RN n => (nev ln n)%:R
  | RA a b => rev l ln a + rev l ln b
  | ROp a => - rev l ln a
  | RM a b => rev l ln a * rev l ln b
  | RMn a n => rev l ln a *+ nev ln n
  | RV a => (rev l ln a)^-1
  | RP a n => rev l ln a ^+ n
  end.

Fixpoint nFE (s : nat) (e : nexp) : FExpr Z :=
  match e with
  | NX i => FEX Z (Pos.of_succ_nat (s + i))
  | NO => FEO
  | NS e => FEadd FEI (nFE s e)
  | NA a b => FEadd (nFE s a) (nFE s b)
  | NM a b => FEmul (nFE s a) (nFE s b)
  end.

Fixpoint rFE (s : nat) (e : rexp) : FExpr Z :=
  match e with
  | RX i => FEX Z (Pos.of_succ_nat i)
  | RO => FEO
  | RI => FEI
  | RN n => nFE s n
  | RA a b => FEadd (rFE s a) (rFE s b)
  | ROp a => FEopp (rFE s a)
  | RM a b => FEmul (rFE s a) (rFE s b)
  | RMn a n => FEmul (rFE s a) (nFE s n)
  | RV a => FEinv (rFE s a)
  | RP a n => FEpow (rFE s a) (N.of_nat n)
  end.

Fixpoint nPE (s : nat) (e : nexp) : PExpr Z :=
  match e with
  | NX i => PEX Z (Pos.of_succ_nat (s + i))
  | NO => PEO
  | NS e => PEadd PEI (nPE s e)
  | NA a b => PEadd (nPE s a) (nPE s b)
  | NM a b => PEmul (nPE s a) (nPE s b)
  end.

Fixpoint rPE (s : nat) (e : rexp) : PExpr Z :=
  match e with
  | RX i => PEX Z (Pos.of_succ_nat i)
  | RO => PEO
  | RI => PEI
  | RN n => nPE s n
  | RA a b => PEadd (rPE s a) (rPE s b)
  | ROp a => PEopp (rPE s a)
  | RM a b => PEmul (rPE s a) (rPE s b)
  | RMn a n => PEmul (rPE s a) (nPE s n)
  | RV a => PEO
  | RP a n => PEpow (rPE s a) (N.of_nat n)
  end.

(* indices of the atoms are in range *)
Fixpoint nwf (s : nat) (e : nexp) : bool :=
  match e with
  | NX i => (i < s)%N
  | NO => true
  | NS e => nwf s e
  | NA a b | NM a b => nwf s a && nwf s b
  end.

Fixpoint rwf (fld : bool) (s sn : nat) (e : rexp) : bool :=
  match e with
  | RX i => (i < s)%N
  | RO | RI => true
  | RN n => nwf sn n
  | RA a b | RM a b => rwf fld s sn a && rwf fld s sn b
  | ROp a => rwf fld s sn a
  | RMn a n => rwf fld s sn a && nwf sn n
  | RV a => fld && rwf fld s sn a
  | RP a n => rwf fld s sn a
  end.

Lemma blist_nth (T : Type) (d : T) (l : seq T) i :
  BinList.nth d (Pos.of_succ_nat i) l = seq.nth d l i.
Proof.
elim: i l => [|i IH] l; first by case: l.
rewrite [Pos.of_succ_nat _]/= -[in LHS](_ : tl (d :: l) = l) // nth_jump jump_succ.
rewrite [BinList.jump 1 _]/= jump_tl [tl _]/= -nth_jump IH.
by case: l => //=; rewrite nth_nil.
Qed.

Section RingTh.
Variable R : comRingType.

Let rsub (x y : R) := x - y.

Lemma mc_rth : ring_theory 0 1 +%R *%R rsub -%R (@eq R).
Proof.
split => //=; [exact: add0r | exact: addrC | exact: addrA | exact: mul1r
  | exact: mulrC | exact: mulrA | exact: mulrDl | exact: subrr].
Qed.

Lemma mc_eqext : ring_eq_ext +%R *%R -%R (@eq R).
Proof. by split=> [? ? -> ? ? ->|? ? -> ? ? ->|? ? ->]. Qed.

Definition mc_pow (x : R) (n : nat) := x ^+ n.

Lemma mc_pow_th : power_theory 1 *%R (@eq R) N.to_nat mc_pow.
Proof.
split=> r [|p] //=; rewrite /mc_pow; elim/Pos.peano_ind: p => [|p IH] //=.
rewrite Pos2Nat.inj_succ exprS IH (pow_pos_succ (Eqsth R)) //.
exact: mulrA.
Qed.

Definition phiZ := gen_phiZ 0 1 +%R *%R -%R : Z -> R.

Definition mc_morph := gen_phiZ_morph (Eqsth R) mc_eqext mc_rth.
Definition mc_div := triv_div_th (Eqsth R) mc_eqext (Rth_ARth (Eqsth R) mc_eqext mc_rth) mc_morph.

Definition pev := PEeval 0 1 +%R *%R rsub -%R phiZ N.to_nat mc_pow.

End RingTh.

Section RingOk.
Variable R : comUnitRingType.

Lemma nPE_ok (l : seq R) ln e : nwf (size ln) e ->
  pev (l ++ [seq n%:R | n <- ln]) (nPE (size l) e) = (nev ln e)%:R.
Proof.
elim: e => //= [i li|e IH we|a IHa b IHb /andP [wa wb]|a IHa b IHb /andP [wa wb]].
- rewrite /pev /PEeval blist_nth nth_cat ltnNge leq_addr /= addKn.
  by rewrite (nth_map 0%N).
- by rewrite /pev /= -/(pev _ _) IH // mulrS.
- by rewrite /pev /= -/(pev _ (nPE _ a)) -/(pev _ (nPE _ b)) IHa // IHb // natrD.
- by rewrite /pev /= -/(pev _ (nPE _ a)) -/(pev _ (nPE _ b)) IHa // IHb // natrM.
Qed.

Lemma rPE_ok (l : seq R) ln e : rwf false (size l) (size ln) e ->
  pev (l ++ [seq n%:R | n <- ln]) (rPE (size l) e) = rev l ln e.
Proof.
elim: e => //= [i li|n wn|a IHa b IHb /andP [wa wb]|a IHa wa
  |a IHa b IHb /andP [wa wb]|a IHa n /andP [wa wn]|a IHa n wa].
- by rewrite /pev /PEeval blist_nth nth_cat li.
- by rewrite nPE_ok.
- by rewrite /pev /= -/(pev _ (rPE _ a)) -/(pev _ (rPE _ b)) IHa // IHb.
- by rewrite /pev /= -/(pev _ (rPE _ a)) IHa.
- by rewrite /pev /= -/(pev _ (rPE _ a)) -/(pev _ (rPE _ b)) IHa // IHb.
- by rewrite /pev /= -/(pev _ (rPE _ a)) -/(pev _ (nPE _ n)) IHa // nPE_ok // mulr_natr.
- by rewrite /pev /= -/(pev _ (rPE _ a)) IHa // /mc_pow Nnat.Nat2N.id.
Qed.

Lemma mcring_ok (l : seq R) ln e1 e2 :
  rwf false (size l) (size ln) e1 && rwf false (size l) (size ln) e2 &&
  Peq Zeq_bool
    (norm_subst Z0 (Zpos xH) Z.add Z.mul Z.sub Z.opp Zeq_bool (triv_div Z0 (Zpos xH) Zeq_bool) 0 nil (rPE (size l) e1))
    (norm_subst Z0 (Zpos xH) Z.add Z.mul Z.sub Z.opp Zeq_bool (triv_div Z0 (Zpos xH) Zeq_bool) 0 nil (rPE (size l) e2)) ->
  rev l ln e1 = rev l ln e2.
Proof.
case/andP=> /andP [w1 w2] H; rewrite -(rPE_ok w1) -(rPE_ok w2).
apply: (ring_correct (Eqsth R) (mc_eqext R) (Rth_ARth (Eqsth R) (mc_eqext R) (mc_rth R))
  (mc_morph R) (mc_pow_th R) (mc_div R) 0%N _ nil) => //=.
Qed.

End RingOk.

Section FieldOk.
Variable F : fieldType.

Let rsub (x y : F) := x - y.
Let rdiv (x y : F) := x / y.

Lemma mc_fth : field_theory 0 1 +%R *%R rsub -%R rdiv GRing.inv (@eq F).
Proof.
split => //=; [exact: mc_rth | exact/eqP/oner_neq0 | ].
by move=> p /eqP p0; exact: mulVf.
Qed.

Definition mc_aft := F2AF (Eqsth F) (mc_eqext F) mc_fth.

Definition fev := FEeval 0 1 +%R *%R rsub -%R rdiv GRing.inv (@phiZ F) N.to_nat (@mc_pow F).

Lemma nFE_ok (l : seq F) ln e : nwf (size ln) e ->
  fev (l ++ [seq n%:R | n <- ln]) (nFE (size l) e) = (nev ln e)%:R.
Proof.
elim: e => //= [i li|e IH we|a IHa b IHb /andP [wa wb]|a IHa b IHb /andP [wa wb]].
- rewrite /fev /FEeval blist_nth nth_cat ltnNge leq_addr /= addKn.
  by rewrite (nth_map 0%N).
- by rewrite /fev /= -/(fev _ _) IH // mulrS.
- by rewrite /fev /= -/(fev _ (nFE _ a)) -/(fev _ (nFE _ b)) IHa // IHb // natrD.
- by rewrite /fev /= -/(fev _ (nFE _ a)) -/(fev _ (nFE _ b)) IHa // IHb // natrM.
Qed.

Lemma rFE_ok (l : seq F) ln e : rwf true (size l) (size ln) e ->
  fev (l ++ [seq n%:R | n <- ln]) (rFE (size l) e) = rev l ln e.
Proof.
elim: e => //= [i li|n wn|a IHa b IHb /andP [wa wb]|a IHa wa
  |a IHa b IHb /andP [wa wb]|a IHa n /andP [wa wn]|a IHa wa|a IHa n wa].
- by rewrite /fev /FEeval blist_nth nth_cat li.
- by rewrite nFE_ok.
- by rewrite /fev /= -/(fev _ (rFE _ a)) -/(fev _ (rFE _ b)) IHa // IHb.
- by rewrite /fev /= -/(fev _ (rFE _ a)) IHa.
- by rewrite /fev /= -/(fev _ (rFE _ a)) -/(fev _ (rFE _ b)) IHa // IHb.
- by rewrite /fev /= -/(fev _ (rFE _ a)) -/(fev _ (nFE _ n)) IHa // nFE_ok // mulr_natr.
- by rewrite /fev /= -/(fev _ (rFE _ a)) IHa.
- by rewrite /fev /= -/(fev _ (rFE _ a)) IHa // /mc_pow Nnat.Nat2N.id.
Qed.

(* side conditions, with positive literals read back as n%:R *)
Fixpoint pcond (l : seq F) (c : seq (PExpr Z)) : Prop :=
  match c with
  | [::] => True
  | [:: e] => pev l e <> 0
  | e :: c => pev l e <> 0 /\ pcond l c
  end.

Definition nrm e := Fnorm Z0 (Zpos xH) Z.add Z.mul Z.sub Z.opp Zeq_bool e.

Lemma mcfield_ok (l : seq F) ln e1 e2 n1 n2 :
  nrm (rFE (size l) e1) = n1 -> nrm (rFE (size l) e2) = n2 ->
  rwf true (size l) (size ln) e1 && rwf true (size l) (size ln) e2 &&
  Peq Zeq_bool
    (norm_subst Z0 (Zpos xH) Z.add Z.mul Z.sub Z.opp Zeq_bool (triv_div Z0 (Zpos xH) Zeq_bool) 0 nil
       (PEmul (num n1) (denum n2)))
    (norm_subst Z0 (Zpos xH) Z.add Z.mul Z.sub Z.opp Zeq_bool (triv_div Z0 (Zpos xH) Zeq_bool) 0 nil
       (PEmul (num n2) (denum n1))) ->
  pcond (l ++ [seq n%:R | n <- ln]) (condition n1 ++ condition n2) ->
  rev l ln e1 = rev l ln e2.
Proof.
move=> N1 N2 /andP [/andP [w1 w2] H] Hc; rewrite -(rFE_ok w1) -(rFE_ok w2).
refine (Field_correct (Eqsth F) (mc_eqext F) _ mc_aft
  (mc_morph F) (mc_pow_th F) (mc_div F) 0%N _ nil _ _ _ (erefl _) N1 N2 H _) => //.
by move=> p q ->.
Qed.

End FieldOk.

Ltac mc_closed n :=
  match n with O => true | S ?n => mc_closed n | _ => false end.

Ltac mc_head x := lazymatch x with ?f _ => mc_head f | _ => x end.

(* equal atoms: syntactically, or same head and convertible (this identifies
   the different canonical-structure paths to the same operation) *)
Ltac mc_same x y :=
  match constr:(tt) with
  | _ => let _ := lazymatch y with x => constr:(tt) end in true
  | _ => let hx := mc_head x in
         let hy := mc_head y in
         let _ := lazymatch hy with hx => constr:(tt) end in
         let _ := constr:(erefl x : x = y) in true
  | _ => false
  end.

Ltac mc_mem x l :=
  lazymatch l with
  | nil => false
  | cons ?y ?l => lazymatch mc_same x y with true => true | false => mc_mem x l end
  end.

Ltac mc_add x l :=
  lazymatch mc_mem x l with
  | true => l
  | false => constr:(cons x l)
  end.

Ltac mc_idx x l :=
  lazymatch l with
  | cons ?y ?l =>
    lazymatch mc_same x y with
    | true => constr:(O)
    | false => let i := mc_idx x l in constr:(S i)
    end
  end.

(* collect the nat atoms of a nat expression *)
Ltac mc_natoms n ln :=
  lazymatch n with
  | O => ln
  | S ?a => mc_natoms a ln
  | addn ?a ?b => let ln := mc_natoms a ln in mc_natoms b ln
  | muln ?a ?b => let ln := mc_natoms a ln in mc_natoms b ln
  | _ => mc_add n ln
  end.

(* collect the atoms of a ring expression: returns a pair (l, ln) *)
Ltac mc_atoms F t l ln :=
  lazymatch t with
  | @GRing.zero _ => constr:((l, ln))
  | @GRing.one _ => constr:((l, ln))
  | @GRing.add _ ?a ?b =>
    let p := mc_atoms F a l ln in
    lazymatch p with (?l, ?ln) => mc_atoms F b l ln end
  | @GRing.opp _ ?a => mc_atoms F a l ln
  | @GRing.mul _ ?a ?b =>
    let p := mc_atoms F a l ln in
    lazymatch p with (?l, ?ln) => mc_atoms F b l ln end
  | @GRing.natmul _ ?a ?n =>
    let ln := mc_natoms n ln in mc_atoms F a l ln
  | @GRing.inv _ ?a =>
    lazymatch F with
    | true => mc_atoms F a l ln
    | false => let l := mc_add t l in constr:((l, ln))
    end
  | @GRing.exp _ ?a ?n =>
    lazymatch mc_closed n with
    | true => mc_atoms F a l ln
    | false => let l := mc_add t l in constr:((l, ln))
    end
  | _ => let l := mc_add t l in constr:((l, ln))
  end.

Ltac mc_nre n ln :=
  lazymatch n with
  | O => constr:(NO)
  | S ?a => let a := mc_nre a ln in constr:(NS a)
  | addn ?a ?b => let a := mc_nre a ln in let b := mc_nre b ln in constr:(NA a b)
  | muln ?a ?b => let a := mc_nre a ln in let b := mc_nre b ln in constr:(NM a b)
  | _ => let i := mc_idx n ln in constr:(NX i)
  end.

Ltac mc_re F t l ln :=
  lazymatch t with
  | @GRing.zero _ => constr:(RO)
  | @GRing.one _ => constr:(RI)
  | @GRing.add _ ?a ?b =>
    let a := mc_re F a l ln in let b := mc_re F b l ln in constr:(RA a b)
  | @GRing.opp _ ?a => let a := mc_re F a l ln in constr:(ROp a)
  | @GRing.mul _ ?a ?b =>
    let a := mc_re F a l ln in let b := mc_re F b l ln in constr:(RM a b)
  | @GRing.natmul _ (@GRing.one _) ?n => let n := mc_nre n ln in constr:(RN n)
  | @GRing.natmul _ ?a ?n =>
    let a := mc_re F a l ln in let n := mc_nre n ln in constr:(RMn a n)
  | @GRing.inv _ ?a =>
    lazymatch F with
    | true => let a := mc_re F a l ln in constr:(RV a)
    | false => let i := mc_idx t l in constr:(RX i)
    end
  | @GRing.exp _ ?a ?n =>
    lazymatch mc_closed n with
    | true => let a := mc_re F a l ln in constr:(RP a n)
    | false => let i := mc_idx t l in constr:(RX i)
    end
  | _ => let i := mc_idx t l in constr:(RX i)
  end.

Ltac mc_setup F K :=
  lazymatch goal with
  | |- @eq ?R ?a ?b =>
    let nilR := constr:(@nil R) in
    let nilN := constr:(@nil nat) in
    let p := mc_atoms F a nilR nilN in
    lazymatch p with (?l, ?ln) =>
      let p := mc_atoms F b l ln in
      lazymatch p with (?l, ?ln) =>
        let ea := mc_re F a l ln in
        let eb := mc_re F b l ln in
        K l ln ea eb
      end
    end
  end.

Ltac mcring :=
  let K l ln ea eb := (apply: (@mcring_ok _ l ln ea eb); vm_compute; reflexivity) in
  mc_setup false K.

Ltac mcfield_pre :=
  let K l ln ea eb :=
    (apply: (@mcfield_ok _ l ln ea eb);
     [vm_compute; reflexivity | vm_compute; reflexivity | vm_compute; reflexivity | ]) in
  mc_setup true K.

Ltac mcfield := mcfield_pre;
  cbv beta iota zeta delta [pcond pev PEeval BinList.nth BinList.jump tl hd cat map phiZ gen_phiZ
    gen_phiPOS gen_phiPOS1 mc_pow N.to_nat Pos.to_nat Pos.iter_op Nat.add
    condition List.app app Datatypes.app].

Ltac mcf := mcfield; repeat split; apply/eqP; rewrite ?mulf_neq0 ?invr_eq0 //.
