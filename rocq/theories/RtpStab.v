(** RtpStab: the result of _reduced_tensor_product_basis (Rtp.v) is the same for all small
    enough positive values of epsilon. *)
From Coq Require Import ZArith String Ascii List Permutation.
From mathcomp Require Import all_ssreflect all_algebra.
From mathcomp Require Import zify.
From Verif Require Import Base Nd NdProofs Reps Sl2c LinAlg Perm RedPerm Rtp.

Set Implicit Arguments.
Unset Strict Implicit.
Unset Printing Implicit Defensive.

Import Order.POrderTheory GRing.Theory Num.Theory.
Local Open Scope ring_scope.

Section Ev.
Variable C : numClosedFieldType.
(** P holds for all small enough positive thresholds. *)
Definition ev (P : C -> Prop) : Prop := exists2 e0 : C, 0 < e0 & forall e, 0 < e -> e < e0 -> P e.
Lemma ev_imp (P Q : C -> Prop) : (forall e, 0 < e -> P e -> Q e) -> ev P -> ev Q.
Proof. by move=> h [e0 p0 hP]; exists e0 => // e h1 h2; apply: h => //; apply: hP. Qed.
Lemma ev_true (P : C -> Prop) : (forall e, 0 < e -> P e) -> ev P.
Proof. by move=> h; exists 1 => [|e h1 _]; [exact: ltr01 | exact: h]. Qed.
Lemma ev_and (P Q : C -> Prop) : ev P -> ev Q -> ev (fun e => P e /\ Q e).
Proof.
move=> [e1 p1 h1] [e2 p2 h2]; have r1 := gtr0_real p1; have r2 := gtr0_real p2.
case: (real_leP r1 r2) => le.
  by exists e1 => // e a b; split; [apply: h1 | apply: h2 => //; apply: lt_le_trans le].
by exists e2 => // e a b; split; [apply: h1 => //; apply: lt_trans le | apply: h2].
Qed.
Lemma ev_forall (T : Type) (P : C -> T -> Prop) s : (forall x, List.In x s -> ev (fun e => P e x)) ->
  ev (fun e => List.Forall (P e) s).
Proof.
elim: s => [|x s IH] h; first by apply: ev_true => e _; constructor.
have h1 : ev (fun e => P e x) by apply: h; left.
have h2 : ev (fun e => List.Forall (P e) s) by apply: IH => y hy; apply: h; right.
by apply: ev_imp (ev_and h1 h2) => e _ [a b]; constructor.
Qed.

(** Eventually constant functions of the threshold. *)
Definition evc (A : Type) (F : C -> A) : Prop := exists a, ev (fun e => F e = a).
Lemma evc_const (A : Type) (a : A) : evc (fun=> a).
Proof. by exists a; apply: ev_true. Qed.
Lemma evc_app (A B : Type) (F : C -> A) (G : C -> A -> B) : evc F -> (forall a, evc (fun e => G e a)) -> evc (fun e => G e (F e)).
Proof. by case=> a ha h; case: (h a) => b hb; exists b; apply: ev_imp (ev_and ha hb) => e _ [-> ->]. Qed.
Lemma evc_comp (A B : Type) (F : C -> A) (g : A -> B) : evc F -> evc (fun e => g (F e)).
Proof. by move=> h; apply: (evc_app (G := fun=> g)) h _ => a; apply: evc_const. Qed.
Lemma evc_bind (A B : Type) (F : C -> res A) (k : C -> A -> res B) : evc F -> (forall a, evc (fun e => k e a)) ->
  evc (fun e => do x <- F e; k e x).
Proof.
move=> h hk; apply: (evc_app (G := fun e r => do x <- r; k e x)) h _ => -[a|er] /=; first exact: hk.
exact: evc_const.
Qed.
Lemma evc_mapR (A B : Type) (f : C -> A -> res B) s : (forall x, evc (fun e => f e x)) -> evc (fun e => mapR (f e) s).
Proof.
move=> h; elim: s => [|x s IH] /=; first exact: evc_const.
apply: evc_bind => [|y]; first exact: h.
by apply: evc_bind => [|ys]; [exact: IH | exact: evc_const].
Qed.
Lemma evc_foldl (A B : Type) (f : C -> A -> B -> A) s : (forall a x, evc (fun e => f e a x)) ->
  forall a, evc (fun e => foldl (f e) a s).
Proof.
move=> h; elim: s => [|x s IH] a /=; first exact: evc_const.
exact: (evc_app (G := fun e b => foldl (f e) b s) (h a x) IH).
Qed.
Lemma evc_filter (A : Type) (p : C -> A -> bool) s : (forall x, evc (fun e => p e x)) -> evc (fun e => [seq x <- s | p e x]).
Proof.
move=> h; elim: s => [|x s IH] /=; first exact: evc_const.
apply: (evc_app (G := fun e (b : bool) => if b then x :: [seq x <- s | p e x] else [seq x <- s | p e x])) (h x) _ => -[].
  exact: (evc_comp (cons x)).
exact: IH.
Qed.
(** The two comparisons of the code. *)
Lemma evc_lt (v : C) : evc (fun e => v < e).
Proof.
case: (boolP (v \is Num.real)) => rv; last first.
  by exists false; apply: ev_true => e e0; apply/negP => h; case/negP: rv; rewrite (ler_real (ltW h)); exact: gtr0_real.
case: (real_leP rv (@real0 C)) => h; first by exists true; apply: ev_true => e e0; apply: le_lt_trans h e0.
by exists false; exists v => // e e0 ev; apply/negP => ve; have := lt_trans ve ev; rewrite ltxx.
Qed.
Lemma evc_gt (v : C) : evc (fun e => e < v).
Proof.
case: (boolP (0 < v)) => h; first by exists true; exists v.
exists false; apply: ev_true => e e0; apply/negP => ev; case/negP: h; exact: lt_trans e0 ev.
Qed.
End Ev.

Section Stab.
Variable C : numClosedFieldType.
Notation nd := (nd C).
Variable L : eqType.
Variable lt : rel L.
Variable dim : L -> nat.
Variable mulL : L -> L -> res (seq L).
Variable cgL : L -> L -> L -> res nd.
Variable rnd : nd -> nd.
Variable eigh : nd -> res (nd * nd).
Variable ford : seq nat -> seq nat.
Notation rrep := (seq (nat * L) * option nd)%type.

Lemma evc_gs a : evc (fun e => gram_schmidt rnd e a).
Proof.
rewrite /gram_schmidt; case: (shape a) => [|m [|n [|? ?]]]; try exact: evc_const.
apply: (evc_comp (fun Q => if Q is [::] then Ok (zeros [:: 0%N; n]) else stack Q)).
apply: evc_foldl => Q x; rewrite /gs_row /gs_new.
apply: (evc_comp (fun o : option nd => if o is Some v then rcons Q v else Q)).
apply: (evc_comp (fun b : bool => if b then Some (rnd (scale (vnorm n (foldl (axpy n) x Q))^-1 (foldl (axpy n) x Q))) else None)).
exact: evc_gt.
Qed.
Lemma evc_select0 (p : C -> nat -> bool) (a : nd) : (forall i, evc (fun e => p e i)) -> evc (fun e => select0 (p e) a).
Proof.
move=> h; apply: (evc_comp (fun l => Nd (size l :: behead (shape a)) (fun idx => get a (nth 0%N l (head 0%N idx) :: behead idx)))).
exact: evc_filter.
Qed.
Lemma evc_bi b1 b2 : evc (fun e => basis_intersection rnd eigh e b1 b2).
Proof.
rewrite /basis_intersection; apply: evc_bind => [|_]; first exact: evc_const.
case: (_ || _); first exact: evc_const.
apply: evc_bind => [|f1]; first exact: evc_const.
do 8! (apply: evc_bind => [|?]; first exact: evc_const).
apply: evc_bind => [|ee]; first exact: evc_const.
apply: (evc_app (F := fun e => transpose2 (select0 (fun i => get ee.1 [:: i] < e) (transpose2 ee.2)))
  (G := fun e v => let x1 := rows_slice 0 (len f1) v in
    do g1 <- matmul x1 (transpose2 x1); do y1 <- gram_schmidt rnd e g1;
    let x2 := rows_slice (len f1) (len v) v in
    do g2 <- matmul x2 (transpose2 x2); do y2 <- gram_schmidt rnd e g2; Ok (y1, y2))) => [|v].
  apply: (evc_comp (@transpose2 C)); apply: evc_select0 => i; exact: evc_lt.
apply: evc_bind => [|g1]; first exact: evc_const.
apply: evc_bind => [|y1]; first exact: evc_gs.
apply: evc_bind => [|g2]; first exact: evc_const.
by apply: evc_bind => [|y2]; [exact: evc_gs | exact: evc_const].
Qed.
Lemma evc_constrain rb pb : evc (fun e => constrain (L := L) dim rnd eigh e rb pb).
Proof.
rewrite /constrain; do 2! (apply: evc_bind => [|?]; first exact: evc_const).
apply: evc_bind => [|ls]; last exact: evc_const.
apply: evc_mapR => p; rewrite /constrain_one; do 2! (apply: evc_bind => [|?]; first exact: evc_const).
by apply: evc_bind => [|PP]; [exact: evc_bi | exact: evc_const].
Qed.
Lemma evc_loop (rec : C -> seq rrep -> seq sp -> res (irrarr C L)) irr G :
  (forall s g, evc (fun e => rec e s g)) -> forall fuel bases,
  evc (fun e => rtp_loop lt dim mulL cgL rnd eigh e ford (rec e) irr G fuel bases).
Proof.
move=> h; elim=> [|fuel IH] bases; first exact: evc_const.
have many : evc (fun e => match greedy ford (map fst bases) G (map (rdim dim) irr) with
      | None => Err TypeError
      | Some (_, (i, j, f)) =>
        do sub <- pick_all irr (ford f);
        do ab <- rec e sub (subrepr_permutation f G);
        do ab <- ia_reshape dim ab (masked f (map (rdim dim) irr)) None;
        rtp_loop lt dim mulL cgL rnd eigh e ford (rec e) irr G fuel ((f, ab) :: del_at i (del_at j bases))
      end).
  case: (greedy _ _ _ _) => [[d [[i j] f]]|]; last exact: evc_const.
  apply: evc_bind => [|sub]; first exact: evc_const.
  apply: evc_bind => [|ab]; first exact: h.
  by apply: evc_bind => [|ab']; [exact: evc_const | exact: IH].
case: bases many => [|fa [|fb [|fc bases]]] many; [exact: many | exact: evc_const | | exact: many].
apply: evc_bind => [|ab]; first exact: evc_const.
case: (_ == _); first exact: evc_const.
apply: evc_bind => [|p]; first exact: evc_const.
by apply: evc_bind => [|c]; [exact: evc_constrain | exact: evc_const].
Qed.
Theorem evc_rtp fuel irr G : evc (fun e => rtp lt dim mulL cgL rnd eigh e ford fuel irr G).
Proof.
elim: fuel irr G => [|fuel IH] irr G; first exact: evc_const.
by rewrite /= /rtp_body; apply: evc_bind => [|bases]; [exact: evc_const | apply: evc_loop].
Qed.
End Stab.
