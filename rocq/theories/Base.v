(** Base: results of Python computations.

    Python functions either return a value or raise an exception; the model
    makes exceptions values.  [OutOfFuel] is only produced by loops whose fuel
    ran out; the theorems about a loop show it is never produced with enough
    fuel (or, where the Python loop diverges, that it is always produced). *)
From mathcomp Require Import all_ssreflect.

Set Implicit Arguments.
Unset Strict Implicit.
Unset Printing Implicit Defensive.

(** The exceptions raised by the modelled code. *)
Inductive exn :=
  | AssertionError | ValueError | TypeError | RuntimeError | IndexError
  | KeyError | ZeroDivisionError | NotImplementedErr | AttributeError
  | LinAlgError | OutOfFuel.

Definition exn_eqb (a b : exn) : bool :=
  match a, b with
  | AssertionError, AssertionError | ValueError, ValueError
  | TypeError, TypeError | RuntimeError, RuntimeError
  | IndexError, IndexError | KeyError, KeyError
  | ZeroDivisionError, ZeroDivisionError | NotImplementedErr, NotImplementedErr
  | AttributeError, AttributeError | LinAlgError, LinAlgError
  | OutOfFuel, OutOfFuel => true
  | _, _ => false
  end.

Lemma exn_eqP : Equality.axiom exn_eqb.
Proof. by case; case; constructor. Qed.

Definition exn_eqMixin := EqMixin exn_eqP.
Canonical exn_eqType := Eval hnf in EqType exn exn_eqMixin.

Inductive res (T : Type) := Ok of T | Err of exn.
Arguments Ok {T} _.
Arguments Err {T} _.

Section ResEq.
Variable T : eqType.
Definition res_eqb (a b : res T) : bool :=
  match a, b with
  | Ok x, Ok y => x == y
  | Err e, Err f => e == f
  | _, _ => false
  end.
Lemma res_eqP : Equality.axiom res_eqb.
Proof.
case=> [x|e] [y|f] /=; try by constructor.
- by apply: (iffP eqP) => [->|[]].
- by apply: (iffP eqP) => [->|[]].
Qed.
Definition res_eqMixin := EqMixin res_eqP.
Canonical res_eqType := Eval hnf in EqType (res T) res_eqMixin.
End ResEq.

Definition rbind (S T : Type) (x : res S) (f : S -> res T) : res T :=
  match x with Ok a => f a | Err e => Err e end.

Definition rmap (S T : Type) (f : S -> T) (x : res S) : res T :=
  match x with Ok a => Ok (f a) | Err e => Err e end.

Declare Scope res_scope.
Delimit Scope res_scope with res.
Notation "'do' x <- a ; b" := (rbind a (fun x => b))
  (at level 200, x name, a at level 100, b at level 200) : res_scope.
Open Scope res_scope.

(** A Python [assert b]. *)
Definition passert (b : bool) : res unit :=
  if b then Ok tt else Err AssertionError.

(** A list comprehension whose body may raise: stops at the first error. *)
Fixpoint mapR (S T : Type) (f : S -> res T) (s : seq S) : res (seq T) :=
  match s with
  | [::] => Ok [::]
  | x :: s' => do y <- f x; do ys <- mapR f s'; Ok (y :: ys)
  end.

(** A [for] loop that threads an accumulator and may raise. *)
Fixpoint foldR (S A : Type) (f : A -> S -> res A) (a : A) (s : seq S) : res A :=
  match s with
  | [::] => Ok a
  | x :: s' => do b <- f a x; foldR f b s'
  end.

Lemma mapR_ok (S T : Type) (f : S -> res T) (g : S -> T) s :
  (forall x, f x = Ok (g x)) -> mapR f s = Ok (map g s).
Proof. by move=> fE; elim: s => //= x s ->; rewrite fE. Qed.

Lemma mapR_ok_in (S : eqType) (T : Type) (f : S -> res T) (g : S -> T) (s : seq S) :
  {in s, forall x, f x = Ok (g x)} -> mapR f s = Ok (map g s).
Proof.
elim: s => //= x s IH fE; rewrite fE ?inE ?eqxx //= IH // => y ys.
by apply: fE; rewrite inE ys orbT.
Qed.

Lemma mapR_size (S T : Type) (f : S -> res T) s t :
  mapR f s = Ok t -> size t = size s.
Proof.
elim: s t => [|x s IH] t /=; first by case=> <-.
case: (f x) => //= y; case E: (mapR f s) => [ys|] //= [<-] /=.
by rewrite (IH _ E).
Qed.

Lemma mapR_nth (S T : Type) (f : S -> res T) s t (x0 : S) (y0 : T) i :
  mapR f s = Ok t -> i < size s -> f (nth x0 s i) = Ok (nth y0 t i).
Proof.
elim: s t i => [|x s IH] t i //=.
case E1: (f x) => [y|] //=; case E: (mapR f s) => [ys|] //= [<-].
case: i => [|i] //= lt; exact: IH.
Qed.

Lemma mapR_err_in (S : eqType) (T : Type) (f : S -> res T) (e : exn) (s : seq S) x :
  x \in s -> f x = Err e -> (forall y, y \in s -> f y = Err e \/ exists z, f y = Ok z) ->
  mapR f s = Err e.
Proof.
elim: s => //= y s IH; rewrite inE => /orP[/eqP<-|xs] fx H.
- by rewrite fx.
- have [->|[z ->]] //= : f y = Err e \/ exists z, f y = Ok z by apply: H; rewrite inE eqxx.
  by rewrite IH // => w ws; apply: H; rewrite inE ws orbT.
Qed.
