(** Closure: the "while not stable: add inverses, add products" loop, for any
    finite carrier.  Used for germinate_perm_repr. *)
From mathcomp Require Import all_ssreflect.
From Verif Require Import Base Perm.

Set Implicit Arguments.
Unset Strict Implicit.
Unset Printing Implicit Defensive.

Section Closure.
Variables (fT : finType) (E : eqType) (enc : fT -> E).
Hypothesis enc_inj : injective enc.
Variables (inv : fT -> fT) (mul : fT -> fT -> fT).
Variables (einv : E -> res E) (ecmp : E * E -> res E).
Hypothesis einvE : forall x, einv (enc x) = Ok (enc (inv x)).
Hypothesis ecmpE : forall x y, ecmp (enc x, enc y) = Ok (enc (mul x y)).

Definition cstep (s : seq E) : res (seq E) :=
  do i <- mapR einv s;
  let s := set_union s i in
  do c <- mapR ecmp [seq (p1, p2) | p1 <- s, p2 <- s];
  Ok (set_union s c).
Fixpoint cloop (fuel : nat) (s : seq E) : res (seq E) :=
  match fuel with
  | 0 => Err OutOfFuel
  | f.+1 =>
    let n := size s in
    do s' <- cstep s;
    if size s' == n then Ok s' else cloop f s'
  end.

(** Smallest set containing [A] and closed under [inv] and [mul]. *)
Inductive gen (A : {set fT}) : fT -> Prop :=
  | gen_in x : x \in A -> gen A x
  | gen_inv x : gen A x -> gen A (inv x)
  | gen_mul x y : gen A x -> gen A y -> gen A (mul x y).

Definition clists (s : seq E) (A : {set fT}) :=
  uniq s /\ (s =i [seq enc x | x <- enum A]).

Lemma clists_size s A : clists s A -> size s = #|A|.
Proof.
case=> us EE; rewrite cardE -(size_map enc); apply/eqP.
rewrite -uniq_size_uniq // map_inj_uniq ?enum_uniq //; exact: enc_inj.
Qed.

Lemma clists_mem s A x : clists s A -> (enc x \in s) = (x \in A).
Proof. by case=> _ ->; rewrite mem_map ?mem_enum //; exact: enc_inj. Qed.

Lemma clists_memP s A p : clists s A -> reflect (exists2 x, x \in A & p = enc x) (p \in s).
Proof.
case=> _ ->; apply: (iffP mapP) => -[x xA ->]; exists x => //; by rewrite mem_enum in xA *.
Qed.

Definition Binv (A : {set fT}) := A :|: [set inv x | x in A].
Definition Bstep A := Binv A :|: [set mul x y | x in Binv A, y in Binv A].

Lemma cstepP s A : clists s A -> exists2 s', cstep s = Ok s' & clists s' (Bstep A).
Proof.
move=> LA; rewrite /cstep.
pose vi p := if einv p is Ok q then q else p.
have -> : mapR einv s = Ok (map vi s).
  by apply: mapR_ok_in => p /(clists_memP _ LA)[x _ ->]; rewrite /vi einvE.
rewrite /=; set s1 := set_union _ _.
have L1 : clists s1 (Binv A).
  split; first exact: undup_uniq.
  move=> p; rewrite mem_undup mem_cat; apply/orP/mapP.
    case=> [/(clists_memP _ LA)[x xA ->]|/mapP[q /(clists_memP _ LA)[x xA ->] ->]].
      by exists x; rewrite // mem_enum inE xA.
    rewrite /vi einvE; exists (inv x) => //.
    by rewrite mem_enum inE; apply/orP; right; apply/imsetP; exists x.
  case=> x; rewrite mem_enum inE => /orP[xA|/imsetP[y yA ->]] ->.
    by left; rewrite (clists_mem _ LA).
  right; apply/mapP; exists (enc y); first by rewrite (clists_mem _ LA).
  by rewrite /vi einvE.
pose cmp (pq : E * E) := if ecmp pq is Ok q then q else pq.1.
rewrite (@mapR_ok_in _ _ _ cmp) /=; last first.
  move=> [p q] /allpairsP[[p' q'] /= [/(clists_memP _ L1)[x _ ->] /(clists_memP _ L1)[y _ ->] [-> ->]]].
  by rewrite /cmp /= ecmpE.
exists (set_union s1 (map cmp [seq (p1, p2) | p1 <- s1, p2 <- s1])) => //.
split; first exact: undup_uniq.
move=> p; rewrite mem_undup mem_cat; apply/orP/mapP.
  case=> [/(clists_memP _ L1)[x xA ->]|/mapP[q /allpairsP[[a b] /= []]]].
    by exists x; rewrite // mem_enum /Bstep in_setU xA.
  move=> /(clists_memP _ L1)[x xA ->] /(clists_memP _ L1)[y yA ->] -> ->.
  exists (mul x y); last by rewrite /cmp /= ecmpE.
  by rewrite mem_enum /Bstep in_setU; apply/orP; right; apply/imset2P; exists x y.
case=> x; rewrite mem_enum /Bstep in_setU => /orP[xA|/imset2P[y z yA zA ->]] ->.
  by left; rewrite (clists_mem _ L1).
right; apply/mapP; exists (enc y, enc z); last by rewrite /cmp /= ecmpE.
by apply/allpairsP; exists (enc y, enc z) => /=; rewrite !(clists_mem _ L1).
Qed.

Lemma Bstep_sub (A : {set fT}) : A \subset Bstep A.
Proof. by rewrite /Bstep /Binv -setUA subsetUl. Qed.

Lemma gen_sub (A B : {set fT}) : (forall x, x \in A -> gen B x) -> forall x, gen A x -> gen B x.
Proof.
by move=> H x; elim=> {x} [x /H //|x _|x y _ Hx _ Hy]; [apply: gen_inv | apply: gen_mul].
Qed.

Lemma Bstep_gen (A : {set fT}) x : gen (Bstep A) x <-> gen A x.
Proof.
have H1 y : y \in Binv A -> gen A y.
  rewrite inE => /orP[yA|/imsetP[z zA ->]]; first exact: gen_in.
  exact/gen_inv/gen_in.
split; last first.
  by apply: gen_sub => y yA; apply: gen_in; apply: (subsetP (Bstep_sub A)).
apply: gen_sub => y; rewrite /Bstep in_setU => /orP[/H1//|/imset2P[u v uA vA ->]].
by apply: gen_mul; apply: H1.
Qed.

Lemma Bstep_fix (A : {set fT}) x : Bstep A = A -> gen A x -> x \in A.
Proof.
move=> EA; elim=> {x} [//|x _ xA|x y _ xA _ yA].
  by rewrite -EA /Bstep /Binv !inE imset_f ?orbT.
rewrite -EA /Bstep in_setU; apply/orP; right.
by apply/imset2P; exists x y; rewrite // /Binv inE ?xA ?yA.
Qed.

Lemma cloopP fuel s A : clists s A -> #|fT| - #|A| < fuel ->
  exists r B, [/\ cloop fuel s = Ok r, clists r B & forall x, (x \in B) <-> gen A x].
Proof.
elim: fuel s A => // f IH s A LA lt /=.
have [s' -> L'] := cstepP LA; rewrite /= (clists_size LA) (clists_size L').
case: eqP => E1.
  have EA : Bstep A = A by apply/esym/eqP; rewrite eqEcard Bstep_sub E1 leqnn.
  exists s', A; rewrite EA in L'; split=> // x; split; [exact: gen_in | exact: Bstep_fix].
have lt' : #|A| < #|Bstep A|.
  by rewrite ltn_neqAle subset_leq_card ?Bstep_sub // andbT eq_sym; apply/eqP.
have [|r [B [-> LB HB]]] := IH s' (Bstep A) L'.
  have le := max_card (mem (Bstep A)); rewrite -ltnS (leq_trans _ lt) // ltnS.
  by rewrite ltn_sub2l // (leq_trans lt') //; apply: max_card.
by exists r, B; split=> // x; rewrite HB Bstep_gen.
Qed.

Lemma cloop_mono f g t u : f <= g -> cloop f t = Ok u -> cloop g t = Ok u.
Proof.
elim: f g t => //= f IH [|g] t //= le; case: (cstep t) => //= t'.
by case: ifP => // _; apply: IH.
Qed.
End Closure.
