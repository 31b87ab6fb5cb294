(** SunLadder: the ladder matrices of SU(N) on the Gelfand-Tsetlin basis. *)
From Coq Require Import ZArith String Ascii.
From Verif Require Import McRing.
From mathcomp Require Import all_ssreflect all_algebra.
From mathcomp.zify Require Import zify.
From Verif Require Import Base Nd NdProofs Reps Sun SunDim SunRow.

Set Implicit Arguments.
Unset Strict Implicit.
Unset Printing Implicit Defensive.

Import GRing.Theory Num.Theory Order.Theory.
Local Open Scope ring_scope.

(** Triangular shape. *)
Definition shp (n : nat) (M : pattern) : Prop :=
  size M = n /\ forall i, (i < n)%N -> size (nth [::] M i) = (n - i)%N.
Definition gtf (n : nat) (f : nat -> nat -> int) : Prop :=
  forall i j, (i.+1 + j < n)%N -> f i j.+1 <= f i.+1 j <= f i j.

Lemma faddE f k q x i j : fadd f k q x i j = if (i == k) && (j == q) then f i j + x else f i j.
Proof. by rewrite /fadd /upd; case: (i == k). Qed.
Lemma shpA n M k q x : shp n M -> shp n (M_add M k q x).
Proof.
move=> [s1 s2]; split=> [|i hi]; first by rewrite size_map size_iota.
by rewrite (nth_map 0%N) ?size_iota ?s1 // nth_iota ?s1 // add0n size_map size_iota s2.
Qed.
Lemma entA n M k q x i j : shp n M -> (k < n)%N -> (q < n - k)%N ->
  ent (M_add M k q x) i j = fadd (ent M) k q x i j.
Proof.
move=> [s1 s2] hk hq; rewrite faddE.
have [hi|hi] := ltnP i n; last first.
  have -> : (i == k) = false by lia.
  by rewrite /ent [nth _ _ i]nth_default ?size_map ?size_iota ?s1 // nth_nil [nth _ M i]nth_default ?s1 // nth_nil.
have [hj|hj] := ltnP j (n - i)%N.
  rewrite /ent (nth_map 0%N) ?size_iota ?s1 // nth_iota ?s1 // add0n.
  by rewrite (nth_map 0%N) ?size_iota ?s2 // nth_iota ?s2 // add0n /ent.
have -> : (i == k) && (j == q) = false by lia.
rewrite /ent [in RHS]nth_default ?s2 //; have [_ s2'] := shpA k q x (Logic.conj s1 s2).
by rewrite nth_default // s2'.
Qed.
Lemma pat_ext n M N : shp n M -> shp n N ->
  (forall i j, (i < n)%N -> (j < n - i)%N -> ent M i j = ent N i j) -> M = N.
Proof.
move=> [s1 s2] [t1 t2] h; apply: (@eq_from_nth _ [::]); first by rewrite s1.
move=> i; rewrite s1 => hi; apply: (@eq_from_nth _ 0); first by rewrite s2 ?t2.
by move=> j; rewrite s2 // => hj; apply: h.
Qed.
Lemma is_gtP S M : is_gt S M <-> [/\ shp (size S) M, nth [::] M 0 = S & gtf (size S) (ent M)].
Proof. by split=> [[h1 h2 h3 h4]|[[h1 h2] h3 h4]]. Qed.
Lemma row0A n M k q x : shp n M -> (0 < n)%N -> (0 < k)%N -> nth [::] (M_add M k q x) 0 = nth [::] M 0.
Proof.
move=> [s1 s2] hn hk; rewrite (nth_map 0%N) ?size_iota ?s1 // nth_iota ?s1 //.
have -> : (0 + 0 == k)%N = false by lia.
by apply: (@eq_from_nth _ 0); rewrite ?size_map ?size_iota // => j hj; rewrite (nth_map 0%N) ?size_iota // nth_iota.
Qed.

(** The Cartan matrix of type A. *)
Definition cartan (l l' : nat) : int :=
  if l == l' then 2%:R else if (l == l'.+1) || (l' == l.+1) then -1 else 0.
Lemma cartanE l l' : 2%:R * (l.+1 == l'.+1)%:Z - (l == l'.+1)%:Z - (l.+2 == l'.+1)%:Z = cartan l l'.
Proof.
rewrite /cartan eqSS (_ : (l.+2 == l'.+1) = (l' == l.+1)); last by lia.
case: (l =P l') => [->|ne].
  by rewrite (_ : (l' == l'.+1) = false) //; lia.
by case: (l =P l'.+1) => [->|n1] /=; case: (l' =P l.+1) => [e|n2] //=; lia.
Qed.
Lemma lin3 (x y z a b c : int) :
  2%:R * (x + a) - (y + b) - (z + c) - (2%:R * x - y - z) = 2%:R * a - b - c.
Proof. lia. Qed.

Section Gt.
Variable S : weight.
Hypothesis vS : valid_S S.
Let n := size S.
Let G := gtp n S.

Lemma n0 : (0 < n)%N. Proof. by have [] := elimT (valid_SP _) vS. Qed.
Lemma GP M : M \in G <-> [/\ shp n M, nth [::] M 0 = S & gtf n (ent M)].
Proof. by rewrite mem_gtp // is_gtP. Qed.
Lemma Gadd M k q x : M \in G -> (0 < k < n)%N -> (q < n - k)%N ->
  M_add M k q x \in G <-> gtf n (fadd (ent M) k q x).
Proof.
move=> /GP[s0 r0 _] /andP[k0 kn] hq; split=> [/GP[_ _ h] i j hij|h].
  by have := h i j hij; rewrite !(entA _ _ _ s0).
apply/GP; split; [exact: shpA | by rewrite (row0A _ _ s0) // n0 |].
by move=> i j hij; rewrite !(entA _ _ _ s0) //; apply: h.
Qed.
Lemma G_ext M N : M \in G -> N \in G -> (forall i j, ent M i j = ent N i j) -> M = N.
Proof. by move=> /GP[s0 _ _] /GP[s1 _ _] h; apply: (pat_ext s0 s1). Qed.

(** Interlacing rows around level l.+1. *)
Lemma gtf_rows f l : gtf n f -> rows_ok (f l) (f l.+1) (f l.+2) (n - l.+1).
Proof. by move=> h; split=> q hq; [apply: h | apply: (h l.+1)]; lia. Qed.
Lemma gtf_upd f l q x : gtf n f ->
  rows_ok (f l) (upd (f l.+1) q x) (f l.+2) (n - l.+1) <-> gtf n (fadd f l.+1 q x).
Proof.
move=> h; split=> [[h1 h2] i j hij|/gtf_rows-/(_ l)]; last first.
  rewrite /fadd eqxx (_ : (l == l.+1) = false); last by lia.
  by rewrite (_ : (l.+2 == l.+1) = false); last by lia.
rewrite /fadd; case: (i.+1 =P l.+1) => [[e]|ne].
  subst i; rewrite (_ : (l == l.+1) = false); last by lia.
  by apply: h1; lia.
case: (i =P l.+1) => [e|ne']; last exact: h.
by subst i; apply: h2; lia.
Qed.
Lemma fadd_ext f g k q x i j : (forall i j, f i j = g i j) -> fadd f k q x i j = fadd g k q x i j.
Proof. by move=> h; rewrite /fadd /upd; case: ifP; rewrite ?h. Qed.
Lemma gtf_ext f g : (forall i j, f i j = g i j) -> gtf n f -> gtf n g.
Proof. by move=> h H i j hij; rewrite -!h; apply: H. Qed.

Lemma gtf_join f k q k' q' : (k, q) != (k', q') -> gtf n f -> gtf n (fadd f k q 1) -> gtf n (fadd f k' q' 1) ->
  gtf n (fadd (fadd f k q 1) k' q' 1).
Proof.
move=> ne h0 h1 h2 i j hij; move: {h0 h1 h2} (h0 i j hij) (h1 i j hij) (h2 i j hij); rewrite /fadd /upd.
have {}ne : ~ (k = k' /\ q = q') by move=> [e1 e2]; rewrite e1 e2 eqxx in ne.
case: (i =P k) => e1; case: (i.+1 =P k) => e2; try lia;
case: (i =P k') => e3; case: (i.+1 =P k') => e4; try lia;
case: (j =P q) => e5; case: (j.+1 =P q) => e6; try lia;
case: (j =P q') => e7; case: (j.+1 =P q') => e8; lia.
Qed.
Lemma gtf_meet f k q k' q' : (k, q) != (k', q') -> gtf n f -> gtf n (fadd f k' q' 1) ->
  gtf n (fadd (fadd f k' q' 1) k q (-1)) -> gtf n (fadd f k q (-1)).
Proof.
move=> ne h0 h1 h2 i j hij; move: {h0 h1 h2} (h0 i j hij) (h1 i j hij) (h2 i j hij); rewrite /fadd /upd.
have {}ne : ~ (k = k' /\ q = q') by move=> [e1 e2]; rewrite e1 e2 eqxx in ne.
case: (i =P k) => e1; case: (i.+1 =P k) => e2; try lia;
case: (i =P k') => e3; case: (i.+1 =P k') => e4; try lia;
case: (j =P q) => e5; case: (j.+1 =P q) => e6; try lia;
case: (j =P q') => e7; case: (j.+1 =P q') => e8; lia.
Qed.
Lemma faddC f k q x k' q' y i j : fadd (fadd f k q x) k' q' y i j = fadd (fadd f k' q' y) k q x i j.
Proof.
rewrite !faddE; case: (_ && _); case: (_ && _) => //; lia.
Qed.
Lemma faddK f k q x i j : fadd (fadd f k q x) k q (- x) i j = f i j.
Proof. by rewrite !faddE; case: (_ && _) => //; lia. Qed.

(** One raising step between patterns. *)
Definition step (l q : nat) (M N : pattern) : bool := M_add M l.+1 q 1 == N.
Definition lvl (l q : nat) : Prop := (l.+1 < n)%N /\ (q < n - l.+1)%N.
Lemma stepP l q M N : lvl l q -> M \in G -> N \in G ->
  reflect (forall i j, ent N i j = fadd (ent M) l.+1 q 1 i j) (step l q M N).
Proof.
move=> [hl hq] /[dup] hM /GP[s0 r0 _] /GP[s1 r1 _]; apply: (iffP eqP) => [<- i j|h].
  by rewrite (entA _ _ _ s0).
by apply: (pat_ext (shpA _ _ _ s0) s1) => i j hi hj; rewrite (entA _ _ _ s0).
Qed.
Lemma step_dn l q M N : lvl l q -> M \in G -> N \in G ->
  (M_add N l.+1 q (-1) == M) = step l q M N.
Proof.
move=> lq hM hN; have [hl hq] := lq; have [s0 _ _] := (GP N).1 hN; have [s1 _ _] := (GP M).1 hM.
apply/eqP/(stepP lq hM hN) => [e i j|h].
  rewrite -(faddK (ent N) l.+1 q (-1)) opprK; apply: fadd_ext => {}i {}j.
  by rewrite -e (entA _ _ _ s0).
apply: (pat_ext (shpA _ _ _ s0) s1) => i j hi hj; rewrite (entA _ _ _ s0) //.
by rewrite -(faddK (ent M) l.+1 q 1); apply: fadd_ext.
Qed.
Lemma step_fun l q M N N' : step l q M N -> step l q M N' -> N = N'.
Proof. by move=> /eqP <- /eqP <-. Qed.
Lemma step_inj l q M M' N : lvl l q -> M \in G -> M' \in G -> N \in G ->
  step l q M N -> step l q M' N -> M = M'.
Proof. by move=> lq hM hM' hN; rewrite -!step_dn // => /eqP <- /eqP <-. Qed.
Lemma step_uq l q q' M N : lvl l q -> lvl l q' -> M \in G -> N \in G ->
  step l q M N -> step l q' M N -> q = q'.
Proof.
move=> lq lq' hM hN /(stepP lq hM hN) h /(stepP lq' hM hN) h'.
have := h l.+1 q; rewrite h' /fadd /upd !eqxx; case: (q =P q') => // _; lia.
Qed.
Lemma step_G l q M : lvl l q -> M \in G -> (M_add M l.+1 q 1 \in G) = up (ent M l) (ent M l.+1) (ent M l.+2) q.
Proof.
move=> [hl hq] hM; have [_ _ g] := (GP M).1 hM.
apply/idP/idP => h.
  by apply/(rows_up (gtf_rows l g) hq)/gtf_upd => //; apply/Gadd => //; lia.
by apply/Gadd => //; apply/gtf_upd => //; apply/rows_up => //; apply: gtf_rows.
Qed.
Lemma dn_G l q M : lvl l q -> M \in G ->
  (M_add M l.+1 q (-1) \in G) = dn (ent M l) (ent M l.+1) (ent M l.+2) (n - l.+1) q.
Proof.
move=> [hl hq] hM; have [_ _ g] := (GP M).1 hM.
apply/idP/idP => h.
  by apply/(rows_dn (gtf_rows l g) hq)/gtf_upd => //; apply/Gadd => //; lia.
by apply/Gadd => //; apply/gtf_upd => //; apply/rows_dn => //; apply: gtf_rows.
Qed.

Lemma join l q l' q' N A B : lvl l q -> lvl l' q' -> (l, q) != (l', q') -> N \in G -> A \in G -> B \in G ->
  step l q N A -> step l' q' N B ->
  exists2 N2, N2 \in G & step l' q' A N2 /\ step l q B N2.
Proof.
move=> lq lq' ne hN hA hB /[dup] sA /(stepP lq hN hA) eA /[dup] sB /(stepP lq' hN hB) eB.
have [_ _ gN] := (GP N).1 hN; have [_ _ gA] := (GP A).1 hA; have [sB0 _ gB] := (GP B).1 hB.
have ne' : (l.+1, q) != (l'.+1, q') by apply: contra ne => /eqP[-> ->].
have h2 : M_add A l'.+1 q' 1 \in G.
  case: (lq') => hl hq; apply/Gadd => //.
  apply: (@gtf_ext (fadd (fadd (ent N) l.+1 q 1) l'.+1 q' 1)).
    by move=> i j; apply: fadd_ext => {}i {}j; rewrite eA.
  by apply: gtf_join => //; [apply: gtf_ext gA | apply: gtf_ext gB].
exists (M_add A l'.+1 q' 1) => //; split; first by rewrite /step.
apply/(stepP lq hB h2) => i j; rewrite (elimT (stepP lq' hA h2)) /step ?eqxx //.
rewrite (fadd_ext _ _ _ _ _ eA) faddC; apply: fadd_ext => {}i {}j; by rewrite eB.
Qed.
Lemma meet l q l' q' N2 A B : lvl l q -> lvl l' q' -> (l, q) != (l', q') -> N2 \in G -> A \in G -> B \in G ->
  step l' q' A N2 -> step l q B N2 ->
  exists2 N, N \in G & step l q N A /\ step l' q' N B.
Proof.
move=> lq lq' ne h2 hA hB /[dup] sA /(stepP lq' hA h2) eA /[dup] sB /(stepP lq hB h2) eB.
have [_ _ g2] := (GP N2).1 h2; have [_ _ gA] := (GP A).1 hA; have [_ _ gB] := (GP B).1 hB.
have ne' : (l.+1, q) != (l'.+1, q') by apply: contra ne => /eqP[-> ->].
have eB' i j : ent B i j = fadd (fadd (ent A) l'.+1 q' 1) l.+1 q (-1) i j.
  by rewrite -(faddK (ent B) l.+1 q 1); apply: fadd_ext => {}i {}j; rewrite -eB eA.
have hN : M_add A l.+1 q (-1) \in G.
  case: (lq) => hl hq; apply/Gadd => //.
  by apply: (@gtf_meet _ _ _ l'.+1 q') => //; [apply: gtf_ext g2 | apply: gtf_ext gB].
have sNA : step l q (M_add A l.+1 q (-1)) A by rewrite -step_dn.
exists (M_add A l.+1 q (-1)) => //; split=> //.
apply/(stepP lq' hN hB) => i j; rewrite eB' faddC; apply: fadd_ext => {}i {}j.
by case: (lq) => hl hq; have [s0 _ _] := (GP A).1 hA; rewrite (entA _ _ _ s0) //; lia.
Qed.

(** Non-negative weights: is_valid_M is the membership test. *)
Hypothesis S0 : 0 <= last 0 S.
Lemma G_ge M i j : M \in G -> (i + j < n)%N -> 0 <= ent M i j.
Proof using vS S0.
move=> /GP[_ r0 g]; elim: i j => [|i IH] j hij.
  rewrite /ent r0; apply: (le_trans S0).
  have [_ mono] := elimT (valid_SP _) vS; rewrite -nth_last.
  have : (j <= n.-1)%N by lia.
  have : (n.-1 < n)%N by have := n0; lia.
  elim: n.-1 => [|k IHk] hk hj; first by have -> : j = 0%N by lia.
  have [->//|nj] := eqVneq j k.+1; apply: (le_trans (mono k hk)); apply: IHk; lia.
have /andP[h _] := g i j hij; apply: le_trans h; apply: IH; lia.
Qed.
Lemma valid_G M : M \in G -> is_valid_M M.
Proof using vS S0.
move=> hM; have [[s1 _] _ g] := (GP M).1 hM; apply/allP=> -[[m1 m2] m3].
case/allpairsPdep=> i [j []]; rewrite !mem_iota s1 => hi hj [-> -> ->].
have hij : ((i - 1).+1 + j < n)%N by lia.
have := g _ _ hij; have -> : ((i - 1).+1 = i)%N by lia.
have := @G_ge M (i - 1)%N j.+1 hM; rewrite addnS -addSn => /(_ hij); lia.
Qed.
Lemma at_lk M N k q x : N \in G -> (M_add_at_lk M k q x == Some N) = (M_add M k q x == N).
Proof using vS S0.
move=> hN; rewrite /M_add_at_lk; case: ifP => // h; apply/eqP/eqP => // e.
by rewrite e valid_G in h.
Qed.

Section Coeff.
Variable C : numClosedFieldType.
Lemma iota_ord (R : Type) (idx : R) (op : Monoid.law idx) (P : pred nat) (F : nat -> R) m :
  \big[op/idx]_(q <- iota 0 m | P q) F q = \big[op/idx]_(q < m | P q) F q.
Proof. by rewrite iotaE big_mkord. Qed.
Lemma coeff_upE M l q : size M = n -> (l.+1 < n)%N -> compute_coeff_upper C M l.+1 q =
  coeff C (unum (ent M l) (ent M l.+1) (ent M l.+2) (n - l.+1) q) (uden (ent M l.+1) (n - l.+1) q).
Proof. clear S0.
move=> s1 hl; rewrite /compute_coeff_upper s1 !iota_ord /unum /uden.
by rewrite subSS subn0 addn1 (_ : (n - l.+1 - 1 = (n - l.+1).-1)%N) ?subn1.
Qed.
Lemma coeff_dnE M l q : size M = n -> (l.+1 < n)%N -> compute_coeff_lower C M l.+1 q =
  coeff C (unum (ent M l) (upd (ent M l.+1) q (-1)) (ent M l.+2) (n - l.+1) q)
          (uden (upd (ent M l.+1) q (-1)) (n - l.+1) q).
Proof. clear S0.
move=> s1 hl; rewrite /compute_coeff_lower s1 !iota_ord /unum /uden.
rewrite subSS subn0 addn1 (_ : (n - l.+1 - 1 = (n - l.+1).-1)%N) ?subn1 // updE.
congr (coeff _ (_ * _) _).
- by apply: eq_bigr => i _; lia.
- by apply: eq_bigr => i _; lia.
- by apply: eq_bigr => i ne; rewrite updNE //; congr (_ * _); lia.
Qed.
Lemma coeffE a b c m q : rows_ok a b c m -> (q < m)%N -> up a b c q ->
  0 <= usq C a b c m q /\ coeff C (unum a b c m q) (uden b m q) = Ok (sqrtC (usq C a b c m q)).
Proof. clear S0.
move=> ok hq u; have [d0 n0'] := up_signs ok hq u.
have p : 0 <= usq C a b c m q.
  by rewrite /usq mulr_ge0 ?invr_ge0 ?ler0z ?(ltW d0) // oppr_ge0 lerz0 ltW.
by split=> //; rewrite /coeff gt_eqF // /passert -/(usq C a b c m q) p.
Qed.

Lemma uA_ge0 l q M N : lvl l q -> M \in G -> N \in G -> step l q M N -> 0 <= uA C n (ent M) l q.
Proof. clear S0.
move=> lq hM hN /eqP e; have [hl hq] := lq; have [_ _ g] := (GP M).1 hM.
have u : up (ent M l) (ent M l.+1) (ent M l.+2) q by rewrite -step_G // e.
exact: (coeffE (gtf_rows l g) hq u).1.
Qed.
Lemma coeff_up_step l q M N : lvl l q -> M \in G -> N \in G -> step l q M N ->
  compute_coeff_upper C M l.+1 q = Ok (sqrtC (uA C n (ent M) l q)).
Proof. clear S0.
move=> lq hM hN /eqP e; have [hl hq] := lq; have [[s1 _] _ g] := (GP M).1 hM.
have u : up (ent M l) (ent M l.+1) (ent M l.+2) q by rewrite -step_G // e.
by rewrite coeff_upE // (coeffE (gtf_rows l g) hq u).2.
Qed.
Lemma usq_ext a b c a' b' c' m q : (forall i, a i = a' i) -> (forall i, b i = b' i) -> (forall i, c i = c' i) ->
  usq C a b c m q = usq C a' b' c' m q.
Proof. clear S0.
move=> ha hb hc; rewrite /usq /unum /uden; congr (- _%:~R / _%:~R).
  by congr (_ * _); apply: eq_bigr => i _; rewrite ?ha ?hb ?hc.
by apply: eq_bigr => i _; rewrite !hb.
Qed.
Lemma uA_ext f g l q : (forall i j, f i j = g i j) -> uA C n f l q = uA C n g l q.
Proof. by move=> h; apply: usq_ext. Qed.
Lemma coeff_dn_step l q M N : lvl l q -> M \in G -> N \in G -> step l q M N ->
  compute_coeff_lower C N l.+1 q = Ok (sqrtC (uA C n (ent M) l q)).
Proof. clear S0.
move=> lq hM hN st; have [hl hq] := lq; have [[s1 _] _ g] := (GP M).1 hM; have [[s2 _] _ g2] := (GP N).1 hN.
have e := elimT (stepP lq hM hN) st.
have eM i j : ent M i j = fadd (ent N) l.+1 q (-1) i j.
  by rewrite -(faddK (ent M) l.+1 q 1); apply: fadd_ext => {}i {}j; rewrite e.
have ok : rows_ok (ent N l) (upd (ent N l.+1) q (-1)) (ent N l.+2) (n - l.+1).
  by apply/gtf_upd => //; apply: gtf_ext g.
have u : up (ent N l) (upd (ent N l.+1) q (-1)) (ent N l.+2) q.
  by apply: (up_dn (gtf_rows l g2)).
rewrite coeff_dnE // (coeffE ok hq u).2; congr (Ok (sqrtC _)); apply: usq_ext => i.
- by rewrite eM /fadd (_ : (l == l.+1) = false) //; lia.
- by rewrite eM /fadd eqxx.
- by rewrite eM /fadd (_ : (l.+2 == l.+1) = false) //; lia.
Qed.

(** <N|J+_l|M>. *)
Definition jel (l : nat) (N M : pattern) : C :=
  \sum_(q < n - l.+1 | step l q M N) sqrtC (uA C n (ent M) l q).

Lemma mapR_map (A B : Type) (f : A -> res B) (g : A -> B) (T : seq A) : (forall x, f x = Ok (g x)) -> mapR f T = Ok (map g T).
Proof. by move=> h; elim: T => //= x T ->; rewrite h. Qed.
Lemma mapR_map_in (A : eqType) (B : Type) (f : A -> res B) (g : A -> B) (T : seq A) :
  {in T, forall x, f x = Ok (g x)} -> mapR f T = Ok (map g T).
Proof. clear S0.
elim: T => //= x T IH h; rewrite h ?inE ?eqxx // IH // => y hy; apply: h.
by rewrite inE hy orbT.
Qed.
Lemma upper_ladderE l N M : (l.+1 < n)%N -> M \in G -> N \in G -> upper_ladder C l N M = Ok (jel l N M).
Proof using vS S0.
move=> hl hM hN; have [[s1 _] _ _] := (GP M).1 hM; rewrite /upper_ladder s1.
rewrite (@mapR_map_in _ _ _ (fun q => sqrtC (uA C n (ent M) l q))) => [|q].
  by rewrite /= big_map big_filter iota_ord; congr Ok; apply: eq_bigl => q; rewrite at_lk.
rewrite mem_filter mem_iota at_lk // => /andP[st hq]; apply: (@coeff_up_step l q M N) => //. 
Qed.
Lemma lower_ladderE l N M : (l.+1 < n)%N -> M \in G -> N \in G -> lower_ladder C l N M = Ok (jel l M N).
Proof using vS S0.
move=> hl hM hN; have [[s1 _] _ _] := (GP M).1 hM; rewrite /lower_ladder s1.
rewrite (@mapR_map_in _ _ _ (fun q => sqrtC (uA C n (ent N) l q))) => [|q].
  rewrite /= big_map big_filter iota_ord; congr Ok; apply: eq_bigl => q.
  by rewrite at_lk // step_dn //; split=> //.
rewrite mem_filter mem_iota at_lk // => /andP[st hq].
have lq : lvl l q by split=> //; lia.
by apply: (@coeff_dn_step l q N M) => //; rewrite -step_dn.
Qed.

(** Commutators, entry by entry. *)
Let t (l q : nat) (M N : pattern) : C := if step l q M N then sqrtC (uA C n (ent M) l q) else 0.
Let uG : uniq G. Proof. exact: gtp_uniq. Qed.
Lemma jelE l N M : jel l N M = \sum_(q < n - l.+1) t l q M N.
Proof. by rewrite /jel big_mkcond. Qed.

Lemma pairsum l q l' q' A B : lvl l q -> lvl l' q' -> (l, q) != (l', q') -> A \in G -> B \in G ->
  \sum_(N <- G) t l q N A * t l' q' N B = \sum_(N <- G) t l q B N * t l' q' A N.
Proof. clear S0.
move=> lq lq' ne hA hB; have [/hasP[N hN /andP[s1 s2]]|/hasPn nex] := boolP (has (fun N => step l q N A && step l' q' N B) G).
  have [N2 h2 [s3 s4]] := join lq lq' ne hN hA hB s1 s2.
  rewrite (bigD1_seq N) //= [RHS](bigD1_seq N2) //= [X in _ + X]big1_seq ?[X in _ = _ + X]big1_seq.
  - rewrite !addr0 /t s1 s2 s3 s4 -!sqrtCM ?nnegrE; first last.
    + exact: uA_ge0 s2.
    + exact: uA_ge0 s1.
    + exact: uA_ge0 s3.
    + exact: uA_ge0 s4.
    congr sqrtC; case: (lq) (lq') => hl hq [hl' hq']; rewrite (exch _ _ hq hq' ne); congr (_ * _).
    + by apply: uA_ext => i j; rewrite (elimT (stepP lq' hN hB) s2).
    + by apply: uA_ext => i j; rewrite (elimT (stepP lq hN hA) s1).
  - move=> N' /andP[n' hN']; rewrite /t; case: ifP => [s|]; last by rewrite mul0r.
    by rewrite (step_fun s s4) eqxx in n'.
  - move=> N' /andP[n' hN']; rewrite /t; case: ifP => [s|]; last by rewrite mul0r.
    by rewrite (step_inj lq hN' hN hA s s1) eqxx in n'.
rewrite !big1_seq // => N /andP[_ hN]; rewrite /t.
  case: ifP => [s1|]; last by rewrite mul0r.
  case: ifP => [s2|]; last by rewrite mulr0.
  have [N' hN' [s3 s4]] := meet lq lq' ne hN hA hB s2 s1.
  by have := nex N' hN'; rewrite s3 s4.
by have := nex N hN; case: ifP => //= [_|]; [move/negbTE-> ; rewrite mulr0 | rewrite mul0r].
Qed.
Lemma diag_dn l q A B : lvl l q -> A \in G -> B \in G ->
  \sum_(N <- G) t l q N A * t l q N B = if A == B then
    (if dn (ent A l) (ent A l.+1) (ent A l.+2) (n - l.+1) q then
       usq C (ent A l) (upd (ent A l.+1) q (-1)) (ent A l.+2) (n - l.+1) q else 0) else 0.
Proof. clear S0.
move=> lq hA hB; rewrite -dn_G //; case: ifP => [/eqP<-|/eqP ne]; last first.
  rewrite big1_seq // => N /andP[_ hN]; rewrite /t.
  case: ifP => [s1|]; last by rewrite mul0r.
  by case: ifP => [s2|]; rewrite ?mulr0 //; case: ne; exact: step_fun s1 s2.
case: ifP => [hN|h]; last first.
  rewrite big1_seq // => N /andP[_ hN]; rewrite /t -step_dn //.
  by case: ifP => [/eqP e|]; rewrite ?mul0r // e hN in h *.
have st : step l q (M_add A l.+1 q (-1)) A by rewrite -step_dn.
rewrite (bigD1_seq _ hN) //= big1_seq ?addr0 => [|N /andP[n' hN']].
  rewrite /t st -[_ * _]expr2 sqrtCK; have [s0 _ _] := (GP A).1 hA; case: lq => hl hq.
  apply: usq_ext => i; rewrite (entA _ _ _ s0) // /fadd ?eqxx //.
    by rewrite (_ : (l == l.+1) = false) //; lia.
  by rewrite (_ : (l.+2 == l.+1) = false) //; lia.
rewrite /t; case: ifP => [s|]; last by rewrite mul0r.
by rewrite (step_inj lq hN' hN hA s st) eqxx in n'.
Qed.
Lemma diag_up l q A B : lvl l q -> A \in G -> B \in G ->
  \sum_(N <- G) t l q B N * t l q A N = if A == B then
    (if up (ent A l) (ent A l.+1) (ent A l.+2) q then
       usq C (ent A l) (ent A l.+1) (ent A l.+2) (n - l.+1) q else 0) else 0.
Proof. clear S0.
move=> lq hA hB; rewrite -step_G //; case: ifP => [/eqP<-|/eqP ne]; last first.
  rewrite big1_seq // => N /andP[_ hN]; rewrite /t.
  case: ifP => [s1|]; last by rewrite mul0r.
  by case: ifP => [s2|]; rewrite ?mulr0 //; case: ne; exact: step_inj lq hA hB hN s2 s1.
case: ifP => [hN|h]; last first.
  rewrite big1_seq // => N /andP[_ hN]; rewrite /t.
  by case: ifP => [/eqP e|]; rewrite ?mul0r // e hN in h *.
have st : step l q A (M_add A l.+1 q 1) by rewrite /step.
rewrite (bigD1_seq _ hN) //= big1_seq ?addr0 => [|N /andP[n' hN']].
  by rewrite /t st -[_ * _]expr2 sqrtCK.
rewrite /t; case: ifP => [s|]; last by rewrite mul0r.
by rewrite (step_fun s st) eqxx in n'.
Qed.

(** Twice the z-weight. *)
Definition sg (i : nat) (M : pattern) : int := \sum_(j < n - i) ent M i j.
Definition wz (l : nat) (M : pattern) : int := 2%:R * sg l.+1 M - sg l M - sg l.+2 M.

Lemma comm_el l l' A B : (l.+1 < n)%N -> (l'.+1 < n)%N -> A \in G -> B \in G ->
  \sum_(N <- G) jel l A N * jel l' B N - \sum_(N <- G) jel l' N A * jel l N B =
  if (l == l') && (A == B) then (wz l A)%:~R else 0.
Proof. clear S0.
move=> hl hl' hA hB.
have e1 : \sum_(N <- G) jel l A N * jel l' B N =
    \sum_(q < n - l.+1) \sum_(q' < n - l'.+1) \sum_(N <- G) t l q N A * t l' q' N B.
  rewrite exchange_big /=; under [RHS]eq_bigr => q' _ do rewrite exchange_big /=.
  rewrite [RHS]exchange_big /=; apply: eq_bigr => N _.
  by rewrite !jelE mulr_suml exchange_big /=; apply: eq_bigr => q _; rewrite mulr_sumr.
have e2 : \sum_(N <- G) jel l' N A * jel l N B =
    \sum_(q < n - l.+1) \sum_(q' < n - l'.+1) \sum_(N <- G) t l q B N * t l' q' A N.
  rewrite exchange_big /=; under [RHS]eq_bigr => q' _ do rewrite exchange_big /=.
  rewrite [RHS]exchange_big /=; apply: eq_bigr => N _.
  by rewrite mulrC !jelE mulr_suml exchange_big /=; apply: eq_bigr => q _; rewrite mulr_sumr.
rewrite {}e1 {}e2; have [e|ne] := eqVneq l l'; last first.
  rewrite /= -sumrB big1 // => q _; rewrite -sumrB big1 // => q' _; rewrite (pairsum _ _ _ hA hB) ?subrr //.
  by apply: contra ne => /eqP[e _]; apply/eqP.
subst l'; rewrite -sumrB.
under eq_bigr => q _.
  rewrite -sumrB (bigD1 q) //= (diag_dn _ hA hB) // (diag_up _ hA hB) // big1 ?addr0 => [|q' ne].
    over.
  rewrite (pairsum _ _ _ hA hB) ?subrr //; apply: contra ne => /eqP[/val_inj->] //.
rewrite /=; case: ifP => _; last by rewrite big1 // => q _; rewrite subrr.
have [_ _ g] := (GP A).1 hA; have m0 : (0 < n - l.+1)%N by lia.
have := row_sum C (gtf_rows l g) m0.
rewrite [X in X - _]big_mkcond [X in _ - X]big_mkcond -sumrB /= => ->; congr (_%:~R); rewrite /wz /sg.
rewrite (_ : (n - l = (n - l.+1).+1)%N); last by lia.
by rewrite (_ : (n - l.+2 = (n - l.+1).-1)%N); last by lia.
Qed.

Lemma sg_step l q i M N : lvl l q -> M \in G -> N \in G -> step l q M N -> sg i N = sg i M + (i == l.+1)%:Z.
Proof. clear S0.
move=> lq hM hN /(stepP lq hM hN) e; rewrite /sg; under eq_bigr => j _ do rewrite e /fadd.
case: (i =P l.+1) => [->|_] /=; last by rewrite addr0.
case: lq => hl hq; rewrite (bigD1 (Ordinal hq)) //= [in RHS](bigD1 (Ordinal hq)) //= updE.
rewrite addrAC; congr (_ + _); congr (_ + _).
by apply: eq_bigr => j ne; rewrite updNE.
Qed.
Lemma wz_step l l' q M N : lvl l' q -> M \in G -> N \in G -> step l' q M N -> wz l N - wz l M = cartan l l'.
Proof. clear S0.
move=> lq hM hN s; rewrite /wz !(sg_step _ lq hM hN s) -cartanE.
by move: (sg l.+1 M) (sg l M) (sg l.+2 M) => x y z; exact: lin3.
Qed.
Lemma zcomm_el l l' A B : (l'.+1 < n)%N -> A \in G -> B \in G ->
  ((wz l A)%:~R - (wz l B)%:~R) * jel l' A B = (cartan l l')%:~R * jel l' A B.
Proof. clear S0.
move=> hl' hA hB; rewrite /jel !mulr_sumr; apply: eq_bigr => q s.
by rewrite -rmorphB (@wz_step l l' q B A).
Qed.

(** The matrices. *)
Let d := size G.
Definition pat (i : nat) : pattern := nth [::] G i.
Lemma patG i : (i < d)%N -> pat i \in G. Proof. exact: mem_nth. Qed.
Definition Jp (l : nat) : 'M[C]_d := \matrix_(i, j) jel l (pat i) (pat j).
Definition Jz (l : nat) : 'M[C]_d := \matrix_(i, j) (((wz l (pat i))%:~R / 2%:R) *+ (i == j)).
Lemma sum_pat (f : pattern -> C) : \sum_(k < d) f (pat k) = \sum_(N <- G) f N.
Proof. by rewrite (big_nth [::]) big_mkord. Qed.

Theorem JpJm l l' : (l.+1 < n)%N -> (l'.+1 < n)%N ->
  Jp l *m (Jp l')^T - (Jp l')^T *m Jp l = if l == l' then 2%:R *: Jz l else 0.
Proof. clear S0.
move=> hl hl'; apply/matrixP=> i j; rewrite mxE [in X in _ + X]mxE !mxE.
have e1 : \sum_j0 Jp l i j0 * (Jp l')^T j0 j = \sum_(N <- G) jel l (pat i) N * jel l' (pat j) N.
  by rewrite -sum_pat; apply: eq_bigr => k _; rewrite !mxE.
have e2 : \sum_j0 (Jp l')^T i j0 * Jp l j0 j = \sum_(N <- G) jel l' N (pat i) * jel l N (pat j).
  by rewrite -sum_pat; apply: eq_bigr => k _; rewrite !mxE.
rewrite e1 e2 comm_el ?patG // nth_uniq //; case: (l =P l') => _ /=; last by rewrite mxE.
rewrite !mxE -val_eqE /=; case: ifP => _; last by rewrite mulr0n mulr0.
by rewrite mulr1n mulrC divfK // pnatr_eq0.
Qed.
Theorem JzJp l l' : (l'.+1 < n)%N -> Jz l *m Jp l' - Jp l' *m Jz l = ((cartan l l')%:~R / 2%:R) *: Jp l'.
Proof. clear S0.
move=> hl'; apply/matrixP=> i j; rewrite mxE [in X in _ + X]mxE !mxE.
rewrite (bigD1 i) //= big1 ?addr0 => [|k ne]; last by rewrite mxE eq_sym (negbTE ne) mulr0n mul0r.
rewrite [X in _ - X](bigD1 j) //= [X in _ - (_ + X)]big1 ?addr0 => [|k ne]; last by rewrite !mxE (negbTE ne) mulr0n mulr0.
rewrite !mxE !eqxx !mulr1n [jel _ _ _ * _]mulrC -mulrBl -mulrBl mulrAC zcomm_el ?patG //.
by rewrite mulrAC.
Qed.
Lemma Jz_comm l l' : Jz l *m Jz l' = Jz l' *m Jz l.
Proof. clear S0.
apply/matrixP=> i j; rewrite !mxE (bigD1 i) //= [RHS](bigD1 i) //= !big1 ?addr0.
- by rewrite !mxE !eqxx !mulr1n; case: (i == j); rewrite ?mulr1n ?mulr0n ?mulr0 // mulrC.
- by move=> k ne; rewrite !mxE eq_sym (negbTE ne) mulr0n mul0r.
- by move=> k ne; rewrite !mxE eq_sym (negbTE ne) mulr0n mul0r.
Qed.
Lemma Jz_tr l : (Jz l)^T = Jz l.
Proof. by apply/matrixP=> i j; rewrite !mxE eq_sym; case: eqP => // ->. Qed.
End Coeff.
End Gt.
