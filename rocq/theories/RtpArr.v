(** RtpArr: the class IrrepsArray of Rtp.v: __init__, sorted, simplify, reshape, array. *)
From Coq Require Import ZArith String Ascii List Permutation.
From mathcomp Require Import all_ssreflect all_algebra.
From mathcomp Require Import zify.
From Verif Require Import Base Nd NdProofs Reps Sl2c LinAlg Perm RedPerm Rtp.

Set Implicit Arguments.
Unset Strict Implicit.
Unset Printing Implicit Defensive.

Import GRing.Theory Num.Theory.
Local Open Scope ring_scope.

(** * Lists *)
Lemma perm_Permutation (T : eqType) (s t : seq T) : perm_eq s t -> Permutation s t.
Proof.
elim: s t => [|x s IH] t; first by rewrite perm_sym => /perm_nilP ->.
move=> e; have xt : x \in t by rewrite -(perm_mem e) inE eqxx.
case/splitPr: xt e => p q e; apply: Permutation_cons_app; apply: IH.
by rewrite -(perm_cons x) (perm_trans e) // -cat1s perm_catCA.
Qed.
Lemma Permutation_flatten (T : Type) (s t : seq (seq T)) : Permutation s t -> Permutation (flatten s) (flatten t).
Proof.
elim=> [|x s' t' _ IH|x y s'|s1 s2 s3 _ h1 _ h2] //=.
- exact: Permutation_app_head.
- by rewrite !catA; apply: Permutation_app_tail; apply: Permutation_app_comm.
- exact: Permutation_trans h1 h2.
Qed.
Lemma Permutation_map' (T U : Type) (f : T -> U) s t : Permutation s t -> Permutation (map f s) (map f t).
Proof. exact: Permutation_map. Qed.
Lemma Permutation_Forall' (T : Type) (P : T -> Prop) s t : Permutation s t -> List.Forall P s -> List.Forall P t.
Proof. exact: Permutation_Forall. Qed.
Lemma Forall_nth' (T : Type) (P : T -> Prop) x0 s i : List.Forall P s -> (i < size s)%N -> P (nth x0 s i).
Proof. by move=> h; elim: h i => [|x s' px _ IH] [|i] //=; apply: IH. Qed.
Lemma nth_Forall' (T : Type) (P : T -> Prop) x0 s : (forall i, (i < size s)%N -> P (nth x0 s i)) -> List.Forall P s.
Proof.
elim: s => [|x s IH] h; constructor; first by apply: (h 0%N).
by apply: IH => i hi; apply: (h i.+1).
Qed.
Lemma Forall_rev' (T : Type) (P : T -> Prop) s : List.Forall P s -> List.Forall P (rev s).
Proof.
elim=> [|x s' px _ IH]; first exact: List.Forall_nil.
rewrite rev_cons -cats1; apply/List.Forall_app; split=> //; by constructor.
Qed.
Lemma Permutation_size (T : Type) (s t : seq T) : Permutation s t -> size s = size t.
Proof. exact: Permutation_length. Qed.
Lemma Permutation_sumn (s t : seq nat) : Permutation s t -> sumn s = sumn t.
Proof. by elim=> [|x s' t' _ /= ->|x y s' /=|s1 s2 s3 _ -> _ ->] //; rewrite addnCA. Qed.
Lemma mapR_ok (S T : Type) (f : S -> res T) (g : S -> T) s :
  List.Forall (fun x => f x = Ok (g x)) s -> mapR f s = Ok (map g s).
Proof. by elim=> //= x s' -> _ ->. Qed.

(** * Multi-indices *)
Lemma nprod_cat s t : nprod (s ++ t) = (nprod s * nprod t)%N.
Proof. by elim: s => [|d s IH] /=; rewrite ?mul1n // IH mulnA. Qed.
Lemma valid_cat s t i j : size i = size s -> valid (s ++ t) (i ++ j) = valid s i && valid t j.
Proof.
by elim: s i => [|d s IH] [|k i] //= [e]; rewrite !valid_cons IH // andbA.
Qed.
Lemma valid_size s i : valid s i -> size i = size s.
Proof. by case/andP => /eqP. Qed.
Lemma ravel_cat s t i j : size i = size s -> ravel (s ++ t) (i ++ j) = (ravel s i * nprod t + ravel t j)%N.
Proof.
elim: s i => [|d s IH] [|k i] //= [e]; rewrite IH // nprod_cat mulnDl -!mulnA addnA //.
Qed.
Lemma valid2 m d u k : valid [:: m; d] [:: u; k] = (u < m)%N && (k < d)%N.
Proof. by rewrite !valid_cons valid_nil andbT. Qed.
Lemma ravel2 m d u k : ravel [:: m; d] [:: u; k] = (u * d + k)%N.
Proof. by rewrite /= muln1 muln1 addn0. Qed.

Section Rsh.
Variable C : numClosedFieldType.
Notation nd := (nd C).
Lemma reshape_eq (a b : nd) sh i j : reshape a sh = Ok b -> valid (shape a) j ->
  ravel sh i = ravel (shape a) j -> get b i = get a j.
Proof.
by rewrite /reshape; case: ifP => // _ [<-] vj e /=; rewrite e ravelK.
Qed.
Lemma reshape_ok (a : nd) sh : nprod sh = nprod (shape a) -> exists2 b, reshape a sh = Ok b & shape b = sh.
Proof. by move=> e; rewrite /reshape e eqxx; eexists; [reflexivity |]. Qed.
Lemma reshape_shape (a b : nd) sh : reshape a sh = Ok b -> shape b = sh /\ nprod sh = nprod (shape a).
Proof. by rewrite /reshape; case: eqP => // e [<-]. Qed.
End Rsh.

Section Arr.
Variable C : numClosedFieldType.
Notation nd := (nd C).
Variable L : eqType.
Variable lt : rel L.
Variable dim : L -> nat.
Notation mi := (nat * L)%type.
Notation blk := (mi * nd)%type.
Notation irrarr := (irrarr C L).

(** ** Well-formed lists of blocks *)
Definition mk (l : seq blk) : irrarr := IrrArr (map fst l) (map snd l).
Definition wfb (ld : seq nat) (p : blk) : Prop := shape p.2 = ld ++ [:: p.1.1; dim p.1.2].
Definition wf (ld : seq nat) (l : seq blk) : Prop := (0 < size l)%N /\ List.Forall (wfb ld) l.

Lemma blocks_mk l : blocks (mk l) = l.
Proof. by rewrite /blocks /mk /= zip_map; elim: l => //= -[x y] l ->. Qed.
Lemma mk_blocks (irs : seq mi) (xs : seq nd) : size irs = size xs -> IrrArr irs xs = mk (zip irs xs).
Proof. by move=> e; rewrite /mk -/(unzip1 _) -/(unzip2 _) unzip1_zip ?unzip2_zip ?e. Qed.

Lemma wfb_lead ld p : wfb ld p -> lead p.2 = ld /\ ia_check dim p = Ok ld.
Proof.
move=> h; have e : lead p.2 = ld by rewrite /lead h size_cat addnK take_size_cat.
split=> //; rewrite /ia_check e h size_cat /= ltnNge leq_addl /= addnK nth_cat ltnn subnn /= eqxx /=.
by rewrite addn2 subn1 nth_cat /= ltnNge leqnSn /= subSnn /= eqxx.
Qed.
Lemma ia_new_wf ld l : wf ld l -> ia_new dim (map fst l) (map snd l) = Ok (mk l).
Proof.
case=> l0 h; rewrite /ia_new !size_map eqxx /= -[zip _ _]/(blocks (mk l)) blocks_mk.
rewrite (@mapR_ok _ _ _ (fun _ => ld)) /=; last by apply: List.Forall_impl h => p /wfb_lead[].
suff -> : undup (map (fun _ => ld) l) = [:: ld] by [].
elim: l l0 {h} => // p [|q l] IH _ //; have e : undup [seq ld | _ <- q :: l] = [:: ld] by apply: IH.
rewrite map_cons; have ht : ld \in [seq ld | _ <- q :: l] by rewrite inE eqxx.
by move: (map _ _) e ht => t e ht /=; rewrite ht.
Qed.
Lemma ia_check_inv p ld : ia_check dim p = Ok ld -> wfb ld p.
Proof.
rewrite /ia_check /wfb /lead; case: ltnP => // s2; rewrite /passert.
case: eqP => //= <-; case: eqP => //= <- [<-]; move: (shape p.2) s2 => s s2.
rewrite -{1}(cat_take_drop (size s - 2) s); congr (_ ++ _).
have sd : size (drop (size s - 2) s) = 2%N by rewrite size_drop; lia.
have n0 := nth_drop (size s - 2) 0%N s 0; have n1 := nth_drop (size s - 2) 0%N s 1.
move: sd n0 n1; case: (drop _ _) => [|a [|b [|]]] //= _ -> ->; rewrite addn0; congr [:: _; nth _ _ _]; lia.
Qed.
Lemma mapR_Forall2 (S T : Type) (f : S -> res T) s t : mapR f s = Ok t -> List.Forall2 (fun x y => f x = Ok y) s t.
Proof.
elim: s t => [|x s IH] t /=; first by case=> <-; constructor.
by case e: (f x) => [y|] //=; case e2: (mapR f s) => [ys|] //= [<-]; constructor; [|apply: IH].
Qed.
Lemma ia_new_inv irs xs b : ia_new dim irs xs = Ok b ->
  [/\ b = mk (zip irs xs), size irs = size xs & exists ld, wf ld (zip irs xs)].
Proof.
rewrite /ia_new /passert; case: eqP => //= e; case E: (mapR _ _) => [shs|] //=.
case: eqP => //= u1 [<-]; split=> //; first exact: mk_blocks.
have [ld ud] : exists ld, undup shs = [:: ld] by move: u1; case: (undup shs) => [|x [|]] //= _; exists x.
have all_ld s : s \in shs -> s = ld by rewrite -mem_undup ud inE => /eqP.
exists ld; split.
  by move: E; case: (zip irs xs) => //= -[E]; rewrite -E in u1.
have h2 := mapR_Forall2 E; elim: h2 all_ld => [|p s l shs' h _ IH] all_ld; first exact: List.Forall_nil.
constructor; last by apply: IH => t ht; apply: all_ld; rewrite inE ht orbT.
by apply: ia_check_inv; rewrite h (all_ld s) // inE eqxx.
Qed.
Lemma wf_uniq ld ld' l : wf ld l -> wf ld' l -> ld = ld'.
Proof.
case: l => [|p l] [// _ h] [_ h']; move: (List.Forall_inv h) (List.Forall_inv h') => {}h {}h'.
by have [<- _] := wfb_lead h; have [-> _] := wfb_lead h'.
Qed.

(** ** sorted *)
Lemma pick_all_ok (T : Type) (x0 : T) (s : seq T) idx : all (fun i => (i < size s)%N) idx ->
  pick_all s idx = Ok (map (nth x0 s) idx).
Proof.
move=> h; apply: mapR_ok; elim: idx h => [|i idx IH] /=; first by constructor.
by case/andP => hi /IH; constructor => //; rewrite (drop_nth x0 hi).
Qed.
Definition sortb (l : seq blk) : seq blk :=
  if l is p0 :: _ then map (nth p0 l) (sort_idx lt (map fst l)) else [::].
Lemma sort_idx_perm irs : perm_eq (sort_idx lt irs) (iota 0 (size irs)).
Proof. by case: irs => [|m irs] //; rewrite /sort_idx perm_sort. Qed.
Lemma sortb_perm l : Permutation (sortb l) l.
Proof.
case: l => [|p l]; first by [].
rewrite /sortb -[X in Permutation _ X](mkseq_nth p) /mkseq; apply: Permutation_map'.
by apply: perm_Permutation; have := sort_idx_perm (map fst (p :: l)); rewrite size_map.
Qed.
Lemma wf_perm ld l l' : Permutation l l' -> wf ld l -> wf ld l'.
Proof. by move=> p [h1 h2]; split; [rewrite -(Permutation_size p) | apply: Permutation_Forall' p h2]. Qed.
Lemma ia_sortedE ld l : wf ld l -> ia_sorted lt dim (mk l) = Ok (mk (sortb l)).
Proof.
move=> w; have w' := wf_perm (Permutation_sym (sortb_perm l)) w.
case: l w w' => [|p l] w w'; first by case: w.
set l1 := p :: l in w w' *; have := sort_idx_perm (map fst l1); rewrite size_map => /perm_mem hm.
have ai : all (fun i => (i < size l1)%N) (sort_idx lt (map fst l1)).
  by apply/allP => i; rewrite hm mem_iota add0n.
rewrite /ia_sorted /mk; cbn [ia_irreps ia_list].
rewrite (@pick_all_ok _ p.2) ?size_map //; cbn [rbind]; rewrite (@pick_all_ok _ p.1) ?size_map //; cbn [rbind].
rewrite -(ia_new_wf w'); congr ia_new; rewrite /sortb -map_comp.
  by apply/eq_in_map => i /(allP ai) hi; rewrite [RHS]/= (nth_map p).
by apply/eq_in_map => i /(allP ai) hi; rewrite [RHS]/= (nth_map p).
Qed.

(** The order: [lt] is a strict total order. *)
Section Order.
Hypothesis lt_irr : irreflexive lt.
Hypothesis lt_tr : transitive lt.
Hypothesis lt_tot : forall a b, [|| a == b, lt a b | lt b a].

Lemma lt_asym a b : lt a b -> lt b a = false.
Proof. by move=> h; apply/negP => h'; have := lt_tr h h'; rewrite lt_irr. Qed.
Definition key_le (a b : mi) := ~~ key_lt lt b a.
Lemma key_leE a b : key_le a b = (if a.2 == b.2 then (a.1 <= b.1)%N else lt a.2 b.2).
Proof.
rewrite /key_le /key_lt eq_sym; case: eqP => e; first by rewrite -leqNgt.
have := lt_tot a.2 b.2; move/eqP/negbTE: (e) => ->; case h: (lt a.2 b.2) => /= h'; first by rewrite (lt_asym h).
by rewrite h'.
Qed.
Lemma key_le_total : total key_le.
Proof.
move=> a b; rewrite !key_leE eq_sym; case: eqP => e; first exact: leq_total.
by have := lt_tot a.2 b.2; case: eqP => [e'|_ //]; rewrite e' in e.
Qed.
Lemma key_le_trans : transitive key_le.
Proof.
move=> b a c; rewrite !key_leE; case: (a.2 =P b.2) => [->|e1].
  by case: eqP => // _; apply: leq_trans.
case: (b.2 =P c.2) => [<-|e2]; first by move/eqP/negbTE: (e1) => ->.
move=> h1 h2; case: eqP => [e|_]; last exact: lt_tr h1 h2.
by have := lt_asym h2; rewrite -e h1.
Qed.
(** The blocks of sorted() are in increasing order of (irrep, mul). *)
Lemma sort_idx_sorted m0 irs : sorted key_le (map (nth m0 (m0 :: irs)) (sort_idx lt (m0 :: irs))).
Proof. by rewrite /sort_idx sorted_map; apply: sort_sorted => i j; apply: key_le_total. Qed.
Lemma sortb_sorted l : sorted key_le (map fst (sortb l)).
Proof.
case: l => [|p l] //; have := sort_idx_sorted p.1 (map fst l); rewrite -map_cons.
set l1 := p :: l; congr (is_true (sorted _ _)); rewrite /sortb -map_comp.
have := sort_idx_perm (map fst l1); rewrite size_map => /perm_mem hm.
by apply/eq_in_map => i; rewrite hm mem_iota => hi; rewrite (nth_map p).
Qed.
End Order.

(** ** Columns *)
(** The columns of a list of blocks: for each copy u of an irrep, the label and the
    entries x[idx, u, k]. *)
Notation col := (L * (seq nat -> nat -> C))%type.
Definition bcols (p : blk) : seq col :=
  [seq (p.1.2, fun idx k => get p.2 (idx ++ [:: u; k])) | u <- iota 0 p.1.1].
Definition cols (l : seq blk) : seq col := flatten (map bcols l).
Definition ceq (ld : seq nat) (c c' : col) : Prop :=
  c.1 = c'.1 /\ forall idx k, size idx = size ld -> c.2 idx k = c'.2 idx k.
Definition ceqs ld := List.Forall2 (ceq ld).

Lemma ceqs_refl ld s : ceqs ld s s.
Proof. by elim: s => [|c s IH]; constructor. Qed.
Lemma ceqs_cat ld s1 s2 t1 t2 : ceqs ld s1 t1 -> ceqs ld s2 t2 -> ceqs ld (s1 ++ s2) (t1 ++ t2).
Proof. exact: List.Forall2_app. Qed.
Lemma ceqs_sym ld s t : ceqs ld s t -> ceqs ld t s.
Proof. by elim=> [|c c' s' t' [h1 h2] _ IH]; constructor=> //; split=> // idx k hs; rewrite h2. Qed.
Lemma ceqs_trans ld s t u : ceqs ld s t -> ceqs ld t u -> ceqs ld s u.
Proof.
move=> h; elim: h u => [|c c' s' t' [h1 h2] _ IH] u' h'; inversion h'; subst; constructor; last exact: IH.
by case: H1 => h3 h4; split=> [|idx k hs]; rewrite ?h1 // h2 // h4.
Qed.
Lemma cols_cat s t : cols (s ++ t) = cols s ++ cols t.
Proof. by rewrite /cols map_cat flatten_cat. Qed.
Lemma cols_perm l l' : Permutation l l' -> Permutation (cols l) (cols l').
Proof. by move=> h; apply: Permutation_flatten; apply: Permutation_map'. Qed.

(** ** simplify *)
Lemma concat_m2P ld m1 m2 d (a b : nd) : shape a = ld ++ [:: m1; d] -> shape b = ld ++ [:: m2; d] ->
  exists2 c, concat_m2 a b = Ok c & shape c = ld ++ [:: (m1 + m2)%N; d] /\
  forall idx u k, size idx = size ld ->
    get c (idx ++ [:: u; k]) = if (u < m1)%N then get a (idx ++ [:: u; k]) else get b (idx ++ [:: (u - m1)%N; k]).
Proof.
move=> sa sb; have la : lead a = ld by rewrite /lead sa size_cat addnK take_size_cat.
have lb : lead b = ld by rewrite /lead sb size_cat addnK take_size_cat.
have n2 (s : seq nat) x y : nth 0%N (s ++ [:: x; y]) (size s + 2 - 2) = x by rewrite addnK nth_cat ltnn subnn.
have n1 (s : seq nat) x y : nth 0%N (s ++ [:: x; y]) (size s + 2 - 1) = y.
  by rewrite addn2 subn1 nth_cat /= ltnNge leqnSn /= subSnn.
rewrite /concat_m2 la lb sa sb !size_cat /= ltnNge leq_addl /= !eqxx /= !n2 !n1 eqxx.
eexists; first by reflexivity.
split=> //= idx u k hs; rewrite -hs n2 n1; case: ifP => // _.
by rewrite addnK take_size_cat.
Qed.
Lemma concat_cols ld m1 m2 ir (a b c : nd) : shape a = ld ++ [:: m1; dim ir] ->
  (forall idx u k, size idx = size ld ->
    get c (idx ++ [:: u; k]) = if (u < m1)%N then get a (idx ++ [:: u; k]) else get b (idx ++ [:: (u - m1)%N; k])) ->
  ceqs ld (bcols ((m1 + m2)%N, ir, c)) (bcols (m1, ir, a) ++ bcols (m2, ir, b)).
Proof.
move=> sa h; rewrite /bcols /= iotaD map_cat add0n; apply: ceqs_cat.
  have : all (fun u => u < m1)%N (iota 0 m1) by apply/allP => u; rewrite mem_iota add0n.
  elim: (iota 0 m1) => [|u us IH] /=; first by constructor.
  case/andP=> hu /IH; constructor=> //; split=> //= idx k hs; by rewrite h // hu.
rewrite -[X in iota X _]addn0 iotaDl -map_comp; elim: (iota 0 m2) => [|u us IH] /=; first by constructor.
constructor=> //; split=> //= idx k hs; by rewrite h // ltnNge leq_addr /= addKn.
Qed.

Lemma simp_stepP ld acc p : List.Forall (wfb ld) acc -> wfb ld p -> exists2 acc', simp_step acc p = Ok acc' &
  [/\ List.Forall (wfb ld) acc', ceqs ld (cols (rev acc')) (cols (rev acc) ++ bcols p), (0 < size acc')%N &
   [seq q.1.2 | q <- acc'] = (if [seq q.1.2 | q <- acc] is a :: s then
       if p.1.2 == a then a :: s else p.1.2 :: a :: s else [:: p.1.2])].
Proof.
case: acc => [|q acc] ha hp /=.
  exists [:: p] => //; split=> //; first by repeat constructor.
  by rewrite /rev /= /cols /= cats0; apply: ceqs_refl.
have hq := List.Forall_inv ha; have ha' := List.Forall_inv_tail ha.
case: eqP => e /=; last first.
  by exists (p :: q :: acc) => //; split=> //; [constructor | rewrite rev_cons -cats1 cols_cat /cols /= cats0; apply: ceqs_refl].
have sp : shape p.2 = ld ++ [:: p.1.1; dim q.1.2] by rewrite -e.
have [y -> [sy gy]] := concat_m2P hq sp.
exists ((q.1.1 + p.1.1, q.1.2, y)%N :: acc) => //; split=> //; first by constructor.
rewrite !rev_cons -!cats1 !cols_cat -catA /cols /= !cats0; apply: ceqs_cat; first exact: ceqs_refl.
case: q p {ha} hq hp e sp sy gy => -[m1 ir] a [[m2 ir2] b] /= hq hp e sp sy gy.
by have := concat_cols m2 hq gy; rewrite /bcols /= -e.
Qed.
Fixpoint merge_lab (a : L) (s : seq L) : seq L :=
  if s is b :: s' then if b == a then merge_lab a s' else a :: merge_lab b s' else [:: a].
Definition merged (s : seq L) : seq L := if s is a :: s' then merge_lab a s' else [::].
Lemma simplifyP ld l : wf ld l -> exists2 l', ia_simplify dim (mk l) = Ok (mk l') &
  [/\ wf ld l', ceqs ld (cols l') (cols l) & [seq q.1.2 | q <- l'] = merged [seq q.1.2 | q <- l]].
Proof.
case=> l0 hl; rewrite /ia_simplify -[zip _ _]/(blocks (mk l)) blocks_mk.
have gen acc : List.Forall (wfb ld) acc -> (0 < size acc + size l)%N -> exists2 acc', foldR (@simp_step C L) acc l = Ok acc' &
  [/\ List.Forall (wfb ld) acc', ceqs ld (cols (rev acc')) (cols (rev acc) ++ cols l), (0 < size acc')%N &
   rev [seq q.1.2 | q <- acc'] = (if [seq q.1.2 | q <- acc] is a :: s then rev s ++ merge_lab a [seq q.1.2 | q <- l] else merged [seq q.1.2 | q <- l])].
  elim: l {l0} hl acc => [|p l IH] hl acc ha pos.
    exists acc => //; split=> //; rewrite ?cats0 ?addn0 in pos *; [exact: ceqs_refl | by [] |].
    by case: acc ha pos => [|q acc] //= _ _; rewrite rev_cons cats1.
  have [acc1 e1 [w1 c1 p1 m1]] := simp_stepP ha (List.Forall_inv hl).
  have pos1 : (0 < size acc1 + size l)%N by rewrite addn_gt0 p1.
  have [acc2 e2 [w2 c2 p2 m2]] := IH (List.Forall_inv_tail hl) acc1 w1 pos1.
  exists acc2; first by rewrite /= e1.
  split=> //; first by apply: ceqs_trans c2 _; rewrite [cols (p :: l)]/= catA; apply: ceqs_cat c1 (ceqs_refl _ _).
  rewrite m2 m1; case: [seq q.1.2 | q <- acc] => [|a s] //=; case: eqP => // _ /=.
  by rewrite rev_cons -cats1 -catA.
have [acc' -> [w c p m]] := gen [::] (List.Forall_nil _) l0.
have w' : wf ld (rev acc').
  by split; [rewrite size_rev | apply: Forall_rev'].
exists (rev acc') => /=; first exact: (ia_new_wf w').
by split=> //; rewrite map_rev m.
Qed.

(** ** Labels after sorted().simplify() *)
Section Uniq.
Hypothesis lt_irr : irreflexive lt.
Hypothesis lt_tr : transitive lt.
Hypothesis lt_tot : forall a b, [|| a == b, lt a b | lt b a].
Lemma merge_lab_lt a s : path (fun x y => (x == y) || lt x y) a s -> exists2 t, merge_lab a s = a :: t & path lt a t.
Proof.
elim: s a => [|b s IH] a /=; first by exists [::].
case/andP => ab hs; case: eqP => [e|ne]; first by rewrite e in hs; apply: IH.
have [t -> ht] := IH b hs; exists (b :: t) => //=; rewrite ht andbT.
by case/orP: ab => // /eqP e; case: ne.
Qed.
Lemma merged_sorted s : sorted (fun x y => (x == y) || lt x y) s -> sorted lt (merged s).
Proof. by case: s => // a s /= /merge_lab_lt[t -> ht]. Qed.
Lemma sortb_labels l : sorted lt (merged [seq q.1.2 | q <- sortb l]).
Proof.
apply: merged_sorted; have := sortb_sorted lt_irr lt_tr lt_tot l.
rewrite (_ : [seq q.1.2 | q <- sortb l] = map snd (map fst (sortb l))); last by rewrite -map_comp.
move: (map fst _) => s; rewrite sorted_map; apply: sub_sorted => a b /=.
by rewrite (key_leE lt_irr lt_tr lt_tot); case: eqP.
Qed.
Lemma sorted_lt_uniq s : sorted lt s -> uniq s.
Proof. exact: sorted_uniq. Qed.
End Uniq.

(** ** array *)
(** The entries of the columns, in the order of the array. *)
Definition cents (c : L * (seq nat -> nat -> C)) : seq (seq nat -> C) := [seq (fun idx => c.2 idx k) | k <- iota 0 (dim c.1)].
Definition ents (l : seq blk) : seq (seq nat -> C) := flatten (map cents (cols l)).
Definition tdim (l : seq blk) : nat := sumn [seq (p.1.1 * dim p.1.2)%N | p <- l].

Lemma size_bents p : size (flatten (map cents (bcols p))) = (p.1.1 * dim p.1.2)%N.
Proof.
rewrite size_flatten /seq.shape -map_comp /bcols -map_comp.
rewrite (eq_map (_ : _ =1 (fun=> dim p.1.2))); last by move=> u; rewrite /= size_map size_iota.
by elim: (p.1.1) 0%N => //= m IH i; rewrite IH mulSn.
Qed.
Lemma ents_cons p l : ents (p :: l) = flatten (map cents (bcols p)) ++ ents l.
Proof. by rewrite /ents -cat1s cols_cat /cols /= cats0 map_cat flatten_cat. Qed.
Lemma size_ents l : size (ents l) = tdim l.
Proof. by elim: l => //= p l IH; rewrite ents_cons size_cat size_bents IH. Qed.
Lemma nth_bents z p c : (c < p.1.1 * dim p.1.2)%N ->
  nth z (flatten (map cents (bcols p))) c = fun idx => get p.2 (idx ++ [:: (c %/ dim p.1.2)%N; (c %% dim p.1.2)%N]).
Proof.
rewrite /bcols -map_comp; set d := dim p.1.2; move=> hc.
have gen m0 m c' : (c' < m * d)%N ->
  nth z (flatten (map (cents \o (fun u => (p.1.2, fun idx k => get p.2 (idx ++ [:: u; k])))) (iota m0 m))) c' =
  fun idx => get p.2 (idx ++ [:: (m0 + c' %/ d)%N; (c' %% d)%N]).
  elim: m m0 c' => [|m IH] m0 c' //; rewrite mulSn => hc'; cbn [map iota flatten foldr].
  rewrite nth_cat {1}/cents /= size_map size_iota -/d; case: ltnP => h.
    by rewrite (nth_map 0%N) ?size_iota // nth_iota // add0n divn_small // modn_small // addn0.
  rewrite IH; last by lia.
  have d0 : (0 < d)%N by lia.
  have -> : (c' %/ d)%N = ((c' - d) %/ d).+1 by rewrite -{1}(subnK h) divnDr ?dvdnn // divnn d0 addn1.
  have -> : (c' %% d)%N = ((c' - d) %% d)%N by rewrite -{1}(subnK h) modnDr.
  by rewrite addnS addSn.
by rewrite gen.
Qed.

Lemma reshape_lastP ld p : wfb ld p -> nprod ld <> 0%N -> exists2 y, reshape_last p.2 = Ok y &
  shape y = rcons ld (p.1.1 * dim p.1.2)%N /\
  forall idx c, valid ld idx -> (c < p.1.1 * dim p.1.2)%N ->
    get y (rcons idx c) = get p.2 (idx ++ [:: (c %/ dim p.1.2)%N; (c %% dim p.1.2)%N]).
Proof.
move=> w n0; rewrite /reshape_last; have [-> _] := wfb_lead w; move/eqP/negbTE: (n0) => ->.
set m := p.1.1 in w *; set d := dim p.1.2 in w *.
have e : (nprod (shape p.2) %/ nprod ld)%N = (m * d)%N by rewrite w nprod_cat /= muln1 mulKn // lt0n; apply/eqP.
rewrite e; have [y ey sy] : exists2 b, reshape p.2 (rcons ld (m * d)%N) = Ok b & shape b = rcons ld (m * d)%N.
  by apply: reshape_ok; rewrite w -cats1 !nprod_cat /= !muln1.
exists y => //; split=> // idx c vi hc; apply: reshape_eq ey _ _.
  have d0 : (0 < d)%N by lia.
  by rewrite w valid_cat ?(valid_size vi) // vi valid2 ltn_divLR // hc ltn_pmod.
rewrite w -!cats1 !ravel_cat ?(valid_size vi) // ravel2 -divn_eq /= !muln1 addn0; lia.
Qed.

Lemma ia_arrayP ld l : wf ld l -> nprod ld <> 0%N -> exists2 a, ia_array (mk l) = Ok a &
  shape a = rcons ld (tdim l) /\
  forall idx c, valid ld idx -> (c < tdim l)%N -> get a (rcons idx c) = nth (fun=> 0) (ents l) c idx.
Proof.
case=> l0 hw n0; rewrite /ia_array [ia_list _]/=.
have [ys -> h] : exists2 ys, mapR (@reshape_last C) (map snd l) = Ok ys &
  List.Forall2 (fun p y => shape y = rcons ld (p.1.1 * dim p.1.2)%N /\
    forall idx c, valid ld idx -> (c < p.1.1 * dim p.1.2)%N ->
    get y (rcons idx c) = get p.2 (idx ++ [:: (c %/ dim p.1.2)%N; (c %% dim p.1.2)%N])) l ys.
  elim: hw {l0} => [|p l' hp _ [ys e h]] /=; first by exists [::].
  have [y ey hy] := reshape_lastP hp n0; exists (y :: ys); last by constructor.
  by rewrite ey /= e.
have inid (y : nd) n : shape y = rcons ld n -> initdims y = ld /\ lastdim y = n.
  by move=> e; rewrite /initdims /lastdim e size_rcons -cats1 take_size_cat // last_cat.
have ld_y : [seq lastdim y | y <- ys] = [seq (p.1.1 * dim p.1.2)%N | p <- l].
  by elim: h {l0 hw} => //= p y l' ys' [/inid[_ ->] _] _ ->.
have pickP idx c : valid ld idx -> (c < tdim l)%N -> 
  let x := pick ys c in get x.1 (rcons idx x.2) = nth (fun=> 0) (ents l) c idx.
  move=> vi; elim: h c {l0 hw ld_y} => //= p y l' ys' [/inid[_ ly] gy] _ IH c hc.
  rewrite ly ents_cons nth_cat size_bents; case: ltnP => h' /=; first by rewrite nth_bents // gy.
  by apply: IH; rewrite /tdim in hc *; move: hc => /=; lia.
case: h l0 ld_y pickP => [|p y l' ys' [sy gy] h]; first by [].
move=> _ ld_y pickP; have [iy ly] := inid _ _ sy; rewrite /= /concat_last sy size_rcons /=.
have -> : all (fun b : nd => (size (shape b) == (size ld).+1) && (initdims b == initdims y)) ys'.
  elim: h {ld_y pickP} => //= p' y' l'' ys'' [sy' _] _ ->; have [-> _] := inid _ _ sy'.
  by rewrite iy eqxx sy' size_rcons eqxx.
rewrite !eqxx iy /=; eexists; first by reflexivity.
split; first by cbn [shape]; rewrite /tdim -ld_y.
move=> idx c vi hc /=; rewrite last_rcons size_rcons [X in take X _]/= -[in take _ _]cats1 take_size_cat //.
exact: (pickP idx c vi hc).
Qed.
Lemma ents_ceqs ld l l' : ceqs ld (cols l) (cols l') ->
  List.Forall2 (fun f g => forall idx, size idx = size ld -> f idx = g idx) (ents l) (ents l').
Proof.
rewrite /ents; elim=> [|c c' s t [e1 e2] _ IH] /=; first by constructor.
apply: List.Forall2_app IH; rewrite /cents e1; elim: (iota _ _) => [|k ks IH] /=; constructor=> //.
by move=> idx hs; apply: e2.
Qed.
End Arr.
