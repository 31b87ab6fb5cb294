(** RedPermSub: signed permutation groups as lists of tuples, and
    subrepr_permutation (C10). *)
From mathcomp Require Import all_ssreflect all_fingroup all_algebra.
From mathcomp Require Import zify.
From Verif Require Import Base Perm PermProofs RedPerm RedPermBasis.

Set Implicit Arguments.
Unset Strict Implicit.
Unset Printing Implicit Defensive.
Import GRing.Theory Num.Theory.

(** Specification: [G] is a group of signed permutations of n points. The tuple p
    stands for the function i |-> nth 0 p i. *)
Record signed_group (n : nat) (G : seq sp) : Prop := SGroup {
  sg_sign : forall a, a \in G -> a.1 = 1%R \/ a.1 = (-1)%R;
  sg_perm : forall a, a \in G -> perm_eq a.2 (iota 0 n);
  sg_id : (1%R, iota 0 n) \in G;
  sg_mul : forall a b, a \in G -> b \in G ->
     ((a.1 * b.1)%R, [seq nth 0 a.2 i | i <- b.2]) \in G;
  sg_inv : forall a, a \in G ->
     exists2 q, (a.1, q) \in G & [seq nth 0 a.2 i | i <- q] = iota 0 n }.

Lemma permeq_nth_lt n p i : perm_eq p (iota 0 n) -> i < n -> nth 0 p i < n.
Proof.
move=> pe li; have sz := perm_size pe; rewrite size_iota in sz.
have : nth 0 p i \in p by rewrite mem_nth // sz.
by rewrite (perm_mem pe) mem_iota.
Qed.

Lemma permeq_inj n p i j : perm_eq p (iota 0 n) -> i < n -> j < n -> nth 0 p i = nth 0 p j -> i = j.
Proof.
move=> pe li lj /eqP; have sz := perm_size pe; rewrite size_iota in sz.
by rewrite nth_uniq ?sz ?(perm_uniq pe) ?iota_uniq // => /eqP.
Qed.

Lemma permeq_surj n p i : perm_eq p (iota 0 n) -> i < n -> exists2 j, j < n & nth 0 p j = i.
Proof.
move=> pe li; have sz := perm_size pe; rewrite size_iota in sz.
have ip : i \in p by rewrite (perm_mem pe) mem_iota.
by exists (index i p); rewrite ?nth_index // -sz index_mem.
Qed.

Section Sub.
Variables (n : nat) (G : seq sp) (sub : seq nat).
Hypothesis GG : signed_group n G.
Hypothesis usub : uniq sub.
Hypothesis lsub : all (fun i => i < n) sub.
Notation sor := (sort leq sub).
Notation m := (size sub).

Definition fixes (p : seq nat) := forall i, i < n -> i \notin sub -> nth 0 p i = i.

Lemma sor_uniq : uniq sor. Proof. by rewrite sort_uniq. Qed.
Lemma sor_mem : sor =i sub. Proof. exact: mem_sort. Qed.
Lemma sor_size : size sor = m. Proof. exact: size_sort. Qed.
Lemma sor_nth k : k < m -> nth 0 sor k \in sub.
Proof. by move=> lk; rewrite -sor_mem mem_nth // sor_size. Qed.
Lemma sub_lt i : i \in sub -> i < n. Proof. exact: (allP lsub). Qed.

Lemma fixes_sub p i : perm_eq p (iota 0 n) -> fixes p -> i < n -> (nth 0 p i \in sub) = (i \in sub).
Proof.
move=> pe fx li; apply/idP/idP => H.
  by apply: contraTT H => ni; rewrite fx.
apply: contraTT H => ni; have E := fx _ (permeq_nth_lt pe li) ni.
by rewrite (permeq_inj pe (permeq_nth_lt pe li) li E) in ni.
Qed.

Lemma fixesP p : perm_eq p (iota 0 n) ->
  reflect (fixes p) (all (fun ji : nat * nat => (ji.2 \in sub) || (ji.2 == ji.1)) (zip (iota 0 (size p)) p)).
Proof.
move=> pe; have sz := perm_size pe; rewrite size_iota in sz.
apply: (iffP (all_nthP (0, 0))) => [H i li ni|fx i].
  have [j lj Ej] := permeq_surj pe li.
  have := H j; rewrite size_zip size_iota minnn nth_zip ?size_iota // nth_iota ?sz // add0n Ej.
  by rewrite (negbTE ni) /= => /(_ _)/eqP Ei; rewrite {1}Ei ?Ej // sz.
rewrite size_zip size_iota minnn sz => li.
rewrite nth_zip ?size_iota // nth_iota ?sz // add0n /=.
have [//|ni] := boolP (_ \in sub).
by rewrite fx ?eqxx // -(fixes_sub pe).
Qed.

Lemma filter_sub : [seq j <- iota 0 n | j \in sub] = sor.
Proof.
have st : sorted leq (iota 0 n) by exact: iota_sorted.
apply: (sorted_eq leq_trans anti_leq).
- exact: sorted_filter leq_trans _ _ st.
- exact: sort_sorted leq_total _.
apply: uniq_perm; rewrite ?filter_uniq ?iota_uniq ?sort_uniq // => i.
by rewrite mem_filter mem_iota mem_sort add0n andb_idr // => /sub_lt.
Qed.

Definition restr (p : seq nat) := [seq index (nth 0 p j) sor | j <- sor].

Lemma restrE p : perm_eq p (iota 0 n) -> fixes p ->
  [seq index i sor | i <- p & i \in sub] = restr p.
Proof.
move=> pe fx; have sz := perm_size pe; rewrite size_iota in sz.
have Ep : p = [seq nth 0 p j | j <- iota 0 n] by rewrite -sz map_nth_iota0 // take_size.
rewrite {1}Ep filter_map -map_comp /restr -filter_sub.
congr map; apply: eq_in_filter => j; rewrite mem_iota add0n /= => lj.
exact: fixes_sub.
Qed.

(** [q] is [p] restricted to the points of [sub], numbered in increasing order. *)
Definition restricts (p q : seq nat) :=
  [/\ size q = m, all (fun k => k < m) q &
      forall k, k < m -> nth 0 sor (nth 0 q k) = nth 0 p (nth 0 sor k)].

Lemma restr_restricts p : perm_eq p (iota 0 n) -> fixes p -> restricts p (restr p).
Proof.
move=> pe fx; have H k : k < m -> nth 0 p (nth 0 sor k) \in sor.
  by move=> lk; have h := sor_nth lk; rewrite sor_mem (fixes_sub pe fx) // sub_lt.
split; first by rewrite size_map sor_size.
  apply/allP => _ /mapP[j js ->]; rewrite -sor_size index_mem.
  by rewrite sor_mem (fixes_sub pe fx) ?sub_lt -?sor_mem.
move=> k lk; rewrite (nth_map 0) ?sor_size // nth_index //; exact: H.
Qed.

Lemma restricts_eq p q q' : restricts p q -> restricts p q' -> q = q'.
Proof.
case=> sz /allP al H [sz' /allP al' H']; apply: (@eq_from_nth _ 0); rewrite ?sz ?sz' // => k lk.
have /eqP := etrans (H _ lk) (esym (H' _ lk)).
rewrite nth_uniq ?sor_uniq ?sor_size //; first by move/eqP.
  by apply: al; rewrite mem_nth ?sz.
by apply: al'; rewrite mem_nth ?sz'.
Qed.

Lemma mem_subrepr s q : (s, q) \in subrepr_permutation sub G <->
  exists p, [/\ (s, p) \in G, fixes p & restricts p q].
Proof.
rewrite mem_undup; split.
  case/mapP => -[s' p]; rewrite mem_filter => /andP[/= al aG] [-> ->].
  have pe := sg_perm GG aG; move/(fixesP pe) in al.
  by exists p; split=> //; rewrite restrE //; apply: restr_restricts.
case=> p [aG fx rs]; have pe := sg_perm GG aG; apply/mapP; exists (s, p).
  by rewrite mem_filter aG andbT; apply/fixesP.
by rewrite restrE //; congr pair; apply: restricts_eq rs (restr_restricts pe fx).
Qed.

Lemma restricts_perm p q : perm_eq p (iota 0 n) -> fixes p -> restricts p q -> perm_eq q (iota 0 m).
Proof.
move=> pe fx [sz /allP al H].
have uq : uniq q.
  apply/(uniqP 0) => i j; rewrite !inE sz => li lj E.
  have E' : nth 0 p (nth 0 sor i) = nth 0 p (nth 0 sor j) by rewrite -!H // E.
  have := permeq_inj pe (sub_lt (sor_nth li)) (sub_lt (sor_nth lj)) E'.
  by move/eqP; rewrite nth_uniq ?sor_uniq ?sor_size // => /eqP.
have [_ E] : size (iota 0 m) <= size q /\ q =i iota 0 m.
  have sub' : {subset q <= iota 0 m} by move=> k /al; rewrite mem_iota.
  by have [] := uniq_min_size uq sub'; rewrite ?size_iota ?sz.
by apply: uniq_perm; rewrite ?iota_uniq.
Qed.

Lemma subrepr_group : signed_group m (subrepr_permutation sub G).
Proof.
split.
- by case=> s q /mem_subrepr[p [/(sg_sign GG)]].
- case=> s q /mem_subrepr[p [/(sg_perm GG) /= pe fx rs]]; exact: restricts_perm pe fx rs.
- apply/mem_subrepr; exists (iota 0 n); split; first exact: (sg_id GG).
    by move=> i li _; rewrite nth_iota.
  split; rewrite ?size_iota //; first by apply/allP => k; rewrite mem_iota.
  by move=> k lk; rewrite !nth_iota //; apply/sub_lt/sor_nth.
- case=> [s q] [t r] /mem_subrepr[p [pG fp [szp alp rp]]] /mem_subrepr[p' [pG' fp' [szp' alp' rp']]] /=.
  apply/mem_subrepr; exists [seq nth 0 p i | i <- p']; split; first exact: (sg_mul GG pG pG').
    move=> i li ni; have sz := perm_size (sg_perm GG pG'); rewrite /= size_iota in sz.
    by rewrite (nth_map 0) ?sz // fp' // fp.
  have lr k : k < m -> nth 0 r k < m by move=> lk; apply: (allP alp'); rewrite mem_nth ?szp'.
  split; first by rewrite size_map.
    by apply/allP => _ /mapP[i /(allP alp') li ->]; apply: (allP alp); rewrite mem_nth ?szp.
  move=> k lk; rewrite (nth_map 0) ?szp' // rp ?lr // rp' // (nth_map 0) //.
  have sz := perm_size (sg_perm GG pG'); rewrite /= size_iota in sz; rewrite sz.
  exact/sub_lt/sor_nth.
case=> s q /mem_subrepr[p [pG fp rs]]; have pe := sg_perm GG pG; rewrite /= in pe.
have [p' pG' Ep] := sg_inv GG pG; rewrite /= in pG' Ep.
have pe' := sg_perm GG pG'; rewrite /= in pe'.
have szp' := perm_size pe'; rewrite size_iota in szp'.
have pp' i : i < n -> nth 0 p (nth 0 p' i) = i.
  by move=> li; have := congr1 (nth 0 ^~ i) Ep; rewrite (nth_map 0) ?szp' // nth_iota.
have fp' : fixes p'.
  move=> i li ni; apply: (permeq_inj pe); rewrite ?pp' ?fp //; exact: permeq_nth_lt.
exists (restr p').
  by apply/mem_subrepr; exists p'; split=> //; apply: restr_restricts.
have [sz' al' H'] := restr_restricts pe' fp'; have [sz al H] := rs.
apply: (@eq_from_nth _ 0); rewrite [size _]size_map sz' ?size_iota // => k lk.
rewrite (nth_map 0) ?sz' // nth_iota // add0n.
have lk' : nth 0 (restr p') k < m by apply: (allP al'); rewrite mem_nth ?sz'.
have lk2 : nth 0 q (nth 0 (restr p') k) < m by apply: (allP al); rewrite mem_nth ?sz.
apply/eqP; rewrite -(nth_uniq 0 _ _ sor_uniq) ?sor_size //.
by rewrite H // H' // pp' // sub_lt // sor_nth.
Qed.
End Sub.

(** ** The basis theorem for signed groups *)
Section Main.
Variables (C : numClosedFieldType) (n : nat) (G : seq sp) (dims : seq nat).
Hypothesis GG : signed_group n G.
Hypothesis szd : size dims = n.
Hypothesis cst : forall s p i, (s, p) \in G -> i < n -> nth 0 dims (nth 0 p i) = nth 0 dims i.

Lemma act_dims a : a \in G -> act dims a.2 = dims.
Proof.
case: a => s p aG; have pe := sg_perm GG aG; rewrite /= in pe *.
have sz := perm_size pe; rewrite size_iota in sz.
apply: (@eq_from_nth _ 0); rewrite ?size_map ?sz // => i li.
by rewrite (nth_map 0) ?sz // (cst aG).
Qed.

Lemma Gperm' a : a \in G -> is_perm a.2 /\ size a.2 = n.
Proof.
move=> /(sg_perm GG) pe; have sz := perm_size pe; rewrite size_iota in sz.
by rewrite is_permE sz.
Qed.

Lemma basis_ok :
  exists2 Q, reduce_permutation_matrix C (reduce_permutation_base G dims) dims = Ok Q &
    [/\ size Q = size (reduce_permutation_base G dims),
        forall row, row \in Q -> size row = prodn dims &
        let entry i e := nth 0%R (nth [::] Q i) (flat e dims) in
        [/\ forall i j, i < size Q -> j < size Q ->
              (\sum_(e <- full_base dims) entry i e * entry j e = (i == j)%:R)%R,
            forall i e s p, i < size Q -> valid_index dims e -> (s, p) \in G ->
              entry i e = (s%:~R * entry i [seq nth 0%N e k | k <- p])%R &
            forall T : seq nat -> C,
              (forall e s p, valid_index dims e -> (s, p) \in G ->
                 T e = s%:~R * T [seq nth 0%N e k | k <- p])%R ->
              forall e, valid_index dims e ->
                (T e = \sum_(i < size Q) (\sum_(e' <- full_base dims) entry i e' * T e') * entry i e)%R]].
Proof.
have := @reduce_permutation_matrix_ok C G n dims (sg_sign GG) Gperm' (sg_id GG) (sg_mul GG) (sg_inv GG) act_dims szd.
case=> Q EQ [sQ rQ eQ]; exists Q => //; split=> //=.
pose kb := kbase G dims.
have skb : size kb = size Q by rewrite size_sort sQ.
have kbm i : i < size Q -> nth [::] kb i \in reduce_permutation_base G dims.
  by move=> li; rewrite -mem_kbase mem_nth ?skb.
split.
- move=> i j li lj.
  transitivity (\sum_(e <- full_base dims) rowf C (pick (nth [::] kb i)) e * rowf C (pick (nth [::] kb j)) e)%R.
    by rewrite big_seq [RHS]big_seq; apply: eq_bigr => e; rewrite mem_full_base => ve; rewrite !eQ -?sQ.
  have := @row_orth C G n dims (sg_sign GG) Gperm' (sg_id GG) (sg_mul GG) (sg_inv GG) act_dims szd _ _ (kbm _ li) (kbm _ lj).
  by move=> ->; rewrite nth_uniq ?skb ?kbase_uniq.
- move=> i e s p li ve aG; have va := @valid_act G n dims Gperm' act_dims szd e (s, p) aG ve.
  rewrite !eQ -?sQ //.
  exact: (@row_sym C G n dims (sg_sign GG) Gperm' (sg_mul GG) (sg_inv GG) act_dims szd _ (kbm _ li) e (s, p) ve aG).
move=> T sT e ve.
have sT' : symmetric G dims T by move=> x [s p] vx aG; exact: sT.
have -> := @row_complete C G n dims (sg_sign GG) Gperm' (sg_id GG) (sg_mul GG) (sg_inv GG) act_dims szd T sT' e ve.
rewrite -/kb (big_nth [::]) big_mkord skb; apply: eq_bigr => i _.
rewrite eQ -?sQ //; congr (_ * _)%R.
by rewrite big_seq [RHS]big_seq; apply: eq_bigr => e'; rewrite mem_full_base => ve'; rewrite eQ -?sQ.
Qed.
End Main.
