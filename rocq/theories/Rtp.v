(** Rtp: model of the basis part of lie_nn/_src/reduced_tensor_product.py: the class
    IrrepsArray (lines 25-80), _reduced_tensor_product_basis (185-256),
    reduce_basis_product (293-325), constrain_rotation_basis_by_permutation_basis
    (328-363), and the two public functions (92-182), whose germinate and
    keyword parts are in RedPerm.v.

    The labels of the irreps are an arbitrary [eqType] [L] with the order [lt]
    ([__lt__]), the dimensions [dim], the products [mulL] ([__mul__]) and the
    Clebsch-Gordan arrays [cgL] ([clebsch_gordan]); [rnd] is round_fn, [eigh] is
    np.linalg.eigh and [eps] is epsilon.  A MulIrrep is a pair (mul, rep) with a
    natural multiplicity.  Of a ReducedRep only the fields irreps and Q are used.

    A frozenset of indices is the increasing list of its elements; [ford] gives the
    order in which Python iterates over it.  The infinite loops take fuel.  The set of all
    permutations is listed in some order. *)
From Coq Require Import ZArith String Ascii.
From mathcomp Require Import all_ssreflect all_algebra.
From Verif Require Import Base Nd Reps Sl2c LinAlg Perm RedPerm.

Set Implicit Arguments.
Unset Strict Implicit.
Unset Printing Implicit Defensive.

Import GRing.Theory Num.Theory.
Local Open Scope ring_scope.

Section Rtp.
Variable C : numClosedFieldType.
Notation nd := (nd C).
Variable L : eqType.
Variable lt : rel L.
Variable dim : L -> nat.
Variable mulL : L -> L -> res (seq L).
Variable cgL : L -> L -> L -> res nd.
Variable rnd : nd -> nd.
Variable eigh : nd -> res (nd * nd).
Variable eps : C.
Variable ford : seq nat -> seq nat.

(** MulIrrep, and the two fields of an IrrepsArray. *)
Notation mi := (nat * L)%type.
Record irrarr := IrrArr { ia_irreps : seq mi; ia_list : seq nd }.

(** x.shape[:-2] *)
Definition lead (x : nd) : seq nat := take (size (shape x) - 2) (shape x).

(** Lines 33-42. *)
Definition ia_check (p : mi * nd) : res (seq nat) :=
  let sh := shape p.2 in
  if (size sh < 2)%N then Err IndexError else
  do _ <- passert (nth 0%N sh (size sh - 2) == p.1.1);
  do _ <- passert (nth 0%N sh (size sh - 1) == dim p.1.2);
  Ok (lead p.2).
Definition ia_new (irs : seq mi) (xs : seq nd) : res irrarr :=
  do _ <- passert (size irs == size xs);
  do shapes <- mapR ia_check (zip irs xs);
  do _ <- passert (size (undup shapes) == 1%N);
  Ok (IrrArr irs xs).

(** Lines 44-50.  Tuples are compared at their first unequal entry; sorted() is stable
    and uses only [<]. *)
Definition key_lt (a b : mi) : bool := if a.2 == b.2 then (a.1 < b.1)%N else lt a.2 b.2.
Definition sort_idx (irs : seq mi) : seq nat :=
  if irs is m0 :: _ then
    sort (fun i j => ~~ key_lt (nth m0 irs j) (nth m0 irs i)) (iota 0 (size irs))
  else [::].
(** [self.list[i] for i in indices]. *)
Definition pick_all (T : Type) (s : seq T) (l : seq nat) : res (seq T) :=
  mapR (fun i => if ohead (drop i s) is Some x then Ok x else Err IndexError) l.
Definition ia_sorted (b : irrarr) : res irrarr :=
  let idx := sort_idx (ia_irreps b) in
  do xs <- pick_all (ia_list b) idx;
  do irs <- pick_all (ia_irreps b) idx;
  ia_new irs xs.

(** np.concatenate([a, b], axis=-2). *)
Definition concat_m2 (a b : nd) : res nd :=
  let ra := size (shape a) in
  if (ra < 2)%N then Err ValueError else
  if (size (shape b) == ra) && (lead a == lead b)
     && (nth 0%N (shape a) (ra - 1) == nth 0%N (shape b) (ra - 1))
  then let ma := nth 0%N (shape a) (ra - 2) in
    Ok (Nd (lead a ++ [:: (ma + nth 0%N (shape b) (ra - 2))%N; nth 0%N (shape a) (ra - 1)])
     (fun idx => let u := nth 0%N idx (ra - 2) in
        if (u < ma)%N then get a idx
        else get b (take (ra - 2) idx ++ [:: (u - ma)%N; nth 0%N idx (ra - 1)])))
  else Err ValueError.

(** Lines 52-70; [acc] holds the lists irreps, muls and list in reverse order. *)
Definition simp_step (acc : seq (mi * nd)) (p : mi * nd) : res (seq (mi * nd)) :=
  match acc with
  | [::] => Ok [:: p]
  | q :: acc' =>
    if p.1.2 != q.1.2 then Ok (p :: acc)
    else do y <- concat_m2 q.2 p.2; Ok (((q.1.1 + p.1.1)%N, q.1.2, y) :: acc')
  end.
Definition ia_simplify (b : irrarr) : res irrarr :=
  do acc <- foldR simp_step [::] (zip (ia_irreps b) (ia_list b));
  let l := rev acc in ia_new (map fst l) (map snd l).

(** Lines 72-80; the last entry of [shape] is None for -1. *)
Definition ia_reshape (b : irrarr) (sh : seq nat) (lst : option nat) : res irrarr :=
  do _ <- passert (if lst is Some n then n == sumn [seq m.1 | m <- ia_irreps b] else true);
  do xs <- mapR (fun p : mi * nd => reshape p.2 (sh ++ [:: p.1.1; dim p.1.2])) (zip (ia_irreps b) (ia_list b));
  ia_new (ia_irreps b) xs.

(** Lines 29-31: the property array. *)
Definition reshape_last (x : nd) : res nd :=
  if nprod (lead x) == 0%N then Err ValueError
  else reshape x (rcons (lead x) (nprod (shape x) %/ nprod (lead x))%N).
Definition ia_array (b : irrarr) : res nd :=
  do xs <- mapR reshape_last (ia_list b); concat_last xs.

(** reduced_rep.py:105-107; the fields of a ReducedRep that are used. *)
Notation rrep := (seq mi * option nd)%type.
Definition rdim (r : rrep) : nat := sumn [seq (m.1 * dim m.2)%N | m <- r.1].

(** x[..., lo:hi] *)
Definition slice_last (lo hi : nat) (a : nd) : nd :=
  let n := lastdim a in
  Nd (rcons (initdims a) (minn hi n - minn lo n)%N)
     (fun idx => get a (rcons (take (size idx - 1) idx) (minn lo n + last 0%N idx)%N)).
(** Lines 193-206: get_initial_basis for the index i among n. *)
Fixpoint init_blocks (x : nd) (cursor : nat) (irs : seq mi) : res (seq nd) :=
  match irs with
  | [::] => Ok [::]
  | m :: irs' =>
    do y <- reshape (slice_last cursor (cursor + m.1 * dim m.2) x) (initdims x ++ [:: m.1; dim m.2]);
    do ys <- init_blocks x (cursor + m.1 * dim m.2) irs';
    Ok (y :: ys)
  end.
Definition init_basis (n i : nat) (r : rrep) : res irrarr :=
  do q <- (if r.2 is Some Q then do Qi <- np_inv Q; Ok (transpose2 Qi) else Ok (eye (rdim r)));
  do x <- reshape q (nseq i 1%N ++ rdim r :: nseq (n - i - 1) 1%N ++ [:: rdim r]);
  do xs <- init_blocks x 0 r.1;
  ia_new r.1 xs.

(** np.einsum("...ui,...vj,wijk->...wuvk", x1, x2, cg): the leading axes are broadcast;
    equal labels must have equal dimensions (numpy also lets a dimension 1 stretch). *)
Definition einsum_prod (x1 x2 cg : nd) : res nd :=
  let r1 := size (shape x1) in let r2 := size (shape x2) in
  if (r1 < 2)%N || (r2 < 2)%N then Err ValueError else
  let m1 := nth 0%N (shape x1) (r1 - 2) in let d1 := nth 0%N (shape x1) (r1 - 1) in
  let m2 := nth 0%N (shape x2) (r2 - 2) in let d2 := nth 0%N (shape x2) (r2 - 1) in
  match shape cg with
  | [:: w; c1; c2; k] =>
    if (c1 == d1) && (c2 == d2) then
      do s <- bshape (lead x1) (lead x2);
      Ok (Nd (s ++ [:: w; m1; m2; k]) (fun idx =>
        let bi := take (size s) idx in let e := drop (size s) idx in
        \sum_(i < d1) \sum_(j < d2)
           get x1 (bidx (lead x1) bi ++ [:: nth 0%N e 1; i : nat])
           * get x2 (bidx (lead x2) bi ++ [:: nth 0%N e 2; j : nat])
           * get cg [:: nth 0%N e 0; i : nat; j : nat; nth 0%N e 3]))
    else Err ValueError
  | _ => Err ValueError
  end.
(** Lines 310-322 for one irrep of the product; filter_ir_out is None. *)
Definition prod_one (p1 p2 : mi * nd) (ir : L) : res (mi * nd) :=
  do cg <- cgL p1.1.2 p2.1.2 ir;
  do x <- einsum_prod p1.2 p2.2 cg;
  let z := (len cg * p1.1.1 * p2.1.1)%N in
  do y <- reshape x (take (size (shape x) - 4) (shape x) ++ [:: z; dim ir]);
  Ok ((z, ir), y).
Definition blocks (b : irrarr) : seq (mi * nd) := zip (ia_irreps b) (ia_list b).
(** Lines 293-325. *)
Definition reduce_basis_product (b1 b2 : irrarr) : res irrarr :=
  do b1 <- ia_sorted b1; do b1 <- ia_simplify b1;
  do b2 <- ia_sorted b2; do b2 <- ia_simplify b2;
  do ls <- mapR (fun pp : (mi * nd) * (mi * nd) =>
      do irs <- mulL pp.1.1.2 pp.2.1.2; mapR (prod_one pp.1 pp.2) irs)
    [seq (p1, p2) | p1 <- blocks b1, p2 <- blocks b2];
  let l := flatten ls in
  do b <- ia_new (map fst l) (map snd l);
  do b <- ia_sorted b; ia_simplify b.

(** Lines 350-361 for one block: [perm] is the permutation basis as a matrix. *)
(** x[..., 0] *)
Definition at_last0 (x : nd) : res nd :=
  if (lastdim x == 0%N) || (size (shape x) == 0%N) then Err IndexError
  else Ok (Nd (initdims x) (fun idx => get x (rcons idx 0%N))).
(** perm[~np.all(perm[:, ~np.all(R == 0, axis=0)] == 0, axis=1)] *)
Definition perm_opt (perm R : nd) : nd :=
  let cols := [seq c <- iota 0 (nth 0%N (shape R) 1)
              | ~~ all (fun u => get R [:: u; c] == 0) (iota 0 (len R))] in
  select0 (fun p => ~~ all (fun c => get perm [:: p; c] == 0) cols) perm.
(** np.einsum("vu,...ui->...vi", P, x) *)
Definition einsum_P (P x : nd) : res nd :=
  let r := size (shape x) in
  match shape P with
  | [:: v; u] =>
    if (r < 2)%N || (nth 0%N (shape x) (r - 2) != u) then Err ValueError else
    Ok (Nd (lead x ++ [:: v; nth 0%N (shape x) (r - 1)]) (fun idx =>
      \sum_(w < u) get P [:: nth 0%N idx (r - 2); w : nat]
                   * get x (take (r - 2) idx ++ [:: w : nat; nth 0%N idx (r - 1)])))
  | _ => Err ValueError
  end.
Definition constrain_one (perm : nd) (p : mi * nd) : res (seq (mi * nd)) :=
  do R <- at_last0 p.2;
  do R <- (if p.1.1 == 0%N then Err ValueError else reshape R [:: (nprod (shape R) %/ p.1.1)%N; p.1.1]);
  let R := transpose2 R in
  do PP <- basis_intersection rnd eigh eps R (perm_opt perm R);
  let P := PP.1 in
  if (0 < len P)%N then do y <- einsum_P P p.2; Ok [:: ((len P, p.1.2), y)] else Ok [::].
(** Lines 328-363. *)
Definition constrain (rb : irrarr) (pb : nd) : res irrarr :=
  do _ <- passert (all (fun x => lead x == behead (shape pb)) (ia_list rb));
  do perm <- flat2 pb;
  do ls <- mapR (constrain_one perm) (blocks rb);
  let l := flatten ls in
  ia_new (map fst l) (map snd l).

(** The result of reduce_permutation_matrix (a list of rows) as an array. *)
Definition rows_nd (Q : seq (seq C)) (sd : seq nat) : nd :=
  Nd (size Q :: sd) (fun idx => nth 0 (nth [::] Q (head 0%N idx)) (ravel sd (behead idx))).
(** dims[i] if i in f else 1 *)
Definition masked (f dims : seq nat) : seq nat :=
  [seq if i \in f then nth 0%N dims i else 1%N | i <- iota 0 (size dims)].
(** Lines 379-397 with the final reshape.  (The reshape of np.eye to
    (prod(sub_dims),) + sub_dims always succeeds.) *)
Definition subgroup_perm (f : seq nat) (G : seq sp) (dims : seq nat) : res nd :=
  let sd := sub_dims (ford f) dims in
  do Q <- reduce_subgroup_permutation C (ford f) G dims;
  if size (subrepr_permutation f G) == 1%N then Ok (rows_nd Q sd)
  else reshape_m1 (rows_nd Q sd) (masked f dims).

(** fa | fb *)
Definition fset_union (fa fb : seq nat) : seq nat := sort leq (undup (fa ++ fb)).
Notation basis := (seq nat * irrarr)%type.
(** Lines 236-247: the pair (i, j) with the smallest p_dim, the first one found;
    [best] is None before the first. *)
Definition greedy_step (fs : seq (seq nat)) (G : seq sp) (dims : seq nat)
    (best : option (nat * (nat * nat * seq nat))) (ij : nat * nat) :=
  let f := fset_union (nth [::] fs ij.1) (nth [::] fs ij.2) in
  let p_dim := reduce_subgroup_dim (ford f) G dims in
  if (if best is Some b then (p_dim < b.1)%N else true) then Some (p_dim, (ij.1, ij.2, f)) else best.
Definition index_pairs (n : nat) : seq (nat * nat) :=
  [seq (i, j) | i <- iota 0 n, j <- iota i.+1 (n - i.+1)].
Definition greedy (fs : seq (seq nat)) (G : seq sp) (dims : seq nat) :=
  foldl (greedy_step fs G dims) None (index_pairs (size fs)).
(** del bases[i] *)
Definition del_at (T : Type) (i : nat) (s : seq T) : seq T := take i s ++ drop i.+1 s.

(** Lines 216-256; [rec] is the recursive call. *)
Fixpoint rtp_loop (rec : seq rrep -> seq sp -> res irrarr) (irr : seq rrep) (G : seq sp)
    (fuel : nat) (bases : seq basis) : res irrarr :=
  let dims := map rdim irr in
  match fuel with
  | 0%N => Err OutOfFuel
  | fuel'.+1 =>
    match bases with
    | [:: fb] =>
      do _ <- passert (fb.1 == iota 0 (size irr));
      do b <- ia_sorted fb.2; ia_simplify b
    | [:: fa; fb] =>
      let f := fset_union fa.1 fb.1 in
      do ab <- reduce_basis_product fa.2 fb.2;
      if size (subrepr_permutation f G) == 1%N then do b <- ia_sorted ab; ia_simplify b
      else
        do p <- subgroup_perm f G dims;
        do ab <- constrain ab p;
        do b <- ia_sorted ab; ia_simplify b
    | _ =>
      match greedy (map fst bases) G dims with
      | None => Err TypeError
      | Some (_, (i, j, f)) =>
        let rest := del_at i (del_at j bases) in
        do sub <- pick_all irr (ford f);
        do ab <- rec sub (subrepr_permutation f G);
        do ab <- ia_reshape ab (masked f dims) None;
        rtp_loop rec irr G fuel' ((f, ab) :: rest)
      end
    end
  end.
(** Lines 208-214. *)
Definition rtp_bases (irr : seq rrep) : res (seq basis) :=
  mapR (fun p : nat * rrep => do b <- init_basis (size irr) p.1 p.2; Ok ([:: p.1], b)) (zip (iota 0 (size irr)) irr).
Definition rtp_body (rec : seq rrep -> seq sp -> res irrarr) (irr : seq rrep) (G : seq sp) (fuel : nat) : res irrarr :=
  do bases <- rtp_bases irr; rtp_loop rec irr G fuel bases.
(** Lines 185-256: _reduced_tensor_product_basis. *)
Fixpoint rtp (fuel : nat) (irr : seq rrep) (G : seq sp) : res irrarr :=
  match fuel with
  | 0%N => Err OutOfFuel
  | fuel'.+1 => rtp_body (rtp fuel') irr G fuel
  end.

(** The irreps, the array and the list of the result: out.irreps, out.array, out.list
    (the RepArray of lines 125, 157 and 182; ReducedRep.from_irreps is in
    Reduced.v). *)
Definition rtp_out (fuel : nat) (irr : seq rrep) (G : seq sp) : res (seq mi * nd * seq nd) :=
  do b <- rtp fuel irr G; do a <- ia_array b; Ok (ia_irreps b, a, ia_list b).
(** Lines 117-125: a list of irreps without symmetry. *)
Definition rtp_list (fuel : nat) (irr : seq rrep) : res (seq mi * nd * seq nd) :=
  rtp_out fuel irr [:: (1, iota 0 (size irr))].
(** Lines 160-182: reduced_symmetric_tensor_product_basis. *)
Definition rtp_symmetric (fuel : nat) (r : rrep) (order : nat) : res (seq mi * nd * seq nd) :=
  rtp_out fuel (nseq order r) [seq (1, p) | p <- permutations (iota 0 order)].
End Rtp.
