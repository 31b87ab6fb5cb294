(** SunCg: model of lie_nn/_src/irreps/sun.py 261-378 (the Clebsch-Gordan coefficients of
    SU(N)) and of SUN.clebsch_gordan (459-462).

    Arithmetic is exact.  round_to_sqrt_rational is the parameter [rnd], np.linalg.eigh the
    parameter [eigh] and the threshold of nullspace the parameter [eps] (LinAlg.v).  Where
    several calls of a loop could fail, the first failure in the order of the entries of the
    array is reported. *)
From Coq Require Import ZArith String Ascii.
From mathcomp Require Import all_ssreflect all_algebra.
From Verif Require Import Base Nd Reps Util LinAlg Sun.

Set Implicit Arguments.
Unset Strict Implicit.
Unset Printing Implicit Defensive.

Import GRing.Theory Num.Theory.
Local Open Scope ring_scope.

Section Cg.
Variable C : numClosedFieldType.
Notation nd := (nd C).
Variable rnd : nd -> nd.
Variable eigh : nd -> res (nd * nd).
Variable eps : C.

(** An array filled entry by entry. *)
Definition tabR (sh : seq nat) (f : seq nat -> res C) : res nd :=
  do v <- mapR f (all_idx sh);
  Ok (Nd sh (fun idx => nth 0 v (ravel sh idx))).
(** a[:, ::-1] on a matrix. *)
Definition flip1 (a : nd) : nd :=
  Nd (shape a) (fun idx => get a [:: nth 0%N idx 0; (nth 0%N (shape a) 1 - (nth 0%N idx 1).+1)%N]).
(** index_to_M(S, i); None as a pattern is a TypeError (len(None)). *)
Definition patM (S : weight) (i : nat) : res pattern :=
  do M <- index_to_M S i%:Z; if M is Some M then Ok M else Err TypeError.
Definition idxM (M : pattern) : res nat :=
  do i <- M_to_index M; if i is Some i then Ok `|i|%N else Err TypeError.

(** construct_highest_weight_constraint (sun.py:261-297).  [hwc_A] is the array A of lines
    267-281, [hwc_B] the positions (m1, m2) of the arrays b of lines 287-295. *)
Definition hwc_A (S1 S2 : weight) (n d1 d2 : nat) : res nd :=
  tabR [:: d1; d2; d1; d2; (n - 1)%N] (fun idx =>
    let m1 := nth 0%N idx 0 in let m2 := nth 0%N idx 1 in
    let n1 := nth 0%N idx 2 in let n2 := nth 0%N idx 3 in let l := nth 0%N idx 4 in
    do a <- if n2 == m2 then do N <- patM S1 n1; do M <- patM S1 m1; upper_ladder C l N M else Ok 0;
    do b <- if n1 == m1 then do N <- patM S2 n2; do M <- patM S2 m2; upper_ladder C l N M else Ok 0;
    Ok (0 + a + b)).
Definition hwc_B (S1 S2 : weight) (M3 : pattern) (d1 d2 : nat) : res (seq (nat * nat)) :=
  do l <- mapR (fun m : nat * nat =>
       do M1 <- patM S1 m.1; do M2 <- patM S2 m.2;
       let W := [seq p.1 + p.2 | p <- zip (M_to_z_weight C M1) (M_to_z_weight C M2)] in
       Ok (m, W != M_to_z_weight C M3)) [seq (m1, m2) | m1 <- iota 0 d1, m2 <- iota 0 d2];
  Ok [seq p.1 | p <- l & p.2].
(** np.concatenate([A] + B, axis=2) for A of shape (d1, d2, k) and the indicators of B. *)
Definition hwc_cat (d1 d2 : nat) (A : nd) (B : seq (nat * nat)) : nd :=
  let k := nth 0%N (shape A) 2 in
  Nd [:: d1; d2; (k + size B)%N] (fun idx =>
    let x := nth 0%N idx 2 in
    if (x < k)%N then get A idx
    else ((nth 0%N idx 0, nth 0%N idx 1) == nth (0%N, 0%N) B (x - k))%:R).
Definition highest_weight_constraint (S1 S2 : weight) (M3 : pattern) : res nd :=
  let n := size M3 in
  do z1 <- dimS S1; do z2 <- dimS S2;
  let d1 := `|z1|%N in let d2 := `|z2|%N in
  do A <- hwc_A S1 S2 n d1 d2;
  do A <- reshape_last A [:: d1; d2];
  do B <- hwc_B S1 S2 M3 d1 d2;
  do r <- reshape_last (hwc_cat d1 d2 A B) [:: (d1 * d2)%N];
  Ok (rnd (transpose2 r)).

(** clebsch_gordan_eldest (sun.py:300-304). *)
Definition cg_eldest (S1 S2 : weight) (M3 : pattern) : res nd :=
  do A <- highest_weight_constraint S1 S2 M3;
  do N <- nullspace rnd eigh eps (flip1 A);
  do z1 <- dimS S1; do z2 <- dimS S2;
  reshape_m1 (flip1 N) [:: `|z1|%N; `|z2|%N].

(** search_state (sun.py:307-321): lines 317-319, 313-319 and 312-321. *)
Fixpoint search_l (Mp Mc : pattern) (ls : seq nat) : res (option nat) :=
  match ls with
  | [::] => Ok None
  | l :: ls' =>
    do x <- lower_ladder C l Mp Mc;
    if x != 0 then Ok (Some l) else search_l Mp Mc ls'
  end.
Fixpoint search_p (n : nat) (M_list : seq pattern) (Mc : pattern) (Mps : seq pattern) :
    res (option (pattern * nat)) :=
  match Mps with
  | [::] => Ok None
  | Mp :: Mps' =>
    if Mp \in M_list then search_p n M_list Mc Mps'
    else
      do r <- search_l Mp Mc (iota 0 (n - 1));
      if r is Some l then Ok (Some (Mp, l)) else search_p n M_list Mc Mps'
  end.
Fixpoint search_c (n : nat) (M_list Ms : seq pattern) (Mcs : seq pattern) :
    res (pattern * pattern * nat) :=
  match Mcs with
  | [::] => Err ValueError
  | Mc :: Mcs' =>
    do r <- search_p n M_list Mc Ms;
    if r is Some (Mp, l) then Ok (Mc, Mp, l) else search_c n M_list Ms Mcs'
  end.
Definition search_state (M_list : seq pattern) : res (pattern * pattern * nat) :=
  if M_list is M0 :: _ then
    if M0 is S3 :: _ then do Ms <- S_to_Ms S3; search_c (size M0) M_list Ms M_list
    else Err IndexError
  else Err IndexError.

(** construct_lower_cg (sun.py:324-355).  The entry CG[n1, n2] is the sum, over m1 and m2, of
    what the loops add to it.  A zero norm, for which numpy returns nan, is an error here. *)
Definition lower_cg (S1 S2 S3 : weight) (Mp Mc : pattern) (l alpha : nat) (A : nd) : res nd :=
  do z1 <- dimS S1; do z2 <- dimS S2;
  let d1 := `|z1|%N in let d2 := `|z2|%N in
  do mc <- idxM Mc; do mp <- idxM Mp;
  do CG <- tabR [:: d1; d2] (fun idx =>
    let n1 := nth 0%N idx 0 in let n2 := nth 0%N idx 1 in
    do ts <- mapR (fun m : nat * nat =>
        do a <- if n2 == m.2 then
                  do N <- patM S1 n1; do M <- patM S1 m.1; do x <- lower_ladder C l N M;
                  do N <- patM S3 mc; do M <- patM S3 mp; do y <- upper_ladder C l N M;
                  Ok (get A [:: alpha; m.1; m.2; mc] * x * y)
                else Ok 0;
        do b <- if n1 == m.1 then
                  do N <- patM S2 n2; do M <- patM S2 m.2; do x <- lower_ladder C l N M;
                  do N <- patM S3 mc; do M <- patM S3 mp; do y <- upper_ladder C l N M;
                  Ok (get A [:: alpha; m.1; m.2; mc] * x * y)
                else Ok 0;
        Ok (a + b)) [seq (m1, m2) | m1 <- iota 0 d1, m2 <- iota 0 d2];
    Ok (\sum_(t <- ts) t));
  let nrm := sqrtC (\sum_(i < d1) \sum_(j < d2) `|get CG [:: i : nat; j : nat]| ^+ 2) in
  if nrm == 0 then Err ValueError else Ok (scale nrm^-1 CG).

(** clebsch_gordan_matrix (sun.py:358-378).  The while loop appends one pattern at each turn;
    [fuel] is the number of turns left.  M_list is not reset between the values of alpha. *)
Definition set_col (A : nd) (alpha mp : nat) (X : nd) : nd :=
  Nd (shape A) (fun idx => if (nth 0%N idx 0 == alpha) && (nth 0%N idx 3 == mp)
                           then get X [:: nth 0%N idx 1; nth 0%N idx 2] else get A idx).
Fixpoint cg_while (fuel : nat) (S1 S2 S3 : weight) (alpha d3 : nat) (A : nd) (M_list : seq pattern) :
    res (nd * seq pattern) :=
  if size M_list == d3 then Ok (A, M_list)
  else match fuel with
  | 0%N => Err OutOfFuel
  | fuel'.+1 =>
    do s <- search_state M_list;
    let: (Mc, Mp, l) := s in
    do mp <- idxM Mp;
    do X <- lower_cg S1 S2 S3 Mp Mc l alpha A;
    cg_while fuel' S1 S2 S3 alpha d3 (set_col A alpha mp X) (rcons M_list Mp)
  end.
Definition sun_cg (S1 S2 S3 : weight) : res nd :=
  do z1 <- dimS S1; do z2 <- dimS S2; do z3 <- dimS S3;
  let d1 := `|z1|%N in let d2 := `|z2|%N in let d3 := `|z3|%N in
  do Ms <- S_to_Ms S3;
  if Ms is [::] then Err IndexError
  else
    let Me := last [::] Ms in
    do E <- cg_eldest S1 S2 Me;
    let k := len E in
    let A := Nd [:: k; d1; d2; d3] (fun idx =>
      if (nth 0%N idx 3 == d3 - 1)%N then get E [:: nth 0%N idx 0; nth 0%N idx 1; nth 0%N idx 2] else 0) in
    do r <- foldR (fun (s : nd * seq pattern) alpha => cg_while d3 S1 S2 S3 alpha d3 s.1 s.2)
              (A, [:: Me]) (iota 0 k);
    Ok r.1.
End Cg.
