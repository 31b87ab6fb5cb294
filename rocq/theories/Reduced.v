(** Reduced: model of reduced_rep.py, of the specialised overloads of
    change_basis.py and tensor_product.py, and of TabulatedIrrep arguments.

    A tabulated irrep is a label of some type I together with the arrays
    [rep_of] of its generators, its dimension [dim_of] (a formula in the code),
    the selection rule [mul_of] (irrep.__mul__, a list) and the Clebsch-Gordan
    arrays [cg_of].  The record packages what the overloads use; the classes of
    irreps/ are instances.  With I = rep C and rep_of = id one gets a MulIrrep or
    ReducedRep over generic representations (without tensor products). *)
From Coq Require Import ZArith String Ascii.
From mathcomp Require Import all_ssreflect all_algebra.
From Verif Require Import Base Nd Reps.

Set Implicit Arguments.
Unset Strict Implicit.
Unset Printing Implicit Defensive.

Import GRing.Theory Num.Theory.
Local Open Scope ring_scope.
Local Open Scope string_scope.

Section Reduced.
Variable C : numClosedFieldType.

(** irrep.py:9-46. *)
Record irreps := Irreps {
  label : Type;
  rep_of : label -> rep C;
  dim_of : label -> nat;
  mul_of : label -> label -> seq label;
  cg_of : label -> label -> label -> nd C }.
Variable G : irreps.

(** reduced_rep.py:11-14; mul is a non-negative integer (range(mul) of a
    negative one is empty, as for 0). *)
Record mulirrep := MulIrrep { m_mul : nat; m_rep : label G }.

(** reduced_rep.py:24-26. *)
Definition mul_dim (m : mulirrep) : nat := (m_mul m * dim_of (m_rep m))%N.
(** reduced_rep.py:28-29. *)
Definition mul_A (m : mulirrep) : nd C := rA (rep_of (m_rep m)).
(** reduced_rep.py:31-41: a stack of mul-fold block sums. *)
Definition mul_stack (m : mulirrep) (X : nd C) : res (nd C) :=
  do l <- len0 X;
  if l == 0%N then Ok (zeros [:: 0%N; mul_dim m; mul_dim m])
  else do xs <- mapR (fun x => direct_sum_l (nseq (m_mul m) x)) (rows X); stack xs.
Definition mul_X (m : mulirrep) : res (nd C) := mul_stack m (rX (rep_of (m_rep m))).
Definition mul_H (m : mulirrep) : res (nd C) := mul_stack m (rH (rep_of (m_rep m))).
(** The three arrays, in the order A, X, H. *)
Definition mul_rep (m : mulirrep) : res (rep C) :=
  do X <- mul_X m; do H <- mul_H m; Ok (MkRep (mul_A m) X H).

(** reduced_rep.py:50-63. *)
Record reducedrep := ReducedRep { r_A : nd C; r_irreps : seq mulirrep; r_Q : option (nd C) }.

(** reduced_rep.py:72-103: from_irreps with MulIrrep arguments (integers and pairs
    are turned into MulIrreps first); A is None when the list is empty, which is
    not modelled: the result is an error here. *)
Definition from_irreps (l : seq mulirrep) (Q : option (nd C)) : res reducedrep :=
  match l with
  | [::] => Err TypeError
  | m :: _ =>
    do _ <- foldR (fun _ m' => assert_r (close_ (mul_A m) (mul_A m'))) tt (behead l);
    let d := sumn (map mul_dim l) in
    do _ <- passert (if Q is Some q then shape q == [:: d; d] else true);
    Ok (ReducedRep (mul_A m) l Q)
  end.

(** reduced_rep.py:105-107. *)
Definition red_dim (r : reducedrep) : nat := sumn (map mul_dim (r_irreps r)).
(** rep.py:13-20 on the stored algebra. *)
Definition red_lie_dim (r : reducedrep) : res nat :=
  match shape (r_A r) with
  | [::] => Err IndexError
  | d :: _ => do _ <- passert (shape (r_A r) == [:: d; d; d]); Ok d
  end.
(** a[i] along the first axis. *)
Definition index0 (a : nd C) (i : nat) : res (nd C) :=
  do l <- len0 a; if (i < l)%N then Ok (slice0 a i) else Err IndexError.
(** reduced_rep.py:112-119 and 121-132: the loop body. *)
Definition red_gen (r : reducedrep) (gens : mulirrep -> res (nd C)) (i : nat) : res (nd C) :=
  do xs <- mapR (fun m => do a <- gens m; index0 a i) (r_irreps r);
  do X <- direct_sum_l xs;
  match r_Q r with
  | None => Ok X
  | Some Q => do iQ <- np_inv Q; do a <- matmul Q X; matmul a iQ
  end.
Definition red_X (r : reducedrep) : res (nd C) :=
  do l <- red_lie_dim r;
  do xs <- mapR (red_gen r mul_X) (iota 0 l); stack xs.
Definition red_H (r : reducedrep) : res (nd C) :=
  match r_irreps r with
  | [::] => Err IndexError
  | m :: _ =>
    do H <- mul_H m; do n <- len0 H;
    if n == 0%N then Ok (zeros [:: 0%N; red_dim r; red_dim r])
    else do xs <- mapR (red_gen r mul_H) (iota 0 n); stack xs
  end.
Definition red_rep (r : reducedrep) : res (rep C) :=
  do X <- red_X r; do H <- red_H r; Ok (MkRep (r_A r) X H).

(** ** change_basis.py:30-52 *)
Definition change_basis_reduced (r : reducedrep) (Q : nd C) : res reducedrep :=
  do Q' <- (match r_Q r with None => Ok Q | Some q => matmul Q q end);
  Ok (ReducedRep (r_A r) (r_irreps r) (Some Q')).
Definition change_basis_mul (m : mulirrep) (Q : nd C) : reducedrep := ReducedRep (mul_A m) [:: m] (Some Q).
Definition change_basis_irrep (i : label G) (Q : nd C) : reducedrep := change_basis_mul (MulIrrep 1 i) Q.

(** ** tensor_product.py *)
(** np.moveaxis(C, 3, 1) on a 4-dimensional array, and the reshape to a matrix
    (tensor_product.py:33-35). *)
Definition moveaxis31 (a : nd C) : res (nd C) :=
  match shape a with
  | [:: z; i; j; k] => Ok (Nd [:: z; k; i; j] (fun idx =>
      get a [:: nth 0%N idx 0; nth 0%N idx 2; nth 0%N idx 3; nth 0%N idx 1]))
  | _ => Err ValueError
  end.
(** np.concatenate(l, axis=0). *)
Fixpoint concat0 (l : seq (nd C)) : res (nd C) :=
  match l with
  | [::] => Err ValueError
  | [:: a] => Ok a
  | a :: l' => do b <- concat0 l'; concat2 a b
  end.
(** tensor_product.py:28-41; lie.clebsch_gordan of tabulated irreps is their cg. *)
Definition tp_block (i1 i2 i3 : label G) : res (nat * nd C) :=
  do cg <- moveaxis31 (cg_of i1 i2 i3);
  match shape cg with
  | [:: z; k; i; j] => do m <- reshape cg [:: (z * k)%N; (i * j)%N]; Ok (z, m)
  | _ => Err ValueError
  end.
Definition tp_irreps (i1 i2 : label G) : res reducedrep :=
  do _ <- assert_r (close_ (rA (rep_of i1)) (rA (rep_of i2)));
  let outs := mul_of i1 i2 in
  do bs <- mapR (tp_block i1 i2) outs;
  do CG <- concat0 [seq b.2 | b <- bs];
  do Q <- np_inv CG;
  Ok (ReducedRep (rA (rep_of i1)) [seq MulIrrep p.1.1 p.2 | p <- zip bs outs] (Some Q)).

(** Q[:, s : s + n] of a matrix. *)
Definition cols (Q : nd C) (s n : nat) : nd C :=
  match shape Q with
  | [:: r; c] => Nd [:: r; minn n (c - s)]
      (fun idx => get Q [:: nth 0%N idx 0; (s + nth 0%N idx 1)%N])
  | _ => Q
  end.
(** np.concatenate(l, axis=-1) of matrices. *)
Definition hconcat2 (a b : nd C) : res (nd C) :=
  match shape a, shape b with
  | [:: r; c], [:: r'; c'] =>
    if r == r' then Ok (Nd [:: r; (c + c')%N] (fun idx =>
      let i := nth 0%N idx 0 in let j := nth 0%N idx 1 in
      if (j < c)%N then get a [:: i; j] else get b [:: i; (j - c)%N]))
    else Err ValueError
  | _, _ => Err ValueError
  end.
Fixpoint hconcat (l : seq (nd C)) : res (nd C) :=
  match l with
  | [::] => Err ValueError
  | [:: a] => Ok a
  | a :: l' => do b <- hconcat l'; hconcat2 a b
  end.
(** tensor_product.py:44-70.  The loop body, for the block of columns that
    starts at s. *)
Definition tp_mul_block (m1 m2 : mulirrep) (Q : nd C) (s : nat) (m : mulirrep) : res (nd C) :=
  do q <- reshape (cols Q s (mul_dim m)) [:: dim_of (m_rep m1); dim_of (m_rep m2); m_mul m; dim_of (m_rep m)];
  do q <- einsum3 "ijsk" "ur" "vt" "uivjrtsk" q (eye (m_mul m1)) (eye (m_mul m2));
  match shape q with
  | [:: a; b; c; d; e; f; g; h] => reshape q [:: (a * b * c * d)%N; (e * f * g * h)%N]
  | _ => Err ValueError
  end.
Fixpoint tp_mul_loop (m1 m2 : mulirrep) (Q : nd C) (s : nat) (ms : seq mulirrep) : res (seq (nd C)) :=
  match ms with
  | [::] => Ok [::]
  | m :: ms' =>
    do q <- tp_mul_block m1 m2 Q s m;
    do qs <- tp_mul_loop m1 m2 Q (s + mul_dim m) ms'; Ok (q :: qs)
  end.
Definition tp_mul (m1 m2 : mulirrep) : res reducedrep :=
  do _ <- assert_r (close_ (mul_A m1) (mul_A m2));
  do tp <- tp_irreps (m_rep m1) (m_rep m2);
  match r_Q tp with
  | None => Err TypeError
  | Some Q =>
    do qs <- tp_mul_loop m1 m2 Q 0 (r_irreps tp);
    do Q' <- hconcat qs;
    Ok (ReducedRep (mul_A m1) [seq MulIrrep (m_mul m1 * m_mul m2 * m_mul m)%N (m_rep m) | m <- r_irreps tp] (Some Q'))
  end.

(** tensor_product.py:73-104. *)
Definition q_or_eye (r : reducedrep) : nd C := if r_Q r is Some q then q else eye (red_dim r).
Record tp_state := TpState { s_irr : seq mulirrep; s_Q : nd C; s_k : nat; s_j : nat }.
Definition tp_inner (i : nat) (m1 : mulirrep) (st : tp_state) (m2 : mulirrep) : res tp_state :=
  do r <- tp_mul m1 m2;
  match r_Q r with
  | None => Err AttributeError
  | Some rq =>
    do q <- reshape rq [:: mul_dim m1; mul_dim m2; red_dim r];
    Ok (TpState (s_irr st ++ r_irreps r) (assign_block (s_Q st) [:: i; s_j st; s_k st] q)
          (s_k st + red_dim r)%N (s_j st + mul_dim m2)%N)
  end.
(** The state of the outer loop carries i in the place of j. *)
Definition tp_outer (r2 : reducedrep) (st : tp_state) (m1 : mulirrep) : res tp_state :=
  do st' <- foldR (tp_inner (s_j st) m1) (TpState (s_irr st) (s_Q st) (s_k st) 0) (r_irreps r2);
  Ok (TpState (s_irr st') (s_Q st') (s_k st') (s_j st + mul_dim m1)%N).
(** Q.imag, Q.real. *)
Definition nd_imag (a : nd C) : nd C := Nd (shape a) (fun idx => 'Im (get a idx)).
Definition nd_real (a : nd C) : nd C := Nd (shape a) (fun idx => 'Re (get a idx)).
Definition zero0 : nd C := zeros [::].
Definition tp_reduced (r1 r2 : reducedrep) : res reducedrep :=
  let d1 := red_dim r1 in let d2 := red_dim r2 in
  do t <- einsum2 "ij" "kl" "ikjl" (q_or_eye r1) (q_or_eye r2);
  do Qtp <- reshape t [:: (d1 * d2)%N; (d1 * d2)%N];
  do st <- foldR (tp_outer r2) (TpState [::] (zeros [:: d1; d2; (d1 * d2)%N]) 0 0) (r_irreps r1);
  do _ <- passert (s_k st == (d1 * d2)%N);
  do Q <- reshape (s_Q st) [:: (d1 * d2)%N; (d1 * d2)%N];
  do Q <- matmul Qtp Q;
  do re <- close_ (nd_imag Q) zero0;
  let Q := if re then nd_real Q else Q in
  do id <- close_ Q (eye (d1 * d2));
  Ok (ReducedRep (r_A r1) (s_irr st) (if id then None else Some Q)).

(** tensor_product.py:107-137: the overloads that wrap an argument. *)
Definition red_of_mul (m : mulirrep) : reducedrep := ReducedRep (mul_A m) [:: m] None.
Definition tp_mul_irrep (m1 : mulirrep) (i2 : label G) := tp_mul m1 (MulIrrep 1 i2).
Definition tp_irrep_mul (i1 : label G) (m2 : mulirrep) := tp_mul (MulIrrep 1 i1) m2.
Definition tp_mul_red (m1 : mulirrep) (r2 : reducedrep) := tp_reduced (red_of_mul m1) r2.
(** The two arguments are swapped, as in the code (117-119). *)
Definition tp_red_mul (r1 : reducedrep) (m2 : mulirrep) := tp_reduced (red_of_mul m2) r1.
Definition tp_red_irrep (r1 : reducedrep) (i2 : label G) := tp_red_mul r1 (MulIrrep 1 i2).
Definition tp_irrep_red (i1 : label G) (r2 : reducedrep) := tp_mul_red (MulIrrep 1 i1) r2.
End Reduced.
