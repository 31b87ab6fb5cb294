(** Ratio: model of the rational-rounding functions of lie_nn/_src/util.py
    (lines 22-93).  numpy int64 arrays are lists of integers in row-major order;
    [Z.div] is the floor division of [//], with x // 0 = 0 as in numpy.  The exact
    model ([Z]) and the 64-bit wrap-around model are both given.  Doubles are
    exact rationals N / D with D > 0 (no rounding of float operations). *)
From Coq Require Import ZArith Lia List Bool.
Import ListNotations.
From Verif Require Import Base.
Local Open Scope Z_scope.

(** util.py:22-25. *)
Definition normalize_integer_ratio (n d : Z) : Z * Z :=
  let g := Z.gcd n d in
  let g := if d <? 0 then - g else g in
  (n / g, d / g).

(** The state of one array element in the loop of limit_denominator. *)
Record ld_state := LD { p0 : Z; q0 : Z; p1 : Z; q1 : Z; nn : Z; dd : Z }.
Definition ld_init (n d : Z) : ld_state := LD 0 1 1 0 n d.
(** Lines 64-66: a, q2 and the stopping condition. *)
Definition ld_a (s : ld_state) : Z := nn s / dd s.
Definition ld_q2 (s : ld_state) : Z := q0 s + ld_a s * q1 s.
Definition ld_stop (m d0 : Z) (s : ld_state) : bool := (m <? ld_q2 s) || (d0 <=? m).
(** Lines 69-70: [np.where(stop, old, new)]. *)
Definition ld_next (m d0 : Z) (s : ld_state) : ld_state :=
  if ld_stop m d0 s then s else
  LD (p1 s) (q1 s) (p0 s + ld_a s * p1 s) (ld_q2 s) (dd s) (nn s - ld_a s * dd s).
(** Lines 72-83. *)
Definition ld_final (m n0 d0 : Z) (s : ld_state) : Z * Z :=
  let k := (m - q0 s) / q1 s in
  let n1 := p0 s + k * p1 s in let d1 := q0 s + k * q1 s in
  let n2 := p1 s in let d2 := q1 s in
  let mask := Z.abs (d1 * (n2 * d0 - n0 * d2)) <=? Z.abs (d2 * (n1 * d0 - n0 * d1)) in
  if d0 <? m then (n0, d0) else if mask then (n2, d2) else (n1, d1).

(** Lines 58-83 on arrays: one common [while True] loop; [nds] lists the pairs (n, d). *)
Fixpoint ld_loop (fuel : nat) (m : Z) (st : list (Z * ld_state)) : res (list (Z * ld_state)) :=
  match fuel with
  | O => Err OutOfFuel
  | S f =>
    if forallb (fun s => ld_stop m (fst s) (snd s)) st then Ok st
    else ld_loop f m (map (fun s => (fst s, ld_next m (fst s) (snd s))) st)
  end.
Definition limit_denominator (fuel : nat) (nds : list (Z * Z)) (m : Z) : res (list (Z * Z)) :=
  rbind (ld_loop fuel m (map (fun nd => (snd nd, ld_init (fst nd) (snd nd))) nds))
    (fun st => Ok (map (fun nds => ld_final m (fst (fst nds)) (snd (fst nds)) (snd (snd nds)))
                       (combine nds st))).

(** The same on one element (a 0-dimensional array). *)
Fixpoint ld_loop1 (fuel : nat) (m d0 : Z) (s : ld_state) : res ld_state :=
  match fuel with
  | O => Err OutOfFuel
  | S f => if ld_stop m d0 s then Ok s else ld_loop1 f m d0 (ld_next m d0 s)
  end.
Definition limit_denominator1 (fuel : nat) (n d m : Z) : res (Z * Z) :=
  rbind (ld_loop1 fuel m d (ld_init n d)) (fun s => Ok (ld_final m n d s)).

(** 64-bit two's complement wrap-around. *)
Definition wrap (x : Z) : Z := (x + 2 ^ 63) mod 2 ^ 64 - 2 ^ 63.
Definition wadd x y := wrap (x + y).
Definition wsub x y := wrap (x - y).
Definition wmul x y := wrap (x * y).
Definition wdiv x y := wrap (x / y).
Definition wabs x := wrap (Z.abs x).

(** limit_denominator with every integer operation in int64. *)
Definition w_a (s : ld_state) : Z := wdiv (nn s) (dd s).
Definition w_q2 (s : ld_state) : Z := wadd (q0 s) (wmul (w_a s) (q1 s)).
Definition w_stop (m d0 : Z) (s : ld_state) : bool := (m <? w_q2 s) || (d0 <=? m).
Definition w_next (m d0 : Z) (s : ld_state) : ld_state :=
  if w_stop m d0 s then s else
  LD (p1 s) (q1 s) (wadd (p0 s) (wmul (w_a s) (p1 s))) (w_q2 s) (dd s) (wsub (nn s) (wmul (w_a s) (dd s))).
Definition w_final (m n0 d0 : Z) (s : ld_state) : Z * Z :=
  let k := wdiv (wsub m (q0 s)) (q1 s) in
  let n1 := wadd (p0 s) (wmul k (p1 s)) in let d1 := wadd (q0 s) (wmul k (q1 s)) in
  let n2 := p1 s in let d2 := q1 s in
  let mask := wabs (wmul d1 (wsub (wmul n2 d0) (wmul n0 d2)))
              <=? wabs (wmul d2 (wsub (wmul n1 d0) (wmul n0 d1))) in
  if d0 <? m then (n0, d0) else if mask then (n2, d2) else (n1, d1).
Fixpoint w_loop1 (fuel : nat) (m d0 : Z) (s : ld_state) : res ld_state :=
  match fuel with
  | O => Err OutOfFuel
  | S f => if w_stop m d0 s then Ok s else w_loop1 f m d0 (w_next m d0 s)
  end.
Definition w_limit_denominator1 (fuel : nat) (n d m : Z) : res (Z * Z) :=
  rbind (w_loop1 fuel m d (ld_init n d)) (fun s => Ok (w_final m n d s)).

(** [np.round(a / b)] for b > 0: nearest integer, ties to even. *)
Definition round_div (a b : Z) : Z :=
  let q := a / b in let r := a mod b in
  if 2 * r <? b then q else if b <? 2 * r then q + 1 else if Z.even q then q else q + 1.

(** util.py:28-37, for x = N/D; [big = 1 << 52 - 1] is 2**51.  Multiplying a double by a
    power of two and taking the floor are exact; the division n / x rounds: [fdiv a b]
    is the double returned for a / b, as a fraction. *)
Section FloatDivision.
Variable fdiv : Z -> Z -> Z * Z.
Definition big : Z := Z.shiftl 1 (52 - 1).
Definition as_approx_integer_ratio_pos (N D : Z) : res (Z * Z) :=
  rbind (passert (0 <? N)) (fun _ => rbind (passert (N <=? D)) (fun _ =>
  let n := (N * big) / D in
  let q := fdiv (n * D) N in
  let d := round_div (fst q) (snd q) in
  Ok (n, if d =? 0 then 1 else d))).

(** util.py:40-55 for one element x = N/D (D > 0). Both branches of np.where are evaluated. *)
Definition as_approx_integer_ratio (N D : Z) : res (Z * Z) :=
  let s := Z.sgn N in
  let N := Z.abs N in
  let (xn, xd) := if N =? 0 then (1, 1) else (N, D) in
  let a := if xn <=? xd then (xn, xd) else (1, 1) in
  let (yn, yd) := fdiv xd xn in
  let b := if yn <=? yd then (yn, yd) else (1, 1) in
  rbind (as_approx_integer_ratio_pos (fst a) (snd a)) (fun r1 =>
  rbind (as_approx_integer_ratio_pos (fst b) (snd b)) (fun r2 =>
  let (n, d) := if N <=? D then r1 else (snd r2, fst r2) in
  let n := if N =? 0 then 0 else n in
  let d := if N =? 0 then 1 else d in
  rbind (passert (0 <? d)) (fun _ =>
  Ok (normalize_integer_ratio (s * n) d)))).

(** util.py:86-90: the rounded square; the result is sign(x) * sqrt(n / d), represented
    by (sign, n, d); the argument is given by its sign and the double x**2 = N2/D2.
    The final floating-point square root is not modelled. *)
Definition round_to_sqrt_rational1 (fuel : nat) (sgn N2 D2 max_denominator : Z) : res (Z * Z * Z) :=
  rbind (as_approx_integer_ratio N2 D2) (fun nd =>
  rbind (limit_denominator1 fuel (fst nd) (snd nd) (max_denominator * max_denominator + 1)) (fun r =>
  Ok (sgn, fst r, snd r))).
End FloatDivision.
