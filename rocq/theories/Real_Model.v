(** Model of Ariadne's computable real numbers: numeric/real.cpp, real.hpp, accuracy.hpp,
    twoexp.hpp and the parts of dyadic.hpp they use.

    Simplifications.
    - Dyadic arithmetic is exact: the truncation to 65535 bits of class Dyadic (property C67)
      is left out here.
    - [Nat] counters (efforts, bits) are unbounded, except in [xor_two], where the size of the
      type matters.
    - The floating-point bounds FloatDPBounds and FloatMPBounds are abstract types with the
      operations in [arith]; their rounding is the subject of the properties about floats.
    - Caching the double-precision value in the constructor is modelled by computing it again. *)
From Coq Require Import ZArith NArith QArith List Bool Arith.
From Verif Require Import Exact_Model Logical_Model.
Import ListNotations.
Local Open Scope Z_scope.

(** ** Dyadic numbers without truncation, dyadic.cpp:71-94 *)
Definition w_ops : finite_ops dyadic_fin := {|
  f_sgn := fun a => sgn_z (mant a);
  f_zero := mkD 0 0; f_one := mkD 1 0;
  f_neg := d_negx;
  f_hlf := fun a => mkD (mant a) (expo a - 1);
  f_abs := fun a => mkD (Z.abs (mant a)) (expo a);
  f_sqr := fun a => d_mulx a a;
  f_add := d_addx;
  f_sub := fun a b => d_addx a (d_negx b);
  f_mul := d_mulx;
  f_rec := fun _ => None; f_div := fun _ _ => None;
  f_pow := fun a m => mkD (mant a ^ Z.of_N m) (expo a * Z.of_N m);
  f_cmp := d_cmpx;
  f_eq := fun a b => match d_cmpx a b with Eq => true | _ => false end
|}.
Definition w_add := x_add w_ops. Definition w_sub := x_sub w_ops. Definition w_hlf := x_hlf w_ops.
Definition w_min := x_min w_ops. Definition w_max := x_max w_ops.
(** Comparisons, dyadic.cpp:404-410 and dyadic.hpp:148-153. *)
Definition w_lt (x y : dyadic) : bool := x_cmp w_ops x y =? cmp_LESS.
Definition w_eq (x y : dyadic) : bool := x_cmp w_ops x y =? cmp_EQUAL.
Definition w_gt (x y : dyadic) : bool := w_lt y x.
Definition w_le (x y : dyadic) : bool := negb (w_lt y x).
Definition w_ge (x y : dyadic) : bool := negb (w_lt x y).

Definition w_zero : dyadic := Fin (mkD 0 0).
(** Dyadic(two^(-n)), twoexp.hpp:75-76: 2 to the power -n. *)
Definition two_pow_minus (n : nat) : dyadic := Fin (mkD 1 (- Z.of_nat n)).

(** ** Bounds<Dyadic>, dyadic.hpp:269-344 *)
(** [pm], dyadic.hpp:280. *)
Definition db_pm (b : dbounds) (e : dyadic) : dbounds := mkDB (w_sub (d_l b) e) (w_add (d_u b) e).
(** [coarsening], dyadic.hpp:341-342. *)
Definition db_coarsening (a b : dbounds) : dbounds := mkDB (w_min (d_l a) (d_l b)) (w_max (d_u a) (d_u b)).
(** [sgn] and the comparisons, dyadic.hpp:319-332. *)
Definition db_sgn (w : dbounds) : lv :=
  if w_gt (d_l w) w_zero then TRUE else if w_lt (d_u w) w_zero then FALSE else INDET.
Definition db_eq (w1 w2 : dbounds) : lv :=
  if w_ge (d_l w1) (d_u w2) && w_le (d_u w1) (d_l w2) then TRUE
  else if w_lt (d_u w1) (d_l w2) || w_gt (d_l w1) (d_u w2) then FALSE else INDET.
Definition db_ne (w1 w2 : dbounds) : lv :=
  if w_lt (d_u w1) (d_l w2) || w_gt (d_l w1) (d_u w2) then TRUE
  else if w_ge (d_l w1) (d_u w2) && w_le (d_u w1) (d_l w2) then FALSE else INDET.
Definition db_le (w1 w2 : dbounds) : lv :=
  if w_le (d_u w1) (d_l w2) then TRUE else if w_gt (d_l w1) (d_u w2) then FALSE else INDET.
Definition db_ge (w1 w2 : dbounds) : lv :=
  if w_ge (d_l w1) (d_u w2) then TRUE else if w_lt (d_u w1) (d_l w2) then FALSE else INDET.
Definition db_lt (w1 w2 : dbounds) : lv :=
  if w_lt (d_u w1) (d_l w2) then TRUE else if w_ge (d_l w1) (d_u w2) then FALSE else INDET.
Definition db_gt (w1 w2 : dbounds) : lv :=
  if w_gt (d_l w1) (d_u w2) then TRUE else if w_le (d_u w1) (d_l w2) then FALSE else INDET.

(** ** The operations of a real expression, real.cpp:271-295 *)
Inductive unop := Pos | Neg | Hlf | Sqr | Rec | Sqrt | Exp | Log | Sin | Cos | Tan | Asin | Acos | Atan | Abs.
Inductive binop := Add | Sub | Mul | Div | Max | Min.

(** The operations of FloatDPBounds, or of FloatMPBounds of a given precision, that are used
    by class Real: bounds for a constant (real.cpp:157-158); from and to bounds with dyadic end
    points (real.cpp:66-67, 120-121); the operations; powers. *)
Record arith (K B : Type) := {
  a_cnst : K -> B;
  a_of_d : dbounds -> B;
  a_to_d : B -> dbounds;
  a_un : unop -> B -> B;
  a_bin : binop -> B -> B -> B;
  a_pow : B -> Z -> B
}.
Arguments a_cnst {K B}. Arguments a_of_d {K B}. Arguments a_to_d {K B}. Arguments a_un {K B}.
Arguments a_bin {K B}. Arguments a_pow {K B}.

(** The expression [+two^(-n)] in real.cpp:192 and 194, for [Nat n].  Unary [+] binds more
    tightly than [^].  Class Two (twoexp.hpp:71-80) has no unary [+] of its own (that of TwoExp
    is a friend of TwoExp, which argument-dependent lookup does not find for a Two), so [+two]
    is the built-in operator applied to the conversion of [two] to [uint], and [^] is the
    built-in exclusive or of the unsigned 32-bit numbers 2 and -n.  The value 0 for n = 2^32-2
    is left out: for this and for the larger numbers (which a Nat cannot hold) the model has
    2^32. *)
Definition xor_two (n : nat) : Z :=
  if Z.of_nat n <? 2 ^ 32 - 2 then Z.lxor 2 (2 ^ 32 - Z.of_nat n) else 2 ^ 32.

Section Real.
  (** [K]: exact constants (Integer, Dyadic, Decimal, Rational, ExactDouble); [D]: FloatDPBounds;
      [M]: FloatMPBounds. *)
  Context {K D M : Type}.
  Context (AD : arith K D) (AM : nat -> arith K M).

  (** The implementations of RealInterface: RealWrapper<Cnst,X> (real.cpp:153-160),
      RealWrapper<O,A> (129-135), RealWrapper<O,A1,A2> (137-143), RealWrapper<Pow,A,N>
      (145-151), RealLimit<Real> (185-197), RealLimit<Dyadic> (199-211), RealLimit<DyadicBounds>
      (213-225) and WhenRealExpression (303-338).  A condition of [when] is given by
      [possibly(check(eff))] for every effort. *)
  Inductive real :=
  | RCnst (c : K)
  | RUn (o : unop) (a : real)
  | RBin (o : binop) (a1 a2 : real)
  | RPow (a : real) (n : Z)
  | RLimR (s : nat -> real)
  | RLimD (s : nat -> dyadic)
  | RLimB (s : nat -> dbounds)
  | RWhen (p1 : nat -> bool) (r1 : real) (p2 : nat -> bool) (r2 : real).

  (** The three virtual functions [_compute_get(eff)], [_compute_get(eff,dp)] and
      [_compute_get(eff,MultiplePrecision(p))]; [None]: the assertion of [when] fails. *)
  Record impl := mkImpl {
    i_d : nat -> option dbounds;
    i_dp : nat -> option D;
    i_mp : nat -> nat -> option M
  }.

  Definition opt2 {A B C} (f : A -> B -> C) (x : option A) (y : option B) : option C :=
    match x, y with Some a, Some b => Some (f a b) | _, _ => None end.

  (** RealExpressionBase::_compute_get(eff), real.cpp:116-125. *)
  Definition PRECISION_PER_UNIT_EFFORT : nat := 16.
  Definition expression (dp : nat -> option D) (mp : nat -> nat -> option M) : impl :=
    mkImpl
      (fun e => if Nat.leb (e * PRECISION_PER_UNIT_EFFORT) 52
                then option_map (a_to_d AD) (dp e)
                else let p := (e * PRECISION_PER_UNIT_EFFORT)%nat in option_map (a_to_d (AM p)) (mp e p))
      dp mp.
  (** RealWrapperBase, real.cpp:108-112, and the limits of dyadics and of bounds,
      real.cpp:205-208, 219-222: the float bounds come from the dyadic ones. *)
  Definition wrapper (d : nat -> option dbounds) : impl :=
    mkImpl d (fun e => option_map (a_of_d AD) (d e)) (fun e p => option_map (a_of_d (AM p)) (d e)).

  (** WhenRealExpression::_compute_get, real.cpp:319-337; the loop is left in its first turn. *)
  Definition when_d (p1 : nat -> bool) (r1 : nat -> option dbounds) (p2 : nat -> bool) (r2 : nat -> option dbounds)
      (e : nat) : option dbounds :=
    if negb (p1 e || p2 e) then None
    else if negb (p1 e) then r2 e
    else if negb (p2 e) then r1 e
    else opt2 db_coarsening (r1 e) (r2 e).

  (** FloatDPBounds(-(two^(-n)),+two^(-n),pr), real.cpp:192, 194. *)
  Definition limit_bounds (n : nat) : dbounds :=
    mkDB (Fin (mkD (-1) (- Z.of_nat n))) (Fin (mkD (xor_two n) 0)).

  Fixpoint compile (r : real) : impl :=
    match r with
    | RCnst c => expression (fun _ => Some (a_cnst AD c)) (fun _ p => Some (a_cnst (AM p) c))
    | RUn o a =>
        let i := compile a in
        expression (fun _ => option_map (a_un AD o) (i_dp i 0)) (fun _ p => option_map (a_un (AM p) o) (i_mp i p p))
    | RBin o a1 a2 =>
        let i1 := compile a1 in let i2 := compile a2 in
        expression (fun _ => opt2 (a_bin AD o) (i_dp i1 0) (i_dp i2 0))
          (fun e p => opt2 (a_bin (AM p) o) (i_mp i1 e p) (i_mp i2 e p))
    | RPow a n =>
        let i := compile a in
        expression (fun _ => option_map (fun x => a_pow AD x n) (i_dp i 0))
          (fun e p => option_map (fun x => a_pow (AM p) x n) (i_mp i e p))
    | RLimR s =>
        mkImpl
          (fun e => let n := (e + 1)%nat in option_map (fun b => db_pm b (two_pow_minus n)) (i_d (compile (s n)) e))
          (fun e => let n := (e + 1)%nat in
             option_map (fun x => a_bin AD Add x (a_of_d AD (limit_bounds n))) (i_dp (compile (s n)) e))
          (fun e p => let n := (e + 1)%nat in
             option_map (fun x => a_bin (AM p) Add x (a_of_d (AM p) (limit_bounds n))) (i_mp (compile (s n)) e p))
    | RLimD s =>
        wrapper (fun e => let n := (e + 1)%nat in
                   Some (mkDB (w_sub (s n) (two_pow_minus n)) (w_add (s n) (two_pow_minus n))))
    | RLimB s => wrapper (fun e => Some (s e))
    | RWhen p1 r1 p2 r2 =>
        let d := when_d p1 (i_d (compile r1)) p2 (i_d (compile r2)) in
        mkImpl d (fun _ => option_map (a_of_d AD) (d 0%nat)) (fun _ p => option_map (a_of_d (AM p)) (d p))
    end.

  (** Real::compute_get(Effort) and compute(Effort), real.cpp:452, 472-474, 91-93. *)
  Definition compute (r : real) (e : nat) : option dbounds := i_d (compile r) e.
  (** Real::compute_get(Effort,pr), real.cpp:494-500. *)
  Definition compute_dp (r : real) (e : nat) : option D := i_dp (compile r) e.
  Definition compute_mp (r : real) (e p : nat) : option M := i_mp (compile r) e p.
  (** Real::get(pr) and compute_using(pr), real.cpp:453-456. *)
  Definition get_dp (r : real) : option D := compute_dp r 0.
  Definition get_mp (r : real) (p : nat) : option M := compute_mp r p p.
  (** Bounds<FloatDP>(Real,dp), real.cpp:70. *)
  Definition bounds_dp (r : real) : option D := compute_dp r 53.

  (** RealBase::_compute(Accuracy), real.cpp:95-106.  [fuel] is the number of turns of the loop
      that are followed. *)
  Inductive refined := Running | Failed | Got (b : dbounds).
  Fixpoint refine_loop (r : real) (bound : dyadic) (fuel : nat) (effort : nat) (error : dyadic) (res : dbounds) : refined :=
    if w_lt error bound then Got res
    else match fuel with
         | O => Running
         | S k =>
             match compute r effort with
             | None => Failed
             | Some b => refine_loop r bound k (effort + 1) (w_hlf (w_sub (d_u b) (d_l b))) b
             end
         end.
  Definition w_twice (x : dyadic) : dyadic := x_mul w_ops (Fin (mkD 2 0)) x.
  Definition compute_accuracy (r : real) (bound : dyadic) (fuel : nat) : refined :=
    refine_loop r bound fuel 1 (w_twice bound) (mkDB w_zero w_zero).
  (** Accuracy(Bits), real.cpp:57-60: the error is 2 to the power minus the number of bits. *)
  Definition bits (n : nat) : dyadic := two_pow_minus n.

  (** The checks of the comparisons of reals with a given effort, real.cpp:398-400, 416-418, 428-438. *)
  Definition check1 (f : dbounds -> lv) (r : real) (e : nat) : option lv := option_map f (compute r e).
  Definition check2 (f : dbounds -> dbounds -> lv) (r1 r2 : real) (e : nat) : option lv :=
    opt2 f (compute r1 e) (compute r2 e).
  (** check_sgn, real.cpp:502-507. *)
  Definition check_sgn (r : real) (e : nat) : option lv :=
    match compute r e with
    | None => None
    | Some x => Some (if w_gt (d_l x) w_zero then TRUE else if w_lt (d_u x) w_zero then FALSE else INDET)
    end.

  (** nondeterministic_greater, real.cpp:346-354; the dyadics are compared as rationals. *)
  Inductive choice := Undecided | Aborted | Chosen (b : bool).
  Fixpoint greater_loop (r : real) (a b : rational) (fuel : nat) (e : nat) : choice :=
    match fuel with
    | O => Undecided
    | S k =>
        match compute r e with
        | None => Aborted
        | Some x =>
            if r_gt (r_of_d (d_l x)) a then Chosen true
            else if r_lt (r_of_d (d_u x)) b then Chosen false
            else greater_loop r a b k (e + 1)
        end
    end.
  Definition nondeterministic_greater (r : real) (a b : rational) (fuel : nat) : choice :=
    if r_lt a b then greater_loop r a b fuel 0 else Aborted.

  (** same, real.cpp:374-380. *)
  Definition same (r1 r2 : real) : option bool :=
    match bounds_dp r1, bounds_dp r2 with
    | Some x1, Some x2 =>
        let b1 := a_to_d AD x1 in let b2 := a_to_d AD x2 in
        Some (w_eq (d_l b1) (d_u b2) && w_eq (d_u b1) (d_l b2))
    | _, _ => None
    end.

  (** round(Dyadic), dyadic.cpp:293-307, and round(Real), real.cpp:447-450. *)
  Definition w_round (x : dyadic) : option Z :=
    match x with
    | Fin a =>
        let y := mkD (mant a) (expo a + 1) in
        let y := d_addx y (if 0 <=? mant y then mkD 1 0 else mkD (-1) 0) in
        Some (z_of_fin (mkD (mant y) (expo y - 1)))
    | _ => None
    end.
  Inductive rounded := RRunning | RFailed | RGot (z : Z).
  Definition round_real (r : real) (fuel : nat) : rounded :=
    match compute_accuracy r (bits 1) fuel with
    | Running => RRunning
    | Failed => RFailed
    | Got b => match w_round (w_hlf (w_add (d_l b) (d_u b))) with Some z => RGot z | None => RFailed end
    end.
End Real.
Arguments real K : clear implicits.
Arguments impl D M : clear implicits.
