(** What the exact numbers are supposed to be: extended real numbers.  The
    operations on [Rbar] are those of Coquelicot; [Rbar_plus'] and [Rbar_mult'] are
    undefined for [inf-inf] and [0*inf]. *)
From Coq Require Import ZArith NArith QArith Qreals Reals List.
From Flocq Require Import Core.
From Coquelicot Require Import Rbar.
From Verif Require Import Exact_Model.
Import ListNotations.
Local Open Scope R_scope.

(** The extended real denoted by a number; [None] for NaN. *)
Definition meaning {F} (v : F -> R) (x : ext F) : option Rbar :=
  match x with
  | Fin f => Some (Finite (v f))
  | PInf => Some p_infty
  | NInf => Some m_infty
  | NaN => None
  end.
(** A rational, and a dyadic [mant*2^expo]. *)
Definition rmean : rational -> option Rbar := meaning Q2R.
Definition dval (a : dyadic_fin) : R := IZR (mant a) * bpow radix2 (expo a).
Definition dmean : dyadic -> option Rbar := meaning dval.
Definition decval (d : decimal) : R := IZR (dp d) / IZR (10 ^ Z.of_N (dq d)).

Definition lift1 (f : Rbar -> Rbar) (x : option Rbar) : option Rbar := option_map f x.
Definition lift2 (f : Rbar -> Rbar -> option Rbar) (x y : option Rbar) : option Rbar :=
  match x, y with Some a, Some b => f a b | _, _ => None end.

Definition xplus := Rbar_plus'.
Definition xminus (a b : Rbar) := Rbar_plus' a (Rbar_opp b).
Definition xmult := Rbar_mult'.
(** Division by a number other than 0. *)
Definition xdiv (a b : Rbar) := Rbar_mult' a (Rbar_inv b).
Definition xhalf (a : Rbar) : Rbar :=
  match a with Finite r => Finite (r / 2) | _ => a end.
(** [x*x*...*x]; the empty product is 1. *)
Fixpoint xpow (x : option Rbar) (n : nat) : option Rbar :=
  match n with O => Some (Finite 1) | S k => lift2 xmult x (xpow x k) end.

Definition is_max (x y z : Rbar) : Prop := (z = x \/ z = y) /\ Rbar_le x z /\ Rbar_le y z.
Definition is_min (x y z : Rbar) : Prop := (z = x \/ z = y) /\ Rbar_le z x /\ Rbar_le z y.

(** Rationals are kept in lowest terms. *)
Definition canonical (x : rational) : Prop := match x with Fin q => Qred q = q | _ => True end.

(** Integers next to a real number. *)
Definition is_floor (r : R) (z : Z) : Prop := IZR z <= r < IZR z + 1.
Definition is_ceil (r : R) (z : Z) : Prop := IZR z - 1 < r <= IZR z.
(** The nearest integer, the one further from zero of two equally near. *)
Definition is_round (r : R) (z : Z) : Prop :=
  Rabs (r - IZR z) <= / 2 /\ (Rabs (r - IZR z) = / 2 -> Rabs r <= Rabs (IZR z)).

(** Dyadics of moderate size: at most [s] bits, exponent at most [t] in absolute value. *)
Definition sized (s t : Z) (a : dyadic_fin) : Prop :=
  (Z.abs (mant a) < 2 ^ s /\ - t <= expo a <= t)%Z.
(** All numbers of 4000 bits with exponents of absolute value 4000; every double-precision
    number is one. *)
Definition moderate (x : dyadic) : Prop := match x with Fin a => sized 4000 4000 a | _ => True end.

(** The numbers enclosed by bounds; by a ball. *)
Definition in_rbounds (b : rbounds) (r : R) : Prop :=
  match rmean (r_l b), rmean (r_u b) with
  | Some l, Some u => Rbar_le l (Finite r) /\ Rbar_le (Finite r) u
  | _, _ => False
  end.
Definition in_dbounds (b : dbounds) (r : R) : Prop :=
  match dmean (d_l b), dmean (d_u b) with
  | Some l, Some u => Rbar_le l (Finite r) /\ Rbar_le (Finite r) u
  | _, _ => False
  end.
Definition in_dball (w : dball) (r : R) : Prop :=
  match dv w, de w with Fin v, Fin e => Rabs (r - dval v) <= dval e | _, _ => False end.

(** Bounds and balls with finite (and moderate dyadic) entries. *)
Definition finite_rb (b : rbounds) : Prop := exists l u, b = mkRB (Fin l) (Fin u).
Definition finite_db (b : dbounds) : Prop := exists l u, b = mkDB (Fin l) (Fin u) /\ sized 4000 4000 l /\ sized 4000 4000 u.
Definition finite_dball (w : dball) : Prop := exists v e, w = mkDBall (Fin v) (Fin e) /\ sized 4000 4000 v /\ sized 4000 4000 e.

(** The number a string of digits with a point denotes. *)
Definition is_digit (d : Z) : Prop := (0 <= d <= 9)%Z.
Fixpoint digits_value (acc : Z) (l : list Z) : Z :=
  match l with [] => acc | d :: l' => digits_value (10 * acc + d) l' end.

(** Built-in integer ranges. *)
Definition nat64_range (m : Z) : Prop := (0 <= m < 2 ^ 64)%Z.
Definition int64_range (n : Z) : Prop := (- 2 ^ 63 <= n < 2 ^ 63)%Z.
Definition int32_range (n : Z) : Prop := (- 2 ^ 31 <= n < 2 ^ 31)%Z.

(** Factorials and binomial coefficients, by their recurrences. *)
Fixpoint factorial (n : nat) : Z := match n with O => 1 | S k => Z.of_nat n * factorial k end%Z.
Fixpoint binomial (n k : nat) : Z :=
  match n, k with
  | _, O => 1
  | O, S _ => 0
  | S n', S k' => binomial n' k' + binomial n' k
  end%Z.
