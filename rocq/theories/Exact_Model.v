(** Model of the exact number types: Integer (source/numeric/integer.cpp), the
    built-in integer conversions and combinatorial functions (numeric/int.hpp,
    int.cpp), Rational (rational.cpp), Dyadic (dyadic.cpp), Decimal (decimal.cpp),
    the extension by infinities and NaN (extended.hpp), and the bounds and balls
    over them.

    GMP is not part of the repository.  Its mpz functions are taken to be exact on
    [Z], its mpq functions to be exact on canonical fractions and to return
    canonical fractions, division by zero to abort the program, and its mpf
    functions to return the exact result truncated to the precision of the
    destination, as its manual states.  (The real precision of an mpf is a whole
    number of limbs, so slightly larger.) *)
From Coq Require Import ZArith NArith QArith Qround Qpower List Bool.
Import ListNotations.
Local Open Scope Z_scope.

(** ** Signs and comparisons, numeric/sign.hpp:40-47 *)
Inductive sign := NEGATIVE | ZERO | POSITIVE.
Definition sgn_z (z : Z) : sign := match z with Z0 => ZERO | Zpos _ => POSITIVE | Zneg _ => NEGATIVE end.
Definition sneg (s : sign) : sign := match s with NEGATIVE => POSITIVE | ZERO => ZERO | POSITIVE => NEGATIVE end.
Definition smul (s t : sign) : sign :=
  match s, t with
  | ZERO, _ | _, ZERO => ZERO
  | POSITIVE, POSITIVE | NEGATIVE, NEGATIVE => POSITIVE
  | _, _ => NEGATIVE
  end.
Definition seqb (s t : sign) : bool :=
  match s, t with NEGATIVE, NEGATIVE | ZERO, ZERO | POSITIVE, POSITIVE => true | _, _ => false end.
(** [enum class Comparison : ComparableEnumerationType], as its values. *)
Definition cmp_LESS := -1. Definition cmp_EQUAL := 0. Definition cmp_GREATER := 1.
Definition cmp_INCOMPARABLE := -128.
Definition of_comparison (c : comparison) : Z :=
  match c with Lt => cmp_LESS | Eq => cmp_EQUAL | Gt => cmp_GREATER end.

(** ** Numbers extended by infinities and NaN *)
Inductive ext (F : Type) := Fin (f : F) | PInf | NInf | NaN.
Arguments Fin {F} f. Arguments PInf {F}. Arguments NInf {F}. Arguments NaN {F}.

(** [Extension::set_inf], rational.cpp:77, dyadic.cpp:66-67: sign zero is NaN. *)
Definition set_inf {F} (s : sign) : ext F :=
  match s with NEGATIVE => NInf | ZERO => NaN | POSITIVE => PInf end.

(** The finite operations, [FiniteOperations<X>]; [None]: the program aborts. *)
Record finite_ops (F : Type) := {
  f_sgn : F -> sign;
  f_zero : F; f_one : F;
  f_neg : F -> F; f_hlf : F -> F; f_abs : F -> F; f_sqr : F -> F;
  f_add : F -> F -> F; f_sub : F -> F -> F; f_mul : F -> F -> F;
  f_rec : F -> option F; f_div : F -> F -> option F;
  f_pow : F -> N -> F;
  f_cmp : F -> F -> comparison; f_eq : F -> F -> bool
}.
Arguments f_sgn {F}. Arguments f_zero {F}. Arguments f_one {F}. Arguments f_neg {F}. Arguments f_hlf {F}. Arguments f_abs {F}.
Arguments f_sqr {F}. Arguments f_add {F}. Arguments f_sub {F}. Arguments f_mul {F}. Arguments f_rec {F}.
Arguments f_div {F}. Arguments f_pow {F}. Arguments f_cmp {F}. Arguments f_eq {F}.

(** [ExtendedOperations<X>], numeric/extended.hpp:48-137. *)
Section Extended.
  Context {F : Type} (o : finite_ops F).

  Definition is_nan (x : ext F) : bool := match x with NaN => true | _ => false end.
  Definition is_inf (x : ext F) : bool := match x with PInf | NInf => true | _ => false end.
  Definition is_fin (x : ext F) : bool := match x with Fin _ => true | _ => false end.

  (** rational.cpp:72-74, dyadic.cpp:61-63. *)
  Definition sgn (x : ext F) : sign :=
    match x with Fin f => f_sgn o f | PInf => POSITIVE | NInf => NEGATIVE | NaN => ZERO end.

  (** extended.hpp:65, [abs(Sign)]. *)
  Definition sabs (s : sign) : sign := match s with NEGATIVE => sneg s | _ => s end.

  (** extended.hpp:68-70. *)
  Definition x_neg (x : ext F) : ext F :=
    match x with Fin f => Fin (f_neg o f) | _ => set_inf (sneg (sgn x)) end.
  (** extended.hpp:72-75. *)
  Definition x_add (x y : ext F) : ext F :=
    match x, y with
    | Fin f, Fin g => Fin (f_add o f g)
    | Fin _, _ => set_inf (sgn y)
    | _, Fin _ => set_inf (sgn x)
    | _, _ => if seqb (sgn x) (sgn y) then set_inf (sgn x) else NaN
    end.
  (** extended.hpp:77-80. *)
  Definition x_sub (x y : ext F) : ext F :=
    match x, y with
    | Fin f, Fin g => Fin (f_sub o f g)
    | Fin _, _ => set_inf (sneg (sgn y))
    | _, Fin _ => set_inf (sgn x)
    | _, _ => if seqb (sgn x) (sneg (sgn y)) then set_inf (sgn x) else NaN
    end.
  (** extended.hpp:81-83. *)
  Definition x_mul (x y : ext F) : ext F :=
    match x, y with
    | Fin f, Fin g => Fin (f_mul o f g)
    | _, _ => set_inf (smul (sgn x) (sgn y))
    end.
  (** extended.hpp:97-98. *)
  Definition x_rec (x : ext F) : option (ext F) :=
    match x with
    | Fin f => option_map Fin (f_rec o f)
    | PInf | NInf => Some (Fin (f_zero o))
    | NaN => Some NaN
    end.
  (** extended.hpp:84-85. *)
  Definition x_div (x y : ext F) : option (ext F) :=
    match x, y with
    | Fin f, Fin g => option_map Fin (f_div o f g)
    | _, _ => option_map (x_mul x) (x_rec y)
    end.
  (** extended.hpp:87-88. *)
  Definition x_sqr (x : ext F) : ext F :=
    match x with Fin f => Fin (f_sqr o f) | _ => set_inf (sabs (sgn x)) end.
  (** extended.hpp:89-91. *)
  Definition x_pow (x : ext F) (m : N) : ext F :=
    match x with
    | Fin f => Fin (f_pow o f m)
    | NaN => NaN
    | _ => if seqb (sgn x) POSITIVE || N.even m then PInf else NInf
    end.
  (** extended.hpp:95-96. *)
  Definition x_hlf (x : ext F) : ext F :=
    match x with Fin f => Fin (f_hlf o f) | _ => set_inf (sgn x) end.
  (** extended.hpp:100-101. *)
  Definition x_abs (x : ext F) : ext F :=
    match x with Fin f => Fin (f_abs o f) | _ => set_inf (sabs (sgn x)) end.
  (** extended.hpp:102-111; rational.cpp:97-100, dyadic.cpp:87-90. *)
  Definition x_max (x y : ext F) : ext F :=
    match x, y with
    | Fin f, Fin g => match f_cmp o f g with Lt => y | _ => x end
    | NaN, _ | _, NaN => NaN
    | PInf, _ | _, PInf => PInf
    | NInf, _ => y
    | _, NInf => x
    end.
  Definition x_min (x y : ext F) : ext F :=
    match x, y with
    | Fin f, Fin g => match f_cmp o f g with Gt => y | _ => x end
    | NaN, _ | _, NaN => NaN
    | NInf, _ | _, NInf => NInf
    | PInf, _ => y
    | _, PInf => x
    end.
  (** extended.hpp:113-123. *)
  Definition x_eq (x y : ext F) : bool :=
    match x, y with
    | Fin f, Fin g => f_eq o f g
    | Fin _, _ | _, Fin _ => false
    | NaN, _ | _, NaN => false
    | _, _ => seqb (sgn x) (sgn y)
    end.
  (** extended.hpp:125-137.  The result of [mpq_cmp] is cast to the enumeration; GMP
      documents only its sign, and it is taken to be one of -1, 0, 1 here. *)
  Definition x_cmp (x y : ext F) : Z :=
    match x, y with
    | Fin f, Fin g => of_comparison (f_cmp o f g)
    | NaN, _ | _, NaN => cmp_INCOMPARABLE
    | Fin _, _ => match sgn y with POSITIVE => cmp_LESS | _ => cmp_GREATER end
    | _, Fin _ => match sgn x with POSITIVE => cmp_GREATER | _ => cmp_LESS end
    | PInf, PInf | NInf, NInf => cmp_EQUAL
    | PInf, NInf => cmp_GREATER
    | NInf, PInf => cmp_LESS
    end.
End Extended.

(** ** Rational *)

(** rational.cpp:81-105, on canonical fractions. *)
Definition q_ops : finite_ops Q := {|
  f_sgn := fun q => sgn_z (Qnum q);
  f_zero := 0%Q; f_one := 1%Q;
  f_neg := fun q => Qopp q;
  f_hlf := fun q => Qred (q * (1#2));
  f_abs := fun q => Qmake (Z.abs (Qnum q)) (Qden q);
  f_sqr := fun q => Qred (q * q);
  f_add := fun p q => Qred (p + q);
  f_sub := fun p q => Qred (p - q);
  f_mul := fun p q => Qred (p * q);
  f_rec := fun q => if Z.eqb (Qnum q) 0 then None else Some (Qred (/ q));
  f_div := fun p q => if Z.eqb (Qnum q) 0 then None else Some (Qred (p / q));
  f_pow := fun q _ => q; (* not used by Rational *)
  f_cmp := Qcompare;
  f_eq := fun p q => Z.eqb (Qnum p) (Qnum q) && Pos.eqb (Qden p) (Qden q)
|}.

Definition rational := ext Q.

(** Rational(Integer), rational.cpp:137-140. *)
Definition r_of_z (z : Z) : rational := Fin (inject_Z z).
(** Rational(Integer,Integer), rational.cpp:154-164. *)
Definition r_make (n d : Z) : rational :=
  match d with
  | Z0 => match n with Z0 => NaN | Zpos _ => PInf | Zneg _ => NInf end
  | Zpos p => Fin (Qred (Qmake n p))
  | Zneg p => Fin (Qred (Qmake (- n) p))
  end.

Definition r_add := x_add q_ops. Definition r_sub := x_sub q_ops. Definition r_mul := x_mul q_ops.
Definition r_neg := x_neg q_ops. Definition r_hlf := x_hlf q_ops. Definition r_abs := x_abs q_ops.
Definition r_sqr := x_sqr q_ops. Definition r_rec := x_rec q_ops. Definition r_div := x_div q_ops.
Definition r_max := x_max q_ops. Definition r_min := x_min q_ops.
Definition r_cmp := x_cmp q_ops.

(** pow(Rational,Nat), rational.cpp:366-370: by repeated squaring. *)
Fixpoint r_pow_loop (r p : rational) (m : positive) : rational :=
  match m with
  | xH => r_mul r p
  | xO m' => r_pow_loop r (r_mul p p) m'
  | xI m' => r_pow_loop (r_mul r p) (r_mul p p) m'
  end.
Definition r_pow (q : rational) (m : N) : rational :=
  match m with N0 => Fin 1%Q | Npos p => r_pow_loop (Fin 1%Q) q p end.
(** pow(Rational,Int), rational.cpp:372-375, for [int] of 32 bits; [-n] overflows for
    the least one. *)
Definition r_powz (q : rational) (n : Z) : option rational :=
  if n <? 0 then if n =? - 2 ^ 31 then None else r_rec (r_pow q (Z.to_N (- n)))
  else Some (r_pow q (Z.to_N n)).

(** rational.cpp:377-383 and rational.hpp:108-113: [lt] is [cmp < EQUAL]. *)
Definition r_eq := x_eq q_ops.
Definition r_lt (x y : rational) : bool := r_cmp x y <? cmp_EQUAL.
Definition r_ne (x y : rational) : bool := negb (r_eq x y).
Definition r_le (x y : rational) : bool := negb (r_lt y x).
Definition r_ge (x y : rational) : bool := negb (r_lt x y).
Definition r_gt (x y : rational) : bool := r_lt y x.

(** round, ceil, floor, rational.cpp:419-444; [None]: assertion failure. *)
Definition r_round (x : rational) : option Z :=
  match x with
  | Fin q => let num := 2 * Qnum q in let den := Zpos (Qden q) in
             let num := if 0 <=? num then num + den else num - den in
             Some (Z.quot num (2 * den))
  | _ => None
  end.
Definition r_ceil (x : rational) : option Z :=
  match x with Fin q => Some (- ((- Qnum q) / Zpos (Qden q))) | _ => None end.
Definition r_floor (x : rational) : option Z :=
  match x with Fin q => Some (Qnum q / Zpos (Qden q)) | _ => None end.

(** ** Dyadic *)

(** The value of a finite mpf is [mant*2^expo]. *)
Record dyadic_fin := mkD { mant : Z; expo : Z }.

(** The number of significant bits kept, dyadic.cpp:97 [maximum_precision]. *)
Definition maximum_precision := 65535.

(** Truncation (towards zero) to [p] bits. *)
Definition trunc_bits (p : Z) (d : dyadic_fin) : dyadic_fin :=
  let n := Z.log2 (Z.abs (mant d)) + 1 in
  if n <=? p then d else mkD (Z.quot (mant d) (2 ^ (n - p))) (expo d + (n - p)).

Definition d_align (a b : dyadic_fin) : Z * Z * Z :=
  let e := Z.min (expo a) (expo b) in
  (mant a * 2 ^ (expo a - e), mant b * 2 ^ (expo b - e), e).
Definition d_addx (a b : dyadic_fin) : dyadic_fin :=
  let '(m, n, e) := d_align a b in mkD (m + n) e.
Definition d_negx (a : dyadic_fin) : dyadic_fin := mkD (- mant a) (expo a).
Definition d_mulx (a b : dyadic_fin) : dyadic_fin := mkD (mant a * mant b) (expo a + expo b).
Definition d_cmpx (a b : dyadic_fin) : comparison :=
  let '(m, n, _) := d_align a b in Z.compare m n.

(** dyadic.cpp:71-94; the results are stored in a Dyadic of the given precision. *)
Definition d_ops (p : Z) : finite_ops dyadic_fin := {|
  f_sgn := fun a => sgn_z (mant a);
  f_zero := mkD 0 0; f_one := mkD 1 0;
  f_neg := fun a => trunc_bits p (d_negx a);
  f_hlf := fun a => trunc_bits p (mkD (mant a) (expo a - 1));
  f_abs := fun a => trunc_bits p (mkD (Z.abs (mant a)) (expo a));
  f_sqr := fun a => trunc_bits p (d_mulx a a);
  f_add := fun a b => trunc_bits p (d_addx a b);
  f_sub := fun a b => trunc_bits p (d_addx a (d_negx b));
  f_mul := fun a b => trunc_bits p (d_mulx a b);
  f_rec := fun _ => None; (* assert(false), dyadic.cpp:84 *)
  f_div := fun _ _ => None; (* not used *)
  f_pow := fun a m => trunc_bits p (mkD (mant a ^ Z.of_N m) (expo a * Z.of_N m));
  f_cmp := d_cmpx;
  f_eq := fun a b => match d_cmpx a b with Eq => true | _ => false end
|}.

Definition dyadic := ext dyadic_fin.
Definition dops := d_ops maximum_precision.

Definition d_add := x_add dops. Definition d_sub := x_sub dops. Definition d_mul := x_mul dops.
Definition d_neg := x_neg dops. Definition d_hlf := x_hlf dops. Definition d_abs := x_abs dops.
Definition d_max := x_max dops. Definition d_min := x_min dops. Definition d_cmp := x_cmp dops.
Definition d_pow := x_pow dops.
(** sqr(Dyadic), dyadic.cpp:340-342, with the assertion of [cast_positive], dyadic.hpp:247-249;
    comparisons, dyadic.cpp:404-410 and dyadic.hpp:148-153. *)
Definition d_lt (x y : dyadic) : bool := d_cmp x y =? cmp_LESS.
Definition d_eq (x y : dyadic) : bool := d_cmp x y =? cmp_EQUAL.
Definition d_le (x y : dyadic) : bool := negb (d_lt y x).
Definition d_ge (x y : dyadic) : bool := negb (d_lt x y).
Definition d_gt (x y : dyadic) : bool := d_lt y x.
Definition d_ne (x y : dyadic) : bool := negb (d_eq x y).
Definition d_sqr (x : dyadic) : option dyadic :=
  let y := d_mul x x in if d_ge y (Fin (mkD 0 0)) then Some y else None.

(** Dyadic(Integer,Nat), dyadic.cpp:122-127. *)
Definition d_make (p : Z) (q : N) : dyadic := Fin (trunc_bits maximum_precision (mkD p (- Z.of_N q))).
(** Dyadic(mpf_t mpf), dyadic.cpp:109-112, sets the new (zero) value from itself. *)
Definition d_of_mpf (f : dyadic_fin) : dyadic := Fin (mkD 0 0).
(** Rational(Dyadic), rational.cpp:142-152. *)
Definition q_of_fin (a : dyadic_fin) : Q :=
  Qred (if 0 <=? expo a then inject_Z (mant a * 2 ^ expo a)
        else Qmake (mant a) (Z.to_pos (2 ^ (- expo a)))).
Definition r_of_d (x : dyadic) : rational :=
  match x with
  | Fin a => Fin (q_of_fin a)
  | PInf => PInf | NInf => NInf | NaN => NaN
  end.

(** mpz_set_f: the integer part. *)
Definition z_of_fin (a : dyadic_fin) : Z :=
  if 0 <=? expo a then mant a * 2 ^ expo a else Z.quot (mant a) (2 ^ (- expo a)).
(** round, floor, ceil, dyadic.cpp:293-325. *)
Definition d_round (x : dyadic) : option Z :=
  match x with
  | Fin a =>
      let y := trunc_bits maximum_precision (mkD (mant a) (expo a + 1)) in
      let one := if 0 <=? mant y then mkD 1 0 else mkD (-1) 0 in
      let y := trunc_bits maximum_precision (d_addx y one) in
      Some (z_of_fin (mkD (mant y) (expo y - 1)))
  | _ => None
  end.
Definition d_floor (x : dyadic) : option Z :=
  match x with
  | Fin a => Some (if 0 <=? expo a then mant a * 2 ^ expo a else mant a / 2 ^ (- expo a))
  | _ => None
  end.
Definition d_ceil (x : dyadic) : option Z :=
  match x with
  | Fin a => Some (if 0 <=? expo a then mant a * 2 ^ expo a else - ((- mant a) / 2 ^ (- expo a)))
  | _ => None
  end.

(** *** Objects, copies and moves, dyadic.cpp:105-107, 172-185, 215-218.

    An object has a precision and a value; a moved-from object is left with what
    the constructor made, of the default precision of GMP (64 bits). *)
Definition default_precision := 64.
Record d_object := { prec_ : Z; value_ : dyadic }.
Definition d_store (p : Z) (x : dyadic) : dyadic := match x with Fin a => Fin (trunc_bits p a) | _ => x end.
(** Dyadic(const Dyadic&) *)
Definition d_copy (x : d_object) : d_object :=
  {| prec_ := maximum_precision; value_ := d_store maximum_precision (value_ x) |}.
(** Dyadic(Dyadic&&): the new object and the moved-from one. *)
Definition d_move (x : d_object) : d_object * d_object :=
  (x, {| prec_ := default_precision; value_ := Fin (mkD 0 0) |}).
(** operator=(const Dyadic&) keeps the precision of the target. *)
Definition d_assign (x y : d_object) : d_object := {| prec_ := prec_ x; value_ := d_store (prec_ x) (value_ y) |}.
(** operator=(Dyadic&&) swaps: the target and the source afterwards. *)
Definition d_move_assign (x y : d_object) : d_object * d_object := (y, x).

(** ** Bounds<Rational>, rational.hpp:216-264 and rational.cpp:551-704 *)
Section RBounds.
  Record rbounds := mkRB { r_l : rational; r_u : rational }.

  (** rational.cpp:558-589 [_mul]. *)
  Definition rb_mul (a b : rbounds) : rbounds :=
    let al := r_l a in let au := r_u a in let bl := r_l b in let bu := r_u b in
    let z := r_of_z 0 in
    if r_ge al z then
      if r_ge bl z then mkRB (r_mul al bl) (r_mul au bu)
      else if r_le bu z then mkRB (r_mul au bl) (r_mul al bu)
      else mkRB (r_mul au bl) (r_mul au bu)
    else if r_le au z then
      if r_ge bl z then mkRB (r_mul al bu) (r_mul au bl)
      else if r_le bu z then mkRB (r_mul au bu) (r_mul al bl)
      else mkRB (r_mul al bu) (r_mul al bl)
    else
      if r_ge bl z then mkRB (r_mul al bu) (r_mul au bu)
      else if r_le bu z then mkRB (r_mul au bl) (r_mul al bl)
      else mkRB (r_min (r_mul au bl) (r_mul al bu)) (r_max (r_mul al bl) (r_mul au bu)).

  Definition ob2 (l u : option rational) : option rbounds :=
    match l, u with Some l, Some u => Some (mkRB l u) | _, _ => None end.

  (** rational.cpp:591-624 [_div]. *)
  Definition rb_div (a b : rbounds) : option rbounds :=
    let al := r_l a in let au := r_u a in let bl := r_l b in let bu := r_u b in
    let z := r_of_z 0 in
    if r_gt bl z then
      if r_ge al z then ob2 (r_div al bu) (r_div au bl)
      else if r_le au z then ob2 (r_div al bl) (r_div au bu)
      else ob2 (r_div al bl) (r_div au bl)
    else if r_lt bu z then
      if r_ge al z then ob2 (r_div au bu) (r_div al bl)
      else if r_le au z then ob2 (r_div au bl) (r_div al bu)
      else ob2 (r_div au bu) (r_div al bu)
    else Some (mkRB NInf PInf).

  (** rational.cpp:626-636 [_sqr], 638-651 [_rec]. *)
  Definition rb_sqr (a : rbounds) : rbounds :=
    let z := r_of_z 0 in
    if r_gt (r_l a) z then mkRB (r_sqr (r_l a)) (r_sqr (r_u a))
    else if r_lt (r_u a) z then mkRB (r_sqr (r_u a)) (r_sqr (r_l a))
    else mkRB z (r_max (r_sqr (r_l a)) (r_sqr (r_u a))).
  Definition rb_rec (a : rbounds) : option rbounds :=
    let z := r_of_z 0 in
    if r_gt (r_l a) z || r_lt (r_u a) z then ob2 (r_rec (r_u a)) (r_rec (r_l a))
    else Some (mkRB NInf PInf).

  (** rational.cpp:663-675. *)
  Definition rb_neg (a : rbounds) : rbounds := mkRB (r_neg (r_u a)) (r_neg (r_l a)).
  Definition rb_hlf (a : rbounds) : rbounds := mkRB (r_hlf (r_u a)) (r_hlf (r_l a)).
  Definition rb_add (a b : rbounds) : rbounds := mkRB (r_add (r_l a) (r_l b)) (r_add (r_u a) (r_u b)).
  Definition rb_sub (a b : rbounds) : rbounds := mkRB (r_sub (r_l a) (r_u b)) (r_sub (r_u a) (r_l b)).
  (** rational.cpp:686-691. *)
  Definition rb_abs (a : rbounds) : rbounds :=
    mkRB (r_max (r_min (r_l a) (r_neg (r_u a))) (r_of_z 0)) (r_max (r_neg (r_l a)) (r_u a)).
  Definition rb_max (a b : rbounds) : rbounds := mkRB (r_max (r_l a) (r_l b)) (r_max (r_u a) (r_u b)).
  Definition rb_min (a b : rbounds) : rbounds := mkRB (r_min (r_l a) (r_l b)) (r_min (r_u a) (r_u b)).
  (** rational.cpp:680-681 [pow(RationalBounds,Nat)]: the absolute value is
      computed and then not used.  (For [m] of at most 31 bits, so that the cast to
      [Int] does not change it.) *)
  Definition rb_pow (a : rbounds) (m : N) : rbounds :=
    let r := if N.even m then rb_abs a else a in
    mkRB (r_pow (r_l a) m) (r_pow (r_u a) m).

  (** Comparisons, rational.cpp:693-704: true, false or indeterminate. *)
  Definition rb_eqs (a b : rbounds) : option bool :=
    if r_ge (r_l a) (r_u b) && r_le (r_u a) (r_l b) then Some true
    else if r_gt (r_l a) (r_u b) || r_lt (r_u a) (r_l b) then Some false else None.
  Definition rb_les (a b : rbounds) : option bool :=
    if r_le (r_u a) (r_l b) then Some true else if r_gt (r_l a) (r_u b) then Some false else None.
  Definition rb_lts (a b : rbounds) : option bool :=
    if r_lt (r_u a) (r_l b) then Some true else if r_ge (r_l a) (r_u b) then Some false else None.

  (** rational.hpp:259-262. *)
  Definition rb_inconsistent (a b : rbounds) : bool := r_gt (r_l a) (r_u b) || r_lt (r_u a) (r_l b).
  Definition rb_refines (a b : rbounds) : bool := r_ge (r_l a) (r_l b) && r_le (r_u a) (r_u b).
  Definition rb_refinement (a b : rbounds) : rbounds := mkRB (r_max (r_l a) (r_l b)) (r_min (r_u a) (r_u b)).
  Definition rb_coarsening (a b : rbounds) : rbounds := mkRB (r_min (r_l a) (r_l b)) (r_max (r_u a) (r_u b)).
End RBounds.

(** ** Bounds<Dyadic>, dyadic.hpp:269-344: the members that differ from
    Bounds<Rational>.  (The others are the same templates or the same text.) *)
Record dbounds := mkDB { d_l : dyadic; d_u : dyadic }.
(** [operator-], dyadic.hpp:288, and [neg], dyadic.hpp:307-308. *)
Definition db_minus (a : dbounds) : dbounds := mkDB (d_neg (d_u a)) (d_neg (d_l a)).
Definition db_neg (a : dbounds) : dbounds := mkDB (d_neg (d_l a)) (d_neg (d_u a)).
(** [hlf], [operator+], [operator-], [abs], dyadic.hpp:313, 289-292, 315. *)
Definition db_hlf (a : dbounds) : dbounds := mkDB (d_hlf (d_l a)) (d_hlf (d_u a)).
Definition db_add (a b : dbounds) : dbounds := mkDB (d_add (d_l a) (d_l b)) (d_add (d_u a) (d_u b)).
Definition db_sub (a b : dbounds) : dbounds := mkDB (d_sub (d_l a) (d_u b)) (d_sub (d_u a) (d_l b)).
Definition db_abs (a : dbounds) : dbounds :=
  mkDB (d_max (d_min (d_l a) (d_neg (d_u a))) (Fin (mkD 0 0))) (d_max (d_neg (d_l a)) (d_u a)).
(** [pow(DyadicBounds,Nat)], dyadic.cpp:504-505. *)
Definition db_pow (a : dbounds) (m : N) : dbounds :=
  let y := if N.even m then db_abs a else a in mkDB (d_pow (d_l y) m) (d_pow (d_u y) m).

(** ** Ball<Dyadic,Dyadic>, dyadic.hpp:347-374 *)
Record dball := mkDBall { dv : dyadic; de : dyadic }.
Definition dl_of_bounds (b : dbounds) : dball := mkDBall (d_hlf (d_add (d_l b) (d_u b))) (d_hlf (d_sub (d_u b) (d_l b))).
Definition dl_bounds (w : dball) : dbounds := mkDB (d_sub (dv w) (de w)) (d_add (dv w) (de w)).
Definition dl_add (a b : dball) : dball := mkDBall (d_add (dv a) (dv b)) (d_add (de a) (de b)).
Definition dl_sub (a b : dball) : dball := mkDBall (d_sub (dv a) (dv b)) (d_add (de a) (de b)).
Definition dl_mul (a b : dball) : dball :=
  mkDBall (d_mul (dv a) (dv b))
    (d_add (d_add (d_mul (d_abs (dv a)) (de b)) (d_mul (de a) (d_abs (dv b)))) (d_mul (de a) (de b))).
Definition dl_abs (w : dball) : dball :=
  if d_ge (d_abs (dv w)) (de w) then mkDBall (d_abs (dv w)) (de w)
  else let av := d_hlf (d_max (d_sub (de w) (dv w)) (d_add (dv w) (de w))) in mkDBall av av.
Definition dl_lt (a b : dball) : option bool :=
  if d_lt (d_add (dv a) (de a)) (d_sub (dv b) (de b)) then Some true
  else if d_ge (d_sub (dv a) (de a)) (d_add (dv b) (de b)) then Some false else None.
Definition dl_inconsistent (a b : dball) : bool := d_gt (d_abs (d_sub (dv a) (dv b))) (d_add (de a) (de b)).
Definition dl_refines (a b : dball) : bool := d_le (d_add (d_abs (d_sub (dv a) (dv b))) (de a)) (de b).

(** ** Decimal: the number [dp/10^dq] *)
Record decimal := mkDec { dp : Z; dq : N }.
Definition ten_pow (q : N) : Z := 10 ^ Z.of_N q.
(** Decimal::canonicalize, decimal.cpp:43-49, with [rem] by mpz_cdiv_r
    (integer.cpp:200-204) and [quot] by mpz_div, that is mpz_fdiv_q (integer.cpp:194-198). *)
Definition z_quot (a b : Z) : Z := a / b.
Definition z_rem (a b : Z) : Z := a + ((- a) / b) * b.
Fixpoint canonicalize_from (fuel : nat) (p : Z) (q : N) : decimal :=
  match fuel with
  | O => mkDec p q
  | S k => if (0 <? Z.of_N q) && (z_rem p 10 =? 0) then canonicalize_from k (z_quot p 10) (N.pred q) else mkDec p q
  end.
Definition dec_canonicalize (d : decimal) : decimal := canonicalize_from (N.to_nat (dq d)) (dp d) (dq d).

(** decimal.cpp:100-170.  The exponents, of type [Nat], are taken not to overflow. *)
Definition dec_pos (d : decimal) : decimal := mkDec (dp d) (dq d).
Definition dec_neg (d : decimal) : decimal := mkDec (- dp d) (dq d).
Definition dec_add (a b : decimal) : decimal :=
  dec_canonicalize (mkDec (dp a * ten_pow (dq b) + dp b * ten_pow (dq a)) (dq a + dq b)).
Definition dec_sub (a b : decimal) : decimal :=
  dec_canonicalize (mkDec (dp a * ten_pow (dq b) - dp b * ten_pow (dq a)) (dq a + dq b)).
Definition dec_mul (a b : decimal) : decimal := mkDec (dp a * dp b) (dq a + dq b).
Definition dec_sqr (a : decimal) : decimal := mkDec (dp a * dp a) (2 * dq a).
Definition dec_hlf (a : decimal) : decimal :=
  if z_rem (dp a) 2 =? 0 then mkDec (z_quot (dp a) 2) (dq a) else mkDec (5 * dp a) (dq a + 1).
Definition dec_abs (a : decimal) : decimal := mkDec (Z.abs (dp a)) (dq a).
(** operator/, decimal.cpp:172-178. *)
Definition dec_div (a b : decimal) : option rational :=
  let q := r_make (dp a) (dp b) in
  let e := Z.of_N (dq a) - Z.of_N (dq b) in
  if 0 <? e then r_div q (r_of_z (10 ^ e)) else Some (r_mul q (r_of_z (10 ^ (- e)))).
(** cmp, decimal.cpp:184-187; the operators of decimal.hpp:83-88. *)
Definition dec_cmp (a b : decimal) : comparison :=
  Z.compare (dp a * ten_pow (dq b)) (dp b * ten_pow (dq a)).
Definition dec_op_eq (a b : decimal) : bool := match dec_cmp a b with Eq => true | _ => false end.
Definition dec_op_ne (a b : decimal) : bool := match dec_cmp a b with Eq => false | _ => true end.
Definition dec_op_le (a b : decimal) : bool := match dec_cmp b a with Gt => false | _ => true end.
Definition dec_op_ge (a b : decimal) : bool := match dec_cmp a b with Lt => false | _ => true end.
Definition dec_op_lt (a b : decimal) : bool := match dec_cmp a b with Lt => true | _ => false end.
Definition dec_op_gt (a b : decimal) : bool := match dec_cmp b a with Gt => true | _ => false end.
(** std::max(d1,d2) is [d1<d2 ? d2 : d1], std::min [d2<d1 ? d2 : d1], decimal.cpp:162-170. *)
Definition dec_max (a b : decimal) : decimal := if dec_op_lt a b then b else a.
Definition dec_min (a b : decimal) : decimal := if dec_op_lt b a then b else a.
(** operator Rational, decimal.cpp:312-316. *)
Definition r_of_dec (d : decimal) : rational := r_make (dp d) (ten_pow (dq d)).
(** Decimal(Dyadic), decimal.cpp:60-68: mantissa and exponent are the numerator and the
    binary logarithm of the denominator of the canonical fraction (dyadic.cpp:220-226);
    for a denominator 0, [mpz_sizeinbase] is 1 and the logarithm 0. *)
Definition dec_of_d (x : dyadic) : decimal :=
  match x with
  | Fin a => let q := q_of_fin a in
             let e := Z.log2 (Zpos (Qden q)) in
             dec_canonicalize (mkDec (Qnum q * 5 ^ e) (Z.to_N e))
  | PInf => mkDec 1 0 | NInf => mkDec (-1) 0 | NaN => mkDec 0 0
  end.

(** *** Text.  The characters that matter; [Other] is any other character. *)
Inductive char := Dig (d : Z) | Point | Minus | Plus | Other.

(** Decimal(String), decimal.cpp:233-286: the loop over the characters; the state is
    the number read, the count of zeros not yet used, and whether the point was seen.
    [None]: an exception. *)
Fixpoint dec_parse_loop (s : list char) (p : Z) (q : N) (zeros : N) (point : bool) : option decimal :=
  match s with
  | [] => Some (mkDec p q)
  | Point :: s' => if point then None else dec_parse_loop s' p q zeros true
  | Dig d :: s' =>
      if point then
        if d =? 0 then dec_parse_loop s' p q (zeros + 1) point
        else dec_parse_loop s' (p * ten_pow zeros * 10 + d) (q + zeros + 1) 0 point
      else dec_parse_loop s' (p * 10 + d) q zeros point
  | _ => None
  end.
Definition dec_parse (s : list char) : option decimal :=
  let '(sg, s) := match s with Minus :: s' => (-1, s') | Plus :: s' => (1, s') | _ => (1, s) end in
  option_map (fun d => mkDec (dp d * sg) (dq d)) (dec_parse_loop s 0 0 0 false).

(** mpz_get_str for a natural number: its decimal digits without leading zeros. *)
Fixpoint digits_from (fuel : nat) (n : Z) (acc : list Z) : list Z :=
  match fuel with
  | O => n :: acc
  | S k => if n <? 10 then n :: acc else digits_from k (n / 10) (n mod 10 :: acc)
  end.
Definition digits (n : Z) : list Z := digits_from (Z.to_nat (Z.log2 n)) n [].

(** The padding loop of operator<<, decimal.cpp:306. *)
Fixpoint pad_zeros (fuel : nat) (r q : Z) : list char :=
  match fuel with
  | O => []
  | S k => if r * 10 <? q then Dig 0 :: pad_zeros k r (z_quot q 10) else []
  end.
(** operator<<(Decimal), decimal.cpp:297-310. *)
Definition dec_print (d : decimal) : list char :=
  let p := Z.abs (dp d) in
  let q := ten_pow (dq d) in
  let n := z_quot p q in
  let r := p - n * q in
  (if dp d <? 0 then [Minus] else []) ++ map Dig (digits n) ++ [Point] ++
  (if r =? 0 then [] else pad_zeros (N.to_nat (dq d)) r q ++ map Dig (digits r)).

(** write(os,mpz_t), rational.cpp:524-530: the text is written to an array of 512
    characters.  [None]: it does not fit (undefined behaviour). *)
Definition z_print (z : Z) : option (list char) :=
  let s := (if z <? 0 then [Minus] else []) ++ map Dig (digits (Z.abs z)) in
  if Z.of_nat (length s) + 1 <=? 512 then Some s else None.

(** ** Conversions from built-in integers *)

(** Integer(Nat64), integer.cpp:61-76: the quotient is cast to [unsigned int]; the
    constructor is then applied to it (integer.hpp:170), hence the fuel. *)
Fixpoint z_of_nat64_from (fuel : nat) (m : Z) : Z :=
  match fuel with
  | O => 0
  | S k =>
      let max := 2 ^ 31 - 1 in
      let quot := (m / max) mod 2 ^ 32 in
      let rem := m mod max in
      if m / max =? 0 then rem else rem + z_of_nat64_from k quot * max
  end.
Definition z_of_nat64 (m : Z) : Z := z_of_nat64_from 4 m.
(** Integer(Int64), integer.cpp:78-85: [-n] overflows for the least value. *)
Definition z_of_int64 (n : Z) : option Z :=
  if n <? 0 then if n =? - 2 ^ 63 then None else Some (- z_of_nat64 (- n)) else Some (z_of_nat64 n).
(** Integer(Int32), integer.cpp:56-59: through [long unsigned int]. *)
Definition z_of_int32 (n : Z) : Z := n mod 2 ^ 64.
(** Integer::get<N>() for a signed type of [w] bits, integer.hpp:175-176; mpz_get_si returns the
    low 63 bits of the absolute value with the sign, and casts keep the low bits. *)
Definition wrap (w : Z) (z : Z) : Z := (z + 2 ^ (w - 1)) mod 2 ^ w - 2 ^ (w - 1).
Definition mpz_get_si (z : Z) : Z := Z.sgn z * (Z.abs z mod 2 ^ 63).
Definition z_get (w : Z) (z : Z) : option Z :=
  let n := wrap w (mpz_get_si z) in
  match z_of_int64 n with Some z' => if z' =? z then Some n else None | None => None end.

(** fac and bin, int.cpp:35-146: [w] is the width of the result, [bound] the largest
    argument the assertion lets through plus one. *)
Fixpoint fac_loop (w : Z) (i : Z) (k : nat) (r : Z) : Z :=
  match k with O => r | S k' => fac_loop w (i + 1) k' ((r * i) mod 2 ^ w) end.
Definition fac_w (w bound n : Z) : option Z :=
  if n <? bound then Some (fac_loop w 1 (Z.to_nat n) 1) else None.
Fixpoint bin_loop (w n : Z) (i : Z) (k : nat) (r : Z) : Z :=
  match k with O => r | S k' => bin_loop w n (i + 1) k' (((r * (n + 1 - i)) mod 2 ^ w) / i) end.
Definition bin_w (w bound n k : Z) : option Z :=
  if n <? bound then
    if n + 1 <? k then None else if k =? n + 1 then Some 0
    else Some (bin_loop w n 1 (Z.to_nat k) 1)
  else None.
