(** The operations of intervals which depend on the number type: the number types used
    as end points, the midpoint, widening and narrowing.  source/geometry/interval.inl.hpp,
    interval.cpp, box.hpp. *)
From Coq Require Import ZArith List Bool.
From Flocq Require Import Core IEEE754.BinarySingleNaN.
From Verif Require Import Float_Model Bounds_Model Ball_Model Box_Model.
From Verif Require Exact_Model.
Import ListNotations.

(** ** End points *)
(** FloatDP and FloatMP: the C comparisons, [std::max] and [std::min]. *)
Definition float_ops (prec emax : Z) : num_ops (binary_float prec emax) :=
  {| n_lt := fun x y => flt_lt x y; n_le := fun x y => flt_le x y; n_eq := fun x y => flt_eq x y;
     n_max := fun x y => fmax x y; n_min := fun x y => fmin x y; n_pinf := finf; n_ninf := fneg (finf) |}.
(** Rational, rational.hpp:108-113, rational.cpp:97-100. *)
Definition rational_ops : num_ops Exact_Model.rational :=
  {| n_lt := Exact_Model.r_lt; n_le := Exact_Model.r_le; n_eq := Exact_Model.r_eq;
     n_max := Exact_Model.r_max; n_min := Exact_Model.r_min; n_pinf := Exact_Model.PInf; n_ninf := Exact_Model.NInf |}.
(** Dyadic, dyadic.hpp, dyadic.cpp:87-90. *)
Definition dyadic_ops : num_ops Exact_Model.dyadic :=
  {| n_lt := Exact_Model.d_lt; n_le := Exact_Model.d_le; n_eq := Exact_Model.d_eq;
     n_max := Exact_Model.d_max; n_min := Exact_Model.d_min; n_pinf := Exact_Model.PInf; n_ninf := Exact_Model.NInf |}.

Section Floats.
Context {prec emax : Z} {Hprec : Prec_gt_0 prec} {Hemax : Prec_lt_emax prec emax}.
Notation fl := (binary_float prec emax).

(** interval.inl.hpp:29,48,156: the split point of an exact interval is
    [hlf(l+u).value()], where [l+u] is a Bounds (floatdp.hpp:241); [m] is the rounding
    mode in force, which [hlf] does not set. *)
Definition f_midpoint (m : mode) (l u : fl) : fl := b_value (b_hlf m (ff_add l u)).

(** interval.inl.hpp:182-187: LowerBound-UpperBound rounds down, UpperBound+UpperBound
    rounds up; [mn] is [F::min(pr)]. *)
Definition f_widen (i : interval fl) (e : fl) : interval fl :=
  upper_ivl (fsub down (e_raw (i_l i)) e) (fadd up (e_raw (i_u i)) e).
(** Interval<LowerBound<F>>: an under-approximation; the lower end is an UpperBound<F>. *)
Definition lower_ivl (l u : fl) : interval fl := mkI (mkE UB l) (mkE LB u).
(** interval.inl.hpp:189-194. *)
Definition f_narrow (i : interval fl) (e : fl) : interval fl :=
  lower_ivl (fadd up (e_raw (i_l i)) e) (fsub down (e_raw (i_u i)) e).
(** box.hpp:553-567 and 577-591. *)
Definition bx_widen (b : box fl) (e : fl) : box fl := map (fun i => f_widen i e) b.
Definition bx_narrow (b : box fl) (e : fl) : box fl := map (fun i => f_narrow i e) b.
End Floats.

(** ** Domains with single-precision end points *)
Notation SP := (binary_float 24 128).
#[global] Instance sp_prec : Prec_gt_0 24 := eq_refl.
#[global] Instance sp_emax : Prec_lt_emax 24 128 := eq_refl.
(** [std::numeric_limits<float>::min()]. *)
Definition sp_min : SP := binary_normalize 24 128 sp_prec sp_emax mode_NE 1 (-126) false.
Definition to_float (m : mode) (x : DP) : SP := fconv m x.
(** The exact conversion back, [ExactDouble(rl)]. *)
Definition to_double (x : SP) : DP := fconv mode_NE x.

(** interval.cpp:40-56, line by line.  All conversions to [float] and all additions round
    upwards; the comparisons [neg_rl<neg_l] and [ru<u] are made in double precision. *)
Definition widen_domain (i : interval DP) : interval DP :=
  let neg_l := fneg (e_raw (i_l i)) in
  let l := fneg neg_l in
  let u := e_raw (i_u i) in
  let neg_rl := to_float up neg_l in
  let ru := to_float up u in
  let (neg_rl, ru) := if flt_eq l u then (fadd up neg_rl sp_min, fadd up ru sp_min) else (neg_rl, ru) in
  let neg_rl := if flt_lt (to_double neg_rl) neg_l then fadd up neg_rl sp_min else neg_rl in
  let ru := if flt_lt (to_double ru) u then fadd up ru sp_min else ru in
  let rl := to_float up (fneg neg_l) in
  exact_ivl (to_double rl) (to_double ru).
(** box.hpp:569-575. *)
Definition bx_widen_domain (b : box DP) : box DP := map widen_domain b.
