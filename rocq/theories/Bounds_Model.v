(** * Bounds<F>: numbers represented by a lower and an upper float

    Models /repo/source/numeric/float_bounds.hpp, float_bounds.inl.hpp and
    float_bounds.tpl.hpp (Bounds<FloatDP>, Bounds<FloatMP>).  Only operations
    on operands of equal precision are modelled. *)

From Coq Require Import ZArith Bool.
From Flocq Require Import Core IEEE754.BinarySingleNaN.
From Verif Require Import Float_Model Logical_Model.

(** float_bounds.hpp:95-110: a pair of floats; the constructor checks nothing. *)
Record bounds (prec emax : Z) : Set :=
  mkB { b_l : binary_float prec emax; b_u : binary_float prec emax }.
Arguments mkB {prec emax} b_l b_u.
Arguments b_l {prec emax} _.
Arguments b_u {prec emax} _.

Section Bounds.
Context {prec emax : Z}
        {Hprec : Prec_gt_0 prec} {Hemax : Prec_lt_emax prec emax}.
Notation fl := (binary_float prec emax).
Notation bnd := (bounds prec emax).

(** [Bounds(F x)]: float_bounds.hpp:108. *)
Definition b_of (x : fl) : bnd := mkB x x.

(** float_bounds.hpp:210-211 *)
Definition b_neg (x : bnd) : bnd := mkB (fneg (b_u x)) (fneg (b_l x)).

(** float_bounds.hpp:212-213, with the current rounding mode as parameter. *)
Definition b_hlf (m : mode) (x : bnd) : bnd := mkB (fhlf m (b_l x)) (fhlf m (b_u x)).

(** float_bounds.hpp:214-217 *)
Definition b_sqr (x : bnd) : bnd :=
  if gt0 (b_l x) then mkB (fmul down (b_l x) (b_l x)) (fmul up (b_u x) (b_u x))
  else if lt0 (b_u x) then mkB (fmul down (b_u x) (b_u x)) (fmul up (b_l x) (b_l x))
  else mkB fzero (fmax (fmul up (b_l x) (b_l x)) (fmul up (b_u x) (b_u x))).

(** float_bounds.hpp:218-221 *)
Definition b_rec (x : bnd) : bnd :=
  if gt0 (b_l x) || lt0 (b_u x) then mkB (frec down (b_u x)) (frec up (b_l x))
  else mkB (fneg finf) finf.

(** float_bounds.hpp:223-226 *)
Definition b_add (x1 x2 : bnd) : bnd :=
  mkB (fadd down (b_l x1) (b_l x2)) (fadd up (b_u x1) (b_u x2)).
Definition b_sub (x1 x2 : bnd) : bnd :=
  mkB (fsub down (b_l x1) (b_u x2)) (fsub up (b_u x1) (b_l x2)).

(** float_bounds.hpp:595-629 *)
Definition b_mul (x1 x2 : bnd) : bnd :=
  let x1l := b_l x1 in let x1u := b_u x1 in
  let x2l := b_l x2 in let x2u := b_u x2 in
  if ge0 x1l then
    if ge0 x2l then mkB (fmul down x1l x2l) (fmul up x1u x2u)
    else if le0 x2u then mkB (fmul down x1u x2l) (fmul up x1l x2u)
    else mkB (fmul down x1u x2l) (fmul up x1u x2u)
  else if le0 x1u then
    if ge0 x2l then mkB (fmul down x1l x2u) (fmul up x1u x2l)
    else if le0 x2u then mkB (fmul down x1u x2u) (fmul up x1l x2l)
    else mkB (fmul down x1l x2u) (fmul up x1l x2l)
  else
    if ge0 x2l then mkB (fmul down x1l x2u) (fmul up x1u x2u)
    else if le0 x2u then mkB (fmul down x1u x2l) (fmul up x1l x2l)
    else mkB (fmin (fmul down x1u x2l) (fmul down x1l x2u))
             (fmax (fmul up x1l x2l) (fmul up x1u x2u)).

(** float_bounds.hpp:631-663 *)
Definition b_div (x1 x2 : bnd) : bnd :=
  let x1l := b_l x1 in let x1u := b_u x1 in
  let x2l := b_l x2 in let x2u := b_u x2 in
  if gt0 x2l then
    if ge0 x1l then mkB (fdiv down x1l x2u) (fdiv up x1u x2l)
    else if le0 x1u then mkB (fdiv down x1l x2l) (fdiv up x1u x2u)
    else mkB (fdiv down x1l x2l) (fdiv up x1u x2l)
  else if lt0 x2u then
    if ge0 x1l then mkB (fdiv down x1u x2u) (fdiv up x1l x2l)
    else if le0 x1u then mkB (fdiv down x1u x2l) (fdiv up x1l x2u)
    else mkB (fdiv down x1u x2u) (fdiv up x1l x2u)
  else mkB (fneg finf) finf.

(** float_bounds.hpp:665-668 *)
Definition b_fma (x1 x2 x3 : bnd) : bnd := b_add (b_mul x1 x2) x3.

(** float_bounds.hpp:263-266 *)
Definition b_abs (x : bnd) : bnd :=
  if ge0 (b_l x) then mkB (b_l x) (b_u x)
  else if le0 (b_u x) then mkB (fneg (b_u x)) (fneg (b_l x))
  else mkB fzero (fmax (fneg (b_l x)) (b_u x)).

(** float_bounds.hpp:233-236; an exponent is a natural number ([Nat]); the
    cast through [Int] is not modelled (exponents above 2^31-1). *)
Definition b_pow (x : bnd) (n : N) : bnd :=
  let y := if N.even n then b_abs x else x in
  mkB (fpow down (b_l y) n) (fpow up (b_u y) n).
Definition b_powz (x : bnd) (n : Z) : bnd :=
  if (n <? 0)%Z then b_pow (b_rec x) (Z.to_N (- n)) else b_pow x (Z.to_N n).

(** float_bounds.hpp:267-274 *)
Definition b_max (x1 x2 : bnd) : bnd := mkB (fmax (b_l x1) (b_l x2)) (fmax (b_u x1) (b_u x2)).
Definition b_min (x1 x2 : bnd) : bnd := mkB (fmin (b_l x1) (b_l x2)) (fmin (b_u x1) (b_u x2)).
Definition b_mig (x : bnd) : fl := fmax fzero (fmax (b_l x) (fneg (b_u x))).
Definition b_mag (x : bnd) : fl := fmax (fneg (b_l x)) (b_u x).

(** float_bounds.hpp:279-290, 323-329: comparisons. *)
Definition b_sgn (x : bnd) : lv :=
  if gt0 (b_l x) then TRUE else if lt0 (b_u x) then FALSE else INDET.
Definition b_eq (x1 x2 : bnd) : lv :=
  if flt_lt (b_u x1) (b_l x2) || flt_lt (b_u x2) (b_l x1) then FALSE
  else if flt_eq (b_l x1) (b_u x2) && flt_eq (b_u x1) (b_l x2) then TRUE
  else INDET.
Definition b_lt (x1 x2 : bnd) : lv :=
  if flt_lt (b_u x1) (b_l x2) then TRUE
  else if flt_le (b_u x2) (b_l x1) then FALSE
  else INDET.
Definition b_is_zero (x : bnd) : lv :=
  if gt0 (b_l x) || lt0 (b_u x) then FALSE
  else if flt_eq (b_l x) fzero && flt_eq (b_u x) fzero then TRUE
  else INDET.
Definition b_is_positive (x : bnd) : lv :=
  if ge0 (b_l x) then TRUE else if lt0 (b_u x) then FALSE else INDET.
(** arithmetic.hpp:644-654: [x1>x2] is [lt(x2,x1)], [x1<=x2] is
    [not lt(x2,x1)], [x1>=x2] is [not lt(x1,x2)], [x1!=x2] is [not eq]. *)
Definition b_gt (x1 x2 : bnd) : lv := b_lt x2 x1.
Definition b_le (x1 x2 : bnd) : lv := lv_neg (b_lt x2 x1).
Definition b_ge (x1 x2 : bnd) : lv := lv_neg (b_lt x1 x2).
Definition b_neq (x1 x2 : bnd) : lv := lv_neg (b_eq x1 x2).

(** float_bounds.hpp:300-304; [m] is [std::numeric_limits<float>::min()]
    = 2^-126. *)
Definition b_widen (m : fl) (x : bnd) : bnd := mkB (fsub down (b_l x) m) (fadd up (b_u x) m).
Definition b_narrow (m : fl) (x : bnd) : bnd := mkB (fadd up (b_l x) m) (fadd down (b_u x) m).

(** float_bounds.hpp:336-355 *)
Definition b_same (x1 x2 : bnd) : bool := flt_eq (b_l x1) (b_l x2) && flt_eq (b_u x1) (b_u x2).
Definition b_models (x1 : bnd) (x2 : fl) : bool := flt_le (b_l x1) x2 && flt_le x2 (b_u x1).
Definition b_consistent (x1 x2 : bnd) : bool := flt_le (b_l x1) (b_u x2) && flt_le (b_l x2) (b_u x1).
Definition b_inconsistent (x1 x2 : bnd) : bool := flt_lt (b_u x2) (b_l x1) || flt_lt (b_u x1) (b_l x2).
Definition b_refines (x1 x2 : bnd) : bool := flt_le (b_l x2) (b_l x1) && flt_le (b_u x1) (b_u x2).
Definition b_refinement (x1 x2 : bnd) : bnd := mkB (fmax (b_l x1) (b_l x2)) (fmin (b_u x1) (b_u x2)).
Definition b_coarsening (x1 x2 : bnd) : bnd := mkB (fmin (b_l x1) (b_l x2)) (fmax (b_u x1) (b_u x2)).

(** float_bounds.tpl.hpp:61-67: value, error, pm *)
Definition b_value (x : bnd) : fl := fmed near (b_l x) (b_u x).
Definition b_error (x : bnd) : fl :=
  let v := b_value x in fmax (fsub up (b_u x) v) (fsub up v (b_l x)).
Definition b_pm (x : bnd) (e : fl) : bnd := mkB (fsub down (b_l x) e) (fadd up (b_u x) e).

(** float_bounds.hpp:377-384: operations on two exact floats. *)
Definition ff_add (x y : fl) : bnd := mkB (fadd down x y) (fadd up x y).
Definition ff_sub (x y : fl) : bnd := mkB (fsub down x y) (fsub up x y).
Definition ff_mul (x y : fl) : bnd := mkB (fmul down x y) (fmul up x y).
Definition ff_div (x y : fl) : bnd := mkB (fdiv down x y) (fdiv up x y).
Definition ff_pow (x : fl) (n : N) : bnd := mkB (fpow down x n) (fpow up x n).
Definition ff_sqr (x : fl) : bnd := mkB (fsqr down x) (fsqr up x).
Definition ff_rec (x : fl) : bnd := mkB (frec down x) (frec up x).

(** float_bounds.hpp:396-420: mixed operations. *)
Definition bf_add (x1 : bnd) (x2 : fl) : bnd := mkB (fadd down (b_l x1) x2) (fadd up (b_u x1) x2).
Definition bf_sub (x1 : bnd) (x2 : fl) : bnd := mkB (fsub down (b_l x1) x2) (fsub up (b_u x1) x2).
Definition bf_mul (x1 : bnd) (x2 : fl) : bnd := b_mul x1 (b_of x2).
Definition bf_div (x1 : bnd) (x2 : fl) : bnd := b_div x1 (b_of x2).
Definition fb_add (x1 : fl) (x2 : bnd) : bnd := mkB (fadd down x1 (b_l x2)) (fadd up x1 (b_u x2)).
Definition fb_sub (x1 : fl) (x2 : bnd) : bnd := mkB (fsub down x1 (b_u x2)) (fsub up x1 (b_l x2)).
Definition fb_mul (x1 : fl) (x2 : bnd) : bnd := b_mul (b_of x1) x2.
Definition fb_div (x1 : fl) (x2 : bnd) : bnd := b_div (b_of x1) x2.

(** float_bounds.inl.hpp:33-47: the alternative mixed additions of
    [Operations<Bounds<F>>]. *)
Definition op_add_bf (x1 : bnd) (x2 : fl) : bnd := mkB (fadd down (b_l x1) x2) (fadd up (b_u x1) x2).
Definition op_add_fb (x1 : fl) (x2 : bnd) : bnd := mkB (fadd down x1 (b_l x2)) (fadd down x1 (b_u x2)).
(** float_bounds.inl.hpp:49-75 *)
Definition op_mul_bf (x1 : bnd) (x2 : fl) : bnd :=
  if ge0 x2 then mkB (fmul down (b_l x1) x2) (fmul up (b_u x1) x2)
  else mkB (fmul down (b_u x1) x2) (fmul up (b_l x1) x2).
Definition op_mul_fb (x1 : fl) (x2 : bnd) : bnd :=
  if ge0 x1 then mkB (fmul down x1 (b_l x2)) (fmul up x1 (b_u x2))
  else mkB (fmul down x1 (b_u x2)) (fmul up x1 (b_l x2)).
(** float_bounds.inl.hpp:77-113 *)
Definition op_div_bf (x1 : bnd) (x2 : fl) : bnd :=
  if gt0 x2 then mkB (fdiv down (b_l x1) x2) (fdiv up (b_u x1) x2)
  else if lt0 x2 then mkB (fdiv down (b_u x1) x2) (fdiv up (b_l x1) x2)
  else mkB (fneg finf) finf.
Definition op_div_fb (x1 : fl) (x2 : bnd) : bnd :=
  if le0 (b_l x2) && ge0 (b_u x2) then mkB (fneg finf) finf
  else if ge0 x1 then mkB (fdiv down x1 (b_u x2)) (fdiv up x1 (b_l x2))
  else mkB (fdiv down x1 (b_l x2)) (fdiv up x1 (b_u x2)).

(** float_bounds.hpp:504-553: Positive<Bounds<F>>, where both bounds are
    non-negative. *)
Definition pb_sqr (x : bnd) : bnd := mkB (fsqr down (b_l x)) (fsqr up (b_u x)).
Definition pb_rec (x : bnd) : bnd := mkB (frec down (b_u x)) (frec up (b_l x)).
Definition pb_add (x1 x2 : bnd) : bnd := mkB (fadd down (b_l x1) (b_l x2)) (fadd up (b_u x1) (b_u x2)).
Definition pb_mul (x1 x2 : bnd) : bnd := mkB (fmul down (b_l x1) (b_l x2)) (fmul up (b_u x1) (b_u x2)).
Definition pb_div (x1 x2 : bnd) : bnd := mkB (fdiv down (b_l x1) (b_u x2)) (fdiv up (b_u x1) (b_l x2)).
Definition pb_max (x1 x2 : bnd) : bnd := mkB (fmax (b_l x1) (b_l x2)) (fmax (b_u x1) (b_u x2)).
Definition pb_min (x1 x2 : bnd) : bnd := mkB (fmin (b_l x1) (b_l x2)) (fmin (b_u x2) (b_u x2)).

End Bounds.
