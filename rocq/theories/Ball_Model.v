(** * Ball: floating-point value with an error bound

    Models /repo/source/numeric/float_ball.hpp and float_ball.tpl.hpp.

    Simplifications: the value type [F] and the error type [FE] are the same
    format, so [_make_error] (float_ball.hpp:453-457) is the identity; the
    only exception is the change of precision at the end of this file.  [hlf]
    is computed in the rounding mode in force when the operation is called;
    that mode is the parameter [m]. *)

From Coq Require Import ZArith Bool.
From Flocq Require Import Core IEEE754.BinarySingleNaN.
From Verif Require Import Float_Model Logical_Model Bounds_Model.

Section Ball.
Context {prec emax : Z}
        {Hprec : Prec_gt_0 prec} {Hemax : Prec_lt_emax prec emax}.
Notation fl := (binary_float prec emax).

Record ball := mkBall { v_ : fl; e_ : fl }.

(** float_ball.hpp:294-301: an exact float used as a ball has error 0. *)
Definition bl_of (x : fl) : ball := mkBall x fzero.

(** float_ball.hpp:140-141 [lower_raw], [upper_raw]; conversion to Bounds. *)
Definition bl_lower (x : ball) : fl := fsub down (v_ x) (e_ x).
Definition bl_upper (x : ball) : fl := fadd up (v_ x) (e_ x).
Definition bl_bounds (x : ball) : bounds prec emax := mkB (bl_lower x) (bl_upper x).

(** float_ball.tpl.hpp:58-61: the Ball of a Bounds. *)
Definition bl_of_bounds (x : bounds prec emax) : ball := mkBall (b_value x) (b_error x).

(** float_ball.hpp:467-469 [_neg], 471-473 [_hlf]. *)
Definition bl_neg (x : ball) : ball := mkBall (fneg (v_ x)) (e_ x).
Definition bl_hlf (m : mode) (x : ball) : ball := mkBall (fhlf m (v_ x)) (fhlf m (e_ x)).

(** float_ball.hpp:501-509 [_add]. *)
Definition bl_add (m : mode) (x y : ball) : ball :=
  let rv := fadd near (v_ x) (v_ y) in
  let ru := fadd up (v_ x) (v_ y) in
  let rl := fadd down (v_ x) (v_ y) in
  let se := fadd up (e_ x) (e_ y) in
  let ae := fhlf m (fsub up ru rl) in
  mkBall rv (fadd up ae se).

(** float_ball.hpp:511-518 [_sub]. *)
Definition bl_sub (m : mode) (x y : ball) : ball :=
  let rv := fsub near (v_ x) (v_ y) in
  let ru := fsub up (v_ x) (v_ y) in
  let rl := fsub down (v_ x) (v_ y) in
  let ae := fhlf m (fsub up ru rl) in
  mkBall rv (fadd up ae (fadd up (e_ x) (e_ y))).

(** float_ball.hpp:520-529 [_mul]. *)
Definition bl_mul (m : mode) (x y : ball) : ball :=
  let rv := fmul near (v_ x) (v_ y) in
  let ru := fmul up (v_ x) (v_ y) in
  let rl := fmul down (v_ x) (v_ y) in
  let re0 := fhlf m (fsub up ru rl) in
  let re1 := fadd up re0 (fmul up (e_ x) (e_ y)) in
  let re2 := fadd up (fmul up (fabs (v_ x)) (e_ y)) (fmul up (e_ x) (fabs (v_ y))) in
  mkBall rv (fadd up re1 re2).

(** float_ball.hpp:484-490 [_rec]; [approx] is to nearest (float-raw.hpp:77). *)
Definition bl_rec (x : ball) : ball :=
  let rv := frec near (v_ x) in
  let ru := frec up (fsub down (v_ x) (e_ x)) in
  let rl := frec down (fadd up (v_ x) (e_ x)) in
  mkBall rv (fmax (fsub up ru rv) (fsub up rv rl)).

(** float_ball.hpp:531-533 [_div]. *)
Definition bl_div (m : mode) (x y : ball) : ball := bl_mul m x (bl_rec y).

(** float_ball.hpp:475-482 [_sqr]. *)
Definition bl_sqr (m : mode) (x : ball) : ball :=
  let r := bl_mul m x x in
  if flt_lt (v_ r) (e_ r)
  then let e := fhlf m (fadd up (e_ r) (v_ r)) in mkBall e e
  else r.

(** float_ball.hpp:535-565: sums, ... of two exact floats. *)
Definition blf_add (m : mode) (x y : fl) : ball :=
  mkBall (fadd near x y) (fhlf m (fsub up (fadd up x y) (fadd down x y))).
Definition blf_sub (m : mode) (x y : fl) : ball :=
  mkBall (fsub near x y) (fhlf m (fsub up (fsub up x y) (fsub down x y))).
Definition blf_mul (m : mode) (x y : fl) : ball :=
  mkBall (fmul near x y) (fhlf m (fsub up (fmul up x y) (fmul down x y))).
Definition blf_div (m : mode) (x y : fl) : ball :=
  mkBall (fdiv near x y) (fhlf m (fsub up (fdiv up x y) (fdiv down x y))).

(** float_ball.hpp:567-573 [_pow], through Bounds. *)
Definition bl_pow (x : ball) (n : N) : ball := bl_of_bounds (b_pow (bl_bounds x) n).
Definition bl_powz (x : ball) (n : Z) : ball := bl_of_bounds (b_powz (bl_bounds x) n).

(** float_ball.hpp:612-615 [_abs], 617-623 [_max], [_min]. *)
Definition bl_abs (m : mode) (x : ball) : ball :=
  if flt_lt (e_ x) (fabs (v_ x)) then x
  else let rv := fhlf m (fadd up (fabs (v_ x)) (e_ x)) in mkBall rv rv.
Definition bl_max (m : mode) (x1 x2 : ball) : ball :=
  bl_hlf m (bl_add m (bl_add m x1 x2) (bl_abs m (bl_sub m x1 x2))).
Definition bl_min (m : mode) (x1 x2 : ball) : ball :=
  bl_hlf m (bl_sub m (bl_add m x1 x2) (bl_abs m (bl_sub m x1 x2))).

(** float_ball.hpp:625-631 [_mag], [_mig]. *)
Definition bl_mag (x : ball) : fl := fadd up (fabs (v_ x)) (e_ x).
Definition bl_mig (x : ball) : fl := fmax fzero (fsub down (fabs (v_ x)) (e_ x)).

(** float_ball.hpp:254-255 [sgn], 634-641 [_eq], [_lt]. *)
Definition bl_sgn (x : ball) : lv :=
  if flt_lt (e_ x) (v_ x) then TRUE else if flt_lt (v_ x) (fneg (e_ x)) then FALSE else INDET.
Definition bl_eq (x1 x2 : ball) : lv := b_eq (bl_bounds x1) (bl_bounds x2).
Definition bl_lt (x1 x2 : ball) : lv := b_lt (bl_bounds x1) (bl_bounds x2).

(** The distance computed in float_ball.hpp:382, 385, 388, 648, 660; [m] is
    the rounding mode. *)
Definition bl_dist (m : mode) (x y : fl) : fl := if flt_le y x then fsub m x y else fsub m y x.

(** float_ball.hpp:381-388: the friend functions. *)
Definition bl_consistent (x1 x2 : ball) : bool :=
  flt_le (bl_dist up (v_ x1) (v_ x2)) (fadd down (e_ x1) (e_ x2)).
Definition bl_inconsistent (x1 x2 : ball) : bool :=
  flt_lt (fadd up (e_ x1) (e_ x2)) (bl_dist down (v_ x1) (v_ x2)).
Definition bl_refines (x1 x2 : ball) : bool :=
  flt_le (fadd up (bl_dist up (v_ x1) (v_ x2)) (e_ x1)) (e_ x2).
(** float_ball.hpp:390-393. *)
Definition bl_refinement (x1 x2 : ball) : ball :=
  bl_of_bounds (b_refinement (bl_bounds x1) (bl_bounds x2)).
Definition bl_coarsening (x1 x2 : ball) : ball :=
  bl_of_bounds (b_coarsening (bl_bounds x1) (bl_bounds x2)).
(** float_ball.hpp:647-649 [_models], 659-661 [_refines]. *)
Definition bl_models (x1 : ball) (x2 : fl) : bool := flt_le (bl_dist up (v_ x1) x2) (e_ x1).
Definition op_refines (x1 x2 : ball) : bool :=
  flt_le (bl_dist up (v_ x1) (v_ x2)) (fsub down (e_ x2) (e_ x1)).

End Ball.
Arguments ball : clear implicits.

(** Conversion between two float formats, [F(x,rnd,pr)] (floatmp.cpp, the
    MPFR function mpfr_set; floatdp.cpp:84-131), taken to be the correctly
    rounded conversion. *)
Definition fconv {p1 e1 p2 e2 : Z} {Hp : Prec_gt_0 p2} {He : Prec_lt_emax p2 e2}
    (m : mode) (x : binary_float p1 e1) : binary_float p2 e2 :=
  match x with
  | B754_zero s => B754_zero s
  | B754_infinity s => B754_infinity s
  | B754_nan => B754_nan
  | B754_finite s mx ex _ => binary_normalize p2 e2 Hp He m (cond_Zopp s (Zpos mx)) ex s
  end.
