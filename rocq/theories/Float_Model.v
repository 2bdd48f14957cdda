(** * Raw floating-point numbers: FloatDP / FloatMP with explicit rounding

    Models the raw operations of /repo/source/numeric/floatdp.hpp,
    floatmp.hpp, double.cpp on which Bounds, Ball, Error and
    UpperBound are built.

    A raw float is a Flocq [binary_float prec emax] (IEEE-754 with one NaN).
    FloatDP is the instance [prec = 53], [emax = 1024]; all definitions are
    generic in the precision and the exponent range.

    Simplifications:
    - the hardware/MPFR operations [add(rnd,x,y)], [mul(rnd,x,y)], ... are
      taken to be the correctly rounded IEEE operations in mode [rnd]
      (floatdp.hpp:353-368 saves the mode, sets it, performs the C operation
      and restores the mode; that save/restore is not modelled);
    - MPFR's numbers have no subnormals and a larger exponent range; FloatMP
      is modelled by the same IEEE formats with arbitrary [prec] and [emax];
    - all operands of one operation have the same precision. *)

From Coq Require Import ZArith Bool.
From Flocq Require Import Core IEEE754.BinarySingleNaN.

Section Raw.
Context (prec emax : Z)
        {Hprec : Prec_gt_0 prec} {Hemax : Prec_lt_emax prec emax}.

Definition flt := binary_float prec emax.

(** floatdp.hpp:55-58 [_generic_cmp] and float_operations.hpp:125-130: the
    comparison of a float with an integer or double literal goes through a
    three-valued comparison which answers EQUAL for a NaN.  So [x>=0] is
    [not (x<0)] and [x<=0] is [not (x>0)]. *)
Definition fzero : flt := B754_zero false.
Definition finf : flt := B754_infinity false.
Definition gt0 (x : flt) : bool := Bltb fzero x.
Definition lt0 (x : flt) : bool := Bltb x fzero.
Definition ge0 (x : flt) : bool := negb (lt0 x).
Definition le0 (x : flt) : bool := negb (gt0 x).

(** floatdp.hpp: comparison of two floats is the C comparison. *)
Definition flt_lt (x y : flt) : bool := Bltb x y.
Definition flt_le (x y : flt) : bool := Bleb x y.
Definition flt_eq (x y : flt) : bool := Beqb x y.

(** floatdp.hpp:302-303, [std::max(x1,x2)] = [(x1<x2)?x2:x1],
    [std::min(x1,x2)] = [(x2<x1)?x2:x1]. *)
Definition fmax (x y : flt) : flt := if Bltb x y then y else x.
Definition fmin (x y : flt) : flt := if Bltb y x then y else x.

(** floatdp.hpp:249-270: [neg] flips the sign. *)
Definition fneg (x : flt) : flt := Bopp x.
Definition fabs (x : flt) : flt := Babs x.

(** double.cpp:315-328, floatdp.hpp:353-400: rounded operations. *)
Definition fadd (m : mode) (x y : flt) : flt := Bplus m x y.
Definition fsub (m : mode) (x y : flt) : flt := Bminus m x y.
Definition fmul (m : mode) (x y : flt) : flt := Bmult m x y.
Definition fdiv (m : mode) (x y : flt) : flt := Bdiv m x y.
Definition ffma (m : mode) (x y z : flt) : flt := Bfma m x y z.
Definition fone : flt := Bone.
Definition ftwo : flt := Bldexp mode_NE Bone 1.
(** [rec(rnd,x)] = [1/x]; [sqr(rnd,x)] = [x*x]. *)
Definition frec (m : mode) (x : flt) : flt := fdiv m fone x.
Definition fsqr (m : mode) (x : flt) : flt := fmul m x x.

(** floatdp.hpp:267: [hlf(x)] = [x/2], computed in whatever rounding mode is
    current; the mode is therefore a parameter. *)
Definition fhlf (m : mode) (x : flt) : flt := fdiv m x ftwo.

(** floatdp.hpp:407-409: [med(rnd,x1,x2)] = [hlf(add(rnd,x1,x2))], computed
    entirely in mode [rnd]. *)
Definition fmed (m : mode) (x y : flt) : flt := fhlf m (fadd m x y).

(** double.cpp:105-113 [pow_rnd(double,Nat)].  The loop
    [while(m) { if(m%2) r=r*p; p=p*p; m/=2; }] over the binary digits of
    [m>0], all multiplications in the same mode. *)
Fixpoint pow_pos (md : mode) (r p : flt) (m : positive) : flt :=
  match m with
  | xH => fmul md r p
  | xO m' => pow_pos md r (fmul md p p) m'
  | xI m' => pow_pos md (fmul md r p) (fmul md p p) m'
  end.

(** The second loop [while(m) { if(m%2) r=(-r)*p; p=(-p)*p; m/=2; }], entered
    with [r=-1], [p=x<0]. *)
Fixpoint pow_neg (md : mode) (r p : flt) (m : positive) : flt :=
  match m with
  | xH => fmul md (fneg r) p
  | xO m' => pow_neg md r (fmul md (fneg p) p) m'
  | xI m' => pow_neg md (fmul md (fneg r) p) (fmul md (fneg p) p) m'
  end.

Definition fpow (md : mode) (x : flt) (n : N) : flt :=
  match n with
  | N0 => fone
  | Npos m =>
    if Beqb x fzero then fzero
    else if gt0 x || N.even n then pow_pos md fone (fabs x) m
    else pow_neg md (fneg fone) x m
  end.

End Raw.

Arguments fzero {prec emax}.
Arguments finf {prec emax}.
Arguments gt0 {prec emax} x.
Arguments lt0 {prec emax} x.
Arguments ge0 {prec emax} x.
Arguments le0 {prec emax} x.
Arguments flt_lt {prec emax} x y.
Arguments flt_le {prec emax} x y.
Arguments flt_eq {prec emax} x y.
Arguments fmax {prec emax} x y.
Arguments fmin {prec emax} x y.
Arguments fneg {prec emax} x.
Arguments fabs {prec emax} x.
Arguments fadd {prec emax Hprec Hemax} m x y.
Arguments fsub {prec emax Hprec Hemax} m x y.
Arguments fmul {prec emax Hprec Hemax} m x y.
Arguments fdiv {prec emax Hprec Hemax} m x y.
Arguments ffma {prec emax Hprec Hemax} m x y z.
Arguments fone {prec emax Hprec Hemax}.
Arguments ftwo {prec emax Hprec Hemax}.
Arguments frec {prec emax Hprec Hemax} m x.
Arguments fsqr {prec emax Hprec Hemax} m x.
Arguments fhlf {prec emax Hprec Hemax} m x.
Arguments fmed {prec emax Hprec Hemax} m x y.
Arguments pow_pos {prec emax Hprec Hemax} md r p m.
Arguments pow_neg {prec emax Hprec Hemax} md r p m.
Arguments fpow {prec emax Hprec Hemax} md x n.

Notation down := mode_DN.
Notation up := mode_UP.
Notation near := mode_NE.

(** FloatDP (floatdp.hpp): IEEE double precision; [dp m e] is the double
    nearest to [m * 2^e]. *)
Notation DP := (binary_float 53 1024).
#[global] Instance dp_prec : Prec_gt_0 53 := eq_refl.
#[global] Instance dp_emax : Prec_lt_emax 53 1024 := eq_refl.
Definition dp (m e : Z) : DP := binary_normalize 53 1024 dp_prec dp_emax mode_NE m e false.
