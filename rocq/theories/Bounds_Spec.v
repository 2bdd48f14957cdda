(** * What a Bounds value means *)

From Coq Require Import ZArith Reals.
From Flocq Require Import Core IEEE754.BinarySingleNaN.
From Verif Require Import Float_Spec Bounds_Model.
Local Open Scope R_scope.

Section Spec.
Context {prec emax : Z}.

(** The real [r] lies between the bounds (infinite bounds bound everything on
    their side, NaN bounds bound nothing). *)
Definition contains (X : bounds prec emax) (r : R) : Prop :=
  below (b_l X) r /\ above (b_u X) r.

(** The bounds are finite numbers. *)
Definition finite_bounds (X : bounds prec emax) : Prop :=
  is_finite (b_l X) = true /\ is_finite (b_u X) = true.

(** No bound is a NaN. *)
Definition no_nan (X : bounds prec emax) : Prop :=
  is_nan (b_l X) = false /\ is_nan (b_u X) = false.

(** Some real lies in the bounds. *)
Definition inhabited (X : bounds prec emax) : Prop := exists r, contains X r.

Definition subset (X Y : bounds prec emax) : Prop := forall r, contains X r -> contains Y r.

(** The whole extended line. *)
Definition whole_line (X : bounds prec emax) : Prop :=
  b_l X = B754_infinity true /\ b_u X = B754_infinity false.

End Spec.
