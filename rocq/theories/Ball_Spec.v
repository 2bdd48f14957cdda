(** * What a Ball means *)

From Coq Require Import ZArith Reals.
From Flocq Require Import Core IEEE754.BinarySingleNaN.
From Verif Require Import Float_Spec Bounds_Model Ball_Model.
Local Open Scope R_scope.

Section Spec.
Context {prec emax : Z}.

(** The value is a number and [r] is within the error of it. *)
Definition in_ball (X : ball prec emax) (r : R) : Prop :=
  is_finite (v_ X) = true /\ above (e_ X) (Rabs (r - val (v_ X))).

Definition finite_ball (X : ball prec emax) : Prop :=
  is_finite (v_ X) = true /\ is_finite (e_ X) = true.

(** [r] is zero or is not in the range where floats lose precision (for
    FloatDP: |r| >= 2^-1021). *)
Definition no_underflow (r : R) : Prop := r = 0 \/ bpow radix2 (3 - emax) <= Rabs r.

End Spec.
Arguments no_underflow : clear implicits.
