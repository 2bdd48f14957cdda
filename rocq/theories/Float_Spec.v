(** * Reals, floats and what it means for a float to bound a real *)

From Coq Require Import ZArith Reals.
From Flocq Require Import Core IEEE754.BinarySingleNaN.
Local Open Scope R_scope.

Section Spec.
Context {prec emax : Z}.

(** A float read as an extended real: [below f r] says that [f] is a number
    (not a NaN) and [f <= r] in the extended real line. *)
Definition below (f : binary_float prec emax) (r : R) : Prop :=
  match f with
  | B754_nan => False
  | B754_infinity s => s = true
  | _ => B2R f <= r
  end.

Definition above (f : binary_float prec emax) (r : R) : Prop :=
  match f with
  | B754_nan => False
  | B754_infinity s => s = false
  | _ => r <= B2R f
  end.

(** The real number denoted by a finite float. *)
Definition val (f : binary_float prec emax) : R := B2R f.

End Spec.
