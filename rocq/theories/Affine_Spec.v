(** * The functions enclosed by an affine model *)

From Coq Require Import ZArith NArith Reals List Bool.
From Flocq Require Import Core IEEE754.BinarySingleNaN.
From Verif Require Import Float_Model Bounds_Model Bounds_Spec Poly_Model Poly_Spec Taylor_Model Taylor_Spec Affine_Model.
Import ListNotations.
Local Open Scope R_scope.

(** The linear form with coefficients [c]. *)
Fixpoint linear (c x : list R) : R :=
  match c, x with a :: c, t :: x => a * t + linear c x | _, _ => 0 end.

Section Spec.
Context {prec emax : Z}.
Notation fl := (binary_float prec emax).

(** The affine function of a model, without the error. *)
Definition centre (a : am prec emax) (x : list R) : R := B2R (a_v a) + linear (map B2R (a_g a)) x.

(** [f] is within [k] times the error of the affine function on the unit box.
    An error which is not finite claims nothing. *)
Definition close (k : R) (a : am prec emax) (f : list R -> R) : Prop :=
  is_finite (a_e a) = true ->
  is_finite (a_v a) = true /\ Forall (fun c => is_finite c = true) (a_g a) /\
  forall x, in_box (length (a_g a)) x -> Rabs (f x - centre a x) <= k * B2R (a_e a).
Definition represents := close 1.
End Spec.
