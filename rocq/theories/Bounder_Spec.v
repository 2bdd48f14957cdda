(** What a bounder promises: the solutions of the differential equation starting in the given box stay in the box
    which it returns, for the time step which it returns. *)
From Coq Require Import ZArith Reals List.
From Flocq Require Import Core IEEE754.BinarySingleNaN.
From Verif Require Import Float_Spec Bounds_Model Bounds_Spec ConstraintSolver_Spec Bounder_Model.
From Verif Require Exact_Model.
Import ListNotations.
Local Open Scope R_scope.

(** A vector field depending on the state, the time and the parameters. *)
Definition field := list R -> R -> list R -> list R.
Definition tval (d : Exact_Model.dyadic_fin) : R := IZR (Exact_Model.mant d) * bpow radix2 (Exact_Model.expo d).

Section Spec.
Context {prec emax : Z} {Hprec : Prec_gt_0 prec} {Hemax : Prec_lt_emax prec emax}.
Local Notation bnd := (bounds prec emax).
Local Notation fl := (binary_float prec emax).

(** [x] solves [x' = F (x, s, a)] for [t0 <= s <= t1] with parameters [a s] in [A].  It starts in [D]; the
    parameters may change with time in any way. *)
Record solves (F : field) (D A : list bnd) (t0 t1 : R) (x a : R -> list R) : Prop := {
  start_in : in_cbox D (x t0);
  length_kept : forall s, t0 <= s <= t1 -> length (x s) = length D;
  parameters_in : forall s, t0 <= s <= t1 -> in_cbox A (a s);
  state_continuous : forall i s, (i < length D)%nat -> t0 <= s <= t1 -> continuity_pt (fun r => nth i (x r) 0) s;
  state_derivative : forall i s, (i < length D)%nat -> t0 < s < t1 ->
    derivable_pt_lim (fun r => nth i (x r) 0) s (nth i (F (x s) s (a s)) 0)
}.

(** Near every point [F] is Lipschitz in the state, uniformly in the time and the parameters. *)
Definition locally_lipschitz (F : field) (n : nat) (A : list bnd) (t0 t1 : R) : Prop :=
  forall r, exists L, forall x y s a e, t0 <= s <= t1 -> in_cbox A a -> length x = n -> length y = n ->
  (forall i, (i < n)%nat -> Rabs (nth i x 0) <= r /\ Rabs (nth i y 0) <= r /\ Rabs (nth i x 0 - nth i y 0) <= e) ->
  forall i, (i < n)%nat -> Rabs (nth i (F x s a) 0 - nth i (F y s a) 0) <= L * e.

(** [f] encloses the field on boxes: its arguments are the state, the time unless the field is autonomous, and the
    parameters.  An autonomous field does not depend on the time. *)
Definition encloses_field (autonomous : bool) (F : field) (n : nat) (f : list bnd -> list bnd) : Prop :=
  (forall x s a, length x = n -> length (F x s a) = n) /\
  (if autonomous then forall B A x s a, in_cbox B x -> in_cbox A a -> length x = n -> in_cbox (f (B ++ A)) (F x s a)
   else forall B T A x s a, in_cbox B x -> contains T s -> in_cbox A a -> length x = n -> in_cbox (f (B ++ T :: A)) (F x s a)).

(** The promise for a step of size [h] from time [t]: it holds also for solutions which exist only for a shorter time. *)
Definition bounds_flow (F : field) (D A : list bnd) (t h : R) (B : list bnd) : Prop :=
  forall t1 x a, t < t1 <= t + h -> solves F D A t t1 x a -> forall s, t <= s <= t1 -> in_cbox B (x s).

(** A time which is a float, of absolute value at most [2^(emax-4)]. *)
Definition float_time (d : Exact_Model.dyadic_fin) : Prop :=
  exists x : fl, moderate x /\ B2R x = tval d.
End Spec.
