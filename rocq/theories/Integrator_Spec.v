(** What an integrator promises: the function model which it returns encloses the solutions of the differential
    equation for the time step which it returns. *)
From Coq Require Import ZArith Reals List Bool.
From Flocq Require Import Core IEEE754.BinarySingleNaN.
From Verif Require Import Float_Model Bounds_Model Bounds_Spec ConstraintSolver_Model ConstraintSolver_Spec Bounder_Model Bounder_Spec Integrator_Model.
From Verif Require Exact_Model.
Import ListNotations.
Local Open Scope R_scope.

Section Spec.
Context {prec emax : Z} {Hprec : Prec_gt_0 prec} {Hemax : Prec_lt_emax prec emax}.
Local Notation bnd := (bounds prec emax).
Local Notation fl := (binary_float prec emax).
Context {M : Type}.

(** [enc m x s a y]: the model [m] at the initial state [x], the time [s] and the parameters [a] encloses [y]. *)
Definition enclosure := M -> list R -> R -> list R -> list R -> Prop.

(** The promise for a step of size [h] from time [t], also for solutions which exist only for a shorter time. *)
Definition encloses_flow (enc : enclosure) (F : field) (D A : list bnd) (t h : R) (m : M) : Prop :=
  forall t1 x a, t < t1 <= t + h -> solves F D A t t1 x (fun _ => a) -> forall s, t <= s <= t1 -> enc m (x t) s a (x s).

Definition vadd (x y : list R) : list R := map (fun p => fst p + snd p) (combine x y).
Definition vsub (x y : list R) : list R := map (fun p => fst p - snd p) (combine x y).

(** What is required of the operations on function models: they enclose the operations on functions.  The
    antiderivative is the integral from the initial time. *)
Record sound_operations (enc : enclosure) (ops : operations (prec := prec) (emax := emax) M) (F : field) (D A : list bnd) (t h : R) (B : list bnd) : Prop := {
  s_projection : forall x s a, in_cbox D x -> t <= s <= t + h -> in_cbox A a -> enc (m_projection ops) x s a x;
  s_constants : forall x s a y, in_cbox D x -> t <= s <= t + h -> in_cbox A a -> in_cbox B y -> enc (m_constants ops) x s a y;
  s_compose : forall m m' x s a y, m_compose ops m = Some m' -> in_cbox D x -> t <= s <= t + h -> in_cbox A a ->
    length y = length D -> enc m x s a y -> enc m' x s a (F y s a);
  s_add : forall m1 m2 x s a y1 y2, in_cbox D x -> t <= s <= t + h -> in_cbox A a -> length y1 = length D -> length y2 = length D ->
    enc m1 x s a y1 -> enc m2 x s a y2 -> enc (m_add ops m1 m2) x s a (vadd y1 y2);
  s_antiderivative : forall m x s a (w v : R -> list R), in_cbox D x -> t <= s <= t + h -> in_cbox A a ->
    (forall r, t <= r <= s -> length (w r) = length D /\ length (v r) = length D) ->
    (forall i r, (i < length D)%nat -> t <= r <= s -> continuity_pt (fun q => nth i (w q) 0) r) ->
    (forall i r, (i < length D)%nat -> t < r < s -> derivable_pt_lim (fun q => nth i (w q) 0) r (nth i (v r) 0)) ->
    (forall r, t <= r <= s -> enc m x r a (v r)) ->
    enc (m_antiderivative ops m) x s a (vsub (w s) (w t));
  s_restriction : forall m x s a y, in_cbox D x -> t <= s <= t + h -> in_cbox A a -> enc m x s a y -> enc (m_restriction ops m) x s a y
}.

(** The functions enclosed by the result of the affine integrator. *)
Definition affine_encloses (l : list (affine_model (prec := prec) (emax := emax))) (x : list R) (s : R) (y : list R) : Prop :=
  Forall2 (fun m yi => is_finite (a_error m) = true -> exists v c d e,
      contains (a_value m) v /\ in_cbox (a_state m) c /\ contains (a_time m) d /\ Rabs e <= B2R (a_error m) /\
      yi = v + fold_right Rplus 0 (map (fun q => fst q * (fst (snd q) - B2R (snd (snd q)))) (combine c (combine x (a_centre m)))) + d * s + e) l y.

(** A box is in the interior of another. *)
Definition in_interior (B1 B2 : list bnd) : Prop :=
  length B1 = length B2 /\ forall i, (i < length B1)%nat -> is_finite (b_l (coord B1 i)) = true /\ is_finite (b_u (coord B1 i)) = true /\
    is_finite (b_l (coord B2 i)) = true /\ is_finite (b_u (coord B2 i)) = true /\
    B2R (b_l (coord B2 i)) < B2R (b_l (coord B1 i)) /\ B2R (b_u (coord B1 i)) < B2R (b_u (coord B2 i)).

(** What is required of a series step: for solutions which stay in the bound it encloses them, and the range contains
    the values enclosed. *)
Record sound_series (enc : enclosure) (series : Exact_Model.dyadic_fin -> list bnd -> M) (range : M -> list bnd) (F : field) (D : list bnd) : Prop := {
  s_series : forall h B t1 x, 0 < t1 <= tval h -> solves F D ([] : list bnd) 0 t1 x (fun _ => []) ->
    (forall s, 0 <= s <= t1 -> in_cbox B (x s)) -> forall s, 0 <= s <= t1 -> enc (series h B) (x 0) s [] (x s);
  s_start : forall h B x, in_cbox D x -> enc (series h B) x 0 [] x;
  s_range : forall h B x s y, in_cbox D x -> 0 <= s <= tval h -> enc (series h B) x s [] y -> in_cbox (range (series h B)) y
}.
End Spec.
Arguments enclosure : clear implicits.
