(** What the constraint solver is supposed to do: it never loses a solution, and says that there is
    none, or that a point is one, only when this is so. *)
From Coq Require Import ZArith Reals List.
From Flocq Require Import Core IEEE754.BinarySingleNaN.
From Verif Require Import Logical_Model Float_Spec Bounds_Model Bounds_Spec.
From Verif Require Import ConstraintSolver_Model.
Import ListNotations.
Local Open Scope R_scope.

(** The point [x] with coordinate [v] replaced by [t]. *)
Fixpoint replace (v : nat) (t : R) (x : list R) : list R :=
  match x, v with
  | [], _ => []
  | _ :: r, O => t :: r
  | a :: r, S v' => a :: replace v' t r
  end.
Definition dot (a b : list R) : R := fold_right Rplus 0 (map (fun ab => fst ab * snd ab) (combine a b)).
(** The point [p + t d] *)
Definition along (p d : list R) (t : R) : list R := map (fun ab => fst ab + t * snd ab) (combine p d).
Definition minus (x p : list R) : list R := map (fun ab => fst ab - snd ab) (combine x p).

Section Spec.
Context {prec emax : Z}.
Local Notation bnd := (bounds prec emax).
Local Notation fl := (binary_float prec emax).

Definition in_cbox (B : list bnd) (x : list R) : Prop := Forall2 contains B x.

(** [ev] encloses the real function [f] on boxes; [f x y] says that [y] is the value at [x], and there may be none. *)
Definition encloses (f : list R -> R -> Prop) (ev : list bnd -> bnd) : Prop :=
  forall B x y, in_cbox B x -> f x y -> contains (ev B) y.

(** [x] is in the box and the value of [f] is in [c]. *)
Definition solution (f : list R -> R -> Prop) (c : bnd) (B : list bnd) (x : list R) : Prop :=
  in_cbox B x /\ exists y, f x y /\ contains c y.

(** The values of a function which has one everywhere. *)
Definition graph (f : list R -> R) : list R -> R -> Prop := fun x y => y = f x.

(** Finite numbers of absolute value at most [2^(emax-4)], that is [2^1020] in double precision. *)
Definition moderate (a : fl) : Prop := is_finite a = true /\ Rabs (B2R a) <= bpow radix2 (emax - 4).
Definition moderate_ivl (x : bnd) : Prop := moderate (b_l x) /\ moderate (b_u x).

(** A map of boxes which loses no solution. *)
Definition keeps (f : list R -> R -> Prop) (c : bnd) (h : list bnd -> list bnd) : Prop :=
  forall B x, solution f c B x -> in_cbox (h B) x.

(** [x] is in the box and solves all the constraints. *)
Definition solves_all (fcs : list ((list R -> R -> Prop) * bnd)) (B : list bnd) (x : list R) : Prop :=
  in_cbox B x /\ forall f c, In (f, c) fcs -> exists y, f x y /\ contains c y.

(** [d] is the derivative of [f] in coordinate [v] at the points of the box. *)
Definition partial_derivative (f d : list R -> R) (v : nat) (B : list bnd) : Prop :=
  forall x, in_cbox B x -> derivable_pt_lim (fun t => f (replace v t x)) (nth v x 0) (d x).

(** [dg] is the derivative of [g] on the box: along every line the derivative is the inner product with [dg]. *)
Definition has_gradient (g : list R -> R) (dg : list R -> list R) (B : list bnd) : Prop :=
  forall p d t, length p = length d -> in_cbox B (along p d t) ->
  derivable_pt_lim (fun s => g (along p d s)) t (dot (dg (along p d t)) d).

Definition moderate_box (B : list bnd) : Prop := List.Forall moderate_ivl B.
(** Moderate and with the ends in order *)
Definition proper_box (B : list bnd) : Prop := List.Forall (fun x => moderate_ivl x /\ B2R (b_l x) <= B2R (b_u x)) B.
(** The evaluators enclose the functions, and the bounds are the same. *)
Definition enclosing (fcs : list ((list R -> R -> Prop) * bnd)) (evs : list ((list bnd -> bnd) * bnd)) : Prop :=
  Forall2 (fun a b => encloses (fst a) (fst b) /\ snd a = snd b) fcs evs.

(** A point of the problem: in the domain with values in the codomain. *)
Definition feasible_point (F : list R -> list R -> Prop) (d c : list bnd) (x : list R) : Prop :=
  in_cbox d x /\ exists ys, F x ys /\ in_cbox c ys.

Definition nonnegative (a : fl) : Prop := is_finite a = true /\ 0 <= B2R a.
Definition finite_float (a : fl) : Prop := is_finite a = true.
(** What [feasible] relies on: the evaluations enclose the function, hull reduction loses no solution, boxes are
    split inside, and the optimiser gives finite non-negative multipliers. *)
Record sound_parts (F : list R -> list R -> Prop) (c : list bnd) (P : @solver_parts prec emax) : Prop := {
  s_eval : forall B x ys, in_cbox B x -> F x ys -> in_cbox (p_eval P B) ys;
  s_eval_point : forall B x ys, in_cbox B x -> F x ys -> in_cbox (p_eval_point P B) ys;
  s_linear : forall d co B x ys cr, in_cbox d x -> in_cbox B x -> F x ys -> in_cbox co cr ->
             contains (p_linear P d co B) (- dot cr (ys ++ x));
  s_hull : forall f g b, encloses f g -> keeps f b (p_hull P g b);
  s_hull_moderate : forall g b B, moderate_box B -> box_empty (p_hull P g b B) = false -> moderate_box (p_hull P g b B);
  s_hull_length : forall g b B, length (p_hull P g b B) = length B;
  s_mid : forall X, moderate_ivl X -> B2R (b_l X) <= B2R (b_u X) ->
          is_finite (p_mid P X) = true /\ B2R (b_l X) <= B2R (p_mid P X) <= B2R (b_u X);
  s_multipliers : forall d s, In s (p_steps P d) ->
          List.Forall nonnegative (o_x s) /\ (length (o_x s) = 2 * (length c + length d))%nat
}.
(** The points of the optimiser are finite and the function is defined there. *)
Definition points_defined (F : list R -> list R -> Prop) (c : list bnd) (P : @solver_parts prec emax) : Prop :=
  forall d s, In s (p_steps P d) -> List.Forall finite_float (o_y s) /\ length (o_y s) = length d /\
  exists ys, F (map B2R (o_y s)) ys /\ length c = length ys.
End Spec.
