(** Specification vocabulary for the feasibility tests: feasible points, differentiable
    functions from R^n to R^m, and what the interval operations are assumed to guarantee.
    Nothing here refers to the algorithms. *)
From Coq Require Import Reals List Arith.
From Verif Require Import Logical_Model Solver_Model Solver_Spec Optimiser_Model.
Local Open Scope R_scope.

(** [f : R^n -> R^m] is differentiable along every segment, with Jacobian matrix [Df], which is
    bounded on bounded boxes.  Every continuously differentiable function satisfies this. *)
Definition smooth_map (n m : nat) (f : vec -> vec) (Df : vec -> mat) : Prop :=
  (forall i y x t, (i < m)%nat -> 0 <= t <= 1 ->
     derivable_pt_lim (fun s => f (seg y x s) i) t (sum n (fun j => Df (seg y x t) i j * (x j - y j)))) /\
  (forall xl xu, exists B, forall v, (forall j, (j < n)%nat -> xl j <= v j <= xu j) ->
     forall i j, (i < m)%nat -> (j < n)%nat -> Rabs (Df v i j) <= B).

Section SPEC.
  Variables (P : ops) (X : xops P).
  Variable fin : num P -> option (R * R).
  Notation enc := (enc P fin). Notation venc := (venc P fin).
  (** The value of an exact number, and the reals in an exact and in an upper interval. *)
  Variables (val : pt X -> R) (inI : ival X -> R -> Prop) (inU : uiv X -> R -> Prop).

  (** The point [v] is feasible: v in D and f(v) in C. *)
  Definition in_box (n : nat) (D : nat -> ival X) (v : vec) : Prop := forall j, (j < n)%nat -> inI (D j) (v j).
  Definition feasible_for (n m : nat) (D : nat -> ival X) (f : vec -> vec) (C : nat -> ival X) (v : vec) : Prop :=
    in_box n D v /\ in_box m C (f v).
  Definition infeasible_problem (n m : nat) (D : nat -> ival X) (f : vec -> vec) (C : nat -> ival X) : Prop :=
    forall v, ~ feasible_for n m D f C v.

  (** The oracles of [g] enclose [f] and its Jacobian. *)
  Record encloses (n m : nat) (g : gfn P X) (f : vec -> vec) (Df : vec -> mat) : Prop := mkEncl {
    e_ev : forall x v i, venc n x v -> (i < m)%nat -> enc (g_ev P X g x i) (f v i);
    e_jac : forall x v i j, venc n x v -> (i < m)%nat -> (j < n)%nat -> enc (g_jac P X g x i j) (Df v i j);
    e_apply : forall x v i, (forall j, (j < n)%nat -> inU (x j) (v j)) -> (i < m)%nat -> inU (g_apply P X g x i) (f v i);
    e_jrange : forall x v i j, (forall j, (j < n)%nat -> inU (x j) (v j)) -> (i < m)%nat -> (j < n)%nat -> inU (g_jrange P X g x i j) (Df v i j);
    e_taylor : forall y D v, in_box n D v -> enc (g_taylor P X g y D) (sum m (fun i => val (y i) * f v i))
  }.

  (** What the tests need from the operations on exact and upper intervals. *)
  Record sound_x : Prop := mkSX {
    x_num_ok : forall x, enc (x_num X x) (val x);
    x_has_ok : forall i x, x_has X i x = true -> inI i (val x);
    x_single_ok : forall i, x_single X i = true -> inI i (val (x_lower X i)) /\ forall v, inI i v -> v = val (x_lower X i);
    x_cast_ok : forall i v, inI i v -> enc (x_cast X i) v;
    x_contains_ok : forall i x v, x_contains X i x = TRUE -> enc x v -> inI i v;
    x_disjoint_ok : forall i x v, x_disjoint X x i = TRUE -> enc x v -> ~ inI i v;
    x_subset_ok : forall i x v, x_subset X x i = TRUE -> enc x v -> inI i v;
    x_convex : forall i u v t, inI i u -> inI i v -> 0 <= t <= 1 -> inI i (u + t * (v - u));
    x_empty_ok : forall i, x_empty X i = true -> forall v, ~ inI i v;
    x_unit_ok : forall t, 0 <= t <= 1 -> enc (x_unit X) t;
    x_two_ok : enc (x_two X) 2;
    x_meet_ok : forall i u v, inI i v -> inU u v -> inI (x_meet X i u) v;
    x_meet_sub : forall i u v, inI (x_meet X i u) v -> inI i v;
    u_num_ok : forall x v, enc x v -> inU (u_num X x) v;
    u_ivl_ok : forall i v, inI i v -> inU (u_ivl X i) v;
    u_pt_ok : forall x, inU (u_pt X x) (val x);
    u_zero_ok : inU (u_zero X) 0;
    u_sym_ok : inU (u_sym X) 0;
    u_add_ok : forall a b u v, inU a u -> inU b v -> inU (u_add X a b) (u + v);
    u_sub_ok : forall a b u v, inU a u -> inU b v -> inU (u_sub X a b) (u - v);
    u_mul_ok : forall a b u v, inU a u -> inU b v -> inU (u_mul X a b) (u * v);
    u_disjoint_ok : forall a b v, u_disjoint X a b = TRUE -> inU a v -> ~ inU b v;
    u_apart_ok : forall a b v, u_apart X a b = TRUE -> inU a v -> ~ inU b v
  }.
End SPEC.
