(** Specification vocabulary for linear programs, independent of the simplex algorithm. *)
From Coq Require Import Reals List Arith.
From Coquelicot Require Import Rbar.
From Verif Require Import Solver_Model Solver_Spec Logical_Model Simplex_Model.
Local Open Scope R_scope.

(** [v] is a solution of A v = b (m rows, n columns) within the bounds, which may be infinite. *)
Definition solves (m n : nat) (A : mat) (b v : vec) : Prop := forall i, (i < m)%nat -> sum n (fun j => A i j * v j) = b i.
Definition within (n : nat) (l u : nat -> Rbar) (v : vec) : Prop := forall j, (j < n)%nat -> Rbar_le (l j) (v j) /\ Rbar_le (v j) (u j).
Definition lp_feasible (m n : nat) (l u : nat -> Rbar) (A : mat) (b : vec) : Prop := exists v, solves m n A b v /\ within n l u v.
(** A point which violates the bounds by at most [tol] and the equations by less than [res]. *)
Definition nearly_feasible (m n : nat) (tol res : R) (l u : nat -> Rbar) (A : mat) (b : vec) : Prop :=
  exists v, (forall j, (j < n)%nat -> Rbar_le (l j) (v j + tol) /\ Rbar_le (v j - tol) (u j)) /\
            (forall i, (i < m)%nat -> Rabs (sum n (fun j => A i j * v j) - b i) < res).

(** A list of all the indices below [n], each once. *)
Definition all_indices (n : nat) (p : list nat) : Prop := length p = n /\ NoDup p /\ forall j, In j p <-> (j < n)%nat.

(** A legal choice of basis: [m] of the [n] variables are basic, every other one is at a bound,
    which is finite. *)
Fixpoint count (n : nat) (f : nat -> bool) : nat := match n with O => O | S k => ((if f k then 1 else 0) + count k f)%nat end.
Definition legal_basis (m n : nat) (l u : nat -> Rbar) (vt : nat -> slack) : Prop :=
  count n (fun j => slack_eqb (vt j) BASIS) = m /\
  forall j, (j < n)%nat -> match vt j with BASIS => True | LOWER => is_finite (l j) | UPPER => is_finite (u j) | FIXED => False end.

(** What the solver needs of its data operations: [val] is the extended real a datum stands for. *)
Section DATA.
  Variables (P : ops) (fin : num P -> option (R * R)) (L : lops P) (val : ld L -> Rbar) (tol res : R).
  Notation enc := (enc P fin).
  Record sound_data : Prop := mkSD {
    d_zero : val (l_zero L) = Finite 0;
    d_num : forall a r, val a = Finite r -> enc (l_num L a) r;
    d_lt_true : forall x a v, l_lt L x a = TRUE -> enc x v -> Rbar_lt v (val a);
    d_lt_false : forall x a v, l_lt L x a = FALSE -> enc x v -> Rbar_le (val a) v;
    d_gt_true : forall x a v, l_gt L x a = TRUE -> enc x v -> Rbar_lt (val a) v;
    d_gt_false : forall x a v, l_gt L x a = FALSE -> enc x v -> Rbar_le v (val a);
    d_near_lo : forall x a v, l_near_lo L x a = true -> enc x v -> Rbar_le (val a) (v + tol);
    d_near_hi : forall x a v, l_near_hi L x a = true -> enc x v -> Rbar_le (v - tol) (val a);
    d_res : forall x v, l_res L x = true -> enc x v -> Rabs v < res
  }.
  (** A linear program with finite coefficients, and the real one it stands for. *)
  Definition stands_for (m n : nat) (A : nat -> nat -> ld L) (b : nat -> ld L) (a : mat) (r : vec) : Prop :=
    (forall i j, (i < m)%nat -> (j < n)%nat -> val (A i j) = Finite (a i j)) /\ (forall i, (i < m)%nat -> val (b i) = Finite (r i)).
  (** The comparison of a computed number with the bounds of its range is decided. *)
  Definition decided (x : num P) (lo hi : ld L) : Prop :=
    is_determinate (l_gt L x lo) = true /\ is_determinate (l_lt L x hi) = true.
End DATA.
