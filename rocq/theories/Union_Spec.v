(** Specification of unions of intervals: sets of real numbers. *)
From Coq Require Import QArith Qreals Reals List.
From Coquelicot Require Import Hierarchy RInt.
From Verif Require Import Union_Model.
Local Open Scope R_scope.

(** the points of a list of closed intervals, and the points inside one of them *)
Definition member (l : list ivl) (x : R) : Prop := exists i, In i l /\ Q2R (lo i) <= x <= Q2R (up i).
Definition inner_member (l : list ivl) (x : R) : Prop := exists i, In i l /\ Q2R (lo i) < x < Q2R (up i).
(** all intervals are non-empty; all have positive length *)
Definition all_nonempty (l : list ivl) : Prop := forall i, In i l -> Q2R (lo i) <= Q2R (up i).
Definition all_proper (l : list ivl) : Prop := forall i, In i l -> Q2R (lo i) < Q2R (up i).
(** m is the length of the set of points S, which lies between a and b *)
Definition length_between (S : R -> Prop) (a b m : R) : Prop :=
  exists f : R -> R, (forall x, (S x -> f x = 1) /\ (~ S x -> f x = 0)) /\ is_RInt (V := R_NormedModule) f a b m.
