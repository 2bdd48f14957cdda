(** Specification of sets in named variables: sets of valuations. *)
From Coq Require Import List Bool Arith.
From Verif Require Import Labelled_Model.

(** the valuation w satisfies the bounds; [inI] is membership in an interval *)
Definition satisfies {I X : Type} (inI : I -> X -> Prop) (b : list (nat * I)) (w : nat -> X) : Prop := forall v i, In (v, i) b -> inI i (w v).
(** the point x of Euclidean space is in the box *)
Definition in_box {I X : Type} (inI : I -> X -> Prop) (bx : list I) (x : list X) : Prop := Forall2 inI bx x.
(** the coordinates of a valuation with the variables in the order of a space *)
Definition coordinates {X : Type} (s : space) (w : nat -> X) : list X := map w s.
(** whether a constraint holds depends on its arguments only *)
Definition depends_on_arguments {X : Type} (c : constraint X) : Prop := forall w u, (forall v, In v (c_args X c) -> w v = u v) -> c_holds X c w = c_holds X c u.
