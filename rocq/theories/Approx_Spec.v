(** When the tests of a set are right. Boxes are closed. *)
From Coq Require Import List Bool Arith ZArith QArith Reals.
From Verif Require Import Logical_Model Word_Model Cell_Model Cell_Spec Approx_Model.

Definition in_closed_cell (d : nat) (g : grid) (c : cell) (x : point) : Prop := in_closed_box d g (cell_box d c) x.
Definition in_open_cell (d : nat) (g : grid) (c : cell) (x : point) : Prop :=
  forall k, (k < d)%nat -> (g k (fst (cell_box d c k)) < x k < g k (snd (cell_box d c k)))%R.
(** A definite answer is true; nothing is asked of the other answers. *)
Definition separated_sound (d : nat) (g : grid) (S : point -> Prop) (f : test) : Prop :=
  forall c, f c = TRUE -> forall x, in_closed_cell d g c x -> ~ S x.
Definition covers_sound (d : nat) (g : grid) (S : point -> Prop) (f : test) : Prop :=
  forall c, f c = TRUE -> forall x, in_closed_cell d g c x -> S x.
Definition overlaps_sound (d : nat) (g : grid) (S : point -> Prop) (f : test) : Prop :=
  forall c, f c = TRUE -> exists x, in_open_cell d g c x /\ S x.
