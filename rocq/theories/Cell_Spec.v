(** Where cells are. A grid places the lattice in space, one coordinate at a time. *)
From Coq Require Import List Bool Arith ZArith QArith Reals.
From Verif Require Import Word_Model Cell_Model.

Definition point := nat -> R.
(** [g k q] is the space coordinate of lattice coordinate [q] in direction [k]. The code
    computes it as origin+length*q rounded to nearest (lattice_box_to_space,
    grid_paving.cpp:91-111), which is monotone but not exact; see [rounded_grid]. *)
Definition grid := nat -> Q -> R.
Definition monotone (g : grid) : Prop := forall k q q', (q <= q')%Q -> (g k q <= g k q')%R.
(** Distinct lattice coordinates have distinct images (no two cell edges collapse). *)
Definition strict (g : grid) : Prop := forall k q q', (q < q')%Q -> (g k q < g k q')%R.

(** Points of a half-open box. *)
Definition in_box (d : nat) (g : grid) (b : box) (x : point) : Prop :=
  forall k, (k < d)%nat -> (g k (fst (b k)) <= x k < g k (snd (b k)))%R.
Definition in_cell_box (d : nat) (g : grid) (c : cell) (x : point) : Prop :=
  in_box d g (cell_box d c) x.
(** Closed box. *)
Definition in_closed_box (d : nat) (g : grid) (b : box) (x : point) : Prop :=
  forall k, (k < d)%nat -> (g k (fst (b k)) <= x k <= g k (snd (b k)))%R.

(** Same bounds. *)
Definition same_box (d : nat) (b c : box) : Prop :=
  forall k, (k < d)%nat -> (fst (b k) == fst (c k))%Q /\ (snd (b k) == snd (c k))%Q.

Definition affine_grid (origin length : nat -> R) : grid := fun k q => (origin k + length k * Q2R q)%R.
(** lattice_box_to_space, grid_paving.cpp:91-110: each product and sum is rounded. *)
Definition rounded_grid (rnd : R -> R) (origin length : nat -> R) : grid :=
  fun k q => rnd (origin k + rnd (length k * rnd (Q2R q)))%R.
Definition monotone_rounding (rnd : R -> R) : Prop := forall x y, (x <= y)%R -> (rnd x <= rnd y)%R.
