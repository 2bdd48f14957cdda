(** Product spaces. *)
From Coq Require Import List Bool Arith ZArith QArith Reals.
From Verif Require Import Word_Model Cell_Model Cell_Spec.

(** join(grid,grid): the coordinates of the second after those of the first. *)
Local Open Scope nat_scope.
Definition join_grid (n1 : nat) (g1 g2 : grid) : grid := fun k => if k <? n1 then g1 k else g2 (k - n1).
(** The second component of a point of the product space; the first is the point itself. *)
Definition second (n1 : nat) (x : point) : point := fun k => x (n1 + k).
Definition project_grid (prj : list nat) (g : grid) : grid := fun k => g (nth k prj 0).
(** [y] is the projection of [x]. *)
Definition projects (prj : list nat) (x y : point) : Prop := forall i j, nth_error prj i = Some j -> y i = x j.
(** The cell is at per-dimension depth [r]: [r] halvings of the unit cube in each direction. *)
Definition uniform (n : nat) (r : Z) (c : cell) : Prop := Z.of_nat (length (c_word c)) = ((r + Z.of_nat (c_ext c)) * Z.of_nat n)%Z.
