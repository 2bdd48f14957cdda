(** Specification of sets in several locations: sets of pairs of a location and a point. *)
From Coq Require Import List Bool Arith.
From Verif Require Import HybridPaving_Model HybridPaving_Spec HybridSet_Model.

(** x is a point of the set in location q; [ins] is membership in the sets of one location *)
Definition member {S point : Type} (ins : S -> point -> Prop) (m : list (nat * S)) (q : nat) (x : point) : Prop := exists s, In (q, s) m /\ ins s x.

(** what the operations on the sets of one location do *)
Record right_sets (O : set_ops) (point : Type) (ins : set O -> point -> Prop) (inb : ebox O -> point -> Prop) : Prop := {
  r_overlaps : forall s bx, s_overlaps O s bx = true -> exists x, ins s x /\ inb bx x;
  r_covers : forall s bx, s_covers O s bx = true -> forall x, inb bx x -> ins s x;
  r_separated : forall s bx, s_separated O s bx = true -> forall x, ins s x -> ~ inb bx x;
  r_inside : forall s bx, s_inside O s bx = true -> forall x, ins s x -> inb bx x;
  r_bound : forall s x, ins s x -> inb (s_bound O s) x;
  r_empty : forall bx, b_is_empty O bx = true -> forall x, ~ inb bx x }.
