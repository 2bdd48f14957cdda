(** Specification of hybrid pavings: sets of pairs of a location and a point. *)
From Coq Require Import List Bool Arith Sorted.
From Verif Require Import HybridPaving_Model.

Section SPEC.
  Variable G : paving_ops.
  Variables (point : Type) (inp : paving G -> point -> Prop) (inb : box G -> point -> Prop).
  (** what the operations on pavings of one location do *)
  Record right_pavings : Prop := {
    r_new : forall q x, ~ inp (g_new G q) x;
    r_adjoin : forall t s x, inp (g_adjoin G t s) x <-> inp t x \/ inp s x;
    r_remove : forall t s x, inp (g_remove G t s) x <-> inp t x /\ ~ inp s x;
    r_restrict : forall t s x, inp (g_restrict G t s) x <-> inp t x /\ inp s x;
    r_clear : forall t x, ~ inp (g_clear G t) x;
    r_empty : forall t, g_is_empty G t = true <-> forall x, ~ inp t x;
    r_subset : forall t s, g_subset G t s = true <-> forall x, inp t x -> inp s x;
    r_intersect : forall t s, g_intersect G t s = true <-> exists x, inp t x /\ inp s x;
    r_separated : forall t bx, g_separated G t bx = true -> forall x, inp t x -> ~ inb bx x;
    r_overlaps : forall t bx, g_overlaps G t bx = true -> exists x, inp t x /\ inb bx x;
    r_covers : forall t bx, g_covers G t bx = true -> forall x, inb bx x -> inp t x;
    r_inside : forall t bx, g_inside G t bx = true -> forall x, inp t x -> inb bx x }.
  (** x is a point of the hybrid set in location q *)
  Definition member (m : hpaving G) (q : nat) (x : point) : Prop := exists t, In (q, t) m /\ inp t x.
  (** x is in the box of location q *)
  Definition boxed (bxs : list (nat * box G)) (q : nat) (x : point) : Prop := exists bx, find q bxs = Some bx /\ inb bx x.
End SPEC.
(** the locations are stored in increasing order *)
Definition ordered {T : Type} (m : list (nat * T)) : Prop := StronglySorted lt (map fst m).
