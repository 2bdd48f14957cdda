(** What a subdivision tree means. A point of the subdivided cell is addressed by an
    infinite sequence of halves (false: lower, true: upper). *)
From Coq Require Import List Bool Arith.
From Verif Require Import Logical_Model Word_Model Tree_Model.
Import ListNotations.

Definition address := nat -> bool.
Definition tail (s : address) : address := fun n => s (S n).
Definition drop (k : nat) (s : address) : address := fun n => s (k + n).

(** The address lies in the cell with this path. *)
Definition in_cell (path : word) (s : address) : Prop :=
  forall i b, nth_error path i = Some b -> s i = b.

(** The point is in the set: the leaf containing it is marked TRUE. *)
Fixpoint covers (t : tree) (s : address) : Prop :=
  match t with
  | Lf m => m = TRUE
  | Nd _ l r => covers (if s 0 then r else l) (tail s)
  end.

(** Class invariant documented in binary_tree.hpp:69-73: leaves are enabled or
    disabled, other nodes are indeterminate. *)
Fixpoint wf (t : tree) : Prop :=
  match t with
  | Lf m => m = TRUE \/ m = FALSE
  | Nd m l r => m = INDET /\ wf l /\ wf r
  end.

(** The leaf of [t] reached by a path, if the path ends exactly there. *)
Fixpoint leaf_at (t : tree) (path : word) : option lv :=
  match t, path with
  | Lf m, [] => Some m
  | Nd _ l r, b :: p => leaf_at (if b then r else l) p
  | _, _ => None
  end.

(** No two sibling leaves carry the same mark. *)
Fixpoint reduced (t : tree) : Prop :=
  match t with
  | Lf _ => True
  | Nd _ l r => reduced l /\ reduced r /\ (forall m, ~ (l = Lf m /\ r = Lf m))
  end.

(** Trees built by any sequence of public operations starting from a single leaf. *)
Inductive reachable : tree -> Prop :=
| R_leaf b : reachable (Lf (make_lv b))
| R_split t : reachable t -> reachable (split t)
| R_mince d t : reachable t -> reachable (mince d t)
| R_recombine t : reachable t -> reachable (recombine t)
| R_restrict t u : reachable t -> reachable u -> reachable (restrict t u)
| R_remove t u : reachable t -> reachable u -> reachable (remove t u)
| R_add_tree t u : reachable t -> reachable u -> reachable (add_tree t u)
| R_add_tree_at t u p : reachable t -> reachable u -> reachable (add_tree_at t u p)
| R_add_path t p : reachable t -> reachable (add_path t p)
| R_prepend t p t' : reachable t -> prepend_tree p t = Some t' -> reachable t'
| R_make_leaf b t : reachable t -> reachable (make_leaf (make_lv b) t)
| R_set_enabled t t' : reachable t -> set_enabled t = Some t' -> reachable t'
| R_restore T L t ai lc : from_words T L = ROk t ai lc -> reachable t
| R_left m l r : reachable (Nd m l r) -> reachable l
| R_right m l r : reachable (Nd m l r) -> reachable r.
