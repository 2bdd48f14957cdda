(** The points covered by a paving: those of the enabled leaf cells. *)
From Coq Require Import List Bool Arith ZArith QArith Reals.
From Verif Require Import LRU_Model Logical_Model Word_Model Tree_Model Tree_Spec Cell_Model Cell_Spec Paving_Model.
Import ListNotations.

(** [c] is the cell of an enabled leaf of [s]. *)
Definition enabled_cell (s : subpaving) (c : cell) : Prop :=
  exists p, leaf_at (s_tree s) p = Some TRUE /\ c = {| c_ext := s_ext s; c_word := s_word s ++ p |}.
Definition points (d : nat) (g : grid) (s : subpaving) (x : point) : Prop :=
  exists c, enabled_cell s c /\ in_cell_box d g c x.
Definition ppoints (d : nat) (g : grid) (p : paving) (x : point) : Prop := points d g (as_sub p) x.

(** Pavings and sub-pavings reachable by any history of operations in dimension [d]. *)
Inductive pav (d : nat) : paving -> Prop :=
| P_make b : pav d (make_paving b)
| P_empty h : pav d (empty_at h)
| P_tree h t : reachable t -> pav d {| p_ext := h; p_tree := t |}
| P_adjoin_cell c p p' : pav d p -> adjoin_cell d c p = Ret p' -> pav d p'
| P_adjoin s p p' : pav d p -> sub d s -> adjoin d s p = Ret p' -> pav d p'
| P_restrict s p p' : pav d p -> sub d s -> restrict_paving d s p = Ret p' -> pav d p'
| P_remove s p p' : pav d p -> sub d s -> remove_paving d s p = Ret p' -> pav d p'
| P_remove_cell c p p' : pav d p -> remove_cell d c p = Ret p' -> pav d p'
| P_restrict_ext h p : pav d p -> pav d (restrict_to_extent d h p)
| P_mince n p : pav d p -> pav d {| p_ext := p_ext p; p_tree := s_tree (mince_sub d n (as_sub p)) |}
| P_recombine p : pav d p -> pav d {| p_ext := p_ext p; p_tree := s_tree (recombine_sub (as_sub p)) |}
with sub (d : nat) : subpaving -> Prop :=
| S_paving p : pav d p -> sub d (as_sub p)
| S_branch b s s' : sub d s -> branch b s = Some s' -> sub d s'.
