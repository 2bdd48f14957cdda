(** Properties C19-C22: subdivision trees. *)
From Coq Require Import List Bool Arith.
From Verif Require Import Logical_Model Word_Model Tree_Model Tree_Spec Tree_Proofs.
Import ListNotations.

(** C19: every tree produced by any history of operations satisfies the class
    invariant, which the theorems below assume. *)
Theorem C19_invariant : forall t, reachable t -> wf t.
Proof. exact reachable_wf. Qed.
Print Assumptions C19_invariant.

(** C19: union, intersection, difference of the covered points, for any two shapes. *)
Theorem C19_add_is_union : forall t u s, covers (add_tree t u) s <-> covers t s \/ covers u s.
Proof. exact add_tree_covers. Qed.
Print Assumptions C19_add_is_union.
Theorem C19_restrict_is_intersection : forall t u s, covers (restrict t u) s <-> covers t s /\ covers u s.
Proof. exact restrict_covers. Qed.
Print Assumptions C19_restrict_is_intersection.
Theorem C19_remove_is_difference : forall u t s, covers (remove t u) s <-> covers t s /\ ~ covers u s.
Proof. exact remove_covers. Qed.
Print Assumptions C19_remove_is_difference.
(** C19: adding one cell, or a whole tree hung below a cell. *)
Theorem C19_add_cell : forall p t s, covers (add_path t p) s <-> covers t s \/ in_cell p s.
Proof. exact add_path_covers. Qed.
Print Assumptions C19_add_cell.
Theorem C19_add_tree_below_cell : forall p t u s, wf t ->
  covers (add_tree_at t u p) s <-> covers t s \/ (in_cell p s /\ covers u (drop (length p) s)).
Proof. exact add_tree_at_covers. Qed.
Print Assumptions C19_add_tree_below_cell.
(** C19: enlarging the root by a non-empty path; the empty path is undefined. *)
Theorem C19_prepend : forall p t t', prepend_tree p t = Some t' ->
  forall s, covers t' s <-> in_cell p s /\ covers t (drop (length p) s).
Proof. exact prepend_tree_covers. Qed.
Print Assumptions C19_prepend.
Theorem C19_prepend_defined : forall p t, prepend_tree p t = None <-> p = [].
Proof. exact prepend_tree_defined. Qed.
Print Assumptions C19_prepend_defined.

(** A tree with two levels used as the concrete case. *)
Definition ex_a := Nd INDET (Nd INDET (Lf TRUE) (Lf FALSE)) (Lf TRUE).
Definition ex_b := Nd INDET (Lf TRUE) (Nd INDET (Lf FALSE) (Lf TRUE)).
Example C19_nonvacuous :
  reachable (add_path (add_path (Lf (make_lv false)) [true]) [false; false]) /\
  add_path (add_path (Lf (make_lv false)) [true]) [false; false] = ex_a /\
  restrict ex_a ex_b = Nd INDET (Nd INDET (Lf TRUE) (Lf FALSE)) (Nd INDET (Lf FALSE) (Lf TRUE)) /\
  remove ex_a ex_b = Nd INDET (Lf FALSE) (Nd INDET (Lf TRUE) (Lf FALSE)) /\
  add_tree_at ex_a ex_b [false] = Nd INDET (Nd INDET (Lf TRUE) (Nd INDET (Lf FALSE) (Lf TRUE))) (Lf TRUE).
Proof. split; [repeat constructor|]. vm_compute. auto. Qed.

(** C20: queries. *)
Theorem C20_subset_exact : forall t u, subset t u = true <-> forall s, covers t s -> covers u s.
Proof. exact subset_exact. Qed.
Print Assumptions C20_subset_exact.
Theorem C20_intersect_exact : forall t u, intersect t u = true <-> exists s, covers t s /\ covers u s.
Proof. exact intersect_exact. Qed.
Print Assumptions C20_intersect_exact.
Theorem C20_has_enabled_exact : forall t, has_enabled t = true <-> exists s, covers t s.
Proof. exact has_enabled_exact. Qed.
Print Assumptions C20_has_enabled_exact.
Theorem C20_all_enabled_exact : forall t, all_enabled t = true <-> forall s, covers t s.
Proof. exact all_enabled_exact. Qed.
Print Assumptions C20_all_enabled_exact.
Theorem C20_cell_enabled_exact : forall t p,
  is_enabled_path t p = true <-> forall s, in_cell p s -> covers t s.
Proof. exact is_enabled_path_exact. Qed.
Print Assumptions C20_cell_enabled_exact.
Theorem C20_equality_exact : forall t u, wf t -> wf u -> (tree_equal t u = true <-> t = u).
Proof. exact tree_equal_exact. Qed.
Print Assumptions C20_equality_exact.
Theorem C20_count_exact : forall t, exists ps, NoDup ps /\ length ps = count_enabled t /\
  forall p, In p ps <-> leaf_at t p = Some TRUE.
Proof. exact count_enabled_spec. Qed.
Print Assumptions C20_count_exact.
Example C20_nonvacuous :
  subset (restrict ex_a ex_b) ex_a = true /\ subset ex_a ex_b = false /\ intersect ex_a ex_b = true /\
  intersect (remove ex_a ex_b) ex_b = false /\ is_enabled_path ex_a [true; false] = true /\
  is_enabled_path ex_a [false] = false /\ count_enabled ex_a = 2.
Proof. vm_compute. auto 10. Qed.

(** C21: mincing and recombining. *)
Theorem C21_mince_preserves : forall d t s, covers (mince d t) s <-> covers t s.
Proof. exact mince_covers. Qed.
Print Assumptions C21_mince_preserves.
Theorem C21_mince_depth : forall d t, wf t -> forall p, leaf_at (mince d t) p = Some TRUE -> d <= length p.
Proof. exact mince_leaf_depth. Qed.
Print Assumptions C21_mince_depth.
Theorem C21_mince_keeps_deeper_leaves : forall d t p m,
  d <= length p -> leaf_at t p = Some m -> leaf_at (mince d t) p = Some m.
Proof. exact mince_keeps_deep. Qed.
Print Assumptions C21_mince_keeps_deeper_leaves.
Theorem C21_recombine_preserves : forall t s, covers (recombine t) s <-> covers t s.
Proof. exact recombine_covers. Qed.
Print Assumptions C21_recombine_preserves.
Theorem C21_recombine_canonical : forall t u, wf t -> wf u ->
  (forall s, covers t s <-> covers u s) -> recombine t = recombine u.
Proof. exact recombine_canonical. Qed.
Print Assumptions C21_recombine_canonical.
Theorem C21_recombine_minimal : forall t u, wf t -> wf u ->
  (forall s, covers t s <-> covers u s) -> count_enabled (recombine t) <= count_enabled u.
Proof. exact recombine_minimal. Qed.
Print Assumptions C21_recombine_minimal.
Example C21_nonvacuous : wf ex_a /\ recombine (mince 4 ex_a) = ex_a /\ count_enabled (mince 4 ex_a) = 12.
Proof. vm_compute. auto 12. Qed.

(** C22: the two arrays determine the tree, and reading them back consumes exactly
    both arrays (the index stops on the last structure bit). *)
Theorem C22_round_trip : forall t T L, wf t -> to_words t ([], []) = (T, L) ->
  from_words T L = ROk t (length T - 1) (length L).
Proof. exact words_round_trip. Qed.
Print Assumptions C22_round_trip.
Theorem C22_injective : forall t u, wf t -> wf u ->
  to_words t ([], []) = to_words u ([], []) -> t = u.
Proof. exact words_injective. Qed.
Print Assumptions C22_injective.
(** C22: on arbitrary arrays the reader terminates, and it stays in range when there
    is a leaf bit for every 0 in the structure array. *)
Theorem C22_reader_terminates : forall T L,
  (exists t ai lc, from_words T L = ROk t ai lc) \/ from_words T L = RUndefined.
Proof. exact from_words_total. Qed.
Print Assumptions C22_reader_terminates.
Theorem C22_reader_in_range : forall T L, zeros T <= length L ->
  exists t ai lc, from_words T L = ROk t ai lc.
Proof. exact from_words_defined. Qed.
Print Assumptions C22_reader_in_range.
(** Too few leaf bits are not detected: the read is out of range. *)
Theorem C22_short_leaves_undetected_refuted : exists T L, from_words T L = RUndefined.
Proof. exists [true; false; false], [true]. reflexivity. Qed.
Print Assumptions C22_short_leaves_undetected_refuted.
Example C22_nonvacuous : to_words ex_a ([], []) = ([true; true; false; false; false], [true; false; true]) /\
  from_words [true; true; false; false; false] [true; false; true] = ROk ex_a 4 3.
Proof. vm_compute. auto. Qed.
