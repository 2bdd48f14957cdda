(** Pavings: C25-C28, C31. [points]/[ppoints] are in Paving_Spec: the points of the cells
    of the enabled leaves. [pav]/[sub] are the pavings and sub-pavings reachable by any
    history of operations. *)
From Coq Require Import List Bool Arith ZArith QArith Reals Lia Sorted.
From Verif Require Import LRU_Model Logical_Model Word_Model Tree_Model Tree_Spec Tree_Proofs
  Cell_Model Cell_Spec Cell_Proofs Paving_Model Paving_Spec Paving_Proofs.
Import ListNotations.
Local Open Scope nat_scope.

Section History.
  Context (d : nat) (g : grid) (M : monotone g) (Hd : 0 < d).
  Let wp p (H : pav d p) : wf (p_tree p) := proj1 (history_wf d g M Hd) p H.
  Let ws s (H : sub d s) : wf (s_tree s) := proj2 (history_wf d g M Hd) s H.

  (** C25 *)
  Theorem C25_adjoin_cell : forall c p, pav d p -> exists p', adjoin_cell d c p = Ret p' /\
    forall x, ppoints d g p' x <-> ppoints d g p x \/ in_cell_box d g c x.
  Proof. intros c p P. destruct (adjoin_cell_spec d g M Hd c p (wp p P)) as (p' & E & _ & H). eauto. Qed.
  Theorem C25_cell_constructor : forall c, exists p, paving_of_cell d c = Ret p /\
    forall x, ppoints d g p x <-> in_cell_box d g c x.
  Proof.
    intros c. destruct (C25_adjoin_cell c (empty_at (c_ext c)) (P_empty d _)) as (p & E & H).
    exists p. split; auto. intros x. rewrite H. pose proof (empty_points d g M Hd (c_ext c) x). tauto.
  Qed.
  (** C26 *)
  Theorem C26_adjoin : forall s p, pav d p -> sub d s -> exists p', adjoin d s p = Ret p' /\
    forall x, ppoints d g p' x <-> ppoints d g p x \/ points d g s x.
  Proof. intros s p P S. destruct (adjoin_spec d g M Hd s p (wp p P) (ws s S)) as (p' & E & _ & _ & H). eauto. Qed.
  Theorem C26_restrict : forall s p, pav d p -> sub d s -> exists p', restrict_paving d s p = Ret p' /\
    forall x, ppoints d g p' x <-> ppoints d g p x /\ points d g s x.
  Proof. intros s p P S. destruct (restrict_spec d g M Hd s p (wp p P) (ws s S)) as (p' & E & _ & H). eauto. Qed.
  Theorem C26_remove : forall s p, pav d p -> sub d s -> exists p', remove_paving d s p = Ret p' /\
    forall x, ppoints d g p' x <-> ppoints d g p x /\ ~ points d g s x.
  Proof. intros s p P S. destruct (remove_spec d g M Hd s p (wp p P)) as (p' & E & _ & H). eauto. Qed.
  Theorem C26_remove_cell : forall c p, pav d p -> exists p', remove_cell d c p = Ret p' /\
    forall x, ppoints d g p' x <-> ppoints d g p x /\ ~ in_cell_box d g c x.
  Proof. intros c p P. destruct (remove_cell_spec d g M Hd c p (wp p P)) as (p' & E & _ & H). eauto. Qed.
  Theorem C26_join : forall a b, sub d a -> sub d b -> exists r, join d a b = Ret r /\
    forall x, ppoints d g r x <-> points d g a x \/ points d g b x.
  Proof. intros a b A B. apply join_spec; auto. Qed.
  Theorem C26_intersection : forall a b, sub d a -> sub d b -> exists r, intersection d a b = Ret r /\
    forall x, ppoints d g r x <-> points d g a x /\ points d g b x.
  Proof. intros a b A B. apply intersection_spec; auto. Qed.
  Theorem C26_difference : forall a b, sub d a -> sub d b -> exists r, difference d a b = Ret r /\
    forall x, ppoints d g r x <-> points d g a x /\ ~ points d g b x.
  Proof. intros a b A B. apply difference_spec; auto. Qed.
  Theorem C26_restrict_to_extent : forall h p, pav d p ->
    forall x, ppoints d g (restrict_to_extent d h p) x <-> ppoints d g p x /\ in_primary d g h x.
  Proof. intros h p P x. apply restrict_to_extent_spec; auto. Qed.
  (** Reshaping does not change the covered points, and mincing reaches the depth. *)
  Theorem C26_mince : forall n s, sub d s ->
    (forall x, points d g (mince_sub d n s) x <-> points d g s x) /\
    (forall c, enabled_cell (mince_sub d n s) c -> (Z.of_nat (n * d) <= cell_depth d c)%Z).
  Proof. intros n s S. split; [intros x; apply mince_sub_points; auto|]. intros c. apply mince_sub_fine; auto. Qed.
  (** Mincing is no finer than requested: a cell it creates is at exactly the depth. *)
  Theorem C26_mince_exact : forall n s c, enabled_cell (mince_sub d n s) c ->
    enabled_cell s c \/ cell_depth d c = Z.of_nat (n * d).
  Proof. intros n s c. apply mince_sub_new; auto. Qed.
  Theorem C26_recombine : forall s x, points d g (recombine_sub s) x <-> points d g s x.
  Proof. intros. apply recombine_sub_points; auto. Qed.
  Theorem C26_branches : forall s l r x, branch false s = Some l -> branch true s = Some r ->
    (points d g s x <-> points d g l x \/ points d g r x) /\ ~ (points d g l x /\ points d g r x).
  Proof. intros. apply branch_points; auto. Qed.

  (** C27. [strict g]: no cell is empty. *)
  Context (St : strict g).
  Theorem C27_subset_pavings : forall p q, exists r, sub_subset d (as_sub p) (as_sub q) = Some r /\
    (r = true <-> forall x, ppoints d g p x -> ppoints d g q x).
  Proof. exact (paving_subset_exact d g M Hd St). Qed.
  (** For sub-pavings: wrong only if the first is empty and the root cells are disjoint. *)
  Theorem C27_subset_partial : forall a b,
    (exists x, points d g a x) \/ (exists x, in_cell_box d g (root_cell a) x /\ in_cell_box d g (root_cell b) x) ->
    exists r, sub_subset d a b = Some r /\ (r = true <-> forall x, points d g a x -> points d g b x).
  Proof. exact (sub_subset_exact d g M Hd St). Qed.
  Theorem C27_intersect : forall a b, exists r, sub_intersect d a b = Some r /\
    (r = true <-> exists x, points d g a x /\ points d g b x).
  Proof. exact (sub_intersect_exact d g M Hd St). Qed.
  Theorem C27_cell_subset : forall c s, exists r, cell_in_sub d c s = Some r /\
    (r = true <-> forall x, in_cell_box d g c x -> points d g s x).
  Proof. exact (cell_in_sub_exact d g M Hd St). Qed.
  Theorem C27_cell_intersect : forall c s, exists r, cell_meets_sub d c s = Some r /\
    (r = true <-> exists x, in_cell_box d g c x /\ points d g s x).
  Proof. exact (cell_meets_sub_exact d g M Hd St). Qed.
  Theorem C27_equal_sound : forall a b, sub d a -> sub d b -> sub_equal d a b = true ->
    forall x, points d g a x <-> points d g b x.
  Proof. intros a b A B. apply sub_equal_sound; auto. Qed.
End History.
Print Assumptions C25_adjoin_cell.
Print Assumptions C25_cell_constructor.
Print Assumptions C26_adjoin.
Print Assumptions C26_restrict.
Print Assumptions C26_remove.
Print Assumptions C26_remove_cell.
Print Assumptions C26_join.
Print Assumptions C26_intersection.
Print Assumptions C26_difference.
Print Assumptions C26_restrict_to_extent.
Print Assumptions C26_mince.
Print Assumptions C26_mince_exact.
Print Assumptions C26_recombine.
Print Assumptions C26_branches.
Print Assumptions C27_subset_pavings.
Print Assumptions C27_subset_partial.
Print Assumptions C27_intersect.
Print Assumptions C27_cell_subset.
Print Assumptions C27_cell_intersect.
Print Assumptions C27_equal_sound.

(** The full claim of C27 is false: an empty sub-paving whose root cell is disjoint from
    the other root cell is reported not to be a subset. *)
Definition half : paving := {| p_ext := 0; p_tree := Nd INDET (Lf FALSE) (Lf TRUE) |}.
Theorem C27_subset_refuted : exists a b, sub 1 a /\ sub 1 b /\ (forall g x, ~ points 1 g a x) /\ sub_subset 1 a b = Some false.
Proof.
  exists {| s_ext := 0; s_word := [false]; s_tree := Lf FALSE |}, {| s_ext := 0; s_word := [true]; s_tree := Lf TRUE |}.
  assert (P : pav 1 half).
  { apply (P_adjoin_cell 1 {| c_ext := 0; c_word := [true] |} (empty_at 0)); [constructor|reflexivity]. }
  split; [|split; [|split]].
  - apply (S_branch 1 false (as_sub half)); [constructor; auto|reflexivity].
  - apply (S_branch 1 true (as_sub half)); [constructor; auto|reflexivity].
  - intros g x (c & ([|b p] & H & _) & _); discriminate.
  - reflexivity.
Qed.
Print Assumptions C27_subset_refuted.

(** C25/C26/C27 on pavings of different extents in the plane. *)
Example C25_C26_C27_nonvacuous :
  let c := {| c_ext := 2; c_word := [false; false; true; false; true] |} in
  let small := {| p_ext := 0; p_tree := Nd INDET (Lf FALSE) (Lf TRUE) |} in
  exists p q r i, adjoin_cell 2 c small = Ret p /\ p_ext p = 2 /\ sub_size (as_sub p) = 2 /\
    adjoin 2 (as_sub p) small = Ret q /\ sub_size (as_sub q) = 2 /\
    remove_paving 2 (as_sub small) q = Ret r /\ sub_size (as_sub r) = 1 /\
    intersection 2 (as_sub small) (as_sub q) = Ret i /\ sub_size (as_sub i) = 1 /\
    sub_subset 2 (as_sub small) (as_sub p) = Some true /\ sub_subset 2 (as_sub p) (as_sub small) = Some false /\
    sub_intersect 2 (as_sub r) (as_sub small) = Some false /\ cell_in_sub 2 c (as_sub r) = Some true /\
    cell_meets_sub 2 c (as_sub small) = Some false.
Proof. repeat eexists. Qed.

(** C28: for any tree, with enough fuel for the loops, the iteration terminates and yields
    exactly the enabled leaf cells, strictly increasing in word order (left to right), so
    each once; size() is their number. *)
Theorem C28_iteration : forall root n fuel, 2 * depth root < fuel -> count_enabled root <= n ->
  exists ws, iterate n fuel root = Some ws /\ length ws = count_enabled root /\ NoDup ws /\
    (forall p, In p ws <-> leaf_at root p = Some TRUE) /\ StronglySorted (fun v w => word_less v w = true) ws.
Proof.
  intros root n fuel F N. exists (enabled_paths root). split; [apply iterate_spec; auto|].
  split; [apply enabled_paths_count|]. split; [apply sorted_nodup, enabled_paths_sorted|].
  split; [apply enabled_paths_in|apply enabled_paths_sorted].
Qed.
Print Assumptions C28_iteration.
Theorem C28_cells : forall s, exists fuel cs, iterate_cells fuel fuel s = Some cs /\ length cs = sub_size s /\ NoDup cs /\
  forall c, In c cs <-> enabled_cell s c.
Proof.
  intros s. exists (count_enabled (s_tree s) + 2 * depth (s_tree s) + 1).
  destruct (C28_iteration (s_tree s) (count_enabled (s_tree s) + 2 * depth (s_tree s) + 1) (count_enabled (s_tree s) + 2 * depth (s_tree s) + 1))
    as (ws & E & L & N & I & _); [lia|lia|].
  unfold iterate_cells. rewrite E. eexists. split; [reflexivity|]. split; [rewrite map_length; exact L|]. split.
  - apply FinFun.Injective_map_NoDup; auto. intros a b H. injection H as H. eapply app_inv_head; eauto.
  - intros c. unfold enabled_cell. rewrite in_map_iff. split.
    + intros (p & <- & H). exists p. split; auto. apply I; auto.
    + intros (p & H & ->). exists p. split; auto. apply I; auto.
Qed.
Print Assumptions C28_cells.
Example C28_nonvacuous :
  let t := Nd INDET (Nd INDET (Lf TRUE) (Nd INDET (Lf FALSE) (Lf FALSE))) (Nd INDET (Nd INDET (Lf FALSE) (Lf TRUE)) (Lf TRUE)) in
  iterate 3 7 t = Some [[false; false]; [true; false; true]; [true; true]] /\ iterate 0 7 (Lf FALSE) = Some [].
Proof. vm_compute. auto. Qed.

(** C31. Cloning a paving is a copy; cloning through the sub-paving class is not: it
    yields the full unit primary cell whatever the set. *)
Theorem C31_clone_paving_partial : forall d g p x, ppoints d g (clone_paving p) x <-> ppoints d g p x.
Proof. intros d g [h t] x. reflexivity. Qed.
Print Assumptions C31_clone_paving_partial.
Theorem C31_clone_subpaving_refuted : forall d g, monotone g -> strict g -> 0 < d ->
  exists s x, sub d s /\ ~ points d g s x /\ ppoints d g (clone_sub s) x.
Proof.
  intros d g M S Hd. exists (as_sub (empty_at 0)). exists (corner g (compute_lattice_box d 0 [])).
  split; [repeat constructor|]. split; [apply empty_points; auto|].
  apply ppoints_iff; auto. split; [|reflexivity].
  apply (lattice_in_primary d g 0 [] _ M). apply cell_inhabited; auto.
Qed.
Print Assumptions C31_clone_subpaving_refuted.
Example C31_nonvacuous : p_tree (clone_sub (as_sub (empty_at 3))) = Lf TRUE /\ p_tree (clone_paving (empty_at 3)) = Lf FALSE.
Proof. auto. Qed.
