(** Approximation of sets by pavings: C29 and C30. *)
From Coq Require Import List Bool Arith ZArith QArith Qreals Reals Lia Lra.
From Verif Require Import LRU_Model Logical_Model Word_Model Tree_Model Tree_Spec Tree_Proofs
  Cell_Model Cell_Spec Cell_Proofs Paving_Model Paving_Spec Paving_Proofs Approx_Model Approx_Spec Approx_Proofs.
Import ListNotations.
Local Open Scope nat_scope.

Section C29.
  Context (d : nat) (g : grid) (M : monotone g) (Hd : 0 < d) (St : strict g).
  Let wp p (H : pav d p) : wf (p_tree p) := proj1 (history_wf d g M Hd) p H.
  (** C29: if the bounding box holds the set and separation answers are right, the whole
      set is covered, whatever the paving contained before. *)
  Theorem C29_outer_covers_set : forall separated cov b n p e (S : point -> Prop), pav d p ->
    smallest_enclosing_primary_cell_extent d b = Some (Ret e) -> separated_sound d g S separated ->
    (forall x, S x -> in_closed_box d g b x) ->
    exists p', adjoin_outer d separated cov b n p = Ret p' /\ forall x, S x -> ppoints d g p' x.
  Proof. intros. apply (adjoin_outer_set d g M Hd _ _ _ _ _ e); auto. Qed.
  (** C29: moreover every cell of full depth whose closed box meets the set is covered, what
      was covered stays covered, and each added point lies in a covered cell that is not
      seen to be separated, of full depth unless seen to be inside the set. *)
  Theorem C29_outer_exact : forall separated cov b n p e (S : point -> Prop), pav d p ->
    smallest_enclosing_primary_cell_extent d b = Some (Ret e) ->
    exists p', adjoin_outer d separated cov b n p = Ret p' /\
      (forall x, ppoints d g p x -> ppoints d g p' x) /\
      (separated_sound d g S separated -> forall x w y, S x -> length w = (e + d + n) * d ->
         in_closed_cell d g (node_cell (e + d) w) x -> in_cell_box d g (node_cell (e + d) w) y -> ppoints d g p' y) /\
      (forall x, ppoints d g p' x -> ppoints d g p x \/ exists w, in_cell_box d g (node_cell (e + d) w) x /\
         definitely (separated (node_cell (e + d) w)) = false /\
         (forall y, in_cell_box d g (node_cell (e + d) w) y -> ppoints d g p' y) /\
         (length w = (e + d + n) * d \/ holds cov (node_cell (e + d) w) = true)).
  Proof.
    intros separated cov b n p e S P E.
    destruct (adjoin_outer_spec d g M Hd separated cov b n p e S (wp p P) E) as (p' & A & _ & B & C & D). eauto 6.
  Qed.
  (** C30: what an inner approximation adds lies in the set. *)
  Theorem C30_inner_sound : forall cov separated h n p (S : point -> Prop), pav d p -> covers_sound d g S cov ->
    exists p', adjoin_inner d cov separated h n p = Ret p' /\
      (forall x, ppoints d g p x -> ppoints d g p' x) /\
      (forall x, ppoints d g p' x -> ppoints d g p x \/ S x).
  Proof.
    intros cov separated h n p S P So.
    destruct (adjoin_inner_spec d g M Hd cov separated h n p (wp p P)) as (p' & A & _ & B & C & D).
    exists p'. split; auto. split; auto. intros x Px. destruct (C x Px) as [?|(w & I & _ & H)]; auto. right.
    apply def_true in H. apply (So _ H). apply half_open_closed. exact I.
  Qed.
  (** and, for a set that is also closed, every cell down to the given depth that is seen to
      be covered (and lies below no cell wrongly seen to be separated) is added. *)
  Theorem C30_inner_complete : forall cov f h n p w, pav d p -> length w <= (h + n) * d ->
    definitely (cov (node_cell h w)) = true -> (forall v u, w = v ++ u -> definitely (f (node_cell h v)) = false) ->
    exists p', adjoin_inner d cov (Some f) h n p = Ret p' /\ forall x, in_cell_box d g (node_cell h w) x -> ppoints d g p' x.
  Proof.
    intros cov f h n p w P L C Sp.
    destruct (adjoin_inner_spec d g M Hd cov (Some f) h n p (wp p P)) as (p' & A & _ & _ & _ & D).
    exists p'. split; auto. intros x I. apply (D f w x); auto.
  Qed.
  (** C30: each cell a lower approximation adds has full depth and its interior meets the
      set, and nothing of it was covered before. *)
  Theorem C30_lower_overt_sound : forall ovl h n p (S : point -> Prop), pav d p -> overlaps_sound d g S ovl ->
    exists p', adjoin_lower_overt d ovl h n p = Ret p' /\
      (forall x, ppoints d g p x -> ppoints d g p' x) /\
      (forall x, ppoints d g p' x -> ppoints d g p x \/ exists c, in_cell_box d g c x /\ cell_depth d c = Z.of_nat (n * d) /\
         (exists y, in_open_cell d g c y /\ S y) /\ (forall y, in_cell_box d g c y -> ~ ppoints d g p y)).
  Proof.
    intros ovl h n p S P So.
    destruct (adjoin_overt_spec d g M Hd ovl h n p (wp p P)) as (p' & A & _ & B & C).
    exists p'. split; auto. split; auto. intros x Px. destruct (C x Px) as [?|(w & I & L & H & K)]; auto. right.
    exists (node_cell h w). split; auto. split; [|split; auto].
    - unfold cell_depth; simpl. rewrite L. unfold whole. nia.
    - apply So. apply def_true; auto.
  Qed.
  Theorem C30_lower_overt_complete : forall ovl h n p w, pav d p -> length w = (h + n) * d ->
    (forall v u, w = v ++ u -> definitely (ovl (node_cell h v)) = true) ->
    exists p' x, adjoin_lower_overt d ovl h n p = Ret p' /\ ppoints d g p' x /\ in_cell_box d g (node_cell h w) x.
  Proof. intros. apply adjoin_overt_complete; auto. Qed.
  Theorem C30_lower_open_sound : forall cov ovl h n p (S : point -> Prop), pav d p ->
    covers_sound d g S cov -> overlaps_sound d g S ovl ->
    exists p', adjoin_lower_open d cov ovl h n p = Ret p' /\
      (forall x, ppoints d g p x -> ppoints d g p' x) /\
      (forall x, ppoints d g p' x -> ppoints d g p x \/ S x \/ exists c, in_cell_box d g c x /\ cell_depth d c = Z.of_nat (n * d) /\
         exists y, in_open_cell d g c y /\ S y).
  Proof.
    intros cov ovl h n p S P Sc So.
    destruct (adjoin_open_spec d g M Hd cov ovl h n p (wp p P)) as (p' & A & _ & B & C).
    exists p'. split; auto. split; auto. intros x Px. destruct (C x Px) as [?|(w & I & H)]; auto. right.
    destruct H as [H|[L H]].
    - left. apply def_true in H. apply (Sc _ H). apply half_open_closed. exact I.
    - right. exists (node_cell h w). split; auto. split; [|apply So; apply def_true; auto].
      unfold cell_depth; simpl. rewrite L. unfold whole. nia.
  Qed.
End C29.
Print Assumptions C29_outer_covers_set.
Print Assumptions C29_outer_exact.
Print Assumptions C30_inner_sound.
Print Assumptions C30_inner_complete.
Print Assumptions C30_lower_overt_sound.
Print Assumptions C30_lower_overt_complete.
Print Assumptions C30_lower_open_sound.

(** For a set that is open but not closed the inner approximation never refines: unless the
    whole primary cell is seen to be covered, no point is added. *)
Theorem C30_inner_open_only : forall d g cov h n p, monotone g -> 0 < d -> pav d p ->
  definitely (cov (node_cell h [])) = false ->
  exists p', adjoin_inner d cov None h n p = Ret p' /\ forall x, ppoints d g p' x <-> ppoints d g p x.
Proof.
  intros d g cov h n p M Hd P C. unfold adjoin_inner.
  destruct (align_with_spec d g M Hd h true false (inner_node (tree_subdivisions d n h 0) h [] cov None) p
              (proj1 (history_wf d g M Hd) p P)) as (p' & -> & _ & H).
  exists p'. split; auto. destruct H as [(u & Wu & D & A & B & K)|(D & A & B)]; [|auto].
  intros x. destruct (prim_dec d g Hd h x) as [Q|Q]; [|auto]. rewrite A, B by auto.
  destruct (tree_subdivisions d n h 0); cbn [inner_node]; rewrite C; destruct (is_enabled u); reflexivity.
Qed.
Print Assumptions C30_inner_open_only.
(** The counterpart of [C30_lower_overt_complete] fails for open sets: a node left split
    with nothing enabled below (after a removal) is taken to be non-empty and skipped. *)
Theorem C30_lower_open_complete_refuted : exists cov ovl p p' w, pav 1 p /\ length w = (0 + 1) * 1 /\
  (forall c, ovl c = TRUE) /\ adjoin_lower_open 1 cov ovl 0 1 p = Ret p' /\
  forall g x, monotone g -> in_cell_box 1 g (node_cell 0 w) x -> ~ ppoints 1 g p' x.
Proof.
  exists (fun _ => FALSE), (fun _ => TRUE), {| p_ext := 0; p_tree := Nd INDET (Nd INDET (Lf FALSE) (Lf FALSE)) (Lf FALSE) |}.
  eexists. exists [false]. split.
  { apply (P_remove_cell 1 {| c_ext := 0; c_word := [false; false] |}
             {| p_ext := 0; p_tree := Nd INDET (Nd INDET (Lf TRUE) (Lf FALSE)) (Lf FALSE) |}); [|reflexivity].
    apply (P_adjoin_cell 1 {| c_ext := 0; c_word := [false; false] |} (empty_at 0)); [constructor|reflexivity]. }
  split; [reflexivity|]. split; [reflexivity|]. split; [reflexivity|].
  intros g x M I P. apply ppoints_iff in P; auto. simpl in P. destruct P as [Q P].
  apply (node_points 1 g M ltac:(lia)) in I; auto. apply in_cell_cons in I. destruct I as [I _]. rewrite I in P.
  simpl in P. destruct (tail _ 0) in P; discriminate.
Qed.
Print Assumptions C30_lower_open_complete_refuted.

(** Sound tests exist: the set {1/3} on the unit grid of the line. *)
Definition third_sep : test := fun c =>
  let b := cell_box 1 c 0 in make_lv (negb (Qle_bool (fst b) (1 # 3) && Qle_bool (1 # 3) (snd b))).
Definition third (x : point) : Prop := x 0 = Q2R (1 # 3).
Definition unit_grid : grid := affine_grid (fun _ => 0%R) (fun _ => 1%R).
Lemma third_sep_sound : separated_sound 1 unit_grid third third_sep.
Proof.
  intros c H x I Sx. unfold third in Sx. specialize (I 0 ltac:(lia)). rewrite Sx in I. unfold unit_grid, affine_grid in I.
  rewrite !Rplus_0_l, !Rmult_1_l in I. destruct I as [I1 I2]. apply Rle_Qle in I1, I2. apply Qle_bool_iff in I1, I2.
  unfold third_sep in H. rewrite I1, I2 in H. discriminate.
Qed.
Example C29_C30_nonvacuous :
  separated_sound 1 unit_grid third third_sep /\
  (exists p, adjoin_outer 1 third_sep None (fun _ => (1 # 3, 1 # 3)%Q) 3 (empty_at 2) = Ret p /\ sub_size (as_sub p) = 1 /\
     cell_in_sub 1 {| c_ext := 0; c_word := [false; true; false] |} (as_sub p) = Some true) /\
  (exists p, adjoin_inner 1 (fun c => make_lv (Qle_bool (snd (cell_box 1 c 0)) (1 # 3))) (Some (fun _ => INDET)) 0 2 (empty_at 0) = Ret p /\
     p_tree p = Nd INDET (Nd INDET (Lf TRUE) (Lf FALSE)) (Nd INDET (Lf FALSE) (Lf FALSE))) /\
  (exists p, adjoin_lower_overt 1 (fun c => make_lv (negb (Qle_bool (1 # 3) (fst (cell_box 1 c 0))))) 0 1 (empty_at 0) = Ret p /\
     p_tree p = Nd INDET (Lf TRUE) (Lf FALSE)).
Proof. split; [exact third_sep_sound|]. repeat split; eexists; vm_compute; eauto. Qed.
