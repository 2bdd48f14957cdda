(** Properties C23, C24: grid cells. *)
From Coq Require Import List Bool Arith ZArith QArith Qreals Reals Lia Lra.
From Verif Require Import LRU_Model Word_Model Cell_Model Cell_Spec Cell_Proofs.
Import ListNotations.
Local Open Scope nat_scope.

(** C23: a smaller primary cell is the cell of the larger one with the library's path. *)
Theorem C23_primary_path : forall d top bottom, d <> 0 -> bottom <= top ->
  same_box d (compute_lattice_box d top (primary_cell_path d top bottom)) (primary_cell_lattice_box bottom).
Proof. exact path_box. Qed.
Print Assumptions C23_primary_path.
Theorem C23_primary_nested : forall d g top bottom x, monotone g -> 0 < d -> bottom <= top ->
  in_box d g (primary_cell_lattice_box bottom) x -> in_box d g (primary_cell_lattice_box top) x.
Proof. exact primary_up. Qed.
Print Assumptions C23_primary_nested.
(** C23: the primary cells exhaust the space. *)
Theorem C23_primary_exhaust : forall d o l x, (forall k, 0 < l k)%R ->
  exists h, in_box d (affine_grid o l) (primary_cell_lattice_box h) x.
Proof. exact primary_exhaust. Qed.
Print Assumptions C23_primary_exhaust.
(** C23: the two halves partition a cell, on every grid, including one whose space
    coordinates are rounded. *)
Theorem C23_split_partition : forall d g c x, monotone g -> 0 < d ->
  (in_cell_box d g c x <-> in_cell_box d g (cell_split false c) x \/ in_cell_box d g (cell_split true c) x) /\
  ~ (in_cell_box d g (cell_split false c) x /\ in_cell_box d g (cell_split true c) x).
Proof. exact split_partition. Qed.
Print Assumptions C23_split_partition.
Theorem C23_cell_nonempty : forall d g c, monotone g -> strict g -> exists x, in_cell_box d g c x.
Proof. intros d g c M S. eexists. exact (cell_inhabited d g (c_ext c) (c_word c) M S). Qed.
Print Assumptions C23_cell_nonempty.
(** C23: the search for the smallest enclosing primary cell returns an extent whose cell
    has the box in its interior, and no smaller extent has; otherwise the box is not
    inside the primary cell of extent 31 and the corner computation overflows. *)
Theorem C23_smallest_enclosing_partial : forall d b,
  match smallest_enclosing_primary_cell_extent d b with
  | Some (Ret e) => e <= 31 /\ inside d b (primary_cell_lattice_box e) = true /\
                    (forall e', e' < e -> inside d b (primary_cell_lattice_box e') = false)
  | Some UB => forall e', e' <= 31 -> inside d b (primary_cell_lattice_box e') = false
  | Some AssertFail | None => False
  end.
Proof. exact enclosing_spec. Qed.
Print Assumptions C23_smallest_enclosing_partial.
Theorem C23_inside_means : forall d b c, inside d b c = true <->
  forall k, k < d -> (fst (c k) < fst (b k))%Q /\ (snd (b k) < snd (c k))%Q.
Proof. exact inside_spec. Qed.
Print Assumptions C23_inside_means.
(** The full claim (every bounded box has an enclosing primary cell) fails for large
    boxes: the [int] corners overflow from extent 32 on. *)
Theorem C23_large_boxes_refuted :
  smallest_enclosing_primary_cell_extent 1 (fun _ => (0, inject_Z 1500000000)%Q) = Some UB.
Proof. vm_compute. reflexivity. Qed.
Print Assumptions C23_large_boxes_refuted.
Theorem C23_corner_overflow : forall h,
  (primary_corners32 h = Ret (primary_corners h) <-> h <= 31) /\ (32 <= h -> primary_corners32 h = UB).
Proof. exact corners32_limit. Qed.
Print Assumptions C23_corner_overflow.
(** The grids meet the hypotheses: exact affine grids, and the rounded one the code uses. *)
Theorem C23_affine_grid : forall o l, (forall k, 0 < l k)%R -> monotone (affine_grid o l) /\ strict (affine_grid o l).
Proof. intros. split; [apply affine_monotone|apply affine_strict]; auto. Qed.
Print Assumptions C23_affine_grid.
Theorem C23_rounded_grid : forall rnd o l, monotone_rounding rnd -> (forall k, 0 <= l k)%R -> monotone (rounded_grid rnd o l).
Proof. exact rounded_monotone. Qed.
Print Assumptions C23_rounded_grid.
Example C23_nonvacuous :
  primary_corners 3 = (-5, 3)%Z /\ primary_cell_path 2 3 1 = [true; true; false; false] /\
  (let b := compute_lattice_box 2 3 [true; true; false; false; true] in
   Qeq_bool (fst (b 0)) 0 && Qeq_bool (snd (b 0)) 1 && Qeq_bool (fst (b 1)) (-1 # 1) && Qeq_bool (snd (b 1)) 1) = true /\
  smallest_enclosing_primary_cell_extent 2 (fun _ => (-1, 2)%Q) = Some (Ret 3).
Proof. vm_compute. auto. Qed.

(** C24: re-rooting does not move a cell. *)
Theorem C24_reroot_same_box : forall d top bottom w, d <> 0 -> bottom <= top ->
  same_box d (compute_lattice_box d top (primary_cell_path d top bottom ++ w)) (compute_lattice_box d bottom w).
Proof. exact reroot_box. Qed.
Print Assumptions C24_reroot_same_box.
Theorem C24_raise_to_level : forall d c level c', d <> 0 -> raise_to_level d c level = Ret c' ->
  c_ext c' = level /\ same_box d (cell_box d c') (cell_box d c).
Proof. exact raise_same_box. Qed.
Print Assumptions C24_raise_to_level.
(** C24: inclusion and equality of cells with any extents are those of their points. *)
Theorem C24_subset_exact : forall d g a b, monotone g -> strict g -> 0 < d ->
  exists r, cell_subset d a b = Some r /\ (r = true <-> forall x, in_cell_box d g a x -> in_cell_box d g b x).
Proof. exact cell_subset_exact. Qed.
Print Assumptions C24_subset_exact.
Theorem C24_equal_exact : forall d g a b, monotone g -> strict g -> 0 < d ->
  (cell_equal d a b = true <-> forall x, in_cell_box d g a x <-> in_cell_box d g b x).
Proof. exact cell_equal_exact. Qed.
Print Assumptions C24_equal_exact.
Theorem C24_nested_or_disjoint : forall d g a b x, monotone g -> strict g -> 0 < d ->
  in_cell_box d g a x -> in_cell_box d g b x -> cell_subset d a b = Some true \/ cell_subset d b a = Some true.
Proof. exact cells_nested_or_disjoint. Qed.
Print Assumptions C24_nested_or_disjoint.
(** C24: the order is a strict total order on cells up to that equality. *)
Theorem C24_less_transitive : forall d a b c,
  cell_less d a b = true -> cell_less d b c = true -> cell_less d a c = true.
Proof. exact cell_less_trans. Qed.
Print Assumptions C24_less_transitive.
Theorem C24_less_irreflexive : forall d a b, cell_equal d a b = true -> cell_less d a b = false.
Proof. exact cell_less_irrefl. Qed.
Print Assumptions C24_less_irreflexive.
Theorem C24_less_total : forall d a b, cell_less d a b = true \/ cell_equal d a b = true \/ cell_less d b a = true.
Proof. exact cell_less_total. Qed.
Print Assumptions C24_less_total.
(** C24: geometrically, a cell precedes the cells strictly inside it, and cells of a lower
    half precede cells of the upper half. *)
Theorem C24_less_exact : forall d g a b, monotone g -> strict g -> 0 < d ->
  (cell_less d a b = true <->
   ((forall x, in_cell_box d g b x -> in_cell_box d g a x) /\ (exists x, in_cell_box d g a x /\ ~ in_cell_box d g b x)) \/
   exists c, (forall x, in_cell_box d g a x -> in_cell_box d g (cell_split false c) x) /\
             (forall x, in_cell_box d g b x -> in_cell_box d g (cell_split true c) x)).
Proof. exact cell_less_geometry. Qed.
Print Assumptions C24_less_exact.
Example C24_nonvacuous :
  let a := {| c_ext := 0; c_word := [true] |} in
  let b := {| c_ext := 2; c_word := [false; false; true; true] |} in
  cell_subset 2 a b = Some true /\ cell_subset 2 b a = Some false /\ cell_equal 2 {| c_ext := 0; c_word := [] |} b = true /\
  cell_less 2 b a = true /\ raise_to_level 2 a 2 = Ret {| c_ext := 2; c_word := [false; false; true; true; true] |}.
Proof. vm_compute. auto 10. Qed.
