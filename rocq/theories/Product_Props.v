(** Products and projections of pavings: C32. *)
From Coq Require Import List Bool Arith ZArith QArith Reals Lia.
From Verif Require Import LRU_Model Logical_Model Word_Model Tree_Model Tree_Spec Cell_Model Cell_Spec Cell_Proofs
  Paving_Model Paving_Spec Paving_Proofs Paving_Props Product_Model Product_Spec Product_Proofs.
Import ListNotations.
Local Open Scope nat_scope.

(** C32: the product of two cells of the same per-dimension depth, with any root extents. *)
Theorem C32_product_cell : forall n1 n2 g1 g2 r c1 c2, 0 < n1 -> 0 < n2 -> monotone g1 -> monotone g2 ->
  uniform n1 r c1 -> uniform n2 r c2 ->
  exists c, product_cell n1 n2 c1 c2 = Ret c /\
    forall x, in_cell_box (n1 + n2) (join_grid n1 g1 g2) c x <-> in_cell_box n1 g1 c1 x /\ in_cell_box n2 g2 c2 (second n1 x).
Proof.
  intros n1 n2 g1 g2 r c1 c2 H1 H2 M1 M2 U1 U2. unfold product_cell.
  destruct (product_word_uniform n1 n2 H1 H2 g1 g2 M1 M2 r c1 c2 U1 U2) as (w & -> & W).
  replace (_ =? _)%Z with true; [eauto|]. symmetry. apply Z.eqb_eq. unfold uniform, cell_depth in *. rewrite U1, U2. nia.
Qed.
Print Assumptions C32_product_cell.
(** C32: the product of two sub-pavings all of whose enabled cells have the same
    per-dimension depth (for instance after mince) covers exactly the pairs. *)
Theorem C32_product_partial : forall n1 n2 g1 g2 r s1 s2, 0 < n1 -> 0 < n2 -> monotone g1 -> monotone g2 ->
  (forall c, enabled_cell s1 c -> uniform n1 r c) -> (forall c, enabled_cell s2 c -> uniform n2 r c) ->
  exists fuel1 fuel2 cs1 cs2 p, iterate_cells fuel1 fuel1 s1 = Some cs1 /\ iterate_cells fuel2 fuel2 s2 = Some cs2 /\
    product_cells n1 n2 cs1 cs2 = Ret p /\
    forall x, ppoints (n1 + n2) (join_grid n1 g1 g2) p x <-> points n1 g1 s1 x /\ points n2 g2 s2 (second n1 x).
Proof.
  intros n1 n2 g1 g2 r s1 s2 H1 H2 M1 M2 U1 U2.
  destruct (C28_cells s1) as (f1 & cs1 & E1 & _ & _ & I1). destruct (C28_cells s2) as (f2 & cs2 & E2 & _ & _ & I2).
  destruct (product_cells_spec n1 n2 H1 H2 g1 g2 M1 M2 r cs1 cs2) as (p & E & P).
  - intros c I. apply U1, I1, I.
  - intros c I. apply U2, I2, I.
  - exists f1, f2, cs1, cs2, p. repeat (split; [auto; fail|]). intros x. rewrite P. unfold points. split.
    + intros [(c1 & A & B) (c2 & C & D)]. apply I1 in A. apply I2 in C. split; eauto.
    + intros [(c1 & A & B) (c2 & C & D)]. apply I1 in A. apply I2 in C. split; eauto.
Qed.
Print Assumptions C32_product_partial.
(** The claim fails for cells of different depths: the deeper part of the second word is
    dropped, and a deeper first word reads past the end of the second. *)
Theorem C32_product_unequal_refuted :
  (exists p, product_cells 1 1 [{| c_ext := 0; c_word := [] |}] [{| c_ext := 0; c_word := [true] |}] = Ret p /\
     forall g x, monotone g -> in_cell_box 2 g {| c_ext := 0; c_word := [] |} x -> ppoints 2 g p x) /\
  product_cells 1 1 [{| c_ext := 0; c_word := [true] |}] [{| c_ext := 0; c_word := [] |}] = UB.
Proof.
  split; [|reflexivity]. eexists. split; [reflexivity|]. intros g x M I. apply ppoints_iff; auto. split; [exact I|reflexivity].
Qed.
Print Assumptions C32_product_unequal_refuted.
(** C32: projection of cells one level below their primary cell. *)
Theorem C32_image_partial : forall d prj g cs, monotone g -> strict g -> 0 < length prj -> NoDup prj ->
  (forall j, In j prj -> j < d) -> (forall c, In c cs -> length (c_word c) = d) ->
  exists p, image_cells d prj cs = Ret p /\
    forall y, ppoints (length prj) (project_grid prj g) p y <->
      exists x, (exists c, In c cs /\ in_cell_box d g c x) /\ projects prj x y.
Proof. exact image_cells_single. Qed.
Print Assumptions C32_image_partial.
(** The claim fails one level further down, already for the identity projection of the
    line: the quarter [1/4,1/2) is mapped to [0,1/4). *)
Theorem C32_image_refuted :
  image_word 1 [0] [false; true] = Some [false; false] /\
  exists p, image_cells 1 [0] [{| c_ext := 0; c_word := [false; true] |}] = Ret p /\
    (forall g x, monotone g -> in_cell_box 1 g {| c_ext := 0; c_word := [false; true] |} x -> ~ ppoints 1 g p x) /\
    (forall g x, monotone g -> in_cell_box 1 g {| c_ext := 0; c_word := [false; false] |} x -> ppoints 1 g p x).
Proof.
  split; [reflexivity|]. exists {| p_ext := 0; p_tree := Nd INDET (Nd INDET (Lf TRUE) (Lf FALSE)) (Lf FALSE) |}.
  split; [reflexivity|]. split.
  - intros g x M I P. apply ppoints_iff in P; auto. apply (lattice_points 1 g M ltac:(lia)) in I. destruct I as [A I].
    destruct P as [_ P]. cbn [p_ext p_tree c_ext c_word covers] in *.
    pose proof (I 0 false eq_refl) as I0. pose proof (I 1 true eq_refl) as I1. rewrite I0 in P. cbn [covers] in P.
    unfold tail at 1 in P. rewrite I1 in P. discriminate.
  - intros g x M I. apply ppoints_iff; auto. apply (lattice_points 1 g M ltac:(lia)) in I. destruct I as [A I].
    split; [exact A|]. cbn [p_ext p_tree c_ext c_word covers] in *.
    pose proof (I 0 false eq_refl) as I0. pose proof (I 1 false eq_refl) as I1. rewrite I0. cbn [covers].
    unfold tail at 1. rewrite I1. reflexivity.
Qed.
Print Assumptions C32_image_refuted.
Example C32_nonvacuous :
  uniform 1 1 {| c_ext := 2; c_word := [false; true; true] |} /\ uniform 2 1 {| c_ext := 0; c_word := [true; false] |} /\
  product_word 1 2 {| c_ext := 2; c_word := [false; true; true] |} {| c_ext := 0; c_word := [true; false] |} =
    Some [false; false; false; true; true; true; true; true; false] /\
  image_word 2 [1] [true; false] = Some [false].
Proof. repeat split. Qed.
