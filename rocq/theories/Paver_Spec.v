(** What pavings and the operations used by the pavers are supposed to do. *)
From Coq Require Import ZArith Reals List.
From Coquelicot Require Import Rbar.
From Flocq Require Import Core IEEE754.BinarySingleNaN.
From Verif Require Import Logical_Model Float_Model Float_Spec Bounds_Model Bounds_Spec ConstraintSolver_Model ConstraintSolver_Spec FunctionSet_Model FunctionSet_Spec Paver_Model.
Import ListNotations.
Local Open Scope R_scope.

Section Spec.
Context {prec emax : Z} {Hprec : Prec_gt_0 prec} {Hemax : Prec_lt_emax prec emax}.
Local Notation fl := (binary_float prec emax).
Local Notation bnd := (bounds prec emax).
Local Notation cbox := (list bnd).
Context {RR F P C X : Type}.
Context (rv : RR -> Rbar) (den : F -> list R -> R).
(** The points of a paving and of a cell. *)
Context (pin : P -> list R -> Prop) (cin : C -> list R -> Prop).

Definition finite_box (D : cbox) : Prop := List.Forall finite_bounds D.
(** The combination of the constraints [l <= v] and [v <= u] with the multipliers [lo] and [up]. *)
Fixpoint slack (B : cbox) (v : list R) (up lo : list fl) : R :=
  match B, v, up, lo with
  | Y :: B', r :: v', a :: up', c :: lo' => B2R a * (B2R (b_u Y) - r) + B2R c * (r - B2R (b_l Y)) + slack B' v' up' lo'
  | _, _, _, _ => 0
  end.
(** The function of paver.cpp:539-550. *)
Definition dual (D : cbox) (fg : list F) (bx : cbox) (w : list fl) (s : list R) : R :=
  slack bx (values den fg s) w (skipn (length fg) w) + slack D s (skipn (2 * length fg) w) (skipn (2 * length fg + length D) w).

Record sound_paver (po : @paver_operations prec emax RR F P C X) : Prop := {
  sp_superset : forall p b x, po_superset po p b = true -> cin b x -> pin p x;
  sp_adjoin : forall p b x, pin (po_adjoin po p b) x <-> pin p x \/ cin b x;
  sp_outer : forall p B n q x, po_outer po p B n = Some q -> pin p x \/ in_cbox B x -> pin q x;
  sp_enclosing : forall p B b x, po_enclosing po p B = Some b -> in_cbox B x -> cin b x;
  sp_recombine : forall p x, pin (po_recombine po p) x <-> pin p x;
  sp_box : forall b x, cin b x -> in_cbox (ce_box po b) x;
  sp_finite : forall b, finite_box (ce_box po b);
  sp_split : forall b x, cin b x <-> cin (fst (ce_split po b)) x \/ cin (snd (ce_split po b)) x;
  sp_depth : forall b, ce_depth po (fst (ce_split po b)) = (ce_depth po b + 1)%Z /\ ce_depth po (snd (ce_split po b)) = (ce_depth po b + 1)%Z;
  sp_box_reduce : forall D f Y j s, in_cbox D s -> contains Y (den f s) -> in_cbox (po_box_reduce po D f Y j) s;
  sp_box_finite : forall D f Y j, finite_box D -> box_empty (po_box_reduce po D f Y j) = false -> finite_box (po_box_reduce po D f Y j);
  sp_hull_reduce : forall D f Y s, in_cbox D s -> contains Y (den f s) -> in_cbox (po_hull_reduce po D f Y) s;
  sp_hull_finite : forall D f Y, finite_box D -> box_empty (po_hull_reduce po D f Y) = false -> finite_box (po_hull_reduce po D f Y);
  sp_affine : forall p V n q x, po_affine po p V n = Some q -> pin p x \/ in_vset rv den V x -> pin q x;
  (** reduction for the constraint that the combination is not negative *)
  sp_dual : forall N D fg bx w s, finite_box D -> finite_box bx -> in_cbox N s -> in_cbox D s -> in_cbox bx (values den fg s) ->
    0 <= dual D fg bx w s -> in_cbox (po_dual po N D fg bx w) s
}.
(** The multipliers computed by the optimiser are not negative. *)
Definition nonnegative (w : list fl) : Prop := List.Forall (fun a => 0 <= B2R a) w.
Definition nonnegative_weights (po : @paver_operations prec emax RR F P C X) : Prop :=
  forall x D fg bx x' n, po_solve po x D fg bx = Some (x', n) -> nonnegative (po_weights po x').
(** The cells which can be reached from a cell by splitting. *)
Inductive descends (po : @paver_operations prec emax RR F P C X) (b : C) : C -> Prop :=
  | desc_refl : descends po b b
  | desc_first : forall c, descends po b c -> descends po b (fst (ce_split po c))
  | desc_second : forall c, descends po b c -> descends po b (snd (ce_split po c)).
(** The points which are added are in cells of the depth asked for (or in the cell in which the search starts). *)
Definition fine (po : @paver_operations prec emax RR F P C X) (b : C) (max_depth : Z) (p q : P) : Prop :=
  forall x, pin q x -> pin p x \/ exists c, descends po b c /\ cin c x /\ (max_depth <= ce_depth po c)%Z /\ (c = b \/ ce_depth po c = max_depth).
End Spec.
