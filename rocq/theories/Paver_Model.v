(** Pavers (geometry/paver.hpp, geometry/paver.cpp): computation of outer approximations of image sets on a paving.

    Recursions are given a bound on their depth; [Unfinished] is the outcome if it is reached.  Not modelled: log output and
    the values of the widths, radii and errors which are compared to choose what is split next; the comparisons are
    operations. *)
From Coq Require Import ZArith List Bool.
From Flocq Require Import Core IEEE754.BinarySingleNaN.
From Verif Require Import Logical_Model Float_Model Bounds_Model ConstraintSolver_Model FunctionSet_Model.
Import ListNotations.

Inductive outcome (A : Type) := Done (a : A) | Failed | Unfinished.
Arguments Done {A} a. Arguments Failed {A}. Arguments Unfinished {A}.
Definition obind {A B} (o : outcome A) (k : A -> outcome B) : outcome B :=
  match o with Done a => k a | Failed => Failed | Unfinished => Unfinished end.
Definition of_option {A} (o : option A) : outcome A := match o with Some a => Done a | None => Failed end.

Section Paver.
Context {prec emax : Z} {Hprec : Prec_gt_0 prec} {Hemax : Prec_lt_emax prec emax}.
Local Notation fl := (binary_float prec emax).
Local Notation bnd := (bounds prec emax).
Local Notation cbox := (list bnd).
(** [P] is the type of pavings, [C] of cells, [X] of the iterates of the optimiser. *)
Context {RR F P C X : Type}.
Context (ops : @function_operations prec emax RR F).
Local Notation vset := (@vset prec emax RR F).

(** What the code in this file calls:
    - [po_superset], [po_adjoin], [po_outer], [po_enclosing], [po_recombine]: PavingInterface::superset, adjoin,
      adjoin_outer_approximation of a box, smallest_enclosing_primary_cell, and GridTreePaving::recombine ([None]: the box is
      not bounded);
    - [ce_box], [ce_depth], [ce_split]: GridCell::box, depth, split;
    - [po_box_reduce], [po_hull_reduce]: ConstraintSolver::box_reduce and hull_reduce;
    - [po_lipschitz]: the first component of lipschitz_index_and_error (function_set.cpp:811-831), which is the number of
      parameters if no derivative is positive;
    - [po_nonlinear]: whether nonlinearity_index_and_error (function_set.cpp:833-858) returns an index of a parameter to be
      split, with an error which is not below the maximum (paver.cpp:177-185), and the index;
    - [po_affine]: [affine_over_approximation().adjoin_outer_approximation_to] (paver.cpp:198-199);
    - [po_small]: paver.cpp:129-136 for the grid of the paving; [po_again]: paver.cpp:211-212, 275 and 285-288;
      [po_below4] and [po_wider]: paver.cpp:308-312; [po_larger]: paver.cpp:465;
    - [po_solve]: compute_tz and the steps of linearised_feasibility_step (paver.cpp:525-530): the new multipliers and point,
      and whether [t<TERR]; [None] is an exception;
    - [po_weights]: the multipliers [x]; [po_relax], [po_centre]: the changes of [x] and [y] before a recursive call;
      [po_start]: paver.cpp:642-644;
    - [po_dual]: hull_reduce, box_reduce for each parameter for the function [xg] >= 0 of paver.cpp:539-568, given the box to be
      reduced, the domain, the functions, the box of values and the multipliers. *)
Record paver_operations := {
  po_superset : P -> C -> bool;
  po_adjoin : P -> C -> P;
  po_outer : P -> cbox -> nat -> option P;
  po_enclosing : P -> cbox -> option C;
  po_recombine : P -> P;
  ce_box : C -> cbox;
  ce_depth : C -> Z;
  ce_split : C -> C * C;
  po_box_reduce : cbox -> F -> bnd -> nat -> cbox;
  po_hull_reduce : cbox -> F -> bnd -> cbox;
  po_lipschitz : list F -> cbox -> nat;
  po_nonlinear : list F -> cbox -> nat -> option nat;
  po_affine : P -> vset -> nat -> option P;
  po_small : P -> cbox -> nat -> bool;
  po_again : cbox -> cbox -> bool;
  po_below4 : P -> cbox -> cbox -> bool;
  po_wider : P -> cbox -> cbox -> bool;
  po_larger : cbox -> cbox -> bool;
  po_solve : X -> cbox -> list F -> cbox -> option (X * bool);
  po_weights : X -> list fl;
  po_relax : X -> X;
  po_centre : X -> cbox -> X;
  po_start : cbox -> nat -> X;
  po_dual : cbox -> cbox -> list F -> cbox -> list fl -> cbox
}.
Context (po : paver_operations).

(** ** SubdivisionPaver: paver.cpp:103-145, ValidatedConstrainedImageSet::split (function_set.cpp:976-989) with
    [fo_widest]: the index of the widest coordinate.  A failed split ([None]) is a failed assertion. *)
Definition excluded (V : vset) : bool :=
  existsb (fun c => ivl_disjoint (fo_range ops (c_fun c) (v_red V)) (over ops (c_bounds c))) (v_cons V).
Fixpoint subdivide (fuel : nat) (p : P) (V : vset) (fineness : nat) : outcome P :=
  match fuel with
  | O => Unfinished
  | S fuel' =>
    if excluded V then Done p
    else
      let range := apply_range ops (v_fun V) (v_red V) in
      if po_small po p range fineness then of_option (po_outer po p range fineness)
      else match v_split ops (fo_widest ops (v_dom V)) V with
           | None => Failed
           | Some (V1, V2) => obind (subdivide fuel' p V1 fineness) (fun p' => subdivide fuel' p' V2 fineness)
           end
  end.

(** ** AffinePaver: paver.cpp:149-201 *)
Definition maximum_depth : nat := 16.
(** one round: the domains which are not split any more, and those which have been split; lines 175-187 *)
Fixpoint affine_round (fg : list F) (fineness : nat) (uns : list cbox) : option (list cbox * list cbox) :=
  match uns with
  | [] => Some ([], [])
  | D :: uns' =>
    match affine_round fg fineness uns' with
    | None => None
    | Some (done, new) =>
      match po_nonlinear po fg D fineness with
      | None => Some (D :: done, new)
      | Some k => match split_at ops k D with None => None | Some (D1, D2) => Some (done, D1 :: D2 :: new) end
      end
    end
  end.
Fixpoint affine_rounds (k : nat) (fg : list F) (fineness : nat) (done uns : list cbox) : option (list cbox) :=
  match k with
  | O => Some (done ++ uns)
  | S k' =>
    match affine_round fg fineness uns with
    | None => None
    | Some (d, new) => affine_rounds k' fg fineness (done ++ d) new
    end
  end.
(** lines 196-200 *)
Fixpoint affine_adjoin (f : list F) (cs : list constraint) (fineness : nat) (Ds : list cbox) (p : P) : outcome P :=
  match Ds with
  | [] => Done p
  | D :: Ds' => obind (of_option (po_affine po p (v_make D f cs) fineness)) (affine_adjoin f cs fineness Ds')
  end.
Definition affine_pave (p : P) (V : vset) (fineness : nat) : outcome P :=
  match affine_rounds maximum_depth (v_fun V ++ c_functions (v_cons V)) fineness [] [v_red V] with
  | None => Failed
  | Some Ds => affine_adjoin (v_fun V) (v_cons V) fineness Ds p
  end.

(** ** ReducePaver: paver.cpp:218-329, 618-634, 669-671 *)
(** lines 257-269: [None] if the domain has become empty *)
Fixpoint box_steps (steps : list (F * bnd * nat)) (D : cbox) : option cbox :=
  match steps with
  | [] => Some D
  | (f, Y, j) :: steps' =>
    let D' := po_box_reduce po D f Y j in
    if box_empty D' then None else box_steps steps' D'
  end.
Definition all_steps (m : nat) (fs : list (F * bnd)) : list (F * bnd * nat) :=
  flat_map (fun q => map (fun j => (fst q, snd q, j)) (seq 0 m)) fs.
(** lines 274-288 *)
Fixpoint hull_pass (fs : list (F * bnd)) (D : cbox) : option cbox :=
  match fs with
  | [] => Some D
  | (f, Y) :: fs' =>
    let D' := po_hull_reduce po D f Y in
    if box_empty D' then None else hull_pass fs' D'
  end.
Fixpoint hull_loop (fuel : nat) (fs : list (F * bnd)) (D : cbox) : outcome (option cbox) :=
  match fuel with
  | O => Unfinished
  | S fuel' =>
    match hull_pass fs D with
    | None => Done None
    | Some D' => if negb (box_empty D') && po_again po D D' then hull_loop fuel' fs D' else Done (Some D')
    end
  end.
(** lines 218-329; [k] bounds the number of passes of the hull loop *)
Fixpoint reduce_rec (k fuel : nat) (p : P) (D : cbox) (f g : list F) (cod : cbox) (b : C) (max_depth : Z) : outcome P :=
  match fuel with
  | O => Unfinished
  | S fuel' =>
    if po_superset po p b then Done p
    else
      let fs := combine f (ce_box po b) ++ combine g cod in
      match box_steps (all_steps (length D) fs) D with
      | None => Done p
      | Some D1 =>
        obind (hull_loop k fs D1) (fun r =>
          match r with
          | None => Done p
          | Some D2 =>
            let bbox := apply_range ops f D2 in
            if box_disjoint bbox (ce_box po b) || box_disjoint cod (apply_range ops g D2) then Done p
            else if negb (po_below4 po p bbox (ce_box po b)) || ((max_depth <=? ce_depth po b)%Z && po_wider po p (ce_box po b) bbox) then
              match split_at ops (po_lipschitz po f D2) D2 with
              | None => Failed
              | Some (E1, E2) => obind (reduce_rec k fuel' p E1 f g cod b max_depth) (fun p' => reduce_rec k fuel' p' E2 f g cod b max_depth)
              end
            else if (max_depth <=? ce_depth po b)%Z then Done (po_adjoin po p b)
            else let '(b1, b2) := ce_split po b in
              obind (reduce_rec k fuel' p D2 f g cod b1 max_depth) (fun p' => reduce_rec k fuel' p' D2 f g cod b2 max_depth)
          end)
      end
  end.
Definition reduce_pave (k fuel : nat) (p : P) (V : vset) (fineness dim : nat) : outcome P :=
  obind (of_option (po_enclosing po p (apply_range ops (v_fun V) (v_dom V)))) (fun b =>
  obind (reduce_rec k fuel p (v_dom V) (v_fun V) (c_functions (v_cons V)) (c_over ops (v_cons V)) b (Z.of_nat (fineness * dim)))
    (fun q => Done (po_recombine po q))).

(** ** ConstraintPaver: paver.cpp:333-489, 601-616, 673-675
    The variables [az] and [at] are copies of [z] and [t] (lines 364-365), so [t] keeps the value 0: the tests [t>0] fail,
    [t<TERR] fails since TERR is negative for an accuracy below 31 (so lines 416-462 are not reached), and [t<=0] holds.
    The multipliers [x] and the point [y] then do not influence the result.  Not modelled: an exception in the optimiser. *)
Fixpoint constraint_rec (fuel : nat) (r : P) (D : cbox) (f g : list F) (c : cbox) (b : C) (max_depth : Z) : outcome P :=
  match fuel with
  | O => Unfinished
  | S fuel' =>
    if po_superset po r b then Done r
    else if box_disjoint (apply_range ops (f ++ g) D) (ce_box po b ++ c) then Done r
    else if po_larger po (apply_range ops f D) (ce_box po b) then
      match split_at ops (fo_widest ops D) D with
      | None => Failed
      | Some (D1, D2) => obind (constraint_rec fuel' r D1 f g c b max_depth) (fun r' => constraint_rec fuel' r' D2 f g c b max_depth)
      end
    else if (max_depth <=? ce_depth po b)%Z then Done (po_adjoin po r b)
    else let '(b1, b2) := ce_split po b in
      obind (constraint_rec fuel' r D f g c b1 max_depth) (fun r' => constraint_rec fuel' r' D f g c b2 max_depth)
  end.
(** [widen(bx,1)] (box.hpp; interval.inl.hpp:182-187) with [tiny] the smallest positive number *)
Definition widen_box (tiny : fl) (B : cbox) : cbox := map (fun Y => mkB (fsub mode_DN (b_l Y) tiny) (fadd mode_UP (b_u Y) tiny)) B.
Definition constraint_pave (tiny : fl) (fuel : nat) (p : P) (V : vset) (fineness dim : nat) : outcome P :=
  let g := c_functions (v_cons V) in
  let rc := box_meet (widen_box tiny (apply_range ops g (v_dom V))) (c_over ops (v_cons V)) in
  obind (of_option (po_enclosing po p (apply_range ops (v_fun V) (v_dom V)))) (fun b =>
  constraint_rec fuel p (v_dom V) (v_fun V) g rc b (Z.of_nat (fineness * dim))).

(** ** OptimalConstraintPaver: paver.cpp:492-595, 636-664, 677-679.  [fg] is the list of all functions.  The multipliers and the point
    are changed by the recursive calls; after the calls for the halves of the domain the code goes on with the cell. *)
Fixpoint optimal_rec (fuel : nat) (r : P) (x : X) (D : cbox) (fg : list F) (c : cbox) (b : C) (max_depth : Z) : outcome (P * X) :=
  match fuel with
  | O => Unfinished
  | S fuel' =>
    if po_superset po r b then Done (r, x)
    else
      let bx := ce_box po b ++ c in
      match po_solve po x D fg bx with
      | None => Failed
      | Some (x', negative) =>
        let cells r' x'' :=
          if (max_depth <=? ce_depth po b)%Z then Done (po_adjoin po r' b, x'')
          else let '(b1, b2) := ce_split po b in
            obind (optimal_rec fuel' r' (po_relax po x'') D fg c b1 max_depth) (fun q =>
            obind (optimal_rec fuel' (fst q) (po_relax po x'') D fg c b2 max_depth) (fun s => Done (fst s, x''))) in
        if negative then
          if box_empty (po_dual po D D fg bx (po_weights po x')) then Done (r, x')
          else match split_at ops (fo_widest ops D) D with
               | None => Failed
               | Some (D1, D2) =>
                 obind (optimal_rec fuel' r (po_centre po (po_relax po x') D1) D1 fg c b max_depth) (fun q =>
                 obind (optimal_rec fuel' (fst q) (po_centre po x' D2) D2 fg c b max_depth) (fun s => cells (fst s) (snd s)))
               end
        else cells r x'
      end
  end.
(** lines 636-664: the cell encloses the values of the constraint functions *)
Definition optimal_pave (tiny : fl) (fuel : nat) (p : P) (V : vset) (fineness dim : nat) : outcome P :=
  let g := c_functions (v_cons V) in
  let rg := apply_range ops g (v_red V) in
  let rc := box_meet (widen_box tiny rg) (c_over ops (v_cons V)) in
  obind (of_option (po_enclosing po p rg)) (fun b =>
  obind (optimal_rec fuel p (po_start po (v_red V) (2 * (length (v_red V) + length (v_fun V) + length g))) (v_red V) (v_fun V ++ g) rc b
    (Z.of_nat (fineness * dim))) (fun q => Done (fst q))).
End Paver.
Arguments paver_operations {prec emax} RR F P C X.
