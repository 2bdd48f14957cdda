(** Sets defined by functions (geometry/function_set.hpp, geometry/function_set.cpp): [ConstraintSet], [BoundedConstraintSet],
    [ConstrainedImageSet] and [ValidatedConstrainedImageSet].

    Not modelled: drawing, output, affine approximations, outer approximations on pavings, [join] of image sets. *)
From Coq Require Import ZArith List Bool.
From Flocq Require Import Core IEEE754.BinarySingleNaN.
From Verif Require Import Logical_Model Float_Model Bounds_Model ConstraintSolver_Model.
Import ListNotations.

Section FunctionSet.
Context {prec emax : Z} {Hprec : Prec_gt_0 prec} {Hemax : Prec_lt_emax prec emax}.
Local Notation fl := (binary_float prec emax).
Local Notation bnd := (bounds prec emax).
Local Notation cbox := (list bnd).
(** [RR] is the type of real numbers and of the bounds of constraints (numeric/real.hpp, [EffectiveNumber], [ValidatedNumber]);
    the code in this file uses them through their double-precision bounds.  [F] is the type of scalar functions. *)
Context {RR F : Type}.

(** What the code in this file calls:
    - [fo_get]: the bounds of a number in double precision, used by the conversions [UpperBoxType(rbx,prec)] etc.;
    - [fo_float]: the number given by a float (ExactBoxType to RealBox);
    - [fo_args]: [argument_size];
    - [fo_range]: [Ariadne::apply(f,bx)], evaluation with intervals;
    - [fo_compose], [fo_coordinate]: [compose] and the components of [identity];
    - [fo_reduce]: [ConstraintSolver::reduce] for a vector function (solvers/constraint_solver.cpp; ConstraintSolver_Model.v);
    - [fo_feasible]: the first component of [ConstraintSolver::feasible] for a list of constraints;
    - [fo_optimise]: [NonlinearInfeasibleInteriorPointOptimiser::feasible] (solvers/nonlinear_programming.cpp; Optimiser_Model.v);
    - [fo_middle], [fo_widest]: [midpoint] of an interval and [irmax] of a box (geometry/box.tpl.hpp:57-65). *)
Record function_operations := {
  fo_get : RR -> bnd;
  fo_float : fl -> RR;
  fo_args : F -> nat;
  fo_range : F -> cbox -> bnd;
  fo_compose : F -> list F -> F;
  fo_coordinate : nat -> nat -> F;
  fo_reduce : cbox -> list F -> cbox -> cbox;
  fo_feasible : cbox -> list (F * bnd) -> lv;
  fo_optimise : cbox -> list F -> cbox -> lv;
  fo_middle : bnd -> fl;
  fo_widest : cbox -> nat
}.
Context (ops : function_operations).

(** An interval with real end points; a constraint [l <= f(x) <= u] (function/constraint.hpp:41-92). *)
Record rivl := mkRI { i_lo : RR; i_up : RR }.
Record constraint := mkC { c_fun : F; c_bounds : rivl }.

(** ** Intervals and boxes
    function_set.cpp:206-224 ([over_approximation], [under_approximation]); a [LowerBoxType] has as lower end an upper bound
    of the real lower end. *)
Definition over (i : rivl) : bnd := mkB (b_l (fo_get ops (i_lo i))) (b_u (fo_get ops (i_up i))).
Definition under (i : rivl) : bnd := mkB (b_u (fo_get ops (i_lo i))) (b_l (fo_get ops (i_up i))).
(** interval.inl.hpp:119-122 *)
Definition meet (x y : bnd) : bnd := mkB (fmax (b_l x) (b_l y)) (fmin (b_u x) (b_u y)).
(** interval.inl.hpp:102-116 *)
Definition ivl_intersect (x y : bnd) : bool := flt_le (b_l x) (b_u y) && flt_le (b_l y) (b_u x).
Definition ivl_inside (x y : bnd) : bool := flt_lt (b_l y) (b_l x) && flt_lt (b_u x) (b_u y).
Definition ivl_covers (x y : bnd) : bool := flt_lt (b_l x) (b_l y) && flt_lt (b_u y) (b_u x).
Definition ivl_subset (x y : bnd) : bool := flt_le (b_l y) (b_l x) && flt_le (b_u x) (b_u y).
(** box.hpp:340-432: loops over the coordinates of the first box.  The boxes compared here have the same size if the sets and
    boxes given have the same dimension, which the code does not check. *)
Definition box_meet (x y : cbox) : cbox := map (fun p => meet (fst p) (snd p)) (combine x y).
Definition box_disjoint (x y : cbox) : bool := existsb (fun p => ivl_disjoint (fst p) (snd p)) (combine x y).
Definition box_intersect (x y : cbox) : bool := forallb (fun p => ivl_intersect (fst p) (snd p)) (combine x y).
Definition box_inside (x y : cbox) : bool := forallb (fun p => ivl_inside (fst p) (snd p)) (combine x y).
Definition box_covers (x y : cbox) : bool := forallb (fun p => ivl_covers (fst p) (snd p)) (combine x y).
(** box.hpp:342-346 for boxes of real intervals, with [rmax] and [rmin] the maximum and minimum of real numbers.  The loop is
    over the coordinates of the first box: [None] is an access beyond the end of the second. *)
Fixpoint real_meet (rmax rmin : RR -> RR -> RR) (x y : list rivl) : option (list rivl) :=
  match x, y with
  | [], _ => Some []
  | _ :: _, [] => None
  | a :: x', b :: y' =>
    match real_meet rmax rmin x' y' with
    | Some r => Some (mkRI (rmax (i_lo a) (i_lo b)) (rmin (i_up a) (i_up b)) :: r)
    | None => None
    end
  end.
(** [Ariadne::apply] of a vector function *)
Definition apply_range (fs : list F) (B : cbox) : cbox := map (fun f => fo_range ops f B) fs.

(** ** ValidatedConstrainedImageSet: function_set.hpp:285-385
    The set [f(D) ] for the parameters in [D] with the constraints; [v_red] is [_reduced_domain]. *)
Record vset := mkV { v_dom : cbox; v_red : cbox; v_fun : list F; v_cons : list constraint }.
(** function_set.hpp:299-310; the assertion is that the sizes agree *)
Definition v_make (D : cbox) (f : list F) (cs : list constraint) : vset := mkV D D f cs.
(** function_set.hpp:327-341 *)
Definition v_apply (h : list F) (V : vset) : vset := mkV (v_dom V) (v_red V) (map (fun g => fo_compose ops g (v_fun V)) h) (v_cons V).
Definition v_parameter_constraint (c : constraint) (V : vset) : vset := mkV (v_dom V) (v_red V) (v_fun V) (v_cons V ++ [c]).
Definition v_space_constraint (c : constraint) (V : vset) : vset :=
  mkV (v_dom V) (v_red V) (v_fun V) (v_cons V ++ [mkC (fo_compose ops (c_fun c) (v_fun V)) (c_bounds c)]).
(** function_set.cpp:895-907: the functions and the over-approximated bounds of the constraints *)
Definition c_functions (cs : list constraint) : list F := map c_fun cs.
Definition c_over (cs : list constraint) : cbox := map (fun c => over (c_bounds c)) cs.
Definition c_under (cs : list constraint) : cbox := map (fun c => under (c_bounds c)) cs.
(** function_set.cpp:910-914 *)
Definition v_bounding_box (V : vset) : cbox := apply_range (v_fun V) (v_red V).
(** function_set.cpp:1010-1022: the result of [is_empty] is a [Boolean], converted to a [ValidatedKleenean] *)
Definition v_reduce (V : vset) : vset := mkV (v_dom V) (fo_reduce ops (v_red V) (c_functions (v_cons V)) (c_over (v_cons V))) (v_fun V) (v_cons V).
Definition v_is_empty (V : vset) : lv := make_lv (box_empty (v_red (v_reduce V))).
(** function_set.cpp:1024-1027 *)
Definition v_inside (V : vset) (bx : cbox) : bool := box_inside (v_bounding_box V) bx.
(** function_set.cpp:1029-1040 *)
Definition v_separated (V : vset) (bx : cbox) : bool :=
  box_empty (fo_reduce ops (v_red V) (v_fun V ++ c_functions (v_cons V)) (bx ++ c_over (v_cons V))).
(** box.tpl.hpp:79-88: [None] is a failed assertion, which includes the access to coordinate 0 of a box without coordinates *)
Definition split_at (k : nat) (B : cbox) : option (cbox * cbox) :=
  match nth_error B k with
  | None => None
  | Some X => let c := fo_middle ops X in Some (set_at k (mkB (b_l X) c) B, set_at k (mkB c (b_u X)) B)
  end.
(** function_set.cpp:1042-1079.  The list of subdomains is a stack; the subdomain split off last is searched first.  [k] is
    the number of splittings which are left. *)
Fixpoint search (k : nat) (fs : list F) (codomain : cbox) (sub : cbox) : option bool :=
  match fo_optimise ops sub fs codomain with
  | TRUE => Some true
  | FALSE => Some false
  | _ =>
    match k with
    | O => Some false
    | S k' =>
      match split_at (fo_widest ops sub) sub with
      | None => None
      | Some (s1, s2) =>
        match search k' fs codomain s2 with
        | Some false => search k' fs codomain s1
        | r => r
        end
      end
    end
  end.
Definition max_splittings : nat := 2.
Definition v_overlaps (V : vset) (bx : cbox) : option bool :=
  let fs := v_fun V ++ c_functions (v_cons V) in
  let cb := box_meet (c_over (v_cons V)) (apply_range (c_functions (v_cons V)) (v_red V)) in
  search max_splittings fs (bx ++ cb) (v_red V).
(** function_set.cpp:957-974 *)
Definition v_split (j : nat) (V : vset) : option (vset * vset) :=
  match split_at j (v_dom V) with
  | None => None
  | Some (d1, d2) => Some (v_make (box_meet d1 (v_red V)) (v_fun V) (v_cons V), v_make (box_meet d2 (v_red V)) (v_fun V) (v_cons V))
  end.
(** function_set.cpp:996-1008: [None] if the assertion fails *)
Definition box_subset (x y : cbox) : bool := forallb (fun p => ivl_subset (fst p) (snd p)) (combine x y).
Definition v_restriction (D : cbox) (V : vset) : option vset :=
  if box_subset D (v_dom V) then Some (v_make D (v_fun V) (v_cons V)) else None.

(** function_set.cpp:1113-1137 and 612-637.  [result] is default-constructed, which gives TRUE (numeric/logical.hpp:503).
    [first] is the test with the bounding box; [D] is the domain; [bu] and [bl] are the bounds of the constraints which are
    added.  The comparison of the bounds with infinity is made with their double-precision bounds. *)
Definition satisfies_with (first : bool) (D : cbox) (f : list F) (cs : list constraint) (nc : constraint) (bu bl : bnd) : lv :=
  if first then TRUE else
  let composed := fo_compose ops (c_fun nc) f in
  let all := map (fun c => (c_fun c, over (c_bounds c))) cs in
  let lo := fo_get ops (i_lo (c_bounds nc)) in
  let up := fo_get ops (i_up (c_bounds nc)) in
  let r1 := if flt_lt (b_u up) finf then fo_feasible ops D (all ++ [(composed, bu)]) else TRUE in
  if flt_lt (b_u up) finf && definitely r1 then FALSE else
  let r2 := if flt_lt (fneg finf) (b_l lo) then lv_or r1 (fo_feasible ops D (all ++ [(composed, bl)])) else r1 in
  lv_neg r2.
(** lines 1113-1137: [bounds] is [nc.bounds()], the over-approximation by floats (function/constraint.hpp:83) *)
Definition v_satisfies (V : vset) (nc : constraint) : lv :=
  let b := over (c_bounds nc) in
  satisfies_with (ivl_subset (fo_range ops (c_fun nc) (v_bounding_box V)) b) (v_dom V) (v_fun V) (v_cons V) nc
    (mkB (b_u b) finf) (mkB (fneg finf) (b_l b)).

(** ** ConstraintSet: function_set.hpp:83-126 *)
Record cset := mkCS { cs_dim : nat; cs_cons : list constraint }.
(** function_set.cpp:227-233, 296-299: the dimension is the number of arguments of the first function, 0 if there is none *)
Definition cs_of_list (cs : list constraint) : option cset :=
  let n := match cs with [] => 0%nat | c :: _ => fo_args ops (c_fun c) end in
  if forallb (fun c => Nat.eqb (fo_args ops (c_fun c)) n) cs then Some (mkCS n cs) else None.
(** function_set.cpp:261-268, 290-294 *)
Definition cs_preimage (n : nat) (g : list F) (C : list rivl) : option cset :=
  if Nat.eqb (length g) (length C) then Some (mkCS n (map (fun p => mkC (fst p) (snd p)) (combine g C))) else None.
(** function_set.cpp:343-362; the effort is not used *)
Definition cs_separated (S : cset) (bx : cbox) (effort : nat) : bool :=
  v_separated (v_make bx (c_functions (cs_cons S)) []) (c_over (cs_cons S)).
Definition cs_overlaps (S : cset) (bx : cbox) (effort : nat) : option bool :=
  v_overlaps (v_make bx (c_functions (cs_cons S)) []) (c_under (cs_cons S)).
Definition cs_covers (S : cset) (bx : cbox) (effort : nat) : bool :=
  box_inside (apply_range (c_functions (cs_cons S)) bx) (c_under (cs_cons S)).
(** function_set.cpp:371-375 *)
Definition cs_intersection (S1 S2 : cset) : option cset := cs_of_list (cs_cons S1 ++ cs_cons S2).

(** ** BoundedConstraintSet: function_set.hpp:133-190 *)
Record bset := mkBS { bs_dom : list rivl; bs_cons : list constraint }.
(** function_set.cpp:447-481; the effort is not used.  [None] in [bs_overlaps] is as in [split_at]. *)
Definition bs_separated (S : bset) (bx : cbox) (effort : nat) : bool :=
  let D := map over (bs_dom S) in
  if box_disjoint D bx then true
  else v_separated (v_make (box_meet bx D) (c_functions (bs_cons S)) []) (c_over (bs_cons S)).
Definition bs_overlaps (S : bset) (bx : cbox) (effort : nat) : option bool :=
  if box_disjoint (map over (bs_dom S)) bx then Some false
  else if Nat.eqb (length (bs_cons S)) 0 && box_intersect (map under (bs_dom S)) bx then Some true
  else v_overlaps (v_make (box_meet bx (map under (bs_dom S))) (c_functions (bs_cons S)) []) (c_under (bs_cons S)).
Definition bs_covers (S : bset) (bx : cbox) (effort : nat) : bool :=
  if negb (box_covers (map under (bs_dom S)) bx) then false
  else box_inside (apply_range (c_functions (bs_cons S)) bx) (c_under (bs_cons S)).
Definition bs_inside (S : bset) (bx : cbox) (effort : nat) : bool := box_inside (map over (bs_dom S)) bx.
(** function_set.cpp:483-488, interval.inl.hpp:182-187; [tiny] is [FloatDP::min(dp)] *)
Definition bs_bounding_box (tiny : fl) (S : bset) : cbox :=
  map (fun i => mkB (fsub mode_DN (b_l (over i)) tiny) (fadd mode_UP (b_u (over i)) tiny)) (bs_dom S).
(** function_set.cpp:253-259 ([constraint_bounds] of real bounds) and 504-544: intersections.  The bounds of the constraints
    are used in place of the domains. *)
Definition c_real_bounds (cs : list constraint) : list rivl := map c_bounds cs.
Definition cs_meet_box (S : cset) (b : list rivl) : bset := mkBS b (cs_cons S).
Definition bs_intersection (rmax rmin : RR -> RR -> RR) (S1 S2 : bset) : option bset :=
  option_map (fun d => mkBS d (bs_cons S1 ++ bs_cons S2)) (real_meet rmax rmin (c_real_bounds (bs_cons S1)) (c_real_bounds (bs_cons S2))).
Definition bs_meet_box (rmax rmin : RR -> RR -> RR) (S : bset) (b : list rivl) : option bset :=
  option_map (fun d => mkBS d (bs_cons S)) (real_meet rmax rmin (c_real_bounds (bs_cons S)) b).
Definition bs_meet_cs (S : bset) (T : cset) : bset := mkBS (c_real_bounds (bs_cons S)) (bs_cons S ++ cs_cons T).

(** ** ConstrainedImageSet: function_set.hpp:197-283 *)
Record iset := mkIS { is_dom : list rivl; is_fun : list F; is_cons : list constraint }.
(** function_set.cpp:556-562: the domain is replaced by its over-approximation *)
Definition identity (n : nat) : list F := map (fo_coordinate ops n) (seq 0 n).
Definition exact_ivl (X : bnd) : rivl := mkRI (fo_float ops (b_l X)) (fo_float ops (b_u X)).
Definition is_of_bounded (S : bset) : iset :=
  mkIS (map (fun i => exact_ivl (over i)) (bs_dom S)) (identity (length (bs_dom S))) (bs_cons S).
(** function_set.hpp:232-247 *)
Definition is_apply (h : list F) (S : iset) : iset := mkIS (is_dom S) (map (fun g => fo_compose ops g (is_fun S)) h) (is_cons S).
Definition is_parameter_constraint (c : constraint) (S : iset) : iset := mkIS (is_dom S) (is_fun S) (is_cons S ++ [c]).
Definition is_space_constraint (c : constraint) (S : iset) : iset :=
  mkIS (is_dom S) (is_fun S) (is_cons S ++ [mkC (fo_compose ops (c_fun c) (is_fun S)) (c_bounds c)]).
(** function_set.cpp:716-723 *)
Definition bs_image (S : bset) (h : list F) : iset := mkIS (bs_dom S) h (bs_cons S).
(** function_set.cpp:580-583 *)
Definition is_bounding_box (S : iset) : cbox := apply_range (is_fun S) (map over (is_dom S)).
(** function_set.cpp:659-676 and 612-637; the effort is not used *)
Definition is_inside (S : iset) (bx : cbox) (effort : nat) : bool := box_inside (is_bounding_box S) bx.
Definition is_separated (S : iset) (bx : cbox) (effort : nat) : bool :=
  box_empty (fo_reduce ops (map over (is_dom S)) (is_fun S ++ c_functions (is_cons S)) (bx ++ c_over (is_cons S))).
Definition is_overlaps (S : iset) (bx : cbox) (effort : nat) : option bool :=
  v_overlaps (v_make (map under (is_dom S)) (is_fun S) (is_cons S)) bx.
Definition is_satisfies (S : iset) (nc : constraint) (effort : nat) : lv :=
  let b := over (c_bounds nc) in
  satisfies_with (ivl_subset (fo_range ops (c_fun nc) (is_bounding_box S)) b) (map over (is_dom S)) (is_fun S) (is_cons S) nc
    (mkB (b_l (fo_get ops (i_up (c_bounds nc)))) finf) (mkB (fneg finf) (b_u (fo_get ops (i_lo (c_bounds nc))))).
(** function_set.cpp:703-713, with [half] the midpoint of two real numbers *)
Definition is_split (half : RR -> RR -> RR) (j : nat) (S : iset) : option (iset * iset) :=
  match nth_error (is_dom S) j with
  | None => None
  | Some i =>
    let m := half (i_lo i) (i_up i) in
    Some (mkIS (set_at j (mkRI (i_lo i) m) (is_dom S)) (is_fun S) (is_cons S),
          mkIS (set_at j (mkRI m (i_up i)) (is_dom S)) (is_fun S) (is_cons S))
  end.
End FunctionSet.
Arguments function_operations {prec emax} RR F.
