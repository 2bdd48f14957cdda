(** What sets defined by functions are, and what the solvers used by them are supposed to do. *)
From Coq Require Import ZArith Reals List.
From Coquelicot Require Import Rbar.
From Flocq Require Import Core IEEE754.BinarySingleNaN.
From Verif Require Import Logical_Model Float_Model Float_Spec Bounds_Model Bounds_Spec ConstraintSolver_Model ConstraintSolver_Spec FunctionSet_Model.
Import ListNotations.
Local Open Scope R_scope.

Section Spec.
Context {prec emax : Z} {Hprec : Prec_gt_0 prec} {Hemax : Prec_lt_emax prec emax}.
Local Notation fl := (binary_float prec emax).
Local Notation bnd := (bounds prec emax).
Local Notation cbox := (list bnd).
Context {RR F : Type}.
(** The real number, possibly infinite, which a number is, and the real function which a function is. *)
Context (rv : RR -> Rbar) (den : F -> list R -> R).

(** ** Numbers and boxes *)
(** The floats of [b] are bounds of [v]. *)
Definition named (b : bnd) (v : Rbar) : Prop :=
  no_nan b /\
  (forall r, Rbar_le v (Finite r) -> below (b_l b) r) /\ (forall r, Rbar_le (Finite r) v -> above (b_u b) r) /\
  (forall r, below (b_u b) r -> Rbar_le v (Finite r)) /\ (forall r, above (b_l b) r -> Rbar_le (Finite r) v).
Definition in_real (i : @rivl RR) (r : R) : Prop := Rbar_le (rv (i_lo i)) (Finite r) /\ Rbar_le (Finite r) (rv (i_up i)).
Definition in_real_box (b : list (@rivl RR)) (x : list R) : Prop := Forall2 in_real b x.
(** The interior of a box with float end points. *)
Definition strictly_below (f : fl) (r : R) : Prop :=
  match f with B754_nan => False | B754_infinity s => s = true | _ => B2R f < r end.
Definition strictly_above (f : fl) (r : R) : Prop :=
  match f with B754_nan => False | B754_infinity s => s = false | _ => r < B2R f end.
Definition inner (X : bnd) (r : R) : Prop := strictly_below (b_l X) r /\ strictly_above (b_u X) r.
Definition in_inner (B : cbox) (x : list R) : Prop := Forall2 inner B x.

(** ** Sets *)
Definition values (fs : list F) (x : list R) : list R := map (fun f => den f x) fs.
Definition holds (c : @constraint RR F) (x : list R) : Prop := in_real (c_bounds c) (den (c_fun c) x).
Definition all_hold (cs : list (@constraint RR F)) (x : list R) : Prop := List.Forall (fun c => holds c x) cs.
Definition in_cset (S : @cset RR F) (x : list R) : Prop := length x = cs_dim S /\ all_hold (cs_cons S) x.
Definition in_bset (S : @bset RR F) (x : list R) : Prop := in_real_box (bs_dom S) x /\ all_hold (bs_cons S) x.
Definition in_iset (S : @iset RR F) (y : list R) : Prop :=
  exists s, in_real_box (is_dom S) s /\ all_hold (is_cons S) s /\ y = values (is_fun S) s.
Definition in_vset (V : @vset prec emax RR F) (y : list R) : Prop :=
  exists s, in_cbox (v_dom V) s /\ all_hold (v_cons V) s /\ y = values (v_fun V) s.

(** ** Operations *)
Record sound_ops (ops : @function_operations prec emax RR F) : Prop := {
  so_get : forall x, named (fo_get ops x) (rv x);
  so_float : forall f r, is_nan f = false -> (Rbar_le (rv (fo_float ops f)) (Finite r) <-> below f r) /\ (Rbar_le (Finite r) (rv (fo_float ops f)) <-> above f r);
  so_range : forall f B x, in_cbox B x -> contains (fo_range ops f B) (den f x);
  so_compose : forall f gs x, den (fo_compose ops f gs) x = den f (values gs x);
  so_coordinate : forall n i x, length x = n -> (i < n)%nat -> den (fo_coordinate ops n i) x = nth i x 0;
  (** reduction keeps the solutions and does not enlarge the box *)
  so_reduce : forall B fs C x, in_cbox B x -> in_cbox C (values fs x) -> in_cbox (fo_reduce ops B fs C) x;
  so_smaller : forall B fs C x, in_cbox (fo_reduce ops B fs C) x -> in_cbox B x;
  (** the answers of the solver and the positive answer of the optimiser are right *)
  so_infeasible : forall B cs x, fo_feasible ops B cs = FALSE -> in_cbox B x -> ~ List.Forall (fun c => contains (snd c) (den (fst c) x)) cs;
  so_feasible : forall B cs, fo_feasible ops B cs = TRUE -> exists x, in_cbox B x /\ List.Forall (fun c => contains (snd c) (den (fst c) x)) cs;
  so_optimise : forall B fs C, fo_optimise ops B fs C = TRUE -> exists x, in_cbox B x /\ in_cbox C (values fs x);
  (** the midpoint is in the interval unless the ends are in the wrong order, and is a number if the interval is bounded *)
  so_half : forall X r, ivl_empty X = false -> contains (mkB (b_l X) (fo_middle ops X)) r \/ contains (mkB (fo_middle ops X) (b_u X)) r -> contains X r;
  so_order : forall X, ivl_empty X = false -> ivl_empty (mkB (b_l X) (fo_middle ops X)) = false /\ ivl_empty (mkB (fo_middle ops X) (b_u X)) = false;
  so_middle : forall X, finite_bounds X -> ivl_empty X = false -> is_finite (fo_middle ops X) = true
}.
(** Maximum, minimum and midpoint of real numbers. *)
Definition is_max (rmax : RR -> RR -> RR) : Prop := forall a b r, Rbar_le (rv (rmax a b)) (Finite r) <-> Rbar_le (rv a) (Finite r) /\ Rbar_le (rv b) (Finite r).
Definition is_min (rmin : RR -> RR -> RR) : Prop := forall a b r, Rbar_le (Finite r) (rv (rmin a b)) <-> Rbar_le (Finite r) (rv a) /\ Rbar_le (Finite r) (rv b).
Definition is_middle (half : RR -> RR -> RR) : Prop := forall a b, Rbar_le (rv a) (rv b) -> Rbar_le (rv a) (rv (half a b)) /\ Rbar_le (rv (half a b)) (rv b).

(** The sets which can be made by the operations of the class. *)
Inductive made (ops : @function_operations prec emax RR F) : @vset prec emax RR F -> Prop :=
  | made_set : forall D f cs, made ops (v_make D f cs)
  | made_apply : forall h V, made ops V -> made ops (v_apply ops h V)
  | made_parameter : forall c V, made ops V -> made ops (v_parameter_constraint c V)
  | made_space : forall c V, made ops V -> made ops (v_space_constraint ops c V)
  | made_reduce : forall V, made ops V -> made ops (v_reduce ops V)
  | made_first : forall j V V1 V2, made ops V -> v_split ops j V = Some (V1, V2) -> made ops V1
  | made_second : forall j V V1 V2, made ops V -> v_split ops j V = Some (V1, V2) -> made ops V2
  | made_restriction : forall D V W, made ops V -> v_restriction D V = Some W -> made ops W.
(** The bounds of the constraints are floats. *)
Definition exact_bounds (ops : @function_operations prec emax RR F) (cs : list (@constraint RR F)) : Prop :=
  List.Forall (fun c => forall r, contains (over ops (c_bounds c)) r -> in_real (c_bounds c) r) cs.
(** The parameters which satisfy the constraints up to the rounding of the bounds. *)
Definition nearly_hold (ops : @function_operations prec emax RR F) (cs : list (@constraint RR F)) (x : list R) : Prop :=
  List.Forall (fun c => contains (over ops (c_bounds c)) (den (c_fun c) x)) cs.
End Spec.
