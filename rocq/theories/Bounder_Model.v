(** Bounds for flows: source/solvers/bounder.cpp, EulerBounder.

    Boxes and their arithmetic are as in [ConstraintSolver_Model]; the vector field is given by its evaluation on
    boxes.  Times are Dyadic numbers, which are exact (Exact_Model).  The step allowed by the Lipschitz constant,
    lines 68-69, is a parameter: it may be any number or infinity.  Not modelled: preconditions on the dimensions, log
    output, NaN as a step. *)
From Coq Require Import ZArith Bool List Reals.
From Flocq Require Import Core IEEE754.BinarySingleNaN.
From Verif Require Import Float_Model Bounds_Model Box_Float_Model ConstraintSolver_Model.
From Verif Require Exact_Model.
Import ListNotations.

Section Bounder.
Context {prec emax : Z} {Hprec : Prec_gt_0 prec} {Hemax : Prec_lt_emax prec emax}.
Local Notation fl := (binary_float prec emax).
Local Notation bnd := (bounds prec emax).
Local Notation cbox := (list bnd).
Local Notation time := Exact_Model.dyadic_fin.

(** Rounding a Dyadic: numeric/float_lower_bound.hpp:76 and [mpf_get_d], which truncates (dyadic.cpp:232). *)
Definition to_float (m : mode) (d : time) : fl :=
  binary_normalize prec emax Hprec Hemax m (Exact_Model.mant d) (Exact_Model.expo d) false.
(** The value of a float as a Dyadic. *)
Definition of_float (x : fl) : time :=
  match x with
  | B754_finite s m e _ => Exact_Model.mkD (cond_Zopp s (Zpos m)) e
  | _ => Exact_Model.mkD 0 0
  end.
(** geometry/interval.hpp:439-440: both ends are rounded downward *)
Definition to_time_bounds (tl tu : time) : bnd := mkB (to_float mode_DN tl) (to_float mode_DN tu).

(** interval.inl.hpp:80, box.tpl.hpp:48-55 *)
Definition is_bounded (B : cbox) : bool := forallb (fun X => flt_lt (fneg (b_l X)) finf && flt_lt (b_u X) finf) B.
(** box.hpp:436-441 *)
Definition box_refines (B1 B2 : cbox) : bool := forallb (fun XY => b_refines (fst XY) (snd XY)) (combine B1 B2).
(** box.tpl.hpp:104-107, interval.inl.hpp:48 *)
Definition ivl_midpoint (X : bnd) : fl := f_midpoint mode_NE (b_l X) (b_u X).

(** bounder.cpp:58-64; MINIMUM_STEP_SIZE is not used *)
Definition box_radius_widening : fl := fdiv mode_NE (fnat 1) (fnat 4).
Definition no_widening : fl := fnat 1.
Definition initial_starting_widening : fl := fnat 2.
Definition initial_refining_widening : fl := fdiv mode_NE (fnat 9) (fnat 8).
Definition expansion_steps : nat := 4.
Definition refinement_steps : nat := 4.

Section Field.
  Context (autonomous : bool) (f : cbox -> list bnd) (D A : cbox).
  (** line 133: the condition of the conditional expression is the opposite of what the comment in bounder.hpp:130-131 says *)
  Definition widened_domain (iw : fl) : cbox :=
    if negb (flt_eq iw (fnat 1)) then D else map (fun X => b_add X (fb_mul iw (bf_sub X (ivl_midpoint X)))) D.
  (** [_formula], lines 125-136 *)
  Definition formula (T : bnd) (B : cbox) (iw vw : fl) : cbox :=
    let rH := bf_sub T (b_l T) in
    let dom := if autonomous then B ++ A else B ++ T :: A in
    map (fun wv => b_add (fst wv) (b_mul (fb_mul vw rH) (snd wv))) (combine (widened_domain iw) (f dom)).
  (** [_refinement], lines 120-123 *)
  Definition refinement (T : bnd) (B : cbox) : cbox := formula T B no_widening no_widening.

  (** lines 82-97: the box [Br] if it has been found *)
  Fixpoint expand (T : bnd) (n : nat) (B : cbox) : option cbox :=
    match n with
    | O => None
    | S n' =>
      let Br := refinement T B in
      if negb (is_bounded Br) then None
      else if box_refines Br B then Some Br
      else expand T n' (formula T B no_widening initial_refining_widening)
    end.
  (** lines 110-113 *)
  Fixpoint refine (T : bnd) (n : nat) (B : cbox) : cbox :=
    match n with O => B | S n' => refine T n' (refinement T B) end.

  Inductive bounding :=
    | Found (h : time) (B : cbox)
    | NotFound    (** BoundingNotFoundException *)
    | Searching.  (** still running *)
  (** [hlf(hprev).get_d()], lines 99-102 *)
  Definition next_step (hprev : time) : time :=
    of_float (to_float mode_ZR (Exact_Model.mkD (Exact_Model.mant hprev) (Exact_Model.expo hprev - 1))).
  Definition t_lt (a b : time) : bool := match Exact_Model.d_cmpx a b with Lt => true | _ => false end.
  (** lines 73-117 *)
  Fixpoint search (t hmin : time) (fuel : nat) (hprev h : time) : bounding :=
    match fuel with
    | O => Searching
    | S fuel' =>
      let T := to_time_bounds t (Exact_Model.d_addx t h) in
      match expand T expansion_steps (formula T D box_radius_widening initial_starting_widening) with
      | Some B => Found h (refine T refinement_steps B)
      | None => let h' := next_step hprev in
                if t_lt h' hmin then NotFound else search t hmin fuel' h h'
      end
    end.
  (** lines 66-70, 79; [hlip] is [None] for infinity; 1.5 is 3*2^-1 *)
  Definition starting_step (hlip : option time) (hsug : time) : time :=
    match hlip with
    | None => hsug
    | Some h => if t_lt hsug h then hsug else h
    end.
  Definition compute (t hmin : time) (hlip : option time) (fuel : nat) (hsug : time) : bounding :=
    let h := starting_step hlip hsug in search t hmin fuel (Exact_Model.d_mulx h (Exact_Model.mkD 3 (-1))) h.
End Field.
End Bounder.
