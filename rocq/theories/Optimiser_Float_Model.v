(** The floating-point instance of the operations of Optimiser_Model.v: exact numbers are
    floats, exact and upper intervals are pairs of floats, bounds are those of [ck_ops]
    (Solver_Float_Model.v), where bounds with an infinite or NaN end stand for the whole line.
    As there, a test with such bounds is not decided, an infinite or NaN number is in no
    interval, and an interval operation whose result has a NaN answers the whole line.  The code
    has no such checks; the two agree as long as the numbers are finite. *)
From Coq Require Import ZArith List Bool Arith.
From Flocq Require Import Core IEEE754.BinarySingleNaN.
From Verif Require Import Float_Model Logical_Model Bounds_Model Box_Model Box_Float_Model Solver_Model Solver_Float_Model Optimiser_Model.

Section FL.
  Context {prec emax : Z} {Hprec : Prec_gt_0 prec} {Hemax : Prec_lt_emax prec emax}.
  Notation fl := (binary_float prec emax).
  Notation bnd := (bounds prec emax).
  Notation o := (float_ops prec emax).
  Variables (eps me : fl).

  Definition ckl (a : bnd) (r : lv) : lv := if fin_b a then r else INDET.
  (** interval.inl.hpp:87, 77: with an exact number; [lower_bound()==upper_bound()] *)
  Definition fx_has (i : fl * fl) (x : fl) : bool := is_finite x && definitely (i_contains o (exact_ivl (fst i) (snd i)) x).
  Definition fx_single (i : fl * fl) : bool := is_finite (fst i) && is_finite (snd i) && definitely (i_is_singleton o (exact_ivl (fst i) (snd i))).
  (** interval.inl.hpp:87 with bounds: [ivl.lower_bound()<=x && ivl.upper_bound()>=x] *)
  Definition fx_contains (i : fl * fl) (x : bnd) : lv := ckl x (lv_and (b_le (b_of (fst i)) x) (b_ge (b_of (snd i)) x)).
  Definition fx_disjoint (x : bnd) (i : fl * fl) : lv := ckl x (i_disjoint o (upper_ivl (b_l x) (b_u x)) (exact_ivl (fst i) (snd i))).
  Definition fx_subset (x : bnd) (i : fl * fl) : lv := ckl x (i_subset o (upper_ivl (b_l x) (b_u x)) (exact_ivl (fst i) (snd i))).
  Definition fx_empty (i : fl * fl) : bool := definitely (i_is_empty o (exact_ivl (fst i) (snd i))).
  (** nonlinear_programming.cpp:467 *)
  Definition fx_widen (i : fl * fl) (e : fl) : fl * fl := (fsub down (fst i) e, fadd up (snd i) e).
  Definition nan_b (a : bnd) : bool := is_nan (b_l a) || is_nan (b_u a).
  Definition ckw (a : bnd) : bnd := if nan_b a then whole else a.
  Definition fx_meet (i : fl * fl) (u : bnd) : fl * fl :=
    if is_nan (fst i) || is_nan (snd i) then i
    else let c := ckw u in (fmax (fst i) (b_l c), fmin (snd i) (b_u c)).
  Definition fu_num (x : bnd) : bnd := if fin_b x then x else whole.
  Definition fu_pt (x : fl) : bnd := if is_finite x then b_of x else whole.
  Definition fu_disjoint (a b : bnd) : lv := i_disjoint o (upper_ivl (b_l a) (b_u a)) (upper_ivl (b_l b) (b_u b)).
  Definition fu_apart (a b : bnd) : lv := i_is_empty o (i_intersection o (upper_ivl (b_l a) (b_u a)) (upper_ivl (b_l b) (b_u b))).

  Definition fl_x : xops (ck_ops eps me) :=
    mkX (ck_ops eps me) fl (fl * fl) bnd b_of fst fx_single (fun i => mkB (fst i) (snd i)) fx_has fx_contains fx_disjoint fx_subset fx_empty
      (mkB fzero fone) (b_add b1 b1) fx_widen fx_meet fu_num (fun i => mkB (fst i) (snd i)) fu_pt b0 (mkB (fneg fone) fone)
      (fun a b => ckw (b_add a b)) (fun a b => ckw (b_sub a b)) (fun a b => ckw (b_mul a b)) fu_disjoint fu_apart.
End FL.
