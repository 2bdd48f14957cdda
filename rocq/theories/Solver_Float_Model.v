(** The floating-point instances of the solver model: validated numbers are the bounds of
    Bounds_Model.v.

    [fl_ops] is the arithmetic the code runs.  [ck_ops] is the same arithmetic, except that
    bounds with an infinite or NaN end stand for the whole line: an operation with such an
    argument answers the whole line, and tests on such arguments are never decided.  The two
    agree as long as all the numbers are finite.  The difference matters: C81 has a run of
    [fl_ops] in which a NaN produces a wrong answer. *)
From Coq Require Import ZArith List Bool Arith.
From Flocq Require Import Core IEEE754.BinarySingleNaN.
From Verif Require Import Float_Model Logical_Model Bounds_Model Box_Float_Model Solver_Model.
Import ListNotations.

Section FL.
  Context {prec emax : Z} {Hprec : Prec_gt_0 prec} {Hemax : Prec_lt_emax prec emax}.
  Notation fl := (binary_float prec emax).
  Notation bnd := (bounds prec emax).
  (** FloatDP::eps, floatdp.hpp, and maximum_error() of the solver. *)
  Variables (eps me : fl).

  Definition whole : bnd := mkB (fneg finf) finf.
  Definition b0 : bnd := b_of fzero.
  Definition b1 : bnd := b_of fone.
  (** matrix.tpl.hpp:363,403: [definitely(a.lower()>0 || a.upper()<0)] *)
  Definition b_nonzero (a : bnd) : bool := gt0 (b_l a) || lt0 (b_u a).
  (** solver.cpp:257: one component of [definitely(sup_error(nr)<e)] *)
  Definition b_small (a : bnd) : bool := flt_lt (b_error a) me.
  (** vector.hpp:665-671 *)
  Definition sup_err (n : nat) (r : nat -> bnd) : fl := fold_left (fun m i => fmax m (b_error (r i))) (seq 0 n) (b_error b0).
  (** solver.cpp:273-274 *)
  Definition b_widening (n : nat) (r : nat -> bnd) : bnd := let w := fmul up eps (sup_err n r) in mkB (fneg w) w.
  (** interval.inl.hpp:50: width of an exact interval *)
  Definition b_width (a : bnd) : bnd := ff_sub (b_u a) (b_l a).
  (** box.tpl.hpp:60-67 *)
  Definition b_irmax (n : nat) (r : nat -> bnd) : nat :=
    fold_left (fun k i => if decide_lv (b_gt (b_width (r i)) (b_width (r k))) then i else k) (seq 1 (n - 1)) O.
  (** box.tpl.hpp:79-88, interval.inl.hpp:29,48 *)
  Definition b_halves (n : nat) (r : nat -> bnd) : (nat -> bnd) * (nat -> bnd) :=
    let k := b_irmax n r in let a := r k in let c := f_midpoint near (b_l a) (b_u a) in
    (fun i => if Nat.eqb i k then mkB (b_l a) c else r i, fun i => if Nat.eqb i k then mkB c (b_u a) else r i).

  Definition fl_ops : ops :=
    mkOps bnd b0 b1 b_add b_sub b_mul b_rec b_div (fun a => b_of (b_value a))
      (fun a b => flt_lt (b_mig b) (b_mig a)) b_nonzero b_consistent b_inconsistent b_refines b_refinement
      b_small b_widening b_halves (fun a b => decide_lv (b_lt a b)).

  Definition fin_b (a : bnd) : bool := is_finite (b_l a) && is_finite (b_u a).
  Definition ck1 (f : bnd -> bnd) (a : bnd) : bnd := if fin_b a then f a else whole.
  Definition ck2 (f : bnd -> bnd -> bnd) (a b : bnd) : bnd := if fin_b a && fin_b b then f a b else whole.
  Definition ckt (d : bool) (f : bnd -> bnd -> bool) (a b : bnd) : bool := if fin_b a && fin_b b then f a b else d.
  Definition ck_mig (a : bnd) : fl := if fin_b a then b_mig a else fzero.
  Definition ck_refinement (a b : bnd) : bnd := if fin_b a then if fin_b b then b_refinement a b else a else if fin_b b then b else whole.
  Definition ck_widening (n : nat) (r : nat -> bnd) : bnd := let w := b_widening n r in if flt_le fzero (b_u w) then w else whole.
  Definition ck_halves (n : nat) (r : nat -> bnd) : (nat -> bnd) * (nat -> bnd) :=
    let a := r (b_irmax n r) in
    if fin_b a && is_finite (f_midpoint near (b_l a) (b_u a)) then b_halves n r else (r, r).
  Definition ck_ops : ops :=
    mkOps bnd b0 b1 (ck2 b_add) (ck2 b_sub) (ck2 b_mul) (ck1 b_rec) (ck2 b_div) (ck1 (fun a => b_of (b_value a)))
      (fun a b => flt_lt (ck_mig b) (ck_mig a)) (fun a => fin_b a && b_nonzero a) (ckt true b_consistent) (ckt false b_inconsistent)
      (ckt false b_refines) ck_refinement (fun a => fin_b a && b_small a) ck_widening ck_halves
      (ckt false (fun a b => decide_lv (b_lt a b))).
End FL.
