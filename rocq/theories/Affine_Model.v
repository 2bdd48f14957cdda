(** * Affine models

    Models /repo/source/function/affine_model.tpl.hpp and the error-accumulating
    operations of /repo/source/function/model_utilities.hpp which it uses, for
    AffineModel<ValidatedTag,F> and AffineModel<ApproximateTag,F> with F either
    float class.

    Simplifications: as in Taylor_Model, every rounded operation is correctly
    rounded in the mode current at that point, and the operands have the same
    precision.  A failed assertion is [None].  Not modelled: [scaling],
    [evaluate], [_compose], [_write], the constructors from functions. *)

From Coq Require Import ZArith NArith List Bool.
From Flocq Require Import Core IEEE754.BinarySingleNaN.
From Verif Require Import Float_Model Bounds_Model ErrBound_Model LRU_Model Poly_Model Taylor_Model.
Import ListNotations.

Section Affine.
Context {prec emax : Z}
        {Hprec : Prec_gt_0 prec} {Hemax : Prec_lt_emax prec emax}.
Notation fl := (binary_float prec emax).
Notation bnd := (bounds prec emax).

(** affine_model.hpp:128-204: value, gradient, error. *)
Record am := mkAM { a_v : fl; a_g : list fl; a_e : fl }.

(** ** Operations of model_utilities.hpp *)
(** [add_err] (80-89) and [mul_err] (164-173) on floats, and [mul_err] by
    bounds (175-200), are those of taylor_model.tpl.hpp: see Taylor_Model.
    91-103: [add_err] with a constant given by bounds.  Unlike the function of
    the same name in taylor_model.tpl.hpp it adds the lower bound to [-x]. *)
Definition add_err_c (x : fl) (c : bnd) (e : fl) : fl * fl :=
  let rv := fadd near x (b_value c) in
  let u := fadd up x (b_u c) in
  let ml := fadd up (fneg x) (b_l c) in
  (rv, fadd up e (fhlf up (fadd up ml u))).
(** 339-349. *)
Definition lin_err (a1 b1 a2 b2 e : fl) : fl * fl :=
  let r := fadd near (fmul near a1 b2) (fmul near b1 a2) in
  let u := fadd up (fmul up a1 b2) (fmul up b1 a2) in
  let ml := fadd up (fmul up a1 (fneg b2)) (fmul up (fneg b1) a2) in
  (r, fadd up e (fhlf up (fadd up ml u))).

(** The loops over the gradient, which thread the accumulated error. *)
Fixpoint thread {A} (op : A -> fl -> fl * fl) (l : list A) (e : fl) : list fl * fl :=
  match l with
  | [] => ([], e)
  | a :: l => let '(r, e1) := op a e in let '(g, e2) := thread op l e1 in (r :: g, e2)
  end.

(** ** Arithmetic of validated models *)
(** 138-144: the sum of the magnitudes, rounded up. *)
Definition norm (g : list fl) : fl := fold_left (fun r c => fadd up r (fabs c)) g fzero.
(** 153-163. *)
Definition am_neg (a : am) : am := mkAM (fneg (a_v a)) (map fneg (a_g a)) (a_e a).
(** 164-176. *)
Definition am_add (a1 a2 : am) : option am :=
  if Nat.eqb (length (a_g a1)) (length (a_g a2)) then
    let '(v, e0) := add_err (a_v a1) (a_v a2) fzero in
    let '(g, e1) := thread (fun p e => add_err (fst p) (snd p) e) (combine (a_g a1) (a_g a2)) e0 in
    Some (mkAM v g (fadd up e1 (fadd up (a_e a1) (a_e a2))))
  else None.
(** 178-195: the parentheses of the error are those of the code. *)
Definition mul_error (a1 a2 : am) (e : fl) : fl :=
  fadd up
    (fadd up (fadd up e (fmul up (a_e a1) (a_e a2)))
       (fadd up (fadd up (fabs (a_v a1)) (fmul up (norm (a_g a1)) (a_e a2)))
                (fmul up (a_e a1) (fadd up (fabs (a_v a2)) (norm (a_g a2))))))
    (fmul up (norm (a_g a1)) (norm (a_g a2))).
Definition am_mul (a1 a2 : am) : option am :=
  if Nat.eqb (length (a_g a1)) (length (a_g a2)) then
    let '(v, e0) := mul_err (a_v a1) (a_v a2) fzero in
    let '(g, e1) := thread (fun p e => lin_err (a_v a1) (fst p) (a_v a2) (snd p) e) (combine (a_g a1) (a_g a2)) e0 in
    Some (mkAM v g (mul_error a1 a2 e1))
  else None.
(** 197-205. *)
Definition am_addc (c : bnd) (a : am) : am :=
  let '(v, e) := add_err_c (a_v a) c (a_e a) in mkAM v (a_g a) e.
(** 207-222. *)
Definition am_mulc (c : bnd) (a : am) : am :=
  let '(v, e0) := mul_err_b (a_v a) c fzero in
  let '(g, e1) := thread (fun x e => mul_err_b x c e) (a_g a) e0 in
  mkAM v g (fadd up e1 (fmul up (b_mag c) (a_e a))).
(** 333-341: the error and the magnitudes of the gradient, rounded up. *)
Definition am_range (a : am) : bnd :=
  let e := fold_left (fun r c => fadd up r (fabs c)) (a_g a) (a_e a) in
  mkB (fsub down (a_v a) e) (fadd up (a_v a) e).

(** ** Conversions *)
(** 226-244: from an affine function whose coefficients are bounds. *)
Definition off (c : bnd) : fl := fmax (fsub up (b_u c) (b_value c)) (fsub up (b_value c) (b_l c)).
Definition am_of_affine (b : bnd) (g : list bnd) : am :=
  mkAM (b_value b) (map b_value g)
       (fadd up (fold_left (fun e c => fadd up e (off c)) g fzero) (off b)).
(** 246-269: from a Taylor model.  [set_first] is the loop 257-262: the first
    variable with exponent 1.  The degree of an index has 16 bits. *)
Fixpoint set_first (a : mi) (g : list fl) (c : fl) : list fl :=
  match a, g with
  | d :: a, y :: g => if (d =? 1)%N then c :: g else y :: set_first a g c
  | _, _ => g
  end.
Definition am_term (r : am) (t : mi * fl) : am :=
  let d := w16 (fold_right N.add 0%N (fst t)) in
  if (2 <=? d)%N then mkAM (a_v r) (a_g r) (fadd up (fabs (snd t)) (a_e r))
  else if (d =? 1)%N then mkAM (a_v r) (set_first (fst t) (a_g r) (snd t)) (a_e r)
  else mkAM (snd t) (a_g r) (a_e r).
Definition am_of_taylor (n : nat) (t : tm prec emax) : am :=
  let r := fold_left am_term (t_exp t) (mkAM fzero (repeat fzero n) fzero) in
  mkAM (a_v r) (a_g r) (fadd up (t_err t) (a_e r)).

(** ** Arithmetic of approximate models: value and gradient *)
Definition ap := (fl * list fl)%type.
Definition zip (op : fl -> fl -> fl) (g1 g2 : list fl) : list fl := map (fun p => op (fst p) (snd p)) (combine g1 g2).
(** 71-81. *)
Definition ap_neg (a : ap) : ap := (fneg (fst a), map fneg (snd a)).
(** 83-94. *)
Definition ap_add (a1 a2 : ap) : option ap :=
  if Nat.eqb (length (snd a1)) (length (snd a2)) then
    Some (fadd near (fst a1) (fst a2), zip (fadd near) (snd a1) (snd a2))
  else None.
(** 96-107: the operators are those of the code. *)
Definition ap_mul (a1 a2 : ap) : option ap :=
  if Nat.eqb (length (snd a1)) (length (snd a2)) then
    Some (fadd near (fst a1) (fst a2),
          zip (fun g1 g2 => fadd near (fadd near (fmul near (fst a1) g2) g1) (fst a2)) (snd a1) (snd a2))
  else None.
(** 109-117 and 119-133. *)
Definition ap_addc (c : fl) (a : ap) : ap := (fadd near c (fst a), snd a).
Definition ap_mulc (c : fl) (a : ap) : ap := (fmul near (fst a) c, map (fun g => fmul near g c) (snd a)).
End Affine.
Arguments am : clear implicits.
Arguments ap : clear implicits.
