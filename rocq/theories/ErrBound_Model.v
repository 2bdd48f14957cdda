(** * Error, UpperBound and LowerBound

    Models /repo/source/numeric/float_error.hpp, float_upper_bound.hpp,
    float_upper_bound.tpl.hpp, float_lower_bound.hpp and
    float_lower_bound.tpl.hpp.  A value of each class is its raw float. *)

From Coq Require Import ZArith NArith List Bool.
From Flocq Require Import Core IEEE754.BinarySingleNaN.
From Verif Require Import Float_Model Bounds_Model Ball_Model LRU_Model.

Section EB.
Context {prec emax : Z}
        {Hprec : Prec_gt_0 prec} {Hemax : Prec_lt_emax prec emax}.
Notation fl := (binary_float prec emax).
Notation bnd := (bounds prec emax).

(** [F(m,rnd,pr)] for a natural number. *)
Definition fnat (m : mode) (n : N) : fl := binary_normalize prec emax Hprec Hemax m (Z.of_N n) 0 false.

(** double.cpp:116-122 [pow_rnd(double,Int)]; the assertion is an outcome. *)
Definition fpowi (md : mode) (x : fl) (n : Z) : outcome fl :=
  if (0 <=? n)%Z then Ret (fpow md x (Z.to_N n))
  else if Beqb x fzero then AssertFail
  else if gt0 x || (Z.rem n 2 =? -1)%Z
  then Ret (fpow md (fdiv md fone x) (Z.to_N (- n)))
  else Ret (fpow md (fdiv md (fneg fone) x) (Z.to_N (- n))).

(** [static_cast<Int>(Nat)] with 32-bit types. *)
Definition to_int (n : N) : Z :=
  let z := (Z.of_N n mod 2^32)%Z in if (z <? 2^31)%Z then z else (z - 2^32)%Z.

(** float_error.hpp:108-109, 124-128, 141-142. *)
Definition er_add (x y : fl) : fl := fadd up x y.
Definition er_mul (x y : fl) : fl := fmul up x y.
Definition er_sqr (x : fl) : fl := fsqr up x.
Definition er_fma (x y z : fl) : fl := ffma up x y z.
Definition er_max (x y : fl) : fl := fmax x y.
Definition er_min (x y : fl) : fl := fmin x y.
(** float_error.hpp:127, float_upper_bound.hpp:298-299 with the cast of the exponent. *)
Definition er_pow (x : fl) (n : N) : outcome fl := fpowi up x (to_int n).
(** float_error.hpp:162-168. *)
Definition er_div (x l : fl) : fl := fdiv up x l.
Definition er_add_nat (x : fl) (n : N) : fl := fadd up x (fnat up n).
Definition er_mul_nat (x : fl) (n : N) : fl := fmul up x (fnat up n).
Definition er_div_nat (x : fl) (n : N) : fl := fdiv up x (fnat down n).
(** float_error.hpp:115-116, 171. *)
Definition er_fadd (f e : fl) : fl := fadd up f e.
Definition er_fsub (f e : fl) : fl := fsub down f e.

(** float_upper_bound.hpp:158-166, 180-183; float_lower_bound.hpp:158-168, 187-190. *)
Definition ub_neg (u : fl) : fl := fneg u.
Definition ub_add (u1 u2 : fl) : fl := fadd up u1 u2.
Definition ub_sub (u l : fl) : fl := fsub up u l.
Definition ub_max (u1 u2 : fl) : fl := fmax u1 u2.
Definition ub_min (u1 u2 : fl) : fl := fmin u1 u2.
Definition lb_neg (l : fl) : fl := fneg l.
Definition lb_add (l1 l2 : fl) : fl := fadd down l1 l2.
Definition lb_sub (l u : fl) : fl := fsub down l u.
Definition lb_max (l1 l2 : fl) : fl := fmax l1 l2.
Definition lb_min (l1 l2 : fl) : fl := fmin l1 l2.

(** float_upper_bound.hpp:230-242: products with positive bounds, floats. *)
Definition ub_mul_pb (p : bnd) (u : fl) : fl := fmul up (if ge0 u then b_u p else b_l p) u.
Definition ub_div_pb (u : fl) (p : bnd) : fl := fdiv up u (if ge0 u then b_l p else b_u p).
(** float_lower_bound.hpp:236-241. *)
Definition lb_mul_pb (p : bnd) (l : fl) : fl := fmul down (if ge0 l then b_l p else b_u p) l.
Definition lb_div_pb (l : fl) (p : bnd) : fl := fdiv down l (if ge0 l then b_u p else b_l p).

(** float_upper_bound.hpp:276-285, 318-323, 344-347. *)
Definition pu_sqr (u : fl) : fl := fsqr up u.
Definition pu_rec (l : fl) : fl := frec up l.
Definition pu_mul (u1 u2 : fl) : fl := fmul up u1 u2.
Definition pu_div (u l : fl) : fl := fdiv up u l.
Definition pu_div_float (x l : fl) : fl := fdiv down x l.
(** float_lower_bound.hpp:282-291, 309-314, 335-336. *)
Definition pl_sqr (l : fl) : fl := fsqr down l.
Definition pl_rec (u : fl) : fl := frec down u.
Definition pl_mul (l1 l2 : fl) : fl := fmul down l1 l2.
Definition pl_div (l u : fl) : fl := fdiv down l u.
Definition pl_div_op (l u : fl) : fl := fmul down l u.
Definition pl_div_float (x u : fl) : fl := fdiv down x u.

(** Expressions built from Error operations (the arithmetic on the error
    term of function models is of this form). *)
Inductive eexpr :=
| EVar (i : nat)
| EAdd (a b : eexpr) | EMul (a b : eexpr) | ESqr (a : eexpr) | EFma (a b c : eexpr)
| EMax (a b : eexpr) | EMin (a b : eexpr)
| EAddNat (a : eexpr) (n : N) | EMulNat (a : eexpr) (n : N) | EDivNat (a : eexpr) (n : N).

Fixpoint ee_eval (env : nat -> fl) (e : eexpr) : fl :=
  match e with
  | EVar i => env i
  | EAdd a b => er_add (ee_eval env a) (ee_eval env b)
  | EMul a b => er_mul (ee_eval env a) (ee_eval env b)
  | ESqr a => er_sqr (ee_eval env a)
  | EFma a b c => er_fma (ee_eval env a) (ee_eval env b) (ee_eval env c)
  | EMax a b => er_max (ee_eval env a) (ee_eval env b)
  | EMin a b => er_min (ee_eval env a) (ee_eval env b)
  | EAddNat a n => er_add_nat (ee_eval env a) n
  | EMulNat a n => er_mul_nat (ee_eval env a) n
  | EDivNat a n => er_div_nat (ee_eval env a) n
  end.

(** The sub-expressions of an expression, itself included. *)
Fixpoint ee_subs (e : eexpr) : list eexpr :=
  e :: match e with
  | EVar _ => nil
  | EAdd a b | EMul a b | EMax a b | EMin a b => ee_subs a ++ ee_subs b
  | EFma a b c => ee_subs a ++ ee_subs b ++ ee_subs c
  | ESqr a | EAddNat a _ | EMulNat a _ | EDivNat a _ => ee_subs a
  end.
End EB.

(** float_upper_bound.tpl.hpp:40-42 and float_lower_bound.tpl.hpp:39-41:
    construction at another precision. *)
Section Conv.
Context {p1 e1 p2 e2 : Z} {Hp : Prec_gt_0 p2} {He : Prec_lt_emax p2 e2}.
Definition ub_of_float (x : binary_float p1 e1) : binary_float p2 e2 := fconv down x.
Definition ub_of_bounds (x : bounds p1 e1) : binary_float p2 e2 := fconv down (b_u x).
Definition ub_of_upper (u : binary_float p1 e1) : binary_float p2 e2 := fconv up u.
Definition lb_of_float (x : binary_float p1 e1) : binary_float p2 e2 := fconv down x.
Definition lb_of_bounds (x : bounds p1 e1) : binary_float p2 e2 := fconv down (b_l x).
Definition lb_of_lower (l : binary_float p1 e1) : binary_float p2 e2 := fconv down l.
End Conv.
