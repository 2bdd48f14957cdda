(** The number types of the simplex solver: SimplexSolver<FloatDP>, which computes with
    FloatDPBounds, and SimplexSolver<Rational> (instances at simplex_algorithm.cpp:1524-1527).

    [raw_l] is what the code runs for floats.  [ck_l] is the same with the checked bounds of [ck_ops]
    (Solver_Float_Model.v): comparisons of bounds with an infinite or NaN end are not decided.  The two
    agree as long as all the computed numbers are finite.  The data may be infinite. *)
From Coq Require Import ZArith QArith List Bool Arith.
From Flocq Require Import Core IEEE754.BinarySingleNaN.
From Verif Require Import Float_Model Logical_Model Bounds_Model Solver_Model Solver_Float_Model Simplex_Model.
Import ListNotations.

Section FL.
  Context {prec emax : Z} {Hprec : Prec_gt_0 prec} {Hemax : Prec_lt_emax prec emax}.
  Notation fl := (binary_float prec emax).
  Notation bnd := (bounds prec emax).
  (** [tenk] is 10000, [err] is ERROR_TOLERANCE, [tl] BOUNDS_TOLERANCE and [rs] RESIDUAL_TOLERANCE. *)
  Variables (eps me tenk err tl rs : fl).

  (** vector.hpp:441-447 *)
  Definition v_norm (m : nat) (v : nat -> bnd) : bnd := fold_left (fun r i => b_max r (b_abs (v i))) (seq 0 m) (b_abs b0).
  (** matrix.hpp:862-873 *)
  Definition m_norm (m : nat) (Z : nat -> nat -> bnd) : bnd :=
    fold_left (fun r i => b_max r (fold_left (fun s j => b_add s (b_abs (Z i j))) (seq 0 m) (b_abs b0))) (seq 0 m) (b_abs b0).
  (** simplex_algorithm.cpp:500, 228, 188 *)
  Definition f_small (r : bnd) : bool := decide_lv (b_le (b_mul r (b_of tenk)) (b_of fone)).
  Definition f_lower_ok (a : fl) : bool := flt_lt (fneg finf) a.
  Definition f_upper_ok (a : fl) : bool := flt_lt a finf.
  Definition f_lt (x : bnd) (a : fl) : lv := b_lt x (b_of a).
  Definition f_gt (x : bnd) (a : fl) : lv := b_lt (b_of a) x.
  (** lines 1214-1215, 1220 *)
  Definition f_near_lo (x : bnd) (a : fl) : bool := decide_lv (b_ge x (b_sub (b_of a) (b_of tl))).
  Definition f_near_hi (x : bnd) (a : fl) : bool := decide_lv (b_le x (b_add (b_of a) (b_of tl))).
  Definition f_res (r : bnd) : bool := decide_lv (b_lt (b_abs r) (b_of rs)).
  Definition raw_l : lops (fl_ops eps me) :=
    mkL (fl_ops eps me) fl fzero (fneg finf) finf b_of f_lt f_gt flt_eq (fun x a => decide_lv (b_eq x (b_of a))) f_lower_ok f_upper_ok
      (fun x a b => possibly (f_lt x a) && possibly (f_gt x b))
      (fun m v => f_small (v_norm m v)) (fun m Z => decide_lv (b_lt (m_norm m Z) (b_of err))) (fun m Z => f_small (m_norm m Z))
      f_near_lo f_near_hi f_res.

  Definition ckv (x : bnd) (l : lv) : lv := if fin_b x then l else INDET.
  Definition ck_l : lops (ck_ops eps me) :=
    mkL (ck_ops eps me) fl fzero (fneg finf) finf b_of (fun x a => ckv x (f_lt x a)) (fun x a => ckv x (f_gt x a)) flt_eq
      (fun x a => fin_b x && decide_lv (b_eq x (b_of a))) f_lower_ok f_upper_ok
      (fun x a b => possibly (ckv x (f_lt x a)) && possibly (ckv x (f_gt x b)))
      (fun m v => f_small (v_norm m v)) (fun m Z => decide_lv (b_lt (m_norm m Z) (b_of err))) (fun m Z => f_small (m_norm m Z))
      (fun x a => fin_b x && f_near_lo x a) (fun x a => fin_b x && f_near_hi x a) (fun x => fin_b x && f_res x).
End FL.

(** Rational numbers.  The record [ops] has operations of intervals which the simplex solver does not
    use; for these, [None] stands for no number.  Arithmetic is exact, and the rationals the code computes are
    always [Some]. *)
Definition q_1 (f : Q -> Q) (a : option Q) : option Q := match a with Some q => Some (f q) | None => None end.
Definition q_2 (f : Q -> Q -> Q) (a b : option Q) : option Q := match a, b with Some x, Some y => Some (f x y) | _, _ => None end.
Definition q_t (d : bool) (f : Q -> Q -> bool) (a b : option Q) : bool := match a, b with Some x, Some y => f x y | _, _ => d end.
Definition q_ltb (x y : Q) : bool := negb (Qle_bool y x).
Definition q_abs (x : Q) : Q := if Qle_bool 0 x then x else Qopp x.
(** the pivot test of matrix.tpl.hpp:236; no number counts as 0 *)
Definition q_mig (a : option Q) : Q := match a with Some x => q_abs x | None => 0 end.
Definition q_ops : ops :=
  mkOps (option Q) (Some 0%Q) (Some 1%Q) (q_2 Qplus) (q_2 Qminus) (q_2 Qmult) (q_1 Qinv) (q_2 Qdiv) (fun a => a)
    (fun a b => q_ltb (q_mig b) (q_mig a)) (q_t false (fun x y => negb (Qeq_bool x y)) (Some 0%Q))
    (q_t true Qeq_bool) (fun a b => negb (q_t true Qeq_bool a b)) (fun _ _ => false)
    (fun a b => match a, b with Some x, Some y => if Qeq_bool x y then Some x else None | _, _ => None end)
    (fun _ => false) (fun _ _ => Some 0%Q) (fun _ r => (r, r)) (q_t false q_ltb).
(** Rationals with infinities, as bounds. *)
Inductive xq := QNeg | QFin (q : Q) | QPos.
Definition xq_num (a : xq) : option Q := match a with QFin q => Some q | _ => Some 0%Q end.
Definition xq_ltb (a b : xq) : bool :=
  match a, b with QNeg, QNeg => false | QNeg, _ => true | QFin x, QFin y => q_ltb x y | QFin _, QPos => true | _, _ => false end.
Definition lv_of (b : bool) : lv := if b then TRUE else FALSE.
Definition xq_of (x : option Q) (f : Q -> lv) : lv := match x with Some q => f q | None => INDET end.
Definition q_norm (m : nat) (v : nat -> option Q) : Q := fold_left (fun r i => if Qle_bool r (q_mig (v i)) then q_mig (v i) else r) (seq 0 m) 0%Q.
Definition q_mnorm (m : nat) (Z : nat -> nat -> option Q) : Q :=
  fold_left (fun r i => let s := fold_left (fun s j => Qplus s (q_mig (Z i j))) (seq 0 m) 0%Q in if Qle_bool r s then s else r) (seq 0 m) 0%Q.
Section QQ.
  Variables (err tl rs : Q).
  Definition q_l : lops q_ops :=
    mkL q_ops xq (QFin 0) QNeg QPos xq_num
      (fun x a => xq_of x (fun q => lv_of (xq_ltb (QFin q) a))) (fun x a => xq_of x (fun q => lv_of (xq_ltb a (QFin q))))
      (fun a b => negb (xq_ltb a b) && negb (xq_ltb b a))
      (fun x a => match x with Some q => negb (xq_ltb (QFin q) a) && negb (xq_ltb a (QFin q)) | None => false end)
      (fun a => xq_ltb QNeg a) (fun a => xq_ltb a QPos) (fun _ _ _ => false)
      (fun m v => Qle_bool (q_norm m v * (10000 # 1)) 1) (fun m Z => q_ltb (q_mnorm m Z) err) (fun m Z => Qle_bool (q_mnorm m Z * (10000 # 1)) 1)
      (fun x a => match x with Some q => negb (xq_ltb (QFin (q + tl)) a) | None => false end)
      (fun x a => match x with Some q => negb (xq_ltb a (QFin (q - tl))) | None => false end)
      (fun x => match x with Some q => q_ltb (q_abs q) rs | None => false end).
End QQ.
