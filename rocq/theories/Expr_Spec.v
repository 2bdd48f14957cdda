(** What the theorems about symbolic expressions say, in terms of real functions. *)
From Coq Require Import ZArith List Bool Reals.
From Verif Require Import Logical_Model Expr_Model.
Import ListNotations.
Open Scope R_scope.

(** * The value of an expression *)

(** The value of an elementary operator; [None] where it is not defined. *)
Definition sem1 (o : uop) (x : R) : option R :=
  match o with
  | Nul => Some 0
  | Pos => Some x
  | Neg => Some (- x)
  | Sqr => Some (x * x)
  | Hlf => Some (x / 2)
  | Rec => if Req_EM_T x 0 then None else Some (/ x)
  | Sqrt => if Rle_dec 0 x then Some (sqrt x) else None
  | Exp => Some (exp x)
  | Log => if Rlt_dec 0 x then Some (ln x) else None
  | Sin => Some (sin x)
  | Cos => Some (cos x)
  | Tan => if Req_EM_T (cos x) 0 then None else Some (tan x)
  | Asin => if Rle_dec (Rabs x) 1 then Some (asin x) else None
  | Acos => if Rle_dec (Rabs x) 1 then Some (acos x) else None
  | Atan => Some (atan x)
  | Abs => Some (Rabs x)
  end.

Definition sem2 (o : bop) (x y : R) : option R :=
  match o with
  | Add => Some (x + y)
  | Sub => Some (x - y)
  | Mul => Some (x * y)
  | Div => if Req_EM_T y 0 then None else Some (x / y)
  | Max => Some (Rmax x y)
  | Min => Some (Rmin x y)
  end.

(** An integer power; negative powers of zero are not defined. *)
Definition sempow (x : R) (n : Z) : option R :=
  if Z.ltb n 0 then (if Req_EM_T x 0 then None else Some (powerRZ x n))
  else Some (powerRZ x n).

Definition bind {A B} (o : option A) (f : A -> option B) : option B :=
  match o with Some x => f x | None => None end.

(** A valuation of the variables. *)
Definition valuation := nat -> R.
Definition upd (rho : valuation) (v : nat) (x : R) : valuation :=
  fun w => if Nat.eqb w v then x else rho w.

Section Semantics.
Context {C : RealConst}.
(** The real number described by a constant. *)
Variable val : C -> R.

(** The value of an expression at a valuation; [None] where it is not defined. *)
Fixpoint eval (rho : valuation) (e : expr C) : option R :=
  match e with
  | Cst c => Some (val c)
  | Var v => Some (rho v)
  | Un o a => bind (eval rho a) (sem1 o)
  | Bin o a b => bind (eval rho a) (fun x => bind (eval rho b) (sem2 o x))
  | Powr a n => bind (eval rho a) (fun x => sempow x n)
  end.

(** Performing assignments one after the other, the last of the list first. *)
Inductive assign_all (rho : valuation) : list (nat * expr C) -> valuation -> Prop :=
  | aa_nil : assign_all rho [] rho
  | aa_cons v s l rho' x :
      assign_all rho l rho' -> eval rho' s = Some x -> assign_all rho ((v, s) :: l) (upd rho' v x).

(** What is assumed of the constants: integers are exact, positive answers of the
    comparisons are right, and operators compute the right real number.  Nothing
    is assumed about negative answers. *)
Record consts_sound : Prop := {
  cs_int : forall z, val (rc_int C z) = IZR z;
  cs_is : forall c z, rc_is C c z = true -> val c = IZR z;
  cs_same : forall c d, rc_same C c d = true -> val c = val d;
  cs_un : forall o c y, sem1 o (val c) = Some y -> val (rc_un C o c) = y
}.

(** Equal node pointers mean equal expressions. *)
Definition ptr_sound (ptr_eq : expr C -> expr C -> bool) : Prop :=
  forall a b, ptr_eq a b = true -> a = b.

(** * Nodes of an expression *)

(** [P] holds at every node of [e]. *)
Fixpoint each_node (P : expr C -> Prop) (e : expr C) : Prop :=
  P e /\
  match e with
  | Cst _ | Var _ => True
  | Un _ a => each_node P a
  | Bin _ a b => each_node P a /\ each_node P b
  | Powr a _ => each_node P a
  end.

Definition without_un (o : uop) : expr C -> Prop :=
  each_node (fun e => match e with Un o' _ => o' <> o | _ => True end).

(** Only non-negative numbers are squared. *)
Definition squares_nonneg (rho : valuation) : expr C -> Prop :=
  each_node (fun e => match e with
                      | Un Sqr a => forall x, eval rho a = Some x -> 0 <= x
                      | Powr a 2 => forall x, eval rho a = Some x -> 0 <= x
                      | _ => True end).

(** Tangents are only taken of angles strictly between -pi/2 and pi/2. *)
Definition tangents_principal (rho : valuation) : expr C -> Prop :=
  each_node (fun e => match e with
                      | Un Tan a => forall x, eval rho a = Some x -> - PI / 2 < x < PI / 2
                      | _ => True end).

(** No operator without a derivative rule, and not [asin] or [acos]. *)
Definition smooth_ops : expr C -> Prop :=
  each_node (fun e => match e with
                      | Un Abs _ | Un Asin _ | Un Acos _ => False
                      | Bin Max _ _ | Bin Min _ _ => False
                      | _ => True end).

(** Strictly inside the domain of smoothness: square roots of positive numbers,
    and no zeroth power of zero. *)
Definition interior (rho : valuation) : expr C -> Prop :=
  each_node (fun e => match e with
                      | Un Sqrt a => forall x, eval rho a = Some x -> 0 < x
                      | Powr a 0 => forall x, eval rho a = Some x -> x <> 0
                      | _ => True end).

(** * Derivatives *)

(** [y] is the partial derivative of [e] with respect to [v] at [rho]: [e] is
    defined for all nearby values of [v], and any real function [f] with the
    values of [e] there has derivative [y]. *)
Definition partial_derivative (e : expr C) (v : nat) (rho : valuation) (y : R) : Prop :=
  exists delta : R, 0 < delta /\
  (forall t, Rabs (t - rho v) < delta -> eval (upd rho v t) e <> None) /\
  forall f : R -> R,
    (forall t x, Rabs (t - rho v) < delta -> eval (upd rho v t) e = Some x -> f t = x) ->
    derivable_pt_lim f (rho v) y.

(** * Dependence on variables *)

(** [rho'] differs from [rho] at most in the variables [vars]. *)
Definition varies_in (vars : list nat) (rho rho' : valuation) : Prop :=
  forall v, ~ In v vars -> rho' v = rho v.

(** Wherever it is defined, [e] has one and the same value. *)
Definition constant_fn (e : expr C) (vars : list nat) : Prop :=
  forall rho, exists k, forall rho' x,
    varies_in vars rho rho' -> eval rho' e = Some x -> x = k.

(** A sum of [a v * rho v] over the list. *)
Definition lin (a : nat -> R) (vars : list nat) (rho : valuation) : R :=
  fold_right (fun v s => a v * rho v + s) 0 vars.

(** Wherever it is defined, [e] is an affine function of [vars]. *)
Definition affine_fn (e : expr C) (vars : list nat) : Prop :=
  forall rho, exists k a, forall rho' x,
    varies_in vars rho rho' -> eval rho' e = Some x -> x = k + lin a vars rho'.

(** Polynomial functions of the variables [vars]. *)
Inductive polyfun (vars : list nat) : (valuation -> R) -> Prop :=
  | pf_const k : polyfun vars (fun _ => k)
  | pf_var v : In v vars -> polyfun vars (fun rho => rho v)
  | pf_add f g : polyfun vars f -> polyfun vars g -> polyfun vars (fun rho => f rho + g rho)
  | pf_mul f g : polyfun vars f -> polyfun vars g -> polyfun vars (fun rho => f rho * g rho).

(** Wherever it is defined, [e] is a polynomial function of [vars]. *)
Definition polynomial_fn (e : expr C) (vars : list nat) : Prop :=
  forall rho, exists p, polyfun vars p /\ forall rho' x,
    varies_in vars rho rho' -> eval rho' e = Some x -> x = p rho'.

(** Wherever it is defined, [e] is [v] plus a constant. *)
Definition shift_fn (e : expr C) (v : nat) : Prop :=
  forall rho, exists k, forall t x, eval (upd rho v t) e = Some x -> x = t + k.

(** * Predicates *)

(** Is the comparison of two numbers true? *)
Definition cmp_true (o : cop) (x y : R) : Prop :=
  match o with
  | Equal => x = y | Unequal => x <> y
  | Less => x < y | Gtr => x > y | Leq => x <= y | Geq => x >= y
  end.

(** All the real expressions in a predicate are defined, and it has no variables of
    Kleenean type. *)
Fixpoint pdefined (rho : valuation) (p : pred C) : Prop :=
  match p with
  | KCst _ => True
  | KVar _ => False
  | KNot q => pdefined rho q
  | KAnd q r | KOr q r => pdefined rho q /\ pdefined rho r
  | KSgn e => eval rho e <> None
  | KCmp _ a b => eval rho a <> None /\ eval rho b <> None
  end.

(** The truth of a predicate, given the truth [undecided] of constants about which
    the code knows nothing definite. *)
Fixpoint ptrue (undecided : lv -> Prop) (rho : valuation) (p : pred C) : Prop :=
  match p with
  | KCst TRUE => True
  | KCst FALSE => False
  | KCst k => undecided k
  | KVar _ => False
  | KNot q => ~ ptrue undecided rho q
  | KAnd q r => ptrue undecided rho q /\ ptrue undecided rho r
  | KOr q r => ptrue undecided rho q \/ ptrue undecided rho r
  | KSgn e => exists x, eval rho e = Some x /\ 0 < x
  | KCmp o a b => exists x y, eval rho a = Some x /\ eval rho b = Some y /\ cmp_true o x y
  end.

(** The Kleenean value of a predicate: comparisons of equal numbers are undecided. *)
Definition sign_lv (x : R) : lv :=
  if Rlt_dec 0 x then TRUE else if Rlt_dec x 0 then FALSE else INDET.
Definition cmp_lv (o : cop) (x y : R) : lv :=
  match o with
  | Less | Leq => sign_lv (y - x)
  | Gtr | Geq => sign_lv (x - y)
  | Equal => if Req_EM_T x y then INDET else FALSE
  | Unequal => if Req_EM_T x y then INDET else TRUE
  end.
Fixpoint peval (kv : nat -> lv) (rho : valuation) (p : pred C) : option lv :=
  match p with
  | KCst k => Some k
  | KVar v => Some (kv v)
  | KNot q => bind (peval kv rho q) (fun x => Some (lv_neg x))
  | KAnd q r => bind (peval kv rho q) (fun x => bind (peval kv rho r) (fun y => Some (lv_and x y)))
  | KOr q r => bind (peval kv rho q) (fun x => bind (peval kv rho r) (fun y => Some (lv_or x y)))
  | KSgn e => bind (eval rho e) (fun x => Some (sign_lv x))
  | KCmp o a b => bind (eval rho a) (fun x => bind (eval rho b) (fun y => Some (cmp_lv o x y)))
  end.

(** Predicates built without conjunction and disjunction. *)
Fixpoint no_connective (p : pred C) : Prop :=
  match p with
  | KAnd _ _ | KOr _ _ => False
  | KNot q => no_connective q
  | _ => True
  end.

(** Property of all the comparison operators in a predicate. *)
Fixpoint each_cmp (P : cop -> Prop) (p : pred C) : Prop :=
  match p with
  | KCst _ | KVar _ | KSgn _ => True
  | KNot q => each_cmp P q
  | KAnd q r | KOr q r => each_cmp P q /\ each_cmp P r
  | KCmp o _ _ => P o
  end.

(** No variables of Kleenean type. *)
Fixpoint no_kvar (p : pred C) : Prop :=
  match p with
  | KVar _ => False
  | KCst _ | KSgn _ | KCmp _ _ _ => True
  | KNot q => no_kvar q
  | KAnd q r | KOr q r => no_kvar q /\ no_kvar r
  end.

(** Constants whose logical value is true, false or wholly indeterminate. *)
Fixpoint plain_consts (p : pred C) : Prop :=
  match p with
  | KCst k => k = TRUE \/ k = FALSE \/ k = INDET
  | KVar _ | KSgn _ | KCmp _ _ _ => True
  | KNot q => plain_consts q
  | KAnd q r | KOr q r => plain_consts q /\ plain_consts r
  end.

(** Property of all the real expressions in a predicate. *)
Fixpoint each_expr (P : expr C -> Prop) (p : pred C) : Prop :=
  match p with
  | KCst _ | KVar _ => True
  | KNot q => each_expr P q
  | KAnd q r | KOr q r => each_expr P q /\ each_expr P r
  | KSgn e => P e
  | KCmp _ a b => P a /\ P b
  end.

End Semantics.
