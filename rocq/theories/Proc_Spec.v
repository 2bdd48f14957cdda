(** What the theorems about procedures say. *)
From Coq Require Import ZArith List Bool Reals.
From Verif Require Import Expr_Model Expr_Spec Proc_Model.
Import ListNotations.

(** * Formulae *)
Section Forms.
Context {Y : Type}.

(** The nodes of a formula. *)
Fixpoint nodes (f : form Y) : list (form Y) :=
  f :: match f with
       | FCst _ _ | FVar _ _ => []
       | FUn _ _ a | FPow _ a _ | FScal _ _ _ a => nodes a
       | FBin _ _ a b => nodes a ++ nodes b
       end.

(** Nodes at the same address are the same node.  (Nodes are immutable and alive
    while the formulae are.) *)
Definition same_memory (fs : list (form Y)) : Prop :=
  forall f g, In f (flat_map nodes fs) -> In g (flat_map nodes fs) -> addr f = addr g -> f = g.

(** No node is of the form [op(constant,formula)] built by [Formula::scalar]. *)
Definition no_scalar_nodes (f : form Y) : Prop :=
  forall g, In g (nodes f) -> match g with FScal _ _ _ _ => False | _ => True end.
End Forms.

(** * The values computed by a procedure at a point *)
Section Points.
Open Scope R_scope.

Definition pt_step (c : list R) (rho : valuation) (w : list R) (i : instr) : option R :=
  match i with
  | ICst k => nth_error c k
  | IVar j => Some (rho j)
  | IUn o a => bind (nth_error w a) (sem1 o)
  | IBin o a b => bind (nth_error w a) (fun x => bind (nth_error w b) (fun y => sem2 o x y))
  | IPow a n => bind (nth_error w a) (fun x => sempow x n)
  | IScal o k a => bind (nth_error c k) (fun x => bind (nth_error w a) (fun y => sem2 o x y))
  end.

(** The values of all the temporaries, given those of the first ones, [w]; [None] if some
    operation is not defined, or if an instruction uses the result of a later one. *)
Fixpoint pt_run (c : list R) (rho : valuation) (w : list R) (p : list instr) : option (list R) :=
  match p with
  | [] => Some w
  | i :: r => bind (pt_step c rho w i) (fun y => pt_run c rho (w ++ [y]) r)
  end.
Definition pt_values c rho p := pt_run c rho [] p.
(** The value of the procedure: that of the last temporary. *)
Definition pt_value (c : list R) (rho : valuation) (p : list instr) : option R :=
  bind (pt_values c rho p) (fun w => nth_error w (length w - 1)).

(** * Interval arithmetic *)

(** [A] is an arithmetic of sets enclosing real arithmetic: [contains a x] says that the
    number [x] is in [a].  Division encloses every solution of [z*y=x], as division by an
    interval containing zero does, being the whole line. *)
Record encloses {Y} (A : Alg Y) (contains : A -> R -> Prop) (yval : Y -> R)
    (restrict : A -> A -> A) (int : Z -> A) : Prop := {
  enc_cst : forall y, contains (al_cst A y) (yval y);
  enc_un : forall o a x z, contains a x -> sem1 o x = Some z -> contains (al_un A o a) z;
  enc_bin : forall o a b x y z, contains a x -> contains b y -> sem2 o x y = Some z ->
    contains (al_bin A o a b) z;
  enc_div : forall a b x y z, contains a x -> contains b y -> z * y = x ->
    contains (al_bin A Div a b) z;
  enc_pow : forall a n x z, contains a x -> sempow x n = Some z -> contains (al_pow A a n) z;
  enc_scal : forall o y b x z, contains b x -> sem2 o (yval y) x = Some z ->
    contains (al_scal A o y b) z;
  enc_restrict : forall a b x, contains a x -> contains b x -> contains (restrict a b) x;
  enc_int : forall n, contains (int n) (IZR n)
}.

(** The best such arithmetic: arbitrary sets of reals, with the exact image under every
    operation. *)
Definition set_alg : Alg R := {|
  al_ty := R -> Prop;
  al_zero := eq 0;
  al_cst y := eq y;
  al_un o a := fun z => exists x, a x /\ sem1 o x = Some z;
  al_bin o a b := fun z => exists x y, a x /\ b y /\
    match o with Div => z * y = x | _ => sem2 o x y = Some z end;
  al_pow a n := fun z => exists x, a x /\ sempow x n = Some z;
  al_scal o y b := fun z => exists x, b x /\ sem2 o y x = Some z
|}.
Definition set_contains (a : set_alg) (x : R) : Prop := a x.
Definition set_restrict (a b : set_alg) : set_alg := fun x => a x /\ b x.
Definition set_int (n : Z) : set_alg := fun x => x = IZR n.

(** The point [rho] is in the box [dom]. *)
Definition in_box {A : Type} (contains : A -> R -> Prop) (dom : list A) (rho : valuation) : Prop :=
  forall j a, nth_error dom j = Some a -> contains a (rho j).

(** The procedure has at most [n] arguments. *)
Definition arguments_below (n : nat) (p : list instr) : Prop := forall j, In (IVar j) p -> (j < n)%nat.

(** The values at which the inverse used in hull reduction is the right branch. *)
Definition principal1 (c : list R) (w : list R) (i : instr) : Prop :=
  let v k := nth k w 0 in
  match i with
  | IUn Sqr a => 0 <= v a
  | IUn Sin a => - (PI / 2) <= v a <= PI / 2
  | IUn Cos a => 0 <= v a <= PI
  | IUn Tan a => - (PI / 2) < v a < PI / 2
  | IPow a n => 0 < v a
  | IBin Max a b | IBin Min a b => v a = v b
  | IScal Max k a => nth k c 0 <= v a
  | IScal Min k a => v a <= nth k c 0
  | _ => True
  end.
Definition principal (c : list R) (w : list R) (p : list instr) : Prop :=
  forall i, In i p -> principal1 c w i.

(** The operators for which hull reduction has a case. *)
Definition reducible1 (i : instr) : Prop :=
  match i with IUn Nul _ | IUn Hlf _ | IUn Abs _ => False | _ => True end.
Definition reducible (p : list instr) : Prop := forall i, In i p -> reducible1 i.

(** * Gradients *)

(** [y] is the partial derivative of the procedure with respect to its [k]-th argument: its
    value is defined near the point, and has derivative [y] there. *)
Definition proc_partial (c : list R) (p : list instr) (k : nat) (rho : valuation) (y : R) : Prop :=
  exists delta, 0 < delta /\
  (forall t, Rabs (t - rho k) < delta -> pt_value c (upd rho k t) p <> None) /\
  forall f : R -> R,
    (forall t z, Rabs (t - rho k) < delta -> pt_value c (upd rho k t) p = Some z -> f t = z) ->
    derivable_pt_lim f (rho k) y.

(** The instruction is differentiable at the values [w] of the temporaries, and not one of
    the inverse sine and cosine. *)
Definition smooth1 (w : list R) (i : instr) : Prop :=
  let v k := nth k w 0 in
  match i with
  | IUn Sqrt a => 0 < v a
  | IUn Abs _ | IUn Asin _ | IUn Acos _ => False
  | IBin Max _ _ | IBin Min _ _ | IScal Max _ _ | IScal Min _ _ => False
  | IPow a n => (n <= 0)%Z -> v a <> 0
  | _ => True
  end.
Definition smooth (w : list R) (p : list instr) : Prop := forall i, In i p -> smooth1 w i.

End Points.
