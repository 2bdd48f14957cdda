(** Procedures: straight-line programs compiled from formulae.

    Models source/function/procedure.hpp, procedure.tpl.hpp and procedure.cpp, and the
    evaluation of formulae in source/function/formula.tpl.hpp.  Operators are those of
    [Expr_Model].  Formulae are directed acyclic graphs: every node carries its
    address, which is what the conversion uses to recognise sharing. *)
From Coq Require Import ZArith List Bool Reals.
From Verif Require Import Expr_Model.
Import ListNotations.

Section Formulas.
Context {Y : Type}.

(** function/formula.tpl.hpp:30-51: the alternatives of [FormulaNode<Y>], each with the
    address of the node. *)
Inductive form : Type :=
  | FCst (p : nat) (y : Y)
  | FVar (p : nat) (i : nat)
  | FUn (p : nat) (o : uop) (a : form)
  | FBin (p : nat) (o : bop) (a b : form)
  | FPow (p : nat) (a : form) (n : Z)
  | FScal (p : nat) (o : bop) (y : Y) (a : form).

(** [Formula<Y>::node_ptr()] *)
Definition addr (f : form) : nat :=
  match f with
  | FCst p _ | FVar p _ | FUn p _ _ | FBin p _ _ _ | FPow p _ _ | FScal p _ _ _ => p
  end.

(** function/procedure.hpp:60-75: the alternatives of [ProcedureInstruction]. *)
Inductive instr : Type :=
  | ICst (k : nat)
  | IVar (i : nat)
  | IUn (o : uop) (a : nat)
  | IBin (o : bop) (a1 a2 : nat)
  | IPow (a : nat) (n : Z)
  | IScal (o : bop) (k a : nat).

(** The lists of instructions and constants under construction, and the map from
    addresses to indices. *)
Record pstate := { ps_ins : list instr; ps_cst : list Y; ps_cache : list (nat * nat) }.
Definition empty_state : pstate := {| ps_ins := []; ps_cst := []; ps_cache := [] |}.
Definition emit (i : instr) (s : pstate) : pstate :=
  {| ps_ins := ps_ins s ++ [i]; ps_cst := ps_cst s; ps_cache := ps_cache s |}.
Definition push (y : Y) (s : pstate) : pstate :=
  {| ps_ins := ps_ins s; ps_cst := ps_cst s ++ [y]; ps_cache := ps_cache s |}.
Definition remember (p num : nat) (s : pstate) : pstate :=
  {| ps_ins := ps_ins s; ps_cst := ps_cst s; ps_cache := (p, num) :: ps_cache s |}.
Definition cached (s : pstate) (p : nat) : option nat :=
  match List.find (fun e => Nat.eqb (fst e) p) (ps_cache s) with
  | Some e => Some (snd e) | None => None end.

(** function/procedure.tpl.hpp:57-84: [_convert] and [_convert_impl].  C++ does not
    specify the order in which the arguments of the constructor call are
    evaluated: [rtl] says whether it is from right to left.  A scalar node goes
    through the constructor of a binary instruction (function/procedure.hpp:82), for
    there is none for scalar instructions. *)
Fixpoint convert (rtl : bool) (s : pstate) (f : form) : nat * pstate :=
  match cached s (addr f) with
  | Some num => (num, s)
  | None =>
    let s' :=
      match f with
      | FCst _ y => let s1 := push y s in emit (ICst (length (ps_cst s1) - 1)) s1
      | FVar _ i => emit (IVar i) s
      | FUn _ o a => let (k, s1) := convert rtl s a in emit (IUn o k) s1
      | FBin _ o a b =>
          if rtl then
            let (k2, s1) := convert rtl s b in
            let (k1, s2) := convert rtl s1 a in emit (IBin o k1 k2) s2
          else
            let (k1, s1) := convert rtl s a in
            let (k2, s2) := convert rtl s1 b in emit (IBin o k1 k2) s2
      | FPow _ a n => let (k, s1) := convert rtl s a in emit (IPow k n) s1
      | FScal _ o y a =>
          let s0 := push y s in
          if rtl then
            let (k, s1) := convert rtl s0 a in emit (IBin o (length (ps_cst s1) - 1) k) s1
          else
            let k1 := length (ps_cst s0) - 1 in
            let (k, s1) := convert rtl s0 a in emit (IBin o k1 k) s1
      end in
    let num := length (ps_ins s') - 1 in
    (num, remember (addr f) num s')
  end.

(** function/procedure.tpl.hpp:121-126: [Procedure(as,f)] *)
Definition procedure (rtl : bool) (f : form) : pstate := snd (convert rtl empty_state f).

(** function/procedure.tpl.hpp:161-175: [Vector<Procedure>(as,fs)]: the results are looked
    up in the map afterwards; [operator\[\]] of a map gives 0 for a missing key. *)
Definition convert_all (rtl : bool) (fs : list form) : pstate :=
  fold_left (fun s f => snd (convert rtl s f)) fs empty_state.
Definition results (s : pstate) (fs : list form) : list nat :=
  map (fun f => match cached s (addr f) with Some k => k | None => 0 end) fs.

(** An algebra in which formulae and procedures are evaluated. *)
Record Alg := {
  al_ty :> Type;
  al_zero : al_ty;                         (* [x.zero_element()] *)
  al_cst : Y -> al_ty;                     (* [make_constant] *)
  al_un : uop -> al_ty -> al_ty;
  al_bin : bop -> al_ty -> al_ty -> al_ty;
  al_pow : al_ty -> Z -> al_ty;
  al_scal : bop -> Y -> al_ty -> al_ty     (* [op(y,x)] *)
}.

Section Execute.
Context (A : Alg).

(** function/formula.tpl.hpp:109-165: [evaluate(f,x)].  The cache of values is keyed by
    the root of the formula only, and a fresh one is made for every argument, so it never
    changes a value. *)
Fixpoint feval (x : list A) (f : form) : A :=
  match f with
  | FCst _ y => al_cst A y
  | FVar _ i => nth i x (al_zero A)
  | FUn _ o a => al_un A o (feval x a)
  | FBin _ o a b => al_bin A o (feval x a) (feval x b)
  | FPow _ a n => al_pow A (feval x a) n
  | FScal _ o y a => al_bin A o (al_cst A y) (feval x a)
  end.

(** function/procedure.tpl.hpp:220-231: [_execute_impl]; entries of [v] not yet written are
    zero. *)
Definition exec1 (c : list Y) (x : list A) (v : list A) (i : instr) : A :=
  let rd k := nth k v (al_zero A) in
  match i with
  | ICst k => match nth_error c k with Some y => al_cst A y | None => al_zero A end
  | IVar j => nth j x (al_zero A)
  | IUn o a => al_un A o (rd a)
  | IBin o a1 a2 => al_bin A o (rd a1) (rd a2)
  | IPow a n => al_pow A (rd a) n
  | IScal o k a => match nth_error c k with Some y => al_scal A o y (rd a) | None => al_zero A end
  end.

(** function/procedure.tpl.hpp:236-241: [_execute] *)
Definition exec (c : list Y) (x : list A) (p : list instr) : list A :=
  fold_left (fun v i => v ++ [exec1 c x v i]) p [].

(** function/procedure.hpp:177-182: [evaluate(Procedure,x)] *)
Definition evaluate (s : pstate) (x : list A) : A :=
  last (exec (ps_cst s) x (ps_ins s)) (al_zero A).

(** Replacing an element of a list. *)
Fixpoint set_nth (k : nat) (a : A) (v : list A) : list A :=
  match v, k with
  | [], _ => []
  | _ :: r, O => a :: r
  | b :: r, S k => b :: set_nth k a r
  end.

(** function/procedure.hpp:184-191: [evaluate(Vector<Procedure>,x)] moves the results out
    of the list of temporaries; [moved] is what moving leaves behind. *)
Fixpoint take_results (moved : A -> A) (t : list A) (rs : list nat) : list A :=
  match rs with
  | [] => []
  | k :: r =>
      let a := nth k t (al_zero A) in
      a :: take_results moved (set_nth k (moved a) t) r
  end.
Definition evaluate_vector (moved : A -> A) (s : pstate) (rs : list nat) (x : list A) : list A :=
  take_results moved (exec (ps_cst s) x (ps_ins s)) rs.

(** * Hull reduction *)

Section Reduce.
(** function/procedure.cpp:58-62: [restrict(r,x)] *)
Context (restrict : A -> A -> A).
(** an integer as an interval *)
Context (int : Z -> A).

(** function/procedure.tpl.hpp:265-279: the interval to which the argument of a unary
    operator is restricted.  There is no overload for [Nul], [Hlf] and [Abs]: the call
    resolves to line 286, which converts the operator back to the variant and calls
    itself for ever; [None]. *)
Definition back_un (r : A) (o : uop) : option A :=
  match o with
  | Pos => Some r
  | Neg => Some (al_un A Neg r)
  | Rec => Some (al_un A Rec r)
  | Sqr => Some (al_un A Sqrt r)
  | Sqrt => Some (al_un A Sqr r)
  | Exp => Some (al_un A Log r)
  | Log => Some (al_un A Exp r)
  | Sin => Some (al_un A Asin r)
  | Cos => Some (al_un A Acos r)
  | Tan => Some (al_un A Atan r)
  | Asin => Some (al_un A Sin r)
  | Acos => Some (al_un A Cos r)
  | Atan => Some (al_un A Tan r)
  | Nul | Hlf | Abs => None
  end.

(** function/procedure.tpl.hpp:244-249: the restrictions of the first argument, and then of
    the second. *)
Definition back_bin1 (r : A) (o : bop) (a2 : A) : A :=
  match o with
  | Add => al_bin A Sub r a2
  | Sub => al_bin A Add a2 r
  | Mul => al_bin A Div r a2
  | Div => al_bin A Mul a2 r
  | Max => al_bin A Max r a2
  | Min => al_bin A Min r a2
  end.
Definition back_bin2 (r : A) (o : bop) (a1 : A) : A :=
  match o with
  | Add => al_bin A Sub r a1
  | Sub => al_bin A Sub a1 r
  | Mul => al_bin A Div r a1
  | Div => al_bin A Div a1 r
  | Max => al_bin A Max r a1
  | Min => al_bin A Min r a1
  end.

(** function/procedure.tpl.hpp:269: [exp(log(r)/n)] *)
Definition back_pow (r : A) (n : Z) : A :=
  al_un A Exp (al_bin A Div (al_un A Log r) (int n)).

(** function/procedure.tpl.hpp:251-256, with [c1] as an interval *)
Definition back_scal (r : A) (o : bop) (c1 : A) : A :=
  match o with
  | Add => al_bin A Sub r c1
  | Sub => al_bin A Sub c1 r
  | Mul => al_bin A Div r c1
  | Div => al_bin A Div c1 r
  | Max => al_bin A Max r c1
  | Min => al_bin A Min r c1
  end.

(** function/procedure.tpl.hpp:297-308: [_backpropagate] of one instruction *)
Definition back1 (c : list Y) (r : nat) (i : instr) (v x : list A) : option (list A * list A) :=
  let rd k := nth k v (al_zero A) in
  match i with
  | ICst _ => Some (v, x)
  | IVar j => Some (v, set_nth j (restrict (nth j x (al_zero A)) (rd r)) x)
  | IUn o a =>
      match back_un (rd r) o with
      | Some b => Some (set_nth a (restrict (rd a) b) v, x)
      | None => None
      end
  | IBin o a1 a2 =>
      let v1 := set_nth a1 (restrict (rd a1) (back_bin1 (rd r) o (rd a2))) v in
      let rd1 k := nth k v1 (al_zero A) in
      Some (set_nth a2 (restrict (rd1 a2) (back_bin2 (rd1 r) o (rd1 a1))) v1, x)
  | IPow a n => Some (set_nth a (restrict (rd a) (back_pow (rd r) n)) v, x)
  | IScal o k a =>
      match nth_error c k with
      | Some y => Some (set_nth a (restrict (rd a) (back_scal (rd r) o (al_cst A y))) v, x)
      | None => Some (v, x)
      end
  end.

(** function/procedure.tpl.hpp:313-323: [_backpropagate]: instructions [r-1] down to 0. *)
Fixpoint back (c : list Y) (p : list instr) (r : nat) (v x : list A) : option (list A) :=
  match r with
  | O => Some x
  | S r' =>
      match nth_error p r' with
      | None => Some x
      | Some i =>
          match back1 c r' i v x with
          | Some (v', x') => back c p r' v' x'
          | None => None
          end
      end
  end.

(** function/procedure.cpp:64-72: [simple_hull_reduce(dom,f,codom)] *)
Definition hull_reduce (s : pstate) (dom : list A) (codom : A) : option (list A) :=
  let t := exec (ps_cst s) dom (ps_ins s) in
  let n := length t - 1 in
  let t' := set_nth n (restrict (nth n t (al_zero A)) codom) t in
  back (ps_cst s) (ps_ins s) (length (ps_ins s)) t' dom.

(** function/procedure.cpp:74-87: [simple_hull_reduce] for a vector of procedures *)
Fixpoint restrict_all (t : list A) (rs : list nat) (codom : list A) : list A :=
  match rs, codom with
  | k :: rs', b :: codom' => restrict_all (set_nth k (restrict (nth k t (al_zero A)) b) t) rs' codom'
  | _, _ => t
  end.
Definition hull_reduce_vector (s : pstate) (rs : list nat) (dom codom : list A) : option (list A) :=
  let t := exec (ps_cst s) dom (ps_ins s) in
  back (ps_cst s) (ps_ins s) (length (ps_ins s)) (restrict_all t rs codom) dom.

End Reduce.
End Execute.
End Formulas.
Arguments form Y : clear implicits.
Arguments pstate Y : clear implicits.
Arguments Alg Y : clear implicits.

(** * Gradients

    In exact real arithmetic: [c] are the values of the constants, and [v] the values of
    the temporaries computed by [execute]. *)
Section Gradient.
Open Scope R_scope.

(** numeric/operators.hpp:313-402: the two-argument [derivative(a,d)]. *)
Definition d_un (o : uop) (a d : R) : option R :=
  match o with
  | Nul => Some 0
  | Pos => Some d
  | Neg => Some (- d)
  | Hlf => Some (d / 2)
  | Rec => Some (d / - (a * a))
  | Sqr => Some (2 * a * d)
  | Sqrt => Some (d / (2 * sqrt a))
  | Exp => Some (exp a * d)
  | Log => Some (d / a)
  | Sin => Some (cos a * d)
  | Cos => Some (- sin a * d)
  | Tan => Some (/ (cos a * cos a) * d)
  | Asin | Acos => Some (/ (1 - sqrt a) * d)
  | Atan => Some (/ (1 + a * a) * d)
  | Abs => None                           (* function/procedure.tpl.hpp:344: [assert(false)] *)
  end.

Definition rd (v : list R) (k : nat) : R := nth k v 0.
(** [dv\[k\] += d] *)
Fixpoint add_nth (k : nat) (d : R) (v : list R) : list R :=
  match v, k with
  | [], _ => []
  | b :: r, O => b + d :: r
  | b :: r, S k => b :: add_nth k d r
  end.

(** function/procedure.tpl.hpp:329-373: [_back_gradient_impl]; [None] is a failed
    assertion. *)
Definition grad1 (c : list R) (r : nat) (i : instr) (v dv df : list R) : option (list R * list R) :=
  let dr := rd dv r in
  match i with
  | ICst _ => Some (dv, df)
  | IVar j => Some (dv, add_nth j dr df)
  | IUn o a => match d_un o (rd v a) dr with Some d => Some (add_nth a d dv, df) | None => None end
  | IBin Add a1 a2 => Some (add_nth a2 dr (add_nth a1 dr dv), df)
  | IBin Sub a1 a2 => Some (add_nth a2 (- dr) (add_nth a1 dr dv), df)
  | IBin Mul a1 a2 => Some (add_nth a2 (rd v a1 * dr) (add_nth a1 (dr * rd v a2) dv), df)
  | IBin Div a1 a2 =>
      Some (add_nth a2 (- (dr / rd v a2 * (rd v a1 / rd v a2))) (add_nth a1 (dr / rd v a2) dv), df)
  | IBin Max _ _ | IBin Min _ _ => None
  | IPow a n => Some (add_nth a (IZR n * powerRZ (rd v a) (n - 1) * dr) dv, df)
  | IScal Add _ a => Some (add_nth a dr dv, df)
  | IScal Sub _ a => Some (add_nth a (- dr) dv, df)
  | IScal Mul k a => Some (add_nth a (rd c k * dr) dv, df)
  | IScal Div k a => Some (add_nth a (- (dr / rd v a * (rd c k / rd v a))) dv, df)
  | IScal Max _ _ | IScal Min _ _ => None
  end.

Fixpoint grad_loop (c : list R) (p : list instr) (v : list R) (r : nat) (dv df : list R) : option (list R) :=
  match r with
  | O => Some df
  | S r' =>
      match nth_error p r' with
      | None => Some df
      | Some i =>
          match grad1 c r' i v dv df with
          | Some (dv', df') => grad_loop c p v r' dv' df'
          | None => None
          end
      end
  end.

(** function/procedure.tpl.hpp:377-395: [gradient(f,x)] for [n] arguments; [v] is the
    result of [execute]. *)
Definition gradient (c : list R) (p : list instr) (v : list R) (n : nat) : option (list R) :=
  let m := length p in
  grad_loop c p v m (repeat 0 (m - 1) ++ [1]) (repeat 0 n).

End Gradient.
