(** Model of symbolic expressions: evaluation, simplification, differentiation,
    substitution, structural queries, predicates and their indicators, and
    elimination of common subexpressions.

    Sources (paths relative to /repo/source):
    - symbolic/expression.tpl.hpp, symbolic/expression.cpp
    - symbolic/templates.tpl.hpp
    - numeric/operators.hpp (operators, their derivatives, [inverse], [are_inverses])

    Simplifications, valid for the whole file:
    - Only real-valued and Kleenean-valued expressions; vector-valued expressions
      and the [Get] node (component of a vector) are left out.
    - A variable is a number instead of an identifier.
    - The integer exponent of [pow] is unbounded.
    - Sharing of nodes is not represented: expressions are trees.  Where the code
      compares node pointers the model takes the comparison as a parameter
      [ptr_eq], about which only "equal pointers mean equal trees" is assumed
      (in the theorems, not here). *)
From Coq Require Import ZArith List Bool.
From Verif Require Import Logical_Model.
Import ListNotations.

(** numeric/operators.hpp:471: the alternatives of [UnaryElementaryOperator]. *)
Inductive uop : Set :=
  | Nul | Pos | Neg | Sqr | Hlf | Rec | Sqrt | Exp | Log
  | Sin | Cos | Tan | Asin | Acos | Atan | Abs.

(** numeric/operators.hpp:486: the alternatives of [BinaryElementaryOperator]. *)
Inductive bop : Set := Add | Sub | Mul | Div | Max | Min.

(** numeric/operators.hpp:477: the alternatives of [BinaryComparisonOperator]. *)
Inductive cop : Set := Equal | Unequal | Less | Gtr | Leq | Geq.

Definition uop_eqb (a b : uop) : bool :=
  match a, b with
  | Nul,Nul | Pos,Pos | Neg,Neg | Sqr,Sqr | Hlf,Hlf | Rec,Rec | Sqrt,Sqrt | Exp,Exp
  | Log,Log | Sin,Sin | Cos,Cos | Tan,Tan | Asin,Asin | Acos,Acos | Atan,Atan
  | Abs,Abs => true
  | _, _ => false
  end.

Definition bop_eqb (a b : bop) : bool :=
  match a, b with
  | Add,Add | Sub,Sub | Mul,Mul | Div,Div | Max,Max | Min,Min => true
  | _, _ => false
  end.

(** numeric/operators.hpp:502-510: [inverse(op)], where it is declared. *)
Definition inverse (o : uop) : option uop :=
  match o with
  | Pos => Some Pos | Neg => Some Neg | Rec => Some Rec
  | Sqr => Some Sqrt | Sqrt => Some Sqr
  | Exp => Some Log | Log => Some Exp
  | Tan => Some Atan | Atan => Some Tan
  | _ => None
  end.

(** numeric/operators.hpp:517-525: [are_inverses(ops1,ops2)]: the inverse of the
    first operator, if there is one, has the code of the second. *)
Definition are_inverses (o1 o2 : uop) : bool :=
  match inverse o1 with Some o => uop_eqb o o2 | None => false end.

(** What the code can do with the constants of type [Real] in an expression.
    A [Real] is an effective description of a number, so the code can only
    compare two of them by computing enclosures at some effort. *)
Record RealConst := {
  rc_ty :> Type;
  (** [Real(z)] as an unnamed constant *)
  rc_int : Z -> rc_ty;
  (** symbolic/expression.tpl.hpp:679-681: [decide(ce->value()==c)] at the default effort *)
  rc_is : rc_ty -> Z -> bool;
  (** symbolic/templates.tpl.hpp:370-371: equal names and [same(c1,c2)] (numeric/real.cpp:374-380) *)
  rc_same : rc_ty -> rc_ty -> bool;
  (** symbolic/expression.tpl.hpp:506-507: [_before(Constant,Constant)]: by name, then [decide(c1<c2)] *)
  rc_before : rc_ty -> rc_ty -> bool;
  (** the operator applied to the value, as an unnamed constant *)
  rc_un : uop -> rc_ty -> rc_ty
}.

Section Model.
Context {C : RealConst}.

(** symbolic/expression.tpl.hpp:112-119: the nodes of [Expression<Real>] (without [Get]). *)
Inductive expr : Type :=
  | Cst (c : C)
  | Var (v : nat)
  | Un (o : uop) (e : expr)
  | Bin (o : bop) (e1 e2 : expr)
  | Powr (e : expr) (n : Z).

(** [Expression<Real>::constant(z)] *)
Definition num (z : Z) : expr := Cst (rc_int C z).

(** symbolic/expression.cpp:170-206: an operator applied to an expression makes a
    node, except that [nul(e)] is the constant zero. *)
Definition mk1 (o : uop) (e : expr) : expr :=
  match o with Nul => num 0 | _ => Un o e end.

(** symbolic/expression.tpl.hpp:679-681 *)
Definition is_constant (e : expr) (z : Z) : bool :=
  match e with Cst c => rc_is C c z | _ => false end.

(** symbolic/expression.tpl.hpp:413-418, symbolic/templates.tpl.hpp:370-385:
    [identical(e1,e2)]: equal node pointers, or the same operator with identical
    arguments. *)
Fixpoint identical (ptr_eq : expr -> expr -> bool) (e1 e2 : expr) {struct e1} : bool :=
  ptr_eq e1 e2 ||
  match e1, e2 with
  | Cst c1, Cst c2 => rc_same C c1 c2
  | Var v1, Var v2 => Nat.eqb v1 v2
  | Un o1 a1, Un o2 a2 => uop_eqb o1 o2 && identical ptr_eq a1 a2
  | Bin o1 a1 b1, Bin o2 a2 b2 =>
      bop_eqb o1 o2 && identical ptr_eq a1 a2 && identical ptr_eq b1 b2
  | Powr a1 n1, Powr a2 n2 => identical ptr_eq a1 a2 && Z.eqb n1 n2
  | _, _ => false
  end.

(** symbolic/templates.tpl.hpp:300-314: the unary [_simplify_node], after the
    argument has been simplified to [s]. *)
Definition simp_un (o : uop) (s : expr) : expr :=
  match o with
  | Pos => s
  | _ =>
    match s with
    | Cst c => Cst (rc_un C o c)
    | Un o' t => if are_inverses o o' then t else mk1 o s
    | _ => mk1 o s
    end
  end.

(** symbolic/templates.tpl.hpp:250-329, symbolic/expression.tpl.hpp:474-487:
    [simplify].  [fuel] bounds the depth of the recursion; [None] is "out of
    fuel".  The calls [simplify(neg(e2))], [simplify(rec(e2))] and
    [simplify(sqr(e))] of the code, on already simplified arguments, are kept. *)
Fixpoint simp (ptr_eq : expr -> expr -> bool) (fuel : nat) (e : expr) : option expr :=
  match fuel with
  | O => None
  | S k =>
    match e with
    | Cst _ | Var _ => Some e
    | Un o a =>
        match simp ptr_eq k a with Some s => Some (simp_un o s) | None => None end
    | Bin o a b =>
        match simp ptr_eq k a, simp ptr_eq k b with
        | Some e1, Some e2 =>
          match o with
          | Add => if is_constant e1 0 then Some e2
                   else if is_constant e2 0 then Some e1
                   else Some (Bin Add e1 e2)
          | Sub => if is_constant e1 0 then simp ptr_eq k (mk1 Neg e2)
                   else if is_constant e2 0 then Some e1
                   else if identical ptr_eq e1 e2 then Some (num 0)
                   else Some (Bin Sub e1 e2)
          | Mul => if is_constant e1 0 || is_constant e2 1 then Some e1
                   else if is_constant e2 0 || is_constant e1 1 then Some e2
                   else Some (Bin Mul e1 e2)
          | Div => if is_constant e1 0 || is_constant e2 1 then Some e1
                   else if is_constant e1 1 then simp ptr_eq k (mk1 Rec e2)
                   else if identical ptr_eq e1 e2 then Some (num 1)
                   else Some (Bin Div e1 e2)
          | Max => Some (Bin Max e1 e2)
          | Min => Some (Bin Min e1 e2)
          end
        | _, _ => None
        end
    | Powr a n =>
        match simp ptr_eq k a with
        | Some s =>
            match n with
            | (-1)%Z => simp ptr_eq k (mk1 Rec s)
            | 0%Z => Some (num 1)
            | 1%Z => Some s
            | 2%Z => simp ptr_eq k (mk1 Sqr s)
            | _ => Some (Powr s n)
            end
        | None => None
        end
    end
  end.

(** Depth of recursion that is enough for [simp] (not in the code). *)
Fixpoint weight (e : expr) : nat :=
  match e with
  | Cst _ | Var _ => 1
  | Un _ a => 1 + weight a
  | Bin _ a b => 1 + weight a + weight b
  | Powr a _ => 2 + weight a
  end.

(** [simplify(e)] *)
Definition simplify (ptr_eq : expr -> expr -> bool) (e : expr) : option expr :=
  simp ptr_eq (weight e) e.

(** symbolic/templates.tpl.hpp:184-244, symbolic/expression.cpp:483-491, and the
    two-argument [derivative] members of numeric/operators.hpp:306-419:
    [derivative(e,v)]; [None] models the exception thrown for abs, max and min. *)
Fixpoint deriv (v : nat) (e : expr) : option expr :=
  match e with
  | Cst _ => Some (num 0)
  | Var w => Some (num (if Nat.eqb w v then 1 else 0))
  | Un Abs _ => None
  | Un o a =>
      match deriv v a with
      | None => None
      | Some d =>
        Some match o with
             | Nul => mk1 Nul d
             | Pos => d
             | Neg => Un Neg d
             | Hlf => Un Hlf d
             | Rec => Bin Div d (Un Neg (Un Sqr a))
             | Sqr => Bin Mul (Bin Mul (num 2) a) d
             | Sqrt => Bin Div d (Bin Mul (num 2) (Un Sqrt a))
             | Exp => Bin Mul (Un Exp a) d
             | Log => Bin Div d a
             | Sin => Bin Mul (Un Cos a) d
             | Cos => Bin Mul (Un Neg (Un Sin a)) d
             | Tan => Bin Mul (Un Rec (Un Sqr (Un Cos a))) d
             | Asin => Bin Mul (Un Rec (Bin Sub (num 1) (Un Sqrt a))) d
             | Acos => Bin Mul (Un Rec (Bin Sub (num 1) (Un Sqrt a))) d
             | Atan => Bin Mul (Un Rec (Bin Add (num 1) (Un Sqr a))) d
             | Abs => d
             end
      end
  | Bin o a b =>
      match o with
      | Max | Min => None
      | _ =>
        match deriv v a, deriv v b with
        | Some da, Some db =>
          Some match o with
               | Add => Bin Add da db
               | Sub => Bin Sub da db
               | Mul => Bin Add (Bin Mul da b) (Bin Mul a db)
               | _ => Bin Div (Bin Sub da (Bin Mul db (Bin Div a b))) b
               end
        | _, _ => None
        end
      end
  | Powr a n =>
      match deriv v a with
      | Some d => Some (Bin Mul (Bin Mul (num n) (Powr a (n - 1))) d)
      | None => None
      end
  end.

(** symbolic/expression.tpl.hpp:358-386: [substitute(e,v,s)] *)
Fixpoint subst (e : expr) (v : nat) (s : expr) : expr :=
  match e with
  | Cst c => Cst c
  | Var w => if Nat.eqb w v then s else Var w
  | Un o a => mk1 o (subst a v s)
  | Bin o a b => Bin o (subst a v s) (subst b v s)
  | Powr a n => Powr (subst a v s) n
  end.

(** symbolic/expression.tpl.hpp:392-398: [substitute(e,list of assignments)] *)
Fixpoint subst_list (e : expr) (l : list (nat * expr)) : expr :=
  match l with [] => e | (v, s) :: r => subst_list (subst e v s) r end.

(** A set of variables is a list of them. *)
Definition mem (v : nat) (vars : list nat) : bool := existsb (Nat.eqb v) vars.

(** symbolic/templates.tpl.hpp:444-477: [is_constant_in(e,vars)] *)
Fixpoint is_constant_in (e : expr) (vars : list nat) : bool :=
  match e with
  | Cst _ => true
  | Var v => negb (mem v vars)
  | Un _ a => is_constant_in a vars
  | Bin _ a b => is_constant_in a vars && is_constant_in b vars
  | Powr a n => (n =? 0)%Z || is_constant_in a vars
  end.

(** symbolic/templates.tpl.hpp:479-538: [is_affine_in(e,vars)] *)
Fixpoint is_affine_in (e : expr) (vars : list nat) : bool :=
  match e with
  | Cst _ => true
  | Var _ => true
  | Un o a =>
      match o with
      | Hlf | Pos | Neg => is_affine_in a vars
      | Nul => true
      | _ => is_constant_in a vars
      end
  | Bin o a b =>
      match o with
      | Add | Sub => is_affine_in a vars && is_affine_in b vars
      | Mul => (is_affine_in a vars && is_constant_in b vars)
               || (is_constant_in a vars && is_affine_in b vars)
      | Div => is_affine_in a vars && is_constant_in b vars
      | Max | Min => is_constant_in a vars && is_constant_in b vars
      end
  | Powr a n =>
      (n =? 0)%Z || ((n =? 1)%Z && is_affine_in a vars) || is_constant_in a vars
  end.

(** symbolic/templates.tpl.hpp:541-596: [is_polynomial_in(e,vars)] *)
Fixpoint is_polynomial_in (e : expr) (vars : list nat) : bool :=
  match e with
  | Cst _ => true
  | Var _ => true
  | Un o a =>
      match o with
      | Sqr | Hlf | Pos | Neg => is_polynomial_in a vars
      | Nul => true
      | _ => is_constant_in a vars
      end
  | Bin o a b =>
      match o with
      | Add | Sub | Mul => is_polynomial_in a vars && is_polynomial_in b vars
      | Div => is_polynomial_in a vars && is_constant_in b vars
      | Max | Min => is_constant_in a vars && is_constant_in b vars
      end
  | Powr a n => (n =? 0)%Z || ((0 <? n)%Z && is_polynomial_in a vars)
  end.

(** symbolic/expression.cpp:393-412: [is_additive_in(e,var)] *)
Fixpoint is_additive_in (e : expr) (v : nat) : bool :=
  match e with
  | Cst _ => true
  | Var _ => true
  | Un _ _ => false
  | Bin Add a b =>
      (is_additive_in a v && is_constant_in b [v])
      || (is_constant_in a [v] && is_additive_in b v)
  | Bin Sub a b => is_additive_in a v && is_constant_in b [v]
  | Bin _ _ _ => false
  | Powr _ _ => false
  end.

(** symbolic/expression.cpp:415-444: [is_additive_in(Vector,Set)].  The inner loop,
    for one variable [v]: [already_found] is threaded through; the derivative is
    computed (and its result not used), so the exception it throws for abs, max
    and min ([None]) escapes.  [simplify] of the derivative cannot fail. *)
Fixpoint additive_loop (es : list expr) (v : nat) (already_found : bool) : option bool :=
  match es with
  | [] => Some true
  | e :: r =>
      match deriv v e with
      | None => None
      | Some _ =>
        if is_constant_in e [v] then additive_loop r v already_found
        else if already_found then Some false
        else if is_additive_in e v then additive_loop r v true
        else Some false
      end
  end.

(** The outer loop over the variables of the space. *)
Fixpoint vec_is_additive_in (es : list expr) (vars : list nat) : option bool :=
  match vars with
  | [] => Some true
  | v :: r =>
      match additive_loop es v false with
      | Some true => vec_is_additive_in es r
      | x => x
      end
  end.

(** symbolic/templates.tpl.hpp:421-436: [arguments(e)] *)
Fixpoint arguments (e : expr) : list nat :=
  match e with
  | Cst _ => []
  | Var v => [v]
  | Un _ a => arguments a
  | Bin _ a b => arguments a ++ arguments b
  | Powr a _ => arguments a
  end.

(** * Predicates *)

(** symbolic/expression.tpl.hpp:135-139: the nodes of [Expression<Kleenean>].  A
    constant is represented by the value its [check] gives at the default effort. *)
Inductive pred : Type :=
  | KCst (k : lv)
  | KVar (v : nat)
  | KNot (p : pred)
  | KAnd (p q : pred)
  | KOr (p q : pred)
  | KSgn (e : expr)
  | KCmp (o : cop) (e1 e2 : expr).

(** symbolic/expression.tpl.hpp:679-681 at [T=Kleenean]: [decide(ce->value()==c)]. *)
Definition is_kconstant (p : pred) (b : bool) : bool :=
  match p with KCst k => decide_lv (lv_eq k (make_lv b)) | _ => false end.

(** symbolic/expression.tpl.hpp:444-449 (comparisons), symbolic/templates.tpl.hpp:
    281-292 and 300-319 (connectives): [simplify(Expression<Kleenean>)].  Negation
    goes through the unary [_simplify_node], for which [NotOp] has no inverse.
    The logical value of a constant is negated as the code negates a [Kleenean]. *)
Fixpoint ksimplify (ptr_eq : expr -> expr -> bool) (p : pred) : option pred :=
  match p with
  | KCst _ | KVar _ => Some p
  | KNot q =>
      match ksimplify ptr_eq q with
      | Some s => Some (match s with KCst k => KCst (lv_neg k) | _ => KNot s end)
      | None => None
      end
  | KAnd q r =>
      match ksimplify ptr_eq q, ksimplify ptr_eq r with
      | Some e1, Some e2 =>
          Some (if is_kconstant e1 false || is_kconstant e2 true then e1
                else if is_kconstant e1 true || is_kconstant e2 false then e2
                else KAnd e1 e2)
      | _, _ => None
      end
  | KOr q r =>
      match ksimplify ptr_eq q, ksimplify ptr_eq r with
      | Some e1, Some e2 =>
          Some (if is_kconstant e1 true || is_kconstant e2 false then e1
                else if is_kconstant e1 false || is_kconstant e2 true then e2
                else KOr e1 e2)
      | _, _ => None
      end
  | KSgn e =>
      match simplify ptr_eq e with Some s => Some (KSgn s) | None => None end
  | KCmp o a b =>
      match simplify ptr_eq a, simplify ptr_eq b with
      | Some e1, Some e2 => Some (KCmp o e1 e2)
      | _, _ => None
      end
  end.

(** [Sign::POSITIVE] is [true], [Sign::NEGATIVE] is [false]. *)
Definition sign := bool.

(** symbolic/expression.cpp:315-321: [_indicator] of a comparison; the failure for
    equality is [None]. *)
Definition cmp_indicator (o : cop) (e1 e2 : expr) (s : sign) : option expr :=
  match o with
  | Geq | Gtr => Some (if s then Bin Sub e1 e2 else Bin Sub e2 e1)
  | Leq | Less => Some (if negb s then Bin Sub e1 e2 else Bin Sub e2 e1)
  | Equal | Unequal => None
  end.

(** symbolic/expression.cpp:315-347: [indicator(e,sign)] *)
Fixpoint indicator (p : pred) (s : sign) : option expr :=
  match p with
  | KCst k =>
      let v := if s then k else lv_neg k in
      Some (if definitely v then num 1 else if negb (possibly v) then num (-1) else num 0)
  | KVar _ => None
  | KNot q =>
      match indicator q s with Some e => Some (Un Neg e) | None => None end
  | KAnd q r =>
      match indicator q s, indicator r s with
      | Some a, Some b => Some (Bin Min a b) | _, _ => None end
  | KOr q r =>
      match indicator q s, indicator r s with
      | Some a, Some b => Some (Bin Max a b) | _, _ => None end
  | KSgn e => Some (if s then e else Un Neg e)
  | KCmp o a b => cmp_indicator o a b s
  end.

(** symbolic/expression.tpl.hpp:358-386 at [X=Kleenean], [Y=Real]. *)
Fixpoint ksubst (p : pred) (v : nat) (s : expr) : pred :=
  match p with
  | KCst k => KCst k
  | KVar w => KVar w
  | KNot q => KNot (ksubst q v s)
  | KAnd q r => KAnd (ksubst q v s) (ksubst r v s)
  | KOr q r => KOr (ksubst q v s) (ksubst r v s)
  | KSgn e => KSgn (subst e v s)
  | KCmp o a b => KCmp o (subst a v s) (subst b v s)
  end.

(** symbolic/expression.cpp:455-465 *)
Definition cop_opposite (a b : cop) : bool :=
  match a, b with
  | Geq, Leq | Leq, Geq | Gtr, Less | Less, Gtr => true
  | _, _ => false
  end.
Definition cop_eqb (a b : cop) : bool :=
  match a, b with
  | Equal,Equal | Unequal,Unequal | Less,Less | Gtr,Gtr | Leq,Leq | Geq,Geq => true
  | _, _ => false
  end.

(** symbolic/expression.cpp:468-480: [opposite(e1,e2)].  The member [arg1()] of an
    [Expression<Kleenean>] (symbolic/expression.tpl.hpp:210-213) asks the node for a
    binary operation on Kleeneans; on a comparison of reals it throws
    [std::bad_variant_access], modelled as [None]. *)
Definition opposite (p q : pred) : option bool :=
  match p, q with
  | KCmp o1 _ _, KCmp o2 _ _ =>
      if cop_eqb o1 o2 then None
      else if cop_opposite o1 o2 then None
      else Some false
  | _, _ => Some false
  end.

(** * Common subexpressions *)

(** Position of the alternative in the variant (symbolic/expression.tpl.hpp:112-119). *)
Definition kind_index (e : expr) : nat :=
  match e with Cst _ => 0 | Var _ => 1 | Un _ _ => 2 | Bin _ _ _ => 3 | Powr _ _ => 4 end.

(** numeric/operators.hpp:97-150: operator codes. *)
Definition uop_code (o : uop) : nat :=
  match o with
  | Nul => 10 | Pos => 11 | Neg => 12 | Hlf => 13 | Rec => 14 | Sqr => 15 | Sqrt => 16
  | Exp => 17 | Log => 18 | Sin => 19 | Cos => 20 | Tan => 21 | Asin => 22 | Acos => 23
  | Atan => 24 | Abs => 30
  end.
Definition bop_code (o : bop) : nat :=
  match o with Add => 3 | Sub => 4 | Mul => 5 | Div => 6 | Max => 31 | Min => 32 end.

(** symbolic/expression.tpl.hpp:489-540: [before(e1,e2)].  Names of variables are
    compared as the numbers that stand for them. *)
Fixpoint before (ptr_eq : expr -> expr -> bool) (e1 e2 : expr) {struct e1} : bool :=
  match e1, e2 with
  | Cst c1, Cst c2 => rc_before C c1 c2
  | Var v1, Var v2 => Nat.ltb v1 v2
  | Un o1 a1, Un o2 a2 =>
      if uop_eqb o1 o2 then before ptr_eq a1 a2
      else Nat.ltb (uop_code o1) (uop_code o2)
  | Bin o1 a1 b1, Bin o2 a2 b2 =>
      if bop_eqb o1 o2 then
        (if identical ptr_eq a1 a2 then before ptr_eq b1 b2 else before ptr_eq a1 a2)
      else Nat.ltb (bop_code o1) (bop_code o2)
  | Powr a1 n1, Powr a2 n2 =>
      if Z.eqb n1 n2 then before ptr_eq a1 a2 else Z.ltb n1 n2
  | _, _ => Nat.ltb (kind_index e1) (kind_index e2)
  end.

(** The cache is a [std::set] ordered by [before]: an element is found when neither
    it nor the argument comes before the other.  Simplification: the set is a list
    searched from the front, which is what a [std::set] computes whenever [before]
    is a strict weak order on its elements. *)
Definition equiv (ptr_eq : expr -> expr -> bool) (a b : expr) : bool :=
  negb (before ptr_eq a b) && negb (before ptr_eq b a).
Definition lookup (ptr_eq : expr -> expr -> bool) (cache : list expr) (e : expr) : option expr :=
  List.find (fun x => equiv ptr_eq x e) cache.
Definition insert (ptr_eq : expr -> expr -> bool) (e : expr) (cache : list expr) : list expr :=
  match lookup ptr_eq cache e with Some _ => cache | None => e :: cache end.

(** symbolic/expression.tpl.hpp:552-615: [eliminate_common_subexpressions(e)] with
    the cache threaded through.  Rebuilding a node whose arguments are unchanged
    is the identity on trees, so the pointer tests of the code disappear. *)
Fixpoint cse (ptr_eq : expr -> expr -> bool) (cache : list expr) (e : expr) : expr * list expr :=
  match lookup ptr_eq cache e with
  | Some x => (x, cache)
  | None =>
    match e with
    | Cst _ | Var _ => (e, insert ptr_eq e cache)
    | Un o a =>
        let (a', c1) := cse ptr_eq cache a in
        let e' := Un o a' in (e', insert ptr_eq e' c1)
    | Bin o a b =>
        let (a', c1) := cse ptr_eq cache a in
        let (b', c2) := cse ptr_eq c1 b in
        let e' := Bin o a' b' in (e', insert ptr_eq e' c2)
    | Powr a n =>
        let (a', c1) := cse ptr_eq cache a in
        let e' := Powr a' n in (e', insert ptr_eq e' c1)
    end
  end.

(** [eliminate_common_subexpressions(Expression&)] and, sharing the cache,
    [eliminate_common_subexpressions(Vector<Expression>&)]. *)
Definition eliminate_common_subexpressions (ptr_eq : expr -> expr -> bool) (e : expr) : expr :=
  fst (cse ptr_eq [] e).
Fixpoint cse_list (ptr_eq : expr -> expr -> bool) (cache : list expr) (es : list expr) : list expr :=
  match es with
  | [] => []
  | e :: r => let (e', c) := cse ptr_eq cache e in e' :: cse_list ptr_eq c r
  end.

End Model.
Arguments expr C : clear implicits.
Arguments pred C : clear implicits.
