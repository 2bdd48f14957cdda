(** What a real number is supposed to be: the number that its expression denotes. *)
From Coq Require Import ZArith NArith QArith Qreals Reals List.
From Flocq Require Import Core.
From Coquelicot Require Import Rbar.
From Verif Require Import Exact_Model Exact_Spec Logical_Model Real_Model.
Local Open Scope R_scope.

(** The operations on real numbers, and where they are defined. *)
Definition udom (o : unop) (x : R) : Prop :=
  match o with
  | Rec => x <> 0 | Sqrt => 0 <= x | Log => 0 < x | Tan => cos x <> 0
  | Asin | Acos => -1 <= x <= 1 | _ => True
  end.
Definition usem (o : unop) (x : R) : R :=
  match o with
  | Pos => x | Neg => - x | Hlf => x / 2 | Sqr => x * x | Rec => / x | Sqrt => sqrt x
  | Exp => exp x | Log => ln x | Sin => sin x | Cos => cos x | Tan => tan x
  | Asin => asin x | Acos => acos x | Atan => atan x | Abs => Rabs x
  end.
Definition bdom (o : binop) (x y : R) : Prop := match o with Div => y <> 0 | _ => True end.
Definition bsem (o : binop) (x y : R) : R :=
  match o with
  | Add => x + y | Sub => x - y | Mul => x * y | Div => x / y | Max => Rmax x y | Min => Rmin x y
  end.
Definition pdom (x : R) (n : Z) : Prop := (n < 0)%Z -> x <> 0.
Definition psem (x : R) (n : Z) : R := powerRZ x n.

Section Spec.
  Context {K : Type} (kval : K -> option R).

  (** The real number denoted by an expression.  A limit is that of a fast Cauchy sequence: the
      n-th term is within 2^-n of it.  A [when] expression has two conditions, one of which
      holds; they are never found false when they hold; and the values agree with the
      corresponding term. *)
  Inductive denotes : real K -> R -> Prop :=
  | DCnst c v : kval c = Some v -> denotes (RCnst c) v
  | DUn o a x : denotes a x -> udom o x -> denotes (RUn o a) (usem o x)
  | DBin o a b x y : denotes a x -> denotes b y -> bdom o x y -> denotes (RBin o a b) (bsem o x y)
  | DPow a x n : denotes a x -> pdom x n -> denotes (RPow a n) (psem x n)
  | DLimR s (xs : nat -> R) v :
      (forall n, denotes (s n) (xs n)) -> (forall n, Rabs (xs n - v) <= / 2 ^ n) -> denotes (RLimR s) v
  | DLimD s (xs : nat -> dyadic_fin) v :
      (forall n, s n = Fin (xs n)) -> (forall n, Rabs (dval (xs n) - v) <= / 2 ^ n) -> denotes (RLimD s) v
  | DLimB s v : (forall n, in_dbounds (s n) v) -> denotes (RLimB s) v
  | DWhen (P1 P2 : Prop) p1 p2 r1 r2 v1 v2 v :
      P1 \/ P2 ->
      (forall e, p1 e = false -> ~ P1) -> (forall e, p2 e = false -> ~ P2) ->
      denotes r1 v1 -> denotes r2 v2 -> (P1 -> v1 = v) -> (P2 -> v2 = v) ->
      denotes (RWhen p1 r1 p2 r2) v.

  (** An arithmetic of bounds is sound for a relation between bounds and the numbers in them. *)
  Record sound_arith {B} (A : arith K B) (holds : B -> R -> Prop) : Prop := {
    s_cnst : forall c v, kval c = Some v -> holds (a_cnst A c) v;
    s_of_d : forall b v, in_dbounds b v -> holds (a_of_d A b) v;
    s_to_d : forall x v, holds x v -> in_dbounds (a_to_d A x) v;
    s_un : forall o x v, holds x v -> udom o v -> holds (a_un A o x) (usem o v);
    s_bin : forall o x y v w, holds x v -> holds y w -> bdom o v w -> holds (a_bin A o x y) (bsem o v w);
    s_pow : forall x v n, holds x v -> pdom v n -> holds (a_pow A x n) (psem v n)
  }.

  (** Bounds with end points within [eps] of [v]. *)
  Definition within (b : dbounds) (v eps : R) : Prop :=
    exists l u, b = mkDB (Fin l) (Fin u) /\ v - eps <= dval l <= v /\ v <= dval u <= v + eps.

  (** The arithmetics of growing precision compute the given operations as accurately as needed,
      from arguments that are accurate enough. *)
  Record continuous_arith {M} (A : nat -> arith K M) (okU : unop -> bool) (okB : binop -> bool) (okP : Z -> bool) : Prop := {
    c_cnst : forall c v eps, kval c = Some v -> 0 < eps ->
      exists P, forall p, (P <= p)%nat -> within (a_to_d (A p) (a_cnst (A p) c)) v eps;
    c_of_d : forall v eps, 0 < eps ->
      exists delta P, 0 < delta /\ forall p b, (P <= p)%nat -> within b v delta -> within (a_to_d (A p) (a_of_d (A p) b)) v eps;
    c_un : forall o v eps, okU o = true -> udom o v -> 0 < eps ->
      exists delta P, 0 < delta /\ forall p x, (P <= p)%nat ->
        within (a_to_d (A p) x) v delta -> within (a_to_d (A p) (a_un (A p) o x)) (usem o v) eps;
    c_bin : forall o v w eps, okB o = true -> bdom o v w -> 0 < eps ->
      exists delta P, 0 < delta /\ forall p x y, (P <= p)%nat ->
        within (a_to_d (A p) x) v delta -> within (a_to_d (A p) y) w delta ->
        within (a_to_d (A p) (a_bin (A p) o x y)) (bsem o v w) eps;
    c_pow : forall v n eps, okP n = true -> pdom v n -> 0 < eps ->
      exists delta P, 0 < delta /\ forall p x, (P <= p)%nat ->
        within (a_to_d (A p) x) v delta -> within (a_to_d (A p) (a_pow (A p) x n)) (psem v n) eps
  }.

  (** Numbers computed from constants, from fast Cauchy sequences of dyadics and from convergent
      sequences of bounds by the given operations and by [when]; in a [when] expression a
      condition that does not hold is found false from some effort on. *)
  Inductive computable (okU : unop -> bool) (okB : binop -> bool) (okP : Z -> bool) : real K -> R -> Prop :=
  | CCnst c v : kval c = Some v -> computable okU okB okP (RCnst c) v
  | CUn o a x : okU o = true -> computable okU okB okP a x -> udom o x -> computable okU okB okP (RUn o a) (usem o x)
  | CBin o a b x y : okB o = true -> computable okU okB okP a x -> computable okU okB okP b y -> bdom o x y ->
      computable okU okB okP (RBin o a b) (bsem o x y)
  | CPow a x n : okP n = true -> computable okU okB okP a x -> pdom x n -> computable okU okB okP (RPow a n) (psem x n)
  | CLimD s (xs : nat -> dyadic_fin) v :
      (forall n, s n = Fin (xs n)) -> (forall n, Rabs (dval (xs n) - v) <= / 2 ^ n) -> computable okU okB okP (RLimD s) v
  | CLimB s v : (forall eps, 0 < eps -> exists N, forall n, (N <= n)%nat -> within (s n) v eps) ->
      computable okU okB okP (RLimB s) v
  | CWhenBoth p1 p2 r1 r2 v : (forall e, p1 e = true) -> (forall e, p2 e = true) ->
      computable okU okB okP r1 v -> computable okU okB okP r2 v -> computable okU okB okP (RWhen p1 r1 p2 r2) v
  | CWhenFirst p1 p2 r1 r2 v : (forall e, p1 e = true) -> (exists N, forall e, (N <= e)%nat -> p2 e = false) ->
      computable okU okB okP r1 v -> computable okU okB okP (RWhen p1 r1 p2 r2) v
  | CWhenSecond p1 p2 r1 r2 v : (exists N, forall e, (N <= e)%nat -> p1 e = false) -> (forall e, p2 e = true) ->
      computable okU okB okP r2 v -> computable okU okB okP (RWhen p1 r1 p2 r2) v.
End Spec.

(** The half width of bounds is less than [eps]. *)
Definition narrower (b : dbounds) (eps : R) : Prop :=
  exists l u, b = mkDB (Fin l) (Fin u) /\ (dval u - dval l) / 2 < eps.

(** A logical value is right about a statement: true only if it holds, false only if not. *)
Definition right_about (l : lv) (P : Prop) : Prop := (l = TRUE -> P) /\ (l = FALSE -> ~ P).
