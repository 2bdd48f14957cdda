(** * What a differential stands for

    A differential of degree k in n variables stands for a real function of a
    displacement h: the polynomial with the stored coefficients differs from
    the function by O(|h|^(k+1)). *)

From Coq Require Import NArith ZArith List Bool Reals Lra Sorted Permutation.
From Verif Require Import LRU_Model Poly_Model Poly_Spec Diff_Model.
Import ListNotations.
Local Open Scope R_scope.

(** The largest absolute value of an entry. *)
Definition norm (h : list R) : R := fold_right (fun x m => Rmax (Rabs x) m) 0 h.
(** The real polynomial with the given terms. *)
Definition rpoly (p : list (mi * R)) (h : list R) : R := poly 0 1 Rplus Rmult p h.
(** f(h) = O(|h|^k) as h tends to 0. *)
Definition big_O (n k : nat) (f : list R -> R) : Prop :=
  exists K delta, 0 < delta /\ forall h, length h = n -> norm h <= delta -> Rabs (f h) <= K * norm h ^ k.

(** h with its entry i replaced. *)
Fixpoint lupd (h : list R) (i : nat) (t : R) : list R :=
  match h, i with [], _ => [] | _ :: h, O => t :: h | x :: h, S i => x :: lupd h i t end.

(** ** Number types
    [holds c r]: the number c of the type may stand for the real r.  For exact
    numbers it is equality, for bounds it is membership. *)
Record encloses (X : scalar) (holds : X -> R -> Prop) : Prop := {
  h_nul : holds (x_nul X) 0;
  h_nat : forall n, holds (x_nat X n) (INR (N.to_nat n));
  h_add : forall c d r s, holds c r -> holds d s -> holds (x_add X c d) (r + s);
  h_sub : forall c d r s, holds c r -> holds d s -> holds (x_sub X c d) (r - s);
  h_mul : forall c d r s, holds c r -> holds d s -> holds (x_mul X c d) (r * s);
  h_div : forall c d r s, holds c r -> holds d s -> s <> 0 -> holds (x_div X c d) (r / s);
  h_neg : forall c r, holds c r -> holds (x_neg X c) (- r);
  h_hlf : forall c r, holds c r -> holds (x_hlf X c) (r / 2);
  h_rec : forall c r, holds c r -> r <> 0 -> holds (x_rec X c) (/ r);
  h_sqrt : forall c r, holds c r -> 0 < r -> holds (x_sqrt X c) (sqrt r);
  h_exp : forall c r, holds c r -> holds (x_exp X c) (exp r);
  h_log : forall c r, holds c r -> 0 < r -> holds (x_log X c) (ln r);
  h_sin : forall c r, holds c r -> holds (x_sin X c) (sin r);
  h_cos : forall c r, holds c r -> holds (x_cos X c) (cos r);
  h_tan : forall c r, holds c r -> cos r <> 0 -> holds (x_tan X c) (tan r);
  h_atan : forall c r, holds c r -> holds (x_atan X c) (atan r);
  (** A number reported to be zero only stands for zero. *)
  h_is0 : forall c r, x_is0 X c = true -> holds c r -> r = 0;
  h_pos : forall c r, x_pos X c = true -> holds c r -> 0 < r;
  (** What std::sort guarantees. *)
  h_sort : forall n e, sized n e -> sort_result graded_less e (x_sort X e)
}.

(** ** The elementary functions, and where they are smooth *)
Definition usem (op : uop) (x : R) : R :=
  match op with
  | Nul => 0 | Pos => x | Neg => - x | Sqr => x * x | Hlf => x / 2 | Rec => / x | Sqrt => sqrt x | Exp => exp x | Log => ln x
  | Sin => sin x | Cos => cos x | Tan => tan x | Asin => asin x | Acos => acos x | Atan => atan x | Abs => Rabs x
  end.
Definition udom (op : uop) (x : R) : Prop :=
  match op with Rec => x <> 0 | Sqrt | Log => 0 < x | Tan => cos x <> 0 | _ => True end.
(** The operations with a power series in the library. *)
Definition has_series (op : uop) : bool := match op with Asin | Acos | Abs => false | _ => true end.

Section Jets.
Context {X : scalar} (holds : X -> R -> Prop).

(** p has the terms of e, with real coefficients. *)
Definition shadow (e : list (mi * X)) (p : list (mi * R)) : Prop :=
  Forall2 (fun m m' => fst m = fst m' /\ holds (snd m) (snd m')) e p.

(** The invariants of the class: indices of the right size, sorted strictly,
    and no term above the degree. *)
Definition wf (d : diff X) : Prop :=
  (d_deg X d < 65536)%N /\ sized (d_as X d) (d_exp X d) /\ sorted graded_less (d_exp X d) /\
  Forall (fun m => (total (fst m) <= d_deg X d)%N) (d_exp X d).

(** The stored numbers hold the Taylor coefficients of f. *)
Definition jet (d : diff X) (f : list R -> R) : Prop :=
  exists p, shadow (d_exp X d) p /\
            big_O (d_as X d) (S (N.to_nat (d_deg X d))) (fun h => f h - rpoly p h).
End Jets.

(** The differential d of degree k in n variables stands for f. *)
Definition good (X : scalar) (holds : X -> R -> Prop) (n : nat) (k : N) (d : diff X) (f : list R -> R) : Prop :=
  wf d /\ d_as X d = n /\ d_deg X d = k /\ jet holds d f.
(** The displacement zero. *)
Definition origin (n : nat) : list R := repeat 0 n.
(** How far the functions gs move from their values at the origin. *)
Definition disp (n : nat) (gs : list (list R -> R)) (h : list R) : list R := map (fun g => g h - g (origin n)) gs.
(** The same in one variable: the coefficients are those of f up to O(t^(k+1)). *)
Definition ustands (X : scalar) (holds : X -> R -> Prop) (k : nat) (x : udiff X) (f : R -> R) : Prop :=
  length x = S k /\ exists a : nat -> R,
    (forall i, (i <= k)%nat -> holds (u_get X x i) (a i)) /\
    exists K delta, 0 < delta /\ forall t, Rabs t <= delta -> Rabs (f t - sum_f_R0 (fun i => a i * t ^ i) k) <= K * Rabs t ^ S k.

(** ** Formulas
    Programs built with the overloaded operations: on numbers they compute
    [ex_real], on differentials [ex_diff]. *)
Inductive ex :=
| EVar (i : nat) | EAddc (e : ex) (i : nat) | EMulc (e : ex) (i : nat) | ENeg (e : ex) | EAdd (e e' : ex) | ESub (e e' : ex) | EMul (e e' : ex)
| EDiv (e e' : ex) | EPow (e : ex) (z : Z) | EUn (op : uop) (e : ex).
Fixpoint ex_real (cs v : list R) (e : ex) : R :=
  match e with
  | EVar i => nth i v 0
  | EAddc e i => ex_real cs v e + nth i cs 0 | EMulc e i => ex_real cs v e * nth i cs 0
  | ENeg e => - ex_real cs v e
  | EAdd e e' => ex_real cs v e + ex_real cs v e' | ESub e e' => ex_real cs v e - ex_real cs v e' | EMul e e' => ex_real cs v e * ex_real cs v e'
  | EDiv e e' => ex_real cs v e / ex_real cs v e'
  | EPow e z => powerRZ (ex_real cs v e) z
  | EUn op e => usem op (ex_real cs v e)
  end.
(** Every operation is applied where it is smooth, and has a series. *)
Fixpoint ex_smooth (cs v : list R) (e : ex) : Prop :=
  match e with
  | EVar i => (i < length v)%nat
  | EAddc e i | EMulc e i => ex_smooth cs v e /\ (i < length cs)%nat
  | ENeg e => ex_smooth cs v e
  | EAdd e e' | ESub e e' | EMul e e' => ex_smooth cs v e /\ ex_smooth cs v e'
  | EDiv e e' => ex_smooth cs v e /\ ex_smooth cs v e' /\ ex_real cs v e' <> 0
  | EPow e z => ex_smooth cs v e /\ ((z < 0)%Z -> ex_real cs v e <> 0)
  | EUn op e => ex_smooth cs v e /\ has_series op = true /\ udom op (ex_real cs v e)
  end.
Definition obind {A B} (x : outcome A) (f : A -> outcome B) : outcome B := match x with Ret a => f a | AssertFail => AssertFail | UB => UB end.
Fixpoint ex_diff (X : scalar) (cs : list X) (v : list (diff X)) (e : ex) : outcome (diff X) :=
  let E := ex_diff X cs v in
  match e with
  | EVar i => Ret (nth i v (d_zero X 0 0))
  | EAddc e i => obind (E e) (fun d => Ret (d_addc X d (nth i cs (x_nul X)))) | EMulc e i => obind (E e) (fun d => Ret (d_mulc X d (nth i cs (x_nul X))))
  | ENeg e => obind (E e) (fun d => Ret (d_neg X d))
  | EAdd e e' => obind (E e) (fun d => obind (E e') (checked X (d_add X) d))
  | ESub e e' => obind (E e) (fun d => obind (E e') (checked X (d_sub X) d))
  | EMul e e' => obind (E e) (fun d => obind (E e') (checked X (d_mul X) d))
  | EDiv e e' => obind (E e) (fun d => obind (E e') (d_div X d))
  | EPow e z => obind (E e) (fun d => d_pow X d z)
  | EUn op e => obind (E e) (d_unary X op)
  end.
