(** * What Chebyshev polynomials mean *)

From Coq Require Import List Arith Reals Sorted.
From Verif Require Import Cheb_Model.
Import ListNotations.
Local Open Scope R_scope.

(** The Chebyshev polynomials of the first kind. *)
Fixpoint cheb2 (k : nat) (x : R) : R * R :=
  match k with O => (1, x) | S k => let '(a, b) := cheb2 k x in (b, 2 * x * b - a) end.
Definition T (k : nat) (x : R) : R := fst (cheb2 k x).

(** The function of a polynomial with real coefficients. *)
Fixpoint fn (c : list (nat * R)) (x : R) : R :=
  match c with [] => 0 | (k, a) :: c => a * T k x + fn c x end.

Section Enclosure.
Context {X M : Type} (O : ops X M).
(** A number of type [X] stands for real numbers, one of type [M] for upper bounds. *)
Context (mem : X -> R -> Prop) (ub : M -> R -> Prop).

Record encloses_ops : Prop := mkEnclosesOps {
  e_of : forall n, mem (o_of O n) (INR n);
  e_neg : forall x a, mem x a -> mem (o_neg O x) (- a);
  e_hlf : forall x a, mem x a -> mem (o_hlf O x) (a / 2);
  e_add : forall x y a b, mem x a -> mem y b -> mem (o_add O x y) (a + b);
  e_sub : forall x y a b, mem x a -> mem y b -> mem (o_sub O x y) (a - b);
  e_mul : forall x y a b, mem x a -> mem y b -> mem (o_mul O x y) (a * b);
  e_mag : forall x a, mem x a -> ub (o_mag O x) (Rabs a);
  e_madd : forall m n a b, ub m a -> ub n b -> ub (o_madd O m n) (a + b);
  e_less : forall m a b, ub m a -> b <= a -> ub m b }.

(** The coefficients of [p] enclose those of [c], index by index. *)
Definition coefficients (p : terms X) (c : list (nat * R)) : Prop :=
  Forall2 (fun t u => fst t = fst u /\ mem (snd t) (snd u)) p c.
(** [p] stands for the function [f]. *)
Definition stands_for (p : terms X) (f : R -> R) : Prop :=
  exists c, coefficients p c /\ forall x, fn c x = f x.
(** Indices strictly increase. *)
Definition increasing (p : terms X) : Prop := StronglySorted lt (map fst p).
End Enclosure.
