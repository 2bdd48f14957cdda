(** * What multivariate Chebyshev polynomials mean *)

From Coq Require Import List Arith NArith Reals.
From Verif Require Import Poly_Model Cheb_Model Cheb_Spec MCheb_Model.
Import ListNotations.
Local Open Scope R_scope.

(** The product of the Chebyshev polynomials with degrees [a]. *)
Fixpoint prodT (a : mi) (x : list R) : R :=
  match a, x with i :: a, y :: x => T (N.to_nat i) y * prodT a x | _, _ => 1 end.
(** The function of a polynomial with real coefficients. *)
Fixpoint mfn (c : list (mi * R)) (x : list R) : R :=
  match c with [] => 0 | (a, b) :: c => b * prodT a x + mfn c x end.

Section Enclosure.
Context {X : Type} (mem : X -> R -> Prop).
(** The coefficients of [p] enclose those of [c], index by index. *)
Definition mcoefficients (p : mterms X) (c : list (mi * R)) : Prop :=
  Forall2 (fun t u => fst t = fst u /\ mem (snd t) (snd u)) p c.
(** [p] stands for the function [f] of [n] variables. *)
Definition mstands (n : nat) (p : mterms X) (f : list R -> R) : Prop :=
  Forall (fun t => length (fst t) = n) p /\
  exists c, mcoefficients p c /\ forall x, length x = n -> mfn c x = f x.
End Enclosure.
