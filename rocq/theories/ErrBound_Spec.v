(** * The real number an expression of error bounds stands for *)

From Coq Require Import ZArith Reals List.
From Verif Require Import ErrBound_Model.
Local Open Scope R_scope.

Fixpoint ee_real (rho : nat -> R) (e : eexpr) : R :=
  match e with
  | EVar i => rho i
  | EAdd a b => ee_real rho a + ee_real rho b
  | EMul a b => ee_real rho a * ee_real rho b
  | ESqr a => ee_real rho a * ee_real rho a
  | EFma a b c => ee_real rho a * ee_real rho b + ee_real rho c
  | EMax a b => Rmax (ee_real rho a) (ee_real rho b)
  | EMin a b => Rmin (ee_real rho a) (ee_real rho b)
  | EAddNat a n => ee_real rho a + IZR (Z.of_N n)
  | EMulNat a n => ee_real rho a * IZR (Z.of_N n)
  | EDivNat a n => ee_real rho a / IZR (Z.of_N n)
  end.

(** Division by a natural number is only used with a non-zero one. *)
Fixpoint ee_defined (e : eexpr) : Prop :=
  match e with
  | EVar _ => True
  | EAdd a b | EMul a b | EMax a b | EMin a b => ee_defined a /\ ee_defined b
  | EFma a b c => ee_defined a /\ ee_defined b /\ ee_defined c
  | ESqr a | EAddNat a _ => ee_defined a
  | EMulNat a n | EDivNat a n => n <> 0%N /\ ee_defined a
  end.
