(** * The polynomial denoted by an expansion *)

From Coq Require Import NArith List Bool Sorted Permutation Ring_theory.
From Verif Require Import Poly_Model.
Import ListNotations.

(** A multi-index of size n with 16-bit entries. *)
Definition is_mi (n : nat) (a : mi) : Prop := length a = n /\ Forall (fun x => (x < 65536)%N) a.
(** The mathematical degree. *)
Definition total (a : mi) : N := fold_right N.add 0%N a.
(** Entry-wise sum. *)
Fixpoint plus (a b : mi) : mi :=
  match a, b with x :: a, y :: b => (x + y)%N :: plus a b | _, _ => [] end.

Definition strict_total_order (n : nat) (less : mi -> mi -> bool) : Prop :=
  (forall a, length a = n -> less a a = false) /\
  (forall a b c, length a = n -> length b = n -> length c = n -> less a b = true -> less b c = true -> less a c = true) /\
  (forall a b, length a = n -> length b = n -> a = b \/ less a b = true \/ less b a = true).

Section Sem.
Context {R : Type} (rO rI : R) (radd rmul : R -> R -> R).
Fixpoint power (x : R) (n : nat) : R := match n with O => rI | S n => rmul x (power x n) end.
Fixpoint monom (a : mi) (x : list R) : R :=
  match a, x with
  | n :: a, y :: x => rmul (power y (N.to_nat n)) (monom a x)
  | _, _ => rI
  end.
(** The value of the polynomial at x. *)
Fixpoint poly (e : expansion (R:=R)) (x : list R) : R :=
  match e with
  | [] => rO
  | (a, c) :: e => radd (rmul c (monom a x)) (poly e x)
  end.
Fixpoint poly1 (e : list (N * R)) (x : R) : R :=
  match e with
  | [] => rO
  | (a, c) :: e => radd (rmul c (power x (N.to_nat a))) (poly1 e x)
  end.
(** The coefficient of an index: the sum over the terms with that index. *)
Fixpoint coef (e : expansion (R:=R)) (a : mi) : R :=
  match e with
  | [] => rO
  | (b, c) :: e => if list_eq_dec N.eq_dec b a then radd c (coef e a) else coef e a
  end.
(** Indices of a given size; strictly increasing indices. *)
Definition sized (n : nat) (e : expansion (R:=R)) : Prop := Forall (fun m => length (fst m) = n) e.
Definition sorted (less : mi -> mi -> bool) (e : expansion (R:=R)) : Prop :=
  StronglySorted (fun m m' => less (fst m) (fst m') = true) e.
(** What std::sort guarantees: a permutation with no inversion. *)
Definition sort_result (less : mi -> mi -> bool) (e e' : expansion (R:=R)) : Prop :=
  Permutation e e' /\ StronglySorted (fun m m' => less (fst m') (fst m) = false) e'.
End Sem.
