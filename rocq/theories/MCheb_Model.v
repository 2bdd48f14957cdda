(** * Multivariate Chebyshev polynomials

    Models class MultivariateChebyshevPolynomial of
    /repo/source/function/chebyshev_polynomial.hpp (h) and
    /repo/source/function/chebyshev_polynomial.tpl.hpp (t).

    A polynomial is its list of terms (multi-index, coefficient).  Coefficients
    are of any type with the operations of Cheb_Model; precisions are not
    modelled.  A failed assertion, the access to the first term of an empty
    range and an index outside a vector are [None].  Simplification: degrees
    are unbounded natural numbers.  The product is in MProd_Model.  Not
    modelled: output. *)

From Coq Require Import List Arith NArith Bool.
From Verif Require Import Poly_Model Cheb_Model.
Import ListNotations.

Section MCheb.
Context {X M : Type} (O : ops X M).
Definition mterms := list (mi * X).

(** t:217-239: the constant, the coordinate [i] and the basis element [k] in
    coordinate [i], in [n] variables. *)
Definition m_constant (n : nat) (c : X) : mterms := [(repeat 0%N n, c)].
Definition unit_times (n i : nat) (k : N) : mi := map (fun j => if Nat.eqb i j then k else 0%N) (seq 0 n).
Definition m_coordinate (n i : nat) : mterms := [(unit_times n i 1, o_of O 1)].
Definition m_basis (n i : nat) (k : N) : mterms := [(unit_times n i k, o_of O 1)].

(** t:247-252. *)
Definition m_norm (p : mterms) : M := fold_left (fun r t => o_madd O r (o_mag O (snd t))) p (o_mag O (o_of O 0)).
(** t:254-258, 268-272.  The loop variable is a reference into the expansion
    (expansion.inl.hpp:105-119), so the polynomial is changed. *)
Definition m_neg (p : mterms) : mterms := map (fun t => (fst t, o_neg O (snd t))) p.
Definition m_scale (p : mterms) (s : X) : mterms := map (fun t => (fst t, o_mul O (snd t) s)) p.
(** t:260-266: adding a constant to a polynomial in [n] variables. *)
Definition m_shift (n : nat) (p : mterms) (s : X) : option mterms :=
  match p with
  | [] => Some [(repeat 0%N n, s)]
  | (i, c) :: p' => if forallb (N.eqb 0) i then Some ((i, o_add O c s) :: p') else None
  end.
(** t:274-300: the sum. *)
Fixpoint m_add (p : mterms) : mterms -> mterms :=
  fix go (q : mterms) : mterms :=
  match p, q with
  | [], _ => q
  | _, [] => p
  | (i, c) :: p', (j, d) :: q' =>
    if mi_eqb i j then (i, o_add O c d) :: m_add p' q'
    else if reverse_lexicographic_less i j then (i, c) :: m_add p' q
    else (j, d) :: go q'
  end.
(** t:302-305. *)
Definition m_sub (p q : mterms) : mterms := m_add p (m_neg q).

(** t:327-334, class ChebyshevValues: the table of values, here the entries
    [i] and [i+1].  Simplification: the table is not stored. *)
Fixpoint values (x : X) (i : nat) : X * X :=
  match i with
  | 0 => (o_of O 1, x)
  | S i' => let '(a, b) := values x i' in (b, o_sub O (o_mul O (o_mul O (o_of O 2) x) b) a)
  end.
Definition value (x : X) (i : N) : X := fst (values x (N.to_nat i)).
(** t:336-338. *)
Fixpoint equal_up_to (a b : mi) (k : nat) {struct k} : bool :=
  match k with
  | 0 => true
  | S k' => match a, b with
            | i :: a', j :: b' => if N.eqb i j then equal_up_to a' b' k' else false
            | _, _ => false
            end
  end.
(** t:353-357: the loop in the last variable. *)
Fixpoint eval_last (front : mi) (k : nat) (xk : X) (l : mterms) (r : X) : option (X * mterms) :=
  match l with
  | [] => Some (r, [])
  | (a, c) :: l' =>
    if equal_up_to front a k then
      match nth_error a k with
      | Some ak => eval_last front k xk l' (o_add O r (o_mul O c (value xk ak)))
      | None => None
      end
    else Some (r, l)
  end.
(** t:346-366.  [m] is the number of variables after [k]; the value is returned
    with the terms which are left.  [fuel] bounds the steps of the loop. *)
Fixpoint eval_from (m : nat) (x : list X) (k : nat) (l : mterms) : option (X * mterms) :=
  match l, nth_error x k with
  | (front, _) :: _, Some xk =>
    match m with
    | 0 => eval_last front k xk l (o_of O 0)
    | S m' =>
      (fix loop (fuel : nat) (l : mterms) (r : X) : option (X * mterms) :=
         match l with
         | [] => Some (r, [])
         | (a, _) :: _ =>
           if equal_up_to front a k then
             match fuel with
             | 0 => None
             | S fuel' =>
               match eval_from m' x (S k) l, nth_error a k with
               | Some (c, l'), Some ak => loop fuel' l' (o_add O r (o_mul O c (value xk ak)))
               | _, _ => None
               end
             end
           else Some (r, l)
         end) (length l) l (o_of O 0)
    end
  | _, _ => None
  end.
(** t:340-344. *)
Definition m_evaluate (p : mterms) (x : list X) : option X :=
  match eval_from (length x - 1) x 0 p with Some (r, _) => Some r | None => None end.
End MCheb.
Arguments mterms : clear implicits.
