(** * The product of multivariate Chebyshev polynomials

    Models MultivariateChebyshevPolynomial::apply(Mul), apply(Sqr) and
    _mul_from of /repo/source/function/chebyshev_polynomial.tpl.hpp (t).
    Conventions as in MCheb_Model.  Access to the first term of an empty range
    and to an element outside a list are [None].  [same0] is the test of a
    coefficient for being zero (t:385). *)

From Coq Require Import List Arith NArith Bool.
From Verif Require Import Poly_Model Cheb_Model MCheb_Model.
Import ListNotations.

Section MProd.
Context {X M : Type} (O : ops X M) (same0 : X -> bool).

(** t:389-390: the loops which compute [i1max] and [i2max]: the degree in
    variable [k] of the last term of the group. *)
Fixpoint last_degree (front : mi) (k : nat) (l : mterms X) (i : nat) : nat :=
  match l with
  | [] => i
  | (a, _) :: l' => if equal_up_to a front k then last_degree front k l' (N.to_nat (nth k a 0%N)) else i
  end.
(** t:401-402: [buf[i] += product]. *)
Fixpoint m_upd (b : list (mterms X)) (i : nat) (p : mterms X) : option (list (mterms X)) :=
  match b, i with
  | [], _ => None
  | q :: b', 0 => Some (m_add O q p :: b')
  | q :: b', S i' => match m_upd b' i' p with Some r => Some (q :: r) | None => None end
  end.
(** t:410-412: [a[k]=i]. *)
Fixpoint set_degree (a : mi) (k : nat) (i : N) : mi :=
  match a, k with
  | [], _ => []
  | _ :: a', 0 => i :: a'
  | d :: a', S k' => d :: set_degree a' k' i
  end.
(** t:406-415. *)
Fixpoint collect (k : nat) (i : nat) (b : list (mterms X)) : mterms X :=
  match b with
  | [] => []
  | p :: b' => map (fun t => (set_degree (fst t) k (N.of_nat i), o_hlf O (snd t))) p ++ collect k (S i) b'
  end.
(** t:370-418.  [m] is the number of variables from [k] on; the terms which are
    left of both factors are returned.  [fuel1] and [fuel2] bound the loops. *)
Fixpoint mul_from (n m k : nat) (l1 l2 : mterms X) : option (mterms X * mterms X * mterms X) :=
  match l1, l2 with
  | (a1, c1) :: t1, (a2, c2) :: t2 =>
    match m with
    | 0 => let c := o_mul O c1 c2 in Some (if same0 c then [] else [(repeat 0%N n, c)], t1, t2)
    | S m' =>
      let inner := fix inner (fuel2 : nat) (from1 curr1 curr2 : mterms X) (b : list (mterms X)) : option (list (mterms X) * mterms X * mterms X) :=
        match curr2 with
        | [] => Some (b, curr1, [])
        | (d2, _) :: _ =>
          if equal_up_to d2 a2 k then
            match fuel2, from1 with
            | S fuel2', (d1, _) :: _ =>
              match mul_from n m' (S k) from1 curr2 with
              | Some (p, curr1', curr2') =>
                let i := N.to_nat (nth k d1 0%N) in let j := N.to_nat (nth k d2 0%N) in
                match m_upd b (distance i j) p with
                | Some b' => match m_upd b' (i + j) p with Some b'' => inner fuel2' from1 curr1' curr2' b'' | None => None end
                | None => None
                end
              | None => None
              end
            | _, _ => None
            end
          else Some (b, curr1, curr2)
        end in
      let outer := fix outer (fuel1 : nat) (from1 curr1 curr2 : mterms X) (b : list (mterms X)) : option (list (mterms X) * mterms X * mterms X) :=
        match from1 with
        | [] => Some (b, [], curr2)
        | (d1, _) :: _ =>
          if equal_up_to d1 a1 k then
            match fuel1 with
            | 0 => None
            | S fuel1' =>
              match inner (length l2) from1 curr1 l2 b with
              | Some (b', curr1', curr2') => outer fuel1' curr1' curr1' curr2' b'
              | None => None
              end
            end
          else Some (b, from1, curr2)
        end in
      let imax := last_degree a1 k l1 0 + last_degree a2 k l2 0 in
      match outer (length l1) l1 l1 l2 (repeat [] (imax + 1)) with
      | Some (b, r1, r2) => Some (collect k 0 b, r1, r2)
      | None => None
      end
    end
  | _, _ => None
  end.
(** t:307-312, 315-318, for polynomials in [n] variables. *)
Definition m_mul (n : nat) (p q : mterms X) : option (mterms X) :=
  match mul_from n n 0 p q with Some (r, _, _) => Some r | None => None end.
Definition m_sqr (n : nat) (p : mterms X) : option (mterms X) := m_mul n p p.
End MProd.
