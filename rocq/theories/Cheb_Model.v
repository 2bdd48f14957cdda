(** * Univariate Chebyshev polynomials

    Models class UnivariateChebyshevPolynomial of
    /repo/source/function/chebyshev_polynomial.hpp (h) and
    /repo/source/function/chebyshev_polynomial.tpl.hpp (t).

    A polynomial is its list of terms (index, coefficient), in the order of the
    expansion.  Coefficients are of any type with the operations used by the
    class; precisions are not modelled.  A failed assertion and the access to
    the last term of an empty list are [None].  Simplification: indices are
    unbounded natural numbers (UniIndex has 16 bits and subtracts as short:
    the model agrees for degrees below 2^15).  The multivariate
    class is in MCheb_Model.  Not modelled: equality, output. *)

From Coq Require Import List Arith Bool.
Import ListNotations.

Record ops (X M : Type) := mkOps {
  o_of : nat -> X; o_neg : X -> X; o_hlf : X -> X;
  o_add : X -> X -> X; o_sub : X -> X -> X; o_mul : X -> X -> X;
  o_mag : X -> M; o_madd : M -> M -> M }.
Arguments o_of {X M}. Arguments o_neg {X M}. Arguments o_hlf {X M}. Arguments o_add {X M}.
Arguments o_sub {X M}. Arguments o_mul {X M}. Arguments o_mag {X M}. Arguments o_madd {X M}.

Section Cheb.
Context {X M : Type} (O : ops X M).
Definition terms := list (nat * X).

(** t:54-76. *)
Definition constant (c : X) : terms := [(0, c)].
Definition coordinate : terms := [(1, o_of O 1)].
Definition basis (k : nat) : terms := [(k, o_of O 1)].
(** h:66-67: the constructor from a function of the index. *)
Definition of_function (d : nat) (g : nat -> X) : terms := map (fun i => (i, g i)) (seq 0 (S d)).

(** t:84-89. *)
Definition sup_norm (p : terms) : M := fold_left (fun r t => o_madd O r (o_mag O (snd t))) p (o_mag O (o_of O 0)).
(** t:92-96, 106-110.  The loop variable is a reference into the expansion
    (expansion.inl.hpp:105-119), so the polynomial is changed. *)
Definition c_neg (p : terms) : terms := map (fun t => (fst t, o_neg O (snd t))) p.
Definition c_scale (p : terms) (s : X) : terms := map (fun t => (fst t, o_mul O (snd t) s)) p.
(** t:98-104. *)
Definition c_shift (p : terms) (s : X) : option terms :=
  match p with
  | [] => Some [(0, s)]
  | (i, c) :: p' => if Nat.eqb i 0 then Some ((i, o_add O c s) :: p') else None
  end.
(** t:147-173. *)
Fixpoint c_add (p : terms) : terms -> terms :=
  fix go (q : terms) : terms :=
  match p, q with
  | [], _ => q
  | _, [] => p
  | (i, c) :: p', (j, d) :: q' =>
    if Nat.eqb i j then (i, o_add O c d) :: c_add p' q'
    else if Nat.ltb i j then (i, c) :: c_add p' q
    else (j, d) :: go q'
  end.
(** t:175-178. *)
Definition c_sub (p q : terms) : terms := c_add p (c_neg q).

(** t:180-198: the product.  A write outside the buffer is [None]. *)
Fixpoint upd (b : list X) (i : nat) (x : X) : option (list X) :=
  match b, i with
  | [], _ => None
  | y :: b', 0 => Some (o_add O y x :: b')
  | y :: b', S i' => match upd b' i' x with Some r => Some (y :: r) | None => None end
  end.
Definition distance (i j : nat) : nat := (i - j) + (j - i).
Definition mul_term (i : nat) (c : X) (b : option (list X)) (t : nat * X) : option (list X) :=
  let cp := o_mul O c (snd t) in
  match b with
  | None => None
  | Some b => match upd b (distance i (fst t)) cp with
              | None => None
              | Some b' => upd b' (i + fst t) cp
              end
  end.
Definition mul_buffer (p q : terms) (b : list X) : option (list X) :=
  fold_left (fun b t => fold_left (mul_term (fst t) (snd t)) q b) p (Some b).
Definition back (p : terms) : option nat :=
  match rev p with [] => None | t :: _ => Some (fst t) end.
Definition c_mul (p q : terms) : option terms :=
  match back p, back q with
  | Some m, Some n =>
    match mul_buffer p q (repeat (o_of O 0) (m + n + 1)) with
    | Some b => Some (combine (seq 0 (length b)) (map (o_hlf O) b))
    | None => None
    end
  | _, _ => None
  end.
(** t:112-115. *)
Definition c_sqr (p : terms) : option terms := c_mul p p.

(** h:127-152: evaluation by the recurrence.  [steps] is the inner loop. *)
Fixpoint steps (n : nat) (tx p c : X) : X * X :=
  match n with 0 => (p, c) | S n => steps n tx c (o_sub O (o_mul O tx c) p) end.
Fixpoint eval_loop (tx : X) (l : terms) (k : nat) (p c r : X) : X :=
  match l with
  | [] => r
  | (i, a) :: l' =>
    let '(p', c') := steps (i - k) tx p c in
    eval_loop tx l' (Nat.max k i) p' c' (o_add O r (o_mul O c' a))
  end.
Definition evaluate (l : terms) (x : X) : X :=
  let zero := o_mul O x (o_of O 0) in
  let p := o_add O zero (o_of O 1) in
  let tx := o_mul O x (o_of O 2) in
  match l with
  | [] => zero
  | (0, a) :: l' => eval_loop tx l' 1 p x a
  | _ => eval_loop tx l 1 p x zero
  end.
End Cheb.
Arguments terms : clear implicits.
