(** * Multi-indices, expansions and their evaluation

    Models /repo/source/algebra/multi_index.inl.hpp, multi_index.cpp,
    expansion.tpl.hpp and evaluate.tpl.hpp.

    A multi-index is the list of its entries; an expansion is the list of its
    terms (index, coefficient).  Simplifications:
    - memory management (capacity, reserve, reallocation) is not modelled;
    - coefficients and arguments lie in one commutative ring given as
      section variables (the C++ code is generic in both types and converts
      the coefficient to the type of the result);
    - a failed [assert] is the outcome [AssertFail]. *)

From Coq Require Import NArith List Bool Arith.
From Verif Require Import LRU_Model.
Import ListNotations.

(** ** Multi-indices *)
(** utility/typedefs.hpp:119: [DegreeType] is [std::uint16_t]. *)
Definition mi := list N.
Definition w16 (x : N) : N := (x mod 65536)%N.

(** multi_index.inl.hpp:36. *)
Definition degree (a : mi) : N := fold_left (fun d x => w16 (d + x)) a 0%N.

(** multi_index.inl.hpp:52-53. *)
Fixpoint mi_eqb (a b : mi) : bool :=
  match a, b with
  | [], [] => true
  | x :: a, y :: b => if (x =? y)%N then mi_eqb a b else false
  | _, _ => false
  end.

(** The loops of multi_index.inl.hpp:57-64; the sizes are asserted equal. *)
Fixpoint first_diff (less : N -> N -> bool) (a b : mi) : bool :=
  match a, b with
  | x :: a, y :: b => if (x =? y)%N then first_diff less a b else less x y
  | _, _ => false
  end.
Definition gtb (x y : N) : bool := (y <? x)%N.
(** multi_index.inl.hpp:57-59. *)
Definition graded_less (a b : mi) : bool :=
  if (degree a =? degree b)%N then first_diff gtb a b else (degree a <? degree b)%N.
(** multi_index.inl.hpp:60-61. *)
Definition lexicographic_less (a b : mi) : bool := first_diff N.ltb a b.
(** multi_index.inl.hpp:62-63: the loop runs from the last entry. *)
Definition reverse_lexicographic_less (a b : mi) : bool := first_diff gtb (rev a) (rev b).

(** multi_index.inl.hpp:91-93. *)
Fixpoint mi_add (a b : mi) : outcome mi :=
  match a, b with
  | [], [] => Ret []
  | x :: a, y :: b => match mi_add a b with Ret r => Ret (w16 (x + y) :: r) | e => e end
  | _, _ => AssertFail
  end.
Fixpoint mi_sub (a b : mi) : outcome mi :=
  match a, b with
  | [], [] => Ret []
  | x :: a, y :: b => if (x <? y)%N then AssertFail else
                      match mi_sub a b with Ret r => Ret ((x - y)%N :: r) | e => e end
  | _, _ => AssertFail
  end.

(** multi_index.cpp:31-41 [operator++].  The loop looks for the last non-zero
    entry before the last one.  [li] is the last entry; the list is
    [p[k-1],...,p[0]]; the result is [p[k],...,p[0]].  The flag says that
    [++_p[_n]] was executed: the array has max(n,1) cells (line 70), so this
    writes outside it. *)
Fixpoint bump (li : N) (rest : mi) : mi * bool :=
  match rest with
  | [] => ([w16 (li + 1)], true)
  | q :: rest' => if (q =? 0)%N then let '(r, o) := bump li rest' in (0%N :: r, o)
                  else (w16 (li + 1) :: (q - 1)%N :: rest', false)
  end.
Definition mi_step (a : mi) : outcome (mi * bool) :=
  match rev a with
  | [] => AssertFail
  | li :: rest => let '(r, o) := bump li rest in Ret (rev r, o)
  end.
Definition mi_next (a : mi) : outcome mi :=
  match mi_step a with
  | Ret (r, false) => Ret r
  | Ret (_, true) => UB
  | AssertFail => AssertFail
  | UB => UB
  end.

(** ** Expansions *)
Section Expansion.
Context {R : Type} (rO rI : R) (radd rmul : R -> R -> R).
Notation "x + y" := (radd x y).
Notation "x * y" := (rmul x y).
Definition term := (mi * R)%type.
Definition expansion := list term.

(** expansion.tpl.hpp:213-216: [decide(c==0)] is a parameter. *)
Definition remove_zeros (is0 : R -> bool) (e : expansion) : expansion :=
  filter (fun m => negb (is0 (snd m))) e.

(** expansion.tpl.hpp:220-240.  The writing position never overtakes the
    reading position, so the loop reads unmodified terms. *)
Fixpoint combine_from (a : mi) (c : R) (e : expansion) : expansion :=
  match e with
  | [] => [(a, c)]
  | (b, d) :: e' => if mi_eqb b a then combine_from a (c + d) e' else (a, c) :: combine_from b d e'
  end.
Definition combine_terms (e : expansion) : expansion :=
  match e with [] => [] | (a, c) :: e' => combine_from a c e' end.

(** expansion.tpl.hpp:429-443 [find]; 263-279 [at], [set], [get]. *)
Fixpoint e_get (e : expansion) (a : mi) : R :=
  match e with
  | [] => rO
  | (b, c) :: e' => if mi_eqb b a then c else e_get e' a
  end.
Fixpoint e_set (e : expansion) (a : mi) (c : R) : expansion :=
  match e with
  | [] => [(a, c)]
  | (b, d) :: e' => if mi_eqb b a then (b, c) :: e' else (b, d) :: e_set e' a c
  end.
(** expansion.tpl.hpp:360-387. *)
Definition e_append (e : expansion) (a : mi) (c : R) : expansion := e ++ [(a, c)].
Definition e_prepend (e : expansion) (a : mi) (c : R) : expansion := (a, c) :: e.

(** expansion.tpl.hpp:469-484 [_embed] for multi-indices. *)
Definition e_embed (before after : nat) (e : expansion) : expansion :=
  map (fun m => (repeat 0%N before ++ fst m ++ repeat 0%N after, snd m)) e.

(** *** Sorted expansions, expansion.tpl.hpp:537-602 *)
Section Sorted.
Context (less : mi -> mi -> bool).
(** [std::lower_bound] followed by [insert] at the position found: on a
    partitioned range it is the first term not less than [a]. *)
Fixpoint s_get (e : expansion) (a : mi) : R :=
  match e with
  | [] => rO
  | (b, c) :: e' => if less b a then s_get e' a else if mi_eqb b a then c else rO
  end.
(** [set] is [at(a)=c]. *)
Fixpoint s_set (e : expansion) (a : mi) (c : R) : expansion :=
  match e with
  | [] => [(a, c)]
  | (b, d) :: e' => if less b a then (b, d) :: s_set e' a c
                    else if mi_eqb b a then (b, c) :: e' else (a, c) :: (b, d) :: e'
  end.
(** [insert] throws when the index has a coefficient. *)
Fixpoint s_insert (e : expansion) (a : mi) (c : R) : option expansion :=
  match e with
  | [] => Some [(a, c)]
  | (b, d) :: e' => if less b a then match s_insert e' a c with Some r => Some ((b, d) :: r) | None => None end
                    else if mi_eqb b a then None else Some ((a, c) :: (b, d) :: e')
  end.
(** [check]: 594-601; true when it does not throw. *)
Fixpoint s_check (e : expansion) : bool :=
  match e with
  | [] => true
  | (a, _) :: e' => match e' with [] => true | (b, _) :: _ => if less a b then s_check e' else false end
  end.
(** [operator==]: 282-311, for coefficients with a Boolean equality.  The last
    branch of the loop advances nothing, so it would not terminate: [None].
    [fuel] bounds the number of steps. *)
Fixpoint s_equal (req : R -> R -> bool) (fuel : nat) (e1 e2 : expansion) : option bool :=
  match fuel with
  | O => None
  | S f =>
    match e1, e2 with
    | (a, c) :: e1', (b, d) :: e2' =>
      if mi_eqb a b then option_map (andb (req c d)) (s_equal req f e1' e2')
      else if less a b then option_map (andb (req c rO)) (s_equal req f e1' e2)
      else if less b a then option_map (andb (req rO d)) (s_equal req f e1 e2')
      else s_equal req f e1 e2
    | (a, c) :: e1', [] => option_map (andb (req c rO)) (s_equal req f e1' e2)
    | [], (b, d) :: e2' => option_map (andb (req rO d)) (s_equal req f e1 e2')
    | [], [] => Some true
    end
  end.
End Sorted.

(** ** Evaluation *)
(** [for(ii=0; ii!=n; ++ii) { t=t*x; }]. *)
Definition mul_n (t x : R) (n : N) : R := N.iter n (fun t => t * x) t.

(** evaluate.tpl.hpp:151-174 [power_evaluate]. *)
Fixpoint monomial (t : R) (a : mi) (x : list R) : R :=
  match a, x with
  | n :: a, y :: x => monomial (mul_n t y n) a x
  | _, _ => t
  end.
Definition power_evaluate (e : expansion) (x : list R) : R :=
  fold_left (fun r m => r + monomial (rO * rO + rI) (fst m) x * snd m) e (rO * rO).

(** evaluate.tpl.hpp:47-112 [horner_evaluate]. *)
(** [k=n-1; while(a[k]==na[k]) { --k; }]: running below zero trips the
    assertion in [operator[]]. *)
Fixpoint find_k (a na : mi) (k : nat) : option nat :=
  match k with
  | O => None
  | S k' => if (nth k' a 0 =? nth k' na 0)%N then find_k a na k' else Some k'
  end.
Fixpoint upd (r : list R) (i : nat) (v : R) : list R :=
  match r, i with
  | [], _ => []
  | _ :: r, O => v :: r
  | w :: r, S i => w :: upd r i v
  end.
(** Lines 76-80 and 98-102: no registers. *)
Definition loop1 (x : list R) (a : mi) (i m : nat) (t : R) : R :=
  fold_left (fun t i => mul_n t (nth i x rO) (nth i a 0%N)) (seq i m) t.
(** Lines 81-87: with registers, which are cleared. *)
Definition loop2 (x : list R) (a : mi) (i m : nat) (tr : R * list R) : R * list R :=
  fold_left (fun (tr : R * list R) i =>
               let '(t, r) := tr in (mul_n (t + nth i r rO) (nth i x rO) (nth i a 0%N), upd r i rO))
            (seq i m) tr.
(** Lines 103-108. *)
Definition loop3 (x : list R) (a : mi) (r : list R) (i m : nat) (t : R) : R :=
  fold_left (fun t i => mul_n (t + nth i r rO) (nth i x rO) (nth i a 0%N)) (seq i m) t.

(** Lines 67-96: the loop over the remaining terms. *)
Fixpoint horner_loop (n : nat) (x : list R) (a : mi) (c : R) (r : list R) (j : nat) (e : expansion) : outcome R :=
  match e with
  | [] => let t := loop1 x a 0 j c in Ret (loop3 x a r j (n - j) t)
  | (na, nc) :: e' =>
    match find_k a na n with
    | None => AssertFail
    | Some k =>
      if (nth k a 0 <=? nth k na 0)%N then AssertFail else
      let jk := Nat.min j k in
      let t := loop1 x a 0 jk c in
      let '(t, r) := loop2 x a jk (k - jk) (t, r) in
      let t := if (j <=? k)%nat then t + nth k r rO else t in
      let t := mul_n t (nth k x rO) (nth k a 0 - nth k na 0)%N in
      horner_loop n x na nc (upd r k t) k e'
    end
  end.
(** [UB] when the argument has fewer than [n] components. *)
Definition horner_evaluate (n : nat) (e : expansion) (x : list R) : outcome R :=
  match e with
  | [] => Ret rO
  | (a, c) :: e' => if (length x <? n)%nat then UB else horner_loop n x a c (repeat rO n) n e'
  end.

(** evaluate.tpl.hpp:114-148: the univariate version. *)
Fixpoint horner1_loop (x : R) (a : N) (r : R) (e : list (N * R)) : outcome R :=
  match e with
  | [] => Ret r
  | (na, c) :: e' => if (a <=? na)%N then AssertFail else horner1_loop x na (mul_n r x (a - na) + c) e'
  end.
Definition horner1_evaluate (e : list (N * R)) (x : R) : outcome R :=
  match e with
  | [] => Ret rO
  | (a, c) :: e' => horner1_loop x a c e'
  end.
End Expansion.
