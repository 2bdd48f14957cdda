(** Model of unions of intervals: source/geometry/union_of_intervals.hpp.
    Bounds are rational numbers: the class is used with Dyadic and with floats, and all its operations on
    bounds except [interior] and [measure] are comparisons, [min] and [max], which are exact. *)
From Coq Require Import QArith Qminmax List Bool.
Import ListNotations.

(** interval.hpp:176-250: a lower and an upper bound; empty if the lower bound is greater. *)
Record ivl := mkI { lo : Q; up : Q }.
Definition qlt (a b : Q) : bool := negb (Qle_bool b a).
Definition qeq (a b : Q) : bool := Qeq_bool a b.

(** union_of_intervals.hpp:36-39: LowerUpperBoundLess. *)
Definition ivl_less (a b : ivl) : bool := qlt (lo a) (lo b) || (qeq (lo a) (lo b) && qlt (up a) (up b)).

(** union_of_intervals.hpp:195-197: _sort.  std::sort is modelled by insertion; it may return equivalent intervals in
    another order, but these have equal bounds. *)
Fixpoint insert (a : ivl) (l : list ivl) : list ivl :=
  match l with [] => [a] | b :: l' => if ivl_less b a then b :: insert a l' else a :: l end.
Fixpoint sort (l : list ivl) : list ivl := match l with [] => [] | a :: l' => insert a (sort l') end.

(** union_of_intervals.hpp:199-213: _combine.  [curr] is the interval being extended. *)
Fixpoint combine_from (curr : ivl) (l : list ivl) : list ivl :=
  match l with
  | [] => [curr]
  | next :: l' => if Qle_bool (lo next) (up curr) then combine_from (mkI (lo curr) (Qmax (up curr) (up next))) l'
                  else curr :: combine_from next l'
  end.
Definition combine (l : list ivl) : list ivl := match l with [] => [] | a :: l' => combine_from a l' end.

(** union_of_intervals.hpp:51 and 60: the constructors from a list and from an initialiser list. *)
Definition union_of (l : list ivl) : list ivl := combine (sort l).
(** union_of_intervals.hpp:53-58 and 61-63: the converting constructors, from intervals of another type and a
    precision: neither sorted nor combined.  The conversion of the bounds is exact here. *)
Definition convert (l : list ivl) : list ivl := l.
(** union_of_intervals.hpp:65-74: create. *)
Definition create (a : ivl) : list ivl := union_of [a].

(** union_of_intervals.hpp:124-140: _intersection, the loop over two iterators; fuel is the number of increments. *)
Fixpoint inter_loop (k : nat) (a b : list ivl) : list ivl :=
  match k, a, b with
  | S k, i :: a', j :: b' =>
      if Qle_bool (up j) (lo i) then inter_loop k a' b
      else if Qle_bool (up i) (lo j) then inter_loop k a b'
      else mkI (Qmax (lo i) (lo j)) (Qmin (up i) (up j)) :: (if qlt (up i) (up j) then inter_loop k a' b else inter_loop k a b')
  | _, _, _ => []
  end.
Definition intersection (a b : list ivl) : list ivl := union_of (inter_loop (length a + length b) a b).

(** union_of_intervals.hpp:142-145: _join. *)
Definition join (a b : list ivl) : list ivl := union_of (a ++ b).

(** union_of_intervals.hpp:147-160: _intersect. *)
Fixpoint intersect_loop (k : nat) (a b : list ivl) : bool :=
  match k, a, b with
  | S k, i :: a', j :: b' =>
      if Qle_bool (up j) (lo i) then intersect_loop k a b'
      else if Qle_bool (up i) (lo j) then intersect_loop k a' b
      else true
  | _, _, _ => false
  end.
Definition intersect (a b : list ivl) : bool := intersect_loop (length a + length b) a b.

(** union_of_intervals.hpp:162-179: _subset. *)
Fixpoint subset_loop (k : nat) (a b : list ivl) : bool :=
  match a with
  | [] => true
  | i :: a' =>
      match k, b with
      | S k, j :: b' =>
          if Qle_bool (up j) (lo i) then subset_loop k a b'
          else if Qle_bool (lo j) (lo i) && Qle_bool (up i) (up j) then subset_loop k a' b
          else false
      | _, _ => false
      end
  end.
Definition subset (a b : list ivl) : bool := subset_loop (length a + length b) a b.

(** union_of_intervals.hpp:82-85: separated, overlaps, covers, inside. *)
Definition separated (a : list ivl) (bs : ivl) : bool := negb (intersect a (create bs)).
Definition overlaps (a : list ivl) (bs : ivl) : bool := intersect a (create bs).
Definition covers (a : list ivl) (bs : ivl) : bool := subset (create bs) a.
Definition inside (a : list ivl) (bs : ivl) : bool := subset a (create bs).

(** union_of_intervals.hpp:190-193: bounding_box; None is the failed assertion. *)
Definition bounding_box (a : list ivl) : option ivl :=
  match a with [] => None | i :: _ => Some (mkI (lo i) (up (last a i))) end.

(** union_of_intervals.hpp:182-188: measure; None is the access to the first element of an empty list. *)
Fixpoint widths (a : list ivl) : Q := match a with [] => 0 | i :: a' => (up i - lo i) + widths a' end.
Definition measure (a : list ivl) : option Q := match a with [] => None | _ => Some (widths a) end.
