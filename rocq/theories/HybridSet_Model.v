(** Model of sets in several locations: HybridConstraintSet, HybridBoundedConstraintSet and HybridBoxes
    (source/hybrid/hybrid_expression_set.hpp, hybrid_set.hpp and hybrid_set.cpp) and of the iterator over the cells of all locations.
    Locations are natural numbers; the exception for indistinguishable locations is the subject of the module Automaton_.  The sets of
    one location are of any type with the operations below, over the variables of that location; those of the library are the subject of
    the modules FunctionSet_ and Box_. *)
From Coq Require Import List Bool Arith.
From Verif Require Import HybridPaving_Model.
Import ListNotations.

(** the operations on the sets of one location used here.  The answers are of type LowerKleenean: true is definitely true. *)
Record set_ops := {
  set : Type; ebox : Type;
  s_overlaps : set -> ebox -> bool; s_covers : set -> ebox -> bool; s_separated : set -> ebox -> bool; s_inside : set -> ebox -> bool;
  s_bound : set -> ebox;                         (* over_approximation of the box of its bounds: hybrid_set.cpp:500-503 *)
  b_is_empty : ebox -> bool }.

(** container.hpp:261-262: Map::insert(k,v), which is std::map::insert: the map is not changed if it has the key. *)
Fixpoint insert {T : Type} (q : nat) (t : T) (m : list (nat * T)) : list (nat * T) :=
  match m with
  | [] => [(q, t)]
  | (k, s) :: m' => if Nat.eqb q k then m else if Nat.ltb q k then (q, t) :: m else (k, s) :: insert q t m'
  end.
(** container.hpp:250-251: Map::has_key. *)
Definition has_key {T : Type} (q : nat) (m : list (nat * T)) : bool := match find q m with Some _ => true | None => false end.

Section SETS.
  Variable O : set_ops.
  Definition hset := list (nat * set O).
  (** hybrid_set.cpp:320-322 and 425-429: HybridConstraintSet::adjoin, HybridBoundedConstraintSet::adjoin.  The same code is
      hybrid_set.hpp:142-147 and 251-258, HybridBoxes::insert, and hybrid_expression_set.hpp:128-129, HybridVariablesBoxes::adjoin. *)
  Definition adjoin (m : hset) (q : nat) (s : set O) : hset := insert q s m.
  (** hybrid_set.cpp:312-316 and 402-406, hybrid_expression_set.hpp:123-124: the constructors from a set of locations. *)
  Definition everywhere (qs : list nat) (s : set O) : hset := fold_left (fun m q => adjoin m q s) qs [].
  (** hybrid_expression_set.hpp:125-126: the constructor from a list of boxes. *)
  Definition of_list (l : list (nat * set O)) : hset := fold_left (fun m e => adjoin m (fst e) (snd e)) l [].
  (** hybrid_set.cpp:328-330, 491-493: locations. *)
  Definition locations (m : hset) : list nat := map fst m.
  (** hybrid_set.cpp:356-378 and 449-472: overlaps, covers, separated (two classes with the same code). *)
  Definition overlaps (m : hset) (q : nat) (bx : ebox O) : bool := match find q m with Some s => s_overlaps O s bx | None => false end.
  Definition covers (m : hset) (q : nat) (bx : ebox O) : bool := match find q m with Some s => s_covers O s bx | None => b_is_empty O bx end.
  Definition separated (m : hset) (q : nat) (bx : ebox O) : bool := match find q m with Some s => s_separated O s bx | None => true end.
  (** hybrid_set.cpp:474-485: inside.  None is the failed assertion that the boxes have the location (container.hpp:247).
      [acc] is the variable result. *)
  Fixpoint inside_from (acc : bool) (m : hset) (bxs : list (nat * ebox O)) : option bool :=
    match m with
    | [] => Some acc
    | (q, s) :: m' => match find q bxs with None => None | Some bx => inside_from (acc && s_inside O s bx) m' bxs end
    end.
  Definition inside (m : hset) (bxs : list (nat * ebox O)) : option bool := inside_from true m bxs.
  (** hybrid_set.cpp:495-505: bounding_box.  The failed assertion for a constrained variable without bounds is left out. *)
  Definition bounding_box (m : hset) : list (nat * ebox O) := fold_left (fun r e => insert (fst e) (s_bound O (snd e)) r) m [].
End SETS.

(** hybrid_set.cpp:523-534: intersection(HybridBoxesSet,HybridConstraintSet).  V are boxes, C constraint sets and B bounded constraint
    sets; [meet] is intersection(RealVariablesBox,RealExpressionConstraintSet) (expression_set.cpp:241-243) and [plain] the conversion of
    a box to a bounded constraint set.  None is the failed assertion of continuous_set (hybrid_set.cpp:341-344). *)
Section MEET.
  Variables (V C B : Type) (meet : V -> C -> B) (plain : V -> B).
  Fixpoint intersection_from (res : list (nat * B)) (bounds : list (nat * V)) (cs : list (nat * C)) : option (list (nat * B)) :=
    match bounds with
    | [] => Some res
    | (q, v) :: bounds' =>
        match find q cs with
        | None => None
        | Some c =>
            let res1 := insert q (meet v c) res in
            let res2 := if has_key q cs then insert q (meet v c) res1 else insert q (plain v) res1 in
            intersection_from res2 bounds' cs
        end
    end.
  Definition intersection (bounds : list (nat * V)) (cs : list (nat * C)) : option (list (nat * B)) := intersection_from [] bounds cs.
End MEET.

(** HybridSpaceSetConstIterator (hybrid_set.hpp:504-555, hybrid_set.cpp:581-604) over the cells of the pavings of a map; the
    cells of one paving are a list.  The iterator is the location with the cells from _bs_iter on, and the entries of the map after it; None is the
    iterator at _loc_end. *)
Section ITERATOR.
  Variable cell : Type.
  Definition hmap := list (nat * list cell).
  Definition iterator := option (nat * list cell * hmap).
  (** hybrid_set.cpp:595-604: increment_loc. *)
  Fixpoint increment_loc (q : nat) (cs : list cell) (rest : hmap) : iterator :=
    match cs with
    | [] => match rest with [] => None | (q', cs') :: rest' => increment_loc q' cs' rest' end
    | _ :: _ => Some (q, cs, rest)
    end.
  (** hybrid_set.cpp:581-593: the constructor for begin. *)
  Definition begin (m : hmap) : iterator := match m with [] => None | (q, cs) :: rest => increment_loc q cs rest end.
  (** hybrid_set.hpp:538-544 and 547-553: dereference, increment.  None is the use of the iterator of one location at its end. *)
  Definition dereference (i : nat * list cell * hmap) : option (nat * cell) := match i with (q, c :: _, _) => Some (q, c) | _ => None end.
  Definition increment (i : nat * list cell * hmap) : option iterator := match i with (q, _ :: cs, rest) => Some (increment_loc q cs rest) | _ => None end.
  (** the loop for(auto i=begin; i!=end; ++i), with the values *i, stopped after [n] steps (None, also for the use of an iterator at its end) *)
  Fixpoint loop (n : nat) (i : iterator) : option (list (nat * cell)) :=
    match i with
    | None => Some []
    | Some p =>
        match n with
        | 0 => None
        | S n' => match dereference p, increment p with Some c, Some j => option_map (cons c) (loop n' j) | _, _ => None end
        end
    end.
End ITERATOR.
