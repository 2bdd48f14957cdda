(** Model of hybrid grid pavings: source/hybrid/hybrid_paving.{hpp,cpp}.
    Locations are natural numbers (their order is that of the map).  Pavings and boxes of one location are of any
    type with the operations below; those of the library are the subject of the modules Paving_ and Box_.  All hybrid sets
    are taken over the same hybrid grid, so that spaces of variables always agree. *)
From Coq Require Import List Bool Arith.
Import ListNotations.

(** the operations of GridTreePaving (grid_paving.hpp) used here *)
Record paving_ops := {
  paving : Type; box : Type;
  g_new : nat -> paving;                          (* the empty paving on the grid of a location *)
  g_adjoin : paving -> paving -> paving; g_remove : paving -> paving -> paving; g_restrict : paving -> paving -> paving;
  g_clear : paving -> paving;
  g_is_empty : paving -> bool; g_subset : paving -> paving -> bool; g_intersect : paving -> paving -> bool;
  (** the answers of type ValidatedLowerKleenean: true is definitely true *)
  g_separated : paving -> box -> bool; g_overlaps : paving -> box -> bool; g_covers : paving -> box -> bool; g_inside : paving -> box -> bool }.

Section MODEL.
  Variable G : paving_ops.
  (** hybrid_paving.hpp: _map, in the order of its iterators *)
  Definition hpaving := list (nat * paving G).
  (** std::map::find *)
  Fixpoint find {T : Type} (q : nat) (m : list (nat * T)) : option T :=
    match m with [] => None | (k, t) :: m' => if Nat.eqb q k then Some t else find q m' end.
  (** std::map::insert of a key which is not present *)
  Fixpoint put (q : nat) (t : paving G) (m : hpaving) : hpaving :=
    match m with [] => [(q, t)] | (k, s) :: m' => if Nat.ltb q k then (q, t) :: m else (k, s) :: put q t m' end.
  (** hybrid_paving.cpp:276-283: _provide_location. *)
  Definition provide (q : nat) (m : hpaving) : hpaving := match find q m with Some _ => m | None => put q (g_new G q) m end.
  (** assignment through the reference it returns *)
  Fixpoint modify (q : nat) (f : paving G -> paving G) (m : hpaving) : hpaving :=
    match m with [] => [] | (k, t) :: m' => if Nat.eqb q k then (k, f t) :: m' else (k, t) :: modify q f m' end.
  Definition at_location (q : nat) (f : paving G -> paving G) (m : hpaving) : hpaving := modify q f (provide q m).
  (** the loops of hybrid_paving.cpp:77-93 *)
  Definition merge (op : paving G -> paving G -> paving G) (m other : hpaving) : hpaving :=
    fold_left (fun m e => at_location (fst e) (fun t => op t (snd e)) m) other m.
  (** hybrid_paving.cpp:77-81, 83-87, 89-93: adjoin, remove, restrict. *)
  Definition adjoin (m other : hpaving) : hpaving := merge (g_adjoin G) m other.
  Definition remove (m other : hpaving) : hpaving := merge (g_remove G) m other.
  Definition restrict (m other : hpaving) : hpaving := merge (g_restrict G) m other.
  (** hybrid_paving.cpp:61-65: clear. *)
  Definition clear (m : hpaving) : hpaving := map (fun e => (fst e, g_clear G (snd e))) m.
  (** hybrid_paving.cpp:159-165: is_empty. *)
  Definition is_empty (m : hpaving) : bool := forallb (fun e => g_is_empty G (snd e)) m.

  (** hybrid_paving.cpp:197-210: separated, overlaps, covers.  Their operators || and && are those of ValidatedLowerKleenean
      (logical.hpp:196-197, with the conversion from bool of line 520), which evaluate both arguments.  None is the
      access through the end iterator when the location is not in the map. *)
  Definition separated (m : hpaving) (q : nat) (bx : box G) : option bool := match find q m with None => None | Some t => Some (true || g_separated G t bx) end.
  Definition overlaps (m : hpaving) (q : nat) (bx : box G) : option bool := match find q m with None => None | Some t => Some (true && g_overlaps G t bx) end.
  Definition covers (m : hpaving) (q : nat) (bx : box G) : option bool := match find q m with None => None | Some t => Some (true && g_covers G t bx) end.
  (** hybrid_paving.cpp:212-221: inside.  None is the failed assertion that the boxes have the location (container.hpp:247). *)
  Fixpoint inside (m : hpaving) (bxs : list (nat * box G)) : option bool :=
    match m with
    | [] => Some true
    | (q, t) :: m' => if negb (g_is_empty G t) then match find q bxs with None => None | Some bx => Some (g_inside G t bx) end else inside m' bxs
    end.
  (** hybrid_paving.cpp:235-246 and 248-259: subset, intersect.  None is the failed assertion that the second paving has the
      location (hybrid_paving.hpp, euclidean_set; container.hpp:247). *)
  Fixpoint subset (m other : hpaving) : option bool :=
    match m with
    | [] => Some true
    | (q, t) :: m' => if negb (g_is_empty G t) then match find q other with None => None | Some s => if negb (g_subset G t s) then Some false else subset m' other end else subset m' other
    end.
  Fixpoint intersect (m other : hpaving) : option bool :=
    match m with
    | [] => Some false
    | (q, t) :: m' => if negb (g_is_empty G t) then match find q other with None => None | Some s => if g_intersect G t s then Some true else intersect m' other end else intersect m' other
    end.
End MODEL.
