(** Model of [LRUCache] (source/utility/lru_cache.hpp). *)
From Coq Require Import List Bool Arith.
Import ListNotations.

(** What a call observably does: returns, fails an assertion/precondition (throws,
    leaving the object unchanged), or is undefined. *)
Inductive outcome (A : Type) := Ret (a : A) | AssertFail | UB.
Arguments Ret {A} _. Arguments AssertFail {A}. Arguments UB {A}.

Section LRU.
  Context {L V : Type} (eqb : L -> L -> bool).

  (** Members, lru_cache.hpp:100-101. The map's entries are a list of
      (label,(age,value)); the list order stands for the iteration order of
      [std::map], which the theorems do not depend on. *)
  Record cache := { max_size : nat; elements : list (L * (nat * V)) }.

  (** lru_cache.hpp:47, the precondition [maximum_size>0] throws. *)
  Definition make (m : nat) : outcome cache :=
    if 0 <? m then Ret {| max_size := m; elements := [] |} else AssertFail.

  Fixpoint find (l : L) (es : list (L * (nat * V))) : option (nat * V) :=
    match es with
    | [] => None
    | (l', av) :: es' => if eqb l l' then Some av else find l es'
    end.

  (** lru_cache.hpp:50. *)
  Definition has_label (c : cache) (l : L) : bool :=
    match find l (elements c) with Some _ => true | None => false end.

  (** lru_cache.hpp:54-63. The loop never modifies the found entry itself, whose age
      is not smaller than itself; then its age is set to 0. *)
  Definition get (c : cache) (l : L) : outcome (cache * V) :=
    match find l (elements c) with
    | None => AssertFail
    | Some (a, v) =>
        let bump e := let '(l', (a', v')) := e in if a' <? a then (l', (S a', v')) else (l', (a', v')) in
        let reset e := let '(l', (a', v')) := e in if eqb l l' then (l', (0, v')) else (l', (a', v')) in
        Ret ({| max_size := max_size c; elements := map reset (map bump (elements c)) |}, v)
    end.

  (** lru_cache.hpp:66-70. *)
  Definition age (c : cache) (l : L) : outcome nat :=
    match find l (elements c) with None => AssertFail | Some (a, _) => Ret a end.

  (** The loop lru_cache.hpp:79-83: the last entry (in iteration order) with
      age = max-1 is selected. *)
  Fixpoint select (m : nat) (es : list (L * (nat * V))) (acc : option L) : option L :=
    match es with
    | [] => acc
    | (l', (a', _)) :: es' => select m es' (if a' =? m - 1 then Some l' else acc)
    end.
  (** [std::map::erase(iterator)]: removes the entry with that key. *)
  Definition erase (l : L) (es : list (L * (nat * V))) : list (L * (nat * V)) :=
    filter (fun e => negb (eqb l (fst e))) es.
  Definition older (e : L * (nat * V)) : L * (nat * V) := let '(l', (a', v')) := e in (l', (S a', v')).

  (** lru_cache.hpp:74-87. Erasing [end()] (no entry selected) is undefined. *)
  Definition put (c : cache) (l : L) (v : V) : outcome cache :=
    if has_label c l then AssertFail
    else if length (elements c) <? max_size c then
      Ret {| max_size := max_size c; elements := (l, (0, v)) :: map older (elements c) |}
    else
      match select (max_size c) (elements c) None with
      | None => UB
      | Some r => Ret {| max_size := max_size c;
                         elements := (l, (0, v)) :: erase r (map older (elements c)) |}
      end.

  (** lru_cache.hpp:90-92. *)
  Definition current_size (c : cache) : nat := length (elements c).

  (** Client calls and what they return. *)
  Inductive op := OPut (l : L) (v : V) | OGet (l : L) | OHas (l : L) | OAge (l : L) | OSize.
  Inductive out := RVoid | RVal (v : V) | RBool (b : bool) | RNat (n : nat).

  Definition step (c : cache) (o : op) : cache * outcome out :=
    match o with
    | OPut l v => match put c l v with Ret c' => (c', Ret RVoid) | AssertFail => (c, AssertFail) | UB => (c, UB) end
    | OGet l => match get c l with Ret (c', v) => (c', Ret (RVal v)) | AssertFail => (c, AssertFail) | UB => (c, UB) end
    | OHas l => (c, Ret (RBool (has_label c l)))
    | OAge l => match age c l with Ret n => (c, Ret (RNat n)) | AssertFail => (c, AssertFail) | UB => (c, UB) end
    | OSize => (c, Ret (RNat (current_size c)))
    end.
  (** All results of a history of calls. *)
  Fixpoint run (c : cache) (os : list op) : list (outcome out) :=
    match os with
    | [] => []
    | o :: os' => let (c', r) := step c o in r :: run c' os'
    end.
End LRU.
Arguments cache L V : clear implicits.
Arguments op L V : clear implicits.
Arguments out V : clear implicits.
