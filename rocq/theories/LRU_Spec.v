(** What an LRU cache is: a list of at most [m] label/value pairs, most recently used
    first. *)
From Coq Require Import List Bool Arith.
From Verif Require Import LRU_Model.
Import ListNotations.

Section Spec.
  Context {L V : Type} (eqb : L -> L -> bool).
  Definition recency := list (L * V).

  (** Position of a label, counting from the most recently used. *)
  Fixpoint position (l : L) (r : recency) : option nat :=
    match r with
    | [] => None
    | (l', _) :: r' => if eqb l l' then Some 0 else option_map S (position l r')
    end.
  Fixpoint value_of (l : L) (r : recency) : option V :=
    match r with
    | [] => None
    | (l', v) :: r' => if eqb l l' then Some v else value_of l r'
    end.
  Definition without (l : L) (r : recency) : recency := filter (fun e => negb (eqb l (fst e))) r.

  Definition spec_step (m : nat) (r : recency) (o : op L V) : recency * outcome (out V) :=
    match o with
    | OPut l v => match value_of l r with
                  | Some _ => (r, AssertFail)
                  | None => (firstn m ((l, v) :: r), Ret RVoid)
                  end
    | OGet l => match value_of l r with
                | None => (r, AssertFail)
                | Some v => ((l, v) :: without l r, Ret (RVal v))
                end
    | OHas l => (r, Ret (RBool (match value_of l r with Some _ => true | None => false end)))
    | OAge l => match position l r with None => (r, AssertFail) | Some n => (r, Ret (RNat n)) end
    | OSize => (r, Ret (RNat (length r)))
    end.
  Fixpoint spec_run (m : nat) (r : recency) (os : list (op L V)) : list (outcome (out V)) :=
    match os with
    | [] => []
    | o :: os' => let (r', x) := spec_step m r o in x :: spec_run m r' os'
    end.
End Spec.
Arguments recency L V : clear implicits.
