(** Specification vocabulary for logical values: what it means for a checked value
    to be correct information about a proposition. *)
From Verif Require Import Logical_Model.

(** A logical value is correct information about [P] if a definite answer is right. *)
Definition informs (l : lv) (P : Prop) : Prop :=
  (l = TRUE -> P) /\ (l = FALSE -> ~ P).

(** Meaning of a handle, given the propositions of its leaves: the classical
    connectives, and countable quantifiers for the sequences. *)
Inductive means : handle -> Prop -> Prop :=
| m_const l P : informs l P -> means (HConst l) P
| m_leaf chk P : (forall e, informs (chk e) P) -> means (HLeaf chk) P
| m_and a b P Q : means a P -> means b Q -> means (HAnd a b) (P /\ Q)
| m_or a b P Q : means a P -> means b Q -> means (HOr a b) (P \/ Q)
| m_eq a b P Q : means a P -> means b Q -> means (HEq a b) (P <-> Q)
| m_xor a b P Q : means a P -> means b Q -> means (HXor a b) (~ (P <-> Q))
| m_not a P : means a P -> means (HNot a) (~ P)
| m_seqor s (P : nat -> Prop) : (forall k, means (s k) (P k)) -> means (HSeqOr s) (exists k, P k)
| m_seqand s (P : nat -> Prop) : (forall k, means (s k) (P k)) -> means (HSeqAnd s) (forall k, P k).

(** Leaves never retract a definite answer when given more effort. *)
Inductive persistent : handle -> Prop :=
| p_const l : persistent (HConst l)
| p_leaf chk : (forall e e', e <= e' -> is_determinate (chk e) = true -> chk e' = chk e) ->
               persistent (HLeaf chk)
| p_and a b : persistent a -> persistent b -> persistent (HAnd a b)
| p_or a b : persistent a -> persistent b -> persistent (HOr a b)
| p_eq a b : persistent a -> persistent b -> persistent (HEq a b)
| p_xor a b : persistent a -> persistent b -> persistent (HXor a b)
| p_not a : persistent a -> persistent (HNot a)
| p_seqor s : (forall k, persistent (s k)) -> persistent (HSeqOr s)
| p_seqand s : (forall k, persistent (s k)) -> persistent (HSeqAnd s).
