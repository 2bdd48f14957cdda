(** Model of Ariadne's logical values (source/numeric/logical.hpp, logical.cpp). *)
From Coq Require Import List Bool ZArith Arith.
Import ListNotations.

(** logical.hpp:73-79, [enum class LogicalValue]. *)
Inductive lv := FALSE | UNLIKELY | INDET | LIKELY | TRUE.

(** The underlying integers -2..+2 of the enumeration, logical.hpp:73-79. *)
Definition lv_code (l : lv) : Z :=
  match l with FALSE => -2 | UNLIKELY => -1 | INDET => 0 | LIKELY => 1 | TRUE => 2 end.
(** [static_cast<LogicalValue>] of an integer in range; out of range is [None]. *)
Definition lv_of_code (z : Z) : option lv :=
  match z with
  | (-2)%Z => Some FALSE | (-1)%Z => Some UNLIKELY | 0%Z => Some INDET
  | 1%Z => Some LIKELY | 2%Z => Some TRUE | _ => None end.

(** logical.hpp:80-86. *)
Definition make_lv (b : bool) : lv := if b then TRUE else FALSE.
Definition definitely (l : lv) : bool := match l with TRUE => true | _ => false end.
Definition probably (l : lv) : bool := (lv_code LIKELY <=? lv_code l)%Z.
Definition decide_lv (l : lv) : bool := (lv_code LIKELY <=? lv_code l)%Z.
Definition possibly (l : lv) : bool := match l with FALSE => false | _ => true end.
Definition is_determinate (l : lv) : bool := match l with TRUE | FALSE => true | _ => false end.

(** logical.hpp:88, negation of the code. [lv_neg] tabulates
    [lv_of_code (- lv_code l)]; the two are proved equal in Logical_Proofs. *)
Definition lv_neg (l : lv) : lv :=
  match l with TRUE => FALSE | LIKELY => UNLIKELY | INDET => INDET | UNLIKELY => LIKELY | FALSE => TRUE end.
(** logical.hpp:89-90, [std::min]/[std::max] on the codes. *)
Definition lv_and (a b : lv) : lv := if (lv_code b <? lv_code a)%Z then b else a.
Definition lv_or (a b : lv) : lv := if (lv_code a <? lv_code b)%Z then b else a.
(** logical.cpp:135-150. *)
Definition lv_eq (l1 l2 : lv) : lv :=
  match l1 with
  | TRUE => l2
  | LIKELY => match l2 with TRUE => LIKELY | FALSE => UNLIKELY | _ => l2 end
  | INDET => INDET
  | UNLIKELY => match l2 with TRUE => UNLIKELY | FALSE => LIKELY | _ => lv_neg l2 end
  | FALSE => lv_neg l2
  end.
(** logical.hpp:91. *)
Definition lv_xor (l1 l2 : lv) : lv := lv_neg (lv_eq l1 l2).

(** The clamping constructors of the Validated* classes:
    ValidatedSierpinskian / ValidatedLowerKleenean logical.hpp:478,519;
    ValidatedNegatedSierpinskian / ValidatedUpperKleenean logical.hpp:490,534;
    ApproximateKleenean logical.hpp:551. *)
Definition to_lower (l : lv) : lv := lv_or l UNLIKELY.
Definition to_upper (l : lv) : lv := lv_and l LIKELY.
Definition to_approx (l : lv) : lv := lv_or (lv_and l LIKELY) UNLIKELY.
(** Converting constructors from bool: logical.hpp:479, 491. *)
Definition vsierp_of_bool (b : bool) : lv := to_lower (if b then TRUE else UNLIKELY).
Definition vnsierp_of_bool (b : bool) : lv := to_upper (if b then LIKELY else FALSE).

(** [LogicalHandle]: expression trees, logical.cpp:46-132 and 164-195.
    [HLeaf chk] is any other implementation of [LogicalInterface::_check]
    (for instance a comparison of real numbers).
    Effort is the unsigned counter of logical.hpp:48-66, here an unbounded [nat]
    (wrap-around after 2^32 increments is not modelled). *)
Inductive handle :=
| HConst (l : lv)
| HLeaf (chk : nat -> lv)
| HAnd (a b : handle) | HOr (a b : handle) | HEq (a b : handle) | HXor (a b : handle)
| HNot (a : handle)
| HSeqOr (s : nat -> handle)
| HSeqAnd (s : nat -> handle).

(** The for-loops of logical.cpp:169-174 and 186-191: k = 0 .. work-1. *)
Fixpoint seq_find (p : nat -> bool) (k n : nat) : bool :=
  match n with
  | O => false
  | S n' => if p k then true else seq_find p (S k) n'
  end.

(** [LogicalInterface::_check], logical.cpp:42-67 and 164-195. The elements of the
    sequences are LowerKleenean / UpperKleenean, whose [check] clamps
    (logical.hpp:575-578); [not] of a ValidatedUpperKleenean is a
    ValidatedLowerKleenean, which clamps again. *)
Fixpoint check (h : handle) (e : nat) : lv :=
  match h with
  | HConst l => l
  | HLeaf chk => chk e
  | HAnd a b => lv_and (check a e) (check b e)
  | HOr a b => lv_or (check a e) (check b e)
  | HEq a b => lv_eq (check a e) (check b e)
  | HXor a b => lv_xor (check a e) (check b e)
  | HNot a => lv_neg (check a e)
  | HSeqOr s =>
      if seq_find (fun k => definitely (to_lower (check (s k) e))) 0 e then TRUE else INDET
  | HSeqAnd s =>
      if seq_find (fun k => definitely (to_lower (lv_neg (to_upper (check (s k) e))))) 0 e
      then FALSE else INDET
  end.

(** The typed wrappers' [check], logical.hpp:569-580. *)
Definition check_lower (h : handle) (e : nat) : lv := to_lower (check h e).
Definition check_upper (h : handle) (e : nat) : lv := to_upper (check h e).
Definition check_kleenean (h : handle) (e : nat) : lv := check h e.

(** The mixed overloads. logical.hpp:300-301: [Sierpinskian || Boolean] returns the
    Sierpinskian; logical.hpp:330-331: [NegatedSierpinskian && Boolean] returns the
    NegatedSierpinskian. *)
Definition sierp_or_bool (s : handle) (b : bool) : handle := s.
Definition bool_or_sierp (b : bool) (s : handle) : handle := s.
Definition nsierp_and_bool (s : handle) (b : bool) : handle := s.
Definition bool_and_nsierp (b : bool) (s : handle) : handle := s.
(** For Kleenean a Boolean operand is converted, logical.hpp:352 and 196-197. *)
Definition kleenean_of_bool (b : bool) : handle := HConst (make_lv b).
Definition kleenean_and_bool (k : handle) (b : bool) : handle := HAnd k (kleenean_of_bool b).
Definition kleenean_or_bool (k : handle) (b : bool) : handle := HOr k (kleenean_of_bool b).

(** The inner loop of [nondeterministic_choose_index], logical.cpp:251-253. *)
Fixpoint first_definite (ps : list handle) (e i : nat) : option nat :=
  match ps with
  | [] => None
  | p :: ps' => if definitely (check_lower p e) then Some i else first_definite ps' e (S i)
  end.
(** The outer [while(true)] loop, logical.cpp:248-256, with fuel; [None] means
    that the loop is still running after [fuel] iterations starting from effort [e]. *)
Fixpoint choose_index (fuel : nat) (ps : list handle) (e : nat) : option nat :=
  match fuel with
  | O => None
  | S f => match first_definite ps e 0 with
           | Some i => Some i
           | None => choose_index f ps (S e)
           end
  end.
(** [NondeterministicBoolean::_choose], logical.cpp:211-218. *)
Fixpoint choose_bool (fuel : nat) (pt pf : handle) (e : nat) : option bool :=
  match fuel with
  | O => None
  | S f => if definitely (check_lower pt e) then Some true
           else if definitely (check_lower pf e) then Some false
           else choose_bool f pt pf (S e)
  end.
