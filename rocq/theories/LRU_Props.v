(** Property C01: LRU cache. *)
From Coq Require Import List Bool Arith.
From Verif Require Import LRU_Model LRU_Spec LRU_Proofs.
Import ListNotations.

(** C01: for every positive capacity and every history of calls (including calls that
    violate a precondition, which throw and change nothing), every returned value,
    membership answer, age and size is that of a recency list cut to the capacity. *)
Theorem C01_lru_refines_recency_list : forall (L V : Type) (eqb : L -> L -> bool),
  (forall a b, eqb a b = true <-> a = b) ->
  forall m (os : list (op L V)), 0 < m ->
  exists c, make m = Ret c /\ run eqb c os = spec_run eqb m [] os.
Proof. exact @history_refines. Qed.
Print Assumptions C01_lru_refines_recency_list.

(** C01: in particular no history makes the cache erase a missing entry. *)
Theorem C01_lru_never_undefined : forall (L V : Type) (eqb : L -> L -> bool),
  (forall a b, eqb a b = true <-> a = b) ->
  forall m (os : list (op L V)) c, make m = Ret c -> ~ In UB (run eqb c os).
Proof. exact @run_no_ub. Qed.
Print Assumptions C01_lru_never_undefined.

Example C01_nonvacuous :
  spec_run Nat.eqb 2 [] [OPut 1 10; OPut 2 20; OGet 1; OPut 3 30; OHas 2; OAge 1; OGet 2; OSize]
  = [Ret RVoid; Ret RVoid; Ret (RVal 10); Ret RVoid; Ret (RBool false); Ret (RNat 1); AssertFail; Ret (RNat 2)].
Proof. reflexivity. Qed.
