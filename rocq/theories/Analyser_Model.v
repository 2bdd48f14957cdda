(** Model of [ReachabilityAnalyser<SYS>] (source/dynamics/reachability_analyser.tpl.hpp)
    for the systems over Euclidean space (vector fields and iterated maps).

    A [Storage] is a paving by grid cells.  All sets in these functions are
    approximated at one fineness, [maximum_grid_fineness], so a storage is
    modelled by the list of its cells of that fineness, of an abstract type [C];
    mincing and recombining do not change the set (C21) and are the identity.
    The set operations of pavings are those of C25-C27.  Enclosures are an
    abstract type [E], and the evolver is a record of functions: the theorems are
    for every evolver that meets the contracts of Analyser_Spec.v, which
    Analyser_Props.v derives for the evolvers of Evolver_Model.v. *)
From Coq Require Import List Bool QArith Qround ZArith.
From Verif Require Import Evolver_Model.
Import ListNotations.

(** Returned, threw [OuterChainOverspill], or neither (the evolver threw, or the
    loop did not end within the fuel). *)
Inductive result (A : Type) := Done (a : A) | Overspill | Stuck.
Arguments Done {A} _. Arguments Overspill {A}. Arguments Stuck {A}.

Definition andthen {A B} (r : result A) (f : A -> result B) : result B :=
  match r with Done a => f a | Overspill => Overspill | Stuck => Stuck end.

(** reachability_analyser.hpp:64. *)
Inductive policy := Ignore | Warning | Error.

(** [round(Rational)], numeric/rational.cpp:419-430: to the nearest integer,
    halves away from zero.  ([round(Real)], numeric/real.cpp:447-450, applies it
    to the midpoint of bounds for the real.) *)
Definition round_rational (q : Q) : Z :=
  let num := (2 * Qnum q)%Z in
  let den := Zpos (Qden q) in
  let num' := if (0 <=? num)%Z then (num + den)%Z else (num - den)%Z in
  Z.quot num' (2 * den).

Section Analyser.
  Context {E C : Type} (ceqb : C -> C -> bool).

  (** *** Storage (source/dynamics/storage.hpp:60-100) *)
  Definition storage := list C.
  Definition contains (s : storage) (c : C) : bool := existsb (ceqb c) s.
  Definition adjoin (s1 s2 : storage) : storage :=
    s1 ++ filter (fun c => negb (contains s1 c)) s2.
  Definition restrict (s1 s2 : storage) : storage := filter (contains s2) s1.
  Definition remove (s1 s2 : storage) : storage :=
    filter (fun c => negb (contains s2 c)) s1.
  Definition restrict_to (p : C -> bool) (s : storage) : storage := filter p s.
  Definition subset (s1 s2 : storage) : bool := forallb (contains s2) s1.
  Definition is_empty (s : storage) : bool := match s with [] => true | _ => false end.

  (** The evolver and the approximation of enclosures on the grid. *)
  Record evolver := {
    (** [evolver.enclosure(cell.box())] *)
    enclosure : C -> E;
    (** [evolver.orbit(e,time,semantics)]: its reach and final lists; [None] if
        it throws or does not return. *)
    orbit : E -> Q -> semantics -> option (list E * list E);
    (** [adjoin_outer_approximation_to(storage,fineness)]: the cells adjoined. *)
    outer : E -> list C
  }.

  (** ReachabilityAnalyserConfiguration, reachability_analyser.hpp:214-300.
      [in_extent] is membership in the cell of [maximum_grid_extent], [bounding]
      the outer approximation of the bounding domain (empty if there is none).
      Comparisons of times with 0 are those of [Real]: [surely_positive] is
      [definitely(t>0)] and [maybe_positive] is [possibly(t>0)]. *)
  Record settings := {
    transient_time : Q;
    lock_to_grid_time : Q;
    in_extent : C -> bool;
    bounding : storage;
    overspill : policy;
    surely_positive : Q -> bool;
    maybe_positive : Q -> bool;
    round : Q -> Z
  }.

  Variable ev : evolver.
  Variable cf : settings.

  Definition adjoin_all (s : storage) (es : list E) : storage :=
    fold_left (fun s e => adjoin s (outer ev e)) es s.

  (** _adjoin_upper_reach_evolve, reachability_analyser.tpl.hpp:170-199.  The set
      is copied first, so it may be one of the storages adjoined to. *)
  Fixpoint adjoin_upper_reach_evolve (reach evolve : storage) (set : storage) (time : Q)
    : result (storage * storage) :=
    match set with
    | [] => Done (reach, evolve)
    | c :: set' =>
        match orbit ev (enclosure ev c) time UPPER with
        | None => Stuck
        | Some (rs, fs) =>
            adjoin_upper_reach_evolve (adjoin_all reach rs) (adjoin_all evolve fs) set' time
        end
    end.

  (** _upper_evolve, reachability_analyser.tpl.hpp:148-167. *)
  Fixpoint upper_evolve_from (res : storage) (set : storage) (time : Q) : result storage :=
    match set with
    | [] => Done res
    | c :: set' =>
        match orbit ev (enclosure ev c) time UPPER with
        | None => Stuck
        | Some (_, fs) => upper_evolve_from (adjoin_all res fs) set' time
        end
    end.
  Definition upper_evolve_step (set : storage) (time : Q) : result storage :=
    upper_evolve_from [] set time.

  (** compute_time_steps, reachability_analyser.tpl.hpp:376-378. *)
  Definition time_steps (time : Q) : nat := Z.to_nat (round cf (time / lock_to_grid_time cf)).
  Definition remainder_time (time : Q) : Q :=
    time - inject_Z (Z.of_nat (time_steps time)) * lock_to_grid_time cf.

  Fixpoint repeat_evolve (n : nat) (evolve : storage) : result storage :=
    match n with
    | O => Done evolve
    | S k => andthen (upper_evolve_step evolve (lock_to_grid_time cf)) (repeat_evolve k)
    end.

  (** upper_evolve, reachability_analyser.tpl.hpp:381-411; [initial] is the outer
      approximation of the initial set. *)
  Definition upper_evolve (initial : storage) (time : Q) : result storage :=
    andthen (repeat_evolve (time_steps time) initial) (fun evolve =>
      if negb (is_empty evolve) && maybe_positive cf (remainder_time time)
      then upper_evolve_step evolve (remainder_time time)
      else Done evolve).

  (** The loop of upper_reach, reachability_analyser.tpl.hpp:441-454: the state is
      (reach, found, accumulated, evolve). *)
  Fixpoint upper_reach_loop (n : nat) (reach found accumulated evolve : storage)
    : result (storage * storage * storage * storage) :=
    match n with
    | O => Done (reach, found, accumulated, evolve)
    | S k =>
        let accumulated := adjoin accumulated found in
        andthen (adjoin_upper_reach_evolve found evolve evolve (lock_to_grid_time cf))
          (fun fe =>
             let (found, evolve) := fe in
             let evolve := remove evolve accumulated in
             let reach := adjoin reach found in
             let accumulated := adjoin accumulated evolve in
             if is_empty evolve then Done (reach, found, accumulated, evolve)
             else upper_reach_loop k reach found accumulated evolve)
    end.

  (** upper_reach, reachability_analyser.tpl.hpp:415-465. *)
  Definition upper_reach (initial : storage) (time : Q) : result storage :=
    andthen (upper_reach_loop (time_steps time) initial [] [] initial) (fun st =>
      let '(reach, found, accumulated, evolve) := st in
      if negb (is_empty evolve) && maybe_positive cf (remainder_time time) then
        andthen (adjoin_upper_reach_evolve found accumulated evolve (remainder_time time))
          (fun fa => Done (adjoin (adjoin reach (fst fa)) evolve))
      else Done (adjoin reach evolve)).

  (** The loop of upper_reach_evolve, reachability_analyser.tpl.hpp:495-501. *)
  Fixpoint upper_reach_evolve_loop (n : nat) (reach found evolve : storage)
    : result (storage * storage * storage) :=
    match n with
    | O => Done (reach, found, evolve)
    | S k =>
        andthen (adjoin_upper_reach_evolve found evolve evolve (lock_to_grid_time cf))
          (fun fe => upper_reach_evolve_loop k (adjoin reach (fst fe)) (fst fe) (snd fe))
    end.

  (** upper_reach_evolve, reachability_analyser.tpl.hpp:469-513. *)
  Definition upper_reach_evolve (initial : storage) (time : Q) : result (storage * storage) :=
    andthen (upper_reach_evolve_loop (time_steps time) initial [] initial) (fun st =>
      let '(reach, found, evolve) := st in
      if negb (is_empty evolve) && maybe_positive cf (remainder_time time) then
        andthen (adjoin_upper_reach_evolve found evolve evolve (remainder_time time))
          (fun fe => Done (adjoin reach (fst fe), snd fe))
      else Done (reach, evolve)).

  (** _checked_restriction, reachability_analyser.tpl.hpp:676-699. *)
  Definition checked_restriction (p : policy) (set : storage) : result storage :=
    let set' := restrict_to (in_extent cf) set in
    let set' := if is_empty (bounding cf) then set' else restrict set' (bounding cf) in
    match p with
    | Error => if is_empty (remove set set') then Done set' else Overspill
    | _ => Done set'
    end.

  (** The while loop of outer_chain_reach, reachability_analyser.tpl.hpp:568-585. *)
  Fixpoint chain_loop (fuel : nat) (reach evolve starting accumulated : storage)
    : result storage :=
    match fuel with
    | O => Stuck
    | S k =>
        if is_empty starting then Done reach else
        andthen (adjoin_upper_reach_evolve reach evolve starting (lock_to_grid_time cf))
          (fun re =>
             let (reach, evolve) := re in
             andthen (checked_restriction (overspill cf) evolve) (fun evolve =>
               let starting := remove evolve accumulated in
               chain_loop k reach evolve starting (adjoin accumulated starting)))
    end.

  (** outer_chain_reach, reachability_analyser.tpl.hpp:516-588. *)
  Definition outer_chain_reach (fuel : nat) (initial : storage) : result storage :=
    andthen (checked_restriction (overspill cf) initial) (fun initial =>
      andthen
        (if surely_positive cf (transient_time cf) then
           andthen (adjoin_upper_reach_evolve [] [] initial (transient_time cf)) (fun re =>
             andthen (checked_restriction (overspill cf) (snd re)) (fun evolve =>
               Done (fst re, evolve)))
         else Done ([], initial))
        (fun re =>
           let (reach, evolve) := re in
           andthen (chain_loop fuel reach evolve evolve evolve)
                   (checked_restriction (overspill cf)))).

  (** SafetyCertificate, reachability_analyser.hpp:68-72; [is_safe] is [true] or
      indeterminate. *)
  Record certificate := { is_safe : bool; chain_reach_set : storage; safe_set : storage }.

  (** The while loop of verify_safety, reachability_analyser.tpl.hpp:651-671: the
      inclusion in the safe set is tested before each stage. *)
  Fixpoint safety_loop (fuel : nat) (initial reach evolve starting accumulated safe : storage)
    : result certificate :=
    match fuel with
    | O => Stuck
    | S k =>
        if is_empty starting then
          andthen (checked_restriction Error reach) (fun reach =>
            Done {| is_safe := true; chain_reach_set := reach; safe_set := safe |})
        else if negb (subset reach safe) then
          Done {| is_safe := false; chain_reach_set := reach; safe_set := safe |}
        else
          andthen (adjoin_upper_reach_evolve reach evolve starting (lock_to_grid_time cf))
            (fun re =>
               let (reach, evolve) := re in
               andthen (checked_restriction Error initial) (fun initial =>
                 let starting := remove evolve accumulated in
                 safety_loop k initial reach evolve starting
                             (adjoin accumulated starting) safe))
    end.

  (** verify_safety, reachability_analyser.tpl.hpp:591-673; [safe] is the inner
      approximation of the safe set.  (The assertion that the safe set is also
      bounded, :598-599, is taken to hold.) *)
  Definition verify_safety (fuel : nat) (initial safe : storage) : result certificate :=
    andthen (checked_restriction Error initial) (fun initial =>
      if negb (subset initial safe) then
        Done {| is_safe := false; chain_reach_set := initial; safe_set := safe |}
      else
        andthen
          (if surely_positive cf (transient_time cf) then
             andthen (adjoin_upper_reach_evolve [] [] initial (transient_time cf)) (fun re =>
               andthen (checked_restriction Error initial) (fun _ => Done re))
           else Done ([], initial))
          (fun re =>
             let (reach, evolve) := re in
             safety_loop fuel initial reach evolve evolve evolve safe)).
End Analyser.

Arguments evolver : clear implicits.
Arguments settings : clear implicits.
