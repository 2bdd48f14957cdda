(** Model of [VectorFieldEvolver::orbit] (source/dynamics/vector_field_evolver.cpp)
    run by a pool of workers, and of [IteratedMapEvolver::orbit]
    (source/dynamics/iterated_map_evolver.cpp).

    Enclosures are an abstract type [E]; the numerical operations on them
    (radius test, splitting, reconditioning, flow step) are the fields of the
    record [ops], and the theorems hold for every choice of them that satisfies
    the enclosure contracts of Evolver_Spec.v.  What is modelled is the control
    structure: which sets are split, stepped, dropped, recorded, and in which
    order the workers may do so. *)
From Coq Require Import List Bool QArith.
Import ListNotations.

(** source/dynamics/evolver_interface.hpp:42-45, [enum class Semantics]. *)
Inductive semantics := LOWER | UPPER.

Section Evolver.
  Context {E : Type}.

  (** The calls made by [VectorFieldEvolver] on its sets and its integrator. *)
  Record ops := {
    (** [possibly(radius > maximum_enclosure_radius)], vector_field_evolver.cpp:117 *)
    initially_large : E -> bool;
    (** [decide(radius > maximum_enclosure_radius)], vector_field_evolver.cpp:147,154 *)
    too_large : E -> bool;
    (** [Enclosure::split], vector_field_evolver.cpp:61-67,119 *)
    split : E -> E * E;
    (** [definitely(is_empty())], vector_field_evolver.cpp:120-121 *)
    surely_empty : E -> bool;
    (** [possibly(norm(errors) > maximum_spacial_error)], vector_field_evolver.cpp:184 *)
    large_error : E -> bool;
    (** [Enclosure::recondition], vector_field_evolver.cpp:186 *)
    recondition : E -> E;
    (** [flow_step], [apply_full_reach_step] and [apply_fixed_evolve_step],
        vector_field_evolver.cpp:203-218: the step size found by the integrator,
        the flow tube and the evolved set.  [None]: the integrator throws. *)
    flow : E -> option (Q * (E * E));
    (** [definitely(current_time>=maximum_time)], vector_field_evolver.cpp:145,
        a comparison of a dyadic with a [Real]. *)
    surely_reached : Q -> Q -> bool
  }.

  (** VectorFieldEvolverConfiguration, vector_field_evolver.cpp:228-235. *)
  Record config := { enable_subdivisions : bool; enable_reconditioning : bool }.

  Definition task := (Q * E)%type.

  (** What is recorded in the orbit, orbit.hpp:198-231. *)
  Inductive entry := Reach (e : E) | Intermediate (e : E) | Final (e : E).

  (** The effects of processing one working set: recording an entry (under the
      mutex of [SynchronisedOrbit], vector_field_evolver.hpp:86-94), appending
      to the workload, or throwing. *)
  Inductive effect := Record_ (en : entry) | Append (tk : task) | Throw.

  (** _process_timed_enclosure_step, vector_field_evolver.cpp:161-225. *)
  Definition process_step (o : ops) (c : config) (tk : task) : list effect :=
    let (t, e) := tk in
    if enable_reconditioning c && large_error o e then [Append (t, recondition o e)]
    else match flow o e with
         | None => [Throw]
         | Some (h, (r, n)) =>
             [Record_ (Reach r); Record_ (Intermediate n); Append ((t + h)%Q, n)]
         end.

  (** _process_timed_enclosure, vector_field_evolver.cpp:127-159. *)
  Definition process (o : ops) (c : config) (T : Q) (sem : semantics) (tk : task)
    : list effect :=
    let (t, e) := tk in
    if surely_reached o t T then [Record_ (Final e)]
    else match sem with
         | UPPER => if enable_subdivisions c && too_large o e
                    then [Append (t, fst (split o e)); Append (t, snd (split o e))]
                    else process_step o c tk
         | LOWER => if too_large o e then [] else process_step o c tk
         end.

  (** _append_initial_set, vector_field_evolver.cpp:114-125: the working sets
      appended, in order.  [None]: the recursion goes deeper than the fuel. *)
  Fixpoint initial_tasks (fuel : nat) (o : ops) (e : E) : option (list task) :=
    match fuel with
    | O => None
    | S k =>
        if initially_large o e then
          let (e1, e2) := split o e in
          match (if surely_empty o e1 then Some [] else initial_tasks k o e1),
                (if surely_empty o e2 then Some [] else initial_tasks k o e2) with
          | Some l1, Some l2 => Some (l1 ++ l2)
          | _, _ => None
          end
        else Some [(0%Q, e)]
    end.

  (** The state of a run: the working sets waiting in the workload, the calls in
      progress (with the effects they still have to perform), and the orbit so
      far.  [DynamicWorkload] is from the BetterThreads submodule, which is not
      part of the repository; it is taken to hand every appended element to
      exactly one call, to run any number of calls at once, and to return when
      nothing is waiting or running. *)
  Inductive item := Waiting (tk : task) | Running (l : list effect).

  Record state := { items : list item; log : list entry }.

  Definition start (l : list task) : state :=
    {| items := map Waiting l; log := [] |}.

  (** One step of one worker: take any waiting set, perform the next effect of
      any call in progress, or end a call that has nothing left to do.  A call
      whose next effect is [Throw] makes no further step. *)
  Inductive step (o : ops) (c : config) (T : Q) (sem : semantics)
    : state -> state -> Prop :=
  | step_take : forall b1 b2 lg tk,
      step o c T sem
        {| items := b1 ++ Waiting tk :: b2; log := lg |}
        {| items := b1 ++ Running (process o c T sem tk) :: b2; log := lg |}
  | step_record : forall b1 b2 lg en l,
      step o c T sem
        {| items := b1 ++ Running (Record_ en :: l) :: b2; log := lg |}
        {| items := b1 ++ Running l :: b2; log := lg ++ [en] |}
  | step_append : forall b1 b2 lg tk l,
      step o c T sem
        {| items := b1 ++ Running (Append tk :: l) :: b2; log := lg |}
        {| items := b1 ++ Running l :: b2 ++ [Waiting tk]; log := lg |}
  | step_end : forall b1 b2 lg,
      step o c T sem
        {| items := b1 ++ Running [] :: b2; log := lg |}
        {| items := b1 ++ b2; log := lg |}.

  (** A run of [n] steps. *)
  Inductive steps (o : ops) (c : config) (T : Q) (sem : semantics)
    : nat -> state -> state -> Prop :=
  | steps_0 : forall s, steps o c T sem 0 s s
  | steps_S : forall n s s' s'',
      step o c T sem s s' -> steps o c T sem n s' s'' -> steps o c T sem (S n) s s''.

  (** The orbit returned, vector_field_evolver.cpp:98-112: [process] returns when
      nothing is waiting or running. *)
  Definition returns (o : ops) (c : config) (T : Q) (sem : semantics)
             (initial : E) (result : list entry) : Prop :=
    exists fuel l n, initial_tasks fuel o initial = Some l /\
      steps o c T sem n (start l) {| items := []; log := result |}.

  (** Orbit<LabelledEnclosure>::reach/intermediate/final, orbit.hpp:218-222. *)
  Definition reach (l : list entry) : list E :=
    flat_map (fun en => match en with Reach e => [e] | _ => [] end) l.
  Definition intermediate (l : list entry) : list E :=
    flat_map (fun en => match en with Intermediate e => [e] | _ => [] end) l.
  Definition final (l : list entry) : list E :=
    flat_map (fun en => match en with Final e => [e] | _ => [] end) l.

  (** ** IteratedMapEvolver *)

  (** The calls made by [IteratedMapEvolver]: [decide(radius > maximum)],
      [split], and [apply_discrete_time_map_step]. *)
  Record map_ops := {
    m_too_large : E -> bool;
    m_split : E -> E * E;
    m_apply : E -> E
  }.

  (** IteratedMapEvolverConfiguration, iterated_map_evolver.cpp:196-201. *)
  Record map_config := { m_subdivisions : bool; m_termination : bool }.

  (** IteratedMapEvolver::_evolution and _evolution_step,
      iterated_map_evolver.cpp:107-193: the stack of working sets (its head is
      [working_sets.back()]), the time being an [Integer].  [None]: the loop has
      not emptied the stack within the fuel. *)
  Fixpoint map_evolution (fuel : nat) (o : map_ops) (c : map_config) (T : Z)
           (sem : semantics) (working : list (Z * E)) (lg : list entry)
    : option (list entry) :=
    match fuel with
    | O => None
    | S k =>
        match working with
        | [] => Some lg
        | (t, e) :: rest =>
            if (T <=? t)%Z then map_evolution k o c T sem rest (lg ++ [Final e])
            else if (match sem with UPPER => true | LOWER => false end)
                      && m_subdivisions c && m_too_large o e then
              let (e1, e2) := m_split o e in
              map_evolution k o c T sem ((t, e2) :: (t, e1) :: rest) lg
            else if (match sem with LOWER => true | UPPER => false end)
                      && m_termination c && m_too_large o e then
              map_evolution k o c T sem rest lg
            else
              let e' := m_apply o e in
              map_evolution k o c T sem (((t + 1)%Z, e') :: rest)
                            (lg ++ [Reach e'; Intermediate e'])
        end
    end.

  (** IteratedMapEvolver::orbit, iterated_map_evolver.cpp:86-105. *)
  Definition map_orbit (fuel : nat) (o : map_ops) (c : map_config) (T : Z)
             (sem : semantics) (initial : E) : option (list entry) :=
    map_evolution fuel o c T sem [(0%Z, initial)] [].
End Evolver.

Arguments ops : clear implicits.
Arguments task : clear implicits.
Arguments entry : clear implicits.
Arguments effect : clear implicits.
Arguments item : clear implicits.
Arguments state : clear implicits.
Arguments map_ops : clear implicits.
