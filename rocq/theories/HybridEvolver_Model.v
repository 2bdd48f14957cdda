(** Model of the evolver of hybrid systems: hybrid/hybrid_evolver.cpp.

    What is modelled: which sets are computed from a set of initial states by one call of
    [_process_working_set], with every constraint which is put on them and every case
    distinction on the kind of an event, the kind of a crossing, the timing of the step and
    the termination criterion; and the workload which runs these calls.

    Simplifications:
    - A set of states is the predicate [state -> time -> Prop] of its elements, and a set
      made by a flow step is the predicate [start state -> start time -> elapsed time -> Prop]
      ([pset]).  Enclosures are taken to be exact: the errors of their function models, which
      only enlarge the sets, are not modelled.
    - Numerical results about sets are given by [oracles], of which only their soundness is
      assumed (HybridEvolver_Spec.v): tests for emptiness, ranges of functions on a set or
      on its flow, the implicit function solver, the step size of the integrator, splitting and
      reconditioning.  A range [None] is an unbounded one.
    - The flow is the exact solution of the differential equation, and the Lie derivatives of
      a guard are given with the guard.
    - The final time is exactly representable.
    - An exception, a failed assertion or an undefined behaviour is [None].
    - CrossingKind::POSITIVE and NEGATIVE are not there: nothing constructs them. *)
From Coq Require Import List Bool Arith Reals.
From Verif Require Import Automaton_Model Evolver_Model.
Import ListNotations.
Local Open Scope R_scope.

Definition Rltb (x y : R) : bool := if Rlt_dec x y then true else false.
Definition Rleb (x y : R) : bool := if Rle_dec x y then true else false.

Section HYBRID.
Context {L X : Type}.

(** ** The system: TransitionData, hybrid_evolver.hpp:504-516, hybrid_evolver.cpp:411-449 *)
Record transition := mkTransition {
  tr_event : nat;
  tr_kind : kind;
  tr_guard : X -> R;          (* guard_function *)
  tr_lie : X -> R;            (* lie_derivative(guard,dynamic) *)
  tr_lie2 : X -> R;           (* the Lie derivative of that *)
  tr_target : L;
  tr_reset : X -> X }.
Record system := mkSystem {
  flow : L -> X -> R -> X;
  transitions : L -> list transition }.

(** hybrid_evolver.cpp:172-197 *)
Definition is_blocking (k : kind) : bool := match k with INVARIANT | PROGRESS | URGENT | IMPACT => true | PERMISSIVE => false end.
Definition is_activating (k : kind) : bool := match k with PERMISSIVE | URGENT | IMPACT => true | INVARIANT | PROGRESS => false end.

(** hybrid_enclosure.hpp: location, previous events and set of (state,time) *)
Record enclosure := mkEnclosure { e_loc : L; e_events : list nat; e_set : X -> R -> Prop }.
Definition pset := X -> R -> R -> Prop.
(** An enclosure which has not been flowed. *)
Definition lift (P : X -> R -> Prop) : pset := fun x t d => d = 0 /\ P x t.
Definition with_set (S : enclosure) (P : X -> R -> Prop) : enclosure := mkEnclosure (e_loc S) (e_events S) P.

Record oracles := mkOracles {
  surely_empty : pset -> bool;                                 (* definitely(set.is_empty()) *)
  time_range : pset -> option (R * R);                         (* set.time_range() *)
  value_range : enclosure -> R -> (X -> R) -> option (R * R);  (* apply(f,flow_bounds) *)
  function_range : enclosure -> (X -> R) -> option (R * R);    (* range of a function of the starting state *)
  implicit : enclosure -> (X -> R -> R) -> R -> option (X -> R); (* solver.implicit(f,domain,[0,h]) *)
  flow_step : enclosure -> option R;                           (* _compute_flow *)
  large_errors : enclosure -> bool;
  too_large : enclosure -> bool;
  recondition : enclosure -> X -> R -> Prop;
  split_set : enclosure -> list (X -> R -> Prop) }.

Definition lower_above (b : R -> bool) (r : option (R * R)) : bool := match r with Some (lo, _) => b lo | None => false end.
Definition upper_below (b : R -> bool) (r : option (R * R)) : bool := match r with Some (_, hi) => b hi | None => false end.

Variable sys : system.
Variable o : oracles.
Notation empty := (surely_empty o).

(** ** _apply_invariants, _process_starting_events: hybrid_evolver.cpp:451-532 *)
(** possibly(set.satisfies(g>=0)): enclosure.cpp:561-571 *)
Definition possibly_active (P : X -> R -> Prop) (g : X -> R) : bool := negb (empty (lift (fun x t => P x t /\ 0 <= g x))).
Definition apply_invariants (trs : list transition) (P : X -> R -> Prop) : X -> R -> Prop :=
  fold_left (fun P tr =>
    match tr_kind tr with
    | INVARIANT => if possibly_active P (tr_guard tr) then (fun x t => P x t /\ tr_guard tr x <= 0) else P
    | _ => P
    end) trs P.

(** What is put in the orbit, orbit_core.hpp, or in the workload: with the flag [true] if the
    set has just jumped. *)
Inductive entry := Reach (S : enclosure) | Intermediate (S : enclosure) | Final (S : enclosure).
Inductive effect := Record_ (e : entry) | Append (S : enclosure) (jumped : bool).

(** hybrid_enclosure.cpp: apply_reset *)
Definition reset_points (tr : transition) (S : enclosure) (P : X -> R -> Prop) : enclosure :=
  mkEnclosure (tr_target tr) (e_events S ++ [tr_event tr]) (fun y t => exists x, P x t /\ y = tr_reset tr x).

Definition starting_jump (S : enclosure) (inv : X -> R -> Prop) (tr : transition) : list effect :=
  match tr_kind tr with
  | URGENT | PERMISSIVE =>
    if possibly_active (e_set S) (tr_guard tr) then
      let jump := fun x t => inv x t /\ 0 <= tr_guard tr x in
      if empty (lift jump) then []
      else [Record_ (Reach (with_set S jump)); Record_ (Intermediate (reset_points tr S jump)); Append (reset_points tr S jump) true]
    else []
  | INVARIANT | PROGRESS | IMPACT => []
  end.
Definition starting_flowable (S : enclosure) (P : X -> R -> Prop) (tr : transition) : X -> R -> Prop :=
  match tr_kind tr with
  | URGENT | PROGRESS => if possibly_active (e_set S) (tr_guard tr) then (fun x t => P x t /\ tr_guard tr x <= 0) else P
  | INVARIANT | IMPACT | PERMISSIVE => P
  end.
Definition process_starting_events (S : enclosure) : list effect :=
  let trs := transitions sys (e_loc S) in
  let inv := apply_invariants trs (e_set S) in
  let flowable := fold_left (starting_flowable S) trs inv in
  concat (map (starting_jump S inv) trs) ++ (if empty (lift flowable) then [] else [Append (with_set S flowable) false]).

(** ** _process_jumped_set: hybrid_evolver.cpp:1125-1180 *)
Record termination := mkTermination { maximum_time : R; maximum_steps : nat; terminating_events : list nat }.
Definition terminated (c : termination) (evs : list nat) : bool :=
  Nat.leb (maximum_steps c) (length evs) ||
  match rev evs with [] => false | e :: _ => existsb (Nat.eqb e) (terminating_events c) end.
Definition process_jumped_set (c : termination) (S : enclosure) : list effect :=
  if lower_above (fun lo => Rleb (maximum_time c) lo) (time_range o (lift (e_set S))) then []
  else if terminated c (e_events S) then
    [Record_ (Final (with_set S (apply_invariants (transitions sys (e_loc S)) (e_set S))))]
  else process_starting_events S.

(** ** _compute_active_events: hybrid_evolver.cpp:564-602 *)
Section STEP.
Variable S : enclosure.     (* starting_set *)
Variable h : R.             (* the step size of the flow *)
Definition phi (x : X) (d : R) : X := flow sys (e_loc S) x d.

(** enclosure.cpp: apply_full_reach_step *)
Definition full_reach : pset := fun x t d => e_set S x t /\ 0 <= d <= h.
Definition compute_active_events : list transition :=
  filter (fun tr => negb (upper_below (fun hi => Rltb hi 0) (value_range o S h (tr_guard tr))) &&
                    negb (empty (fun x t d => full_reach x t d /\ 0 <= tr_guard tr (phi x d))))
    (transitions sys (e_loc S)).

(** ** _compute_crossings: hybrid_evolver.cpp:604-810 *)
(** CrossingData, hybrid_evolver.hpp:518-537; [positive] is guard_range_at_critical_time>0 *)
Inductive crossing :=
  | Transverse (crossing_time : X -> R)
  | Increasing | Decreasing | Convex | Concave | Degenerate
  | Grazing (critical_time : X -> R) (positive : bool).
Inductive classified := Crossing (c : crossing) | Erased.
Definition classify (tr : transition) : classified :=
  let dg := value_range o S h (tr_lie tr) in
  let guard_flow := fun x t => tr_guard tr (phi x t) in
  if lower_above (fun lo => Rltb 0 lo) dg then
    match implicit o S guard_flow h with Some gamma => Crossing (Transverse gamma) | None => Crossing Increasing end
  else if upper_below (fun hi => Rltb hi 0) dg then Crossing Decreasing
  else
    let ddg := value_range o S h (tr_lie2 tr) in
    if lower_above (fun lo => Rltb 0 lo) ddg then Crossing Convex
    else if upper_below (fun hi => Rltb hi 0) ddg then
      match implicit o S (fun x t => tr_lie tr (phi x t)) h with
      | None => Crossing Concave
      | Some mu =>
        let range := function_range o S (fun x => guard_flow x (mu x)) in
        if upper_below (fun hi => Rltb hi 0) range then Erased
        else if lower_above (fun lo => Rltb 0 lo) range then
          match function_range o S mu with
          | None => Crossing (Grazing mu true)
          | Some (_, mu_max) =>
            match implicit o S guard_flow (15/16 * mu_max) with
            | Some gamma => Crossing (Transverse gamma)
            | None => Crossing (Grazing mu true)
            end
          end
        else Crossing (Grazing mu false)
      end
    else Crossing Degenerate.
(** The loop over [active_events].  When a crossing is found impossible, the current element
    is erased from the set over which the loop iterates (line 747), so that the increment of
    the iterator is undefined. *)
Fixpoint compute_crossings (active : list transition) : option (list (transition * crossing)) :=
  match active with
  | [] => Some []
  | tr :: r =>
    match classify tr with
    | Erased => None
    | Crossing c => match compute_crossings r with Some cs => Some ((tr, c) :: cs) | None => None end
    end
  end.

(** ** GeneralHybridEvolver::_estimate_timing: hybrid_evolver.cpp:1616-1955 *)
Inductive finishing := AT_FINAL_TIME | BEFORE_FINAL_TIME | STRADDLE_FINAL_TIME.
(** [t_evolution] is parameter_dependent_evolution_time as a function of the starting state
    and time; [t_constant] is step_kind==CONSTANT_EVOLUTION_TIME *)
Record timing := mkTiming { t_evolution : X -> R -> R; t_constant : bool; t_finishing : finishing }.
Record config := mkConfig { enable_reconditioning : bool; enable_subdivisions : bool; allow_creep : bool; allow_unwind : bool }.

(** The loop halving [sf], lines 1699-1700; the fuel [up (upper/h)] is enough *)
Fixpoint halve (fuel : nat) (upper sf : R) : R :=
  match fuel with
  | O => sf
  | Datatypes.S f => if Rltb h (upper * sf) then halve f upper (sf / 2) else sf
  end.
(** Lines 1661-1707: temporal_evolution_time, whether the step is constant, the finishing kind;
    [tl], [tu] are the bounds of the starting time *)
Definition temporal (creep : bool) (T tl tu : R) : (R -> R) * bool * finishing :=
  let lower := T - tu in let upper := T - tl in
  if Rltb lower 0 then
    if Rleb upper h then (fun t => T - t, false, AT_FINAL_TIME) else (fun _ => h, true, STRADDLE_FINAL_TIME)
  else if Rleb upper h then (fun t => T - t, false, AT_FINAL_TIME)
  else if Rleb lower h && creep then
    (fun t => halve (Z.to_nat (up (upper / h))) upper 1 * (T - t), false, BEFORE_FINAL_TIME)
  else (fun _ => h, true, BEFORE_FINAL_TIME).
(** Lines 1721-1779: is a creep step needed?  [P] is the evolve_set of these lines. *)
Fixpoint creep_test (cs : list (transition * crossing)) (P : pset) (creep : bool) : pset * bool :=
  match cs with
  | [] => (P, creep)
  | (tr, c) :: r =>
    match tr_kind tr with
    | PERMISSIVE => creep_test r P creep
    | _ =>
      let P' := fun x t d => P x t d /\ tr_guard tr (phi x d) <= 0 in
      match c with
      | Transverse gamma =>
        let range := function_range o S gamma in
        if upper_below (fun hi => Rltb hi h) range then (P', false)
        else if negb (lower_above (fun lo => Rltb 0 lo) range) then (P', false)
        else if lower_above (fun lo => Rleb h lo) range then creep_test r P' creep
        else creep_test r P' true
      | _ => creep_test r P' creep
      end
    end
  end.
Definition wants_creep (cs : list (transition * crossing)) : bool :=
  let (P, creep) := creep_test cs (fun x t d => e_set S x t /\ d = h) false in
  if empty P then false else creep.
(** Lines 1820-1916: the factor of the evolution time and the crossings which remain *)
Fixpoint guard_creep (cs : list (transition * crossing)) (spacial : X -> R) : option ((X -> R) * list (transition * crossing)) :=
  match cs with
  | [] => Some (spacial, [])
  | (tr, c) :: r =>
    let keep := match guard_creep r spacial with Some (s, cs') => Some (s, (tr, c) :: cs') | None => None end in
    match tr_kind tr with
    | PERMISSIVE => keep
    | _ =>
      match value_range o S h (tr_guard tr), value_range o S h (tr_lie tr) with
      | Some (glo, _), Some (dlo, _) =>
        if Rltb glo 0 then
          let alpha := 1 + h * dlo / glo in
          if Rltb 0 alpha && Rleb alpha 1 then
            match implicit o S (fun x t => tr_guard tr (phi x t) - alpha * tr_guard tr x) h with
            | Some ct => guard_creep r (fun x => spacial x * (ct x / h))
            | None => keep
            end
          else keep
        else None
      | _, _ => None
      end
    end
  end.
(** Lines 1929-1952 *)
Definition unwound (tl tu : R) : R -> R :=
  if Rltb ((tu - tl) * 2) h then (fun t => tl + h - t)
  else let a := 1 - (h / 2) / (tu - tl) in let b := h * (tu - tl / 2) / (tu - tl) in (fun t => a * t + b - t).
Definition estimate_timing (cfg : config) (T : R) (cs : list (transition * crossing)) : option (timing * list (transition * crossing)) :=
  match time_range o (lift (e_set S)) with
  | None => None
  | Some (tl, tu) =>
    match temporal (allow_creep cfg) T tl tu with
    | (temp, constant, fin) =>
      let crept :=
        if allow_creep cfg && negb (match cs with [] => true | _ => false end) &&
           match fin with AT_FINAL_TIME => false | _ => true end && wants_creep cs
        then match guard_creep cs (fun _ => h * (15/16)) with
             | None => None
             | Some (sp, cs') => Some (sp, false, BEFORE_FINAL_TIME, cs')
             end
        else Some ((fun _ => h), constant, fin, cs) in
      match crept with
      | None => None
      | Some (sp, constant', fin', cs') =>
        if allow_unwind cfg && match cs' with [] => true | _ => false end && Rltb tl tu && constant' &&
           match fin' with BEFORE_FINAL_TIME => true | _ => false end
        then Some (mkTiming (fun _ t => unwound tl tu t) false BEFORE_FINAL_TIME, cs')
        else Some (mkTiming (fun x t => sp x * (temp t / h)) constant' fin', cs')
      end
    end
  end.

(** ** _apply_guard: hybrid_evolver.cpp:974-1123 *)
Variable sem : semantics.
Definition constrain (P c : pset) : pset := fun x t d => P x t d /\ c x t d.
(** The body of the loop: what becomes of the set, and the sets appended to [sets]. *)
Definition guard_set (g : X -> R) (c : crossing) (P : pset) : pset * list pset :=
  match c with
  | Transverse gamma => (constrain P (fun x t d => d <= gamma x), [])
  | Convex | Increasing => (constrain P (fun x t d => g (phi x d) <= 0), [])
  | Grazing mu positive =>
    let maximal := fun x => g (phi x (mu x)) in
    let hits := constrain (constrain P (fun x t d => d <= mu x)) (fun x t d => 0 <= maximal x) in
    if empty hits then (P, [])
    else
      let returning := constrain (constrain P (fun x t d => mu x <= d)) (fun x t d => g (phi x d) <= 0) in
      if empty returning then (constrain P (fun x t d => g (phi x d) <= 0), [])
      else
        let missing := constrain P (fun x t d => maximal x <= 0) in
        let hitting := constrain (constrain (constrain P (fun x t d => 0 <= maximal x)) (fun x t d => d <= mu x))
                         (fun x t d => g (phi x d) <= 0) in
        let past := constrain (constrain P (fun x t d => 0 <= maximal x)) (fun x t d => mu x <= 0) in
        let past' := if empty past then [] else [past] in
        if positive || empty missing then (hitting, past')
        else (missing, (if empty hitting then [] else [hitting]) ++ past')
  | Degenerate | Concave =>
    match sem with
    | UPPER => (constrain (constrain P (fun x t d => g (phi x (1/2 * d)) <= 0)) (fun x t d => g (phi x (1 * d)) <= 0), [])
    | LOWER => (constrain P (fun x t d => 1 <= 0), [])
    end
  | Decreasing => (P, [])
  end.
(** The loop over a vector [sets] with room for [cap] elements.  An [append] beyond that moves
    the elements to new storage of twice the size (container.hpp:86, libstdc++), after which
    going on with the old iterator to a further element is undefined. *)
Definition grown (cap size : nat) : nat := if Nat.leb size cap then cap else if Nat.leb size (2 * cap) then (2 * cap)%nat else (4 * cap)%nat.
Fixpoint guard_loop (g : X -> R) (c : crossing) (todo done extra : list pset) (cap : nat) : option (nat * list pset) :=
  match todo with
  | [] => Some (cap, done ++ extra)
  | P :: rest =>
    let (P', new) := guard_set g c P in
    let size := (length done + 1 + length rest + length extra + length new)%nat in
    if negb (Nat.leb size cap) && negb (match rest with [] => true | _ => false end) then None
    else guard_loop g c rest (done ++ [P']) (extra ++ new) (grown cap size)
  end.
Definition apply_guard (tc : transition * crossing) (sets : nat * list pset) : option (nat * list pset) :=
  guard_loop (tr_guard (fst tc)) (snd tc) (snd sets) [] [] (fst sets).
Definition apply_guards (tcs : list (transition * crossing)) (sets : nat * list pset) : option (nat * list pset) :=
  fold_left (fun r tc => match r with Some s => apply_guard tc s | None => None end) tcs (Some sets).

(** ** _apply_guard_step: hybrid_evolver.cpp:859-967 *)
Variable tm : timing.
Variable T : R.
(** enclosure.cpp: apply_parameter_reach_step, apply_parameter_evolve_step *)
Definition reach_set : pset := fun x t d => e_set S x t /\ 0 <= d <= h /\ d <= t_evolution tm x t.
Definition evolve_set : pset := fun x t d => e_set S x t /\ d = t_evolution tm x t.
(** The boolean tells whether [jump_step_time] is a function of the parameters of the set; if
    not, line 1002 fails. The test of line 894 whether the crossing may be after the end of
    the step is taken to be [true]: when it is [false] the constraint holds anyway. *)
Definition guard_step (tr : transition) (c : crossing) : pset * bool :=
  let g := tr_guard tr in
  match tr_kind tr with
  | PERMISSIVE => (constrain reach_set (fun x t d => 0 <= g (phi x d)), true)
  | _ =>
    let js :=
      match c with
      | Transverse gamma =>
        ((fun x t d => e_set S x t /\ d = gamma x /\ (if t_constant tm then True else d <= t_evolution tm x t)), true)
      | Increasing | Convex => (constrain reach_set (fun x t d => g (phi x d) = 0), true)
      | Grazing _ _ | Concave =>
        (constrain (constrain reach_set (fun x t d => g (phi x d) = 0)) (fun x t d => - tr_lie tr (phi x d) <= 0), true)
      | Degenerate =>
        match sem with
        | UPPER => (constrain (constrain reach_set (fun x t d => g (phi x d) = 0)) (fun x t d => - tr_lie tr (phi x d) <= 0), true)
        | LOWER => (lift (fun x t => e_set S x t /\ g x * 0 + 1 <= 0), false)
        end
      | Decreasing => (lift (e_set S), false)
      end in
    match tr_kind tr with
    | IMPACT => (constrain (fst js) (fun x t d => 0 <= tr_lie tr (phi x d)), snd js)
    | _ => js
    end
  end.

(** ** _apply_evolution_step: hybrid_evolver.cpp:1297-1538 *)
(** The enclosure of the states reached in a set. *)
Definition enclosure_of (P : pset) : enclosure :=
  with_set S (fun y s => exists x t d, P x t d /\ y = phi x d /\ s = t + d).
Definition reset_enclosure (tr : transition) (P : pset) : enclosure :=
  mkEnclosure (tr_target tr) (e_events S ++ [tr_event tr])
    (fun y s => exists x t d, P x t d /\ y = tr_reset tr (phi x d) /\ s = t + d).
Definition bound_time (P : pset) : pset := constrain P (fun x t d => t + d <= T).
Definition set_time (P : pset) : pset := constrain P (fun x t d => t + d = T).
Definition surely_by (P : pset) : bool := upper_below (fun hi => Rleb hi T) (time_range o P).
Definition surely_after (P : pset) : bool := lower_above (fun lo => Rltb T lo) (time_range o P).

Definition delayed (c : crossing) : bool := match c with Increasing | Transverse _ => true | _ => false end.
Definition evolve_effects (evolve_next : pset * pset) : list effect :=
  let (P, next) := evolve_next in
  if surely_after P then []
  else let P' := if surely_by P then P else bound_time P in
       if empty P' then [] else [Append (enclosure_of next) false; Record_ (Intermediate (enclosure_of P'))].
Definition reach_effects (P : pset) : list effect :=
  (if surely_by P then []
   else match t_finishing tm with
        | BEFORE_FINAL_TIME => []
        | _ => if empty (set_time P) then [] else [Record_ (Final (enclosure_of (set_time P)))]
        end) ++
  [Record_ (Reach (enclosure_of (bound_time P)))].
Definition finishing_effects (evolve next reach : list pset) : list effect :=
  match t_finishing tm with
  | AT_FINAL_TIME =>
    concat (map (fun P => if empty P then [] else [Record_ (Final (enclosure_of P))]) evolve) ++
    map (fun P => Record_ (Reach (enclosure_of P))) reach
  | _ => concat (map evolve_effects (combine evolve next)) ++ concat (map reach_effects reach)
  end.
Definition jump_effects (blocking : list (transition * crossing)) (tc : transition * crossing) : option (list effect) :=
  let (P, ok) := guard_step (fst tc) (snd tc) in
  let P' := if surely_by P then P else bound_time P in
  let others := filter (fun tc' => negb (Nat.eqb (tr_event (fst tc')) (tr_event (fst tc)))) blocking in
  match (if ok then apply_guards others (1%nat, [P'])
         else match others with [] => Some (1%nat, [P']) | _ => None end) with
  | None => None
  | Some (_, sets) => Some (concat (map (fun J => if empty J then [] else [Append (reset_enclosure (fst tc) J) true]) sets))
  end.
Fixpoint all_effects (rs : list (option (list effect))) : option (list effect) :=
  match rs with
  | [] => Some []
  | Some es :: r => match all_effects r with Some es' => Some (es ++ es') | None => None end
  | None :: _ => None
  end.
Definition apply_evolution_step (cs : list (transition * crossing)) : option (list effect) :=
  let activating := filter (fun tc => is_activating (tr_kind (fst tc))) cs in
  let blocking := filter (fun tc => is_blocking (tr_kind (fst tc))) cs in
  match apply_guards blocking (1%nat, [reach_set]),
        apply_guards (filter (fun tc => negb (delayed (snd tc))) blocking) (1%nat, [evolve_set]) with
  | Some (_, reach), Some (cap, next) =>
    match apply_guards (filter (fun tc => delayed (snd tc)) blocking) (cap, next) with
    | None => None
    | Some (_, evolve) => all_effects (Some (finishing_effects evolve next reach) :: map (jump_effects blocking) activating)
    end
  | _, _ => None
  end.
End STEP.

(** ** _evolution_step: hybrid_evolver.cpp:1200-1294 *)
Definition evolution_step (cfg : config) (T : R) (sem : semantics) (S : enclosure) : option (list effect) :=
  if empty (lift (e_set S)) then Some []
  else if lower_above (fun lo => Rleb T lo) (time_range o (lift (e_set S))) then Some []
  else if enable_reconditioning cfg && large_errors o S then Some [Append (with_set S (recondition o S)) false]
  else if too_large o S && match sem with LOWER => true | UPPER => false end then Some []
  else if too_large o S && enable_subdivisions cfg then
    Some (concat (map (fun P => if empty (lift P) then [] else [Append (with_set S P) false]) (split_set o S)))
  else
    match flow_step o S with
    | None => None
    | Some h =>
      match compute_crossings S h (compute_active_events S h) with
      | None => None
      | Some cs =>
        match estimate_timing S h cfg T cs with
        | None => None
        | Some (tm, cs') => apply_evolution_step S h sem tm T cs'
        end
      end
    end.

(** ** _process_working_set: hybrid_evolver.cpp:1182-1198 *)
Definition process (cfg : config) (c : termination) (sem : semantics) (w : enclosure * bool) : option (list effect) :=
  if snd w then Some (process_jumped_set c (fst w)) else evolution_step cfg (maximum_time c) sem (fst w).

(** ** orbit, hybrid_evolver.cpp:231-290: the workload *)
(** The threads of the workload take waiting sets in any order, each performing its effects
    one after the other, and these are interleaved in any way. *)
Inductive item := Waiting (w : enclosure * bool) | Running (es : list effect).
Record state := mkState { items : list item; log : list entry }.
Inductive step (cfg : config) (c : termination) (sem : semantics) : state -> state -> Prop :=
  | step_take : forall b1 b2 lg w es, process cfg c sem w = Some es ->
      step cfg c sem (mkState (b1 ++ Waiting w :: b2) lg) (mkState (b1 ++ Running es :: b2) lg)
  | step_record : forall b1 b2 lg en l,
      step cfg c sem (mkState (b1 ++ Running (Record_ en :: l) :: b2) lg) (mkState (b1 ++ Running l :: b2) (lg ++ [en]))
  | step_append : forall b1 b2 lg S j l,
      step cfg c sem (mkState (b1 ++ Running (Append S j :: l) :: b2) lg) (mkState (b1 ++ Running l :: b2 ++ [Waiting (S, j)]) lg)
  | step_end : forall b1 b2 lg,
      step cfg c sem (mkState (b1 ++ Running [] :: b2) lg) (mkState (b1 ++ b2) lg).
Inductive steps (cfg : config) (c : termination) (sem : semantics) : state -> state -> Prop :=
  | steps_0 : forall s, steps cfg c sem s s
  | steps_S : forall s s' s'', step cfg c sem s s' -> steps cfg c sem s' s'' -> steps cfg c sem s s''.
(** The orbit returned from an initial set, which is put in the workload as a jumped set. *)
Definition orbit (cfg : config) (c : termination) (sem : semantics) (initial : enclosure) (lg : list entry) : Prop :=
  steps cfg c sem (mkState [Waiting (initial, true)] []) (mkState [] lg).
End HYBRID.
Arguments transition : clear implicits. Arguments system : clear implicits. Arguments enclosure : clear implicits.
Arguments oracles : clear implicits. Arguments crossing : clear implicits. Arguments entry : clear implicits.
Arguments effect : clear implicits. Arguments timing : clear implicits. Arguments state : clear implicits.
Arguments pset : clear implicits. Arguments item : clear implicits.
