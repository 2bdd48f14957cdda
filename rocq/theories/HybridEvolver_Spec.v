(** Specification of the evolution of a hybrid system, and what is assumed of the numerical
    operations used to compute it. *)
From Coq Require Import List Bool Arith Reals.
From Coquelicot Require Import Coquelicot.
From Verif Require Import Automaton_Model Evolver_Model HybridEvolver_Model.
Import ListNotations.
Local Open Scope R_scope.

Section SPEC.
Context {L X : Type}.

(** ** The system: [flow] is the solution of a differential equation in each location, and
    [tr_lie], [tr_lie2] are the first and second derivatives of a guard along solutions. *)
Definition flow_ok (sys : system L X) : Prop :=
  (forall l x, flow sys l x 0 = x) /\
  (forall l x s d, flow sys l (flow sys l x s) d = flow sys l x (s + d)) /\
  (forall l tr, In tr (transitions sys l) -> forall x s,
     is_derive (fun s => tr_guard tr (flow sys l x s)) s (tr_lie tr (flow sys l x s)) /\
     is_derive (fun s => tr_lie tr (flow sys l x s)) s (tr_lie2 tr (flow sys l x s))).

(** The transitions of a location have different events. *)
Definition events_ok (sys : system L X) : Prop := forall l, NoDup (map tr_event (transitions sys l)).

(** ** Runs of a hybrid system *)
(** Continuous evolution for a time [d]: all guards of invariants, progress conditions, urgent
    transitions and impacts are at most zero throughout. *)
Definition evolves (sys : system L X) (l : L) (x : X) (d : R) : Prop :=
  0 <= d /\
  forall tr, In tr (transitions sys l) -> tr_kind tr <> PERMISSIVE -> forall s, 0 <= s <= d -> tr_guard tr (flow sys l x s) <= 0.
(** The kinds with which a transition is taken. *)
Definition jumps (k : kind) : Prop := k = PERMISSIVE \/ k = URGENT \/ k = IMPACT.
(** The invariants of a location hold. *)
Definition invariants_hold (sys : system L X) (l : L) (x : X) : Prop :=
  forall tr, In tr (transitions sys l) -> tr_kind tr = INVARIANT -> tr_guard tr x <= 0.
(** The discrete evolution goes on after these events. *)
Definition goes_on (c : termination) (evs : list nat) : Prop :=
  (length evs < maximum_steps c)%nat /\ forall e, In e (terminating_events c) -> forall evs', evs <> evs' ++ [e].

(** [passes_after_jump l evs x t p]: a run which starts, or arrives by a jump, in location [l]
    at state [x] and time [t] after events [evs] passes [p], which is a location, a list of
    events, a state and a time.
    [passes_in_flow l evs x t p]: a run which evolves continuously from there does. *)
Definition point : Type := L * list nat * X * R.
Inductive passes_after_jump (sys : system L X) (c : termination) : L -> list nat -> X -> R -> point -> Prop :=
  | arrives_flows : forall l evs x t p,
      t < maximum_time c -> goes_on c evs ->
      passes_in_flow sys c l evs x t p -> passes_after_jump sys c l evs x t p
  | arrives_active : forall l evs x t tr,
      t < maximum_time c -> goes_on c evs -> invariants_hold sys l x ->
      In tr (transitions sys l) -> tr_kind tr = PERMISSIVE \/ tr_kind tr = URGENT -> 0 <= tr_guard tr x ->
      passes_after_jump sys c l evs x t (l, evs, x, t)
  | arrives_jumps : forall l evs x t tr p,
      t < maximum_time c -> goes_on c evs -> invariants_hold sys l x ->
      In tr (transitions sys l) -> tr_kind tr = PERMISSIVE \/ tr_kind tr = URGENT -> 0 <= tr_guard tr x ->
      passes_after_jump sys c (tr_target tr) (evs ++ [tr_event tr]) (tr_reset tr x) t p ->
      passes_after_jump sys c l evs x t p
with passes_in_flow (sys : system L X) (c : termination) : L -> list nat -> X -> R -> point -> Prop :=
  | flows_to : forall l evs x t d,
      evolves sys l x d -> t + d <= maximum_time c -> passes_in_flow sys c l evs x t (l, evs, flow sys l x d, t + d)
  | flows_jumps : forall l evs x t d tr p,
      evolves sys l x d -> (0 < d \/ tr_kind tr = IMPACT) ->
      In tr (transitions sys l) -> jumps (tr_kind tr) ->
      0 <= tr_guard tr (flow sys l x d) -> (tr_kind tr = IMPACT -> 0 <= tr_lie tr (flow sys l x d)) ->
      passes_after_jump sys c (tr_target tr) (evs ++ [tr_event tr]) (tr_reset tr (flow sys l x d)) (t + d) p ->
      passes_in_flow sys c l evs x t p.

(** The other direction: [arrives init l evs x t] if a run from a state in [init] arrives by its
    last jump, or starts, in [l] at [x] and time [t] after events [evs]; and [visits init p] if it
    passes [p] from there without a further jump. *)
Inductive arrives (sys : system L X) (init : enclosure L X) : L -> list nat -> X -> R -> Prop :=
  | arrives_init : forall x t, e_set init x t -> arrives sys init (e_loc init) (e_events init) x t
  | arrives_again : forall l evs x t tr,
      arrives sys init l evs x t -> invariants_hold sys l x ->
      In tr (transitions sys l) -> tr_kind tr = PERMISSIVE \/ tr_kind tr = URGENT -> 0 <= tr_guard tr x ->
      arrives sys init (tr_target tr) (evs ++ [tr_event tr]) (tr_reset tr x) t
  | arrives_flow : forall l evs x t d tr,
      arrives sys init l evs x t -> evolves sys l x d ->
      In tr (transitions sys l) -> jumps (tr_kind tr) ->
      0 <= tr_guard tr (flow sys l x d) -> (tr_kind tr = IMPACT -> 0 <= tr_lie tr (flow sys l x d)) ->
      arrives sys init (tr_target tr) (evs ++ [tr_event tr]) (tr_reset tr (flow sys l x d)) (t + d).
Inductive visits (sys : system L X) (init : enclosure L X) : point -> Prop :=
  | visits_flow : forall l evs x t d, arrives sys init l evs x t -> evolves sys l x d -> visits sys init (l, evs, flow sys l x d, t + d)
  | visits_active : forall l evs x t tr,
      arrives sys init l evs x t -> invariants_hold sys l x ->
      In tr (transitions sys l) -> tr_kind tr = PERMISSIVE \/ tr_kind tr = URGENT -> 0 <= tr_guard tr x ->
      visits sys init (l, evs, x, t).

(** Systems in which guards which block the evolution are convex along solutions, and those of
    urgent transitions and impacts are also nondecreasing: for example those with linear
    guards and constant dynamics towards the guards. *)
Definition convex_guards (sys : system L X) : Prop :=
  forall l tr, In tr (transitions sys l) -> tr_kind tr <> PERMISSIVE -> forall x, 0 <= tr_lie2 tr x.
Definition increasing_guards (sys : system L X) : Prop :=
  forall l tr, In tr (transitions sys l) -> tr_kind tr = URGENT \/ tr_kind tr = IMPACT -> forall x, 0 <= tr_lie tr x.

(** Sets which may be put in an orbit: evolution stops with the last event, or at the maximum time. *)
Definition allowed (c : termination) (evs : list nat) : Prop := forall evs' e r, evs = evs' ++ e :: r -> goes_on c evs'.
Definition entry_set (en : entry L X) : enclosure L X := match en with Reach A | Intermediate A | Final A => A end.
Definition entry_ok (sys : system L X) (c : termination) (en : entry L X) : Prop :=
  let S := entry_set en in
  allowed c (e_events S) /\ (forall x t, e_set S x t -> t <= maximum_time c) /\ match en with
  | Final _ => (~ goes_on c (e_events S) /\ forall x t, e_set S x t -> invariants_hold sys (e_loc S) x) \/
               (forall x t, e_set S x t -> t = maximum_time c)
  | _ => True
  end.

(** A point is in a set of the orbit. *)
Definition point_in (p : point) (S : enclosure L X) : Prop :=
  match p with (l, evs, x, t) => e_loc S = l /\ e_events S = evs /\ e_set S x t end.

(** ** Soundness of the numerical operations *)
Definition in_range (r : option (R * R)) (v : R) : Prop := match r with Some (lo, hi) => lo <= v <= hi | None => True end.
Record sound (sys : system L X) (o : oracles L X) : Prop := mkSound {
  (** A set which is reported to be empty is. *)
  empty_sound : forall P : pset X, surely_empty o P = true -> forall x t d, ~ P x t d;
  (** Ranges contain the values. *)
  time_sound : forall (P : pset X) x t d, P x t d -> in_range (time_range o P) (t + d);
  value_sound : forall S h f x t d, e_set S x t -> 0 <= d <= h -> in_range (value_range o S h f) (f (flow sys (e_loc S) x d));
  function_sound : forall S f x t, e_set S x t -> in_range (function_range o S f) (f x);
  (** The implicit function is the only solution in the time domain. *)
  implicit_sound : forall S f h gamma x t, implicit o S f h = Some gamma -> e_set S x t ->
    0 <= gamma x <= h /\ f x (gamma x) = 0 /\ forall s, 0 <= s <= h -> f x s = 0 -> s = gamma x;
  step_positive : forall S h, flow_step o S = Some h -> 0 < h;
  (** Reconditioning and splitting lose no point. *)
  recondition_sound : forall S x t, e_set S x t -> recondition o S x t;
  split_sound : forall S x t, e_set S x t -> exists P, In P (split_set o S) /\ P x t }.

(** ** What a crossing kind means: [u] is the guard along a trajectory, [du], [ddu] its
    derivatives *)
Definition crossing_ok (c : crossing X) (h : R) (x : X) (u du ddu : R -> R) : Prop :=
  match c with
  | Transverse gamma =>
      0 <= gamma x /\ u (gamma x) = 0 /\
      (u 0 <= 0 -> forall s, 0 <= s <= h ->
         (s < gamma x -> u s < 0) /\ (gamma x < s -> exists r, 0 <= r <= s /\ 0 < u r))
  | Increasing => forall s, 0 <= s <= h -> 0 < du s
  | Decreasing => forall s, 0 <= s <= h -> du s < 0
  | Convex => forall s, 0 <= s <= h -> 0 < ddu s
  | Concave => forall s, 0 <= s <= h -> ddu s < 0
  | Grazing mu positive =>
      (forall s, 0 <= s <= h -> ddu s < 0) /\ 0 <= mu x <= h /\ du (mu x) = 0 /\ (positive = true -> 0 < u (mu x))
  | Degenerate => True
  end.
End SPEC.
