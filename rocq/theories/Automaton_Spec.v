(** What the theorems about hybrid automata say. *)
From Coq Require Import List Bool Arith Reals Sorted.
From Verif Require Import Logical_Model Expr_Model Expr_Spec Automaton_Model.
Import ListNotations.

(** ** Locations *)
(** The keys of a map are in order, so each occurs once. *)
Definition wf_map {V} (m : nmap V) : Prop := StronglySorted (fun x y => (fst x < fst y)%nat) m.
(** Some variable has different values in the two locations. *)
Definition differ (q1 q2 : loc) : Prop := exists k v1 v2, In (k, v1) q1 /\ In (k, v2) q2 /\ v1 <> v2.
(** Every variable of [part] has the same value in [full]. *)
Definition within (part full : loc) : Prop := forall k v, In (k, v) part -> In (k, v) full.

Section SPEC.
Context {C : RealConst}.
Notation expr := (expr C).
Notation pred := (pred C).
Notation assignments := (list (nat * expr)).

(** ** Building *)
(** The locations a client passes to a call; they are maps. *)
Definition locations_of (b : @build C) : list loc :=
  match b with
  | NewMode l _ _ | NewInvariant l _ _ | NewGuard l _ _ _ | NewAction l _ _ _ _ => [l]
  | NewUpdate s _ t _ | NewTransition s _ t _ _ _ => [s; t]
  end.
Definition wf_build (b : @build C) : Prop := forall l, In l (locations_of b) -> wf_map l.

(** One automaton contains another: its modes have the same equations and all the constraints
    and transitions it has. *)
Definition mode_extends (m m' : @mode C) : Prop :=
  m_location m' = m_location m /\ m_auxiliary m' = m_auxiliary m /\ m_sorted m' = m_sorted m /\ m_dynamic m' = m_dynamic m /\
  incl (m_invariants m) (m_invariants m') /\ incl (m_guards m) (m_guards m') /\ incl (m_kinds m) (m_kinds m') /\
  incl (m_targets m) (m_targets m') /\ incl (m_resets m) (m_resets m').
Definition extends (a a' : @automaton C) : Prop := forall l m, In (l, m) a -> exists m', In (l, m') a' /\ mode_extends m m'.

(** What holds of each mode. *)
Definition defined_once {V} (m : nmap V) : Prop := NoDup (map fst m).
Definition mode_ok (a : @automaton C) (l : loc) (m : @mode C) : Prop :=
  m_location m = l /\
  NoDup (map fst (m_auxiliary m) ++ map fst (m_dynamic m)) /\
  algebraic_sort (m_auxiliary m) = Ok (m_sorted m) /\
  defined_once (m_invariants m) /\ defined_once (m_guards m) /\ defined_once (m_kinds m) /\
  defined_once (m_targets m) /\ defined_once (m_resets m) /\
  (forall e, In e (map fst (m_kinds m)) <-> In e (map fst (m_invariants m)) \/ In e (map fst (m_guards m))) /\
  (forall e, In e (map fst (m_targets m)) <-> In e (map fst (m_resets m))) /\
  (forall e t, In (e, t) (m_targets m) -> exists tm, In (t, tm) a /\
     forall r, In (e, r) (m_resets m) -> NoDup (map fst r) /\ forall v, In v (map fst r) -> ~ In v (map fst (m_auxiliary tm))).

(** ** Algebraic equations *)
Section VAL.
Variable val : C -> R.
(** A valuation in which every equation [v = s] holds. *)
Definition solves (rho : valuation) (eqs : assignments) : Prop := forall v s, In (v, s) eqs -> eval val rho s = Some (rho v).
(** Performing assignments in the order of the list. *)
Fixpoint perform (rho : valuation) (l : assignments) : option valuation :=
  match l with
  | [] => Some rho
  | (v, s) :: r => match eval val rho s with Some x => perform (upd rho v x) r | None => None end
  end.
(** Two valuations with the same values, apart from some variables. *)
Definition agree_except (vs : list nat) (rho sigma : valuation) : Prop := forall w, ~ In w vs -> sigma w = rho w.
Definition agree_on (vs : list nat) (rho sigma : valuation) : Prop := forall w, In w vs -> sigma w = rho w.

(** [f] computes at the values of its arguments in [rho] the value [x] of [v], at the place of
    [v] in the space [sp] of its results. *)
Definition gives (f : @fn C) (sp : list nat) (rho : valuation) (v : nat) (x : R) : Prop :=
  exists i e, nth_error sp i = Some v /\ nth_error (fn_components f) i = Some e /\
    forall sigma, agree_on (fn_space f) rho sigma -> eval val sigma e = Some x.
End VAL.

(** Each equation uses only variables defined by equations before it. *)
Definition ordered (eqs : assignments) : Prop :=
  forall p v s q, eqs = p ++ (v, s) :: q -> forall w, In w (arguments s) -> In w (map fst eqs) -> In w (map fst p).
(** Each equation uses only variables defined by equations after it. *)
Definition reverse_ordered (eqs : assignments) : Prop :=
  forall p v s q, eqs = p ++ (v, s) :: q -> forall w, In w (arguments s) -> In w (map fst eqs) -> In w (map fst q).
(** Some of the variables depend on each other in a circle: each of a nonempty set depends on
    another one of the set. *)
Definition circular (eqs : assignments) : Prop :=
  exists L, L <> [] /\ forall v, In v L -> exists s w, In (v, s) eqs /\ In w (arguments s) /\ In w L.

(** ** Reachability *)
Inductive reachable {A} (step : A -> A -> Prop) (init : A -> Prop) : A -> Prop :=
  | reach_init x : init x -> reachable step init x
  | reach_step x y : reachable step init x -> step x y -> reachable step init y.

(** ** Compositions *)
(** Different components have different discrete variables. *)
Definition loc_keys (a : @automaton C) (k : nat) : Prop := exists l m, In (l, m) a /\ In k (map fst l).
Definition independent (c : @composite C) : Prop :=
  forall i j a b k, nth_error c i = Some a -> nth_error c j = Some b -> i <> j -> loc_keys a k -> ~ loc_keys b k.
(** Automata which a client can build. *)
Definition built (a : @automaton C) : Prop := exists bs, (forall b, In b bs -> wf_build b) /\ a = build_all bs.
(** A constant predicate is TRUE or FALSE. *)
Definition plain (p : pred) : Prop := match p with KCst TRUE | KCst FALSE => True | KCst _ => False | _ => True end.
(** [f] has one component, whose value at the values of its arguments in [rho] is [x]. *)
Definition scalar_value (val : C -> R) (f : @fn C) (rho : valuation) (x : R) : Prop :=
  exists e, fn_components f = [e] /\ forall sigma, agree_on (fn_space f) rho sigma -> eval val sigma e = Some x.
(** [m] is the mode of an automaton in the location [l] of a whole system. *)
Definition mode_in (a : @automaton C) (l : loc) (m : @mode C) : Prop := exists l', In (l', m) a /\ within l' l.
(** Where a component goes: it stays unless it has a transition. *)
Definition part (m : @mode C) (e : nat) : loc := match nfind e (m_targets m) with Some t => t | None => m_location m end.
(** [e] is an event in the mode: it has an invariant, a guard or a transition. *)
Definition is_event (m : @mode C) (e : nat) : Prop := In e (map fst (m_invariants m)) \/ In e (map fst (m_guards m)) \/ In e (map fst (m_targets m)).
(** One transition of an automaton. *)
Definition jump (a : @automaton C) (l t : loc) : Prop := exists m e, mode_in a l m /\ In (e, t) (m_targets m).
(** One event of a composition: every component moves to its part of the new location, which
    has nothing else. *)
Definition c_jump (c : @composite C) (l t : loc) : Prop :=
  wf_map t /\ exists e, (exists a m, In a c /\ mode_in a l m /\ is_event m e) /\
    forall k v, In (k, v) t <-> exists a m, In a c /\ mode_in a l m /\ In (k, v) (part m e).
(** The constraints on the equations of a mode which check_mode is to check. *)
Definition uses_only (vars : list nat) (s : assignments) : Prop := forall v e, In (v, e) s -> incl (arguments e) vars.
Definition mentions_only (vars : list nat) (s : nmap pred) : Prop := forall e p, In (e, p) s -> incl (pred_arguments p) vars.
Definition well_specified (a : @automaton C) (m : @mode C) : Prop :=
  let vars := map fst (m_dynamic m) ++ map fst (m_auxiliary m) in
  uses_only vars (m_auxiliary m) /\ uses_only vars (m_dynamic m) /\ mentions_only vars (m_invariants m) /\ mentions_only vars (m_guards m) /\
  forall e r, In (e, r) (m_resets m) -> uses_only vars r /\
    exists t tm, In (e, t) (m_targets m) /\ mode_in a t tm /\ forall v, In v (map fst r) <-> In v (map fst (m_dynamic tm)).
(** The event has an urgent guard in the mode. *)
Definition urgent (m : @mode C) (e : nat) : Prop := In e (map fst (m_guards m)) /\ exists k, In (e, k) (m_kinds m) /\ (k = URGENT \/ k = IMPACT).
End SPEC.
