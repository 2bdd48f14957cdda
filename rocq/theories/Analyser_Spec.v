(** Specification vocabulary for reachability analysis. *)
From Coq Require Import List Bool Reals QArith Qreals.
From Verif Require Import Evolver_Model Evolver_Spec Analyser_Model.
Import ListNotations.
Local Open Scope R_scope.

(** A deterministic dynamical system, in continuous or discrete time:
    [flows t x y] says that the trajectory starting at [x] is defined at time [t]
    and is then at [y]. *)
Record dynamics {X} (flows : R -> X -> X -> Prop) : Prop := {
  flows_nonneg : forall t x y, flows t x y -> 0 <= t;
  flows_start : forall x, flows 0 x x;
  flows_zero : forall x y, flows 0 x y -> y = x;
  flows_add : forall s t x y z, flows s x y -> flows t y z -> flows (s + t) x z;
  flows_shift : forall s t x y z, flows s x y -> flows t x z -> s <= t -> flows (t - s) y z
}.

(** The two kinds of system analysed: vector fields, through their flow, and
    iterated maps. *)
Definition flow_dynamics {X} (phi : R -> X -> X) (t : R) (x y : X) : Prop :=
  0 <= t /\ y = phi t x.
Definition map_dynamics {X} (f : X -> X) (t : R) (x y : X) : Prop :=
  exists n, t = INR n /\ y = iterate f n x.

Section Spec.
  Context {X E C : Type}.
  (** [cden c x]: the point [x] is in the (closed box of the) cell [c]. *)
  Variable cden : C -> X -> Prop.

  Definition in_cells (s : list C) (x : X) : Prop := exists c, In c s /\ cden c x.

  (** The cells equality test is correct. *)
  Definition cell_eq (ceqb : C -> C -> bool) : Prop := forall a b, ceqb a b = true <-> a = b.

  (** The orbit from each cell for the time [time] covers the trajectories of its
      points: from time 0 on ([strict = false], vector fields) or after time 0
      ([strict = true], iterated maps), until some time [t'] not before [time] at
      which they are in the final set. *)
  Definition orbit_covers (strict : bool) (flows : R -> X -> X -> Prop)
             (ev : evolver E C) (time : Q) : Prop :=
    forall c rs fs, orbit ev (enclosure ev c) time UPPER = Some (rs, fs) ->
    forall x, cden c x -> exists t' y,
      Q2R time <= t' /\ flows t' x y /\
      in_cells (flat_map (outer ev) fs) y /\
      forall s z, flows s x z -> (if strict then 0 < s else 0 <= s) -> s <= t' ->
        in_cells (flat_map (outer ev) rs) z.

  (** The stronger contract that the final sets are those at the time [time]. *)
  Definition orbit_exact (flows : R -> X -> X -> Prop) (ev : evolver E C) (time : Q) : Prop :=
    forall c rs fs, orbit ev (enclosure ev c) time UPPER = Some (rs, fs) ->
    forall x, cden c x -> exists y, flows (Q2R time) x y /\ in_cells (flat_map (outer ev) fs) y.

  (** [possibly(t>0)] is true for every positive time. *)
  Definition sound_test (cf : settings C) : Prop :=
    forall t, (0 < t)%Q -> maybe_positive cf t = true.

  (** The cells kept by restriction to the extent and to the bounding domain. *)
  Definition kept (cf : settings C) (c : C) : Prop :=
    in_extent cf c = true /\ (bounding cf = [] \/ In c (bounding cf)).

  (** Boxes of cells become enclosures containing them, and enclosures are
      covered by the cells of their outer approximations. *)
  Definition grid_sound (den : E -> X -> Prop) (ev : evolver E C) : Prop :=
    (forall c x, cden c x -> den (enclosure ev c) x) /\
    (forall e x, den e x -> in_cells (outer ev e) x).

  (** The orbits are those of the vector field evolver (under any schedule), or
      those of the iterated map evolver. *)
  Definition uses_flow_evolver (o : ops E) (c : config) (ev : evolver E C) : Prop :=
    forall e T rs fs, orbit ev e T UPPER = Some (rs, fs) ->
      exists l, returns o c T UPPER e l /\ rs = reach l /\ fs = final l.
  Definition uses_map_evolver (o : map_ops E) (c : map_config) (ev : evolver E C) : Prop :=
    forall e T rs fs, orbit ev e (inject_Z T) UPPER = Some (rs, fs) ->
      exists fuel l, map_orbit fuel o c T UPPER e = Some l /\ rs = reach l /\ fs = final l.
End Spec.
