(** Specification vocabulary for the evolvers: autonomous flows, what it means
    for the operations on enclosures to be rigorous, and what an orbit covers. *)
From Coq Require Import List Reals QArith Qreals.
From Verif Require Import Evolver_Model.
Import ListNotations.
Local Open Scope R_scope.

Section Spec.
  Context {X E : Type}.

  (** [phi t x] is the state at time [t] of the solution starting at [x]. *)
  Record is_flow (phi : R -> X -> X) : Prop := {
    flow_0 : forall x, phi 0 x = x;
    flow_add : forall s t x, 0 <= s -> 0 <= t -> phi (s + t) x = phi t (phi s x)
  }.

  (** [den e x]: the point [x] belongs to the set represented by [e]. *)
  Variable den : E -> X -> Prop.

  Definition covered (l : list E) (x : X) : Prop := exists e, In e l /\ den e x.

  (** The operations are rigorous for the flow [phi]. *)
  Record rigorous (phi : R -> X -> X) (o : ops E) : Prop := {
    split_covers : forall e x, den e x ->
      den (fst (split o e)) x \/ den (snd (split o e)) x;
    surely_empty_sound : forall e x, surely_empty o e = true -> ~ den e x;
    recondition_covers : forall e x, den e x -> den (recondition o e) x;
    flow_covers : forall e h r n, flow o e = Some (h, (r, n)) ->
      0 < Q2R h /\
      (forall x, den e x -> den n (phi (Q2R h) x)) /\
      (forall x s, den e x -> 0 <= s <= Q2R h -> den r (phi s x));
    surely_reached_sound : forall t T, surely_reached o t T = true -> (T <= t)%Q
  }.

  (** The set operations used by the iterated-map evolver are rigorous for [f]. *)
  Record map_rigorous (f : X -> X) (o : map_ops E) : Prop := {
    m_split_covers : forall e x, den e x ->
      den (fst (m_split o e)) x \/ den (snd (m_split o e)) x;
    m_apply_covers : forall e x, den e x -> den (m_apply o e) (f x)
  }.
End Spec.

(** The set of an orbit entry. *)
Definition entry_set {E} (en : entry E) : E :=
  match en with Reach e => e | Intermediate e => e | Final e => e end.

(** [f] iterated [n] times. *)
Fixpoint iterate {X} (f : X -> X) (n : nat) (x : X) : X :=
  match n with O => x | S k => iterate f k (f x) end.

(** The progress conditions under which an evolution can be expected to end:
    steps do not become arbitrarily small, the integrator does not give up,
    reconditioning brings the error under the threshold, the elapsed time is
    eventually recognised as past the end, and splitting a large set cannot go
    on forever. *)
Record progress {E} (o : ops E) (c : config) (T : Q) : Prop := {
  step_bounded : exists h0 : Q, (0 < h0)%Q /\
    forall e, exists h r n, flow o e = Some (h, (r, n)) /\ (h0 <= h)%Q;
  recondition_works : forall e, large_error o (recondition o e) = false;
  end_recognised : exists T', forall t, (T' <= t)%Q -> surely_reached o t T = true;
  split_ends : enable_subdivisions c = true ->
    exists size : E -> nat,
      (forall e, too_large o e = true ->
        (size (fst (split o e)) < size e)%nat /\ (size (snd (split o e)) < size e)%nat) /\
      (forall e, (size (recondition o e) <= size e)%nat)
}.
