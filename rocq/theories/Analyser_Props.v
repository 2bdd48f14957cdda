(** Properties C62-C65 of reachability analysis. *)
From Coq Require Import List Bool Reals QArith Qreals ZArith Lia Lra.
From Verif Require Import Evolver_Model Evolver_Spec Evolver_Proofs Evolver_Props Analyser_Model Analyser_Spec
     Analyser_Proofs.
Import ListNotations.

(** *** The example system: maps of the integers.  The cell [c] is {2c, 2c+1};
    enclosures are finite sets of points, evolved exactly. *)
Definition pair_den (c x : Z) : Prop := (x / 2 = c)%Z.
Definition pts_den (e : list Z) (x : Z) : Prop := In x e.
Definition pts_ops (f : Z -> Z) : map_ops (list Z) := {|
  m_too_large := fun _ => false; m_split := fun e => (e, e); m_apply := map f |}.
Definition pts_config := {| m_subdivisions := true; m_termination := true |}.
Definition pts_evolver_of (fuel : nat) (f : Z -> Z) : evolver (list Z) Z := {|
  enclosure := fun c => [2 * c; 2 * c + 1]%Z;
  orbit := fun e T sem =>
    match map_orbit fuel (pts_ops f) pts_config (Qnum T) sem e with
    | Some l => Some (reach l, final l)
    | None => None
    end;
  outer := fun e => nodup Z.eq_dec (map (fun x => x / 2)%Z e) |}.

Definition pts_evolver := pts_evolver_of 50.

Lemma pts_rigorous : forall f, map_rigorous pts_den f (pts_ops f).
Proof. intro f. split; unfold pts_den; simpl; [auto|]. intros e x. apply in_map. Qed.

Lemma pts_uses_of : forall fuel f,
  uses_map_evolver (pts_ops f) pts_config (pts_evolver_of fuel f).
Proof.
  intros fuel f e T rs fs H. simpl in H.
  destruct (map_orbit fuel (pts_ops f) pts_config T UPPER e) as [l|] eqn:M; [|discriminate].
  injection H as <- <-. exists fuel, l. auto.
Qed.

Lemma pts_uses : forall f, uses_map_evolver (pts_ops f) pts_config (pts_evolver f).
Proof. intro f. apply pts_uses_of. Qed.

Lemma pts_grid : forall f, grid_sound pair_den pts_den (pts_evolver f).
Proof.
  intro f. unfold pair_den, pts_den. split.
  - intros c x H. change (In x [2 * c; 2 * c + 1]%Z). cbn [In]. pose proof (Z.div_mod x 2 ltac:(lia)). pose proof (Z.mod_pos_bound x 2 ltac:(lia)). lia.
  - intros e x I. exists (x / 2)%Z. split; [|reflexivity].
    apply nodup_In. apply (in_map (fun x => x / 2)%Z). exact I.
Qed.

Lemma Z_cell_eq : cell_eq Z.eqb.
Proof. intros a b. apply Z.eqb_eq. Qed.

Definition Z_settings (lock transient : Z) : settings Z := {|
  transient_time := inject_Z transient; lock_to_grid_time := inject_Z lock;
  in_extent := fun c => (-1000 <=? c)%Z && (c <=? 1000)%Z; bounding := []; overspill := Error;
  surely_positive := fun t => (0 <? Qnum t)%Z; maybe_positive := fun t => (0 <? Qnum t)%Z;
  round := round_rational |}.

Lemma Z_sound_test : forall l t, sound_test (Z_settings l t).
Proof.
  intros l t q H. simpl. apply Z.ltb_lt. unfold Qlt in H. simpl in H. lia.
Qed.

(** *** A system of rotating circles: the interval [k,k+1) is a circle on which the
    flow turns at speed 1.  The cell [j] is [j/4,(j+1)/4]; enclosures are intervals of
    cells, evolved by full turns. *)
Definition floor (x : R) : R := IZR (Int_part x).
Definition spin (t x : R) : R := (floor x + frac_part (x + t))%R.
Definition quarter_den (j : Z) (x : R) : Prop := (IZR j / 4 <= x <= IZR (j + 1) / 4)%R.
Definition arc_den (e : Z * Z) (x : R) : Prop :=
  (fst e <= snd e)%Z /\ (IZR (fst e) / 4 <= x <= IZR (snd e + 1) / 4)%R.
Definition circles (e : Z * Z) : Z * Z := (4 * (fst e / 4), 4 * (snd e / 4) + 7)%Z.
Definition spin_ops : ops (Z * Z) := {|
  initially_large := fun _ => false; too_large := fun _ => false; split := fun e => (e, e);
  surely_empty := fun _ => false; large_error := fun _ => false; recondition := fun e => e;
  flow := fun e => Some (1%Q, (circles e, e)); surely_reached := fun t T => Qle_bool T t |}.
Definition spin_evolver : evolver (Z * Z) Z := {|
  enclosure := fun j => (j, j);
  orbit := fun e T _ =>
    if (Qnum T =? 1)%Z && (Qden T =? 1)%positive then Some ([circles e], [e]) else None;
  outer := fun e => map (fun k => fst e + Z.of_nat k)%Z (seq 0 (Z.to_nat (snd e - fst e + 1))) |}.

Lemma int_part_unique : forall x n, (IZR n <= x < IZR n + 1)%R -> Int_part x = n.
Proof.
  intros x n H. pose proof (base_Int_part x) as [A B].
  assert (Int_part x < n + 1)%Z by (apply lt_IZR; rewrite plus_IZR; lra).
  assert (n < Int_part x + 1)%Z by (apply lt_IZR; rewrite plus_IZR; lra). lia.
Qed.

Lemma int_part_spin : forall t x, Int_part (spin t x) = Int_part x.
Proof.
  intros t x. apply int_part_unique. unfold spin, floor. pose proof (base_fp (x + t)). lra.
Qed.

Lemma spin_flow : is_flow spin.
Proof.
  split.
  - intro x. unfold spin, floor. rewrite Rplus_0_r. unfold frac_part. lra.
  - intros s t x _ _. unfold spin at 1 2. unfold floor. rewrite int_part_spin. f_equal.
    unfold spin, floor. set (n := Int_part (x + s)).
    assert (E : (IZR (Int_part x) + frac_part (x + s) + t)%R =
                (x + (s + t) - IZR (n - Int_part x))%R).
    { unfold frac_part. rewrite minus_IZR. fold n. ring. }
    rewrite E. set (y := (x + (s + t))%R). set (k := (n - Int_part x)%Z).
    unfold frac_part. rewrite (int_part_unique (y - IZR k) (Int_part y - k)).
    + rewrite minus_IZR. ring.
    + rewrite minus_IZR. pose proof (base_Int_part y). lra.
Qed.

Lemma spin_turn : forall x, spin 1 x = x.
Proof.
  intro x. unfold spin, floor. unfold frac_part.
  rewrite (int_part_unique (x + 1) (Int_part x + 1)).
  - rewrite plus_IZR. ring.
  - rewrite plus_IZR. pose proof (base_Int_part x). lra.
Qed.

Lemma spin_circles : forall e s x, arc_den e x -> arc_den (circles e) (spin s x).
Proof.
  intros [a b] s x [Le [D1 D2]]. unfold arc_den, circles, spin, floor in *. cbn [fst snd] in *.
  pose proof (Z.div_mod a 4 ltac:(lia)) as Da. pose proof (Z.mod_pos_bound a 4 ltac:(lia)) as Ma.
  pose proof (Z.div_mod b 4 ltac:(lia)) as Db. pose proof (Z.mod_pos_bound b 4 ltac:(lia)) as Mb.
  set (p := (a / 4)%Z) in *. set (q := (b / 4)%Z) in *.
  pose proof (base_fp (x + s)) as [F1 F2]. pose proof (base_Int_part x) as [A B].
  assert (B1 : (p <= Int_part x)%Z).
  { assert (C1 : (IZR (4 * p) <= IZR a)%R) by (apply IZR_le; lia). rewrite mult_IZR in C1.
    assert (p < Int_part x + 1)%Z; [|lia]. apply lt_IZR. rewrite plus_IZR. lra. }
  assert (B2 : (Int_part x <= q + 1)%Z).
  { assert (C2 : (IZR (b + 1) <= IZR (4 * (q + 1)))%R) by (apply IZR_le; lia).
    rewrite mult_IZR in C2. apply le_IZR. lra. }
  apply IZR_le in B1. apply IZR_le in B2. rewrite plus_IZR in B2.
  split; [lia|]. rewrite !plus_IZR, !mult_IZR. lra.
Qed.

Lemma spin_rigorous : rigorous arc_den spin spin_ops.
Proof.
  split.
  - intros e x H. left. exact H.
  - intros e x H. discriminate H.
  - intros e x H. exact H.
  - intros e h r n H. injection H as <- <- <-. rewrite Q2R_1. split; [lra|]. split.
    + intros x H. rewrite spin_turn. exact H.
    + intros x s H _. apply spin_circles. exact H.
  - intros t T H. apply Qle_bool_iff. exact H.
Qed.

Lemma spin_uses : uses_flow_evolver spin_ops plain spin_evolver.
Proof.
  intros e [n d] rs fs H. cbn [orbit spin_evolver Qnum Qden] in H.
  destruct ((n =? 1)%Z && (d =? 1)%positive) eqn:B; [|discriminate].
  apply andb_true_iff in B. destruct B as [B1 B2]. apply Z.eqb_eq in B1. apply Pos.eqb_eq in B2. subst.
  injection H as <- <-. exists [Reach (circles e); Intermediate e; Final e].
  split; [|split; reflexivity]. exists 1%nat, [(0%Q, e)], 8%nat. split; [reflexivity|].
  unfold start; simpl. run_take. run_rec. run_rec. run_app. run_end. run_take. run_rec. run_end.
  apply steps_0.
Qed.

Lemma spin_grid : grid_sound quarter_den arc_den spin_evolver.
Proof.
  split; [intros j x H; split; [simpl; lia|exact H]|].
  intros [a b] x [Le [H1 H2]]. cbn [fst snd] in *. set (j := Int_part (4 * x)).
  pose proof (base_Int_part (4 * x)) as [A B]. fold j in A, B.
  assert (L1 : (a <= j)%Z).
  { assert (a < j + 1)%Z; [|lia]. apply lt_IZR. rewrite plus_IZR. lra. }
  assert (L2 : (j <= b + 1)%Z). { apply le_IZR. lra. }
  destruct (Z_le_gt_dec j b) as [L|L].
  - exists j. split.
    + simpl. apply in_map_iff. exists (Z.to_nat (j - a)). split; [lia|]. apply in_seq. lia.
    + unfold quarter_den. rewrite plus_IZR. lra.
  - assert (Ej : (j = b + 1)%Z) by lia. rewrite Ej in A.
    exists b. split.
    + simpl. apply in_map_iff. exists (Z.to_nat (b - a)). split; [lia|]. apply in_seq. lia.
    + unfold quarter_den. rewrite plus_IZR in *. lra.
Qed.

(** ** C62 [outer_chain_reach] contains every state reachable from the initial set.

    For a vector field, with any schedule of the evolver's workers: if the overspill
    policy is ERROR, or if the trajectory only meets cells that restriction keeps, the
    returned cells contain the states at all times.  [initial] is the outer
    approximation of the initial set. *)
Theorem C62_chain_reach_flow :
  forall (X E C : Type) (cden : C -> X -> Prop) (ceqb : C -> C -> bool) (den : E -> X -> Prop)
         (phi : R -> X -> X) (o : ops E) (c : config) (ev : evolver E C) (cf : settings C)
         fuel initial result,
    cell_eq ceqb -> is_flow phi -> rigorous den phi o -> uses_flow_evolver o c ev ->
    grid_sound cden den ev -> (0 < lock_to_grid_time cf)%Q ->
    (surely_positive cf (transient_time cf) = true -> (0 < transient_time cf)%Q) ->
    outer_chain_reach ceqb ev cf fuel initial = Done result ->
    forall x t, in_cells cden initial x -> (0 <= t)%R ->
      (overspill cf = Error \/
       forall s d, (0 <= s)%R -> cden d (phi s x) -> kept cf d) ->
      in_cells cden result (phi t x).
Proof.
  intros X E C cden ceqb den phi o c ev cf fuel initial result Ceq Fl Ri U Gs LP TP H x t Ix Ht K.
  eapply (outer_chain_reach_covers cden ceqb Ceq (flow_dynamics phi) (flow_is_dynamics _ _ Fl) ev cf false);
    [exact LP| | |exact H|exact Ix| |split; [exact Ht|reflexivity]|exact Ht].
  - eapply flow_orbit_covers; eassumption.
  - intro S. eapply flow_orbit_covers; try eassumption. apply TP. exact S.
  - intros s y d (Hs & ->) D. destruct K as [K|K]; [left; exact K|right]. eapply K; eassumption.
Qed.
Print Assumptions C62_chain_reach_flow.

(** From one quarter of a circle the whole circle is reached (and the next one, whose
    cells share an end point with it). *)
Example C62_flow_nonvacuous :
  is_flow spin /\ rigorous arc_den spin spin_ops /\
  uses_flow_evolver spin_ops plain spin_evolver /\ grid_sound quarter_den arc_den spin_evolver /\
  outer_chain_reach Z.eqb spin_evolver (Z_settings 1 0) 5 [1%Z] = Done [0; 1; 2; 3; 4; 5; 6; 7]%Z.
Proof.
  split; [apply spin_flow|]. split; [apply spin_rigorous|]. split; [apply spin_uses|].
  split; [apply spin_grid|]. vm_compute. reflexivity.
Qed.

(** For an iterated map: all iterates but the initial points. *)
Theorem C62_chain_reach_map_partial :
  forall (X E C : Type) (cden : C -> X -> Prop) (ceqb : C -> C -> bool) (den : E -> X -> Prop)
         (f : X -> X) (o : map_ops E) (c : map_config) (ev : evolver E C) (cf : settings C)
         fuel initial result (lock transient : nat),
    cell_eq ceqb -> map_rigorous den f o -> uses_map_evolver o c ev ->
    grid_sound cden den ev ->
    lock_to_grid_time cf = inject_Z (Z.of_nat lock) -> (0 < lock)%nat ->
    transient_time cf = inject_Z (Z.of_nat transient) ->
    outer_chain_reach ceqb ev cf fuel initial = Done result ->
    forall x n, in_cells cden initial x -> (0 < n)%nat ->
      (overspill cf = Error \/ forall k d, cden d (iterate f k x) -> kept cf d) ->
      in_cells cden result (iterate f n x).
Proof.
  intros X E C cden ceqb den f o c ev cf fuel initial result lock transient Ceq Ri U Gs El LP Et H x n Ix Hn K.
  eapply (outer_chain_reach_covers cden ceqb Ceq (map_dynamics f) (map_is_dynamics _ _) ev cf true);
    [| | |exact H|exact Ix| |exists n; split; reflexivity|].
  - rewrite El. unfold Qlt. simpl. lia.
  - rewrite El. eapply map_orbit_covers; eassumption.
  - intros _. rewrite Et. eapply map_orbit_covers; eassumption.
  - intros s y d (k & -> & ->) D. destruct K as [K|K]; [left; exact K|right]. eapply K; eassumption.
  - unfold after. apply lt_0_INR. exact Hn.
Qed.
Print Assumptions C62_chain_reach_map_partial.

(** x |-> x/2+9 from {0,1}: the chain 0 -> 9 -> 13 -> ... ends in {16,17}, cell 8. *)
Definition halving (x : Z) : Z := (x / 2 + 9)%Z.
Example C62_map_nonvacuous :
  outer_chain_reach Z.eqb (pts_evolver halving) (Z_settings 1 0) 20 [0%Z]
    = Done [4; 6; 7; 8]%Z /\
  outer_chain_reach Z.eqb (pts_evolver halving) (Z_settings 2 3) 20 [0%Z]
    = Done [4; 6; 7; 8]%Z /\
  uses_map_evolver (pts_ops halving) pts_config (pts_evolver halving) /\
  in_cells pair_den [0%Z] 1%Z.
Proof.
  split; [vm_compute; reflexivity|]. split; [vm_compute; reflexivity|].
  split; [apply pts_uses|]. exists 0%Z. split; [left; reflexivity|reflexivity].
Qed.

(** The initial set is not part of the chain reach set of a map. *)
Theorem C62_map_initial_refuted : exists result x,
  map_rigorous pts_den halving (pts_ops halving) /\
  uses_map_evolver (pts_ops halving) pts_config (pts_evolver halving) /\
  grid_sound pair_den pts_den (pts_evolver halving) /\
  outer_chain_reach Z.eqb (pts_evolver halving) (Z_settings 1 0) 20 [0%Z] = Done result /\
  in_cells pair_den [0%Z] x /\ ~ in_cells pair_den result (iterate halving 0 x).
Proof.
  exists [4; 6; 7; 8]%Z, 0%Z. split; [apply pts_rigorous|]. split; [apply pts_uses|].
  split; [apply pts_grid|]. split; [vm_compute; reflexivity|].
  split; [exists 0%Z; split; [left; reflexivity|reflexivity]|].
  intros (c & I & D). unfold pair_den in D. vm_compute in D. simpl in I. lia.
Qed.
Print Assumptions C62_map_initial_refuted.

(** In a bounded domain the computation ends: if only finitely many cells are kept by
    restriction and the evolver always returns, so does [outer_chain_reach] (or it
    throws [OuterChainOverspill]). *)
Theorem C62_terminates :
  forall (E C : Type) (ceqb : C -> C -> bool) (ev : evolver E C) (cf : settings C) (domain : list C),
    cell_eq ceqb ->
    (forall c, orbit ev (enclosure ev c) (lock_to_grid_time cf) UPPER <> None) ->
    (forall c, orbit ev (enclosure ev c) (transient_time cf) UPPER <> None) ->
    (forall c, kept cf c -> In c domain) ->
    forall fuel initial, (length domain + 1 < fuel)%nat ->
      outer_chain_reach ceqb ev cf fuel initial <> Stuck.
Proof. intros. eapply outer_chain_reach_total; eassumption. Qed.
Print Assumptions C62_terminates.

Example C62_terminates_nonvacuous :
  (forall c, orbit spin_evolver (enclosure spin_evolver c) (lock_to_grid_time (Z_settings 1 1)) UPPER <> None) /\
  (forall c, kept (Z_settings 1 1) c -> In c (map (fun k => Z.of_nat k - 1000)%Z (seq 0 2001))).
Proof.
  split; [discriminate|]. intros c [H _]. apply andb_true_iff in H. destruct H as [H1 H2].
  apply Z.leb_le in H1. apply Z.leb_le in H2. apply in_map_iff.
  exists (Z.to_nat (c + 1000)). split; [lia|]. apply in_seq. lia.
Qed.

(** ** C63 [verify_safety] only certifies safe systems.

    If the certificate says [true], its chain reach set contains every reachable
    state, and the initial cells are safe.  So the system is safe whenever that chain
    reach set is included in the safe set -- but the function does not ensure it. *)
Theorem C63_safety_flow_partial :
  forall (X E C : Type) (cden : C -> X -> Prop) (ceqb : C -> C -> bool) (den : E -> X -> Prop)
         (phi : R -> X -> X) (o : ops E) (c : config) (ev : evolver E C) (cf : settings C)
         fuel initial safe cert,
    cell_eq ceqb -> is_flow phi -> rigorous den phi o -> uses_flow_evolver o c ev ->
    grid_sound cden den ev -> (0 < lock_to_grid_time cf)%Q ->
    (surely_positive cf (transient_time cf) = true -> (0 < transient_time cf)%Q) ->
    verify_safety ceqb ev cf fuel initial safe = Done cert -> is_safe cert = true ->
    safe_set cert = safe /\ incl initial safe /\
    (forall d, In d (chain_reach_set cert) -> kept cf d) /\
    (forall x t, in_cells cden initial x -> (0 <= t)%R ->
       in_cells cden (chain_reach_set cert) (phi t x)) /\
    (incl (chain_reach_set cert) safe ->
       forall x t, in_cells cden initial x -> (0 <= t)%R -> in_cells cden safe (phi t x)).
Proof.
  intros X E C cden ceqb den phi o c ev cf fuel initial safe cert Ceq Fl Ri U Gs LP TP H Sf.
  destruct (verify_safety_covers cden ceqb Ceq (flow_dynamics phi) (flow_is_dynamics _ _ Fl) ev cf false
              fuel initial safe cert) as (A & B & D & F); [exact LP| | |exact H|exact Sf|].
  - eapply flow_orbit_covers; eassumption.
  - intro S. eapply flow_orbit_covers; try eassumption. apply TP. exact S.
  - assert (Main : forall x t, in_cells cden initial x -> (0 <= t)%R ->
              in_cells cden (chain_reach_set cert) (phi t x)).
    { intros x t Ix Ht. eapply F; [exact Ix|split; [exact Ht|reflexivity]|exact Ht]. }
    split; [exact A|]. split; [exact B|]. split; [exact D|]. split; [exact Main|].
    intros I x t Ix Ht. eapply in_cells_mono; [exact I|]. apply Main; assumption.
Qed.
Print Assumptions C63_safety_flow_partial.

Theorem C63_safety_map_partial :
  forall (X E C : Type) (cden : C -> X -> Prop) (ceqb : C -> C -> bool) (den : E -> X -> Prop)
         (f : X -> X) (o : map_ops E) (c : map_config) (ev : evolver E C) (cf : settings C)
         fuel initial safe cert (lock transient : nat),
    cell_eq ceqb -> map_rigorous den f o -> uses_map_evolver o c ev ->
    grid_sound cden den ev ->
    lock_to_grid_time cf = inject_Z (Z.of_nat lock) -> (0 < lock)%nat ->
    transient_time cf = inject_Z (Z.of_nat transient) ->
    verify_safety ceqb ev cf fuel initial safe = Done cert -> is_safe cert = true ->
    safe_set cert = safe /\ incl initial safe /\
    (forall d, In d (chain_reach_set cert) -> kept cf d) /\
    (forall x n, in_cells cden initial x -> (0 < n)%nat ->
       in_cells cden (chain_reach_set cert) (iterate f n x)) /\
    (incl (chain_reach_set cert) safe ->
       forall x n, in_cells cden initial x -> in_cells cden safe (iterate f n x)).
Proof.
  intros X E C cden ceqb den f o c ev cf fuel initial safe cert lock transient Ceq Ri U Gs El LP Et H Sf.
  destruct (verify_safety_covers cden ceqb Ceq (map_dynamics f) (map_is_dynamics _ _) ev cf true
              fuel initial safe cert) as (A & B & D & F); [| | |exact H|exact Sf|].
  - rewrite El. unfold Qlt. simpl. lia.
  - rewrite El. eapply map_orbit_covers; eassumption.
  - intros _. rewrite Et. eapply map_orbit_covers; eassumption.
  - assert (Main : forall x n, in_cells cden initial x -> (0 < n)%nat ->
              in_cells cden (chain_reach_set cert) (iterate f n x)).
    { intros x n Ix Hn. eapply F; [exact Ix|exists n; split; reflexivity|]. apply lt_0_INR. exact Hn. }
    split; [exact A|]. split; [exact B|]. split; [exact D|]. split; [exact Main|].
    intros I x n Ix. destruct n as [|n]; [eapply in_cells_mono; [exact B|exact Ix]|].
    eapply in_cells_mono; [exact I|]. apply Main; [exact Ix|lia].
Qed.
Print Assumptions C63_safety_map_partial.

Example C63_nonvacuous :
  verify_safety Z.eqb (pts_evolver halving) (Z_settings 1 0) 20 [0%Z] [0; 3; 4; 5; 6; 7; 8]%Z
    = Done {| is_safe := true; chain_reach_set := [4; 6; 7; 8]%Z;
              safe_set := [0; 3; 4; 5; 6; 7; 8]%Z |} /\
  verify_safety Z.eqb (pts_evolver halving) (Z_settings 1 0) 20 [0%Z] [0; 3; 4; 5; 6; 8]%Z
    = Done {| is_safe := false; chain_reach_set := [4; 6; 7]%Z;
              safe_set := [0; 3; 4; 5; 6; 8]%Z |}.
Proof. split; vm_compute; reflexivity. Qed.

(** Refuted: the inclusion of the reach set in the safe set is tested before each
    stage and never after the last one.  On a rotating circle, with one full turn as
    the time of a stage, the first stage meets no new final cell and [true] is
    returned, although the trajectories go around the whole circle and only one
    quarter of it is safe. *)
Theorem C63_unsafe_certified_refuted : exists cf cert x t,
  is_flow spin /\ rigorous arc_den spin spin_ops /\
  uses_flow_evolver spin_ops plain spin_evolver /\ grid_sound quarter_den arc_den spin_evolver /\
  verify_safety Z.eqb spin_evolver cf 2 [0%Z] [0%Z] = Done cert /\
  is_safe cert = true /\ ~ incl (chain_reach_set cert) (safe_set cert) /\
  in_cells quarter_den [0%Z] x /\ (0 <= t)%R /\ ~ in_cells quarter_den [0%Z] (spin t x).
Proof.
  exists (Z_settings 1 0).
  exists {| is_safe := true; chain_reach_set := [0; 1; 2; 3; 4; 5; 6; 7]%Z; safe_set := [0%Z] |}.
  exists 0%R, (1/2)%R. split; [apply spin_flow|].
  split; [apply spin_rigorous|]. split; [apply spin_uses|]. split; [apply spin_grid|].
  split; [vm_compute; reflexivity|]. split; [reflexivity|]. split.
  - simpl. intro I. specialize (I 1%Z (or_intror (or_introl eq_refl))). destruct I as [I|[]]. lia.
  - split; [exists 0%Z; split; [left; reflexivity|unfold quarter_den; simpl; lra]|].
    split; [lra|]. intros (c & [<-|[]] & D). revert D. unfold quarter_den, spin, floor, frac_part.
    rewrite (int_part_unique 0 0) by lra. rewrite (int_part_unique (0 + 1/2) 0) by lra.
    simpl. lra.
Qed.
Print Assumptions C63_unsafe_certified_refuted.

(** ** C64 [upper_reach] contains all states reached within the given time.

    Proved when at most one step of [lock_to_grid_time] is made, or when every cell an
    orbit reaches is also one of its final cells (maps with [lock_to_grid_time] 1). *)
Theorem C64_upper_reach_flow_partial :
  forall (X E C : Type) (cden : C -> X -> Prop) (ceqb : C -> C -> bool) (den : E -> X -> Prop)
         (phi : R -> X -> X) (o : ops E) (c : config) (ev : evolver E C) (cf : settings C)
         initial time result,
    cell_eq ceqb -> is_flow phi -> rigorous den phi o -> uses_flow_evolver o c ev ->
    grid_sound cden den ev -> (0 < lock_to_grid_time cf)%Q -> sound_test cf ->
    (time_steps cf time <= 1)%nat ->
    (remainder_time cf time <= lock_to_grid_time cf)%Q ->
    upper_reach ceqb ev cf initial time = Done result ->
    forall x t, in_cells cden initial x -> (0 <= t <= Q2R time)%R -> in_cells cden result (phi t x).
Proof.
  intros X E C cden ceqb den phi o c ev cf initial time result Ceq Fl Ri U Gs LP So St Rm H x t Ix [Ht1 Ht2].
  eapply (upper_reach_covers cden ceqb Ceq (flow_dynamics phi) (flow_is_dynamics _ _ Fl) ev cf false);
    [exact So| | |left; exact St|exact Rm|exact H|exact Ix|split; [exact Ht1|reflexivity]|exact Ht2].
  - eapply flow_orbit_covers; eassumption.
  - intro P. eapply flow_orbit_covers; eassumption.
Qed.
Print Assumptions C64_upper_reach_flow_partial.

Example C64_flow_nonvacuous :
  (time_steps (Z_settings 1 0) 1 <= 1)%nat /\
  (remainder_time (Z_settings 1 0) 1 <= lock_to_grid_time (Z_settings 1 0))%Q /\
  upper_reach Z.eqb spin_evolver (Z_settings 1 0) [1%Z] 1 = Done [1; 0; 2; 3; 4; 5; 6; 7]%Z /\
  upper_reach_evolve Z.eqb spin_evolver (Z_settings 1 0) [1%Z] 2 = Done ([1; 0; 2; 3; 4; 5; 6; 7]%Z, [1%Z]).
Proof. repeat split; vm_compute; try reflexivity; lia || discriminate. Qed.

Theorem C64_upper_reach_map_partial :
  forall (X E C : Type) (cden : C -> X -> Prop) (ceqb : C -> C -> bool) (den : E -> X -> Prop)
         (f : X -> X) (o : map_ops E) (c : map_config) (ev : evolver E C) (cf : settings C)
         initial (time lock : nat) result,
    cell_eq ceqb -> map_rigorous den f o -> uses_map_evolver o c ev ->
    grid_sound cden den ev -> sound_test cf -> round cf = round_rational ->
    lock_to_grid_time cf = inject_Z (Z.of_nat lock) -> (0 < lock)%nat ->
    (time_steps cf (inject_Z (Z.of_nat time)) <= 1)%nat \/
      (forall d rs fs, orbit ev (enclosure ev d) (lock_to_grid_time cf) UPPER = Some (rs, fs) ->
         incl (flat_map (outer ev) rs) (flat_map (outer ev) fs)) ->
    upper_reach ceqb ev cf initial (inject_Z (Z.of_nat time)) = Done result ->
    forall x n, in_cells cden initial x -> (n <= time)%nat -> in_cells cden result (iterate f n x).
Proof.
  intros X E C cden ceqb den f o c ev cf initial time lock result Ceq Ri U Gs So Rd El LP Hy H x n Ix Hn.
  eapply (upper_reach_covers cden ceqb Ceq (map_dynamics f) (map_is_dynamics _ _) ev cf true);
    [exact So| | |exact Hy| |exact H|exact Ix|exists n; split; reflexivity|].
  - rewrite El. eapply map_orbit_covers; eassumption.
  - intro P. unfold remainder_time in *. rewrite El in *.
    set (k := time_steps cf (inject_Z (Z.of_nat time))) in *.
    assert (E1 : (inject_Z (Z.of_nat time) - inject_Z (Z.of_nat k) * inject_Z (Z.of_nat lock))%Q =
                 inject_Z (Z.of_nat (time - k * lock))).
    { unfold Qlt in P. simpl in P. unfold inject_Z, Qminus, Qplus, Qopp, Qmult. simpl.
      f_equal. lia. }
    rewrite E1. eapply map_orbit_covers; eassumption.
  - apply rounding_remainder; [exact Rd| |rewrite El]; unfold Qle, Qlt; simpl; lia.
  - unfold Q2R. simpl. rewrite Rinv_1, Rmult_1_r, <- INR_IZR_INZ. apply le_INR. exact Hn.
Qed.
Print Assumptions C64_upper_reach_map_partial.

(** With [lock_to_grid_time] 1 every reached cell of a map is a final cell. *)
Example C64_map_nonvacuous :
  (forall d rs fs, orbit (pts_evolver halving) (enclosure (pts_evolver halving) d)
                     (lock_to_grid_time (Z_settings 1 0)) UPPER = Some (rs, fs) ->
     incl (flat_map (outer (pts_evolver halving)) rs) (flat_map (outer (pts_evolver halving)) fs)) /\
  upper_reach Z.eqb (pts_evolver halving) (Z_settings 1 0) [0%Z] (inject_Z 3)
    = Done [0; 4; 6; 7]%Z.
Proof.
  split; [|vm_compute; reflexivity]. intros d rs fs H. cbn in H. injection H as <- <-.
  apply incl_refl.
Qed.

(** Refuted in general: a cell is not evolved if it has been reached before, even
    when that was in the middle of a step, at a point from which it has not been
    evolved.  Below 0 -> 20 -> 40 -> 60 -> 21 -> 80: with steps of 2 the cell {20,21}
    is reached at time 1 and, having been reached, is dropped at time 4, so the state
    80 at time 5 is missed. *)
Definition detour (x : Z) : Z :=
  if (x <? 2)%Z then 20 else if (x =? 20)%Z then 40 else if (x =? 21)%Z then 80
  else if (x <? 42)%Z then 60 else if (x <? 62)%Z then 21 else x.
Theorem C64_upper_reach_refuted : exists result x,
  map_rigorous pts_den detour (pts_ops detour) /\
  uses_map_evolver (pts_ops detour) pts_config (pts_evolver detour) /\
  grid_sound pair_den pts_den (pts_evolver detour) /\
  upper_reach Z.eqb (pts_evolver detour) (Z_settings 2 0) [0%Z] (inject_Z 6) = Done result /\
  in_cells pair_den [0%Z] x /\ ~ in_cells pair_den result (iterate detour 5 x).
Proof.
  eexists. exists 0%Z. split; [apply pts_rigorous|]. split; [apply pts_uses|].
  split; [apply pts_grid|]. split; [vm_compute; reflexivity|].
  split; [exists 0%Z; split; [left; reflexivity|reflexivity]|].
  intros (c & I & D). unfold pair_den in D. vm_compute in D. simpl in I. lia.
Qed.
Print Assumptions C64_upper_reach_refuted.

(** [upper_reach_evolve], which does not drop cells, has a sound reach set. *)
Theorem C64_upper_reach_evolve_flow :
  forall (X E C : Type) (cden : C -> X -> Prop) (ceqb : C -> C -> bool) (den : E -> X -> Prop)
         (phi : R -> X -> X) (o : ops E) (c : config) (ev : evolver E C) (cf : settings C)
         initial time reach evolve,
    cell_eq ceqb -> is_flow phi -> rigorous den phi o -> uses_flow_evolver o c ev ->
    grid_sound cden den ev -> (0 < lock_to_grid_time cf)%Q -> sound_test cf ->
    upper_reach_evolve ceqb ev cf initial time = Done (reach, evolve) ->
    forall x t, in_cells cden initial x -> (0 <= t <= Q2R time)%R -> in_cells cden reach (phi t x).
Proof.
  intros X E C cden ceqb den phi o c ev cf initial time reach evolve Ceq Fl Ri U Gs LP So H x t Ix [Ht1 Ht2].
  eapply (upper_reach_evolve_covers cden ceqb Ceq (flow_dynamics phi) (flow_is_dynamics _ _ Fl) ev cf false);
    [exact So| | |exact H|exact Ix|split; [exact Ht1|reflexivity]|exact Ht2].
  - eapply flow_orbit_covers; eassumption.
  - intro P. eapply flow_orbit_covers; eassumption.
Qed.
Print Assumptions C64_upper_reach_evolve_flow.

Lemma integer_remainder : forall C (cf : settings C) time lock,
  lock_to_grid_time cf = inject_Z (Z.of_nat lock) ->
  (0 <= remainder_time cf (inject_Z (Z.of_nat time)))%Q ->
  remainder_time cf (inject_Z (Z.of_nat time)) =
  inject_Z (Z.of_nat (time - time_steps cf (inject_Z (Z.of_nat time)) * lock)).
Proof.
  intros C cf time lock El P. unfold remainder_time in *. rewrite El in *.
  set (k := time_steps cf (inject_Z (Z.of_nat time))) in *.
  unfold Qle in P. simpl in P. unfold inject_Z, Qminus, Qplus, Qopp, Qmult. simpl. f_equal. lia.
Qed.

Theorem C64_upper_reach_evolve_map :
  forall (X E C : Type) (cden : C -> X -> Prop) (ceqb : C -> C -> bool) (den : E -> X -> Prop)
         (f : X -> X) (o : map_ops E) (c : map_config) (ev : evolver E C) (cf : settings C)
         initial (time lock : nat) reach evolve,
    cell_eq ceqb -> map_rigorous den f o -> uses_map_evolver o c ev ->
    grid_sound cden den ev -> sound_test cf ->
    lock_to_grid_time cf = inject_Z (Z.of_nat lock) -> (0 < lock)%nat ->
    upper_reach_evolve ceqb ev cf initial (inject_Z (Z.of_nat time)) = Done (reach, evolve) ->
    forall x n, in_cells cden initial x -> (n <= time)%nat -> in_cells cden reach (iterate f n x).
Proof.
  intros X E C cden ceqb den f o c ev cf initial time lock reach evolve Ceq Ri U Gs So El LP H x n Ix Hn.
  eapply (upper_reach_evolve_covers cden ceqb Ceq (map_dynamics f) (map_is_dynamics _ _) ev cf true);
    [exact So| | |exact H|exact Ix|exists n; split; reflexivity|].
  - rewrite El. eapply map_orbit_covers; eassumption.
  - intro P. rewrite (integer_remainder _ _ _ _ El) by (apply Qlt_le_weak; exact P).
    eapply map_orbit_covers; eassumption.
  - unfold Q2R. simpl. rewrite Rinv_1, Rmult_1_r, <- INR_IZR_INZ. apply le_INR. exact Hn.
Qed.
Print Assumptions C64_upper_reach_evolve_map.

(** On the map that refutes [upper_reach] the state 80 is found. *)
Example C64_upper_reach_evolve_nonvacuous :
  exists reach evolve,
    upper_reach_evolve Z.eqb (pts_evolver detour) (Z_settings 2 0) [0%Z] (inject_Z 6)
      = Done (reach, evolve) /\ In 40%Z reach.
Proof. eexists. eexists. split; [vm_compute; reflexivity|]. simpl. tauto. Qed.

(** ** C65 [upper_evolve], and the evolved set of [upper_reach_evolve], contain the
    states at the given time.

    Proved for iterated maps when the number of steps is not rounded up. *)
Theorem C65_upper_evolve_partial :
  forall (X E C : Type) (cden : C -> X -> Prop) (ceqb : C -> C -> bool) (den : E -> X -> Prop)
         (f : X -> X) (o : map_ops E) (c : map_config) (ev : evolver E C) (cf : settings C)
         initial (time lock : nat),
    cell_eq ceqb -> map_rigorous den f o -> uses_map_evolver o c ev ->
    grid_sound cden den ev -> sound_test cf ->
    lock_to_grid_time cf = inject_Z (Z.of_nat lock) ->
    (time_steps cf (inject_Z (Z.of_nat time)) * lock <= time)%nat ->
    (forall result, upper_evolve ceqb ev cf initial (inject_Z (Z.of_nat time)) = Done result ->
       forall x, in_cells cden initial x -> in_cells cden result (iterate f time x)) /\
    (forall reach evolve,
       upper_reach_evolve ceqb ev cf initial (inject_Z (Z.of_nat time)) = Done (reach, evolve) ->
       forall x, in_cells cden initial x -> in_cells cden evolve (iterate f time x)).
Proof.
  intros X E C cden ceqb den f o c ev cf initial time lock Ceq Ri U Gs So El Le.
  assert (Rn : (0 <= remainder_time cf (inject_Z (Z.of_nat time)))%Q).
  { unfold remainder_time. rewrite El. set (k := time_steps cf (inject_Z (Z.of_nat time))) in *.
    apply Nat2Z.inj_le in Le. rewrite Nat2Z.inj_mul in Le.
    unfold Qle, inject_Z, Qminus, Qplus, Qopp, Qmult. simpl. lia. }
  assert (ExL : orbit_exact cden (map_dynamics f) ev (lock_to_grid_time cf)).
  { rewrite El. eapply map_orbit_exact; eassumption. }
  assert (ExR : orbit_exact cden (map_dynamics f) ev (remainder_time cf (inject_Z (Z.of_nat time)))).
  { rewrite (integer_remainder _ _ _ _ El Rn). eapply map_orbit_exact; eassumption. }
  assert (Fl : forall x, map_dynamics f (Q2R (inject_Z (Z.of_nat time))) x (iterate f time x)).
  { intro x. exists time. split; [|reflexivity]. apply Q2R_nat. }
  split.
  - intros result H x Ix.
    eapply (upper_evolve_covers cden ceqb Ceq (map_dynamics f) (map_is_dynamics _ _) ev cf);
      [exact So|exact ExL|exact Rn|intros _; exact ExR|exact H|exact Ix|apply Fl].
  - intros reach evolve H x Ix.
    eapply (upper_reach_evolve_final cden ceqb Ceq (map_dynamics f) (map_is_dynamics _ _) ev cf);
      [exact So|exact ExL|exact Rn|intros _; exact ExR|exact H|exact Ix|apply Fl].
Qed.
Print Assumptions C65_upper_evolve_partial.

Example C65_nonvacuous :
  (time_steps (Z_settings 10 0) (inject_Z (Z.of_nat 23)) * 10 <= 23)%nat /\
  upper_evolve Z.eqb (pts_evolver Z.succ) (Z_settings 10 0) [0%Z] (inject_Z (Z.of_nat 23))
    = Done [11; 12]%Z.
Proof. split; [vm_compute; lia|vm_compute; reflexivity]. Qed.

(** Refuted: the number of steps is rounded to the nearest integer
    (reachability_analyser.tpl.hpp:376-378), so with steps of 10 the states at time 26
    are computed as those at time 30. *)
Theorem C65_rounding_refuted : exists result x,
  map_rigorous pts_den Z.succ (pts_ops Z.succ) /\
  uses_map_evolver (pts_ops Z.succ) pts_config (pts_evolver Z.succ) /\
  grid_sound pair_den pts_den (pts_evolver Z.succ) /\
  upper_evolve Z.eqb (pts_evolver Z.succ) (Z_settings 10 0) [0%Z] (inject_Z (Z.of_nat 26)) = Done result /\
  in_cells pair_den [0%Z] x /\ ~ in_cells pair_den result (iterate Z.succ 26 x).
Proof.
  eexists. exists 0%Z. split; [apply pts_rigorous|]. split; [apply pts_uses|].
  split; [apply pts_grid|]. split; [vm_compute; reflexivity|].
  split; [exists 0%Z; split; [left; reflexivity|reflexivity]|].
  intros (c & I & D). unfold pair_den in D. vm_compute in D. simpl in I. lia.
Qed.
Print Assumptions C65_rounding_refuted.
