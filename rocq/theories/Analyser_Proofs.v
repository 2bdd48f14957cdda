(** Proofs about reachability analysis. *)
From Coq Require Import List Bool Reals QArith Qreals Lia Lra.
From Coq Require Lqa.
From Verif Require Import Evolver_Model Evolver_Spec Evolver_Proofs Analyser_Model Analyser_Spec.
Import ListNotations.

Lemma andthen_done : forall A B (r : result A) (f : A -> result B) b,
  andthen r f = Done b -> exists a, r = Done a /\ f a = Done b.
Proof. intros A B [a| |] f b H; simpl in H; try discriminate. eauto. Qed.

Section Proofs.
  Context {X E C : Type} (cden : C -> X -> Prop) (ceqb : C -> C -> bool).
  Hypothesis Ceq : cell_eq ceqb.
  Variable flows : R -> X -> X -> Prop.
  Hypothesis Dy : dynamics flows.
  Variables (ev : evolver E C) (cf : settings C).
  Local Notation adj := (adjoin ceqb).

  Lemma contains_in : forall s c, contains ceqb s c = true <-> In c s.
  Proof.
    intros s c. unfold contains. rewrite existsb_exists. split.
    - intros (d & I & H). apply Ceq in H. subst. exact I.
    - intro I. exists c. split; [exact I|]. apply Ceq. reflexivity.
  Qed.

  Lemma adjoin_in : forall s1 s2 c, In c (adj s1 s2) <-> In c s1 \/ In c s2.
  Proof using Ceq.
    intros s1 s2 c. unfold adjoin. rewrite in_app_iff, filter_In. split; [intros [I|[I _]]; auto|].
    intros [I|I]; [auto|]. destruct (contains ceqb s1 c) eqn:K.
    - left. apply contains_in. exact K.
    - right. auto.
  Qed.

  Lemma remove_in : forall s1 s2 c, In c (remove ceqb s1 s2) <-> In c s1 /\ ~ In c s2.
  Proof using Ceq.
    intros s1 s2 c. unfold remove. rewrite filter_In, negb_true_iff.
    rewrite <- not_true_iff_false, contains_in. reflexivity.
  Qed.

  Lemma in_dec_cells : forall (s : list C) c, In c s \/ ~ In c s.
  Proof using Ceq.
    intros s c. destruct (contains ceqb s c) eqn:K.
    - left. apply contains_in. exact K.
    - right. intro I. apply contains_in in I. congruence.
  Qed.

  Lemma subset_in : forall s1 s2, subset ceqb s1 s2 = true -> forall c, In c s1 -> In c s2.
  Proof.
    intros s1 s2 H c I. unfold subset in H. rewrite forallb_forall in H.
    apply contains_in, H, I.
  Qed.

  Lemma is_empty_nil : forall s : list C, is_empty s = true <-> s = [].
  Proof. intros [|c s]; simpl; split; congruence. Qed.

  Lemma adjoin_all_in : forall es s c,
    In c (adjoin_all ceqb ev s es) <-> In c s \/ In c (flat_map (outer ev) es).
  Proof.
    induction es as [|e es IH]; intros s c; unfold adjoin_all in *; simpl.
    - tauto.
    - rewrite IH, adjoin_in, in_app_iff. tauto.
  Qed.

  (** The orbit of the cell [c] for time [tm] is recorded in [r] and [e]. *)
  Definition recorded (tm : Q) (c : C) (r e : list C) : Prop :=
    exists rs fs, orbit ev (enclosure ev c) tm UPPER = Some (rs, fs) /\
      incl (flat_map (outer ev) rs) r /\ incl (flat_map (outer ev) fs) e.

  Lemma recorded_mono : forall tm c r e r' e', incl r r' -> incl e e' ->
    recorded tm c r e -> recorded tm c r' e'.
  Proof.
    intros tm c r e r' e' A B (rs & fs & O & I & J). exists rs, fs.
    split; [exact O|]. split; eapply incl_tran; eassumption.
  Qed.

  Lemma aure_spec : forall set tm r e r' e',
    adjoin_upper_reach_evolve ceqb ev r e set tm = Done (r', e') ->
    incl r r' /\ incl e e' /\ (forall c, In c set -> recorded tm c r' e') /\
    (forall d, In d r' -> In d r \/ exists c rs fs, In c set /\
        orbit ev (enclosure ev c) tm UPPER = Some (rs, fs) /\ In d (flat_map (outer ev) rs)).
  Proof.
    induction set as [|c set IH]; intros tm r e r' e' H; simpl in H.
    - injection H as <- <-. split; [apply incl_refl|]. split; [apply incl_refl|].
      split; [intros c []|]. auto.
    - destruct (orbit ev (enclosure ev c) tm UPPER) as [[rs fs]|] eqn:O; [|discriminate].
      destruct (IH _ _ _ _ _ H) as (A & B & D & F).
      assert (A' : incl r r'). { intros d I. apply A. apply adjoin_all_in. auto. }
      assert (B' : incl e e'). { intros d I. apply B. apply adjoin_all_in. auto. }
      split; [exact A'|]. split; [exact B'|]. split.
      + intros d [<-|I]; [|apply D; exact I].
        exists rs, fs. split; [exact O|]. split.
        * intros d I. apply A. apply adjoin_all_in. auto.
        * intros d I. apply B. apply adjoin_all_in. auto.
      + intros d I. destruct (F d I) as [J|(c0 & rs0 & fs0 & I0 & O0 & J)].
        * apply adjoin_all_in in J. destruct J as [J|J]; [auto|].
          right. exists c, rs, fs. split; [left; reflexivity|]. auto.
        * right. exists c0, rs0, fs0. split; [right; exact I0|]. auto.
  Qed.

  Lemma in_cells_mono : forall s s' x, incl s s' -> in_cells cden s x -> in_cells cden s' x.
  Proof. intros s s' x I (c & J & D). exists c. auto. Qed.

  Variable strict : bool.
  Definition after (s : R) : Prop := if strict then (0 < s)%R else (0 <= s)%R.

  Lemma after_pos : forall s, (0 < s)%R -> after s.
  Proof. intros s H. unfold after. destruct strict; lra. Qed.

  (** What a restriction keeps. *)
  Definition good (p : policy) (d : C) : Prop := p = Error \/ kept cf d.

  Lemma checked_restriction_spec : forall p s s',
    checked_restriction ceqb cf p s = Done s' ->
    incl s' s /\ (forall d, In d s -> good p d -> In d s') /\
    (p = Error -> incl s s' /\ forall d, In d s' -> kept cf d).
  Proof.
    intros p s s' H. unfold checked_restriction in H.
    set (s1 := restrict_to (in_extent cf) s) in *.
    set (s2 := if is_empty (bounding cf) then s1 else restrict ceqb s1 (bounding cf)) in *.
    assert (K : forall d, In d s2 <-> In d s /\ kept cf d).
    { intro d. unfold s2, kept. destruct (is_empty (bounding cf)) eqn:Eb.
      - apply is_empty_nil in Eb. unfold s1, restrict_to. rewrite filter_In. tauto.
      - unfold restrict, s1, restrict_to. rewrite !filter_In, contains_in.
        assert (bounding cf <> []). { intro N. rewrite N in Eb. discriminate. } tauto. }
    assert (I2 : incl s2 s) by (intros d I; apply K; exact I).
    destruct p.
    - injection H as <-. split; [exact I2|]. split; [|discriminate].
      intros d I [N|G]; [discriminate|]. apply K. auto.
    - injection H as <-. split; [exact I2|]. split; [|discriminate].
      intros d I [N|G]; [discriminate|]. apply K. auto.
    - destruct (is_empty (remove ceqb s s2)) eqn:Er; [|discriminate].
      injection H as <-. apply is_empty_nil in Er.
      assert (J : incl s s2).
      { intros d I. destruct (in_dec_cells s2 d) as [Y|Y]; [exact Y|exfalso].
        assert (In d (remove ceqb s s2)) by (apply remove_in; auto).
        rewrite Er in H. destruct H. }
      split; [exact I2|]. split; [intros d I _; apply J; exact I|].
      intros _. split; [exact J|]. intros d I. apply K. exact I.
  Qed.

  (** ** Chains *)
  Definition processed (lock : Q) (p : policy) (reach acc : list C) (c : C) : Prop :=
    exists e, recorded lock c reach e /\ forall d, In d e -> good p d -> In d acc.

  Lemma processed_mono : forall lock p reach acc reach' acc' c,
    incl reach reach' -> incl acc acc' ->
    processed lock p reach acc c -> processed lock p reach' acc' c.
  Proof.
    intros lock p reach acc reach' acc' c I J (e & R & K). exists e. split.
    - eapply recorded_mono; [exact I|apply incl_refl|exact R].
    - intros d D G. apply J, K; assumption.
  Qed.

  (** All cells met by the trajectory of [x] are kept. *)
  Definition stays (p : policy) (x : X) : Prop :=
    forall t y d, flows t x y -> cden d y -> good p d.

  Lemma stays_from : forall p s x y, flows s x y -> stays p x -> stays p y.
  Proof.
    intros p s x y F S t w d Fw. apply (S (s + t)%R). eapply (flows_add _ Dy); eassumption.
  Qed.

  Lemma Qpos_R : forall q, (0 < q)%Q -> (0 < Q2R q)%R.
  Proof.
    intros q H. apply Qlt_Rlt in H. replace (Q2R 0) with 0%R in H by (unfold Q2R; simpl; lra).
    exact H.
  Qed.

  Lemma chain_covers : forall lock p reach acc,
    (0 < lock)%Q -> orbit_covers cden strict flows ev lock ->
    (forall c, In c acc -> processed lock p reach acc c) ->
    forall n x t z, stays p x -> in_cells cden acc x -> flows t x z -> after t ->
      (t <= INR n * Q2R lock)%R -> in_cells cden reach z.
  Proof.
    intros lock p reach acc LP Orb Cl. apply Qpos_R in LP.
    induction n as [|n IH]; intros x t z G (c & Ic & Dc) F P T;
      destruct (Cl c Ic) as (e & (rs & fs & O & I1 & I2) & K);
      destruct (Orb _ _ _ O x Dc) as (t' & y & A1 & A2 & A3 & A4).
    - simpl in T. pose proof (flows_nonneg flows Dy _ _ _ F).
      eapply in_cells_mono; [exact I1|]. apply (A4 t z F P). lra.
    - destruct (Rle_dec t t') as [L|L].
      + eapply in_cells_mono; [exact I1|]. apply (A4 t z F P L).
      + assert (Fy : flows (t - t') y z).
        { eapply (flows_shift flows Dy); try eassumption. lra. }
        apply (IH y (t - t')%R).
        * eapply stays_from; eassumption.
        * destruct A3 as (d & Id & Dd). exists d. split; [|exact Dd].
          apply K; [apply I2; exact Id|]. eapply G; eassumption.
        * exact Fy.
        * apply after_pos. lra.
        * rewrite S_INR in T. lra.
  Qed.

  Lemma enough_steps : forall lock t, (0 < lock)%Q -> exists n, (t <= INR n * Q2R lock)%R.
  Proof.
    intros lock t LP. apply Qpos_R in LP.
    destruct (archimed (t / Q2R lock)) as (N & _). exists (Z.to_nat (up (t / Q2R lock))).
    destruct (Z_le_gt_dec 0 (up (t / Q2R lock))) as [Hz|Hz].
    2:{ replace (Z.to_nat (up (t / Q2R lock))) with 0%nat by lia. simpl. apply Z.gt_lt, IZR_lt in Hz.
        assert (t / Q2R lock < 0)%R by lra.
        apply Rmult_lt_compat_r with (r := Q2R lock) in H; [|exact LP].
        unfold Rdiv in H. rewrite Rmult_assoc, Rinv_l in H; lra. }
    rewrite INR_IZR_INZ, Z2Nat.id by exact Hz.
    apply Rmult_lt_compat_r with (r := Q2R lock) in N; [|exact LP].
    unfold Rdiv in N. rewrite Rmult_assoc, Rinv_l in N; lra.
  Qed.

  Lemma chain_loop_spec : forall fuel reach evolve starting acc result,
    chain_loop ceqb ev cf fuel reach evolve starting acc = Done result ->
    let lock := lock_to_grid_time cf in let p := overspill cf in
    incl starting acc ->
    (forall c, In c acc -> In c starting \/ processed lock p reach acc c) ->
    incl reach result /\ exists acc', incl acc acc' /\
      forall c, In c acc' -> processed lock p result acc' c.
  Proof.
    induction fuel as [|k IH]; intros reach evolve starting acc result H lock p Sub Inv;
      simpl in H; [discriminate|].
    destruct (is_empty starting) eqn:Es.
    - injection H as <-. split; [apply incl_refl|]. exists acc. split; [apply incl_refl|].
      intros c I. destruct (Inv c I) as [J|J]; [|exact J].
      apply is_empty_nil in Es. subst. destruct J.
    - apply andthen_done in H. destruct H as ((r1 & e1) & H1 & H2).
      apply andthen_done in H2. destruct H2 as (e2 & H2 & H3).
      destruct (aure_spec _ _ _ _ _ _ H1) as (A & B & D & _).
      destruct (checked_restriction_spec _ _ _ H2) as (K1 & K2 & _).
      destruct (IH _ _ _ _ _ H3) as (L & acc' & L1 & L2).
      + intros c I. apply adjoin_in. auto.
      + intros c I. apply adjoin_in in I. destruct I as [I|I]; [|auto].
        right. destruct (Inv c I) as [J|J].
        * exists e1. split; [exact (D c J)|]. intros d Id G. apply adjoin_in.
          destruct (in_dec_cells acc d) as [Y|Y]; [auto|]. right. apply remove_in. auto.
        * eapply processed_mono; [exact A| |exact J]. intros d Id. apply adjoin_in. auto.
      + split; [eapply incl_tran; eassumption|]. exists acc'. split; [|exact L2].
        intros c I. apply L1. apply adjoin_in. auto.
  Qed.

  Theorem outer_chain_reach_covers : forall fuel initial result,
    (0 < lock_to_grid_time cf)%Q ->
    orbit_covers cden strict flows ev (lock_to_grid_time cf) ->
    (surely_positive cf (transient_time cf) = true ->
       orbit_covers cden strict flows ev (transient_time cf)) ->
    outer_chain_reach ceqb ev cf fuel initial = Done result ->
    forall x t z, in_cells cden initial x -> stays (overspill cf) x ->
      flows t x z -> after t -> in_cells cden result z.
  Proof.
    intros fuel initial result LP Orb OrbT H x t z (c & Ic & Dc) St F P.
    unfold outer_chain_reach in H. apply andthen_done in H. destruct H as (init1 & H1 & H).
    destruct (checked_restriction_spec _ _ _ H1) as (_ & K1 & _).
    assert (Ic1 : In c init1).
    { apply K1; [exact Ic|]. apply (St 0%R x); [apply (flows_start _ Dy)|exact Dc]. }
    apply andthen_done in H. destruct H as ((r0 & e0) & H2 & H).
    apply andthen_done in H. destruct H as (r1 & H3 & H4).
    destruct (checked_restriction_spec _ _ _ H4) as (_ & K4 & _).
    destruct (chain_loop_spec _ _ _ _ _ _ H3) as (L & acc & L1 & L2).
    { apply incl_refl. } { intros d I. left. exact I. }
    assert (Main : forall y s w, stays (overspill cf) y -> in_cells cden e0 y -> flows s y w ->
                     after s -> in_cells cden r1 w).
    { intros y s w Sy Iy Fy Py. destruct (enough_steps _ s LP) as (n & N).
      apply (chain_covers _ _ _ _ LP Orb L2 n y s); try assumption.
      eapply in_cells_mono; eassumption. }
    assert (R1 : in_cells cden r1 z).
    { destruct (surely_positive cf (transient_time cf)) eqn:Ts.
      - apply andthen_done in H2. destruct H2 as ((r & e) & H5 & H6).
        apply andthen_done in H6. destruct H6 as (e' & H6 & H7). cbn [fst snd] in *.
        injection H7 as -> ->.
        destruct (aure_spec _ _ _ _ _ _ H5) as (_ & _ & D & _).
        destruct (checked_restriction_spec _ _ _ H6) as (_ & K6 & _).
        destruct (D c Ic1) as (rs & fs & O & I1 & I2).
        destruct (OrbT eq_refl _ _ _ O x Dc) as (t' & y & A1 & A2 & (d & Id & Dd) & A4).
        destruct (Rle_dec t t') as [Le|Le].
        + eapply in_cells_mono; [exact L|]. eapply in_cells_mono; [exact I1|].
          apply (A4 t z F P Le).
        + apply (Main y (t - t')%R).
          * eapply stays_from; eassumption.
          * exists d. split; [|exact Dd]. apply K6; [apply I2; exact Id|]. eapply St; eassumption.
          * eapply (flows_shift _ Dy); try eassumption. lra.
          * apply after_pos. lra.
      - injection H2 as <- <-. apply (Main x t); try assumption. exists c. auto. }
    destruct R1 as (d & Id & Dd). exists d. split; [|exact Dd].
    apply K4; [exact Id|]. eapply St; eassumption.
  Qed.

  (** ** Safety *)
  Lemma safety_loop_spec : forall fuel initial reach evolve starting acc safe cert,
    safety_loop ceqb ev cf fuel initial reach evolve starting acc safe = Done cert ->
    is_safe cert = true ->
    let lock := lock_to_grid_time cf in
    incl starting acc ->
    (forall c, In c acc -> In c starting \/ processed lock Error reach acc c) ->
    incl reach (chain_reach_set cert) /\ safe_set cert = safe /\
    (forall d, In d (chain_reach_set cert) -> kept cf d) /\
    exists acc', incl acc acc' /\
      forall c, In c acc' -> processed lock Error (chain_reach_set cert) acc' c.
  Proof.
    induction fuel as [|k IH]; intros initial reach evolve starting acc safe cert H Safe lock Sub Inv;
      cbn [safety_loop] in H; [discriminate|].
    destruct (is_empty starting) eqn:Es.
    - apply andthen_done in H. destruct H as (r & H1 & H2). injection H2 as <-. cbn [is_safe chain_reach_set safe_set] in *.
      destruct (checked_restriction_spec _ _ _ H1) as (_ & _ & K).
      destruct (K eq_refl) as (K1 & K2).
      split; [exact K1|]. split; [reflexivity|]. split; [exact K2|].
      exists acc. split; [apply incl_refl|].
      intros c I. destruct (Inv c I) as [J|J].
      + apply is_empty_nil in Es. subst. destruct J.
      + eapply processed_mono; [exact K1|apply incl_refl|exact J].
    - destruct (negb (subset ceqb reach safe)).
      { injection H as <-. discriminate. }
      apply andthen_done in H. destruct H as ((r1 & e1) & H1 & H2).
      apply andthen_done in H2. destruct H2 as (i2 & H2 & H3).
      destruct (aure_spec _ _ _ _ _ _ H1) as (A & B & D & _).
      destruct (IH _ _ _ _ _ _ _ H3 Safe) as (L & L0 & LK & acc' & L1 & L2).
      + intros c I. apply adjoin_in. auto.
      + intros c I. apply adjoin_in in I. destruct I as [I|I]; [|auto].
        right. destruct (Inv c I) as [J|J].
        * exists e1. split; [exact (D c J)|]. intros d Id G. apply adjoin_in.
          destruct (in_dec_cells acc d) as [Y|Y]; [auto|]. right. apply remove_in. auto.
        * eapply processed_mono; [exact A| |exact J]. intros d Id. apply adjoin_in. auto.
      + split; [eapply incl_tran; eassumption|]. split; [exact L0|]. split; [exact LK|].
        exists acc'. split; [|exact L2].
        intros c I. apply L1. apply adjoin_in. auto.
  Qed.

  Theorem verify_safety_covers : forall fuel initial safe cert,
    (0 < lock_to_grid_time cf)%Q ->
    orbit_covers cden strict flows ev (lock_to_grid_time cf) ->
    (surely_positive cf (transient_time cf) = true ->
       orbit_covers cden strict flows ev (transient_time cf)) ->
    verify_safety ceqb ev cf fuel initial safe = Done cert -> is_safe cert = true ->
    safe_set cert = safe /\ incl initial safe /\
    (forall d, In d (chain_reach_set cert) -> kept cf d) /\
    forall x t z, in_cells cden initial x -> flows t x z -> after t ->
      in_cells cden (chain_reach_set cert) z.
  Proof.
    intros fuel initial safe cert LP Orb OrbT H Safe.
    unfold verify_safety in H. apply andthen_done in H. destruct H as (init1 & H1 & H).
    destruct (checked_restriction_spec _ _ _ H1) as (_ & _ & K1).
    destruct (K1 eq_refl) as (K2 & _).
    destruct (subset ceqb init1 safe) eqn:Sb; simpl in H.
    2:{ injection H as <-. discriminate. }
    apply andthen_done in H. destruct H as ((r0 & e0) & H2 & H3).
    destruct (safety_loop_spec _ _ _ _ _ _ _ _ H3 Safe) as (L & L0 & LK & acc & L1 & L2).
    { apply incl_refl. } { intros d I. left. exact I. }
    split; [exact L0|]. split.
    { intros d I. eapply subset_in; [exact Sb|]. apply K2. exact I. }
    split; [exact LK|].
    intros x t z (c & Ic & Dc) F P. apply K2 in Ic.
    assert (St : forall y, stays Error y) by (intros y s w d _ _; left; reflexivity).
    assert (Main : forall y s w, in_cells cden e0 y -> flows s y w ->
                     after s -> in_cells cden (chain_reach_set cert) w).
    { intros y s w Iy Fy Py. destruct (enough_steps _ s LP) as (n & N).
      apply (chain_covers _ _ _ _ LP Orb L2 n y s); auto.
      eapply in_cells_mono; eassumption. }
    destruct (surely_positive cf (transient_time cf)) eqn:Ts.
    - apply andthen_done in H2. destruct H2 as ((r & e) & H5 & H6).
      apply andthen_done in H6. destruct H6 as (e' & H6 & H7). injection H7 as -> ->.
      destruct (aure_spec _ _ _ _ _ _ H5) as (_ & _ & D & _).
      destruct (D c Ic) as (rs & fs & O & I1 & I2).
      destruct (OrbT eq_refl _ _ _ O x Dc) as (t' & y & A1 & A2 & (d & Id & Dd) & A4).
      destruct (Rle_dec t t') as [Le|Le].
      + eapply in_cells_mono; [exact L|]. eapply in_cells_mono; [exact I1|].
        apply (A4 t z F P Le).
      + apply (Main y (t - t')%R).
        * exists d. split; [apply I2; exact Id|exact Dd].
        * eapply (flows_shift _ Dy); try eassumption. lra.
        * apply after_pos. lra.
    - injection H2 as <- <-. apply (Main x t); try assumption. exists c. auto.
  Qed.

  (** ** Finite time *)
  (** A history of sets of cells: each evolves into the next one in a time [lock]. *)
  Definition history (lock : Q) (reach : list C) (A : nat -> list C) (m : nat) : Prop :=
    forall i c, (i < m)%nat -> In c (A i) -> recorded lock c reach (A (S i)).

  Lemma history_covers : forall lock r reach A m result,
    orbit_covers cden strict flows ev lock ->
    history lock reach A m -> incl reach result ->
    (forall x t z, in_cells cden (A m) x -> flows t x z -> (0 < t <= r)%R ->
       in_cells cden result z) ->
    forall k i x t z, (i + k = m)%nat -> in_cells cden (A i) x -> flows t x z ->
      (0 < t <= INR k * Q2R lock + r)%R -> in_cells cden result z.
  Proof.
    intros lock r reach A m result Orb Hi Sub End.
    induction k as [|k IH]; intros i x t z Ei Ix F [P T].
    - assert (i = m) by lia. subst i. simpl in T. apply (End x t z); try assumption. lra.
    - destruct Ix as (c & Ic & Dc).
      destruct (Hi i c ltac:(lia) Ic) as (rs & fs & O & I1 & I2).
      destruct (Orb _ _ _ O x Dc) as (t' & y & A1 & A2 & A3 & A4).
      destruct (Rle_dec t t') as [L|L].
      + eapply in_cells_mono; [exact Sub|]. eapply in_cells_mono; [exact I1|].
        apply (A4 t z F (after_pos _ P) L).
      + apply (IH (S i) y (t - t')%R); [lia| | |].
        * eapply in_cells_mono; eassumption.
        * eapply (flows_shift _ Dy); try eassumption. lra.
        * rewrite S_INR in T. lra.
  Qed.

  Definition extend (A : nat -> list C) (m : nat) (s : list C) (i : nat) : list C :=
    if Nat.leb i m then A i else s.

  Lemma extend_le : forall A m s i, (i <= m)%nat -> extend A m s i = A i.
  Proof. intros A m s i H. unfold extend. apply Nat.leb_le in H. rewrite H. reflexivity. Qed.

  Lemma extend_gt : forall A m s i, (m < i)%nat -> extend A m s i = s.
  Proof. intros A m s i H. unfold extend. apply Nat.leb_gt in H. rewrite H. reflexivity. Qed.

  Lemma extend_history : forall lock reach reach' A m s,
    history lock reach A m -> incl reach reach' ->
    (forall c, In c (A m) -> recorded lock c reach' s) ->
    history lock reach' (extend A m s) (S m).
  Proof.
    intros lock reach reach' A m s Hi I St i c Hlt Ic.
    rewrite extend_le in Ic by lia. destruct (Nat.eq_dec i m) as [->|N].
    - rewrite extend_gt by lia. apply St. exact Ic.
    - rewrite extend_le by lia. eapply recorded_mono; [exact I|apply incl_refl|].
      apply Hi; [lia|exact Ic].
  Qed.

  (** upper_reach_evolve *)
  Lemma upper_reach_evolve_loop_spec : forall n reach found evolve st,
    upper_reach_evolve_loop ceqb ev cf n reach found evolve = Done st ->
    let '(reach', found', evolve') := st in
    incl reach reach' /\
    forall A m, history (lock_to_grid_time cf) reach A m -> A m = evolve ->
      exists A', history (lock_to_grid_time cf) reach' A' (n + m) /\
        A' (n + m)%nat = evolve' /\ forall i, (i <= m)%nat -> A' i = A i.
  Proof.
    induction n as [|n IH]; intros reach found evolve st H; simpl in H.
    - injection H as <-. split; [apply incl_refl|]. intros A m Hi Em. exists A. auto.
    - apply andthen_done in H. destruct H as ((f1 & e1) & H1 & H2). cbn [fst snd] in H2.
      destruct (aure_spec _ _ _ _ _ _ H1) as (A1 & B & D & _).
      specialize (IH _ _ _ _ H2). destruct st as ((reach', found'), evolve').
      destruct IH as (I & K). split.
      + intros c Ic. apply I, adjoin_in. auto.
      + intros A m Hi Em.
        destruct (K (extend A m e1) (S m)) as (A' & P1 & P2 & P3).
        * eapply extend_history; [exact Hi| |].
          { intros c Ic. apply adjoin_in. auto. }
          { intros c Ic. rewrite Em in Ic. eapply recorded_mono; [| |exact (D c Ic)].
            - intros d Id. apply adjoin_in. auto.
            - apply incl_refl. }
        * rewrite extend_gt by lia. reflexivity.
        * exists A'. replace (S n + m)%nat with (n + S m)%nat by lia.
          split; [exact P1|]. split; [exact P2|]. intros i Hle. rewrite P3 by lia.
          apply extend_le. exact Hle.
  Qed.

  Lemma Q2R_of_nat : forall n, Q2R (inject_Z (Z.of_nat n)) = INR n.
  Proof. intro n. unfold Q2R. simpl. rewrite Rinv_1, Rmult_1_r, INR_IZR_INZ. reflexivity. Qed.

  Lemma remainder_R : forall time,
    Q2R (remainder_time cf time) =
    (Q2R time - INR (time_steps cf time) * Q2R (lock_to_grid_time cf))%R.
  Proof.
    intro time. unfold remainder_time. rewrite Q2R_minus, Q2R_mult, Q2R_of_nat. reflexivity.
  Qed.

  (** What the evolution for the remaining time adds. *)
  Lemma finite_covers : forall initial time reach A result,
    orbit_covers cden strict flows ev (lock_to_grid_time cf) ->
    history (lock_to_grid_time cf) reach A (time_steps cf time) -> A 0%nat = initial ->
    incl initial reach -> incl reach result ->
    ((0 < remainder_time cf time)%Q -> orbit_covers cden strict flows ev (remainder_time cf time) /\
       forall c, In c (A (time_steps cf time)) ->
         (exists e, recorded (remainder_time cf time) c result e) \/
         (remainder_time cf time <= lock_to_grid_time cf)%Q /\
         exists e, recorded (lock_to_grid_time cf) c result e) ->
    forall x t z, in_cells cden initial x -> flows t x z -> (t <= Q2R time)%R ->
      in_cells cden result z.
  Proof.
    intros initial time reach A result Orb Hi E0 Ini Sub Rem x t z Ix F T.
    pose proof (flows_nonneg _ Dy _ _ _ F) as Nn.
    destruct (Rle_lt_or_eq_dec _ _ Nn) as [P|P].
    2:{ subst t. apply (flows_zero _ Dy) in F. subst z.
        eapply in_cells_mono; [|exact Ix]. eapply incl_tran; eassumption. }
    apply (history_covers (lock_to_grid_time cf) (Q2R (remainder_time cf time)) reach A
             (time_steps cf time) result Orb Hi Sub) with (k := time_steps cf time) (i := 0%nat)
             (x := x) (t := t); [|reflexivity|rewrite E0; exact Ix|exact F|
              rewrite remainder_R; lra].
    clear x t z Ix F T Nn P.
    intros x t z (c & Ic & Dc) F [P T].
    assert (RP : (0 < remainder_time cf time)%Q).
    { apply Rlt_Qlt. replace (Q2R 0) with 0%R by (unfold Q2R; simpl; lra). lra. }
    destruct (Rem RP) as (OrbR & K).
    destruct (K c Ic) as [(e & rs & fs & O & I1 & _)|(L & e & rs & fs & O & I1 & _)].
    - destruct (OrbR _ _ _ O x Dc) as (t' & y & A1 & _ & _ & A4).
      eapply in_cells_mono; [exact I1|]. apply (A4 t z F (after_pos _ P)). lra.
    - destruct (Orb _ _ _ O x Dc) as (t' & y & A1 & _ & _ & A4). apply Qle_Rle in L.
      eapply in_cells_mono; [exact I1|]. apply (A4 t z F (after_pos _ P)). lra.
  Qed.

  Theorem upper_reach_evolve_covers : forall initial time reach evolve,
    sound_test cf ->
    orbit_covers cden strict flows ev (lock_to_grid_time cf) ->
    ((0 < remainder_time cf time)%Q -> orbit_covers cden strict flows ev (remainder_time cf time)) ->
    upper_reach_evolve ceqb ev cf initial time = Done (reach, evolve) ->
    forall x t z, in_cells cden initial x -> flows t x z -> (t <= Q2R time)%R ->
      in_cells cden reach z.
  Proof.
    intros initial time reach evolve So Orb OrbR H. unfold upper_reach_evolve in H.
    apply andthen_done in H. destruct H as (((r1 & f1) & e1) & H1 & H2).
    pose proof (upper_reach_evolve_loop_spec _ _ _ _ _ H1) as (I & K).
    destruct (K (fun _ => initial) 0%nat) as (A & P1 & P2 & P3).
    { intros i c Hlt. lia. } { reflexivity. }
    rewrite Nat.add_0_r in *.
    eapply finite_covers with (A := A) (reach := r1); [exact Orb|exact P1|apply P3; lia|exact I| |].
    - destruct (negb (is_empty e1) && maybe_positive cf (remainder_time cf time)) eqn:B.
      + apply andthen_done in H2. destruct H2 as ((f2 & e2) & H3 & H4). cbn [fst snd] in H4.
        injection H4 as <- _. intros c Ic. apply adjoin_in. auto.
      + injection H2 as <- _. apply incl_refl.
    - intro RP. split; [exact (OrbR RP)|]. rewrite P2. intros c Ic. left.
      rewrite (So _ RP), andb_true_r in H2.
      destruct (is_empty e1) eqn:Ee; cbn [negb] in H2.
      { apply is_empty_nil in Ee. rewrite Ee in Ic. destruct Ic. }
      apply andthen_done in H2. destruct H2 as ((f2 & e2) & H3 & H4). cbn [fst snd] in H4.
      injection H4 as <- <-. destruct (aure_spec _ _ _ _ _ _ H3) as (_ & _ & D & _).
      exists e2. eapply recorded_mono; [|apply incl_refl|exact (D c Ic)].
      intros d Id. apply adjoin_in. auto.
  Qed.

  (** upper_reach *)
  (** Every cell of an orbit's reach is also one of its final cells. *)
  Definition reach_final (time : Q) : Prop :=
    forall c rs fs, orbit ev (enclosure ev c) time UPPER = Some (rs, fs) ->
      incl (flat_map (outer ev) rs) (flat_map (outer ev) fs).

  Definition reach_inv (A : nat -> list C) (m : nat) (reach acc evolve : list C) : Prop :=
    history (lock_to_grid_time cf) reach A m /\
    (forall c, In c (A m) <-> In c acc \/ In c evolve) /\
    (forall c, In c (A m) -> In c evolve \/ recorded (lock_to_grid_time cf) c reach (A m)).

  Lemma closed_history : forall lock reach A m k,
    history lock reach A m -> (forall c, In c (A m) -> recorded lock c reach (A m)) ->
    history lock reach (extend A m (A m)) (k + m) /\ extend A m (A m) (k + m)%nat = A m.
  Proof.
    intros lock reach A m k Hi Cl. split.
    - intros i c Hlt Ic. destruct (le_lt_dec i m) as [L|L].
      + rewrite extend_le in Ic by lia. destruct (Nat.eq_dec i m) as [->|N].
        * rewrite extend_gt by lia. apply Cl. exact Ic.
        * rewrite extend_le by lia. apply Hi; [lia|exact Ic].
      + rewrite extend_gt in Ic by lia. rewrite extend_gt by lia. apply Cl. exact Ic.
    - destruct k; [apply extend_le; lia|apply extend_gt; lia].
  Qed.

  Lemma upper_reach_loop_spec : forall n reach found acc evolve reach' found' acc' evolve',
    upper_reach_loop ceqb ev cf n reach found acc evolve = Done (reach', found', acc', evolve') ->
    forall A m, reach_inv A m reach acc evolve ->
      (n = 0%nat \/ forall c, In c found -> In c (A m)) ->
      (n <= 1)%nat \/ reach_final (lock_to_grid_time cf) ->
      incl reach reach' /\
      exists A', (forall i, (i <= m)%nat -> A' i = A i) /\
        history (lock_to_grid_time cf) reach' A' (n + m) /\
        forall c, In c (A' (n + m)%nat) ->
          In c evolve' \/ recorded (lock_to_grid_time cf) c reach' (A' (n + m)%nat).
  Proof.
    induction n as [|n IH]; intros reach found acc evolve reach' found' acc' evolve' H A m Inv Fo Hyp;
      cbn [upper_reach_loop] in H.
    - injection H as <- <- <- <-. destruct Inv as (I1 & I2 & I3).
      split; [apply incl_refl|]. exists A. auto.
    - destruct Fo as [N|Fo]; [discriminate|].
      apply andthen_done in H. destruct H as ((f1 & e1) & H1 & H2).
      destruct (aure_spec _ _ _ _ _ _ H1) as (A1 & B1 & D1 & O1).
      set (acc1 := adj acc found) in *. set (e2 := remove ceqb e1 acc1) in *.
      destruct Inv as (I1 & I2 & I3).
      assert (E12 : incl e1 (adj acc1 e2)).
      { intros d Id. apply adjoin_in. destruct (in_dec_cells acc1 d) as [Y|Y]; [auto|].
        right. apply remove_in. auto. }
      assert (Acc : forall d, In d acc1 -> In d (A m)).
      { intros d Id. apply adjoin_in in Id. destruct Id as [Id|Id]; [apply I2; auto|auto]. }
      assert (AM : incl (A m) (adj acc1 e2)).
      { intros d Id. apply I2 in Id. destruct Id as [Id|Id]; [|apply E12, B1; exact Id].
        apply adjoin_in. left. apply adjoin_in. auto. }
      assert (Sub : incl reach (adj reach f1)) by (intros d Id; apply adjoin_in; auto).
      assert (Rec : forall c, In c (A m) ->
                recorded (lock_to_grid_time cf) c (adj reach f1) (adj acc1 e2)).
      { intros c Ic. destruct (I3 c Ic) as [J|J].
        - eapply recorded_mono; [|exact E12|exact (D1 c J)]. intros d Id. apply adjoin_in. auto.
        - eapply recorded_mono; [exact Sub|exact AM|exact J]. }
      set (A2 := extend A m (adj acc1 e2)).
      assert (A2m : A2 (S m) = adj acc1 e2) by (apply extend_gt; lia).
      assert (Inv2 : reach_inv A2 (S m) (adj reach f1) (adj acc1 e2) e2).
      { split; [|split].
        - eapply extend_history; [exact I1|exact Sub|exact Rec].
        - intro c. rewrite A2m, adjoin_in. tauto.
        - intros c Ic. rewrite A2m in *. apply adjoin_in in Ic. destruct Ic as [Ic|Ic]; [|auto].
          right. apply Rec, Acc. exact Ic. }
      destruct (is_empty e2) eqn:Ee.
      + injection H2 as <- <- <- <-. split; [exact Sub|].
        apply is_empty_nil in Ee. destruct Inv2 as (J1 & J2 & J3).
        destruct (closed_history _ _ _ _ n J1) as (K1 & K2).
        { intros c Ic. destruct (J3 c Ic) as [Z|Z]; [rewrite Ee in Z; destruct Z|exact Z]. }
        exists (extend A2 (S m) (A2 (S m))). split.
        { intros i Hi. rewrite extend_le by lia. apply extend_le. lia. }
        replace (S n + m)%nat with (n + S m)%nat by lia. split; [exact K1|].
        rewrite K2. exact J3.
      + destruct (IH _ _ _ _ _ _ _ _ H2 A2 (S m) Inv2) as (L1 & A' & L2 & L3 & L4).
        * destruct Hyp as [Hyp|Hyp]; [left; lia|]. right. intros d Id. rewrite A2m.
          destruct (O1 d Id) as [J|(c & rs & fs & Ic & O & J)]; [apply AM; auto|].
          destruct (D1 c Ic) as (rs' & fs' & O' & _ & J2).
          assert (fs' = fs) by congruence. subst fs'.
          apply E12, J2. exact (Hyp _ _ _ O d J).
        * destruct Hyp as [Hyp|Hyp]; [left; lia|auto].
        * split; [eapply incl_tran; eassumption|]. exists A'.
          replace (S n + m)%nat with (n + S m)%nat by lia. split; [|auto].
          intros i Hi. rewrite L2 by lia. apply extend_le. lia.
  Qed.

  Theorem upper_reach_covers : forall initial time result,
    sound_test cf ->
    orbit_covers cden strict flows ev (lock_to_grid_time cf) ->
    ((0 < remainder_time cf time)%Q -> orbit_covers cden strict flows ev (remainder_time cf time)) ->
    (time_steps cf time <= 1)%nat \/ reach_final (lock_to_grid_time cf) ->
    (remainder_time cf time <= lock_to_grid_time cf)%Q ->
    upper_reach ceqb ev cf initial time = Done result ->
    forall x t z, in_cells cden initial x -> flows t x z -> (t <= Q2R time)%R ->
      in_cells cden result z.
  Proof.
    intros initial time result So Orb OrbR Hyp Le H. unfold upper_reach in H.
    apply andthen_done in H. destruct H as ((((r1 & f1) & a1) & e1) & H1 & H2).
    destruct (upper_reach_loop_spec _ _ _ _ _ _ _ _ _ H1 (fun _ => initial) 0%nat)
      as (I & A & P1 & P2 & P3); [|right; intros c []|exact Hyp|].
    { split; [intros i c Hlt; lia|]. split; [intro c; simpl; tauto|auto]. }
    rewrite Nat.add_0_r in *.
    assert (Sub : incl r1 result).
    { destruct (negb (is_empty e1) && maybe_positive cf (remainder_time cf time)) eqn:B.
      - apply andthen_done in H2. destruct H2 as ((f2 & e2) & H3 & H4). cbn [fst snd] in H4.
        injection H4 as <-. intros c Ic. rewrite !adjoin_in. auto.
      - injection H2 as <-. intros c Ic. apply adjoin_in. auto. }
    eapply finite_covers with (A := A) (reach := r1);
      [exact Orb|exact P2|apply P1; lia|exact I|exact Sub|].
    intro RP. split; [exact (OrbR RP)|]. intros c Ic. destruct (P3 c Ic) as [J|J].
    - left. rewrite (So _ RP), andb_true_r in H2.
      destruct (is_empty e1) eqn:Ee; cbn [negb] in H2.
      { apply is_empty_nil in Ee. rewrite Ee in J. destruct J. }
      apply andthen_done in H2. destruct H2 as ((f2 & e2) & H3 & H4). cbn [fst snd] in H4.
      injection H4 as <-. destruct (aure_spec _ _ _ _ _ _ H3) as (_ & _ & D & _).
      exists e2. eapply recorded_mono; [|apply incl_refl|exact (D c J)].
      intros d Id. rewrite !adjoin_in. auto.
    - right. split; [exact Le|]. exists (A (time_steps cf time)).
      eapply recorded_mono; [exact Sub|apply incl_refl|exact J].
  Qed.

  (** upper_evolve *)
  Lemma upper_evolve_from_spec : forall set res tm out,
    upper_evolve_from ceqb ev res set tm = Done out ->
    incl res out /\ forall c, In c set -> exists rs fs,
      orbit ev (enclosure ev c) tm UPPER = Some (rs, fs) /\ incl (flat_map (outer ev) fs) out.
  Proof.
    induction set as [|c set IH]; intros res tm out H; simpl in H.
    - injection H as <-. split; [apply incl_refl|]. intros c [].
    - destruct (orbit ev (enclosure ev c) tm UPPER) as [[rs fs]|] eqn:O; [|discriminate].
      destruct (IH _ _ _ H) as (A & B). split.
      + intros d I. apply A. apply adjoin_all_in. auto.
      + intros d [<-|I]; [|apply B; exact I].
        exists rs, fs. split; [exact O|]. intros d I. apply A. apply adjoin_all_in. auto.
  Qed.

  (** Trajectories from the cells [s] exist until time [t] and are then in [s']. *)
  Definition carries (s : list C) (t : R) (s' : list C) : Prop :=
    forall x, in_cells cden s x -> exists y, flows t x y /\ in_cells cden s' y.

  Lemma carries_trans : forall s1 t1 s2 t2 s3,
    carries s1 t1 s2 -> carries s2 t2 s3 -> carries s1 (t1 + t2) s3.
  Proof.
    intros s1 t1 s2 t2 s3 H1 H2 x Ix. destruct (H1 x Ix) as (y & F & Iy).
    destruct (H2 y Iy) as (z & G & Iz). exists z. split; [|exact Iz].
    eapply (flows_add _ Dy); eassumption.
  Qed.

  Lemma carries_unique : forall s t s' x z, carries s t s' -> in_cells cden s x ->
    flows t x z -> in_cells cden s' z.
  Proof.
    intros s t s' x z H Ix F. destruct (H x Ix) as (y & G & Iy).
    assert (Z : flows (t - t) y z) by (eapply (flows_shift _ Dy); try eassumption; lra).
    rewrite Rminus_diag_eq in Z by reflexivity. apply (flows_zero _ Dy) in Z. subst. exact Iy.
  Qed.

  Lemma carries_0 : forall s, carries s 0 s.
  Proof. intros s x Ix. exists x. split; [apply (flows_start _ Dy)|exact Ix]. Qed.

  Lemma upper_evolve_step_carries : forall set tm out, orbit_exact cden flows ev tm ->
    upper_evolve_step ceqb ev set tm = Done out -> carries set (Q2R tm) out.
  Proof.
    intros set tm out Ex H x (c & Ic & Dc).
    destruct (upper_evolve_from_spec _ _ _ _ H) as (_ & K).
    destruct (K c Ic) as (rs & fs & O & I). destruct (Ex _ _ _ O x Dc) as (y & F & Iy).
    exists y. split; [exact F|]. eapply in_cells_mono; eassumption.
  Qed.

  Lemma repeat_evolve_carries : forall n s out,
    orbit_exact cden flows ev (lock_to_grid_time cf) ->
    repeat_evolve ceqb ev cf n s = Done out ->
    carries s (INR n * Q2R (lock_to_grid_time cf)) out.
  Proof.
    intros n s out Ex. revert s out. induction n as [|n IH]; intros s out H; cbn [repeat_evolve] in H.
    - injection H as <-. simpl. rewrite Rmult_0_l. apply carries_0.
    - apply andthen_done in H. destruct H as (s1 & H1 & H2).
      rewrite S_INR. replace ((INR n + 1) * Q2R (lock_to_grid_time cf))%R
        with (Q2R (lock_to_grid_time cf) + INR n * Q2R (lock_to_grid_time cf))%R by ring.
      eapply carries_trans; [eapply upper_evolve_step_carries; eassumption|apply IH; exact H2].
  Qed.

  Lemma carries_eq : forall s t t' s', t = t' -> carries s t s' -> carries s t' s'.
  Proof. intros s t t' s' ->. auto. Qed.

  Lemma empty_carries : forall t s', carries [] t s'.
  Proof. intros t s' x (c & [] & _). Qed.

  Theorem upper_evolve_covers : forall initial time result,
    sound_test cf ->
    orbit_exact cden flows ev (lock_to_grid_time cf) ->
    (0 <= remainder_time cf time)%Q ->
    (maybe_positive cf (remainder_time cf time) = true ->
       orbit_exact cden flows ev (remainder_time cf time)) ->
    upper_evolve ceqb ev cf initial time = Done result ->
    forall x z, in_cells cden initial x -> flows (Q2R time) x z -> in_cells cden result z.
  Proof.
    intros initial time result So Ex Rn ExR H x z Ix F.
    unfold upper_evolve in H. apply andthen_done in H. destruct H as (e1 & H1 & H2).
    apply (carries_unique initial (Q2R time) result x z); [|exact Ix|exact F]. clear x z Ix F.
    apply repeat_evolve_carries in H1; [|exact Ex].
    apply carries_eq with (t := (INR (time_steps cf time) * Q2R (lock_to_grid_time cf) +
                                 Q2R (remainder_time cf time))%R).
    { rewrite remainder_R. ring. }
    eapply carries_trans; [exact H1|].
    destruct (is_empty e1) eqn:Ee; cbn [negb andb] in H2.
    { apply is_empty_nil in Ee. subst. apply empty_carries. }
    destruct (maybe_positive cf (remainder_time cf time)) eqn:B.
    - eapply upper_evolve_step_carries; [exact (ExR eq_refl)|exact H2].
    - injection H2 as <-. apply carries_eq with (t := 0%R); [|apply carries_0].
      destruct (Qlt_le_dec 0 (remainder_time cf time)) as [P|P].
      { rewrite (So _ P) in B. discriminate. }
      apply Qle_Rle in P, Rn. replace (Q2R 0) with 0%R in * by (unfold Q2R; simpl; lra). lra.
  Qed.

  Lemma reach_evolve_loop_carries : forall n reach found evolve reach' found' evolve',
    orbit_exact cden flows ev (lock_to_grid_time cf) ->
    upper_reach_evolve_loop ceqb ev cf n reach found evolve = Done (reach', found', evolve') ->
    carries evolve (INR n * Q2R (lock_to_grid_time cf)) evolve'.
  Proof.
    intros n reach found evolve reach' found' evolve' Ex. revert reach found evolve.
    induction n as [|n IH]; intros reach found evolve H; cbn [upper_reach_evolve_loop] in H.
    - injection H as _ _ <-. simpl. rewrite Rmult_0_l. apply carries_0.
    - apply andthen_done in H. destruct H as ((f1 & e1) & H1 & H2). cbn [fst snd] in H2.
      destruct (aure_spec _ _ _ _ _ _ H1) as (_ & _ & D & _).
      rewrite S_INR. replace ((INR n + 1) * Q2R (lock_to_grid_time cf))%R
        with (Q2R (lock_to_grid_time cf) + INR n * Q2R (lock_to_grid_time cf))%R by ring.
      eapply carries_trans; [|eapply IH; exact H2].
      intros x (c & Ic & Dc). destruct (D c Ic) as (rs & fs & O & _ & I).
      destruct (Ex _ _ _ O x Dc) as (y & F & Iy). exists y. split; [exact F|].
      eapply in_cells_mono; eassumption.
  Qed.

  Theorem upper_reach_evolve_final : forall initial time reach evolve,
    sound_test cf ->
    orbit_exact cden flows ev (lock_to_grid_time cf) ->
    (0 <= remainder_time cf time)%Q ->
    (maybe_positive cf (remainder_time cf time) = true ->
       orbit_exact cden flows ev (remainder_time cf time)) ->
    upper_reach_evolve ceqb ev cf initial time = Done (reach, evolve) ->
    forall x z, in_cells cden initial x -> flows (Q2R time) x z -> in_cells cden evolve z.
  Proof.
    intros initial time reach evolve So Ex Rn ExR H x z Ix F.
    unfold upper_reach_evolve in H. apply andthen_done in H.
    destruct H as (((r1 & f1) & e1) & H1 & H2).
    apply (carries_unique initial (Q2R time) evolve x z); [|exact Ix|exact F]. clear x z Ix F.
    apply reach_evolve_loop_carries in H1; [|exact Ex].
    apply carries_eq with (t := (INR (time_steps cf time) * Q2R (lock_to_grid_time cf) +
                                 Q2R (remainder_time cf time))%R).
    { rewrite remainder_R. ring. }
    eapply carries_trans; [exact H1|].
    destruct (is_empty e1) eqn:Ee; cbn [negb andb] in H2.
    { apply is_empty_nil in Ee. rewrite Ee. apply empty_carries. }
    destruct (maybe_positive cf (remainder_time cf time)) eqn:B.
    - apply andthen_done in H2. destruct H2 as ((f2 & e2) & H3 & H4). cbn [fst snd] in H4.
      injection H4 as _ <-. destruct (aure_spec _ _ _ _ _ _ H3) as (_ & _ & D & _).
      intros x (c & Ic & Dc). destruct (D c Ic) as (rs & fs & O & _ & I).
      destruct (ExR eq_refl _ _ _ O x Dc) as (y & F & Iy). exists y. split; [exact F|].
      eapply in_cells_mono; eassumption.
    - injection H2 as _ <-. apply carries_eq with (t := 0%R); [|apply carries_0].
      destruct (Qlt_le_dec 0 (remainder_time cf time)) as [P|P].
      { rewrite (So _ P) in B. discriminate. }
      apply Qle_Rle in P, Rn. replace (Q2R 0) with 0%R in * by (unfold Q2R; simpl; lra). lra.
  Qed.
End Proofs.

(** ** The two kinds of dynamics *)
Lemma flow_is_dynamics : forall X (phi : R -> X -> X), is_flow phi -> dynamics (flow_dynamics phi).
Proof.
  intros X phi [F0 Fa]. split; unfold flow_dynamics.
  - intros t x y [H _]. exact H.
  - intro x. split; [lra|]. rewrite F0. reflexivity.
  - intros x y [_ ->]. apply F0.
  - intros s t x y z [H1 ->] [H2 ->]. split; [lra|]. rewrite <- Fa by lra. reflexivity.
  - intros s t x y z [H1 ->] [H2 ->] L. split; [lra|]. rewrite <- Fa by lra. f_equal. lra.
Qed.

Lemma iterate_add : forall X (f : X -> X) m n x, iterate f (m + n) x = iterate f n (iterate f m x).
Proof. induction m as [|m IH]; intros n x; simpl; [reflexivity|]. apply IH. Qed.

Lemma map_is_dynamics : forall X (f : X -> X), dynamics (map_dynamics f).
Proof.
  intros X f. split; unfold map_dynamics.
  - intros t x y (n & -> & _). apply pos_INR.
  - intro x. exists 0%nat. split; reflexivity.
  - intros x y (n & H & ->). destruct n; [reflexivity|]. rewrite S_INR in H.
    pose proof (pos_INR n). lra.
  - intros s t x y z (m & -> & ->) (n & -> & ->). exists (m + n)%nat. split.
    + rewrite plus_INR. ring.
    + symmetry. apply iterate_add.
  - intros s t x y z (m & -> & ->) (n & -> & ->) L. apply INR_le in L.
    exists (n - m)%nat. split; [rewrite minus_INR; auto|].
    rewrite <- iterate_add. f_equal. lia.
Qed.

Section Contracts.
  Context {X E C : Type} (cden : C -> X -> Prop) (den : E -> X -> Prop).
  Variable ev : evolver E C.
  Hypothesis Gs : grid_sound cden den ev.

  Lemma covered_cells : forall l x, covered den l x -> in_cells cden (flat_map (outer ev) l) x.
  Proof.
    intros l x (e & I & D). destruct (proj2 Gs e x D) as (c & Ic & Dc).
    exists c. split; [|exact Dc]. apply in_flat_map. exists e. auto.
  Qed.

  Lemma flow_orbit_covers : forall (phi : R -> X -> X) o c T,
    is_flow phi -> rigorous den phi o -> uses_flow_evolver o c ev -> (0 < T)%Q ->
    orbit_covers cden false (flow_dynamics phi) ev T.
  Proof.
    intros phi o c T Fl Ri U P cl rs fs H x Dx.
    destruct (U _ _ _ _ H) as (l & Rt & -> & ->).
    destruct (returns_follows den phi o Fl Ri _ _ _ _ Rt x (proj1 Gs _ _ Dx)) as (t' & A & B & D & F).
    apply Qpos_R in P. replace (Q2R 0) with 0%R in * by (unfold Q2R; simpl; lra).
    exists t', (phi t' x). split; [lra|]. split; [split; [lra|reflexivity]|].
    split; [apply covered_cells; exact D|].
    intros s z (Hs & ->) _ L. apply covered_cells. apply F; lra.
  Qed.

  Lemma map_orbit_sound : forall (f : X -> X) o c n cl rs fs,
    map_rigorous den f o -> uses_map_evolver o c ev ->
    orbit ev (enclosure ev cl) (inject_Z (Z.of_nat n)) UPPER = Some (rs, fs) ->
    forall x, cden cl x ->
      in_cells cden (flat_map (outer ev) fs) (iterate f n x) /\
      forall k, (1 <= k <= n)%nat -> in_cells cden (flat_map (outer ev) rs) (iterate f k x).
  Proof.
    intros f o c n cl rs fs Ri U H x Dx.
    destruct (U _ _ _ _ H) as (fuel & l & M & -> & ->).
    pose proof (map_evolution_covers den f o Ri _ _ _ _ _ _ M
                  0%Z (enclosure ev cl) x (or_introl eq_refl) (proj1 Gs _ _ Dx)) as K.
    rewrite Z.sub_0_r, Nat2Z.id in K. destruct K as (K1 & K2).
    split; [apply covered_cells; exact K1|]. intros k Hk. apply covered_cells, K2. exact Hk.
  Qed.

  Lemma Q2R_nat : forall n, Q2R (inject_Z (Z.of_nat n)) = INR n.
  Proof. intro n. unfold Q2R. simpl. rewrite Rinv_1, Rmult_1_r, INR_IZR_INZ. reflexivity. Qed.

  Lemma map_orbit_covers : forall (f : X -> X) o c n,
    map_rigorous den f o -> uses_map_evolver o c ev ->
    orbit_covers cden true (map_dynamics f) ev (inject_Z (Z.of_nat n)).
  Proof.
    intros f o c n Ri U cl rs fs H x Dx.
    destruct (map_orbit_sound f o c n cl rs fs Ri U H x Dx) as (A & B).
    exists (INR n), (iterate f n x). rewrite Q2R_nat. split; [lra|].
    split; [exists n; auto|]. split; [exact A|].
    intros s z (k & -> & ->) P L. apply INR_le in L. apply B. split; [|exact L].
    destruct k; [simpl in P; lra|lia].
  Qed.

  Lemma map_orbit_exact : forall (f : X -> X) o c n,
    map_rigorous den f o -> uses_map_evolver o c ev ->
    orbit_exact cden (map_dynamics f) ev (inject_Z (Z.of_nat n)).
  Proof.
    intros f o c n Ri U cl rs fs H x Dx.
    destruct (map_orbit_sound f o c n cl rs fs Ri U H x Dx) as (A & _).
    exists (iterate f n x). rewrite Q2R_nat. split; [exists n; auto|exact A].
  Qed.
End Contracts.

(** Rounding to the nearest integer leaves a remainder of at most half a step. *)
Lemma round_rational_near : forall q,
  (q - (1#2) <= inject_Z (round_rational q) <= q + (1#2))%Q.
Proof.
  intros [n d].
  assert (H : (2 * n - Z.pos d <= 2 * Z.pos d * round_rational (n # d) <= 2 * n + Z.pos d)%Z).
  { unfold round_rational. simpl Qnum. simpl Qden. cbv zeta.
    destruct (Z.leb_spec 0 (2 * n)) as [S|S].
    - rewrite Z.quot_div_nonneg by lia.
      pose proof (Z.div_mod (2 * n + Z.pos d) (2 * Z.pos d) ltac:(lia)) as D.
      pose proof (Z.mod_pos_bound (2 * n + Z.pos d) (2 * Z.pos d) ltac:(lia)) as M.
      lia.
    - replace (2 * n - Z.pos d)%Z with (- (Z.pos d - 2 * n))%Z by ring.
      rewrite Z.quot_opp_l by lia. rewrite Z.quot_div_nonneg by lia.
      pose proof (Z.div_mod (Z.pos d - 2 * n) (2 * Z.pos d) ltac:(lia)) as D.
      pose proof (Z.mod_pos_bound (Z.pos d - 2 * n) (2 * Z.pos d) ltac:(lia)) as M.
      lia. }
  revert H. generalize (round_rational (n # d)). intros m H.
  unfold Qle, inject_Z. simpl. rewrite ?Pos2Z.inj_mul, ?Pos.mul_1_r. lia.
Qed.

Lemma round_rational_nonneg : forall q, (0 <= q)%Q -> (0 <= round_rational q)%Z.
Proof.
  intros [n d] H. unfold Qle in H. simpl in H. rewrite Z.mul_1_r in H.
  unfold round_rational. simpl Qnum. simpl Qden. cbv zeta.
  destruct (Z.leb_spec 0 (2 * n)); [|lia]. apply Z.quot_pos; lia.
Qed.

Lemma rounding_remainder : forall C (cf : settings C) time,
  round cf = round_rational -> (0 <= time)%Q -> (0 < lock_to_grid_time cf)%Q ->
  (remainder_time cf time <= lock_to_grid_time cf)%Q.
Proof.
  intros C cf time E P L. unfold remainder_time, time_steps. rewrite E.
  set (l := lock_to_grid_time cf) in *. set (q := (time / l)%Q).
  assert (Q0 : (0 <= q)%Q). { unfold q. apply Qle_shift_div_l; [exact L|]. Lqa.lra. }
  destruct (round_rational_near q) as (A & B).
  pose proof (round_rational_nonneg q Q0) as Z0.
  rewrite Z2Nat.id by exact Z0.
  assert (T : (time == q * l)%Q). { unfold q. field. intro N. rewrite N in L. discriminate. }
  assert (H : ((q - inject_Z (round_rational q)) * l <= 1 * l)%Q).
  { apply Qmult_le_compat_r; Lqa.lra. }
  rewrite T. Lqa.lra.
Qed.

(** ** Termination in a bounded domain *)
Section Termination.
  Context {E C : Type} (ceqb : C -> C -> bool).
  Hypothesis Ceq : cell_eq ceqb.
  Variables (ev : evolver E C) (cf : settings C).
  Definition returns_for (T : Q) : Prop := forall c, orbit ev (enclosure ev c) T UPPER <> None.
  Hypothesis total : returns_for (lock_to_grid_time cf).
  Hypothesis total' : returns_for (transient_time cf).
  Variable K : list C.
  Hypothesis bounded : forall c, kept cf c -> In c K.

  Lemma aure_total : forall set tm r e, returns_for tm -> exists r' e',
    adjoin_upper_reach_evolve ceqb ev r e set tm = Done (r', e').
  Proof.
    induction set as [|c set IH]; intros tm r e H; simpl; [eauto|].
    destruct (orbit ev (enclosure ev c) tm UPPER) as [[rs fs]|] eqn:O; [apply IH; exact H|].
    destruct (H _ O).
  Qed.

  (** The number of cells of [K] not yet accumulated. *)
  Definition missing (acc : list C) : nat :=
    length (filter (fun c => negb (contains ceqb acc c)) K).

  Lemma filter_shrinks : forall (f g : C -> bool) l,
    (forall c, g c = true -> f c = true) -> (length (filter g l) <= length (filter f l))%nat.
  Proof.
    intros f g l H. induction l as [|a l IH]; simpl; [lia|].
    destruct (g a) eqn:G; [rewrite (H a G); simpl; lia|]. destruct (f a); simpl; lia.
  Qed.

  Lemma filter_shrinks_lt : forall (f g : C -> bool) l c,
    (forall c, g c = true -> f c = true) -> In c l -> f c = true -> g c = false ->
    (length (filter g l) < length (filter f l))%nat.
  Proof.
    intros f g l c H I F G. induction l as [|a l IH]; simpl; [destruct I|].
    destruct I as [->|I].
    - rewrite F, G. pose proof (filter_shrinks f g l H). simpl. lia.
    - specialize (IH I). destruct (g a) eqn:Ga; [rewrite (H a Ga); simpl; lia|].
      destruct (f a); simpl; lia.
  Qed.

  Lemma restriction_kept : forall p s s', checked_restriction ceqb cf p s = Done s' ->
    forall c, In c s' -> kept cf c.
  Proof.
    intros p s s' H c I. unfold checked_restriction in H.
    assert (G : In c (if is_empty (bounding cf) then restrict_to (in_extent cf) s
                      else restrict ceqb (restrict_to (in_extent cf) s) (bounding cf)) -> kept cf c).
    { clear I H. intro I. unfold kept. destruct (is_empty (bounding cf)) eqn:Eb.
      - apply is_empty_nil in Eb. apply filter_In in I. tauto.
      - apply filter_In in I. destruct I as [I J]. apply filter_In in I.
        apply (contains_in _ Ceq) in J. tauto. }
    destruct p; [injection H as <-; auto|injection H as <-; auto|].
    destruct (is_empty _) in H; [|discriminate]. injection H as <-. auto.
  Qed.

  Lemma restriction_not_stuck : forall p s, checked_restriction ceqb cf p s <> Stuck.
  Proof.
    intros p s H. unfold checked_restriction in H. destruct p; try discriminate.
    destruct (is_empty _) in H; discriminate.
  Qed.

  Lemma chain_loop_total : forall fuel reach evolve starting acc,
    (missing acc + (if is_empty starting then 0 else 1) < fuel)%nat ->
    chain_loop ceqb ev cf fuel reach evolve starting acc <> Stuck.
  Proof.
    induction fuel as [|k IH]; intros reach evolve starting acc Lt; [lia|].
    cbn [chain_loop]. destruct (is_empty starting) eqn:Es; [discriminate|].
    destruct (aure_total starting (lock_to_grid_time cf) reach evolve total) as (r1 & e1 & ->).
    cbn [andthen]. destruct (checked_restriction ceqb cf (overspill cf) e1) as [e2| |] eqn:Cr;
      cbn [andthen]; [|discriminate|exact (fun _ => restriction_not_stuck _ _ Cr)].
    apply IH. set (st := remove ceqb e2 acc).
    assert (Mono : (missing (adjoin ceqb acc st) <= missing acc)%nat).
    { apply filter_shrinks. intros c. rewrite !negb_true_iff, <- !not_true_iff_false.
      rewrite !(contains_in _ Ceq), (adjoin_in _ Ceq). tauto. }
    destruct st as [|c st'] eqn:Est; cbn [is_empty]; [lia|].
    assert (Ic : In c e2 /\ ~ In c acc).
    { apply (remove_in _ Ceq). fold st. rewrite Est. left. reflexivity. }
    assert (Strict : (missing (adjoin ceqb acc (c :: st')) < missing acc)%nat).
    { apply filter_shrinks_lt with (c := c).
      - intros d. rewrite !negb_true_iff, <- !not_true_iff_false.
        rewrite !(contains_in _ Ceq), (adjoin_in _ Ceq). tauto.
      - apply bounded. eapply restriction_kept; [exact Cr|apply Ic].
      - rewrite negb_true_iff, <- not_true_iff_false, (contains_in _ Ceq). apply Ic.
      - rewrite negb_false_iff, (contains_in _ Ceq), (adjoin_in _ Ceq). right. left. reflexivity. }
    lia.
  Qed.

  Lemma missing_le : forall acc, (missing acc <= length K)%nat.
  Proof.
    intro acc. unfold missing. generalize (fun c => negb (contains ceqb acc c)). intro f.
    assert (G : forall l : list C, (length (filter f l) <= length l)%nat).
    { induction l as [|a l IH]; simpl; [lia|]. destruct (f a); simpl; lia. }
    apply G.
  Qed.

  Lemma outer_chain_reach_total : forall fuel initial, (length K + 1 < fuel)%nat ->
    outer_chain_reach ceqb ev cf fuel initial <> Stuck.
  Proof.
    intros fuel initial Lt. unfold outer_chain_reach.
    destruct (checked_restriction ceqb cf (overspill cf) initial) as [i1| |] eqn:Cr;
      cbn [andthen]; [|discriminate|exact (fun _ => restriction_not_stuck _ _ Cr)].
    assert (Rest : forall r e, andthen (chain_loop ceqb ev cf fuel r e e e)
              (checked_restriction ceqb cf (overspill cf)) <> Stuck).
    { intros r e H. destruct (chain_loop ceqb ev cf fuel r e e e) as [r1| |] eqn:Cl;
        cbn [andthen] in H; [exact (restriction_not_stuck _ _ H)|discriminate|].
      revert Cl. apply chain_loop_total. pose proof (missing_le e). destruct (is_empty e); lia. }
    destruct (surely_positive cf (transient_time cf)); [|apply Rest].
    destruct (aure_total i1 (transient_time cf) [] [] total') as (r1 & e1 & ->). cbn [andthen fst snd].
    destruct (checked_restriction ceqb cf (overspill cf) e1) as [e2| |] eqn:Cr2;
      cbn [andthen]; [apply Rest|discriminate|exact (fun _ => restriction_not_stuck _ _ Cr2)].
  Qed.
End Termination.
