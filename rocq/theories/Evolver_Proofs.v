(** Proofs about the evolvers. *)
From Coq Require Import List Bool Reals QArith Qround Qreals Permutation Lia Lra Wf_nat.
From Coq Require Lqa.
From Verif Require Import Evolver_Model Evolver_Spec.
Import ListNotations.

Section Runs.
  Context {E : Type} (o : ops E) (c : config) (T : Q) (sem : semantics).

  (** What remains to be recorded by an item, and in how many steps. *)
  Inductive yields : item E -> list (entry E) -> nat -> Prop :=
  | y_task : forall tk L k, yields (Running (process o c T sem tk)) L k ->
      yields (Waiting tk) L (S k)
  | y_nil : yields (Running []) [] 1
  | y_rec : forall en l L k, yields (Running l) L k ->
      yields (Running (Record_ en :: l)) (en :: L) (S k)
  | y_app : forall tk l L1 k1 L2 k2, yields (Waiting tk) L1 k1 -> yields (Running l) L2 k2 ->
      yields (Running (Append tk :: l)) (L1 ++ L2) (S (k1 + k2)).

  Inductive yields_all : list (item E) -> list (entry E) -> nat -> Prop :=
  | ya_nil : yields_all [] [] 0
  | ya_cons : forall i b L1 k1 L2 k2, yields i L1 k1 -> yields_all b L2 k2 ->
      yields_all (i :: b) (L1 ++ L2) (k1 + k2).

  Lemma ya_inv : forall i b L k, yields_all (i :: b) L k ->
    exists L1 k1 L2 k2, yields i L1 k1 /\ yields_all b L2 k2 /\ L = L1 ++ L2 /\ k = (k1 + k2)%nat.
  Proof. intros i b L k H. inversion H; subst. eauto 10. Qed.

  Lemma y_task_inv : forall tk L k, yields (Waiting tk) L k ->
    exists k', k = S k' /\ yields (Running (process o c T sem tk)) L k'.
  Proof. intros tk L k H. inversion H; subst. eauto. Qed.

  Lemma y_nil_inv : forall L k, yields (Running []) L k -> L = [] /\ k = 1%nat.
  Proof. intros L k H. inversion H; subst. auto. Qed.

  Lemma y_rec_inv : forall en l L k, yields (Running (Record_ en :: l)) L k ->
    exists L' k', k = S k' /\ L = en :: L' /\ yields (Running l) L' k'.
  Proof. intros en l L k H. inversion H; subst. eauto. Qed.

  Lemma y_app_inv : forall tk l L k, yields (Running (Append tk :: l)) L k ->
    exists L1 k1 L2 k2, k = S (k1 + k2) /\ L = L1 ++ L2 /\
      yields (Waiting tk) L1 k1 /\ yields (Running l) L2 k2.
  Proof. intros tk l L k H. inversion H; subst. eauto 10. Qed.

  Lemma yields_all_app : forall b1 b2 L k, yields_all (b1 ++ b2) L k <->
    exists L1 k1 L2 k2, yields_all b1 L1 k1 /\ yields_all b2 L2 k2 /\
      L = L1 ++ L2 /\ k = (k1 + k2)%nat.
  Proof.
    induction b1 as [|i b1 IH]; intros b2 L k; simpl; split.
    - intro H. exists [], 0%nat, L, k. split; [constructor|]. auto.
    - intros (L1 & k1 & L2 & k2 & H1 & H2 & -> & ->). inversion H1; subst. exact H2.
    - intro H. apply ya_inv in H. destruct H as (L1 & k1 & L2 & k2 & H0 & H4 & -> & ->).
      apply IH in H4. destruct H4 as (M1 & j1 & M2 & j2 & A1 & A2 & -> & ->).
      exists (L1 ++ M1), (k1 + j1)%nat, M2, j2. split; [constructor; assumption|].
      split; [assumption|]. rewrite app_assoc. split; [reflexivity|lia].
    - intros (L1 & k1 & L2 & k2 & H1 & H2 & -> & ->). apply ya_inv in H1.
      destruct H1 as (M1 & j1 & M2 & j2 & A1 & A2 & -> & ->).
      rewrite <- app_assoc. rewrite <- Nat.add_assoc. constructor; [assumption|].
      apply IH. eauto 10.
  Qed.

  Lemma yields_all_one : forall i L k, yields_all [i] L k <-> yields i L k.
  Proof.
    intros i L k. split; intro H.
    - apply ya_inv in H. destruct H as (M1 & j1 & M2 & j2 & A1 & A2 & -> & ->).
      inversion A2; subst. rewrite app_nil_r, Nat.add_0_r. assumption.
    - rewrite <- (app_nil_r L), <- (Nat.add_0_r k). constructor; [assumption|constructor].
  Qed.

  Lemma yields_all_mid : forall b1 i b2 L k, yields_all (b1 ++ i :: b2) L k <->
    exists L1 k1 L0 k0 L2 k2, yields_all b1 L1 k1 /\ yields i L0 k0 /\ yields_all b2 L2 k2 /\
      L = L1 ++ L0 ++ L2 /\ k = (k1 + (k0 + k2))%nat.
  Proof.
    intros. rewrite yields_all_app. split.
    - intros (L1 & k1 & L2 & k2 & H1 & H2 & -> & ->). apply ya_inv in H2.
      destruct H2 as (M1 & j1 & M2 & j2 & A1 & A2 & -> & ->).
      exists L1, k1, M1, j1, M2, j2. auto.
    - intros (L1 & k1 & L0 & k0 & L2 & k2 & H1 & H0 & H2 & -> & ->).
      exists L1, k1, (L0 ++ L2), (k0 + k2)%nat. split; [assumption|].
      split; [constructor; assumption|]. auto.
  Qed.

  Lemma step_yields : forall s s', step o c T sem s s' ->
    forall L k, yields_all (items s) L k ->
    exists L' k', yields_all (items s') L' k' /\
      Permutation (log s ++ L) (log s' ++ L') /\ k = S k'.
  Proof.
    intros s s' Hs L k H. destruct Hs as [b1 b2 lg tk|b1 b2 lg en l|b1 b2 lg tk l|b1 b2 lg];
      simpl in *; apply yields_all_mid in H;
      destruct H as (L1 & k1 & L0 & k0 & L2 & k2 & H1 & H0 & H2 & -> & ->).
    - apply y_task_inv in H0. destruct H0 as (k & -> & H0).
      exists (L1 ++ L0 ++ L2), (k1 + (k + k2))%nat. split; [|split; [reflexivity|lia]].
      apply yields_all_mid. exists L1, k1, L0, k, L2, k2. auto.
    - apply y_rec_inv in H0. destruct H0 as (L & k & -> & -> & H0).
      exists (L1 ++ L ++ L2), (k1 + (k + k2))%nat. split; [|split; [|lia]].
      + apply yields_all_mid. exists L1, k1, L, k, L2, k2. auto.
      + rewrite <- app_assoc. apply Permutation_app_head. simpl.
        symmetry. apply Permutation_middle.
    - apply y_app_inv in H0. destruct H0 as (L4 & k4 & L3 & k3 & -> & -> & H4 & H3).
      exists (L1 ++ L3 ++ (L2 ++ L4)), (k1 + (k3 + (k2 + k4)))%nat. split; [|split; [|lia]].
      + apply yields_all_mid. exists L1, k1, L3, k3, (L2 ++ L4), (k2 + k4)%nat.
        split; [assumption|]. split; [assumption|]. split; [|auto].
        apply yields_all_app. exists L2, k2, L4, k4. split; [assumption|].
        split; [apply yields_all_one; assumption|]. auto.
      + apply Permutation_app_head, Permutation_app_head.
        rewrite <- app_assoc. rewrite Permutation_app_comm. rewrite <- app_assoc. reflexivity.
    - apply y_nil_inv in H0. destruct H0 as [-> ->].
      exists (L1 ++ L2), (k1 + k2)%nat. split; [|split; [reflexivity|lia]].
      apply yields_all_app. eauto 10.
  Qed.

  Lemma step_yields_back : forall s s', step o c T sem s s' ->
    forall L' k', yields_all (items s') L' k' ->
    exists L, yields_all (items s) L (S k') /\ Permutation (log s ++ L) (log s' ++ L').
  Proof.
    intros s s' Hs L' k' H. destruct Hs as [b1 b2 lg tk|b1 b2 lg en l|b1 b2 lg tk l|b1 b2 lg];
      simpl in *.
    - apply yields_all_mid in H.
      destruct H as (L1 & k1 & L0 & k0 & L2 & k2 & H1 & H0 & H2 & -> & ->).
      exists (L1 ++ L0 ++ L2). split; [|reflexivity].
      replace (S (k1 + (k0 + k2)))%nat with (k1 + (S k0 + k2))%nat by lia.
      apply yields_all_mid. exists L1, k1, L0, (S k0), L2, k2.
      split; [assumption|]. split; [constructor; assumption|]. auto.
    - apply yields_all_mid in H.
      destruct H as (L1 & k1 & L0 & k0 & L2 & k2 & H1 & H0 & H2 & -> & ->).
      exists (L1 ++ (en :: L0) ++ L2). split.
      + replace (S (k1 + (k0 + k2)))%nat with (k1 + (S k0 + k2))%nat by lia.
        apply yields_all_mid. exists L1, k1, (en :: L0), (S k0), L2, k2.
        split; [assumption|]. split; [constructor; assumption|]. auto.
      + rewrite <- app_assoc. apply Permutation_app_head. simpl.
        symmetry. apply Permutation_middle.
    - apply yields_all_mid in H.
      destruct H as (L1 & k1 & L0 & k0 & M & j & H1 & H0 & H2 & -> & ->).
      apply yields_all_app in H2. destruct H2 as (L2 & k2 & L3 & k3 & H2 & H3 & -> & ->).
      apply yields_all_one in H3.
      exists (L1 ++ (L3 ++ L0) ++ L2). split.
      + replace (S (k1 + (k0 + (k2 + k3))))%nat with (k1 + (S (k3 + k0) + k2))%nat by lia.
        apply yields_all_mid. exists L1, k1, (L3 ++ L0), (S (k3 + k0)), L2, k2.
        split; [assumption|]. split; [constructor; assumption|]. auto.
      + apply Permutation_app_head, Permutation_app_head.
        rewrite <- app_assoc. rewrite Permutation_app_comm. rewrite <- app_assoc. reflexivity.
    - apply yields_all_app in H. destruct H as (L1 & k1 & L2 & k2 & H1 & H2 & -> & ->).
      exists (L1 ++ [] ++ L2). split; [|reflexivity].
      replace (S (k1 + k2))%nat with (k1 + (1 + k2))%nat by lia.
      apply yields_all_mid. exists L1, k1, [], 1%nat, L2, k2.
      split; [assumption|]. split; [constructor|]. auto.
  Qed.

  Lemma yields_det : forall i L k, yields i L k -> forall L' k', yields i L' k' -> L = L' /\ k = k'.
  Proof.
    induction 1 as [tk L k H IH| |en l L k H IH|tk l L1 k1 L2 k2 H1 IH1 H2 IH2]; intros L' k' H'.
    - apply y_task_inv in H'. destruct H' as (j & -> & H'). destruct (IH _ _ H') as [-> ->]. auto.
    - apply y_nil_inv in H'. destruct H' as [-> ->]. auto.
    - apply y_rec_inv in H'. destruct H' as (M & j & -> & -> & H').
      destruct (IH _ _ H') as [-> ->]. auto.
    - apply y_app_inv in H'. destruct H' as (M1 & j1 & M2 & j2 & -> & -> & A1 & A2).
      destruct (IH1 _ _ A1) as [-> ->]. destruct (IH2 _ _ A2) as [-> ->]. auto.
  Qed.

  Lemma yields_all_det : forall b L k, yields_all b L k ->
    forall L' k', yields_all b L' k' -> L = L' /\ k = k'.
  Proof.
    induction 1 as [|i b L1 k1 L2 k2 H1 H2 IH]; intros L' k' H'.
    - inversion H'; subst. auto.
    - apply ya_inv in H'. destruct H' as (M1 & j1 & M2 & j2 & A1 & A2 & -> & ->).
      destruct (yields_det _ _ _ H1 _ _ A1) as [-> ->].
      destruct (IH _ _ A2) as [-> ->]. auto.
  Qed.

  Lemma yields_pos : forall i L k, yields i L k -> (0 < k)%nat.
  Proof. intros i L k H. destruct H; lia. Qed.

  Lemma complete_yields : forall n s r, steps o c T sem n s {| items := []; log := r |} ->
    exists L, yields_all (items s) L n /\ Permutation (log s ++ L) r.
  Proof.
    intros n s r H. remember {| items := []; log := r |} as f eqn:Ef.
    induction H as [s|n s s' s'' Hs Hn IH]; subst.
    - exists []. split; [constructor|]. simpl. rewrite app_nil_r. reflexivity.
    - destruct (IH eq_refl) as (L & HL & HP).
      destruct (step_yields_back _ _ Hs _ _ HL) as (L' & HL' & HP').
      exists L'. split; [assumption|]. etransitivity; eassumption.
  Qed.

  Lemma run_yields : forall m s s', steps o c T sem m s s' ->
    forall L k, yields_all (items s) L k ->
    exists L' k', yields_all (items s') L' k' /\
      Permutation (log s ++ L) (log s' ++ L') /\ k = (m + k')%nat.
  Proof.
    induction 1 as [s|n s s' s'' Hs Hn IH]; intros L k H.
    - exists L, k. auto.
    - destruct (step_yields _ _ Hs _ _ H) as (L1 & k1 & H1 & P1 & ->).
      destruct (IH _ _ H1) as (L2 & k2 & H2 & P2 & ->).
      exists L2, k2. split; [assumption|]. split; [|reflexivity].
      etransitivity; eassumption.
  Qed.

  Lemma yields_can_step : forall i b lg L k, yields i L k ->
    exists s', step o c T sem {| items := i :: b; log := lg |} s'.
  Proof.
    intros i b lg L k H. destruct H.
    - eexists. apply (step_take o c T sem [] b lg tk).
    - eexists. apply (step_end o c T sem [] b lg).
    - eexists. apply (step_record o c T sem [] b lg en l).
    - eexists. apply (step_append o c T sem [] b lg tk l).
  Qed.

  Lemma yields_completes : forall k s L, yields_all (items s) L k ->
    exists r, steps o c T sem k s {| items := []; log := r |}.
  Proof.
    induction k as [|k IH]; intros [b lg] L H; simpl in H.
    - destruct b as [|i b].
      + exists lg. constructor.
      + apply ya_inv in H. destruct H as (M1 & j1 & M2 & j2 & A1 & A2 & _ & Hk).
        apply yields_pos in A1. lia.
    - destruct b as [|i b]; [inversion H|].
      assert (Hi : exists L1 k1, yields i L1 k1) by (inversion H; eauto).
      destruct Hi as (L1 & k1 & Hi).
      destruct (yields_can_step i b lg _ _ Hi) as (s' & Hs).
      destruct (step_yields _ _ Hs _ _ H) as (L' & k' & H' & _ & E'). injection E' as <-.
      destruct (IH _ _ H') as (r & Hr). exists r. econstructor; eassumption.
  Qed.

  Lemma schedule_independent : forall l n r,
    steps o c T sem n (start l) {| items := []; log := r |} ->
    (forall n' r', steps o c T sem n' (start l) {| items := []; log := r' |} ->
       n' = n /\ Permutation r r') /\
    (forall m s, steps o c T sem m (start l) s ->
       (m <= n)%nat /\ exists r', steps o c T sem (n - m) s {| items := []; log := r' |}).
  Proof.
    intros l n r H. destruct (complete_yields _ _ _ H) as (L & HL & HP). split.
    - intros n' r' H'. destruct (complete_yields _ _ _ H') as (L' & HL' & HP').
      destruct (yields_all_det _ _ _ HL _ _ HL') as [-> ->]. split; [reflexivity|].
      etransitivity; [symmetry; exact HP|exact HP'].
    - intros m s Hm. destruct (run_yields _ _ _ Hm _ _ HL) as (L' & k' & H' & _ & E').
      split; [lia|]. replace (n - m)%nat with k' by lia.
      eapply yields_completes. exact H'.
  Qed.
End Runs.

Lemma flat_map_perm : forall A B (f : A -> list B) l l', Permutation l l' ->
  Permutation (flat_map f l) (flat_map f l').
Proof.
  intros A B f l l' H. induction H; simpl.
  - reflexivity.
  - apply Permutation_app_head. assumption.
  - rewrite !app_assoc. apply Permutation_app_tail, Permutation_app_comm.
  - etransitivity; eassumption.
Qed.

(** ** Coverage *)
Section Coverage.
  Context {X E : Type} (den : E -> X -> Prop) (phi : R -> X -> X) (o : ops E).
  Hypothesis Fl : is_flow phi.
  Hypothesis Ri : rigorous den phi o.
  Local Open Scope R_scope.

  Lemma covered_app : forall l1 l2 x,
    covered den (l1 ++ l2) x <-> covered den l1 x \/ covered den l2 x.
  Proof.
    intros l1 l2 x. unfold covered. split.
    - intros (e & H & D). apply in_app_iff in H. destruct H; eauto.
    - intros [(e & H & D)|(e & H & D)]; exists e; rewrite in_app_iff; auto.
  Qed.

  Lemma reach_app : forall l1 l2 : list (entry E), reach (l1 ++ l2) = reach l1 ++ reach l2.
  Proof. intros. apply flat_map_app. Qed.
  Lemma final_app : forall l1 l2 : list (entry E), final (l1 ++ l2) = final l1 ++ final l2.
  Proof. intros. apply flat_map_app. Qed.

  (** [follows t L x]: the log [L] records the trajectory of [x] from time [t]
      on, until a final time not before [T]. *)
  Definition follows (T : Q) (t : Q) (L : list (entry E)) (x : X) : Prop :=
    exists t', 0 <= t' /\ Q2R T <= Q2R t + t' /\ covered den (final L) (phi t' x) /\
      (0 < t' -> forall s, 0 <= s <= t' -> covered den (reach L) (phi s x)).

  Lemma follows_app_l : forall T t L1 L2 x, follows T t L1 x -> follows T t (L1 ++ L2) x.
  Proof.
    intros T t L1 L2 x (t' & P & Q & F & C). exists t'. split; [assumption|].
    split; [assumption|]. rewrite final_app, reach_app. split.
    - apply covered_app. auto.
    - intros P' s Hs. apply covered_app. left. apply C; assumption.
  Qed.

  Lemma follows_app_r : forall T t L1 L2 x, follows T t L2 x -> follows T t (L1 ++ L2) x.
  Proof.
    intros T t L1 L2 x (t' & P & Q & F & C). exists t'. split; [assumption|].
    split; [assumption|]. rewrite final_app, reach_app. split.
    - apply covered_app. auto.
    - intros P' s Hs. apply covered_app. right. apply C; assumption.
  Qed.

  Lemma follows_step : forall T t h r n L x,
    0 < Q2R h -> (forall s, 0 <= s <= Q2R h -> den r (phi s x)) ->
    follows T (t + h) L (phi (Q2R h) x) ->
    follows T t (Reach r :: Intermediate n :: L) x.
  Proof.
    intros T t h r n L x Hh Hr (t' & P & Q & F & C).
    rewrite Q2R_plus in Q.
    exists (Q2R h + t'). split; [lra|]. split; [lra|]. split.
    - simpl. rewrite (flow_add phi Fl) by lra. exact F.
    - intros _ s Hs. simpl. destruct (Rle_dec s (Q2R h)) as [L1|L1].
      + exists r. split; [left; reflexivity|]. apply Hr. lra.
      + assert (0 < t') by lra.
        replace s with (Q2R h + (s - Q2R h)) by ring.
        rewrite (flow_add phi Fl) by lra.
        destruct (C H (s - Q2R h)) as (e & I & D); [lra|].
        exists e. split; [right; exact I|exact D].
  Qed.

  Lemma waiting_follows : forall c T k t e L, yields o c T UPPER (Waiting (t, e)) L k ->
    forall x, den e x -> follows T t L x.
  Proof.
    intros c T k. induction k as [k IH] using lt_wf_ind. intros t e L H x Dx.
    apply y_task_inv in H. destruct H as (k' & -> & H). unfold process in H.
    destruct (surely_reached o t T) eqn:Rt.
    - apply y_rec_inv in H. destruct H as (L' & j & -> & -> & H).
      exists 0. split; [lra|]. split.
      + apply (surely_reached_sound den phi o Ri) in Rt. apply Qle_Rle in Rt. lra.
      + rewrite (flow_0 phi Fl). split; [|intro; lra].
        exists e. split; [left; reflexivity|assumption].
    - destruct (enable_subdivisions c && too_large o e).
      + apply y_app_inv in H. destruct H as (L1 & k1 & L2 & k2 & -> & -> & A1 & A2).
        apply y_app_inv in A2. destruct A2 as (L3 & k3 & L4 & k4 & -> & -> & A3 & A4).
        destruct (split_covers den phi o Ri e x Dx) as [D1|D1].
        * apply follows_app_l. eapply IH; [|exact A1|assumption]. lia.
        * apply follows_app_r, follows_app_l. eapply IH; [|exact A3|assumption]. lia.
      + unfold process_step in H. destruct (enable_reconditioning c && large_error o e).
        * apply y_app_inv in H. destruct H as (L1 & k1 & L2 & k2 & -> & -> & A1 & A2).
          apply follows_app_l. eapply IH; [|exact A1|]; [lia|].
          apply (recondition_covers den phi o Ri). assumption.
        * destruct (flow o e) as [[h [r n]]|] eqn:Fo; [|inversion H].
          destruct (flow_covers den phi o Ri e h r n Fo) as (Hh & Hn & Hr).
          apply y_rec_inv in H. destruct H as (L1 & k1 & -> & -> & H).
          apply y_rec_inv in H. destruct H as (L2 & k2 & -> & -> & H).
          apply y_app_inv in H. destruct H as (L3 & k3 & L4 & k4 & -> & -> & A3 & A4).
          apply follows_step with (h := h); [assumption| |].
          -- intros s Hs. apply Hr; assumption.
          -- apply follows_app_l. eapply IH; [|exact A3|]; [lia|]. apply Hn. assumption.
  Qed.

  Lemma follows_perm : forall T t L L' x, Permutation L L' -> follows T t L x -> follows T t L' x.
  Proof.
    intros T t L L' x P (t' & A & B & F & C). exists t'. split; [assumption|].
    split; [assumption|].
    assert (K : forall f y, covered den (flat_map f L) y -> covered den (flat_map f L') y).
    { intros f y (e & I & D). exists e. split; [|assumption].
      eapply Permutation_in; [|exact I]. apply flat_map_perm. assumption. }
    split; [apply K; exact F|]. intros Pt s Hs. apply K, C; assumption.
  Qed.

  Lemma initial_tasks_cover : forall fuel e l, initial_tasks fuel o e = Some l ->
    forall x, den e x -> exists e', In (0%Q, e') l /\ den e' x.
  Proof.
    induction fuel as [|k IH]; intros e l H x Dx; simpl in H; [discriminate|].
    destruct (initially_large o e).
    - pose proof (split_covers den phi o Ri e x Dx) as Sp.
      destruct (split o e) as [e1 e2]. simpl in Sp.
      destruct (if surely_empty o e1 then Some [] else initial_tasks k o e1) as [l1|] eqn:H1; [|discriminate].
      destruct (if surely_empty o e2 then Some [] else initial_tasks k o e2) as [l2|] eqn:H2; [|discriminate].
      injection H as <-. destruct Sp as [D|D].
      + destruct (surely_empty o e1) eqn:S1.
        { exfalso. eapply (surely_empty_sound den phi o Ri); eassumption. }
        destruct (IH _ _ H1 _ D) as (e' & I & D'). exists e'. rewrite in_app_iff. auto.
      + destruct (surely_empty o e2) eqn:S2.
        { exfalso. eapply (surely_empty_sound den phi o Ri); eassumption. }
        destruct (IH _ _ H2 _ D) as (e' & I & D'). exists e'. rewrite in_app_iff. auto.
    - injection H as <-. exists e. split; [left; reflexivity|assumption].
  Qed.

  Lemma yields_all_in : forall c T sem b L k, yields_all o c T sem b L k ->
    forall i, In i b -> exists L1 L0 L2 k0, L = L1 ++ L0 ++ L2 /\ yields o c T sem i L0 k0.
  Proof.
    intros c T sem b L k H. induction H as [|i b L1 k1 L2 k2 H1 H2 IH]; intros j I; [destruct I|].
    destruct I as [<-|I].
    - exists [], L1, L2, k1. auto.
    - destruct (IH _ I) as (M1 & M0 & M2 & k0 & -> & Y).
      exists (L1 ++ M1), M0, M2, k0. rewrite <- app_assoc. auto.
  Qed.

  Lemma returns_follows : forall c T e r, returns o c T UPPER e r ->
    forall x, den e x -> follows T 0 r x.
  Proof.
    intros c T e r (fuel & l & n & Hi & Hs) x Dx.
    destruct (initial_tasks_cover _ _ _ Hi x Dx) as (e' & I & D').
    destruct (complete_yields _ _ _ _ _ _ _ Hs) as (L & HL & HP).
    assert (I' : In (Waiting (0%Q, e')) (items (start l))).
    { simpl. apply (in_map Waiting). assumption. }
    destruct (yields_all_in _ _ _ _ _ _ HL _ I') as (L1 & L0 & L2 & k0 & -> & Y).
    apply follows_perm with (L := L1 ++ L0 ++ L2); [exact HP|].
    apply follows_app_r, follows_app_l. eapply waiting_follows; eassumption.
  Qed.
End Coverage.

(** ** Lower semantics *)
Section Lower.
  Context {X E : Type} (den : E -> X -> Prop) (phi : R -> X -> X) (o : ops E).
  Hypothesis Fl : is_flow phi.
  Hypothesis Ri : rigorous den phi o.
  Local Open Scope R_scope.

  Lemma waiting_lower : forall c T k t e L, yields o c T LOWER (Waiting (t, e)) L k ->
    forall x, den e x -> forall en, In en L -> exists s, 0 <= s /\ den (entry_set en) (phi s x).
  Proof.
    intros c T k. induction k as [k IH] using lt_wf_ind. intros t e L H x Dx en Hen.
    apply y_task_inv in H. destruct H as (k' & -> & H). unfold process in H.
    destruct (surely_reached o t T) eqn:Rt.
    - apply y_rec_inv in H. destruct H as (L' & j & -> & -> & H).
      apply y_nil_inv in H. destruct H as [-> _]. destruct Hen as [<-|[]].
      exists 0. split; [lra|]. rewrite (flow_0 phi Fl). exact Dx.
    - destruct (too_large o e).
      + apply y_nil_inv in H. destruct H as [-> _]. destruct Hen.
      + unfold process_step in H. destruct (enable_reconditioning c && large_error o e).
        * apply y_app_inv in H. destruct H as (L1 & k1 & L2 & k2 & -> & -> & A1 & A2).
          apply y_nil_inv in A2. destruct A2 as [-> ->]. rewrite app_nil_r in Hen.
          eapply IH; [|exact A1| |exact Hen]; [lia|].
          apply (recondition_covers den phi o Ri). assumption.
        * destruct (flow o e) as [[h [r n]]|] eqn:Fo; [|inversion H].
          destruct (flow_covers den phi o Ri e h r n Fo) as (Hh & Hn & Hr).
          apply y_rec_inv in H. destruct H as (L1 & k1 & -> & -> & H).
          apply y_rec_inv in H. destruct H as (L2 & k2 & -> & -> & H).
          apply y_app_inv in H. destruct H as (L3 & k3 & L4 & k4 & -> & -> & A3 & A4).
          apply y_nil_inv in A4. destruct A4 as [-> ->]. rewrite app_nil_r in Hen.
          destruct Hen as [<-|[<-|Hen]].
          -- exists 0. split; [lra|]. simpl. apply Hr; [assumption|lra].
          -- exists (Q2R h). split; [lra|]. simpl. apply Hn. assumption.
          -- assert (Lt : (k3 < S (S (S (S (k3 + 1)))))%nat) by lia.
             destruct (IH k3 Lt (t + h)%Q n L3 A3 (phi (Q2R h) x) (Hn x Dx) en Hen)
               as (s & Hs & D).
             exists (Q2R h + s). split; [lra|]. rewrite (flow_add phi Fl) by lra. exact D.
  Qed.

  Lemma returns_lower : forall c T e r, returns o c T LOWER e r ->
    initially_large o e = false ->
    forall x, den e x -> forall en, In en r -> exists s, 0 <= s /\ den (entry_set en) (phi s x).
  Proof.
    intros c T e r (fuel & l & n & Hi & Hs) Hl x Dx en Hen.
    destruct fuel as [|fuel]; simpl in Hi; [discriminate|]. rewrite Hl in Hi. injection Hi as <-.
    destruct (complete_yields _ _ _ _ _ _ _ Hs) as (L & HL & HP). simpl in HL, HP.
    apply yields_all_one in HL.
    eapply waiting_lower; [exact HL|exact Dx|].
    eapply Permutation_in; [symmetry; exact HP|exact Hen].
  Qed.
End Lower.

(** ** Termination *)
Section Termination.
  Context {E : Type} (o : ops E) (c : config) (T : Q) (sem : semantics).
  Hypothesis Pr : progress o c T.

  Lemma waiting_yields : forall size : E -> nat,
    (enable_subdivisions c = true -> forall e, too_large o e = true ->
        (size (fst (split o e)) < size e)%nat /\ (size (snd (split o e)) < size e)%nat) ->
    (enable_subdivisions c = true -> forall e, (size (recondition o e) <= size e)%nat) ->
    forall h0 T', (0 < h0)%Q ->
    (forall e, exists h r n, flow o e = Some (h, (r, n)) /\ (h0 <= h)%Q) ->
    (forall t, (T' <= t)%Q -> surely_reached o t T = true) ->
    forall (N : nat) (m : nat) t e,
      (T' <= t + inject_Z (Z.of_nat N) * h0)%Q ->
      ((if enable_subdivisions c then 2 * size e else 0) + (if large_error o e then 1 else 0) <= m)%nat ->
      exists L k, yields o c T sem (Waiting (t, e)) L k.
  Proof.
    intros size S1 S2 h0 T' H0 Hf Hr N. induction N as [|N IHN].
    - intros m t e Ht _. exists [Final e], 3%nat. apply y_task. unfold process.
      rewrite (Hr t).
      + apply y_rec, y_nil.
      + simpl in Ht. setoid_replace (t + inject_Z 0 * h0)%Q with t in Ht by ring. exact Ht.
    - induction m as [m IHm] using lt_wf_ind. intros t e Ht Hm.
      assert (St : enable_reconditioning c && large_error o e = false ->
                   exists L k, yields o c T sem (Running (process_step o c (t, e))) L k).
      { intro Hl. unfold process_step. rewrite Hl.
        destruct (Hf e) as (h & r & n & -> & Hh).
        destruct (IHN (2 * size n + 1)%nat (t + h)%Q n) as (L & k & Y).
        - eapply Qle_trans; [exact Ht|]. rewrite Nat2Z.inj_succ, <- Z.add_1_r, inject_Z_plus.
          setoid_replace (t + (inject_Z (Z.of_nat N) + inject_Z 1) * h0)%Q
            with (t + (h0 + inject_Z (Z.of_nat N) * h0))%Q by ring.
          setoid_replace (t + h + inject_Z (Z.of_nat N) * h0)%Q
            with (t + (h + inject_Z (Z.of_nat N) * h0))%Q by ring.
          apply Qplus_le_compat; [apply Qle_refl|]. apply Qplus_le_compat; [exact Hh|apply Qle_refl].
        - destruct (enable_subdivisions c), (large_error o n); lia.
        - exists (Reach r :: Intermediate n :: L ++ []), (S (S (S (k + 1)))).
          apply y_rec, y_rec, y_app; [exact Y|apply y_nil]. }
      assert (Re : enable_reconditioning c && large_error o e = true ->
                   exists L k, yields o c T sem (Running (process_step o c (t, e))) L k).
      { intro Hl. unfold process_step. rewrite Hl. apply andb_true_iff in Hl. destruct Hl as [_ Hl].
        rewrite Hl in Hm.
        destruct (IHm (m - 1)%nat) with (t := t) (e := recondition o e) as (L & k & Y).
        - lia.
        - exact Ht.
        - rewrite (recondition_works o c T Pr). destruct (enable_subdivisions c) eqn:Es; [|lia].
          specialize (S2 eq_refl e). lia.
        - exists (L ++ []), (S (k + 1)). apply y_app; [exact Y|apply y_nil]. }
      assert (PS : exists L k, yields o c T sem (Running (process_step o c (t, e))) L k).
      { destruct (enable_reconditioning c && large_error o e); auto. }
      destruct PS as (L & k & Y).
      destruct (surely_reached o t T) eqn:Rt.
      + exists [Final e], 3%nat. apply y_task. unfold process. rewrite Rt. apply y_rec, y_nil.
      + destruct sem eqn:Sem.
        * destruct (too_large o e) eqn:Tl.
          -- exists [], 2%nat. apply y_task. unfold process. rewrite Rt, Tl. apply y_nil.
          -- exists L, (S k). apply y_task. unfold process. rewrite Rt, Tl. exact Y.
        * destruct (enable_subdivisions c && too_large o e) eqn:Tl.
          -- apply andb_true_iff in Tl as Tl'. destruct Tl' as [Es Te].
             destruct (S1 Es e Te) as [A1 A2]. rewrite Es in Hm.
             destruct (IHm (m - 1)%nat) with (t := t) (e := fst (split o e)) as (L1 & k1 & Y1).
             { lia. } { exact Ht. } { rewrite Es. destruct (large_error o (fst (split o e))); lia. }
             destruct (IHm (m - 1)%nat) with (t := t) (e := snd (split o e)) as (L2 & k2 & Y2).
             { lia. } { exact Ht. } { rewrite Es. destruct (large_error o (snd (split o e))); lia. }
             exists (L1 ++ L2 ++ []), (S (S (k1 + S (k2 + 1)))).
             apply y_task. unfold process. rewrite Rt, Tl.
             apply y_app; [exact Y1|]. apply y_app; [exact Y2|apply y_nil].
          -- exists L, (S k). apply y_task. unfold process. rewrite Rt, Tl. exact Y.
  Qed.

  Lemma arch_steps : forall (h0 T' : Q), (0 < h0)%Q ->
    exists N : nat, (T' <= inject_Z (Z.of_nat N) * h0)%Q.
  Proof.
    intros h0 T' H0. exists (Z.to_nat (Qceiling (T' / h0))).
    destruct (Qlt_le_dec 0 T') as [P|P].
    - assert (P1 : (0 <= T' / h0)%Q).
      { apply Qle_shift_div_l; [assumption|]. rewrite Qmult_0_l. apply Qlt_le_weak. assumption. }
      rewrite Z2Nat.id.
      + setoid_replace T' with ((T' / h0) * h0)%Q at 1.
        * apply Qmult_le_compat_r; [apply Qle_ceiling|apply Qlt_le_weak; assumption].
        * field. intro K. rewrite K in H0. discriminate H0.
      + change 0%Z with (Qceiling 0). apply Qceiling_resp_le. exact P1.
    - eapply Qle_trans; [exact P|].
      apply Qmult_le_0_compat; [|apply Qlt_le_weak; assumption].
      change 0%Q with (inject_Z 0). rewrite <- Zle_Qle. lia.
  Qed.

  Lemma task_yields : forall t e, exists L k, yields o c T sem (Waiting (t, e)) L k.
  Proof.
    intros t e. destruct (step_bounded o c T Pr) as (h0 & H0 & Hf).
    destruct (end_recognised o c T Pr) as (T' & Hr).
    assert (Sz : exists size : E -> nat,
      (enable_subdivisions c = true -> forall e, too_large o e = true ->
        (size (fst (split o e)) < size e)%nat /\ (size (snd (split o e)) < size e)%nat) /\
      (enable_subdivisions c = true -> forall e, (size (recondition o e) <= size e)%nat)).
    { destruct (enable_subdivisions c) eqn:Es.
      - destruct (split_ends o c T Pr Es) as (size & A & B). exists size. auto.
      - exists (fun _ => 0%nat). split; discriminate. }
    destruct Sz as (size & S1 & S2).
    destruct (arch_steps h0 (T' - t)%Q H0) as (N & HN).
    eapply (waiting_yields size S1 S2 h0 T' H0 Hf Hr N); [|apply le_n].
    revert HN. generalize (inject_Z (Z.of_nat N) * h0)%Q. intros q HN. Lqa.lra.
  Qed.

  Lemma tasks_terminate : forall l, exists n, forall m s, steps o c T sem m (start l) s ->
    (m <= n)%nat /\ exists r, steps o c T sem (n - m) s {| items := []; log := r |}.
  Proof.
    intro l. assert (Y : exists L k, yields_all o c T sem (items (start l)) L k).
    { unfold start. simpl. induction l as [|[t e] l IH].
      - exists [], 0%nat. constructor.
      - destruct IH as (L2 & k2 & H2). destruct (task_yields t e) as (L1 & k1 & H1).
        exists (L1 ++ L2), (k1 + k2)%nat. constructor; assumption. }
    destruct Y as (L & n & Y). exists n. intros m s Hm.
    destruct (run_yields _ _ _ _ _ _ _ Hm _ _ Y) as (L' & k' & H' & _ & E').
    split; [lia|]. replace (n - m)%nat with k' by lia. eapply yields_completes. exact H'.
  Qed.
End Termination.

(** ** Iterated maps *)
Section Maps.
  Context {X E : Type} (den : E -> X -> Prop) (f : X -> X) (o : map_ops E).
  Hypothesis Ri : map_rigorous den f o.

  Lemma map_evolution_prefix : forall fuel c T sem w lg r,
    map_evolution fuel o c T sem w lg = Some r -> exists L, r = lg ++ L.
  Proof.
    induction fuel as [|k IH]; intros c T sem w lg r H; simpl in H; [discriminate|].
    destruct w as [|[t e] w].
    - injection H as <-. exists []. rewrite app_nil_r. reflexivity.
    - destruct (T <=? t)%Z.
      + destruct (IH _ _ _ _ _ _ H) as (L & ->). exists ([Final e] ++ L). rewrite app_assoc. reflexivity.
      + destruct (_ && m_subdivisions c && m_too_large o e).
        * destruct (m_split o e). eauto.
        * destruct (_ && m_termination c && m_too_large o e); [eauto|].
          destruct (IH _ _ _ _ _ _ H) as (L & ->).
          exists ([Reach (m_apply o e); Intermediate (m_apply o e)] ++ L). rewrite app_assoc. reflexivity.
  Qed.

  Lemma covered_mono : forall (l l' : list E) x, incl l l' -> covered den l x -> covered den l' x.
  Proof. intros l l' x I (e & Ie & D). exists e. auto. Qed.

  Lemma map_evolution_covers : forall fuel c T w lg r,
    map_evolution fuel o c T UPPER w lg = Some r ->
    forall t e x, In (t, e) w -> den e x ->
      covered den (final r) (iterate f (Z.to_nat (T - t)) x) /\
      (forall k, (1 <= k <= Z.to_nat (T - t))%nat -> covered den (reach r) (iterate f k x)).
  Proof.
    induction fuel as [|fu IH]; intros c T w lg r H t e x I D; simpl in H; [discriminate|].
    destruct w as [|[t0 e0] w]; [destruct I|].
    destruct (T <=? t0)%Z eqn:Tt.
    - destruct I as [[= -> ->]|I]; [|eapply IH; eassumption].
      apply Z.leb_le in Tt. replace (Z.to_nat (T - t)) with 0%nat by lia. simpl. split; [|lia].
      destruct (map_evolution_prefix _ _ _ _ _ _ _ H) as (L & ->).
      exists e. split; [|assumption]. rewrite !final_app, !in_app_iff. left. right. left. reflexivity.
    - apply Z.leb_gt in Tt. simpl in H.
      destruct (m_subdivisions c && m_too_large o e0).
      + pose proof (m_split_covers den f o Ri e0) as Sp.
        destruct (m_split o e0) as [e1 e2]. simpl in Sp.
        destruct I as [[= -> ->]|I].
        * destruct (Sp x D) as [D1|D1]; eapply IH; try eassumption; simpl; auto.
        * eapply IH; try eassumption. right; right; assumption.
      + destruct I as [[= -> ->]|I].
        * pose proof (m_apply_covers den f o Ri e x D) as D'.
          destruct (IH _ _ _ _ _ H (t + 1)%Z (m_apply o e) (f x)) as [A B];
            [left; reflexivity|assumption|].
          replace (Z.to_nat (T - t)) with (S (Z.to_nat (T - (t + 1)))) by lia.
          split; [exact A|]. intros k Hk. destruct k as [|k]; [lia|].
          destruct k as [|k].
          -- simpl. destruct (map_evolution_prefix _ _ _ _ _ _ _ H) as (L & ->).
             exists (m_apply o e). split; [|assumption].
             rewrite !reach_app, !in_app_iff. left. right. left. reflexivity.
          -- apply (B (S k)). lia.
        * eapply IH; try eassumption. right; assumption.
  Qed.
End Maps.
