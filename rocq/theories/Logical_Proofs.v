From Coq Require Import List Bool ZArith Arith Lia.
From Verif Require Import Logical_Model Logical_Spec.
Import ListNotations.

Lemma lv_neg_code l : lv_of_code (- lv_code l) = Some (lv_neg l).
Proof. destruct l; reflexivity. Qed.

Lemma informs_and a b P Q : informs a P -> informs b Q -> informs (lv_and a b) (P /\ Q).
Proof. intros [HP1 HP2] [HQ1 HQ2]; destruct a, b; split; cbv; intros; try discriminate; intuition. Qed.
Lemma informs_or a b P Q : informs a P -> informs b Q -> informs (lv_or a b) (P \/ Q).
Proof. intros [HP1 HP2] [HQ1 HQ2]; destruct a, b; split; cbv; intros; try discriminate; intuition. Qed.
Lemma informs_not a P : informs a P -> informs (lv_neg a) (~ P).
Proof. intros [HP1 HP2]; destruct a; split; cbv; intros; try discriminate; intuition. Qed.
Lemma informs_eq a b P Q : informs a P -> informs b Q -> informs (lv_eq a b) (P <-> Q).
Proof. intros [HP1 HP2] [HQ1 HQ2]; destruct a, b; split; cbv; intros; try discriminate; intuition. Qed.
Lemma informs_xor a b P Q : informs a P -> informs b Q -> informs (lv_xor a b) (~ (P <-> Q)).
Proof. intros; apply informs_not, informs_eq; assumption. Qed.

Lemma definitely_TRUE l : definitely l = true <-> l = TRUE.
Proof. destruct l; split; intros; try discriminate; reflexivity. Qed.
Lemma definitely_lower l : definitely (to_lower l) = true <-> l = TRUE.
Proof. destruct l; split; intros; try discriminate; reflexivity. Qed.
Lemma definitely_lower_neg_upper l : definitely (to_lower (lv_neg (to_upper l))) = true <-> l = FALSE.
Proof. destruct l; split; intros; try discriminate; reflexivity. Qed.

Lemma seq_find_true p : forall n k, seq_find p k n = true <-> exists j, k <= j < k + n /\ p j = true.
Proof.
  induction n as [|n IH]; intros k; simpl.
  - split; [discriminate|]. intros [j [Hj _]]; lia.
  - destruct (p k) eqn:Hk.
    + split; [|reflexivity]. intros _. exists k; split; [lia|assumption].
    + rewrite IH. split; intros [j [Hj Hp]].
      * exists j; split; [lia|assumption].
      * exists j; split; [|assumption].
        assert (j <> k) by (intros ->; congruence). lia.
Qed.

Lemma means_check h P : means h P -> forall e, informs (check h e) P.
Proof.
  induction 1 as [l P H|chk P H|a b P Q Ha IHa Hb IHb|a b P Q Ha IHa Hb IHb|a b P Q Ha IHa Hb IHb
                 |a b P Q Ha IHa Hb IHb|a P Ha IHa|s P Hs IHs|s P Hs IHs]; intros e; simpl.
  - assumption.
  - apply H.
  - apply informs_and; auto.
  - apply informs_or; auto.
  - apply informs_eq; auto.
  - apply informs_xor; auto.
  - apply informs_not; auto.
  - destruct (seq_find _ 0 e) eqn:E; split; intros; try discriminate.
    apply seq_find_true in E. destruct E as [j [_ Hj]].
    apply definitely_lower in Hj. exists j. apply (IHs j e); assumption.
  - destruct (seq_find _ 0 e) eqn:E; split; intros; try discriminate.
    apply seq_find_true in E. destruct E as [j [_ Hj]].
    apply definitely_lower_neg_upper in Hj. intros HA.
    destruct (IHs j e) as [_ HF]. apply HF; [assumption|apply HA].
Qed.

Lemma det_cases l : is_determinate l = true -> l = TRUE \/ l = FALSE.
Proof. destruct l; simpl; intros; try discriminate; auto. Qed.

Ltac persist2 :=
  intros; repeat match goal with
  | H : is_determinate (?f ?a ?b) = true |- _ => destruct a eqn:?, b eqn:?; simpl in H; try discriminate; clear H
  end.

Lemma persistent_check h : persistent h ->
  forall e e', e <= e' -> is_determinate (check h e) = true -> check h e' = check h e.
Proof.
  assert (Hbin : forall f : lv -> lv -> lv,
     (forall a b a' b', (is_determinate a = true -> a' = a) -> (is_determinate b = true -> b' = b) ->
        is_determinate (f a b) = true -> f a' b' = f a b) ->
     forall a b, (forall e e', e <= e' -> is_determinate (check a e) = true -> check a e' = check a e) ->
        (forall e e', e <= e' -> is_determinate (check b e) = true -> check b e' = check b e) ->
        forall e e', e <= e' -> is_determinate (f (check a e) (check b e)) = true ->
        f (check a e') (check b e') = f (check a e) (check b e)).
  { intros f Hf a b Ha Hb e e' He Hd. apply Hf; auto. }
  induction 1 as [l|chk H|a b Ha IHa Hb IHb|a b Ha IHa Hb IHb|a b Ha IHa Hb IHb
                 |a b Ha IHa Hb IHb|a Ha IHa|s Hs IHs|s Hs IHs]; intros e e' He Hd; simpl in *.
  - reflexivity.
  - apply H; assumption.
  - apply (Hbin lv_and); auto.
    intros x y x' y' Hx Hy Hxy; destruct x, y; simpl in *; try discriminate;
      try rewrite Hx by reflexivity; try rewrite Hy by reflexivity; try reflexivity;
      destruct x', y'; try reflexivity; exfalso; (discriminate Hx || discriminate Hy || auto).
  - apply (Hbin lv_or); auto.
    intros x y x' y' Hx Hy Hxy; destruct x, y; simpl in *; try discriminate;
      try rewrite Hx by reflexivity; try rewrite Hy by reflexivity; try reflexivity;
      destruct x', y'; try reflexivity; exfalso; (discriminate Hx || discriminate Hy || auto).
  - apply (Hbin lv_eq); auto.
    intros x y x' y' Hx Hy Hxy; destruct x, y; simpl in *; try discriminate;
      try rewrite Hx by reflexivity; try rewrite Hy by reflexivity; reflexivity.
  - apply (Hbin lv_xor); auto.
    intros x y x' y' Hx Hy Hxy; destruct x, y; simpl in *; try discriminate;
      try rewrite Hx by reflexivity; try rewrite Hy by reflexivity; reflexivity.
  - rewrite (IHa e e'); auto. destruct (check a e); auto.
  - destruct (seq_find _ 0 e) eqn:E; [|discriminate].
    apply seq_find_true in E. destruct E as [j [Hj Hp]].
    replace (seq_find _ 0 e') with true; [reflexivity|]. symmetry. apply seq_find_true.
    exists j. split; [lia|]. apply definitely_lower in Hp. apply definitely_lower.
    rewrite (IHs j e e'); auto. rewrite Hp; reflexivity.
  - destruct (seq_find _ 0 e) eqn:E; [|discriminate].
    apply seq_find_true in E. destruct E as [j [Hj Hp]].
    replace (seq_find _ 0 e') with true; [reflexivity|]. symmetry. apply seq_find_true.
    exists j. split; [lia|]. apply definitely_lower_neg_upper in Hp. apply definitely_lower_neg_upper.
    rewrite (IHs j e e'); auto. rewrite Hp; reflexivity.
Qed.

Lemma seqor_complete s : (forall k, persistent (s k)) ->
  forall k e, check (s k) e = TRUE -> exists e0, forall e', e0 <= e' -> check (HSeqOr s) e' = TRUE.
Proof.
  intros Hs k e Hk. exists (Nat.max e (S k)). intros e' He'. simpl.
  replace (seq_find _ 0 e') with true; [reflexivity|]. symmetry. apply seq_find_true.
  exists k; split; [lia|]. apply definitely_lower.
  rewrite (persistent_check _ (Hs k) e e'); auto; try lia. rewrite Hk; reflexivity.
Qed.
Lemma seqand_complete s : (forall k, persistent (s k)) ->
  forall k e, check (s k) e = FALSE -> exists e0, forall e', e0 <= e' -> check (HSeqAnd s) e' = FALSE.
Proof.
  intros Hs k e Hk. exists (Nat.max e (S k)). intros e' He'. simpl.
  replace (seq_find _ 0 e') with true; [reflexivity|]. symmetry. apply seq_find_true.
  exists k; split; [lia|]. apply definitely_lower_neg_upper.
  rewrite (persistent_check _ (Hs k) e e'); auto; try lia. rewrite Hk; reflexivity.
Qed.

Lemma first_definite_some ps e : forall i j, first_definite ps e i = Some j ->
  i <= j /\ exists p, nth_error ps (j - i) = Some p /\ check p e = TRUE.
Proof.
  induction ps as [|p ps IH]; intros i j H; simpl in H; [discriminate|].
  destruct (definitely (check_lower p e)) eqn:E.
  - injection H as <-. split; [lia|]. exists p. rewrite Nat.sub_diag. split; [reflexivity|].
    apply definitely_lower; exact E.
  - apply IH in H. destruct H as [Hij [q [Hq Hc]]]. split; [lia|]. exists q. split; [|assumption].
    replace (j - i) with (S (j - S i)) by lia. exact Hq.
Qed.
Lemma first_definite_none ps e : forall i, first_definite ps e i = None ->
  forall p, In p ps -> check p e <> TRUE.
Proof.
  induction ps as [|q ps IH]; intros i H p Hp; simpl in *; [contradiction|].
  destruct (definitely (check_lower q e)) eqn:E; [discriminate|].
  destruct Hp as [->|Hp].
  - intros HT. apply definitely_lower in HT. unfold check_lower in E. congruence.
  - eapply IH; eauto.
Qed.

Lemma choose_index_sound fuel ps : forall e i, choose_index fuel ps e = Some i ->
  exists e' p, e <= e' /\ nth_error ps i = Some p /\ check p e' = TRUE.
Proof.
  induction fuel as [|f IH]; intros e i H; simpl in H; [discriminate|].
  destruct (first_definite ps e 0) as [j|] eqn:E.
  - injection H as <-. apply first_definite_some in E. destruct E as [_ [p [Hp Hc]]].
    rewrite Nat.sub_0_r in Hp. exists e, p. auto.
  - apply IH in H. destruct H as [e' [p [He H]]]. exists e', p. split; [lia|assumption].
Qed.
Lemma choose_index_terminates ps p e1 : In p ps -> check p e1 = TRUE ->
  forall e, e <= e1 -> exists i, choose_index (S (e1 - e)) ps e = Some i.
Proof.
  intros Hin Hc e He. remember (e1 - e) as d eqn:Hd. revert e He Hd.
  induction d as [|d IH]; intros e He Hd.
  - assert (e = e1) by lia; subst e. simpl.
    destruct (first_definite ps e1 0) eqn:E; [eauto|].
    exfalso. eapply first_definite_none; eauto.
  - cbn [choose_index]. destruct (first_definite ps e 0) as [i|] eqn:E; [eauto|].
    apply IH; lia.
Qed.
Lemma choose_bool_sound fuel pt pf : forall e b, choose_bool fuel pt pf e = Some b ->
  exists e', check (if b then pt else pf) e' = TRUE.
Proof.
  induction fuel as [|f IH]; intros e b H; simpl in H; [discriminate|].
  destruct (definitely (check_lower pt e)) eqn:E1.
  - injection H as <-. exists e. apply definitely_lower; exact E1.
  - destruct (definitely (check_lower pf e)) eqn:E2.
    + injection H as <-. exists e. apply definitely_lower; exact E2.
    + eapply IH; eauto.
Qed.
Lemma choose_bool_terminates pt pf e1 : (check pt e1 = TRUE \/ check pf e1 = TRUE) ->
  forall e, e <= e1 -> exists b, choose_bool (S (e1 - e)) pt pf e = Some b.
Proof.
  intros Hc e He. remember (e1 - e) as d eqn:Hd. revert e He Hd.
  induction d as [|d IH]; intros e He Hd; cbn [choose_bool].
  - assert (e = e1) by lia; subst e.
    destruct (definitely (check_lower pt e1)) eqn:E1; [eauto|].
    destruct (definitely (check_lower pf e1)) eqn:E2; [eauto|].
    exfalso. destruct Hc as [Hc|Hc]; apply definitely_lower in Hc; unfold check_lower in *; congruence.
  - destruct (definitely (check_lower pt e)); [eauto|].
    destruct (definitely (check_lower pf e)); [eauto|]. apply IH; lia.
Qed.
Lemma choose_index_mono fuel ps : forall e i, choose_index fuel ps e = Some i ->
  forall k, choose_index (fuel + k) ps e = Some i.
Proof.
  induction fuel as [|f IH]; intros e i H k; simpl in H; [discriminate|].
  simpl. destruct (first_definite ps e 0); auto.
Qed.

Lemma connectives_sound a b P Q : informs a P -> informs b Q ->
  informs (lv_and a b) (P /\ Q) /\ informs (lv_or a b) (P \/ Q) /\ informs (lv_neg a) (~ P) /\
  informs (lv_eq a b) (P <-> Q) /\ informs (lv_xor a b) (~ (P <-> Q)).
Proof.
  intros Ha Hb. split; [apply informs_and; assumption|]. split; [apply informs_or; assumption|].
  split; [apply informs_not; assumption|]. split; [apply informs_eq; assumption|apply informs_xor; assumption].
Qed.
Lemma connectives_exact a b :
  (lv_and a b = TRUE <-> a = TRUE /\ b = TRUE) /\ (lv_and a b = FALSE <-> a = FALSE \/ b = FALSE) /\
  (lv_or a b = TRUE <-> a = TRUE \/ b = TRUE) /\ (lv_or a b = FALSE <-> a = FALSE /\ b = FALSE) /\
  (lv_neg a = TRUE <-> a = FALSE) /\ (lv_neg a = FALSE <-> a = TRUE) /\
  (lv_eq a b = TRUE <-> (a = TRUE /\ b = TRUE) \/ (a = FALSE /\ b = FALSE)) /\
  (lv_eq a b = FALSE <-> (a = TRUE /\ b = FALSE) \/ (a = FALSE /\ b = TRUE)) /\
  (lv_xor a b = TRUE <-> (a = TRUE /\ b = FALSE) \/ (a = FALSE /\ b = TRUE)) /\
  (lv_xor a b = FALSE <-> (a = TRUE /\ b = TRUE) \/ (a = FALSE /\ b = FALSE)).
Proof. destruct a, b; cbv; intuition discriminate. Qed.
Lemma de_morgan a b :
  lv_neg (lv_and a b) = lv_or (lv_neg a) (lv_neg b) /\ lv_neg (lv_or a b) = lv_and (lv_neg a) (lv_neg b) /\
  lv_neg (lv_neg a) = a /\ lv_and a b = lv_and b a /\ lv_or a b = lv_or b a /\ lv_eq a b = lv_eq b a.
Proof. destruct a, b; cbv; intuition reflexivity. Qed.
Lemma guesses_consistent a :
  (definitely a = true -> probably a = true) /\ (probably a = true -> possibly a = true) /\
  probably a = decide_lv a /\ (definitely a = true <-> possibly (lv_neg a) = false) /\
  (possibly a = false <-> a = FALSE) /\ (definitely a = true <-> a = TRUE).
Proof. destruct a; cbv; intuition discriminate. Qed.
Lemma clamps_sound a P : informs a P ->
  informs (to_lower a) P /\ informs (to_upper a) P /\ informs (to_approx a) P /\
  (definitely (to_lower a) = definitely a) /\ (possibly (to_upper a) = possibly a) /\
  possibly (to_lower a) = true /\ definitely (to_upper a) = false /\
  possibly (to_approx a) = true /\ definitely (to_approx a) = false.
Proof. intros [H1 H2]; destruct a; cbv in *; intuition discriminate. Qed.

Lemma mixed_or_refuted : exists (s : handle) (P : Prop) (b : bool),
  means s P /\ (P \/ b = true) /\ forall e, check_lower (sierp_or_bool s b) e <> TRUE /\
  check_lower (bool_or_sierp b s) e <> TRUE.
Proof.
  exists (HLeaf (fun _ => INDET)), False, true. split; [|split].
  - constructor. intros e. split; discriminate.
  - right; reflexivity.
  - intros e; split; cbv; discriminate.
Qed.
Lemma mixed_and_refuted : exists (s : handle) (P : Prop) (b : bool),
  means s P /\ ~ (P /\ b = true) /\ exists e, possibly (check_upper (nsierp_and_bool s b) e) = true /\
  definitely (check_kleenean (nsierp_and_bool s b) e) = true /\
  definitely (check_kleenean (bool_and_nsierp b s) e) = true.
Proof.
  exists (HConst TRUE), True, false. repeat split.
  - constructor. split; [trivial|discriminate].
  - intros [_ H]; discriminate.
  - exists 0. repeat split; reflexivity.
Qed.
Lemma mixed_kleenean_means k P b : means k P ->
  means (kleenean_and_bool k b) (P /\ b = true) /\ means (kleenean_or_bool k b) (P \/ b = true).
Proof.
  intros H. assert (Hb : means (kleenean_of_bool b) (b = true)).
  { constructor. destruct b; split; cbv; intros; congruence. }
  split; constructor; assumption.
Qed.
Lemma mixed_kleenean k P b : means k P -> forall e,
  informs (check_kleenean (kleenean_and_bool k b) e) (P /\ b = true) /\
  informs (check_kleenean (kleenean_or_bool k b) e) (P \/ b = true).
Proof.
  intros H e. destruct (mixed_kleenean_means k P b H) as [H1 H2].
  split; apply means_check; assumption.
Qed.
