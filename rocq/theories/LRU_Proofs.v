From Coq Require Import List Bool Arith Lia Permutation.
From Verif Require Import LRU_Model LRU_Spec.
Import ListNotations.

Section Proofs.
  Context {L V : Type} (eqb : L -> L -> bool).
  Hypothesis eqb_spec : forall a b, eqb a b = true <-> a = b.

  Lemma eqb_refl a : eqb a a = true. Proof. apply eqb_spec; reflexivity. Qed.
  Lemma eqb_neq a b : eqb a b = false <-> a <> b.
  Proof. rewrite <- eqb_spec. destruct (eqb a b); split; congruence. Qed.

  Fixpoint index_from (k : nat) (r : recency L V) : list (L * (nat * V)) :=
    match r with [] => [] | (l, v) :: r' => (l, (k, v)) :: index_from (S k) r' end.

  Lemma index_length r : forall k, length (index_from k r) = length r.
  Proof. induction r as [|[l v] r IH]; intros k; simpl; auto. Qed.
  Lemma index_app r1 : forall k r2, index_from k (r1 ++ r2) = index_from k r1 ++ index_from (k + length r1) r2.
  Proof.
    induction r1 as [|[l v] r1 IH]; intros k r2; simpl; [rewrite Nat.add_0_r; reflexivity|].
    rewrite IH. do 3 f_equal; lia.
  Qed.
  Lemma index_keys r : forall k, map fst (index_from k r) = map fst r.
  Proof. induction r as [|[l v] r IH]; intros k; simpl; f_equal; auto. Qed.
  Lemma index_older r : forall k, map older (index_from k r) = index_from (S k) r.
  Proof. induction r as [|[l v] r IH]; intros k; simpl; f_equal; auto. Qed.
  Lemma index_in r : forall k l a v, In (l, (a, v)) (index_from k r) <-> (k <= a /\ nth_error r (a - k) = Some (l, v)).
  Proof.
    induction r as [|[l0 v0] r IH]; intros k l a v; simpl.
    - split; [contradiction|]. intros [_ H]. destruct (a - k); discriminate.
    - rewrite IH. split.
      + intros [H|[H1 H2]].
        * injection H as -> -> ->. split; [lia|]. rewrite Nat.sub_diag; reflexivity.
        * split; [lia|]. replace (a - k) with (S (a - S k)) by lia. exact H2.
      + intros [H1 H2]. destruct (Nat.eq_dec a k) as [->|Hne].
        * rewrite Nat.sub_diag in H2. injection H2 as -> ->. auto.
        * right. split; [lia|]. replace (a - k) with (S (a - S k)) in H2 by lia. exact H2.
  Qed.

  Definition Rel (es : list (L * (nat * V))) (r : recency L V) : Prop :=
    Permutation es (index_from 0 r) /\ NoDup (map fst r).

  Lemma Rel_keys es r : Rel es r -> NoDup (map fst es).
  Proof.
    intros [HP HN]. eapply Permutation_NoDup; [|exact HN].
    apply Permutation_sym. rewrite <- (index_keys r 0). apply Permutation_map; exact HP.
  Qed.

  Lemma find_in (es : list (L * (nat * V))) : NoDup (map fst es) -> forall l av, find eqb l es = Some av <-> In (l, av) es.
  Proof.
    induction es as [|[l0 av0] es IH]; intros HN l av; simpl; [split; [discriminate|contradiction]|].
    simpl in HN. inversion HN as [|? ? Hn HN' E]; subst.
    destruct (eqb l l0) eqn:E.
    - apply eqb_spec in E; subst l0. split.
      + intros H; injection H as ->; auto.
      + intros [H|H]; [injection H as ->; reflexivity|].
        exfalso; apply Hn. apply (in_map fst) in H; exact H.
    - apply eqb_neq in E. rewrite IH by assumption. split; [auto|].
      intros [H|H]; [injection H as H1 _; congruence|exact H].
  Qed.
  Lemma find_none (es : list (L * (nat * V))) l : find eqb l es = None <-> ~ In l (map fst es).
  Proof.
    induction es as [|[l0 av0] es IH]; simpl; [intuition|].
    destruct (eqb l l0) eqn:E.
    - apply eqb_spec in E; subst. intuition discriminate.
    - apply eqb_neq in E. rewrite IH. intuition.
  Qed.
  Lemma value_none (r : recency L V) l : value_of eqb l r = None <-> ~ In l (map fst r).
  Proof.
    induction r as [|[l0 v0] r IH]; simpl; [intuition|].
    destruct (eqb l l0) eqn:E.
    - apply eqb_spec in E; subst. intuition discriminate.
    - apply eqb_neq in E. rewrite IH. intuition.
  Qed.
  Lemma value_split (r : recency L V) l v : value_of eqb l r = Some v ->
    exists r1 r2, r = r1 ++ (l, v) :: r2 /\ ~ In l (map fst r1).
  Proof.
    induction r as [|[l0 v0] r IH]; simpl; [discriminate|].
    destruct (eqb l l0) eqn:E.
    - apply eqb_spec in E; subst. intros H; injection H as ->. exists [], r; simpl; auto.
    - apply eqb_neq in E. intros H. destruct (IH H) as [r1 [r2 [-> Hn]]].
      exists ((l0, v0) :: r1), r2. split; [reflexivity|]. simpl; intuition.
  Qed.
  Lemma position_split (r1 r2 : recency L V) l v : ~ In l (map fst r1) ->
    position eqb l (r1 ++ (l, v) :: r2) = Some (length r1).
  Proof.
    induction r1 as [|[l0 v0] r1 IH]; simpl; intros Hn.
    - rewrite eqb_refl; reflexivity.
    - replace (eqb l l0) with false by (symmetry; apply eqb_neq; intuition).
      rewrite IH by intuition. reflexivity.
  Qed.
  Lemma position_none (r : recency L V) l : position eqb l r = None <-> value_of eqb l r = None.
  Proof.
    induction r as [|[l0 v0] r IH]; simpl; [intuition|].
    destruct (eqb l l0); [intuition discriminate|].
    destruct (position eqb l r); simpl; intuition discriminate.
  Qed.
  Lemma Rel_find_none es r l : Rel es r -> (find eqb l es = None <-> value_of eqb l r = None).
  Proof.
    intros [HP HN]. rewrite find_none, value_none.
    assert (E : forall x, In x (map fst es) <-> In x (map fst r)).
    { intros x. rewrite <- (index_keys r 0). split; apply Permutation_in; apply Permutation_map; [|apply Permutation_sym]; assumption. }
    rewrite E; reflexivity.
  Qed.
  Lemma Rel_find es r l : Rel es r -> forall a v, find eqb l es = Some (a, v) <-> nth_error r a = Some (l, v).
  Proof.
    intros HR a v. rewrite find_in by (eapply Rel_keys; eauto). destruct HR as [HP HN].
    rewrite <- (Nat.sub_0_r a) at 2. split.
    - intros H. apply (Permutation_in _ HP) in H. apply index_in in H. apply H.
    - intros H. apply (Permutation_in _ (Permutation_sym HP)). apply index_in. split; [lia|exact H].
  Qed.

  Lemma filter_perm {A} (f : A -> bool) l l' : Permutation l l' -> Permutation (filter f l) (filter f l').
  Proof.
    induction 1 as [|x l l' H IH|x y l|l l' l'' H1 IH1 H2 IH2]; simpl.
    - constructor.
    - destruct (f x); [constructor|]; assumption.
    - destruct (f x), (f y); try apply Permutation_refl. apply perm_swap.
    - eapply Permutation_trans; eauto.
  Qed.
  Lemma filter_all {A} (f : A -> bool) l : (forall x, In x l -> f x = true) -> filter f l = l.
  Proof.
    induction l as [|x l IH]; intros H; simpl; [reflexivity|].
    rewrite H by (left; reflexivity). f_equal. apply IH. intros y Hy; apply H; right; exact Hy.
  Qed.

  Lemma select_spec m (es : list (L * (nat * V))) : forall acc,
    (forall l a v, In (l, (a, v)) es -> a <> m - 1) -> select m es acc = acc.
  Proof.
    induction es as [|[l [a v]] es IH]; intros acc H; simpl; [reflexivity|].
    replace (a =? m - 1) with false by (symmetry; apply Nat.eqb_neq; eapply H; left; reflexivity).
    apply IH. intros l' a' v' Hin. eapply H; right; exact Hin.
  Qed.
  Lemma select_found m (es : list (L * (nat * V))) l v : (forall l' v', In (l', (m - 1, v')) es -> l' = l) ->
    In (l, (m - 1, v)) es -> forall acc, select m es acc = Some l.
  Proof.
    induction es as [|[l0 [a0 v0]] es IH]; intros Hu Hin acc; simpl; [contradiction|].
    destruct Hin as [H|H].
    - injection H as -> -> ->. rewrite Nat.eqb_refl.
      clear IH. assert (Hu' : forall l' v', In (l', (m - 1, v')) es -> l' = l) by (intros; eapply Hu; right; eauto).
      clear Hu. induction es as [|[l1 [a1 v1]] es IH]; simpl; [reflexivity|].
      destruct (a1 =? m - 1) eqn:E.
      + apply Nat.eqb_eq in E; subst a1. rewrite (Hu' l1 v1) by (left; reflexivity).
        apply IH. intros; eapply Hu'; right; eauto.
      + apply IH. intros; eapply Hu'; right; eauto.
    - apply IH; [|exact H]. intros; eapply Hu; right; eauto.
  Qed.

  Lemma Rel_put (c : cache L V) r l v : 0 < max_size c -> Rel (elements c) r -> length r <= max_size c ->
    value_of eqb l r = None ->
    exists c', put eqb c l v = Ret c' /\ max_size c' = max_size c /\
      Rel (elements c') (firstn (max_size c) ((l, v) :: r)).
  Proof.
    intros Hm HR Hlen Hnone. assert (HR' := HR). destruct HR' as [HP HN].
    unfold put, has_label.
    replace (find eqb l (elements c)) with (@None (nat * V)) by (symmetry; apply (Rel_find_none _ _ _ HR); exact Hnone).
    assert (HlE : length (elements c) = length r) by (rewrite (Permutation_length HP); apply index_length).
    rewrite HlE. apply value_none in Hnone. destruct (Nat.ltb_spec (length r) (max_size c)) as [Hlt|Hge].
    - eexists. split; [reflexivity|]. split; [reflexivity|]. simpl.
      rewrite firstn_all2 by (simpl; lia). split.
      + simpl. constructor. rewrite <- index_older. apply Permutation_map; exact HP.
      + simpl. constructor; assumption.
    - assert (HL : length r = max_size c) by lia.
      destruct (exists_last (l := r)) as [r' [[lx vx] Hr]]; [intros ->; simpl in HL; lia|].
      assert (Hlr : length r' = max_size c - 1) by (rewrite Hr, app_length in HL; simpl in HL; lia).
      assert (Hsel : select (max_size c) (elements c) None = Some lx).
      { apply select_found with (v := vx).
        - intros l' v' H. apply (Permutation_in _ HP) in H. apply index_in in H. destruct H as [_ H].
          rewrite Nat.sub_0_r, Hr in H. rewrite nth_error_app2 in H by lia. rewrite Hlr, Nat.sub_diag in H.
          injection H as -> ->; reflexivity.
        - apply (Permutation_in _ (Permutation_sym HP)). apply index_in. split; [lia|].
          rewrite Nat.sub_0_r, Hr, nth_error_app2 by lia. rewrite Hlr, Nat.sub_diag; reflexivity. }
      rewrite Hsel. eexists. split; [reflexivity|]. split; [reflexivity|]. cbn [elements].
      assert (Hf : firstn (max_size c) ((l, v) :: r) = (l, v) :: r').
      { destruct (max_size c) as [|m]; [lia|]. simpl. f_equal. rewrite Hr, firstn_app.
        replace (m - length r') with 0 by lia. simpl. rewrite app_nil_r. apply firstn_all2; lia. }
      rewrite Hf. rewrite Hr, map_app in HN. simpl in HN.
      assert (HNr' : NoDup (map fst r') /\ ~ In lx (map fst r')).
      { apply NoDup_remove in HN. rewrite app_nil_r in HN. exact HN. }
      split.
      + simpl. constructor. unfold erase.
        eapply Permutation_trans; [apply filter_perm; apply Permutation_map; exact HP|].
        rewrite index_older, Hr, index_app, filter_app. simpl. rewrite eqb_refl. simpl. rewrite app_nil_r.
        rewrite filter_all; [apply Permutation_refl|].
        intros [l' av] Hin. simpl. apply negb_true_iff, eqb_neq. intros ->.
        apply (in_map fst) in Hin. rewrite index_keys in Hin. apply HNr'; exact Hin.
      + simpl. constructor; [|apply HNr']. intros Hin. apply Hnone. rewrite Hr, map_app. apply in_or_app; auto.
  Qed.

  Lemma map_map_ext {A} (f g : A -> A) l l' : map f l = l' -> map g l' = map g (map f l).
  Proof. intros <-; reflexivity. Qed.

  Lemma Rel_get (c : cache L V) r l v : Rel (elements c) r -> value_of eqb l r = Some v ->
    exists c', get eqb c l = Ret (c', v) /\ max_size c' = max_size c /\ Rel (elements c') ((l, v) :: without eqb l r).
  Proof.
    intros HR Hv. assert (HR' := HR). destruct HR' as [HP HN].
    destruct (value_split _ _ _ Hv) as [r1 [r2 [Hr Hn1]]].
    assert (Hfind : find eqb l (elements c) = Some (length r1, v)).
    { apply (Rel_find _ _ _ HR). rewrite Hr, nth_error_app2, Nat.sub_diag by lia. reflexivity. }
    unfold get. rewrite Hfind. eexists. split; [reflexivity|]. split; [reflexivity|]. cbn [elements].
    rewrite Hr, map_app in HN. simpl in HN. apply NoDup_remove in HN. destruct HN as [HN Hn].
    assert (Hn2 : ~ In l (map fst r2)) by (intros H; apply Hn; apply in_or_app; auto).
    assert (Hw : without eqb l r = r1 ++ r2).
    { unfold without. rewrite Hr, filter_app. simpl. rewrite eqb_refl. simpl. f_equal; apply filter_all;
      intros [l' v'] Hin; simpl; apply negb_true_iff, eqb_neq; intros ->; apply (in_map fst) in Hin; contradiction. }
    rewrite Hw. split.
    - eapply Permutation_trans; [apply Permutation_map, Permutation_map; exact HP|].
      rewrite Hr, index_app, !map_app. simpl. rewrite Nat.ltb_irrefl, eqb_refl.
      rewrite index_app.
      assert (E1 : forall q k, (forall x, In x (map fst q) -> x <> l) -> k + length q <= length r1 ->
        map (fun e : L * (nat * V) => let '(l', (a', v')) := e in if eqb l l' then (l', (0, v')) else (l', (a', v')))
         (map (fun e : L * (nat * V) => let '(l', (a', v')) := e in if a' <? length r1 then (l', (S a', v')) else (l', (a', v'))) (index_from k q))
        = index_from (S k) q).
      { induction q as [|[l0 v0] q IH]; intros k Hq Hk; simpl; [reflexivity|]. simpl in Hk, Hq.
        destruct (Nat.ltb_spec k (length r1)); [|lia].
        replace (eqb l l0) with false by (symmetry; apply eqb_neq; intros ->; eapply Hq; eauto).
        f_equal. apply IH; [auto|lia]. }
      assert (E2 : forall q k, (forall x, In x (map fst q) -> x <> l) -> length r1 <= k ->
        map (fun e : L * (nat * V) => let '(l', (a', v')) := e in if eqb l l' then (l', (0, v')) else (l', (a', v')))
         (map (fun e : L * (nat * V) => let '(l', (a', v')) := e in if a' <? length r1 then (l', (S a', v')) else (l', (a', v'))) (index_from k q))
        = index_from k q).
      { induction q as [|[l0 v0] q IH]; intros k Hq Hk; simpl; [reflexivity|]. simpl in Hq.
        destruct (Nat.ltb_spec k (length r1)); [lia|].
        replace (eqb l l0) with false by (symmetry; apply eqb_neq; intros ->; eapply Hq; eauto).
        f_equal. apply IH; [auto|lia]. }
      rewrite E1; [|intros x Hx ->; contradiction|lia].
      rewrite E2; [|intros x Hx ->; contradiction|lia].
      simpl. apply Permutation_sym, Permutation_middle.
    - simpl. constructor; [|rewrite map_app; exact HN]. rewrite map_app. exact Hn.
  Qed.

  Lemma length_without (r : recency L V) l v : NoDup (map fst r) -> value_of eqb l r = Some v ->
    length ((l, v) :: without eqb l r) = length r.
  Proof.
    intros HN Hv. destruct (value_split _ _ _ Hv) as [r1 [r2 [Hr Hn1]]].
    rewrite Hr, map_app in HN. simpl in HN. apply NoDup_remove in HN. destruct HN as [HN Hn].
    unfold without. rewrite Hr, filter_app. simpl. rewrite eqb_refl. simpl.
    rewrite !filter_all, !app_length; simpl; [lia| |];
      intros [l' v'] Hin; simpl; apply negb_true_iff, eqb_neq; intros ->; apply (in_map fst) in Hin; simpl in Hin;
      apply Hn; apply in_or_app; auto.
  Qed.

  Lemma step_refines (c : cache L V) r o : 0 < max_size c -> Rel (elements c) r -> length r <= max_size c ->
    snd (step eqb c o) = snd (spec_step eqb (max_size c) r o) /\
    max_size (fst (step eqb c o)) = max_size c /\
    Rel (elements (fst (step eqb c o))) (fst (spec_step eqb (max_size c) r o)) /\
    length (fst (spec_step eqb (max_size c) r o)) <= max_size c.
  Proof.
    intros Hm HR Hlen. destruct o as [l v|l|l|l|]; simpl.
    - destruct (value_of eqb l r) as [v0|] eqn:E.
      + assert (Hh : put eqb c l v = AssertFail).
        { unfold put, has_label. destruct (find eqb l (elements c)) eqn:F; [reflexivity|].
          apply (Rel_find_none _ _ _ HR) in F. congruence. }
        rewrite Hh. simpl. auto.
      + destruct (Rel_put c r l v Hm HR Hlen E) as [c' [-> [Hc HR']]]. simpl fst; simpl snd.
        repeat split; auto; try apply HR'. rewrite firstn_length. lia.
    - destruct (value_of eqb l r) as [v0|] eqn:E.
      + destruct (Rel_get c r l v0 HR E) as [c' [-> [Hc HR']]]. cbn [fst snd].
        split; [reflexivity|]. split; [assumption|]. split; [assumption|].
        destruct HR as [HP HN]. rewrite length_without; assumption.
      + unfold get. replace (find eqb l (elements c)) with (@None (nat * V))
          by (symmetry; apply (Rel_find_none _ _ _ HR); exact E). simpl. auto.
    - unfold has_label. destruct (value_of eqb l r) eqn:E; destruct (find eqb l (elements c)) eqn:F; auto.
      + apply (Rel_find_none _ _ _ HR) in F. congruence.
      + apply (Rel_find_none _ _ _ HR) in E. congruence.
    - unfold age. destruct (position eqb l r) as [n|] eqn:E.
      + destruct (value_of eqb l r) as [v0|] eqn:Ev; [|apply position_none in Ev; congruence].
        destruct (value_split _ _ _ Ev) as [r1 [r2 [Hr Hn]]].
        rewrite Hr, position_split in E by assumption. injection E as <-.
        assert (Hf : find eqb l (elements c) = Some (length r1, v0)).
        { apply (Rel_find _ _ _ HR). rewrite Hr, nth_error_app2, Nat.sub_diag by lia. reflexivity. }
        rewrite Hf. simpl. auto.
      + apply position_none in E. apply (Rel_find_none _ _ _ HR) in E. rewrite E. simpl; auto.
    - repeat split; auto; try apply HR. unfold current_size. destruct HR as [HP _].
      rewrite (Permutation_length HP), index_length. reflexivity.
  Qed.

  Lemma run_refines (os : list (op L V)) : forall c r, 0 < max_size c -> Rel (elements c) r -> length r <= max_size c ->
    run eqb c os = spec_run eqb (max_size c) r os.
  Proof.
    induction os as [|o os IH]; intros c r Hm HR Hlen; [reflexivity|].
    destruct (step_refines c r o Hm HR Hlen) as [H1 [H2 [H3 H4]]].
    cbn [run spec_run]. destruct (step eqb c o) as [c' x]. destruct (spec_step eqb (max_size c) r o) as [r' y].
    simpl in *. subst y. f_equal. rewrite IH with (r := r'); rewrite ?H2; auto.
  Qed.

  Lemma history_refines m (os : list (op L V)) : 0 < m ->
    exists c, make m = Ret c /\ run eqb c os = spec_run eqb m [] os.
  Proof.
    intros Hm. unfold make. destruct (Nat.ltb_spec 0 m); [|lia].
    eexists; split; [reflexivity|].
    apply (run_refines os {| max_size := m; elements := [] |} []); simpl; auto; try lia.
    split; [constructor|constructor].
  Qed.

  Lemma spec_no_ub m (os : list (op L V)) : forall r, ~ In UB (spec_run eqb m r os).
  Proof.
    induction os as [|o os IH]; intros r; [auto|]. cbn [spec_run].
    destruct (spec_step eqb m r o) as [r' y] eqn:E. intros [H|H]; [|eapply IH; eauto]. subst y.
    destruct o; simpl in E; repeat match type of E with context [match ?x with _ => _ end] => destruct x end; discriminate.
  Qed.
End Proofs.

Lemma run_no_ub {L V} (eqb : L -> L -> bool) : (forall a b, eqb a b = true <-> a = b) ->
  forall m (os : list (op L V)) c, make m = Ret c -> ~ In UB (run eqb c os).
Proof.
  intros He m os c Hc. destruct (Nat.ltb_spec 0 m) as [Hm|Hm].
  - destruct (history_refines eqb He m os Hm) as [c' [Hc' Hr]].
    rewrite Hc in Hc'. injection Hc' as <-. rewrite Hr. apply spec_no_ub.
  - unfold make in Hc. destruct (Nat.ltb_spec 0 m); [lia|discriminate].
Qed.
