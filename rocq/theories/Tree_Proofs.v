From Coq Require Import List Bool Arith Lia FinFun.
From Verif Require Import Logical_Model Word_Model Tree_Model Tree_Spec.
Import ListNotations.

Lemma def_true m : definitely m = true <-> m = TRUE.
Proof. destruct m; simpl; intuition discriminate. Qed.
Lemma def_false m : definitely m = false <-> m <> TRUE.
Proof. destruct m; simpl; intuition discriminate. Qed.
Ltac dm m := destruct (definitely m) eqn:?; [match goal with H : definitely m = true |- _ => apply def_true in H end
  | match goal with H : definitely m = false |- _ => apply def_false in H end]; simpl.

Definition cons (b : bool) (s : address) : address := fun n => match n with O => b | S k => s k end.

Lemma covers_dec t : forall s, covers t s \/ ~ covers t s.
Proof.
  induction t as [m|m l IHl r IHr]; intros s; simpl.
  - destruct m; intuition discriminate.
  - destruct (s 0); auto.
Qed.

(** * Sets of points *)
Lemma has_enabled_exact t : has_enabled t = true <-> exists s, covers t s.
Proof.
  induction t as [m|m l IHl r IHr]; simpl.
  - rewrite def_true. split; [intros; exists (fun _ => false); assumption|intros [s H]; exact H].
  - rewrite orb_true_iff, IHl, IHr. split.
    + intros [[s H]|[s H]]; [exists (cons false s)|exists (cons true s)]; exact H.
    + intros [s H]. destruct (s 0); eauto.
Qed.
Lemma all_enabled_exact t : all_enabled t = true <-> forall s, covers t s.
Proof.
  induction t as [m|m l IHl r IHr]; simpl.
  - rewrite def_true. split; [auto|intros H; exact (H (fun _ => false))].
  - rewrite andb_true_iff, IHl, IHr. split.
    + intros [H1 H2] s. destruct (s 0); auto.
    + intros H. split; intros s; [exact (H (cons false s))|exact (H (cons true s))].
Qed.
Lemma in_cell_nil s : in_cell [] s. Proof. intros [|i] b; discriminate. Qed.
Lemma in_cell_cons b p s : in_cell (b :: p) s <-> s 0 = b /\ in_cell p (tail s).
Proof.
  split.
  - intros H. split; [apply (H 0); reflexivity|]. intros i c Hi. apply (H (S i)); exact Hi.
  - intros [H1 H2] [|i] c Hi; simpl in Hi; [congruence|apply (H2 i c Hi)].
Qed.
Lemma is_enabled_path_exact t : forall p, is_enabled_path t p = true <-> forall s, in_cell p s -> covers t s.
Proof.
  assert (H0 : forall q, exists s, in_cell q s).
  { induction q as [|b q [s Hs]]; [exists (fun _ => false); apply in_cell_nil|].
    exists (cons b s). apply in_cell_cons. split; [reflexivity|exact Hs]. }
  induction t as [m|m l IHl r IHr]; intros p; simpl.
  - rewrite def_true. split; [auto|]. intros H. destruct (H0 p) as [s Hs]. eapply H; eauto.
  - destruct p as [|b p].
    + rewrite (andb_true_iff (all_enabled l)), !all_enabled_exact. split.
      * intros [H1 H2] s _. destruct (s 0); auto.
      * intros H. split; intros s; [apply (H (cons false s))|apply (H (cons true s))]; apply in_cell_nil.
    + destruct b; [rewrite IHr|rewrite IHl]; (split; intros H s Hs;
        [apply in_cell_cons in Hs; destruct Hs as [Hb Ht]; rewrite Hb; apply H; exact Ht
        |]).
      * apply (H (cons true s)). apply in_cell_cons. split; [reflexivity|exact Hs].
      * apply (H (cons false s)). apply in_cell_cons. split; [reflexivity|exact Hs].
Qed.
Lemma intersect_exact t : forall u, intersect t u = true <-> exists s, covers t s /\ covers u s.
Proof.
  induction t as [m|m l IHl r IHr]; intros [n|n l' r']; cbn [intersect].
  - rewrite andb_true_iff, !def_true. simpl. split; [intros; exists (fun _ => false); assumption|intros [s H]; exact H].
  - rewrite andb_true_iff, def_true, has_enabled_exact. simpl. split.
    + intros [H1 [s H2]]. exists s; auto.
    + intros [s [H1 H2]]. eauto.
  - rewrite andb_true_iff, def_true, has_enabled_exact. simpl. split.
    + intros [H1 [s H2]]. exists s; auto.
    + intros [s [H1 H2]]. eauto.
  - rewrite orb_true_iff, IHl, IHr. split.
    + intros [[s H]|[s H]]; [exists (cons false s)|exists (cons true s)]; exact H.
    + intros [s H]. simpl in H. destruct (s 0); eauto.
Qed.
Lemma not_has_enabled t : has_enabled t = false <-> forall s, ~ covers t s.
Proof.
  rewrite <- not_true_iff_false, has_enabled_exact. split; [intros H s Hs; apply H; eauto|intros H [s Hs]; eapply H; eauto].
Qed.
Lemma subset_exact t : forall u, subset t u = true <-> forall s, covers t s -> covers u s.
Proof.
  induction t as [m|m l IHl r IHr]; intros [n|n l' r']; cbn [subset].
  - rewrite orb_true_iff, negb_true_iff, def_false, def_true. simpl. split; [intuition|].
    intros H. specialize (H (fun _ => false)). destruct m; auto; left; discriminate.
  - rewrite orb_true_iff, negb_true_iff, def_false, all_enabled_exact. split.
    + intros [H|H] s Hs; [contradiction|auto].
    + intros H. destruct m; try (left; discriminate). right. intros s. apply H. reflexivity.
  - rewrite orb_true_iff, negb_true_iff, not_has_enabled, def_true. split.
    + intros [H|H] s Hs; [exact H|exfalso; eapply H; eauto].
    + intros H. destruct n; auto; right; intros s Hs; specialize (H s Hs); discriminate.
  - rewrite andb_true_iff, IHl, IHr. split.
    + intros [H1 H2] s. simpl. destruct (s 0); auto.
    + intros H. split; intros s Hs; [exact (H (cons false s) Hs)|exact (H (cons true s) Hs)].
Qed.

(** * Updates *)
Lemma covers_split t s : covers (split t) s <-> covers t s.
Proof. destruct t; simpl; [destruct (s 0)|]; reflexivity. Qed.
Lemma restrict_covers t : forall o s, covers (restrict t o) s <-> covers t s /\ covers o s.
Proof.
  induction t as [m|m l IHl r IHr]; intros [n|n l' r'] s; cbn [restrict].
  - simpl. destruct m, n; simpl; intuition discriminate.
  - dm m; [subst; intuition|]. split; [contradiction|intros [H _]; contradiction].
  - dm n; [subst; intuition|]. split; [discriminate|intros [_ H]; contradiction].
  - simpl. destruct (s 0); auto.
Qed.
Lemma remove_covers o : forall t s, covers (remove t o) s <-> covers t s /\ ~ covers o s.
Proof.
  induction o as [n|n l' IHl r' IHr]; intros [m|m l r] s; cbn [remove].
  - dm m; [dm n|]; subst; simpl; try (intuition congruence).
  - dm n; subst; simpl; [intuition congruence|]. intuition.
  - dm m.
    + destruct (s 0); [rewrite IHr|rewrite IHl]; reflexivity.
    + intuition.
  - simpl. destruct (s 0); auto.
Qed.
Lemma add_tree_covers t : forall o s, covers (add_tree t o) s <-> covers t s \/ covers o s.
Proof.
  induction t as [m|m l IHl r IHr]; intros [n|n l' r'] s; cbn [add_tree].
  - dm m; [|dm n]; subst; simpl; intuition congruence.
  - dm m; subst; simpl; intuition congruence.
  - dm n; subst; simpl; intuition congruence.
  - simpl. destruct (s 0); auto.
Qed.
Lemma add_path_covers p : forall t s, covers (add_path t p) s <-> covers t s \/ in_cell p s.
Proof.
  induction p as [|b p IH]; intros t s; cbn [add_path].
  - assert (H := in_cell_nil s). destruct t; simpl; intuition.
  - rewrite in_cell_cons. destruct t as [m|m l r].
    + dm m; [intuition|]. destruct b; simpl; destruct (s 0); rewrite ?IH; simpl; intuition congruence.
    + destruct b; simpl; destruct (s 0); rewrite ?IH; intuition congruence.
Qed.
Lemma wf_enabled t : wf t -> is_enabled t = true -> t = Lf TRUE.
Proof. unfold is_enabled. destruct t as [m|m l r]; simpl; intros H He; apply def_true in He; subst; [reflexivity|destruct H; discriminate]. Qed.
Lemma wf_split t : wf t -> wf (split t).
Proof. destruct t; simpl; intuition. Qed.
Lemma add_tree_at_covers p : forall t u s, wf t ->
  covers (add_tree_at t u p) s <-> covers t s \/ (in_cell p s /\ covers u (drop (length p) s)).
Proof.
  induction p as [|b p IH]; intros t u s Hw; cbn [add_tree_at].
  - assert (H := in_cell_nil s). destruct (is_enabled t) eqn:E.
    + apply wf_enabled in E; [subst; simpl; intuition|assumption].
    + rewrite add_tree_covers. change (drop (length (@nil bool)) s) with s. intuition.
  - rewrite in_cell_cons. destruct (is_enabled t) eqn:E.
    + apply wf_enabled in E; [subst; simpl; intuition|assumption].
    + assert (Hs := wf_split t Hw). rewrite <- (covers_split t s).
      destruct t as [m|m l r]; cbn [split] in *; destruct Hs as [_ [Hl Hr]]; destruct b; simpl;
      change (drop (S (length p)) s) with (drop (length p) (tail s));
      destruct (s 0) eqn:E0; rewrite ?IH by assumption; intuition congruence.
Qed.
Lemma prepend_covers p : forall t s, covers (prepend_loop p t) s <-> in_cell p s /\ covers t (drop (length p) s).
Proof.
  induction p as [|b p IH]; intros t s; simpl.
  - change (drop 0 s) with s. assert (H := in_cell_nil s). intuition.
  - rewrite in_cell_cons. change (drop (S (length p)) s) with (drop (length p) (tail s)).
    destruct b; simpl; destruct (s 0) eqn:E; rewrite ?IH; simpl; intuition congruence.
Qed.
Lemma prepend_tree_covers p t t' : prepend_tree p t = Some t' ->
  forall s, covers t' s <-> in_cell p s /\ covers t (drop (length p) s).
Proof. destruct p as [|b p]; [discriminate|]. intros H; injection H as <-. apply (prepend_covers (b :: p)). Qed.
Lemma prepend_tree_defined p t : prepend_tree p t = None <-> p = [].
Proof. destruct p; simpl; intuition discriminate. Qed.

Lemma mince_covers d : forall t s, covers (mince d t) s <-> covers t s.
Proof.
  induction d as [|d IH]; intros t s; cbn [mince]; [reflexivity|].
  destruct (is_disabled t); [reflexivity|].
  rewrite <- (covers_split t s). destruct t as [m|m l r]; simpl; destruct (s 0); apply IH.
Qed.
Lemma mince_leaf_depth d : forall t, wf t -> forall p, leaf_at (mince d t) p = Some TRUE -> d <= length p.
Proof.
  induction d as [|d IH]; intros t Hw p; [lia|]. cbn [mince].
  destruct (is_disabled t) eqn:E.
  - unfold is_disabled in E. apply negb_true_iff in E.
    destruct t as [m|m l r]; simpl in *.
    + destruct m; try discriminate. destruct p; discriminate.
    + destruct Hw as [-> _]. discriminate.
  - assert (Hs := wf_split t Hw). destruct t as [m|m l r]; cbn [split] in *; destruct Hs as [_ [Hl Hr]];
    (destruct p as [|b p]; [discriminate|]); intros Hp; cbn [length]; apply le_n_S;
    (destruct b; [exact (IH _ Hr _ Hp)|exact (IH _ Hl _ Hp)]).
Qed.
(** Mincing creates leaves at the stated depth only. *)
Lemma mince_leaf_new d : forall t p, leaf_at (mince d t) p = Some TRUE -> leaf_at t p = Some TRUE \/ (length p = d /\ d <> 0).
Proof.
  induction d as [|d IH]; intros t p; cbn [mince]; [auto|].
  destruct (is_disabled t) eqn:E; [auto|].
  destruct p as [|b p]; [destruct t; discriminate|].
  assert (N : forall m q, leaf_at (mince d (Lf m)) q = Some TRUE -> length q = d).
  { intros m q H. destruct (IH _ _ H) as [K|K]; [|tauto]. destruct q; [|discriminate].
    destruct d; [reflexivity|]. cbn [mince] in H. injection K as ->. discriminate. }
  destruct t as [m|m l r]; cbn [split leaf_at length].
  - intros H. right. split; [|lia]. f_equal. destruct b; eapply N; eauto.
  - intros H. destruct b; apply IH in H; destruct H as [H|H]; auto; right; lia.
Qed.
(** Mincing does not touch what was already deeper. *)
Lemma mince_keeps_deep d : forall t p m, d <= length p -> leaf_at t p = Some m -> leaf_at (mince d t) p = Some m.
Proof.
  induction d as [|d IH]; intros t p m Hd Hp; cbn [mince]; [exact Hp|].
  destruct (is_disabled t); [exact Hp|].
  destruct t as [n|n l r]; [destruct p; [simpl in Hd; lia|discriminate]|].
  destruct p as [|b p]; [discriminate|]. simpl in *. destruct b; apply IH; auto; lia.
Qed.

Lemma recombine_covers t : forall s, covers (recombine t) s <-> covers t s.
Proof.
  induction t as [m|m l IHl r IHr]; intros s; [reflexivity|].
  assert (H : covers (Nd m (recombine l) (recombine r)) s <-> covers (Nd m l r) s).
  { simpl. destruct (s 0); auto. }
  cbn [recombine]. destruct (recombine l) as [a|]; [destruct (recombine r) as [b|]|]; try exact H.
  destruct (definitely (lv_eq a b)) eqn:E; [|exact H]. rewrite <- H. simpl.
  assert (Hab : (a = TRUE <-> b = TRUE)) by (destruct a, b; simpl in E; try discriminate; intuition discriminate).
  destruct (s 0); intuition.
Qed.
Lemma wf_recombine t : wf t -> wf (recombine t).
Proof.
  induction t as [m|m l IHl r IHr]; simpl; [auto|]. intros [-> [Hl Hr]].
  specialize (IHl Hl); specialize (IHr Hr).
  destruct (recombine l) as [a|]; [destruct (recombine r) as [b|]|]; simpl; auto.
  destruct (definitely (lv_eq a b)); simpl; auto.
Qed.
Lemma recombine_reduced t : wf t -> reduced (recombine t).
Proof.
  induction t as [m|m l IHl r IHr]; simpl; [auto|]. intros [-> [Hl Hr]].
  assert (Wl := wf_recombine l Hl). assert (Wr := wf_recombine r Hr).
  specialize (IHl Hl); specialize (IHr Hr).
  destruct (recombine l) as [a|]; [destruct (recombine r) as [b|]|]; simpl; auto.
  - destruct (definitely (lv_eq a b)) eqn:E; simpl; auto. repeat split; auto.
    intros m [Ha Hb]. injection Ha as ->. injection Hb as ->.
    simpl in Wl. destruct Wl as [->| ->]; discriminate.
  - repeat split; auto; try apply IHr. intros m0 [_ H]; discriminate.
  - repeat split; auto; try apply IHl. intros m0 [H _]; discriminate.
Qed.
Lemma reduced_constant t : wf t -> reduced t -> (forall s, covers t s) \/ (forall s, ~ covers t s) -> is_leaf t = true.
Proof.
  induction t as [m|m l IHl r IHr]; simpl; [auto|]. intros [-> [Wl Wr]] [Rl [Rr Hn]] H. exfalso.
  assert (Hl : (forall s, covers l s) \/ (forall s, ~ covers l s)).
  { destruct H as [H|H]; [left|right]; intros s; exact (H (cons false s)). }
  assert (Hr : (forall s, covers r s) \/ (forall s, ~ covers r s)).
  { destruct H as [H'|H']; [left|right]; intros s; exact (H' (cons true s)). }
  specialize (IHl Wl Rl Hl); specialize (IHr Wr Rr Hr).
  destruct l as [a|]; [|discriminate]. destruct r as [b|]; [|discriminate].
  apply (Hn a). split; [reflexivity|]. f_equal. simpl in *.
  destruct H as [H|H].
  - assert (Ha := H (cons false (fun _ => false))). assert (Hb := H (cons true (fun _ => false))). simpl in *. congruence.
  - assert (Ha := H (cons false (fun _ => false))). assert (Hb := H (cons true (fun _ => false))). simpl in *.
    destruct Wl as [->| ->], Wr as [->| ->]; congruence.
Qed.
Lemma leaf_constant m : (forall s, covers (Lf m) s) \/ (forall s, ~ covers (Lf m) s).
Proof. destruct m; simpl; (left; intros; reflexivity) || (right; intros; discriminate). Qed.
Lemma reduced_unique t : forall u, wf t -> wf u -> reduced t -> reduced u ->
  (forall s, covers t s <-> covers u s) -> t = u.
Proof.
  induction t as [m|m l IHl r IHr]; intros u Wt Wu Rt Ru H.
  - assert (Hu : is_leaf u = true).
    { apply reduced_constant; auto. destruct (leaf_constant m) as [Hc|Hc]; [left|right]; intros s.
      - apply H, Hc. - rewrite <- H. apply Hc. }
    destruct u as [n|]; [|discriminate]. f_equal. specialize (H (fun _ => false)). simpl in *.
    destruct Wt as [->| ->], Wu as [->| ->]; try reflexivity; exfalso; intuition discriminate.
  - destruct u as [n|n l' r'].
    + exfalso. assert (Hc : is_leaf (Nd m l r) = true).
      { apply reduced_constant; auto. destruct (leaf_constant n) as [Hc|Hc]; [left|right]; intros s.
        - apply H, Hc. - rewrite H. apply Hc. }
      discriminate.
    + simpl in *. destruct Wt as [-> [Wl Wr]], Wu as [-> [Wl' Wr']], Rt as [Rl [Rr _]], Ru as [Rl' [Rr' _]].
      f_equal; [apply IHl|apply IHr]; auto; intros s; [exact (H (cons false s))|exact (H (cons true s))].
Qed.
Lemma recombine_canonical t u : wf t -> wf u -> (forall s, covers t s <-> covers u s) -> recombine t = recombine u.
Proof.
  intros Wt Wu H. apply reduced_unique; try apply wf_recombine; try apply recombine_reduced; auto.
  intros s. rewrite !recombine_covers. apply H.
Qed.

(** Recombining leaves the fewest enabled cells any tree needs for the set. *)
Lemma count_pos t : wf t -> (exists s, covers t s) -> 1 <= count_enabled t.
Proof.
  induction t as [m|m l IHl r IHr]; simpl; intros Hw [s Hs].
  - subst; simpl; lia.
  - destruct Hw as [-> [Hl Hr]]. destruct (s 0); [assert (1 <= count_enabled r) by eauto|assert (1 <= count_enabled l) by eauto]; lia.
Qed.
Lemma recombine_count t : count_enabled (recombine t) <= count_enabled t.
Proof.
  induction t as [m|m l IHl r IHr]; cbn [recombine]; [lia|].
  destruct (recombine l) as [a|]; [destruct (recombine r) as [b|]|]; simpl in *; try lia.
  destruct (definitely (lv_eq a b)) eqn:E; simpl; [|lia].
  destruct a, b; simpl in *; try discriminate; lia.
Qed.
Lemma recombine_minimal t u : wf t -> wf u -> (forall s, covers t s <-> covers u s) ->
  count_enabled (recombine t) <= count_enabled u.
Proof. intros Wt Wu H. rewrite (recombine_canonical t u Wt Wu H). apply recombine_count. Qed.

(** * The class invariant *)
Lemma wf_restrict t : forall o, wf t -> wf o -> wf (restrict t o).
Proof.
  induction t as [m|m l IHl r IHr]; intros [n|n l' r'] Ht Ho; cbn [restrict].
  - simpl in *. destruct Ht as [->| ->], Ho as [->| ->]; simpl; auto.
  - destruct (definitely m); assumption.
  - destruct (definitely n); [assumption|simpl; auto].
  - simpl in *. intuition.
Qed.
Lemma wf_remove o : forall t, wf t -> wf (remove t o).
Proof.
  induction o as [n|n l' IHl r' IHr]; intros [m|m l r] Ht; cbn [remove].
  - dm m; [dm n|]; simpl in *; auto.
  - dm n; simpl in *; auto.
  - destruct (definitely m); [|assumption]. simpl in *. repeat split; [apply IHl|apply IHr]; simpl; auto.
  - simpl in *. intuition.
Qed.
Lemma wf_add_tree t : forall o, wf t -> wf o -> wf (add_tree t o).
Proof.
  induction t as [m|m l IHl r IHr]; intros [n|n l' r'] Ht Ho; cbn [add_tree].
  - dm m; [|dm n]; simpl in *; auto.
  - dm m; simpl in *; intuition.
  - dm n; simpl in *; intuition.
  - simpl in *; intuition.
Qed.
Lemma wf_add_tree_at p : forall t u, wf t -> wf u -> wf (add_tree_at t u p).
Proof.
  induction p as [|b p IH]; intros t u Ht Hu; cbn [add_tree_at]; destruct (is_enabled t); auto using wf_add_tree.
  assert (Hs := wf_split t Ht). destruct (split t) as [m|m l r]; [assumption|].
  destruct Hs as [-> [Hl Hr]]. destruct b; simpl; auto.
Qed.
Lemma wf_add_path p : forall t, wf t -> wf (add_path t p).
Proof.
  induction p as [|b p IH]; intros t Ht; cbn [add_path].
  - destruct t; simpl; auto.
  - destruct t as [m|m l r].
    + dm m; auto. destruct b; simpl; repeat split; auto; apply IH; auto.
    + destruct b; simpl in *; intuition.
Qed.
Lemma wf_prepend p : forall t, wf t -> wf (prepend_loop p t).
Proof. induction p as [|b p IH]; intros t Ht; simpl; auto. destruct b; simpl; auto. Qed.
Lemma wf_mince d : forall t, wf t -> wf (mince d t).
Proof.
  induction d as [|d IH]; intros t Ht; cbn [mince]; auto. destruct (is_disabled t); auto.
  assert (Hs := wf_split t Ht). destruct (split t) as [m|m l r]; [assumption|].
  destruct Hs as [-> [Hl Hr]]. simpl; auto.
Qed.
Lemma restore_leaf_node f : forall m ai lc T L t ai' lc', m = TRUE \/ m = FALSE ->
  restore_node f (Lf m) ai lc T L = ROk t ai' lc' -> wf t.
Proof.
  induction f as [|f IH]; intros m ai lc T L t ai' lc' Hm; cbn [restore_node]; [discriminate|].
  destruct (nth_error T ai) as [[|]|].
  - cbn [split]. destruct (restore_node f (Lf m) (S ai) lc T L) as [l' ai1 lc1| |] eqn:E1; try discriminate.
    destruct (restore_node f (Lf m) (S ai1) lc1 T L) as [r' ai2 lc2| |] eqn:E2; try discriminate.
    intros H; injection H as <- <- <-. simpl. repeat split; eauto.
  - destruct (nth_error L lc) as [b|]; [|discriminate]. intros H; injection H as <- <- <-. simpl. destruct b; auto.
  - intros H; injection H as <- <- <-. exact Hm.
Qed.
Lemma wf_from_words T L t ai lc : from_words T L = ROk t ai lc -> wf t.
Proof.
  unfold from_words. destruct (_ && _).
  - apply restore_leaf_node; auto.
  - intros H; injection H as <- <- <-; simpl; auto.
Qed.
Lemma reachable_wf t : reachable t -> wf t.
Proof.
  induction 1; simpl in *; try (intuition; fail).
  - destruct b; simpl; auto.
  - apply wf_split; auto.
  - apply wf_mince; auto.
  - apply wf_recombine; auto.
  - apply wf_restrict; auto.
  - apply wf_remove; auto.
  - apply wf_add_tree; auto.
  - apply wf_add_tree_at; auto.
  - apply wf_add_path; auto.
  - destruct p; [discriminate|]. injection H0 as <-. apply (wf_prepend (b :: p)); auto.
  - destruct b; simpl; auto.
  - destruct t; [injection H0 as <-; simpl; auto|discriminate].
  - eapply wf_from_words; eauto.
Qed.

(** * Serialised form *)
Fixpoint tw (t : tree) : word := match t with Lf _ => [false] | Nd _ l r => true :: tw l ++ tw r end.
Fixpoint lw (t : tree) : word := match t with Lf m => [definitely m] | Nd _ l r => lw l ++ lw r end.
Lemma to_words_acc t : forall acc, to_words t acc = (fst acc ++ tw t, snd acc ++ lw t).
Proof.
  induction t as [m|m l IHl r IHr]; intros [a b]; simpl; [reflexivity|].
  rewrite IHl, IHr. simpl. rewrite <- !app_assoc. reflexivity.
Qed.
Lemma tw_pos t : 1 <= length (tw t). Proof. destruct t; simpl; lia. Qed.
Lemma lw_pos t : 1 <= length (lw t).
Proof. induction t as [|m l IHl r IHr]; simpl; [lia|]. rewrite app_length; lia. Qed.
Lemma restore_to_words t : forall fuel m0 pre post lpre lpost, wf t -> length (tw t) <= fuel ->
  restore_node fuel (Lf m0) (length pre) (length lpre) (pre ++ tw t ++ post) (lpre ++ lw t ++ lpost)
  = ROk t (length pre + length (tw t) - 1) (length lpre + length (lw t)).
Proof.
  induction t as [m|m l IHl r IHr]; intros fuel m0 pre post lpre lpost Hw Hf.
  - simpl in Hf. destruct fuel as [|fuel]; [lia|]. cbn [restore_node tw lw].
    rewrite nth_error_app2, Nat.sub_diag by lia. simpl.
    rewrite nth_error_app2, Nat.sub_diag by lia. simpl. f_equal; try lia.
    simpl in Hw. destruct Hw as [->| ->]; reflexivity.
  - cbn [tw length] in Hf. rewrite app_length in Hf. destruct fuel as [|fuel]; [lia|].
    destruct Hw as [-> [Wl Wr]]. assert (Hpl := tw_pos l). assert (Hpr := tw_pos r).
    cbn [restore_node tw lw]. rewrite nth_error_app2, Nat.sub_diag by lia. cbn [app nth_error split].
    assert (E1 : pre ++ true :: (tw l ++ tw r) ++ post = (pre ++ [true]) ++ tw l ++ (tw r ++ post))
      by (rewrite <- !app_assoc; reflexivity).
    assert (E2 : pre ++ true :: (tw l ++ tw r) ++ post = (pre ++ [true] ++ tw l) ++ tw r ++ post)
      by (rewrite <- !app_assoc; reflexivity).
    assert (E3 : lpre ++ (lw l ++ lw r) ++ lpost = lpre ++ lw l ++ (lw r ++ lpost)) by (rewrite <- !app_assoc; reflexivity).
    assert (E4 : lpre ++ (lw l ++ lw r) ++ lpost = (lpre ++ lw l) ++ lw r ++ lpost) by (rewrite <- !app_assoc; reflexivity).
    rewrite E1, E3.
    replace (S (length pre)) with (length (pre ++ [true])) by (rewrite app_length; simpl; lia).
    rewrite IHl by (auto; lia). rewrite <- E1, <- E3, E2, E4.
    replace (S (length (pre ++ [true]) + length (tw l) - 1)) with (length (pre ++ [true] ++ tw l))
      by (rewrite !app_length; simpl; lia).
    replace (length lpre + length (lw l)) with (length (lpre ++ lw l)) by (rewrite app_length; lia).
    rewrite IHr by (auto; lia). f_equal; rewrite !app_length; simpl; rewrite ?app_length; lia.
Qed.
Lemma words_round_trip t T L : wf t -> to_words t ([], []) = (T, L) ->
  from_words T L = ROk t (length T - 1) (length L).
Proof.
  intros Hw H. rewrite to_words_acc in H. simpl in H. injection H as <- <-.
  unfold from_words. assert (H1 := tw_pos t). assert (H2 := lw_pos t).
  destruct (Nat.ltb_spec 0 (length (tw t))); [|lia]. destruct (Nat.ltb_spec 0 (length (lw t))); [|lia]. simpl andb.
  assert (E := restore_to_words t (S (length (tw t))) FALSE [] [] [] [] Hw). simpl in E.
  rewrite !app_nil_r in E. apply E. lia.
Qed.
Lemma words_injective t u : wf t -> wf u -> to_words t ([], []) = to_words u ([], []) -> t = u.
Proof.
  intros Wt Wu H. destruct (to_words t ([], [])) as [T L] eqn:E.
  assert (H1 := words_round_trip t T L Wt E). assert (H2 := words_round_trip u T L Wu (eq_sym H)).
  rewrite H1 in H2. injection H2 as ->. reflexivity.
Qed.

(** Arbitrary (possibly truncated or over-long) arrays. *)
Fixpoint zeros (w : word) : nat := match w with [] => 0 | b :: w' => (if b then 0 else 1) + zeros w' end.
Lemma restore_terminates f : forall t ai lc T L, length T < f + ai -> 0 < f -> 
  (exists t' ai' lc', restore_node f t ai lc T L = ROk t' ai' lc' /\ ai <= ai') \/ restore_node f t ai lc T L = RUndefined.
Proof.
  induction f as [|f IH]; intros t ai lc T L Hf H0; [lia|]. cbn [restore_node].
  destruct (nth_error T ai) as [[|]|] eqn:E.
  - assert (Hlt : ai < length T) by (apply nth_error_Some; congruence).
    assert (Hs : exists m l r, split t = Nd m l r) by (destruct t; simpl; eauto).
    destruct Hs as [m [l [r ->]]].
    destruct (IH l (S ai) lc T L) as [[l' [ai1 [lc1 [-> H1]]]]| ->]; [lia|lia| |auto].
    destruct (IH r (S ai1) lc1 T L) as [[r' [ai2 [lc2 [-> H2]]]]| ->]; [lia|lia| |auto].
    left. exists (Nd m l' r'), ai2, lc2. split; [reflexivity|lia].
  - destruct (nth_error L lc); [left|right; reflexivity]. eexists _, ai, _; split; [reflexivity|lia].
  - left. eexists t, ai, lc; split; [reflexivity|lia].
Qed.
Lemma zeros_skip T : forall ai, nth_error T ai = Some false -> zeros (skipn ai T) = S (zeros (skipn (S ai) T)).
Proof. induction T as [|b T IH]; intros [|ai]; try discriminate; intros H; simpl in H. - injection H as ->; reflexivity. - exact (IH ai H). Qed.
Lemma zeros_skip_le T : forall ai k, ai <= k -> zeros (skipn k T) <= zeros (skipn ai T).
Proof.
  induction T as [|b T IH]; intros [|ai] [|k] H; simpl; try lia.
  - specialize (IH 0 k). simpl in IH. specialize (IH ltac:(lia)). destruct b; simpl; lia.
  - apply (IH ai k); lia.
Qed.
Lemma restore_defined f : forall t ai lc T L, length T < f + ai -> 0 < f -> lc + zeros (skipn ai T) <= length L ->
  exists t' ai' lc', restore_node f t ai lc T L = ROk t' ai' lc' /\ ai <= ai' /\ lc' + zeros (skipn (S ai') T) <= length L.
Proof.
  induction f as [|f IH]; intros t ai lc T L Hf H0 Hz; [lia|]. cbn [restore_node].
  destruct (nth_error T ai) as [[|]|] eqn:E.
  - assert (Hlt : ai < length T) by (apply nth_error_Some; congruence).
    assert (Hs : exists m l r, split t = Nd m l r) by (destruct t; simpl; eauto).
    destruct Hs as [m [l [r ->]]].
    assert (Hz1 := zeros_skip_le T ai (S ai)).
    destruct (IH l (S ai) lc T L) as [l' [ai1 [lc1 [-> [H1 H1z]]]]]; [lia|lia|lia|].
    destruct (IH r (S ai1) lc1 T L) as [r' [ai2 [lc2 [-> [H2 H2z]]]]]; [lia|lia|lia|].
    exists (Nd m l' r'), ai2, lc2. split; [reflexivity|]. lia.
  - rewrite zeros_skip in Hz by exact E.
    destruct (nth_error L lc) eqn:El; [|apply nth_error_None in El; lia].
    eexists _, ai, _; split; [reflexivity|]. lia.
  - exists t, ai, lc. split; [reflexivity|]. assert (H := zeros_skip_le T ai (S ai)). lia.
Qed.
Lemma from_words_total T L : (exists t ai lc, from_words T L = ROk t ai lc) \/ from_words T L = RUndefined.
Proof.
  unfold from_words. destruct (_ && _); [|left; eauto].
  destruct (restore_terminates (S (length T)) (Lf FALSE) 0 0 T L) as [[t [ai [lc [H _]]]]|H]; [lia|lia|left; eauto|auto].
Qed.
Lemma from_words_defined T L : zeros T <= length L -> exists t ai lc, from_words T L = ROk t ai lc.
Proof.
  intros Hz. unfold from_words. destruct (_ && _); [|eauto].
  destruct (restore_defined (S (length T)) (Lf FALSE) 0 0 T L) as [t [ai [lc [H _]]]]; [lia|lia|exact Hz|eauto].
Qed.

(** * Equality *)
Lemma tree_equal_exact t : forall u, wf t -> wf u -> (tree_equal t u = true <-> t = u).
Proof.
  induction t as [m|m l IHl r IHr]; intros [n|n l' r'] Wt Wu; simpl in *.
  - destruct Wt as [->| ->], Wu as [->| ->]; simpl; intuition discriminate.
  - rewrite andb_false_r. intuition discriminate.
  - rewrite andb_false_r. intuition discriminate.
  - destruct Wt as [-> [Wl Wr]], Wu as [-> [Wl' Wr']]. simpl.
    rewrite andb_true_iff, IHl, IHr by assumption. split; [intros [-> ->]; reflexivity|intros H; injection H; auto].
Qed.

(** * Counting *)
Lemma count_enabled_spec t : exists ps, NoDup ps /\ length ps = count_enabled t /\
  forall p, In p ps <-> leaf_at t p = Some TRUE.
Proof.
  induction t as [m|m l [pl [Nl [Ll Hl]]] r [pr [Nr [Lr Hr]]]]; simpl.
  - dm m.
    + exists [[]]. subst. repeat split; [constructor; [auto|constructor]| |].
      * intros [<-|[]]; reflexivity.
      * destruct p; [simpl; auto|discriminate].
    + exists []. repeat split; [constructor|contradiction|]. destruct p; [intros H'; injection H' as ->; congruence|discriminate].
  - exists (map (List.cons false) pl ++ map (List.cons true) pr). repeat split.
    + assert (Hinj : forall b (q : list word), NoDup q -> NoDup (map (List.cons b) q)).
      { intros b q Hq. apply Injective_map_NoDup; [intros x y Hxy; injection Hxy; auto|exact Hq]. }
      assert (Happ : forall a b : list word, NoDup a -> NoDup b -> (forall x, In x a -> ~ In x b) -> NoDup (a ++ b)).
      { induction a as [|x a IH]; simpl; intros b Ha Hb Hd; auto. inversion Ha; subst. constructor.
        - rewrite in_app_iff. intros [H'|H']; [auto|eapply Hd; eauto].
        - apply IH; auto. }
      apply Happ; auto. intros x H1 H2. apply in_map_iff in H1, H2.
      destruct H1 as [y [<- _]], H2 as [z [Hz _]]. discriminate.
    + rewrite app_length, !map_length, <- Ll, <- Lr. reflexivity.
    + rewrite in_app_iff, !in_map_iff. intros [[q [<- Hq]]|[q [<- Hq]]]; simpl; [apply Hl|apply Hr]; exact Hq.
    + destruct p as [|b p]; [discriminate|]. intros H. rewrite in_app_iff, !in_map_iff.
      destruct b; [right|left]; exists p; (split; [reflexivity|]); [apply Hr|apply Hl]; exact H.
Qed.
