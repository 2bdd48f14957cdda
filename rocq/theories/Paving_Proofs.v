From Coq Require Import List Bool Arith ZArith QArith Reals Lia Sorted.
From Verif Require Import LRU_Model Logical_Model Word_Model Word_Proofs Tree_Model Tree_Spec Tree_Proofs
  Cell_Model Cell_Spec Cell_Proofs Paving_Model Paving_Spec.
Import ListNotations.
Local Open Scope nat_scope.

(** * Addresses and trees *)
Lemma covers_leaf t : forall s, covers t s <-> exists p, leaf_at t p = Some TRUE /\ in_cell p s.
Proof.
  induction t as [m|m l IHl r IHr]; intros s; simpl.
  - split.
    + intros ->. exists []. split; auto using in_cell_nil.
    + intros ([|b p] & H & _); congruence.
  - destruct (s 0) eqn:E.
    + rewrite IHr. split.
      * intros (p & H & H'). exists (true :: p). split; auto. apply in_cell_cons; auto.
      * intros ([|b p] & H & H'); [discriminate|]. apply in_cell_cons in H'. destruct H' as [H1 H2].
        assert (EB : b = true) by congruence. rewrite EB in H. exists p; split; auto.
    + rewrite IHl. split.
      * intros (p & H & H'). exists (false :: p). split; auto. apply in_cell_cons; auto.
      * intros ([|b p] & H & H'); [discriminate|]. apply in_cell_cons in H'. destruct H' as [H1 H2].
        assert (EB : b = false) by congruence. rewrite EB in H. exists p; split; auto.
Qed.
Lemma covers_ext t : forall s s', (forall n, n < depth t -> s n = s' n) -> (covers t s <-> covers t s').
Proof.
  induction t as [m|m l IHl r IHr]; intros s s' H; simpl; [tauto|]. simpl in H.
  rewrite (H 0) by lia. destruct (s' 0).
  - apply IHr. intros n Hn. apply (H (S n)). lia.
  - apply IHl. intros n Hn. apply (H (S n)). lia.
Qed.
Lemma in_cell_ext w : forall s s', (forall n, n < length w -> s n = s' n) -> (in_cell w s <-> in_cell w s').
Proof.
  induction w as [|b w IH]; intros s s' H; [split; intros; apply in_cell_nil|].
  rewrite !in_cell_cons, (H 0) by (simpl; lia). rewrite (IH (tail s) (tail s')); [tauto|].
  intros n Hn. apply (H (S n)). simpl; lia.
Qed.
Lemma in_cell_dec w s : in_cell w s \/ ~ in_cell w s.
Proof.
  revert s. induction w as [|b w IH]; intros s; [left; apply in_cell_nil|].
  rewrite in_cell_cons. destruct (IH (tail s)), (bool_dec (s 0) b); tauto.
Qed.
Lemma covers_ext_all t s s' : (forall n, s n = s' n) -> (covers t s <-> covers t s').
Proof. intros H. apply covers_ext. auto. Qed.

(** The tree [t] hung below the path [w], seen from the root of the address. *)
Definition hung (w : word) (t : tree) (s : address) : Prop := in_cell w s /\ covers t (drop (length w) s).
Lemma hung_ext w t s s' : (forall n, n < length w + depth t -> s n = s' n) -> (hung w t s <-> hung w t s').
Proof.
  intros H. unfold hung. rewrite (in_cell_ext w s s'), (covers_ext t (drop (length w) s) (drop (length w) s')); [tauto| |].
  - intros n Hn. unfold drop. apply H. lia.
  - intros n Hn. apply H. lia.
Qed.

Section Geo.
  Context (d : nat) (g : grid) (M : monotone g) (Hd : 0 < d).

  Lemma lattice_points h w x : in_box d g (compute_lattice_box d h w) x <-> in_primary d g h x /\ in_cell w (paddr d g h x).
  Proof.
    split.
    - intros A. pose proof (lattice_in_primary _ _ _ _ _ M A). split; auto. apply lattice_addr; auto.
    - intros [A B]. apply lattice_addr; auto.
  Qed.
  Lemma points_iff s x : points d g s x <-> in_primary d g (s_ext s) x /\ hung (s_word s) (s_tree s) (paddr d g (s_ext s) x).
  Proof.
    unfold points, enabled_cell, hung. split.
    - intros (c & (p & L & ->) & H). unfold in_cell_box, cell_box in H; simpl in H.
      apply lattice_points in H. destruct H as [P H]. apply in_cell_app in H. destruct H as [H1 H2].
      split; auto. split; auto. apply covers_leaf. eauto.
    - intros (P & H1 & H2). apply covers_leaf in H2. destruct H2 as (p & L & H2).
      eexists. split; [exists p; split; [exact L|reflexivity]|].
      unfold in_cell_box, cell_box; simpl. apply lattice_points. split; auto. apply in_cell_app. auto.
  Qed.
  Lemma points_at top s x : s_ext s <= top ->
    (points d g s x <-> in_primary d g top x /\ hung (root_word d top (root_cell s)) (s_tree s) (paddr d g top x)).
  Proof.
    intros Ht. rewrite points_iff. unfold hung, root_word; simpl. split.
    - intros (P & H1 & H2). split; [eapply primary_up; eauto|].
      assert (E := primary_addr_drop d g top (s_ext s) x M Hd Ht P). split.
      + apply in_cell_app. split; [apply primary_addr; eauto using primary_up|].
        eapply in_cell_ext; [|exact H1]. intros n _. unfold drop. auto.
      + eapply covers_ext_all; [|exact H2]. intros n. unfold drop. rewrite app_length.
        rewrite <- Nat.add_assoc. apply E.
    - intros (P & H1 & H2). apply in_cell_app in H1. destruct H1 as [H0 H1].
      assert (P' : in_primary d g (s_ext s) x) by (apply (primary_addr d g top); auto).
      assert (E := primary_addr_drop d g top (s_ext s) x M Hd Ht P'). split; [auto|]. split.
      + eapply in_cell_ext; [|exact H1]. intros n _. unfold drop. symmetry. auto.
      + eapply covers_ext_all; [|exact H2]. intros n. unfold drop. rewrite app_length.
        rewrite <- Nat.add_assoc. symmetry. apply E.
  Qed.
  Lemma ppoints_iff p x : ppoints d g p x <-> in_primary d g (p_ext p) x /\ covers (p_tree p) (paddr d g (p_ext p) x).
  Proof.
    unfold ppoints. rewrite points_iff. unfold as_sub, hung; simpl.
    assert (in_cell [] (paddr d g (p_ext p) x)) by apply in_cell_nil.
    rewrite (covers_ext_all (p_tree p) (drop 0 _) (paddr d g (p_ext p) x)) by reflexivity. tauto.
  Qed.
  (** In a larger primary cell. *)
  Lemma ppoints_at top p x : p_ext p <= top ->
    (ppoints d g p x <-> in_primary d g top x /\ hung (primary_cell_path d top (p_ext p)) (p_tree p) (paddr d g top x)).
  Proof.
    intros H. unfold ppoints. rewrite (points_at top) by auto. unfold root_word; simpl. rewrite app_nil_r. tauto.
  Qed.
  (** In a smaller primary cell. *)
  Lemma primary_down top bot x (H : bot <= top) : in_primary d g top x -> in_cell (primary_cell_path d top bot) (paddr d g top x) ->
    in_primary d g bot x /\ forall n, drop (length (primary_cell_path d top bot)) (paddr d g top x) n = paddr d g bot x n.
  Proof.
    intros P I. assert (P' : in_primary d g bot x) by (apply (primary_addr d g top); auto). split; auto.
    intros n. unfold drop. apply primary_addr_drop; auto.
  Qed.

  (** Realisation of any finite address. *)
  Lemma realise (S : strict g) h (s : address) N : exists x, in_primary d g h x /\ forall n, n < N -> paddr d g h x n = s n.
  Proof.
    set (w := map s (seq 0 N)).
    pose proof (cell_inhabited d g h w M S) as C. eexists. apply lattice_points in C. destruct C as [P C].
    split; [exact P|]. intros n Hn. apply C. unfold w. rewrite nth_error_map, nth_error_nth' with (d := 0) by (rewrite seq_length; auto).
    rewrite seq_nth by auto. reflexivity.
  Qed.
End Geo.

(** * Alignment *)
Lemma wf_disabled t : wf t -> is_disabled t = true -> t = Lf FALSE.
Proof.
  destruct t as [m|m l r]; simpl; unfold is_disabled; simpl.
  - intros [-> | ->]; simpl; congruence.
  - intros (-> & _ & _). discriminate.
Qed.
Lemma wf_children t m l r : wf t -> split t = Nd m l r -> m = INDET /\ wf l /\ wf r.
Proof. intros H E. apply wf_split in H. rewrite E in H. exact H. Qed.
Lemma split_nd t : exists m l r, split t = Nd m l r.
Proof. destruct t; simpl; eauto. Qed.
Lemma split_cases t m l r s : split t = Nd m l r -> (covers t s <-> covers (if s 0 then r else l) (tail s)).
Proof. intros E. rewrite <- covers_split, E. reflexivity. Qed.
Lemma tail_drop n s k : drop n (tail s) k = drop (S n) s k. Proof. reflexivity. Qed.

Lemma align_loop_spec f se sd path : forall t, wf t ->
  (exists u, wf u /\ (forall s, in_cell path s -> (covers u (drop (length path) s) <-> covers t s)) /\
     (forall s, in_cell path s -> (covers (align_loop path se sd f t) s <-> covers (f u) (drop (length path) s))) /\
     (forall s, ~ in_cell path s -> (covers (align_loop path se sd f t) s <-> covers t s)) /\
     (wf (f u) -> wf (align_loop path se sd f t)))
  \/ (wf (align_loop path se sd f t) /\ (forall s, covers (align_loop path se sd f t) s <-> covers t s) /\
      ((se = true /\ forall s, in_cell path s -> covers t s) \/ (sd = true /\ forall s, in_cell path s -> ~ covers t s))).
Proof.
  induction path as [|b path IH]; intros t W.
  - left. exists t. simpl. split; auto. split; [|split; [|split]]; auto.
    + intros s _. apply covers_ext_all. reflexivity.
    + intros s _. apply covers_ext_all. reflexivity.
    + intros s H. exfalso. apply H, in_cell_nil.
  - simpl. destruct (is_enabled t && se) eqn:E1.
    { apply andb_true_iff in E1. destruct E1 as [E1 ->]. simpl. right. split; auto. split; [tauto|].
      left. split; auto. intros s _. rewrite (wf_enabled t W E1). reflexivity. }
    destruct (is_disabled t && sd) eqn:E2.
    { apply andb_true_iff in E2. destruct E2 as [E2 ->]. simpl. right. split; auto. split; [tauto|].
      right. split; auto. intros s _. rewrite (wf_disabled t W E2). simpl. discriminate. }
    simpl. destruct (split_nd t) as (m & l & r & E). rewrite E.
    pose proof (wf_children _ _ _ _ W E) as (-> & Wl & Wr).
    destruct (IH (if b then r else l)) as [(u & Wu & A & B & C & D)|(A & B & C)]; [destruct b; auto| |].
    + left. exists u. split; auto. split; [|split; [|split]].
      * intros s H. apply in_cell_cons in H. destruct H as [H0 H]. rewrite (split_cases _ _ _ _ s E), H0.
        rewrite <- A by auto. apply covers_ext_all. reflexivity.
      * intros s H. apply in_cell_cons in H. destruct H as [H0 H].
        rewrite (covers_ext_all (f u) _ (drop (length path) (tail s))) by reflexivity. rewrite <- B by auto.
        destruct b; simpl; rewrite H0; tauto.
      * intros s H. rewrite in_cell_cons in H. rewrite (split_cases _ _ _ _ s E).
        destruct b; simpl; destruct (s 0) eqn:E0; try tauto; apply C; intuition.
      * intros Wf. specialize (D Wf). destruct b; simpl; auto.
    + right. split; [destruct b; simpl; auto|]. split.
      * intros s. rewrite (split_cases _ _ _ _ s E). destruct b; simpl; destruct (s 0); auto; tauto.
      * destruct C as [[-> C]|[-> C]]; [left|right]; split; auto; intros s H; apply in_cell_cons in H; destruct H as [H0 H];
          rewrite (split_cases _ _ _ _ s E), H0; auto; destruct b; auto.
Qed.

Section Pav.
  Context (d : nat) (g : grid) (M : monotone g) (Hd : 0 < d).
  Notation pp := (ppoints d g).
  Notation prim := (in_primary d g).

  Lemma path_nonempty top bot : bot < top -> primary_cell_path d top bot <> [].
  Proof. intros H E. pose proof (path_length d top bot). rewrite E in H0. simpl in H0. nia. Qed.
  Lemma up_spec to p : p_ext p < to -> wf (p_tree p) ->
    exists q, up_to_primary_cell d to p = Ret q /\ p_ext q = to /\ wf (p_tree q) /\ forall x, pp q x <-> pp p x.
  Proof.
    intros H W. unfold up_to_primary_cell.
    destruct (prepend_tree _ _) as [t|] eqn:E.
    2:{ apply prepend_tree_defined in E. exfalso. revert E. apply path_nonempty; auto. }
    eexists. split; [reflexivity|]. simpl. split; auto. split.
    - unfold prepend_tree in E. destruct (primary_cell_path d to (p_ext p)) eqn:EP; [discriminate|].
      replace t with (prepend_loop (b :: w) (p_tree p)) by congruence. apply wf_prepend; auto.
    - intros x. rewrite ppoints_iff by auto. simpl. rewrite (ppoints_at d g M Hd to p) by lia. unfold hung.
      rewrite (prepend_tree_covers _ _ _ E). tauto.
  Qed.

  (** What [align_with] does to the points. *)
  Lemma align_with_spec ext se sd f p : wf (p_tree p) -> exists p', align_with d ext se sd f p = Ret p' /\ ext <= p_ext p' /\
    ((exists u, wf u /\ (wf (f u) -> wf (p_tree p')) /\ (forall x, prim ext x -> (pp p x <-> covers u (paddr d g ext x))) /\
        (forall x, prim ext x -> (pp p' x <-> covers (f u) (paddr d g ext x))) /\
        (forall x, ~ prim ext x -> (pp p' x <-> pp p x)))
     \/ (wf (p_tree p') /\ (forall x, pp p' x <-> pp p x) /\
         ((se = true /\ forall x, prim ext x -> pp p x) \/ (sd = true /\ forall x, prim ext x -> ~ pp p x)))).
  Proof.
    intros W. unfold align_with. destruct (Nat.ltb_spec ext (p_ext p)) as [H|H].
    - eexists. split; [reflexivity|]. simpl. split; [lia|]. set (path := primary_cell_path d (p_ext p) ext).
      assert (PD := fun x => primary_down d g M Hd (p_ext p) ext x ltac:(lia)). fold path in PD.
      assert (PU := fun x => primary_up d g (p_ext p) ext x M Hd ltac:(lia)).
      assert (PA := fun x P => primary_addr d g (p_ext p) ext x M Hd ltac:(lia) P). fold path in PA.
      destruct (align_loop_spec f se sd path (p_tree p) W) as [(u & Wu & A & B & C & D)|(A & B & C)]; [left|right].
      + exists u. split; auto. split; auto. split; [|split].
        * intros x P. rewrite ppoints_iff by auto. specialize (PU x P).
          assert (I : in_cell path (paddr d g (p_ext p) x)) by (apply PA; auto).
          rewrite <- (A _ I). destruct (PD x PU I) as [_ E]. rewrite (covers_ext_all u _ _ E). tauto.
        * intros x P. rewrite ppoints_iff by auto. simpl. specialize (PU x P).
          assert (I : in_cell path (paddr d g (p_ext p) x)) by (apply PA; auto).
          rewrite (B _ I). destruct (PD x PU I) as [_ E]. rewrite (covers_ext_all (f u) _ _ E). tauto.
        * intros x P. rewrite !ppoints_iff by auto. simpl.
          split; intros [P' H']; (split; [auto|]); apply C in H' || apply C; auto; intros I; apply P, PA; auto.
      + split; auto. split.
        * intros x. rewrite !ppoints_iff by auto. simpl. rewrite B. tauto.
        * destruct C as [[-> C]|[-> C]]; [left|right]; split; auto; intros x P; rewrite ppoints_iff by auto; specialize (PU x P);
          assert (I : in_cell path (paddr d g (p_ext p) x)) by (apply PA; auto); [split; auto|intros [_ K]; apply (C _ I K)].
    - destruct (Nat.ltb_spec (p_ext p) ext) as [H'|H'].
      + destruct (up_spec ext p H' W) as (q & -> & E & Wq & Q). simpl. eexists. split; [reflexivity|]. simpl. rewrite E. split; [lia|].
        left. exists (p_tree q). split; auto. split; auto. split; [|split].
        * intros x P. rewrite <- Q, ppoints_iff by auto. rewrite E. tauto.
        * intros x P. rewrite ppoints_iff by auto. simpl. tauto.
        * intros x P. rewrite <- Q, !ppoints_iff by auto. simpl. rewrite E. tauto.
      + assert (E : p_ext p = ext) by lia. eexists. split; [reflexivity|]. simpl. split; [lia|].
        left. exists (p_tree p). split; auto. split; auto. split; [|split].
        * intros x P. rewrite ppoints_iff by auto. rewrite E. tauto.
        * intros x P. rewrite ppoints_iff by auto. simpl. rewrite E. tauto.
        * intros x P. rewrite !ppoints_iff by auto. simpl. rewrite E. tauto.
  Qed.

  (** * adjoin *)
  Lemma prim_dec h x : prim h x \/ ~ prim h x.
  Proof.
    assert (A : forall n, (forall k, k < n -> (g k (fst (primary_cell_lattice_box h k)) <= x k < g k (snd (primary_cell_lattice_box h k)))%R) \/
      ~ (forall k, k < n -> (g k (fst (primary_cell_lattice_box h k)) <= x k < g k (snd (primary_cell_lattice_box h k)))%R)).
    { induction n as [|n [IH|IH]].
      - left. intros; lia.
      - destruct (Rle_dec (g n (fst (primary_cell_lattice_box h n))) (x n)) as [A|A].
        + destruct (Rlt_dec (x n) (g n (snd (primary_cell_lattice_box h n)))) as [B|B].
          * left. intros k Hk. destruct (Nat.eq_dec k n) as [->|]; auto. apply IH. lia.
          * right. intros C. apply B, C. lia.
        + right. intros C. apply A, C. lia.
      - right. intros C. apply IH. intros k Hk. apply C. lia. }
    apply A.
  Qed.
  Lemma adjoin_cell_spec c p : wf (p_tree p) -> exists p', adjoin_cell d c p = Ret p' /\ wf (p_tree p') /\
    forall x, pp p' x <-> pp p x \/ in_cell_box d g c x.
  Proof.
    intros W. unfold adjoin_cell. destruct (align_with_spec (c_ext c) true false (fun t => add_path t (c_word c)) p W) as (p' & -> & _ & H).
    exists p'. split; auto.
    assert (CB := fun x => lattice_points d g M Hd (c_ext c) (c_word c) x).
    assert (CP : forall x, in_cell_box d g c x -> prim (c_ext c) x) by (intros x I; apply CB in I; tauto).
    destruct H as [(u & Wu & D & A & B & C)|(D & A & B)].
    - split; [apply D, wf_add_path; auto|]. intros x. destruct (prim_dec (c_ext c) x) as [P|P].
      + rewrite A, B, add_path_covers by auto. unfold in_cell_box, cell_box. rewrite CB. tauto.
      + rewrite C by auto. specialize (CP x). tauto.
    - split; auto. intros x. rewrite A. destruct B as [[_ B]|[B _]]; [|discriminate].
      specialize (B x). specialize (CP x). tauto.
  Qed.
  Lemma hung_points s x : prim (s_ext s) x -> (points d g s x <-> hung (s_word s) (s_tree s) (paddr d g (s_ext s) x)).
  Proof. intros P. rewrite points_iff by auto. tauto. Qed.
  Lemma points_prim s x : points d g s x -> prim (s_ext s) x.
  Proof. intros P. rewrite points_iff in P by auto. tauto. Qed.
  Lemma adjoin_spec s p : wf (p_tree p) -> wf (s_tree s) -> exists p', adjoin d s p = Ret p' /\ wf (p_tree p') /\
    (s_ext s <= p_ext p') /\ forall x, pp p' x <-> pp p x \/ points d g s x.
  Proof.
    intros W Ws. unfold adjoin.
    destruct (align_with_spec (s_ext s) true false (fun t => add_tree_at t (s_tree s) (s_word s)) p W) as (p' & -> & EX & H).
    exists p'. split; auto.
    destruct H as [(u & Wu & D & A & B & C)|(D & A & B)].
    - split; [apply D, wf_add_tree_at; auto|]. split; auto. intros x. destruct (prim_dec (s_ext s) x) as [P|P].
      + rewrite A, B, add_tree_at_covers by auto. rewrite hung_points by auto. unfold hung. tauto.
      + rewrite C by auto. pose proof (points_prim s x). tauto.
    - split; auto. split; auto. intros x. rewrite A. destruct B as [[_ B]|[B _]]; [|discriminate].
      specialize (B x). pose proof (points_prim s x). tauto.
  Qed.

  (** * restrict and remove *)
  Lemma restrict_down_covers o path : forall t s, wf t -> (covers (restrict_down path o t) s <-> covers t s /\ hung path o s).
  Proof.
    unfold hung. induction path as [|b path IH]; intros t s W; simpl.
    - assert (N : in_cell [] s) by apply in_cell_nil.
      rewrite (covers_ext_all o (drop 0 s) s) by reflexivity.
      destruct (is_enabled t) eqn:E1.
      { rewrite (wf_enabled t W E1). simpl. tauto. }
      destruct (is_disabled t) eqn:E2.
      { rewrite (wf_disabled t W E2). simpl. intuition discriminate. }
      rewrite restrict_covers. tauto.
    - destruct (is_leaf t && is_disabled t) eqn:E1.
      { apply andb_true_iff in E1. destruct E1 as [_ E1]. rewrite (wf_disabled t W E1). simpl. intuition discriminate. }
      destruct (split_nd t) as (m & l & r & E). rewrite E.
      pose proof (wf_children _ _ _ _ W E) as (-> & Wl & Wr).
      rewrite (split_cases _ _ _ _ s E), in_cell_cons.
      rewrite (covers_ext_all o (drop (S (length path)) s) (drop (length path) (tail s))) by reflexivity.
      destruct b; simpl; destruct (s 0) eqn:E0; rewrite ?IH by auto; simpl; intuition discriminate.
  Qed.
  Lemma wf_restrict_down o path : wf o -> forall t, wf t -> wf (restrict_down path o t).
  Proof.
    intros Wo. induction path as [|b path IH]; intros t W; simpl.
    - destruct (is_enabled t); auto. destruct (is_disabled t); auto. apply wf_restrict; auto.
    - destruct (is_leaf t && is_disabled t); auto.
      destruct (split_nd t) as (m & l & r & E). rewrite E.
      pose proof (wf_children _ _ _ _ W E) as (-> & Wl & Wr). destruct b; simpl; auto 10.
  Qed.
  Lemma remove_down_covers o path : forall t s, wf t -> (covers (remove_down path o t) s <-> covers t s /\ ~ hung path o s).
  Proof.
    unfold hung. induction path as [|b path IH]; intros t s W; simpl.
    - assert (N : in_cell [] s) by apply in_cell_nil.
      rewrite (covers_ext_all o (drop 0 s) s) by reflexivity.
      destruct (is_disabled t) eqn:E2.
      { rewrite (wf_disabled t W E2). simpl. intuition discriminate. }
      rewrite remove_covers. tauto.
    - destruct (is_leaf t && is_disabled t) eqn:E1.
      { apply andb_true_iff in E1. destruct E1 as [_ E1]. rewrite (wf_disabled t W E1). simpl. intuition discriminate. }
      destruct (split_nd t) as (m & l & r & E). rewrite E.
      pose proof (wf_children _ _ _ _ W E) as (-> & Wl & Wr).
      rewrite (split_cases _ _ _ _ s E), in_cell_cons.
      rewrite (covers_ext_all o (drop (S (length path)) s) (drop (length path) (tail s))) by reflexivity.
      destruct b; simpl; destruct (s 0) eqn:E0; rewrite ?IH by auto; simpl; intuition discriminate.
  Qed.
  Lemma wf_remove_down o path : forall t, wf t -> wf (remove_down path o t).
  Proof.
    induction path as [|b path IH]; intros t W; simpl.
    - destruct (is_disabled t); auto. apply wf_remove; auto.
    - destruct (is_leaf t && is_disabled t); auto.
      destruct (split_nd t) as (m & l & r & E). rewrite E.
      pose proof (wf_children _ _ _ _ W E) as (-> & Wl & Wr). destruct b; simpl; auto 10.
  Qed.
  Lemma raised s p : wf (p_tree p) -> exists q, (if p_ext p <? s_ext s then up_to_primary_cell d (s_ext s) p else Ret p) = Ret q /\
    s_ext s <= p_ext q /\ wf (p_tree q) /\ forall x, pp q x <-> pp p x.
  Proof.
    intros W. destruct (Nat.ltb_spec (p_ext p) (s_ext s)) as [H|H].
    - destruct (up_spec (s_ext s) p H W) as (q & -> & E & Wq & Q). exists q. repeat split; auto; try lia; apply Q.
    - exists p. repeat split; auto.
  Qed.
  Lemma restrict_spec s p : wf (p_tree p) -> wf (s_tree s) -> exists p', restrict_paving d s p = Ret p' /\ wf (p_tree p') /\
    forall x, pp p' x <-> pp p x /\ points d g s x.
  Proof.
    intros W Ws. unfold restrict_paving. destruct (raised s p W) as (q & -> & E & Wq & Q). simpl.
    eexists. split; [reflexivity|]. simpl. split; [apply wf_restrict_down; auto|].
    intros x. rewrite <- Q, !ppoints_iff by auto. simpl. rewrite restrict_down_covers by auto.
    rewrite append_word_spec, (points_at d g M Hd (p_ext q) s) by auto. unfold root_word; simpl. tauto.
  Qed.
  Lemma remove_spec s p : wf (p_tree p) -> exists p', remove_paving d s p = Ret p' /\ wf (p_tree p') /\
    forall x, pp p' x <-> pp p x /\ ~ points d g s x.
  Proof.
    intros W. unfold remove_paving. destruct (raised s p W) as (q & -> & E & Wq & Q). simpl.
    eexists. split; [reflexivity|]. simpl. split; [apply wf_remove_down; auto|].
    intros x. rewrite <- Q, !ppoints_iff by auto. simpl. rewrite remove_down_covers by auto.
    rewrite append_word_spec, (points_at d g M Hd (p_ext q) s) by auto. unfold root_word; simpl. tauto.
  Qed.
  Lemma disable_at_covers path : forall t s, wf t -> is_enabled t = true -> (covers (disable_at path t) s <-> ~ in_cell path s).
  Proof.
    induction path as [|b path IH]; intros t s W E; simpl.
    - split; [discriminate|]. intros H. exfalso. apply H, in_cell_nil.
    - rewrite (wf_enabled t W E). simpl. rewrite in_cell_cons.
      destruct b; simpl; destruct (s 0); rewrite ?IH by (simpl; auto); simpl; intuition discriminate.
  Qed.
  Lemma wf_disable_at path : forall t, wf t -> is_enabled t = true -> wf (disable_at path t).
  Proof.
    induction path as [|b path IH]; intros t W E; simpl; auto.
    rewrite (wf_enabled t W E). simpl. destruct b; simpl; repeat split; auto; apply IH; simpl; auto.
  Qed.
  Lemma remove_path_covers path : forall t s, wf t -> (covers (remove_path path t) s <-> covers t s /\ ~ in_cell path s).
  Proof.
    induction path as [|b path IH]; intros t s W; destruct t as [m|m l r].
    - change (remove_path [] (Lf m)) with (if is_enabled (Lf m) then disable_at [] (Lf m) else Lf m).
      destruct (is_enabled (Lf m)) eqn:E.
      + rewrite disable_at_covers by auto. rewrite (wf_enabled _ W E). simpl. tauto.
      + simpl. unfold is_enabled in E. simpl in E. apply def_false in E. tauto.
    - simpl. split; [discriminate|]. intros [_ H]. exfalso. apply H, in_cell_nil.
    - change (remove_path (b :: path) (Lf m)) with (if is_enabled (Lf m) then disable_at (b :: path) (Lf m) else Lf m).
      destruct (is_enabled (Lf m)) eqn:E.
      + rewrite disable_at_covers by auto. rewrite (wf_enabled _ W E). simpl. tauto.
      + simpl. unfold is_enabled in E. simpl in E. apply def_false in E. tauto.
    - destruct W as (-> & Wl & Wr). simpl. rewrite in_cell_cons.
      destruct b; simpl; destruct (s 0); rewrite ?IH by auto; intuition discriminate.
  Qed.
  Lemma wf_remove_path path : forall t, wf t -> wf (remove_path path t).
  Proof.
    induction path as [|b path IH]; intros t W; destruct t as [m|m l r].
    - change (remove_path [] (Lf m)) with (if is_enabled (Lf m) then disable_at [] (Lf m) else Lf m).
      destruct (is_enabled (Lf m)) eqn:E; auto. apply wf_disable_at; auto.
    - simpl. auto.
    - change (remove_path (b :: path) (Lf m)) with (if is_enabled (Lf m) then disable_at (b :: path) (Lf m) else Lf m).
      destruct (is_enabled (Lf m)) eqn:E; auto. apply wf_disable_at; auto.
    - destruct W as (-> & Wl & Wr). simpl. destruct b; simpl; auto 10.
  Qed.
  Lemma remove_cell_spec c p : wf (p_tree p) -> exists p', remove_cell d c p = Ret p' /\ wf (p_tree p') /\
    forall x, pp p' x <-> pp p x /\ ~ in_cell_box d g c x.
  Proof.
    intros W. unfold remove_cell. destruct (align_with_spec (c_ext c) false true (remove_path (c_word c)) p W) as (p' & -> & _ & H).
    exists p'. split; auto.
    assert (CB := fun x => lattice_points d g M Hd (c_ext c) (c_word c) x).
    assert (CP : forall x, in_cell_box d g c x -> prim (c_ext c) x) by (intros x I; apply CB in I; tauto).
    destruct H as [(u & Wu & D & A & B & C)|(D & A & B)].
    - split; [apply D, wf_remove_path; auto|]. intros x. destruct (prim_dec (c_ext c) x) as [P|P].
      + rewrite A, B, remove_path_covers by auto. unfold in_cell_box, cell_box. rewrite CB. tauto.
      + rewrite C by auto. specialize (CP x). tauto.
    - split; auto. intros x. rewrite A. destruct B as [[B _]|[_ B]]; [discriminate|].
      specialize (B x). specialize (CP x). tauto.
  Qed.
  Lemma keep_path_covers path : forall t s, wf t -> (covers (keep_path path t) s <-> covers t s /\ in_cell path s).
  Proof.
    induction path as [|b path IH]; intros t s W; simpl.
    - assert (in_cell [] s) by apply in_cell_nil. tauto.
    - destruct (is_leaf t && negb (is_enabled t)) eqn:E1.
      { apply andb_true_iff in E1. destruct E1 as [E0 E1]. destruct t as [m|]; [|discriminate].
        unfold is_enabled in E1; simpl in E1. apply negb_true_iff, def_false in E1. simpl. tauto. }
      destruct (split_nd t) as (m & l & r & E). rewrite E.
      pose proof (wf_children _ _ _ _ W E) as (-> & Wl & Wr).
      rewrite (split_cases _ _ _ _ s E), in_cell_cons.
      destruct b; simpl; destruct (s 0) eqn:E0; rewrite ?IH by auto; simpl; intuition discriminate.
  Qed.
  Lemma wf_keep_path path : forall t, wf t -> wf (keep_path path t).
  Proof.
    induction path as [|b path IH]; intros t W; simpl; auto.
    destruct (is_leaf t && negb (is_enabled t)); auto.
    destruct (split_nd t) as (m & l & r & E). rewrite E.
    pose proof (wf_children _ _ _ _ W E) as (-> & Wl & Wr). destruct b; simpl; auto 10.
  Qed.
  Lemma restrict_to_extent_spec h p x : wf (p_tree p) -> (pp (restrict_to_extent d h p) x <-> pp p x /\ prim h x).
  Proof.
    intros W. unfold restrict_to_extent. destruct (Nat.ltb_spec h (p_ext p)) as [H|H].
    - rewrite !ppoints_iff by auto. simpl. rewrite keep_path_covers by auto.
      pose proof (primary_addr d g (p_ext p) h x M Hd ltac:(lia)). tauto.
    - pose proof (primary_up d g h (p_ext p) x M Hd H). rewrite ppoints_iff by auto. tauto.
  Qed.

  (** * Histories *)
  Scheme pav_mind := Minimality for pav Sort Prop with sub_mind := Minimality for sub Sort Prop.
  Lemma history_wf : (forall p, pav d p -> wf (p_tree p)) /\ (forall s, sub d s -> wf (s_tree s)).
  Proof.
    assert (H : forall p, pav d p -> wf (p_tree p)).
    { apply (pav_mind d (fun p => wf (p_tree p)) (fun s => wf (s_tree s))); simpl; auto.
      - intros [|]; simpl; auto.
      - intros h t R. apply reachable_wf; auto.
      - intros c p p' _ W E. destruct (adjoin_cell_spec c p W) as (q & E' & Wq & _). congruence.
      - intros s p p' _ W _ Ws E. destruct (adjoin_spec s p W Ws) as (q & E' & Wq & _). congruence.
      - intros s p p' _ W _ Ws E. destruct (restrict_spec s p W Ws) as (q & E' & Wq & _). congruence.
      - intros s p p' _ W _ Ws E. destruct (remove_spec s p W) as (q & E' & Wq & _). congruence.
      - intros c p p' _ W E. destruct (remove_cell_spec c p W) as (q & E' & Wq & _). congruence.
      - intros h p _ W. unfold restrict_to_extent. destruct (h <? p_ext p); simpl; auto using wf_keep_path.
      - intros n p _ W. apply wf_mince; auto.
      - intros p _ W. apply wf_recombine; auto.
      - intros b s s' _ W E. unfold branch in E. destruct (s_tree s); [discriminate|]. injection E as <-. simpl.
        destruct W as (_ & A & B). destruct b; auto. }
    split; auto. intros s S. induction S as [p P|b s s' S IH E]; simpl; auto.
    unfold branch in E. destruct (s_tree s); [discriminate|]. injection E as <-. simpl.
    destruct IH as (_ & A & B). destruct b; auto.
  Qed.

  (** join, intersection, difference. *)
  Lemma empty_points h x : ~ pp (empty_at h) x.
  Proof. rewrite ppoints_iff by auto. simpl. intuition discriminate. Qed.
  Lemma first_spec a b : wf (s_tree a) -> exists q, adjoin d a (empty_at (max_ext a b)) = Ret q /\ wf (p_tree q) /\
    forall x, pp q x <-> points d g a x.
  Proof.
    intros W. destruct (adjoin_spec a (empty_at (max_ext a b))) as (q & E & Wq & _ & Q); simpl; auto.
    exists q. repeat split; auto; intros H.
    - apply Q in H. destruct H as [H|H]; auto. exfalso. eapply empty_points; eauto.
    - apply Q. auto.
  Qed.
  Lemma join_spec a b : wf (s_tree a) -> wf (s_tree b) -> exists r, join d a b = Ret r /\
    forall x, pp r x <-> points d g a x \/ points d g b x.
  Proof.
    intros Wa Wb. unfold join. destruct (first_spec a b Wa) as (q & -> & Wq & Q). simpl.
    destruct (adjoin_spec b q Wq Wb) as (r & -> & _ & _ & R). exists r. split; auto. intros x. rewrite R, Q. tauto.
  Qed.
  Lemma intersection_spec a b : wf (s_tree a) -> wf (s_tree b) -> exists r, intersection d a b = Ret r /\
    forall x, pp r x <-> points d g a x /\ points d g b x.
  Proof.
    intros Wa Wb. unfold intersection. destruct (first_spec a b Wa) as (q & -> & Wq & Q). simpl.
    destruct (restrict_spec b q Wq Wb) as (r & -> & _ & R). exists r. split; auto. intros x. rewrite R, Q. tauto.
  Qed.
  Lemma difference_spec a b : wf (s_tree a) -> wf (s_tree b) -> exists r, difference d a b = Ret r /\
    forall x, pp r x <-> points d g a x /\ ~ points d g b x.
  Proof.
    intros Wa Wb. unfold difference. destruct (first_spec a b Wa) as (q & -> & Wq & Q). simpl.
    destruct (remove_spec b q Wq) as (r & -> & _ & R). exists r. split; auto. intros x. rewrite R, Q. tauto.
  Qed.
  Lemma mince_sub_points n s x : points d g (mince_sub d n s) x <-> points d g s x.
  Proof. rewrite !points_iff by auto. unfold hung; simpl. rewrite mince_covers. tauto. Qed.
  Lemma mince_to_depth_points n s x : points d g (mince_to_depth d n s) x <-> points d g s x.
  Proof. rewrite !points_iff by auto. unfold hung; simpl. rewrite mince_covers. tauto. Qed.
  Lemma recombine_sub_points s x : points d g (recombine_sub s) x <-> points d g s x.
  Proof. rewrite !points_iff by auto. unfold hung; simpl. rewrite recombine_covers. tauto. Qed.
  Lemma mince_sub_fine n s c : wf (s_tree s) -> enabled_cell (mince_sub d n s) c -> (Z.of_nat (n * d) <= cell_depth d c)%Z.
  Proof.
    intros W (p & L & ->). simpl in L. apply mince_leaf_depth in L; auto. unfold cell_depth; simpl.
    rewrite app_length. unfold tree_subdivisions in L. nia.
  Qed.
  Lemma mince_sub_new n s c : enabled_cell (mince_sub d n s) c ->
    enabled_cell s c \/ cell_depth d c = Z.of_nat (n * d).
  Proof.
    intros (p & L & ->). simpl in L. apply mince_leaf_new in L. destruct L as [L|[L L0]]; [left; exists p; auto|right].
    unfold cell_depth; simpl. rewrite app_length. unfold tree_subdivisions in *. nia.
  Qed.
  Lemma branch_points s l r x : branch false s = Some l -> branch true s = Some r ->
    (points d g s x <-> points d g l x \/ points d g r x) /\ ~ (points d g l x /\ points d g r x).
  Proof.
    unfold branch. destruct (s_tree s) as [|m a b] eqn:E; [discriminate|]. intros [= <-] [= <-].
    rewrite !points_iff by auto. unfold hung, append_bit; simpl. rewrite E. simpl.
    rewrite !in_cell_app, !in_cell_cons, !app_length. simpl. set (s0 := paddr d g (s_ext s) x).
    assert (N : forall t, in_cell [] t) by (intro; apply in_cell_nil).
    assert (H : forall t, covers t (drop (length (s_word s) + 1) s0) <-> covers t (tail (drop (length (s_word s)) s0))).
    { intros t. apply covers_ext_all. intros n. unfold drop, tail. f_equal. lia. }
    rewrite !H. specialize (N (tail (drop (length (s_word s)) s0))).
    destruct (drop (length (s_word s)) s0 0); clear -N; intuition discriminate.
  Qed.

  (** * Queries *)
  Context (St : strict g).
  Definition a_sub top s (a : address) : Prop := hung (root_word d top (root_cell s)) (s_tree s) a.
  Lemma points_a_sub top s x : s_ext s <= top -> (points d g s x <-> prim top x /\ a_sub top s (paddr d g top x)).
  Proof. intros. apply points_at; auto. Qed.
  Lemma lift_subset top a b : s_ext a <= top -> s_ext b <= top ->
    ((forall x, points d g a x -> points d g b x) <-> (forall s, a_sub top a s -> a_sub top b s)).
  Proof.
    intros Ha Hb. split.
    - intros H s A.
      set (N := length (root_word d top (root_cell a)) + depth (s_tree a) + (length (root_word d top (root_cell b)) + depth (s_tree b))).
      destruct (realise d g M Hd St top s N) as (x & P & E).
      assert (A' : a_sub top a (paddr d g top x)).
      { unfold a_sub in *. eapply hung_ext; [|exact A]. intros n Hn. apply E. lia. }
      assert (B : points d g b x) by (apply H; apply (points_a_sub top); auto).
      apply (points_a_sub top) in B; auto. destruct B as [_ B].
      unfold a_sub in *. eapply hung_ext; [|exact B]. intros n Hn. symmetry. apply E. lia.
    - intros H x A. apply (points_a_sub top) in A; auto. apply (points_a_sub top); auto. destruct A. split; auto.
  Qed.
  Lemma lift_meets top a b : s_ext a <= top -> s_ext b <= top ->
    ((exists x, points d g a x /\ points d g b x) <-> (exists s, a_sub top a s /\ a_sub top b s)).
  Proof.
    intros Ha Hb. split.
    - intros (x & A & B). apply (points_a_sub top) in A; auto. apply (points_a_sub top) in B; auto.
      exists (paddr d g top x). tauto.
    - intros (s & A & B).
      set (N := length (root_word d top (root_cell a)) + depth (s_tree a) + (length (root_word d top (root_cell b)) + depth (s_tree b))).
      destruct (realise d g M Hd St top s N) as (x & P & E). exists x.
      rewrite !(points_a_sub top) by auto. unfold a_sub in *. split; (split; [exact P|]).
      + eapply hung_ext; [|exact A]. intros n Hn. apply E. lia.
      + eapply hung_ext; [|exact B]. intros n Hn. apply E. lia.
  Qed.
  (** A cell as a sub-paving. *)
  Definition cell_sub (c : cell) : subpaving := {| s_ext := c_ext c; s_word := c_word c; s_tree := Lf TRUE |}.
  Lemma cell_sub_points c x : points d g (cell_sub c) x <-> in_cell_box d g c x.
  Proof.
    rewrite points_iff by auto. unfold hung; simpl. unfold in_cell_box, cell_box. rewrite (lattice_points d g M Hd). tauto.
  Qed.
  Lemma common_paths_spec a b : common_paths d a b =
    (root_word d (Nat.max (s_ext a) (s_ext b)) (root_cell a), root_word d (Nat.max (s_ext a) (s_ext b)) (root_cell b)).
  Proof.
    unfold common_paths, root_word; simpl. destruct (Nat.ltb_spec (s_ext a) (s_ext b)).
    - rewrite Nat.max_r, path_refl, append_word_spec by lia. reflexivity.
    - rewrite Nat.max_l, path_refl, append_word_spec by lia. reflexivity.
  Qed.
  (** Some address of any cell. *)
  Fixpoint pad (w : word) (s : address) : address :=
    match w with [] => s | b :: w' => fun n => match n with O => b | S n' => pad w' s n' end end.
  Lemma pad_in w s : in_cell w (pad w s).
  Proof. induction w; [apply in_cell_nil|]. apply in_cell_cons. split; auto. Qed.
  Lemma pad_drop w s n : drop (length w) (pad w s) n = s n.
  Proof. induction w; simpl; auto. Qed.
  Lemma hung_pad w t s : hung w t (pad w s) <-> covers t s.
  Proof. unfold hung. rewrite (covers_ext_all t _ s) by apply pad_drop. pose proof (pad_in w s). tauto. Qed.
  Lemma hung_app w v t s : hung (w ++ v) t s <-> in_cell w s /\ hung v t (drop (length w) s).
  Proof.
    unfold hung. rewrite in_cell_app, app_length.
    rewrite (covers_ext_all t (drop (length w + length v) s) (drop (length v) (drop (length w) s))); [tauto|].
    intros n. unfold drop. f_equal. lia.
  Qed.
  Lemma locate_covers path : forall t s, in_cell path s -> (covers (locate_node t path) (drop (length path) s) <-> covers t s).
  Proof.
    induction path as [|b path IH]; intros t s H.
    - destruct t; simpl; [tauto|]. apply (covers_ext_all (Nd m t1 t2)). reflexivity.
    - apply in_cell_cons in H. destruct H as [H0 H]. destruct t as [m|m l r]; simpl; [tauto|].
      rewrite H0. rewrite <- (IH (if b then r else l) (tail s)) by auto.
      apply covers_ext_all. reflexivity.
  Qed.
  Lemma leaf_cover_const t s s' : is_leaf t = true -> (covers t s <-> covers t s').
  Proof. destruct t; [simpl; tauto|discriminate]. Qed.
  Lemma enabled_leaf t s : is_leaf t = true -> (is_enabled t = true <-> covers t s).
  Proof. destruct t; [|discriminate]. intros _. unfold is_enabled. simpl. apply def_true. Qed.
  Lemma subset_below_exact sub super path :
    subset_below sub super path = true <-> forall s, hung path sub s -> covers super s.
  Proof.
    unfold subset_below. destruct (has_enabled sub) eqn:E1.
    - destruct (has_enabled super) eqn:E2.
      + apply has_enabled_exact in E1. destruct E1 as [s1 H1].
        destruct (is_leaf (locate_node super path)) eqn:E3.
        * rewrite (enabled_leaf _ s1 E3). split.
          -- intros H s [I _]. apply (locate_covers path super s I). eapply leaf_cover_const; eauto.
          -- intros H. specialize (H (pad path s1) (proj2 (hung_pad path sub s1) H1)).
             apply (locate_covers path super _ (pad_in path s1)) in H. eapply leaf_cover_const; eauto.
        * rewrite subset_exact. split.
          -- intros H s [I K]. apply (locate_covers path super s I). auto.
          -- intros H s K. specialize (H (pad path s) (proj2 (hung_pad path sub s) K)).
             apply (locate_covers path super _ (pad_in path s)) in H. eapply covers_ext_all; [|exact H].
             intros n. symmetry. apply pad_drop.
      + split; [discriminate|]. intros H. apply has_enabled_exact in E1. destruct E1 as [s1 H1].
        rewrite not_has_enabled in E2. exfalso. apply (E2 (pad path s1)). apply H, hung_pad, H1.
    - split; auto. intros _ s [_ K]. rewrite not_has_enabled in E1. exfalso. eapply E1; eauto.
  Qed.
  Lemma subset_above_exact sub path : forall super,
    subset_above super path sub = true <-> forall s, covers super s -> hung path sub s.
  Proof.
    induction path as [|b path IH]; intros super; simpl.
    - assert (R : (forall s, covers super s -> hung [] sub s) <-> (forall s, covers super s -> covers sub s)).
      { split; intros H s K; specialize (H s K); unfold hung in *; simpl in *.
        - destruct H as [_ H]. eapply covers_ext_all; [|exact H]. reflexivity.
        - split; [apply in_cell_nil|]. eapply covers_ext_all; [|exact H]. reflexivity. }
      rewrite R. replace (subset_above super [] sub) with
        (if is_leaf super then (if is_enabled super then subset super sub else true) else subset super sub)
        by (destruct super; reflexivity).
      destruct (is_leaf super) eqn:E1; [|apply subset_exact].
      destruct (is_enabled super) eqn:E2; [apply subset_exact|].
      split; auto. intros _ s K. apply (enabled_leaf super s E1) in K. congruence.
    - destruct super as [m|m l r].
      + cbn [subset_above]. rewrite negb_true_iff. unfold is_enabled; simpl. rewrite def_false. split.
        * intros H s K. contradiction.
        * intros H E. destruct (H (fun _ => negb b) E) as [I _]. apply in_cell_cons in I. destruct I as [I _].
          destruct b; discriminate.
      + assert (HC : forall s, hung (b :: path) sub s <-> s 0 = b /\ hung path sub (tail s)).
        { intros s. unfold hung. rewrite in_cell_cons. simpl.
          rewrite (covers_ext_all sub (drop (S (length path)) s) (drop (length path) (tail s))) by reflexivity. tauto. }
        assert (G : forall x y, (if has_enabled y then false else subset_above x path sub) = true <->
                     (forall s, covers x s -> hung path sub s) /\ (forall s, ~ covers y s)).
        { intros x y. destruct (has_enabled y) eqn:E.
          - apply has_enabled_exact in E. destruct E as [s E]. split; [discriminate|]. intros [_ H]. exfalso. eapply H; eauto.
          - rewrite IH. rewrite not_has_enabled in E. tauto. }
        cbn [subset_above]. destruct b; rewrite G; split.
        * intros [A B] s K. simpl in K. apply HC. destruct (s 0) eqn:E0; [auto|]. exfalso. eapply B; eauto.
        * intros H. split.
          -- intros s K. specialize (H (cons true s) K). apply HC in H. exact (proj2 H).
          -- intros s K. specialize (H (cons false s) K). apply HC in H. destruct H. discriminate.
        * intros [A B] s K. simpl in K. apply HC. destruct (s 0) eqn:E0; [|auto]. exfalso. eapply B; eauto.
        * intros H. split.
          -- intros s K. specialize (H (cons false s) K). apply HC in H. exact (proj2 H).
          -- intros s K. specialize (H (cons true s) K). apply HC in H. destruct H. discriminate.
  Qed.
  Lemma meets_below_exact super path sub :
    meets_below super path sub = true <-> exists s, covers super s /\ hung path sub s.
  Proof.
    unfold meets_below. destruct (has_enabled super && has_enabled sub) eqn:E.
    - apply andb_true_iff in E. destruct E as [E1 E2]. apply has_enabled_exact in E2. destruct E2 as [s2 H2].
      destruct (is_leaf (locate_node super path)) eqn:E3.
      + rewrite (enabled_leaf _ s2 E3). split.
        * intros H. exists (pad path s2). split; [|apply hung_pad; auto].
          apply (locate_covers path super _ (pad_in path s2)). eapply leaf_cover_const; eauto.
        * intros (s & A & [I B]). apply (locate_covers path super s I) in A. eapply leaf_cover_const; eauto.
      + rewrite intersect_exact. split.
        * intros (s & A & B). exists (pad path s). split; [|apply hung_pad; auto].
          apply (locate_covers path super _ (pad_in path s)). eapply covers_ext_all; [|exact A]. apply pad_drop.
        * intros (s & A & [I B]). exists (drop (length path) s). split; auto. apply (locate_covers path super s I); auto.
    - split; [discriminate|]. intros (s & A & [_ B]). apply andb_false_iff in E. exfalso.
      destruct E as [E|E]; rewrite not_has_enabled in E; eapply E; eauto.
  Qed.
  Lemma skip_app (p q : word) : skipn (length p) (p ++ q) = q.
  Proof. rewrite skipn_app, skipn_all, Nat.sub_diag. reflexivity. Qed.
  Lemma erase_app (p q : word) : erase_prefix (Z.of_nat (length p)) (p ++ q) = q.
  Proof. rewrite erase_prefix_spec, Nat2Z.id. apply skip_app. Qed.
  Lemma under w t u : (forall s, hung w t s -> hung w u s) <-> (forall s, covers t s -> covers u s).
  Proof.
    split.
    - intros H s K. apply (hung_pad w u). apply H, hung_pad, K.
    - intros H s [I K]. split; auto.
  Qed.
  Lemma transfer (o : option bool) (P Q : Prop) : (P <-> Q) -> (exists r, o = Some r /\ (r = true <-> Q)) ->
    exists r, o = Some r /\ (r = true <-> P).
  Proof. intros E (r & H & K). exists r. split; auto. tauto. Qed.
  Lemma sub_subset_exact a b : (exists x, points d g a x) \/ (exists x, in_cell_box d g (root_cell a) x /\ in_cell_box d g (root_cell b) x) ->
    exists r, sub_subset d a b = Some r /\ (r = true <-> forall x, points d g a x -> points d g b x).
  Proof.
    intros NE. unfold sub_subset. rewrite common_paths_spec. set (top := Nat.max (s_ext a) (s_ext b)).
    set (w1 := root_word d top (root_cell a)). set (w2 := root_word d top (root_cell b)).
    eapply transfer; [apply (lift_subset top a b); lia|]. unfold a_sub. fold w1 w2.
    destruct (is_prefix_spec w1 w2) as (r1 & -> & H1). destruct r1.
    - destruct H1 as [[q E] _]; auto. rewrite E, erase_app. eexists. split; [reflexivity|].
      rewrite subset_above_exact. split.
      + intros H s [I K]. apply hung_app. auto.
      + intros H s K. specialize (H (pad w1 s) (proj2 (hung_pad w1 _ s) K)). apply hung_app in H. destruct H as [_ H].
        eapply hung_ext; [|exact H]. intros n _. symmetry. apply pad_drop.
    - destruct (is_prefix_spec w2 w1) as (r2 & -> & H2). destruct r2.
      + destruct H2 as [[q E] _]; auto. rewrite E, erase_app. eexists. split; [reflexivity|].
        rewrite subset_below_exact. split.
        * intros H s K. apply hung_app in K. destruct K as [I K]. split; auto.
        * intros H s K.
          assert (K' : hung (w2 ++ q) (s_tree a) (pad w2 s)).
          { apply hung_app. split; [apply pad_in|]. eapply hung_ext; [|exact K]. intros n _. apply pad_drop. }
          specialize (H _ K'). apply hung_pad in H. exact H.
      + eexists. split; [reflexivity|]. split; [discriminate|]. intros H. exfalso.
        assert (X : exists s, in_cell w1 s /\ in_cell w2 s).
        { destruct NE as [(x & A)|(x & A & B)].
          - apply (points_a_sub top) in A; [|lia]. destruct A as [_ A]. exists (paddr d g top x).
            split; [exact (proj1 A)|]. exact (proj1 (H _ A)).
          - exists (paddr d g top x). unfold w1, w2. rewrite (root_word_points d g top) in A, B by (simpl; auto; lia).
            apply (lattice_points d g M Hd) in A, B. tauto. }
        destruct X as (s & A & B). destruct (in_cell_comparable _ _ _ A B) as [C|C]; [apply H1 in C|apply H2 in C]; discriminate.
  Qed.
  Lemma sub_intersect_exact a b : exists r, sub_intersect d a b = Some r /\ (r = true <-> exists x, points d g a x /\ points d g b x).
  Proof.
    unfold sub_intersect. rewrite common_paths_spec. set (top := Nat.max (s_ext a) (s_ext b)).
    set (w1 := root_word d top (root_cell a)). set (w2 := root_word d top (root_cell b)).
    eapply transfer; [apply (lift_meets top a b); lia|]. unfold a_sub. fold w1 w2.
    assert (G : forall w q t u, (exists s, covers t s /\ hung q u s) <-> (exists s, hung w t s /\ hung (w ++ q) u s)).
    { intros w q t u. split.
      - intros (s & A & B). exists (pad w s). split; [apply hung_pad; auto|]. apply hung_app. split; [apply pad_in|].
        eapply hung_ext; [|exact B]. intros n _. apply pad_drop.
      - intros (s & [I A] & B). apply hung_app in B. destruct B as [_ B]. eauto. }
    destruct (is_prefix_spec w1 w2) as (r1 & -> & H1). destruct r1.
    - destruct H1 as [[q E] _]; auto. rewrite E, erase_app. eexists. split; [reflexivity|].
      rewrite meets_below_exact. apply G.
    - destruct (is_prefix_spec w2 w1) as (r2 & -> & H2). destruct r2.
      + destruct H2 as [[q E] _]; auto. rewrite E, erase_app. eexists. split; [reflexivity|].
        rewrite meets_below_exact, (G w2). split; intros (s & A & B); eauto.
      + eexists. split; [reflexivity|]. split; [discriminate|]. intros (s & [A _] & [B _]).
        destruct (in_cell_comparable _ _ _ A B) as [C|C]; [apply H1 in C|apply H2 in C]; discriminate.
  Qed.
  Lemma hung_true w s : hung w (Lf TRUE) s <-> in_cell w s.
  Proof. unfold hung; simpl. tauto. Qed.
  Lemma cell_in_sub_exact c s : exists r, cell_in_sub d c s = Some r /\
    (r = true <-> forall x, in_cell_box d g c x -> points d g s x).
  Proof.
    unfold cell_in_sub. rewrite aligned_paths_spec. set (top := Nat.max _ _).
    set (w1 := root_word d top c). set (w2 := root_word d top (root_cell s)).
    assert (R : (forall x, in_cell_box d g c x -> points d g s x) <-> (forall a, in_cell w1 a -> hung w2 (s_tree s) a)).
    { assert (L := lift_subset top (cell_sub c) s ltac:(simpl; lia) ltac:(unfold top; simpl; lia)).
      unfold a_sub in L. simpl s_tree in L. fold w2 in L. change (root_word d top (root_cell (cell_sub c))) with w1 in L.
      split.
      - intros H a K. apply (proj1 L); [|apply hung_true; auto]. intros x. rewrite cell_sub_points. apply H.
      - intros H x K. apply (proj2 L); [|apply cell_sub_points; auto]. intros a. rewrite hung_true. apply H. }
    eapply transfer; [exact R|]. destruct (is_prefix_spec w2 w1) as (r & -> & H). destruct r.
    - destruct H as [[q E] _]; auto. rewrite E, skip_app. eexists. split; [reflexivity|].
      rewrite is_enabled_path_exact. split.
      + intros K a I. apply in_cell_app in I. destruct I. split; auto.
      + intros K a I. apply (hung_pad w2 (s_tree s)). apply K. apply in_cell_app. split; [apply pad_in|].
        eapply in_cell_ext; [|exact I]. intros n _. apply pad_drop.
    - eexists. split; [reflexivity|]. split; [discriminate|]. intros K. exfalso.
      assert (C := K (pad w1 (fun _ => true)) (pad_in _ _)). destruct C as [C _].
      assert (C' := K (pad w1 (fun _ => false)) (pad_in _ _)). destruct C' as [C' _].
      assert (X : exists t, w1 = w2 ++ t).
      { destruct (in_cell_comparable _ _ _ (pad_in w1 (fun _ => true)) C) as [[t E]|[t E]]; [|eauto].
        destruct t as [|b t]; [exists []; rewrite app_nil_r in *; auto|].
        rewrite E in C, C'. apply in_cell_app in C, C'. destruct C as [_ C], C' as [_ C'].
        apply in_cell_cons in C, C'. destruct C as [C _], C' as [C' _]. rewrite pad_drop in C, C'. congruence. }
      apply H in X. discriminate.
  Qed.
  Lemma cell_meets_sub_exact c s : exists r, cell_meets_sub d c s = Some r /\
    (r = true <-> exists x, in_cell_box d g c x /\ points d g s x).
  Proof.
    unfold cell_meets_sub.
    set (top := Nat.max (c_ext c) (s_ext s)).
    set (wc := if c_ext c <? s_ext s then _ else c).
    assert (EW : c_word wc = root_word d top c /\ c_ext wc = top).
    { unfold wc, root_word. destruct (Nat.ltb_spec (c_ext c) (s_ext s)); simpl.
      - unfold top. rewrite Nat.max_r, append_word_spec by lia. auto.
      - unfold top. rewrite Nat.max_l, path_refl by lia. auto. }
    destruct EW as [-> ->]. rewrite append_word_spec.
    set (w1 := root_word d top c). change (primary_cell_path d top (s_ext s) ++ s_word s) with (root_word d top (root_cell s)).
    set (w2 := root_word d top (root_cell s)).
    assert (R : (exists x, in_cell_box d g c x /\ points d g s x) <-> (exists a, in_cell w1 a /\ hung w2 (s_tree s) a)).
    { assert (L := lift_meets top (cell_sub c) s ltac:(unfold top; simpl; lia) ltac:(unfold top; lia)).
      unfold a_sub in L. simpl s_tree in L. fold w2 in L. change (root_word d top (root_cell (cell_sub c))) with w1 in L.
      split.
      - intros (x & A & B). destruct (proj1 L) as (a & A' & B'); [exists x; rewrite cell_sub_points; auto|]. exists a. split; auto. exact (proj1 A').
      - intros (a & A & B). destruct (proj2 L) as (x & A' & B'); [exists a; rewrite hung_true; auto|]. exists x. rewrite <- cell_sub_points. auto. }
    eapply transfer; [exact R|]. destruct (is_prefix_spec w1 w2) as (r1 & -> & H1). destruct r1.
    - destruct H1 as [[q E] _]; auto. eexists. split; [reflexivity|]. rewrite has_enabled_exact. split.
      + intros (a & A). exists (pad w2 a). split; [|apply hung_pad; auto]. pose proof (pad_in w2 a) as I. rewrite E in I at 1.
        apply in_cell_app in I. tauto.
      + intros (a & _ & [_ A]). eauto.
    - destruct (is_prefix_spec w2 w1) as (r2 & -> & H2). destruct r2.
      + destruct H2 as [[q E] _]; auto. rewrite E, skip_app. eexists. split; [reflexivity|]. rewrite has_enabled_exact. split.
        * intros (a & A). exists (pad w2 (pad q a)). split.
          -- apply in_cell_app. split; [apply pad_in|]. eapply in_cell_ext; [|apply pad_in]. intros n _. rewrite pad_drop. reflexivity.
          -- apply hung_pad. apply (locate_covers q (s_tree s) _ (pad_in q a)). eapply covers_ext_all; [|exact A]. apply pad_drop.
        * intros (a & I & [_ A]). apply in_cell_app in I. destruct I as [_ I].
          exists (drop (length q) (drop (length w2) a)). apply (locate_covers q (s_tree s) _ I); auto.
      + eexists. split; [reflexivity|]. split; [discriminate|]. intros (a & A & [B _]).
        destruct (in_cell_comparable _ _ _ A B) as [C|C]; [apply H1 in C|apply H2 in C]; discriminate.
  Qed.
  Lemma paving_subset_exact p q : exists r, sub_subset d (as_sub p) (as_sub q) = Some r /\ (r = true <-> forall x, pp p x -> pp q x).
  Proof.
    apply sub_subset_exact. right. simpl.
    set (h := Nat.min (p_ext p) (p_ext q)).
    pose proof (cell_inhabited d g h [] M St) as C. eexists. unfold in_cell_box, cell_box; simpl.
    split; eapply primary_up; try eassumption; lia.
  Qed.
  Lemma sub_equal_sound a b : wf (s_tree a) -> wf (s_tree b) -> sub_equal d a b = true -> forall x, points d g a x <-> points d g b x.
  Proof.
    intros Wa Wb H x. unfold sub_equal in H. apply andb_true_iff in H. destruct H as [H1 H2].
    apply tree_equal_exact in H2; auto. set (top := Nat.max (s_ext a) (s_ext b)).
    apply (cell_equal_at d top) in H1; [|simpl; lia|simpl; lia].
    rewrite !(points_a_sub top) by lia. unfold a_sub. rewrite H1, H2. tauto.
  Qed.
End Pav.

(** * Iteration *)
Fixpoint enabled_paths (t : tree) : list word :=
  match t with
  | Lf m => if definitely m then [[]] else []
  | Nd _ l r => map (fun p => false :: p) (enabled_paths l) ++ map (fun p => true :: p) (enabled_paths r)
  end.
Lemma enabled_paths_in t : forall p, In p (enabled_paths t) <-> leaf_at t p = Some TRUE.
Proof.
  induction t as [m|m l IHl r IHr]; intros p; simpl.
  - destruct (definitely m) eqn:E.
    + apply def_true in E. subst. destruct p; simpl; intuition congruence.
    + apply def_false in E. destruct p; simpl; intuition congruence.
  - rewrite in_app_iff, !in_map_iff. destruct p as [|[|] p]; split.
    + intros [(q & H & _)|(q & H & _)]; discriminate.
    + discriminate.
    + intros [(q & H & K)|(q & H & K)]; [discriminate|]. injection H as ->. apply IHr; auto.
    + intros H. right. exists p. split; auto. apply IHr; auto.
    + intros [(q & H & K)|(q & H & K)]; [|discriminate]. injection H as ->. apply IHl; auto.
    + intros H. left. exists p. split; auto. apply IHl; auto.
Qed.
Lemma enabled_paths_count t : length (enabled_paths t) = count_enabled t.
Proof.
  induction t as [m|m l IHl r IHr]; simpl; [destruct (definitely m); auto|].
  rewrite app_length, !map_length. exact (f_equal2 Nat.add IHl IHr).
Qed.
Definition wl (v w : word) : Prop := word_less v w = true.
Lemma sorted_cons b ws : StronglySorted wl ws -> StronglySorted wl (map (fun p => b :: p) ws).
Proof.
  induction 1 as [|a ws H IH F]; simpl; constructor; auto.
  rewrite Forall_map. eapply Forall_impl; [|exact F]. intros w. unfold wl; simpl. rewrite Bool.eqb_reflx. auto.
Qed.
Lemma sorted_app (A : Type) (R : A -> A -> Prop) l r : StronglySorted R l -> StronglySorted R r ->
  (forall a b, In a l -> In b r -> R a b) -> StronglySorted R (l ++ r).
Proof.
  induction 1 as [|a l H IH F]; simpl; auto. intros Sr C. constructor.
  - apply IH; auto.
  - apply Forall_app. split; auto. apply Forall_forall. intros b Hb. apply C; auto.
Qed.
Lemma enabled_paths_sorted t : StronglySorted wl (enabled_paths t).
Proof.
  induction t as [m|m l IHl r IHr]; simpl.
  - destruct (definitely m); repeat constructor.
  - apply sorted_app; auto using sorted_cons. intros a b Ha Hb. apply in_map_iff in Ha, Hb.
    destruct Ha as (a' & <- & _), Hb as (b' & <- & _). reflexivity.
Qed.
Lemma sorted_nodup ws : StronglySorted wl ws -> NoDup ws.
Proof.
  induction 1 as [|a ws H IH F]; constructor; auto. intros I. rewrite Forall_forall in F. specialize (F a I).
  unfold wl in F. rewrite less_irrefl in F. discriminate.
Qed.

Lemma node_at_app t p : forall q, node_at t (p ++ q) = match node_at t p with Some u => node_at u q | None => None end.
Proof. revert t. induction p as [|b p IH]; intros t q; [reflexivity|]. destruct t as [m|m l r]; [reflexivity|]. simpl. apply IH. Qed.
Lemma node_depth p : forall t u, node_at t p = Some u -> length p + depth u <= depth t.
Proof.
  induction p as [|b p IH]; intros t u; simpl.
  - intros [= ->]. lia.
  - destruct t as [|m l r]; [discriminate|]. intros H. apply IH in H. simpl. destruct b; lia.
Qed.
Lemma at_child root b c m l r : at_cursor root c = Some (Nd m l r) -> at_cursor root (b :: c) = Some (if b then r else l).
Proof. unfold at_cursor. simpl. intros H. rewrite node_at_app, H. simpl. destruct b; reflexivity. Qed.
Lemma navigate_spec root t : forall fuel c, at_cursor root c = Some t -> depth t < fuel ->
  navigate_to fuel root true c =
  match enabled_paths t with
  | [] => Some (false, List.tl c)
  | p :: _ => Some (true, rev p ++ c)
  end.
Proof.
  induction t as [m|m l IHl r IHr]; intros fuel c A F; (destruct fuel as [|f]; [lia|]); simpl navigate_to; rewrite A.
  - simpl. destruct (definitely m); simpl; auto. destruct c; reflexivity.
  - simpl in F. unfold move_down at 1. rewrite A. cbn [negb].
    rewrite (IHl f (false :: c)) by (try lia; eapply (at_child root false); eauto).
    simpl enabled_paths. destruct (enabled_paths l) as [|p ps] eqn:El.
    + simpl List.tl. unfold move_down. rewrite A. rewrite (IHr f (true :: c)) by (try lia; eapply (at_child root true); eauto).
      destruct (enabled_paths r) as [|p ps] eqn:Er; simpl.
      * destruct c; reflexivity.
      * rewrite <- app_assoc. simpl. reflexivity.
    + simpl. rewrite <- app_assoc. reflexivity.
Qed.
Fixpoint after (t : tree) (p : word) {struct p} : list word :=
  match p with
  | [] => []
  | b :: p' => match t with
               | Lf _ => []
               | Nd _ l r => if b then map (fun q => true :: q) (after r p')
                             else map (fun q => false :: q) (after l p') ++ map (fun q => true :: q) (enabled_paths r)
               end
  end.
Lemma after_snoc P : forall t m l r, node_at t P = Some (Nd m l r) ->
  after t (P ++ [false]) = map (fun q => P ++ true :: q) (enabled_paths r) ++ after t P /\
  after t (P ++ [true]) = after t P.
Proof.
  induction P as [|b P IH]; intros t m l r H; simpl in *.
  - injection H as ->. simpl. rewrite app_nil_r. auto.
  - destruct t as [|m' l' r']; [discriminate|]. destruct b.
    + destruct (IH _ _ _ _ H) as [A B]. rewrite A, B, map_app, map_map. auto.
    + destruct (IH _ _ _ _ H) as [A B]. rewrite A, B, map_app, map_map, <- app_assoc. auto.
Qed.
Lemma find_next_spec root : forall c fuel t, at_cursor root c = Some t -> length c + depth root < fuel ->
  find_next fuel root c = match after root (rev c) with [] => Some None | p :: _ => Some (Some (rev p)) end.
Proof.
  induction c as [|b c IH]; intros fuel t A F; (destruct fuel as [|f]; [lia|]).
  - reflexivity.
  - unfold at_cursor in A. simpl in A. rewrite node_at_app in A. destruct (node_at root (rev c)) as [u|] eqn:E; [|discriminate].
    simpl in A. destruct u as [|m l r]; [destruct b; discriminate|].
    destruct (after_snoc (rev c) root m l r E) as [Af At]. simpl length in F. simpl find_next. simpl rev.
    destruct b.
    + rewrite At. eapply IH; [exact E|lia].
    + rewrite Af. unfold move_down, at_cursor. rewrite E.
      pose proof (node_depth _ _ _ E) as D. rewrite rev_length in D. simpl in D.
      rewrite (navigate_spec root r) by (try lia; apply (at_child root true c m l r E)).
      destruct (enabled_paths r) as [|p ps] eqn:Er; simpl.
      * eapply IH; [exact E|lia].
      * rewrite rev_app_distr. simpl. rewrite rev_involutive. rewrite <- app_assoc. reflexivity.
Qed.
Lemma after_split t : forall p, leaf_at t p = Some TRUE -> exists pre, enabled_paths t = pre ++ p :: after t p.
Proof.
  induction t as [m|m l IHl r IHr]; intros [|b p] H; simpl in *; try discriminate.
  - injection H as ->. exists []. reflexivity.
  - destruct b.
    + destruct (IHr p H) as [pre ->]. rewrite map_app. simpl. exists (map (fun p => false :: p) (enabled_paths l) ++ map (fun p => true :: p) pre).
      rewrite <- app_assoc. reflexivity.
    + destruct (IHl p H) as [pre ->]. rewrite map_app. simpl. exists (map (fun p => false :: p) pre).
      rewrite <- app_assoc. reflexivity.
Qed.
Lemma nodup_split (A : Type) (x : A) : forall p1 s1 p2 s2, NoDup (p1 ++ x :: s1) -> p1 ++ x :: s1 = p2 ++ x :: s2 -> s1 = s2.
Proof.
  induction p1 as [|a p1 IH]; intros s1 p2 s2 N E.
  - destruct p2 as [|b p2]; simpl in *; [congruence|]. injection E as -> E. inversion N; subst.
    exfalso. apply H1. apply in_app_iff. simpl; auto.
  - destruct p2 as [|b p2]; simpl in *.
    + injection E as -> E. inversion N; subst. exfalso. apply H1. apply in_app_iff. simpl; auto.
    + injection E as _ E. inversion N; subst. eapply IH; eauto.
Qed.
Lemma leaf_node t : forall p m, leaf_at t p = Some m -> node_at t p = Some (Lf m).
Proof.
  induction t as [m0|m0 l IHl r IHr]; intros [|b p] m H; simpl in *; try discriminate; [congruence|].
  destruct b; auto.
Qed.
Lemma visit_spec root fuel : 2 * depth root < fuel -> forall n p, leaf_at root p = Some TRUE -> length (after root p) < n ->
  visit n fuel root (Some (rev p)) = Some (p :: after root p).
Proof.
  intros F. induction n; intros p L Hn; [lia|]. simpl.
  pose proof (leaf_node _ _ _ L) as N. pose proof (node_depth _ _ _ N) as D. simpl in D.
  rewrite (find_next_spec root (rev p) fuel (Lf TRUE)).
  2:{ unfold at_cursor. rewrite rev_involutive. auto. }
  2:{ rewrite rev_length. lia. }
  rewrite rev_involutive. destruct (after root p) as [|q rest] eqn:E.
  - destruct n; reflexivity.
  - destruct (after_split root p L) as [pre EP]. rewrite E in EP.
    assert (Lq : leaf_at root q = Some TRUE). { apply enabled_paths_in. rewrite EP. apply in_app_iff. simpl; auto. }
    destruct (after_split root q Lq) as [pre' EQ].
    assert (ND : NoDup (enabled_paths root)) by apply sorted_nodup, enabled_paths_sorted.
    assert (R : rest = after root q).
    { apply (nodup_split _ q (pre ++ [p]) rest pre' (after root q)); rewrite <- app_assoc; simpl; [rewrite <- EP; auto|congruence]. }
    rewrite IHn; auto.
    + rewrite R. reflexivity.
    + rewrite <- R. simpl in Hn. lia.
Qed.
Lemma iterate_spec root n fuel : 2 * depth root < fuel -> count_enabled root <= n -> iterate n fuel root = Some (enabled_paths root).
Proof.
  intros F Hn. unfold iterate, begin. rewrite (navigate_spec root root) by (try reflexivity; lia).
  destruct (enabled_paths root) as [|p ps] eqn:E; simpl.
  - destruct n; reflexivity.
  - rewrite app_nil_r. assert (L : leaf_at root p = Some TRUE) by (apply enabled_paths_in; rewrite E; simpl; auto).
    destruct (after_split root p L) as [pre EP]. rewrite E in EP.
    assert (ND : NoDup (p :: ps)) by (rewrite <- E; apply sorted_nodup, enabled_paths_sorted).
    assert (R : ps = after root p) by (apply (nodup_split _ p [] ps pre (after root p)); auto).
    rewrite visit_spec; auto; [congruence|]. rewrite <- R. rewrite <- (enabled_paths_count root), E in Hn. simpl in Hn. lia.
Qed.
