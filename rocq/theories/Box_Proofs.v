(** Proofs about intervals and boxes. *)
From Coq Require Import Reals List Lra Lia Bool Arith.
From Coquelicot Require Import Rbar.
From Verif Require Import Logical_Model Box_Model Box_Spec.
Import ListNotations.
Local Open Scope R_scope.

Ltac rb :=
  repeat match goal with x : Rbar |- _ => destruct x end;
  unfold is_finite in *; cbn in *;
  try solve [intuition (try discriminate; try congruence; try lra)].

Lemma Rbar_le_iff : forall a b, Rbar_le a b <-> ~ Rbar_lt b a.
Proof. intros a b. rb; split; intros; try tauto; lra. Qed.
Lemma Rbar_lt_iff : forall a b, Rbar_lt a b <-> ~ Rbar_le b a.
Proof. intros a b. rb; split; intros; try tauto; lra. Qed.
Lemma Rbar_le_eq : forall a b, Rbar_le a b -> Rbar_le b a -> a = b.
Proof. intros. apply Rbar_le_antisym; assumption. Qed.
Lemma Rbar_total : forall a b, Rbar_lt a b \/ a = b \/ Rbar_lt b a.
Proof. intros a b. destruct (Rbar_total_order a b) as [[H|H]|H]; auto. Qed.
Lemma Rbar_dec : forall a b, Rbar_le a b \/ Rbar_lt b a.
Proof. intros a b. destruct (Rbar_total a b) as [H|[->|H]]; [left; apply Rbar_lt_le; exact H|left; apply Rbar_le_refl|right; exact H]. Qed.

(** A real number between extended reals. *)
Lemma real_between_strict : forall a b : Rbar, Rbar_lt a b -> exists r, Rbar_lt a (Finite r) /\ Rbar_lt (Finite r) b.
Proof.
  intros [a| |] [b| |] H; cbn in *; try tauto.
  - exists ((a + b) / 2). lra.
  - exists (a + 1). split; [lra|exact I].
  - exists (b - 1). split; [exact I|lra].
  - exists 0. auto.
Qed.
Lemma real_between : forall a b : Rbar, Rbar_le a b -> (a = b -> is_finite a) -> exists r, Rbar_le a (Finite r) /\ Rbar_le (Finite r) b.
Proof.
  intros a b H S. destruct (Rbar_total a b) as [L|[Q|L]].
  - destruct (real_between_strict a b L) as [r [A B]]. exists r. split; apply Rbar_lt_le; assumption.
  - pose proof (S Q) as F. subst b. destruct a as [a| |]; try discriminate F. exists a. split; apply Rbar_le_refl.
  - apply Rbar_le_not_lt in H. contradiction.
Qed.

Lemma lv_and_true : forall a b, lv_and a b = TRUE <-> a = TRUE /\ b = TRUE.
Proof. intros [] []; cbn; split; intros; try (split; congruence); try tauto; try (destruct H; discriminate); discriminate. Qed.
Lemma lv_and_false : forall a b, lv_and a b = FALSE <-> a = FALSE \/ b = FALSE.
Proof. intros [] []; cbn; split; intros; auto; try discriminate; destruct H; discriminate. Qed.
Lemma lv_or_true : forall a b, lv_or a b = TRUE <-> a = TRUE \/ b = TRUE.
Proof. intros [] []; cbn; split; intros; auto; try discriminate; destruct H; discriminate. Qed.
Lemma lv_or_false : forall a b, lv_or a b = FALSE <-> a = FALSE /\ b = FALSE.
Proof. intros [] []; cbn; split; intros; try (split; congruence); try tauto; try (destruct H; discriminate); discriminate. Qed.
Lemma lv_neg_true : forall a, lv_neg a = TRUE <-> a = FALSE.
Proof. intros []; cbn; split; congruence. Qed.
Lemma lv_neg_false : forall a, lv_neg a = FALSE <-> a = TRUE.
Proof. intros []; cbn; split; congruence. Qed.

Lemma right_and : forall a b P Q, lv_right a P -> lv_right b Q -> lv_right (lv_and a b) (P /\ Q).
Proof. intros a b P Q [A A'] [B B']. split; intro H.
  - apply lv_and_true in H. tauto.
  - apply lv_and_false in H. tauto. Qed.
Lemma right_or : forall a b P Q, lv_right a P -> lv_right b Q -> lv_right (lv_or a b) (P \/ Q).
Proof. intros a b P Q [A A'] [B B']. split; intro H.
  - apply lv_or_true in H. tauto.
  - apply lv_or_false in H. tauto. Qed.
Lemma right_neg : forall a P, lv_right a P -> lv_right (lv_neg a) (~ P).
Proof. intros a P [A A']. split; intro H; [apply lv_neg_true in H|apply lv_neg_false in H]; tauto. Qed.
Lemma decides_and : forall a b P Q, lv_decides a P -> lv_decides b Q -> lv_decides (lv_and a b) (P /\ Q).
Proof. intros a b P Q [[-> A]|[-> A]] [[-> B]|[-> B]]; cbn; [left|right|right|right]; tauto. Qed.
Lemma decides_or : forall a b P Q, lv_decides a P -> lv_decides b Q -> lv_decides (lv_or a b) (P \/ Q).
Proof. intros a b P Q [[-> A]|[-> A]] [[-> B]|[-> B]]; cbn; [left|left|left|right]; tauto. Qed.
Lemma decides_neg : forall a P, lv_decides a P -> lv_decides (lv_neg a) (~ P).
Proof. intros a P [[-> A]|[-> A]]; cbn; [right|left]; tauto. Qed.
Lemma decides_iff : forall a P Q, (P <-> Q) -> lv_decides a P -> lv_decides a Q.
Proof. intros a P Q H [[-> A]|[-> A]]; [left|right]; tauto. Qed.
Lemma decides_right : forall a P, lv_decides a P -> lv_right a P.
Proof. intros a P [[-> A]|[-> A]]; split; intro; try discriminate; assumption. Qed.
Lemma right_iff : forall a P Q, (P <-> Q) -> lv_right a P -> lv_right a Q.
Proof. intros a P Q H [A B]. split; intro; [apply H, A|intro; apply B; [|apply H]]; assumption. Qed.
Lemma decides_bool : forall b P, (b = true <-> P) -> lv_decides (make_lv b) P.
Proof. intros [] P H; cbn; [left|right]; split; auto; [tauto|]. intro X. apply H in X. discriminate. Qed.

Section Numbers.
  Context {E : Type} (o : num_ops E) (good : E -> Prop) (v : E -> Rbar) (K : num_ok o good v).

  (** ** Comparisons of end points *)
  Lemma e_lt_ex : forall a b, good a -> good b -> lv_decides (e_lt o (mkE EX a) (mkE EX b)) (Rbar_lt (v a) (v b)).
  Proof using K. intros. apply decides_bool, (ok_lt _ _ _ K); assumption. Qed.
  Lemma e_le_ex : forall a b, good a -> good b -> lv_decides (e_le o (mkE EX a) (mkE EX b)) (Rbar_le (v a) (v b)).
  Proof using K. intros. apply decides_bool, (ok_le _ _ _ K); assumption. Qed.
  Lemma e_eq_ex : forall a b, good a -> good b -> lv_decides (e_eq o (mkE EX a) (mkE EX b)) (v a = v b).
  Proof using K. intros. apply decides_bool, (ok_eq _ _ _ K); assumption. Qed.

  Definition egood (e : endpoint E) : Prop := good (e_raw e).

  Lemma e_lt_right : forall a b x y, egood a -> egood b -> represents v a x -> represents v b y ->
    lv_right (e_lt o a b) (Rbar_lt x y).
  Proof using K.
    intros [ka a] [kb b] x y Ga Gb Ra Rb. unfold egood, represents, e_lt in *. cbn [e_kind e_raw] in *.
    destruct ka, kb;
      try (split; intro H; discriminate H);
      try (apply decides_right; subst x y; apply decides_bool, (ok_lt _ _ _ K); assumption);
      try (destruct (n_lt o a b) eqn:Q; split; intro H; try discriminate H;
           apply (ok_lt _ _ _ K) in Q; try assumption; clear - Q Ra Rb; try subst x; try subst y; generalize dependent (v a); generalize dependent (v b); intros; rb; fail);
      try (destruct (n_le o b a) eqn:Q; split; intro H; try discriminate H;
           apply (ok_le _ _ _ K) in Q; try assumption; clear - Q Ra Rb; try subst x; try subst y; generalize dependent (v a); generalize dependent (v b); intros; rb; fail).
  Qed.
  Lemma e_le_right : forall a b x y, egood a -> egood b -> represents v a x -> represents v b y ->
    lv_right (e_le o a b) (Rbar_le x y).
  Proof using K.
    intros a b x y Ga Gb Ra Rb. unfold e_le.
    assert (G : lv_right (lv_neg (e_lt o b a)) (Rbar_le x y)).
    { eapply right_iff; [symmetry; apply Rbar_le_iff|]. apply right_neg, e_lt_right; assumption. }
    destruct a as [[] a], b as [[] b]; try exact G.
    unfold represents in *; cbn in *. subst x y. apply decides_right, e_le_ex; assumption.
  Qed.
  Lemma e_eq_right : forall a b x y, egood a -> egood b -> represents v a x -> represents v b y ->
    lv_right (e_eq o a b) (x = y).
  Proof using K.
    intros [ka a] [kb b] x y Ga Gb Ra Rb. unfold egood, represents, e_eq in *. cbn [e_kind e_raw] in *.
    destruct ka, kb;
      try (split; intro H; discriminate H);
      try (apply decides_right; subst x y; apply decides_bool, (ok_eq _ _ _ K); assumption);
      try (destruct (n_lt o a b) eqn:Q; split; intro H; try discriminate H;
           apply (ok_lt _ _ _ K) in Q; try assumption; intro X; rewrite <- X in Rb; clear - Q Ra Rb; try subst x; generalize dependent (v a); generalize dependent (v b); intros; rb; fail);
      try (destruct (n_lt o b a) eqn:Q; split; intro H; try discriminate H;
           apply (ok_lt _ _ _ K) in Q; try assumption; intro X; rewrite <- X in Rb; clear - Q Ra Rb; try subst x; generalize dependent (v a); generalize dependent (v b); intros; rb; fail).
  Qed.

  (** ** Sets described by extended end points *)
  Lemma nonempty_le : forall s, nonempty s -> Rbar_le (fst s) (snd s).
  Proof using. intros [a b] [r [A B]]. cbn [fst snd] in *. eapply Rbar_le_trans; eassumption. Qed.
  Lemma nonempty_cases : forall s, nonempty s -> fst s <> p_infty /\ snd s <> m_infty /\ Rbar_le (fst s) (snd s).
  Proof using. intros s H. split; [|split]; [| |apply nonempty_le; exact H]; destruct s as [a b], H as [r [A B]]; cbn in *; intros ->; exact A || exact B. Qed.
  Lemma nonempty_iff : forall s, nonempty s <-> (fst s <> p_infty /\ snd s <> m_infty /\ Rbar_le (fst s) (snd s)).
  Proof using.
    intros s. split; [apply nonempty_cases|]. intros [A [B C]]. apply real_between; [exact C|].
    intros Q. rewrite <- Q in B. destruct (fst s); try congruence. reflexivity. Qed.

  (** Inclusion of a non-empty interval in another is the comparison of end points. *)
  Lemma set_subset_iff : forall s t, nonempty s ->
    ((forall r, in_set s r -> in_set t r) <-> (Rbar_le (fst t) (fst s) /\ Rbar_le (snd s) (snd t))).
  Proof using.
    intros [a b] [c d] N. pose proof (nonempty_cases _ N) as [Na [Nb Le]]. destruct N as [r0 [A0 B0]]. cbn [fst snd] in *. split.
    - intros H. split.
      + apply Rbar_le_iff. intro X.
        destruct a as [a| |]; try congruence.
        * destruct (H a) as [P _]; [split; [apply Rbar_le_refl|exact Le]|]. cbn in P. revert P X. clear. intros. rb.
        * destruct (real_between_strict m_infty (Rbar_min c (Finite r0))) as [r [_ R2]].
          { destruct c; cbn in *; try tauto. }
          assert (in_set (m_infty, b) r).
          { split; [exact I|]. cbn. clear - R2 B0. destruct b, c; cbn in *; try tauto; try (revert R2; unfold Rmin; destruct (Rle_dec _ _); intros; lra); lra. }
          destruct (H r H0) as [P _]. clear - P R2. destruct c; cbn in *; try tauto.
          revert R2; unfold Rmin; destruct (Rle_dec _ _); intros; lra.
      + apply Rbar_le_iff. intro X.
        destruct b as [b| |]; try congruence.
        * destruct (H b) as [_ P]; [split; [exact Le|apply Rbar_le_refl]|]. cbn in P. revert P X. clear. intros. rb.
        * destruct d as [d| |]; [|cbn in X; tauto|].
          -- assert (in_set (a, p_infty) (Rmax r0 (d + 1))).
             { split; [|exact I]. cbn. eapply Rbar_le_trans; [exact A0|]. cbn. apply Rmax_l. }
             destruct (H _ H0) as [_ P]. cbn in P. pose proof (Rmax_r r0 (d + 1)). lra.
          -- destruct (H r0) as [_ P]; [split; [exact A0|exact I]|]. exact P.
    - intros [P Q] r [R1 R2]. split; cbn [fst snd] in *; eapply Rbar_le_trans; eassumption.
  Qed.

  Lemma set_meet_iff : forall s t, nonempty s -> nonempty t ->
    ((exists r, in_set s r /\ in_set t r) <-> (Rbar_le (fst s) (snd t) /\ Rbar_le (fst t) (snd s))).
  Proof using.
    intros [a b] [c d] N M. pose proof (nonempty_cases _ N) as [Na [Nb L1]]. pose proof (nonempty_cases _ M) as [Nc [Nd L2]]. cbn [fst snd] in *. split.
    - intros [r [[R1 R2] [R3 R4]]]. cbn [fst snd] in *. split; eapply Rbar_le_trans; eassumption.
    - intros [P Q].
      assert (forall x y, x <> p_infty -> y <> p_infty -> exists z, (z = x \/ z = y) /\ Rbar_le x z /\ Rbar_le y z) as Mx.
      { intros x y X Y. destruct (Rbar_dec x y) as [H|H]; [exists y|exists x]; repeat split; auto; try apply Rbar_le_refl. apply Rbar_lt_le; exact H. }
      assert (forall x y, x <> m_infty -> y <> m_infty -> exists z, (z = x \/ z = y) /\ Rbar_le z x /\ Rbar_le z y) as Mn.
      { intros x y X Y. destruct (Rbar_dec x y) as [H|H]; [exists x|exists y]; repeat split; auto; try apply Rbar_le_refl. apply Rbar_lt_le; exact H. }
      destruct (Mx a c Na Nc) as [l [Hl [La Lc]]]. destruct (Mn b d Nb Nd) as [u [Hu [Ub Ud]]].
      assert (nonempty (l, u)) as [r [R1 R2]].
      { apply nonempty_iff. cbn [fst snd]. repeat split.
        - destruct Hl as [-> | ->]; assumption.
        - destruct Hu as [-> | ->]; assumption.
        - destruct Hl as [-> | ->], Hu as [-> | ->]; assumption. }
      cbn [fst snd] in *. exists r. repeat split; cbn [fst snd]; eapply Rbar_le_trans; eassumption.
  Qed.

  Lemma stands_exact : forall i s, is_exact good i -> stands_for v i s -> s = set_of v i.
  Proof using. intros i [a b] [_ [A B]] [P Q]. unfold represents in *. rewrite A in P. rewrite B in Q. cbn in *. subst. reflexivity. Qed.


  (** ** Relations, as comparisons of end points *)
  Definition P_sub (s t : set) := Rbar_le (fst t) (fst s) /\ Rbar_le (snd s) (snd t).
  Definition P_meet (s t : set) := Rbar_le (fst s) (snd t) /\ Rbar_le (fst t) (snd s).
  Definition P_in (s t : set) := Rbar_lt (fst t) (fst s) /\ Rbar_lt (snd s) (snd t).
  Definition P_over (s t : set) := Rbar_lt (fst s) (snd t) /\ Rbar_lt (fst t) (snd s).

  Lemma set_inner_iff : forall s t, nonempty s -> real_ends s -> (incl_inner s t <-> P_in s t).
  Proof using.
    intros [a b] [c d] N [Fa Fb]. pose proof (nonempty_cases _ N) as [_ [_ L]]. unfold P_in, incl_inner, in_set, in_inner. cbn [fst snd] in *.
    destruct a as [a| |]; try discriminate Fa. destruct b as [b| |]; try discriminate Fb. split.
    - intros H. split; [apply (H a)|apply (H b)]; cbn in *; lra.
    - intros [P Q] r [R1 R2]. split; [eapply Rbar_lt_le_trans|eapply Rbar_le_lt_trans]; eassumption.
  Qed.
  Lemma P_in_incl : forall s t, P_in s t -> incl_inner s t.
  Proof using. intros s t [P Q] r [R1 R2]. split; [eapply Rbar_lt_le_trans|eapply Rbar_le_lt_trans]; eassumption. Qed.
  Lemma P_sub_incl : forall s t, P_sub s t -> incl s t.
  Proof using. intros s t [P Q] r [R1 R2]. split; eapply Rbar_le_trans; eassumption. Qed.

  Lemma set_over_iff : forall s t, nonempty s -> nonempty t -> (overlapping s t <-> P_over s t).
  Proof using.
    intros [a b] [c d] N M. pose proof (nonempty_cases _ N) as [Na [Nb L1]]. pose proof (nonempty_cases _ M) as [Nc [Nd L2]].
    unfold P_over, overlapping, in_set, in_inner. cbn [fst snd] in *. split.
    - intros [r [[R1 R2] [[R3 R4] [[R5 R6]|[R5 R6]]]]]; split;
        solve [eapply Rbar_lt_le_trans; eassumption|eapply Rbar_le_lt_trans; eassumption].
    - intros [P Q].
      assert (G : forall a b c d, a <> p_infty -> b <> m_infty -> c <> p_infty -> d <> m_infty -> Rbar_le c d -> Rbar_lt a b -> Rbar_lt a d -> Rbar_lt c b ->
        exists r, (Rbar_le a (Finite r) /\ Rbar_le (Finite r) b) /\ (Rbar_le c (Finite r) /\ Rbar_le (Finite r) d) /\ Rbar_lt a (Finite r) /\ Rbar_lt (Finite r) b).
      { clear. intros a b c d Na Nb Nc Nd L2 L1 P Q.
        destruct (Rbar_dec c a) as [C|C].
        - assert (exists r, Rbar_lt a (Finite r) /\ Rbar_lt (Finite r) b /\ Rbar_le (Finite r) d) as [r [R1 [R2 R3]]].
          { destruct (Rbar_dec d b) as [D|D].
            - destruct (real_between_strict a d P) as [r [R1 R2]]. exists r. repeat split; auto; [eapply Rbar_lt_le_trans; eassumption|apply Rbar_lt_le; exact R2].
            - destruct (real_between_strict a b L1) as [r [R1 R2]]. exists r. repeat split; auto. apply Rbar_lt_le. eapply Rbar_lt_trans; eassumption. }
          exists r. repeat split; auto; try (apply Rbar_lt_le; assumption).
          apply Rbar_lt_le. eapply Rbar_le_lt_trans; eassumption.
        - destruct (Rbar_dec d c) as [D|D].
          + assert (c = d) by (apply Rbar_le_antisym; assumption). subst d.
            destruct c as [c| |]; try congruence.
            exists c. repeat split; auto; try apply Rbar_le_refl; apply Rbar_lt_le; assumption.
          + assert (exists r, Rbar_lt c (Finite r) /\ Rbar_lt (Finite r) b /\ Rbar_le (Finite r) d) as [r [R1 [R2 R3]]].
            { destruct (Rbar_dec d b) as [X|X].
              - destruct (real_between_strict c d D) as [r [R1 R2]]. exists r. repeat split; auto; [eapply Rbar_lt_le_trans; eassumption|apply Rbar_lt_le; exact R2].
              - destruct (real_between_strict c b Q) as [r [R1 R2]]. exists r. repeat split; auto. apply Rbar_lt_le. eapply Rbar_lt_trans; eassumption. }
            assert (Rbar_lt a (Finite r)) by (eapply Rbar_lt_trans; eassumption).
            exists r. repeat split; auto; apply Rbar_lt_le; assumption. }
      destruct (Rbar_dec b a) as [X|X].
      + assert (a = b) by (apply Rbar_le_antisym; assumption). subst b.
        destruct a as [a| |]; try congruence.
        exists a. repeat split; auto; try apply Rbar_le_refl; apply Rbar_lt_le; assumption.
      + destruct (G a b c d) as [r [R1 [R2 R3]]]; auto. exists r. tauto.
  Qed.

  Lemma set_meet_incl : forall s t, meet s t -> P_meet s t.
  Proof using. intros s t [r [[R1 R2] [R3 R4]]]. split; eapply Rbar_le_trans; eassumption. Qed.

  Lemma set_eq_iff : forall s t, nonempty s -> nonempty t -> (set_eq s t <-> (fst s = fst t /\ snd s = snd t)).
  Proof using.
    intros s t N M. split.
    - intros H. pose proof (proj1 (set_subset_iff s t N) (fun r => proj1 (H r))) as [A B].
      pose proof (proj1 (set_subset_iff t s M) (fun r => proj2 (H r))) as [C D].
      split; apply Rbar_le_antisym; assumption.
    - intros [A B] r. unfold in_set. rewrite A, B. tauto.
  Qed.

  (** The relations are right about all intervals the operands stand for. *)
  Section Rel.
    Variables (i j : interval E) (s t : set).
    Hypotheses (Gi : ivl_good good i) (Gj : ivl_good good j) (Si : stands_for v i s) (Sj : stands_for v j t).

    Lemma r_empty : lv_right (i_is_empty o i) (Rbar_lt (snd s) (fst s)).
    Proof using K Gi Si. apply e_lt_right; apply Gi || apply Si. Qed.
    Lemma r_sub : lv_right (i_subset o i j) (P_sub s t).
    Proof using K Gi Gj Si Sj. apply right_and; apply e_le_right; apply Gi || apply Gj || apply Si || apply Sj. Qed.
    Lemma r_sup : lv_right (i_superset o i j) (P_sub t s).
    Proof using K Gi Gj Si Sj. apply right_and; apply e_le_right; apply Gi || apply Gj || apply Si || apply Sj. Qed.
    Lemma r_meet : lv_right (i_intersect o i j) (P_meet s t).
    Proof using K Gi Gj Si Sj. apply right_and; apply e_le_right; apply Gi || apply Gj || apply Si || apply Sj. Qed.
    Lemma r_disjoint : lv_right (i_disjoint o i j) (~ P_meet s t).
    Proof using K Gi Gj Si Sj.
      eapply right_iff; [|apply right_or; apply e_lt_right; first [apply Gi|apply Gj|apply Si|apply Sj]].
      unfold P_meet. rewrite !Rbar_lt_iff. destruct (Rbar_dec (fst s) (snd t)) as [H|H], (Rbar_dec (fst t) (snd s)) as [H'|H'];
        try rewrite Rbar_lt_iff in H; try rewrite Rbar_lt_iff in H'; tauto. Qed.
    Lemma r_over : lv_right (i_overlap o i j) (P_over s t).
    Proof using K Gi Gj Si Sj. apply right_and; apply e_lt_right; apply Gi || apply Gj || apply Si || apply Sj. Qed.
    Lemma r_in : lv_right (i_inside o i j) (P_in s t).
    Proof using K Gi Gj Si Sj. apply right_and; apply e_lt_right; apply Gi || apply Gj || apply Si || apply Sj. Qed.
    Lemma r_cov : lv_right (i_covers o i j) (P_in t s).
    Proof using K Gi Gj Si Sj. apply right_and; apply e_lt_right; apply Gi || apply Gj || apply Si || apply Sj. Qed.
    Lemma r_eq : lv_right (i_eq o i j) (fst s = fst t /\ snd s = snd t).
    Proof using K Gi Gj Si Sj. apply right_and; apply e_eq_right; apply Gi || apply Gj || apply Si || apply Sj. Qed.
    Lemma r_equal : lv_right (i_equal o i j) (Rbar_le (fst s) (fst t) /\ snd s = snd t).
    Proof using K Gi Gj Si Sj. apply right_and; [apply e_le_right|apply e_eq_right]; apply Gi || apply Gj || apply Si || apply Sj. Qed.
    Lemma r_contains : forall x, good x -> lv_right (i_contains o i x) (Rbar_le (fst s) (v x) /\ Rbar_le (v x) (snd s)).
    Proof using K Gi Si. intros x G. apply right_and; apply e_le_right; apply Gi || apply Si || exact G || reflexivity. Qed.
  End Rel.

  (** On exact intervals the relations are definite. *)
  Definition definite (l : lv) : Prop := l = TRUE \/ l = FALSE.
  Lemma definite_decides : forall l P, definite l -> lv_right l P -> lv_decides l P.
  Proof using. intros l P [D|D] [A B]; [left|right]; auto. Qed.
  Lemma definite_and : forall a b, definite a -> definite b -> definite (lv_and a b).
  Proof using. unfold definite. intros [] [] [?|?] [?|?]; cbn; try discriminate; auto. Qed.
  Lemma definite_or : forall a b, definite a -> definite b -> definite (lv_or a b).
  Proof using. unfold definite. intros [] [] [?|?] [?|?]; cbn; try discriminate; auto. Qed.
  Lemma definite_bool : forall b, definite (make_lv b).
  Proof using. intros []; [left|right]; reflexivity. Qed.
  Lemma e_lt_def : forall a b, e_kind a = EX -> e_kind b = EX -> definite (e_lt o a b).
  Proof using. intros a b A B. unfold e_lt. rewrite A, B. apply definite_bool. Qed.
  Lemma e_le_def : forall a b, e_kind a = EX -> e_kind b = EX -> definite (e_le o a b).
  Proof using. intros a b A B. unfold e_le. rewrite A, B. apply definite_bool. Qed.
  Lemma e_eq_def : forall a b, e_kind a = EX -> e_kind b = EX -> definite (e_eq o a b).
  Proof using. intros a b A B. unfold e_eq. rewrite A, B. apply definite_bool. Qed.

  Lemma exact_stands : forall i, is_exact good i -> stands_for v i (set_of v i).
  Proof using. intros i [_ [A B]]. unfold stands_for, represents. rewrite A, B. split; reflexivity. Qed.

  Section Exact.
    Variables (i j : interval E).
    Hypotheses (Xi : is_exact good i) (Xj : is_exact good j).
    Let s := set_of v i. Let t := set_of v j.
    Let Gi : ivl_good good i := proj1 Xi. Let Gj : ivl_good good j := proj1 Xj.
    Let Ki := proj1 (proj2 Xi). Let Kj := proj1 (proj2 Xj). Let Kiu := proj2 (proj2 Xi). Let Kju := proj2 (proj2 Xj).

    Ltac dfn := first [apply definite_and|apply definite_or]; first [apply e_le_def|apply e_lt_def|apply e_eq_def]; assumption.
    Ltac go L := apply definite_decides; [dfn|apply L; try assumption; apply exact_stands; assumption].
    Lemma d_empty : lv_decides (i_is_empty o i) (Rbar_lt (snd s) (fst s)).
    Proof using K Xi Ki Kiu Gi. apply definite_decides; [apply e_lt_def; assumption|apply r_empty; try assumption; apply exact_stands; assumption]. Qed.
    Lemma d_singleton : lv_decides (i_is_singleton o i) (fst s = snd s).
    Proof using K Xi Ki Kiu Gi. apply definite_decides; [apply e_eq_def; assumption|].
      apply e_eq_right; first [apply Gi|apply (exact_stands i Xi)]. Qed.
    Lemma d_sub : lv_decides (i_subset o i j) (P_sub s t).
    Proof using K Xi Xj Ki Kj Kiu Kju Gi Gj. go r_sub. Qed.
    Lemma d_sup : lv_decides (i_superset o i j) (P_sub t s).
    Proof using K Xi Xj Ki Kj Kiu Kju Gi Gj. go r_sup. Qed.
    Lemma d_meet : lv_decides (i_intersect o i j) (P_meet s t).
    Proof using K Xi Xj Ki Kj Kiu Kju Gi Gj. go r_meet. Qed.
    Lemma d_disjoint : lv_decides (i_disjoint o i j) (~ P_meet s t).
    Proof using K Xi Xj Ki Kj Kiu Kju Gi Gj. go r_disjoint. Qed.
    Lemma d_over : lv_decides (i_overlap o i j) (P_over s t).
    Proof using K Xi Xj Ki Kj Kiu Kju Gi Gj. go r_over. Qed.
    Lemma d_in : lv_decides (i_inside o i j) (P_in s t).
    Proof using K Xi Xj Ki Kj Kiu Kju Gi Gj. go r_in. Qed.
    Lemma d_cov : lv_decides (i_covers o i j) (P_in t s).
    Proof using K Xi Xj Ki Kj Kiu Kju Gi Gj. go r_cov. Qed.
    Lemma d_eq : lv_decides (i_eq o i j) (fst s = fst t /\ snd s = snd t).
    Proof using K Xi Xj Ki Kj Kiu Kju Gi Gj. go r_eq. Qed.
    Lemma d_equal : lv_decides (i_equal o i j) (Rbar_le (fst s) (fst t) /\ snd s = snd t).
    Proof using K Xi Xj Ki Kj Kiu Kju Gi Gj. go r_equal. Qed.
    Lemma d_contains : forall x r, good x -> v x = Finite r -> lv_decides (i_contains o i x) (in_set s r).
    Proof using K Xi Ki Kiu Gi. intros x r G V. unfold in_set. rewrite <- V. apply definite_decides.
      - apply definite_and; apply e_le_def; try assumption; reflexivity.
      - apply r_contains; try assumption; apply exact_stands; assumption. Qed.
  End Exact.

  (** ** Intersection and hull *)
  Lemma max_le : forall a b x, good a -> good b -> (Rbar_le (v (n_max o a b)) x <-> Rbar_le (v a) x /\ Rbar_le (v b) x).
  Proof using K. intros a b x A B. destruct (ok_max _ _ _ K a b A B) as [_ [C [L1 L2]]]. split.
    - intro H. split; eapply Rbar_le_trans; eassumption.
    - intros [P Q]. destruct C as [-> | ->]; assumption. Qed.
  Lemma min_le : forall a b x, good a -> good b -> (Rbar_le x (v (n_min o a b)) <-> Rbar_le x (v a) /\ Rbar_le x (v b)).
  Proof using K. intros a b x A B. destruct (ok_min _ _ _ K a b A B) as [_ [C [L1 L2]]]. split.
    - intro H. split; eapply Rbar_le_trans; eassumption.
    - intros [P Q]. destruct C as [-> | ->]; assumption. Qed.
  Lemma inter_in : forall i j r, ivl_good good i -> ivl_good good j ->
    (in_ivl v (i_intersection o i j) r <-> in_ivl v i r /\ in_ivl v j r).
  Proof using K.
    intros i j r [A B] [C D]. unfold in_ivl, in_set, set_of, raw_l, raw_u, i_intersection, e_max, e_min. cbn [fst snd i_l i_u e_raw].
    rewrite max_le, min_le by assumption. tauto. Qed.
  Lemma hull_contains : forall i j r, ivl_good good i -> ivl_good good j -> in_ivl v i r \/ in_ivl v j r -> in_ivl v (i_hull o i j) r.
  Proof using K.
    intros i j r [A B] [C D]. unfold in_ivl, in_set, set_of, raw_l, raw_u, i_hull, e_max, e_min in *. cbn [fst snd i_l i_u e_raw].
    destruct (ok_min _ _ _ K _ _ A C) as [_ [_ [L1 L2]]]. destruct (ok_max _ _ _ K _ _ B D) as [_ [_ [M1 M2]]].
    intros [[P Q]|[P Q]]; cbn [fst snd] in *; split; first [exact (Rbar_le_trans _ _ _ L1 P)|exact (Rbar_le_trans _ _ _ L2 P)|exact (Rbar_le_trans _ _ _ Q M1)|exact (Rbar_le_trans _ _ _ Q M2)]. Qed.
  Lemma hull_least : forall i j t, ivl_good good i -> ivl_good good j -> nonempty (set_of v i) -> nonempty (set_of v j) ->
    incl (set_of v i) t -> incl (set_of v j) t -> incl (set_of v (i_hull o i j)) t.
  Proof using K.
    intros i j t [A B] [C D] N M H1 H2. apply set_subset_iff in H1; [|exact N]. apply set_subset_iff in H2; [|exact M].
    apply P_sub_incl. destruct H1 as [P1 Q1], H2 as [P2 Q2]. unfold P_sub, set_of, raw_l, raw_u, i_hull, e_max, e_min in *. cbn [fst snd i_l i_u e_raw] in *.
    destruct (ok_min _ _ _ K _ _ A C) as [_ [X _]]. destruct (ok_max _ _ _ K _ _ B D) as [_ [Y _]].
    split; [destruct X as [-> | ->]|destruct Y as [-> | ->]]; assumption. Qed.

  (** Over- and under-approximations. *)
  Lemma over_incl : forall i s, over good i -> stands_for v i s -> incl s (set_of v i).
  Proof using.
    intros i s [_ [A B]] [P Q] r [R1 R2]. unfold represents in *. unfold in_set, set_of, raw_l, raw_u. cbn [fst snd].
    split.
    - destruct (e_kind (i_l i)); [rewrite <- P; exact R1|eapply Rbar_le_trans; eassumption|congruence].
    - destruct (e_kind (i_u i)); [rewrite <- Q; exact R2|congruence|eapply Rbar_le_trans; eassumption]. Qed.
  Lemma under_incl : forall i s, under good i -> stands_for v i s -> incl (set_of v i) s.
  Proof using.
    intros i s [_ [A B]] [P Q] r [R1 R2]. unfold represents in *. unfold in_set, set_of, raw_l, raw_u in *. cbn [fst snd] in *.
    split.
    - destruct (e_kind (i_l i)); [rewrite P; exact R1|congruence|eapply Rbar_le_trans; eassumption].
    - destruct (e_kind (i_u i)); [rewrite Q; exact R2|eapply Rbar_le_trans; eassumption|congruence]. Qed.
  Lemma exact_over : forall i, is_exact good i -> over good i /\ under good i.
  Proof using. intros i [G [A B]]. unfold over, under. rewrite A, B. repeat split; try apply G; discriminate. Qed.
  Lemma ops_good : forall i j, ivl_good good i -> ivl_good good j -> ivl_good good (i_intersection o i j) /\ ivl_good good (i_hull o i j).
  Proof using K.
    intros i j [A B] [C D]. unfold ivl_good, raw_l, raw_u, i_intersection, i_hull, e_max, e_min. cbn [i_l i_u e_raw].
    repeat split; first [apply (ok_max _ _ _ K)|apply (ok_min _ _ _ K)]; assumption. Qed.
  Lemma k_join_ne : forall a b k, k <> EX -> a <> k -> b <> k -> k_join a b <> k.
  Proof using. intros [] [] []; cbn; congruence. Qed.
  Lemma ops_over : forall i j, over good i -> over good j -> over good (i_intersection o i j) /\ over good (i_hull o i j).
  Proof using K.
    intros i j [G [A B]] [H [C D]]. destruct (ops_good i j G H) as [P Q].
    repeat split; try apply P; try apply Q; cbn; apply k_join_ne; assumption || discriminate. Qed.
  Lemma ops_under : forall i j, under good i -> under good j -> under good (i_intersection o i j) /\ under good (i_hull o i j).
  Proof using K.
    intros i j [G [A B]] [H [C D]]. destruct (ops_good i j G H) as [P Q].
    repeat split; try apply P; try apply Q; cbn; apply k_join_ne; assumption || discriminate. Qed.
  Lemma ops_exact : forall i j, is_exact good i -> is_exact good j -> is_exact good (i_intersection o i j) /\ is_exact good (i_hull o i j).
  Proof using K.
    intros i j [G [A B]] [H [C D]]. destruct (ops_good i j G H) as [P Q].
    repeat split; try apply P; try apply Q; cbn; rewrite ?A, ?B, ?C, ?D; reflexivity. Qed.

End Numbers.

(** ** Boxes *)
Lemma in_sets_nonempty : forall a, (exists x, in_sets a x) <-> Forall nonempty a.
Proof.
  induction a as [|s a IH]; split.
  - constructor.
  - intros _. exists []. constructor.
  - intros [x H]. inversion H as [|? r ? y Hr Hy]; subst. constructor; [exists r; exact Hr|]. apply IH. exists y. exact Hy.
  - intros H. inversion H as [|? ? [r Hr] Ha]; subst. destruct (proj2 IH Ha) as [y Hy]. exists (r :: y). constructor; assumption.
Qed.
(** Replacing one coordinate. *)
Lemma in_sets_subset_gen : forall (P : set -> R -> Prop) a b, Forall nonempty a -> length a = length b ->
  ((forall x, in_sets a x -> Forall2 P b x) <-> Forall2 (fun s t => forall r, in_set s r -> P t r) a b).
Proof.
  intros P a. induction a as [|s a IH]; intros [|t b] N L; try discriminate L.
  - split; intros; [constructor|]. inversion H0; subst. constructor.
  - inversion N as [|? ? [r0 Hr0] Na]; subst. split.
    + intros H. constructor.
      * intros r Hr. destruct (proj2 (in_sets_nonempty a) Na) as [y Hy].
        specialize (H (r :: y)). assert (in_sets (s :: a) (r :: y)) as Q by (constructor; assumption).
        apply H in Q. inversion Q; assumption.
      * apply IH; auto. intros x Hx. assert (in_sets (s :: a) (r0 :: x)) as Q by (constructor; assumption).
        apply H in Q. inversion Q; assumption.
    + intros H x Hx. inversion H; subst. inversion Hx; subst. constructor; auto.
      eapply (proj2 (IH b Na (eq_add_S _ _ L))); eassumption.
Qed.
Lemma in_sets_common_gen : forall (P Q : set -> R -> Prop) a b, length a = length b ->
  ((exists x, Forall2 P a x /\ Forall2 Q b x) <-> Forall2 (fun s t => exists r, P s r /\ Q t r) a b).
Proof.
  intros P Q a. induction a as [|s a IH]; intros [|t b] L; try discriminate L.
  - split; intros; [constructor|]. exists []. split; constructor.
  - split.
    + intros [x [H1 H2]]. inversion H1; subst. inversion H2; subst. constructor; [eexists; eauto|]. apply IH; auto. eexists; eauto.
    + intros H. inversion H as [|? ? ? ? [r [R1 R2]] F]; subst. apply (IH b (eq_add_S _ _ L)) in F. destruct F as [x [X1 X2]].
      exists (r :: x). split; constructor; assumption.
Qed.
Lemma Forall2_iff : forall {A B} (P Q : A -> B -> Prop) (D : A -> Prop) (D' : B -> Prop) a b,
  (forall x y, D x -> D' y -> (P x y <-> Q x y)) -> Forall D a -> Forall D' b -> (Forall2 P a b <-> Forall2 Q a b).
Proof.
  intros A B P Q D D' a b H Fa Fb. split; intro F.
  - revert Fa Fb. induction F; intros Fa Fb; constructor; inversion Fa; inversion Fb; subst; [apply H|apply IHF]; assumption.
  - revert Fa Fb. induction F; intros Fa Fb; constructor; inversion Fa; inversion Fb; subst; [apply H|apply IHF]; assumption.
Qed.

Section Loops.
  Context {A B : Type} (J : lv -> Prop -> Prop).
  Hypothesis J_iff : forall l P Q, (P <-> Q) -> J l P -> J l Q.
  Lemma loop_and : (forall a b P Q, J a P -> J b Q -> J (lv_and a b) (P /\ Q)) ->
    forall (f : A -> B -> lv) {S T} (SF : A -> S -> Prop) (SG : B -> T -> Prop) (P : S -> T -> Prop),
    (forall i j s t, SF i s -> SG j t -> J (f i j) (P s t)) ->
    forall a s b t r R, Forall2 SF a s -> Forall2 SG b t -> length a = length b -> J r R ->
    exists l, loop2 lv_and f r a b = Some l /\ J l (R /\ Forall2 P s t).
  Proof using J_iff.
    intros J_and f S T SF SG P H a s b t r R Fa. revert b t r R. induction Fa as [|i s a ss Hi Fa IH]; intros b t r R Fb L Hr.
    - destruct b; [|discriminate L]. inversion Fb; subst. exists r. split; [reflexivity|].
      eapply J_iff; [|exact Hr]. split; [intro; split; auto|tauto].
    - destruct b as [|j b]; [discriminate L|]. inversion Fb as [|? t0 ? tt Hj Fb']; subst. cbn.
      destruct (IH b tt (lv_and r (f i j)) (R /\ P s t0)) as [l [E1 E2]]; auto.
      exists l. split; auto. eapply J_iff; [|exact E2]. split.
      + intros [[U V] W]. split; auto.
      + intros [U V]. inversion V; subst. tauto.
  Qed.
  Lemma loop_or : (forall a b P Q, J a (~ P) -> J b (~ Q) -> J (lv_or a b) (~ (P /\ Q))) ->
    forall (f : A -> B -> lv) {S T} (SF : A -> S -> Prop) (SG : B -> T -> Prop) (P : S -> T -> Prop),
    (forall i j s t, SF i s -> SG j t -> J (f i j) (~ P s t)) ->
    forall a s b t r R, Forall2 SF a s -> Forall2 SG b t -> length a = length b -> J r (~ R) ->
    exists l, loop2 lv_or f r a b = Some l /\ J l (~ (R /\ Forall2 P s t)).
  Proof using J_iff.
    intros J_or f S T SF SG P H a s b t r R Fa. revert b t r R. induction Fa as [|i s a ss Hi Fa IH]; intros b t r R Fb L Hr.
    - destruct b; [|discriminate L]. inversion Fb; subst. exists r. split; [reflexivity|].
      eapply J_iff; [|exact Hr]. split; [tauto|]. intros U V. apply U. split; auto.
    - destruct b as [|j b]; [discriminate L|]. inversion Fb as [|? t0 ? tt Hj Fb']; subst. cbn.
      destruct (IH b tt (lv_or r (f i j)) (R /\ P s t0)) as [l [E1 E2]]; auto.
      exists l. split; auto. eapply J_iff; [|exact E2]. split.
      + intros U [V W]. inversion W; subst. tauto.
      + intros U [[V V'] W]. apply U. auto.
  Qed.
End Loops.
Lemma decides_or_neg : forall a b P Q, lv_decides a (~ P) -> lv_decides b (~ Q) -> lv_decides (lv_or a b) (~ (P /\ Q)).
Proof. intros a b P Q [[-> U]|[-> U]] [[-> V]|[-> V]]; cbn; [left|left|left|right]; tauto. Qed.
Lemma right_or_neg : forall a b P Q, lv_right a (~ P) -> lv_right b (~ Q) -> lv_right (lv_or a b) (~ (P /\ Q)).
Proof.
  intros a b P Q Ha Hb. split; intro L.
  - apply lv_or_true in L. destruct L as [L|L]; [apply Ha in L|apply Hb in L]; tauto.
  - apply lv_or_false in L. destruct L as [L1 L2]. apply (proj2 Ha) in L1. apply (proj2 Hb) in L2. tauto.
Qed.
Lemma and_True : forall P, (True /\ P) <-> P. Proof. tauto. Qed.
Definition loop_and_d := fun A B => @loop_and A B lv_decides (fun l P Q => decides_iff l P Q) decides_and.
Definition loop_and_r := fun A B => @loop_and A B lv_right (fun l P Q => right_iff l P Q) right_and.
Definition loop_or_d := fun A B => @loop_or A B lv_decides (fun l P Q => decides_iff l P Q) decides_or_neg.
Definition loop_or_r := fun A B => @loop_or A B lv_right (fun l P Q => right_iff l P Q) right_or_neg.

Section Boxes.
  Context {E : Type} (o : num_ops E) (good : E -> Prop) (v : E -> Rbar) (K : num_ok o good v).

  Definition sets_of (b : box E) : list set := map (set_of v) b.
  Lemma in_box_sets : forall b x, in_box v b x <-> in_sets (sets_of b) x.
  Proof using.
    induction b as [|i b IH]; intros x; split; intros H; inversion H; subst; constructor; auto; apply IH; assumption. Qed.
  Definition EXS (i : interval E) (s : set) : Prop := is_exact good i /\ s = set_of v i.
  Definition STS (i : interval E) (s : set) : Prop := ivl_good good i /\ stands_for v i s.
  Lemma exact_sets : forall b, Forall (is_exact good) b -> Forall2 EXS b (sets_of b).
  Proof using. induction 1; constructor; auto. split; auto. Qed.
  Lemma stand_sets : forall b s, Forall (ivl_good good) b -> Forall2 (stands_for v) b s -> Forall2 STS b s.
  Proof using. intros b s F H. induction H; constructor; inversion F; subst; auto. split; auto. Qed.

  Lemma bx_empty_gen : forall b r R, Forall (fun i => is_exact good i /\ sane v i) b -> lv_decides r (~ R) ->
    lv_decides (fold_left (fun r i => lv_or r (i_is_empty o i)) b r) (~ (R /\ Forall nonempty (sets_of b))).
  Proof using K.
    induction b as [|i b IH]; intros r R F H; cbn.
    - eapply decides_iff; [|exact H]. split; [tauto|]. intros U V. apply U. split; [exact V|constructor].
    - inversion F as [|? ? [X S] F']; subst. specialize (IH (lv_or r (i_is_empty o i)) (R /\ nonempty (set_of v i)) F').
      eapply decides_iff; [|apply IH]; clear IH.
      + split; intros U V; apply U; [|destruct V as [[V1 V2] V3]; split; auto].
        destruct V as [V1 V2]. inversion V2; subst. tauto.
      + apply decides_or_neg; [exact H|]. eapply decides_iff; [|apply (d_empty o good v K); exact X].
        split.
        * intros L N. apply nonempty_le in N. apply Rbar_le_not_lt in N. contradiction.
        * intros N. apply Rbar_lt_iff. intro L. apply N. apply real_between; [exact L|exact S].
  Qed.
End Boxes.
