(** Proofs about unions of intervals. *)
From Coq Require Import Reals List Lra Lia Bool Arith Permutation Sorted.
From Coquelicot Require Import Rbar.
From Verif Require Import Logical_Model Box_Model Box_Spec Box_Proofs.
Import ListNotations.
Local Open Scope R_scope.

Section Unions.
  Context {E : Type} (o : num_ops E) (good : E -> Prop) (v : E -> Rbar) (K : num_ok o good v).
  Notation PS := (pair_set v).
  Notation pgood := (pair_good good).

  Lemma lt_false : forall a b, good a -> good b -> n_lt o a b = false -> Rbar_le (v b) (v a).
  Proof using K. intros a b A B H. apply Rbar_le_iff. intro X. apply (ok_lt _ _ _ K) in X; auto. congruence. Qed.
  Lemma le_false : forall a b, good a -> good b -> n_le o a b = false -> Rbar_lt (v b) (v a).
  Proof using K. intros a b A B H. apply Rbar_lt_iff. intro X. apply (ok_le _ _ _ K) in X; auto. congruence. Qed.
  Lemma lt_true : forall a b, good a -> good b -> n_lt o a b = true -> Rbar_lt (v a) (v b).
  Proof using K. intros. apply (ok_lt _ _ _ K); auto. Qed.
  Lemma le_true : forall a b, good a -> good b -> n_le o a b = true -> Rbar_le (v a) (v b).
  Proof using K. intros. apply (ok_le _ _ _ K); auto. Qed.

  Lemma in_union_cons : forall i s r, in_union v (i :: s) r <-> in_set (PS i) r \/ in_union v s r.
  Proof using. intros i s r. unfold in_union. split.
    - intros [j [[<-|H] X]]; [left; exact X|right; exists j; auto].
    - intros [H|[j [H X]]]; [exists i; split; [left; reflexivity|exact H]|exists j; split; [right; exact H|exact X]]. Qed.
  Lemma in_union_app : forall s t r, in_union v (s ++ t) r <-> in_union v s r \/ in_union v t r.
  Proof using. induction s as [|i s IH]; intros t r; cbn [app].
    - split; [auto|]. intros [[i [[] _]]|H]; exact H.
    - rewrite !in_union_cons, IH. tauto. Qed.
  Lemma in_union_perm : forall s t r, Permutation s t -> in_union v s r -> in_union v t r.
  Proof using. intros s t r P [i [H X]]. exists i. split; [eapply Permutation_in; eassumption|exact X]. Qed.

  (** ** Sorting *)
  Definition lower_le (i j : ival E) : Prop := Rbar_le (v (fst i)) (v (fst j)).
  Lemma insert_perm : forall i s, Permutation (i :: s) (sort_insert o i s).
  Proof using. intros i s. induction s as [|j s IH]; cbn; [reflexivity|]. destruct (lu_less o j i); [|reflexivity].
    eapply perm_trans; [apply perm_swap|]. constructor. exact IH. Qed.
  Lemma sort_perm : forall s, Permutation s (un_sort o s).
  Proof using. induction s as [|i s IH]; cbn; [reflexivity|]. eapply perm_trans; [constructor; exact IH|]. apply insert_perm. Qed.
  Lemma insert_sorted : forall i s, pgood i -> Forall pgood s -> StronglySorted lower_le s -> StronglySorted lower_le (sort_insert o i s).
  Proof using K.
    intros i s Gi. induction s as [|j s IH]; intros F S; cbn; [repeat constructor|].
    inversion F as [|? ? Gj F']; subst. inversion S as [|? ? S' Fj]; subst.
    destruct (lu_less o j i) eqn:L.
    - constructor; [apply IH; assumption|].
      assert (lower_le j i).
      { unfold lu_less in L. apply orb_true_iff in L. destruct L as [L|L].
        - apply Rbar_lt_le, lt_true; [apply Gj|apply Gi|exact L].
        - apply andb_true_iff in L. destruct L as [L _]. apply (ok_eq _ _ _ K) in L; [|apply Gj|apply Gi]. unfold lower_le. rewrite L. apply Rbar_le_refl. }
      eapply Permutation_Forall; [apply insert_perm|]. constructor; assumption.
    - assert (lower_le i j).
      { unfold lu_less in L. apply orb_false_iff in L. destruct L as [L _]. apply lt_false; [apply Gj|apply Gi|exact L]. }
      constructor; [exact S|]. constructor; [exact H|]. eapply Forall_impl; [|exact Fj]. intros k Hk. eapply Rbar_le_trans; eassumption.
  Qed.
  Lemma sort_good : forall s, Forall pgood s -> Forall pgood (un_sort o s).
  Proof using. intros s. apply Permutation_Forall, sort_perm. Qed.
  Lemma sort_sorted : forall s, Forall pgood s -> StronglySorted lower_le (un_sort o s).
  Proof using K. induction s as [|i s IH]; intros F; cbn; [constructor|]. inversion F; subst.
    apply insert_sorted; [assumption|apply sort_good; assumption|apply IH; assumption]. Qed.

  (** ** Combining *)
  Lemma combine_head : forall n c, exists u t, combine_loop o c n = (fst c, u) :: t.
  Proof using. induction n as [|j n IH]; intros c; cbn.
    - destruct c. eexists _, _. reflexivity.
    - destruct (n_le o (fst j) (snd c)); [apply (IH (fst c, n_max o (snd c) (snd j)))|]. destruct c. eexists _, _. reflexivity. Qed.
  Lemma combine_spec : forall n c, pgood c -> Forall pgood n -> StronglySorted lower_le (c :: n) ->
    Forall pgood (combine_loop o c n) /\
    (forall r, in_union v (combine_loop o c n) r <-> in_set (PS c) r \/ in_union v n r) /\
    (nonempty (PS c) -> Forall (fun i => nonempty (PS i)) n -> normal v (combine_loop o c n)).
  Proof using K.
    induction n as [|j n IH]; intros c Gc F S; cbn [combine_loop].
    - split; [auto|]. split; [intros r; apply in_union_cons|]. intros H _. cbn [normal]. auto.
    - inversion F as [|? ? Gj Fn]; subst. inversion S as [|? ? S' Fc]; subst. inversion Fc as [|? ? Lcj Fc']; subst.
      inversion S' as [|? ? S'' Fj]; subst.
      destruct (n_le o (fst j) (snd c)) eqn:L.
      + apply le_true in L; [|apply Gj|apply Gc]. set (c' := (fst c, n_max o (snd c) (snd j))).
        destruct (ok_max _ _ _ K (snd c) (snd j) (proj2 Gc) (proj2 Gj)) as [Gm [Mx [M1 M2]]].
        assert (Gc' : pgood c') by (split; [apply Gc|exact Gm]).
        assert (S1 : StronglySorted lower_le (c' :: n)) by (constructor; [exact S''|exact Fc']).
        destruct (IH c' Gc' Fn S1) as [A [B C]].
        assert (U : forall r, in_set (PS c') r <-> in_set (PS c) r \/ in_set (PS j) r).
        { intros r. unfold in_set, pair_set, c'. cbn [fst snd]. split.
          - intros [P Q]. destruct (Rbar_dec (Finite r) (v (snd c))) as [X|X]; [left; auto|right].
            assert (Rbar_le (v (fst j)) (Finite r)) by (eapply Rbar_le_trans; [exact L|apply Rbar_lt_le; exact X]).
            split; [assumption|]. destruct Mx as [M|M]; rewrite M in Q; [|exact Q]. apply Rbar_le_not_lt in Q. contradiction.
          - intros [[P Q]|[P Q]]; split; try assumption; try exact (Rbar_le_trans _ _ _ Q M1); try exact (Rbar_le_trans _ _ _ Q M2).
            eapply Rbar_le_trans; [exact Lcj|exact P]. }
        split; [exact A|]. split.
        * intros r. rewrite B, in_union_cons, U. tauto.
        * intros [r Hr] N. inversion N; subst. apply C; [|assumption]. exists r. apply U. left. exact Hr.
      + apply le_false in L; [|apply Gj|apply Gc]. destruct (IH j Gj Fn S') as [A [B C]].
        split; [constructor; assumption|]. split.
        * intros r. rewrite !in_union_cons, B. tauto.
        * intros Nc N. inversion N; subst. cbn [normal]. split; [exact Nc|]. split; [apply C; assumption|].
          destruct (combine_head n j) as [u [t ->]]. exact L.
  Qed.
  Lemma make_spec : forall s, Forall pgood s ->
    Forall pgood (un_make o s) /\ (forall r, in_union v (un_make o s) r <-> in_union v s r) /\
    (Forall (fun i => nonempty (PS i)) s -> normal v (un_make o s)).
  Proof using K.
    intros s F. unfold un_make. pose proof (sort_good s F) as G. pose proof (sort_sorted s F) as S. pose proof (sort_perm s) as P.
    assert (Q : forall r, in_union v (un_sort o s) r <-> in_union v s r).
    { intros r. split; apply in_union_perm; [apply Permutation_sym|]; exact P. }
    destruct (un_sort o s) as [|c n]; cbn [un_combine].
    - repeat split; auto; intros H; apply Q; exact H.
    - inversion G; subst. destruct (combine_spec n c) as [A [B C]]; auto. split; [exact A|]. split.
      + intros r. rewrite B, <- in_union_cons. apply Q.
      + intros N. assert (NF : Forall (fun i => nonempty (PS i)) (c :: n)) by (eapply Permutation_Forall; eassumption).
        inversion NF; subst. apply C; assumption.
  Qed.

  (** ** Normal unions *)
  Lemma normal_inv : forall i s, normal v (i :: s) -> nonempty (PS i) /\ normal v s /\
    (forall j, In j s -> Rbar_lt (v (snd i)) (v (fst j))).
  Proof using.
    intros i s. revert i. induction s as [|k s IH]; intros i H; cbn [normal] in H.
    - repeat split; try tauto. intros j [].
    - destruct H as [A [B C]]. split; [exact A|]. split; [exact B|]. intros j [<-|H]; [exact C|].
      destruct (IH k B) as [N [_ D]]. eapply Rbar_lt_trans; [exact C|]. eapply Rbar_le_lt_trans; [apply (nonempty_le _ N)|]. apply D. exact H.
  Qed.
  Lemma normal_nonempty : forall s i, normal v s -> In i s -> nonempty (PS i).
  Proof using. induction s as [|k s IH]; intros i H X; [destruct X|]. apply normal_inv in H.
    destruct X as [<-|X]; [apply H|apply IH; [apply H|exact X]]. Qed.

  Lemma real_below : forall s x, nonempty s -> Rbar_lt (fst s) x -> exists r, in_set s r /\ Rbar_lt (Finite r) x.
  Proof using.
    intros [a b] x N L. destruct (proj1 (nonempty_iff _) N) as [Na [Nb Le]]. cbn [fst snd] in *.
    destruct a as [a| |]; [exists a|congruence|].
    - split; [split; [apply Rbar_le_refl|exact Le]|exact L].
    - destruct N as [r0 [_ R0]]. cbn [fst snd] in R0. destruct (Rbar_dec (Finite r0) x) as [H|H].
      + destruct (real_between_strict m_infty (Finite r0) I) as [r [_ R1]]. exists r. split; [split; [exact I|]|].
        * cbn [snd]. eapply Rbar_le_trans; [apply Rbar_lt_le; exact R1|exact R0].
        * eapply Rbar_lt_le_trans; eassumption.
      + destruct (real_between_strict m_infty x L) as [r [_ R1]]. exists r. split; [split; [exact I|]|exact R1].
        cbn [snd]. eapply Rbar_le_trans; [apply Rbar_lt_le; exact R1|]. eapply Rbar_le_trans; [apply Rbar_lt_le; exact H|exact R0].
  Qed.
  (** A point of an interval, above [x], and below the [y] which lies above [x]. *)
  Lemma real_above : forall s x y, nonempty s -> Rbar_lt x (snd s) -> Rbar_le (fst s) x -> Rbar_lt x y ->
    exists r, in_set s r /\ Rbar_lt x (Finite r) /\ Rbar_lt (Finite r) y.
  Proof using.
    intros [a b] x y N L La Ly. cbn [fst snd] in *.
    destruct (Rbar_dec b y) as [H|H].
    - destruct (real_between_strict x b L) as [r [R1 R2]]. exists r. repeat split; cbn [fst snd]; auto.
      + eapply Rbar_le_trans; [exact La|apply Rbar_lt_le; exact R1].
      + apply Rbar_lt_le; exact R2.
      + eapply Rbar_lt_le_trans; eassumption.
    - destruct (real_between_strict x y Ly) as [r [R1 R2]]. exists r. repeat split; cbn [fst snd]; auto.
      + eapply Rbar_le_trans; [exact La|apply Rbar_lt_le; exact R1].
      + apply Rbar_lt_le. eapply Rbar_lt_trans; eassumption.
  Qed.
  Lemma not_in_later : forall s r x, (forall j, In j s -> Rbar_le x (v (fst j))) -> Rbar_lt (Finite r) x -> ~ in_union v s r.
  Proof using. intros s r x H L [j [J [P _]]]. pose proof (H j J) as Q. pose proof (Rbar_le_trans _ _ _ Q P) as X.
    apply Rbar_le_not_lt in X. contradiction. Qed.
  Lemma in_tail : forall i s r, normal v (i :: s) -> in_union v s r -> Rbar_lt (v (snd i)) (Finite r).
  Proof using. intros i s r N [j [J [P _]]]. apply normal_inv in N. destruct N as [_ [_ N]]. eapply Rbar_lt_le_trans; [apply N; exact J|exact P]. Qed.

  (** There is room above an upper end before the next interval. *)
  Lemma next_start : forall i s, normal v (i :: s) -> exists y, (Rbar_lt (v (snd i)) y \/ v (snd i) = p_infty) /\ forall j, In j s -> Rbar_le y (v (fst j)).
  Proof using.
    intros i [|k s] N.
    - exists p_infty. split; [|intros j []]. destruct (v (snd i)); cbn; auto.
    - apply normal_inv in N. destruct N as [_ [N1 N]]. exists (v (fst k)). split; [left; apply N; left; reflexivity|].
      intros j [<-|H]; [apply Rbar_le_refl|]. apply normal_inv in N1. destruct N1 as [Nk [_ N1]].
      apply Rbar_lt_le. eapply Rbar_le_lt_trans; [apply (nonempty_le _ Nk)|]. apply N1. exact H.
  Qed.

  Lemma normal_fst_le : forall i s a t, normal v (i :: s) -> normal v (a :: t) ->
    (forall r, in_union v (a :: t) r -> in_union v (i :: s) r) -> Rbar_le (v (fst i)) (v (fst a)).
  Proof using.
    intros i s a t N M H. apply Rbar_le_iff. intro X.
    destruct (normal_inv _ _ M) as [Na _]. destruct (real_below _ _ Na X) as [r [R1 R2]].
    assert (in_union v (i :: s) r) as [j [J [P _]]] by (apply H; apply in_union_cons; left; exact R1).
    cbn [pair_set fst] in P. assert (Rbar_le (v (fst i)) (v (fst j))).
    { destruct J as [<-|J]; [apply Rbar_le_refl|]. destruct (normal_inv _ _ N) as [Ni [_ N']].
      apply Rbar_lt_le. eapply Rbar_le_lt_trans; [apply (nonempty_le _ Ni)|]. apply N'. exact J. }
    pose proof (Rbar_le_trans _ _ _ H0 P) as Z. apply Rbar_le_not_lt in Z. contradiction.
  Qed.
  Lemma normal_snd_le : forall i s a t, normal v (i :: s) -> normal v (a :: t) -> v (fst i) = v (fst a) ->
    (forall r, in_union v (i :: s) r -> in_union v (a :: t) r) -> Rbar_le (v (snd i)) (v (snd a)).
  Proof using.
    intros i s a t N M F H. apply Rbar_le_iff. intro X.
    destruct (normal_inv _ _ N) as [Ni _]. destruct (normal_inv _ _ M) as [Na _].
    destruct (next_start a t M) as [y [[Y|Y] Z]]; [|rewrite Y in X; exact X].
    destruct (real_above (PS i) (v (snd a)) y Ni X) as [r [R1 [R2 R3]]].
    - cbn [pair_set fst]. rewrite F. apply (nonempty_le _ Na).
    - exact Y.
    - assert (in_union v (a :: t) r) as Q by (apply H; apply in_union_cons; left; exact R1).
      apply in_union_cons in Q. destruct Q as [[_ Q]|Q].
      + cbn [pair_set snd] in Q. apply Rbar_le_not_lt in Q. contradiction.
      + revert Q. apply (not_in_later t r y Z R3).
  Qed.
  (** A set has only one normal representation. *)
  Theorem normal_unique : forall s t, normal v s -> normal v t -> (forall r, in_union v s r <-> in_union v t r) ->
    map PS s = map PS t.
  Proof using.
    induction s as [|i s IH]; intros [|a t] N M H.
    - reflexivity.
    - exfalso. destruct (normal_inv _ _ M) as [[r R] _]. assert (in_union v [] r) as [j [[] _]] by (apply H; apply in_union_cons; left; exact R).
    - exfalso. destruct (normal_inv _ _ N) as [[r R] _]. assert (in_union v [] r) as [j [[] _]] by (apply H; apply in_union_cons; left; exact R).
    - assert (F : v (fst i) = v (fst a)).
      { apply Rbar_le_antisym; [apply (normal_fst_le i s a t)|apply (normal_fst_le a t i s)]; auto; intros; apply H; assumption. }
      assert (G : v (snd i) = v (snd a)).
      { apply Rbar_le_antisym; [apply (normal_snd_le i s a t)|apply (normal_snd_le a t i s)]; auto; intros; apply H; assumption. }
      cbn [map]. f_equal; [unfold pair_set; rewrite F, G; reflexivity|].
      apply IH; [apply (normal_inv _ _ N)|apply (normal_inv _ _ M)|]. intros r. split; intros Q.
      + pose proof (in_tail _ _ _ N Q) as X. assert (in_union v (a :: t) r) as Y by (apply H; apply in_union_cons; right; exact Q).
        apply in_union_cons in Y. destruct Y as [[_ Y]|Y]; [|exact Y]. cbn [pair_set snd] in Y. rewrite <- G in Y. apply Rbar_le_not_lt in Y. contradiction.
      + pose proof (in_tail _ _ _ M Q) as X. assert (in_union v (i :: s) r) as Y by (apply H; apply in_union_cons; right; exact Q).
        apply in_union_cons in Y. destruct Y as [[_ Y]|Y]; [|exact Y]. cbn [pair_set snd] in Y. rewrite G in Y. apply Rbar_le_not_lt in Y. contradiction.
  Qed.

  (** ** Tests *)
  Lemma later_le : forall i s j, normal v (i :: s) -> In j (i :: s) -> Rbar_le (v (fst i)) (v (fst j)).
  Proof using. intros i s j N [<-|J]; [apply Rbar_le_refl|]. destruct (normal_inv _ _ N) as [Ni [_ N']].
    apply Rbar_lt_le. eapply Rbar_le_lt_trans; [apply (nonempty_le _ Ni)|]. apply N'. exact J. Qed.

  Lemma intersect_spec : forall fuel a b, (length a + length b < fuel)%nat -> Forall pgood a -> Forall pgood b -> normal v a -> normal v b ->
    exists r, intersect_loop o fuel a b = Some r /\ (r = true <-> exists i j, In i a /\ In j b /\ P_over (PS i) (PS j)).
  Proof using K.
    induction fuel as [|fuel IH]; intros a b L Ga Gb Na Nb; [lia|]. cbn [intersect_loop].
    destruct a as [|i a].
    { exists false. split; [reflexivity|]. split; [discriminate|]. intros [i [j [[] _]]]. }
    destruct b as [|j b].
    { exists false. split; [reflexivity|]. split; [discriminate|]. intros [i' [j [_ [[] _]]]]. }
    inversion Ga as [|? ? Gi Ga']; subst. inversion Gb as [|? ? Gj Gb']; subst. cbn [length] in L.
    destruct (n_le o (snd j) (fst i)) eqn:C1.
    - apply le_true in C1; [|apply Gj|apply Gi].
      destruct (IH (i :: a) b) as [r [R1 R2]]; auto; [cbn [length]; lia|apply (normal_inv _ _ Nb)|].
      exists r. split; [exact R1|]. rewrite R2. split.
      + intros [i' [j' [A [B C]]]]. exists i', j'. repeat split; auto; [right; exact B| |]; apply C.
      + intros [i' [j' [A [B C]]]]. destruct B as [<-|B]; [|exists i', j'; auto].
        exfalso. destruct C as [C _]. cbn [pair_set fst snd] in C.
        pose proof (later_le _ _ _ Na A) as X. apply Rbar_lt_not_le in C. apply C. eapply Rbar_le_trans; eassumption.
    - apply le_false in C1; [|apply Gj|apply Gi].
      destruct (n_le o (snd i) (fst j)) eqn:C2.
      + apply le_true in C2; [|apply Gi|apply Gj].
        destruct (IH a (j :: b)) as [r [R1 R2]]; auto; [cbn [length]; lia|apply (normal_inv _ _ Na)|].
        exists r. split; [exact R1|]. rewrite R2. split.
        * intros [i' [j' [A [B C]]]]. exists i', j'. repeat split; auto; [right; exact A| |]; apply C.
        * intros [i' [j' [A [B C]]]]. destruct A as [<-|A]; [|exists i', j'; auto].
          exfalso. destruct C as [_ C]. cbn [pair_set fst snd] in C.
          pose proof (later_le _ _ _ Nb B) as X. apply Rbar_lt_not_le in C. apply C. eapply Rbar_le_trans; eassumption.
      + apply le_false in C2; [|apply Gi|apply Gj]. exists true. split; [reflexivity|]. split; [|reflexivity].
        intros _. exists i, j. repeat split; try (left; reflexivity); assumption.
  Qed.

  Definition full (i : ival E) : Prop := Rbar_lt (v (fst i)) (v (snd i)).
  Lemma full_point : forall s, Rbar_lt (fst s) (snd s) -> exists r, Rbar_lt (fst s) (Finite r) /\ Rbar_lt (Finite r) (snd s).
  Proof using. intros s H. apply real_between_strict. exact H. Qed.

  Lemma subset_sound : forall fuel a b, Forall pgood a -> Forall pgood b ->
    subset_loop o fuel a b = Some true -> forall r, in_union v a r -> in_union v b r.
  Proof using K.
    induction fuel as [|fuel IH]; intros a b Ga Gb H r Hr; [discriminate H|]. cbn [subset_loop] in H.
    destruct a as [|i a]; [destruct Hr as [? [[] _]]|]. destruct b as [|j b]; [discriminate H|].
    inversion Ga as [|? ? Gi Ga']; subst. inversion Gb as [|? ? Gj Gb']; subst.
    destruct (n_le o (snd j) (fst i)) eqn:C1.
    - apply in_union_cons. right. eapply IH; [exact Ga|exact Gb'|exact H|exact Hr].
    - destruct (n_le o (fst j) (fst i) && n_le o (snd i) (snd j)) eqn:C2; [|discriminate H].
      apply andb_true_iff in C2. destruct C2 as [C2 C3]. apply le_true in C2; [|apply Gj|apply Gi]. apply le_true in C3; [|apply Gi|apply Gj].
      apply in_union_cons in Hr. destruct Hr as [Hr|Hr].
      + apply in_union_cons. left. revert r Hr. apply (P_sub_incl (PS i) (PS j)). split; assumption.
      + eapply IH; [exact Ga'|exact Gb|exact H|exact Hr].
  Qed.
  Lemma subset_complete : forall fuel a b, (length a + length b < fuel)%nat -> Forall pgood a -> Forall pgood b ->
    normal v a -> Forall full a -> normal v b -> (forall r, in_union v a r -> in_union v b r) -> subset_loop o fuel a b = Some true.
  Proof using K.
    induction fuel as [|fuel IH]; intros a b L Ga Gb Na Fa Nb H; [lia|]. cbn [subset_loop].
    destruct a as [|i a]; [destruct b; reflexivity|]. destruct b as [|j b].
    { exfalso. destruct (normal_inv _ _ Na) as [[r R] _]. assert (in_union v [] r) as [k [[] _]] by (apply H; apply in_union_cons; left; exact R). }
    inversion Ga as [|? ? Gi Ga']; subst. inversion Gb as [|? ? Gj Gb']; subst. inversion Fa as [|? ? Fi Fa']; subst. cbn [length] in L.
    destruct (normal_inv _ _ Na) as [Ni [Na' Na'']]. destruct (normal_inv _ _ Nb) as [Nj [Nb' Nb'']].
    destruct (n_le o (snd j) (fst i)) eqn:C1.
    - apply le_true in C1; [|apply Gj|apply Gi].
      apply IH; auto; [cbn [length]; lia|]. intros r Hr.
      pose proof (H r Hr) as Q. apply in_union_cons in Q. destruct Q as [Q|Q]; [|exact Q]. exfalso.
      (* r is the lower end of i, and the points above it are not in j *)
      assert (Z : forall q, in_set (PS i) q -> Rbar_lt (v (fst i)) (Finite q) -> in_union v b q).
      { intros q Q1 Q2. assert (in_union v (j :: b) q) as W by (apply H; apply in_union_cons; left; exact Q1).
        apply in_union_cons in W. destruct W as [[_ W]|W]; [|exact W]. cbn [pair_set snd] in W.
        exfalso. pose proof (Rbar_le_trans _ _ _ W C1) as X. apply Rbar_le_not_lt in X. contradiction. }
      assert (Er : v (fst i) = Finite r /\ v (snd j) = Finite r).
      { destruct Q as [_ Q2]. cbn [pair_set snd] in Q2. destruct Hr as [k [Kk [P _]]]. cbn [pair_set fst] in P.
        pose proof (later_le _ _ _ Na Kk) as X. pose proof (Rbar_le_trans _ _ _ X P) as Y. pose proof (Rbar_le_trans _ _ _ Q2 C1) as W.
        assert (v (fst i) = Finite r) by (apply Rbar_le_antisym; assumption). split; [assumption|].
        apply Rbar_le_antisym; [rewrite <- H0; exact C1|exact Q2]. }
      destruct Er as [Er Ej].
      destruct (next_start j b Nb) as [y [[Y|Y] Hy]]; [|congruence].
      destruct (real_above (PS i) (v (fst i)) y Ni Fi (Rbar_le_refl _)) as [q [Q1 [Q2 Q3]]].
      { rewrite Er, <- Ej. exact Y. }
      specialize (Z q Q1 Q2). revert Z. apply (not_in_later b q y Hy Q3).
    - apply le_false in C1; [|apply Gj|apply Gi].
      (* the lower end of i lies in j *)
      assert (C2 : Rbar_le (v (fst j)) (v (fst i))).
      { apply Rbar_le_iff. intro X. destruct (real_below _ _ Ni X) as [q [Q1 Q2]].
        assert (in_union v (j :: b) q) as W by (apply H; apply in_union_cons; left; exact Q1).
        revert W. apply (not_in_later (j :: b) q (v (fst j))); [|exact Q2]. intros k Kk. apply (later_le j b); assumption. }
      assert (C3 : Rbar_le (v (snd i)) (v (snd j))).
      { apply Rbar_le_iff. intro X.
        destruct (next_start j b Nb) as [y [[Y|Y] Hy]]; [|rewrite Y in X; exact X].
        destruct (real_above (PS i) (v (snd j)) y Ni X) as [q [Q1 [Q2 Q3]]]; [apply Rbar_lt_le; exact C1|exact Y|].
        assert (in_union v (j :: b) q) as W by (apply H; apply in_union_cons; left; exact Q1).
        apply in_union_cons in W. destruct W as [[_ W]|W].
        - cbn [pair_set snd] in W. apply Rbar_le_not_lt in W. contradiction.
        - revert W. apply (not_in_later b q y Hy Q3). }
      rewrite (proj2 (ok_le _ _ _ K _ _ (proj1 Gj) (proj1 Gi)) C2), (proj2 (ok_le _ _ _ K _ _ (proj2 Gi) (proj2 Gj)) C3).
      cbn [andb]. apply IH; auto; [cbn [length]; lia|]. intros r Hr. apply H. apply in_union_cons. right. exact Hr.
  Qed.
  Lemma subset_total : forall fuel a b, (length a + length b < fuel)%nat -> exists r, subset_loop o fuel a b = Some r.
  Proof using.
    induction fuel as [|fuel IH]; intros a b L; [lia|]. cbn [subset_loop]. destruct a as [|i a]; [eexists; reflexivity|].
    destruct b as [|j b]; [eexists; reflexivity|]. cbn [length] in L.
    destruct (n_le o (snd j) (fst i)); [apply IH; cbn [length]; lia|].
    destruct (_ && _); [apply IH; cbn [length]; lia|eexists; reflexivity]. Qed.

  (** ** Intersection *)
  Lemma intersection_total : forall fuel a b, (length a + length b < fuel)%nat -> Forall pgood a -> Forall pgood b ->
    exists s, intersection_loop o fuel a b = Some s /\ Forall pgood s /\ (forall r, in_union v s r -> in_union v a r /\ in_union v b r).
  Proof using K.
    induction fuel as [|fuel IH]; intros a b L Ga Gb; [lia|]. cbn [intersection_loop].
    destruct a as [|i a]; [exists []; repeat split; auto; destruct H as [? [[] _]]|].
    destruct b as [|j b]; [exists []; repeat split; auto; destruct H as [? [[] _]]|].
    inversion Ga as [|? ? Gi Ga']; subst. inversion Gb as [|? ? Gj Gb']; subst. cbn [length] in L.
    assert (ST1 : exists s, intersection_loop o fuel a (j :: b) = Some s /\ Forall pgood s /\ (forall r, in_union v s r -> in_union v (i :: a) r /\ in_union v (j :: b) r)).
    { destruct (IH a (j :: b)) as [s [A [B C]]]; auto; [cbn [length]; lia|]. exists s. repeat split; auto; apply C in H; [apply in_union_cons; right|]; apply H. }
    assert (ST2 : exists s, intersection_loop o fuel (i :: a) b = Some s /\ Forall pgood s /\ (forall r, in_union v s r -> in_union v (i :: a) r /\ in_union v (j :: b) r)).
    { destruct (IH (i :: a) b) as [s [A [B C]]]; auto; [cbn [length]; lia|]. exists s. repeat split; auto; apply C in H; [|apply in_union_cons; right]; apply H. }
    destruct (n_le o (snd j) (fst i)); [exact ST1|].
    destruct (n_le o (snd i) (fst j)); [exact ST2|].
    assert (G : forall x, (exists s, x = Some s /\ Forall pgood s /\ (forall r, in_union v s r -> in_union v (i :: a) r /\ in_union v (j :: b) r)) ->
      exists s, option_map (cons (n_max o (fst i) (fst j), n_min o (snd i) (snd j))) x = Some s /\ Forall pgood s /\
        (forall r, in_union v s r -> in_union v (i :: a) r /\ in_union v (j :: b) r)).
    { intros x [s [-> [B C]]]. cbn [option_map]. eexists. split; [reflexivity|].
      destruct (ok_max _ _ _ K _ _ (proj1 Gi) (proj1 Gj)) as [Gm [_ [M1 M2]]].
      destruct (ok_min _ _ _ K _ _ (proj2 Gi) (proj2 Gj)) as [Gn [_ [N1 N2]]].
      split; [constructor; [split; assumption|exact B]|]. intros r Hr. apply in_union_cons in Hr. destruct Hr as [[P Q]|Hr]; [|apply C; exact Hr].
      cbn [pair_set fst snd] in P, Q. split; apply in_union_cons; left; split; cbn [pair_set fst snd].
      - exact (Rbar_le_trans _ _ _ M1 P). - exact (Rbar_le_trans _ _ _ Q N1).
      - exact (Rbar_le_trans _ _ _ M2 P). - exact (Rbar_le_trans _ _ _ Q N2). }
    destruct (n_lt o (snd i) (snd j)); apply G; assumption.
  Qed.

  (** ** Bounding box *)
  Lemma last_in : forall (a : union E) d, a <> [] -> In (last a d) a.
  Proof using. induction a as [|i a IH]; intros d H; [congruence|]. destruct a as [|j a]; [left; reflexivity|]. right. apply IH. discriminate. Qed.
  Lemma last_max : forall (a : union E) d j, normal v a -> In j a -> Rbar_le (v (snd j)) (v (snd (last a d))).
  Proof using.
    induction a as [|i a IH]; intros d j N J; [destruct J|]. destruct a as [|k a].
    - destruct J as [<-|[]]. apply Rbar_le_refl.
    - change (last (i :: k :: a) d) with (last (k :: a) d). destruct (normal_inv _ _ N) as [Ni [N' L]].
      destruct J as [<-|J]; [|apply IH; assumption].
      eapply Rbar_le_trans; [|apply (IH d k N'); left; reflexivity].
      apply Rbar_lt_le. eapply Rbar_lt_le_trans; [apply L; left; reflexivity|]. apply (nonempty_le _ (normal_nonempty _ k N' (or_introl eq_refl))).
  Qed.
End Unions.
