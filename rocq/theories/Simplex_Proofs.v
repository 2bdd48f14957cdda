(** Proofs about the feasibility tests of the simplex solver. *)
From Coq Require Import Reals List Arith Bool Lra Lia Permutation.
From Coquelicot Require Import Rbar.
From Verif Require Import Logical_Model Solver_Model Solver_Spec Solver_LU_Proofs Simplex_Model Simplex_Spec.
Import ListNotations.
Local Open Scope R_scope.

(** ** Lists of indices *)
Lemma filter_length_split : forall {T} (f : T -> bool) l, (length (filter f l) + length (filter (fun x => negb (f x)) l) = length l)%nat.
Proof. intros T f l. induction l as [|a l IH]; cbn; [reflexivity|]. destruct (f a); cbn; lia. Qed.
Lemma all_indices_perm : forall n p, all_indices n p -> Permutation p (seq 0 n).
Proof.
  intros n p [H1 [H2 H3]]. apply NoDup_Permutation; [exact H2|apply seq_NoDup|]. intros x. rewrite H3, in_seq. lia.
Qed.
Lemma compute_p_all : forall n vt, all_indices n (compute_p n vt).
Proof.
  intros n vt. unfold compute_p. split; [|split].
  - rewrite app_length, filter_length_split. apply seq_length.
  - assert (ND : forall l : list nat, NoDup l -> NoDup (filter (fun j => slack_eqb (vt j) BASIS) l ++ filter (fun j => negb (slack_eqb (vt j) BASIS)) l)).
    { induction l as [|a l IH]; intros H; [constructor|]. inversion H; subst. specialize (IH H3). cbn. destruct (slack_eqb (vt a) BASIS); cbn.
      - constructor; [|exact IH]. rewrite in_app_iff, !filter_In. tauto.
      - apply NoDup_Add with (a := a) (l := filter (fun j => slack_eqb (vt j) BASIS) l ++ filter (fun j => negb (slack_eqb (vt j) BASIS)) l); [apply Add_app|].
        split; [exact IH|]. rewrite in_app_iff, !filter_In. tauto. }
    apply ND. apply seq_NoDup.
  - intros j. rewrite in_app_iff, !filter_In, in_seq. destruct (slack_eqb (vt j) BASIS); cbn; intuition lia.
Qed.
Lemma count_filter : forall n f, length (filter f (seq 0 n)) = count n f.
Proof.
  induction n as [|n IH]; intros f; [reflexivity|]. rewrite seq_S, filter_app, app_length, IH. cbn [count plus]. cbn. destruct (f n); cbn; lia.
Qed.
Lemma compute_p_split : forall m n vt, count n (fun j => slack_eqb (vt j) BASIS) = m ->
  firstn m (compute_p n vt) = filter (fun j => slack_eqb (vt j) BASIS) (seq 0 n) /\
  skipn m (compute_p n vt) = filter (fun j => negb (slack_eqb (vt j) BASIS)) (seq 0 n).
Proof.
  intros m n vt H. rewrite <- count_filter in H. unfold compute_p. rewrite <- H. split.
  - rewrite firstn_app, Nat.sub_diag, firstn_all. cbn. apply app_nil_r.
  - rewrite skipn_app, Nat.sub_diag, skipn_all. reflexivity.
Qed.

(** ** Extension of an array of indices *)
Lemma mark_spec : forall n p k q q', (forall j, (j < n)%nat -> (q j < k)%nat \/ q j = n) -> (k + length p <= n)%nat -> mark n p k q = Some q' ->
  NoDup p /\ (forall j, In j p -> (j < n)%nat /\ q j = n) /\ (forall j, ~ In j p -> q' j = q j) /\ (forall i, (i < length p)%nat -> q' (nth i p O) = (k + i)%nat).
Proof.
  intros n p. induction p as [|j p IH]; intros k q q' Hq Hk H; cbn [mark] in H.
  - injection H as <-. split; [constructor|]. split; [intros j []|]. split; [reflexivity|]. cbn. intros i Hi. lia.
  - destruct (Nat.ltb j n) eqn:E1; cbn [andb] in H; [|discriminate]. destruct (Nat.eqb (q j) n) eqn:E2; [|discriminate].
    apply Nat.ltb_lt in E1. apply Nat.eqb_eq in E2. cbn [length] in Hk.
    destruct (IH (S k) (fun i => if Nat.eqb i j then k else q i) q' ltac:(intros i Hi; cbn beta; destruct (Nat.eqb_spec i j); [left; lia|destruct (Hq i Hi); [left; lia|right; assumption]]) ltac:(lia) H) as [N [I1 [I2 I3]]].
    assert (Nj : ~ In j p). { intros Q. destruct (I1 j Q) as [_ Q2]. rewrite Nat.eqb_refl in Q2. lia. }
    repeat split.
    + constructor; assumption.
    + destruct H0 as [<-|Q]; [exact E1|]. apply (I1 j0 Q).
    + destruct H0 as [<-|Q]; [exact E2|]. destruct (I1 j0 Q) as [_ Q2]. destruct (Nat.eqb_spec j0 j); [subst; contradiction|exact Q2].
    + intros i Hi. rewrite (I2 i) by (intros Q; apply Hi; right; exact Q). destruct (Nat.eqb_spec i j); [subst; exfalso; apply Hi; left; reflexivity|reflexivity].
    + intros i Hi. destruct i as [|i]; cbn [nth].
      * rewrite (I2 j Nj), Nat.eqb_refl. lia.
      * rewrite I3 by (cbn in Hi; lia). lia.
Qed.
Lemma mark_some : forall n p k q, NoDup p -> (forall j, In j p -> (j < n)%nat /\ q j = n) -> exists q', mark n p k q = Some q'.
Proof.
  intros n p. induction p as [|j p IH]; intros k q N H; cbn [mark]; [eexists; reflexivity|].
  destruct (H j (or_introl eq_refl)) as [H1 H2]. apply Nat.ltb_lt in H1. apply Nat.eqb_eq in H2. rewrite H1, H2. cbn [andb]. inversion N; subst. apply IH; [assumption|].
  intros i Hi. destruct (H i (or_intror Hi)) as [A B]. split; [exact A|]. destruct (Nat.eqb_spec i j); [subst; contradiction|exact B].
Qed.
(** Filling: the marked entries are kept, the others get successive numbers. *)
Definition free (n : nat) (q : nat -> nat) (c j : nat) : nat := length (filter (fun i => Nat.eqb (q i) n) (seq j c)).
Lemma fill_spec : forall n c j k q, (k + free n q c j <= n)%nat ->
  let q' := fill n c j k q in
  (forall i, ~ (j <= i < j + c)%nat -> q' i = q i) /\ (forall i, q i <> n -> q' i = q i) /\
  (forall i, (j <= i < j + c)%nat -> q i = n -> (k <= q' i < k + free n q c j)%nat) /\
  (forall i i', (j <= i < j + c)%nat -> (j <= i' < j + c)%nat -> q i = n -> q i' = n -> q' i = q' i' -> i = i').
Proof.
  intros n c. induction c as [|c IH]; intros j k q Hk; cbn [fill].
  - repeat split; intros; try reflexivity; lia.
  - unfold free in Hk |- *. cbn [seq filter] in Hk |- *. destruct (Nat.eqb_spec (q j) n) as [E|E]; cbn [length] in Hk |- *.
    + set (q1 := fun i => if Nat.eqb i j then k else q i).
      assert (F : free n q1 c (S j) = length (filter (fun i => Nat.eqb (q i) n) (seq (S j) c))).
      { unfold free. f_equal. apply filter_ext_in. intros i Hi. apply in_seq in Hi. unfold q1. destruct (Nat.eqb_spec i j); [lia|reflexivity]. }
      destruct (IH (S j) (S k) q1 ltac:(rewrite F; lia)) as [A [B [C D]]]. cbn zeta in *. rewrite F in C.
      assert (Q1 : forall i, i <> j -> q1 i = q i) by (intros i Hi; unfold q1; destruct (Nat.eqb_spec i j); [contradiction|reflexivity]).
      assert (Qj : q1 j = k) by (unfold q1; rewrite Nat.eqb_refl; reflexivity).
      assert (J : fill n c (S j) (S k) q1 j = k) by (rewrite A by lia; exact Qj).
      repeat split.
      * intros i Hi. rewrite A by lia. apply Q1. lia.
      * intros i Hi. assert (i <> j) by (intros ->; contradiction). rewrite B by (rewrite Q1; assumption). apply Q1. assumption.
      * destruct (Nat.eq_dec i j) as [->|Ni]; [rewrite J; lia|]. specialize (C i ltac:(lia) ltac:(rewrite Q1; assumption)). lia.
      * destruct (Nat.eq_dec i j) as [->|Ni]; [rewrite J; lia|]. specialize (C i ltac:(lia) ltac:(rewrite Q1; assumption)). lia.
      * intros i i' Hi Hi' Ei Ei' Eq. destruct (Nat.eq_dec i j) as [->|Ni], (Nat.eq_dec i' j) as [->|Ni']; [reflexivity| | |].
        -- rewrite J in Eq. specialize (C i' ltac:(lia) ltac:(rewrite Q1; assumption)). lia.
        -- rewrite J in Eq. specialize (C i ltac:(lia) ltac:(rewrite Q1; assumption)). lia.
        -- apply D; try lia; rewrite Q1; assumption.
    + destruct (IH (S j) k q Hk) as [A [B [C D]]]. cbn zeta in *. repeat split.
      * intros i Hi. apply A. lia.
      * exact B.
      * destruct (Nat.eq_dec i j) as [->|Ni]; [contradiction|]. apply C; [lia|assumption].
      * destruct (Nat.eq_dec i j) as [->|Ni]; [contradiction|]. apply C; [lia|assumption].
      * intros i i' Hi Hi' Ei Ei' Eq. assert (i <> j) by (intros ->; contradiction). assert (i' <> j) by (intros ->; contradiction). apply D; try assumption; lia.
Qed.
Lemma invert_spec : forall c j q r, (forall i i', (j <= i < j + c)%nat -> (j <= i' < j + c)%nat -> q i = q i' -> i = i') ->
  (forall i, (j <= i < j + c)%nat -> invert c j q r (q i) = i) /\ (forall k, (forall i, (j <= i < j + c)%nat -> q i <> k) -> invert c j q r k = r k).
Proof.
  induction c as [|c IH]; intros j q r H; cbn [invert]; [split; [intros; lia|reflexivity]|].
  destruct (IH (S j) q (fun i => if Nat.eqb i (q j) then j else r i) ltac:(intros; apply H; lia)) as [A B]. split.
  - intros i Hi. destruct (Nat.eq_dec i j) as [->|Ni]; [|apply A; lia]. rewrite B; [rewrite Nat.eqb_refl; reflexivity|].
    intros i Hi' E. assert (i = j) by (apply H; lia). lia.
  - intros k Hk. rewrite B by (intros; apply Hk; lia). destruct (Nat.eqb_spec k (q j)) as [->|]; [exfalso; apply (Hk j); [lia|reflexivity]|reflexivity].
Qed.
Lemma inj_surj : forall n (q : nat -> nat), (forall i, (i < n)%nat -> (q i < n)%nat) -> (forall i i', (i < n)%nat -> (i' < n)%nat -> q i = q i' -> i = i') ->
  forall k, (k < n)%nat -> exists i, (i < n)%nat /\ q i = k.
Proof.
  intros n q H1 H2 k Hk.
  assert (ND : NoDup (map q (seq 0 n))).
  { assert (G : forall l : list nat, NoDup l -> (forall i, In i l -> (i < n)%nat) -> NoDup (map q l)).
    { induction l as [|a l IH]; intros N Q; cbn; constructor; inversion N; subst.
      - intros I. apply in_map_iff in I. destruct I as [b [E I]]. assert (b = a) by (apply H2; [apply Q; right; exact I|apply Q; left; reflexivity|exact E]). subst. contradiction.
      - apply IH; [assumption|]. intros i Hi. apply Q. right. exact Hi. }
    apply G; [apply seq_NoDup|]. intros i Hi. apply in_seq in Hi. lia. }
  assert (I : incl (seq 0 n) (map q (seq 0 n))).
  { apply NoDup_length_incl; [exact ND|rewrite map_length; lia|]. intros y Hy. apply in_map_iff in Hy. destruct Hy as [i [<- Hi]]. apply in_seq in Hi. apply in_seq. specialize (H1 i ltac:(lia)). lia. }
  specialize (I k ltac:(apply in_seq; lia)). apply in_map_iff in I. destruct I as [i [E Hi]]. apply in_seq in Hi. exists i. split; [lia|exact E].
Qed.
Lemma extend_p_ok : forall p n, NoDup p -> (forall j, In j p -> (j < n)%nat) ->
  exists r, extend_p p n = Some r /\ all_indices n r /\ firstn (length p) r = p.
Proof.
  intros p n N H. unfold extend_p. destruct (mark_some n p 0 (fun _ => n) N ltac:(intros j Hj; split; [apply H; exact Hj|reflexivity])) as [q Eq]. rewrite Eq.
  assert (Lp : (length p <= n)%nat).
  { rewrite <- (seq_length n 0). apply NoDup_incl_length; [exact N|]. intros j Hj. apply in_seq. specialize (H j Hj). lia. }
  destruct (mark_spec n p 0 (fun _ => n) q ltac:(intros; right; reflexivity) ltac:(lia) Eq) as [_ [_ [M1 M2]]].
  assert (Mn : forall j, q j = n <-> ~ In j p).
  { intros j. split; [|apply M1]. intros E I. apply (In_nth p j O) in I. destruct I as [i [Li Ei]]. specialize (M2 i Li). rewrite Ei in M2. lia. }
  assert (Fr : free n q n 0 = (n - length p)%nat).
  { unfold free. pose proof (filter_length_split (fun i => Nat.eqb (q i) n) (seq 0 n)) as S. rewrite seq_length in S.
    assert (length (filter (fun i => negb (Nat.eqb (q i) n)) (seq 0 n)) = length p); [|lia].
    apply Permutation_length. apply NoDup_Permutation; [apply NoDup_filter; apply seq_NoDup|exact N|]. intros x. rewrite filter_In, in_seq, negb_true_iff, Nat.eqb_neq, Mn.
    split; [intros [_ Q]; destruct (in_dec Nat.eq_dec x p); tauto|]. intros I. split; [specialize (H x I); lia|tauto]. }
  pose proof (fill_spec n n 0 (length p) q ltac:(lia)) as F. cbn zeta in F. set (q' := fill n n 0 (length p) q) in *. rewrite Fr in F. destruct F as [_ [F2 [F3 F4]]].
  assert (Qp : forall i, (i < length p)%nat -> q' (nth i p O) = i). { intros i Hi. rewrite F2; [apply M2; exact Hi|]. rewrite (M2 i Hi). lia. }
  assert (Qlt : forall i, (i < n)%nat -> (q' i < n)%nat).
  { intros i Hi. destruct (Nat.eq_dec (q i) n) as [E|E]; [specialize (F3 i ltac:(lia) E); lia|]. assert (I : In i p) by (destruct (in_dec Nat.eq_dec i p); [assumption|exfalso; apply E; apply Mn; assumption]).
    apply (In_nth p i O) in I. destruct I as [k [Lk <-]]. rewrite (Qp k Lk). lia. }
  assert (Qinj : forall i i', (i < n)%nat -> (i' < n)%nat -> q' i = q' i' -> i = i').
  { intros i i' Hi Hi' E. destruct (in_dec Nat.eq_dec i p) as [I|I], (in_dec Nat.eq_dec i' p) as [I'|I'].
    - apply (In_nth p i O) in I. destruct I as [k [Lk <-]]. apply (In_nth p i' O) in I'. destruct I' as [k' [Lk' <-]]. rewrite (Qp k Lk), (Qp k' Lk') in E. subst. reflexivity.
    - apply (In_nth p i O) in I. destruct I as [k [Lk <-]]. rewrite (Qp k Lk) in E. apply Mn in I'. specialize (F3 i' ltac:(lia) I'). lia.
    - apply (In_nth p i' O) in I'. destruct I' as [k [Lk <-]]. rewrite (Qp k Lk) in E. apply Mn in I. specialize (F3 i ltac:(lia) I). lia.
    - apply Mn in I. apply Mn in I'. apply F4; try assumption; lia. }
  destruct (invert_spec n 0 q' (fun _ => O) ltac:(intros i i' Hi Hi'; apply Qinj; lia)) as [V1 _].
  set (r := map (invert n 0 q' (fun _ => O)) (seq 0 n)).
  assert (Rn : forall k, (k < n)%nat -> nth k r O = invert n 0 q' (fun _ => O) k).
  { intros k Hk. unfold r. rewrite (nth_indep _ O (invert n 0 q' (fun _ => O) O)) by (rewrite map_length, seq_length; exact Hk). rewrite map_nth, seq_nth by exact Hk. reflexivity. }
  assert (Rp : forall i, (i < length p)%nat -> nth i r O = nth i p O).
  { intros i Hi. rewrite Rn by lia. rewrite <- (Qp i Hi) at 1. apply V1. assert (I : In (nth i p O) p) by (apply nth_In; exact Hi). specialize (H _ I). lia. }
  assert (E : forallb (fun i => Nat.eqb (nth i p O) (nth i r O)) (seq 0 (length p)) = true).
  { apply forallb_forall. intros i Hi. apply in_seq in Hi. apply Nat.eqb_eq. symmetry. apply Rp. lia. }
  fold r. rewrite E. exists r. split; [reflexivity|]. split.
  - assert (Lr : length r = n) by (unfold r; rewrite map_length, seq_length; reflexivity).
    assert (Ir : forall j, (j < n)%nat -> In j r). { intros j Hj. rewrite <- (V1 j ltac:(lia)). rewrite <- Rn by (apply Qlt; exact Hj). apply nth_In. rewrite Lr. apply Qlt. exact Hj. }
    assert (Nr : NoDup r). { apply NoDup_incl_NoDup with (l := seq 0 n); [apply seq_NoDup|rewrite seq_length; lia|]. intros j Hj. apply in_seq in Hj. apply Ir. lia. }
    split; [exact Lr|]. split; [exact Nr|]. intros j. split; [|apply Ir]. intros I. apply (In_nth r j O) in I. destruct I as [k [Lk <-]]. rewrite Lr in Lk.
    destruct (inj_surj n q' Qlt Qinj k Lk) as [i [Hi <-]]. rewrite Rn by (apply Qlt; exact Hi). rewrite V1 by lia. exact Hi.
  - assert (Lr : length r = n) by (unfold r; rewrite map_length, seq_length; reflexivity).
    apply (nth_ext _ _ O O); [apply firstn_length_le; lia|]. intros i Hi. rewrite firstn_length_le in Hi by lia.
    rewrite <- (Rp i Hi). rewrite <- (firstn_skipn (length p) r) at 2. rewrite app_nth1; [reflexivity|]. rewrite firstn_length_le by lia. exact Hi.
Qed.
Lemma mark_only : forall n p k q q' M, NoDup M -> length M = k -> (forall j, In j M -> (j < n)%nat) -> (forall j, (j < n)%nat -> q j = n -> ~ In j M) ->
  mark n p k q = Some q' -> NoDup p /\ forall j, In j p -> (j < n)%nat /\ ~ In j M.
Proof.
  intros n p. induction p as [|j p IH]; intros k q q' M N1 L1 R1 F1 H; [split; [constructor|intros j []]|]. cbn [mark] in H.
  destruct (Nat.ltb j n) eqn:E1; cbn [andb] in H; [|discriminate]. destruct (Nat.eqb (q j) n) eqn:E2; [|discriminate]. apply Nat.ltb_lt in E1. apply Nat.eqb_eq in E2.
  assert (Nj : ~ In j M) by (apply F1; assumption).
  assert (N2 : NoDup (j :: M)) by (constructor; assumption).
  assert (R2 : forall i, In i (j :: M) -> (i < n)%nat) by (intros i [<-|Hi]; [exact E1|apply R1; exact Hi]).
  assert (Kn : (k < n)%nat).
  { assert (Q : (length (j :: M) <= length (seq 0 n))%nat); [|rewrite seq_length in Q; cbn in Q; lia].
    apply NoDup_incl_length; [exact N2|]. intros i Hi. apply in_seq. specialize (R2 i Hi). lia. }
  destruct (IH (S k) (fun i => if Nat.eqb i j then k else q i) q' (j :: M) N2 ltac:(cbn; lia) R2
    ltac:(intros i Hi Q; cbn beta in Q; destruct (Nat.eqb_spec i j); [lia|]; intros [<-|I]; [contradiction|]; exact (F1 i Hi Q I)) H) as [N3 R3].
  split.
  - constructor; [|exact N3]. intros I. apply (proj2 (R3 j I)). left. reflexivity.
  - intros i [<-|Hi]; [split; assumption|]. destruct (R3 i Hi) as [A B]. split; [exact A|]. intros Q. apply B. right. exact Q.
Qed.
Lemma extend_p_only : forall p n r, extend_p p n = Some r -> NoDup p /\ forall j, In j p -> (j < n)%nat.
Proof.
  intros p n r H. unfold extend_p in H. destruct (mark n p 0 (fun _ => n)) as [q|] eqn:E; [|discriminate].
  destruct (mark_only n p 0 (fun _ => n) q [] ltac:(constructor) eq_refl ltac:(intros j []) ltac:(intros j _ _ []) E) as [A B].
  split; [exact A|]. intros j Hj. apply (B j Hj).
Qed.
