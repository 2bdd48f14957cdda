(** The inverse of an interval matrix encloses the inverse of every real matrix in it. *)
From Coq Require Import Reals List Lra Lia Arith Bool.
From Verif Require Import Solver_Model Solver_Spec Newton_Math.
Local Open Scope R_scope.

(** ** Row operations on real matrices *)
Definition meq (n : nat) (A B : mat) : Prop := forall i j, (i < n)%nat -> (j < n)%nat -> A i j = B i j.
Definition inv (n : nat) (M a b : mat) : Prop := meq n a (mm n b M) /\ exists E, meq n (mm n E a) M /\ idmat n (mm n E b).

Lemma mm_ext : forall n A A' B B', meq n A A' -> meq n B B' -> meq n (mm n A B) (mm n A' B').
Proof. intros n A A' B B' H1 H2 i j Li Lj. unfold mm. apply sum_ext. intros k Lk. rewrite H1, H2 by assumption. reflexivity. Qed.
Lemma meq_sym : forall n A B, meq n A B -> meq n B A. Proof. intros n A B H i j Li Lj. symmetry. apply H; assumption. Qed.
Lemma inv_ext : forall n M a b a' b', meq n a a' -> meq n b b' -> inv n M a b -> inv n M a' b'.
Proof.
  intros n M a b a' b' Ha Hb [H [E [H1 H2]]]. split.
  - intros i j Li Lj. rewrite <- (Ha i j), (H i j) by assumption. apply mm_ext; [exact Hb|intros ? ? ? ?; reflexivity|exact Li|exact Lj].
  - exists E. split; intros i j Li Lj.
    + rewrite <- (H1 i j) by assumption. apply mm_ext; [intros ? ? ? ?; reflexivity|apply meq_sym; exact Ha|exact Li|exact Lj].
    + rewrite <- (H2 i j) by assumption. apply mm_ext; [intros ? ? ? ?; reflexivity|apply meq_sym; exact Hb|exact Li|exact Lj].
Qed.

Lemma sum_transp : forall n k q g, (k < n)%nat -> (q < n)%nat ->
  sum n (fun c => g (if Nat.eqb c k then q else if Nat.eqb c q then k else c)) = sum n g.
Proof.
  intros n k q g Lk Lq. destruct (Nat.eq_dec k q) as [->|N].
  - apply sum_ext. intros i _. destruct (Nat.eqb_spec i q); [subst; reflexivity|reflexivity].
  - rewrite (sum_ext n _ (fun c => (g c + (if Nat.eqb c k then g q - g k else 0)) + (if Nat.eqb c q then g k - g q else 0))).
    + rewrite !sum_plus, (sum_delta n k (fun _ => g q - g k)), (sum_delta n q (fun _ => g k - g q)) by assumption. ring.
    + intros i _. destruct (Nat.eqb_spec i k) as [N1|N1], (Nat.eqb_spec i q) as [N2|N2]; try (subst; lia); try (rewrite N1); try (rewrite N2); ring.
Qed.

Definition rsw (k q : nat) (a : mat) : mat := fun i j => a (if Nat.eqb i k then q else if Nat.eqb i q then k else i) j.
Definition relim (k : nat) (s : vec) (a : mat) : mat := fun i j => a i j - s i * a k j.
Definition rscale (k : nat) (r : R) (a : mat) : mat := fun i j => if Nat.eqb i k then r * a i j else a i j.

Lemma inv_swap : forall n k q M a b, (k < n)%nat -> (q < n)%nat -> inv n M a b -> inv n M (rsw k q a) (rsw k q b).
Proof.
  intros n k q M a b Lk Lq [H [E [H1 H2]]].
  assert (T : forall i, (i < n)%nat -> ((if Nat.eqb i k then q else if Nat.eqb i q then k else i) < n)%nat) by (intros; destruct (Nat.eqb i k), (Nat.eqb i q); assumption).
  split.
  - intros i j Li Lj. unfold rsw. rewrite H by auto. reflexivity.
  - exists (fun i c => E i (if Nat.eqb c k then q else if Nat.eqb c q then k else c)).
    assert (Q : forall x, meq n (mm n (fun i c => E i (if Nat.eqb c k then q else if Nat.eqb c q then k else c)) (rsw k q x)) (mm n E x)).
    { intros x i j Li Lj. unfold mm, rsw. apply (sum_transp n k q (fun c => E i c * x c j)); assumption. }
    split; intros i j Li Lj; rewrite Q by assumption; auto.
Qed.
Lemma inv_elim : forall n k s M a b, (k < n)%nat -> s k = 0 -> inv n M a b -> inv n M (relim k s a) (relim k s b).
Proof.
  intros n k s M a b Lk Hs [H [E [H1 H2]]]. split.
  - intros i j Li Lj. unfold relim, mm. rewrite (sum_ext n _ (fun c => b i c * M c j - s i * (b k c * M c j))) by (intros; ring).
    rewrite sum_minus, sum_scal. rewrite (H i j), (H k j) by assumption. reflexivity.
  - set (E' := fun i c => E i c + (if Nat.eqb c k then sum n (fun l => E i l * s l) else 0)).
    exists E'.
    assert (Q : forall x, meq n (mm n E' (relim k s x)) (mm n E x)).
    { intros x i j Li Lj. unfold mm, relim, E'.
      rewrite (sum_ext n _ (fun c => (E i c * x c j - (E i c * s c) * x k j) + (if Nat.eqb c k then sum n (fun l => E i l * s l) * x c j else 0))).
      - rewrite sum_plus, sum_minus, sum_scal_r, (sum_delta n k (fun c => sum n (fun l => E i l * s l) * x c j)) by exact Lk. ring.
      - intros c Lc. destruct (Nat.eqb_spec c k) as [->|N]; [rewrite Hs|]; ring. }
    split; intros i j Li Lj; rewrite Q by assumption; auto.
Qed.
Lemma inv_scale : forall n k r M a b, (k < n)%nat -> r <> 0 -> inv n M a b -> inv n M (rscale k r a) (rscale k r b).
Proof.
  intros n k r M a b Lk Hr [H [E [H1 H2]]]. split.
  - intros i j Li Lj. unfold rscale, mm. rewrite (H i j) by assumption. destruct (Nat.eqb i k).
    + unfold mm. rewrite <- sum_scal. apply sum_ext. intros; ring.
    + reflexivity.
  - set (E' := fun i c => if Nat.eqb c k then E i c * / r else E i c). exists E'.
    assert (Q : forall x, meq n (mm n E' (rscale k r x)) (mm n E x)).
    { intros x i j Li Lj. unfold mm, rscale, E'. apply sum_ext. intros c _. destruct (Nat.eqb c k); [field; exact Hr|reflexivity]. }
    split; intros i j Li Lj; rewrite Q by assumption; auto.
Qed.
Lemma inv_start : forall n M, inv n M M delta.
Proof.
  intros n M. assert (D : forall A, meq n (mm n delta A) A).
  { intros A i j Li Lj. unfold mm. rewrite (sum_ext n _ (fun c => if Nat.eqb c i then A c j else 0)); [apply (sum_delta n i (fun c => A c j)); exact Li|].
    intros c _. unfold delta. rewrite Nat.eqb_sym. destruct (Nat.eqb c i); ring. }
  split; [apply meq_sym, D|]. exists delta. split; [apply D|]. intros i j Li Lj. rewrite D by assumption. reflexivity.
Qed.
Lemma inv_end : forall n M a b, idmat n a -> inv n M a b -> inverses n M b.
Proof.
  intros n M a b I [H [E [H1 H2]]].
  assert (EM : meq n E M).
  { intros i j Li Lj. rewrite <- (H1 i j) by assumption. unfold mm. symmetry. rewrite (sum_ext n _ (fun c => if Nat.eqb c j then E i c else 0)); [apply (sum_delta n j (fun c => E i c)); exact Lj|].
    intros c Lc. rewrite I by assumption. unfold delta. destruct (Nat.eqb c j); ring. }
  split; intros i j Li Lj.
  - rewrite <- (H2 i j Li Lj). apply mm_ext; [apply meq_sym; exact EM|intros ? ? ? ?; reflexivity|exact Li|exact Lj].
  - rewrite <- (H i j), I by assumption. reflexivity.
Qed.

Section LU.
  Variables (P : ops) (fin : num P -> option (R * R)) (e : R) (S : sound_ops P fin e).
  Notation enc := (enc P fin). Notation menc := (menc P fin). Notation venc := (venc P fin).

  Lemma store_v_eq : forall n (v : nat -> num P) i, (i < n)%nat -> store_v P n v i = v i.
  Proof using. intros n v i L. unfold store_v. rewrite (nth_indep _ (n0 P) (v 0%nat)) by (rewrite map_length, seq_length; exact L). rewrite (map_nth v), seq_nth by exact L. reflexivity. Qed.
  Lemma store_m_eq : forall n (A : nat -> nat -> num P) i j, (i < n)%nat -> (j < n)%nat -> store_m P n A i j = A i j.
  Proof using.
    intros n A i j Li Lj. unfold store_m.
    rewrite (nth_indep _ nil (map (A 0%nat) (seq 0 n))) by (rewrite map_length, seq_length; exact Li).
    rewrite (map_nth (fun i => map (A i) (seq 0 n))), seq_nth by exact Li.
    rewrite (nth_indep _ (n0 P) (A (0 + i)%nat 0%nat)) by (rewrite map_length, seq_length; exact Lj). rewrite (map_nth (A (0 + i)%nat)), seq_nth by exact Lj. reflexivity.
  Qed.
  Lemma store_venc : forall n x v, venc n x v -> venc n (store_v P n x) v.
  Proof using. intros n x v H i L. rewrite store_v_eq by exact L. apply H. exact L. Qed.
  Lemma store_menc : forall n A M, menc n A M -> menc n (store_m P n A) M.
  Proof using. intros n A M H i j Li Lj. rewrite store_m_eq by assumption. apply H; assumption. Qed.

  Lemma pivot_spec : forall A k c i best q, pivot P A k c i best = Some q ->
    (match best with None => True | Some b => nmiggt P (A b k) (n0 P) = true end) ->
    (best = Some q \/ (i <= q < i + c)%nat) /\ nmiggt P (A q k) (n0 P) = true.
  Proof using S.
    intros A k c. induction c as [|c IH]; intros i best q H Hb; cbn in H.
    - subst best. auto.
    - apply IH in H.
      + destruct H as [[H|H] H']; (split; [|exact H']); [|right; lia]. destruct (nmiggt P (A i k) _); [|auto]. inversion H. subst. right. lia.
      + destruct best as [b|]; destruct (nmiggt P (A i k) _) eqn:E; auto. exact (s_mig_trans _ _ _ S _ _ _ E Hb).
  Qed.

  Definition tri (n k : nat) (a : mat) : Prop :=
    (forall i j, (i < n)%nat -> (j < k)%nat -> (j < i)%nat -> a i j = 0) /\ (forall j, (j < k)%nat -> a j j = 1).

  Lemma lu_step_sound : forall n k A B A' B' M a b, (k < n)%nat -> lu_step P n k (A, B) = Some (A', B') ->
    menc n A a -> menc n B b -> tri n k a -> inv n M a b ->
    exists a' b', menc n A' a' /\ menc n B' b' /\ tri n (Datatypes.S k) a' /\ inv n M a' b'.
  Proof using S.
    intros n k A B A' B' M a b Lk H HA HB [T0 T1] HI. unfold lu_step in H. destruct (pivot P A k (n - k) k None) as [q|] eqn:EP; [|discriminate].
    apply pivot_spec in EP; [|exact I]. destruct EP as [[EP|Lq] Mq]; [discriminate|]. assert (Lqn : (q < n)%nat) by lia.
    injection H as <- <-.
    set (a1 := rsw k q a). set (b1 := rsw k q b).
    assert (N : a1 k k <> 0). { unfold a1, rsw. rewrite Nat.eqb_refl. apply (s_mig _ _ _ S (A q k)); [exact Mq|]. apply HA; lia. }
    set (s := fun i => if Nat.ltb k i then (a1 i k * / a1 k k) else 0).
    set (a2 := rscale k (/ a1 k k) (relim k s a1)). set (b2 := rscale k (/ a1 k k) (relim k s b1)).
    assert (sk : s k = 0) by (unfold s; rewrite Nat.ltb_irrefl; reflexivity).
    set (A1 := fun i j => if Nat.leb k j then swap_rows P k q A i j else A i j). set (B1 := swap_rows P k q B).
    assert (HA1 : forall i j, (i < n)%nat -> (j < n)%nat -> (k <= j)%nat -> enc (A1 i j) (a1 i j)).
    { intros i j Li Lj Lkj. unfold A1, a1, rsw, swap_rows. replace (Nat.leb k j) with true by (symmetry; apply Nat.leb_le; exact Lkj).
      destruct (Nat.eqb i k); [apply HA; assumption|]. destruct (Nat.eqb i q); apply HA; assumption. }
    assert (a1z : forall i j, (i < n)%nat -> (j < k)%nat -> (k <= i)%nat -> a1 i j = 0).
    { intros i j Li Lj Lki. unfold a1, rsw. destruct (Nat.eqb i k); [apply T0; lia|]. destruct (Nat.eqb i q); apply T0; lia. }
    assert (a1o : forall i j, (i < k)%nat -> a1 i j = a i j).
    { intros i j Li. unfold a1, rsw. destruct (Nat.eqb_spec i k); [lia|]. destruct (Nat.eqb_spec i q); [lia|]. reflexivity. }
    assert (HA1' : forall i j, (i < n)%nat -> (j < k)%nat -> enc (A1 i j) (a i j)).
    { intros i j Li Lj. unfold A1. replace (Nat.leb k j) with false by (symmetry; apply Nat.leb_gt; exact Lj). apply HA; lia. }
    assert (HB1 : menc n B1 b1).
    { intros i j Li Lj. unfold B1, b1, rsw, swap_rows. destruct (Nat.eqb i k); [apply HB; assumption|]. destruct (Nat.eqb i q); apply HB; assumption. }
    assert (Hr : enc (nrec P (A1 k k)) (/ a1 k k)) by (apply (s_rec _ _ _ S); [apply HA1; lia|exact N]).
    exists a2, b2. split; [|split; [|split]].
    - apply store_menc. intros i j Li Lj. unfold a2, rscale, relim. fold A1. destruct (Nat.ltb_spec k i) as [Lki|Lki].
      + replace (Nat.eqb i k) with false by (symmetry; apply Nat.eqb_neq; lia).
        unfold s. replace (Nat.ltb k i) with true by (symmetry; apply Nat.ltb_lt; exact Lki).
        destruct (Nat.eqb_spec j k) as [->|Njk]. { replace (a1 i k - a1 i k * / a1 k k * a1 k k) with 0 by (field; exact N). apply (s_0 _ _ _ S). }
        destruct (Nat.ltb_spec k j) as [Lkj|Lkj].
        * apply (s_sub _ _ _ S); [apply HA1; lia|]. apply (s_mul _ _ _ S); [|apply HA1; lia]. apply (s_mul _ _ _ S); [apply HA1; lia|exact Hr].
        * assert (Lj2 : (j < k)%nat) by lia. rewrite (a1z k j), (a1z i j) by lia. replace (0 - a1 i k * / a1 k k * 0) with (a i j) by (rewrite T0 by lia; ring). apply HA1'; assumption.
      + destruct (Nat.eqb_spec i k) as [->|Nik].
        * rewrite sk. destruct (Nat.eqb_spec j k) as [->|Njk]. { replace (/ a1 k k * (a1 k k - 0 * a1 k k)) with 1 by (field; exact N). apply (s_1 _ _ _ S). }
          destruct (Nat.ltb_spec k j) as [Lkj|Lkj].
          -- replace (/ a1 k k * (a1 k j - 0 * a1 k j)) with (a1 k j * / a1 k k) by ring. apply (s_mul _ _ _ S); [apply HA1; lia|exact Hr].
          -- assert (Lj2 : (j < k)%nat) by lia. rewrite (a1z k j) by lia. replace (/ a1 k k * (0 - 0 * 0)) with (a k j) by (rewrite T0 by lia; ring). apply HA1'; assumption.
        * assert (Lik : (i < k)%nat) by lia. unfold s. replace (Nat.ltb k i) with false by (symmetry; apply Nat.ltb_ge; lia).
          replace (a1 i j - 0 * a1 k j) with (a1 i j) by ring. destruct (le_lt_dec k j) as [Lkj|Lkj]; [apply HA1; assumption|]. rewrite a1o by exact Lik. apply HA1'; assumption.
    - apply store_menc. intros i j Li Lj. unfold b2, rscale, relim. fold A1 B1. destruct (Nat.ltb_spec k i) as [Lki|Lki].
      + replace (Nat.eqb i k) with false by (symmetry; apply Nat.eqb_neq; lia).
        unfold s. replace (Nat.ltb k i) with true by (symmetry; apply Nat.ltb_lt; exact Lki).
        apply (s_sub _ _ _ S); [apply HB1; lia|]. apply (s_mul _ _ _ S); [|apply HB1; lia]. apply (s_mul _ _ _ S); [apply HA1; lia|exact Hr].
      + destruct (Nat.eqb_spec i k) as [->|Nik].
        * rewrite sk. replace (/ a1 k k * (b1 k j - 0 * b1 k j)) with (b1 k j * / a1 k k) by ring. apply (s_mul _ _ _ S); [apply HB1; lia|exact Hr].
        * unfold s. replace (Nat.ltb k i) with false by (symmetry; apply Nat.ltb_ge; lia). replace (b1 i j - 0 * b1 k j) with (b1 i j) by ring. apply HB1; assumption.
    - split.
      + intros i j Li Lj Lji. unfold a2, rscale, relim. destruct (Nat.eqb_spec i k) as [->|Nik].
        * rewrite sk, (a1z k j) by lia. ring.
        * unfold s. destruct (Nat.ltb_spec k i) as [Lki|Lki].
          -- destruct (Nat.eq_dec j k) as [->|Njk]; [field; exact N|]. rewrite (a1z k j), (a1z i j) by lia. ring.
          -- rewrite a1o by lia. rewrite T0 by lia. ring.
      + intros j Lj. unfold a2, rscale, relim. destruct (Nat.eqb_spec j k) as [->|Njk].
        * rewrite sk. field. exact N.
        * unfold s. replace (Nat.ltb k j) with false by (symmetry; apply Nat.ltb_ge; lia). rewrite a1o by lia. rewrite T1 by lia. ring.
    - apply inv_scale; [exact Lk|apply Rinv_neq_0_compat; exact N|]. apply inv_elim; [exact Lk|exact sk|]. apply inv_swap; assumption.
  Qed.

  Lemma lu_forward_sound : forall n c k A B A' B' M a b, (k + c = n)%nat -> lu_forward P n c k (A, B) = Some (A', B') ->
    menc n A a -> menc n B b -> tri n k a -> inv n M a b ->
    exists a' b', menc n A' a' /\ menc n B' b' /\ tri n n a' /\ inv n M a' b'.
  Proof using S.
    intros n c. induction c as [|c IH]; intros k A B A' B' M a b E H HA HB HT HI; cbn [lu_forward] in H.
    - injection H as <- <-. replace k with n in HT by lia. exists a, b. auto.
    - destruct (lu_step P n k (A, B)) as [[A1 B1]|] eqn:E1; [|discriminate].
      destruct (lu_step_sound n k A B A1 B1 M a b) as [a1 [b1 [H1 [H2 [H3 H4]]]]]; auto; [lia|].
      apply (IH (Datatypes.S k) A1 B1 A' B' M a1 b1); auto. lia.
  Qed.

  Definition upz (n c : nat) (a : mat) : Prop := forall i j, (i < n)%nat -> (j < n)%nat -> (c <= j)%nat -> (i < j)%nat -> a i j = 0.
  Lemma lu_back_sound : forall n c A B M a b, (c <= n)%nat -> menc n A a -> menc n B b -> tri n n a -> upz n c a -> inv n M a b ->
    exists b', menc n (snd (lu_back P n c (A, B))) b' /\ inverses n M b'.
  Proof using S.
    intros n c. induction c as [|k IH]; intros A B M a b Lc HA HB [T0 T1] HU HI.
    - cbn. exists b. split; [exact HB|]. apply (inv_end n M a b); [|exact HI]. intros i j Li Lj. unfold delta.
      destruct (Nat.eqb_spec i j) as [->|N]; [apply T1; exact Lj|]. destruct (le_lt_dec j i) as [L|L]; [apply T0; lia|apply HU; lia].
    - cbn [lu_back lu_back_step]. set (s := fun i => if Nat.ltb i k then a i k else 0).
      assert (ak : forall j, (j < n)%nat -> a k j = if Nat.eqb j k then 1 else 0).
      { intros j Lj. destruct (Nat.eqb_spec j k) as [->|N]; [apply T1; lia|]. destruct (le_lt_dec j k) as [L|L]; [apply T0; lia|apply HU; lia]. }
      assert (sk : s k = 0) by (unfold s; rewrite Nat.ltb_irrefl; reflexivity).
      apply (IH _ _ M (relim k s a) (relim k s b)).
      + lia.
      + apply store_menc. intros i j Li Lj. unfold relim. rewrite ak by exact Lj. unfold s. destruct (Nat.ltb i k) eqn:E1, (Nat.eqb j k) eqn:E2; cbn [andb].
        * apply Nat.eqb_eq in E2. subst j. replace (a i k - a i k * 1) with 0 by ring. apply (s_0 _ _ _ S).
        * replace (a i j - a i k * 0) with (a i j) by ring. apply HA; assumption.
        * replace (a i j - 0 * 1) with (a i j) by ring. apply HA; assumption.
        * replace (a i j - 0 * 0) with (a i j) by ring. apply HA; assumption.
      + apply store_menc. intros i j Li Lj. unfold relim, s. destruct (Nat.ltb i k).
        * apply (s_sub _ _ _ S); [apply HB; assumption|]. apply (s_mul _ _ _ S); [apply HA; lia|apply HB; lia].
        * replace (b i j - 0 * b k j) with (b i j) by ring. apply HB; assumption.
      + split.
        * intros i j Li Lj Lji. unfold relim. rewrite ak by exact Lj. rewrite (T0 i j) by lia. unfold s. destruct (Nat.ltb_spec i k); destruct (Nat.eqb_spec j k); try lia; ring.
        * intros j Lj. unfold relim. rewrite ak, T1 by exact Lj. destruct (Nat.eqb_spec j k) as [->|N]; [rewrite sk|]; ring.
      + intros i j Li Lj Lkj Lij. unfold relim. rewrite ak by exact Lj. unfold s. destruct (Nat.eqb_spec j k) as [->|N].
        * replace (Nat.ltb i k) with true by (symmetry; apply Nat.ltb_lt; exact Lij). ring.
        * rewrite (HU i j) by lia. ring.
      + apply inv_elim; [lia|exact sk|exact HI].
  Qed.

  Theorem lu_inverse_sound : forall n M Mi m, lu_inverse P n M = Some Mi -> menc n M m -> exists b, menc n Mi b /\ inverses n m b.
  Proof using S.
    intros n M Mi m H HM. unfold lu_inverse in H. destruct (lu_forward P n n 0 (store_m P n M, store_m P n (nid P))) as [[A B]|] eqn:E; [|discriminate]. injection H as <-.
    destruct (lu_forward_sound n n 0 _ _ A B m m delta eq_refl E) as [a [b [H1 [H2 [H3 H4]]]]].
    - apply store_menc; exact HM.
    - apply store_menc. intros i j _ _. unfold nid, delta. destruct (Nat.eqb i j); [apply (s_1 _ _ _ S)|apply (s_0 _ _ _ S)].
    - split; intros; lia.
    - apply inv_start.
    - apply (lu_back_sound n n A B m a b); auto. intros i j Li Lj L _. lia.
  Qed.
  (** Any inverse of [m] is enclosed, since inverses are unique. *)
  Lemma inverses_unique : forall n A B C, inverses n A B -> inverses n A C -> meq n B C.
  Proof using.
    intros n A B C [_ HB] [HC _] i j Li Lj.
    assert (Q1 : mm n B (mm n A C) i j = B i j).
    { unfold mm at 1. rewrite (sum_ext n _ (fun c => if Nat.eqb c j then B i c else 0)); [apply (sum_delta n j (fun c => B i c)); exact Lj|].
      intros c Lc. rewrite HC by assumption. unfold delta. destruct (Nat.eqb c j); ring. }
    assert (Q2 : mm n (mm n B A) C i j = C i j).
    { unfold mm at 1. rewrite (sum_ext n _ (fun c => if Nat.eqb c i then C c j else 0)); [apply (sum_delta n i (fun c => C c j)); exact Li|].
      intros c Lc. rewrite HB by assumption. unfold delta. rewrite Nat.eqb_sym. destruct (Nat.eqb c i); ring. }
    rewrite <- Q1, <- Q2. unfold mm. rewrite (sum_ext n _ (fun k => sum n (fun l => B i k * (A k l * C l j)))) by (intros; symmetry; apply sum_scal).
    rewrite sum_swap. apply sum_ext. intros l Ll. rewrite <- sum_scal_r. apply sum_ext. intros; ring.
  Qed.
  Theorem lu_inverse_all : forall n M Mi m b, lu_inverse P n M = Some Mi -> menc n M m -> inverses n m b -> menc n Mi b.
  Proof using S.
    intros n M Mi m b H HM HI. destruct (lu_inverse_sound n M Mi m H HM) as [b' [H1 H2]]. intros i j Li Lj.
    rewrite (inverses_unique n m b b' HI H2 i j Li Lj). apply H1; assumption.
  Qed.
End LU.
