(** The answers of the feasibility tests of the simplex solver are right for legal bases. *)
From Coq Require Import Reals List Arith Bool Lra Lia Permutation.
From Coquelicot Require Import Rbar.
From Verif Require Import Logical_Model Solver_Model Solver_Spec Newton_Math Solver_Proofs Solver_LU_Proofs Simplex_Model Simplex_Spec Simplex_Proofs.
Import ListNotations.
Local Open Scope R_scope.

Fixpoint lsum (l : list nat) (g : nat -> R) : R := match l with [] => 0 | j :: l' => g j + lsum l' g end.
Lemma lsum_app : forall l l' g, lsum (l ++ l') g = lsum l g + lsum l' g.
Proof. intros l l' g. induction l as [|a l IH]; cbn; [ring|]. rewrite IH. ring. Qed.
Lemma lsum_perm : forall l l' g, Permutation l l' -> lsum l g = lsum l' g.
Proof. intros l l' g H. induction H; cbn; try reflexivity; [rewrite IHPermutation; reflexivity|ring|congruence]. Qed.
Lemma lsum_ext : forall l f g, (forall j, In j l -> f j = g j) -> lsum l f = lsum l g.
Proof. induction l as [|a l IH]; intros f g H; [reflexivity|]. cbn. rewrite (H a) by (left; reflexivity). rewrite (IH f g); [reflexivity|]. intros j Hj. apply H. right. exact Hj. Qed.
Lemma lsum_le : forall l f g, (forall j, In j l -> f j <= g j) -> lsum l f <= lsum l g.
Proof. induction l as [|a l IH]; intros f g H; cbn; [lra|]. pose proof (H a (or_introl eq_refl)). specialize (IH f g ltac:(intros j Hj; apply H; right; exact Hj)). lra. Qed.
Lemma lsum_0 : forall l, lsum l (fun _ => 0) = 0. Proof. induction l as [|a l IH]; cbn; [reflexivity|]. rewrite IH. ring. Qed.
Lemma lsum_minus : forall l f g, lsum l (fun j => f j - g j) = lsum l f - lsum l g.
Proof. induction l as [|a l IH]; intros f g; cbn; [ring|]. rewrite IH. ring. Qed.
Lemma sum_lsum : forall n g, sum n g = lsum (seq 0 n) g.
Proof. induction n as [|n IH]; intros g; [reflexivity|]. rewrite seq_S, lsum_app, <- IH. cbn. ring. Qed.
Lemma map_nth_firstn : forall (p : list nat) m, (m <= length p)%nat -> map (fun k => nth k p O) (seq 0 m) = firstn m p.
Proof.
  intros p m H. apply (nth_ext _ _ O O); [rewrite map_length, seq_length, firstn_length_le by exact H; reflexivity|]. intros i Hi. rewrite map_length, seq_length in Hi.
  rewrite (nth_indep _ O (nth O p O)) by (rewrite map_length, seq_length; exact Hi). rewrite (map_nth (fun k => nth k p O)), seq_nth by exact Hi. cbn.
  rewrite <- (firstn_skipn m p) at 1. apply app_nth1. rewrite firstn_length_le by exact H. exact Hi.
Qed.
Lemma map_nth_skipn : forall (p : list nat) m, (m <= length p)%nat -> map (fun k => nth k p O) (seq m (length p - m)) = skipn m p.
Proof.
  intros p m H. apply (nth_ext _ _ O O); [rewrite map_length, seq_length, skipn_length; reflexivity|]. intros i Hi. rewrite map_length, seq_length in Hi.
  rewrite (nth_indep _ O (nth O p O)) by (rewrite map_length, seq_length; exact Hi). rewrite (map_nth (fun k => nth k p O)), seq_nth by exact Hi.
  rewrite <- (firstn_skipn m p) at 1. rewrite app_nth2; rewrite firstn_length_le by exact H; [|lia]. f_equal. lia.
Qed.
Lemma fold_map : forall {S T} (F : S -> T -> S) (h : nat -> T) l s, fold_left (fun s k => F s (h k)) l s = fold_left F (map h l) s.
Proof. intros S T F h l. induction l as [|a l IH]; intros s; cbn; [reflexivity|]. apply IH. Qed.
Lemma sum_firstn : forall (p : list nat) m g, (m <= length p)%nat -> sum m (fun k => g (nth k p O)) = lsum (firstn m p) g.
Proof.
  intros p m g H. rewrite sum_lsum, <- (map_nth_firstn p m H). induction (seq 0 m) as [|a l IH]; [reflexivity|]. cbn. rewrite IH. reflexivity.
Qed.
Lemma sum_split : forall n m (p : list nat) g, all_indices n p -> (m <= n)%nat -> sum n g = sum m (fun k => g (nth k p O)) + lsum (skipn m p) g.
Proof.
  intros n m p g H Hm. rewrite sum_lsum, <- (lsum_perm _ _ g (all_indices_perm n p H)). destruct H as [Lp _]. rewrite (sum_firstn p m g) by lia.
  rewrite <- lsum_app, firstn_skipn. reflexivity.
Qed.
Lemma fold_upd : forall {T} (p : list nat) (v : nat -> T) x0 m, NoDup p -> (m <= length p)%nat ->
  let x := fold_left (fun x k => upd x (nth k p O) (v k)) (seq 0 m) x0 in
  (forall k, (k < m)%nat -> x (nth k p O) = v k) /\ (forall j, (forall k, (k < m)%nat -> nth k p O <> j) -> x j = x0 j).
Proof.
  intros T p v x0 m N. induction m as [|m IH]; intros Hm; cbn zeta; [split; [intros; lia|reflexivity]|].
  rewrite seq_S, fold_left_app. cbn [fold_left plus]. destruct (IH ltac:(lia)) as [A B]. cbn zeta in A, B. set (x := fold_left _ (seq 0 m) x0) in *. split.
  - intros k Hk. unfold upd. destruct (Nat.eqb_spec (nth k p O) (nth m p O)) as [E|E].
    + assert (k = m) by (apply (proj1 (NoDup_nth p O) N); try lia; exact E). subst. reflexivity.
    + apply A. assert (k <> m) by (intros ->; apply E; reflexivity). lia.
  - intros j Hj. unfold upd. destruct (Nat.eqb_spec j (nth m p O)) as [E|E]; [exfalso; apply (Hj m); [lia|symmetry; exact E]|]. apply B. intros k Hk. apply Hj. lia.
Qed.
Lemma basic_or_not : forall n m (p : list nat) j, all_indices n p -> (m <= n)%nat -> (j < n)%nat ->
  (exists k, (k < m)%nat /\ nth k p O = j) \/ In j (skipn m p) /\ (forall k, (k < m)%nat -> nth k p O <> j).
Proof.
  intros n m p j [Lp [N I]] Hm Hj. apply I in Hj. rewrite <- (firstn_skipn m p) in Hj. apply in_app_or in Hj. destruct Hj as [Hj|Hj].
  - left. apply (In_nth _ _ O) in Hj. destruct Hj as [k [Lk E]]. rewrite firstn_length_le in Lk by lia. exists k. split; [exact Lk|]. rewrite <- E.
    rewrite <- (firstn_skipn m p) at 1. apply app_nth1. rewrite firstn_length_le; lia.
  - right. split; [exact Hj|]. intros k Hk E. rewrite <- (firstn_skipn m p) in N. apply (In_nth _ _ O) in Hj. destruct Hj as [k' [Lk' E']]. rewrite skipn_length in Lk'.
    rewrite <- (firstn_skipn m p) in E. rewrite <- (firstn_length_le p (n := m)) in Hk at 1 by lia.
    assert (Q : nth k (firstn m p ++ skipn m p) O = nth (length (firstn m p) + k') (firstn m p ++ skipn m p) O).
    { rewrite E. rewrite app_nth2 by lia. replace (length (firstn m p) + k' - length (firstn m p))%nat with k' by lia. symmetry. exact E'. }
    apply (proj1 (NoDup_nth _ O) N) in Q; rewrite ?app_length, ?skipn_length, ?firstn_length_le in *; lia.
Qed.
Lemma skipn_range : forall n m (p : list nat) j, all_indices n p -> In j (skipn m p) -> (j < n)%nat.
Proof. intros n m p j [_ [_ I]] H. apply I. rewrite <- (firstn_skipn m p). apply in_or_app. right. exact H. Qed.
Lemma nth_range : forall n (p : list nat) k, all_indices n p -> (k < n)%nat -> (nth k p O < n)%nat.
Proof. intros n p k [L [_ I]] H. apply I. apply nth_In. lia. Qed.
Lemma count_le : forall n f, (count n f <= n)%nat.
Proof. induction n as [|n IH]; intros f; cbn; [lia|]. specialize (IH f). destruct (f n); lia. Qed.

Section ALG.
  Variables (P : ops) (fin : num P -> option (R * R)) (e : R) (S0 : sound_ops P fin e).
  Variables (L : lops P) (val : ld L -> Rbar) (tol res : R) (D0 : sound_data P fin L val tol res).
  Notation enc := (enc P fin).
  Variables (m n : nat) (xl xu : nat -> ld L) (A : nat -> nat -> ld L) (b : nat -> ld L) (a : mat) (r : vec).
  Hypothesis LP : stands_for P L val m n A b a r.

  Lemma fold_sub_enc : forall (l : list nat) (g : nat -> num P) (g' : nat -> R) w w', (forall j, In j l -> enc (g j) (g' j)) -> enc w w' ->
    enc (fold_left (fun w j => nsub P w (g j)) l w) (w' - lsum l g').
  Proof using S0.
    induction l as [|j l IH]; intros g g' w w' H Hw; cbn [fold_left]; [cbn; rewrite Rminus_0_r; exact Hw|].
    cbn. replace (w' - (g' j + lsum l g')) with ((w' - g' j) - lsum l g') by ring.
    apply IH; [intros i Hi; apply H; right; exact Hi|]. apply (s_sub P fin e S0); [exact Hw|apply H; left; reflexivity].
  Qed.
  Lemma A_enc : forall i j, (i < m)%nat -> (j < n)%nat -> enc (l_num L (A i j)) (a i j).
  Proof using D0 LP. intros i j Hi Hj. apply (d_num _ _ _ _ _ _ D0). apply (proj1 LP); assumption. Qed.
  Lemma b_enc : forall i, (i < m)%nat -> enc (l_num L (b i)) (r i).
  Proof using D0 LP. intros i Hi. apply (d_num _ _ _ _ _ _ D0). apply (proj2 LP); assumption. Qed.

  (** The real basic solution *)
  Variables (vt : nat -> slack).
  Hypothesis LB : legal_basis m n (fun j => val (xl j)) (fun j => val (xu j)) vt.
  Definition rN (j : nat) : R := match vt j with LOWER => real (val (xl j)) | UPPER => real (val (xu j)) | _ => 0 end.
  Definition rw (p : list nat) (i : nat) : R := r i - lsum (skipn m p) (fun j => a i j * rN j).
  Definition rx (p : list nat) (Bm : mat) : vec := fold_left (fun x k => upd x (nth k p O) (sum m (fun i => Bm k i * rw p i))) (seq 0 m) rN.
  Notation p := (compute_p n vt).
  Lemma Hmn : (m <= n)%nat. Proof using LB. pose proof (proj1 LB) as Q. rewrite <- Q. apply count_le. Qed.
  Lemma Hp : all_indices n p. Proof using. apply compute_p_all. Qed.
  Lemma Lp : length p = n. Proof using. apply Hp. Qed.

  Lemma rN_enc : forall j, (j < n)%nat -> enc (non_basic P L xl xu vt j) (rN j).
  Proof using D0 S0 LB.
    intros j Hj. pose proof (proj2 LB j Hj) as Q. unfold non_basic, rN. destruct (vt j); [apply (s_0 P fin e S0)| | |apply (s_0 P fin e S0)].
    all: apply (d_num _ _ _ _ _ _ D0); symmetry; exact Q.
  Qed.

  Definition aB : mat := fun i k => a i (nth k p O).
  Lemma AB_enc : menc P fin m (basic_columns P L A p) aB.
  Proof using D0 LP LB. intros i k Hi Hk. apply A_enc; [exact Hi|]. apply nth_range; [apply Hp|]. pose proof Hmn. lia. Qed.

  Variables (B : nat -> nat -> num P) (Bm : mat).
  Hypothesis HB : menc P fin m B Bm.
  Hypothesis IB : inverses m aB Bm.
  Lemma rx_basic : forall k, (k < m)%nat -> rx p Bm (nth k p O) = sum m (fun i => Bm k i * rw p i).
  Proof using LB. intros k Hk. apply (fold_upd p (fun k => sum m (fun i => Bm k i * rw p i)) rN m); [apply Hp|rewrite Lp; apply Hmn|exact Hk]. Qed.
  Lemma rx_other : forall j, (forall k, (k < m)%nat -> nth k p O <> j) -> rx p Bm j = rN j.
  Proof using LB. intros j Hj. apply (fold_upd p (fun k => sum m (fun i => Bm k i * rw p i)) rN m); [apply Hp|rewrite Lp; apply Hmn|exact Hj]. Qed.
  Lemma skip_other : forall j, In j (skipn m p) -> rx p Bm j = rN j.
  Proof using LB.
    intros j Hj. destruct (basic_or_not n m p j Hp Hmn (skipn_range n m p j Hp Hj)) as [[k [Hk E]]|[_ H]]; [|apply rx_other; exact H]. exfalso.
    destruct (compute_p_split m n vt (proj1 LB)) as [F1 F2]. rewrite F2 in Hj. apply filter_In in Hj. destruct Hj as [_ Hj].
    assert (I : In j (firstn m p)). { rewrite <- map_nth_firstn by (rewrite Lp; apply Hmn). apply in_map_iff. exists k. split; [exact E|apply in_seq; lia]. }
    rewrite F1 in I. apply filter_In in I. destruct I as [_ I]. rewrite I in Hj. discriminate.
  Qed.
  Lemma rx_solves : solves m n a r (rx p Bm).
  Proof using LB IB.
    intros i Hi. rewrite (sum_split n m p _ Hp Hmn). rewrite (lsum_ext (skipn m p) _ (fun j => a i j * rN j)) by (intros j Hj; rewrite skip_other by exact Hj; reflexivity).
    rewrite (sum_ext m _ (fun k => sum m (fun l => aB i k * Bm k l * rw p l))).
    - rewrite sum_swap. rewrite (sum_ext m _ (fun l => if Nat.eqb l i then rw p l else 0)).
      + rewrite (sum_delta m i (rw p) Hi). unfold rw. ring.
      + intros l Hl. rewrite sum_scal_r. pose proof (proj1 IB i l Hi Hl) as Q. unfold mm in Q. rewrite Q. unfold delta. rewrite Nat.eqb_sym. destruct (Nat.eqb l i); ring.
    - intros k Hk. rewrite rx_basic by exact Hk. rewrite <- sum_scal. apply sum_ext. intros l Hl. unfold aB. ring.
  Qed.
  Lemma x_enc : forall x, compute_x P L m n xl xu A b vt p B = Some x -> venc P fin n x (rx p Bm).
  Proof using S0 D0 LP LB HB.
    intros x H. unfold compute_x in H. destruct (l_small L m _); [|discriminate]. injection H as <-. apply (store_venc P fin).
    set (w := store_v P m _). assert (W : venc P fin m w (rw p)).
    { apply (store_venc P fin). intros i Hi.
      rewrite (fold_map (fun w j => nsub P w (nmul P (l_num L (A i j)) (non_basic P L xl xu vt j))) (fun k => nth k p O)).
      pose proof (map_nth_skipn p m ltac:(rewrite Lp; apply Hmn)) as MS. rewrite Lp in MS. rewrite MS. clear MS.
      unfold rw. apply fold_sub_enc; [|apply b_enc; exact Hi]. intros j Hj. pose proof (skipn_range n m p j Hp Hj) as R1. apply (s_mul P fin e S0); [apply A_enc; assumption|apply rN_enc; exact R1]. }
    destruct (fold_upd p (fun k => nsum P m (fun i => nmul P (B k i) (w i))) (non_basic P L xl xu vt) m (proj1 (proj2 Hp)) ltac:(rewrite Lp; apply Hmn)) as [U1 U2].
    cbn zeta in U1, U2. intros j Hj. destruct (basic_or_not n m p j Hp Hmn Hj) as [[k [Hk E]]|[_ E]].
    - rewrite <- E. rewrite U1, rx_basic by exact Hk. apply (nsum_enc P fin e S0). intros i Hi. apply (s_mul P fin e S0); [apply HB; assumption|apply W; exact Hi].
    - rewrite U2, rx_other by exact E. apply rN_enc. exact Hj.
  Qed.
  (** nonbasic variables are at one of their bounds *)
  Lemma rN_bound : forall j, In j (skipn m p) -> (vt j = LOWER /\ Finite (rN j) = val (xl j)) \/ (vt j = UPPER /\ Finite (rN j) = val (xu j)).
  Proof using LB.
    intros j Hj. pose proof (skipn_range n m p j Hp Hj) as R1. pose proof (proj2 LB j R1) as Q. destruct (compute_p_split m n vt (proj1 LB)) as [_ F2]. rewrite F2 in Hj. apply filter_In in Hj. destruct Hj as [_ Hj].
    unfold rN. destruct (vt j); [discriminate|left|right|contradiction]; (split; [reflexivity|exact Q]).
  Qed.

  (** ** The test of the bounds *)
  Lemma neg_possibly : forall l, possibly (lv_neg l) = false -> l = TRUE.
  Proof using. intros []; cbn; intros H; try discriminate; reflexivity. Qed.
  Lemma primal_true : forall x js fs, primal_test P L xl xu x js fs = TRUE ->
    forall j, In j js -> forall v, enc (x j) v -> Rbar_lt (val (xl j)) v /\ Rbar_lt v (val (xu j)).
  Proof using D0.
    intros x js. induction js as [|i js IH]; intros fs H j Hj v Hv; [destruct Hj|]. cbn [primal_test] in H.
    destruct (possibly (l_le P L (x i) (xl i)) || possibly (l_ge P L (x i) (xu i))) eqn:E.
    - destruct (definitely _ || definitely _); [discriminate|]. exfalso. clear -H. revert H. assert (G : forall js, primal_test P L xl xu x js INDET <> TRUE); [|apply G].
      clear js. induction js as [|i js IH]; cbn [primal_test]; [discriminate|]. destruct (_ || _); [destruct (_ || _); [discriminate|exact IH]|exact IH].
    - destruct Hj as [<-|Hj]; [|eapply IH; eassumption]. apply orb_false_iff in E. destruct E as [E1 E2]. apply neg_possibly in E1. apply neg_possibly in E2.
      split; [apply (d_gt_true _ _ _ _ _ _ D0 _ _ _ E1 Hv)|apply (d_lt_true _ _ _ _ _ _ D0 _ _ _ E2 Hv)].
  Qed.
  Lemma primal_false : forall x js fs, primal_test P L xl xu x js fs = FALSE -> fs <> FALSE ->
    exists j, In j js /\ (l_lt L (x j) (xl j) = TRUE \/ l_gt L (x j) (xu j) = TRUE).
  Proof using.
    intros x js. induction js as [|i js IH]; intros fs H Hf; cbn [primal_test] in H; [contradiction|].
    destruct (possibly _ || possibly _).
    - destruct (definitely (l_lt L (x i) (xl i)) || definitely (l_gt L (x i) (xu i))) eqn:E.
      + exists i. split; [left; reflexivity|]. apply orb_prop in E. destruct E as [E|E]; [left|right]; destruct (l_lt L (x i) (xl i)), (l_gt L (x i) (xu i)); cbn in E; congruence.
      + destruct (IH INDET H ltac:(discriminate)) as [j [I1 I2]]. exists j. split; [right; exact I1|exact I2].
    - destruct (IH fs H Hf) as [j [I1 I2]]. exists j. split; [right; exact I1|exact I2].
  Qed.
  Lemma dual_false : forall z js fs, dual_test P L vt z js fs = FALSE -> fs = FALSE /\
    forall j, In j js -> (vt j = LOWER -> l_gt L (z j) (l_zero L) = TRUE) /\ (vt j = UPPER -> l_lt L (z j) (l_zero L) = TRUE).
  Proof using.
    intros z js. induction js as [|i js IH]; intros fs H; cbn [dual_test] in H; [split; [exact H|intros j []]|].
    destruct (slack_eqb (vt i) LOWER && possibly (l_le P L (z i) (l_zero L))) eqn:E1; [discriminate|].
    destruct (slack_eqb (vt i) UPPER && possibly (l_ge P L (z i) (l_zero L))) eqn:E2; [discriminate|].
    destruct (IH fs H) as [Hf I1]. split; [exact Hf|]. intros j [<-|Hj]; [|apply I1; exact Hj]. split; intros V; rewrite V in *; cbn [slack_eqb andb] in *; apply neg_possibly; assumption.
  Qed.
  Lemma dual_true : forall z js fs, dual_test P L vt z js fs = TRUE -> fs = TRUE.
  Proof using. intros z js. induction js as [|i js IH]; intros fs H; cbn [dual_test] in H; [exact H|]. destruct (_ && _); [discriminate|]. destruct (_ && _); [discriminate|]. apply IH; exact H. Qed.

  (** ** The cost vector *)
  Definition sgn_of (x : nat -> num P) (j : nat) : R := if possibly (l_le P L (x j) (xl j)) then -1 else if possibly (l_ge P L (x j) (xu j)) then 1 else 0.
  Definition rc (x : nat -> num P) (j : nat) : R := if existsb (Nat.eqb j) (firstn m p) then sgn_of x j else 0.
  Lemma compute_c_enc : forall q x c, compute_c P L q xl xu p x = Some c -> (q <= m)%nat ->
    forall j, enc (c j) (if existsb (Nat.eqb j) (firstn q p) then sgn_of x j else 0).
  Proof using S0 LB.
    induction q as [|q IH]; intros x c H Hq j; unfold compute_c in H.
    - cbn in H. injection H as <-. apply (s_0 P fin e S0).
    - rewrite seq_S, fold_left_app in H. cbn [fold_left plus] in H. fold (compute_c P L q xl xu p x) in H. destruct (compute_c P L q xl xu p x) as [c0|] eqn:E; [|discriminate].
      specialize (IH x c0 E ltac:(lia)). destruct (l_unhandled L _ _ _); [discriminate|]. injection H as <-.
      assert (F : firstn (S q) p = firstn q p ++ [nth q p O]).
      { rewrite <- !map_nth_firstn by (rewrite Lp; pose proof Hmn; lia). rewrite seq_S, map_app. reflexivity. }
      rewrite F, existsb_app. cbn [existsb]. rewrite orb_false_r. unfold upd. destruct (Nat.eqb_spec j (nth q p O)) as [->|N].
      + rewrite orb_true_r. unfold sgn_of. destruct (possibly (l_le _ _ _ _)); [rewrite Nat.eqb_refl; unfold minus1; replace (-1) with (0 - 1) by ring; apply (s_sub P fin e S0); [apply (s_0 P fin e S0)|apply (s_1 P fin e S0)]|].
        destruct (possibly (l_ge _ _ _ _)); [rewrite Nat.eqb_refl; apply (s_1 P fin e S0)|]. specialize (IH (nth q p O)).
        replace (existsb (Nat.eqb (nth q p O)) (firstn q p)) with false in IH; [exact IH|]. symmetry. apply not_true_is_false. intros Q. apply existsb_exists in Q. destruct Q as [y [Iy Ey]]. apply Nat.eqb_eq in Ey. subst y.
        rewrite <- map_nth_firstn in Iy by (rewrite Lp; pose proof Hmn; lia). apply in_map_iff in Iy. destruct Iy as [k [Ek Ik]]. apply in_seq in Ik.
        apply (proj1 (NoDup_nth p O) (proj1 (proj2 Hp))) in Ek; rewrite ?Lp; pose proof Hmn; lia.
      + rewrite orb_false_r. apply Nat.eqb_neq in N. destruct (possibly (l_le _ _ _ _)); [rewrite N; apply IH|]. destruct (possibly (l_ge _ _ _ _)); [rewrite N; apply IH|apply IH].
  Qed.
  Lemma rc_basic : forall x k, (k < m)%nat -> rc x (nth k p O) = sgn_of x (nth k p O).
  Proof using LB.
    intros x k Hk. unfold rc. replace (existsb _ _) with true; [reflexivity|]. symmetry. apply existsb_exists. exists (nth k p O). split; [|apply Nat.eqb_refl].
    rewrite <- map_nth_firstn by (rewrite Lp; apply Hmn). apply in_map_iff. exists k. split; [reflexivity|apply in_seq; lia].
  Qed.
  Lemma rc_other : forall x j, In j (skipn m p) -> rc x j = 0.
  Proof using LB.
    intros x j Hj. unfold rc. destruct (compute_p_split m n vt (proj1 LB)) as [F1 F2]. rewrite F2 in Hj. apply filter_In in Hj. destruct Hj as [_ Hj].
    replace (existsb _ _) with false; [reflexivity|]. symmetry. apply not_true_is_false. intros Q. apply existsb_exists in Q. destruct Q as [y [Iy Ey]]. apply Nat.eqb_eq in Ey. subst y.
    rewrite F1 in Iy. apply filter_In in Iy. destruct Iy as [_ Iy]. rewrite Iy in Hj. discriminate.
  Qed.

  (** ** The dual solution *)
  Definition ry (c : vec) (i : nat) : R := sum m (fun k => c (nth k p O) * Bm k i).
  Definition rz (c : vec) (j : nat) : R := c j - sum m (fun i => ry c i * a i j).
  Lemma rz_basic : forall c k, (k < m)%nat -> rz c (nth k p O) = 0.
  Proof using IB.
    intros c k Hk. unfold rz, ry. rewrite (sum_ext m _ (fun i => sum m (fun l => c (nth l p O) * (Bm l i * aB i k)))).
    - rewrite sum_swap. rewrite (sum_ext m _ (fun l => if Nat.eqb l k then c (nth l p O) else 0)).
      + rewrite (sum_delta m k (fun l => c (nth l p O)) Hk). ring.
      + intros l Hl. rewrite sum_scal. pose proof (proj2 IB l k Hl Hk) as Q. unfold mm in Q. rewrite Q. unfold delta. destruct (Nat.eqb l k); ring.
    - intros i Hi. rewrite <- sum_scal_r. apply sum_ext. intros l Hl. unfold aB. ring.
  Qed.
  (** c v = y b + z v for every solution v *)
  Lemma duality : forall c v, solves m n a r v -> sum n (fun j => c j * v j) = sum m (fun i => ry c i * r i) + sum n (fun j => rz c j * v j).
  Proof using.
    intros c v H. rewrite (sum_ext m _ (fun i => sum n (fun j => ry c i * a i j * v j))).
    - rewrite sum_swap, <- sum_plus. apply sum_ext. intros j Hj. unfold rz. rewrite sum_scal_r. ring.
    - intros i Hi. rewrite <- (H i Hi), <- sum_scal. apply sum_ext. intros j Hj. ring.
  Qed.
  Lemma z_enc : forall x c, compute_c P L m xl xu p x = Some c -> forall j, (j < n)%nat -> enc (compute_z P L m A c (compute_y P m c p B) j) (rz (rc x) j).
  Proof using S0 D0 LP LB HB.
    intros x c H j Hj. pose proof (compute_c_enc m x c H (le_n m)) as C.
    assert (Y : venc P fin m (compute_y P m c p B) (ry (rc x))).
    { apply (store_venc P fin). intros i Hi. apply (nsum_enc P fin e S0). intros k Hk. apply (s_mul P fin e S0); [apply C|apply HB; assumption]. }
    unfold compute_z, rz. rewrite sum_lsum. apply (fold_sub_enc (seq 0 m) (fun i => nmul P (compute_y P m c p B i) (l_num L (A i j)))); [|apply C].
    intros i Hi. apply in_seq in Hi. apply (s_mul P fin e S0); [apply Y; lia|apply A_enc; [lia|exact Hj]].
  Qed.

  (** ** The answers *)
  Lemma false_infeasible : forall x c, compute_x P L m n xl xu A b vt p B = Some x -> compute_c P L m xl xu p x = Some c ->
    (forall k, (k < m)%nat -> forall v, enc (x (nth k p O)) v ->
       (possibly (l_le P L (x (nth k p O)) (xl (nth k p O))) = true -> Rbar_le v (val (xl (nth k p O)))) /\
       (possibly (l_ge P L (x (nth k p O)) (xu (nth k p O))) = true -> Rbar_le (val (xu (nth k p O))) v)) ->
    dual_test P L vt (compute_z P L m A c (compute_y P m c p B)) (skipn m p) (primal_test P L xl xu x (firstn m p) TRUE) = FALSE ->
    ~ lp_feasible m n (fun j => val (xl j)) (fun j => val (xu j)) a r.
  Proof using S0 D0 LP LB HB IB.
    intros x c Hx Hc Dec Hd [v [Sv Wv]]. apply dual_false in Hd. destruct Hd as [Hf Hz]. apply primal_false in Hf; [|discriminate].
    pose proof (x_enc x Hx) as X. set (xr := rx p Bm) in *. set (cr := rc x).
    pose proof (duality cr v Sv) as E1. pose proof (duality cr xr rx_solves) as E2.
    rewrite (sum_split n m p _ Hp Hmn) in E1. rewrite (sum_split n m p (fun j => rz cr j * v j) Hp Hmn) in E1.
    rewrite (sum_split n m p _ Hp Hmn) in E2. rewrite (sum_split n m p (fun j => rz cr j * xr j) Hp Hmn) in E2.
    assert (Z0 : forall u : vec, lsum (skipn m p) (fun j => cr j * u j) = 0).
    { intros u. rewrite <- (lsum_0 (skipn m p)). apply lsum_ext. intros j Hj. unfold cr. rewrite rc_other by exact Hj. ring. }
    assert (Z1 : forall u : vec, sum m (fun k => rz cr (nth k p O) * u (nth k p O)) = 0).
    { intros u. rewrite <- (sum_0 m). apply sum_ext. intros k Hk. rewrite rz_basic by exact Hk. ring. }
    rewrite Z0, Z1 in E1. rewrite Z0, Z1 in E2.
    assert (Q1 : lsum (skipn m p) (fun j => rz cr j * xr j) <= lsum (skipn m p) (fun j => rz cr j * v j)).
    { apply lsum_le. intros j Hj. pose proof (skipn_range n m p j Hp Hj) as Rj. unfold xr. rewrite (skip_other j Hj). pose proof (z_enc x c Hc j Rj) as Ez. fold cr in Ez.
      destruct (Hz j Hj) as [H1 H2]. destruct (Wv j Rj) as [W1 W2]. destruct (rN_bound j Hj) as [[V EN]|[V EN]].
      - specialize (H1 V). apply (d_gt_true _ _ _ _ _ _ D0 _ _ _ H1) in Ez. rewrite (d_zero _ _ _ _ _ _ D0) in Ez. cbn in Ez. rewrite <- EN in W1. cbn in W1. apply Rmult_le_compat_l; lra.
      - specialize (H2 V). apply (d_lt_true _ _ _ _ _ _ D0 _ _ _ H2) in Ez. rewrite (d_zero _ _ _ _ _ _ D0) in Ez. cbn in Ez. rewrite <- EN in W2. cbn in W2. apply Rmult_le_compat_neg_l; lra. }
    assert (T : forall k, (k < m)%nat -> cr (nth k p O) * v (nth k p O) <= cr (nth k p O) * xr (nth k p O)).
    { intros k Hk. set (j := nth k p O). assert (Rj : (j < n)%nat) by (apply nth_range; [apply Hp|pose proof Hmn; lia]). destruct (Dec k Hk (xr j) (X j Rj)) as [D1 D2]. fold j in D1, D2. destruct (Wv j Rj) as [W1 W2].
      unfold cr, j. rewrite rc_basic by exact Hk. fold j. unfold sgn_of. destruct (possibly (l_le P L (x j) (xl j))).
      - specialize (D1 eq_refl). pose proof (Rbar_le_trans _ _ _ D1 W1) as Q. cbn in Q. lra.
      - destruct (possibly (l_ge P L (x j) (xu j))); [|lra]. specialize (D2 eq_refl). pose proof (Rbar_le_trans _ _ _ W2 D2) as Q. cbn in Q. lra. }
    destruct Hf as [j [Ij Hj]]. rewrite <- map_nth_firstn in Ij by (rewrite Lp; apply Hmn). apply in_map_iff in Ij. destruct Ij as [k0 [<- Ik]]. apply in_seq in Ik.
    assert (Tk : cr (nth k0 p O) * v (nth k0 p O) < cr (nth k0 p O) * xr (nth k0 p O)).
    { set (j := nth k0 p O) in *. assert (Rj : (j < n)%nat) by (apply nth_range; [apply Hp|pose proof Hmn; lia]). destruct (Dec k0 ltac:(lia) (xr j) (X j Rj)) as [D1 D2]. fold j in D1, D2. destruct (Wv j Rj) as [W1 W2].
      unfold cr, j. rewrite rc_basic by lia. fold j. unfold sgn_of. destruct Hj as [Hj|Hj].
      - pose proof (d_lt_true _ _ _ _ _ _ D0 _ _ _ Hj (X j Rj)) as Lt. pose proof (Rbar_lt_le_trans _ _ _ Lt W1) as Q. cbn in Q.
        destruct (possibly (l_le P L (x j) (xl j))) eqn:E; [lra|]. apply neg_possibly in E. pose proof (d_gt_true _ _ _ _ _ _ D0 _ _ _ E (X j Rj)) as G.
        exfalso. pose proof (Rbar_lt_trans _ _ _ Lt G) as Q2. cbn in Q2. lra.
      - pose proof (d_gt_true _ _ _ _ _ _ D0 _ _ _ Hj (X j Rj)) as Gt. pose proof (Rbar_le_lt_trans _ _ _ W2 Gt) as Q. cbn in Q.
        destruct (possibly (l_le P L (x j) (xl j))) eqn:E.
        + exfalso. specialize (D1 eq_refl). pose proof (Rbar_le_trans _ _ _ D1 W1) as Q2. cbn in Q2. lra.
        + destruct (possibly (l_ge P L (x j) (xu j))) eqn:E'; [lra|]. exfalso. apply neg_possibly in E'. pose proof (d_lt_true _ _ _ _ _ _ D0 _ _ _ E' (X j Rj)) as Lt.
          pose proof (Rbar_lt_trans _ _ _ Gt Lt) as Q2. destruct (val (xu j)); cbn in *; lra. }
    assert (Q3 : 0 <= sum m (fun k => cr (nth k p O) * xr (nth k p O) - cr (nth k p O) * v (nth k p O)) <= 0).
    { rewrite sum_minus. split; [|lra]. pose proof (sum_le m (fun k => cr (nth k p O) * v (nth k p O)) (fun k => cr (nth k p O) * xr (nth k p O)) T). lra. }
    pose proof (sum_term m (fun k => cr (nth k p O) * xr (nth k p O) - cr (nth k p O) * v (nth k p O)) k0 ltac:(intros k Hk; specialize (T k Hk); cbv beta; lra) ltac:(lia)) as Q4. cbv beta in Q4. lra.
  Qed.
  Lemma true_feasible : forall x, compute_x P L m n xl xu A b vt p B = Some x -> primal_test P L xl xu x (firstn m p) TRUE = TRUE ->
    (forall j, (j < n)%nat -> vt j <> BASIS -> Rbar_le (val (xl j)) (val (xu j))) ->
    lp_feasible m n (fun j => val (xl j)) (fun j => val (xu j)) a r.
  Proof using S0 D0 LP LB HB IB.
    intros x Hx Ht Hb. exists (rx p Bm). split; [apply rx_solves|]. intros j Hj. pose proof (x_enc x Hx j Hj) as X.
    destruct (basic_or_not n m p j Hp Hmn Hj) as [[k [Hk E]]|[Ij E]].
    - destruct (primal_true x _ _ Ht j ltac:(rewrite <- map_nth_firstn by (rewrite Lp; apply Hmn); apply in_map_iff; exists k; split; [exact E|apply in_seq; lia]) _ X) as [B1 B2].
      split; apply Rbar_lt_le; assumption.
    - rewrite (skip_other j Ij). assert (NB : vt j <> BASIS) by (destruct (rN_bound j Ij) as [[-> _]|[-> _]]; discriminate). specialize (Hb j Hj NB).
      destruct (rN_bound j Ij) as [[_ ->]|[_ ->]]; (split; [assumption || apply Rbar_le_refl|assumption || apply Rbar_le_refl]).
  Qed.
End ALG.

Section VERIFY.
  Variables (P : ops) (fin : num P -> option (R * R)) (e : R) (S0 : sound_ops P fin e).
  Variables (L : lops P) (val : ld L -> Rbar) (tol res : R) (D0 : sound_data P fin L val tol res).
  Notation enc := (enc P fin).
  Variables (m n : nat) (xl xu : nat -> ld L) (A : nat -> nat -> ld L) (b : nat -> ld L) (a : mat) (r : vec) (vt : nat -> slack).
  Hypothesis LP : stands_for P L val m n A b a r.
  Hypothesis LB : legal_basis m n (fun j => val (xl j)) (fun j => val (xu j)) vt.
  Notation p := (compute_p n vt).

  Lemma verify_true : verify_feasibility P L m n xl xu A b vt = Some TRUE ->
    (forall j, (j < n)%nat -> vt j <> BASIS -> Rbar_le (val (xl j)) (val (xu j))) -> lp_feasible m n (fun j => val (xl j)) (fun j => val (xu j)) a r.
  Proof using S0 D0 LP LB.
    intros H Hb. unfold verify_feasibility in H. destruct (existsb _ _); [discriminate|]. destruct (compute_B P L m A p) as [B|] eqn:EB; [|discriminate].
    destruct (compute_x P L m n xl xu A b vt p B) as [x|] eqn:EX; [|discriminate]. destruct (compute_c P L m xl xu p x) as [c|] eqn:EC; [|discriminate].
    destruct (lu_inverse_sound P fin e S0 m _ B _ EB (AB_enc P fin L val tol res D0 m n xl xu A b a r LP vt LB)) as [Bm [HB IB]].
    assert (T : primal_test P L xl xu x (firstn m p) TRUE = TRUE).
    { destruct (definitely _) eqn:E in H; [injection H as H; exact H|]. injection H as H. apply dual_true in H. exact H. }
    exact (true_feasible P fin e S0 L val tol res D0 m n xl xu A b a r LP vt LB B Bm HB IB x EX T Hb).
  Qed.
  Lemma verify_false : verify_feasibility P L m n xl xu A b vt = Some FALSE ->
    (forall B x, compute_B P L m A p = Some B -> compute_x P L m n xl xu A b vt p B = Some x -> forall j, (j < n)%nat -> vt j = BASIS -> forall v, enc (x j) v ->
       (possibly (l_le P L (x j) (xl j)) = true -> Rbar_le v (val (xl j))) /\ (possibly (l_ge P L (x j) (xu j)) = true -> Rbar_le (val (xu j)) v)) ->
    ~ lp_feasible m n (fun j => val (xl j)) (fun j => val (xu j)) a r.
  Proof using S0 D0 LP LB.
    intros H Dec. unfold verify_feasibility in H. destruct (existsb _ _); [discriminate|]. destruct (compute_B P L m A p) as [B|] eqn:EB; [|discriminate].
    destruct (compute_x P L m n xl xu A b vt p B) as [x|] eqn:EX; [|discriminate]. destruct (compute_c P L m xl xu p x) as [c|] eqn:EC; [|discriminate].
    destruct (lu_inverse_sound P fin e S0 m _ B _ EB (AB_enc P fin L val tol res D0 m n xl xu A b a r LP vt LB)) as [Bm [HB IB]].
    destruct (definitely (primal_test P L xl xu x (firstn m p) TRUE)) eqn:E.
    - injection H as H. rewrite H in E. discriminate.
    - injection H as H. refine (false_infeasible P fin e S0 L val tol res D0 m n xl xu A b a r LP vt LB B Bm HB IB x c EX EC _ H).
      intros k Hk v Hv. assert (Hkn : (k < n)%nat) by (pose proof (Hmn _ L val m n xl xu vt LB); lia).
      refine (Dec B x eq_refl EX (nth k p O) _ _ v Hv); [apply nth_range; [apply compute_p_all|exact Hkn]|].
      destruct (compute_p_split m n vt (proj1 LB)) as [F1 _].
      assert (I : In (nth k p O) (firstn m p)). { rewrite <- map_nth_firstn; [apply in_map_iff; exists k; split; [reflexivity|apply in_seq; lia]|]. rewrite (proj1 (compute_p_all n vt)). apply (Hmn _ L val m n xl xu vt LB). }
      rewrite F1 in I. apply filter_In in I. destruct I as [_ I]. destruct (vt (nth k p O)); (reflexivity || discriminate).
  Qed.

  (** ** The answer of the algorithm *)
  Variable step : (nat -> num P) -> (nat -> ld L) -> (nat -> ld L) -> state P -> option (bool * state P).
  Hypothesis step_ok : forall c l u s d s', step c l u s = Some (d, s') -> exists v, venc P fin n (s_x P s') v.
  Lemma residual_enc : forall x v i, venc P fin n x v -> (i < m)%nat -> enc (residual_of P L n A b x i) (sum n (fun j => a i j * v j) - r i).
  Proof using S0 D0 LP.
    intros x v i Hv Hi. apply (s_sub P fin e S0); [|apply (b_enc P fin L val tol res D0 m n A b a r LP); exact Hi]. apply (nsum_enc P fin e S0). intros j Hj.
    apply (s_mul P fin e S0); [apply (A_enc P fin L val tol res D0 m n A b a r LP); assumption|apply Hv; exact Hj].
  Qed.
  Lemma loop_near : forall c s s', feasible_loop P L step c m n xl xu A b s = Some (true, s') -> (exists v, venc P fin n (s_x P s) v) ->
    nearly_feasible m n tol res (fun j => val (xl j)) (fun j => val (xu j)) a r.
  Proof using S0 D0 LP step_ok.
    induction c as [|c IH]; intros s s' H [v Hv]; cbn [feasible_loop] in H.
    all: destruct (infeasible_at P L n xl xu (s_x P s)).
    all: try (destruct (step _ _ _ s) as [[[|] s1]|] eqn:Es; try discriminate; destruct (forallb _ _); try discriminate; eapply IH; [exact H|eapply step_ok; exact Es]).
    all: try (destruct (step _ _ _ s) as [[[|] s1]|] eqn:Es; try discriminate; destruct (forallb _ _); discriminate).
    all: destruct (final_check P L m n xl xu A b (s_x P s)) eqn:F; [|discriminate]; apply andb_prop in F; destruct F as [F1 F2]; exists v; split.
    1, 3: intros j Hj; assert (I : In j (seq 0 n)) by (apply in_seq; lia); pose proof (proj1 (forallb_forall _ _) F1 j I) as Q; cbv beta in Q; apply andb_prop in Q; destruct Q as [Q1 Q2];
      split; [apply (d_near_lo _ _ _ _ _ _ D0 _ _ _ Q1 (Hv j Hj))|apply (d_near_hi _ _ _ _ _ _ D0 _ _ _ Q2 (Hv j Hj))].
    all: intros i Hi; assert (I : In i (seq 0 m)) by (apply in_seq; lia); pose proof (proj1 (forallb_forall _ _) F2 i I) as Q; cbv beta in Q;
      apply (d_res _ _ _ _ _ _ D0 _ _ Q); apply residual_enc; assumption.
  Qed.
  Lemma hotstarted_near : hotstarted_feasible P L step m n xl xu A b vt = Some TRUE -> nearly_feasible m n tol res (fun j => val (xl j)) (fun j => val (xu j)) a r.
  Proof using S0 D0 LP LB step_ok.
    intros H. unfold hotstarted_feasible in H. destruct (compute_B P L m A p) as [B|] eqn:EB; [|discriminate]. destruct (l_inv1 L m _); [|discriminate].
    destruct (compute_x P L m n xl xu A b vt p B) as [x|] eqn:EX; [|discriminate]. destruct (consistency_check_x P L m n xl xu A b vt p B x); [|discriminate].
    destruct (feasible_loop P L step 1023 m n xl xu A b (mkS P vt p B x)) as [[[|] s']|] eqn:E; [| |discriminate].
    2:{ destruct (verify_feasibility _ _ _ _ _ _ _ _ _); discriminate. }
    apply (loop_near _ _ _ E). cbn [s_x].
    destruct (lu_inverse_sound P fin e S0 m _ B _ EB (AB_enc P fin L val tol res D0 m n xl xu A b a r LP vt LB)) as [Bm [HB IB]].
    eexists. exact (x_enc P fin e S0 L val tol res D0 m n xl xu A b a r LP vt LB B Bm HB x EX).
  Qed.
End VERIFY.
