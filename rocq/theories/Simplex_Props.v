(** Properties C155-C159: the feasibility tests of the simplex solver for linear programs. *)
From Coq Require Import ZArith QArith Qreals Reals List Bool Arith Lra Lia.
From Coquelicot Require Import Rbar.
From Flocq Require Import Core IEEE754.BinarySingleNaN.
From Verif Require Import Float_Model Float_Spec Float_Proofs Logical_Model Bounds_Model Bounds_Spec Bounds_Proofs Bounds_Props Ball_Props Solver_Model Solver_Spec Solver_Float_Model Solver_Float_Proofs.
From Verif Require Import Simplex_Model Simplex_Spec Simplex_Proofs Simplex_Alg_Proofs Simplex_Float_Model Simplex_Float_Proofs.
Import ListNotations.
Local Open Scope R_scope.

Section FLOAT.
  Context {prec emax : Z} {Hprec : Prec_gt_0 prec} {Hemax : Prec_lt_emax prec emax}.
  Notation fl := (binary_float prec emax).
  Variables (eps me tenk err tl rs : fl).
  Hypotheses (Fme : is_finite me = true) (Ftl : is_finite tl = true) (Frs : is_finite rs = true).
  Notation P := (ck_ops eps me). Notation L := (ck_l eps me tenk err tl rs).
  Variables (m n : nat) (xl xu : nat -> fl) (A : nat -> nat -> fl) (b : nat -> fl) (vt : nat -> slack) (a : mat) (r : vec).
  (** the linear program has finite coefficients, those of the real matrix a and vector r; its bounds may be infinite *)
  Hypothesis LP : stands_for P L fval m n A b a r.
  (** m of the variables are basic, and every other one is declared to be at a finite bound *)
  Hypothesis LB : legal_basis m n (fun j => fval (xl j)) (fun j => fval (xu j)) vt.
  Notation feasible := (lp_feasible m n (fun j => fval (xl j)) (fun j => fval (xu j)) a r).

  (** ** C155: a verified feasible linear program has a solution *)
  Theorem C155_feasible_partial : (forall j, (j < n)%nat -> vt j <> BASIS -> Rbar_le (fval (xl j)) (fval (xu j))) ->
    verify_feasibility P L m n xl xu A b vt = Some TRUE -> feasible.
  Proof using Fme Ftl Frs LP LB.
    intros Hb H. exact (verify_true P fin_of _ (ck_sound eps me Fme) L fval _ _ (ck_data eps me tenk err tl rs Ftl Frs) m n xl xu A b a r vt LP LB H Hb).
  Qed.

  (** ** C156: a verified infeasible linear program has no solution, if every basic variable of the basic
      solution is decided to be inside, at or outside its bounds *)
  Theorem C156_infeasible_float_partial :
    (forall B x, compute_B P L m A (compute_p n vt) = Some B -> compute_x P L m n xl xu A b vt (compute_p n vt) B = Some x ->
       forall j, (j < n)%nat -> vt j = BASIS -> decided P L (x j) (xl j) (xu j)) ->
    verify_feasibility P L m n xl xu A b vt = Some FALSE -> ~ feasible.
  Proof using Fme Ftl Frs LP LB.
    intros Dec H. pose proof (ck_data eps me tenk err tl rs Ftl Frs) as D0. refine (verify_false P fin_of _ (ck_sound eps me Fme) L fval _ _ D0 m n xl xu A b a r vt LP LB H _).
    intros B x HB Hx j Hj V v Hv. destruct (Dec B x HB Hx j Hj V) as [D1 D2]. split; intros Q.
    - apply (d_gt_false _ _ _ _ _ _ D0 (x j) (xl j) v); [|exact Hv]. unfold l_le in Q. destruct (l_gt L (x j) (xl j)); (reflexivity || discriminate).
    - apply (d_lt_false _ _ _ _ _ _ D0 (x j) (xu j) v); [|exact Hv]. unfold l_ge in Q. destruct (l_lt L (x j) (xu j)); (reflexivity || discriminate).
  Qed.

  (** ** C158: when the algorithm answers that the program is feasible, there is a point which violates the
      bounds and equations by no more than the tolerances *)
  Theorem C158_feasible_partial : forall step, (forall c l u s d s', step c l u s = Some (d, s') -> exists v, venc P fin_of n (s_x P s') v) ->
    hotstarted_feasible P L step m n xl xu A b vt = Some TRUE ->
    nearly_feasible m n (B2R tl) (B2R rs) (fun j => fval (xl j)) (fun j => fval (xu j)) a r.
  Proof using Fme Ftl Frs LP LB.
    intros step Hs H. exact (hotstarted_near P fin_of _ (ck_sound eps me Fme) L fval _ _ (ck_data eps me tenk err tl rs Ftl Frs) m n xl xu A b a r vt LP LB step Hs H).
  Qed.
End FLOAT.

Section RATIONAL.
  Variables (err tl rs : Q).
  Notation L := (q_l err tl rs).
  Variables (m n : nat) (xl xu : nat -> xq) (A : nat -> nat -> xq) (b : nat -> xq) (vt : nat -> slack) (a : mat) (r : vec).
  Hypothesis LP : stands_for q_ops L qval m n A b a r.
  Hypothesis LB : legal_basis m n (fun j => qval (xl j)) (fun j => qval (xu j)) vt.
  Notation feasible := (lp_feasible m n (fun j => qval (xl j)) (fun j => qval (xu j)) a r).

  Theorem C155_feasible_rational_partial : (forall j, (j < n)%nat -> vt j <> BASIS -> Rbar_le (qval (xl j)) (qval (xu j))) ->
    verify_feasibility q_ops L m n xl xu A b vt = Some TRUE -> feasible.
  Proof using LP LB. intros Hb H. exact (verify_true q_ops q_fin _ q_sound L qval _ _ (q_data err tl rs) m n xl xu A b a r vt LP LB H Hb). Qed.

  (** with exact arithmetic every comparison is decided *)
  Theorem C156_infeasible_partial : verify_feasibility q_ops L m n xl xu A b vt = Some FALSE -> ~ feasible.
  Proof using LP LB.
    intros H. refine (verify_false q_ops q_fin _ q_sound L qval _ _ (q_data err tl rs) m n xl xu A b a r vt LP LB H _).
    intros B x HB Hx j Hj V v Hv. apply qe_inv in Hv. destruct Hv as [q [E <-]]. rewrite E. split; intros Q.
    - unfold l_le in Q. cbn [q_l l_gt xq_of] in Q. change (Finite (Q2R q)) with (qval (QFin q)). apply xq_ltb_false. destruct (xq_ltb (xl j) (QFin q)); [discriminate|reflexivity].
    - unfold l_ge in Q. cbn [q_l l_lt xq_of] in Q. change (Finite (Q2R q)) with (qval (QFin q)). apply xq_ltb_false. destruct (xq_ltb (QFin q) (xu j)); [discriminate|reflexivity].
  Qed.
End RATIONAL.

(** ** C157: arrays of indices and of variable types *)
Theorem C157_compute_p : forall n vt, all_indices n (compute_p n vt) /\
  forall k, (k < n)%nat -> ((k < count n (fun j => slack_eqb (vt j) BASIS))%nat <-> vt (nth k (compute_p n vt) O) = BASIS).
Proof.
  intros n vt. split; [apply compute_p_all|]. intros k Hk. unfold compute_p. rewrite <- count_filter. set (f := fun j => slack_eqb (vt j) BASIS).
  assert (T : forall j, slack_eqb (vt j) BASIS = true <-> vt j = BASIS) by (intros j; destruct (vt j); cbn; split; congruence).
  split; intros H.
  - rewrite app_nth1 by exact H. apply T. apply (proj2 (proj1 (filter_In f _ _) (nth_In _ O H))).
  - apply Nat.nle_gt. intros Q. rewrite app_nth2 in H by exact Q.
    assert (Lk : (k - length (filter f (seq 0 n)) < length (filter (fun j => negb (slack_eqb (vt j) BASIS)) (seq 0 n)))%nat).
    { pose proof (filter_length_split f (seq 0 n)) as S. rewrite seq_length in S. unfold f in *. lia. }
    pose proof (proj2 (proj1 (filter_In _ _ _) (nth_In _ O Lk))) as S. cbv beta in S. apply T in H. unfold f in *. rewrite H in S. discriminate.
Qed.
Theorem C157_extend_p : forall p n, (NoDup p /\ forall j, In j p -> (j < n)%nat) <-> (exists q, extend_p p n = Some q /\ all_indices n q /\ firstn (length p) q = p).
Proof.
  intros p n. split.
  - intros [N H]. apply extend_p_ok; assumption.
  - intros [q [E _]]. apply (extend_p_only p n q E).
Qed.
Theorem C157_extend_p_fails : forall p n, (exists q, extend_p p n = Some q) -> NoDup p /\ forall j, In j p -> (j < n)%nat.
Proof. intros p n [q E]. apply (extend_p_only p n q E). Qed.
Lemma NoDup_app_tail : forall (l l' : list nat), NoDup (l ++ l') -> NoDup l'.
Proof. induction l as [|x l IH]; intros l' H; [exact H|]. apply IH. cbn [app] in H. inversion H; assumption. Qed.
Theorem C157_compute_vt : forall P (L : lops P) m n xl xu p vt, all_indices n p -> (m <= n)%nat -> compute_vt P L m xl xu p = Some vt ->
  forall k, (k < n)%nat -> let j := nth k p O in
    if Nat.ltb k m then vt j = BASIS
    else (vt j = LOWER /\ l_lower_ok L (xl j) = true) \/ (vt j = UPPER /\ l_upper_ok L (xu j) = true).
Proof.
  intros P L m n xl xu p vt Hp Hm H k Hk j. unfold compute_vt in H. set (vt0 := fold_left _ (firstn m p) _) in H.
  assert (V0 : forall i, vt0 i = BASIS).
  { intros i. unfold vt0. assert (G : forall (l : list nat) w, (forall i, w i = BASIS) -> fold_left (fun vt j => upd vt j BASIS) l w i = BASIS); [|apply G; reflexivity].
    induction l as [|x l IH]; intros w Hw; cbn [fold_left]; [apply Hw|]. apply IH. intros i'. unfold upd. destruct (Nat.eqb i' x); [reflexivity|apply Hw]. }
  assert (G : forall (l : list nat) w w', NoDup l ->
    fold_left (fun r j => match r with None => None | Some vt => if l_lower_ok L (xl j) then Some (upd vt j LOWER) else if l_upper_ok L (xu j) then Some (upd vt j UPPER) else None end) l (Some w) = Some w' ->
    (forall i, ~ In i l -> w' i = w i) /\ (forall i, In i l -> (w' i = LOWER /\ l_lower_ok L (xl i) = true) \/ (w' i = UPPER /\ l_upper_ok L (xu i) = true))).
  { induction l as [|x l IH]; intros w w' N E; cbn [fold_left] in E; [injection E as <-; split; [reflexivity|intros i []]|]. inversion N; subst.
    assert (Z : forall l, fold_left (fun r j => match r with None => None | Some vt => if l_lower_ok L (xl j) then Some (upd vt j LOWER) else if l_upper_ok L (xu j) then Some (upd vt j UPPER) else None end) l None = None) by (induction l0; [reflexivity|exact IHl0]).
    destruct (l_lower_ok L (xl x)) eqn:E1; [|destruct (l_upper_ok L (xu x)) eqn:E2; [|rewrite Z in E; discriminate]].
    all: destruct (IH _ _ H3 E) as [I1 I2]; split.
    1, 3: intros i Hi; rewrite I1 by (intros Q; apply Hi; right; exact Q); unfold upd; destruct (Nat.eqb_spec i x); [subst; exfalso; apply Hi; left; reflexivity|reflexivity].
    all: intros i [<-|Hi]; [rewrite (I1 x H2); unfold upd; rewrite Nat.eqb_refl|apply I2; exact Hi].
    - left. split; [reflexivity|exact E1].
    - right. split; [reflexivity|exact E2]. }
  destruct (G (skipn m p) vt0 vt ltac:(destruct Hp as [_ [N _]]; rewrite <- (firstn_skipn m p) in N; exact (NoDup_app_tail _ _ N)) H) as [G1 G2].
  destruct Hp as [Lp [N I]]. destruct (Nat.ltb_spec k m) as [Q|Q].
  - rewrite G1; [apply V0|]. intros Ij. destruct (basic_or_not n m p j (conj Lp (conj N I)) Hm ltac:(apply I; unfold j; apply nth_In; lia)) as [_|[_ F]]; [|exact (F k Q eq_refl)].
    rewrite <- (firstn_skipn m p) in N. unfold j in Ij. rewrite <- (firstn_skipn m p) in Ij at 1. rewrite app_nth1 in Ij by (rewrite firstn_length_le; lia).
    assert (If : In (nth k (firstn m p) O) (firstn m p)) by (apply nth_In; rewrite firstn_length_le; lia).
    apply in_split in Ij. destruct Ij as [l1 [l2 Es]]. rewrite Es in N. rewrite app_assoc in N. apply NoDup_remove_2 in N. apply N. apply in_or_app. left. apply in_or_app. left. exact If.
  - apply G2. unfold j. rewrite <- (firstn_skipn m p) at 1. rewrite app_nth2; rewrite firstn_length_le by lia; [|lia]. apply nth_In. rewrite skipn_length. lia.
Qed.

(** ** C159: the consistency check of an array of indices *)
Theorem C159_check_partial : forall vt p, (length p < length vt)%nat ->
  (consistency_check_p vt p = Some (length p) <-> forall j, In j p -> (j < length vt)%nat /\ nth j vt FIXED = BASIS).
Proof.
  intros vt p H. unfold consistency_check_p. destruct (Nat.eqb_spec (length p) (length vt)) as [E|E]; [lia|]. cbn [negb]. apply Nat.ltb_lt in H. rewrite H. split.
  - destruct (forallb _ p) eqn:F; [|discriminate]. intros _ j Hj. pose proof (proj1 (forallb_forall _ _) F j Hj) as Q. cbv beta in Q. apply andb_prop in Q. destruct Q as [Q1 Q2].
    apply Nat.ltb_lt in Q1. split; [exact Q1|]. destruct (nth j vt FIXED); (reflexivity || discriminate).
  - intros Q. replace (forallb _ p) with true; [reflexivity|]. symmetry. apply forallb_forall. intros j Hj. destruct (Q j Hj) as [Q1 Q2]. apply Nat.ltb_lt in Q1. rewrite Q1, Q2. reflexivity.
Qed.
(** A complete array passes although the variable it starts with is not basic, and the answer
    is not the number of basic variables. *)
Theorem C159_check_refuted : exists vt p, consistency_check_p vt p = Some 2%nat /\ all_indices 2 p /\ length vt = 2%nat /\
  nth (nth 0 p O) vt FIXED <> BASIS /\ nth (nth 1 p O) vt FIXED = BASIS.
Proof.
  exists [BASIS; LOWER], [1%nat; 0%nat]. split; [reflexivity|]. split; [|split; [reflexivity|split; [discriminate|reflexivity]]].
  split; [reflexivity|]. split; [repeat constructor; cbn; intuition discriminate|]. intros j. cbn. split; [intuition lia|]. destruct j as [|[|j]]; intros; [right; left; reflexivity|left; reflexivity|lia].
Qed.

(** ** Examples and counterexamples in double precision *)
Definition feps : DP := dp 1 (-52).
Definition tenk : DP := dp 10000 0.
Definition errt : DP := dp 1 (-32).      (* epsilon * 1048576 *)
Definition tolb : DP := dp 4098 (-52).   (* epsilon * 4098 *)
Definition rest : DP := dp 7378697629483821 (-66). (* 0.0001 *)
Notation FLO := (fl_ops feps feps). Notation FLL := (raw_l feps feps tenk errt tolb rest).
Notation CKO := (ck_ops feps feps). Notation CKL := (ck_l feps feps tenk errt tolb rest).
Definition row1 (x y : DP) : nat -> nat -> DP := fun _ j => match j with O => x | _ => y end.
Definition vec2 {T : Type} (x y : T) : nat -> T := fun j => match j with O => x | _ => y end.
Definition vec3 {T : Type} (x y z : T) : nat -> T := fun j => match j with O => x | S O => y | _ => z end.
Lemma fval_dp : forall f : DP, is_finite f = true -> fval f = Finite (B2R f). Proof. intros f H. apply fval_finite. exact H. Qed.
Ltac fv := repeat match goal with |- context [fval ?f] => rewrite (fval_dp f) by (vm_compute; reflexivity) end.
Ltac fvin H := repeat match type of H with context [fval ?f] => rewrite (fval_dp f) in H by (vm_compute; reflexivity) end.
Ltac num f v := let H := fresh "N" in assert (H : B2R f = v) by (dpval f; lra); rewrite ?H in *.

(** x0 + x1 = 1, -10 <= x0 <= 10, and x1 at its lower bound: the range 0 <= x1 <= -1 is empty. *)
Theorem C155_feasible_refuted : exists (xl xu : nat -> DP) (A : nat -> nat -> DP) (b : nat -> DP) vt a r,
  stands_for FLO FLL fval 1 2 A b a r /\ legal_basis 1 2 (fun j => fval (xl j)) (fun j => fval (xu j)) vt /\
  verify_feasibility FLO FLL 1 2 xl xu A b vt = Some TRUE /\ ~ lp_feasible 1 2 (fun j => fval (xl j)) (fun j => fval (xu j)) a r.
Proof.
  exists (vec2 (dp (-10) 0) (dp 0 0)), (vec2 (dp 10 0) (dp (-1) 0)), (row1 (dp 1 0) (dp 1 0)), (fun _ => dp 1 0), (vec2 BASIS LOWER), (fun i j => B2R (row1 (dp 1 0) (dp 1 0) i j)), (fun _ => B2R (dp 1 0)).
  split; [|split; [|split]].
  - split; [intros i [|j] Hi Hj|intros i Hi]; apply fval_dp; vm_compute; reflexivity.
  - split; [reflexivity|]. intros [|[|j]] Hj; [exact I| |lia]. cbn [vec2]. fv. reflexivity.
  - vm_compute. reflexivity.
  - intros [v [_ W]]. destruct (W 1%nat ltac:(lia)) as [W1 W2]. cbn [vec2] in W1, W2. fvin W1. fvin W2. cbn [Rbar_le] in W1, W2.
    revert W1 W2. dpval (dp 0 0). dpval (dp (-1) 0). lra.
Qed.
(** x0 + x1 = 1/2, 0 <= x0 <= 2, and x1 of type FIXED, with 1 <= x1 <= 1: the test takes x1 = 0. *)
Theorem C155_fixed_refuted : exists (xl xu : nat -> DP) (A : nat -> nat -> DP) (b : nat -> DP) vt a r,
  stands_for FLO FLL fval 1 2 A b a r /\ vt 0%nat = BASIS /\ vt 1%nat = FIXED /\ xl 1%nat = xu 1%nat /\
  verify_feasibility FLO FLL 1 2 xl xu A b vt = Some TRUE /\ ~ lp_feasible 1 2 (fun j => fval (xl j)) (fun j => fval (xu j)) a r.
Proof.
  exists (vec2 (dp 0 0) (dp 1 0)), (vec2 (dp 2 0) (dp 1 0)), (row1 (dp 1 0) (dp 1 0)), (fun _ => dp 1 (-1)), (vec2 BASIS FIXED), (fun i j => B2R (row1 (dp 1 0) (dp 1 0) i j)), (fun _ => B2R (dp 1 (-1))).
  split; [|split; [reflexivity|split; [reflexivity|split; [reflexivity|split]]]].
  - split; [intros i [|j] Hi Hj|intros i Hi]; apply fval_dp; vm_compute; reflexivity.
  - vm_compute. reflexivity.
  - intros [v [E W]]. destruct (W 0%nat ltac:(lia)) as [W1 _]. destruct (W 1%nat ltac:(lia)) as [W2 _]. specialize (E 0%nat ltac:(lia)). cbn [vec2] in W1, W2. fvin W1. fvin W2. cbn [Rbar_le] in W1, W2.
    cbn [sum row1] in E. revert E W1 W2. dpval (dp 0 0). dpval (dp 1 0). dpval (dp 1 (-1)). lra.
Qed.
(** 3 x0 + 6 x2 = 2^36, x1 + x2 = 2^-30.  The basic solution has x0 = 2^36/3, which cannot be told from its lower
    bound, and x1 = 2^-30 above its upper bound 0.  Moving x2 from 0 to 2^-30 gives a solution. *)
Definition third36 : DP := dp 6004799503160661 (-18).
Definition A3 : nat -> nat -> DP := fun i => match i with O => vec3 (dp 3 0) (dp 0 0) (dp 6 0) | _ => vec3 (dp 0 0) (dp 1 0) (dp 1 0) end.
Definition b3 : nat -> DP := vec2 (dp 1 36) (dp 1 (-30)).
Definition l3 : nat -> DP := vec3 third36 (dp (-1) 0) (dp 0 0).
Definition u3 : nat -> DP := vec3 (dp 1 37) (dp 0 0) (dp 1 0).
Definition t3 : nat -> slack := vec3 BASIS BASIS LOWER.
Theorem C156_infeasible_refuted : exists (xl xu : nat -> DP) (A : nat -> nat -> DP) (b : nat -> DP) vt a r,
  stands_for FLO FLL fval 2 3 A b a r /\ legal_basis 2 3 (fun j => fval (xl j)) (fun j => fval (xu j)) vt /\
  verify_feasibility FLO FLL 2 3 xl xu A b vt = Some FALSE /\ lp_feasible 2 3 (fun j => fval (xl j)) (fun j => fval (xu j)) a r.
Proof.
  exists l3, u3, A3, b3, t3, (fun i j => B2R (A3 i j)), (fun i => B2R (b3 i)).
  split; [|split; [|split]].
  - split; [intros [|i] [|[|j]] Hi Hj|intros [|i] Hi]; apply fval_dp; vm_compute; reflexivity.
  - split; [reflexivity|]. intros [|[|[|j]]] Hj; [exact I|exact I| |lia]. cbn [t3 l3 vec3]. fv. reflexivity.
  - vm_compute. reflexivity.
  - exists (vec3 (2 ^ 36 / 3 - 2 * / 2 ^ 30) 0 (/ 2 ^ 30)). split.
    + intros [|[|i]] Hi; [| |lia]; cbn [sum A3 b3 vec2 vec3].
      * dpval (dp 3 0). dpval (dp 0 0). dpval (dp 6 0). dpval (dp 1 36). lra.
      * dpval (dp 1 0). dpval (dp 0 0). dpval (dp 1 (-30)). lra.
    + intros [|[|[|j]]] Hj; [| | |lia]; cbn [l3 u3 vec3]; fv; cbn [Rbar_le].
      * dpval third36. dpval (dp 1 37). lra.
      * dpval (dp (-1) 0). dpval (dp 0 0). lra.
      * dpval (dp 1 0). dpval (dp 0 0). lra.
Qed.
(** 3 x = 1 with x bounded below by the float next above 1/3: whatever the steps of the algorithm do, the
    answer is that the program is feasible. *)
Definition up_third : DP := dp 6004799503160662 (-54).
Theorem C158_feasible_refuted : exists (xl xu : nat -> DP) (A : nat -> nat -> DP) (b : nat -> DP) vt a r,
  stands_for FLO FLL fval 1 1 A b a r /\ legal_basis 1 1 (fun j => fval (xl j)) (fun j => fval (xu j)) vt /\
  (forall step, hotstarted_feasible FLO FLL step 1 1 xl xu A b vt = Some TRUE) /\ ~ lp_feasible 1 1 (fun j => fval (xl j)) (fun j => fval (xu j)) a r.
Proof.
  exists (fun _ => up_third), (fun _ => dp 1 0), (fun _ _ => dp 3 0), (fun _ => dp 1 0), (fun _ => BASIS), (fun _ _ => B2R (dp 3 0)), (fun _ => B2R (dp 1 0)).
  split; [|split; [|split]].
  - split; intros; apply fval_dp; vm_compute; reflexivity.
  - split; [reflexivity|]. intros j Hj. exact I.
  - intros step. vm_compute. reflexivity.
  - intros [v [E W]]. destruct (W 0%nat ltac:(lia)) as [W1 _]. specialize (E 0%nat ltac:(lia)). fvin W1. cbn [Rbar_le] in W1. cbn [sum] in E.
    revert E W1. dpval up_third. dpval (dp 1 0). dpval (dp 3 0). lra.
Qed.

(** x0 + x1 = 1, 0 <= x0 <= 2, 1/2 <= x1 <= 1 with x1 at its lower bound *)
Example C155_nonvacuous : 
  stands_for CKO CKL fval 1 2 (row1 (dp 1 0) (dp 1 0)) (fun _ => dp 1 0) (fun i j => B2R (row1 (dp 1 0) (dp 1 0) i j)) (fun _ => B2R (dp 1 0)) /\
  legal_basis 1 2 (fun j => fval (vec2 (dp 0 0) (dp 1 (-1)) j)) (fun j => fval (vec2 (dp 2 0) (dp 1 0) j)) (vec2 BASIS LOWER) /\
  (forall j, (j < 2)%nat -> vec2 BASIS LOWER j <> BASIS -> Rbar_le (fval (vec2 (dp 0 0) (dp 1 (-1)) j)) (fval (vec2 (dp 2 0) (dp 1 0) j))) /\
  verify_feasibility CKO CKL 1 2 (vec2 (dp 0 0) (dp 1 (-1))) (vec2 (dp 2 0) (dp 1 0)) (row1 (dp 1 0) (dp 1 0)) (fun _ => dp 1 0) (vec2 BASIS LOWER) = Some TRUE /\
  hotstarted_feasible CKO CKL (fun _ _ _ _ => None) 1 2 (vec2 (dp 0 0) (dp 1 (-1))) (vec2 (dp 2 0) (dp 1 0)) (row1 (dp 1 0) (dp 1 0)) (fun _ => dp 1 0) (vec2 BASIS LOWER) = Some TRUE.
Proof.
  split; [|split; [|split; [|split]]].
  - split; [intros i [|j] Hi Hj|intros i Hi]; apply fval_dp; vm_compute; reflexivity.
  - split; [reflexivity|]. intros [|[|j]] Hj; [exact I| |lia]. cbn [vec2]. fv. reflexivity.
  - intros [|[|j]] Hj V; [exfalso; apply V; reflexivity| |lia]. cbn [vec2]. fv. cbn [Rbar_le]. dpval (dp 1 0). dpval (dp 1 (-1)). lra.
  - vm_compute. reflexivity.
  - vm_compute. reflexivity.
Qed.
(** x0 + x1 = 5 with 0 <= x0 <= 1 and 0 <= x1 <= 1 *)
Definition q5l : nat -> xq := fun _ => QFin 0.
Definition q5u : nat -> xq := fun _ => QFin 1.
Example C156_nonvacuous :
  stands_for q_ops (q_l (1 # 1000000) 0 (1 # 10000)) qval 1 2 (fun _ _ => QFin 1) (fun _ => QFin 5) (fun _ _ => Q2R 1) (fun _ => Q2R 5) /\
  legal_basis 1 2 (fun j => qval (q5l j)) (fun j => qval (q5u j)) (vec2 BASIS UPPER) /\
  verify_feasibility q_ops (q_l (1 # 1000000) 0 (1 # 10000)) 1 2 q5l q5u (fun _ _ => QFin 1) (fun _ => QFin 5) (vec2 BASIS UPPER) = Some FALSE.
Proof.
  split; [split; reflexivity|]. split; [split; [reflexivity|]; intros [|[|j]] Hj; [exact I|reflexivity|lia]|]. vm_compute. reflexivity.
Qed.
(** The same program with floats: the basic variable is decided to be above its range. *)
Example C156_nonvacuous_float :
  (let A := row1 (dp 1 0) (dp 1 0) in let p := compute_p 2 (vec2 BASIS UPPER) in
   match compute_B CKO CKL 1 A p with
   | Some B => match compute_x CKO CKL 1 2 (vec2 (dp 0 0) (dp 0 0)) (vec2 (dp 1 0) (dp 1 0)) A (fun _ => dp 5 0) (vec2 BASIS UPPER) p B with
               | Some x => is_determinate (l_gt CKL (x 0%nat) (dp 0 0)) && is_determinate (l_lt CKL (x 0%nat) (dp 1 0))
               | None => false end
   | None => false end) = true /\
  verify_feasibility CKO CKL 1 2 (vec2 (dp 0 0) (dp 0 0)) (vec2 (dp 1 0) (dp 1 0)) (row1 (dp 1 0) (dp 1 0)) (fun _ => dp 5 0) (vec2 BASIS UPPER) = Some FALSE.
Proof. split; vm_compute; reflexivity. Qed.
Example C157_nonvacuous : compute_p 4 (fun j => match j with 1%nat | 3%nat => BASIS | _ => LOWER end) = [1; 3; 0; 2]%nat /\ extend_p [3; 1]%nat 4 = Some [3; 1; 0; 2]%nat /\ extend_p [1; 1]%nat 4 = None.
Proof. repeat split; vm_compute; reflexivity. Qed.
Example C159_nonvacuous : consistency_check_p [BASIS; LOWER; BASIS] [2; 0]%nat = Some 2%nat /\ consistency_check_p [BASIS; LOWER; BASIS] [1; 0]%nat = None.
Proof. split; reflexivity. Qed.
Print Assumptions C155_feasible_partial.
Print Assumptions C155_feasible_rational_partial.
Print Assumptions C155_feasible_refuted.
Print Assumptions C155_fixed_refuted.
Print Assumptions C156_infeasible_partial.
Print Assumptions C156_infeasible_float_partial.
Print Assumptions C156_infeasible_refuted.
Print Assumptions C157_compute_p.
Print Assumptions C157_extend_p.
Print Assumptions C157_extend_p_fails.
Print Assumptions C157_compute_vt.
Print Assumptions C158_feasible_partial.
Print Assumptions C158_feasible_refuted.
Print Assumptions C159_check_partial.
Print Assumptions C159_check_refuted.
