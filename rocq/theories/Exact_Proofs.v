(** Proofs about exact rationals. *)
From Coq Require Import ZArith NArith QArith Qreals Reals List Lia Lra Bool Psatz.
From Coquelicot Require Import Rbar.
From Verif Require Import Exact_Model Exact_Spec.
Import ListNotations.
Local Open Scope R_scope.

Lemma Q2R_red : forall q, Q2R (Qred q) = Q2R q.
Proof. intro q. apply Qeq_eqR, Qred_correct. Qed.

Lemma sgn_q_pos : forall q, f_sgn q_ops q = POSITIVE <-> 0 < Q2R q.
Proof.
  intro q. rewrite <- RMicromega.Q2R_0. split; intro H.
  - apply Qlt_Rlt. unfold Qlt. cbn in *. destruct q as [[|n|n] d]; cbn in *; try discriminate. lia.
  - apply Rlt_Qlt in H. unfold Qlt in H. cbn in *. destruct q as [[|n|n] d]; cbn in *; try lia; reflexivity.
Qed.
Lemma sgn_q_neg : forall q, f_sgn q_ops q = NEGATIVE <-> Q2R q < 0.
Proof.
  intro q. rewrite <- RMicromega.Q2R_0. split; intro H.
  - apply Qlt_Rlt. unfold Qlt. cbn in *. destruct q as [[|n|n] d]; cbn in *; try discriminate. lia.
  - apply Rlt_Qlt in H. unfold Qlt in H. cbn in *. destruct q as [[|n|n] d]; cbn in *; try lia; reflexivity.
Qed.
Lemma sgn_q_zero : forall q, f_sgn q_ops q = ZERO <-> Q2R q = 0.
Proof.
  intro q. split; intro H.
  - cbn in H. destruct q as [[|n|n] d]; cbn in *; try discriminate. unfold Q2R; cbn; lra.
  - destruct (f_sgn q_ops q) eqn:E; [|reflexivity|].
    + apply sgn_q_neg in E. lra.
    + apply sgn_q_pos in E. lra.
Qed.

(** ** The extended operations, for any finite operations that are exact *)
Record exact_ops {F} (o : finite_ops F) (v : F -> R) (good : F -> Prop) : Prop := {
  eo_pos : forall f, f_sgn o f = POSITIVE <-> 0 < v f;
  eo_neg : forall f, f_sgn o f = NEGATIVE <-> v f < 0;
  eo_zero : v (f_zero o) = 0;
  eo_cmp : forall f g, match f_cmp o f g with Lt => v f < v g | Eq => v f = v g | Gt => v g < v f end;
  eo_opp : forall f, good f -> v (f_neg o f) = - v f;
  eo_hlf : forall f, good f -> v (f_hlf o f) = v f / 2;
  eo_abs : forall f, good f -> v (f_abs o f) = Rabs (v f);
  eo_sqr : forall f, good f -> v (f_sqr o f) = v f * v f;
  eo_add : forall f g, good f -> good g -> v (f_add o f g) = v f + v g;
  eo_sub : forall f g, good f -> good g -> v (f_sub o f g) = v f - v g;
  eo_mul : forall f g, good f -> good g -> v (f_mul o f g) = v f * v g
}.

Section Ext.
  Context {F} (o : finite_ops F) (v : F -> R) (good : F -> Prop).
  Hypothesis E : exact_ops o v good.
  Definition xgood (x : ext F) : Prop := match x with Fin f => good f | _ => True end.
  Notation mn := (meaning v).

  Lemma eo_zero_iff : forall f, f_sgn o f = ZERO <-> v f = 0.
  Proof using E.
    intro f. pose proof (eo_pos _ _ _ E f). pose proof (eo_neg _ _ _ E f).
    destruct (f_sgn o f); split; intro; try discriminate; try reflexivity.
    - assert (v f < 0) by (apply H0; reflexivity). lra.
    - destruct (Rtotal_order (v f) 0) as [A|[A|A]]; [|exact A|].
      + apply H0 in A. discriminate.
      + apply H in A. discriminate.
    - assert (0 < v f) by (apply H; reflexivity). lra.
  Qed.

  Lemma neg_sound : forall x, xgood x -> mn (x_neg o x) = lift1 Rbar_opp (mn x).
  Proof using E. intros [f| | |] G; cbn; try reflexivity. rewrite (eo_opp _ _ _ E) by exact G. reflexivity. Qed.
  Lemma hlf_sound : forall x, xgood x -> mn (x_hlf o x) = lift1 xhalf (mn x).
  Proof using E. intros [f| | |] G; cbn; try reflexivity. rewrite (eo_hlf _ _ _ E) by exact G. reflexivity. Qed.
  Lemma abs_sound : forall x, xgood x -> mn (x_abs o x) = lift1 Rbar_abs (mn x).
  Proof using E. intros [f| | |] G; cbn; try reflexivity. rewrite (eo_abs _ _ _ E) by exact G. reflexivity. Qed.
  Lemma add_sound : forall x y, xgood x -> xgood y -> mn (x_add o x y) = lift2 xplus (mn x) (mn y).
  Proof using E.
    intros [f| | |] [g| | |] G H; cbn; try reflexivity. rewrite (eo_add _ _ _ E) by assumption. reflexivity. Qed.
  Lemma sub_sound : forall x y, xgood x -> xgood y -> mn (x_sub o x y) = lift2 xminus (mn x) (mn y).
  Proof using E.
    intros [f| | |] [g| | |] G H; cbn; try reflexivity. rewrite (eo_sub _ _ _ E) by assumption. reflexivity. Qed.

  Lemma mult'_p_pos : forall r, 0 < r -> Rbar_mult' (Finite r) p_infty = Some p_infty.
  Proof using. intros r H. cbn. destruct (Rle_dec 0 r) as [L|L]; [|exfalso; lra]. destruct (Rle_lt_or_eq_dec 0 r L); [reflexivity|exfalso; lra]. Qed.
  Lemma mult'_p_neg : forall r, r < 0 -> Rbar_mult' (Finite r) p_infty = Some m_infty.
  Proof using. intros r H. cbn. destruct (Rle_dec 0 r); [exfalso; lra|reflexivity]. Qed.
  Lemma mult'_p_zero : Rbar_mult' (Finite 0) p_infty = None.
  Proof using. cbn. destruct (Rle_dec 0 0); [|exfalso; lra]. destruct (Rle_lt_or_eq_dec 0 0 r); [exfalso; lra|reflexivity]. Qed.
  Lemma mult'_m_pos : forall r, 0 < r -> Rbar_mult' (Finite r) m_infty = Some m_infty.
  Proof using. intros r H. cbn. destruct (Rle_dec 0 r) as [L|L]; [|exfalso; lra]. destruct (Rle_lt_or_eq_dec 0 r L); [reflexivity|exfalso; lra]. Qed.
  Lemma mult'_m_neg : forall r, r < 0 -> Rbar_mult' (Finite r) m_infty = Some p_infty.
  Proof using. intros r H. cbn. destruct (Rle_dec 0 r); [exfalso; lra|reflexivity]. Qed.
  Lemma mult'_m_zero : Rbar_mult' (Finite 0) m_infty = None.
  Proof using. cbn. destruct (Rle_dec 0 0); [|exfalso; lra]. destruct (Rle_lt_or_eq_dec 0 0 r); [exfalso; lra|reflexivity]. Qed.

  Lemma mul_sound : forall x y, xgood x -> xgood y -> mn (x_mul o x y) = lift2 xmult (mn x) (mn y).
  Proof using E.
    assert (FP : forall f, mn (set_inf (smul (f_sgn o f) POSITIVE)) = Rbar_mult' (Finite (v f)) p_infty).
    { intro f. destruct (f_sgn o f) eqn:S.
      - apply (eo_neg _ _ _ E) in S. rewrite mult'_p_neg by exact S. reflexivity.
      - apply eo_zero_iff in S. rewrite S, mult'_p_zero. reflexivity.
      - apply (eo_pos _ _ _ E) in S. rewrite mult'_p_pos by exact S. reflexivity. }
    assert (FM : forall f, mn (set_inf (smul (f_sgn o f) NEGATIVE)) = Rbar_mult' (Finite (v f)) m_infty).
    { intro f. destruct (f_sgn o f) eqn:S.
      - apply (eo_neg _ _ _ E) in S. rewrite mult'_m_neg by exact S. reflexivity.
      - apply eo_zero_iff in S. rewrite S, mult'_m_zero. reflexivity.
      - apply (eo_pos _ _ _ E) in S. rewrite mult'_m_pos by exact S. reflexivity. }
    assert (C : forall s t, smul s t = smul t s) by (intros [] []; reflexivity).
    intros [f| | |] [g| | |] G H; try reflexivity.
    - cbn. rewrite (eo_mul _ _ _ E) by assumption. reflexivity.
    - exact (FP f).
    - exact (FM f).
    - cbn. destruct (f_sgn o f); reflexivity.
    - cbn [x_mul sgn]. rewrite C, FP. apply Rbar_mult'_comm.
    - cbn [x_mul sgn]. rewrite C, FM. apply Rbar_mult'_comm.
  Qed.

  Lemma sqr_sound : forall x, xgood x -> mn (x_sqr o x) = lift2 xmult (mn x) (mn x).
  Proof using E.
    intros [f| | |] G; cbn; try reflexivity. rewrite (eo_sqr _ _ _ E) by exact G. reflexivity. Qed.

  Lemma cmp_sound : forall x y a b, mn x = Some a -> mn y = Some b ->
    (x_cmp o x y = cmp_LESS /\ Rbar_lt a b) \/ (x_cmp o x y = cmp_EQUAL /\ a = b) \/ (x_cmp o x y = cmp_GREATER /\ Rbar_lt b a).
  Proof using E.
    intros x y a b Hx Hy.
    destruct x as [f| | |], y as [g| | |]; cbn in *; try discriminate;
      injection Hx as <-; injection Hy as <-; cbn;
      try (left; split; [reflexivity|exact I]); try (right; left; split; reflexivity);
      try (right; right; split; [reflexivity|exact I]).
    pose proof (eo_cmp _ _ _ E f g) as C. destruct (f_cmp o f g); cbn.
    - right; left. rewrite C. auto.
    - left. auto.
    - right; right. auto.
  Qed.

  Lemma max_sound : forall x y a b, mn x = Some a -> mn y = Some b ->
    exists c, mn (x_max o x y) = Some c /\ is_max a b c.
  Proof using E.
    intros x y a b Hx Hy.
    destruct x as [f| | |], y as [g| | |]; cbn in *; try discriminate;
      injection Hx as <-; injection Hy as <-;
      try (eexists; split; [reflexivity|]; split; [auto|split; cbn; auto; lra]).
    pose proof (eo_cmp _ _ _ E f g) as C. destruct (f_cmp o f g); cbn;
      eexists; (split; [reflexivity|]); (split; [auto|split; cbn; lra]).
  Qed.
  Lemma min_sound : forall x y a b, mn x = Some a -> mn y = Some b ->
    exists c, mn (x_min o x y) = Some c /\ is_min a b c.
  Proof using E.
    intros x y a b Hx Hy.
    destruct x as [f| | |], y as [g| | |]; cbn in *; try discriminate;
      injection Hx as <-; injection Hy as <-;
      try (eexists; split; [reflexivity|]; split; [auto|split; cbn; auto; lra]).
    pose proof (eo_cmp _ _ _ E f g) as C. destruct (f_cmp o f g); cbn;
      eexists; (split; [reflexivity|]); (split; [auto|split; cbn; lra]).
  Qed.
  Lemma max_nan : forall x y, mn x = None \/ mn y = None -> mn (x_max o x y) = None /\ mn (x_min o x y) = None.
  Proof using. intros [f| | |] [g| | |] [H|H]; cbn in *; try discriminate; auto. Qed.
End Ext.

Lemma Q2R_make : forall n d, Q2R (n # d) = IZR n / IZR (Zpos d).
Proof. reflexivity. Qed.

Lemma q_exact : exact_ops q_ops Q2R (fun _ => True).
Proof.
  split.
  - apply sgn_q_pos.
  - apply sgn_q_neg.
  - apply RMicromega.Q2R_0.
  - intros f g. cbn [f_cmp q_ops]. destruct (Qcompare_spec f g) as [H|H|H].
    + apply Qeq_eqR, H.
    + apply Qlt_Rlt, H.
    + apply Qlt_Rlt, H.
  - intros f _. apply Q2R_opp.
  - intros f _. cbn [f_hlf q_ops]. rewrite Q2R_red, Q2R_mult. unfold Q2R at 2; cbn. field.
  - intros [n d] _. cbn [f_abs q_ops Qnum Qden]. rewrite !Q2R_make, abs_IZR. unfold Rdiv.
    rewrite Rabs_mult. f_equal. rewrite Rabs_right; [reflexivity|]. apply Rle_ge, Rlt_le, Rinv_0_lt_compat. apply IZR_lt; lia.
  - intros f _. cbn [f_sqr q_ops]. rewrite Q2R_red, Q2R_mult. reflexivity.
  - intros f g _ _. cbn [f_add q_ops]. rewrite Q2R_red, Q2R_plus. reflexivity.
  - intros f g _ _. cbn [f_sub q_ops]. rewrite Q2R_red, Q2R_minus. reflexivity.
  - intros f g _ _. cbn [f_mul q_ops]. rewrite Q2R_red, Q2R_mult. reflexivity.
Qed.

Lemma xgood_q : forall x, xgood (fun _ : Q => True) x.
Proof. intros [f| | |]; exact I. Qed.

(** ** Division *)
Lemma qnum_zero : forall q : Q, Qnum q = 0%Z <-> Q2R q = 0.
Proof.
  intro q. rewrite <- sgn_q_zero. cbn. destruct (Qnum q); cbn; split; intro; try discriminate; reflexivity.
Qed.

Lemma rec_sound : forall x, rmean x <> Some (Finite 0) ->
  exists z, r_rec x = Some z /\ rmean z = lift1 Rbar_inv (rmean x).
Proof.
  intros [q| | |] H; unfold r_rec; cbn [x_rec f_rec q_ops f_zero].
  - destruct (Z.eqb_spec (Qnum q) 0) as [Z|Z].
    + exfalso; apply H. apply qnum_zero in Z. cbn. rewrite Z. reflexivity.
    + eexists; split; [reflexivity|]. unfold rmean; cbn [meaning lift1 option_map Rbar_inv]. rewrite Q2R_red, Q2R_inv; [reflexivity|].
      intro A. apply Z. apply qnum_zero. rewrite (Qeq_eqR _ _ A). apply RMicromega.Q2R_0.
  - eexists; split; [reflexivity|]. cbn. rewrite RMicromega.Q2R_0. reflexivity.
  - eexists; split; [reflexivity|]. cbn. rewrite RMicromega.Q2R_0. reflexivity.
  - eexists; split; reflexivity.
Qed.
Lemma rec_zero : forall x, rmean x = Some (Finite 0) -> r_rec x = None.
Proof.
  intros [q| | |] H; cbn in *; try discriminate. injection H as H. apply qnum_zero in H. rewrite H. reflexivity.
Qed.

Lemma div_sound : forall x y, rmean y <> Some (Finite 0) ->
  exists z, r_div x y = Some z /\ rmean z = lift2 xdiv (rmean x) (rmean y).
Proof.
  intros x y H. destruct (rec_sound y H) as [w [Hw Mw]].
  assert (G : (exists p q, x = Fin p /\ y = Fin q) \/ r_div x y = option_map (r_mul x) (r_rec y)).
  { destruct x as [p| | |], y as [q| | |]; try (right; reflexivity). left; eauto. }
  destruct G as [[p [q [-> ->]]]|G].
  - unfold r_div; cbn [x_div f_div q_ops]. destruct (Z.eqb_spec (Qnum q) 0) as [Z|Z].
    { exfalso; apply H. apply qnum_zero in Z. cbn. rewrite Z. reflexivity. }
    eexists; split; [reflexivity|]. unfold rmean; cbn [meaning lift2]; unfold xdiv; cbn [Rbar_inv Rbar_mult']. rewrite Q2R_red, Q2R_div; [reflexivity|].
    intro A. apply Z. apply qnum_zero. rewrite (Qeq_eqR _ _ A). apply RMicromega.Q2R_0.
  - rewrite G, Hw. eexists; split; [reflexivity|].
    unfold r_mul, rmean. rewrite (mul_sound _ _ _ q_exact) by apply xgood_q.
    fold (rmean w) (rmean x) (rmean y). rewrite Mw. destruct (rmean x), (rmean y); reflexivity.
Qed.
Lemma div_zero : forall x y, rmean y = Some (Finite 0) -> r_div x y = None.
Proof.
  intros x y H. pose proof (rec_zero y H) as Z. unfold r_rec in Z. destruct y as [q| | |]; try discriminate H.
  cbn in Z. destruct (Z.eqb (Qnum q) 0) eqn:E; [|discriminate].
  destruct x; cbn; rewrite E; reflexivity.
Qed.

(** ** Powers *)
Lemma xpow_some : forall r n, xpow (Some (Finite r)) n = Some (Finite (r ^ n)).
Proof. intros r n; induction n as [|n IH]; [reflexivity|]. cbn [xpow]. rewrite IH. reflexivity. Qed.
Lemma xpow_p : forall n, xpow (Some p_infty) (S n) = Some p_infty.
Proof.
  induction n as [|n IH]; [|cbn [xpow] in *; rewrite IH; reflexivity]. cbn [xpow lift2]. unfold xmult.
  rewrite Rbar_mult'_comm. apply mult'_p_pos. lra.
Qed.
Lemma xpow_m : forall n, xpow (Some m_infty) (S n) = Some (if Nat.even n then m_infty else p_infty).
Proof.
  induction n as [|n IH].
  - cbn [xpow lift2]. unfold xmult. rewrite Rbar_mult'_comm, mult'_m_pos by lra. reflexivity.
  - change (xpow (Some m_infty) (S (S n))) with (lift2 xmult (Some m_infty) (xpow (Some m_infty) (S n))).
    rewrite IH, Nat.even_succ, <- Nat.negb_even. destruct (Nat.even n); reflexivity.
Qed.
Lemma xpow_nan : forall n, xpow None (S n) = None.
Proof. reflexivity. Qed.

Lemma r_mul_sound : forall x y, rmean (r_mul x y) = lift2 xmult (rmean x) (rmean y).
Proof. intros. apply (mul_sound _ _ _ q_exact); apply xgood_q. Qed.

(** The loop multiplies [r] by the [m]-th power of [p]. *)
Lemma pow_loop_fin : forall m r p a b, rmean r = Some (Finite a) -> rmean p = Some (Finite b) ->
  rmean (r_pow_loop r p m) = Some (Finite (a * b ^ Pos.to_nat m)).
Proof.
  induction m as [m IH|m IH|]; intros r p a b Hr Hp; cbn [r_pow_loop].
  - rewrite (IH _ _ (a * b) (b * b)).
    + do 2 f_equal. rewrite Pos2Nat.inj_xI. cbn [pow]. rewrite pow_mult. cbn [pow]. rewrite Rmult_1_r. ring.
    + rewrite r_mul_sound, Hr, Hp. reflexivity.
    + rewrite r_mul_sound, Hp. reflexivity.
  - rewrite (IH _ _ a (b * b)).
    + do 2 f_equal. rewrite Pos2Nat.inj_xO. rewrite pow_mult. cbn [pow]. rewrite Rmult_1_r. ring.
    + exact Hr.
    + rewrite r_mul_sound, Hp. reflexivity.
  - rewrite r_mul_sound, Hr, Hp. cbn [lift2]; unfold xmult; cbn [Rbar_mult']. change (Pos.to_nat 1) with 1%nat. rewrite pow_1. reflexivity.
Qed.
Lemma pow_loop_p : forall m r, rmean r = Some (Finite 1) \/ rmean r = Some p_infty ->
  rmean (r_pow_loop r PInf m) = Some p_infty.
Proof.
  assert (S : forall r, rmean r = Some (Finite 1) \/ rmean r = Some p_infty -> rmean (r_mul r PInf) = Some p_infty).
  { intros r [H|H]; rewrite r_mul_sound, H; cbn [lift2 rmean meaning]; [apply mult'_p_pos; lra|reflexivity]. }
  induction m as [m IH|m IH|]; intros r H; cbn [r_pow_loop]; change (r_mul PInf PInf) with (@PInf Q); auto.
Qed.
Lemma pow_loop_p2 : forall m r, rmean r = Some m_infty -> rmean (r_pow_loop r PInf m) = Some m_infty.
Proof.
  assert (S : forall r, rmean r = Some m_infty -> rmean (r_mul r PInf) = Some m_infty).
  { intros r H; rewrite r_mul_sound, H; reflexivity. }
  induction m as [m IH|m IH|]; intros r H; cbn [r_pow_loop]; change (r_mul PInf PInf) with (@PInf Q); auto.
Qed.
Lemma pow_loop_nan : forall m r, rmean (r_pow_loop r NaN m) = None.
Proof.
  assert (S : forall r, rmean (r_mul r NaN) = None).
  { intro r; rewrite r_mul_sound; destruct (rmean r); reflexivity. }
  induction m as [m IH|m IH|]; intros r; cbn [r_pow_loop]; change (r_mul NaN NaN) with (@NaN Q); auto.
Qed.

Lemma pow_sound : forall x m, rmean (r_pow x m) = xpow (rmean x) (N.to_nat m).
Proof.
  assert (O : rmean (Fin 1%Q) = Some (Finite 1)) by (cbn; unfold Q2R; cbn; do 2 f_equal; field).
  intros x [|m]; [exact O|]. cbn [r_pow N.to_nat].
  destruct x as [q| | |].
  - rewrite (pow_loop_fin _ _ _ 1 (Q2R q)); [|exact O|reflexivity].
    cbn [rmean meaning]. rewrite xpow_some, Rmult_1_l. reflexivity.
  - rewrite pow_loop_p by (left; exact O). destruct (Pos2Nat.is_succ m) as [n ->].
    symmetry. apply xpow_p.
  - cbn [rmean meaning]. destruct m as [m|m|]; cbn [r_pow_loop].
    + change (r_mul NInf NInf) with (@PInf Q). change (r_mul (Fin 1%Q) NInf) with (@NInf Q).
      rewrite pow_loop_p2 by reflexivity. rewrite Pos2Nat.inj_xI. rewrite xpow_m.
      rewrite Nat.even_mul. reflexivity.
    + change (r_mul NInf NInf) with (@PInf Q). rewrite pow_loop_p by (left; exact O).
      rewrite Pos2Nat.inj_xO. destruct (Pos2Nat.is_succ m) as [n ->].
      replace (2 * S n)%nat with (S (S (2 * n))) by lia. rewrite xpow_m.
      rewrite Nat.even_succ, <- Nat.negb_even, Nat.even_mul. reflexivity.
    + change (Pos.to_nat 1) with 1%nat. rewrite xpow_m. reflexivity.
  - rewrite pow_loop_nan. destruct (Pos2Nat.is_succ m) as [n ->]. reflexivity.
Qed.

(** ** Canonical form *)
Lemma qred_idem : forall q, Qred (Qred q) = Qred q.
Proof. intro q. apply Qred_complete, Qred_correct. Qed.
Lemma qred_opp_canon : forall q, Qred q = q -> Qred (- q) = (- q)%Q.
Proof. intros q H. rewrite Qred_opp, H. reflexivity. Qed.

Lemma canon_set_inf : forall s, canonical (set_inf s).
Proof. intros []; exact I. Qed.

Lemma canon_abs : forall x, canonical x -> canonical (r_abs x).
Proof.
  intros [q| | |] H; try exact I. cbn in *. destruct q as [[|n|n] d]; cbn [Qnum Qden Z.abs] in *.
  - exact H.
  - exact H.
  - apply (qred_opp_canon (Zneg n # d)) in H. exact H.
Qed.

Lemma canonical_ops : forall x y, canonical x -> canonical y ->
  canonical (r_add x y) /\ canonical (r_sub x y) /\ canonical (r_mul x y) /\ canonical (r_neg x) /\
  canonical (r_hlf x) /\ canonical (r_sqr x) /\ canonical (r_abs x) /\ canonical (r_max x y) /\ canonical (r_min x y).
Proof.
  intros x y Hx Hy.
  assert (A : canonical (r_abs x)) by (apply canon_abs; exact Hx).
  split; [|split; [|split; [|split; [|split; [|split; [|split; [exact A|split]]]]]]].
  - destruct x as [p| | |], y as [q| | |]; try exact I; try (apply canon_set_inf). apply qred_idem.
  - destruct x as [p| | |], y as [q| | |]; try exact I; try (apply canon_set_inf). apply qred_idem.
  - destruct x as [p| | |], y as [q| | |]; try (apply canon_set_inf). apply qred_idem.
  - destruct x; try exact I. apply qred_opp_canon. exact Hx.
  - destruct x; try exact I. apply qred_idem.
  - destruct x; try exact I. apply qred_idem.
  - destruct x as [q| | |], y as [p| | |]; try exact I; try exact Hx; try exact Hy.
    unfold r_max. cbn [x_max]. destruct (f_cmp q_ops q p); assumption.
  - destruct x as [q| | |], y as [p| | |]; try exact I; try exact Hx; try exact Hy.
    unfold r_min. cbn [x_min]. destruct (f_cmp q_ops q p); assumption.
Qed.
Lemma some_canonical : forall o z, Some o = Some z -> canonical o -> canonical z.
Proof. intros o z E H. congruence. Qed.
Lemma canonical_rec : forall x z, canonical x -> r_rec x = Some z -> canonical z.
Proof.
  intros [q| | |] z H E; unfold r_rec in E; cbn [x_rec f_rec f_zero q_ops option_map] in E; try (injection E as <-; reflexivity || exact I).
  destruct (Qnum q =? 0)%Z; [discriminate|]. apply (some_canonical _ _ E). apply qred_idem.
Qed.
Lemma canonical_div : forall x y z, canonical x -> canonical y -> r_div x y = Some z -> canonical z.
Proof.
  intros x y z Hx Hy E.
  assert (G : (exists p q, x = Fin p /\ y = Fin q) \/ r_div x y = option_map (r_mul x) (r_rec y)).
  { destruct x as [p| | |], y as [q| | |]; try (right; reflexivity). left; eauto. }
  destruct G as [[p [q [-> ->]]]|G].
  - unfold r_div in E; cbn [x_div f_div q_ops] in E. destruct (Qnum q =? 0)%Z; [discriminate|]. apply (some_canonical _ _ E). apply qred_idem.
  - rewrite G in E. destruct (r_rec y) as [w|] eqn:W; [|discriminate]. injection E as <-.
    apply canonical_ops; [exact Hx|]. exact (canonical_rec y w Hy W).
Qed.
Lemma canonical_pow : forall x m, canonical x -> canonical (r_pow x m).
Proof.
  assert (L : forall m r p, canonical r -> canonical p -> canonical (r_pow_loop r p m)).
  { induction m as [m IH|m IH|]; intros r p Hr Hp; cbn [r_pow_loop]; try apply IH;
      try (apply canonical_ops; assumption); exact Hr. }
  intros x [|m] H; [reflexivity|]. apply L; [reflexivity|exact H].
Qed.
Lemma canonical_make : forall n d, canonical (r_make n d).
Proof. intros n [|d|d]; [destruct n; exact I| |]; apply qred_idem. Qed.

Lemma make_mean : forall n d, (d <> 0)%Z -> rmean (r_make n d) = Some (Finite (IZR n / IZR d)).
Proof.
  intros n [|d|d] H; [contradiction| |]; cbn [r_make rmean meaning]; rewrite Q2R_red, Q2R_make; [reflexivity|].
  do 2 f_equal. rewrite opp_IZR. change (Zneg d) with (- Zpos d)%Z. rewrite opp_IZR. field.
  apply not_0_IZR; lia.
Qed.

(** ** Order *)
Lemma lt_sound : forall x y a b, rmean x = Some a -> rmean y = Some b -> r_lt x y = true <-> Rbar_lt a b.
Proof.
  intros x y a b Hx Hy. unfold r_lt, r_cmp.
  destruct (cmp_sound _ _ _ q_exact x y a b Hx Hy) as [[E L]|[[E L]|[E L]]]; rewrite E; cbn.
  - split; [intro; exact L|reflexivity].
  - subst b. split; [discriminate|]. destruct a; cbn; try tauto. intro; lra.
  - split; [discriminate|]. intro H. exfalso. destruct a, b; cbn in *; try tauto; lra.
Qed.
Lemma le_not_lt : forall a b, Rbar_le a b <-> ~ Rbar_lt b a.
Proof.
  intros a b. split.
  - intros H L. destruct a, b; cbn in *; try tauto; lra.
  - apply Rbar_not_lt_le.
Qed.
Lemma le_sound : forall x y a b, rmean x = Some a -> rmean y = Some b -> r_le x y = true <-> Rbar_le a b.
Proof.
  intros x y a b Hx Hy. unfold r_le. rewrite negb_true_iff, le_not_lt, <- (lt_sound y x b a Hy Hx).
  destruct (r_lt y x); split; intro H; try discriminate; try reflexivity; try (intro; discriminate).
  exfalso; apply H; reflexivity.
Qed.
Lemma ge_sound : forall x y a b, rmean x = Some a -> rmean y = Some b -> r_ge x y = true <-> Rbar_le b a.
Proof. intros x y a b Hx Hy. apply (le_sound y x b a Hy Hx). Qed.
Lemma gt_sound : forall x y a b, rmean x = Some a -> rmean y = Some b -> r_gt x y = true <-> Rbar_lt b a.
Proof. intros x y a b Hx Hy. apply (lt_sound y x b a Hy Hx). Qed.

Lemma eq_sound : forall x y, canonical x -> canonical y ->
  r_eq x y = true <-> (rmean x = rmean y /\ rmean x <> None).
Proof.
  intros x y Hx Hy. destruct x as [p| | |], y as [q| | |]; cbn; split; intro H; try discriminate;
    try (destruct H as [H _]; discriminate H); try (split; [reflexivity|discriminate]);
    try (exfalso; destruct H as [_ H]; apply H; reflexivity); try reflexivity.
  - apply andb_true_iff in H as [A B]. apply Z.eqb_eq in A. apply Pos.eqb_eq in B.
    destruct p, q; cbn in *; subst. split; [reflexivity|discriminate].
  - destruct H as [H _]. injection H as H. apply eqR_Qeq in H. cbn in Hx, Hy.
    assert (p = q) as ->. { rewrite <- Hx, <- Hy. apply Qred_complete. exact H. }
    rewrite Z.eqb_refl, Pos.eqb_refl. reflexivity.
Qed.

(** ** Rounding *)
Lemma floor_frac : forall n d, (0 < d)%Z -> is_floor (IZR n / IZR d) (n / d).
Proof.
  intros n d H. assert (D : 0 < IZR d) by (apply IZR_lt; lia).
  pose proof (Z_div_mod_eq_full n d) as E. pose proof (Z.mod_pos_bound n d H) as B.
  unfold is_floor. split.
  - apply Rmult_le_reg_r with (IZR d); [exact D|]. unfold Rdiv. rewrite Rmult_assoc, Rinv_l, Rmult_1_r by lra.
    rewrite <- mult_IZR. apply IZR_le. lia.
  - apply Rmult_lt_reg_r with (IZR d); [exact D|]. unfold Rdiv. rewrite Rmult_assoc, Rinv_l, Rmult_1_r by lra.
    rewrite <- plus_IZR, <- mult_IZR. apply IZR_lt. lia.
Qed.
Lemma ceil_frac : forall n d, (0 < d)%Z -> is_ceil (IZR n / IZR d) (- (- n / d)).
Proof.
  intros n d H. destruct (floor_frac (- n) d H) as [A B]. rewrite opp_IZR in A, B.
  assert (IZR d <> 0) by (apply not_0_IZR; lia).
  unfold is_ceil. rewrite opp_IZR. replace (- IZR n / IZR d) with (- (IZR n / IZR d)) in A, B by (field; assumption). lra.
Qed.

Lemma round_frac : forall n d, (0 < d)%Z ->
  is_round (IZR n / IZR d) (Z.quot (if (0 <=? 2 * n)%Z then 2 * n + d else 2 * n - d) (2 * d)).
Proof.
  intros n d H. assert (D : 0 < IZR d) by (apply IZR_lt; lia).
  assert (G : forall z, (2 * Z.abs (n - z * d) <= d)%Z ->
     ((2 * Z.abs (n - z * d) = d)%Z -> (Z.abs n <= Z.abs z * d)%Z) -> is_round (IZR n / IZR d) z).
  { intros z A B. assert (X : IZR n / IZR d - IZR z = IZR (n - z * d) / IZR d) by (rewrite minus_IZR, mult_IZR; field; lra).
    assert (Y : Rabs (IZR n / IZR d - IZR z) = IZR (Z.abs (n - z * d)) / IZR d).
    { rewrite X. unfold Rdiv. rewrite Rabs_mult, Rabs_inv, (Rabs_right (IZR d)), abs_IZR by lra. reflexivity. }
    apply IZR_le in A. rewrite mult_IZR in A.
    split.
    - rewrite Y. apply Rmult_le_reg_r with (IZR d); [exact D|]. unfold Rdiv. rewrite Rmult_assoc, Rinv_l by lra. lra.
    - rewrite Y. intro T. assert (2 * Z.abs (n - z * d) = d)%Z.
      { apply eq_IZR. rewrite mult_IZR. apply (f_equal (fun t => t * IZR d * 2)) in T. unfold Rdiv in T.
        rewrite Rmult_assoc, Rmult_assoc, <- (Rmult_assoc (/ IZR d)), Rinv_l in T by lra. lra. }
      specialize (B H0). unfold Rdiv. rewrite Rabs_mult, Rabs_inv, (Rabs_right (IZR d)), <- !abs_IZR by lra.
      apply IZR_le in B. rewrite mult_IZR in B. apply Rmult_le_reg_r with (IZR d); [exact D|].
      rewrite Rmult_assoc, Rinv_l by lra. lra. }
  apply G.
  - destruct (Z.leb_spec 0 (2 * n)) as [P|P].
    + rewrite Z.quot_div_nonneg by lia. pose proof (Z_div_mod_eq_full (2 * n + d) (2 * d)).
      pose proof (Z.mod_pos_bound (2 * n + d) (2 * d)). nia.
    + replace (2 * n - d)%Z with (- (- (2 * n) + d))%Z by lia.
      rewrite Z.quot_opp_l by lia. rewrite Z.quot_div_nonneg by lia.
      pose proof (Z_div_mod_eq_full (- (2 * n) + d) (2 * d)).
      pose proof (Z.mod_pos_bound (- (2 * n) + d) (2 * d)). nia.
  - destruct (Z.leb_spec 0 (2 * n)) as [P|P].
    + rewrite Z.quot_div_nonneg by lia. pose proof (Z_div_mod_eq_full (2 * n + d) (2 * d)).
      pose proof (Z.mod_pos_bound (2 * n + d) (2 * d)).
      assert (0 <= (2 * n + d) / (2 * d))%Z by (apply Z.div_pos; lia). intro T. nia.
    + replace (2 * n - d)%Z with (- (- (2 * n) + d))%Z by lia.
      rewrite Z.quot_opp_l by lia. rewrite Z.quot_div_nonneg by lia.
      pose proof (Z_div_mod_eq_full (- (2 * n) + d) (2 * d)).
      pose proof (Z.mod_pos_bound (- (2 * n) + d) (2 * d)).
      assert (0 <= (- (2 * n) + d) / (2 * d))%Z by (apply Z.div_pos; lia). intro T. nia.
Qed.
