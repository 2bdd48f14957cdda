(** The floating-point operations have the properties the tests rely on. *)
From Coq Require Import ZArith Reals List Lra Lia Bool Arith.
From Flocq Require Import Core IEEE754.BinarySingleNaN.
From Verif Require Import Float_Model Float_Spec Float_Proofs Logical_Model Bounds_Model Bounds_Spec Bounds_Proofs Box_Model Box_Float_Model.
From Verif Require Import Solver_Model Solver_Spec Solver_Float_Model Solver_Float_Proofs Optimiser_Model Optimiser_Spec Optimiser_Float_Model Optimiser_Proofs.
Local Open Scope R_scope.

Section FL.
  Context {prec emax : Z} {Hprec : Prec_gt_0 prec} {Hemax : Prec_lt_emax prec emax}.
  Notation fl := (binary_float prec emax).
  Notation bnd := (bounds prec emax).
  Variables (eps me : fl).
  Notation P := (ck_ops eps me).
  Notation en := (enc P fin_of).

  (** The reals in an exact interval. *)
  Definition in_ivl (i : fl * fl) (v : R) : Prop := contains (mkB (fst i) (snd i)) v.

  Lemma nan_b_no : forall a : bnd, nan_b a = false -> no_nan a.
  Proof using. intros a H. unfold nan_b in H. apply orb_false_elim in H. exact H. Qed.
  Lemma whole_contains : forall v, contains (whole : bnd) v. Proof using. intros v. split; reflexivity. Qed.
  Lemma ckw_contains : forall (a : bnd) v, (no_nan a -> contains a v) -> contains (ckw a) v.
  Proof using. intros a v H. unfold ckw. destruct (nan_b a) eqn:E; [apply whole_contains|apply H; apply nan_b_no; exact E]. Qed.
  Lemma ckw_nan : forall a : bnd, no_nan (ckw a).
  Proof using. intros a. unfold ckw. destruct (nan_b a) eqn:E; [split; reflexivity|apply nan_b_no; exact E]. Qed.
  Lemma ckl_true : forall (a : bnd) r, ckl a r = TRUE -> fin_b a = true /\ r = TRUE.
  Proof using. intros a r H. unfold ckl in H. destruct (fin_b a); [auto|discriminate]. Qed.
  Lemma lv_and_T : forall a b, lv_and a b = TRUE -> a = TRUE /\ b = TRUE. Proof using. intros [] []; cbn; intros; try discriminate; auto. Qed.
  Lemma lv_or_T : forall a b, lv_or a b = TRUE -> a = TRUE \/ b = TRUE. Proof using. intros [] []; cbn; intros; try discriminate; auto. Qed.
  Lemma if_T : forall c : bool, (if c then TRUE else UNLIKELY) = TRUE -> c = true. Proof using. intros []; congruence. Qed.
  Lemma mk_T : forall c, make_lv c = TRUE -> c = true. Proof using. intros []; cbn; congruence. Qed.
  Lemma le_T : forall a b : fl, lv_neg (if flt_le b a then FALSE else LIKELY) = TRUE -> flt_le b a = true.
  Proof using. intros a b. destruct (flt_le b a); cbn; congruence. Qed.

  Theorem fl_x_sound : sound_x P (fl_x eps me) fin_of (@B2R prec emax) in_ivl contains.
  Proof using.
    constructor; cbn [fl_x pt ival uiv x_num x_lower x_single x_cast x_has x_contains x_disjoint x_subset x_empty x_unit x_two x_widen x_meet u_num u_ivl u_pt u_zero u_sym u_add u_sub u_mul u_disjoint u_apart].
    - intros x. destruct (is_finite x) eqn:F; [apply contains_en; apply b_of_contains; exact F|apply en_free; rewrite fin_b_of; exact F].
    - intros [l u] x H. unfold fx_has in H. apply andb_prop in H. destruct H as [F H]. apply definitely_true in H. unfold i_contains in H. apply lv_and_T in H. destruct H as [H1 H2].
      apply mk_T in H1. apply mk_T in H2. split; [apply below_flt_le|apply above_flt_le]; assumption.
    - intros [l u] H. unfold fx_single in H. apply andb_prop in H. destruct H as [F H]. apply andb_prop in F. destruct F as [F G]. cbn [fst snd] in *. apply definitely_true in H. apply mk_T in H. cbn in H.
      apply (flt_eq_finite l u F G) in H. split.
      + split; cbn [b_l b_u fst snd]; [apply below_finite; [exact F|lra]|]. apply above_finite; [exact G|lra].
      + intros v [H1 H2]. cbn [b_l b_u fst snd] in *. apply (below_finite _ _ F) in H1. apply (above_finite _ _ G) in H2. lra.
    - intros i v H. apply contains_en. exact H.
    - intros [l u] x v H Hv. unfold fx_contains in H. apply ckl_true in H. destruct H as [F H]. cbn [fst snd] in H. apply (en_contains eps me _ _ F) in Hv.
      apply lv_and_T in H. destruct H as [H1 H2]. destruct Hv as [V1 V2].
      unfold b_le, b_ge, b_lt in *. cbn [b_of b_l b_u] in *. split; cbn [b_l b_u fst snd].
      + apply (refines_below l (b_l x)); [|exact V1]. destruct (flt_lt (b_u x) l); [discriminate|]. destruct (flt_le l (b_l x)); [reflexivity|discriminate].
      + apply (refines_above (b_u x) u); [|exact V2]. destruct (flt_lt u (b_l x)); [discriminate|]. destruct (flt_le (b_u x) u); [reflexivity|discriminate].
    - intros [l u] x v H Hv [H1 H2]. unfold fx_disjoint in H. apply ckl_true in H. destruct H as [F H]. cbn [fst snd b_l b_u] in *. apply (en_contains eps me _ _ F) in Hv. destruct Hv as [V1 V2].
      apply lv_or_T in H. destruct H as [H|H]; apply if_T in H; cbn in H.
      + pose proof (lt_true _ _ v v H H2 V1). lra.
      + pose proof (lt_true _ _ v v H V2 H1). lra.
    - intros [l u] x v H Hv. unfold fx_subset in H. apply ckl_true in H. destruct H as [F H]. cbn [fst snd] in H. apply (en_contains eps me _ _ F) in Hv. destruct Hv as [V1 V2].
      apply lv_and_T in H. destruct H as [H1 H2]. unfold e_ge, e_le, e_lt in *. cbn in H1, H2. apply le_T in H1. apply le_T in H2.
      split; cbn [b_l b_u fst snd]; [apply (refines_below l (b_l x))|apply (refines_above (b_u x) u)]; assumption.
    - intros [l u] a b t [A1 A2] [B1 B2] Ht. cbn [fst snd b_l b_u] in *. split; cbn [b_l b_u].
      + destruct l; cbn in *; auto; nra.
      + destruct u; cbn in *; auto; nra.
    - intros [l u] H v [H1 H2]. unfold fx_empty in H. apply definitely_true in H. apply mk_T in H. cbn in *. pose proof (lt_true _ _ v v H H2 H1). lra.
    - intros t Ht. apply contains_en. split; cbn [b_l b_u]; [apply below_finite; [reflexivity|cbn; lra]|apply above_finite; [apply fone_finite|rewrite fone_val; lra]].
    - apply contains_en. replace 2 with (1 + 1) by ring. assert (Q : contains (b1 : bnd) 1) by (unfold b1; rewrite <- fone_val; apply b_of_contains; apply fone_finite). apply b_add_contains; exact Q.
    - intros [l u] b v [H1 H2] [H3 H4]. unfold fx_meet. cbn [fst snd b_l b_u] in *. destruct (is_nan l || is_nan u) eqn:E; [split; assumption|]. apply orb_false_elim in E. destruct E as [E1 E2].
      assert (Q : contains (ckw b) v) by (apply ckw_contains; intros; split; assumption). destruct Q as [Q1 Q2]. destruct (ckw_nan b) as [N1 N2].
      split; cbn [b_l b_u fst snd]; [apply below_fmax_iff|apply above_fmin_iff]; auto.
    - intros [l u] b v H. unfold fx_meet in H. cbn [fst snd b_l b_u] in *. destruct (is_nan l || is_nan u) eqn:E; [exact H|]. apply orb_false_elim in E. destruct E as [E1 E2]. destruct (ckw_nan b) as [N1 N2].
      destruct H as [H1 H2]. cbn [fst snd b_l b_u] in *. apply below_fmax_iff in H1; [|assumption|assumption]. apply above_fmin_iff in H2; [|assumption|assumption]. split; tauto.
    - intros x v H. unfold fu_num. destruct (fin_b x) eqn:F; [apply (en_contains eps me _ _ F); exact H|apply whole_contains].
    - intros i v H. exact H.
    - intros x. unfold fu_pt. destruct (is_finite x) eqn:F; [apply b_of_contains; exact F|apply whole_contains].
    - pose proof (b_of_contains (fzero : fl) eq_refl) as Q. cbn in Q. exact Q.
    - split; cbn [b_l b_u]; [rewrite <- Ropp_0; apply below_fneg|]; apply above_finite; try apply fone_finite; rewrite fone_val; lra.
    - intros a b u v Ha Hb. apply ckw_contains. intros _. apply b_add_contains; assumption.
    - intros a b u v Ha Hb. apply ckw_contains. intros _. apply b_sub_contains; assumption.
    - intros a b u v Ha Hb. apply ckw_contains. intros N. apply b_mul_contains; assumption.
    - intros a b v H [A1 A2] [B1 B2]. unfold fu_disjoint in H. apply lv_or_T in H. destruct H as [H|H]; apply if_T in H; cbn in H.
      + pose proof (lt_true _ _ v v H B2 A1). lra.
      + pose proof (lt_true _ _ v v H A2 B1). lra.
    - intros a b v H [A1 A2] [B1 B2]. unfold fu_apart in H. apply if_T in H. cbn in H.
      pose proof (below_not_nan _ _ A1). pose proof (below_not_nan _ _ B1). pose proof (above_not_nan _ _ A2). pose proof (above_not_nan _ _ B2).
      assert (Q1 : below (fmax (b_l a) (b_l b)) v) by (apply below_fmax_iff; auto). assert (Q2 : above (fmin (b_u a) (b_u b)) v) by (apply above_fmin_iff; auto).
      pose proof (lt_true _ _ v v H Q2 Q1). lra.
  Qed.
End FL.
