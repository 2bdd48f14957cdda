(** The checked floating-point arithmetic satisfies what the solvers need. *)
From Coq Require Import ZArith Reals List Bool Arith Lra Lia.
From Flocq Require Import Core IEEE754.BinarySingleNaN.
From Verif Require Import Float_Model Float_Spec Float_Proofs Logical_Model Bounds_Model Bounds_Spec Bounds_Proofs Box_Float_Model Ball_Proofs Box_Num_Proofs Solver_Model Solver_Spec Solver_Float_Model.
Import ListNotations.
Local Open Scope R_scope.

Section FL.
  Context {prec emax : Z} {Hprec : Prec_gt_0 prec} {Hemax : Prec_lt_emax prec emax}.
  Notation fl := (binary_float prec emax).
  Notation bnd := (bounds prec emax).
  Variables (eps me : fl).
  Hypothesis Fme : is_finite me = true.
  Notation P := (ck_ops eps me).

  (** The interval of reals bounds stand for: the whole line unless both ends are finite. *)
  Definition fin_of (a : bnd) : option (R * R) := if fin_b a then Some (B2R (b_l a), B2R (b_u a)) else None.
  Notation en := (enc P fin_of).

  Lemma fin_bE : forall a : bnd, fin_b a = true -> finite_bounds a.
  Proof using. intros a H. unfold fin_b in H. apply andb_prop in H. exact H. Qed.
  Lemma en_contains : forall (a : bnd) v, fin_b a = true -> (en a v <-> contains a v).
  Proof using.
    intros a v H. unfold enc, fin_of. rewrite H. destruct (fin_bE a H) as [F G]. unfold contains. rewrite (below_finite _ v F), (above_finite _ v G). reflexivity.
  Qed.
  Lemma contains_en : forall (a : bnd) v, contains a v -> en a v.
  Proof using. intros a v H. destruct (fin_b a) eqn:E; [apply en_contains; assumption|]. unfold enc, fin_of. rewrite E. exact I. Qed.
  Lemma en_free : forall (a : bnd) v, fin_b a = false -> en a v.
  Proof using. intros a v E. unfold enc, fin_of. rewrite E. exact I. Qed.
  Lemma whole_free : forall v, en (whole : bnd) v.
  Proof using. intros v. apply en_free. reflexivity. Qed.
  Lemma fin_whole : fin_of (whole : bnd) = None. Proof using. reflexivity. Qed.
  Lemma fin_of_ne : forall a : bnd, fin_b a = true -> fin_of a <> None.
  Proof using. intros a H. unfold fin_of. rewrite H. discriminate. Qed.

  Lemma ck2_sound : forall f (a b : bnd) u v w, en a u -> en b v -> (finite_bounds a -> finite_bounds b -> contains a u -> contains b v -> contains (f a b) w) -> en (ck2 f a b) w.
  Proof using.
    intros f a b u v w Ha Hb H. unfold ck2. destruct (fin_b a) eqn:Ea; cbn [andb]; [|apply whole_free]. destruct (fin_b b) eqn:Eb; [|apply whole_free].
    apply contains_en. apply H; [apply fin_bE; exact Ea|apply fin_bE; exact Eb|apply en_contains; assumption|apply en_contains; assumption].
  Qed.
  Lemma ck2_fin : forall f (a b : bnd), fin_of (ck2 f a b) <> None -> fin_of a <> None /\ fin_of b <> None.
  Proof using.
    intros f a b H. unfold ck2 in H. destruct (fin_b a) eqn:Ea, (fin_b b) eqn:Eb; cbn [andb] in H; try (exfalso; apply H; reflexivity). split; apply fin_of_ne; assumption.
  Qed.

  Existing Instance valid_fexp.
  Lemma value_between : forall a : bnd, fin_b a = true -> B2R (b_l a) <= B2R (b_u a) -> is_finite (b_value a) = true -> B2R (b_l a) <= B2R (b_value a) <= B2R (b_u a).
  Proof using.
    intros [l u] Fa Hlu F. destruct (fin_bE _ Fa) as [Fl Fu]. unfold b_value, fmed in *. cbn [b_l b_u] in *.
    pose proof (fhlf_fin _ _ F) as Fs. rewrite (fhlf_rnd _ _ Fs F), (fadd_near_rnd _ _ Fl Fu Fs).
    pose proof (generic_format_B2R _ _ l) as Gl. pose proof (generic_format_B2R _ _ u) as Gu.
    pose proof (double_format _ Gl) as Gl2. pose proof (double_format _ Gu) as Gu2.
    set (d := round radix2 (SpecFloat.fexp prec emax) (round_mode near) (B2R l + B2R u)).
    assert (D1 : 2 * B2R l <= d) by (apply round_ge_generic; auto with typeclass_instances; lra).
    assert (D2 : d <= 2 * B2R u) by (apply round_le_generic; auto with typeclass_instances; lra).
    split; [apply round_ge_generic|apply round_le_generic]; auto with typeclass_instances; lra.
  Qed.
  Lemma fin_b_of : forall f : fl, fin_b (b_of f) = is_finite f. Proof using. intros f. unfold fin_b. cbn. apply andb_diag. Qed.

  Lemma mig_finite : forall a : bnd, fin_b a = true -> is_finite (b_mig a) = true.
  Proof using.
    intros a H. destruct (fin_bE a H) as [F G]. unfold b_mig, fmax. assert (Q : is_finite (fneg (b_u a)) = true) by (unfold fneg; rewrite is_finite_Bopp; exact G).
    repeat match goal with |- context [if ?c then _ else _] => destruct c end; auto.
  Qed.
  Lemma ck_mig_finite : forall a : bnd, is_finite (ck_mig a) = true.
  Proof using. intros a. unfold ck_mig. destruct (fin_b a) eqn:E; [apply mig_finite; exact E|reflexivity]. Qed.

  Lemma widen0 : forall n (r : nat -> bnd), en (ck_widening eps n r) 0.
  Proof using.
    intros n r. unfold ck_widening, b_widening. set (w := fmul up eps (sup_err n r)). clearbody w. cbn zeta. cbn [b_u].
    destruct (flt_le fzero w) eqn:E; [|apply whole_free]. destruct (is_finite w) eqn:F.
    - apply (flt_le_finite fzero w eq_refl F) in E. cbn in E. apply contains_en. split; cbn [b_l b_u].
      + apply below_finite; [unfold fneg; rewrite is_finite_Bopp; exact F|]. unfold fneg. rewrite B2R_Bopp. lra.
      + apply above_finite; [exact F|exact E].
    - apply en_free. unfold fin_b. cbn [b_l b_u]. rewrite F. apply andb_false_r.
  Qed.

  Lemma irmax_fold : forall (r : nat -> bnd) n l k, (k < n)%nat -> (forall i, In i l -> (i < n)%nat) ->
    (fold_left (fun k i => if decide_lv (b_gt (b_width (r i)) (b_width (r k))) then i else k) l k < n)%nat.
  Proof using.
    intros r n l. induction l as [|i l IH]; intros k Hk Hl; cbn; [exact Hk|]. apply IH; [|intros; apply Hl; right; assumption].
    destruct (decide_lv _); [apply Hl; left; reflexivity|exact Hk].
  Qed.
  Lemma halves_sound : forall n (r : nat -> bnd) v, venc P fin_of n r v ->
      (venc P fin_of n (fst (ck_halves n r)) v \/ venc P fin_of n (snd (ck_halves n r)) v) /\
      (exists w, venc P fin_of n (fst (ck_halves n r)) w) /\ (exists w, venc P fin_of n (snd (ck_halves n r)) w).
  Proof using.
    intros n r v H. unfold ck_halves. set (k := b_irmax n r). destruct (fin_b (r k)) eqn:Fk; cbn [andb]; [|cbn [fst snd]; split; [left; exact H|split; exists v; exact H]].
    destruct (is_finite (f_midpoint near (b_l (r k)) (b_u (r k)))) eqn:Fm; [|cbn [fst snd]; split; [left; exact H|split; exists v; exact H]].
    destruct n as [|n']. { unfold venc. split; [left; intros; lia|split; exists (fun _ => 0); intros; lia]. }
    assert (Lk : (k < S n')%nat). { unfold k, b_irmax. apply irmax_fold; [lia|]. intros i Hi. apply in_seq in Hi. lia. }
    unfold b_halves. fold k. cbn zeta. cbn [fst snd]. set (c := f_midpoint near (b_l (r k)) (b_u (r k))) in *.
    pose proof (H k Lk) as Hk. apply (en_contains _ _ Fk) in Hk. destruct (fin_bE _ Fk) as [Fl Fu]. destruct Hk as [K1 K2].
    apply (below_finite _ _ Fl) in K1. apply (above_finite _ _ Fu) in K2.
    destruct (midpoint_between near (b_l (r k)) (b_u (r k))) as [_ [_ M]]; [lra|exact Fm|]. fold c in M.
    assert (E1 : forall x, B2R (b_l (r k)) <= x <= B2R c -> en (mkB (b_l (r k)) c) x).
    { intros x Hx. apply contains_en. split; [apply below_finite|apply above_finite]; cbn [b_l b_u]; auto; lra. }
    assert (E2 : forall x, B2R c <= x <= B2R (b_u (r k)) -> en (mkB c (b_u (r k))) x).
    { intros x Hx. apply contains_en. split; [apply below_finite|apply above_finite]; cbn [b_l b_u]; auto; lra. }
    split; [|split].
    - destruct (Rle_or_lt (v k) (B2R c)) as [C|C]; [left|right]; intros i Li; destruct (Nat.eqb_spec i k) as [->|N]; try (apply H; exact Li); [apply E1|apply E2]; lra.
    - exists (fun i => if Nat.eqb i k then B2R c else v i). intros i Li. destruct (Nat.eqb_spec i k) as [->|N]; [apply E1; lra|apply H; exact Li].
    - exists (fun i => if Nat.eqb i k then B2R c else v i). intros i Li. destruct (Nat.eqb_spec i k) as [->|N]; [apply E2; lra|apply H; exact Li].
  Qed.

  Lemma ck_not_lt : forall (a b : bnd) u v, ckt false (fun a b => decide_lv (b_lt a b)) a b = false -> ckt false (fun a b => decide_lv (b_lt a b)) b a = false ->
    en a u -> en b v -> exists w, en a w /\ en b w.
  Proof using.
    intros a b u v H1 H2 Ha Hb. unfold ckt in *. destruct (fin_b a) eqn:Fa; [|exists v; split; [apply en_free; exact Fa|exact Hb]].
    destruct (fin_b b) eqn:Fb; [|exists u; split; [exact Ha|apply en_free; exact Fb]]. cbn [andb] in *.
    assert (C : forall x y : bnd, decide_lv (b_lt x y) = false -> flt_lt (b_u x) (b_l y) = false).
    { intros x y. unfold b_lt. destruct (flt_lt (b_u x) (b_l y)); [cbn; discriminate|reflexivity]. }
    apply C in H1. apply C in H2. clear C. apply (en_contains _ _ Fa) in Ha. apply (en_contains _ _ Fb) in Hb.
    destruct (fin_bE _ Fa) as [A1 A2]. destruct (fin_bE _ Fb) as [B1 B2]. destruct Ha as [Ha1 Ha2], Hb as [Hb1 Hb2].
    apply (below_finite _ _ A1) in Ha1. apply (above_finite _ _ A2) in Ha2. apply (below_finite _ _ B1) in Hb1. apply (above_finite _ _ B2) in Hb2.
    assert (N1 : B2R (b_l b) <= B2R (b_u a)). { apply Rnot_lt_le. intros C. apply (flt_lt_finite _ _ A2 B1) in C. congruence. }
    assert (N2 : B2R (b_l a) <= B2R (b_u b)). { apply Rnot_lt_le. intros C. apply (flt_lt_finite _ _ B2 A1) in C. congruence. }
    exists (Rmax (B2R (b_l a)) (B2R (b_l b))).
    split; apply contains_en; (split; [apply below_finite|apply above_finite]; auto); [apply Rmax_l|apply Rmax_lub; lra|apply Rmax_r|apply Rmax_lub; lra].
  Qed.

  Lemma ck_refinement_iff : forall (a b : bnd) u, en (ck_refinement a b) u <-> en a u /\ en b u.
  Proof using.
    intros a b u. unfold ck_refinement. destruct (fin_b a) eqn:Fa.
    - destruct (fin_b b) eqn:Fb; [|split; [intros H; split; [exact H|apply en_free; exact Fb]|tauto]].
      assert (FR : fin_b (b_refinement a b) = true).
      { destruct (fin_bE _ Fa) as [A1 A2]. destruct (fin_bE _ Fb) as [B1 B2]. unfold fin_b, b_refinement, fmax, fmin. cbn [b_l b_u].
        apply andb_true_intro. split; match goal with |- context [if ?c then _ else _] => destruct c end; auto. }
      rewrite (en_contains _ _ FR), (en_contains _ _ Fa), (en_contains _ _ Fb). apply b_refinement_iff.
      + destruct (fin_bE _ Fa) as [A1 A2]. split; [destruct (b_l a)|destruct (b_u a)]; cbn in *; auto; discriminate.
      + destruct (fin_bE _ Fb) as [A1 A2]. split; [destruct (b_l b)|destruct (b_u b)]; cbn in *; auto; discriminate.
    - destruct (fin_b b) eqn:Fb; [split; [intros H; split; [apply en_free; exact Fa|exact H]|tauto]|].
      split; [intros _; split; apply en_free; assumption|intros _; apply whole_free].
  Qed.

  Lemma small_spec : forall a : bnd, fin_b a && b_small me a = true -> exists l u, fin_of a = Some (l, u) /\ (u - l) / 2 < B2R me.
  Proof using Fme.
    intros a H. apply andb_prop in H. destruct H as [Fa H]. exists (B2R (b_l a)), (B2R (b_u a)). unfold fin_of. rewrite Fa. split; [reflexivity|].
    unfold b_small in H. destruct (fin_bE _ Fa) as [F G]. destruct (b_value_error a (conj F G)) as [[V _]|[_ [_ E]]].
    2:{ rewrite E in H. exfalso. unfold flt_lt, Bltb in H. destruct me; cbn in *; try discriminate. }
    unfold b_error in H. set (v := b_value a) in *.
    assert (U : above (fmax (fsub up (b_u a) v) (fsub up v (b_l a))) (B2R (b_u a) - B2R v)) by (apply above_fmax_l; apply fsub_up_above'; auto; lra).
    assert (L : above (fmax (fsub up (b_u a) v) (fsub up v (b_l a))) (B2R v - B2R (b_l a))).
    { apply above_fmax_r; [eapply rounded_not_nan, fsub_rounded; auto|]. apply fsub_up_above'; auto. lra. }
    set (g := fmax (fsub up (b_u a) v) (fsub up v (b_l a))) in *. clearbody g.
    destruct (is_finite g) eqn:Fg.
    - apply (flt_lt_finite _ _ Fg Fme) in H. apply (above_finite _ _ Fg) in U. apply (above_finite _ _ Fg) in L. lra.
    - exfalso. destruct g as [|s| |]; cbn in *; try discriminate; try contradiction. subst s. unfold flt_lt, Bltb in H. destruct me; cbn in *; discriminate.
  Qed.

  Lemma overlap_en : forall (a b : bnd) u v, ckt true b_consistent a b = true -> en a u -> en b v -> exists w, en a w /\ en b w.
  Proof using.
    intros a b u v H Ha Hb. unfold ckt in H. destruct (fin_b a) eqn:Fa; [|exists v; split; [apply en_free; exact Fa|exact Hb]].
    destruct (fin_b b) eqn:Fb; [|exists u; split; [exact Ha|apply en_free; exact Fb]]. cbn [andb] in H.
    apply (en_contains _ _ Fa) in Ha. apply (en_contains _ _ Fb) in Hb. apply b_consistent_iff in H; [|eexists; eassumption|eexists; eassumption].
    destruct H as [w [H1 H2]]. exists w. split; apply contains_en; assumption.
  Qed.

  Theorem ck_sound : sound_ops P fin_of (B2R me).
  Proof using Fme.
    constructor; cbn [ck_ops n0 n1 nadd nsub nmul nrec ndiv nmid nmiggt nnonzero nconsistent ninconsistent nrefines nrefinement nsmall nwiden nsplit nlt num].
    - apply contains_en. pose proof (b_of_contains (fzero : fl) eq_refl) as Q. cbn in Q. exact Q.
    - apply contains_en. unfold b1. replace 1 with (B2R (fone : fl)) by apply Bone_correct. apply b_of_contains. apply is_finite_Bone.
    - intros a b u v Ha Hb. eapply ck2_sound; [exact Ha|exact Hb|]. intros. apply b_add_contains; assumption.
    - intros a b u v Ha Hb. eapply ck2_sound; [exact Ha|exact Hb|]. intros. apply b_sub_contains; assumption.
    - intros a b u v Ha Hb. eapply ck2_sound; [exact Ha|exact Hb|]. intros. apply b_mul_contains; auto. eapply b_mul_no_nan; eassumption.
    - intros a u Ha Nu. unfold ck1. destruct (fin_b a) eqn:Fa; [|apply whole_free]. apply contains_en. apply b_rec_contains; [apply en_contains; assumption|exact Nu].
    - intros a b u v Ha Hb Nv. eapply ck2_sound; [exact Ha|exact Hb|]. intros. apply b_div_contains; assumption.
    - intros a u Ha. unfold ck1. destruct (fin_b a) eqn:Fa; [|exists u; split; [exact Ha|apply whole_free]].
      destruct (is_finite (b_value a)) eqn:Fv.
      + exists (B2R (b_value a)). apply (en_contains _ _ Fa) in Ha. destruct (fin_bE _ Fa) as [F G]. destruct Ha as [H1 H2].
        apply (below_finite _ _ F) in H1. apply (above_finite _ _ G) in H2. destruct (value_between a Fa ltac:(lra) Fv) as [V1 V2].
        split; apply contains_en; [split; [apply below_finite|apply above_finite]; assumption|apply b_of_contains; exact Fv].
      + exists u. split; [exact Ha|]. apply en_free. rewrite fin_b_of. exact Fv.
    - intros a b. apply ck2_fin.
    - intros a b. apply ck2_fin.
    - intros a b. apply ck2_fin.
    - intros a u H Ha. unfold ck_mig in H at 2. destruct (fin_b a) eqn:Fa.
      + apply (flt_lt_finite _ _ (ck_mig_finite _) (mig_finite _ Fa)) in H. apply (en_contains _ _ Fa) in Ha.
        pose proof (b_mig_below a u Ha) as Q. apply (below_finite _ _ (mig_finite _ Fa)) in Q. cbn in H. intros ->. rewrite Rabs_R0 in Q. lra.
      + exfalso. vm_compute in H. discriminate.
    - intros a b c H1 H2. apply (flt_lt_finite _ _ (ck_mig_finite _) (ck_mig_finite _)) in H1. apply (flt_lt_finite _ _ (ck_mig_finite _) (ck_mig_finite _)) in H2.
      apply (flt_lt_finite _ _ (ck_mig_finite _) (ck_mig_finite _)). lra.
    - intros a u H Ha. apply andb_prop in H. destruct H as [Fa H]. apply (en_contains _ _ Fa) in Ha. destruct (fin_bE _ Fa) as [F G]. destruct Ha as [H1 H2].
      apply (below_finite _ _ F) in H1. apply (above_finite _ _ G) in H2. unfold b_nonzero, gt0, lt0 in H. apply orb_prop in H. destruct H as [H|H].
      + apply (flt_lt_finite (fzero : fl) _ eq_refl F) in H. cbn in H. lra.
      + apply (flt_lt_finite _ (fzero : fl) G eq_refl) in H. cbn in H. lra.
    - intros a b u H Ha Hb. unfold ckt in H. destruct (fin_b a) eqn:Fa, (fin_b b) eqn:Fb; cbn [andb] in H; try discriminate.
      apply (en_contains _ _ Fa) in Ha. apply (en_contains _ _ Fb) in Hb.
      assert (T : b_consistent a b = true); [|congruence]. apply b_consistent_iff; [eexists; eassumption|eexists; eassumption|]. exists u. split; assumption.
    - intros a b u H Ha Hb. unfold ckt in H. destruct (fin_b a) eqn:Fa, (fin_b b) eqn:Fb; cbn [andb] in H; try discriminate.
      apply (en_contains _ _ Fa) in Ha. apply (en_contains _ _ Fb) in Hb.
      apply b_inconsistent_iff in H; [|eexists; eassumption|eexists; eassumption]. apply H. exists u. split; assumption.
    - apply overlap_en.
    - intros a b H. unfold ckt in H. destruct (fin_b a) eqn:Fa, (fin_b b) eqn:Fb; cbn [andb] in H; try discriminate.
      split; [apply fin_of_ne; exact Fa|]. split; [apply fin_of_ne; exact Fb|]. intros u Hu. apply (en_contains _ _ Fa) in Hu. apply (en_contains _ _ Fb).
      apply b_refines_iff in H; [|eexists; exact Hu]. apply H. exact Hu.
    - apply ck_refinement_iff.
    - apply small_spec.
    - apply widen0.
    - apply halves_sound.
    - apply ck_not_lt.
  Qed.
End FL.
