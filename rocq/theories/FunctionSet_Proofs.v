From Coq Require Import ZArith Reals List Bool Lra Lia.
From Coquelicot Require Import Rbar.
From Flocq Require Import Core IEEE754.BinarySingleNaN.
From Verif Require Import Logical_Model Float_Model Float_Spec Float_Proofs Bounds_Model Bounds_Spec Bounds_Proofs ConstraintSolver_Model ConstraintSolver_Spec FunctionSet_Model FunctionSet_Spec.
Import ListNotations.
Local Open Scope R_scope.

Section Proofs.
Context {prec emax : Z} {Hprec : Prec_gt_0 prec} {Hemax : Prec_lt_emax prec emax}.
Local Notation fl := (binary_float prec emax).
Local Notation bnd := (bounds prec emax).
Local Notation cbox := (list bnd).
Context {RR F : Type} (rv : RR -> Rbar) (den : F -> list R -> R).
Context (ops : @function_operations prec emax RR F) (SO : sound_ops rv den ops).
Local Notation vals := (values den).
Local Notation hold_all := (all_hold rv den).

(** ** Floats *)
Lemma lt_below (f g : fl) r : flt_lt f g = true -> below g r -> strictly_below f r.
Proof.
  intros L B. destruct f as [s|s| |s m e Hf]; cbn [strictly_below].
  - eapply lt_true; eauto. cbn. apply Rle_refl.
  - destruct s; auto. exfalso. destruct g as [[]|[]| |[] ? ? ?]; cbn in *; discriminate.
  - exfalso. destruct g as [[]|[]| |[] ? ? ?]; discriminate.
  - eapply lt_true; eauto. cbn. apply Rle_refl.
Qed.
Lemma lt_above (f g : fl) r : flt_lt f g = true -> above f r -> strictly_above g r.
Proof.
  intros L A. destruct g as [s|s| |s m e Hf]; cbn [strictly_above].
  - eapply lt_true; eauto. cbn. apply Rle_refl.
  - destruct s; auto. exfalso. destruct f as [[]|[]| |[] ? ? ?]; cbn in *; discriminate.
  - exfalso. destruct f as [[]|[]| |[] ? ? ?]; discriminate.
  - eapply lt_true; eauto. cbn. apply Rle_refl.
Qed.
Lemma sbelow_below (f : fl) r : strictly_below f r -> below f r.
Proof. destruct f; cbn; auto; lra. Qed.
Lemma sabove_above (f : fl) r : strictly_above f r -> above f r.
Proof. destruct f; cbn; auto; lra. Qed.
Lemma meet_contains (x y : bnd) r : contains x r -> contains y r -> contains (meet x y) r.
Proof. intros [A B] [C D]. unfold meet, fmax, fmin. split; cbn [b_l b_u]; [destruct (Bltb (b_l x) (b_l y))|destruct (Bltb (b_u y) (b_u x))]; auto. Qed.
Lemma nn_below (f : fl) r : below f r -> is_nan f = false. Proof. destruct f; cbn; tauto. Qed.
Lemma nn_above (f : fl) r : above f r -> is_nan f = false. Proof. destruct f; cbn; tauto. Qed.
Lemma meet_both (x y : bnd) r : no_nan x -> no_nan y -> contains (meet x y) r -> contains x r /\ contains y r.
Proof.
  intros [N1 N2] [N3 N4] [A B]. unfold meet in *; cbn [b_l b_u] in *.
  apply (proj1 (below_fmax_iff _ _ r N1 N3)) in A. apply (proj1 (above_fmin_iff _ _ r N2 N4)) in B.
  unfold contains. tauto.
Qed.
Lemma empty_none (B : cbox) x : box_empty B = true -> ~ in_cbox B x.
Proof.
  unfold box_empty, in_cbox. intros E H. apply existsb_exists in E. destruct E as (X & HX & E).
  apply In_nth_error in HX. destruct HX as (i & Hi). 
  revert x i Hi H. induction B as [|Y B IH]; intros x i Hi H; [destruct i; discriminate|]. inversion H; subst.
  destruct i; cbn in Hi. { inversion Hi; subst. destruct H2 as [L U]. pose proof (lt_true _ _ _ _ E U L). lra. }
  eapply IH; eauto.
Qed.
Lemma disjoint_none (A B : cbox) x : box_disjoint A B = true -> in_cbox A x -> ~ in_cbox B x.
Proof.
  unfold box_disjoint. intros D HA. revert B D. induction HA as [|a r A x Ha HA IH]; intros B D HB; destruct B as [|b B]; cbn in D; try discriminate.
  inversion HB; subst. apply orb_true_iff in D. destruct D as [D|D]; [|eapply IH; eauto].
  unfold ivl_disjoint in D. apply orb_true_iff in D. destruct Ha as [L1 U1]. destruct H2 as [L2 U2].
  destruct D as [D|D]; pose proof (lt_true _ _ _ _ D ltac:(eassumption) ltac:(eassumption)); lra.
Qed.
Lemma inside_inner (X B : cbox) x : length X = length B -> box_inside X B = true -> in_cbox X x -> in_inner B x.
Proof.
  unfold box_inside. intros L I HX. revert B L I. induction HX as [|a r X x Ha HX IH]; intros B L I; destruct B as [|b B]; try discriminate L; [constructor|].
  cbn in I. apply andb_true_iff in I. destruct I as [I1 I2]. constructor; [|apply IH; auto].
  unfold ivl_inside in I1. apply andb_true_iff in I1. destruct I1. destruct Ha. split; [eapply lt_below|eapply lt_above]; eauto.
Qed.
Lemma covers_inner (X B : cbox) x : length X = length B -> box_covers X B = true -> in_cbox B x -> in_inner X x.
Proof.
  unfold box_covers. intros L I HB. revert X L I. induction HB as [|b r B x Hb HB IH]; intros X L I; destruct X as [|a X]; try discriminate L; [constructor|].
  cbn in I. apply andb_true_iff in I. destruct I as [I1 I2]. constructor; [|apply IH; auto].
  unfold ivl_covers in I1. apply andb_true_iff in I1. destruct I1. destruct Hb. split; [eapply lt_below|eapply lt_above]; eauto.
Qed.
Lemma subset_in (X B : cbox) x : length X = length B -> box_subset X B = true -> in_cbox X x -> in_cbox B x.
Proof.
  unfold box_subset. intros L I HX. revert B L I. induction HX as [|a r X x Ha HX IH]; intros B L I; destruct B as [|b B]; try discriminate L; [constructor|].
  cbn in I. apply andb_true_iff in I. destruct I as [I1 I2]. constructor; [|apply IH; auto].
  unfold ivl_subset in I1. apply andb_true_iff in I1. destruct I1. destruct Ha. split; [eapply refines_below|eapply refines_above]; eauto.
Qed.
Lemma inner_in (B : cbox) x : in_inner B x -> in_cbox B x.
Proof. intros H. unfold in_inner, in_cbox in *. induction H as [|? ? ? ? [A C]]; constructor; auto. split; [apply sbelow_below|apply sabove_above]; auto. Qed.
Lemma in_app (A B : cbox) x y : in_cbox A x -> in_cbox B y -> in_cbox (A ++ B) (x ++ y).
Proof. intros. apply Forall2_app; auto. Qed.
Lemma in_app_inv (A B : cbox) x y : length A = length x -> in_cbox (A ++ B) (x ++ y) -> in_cbox A x /\ in_cbox B y.
Proof.
  intros L H. revert x L H. induction A as [|a A IH]; intros [|r x] L H; try discriminate L; cbn in *; [split; [constructor|auto]|].
  inversion H; subst. destruct (IH x) as [H1 H2]; auto. split; [constructor; auto|auto].
Qed.
Lemma box_meet_in (A B : cbox) x : in_cbox A x -> in_cbox B x -> in_cbox (box_meet A B) x.
Proof.
  intros HA. revert B. induction HA as [|a r A x Ha HA IH]; intros B HB; inversion HB; subst; cbn; constructor; [apply meet_contains; auto|apply IH; auto].
Qed.
Lemma box_meet_both (A B : cbox) x : length A = length B -> List.Forall no_nan A -> List.Forall no_nan B -> in_cbox (box_meet A B) x -> in_cbox A x /\ in_cbox B x.
Proof.
  revert B x. induction A as [|a A IH]; intros [|b B] x L NA NB H; try discriminate L; cbn in H; inversion H; subst; [split; constructor|].
  inversion NA; inversion NB; subst. destruct (meet_both a b y) as [X Y]; auto. destruct (IH B l') as [P Q]; auto. split; constructor; auto.
Qed.

(** ** Numbers *)
Lemma over_contains i r : in_real rv i r -> contains (over ops i) r.
Proof.
  intros [A B]. destruct (so_get _ _ _ SO (i_lo i)) as (_ & L & _). destruct (so_get _ _ _ SO (i_up i)) as (_ & _ & U & _).
  split; cbn; auto.
Qed.
Lemma under_in i r : contains (under ops i) r -> in_real rv i r.
Proof.
  intros [A B]. destruct (so_get _ _ _ SO (i_lo i)) as (_ & _ & _ & L & _). destruct (so_get _ _ _ SO (i_up i)) as (_ & _ & _ & _ & U).
  split; [apply L; exact A|apply U; exact B].
Qed.
Lemma over_box b x : in_real_box rv b x -> in_cbox (map (over ops) b) x.
Proof. induction 1; constructor; auto. apply over_contains; auto. Qed.
Lemma under_box b x : in_cbox (map (under ops) b) x -> in_real_box rv b x.
Proof. revert x. induction b; intros x H; inversion H; subst; constructor; [apply under_in; auto|apply IHb; auto]. Qed.
Lemma over_cons cs x : hold_all cs x -> in_cbox (c_over ops cs) (vals (c_functions cs) x).
Proof. induction 1; constructor; auto. apply over_contains; auto. Qed.
Lemma under_cons cs x : in_cbox (c_under ops cs) (vals (c_functions cs) x) -> hold_all cs x.
Proof. induction cs; intros H; [constructor|]. inversion H; subst. constructor; [apply under_in; auto|apply IHcs; auto]. Qed.
Lemma over_nn i : no_nan (over ops i).
Proof. destruct (so_get _ _ _ SO (i_lo i)) as ([A _] & _). destruct (so_get _ _ _ SO (i_up i)) as ([_ B] & _). split; auto. Qed.
Lemma under_nn i : no_nan (under ops i).
Proof. destruct (so_get _ _ _ SO (i_lo i)) as ([_ A] & _). destruct (so_get _ _ _ SO (i_up i)) as ([B _] & _). split; auto. Qed.
Lemma range_in fs B x : in_cbox B x -> in_cbox (apply_range ops fs B) (vals fs x).
Proof. intros H. induction fs; constructor; auto. apply (so_range _ _ _ SO); auto. Qed.
Lemma vals_length fs x : length (vals fs x) = length fs. Proof. apply map_length. Qed.
Lemma vals_app fs gs x : vals (fs ++ gs) x = vals fs x ++ vals gs x. Proof. apply map_app. Qed.
Lemma vals_compose h fs x : vals (map (fun g => fo_compose ops g fs) h) x = vals h (vals fs x).
Proof. unfold values. rewrite map_map. apply map_ext. intros. apply (so_compose _ _ _ SO). Qed.

(** ** Validated sets *)
Definition valid (V : @vset prec emax RR F) : Prop :=
  (forall s, in_cbox (v_dom V) s -> hold_all (v_cons V) s -> in_cbox (v_red V) s) /\
  (forall s, in_cbox (v_red V) s -> in_cbox (v_dom V) s).
Lemma hold_app cs ds x : hold_all (cs ++ ds) x <-> hold_all cs x /\ hold_all ds x.
Proof. unfold all_hold. rewrite Forall_app. tauto. Qed.
Lemma made_valid V : made ops V -> valid V.
Proof.
  assert (forall D f cs, valid (v_make D f cs)) as M. { split; cbn; auto. }
  induction 1 as [| h V _ [A B] | c V _ [A B] | c V _ [A B] | V _ [A B] | j V V1 V2 _ _ E | j V V1 V2 _ _ E | D V W _ _ E]; auto.
  - split; cbn; auto.
  - split; cbn; auto. intros s H C. apply hold_app in C. apply A; tauto.
  - split; cbn; auto. intros s H C. apply hold_app in C. apply A; tauto.
  - split; cbn.
    + intros s H C. apply (so_reduce _ _ _ SO); [apply A; auto|apply over_cons; auto].
    + intros s H. apply B. eapply (so_smaller _ _ _ SO); eauto.
  - unfold v_split in E. destruct split_at as [[]|]; inversion E; subst. apply M.
  - unfold v_split in E. destruct split_at as [[]|]; inversion E; subst. apply M.
  - unfold v_restriction in E. destruct box_subset; inversion E; subst. apply M.
Qed.
Lemma v_separated_sound V bx y : valid V -> v_separated ops V bx = true -> in_vset rv den V y -> ~ in_cbox bx y.
Proof.
  intros [A _] E (s & D & C & ->) H. unfold v_separated in E. eapply empty_none; [exact E|].
  apply (so_reduce _ _ _ SO); [apply A; eauto|]. rewrite vals_app. apply in_app; auto. apply over_cons; auto.
Qed.
Lemma v_bounding V y : valid V -> in_vset rv den V y -> in_cbox (v_bounding_box ops V) y.
Proof. intros [A _] (s & D & C & ->). apply range_in. apply A; auto. Qed.
Lemma nearly_in cs s : in_cbox (c_over ops cs) (vals (c_functions cs) s) -> nearly_hold den ops cs s.
Proof. induction cs; intros H; [constructor|]. inversion H; subst. constructor; [auto|apply IHcs; auto]. Qed.
Lemma set_at_in k (X Y : bnd) : forall B s, nth_error B k = Some X -> (forall r, contains Y r -> contains X r) -> in_cbox (set_at k Y B) s -> in_cbox B s.
Proof.
  induction k; intros [|b B] s E H I; try discriminate E; cbn in *; inversion I; subst.
  - inversion E; subst. constructor; auto.
  - constructor; auto. eapply IHk; eauto.
Qed.
Lemma set_at_cover k (X Y Z : bnd) : forall B s, nth_error B k = Some X -> (forall r, contains X r -> contains Y r \/ contains Z r) -> in_cbox B s ->
  in_cbox (set_at k Y B) s \/ in_cbox (set_at k Z B) s.
Proof.
  induction k; intros [|b B] s E H I; try discriminate E; cbn in *; inversion I; subst.
  - inversion E; subst. destruct (H _ H2); [left|right]; constructor; auto.
  - destruct (IHk B l' E H H4); [left|right]; constructor; auto.
Qed.
Lemma box_empty_at k (X : bnd) : forall B, nth_error B k = Some X -> box_empty B = false -> ivl_empty X = false.
Proof.
  induction k; intros [|b B] E H; try discriminate E; cbn in *; apply orb_false_iff in H; destruct H; [inversion E; subst; auto|eapply IHk; eauto].
Qed.
Lemma box_empty_set k (Y : bnd) : ivl_empty Y = false -> forall B, box_empty B = false -> box_empty (set_at k Y B) = false.
Proof.
  intros HY. induction k; intros [|b B] H; cbn in *; auto; apply orb_false_iff in H; destruct H; apply orb_false_iff; split; auto. apply IHk; auto.
Qed.
Lemma split_parts k B B1 B2 s : box_empty B = false -> split_at ops k B = Some (B1, B2) -> in_cbox B1 s \/ in_cbox B2 s -> in_cbox B s.
Proof.
  unfold split_at. destruct nth_error as [X|] eqn:E; [|discriminate]. intros N H I; inversion H; subst. pose proof (box_empty_at _ _ _ E N).
  destruct I as [I|I]; (eapply set_at_in; [exact E| |exact I]); intros r HR; apply (so_half _ _ _ SO); auto.
Qed.
Lemma split_order k B B1 B2 : box_empty B = false -> split_at ops k B = Some (B1, B2) -> box_empty B1 = false /\ box_empty B2 = false.
Proof.
  unfold split_at. destruct nth_error as [X|] eqn:E; [|discriminate]. intros N H; inversion H; subst. pose proof (box_empty_at _ _ _ E N) as NX.
  destruct (so_order _ _ _ SO X NX). split; apply box_empty_set; auto.
Qed.
Lemma in_not_empty (B : cbox) s : in_cbox B s -> box_empty B = false.
Proof. intros H. destruct (box_empty B) eqn:E; auto. exfalso. eapply empty_none; eauto. Qed.
Lemma split_covers k B B1 B2 s : split_at ops k B = Some (B1, B2) -> List.Forall finite_bounds B -> in_cbox B s -> in_cbox B1 s \/ in_cbox B2 s.
Proof.
  intros H FB I. pose proof (in_not_empty _ _ I) as N. revert H.
  unfold split_at. destruct nth_error as [X|] eqn:E; [|discriminate]. intros H; inversion H; subst. pose proof (box_empty_at _ _ _ E N) as NX.
  eapply set_at_cover; [exact E| |exact I]. intros r [L U].
  assert (finite_bounds X) as FX. { eapply Forall_forall; [exact FB|]. eapply nth_error_In; eauto. }
  pose proof (so_middle _ _ _ SO X FX NX) as MF. pose proof (finite_contains_below _ MF) as [M1 M2].
  destruct (Rle_or_lt r (B2R (fo_middle ops X))) as [Q|Q]; [left|right]; split; cbn; auto.
  - clear - Q M2 MF. destruct (fo_middle ops X); cbn in *; try discriminate; lra.
  - clear - Q M1 MF. destruct (fo_middle ops X); cbn in *; try discriminate; lra.
Qed.
Lemma search_sound k fs C : forall B, box_empty B = false -> search ops k fs C B = Some true -> exists s, in_cbox B s /\ in_cbox C (vals fs s).
Proof.
  induction k; intros B N E; cbn in E; destruct (fo_optimise ops B fs C) eqn:O; try discriminate E; try (eapply (so_optimise _ _ _ SO); eassumption).
  all: destruct split_at as [[s1 s2]|] eqn:SP; try discriminate E; destruct (split_order _ _ _ _ N SP) as [N1 N2].
  all: destruct (search ops k fs C s2) as [[]|] eqn:S2; try discriminate E.
  all: try (apply IHk in S2; auto; destruct S2 as (s & I & J); exists s; split; auto; eapply split_parts; eauto; fail).
  all: apply IHk in E; auto; destruct E as (s & I & J); exists s; split; auto; eapply split_parts; eauto.
Qed.
Lemma v_overlaps_sound V bx : valid V -> box_empty (v_red V) = false -> length bx = length (v_fun V) -> v_overlaps ops V bx = Some true ->
  exists s, in_cbox (v_red V) s /\ nearly_hold den ops (v_cons V) s /\ in_cbox bx (vals (v_fun V) s).
Proof.
  intros [A B] NE L E. apply search_sound in E; auto. destruct E as (s & I & J). exists s. split; auto.
  rewrite vals_app in J. apply in_app_inv in J; [|rewrite vals_length; auto]. destruct J as [J1 J2]. split; auto. apply nearly_in.
  assert (forall f, no_nan (fo_range ops f (v_red V))) as N.
  { intros f. pose proof (so_range _ _ _ SO f _ s I) as [P Q]. split; [eapply nn_below|eapply nn_above]; eauto. }
  revert J2. clear J1 A B I L NE. induction (v_cons V) as [|c cs IH]; intros J; [constructor|].
  cbn in J. inversion J; subst. constructor; [|apply IH; auto]. eapply meet_both in H2; [apply H2|apply over_nn|apply N].
Qed.
Lemma nearly_exact cs s : exact_bounds rv ops cs -> nearly_hold den ops cs s -> hold_all cs s.
Proof. intros E H. revert E. induction H as [|c cs H1 H2 IH]; intros E; [constructor|]. inversion E as [|? ? E1 E2]; subst. constructor; [apply E1; auto|apply IH; auto]. Qed.
Lemma identity_values n x : length x = n -> vals (identity ops n) x = x.
Proof.
  intros L. unfold values, identity. rewrite map_map. rewrite (map_ext_in _ (fun i => nth i x 0)).
  - subst n. clear. induction x as [|r x IH]; auto. cbn. f_equal. rewrite <- seq_shift, map_map. exact IH.
  - intros i Hi. apply in_seq in Hi. apply (so_coordinate _ _ _ SO); lia.
Qed.
Lemma real_meet_in rmax rmin : is_max rv rmax -> is_min rv rmin -> forall a b d x, length a = length b -> real_meet rmax rmin a b = Some d ->
  (in_real_box rv d x <-> in_real_box rv a x /\ in_real_box rv b x).
Proof.
  intros MX MN. induction a as [|i a IH]; intros [|j b] d x L E; try discriminate L; cbn in E.
  - inversion E; subst. tauto.
  - destruct (real_meet rmax rmin a b) as [r|] eqn:ER; inversion E; subst. injection L as L. split.
    + intros H. inversion H as [|? ? ? ? [P Q] R]; subst. cbn in P, Q. apply MX in P. apply MN in Q.
      apply (IH b r l' L ER) in R. split; constructor; try tauto; split; tauto.
    + intros [H1 H2]. inversion H1 as [|? ? ? ? [P Q] R]; subst. inversion H2 as [|? ? ? ? [P' Q'] R']; subst.
      constructor; [|apply (IH b r l' L ER); auto]. split; [apply MX|apply MN]; auto.
Qed.
(** The boxes of the touching test have a common point. *)
Lemma intersect_point D bx : length D = length bx -> List.Forall (fun i => Rbar_le (rv (i_lo i)) (rv (i_up i))) D ->
  List.Forall (fun X => finite_bounds X /\ B2R (b_l X) <= B2R (b_u X)) bx -> box_intersect (map (under ops) D) bx = true ->
  exists x, in_real_box rv D x /\ in_cbox bx x.
Proof.
  revert bx. induction D as [|i D IH]; intros [|X bx] L HD HB E; try discriminate L; [exists []; split; constructor|].
  cbn in E. apply andb_true_iff in E. destruct E as [E1 E2]. inversion HD; inversion HB; subst.
  destruct (IH bx) as (x & P & Q); auto. destruct H5 as [[F1 F2] O].
  unfold ivl_intersect in E1. apply andb_true_iff in E1. destruct E1 as [E1 E3]. cbn in E1, E3.
  destruct (finite_contains_below _ F1) as [A1 A2]. destruct (finite_contains_below _ F2) as [A3 A4].
  destruct (so_get _ _ _ SO (i_lo i)) as (_ & _ & _ & L1 & _). destruct (so_get _ _ _ SO (i_up i)) as (_ & _ & _ & _ & U1).
  pose proof (L1 (B2R (b_u X)) (refines_below _ _ _ E1 A3)) as LB.
  pose proof (U1 (B2R (b_l X)) (refines_above _ _ _ E3 A2)) as UB.
  assert (forall r, B2R (b_l X) <= r <= B2R (b_u X) -> contains X r) as CX.
  { intros r [R1 R2]. split; [destruct (b_l X)|destruct (b_u X)]; cbn in *; try discriminate; auto. }
  destruct (rv (i_lo i)) as [lo| |] eqn:EL.
  - exists (Rmax lo (B2R (b_l X)) :: x). split; constructor; auto.
    + split; [rewrite EL; cbn; apply Rmax_l|]. apply Rmax_case; auto.
    + apply CX. cbn in LB. split; [apply Rmax_r|apply Rmax_lub; auto].
  - contradiction.
  - exists (B2R (b_l X) :: x). split; constructor; auto; [|apply CX; lra]. split; [rewrite EL; exact I|auto].
Qed.

(** ** Satisfaction of constraints *)
Lemma or_true a b : lv_or a b = TRUE -> a = TRUE \/ b = TRUE. Proof. destruct a, b; cbn; auto; discriminate. Qed.
Lemma or_false a b : lv_or a b = FALSE -> a = FALSE /\ b = FALSE. Proof. destruct a, b; cbn; auto; discriminate. Qed.
Lemma neg_true a : lv_neg a = TRUE -> a = FALSE. Proof. destruct a; cbn; auto; discriminate. Qed.
Lemma neg_false a : lv_neg a = FALSE -> a = TRUE. Proof. destruct a; cbn; auto; discriminate. Qed.
Lemma all_nearly cs s : nearly_hold den ops cs s <-> List.Forall (fun c => contains (snd c) (den (fst c) s)) (map (fun c => (c_fun c, over ops (c_bounds c))) cs).
Proof. unfold nearly_hold. rewrite Forall_map. reflexivity. Qed.
Lemma satisfies_true D f cs nc bu bl : satisfies_with ops false D f cs nc bu bl = TRUE ->
  forall s, in_cbox D s -> nearly_hold den ops cs s ->
  ~ contains bu (den (c_fun nc) (vals f s)) /\ (flt_lt (fneg finf) (b_l (fo_get ops (i_lo (c_bounds nc)))) = true -> ~ contains bl (den (c_fun nc) (vals f s))).
Proof.
  intros E s I N. unfold satisfies_with in E. cbv zeta in E.
  assert (forall b, fo_feasible ops D (map (fun c => (c_fun c, over ops (c_bounds c))) cs ++ [(fo_compose ops (c_fun nc) f, b)]) = FALSE ->
    ~ contains b (den (c_fun nc) (vals f s))) as K.
  { intros b H C. eapply (so_infeasible _ _ _ SO); [exact H|exact I|]. apply Forall_app. split; [apply all_nearly; auto|]. constructor; [|constructor].
    cbn. rewrite (so_compose _ _ _ SO). exact C. }
  destruct (flt_lt (b_u _) finf); cbn [andb] in E.
  - destruct (definitely _); [discriminate|]. apply neg_true in E. destruct (flt_lt (fneg finf) _).
    + apply or_false in E. destruct E. split; [apply K; auto|intros _; apply K; auto].
    + split; [apply K; auto|discriminate].
  - apply neg_true in E. destruct (flt_lt (fneg finf) _); [apply or_false in E; destruct E|]; discriminate.
Qed.
Lemma satisfies_false first D f cs nc bu bl : satisfies_with ops first D f cs nc bu bl = FALSE -> flt_lt (b_u (fo_get ops (i_up (c_bounds nc)))) finf = true ->
  exists s, in_cbox D s /\ nearly_hold den ops cs s /\ (contains bu (den (c_fun nc) (vals f s)) \/ contains bl (den (c_fun nc) (vals f s))).
Proof.
  intros E U. unfold satisfies_with in E. cbv zeta in E. destruct first; [discriminate|]. rewrite U in E. cbn [andb] in E.
  assert (forall b, fo_feasible ops D (map (fun c => (c_fun c, over ops (c_bounds c))) cs ++ [(fo_compose ops (c_fun nc) f, b)]) = TRUE ->
    exists s, in_cbox D s /\ nearly_hold den ops cs s /\ contains b (den (c_fun nc) (vals f s))) as K.
  { intros b H. apply (so_feasible _ _ _ SO) in H. destruct H as (s & I & H). apply Forall_app in H. destruct H as [H1 H2].
    inversion H2; subst. exists s. split; auto. split; [apply all_nearly; auto|]. cbn in H3. rewrite (so_compose _ _ _ SO) in H3. exact H3. }
  destruct (definitely (fo_feasible _ _ (_ ++ [(_, bu)]))) eqn:DF.
  - destruct (fo_feasible ops D (_ ++ [(_, bu)])) eqn:FE in DF; try discriminate DF. destruct (K _ FE) as (s & A & B & C). eauto.
  - apply neg_false in E. destruct (flt_lt (fneg finf) _).
    + apply or_true in E. destruct E as [E|E]; [rewrite E in DF; discriminate|]. destruct (K _ E) as (s & A & B & C). eauto.
    + rewrite E in DF; discriminate.
Qed.
End Proofs.
