(** Proofs about the pavers. *)
From Coq Require Import ZArith Reals List Bool Lra Lia.
From Coquelicot Require Import Rbar.
From Flocq Require Import Core IEEE754.BinarySingleNaN.
From Verif Require Import Logical_Model Float_Model Float_Spec Float_Proofs Bounds_Model Bounds_Spec Bounds_Proofs ConstraintSolver_Model ConstraintSolver_Spec.
From Verif Require Import FunctionSet_Model FunctionSet_Spec FunctionSet_Proofs Paver_Model Paver_Spec.
Import ListNotations.
Local Open Scope R_scope.

Section Paver.
Context {prec emax : Z} {Hprec : Prec_gt_0 prec} {Hemax : Prec_lt_emax prec emax}.
Local Notation fl := (binary_float prec emax).
Local Notation bnd := (bounds prec emax).
Local Notation cbox := (list bnd).
Context {RR F P C X : Type}.
Context (rv : RR -> Rbar) (den : F -> list R -> R) (pin : P -> list R -> Prop) (cin : C -> list R -> Prop).
Context (ops : @function_operations prec emax RR F) (SO : sound_ops rv den ops).
Context (po : @paver_operations prec emax RR F P C X) (SP : sound_paver rv den pin cin po).
Local Notation vals := (values den).
Local Notation finite_box := (@finite_box prec emax).

Lemma set_at_finite k (Y : bnd) : forall D, finite_box D -> finite_bounds Y -> finite_box (set_at k Y D).
Proof. induction k; intros [|d D] H HY; cbn; auto; inversion H; subst; constructor; auto. apply IHk; auto. Qed.
Lemma finite_at k (Y : bnd) : forall D, finite_box D -> nth_error D k = Some Y -> finite_bounds Y.
Proof. intros D H E. apply nth_error_In in E. unfold Paver_Spec.finite_box in H. rewrite Forall_forall in H. auto. Qed.
Lemma meet_finite (A B : cbox) : finite_box A -> finite_box B -> finite_box (box_meet A B).
Proof.
  revert B. induction A as [|a A IH]; intros [|b B] HA HB; cbn; try (constructor; fail). inversion HA as [|? ? [A1 A2]]; inversion HB as [|? ? [B1 B2]]; subst.
  constructor; [|apply IH; auto]. unfold meet, fmax, fmin. split; cbn [b_l b_u fst snd]; [destruct (Bltb (b_l a) (b_l b))|destruct (Bltb (b_u b) (b_u a))]; auto.
Qed.
(** A split of a bounded box with a point. *)
Lemma split_finite k D D1 D2 s : split_at ops k D = Some (D1, D2) -> finite_box D -> in_cbox D s ->
  finite_box D1 /\ finite_box D2 /\ (in_cbox D1 s \/ in_cbox D2 s).
Proof.
  intros E FD I. pose proof (split_covers rv den ops SO _ _ _ _ _ E FD I) as K. unfold split_at in E. destruct nth_error as [Y|] eqn:N; [|discriminate].
  cbv zeta in E. injection E as <- <-. pose proof (finite_at _ _ _ FD N) as FY. pose proof (box_empty_at _ _ _ N (in_not_empty _ _ I)) as NE.
  pose proof (so_middle _ _ _ SO Y FY NE) as M. destruct FY as [F1 F2]. split; [apply set_at_finite; auto; split; auto|]. split; [apply set_at_finite; auto; split; auto|auto].
Qed.

(** ** SubdivisionPaver *)
Lemma subdivide_mono fuel : forall p V n q x, subdivide ops po fuel p V n = Done q -> pin p x -> pin q x.
Proof.
  induction fuel; intros p V n q x E I; [discriminate|]. cbn in E. destruct excluded; [injection E as <-; auto|]. destruct po_small.
  - destruct po_outer eqn:O; [|discriminate]. injection E as <-. eapply (sp_outer _ _ _ _ _ SP); eauto.
  - destruct v_split as [[V1 V2]|]; [|discriminate]. destruct (subdivide ops po fuel p V1 n) as [p'| |] eqn:E1; try discriminate. cbn in E. eauto.
Qed.
Lemma excluded_none V y : valid rv den V -> excluded ops V = true -> ~ in_vset rv den V y.
Proof.
  intros [A _] E (s & D & H & _). unfold excluded in E. apply existsb_exists in E. destruct E as (c & Hc & E).
  unfold all_hold in H. rewrite Forall_forall in H. pose proof (over_contains rv den ops SO _ _ (H c Hc)) as [K1 K2].
  destruct (so_range _ _ _ SO (c_fun c) _ _ (A s D ltac:(unfold all_hold; rewrite Forall_forall; auto))) as [L1 L2].
  unfold ivl_disjoint in E. apply orb_prop in E. destruct E as [E|E]; first [pose proof (lt_true _ _ _ _ E L2 K1); lra|pose proof (lt_true _ _ _ _ E K2 L1); lra].
Qed.
Lemma subdivide_sound fuel : forall p V n q y, made ops V -> finite_box (v_dom V) -> finite_box (v_red V) -> subdivide ops po fuel p V n = Done q -> in_vset rv den V y -> pin q y.
Proof.
  induction fuel; intros p V n q y M FD FR E I; [discriminate|]. pose proof (made_valid rv den ops SO V M) as W. cbn in E.
  destruct (excluded ops V) eqn:X1; [exfalso; eapply excluded_none; eauto|]. destruct po_small.
  - destruct po_outer eqn:O; [|discriminate]. injection E as <-. eapply (sp_outer _ _ _ _ _ SP); [exact O|]. right. apply (v_bounding rv den ops SO V y W I).
  - destruct (v_split ops (fo_widest ops (v_dom V)) V) as [[V1 V2]|] eqn:SV; [|discriminate].
    destruct (subdivide ops po fuel p V1 n) as [p'| |] eqn:E1; try discriminate. cbn in E.
    pose proof (made_first ops _ _ _ _ M SV) as M1. pose proof (made_second ops _ _ _ _ M SV) as M2.
    destruct I as (s & D & H & ->). unfold v_split in SV. destruct split_at as [[d1 d2]|] eqn:SD; [|discriminate]. injection SV as <- <-.
    destruct (split_finite _ _ _ _ _ SD FD D) as (F1 & F2 & K). pose proof (proj1 W s D H) as R.
    destruct K as [K|K].
    + eapply subdivide_mono; [exact E|]. eapply (IHfuel _ (v_make (box_meet d1 (v_red V)) (v_fun V) (v_cons V))); eauto; try (cbn; apply meet_finite; auto; fail). exists s. cbn. split; [apply box_meet_in; auto|auto].
    + eapply (IHfuel _ (v_make (box_meet d2 (v_red V)) (v_fun V) (v_cons V))); eauto; try (cbn; apply meet_finite; auto; fail). exists s. cbn. split; [apply box_meet_in; auto|auto].
Qed.

(** ** AffinePaver *)
Definition kept (s : list R) (Ds : list cbox) : Prop := exists D, In D Ds /\ in_cbox D s /\ finite_box D.
Lemma affine_round_kept fg n s : forall uns done new, affine_round ops po fg n uns = Some (done, new) -> kept s uns -> kept s (done ++ new).
Proof.
  induction uns as [|D uns IH]; intros done new E (D0 & I & J & FD); [destruct I|]. cbn in E. destruct affine_round as [[d w]|] eqn:E1; [|discriminate].
  assert (kept s uns -> kept s (d ++ w)) as K by (intros; eapply IH; eauto).
  destruct (po_nonlinear po fg D n) as [k|].
  - destruct split_at as [[D1 D2]|] eqn:SD; [|discriminate]. injection E as <- <-. destruct I as [<-|I].
    + destruct (split_finite _ _ _ _ _ SD FD J) as (F1 & F2 & [Q|Q]); [exists D1|exists D2]; (split; [apply in_app_iff; right; cbn; auto|auto]).
    + destruct K as (D' & K1 & K2); [exists D0; auto|]. exists D'. split; auto. apply in_app_iff in K1. apply in_app_iff. cbn. tauto.
  - injection E as <- <-. destruct I as [<-|I]; [exists D; cbn; auto|]. destruct K as (D' & K1 & K2); [exists D0; auto|]. exists D'. cbn. auto.
Qed.
Lemma affine_rounds_kept k fg n s : forall done uns Ds, affine_rounds ops po k fg n done uns = Some Ds -> kept s (done ++ uns) -> kept s Ds.
Proof.
  induction k; intros done uns Ds E K; cbn in E; [injection E as <-; auto|]. destruct affine_round as [[d w]|] eqn:E1; [|discriminate].
  eapply IHk; [exact E|]. destruct K as (D & I & J). apply in_app_iff in I. rewrite <- app_assoc. destruct I as [I|I]; [exists D; rewrite in_app_iff; auto|].
  destruct (affine_round_kept _ _ s _ _ _ E1) as (D' & I' & J'); [exists D; auto|]. exists D'. rewrite in_app_iff. auto.
Qed.
Lemma affine_fold f cs n x : forall Ds p q, affine_adjoin po f cs n Ds p = Done q -> pin p x \/ (exists D, In D Ds /\ in_vset rv den (v_make D f cs) x) -> pin q x.
Proof.
  induction Ds as [|D Ds IH]; intros p q E H; cbn in E; [injection E as <-; destruct H as [H|(D & [] & _)]; auto|].
  destruct (po_affine po p (v_make D f cs) n) as [p'|] eqn:A; [|discriminate]. cbn in E. eapply IH; [exact E|].
  destruct H as [H|(D' & [<-|H] & I)]; [left|left|right; eauto]; eapply (sp_affine _ _ _ _ _ SP); eauto.
Qed.

(** ** ReducePaver *)
Definition fits (fs : list (F * bnd)) (s : list R) : Prop := List.Forall (fun q => contains (snd q) (den (fst q) s)) fs.
Lemma fits_combine f B s : in_cbox B (vals f s) -> fits (combine f B) s.
Proof. revert B. induction f as [|a f IH]; intros B H; inversion H; subst; cbn; constructor; auto. apply IH; auto. Qed.
Lemma box_steps_kept s : forall steps D, finite_box D -> in_cbox D s -> List.Forall (fun q => contains (snd (fst q)) (den (fst (fst q)) s)) steps ->
  exists D', box_steps po steps D = Some D' /\ in_cbox D' s /\ finite_box D'.
Proof.
  induction steps as [|[[f Y] j] steps IH]; intros D FD I H; cbn; [eauto|]. inversion H as [|? ? H1 H2]; subst.
  pose proof (sp_box_reduce _ _ _ _ _ SP D f Y j s I H1) as K. pose proof (in_not_empty _ _ K) as N. rewrite N. apply IH; auto. apply (sp_box_finite _ _ _ _ _ SP); auto.
Qed.
Lemma all_steps_fit m fs s : fits fs s -> List.Forall (fun q => contains (snd (fst q)) (den (fst (fst q)) s)) (all_steps m fs).
Proof.
  intros H. apply Forall_forall. intros q Hq. unfold all_steps in Hq. apply in_flat_map in Hq. destruct Hq as (r & Hr & Hq). apply in_map_iff in Hq.
  destruct Hq as (j & <- & _). cbn. unfold fits in H. rewrite Forall_forall in H. auto.
Qed.
Lemma hull_pass_kept s : forall fs D, finite_box D -> in_cbox D s -> fits fs s -> exists D', hull_pass po fs D = Some D' /\ in_cbox D' s /\ finite_box D'.
Proof.
  induction fs as [|[f Y] fs IH]; intros D FD I H; cbn; [eauto|]. inversion H as [|? ? H1 H2]; subst.
  pose proof (sp_hull_reduce _ _ _ _ _ SP D f Y s I H1) as K. pose proof (in_not_empty _ _ K) as N. rewrite N. apply IH; auto. apply (sp_hull_finite _ _ _ _ _ SP); auto.
Qed.
Lemma hull_loop_kept s k : forall fs D r, finite_box D -> in_cbox D s -> fits fs s -> hull_loop po k fs D = Done r -> exists D', r = Some D' /\ in_cbox D' s /\ finite_box D'.
Proof.
  induction k; intros fs D r FD I H E; cbn in E; [discriminate|]. destruct (hull_pass_kept s fs D FD I H) as (D' & K & I' & FD'). rewrite K in E.
  destruct (negb (box_empty D') && po_again po D D'); [eapply IHk; eauto|]. injection E as <-. eauto.
Qed.
Lemma reduce_mono k fuel : forall p D f g cod b md q x, reduce_rec ops po k fuel p D f g cod b md = Done q -> pin p x -> pin q x.
Proof.
  induction fuel; intros p D f g cod b md q x E I; [discriminate|]. cbn in E. destruct po_superset; [injection E as <-; auto|].
  destruct box_steps as [D1|]; [|injection E as <-; auto]. destruct hull_loop as [[D2|]| |]; cbn in E; try discriminate; [|injection E as <-; auto].
  destruct (_ || _); [injection E as <-; auto|]. destruct (_ || _).
  - destruct split_at as [[E1 E2]|]; [|discriminate]. destruct (reduce_rec ops po k fuel p E1 f g cod b md) as [p'| |] eqn:R1; try discriminate. cbn in E. eauto.
  - destruct (_ <=? _)%Z; [injection E as <-; apply (sp_adjoin _ _ _ _ _ SP); auto|]. destruct ce_split as [b1 b2].
    destruct (reduce_rec ops po k fuel p D2 f g cod b1 md) as [p'| |] eqn:R1; try discriminate. cbn in E. eauto.
Qed.
Lemma not_disjoint (A B : cbox) x : in_cbox A x -> in_cbox B x -> box_disjoint A B = false.
Proof. intros HA HB. destruct (box_disjoint A B) eqn:E; auto. exfalso. eapply disjoint_none; eauto. Qed.
Lemma reduce_sound k fuel : forall p D f g cod b md q s, finite_box D -> in_cbox D s -> cin b (vals f s) -> in_cbox cod (vals g s) ->
  reduce_rec ops po k fuel p D f g cod b md = Done q -> pin q (vals f s).
Proof.
  induction fuel; intros p D f g cod b md q s FD I CI G E; [discriminate|]. cbn in E. destruct (po_superset po p b) eqn:SU; [injection E as <-; eapply (sp_superset _ _ _ _ _ SP); eauto|].
  pose proof (sp_box _ _ _ _ _ SP _ _ CI) as BI.
  assert (fits (combine f (ce_box po b) ++ combine g cod) s) as FI by (apply Forall_app; split; apply fits_combine; auto).
  destruct (box_steps_kept s _ D FD I (all_steps_fit (length D) _ s FI)) as (D1 & K1 & I1 & FD1). rewrite K1 in E.
  destruct (hull_loop po k _ D1) as [r| |] eqn:HL; cbn in E; try discriminate.
  destruct (hull_loop_kept s k _ D1 r FD1 I1 FI HL) as (D2 & -> & I2 & FD2).
  rewrite (not_disjoint _ _ _ (range_in rv den ops SO f _ _ I2) BI), (not_disjoint _ _ _ G (range_in rv den ops SO g _ _ I2)) in E. cbn [orb] in E.
  destruct (_ || _).
  - destruct split_at as [[E1 E2]|] eqn:SD; [|discriminate]. destruct (reduce_rec ops po k fuel p E1 f g cod b md) as [p'| |] eqn:R1; try discriminate. cbn in E.
    destruct (split_finite _ _ _ _ _ SD FD2 I2) as (F1 & F2 & [Q|Q]); [eapply reduce_mono; [exact E|]|]; eauto.
  - destruct (_ <=? _)%Z; [injection E as <-; apply (sp_adjoin _ _ _ _ _ SP); auto|]. pose proof (proj1 (sp_split _ _ _ _ _ SP b _) CI) as SC. destruct ce_split as [b1 b2]. cbn [fst snd] in SC.
    destruct (reduce_rec ops po k fuel p D2 f g cod b1 md) as [p'| |] eqn:R1; try discriminate. cbn in E.
    destruct SC as [Q|Q]; [eapply reduce_mono; [exact E|]|]; eauto.
Qed.

(** ** ConstraintPaver *)
Lemma constraint_mono fuel : forall p D f g c b md q x, constraint_rec ops po fuel p D f g c b md = Done q -> pin p x -> pin q x.
Proof.
  induction fuel; intros p D f g c b md q x E I; [discriminate|]. cbn in E. destruct po_superset; [injection E as <-; auto|].
  destruct box_disjoint; [injection E as <-; auto|]. destruct po_larger.
  - destruct split_at as [[E1 E2]|]; [|discriminate]. destruct (constraint_rec ops po fuel p E1 f g c b md) as [p'| |] eqn:R1; try discriminate. cbn in E. eauto.
  - destruct (_ <=? _)%Z; [injection E as <-; apply (sp_adjoin _ _ _ _ _ SP); auto|]. destruct ce_split as [b1 b2].
    destruct (constraint_rec ops po fuel p D f g c b1 md) as [p'| |] eqn:R1; try discriminate. cbn in E. eauto.
Qed.
Lemma constraint_sound fuel : forall p D f g c b md q s, finite_box D -> in_cbox D s -> cin b (vals f s) -> in_cbox c (vals g s) ->
  constraint_rec ops po fuel p D f g c b md = Done q -> pin q (vals f s).
Proof.
  induction fuel; intros p D f g c b md q s FD I CI G E; [discriminate|]. cbn in E. destruct (po_superset po p b) eqn:SU; [injection E as <-; eapply (sp_superset _ _ _ _ _ SP); eauto|].
  pose proof (sp_box _ _ _ _ _ SP _ _ CI) as BI.
  assert (in_cbox (ce_box po b ++ c) (vals (f ++ g) s)) as FI by (rewrite vals_app; apply in_app; auto).
  rewrite (not_disjoint _ _ _ (range_in rv den ops SO (f ++ g) _ _ I) FI) in E. destruct po_larger.
  - destruct split_at as [[E1 E2]|] eqn:SD; [|discriminate]. destruct (constraint_rec ops po fuel p E1 f g c b md) as [p'| |] eqn:R1; try discriminate. cbn in E.
    destruct (split_finite _ _ _ _ _ SD FD I) as (F1 & F2 & [Q|Q]); [eapply constraint_mono; [exact E|]|]; eauto.
  - destruct (_ <=? _)%Z; [injection E as <-; apply (sp_adjoin _ _ _ _ _ SP); auto|]. pose proof (proj1 (sp_split _ _ _ _ _ SP b _) CI) as SC. destruct ce_split as [b1 b2]. cbn [fst snd] in SC.
    destruct (constraint_rec ops po fuel p D f g c b1 md) as [p'| |] eqn:R1; try discriminate. cbn in E.
    destruct SC as [Q|Q]; [eapply constraint_mono; [exact E|]|]; eauto.
Qed.
Lemma widen_in tiny (B : cbox) v : is_finite tiny = true -> 0 <= B2R tiny -> in_cbox B v -> in_cbox (widen_box tiny B) v.
Proof.
  intros FT PT H. induction H as [|Y r B v [A D] H IH]; cbn; constructor; auto. destruct (b_of_contains tiny FT) as [_ CT2].
  split; [eapply below_le; [apply (fsub_down_below _ _ _ _ A CT2)|lra]|eapply above_ge; [apply (fadd_up_above _ _ _ _ D CT2)|lra]].
Qed.

(** ** OptimalConstraintPaver *)
Lemma slack_nonneg : forall (B : cbox) v up lo, finite_box B -> in_cbox B v -> nonnegative up -> nonnegative lo -> 0 <= slack B v up lo.
Proof.
  intros B v up lo FB I. revert up lo. induction I as [|Y r B v [A D] I IH]; intros [|a up] [|c lo] U L; cbn; try lra.
  inversion FB as [|? ? [F1 F2]]; inversion U; inversion L; subst. apply (proj1 (below_finite _ _ F1)) in A. apply (proj1 (above_finite _ _ F2)) in D.
  pose proof (IH ltac:(auto) up lo ltac:(auto) ltac:(auto)).
  assert (0 <= B2R a * (B2R (b_u Y) - r)) by (apply Rmult_le_pos; lra). assert (0 <= B2R c * (r - B2R (b_l Y))) by (apply Rmult_le_pos; lra). lra.
Qed.
Lemma nonneg_skipn n (w : list fl) : nonnegative w -> nonnegative (skipn n w).
Proof. revert w. induction n; intros [|a w] H; cbn; auto. inversion H; subst. apply IHn; auto. Qed.
Lemma dual_nonneg D fg bx w s : finite_box D -> finite_box bx -> nonnegative w -> in_cbox D s -> in_cbox bx (vals fg s) -> 0 <= dual den D fg bx w s.
Proof.
  intros FD FB W I J. unfold dual. pose proof (slack_nonneg bx (vals fg s) w (skipn (length fg) w) FB J W (nonneg_skipn _ _ W)).
  pose proof (slack_nonneg D s (skipn (2 * length fg) w) (skipn (2 * length fg + length D) w) FD I (nonneg_skipn _ _ W) (nonneg_skipn _ _ W)). lra.
Qed.
Lemma optimal_mono fuel : forall r x D fg c b md q z, optimal_rec ops po fuel r x D fg c b md = Done q -> pin r z -> pin (fst q) z.
Proof.
  induction fuel; intros r x D fg c b md q z E I; [discriminate|]. cbn in E. destruct po_superset; [injection E as <-; auto|].
  destruct po_solve as [[x' neg]|]; [|discriminate].
  assert (forall r' x'' q, (if (md <=? ce_depth po b)%Z then Done (po_adjoin po r' b, x'')
          else let '(b1, b2) := ce_split po b in
            obind (optimal_rec ops po fuel r' (po_relax po x'') D fg c b1 md) (fun q =>
            obind (optimal_rec ops po fuel (fst q) (po_relax po x'') D fg c b2 md) (fun s => Done (fst s, x'')))) = Done q -> pin r' z -> pin (fst q) z) as K.
  { clear - IHfuel SP. intros r' x'' q E I. destruct (_ <=? _)%Z; [injection E as <-; apply (sp_adjoin _ _ _ _ _ SP); auto|]. destruct ce_split as [b1 b2].
    destruct (optimal_rec ops po fuel r' _ D fg c b1 md) as [q1| |] eqn:R1; cbn in E; try discriminate.
    destruct (optimal_rec ops po fuel (fst q1) _ D fg c b2 md) as [q2| |] eqn:R2; cbn in E; try discriminate. injection E as <-. cbn. eauto. }
  destruct neg; [|eapply K; eauto]. destruct box_empty; [injection E as <-; auto|]. destruct split_at as [[D1 D2]|]; [|discriminate].
  destruct (optimal_rec ops po fuel r _ D1 fg c b md) as [q1| |] eqn:R1; cbn in E; try discriminate.
  destruct (optimal_rec ops po fuel (fst q1) _ D2 fg c b md) as [q2| |] eqn:R2; cbn in E; try discriminate. eauto.
Qed.
Lemma optimal_sound (W : nonnegative_weights po) f fuel : forall r x D g c b md q s, finite_box D -> finite_box c -> in_cbox D s -> cin b (vals f s) -> in_cbox c (vals g s) ->
  optimal_rec ops po fuel r x D (f ++ g) c b md = Done q -> pin (fst q) (vals f s).
Proof.
  induction fuel; intros r x D g c b md q s FD FC I CI G E; [discriminate|]. cbn in E. destruct (po_superset po r b) eqn:SU; [injection E as <-; eapply (sp_superset _ _ _ _ _ SP); eauto|].
  pose proof (sp_box _ _ _ _ _ SP _ _ CI) as BI.
  assert (in_cbox (ce_box po b ++ c) (vals (f ++ g) s)) as FI by (rewrite vals_app; apply in_app; auto).
  destruct (po_solve po x D (f ++ g) (ce_box po b ++ c)) as [[x' neg]|] eqn:SV; [|discriminate].
  assert (forall r' x'' q, (if (md <=? ce_depth po b)%Z then Done (po_adjoin po r' b, x'')
          else let '(b1, b2) := ce_split po b in
            obind (optimal_rec ops po fuel r' (po_relax po x'') D (f ++ g) c b1 md) (fun q =>
            obind (optimal_rec ops po fuel (fst q) (po_relax po x'') D (f ++ g) c b2 md) (fun s => Done (fst s, x'')))) = Done q -> pin (fst q) (vals f s)) as K.
  { clear E. intros r' x'' q' E. destruct (_ <=? _)%Z; [injection E as <-; apply (sp_adjoin _ _ _ _ _ SP); auto|]. pose proof (proj1 (sp_split _ _ _ _ _ SP b _) CI) as SC. destruct ce_split as [b1 b2]. cbn [fst snd] in SC.
    destruct (optimal_rec ops po fuel r' _ D (f ++ g) c b1 md) as [q1| |] eqn:R1; cbn in E; try discriminate.
    destruct (optimal_rec ops po fuel (fst q1) _ D (f ++ g) c b2 md) as [q2| |] eqn:R2; cbn in E; try discriminate. injection E as <-. cbn [fst].
    destruct SC as [Q|Q]; [eapply optimal_mono; [exact R2|]|]; eauto. }
  destruct neg; [|eapply K; eauto].
  assert (finite_box (ce_box po b ++ c)) as FB by (apply Forall_app; split; auto; apply (sp_finite _ _ _ _ _ SP)).
  pose proof (sp_dual _ _ _ _ _ SP D D (f ++ g) _ (po_weights po x') s FD FB I I FI (dual_nonneg _ _ _ _ _ FD FB (W _ _ _ _ _ _ SV) I FI)) as DI.
  rewrite (in_not_empty _ _ DI) in E. destruct split_at as [[D1 D2]|]; [|discriminate].
  destruct (optimal_rec ops po fuel r _ D1 (f ++ g) c b md) as [q1| |] eqn:R1; cbn in E; try discriminate.
  destruct (optimal_rec ops po fuel (fst q1) _ D2 (f ++ g) c b md) as [q2| |] eqn:R2; cbn in E; try discriminate. eauto.
Qed.

(** ** Depth of the cells which are added *)
Local Notation fine := (fine pin cin po).
Lemma fine_refl b md p : fine b md p p. Proof. intros x H. auto. Qed.
Lemma fine_trans b md p q r : fine b md p q -> fine b md q r -> fine b md p r.
Proof. intros A B x H. destruct (B x H) as [K|K]; auto. Qed.
Lemma desc_trans a b c : descends po a b -> descends po b c -> descends po a c.
Proof. intros A B. induction B; auto; [apply desc_first|apply desc_second]; auto. Qed.
Lemma fine_adjoin b md p : (md <= ce_depth po b)%Z -> fine b md p (po_adjoin po p b).
Proof. intros H x K. apply (sp_adjoin _ _ _ _ _ SP) in K. destruct K as [K|K]; auto. right. exists b. split; [constructor|auto]. Qed.
Lemma fine_child b b' md p q : (ce_depth po b < md)%Z -> b' = fst (ce_split po b) \/ b' = snd (ce_split po b) -> fine b' md p q -> fine b md p q.
Proof.
  intros L S K x H. destruct (K x H) as [A|(c & D & I & M & O)]; auto. right. exists c. destruct (sp_depth _ _ _ _ _ SP b) as [D1 D2].
  assert (descends po b b' /\ ce_depth po b' = (ce_depth po b + 1)%Z) as [DB DE] by (destruct S as [->| ->]; split; auto; [apply desc_first|apply desc_second]; constructor).
  split; [eapply desc_trans; eauto|]. split; auto. split; auto. right. destruct O as [->|O]; auto. lia.
Qed.
Lemma reduce_fine k fuel : forall p D f g cod b md q, reduce_rec ops po k fuel p D f g cod b md = Done q -> fine b md p q.
Proof.
  induction fuel; intros p D f g cod b md q E; [discriminate|]. cbn in E. destruct po_superset; [injection E as <-; apply fine_refl|].
  destruct box_steps as [D1|]; [|injection E as <-; apply fine_refl]. destruct hull_loop as [[D2|]| |]; cbn in E; try discriminate; [|injection E as <-; apply fine_refl].
  destruct (_ || _); [injection E as <-; apply fine_refl|]. destruct (_ || _).
  - destruct split_at as [[E1 E2]|]; [|discriminate]. destruct (reduce_rec ops po k fuel p E1 f g cod b md) as [p'| |] eqn:R1; try discriminate. cbn in E. eapply fine_trans; eauto.
  - destruct (_ <=? _)%Z eqn:L; [injection E as <-; apply Z.leb_le in L; apply fine_adjoin; auto|]. apply Z.leb_gt in L. destruct (ce_split po b) as [b1 b2] eqn:SB.
    destruct (reduce_rec ops po k fuel p D2 f g cod b1 md) as [p'| |] eqn:R1; try discriminate. cbn in E.
    eapply fine_trans; [eapply (fine_child b b1)|eapply (fine_child b b2)]; eauto; rewrite SB; auto.
Qed.
Lemma constraint_fine fuel : forall p D f g c b md q, constraint_rec ops po fuel p D f g c b md = Done q -> fine b md p q.
Proof.
  induction fuel; intros p D f g c b md q E; [discriminate|]. cbn in E. destruct po_superset; [injection E as <-; apply fine_refl|].
  destruct box_disjoint; [injection E as <-; apply fine_refl|]. destruct po_larger.
  - destruct split_at as [[E1 E2]|]; [|discriminate]. destruct (constraint_rec ops po fuel p E1 f g c b md) as [p'| |] eqn:R1; try discriminate. cbn in E. eapply fine_trans; eauto.
  - destruct (_ <=? _)%Z eqn:L; [injection E as <-; apply Z.leb_le in L; apply fine_adjoin; auto|]. apply Z.leb_gt in L. destruct (ce_split po b) as [b1 b2] eqn:SB.
    destruct (constraint_rec ops po fuel p D f g c b1 md) as [p'| |] eqn:R1; try discriminate. cbn in E.
    eapply fine_trans; [eapply (fine_child b b1)|eapply (fine_child b b2)]; eauto; rewrite SB; auto.
Qed.
Lemma optimal_fine fuel : forall r x D fg c b md q, optimal_rec ops po fuel r x D fg c b md = Done q -> fine b md r (fst q).
Proof.
  induction fuel; intros r x D fg c b md q E; [discriminate|]. cbn in E. destruct po_superset; [injection E as <-; apply fine_refl|].
  destruct po_solve as [[x' neg]|]; [|discriminate].
  assert (forall r' x'' q, (if (md <=? ce_depth po b)%Z then Done (po_adjoin po r' b, x'')
          else let '(b1, b2) := ce_split po b in
            obind (optimal_rec ops po fuel r' (po_relax po x'') D fg c b1 md) (fun q =>
            obind (optimal_rec ops po fuel (fst q) (po_relax po x'') D fg c b2 md) (fun s => Done (fst s, x'')))) = Done q -> fine b md r' (fst q)) as K.
  { clear - IHfuel SP. intros r' x'' q E. destruct (_ <=? _)%Z eqn:L; [injection E as <-; apply Z.leb_le in L; apply fine_adjoin; auto|]. apply Z.leb_gt in L. destruct (ce_split po b) as [b1 b2] eqn:SB.
    destruct (optimal_rec ops po fuel r' _ D fg c b1 md) as [q1| |] eqn:R1; cbn in E; try discriminate.
    destruct (optimal_rec ops po fuel (fst q1) _ D fg c b2 md) as [q2| |] eqn:R2; cbn in E; try discriminate. injection E as <-. cbn [fst].
    eapply fine_trans; [eapply (fine_child b b1)|eapply (fine_child b b2)]; eauto; rewrite SB; auto. }
  destruct neg; [|eapply K; eauto]. destruct box_empty; [injection E as <-; apply fine_refl|]. destruct split_at as [[D1 D2]|]; [|discriminate].
  destruct (optimal_rec ops po fuel r _ D1 fg c b md) as [q1| |] eqn:R1; cbn in E; try discriminate.
  destruct (optimal_rec ops po fuel (fst q1) _ D2 fg c b md) as [q2| |] eqn:R2; cbn in E; try discriminate.
  eapply fine_trans; [eapply IHfuel; exact R1|]. eapply fine_trans; [eapply IHfuel; exact R2|]. eapply K; eauto.
Qed.
(** The cells reached from a cell lie in it. *)
Lemma desc_inside b c x : descends po b c -> cin c x -> cin b x.
Proof. induction 1; intros H1; auto; apply IHdescends; apply (sp_split _ _ _ _ _ SP); auto. Qed.
Lemma fine_inside b md p q x : fine b md p q -> pin q x -> pin p x \/ cin b x.
Proof. intros H I. destruct (H x I) as [K|(c & D & J & _)]; auto. right. eapply desc_inside; eauto. Qed.
End Paver.

(** ** Termination *)
Section Termination.
Context {prec emax : Z} {Hprec : Prec_gt_0 prec} {Hemax : Prec_lt_emax prec emax} {RR F P C X : Type}.
Local Notation cbox := (list (bounds prec emax)).
Context (ops : @function_operations prec emax RR F) (po : @paver_operations prec emax RR F P C X).
Lemma obind_unfinished {A B} (o : outcome A) (k : A -> outcome B) : o = Unfinished -> obind o k = Unfinished.
Proof. intros ->. reflexivity. Qed.
Lemma split_some k (D : cbox) : (k < length D)%nat -> exists D1 D2, split_at ops k D = Some (D1, D2) /\ length D1 = length D /\ length D2 = length D.
Proof.
  intros H. unfold split_at. destruct (nth_error D k) eqn:E; [|apply nth_error_None in E; lia].
  assert (forall Y, length (set_at k Y D) = length D) as L. { intros Y. clear. revert k. induction D; intros [|k]; cbn; auto. }
  eexists; eexists; split; [reflexivity|]; auto.
Qed.
Lemma meet_length (A B : cbox) : length A = length B -> length (box_meet A B) = length A.
Proof. intros. unfold box_meet. rewrite map_length, combine_length. lia. Qed.
Lemma subdivide_forever fuel : forall p V n, (forall q D, po_small po q (apply_range ops (v_fun V) D) n = false) ->
  (forall c D, In c (v_cons V) -> ivl_disjoint (fo_range ops (c_fun c) D) (over ops (c_bounds c)) = false) ->
  (forall D, D <> [] -> (fo_widest ops D < length D)%nat) -> v_dom V <> [] -> length (v_dom V) = length (v_red V) -> subdivide ops po fuel p V n = Unfinished.
Proof.
  induction fuel; intros p V n S CC W N L; cbn; auto.
  assert (excluded ops V = false) as ->.
  { unfold excluded. destruct existsb eqn:E; auto. apply existsb_exists in E. destruct E as (c & I & E). rewrite CC in E; auto; discriminate. }
  rewrite S. unfold v_split. destruct (split_some (fo_widest ops (v_dom V)) (v_dom V) (W _ N)) as (D1 & D2 & -> & L1 & L2).
  apply obind_unfinished. assert (length (v_dom V) <> 0%nat) by (destruct (v_dom V); cbn; [contradiction|lia]).
  apply IHfuel; cbn [v_make v_fun v_cons v_dom v_red]; auto. intros K. apply (f_equal (@length _)) in K. rewrite meet_length in K by lia. cbn in K. lia.
Qed.
Lemma constraint_forever fuel : forall p D f g c b md, po_superset po p b = false -> (forall D', box_disjoint (apply_range ops (f ++ g) D') (ce_box po b ++ c) = false) ->
  (forall D', po_larger po (apply_range ops f D') (ce_box po b) = true) -> (forall D', D' <> [] -> (fo_widest ops D' < length D')%nat) -> D <> [] ->
  constraint_rec ops po fuel p D f g c b md = Unfinished.
Proof.
  induction fuel; intros p D f g c b md S DJ LA W N; cbn; auto. rewrite S, DJ, LA. destruct (split_some (fo_widest ops D) D (W _ N)) as (D1 & D2 & -> & L1 & L2).
  apply obind_unfinished. apply IHfuel; auto. intros ->. destruct D; [contradiction|discriminate].
Qed.
(** The domains after a number of splits. *)
Inductive parts : nat -> cbox -> cbox -> Prop :=
  | parts_0 : forall D, parts 0 D D
  | parts_S : forall k D D1 D2 D', split_at ops (fo_widest ops D) D = Some (D1, D2) -> parts k D1 D' \/ parts k D2 D' -> parts (S k) D D'.
Inductive subsets : nat -> @vset prec emax RR F -> @vset prec emax RR F -> Prop :=
  | subsets_0 : forall V, subsets 0 V V
  | subsets_S : forall k V V1 V2 W, v_split ops (fo_widest ops (v_dom V)) V = Some (V1, V2) -> subsets k V1 W \/ subsets k V2 W -> subsets (S k) V W.
Lemma obind_finished {A B} (o : outcome A) (k : A -> outcome B) : o <> Unfinished -> (forall a, k a <> Unfinished) -> obind o k <> Unfinished.
Proof. intros H K. destruct o; cbn; auto; discriminate. Qed.
Lemma subdivide_ends k : forall p V n, (forall q W, subsets k V W -> po_small po q (apply_range ops (v_fun W) (v_red W)) n = true) -> subdivide ops po (S k) p V n <> Unfinished.
Proof.
  induction k; intros p V n H.
  - cbn. destruct excluded; [discriminate|]. rewrite H by constructor. destruct po_outer; discriminate.
  - cbn [subdivide]. destruct excluded; [discriminate|]. destruct po_small; [destruct po_outer; discriminate|].
    destruct v_split as [[V1 V2]|] eqn:E; [|discriminate]. apply obind_finished; [|intros p']; apply IHk; intros q W SW; apply H; eapply subsets_S; eauto.
Qed.
Lemma constraint_ends (DEP : forall c, ce_depth po (fst (ce_split po c)) = (ce_depth po c + 1)%Z /\ ce_depth po (snd (ce_split po c)) = (ce_depth po c + 1)%Z) fuel :
  forall k p D f g c b md, (forall D' c', parts k D D' -> descends po b c' -> po_larger po (apply_range ops f D') (ce_box po c') = false) ->
  (k + Z.to_nat (md - ce_depth po b) < fuel)%nat -> constraint_rec ops po fuel p D f g c b md <> Unfinished.
Proof.
  induction fuel; intros k p D f g c b md H L; [lia|]. cbn. destruct po_superset; [discriminate|]. destruct box_disjoint; [discriminate|].
  destruct (po_larger po (apply_range ops f D) (ce_box po b)) eqn:LA.
  - destruct k as [|k]; [rewrite H in LA; [discriminate|constructor|constructor]|]. destruct split_at as [[D1 D2]|] eqn:E; [|discriminate].
    apply obind_finished; [|intros p']; apply (IHfuel k); try lia; intros D' c' PK DE; (apply H; [|exact DE]); (eapply parts_S; [exact E|]); auto.
  - destruct (md <=? ce_depth po b)%Z eqn:LD; [discriminate|]. apply Z.leb_gt in LD. destruct (DEP b) as [Q1 Q2].
    pose proof (desc_first po b b (desc_refl po b)) as T1. pose proof (desc_second po b b (desc_refl po b)) as T2. destruct (ce_split po b) as [b1 b2]. cbn [fst snd] in *.
    assert (forall a b c, descends po a b -> descends po b c -> descends po a c) as TR by (intros u v w A B; induction B; auto; [apply desc_first|apply desc_second]; auto).
    apply obind_finished; [|intros p']; apply (IHfuel k); try (rewrite ?Q1, ?Q2; lia); intros D' c' PK DE; (apply H; [exact PK|]); [apply (TR b b1)|apply (TR b b2)]; auto.
Qed.
End Termination.
