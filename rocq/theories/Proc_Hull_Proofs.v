(** Proofs about hull reduction by procedures. *)
From Coq Require Import ZArith List Bool Lia Reals Lra.
From Verif Require Import Expr_Model Expr_Spec Proc_Model Proc_Spec Proc_Proofs.
Import ListNotations.
Open Scope R_scope.

Lemma bind_some {A B} (o : option A) (f : A -> option B) y :
  bind o f = Some y -> exists x, o = Some x /\ f x = Some y.
Proof. destruct o; simpl; [ eauto | discriminate ]. Qed.

Lemma pt_run_snoc c rho p i : forall w,
  pt_run c rho w (p ++ [i]) = bind (pt_run c rho w p) (fun w => bind (pt_step c rho w i) (fun y => Some (w ++ [y]))).
Proof.
  induction p as [|j p IH]; intros w; simpl; [ reflexivity | ].
  destruct (pt_step c rho w j); simpl; [ apply IH | reflexivity ].
Qed.

Lemma pt_values_snoc c rho p i w : pt_values c rho (p ++ [i]) = Some w ->
  exists u y, pt_values c rho p = Some u /\ pt_step c rho u i = Some y /\ w = u ++ [y].
Proof.
  unfold pt_values. rewrite pt_run_snoc. intros H.
  apply bind_some in H. destruct H as (u & E & H). apply bind_some in H. destruct H as (y & F & H).
  injection H as <-. eauto.
Qed.

Lemma pt_values_length c rho p : forall w, pt_values c rho p = Some w -> length w = length p.
Proof.
  induction p as [|i p IH] using rev_ind; intros w H.
  - injection H as <-. reflexivity.
  - apply pt_values_snoc in H. destruct H as (u & y & E & _ & ->). rewrite !app_length, (IH u E). reflexivity.
Qed.

(** What an instruction computes, in terms of all the values. *)
Definition step_at (c : list R) (rho : valuation) (w : list R) (r : nat) (i : instr) : Prop :=
  let v k := nth k w 0 in
  match i with
  | ICst k => nth_error c k = Some (v r)
  | IVar j => v r = rho j
  | IUn o a => (a < r)%nat /\ sem1 o (v a) = Some (v r)
  | IBin o a b => (a < r)%nat /\ (b < r)%nat /\ sem2 o (v a) (v b) = Some (v r)
  | IPow a n => (a < r)%nat /\ sempow (v a) n = Some (v r)
  | IScal o k a => (a < r)%nat /\ exists y, nth_error c k = Some y /\ sem2 o y (v a) = Some (v r)
  end.

Lemma step_at_app c rho w l r i : (r < length w)%nat -> step_at c rho w r i -> step_at c rho (w ++ l) r i.
Proof.
  intros L.
  destruct i; simpl; rewrite ?(app_nth1 w l 0 L); auto.
  - intros [H E]. rewrite app_nth1 by lia. auto.
  - intros (H1 & H2 & E). rewrite !app_nth1 by lia. auto.
  - intros [H E]. rewrite app_nth1 by lia. auto.
  - intros [H E]. rewrite app_nth1 by lia. auto.
Qed.

Lemma nth_error_val {A} (l : list A) k a d : nth_error l k = Some a -> (k < length l)%nat /\ nth k l d = a.
Proof.
  intros H. split.
  - apply nth_error_Some. congruence.
  - now apply nth_error_nth.
Qed.

Lemma step_at_last c rho u i y : pt_step c rho u i = Some y -> step_at c rho (u ++ [y]) (length u) i.
Proof.
  assert (L : nth (length u) (u ++ [y]) 0 = y) by (rewrite app_nth2, Nat.sub_diag by lia; reflexivity).
  destruct i; simpl; rewrite L.
  - auto.
  - congruence.
  - intros H. apply bind_some in H. destruct H as (x & E & H). apply (nth_error_val _ _ _ 0) in E.
    destruct E as [E F]. split; [ exact E | ]. now rewrite app_nth1, F.
  - intros H. apply bind_some in H. destruct H as (x & E & H). apply bind_some in H. destruct H as (z & E' & H).
    apply (nth_error_val _ _ _ 0) in E. apply (nth_error_val _ _ _ 0) in E'.
    destruct E as [E F], E' as [E' F']. split; [ exact E | split; [ exact E' | ] ].
    now rewrite !app_nth1, F, F'.
  - intros H. apply bind_some in H. destruct H as (x & E & H). apply (nth_error_val _ _ _ 0) in E.
    destruct E as [E F]. split; [ exact E | ]. now rewrite app_nth1, F.
  - intros H. apply bind_some in H. destruct H as (x & E & H). apply bind_some in H. destruct H as (z & E' & H).
    apply (nth_error_val _ _ _ 0) in E'.
    destruct E' as [E' F']. split; [ exact E' | ]. exists x. split; [ exact E | ]. now rewrite app_nth1, F'.
Qed.

Lemma pt_values_step c rho p : forall w r i, pt_values c rho p = Some w -> nth_error p r = Some i ->
  step_at c rho w r i.
Proof.
  induction p as [|j p IH] using rev_ind; intros w r i H E; [ now destruct r | ].
  apply pt_values_snoc in H. destruct H as (u & y & Hu & Hy & ->).
  pose proof (pt_values_length _ _ _ _ Hu) as L.
  destruct (Nat.lt_ge_cases r (length p)) as [K|K].
  - rewrite nth_error_app1 in E by exact K. apply step_at_app; [ lia | ]. now apply IH.
  - rewrite nth_error_app2 in E by exact K.
    destruct (r - length p)%nat as [|m] eqn:Z; [ | destruct m; discriminate ]. injection E as <-.
    replace r with (length u) by lia. now apply step_at_last.
Qed.

Section Hull.
Context {Y : Type} (A : Alg Y) (contains : A -> R -> Prop) (yval : Y -> R)
  (restrict : A -> A -> A) (int : Z -> A).
Hypothesis enc : encloses A contains yval restrict int.

Definition encl (v : list A) (w : list R) : Prop :=
  length v = length w /\ forall k, (k < length w)%nat -> contains (nth k v (al_zero A)) (nth k w 0).

Lemma encl_snoc v w a y : encl v w -> contains a y -> encl (v ++ [a]) (w ++ [y]).
Proof.
  intros [L H] C. split; [ rewrite !app_length, L; reflexivity | ].
  intros k K. rewrite app_length in K. simpl in K.
  destruct (Nat.lt_ge_cases k (length w)) as [J|J].
  - rewrite !app_nth1 by lia. auto.
  - replace k with (length w) by lia. rewrite !app_nth2 by lia.
    rewrite L, Nat.sub_diag. exact C.
Qed.

Lemma nth_error_map_yval (c : list Y) k y : nth_error (map yval c) k = Some y ->
  exists z, nth_error c k = Some z /\ yval z = y.
Proof. rewrite nth_error_map. destruct (nth_error c k); simpl; intros H; [ injection H as <-; eauto | discriminate ]. Qed.

Lemma in_box_nth dom rho j : in_box contains dom rho -> (j < length dom)%nat ->
  contains (nth j dom (al_zero A)) (rho j).
Proof. intros B L. apply B. now apply nth_error_nth'. Qed.

Lemma exec_encl c dom rho p : forall w,
  in_box contains dom rho -> arguments_below (length dom) p ->
  pt_values (map yval c) rho p = Some w -> encl (exec A c dom p) w.
Proof.
  induction p as [|i p IH] using rev_ind; intros w B N H.
  - injection H as <-. split; [ reflexivity | simpl; lia ].
  - apply pt_values_snoc in H. destruct H as (u & y & Hu & Hy & ->).
    assert (E : encl (exec A c dom p) u).
    { apply IH; auto. intros j J. apply N. apply in_or_app. now left. }
    rewrite exec_snoc. apply encl_snoc; [ exact E | ]. destruct E as [L E].
    destruct i; simpl in Hy |- *.
    + apply nth_error_map_yval in Hy. destruct Hy as (z & F & <-). rewrite F. apply (enc_cst _ _ _ _ _ enc).
    + injection Hy as <-. apply in_box_nth; [ exact B | ]. apply N. apply in_or_app. right. now left.
    + apply bind_some in Hy. destruct Hy as (x & Hx & Hy). apply (nth_error_val _ _ _ 0) in Hx. destruct Hx as [Ha Hx].
      eapply (enc_un _ _ _ _ _ enc); [ apply E; exact Ha | now rewrite Hx ].
    + apply bind_some in Hy. destruct Hy as (x & Hx & Hy). apply (nth_error_val _ _ _ 0) in Hx. destruct Hx as [Ha Hx].
      apply bind_some in Hy. destruct Hy as (x' & Hx' & Hy). apply (nth_error_val _ _ _ 0) in Hx'. destruct Hx' as [Ha' Hx'].
      eapply (enc_bin _ _ _ _ _ enc); [ apply E; exact Ha | apply E; exact Ha' | now rewrite Hx, Hx' ].
    + apply bind_some in Hy. destruct Hy as (x & Hx & Hy). apply (nth_error_val _ _ _ 0) in Hx. destruct Hx as [Ha Hx].
      eapply (enc_pow _ _ _ _ _ enc); [ apply E; exact Ha | now rewrite Hx ].
    + apply bind_some in Hy. destruct Hy as (x & Hx & Hy). apply nth_error_map_yval in Hx. destruct Hx as (z & F & <-). rewrite F.
      apply bind_some in Hy. destruct Hy as (x' & Hx' & Hy). apply (nth_error_val _ _ _ 0) in Hx'. destruct Hx' as [Ha' Hx'].
      eapply (enc_scal _ _ _ _ _ enc); [ apply E; exact Ha' | now rewrite Hx' ].
Qed.

Lemma encl_set v w k a : encl v w -> ((k < length w)%nat -> contains a (nth k w 0)) -> encl (set_nth A k a v) w.
Proof.
  intros [L E] C. split; [ now rewrite set_nth_length | ].
  intros j J. destruct (Nat.eq_dec j k) as [->|N].
  - rewrite nth_set_nth_same by lia. auto.
  - rewrite nth_set_nth by exact N. auto.
Qed.

(** the restriction of one argument of a unary operator *)
Lemma back_un_ok o a x z r b : principal1 [] [x] (IUn o 0) -> sem1 o x = Some z ->
  back_un A r o = Some b -> contains r z -> contains a x -> contains (restrict a b) x.
Proof.
  intros P S B Cr Ca. apply (enc_restrict _ _ _ _ _ enc); [ exact Ca | ].
  destruct o; simpl in P, B; try discriminate; injection B as <-;
    unfold sem1 in S.
  - injection S as <-. exact Cr.
  - injection S as <-. eapply (enc_un _ _ _ _ _ enc); [ exact Cr | ]. unfold sem1. f_equal. lra.
  - injection S as <-. eapply (enc_un _ _ _ _ _ enc); [ exact Cr | ]. unfold sem1.
    destruct (Rle_dec 0 (x * x)) as [H|H]; [ | exfalso; apply H; nra ]. f_equal. now apply sqrt_square.
  - destruct (Req_EM_T x 0) as [H|H]; [ discriminate | ]. injection S as <-.
    eapply (enc_un _ _ _ _ _ enc); [ exact Cr | ]. unfold sem1.
    destruct (Req_EM_T (/ x) 0) as [K|K]; [ exfalso; now apply (Rinv_neq_0_compat x) in H | ].
    f_equal. now apply Rinv_involutive.
  - destruct (Rle_dec 0 x) as [H|H]; [ | discriminate ]. injection S as <-.
    eapply (enc_un _ _ _ _ _ enc); [ exact Cr | ]. unfold sem1. f_equal. now apply sqrt_def.
  - injection S as <-. eapply (enc_un _ _ _ _ _ enc); [ exact Cr | ]. unfold sem1.
    destruct (Rlt_dec 0 (exp x)) as [H|H]; [ | exfalso; apply H, exp_pos ]. f_equal. apply ln_exp.
  - destruct (Rlt_dec 0 x) as [H|H]; [ | discriminate ]. injection S as <-.
    eapply (enc_un _ _ _ _ _ enc); [ exact Cr | ]. unfold sem1. f_equal. now apply exp_ln.
  - injection S as <-. eapply (enc_un _ _ _ _ _ enc); [ exact Cr | ]. unfold sem1.
    destruct (Rle_dec (Rabs (sin x)) 1) as [H|H].
    + f_equal. apply asin_sin. lra.
    + exfalso. apply H. apply Rabs_le. pose proof (SIN_bound x). lra.
  - injection S as <-. eapply (enc_un _ _ _ _ _ enc); [ exact Cr | ]. unfold sem1.
    destruct (Rle_dec (Rabs (cos x)) 1) as [H|H].
    + f_equal. apply acos_cos. lra.
    + exfalso. apply H. apply Rabs_le. pose proof (COS_bound x). lra.
  - destruct (Req_EM_T (cos x) 0) as [H|H]; [ discriminate | ]. injection S as <-.
    eapply (enc_un _ _ _ _ _ enc); [ exact Cr | ]. unfold sem1. f_equal. apply atan_tan. lra.
  - destruct (Rle_dec (Rabs x) 1) as [H|H]; [ | discriminate ]. injection S as <-.
    eapply (enc_un _ _ _ _ _ enc); [ exact Cr | ]. unfold sem1. f_equal. apply sin_asin.
    revert H. unfold Rabs. destruct (Rcase_abs x); lra.
  - destruct (Rle_dec (Rabs x) 1) as [H|H]; [ | discriminate ]. injection S as <-.
    eapply (enc_un _ _ _ _ _ enc); [ exact Cr | ]. unfold sem1. f_equal. apply cos_acos.
    revert H. unfold Rabs. destruct (Rcase_abs x); lra.
  - injection S as <-. eapply (enc_un _ _ _ _ _ enc); [ exact Cr | ]. unfold sem1.
    destruct (Req_EM_T (cos (atan x)) 0) as [K|K].
    + exfalso. pose proof (atan_bound x) as [B1 B2]. assert (cos (atan x) > 0) by (apply cos_gt_0; lra). lra.
    + f_equal. apply tan_atan.
Qed.

Lemma sem2_div_inv x y z : sem2 Div x y = Some z -> y <> 0 /\ z = x / y.
Proof. simpl. destruct (Req_EM_T y 0); [ discriminate | ]. intros H. injection H as <-. auto. Qed.

Lemma back_bin1_ok o a x y z r b : (o = Max \/ o = Min -> x = y) -> sem2 o x y = Some z ->
  contains r z -> contains b y -> contains a x -> contains (restrict a (back_bin1 A r o b)) x.
Proof.
  intros P S Cr Cb Ca. apply (enc_restrict _ _ _ _ _ enc); [ exact Ca | ].
  destruct o; simpl back_bin1.
  - injection S as <-. eapply (enc_bin _ _ _ _ _ enc); [ exact Cr | exact Cb | ]. simpl. f_equal. lra.
  - injection S as <-. eapply (enc_bin _ _ _ _ _ enc); [ exact Cb | exact Cr | ]. simpl. f_equal. lra.
  - injection S as <-. eapply (enc_div _ _ _ _ _ enc); [ exact Cr | exact Cb | reflexivity ].
  - apply sem2_div_inv in S. destruct S as [N ->].
    eapply (enc_bin _ _ _ _ _ enc); [ exact Cb | exact Cr | ]. simpl. f_equal. now field.
  - assert (E : x = y) by auto. subst y. injection S as <-. eapply (enc_bin _ _ _ _ _ enc); [ exact Cr | exact Cb | ].
    simpl. f_equal. rewrite (Rmax_left x x) by lra. apply Rmax_left. lra.
  - assert (E : x = y) by auto. subst y. injection S as <-. eapply (enc_bin _ _ _ _ _ enc); [ exact Cr | exact Cb | ].
    simpl. f_equal. rewrite (Rmin_left x x) by lra. apply Rmin_left. lra.
Qed.

Lemma back_bin2_ok o a x y z r b : (o = Max \/ o = Min -> x = y) -> sem2 o x y = Some z ->
  contains r z -> contains a x -> contains b y -> contains (restrict b (back_bin2 A r o a)) y.
Proof.
  intros P S Cr Ca Cb. apply (enc_restrict _ _ _ _ _ enc); [ exact Cb | ].
  destruct o; simpl back_bin2.
  - injection S as <-. eapply (enc_bin _ _ _ _ _ enc); [ exact Cr | exact Ca | ]. simpl. f_equal. lra.
  - injection S as <-. eapply (enc_bin _ _ _ _ _ enc); [ exact Ca | exact Cr | ]. simpl. f_equal. lra.
  - injection S as <-. eapply (enc_div _ _ _ _ _ enc); [ exact Cr | exact Ca | lra ].
  - apply sem2_div_inv in S. destruct S as [N ->].
    eapply (enc_div _ _ _ _ _ enc); [ exact Ca | exact Cr | ]. now field.
  - assert (E : x = y) by auto. subst y. injection S as <-. eapply (enc_bin _ _ _ _ _ enc); [ exact Cr | exact Ca | ].
    simpl. f_equal. rewrite (Rmax_left x x) by lra. apply Rmax_left. lra.
  - assert (E : x = y) by auto. subst y. injection S as <-. eapply (enc_bin _ _ _ _ _ enc); [ exact Cr | exact Ca | ].
    simpl. f_equal. rewrite (Rmin_left x x) by lra. apply Rmin_left. lra.
Qed.

Lemma back_scal_ok o y x z r b : (o = Max -> yval y <= x) -> (o = Min -> x <= yval y) ->
  sem2 o (yval y) x = Some z ->
  contains r z -> contains b x -> contains (restrict b (back_scal A r o (al_cst A y))) x.
Proof.
  intros P1 P2 S Cr Cb. apply (enc_restrict _ _ _ _ _ enc); [ exact Cb | ].
  pose proof (enc_cst _ _ _ _ _ enc y) as Ca.
  destruct o; simpl back_scal.
  - injection S as <-. eapply (enc_bin _ _ _ _ _ enc); [ exact Cr | exact Ca | ]. simpl. f_equal. lra.
  - injection S as <-. eapply (enc_bin _ _ _ _ _ enc); [ exact Ca | exact Cr | ]. simpl. f_equal. lra.
  - injection S as <-. eapply (enc_div _ _ _ _ _ enc); [ exact Cr | exact Ca | lra ].
  - apply sem2_div_inv in S. destruct S as [N ->].
    eapply (enc_div _ _ _ _ _ enc); [ exact Ca | exact Cr | ]. now field.
  - injection S as <-. eapply (enc_bin _ _ _ _ _ enc); [ exact Cr | exact Ca | ].
    simpl. f_equal. specialize (P1 eq_refl). rewrite (Rmax_right (yval y)) by lra. apply Rmax_left. lra.
  - injection S as <-. eapply (enc_bin _ _ _ _ _ enc); [ exact Cr | exact Ca | ].
    simpl. f_equal. specialize (P2 eq_refl). rewrite (Rmin_right (yval y)) by lra. apply Rmin_left. lra.
Qed.

Lemma powerRZ_pos x n : 0 < x -> 0 < powerRZ x n.
Proof. intros. now apply powerRZ_lt. Qed.

Lemma ln_powerRZ x n : 0 < x -> ln (powerRZ x n) = IZR n * ln x.
Proof.
  intros H. destruct n as [|p|p]; simpl.
  - rewrite ln_1. lra.
  - rewrite ln_pow by exact H. rewrite INR_IZR_INZ, positive_nat_Z. reflexivity.
  - rewrite ln_Rinv by now apply pow_lt. rewrite ln_pow by exact H.
    rewrite INR_IZR_INZ, positive_nat_Z. change (Z.neg p) with (- Z.pos p)%Z. rewrite opp_IZR. lra.
Qed.

Lemma back_pow_ok a x n z r : 0 < x -> sempow x n = Some z ->
  contains r z -> contains a x -> contains (restrict a (back_pow A int r n)) x.
Proof.
  intros P S Cr Ca. apply (enc_restrict _ _ _ _ _ enc); [ exact Ca | ].
  assert (Ez : z = powerRZ x n).
  { unfold sempow in S. destruct (n <? 0)%Z; [ destruct (Req_EM_T x 0); [ discriminate | ] | ]; congruence. }
  subst z. unfold back_pow.
  eapply (enc_un _ _ _ _ _ enc) with (x := ln x); [ | simpl; f_equal; now apply exp_ln ].
  eapply (enc_div _ _ _ _ _ enc) with (x := ln (powerRZ x n)); [ | apply (enc_int _ _ _ _ _ enc) | ].
  - eapply (enc_un _ _ _ _ _ enc); [ exact Cr | ]. unfold sem1.
    destruct (Rlt_dec 0 (powerRZ x n)) as [H|H]; [ reflexivity | ]. exfalso. apply H. now apply powerRZ_pos.
  - rewrite ln_powerRZ by exact P. lra.
Qed.

Section Back.
Context (c : list Y) (rho : valuation) (p : list instr) (w : list R).
Hypothesis W : pt_values (map yval c) rho p = Some w.
Hypothesis P : principal (map yval c) w p.

Lemma back1_ok r i v x v' x' :
  nth_error p r = Some i -> encl v w -> in_box contains x rho ->
  back1 A restrict int c r i v x = Some (v', x') ->
  encl v' w /\ in_box contains x' rho /\ length x' = length x.
Proof.
  intros E V B H.
  pose proof (pt_values_step _ _ _ _ _ _ W E) as S.
  pose proof (P i (nth_error_In _ _ E)) as Pi.
  assert (Lr : (r < length w)%nat).
  { rewrite (pt_values_length _ _ _ _ W). apply nth_error_Some. congruence. }
  assert (Vk : forall k, (k < length w)%nat -> contains (nth k v (al_zero A)) (nth k w 0)) by apply V.
  destruct i as [k|j|o a|o a b|a n|o k a]; simpl in H, S.
  - injection H as <- <-. auto.
  - injection H as <- <-. split; [ exact V | ]. split; [ | apply set_nth_length ].
    intros m a Hm. destruct (Nat.eq_dec m j) as [->|N].
    + apply (nth_error_val _ _ _ (al_zero A)) in Hm. destruct Hm as [Lj Hm].
      rewrite set_nth_length in Lj. rewrite nth_set_nth_same in Hm by exact Lj. subst a.
      apply (enc_restrict _ _ _ _ _ enc).
      * now apply in_box_nth.
      * rewrite <- S. auto.
    + apply (nth_error_val _ _ _ (al_zero A)) in Hm. destruct Hm as [Lj Hm].
      rewrite set_nth_length in Lj. rewrite nth_set_nth in Hm by exact N. subst a. now apply in_box_nth.
  - destruct S as [La S].
    destruct (back_un A (nth r v (al_zero A)) o) as [b|] eqn:Hb; [ | discriminate ]. injection H as <- <-.
    split; [ | auto ]. apply encl_set; [ exact V | ]. intros La'.
    eapply back_un_ok; [ | exact S | exact Hb | auto | auto ].
    destruct o; exact Pi.
  - destruct S as (La & Lb & S). injection H as <- <-. split; [ | auto ].
    assert (PP : o = Max \/ o = Min -> nth a w 0 = nth b w 0).
    { intros [-> | ->]; exact Pi. }
    set (v1 := set_nth A a _ v).
    assert (V1 : encl v1 w).
    { apply encl_set; [ exact V | ]. intros La'. eapply back_bin1_ok; eauto.
      apply Vk. lia. }
    destruct V1 as [L1 V1]. apply encl_set; [ split; auto | ]. intros Lb'.
    eapply back_bin2_ok; [ exact PP | exact S | auto | auto | auto ]. apply V1. lia.
  - destruct S as [La S]. injection H as <- <-. split; [ | auto ].
    apply encl_set; [ exact V | ]. intros La'. eapply back_pow_ok; eauto.
  - destruct S as (La & y & Hy & S). apply nth_error_map_yval in Hy. destruct Hy as (z & Hz & <-).
    rewrite Hz in H. injection H as <- <-. split; [ | auto ].
    apply encl_set; [ exact V | ]. intros La'.
    assert (Ek : nth k (map yval c) 0 = yval z).
    { apply nth_error_nth. now rewrite nth_error_map, Hz. }
    eapply back_scal_ok; [ | | exact S | auto | auto ].
    + intros ->. simpl in Pi. now rewrite Ek in Pi.
    + intros ->. simpl in Pi. now rewrite Ek in Pi.
Qed.

Lemma back_ok r : forall v x x', (r <= length p)%nat -> encl v w -> in_box contains x rho ->
  back A restrict int c p r v x = Some x' -> in_box contains x' rho /\ length x' = length x.
Proof.
  induction r as [|r IH]; intros v x x' L V B H; simpl in H.
  - injection H as <-. auto.
  - destruct (nth_error p r) as [i|] eqn:E; [ | injection H as <-; auto ].
    destruct (back1 A restrict int c r i v x) as [[v1 x1]|] eqn:H1; [ | discriminate ].
    destruct (back1_ok _ _ _ _ _ _ E V B H1) as (V1 & B1 & L1).
    destruct (IH v1 x1 x') as [B2 L2]; auto; [ lia | ]. split; [ exact B2 | lia ].
Qed.
End Back.

Theorem hull_reduce_ok (s : pstate Y) dom codom dom' rho y :
  let c := map yval (ps_cst s) in
  arguments_below (length dom) (ps_ins s) ->
  in_box contains dom rho ->
  (forall w, pt_values c rho (ps_ins s) = Some w -> principal c w (ps_ins s)) ->
  pt_value c rho (ps_ins s) = Some y -> contains codom y ->
  hull_reduce A restrict int s dom codom = Some dom' ->
  in_box contains dom' rho.
Proof.
  intros c N B P E C H. unfold pt_value in E. apply bind_some in E. destruct E as (w & W & E).
  unfold hull_reduce in H.
  pose proof (exec_encl (ps_cst s) dom rho (ps_ins s) w B N W) as V.
  eapply back_ok; [ exact W | apply P; exact W | | | exact B | exact H ].
  - apply Nat.le_refl.
  - apply encl_set; [ exact V | ]. intros L. apply (enc_restrict _ _ _ _ _ enc).
    + now apply V.
    + apply (nth_error_val _ _ _ 0) in E. destruct V as [-> _]. destruct E as [_ ->]. exact C.
Qed.

Lemma restrict_all_encl rs : forall t codom w, encl t w ->
  Forall2 (fun k b => contains b (nth k w 0)) rs codom -> encl (restrict_all A restrict t rs codom) w.
Proof.
  induction rs as [|k rs IH]; intros t codom w V F; inversion F; subst; simpl; [ exact V | ].
  apply IH; auto. apply encl_set; [ exact V | ]. intros L.
  apply (enc_restrict _ _ _ _ _ enc); [ now apply V | assumption ].
Qed.

Theorem hull_reduce_vector_ok (s : pstate Y) rs dom codom dom' rho w :
  let c := map yval (ps_cst s) in
  arguments_below (length dom) (ps_ins s) ->
  in_box contains dom rho ->
  pt_values c rho (ps_ins s) = Some w -> principal c w (ps_ins s) ->
  Forall2 (fun k b => contains b (nth k w 0)) rs codom ->
  hull_reduce_vector A restrict int s rs dom codom = Some dom' ->
  in_box contains dom' rho.
Proof.
  intros c N B W P F H. unfold hull_reduce_vector in H.
  pose proof (exec_encl (ps_cst s) dom rho (ps_ins s) w B N W) as V.
  eapply back_ok; [ exact W | exact P | | | exact B | exact H ].
  - apply Nat.le_refl.
  - now apply restrict_all_encl.
Qed.
End Hull.

(** Termination, for any arithmetic. *)
Lemma back_terminates {Y} (A : Alg Y) restrict int c p : reducible p -> forall r v x,
  back A restrict int c p r v x <> None.
Proof.
  intros Rd. induction r as [|r IH]; intros v x; simpl; [ discriminate | ].
  destruct (nth_error p r) as [i|] eqn:E; [ | discriminate ].
  pose proof (Rd i (nth_error_In _ _ E)) as K.
  destruct i as [k|j|o a|o a b|a n|o k a]; simpl; try apply IH.
  - destruct o; simpl in K |- *; try contradiction; apply IH.
  - destruct (nth_error c k); apply IH.
Qed.

(** One irreducible operator anywhere, and hull reduction does not return. *)
Lemma back_diverges {Y} (A : Alg Y) restrict int c p r0 i : nth_error p r0 = Some i -> ~ reducible1 i ->
  forall r v x, (r0 < r)%nat -> (r <= length p)%nat -> back A restrict int c p r v x = None.
Proof.
  intros E K. induction r as [|r IH]; intros v x L L'; [ lia | ]. simpl.
  destruct (nth_error p r) as [j|] eqn:F.
  2:{ apply nth_error_None in F. lia. }
  destruct (Nat.eq_dec r r0) as [->|N].
  - rewrite E in F. injection F as <-.
    destruct i as [k|j|o a|o a b|a n|o k a]; simpl in K; try tauto.
    destruct o; simpl in K |- *; try tauto; reflexivity.
  - destruct (back1 A restrict int c r j v x) as [[v' x']|]; [ | reflexivity ].
    apply IH; lia.
Qed.

Lemma set_encloses : encloses set_alg set_contains (fun y => y) set_restrict set_int.
Proof.
  split; unfold set_contains, set_restrict, set_int; simpl; auto.
  - intros. eauto.
  - intros o a b x y z Ha Hb S. exists x, y. split; [ exact Ha | split; [ exact Hb | ] ].
    destruct o; try exact S. apply sem2_div_inv in S. destruct S as [N ->]. now field.
  - intros a b x y z Ha Hb E. exists x, y. auto.
  - intros. eauto.
  - intros. eauto.
Qed.
