(** Proofs about derivatives of expressions. *)
From Coq Require Import ZArith List Bool Reals Lra Lia.
From Coquelicot Require Import Coquelicot.
From Verif Require Import Logical_Model Expr_Model Expr_Spec Expr_Proofs.
Import ListNotations.
Open Scope R_scope.

(** ** Local differentiability of partial functions *)

(** [F] is defined near [x], with value [y] and derivative [l] at [x]. *)
Definition diff_at (F : R -> option R) (x y l : R) : Prop :=
  exists (f : R -> R) (d : R), 0 < d /\
    (forall t, Rabs (t - x) < d -> F t = Some (f t)) /\ f x = y /\ is_derive f x l.

Lemma diff_at_global (f : R -> R) x l :
  is_derive f x l -> diff_at (fun t => Some (f t)) x (f x) l.
Proof. intros D. exists f, 1. split; [ lra | ]. split; [ reflexivity | ]. split; [ reflexivity | exact D ]. Qed.

Lemma continuous_near (f : R -> R) x l e : is_derive f x l -> 0 < e ->
  exists d, 0 < d /\ forall t, Rabs (t - x) < d -> Rabs (f t - f x) < e.
Proof.
  intros D He.
  assert (Cf : continuity_pt f x).
  { apply derivable_continuous_pt. exists l. now apply is_derive_Reals. }
  destruct (Cf e He) as (d & Hd & K). exists d. split; [ exact Hd | ].
  intros t Ht. destruct (Req_dec t x) as [->|N].
  - rewrite Rminus_diag_eq by reflexivity. now rewrite Rabs_R0.
  - apply (K t). split; [ split; [ exact I | auto ] | exact Ht ].
Qed.

Lemma diff_at_comp F G x y z l m :
  diff_at F x y l -> diff_at G y z m -> diff_at (fun t => bind (F t) G) x z (m * l).
Proof.
  intros (f & d & Hd & EF & Fx & DF) (g & e & He & EG & Gy & DG).
  destruct (continuous_near f x l e DF He) as (d' & Hd' & K). rewrite Fx in K.
  exists (fun t => g (f t)), (Rmin d d'). split; [ | split; [ | split ] ].
  - now apply Rmin_glb_lt.
  - intros t Ht. rewrite EF; [ | eapply Rlt_le_trans; [ exact Ht | apply Rmin_l ] ]. simpl.
    apply EG, K. eapply Rlt_le_trans; [ exact Ht | apply Rmin_r ].
  - now rewrite Fx.
  - replace (m * l) with (scal l m) by (unfold scal; simpl; unfold mult; simpl; ring).
    apply (is_derive_comp g f); [ now rewrite Fx | exact DF ].
Qed.

Lemma diff_at_val F x y l : diff_at F x y l -> F x = Some y.
Proof.
  intros (f & d & Hd & E & Fx & _). rewrite E, Fx; [ reflexivity | ].
  rewrite Rminus_diag_eq by reflexivity. now rewrite Rabs_R0.
Qed.

Lemma diff_at_ext F G x y l : (forall t, F t = G t) -> diff_at F x y l -> diff_at G x y l.
Proof.
  intros E (f & d & Hd & K & R). exists f, d. split; [ exact Hd | ]. split; [ | exact R ].
  intros t Ht. rewrite <- E. auto.
Qed.

Lemma diff_at_2 (h : R -> R -> R) F G x y z l m r :
  diff_at F x y l -> diff_at G x z m ->
  (forall f g, is_derive f x l -> is_derive g x m -> f x = y -> g x = z ->
     is_derive (fun t => h (f t) (g t)) x r) ->
  diff_at (fun t => bind (F t) (fun u => bind (G t) (fun w => Some (h u w)))) x (h y z) r.
Proof.
  intros (f & d & Hd & EF & Fx & DF) (g & e & He & EG & Gx & DG) H.
  exists (fun t => h (f t) (g t)), (Rmin d e). split; [ | split; [ | split ] ].
  - now apply Rmin_glb_lt.
  - intros t Ht. rewrite EF; [ | eapply Rlt_le_trans; [ exact Ht | apply Rmin_l ] ].
    rewrite EG; [ reflexivity | eapply Rlt_le_trans; [ exact Ht | apply Rmin_r ] ].
  - now rewrite Fx, Gx.
  - now apply H.
Qed.

(** ** The elementary operators *)

Lemma near_pos x : 0 < x -> exists d, 0 < d /\ forall t, Rabs (t - x) < d -> 0 < t.
Proof. intros H. exists x. split; [ exact H | ]. intros t Ht. apply Rabs_def2 in Ht. lra. Qed.

Lemma near_nonzero x : x <> 0 -> exists d, 0 < d /\ forall t, Rabs (t - x) < d -> t <> 0.
Proof.
  intros H. exists (Rabs x). split; [ now apply Rabs_pos_lt | ].
  intros t Ht ->. replace (0 - x) with (- x) in Ht by ring. rewrite Rabs_Ropp in Ht. lra.
Qed.

Lemma diff_un o x y : sem1 o x = Some y ->
  match o with
  | Nul => diff_at (sem1 Nul) x y 0
  | Pos => diff_at (sem1 Pos) x y 1
  | Neg => diff_at (sem1 Neg) x y (-1)
  | Hlf => diff_at (sem1 Hlf) x y (/ 2)
  | Sqr => diff_at (sem1 Sqr) x y (2 * x)
  | Rec => diff_at (sem1 Rec) x y (/ - (x * x))
  | Sqrt => 0 < x -> diff_at (sem1 Sqrt) x y (/ (2 * sqrt x))
  | Exp => diff_at (sem1 Exp) x y (exp x)
  | Log => diff_at (sem1 Log) x y (/ x)
  | Sin => diff_at (sem1 Sin) x y (cos x)
  | Cos => diff_at (sem1 Cos) x y (- sin x)
  | Tan => diff_at (sem1 Tan) x y (/ (cos x * cos x))
  | Atan => diff_at (sem1 Atan) x y (/ (1 + x * x))
  | Asin | Acos | Abs => True
  end.
Proof.
  destruct o; simpl; intros E; auto; try (injection E as <-).
  - apply (diff_at_global (fun _ => 0)). auto_derive; [ exact I | ring ].
  - apply (diff_at_global (fun t => t)). auto_derive; [ exact I | ring ].
  - apply (diff_at_global (fun t => - t)). auto_derive; [ exact I | ring ].
  - apply (diff_at_global (fun t => t * t)). auto_derive; [ exact I | ring ].
  - apply (diff_at_global (fun t => t / 2)). auto_derive; [ exact I | field ].
  - destruct (Req_EM_T x 0) as [Z|Z]; [ discriminate | ]. injection E as <-.
    destruct (near_nonzero x Z) as (d & Hd & K).
    exists (fun t => / t), d. split; [ exact Hd | ]. split; [ | split; [ reflexivity | ] ].
    + intros t Ht. try unfold sem1. destruct (Req_EM_T t 0) as [Q|Q]; [ elim (K _ Ht Q) | reflexivity ].
    + auto_derive; [ exact Z | field; auto ].
  - intros P. destruct (Rle_dec 0 x); [ | discriminate ]. injection E as <-.
    destruct (near_pos x P) as (d & Hd & K).
    exists sqrt, d. split; [ exact Hd | ]. split; [ | split; [ reflexivity | ] ].
    + intros t Ht. unfold sem1. apply K in Ht. destruct (Rle_dec 0 t); [ reflexivity | lra ].
    + auto_derive; [ exact P | ring ].
  - apply (diff_at_global exp). auto_derive; [ exact I | ring ].
  - destruct (Rlt_dec 0 x) as [P|]; [ | discriminate ]. injection E as <-.
    destruct (near_pos x P) as (d & Hd & K).
    exists ln, d. split; [ exact Hd | ]. split; [ | split; [ reflexivity | ] ].
    + intros t Ht. unfold sem1. apply K in Ht. destruct (Rlt_dec 0 t); [ reflexivity | lra ].
    + auto_derive; [ exact P | ring ].
  - apply (diff_at_global sin). auto_derive; [ exact I | ring ].
  - apply (diff_at_global cos). auto_derive; [ exact I | ring ].
  - destruct (Req_EM_T (cos x) 0) as [Z|Z]; [ discriminate | ]. injection E as <-.
    assert (DC : is_derive cos x (- sin x)) by (auto_derive; [ exact I | ring ]).
    destruct (near_nonzero (cos x) Z) as (e & He & K).
    destruct (continuous_near cos x _ e DC He) as (d & Hd & L).
    exists tan, d. split; [ exact Hd | ]. split; [ | split; [ reflexivity | ] ].
    + intros t Ht. unfold sem1. destruct (Req_EM_T (cos t) 0) as [Q|Q]; [ elim (K _ (L _ Ht) Q) | reflexivity ].
    + apply (is_derive_ext (fun t => sin t / cos t)); [ reflexivity | ].
      auto_derive; [ exact Z | ]. field_simplify; [ | exact Z | exact Z ].
      rewrite <- (sin2_cos2 x). unfold Rsqr. field. exact Z.
  - apply (diff_at_global atan).
    apply is_derive_Reals. replace (/ (1 + x * x)) with (/ (1 + x ^ 2)) by (f_equal; ring).
    apply derivable_pt_lim_atan.
Qed.

Lemma powerRZ_derive x n l : (n <> 0%Z -> x <> 0 \/ (0 < n)%Z) ->
  (n = 0%Z -> l = 0) -> (n <> 0%Z -> l = IZR n * powerRZ x (n - 1)) ->
  is_derive (fun t => powerRZ t n) x l.
Proof.
  intros D L0 L1. destruct n as [|p|p].
  - rewrite L0 by reflexivity. simpl. auto_derive; [ exact I | ring ].
  - rewrite L1 by discriminate. clear D L0 L1. simpl powerRZ at 1.
    assert (Q : is_derive (fun t => t ^ Pos.to_nat p) x (INR (Pos.to_nat p) * x ^ Nat.pred (Pos.to_nat p))).
    { auto_derive; [ exact I | ring ]. }
    replace (IZR (Z.pos p) * powerRZ x (Z.pos p - 1)) with (INR (Pos.to_nat p) * x ^ Nat.pred (Pos.to_nat p)); [ exact Q | ].
    rewrite INR_IZR_INZ, positive_nat_Z. f_equal.
    pose proof (Pos2Nat.is_pos p).
    replace (Z.pos p - 1)%Z with (Z.of_nat (Nat.pred (Pos.to_nat p))) by lia.
    now rewrite <- pow_powerRZ.
  - rewrite L1 by discriminate. destruct (D ltac:(discriminate)) as [Z|Z]; [ | lia ]. clear D L0 L1.
    simpl powerRZ at 1.
    assert (PZ : x ^ Pos.to_nat p <> 0) by now apply pow_nonzero.
    pose proof (Pos2Nat.is_pos p) as PP.
    assert (Q : is_derive (fun t => / t ^ Pos.to_nat p) x
      (- (INR (Pos.to_nat p) * x ^ Nat.pred (Pos.to_nat p)) / (x ^ Pos.to_nat p) ^ 2)).
    { auto_derive; [ exact PZ | ]. generalize dependent (x ^ Pos.to_nat p). intros X PZ. generalize (x ^ Nat.pred (Pos.to_nat p)), (INR (Pos.to_nat p)). intros Y W. field. exact PZ. }
    match goal with |- is_derive _ _ ?l => replace l with
      (- (INR (Pos.to_nat p) * x ^ Nat.pred (Pos.to_nat p)) / (x ^ Pos.to_nat p) ^ 2); [ exact Q | ] end.
    rewrite INR_IZR_INZ, positive_nat_Z.
    replace (IZR (Z.neg p)) with (- IZR (Z.pos p)) by (rewrite <- opp_IZR; reflexivity).
    replace (Z.neg p - 1)%Z with (- Z.of_nat (S (Pos.to_nat p)))%Z by lia.
    rewrite powerRZ_neg by exact Z. rewrite <- pow_powerRZ.
    rewrite pow_inv. destruct (Pos.to_nat p) as [|m]; [ lia | ]. simpl Nat.pred. simpl pow.
    simpl pow in PZ. assert (x ^ m <> 0) by now apply pow_nonzero. field. auto.
Qed.

Lemma diff_pow x n y : sempow x n = Some y ->
  forall q, sempow x (n - 1) = Some q -> diff_at (fun t => sempow t n) x y (IZR n * q).
Proof.
  intros E q Q. unfold sempow in *.
  destruct (Z.ltb_spec n 0) as [L|L].
  - destruct (Req_EM_T x 0) as [Z|Z]; [ discriminate | ]. injection E as <-.
    rewrite (proj2 (Z.ltb_lt _ _)) in Q by lia. injection Q as <-.
    destruct (near_nonzero x Z) as (d & Hd & K).
    exists (fun t => powerRZ t n), d. split; [ exact Hd | ]. split; [ | split; [ reflexivity | ] ].
    + intros t Ht. try unfold sem1. destruct (Req_EM_T t 0) as [Q|Q]; [ elim (K _ Ht Q) | reflexivity ].
    + apply powerRZ_derive; auto; intros; lia.
  - injection E as <-. apply (diff_at_global (fun t => powerRZ t n)).
    apply powerRZ_derive.
    + intros. right. lia.
    + intros ->. ring.
    + intros N. rewrite (proj2 (Z.ltb_ge _ _)) in Q by lia. injection Q as <-. reflexivity.
Qed.

Section Deriv.
Context {C : RealConst}.
Variable val : C -> R.
Notation ev := (eval val).

Lemma upd_self rho v (e : expr C) : ev (upd rho v (rho v)) e = ev rho e.
Proof.
  apply eval_ext. intros w _. unfold upd. destruct (Nat.eqb_spec w v); [ now subst | reflexivity ].
Qed.

Definition inv_trig_free (e : expr C) : Prop :=
  without_un Nul e /\ without_un Asin e /\ without_un Acos e.

Lemma deriv_diff (CS : consts_sound val) rho v e : forall d x y,
  inv_trig_free e -> deriv v e = Some d -> ev rho e = Some x -> ev rho d = Some y ->
  diff_at (fun t => ev (upd rho v t) e) (rho v) x y.
Proof.
  assert (V2 : forall z, val (rc_int C z) = IZR z) by apply (cs_int _ CS).
  induction e as [c|w|o a IH|o a IHa b IHb|a IH n]; intros d x y T D E F.
  - simpl in *. injection D as <-. simpl in F. rewrite V2 in F. injection E as <-. injection F as <-.
    apply (diff_at_global (fun _ => val c)). auto_derive; [ exact I | ring ].
  - simpl in *. injection D as <-. simpl in F. rewrite V2 in F. injection E as <-. injection F as <-.
    unfold upd. destruct (Nat.eqb_spec w v) as [->|N].
    + apply (diff_at_global (fun t => t)). auto_derive; [ exact I | ring ].
    + apply (diff_at_global (fun _ => rho w)). auto_derive; [ exact I | ring ].
  - simpl in E. apply bind_some in E as (xa & Ea & E).
    assert (Ta : inv_trig_free a) by (destruct T as ((? & ?) & (? & ?) & (? & ?)); repeat split; assumption).
    simpl in D.
    assert (exists da, deriv v a = Some da) as [da Da].
    { destruct (deriv v a); [ eauto | destruct o; discriminate ]. }
    rewrite Da in D.
    pose proof (diff_un o _ _ E) as U.
    assert (G : forall ya m, ev rho da = Some ya -> diff_at (sem1 o) xa x m -> y = m * ya ->
      diff_at (fun t => ev (upd rho v t) (Un o a)) (rho v) x y).
    { intros ya m Eda DU ->. simpl. eapply diff_at_comp; [ | exact DU ].
      eapply IH; eauto. }
    destruct o; try discriminate; injection D as <-; simpl in F;
      try (destruct T as ((T1 & _) & (T2 & _) & (T3 & _)); congruence);
      rewrite ?Ea, ?V2 in F.
    + apply (G y 1); auto. ring.
    + apply bind_some in F as (z & F & F'). simpl in F'. injection F' as <-.
      apply (G _ (-1) F U). ring.
    + simpl in F. apply bind_some in F as (z & F & F'). injection F' as <-.
      apply (G _ _ F U). ring.
    + apply bind_some in F as (z & F & F'). simpl in F'. injection F' as <-.
      apply (G _ _ F U). field.
    + apply bind_some in F as (z & F & F'). simpl in F'.
      destruct (Req_EM_T (- (xa * xa)) 0); [ discriminate | ]. injection F' as <-.
      apply (G _ _ F U). unfold Rdiv. ring.
    + apply bind_some in F as (z & F & F'). simpl in F', E.
      destruct (Rle_dec 0 xa) as [L|L]; [ | discriminate ]. simpl in F'.
      destruct (Req_EM_T (2 * sqrt xa) 0) as [Q|Q]; [ discriminate | ]. injection F' as <-.
      assert (P : 0 < xa).
      { destruct L as [L|L]; [ exact L | ]. subst xa. rewrite sqrt_0 in Q. lra. }
      apply (G _ _ F (U P)). unfold Rdiv. ring.
    + simpl in F. apply bind_some in F as (z & F & F'). injection F' as <-.
      apply (G _ _ F U). ring.
    + apply bind_some in F as (z & F & F'). simpl in F'.
      destruct (Req_EM_T xa 0); [ discriminate | ]. injection F' as <-.
      apply (G _ _ F U). unfold Rdiv. ring.
    + simpl in F. apply bind_some in F as (z & F & F'). injection F' as <-.
      apply (G _ _ F U). ring.
    + simpl in F. apply bind_some in F as (z & F & F'). injection F' as <-.
      apply (G _ _ F U). ring.
    + simpl in F. destruct (Req_EM_T (cos xa * cos xa) 0); [ discriminate | ]. simpl in F.
      apply bind_some in F as (z & F & F'). injection F' as <-.
      apply (G _ _ F U). ring.
    + simpl in F. destruct (Req_EM_T (1 + xa * xa) 0); [ discriminate | ]. simpl in F.
      apply bind_some in F as (z & F & F'). injection F' as <-.
      apply (G _ _ F U). ring.
  - simpl in E. apply bind_some in E as (xa & Ea & E). apply bind_some in E as (xb & Eb & E).
    assert (Ta : inv_trig_free a) by (destruct T as ((? & ? & ?) & (? & ? & ?) & (? & ? & ?)); repeat split; assumption).
    assert (Tb : inv_trig_free b) by (destruct T as ((? & ? & ?) & (? & ? & ?) & (? & ? & ?)); repeat split; assumption).
    simpl in D.
    destruct (deriv v a) as [da|] eqn:Da; [ | destruct o; discriminate ].
    destruct (deriv v b) as [db|] eqn:Db; [ | destruct o; discriminate ].
    destruct o; try discriminate; injection D as <-; simpl in E, F;
      rewrite ?Ea, ?Eb in F; simpl in F.
    + injection E as <-.
      apply bind_some in F as (ya & Fa & F). apply bind_some in F as (yb & Fb & F). injection F as <-.
      apply (diff_at_2 (fun u w => u + w) _ _ _ _ _ ya yb); [ eapply IHa; eauto | eapply IHb; eauto | ].
      intros f g Hf Hg _ _. apply (is_derive_plus f g); assumption.
    + injection E as <-.
      apply bind_some in F as (ya & Fa & F). apply bind_some in F as (yb & Fb & F). injection F as <-.
      apply (diff_at_2 (fun u w => u - w) _ _ _ _ _ ya yb); [ eapply IHa; eauto | eapply IHb; eauto | ].
      intros f g Hf Hg _ _. apply (is_derive_minus f g); assumption.
    + injection E as <-.
      apply bind_some in F as (u1 & Fa & F). apply bind_some in Fa as (ya & Fa & F').
      injection F' as <-. apply bind_some in F as (u2 & Fb & F). apply bind_some in Fb as (yb & Fb & F').
      injection F' as <-. injection F as <-.
      apply (diff_at_2 (fun u w => u * w) _ _ _ _ _ ya yb); [ eapply IHa; eauto | eapply IHb; eauto | ].
      intros f g Hf Hg Qf Qg. rewrite <- Qf, <- Qg.
      apply (is_derive_mult f g); [ assumption | assumption | intros; apply Rmult_comm ].
    + destruct (Req_EM_T xb 0) as [Z|Z]; [ discriminate | ]. injection E as <-.
      apply bind_some in F as (u1 & Fa & F). simpl in F. injection F as <-.
      apply bind_some in Fa as (ya & Fa & F). apply bind_some in F as (u2 & Fb & F).
      apply bind_some in Fb as (yb & Fb & F').
      injection F' as <-. injection F as <-.
      pose proof (IHa _ _ _ Ta eq_refl Ea Fa) as (f & d & Hd & EF & Fx & DF).
      pose proof (IHb _ _ _ Tb eq_refl Eb Fb) as (g & e & He & EG & Gx & DG).
      destruct (near_nonzero xb Z) as (eps & Heps & NZ).
      destruct (continuous_near g (rho v) yb eps DG Heps) as (d' & Hd' & K). rewrite Gx in K.
      exists (fun t => f t / g t), (Rmin d (Rmin e d')). split; [ | split; [ | split ] ].
      * repeat apply Rmin_glb_lt; assumption.
      * intros t Ht. pose proof (Rmin_l d (Rmin e d')). pose proof (Rmin_r d (Rmin e d')).
        pose proof (Rmin_l e d'). pose proof (Rmin_r e d').
        simpl. rewrite EF, EG by lra. simpl.
        destruct (Req_EM_T (g t) 0) as [Q|Q]; [ | reflexivity ].
        exfalso. apply (NZ (g t)); [ apply K; lra | exact Q ].
      * now rewrite Fx, Gx.
      * replace ((ya - yb * (xa / xb)) / xb) with ((ya * g (rho v) - yb * f (rho v)) / g (rho v) ^ 2)
          by (rewrite Fx, Gx; field; exact Z).
        replace (ya * g (rho v) - yb * f (rho v)) with (ya * g (rho v) - f (rho v) * yb) by ring.
        apply is_derive_div; [ exact DF | exact DG | now rewrite Gx ].
  - simpl in E. apply bind_some in E as (xa & Ea & E).
    assert (Ta : inv_trig_free a) by (destruct T as ((? & ?) & (? & ?) & (? & ?)); repeat split; assumption).
    simpl in D. destruct (deriv v a) as [da|] eqn:Da; [ | discriminate ]. injection D as <-.
    simpl in F. rewrite Ea, V2 in F. simpl in F.
    apply bind_some in F as (u & F1 & F). apply bind_some in F1 as (q & Q & F1). injection F1 as <-.
    apply bind_some in F as (ya & Fa & F). injection F as <-.
    simpl. apply (diff_at_comp _ (fun t => sempow t n) _ xa).
    + eapply IH; eauto.
    + apply diff_pow; auto.
Qed.

Lemma diff_at_partial rho v (e : expr C) x y :
  diff_at (fun t => ev (upd rho v t) e) (rho v) x y -> partial_derivative val e v rho y.
Proof.
  intros (f & d & Hd & E & Fx & D). exists d. split; [ exact Hd | ]. split.
  - intros t Ht. rewrite E by exact Ht. discriminate.
  - intros g G. apply is_derive_Reals. apply (is_derive_ext_loc f); [ | exact D ].
    exists (mkposreal d Hd). intros t Ht. unfold ball in Ht. simpl in Ht.
    unfold AbsRing_ball, abs, minus, plus, opp in Ht. simpl in Ht.
    symmetry. apply G; [ exact Ht | apply E; exact Ht ].
Qed.

Lemma deriv_defined (CS : consts_sound val) rho v e : forall x,
  smooth_ops e -> without_un Nul e -> interior val rho e -> ev rho e = Some x ->
  exists d y, deriv v e = Some d /\ ev rho d = Some y.
Proof.
  assert (V2 : forall z, val (rc_int C z) = IZR z) by apply (cs_int _ CS).
  induction e as [c|w|o a IH|o a IHa b IHb|a IH n]; intros x S T N E.
  - do 2 eexists. split; reflexivity.
  - do 2 eexists. split; reflexivity.
  - destruct S as [S0 S], T as [T0 T], N as [N0 N]. simpl in E. apply bind_some in E as (xa & Ea & E).
    destruct (IH _ S T N Ea) as (da & ya & Da & Fa). simpl. rewrite Da.
    destruct o; try contradiction; do 2 eexists; (split; [ reflexivity | ]); simpl;
      rewrite ?Fa, ?Ea, ?V2; simpl; try reflexivity.
    + simpl in E. destruct (Req_EM_T xa 0); [ discriminate | ].
      destruct (Req_EM_T (- (xa * xa)) 0); [ exfalso; nra | reflexivity ].
    + specialize (N0 _ Ea). destruct (Rle_dec 0 xa); [ simpl | lra ].
      destruct (Req_EM_T (2 * sqrt xa) 0) as [Q|Q]; [ pose proof (sqrt_lt_R0 _ N0); lra | reflexivity ].
    + simpl in E. destruct (Rlt_dec 0 xa); [ | discriminate ].
      destruct (Req_EM_T xa 0); [ lra | reflexivity ].
    + simpl in E. destruct (Req_EM_T (cos xa) 0); [ discriminate | ].
      destruct (Req_EM_T (cos xa * cos xa) 0); [ exfalso; nra | reflexivity ].
    + destruct (Req_EM_T (1 + xa * xa) 0); [ exfalso; nra | reflexivity ].
  - destruct S as (S0 & S1 & S2), T as (_ & T1 & T2), N as (_ & N1 & N2).
    simpl in E. apply bind_some in E as (xa & Ea & E). apply bind_some in E as (xb & Eb & E).
    destruct (IHa _ S1 T1 N1 Ea) as (da & ya & Da & Fa).
    destruct (IHb _ S2 T2 N2 Eb) as (db & yb & Db & Fb). simpl. rewrite Da, Db.
    destruct o; try contradiction; do 2 eexists; (split; [ reflexivity | ]); simpl;
      rewrite ?Fa, ?Fb, ?Ea, ?Eb; simpl; try reflexivity.
    simpl in E. destruct (Req_EM_T xb 0); [ discriminate | reflexivity ].
  - destruct S as [S0 S], T as [T0 T], N as [N0 N]. simpl in E. apply bind_some in E as (xa & Ea & E).
    destruct (IH _ S T N Ea) as (da & ya & Da & Fa). simpl. rewrite Da.
    assert (exists q, sempow xa (n - 1) = Some q) as [q Q].
    { unfold sempow in *. destruct (Z.ltb_spec (n - 1) 0); [ | eauto ].
      destruct (Req_EM_T xa 0) as [Z|Z]; [ | eauto ]. exfalso.
      destruct (Z.ltb_spec n 0); [ discriminate | ].
      assert (n = 0%Z) by lia. subst n. exact (N0 _ Ea Z). }
    do 2 eexists; (split; [ reflexivity | ]). simpl. rewrite Ea, Fa. simpl. rewrite Q. simpl. reflexivity.
Qed.

End Deriv.
