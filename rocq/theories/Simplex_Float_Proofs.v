(** The number types of the simplex solver satisfy what the solver needs. *)
From Coq Require Import ZArith QArith Qreals Reals List Bool Arith Lra Lia.
From Coquelicot Require Import Rbar.
From Flocq Require Import Core IEEE754.BinarySingleNaN.
From Verif Require Import Float_Model Float_Spec Float_Proofs Logical_Model Bounds_Model Bounds_Spec Bounds_Proofs Solver_Model Solver_Spec Solver_Float_Model Solver_Float_Proofs.
From Verif Require Import Simplex_Model Simplex_Spec Simplex_Float_Model.
Import ListNotations.
Local Open Scope R_scope.

Section FL.
  Context {prec emax : Z} {Hprec : Prec_gt_0 prec} {Hemax : Prec_lt_emax prec emax}.
  Notation fl := (binary_float prec emax).
  Notation bnd := (bounds prec emax).
  Variables (eps me tenk err tl rs : fl).
  Hypotheses (Fme : is_finite me = true) (Ftl : is_finite tl = true) (Frs : is_finite rs = true).
  (** the extended real a float stands for *)
  Definition fval (a : fl) : Rbar := match a with B754_infinity true => m_infty | B754_infinity false | B754_nan => p_infty | _ => Finite (B2R a) end.
  Notation en := (enc (ck_ops eps me) fin_of).

  Lemma fval_finite : forall a : fl, is_finite a = true -> fval a = Finite (B2R a). Proof using. intros [] H; try discriminate; reflexivity. Qed.
  Lemma fval_fin : forall (a : fl) r, fval a = Finite r -> is_finite a = true /\ B2R a = r.
  Proof using. intros [s|[]| |s m e' B] r H; try discriminate; (split; [reflexivity|]); injection H as H; exact H. Qed.
  Lemma fin_contains : forall x v, fin_b x = true -> en x v -> contains x v. Proof using. intros x v H E. apply (en_contains eps me); assumption. Qed.
  Lemma ckv_det : forall (x : bnd) l t, ckv x l = t -> t <> INDET -> fin_b x = true /\ l = t.
  Proof using. intros x l t H N. unfold ckv in H. destruct (fin_b x); [split; [reflexivity|exact H]|subst; contradiction]. Qed.
  Lemma dec_lt : forall X Y : bnd, decide_lv (b_lt X Y) = true -> b_lt X Y = TRUE.
  Proof using. intros X Y H. destruct (b_lt_values X Y) as [E|[E|E]]; rewrite E in *; try reflexivity; discriminate. Qed.
  Lemma dec_nlt : forall X Y : bnd, decide_lv (lv_neg (b_lt X Y)) = true -> b_lt X Y = FALSE.
  Proof using. intros X Y H. destruct (b_lt_values X Y) as [E|[E|E]]; rewrite E in *; try reflexivity; discriminate. Qed.

  Lemma flt_pinf : forall (x : fl), is_finite x = true -> flt_lt (B754_infinity false) x = false /\ flt_le (B754_infinity false) x = false /\ flt_lt x (B754_infinity true) = false /\ flt_le x (B754_infinity true) = false.
  Proof using. intros [s|s| |[] m e' B] H; try discriminate; try destruct s; repeat split; reflexivity. Qed.
  Lemma flt_nan : forall (x : fl), flt_lt x B754_nan = false /\ flt_lt B754_nan x = false /\ flt_le x B754_nan = false /\ flt_le B754_nan x = false.
  Proof using. intros [s|[]| |[] m e' B]; repeat split; reflexivity. Qed.

  Lemma lt_T : forall x a v, ckv x (f_lt x a) = TRUE -> en x v -> Rbar_lt v (fval a).
  Proof using.
    intros x a v H E. apply ckv_det in H; [|discriminate]. destruct H as [F H]. pose proof (fin_contains x v F E) as C. destruct (fin_bE x F) as [F1 F2].
    destruct (is_finite a) eqn:Fa; [rewrite (fval_finite a Fa); apply (b_lt_true x (b_of a) v (B2R a) C (b_of_contains a Fa) H)|].
    destruct a as [s|[]| |s m e' B]; try discriminate; try exact I. exfalso. unfold f_lt, b_lt in H. cbn [b_of b_l b_u] in H.
    destruct (flt_pinf (b_u x) F2) as [_ [_ [Q _]]]. rewrite Q in H. destruct (flt_le _ _); discriminate.
  Qed.
  Lemma lt_F : forall x a v, ckv x (f_lt x a) = FALSE -> en x v -> Rbar_le (fval a) v.
  Proof using.
    intros x a v H E. apply ckv_det in H; [|discriminate]. destruct H as [F H]. pose proof (fin_contains x v F E) as C. destruct (fin_bE x F) as [F1 F2].
    destruct (is_finite a) eqn:Fa; [rewrite (fval_finite a Fa); apply (b_lt_false x (b_of a) v (B2R a) C (b_of_contains a Fa) H)|].
    destruct a as [s|[]| |s m e' B]; try discriminate; try exact I; exfalso; unfold f_lt, b_lt in H; cbn [b_of b_l b_u] in H.
    - destruct (flt_pinf (b_l x) F1) as [_ [Q _]]. rewrite Q in H. destruct (flt_lt _ _); discriminate.
    - destruct (flt_nan (b_u x)) as [Q _]. destruct (flt_nan (b_l x)) as [_ [_ [_ Q']]]. rewrite Q, Q' in H. discriminate.
  Qed.
  Lemma gt_T : forall x a v, ckv x (f_gt x a) = TRUE -> en x v -> Rbar_lt (fval a) v.
  Proof using.
    intros x a v H E. apply ckv_det in H; [|discriminate]. destruct H as [F H]. pose proof (fin_contains x v F E) as C. destruct (fin_bE x F) as [F1 F2].
    destruct (is_finite a) eqn:Fa; [rewrite (fval_finite a Fa); apply (b_lt_true (b_of a) x (B2R a) v (b_of_contains a Fa) C H)|].
    destruct a as [s|[]| |s m e' B]; try discriminate; try exact I; exfalso; unfold f_gt, b_lt in H; cbn [b_of b_l b_u] in H.
    - destruct (flt_pinf (b_l x) F1) as [Q _]. rewrite Q in H. destruct (flt_le _ _); discriminate.
    - destruct (flt_nan (b_l x)) as [_ [Q _]]. rewrite Q in H. destruct (flt_le _ _); discriminate.
  Qed.
  Lemma gt_F : forall x a v, ckv x (f_gt x a) = FALSE -> en x v -> Rbar_le v (fval a).
  Proof using.
    intros x a v H E. apply ckv_det in H; [|discriminate]. destruct H as [F H]. pose proof (fin_contains x v F E) as C. destruct (fin_bE x F) as [F1 F2].
    destruct (is_finite a) eqn:Fa; [rewrite (fval_finite a Fa); apply (b_lt_false (b_of a) x (B2R a) v (b_of_contains a Fa) C H)|].
    destruct a as [s|[]| |s m e' B]; try discriminate; try exact I; exfalso; unfold f_gt, b_lt in H; cbn [b_of b_l b_u] in H.
    destruct (flt_pinf (b_u x) F2) as [_ [_ [_ Q]]]. rewrite Q in H. destruct (flt_lt _ _); discriminate.
  Qed.
  Lemma inf_shift : forall t : fl, is_finite t = true -> 
    (fsub up (B754_infinity false) t = B754_infinity false /\ fadd down (B754_infinity true) t = B754_infinity true) /\ (fsub up (B754_nan : fl) t = B754_nan /\ fadd down (B754_nan : fl) t = B754_nan).
  Proof using. intros [s|s| |s m e' B] H; try discriminate; repeat split; reflexivity. Qed.

  Theorem ck_data : sound_data (ck_ops eps me) fin_of (ck_l eps me tenk err tl rs) fval (B2R tl) (B2R rs).
  Proof using Ftl Frs.
    constructor; cbn [ck_l ld l_zero l_num l_lt l_gt l_near_lo l_near_hi l_res].
    - reflexivity.
    - intros a r H. apply fval_fin in H. destruct H as [F <-]. apply (contains_en eps me). apply b_of_contains. exact F.
    - apply lt_T.
    - apply lt_F.
    - apply gt_T.
    - apply gt_F.
    - intros x a v H E. apply andb_prop in H. destruct H as [F H]. pose proof (fin_contains x v F E) as C. destruct (fin_bE x F) as [F1 F2]. apply dec_nlt in H.
      destruct (is_finite a) eqn:Fa.
      + rewrite (fval_finite a Fa). pose proof (b_lt_false x _ v (B2R a - B2R tl) C (b_sub_contains _ _ _ _ (b_of_contains a Fa) (b_of_contains tl Ftl)) H) as Q. cbn. lra.
      + destruct a as [s|[]| |s m e' B]; try discriminate; try exact I; exfalso; unfold b_lt, b_sub in H; cbn [b_of b_l b_u] in H; destruct (inf_shift tl Ftl) as [[Q _] [Q' _]].
        * rewrite Q in H. destruct (flt_pinf (b_l x) F1) as [_ [Z _]]. rewrite Z in H. destruct (flt_lt _ _); discriminate.
        * rewrite Q' in H. destruct (flt_nan (b_l x)) as [_ [_ [_ Z]]]. rewrite Z in H. destruct (flt_lt _ _); discriminate.
    - intros x a v H E. apply andb_prop in H. destruct H as [F H]. pose proof (fin_contains x v F E) as C. destruct (fin_bE x F) as [F1 F2]. apply dec_nlt in H.
      destruct (is_finite a) eqn:Fa.
      + rewrite (fval_finite a Fa). pose proof (b_lt_false _ x (B2R a + B2R tl) v (b_add_contains _ _ _ _ (b_of_contains a Fa) (b_of_contains tl Ftl)) C H) as Q. cbn. lra.
      + destruct a as [s|[]| |s m e' B]; try discriminate; try exact I; exfalso; unfold b_lt, b_add in H; cbn [b_of b_l b_u] in H; destruct (inf_shift tl Ftl) as [[_ Q] [_ Q']].
        rewrite Q in H. destruct (flt_pinf (b_u x) F2) as [_ [_ [_ Z]]]. rewrite Z in H. destruct (flt_lt _ _); discriminate.
    - intros x v H E. apply andb_prop in H. destruct H as [F H]. pose proof (fin_contains x v F E) as C. apply dec_lt in H.
      apply (b_lt_true _ (b_of rs) (Rabs v) (B2R rs) (b_abs_contains x v C) (b_of_contains rs Frs) H).
  Qed.
End FL.

(** ** Rational numbers *)
Definition q_fin (a : option Q) : option (R * R) := match a with Some q => Some (Q2R q, Q2R q) | None => Some (1, 0) end.
Definition qval (a : xq) : Rbar := match a with QNeg => m_infty | QFin q => Finite (Q2R q) | QPos => p_infty end.
Notation qe := (enc q_ops q_fin).
Lemma qe_inv : forall a v, qe a v -> exists q, a = Some q /\ Q2R q = v.
Proof. intros [q|] v H; cbv [enc q_fin] in H; [exists q; split; [reflexivity|lra]|lra]. Qed.
Lemma qe_some : forall q, qe (Some q) (Q2R q). Proof. intros q. cbv [enc q_fin]. lra. Qed.
Lemma q_ltb_true : forall x y, q_ltb x y = true <-> Q2R x < Q2R y.
Proof.
  intros x y. unfold q_ltb. rewrite negb_true_iff. split.
  - intros H. apply Qlt_Rlt. apply Qnot_le_lt. intros Q. apply Qle_bool_iff in Q. congruence.
  - intros H. apply not_true_is_false. intros Q. apply Qle_bool_iff in Q. apply Qle_Rle in Q. lra.
Qed.
Lemma q_ltb_false : forall x y, q_ltb x y = false <-> Q2R y <= Q2R x.
Proof.
  intros x y. split; intros H.
  - apply Rnot_lt_le. intros Q. apply q_ltb_true in Q. congruence.
  - apply not_true_is_false. intros Q. apply q_ltb_true in Q. lra.
Qed.
Lemma q_abs_val : forall q, Q2R (q_abs q) = Rabs (Q2R q).
Proof.
  intros q. unfold q_abs. destruct (Qle_bool 0 q) eqn:E.
  - apply Qle_bool_iff in E. apply Qle_Rle in E. replace (Q2R 0) with 0 in E by (unfold Q2R; cbn; lra). symmetry. apply Rabs_right. lra.
  - rewrite Q2R_opp. symmetry. apply Rabs_left. assert (Q : q_ltb q 0 = true) by (unfold q_ltb; rewrite E; reflexivity). apply q_ltb_true in Q. replace (Q2R 0) with 0 in Q by (unfold Q2R; cbn; lra). exact Q.
Qed.
Lemma q_eqb : forall x y, Qeq_bool x y = true <-> Q2R x = Q2R y.
Proof. intros x y. rewrite Qeq_bool_iff. split; [apply Qeq_eqR|apply eqR_Qeq]. Qed.
Lemma Q2R0 : Q2R 0 = 0. Proof. unfold Q2R; cbn; lra. Qed.
Lemma Q2R1 : Q2R 1 = 1. Proof. unfold Q2R; cbn; lra. Qed.
Lemma q_nz : forall q, Q2R q <> 0 -> ~ (q == 0)%Q. Proof. intros q H E. apply H. rewrite (Qeq_eqR _ _ E). apply Q2R0. Qed.

Theorem q_sound : sound_ops q_ops q_fin 1.
Proof.
  constructor; cbn [q_ops n0 n1 nadd nsub nmul nrec ndiv nmid nmiggt nnonzero nconsistent ninconsistent nrefines nrefinement nsmall nwiden nsplit nlt num].
  - rewrite <- Q2R0. apply qe_some.
  - rewrite <- Q2R1. apply qe_some.
  - intros a b u v Ha Hb. apply qe_inv in Ha, Hb. destruct Ha as [x [-> <-]], Hb as [y [-> <-]]. cbn [q_2]. rewrite <- Q2R_plus. apply qe_some.
  - intros a b u v Ha Hb. apply qe_inv in Ha, Hb. destruct Ha as [x [-> <-]], Hb as [y [-> <-]]. cbn [q_2]. rewrite <- Q2R_minus. apply qe_some.
  - intros a b u v Ha Hb. apply qe_inv in Ha, Hb. destruct Ha as [x [-> <-]], Hb as [y [-> <-]]. cbn [q_2]. rewrite <- Q2R_mult. apply qe_some.
  - intros a u Ha N. apply qe_inv in Ha. destruct Ha as [x [-> <-]]. cbn [q_1]. rewrite <- Q2R_inv by (apply q_nz; exact N). apply qe_some.
  - intros a b u v Ha Hb N. apply qe_inv in Ha, Hb. destruct Ha as [x [-> <-]], Hb as [y [-> <-]]. cbn [q_2]. rewrite <- Q2R_div by (apply q_nz; exact N). apply qe_some.
  - intros a u Ha. exists u. split; exact Ha.
  - intros [a|] [b|] _; split; discriminate.
  - intros [a|] [b|] _; split; discriminate.
  - intros [a|] [b|] _; split; discriminate.
  - intros a u H Ha. apply qe_inv in Ha. destruct Ha as [x [-> <-]]. cbn [q_mig] in H. apply q_ltb_true in H. rewrite !q_abs_val, Q2R0, Rabs_R0 in H. intros E. rewrite E, Rabs_R0 in H. lra.
  - intros a b c H1 H2. apply q_ltb_true in H1. apply q_ltb_true in H2. apply q_ltb_true. lra.
  - intros a u H Ha. apply qe_inv in Ha. destruct Ha as [x [-> <-]]. cbn [q_t] in H. apply negb_true_iff in H. intros E. assert (Q : Qeq_bool 0 x = true) by (apply q_eqb; rewrite Q2R0; lra). congruence.
  - intros a b u H Ha Hb. apply qe_inv in Ha, Hb. destruct Ha as [x [-> Hx]], Hb as [y [-> Hy]]. cbn [q_t] in H. assert (Q : Qeq_bool x y = true) by (apply q_eqb; lra). congruence.
  - intros a b u H Ha Hb. apply qe_inv in Ha, Hb. destruct Ha as [x [-> Hx]], Hb as [y [-> Hy]]. cbn [q_t] in H. assert (Q : Qeq_bool x y = true) by (apply q_eqb; lra). rewrite Q in H. discriminate.
  - intros a b u v H Ha Hb. apply qe_inv in Ha, Hb. destruct Ha as [x [-> Hx]], Hb as [y [-> Hy]]. cbn [q_t] in H. apply q_eqb in H. exists (Q2R x). split; [apply qe_some|rewrite H; apply qe_some].
  - discriminate.
  - intros a b u. split.
    + intros H. destruct a as [x|], b as [y|]; try (apply qe_inv in H; destruct H as [q [H _]]; discriminate). destruct (Qeq_bool x y) eqn:E; [|apply qe_inv in H; destruct H as [q [H _]]; discriminate].
      apply q_eqb in E. apply qe_inv in H. destruct H as [q [H1 H2]]. injection H1 as ->. split; [rewrite <- H2; apply qe_some|rewrite <- H2, E; apply qe_some].
    + intros [Ha Hb]. apply qe_inv in Ha, Hb. destruct Ha as [x [-> Hx]], Hb as [y [-> Hy]]. assert (Q : Qeq_bool x y = true) by (apply q_eqb; lra). rewrite Q. rewrite <- Hx. apply qe_some.
  - discriminate.
  - intros n r. rewrite <- Q2R0. apply qe_some.
  - intros n r v H. cbn [fst snd]. split; [left; exact H|]. split; exists v; exact H.
  - intros a b u v H1 H2 Ha Hb. apply qe_inv in Ha, Hb. destruct Ha as [x [-> Hx]], Hb as [y [-> Hy]]. cbn [q_t] in H1, H2. apply q_ltb_false in H1. apply q_ltb_false in H2.
    exists (Q2R x). split; [apply qe_some|]. replace (Q2R x) with (Q2R y) by lra. apply qe_some.
Qed.
Lemma lv_of_true : forall b, lv_of b = TRUE -> b = true. Proof. intros []; [reflexivity|discriminate]. Qed.
Lemma lv_of_false : forall b, lv_of b = FALSE -> b = false. Proof. intros []; [discriminate|reflexivity]. Qed.
Lemma xq_ltb_true : forall a b, xq_ltb a b = true <-> Rbar_lt (qval a) (qval b).
Proof. intros [|x|] [|y|]; cbn; try (split; intros; congruence || exact I || contradiction); try tauto. apply q_ltb_true. Qed.
Lemma xq_ltb_false : forall a b, xq_ltb a b = false <-> Rbar_le (qval b) (qval a).
Proof.
  intros a b. split; intros H.
  - apply Rbar_not_lt_le. intros Q. apply xq_ltb_true in Q. congruence.
  - apply not_true_is_false. intros Q. apply xq_ltb_true in Q. apply (Rbar_le_not_lt _ _ H Q).
Qed.
Theorem q_data : forall err tl rs, sound_data q_ops q_fin (q_l err tl rs) qval (Q2R tl) (Q2R rs).
Proof.
  intros err tl rs. constructor; cbn [q_l ld l_zero l_num l_lt l_gt l_near_lo l_near_hi l_res].
  - cbn. rewrite Q2R0. reflexivity.
  - intros [|q|] r H; try discriminate. injection H as <-. apply qe_some.
  - intros x a v H E. apply qe_inv in E. destruct E as [q [-> <-]]. apply lv_of_true in H. apply xq_ltb_true in H. exact H.
  - intros x a v H E. apply qe_inv in E. destruct E as [q [-> <-]]. apply lv_of_false in H. apply xq_ltb_false in H. exact H.
  - intros x a v H E. apply qe_inv in E. destruct E as [q [-> <-]]. apply lv_of_true in H. apply xq_ltb_true in H. exact H.
  - intros x a v H E. apply qe_inv in E. destruct E as [q [-> <-]]. apply lv_of_false in H. apply xq_ltb_false in H. exact H.
  - intros x a v H E. apply qe_inv in E. destruct E as [q [-> <-]]. apply negb_true_iff in H. apply xq_ltb_false in H. cbn [qval] in H. rewrite Q2R_plus in H. exact H.
  - intros x a v H E. apply qe_inv in E. destruct E as [q [-> <-]]. apply negb_true_iff in H. apply xq_ltb_false in H. cbn [qval] in H. rewrite Q2R_minus in H. exact H.
  - intros x v H E. apply qe_inv in E. destruct E as [q [-> <-]]. apply q_ltb_true in H. rewrite q_abs_val in H. exact H.
Qed.
