(** Mathematics behind the validated solvers: minima of Lipschitz functions on boxes,
    solvability of equations whose slopes lie in a regular interval matrix, and the
    interval Newton and Krawczyk existence theorems.  Vectors are functions of which only
    the components below [n] count. *)
From Coq Require Import Reals List Lra Lia Arith.
From Verif Require Import Solver_Spec.
Local Open Scope R_scope.



Lemma sum_ext : forall n f g, (forall i, (i < n)%nat -> f i = g i) -> sum n f = sum n g.
Proof. induction n as [|n IH]; intros f g H; cbn; [reflexivity|]. rewrite (IH f g), (H n); auto. Qed.
Lemma sum_plus : forall n f g, sum n (fun i => f i + g i) = sum n f + sum n g.
Proof. induction n as [|n IH]; intros; cbn; [ring|]. rewrite IH. ring. Qed.
Lemma sum_minus : forall n f g, sum n (fun i => f i - g i) = sum n f - sum n g.
Proof. induction n as [|n IH]; intros; cbn; [ring|]. rewrite IH. ring. Qed.
Lemma sum_scal : forall n c f, sum n (fun i => c * f i) = c * sum n f.
Proof. induction n as [|n IH]; intros; cbn; [ring|]. rewrite IH. ring. Qed.
Lemma sum_scal_r : forall n c f, sum n (fun i => f i * c) = sum n f * c.
Proof. induction n as [|n IH]; intros; cbn; [ring|]. rewrite IH. ring. Qed.
Lemma sum_opp : forall n f, sum n (fun i => - f i) = - sum n f.
Proof. induction n as [|n IH]; intros; cbn; [ring|]. rewrite IH. ring. Qed.
Lemma sum_0 : forall n, sum n (fun _ => 0) = 0.
Proof. induction n as [|n IH]; cbn; [reflexivity|]. rewrite IH. ring. Qed.
Lemma sum_const : forall n c, sum n (fun _ => c) = INR n * c.
Proof. induction n as [|n IH]; intros; cbn [sum]; [cbn; ring|]. rewrite IH, S_INR. ring. Qed.
Lemma sum_le : forall n f g, (forall i, (i < n)%nat -> f i <= g i) -> sum n f <= sum n g.
Proof. induction n as [|n IH]; intros f g H; cbn; [lra|]. specialize (IH f g). pose proof (H n). assert (sum n f <= sum n g) by auto. assert (f n <= g n) by auto. lra. Qed.
Lemma sum_nonneg : forall n f, (forall i, (i < n)%nat -> 0 <= f i) -> 0 <= sum n f.
Proof. intros n f H. rewrite <- (sum_0 n). apply sum_le. exact H. Qed.
Lemma sum_abs : forall n f, Rabs (sum n f) <= sum n (fun i => Rabs (f i)).
Proof. induction n as [|n IH]; intros f; cbn; [rewrite Rabs_R0; lra|]. eapply Rle_trans; [apply Rabs_triang|]. specialize (IH f). lra. Qed.
Lemma sum_term : forall n f i, (forall i, (i < n)%nat -> 0 <= f i) -> (i < n)%nat -> f i <= sum n f.
Proof.
  induction n as [|n IH]; intros f i H L; [lia|]. cbn. assert (0 <= sum n f) by (apply sum_nonneg; auto).
  destruct (Nat.eq_dec i n) as [->|N]; [lra|]. assert (f i <= sum n f) by (apply IH; auto; lia). specialize (H n). assert (0 <= f n) by auto. lra.
Qed.
Lemma sum_zero : forall n f, (forall i, (i < n)%nat -> 0 <= f i) -> sum n f <= 0 -> forall i, (i < n)%nat -> f i = 0.
Proof. intros n f H S i L. pose proof (sum_term n f i H L). specialize (H i L). lra. Qed.
Lemma sum_swap : forall n m f, sum n (fun i => sum m (fun j => f i j)) = sum m (fun j => sum n (fun i => f i j)).
Proof.
  induction n as [|n IH]; intros m f; cbn; [symmetry; apply sum_0|]. rewrite IH. rewrite <- sum_plus. reflexivity.
Qed.
Lemma sum_delta : forall n i (f : nat -> R), (i < n)%nat -> sum n (fun j => if Nat.eqb j i then f j else 0) = f i.
Proof.
  induction n as [|n IH]; intros i f L; [lia|]. cbn. destruct (Nat.eqb n i) eqn:E.
  - apply Nat.eqb_eq in E. subst i. rewrite (sum_ext n _ (fun _ => 0)); [rewrite sum_0; ring|].
    intros j Lj. replace (Nat.eqb j n) with false; [reflexivity|]. symmetry. apply Nat.eqb_neq. lia.
  - apply Nat.eqb_neq in E. rewrite IH by lia. ring.
Qed.

(** ** Matrices *)

Lemma mv_mm : forall n A B x, veq n (mv n (mm n A B) x) (mv n A (mv n B x)).
Proof.
  intros n A B x i _. unfold mv, mm. rewrite (sum_ext n _ (fun j => sum n (fun k => A i k * B k j * x j))) by (intros; symmetry; apply sum_scal_r).
  rewrite sum_swap. apply sum_ext. intros k _. rewrite <- sum_scal. apply sum_ext. intros; ring.
Qed.
Lemma mv_id : forall n A x, idmat n A -> veq n (mv n A x) x.
Proof.
  intros n A x H i L. unfold mv. rewrite (sum_ext n _ (fun j => if Nat.eqb j i then x j else 0)).
  - apply sum_delta. exact L.
  - intros j Lj. rewrite H by assumption. unfold delta. rewrite Nat.eqb_sym. destruct (Nat.eqb j i); ring.
Qed.
Lemma mv_ext : forall n A x y, veq n x y -> forall i, mv n A x i = mv n A y i.
Proof. intros n A x y H i. apply sum_ext. intros j L. rewrite H by exact L. reflexivity. Qed.
Lemma mv_sub : forall n A x y i, mv n A (vsub x y) i = mv n A x i - mv n A y i.
Proof. intros. unfold mv, vsub. rewrite <- sum_minus. apply sum_ext. intros; ring. Qed.
Lemma inverse_apply : forall n A B x y, inverses n A B -> veq n (mv n A x) y -> veq n x (mv n B y).
Proof.
  intros n A B x y [_ H] E i L. rewrite <- (mv_ext n B _ _ E i). rewrite <- (mv_mm n B A x i L). symmetry. apply mv_id; assumption.
Qed.
Lemma inverse_zero : forall n A B x, inverses n A B -> veq n (mv n A x) (fun _ => 0) -> veq n x (fun _ => 0).
Proof.
  intros n A B x I H i L. rewrite (inverse_apply n A B x _ I H i L). unfold mv. rewrite (sum_ext n _ (fun _ => 0)); [apply sum_0|intros; ring].
Qed.
(** A matrix with a right inverse has no non-zero row vector in its left kernel. *)
Lemma left_kernel : forall n A B g, idmat n (mm n A B) -> (forall i, (i < n)%nat -> sum n (fun k => A k i * g k) = 0) -> veq n g (fun _ => 0).
Proof.
  intros n A B g H Z i L.
  assert (E : sum n (fun k => g k * mm n A B k i) = g i).
  { rewrite (sum_ext n _ (fun k => if Nat.eqb k i then g k else 0)); [apply sum_delta; exact L|].
    intros k Lk. rewrite H by assumption. unfold delta. destruct (Nat.eqb k i); ring. }
  rewrite <- E. unfold mm. rewrite (sum_ext n _ (fun k => sum n (fun l => g k * (A k l * B l i)))) by (intros; symmetry; apply sum_scal).
  rewrite sum_swap. rewrite (sum_ext n _ (fun _ => 0)); [apply sum_0|]. intros l Ll.
  rewrite (sum_ext n _ (fun k => (A k l * g k) * B l i)) by (intros; ring). rewrite sum_scal_r, Z by exact Ll. ring.
Qed.

(** ** Minima of Lipschitz functions on boxes *)
Definition upd (x : vec) (k : nat) (t : R) : vec := fun i => if Nat.eqb i k then t else x i.
Definition inb (n : nat) (lo hi x : vec) : Prop := forall i, (i < n)%nat -> lo i <= x i <= hi i.
Definition lip (n : nat) (K : R) (F : vec -> R) : Prop := forall x y, Rabs (F x - F y) <= K * sum n (fun i => Rabs (x i - y i)).

Lemma upd_eq : forall x k t, upd x k t k = t. Proof. intros. unfold upd. rewrite Nat.eqb_refl. reflexivity. Qed.
Lemma upd_neq : forall x k t i, i <> k -> upd x k t i = x i.
Proof. intros. unfold upd. apply Nat.eqb_neq in H. rewrite H. reflexivity. Qed.

Lemma lipschitz_continuity : forall h K, (forall s t, Rabs (h s - h t) <= K * Rabs (s - t)) -> forall c, continuity_pt h c.
Proof.
  intros h K H c. unfold continuity_pt, continue_in, limit1_in, limit_in. intros eps He. cbn in *. unfold R_dist in *.
  assert (0 < Rabs K + 1) by (pose proof (Rabs_pos K); lra).
  exists (eps / (Rabs K + 1)). split; [apply Rdiv_lt_0_compat; lra|]. intros x [_ D].
  eapply Rle_lt_trans; [apply H|]. pose proof (Rabs_pos (x - c)). pose proof (Rle_abs K).
  assert (D' : Rabs (x - c) * (Rabs K + 1) < eps).
  { apply (Rmult_lt_compat_r (Rabs K + 1)) in D; [|assumption]. unfold Rdiv in D. rewrite Rmult_assoc, Rinv_l, Rmult_1_r in D by lra. exact D. }
  nra.
Qed.

Lemma evt : forall n F K lo hi, lip n K F -> (forall i, (i < n)%nat -> lo i <= hi i) ->
  exists x, inb n lo hi x /\ forall y, inb n lo hi y -> F x <= F y.
Proof.
  induction n as [|n IH]; intros F K lo hi HF HB.
  - exists (fun _ => 0). split; [intros i Li; lia|]. intros y _. specialize (HF (fun _ => 0) y). cbn in HF.
    rewrite Rmult_0_r in HF. pose proof (Rle_abs (F (fun _ => 0) - F y)). lra.
  - set (Ft := fun t x => F (upd x n t)).
    assert (LF : forall t, lip n K (Ft t)).
    { intros t x y. unfold Ft. eapply Rle_trans; [apply HF|]. apply Req_le. cbn [sum]. rewrite !upd_eq, Rminus_diag_eq, Rabs_R0 by reflexivity.
      rewrite Rplus_0_r. f_equal. apply sum_ext. intros i Li. rewrite !upd_neq by lia. reflexivity. }
    assert (HM : forall t, exists x, inb n lo hi x /\ forall y, inb n lo hi y -> Ft t x <= Ft t y).
    { intros t. apply (IH (Ft t) K lo hi); auto. }
    set (E := fun t v => exists x, inb n lo hi x /\ v = - Ft t x).
    assert (BE : forall t, bound (E t)).
    { intros t. destruct (HM t) as [x [_ Hx]]. exists (- Ft t x). intros v [y [Hy ->]]. specialize (Hx y Hy). lra. }
    assert (NE : forall t, exists v, E t v). { intros t. destruct (HM t) as [x [Hx _]]. exists (- Ft t x), x. auto. }
    set (h := fun t => - proj1_sig (completeness (E t) (BE t) (NE t))).
    assert (H1 : forall t y, inb n lo hi y -> h t <= Ft t y).
    { intros t y Hy. unfold h. pose proof (proj2_sig (completeness (E t) (BE t) (NE t))) as [U _].
      pose proof (U (- Ft t y) (ex_intro _ y (conj Hy eq_refl))). lra. }
    assert (H2 : forall t, exists x, inb n lo hi x /\ Ft t x = h t).
    { intros t. destruct (HM t) as [x [Hx Mx]]. exists x. split; [exact Hx|]. apply Rle_antisym; [|apply H1; exact Hx].
      unfold h. pose proof (proj2_sig (completeness (E t) (BE t) (NE t))) as [_ U].
      assert (Z : is_upper_bound (E t) (- Ft t x)); [intros v [y [Hy ->]]; specialize (Mx y Hy); lra|]. specialize (U _ Z). lra. }
    assert (FL : forall s t x, Rabs (Ft s x - Ft t x) <= K * Rabs (s - t)).
    { intros s t x. unfold Ft. eapply Rle_trans; [apply HF|]. apply Req_le. f_equal. cbn [sum]. rewrite !upd_eq.
      rewrite (sum_ext n _ (fun _ => 0)); [rewrite sum_0; ring|]. intros i Li. rewrite !upd_neq, Rminus_diag_eq by (lia || reflexivity). apply Rabs_R0. }
    assert (HL : forall s t, Rabs (h s - h t) <= K * Rabs (s - t)).
    { intros s t. destruct (H2 s) as [x [Hx Ex]], (H2 t) as [y [Hy Ey]].
      pose proof (H1 t x Hx) as A. pose proof (H1 s y Hy) as B. pose proof (FL s t x) as C. pose proof (FL s t y) as D.
      apply Rabs_le. pose proof (Rle_abs (Ft s x - Ft t x)). pose proof (Rle_abs (- (Ft s x - Ft t x))). rewrite Rabs_Ropp in *.
      pose proof (Rle_abs (Ft s y - Ft t y)). pose proof (Rle_abs (- (Ft s y - Ft t y))). rewrite Rabs_Ropp in *. lra. }
    destruct (continuity_ab_min h (lo n) (hi n)) as [t [M1 M2]]; [apply HB; lia|intros; eapply lipschitz_continuity; exact HL|].
    destruct (H2 t) as [x [Hx Ex]]. exists (upd x n t). split.
    + intros i Li. destruct (Nat.eq_dec i n) as [->|N]; [rewrite upd_eq; exact M2|]. rewrite upd_neq by exact N. apply Hx. lia.
    + intros y Hy. fold (Ft t x). rewrite Ex. specialize (M1 (y n)). eapply Rle_trans; [apply M1; apply Hy; lia|].
      assert (Q : Ft (y n) y = F y).
      { unfold Ft. specialize (HF (upd y n (y n)) y). replace (sum (S n) (fun i => Rabs (upd y n (y n) i - y i))) with 0 in HF.
        - rewrite Rmult_0_r in HF. pose proof (Rabs_pos (F (upd y n (y n)) - F y)). assert (Z : Rabs (F (upd y n (y n)) - F y) = 0) by lra.
          destruct (Req_dec (F (upd y n (y n)) - F y) 0) as [Q|Q]; [lra|]. apply Rabs_no_R0 in Q. contradiction.
        - symmetry. rewrite (sum_ext (S n) _ (fun _ => 0)); [apply sum_0|]. intros i Li.
          destruct (Nat.eq_dec i n) as [->|N]; [rewrite upd_eq|rewrite upd_neq by exact N]; rewrite Rminus_diag_eq by reflexivity; apply Rabs_R0. }
      rewrite <- Q. apply H1. intros i Li. apply Hy. lia.
Qed.

(** ** Clamping to an interval *)
Lemma div_nonneg : forall a b, 0 <= a -> 0 < b -> 0 <= a / b.
Proof. intros. unfold Rdiv. apply Rmult_le_pos; [assumption|]. left. apply Rinv_0_lt_compat. assumption. Qed.
Definition clamp (a b x : R) : R := Rmax a (Rmin b x).
Lemma clamp_in : forall a b x, a <= b -> a <= clamp a b x <= b.
Proof. intros a b x H. unfold clamp, Rmax, Rmin. destruct (Rle_dec b x), (Rle_dec a _); lra. Qed.
Lemma clamp_id : forall a b x, a <= x <= b -> clamp a b x = x.
Proof. intros a b x H. unfold clamp, Rmax, Rmin. destruct (Rle_dec b x), (Rle_dec a _); lra. Qed.
Lemma clamp_slope : forall a b x y, a <= b -> exists th, 0 <= th <= 1 /\ clamp a b x - clamp a b y = th * (x - y).
Proof.
  intros a b x y H. destruct (Req_dec x y) as [->|N]; [exists 0; lra|].
  exists ((clamp a b x - clamp a b y) / (x - y)). split; [|field; lra].
  assert (Q : (x - y > 0 /\ 0 <= clamp a b x - clamp a b y <= x - y) \/ (x - y < 0 /\ x - y <= clamp a b x - clamp a b y <= 0)).
  { unfold clamp, Rmax, Rmin. destruct (Rle_dec b x), (Rle_dec b y); repeat match goal with |- context[Rle_dec ?u ?v] => destruct (Rle_dec u v) end; lra. }
  destruct Q as [[P [Q1 Q2]]|[P [Q1 Q2]]].
  - split; [apply div_nonneg; lra|]. apply (Rmult_le_reg_r (x - y)); [lra|]. unfold Rdiv. rewrite Rmult_assoc, Rinv_l by lra. lra.
  - replace ((clamp a b x - clamp a b y) / (x - y)) with ((clamp a b y - clamp a b x) / (y - x)) by (field; lra).
    split; [apply div_nonneg; lra|]. apply (Rmult_le_reg_r (y - x)); [lra|]. unfold Rdiv. rewrite Rmult_assoc, Rinv_l by lra. lra.
Qed.

(** ** Equations whose slopes lie in a regular interval matrix *)
Definition inJ (n : nat) (lo hi A : mat) : Prop := forall i j, (i < n)%nat -> (j < n)%nat -> lo i j <= A i j <= hi i j.
Definition ident (i : nat) : vec := fun j => delta i j.

(** [f] has its slopes in the interval matrix between any two points of [D]. *)
Definition slopes (n : nat) (lo hi : mat) (D : vec -> Prop) (f : vec -> vec) : Prop :=
  forall x y, D x -> D y -> exists A, inJ n lo hi A /\ forall i, (i < n)%nat -> f x i - f y i = mv n A (vsub x y) i.
(** Every matrix in the interval matrix has a two-sided inverse with bounded entries. *)
Definition regular (n : nat) (lo hi : mat) (beta : R) : Prop :=
  forall A, inJ n lo hi A -> exists B, inverses n A B /\ forall i j, (i < n)%nat -> (j < n)%nat -> Rabs (B i j) <= beta.

Lemma inJ_bounded : forall n lo hi, exists L, 0 <= L /\ forall A, inJ n lo hi A -> forall i j, (i < n)%nat -> (j < n)%nat -> Rabs (A i j) <= L.
Proof.
  intros n lo hi. set (t := fun i j => Rabs (lo i j) + Rabs (hi i j)).
  assert (T : forall i j, 0 <= t i j) by (intros; unfold t; pose proof (Rabs_pos (lo i j)); pose proof (Rabs_pos (hi i j)); lra).
  exists (sum n (fun i => sum n (t i))). split; [apply sum_nonneg; intros; apply sum_nonneg; auto|].
  intros A HA i j Li Lj. specialize (HA i j Li Lj).
  assert (t i j <= sum n (t i)) by (apply sum_term; auto).
  assert (sum n (t i) <= sum n (fun i => sum n (t i))) by (apply (sum_term n (fun i => sum n (t i))); [intros; apply sum_nonneg; auto|exact Li]).
  assert (Rabs (A i j) <= t i j); [|lra]. unfold t. apply Rabs_le. pose proof (Rle_abs (hi i j)). pose proof (Rle_abs (- lo i j)). rewrite Rabs_Ropp in *.
  pose proof (Rabs_pos (lo i j)). pose proof (Rabs_pos (hi i j)). lra.
Qed.

Lemma mv_bound : forall n A x L, 0 <= L -> (forall i j, (i < n)%nat -> (j < n)%nat -> Rabs (A i j) <= L) ->
  forall i, (i < n)%nat -> Rabs (mv n A x i) <= L * sum n (fun j => Rabs (x j)).
Proof.
  intros n A x L HL H i Li. unfold mv. eapply Rle_trans; [apply sum_abs|]. rewrite <- sum_scal. apply sum_le. intros j Lj.
  rewrite Rabs_mult. apply Rmult_le_compat_r; [apply Rabs_pos|]. apply H; assumption.
Qed.

(** Columns of an interval matrix and a non-zero residual: some column product has definite sign. *)
Lemma finite_choice_col : forall n (P : nat -> vec -> Prop), (forall i, (i < n)%nat -> exists a, P i a) -> exists A : nat -> vec, forall i, (i < n)%nat -> P i (A i).
Proof.
  induction n as [|n IH]; intros P H; [exists (fun _ _ => 0); intros; lia|].
  destruct (IH P) as [A HA]; [intros; apply H; lia|]. destruct (H n) as [a Ha]; [lia|].
  exists (fun i => if Nat.eqb i n then a else A i). intros i Li. destruct (Nat.eqb_spec i n) as [->|N]; [exact Ha|]. apply HA. lia.
Qed.

Section COL.
  Variables (n : nat) (lo hi : mat) (g : vec).
  Hypothesis HJ : forall i j, (i < n)%nat -> (j < n)%nat -> lo i j <= hi i j.
  (** least and greatest value of the product of column [i] with [g] *)
  Let cl (i : nat) : R := sum n (fun k => if Rle_dec 0 (g k) then lo k i * g k else hi k i * g k).
  Let cu (i : nat) : R := sum n (fun k => if Rle_dec 0 (g k) then hi k i * g k else lo k i * g k).
  Lemma col_lower : forall A i, inJ n lo hi A -> (i < n)%nat -> cl i <= sum n (fun k => A k i * g k) <= cu i.
  Proof using HJ.
    intros A i HA Li. unfold cl, cu. split; apply sum_le; intros k Lk; specialize (HA k i Lk Li); destruct (Rle_dec 0 (g k)); nra.
  Qed.
  Lemma col_zero : forall i, (i < n)%nat -> cl i <= 0 <= cu i -> exists a : vec, (forall k, (k < n)%nat -> lo k i <= a k <= hi k i) /\ sum n (fun k => a k * g k) = 0.
  Proof using HJ.
    intros i Li [H1 H2].
    set (al := fun k => if Rle_dec 0 (g k) then lo k i else hi k i). set (au := fun k => if Rle_dec 0 (g k) then hi k i else lo k i).
    assert (El : cl i = sum n (fun k => al k * g k)) by (unfold cl, al; apply sum_ext; intros; destruct (Rle_dec 0 (g i0)); reflexivity).
    assert (Eu : cu i = sum n (fun k => au k * g k)) by (unfold cu, au; apply sum_ext; intros; destruct (Rle_dec 0 (g i0)); reflexivity).
    assert (Q : exists th, 0 <= th <= 1 /\ (1 - th) * cl i + th * cu i = 0).
    { destruct (Req_dec (cl i) (cu i)) as [E|E]; [exists 0; split; [lra|]; assert (cl i = 0) by lra; rewrite H; ring|].
      exists (- cl i / (cu i - cl i)). split; [|field; lra]. split; [apply div_nonneg; lra|].
      apply (Rmult_le_reg_r (cu i - cl i)); [lra|]. unfold Rdiv. rewrite Rmult_assoc, Rinv_l by lra. lra. }
    destruct Q as [th [T E]]. exists (fun k => (1 - th) * al k + th * au k). split.
    - intros k Lk. specialize (HJ k i Lk Li). unfold al, au. destruct (Rle_dec 0 (g k)); nra.
    - rewrite El, Eu in E. rewrite <- E, <- !sum_scal, <- sum_plus. apply sum_ext. intros; ring.
  Qed.
  Lemma definite_column : (forall A, inJ n lo hi A -> exists B, idmat n (mm n A B)) -> ~ veq n g (fun _ => 0) ->
    exists i s d, (i < n)%nat /\ (s = 1 \/ s = -1) /\ 0 < d /\ forall A, inJ n lo hi A -> d <= s * sum n (fun k => A k i * g k).
  Proof using HJ.
    intros HI NZ.
    assert (DEC : forall (cl cu : nat -> R) m, (exists i, (i < m)%nat /\ (0 < cl i \/ cu i < 0)) \/ forall i, (i < m)%nat -> cl i <= 0 <= cu i).
    { clear. intros cl cu m. induction m as [|k IH]; [right; intros; lia|]. destruct IH as [[i [L H]]|H]; [left; exists i; split; [lia|exact H]|].
      destruct (Rlt_dec 0 (cl k)) as [P|P]; [left; exists k; split; [lia|auto]|].
      destruct (Rlt_dec (cu k) 0) as [Q|Q]; [left; exists k; split; [lia|auto]|].
      right. intros i Li. destruct (Nat.eq_dec i k) as [->|N]; [lra|]. apply H. lia. }
    destruct (DEC cl cu n) as [[i [Li [P|P]]]|H].
    - exists i, 1, (cl i). split; [exact Li|]. split; [auto|]. split; [exact P|]. intros A HA. pose proof (col_lower A i HA Li). lra.
    - exists i, (-1), (- cu i). split; [exact Li|]. split; [auto|]. split; [lra|]. intros A HA. pose proof (col_lower A i HA Li). lra.
    - exfalso. apply NZ.
      destruct (finite_choice_col n (fun i a => (forall k, (k < n)%nat -> lo k i <= a k <= hi k i) /\ sum n (fun k => a k * g k) = 0)) as [C HC].
      { intros i Li. apply col_zero; auto. }
      set (A := fun k i => C i k). assert (HA : inJ n lo hi A) by (intros k i Lk Li; apply HC; assumption).
      destruct (HI A HA) as [B HB]. apply (left_kernel n A B g HB). intros i Li. apply HC. exact Li.
  Qed.
End COL.

Lemma sq_le : forall a b, 0 <= b -> a * a <= b * b -> Rabs a <= b.
Proof. intros a b Hb H. apply Rabs_le. split; nra. Qed.

(** A function on the whole space whose slopes all lie in a regular interval matrix has a zero. *)
Theorem global_zero : forall n lo hi beta f, (forall i j, (i < n)%nat -> (j < n)%nat -> lo i j <= hi i j) -> 0 <= beta ->
  regular n lo hi beta -> slopes n lo hi (fun _ => True) f -> exists x, forall i, (i < n)%nat -> f x i = 0.
Proof.
  intros n lo hi beta f HJ Hb HR HS.
  destruct (inJ_bounded n lo hi) as [L [HL BL]].
  set (z := fun _ : nat => 0). set (F := fun x => sum n (fun i => f x i * f x i)).
  assert (Fpos : forall x, 0 <= F x) by (intros; apply sum_nonneg; intros; nra).
  set (c := sum n (fun j => Rabs (f z j))). assert (Hc : 0 <= c) by (apply sum_nonneg; intros; apply Rabs_pos).
  set (s := F z + 1). assert (Hs : 0 < s) by (specialize (Fpos z); unfold s; lra).
  (* coercivity *)
  assert (CO : forall x, F x <= F z -> forall i, (i < n)%nat -> Rabs (x i) <= beta * (INR n * s + c)).
  { intros x Hx i Li. destruct (HS x z I I) as [A [HA EA]]. destruct (HR A HA) as [B [HB BB]].
    pose proof (inverse_apply n A B (vsub x z) (fun j => f x j - f z j) HB) as Q.
    assert (Q1 : veq n (mv n A (vsub x z)) (fun j => f x j - f z j)) by (intros j Lj; symmetry; apply EA; exact Lj).
    specialize (Q Q1 i Li). assert (Q2 : x i = vsub x z i) by (unfold vsub, z; ring). rewrite Q2, Q. clear Q Q1 Q2.
    eapply Rle_trans; [apply (mv_bound n B _ beta Hb BB i Li)|]. apply Rmult_le_compat_l; [exact Hb|].
    rewrite <- sum_const. unfold c. rewrite <- sum_plus. apply sum_le. intros j Lj.
    unfold Rminus. eapply Rle_trans; [apply Rabs_triang|]. rewrite Rabs_Ropp. apply Rplus_le_compat_r.
    apply sq_le; [lra|]. assert (f x j * f x j <= F x) by (apply (sum_term n (fun i => f x i * f x i)); [intros; nra|exact Lj]).
    specialize (Fpos z). unfold s. assert (0 <= F z * F z) by (apply Rmult_le_pos; assumption).
    replace ((F z + 1) * (F z + 1)) with (F z * F z + 2 * F z + 1) by ring. lra. }
  set (rho := beta * (INR n * s + c)) in *.
  assert (Hrho : 0 <= rho) by (unfold rho; pose proof (pos_INR n); apply Rmult_le_pos; [exact Hb|]; nra).
  set (r := rho + 1). set (yl := fun _ : nat => - r). set (yu := fun _ : nat => r).
  set (P := fun (x : vec) (i : nat) => clamp (- r) r (x i)).
  assert (PI : forall x, inb n yl yu (P x)) by (intros x i _; apply clamp_in; unfold yl, yu, r; lra).
  assert (FB : forall y, inb n yl yu y -> forall i, (i < n)%nat -> Rabs (f y i) <= c + L * (INR n * r)).
  { intros y Hy i Li. destruct (HS y z I I) as [A [HA EA]]. specialize (EA i Li).
    assert (E : f y i = f z i + mv n A (vsub y z) i) by lra. rewrite E. eapply Rle_trans; [apply Rabs_triang|]. apply Rplus_le_compat.
    - apply (sum_term n (fun j => Rabs (f z j))); [intros; apply Rabs_pos|exact Li].
    - eapply Rle_trans; [apply (mv_bound n A _ L HL (BL A HA) i Li)|]. apply Rmult_le_compat_l; [exact HL|]. rewrite <- sum_const. apply sum_le.
      intros j Lj. unfold vsub, z. rewrite Rminus_0_r. apply Rabs_le. specialize (Hy j Lj). unfold yl, yu in Hy. lra. }
  set (M := c + L * (INR n * r)) in *.
  assert (HM : 0 <= M) by (unfold M, r; pose proof (pos_INR n); assert (0 <= INR n * (rho + 1)) by nra; nra).
  assert (LF : lip n (INR n * (2 * M * L)) (fun x => F (P x))).
  { intros x y. unfold F. rewrite <- sum_minus. eapply Rle_trans; [apply sum_abs|].
    rewrite Rmult_assoc. rewrite <- sum_const. apply sum_le. intros i Li.
    destruct (HS (P x) (P y) I I) as [A [HA EA]]. specialize (EA i Li).
    replace (f (P x) i * f (P x) i - f (P y) i * f (P y) i) with ((f (P x) i + f (P y) i) * (f (P x) i - f (P y) i)) by ring.
    rewrite Rabs_mult, Rmult_assoc, Rmult_assoc. rewrite <- Rmult_assoc. apply Rmult_le_compat; try apply Rabs_pos.
    - eapply Rle_trans; [apply Rabs_triang|]. pose proof (FB (P x) (PI x) i Li). pose proof (FB (P y) (PI y) i Li). lra.
    - rewrite EA. eapply Rle_trans; [apply (mv_bound n A _ L HL (BL A HA) i Li)|]. apply Rmult_le_compat_l; [exact HL|]. apply sum_le.
      intros j Lj. unfold vsub, P. destruct (clamp_slope (- r) r (x j) (y j)) as [th [T E]]; [unfold r; lra|]. rewrite E, Rabs_mult, (Rabs_pos_eq th) by lra.
      pose proof (Rabs_pos (x j - y j)). nra. }
  destruct (evt n _ _ yl yu LF) as [x0 [_ Mx]]; [intros; unfold yl, yu, r; lra|].
  set (x := P x0). assert (Hx : inb n yl yu x) by apply PI.
  assert (Fext : forall u v, veq n u v -> F u = F v).
  { intros u v E. destruct (HS u v I I) as [A [HA EA]]. unfold F. apply sum_ext. intros i Li. specialize (EA i Li).
    assert (Z : mv n A (vsub u v) i = 0).
    { unfold mv. rewrite (sum_ext n _ (fun _ => 0)); [apply sum_0|]. intros j Lj. unfold vsub. rewrite (E j Lj). ring. }
    replace (f u i) with (f v i) by lra. reflexivity. }
  assert (Mx' : forall y, inb n yl yu y -> F x <= F y).
  { intros y Hy. unfold x. eapply Rle_trans; [apply Mx; exact Hy|]. apply Req_le. apply Fext. intros i Li. unfold P. apply clamp_id. apply Hy. exact Li. }
  exists x. destruct (Req_dec (F x) 0) as [E|NE].
  { intros i Li. assert (Q : f x i * f x i = 0) by (apply (sum_zero n (fun i => f x i * f x i)); [intros; nra|unfold F in E; lra|exact Li]). nra. }
  exfalso. set (g := f x).
  destruct (definite_column n lo hi g HJ) as [i [sg [d [Li [Hsg [Hd HD]]]]]].
  { intros A HA. destruct (HR A HA) as [B [[HB _] _]]. exists B. exact HB. }
  { intros Z. apply NE. unfold F. rewrite (sum_ext n _ (fun _ => 0)); [apply sum_0|]. intros k Lk. specialize (Z k Lk). unfold g in Z. rewrite Z. ring. }
  assert (Hxr : forall k, (k < n)%nat -> Rabs (x k) <= rho).
  { intros k Lk. apply CO; [|exact Lk]. apply Mx'. intros j Lj. unfold yl, yu, z, r. lra. }
  set (Q := INR n * (L * L) + 1). assert (HQ : 1 <= Q) by (unfold Q; pose proof (pos_INR n); nra).
  set (t := Rmin 1 (d / Q)).
  assert (Ht : 0 < t) by (unfold t; apply Rmin_glb_lt; [lra|]; apply Rdiv_lt_0_compat; lra).
  assert (Ht1 : t <= 1) by apply Rmin_l.
  assert (Ht2 : t * Q <= d).
  { assert (t <= d / Q) by apply Rmin_r. apply (Rmult_le_compat_r Q) in H; [|lra]. unfold Rdiv in H. rewrite Rmult_assoc, Rinv_l, Rmult_1_r in H by lra. exact H. }
  set (y := upd x i (x i - sg * t)).
  assert (Hy : inb n yl yu y).
  { intros k Lk. unfold y. specialize (Hxr k Lk). pose proof (Rle_abs (x k)). pose proof (Rle_abs (- x k)). rewrite Rabs_Ropp in *. unfold yl, yu, r.
    destruct (Nat.eq_dec k i) as [->|N]; [rewrite upd_eq|rewrite upd_neq by exact N]; destruct Hsg; subst sg; lra. }
  specialize (Mx' y Hy). destruct (HS y x I I) as [A [HA EA]]. specialize (HD A HA).
  assert (EY : forall k, (k < n)%nat -> f y k = g k - sg * t * A k i).
  { intros k Lk. specialize (EA k Lk). fold g in EA.
    assert (Z : mv n A (vsub y x) k = - (sg * t) * A k i); [|rewrite Z in EA; lra].
    unfold mv. rewrite (sum_ext n _ (fun j => if Nat.eqb j i then - (sg * t) * A k j else 0)); [apply (sum_delta n i (fun j => - (sg * t) * A k j)); exact Li|].
    intros j Lj. unfold vsub, y, upd. destruct (Nat.eqb_spec j i) as [->|N]; ring. }
  assert (EF : F y = F x - 2 * t * (sg * sum n (fun k => A k i * g k)) + t * t * sum n (fun k => A k i * A k i)).
  { unfold F. rewrite (sum_ext n _ (fun k => (g k * g k - (2 * t * sg) * (A k i * g k)) + t * t * (A k i * A k i))).
    - rewrite sum_plus, sum_minus, !sum_scal. fold g. ring.
    - intros k Lk. rewrite EY by exact Lk. assert (sg * sg = 1) by (destruct Hsg; subst sg; ring).
      replace ((g k - sg * t * A k i) * (g k - sg * t * A k i)) with (g k * g k - 2 * t * sg * (A k i * g k) + (sg * sg) * (t * t * (A k i * A k i))) by ring. rewrite H. ring. }
  assert (SA : sum n (fun k => A k i * A k i) <= INR n * (L * L)).
  { rewrite <- sum_const. apply sum_le. intros k Lk. specialize (BL A HA k i Lk Li). pose proof (Rle_abs (A k i)). pose proof (Rle_abs (- A k i)). rewrite Rabs_Ropp in *. nra. }
  assert (t * t * sum n (fun k => A k i * A k i) <= t * (t * (Q - 1))). { rewrite Rmult_assoc. apply Rmult_le_compat_l; [lra|]. apply Rmult_le_compat_l; [lra|]. unfold Q. lra. }
  assert (2 * t * d <= 2 * t * (sg * sum n (fun k => A k i * g k))) by (apply Rmult_le_compat_l; lra).
  nra.
Qed.

(** ** The interval Newton existence and uniqueness theorem *)
Lemma slopes_ext : forall n lo hi D f x y, slopes n lo hi D f -> D x -> D y -> veq n x y -> veq n (f x) (f y).
Proof.
  intros n lo hi D f x y HS Hx Hy E i Li. destruct (HS x y Hx Hy) as [A [HA EA]]. specialize (EA i Li).
  assert (Z : mv n A (vsub x y) i = 0).
  { unfold mv. rewrite (sum_ext n _ (fun _ => 0)); [apply sum_0|]. intros j Lj. unfold vsub. rewrite (E j Lj). ring. }
  lra.
Qed.

Theorem newton_unique : forall n lo hi xl xu f x y, slopes n lo hi (inb n xl xu) f ->
  (forall A, inJ n lo hi A -> exists B, inverses n A B) -> inb n xl xu x -> inb n xl xu y ->
  veq n (f x) (fun _ => 0) -> veq n (f y) (fun _ => 0) -> veq n x y.
Proof.
  intros n lo hi xl xu f x y HS HR Hx Hy Zx Zy i Li. destruct (HS x y Hx Hy) as [A [HA EA]]. destruct (HR A HA) as [B HB].
  assert (Q : veq n (mv n A (vsub x y)) (fun _ => 0)). { intros k Lk. rewrite <- (EA k Lk), (Zx k Lk), (Zy k Lk). ring. }
  pose proof (inverse_zero n A B _ HB Q i Li) as E. unfold vsub in E. lra.
Qed.

Theorem newton_exists : forall n lo hi beta xl xu f m, (forall i j, (i < n)%nat -> (j < n)%nat -> lo i j <= hi i j) -> 0 <= beta ->
  regular n lo hi beta -> (forall i, (i < n)%nat -> xl i <= xu i) -> inb n xl xu m -> slopes n lo hi (inb n xl xu) f ->
  (forall A B, inJ n lo hi A -> inverses n A B -> inb n xl xu (fun i => m i - mv n B (f m) i)) ->
  exists x, inb n xl xu x /\ veq n (f x) (fun _ => 0).
Proof.
  intros n lo hi beta xl xu f m HJ Hb HR HX Hm HS HN.
  set (P := fun (x : vec) i => clamp (xl i) (xu i) (x i)).
  assert (PI : forall x, inb n xl xu (P x)) by (intros x i Li; apply clamp_in; auto).
  set (ft := fun x i => f (P x) i + mv n lo (vsub x (P x)) i).
  assert (ST : slopes n lo hi (fun _ => True) ft).
  { intros x y _ _. destruct (HS (P x) (P y) (PI x) (PI y)) as [A [HA EA]].
    destruct (finite_choice_col n (fun j a => 0 <= a O <= 1 /\ clamp (xl j) (xu j) (x j) - clamp (xl j) (xu j) (y j) = a O * (x j - y j))) as [th Hth].
    { intros j Lj. destruct (clamp_slope (xl j) (xu j) (x j) (y j) (HX j Lj)) as [t Ht]. exists (fun _ => t). exact Ht. }
    exists (fun i j => th j O * A i j + (1 - th j O) * lo i j). split.
    - intros i j Li Lj. specialize (HA i j Li Lj). destruct (Hth j Lj) as [T _]. nra.
    - intros i Li. unfold ft. specialize (EA i Li).
      replace (f (P x) i + mv n lo (vsub x (P x)) i - (f (P y) i + mv n lo (vsub y (P y)) i))
        with ((f (P x) i - f (P y) i) + (mv n lo (vsub x (P x)) i - mv n lo (vsub y (P y)) i)) by ring.
      rewrite EA. unfold mv. rewrite <- sum_minus, <- sum_plus. apply sum_ext. intros j Lj. destruct (Hth j Lj) as [_ E]. unfold vsub, P in *. fold (P x) (P y).
      replace (lo i j * (x j - clamp (xl j) (xu j) (x j)) - lo i j * (y j - clamp (xl j) (xu j) (y j)))
        with (lo i j * ((x j - y j) - (clamp (xl j) (xu j) (x j) - clamp (xl j) (xu j) (y j)))) by ring. rewrite E. ring. }
  destruct (global_zero n lo hi beta ft HJ Hb HR ST) as [x Zx].
  destruct (ST x m I I) as [A [HA EA]]. destruct (HR A HA) as [B [HB _]].
  assert (Em : veq n (P m) m) by (intros i Li; apply clamp_id; apply Hm; exact Li).
  assert (Fm : veq n (ft m) (f m)).
  { intros i Li. unfold ft. rewrite (slopes_ext n lo hi _ f (P m) m HS (PI m) Hm Em i Li).
    unfold mv. rewrite (sum_ext n _ (fun _ => 0)); [rewrite sum_0; ring|]. intros j Lj. unfold vsub. rewrite (Em j Lj). ring. }
  assert (Q : veq n (mv n A (vsub x m)) (fun i => - f m i)).
  { intros i Li. rewrite <- (EA i Li), (Zx i Li), (Fm i Li). ring. }
  pose proof (inverse_apply n A B _ _ HB Q) as R1.
  assert (Ex : veq n x (fun i => m i - mv n B (f m) i)).
  { intros i Li. specialize (R1 i Li). assert (mv n B (fun i => - f m i) i = - mv n B (f m) i); [|unfold vsub in R1; lra].
    unfold mv. rewrite <- sum_opp. apply sum_ext. intros; ring. }
  assert (Ix : inb n xl xu x). { intros i Li. rewrite (Ex i Li). apply (HN A B HA HB); exact Li. }
  assert (Px : veq n (P x) x) by (intros i Li; apply clamp_id; apply Ix; exact Li).
  exists (P x). split; [apply PI|]. intros i Li. specialize (Zx i Li). unfold ft in Zx.
  assert (Z : mv n lo (vsub x (P x)) i = 0).
  { unfold mv. rewrite (sum_ext n _ (fun _ => 0)); [apply sum_0|]. intros j Lj. unfold vsub. rewrite (Px j Lj). ring. }
  lra.
Qed.

(** ** The Krawczyk existence theorem *)
Section KRAW.
  Variables (n : nat) (lo hi : mat) (xl xu : vec) (f : vec -> vec) (m : vec) (B0 M0 : mat).
  Hypothesis HX : forall i, (i < n)%nat -> xl i <= xu i.
  Hypothesis Hm : inb n xl xu m.
  Hypothesis HS : slopes n lo hi (inb n xl xu) f.
  Hypothesis HI : idmat n (mm n M0 B0).
  Hypothesis HK : forall A x, inJ n lo hi A -> inb n xl xu x ->
    inb n xl xu (fun i => m i - mv n B0 (f m) i + (vsub x m i - mv n B0 (mv n A (vsub x m)) i)).

  Let w (i : nat) : R := xu i - xl i.
  Let k (x : vec) : vec := fun i => x i - mv n B0 (f x) i.
  Let E (A : mat) : mat := fun i j => delta i j - mm n B0 A i j.

  Lemma delta_sum : forall (x : vec) i, (i < n)%nat -> sum n (fun j => delta i j * x j) = x i.
  Proof using.
    intros x i Li. rewrite (sum_ext n _ (fun j => if Nat.eqb j i then x j else 0)); [apply sum_delta; exact Li|].
    intros j _. unfold delta. rewrite Nat.eqb_sym. destruct (Nat.eqb j i); ring.
  Qed.
  Lemma E_apply : forall A (x : vec) i, (i < n)%nat -> mv n (E A) x i = x i - mv n B0 (mv n A x) i.
  Proof using.
    intros A x i Li. rewrite <- (mv_mm n B0 A x i Li). unfold mv at 1. unfold E.
    rewrite (sum_ext n _ (fun j => delta i j * x j - mm n B0 A i j * x j)) by (intros; ring). rewrite sum_minus, delta_sum by exact Li. reflexivity.
  Qed.
  Lemma E_width : forall A i, inJ n lo hi A -> (i < n)%nat -> sum n (fun j => Rabs (E A i j) * w j) <= w i.
  Proof using HX HK.
    intros A i HA Li.
    set (p := fun j => if Rle_dec 0 (E A i j) then xu j else xl j). set (q := fun j => if Rle_dec 0 (E A i j) then xl j else xu j).
    assert (Hp : inb n xl xu p) by (intros j Lj; specialize (HX j Lj); unfold p; destruct (Rle_dec 0 (E A i j)); lra).
    assert (Hq : inb n xl xu q) by (intros j Lj; specialize (HX j Lj); unfold q; destruct (Rle_dec 0 (E A i j)); lra).
    pose proof (HK A p HA Hp i Li) as K1. pose proof (HK A q HA Hq i Li) as K2. cbv beta in K1, K2.
    rewrite <- (E_apply A _ i Li) in K1. rewrite <- (E_apply A _ i Li) in K2. rewrite (mv_sub n (E A) p m i) in K1. rewrite (mv_sub n (E A) q m i) in K2.
    assert (Q : sum n (fun j => Rabs (E A i j) * w j) = mv n (E A) p i - mv n (E A) q i).
    { unfold mv. rewrite <- sum_minus. apply sum_ext. intros j Lj. unfold p, q, w. destruct (Rle_dec 0 (E A i j)); [rewrite Rabs_pos_eq by lra|rewrite Rabs_left by lra]; ring. }
    rewrite Q. unfold w. lra.
  Qed.
  Lemma k_diff : forall x y, inb n xl xu x -> inb n xl xu y -> exists A, inJ n lo hi A /\ forall i, (i < n)%nat -> k x i - k y i = mv n (E A) (vsub x y) i.
  Proof using HS.
    intros x y Hx Hy. destruct (HS x y Hx Hy) as [A [HA EA]]. exists A. split; [exact HA|]. intros i Li. rewrite E_apply by exact Li.
    rewrite <- (mv_ext n B0 (fun j => f x j - f y j) _ EA i). change (fun j => f x j - f y j) with (vsub (f x) (f y)). rewrite mv_sub. unfold k, vsub. ring.
  Qed.
  Lemma k_self : forall x, inb n xl xu x -> inb n xl xu (k x).
  Proof using HS HK Hm.
    intros x Hx i Li. destruct (k_diff x m Hx Hm) as [A [HA EA]]. specialize (EA i Li). rewrite E_apply in EA by exact Li.
    pose proof (HK A x HA Hx i Li) as K1. cbv beta in K1. unfold k in *. lra.
  Qed.
  Lemma k_contr : forall x y c, inb n xl xu x -> inb n xl xu y -> 0 <= c -> (forall i, (i < n)%nat -> Rabs (x i - y i) <= c * w i) ->
    forall i, (i < n)%nat -> Rabs (k x i - k y i) <= c * w i.
  Proof using HX HK HS.
    intros x y c Hx Hy Hc H i Li. destruct (k_diff x y Hx Hy) as [A [HA EA]]. rewrite (EA i Li). unfold mv. eapply Rle_trans; [apply sum_abs|].
    apply Rle_trans with (c * sum n (fun j => Rabs (E A i j) * w j)); [|apply Rmult_le_compat_l; [exact Hc|]; apply E_width; assumption].
    rewrite <- sum_scal. apply sum_le. intros j Lj. rewrite Rabs_mult. specialize (H j Lj). unfold vsub. pose proof (Rabs_pos (E A i j)). nra.
  Qed.

  Fixpoint it (t : R) (p : nat) : vec := match p with O => m | S q => fun i => (1 - t) * k (it t q) i + t * m i end.
  Lemma it_in : forall t p, 0 <= t <= 1 -> inb n xl xu (it t p).
  Proof using HS HK Hm.
    intros t p Ht. induction p as [|p IH]; [exact Hm|]. cbn. intros i Li. pose proof (k_self _ IH i Li). specialize (Hm i Li). nra.
  Qed.
  Lemma it_step : forall t p, 0 <= t <= 1 -> forall i, (i < n)%nat -> Rabs (it t (S p) i - it t p i) <= (1 - t) ^ p * w i.
  Proof using HX HS HK Hm.
    intros t p Ht. induction p as [|p IH]; intros i Li.
    - cbn [pow]. rewrite Rmult_1_l. pose proof (it_in t 1 Ht i Li). pose proof (Hm i Li). change (it t 0 i) with (m i). unfold w. apply Rabs_le. lra.
    - assert (Q : it t (S (S p)) i - it t (S p) i = (1 - t) * (k (it t (S p)) i - k (it t p) i)) by (cbn [it]; ring).
      rewrite Q, Rabs_mult, (Rabs_pos_eq (1 - t)) by lra. change ((1 - t) ^ S p) with ((1 - t) * (1 - t) ^ p). rewrite Rmult_assoc. apply Rmult_le_compat_l; [lra|].
      apply k_contr; [apply it_in; exact Ht|apply it_in; exact Ht|apply pow_le; lra|exact IH|exact Li].
  Qed.
  Lemma it_res : forall t p, 0 <= t <= 1 -> forall i, (i < n)%nat -> Rabs (mv n B0 (f (it t p)) i) <= ((1 - t) ^ p + t) * w i.
  Proof using HX HS HK Hm.
    intros t p Ht i Li. pose proof (it_step t p Ht i Li) as S1. pose proof (k_self _ (it_in t p Ht) i Li) as S2. pose proof (Hm i Li) as S3.
    assert (Q : mv n B0 (f (it t p)) i = - (it t (S p) i - it t p i) - t * (k (it t p) i - m i)) by (cbn [it]; unfold k; ring).
    assert (Q2 : Rabs (t * (k (it t p) i - m i)) <= t * w i).
    { rewrite Rabs_mult, (Rabs_pos_eq t) by lra. apply Rmult_le_compat_l; [lra|]. apply Rabs_le. unfold w. lra. }
    rewrite Q. unfold Rminus at 1. eapply Rle_trans; [apply Rabs_triang|]. rewrite !Rabs_Ropp. lra.
  Qed.

  Theorem krawczyk_exists : exists x, inb n xl xu x /\ veq n (f x) (fun _ => 0).
  Proof using HX HS HK Hm HI.
    set (P := fun (x : vec) i => clamp (xl i) (xu i) (x i)).
    assert (PI : forall x, inb n xl xu (P x)) by (intros x i Li; apply clamp_in; auto).
    destruct (inJ_bounded n lo hi) as [L [HL BL]].
    set (b := sum n (fun i => sum n (fun j => Rabs (B0 i j)))).
    assert (HB0 : forall i j, (i < n)%nat -> (j < n)%nat -> Rabs (B0 i j) <= b).
    { intros i j Li Lj. eapply Rle_trans; [apply (sum_term n (fun j => Rabs (B0 i j)) j); [intros; apply Rabs_pos|exact Lj]|].
      apply (sum_term n (fun i => sum n (fun j => Rabs (B0 i j)))); [intros; apply sum_nonneg; intros; apply Rabs_pos|exact Li]. }
    assert (Hb : 0 <= b) by (apply sum_nonneg; intros; apply sum_nonneg; intros; apply Rabs_pos).
    set (Phi := fun x => sum n (fun i => Rabs (mv n B0 (f x) i))).
    assert (LF : lip n (INR n * (b * (INR n * L))) (fun x => Phi (P x))).
    { intros x y. unfold Phi. rewrite <- sum_minus. eapply Rle_trans; [apply sum_abs|]. rewrite Rmult_assoc, <- sum_const. apply sum_le. intros i Li.
      eapply Rle_trans; [apply Rabs_triang_inv2|]. rewrite <- mv_sub. eapply Rle_trans; [apply (mv_bound n B0 _ b Hb HB0 i Li)|]. rewrite Rmult_assoc.
      apply Rmult_le_compat_l; [exact Hb|]. rewrite Rmult_assoc, <- sum_const. apply sum_le. intros j Lj.
      destruct (HS (P x) (P y) (PI x) (PI y)) as [A [HA EA]]. unfold vsub at 1. rewrite (EA j Lj).
      eapply Rle_trans; [apply (mv_bound n A _ L HL (BL A HA) j Lj)|]. apply Rmult_le_compat_l; [exact HL|]. apply sum_le. intros l Ll. unfold vsub, P.
      destruct (clamp_slope (xl l) (xu l) (x l) (y l) (HX l Ll)) as [th [T Eq]]. rewrite Eq, Rabs_mult, (Rabs_pos_eq th) by lra. pose proof (Rabs_pos (x l - y l)). nra. }
    destruct (evt n _ _ xl xu LF HX) as [x0 [_ Mx]]. exists (P x0). split; [apply PI|].
    set (v := Phi (P x0)). set (W := sum n w).
    assert (Hw : forall i, (i < n)%nat -> 0 <= w i) by (intros i Li; specialize (HX i Li); unfold w; lra).
    assert (HW : 0 <= W) by (apply sum_nonneg; exact Hw).
    assert (Small : forall t p, 0 <= t <= 1 -> v <= ((1 - t) ^ p + t) * W).
    { intros t p Ht. unfold v. eapply Rle_trans; [apply (Mx (it t p)); apply it_in; exact Ht|]. unfold Phi, W. rewrite <- sum_scal. apply sum_le. intros i Li.
      assert (Eq : veq n (f (P (it t p))) (f (it t p))).
      { apply (slopes_ext n lo hi (inb n xl xu)); [exact HS|apply PI|apply it_in; exact Ht|]. intros j Lj. apply clamp_id. apply it_in; assumption. }
      rewrite (mv_ext n B0 _ _ Eq i). apply it_res; assumption. }
    assert (Vz : v <= 0).
    { destruct (Rle_dec v 0) as [H|H]; [exact H|]. exfalso. assert (Hv : 0 < v) by lra.
      set (t := Rmin 1 (v / (4 * (W + 1)))).
      assert (T0 : 0 < t) by (unfold t; apply Rmin_glb_lt; [lra|]; apply Rdiv_lt_0_compat; lra).
      assert (T1 : t <= 1) by apply Rmin_l.
      assert (T2 : t * (4 * (W + 1)) <= v).
      { assert (Q : t <= v / (4 * (W + 1))) by apply Rmin_r. apply (Rmult_le_compat_r (4 * (W + 1))) in Q; [|lra]. unfold Rdiv in Q. rewrite Rmult_assoc, Rinv_l, Rmult_1_r in Q by lra. exact Q. }
      destruct (pow_lt_1_zero (1 - t)) with (y := t) as [N HN]; [rewrite Rabs_pos_eq by lra; lra|exact T0|].
      specialize (HN N (le_n N)). pose proof (Rle_abs ((1 - t) ^ N)). specialize (Small t N). assert (Q : v <= ((1 - t) ^ N + t) * W) by (apply Small; lra).
      assert (((1 - t) ^ N + t) * W <= (t + t) * W) by (apply Rmult_le_compat_r; lra). nra. }
    intros i Li.
    assert (Z : veq n (mv n B0 (f (P x0))) (fun _ => 0)).
    { intros j Lj. assert (Q : Rabs (mv n B0 (f (P x0)) j) = 0).
      { apply (sum_zero n (fun i => Rabs (mv n B0 (f (P x0)) i))); [intros; apply Rabs_pos|exact Vz|exact Lj]. }
      destruct (Req_dec (mv n B0 (f (P x0)) j) 0) as [Z|Z]; [exact Z|]. apply Rabs_no_R0 in Z. contradiction. }
    rewrite <- (mv_id n (mm n M0 B0) (f (P x0)) HI i Li). rewrite (mv_mm n M0 B0 (f (P x0)) i Li), (mv_ext n M0 _ _ Z i).
    unfold mv. rewrite (sum_ext n _ (fun _ => 0)); [apply sum_0|intros; ring].
  Qed.
End KRAW.
