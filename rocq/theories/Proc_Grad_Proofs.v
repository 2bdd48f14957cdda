(** Proofs about reverse-mode gradients of procedures. *)
From Coq Require Import ZArith List Bool Lia Reals Lra.
From Coquelicot Require Import Coquelicot.
From Verif Require Import Expr_Model Expr_Spec Expr_Proofs Expr_Deriv_Proofs
  Proc_Model Proc_Spec Proc_Proofs Proc_Hull_Proofs.
Import ListNotations.
Open Scope R_scope.

(** ** Forward tangents *)

Definition lun (o : uop) (a : R) : R := match d_un o a 1 with Some l => l | None => 0 end.

Lemma d_un_lin o a d : o <> Abs -> d_un o a d = Some (lun o a * d).
Proof.
  destruct o; unfold lun; simpl; intros N; try congruence; f_equal; unfold Rdiv; ring.
Qed.

Lemma diff_un_lun o x y : sem1 o x = Some y -> smooth1 [x] (IUn o 0) -> diff_at (sem1 o) x y (lun o x).
Proof.
  intros E S. pose proof (diff_un o x y E) as D.
  destruct o; unfold lun; simpl in S |- *; try contradiction;
    try (match goal with |- diff_at _ _ _ ?l => match type of D with
           | diff_at _ _ _ ?l' => replace l with l' by (unfold Rdiv; ring); exact D
           | _ -> diff_at _ _ _ ?l' => replace l with l' by (unfold Rdiv; ring); exact (D S) end end).
Qed.

Definition lbin (o : bop) (a la b lb : R) : R :=
  match o with
  | Add => la + lb
  | Sub => la - lb
  | Mul => la * b + a * lb
  | Div => (la - lb * (a / b)) / b
  | Max | Min => 0
  end.

Lemma diff_bin o F G x a la b lb z : o <> Max -> o <> Min ->
  diff_at F x a la -> diff_at G x b lb -> sem2 o a b = Some z ->
  diff_at (fun t => bind (F t) (fun u => bind (G t) (fun w => sem2 o u w))) x z (lbin o a la b lb).
Proof.
  intros N1 N2 DF DG E. destruct o; try congruence; simpl in E.
  - injection E as <-. apply (diff_at_2 (fun u w => u + w) _ _ _ _ _ la lb); auto.
    intros f g Hf Hg _ _. apply (is_derive_plus f g); assumption.
  - injection E as <-. apply (diff_at_2 (fun u w => u - w) _ _ _ _ _ la lb); auto.
    intros f g Hf Hg _ _. apply (is_derive_minus f g); assumption.
  - injection E as <-. apply (diff_at_2 (fun u w => u * w) _ _ _ _ _ la lb); auto.
    intros f g Hf Hg Qf Qg. rewrite <- Qf, <- Qg.
    apply (is_derive_mult f g); [ assumption | assumption | intros; apply Rmult_comm ].
  - destruct (Req_EM_T b 0) as [Z|Z]; [ discriminate | ]. injection E as <-.
    destruct DF as (f & d & Hd & EF & Fx & DF). destruct DG as (g & e & He & EG & Gx & DG).
    destruct (near_nonzero b Z) as (eps & Heps & NZ).
    destruct (continuous_near g x lb eps DG Heps) as (d' & Hd' & K). rewrite Gx in K.
    exists (fun t => f t / g t), (Rmin d (Rmin e d')). split; [ | split; [ | split ] ].
    + repeat apply Rmin_glb_lt; assumption.
    + intros t Ht. pose proof (Rmin_l d (Rmin e d')). pose proof (Rmin_r d (Rmin e d')).
      pose proof (Rmin_l e d'). pose proof (Rmin_r e d').
      rewrite EF, EG by lra. simpl.
      destruct (Req_EM_T (g t) 0) as [Q|Q]; [ | reflexivity ].
      exfalso. apply (NZ (g t)); [ apply K; lra | exact Q ].
    + now rewrite Fx, Gx.
    + unfold lbin.
      replace ((la - lb * (a / b)) / b) with ((la * g x - lb * f x) / g x ^ 2)
        by (rewrite Fx, Gx; field; exact Z).
      replace (la * g x - lb * f x) with (la * g x - f x * lb) by ring.
      apply is_derive_div; [ exact DF | exact DG | now rewrite Gx ].
Qed.

Lemma diff_powerRZ x n y : sempow x n = Some y -> ((n <= 0)%Z -> x <> 0) ->
  diff_at (fun t => sempow t n) x y (IZR n * powerRZ x (n - 1)).
Proof.
  intros E S. apply diff_pow; [ exact E | ]. unfold sempow.
  destruct (Z.ltb_spec (n - 1) 0) as [L|L]; [ | reflexivity ].
  destruct (Req_EM_T x 0) as [Z|Z]; [ exfalso; apply S; [ lia | exact Z ] | reflexivity ].
Qed.

Lemma diff_const y x : diff_at (fun _ => Some y) x y 0.
Proof. apply (diff_at_global (fun _ => y)). auto_derive; [ exact I | ring ]. Qed.

(** The derivative of the result of an instruction, in terms of those of its arguments. *)
Definition tstep (c : list R) (k : nat) (w wd : list R) (i : instr) : R :=
  match i with
  | ICst _ => 0
  | IVar j => if Nat.eqb j k then 1 else 0
  | IUn o a => lun o (nth a w 0) * nth a wd 0
  | IBin o a b => lbin o (nth a w 0) (nth a wd 0) (nth b w 0) (nth b wd 0)
  | IPow a n => IZR n * powerRZ (nth a w 0) (n - 1) * nth a wd 0
  | IScal o m a => lbin o (nth m c 0) 0 (nth a w 0) (nth a wd 0)
  end.

(** A list of functions, all of them differentiable. *)
Definition diffs (G : R -> option (list R)) (x : R) (w wd : list R) : Prop :=
  exists (f : R -> list R) d, 0 < d /\
    (forall t, Rabs (t - x) < d -> G t = Some (f t) /\ length (f t) = length w) /\
    f x = w /\ length wd = length w /\
    forall i, (i < length w)%nat -> is_derive (fun t => nth i (f t) 0) x (nth i wd 0).

Lemma Rabs_0 x : Rabs (x - x) = 0.
Proof. rewrite Rminus_diag_eq by reflexivity. apply Rabs_R0. Qed.

Lemma diffs_nth G x w wd i : diffs G x w wd -> (i < length w)%nat ->
  diff_at (fun t => bind (G t) (fun u => nth_error u i)) x (nth i w 0) (nth i wd 0).
Proof.
  intros (f & d & Hd & EG & Fx & Lw & D) L.
  exists (fun t => nth i (f t) 0), d. split; [ exact Hd | split; [ | split ] ].
  - intros t Ht. destruct (EG t Ht) as [-> E]. simpl. apply nth_error_nth'. lia.
  - now rewrite Fx.
  - now apply D.
Qed.

Lemma diffs_snoc G H x w wd y l :
  diffs G x w wd -> diff_at (fun t => bind (G t) (fun u => H t u)) x y l ->
  diffs (fun t => bind (G t) (fun u => bind (H t u) (fun z => Some (u ++ [z])))) x (w ++ [y]) (wd ++ [l]).
Proof.
  intros (f & d & Hd & EG & Fx & Lw & D) (h & e & He & EH & Hx & DH).
  exists (fun t => f t ++ [h t]), (Rmin d e). split; [ now apply Rmin_glb_lt | ].
  assert (K : forall t, Rabs (t - x) < Rmin d e -> H t (f t) = Some (h t)).
  { intros t Ht. pose proof (Rmin_l d e). pose proof (Rmin_r d e).
    assert (B : bind (G t) (fun u => H t u) = Some (h t)) by (apply EH; lra).
    destruct (EG t) as [E _]; [ lra | ]. rewrite E in B. exact B. }
  split; [ | split; [ | split ] ].
  - intros t Ht. pose proof (Rmin_l d e). destruct (EG t) as [E L]; [ lra | ].
    rewrite E. simpl. rewrite (K t Ht). simpl. split; [ reflexivity | ]. rewrite !app_length, L. reflexivity.
  - now rewrite Fx, Hx.
  - rewrite !app_length, Lw. reflexivity.
  - intros i Li. rewrite app_length in Li. simpl in Li.
    destruct (Nat.lt_ge_cases i (length w)) as [J|J].
    + rewrite app_nth1 by lia.
      apply (is_derive_ext_loc (fun t => nth i (f t) 0)); [ | now apply D ].
      exists (mkposreal d Hd). intros t Ht. unfold ball in Ht. simpl in Ht.
      unfold AbsRing_ball, abs, minus, plus, opp in Ht. simpl in Ht.
      destruct (EG t Ht) as [_ L]. rewrite app_nth1 by lia. reflexivity.
    + replace i with (length w) by lia. rewrite app_nth2 by lia. rewrite Lw, Nat.sub_diag. simpl.
      apply (is_derive_ext_loc h); [ | exact DH ].
      exists (mkposreal d Hd). intros t Ht. unfold ball in Ht. simpl in Ht.
      unfold AbsRing_ball, abs, minus, plus, opp in Ht. simpl in Ht.
      destruct (EG t Ht) as [_ L]. rewrite app_nth2 by lia. rewrite L, Nat.sub_diag. reflexivity.
Qed.

Lemma diff_at_inv F x y l : diff_at F x y l -> F x = Some y.
Proof. apply diff_at_val. Qed.

Lemma step_diff c rho k G w wd i y :
  diffs G (rho k) w wd -> smooth1 w i ->
  pt_step c rho w i = Some y ->
  diff_at (fun t => bind (G t) (fun u => pt_step c (upd rho k t) u i)) (rho k) y (tstep c k w wd i).
Proof.
  intros D S E.
  assert (Gd : diff_at (fun t => bind (G t) (fun _ => Some 0)) (rho k) 0 0).
  { destruct D as (f & d & Hd & EG & _). exists (fun _ => 0), d.
    split; [ exact Hd | split; [ | split; [ reflexivity | ] ] ].
    - intros t Ht. destruct (EG t Ht) as [-> _]. reflexivity.
    - auto_derive; [ exact I | ring ]. }
  destruct i as [m|j|o a|o a b|a n|o m a]; simpl in E, S |- *.
  - rewrite E. destruct Gd as (f & d & Hd & EG & _ & _). exists (fun _ => y), d.
    split; [ exact Hd | split; [ | split; [ reflexivity | ] ] ].
    + intros t Ht. specialize (EG t Ht). destruct (G t); [ reflexivity | discriminate ].
    + auto_derive; [ exact I | ring ].
  - injection E as <-. destruct Gd as (f & d & Hd & EG & _ & _).
    exists (fun t => upd rho k t j), d. split; [ exact Hd | split; [ | split ] ].
    + intros t Ht. specialize (EG t Ht). destruct (G t); [ reflexivity | discriminate ].
    + unfold upd. destruct (Nat.eqb_spec j k) as [->|N]; reflexivity.
    + unfold upd. destruct (Nat.eqb j k); auto_derive; trivial; ring.
  - apply bind_some in E. destruct E as (x & Ex & E). apply (nth_error_val _ _ _ 0) in Ex. destruct Ex as [La Ex].
    apply (diff_at_ext (fun t => bind (bind (G t) (fun u => nth_error u a)) (sem1 o))).
    { intros t. destruct (G t); reflexivity. }
    eapply diff_at_comp; [ apply (diffs_nth _ _ _ _ _ D La) | ].
    apply diff_un_lun; [ now rewrite Ex | ]. destruct o; exact S.
  - apply bind_some in E. destruct E as (x & Ex & E). apply (nth_error_val _ _ _ 0) in Ex. destruct Ex as [La Ex].
    apply bind_some in E. destruct E as (z & Ez & E). apply (nth_error_val _ _ _ 0) in Ez. destruct Ez as [Lb Ez].
    apply (diff_at_ext (fun t => bind (bind (G t) (fun u => nth_error u a)) (fun x =>
       bind (bind (G t) (fun u => nth_error u b)) (fun y => sem2 o x y)))).
    { intros t. destruct (G t); reflexivity. }
    apply diff_bin.
    + intros ->. exact S.
    + intros ->. exact S.
    + now apply diffs_nth.
    + now apply diffs_nth.
    + now rewrite Ex, Ez.
  - apply bind_some in E. destruct E as (x & Ex & E). apply (nth_error_val _ _ _ 0) in Ex. destruct Ex as [La Ex].
    apply (diff_at_ext (fun t => bind (bind (G t) (fun u => nth_error u a)) (fun x => sempow x n))).
    { intros t. destruct (G t); reflexivity. }
    eapply (diff_at_comp _ (fun x => sempow x n)); [ apply (diffs_nth _ _ _ _ _ D La) | ].
    apply diff_powerRZ; [ now rewrite Ex | exact S ].
  - apply bind_some in E. destruct E as (x & Ex & E).
    apply bind_some in E. destruct E as (z & Ez & E). apply (nth_error_val _ _ _ 0) in Ez. destruct Ez as [Lb Ez].
    rewrite Ex. apply (nth_error_val _ _ _ 0) in Ex. destruct Ex as [_ Ex]. rewrite Ex.
    apply (diff_at_ext (fun t => bind (Some x) (fun x =>
       bind (bind (G t) (fun u => nth_error u a)) (fun y => sem2 o x y)))).
    { intros t. destruct (G t); reflexivity. }
    apply (diff_bin o (fun _ => Some x)).
    + intros ->. exact S.
    + intros ->. exact S.
    + apply diff_const.
    + now apply diffs_nth.
    + now rewrite Ez.
Qed.

(** Forward: all the temporaries are differentiable, with tangents as computed. *)
Lemma upd_same rho k : forall j, upd rho k (rho k) j = rho j.
Proof. intros j. unfold upd. destruct (Nat.eqb_spec j k) as [->|N]; reflexivity. Qed.

(** operands below [n] *)
Definition below (n : nat) (i : instr) : Prop :=
  match i with
  | ICst _ | IVar _ => True
  | IUn _ a | IPow a _ | IScal _ _ a => (a < n)%nat
  | IBin _ a b => (a < n)%nat /\ (b < n)%nat
  end.

Lemma smooth1_prefix w l i : below (length w) i -> smooth1 (w ++ l) i -> smooth1 w i.
Proof.
  destruct i as [m|j|o a|o a b|a n|o m a]; simpl; auto.
  - intros L. rewrite app_nth1 by exact L. auto.
  - intros L. rewrite app_nth1 by exact L. auto.
Qed.

Lemma tstep_app c k w l wd ld i : length wd = length w -> below (length w) i ->
  tstep c k (w ++ l) (wd ++ ld) i = tstep c k w wd i.
Proof.
  intros L. destruct i as [m|j|o a|o a b|a n|o m a]; simpl; auto.
  - intros B. rewrite !app_nth1 by lia. reflexivity.
  - intros [B1 B2]. rewrite !app_nth1 by lia. reflexivity.
  - intros B. rewrite !app_nth1 by lia. reflexivity.
  - intros B. rewrite !app_nth1 by lia. reflexivity.
Qed.

Lemma pt_step_below c rho w i y : pt_step c rho w i = Some y -> below (length w) i.
Proof.
  destruct i as [m|j|o a|o a b|a n|o m a]; simpl; auto; intros E.
  - apply bind_some in E. destruct E as (x & Ex & E). apply (nth_error_val _ _ _ 0) in Ex. tauto.
  - apply bind_some in E. destruct E as (x & Ex & E). apply (nth_error_val _ _ _ 0) in Ex.
    apply bind_some in E. destruct E as (z & Ez & E). apply (nth_error_val _ _ _ 0) in Ez. tauto.
  - apply bind_some in E. destruct E as (x & Ex & E). apply (nth_error_val _ _ _ 0) in Ex. tauto.
  - apply bind_some in E. destruct E as (x & Ex & E).
    apply bind_some in E. destruct E as (z & Ez & E). apply (nth_error_val _ _ _ 0) in Ez. tauto.
Qed.

Definition tangents (c : list R) (k : nat) (w wd : list R) (p : list instr) : Prop :=
  forall r i, nth_error p r = Some i -> nth r wd 0 = tstep c k w wd i /\ below r i.

Lemma below_mono n m i : (n <= m)%nat -> below n i -> below m i.
Proof. intros L. destruct i; simpl; lia || auto. Qed.

Lemma forward c rho k p : forall w, pt_values c rho p = Some w -> smooth w p ->
  exists wd, diffs (fun t => pt_values c (upd rho k t) p) (rho k) w wd /\ tangents c k w wd p.
Proof.
  induction p as [|i p IH] using rev_ind; intros w W S.
  - injection W as <-. exists []. split.
    + exists (fun _ => []), 1. split; [ lra | ]. split; [ auto | ]. split; [ reflexivity | ].
      split; [ reflexivity | ]. simpl. intros. lia.
    + intros r i E. now destruct r.
  - apply pt_values_snoc in W. destruct W as (u & y & Hu & Hy & ->).
    pose proof (pt_step_below _ _ _ _ _ Hy) as Bi.
    pose proof (pt_values_length _ _ _ _ Hu) as Lu.
    assert (Su : smooth u p).
    { intros j J. apply (In_nth_error) in J. destruct J as (r & J).
      assert (Lr : (r < length p)%nat) by (apply nth_error_Some; congruence).
      apply (smooth1_prefix u [y]).
      - pose proof (pt_values_step _ _ _ _ _ _ Hu J) as T. destruct j; simpl in T |- *; intuition lia.
      - apply S. apply in_or_app. left. eapply nth_error_In; eassumption. }
    destruct (IH u Hu Su) as (wd & D & T).
    assert (Si : smooth1 u i).
    { apply (smooth1_prefix u [y]); [ exact Bi | ]. apply S. apply in_or_app. right. now left. }
    pose proof D as (f0 & d0 & _ & _ & _ & Lwd & _).
    exists (wd ++ [tstep c k u wd i]). split.
    + pose proof (step_diff c rho k _ u wd i y D Si Hy) as Ds.
      pose proof (diffs_snoc _ (fun t v => pt_step c (upd rho k t) v i) _ _ _ _ _ D Ds) as Q.
      destruct Q as (f & d & Hd & E & R). exists f, d. split; [ exact Hd | ]. split; [ | exact R ].
      intros t Ht. unfold pt_values. rewrite pt_run_snoc. exact (E t Ht).
    + intros r j J. destruct (Nat.lt_ge_cases r (length p)) as [K|K].
      * rewrite nth_error_app1 in J by exact K. destruct (T r j J) as [Tj Bj].
        split; [ | exact Bj ]. rewrite app_nth1 by lia.
        rewrite tstep_app; [ exact Tj | exact Lwd | ]. eapply below_mono; [ | exact Bj ]. lia.
      * rewrite nth_error_app2 in J by exact K.
        destruct (r - length p)%nat as [|m] eqn:Z; [ | destruct m; discriminate ]. injection J as <-.
        replace r with (length u) by lia. split; [ | exact Bi ].
        rewrite app_nth2 by lia. rewrite Lwd, Nat.sub_diag. simpl.
        now rewrite tstep_app.
Qed.

(** ** Reverse sweep *)

Fixpoint dot (r : nat) (dv wd : list R) : R :=
  match r with O => 0 | S r => dot r dv wd + nth r dv 0 * nth r wd 0 end.

Lemma add_nth_length k d v : length (add_nth k d v) = length v.
Proof. revert k. induction v as [|b v IH]; intros [|k]; simpl; auto. Qed.
Lemma nth_add_nth_same k d v : (k < length v)%nat -> nth k (add_nth k d v) 0 = nth k v 0 + d.
Proof. revert k. induction v as [|b v IH]; intros [|k] L; simpl in *; try lia; auto. apply IH. lia. Qed.
Lemma nth_add_nth_other k j d v : j <> k -> nth j (add_nth k d v) 0 = nth j v 0.
Proof.
  revert k j. induction v as [|b v IH]; intros k j N; [ now destruct k | ].
  destruct k, j; simpl; auto; try lia. 
Qed.

Lemma dot_add_out r a d dv wd : (r <= a)%nat -> dot r (add_nth a d dv) wd = dot r dv wd.
Proof.
  induction r as [|r IH]; intros L; simpl; [ reflexivity | ].
  rewrite IH by lia. rewrite nth_add_nth_other by lia. reflexivity.
Qed.
Lemma dot_add r a d dv wd : (a < r)%nat -> (r <= length dv)%nat ->
  dot r (add_nth a d dv) wd = dot r dv wd + d * nth a wd 0.
Proof.
  induction r as [|r IH]; intros L L'; [ lia | ]. simpl.
  destruct (Nat.eq_dec a r) as [->|N].
  - rewrite dot_add_out, nth_add_nth_same by lia. ring.
  - rewrite IH, nth_add_nth_other by lia. ring.
Qed.

Lemma dot_init m wd : (0 < m)%nat -> dot m (repeat 0 (m - 1) ++ [1]) wd = nth (m - 1) wd 0.
Proof.
  intros L. destruct m as [|m]; [ lia | ]. simpl. rewrite Nat.sub_0_r.
  rewrite app_nth2, repeat_length, Nat.sub_diag by (rewrite repeat_length; lia). simpl.
  assert (Z : forall r, (r <= m)%nat -> dot r (repeat 0 m ++ [1]) wd = 0).
  { induction r as [|r IH]; intros Lr; simpl; [ reflexivity | ].
    rewrite IH by lia. rewrite app_nth1 by (rewrite repeat_length; lia).
    rewrite nth_repeat. ring. }
  rewrite Z by lia. ring.
Qed.

Lemma grad1_ok c k r i w wd dv df :
  (r < length dv)%nat -> (k < length df)%nat -> below r i -> smooth1 w i ->
  nth r wd 0 = tstep c k w wd i ->
  exists dv' df', grad1 c r i w dv df = Some (dv', df') /\
    length dv' = length dv /\ length df' = length df /\
    dot r dv' wd + nth k df' 0 = dot (S r) dv wd + nth k df 0.
Proof.
  intros Lr Lk B S T. simpl dot. rewrite T. unfold rd.
  destruct i as [m|j|o a|o a b|a n|o m a]; simpl in B, S; cbn [grad1 tstep].
  - exists dv, df. split; [ reflexivity | ]. repeat split; auto. ring.
  - exists dv, (add_nth j (nth r dv 0) df). split; [ reflexivity | ]. split; [ reflexivity | ].
    split; [ apply add_nth_length | ].
    destruct (Nat.eqb_spec j k) as [->|N].
    + rewrite nth_add_nth_same by exact Lk. ring.
    + rewrite nth_add_nth_other by lia. ring.
  - assert (N : o <> Abs) by (intros ->; exact S). unfold rd. rewrite d_un_lin by exact N.
    eexists _, _. split; [ reflexivity | ]. split; [ apply add_nth_length | ]. split; [ reflexivity | ].
    rewrite dot_add by lia. ring.
  - destruct B as [Ba Bb].
    destruct o; try contradiction; unfold rd;
      (eexists _, _; split; [ reflexivity | ]; split; [ now rewrite !add_nth_length | ];
       split; [ reflexivity | ]; rewrite !dot_add by (rewrite ?add_nth_length; lia); simpl; unfold Rdiv; ring).
  - unfold rd. eexists _, _. split; [ reflexivity | ]. split; [ apply add_nth_length | ]. split; [ reflexivity | ].
    rewrite dot_add by lia. ring.
  - destruct o; try contradiction; unfold rd;
      (eexists _, _; split; [ reflexivity | ]; split; [ now rewrite !add_nth_length | ];
       split; [ reflexivity | ]; rewrite !dot_add by (rewrite ?add_nth_length; lia); simpl; unfold Rdiv; ring).
Qed.

Lemma grad_loop_ok c k p w wd : smooth w p -> tangents c k w wd p ->
  forall r dv df, (r <= length p)%nat -> length dv = length p -> (k < length df)%nat ->
  exists g, grad_loop c p w r dv df = Some g /\ length g = length df /\
    nth k g 0 = dot r dv wd + nth k df 0.
Proof.
  intros S T. induction r as [|r IH]; intros dv df L Ld Lk; simpl.
  - exists df. split; [ reflexivity | ]. split; [ reflexivity | ring ].
  - destruct (nth_error p r) as [i|] eqn:E.
    2:{ apply nth_error_None in E. lia. }
    destruct (T r i E) as [Ti Bi].
    destruct (grad1_ok c k r i w wd dv df) as (dv' & df' & G & Ld' & Lf' & Q);
      [ lia | exact Lk | exact Bi | apply S; eapply nth_error_In; eassumption | exact Ti | ].
    rewrite G. destruct (IH dv' df') as (g & Hg & Lg & Eg); [ lia | lia | lia | ].
    exists g. split; [ exact Hg | ]. split; [ lia | ]. rewrite Eg. simpl in Q. exact Q.
Qed.

Theorem gradient_ok c rho p n w : pt_values c rho p = Some w -> p <> [] -> smooth w p -> 
  forall k, (k < n)%nat ->
  exists g, gradient c p w n = Some g /\ length g = n /\ proc_partial c p k rho (nth k g 0).
Proof.
  intros W NE S k K. destruct (forward c rho k p w W S) as (wd & D & T).
  assert (Lp : (0 < length p)%nat) by (destruct p; [ congruence | simpl; lia ]).
  unfold gradient.
  destruct (grad_loop_ok c k p w wd S T (length p) (repeat 0 (length p - 1) ++ [1]) (repeat 0 n))
    as (g & Hg & Lg & Eg).
  - lia.
  - rewrite app_length, repeat_length. simpl. lia.
  - now rewrite repeat_length.
  - exists g. split; [ exact Hg | ]. split; [ now rewrite repeat_length in Lg | ].
    rewrite Eg, dot_init, nth_repeat, Rplus_0_r by exact Lp.
    pose proof (pt_values_length _ _ _ _ W) as Lw.
    assert (Q : diff_at (fun t => pt_value c (upd rho k t) p) (rho k) (nth (length p - 1) w 0) (nth (length p - 1) wd 0)).
    { destruct D as (f & d & Hd & EG & Fx & Lwd & D).
      exists (fun t => nth (length p - 1) (f t) 0), d. split; [ exact Hd | split; [ | split ] ].
      - intros t Ht. unfold pt_value. destruct (EG t Ht) as [-> E]. simpl. rewrite E, Lw.
        apply nth_error_nth'. lia.
      - now rewrite Fx.
      - apply D. lia. }
    destruct Q as (f & d & Hd & E & Fx & Df). exists d. split; [ exact Hd | ]. split.
    + intros t Ht. rewrite E by exact Ht. discriminate.
    + intros h H. apply is_derive_Reals. apply (is_derive_ext_loc f); [ | exact Df ].
      exists (mkposreal d Hd). intros t Ht. unfold ball in Ht. simpl in Ht.
      unfold AbsRing_ball, abs, minus, plus, opp in Ht. simpl in Ht.
      symmetry. apply H; [ exact Ht | apply E; exact Ht ].
Qed.
