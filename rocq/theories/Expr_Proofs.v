(** Proofs about simplification, substitution, structural queries, predicates and
    common subexpressions. *)
From Coq Require Import ZArith List Bool Reals Lra Lia.
From Verif Require Import Logical_Model Expr_Model Expr_Spec.
Import ListNotations.
Open Scope R_scope.

Lemma uop_eqb_eq a b : uop_eqb a b = true -> a = b.
Proof. destruct a, b; simpl; congruence. Qed.
Lemma bop_eqb_eq a b : bop_eqb a b = true -> a = b.
Proof. destruct a, b; simpl; congruence. Qed.
Lemma uop_eqb_refl a : uop_eqb a a = true.
Proof. destruct a; reflexivity. Qed.
Lemma bop_eqb_refl a : bop_eqb a a = true.
Proof. destruct a; reflexivity. Qed.

Lemma bind_some {A B} (o : option A) (f : A -> option B) y :
  bind o f = Some y -> exists x, o = Some x /\ f x = Some y.
Proof. destruct o; simpl; intros E; [ eauto | discriminate ]. Qed.

Section Proofs.
Context {C : RealConst}.
Variable val : C -> R.
Notation ev := (eval val).

(** ** Identical expressions *)

Lemma identical_sound (CS : consts_sound val) ptr_eq (PS : ptr_sound ptr_eq) e1 :
  forall e2, identical ptr_eq e1 e2 = true -> forall rho, ev rho e1 = ev rho e2.
Proof.
  induction e1 as [c|v|o a IH|o a IHa b IHb|a IH n]; intros e2 H rho;
    simpl in H; apply orb_true_iff in H; destruct H as [H|H];
    try (apply PS in H; subst e2; reflexivity);
    destruct e2 as [c'|v'|o' a'|o' a' b'|a' n']; try discriminate.
  - simpl. now rewrite (cs_same _ CS _ _ H).
  - apply Nat.eqb_eq in H. now subst.
  - apply andb_true_iff in H as [H1 H2]. apply uop_eqb_eq in H1. subst.
    simpl. now rewrite (IH _ H2).
  - apply andb_true_iff in H as [H H3]. apply andb_true_iff in H as [H1 H2].
    apply bop_eqb_eq in H1. subst. simpl. now rewrite (IHa _ H2), (IHb _ H3).
  - apply andb_true_iff in H as [H1 H2]. apply Z.eqb_eq in H2. subst.
    simpl. now rewrite (IH _ H1).
Qed.

(** ** Simplification: termination *)

Lemma weight_pos (e : expr C) : (1 <= weight e)%nat.
Proof. destruct e; simpl; lia. Qed.

Lemma weight_mk1 o (e : expr C) : (weight (mk1 o e) <= 1 + weight e)%nat.
Proof. pose proof (weight_pos e). destruct o; simpl; lia. Qed.

Lemma weight_simp_un o (s : expr C) : (weight (simp_un o s) <= 1 + weight s)%nat.
Proof.
  pose proof (weight_mk1 o s) as W. pose proof (weight_pos s).
  unfold simp_un. destruct o; try lia;
    destruct s as [c|v|o' t|o' a b|a n]; try exact W; simpl in *; try lia;
    destruct (are_inverses _ o'); simpl in *; lia.
Qed.

Lemma simp_total ptr_eq : forall k (e : expr C), (weight e <= k)%nat ->
  exists s, simp ptr_eq k e = Some s /\ (weight s <= weight e)%nat.
Proof.
  induction k as [|k IH]; intros e W; [ pose proof (weight_pos e); lia | ].
  destruct e as [c|v|o a|o a b|a n]; simpl in W |- *.
  - eauto.
  - eauto.
  - destruct (IH a) as (s & E & Ws); [ lia | ]. rewrite E.
    eexists; split; [ reflexivity | ]. pose proof (weight_simp_un o s). lia.
  - destruct (IH a) as (s & E & Ws); [ lia | ]. destruct (IH b) as (t & F & Wt); [ lia | ].
    rewrite E, F. pose proof (weight_pos a). pose proof (weight_pos b).
    assert (A : forall x, (weight x <= 1 + weight t)%nat ->
      exists u, simp ptr_eq k x = Some u /\ (weight u <= S (weight a + weight b))%nat).
    { intros x Wx. destruct (IH x) as (u & Eu & Wu); [ lia | ].
      exists u. split; [ exact Eu | lia ]. }
    destruct o;
      repeat match goal with |- context [if ?c then _ else _] => destruct c end;
      try (eexists; split; [ reflexivity | simpl; lia ]);
      apply A; simpl; lia.
  - destruct (IH a) as (s & E & Ws); [ lia | ]. rewrite E.
    pose proof (weight_pos a). pose proof (weight_pos s).
    assert (A : forall x, (weight x <= 1 + weight s)%nat ->
      exists u, simp ptr_eq k x = Some u /\ (weight u <= S (S (weight a)))%nat).
    { intros x Wx. destruct (IH x) as (u & Eu & Wu); [ lia | ].
      exists u. split; [ exact Eu | lia ]. }
    destruct n as [|[p|[p|p|]|]|[p|p|]];
      try (eexists; split; [ reflexivity | simpl; lia ]);
      apply A; simpl; lia.
Qed.

Lemma simplify_total ptr_eq (e : expr C) : exists s, simplify ptr_eq e = Some s.
Proof. destruct (simp_total ptr_eq (weight e) e) as (s & E & _); eauto. Qed.

Lemma simp_more ptr_eq : forall k (e s : expr C), simp ptr_eq k e = Some s ->
  forall k', (k <= k')%nat -> simp ptr_eq k' e = Some s.
Proof.
  induction k as [|k IH]; intros e s H k' L; [ discriminate | ].
  destruct k' as [|k']; [ lia | ]. assert (L' : (k <= k')%nat) by lia.
  destruct e as [c|v|o a|o a b|a n]; simpl in H |- *; try exact H.
  - destruct (simp ptr_eq k a) as [t|] eqn:E; [ | discriminate ].
    now rewrite (IH _ _ E _ L').
  - destruct (simp ptr_eq k a) as [t|] eqn:E; [ | discriminate ].
    destruct (simp ptr_eq k b) as [u|] eqn:F; [ | discriminate ].
    rewrite (IH _ _ E _ L'), (IH _ _ F _ L').
    destruct o; try exact H;
      repeat match goal with |- context [if ?c then _ else _] => destruct c end;
      try exact H; apply IH; assumption.
  - destruct (simp ptr_eq k a) as [t|] eqn:E; [ | discriminate ].
    rewrite (IH _ _ E _ L').
    destruct n as [|[p|[p|p|]|]|[p|p|]]; try exact H; apply IH; assumption.
Qed.

(** ** Simplification: values *)

(** Node predicates kept by simplification, strong enough for the two
    cancellations that are not always right. *)
Record stable (rho : valuation) (P : expr C -> Prop) : Prop := {
  st_cst : forall c, P (Cst c);
  st_un : forall o a a' x, P (Un o a) -> ev rho a = Some x -> ev rho a' = Some x -> P (Un o a');
  st_bin : forall o a b a' b', P (Bin o a b) -> P (Bin o a' b');
  st_pow : forall a a' n x, P (Powr a n) -> ev rho a = Some x -> ev rho a' = Some x -> P (Powr a' n);
  st_sqr : forall a x, P (Powr a 2) -> ev rho a = Some x -> P (Un Sqr a);
  st_neg : forall a, P (Un Neg a);
  st_rec : forall a, P (Un Rec a);
  st_sqrt_sqr : forall s t x, P (Un Sqrt s) -> P (Un Sqr t) -> ev rho t = Some x -> 0 <= x;
  st_atan_tan : forall s t x, P (Un Atan s) -> P (Un Tan t) -> ev rho t = Some x ->
                -PI/2 < x < PI/2
}.

Lemma each_root (P : expr C -> Prop) e : each_node P e -> P e.
Proof. destruct e; simpl; tauto. Qed.

Lemma simp_un_ok (CS : consts_sound val) rho P (ST : stable rho P) o s y :
  ev rho (Un o s) = Some y -> P (Un o s) -> each_node P s ->
  ev rho (simp_un o s) = Some y /\ each_node P (simp_un o s).
Proof.
  intros E Po Ps. pose proof E as E0. simpl in E. apply bind_some in E as (x & Es & E).
  assert (M : ev rho (mk1 o s) = Some y /\ each_node P (mk1 o s)).
  { destruct o; simpl mk1; try (split; [ exact E0 | simpl; auto ]; fail).
    simpl. rewrite (cs_int _ CS). simpl in E. split; [ exact E | ].
    split; [ apply (st_cst _ _ ST) | exact I ]. }
  assert (K : forall c, s = Cst c -> ev rho (Cst (rc_un C o c)) = Some y /\ each_node P (Cst (rc_un C o c))).
  { intros c ->. simpl in Es. injection Es as <-. simpl. split.
    - now rewrite (cs_un _ CS _ _ _ E).
    - split; [ apply (st_cst _ _ ST) | exact I ]. }
  assert (I : forall o' t, s = Un o' t -> are_inverses o o' = true ->
    ev rho t = Some y /\ each_node P t).
  { intros o' t -> HI. pose proof (each_root _ _ Ps) as Pt. destruct Ps as [_ Ps].
    split; [ | exact Ps ].
    simpl in Es. apply bind_some in Es as (z & Et & Ez). rewrite Et. f_equal.
    unfold are_inverses in HI. destruct o; simpl in HI; try discriminate;
      destruct o'; try discriminate; simpl in Ez, E.
    - congruence.
    - injection Ez as <-. injection E as <-. ring.
    - (* sqr (sqrt z) *) destruct (Rle_dec 0 z); [ | discriminate ].
      injection Ez as <-. injection E as <-. symmetry. now apply sqrt_sqrt.
    - destruct (Req_EM_T z 0); [ discriminate | ]. injection Ez as <-.
      destruct (Req_EM_T (/ z) 0); [ discriminate | ]. injection E as <-.
      symmetry. apply Rinv_inv.
    - (* sqrt (sqr z) *) injection Ez as <-. destruct (Rle_dec 0 (z * z)); [ | discriminate ].
      injection E as <-. symmetry. apply sqrt_square.
      eapply (st_sqrt_sqr _ _ ST); eassumption.
    - destruct (Rlt_dec 0 z); [ | discriminate ]. injection Ez as <-. injection E as <-.
      symmetry. now apply exp_ln.
    - injection Ez as <-. destruct (Rlt_dec 0 (exp z)); [ | discriminate ].
      injection E as <-. symmetry. apply ln_exp.
    - injection Ez as <-. destruct (Req_EM_T (cos (atan z)) 0); [ discriminate | ].
      injection E as <-. symmetry. apply tan_atan.
    - destruct (Req_EM_T (cos z) 0); [ discriminate | ]. injection Ez as <-. injection E as <-.
      symmetry. apply atan_tan.
      pose proof (st_atan_tan _ _ ST _ _ _ Po Pt Et). lra. }
  assert (G : forall o' t, s = Un o' t ->
    ev rho (if are_inverses o o' then t else mk1 o s) = Some y /\
    each_node P (if are_inverses o o' then t else mk1 o s)).
  { intros o' t Hs. destruct (are_inverses o o') eqn:HI; [ exact (I _ _ Hs HI) | exact M ]. }
  unfold simp_un. destruct o; try (destruct s; [ apply K; reflexivity | exact M
    | apply G; reflexivity | exact M | exact M ]; fail).
  simpl in E. rewrite Es, E. split; [ reflexivity | exact Ps ].
Qed.

Lemma is_constant_val (CS : consts_sound val) rho (e : expr C) z :
  is_constant e z = true -> ev rho e = Some (IZR z).
Proof. destruct e; simpl; try discriminate. intros H. now rewrite (cs_is _ CS _ _ H). Qed.

Lemma simp_ok (CS : consts_sound val) ptr_eq (PS : ptr_sound ptr_eq) rho P (ST : stable rho P) :
  forall k e s y, simp ptr_eq k e = Some s -> ev rho e = Some y -> each_node P e ->
  ev rho s = Some y /\ each_node P s.
Proof.
  induction k as [|k IH]; intros e s y H E N; [ discriminate | ].
  assert (NUM : forall z, each_node P (num z : expr C)).
  { intros z. simpl. split; [ apply (st_cst _ _ ST) | exact I ]. }
  assert (VNUM : forall z, ev rho (num z : expr C) = Some (IZR z)).
  { intros z. simpl. now rewrite (cs_int _ CS). }
  destruct e as [c|v|o a|o a b|a n].
  - simpl in H. injection H as <-. auto.
  - simpl in H. injection H as <-. auto.
  - simpl in H. destruct (simp ptr_eq k a) as [t|] eqn:F; [ | discriminate ].
    injection H as <-. simpl in E. apply bind_some in E as (x & Ea & E).
    destruct N as [Nr Na]. destruct (IH _ _ _ F Ea Na) as [Et Nt].
    apply simp_un_ok; auto.
    + simpl. now rewrite Et.
    + eapply (st_un _ _ ST); eassumption.
  - simpl in H. destruct (simp ptr_eq k a) as [e1|] eqn:F; [ | discriminate ].
    destruct (simp ptr_eq k b) as [e2|] eqn:G; [ | discriminate ].
    simpl in E. apply bind_some in E as (x1 & Ea & E). apply bind_some in E as (x2 & Eb & E).
    destruct N as (Nr & Na & Nb).
    destruct (IH _ _ _ F Ea Na) as [E1 N1]. destruct (IH _ _ _ G Eb Nb) as [E2 N2].
    assert (B : ev rho (Bin o e1 e2) = Some y /\ each_node P (Bin o e1 e2)).
    { split; [ simpl; rewrite E1; simpl; rewrite E2; exact E | ].
      simpl. repeat split; auto. eapply (st_bin _ _ ST); eassumption. }
    assert (C1 : forall z, is_constant e1 z = true -> x1 = IZR z).
    { intros z HC. apply (is_constant_val CS rho) in HC. congruence. }
    assert (C2 : forall z, is_constant e2 z = true -> x2 = IZR z).
    { intros z HC. apply (is_constant_val CS rho) in HC. congruence. }
    destruct o; simpl in E.
    + injection E as <-.
      destruct (is_constant e1 0) eqn:K1.
      { injection H as <-. rewrite (C1 _ K1), Rplus_0_l. auto. }
      destruct (is_constant e2 0) eqn:K2.
      { injection H as <-. rewrite (C2 _ K2), Rplus_0_r. auto. }
      injection H as <-. exact B.
    + injection E as <-.
      destruct (is_constant e1 0) eqn:K1.
      { eapply IH; [ exact H | | ].
        - simpl. rewrite E2. simpl. f_equal. rewrite (C1 _ K1). ring.
        - simpl. split; [ apply (st_neg _ _ ST) | exact N2 ]. }
      destruct (is_constant e2 0) eqn:K2.
      { injection H as <-. rewrite (C2 _ K2), Rminus_0_r. auto. }
      destruct (identical ptr_eq e1 e2) eqn:K3.
      { injection H as <-. pose proof (identical_sound CS _ PS _ _ K3 rho) as Q.
        rewrite E1, E2 in Q. injection Q as ->. rewrite VNUM. split; [ f_equal; ring | apply NUM ]. }
      injection H as <-. exact B.
    + injection E as <-.
      destruct (is_constant e1 0) eqn:K1; simpl in H.
      { injection H as <-. rewrite E1. rewrite (C1 _ K1). split; [ f_equal; ring | auto ]. }
      destruct (is_constant e2 1) eqn:K2; simpl in H.
      { injection H as <-. rewrite E1. rewrite (C2 _ K2). split; [ f_equal; ring | auto ]. }
      destruct (is_constant e2 0) eqn:K3; simpl in H.
      { injection H as <-. rewrite E2. rewrite (C2 _ K3). split; [ f_equal; ring | auto ]. }
      destruct (is_constant e1 1) eqn:K4; simpl in H.
      { injection H as <-. rewrite E2. rewrite (C1 _ K4). split; [ f_equal; ring | auto ]. }
      injection H as <-. exact B.
    + destruct (Req_EM_T x2 0) as [Z|Z]; [ discriminate | ]. injection E as <-.
      destruct (is_constant e1 0) eqn:K1; simpl in H.
      { injection H as <-. rewrite E1. rewrite (C1 _ K1). split; [ f_equal; field; auto | auto ]. }
      destruct (is_constant e2 1) eqn:K2; simpl in H.
      { injection H as <-. rewrite E1. rewrite (C2 _ K2). split; [ f_equal; field | auto ]. }
      destruct (is_constant e1 1) eqn:K4; simpl in H.
      { eapply IH; [ exact H | | ].
        - simpl. rewrite E2. simpl. destruct (Req_EM_T x2 0); [ contradiction | ].
          f_equal. rewrite (C1 _ K4). field. auto.
        - simpl. split; [ apply (st_rec _ _ ST) | exact N2 ]. }
      destruct (identical ptr_eq e1 e2) eqn:K3.
      { injection H as <-. pose proof (identical_sound CS _ PS _ _ K3 rho) as Q.
        rewrite E1, E2 in Q. injection Q as ->. rewrite VNUM. split; [ f_equal; field; auto | apply NUM ]. }
      injection H as <-. exact B.
    + injection H as <-. exact B.
    + injection H as <-. exact B.
  - simpl in H. destruct (simp ptr_eq k a) as [t|] eqn:F; [ | discriminate ].
    simpl in E. apply bind_some in E as (x & Ea & E).
    destruct N as [Nr Na]. destruct (IH _ _ _ F Ea Na) as [Et Nt].
    assert (B : ev rho (Powr t n) = Some y /\ each_node P (Powr t n)).
    { split; [ simpl; rewrite Et; exact E | ].
      simpl. split; auto. eapply (st_pow _ _ ST); eassumption. }
    destruct n as [|[p|[p|p|]|]|[p|p|]]; try (injection H as <-; exact B).
    + injection H as <-. simpl in E. injection E as <-. rewrite VNUM. split; [ reflexivity | apply NUM ].
    + eapply IH; [ exact H | | ].
      * simpl. rewrite Et. simpl. unfold sempow in E. simpl in E. injection E as <-. f_equal. ring.
      * simpl. split; [ | exact Nt ].
        eapply (st_sqr _ _ ST); [ | exact Et ]. eapply (st_pow _ _ ST); eassumption.
    + injection H as <-. unfold sempow in E. simpl in E. injection E as <-.
      rewrite Et. split; [ f_equal; ring | exact Nt ].
    + eapply IH; [ exact H | | ].
      * simpl. rewrite Et. simpl. unfold sempow in E. simpl in E.
        destruct (Req_EM_T x 0); [ discriminate | ]. injection E as <-. f_equal. f_equal. ring.
      * simpl. split; [ apply (st_rec _ _ ST) | exact Nt ].
Qed.

(** The four ways of excluding the wrong cancellations. *)
Definition sq_node (strict : bool) (rho : valuation) (e : expr C) : Prop :=
  if strict then match e with Un o' _ => o' <> Sqrt | _ => True end
  else match e with
       | Un Sqr a => forall x, ev rho a = Some x -> 0 <= x
       | Powr a 2 => forall x, ev rho a = Some x -> 0 <= x
       | _ => True end.
Definition tn_node (strict : bool) (rho : valuation) (e : expr C) : Prop :=
  if strict then match e with Un o' _ => o' <> Atan | _ => True end
  else match e with
       | Un Tan a => forall x, ev rho a = Some x -> - PI / 2 < x < PI / 2
       | _ => True end.

Lemma stable_nodes b1 b2 rho : stable rho (fun e => sq_node b1 rho e /\ tn_node b2 rho e).
Proof.
  split; unfold sq_node, tn_node.
  - intros c. destruct b1, b2; simpl; auto.
  - intros o a a' x [H1 H2] Ea Ea'. split.
    + destruct b1; [ exact H1 | ]. destruct o; auto. intros z Ez. apply H1. congruence.
    + destruct b2; [ exact H2 | ]. destruct o; auto. intros z Ez. apply H2. congruence.
  - intros o a b a' b' _. destruct b1, b2; simpl; auto.
  - intros a a' n x [H1 _] Ea Ea'. split.
    + destruct b1; [ exact H1 | ]. destruct n as [|[p|[p|p|]|]|p]; auto.
      intros z Ez. apply H1. congruence.
    + destruct b2; exact I.
  - intros a x [H1 _] Ea. split; [ destruct b1; [ discriminate | exact H1 ] | ].
    destruct b2; [ discriminate | exact I ].
  - intros a. split; [ destruct b1 | destruct b2 ]; try exact I; discriminate.
  - intros a. split; [ destruct b1 | destruct b2 ]; try exact I; discriminate.
  - intros s t x [H1 _] [H2 _] Et. destruct b1; [ congruence | auto ].
  - intros s t x [_ H1] [_ H2] Et. destruct b2; [ congruence | auto ].
Qed.

Lemma each_node_and (P Q : expr C -> Prop) e :
  each_node P e -> each_node Q e -> each_node (fun x => P x /\ Q x) e.
Proof. induction e; simpl; tauto. Qed.

Lemma simplify_value (CS : consts_sound val) ptr_eq (PS : ptr_sound ptr_eq) rho e s y :
  (without_un Sqrt e \/ squares_nonneg val rho e) ->
  (without_un Atan e \/ tangents_principal val rho e) ->
  simplify ptr_eq e = Some s -> ev rho e = Some y -> ev rho s = Some y.
Proof.
  intros H1 H2 S E.
  assert (Q1 : exists b1, each_node (sq_node b1 rho) e).
  { destruct H1 as [H|H]; [ exists true | exists false ]; exact H. }
  assert (Q2 : exists b2, each_node (tn_node b2 rho) e).
  { destruct H2 as [H|H]; [ exists true | exists false ]; exact H. }
  destruct Q1 as [b1 Q1], Q2 as [b2 Q2].
  eapply (simp_ok CS _ PS rho _ (stable_nodes b1 b2 rho)); [ exact S | exact E | ].
  now apply each_node_and.
Qed.

(** ** Variables of a simplified expression *)

Lemma args_mk1 o (s : expr C) w : In w (arguments (mk1 o s)) -> In w (arguments s).
Proof. destruct o; simpl; tauto. Qed.

Lemma args_simp_un o (s : expr C) w : In w (arguments (simp_un o s)) -> In w (arguments s).
Proof.
  assert (G : forall o' t, s = Un o' t ->
    In w (arguments (if are_inverses o o' then t else mk1 o s)) -> In w (arguments s)).
  { intros o' t -> H. destruct (are_inverses o o'); [ exact H | now apply args_mk1 in H ]. }
  pose proof (args_mk1 o s w) as M. unfold simp_un.
  destruct o; try (destruct s; [ exact (fun H => H) | exact M | apply (G _ _ eq_refl) | exact M | exact M ]; fail).
  auto.
Qed.

Lemma args_simp ptr_eq : forall k (e s : expr C), simp ptr_eq k e = Some s ->
  forall w, In w (arguments s) -> In w (arguments e).
Proof.
  induction k as [|k IH]; intros e s H w Hw; [ discriminate | ].
  destruct e as [c|v|o a|o a b|a n]; simpl in H |- *.
  - injection H as <-. exact Hw.
  - injection H as <-. exact Hw.
  - destruct (simp ptr_eq k a) as [t|] eqn:F; [ | discriminate ]. injection H as <-.
    apply args_simp_un in Hw. eauto.
  - destruct (simp ptr_eq k a) as [e1|] eqn:F; [ | discriminate ].
    destruct (simp ptr_eq k b) as [e2|] eqn:G; [ | discriminate ].
    apply in_or_app.
    assert (L : In w (arguments e1) -> In w (arguments a)) by eauto.
    assert (M : In w (arguments e2) -> In w (arguments b)) by eauto.
    assert (B : forall o', In w (arguments (Bin o' e1 e2)) -> In w (arguments a) \/ In w (arguments b)).
    { intros o' HB. simpl in HB. apply in_app_or in HB. tauto. }
    assert (U : forall o' t, simp ptr_eq k (Un o' e2) = Some t -> In w (arguments t) -> In w (arguments a) \/ In w (arguments b)).
    { intros o' t Ht Hw'. apply (IH _ _ Ht) in Hw'. simpl in Hw'. tauto. }
    destruct o;
      repeat match type of H with context [if ?c then _ else _] => destruct c end;
      try (injection H as <-; solve [ eauto | simpl in Hw; tauto ]); eauto.
  - destruct (simp ptr_eq k a) as [t|] eqn:F; [ | discriminate ].
    assert (L : In w (arguments t) -> In w (arguments a)) by eauto.
    assert (U : forall o' u, simp ptr_eq k (Un o' t) = Some u -> In w (arguments u) -> In w (arguments a)).
    { intros o' u Ht Hw'. apply (IH _ _ Ht) in Hw'. simpl in Hw'. tauto. }
    destruct n as [|[p|[p|p|]|]|[p|p|]];
      try (injection H as <-; simpl in Hw; tauto); eauto.
Qed.

(** ** Substitution *)

Lemma eval_mk1 (CS : consts_sound val) rho o (e : expr C) y :
  ev rho (Un o e) = Some y -> ev rho (mk1 o e) = Some y.
Proof.
  destruct o; simpl mk1; auto. simpl. rewrite (cs_int _ CS).
  destruct (ev rho e); simpl; [ auto | discriminate ].
Qed.

Lemma eval_mk1_total rho o (e : expr C) : o <> Nul -> ev rho (mk1 o e) = ev rho (Un o e).
Proof. destruct o; simpl mk1; auto; congruence. Qed.

Lemma eval_ext rho rho' (e : expr C) :
  (forall v, In v (arguments e) -> rho' v = rho v) -> ev rho' e = ev rho e.
Proof.
  induction e as [c|v|o a IH|o a IHa b IHb|a IH n]; simpl; intros H; auto.
  - now rewrite H by auto.
  - now rewrite IH.
  - rewrite IHa, IHb; auto; intros v Hv; apply H; apply in_or_app; auto.
  - now rewrite IH.
Qed.

Lemma subst_value (CS : consts_sound val) rho (e : expr C) v s x y :
  ev rho s = Some x -> ev (upd rho v x) e = Some y -> ev rho (subst e v s) = Some y.
Proof.
  intros Es. revert y.
  induction e as [c|w|o a IH|o a IHa b IHb|a IH n]; simpl; intros y E; auto.
  - unfold upd in E. destruct (Nat.eqb w v); [ congruence | exact E ].
  - apply bind_some in E as (z & Ea & E). apply eval_mk1; auto. simpl. rewrite (IH _ Ea). exact E.
  - apply bind_some in E as (z & Ea & E). apply bind_some in E as (z' & Eb & E).
    rewrite (IHa _ Ea). simpl. rewrite (IHb _ Eb). exact E.
  - apply bind_some in E as (z & Ea & E). rewrite (IH _ Ea). exact E.
Qed.

Lemma subst_value_inv rho (e : expr C) v s x :
  ev rho s = Some x -> each_node (fun e => match e with Un Nul _ => False | _ => True end) e ->
  ev rho (subst e v s) = ev (upd rho v x) e.
Proof.
  intros Es.
  induction e as [c|w|o a IH|o a IHa b IHb|a IH n]; simpl; intros N; auto.
  - unfold upd. destruct (Nat.eqb w v); [ congruence | reflexivity ].
  - destruct N as [N1 N2]. rewrite eval_mk1_total by (intros ->; exact N1).
    simpl. now rewrite IH.
  - destruct N as (_ & N1 & N2). now rewrite IHa, IHb.
  - destruct N as (_ & N1). now rewrite IH.
Qed.

Lemma subst_not_arg (e : expr C) v s : ~ In v (arguments e) ->
  each_node (fun e => match e with Un Nul _ => False | _ => True end) e -> subst e v s = e.
Proof.
  induction e as [c|w|o a IH|o a IHa b IHb|a IH n]; simpl; intros H N; auto.
  - destruct (Nat.eqb_spec w v); [ subst; tauto | reflexivity ].
  - destruct N as [N1 N2]. rewrite IH by auto. destruct o; simpl; auto; contradiction.
  - destruct N as (_ & N1 & N2). rewrite IHa, IHb; auto; intros HI; apply H; apply in_or_app; auto.
  - destruct N as (_ & N1). now rewrite IH.
Qed.

Lemma subst_arguments (e : expr C) v s w :
  In w (arguments (subst e v s)) -> (In w (arguments e) /\ w <> v) \/ In w (arguments s).
Proof.
  induction e as [c|u|o a IH|o a IHa b IHb|a IH n]; simpl; intros H; try tauto.
  - destruct (Nat.eqb_spec u v); [ auto | ]. simpl in H. destruct H as [<-|[]]. left. auto.
  - destruct o; simpl in H; tauto.
  - apply in_app_or in H. destruct H as [H|H]; [ apply IHa in H | apply IHb in H ];
      destruct H as [[H1 H2]|H]; auto; left; split; auto; apply in_or_app; auto.
Qed.

(** ** Structural queries *)

Lemma mem_in v vars : mem v vars = true <-> In v vars.
Proof.
  unfold mem. rewrite existsb_exists. split.
  - intros (x & H & E). apply Nat.eqb_eq in E. now subst.
  - intros H. exists v. split; [ exact H | apply Nat.eqb_refl ].
Qed.

Lemma constant_ok (e : expr C) vars : is_constant_in e vars = true -> constant_fn val e vars.
Proof.
  unfold constant_fn.
  induction e as [c|v|o a IH|o a IHa b IHb|a IH n]; simpl; intros H rho.
  - exists (val c). intros rho' x _ E. congruence.
  - exists (rho v). intros rho' x V E. injection E as <-. apply V.
    intros HI. apply mem_in in HI. rewrite HI in H. discriminate.
  - destruct (IH H rho) as [k K]. exists (match sem1 o k with Some y => y | None => 0 end).
    intros rho' x V E. apply bind_some in E as (z & Ea & E).
    rewrite (K _ _ V Ea) in E. now rewrite E.
  - apply andb_true_iff in H as [H1 H2].
    destruct (IHa H1 rho) as [k K]. destruct (IHb H2 rho) as [l L].
    exists (match sem2 o k l with Some y => y | None => 0 end).
    intros rho' x V E. apply bind_some in E as (z & Ea & E). apply bind_some in E as (z' & Eb & E).
    rewrite (K _ _ V Ea), (L _ _ V Eb) in E. now rewrite E.
  - apply orb_true_iff in H as [H|H].
    + apply Z.eqb_eq in H. subst n. exists 1. intros rho' x V E.
      apply bind_some in E as (z & Ea & E). unfold sempow in E. simpl in E. congruence.
    + destruct (IH H rho) as [k K]. exists (match sempow k n with Some y => y | None => 0 end).
      intros rho' x V E. apply bind_some in E as (z & Ea & E).
      rewrite (K _ _ V Ea) in E. now rewrite E.
Qed.

Lemma lin_zero vars rho : lin (fun _ => 0) vars rho = 0.
Proof. induction vars as [|v r IH]; simpl; [ reflexivity | rewrite IH; ring ]. Qed.
Lemma lin_add a b vars rho : lin (fun v => a v + b v) vars rho = lin a vars rho + lin b vars rho.
Proof. induction vars as [|v r IH]; simpl; [ ring | rewrite IH; ring ]. Qed.
Lemma lin_scal c a vars rho : lin (fun v => c * a v) vars rho = c * lin a vars rho.
Proof. induction vars as [|v r IH]; simpl; [ ring | rewrite IH; ring ]. Qed.
Lemma lin_notin v vars rho : ~ In v vars -> lin (fun w => if Nat.eqb w v then 1 else 0) vars rho = 0.
Proof.
  induction vars as [|u r IH]; simpl; intros H; [ reflexivity | ].
  destruct (Nat.eqb_spec u v); [ subst; tauto | ]. rewrite IH by tauto. ring.
Qed.
Lemma lin_unit v vars rho : NoDup vars -> In v vars ->
  lin (fun w => if Nat.eqb w v then 1 else 0) vars rho = rho v.
Proof.
  induction 1 as [|u r Hu N IH]; simpl; intros H; [ contradiction | ].
  destruct (Nat.eqb_spec u v).
  - subst u. rewrite lin_notin by assumption. ring.
  - destruct H as [H|H]; [ congruence | ]. rewrite IH by assumption. ring.
Qed.

Lemma const_affine (e : expr C) vars : constant_fn val e vars -> affine_fn val e vars.
Proof.
  intros H rho. destruct (H rho) as [k K]. exists k, (fun _ => 0). intros rho' x V E.
  rewrite lin_zero, Rplus_0_r. eauto.
Qed.

Lemma affine_ok (e : expr C) vars (ND : NoDup vars) :
  is_affine_in e vars = true -> affine_fn val e vars.
Proof.
  induction e as [c|v|o a IH|o a IHa b IHb|a IH n]; simpl; intros H.
  - apply const_affine, constant_ok. reflexivity.
  - intros rho. destruct (in_dec Nat.eq_dec v vars) as [I|I].
    + exists 0, (fun w => if Nat.eqb w v then 1 else 0). intros rho' x V E. simpl in E. injection E as <-.
      rewrite lin_unit by assumption. ring.
    + exists (rho v), (fun _ => 0). intros rho' x V E. simpl in E. injection E as <-.
      rewrite lin_zero. rewrite (V _ I). ring.
  - assert (SC : forall c, (forall x, sem1 o x = Some (c * x)) -> is_affine_in a vars = true ->
      affine_fn val (Un o a) vars).
    { intros c HC HA rho. destruct (IH HA rho) as (k & l & K).
      exists (c * k), (fun v => c * l v). intros rho' x V E. simpl in E.
      apply bind_some in E as (z & Ea & E). rewrite HC in E. injection E as <-.
      rewrite lin_scal, (K _ _ V Ea). ring. }
    destruct o; try (apply const_affine, constant_ok; exact H).
    + intros rho. exists 0, (fun _ => 0). intros rho' x V E. simpl in E.
      apply bind_some in E as (z & Ea & E). simpl in E. injection E as <-. rewrite lin_zero. ring.
    + apply (SC 1); [ intros x; simpl; f_equal; ring | exact H ].
    + apply (SC (-1)); [ intros x; simpl; f_equal; ring | exact H ].
    + apply (SC (/ 2)); [ intros x; simpl; f_equal; field | exact H ].
  - destruct o.
    + apply andb_true_iff in H as [H1 H2]. intros rho.
      destruct (IHa H1 rho) as (k & l & K). destruct (IHb H2 rho) as (k' & l' & K').
      exists (k + k'), (fun v => l v + l' v). intros rho' x V E. simpl in E.
      apply bind_some in E as (z & Ea & E). apply bind_some in E as (z' & Eb & E).
      simpl in E. injection E as <-. rewrite lin_add, (K _ _ V Ea), (K' _ _ V Eb). ring.
    + apply andb_true_iff in H as [H1 H2]. intros rho.
      destruct (IHa H1 rho) as (k & l & K). destruct (IHb H2 rho) as (k' & l' & K').
      exists (k - k'), (fun v => l v + -1 * l' v). intros rho' x V E. simpl in E.
      apply bind_some in E as (z & Ea & E). apply bind_some in E as (z' & Eb & E).
      simpl in E. injection E as <-. rewrite lin_add, lin_scal, (K _ _ V Ea), (K' _ _ V Eb). ring.
    + apply orb_true_iff in H as [H|H]; apply andb_true_iff in H as [H1 H2]; intros rho.
      * destruct (IHa H1 rho) as (k & l & K). destruct (constant_ok _ _ H2 rho) as (k' & K').
        exists (k' * k), (fun v => k' * l v). intros rho' x V E. simpl in E.
        apply bind_some in E as (z & Ea & E). apply bind_some in E as (z' & Eb & E).
        simpl in E. injection E as <-. rewrite lin_scal, (K _ _ V Ea), (K' _ _ V Eb). ring.
      * destruct (IHb H2 rho) as (k & l & K). destruct (constant_ok _ _ H1 rho) as (k' & K').
        exists (k' * k), (fun v => k' * l v). intros rho' x V E. simpl in E.
        apply bind_some in E as (z & Ea & E). apply bind_some in E as (z' & Eb & E).
        simpl in E. injection E as <-. rewrite lin_scal, (K _ _ V Eb), (K' _ _ V Ea). ring.
    + apply andb_true_iff in H as [H1 H2]. intros rho.
      destruct (IHa H1 rho) as (k & l & K). destruct (constant_ok _ _ H2 rho) as (k' & K').
      exists (/ k' * k), (fun v => / k' * l v). intros rho' x V E. simpl in E.
      apply bind_some in E as (z & Ea & E). apply bind_some in E as (z' & Eb & E).
      simpl in E. destruct (Req_EM_T z' 0) as [Z|Z]; [ discriminate | ]. injection E as <-.
      rewrite lin_scal, (K _ _ V Ea). rewrite (K' _ _ V Eb) in Z |- *. field. exact Z.
    + apply const_affine, constant_ok. exact H.
    + apply const_affine, constant_ok. exact H.
  - apply orb_true_iff in H as [H|H].
    + apply orb_true_iff in H as [H|H].
      * apply const_affine, constant_ok. simpl. now rewrite H.
      * apply andb_true_iff in H as [H1 H2]. apply Z.eqb_eq in H1. subst n.
        intros rho. destruct (IH H2 rho) as (k & l & K). exists k, l. intros rho' x V E.
        simpl in E. apply bind_some in E as (z & Ea & E). unfold sempow in E. simpl in E.
        injection E as <-. rewrite Rmult_1_r. eauto.
    + apply const_affine, constant_ok. simpl. rewrite H. apply orb_true_r.
Qed.

Lemma const_polynomial (e : expr C) vars : constant_fn val e vars -> polynomial_fn val e vars.
Proof.
  intros H rho. destruct (H rho) as [k K]. exists (fun _ => k). split; [ constructor | ].
  intros rho' x V E. eauto.
Qed.

Lemma polyfun_pow vars p n : polyfun vars p -> polyfun vars (fun rho => p rho ^ n).
Proof.
  intros P. induction n as [|n IH]; simpl; [ apply pf_const | now apply pf_mul ].
Qed.

Lemma polynomial_ok (e : expr C) vars :
  is_polynomial_in e vars = true -> polynomial_fn val e vars.
Proof.
  induction e as [c|v|o a IH|o a IHa b IHb|a IH n]; simpl; intros H.
  - apply const_polynomial, constant_ok. reflexivity.
  - intros rho. destruct (in_dec Nat.eq_dec v vars) as [I|I].
    + exists (fun r => r v). split; [ now constructor | ]. intros rho' x V E. simpl in E. congruence.
    + exists (fun _ => rho v). split; [ constructor | ]. intros rho' x V E. simpl in E.
      injection E as <-. now apply V.
  - assert (SC : forall c, (forall x, sem1 o x = Some (c * x)) -> is_polynomial_in a vars = true ->
      polynomial_fn val (Un o a) vars).
    { intros c HC HA rho. destruct (IH HA rho) as (p & P & K).
      exists (fun r => c * p r). split; [ apply (pf_mul _ (fun _ => c)); [ constructor | assumption ] | ].
      intros rho' x V E. simpl in E. apply bind_some in E as (z & Ea & E). rewrite HC in E.
      injection E as <-. now rewrite (K _ _ V Ea). }
    destruct o; try (apply const_polynomial, constant_ok; exact H).
    + intros rho. exists (fun _ => 0). split; [ constructor | ]. intros rho' x V E. simpl in E.
      apply bind_some in E as (z & Ea & E). simpl in E. congruence.
    + apply (SC 1); [ intros x; simpl; f_equal; ring | exact H ].
    + apply (SC (-1)); [ intros x; simpl; f_equal; ring | exact H ].
    + intros rho. destruct (IH H rho) as (p & P & K).
      exists (fun r => p r * p r). split; [ now apply pf_mul | ].
      intros rho' x V E. simpl in E. apply bind_some in E as (z & Ea & E). simpl in E.
      injection E as <-. now rewrite (K _ _ V Ea).
    + apply (SC (/ 2)); [ intros x; simpl; f_equal; field | exact H ].
  - destruct o.
    + apply andb_true_iff in H as [H1 H2]. intros rho.
      destruct (IHa H1 rho) as (p & P & K). destruct (IHb H2 rho) as (p' & P' & K').
      exists (fun r => p r + p' r). split; [ now apply pf_add | ]. intros rho' x V E. simpl in E.
      apply bind_some in E as (z & Ea & E). apply bind_some in E as (z' & Eb & E).
      simpl in E. injection E as <-. now rewrite (K _ _ V Ea), (K' _ _ V Eb).
    + apply andb_true_iff in H as [H1 H2]. intros rho.
      destruct (IHa H1 rho) as (p & P & K). destruct (IHb H2 rho) as (p' & P' & K').
      exists (fun r => p r + -1 * p' r). split.
      { apply pf_add; [ assumption | apply (pf_mul _ (fun _ => -1)); [ constructor | assumption ] ]. }
      intros rho' x V E. simpl in E.
      apply bind_some in E as (z & Ea & E). apply bind_some in E as (z' & Eb & E).
      simpl in E. injection E as <-. rewrite (K _ _ V Ea), (K' _ _ V Eb). ring.
    + apply andb_true_iff in H as [H1 H2]. intros rho.
      destruct (IHa H1 rho) as (p & P & K). destruct (IHb H2 rho) as (p' & P' & K').
      exists (fun r => p r * p' r). split; [ now apply pf_mul | ]. intros rho' x V E. simpl in E.
      apply bind_some in E as (z & Ea & E). apply bind_some in E as (z' & Eb & E).
      simpl in E. injection E as <-. now rewrite (K _ _ V Ea), (K' _ _ V Eb).
    + apply andb_true_iff in H as [H1 H2]. intros rho.
      destruct (IHa H1 rho) as (p & P & K). destruct (constant_ok _ _ H2 rho) as (k' & K').
      exists (fun r => / k' * p r). split.
      { apply (pf_mul _ (fun _ => / k')); [ constructor | assumption ]. }
      intros rho' x V E. simpl in E.
      apply bind_some in E as (z & Ea & E). apply bind_some in E as (z' & Eb & E).
      simpl in E. destruct (Req_EM_T z' 0) as [Z|Z]; [ discriminate | ]. injection E as <-.
      rewrite (K _ _ V Ea). rewrite (K' _ _ V Eb) in Z |- *. field. exact Z.
    + apply const_polynomial, constant_ok. exact H.
    + apply const_polynomial, constant_ok. exact H.
  - apply orb_true_iff in H as [H|H].
    + apply const_polynomial, constant_ok. simpl. now rewrite H.
    + apply andb_true_iff in H as [H1 H2]. apply Z.ltb_lt in H1.
      intros rho. destruct (IH H2 rho) as (p & P & K).
      exists (fun r => p r ^ Z.to_nat n). split; [ now apply polyfun_pow | ].
      intros rho' x V E. simpl in E. apply bind_some in E as (z & Ea & E). unfold sempow in E.
      rewrite (proj2 (Z.ltb_ge _ _)) in E by lia. injection E as <-. rewrite (K _ _ V Ea).
      destruct n as [|q|q]; try lia. simpl. reflexivity.
Qed.

Lemma varies_upd rho v t : varies_in [v] rho (upd rho v t).
Proof.
  intros w H. unfold upd. destruct (Nat.eqb_spec w v); [ subst; simpl in H; tauto | reflexivity ].
Qed.

Lemma additive_ok (e : expr C) v : is_additive_in e v = true ->
  constant_fn val e [v] \/ shift_fn val e v.
Proof.
  induction e as [c|w|o a IH|o a IHa b IHb|a IH n]; simpl; intros H; try discriminate.
  - left. apply constant_ok. reflexivity.
  - destruct (Nat.eq_dec w v) as [->|N].
    + right. intros rho. exists 0. intros t x E. simpl in E. unfold upd in E.
      rewrite Nat.eqb_refl in E. injection E as <-. ring.
    + left. apply constant_ok. simpl. destruct (Nat.eqb_spec w v); [ contradiction | reflexivity ].
  - assert (CC : forall o, constant_fn val a [v] -> constant_fn val b [v] -> constant_fn val (Bin o a b) [v]).
    { intros o' Ka Kb rho. destruct (Ka rho) as [k K], (Kb rho) as [l L].
      exists (match sem2 o' k l with Some y => y | None => 0 end).
      intros rho' x V E. simpl in E. apply bind_some in E as (z & Ea & E).
      apply bind_some in E as (z' & Eb & E).
      rewrite (K _ _ V Ea), (L _ _ V Eb) in E. now rewrite E. }
    destruct o; try discriminate.
    + apply orb_true_iff in H as [H|H]; apply andb_true_iff in H as [H1 H2].
      * pose proof (constant_ok _ _ H2) as Kb. destruct (IHa H1) as [Ka|Sa]; [ left; auto | right ].
        intros rho. destruct (Sa rho) as [k K], (Kb rho) as [l L]. exists (k + l).
        intros t x E. simpl in E. apply bind_some in E as (z & Ea & E).
        apply bind_some in E as (z' & Eb & E). simpl in E. injection E as <-.
        rewrite (K _ _ Ea), (L _ _ (varies_upd _ _ _) Eb). ring.
      * pose proof (constant_ok _ _ H1) as Ka. destruct (IHb H2) as [Kb|Sb]; [ left; auto | right ].
        intros rho. destruct (Sb rho) as [k K], (Ka rho) as [l L]. exists (l + k).
        intros t x E. simpl in E. apply bind_some in E as (z & Ea & E).
        apply bind_some in E as (z' & Eb & E). simpl in E. injection E as <-.
        rewrite (K _ _ Eb), (L _ _ (varies_upd _ _ _) Ea). ring.
    + apply andb_true_iff in H as [H1 H2].
      pose proof (constant_ok _ _ H2) as Kb. destruct (IHa H1) as [Ka|Sa]; [ left; auto | right ].
      intros rho. destruct (Sa rho) as [k K], (Kb rho) as [l L]. exists (k - l).
      intros t x E. simpl in E. apply bind_some in E as (z & Ea & E).
      apply bind_some in E as (z' & Eb & E). simpl in E. injection E as <-.
      rewrite (K _ _ Ea), (L _ _ (varies_upd _ _ _) Eb). ring.
Qed.

Lemma additive_loop_ok (es : list (expr C)) v : forall found,
  additive_loop es v found = Some true ->
  (forall i e, nth_error es i = Some e -> constant_fn val e [v] \/ shift_fn val e v) /\
  (forall i j e f, nth_error es i = Some e -> nth_error es j = Some f -> i <> j ->
     constant_fn val e [v] \/ constant_fn val f [v]) /\
  (found = true -> forall i e, nth_error es i = Some e -> constant_fn val e [v]).
Proof.
  induction es as [|e r IH]; simpl; intros found H.
  - repeat split; intros; destruct i; discriminate.
  - destruct (deriv v e); [ | discriminate ].
    destruct (is_constant_in e [v]) eqn:K.
    + apply constant_ok in K. destruct (IH _ H) as (A & B & D). repeat split.
      * intros [|i] f E; simpl in E; [ injection E as <-; auto | eauto ].
      * intros [|i] [|j] f g E F N; simpl in E, F; try (injection E as <-); try (injection F as <-); auto; try congruence.
        eapply B; eauto.
      * intros HF [|i] f E; simpl in E; [ injection E as <-; auto | eauto ].
    + destruct found; [ discriminate | ].
      destruct (is_additive_in e v) eqn:AD; [ | discriminate ].
      apply additive_ok in AD. destruct (IH _ H) as (A & B & D). specialize (D eq_refl). repeat split.
      * intros [|i] f E; simpl in E; [ injection E as <-; auto | eauto ].
      * intros [|i] [|j] f g E F N; simpl in E, F; try (injection E as <-); try (injection F as <-); eauto; congruence.
      * discriminate.
Qed.

Lemma vec_additive_ok (es : list (expr C)) vars : vec_is_additive_in es vars = Some true ->
  forall v, In v vars ->
  (forall i e, nth_error es i = Some e -> constant_fn val e [v] \/ shift_fn val e v) /\
  (forall i j e f, nth_error es i = Some e -> nth_error es j = Some f -> i <> j ->
     constant_fn val e [v] \/ constant_fn val f [v]).
Proof.
  induction vars as [|w r IH]; simpl; intros H v HI; [ contradiction | ].
  destruct (additive_loop es w false) as [[|]|] eqn:L; try discriminate.
  destruct HI as [<-|HI]; [ | auto ].
  destruct (additive_loop_ok _ _ _ L) as (A & B & _). auto.
Qed.

(** ** Indicators *)

Lemma eval_neg rho (e : expr C) x : ev rho e = Some x -> ev rho (Un Neg e) = Some (- x).
Proof. simpl. now intros ->. Qed.

Lemma indicator_ok (CS : consts_sound val) und rho p i :
  indicator p true = Some i -> pdefined val rho p ->
  exists x, ev rho i = Some x /\
    (0 < x -> ptrue val und rho p) /\ (x < 0 -> ~ ptrue val und rho p).
Proof.
  revert i. induction p as [k|v|q IH|q IHq r IHr|q IHq r IHr|e|o a b]; intros i H D; simpl in H, D.
  - injection H as <-. destruct k; simpl; rewrite (cs_int _ CS); (eexists; split; [ reflexivity | ]); split; try lra; auto.
  - contradiction.
  - destruct (indicator q true) as [j|]; [ | discriminate ]. injection H as <-.
    destruct (IH _ eq_refl D) as (x & E & P & N). exists (- x). split; [ now apply eval_neg | ].
    simpl. split; intros L.
    + apply N. lra.
    + intros NT. apply NT. apply P. lra.
  - destruct (indicator q true) as [j|]; [ | discriminate ].
    destruct (indicator r true) as [l|]; [ | discriminate ]. injection H as <-.
    destruct D as [D1 D2].
    destruct (IHq _ eq_refl D1) as (x & E & P & N). destruct (IHr _ eq_refl D2) as (y & F & P' & N').
    exists (Rmin x y). split; [ simpl; rewrite E; simpl; now rewrite F | ].
    simpl. unfold Rmin. destruct (Rle_dec x y); split; intros L.
    + split; [ auto | apply P'; lra ].
    + intros [T _]. now apply N in L.
    + split; [ apply P; lra | auto ].
    + intros [_ T]. now apply N' in L.
  - destruct (indicator q true) as [j|]; [ | discriminate ].
    destruct (indicator r true) as [l|]; [ | discriminate ]. injection H as <-.
    destruct D as [D1 D2].
    destruct (IHq _ eq_refl D1) as (x & E & P & N). destruct (IHr _ eq_refl D2) as (y & F & P' & N').
    exists (Rmax x y). split; [ simpl; rewrite E; simpl; now rewrite F | ].
    simpl. unfold Rmax. destruct (Rle_dec x y); split; intros L.
    + right. auto.
    + intros [T|T]; [ apply (N ltac:(lra) T) | apply (N' L T) ].
    + left. auto.
    + intros [T|T]; [ apply (N L T) | apply (N' ltac:(lra) T) ].
  - injection H as <-. destruct (ev rho e) as [x|] eqn:E; [ | congruence ].
    exists x. split; [ reflexivity | ]. simpl. split; intros L.
    + eauto.
    + intros (y & F & G). rewrite E in F. injection F as <-. lra.
  - destruct D as [D1 D2]. destruct (ev rho a) as [x|] eqn:E; [ | congruence ].
    destruct (ev rho b) as [y|] eqn:F; [ | congruence ].
    destruct o; simpl in H; try discriminate; injection H as <-;
      (eexists; split; [ simpl; rewrite E; simpl; rewrite F; reflexivity | ]); simpl;
      (split; intros L; [ exists x, y; rewrite E, F; simpl; repeat split; lra
                        | intros (x' & y' & E' & F' & T); rewrite E in E'; rewrite F in F';
                          injection E' as <-; injection F' as <-; simpl in T; lra ]).
Qed.

Lemma indicator_total p s : each_cmp (fun o => o <> Equal /\ o <> Unequal) p -> no_kvar p -> exists i : expr C, indicator p s = Some i.
Proof.
  induction p as [k|v|q IH|q IHq r IHr|q IHq r IHr|e|o a b]; simpl; intros H V.
  - eauto.
  - contradiction.
  - destruct (IH H V) as [i ->]. eauto.
  - destruct H as [H1 H2], V as [V1 V2]. destruct (IHq H1 V1) as [i Ei], (IHr H2 V2) as [j Ej]. rewrite Ei, Ej. eauto.
  - destruct H as [H1 H2], V as [V1 V2]. destruct (IHq H1 V1) as [i Ei], (IHr H2 V2) as [j Ej]. rewrite Ei, Ej. eauto.
  - eauto.
  - destruct H. destruct o; simpl; eauto; congruence.
Qed.

Lemma lv_neg_invol k : lv_neg (lv_neg k) = k.
Proof. destruct k; reflexivity. Qed.

Lemma indicator_negative (CS : consts_sound val) rho p i j x y :
  no_connective p -> indicator p true = Some i -> indicator p false = Some j ->
  ev rho i = Some x -> ev rho j = Some y -> y = - x.
Proof.
  revert i j x y. induction p as [k|v|q IH|q IHq r IHr|q IHq r IHr|e|o a b];
    intros i j x y NC H G E F; simpl in NC, H, G; try discriminate; try contradiction.
  - injection H as <-. injection G as <-.
    destruct k; simpl in E, F; rewrite (cs_int _ CS) in E, F;
      injection E as <-; injection F as <-; lra.
  - destruct (indicator q true) as [i'|]; [ | discriminate ].
    destruct (indicator q false) as [j'|]; [ | discriminate ].
    injection H as <-. injection G as <-. simpl in E, F.
    apply bind_some in E as (x' & E & E'). apply bind_some in F as (y' & F & F').
    simpl in E', F'. injection E' as <-. injection F' as <-.
    rewrite (IH _ _ _ _ NC eq_refl eq_refl E F). ring.
  - injection H as <-. injection G as <-. simpl in F. rewrite E in F. simpl in F. congruence.
  - destruct o; simpl in H, G; try discriminate; injection H as <-; injection G as <-; simpl in E, F;
      apply bind_some in E as (x1 & E1 & E); apply bind_some in E as (x2 & E2 & E);
      rewrite ?E1, ?E2 in F; simpl in F; simpl in E; rewrite ?E1, ?E2 in F; simpl in F;
      injection E as <-; injection F as <-; ring.
Qed.

(** ** Simplification of predicates *)

Lemma simplify_value_preds (CS : consts_sound val) ptr_eq (PS : ptr_sound ptr_eq) kv rho p :
  each_expr (fun e => (without_un Sqrt e \/ squares_nonneg val rho e) /\
                      (without_un Atan e \/ tangents_principal val rho e)) p ->
  plain_consts p -> forall k, peval val kv rho p = Some k ->
  exists s, ksimplify ptr_eq p = Some s /\ peval val kv rho s = Some k /\ plain_consts s.
Proof.
  induction p as [c|v|q IH|q IHq r IHr|q IHq r IHr|e|o a b]; simpl; intros Q PC k E.
  - injection E as <-. eexists. repeat split; auto.
  - injection E as <-. eexists. repeat split; auto.
  - apply bind_some in E as (x & E & F). injection F as <-.
    destruct (IH Q PC _ E) as (s & -> & [Es Ps]). eexists. split; [ reflexivity | ].
    assert (A : peval val kv rho (KNot s) = Some (lv_neg x) /\ plain_consts (KNot s)).
    { simpl. rewrite Es. auto. }
    destruct s; try exact A. clear A.
    simpl in Es. injection Es as <-. simpl in *. split; [ reflexivity | ].
    destruct Ps as [ -> | [ -> | -> ] ]; auto.
  - apply bind_some in E as (x & E & F). apply bind_some in F as (y & F & G). injection G as <-.
    destruct Q as [Q1 Q2], PC as [P1 P2].
    destruct (IHq Q1 P1 _ E) as (s & -> & [Es Ps]). destruct (IHr Q2 P2 _ F) as (t & -> & [Et Pt]).
    eexists. split; [ reflexivity | ].
    assert (K1 : forall b, is_kconstant s b = true -> x = make_lv b).
    { intros b HK. destruct s as [c| | | | | |]; try discriminate. simpl in Es. injection Es as <-.
      simpl in HK, Ps. destruct Ps as [ -> | [ -> | -> ] ], b; try discriminate; reflexivity. }
    assert (K2 : forall b, is_kconstant t b = true -> y = make_lv b).
    { intros b HK. destruct t as [c| | | | | |]; try discriminate. simpl in Et. injection Et as <-.
      simpl in HK, Pt. destruct Pt as [ -> | [ -> | -> ] ], b; try discriminate; reflexivity. }
    destruct (is_kconstant s false) eqn:H1; simpl.
    { rewrite (K1 _ H1) in *. split; [ rewrite Es; destruct y; reflexivity | auto ]. }
    destruct (is_kconstant t true) eqn:H2; simpl.
    { rewrite (K2 _ H2) in *. split; [ rewrite Es; destruct x; reflexivity | auto ]. }
    destruct (is_kconstant s true) eqn:H3; simpl.
    { rewrite (K1 _ H3) in *. split; [ rewrite Et; destruct y; reflexivity | auto ]. }
    destruct (is_kconstant t false) eqn:H4; simpl.
    { rewrite (K2 _ H4) in *. split; [ rewrite Et; destruct x; reflexivity | auto ]. }
    rewrite Es. simpl. rewrite Et. auto.
  - apply bind_some in E as (x & E & F). apply bind_some in F as (y & F & G). injection G as <-.
    destruct Q as [Q1 Q2], PC as [P1 P2].
    destruct (IHq Q1 P1 _ E) as (s & -> & [Es Ps]). destruct (IHr Q2 P2 _ F) as (t & -> & [Et Pt]).
    eexists. split; [ reflexivity | ].
    assert (K1 : forall b, is_kconstant s b = true -> x = make_lv b).
    { intros b HK. destruct s as [c| | | | | |]; try discriminate. simpl in Es. injection Es as <-.
      simpl in HK, Ps. destruct Ps as [ -> | [ -> | -> ] ], b; try discriminate; reflexivity. }
    assert (K2 : forall b, is_kconstant t b = true -> y = make_lv b).
    { intros b HK. destruct t as [c| | | | | |]; try discriminate. simpl in Et. injection Et as <-.
      simpl in HK, Pt. destruct Pt as [ -> | [ -> | -> ] ], b; try discriminate; reflexivity. }
    destruct (is_kconstant s true) eqn:H1; simpl.
    { rewrite (K1 _ H1) in *. split; [ rewrite Es; destruct y; reflexivity | auto ]. }
    destruct (is_kconstant t false) eqn:H2; simpl.
    { rewrite (K2 _ H2) in *. split; [ rewrite Es; destruct x; reflexivity | auto ]. }
    destruct (is_kconstant s false) eqn:H3; simpl.
    { rewrite (K1 _ H3) in *. split; [ rewrite Et; destruct y; reflexivity | auto ]. }
    destruct (is_kconstant t true) eqn:H4; simpl.
    { rewrite (K2 _ H4) in *. split; [ rewrite Et; destruct x; reflexivity | auto ]. }
    rewrite Es. simpl. rewrite Et. auto.
  - apply bind_some in E as (x & E & F). injection F as <-. destruct Q as [Q1 Q2].
    destruct (simplify_total ptr_eq e) as [s Es]. rewrite Es. eexists. split; [ reflexivity | ].
    simpl. rewrite (simplify_value CS _ PS rho _ _ _ Q1 Q2 Es E). auto.
  - apply bind_some in E as (x & E & F). apply bind_some in F as (y & F & G). injection G as <-.
    destruct Q as [[Q1 Q2] [Q3 Q4]].
    destruct (simplify_total ptr_eq a) as [s Es]. destruct (simplify_total ptr_eq b) as [t Et].
    rewrite Es, Et. eexists. split; [ reflexivity | ]. simpl.
    rewrite (simplify_value CS _ PS rho _ _ _ Q1 Q2 Es E). simpl.
    rewrite (simplify_value CS _ PS rho _ _ _ Q3 Q4 Et F). auto.
Qed.

Lemma ksubst_value (CS : consts_sound val) kv rho p v s x k :
  ev rho s = Some x -> peval val kv (upd rho v x) p = Some k ->
  peval val kv rho (ksubst p v s) = Some k.
Proof.
  intros Es. revert k.
  induction p as [c|w|q IH|q IHq r IHr|q IHq r IHr|e|o a b]; simpl; intros k E; auto.
  - apply bind_some in E as (z & E & F). now rewrite (IH _ E).
  - apply bind_some in E as (z & E & F). apply bind_some in F as (z' & F & G).
    rewrite (IHq _ E). simpl. now rewrite (IHr _ F).
  - apply bind_some in E as (z & E & F). apply bind_some in F as (z' & F & G).
    rewrite (IHq _ E). simpl. now rewrite (IHr _ F).
  - apply bind_some in E as (z & E & F). now rewrite (subst_value CS _ _ _ _ _ _ Es E).
  - apply bind_some in E as (z & E & F). apply bind_some in F as (z' & F & G).
    rewrite (subst_value CS _ _ _ _ _ _ Es E). simpl. now rewrite (subst_value CS _ _ _ _ _ _ Es F).
Qed.

(** ** Common subexpressions *)

Lemma uop_code_inj a b : uop_code a = uop_code b -> a = b.
Proof. destruct a, b; simpl; congruence. Qed.
Lemma bop_code_inj a b : bop_code a = bop_code b -> a = b.
Proof. destruct a, b; simpl; congruence. Qed.

Lemma ltb_both m n : Nat.ltb m n = false -> Nat.ltb n m = false -> m = n.
Proof. intros A B. apply Nat.ltb_ge in A, B. lia. Qed.

Section CSE.
Variable ptr_eq : expr C -> expr C -> bool.
Hypothesis ptr_sym : forall a b, ptr_eq a b = ptr_eq b a.
Hypothesis same_sym : forall c d, rc_same C c d = rc_same C d c.
Hypothesis comparable : forall c d, rc_before C c d = false -> rc_before C d c = false ->
  rc_same C c d = true.

Lemma identical_sym a : forall b, identical ptr_eq a b = identical ptr_eq b a.
Proof.
  induction a as [c|v|o a IH|o a IHa b IHb|a IH n]; intros [c'|v'|o' a'|o' a' b'|a' n']; simpl;
    rewrite ptr_sym; f_equal.
  - apply same_sym.
  - apply Nat.eqb_sym.
  - rewrite IH. f_equal. destruct o, o'; reflexivity.
  - rewrite IHa, IHb. f_equal. f_equal. destruct o, o'; reflexivity.
  - rewrite IH, Z.eqb_sym. reflexivity.
Qed.

Lemma equiv_identical a : forall b, before ptr_eq a b = false -> before ptr_eq b a = false ->
  identical ptr_eq a b = true.
Proof.
  induction a as [c|v|o a IH|o a IHa b IHb|a IH n]; intros [c'|v'|o' a'|o' a' b'|a' n'] H G;
    try discriminate H; try discriminate G; simpl in H, G; simpl; apply orb_true_iff; right.
  - now apply comparable.
  - apply Nat.eqb_eq. now apply ltb_both.
  - destruct (uop_eqb o o') eqn:E.
    + apply uop_eqb_eq in E. subst. rewrite uop_eqb_refl in G. simpl. auto.
    + destruct (uop_eqb o' o) eqn:E'; [ apply uop_eqb_eq in E'; subst; rewrite uop_eqb_refl in E; discriminate | ].
      pose proof (uop_code_inj _ _ (ltb_both _ _ H G)). subst. rewrite uop_eqb_refl in E. discriminate.
  - destruct (bop_eqb o o') eqn:E.
    + apply bop_eqb_eq in E. subst. rewrite bop_eqb_refl in G. simpl.
      rewrite (identical_sym a' a) in G.
      destruct (identical ptr_eq a a') eqn:I.
      * simpl. auto.
      * rewrite (IHa _ H G) in I. discriminate.
    + destruct (bop_eqb o' o) eqn:E'; [ apply bop_eqb_eq in E'; subst; rewrite bop_eqb_refl in E; discriminate | ].
      pose proof (bop_code_inj _ _ (ltb_both _ _ H G)). subst. rewrite bop_eqb_refl in E. discriminate.
  - rewrite (Z.eqb_sym n' n) in G. destruct (Z.eqb n n') eqn:E.
    + rewrite andb_true_r. auto.
    + apply Z.ltb_ge in H, G. apply Z.eqb_neq in E. lia.
Qed.

Hypothesis CS : consts_sound val.
Hypothesis PS : ptr_sound ptr_eq.

Lemma lookup_value cache e x : lookup ptr_eq cache e = Some x -> forall rho, ev rho x = ev rho e.
Proof.
  unfold lookup. intros H rho. apply List.find_some in H as [_ H]. unfold equiv in H.
  apply andb_true_iff in H as [H1 H2]. apply negb_true_iff in H1, H2.
  apply (identical_sound CS _ PS). now apply equiv_identical.
Qed.

Lemma cse_value e : forall cache rho, ev rho (fst (cse ptr_eq cache e)) = ev rho e.
Proof.
  induction e as [c|v|o a IH|o a IHa b IHb|a IH n]; intros cache rho; simpl;
    (destruct (lookup ptr_eq cache _) as [x|] eqn:L; [ simpl fst; rewrite (lookup_value _ _ _ L); reflexivity | ]).
  - reflexivity.
  - reflexivity.
  - pose proof (IH cache rho) as HA. destruct (cse ptr_eq cache a) as [a' c1]. simpl in *. now rewrite HA.
  - pose proof (IHa cache rho) as HA. destruct (cse ptr_eq cache a) as [a' c1].
    pose proof (IHb c1 rho) as HB. destruct (cse ptr_eq c1 b) as [b' c2]. simpl in *. now rewrite HA, HB.
  - pose proof (IH cache rho) as HA. destruct (cse ptr_eq cache a) as [a' c1]. simpl in *. now rewrite HA.
Qed.

Lemma cse_list_value es : forall cache rho,
  map (ev rho) (cse_list ptr_eq cache es) = map (ev rho) es.
Proof.
  induction es as [|e r IH]; intros cache rho; simpl; [ reflexivity | ].
  pose proof (cse_value e cache rho) as HE. destruct (cse ptr_eq cache e) as [e' c]. simpl in *.
  now rewrite HE, IH.
Qed.

End CSE.

End Proofs.
