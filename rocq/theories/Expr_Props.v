(** Symbolic expressions: the properties a user relies on. *)
From Coq Require Import ZArith List Bool Reals Lra Lia.
From Verif Require Import Logical_Model Expr_Model Expr_Spec Expr_Proofs Expr_Deriv_Proofs.
Import ListNotations.
Open Scope R_scope.

(** * Two kinds of constants used in the examples *)

(** Constants as an omniscient observer sees them. *)
Definition exact_reals : RealConst := {|
  rc_ty := R;
  rc_int := IZR;
  rc_is := fun c z => if Req_EM_T c (IZR z) then true else false;
  rc_same := fun c d => if Req_EM_T c d then true else false;
  rc_before := fun c d => if Rlt_dec c d then true else false;
  rc_un := fun o c => match sem1 o c with Some y => y | None => 0 end |}.
Definition exact_val (c : exact_reals) : R := c.

Lemma exact_sound : consts_sound exact_val.
Proof.
  split; unfold exact_val; simpl.
  - reflexivity.
  - intros c z. destruct (Req_EM_T c (IZR z)); [ auto | discriminate ].
  - intros c d. destruct (Req_EM_T c d); [ auto | discriminate ].
  - intros o c y ->. reflexivity.
Qed.

Lemma exact_comparable (c d : exact_reals) :
  rc_before exact_reals c d = false -> rc_before exact_reals d c = false ->
  rc_same exact_reals c d = true.
Proof.
  simpl. destruct (Rlt_dec c d); [ discriminate | ]. destruct (Rlt_dec d c); [ discriminate | ].
  intros _ _. destruct (Req_EM_T c d); [ reflexivity | lra ].
Qed.
Lemma exact_same_sym (c d : exact_reals) : rc_same exact_reals c d = rc_same exact_reals d c.
Proof. simpl. destruct (Req_EM_T c d), (Req_EM_T d c); congruence. Qed.

(** Constants as the code sees them: integers, the number pi, and operators applied
    to constants.  Pi is compared with the integers by evaluating it to a finite
    precision, so it is neither the same as nor before itself. *)
Inductive sym := SInt (z : Z) | SPi | SUn (o : uop) (c : sym).
Fixpoint sym_val (c : sym) : R :=
  match c with
  | SInt z => IZR z
  | SPi => PI
  | SUn o c => match sem1 o (sym_val c) with Some y => y | None => 0 end
  end.
Definition sym_reals : RealConst := {|
  rc_ty := sym;
  rc_int := SInt;
  rc_is := fun c z => match c with SInt w => Z.eqb w z | _ => false end;
  rc_same := fun c d => match c, d with SInt z, SInt w => Z.eqb z w | _, _ => false end;
  rc_before := fun c d => match c, d with
                          | SInt z, SInt w => Z.ltb z w
                          | SInt z, SPi => Z.leb z 3
                          | SPi, SInt w => Z.leb 4 w
                          | _, _ => false end;
  rc_un := SUn |}.

Definition sval (c : sym_reals) : R := sym_val c.

Lemma sym_sound : consts_sound sval.
Proof.
  split; unfold sval; simpl.
  - reflexivity.
  - intros [w| |] z; try discriminate. intros H. apply Z.eqb_eq in H. now subst.
  - intros [w| |] [w'| |]; try discriminate. intros H. apply Z.eqb_eq in H. now subst.
  - intros o c y ->. reflexivity.
Qed.

(** Distinct nodes for every occurrence. *)
Definition no_sharing (C : RealConst) (a b : expr C) : bool := false.
Lemma no_sharing_sound C : ptr_sound (no_sharing C).
Proof. intros a b H. discriminate. Qed.

Notation sexpr := (expr sym_reals).
Definition sx : sexpr := Var 0.
Definition sy : sexpr := Var 1.
Definition snum (z : Z) : sexpr := @Cst sym_reals (SInt z).
Definition spi : sexpr := @Cst sym_reals SPi.
Definition sev := eval sval.
Definition at_xy (x y : R) : valuation := fun v => match v with O => x | S O => y | _ => 0 end.

(** * C42: simplification *)

(** Simplification always ends, whatever the sharing of nodes. *)
Theorem C42_terminates : forall (C : RealConst) ptr_eq (e : expr C),
  exists s, simplify ptr_eq e = Some s /\
            forall fuel, (weight e <= fuel)%nat -> simp ptr_eq fuel e = Some s.
Proof.
  intros C ptr_eq e. destruct (simplify_total ptr_eq e) as [s S]. exists s. split; [ exact S | ].
  intros fuel L. eapply simp_more; eassumption.
Qed.
Print Assumptions C42_terminates.

(** It introduces no variables. *)
Theorem C42_no_new_variables : forall (C : RealConst) ptr_eq (e s : expr C),
  simplify ptr_eq e = Some s -> forall v, In v (arguments s) -> In v (arguments e).
Proof. intros C ptr_eq e s H. eapply args_simp. exact H. Qed.
Print Assumptions C42_no_new_variables.

(** Partial: the value is preserved where the expression is defined, unless the
    expression takes a square root somewhere and squares a negative number
    somewhere, or takes an arctangent somewhere and the tangent of an angle outside
    (-pi/2,pi/2) somewhere. *)
Theorem C42_simplify_partial : forall (C : RealConst) (val : C -> R),
  consts_sound val -> forall ptr_eq, ptr_sound ptr_eq ->
  forall (e s : expr C) rho x,
  (without_un Sqrt e \/ squares_nonneg val rho e) ->
  (without_un Atan e \/ tangents_principal val rho e) ->
  simplify ptr_eq e = Some s ->
  eval val rho e = Some x -> eval val rho s = Some x.
Proof.
  intros C val CS ptr_eq PS e s rho x H1 H2 S E.
  exact (simplify_value val CS ptr_eq PS rho e s x H1 H2 S E).
Qed.
Print Assumptions C42_simplify_partial.

(** The full claim is false: sqrt(sqr(x)) simplifies to x, and atan(tan(x)) to x. *)
Theorem C42_simplify_refuted :
  (exists (e s : sexpr) rho x y, simplify (no_sharing _) e = Some s /\
     sev rho e = Some x /\ sev rho s = Some y /\ x <> y /\ without_un Atan e) /\
  (exists (e s : sexpr) rho x y, simplify (no_sharing _) e = Some s /\
     sev rho e = Some x /\ sev rho s = Some y /\ x <> y /\ without_un Sqrt e).
Proof.
  split.
  - exists (Un Sqrt (Un Sqr sx)), sx, (at_xy (-1) 0), 1, (-1).
    split; [ reflexivity | ]. split; [ | split; [ reflexivity | split; [ lra | ] ] ].
    + unfold sev. simpl. destruct (Rle_dec 0 (-1 * -1)) as [H|H]; [ | lra ].
      replace (-1 * -1) with 1 by ring. now rewrite sqrt_1.
    + repeat split; discriminate.
  - exists (Un Atan (Un Tan sx)), sx, (at_xy PI 0), 0, PI.
    split; [ reflexivity | ]. split; [ | split; [ reflexivity | split; [ | ] ] ].
    + unfold sev. simpl. rewrite cos_PI. destruct (Req_EM_T (-1) 0) as [H|H]; [ lra | ].
      simpl. f_equal. unfold tan. rewrite sin_PI. unfold Rdiv. rewrite Rmult_0_l. apply atan_0.
    + pose proof PI_RGT_0. lra.
    + repeat split; discriminate.
Qed.
Print Assumptions C42_simplify_refuted.

(** Partial: predicates keep their Kleenean value under the same conditions, if no
    constant in them is LIKELY or UNLIKELY. *)
Theorem C42_predicates_partial : forall (C : RealConst) (val : C -> R),
  consts_sound val -> forall ptr_eq, ptr_sound ptr_eq ->
  forall (p : pred C) kv rho k,
  each_expr (fun e => (without_un Sqrt e \/ squares_nonneg val rho e) /\
                      (without_un Atan e \/ tangents_principal val rho e)) p ->
  plain_consts p ->
  peval val kv rho p = Some k ->
  exists s, ksimplify ptr_eq p = Some s /\ peval val kv rho s = Some k.
Proof.
  intros C val CS ptr_eq PS p kv rho k H1 H2 E.
  destruct (simplify_value_preds val CS ptr_eq PS kv rho p H1 H2 k E) as (s & S & F & _). eauto.
Qed.
Print Assumptions C42_predicates_partial.

(** A conjunction with a merely likely constant becomes definite. *)
Theorem C42_likely_refuted : exists (p s : pred sym_reals) kv rho,
  ksimplify (no_sharing _) p = Some s /\
  peval sval kv rho p = Some LIKELY /\ peval sval kv rho s = Some TRUE.
Proof.
  exists (KAnd (KCst TRUE) (KCst LIKELY)), (KCst TRUE), (fun _ => INDET), (fun _ => 0).
  repeat split.
Qed.
Print Assumptions C42_likely_refuted.

(** Non-vacuity: (0+x)*1 - sqrt(y^2) simplifies to x - y, with the same value. *)
Definition simp_ex : sexpr :=
  Bin Sub (Bin Mul (Bin Add (snum 0) sx) (snum 1)) (Un Sqrt (Powr sy 2)).
Example C42_nonvacuous :
  simplify (no_sharing _) simp_ex = Some (Bin Sub sx sy) /\
  squares_nonneg sval (at_xy 3 4) simp_ex /\
  without_un Atan simp_ex /\ sev (at_xy 3 4) simp_ex = Some (-1).
Proof.
  split; [ reflexivity | ]. split; [ | split ].
  - unfold squares_nonneg, simp_ex. simpl. repeat split. intros x E. injection E as <-. lra.
  - unfold without_un, simp_ex. simpl. repeat split; discriminate.
  - unfold sev, simp_ex. simpl. rewrite Rmult_1_r.
    destruct (Rle_dec 0 (4 * 4)) as [H|H]; [ | lra ]. simpl.
    rewrite sqrt_square by lra. f_equal. ring.
Qed.
Example C42_nonvacuous_predicate :
  ksimplify (no_sharing _) (KAnd (KCst TRUE) (KOr (KCmp Less sx (Powr sy 1)) (KCst FALSE)))
  = Some (KCmp Less sx sy).
Proof. reflexivity. Qed.

(** * C43: derivatives *)

(** Partial: wherever the expression and the expression for its derivative are
    defined, the latter is the partial derivative, for expressions without
    [asin], [acos].  ([nul] nodes cannot be built: constructing one gives 0.) *)
Theorem C43_derivative_partial : forall (C : RealConst) (val : C -> R),
  consts_sound val ->
  forall (e d : expr C) v rho x y,
  without_un Nul e -> without_un Asin e -> without_un Acos e ->
  deriv v e = Some d ->
  eval val rho e = Some x -> eval val rho d = Some y ->
  partial_derivative val e v rho y.
Proof.
  intros C val CS e d v rho x y T1 T2 T3 D E F.
  eapply diff_at_partial. eapply deriv_diff; try eassumption. now split; [ | split ].
Qed.
Print Assumptions C43_derivative_partial.

(** And for smooth operators, inside the domain, the derivative is available and
    defined. *)
Theorem C43_derivative_exists_partial : forall (C : RealConst) (val : C -> R),
  consts_sound val ->
  forall (e : expr C) v rho x,
  smooth_ops e -> without_un Nul e -> interior val rho e ->
  eval val rho e = Some x ->
  exists d y, deriv v e = Some d /\ eval val rho d = Some y /\ partial_derivative val e v rho y.
Proof.
  intros C val CS e v rho x S T N E.
  destruct (deriv_defined val CS rho v e x S T N E) as (d & y & D & F).
  exists d, y. split; [ exact D | ]. split; [ exact F | ].
  assert (W : forall o, (o = Asin \/ o = Acos) -> without_un o e).
  { clear - S. intros o Ho. unfold without_un. revert S. unfold smooth_ops.
    induction e as [c|w|o' a IH|o' a IHa b IHb|a IH n]; simpl; try tauto.
    - intros [S0 S]. split; [ | auto ]. intros ->. destruct Ho as [->| ->]; exact S0.
    }
  eapply C43_derivative_partial; eauto.
Qed.
Print Assumptions C43_derivative_exists_partial.

(** The derivative of a constant expression. *)
Lemma deriv_unique (f : R -> R) x l m : derivable_pt_lim f x l -> derivable_pt_lim f x m -> l = m.
Proof. apply uniqueness_limite. Qed.

(** The full claim is false.  At 1/4 the code's derivative of asin is
    1/(1-sqrt(1/4)) = 2; and at 0 the code's derivative of x^0 is undefined. *)
Theorem C43_derivative_refuted :
  (exists d y, deriv 0 (Un Asin sx) = Some d /\ sev (at_xy (1/4) 0) d = Some y /\
     ~ partial_derivative sval (Un Asin sx) 0 (at_xy (1/4) 0) y) /\
  (exists d y, deriv 0 (Un Acos sx) = Some d /\ sev (at_xy (1/4) 0) d = Some y /\
     ~ partial_derivative sval (Un Acos sx) 0 (at_xy (1/4) 0) y) /\
  (exists d, deriv 0 (Powr sx 0) = Some d /\ sev (at_xy 0 0) d = None /\
     partial_derivative sval (Powr sx 0) 0 (at_xy 0 0) 0).
Proof.
  assert (Q : exists y,
     sev (at_xy (1/4) 0) (Bin Mul (Un Rec (Bin Sub (num 1) (Un Sqrt sx))) (num 1)) = Some y /\ y = 2).
  { exists 2. split; [ | reflexivity ]. unfold sev. simpl.
    destruct (Rle_dec 0 (1 / 4)) as [H|H]; [ | lra ]. simpl.
    replace (1 / 4) with (1 / 2 * (1 / 2)) by field. rewrite sqrt_square by lra.
    destruct (Req_EM_T (1 - 1 / 2) 0) as [K|K]; [ lra | ]. simpl. f_equal. field. }
  assert (B : forall m, m * sqrt (1 - (1 / 4) ^ 2) = 1 \/ m * sqrt (1 - (1 / 4) ^ 2) = -1 -> m <> 2).
  { intros m Hm ->. pose proof (sqrt_sqrt (1 - (1/4)^2) ltac:(lra)) as K.
    pose proof (sqrt_pos (1 - (1/4)^2)). nra. }
  assert (SQ : sqrt (1 - (1 / 4) ^ 2) <> 0).
  { intros H. pose proof (sqrt_sqrt (1 - (1/4)^2) ltac:(lra)) as K. rewrite H in K. lra. }
  split; [ | split ].
  - eexists. destruct Q as (y & E & ->). exists 2.
    split; [ reflexivity | ]. split; [ exact E | ].
    intros (d & Hd & Def & D).
    specialize (D asin). 
    assert (D2 : derivable_pt_lim asin (1/4) 2).
    { apply D. intros t x _ Ht. unfold sx, upd in Ht. simpl in Ht. destruct (Rle_dec (Rabs t) 1); [ | discriminate ].
      congruence. }
    assert (RG : -1 < 1/4 < 1) by lra.
    pose proof (proj2_sig (derivable_pt_asin (1/4) RG)) as D1.
    fold (derive_pt asin (1/4) (derivable_pt_asin (1/4) RG)) in D1. rewrite derive_pt_asin in D1.
    pose proof (deriv_unique _ _ _ _ D1 D2) as U.
    apply (B (1 / sqrt (1 - (1/4)^2))); [ | replace ((1/4)^2) with ((1/4)²) in * by (unfold Rsqr; ring); rewrite <- U; reflexivity ].
    left. field. exact SQ.
  - eexists. destruct Q as (y & E & ->). exists 2.
    split; [ reflexivity | ]. split; [ exact E | ].
    intros (d & Hd & Def & D).
    specialize (D acos).
    assert (D2 : derivable_pt_lim acos (1/4) 2).
    { apply D. intros t x _ Ht. unfold sx, upd in Ht. simpl in Ht. destruct (Rle_dec (Rabs t) 1); [ | discriminate ].
      congruence. }
    assert (RG : -1 < 1/4 < 1) by lra.
    pose proof (proj2_sig (derivable_pt_acos (1/4) RG)) as D1.
    fold (derive_pt acos (1/4) (derivable_pt_acos (1/4) RG)) in D1. rewrite derive_pt_acos in D1.
    pose proof (deriv_unique _ _ _ _ D1 D2) as U.
    apply (B (-1 / sqrt (1 - (1/4)^2))); [ | replace ((1/4)^2) with ((1/4)²) in * by (unfold Rsqr; ring); rewrite <- U; reflexivity ].
    right. field. exact SQ.
  - eexists. split; [ reflexivity | ]. split.
    + unfold sev. simpl. unfold sempow. simpl. destruct (Req_EM_T 0 0); [ reflexivity | contradiction ].
    + exists 1. split; [ lra | ]. split; [ intros t _; simpl; discriminate | ].
      intros f F. intros eps He. exists (mkposreal 1 Rlt_0_1). intros h Hh Hl. simpl in Hl.
      rewrite (F (at_xy 0 0 0%nat + h) 1), (F (at_xy 0 0 0%nat) 1).
      * replace ((1 - 1) / h - 0) with 0 by (field; exact Hh). now rewrite Rabs_R0.
      * replace (at_xy 0 0 0%nat - at_xy 0 0 0%nat) with 0 by ring. rewrite Rabs_R0. lra.
      * reflexivity.
      * replace (at_xy 0 0 0%nat + h - at_xy 0 0 0%nat) with h by ring. exact Hl.
      * reflexivity.
Qed.
Print Assumptions C43_derivative_refuted.

(** Non-vacuity: the derivative of exp(x*y)/x with respect to x at (1,0) is -1. *)
Definition der_ex : sexpr := Bin Div (Un Exp (Bin Mul sx sy)) sx.
Example C43_nonvacuous :
  smooth_ops der_ex /\ without_un Nul der_ex /\
  interior sval (at_xy 1 0) der_ex /\
  sev (at_xy 1 0) der_ex = Some 1 /\
  (exists d, deriv 0 der_ex = Some d /\ sev (at_xy 1 0) d = Some (-1)).
Proof.
  unfold der_ex, sev. repeat split; try discriminate.
  - simpl. destruct (Req_EM_T 1 0); [ lra | ]. f_equal. rewrite Rmult_0_r, exp_0. field.
  - eexists. split; [ reflexivity | ]. simpl. destruct (Req_EM_T 1 0); [ lra | ]. simpl. f_equal.
    rewrite Rmult_0_r, exp_0. field.
Qed.

(** * C44: substitution *)

Theorem C44_substitute : forall (C : RealConst) (val : C -> R),
  consts_sound val ->
  forall (e s : expr C) v rho x y,
  eval val rho s = Some x -> eval val (upd rho v x) e = Some y ->
  eval val rho (subst e v s) = Some y.
Proof. intros. eapply subst_value; eassumption. Qed.
Print Assumptions C44_substitute.

(** The result is undefined exactly where the original is ([nul] nodes, which drop
    their argument, cannot be built). *)
Theorem C44_substitute_defined : forall (C : RealConst) (val : C -> R)
  (e s : expr C) v rho x,
  without_un Nul e -> eval val rho s = Some x ->
  eval val rho (subst e v s) = eval val (upd rho v x) e.
Proof.
  intros C val e s v rho x N E. apply subst_value_inv; [ exact E | ].
  revert N. unfold without_un. induction e as [c|w|o a IH|o a IHa b IHb|a IH n]; simpl; try tauto.
  intros [N0 N]. split; [ destruct o; auto | auto ].
Qed.
Print Assumptions C44_substitute_defined.

(** A list of substitutions is a sequence of assignments. *)
Theorem C44_substitute_list : forall (C : RealConst) (val : C -> R),
  consts_sound val ->
  forall (l : list (nat * expr C)) e rho rho' y,
  assign_all val rho l rho' -> eval val rho' e = Some y ->
  eval val rho (subst_list e l) = Some y.
Proof.
  intros C val CS l. induction l as [|[v s] l IH]; intros e rho rho' y A E; inversion A; subst.
  - exact E.
  - simpl. eapply IH; [ eassumption | ]. eapply subst_value; eassumption.
Qed.
Print Assumptions C44_substitute_list.

(** Variables that are not mentioned are unaffected. *)
Theorem C44_unmentioned : forall (C : RealConst) (val : C -> R) (e s : expr C) v,
  (forall rho rho', (forall w, In w (arguments e) -> rho' w = rho w) ->
     eval val rho' e = eval val rho e) /\
  (~ In v (arguments e) -> without_un Nul e -> subst e v s = e) /\
  (forall w, In w (arguments (subst e v s)) -> (In w (arguments e) /\ w <> v) \/ In w (arguments s)).
Proof.
  intros C val e s v. split; [ | split ].
  - intros. now apply eval_ext.
  - intros H N. apply subst_not_arg; [ exact H | ].
    clear H. revert N. unfold without_un. induction e as [c|w|o a IH|o a IHa b IHb|a IH n]; simpl; try tauto.
    intros [N0 N]. split; [ destruct o; auto | auto ].
  - intros w. apply (subst_arguments val).
Qed.
Print Assumptions C44_unmentioned.

Theorem C44_predicates : forall (C : RealConst) (val : C -> R),
  consts_sound val ->
  forall (p : pred C) s v kv rho x k,
  eval val rho s = Some x -> peval val kv (upd rho v x) p = Some k ->
  peval val kv rho (ksubst p v s) = Some k.
Proof. intros. eapply ksubst_value; eassumption. Qed.
Print Assumptions C44_predicates.

(** Non-vacuity: x*y with x := y+1 then y := 2 is 6. *)
Example C44_nonvacuous :
  sev (at_xy 0 0) (subst_list (Bin Mul sx sy) [(0%nat, Bin Add sy (snum 1)); (1%nat, snum 2)]) = Some 6 /\
  exists rho', assign_all sval (at_xy 0 0)
                 [(0%nat, Bin Add sy (snum 1)); (1%nat, snum 2)] rho'.
Proof.
  split.
  - unfold sev. simpl. f_equal. ring.
  - eexists. eapply aa_cons; [ eapply aa_cons; [ apply aa_nil | reflexivity ] | reflexivity ].
Qed.

(** * C45: structural queries *)

Theorem C45_constant : forall (C : RealConst) (val : C -> R) (e : expr C) vars,
  is_constant_in e vars = true -> constant_fn val e vars.
Proof. intros. now apply constant_ok. Qed.
Print Assumptions C45_constant.

Theorem C45_affine : forall (C : RealConst) (val : C -> R) (e : expr C) vars,
  NoDup vars -> is_affine_in e vars = true -> affine_fn val e vars.
Proof. intros. now apply affine_ok. Qed.
Print Assumptions C45_affine.

Theorem C45_polynomial : forall (C : RealConst) (val : C -> R) (e : expr C) vars,
  is_polynomial_in e vars = true -> polynomial_fn val e vars.
Proof. intros. now apply polynomial_ok. Qed.
Print Assumptions C45_polynomial.

Theorem C45_additive : forall (C : RealConst) (val : C -> R) (e : expr C) v,
  is_additive_in e v = true -> constant_fn val e [v] \/ shift_fn val e v.
Proof. intros. now apply additive_ok. Qed.
Print Assumptions C45_additive.

(** For a vector: every variable is added to at most one component, and the others
    do not depend on it. *)
Theorem C45_additive_vector : forall (C : RealConst) (val : C -> R) (es : list (expr C)) vars,
  vec_is_additive_in es vars = Some true ->
  forall v, In v vars ->
  (forall i e, nth_error es i = Some e -> constant_fn val e [v] \/ shift_fn val e v) /\
  (forall i j e f, nth_error es i = Some e -> nth_error es j = Some f -> i <> j ->
     constant_fn val e [v] \/ constant_fn val f [v]).
Proof. intros C val es vars H v HI. exact (vec_additive_ok val es vars H v HI). Qed.
Print Assumptions C45_additive_vector.

(** The vector query does not always answer: for [abs(x)], in which [y] does not
    occur, it throws because it first computes a derivative it does not use. *)
Theorem C45_additive_vector_throws : vec_is_additive_in [Un Abs sx] [1%nat] = None /\
  constant_fn sval (Un Abs sx) [1%nat].
Proof. split; [ reflexivity | apply constant_ok; reflexivity ]. Qed.
Print Assumptions C45_additive_vector_throws.

(** Non-vacuity: y + sin(x) is additive, affine and polynomial in y; sqr(x)*y is
    affine in y and polynomial in x and y. *)
Example C45_nonvacuous :
  is_additive_in (Bin Add sy (Un Sin sx)) 1 = true /\
  is_affine_in (Bin Add sy (Un Sin sx)) [1%nat] = true /\
  is_constant_in (Un Sin sx) [1%nat] = true /\
  is_affine_in (Bin Mul (Un Sqr sx) sy) [1%nat] = true /\
  is_affine_in (Bin Mul (Un Sqr sx) sy) [0%nat; 1%nat] = false /\
  is_polynomial_in (Bin Mul (Un Sqr sx) sy) [0%nat; 1%nat] = true /\
  is_polynomial_in (Un Sin sx) [0%nat] = false /\
  vec_is_additive_in [Bin Add sy (Un Sin sx); Un Cos sx] [1%nat] = Some true.
Proof. repeat split. Qed.

(** * C46: indicators *)

(** Positive means true and negative means false, whatever one assumes about the
    constants the code cannot decide. *)
Theorem C46_indicator : forall (C : RealConst) (val : C -> R),
  consts_sound val ->
  forall undecided (p : pred C) i rho,
  indicator p true = Some i -> pdefined val rho p ->
  exists x, eval val rho i = Some x /\
    (0 < x -> ptrue val undecided rho p) /\ (x < 0 -> ~ ptrue val undecided rho p).
Proof. intros. now apply indicator_ok. Qed.
Print Assumptions C46_indicator.

(** There is an indicator unless equality is compared or a Kleenean variable occurs. *)
Theorem C46_indicator_exists : forall (C : RealConst) (p : pred C) s,
  each_cmp (fun o => o <> Equal /\ o <> Unequal) p -> no_kvar p ->
  exists i, indicator p s = Some i.
Proof. intros. now apply indicator_total. Qed.
Print Assumptions C46_indicator_exists.

(** Partial: without conjunctions and disjunctions, the negative indicator is the
    negation of the positive one. *)
Theorem C46_negative_partial : forall (C : RealConst) (val : C -> R),
  consts_sound val ->
  forall (p : pred C) i j rho x y,
  no_connective p -> indicator p true = Some i -> indicator p false = Some j ->
  eval val rho i = Some x -> eval val rho j = Some y -> y = - x.
Proof. intros. eapply indicator_negative; eassumption. Qed.
Print Assumptions C46_negative_partial.

(** The full claim is false: for (x >= 0) && (y >= 0) at (1,-1) both indicators are
    negative, though the predicate is false; and for || at (1,-1) both are
    positive, though it is true. *)
Theorem C46_negative_refuted :
  (exists (p : pred sym_reals) i j rho, indicator p true = Some i /\ indicator p false = Some j /\
     sev rho i = Some (-1) /\ sev rho j = Some (-1) /\
     forall und, ~ ptrue sval und rho p) /\
  (exists (p : pred sym_reals) i j rho, indicator p true = Some i /\ indicator p false = Some j /\
     sev rho i = Some 1 /\ sev rho j = Some 1 /\
     forall und, ptrue sval und rho p).
Proof.
  split.
  - exists (KAnd (KCmp Geq sx (snum 0)) (KCmp Geq sy (snum 0))).
    do 2 eexists. exists (at_xy 1 (-1)). split; [ reflexivity | ]. split; [ reflexivity | ].
    unfold sev. simpl. split; [ | split ].
    + f_equal. unfold Rmin. destruct (Rle_dec (1 - 0) (-1 - 0)); lra.
    + f_equal. unfold Rmin. destruct (Rle_dec (0 - 1) (0 - -1)); lra.
    + intros und [_ (x & y & Ex & Ey & L)]. injection Ex as <-. injection Ey as <-. lra.
  - exists (KOr (KCmp Geq sx (snum 0)) (KCmp Geq sy (snum 0))).
    do 2 eexists. exists (at_xy 1 (-1)). split; [ reflexivity | ]. split; [ reflexivity | ].
    unfold sev. simpl. split; [ | split ].
    + f_equal. unfold Rmax. destruct (Rle_dec (1 - 0) (-1 - 0)); lra.
    + f_equal. unfold Rmax. destruct (Rle_dec (0 - 1) (0 - -1)); lra.
    + intros und. left. exists 1, 0. repeat split. lra.
Qed.
Print Assumptions C46_negative_refuted.

(** Non-vacuity: the indicator of !(x<1) || (y>2), at (3,0). *)
Definition pred_ex : pred sym_reals := KOr (KNot (KCmp Less sx (snum 1))) (KCmp Gtr sy (snum 2)).
Example C46_nonvacuous :
  pdefined sval (at_xy 3 0) pred_ex /\
  exists i, indicator pred_ex true = Some i /\ sev (at_xy 3 0) i = Some 2.
Proof.
  split.
  - unfold pred_ex. simpl. repeat split; discriminate.
  - eexists. split; [ reflexivity | ]. unfold sev. simpl. f_equal.
    unfold Rmax. destruct (Rle_dec (- (1 - 3)) (0 - 2)); lra.
Qed.

(** * C55: common subexpressions *)

(** Partial: the value of every expression is preserved if constants of which
    neither comes before the other are recognised as the same. *)
Theorem C55_common_subexpressions_partial : forall (C : RealConst) (val : C -> R),
  consts_sound val ->
  forall ptr_eq, ptr_sound ptr_eq -> (forall a b, ptr_eq a b = ptr_eq b a) ->
  (forall c d, rc_same C c d = rc_same C d c) ->
  (forall c d, rc_before C c d = false -> rc_before C d c = false -> rc_same C c d = true) ->
  forall (e : expr C) rho, eval val rho (eliminate_common_subexpressions ptr_eq e) = eval val rho e.
Proof. intros. now apply cse_value. Qed.
Print Assumptions C55_common_subexpressions_partial.

Theorem C55_common_subexpressions_vector_partial : forall (C : RealConst) (val : C -> R),
  consts_sound val ->
  forall ptr_eq, ptr_sound ptr_eq -> (forall a b, ptr_eq a b = ptr_eq b a) ->
  (forall c d, rc_same C c d = rc_same C d c) ->
  (forall c d, rc_before C c d = false -> rc_before C d c = false -> rc_same C c d = true) ->
  forall (es : list (expr C)) rho,
    map (eval val rho) (cse_list ptr_eq [] es) = map (eval val rho) es.
Proof. intros. now apply cse_list_value. Qed.
Print Assumptions C55_common_subexpressions_vector_partial.

(** The full claim is false: pi*x + pi*y, where pi is known only approximately,
    becomes pi*x + pi*x. *)
Theorem C55_common_subexpressions_refuted :
  exists (e : sexpr) rho x y,
    sev rho e = Some x /\
    sev rho (eliminate_common_subexpressions (no_sharing _) e) = Some y /\ x <> y.
Proof.
  exists (Bin Add (Bin Mul spi sx) (Bin Mul spi sy)), (at_xy 1 0), (PI * 1 + PI * 0), (PI * 1 + PI * 1).
  split; [ reflexivity | ]. split; [ reflexivity | ]. pose proof PI_RGT_0. lra.
Qed.
Print Assumptions C55_common_subexpressions_refuted.

(** Non-vacuity: the hypotheses hold for exactly known constants. *)
Example C55_nonvacuous : forall (e : expr exact_reals) rho,
  eval exact_val rho (eliminate_common_subexpressions (no_sharing _) e) = eval exact_val rho e.
Proof.
  intros e rho. apply C55_common_subexpressions_partial.
  - apply exact_sound.
  - apply no_sharing_sound.
  - reflexivity.
  - apply exact_same_sym.
  - apply exact_comparable.
Qed.

(** * C56: opposite predicates *)

(** Partial: two predicates are never wrongly declared opposite. *)
Theorem C56_opposite_partial : forall (C : RealConst) (p q : pred C),
  opposite p q = Some true -> forall (val : C -> R) und rho, pdefined val rho p -> pdefined val rho q ->
  (ptrue val und rho p <-> ~ ptrue val und rho q).
Proof.
  intros C p q H. destruct p, q; simpl in H; try discriminate.
  destruct (cop_eqb o o0); [ discriminate | ]. destruct (cop_opposite o o0); discriminate.
Qed.
Print Assumptions C56_opposite_partial.

(** The full claim is false: [opposite] throws for each pair of comparisons that could be
    opposite, and answers [false] for all other arguments. *)
Theorem C56_opposite_refuted : forall (C : RealConst) (p q : pred C),
  opposite p q = None <->
  exists o1 a1 b1 o2 a2 b2, p = KCmp o1 a1 b1 /\ q = KCmp o2 a2 b2 /\
    (o1 = o2 \/ cop_opposite o1 o2 = true).
Proof.
  intros C p q. split.
  - destruct p, q; simpl; try discriminate. intros H.
    exists o, e1, e2, o0, e0, e3. split; [ reflexivity | ]. split; [ reflexivity | ].
    destruct (cop_eqb o o0) eqn:E; [ left; destruct o, o0; simpl in E; congruence | ].
    destruct (cop_opposite o o0); [ now right | discriminate ].
  - intros (o1 & a1 & b1 & o2 & a2 & b2 & -> & -> & H). simpl.
    destruct H as [->|H]; [ destruct o2; reflexivity | ]. rewrite H. now destruct (cop_eqb o1 o2).
Qed.
Print Assumptions C56_opposite_refuted.

Example C56_nonvacuous :
  opposite (KCmp Geq sx sy) (KCmp Leq sx sy) = None /\
  opposite (KCmp Less sx sy) (KCmp Less sy sx) = None.
Proof. split; reflexivity. Qed.
