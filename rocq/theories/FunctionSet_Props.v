(** * Properties C140-C149: sets defined by functions

    Functions are arbitrary real functions and the solvers are arbitrary procedures which do what FunctionSet_Spec.v says;
    the theorems hold in every precision.  The examples use the simple solver of FunctionSet_Inst.v in double precision. *)
From Coq Require Import ZArith Reals List Bool Lra Lia.
From Coquelicot Require Import Rbar.
From Flocq Require Import Core IEEE754.BinarySingleNaN.
From Verif Require Import Logical_Model Float_Model Float_Spec Float_Proofs Bounds_Model Bounds_Spec Bounds_Proofs Bounds_Props Ball_Props Box_Num_Proofs.
From Verif Require Import ConstraintSolver_Model ConstraintSolver_Spec FunctionSet_Model FunctionSet_Spec FunctionSet_Proofs FunctionSet_Inst.
Import ListNotations.
Local Open Scope R_scope.

Local Lemma Forall2_length {A B} (P : A -> B -> Prop) l m : Forall2 P l m -> length l = length m.
Proof. induction 1; cbn; auto. Qed.

Section Positive.
  Context (prec emax : Z) (Hprec : Prec_gt_0 prec) (Hemax : Prec_lt_emax prec emax).
  Context (RR F : Type) (rv : RR -> Rbar) (den : F -> list R -> R) (ops : @function_operations prec emax RR F) (SO : sound_ops rv den ops).
  Local Notation cbox := (list (bounds prec emax)).

  (** ** C140: intersections
      Full claim: the points of an intersection are those of both sets.  Proved for two constraint sets, where the dimension is
      right if one of the sets has a constraint, and for a constraint set and a box. *)
  Theorem C140_intersection_partial : forall (S1 S2 : @cset RR F) (b : list (@rivl RR)) x,
    (forall S, cs_dim S1 = cs_dim S2 -> List.Forall (fun c => fo_args ops (c_fun c) = cs_dim S1) (cs_cons S1 ++ cs_cons S2) -> cs_cons S1 ++ cs_cons S2 <> [] ->
     cs_intersection ops S1 S2 = Some S -> (in_cset rv den S x <-> in_cset rv den S1 x /\ in_cset rv den S2 x)) /\
    (length b = cs_dim S1 -> (in_bset rv den (cs_meet_box S1 b) x <-> in_cset rv den S1 x /\ in_real_box rv b x)).
  Proof.
    intros S1 S2 b x. split.
    - intros S D A N E. unfold cs_intersection, cs_of_list in E. destruct (cs_cons S1 ++ cs_cons S2) as [|c cs] eqn:L; [contradiction|].
      destruct forallb; [|discriminate]. injection E as <-. unfold in_cset; cbn [cs_dim cs_cons]. inversion A; subst. rewrite H1, <- L, <- D, hold_app. tauto.
    - intros L. unfold in_bset, in_cset; cbn [bs_dom bs_cons cs_meet_box]. split; [|tauto]. intros [A B]. split; auto. split; auto. rewrite <- L. symmetry. eapply Forall2_length; eauto.
  Qed.
  (** What the other overloads compute: points whose coordinates are in the bounds of the constraints. *)
  Theorem C140_overloads : forall rmax rmin, is_max rv rmax -> is_min rv rmin -> forall (S1 S2 : @bset RR F) (T : @cset RR F) b d x,
    (length (bs_cons S1) = length (bs_cons S2) -> bs_intersection rmax rmin S1 S2 = Some d ->
      (in_bset rv den d x <-> in_real_box rv (c_real_bounds (bs_cons S1)) x /\ in_real_box rv (c_real_bounds (bs_cons S2)) x /\
        all_hold rv den (bs_cons S1) x /\ all_hold rv den (bs_cons S2) x)) /\
    (length (bs_cons S1) = length b -> bs_meet_box rmax rmin S1 b = Some d ->
      (in_bset rv den d x <-> in_real_box rv (c_real_bounds (bs_cons S1)) x /\ in_real_box rv b x /\ all_hold rv den (bs_cons S1) x)) /\
    (in_bset rv den (bs_meet_cs S1 T) x <-> in_real_box rv (c_real_bounds (bs_cons S1)) x /\ all_hold rv den (bs_cons S1) x /\ all_hold rv den (cs_cons T) x).
  Proof.
    intros rmax rmin MX MN S1 S2 T b d x. split; [|split].
    - intros L E. assert (length (c_real_bounds (bs_cons S1)) = length (c_real_bounds (bs_cons S2))) as LL by (unfold c_real_bounds; rewrite !map_length; exact L). unfold bs_intersection in E. destruct real_meet as [r|] eqn:M; [|discriminate]. injection E as <-.
      pose proof (real_meet_in rv rmax rmin MX MN _ _ r x LL M) as K.
      unfold in_bset; cbn [bs_dom bs_cons]. rewrite hold_app. tauto.
    - intros L E. assert (length (c_real_bounds (bs_cons S1)) = length b) as LL by (unfold c_real_bounds; rewrite map_length; exact L). unfold bs_meet_box in E. destruct real_meet as [r|] eqn:M; [|discriminate]. injection E as <-.
      pose proof (real_meet_in rv rmax rmin MX MN _ _ r x LL M) as K.
      unfold in_bset; cbn [bs_dom bs_cons]. tauto.
    - unfold in_bset; cbn [bs_dom bs_cons bs_meet_cs]. rewrite hold_app. tauto.
  Qed.

  (** ** C141: a set which is said to be separated from a box has no point in it *)
  Theorem C141_separated : forall (bx : cbox) effort y,
    (forall S, cs_separated ops S bx effort = true -> in_cset rv den S y -> ~ in_cbox bx y) /\
    (forall S, bs_separated ops S bx effort = true -> in_bset rv den S y -> ~ in_cbox bx y) /\
    (forall S, is_separated ops S bx effort = true -> in_iset rv den S y -> ~ in_cbox bx y) /\
    (forall V, made ops V -> v_separated ops V bx = true -> in_vset rv den V y -> ~ in_cbox bx y).
  Proof.
    intros bx effort y. split; [|split; [|split]].
    - intros S E [_ H] I. unfold cs_separated in E.
      eapply (v_separated_sound rv den ops SO (v_make bx (c_functions (cs_cons S)) [])); [apply (made_valid rv den ops SO); constructor|exact E| |apply (over_cons rv den ops SO); exact H].
      exists y. cbn. split; [auto|]. split; [constructor|auto].
    - intros S E [D H] I. unfold bs_separated in E. cbv zeta in E. pose proof (over_box rv den ops SO _ _ D) as O.
      destruct box_disjoint eqn:DJ; [eapply disjoint_none; eauto|].
      eapply (v_separated_sound rv den ops SO (v_make (box_meet bx _) (c_functions (bs_cons S)) [])); [apply (made_valid rv den ops SO); constructor|exact E| |apply (over_cons rv den ops SO); exact H].
      exists y. cbn. split; [apply box_meet_in; auto|]. split; [constructor|auto].
    - intros S E (s & D & H & ->) I. unfold is_separated in E. apply (empty_none _ s E). apply (so_reduce _ _ _ SO); [apply (over_box rv den ops SO); auto|].
      rewrite vals_app. apply in_app; auto. apply (over_cons rv den ops SO); auto.
    - intros V M. apply v_separated_sound; auto. apply (made_valid rv den ops SO); auto.
  Qed.

  (** ** C142: bounding boxes, and sets which are said to be inside a box *)
  Theorem C142_inside : forall (bx : cbox) effort y,
    (forall S, length (bs_dom S) = length bx -> bs_inside ops S bx effort = true -> in_bset rv den S y -> in_inner bx y) /\
    (forall S, length (is_fun S) = length bx -> is_inside ops S bx effort = true -> in_iset rv den S y -> in_inner bx y) /\
    (forall V, made ops V -> length (v_fun V) = length bx -> v_inside ops V bx = true -> in_vset rv den V y -> in_inner bx y).
  Proof.
    intros bx effort y. split; [|split].
    - intros S L E [D _]. eapply inside_inner; [|exact E|apply (over_box rv den ops SO); exact D]. rewrite map_length; auto.
    - intros S L E (s & D & _ & ->). eapply inside_inner; [|exact E|apply (range_in rv den ops SO), (over_box rv den ops SO); exact D].
      unfold is_bounding_box, apply_range. rewrite map_length; auto.
    - intros V M L E H. eapply inside_inner; [|exact E|apply (v_bounding rv den ops SO); auto; apply (made_valid rv den ops SO); auto].
      unfold v_bounding_box, apply_range. rewrite map_length; auto.
  Qed.
  Theorem C142_bounding_box : forall y,
    (forall S (tiny : binary_float prec emax), is_finite tiny = true -> 0 <= B2R tiny -> in_bset rv den S y -> in_cbox (bs_bounding_box ops tiny S) y) /\
    (forall S, in_iset rv den S y -> in_cbox (is_bounding_box ops S) y) /\
    (forall V, made ops V -> in_vset rv den V y -> in_cbox (v_bounding_box ops V) y).
  Proof.
    intros y. split; [|split].
    - intros S tiny FT PT [D _]. unfold bs_bounding_box. revert D. unfold in_real_box. intros D. induction D as [|i r b x Hi Hb IH]; constructor; auto.
      destruct (over_contains rv den ops SO i r Hi) as [A B]. destruct (b_of_contains tiny FT) as [CT1 CT2].
      split; [eapply below_le; [apply (fsub_down_below _ _ _ _ A CT2)|lra]|eapply above_ge; [apply (fadd_up_above _ _ _ _ B CT2)|lra]].
    - intros S (s & D & _ & ->). apply (range_in rv den ops SO), (over_box rv den ops SO); auto.
    - intros V M H. apply (v_bounding rv den ops SO); auto. apply (made_valid rv den ops SO); auto.
  Qed.

  (** ** C143: a set which is said to cover a box contains it *)
  Theorem C143_covers : forall (bx : cbox) effort x, in_cbox bx x ->
    (forall S, length bx = cs_dim S -> cs_covers ops S bx effort = true -> in_cset rv den S x) /\
    (forall S, length bx = length (bs_dom S) -> bs_covers ops S bx effort = true -> in_bset rv den S x).
  Proof.
    intros bx effort x I.
    assert (forall cs, box_inside (apply_range ops (c_functions cs) bx) (c_under ops cs) = true -> all_hold rv den cs x) as K.
    { intros cs E. apply (under_cons rv den ops SO). apply inner_in. eapply inside_inner; [|exact E|apply (range_in rv den ops SO); auto].
      unfold apply_range, c_functions, c_under. rewrite !map_length. reflexivity. }
    split.
    - intros S L E. split; [rewrite <- L; symmetry; eapply Forall2_length; eauto|]. apply K; auto.
    - intros S L E. unfold bs_covers in E. destruct (negb _) eqn:C; [discriminate|]. apply negb_false_iff in C.
      split; [|apply K; auto]. apply (under_box rv den ops SO), inner_in. eapply covers_inner; [|exact C|auto]. rewrite map_length; auto.
  Qed.

  (** ** C144: a set which is said to overlap a box
      Full claim: it has a point in the interior of the box.  Proved: it has a point in the box, if the parameter domain which is
      searched has its ends in the right order and the bounds of the constraints are floats. *)
  Theorem C144_overlaps_partial : forall (bx : cbox) effort,
    (forall S, length bx = cs_dim S -> box_empty bx = false -> cs_overlaps ops S bx effort = Some true -> exists x, in_cset rv den S x /\ in_cbox bx x) /\
    (forall S, length bx = length (bs_dom S) -> box_empty (box_meet bx (map (under ops) (bs_dom S))) = false -> List.Forall no_nan bx ->
      List.Forall (fun i => Rbar_le (rv (i_lo i)) (rv (i_up i))) (bs_dom S) -> List.Forall (fun X => finite_bounds X /\ B2R (b_l X) <= B2R (b_u X)) bx ->
      bs_overlaps ops S bx effort = Some true -> exists x, in_bset rv den S x /\ in_cbox bx x) /\
    (forall S, length bx = length (is_fun S) -> box_empty (map (under ops) (is_dom S)) = false -> exact_bounds rv ops (is_cons S) ->
      is_overlaps ops S bx effort = Some true -> exists x, in_iset rv den S x /\ in_cbox bx x) /\
    (forall V, made ops V -> length bx = length (v_fun V) -> box_empty (v_red V) = false -> exact_bounds rv ops (v_cons V) ->
      v_overlaps ops V bx = Some true -> exists x, in_vset rv den V x /\ in_cbox bx x).
  Proof.
    intros bx effort.
    assert (forall D cs, box_empty D = false -> v_overlaps ops (v_make D (c_functions cs) []) (c_under ops cs) = Some true -> exists s, in_cbox D s /\ all_hold rv den cs s) as K.
    { intros D cs N E. apply (v_overlaps_sound rv den ops SO) in E; auto.
      - destruct E as (s & I & _ & J). exists s. split; auto. apply (under_cons rv den ops SO); auto.
      - apply (made_valid rv den ops SO); constructor.
      - cbn. unfold c_under, c_functions. rewrite !map_length; auto. }
    split; [|split; [|split]].
    - intros S L N E. destruct (K _ _ N E) as (s & I & J). exists s. split; auto. split; auto. rewrite <- L. symmetry. eapply Forall2_length; eauto.
    - intros S L N NN OD OB E. unfold bs_overlaps in E. destruct box_disjoint; [discriminate|].
      destruct (Nat.eqb (length (bs_cons S)) 0 && _) eqn:T.
      + apply andb_prop in T. destruct T as [T1 T2]. apply Nat.eqb_eq in T1. apply length_zero_iff_nil in T1.
        destruct (intersect_point rv den ops SO (bs_dom S) bx) as (x & P & Q); auto. exists x. split; auto. split; auto. rewrite T1. constructor.
      + destruct (K _ _ N E) as (s & I & J). apply box_meet_both in I; auto.
        * exists s. split; [split; auto; apply (under_box rv den ops SO); tauto|tauto].
        * rewrite map_length; auto.
        * apply Forall_map, Forall_forall. intros i _. eapply under_nn; eauto.
    - intros S L N X E. apply (v_overlaps_sound rv den ops SO) in E; auto; [|apply (made_valid rv den ops SO); constructor].
      cbn in E. destruct E as (s & I & J & K'). exists (values den (is_fun S) s). split; auto. exists s. split; [apply (under_box rv den ops SO); auto|].
      split; auto. eapply nearly_exact; eauto.
    - intros V M L N X E. pose proof (made_valid rv den ops SO V M) as W. apply (v_overlaps_sound rv den ops SO) in E; auto.
      destruct E as (s & I & J & K'). exists (values den (v_fun V) s). split; auto. exists s. split; [apply W; auto|]. split; auto. eapply nearly_exact; eauto.
  Qed.

  (** ** C145: satisfaction of a constraint by all points of a set
      Full claim: TRUE means that the constraint holds at all points of the set, FALSE that it does not hold at one of them.
      Proved: TRUE means that it holds at all points up to the rounding of its bounds; FALSE for a constraint with a
      finite upper bound means that at a point of the set, up to the rounding of domain and constraints, it does not hold with
      strict inequalities. *)
  Theorem C145_satisfies_partial : forall nc effort,
    (forall V y, made ops V -> v_satisfies ops V nc = TRUE -> in_vset rv den V y -> contains (over ops (c_bounds nc)) (den (c_fun nc) y)) /\
    (forall S y, is_satisfies ops S nc effort = TRUE -> in_iset rv den S y -> contains (over ops (c_bounds nc)) (den (c_fun nc) y)) /\
    (flt_lt (b_u (fo_get ops (i_up (c_bounds nc)))) finf = true ->
     (forall V, v_satisfies ops V nc = FALSE -> exists s, in_cbox (v_dom V) s /\ nearly_hold den ops (v_cons V) s /\
        ~ inner (over ops (c_bounds nc)) (den (c_fun nc) (values den (v_fun V) s))) /\
     (forall S, is_satisfies ops S nc effort = FALSE -> exists s, in_cbox (map (over ops) (is_dom S)) s /\ nearly_hold den ops (is_cons S) s /\
        ~ inner (under ops (c_bounds nc)) (den (c_fun nc) (values den (is_fun S) s)))).
  Proof.
    intros nc effort.
    destruct (so_get _ _ _ SO (i_lo (c_bounds nc))) as ([NL1 NL2] & PL1 & PL2 & PL3 & PL4). destruct (so_get _ _ _ SO (i_up (c_bounds nc))) as ([NU1 NU2] & PU1 & PU2 & PU3 & PU4).
    assert (forall cs s, all_hold rv den cs s -> nearly_hold den ops cs s) as AN.
    { intros cs s H. induction H; constructor; auto. apply (over_contains rv den ops SO); auto. }
    assert (forall (f : binary_float prec emax) r, is_nan f = false -> below f r \/ above f r) as TOT.
    { intros f r N. destruct f as [s|[]| |s m e Hf]; cbn; auto; try discriminate; lra. }
    assert (forall r, above (finf : binary_float prec emax) r /\ below (fneg finf : binary_float prec emax) r) as INF by (intros; split; reflexivity).
    assert (forall f : binary_float prec emax, is_nan f = false -> flt_lt (fneg finf) f = false -> forall r, below f r) as MINF.
    { intros f N L r. destruct f as [s|[]| |s m e Hf]; cbn in *; try discriminate; auto. }
    assert (forall V y, in_vset rv den V y -> v_satisfies ops V nc = TRUE -> in_cbox (v_bounding_box ops V) y -> contains (over ops (c_bounds nc)) (den (c_fun nc) y)) as KV.
    { intros V y (s & D & H & ->) E BB. unfold v_satisfies in E. cbv zeta in E. destruct (ivl_subset _ _) eqn:FT.
      - unfold ivl_subset in FT. apply andb_prop in FT. destruct FT as [F1 F2]. destruct (so_range _ _ _ SO (c_fun nc) _ _ BB) as [A B].
        split; [eapply refines_below|eapply refines_above]; eauto.
      - destruct (satisfies_true rv den ops SO _ _ _ _ _ _ E s D (AN _ _ H)) as [U L]. split; cbn [b_l b_u over] in *.
        + destruct (flt_lt (fneg finf) (b_l (fo_get ops (i_lo (c_bounds nc))))) eqn:FL; [|apply MINF; auto].
          destruct (TOT _ (den (c_fun nc) (values den (v_fun V) s)) NL1) as [T|T]; auto. exfalso. apply L; auto. split; cbn [b_l b_u]; [exact (proj2 (INF _))|auto].
        + destruct (TOT _ (den (c_fun nc) (values den (v_fun V) s)) NU2) as [T|T]; auto. exfalso. apply U. split; cbn [b_l b_u]; [auto|exact (proj1 (INF _))]. }
    split; [|split; [|intros FU; split]].
    - intros V y M E H. apply (KV V); auto. apply (v_bounding rv den ops SO); auto. apply (made_valid rv den ops SO); auto.
    - intros S y E (s & D & H & ->). pose proof (range_in rv den ops SO (is_fun S) _ _ (over_box rv den ops SO _ _ D)) as BB. unfold is_satisfies in E. cbv zeta in E. destruct (ivl_subset _ _) eqn:FT.
      + unfold ivl_subset in FT. apply andb_prop in FT. destruct FT as [F1 F2]. destruct (so_range _ _ _ SO (c_fun nc) _ _ BB) as [A B].
        split; [eapply refines_below|eapply refines_above]; eauto.
      + destruct (satisfies_true rv den ops SO _ _ _ _ _ _ E s (over_box rv den ops SO _ _ D) (AN _ _ H)) as [U L].
        set (v := den (c_fun nc) (values den (is_fun S) s)) in *. split; cbn [b_l b_u over] in *.
        * destruct (flt_lt (fneg finf) (b_l (fo_get ops (i_lo (c_bounds nc))))) eqn:FL; [|apply MINF; auto].
          destruct (Rbar_le_lt_dec (rv (i_lo (c_bounds nc))) (Finite v)) as [Q|Q]; [apply PL1; auto|]. exfalso. apply L; auto. split; cbn [b_l b_u]; [exact (proj2 (INF _))|].
          apply PL2. apply Rbar_lt_le. exact Q.
        * destruct (Rbar_le_lt_dec (Finite v) (rv (i_up (c_bounds nc)))) as [Q|Q]; [apply PU2; auto|]. exfalso. apply U. split; cbn [b_l b_u]; [|exact (proj1 (INF _))].
          apply PU1. apply Rbar_lt_le. exact Q.
    - intros V E. unfold v_satisfies in E. cbv zeta in E. apply (satisfies_false rv den ops SO) in E; auto. destruct E as (s & I & N & C). exists s. split; auto. split; auto.
      intros [SB SA]. cbn [over b_l b_u] in *. destruct C as [[C _]|[_ C]]; cbn [b_l b_u] in C.
      + revert SA C. destruct (b_u (fo_get ops (i_up (c_bounds nc)))) as [?|[]| |?]; cbn; intros; try lra; discriminate.
      + revert SB C. destruct (b_l (fo_get ops (i_lo (c_bounds nc)))) as [?|[]| |?]; cbn; intros; try lra; discriminate.
    - intros S E. unfold is_satisfies in E. cbv zeta in E. apply (satisfies_false rv den ops SO) in E; auto. destruct E as (s & I & N & C). exists s. split; auto. split; auto.
      intros [SB SA]. cbn [under b_l b_u] in *. destruct C as [[C _]|[_ C]]; cbn [b_l b_u] in C.
      + revert SA C. destruct (b_l (fo_get ops (i_up (c_bounds nc)))) as [?|[]| |?]; cbn; intros; try lra; discriminate.
      + revert SB C. destruct (b_u (fo_get ops (i_lo (c_bounds nc)))) as [?|[]| |?]; cbn; intros; try lra; discriminate.
  Qed.

  (** ** C147: operations on image sets
      Applying a function, adding constraints, reducing the domain, taking the image of a constraint set and splitting give
      exactly the sets which they should. *)
  Theorem C147_operations : forall (V : @vset prec emax RR F) (S : @iset RR F) (B : @bset RR F) h c y,
    (in_vset rv den (v_apply ops h V) y <-> exists x, in_vset rv den V x /\ y = values den h x) /\
    (in_vset rv den (v_space_constraint ops c V) y <-> in_vset rv den V y /\ holds rv den c y) /\
    (in_vset rv den (v_parameter_constraint c V) y <-> exists s, in_cbox (v_dom V) s /\ all_hold rv den (v_cons V) s /\ holds rv den c s /\ y = values den (v_fun V) s) /\
    (in_vset rv den (v_reduce ops V) y <-> in_vset rv den V y) /\
    (in_iset rv den (is_apply ops h S) y <-> exists x, in_iset rv den S x /\ y = values den h x) /\
    (in_iset rv den (is_space_constraint ops c S) y <-> in_iset rv den S y /\ holds rv den c y) /\
    (in_iset rv den (bs_image B h) y <-> exists x, in_bset rv den B x /\ y = values den h x).
  Proof.
    intros V S B h c y. unfold in_vset, in_iset, in_bset; cbn [v_dom v_cons v_fun v_apply v_space_constraint v_parameter_constraint v_reduce is_dom is_fun is_cons is_apply is_space_constraint bs_image].
    assert (forall fs s, holds rv den (mkC (fo_compose ops (c_fun c) fs) (c_bounds c)) s <-> holds rv den c (values den fs s)) as HC.
    { intros fs s. unfold holds; cbn. rewrite (so_compose _ _ _ SO). tauto. }
    assert (forall c s, all_hold rv den [c] s <-> holds rv den c s) as H1.
    { intros c' s. split; [intros H; inversion H; auto|intros; constructor; auto; constructor]. }
    split; [|split; [|split; [|split; [|split; [|split]]]]]; [split|split|split|split; auto|split|split|split].
    - intros (s & D & C & ->). rewrite (vals_compose rv den ops SO). exists (values den (v_fun V) s). eauto 6.
    - intros (x & (s & D & C & ->) & ->). exists s. rewrite (vals_compose rv den ops SO). eauto.
    - intros (s & D & C & ->). apply hold_app in C. rewrite H1, HC in C. destruct C as [C K]. split; [exists s; auto|auto].
    - intros [(s & D & C & ->) K]. exists s. rewrite hold_app, H1, HC. tauto.
    - intros (s & D & C & ->). apply hold_app in C. rewrite H1 in C. exists s. tauto.
    - intros (s & D & C & K & ->). exists s. rewrite hold_app, H1. tauto.
    - intros (s & D & C & ->). rewrite (vals_compose rv den ops SO). exists (values den (is_fun S) s). eauto 6.
    - intros (x & (s & D & C & ->) & ->). exists s. rewrite (vals_compose rv den ops SO). eauto.
    - intros (s & D & C & ->). apply hold_app in C. rewrite H1, HC in C. destruct C as [C K]. split; [exists s; auto|auto].
    - intros [(s & D & C & ->) K]. exists s. rewrite hold_app, H1, HC. tauto.
    - intros (s & D & C & ->). eauto.
    - intros (s & (D & C) & ->). eauto.
  Qed.
  (** The pieces of a split set make up the set, and a restriction is a part of it. *)
  Theorem C147_split : forall y,
    (forall V j V1 V2, made ops V -> List.Forall finite_bounds (v_dom V) -> v_split ops j V = Some (V1, V2) -> in_vset rv den V y -> in_vset rv den V1 y \/ in_vset rv den V2 y) /\
    (forall (V : @vset prec emax RR F) D W, length D = length (v_dom V) -> v_restriction D V = Some W ->
      (in_vset rv den W y <-> exists s, in_cbox D s /\ in_cbox (v_dom V) s /\ all_hold rv den (v_cons V) s /\ y = values den (v_fun V) s)) /\
    (forall half (S : @iset RR F) j S1 S2, is_middle rv half -> is_split half j S = Some (S1, S2) ->
      List.Forall (fun i => Rbar_le (rv (i_lo i)) (rv (i_up i))) (is_dom S) -> (in_iset rv den S y <-> in_iset rv den S1 y \/ in_iset rv den S2 y)).
  Proof.
    intros y. split; [|split].
    - intros V j V1 V2 M FB E (s & D & C & ->). destruct (made_valid rv den ops SO V M) as [A _]. unfold v_split in E. destruct split_at as [[d1 d2]|] eqn:SP; [|discriminate].
      injection E as <- <-. destruct (split_covers rv den ops SO _ _ _ _ s SP FB D) as [I|I]; [left|right]; exists s; cbn; (split; [apply box_meet_in; auto|auto]).
    - intros V D W L E. unfold v_restriction in E. destruct box_subset eqn:SB; [|discriminate]. injection E as <-. unfold in_vset; cbn. split.
      + intros (s & I & C & ->). exists s. split; auto. split; auto. eapply subset_in; eauto.
      + intros (s & I & _ & C & ->). eauto.
    - intros half S j S1 S2 HM E O. unfold is_split in E. destruct nth_error as [i|] eqn:N; [|discriminate]. cbv zeta in E. injection E as <- <-.
      unfold in_iset; cbn [is_dom is_fun is_cons].
      assert (Rbar_le (rv (i_lo i)) (rv (i_up i))) as OI by (rewrite Forall_forall in O; apply O; eapply nth_error_In; eauto).
      destruct (HM _ _ OI) as [M1 M2].
      assert (forall j b s, nth_error b j = Some i -> (in_real_box rv b s <-> in_real_box rv (set_at j (mkRI (i_lo i) (half (i_lo i) (i_up i))) b) s \/
        in_real_box rv (set_at j (mkRI (half (i_lo i) (i_up i)) (i_up i)) b) s)) as K.
      { clear - M1 M2. induction j; intros [|a b] s E; try discriminate E; cbn in *.
        - injection E as ->. split.
          + intros H. inversion H as [|? r ? ? [A B] R]; subst. destruct (Rbar_le_lt_dec (Finite r) (rv (half (i_lo i) (i_up i)))) as [Q|Q]; [left|right]; constructor; auto; split; auto.
            cbn [i_lo]. apply Rbar_lt_le; auto.
          + intros [H|H]; inversion H as [|? r ? ? [A B] R]; subst; constructor; auto; split; cbn [i_lo i_up] in *; auto; eapply Rbar_le_trans; eauto.
        - split.
          + intros H. inversion H; subst. destruct (proj1 (IHj _ _ E) H4); [left|right]; constructor; auto.
          + intros [H|H]; inversion H; subst; constructor; auto; apply (proj2 (IHj _ l' E)); auto. }
      split.
      + intros (s & D & C & ->). apply (proj1 (K _ _ s N)) in D. destruct D; [left|right]; eauto.
      + intros [(s & D & C & ->)|(s & D & C & ->)]; exists s; (split; [apply (proj2 (K _ _ s N)); auto|auto]).
  Qed.

  (** ** C148: emptiness.  Full claim: [is_empty] is TRUE only for an empty set and FALSE only for a nonempty set. *)
  Theorem C148_is_empty_partial : forall V y, made ops V -> v_is_empty ops V = TRUE -> ~ in_vset rv den V y.
  Proof.
    intros V y M E (s & D & C & _). destruct (made_valid rv den ops SO _ (made_reduce ops V M)) as [A _]. unfold v_is_empty in E.
    destruct (box_empty (v_red (v_reduce ops V))) eqn:B; [|discriminate]. apply (empty_none _ s B). apply A; auto.
  Qed.

  (** ** C149: conversion of a bounded constraint set to an image set.  Full claim: the set is the same.  Proved: no point is
      lost. *)
  Theorem C149_conversion_partial : forall S x, in_bset rv den S x -> in_iset rv den (is_of_bounded ops S) x.
  Proof.
    intros S x [D C]. exists x. cbn [is_of_bounded is_dom is_fun is_cons]. split; [|split; auto].
    - clear C. unfold in_real_box in *. induction D as [|i r b x Hi Hb IH]; constructor; auto. destruct (over_contains rv den ops SO i r Hi) as [A B].
      destruct (over_nn rv den ops SO i) as [N1 N2]. split; cbn [exact_ivl i_lo i_up]; apply (so_float _ _ _ SO); auto.
    - symmetry. apply (identity_values rv den ops SO). symmetry. eapply Forall2_length; eauto.
  Qed.
End Positive.
Print Assumptions C140_intersection_partial.
Print Assumptions C140_overloads.
Print Assumptions C141_separated.
Print Assumptions C142_inside.
Print Assumptions C142_bounding_box.
Print Assumptions C143_covers.
Print Assumptions C144_overlaps_partial.
Print Assumptions C145_satisfies_partial.
Print Assumptions C147_operations.
Print Assumptions C147_split.
Print Assumptions C148_is_empty_partial.
Print Assumptions C149_conversion_partial.

(** ** Examples *)
Local Notation n z := (WF (dp z 0)).
Local Notation ri a b := (@mkRI wnum a b).
Local Notation B a b := (@mkB 53 1024 (dp a 0) (dp b 0)).
Local Notation x1 := (wcoordinate 1 0).
Lemma wrv_int : wrv (n (-1)) = Finite (-1) /\ wrv (n 0) = Finite 0 /\ wrv (n 1) = Finite 1 /\ wrv (n 2) = Finite 2 /\ wrv (n 3) = Finite 3 /\ wrv (n 6) = Finite 6 /\
  wrv (n 8) = Finite 8 /\ wrv (n 10) = Finite 10 /\ wrv (n 20) = Finite 20 /\ wrv (WF third_l) = Finite (B2R third_l) /\ wrv (WF third_u) = Finite (B2R third_u) /\ wrv WThird = Finite (/3) /\
  wrv (WF finf) = p_infty /\ wrv (WF (fneg finf)) = m_infty.
Proof.
  assert (forall f : DP, is_finite f = true -> wrv (WF f) = Finite (B2R f)) as K.
  { intros f H. unfold wrv. rewrite (fin_not_nan f H). apply fval_fin; auto. }
  repeat match goal with |- _ /\ _ => split end; try reflexivity; rewrite K by reflexivity; try reflexivity; f_equal;
  match goal with |- B2R ?f = _ => dpval f end; lra.
Qed.
Ltac wint := destruct wrv_int as (Wm1 & W0 & W1 & W2 & W3 & W6 & W8 & W10 & W20 & Wl & Wu & Wt & Wi & Wj);
  rewrite ?Wm1, ?W0, ?W1, ?W2, ?W3, ?W6, ?W8, ?W10, ?W20, ?Wl, ?Wu, ?Wt, ?Wi, ?Wj in *; clear Wm1 W0 W1 W2 W3 W6 W8 W10 W20 Wl Wu Wt Wi Wj.
Ltac wc := cbn [w_den wtwice wnull wcoordinate nth Rbar_le] in *.
Definition wmax (a b : wnum) : wnum := if Rbar_le_lt_dec (wrv a) (wrv b) then b else a.
Definition wmin (a b : wnum) : wnum := if Rbar_le_lt_dec (wrv a) (wrv b) then a else b.
Lemma wmax_ok : is_max wrv wmax.
Proof. intros a b r. unfold wmax. destruct Rbar_le_lt_dec as [H|H]; split; try tauto; intros K; split; auto; [eapply Rbar_le_trans; eauto|apply Rbar_lt_le in H; eapply Rbar_le_trans; eauto]. Qed.
Lemma wmin_ok : is_min wrv wmin.
Proof. intros a b r. unfold wmin. destruct Rbar_le_lt_dec as [H|H]; split; try tauto; intros K; split; auto; [eapply Rbar_le_trans; eauto|apply Rbar_lt_le in H; eapply Rbar_le_trans; eauto]. Qed.
(** One-dimensional sets. *)
Lemma in_bset1 a b cs x : in_bset wrv w_den (mkBS [ri a b] cs) x <-> exists r, x = [r] /\ (Rbar_le (wrv a) (Finite r) /\ Rbar_le (Finite r) (wrv b)) /\ all_hold wrv w_den cs [r].
Proof.
  split.
  - intros [D H]. cbn in D. inversion D as [|? r ? l' R Q]; subst. inversion Q; subst. exists r. auto.
  - intros (r & -> & D & H). split; auto. constructor; auto; constructor.
Qed.
Lemma hold1 c x : all_hold wrv w_den [c] x <-> Rbar_le (wrv (i_lo (c_bounds c))) (Finite (w_den (c_fun c) x)) /\ Rbar_le (Finite (w_den (c_fun c) x)) (wrv (i_up (c_bounds c))).
Proof. split; [intros H; inversion H; auto|intros; constructor; auto; constructor]. Qed.
Lemma in_box1 (X : bounds 53 1024) x : in_cbox [X] x <-> exists r, x = [r] /\ contains X r.
Proof. split; [intros H; inversion H as [|? r ? ? R Q]; inversion Q; subst; eauto|intros (r & -> & H); constructor; auto; constructor]. Qed.
Lemma in_real1 a b s : in_real_box wrv [ri a b] s -> exists r, s = [r] /\ Rbar_le (wrv a) (Finite r) /\ Rbar_le (Finite r) (wrv b).
Proof. intros H. inversion H as [|? r ? ? R Q]; inversion Q; subst. exists r. split; [reflexivity|exact R]. Qed.
Lemma in_inner1 (X : bounds 53 1024) x : in_inner [X] x <-> exists r, x = [r] /\ inner X r.
Proof. split; [intros H; inversion H as [|? r ? ? R Q]; inversion Q; subst; eauto|intros (r & -> & H); constructor; auto; constructor]. Qed.

(** *** C140 *)
Definition six_eight := mkC (wtwice 1) (ri (n 6) (n 8)).
Definition three_four := mkBS [ri (n 0) (n 10)] [six_eight].
Theorem C140_intersection_refuted : is_max wrv wmax /\ is_min wrv wmin /\
  (** a point is lost: both sets are [[3,4]], the intersection has no point *)
  (exists S d, bs_intersection wmax wmin S S = Some d /\ (exists x, in_bset wrv w_den S x) /\ (forall x, ~ in_bset wrv w_den d x)) /\
  (** a point is added: [5] is not in [[0,1]] *)
  (exists S (T : @cset wnum wfun) x, in_bset wrv w_den (bs_meet_cs S T) x /\ ~ in_bset wrv w_den S x) /\
  (** a coordinate beyond the end is accessed although both sets are in the same space *)
  (exists S1 S2 : @bset wnum wfun, length (bs_dom S1) = length (bs_dom S2) /\ bs_intersection wmax wmin S1 S2 = None) /\
  (** the whole space loses its dimension *)
  (exists (S T : @cset wnum wfun) x, in_cset wrv w_den S x /\ cs_intersection wops S S = Some T /\ ~ in_cset wrv w_den T x).
Proof.
  split; [apply wmax_ok|]. split; [apply wmin_ok|]. split; [|split; [|split]].
  - exists three_four, (mkBS [ri (wmax (n 6) (n 6)) (wmin (n 8) (n 8))] [six_eight; six_eight]). split; [reflexivity|]. split.
    + exists [7/2]. apply in_bset1. exists (7/2). split; auto. rewrite hold1. cbn [i_lo i_up c_bounds c_fun six_eight]. wint. wc. lra.
    + intros x H. apply in_bset1 in H. destruct H as (r & -> & H1 & H2). inversion H2 as [|? ? [H3 H4] _]; subst. clear H2.
      assert (wrv (wmax (n 6) (n 6)) = Finite 6 /\ wrv (wmin (n 8) (n 8)) = Finite 8) as [E1 E2] by (unfold wmax, wmin; split; destruct Rbar_le_lt_dec; apply wrv_int).
      cbn [i_lo i_up c_bounds c_fun six_eight] in *. rewrite E1, E2 in H1. wint. wc. lra.
  - exists (mkBS [ri (n 0) (n 1)] [mkC (wtwice 1) (ri (n 0) (n 20))]), (mkCS 1 []), [5]. split.
    + apply (proj2 (in_bset1 (n 0) (n 20) [mkC (wtwice 1) (ri (n 0) (n 20))] [5])). exists 5. split; auto. rewrite hold1. cbn [i_lo i_up c_bounds c_fun]. wint. wc. lra.
    + intros H. apply in_bset1 in H. destruct H as (r & E & [_ H] & _). injection E as <-. wint. wc. lra.
  - exists (mkBS [ri (n 0) (n 1)] [six_eight]), (mkBS [ri (n 0) (n 1)] []). split; reflexivity.
  - exists (mkCS 1 []), (mkCS 0 []), [0]. split; [split; [reflexivity|constructor]|]. split; [reflexivity|]. intros [H _]. discriminate H.
Qed.
Print Assumptions C140_intersection_refuted.
Example C140_nonvacuous : exists S, cs_intersection wops (mkCS 1 [six_eight]) (mkCS 1 [mkC x1 (ri (n 0) (n 3))]) = Some S /\
  in_cset wrv w_den S [3] /\ ~ in_cset wrv w_den S [4].
Proof.
  exists (mkCS 1 [six_eight; mkC x1 (ri (n 0) (n 3))]). split; [reflexivity|]. split.
  - split; [reflexivity|]. constructor; [|constructor; [|constructor]]; unfold holds, in_real; cbn [i_lo i_up c_bounds c_fun six_eight]; wint; wc; split; lra.
  - intros [_ H]. apply Forall_inv_tail, Forall_inv in H. unfold holds, in_real in H. cbn [i_lo i_up c_bounds c_fun] in H. wint. wc. lra.
Qed.

(** *** C141-C143 *)
Example C141_nonvacuous :
  cs_separated wops (mkCS 1 [six_eight]) [B 0 1] 0 = true /\ bs_separated wops three_four [B 0 1] 0 = true /\
  is_separated wops (mkIS [ri (n 0) (n 1)] [wtwice 1] []) [B 3 4] 0 = true /\ v_separated wops (v_make [B 0 1] [wtwice 1] []) [B 3 4] = true /\
  cs_separated wops (mkCS 1 [six_eight]) [B 0 4] 0 = false /\ in_bset wrv w_den three_four [3].
Proof.
  split; [reflexivity|]. split; [reflexivity|]. split; [reflexivity|]. split; [reflexivity|]. split; [reflexivity|].
  apply in_bset1. exists 3. split; auto. rewrite hold1. cbn [i_lo i_up c_bounds c_fun six_eight]. wint. wc. lra.
Qed.
Example C142_nonvacuous :
  bs_inside wops (mkBS [ri (n 1) (n 2)] [] : @bset wnum wfun) [B 0 3] 0 = true /\ is_inside wops (mkIS [ri (n 0) (n 1)] [wtwice 1] []) [B (-1) 3] 0 = true /\
  v_inside wops (v_make [B 0 1] [wtwice 1] []) [B (-1) 3] = true /\ v_inside wops (v_make [B 0 1] [wtwice 1] []) [B 0 2] = false /\
  bs_inside wops (mkBS [ri (n 1) WThird] [] : @bset wnum wfun) [B 1 3] 0 = false.
Proof. repeat split; reflexivity. Qed.
Example C143_nonvacuous :
  cs_covers wops (mkCS 1 [mkC (wtwice 1) (ri (n 0) (n 8))]) [B 1 2] 0 = true /\ bs_covers wops (mkBS [ri (n 0) (n 3)] [mkC (wtwice 1) (ri (n 0) (n 8))]) [B 1 2] 0 = true /\
  cs_covers wops (mkCS 1 [six_eight]) [B 3 4] 0 = false /\ bs_covers wops (mkBS [ri (n 1) (n 3)] [] : @bset wnum wfun) [B 1 2] 0 = false.
Proof. repeat split; reflexivity. Qed.

(** *** C144 *)
Theorem C144_overlaps_refuted :
  (** the set and the box only touch *)
  (exists S bx, bs_overlaps wops S bx 0 = Some true /\ forall x, in_bset wrv w_den S x -> ~ in_inner bx x) /\
  (** the ends of the domain are in the wrong order *)
  (exists S bx, bs_overlaps wops S bx 0 = Some true /\ forall x, ~ in_bset wrv w_den S x) /\
  (** the domain is the number 1/3, which is not a float *)
  (exists S bx x0, in_real_box wrv (bs_dom S) x0 /\ bs_overlaps wops S bx 0 = Some true /\ forall x, ~ in_bset wrv w_den S x) /\
  (** the bounds of a constraint are not floats *)
  (exists S bx, box_empty (map (under wops) (is_dom S)) = false /\ is_overlaps wops S bx 0 = Some true /\ forall x, ~ in_iset wrv w_den S x).
Proof.
  destruct third_between as [T1 T2]. split; [|split; [|split]].
  - exists (mkBS [ri (n 0) (n 1)] []), [B 1 2]. split; [reflexivity|]. intros x H I. apply in_bset1 in H. destruct H as (r & -> & [_ H] & _).
    apply in_inner1 in I. destruct I as (r' & E & [I _]). injection E as <-. assert (1 < r) as K by (revert I; unfold b_l; change (strictly_below (dp 1 0) r) with (B2R (dp 1 0) < r); dpval (dp 1 0); lra).
    wint. wc. lra.
  - exists (mkBS [ri (n 2) (n 1)] []), [B 0 3]. split; [reflexivity|]. intros x H. apply in_bset1 in H. destruct H as (r & -> & [H1 H2] & _). wint. wc. lra.
  - exists (mkBS [ri WThird WThird] [mkC x1 (ri (n 0) (WF third_l))]), [B 0 1], [/3]. split; [constructor; [|constructor]; split; wint; apply Rbar_le_refl|].
    split; [vm_compute; reflexivity|]. intros x H. apply in_bset1 in H. destruct H as (r & -> & [H1 H2] & H3). apply hold1 in H3. cbn [i_lo i_up c_bounds c_fun] in H3.
    wint. wc. lra.
  - exists (mkIS [ri (WF third_l) (WF third_l)] [x1] [mkC x1 (ri WThird (n 1))]), [B 0 1]. split; [reflexivity|]. split; [vm_compute; reflexivity|].
    intros x (s & D & H & _). apply in_real1 in D. destruct D as (r & -> & R1 & R2). apply hold1 in H. cbn [i_lo i_up c_bounds c_fun] in *. wint. wc. lra.
Qed.
Print Assumptions C144_overlaps_refuted.
Example C144_nonvacuous : let S := mkBS [ri (n 0) (n 10)] [mkC (wtwice 1) (ri (n 0) (n 8))] in let bx := [B 1 2] in
  box_empty (box_meet bx (map (under wops) (bs_dom S))) = false /\ bs_overlaps wops S bx 0 = Some true /\
  exact_bounds wrv wops (bs_cons S) /\ is_overlaps wops (mkIS [ri (n 0) (n 1)] [wtwice 1] []) [B 1 4] 0 = Some true /\ bs_overlaps wops three_four [B 0 1] 0 = Some false.
Proof.
  cbv zeta. split; [reflexivity|]. split; [vm_compute; reflexivity|]. split; [|split; vm_compute; reflexivity].
  constructor; [|constructor]. intros r [H1 H2]. cbn [over c_bounds i_lo i_up b_l b_u wops fo_get wget] in *.
  change (is_nan (dp 0 0)) with false in H1. change (is_nan (dp 8 0)) with false in H2. cbn [b_l b_u] in *.
  split; cbn [i_lo i_up wrv]; [change (is_nan (dp 0 0)) with false; apply below_fval|change (is_nan (dp 8 0)) with false; apply above_fval]; auto; reflexivity.
Qed.

(** *** C145 *)
Definition whole1 : @vset 53 1024 wnum wfun := v_make [B 0 1] [x1] [].
Theorem C145_satisfies_refuted :
  (** FALSE although the constraint [x-x >= 0] holds everywhere: without an upper bound the answer is never another one *)
  (exists nc, v_satisfies wops whole1 nc = FALSE /\ forall y, in_vset wrv w_den whole1 y -> holds wrv w_den nc y) /\
  (forall V nc, wget (i_up (c_bounds nc)) = mkB finf finf -> ivl_subset (w_range (c_fun nc) (v_bounding_box wops V)) (over wops (c_bounds nc)) = false -> v_satisfies wops V nc = FALSE) /\
  (** FALSE although the constraint [x-x <= 0] holds everywhere: it holds with equality *)
  (exists nc, wrv (i_up (c_bounds nc)) = Finite 0 /\ v_satisfies wops whole1 nc = FALSE /\ forall y, in_vset wrv w_den whole1 y -> holds wrv w_den nc y) /\
  (** TRUE although the constraint [x <= 1/3] does not hold *)
  (exists V nc y, v_satisfies wops V nc = TRUE /\ in_vset wrv w_den V y /\ ~ holds wrv w_den nc y).
Proof.
  split; [|split; [|split]].
  - exists (mkC (wnull 1) (ri (n 0) (WF finf))). split; [vm_compute; reflexivity|]. intros y _. split; cbn [i_lo i_up c_bounds c_fun]; wint; wc; auto; lra.
  - intros V nc E F. unfold v_satisfies, satisfies_with. cbn [wops fo_range fo_get] in *. rewrite F. cbv zeta. rewrite E. cbn [b_l b_u].
    change (flt_lt (finf : DP) finf) with false. cbn [andb]. destruct flt_lt; [destruct (fo_feasible _ _ _)|]; reflexivity.
  - exists (mkC (wnull 1) (ri (WF (fneg finf)) (n 0))). split; [apply wrv_int|]. split; [vm_compute; reflexivity|].
    intros y _. split; cbn [i_lo i_up c_bounds c_fun]; wint; wc; auto; lra.
  - exists (v_make [mkB third_u third_u] [x1] []), (mkC x1 (ri (WF (fneg finf)) WThird)), [B2R third_u]. split; [vm_compute; reflexivity|]. split.
    + exists [B2R third_u]. cbn [v_make v_dom v_cons v_fun]. split; [apply in_box1; eexists; split; [reflexivity|apply dp_in; dpfin]|]. split; [constructor|reflexivity].
    + intros [_ H]. cbn [i_lo i_up c_bounds c_fun] in H. wint. destruct third_between. cbn [w_den wcoordinate nth] in H. cbn [Rbar_le] in H. lra.
Qed.
Print Assumptions C145_satisfies_refuted.
Example C145_nonvacuous : v_satisfies wops whole1 (mkC (wtwice 1) (ri (n (-1)) (n 3))) = TRUE /\ v_satisfies wops whole1 (mkC (wtwice 1) (ri (n (-1)) (n 1))) = FALSE /\
  is_satisfies wops (mkIS [ri (n 0) (n 1)] [x1] []) (mkC (wtwice 1) (ri (n (-1)) (n 3))) 0 = TRUE /\ is_satisfies wops (mkIS [ri (n 0) (n 1)] [x1] []) (mkC (wtwice 1) (ri (n (-1)) (n 1))) 0 = FALSE.
Proof. repeat split; vm_compute; reflexivity. Qed.

(** *** C146: effort
    Full claim: if a set and a box are separated by a positive distance then a large enough effort shows it.  The effort is
    not used, and the end points are only known in double precision. *)
Theorem C146_effort_refuted : exists (S : @bset wnum wfun) bx d, 0 < d /\
  (forall x y, in_bset wrv w_den S x -> in_cbox bx y -> exists a b, x = [a] /\ y = [b] /\ d <= b - a) /\ forall effort, bs_separated wops S bx effort = false.
Proof.
  destruct third_between as [T1 T2]. exists (mkBS [ri (n 0) WThird] []), [mkB third_u (dp 1 0)], (B2R third_u - /3). split; [lra|]. split; [|intros; vm_compute; reflexivity].
  intros x y HX HY. apply in_bset1 in HX. destruct HX as (a & -> & [_ H] & _). apply in_box1 in HY. destruct HY as (b & -> & [K _]). exists a, b. split; auto. split; auto.
  wint. cbn [Rbar_le] in H. cbn [b_l] in K. apply (proj1 (below_finite third_u b eq_refl)) in K. lra.
Qed.
Print Assumptions C146_effort_refuted.

(** *** C147 *)
Example C147_nonvacuous : exists V1 V2 W, v_split wops 0 (v_make [B 0 2] [x1] []) = Some (V1, V2) /\ v_restriction [B 0 1] (v_make [B 0 2] [x1] []) = Some W /\
  in_vset wrv w_den V2 [2] /\ ~ in_vset wrv w_den W [2] /\ is_middle wrv (fun a b => a) /\
  exists S1 S2, is_split (fun a b => n 1) 0 (mkIS [ri (n 0) (n 2)] [x1] []) = Some (S1, S2) /\ in_iset wrv w_den S2 [2] /\ ~ in_iset wrv w_den S1 [2].
Proof.
  do 3 eexists. split; [reflexivity|]. split; [reflexivity|]. split; [|split; [|split]].
  - exists [2]. cbn [v_make v_dom v_cons v_fun box_meet combine map set_at]. split; [apply in_box1; exists 2; split; auto|split; [constructor|reflexivity]].
    replace 2 with (B2R (dp 2 0)) by (dpval (dp 2 0); lra). apply dp_in; dpfin.
  - intros (s & D & _ & E). cbn [v_make v_dom] in D. apply in_box1 in D. destruct D as (r & -> & _ & D). cbn in E. injection E as <-.
    cbn [b_u] in D. apply (proj1 (above_finite (dp 1 0) 2 eq_refl)) in D. revert D. dpval (dp 1 0). lra.
  - intros a b H. split; auto. apply Rbar_le_refl.
  - do 2 eexists. split; [reflexivity|]. split.
    + exists [2]. cbn [is_dom is_fun is_cons set_at i_lo i_up]. split; [constructor; [|constructor]; split; cbn [i_lo i_up]; wint; wc; lra|]. split; [constructor|reflexivity].
    + intros (s & D & _ & E). apply in_real1 in D. destruct D as (r & -> & _ & R). injection E as E. cbn [nth] in E. subst r. wint. wc. lra.
Qed.

(** *** C148 *)
Theorem C148_is_empty_refuted : exists V : @vset 53 1024 wnum wfun, v_is_empty wops V = FALSE /\ forall y, ~ in_vset wrv w_den V y.
Proof.
  exists (v_make [B 0 2] [x1] [mkC (wnull 1) (ri (n 1) (n 1))]). split; [vm_compute; reflexivity|]. intros y (s & _ & H & _). cbn [v_cons v_make] in H.
  apply hold1 in H. cbn [i_lo i_up c_bounds c_fun] in H. wint. wc. lra.
Qed.
Print Assumptions C148_is_empty_refuted.
Example C148_nonvacuous : v_is_empty wops (v_make [B 0 1] [x1] [six_eight]) = TRUE /\ v_is_empty wops (v_make [B 0 10] [x1] [six_eight]) = FALSE.
Proof. split; vm_compute; reflexivity. Qed.

(** *** C149 *)
Theorem C149_conversion_refuted : exists (S : @bset wnum wfun) x, in_iset wrv w_den (is_of_bounded wops S) x /\ ~ in_bset wrv w_den S x.
Proof.
  destruct third_between as [T1 T2]. exists (mkBS [ri WThird WThird] []), [B2R third_l]. split.
  - exists [B2R third_l]. cbn [is_of_bounded is_dom is_fun is_cons bs_dom bs_cons map]. split; [|split; [constructor|reflexivity]].
    constructor; [|constructor]. unfold in_real, exact_ivl, over. cbn [i_lo i_up wops fo_float fo_get wget b_l b_u]. wint. cbn [Rbar_le]. lra.
  - intros H. apply in_bset1 in H. destruct H as (r & E & [H _] & _). apply (f_equal (fun l => nth 0 l 0)) in E. cbn [nth] in E. rewrite <- E in H. wint. cbn [Rbar_le] in H. lra.
Qed.
Print Assumptions C149_conversion_refuted.
Example C149_nonvacuous : in_bset wrv w_den three_four [3] /\ in_iset wrv w_den (is_of_bounded wops three_four) [3].
Proof.
  assert (in_bset wrv w_den three_four [3]) as H.
  { apply in_bset1. exists 3. split; auto. rewrite hold1. cbn [i_lo i_up c_bounds c_fun six_eight]. wint. wc. lra. }
  split; auto. eapply C149_conversion_partial; [exact wops_sound|exact H].
Qed.
