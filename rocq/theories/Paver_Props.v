(** * Properties C150-C154: pavers

    A paver adds an outer approximation of an image set to a paving.  The functions, the grid, the solver and the optimiser are
    arbitrary procedures which do what FunctionSet_Spec.v and Paver_Spec.v say; the theorems hold in every precision, for every
    bound on the recursion.  The examples use the simple procedures of Paver_Inst.v in double precision. *)
From Coq Require Import ZArith Reals List Bool Lra Lia.
From Coquelicot Require Import Rbar.
From Flocq Require Import Core IEEE754.BinarySingleNaN.
From Verif Require Import Logical_Model Float_Model Float_Spec Float_Proofs Bounds_Model Bounds_Spec Bounds_Proofs Bounds_Props Ball_Props Box_Num_Proofs.
From Verif Require Import ConstraintSolver_Model ConstraintSolver_Spec FunctionSet_Model FunctionSet_Spec FunctionSet_Proofs FunctionSet_Inst FunctionSet_Props.
From Verif Require Import Paver_Model Paver_Spec Paver_Proofs Paver_Inst.
Import ListNotations.
Local Open Scope R_scope.

Section Positive.
  Context (prec emax : Z) (Hprec : Prec_gt_0 prec) (Hemax : Prec_lt_emax prec emax).
  Context (RR F P C X : Type) (rv : RR -> Rbar) (den : F -> list R -> R) (pin : P -> list R -> Prop) (cin : C -> list R -> Prop).
  Context (ops : @function_operations prec emax RR F) (SO : sound_ops rv den ops).
  Context (po : @paver_operations prec emax RR F P C X) (SP : sound_paver rv den pin cin po).
  Local Notation cbox := (list (bounds prec emax)).

  (** ** C150: the result of a paver contains the set
      Full claim: this holds for all pavers.  Proved for the subdivision, affine, reduce and constraint pavers; for the optimal
      constraint paver, for the points in the cell in which the search starts. *)
  Theorem C150_outer : forall p (V : @vset prec emax RR F) n dim k fuel tiny q y,
    made ops V -> finite_box (v_dom V) -> finite_box (v_red V) -> is_finite tiny = true -> 0 <= B2R tiny -> in_vset rv den V y ->
    (subdivide ops po fuel p V n = Done q -> pin q y) /\
    (affine_pave ops po p V n = Done q -> pin q y) /\
    (reduce_pave ops po k fuel p V n dim = Done q -> pin q y) /\
    (constraint_pave ops po tiny fuel p V n dim = Done q -> pin q y).
  Proof.
    intros p V n dim k fuel tiny q y M FD FR FT PT I. pose proof (made_valid rv den ops SO V M) as W. split; [|split; [|split]].
    - intros E. eapply (subdivide_sound rv den pin cin ops SO po SP); eauto.
    - intros E. unfold affine_pave in E. destruct affine_rounds as [Ds|] eqn:A; [|discriminate]. eapply (affine_fold rv den pin cin po SP); [exact E|]. right.
      destruct I as (s & D & H & ->). destruct (affine_rounds_kept rv den ops SO po _ _ _ s _ _ _ A) as (D' & I' & J & _).
      { exists (v_red V). cbn. split; auto. split; auto. apply (proj1 W); auto. }
      exists D'. split; auto. exists s. cbn. auto.
    - intros E. unfold reduce_pave in E. destruct po_enclosing as [b|] eqn:EN; [|discriminate]. cbn [of_option obind] in E.
      destruct reduce_rec as [q0| |] eqn:R; try discriminate. injection E as <-. apply (sp_recombine _ _ _ _ _ SP). destruct I as (s & D & H & ->).
      eapply (reduce_sound rv den pin cin ops SO po SP); [| | | |exact R]; auto; [eapply (sp_enclosing _ _ _ _ _ SP); [exact EN|]; apply (range_in rv den ops SO); auto|apply (over_cons rv den ops SO); auto].
    - intros E. unfold constraint_pave in E. cbv zeta in E. destruct po_enclosing as [b|] eqn:EN; [|discriminate]. cbn [of_option obind] in E. destruct I as (s & D & H & ->).
      eapply (constraint_sound rv den pin cin ops SO po SP); [| | | |exact E]; auto; [eapply (sp_enclosing _ _ _ _ _ SP); [exact EN|]; apply (range_in rv den ops SO); auto|].
      apply box_meet_in; [apply widen_in; auto; apply (range_in rv den ops SO); auto|apply (over_cons rv den ops SO); auto].
  Qed.
  Theorem C150_optimal_partial : nonnegative_weights po -> forall f g fuel p x (D c : cbox) b md q s,
    finite_box D -> finite_box c -> in_cbox D s -> in_cbox c (values den g s) -> cin b (values den f s) ->
    optimal_rec ops po fuel p x D (f ++ g) c b md = Done q -> pin (fst q) (values den f s).
  Proof. intros W f g fuel p x D c b md q s FD FC I G CI E. apply (optimal_sound rv den pin cin ops po SP W f fuel p x D g c b md q s); auto. Qed.

  (** ** C151: no point of the paving is lost *)
  Theorem C151_kept : forall p (V : @vset prec emax RR F) n dim k fuel tiny q y, pin p y ->
    (subdivide ops po fuel p V n = Done q -> pin q y) /\
    (affine_pave ops po p V n = Done q -> pin q y) /\
    (reduce_pave ops po k fuel p V n dim = Done q -> pin q y) /\
    (constraint_pave ops po tiny fuel p V n dim = Done q -> pin q y) /\
    (optimal_pave ops po tiny fuel p V n dim = Done q -> pin q y).
  Proof.
    intros p V n dim k fuel tiny q y I. split; [|split; [|split; [|split]]].
    - intros E. eapply (subdivide_mono rv den pin cin ops po SP); eauto.
    - intros E. unfold affine_pave in E. destruct affine_rounds as [Ds|] eqn:A; [|discriminate]. eapply (affine_fold rv den pin cin po SP); eauto.
    - intros E. unfold reduce_pave in E. destruct po_enclosing as [b|] eqn:EN; [|discriminate]. cbn [of_option obind] in E.
      destruct reduce_rec as [q0| |] eqn:R; try discriminate. injection E as <-. apply (sp_recombine _ _ _ _ _ SP). eapply (reduce_mono rv den pin cin ops po SP); eauto.
    - intros E. unfold constraint_pave in E. cbv zeta in E. destruct po_enclosing as [b|] eqn:EN; [|discriminate]. exact (constraint_mono rv den pin cin ops po SP _ _ _ _ _ _ _ _ _ _ E I).
    - intros E. unfold optimal_pave in E. cbv zeta in E. destruct po_enclosing as [b|] eqn:EN; [|discriminate]. cbn [of_option obind] in E.
      destruct optimal_rec as [q0| |] eqn:R; try discriminate. injection E as <-. eapply (optimal_mono rv den pin cin ops po SP); eauto.
  Qed.

  (** ** C152: termination
      Full claim: every call ends.  Proved for the affine paver, for the subdivision paver if the ranges on the parts of the domain
      become small, and for the constraint paver if they become as small as the cells. *)
  Theorem C152_ends_partial : forall p (V : @vset prec emax RR F) n,
    affine_pave ops po p V n <> Unfinished /\
    (forall k, (forall q W, subsets ops k V W -> po_small po q (apply_range ops (v_fun W) (v_red W)) n = true) -> subdivide ops po (S k) p V n <> Unfinished) /\
    (forall k fuel D f g c b md, (forall D' c', parts ops k D D' -> descends po b c' -> po_larger po (apply_range ops f D') (ce_box po c') = false) ->
      (k + Z.to_nat (md - ce_depth po b) < fuel)%nat -> constraint_rec ops po fuel p D f g c b md <> Unfinished).
  Proof.
    intros p V n. split; [|split].
    - unfold affine_pave. destruct affine_rounds as [Ds|]; [|discriminate]. revert p. induction Ds as [|D Ds IH]; intros p; cbn; [discriminate|]. destruct po_affine; [apply IH|discriminate].
    - intros k H. apply subdivide_ends; auto.
    - intros k fuel D f g c b md H L. eapply constraint_ends; eauto. intros c0. apply (sp_depth _ _ _ _ _ SP).
  Qed.

  (** ** C153: what is added
      Full claim: the points which are added are in cells of the depth asked for which meet the set.  Proved: the cells are obtained
      by splitting the first cell, and are of this depth or are the first cell. *)
  Theorem C153_depth_partial : forall p (D c : cbox) f g k fuel x b md,
    (forall q, reduce_rec ops po k fuel p D f g c b md = Done q -> fine pin cin po b md p q) /\
    (forall q, constraint_rec ops po fuel p D f g c b md = Done q -> fine pin cin po b md p q) /\
    (forall q, optimal_rec ops po fuel p x D (f ++ g) c b md = Done q -> fine pin cin po b md p (fst q)).
  Proof.
    intros p D c f g k fuel x b md. split; [|split]; intros q E.
    - eapply (reduce_fine rv den pin cin ops po SP); eauto.
    - eapply (constraint_fine rv den pin cin ops po SP); eauto.
    - eapply (optimal_fine rv den pin cin ops po SP); eauto.
  Qed.

  (** ** C154: the function used as a certificate is not negative at the points which are looked for
      Full claim: this holds for the multipliers computed by the optimiser.  Proved for multipliers which are not negative. *)
  Theorem C154_certificate_partial : forall (D bx : cbox) fg w s, finite_box D -> finite_box bx -> nonnegative w ->
    in_cbox D s -> in_cbox bx (values den fg s) -> 0 <= dual den D fg bx w s.
  Proof. intros. apply dual_nonneg; auto. Qed.
  (** If it is negative there is no such point. *)
  Theorem C154_disjoint : forall (D bx : cbox) fg w, finite_box D -> finite_box bx -> nonnegative w ->
    (forall s, in_cbox D s -> dual den D fg bx w s < 0) -> forall s, in_cbox D s -> ~ in_cbox bx (values den fg s).
  Proof. intros D bx fg w FD FB W H s I J. pose proof (H s I). pose proof (dual_nonneg den D fg bx w s FD FB W I J). lra. Qed.
End Positive.
Print Assumptions C150_outer.
Print Assumptions C150_optimal_partial.
Print Assumptions C151_kept.
Print Assumptions C152_ends_partial.
Print Assumptions C153_depth_partial.
Print Assumptions C154_certificate_partial.
Print Assumptions C154_disjoint.

(** ** Examples *)
Local Notation n z := (WF (dp z 0)).
Local Notation ri a b := (@mkRI wnum a b).
Local Notation B a b := (@mkB 53 1024 (dp a 0) (dp b 0)).
Local Notation x1 := (wcoordinate 1 0).
Local Notation tiny := (dp 1 (-1074)).
Lemma B_in a b r : is_finite (dp a 0) = true -> is_finite (dp b 0) = true -> B2R (dp a 0) <= r <= B2R (dp b 0) -> contains (B a b) r.
Proof. intros F1 F2 [L U]. destruct (finite_contains_below _ F1) as [A _]. destruct (finite_contains_below _ F2) as [_ D]. split; [eapply below_le; eauto|eapply above_ge; eauto]. Qed.
Lemma B_out a b r : is_finite (dp a 0) = true -> is_finite (dp b 0) = true -> contains (B a b) r -> B2R (dp a 0) <= r <= B2R (dp b 0).
Proof. intros F1 F2 [L U]. cbn [b_l b_u] in *. split; [apply (proj1 (below_finite _ _ F1)); auto|apply (proj1 (above_finite _ _ F2)); auto]. Qed.
Lemma ints : B2R (dp (-1) 0) = -1 /\ B2R (dp 0 0) = 0 /\ B2R (dp 1 0) = 1 /\ B2R (dp 2 0) = 2 /\ B2R (dp 3 0) = 3 /\ B2R (dp 4 0) = 4 /\ B2R (dp 5 0) = 5.
Proof. repeat match goal with |- _ /\ _ => split end; match goal with |- B2R ?f = _ => dpval f end; lra. Qed.
(** Constant functions, evaluated with and without errors. *)
Lemma constant_ok a b v : is_finite (dp a 0) = true -> is_finite (dp b 0) = true -> B2R (dp a 0) <= v <= B2R (dp b 0) -> forall (D : list (bounds 53 1024)) x, in_cbox D x -> contains (B a b) v.
Proof. intros. apply B_in; auto. Qed.
Lemma wide_values : B2R (dp (-1) 0) <= 0 <= B2R (dp 1 0). Proof. destruct ints as (-> & _ & -> & _). lra. Qed.
Lemma zero_values : B2R (dp 0 0) <= 0 <= B2R (dp 0 0). Proof. destruct ints as (_ & -> & _). lra. Qed.
Lemma five_values : B2R (dp 5 0) <= 5 <= B2R (dp 5 0). Proof. destruct ints as (_ & _ & _ & _ & _ & _ & ->). lra. Qed.
Definition wide : wfun := mkW 1 (fun _ => 0) _ (constant_ok (-1) 1 0 eq_refl eq_refl wide_values).
Definition zero : wfun := mkW 1 (fun _ => 0) _ (constant_ok 0 0 0 eq_refl eq_refl zero_values).
Definition five : wfun := mkW 1 (fun _ => 5) _ (constant_ok 5 5 5 eq_refl eq_refl five_values).

(** *** C150 *)
(** The set [[3,4]] given by [x] in [[0,4]] with [6 <= 2x <= 8]. *)
Definition V34 : @vset 53 1024 wnum wfun := v_make [B 0 4] [x1] [six_eight].
Lemma V34_in : in_vset wrv w_den V34 [3].
Proof.
  exists [3]. split; [apply in_box1; exists 3; split; auto; apply B_in; try reflexivity; destruct ints as (_ & -> & _ & _ & _ & -> & _); lra|]. split; [|reflexivity].
  apply hold1. unfold six_eight; cbn [c_bounds c_fun i_lo i_up]. wint. wc. lra.
Qed.
Lemma V34_finite : finite_box (v_dom V34) /\ finite_box (v_red V34).
Proof. split; constructor; try constructor; split; reflexivity. Qed.
Definition size (o : outcome (list cell)) : nat := match o with Done q => length q | _ => 99%nat end.
Lemma size_done o k : size o = k -> (k < 99)%nat -> exists q, o = Done q /\ length q = k.
Proof. destruct o; cbn; intros; try lia. eauto. Qed.
Example C150_nonvacuous : let po := wpaver false [] in
  sound_ops wrv w_den pops /\ sound_paver wrv w_den pv_in cl_in po /\ made pops V34 /\ (finite_box (v_dom V34) /\ finite_box (v_red V34)) /\ in_vset wrv w_den V34 [3] /\
  (exists q, subdivide pops po 4 [] V34 0 = Done q /\ length q = 2%nat) /\ (exists q, affine_pave pops po [] V34 0 = Done q /\ length q = 8%nat) /\
  (exists q, reduce_pave pops po 2 9 [] V34 2 1 = Done q /\ length q = 3%nat) /\ (exists q, constraint_pave pops po tiny 9 [] V34 2 1 = Done q /\ length q = 3%nat).
Proof.
  cbv zeta. split; [apply pops_sound|]. split; [apply wpaver_sound|]. split; [constructor|]. split; [apply V34_finite|]. split; [apply V34_in|].
  split; [|split; [|split]]; apply size_done; try lia; vm_compute; reflexivity.
Qed.
(** The cell in which the search starts encloses the values of the constraint functions: for [x] in [[2,3]] with [0 = 0] this is
    the cell [[0,0]], and nothing else is ever added. *)
Definition V23 : @vset 53 1024 wnum wfun := v_make [B 2 3] [x1] [mkC zero (ri (n 0) (n 0))].
Theorem C150_optimal_refuted : exists (po : @paver_operations 53 1024 wnum wfun (list cell) cell unit) (V : @vset 53 1024 wnum wfun) y, sound_ops wrv w_den pops /\ sound_paver wrv w_den pv_in cl_in po /\ nonnegative_weights po /\
  made pops V /\ finite_box (v_dom V) /\ finite_box (v_red V) /\ in_vset wrv w_den V y /\
  (exists q, optimal_pave pops po tiny 9 [] V 2 1 = Done q) /\ (forall fuel k dim q, optimal_pave pops po tiny fuel [] V k dim = Done q -> ~ pv_in q y).
Proof.
  exists (wpaver false []), V23, [2]. split; [apply pops_sound|]. split; [apply wpaver_sound|]. split; [intros x D fg bx x' k _; constructor|]. split; [constructor|].
  split; [constructor; [split; reflexivity|constructor]|]. split; [constructor; [split; reflexivity|constructor]|]. split.
  { exists [2]. split; [apply in_box1; exists 2; split; auto; apply B_in; try reflexivity; destruct ints as (_ & _ & _ & -> & -> & _); lra|]. split; [|reflexivity].
    apply hold1. cbn [c_bounds c_fun i_lo i_up]. wint. cbn [w_den zero Rbar_le]. lra. }
  split; [destruct (size_done (optimal_pave pops (wpaver false []) tiny 9 [] V23 2 1) 1) as (q & E & _); [vm_compute; reflexivity|lia|eauto]|].
  intros fuel k dim q E I. unfold optimal_pave in E. cbv zeta in E.
  assert (po_enclosing (wpaver false []) [] (apply_range pops (c_functions (v_cons V23)) (v_red V23)) = Some (mkCell 0 [B 0 0])) as EN by reflexivity.
  rewrite EN in E. cbn [of_option obind] in E. destruct optimal_rec as [q0| |] eqn:R; try discriminate. injection E as <-.
  pose proof (optimal_fine wrv w_den pv_in cl_in pops (wpaver false []) (wpaver_sound false []) _ _ _ _ _ _ _ _ _ R) as FI.
  destruct (fine_inside wrv w_den pv_in cl_in (wpaver false []) (wpaver_sound false []) _ _ _ _ _ FI I) as [K|K]; [inversion K|].
  unfold cl_in in K. rewrite cl_box_fin in K by (constructor; [split; reflexivity|constructor]). apply in_box1 in K. destruct K as (r & E & K).
  apply (f_equal (fun l => nth 0 l 0)) in E. cbn in E. apply B_out in K; try reflexivity. destruct ints as (_ & E0 & _). rewrite E0 in K. lra.
Qed.
Print Assumptions C150_optimal_refuted.
Example C150_optimal_nonvacuous : nonnegative_weights (wpaver true [dp 1 0; dp 2 0]) /\
  exists q, optimal_rec pops (wpaver true [dp 1 0; dp 2 0]) 9 [] tt [B 0 1] [five] [] (mkCell 0 [B 0 1]) 1 = Done q.
Proof.
  split.
  - intros x D fg bx x' k _. cbn [wpaver po_weights]. destruct ints as (_ & _ & E1 & E2 & _). constructor; [rewrite E1; lra|]. constructor; [rewrite E2; lra|constructor].
  - destruct (size_done (obind (optimal_rec pops (wpaver true [dp 1 0; dp 2 0]) 9 [] tt [B 0 1] [five] [] (mkCell 0 [B 0 1]) 1) (fun q => Done (fst q))) 2) as (q & E & _); [vm_compute; reflexivity|lia|].
    destruct optimal_rec as [q0| |]; try discriminate. eauto.
Qed.
Example C151_nonvacuous : pv_in [mkCell 0 [B 0 1]] [1] /\ exists q, subdivide pops (wpaver false []) 4 [mkCell 0 [B 0 1]] V34 0 = Done q /\ length q = 3%nat.
Proof.
  split; [|apply size_done; [vm_compute; reflexivity|lia]]. apply Exists_cons_hd. unfold cl_in. rewrite cl_box_fin by (constructor; [split; reflexivity|constructor]).
  apply in_box1. exists 1. split; auto. apply B_in; try reflexivity. destruct ints as (_ & -> & -> & _). lra.
Qed.

(** *** C152: the range of a function which is known with an error does not become small if the domain is split *)
Definition Vwide : @vset 53 1024 wnum wfun := v_make [B 0 1] [wide] [].
Definition left_half : cell := fst (cl_split (mkCell 0 [B (-1) 1])).
Lemma widest_ok : forall D : list (bounds 53 1024), D <> [] -> (fo_widest pops D < length D)%nat.
Proof. intros [|d D] H; [contradiction|]. cbn. lia. Qed.
Lemma box_steps_id neg ws (D : list (bounds 53 1024)) : box_empty D = false -> forall steps, box_steps (wpaver neg ws) steps D = Some D.
Proof. intros E. induction steps as [|[[f Y] j] steps IH]; cbn [box_steps]; auto. change (po_box_reduce (wpaver neg ws) D f Y j) with D. rewrite E. apply IH. Qed.
Lemma reduce_forever fuel : forall D, box_empty D = false -> D <> [] -> reduce_rec pops (wpaver false []) 2 fuel [] D [wide] [] [] left_half 1 = Unfinished.
Proof.
  induction fuel; intros D E N; [reflexivity|]. cbn [reduce_rec].
  change (po_superset (wpaver false []) [] left_half) with false. cbv iota. rewrite (box_steps_id false [] D E). cbv iota.
  assert (hull_loop (wpaver false []) 2 (combine [wide] (ce_box (wpaver false []) left_half) ++ combine [] []) D = Done (Some D)) as ->.
  { change (ce_box (wpaver false []) left_half) with (cl_box left_half).
    assert (exists Y, cl_box left_half = [Y] /\ ivl_disjoint (B (-1) 1) Y = false) as (Y & EY & DJ).
    { eexists. split; [|shelve]. lazy [left_half cl_split cl_box]. cbn [cl_bounds cl_depth]. change (fin_box [B (-1) 1]) with true. cbv iota. cbn [box_empty existsb].
      change (ivl_empty (B (-1) 1)) with false. cbn [orb length Z.of_nat]. reflexivity. Unshelve. vm_compute. reflexivity. }
    rewrite EY. cbn [combine app hull_loop hull_pass].
    assert (po_hull_reduce (wpaver false []) D wide Y = D) as ->. { cbn [wpaver po_hull_reduce]. unfold wreduce, box_disjoint. cbn [map combine existsb fst snd wide w_range]. rewrite DJ. reflexivity. }
    rewrite E. cbv iota. change (po_again (wpaver false []) D D) with false. rewrite andb_false_r. reflexivity. }
  cbn [obind]. change (apply_range pops [wide] D) with [B (-1) 1].
  replace (box_disjoint [B (-1) 1] (ce_box (wpaver false []) left_half) || box_disjoint [] (apply_range pops [] D)) with false by (vm_compute; reflexivity). cbv iota.
  match goal with |- (if ?c then _ else _) = _ => replace c with true by (vm_compute; reflexivity) end. cbv iota.
  change (po_lipschitz (wpaver false []) [wide] D) with 0%nat.
  assert (0 < length D)%nat as L by (destruct D; [contradiction|cbn; lia]).
  destruct (split_some pops 0 D L) as (D1 & D2 & SD & L1 & L2). rewrite SD. apply obind_unfinished. apply IHfuel.
  - apply (split_order wrv w_den pops pops_sound _ _ _ _ E SD).
  - intros ->. cbn in L1. lia.
Qed.
Theorem C152_forever_refuted : exists (po : @paver_operations 53 1024 wnum wfun (list cell) cell unit) (V : @vset 53 1024 wnum wfun) y, sound_ops wrv w_den pops /\ sound_paver wrv w_den pv_in cl_in po /\ made pops V /\ finite_box (v_dom V) /\
  in_vset wrv w_den V y /\ forall fuel,
    subdivide pops po fuel [] V 0 = Unfinished /\ constraint_pave pops po tiny fuel [] V 1 1 = Unfinished /\ reduce_pave pops po 2 fuel [] V 1 1 = Unfinished.
Proof.
  exists (wpaver false []), Vwide, [0]. split; [apply pops_sound|]. split; [apply wpaver_sound|]. split; [constructor|]. split; [constructor; [split; reflexivity|constructor]|]. split.
  { exists [0]. split; [apply in_box1; exists 0; split; auto; apply B_in; try reflexivity; destruct ints as (_ & -> & -> & _); lra|]. split; [constructor|reflexivity]. }
  assert (po_enclosing (wpaver false []) [] (apply_range pops (v_fun Vwide) (v_dom Vwide)) = Some (mkCell 0 [B (-1) 1])) as EN by reflexivity.
  intros fuel. split; [|split].
  - apply subdivide_forever; [intros; vm_compute; reflexivity|intros c D []|apply widest_ok|discriminate|reflexivity].
  - unfold constraint_pave. cbv zeta. rewrite EN. cbn [of_option obind]. destruct fuel as [|fuel]; [reflexivity|]. cbn [constraint_rec].
    repeat match goal with |- (if ?c then _ else _) = _ => replace c with false by (vm_compute; reflexivity); cbv iota end.
    rewrite (surjective_pairing (ce_split (wpaver false []) (mkCell 0 [B (-1) 1]))). apply obind_unfinished.
    apply constraint_forever; [reflexivity|intros; vm_compute; reflexivity|intros; vm_compute; reflexivity|apply widest_ok|discriminate].
  - unfold reduce_pave. rewrite EN. cbn [of_option obind]. destruct fuel as [|fuel]; [reflexivity|]. apply obind_unfinished. cbn [reduce_rec].
    change (v_dom Vwide) with [B 0 1]. change (v_fun Vwide) with [wide]. change (c_functions (v_cons Vwide)) with (@nil wfun). change (c_over pops (v_cons Vwide)) with (@nil (bounds 53 1024)).
    change (po_superset (wpaver false []) [] (mkCell 0 [B (-1) 1])) with false. cbv iota. rewrite box_steps_id by reflexivity. cbv iota.
    assert (hull_loop (wpaver false []) 2 (combine [wide] (ce_box (wpaver false []) (mkCell 0 [B (-1) 1])) ++ combine [] []) [B 0 1] = Done (Some [B 0 1])) as ->.
    { change (ce_box (wpaver false []) (mkCell 0 [B (-1) 1])) with [B (-1) 1]. cbn [combine app hull_loop hull_pass].
      change (po_hull_reduce (wpaver false []) [B 0 1] wide (B (-1) 1)) with (if box_disjoint [B (-1) 1] [B (-1) 1] then [b_empty] else [B 0 1]).
      replace (box_disjoint [B (-1) 1] [B (-1) 1]) with false by (vm_compute; reflexivity). cbv iota. change (box_empty [B 0 1]) with false. reflexivity. }
    cbn [obind].
    repeat match goal with |- (if ?c then _ else _) = _ => replace c with false by (vm_compute; reflexivity); cbv iota end.
    rewrite (surjective_pairing (ce_split (wpaver false []) (mkCell 0 [B (-1) 1]))). apply obind_unfinished.
    apply (reduce_forever fuel [B 0 1]); [reflexivity|discriminate].
Qed.
Print Assumptions C152_forever_refuted.
(** The ranges of the exact constant function are as small as the cells. *)
Lemma width_nonneg c : box_empty (cl_box c) = false -> flt_lt (first_width (cl_box c)) fzero = false.
Proof.
  intros E. pose proof (cl_box_finite c) as FB. destruct (cl_box c) as [|Y D]; [reflexivity|]. cbn [first_width]. cbn [box_empty existsb] in E. apply orb_false_elim in E. destruct E as [E _].
  inversion FB as [|? ? [F1 F2] _]; subst. destruct (finite_contains_below _ F1) as [A _]. destruct (finite_contains_below _ F2) as [_ U].
  pose proof (fsub_up_above _ _ _ _ U A) as K. destruct (flt_lt (fsub mode_UP (b_u Y) (b_l Y)) fzero) eqn:L; auto. exfalso.
  assert (below (@fzero 53 1024) 0) as Z by (cbn; lra). pose proof (lt_true _ _ _ _ L K Z) as Q.
  assert (B2R (b_u Y) < B2R (b_l Y)) as W by lra. unfold ivl_empty in E. apply (proj2 (flt_lt_finite _ _ F2 F1)) in W. congruence.
Qed.
Lemma descendants_nonempty neg ws b c : box_empty (cl_box b) = false -> descends (wpaver neg ws) b c -> box_empty (cl_box c) = false.
Proof.
  intros E. assert (forall d, box_empty (cl_box d) = false -> box_empty (cl_box (fst (cl_split d))) = false /\ box_empty (cl_box (snd (cl_split d))) = false) as K.
  { intros d H. unfold cl_split. cbv zeta. rewrite H. destruct split_at as [[B1 B2]|] eqn:S; [|split; exact H]. cbn [fst snd].
    destruct (split_fin _ _ _ _ S (cl_box_finite d) H) as [F1 F2]. rewrite !cl_box_fin by auto. apply (split_order wrv w_den pops pops_sound _ _ _ _ H S). }
  induction 1; auto; apply K; auto.
Qed.
Example C152_nonvacuous : let po := wpaver false [] in
  (forall q W, subsets pops 0 (v_make [B 0 1] [x1] []) W -> po_small po q (apply_range pops (v_fun W) (v_red W)) 0 = true) /\
  (forall D' c', parts pops 3 [B 0 1] D' -> descends po (mkCell 0 [B 0 1]) c' -> po_larger po (apply_range pops [zero] D') (ce_box po c') = false).
Proof.
  cbv zeta. split.
  - intros q W H. inversion H; subst. vm_compute. reflexivity.
  - intros D' c' _ H. change (po_larger (wpaver false []) (apply_range pops [zero] D') (ce_box (wpaver false []) c')) with (flt_lt (first_width (cl_box c')) (first_width [B 0 0])).
    assert (first_width [B 0 0] = fzero) as -> by (vm_compute; reflexivity). apply width_nonneg. eapply descendants_nonempty; [|exact H]. reflexivity.
Qed.

(** *** C153: a cell is added although both halves of the domain have been shown to have no point which is mapped to it *)
Theorem C153_optimal_refuted : exists (po : @paver_operations 53 1024 wnum wfun (list cell) cell unit) D D1 D2 b,
  sound_ops wrv w_den pops /\ sound_paver wrv w_den pv_in cl_in po /\ nonnegative_weights po /\ split_at pops 0 D = Some (D1, D2) /\
  optimal_rec pops po 1 [] tt D1 [five] [] b 0 = Done ([], tt) /\ optimal_rec pops po 1 [] tt D2 [five] [] b 0 = Done ([], tt) /\
  optimal_rec pops po 2 [] tt D [five] [] b 0 = Done ([b], tt) /\ (forall s, ~ cl_in b (values w_den [five] s)) /\ cl_in b [0].
Proof.
  destruct (split_some pops 0 [B 0 1]) as (D1 & D2 & SD & L1 & L2); [cbn; lia|].
  assert (forall D, D = D1 \/ D = D2 -> optimal_rec pops (wpaver true []) 1 [] tt D [five] [] (mkCell 0 [B 0 1]) 0 = Done ([], tt)) as H.
  { intros D HD. cbn [optimal_rec]. change (po_superset (wpaver true []) [] (mkCell 0 [B 0 1])) with false. cbv iota.
    change (po_solve (wpaver true []) tt D [five] (ce_box (wpaver true []) (mkCell 0 [B 0 1]) ++ [])) with (Some (tt, true)). cbv iota.
    match goal with |- (if ?c then _ else _) = _ => assert (c = true) as -> end; [|reflexivity].
    assert (D = fst (match split_at pops 0 [B 0 1] with Some p => p | None => ([], []) end) \/ D = snd (match split_at pops 0 [B 0 1] with Some p => p | None => ([], []) end)) as HD' by (rewrite SD; exact HD).
    clear - HD'. destruct HD' as [-> | ->]; vm_compute; reflexivity. }
  exists (wpaver true []), [B 0 1], D1, D2, (mkCell 0 [B 0 1]). split; [apply pops_sound|]. split; [apply wpaver_sound|]. split; [intros x D fg bx x' k _; constructor|].
  split; [exact SD|]. split; [apply H; auto|]. split; [apply H; auto|]. split.
  { remember 1%nat as one eqn:E1. cbn [optimal_rec]. change (po_superset (wpaver true []) [] (mkCell 0 [B 0 1])) with false. cbv iota.
    change (po_solve (wpaver true []) tt [B 0 1] [five] (ce_box (wpaver true []) (mkCell 0 [B 0 1]) ++ [])) with (Some (tt, true)). cbv iota.
    match goal with |- (if ?c then _ else _) = _ => replace c with false by (vm_compute; reflexivity) end. cbv iota.
    change (fo_widest pops [B 0 1]) with 0%nat. rewrite SD. change (po_centre (wpaver true []) (po_relax (wpaver true []) tt) D1) with tt. change (po_centre (wpaver true []) tt D2) with tt.
    rewrite (H D1) by auto. cbn [obind fst snd]. rewrite (H D2) by auto. reflexivity. }
  split.
  - intros s K. unfold cl_in in K. rewrite cl_box_fin in K by (constructor; [split; reflexivity|constructor]). apply in_box1 in K. destruct K as (r & E & K).
    apply (f_equal (fun l => nth 0 l 0)) in E. cbn in E. apply B_out in K; try reflexivity. destruct ints as (_ & E0 & E1 & _). rewrite E0, E1 in K. lra.
  - unfold cl_in. rewrite cl_box_fin by (constructor; [split; reflexivity|constructor]). apply in_box1. exists 0. split; auto. apply B_in; try reflexivity. destruct ints as (_ & -> & -> & _). lra.
Qed.
Print Assumptions C153_optimal_refuted.
Example C153_nonvacuous : exists q, constraint_rec pops (wpaver false []) 9 [] [B 0 1] [x1] [] [] (mkCell 0 [B 0 1]) 2 = Done q /\ length q = 4%nat.
Proof. apply size_done; [vm_compute; reflexivity|lia]. Qed.

(** *** C154: a negative multiplier, which the code does not exclude, excludes points which are looked for *)
Theorem C154_certificate_refuted : exists (D bx : list (bounds 53 1024)) (fg : list wfun) w s, finite_box D /\ finite_box bx /\
  in_cbox D s /\ in_cbox bx (values w_den fg s) /\ dual w_den D fg bx w s < 0.
Proof.
  exists [B 0 1], [B 0 1], [x1], [dp (-1) 0; dp 0 0; dp 0 0; dp 0 0], [0].
  assert (in_cbox [B 0 1] [0]) as I by (apply in_box1; exists 0; split; auto; apply B_in; try reflexivity; destruct ints as (_ & -> & -> & _); lra).
  split; [constructor; [split; reflexivity|constructor]|]. split; [constructor; [split; reflexivity|constructor]|]. split; [exact I|]. split; [exact I|].
  unfold dual, values. cbn [map length Nat.mul Nat.add skipn slack w_den wcoordinate nth b_l b_u]. destruct ints as (-> & -> & -> & _). lra.
Qed.
Print Assumptions C154_certificate_refuted.
Example C154_nonvacuous : let w := [dp 1 0; dp 0 0; dp 0 0; dp 0 0] in nonnegative w /\ finite_box [B 0 1] /\ (forall s, dual w_den [B 0 1] [five] [B 0 1] w [s] < 0).
Proof.
  cbv zeta. destruct ints as (_ & E0 & E1 & _ & _ & _ & E5). split.
  - constructor; [rewrite E1; lra|]. repeat (constructor; [rewrite E0; lra|]). constructor.
  - split; [constructor; [split; reflexivity|constructor]|]. intros s. unfold dual, values. cbn [map length Nat.mul Nat.add skipn slack w_den five b_l b_u]. rewrite E0, E1. lra.
Qed.
