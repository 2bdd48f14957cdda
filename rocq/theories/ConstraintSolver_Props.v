(** * Properties C101-C106: the constraint solver

    The positive theorems hold in every precision of at least 11 digits; double precision is 53, 1024.  Functions
    are arbitrary real functions, given to the solver by any evaluation on boxes which encloses them. *)
From Coq Require Import ZArith Bool List Reals Lia Lra Psatz.
From Flocq Require Import Core IEEE754.BinarySingleNaN.
From Verif Require Import Logical_Model Float_Model Float_Spec Float_Proofs Bounds_Model Bounds_Spec Bounds_Proofs Bounds_Props Ball_Props.
From Verif Require Import ConstraintSolver_Model ConstraintSolver_Spec ConstraintSolver_Proofs.
Import ListNotations.
Local Open Scope R_scope.

Local Notation dbnd := (bounds 53 1024).
Definition iv (l u : DP) : dbnd := mkB l u.
Definition d_ (z : Z) : DP := dp z 0.
(** The first coordinate, and its evaluation. *)
Definition first (x : list R) : R := nth 0 x 0.
Definition ev_first : list dbnd -> dbnd := fun B => hd (b_of fzero) B.
Lemma ev_first_encloses : encloses (graph first) ev_first.
Proof.
  intros B x y H ->. unfold ev_first, first. destruct H; cbn; auto. split; cbn; lra.
Qed.
(** [max(1,x)] *)
Definition max1 (x : list R) : R := Rmax 1 (first x).
Definition ev_max1 : list dbnd -> dbnd := fun B => b_max (b_of (d_ 1)) (ev_first B).
Lemma d1_val : B2R (d_ 1) = 1. Proof. dpval (d_ 1). lra. Qed.
Lemma ev_max1_encloses : encloses (graph max1) ev_max1.
Proof.
  intros B x y H ->. unfold ev_max1, max1. apply b_max_contains; [|apply ev_first_encloses with x; auto; reflexivity].
  rewrite <- d1_val. apply b_of_contains. reflexivity.
Qed.
Lemma in_cbox1 (X : dbnd) (v : DP) : is_finite v = true -> flt_le (b_l X) v && flt_le v (b_u X) = true -> in_cbox [X] [B2R v].
Proof. intros. constructor; [apply dp_in; auto|constructor]. Qed.
Lemma in_cbox1_inv (X : dbnd) p : in_cbox [X] p -> exists a, p = [a] /\ contains X a.
Proof. intros H. inversion H as [|? a ? ? C H']; subst. inversion H'; subst. eauto. Qed.
Lemma moderate_dp (a : DP) : is_finite a && flt_le (fabs a) (dp 1 1020) = true -> moderate a.
Proof.
  intros H. apply andb_prop in H. destruct H as [F H]. split; auto.
  apply flt_le_finite in H; [|destruct a; auto; discriminate|reflexivity].
  unfold fabs in H. rewrite B2R_Babs in H. eapply Rle_trans; [exact H|]. right.
  rewrite <- (SF2R_B2SF 53 1024 (dp 1 1020)).
  replace (B2SF (dp 1 1020)) with (SpecFloat.S754_finite false (2^52)%positive 968) by (vm_compute; reflexivity).
  unfold SF2R, F2R; cbn [Fnum Fexp cond_Zopp]. change (Z.pos (2^52)) with (2^52)%Z. rewrite (IZR_Zpower radix2) by lia.
  rewrite <- bpow_plus. reflexivity.
Qed.

(** Boxes up to the proofs that their ends are canonical floats. *)
Definition shown (r : option (bool * list dbnd)) : option (bool * list (SpecFloat.spec_float * SpecFloat.spec_float)) :=
  option_map (fun ed => (fst ed, map (fun X => (B2SF (b_l X), B2SF (b_u X))) (snd ed))) r.

(** ** C101: shaving a variable ([box_reduce])

    Full claim: [box_reduce] keeps every point of the box at which the constraint holds, and returns true only if
    there is none.  Proved when the ends of the coordinate are at most 2^(emax-4); the other coordinates may have any
    ends. *)
Theorem C101_box_reduce_partial : forall prec emax (Hprec : Prec_gt_0 prec) (Hemax : Prec_lt_emax prec emax), (11 <= prec)%Z ->
  forall (f : list R -> R -> Prop) ev (c : bounds prec emax) dom v, encloses f ev -> (v < length dom)%nat -> moderate_ivl (coord dom v) ->
  (forall x, solution f c dom x ->
     (* the function returns, keeps the solution and says that there may be one *)
     exists dom', box_reduce ev c dom v = Some (false, dom') /\ in_cbox dom' x) /\
  (forall e dom', box_reduce ev c dom v = Some (e, dom') ->
     (* only this coordinate changes, and it is emptied when there is no solution *)
     exists X, dom' = set_at v X dom /\ (e = true -> X = b_empty)).
Proof.
  intros prec emax Hprec Hemax Hp f ev c dom v He Hv Hm. split.
  - intros x Hx. destruct (box_reduce ev c dom v) as [[e d]|] eqn:E; [|exfalso; eapply (box_reduce_returns (Hp := Hp)); eauto].
    destruct (box_reduce_sound (Hp := Hp) f ev c dom v He Hv Hm x Hx e d E) as [B ->]. eauto.
  - intros e d E. destruct (box_reduce_shape (Hp := Hp) _ _ _ _ _ _ E) as (X & A & B & _). eauto.
Qed.
Print Assumptions C101_box_reduce_partial.
(** A box which is cut: x in [0,8] with x in [2,3] becomes [2,3], and x in [20,30] is excluded. *)
Example C101_nonvacuous :
  moderate_ivl (coord [iv (d_ 0) (d_ 8)] 0) /\ solution (graph first) (iv (d_ 2) (d_ 3)) [iv (d_ 0) (d_ 8)] [B2R (d_ 3)] /\
  shown (box_reduce ev_first (iv (dp 5 (-1)) (dp 11 (-2))) [iv (d_ 0) (d_ 8)] 0) = shown (Some (false, [iv (d_ 2) (d_ 3)])) /\
  box_reduce ev_first (iv (d_ 20) (d_ 30)) [iv (d_ 0) (d_ 8)] 0 = Some (true, [b_empty]).
Proof.
  split; [split; apply moderate_dp; vm_compute; reflexivity|]. split.
  - split; [apply in_cbox1; dpfin|]. exists (B2R (d_ 3)). split; [reflexivity|]. apply dp_in; dpfin.
  - split; vm_compute; reflexivity.
Qed.
(** Ends of 2^1023 and more: the products in the cut points overflow and all slices are [inf,inf]. *)
Theorem C101_overflow_refuted : exists (f : list R -> R) ev (c X : dbnd) x, encloses (graph f) ev /\ finite_bounds X /\
  solution (graph f) c [X] x /\ box_reduce ev c [X] 0 = Some (true, [b_empty]).
Proof.
  exists first, ev_first, (iv (dp 1 1023) (dp 3 1022)), (iv (dp 1 1023) (dp 3 1022)), [B2R (dp 1 1023)].
  split; [apply ev_first_encloses|]. split; [split; reflexivity|]. split.
  - split; [apply in_cbox1; dpfin|]. eexists. split; [reflexivity|]. apply dp_in; dpfin.
  - vm_compute. reflexivity.
Qed.
Print Assumptions C101_overflow_refuted.
(** An infinite end: the last slice is [-inf,NaN], whose image under [max(1,x)] is [1,1], so that the solution 2
    of [max(1,x)] in [2,3] on [-inf,3] is lost. *)
Theorem C101_infinite_refuted : exists (f : list R -> R) ev (c X : dbnd) x, encloses (graph f) ev /\
  solution (graph f) c [X] x /\ box_reduce ev c [X] 0 = Some (true, [b_empty]).
Proof.
  exists max1, ev_max1, (iv (d_ 2) (d_ 3)), (iv (fneg finf) (d_ 3)), [B2R (d_ 2)].
  split; [apply ev_max1_encloses|]. split.
  - split; [apply in_cbox1; dpfin|]. exists (B2R (d_ 2)). split; [|apply dp_in; dpfin].
    unfold graph, max1, first. cbn [nth]. rewrite Rmax_right; auto. dpval (d_ 2). lra.
  - vm_compute. reflexivity.
Qed.
Print Assumptions C101_infinite_refuted.

(** ** C102: reduction in a variable by the derivative ([monotone_reduce])

    Full claim: the call ends, keeps every solution in the box, and returns true only if there is none. *)
Theorem C102_monotone_reduce_partial : forall prec emax (Hprec : Prec_gt_0 prec) (Hemax : Prec_lt_emax prec emax), (11 <= prec)%Z ->
  forall (f d : list R -> R) ev dev (c : bounds prec emax) dom v,
  encloses (graph f) ev -> encloses (graph d) dev -> partial_derivative f d v dom ->
  (v < length dom)%nat -> moderate_ivl (coord dom v) ->
  forall fuel e dom', monotone_reduce ev dev c dom v fuel = Some (e, dom') ->
  (forall x, solution (graph f) c dom x -> in_cbox dom' x) /\
  (e = true -> forall x, ~ solution (graph f) c dom x).
Proof.
  intros prec emax Hprec Hemax Hp f d ev dev c dom v He Hde Hd Hv Hm fuel e dom' E. split.
  - intros x Hx. apply (monotone_reduce_sound (Hp := Hp) f d ev dev c dom v He Hde Hd Hv Hm x Hx fuel e dom' E).
  - intros -> x Hx. destruct (monotone_reduce_sound (Hp := Hp) f d ev dev c dom v He Hde Hd Hv Hm x Hx fuel true dom' E). discriminate.
Qed.
Print Assumptions C102_monotone_reduce_partial.
Definition ev_one : list dbnd -> dbnd := fun _ => b_of (d_ 1).
Lemma ev_one_encloses : encloses (graph (fun _ => 1)) ev_one.
Proof. intros B x y _ ->. rewrite <- d1_val. apply b_of_contains. reflexivity. Qed.
Lemma first_derivative (X : dbnd) : partial_derivative first (fun _ => 1) 0 [X].
Proof.
  intros x H. inversion H as [|? a ? ? ? H']; subst. inversion H'; subst. cbn.
  apply derivable_pt_lim_id.
Qed.
Example C102_nonvacuous :
  solution (graph first) (iv (d_ 2) (d_ 2)) [iv (d_ 0) (d_ 8)] [B2R (d_ 2)] /\
  moderate_ivl (coord [iv (d_ 0) (d_ 8)] 0) /\ partial_derivative first (fun _ => 1) 0 [iv (d_ 0) (d_ 8)] /\
  shown (monotone_reduce ev_first ev_one (iv (d_ 2) (d_ 2)) [iv (d_ 0) (d_ 8)] 0 5) = shown (Some (false, [iv (d_ 2) (d_ 2)])) /\
  option_map fst (monotone_reduce ev_first ev_one (iv (d_ 20) (d_ 20)) [iv (d_ 0) (d_ 8)] 0 5) = Some true.
Proof.
  split. { split; [apply in_cbox1; dpfin|]. exists (B2R (d_ 2)). split; [reflexivity|]. apply dp_in; dpfin. }
  split; [split; apply moderate_dp; vm_compute; reflexivity|]. split; [apply first_derivative|].
  split; vm_compute; reflexivity.
Qed.
(** The call does not end when the constraint does not cut the box: x in [-10,10] on [0,1]. *)
Theorem C102_termination_refuted : exists (f d : list R -> R) ev dev (c : dbnd) dom,
  encloses (graph f) ev /\ encloses (graph d) dev /\ partial_derivative f d 0 dom /\ moderate_ivl (coord dom 0) /\
  forall fuel, monotone_reduce ev dev c dom 0 fuel = None.
Proof.
  exists first, (fun _ => 1), ev_first, ev_one, (iv (d_ (-10)) (d_ 10)), [iv (d_ 0) (d_ 1)].
  split; [apply ev_first_encloses|]. split; [apply ev_one_encloses|]. split; [apply first_derivative|].
  split; [split; apply moderate_dp; vm_compute; reflexivity|].
  intros fuel. unfold monotone_reduce. set (dom := [iv (d_ 0) (d_ 1)]). set (c := iv (d_ (-10)) (d_ 10)).
  cut (monotone_loop ev_first ev_one c dom 0 fuel (coord dom 0) (coord dom 0) dom = None); [intros ->; reflexivity|].
  assert (forall n, Bltb (b_l (coord dom 0)) (b_l n) = false -> Bltb (b_u n) (b_u (coord dom 0)) = false -> b_refinement (coord dom 0) n = coord dom 0) as K.
  { intros n A B. unfold b_refinement, fmax, fmin. rewrite A, B. reflexivity. }
  assert (step_lower ev_first ev_one c dom 0 dom (coord dom 0) = coord dom 0) as S1.
  { unfold step_lower. match goal with |- context [if flt_lt ?a ?b then _ else coord _ _] => replace (flt_lt a b) with true by (vm_compute; reflexivity) end.
    cbv zeta. match goal with |- context [if flt_lt ?a ?b then _ else _] => replace (flt_lt a b) with false by (vm_compute; reflexivity) end.
    apply K; vm_compute; reflexivity. }
  assert (step_upper ev_first ev_one c dom 0 dom (coord dom 0) = coord dom 0) as S2.
  { unfold step_upper. match goal with |- context [if flt_lt ?a ?b then _ else coord _ _] => replace (flt_lt a b) with true by (vm_compute; reflexivity) end.
    cbv zeta. match goal with |- context [if flt_lt ?a ?b then _ else _] => replace (flt_lt a b) with false by (vm_compute; reflexivity) end.
    apply K; vm_compute; reflexivity. }
  assert (flt_lt (threshold dom 0) (width (coord dom 0)) = true) as S3 by (vm_compute; reflexivity).
  induction fuel as [|n IH]; [reflexivity|]. change (monotone_loop ev_first ev_one c dom 0 (S n) (coord dom 0) (coord dom 0) dom)
    with (let lower' := step_lower ev_first ev_one c dom 0 dom (coord dom 0) in
          let upper' := step_upper ev_first ev_one c dom 0 dom (coord dom 0) in
          let sub' := set_at 0 (mkB (b_l lower') (b_u upper')) dom in
          if flt_lt (threshold dom 0) (width lower') && flt_lt (threshold dom 0) (width upper')
          then monotone_loop ev_first ev_one c dom 0 n lower' upper' sub' else Some sub').
  cbv zeta. rewrite S1, S2, S3. exact IH.
Qed.
Print Assumptions C102_termination_refuted.

(** ** C103: reduction by a combination of the constraints ([lyapunov_reduce])

    Full claim: every point of the box at which all constraints hold is kept, and true is returned only if there is
    none.  Proved when the centre lies in the box. *)
Theorem C103_lyapunov_reduce_partial : forall prec emax (Hprec : Prec_gt_0 prec) (Hemax : Prec_lt_emax prec emax), (11 <= prec)%Z ->
  forall (F : list R -> list R) (dg : list R -> list R) (dom : list (bounds prec emax)) mult bs gc dgr centre,
  (* [g] is the combination of the components of [F]; [gc] and [dgr] enclose its value at the centre and its gradient *)
  let g x := dot (map B2R mult) (F x) in
  has_gradient g dg dom -> (forall p, in_cbox dom p -> in_cbox dgr (dg p)) ->
  in_cbox dom (map B2R centre) -> contains gc (g (map B2R centre)) ->
  moderate_box dom -> List.Forall moderate centre -> List.Forall finite_bounds dgr ->
  List.Forall finite_float mult -> List.Forall finite_bounds bs -> length mult = length bs -> length dgr = length dom ->
  (forall x, in_cbox dom x -> in_cbox bs (F x) -> in_cbox (snd (lyapunov_reduce dom mult bs gc dgr centre)) x) /\
  (fst (lyapunov_reduce dom mult bs gc dgr centre) = true -> forall x, in_cbox dom x -> ~ in_cbox bs (F x)).
Proof.
  intros prec emax Hprec Hemax Hp F dg dom mult bs gc dgr centre g Hg Hdg Hc Hgc Md Mc Fg Fm Fb Lm Ld.
  assert (forall x, in_cbox dom x -> in_cbox bs (F x) -> in_cbox (snd (lyapunov_reduce dom mult bs gc dgr centre)) x) as K.
  { intros x Hx Hy. eapply (lyapunov_keeps (Hp := Hp)) with (g := g) (ys := F x); eauto. }
  split; auto. intros E x Hx Hy. pose proof (in_box_nonempty _ _ (K x Hx Hy)) as N.
  change (fst (lyapunov_reduce dom mult bs gc dgr centre)) with (box_empty (snd (lyapunov_reduce dom mult bs gc dgr centre))) in E.
  rewrite N in E. discriminate.
Qed.
Print Assumptions C103_lyapunov_reduce_partial.
Definition square (x : list R) : list R := [first x * first x].
Definition square_gradient (x : list R) : list R := [2 * first x].
Lemma square_has_gradient (X : dbnd) : has_gradient (fun x => dot (map B2R [d_ 1]) (square x)) square_gradient [X].
Proof.
  intros p d t L H. destruct p as [|a [|a' p]]; destruct d as [|b [|b' d]]; try discriminate L; inversion H as [|? ? ? ? _ H']; [|inversion H'].
  assert (map B2R [d_ 1] = [1]) as M by (cbn [map]; rewrite d1_val; reflexivity).
  rewrite M. clear H. unfold dot, square, square_gradient, first, along. cbn [map combine fst snd nth fold_right].
  assert (derivable_pt_lim (fun s => (a + s * b) * (a + s * b)) t (2 * (a + t * b) * b)) as D.
  { assert (derivable_pt_lim (fun s => a + s * b) t b) as D1.
    { intros eps He. exists (mkposreal 1 Rlt_0_1). intros h Hh _.
      replace ((a + (t + h) * b - (a + t * b)) / h - b) with 0 by (field; auto). rewrite Rabs_R0. auto. }
    replace (2 * (a + t * b) * b) with (b * (a + t * b) + (a + t * b) * b) by ring.
    apply (derivable_pt_lim_mult (fun s => a + s * b) (fun s => a + s * b)); auto. }
  intros eps He. destruct (D eps He) as [del Q]. exists del. intros h Hh Hl. specialize (Q h Hh Hl).
  replace (2 * (a + t * b) * b + 0) with (2 * (a + t * b) * b) by ring.
  replace (1 * ((a + (t + h) * b) * (a + (t + h) * b)) + 0 - (1 * ((a + t * b) * (a + t * b)) + 0))
    with ((a + (t + h) * b) * (a + (t + h) * b) - (a + t * b) * (a + t * b)) by ring.
  exact Q.
Qed.
(** On [1,2] with centre 1.5 and bounds [1,1] the solution 1 is kept and the box shrinks; bounds [9,9] have no solution. *)
Example C103_nonvacuous :
  in_cbox [iv (d_ 1) (d_ 2)] (map B2R [dp 3 (-1)]) /\ in_cbox [iv (d_ 1) (d_ 2)] [B2R (d_ 1)] /\
  contains (b_of (dp 9 (-2))) (dot (map B2R [d_ 1]) (square (map B2R [dp 3 (-1)]))) /\
  has_gradient (fun x => dot (map B2R [d_ 1]) (square x)) square_gradient [iv (d_ 1) (d_ 2)] /\
  (let r := lyapunov_reduce [iv (d_ 1) (d_ 2)] [d_ 1] [iv (d_ 1) (d_ 1)] (b_of (dp 9 (-2))) [iv (d_ 2) (d_ 4)] [dp 3 (-1)] in
   fst r = false /\ snd r <> [iv (d_ 1) (d_ 2)]) /\
  fst (lyapunov_reduce [iv (d_ 1) (d_ 2)] [d_ 1] [iv (d_ 9) (d_ 9)] (b_of (dp 9 (-2))) [iv (d_ 2) (d_ 4)] [dp 3 (-1)]) = true.
Proof.
  split; [apply in_cbox1; dpfin|]. split; [apply in_cbox1; dpfin|]. split.
  { replace (dot (map B2R [d_ 1]) (square (map B2R [dp 3 (-1)]))) with (B2R (dp 9 (-2))); [apply b_of_contains; dpfin|].
    unfold dot, square, first. cbn [map combine fst snd nth fold_right]. rewrite d1_val. dpval (dp 9 (-2)). 
    assert (B2R (dp 3 (-1)) = 3 / 2) as -> by (dpval (dp 3 (-1)); lra). lra. }
  split; [apply square_has_gradient|]. split; [split; [vm_compute; reflexivity|]|vm_compute; reflexivity].
  intros H. apply (f_equal (fun l => flt_eq (b_u (hd b_empty l)) (d_ 2))) in H. vm_compute in H. discriminate.
Qed.
(** With a centre outside the box the mean value theorem is used on a box without the centre: [x^2] in [1,1] on [1,2]
    with centre 0 has the solution 1, but true is returned. *)
Theorem C103_centre_refuted : exists (F : list R -> list R) dg (dom : list dbnd) mult bs gc dgr centre x,
  let g x := dot (map B2R mult) (F x) in
  has_gradient g dg dom /\ (forall p, in_cbox dom p -> in_cbox dgr (dg p)) /\ contains gc (g (map B2R centre)) /\
  moderate_box dom /\ List.Forall moderate centre /\
  in_cbox dom x /\ in_cbox bs (F x) /\ fst (lyapunov_reduce dom mult bs gc dgr centre) = true.
Proof.
  exists square, square_gradient, [iv (d_ 1) (d_ 2)], [d_ 1], [iv (d_ 1) (d_ 1)], (b_of (d_ 0)), [iv (d_ 2) (d_ 4)], [d_ 0], [B2R (d_ 1)].
  cbv zeta. assert (B2R (d_ 0) = 0) as D0 by (apply dp_zero; vm_compute; reflexivity).
  assert (B2R (d_ 2) = 2) as D2 by (dpval (d_ 2); lra). assert (B2R (d_ 4) = 4) as D4 by (dpval (d_ 4); lra).
  split; [apply square_has_gradient|]. split.
  { intros p H. destruct (in_cbox1_inv _ _ H) as (a & -> & L & U). constructor; [|constructor].
    apply (proj1 (below_finite (d_ 1) a eq_refl)) in L. apply (proj1 (above_finite (d_ 2) a eq_refl)) in U. rewrite d1_val in L. rewrite D2 in U.
    unfold first; cbn [nth]. split; [apply (proj2 (below_finite (d_ 2) _ eq_refl))|apply (proj2 (above_finite (d_ 4) _ eq_refl))]; rewrite ?D2, ?D4; lra. }
  split.
  { replace (dot (map B2R [d_ 1]) (square (map B2R [d_ 0]))) with (B2R (d_ 0)); [apply b_of_contains; dpfin|].
    unfold dot, square, first. cbn [map combine fst snd nth fold_right]. rewrite d1_val, D0. lra. }
  split; [constructor; [split; apply moderate_dp; vm_compute; reflexivity|constructor]|].
  split; [constructor; [apply moderate_dp; vm_compute; reflexivity|constructor]|].
  split; [apply in_cbox1; dpfin|]. split; [|vm_compute; reflexivity].
  constructor; [|constructor]. unfold first; cbn [nth]. rewrite d1_val, Rmult_1_r, <- d1_val. apply dp_in; dpfin.
Qed.
Print Assumptions C103_centre_refuted.

(** ** C104: reduction of the domain of a problem ([reduce])

    Full claim: [reduce] ends, keeps every point at which all constraints hold, and returns true exactly when the
    new box is empty.  Ending and the value returned are proved for every evaluation and every contractor. *)
Theorem C104_reduce_ends : forall prec emax (Hprec : Prec_gt_0 prec) (Hemax : Prec_lt_emax prec emax), (11 <= prec)%Z ->
  forall (hull : list (bounds prec emax) -> list (bounds prec emax)) evs hulls m,
  exists n, forall fuel dom, (n <= fuel)%nat -> reduce_vector hull evs fuel dom <> Unfinished /\ reduce_list hulls m fuel dom <> Unfinished.
Proof.
  intros prec emax Hprec Hemax Hp hull evs hulls m.
  destruct (reduce_with_finishes (Hp := Hp) (round_vector hull evs) mode_NE (round_vector_honest hull evs)) as (n1 & H1).
  destruct (reduce_with_finishes (Hp := Hp) (round_list hulls) m (round_list_honest hulls)) as (n2 & H2).
  exists (n1 + n2)%nat. intros fuel dom L. split; [apply H1|apply H2]; lia.
Qed.
Print Assumptions C104_reduce_ends.
Theorem C104_reduce_answer : forall prec emax (Hprec : Prec_gt_0 prec) (Hemax : Prec_lt_emax prec emax)
  (hull : list (bounds prec emax) -> list (bounds prec emax)) evs hulls m fuel dom e d,
  reduce_vector hull evs fuel dom = Reduced e d \/ reduce_list hulls m fuel dom = Reduced e d -> (e = true <-> exists X, In X d /\ flt_lt (b_u X) (b_l X) = true).
Proof.
  intros prec emax Hprec Hemax hull evs hulls m fuel dom e d H.
  assert (e = box_empty d) as ->.
  { destruct H as [H|H]; [eapply reduce_with_answer; [apply round_vector_honest|exact H]|eapply reduce_with_answer; [apply round_list_honest|exact H]]. }
  unfold box_empty. rewrite existsb_exists. reflexivity.
Qed.
Print Assumptions C104_reduce_answer.
(** With moderate boxes and contractors which lose no solution (see C48 for hull reduction), the solutions are kept,
    and the assertion in [box_reduce] can only fail if there is none. *)
Theorem C104_reduce_keeps_partial : forall prec emax (Hprec : Prec_gt_0 prec) (Hemax : Prec_lt_emax prec emax), (11 <= prec)%Z ->
  forall (fcs : list ((list R -> R -> Prop) * bounds prec emax)) evs hull hulls m dom x, solves_all fcs dom x ->
  (enclosing fcs evs -> moderate_box dom ->
   (forall B x, solves_all fcs B x -> in_cbox (hull B) x) ->
   (forall B, moderate_box B -> box_empty (hull B) = false -> moderate_box (hull B)) ->
   forall fuel, reduce_vector hull evs fuel dom <> AssertionFailed /\
   forall e d, reduce_vector hull evs fuel dom = Reduced e d -> e = false /\ in_cbox d x) /\
  (Forall2 (fun h fc => keeps (fst fc) (snd fc) h) hulls fcs ->
   forall fuel, reduce_list hulls m fuel dom <> AssertionFailed /\
   forall e d, reduce_list hulls m fuel dom = Reduced e d -> e = false /\ in_cbox d x).
Proof.
  intros prec emax Hprec Hemax Hp fcs evs hull hulls m dom x Hx. split.
  - intros He Md Hk Hm fuel.
    assert (forall d, moderate_box d -> in_cbox d x -> exists d', round_vector hull evs d = Some (false, d') /\ in_cbox d' x /\ moderate_box d') as Q.
    { intros d Md' B. eapply (round_vector_sound (Hp := Hp)); eauto. split; auto. apply Hx. }
    pose proof (reduce_with_sound _ mode_NE x moderate_box Q fuel dom Md (proj1 Hx)) as S. unfold reduce_vector.
    destruct reduce_with; [|contradiction|]; split; try discriminate; intros e' d' E; inversion E; subst; auto.
  - intros Hk fuel.
    assert (forall d, True -> in_cbox d x -> exists d', round_list hulls d = Some (false, d') /\ in_cbox d' x /\ True) as Q.
    { intros d _ B. destruct (round_list_sound hulls fcs d x Hk) as (d' & E & B'); [split; [auto|apply Hx]|eauto]. }
    pose proof (reduce_with_sound _ m x (fun _ => True) Q fuel dom I (proj1 Hx)) as S. unfold reduce_list.
    destruct reduce_with; [|contradiction|]; split; try discriminate; intros e' d' E; inversion E; subst; auto.
Qed.
Print Assumptions C104_reduce_keeps_partial.
(** With x in [2.5,2.5] the box [0,8] is reduced to a width less than 2^-40; with x in [20,30] it is emptied. *)
Example C104_nonvacuous :
  solves_all [(graph first, iv (d_ 2) (d_ 3))] [iv (d_ 0) (d_ 8)] [B2R (d_ 2)] /\
  enclosing [(graph first, iv (d_ 2) (d_ 3))] [(ev_first, iv (d_ 2) (d_ 3))] /\
  match reduce_vector (fun d => d) [(ev_first, iv (dp 5 (-1)) (dp 5 (-1)))] 60 [iv (d_ 0) (d_ 8)] with
  | Reduced e [X] => negb e && flt_lt (width X) (dp 1 (-40))
  | _ => false end = true /\
  match reduce_vector (fun d => d) [(ev_first, iv (d_ 20) (d_ 30))] 9 [iv (d_ 0) (d_ 8)] with Reduced e _ => e | _ => false end = true /\
  match reduce_list [fun d => [iv (d_ 2) (d_ 3)]] mode_NE 9 [iv (d_ 0) (d_ 8)] with
  | Reduced e d => shown (Some (e, d)) | _ => None end = shown (Some (false, [iv (d_ 2) (d_ 3)])).
Proof.
  split. { split; [apply in_cbox1; dpfin|]. intros f c [E|[]]. inversion E; subst. exists (B2R (d_ 2)). split; [reflexivity|]. apply dp_in; dpfin. }
  split. { constructor; [|constructor]. split; [apply ev_first_encloses|reflexivity]. }
  split; [vm_compute; reflexivity|]. split; vm_compute; reflexivity.
Qed.
(** The same overflow as in C101: a solution of absolute value 2^1023 is lost. *)
Theorem C104_overflow_refuted : exists (f : list R -> R) ev (c X : dbnd) x, encloses (graph f) ev /\ finite_bounds X /\
  solves_all [(graph f, c)] [X] x /\ forall fuel, reduce_vector (fun d => d) [(ev, c)] (S fuel) [X] = Reduced true [b_empty].
Proof.
  exists first, ev_first, (iv (dp 1 1023) (dp 3 1022)), (iv (dp 1 1023) (dp 3 1022)), [B2R (dp 1 1023)].
  split; [apply ev_first_encloses|]. split; [split; reflexivity|]. split.
  - split; [apply in_cbox1; dpfin|]. intros f c [E|[]]. inversion E; subst. eexists. split; [reflexivity|]. apply dp_in; dpfin.
  - intros fuel. set (X := iv (dp 1 1023) (dp 3 1022)). unfold reduce_vector, reduce_with. cbn [reduce_loop].
    assert (box_empty [X] = false) as -> by (vm_compute; reflexivity).
    assert (round_vector (fun d => d) [(ev_first, X)] [X] = Some (true, [b_empty])) as -> by (vm_compute; reflexivity). reflexivity.
Qed.
Print Assumptions C104_overflow_refuted.

(** ** C105: checking a point ([check_feasibility])

    Full claim: true means that the point is in the domain with its image in the codomain; false means that it is
    not; and true is returned if the computed image is in the interior. *)
Theorem C105_check_feasibility_partial : forall prec emax (Hprec : Prec_gt_0 prec) (Hemax : Prec_lt_emax prec emax), (11 <= prec)%Z ->
  forall (F : list R -> list R -> Prop) (ev : list (bounds prec emax) -> list (bounds prec emax)) d c y ys,
  (forall B x ys, in_cbox B x -> F x ys -> in_cbox (ev B) ys) -> (forall x ys zs, F x ys -> F x zs -> ys = zs) ->
  List.Forall finite_float y -> List.Forall no_nan d -> List.Forall no_nan c -> length y = length d ->
  F (map B2R y) ys -> length c = length ys ->
  (check_feasibility d ev c y = TRUE -> feasible_point F d c (map B2R y)) /\
  (check_feasibility d ev c y = FALSE -> ~ feasible_point F d c (map B2R y)) /\
  (in_cbox d (map B2R y) -> Forall2 strictly_inside (ev (map b_of y)) c -> check_feasibility d ev c y = TRUE).
Proof.
  intros prec emax Hprec Hemax Hp F ev d c y ys He Fun Fy Nd Nc Ly E Lc. split; [|split].
  - eapply check_true; eauto.
  - eapply check_false; eauto.
  - intros B S. unfold check_feasibility. destruct point_outside eqn:O; [exfalso; eapply point_outside_true; eauto|].
    apply check_values_strict; auto. pose proof (He _ _ _ (of_points y Fy) E) as K. clear - K. induction K; constructor; auto. eexists; eauto.
Qed.
Print Assumptions C105_check_feasibility_partial.
Definition ev_point : list dbnd -> list dbnd := fun B => [ev_first B].
Definition first_value (x ys : list R) : Prop := ys = [first x].
Lemma ev_point_encloses B x ys : in_cbox B x -> first_value x ys -> in_cbox (ev_point B) ys.
Proof. intros H ->. constructor; [|constructor]. apply ev_first_encloses with x; auto. reflexivity. Qed.
Example C105_nonvacuous :
  check_feasibility [iv (d_ 0) (d_ 8)] ev_point [iv (d_ 2) (d_ 4)] [d_ 3] = TRUE /\
  check_feasibility [iv (d_ 0) (d_ 8)] ev_point [iv (d_ 2) (d_ 4)] [d_ 5] = FALSE /\
  check_feasibility [iv (d_ 0) (d_ 8)] ev_point [iv (d_ 2) (d_ 4)] [d_ 9] = FALSE /\
  check_feasibility [iv (d_ 0) (d_ 8)] ev_point [iv (d_ 2) (d_ 4)] [d_ 2] = INDET /\
  first_value (map B2R [d_ 3]) [B2R (d_ 3)].
Proof. repeat split; try (vm_compute; reflexivity). Qed.
(** If the evaluation gives NaN, as for [0*x^2-0*x^2] with overflow of [x^2], then all comparisons fail and true is
    returned, although the value at the point is 0 and the codomain is [1,2]. *)
Definition ev_diff : list dbnd -> list dbnd :=
  fun B => let t := b_mul (b_of fzero) (b_sqr (ev_first B)) in [b_sub t t].
Theorem C105_nan_refuted : exists (d c : list dbnd) (y : list DP),
  List.Forall finite_float y /\ in_cbox d (map B2R y) /\
  (let x := first (map B2R y) in ~ in_cbox c [0 * (x * x) - 0 * (x * x)]) /\ check_feasibility d ev_diff c y = TRUE.
Proof.
  exists [iv (d_ 0) (dp 1 601)], [iv (d_ 1) (d_ 2)], [dp 1 600].
  split; [constructor; [reflexivity|constructor]|]. split; [apply in_cbox1; dpfin|]. split; [|vm_compute; reflexivity].
  cbv zeta. intros H. destruct (in_cbox1_inv _ _ H) as (a & E & L & _). injection E as <-. apply (proj1 (below_finite (d_ 1) _ eq_refl)) in L. rewrite d1_val in L. lra.
Qed.
Print Assumptions C105_nan_refuted.

(** ** C106: the feasibility test ([feasible])

    Full claim: false means that no point of the domain has its image in the codomain; true means that some point
    has, and the point returned is one. *)
Theorem C106_feasible_partial : forall prec emax (Hprec : Prec_gt_0 prec) (Hemax : Prec_lt_emax prec emax), (11 <= prec)%Z ->
  forall (F : list R -> list R -> Prop) P (c : list (bounds prec emax)) fuel d y, sound_parts F c P -> List.Forall finite_bounds c -> proper_box d ->
  (feasible P c fuel d = Some (FALSE, y) -> forall x, ~ feasible_point F d c x) /\
  (points_defined F c P -> feasible P c fuel d = Some (TRUE, y) ->
     (exists x, feasible_point F d c x) /\ (y <> [] -> feasible_point F d c (map B2R y))).
Proof.
  intros prec emax Hprec Hemax Hp F P c fuel d y [H1 H2 H3 H4 H5 H6 H7 H8] Fc Hd. split.
  - intros E. eapply (feasible_false (Hp := Hp)); eauto.
  - intros Hpt E. split.
    + eapply (feasible_true); eauto.
    + intros N. eapply (feasible_point_returned); eauto.
Qed.
Print Assumptions C106_feasible_partial.
(** A solver for the identity in one dimension: the optimiser fails on [0,4] and succeeds in its right half. *)
Definition demo_steps (B : list dbnd) : list opt_state :=
  let xs := repeat fzero (2 * (1 + length B)) in
  let s := if flt_lt (b_l (coord B 0)) (d_ 2) then mkOpt xs [b_l (coord B 0)] (d_ (-1)) else mkOpt xs [b_value (coord B 0)] (d_ 0) in
  if forallb is_finite (o_y s) && Nat.eqb (length B) 1 then [s] else [].
Definition whole : dbnd := mkB (fneg finf) finf.
Definition demo : @solver_parts 53 1024 :=
  {| p_eval := ev_point; p_eval_point := ev_point; p_steps := demo_steps;
     p_linear := fun _ _ _ => whole; p_hull := fun _ _ B => B; p_widest := fun _ => 0%nat; p_mid := b_value |}.
Lemma demo_sound c : length c = 1%nat -> sound_parts first_value c demo.
Proof.
  intros Lc. constructor; cbn -[demo_steps].
  - intros. eapply ev_point_encloses; eauto.
  - intros. eapply ev_point_encloses; eauto.
  - intros. split; reflexivity.
  - intros f g b H B x S. apply S.
  - auto.
  - auto.
  - intros X M L. assert (11 <= 53)%Z as Hp by lia. apply (midpoint (Hp := Hp)); auto.
  - intros d s H. unfold demo_steps in H. destruct andb; [|destruct H]. destruct H as [<-|[]]. rewrite Lc.
    destruct flt_lt; cbn [o_x]; (split; [|rewrite repeat_length; reflexivity]);
      apply Forall_forall; intros a Ha; apply repeat_spec in Ha; subst; (split; [reflexivity|cbn; lra]).
Qed.
Lemma demo_points c : length c = 1%nat -> points_defined first_value c demo.
Proof.
  intros Lc d s H. cbn [p_steps demo] in H. unfold demo_steps in H. destruct andb eqn:E; [|destruct H]. destruct H as [<-|[]].
  apply andb_prop in E. destruct E as [E1 E2]. apply Nat.eqb_eq in E2. split; [|split].
  - apply Forall_forall. intros a Ha. rewrite forallb_forall in E1. apply E1. exact Ha.
  - rewrite E2. destruct flt_lt; reflexivity.
  - eexists. split; [reflexivity|]. rewrite Lc. reflexivity.
Qed.
Definition shown_point (r : option (lv * list DP)) := option_map (fun ry => (fst ry, map B2SF (snd ry))) r.
Example C106_nonvacuous :
  sound_parts first_value [iv (dp 5 (-1)) (dp 7 (-1))] demo /\ points_defined first_value [iv (dp 5 (-1)) (dp 7 (-1))] demo /\
  proper_box [iv (d_ 2) (d_ 4)] /\
  shown_point (feasible demo [iv (dp 5 (-1)) (dp 7 (-1))] 1 [iv (d_ 2) (d_ 4)]) = shown_point (Some (TRUE, [d_ 3])) /\
  feasible demo [iv (d_ 5) (d_ 6)] 1 [iv (d_ 2) (d_ 4)] = Some (FALSE, []) /\
  option_map fst (feasible demo [iv (d_ 3) (d_ 6)] 1 [iv (d_ 2) (d_ 4)]) = Some INDET.
Proof.
  split; [apply demo_sound; reflexivity|]. split; [apply demo_points; reflexivity|]. split.
  { constructor; [|constructor]. split; [split; apply moderate_dp; vm_compute; reflexivity|]. apply flt_le_finite; reflexivity. }
  split; [vm_compute; reflexivity|]. split; vm_compute; reflexivity.
Qed.
(** When true comes from one half of a box, the point returned is empty. *)
Theorem C106_point_refuted : exists (F : list R -> list R -> Prop) P (c d : list dbnd),
  sound_parts F c P /\ points_defined F c P /\ List.Forall finite_bounds c /\ proper_box d /\
  exists y, feasible P c 2 d = Some (TRUE, y) /\ ~ feasible_point F d c (map B2R y).
Proof.
  exists first_value, demo, [iv (dp 5 (-1)) (dp 7 (-1))], [iv (d_ 0) (d_ 4)].
  split; [apply demo_sound; reflexivity|]. split; [apply demo_points; reflexivity|].
  split; [constructor; [split; reflexivity|constructor]|]. split.
  { constructor; [|constructor]. split; [split; apply moderate_dp; vm_compute; reflexivity|]. apply flt_le_finite; reflexivity. }
  exists []. split; [vm_compute; reflexivity|]. intros [H _]. inversion H.
Qed.
Print Assumptions C106_point_refuted.
