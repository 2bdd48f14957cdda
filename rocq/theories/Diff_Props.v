(** * Properties of automatic differentiation: C120-C127 *)
From Coq Require Import NArith ZArith QArith Qreals List Bool Reals Lra Lia.
From Verif Require Import LRU_Model Poly_Model Poly_Spec Poly_Proofs Diff_Model Diff_Spec Diff_O_Proofs Diff_Ring_Proofs Diff_Series_Proofs Diff_Inst Diff_Elem_Proofs Diff_Comp_Proofs Diff_Vec_Proofs Diff_Int_Proofs Diff_Flow_Proofs Diff_Unique_Proofs Diff_Extra_Proofs Diff_Uni_Proofs.
Import ListNotations.
Local Open Scope R_scope.

(** Exact rational arithmetic, for the refutations: the functions that are not
    rational are not used there. *)
Definition QX : scalar :=
  mkScalar Q 0%Q (fun n => inject_Z (Z.of_N n)) (fun a b => Qred (a + b)) (fun a b => Qred (a - b)) (fun a b => Qred (a * b)) (fun a b => Qred (a / b)) Qopp (fun a => Qred (a / 2)) (fun a => Qred (/ a))
    (fun a => a) (fun a => a) (fun a => a) (fun a => a) (fun a => a) (fun a => a) (fun a => a) (fun a => Qeq_bool a 0) (fun a => negb (Qle_bool a 0)) (@insertion_sort Q).
(** The terms of the elements of a result. *)
Definition terms_of (o : outcome (dvec QX)) : option (list (list (mi * Q))) := match o with Ret r => Some (map (d_exp QX) (v_elt QX r)) | _ => None end.
Definition qholds (c : QX) (r : R) : Prop := Q2R c = r.

Section Any.
Context (X : scalar) (holds : X -> R -> Prop) (E : encloses X holds).
Notation good := (good X holds).

(** ** C120: arithmetic *)
(** If x and y stand for f and g, the results of the operations stand for the
    results of the operations on functions. *)
Theorem C120_arithmetic_partial n k l x y f g c r : good n k x f -> good n l y g -> holds c r ->
  good n (N.min k l) (d_add X x y) (fun h => f h + g h) /\
  good n (N.min k l) (d_sub X x y) (fun h => f h - g h) /\
  good n (N.min k l) (d_mul X x y) (fun h => f h * g h) /\
  good n k (d_neg X x) (fun h => - f h) /\
  good n k (d_addc X x c) (fun h => f h + r) /\
  good n k (d_mulc X x c) (fun h => f h * r) /\
  (forall m, good n k (d_pow_nat X x m) (fun h => f h ^ N.to_nat m)).
Proof.
  intros Gx Gy H. split; [now apply good_add_min|]. split.
  { destruct Gx as (W & A & D & J), Gy as (W' & A' & D' & J'). split; [apply (d_sub_wf X); congruence|]. split; [exact A|]. split; [simpl; rewrite D, D'; reflexivity|]. apply d_sub_jet; auto; congruence. }
  split; [now apply good_mul_min'|]. split; [now apply good_neg|]. split; [now apply good_addc|]. split; [now apply (good_mulc X holds E)|]. intros m. now apply pow_nat_good.
Qed.
(** Constants, variables and affine functions. *)
Theorem C120_variables_partial n k c r j g rs : (1 <= k < 65536)%N -> (j < n)%nat -> holds c r -> Forall2 holds g rs -> length g = n ->
  good n k (d_constant X n k c) (fun _ => r) /\
  good n k (d_variable X n k c j) (fun h => r + nth j h 0) /\
  good n k (d_affine X n k c g) (fun h => r + fold_right Rplus 0 (map (fun i => nth i rs 0 * nth i h 0) (seq 0 n))).
Proof.
  intros K J H F L. split; [apply (good_constant X holds); [lia | exact H]|]. split; [now apply good_variable|]. now apply affine_good.
Qed.

(** ** C121: elementary functions and formulas *)
(** The differential of a formula, if it is computed, is that of the function
    it denotes; no assertion fails. *)
Theorem C121_formula_partial n k cs rs v gs e : Forall2 holds cs rs -> Forall2 (good n k) v gs -> v <> [] -> ex_smooth rs (map (fun g => g (origin n)) gs) e ->
  ex_diff X cs v e = UB \/ exists d, ex_diff X cs v e = Ret d /\ good n k d (fun h => ex_real rs (map (fun g => g h) gs) e).
Proof. intros C F N0 S. apply (ex_good X holds E n k cs rs v gs e C F); [destruct v; [congruence | simpl; lia] | exact S]. Qed.
(** One function of a differential with at least one term. *)
Theorem C121_functions_partial n k op x f : has_series op = true -> udom op (f (origin n)) -> good n k x f -> d_exp X x <> [] ->
  exists r, d_unary X op x = Ret r /\ good n k r (fun h => usem op (f h)).
Proof. apply unary_good; assumption. Qed.
(** Without terms the first one is read nevertheless. *)
Theorem C121_empty_partial op x : has_series op = true -> d_exp X x = [] -> d_unary X op x = UB.
Proof. apply unary_empty. Qed.
(** The absolute value, when signs are decided. *)
Theorem C121_abs_partial n k x f : (forall c r, holds c r -> x_is0 X c = false -> x_pos X c = false -> r < 0) -> good n k x f ->
  d_abs X x = AssertFail \/ exists r, d_abs X x = Ret r /\ good n k r (fun h => Rabs (f h)).
Proof. intros H G. destruct (abs_good X holds E n k x f H G) as [A|(r & e & A & _ & B)]; [now left|]. right. now exists r. Qed.

(** ** C122: composition *)
(** The chain rule to every order: x stands for F about the values of the
    gs, y for the functions gs of n variables; the argument is unchanged. *)
Theorem C122_compose_partial n k kx x y gs F : wf x -> d_as X x = length gs -> d_deg X x = kx -> (1 <= kx)%N -> jet holds x F ->
  v_as X y = n -> v_deg X y = k -> (k < 65536)%N -> Forall2 (good n k) (v_elt X y) gs ->
  (exists r, fst (d_compose X x y) = Ret r /\ good n (N.min kx k) r (fun h => F (disp n gs h))) /\
  Forall2 (good n k) (v_elt X (snd (d_compose X x y))) gs.
Proof.
  intros W A D K1 J Va Vd K V.
  assert (VO : v_ok X holds n k y gs) by (split; [exact Va|]; split; [exact Vd|]; split; [exact K|]; eapply Forall2_weaken; [|exact V]; intros d f G; exists k; split; [lia | exact G]).
  destruct (compose_good X holds E n k kx x y gs F W A D K1 J VO) as (r & Q & G). split; [now exists r|].
  unfold d_compose in *. destruct (d_evaluate X x (zeroed X y)); cbn [fst snd] in *; try discriminate Q.
  unfold restored, zeroed. cbn [v_elt]. clear - V E. induction V as [|d g l m G V IH]; [constructor|]. simpl. constructor; [|exact IH].
  pose proof (good_set_value X holds n k d g _ _ (h_nul _ _ E) G) as G1. pose proof (good_set_value X holds n k _ _ _ _ (good_value X holds E _ _ _ _ G) G1) as G2.
  eapply good_ext; [|exact G2]. intros h _. cbv beta. ring.
Qed.
Theorem C122_vector_partial n k kx x y gs Fs : (1 <= kx)%N -> Forall2 (fun d F => wf d /\ d_as X d = length gs /\ d_deg X d = kx /\ jet holds d F) (v_elt X x) Fs ->
  v_as X y = n -> v_deg X y = k -> (k < 65536)%N -> Forall2 (good n k) (v_elt X y) gs ->
  exists r, v_compose X x y = Ret (mkVec X n k r) /\ Forall2 (fun d F => good n (N.min kx k) d (fun h => F (disp n gs h))) r Fs.
Proof.
  intros K1 O Va Vd K V. apply (v_compose_good X holds E); [exact K1 | exact O|].
  split; [exact Va|]; split; [exact Vd|]; split; [exact K|]; eapply Forall2_weaken; [|exact V]; intros d f G; exists k; split; [lia | exact G].
Qed.

(** ** C123: derivatives and integrals *)
(** The derivative: x stands for f, g is the partial derivative of f near the
    point, and g has an expansion. *)
Theorem C123_derivative n k x i f g d q : good n k x f -> (1 <= k)%N -> (i < n)%nat -> 0 < d ->
  (forall h, length h = n -> norm h <= d -> derivable_pt_lim (fun t => f (lupd h i t)) (nth i h 0) (g h)) ->
  Forall (fun m => length (fst m) = n /\ (total (fst m) <= k - 1)%N) q -> big_O n (N.to_nat k) (fun h => g h - rpoly q h) ->
  good n (k - 1) (d_derivative X x i) g.
Proof. apply derivative_good. exact E. Qed.
(** The integral: F has the partial derivative f and vanishes with h_i. *)
Theorem C123_antiderivative n k x i f F d : good n k x f -> (k + 1 < 65536)%N -> (i < n)%nat -> 0 < d ->
  (forall h, length h = n -> norm h <= d -> derivable_pt_lim (fun t => F (lupd h i t)) (nth i h 0) (f h)) ->
  (forall h, length h = n -> norm h <= d -> F (lupd h i 0) = 0) -> good n (k + 1) (d_antiderivative X x i) F.
Proof. apply antiderivative_good. exact E. Qed.

(** ** C124: values and gradients *)
Theorem C124_value_gradient_partial n k d f : good n k d f ->
  holds (d_value X d) (f (origin n)) /\
  ((1 <= k)%N -> forall j, (j < n)%nat ->
     exists l, holds (nth j (d_gradient X d) (x_nul X)) l /\ derivable_pt_lim (fun t => f (lupd (origin n) j t)) 0 l).
Proof. intros G. split; [exact (good_value X holds E _ _ _ _ G)|]. intros K j J. exact (gradient_good X holds E n k d f j G K J). Qed.
Theorem C124_jacobian_partial n k (y : dvec X) gs : v_as X y = n -> Forall2 (good n k) (v_elt X y) gs -> (1 <= k)%N ->
  forall i j, (i < length gs)%nat -> (j < n)%nat ->
  exists l, holds (nth j (nth i (v_jacobian X y) []) (x_nul X)) l /\ derivable_pt_lim (fun t => nth i gs (fun _ => 0) (lupd (origin n) j t)) 0 l.
Proof.
  intros A F K i j I J. pose proof (F2_nth _ (d_zero X n k) (fun _ => 0) _ _ F i I) as G. pose proof (Forall2_len _ _ _ F) as L.
  destruct (gradient_good X holds E n k _ _ j G K J) as (l & H & D). exists l. split; [|exact D].
  unfold v_jacobian. rewrite (nth_indep _ _ ((fun d => map (fun j => d_get X d (unit_mi (d_as X d) j)) (seq 0 (v_as X y))) (d_zero X n k))) by (rewrite map_length; lia).
  rewrite (map_nth (fun d => map (fun j => d_get X d (unit_mi (d_as X d) j)) (seq 0 (v_as X y)))). rewrite A. unfold d_gradient in H. destruct G as (_ & Q & _). rewrite Q in *. exact H.
Qed.

(** ** C125: flows *)
(** Autonomous vector fields: the phis solve the differential equation. *)
Theorem C125_flow_partial n kf df x0 rs fs phis d : (1 <= n)%nat -> (1 <= kf)%N -> (kf + 1 < 65536)%N -> 0 < d ->
  length x0 = n -> Forall2 holds x0 rs -> length phis = n -> v_deg X df = kf ->
  Forall2 (fun x f => wf x /\ d_as X x = n /\ d_deg X x = kf /\ jet holds x (fun u => f (map (fun p => fst p + snd p) (combine rs u)))) (v_elt X df) fs ->
  length fs = n ->
  (forall i h, (i < n)%nat -> length h = (n + 1)%nat -> norm h <= d ->
     derivable_pt_lim (fun t => nth i phis (fun _ => 0) (lupd h n t)) (nth n h 0) (nth i fs (fun _ => 0) (map (fun phi => phi h) phis))) ->
  (forall i h, (i < n)%nat -> length h = (n + 1)%nat -> norm h <= d -> nth i phis (fun _ => 0) (lupd h n 0) = nth i rs 0 + nth i h 0) ->
  (forall i e, (i < n)%nat -> 0 < e -> exists d', 0 < d' /\ forall h, length h = (n + 1)%nat -> norm h <= d' ->
     Rabs (nth i phis (fun _ => 0) h - nth i phis (fun _ => 0) (origin (n + 1))) <= e) ->
  exists r, v_flow X df x0 = Ret r /\ v_as X r = (n + 1)%nat /\ Forall2 (good (n + 1) (kf + 1)) (v_elt X r) phis.
Proof.
  intros N0 K1 K2 D0 Lx Hx LP Vd HF LF ODE INI CON. unfold v_flow. rewrite Lx, Vd, w16_small by lia. pose proof (Forall2_len _ _ _ Hx) as Lr.
  pose (x0s := map (fun i => fun h : list R => nth i rs 0 + nth i h 0) (seq 0 n)).
  assert (LX : length x0s = n) by (unfold x0s; now rewrite map_length, seq_length).
  assert (NX : forall i, (i < n)%nat -> nth i x0s (fun _ => 0) = (fun h => nth i rs 0 + nth i h 0)).
  { intros i I. unfold x0s. rewrite (nth_indep _ _ ((fun i => fun h : list R => nth i rs 0 + nth i h 0) 0%nat)) by (rewrite map_length, seq_length; exact I). rewrite (map_nth (fun i => fun h : list R => nth i rs 0 + nth i h 0)), seq_nth by exact I. reflexivity. }
  apply (flow_good X holds E n (n + 1) kf df _ _ (map (fun f u => f (map (fun p => fst p + snd p) (combine rs u))) fs) phis x0s [] d); try assumption; try lia; try reflexivity.
  - now rewrite map_length.
  - cbn [length]. rewrite Nat.add_0_r. clear - HF. induction HF as [|x f l m H HF IH]; simpl; constructor; [exact H | exact IH].
  - cbn [v_elt]. rewrite <- LX at 2. apply (F2_map_seq _ _ (fun _ => 0)). intros i I. rewrite LX in I. rewrite NX by exact I. apply good_variable; [exact E | lia | lia | exact (F2_nth _ (x_nul X) 0 _ _ Hx i ltac:(lia))].
  - constructor.
  - intros i h I L Nh. rewrite app_nil_r. pose proof (ODE i h I L Nh) as H.
    pose proof (map_nth (fun (f : list R -> R) u => f (map (fun p => fst p + snd p) (combine rs u))) fs (fun _ => 0) i) as NF. cbv beta in NF. rewrite NF.
    replace (map (fun p => fst p + snd p) (combine rs (disp (n + 1) phis h))) with (map (fun phi => phi h) phis); [exact H|].
    assert (OR : forall i, (i < n)%nat -> nth i phis (fun _ => 0) (origin (n + 1)) = nth i rs 0).
    { intros j Jn. rewrite <- (origin_lupd n (n + 1)) by lia. rewrite INI; [|exact Jn | apply length_origin | rewrite norm_origin; lra]. unfold origin. rewrite nth_repeat. ring. }
    assert (Lr' : length rs = length phis) by lia. assert (OR' : forall j, (j < length phis)%nat -> nth j phis (fun _ => 0) (origin (n + 1)) = nth j rs 0) by (intros j Jn; apply OR; lia). unfold disp. clear - OR' Lr'. rename OR' into OR. generalize dependent (origin (n + 1)). intros oo OR. revert rs OR Lr'. induction phis as [|g l IH]; intros [|r rs] OR L; try discriminate L; [reflexivity|].
    simpl. f_equal; [pose proof (OR 0%nat ltac:(simpl; lia)) as Q; simpl in Q; rewrite Q; ring|]. apply IH; [|now injection L]. intros i I. exact (OR (S i) ltac:(simpl; lia)).
  - intros i h I L Nh. rewrite NX by exact I. now apply INI.
Qed.

(** Vector fields depending on time and parameters: the variables are the
    state, the time and the parameters. *)
Theorem C125_flow_all_partial n m kf df x0 t0 a rs t pr fs phis d : (1 <= n)%nat -> (1 <= kf)%N -> (kf + 1 < 65536)%N -> 0 < d ->
  length x0 = n -> Forall2 holds x0 rs -> holds t0 t -> length a = m -> Forall2 holds a pr -> length phis = n -> v_deg X df = kf ->
  Forall2 (fun x f => wf x /\ d_as X x = (n + (1 + m))%nat /\ d_deg X x = kf /\ jet holds x (fun u => f (map (fun p => fst p + snd p) (combine (rs ++ t :: pr) u)))) (v_elt X df) fs ->
  length fs = n ->
  (forall i h, (i < n)%nat -> length h = (n + 1 + m)%nat -> norm h <= d ->
     derivable_pt_lim (fun s => nth i phis (fun _ => 0) (lupd h n s)) (nth n h 0)
       (nth i fs (fun _ => 0) (map (fun phi => phi h) phis ++ (t + nth n h 0) :: map (fun j => nth j pr 0 + nth (n + 1 + j) h 0) (seq 0 m)))) ->
  (forall i h, (i < n)%nat -> length h = (n + 1 + m)%nat -> norm h <= d -> nth i phis (fun _ => 0) (lupd h n 0) = nth i rs 0 + nth i h 0) ->
  (forall i e, (i < n)%nat -> 0 < e -> exists d', 0 < d' /\ forall h, length h = (n + 1 + m)%nat -> norm h <= d' ->
     Rabs (nth i phis (fun _ => 0) h - nth i phis (fun _ => 0) (origin (n + 1 + m))) <= e) ->
  exists r, v_flow_all X df x0 t0 a = Ret r /\ v_as X r = (n + 1 + m)%nat /\ Forall2 (good (n + 1 + m) (kf + 1)) (v_elt X r) phis.
Proof.
  intros N0 K1 K2 D0 Lx Hx Ht La Ha LP Vd HF LF ODE INI CON. unfold v_flow_all, v_flow_gen. rewrite Lx, La, Vd, w16_small by lia. cbn [v_elt v_deg v_as]. rewrite map_length, seq_length.
  replace (N.min (N.min kf (kf + 1) + 1) (kf + 1)) with (kf + 1)%N by lia. pose proof (Forall2_len _ _ _ Hx) as Lr. pose proof (Forall2_len _ _ _ Ha) as Lp.
  pose (NN := (n + 1 + m)%nat). fold NN in ODE, INI, CON |- *.
  pose (x0s := map (fun i => fun h : list R => nth i rs 0 + nth i h 0) (seq 0 n)). pose (as_ := map (fun i => fun h : list R => nth i (t :: pr) 0 + nth (n + i) h 0) (seq 0 (m + 1))).
  assert (NM : forall (F : nat -> list R -> R) k i, (i < k)%nat -> nth i (map F (seq 0 k)) (fun _ => 0) = F i).
  { intros F k i I. rewrite (nth_indep _ _ (F 0%nat)) by (rewrite map_length, seq_length; exact I). rewrite (map_nth F), seq_nth by exact I. reflexivity. }
  assert (LX : length x0s = n) by (unfold x0s; now rewrite map_length, seq_length). assert (LA : length as_ = (m + 1)%nat) by (unfold as_; now rewrite map_length, seq_length).
  apply (flow_good X holds E n NN kf df _ _ (map (fun f u => f (map (fun p => fst p + snd p) (combine (rs ++ t :: pr) u))) fs) phis x0s as_ d); try assumption; try (unfold NN; lia); try reflexivity.
  - now rewrite map_length.
  - rewrite LA, (Nat.add_comm m 1). clear - HF. induction HF as [|x f l m' H HF IH]; simpl; constructor; [exact H | exact IH].
  - cbn [v_elt]. rewrite <- LX at 1. apply (F2_map_seq _ _ (fun _ => 0)). intros i I. rewrite LX in I. unfold x0s. rewrite NM by exact I. apply good_variable; [exact E | lia | lia | exact (F2_nth _ (x_nul X) 0 _ _ Hx i ltac:(lia))].
  - cbn [v_elt]. rewrite <- LA at 1. apply (F2_map_seq _ _ (fun _ => 0)). intros i I. rewrite LA in I. unfold as_. rewrite NM by exact I.
    apply good_variable; [exact E | lia | unfold NN; lia | exact (F2_nth _ (x_nul X) 0 _ _ (Forall2_cons _ _ Ht Ha) i ltac:(simpl; lia))].
  - intros i h I L Nh. pose proof (ODE i h I L Nh) as H.
    pose proof (map_nth (fun (f : list R -> R) u => f (map (fun p => fst p + snd p) (combine (rs ++ t :: pr) u))) fs (fun _ => 0) i) as NF. cbv beta in NF. rewrite NF.
    replace (map (fun p => fst p + snd p) (combine (rs ++ t :: pr) (disp NN (phis ++ as_) h))) with (map (fun phi => phi h) phis ++ (t + nth n h 0) :: map (fun j => nth j pr 0 + nth (n + 1 + j) h 0) (seq 0 m)); [exact H|].
    assert (OR : forall i, (i < n)%nat -> nth i phis (fun _ => 0) (origin NN) = nth i rs 0).
    { intros j Jn. rewrite <- (origin_lupd n NN) by (unfold NN; lia). rewrite INI; [|exact Jn | apply length_origin | rewrite norm_origin; lra]. unfold origin. rewrite nth_repeat. ring. }
    assert (Lr' : length rs = length phis) by lia. assert (OR' : forall j, (j < length phis)%nat -> nth j phis (fun _ => 0) (origin NN) = nth j rs 0) by (intros j Jn; apply OR; lia).
    assert (Z0 : forall j, nth j (origin NN) 0 = 0) by (intros j; unfold origin; apply nth_repeat).
    assert (QA : map (fun p => fst p + snd p) (combine (t :: pr) (disp NN as_ h)) = (t + nth n h 0) :: map (fun j => nth j pr 0 + nth (n + 1 + j) h 0) (seq 0 m)).
    { unfold as_, disp. rewrite map_map. rewrite (Nat.add_comm m 1). change (1 + m)%nat with (S m). cbn [seq map combine fst snd nth]. rewrite !Nat.add_0_r, Z0. f_equal; [ring|]. rewrite <- seq_shift, map_map.
      assert (G : forall k s, (s + k = length pr)%nat -> map (fun p => fst p + snd p) (combine (skipn s pr) (map (fun x => nth x pr 0 + nth (n + S x) h 0 - (nth x pr 0 + nth (n + S x) (origin NN) 0)) (seq s k))) = map (fun j => nth j pr 0 + nth (n + 1 + j) h 0) (seq s k)).
      { clear - Z0. induction k as [|k IH]; intros s S; [now destruct (skipn s pr)|]. cbn [seq map].
        assert (SK : skipn s pr = nth s pr 0 :: skipn (Datatypes.S s) pr). { clear - S. revert s S. induction pr as [|x pr' IHp]; intros s S; [simpl in S; lia|]. destruct s as [|s]; [reflexivity|]. cbn [skipn nth]. rewrite IHp by (simpl in S; lia). reflexivity. }
        rewrite SK. cbn [combine map fst snd]. rewrite IH by lia. f_equal. rewrite Z0. replace (n + 1 + s)%nat with (n + Datatypes.S s)%nat by lia. ring. }
      exact (G m 0%nat ltac:(lia)). }
    unfold disp in *. rewrite map_app. rewrite <- QA. clear - OR' Lr'. rename OR' into OR. generalize dependent (origin NN). intros oo OR. revert rs OR Lr'. generalize (t :: pr) as tp, (map (fun g : list R -> R => g h - g oo) as_) as ta. intros tp ta.
    induction phis as [|g l IH]; intros [|r rs] OR L; try discriminate L; [reflexivity|].
    simpl. f_equal; [pose proof (OR 0%nat ltac:(simpl; lia)) as Q; simpl in Q; rewrite Q; ring|]. apply IH; [|now injection L]. intros i I. exact (OR (S i) ltac:(simpl; lia)).
  - intros i h I L Nh. unfold x0s. rewrite NM by exact I. now apply INI.
Qed.

(** ** C126: Lie derivatives *)
(** x stands for f, whose partial derivatives are the fs; the gs are the
    components of the vector field. *)
Theorem C126_lie n k x f fs g gs d : good n k x f -> (1 <= k)%N -> Forall2 (good n k) g gs -> length gs = n -> length fs = n -> 0 < d ->
  (forall j h, (j < n)%nat -> length h = n -> norm h <= d -> derivable_pt_lim (fun t => f (lupd h j t)) (nth j h 0) (nth j fs (fun _ => 0) h)) ->
  (forall j, (j < n)%nat -> exists q, Forall (fun m => length (fst m) = n /\ (total (fst m) <= k - 1)%N) q /\ big_O n (N.to_nat k) (fun h => nth j fs (fun _ => 0) h - rpoly q h)) ->
  good n (k - 1) (d_lie X n k x g) (fun h => fold_right Rplus 0 (map (fun j => nth j fs (fun _ => 0) h * nth j gs (fun _ => 0) h) (seq 0 n))).
Proof. apply lie_good. exact E. Qed.

(** ** C127: one variable *)
Notation ustands := (ustands X holds).
Theorem C127_arithmetic_partial k l x y f g c r : ustands k x f -> ustands l y g -> holds c r ->
  ustands (Nat.min k l) (u_add X x y) (fun t => f t + g t) /\ ustands (Nat.min k l) (u_sub X x y) (fun t => f t - g t) /\
  ustands (Nat.min k l) (u_mul X x y) (fun t => f t * g t) /\ ustands k (u_neg X x) (fun t => - f t) /\
  ustands k (u_addc X x c) (fun t => f t + r) /\ ustands k (u_mulc X x c) (fun t => f t * r) /\
  (forall m, ustands m (u_constant X m c) (fun _ => r) /\ ustands m (u_variable X m c) (fun t => r + t)).
Proof.
  intros Gx Gy H. split; [now apply u_add_good|]. split; [now apply u_sub_good|]. split; [now apply u_mul_good|]. split; [now apply u_neg_good|]. split; [now apply u_addc_good|]. split; [now apply u_mulc_good|].
  intros m. split; [now apply u_constant_good | now apply u_variable_good].
Qed.
Theorem C127_functions_partial k op x f : has_series op = true -> udom op (f 0) -> ustands k x f ->
  exists r, u_unary X op x = Ret r /\ ustands k r (fun t => usem op (f t)).
Proof. apply u_unary_good. exact E. Qed.
Theorem C127_compose_partial k l x y F g : ustands k x F -> ustands l y g -> ustands (Nat.min k l) (u_compose X x y) (fun t => F (g t - g 0)).
Proof. apply u_compose_good. exact E. Qed.
Theorem C127_antiderivative_partial k x f F c d : 0 < d -> (forall t, Rabs t <= d -> derivable_pt_lim F t (f t)) -> holds c (F 0) -> ustands k x f -> ustands (S k) (u_antiderivative X x c) F.
Proof. apply u_antiderivative_good. exact E. Qed.
(** The derivative is right for degree 1 only: with more coefficients it writes
    outside the array. *)
Theorem C127_derivative_refuted x : (3 <= length x)%nat -> u_derivative X x = UB.
Proof. intros L. unfold u_derivative, u_deg. destruct (length x - 1)%nat as [|[|m]] eqn:Q; try lia. reflexivity. Qed.
Theorem C127_derivative_constant_refuted x : length x = 1%nat -> exists r, u_derivative X x = Ret r /\ length r = N.to_nat 65536.
Proof.
  intros L. unfold u_derivative, u_deg. rewrite L. eexists. split; [reflexivity|]. cbn [length]. rewrite repeat_length. lia.
Qed.
End Any.

(** *** Concrete cases *)
Example RX_example : good RX (fun c r => c = r) 2 3 (d_variable RX 2 3 5 1) (fun h => 5 + nth 1 h 0).
Proof. apply (good_variable RX _ RX_encloses); [lia | lia | reflexivity]. Qed.
(** x*y at (2,5), in exact arithmetic and to degree 3. *)
Example C120_nonvacuous : good RX (fun c r => c = r) 2 3 (d_mul RX (d_variable RX 2 3 2 0) (d_variable RX 2 3 5 1)) (fun h => (2 + nth 0 h 0) * (5 + nth 1 h 0)).
Proof.
  apply (C120_arithmetic_partial RX _ RX_encloses 2 3 3 _ _ _ _ 0 0); [|exact RX_example | reflexivity]. apply (good_variable RX _ RX_encloses); [lia | lia | reflexivity].
Qed.
Example C120_computed : d_exp _ (d_mul QX (d_variable QX 2 3 2%Q 0) (d_variable QX 2 3 5%Q 1)) = [([0; 0]%N, 10%Q); ([1; 0]%N, 5%Q); ([0; 1]%N, 2%Q); ([1; 1]%N, 1%Q)].
Proof. vm_compute. reflexivity. Qed.
(** exp(x)/(x*x), at 1, with bounds: the differential is computed. *)
Example C121_nonvacuous : exists d, d_unary IX Exp (d_variable IX 1 2 (Some (1, 1)) 0) = Ret d /\ good IX in_ival 1 2 d (fun h => exp (1 + nth 0 h 0)).
Proof.
  assert (G : good IX in_ival 1 2 (d_variable IX 1 2 (Some (1, 1)) 0) (fun h => 1 + nth 0 h 0)) by (apply (good_variable IX _ IX_encloses); [lia | lia | simpl; lra]).
  apply (C121_functions_partial IX in_ival IX_encloses 1 2 Exp _ _ eq_refl Logic.I G). intros C. discriminate C.
Qed.
Example C121_formula_nonvacuous : ex_smooth [] [1; 2] (EDiv (EUn Exp (EMul (EVar 0) (EVar 1))) (EPow (EVar 1) (-3))).
Proof. cbn [ex_smooth ex_real nth length has_series udom]. repeat split; try lia; try (intros _; lra); try lra. apply powerRZ_NOR. lra. Qed.

(** ** Refutations *)
(** C120: a variable of degree 0 stores a term of degree 1. *)
Theorem C120_degree_refuted (X : scalar) c : ~ wf (d_variable X 1 0 c 0).
Proof. intros (_ & _ & _ & U). apply Forall_cons_iff in U as [_ U]. apply Forall_cons_iff in U as [U _]. vm_compute in U. apply U. reflexivity. Qed.

(** C121: exp(x*y) at the origin, to degree 1: the product has no terms. *)
Theorem C121_empty_refuted :
  let d := d_mul QX (d_variable QX 2 1 0%Q 0) (d_variable QX 2 1 0%Q 1) in d_exp _ d = [] /\ d_unary QX Exp d = UB.
Proof. split; vm_compute; reflexivity. Qed.
(** The same in the exact reals: exp(0*x). *)
Theorem C121_zero_refuted : exists x,
  good RX (fun c r => c = r) 1 1 x (fun h => (3 + nth 0 h 0) * 0) /\ udom Exp ((3 + nth 0 (origin 1) 0) * 0) /\ d_unary RX Exp x = UB.
Proof.
  exists (d_mulc RX (d_variable RX 1 1 3 0) 0). split; [|split; [exact Logic.I|]].
  - apply (good_mulc RX _ RX_encloses); [reflexivity|]. apply (good_variable RX _ RX_encloses); [lia | lia | reflexivity].
  - apply unary_empty; [reflexivity|]. unfold d_mulc. cbn [d_exp]. change (x_is0 RX 0) with (is0R 0). unfold is0R. destruct (Req_EM_T 0 0); [reflexivity | congruence].
Qed.
(** asin, acos and abs have no series. *)
Theorem C121_missing_refuted (X : scalar) x : d_unary X Asin x = AssertFail /\ d_unary X Acos x = AssertFail /\ d_unary X Abs x = AssertFail.
Proof.
  assert (H : forall op, has_series op = false -> d_unary X op x = AssertFail); [|repeat split; apply H; reflexivity].
  intros op Q. unfold d_unary. set (m := N.to_nat _). assert (S0 : forall m', series X op (d_value X x) (S m') = None).
  { induction m' as [|m' IH]; [destruct op; try discriminate Q; reflexivity|]. change (series X op (d_value X x) (S (S m'))) with (match series X op (d_value X x) (S m') with None => None | Some y => match next_coefficient X op (S m') (d_value X x) y with None => None | Some v => Some (y ++ [v]) end end). now rewrite IH. }
  now rewrite S0.
Qed.
(** C121: the absolute value of bounds that contain zero is that of a negative
    number. *)
Theorem C121_abs_refuted : exists x f r, good IX in_ival 1 0 x f /\ d_abs IX x = Ret r /\ ~ in_ival (d_value IX r) (Rabs (f (origin 1))).
Proof.
  exists (d_constant IX 1 0 (Some (-1, 2))), (fun _ => 2), (d_neg IX (d_constant IX 1 0 (Some (-1, 2)))). split; [|split].
  - apply (good_constant IX in_ival); [lia | simpl; lra].
  - unfold d_abs. change (d_value IX (d_constant IX 1 0 (Some (-1, 2)))) with (Some (-1, 2)).
    assert (Q0 : x_is0 IX (Some (-1, 2)) = false). { change (is0R (-1) && is0R 2 = false). unfold is0R. destruct (Req_EM_T (-1) 0); [lra | reflexivity]. }
    assert (Qp : x_pos IX (Some (-1, 2)) = false). { change (posR (-1) = false). unfold posR. destruct (Rlt_dec 0 (-1)); [lra | reflexivity]. }
    now rewrite Q0, Qp.
  - change (d_value IX (d_neg IX (d_constant IX 1 0 (Some (-1, 2))))) with (Some (- (2), - (-1))). unfold in_ival. rewrite Rabs_right by lra. lra.
Qed.

(** C122: compose(f,f) on one object loses the value of f. *)
Theorem C122_alias_refuted :
  let y := mkVec QX 1 2 [d_variable QX 1 2 3%Q 0] in
  terms_of (v_compose QX y y) = Some [[([0]%N, 3%Q); ([1]%N, 1%Q)]] /\ terms_of (v_compose_self QX y) = Some [[([0]%N, 0%Q); ([1]%N, 1%Q)]].
Proof. split; vm_compute; reflexivity. Qed.
(** A failed assertion leaves the argument with value zero. *)
Theorem C122_restore_refuted :
  let y := mkVec QX 1 2 [d_variable QX 1 2 3%Q 0] in
  fst (d_compose QX (d_constant QX 2 1 7%Q) y) = AssertFail /\ map (d_value QX) (v_elt QX y) = [3%Q] /\ map (d_value QX) (v_elt QX (snd (d_compose QX (d_constant QX 2 1 7%Q) y))) = [0%Q].
Proof. vm_compute. repeat split. Qed.
(** The vector reports the degree of y, its elements the smaller one. *)
Theorem C122_degree_refuted :
  let x := mkVec QX 1 1 [d_variable QX 1 1 3%Q 0] in let y := mkVec QX 1 2 [d_variable QX 1 2 3%Q 0] in
  match v_compose QX x y with Ret r => v_deg QX r = 2%N /\ map (d_deg QX) (v_elt QX r) = [1%N] | _ => False end.
Proof. vm_compute. split; reflexivity. Qed.

(** C123: the derivative and the integral of a concrete function. *)
Example C123_nonvacuous : d_exp _ (d_derivative QX (d_mul QX (d_variable QX 2 3 2%Q 0) (d_variable QX 2 3 5%Q 1)) 0) = [([0; 0]%N, 5%Q); ([0; 1]%N, 1%Q)] /\
  d_exp _ (d_antiderivative QX (d_variable QX 2 3 5%Q 1) 1) = [([0; 1]%N, 5%Q); ([0; 2]%N, (1 # 2)%Q)].
Proof. split; vm_compute; reflexivity. Qed.
(** f(h) = h0*h1, whose derivative in the second variable is h0. *)
Example C123_derivative_nonvacuous : forall h, length h = 2%nat -> norm h <= 1 -> derivable_pt_lim (fun t => nth 0 (lupd h 1 t) 0 * nth 1 (lupd h 1 t) 0) (nth 1 h 0) (nth 0 h 0).
Proof.
  intros [|a [|b [|? ?]]] L _; try discriminate L. cbn [lupd nth]. assert (Q : derivable_pt_lim (fun t => a * t) b (a * 1)) by exact (derivable_pt_lim_scal id a b 1 (derivable_pt_lim_id b)). now rewrite Rmult_1_r in Q.
Qed.

(** C124: affine(deg,v,G) puts every entry of a row at the same index. *)
Theorem C124_affine_refuted :
  map (d_exp QX) (v_affine QX 1 [0%Q; 0%Q] [[1%Q; 2%Q]; [3%Q; 4%Q]]) =
    [[([0; 0]%N, 0%Q); ([1; 0]%N, 1%Q); ([1; 0]%N, 2%Q)]; [([0; 0]%N, 0%Q); ([0; 1]%N, 3%Q); ([0; 1]%N, 4%Q)]] /\
  map (d_gradient QX) (v_affine QX 1 [0%Q; 0%Q] [[1%Q; 2%Q]; [3%Q; 4%Q]]) = [[1%Q; 0%Q]; [0%Q; 3%Q]].
Proof. split; vm_compute; reflexivity. Qed.

(** C125: x' = x at 1: the expansion of (1+h)exp(t). *)
Example C125_computed :
  terms_of (v_flow QX (mkVec QX 1 2 [d_variable QX 1 2 1%Q 0]) [1%Q]) = Some [[([0; 0]%N, 1%Q); ([1; 0]%N, 1%Q); ([0; 1]%N, 1%Q); ([1; 1]%N, 1%Q); ([0; 2]%N, (1 # 2)%Q); ([1; 2]%N, (1 # 2)%Q); ([0; 3]%N, (1 # 6)%Q)]].
Proof. vm_compute. reflexivity. Qed.
(** The hypotheses hold for x' = x and (1+h)exp(t). *)
Example C125_nonvacuous : exists r, v_flow RX (mkVec RX 1 2 [d_variable RX 1 2 1 0]) [1] = Ret r /\ v_as RX r = 2%nat /\
  Forall2 (good RX (fun c r => c = r) 2 3) (v_elt RX r) [fun h => (1 + nth 0 h 0) * exp (nth 1 h 0)].
Proof.
  apply (C125_flow_partial RX _ RX_encloses 1 2 _ _ [1] [fun v => nth 0 v 0] _ 1); try reflexivity; try lia; try lra.
  - repeat constructor.
  - constructor; [|constructor]. pose proof (good_variable RX _ RX_encloses 1 2 1 1 0 ltac:(lia) ltac:(lia) eq_refl) as (W & A & D & J). split; [exact W|]. split; [reflexivity|]. split; [reflexivity|].
    eapply jet_ext; [|exact J]. intros h L. cbn [d_as d_variable] in L. destruct h as [|a [|? ?]]; try discriminate L. reflexivity.
  - intros i h I L _. assert (i = 0%nat) by lia. subst i. destruct h as [|a [|b [|? ?]]]; try discriminate L. cbn [lupd nth map].
    apply (derivable_pt_lim_scal exp (1 + a)). apply derivable_pt_lim_exp.
  - intros i h I L _. assert (i = 0%nat) by lia. subst i. destruct h as [|a [|b [|? ?]]]; try discriminate L. cbn [lupd nth]. rewrite exp_0. ring.
  - intros i e I E0. assert (i = 0%nat) by lia. subst i. cbn [nth].
    assert (C : continuity_pt exp 0) by (apply derivable_continuous_pt, derivable_pt_exp). destruct (C (Rmin 1 (e / 2)) ltac:(apply Rmin_glb_lt; lra)) as (al & A0 & H).
    exists (Rmin 1 (Rmin (al / 2) (e / 4))). split; [repeat apply Rmin_glb_lt; lra|]. intros [|a [|b [|? ?]]] L Nh; try discriminate L. cbn [nth origin plus repeat].
    assert (Na : Rabs a <= Rmin 1 (Rmin (al / 2) (e / 4))) by (eapply Rle_trans; [apply (norm_in [a; b] a); now left | exact Nh]). assert (Nb : Rabs b <= Rmin 1 (Rmin (al / 2) (e / 4))) by (eapply Rle_trans; [apply (norm_in [a; b] b); right; now left | exact Nh]).
    assert (a1 : Rabs a <= 1) by (eapply Rle_trans; [exact Na | apply Rmin_l]). assert (a2 : Rabs a <= e / 4) by (eapply Rle_trans; [exact Na | eapply Rle_trans; [apply Rmin_r | apply Rmin_r]]).
    assert (b2 : Rabs b <= al / 2) by (eapply Rle_trans; [exact Nb | eapply Rle_trans; [apply Rmin_r | apply Rmin_l]]).
    assert (HB : Rabs (exp b - exp 0) <= Rmin 1 (e / 2)).
    { destruct (Req_dec b 0) as [->|Bn]; [rewrite Rminus_eq_0, Rabs_R0; apply Rmin_glb; lra|]. left. apply (H b). split; [split; [exact Logic.I | congruence]|]. simpl. unfold R_dist. rewrite Rminus_0_r. lra. }
    change (nth 0 (origin (1 + 1)) 0) with 0. change (nth 1 (origin (1 + 1)) 0) with 0. rewrite exp_0 in *. assert (H1 : Rabs (exp b - 1) <= 1) by (eapply Rle_trans; [exact HB | apply Rmin_l]). assert (H2 : Rabs (exp b - 1) <= e / 2) by (eapply Rle_trans; [exact HB | apply Rmin_r]).
    replace ((1 + a) * exp b - (1 + 0) * 1) with ((exp b - 1) + a * exp b) by ring. eapply Rle_trans; [apply Rabs_triang|]. rewrite Rabs_mult. pose proof (exp_pos b) as P. rewrite (Rabs_right (exp b)) by lra.
    assert (exp b <= 2) by (unfold Rabs in H1; destruct Rcase_abs in H1; lra). pose proof (Rabs_pos a).
    assert (Rabs a * exp b <= e / 4 * 2) by (apply Rmult_le_compat; lra). lra.
Qed.
(** flow(df,x0,a) makes the parameter the variable that is the time: for
    x' = a the flow is h0 + t*(1+delta), with variables h0, t, delta. *)
Definition wrong_flow : diff QX := mkDiff QX 3 2 [([0; 0; 0]%N, 0%Q); ([1; 0; 0]%N, 1%Q); ([0; 1; 0]%N, 1%Q); ([0; 2; 0]%N, (1 # 2)%Q)].
Theorem C125_parameters_refuted :
  v_flow_params QX (mkVec QX 2 1 [d_variable QX 2 1 1%Q 1]) [0%Q] [1%Q] = Ret (mkVec QX 3 2 [wrong_flow]) /\
  ~ jet qholds wrong_flow (fun h => nth 0 h 0 + nth 1 h 0 * (1 + nth 2 h 0)).
Proof.
  split; [vm_compute; reflexivity|].
  intros (p & S & K & d & D & B). unfold wrong_flow in *. cbn [d_exp d_as d_deg] in *. unfold shadow in S.
  repeat match goal with H : Forall2 _ (_ :: _) _ |- _ => inversion H; clear H; subst | H : Forall2 _ [] _ |- _ => inversion H; clear H; subst end.
  repeat match goal with y : mi * R |- _ => destruct y end. cbn [fst snd] in *. unfold qholds in *.
  repeat match goal with H : _ /\ _ |- _ => destruct H end. subst.
  pose (t := Rmin (Rmin d 1) (1 / (4 * (Rabs K + 1)))). pose proof (Rabs_pos K) as PK. assert (T0 : 0 < t) by (repeat apply Rmin_glb_lt; try lra; apply Rdiv_lt_0_compat; lra).
  assert (T1 : t <= d) by (eapply Rle_trans; [apply Rmin_l | apply Rmin_l]). assert (T2 : t <= 1 / (4 * (Rabs K + 1))) by apply Rmin_r.
  assert (NT : norm [0; t; 0] = t). { unfold norm. cbn [fold_right]. rewrite Rabs_R0, (Rabs_right t) by lra. unfold Rmax. repeat destruct Rle_dec; lra. }
  specialize (B [0; t; 0] eq_refl). rewrite NT in B. specialize (B T1). cbn [nth] in B. rewrite !rpoly_cons, rpoly_nil in B. cbn [monom power N.to_nat Pos.to_nat Pos.iter_op Nat.add plus] in B. unfold Q2R in B. cbn [Qnum Qden] in B.
  assert (HT : K * t ^ 3 < t ^ 2 / 2).
  { apply Rle_lt_trans with (Rabs K * t ^ 3); [apply Rmult_le_compat_r; [apply pow_le; lra | apply Rle_abs]|]. replace (t ^ 3) with (t * t ^ 2) by ring. assert (P2 : 0 < t ^ 2) by (apply pow_lt; lra).
    assert (Rabs K * t <= 1 / 4). { apply Rle_trans with ((Rabs K + 1) * (1 / (4 * (Rabs K + 1)))); [apply Rmult_le_compat; lra|]. right. field. lra. } nra. }
  match type of B with Rabs ?x <= _ => replace x with (- (t ^ 2 / 2)) in B by (field_simplify; simpl; field) end.
  rewrite Rabs_Ropp, Rabs_right in B; [simpl in B, HT; lra|]. assert (0 < t ^ 2) by (apply pow_lt; lra). lra.
Qed.
(** Vector fields of degree 0 are rejected. *)
Theorem C125_degree_refuted : v_flow QX (mkVec QX 1 0 [d_constant QX 1 0 1%Q]) [0%Q] = AssertFail.
Proof. vm_compute. reflexivity. Qed.

(** C126: the derivative of x*y along (y,-x). *)
Example C126_nonvacuous :
  let x := d_variable QX 2 2 3%Q 0 in let y := d_variable QX 2 2 4%Q 1 in
  d_exp _ (d_lie QX 2 2 (d_mul QX x y) [y; d_neg QX x]) = [([0; 0]%N, 7%Q); ([1; 0]%N, (-6 # 1)%Q); ([0; 1]%N, 8%Q)].
Proof. vm_compute. reflexivity. Qed.

(** C127: compose(f,f) on one object. *)
Theorem C127_alias_refuted : u_compose QX [3%Q; 1%Q; 1%Q] [3%Q; 1%Q; 1%Q] = [3%Q; 1%Q; 2%Q] /\ u_compose_self QX [3%Q; 1%Q; 1%Q] = [0%Q; 1%Q; 2%Q].
Proof. split; vm_compute; reflexivity. Qed.
Example C127_nonvacuous : ustands RX (fun c r => c = r) 4 (u_variable RX 4 2) (fun t => 2 + t) /\ udom Log 2.
Proof. split; [apply (u_variable_good RX _ RX_encloses); reflexivity | simpl; lra]. Qed.

Print Assumptions C120_arithmetic_partial.
Print Assumptions C120_variables_partial.
Print Assumptions C120_degree_refuted.
Print Assumptions C121_formula_partial.
Print Assumptions C121_functions_partial.
Print Assumptions C121_empty_partial.
Print Assumptions C121_abs_partial.
Print Assumptions C121_empty_refuted.
Print Assumptions C121_zero_refuted.
Print Assumptions C121_missing_refuted.
Print Assumptions C121_abs_refuted.
Print Assumptions C122_compose_partial.
Print Assumptions C122_vector_partial.
Print Assumptions C122_alias_refuted.
Print Assumptions C122_restore_refuted.
Print Assumptions C122_degree_refuted.
Print Assumptions C123_derivative.
Print Assumptions C123_antiderivative.
Print Assumptions C124_value_gradient_partial.
Print Assumptions C124_jacobian_partial.
Print Assumptions C124_affine_refuted.
Print Assumptions C125_flow_partial.
Print Assumptions C125_flow_all_partial.
Print Assumptions C125_parameters_refuted.
Print Assumptions C125_degree_refuted.
Print Assumptions C126_lie.
Print Assumptions C127_arithmetic_partial.
Print Assumptions C127_functions_partial.
Print Assumptions C127_compose_partial.
Print Assumptions C127_antiderivative_partial.
Print Assumptions C127_derivative_refuted.
Print Assumptions C127_derivative_constant_refuted.
Print Assumptions C127_alias_refuted.
