(** Operations which do what FunctionSet_Spec.v asks for: a simple solver, for the examples. *)
From Coq Require Import ZArith Reals List Bool Lra Lia.
From Coquelicot Require Import Rbar.
From Flocq Require Import Core IEEE754.BinarySingleNaN.
From Verif Require Import Logical_Model Float_Model Float_Spec Float_Proofs Bounds_Model Bounds_Spec Bounds_Proofs Bounds_Props Ball_Props Box_Num_Proofs.
From Verif Require Import ConstraintSolver_Model ConstraintSolver_Spec FunctionSet_Model FunctionSet_Spec FunctionSet_Proofs.
Import ListNotations.
Local Open Scope R_scope.
Local Notation dbnd := (bounds 53 1024).

(** Numbers: floats and 1/3, which lies strictly between two neighbouring floats. *)
Inductive wnum := WF (f : DP) | WThird.
Definition third_l : DP := dp 6004799503160661 (-54).
Definition third_u : DP := dp 6004799503160662 (-54).
Definition wrv (x : wnum) : Rbar := match x with WF f => if is_nan f then Finite 0 else fval f | WThird => Finite (/3) end.
Definition wget (x : wnum) : dbnd := match x with WF f => if is_nan f then mkB fzero fzero else mkB f f | WThird => mkB third_l third_u end.
Lemma third_between : B2R third_l < /3 < B2R third_u.
Proof. split; [dpval third_l|dpval third_u]; lra. Qed.
Lemma wget_named x : named (wget x) (wrv x).
Proof.
  destruct x as [f|]; cbn.
  - destruct (is_nan f) eqn:N.
    + split; [split; reflexivity|]. cbn. repeat split; intros; lra.
    + split; [split; auto|]. cbn [b_l b_u]. repeat split; intros r H; first [apply below_fval|apply above_fval]; auto.
  - destruct third_between. split; [split; reflexivity|]. cbn [b_l b_u].
    assert (is_nan third_l = false /\ is_nan third_u = false) as [N1 N2] by (split; reflexivity).
    assert (fval third_l = Finite (B2R third_l) /\ fval third_u = Finite (B2R third_u)) as [V1 V2] by (split; apply fval_fin; reflexivity).
    split; [|split; [|split]]; intros r K.
    + apply (proj2 (below_fval third_l r N1)). rewrite V1. cbn in *. lra.
    + apply (proj2 (above_fval third_u r N2)). rewrite V2. cbn in *. lra.
    + apply (proj1 (below_fval third_u r N2)) in K. rewrite V2 in K. cbn in *. lra.
    + apply (proj1 (above_fval third_l r N1)) in K. rewrite V1 in K. cbn in *. lra.
Qed.

(** Functions with their evaluation on boxes. *)
Record wfun := mkW { w_args : nat; w_den : list R -> R; w_range : list dbnd -> dbnd; w_ok : forall B x, in_cbox B x -> contains (w_range B) (w_den x) }.
Lemma compose_ok f gs : forall B x, in_cbox B x -> contains (w_range f (map (fun g => w_range g B) gs)) (w_den f (map (fun g => w_den g x) gs)).
Proof. intros B x H. apply w_ok. induction gs; constructor; auto. apply w_ok; auto. Qed.
Definition wcompose (f : wfun) (gs : list wfun) : wfun :=
  mkW (match gs with [] => 0%nat | g :: _ => w_args g end) _ _ (compose_ok f gs).
Lemma coordinate_ok i : forall (B : list dbnd) x, in_cbox B x -> contains (nth i B (mkB fzero fzero)) (nth i x 0).
Proof. intros B x H. revert i. induction H; intros [|i]; cbn; auto; try (split; cbn; lra); apply IHForall2. Qed.
Definition wcoordinate (n i : nat) : wfun := mkW n _ _ (coordinate_ok i).
Lemma twice_ok : forall (B : list dbnd) x, in_cbox B x -> contains (b_add (nth 0 B (mkB fzero fzero)) (nth 0 B (mkB fzero fzero))) (nth 0 x 0 + nth 0 x 0).
Proof. intros. apply b_add_contains; apply coordinate_ok; auto. Qed.
(** [2x] and [x-x] for the first coordinate [x]. *)
Definition wtwice (n : nat) : wfun := mkW n _ _ twice_ok.
Lemma null_ok : forall (B : list dbnd) x, in_cbox B x -> contains (b_sub (nth 0 B (mkB fzero fzero)) (nth 0 B (mkB fzero fzero))) (nth 0 x 0 - nth 0 x 0).
Proof. intros. apply b_sub_contains; apply coordinate_ok; auto. Qed.
Definition wnull (n : nat) : wfun := mkW n _ _ null_ok.

(** The solver: a box is made empty if the values cannot be right; the corners are tried. *)
Definition wreduce (B : list dbnd) (fs : list wfun) (C : list dbnd) : list dbnd :=
  if box_disjoint (map (fun f => w_range f B) fs) C then map (fun _ => b_empty) B else B.
Definition in_points (p : list DP) (B : list dbnd) : bool :=
  Nat.eqb (length p) (length B) && forallb (fun q => is_finite (fst q) && flt_le (b_l (snd q)) (fst q) && flt_le (fst q) (b_u (snd q))) (combine p B).
Definition points (p : list DP) : list dbnd := map (fun f => mkB f f) p.
Definition try_point (B : list dbnd) (cs : list (wfun * dbnd)) (p : list DP) : bool :=
  in_points p B && forallb (fun c => ivl_subset (w_range (fst c) (points p)) (snd c)) cs.
Definition found (B : list dbnd) (cs : list (wfun * dbnd)) : bool := try_point B cs (map b_l B) || try_point B cs (map b_u B).
Definition wfeasible (B : list dbnd) (cs : list (wfun * dbnd)) : lv :=
  if existsb (fun c => ivl_disjoint (w_range (fst c) B) (snd c)) cs then FALSE else if found B cs then TRUE else INDET.
Definition woptimise (B : list dbnd) (fs : list wfun) (C : list dbnd) : lv :=
  if Nat.eqb (length fs) (length C) && found B (combine fs C) then TRUE else INDET.
Definition wmiddle (X : dbnd) : DP :=
  if ivl_empty X then b_u X
  else if is_finite (b_l X) && flt_le (b_l X) (b_u X) then b_l X
  else if is_finite (b_u X) && flt_le (b_l X) (b_u X) then b_u X
  else if flt_lt (b_l X) (b_u X) then fzero else B754_nan.
Definition wops : @function_operations 53 1024 wnum wfun := {|
  fo_get := wget; fo_float := WF; fo_args := w_args; fo_range := w_range; fo_compose := wcompose; fo_coordinate := wcoordinate;
  fo_reduce := wreduce; fo_feasible := wfeasible; fo_optimise := woptimise; fo_middle := wmiddle; fo_widest := fun _ => 0%nat |}.

Lemma no_empty : forall (B : list dbnd) x, in_cbox (map (fun _ => @b_empty 53 1024) B) x -> in_cbox B x.
Proof. intros [|b B] x H; cbn in H; auto. inversion H as [|? ? ? ? [K _] _]; subst. cbn in K. discriminate. Qed.
Lemma in_points_sound p B : in_points p B = true -> in_cbox B (map B2R p) /\ in_cbox (points p) (map B2R p).
Proof.
  unfold in_points. intros H. apply andb_prop in H. destruct H as [L H]. apply Nat.eqb_eq in L. revert B L H.
  induction p as [|f p IH]; intros [|X B] L H; try discriminate L; [split; constructor|]. cbn in H. apply andb_prop in H. destruct H as [H1 H2].
  apply andb_prop in H1. destruct H1 as [H1 H3]. apply andb_prop in H1. destruct H1 as [H0 H1]. destruct (IH B) as [P Q]; auto.
  split; constructor; auto.
  - split; [apply below_flt_le|apply above_flt_le]; auto.
  - destruct (finite_contains_below _ H0). split; auto.
Qed.
Lemma try_sound B cs p : try_point B cs p = true -> exists x, in_cbox B x /\ List.Forall (fun c => contains (snd c) (w_den (fst c) x)) cs.
Proof.
  unfold try_point. intros H. apply andb_prop in H. destruct H as [H1 H2]. destruct (in_points_sound _ _ H1) as [P Q].
  exists (map B2R p). split; auto. apply Forall_forall. intros c Hc. rewrite forallb_forall in H2. specialize (H2 c Hc).
  unfold ivl_subset in H2. apply andb_prop in H2. destruct H2 as [L U]. destruct (w_ok (fst c) _ _ Q) as [A C].
  split; [eapply refines_below; eauto|eapply refines_above; eauto].
Qed.
Lemma found_sound B cs : found B cs = true -> exists x, in_cbox B x /\ List.Forall (fun c => contains (snd c) (w_den (fst c) x)) cs.
Proof. unfold found. intros H. apply orb_prop in H. destruct H as [H|H]; eapply try_sound; eauto. Qed.
Lemma ivl_disjoint_false (X Y : dbnd) r : ivl_disjoint X Y = true -> contains X r -> contains Y r -> False.
Proof. intros H [A B] [C D]. unfold ivl_disjoint in H. apply orb_prop in H. destruct H as [H|H]; pose proof (lt_true _ _ _ _ H ltac:(eassumption) ltac:(eassumption)); lra. Qed.
Lemma fin_not_nan (f : DP) : is_finite f = true -> is_nan f = false. Proof. destruct f; auto; discriminate. Qed.
Lemma wmiddle_cases X : ivl_empty X = false ->
  (is_finite (b_l X) = true /\ flt_le (b_l X) (b_u X) = true /\ wmiddle X = b_l X) \/
  (is_finite (b_u X) = true /\ flt_le (b_l X) (b_u X) = true /\ wmiddle X = b_u X) \/
  (is_finite (b_l X) = false /\ is_finite (b_u X) = false /\ flt_lt (b_l X) (b_u X) = true /\ wmiddle X = fzero) \/
  (~ (finite_bounds X) /\ wmiddle X = B754_nan).
Proof.
  intros E. unfold wmiddle. rewrite E. destruct (is_finite (b_l X) && flt_le (b_l X) (b_u X)) eqn:A.
  { apply andb_prop in A. left. tauto. }
  destruct (is_finite (b_u X) && flt_le (b_l X) (b_u X)) eqn:B. { apply andb_prop in B. right. left. tauto. }
  right. right. destruct (flt_lt (b_l X) (b_u X)) eqn:L.
  - left. destruct (is_finite (b_l X)) eqn:F1.
    + exfalso. cbn in A. destruct (is_nan (b_u X)) eqn:N2; [destruct (b_l X), (b_u X); discriminate|].
      rewrite flt_le_lt in A; auto; [|apply fin_not_nan; auto]. unfold ivl_empty in E. rewrite E in A. discriminate.
    + destruct (is_finite (b_u X)) eqn:F2; auto.
      exfalso. cbn in B. destruct (is_nan (b_l X)) eqn:N2; [destruct (b_l X), (b_u X); discriminate|].
      rewrite flt_le_lt in B; auto; [|apply fin_not_nan; auto]. unfold ivl_empty in E. rewrite E in B. discriminate.
  - right. split; auto. intros [F1 F2]. rewrite F1 in A. cbn in A. rewrite flt_le_lt in A; try (apply fin_not_nan; auto).
    unfold ivl_empty in E. rewrite E in A. discriminate.
Qed.
Lemma le_not_lt (f g : DP) : flt_le f g = true -> flt_lt g f = false.
Proof.
  intros H. destruct (is_nan f) eqn:N1; [destruct f, g; discriminate|]. destruct (is_nan g) eqn:N2; [destruct f as [[]|[]| |[]], g; discriminate|].
  rewrite flt_le_lt in H; auto. destruct flt_lt; auto; discriminate.
Qed.
Lemma lt_irrefl (f : DP) : flt_lt f f = false.
Proof.
  destruct (flt_lt f f) eqn:E; auto. destruct (is_finite f) eqn:F.
  - destruct (finite_contains_below _ F) as [A B]. pose proof (lt_true _ _ _ _ E B A). lra.
  - destruct f as [[]|[]| |[]]; discriminate.
Qed.
Lemma wops_sound : sound_ops wrv w_den wops.
Proof.
  split; cbn.
  - apply wget_named.
  - intros f r N. rewrite N. split; symmetry; [apply below_fval|apply above_fval]; auto.
  - intros. apply w_ok; auto.
  - intros. reflexivity.
  - intros. reflexivity.
  - intros B fs C x HB HC. unfold wreduce. destruct box_disjoint eqn:D; auto. exfalso.
    eapply disjoint_none; [exact D| |exact HC]. clear - HB. induction fs; constructor; auto. apply w_ok; auto.
  - intros B fs C x H. unfold wreduce in H. destruct box_disjoint; auto. apply no_empty; auto.
  - intros B cs x H HB HC. unfold wfeasible in H. destruct existsb eqn:E; [|destruct found; discriminate].
    apply existsb_exists in E. destruct E as (c & Hc & E). rewrite Forall_forall in HC. eapply ivl_disjoint_false; [exact E| |apply HC; auto]. apply w_ok; auto.
  - intros B cs H. unfold wfeasible in H. destruct existsb; [discriminate|]. destruct found eqn:E; [|discriminate]. apply found_sound; auto.
  - intros B fs C H. unfold woptimise in H. destruct (Nat.eqb _ _ && _) eqn:E; [|discriminate]. apply andb_prop in E. destruct E as [L E].
    apply Nat.eqb_eq in L. apply found_sound in E. destruct E as (x & I & J). exists x. split; auto. clear - L J. revert C L J.
    induction fs as [|f fs IH]; intros [|c C] L J; try discriminate L; [constructor|]. inversion J; subst. constructor; [auto|]. apply (IH C); auto.
  - intros X r E H. destruct (wmiddle_cases X E) as [(F & L & M)|[(F & L & M)|[(F1 & F2 & L & M)|(_ & M)]]]; rewrite M in H.
    + destruct H as [[A B]|[A B]]; cbn in *; split; auto. eapply refines_above; eauto.
    + destruct H as [[A B]|[A B]]; cbn in *; split; auto. eapply refines_below; eauto.
    + assert (b_l X = B754_infinity true /\ b_u X = B754_infinity false) as [E1 E2]; [|unfold contains; rewrite E1, E2; split; reflexivity].
      clear - F1 F2 L. destruct (b_l X) as [?|[]| |?], (b_u X) as [?|[]| |?]; try discriminate; auto.
    + destruct H as [[A B]|[A B]]; cbn in *; tauto.
  - intros X E. destruct (wmiddle_cases X E) as [(F & L & M)|[(F & L & M)|[(F1 & F2 & L & M)|(_ & M)]]]; rewrite M; unfold ivl_empty; cbn [b_l b_u].
    + split; [apply lt_irrefl|exact E].
    + split; [exact E|apply lt_irrefl].
    + assert (b_l X = B754_infinity true /\ b_u X = B754_infinity false) as [E1 E2]; [|unfold contains; rewrite E1, E2; split; reflexivity].
      clear - F1 F2 L. destruct (b_l X) as [?|[]| |?], (b_u X) as [?|[]| |?]; try discriminate; auto.
    + split; [destruct (b_l X) as [[]|[]| |[]]|destruct (b_u X) as [[]|[]| |[]]]; reflexivity.
  - intros X FX E. destruct (wmiddle_cases X E) as [(F & L & M)|[(F & L & M)|[(F1 & F2 & L & M)|(N & M)]]]; rewrite M; auto.
Qed.
