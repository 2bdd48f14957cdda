(** * Proofs about Balls *)

From Coq Require Import ZArith Reals Bool Lia Lra Psatz.
From Flocq Require Import Core Plus_error Relative IEEE754.BinarySingleNaN.
From Verif Require Import Float_Model Float_Spec Float_Proofs Logical_Model Bounds_Model Bounds_Spec Bounds_Proofs Ball_Model Ball_Spec.
Local Open Scope R_scope.

Section BP.
Context {prec emax : Z}
        {Hprec : Prec_gt_0 prec} {Hemax : Prec_lt_emax prec emax}.
Notation fl := (binary_float prec emax).
Notation bl := (ball prec emax).
Notation fexp := (SpecFloat.fexp prec emax).
Notation rnd m r := (round radix2 fexp (round_mode m) r).
Notation big := (bpow radix2 emax).
Notation fmt r := (generic_format radix2 fexp r).
Existing Instance valid_fexp.

(** ** A finite result has finite operands *)
Lemma fadd_fin m (x y : fl) : is_finite (fadd m x y) = true -> is_finite x = true /\ is_finite y = true.
Proof. destruct x as [|[]| |], y as [|[]| |]; cbn; auto; discriminate. Qed.
Lemma fsub_fin m (x y : fl) : is_finite (fsub m x y) = true -> is_finite x = true /\ is_finite y = true.
Proof. destruct x as [|[]| |], y as [|[]| |]; cbn; auto; discriminate. Qed.
Lemma fmul_fin m (x y : fl) : is_finite (fmul m x y) = true -> is_finite x = true /\ is_finite y = true.
Proof. destruct x as [|[]| |], y as [|[]| |]; cbn; auto; discriminate. Qed.
Lemma fhlf_fin m (x : fl) : is_finite (fhlf m x) = true -> is_finite x = true.
Proof.
  intros H. destruct x; auto. rewrite fhlf_inf in H. discriminate.
Qed.
Lemma fabs_fin (x : fl) : is_finite (fabs x) = is_finite x.
Proof. unfold fabs. apply is_finite_Babs. Qed.
Lemma fabs_val (x : fl) : B2R (fabs x) = Rabs (B2R x).
Proof. unfold fabs. apply B2R_Babs. Qed.
Lemma fneg_fin (x : fl) : is_finite (fneg x) = is_finite x.
Proof. unfold fneg. apply is_finite_Bopp. Qed.
Lemma fneg_val (x : fl) : B2R (fneg x) = - B2R x.
Proof. unfold fneg. apply B2R_Bopp. Qed.
Lemma fmax_fin_or (x y : fl) : is_finite (fmax x y) = true -> is_finite x = true \/ is_finite y = true.
Proof. unfold fmax. destruct Bltb; auto. Qed.

(** ** Half of the rounding gap bounds the error of rounding to nearest *)

(** Both directed roundings finite: no overflow in any mode. *)
Lemma both_finite r (ru rl : fl) : rounded up r ru -> rounded down r rl ->
  is_finite ru = true -> is_finite rl = true ->
  Rabs (rnd up r) < big /\ Rabs (rnd down r) < big /\ B2R ru = rnd up r /\ B2R rl = rnd down r.
Proof.
  intros U D Fu Fl.
  assert (rnd down r <= rnd up r) as O.
  { pose proof (round_UP_le (prec:=prec) (emax:=emax) r). pose proof (round_DN_ge (prec:=prec) (emax:=emax) r). lra. }
  destruct U as [[Lu [_ Eu]]|[Lu Eu]]; destruct D as [[Ld [_ Ed]]|[Ld Ed]]; auto; exfalso.
  - (* only the lower overflows: towards +max, so r >= big *)
    destruct (Rlt_bool_spec r 0) as [S|S].
    + cbn in Ed. destruct rl; try discriminate.
    + pose proof (round_sign_pos (prec:=prec) (emax:=emax) down r S). rewrite Rabs_pos_eq in Ld by auto.
      pose proof (Rle_abs (rnd up r)). lra.
  - destruct (Rlt_bool_spec r 0) as [S|S].
    + pose proof (round_sign_neg (prec:=prec) (emax:=emax) up r ltac:(lra)). rewrite Rabs_left1 in Lu by auto.
      pose proof (Rle_abs (- rnd down r)). rewrite Rabs_Ropp in *. lra.
    + cbn in Eu. destruct ru; try discriminate.
  - destruct (Rlt_bool_spec r 0) as [S|S].
    + cbn in Ed. destruct rl; try discriminate.
    + cbn in Eu. destruct ru; try discriminate.
Qed.

Lemma near_finite r (rv ru rl : fl) : rounded near r rv -> rounded up r ru -> rounded down r rl ->
  is_finite ru = true -> is_finite rl = true -> is_finite rv = true /\ B2R rv = rnd near r.
Proof.
  intros N U D Fu Fl. destruct (both_finite r ru rl U D Fu Fl) as (A & B & _ & _).
  destruct N as [[L [F E]]|[L E]]; auto. exfalso.
  destruct (round_DN_or_UP radix2 fexp (round_mode near) r) as [X|X];
    rewrite X in L; cbn [round_mode] in A, B; lra.
Qed.

Lemma nearest_half r : Rabs (r - rnd near r) <= (rnd up r - rnd down r) / 2.
Proof.
  pose proof (round_UP_le (prec:=prec) (emax:=emax) r) as HU. pose proof (round_DN_ge (prec:=prec) (emax:=emax) r) as HD.
  pose proof (round_N_pt radix2 fexp (fun z => negb (Z.even z)) r) as [_ N].
  cbn [round_mode] in *.
  pose proof (N _ (generic_format_round radix2 fexp Zceil r)) as N1.
  pose proof (N _ (generic_format_round radix2 fexp Zfloor r)) as N2.
  change (Znearest (fun z => negb (Z.even z))) with ZnearestE in N1, N2.
  rewrite Rabs_minus_sym.
  set (n := round radix2 fexp ZnearestE r) in *. set (u := round radix2 fexp Zceil r) in *.
  set (d := round radix2 fexp Zfloor r) in *.
  rewrite (Rabs_pos_eq (u - r)) in N1 by lra.
  rewrite (Rabs_left1 (d - r)) in N2 by lra. lra.
Qed.

Definition gap_ok (r : R) : Prop := fmt r \/ bpow radix2 (3 - emax) <= Rabs r.

(** What is needed for half of the gap, computed in mode [m]. *)
Lemma half_gap m r (rv ru rl : fl) : rounded near r rv -> rounded up r ru -> rounded down r rl ->
  m = up \/ gap_ok r -> is_finite (fhlf m (fsub up ru rl)) = true ->
  is_finite rv = true /\ Rabs (r - B2R rv) <= B2R (fhlf m (fsub up ru rl)).
Proof.
  intros N U D M F. pose proof (fhlf_fin _ _ F) as FD. destruct (fsub_fin _ _ _ FD) as [Fu Fl].
  destruct (both_finite r ru rl U D Fu Fl) as (A & B & Eu & El).
  destruct (near_finite r rv ru rl N U D Fu Fl) as [Fv Ev]. split; auto. rewrite Ev.
  pose proof (nearest_half r) as H.
  assert (above (fsub up ru rl) (B2R ru - B2R rl)) as G by (apply rounded_up_above, fsub_rounded; auto).
  apply (proj1 (above_finite _ _ FD)) in G. rewrite Eu, El in G.
  destruct M as [->|M].
  - assert (above (fhlf up (fsub up ru rl)) (B2R (fsub up ru rl) / 2)) as K.
    { rewrite <- (proj1 ftwo_val). apply rounded_up_above, fdiv_rounded; auto. rewrite (proj1 ftwo_val). lra. }
    apply (proj1 (above_finite _ _ F)) in K. lra.
  - destruct (Req_dec (rnd up r) (rnd down r)) as [Q|Q].
    { (* exact *)
      assert (B2R (fsub up ru rl) = 0) as Z.
      { pose proof (fsub_rounded up ru rl Fu Fl) as [[_ [_ E]]|[L _]]; rewrite Eu, El, Q in *.
        - rewrite E. replace (rnd down r - rnd down r) with 0 by ring. apply round_0; auto with typeclass_instances.
        - replace (rnd down r - rnd down r) with 0 in L by ring. rewrite round_0 in L by auto with typeclass_instances.
          rewrite Rabs_R0 in L. pose proof (bpow_gt_0 radix2 emax). lra. }
      destruct (fhlf_exact m _ FD) as [_ E]; [rewrite Z; unfold Rdiv; rewrite Rmult_0_l; apply generic_format_0|].
      rewrite E, Z. lra. }
    assert (~ fmt r) as NF.
    { intros NF. apply Q. rewrite !round_generic; auto with typeclass_instances. }
    destruct M as [M|M]; [contradiction|].
    assert (rnd up r - rnd down r = bpow radix2 (cexp radix2 fexp r)) as GAP.
    { cbn [round_mode]. rewrite round_UP_DN_ulp by auto.
      rewrite ulp_neq_0; [ring|]. intros ->. apply NF. apply generic_format_0. }
    assert (r <> 0) as R0. { intros ->. apply NF, generic_format_0. }
    assert (3 - emax < mag radix2 r)%Z as MG by (apply mag_gt_bpow; auto).
    assert (mag radix2 r <= emax)%Z as ML.
    { apply mag_le_bpow; auto.
      pose proof (round_UP_le (prec:=prec) (emax:=emax) r). pose proof (round_DN_ge (prec:=prec) (emax:=emax) r).
      apply Rabs_def2 in A. apply Rabs_def2 in B. apply Rabs_def1; lra. }
    pose proof Hprec as P1; pose proof Hemax as P2. unfold Prec_gt_0, Prec_lt_emax in P1, P2.
    set (c := cexp radix2 fexp r) in *.
    assert (3 - emax - prec < c /\ c <= emax - prec)%Z as [C1 C2].
    { unfold c, cexp, SpecFloat.fexp, SpecFloat.emin. lia. }
    assert (forall k, (3 - emax - prec <= k)%Z -> fmt (bpow radix2 k)) as FB.
    { intros k K. apply generic_format_bpow. unfold SpecFloat.fexp, SpecFloat.emin. lia. }
    assert (B2R (fsub up ru rl) = bpow radix2 c) as DV.
    { pose proof (fsub_rounded up ru rl Fu Fl) as [[_ [_ E]]|[L _]]; rewrite Eu, El, GAP in *.
      - rewrite E. apply round_generic; auto with typeclass_instances. apply FB. lia.
      - rewrite round_generic in L; auto with typeclass_instances; [|apply FB; lia].
        rewrite Rabs_pos_eq in L by apply bpow_ge_0. apply le_bpow in L. lia. }
    assert (bpow radix2 c / 2 = bpow radix2 (c - 1)) as HB.
    { unfold Rdiv. replace (/ 2) with (bpow radix2 (-1)) by (cbn; lra). rewrite <- bpow_plus. f_equal. }
    destruct (fhlf_exact m _ FD) as [_ E]; [rewrite DV, HB; apply FB; lia|].
    rewrite E, DV. lra.
Qed.

Lemma sum_gap_ok (x y : fl) : gap_ok (B2R x + B2R y).
Proof.
  unfold gap_ok. destruct (Rle_or_lt (bpow radix2 (3 - emax)) (Rabs (B2R x + B2R y))) as [L|L]; auto.
  left. apply (FLT_format_plus_small radix2 (3 - emax - prec) prec).
  - apply generic_format_B2R.
  - apply generic_format_B2R.
  - replace (prec + (3 - emax - prec))%Z with (3 - emax)%Z by ring. lra.
Qed.
Lemma diff_gap_ok (x y : fl) : gap_ok (B2R x - B2R y).
Proof.
  unfold Rminus. rewrite <- fneg_val. apply sum_gap_ok.
Qed.
Lemma no_underflow_gap r : no_underflow emax r -> gap_ok r.
Proof. intros [->|H]; [left; apply generic_format_0|right; auto]. Qed.

(** ** Sums and differences *)
Lemma in_ball_fin (X : bl) r : is_finite (e_ X) = true -> in_ball X r ->
  is_finite (v_ X) = true /\ Rabs (r - B2R (v_ X)) <= B2R (e_ X).
Proof. intros F [V A]. split; auto. apply (proj1 (above_finite _ _ F)) in A. auto. Qed.
Lemma in_ball_intro (X : bl) r : is_finite (e_ X) = true -> is_finite (v_ X) = true ->
  Rabs (r - B2R (v_ X)) <= B2R (e_ X) -> in_ball X r.
Proof. intros F V A. split; auto. apply above_finite; auto. Qed.

Lemma fadd_up_ge (x y : fl) : is_finite (fadd up x y) = true -> B2R x + B2R y <= B2R (fadd up x y).
Proof.
  intros F. destruct (fadd_fin _ _ _ F). apply (proj1 (above_finite _ _ F)).
  apply rounded_up_above, fadd_rounded; auto.
Qed.
Lemma fsub_up_ge (x y : fl) : is_finite (fsub up x y) = true -> B2R x - B2R y <= B2R (fsub up x y).
Proof.
  intros F. destruct (fsub_fin _ _ _ F). apply (proj1 (above_finite _ _ F)).
  apply rounded_up_above, fsub_rounded; auto.
Qed.
Lemma fmul_up_ge (x y : fl) : is_finite (fmul up x y) = true -> B2R x * B2R y <= B2R (fmul up x y).
Proof.
  intros F. destruct (fmul_fin _ _ _ F). apply (proj1 (above_finite _ _ F)).
  apply rounded_up_above, fmul_rounded; auto.
Qed.
Lemma fadd_down_le (x y : fl) : is_finite (fadd down x y) = true -> B2R (fadd down x y) <= B2R x + B2R y.
Proof.
  intros F. destruct (fadd_fin _ _ _ F). apply (proj1 (below_finite _ _ F)).
  apply rounded_down_below, fadd_rounded; auto.
Qed.
Lemma fsub_down_le (x y : fl) : is_finite (fsub down x y) = true -> B2R (fsub down x y) <= B2R x - B2R y.
Proof.
  intros F. destruct (fsub_fin _ _ _ F). apply (proj1 (below_finite _ _ F)).
  apply rounded_down_below, fsub_rounded; auto.
Qed.

Lemma bl_add_in m (X Y : bl) x y : is_finite (e_ (bl_add m X Y)) = true ->
  in_ball X x -> in_ball Y y -> in_ball (bl_add m X Y) (x + y).
Proof.
  intros F HX HY. assert (F' := F). cbn [bl_add e_] in F.
  destruct (fadd_fin _ _ _ F) as [Fa Fs]. destruct (fadd_fin _ _ _ Fs) as [Fe Fe'].
  destruct (in_ball_fin _ _ Fe HX) as [Vx Ax]. destruct (in_ball_fin _ _ Fe' HY) as [Vy Ay].
  destruct (half_gap m (B2R (v_ X) + B2R (v_ Y)) (fadd near (v_ X) (v_ Y)) (fadd up (v_ X) (v_ Y)) (fadd down (v_ X) (v_ Y))) as [Fv G];
    try apply fadd_rounded; auto using sum_gap_ok.
  apply in_ball_intro; auto. cbn [bl_add v_ e_].
  pose proof (fadd_up_ge _ _ F). pose proof (fadd_up_ge _ _ Fs).
  set (c := B2R (fadd near (v_ X) (v_ Y))) in *.
  replace (x + y - c) with ((B2R (v_ X) + B2R (v_ Y) - c) + ((x - B2R (v_ X)) + (y - B2R (v_ Y)))) by ring.
  eapply Rle_trans; [apply Rabs_triang|]. pose proof (Rabs_triang (x - B2R (v_ X)) (y - B2R (v_ Y))). lra.
Qed.

Lemma bl_sub_in m (X Y : bl) x y : is_finite (e_ (bl_sub m X Y)) = true ->
  in_ball X x -> in_ball Y y -> in_ball (bl_sub m X Y) (x - y).
Proof.
  intros F HX HY. assert (F' := F). cbn [bl_sub e_] in F.
  destruct (fadd_fin _ _ _ F) as [Fa Fs]. destruct (fadd_fin _ _ _ Fs) as [Fe Fe'].
  destruct (in_ball_fin _ _ Fe HX) as [Vx Ax]. destruct (in_ball_fin _ _ Fe' HY) as [Vy Ay].
  destruct (half_gap m (B2R (v_ X) - B2R (v_ Y)) (fsub near (v_ X) (v_ Y)) (fsub up (v_ X) (v_ Y)) (fsub down (v_ X) (v_ Y))) as [Fv G];
    try apply fsub_rounded; auto using diff_gap_ok.
  apply in_ball_intro; auto. cbn [bl_sub v_ e_].
  pose proof (fadd_up_ge _ _ F). pose proof (fadd_up_ge _ _ Fs).
  set (c := B2R (fsub near (v_ X) (v_ Y))) in *.
  replace (x - y - c) with ((B2R (v_ X) - B2R (v_ Y) - c) + ((x - B2R (v_ X)) - (y - B2R (v_ Y)))) by ring.
  eapply Rle_trans; [apply Rabs_triang|].
  pose proof (Rabs_triang (x - B2R (v_ X)) (- (y - B2R (v_ Y)))). rewrite Rabs_Ropp in *.
  unfold Rminus in *. lra.
Qed.

Lemma bl_neg_in (X : bl) x : in_ball X x -> in_ball (bl_neg X) (- x).
Proof.
  intros [V A]. split; cbn [bl_neg v_ e_]; [rewrite fneg_fin; auto|]. unfold val in *. rewrite fneg_val.
  replace (- x - - B2R (v_ X)) with (- (x - B2R (v_ X))) by ring. rewrite Rabs_Ropp. auto.
Qed.

Lemma blf_add_in m (x y : fl) : is_finite (e_ (blf_add m x y)) = true -> is_finite x = true -> is_finite y = true ->
  in_ball (blf_add m x y) (B2R x + B2R y).
Proof.
  intros F Fx Fy. assert (F' := F). cbn [blf_add e_] in F.
  destruct (half_gap m (B2R x + B2R y) (fadd near x y) (fadd up x y) (fadd down x y)) as [Fv G];
    try apply fadd_rounded; auto using sum_gap_ok.
  apply in_ball_intro; auto.
Qed.
Lemma blf_sub_in m (x y : fl) : is_finite (e_ (blf_sub m x y)) = true -> is_finite x = true -> is_finite y = true ->
  in_ball (blf_sub m x y) (B2R x - B2R y).
Proof.
  intros F Fx Fy. assert (F' := F). cbn [blf_sub e_] in F.
  destruct (half_gap m (B2R x - B2R y) (fsub near x y) (fsub up x y) (fsub down x y)) as [Fv G];
    try apply fsub_rounded; auto using diff_gap_ok.
  apply in_ball_intro; auto.
Qed.
Lemma blf_mul_in m (x y : fl) : is_finite (e_ (blf_mul m x y)) = true -> is_finite x = true -> is_finite y = true ->
  m = up \/ no_underflow emax (B2R x * B2R y) ->
  in_ball (blf_mul m x y) (B2R x * B2R y).
Proof.
  intros F Fx Fy M. assert (F' := F). cbn [blf_mul e_] in F.
  destruct (half_gap m (B2R x * B2R y) (fmul near x y) (fmul up x y) (fmul down x y)) as [Fv G];
    try apply fmul_rounded; auto.
  { destruct M; auto using no_underflow_gap. }
  apply in_ball_intro; auto.
Qed.
Lemma blf_div_in m (x y : fl) : is_finite (e_ (blf_div m x y)) = true -> is_finite x = true -> B2R y <> 0 ->
  m = up \/ no_underflow emax (B2R x / B2R y) ->
  in_ball (blf_div m x y) (B2R x / B2R y).
Proof.
  intros F Fx Fy M. assert (F' := F). cbn [blf_div e_] in F.
  destruct (half_gap m (B2R x / B2R y) (fdiv near x y) (fdiv up x y) (fdiv down x y)) as [Fv G];
    try apply fdiv_rounded; auto.
  { destruct M; auto using no_underflow_gap. }
  apply in_ball_intro; auto.
Qed.

(** ** Products *)
Lemma bl_mul_in m (X Y : bl) x y : is_finite (e_ (bl_mul m X Y)) = true ->
  m = up \/ no_underflow emax (B2R (v_ X) * B2R (v_ Y)) ->
  in_ball X x -> in_ball Y y -> in_ball (bl_mul m X Y) (x * y).
Proof.
  intros F M HX HY. assert (F' := F). cbn [bl_mul e_] in F.
  destruct (fadd_fin _ _ _ F) as [F1 F2]. destruct (fadd_fin _ _ _ F1) as [F0 Fee].
  destruct (fadd_fin _ _ _ F2) as [F3 F4]. destruct (fmul_fin _ _ _ Fee) as [Fe Fe'].
  destruct (in_ball_fin _ _ Fe HX) as [Vx Ax]. destruct (in_ball_fin _ _ Fe' HY) as [Vy Ay].
  destruct (half_gap m (B2R (v_ X) * B2R (v_ Y)) (fmul near (v_ X) (v_ Y)) (fmul up (v_ X) (v_ Y)) (fmul down (v_ X) (v_ Y))) as [Fv G];
    try apply fmul_rounded; auto.
  { destruct M; auto using no_underflow_gap. }
  apply in_ball_intro; auto. cbn [bl_mul v_ e_].
  pose proof (fadd_up_ge _ _ F) as H1. pose proof (fadd_up_ge _ _ F1) as H2. pose proof (fadd_up_ge _ _ F2) as H3.
  pose proof (fmul_up_ge _ _ Fee) as H4. pose proof (fmul_up_ge _ _ F3) as H5. pose proof (fmul_up_ge _ _ F4) as H6.
  rewrite fabs_val in H5, H6.
  set (c := B2R (fmul near (v_ X) (v_ Y))) in *. set (a := B2R (v_ X)) in *. set (b := B2R (v_ Y)) in *.
  replace (x * y - c) with ((a * b - c) + ((x - a) * (y - b) + (a * (y - b) + (x - a) * b))) by ring.
  eapply Rle_trans; [apply Rabs_triang|].
  pose proof (Rabs_triang ((x - a) * (y - b)) (a * (y - b) + (x - a) * b)) as T1.
  pose proof (Rabs_triang (a * (y - b)) ((x - a) * b)) as T2. rewrite !Rabs_mult in *.
  pose proof (Rabs_pos (x - a)). pose proof (Rabs_pos (y - b)). pose proof (Rabs_pos a). pose proof (Rabs_pos b).
  assert (Rabs (x - a) * Rabs (y - b) <= B2R (e_ X) * B2R (e_ Y)) by (apply Rmult_le_compat; auto).
  assert (Rabs a * Rabs (y - b) <= Rabs a * B2R (e_ Y)) by (apply Rmult_le_compat_l; auto).
  assert (Rabs (x - a) * Rabs b <= B2R (e_ X) * Rabs b) by (apply Rmult_le_compat_r; auto).
  lra.
Qed.

(** ** Reciprocals *)
(** The smallest positive float: a positive difference of floats does not
    round down to zero. *)
Lemma diff_down_pos (x y : fl) : is_finite x = true -> is_finite y = true -> B2R y < B2R x ->
  is_finite (fsub down x y) = true /\ 0 < B2R (fsub down x y).
Proof.
  intros Fx Fy L.
  assert (fmt (bpow radix2 (3 - emax - prec))) as FB.
  { apply generic_format_bpow. unfold SpecFloat.fexp, SpecFloat.emin.
    pose proof Hprec; pose proof Hemax; unfold Prec_gt_0, Prec_lt_emax in *. lia. }
  assert (0 < rnd down (B2R x - B2R y)) as P.
  { destruct (diff_gap_ok x y) as [G|G].
    - rewrite round_generic by auto with typeclass_instances. lra.
    - apply Rlt_le_trans with (rnd down (bpow radix2 (3 - emax - prec))).
      + rewrite round_generic by auto with typeclass_instances. apply bpow_gt_0.
      + apply round_le; auto with typeclass_instances. rewrite Rabs_pos_eq in G by lra.
        eapply Rle_trans; [|exact G]. apply bpow_le.
        pose proof Hprec; unfold Prec_gt_0 in *; lia. }
  destruct (fsub_rounded down x y Fx Fy) as [[_ [F E]]|[L' E]].
  - rewrite E. auto.
  - rewrite Rlt_bool_false in E by lra.
    destruct (overflow_max _ false mode_DN E eq_refl) as [F S]. split; auto.
    pose proof (B2R_sign_pos _ S).
    destruct (finite_nonzero _ F) as [[s E0]|]; [|lra].
    rewrite E0 in E. discriminate.
Qed.
Lemma sum_up_neg (x y : fl) : is_finite x = true -> is_finite y = true -> B2R x + B2R y < 0 ->
  is_finite (fadd up x y) = true /\ B2R (fadd up x y) < 0.
Proof.
  intros Fx Fy L.
  assert (fmt (- bpow radix2 (3 - emax - prec))) as FB.
  { apply generic_format_opp, generic_format_bpow. unfold SpecFloat.fexp, SpecFloat.emin.
    pose proof Hprec; pose proof Hemax; unfold Prec_gt_0, Prec_lt_emax in *. lia. }
  assert (rnd up (B2R x + B2R y) < 0) as P.
  { destruct (sum_gap_ok x y) as [G|G].
    - rewrite round_generic by auto with typeclass_instances. lra.
    - apply Rle_lt_trans with (rnd up (- bpow radix2 (3 - emax - prec))).
      + apply round_le; auto with typeclass_instances. rewrite Rabs_left in G by lra.
        assert (bpow radix2 (3 - emax - prec) <= bpow radix2 (3 - emax)); [|lra]. apply bpow_le.
        pose proof Hprec; unfold Prec_gt_0 in *; lia.
      + rewrite round_generic by auto with typeclass_instances. pose proof (bpow_gt_0 radix2 (3 - emax - prec)). lra. }
  destruct (fadd_rounded up x y Fx Fy) as [[_ [F E]]|[L' E]].
  - rewrite E. auto.
  - rewrite Rlt_bool_true in E by lra.
    destruct (overflow_max _ true mode_UP E eq_refl) as [F S]. split; auto.
    pose proof (B2R_sign_neg _ S).
    destruct (finite_nonzero _ F) as [[s E0]|]; [|lra].
    rewrite E0 in E. discriminate.
Qed.

Lemma frec_fin m (x : fl) : is_finite x = true -> B2R x <> 0 -> is_nan (frec m x) = false.
Proof. intros F N. eapply rounded_not_nan. apply fdiv_rounded; auto. apply fone_finite. Qed.

Lemma rec_bounds (X : bl) y : is_finite (e_ X) = true -> B2R (e_ X) < Rabs (B2R (v_ X)) -> in_ball X y ->
  y <> 0 /\ above (frec up (fsub down (v_ X) (e_ X))) (/ y) /\ below (frec down (fadd up (v_ X) (e_ X))) (/ y).
Proof.
  intros Fe L H. destruct (in_ball_fin _ _ Fe H) as [Fv A].
  set (v := B2R (v_ X)) in *. set (e := B2R (e_ X)) in *.
  assert (v - e <= y <= v + e) as B.
  { pose proof (Rle_abs (y - v)). pose proof (Rle_abs (-(y - v))). rewrite Rabs_Ropp in *. lra. }
  assert (contains (mkB (fsub down (v_ X) (e_ X)) (fadd up (v_ X) (e_ X))) y) as C.
  { split; cbn [b_l b_u].
    - apply below_le with (v - e); [apply rounded_down_below, fsub_rounded; auto|lra].
    - apply above_ge with (v + e); [apply rounded_up_above, fadd_rounded; auto|lra]. }
  destruct (Rle_or_lt 0 v) as [S|S].
  - rewrite Rabs_pos_eq in L by auto.
    destruct (diff_down_pos (v_ X) (e_ X) Fv Fe L) as [FD PD]. assert (y <> 0) as Hy by lra. split; auto.
    pose proof (b_rec_contains _ _ C Hy) as R. unfold b_rec in R; cbn [b_l b_u] in R.
    apply gt0_finite in PD; auto. rewrite PD in R. cbn [orb] in R.
    destruct R as [R1 R2]; cbn [b_l b_u] in *. auto.
  - rewrite Rabs_left in L by auto.
    destruct (sum_up_neg (v_ X) (e_ X) Fv Fe ltac:(fold v e; lra)) as [FD PD]. assert (y <> 0) as Hy by lra. split; auto.
    pose proof (b_rec_contains _ _ C Hy) as R. unfold b_rec in R; cbn [b_l b_u] in R.
    apply lt0_finite in PD; auto. rewrite PD, orb_true_r in R.
    destruct R as [R1 R2]; cbn [b_l b_u] in *. auto.
Qed.

Lemma bl_rec_in (X : bl) y : is_finite (e_ X) = true -> B2R (e_ X) < Rabs (B2R (v_ X)) ->
  is_finite (e_ (bl_rec X)) = true -> in_ball X y -> in_ball (bl_rec X) (/ y).
Proof.
  intros Fe L F H. destruct (rec_bounds X y Fe L H) as (Hy & U & D).
  cbn [bl_rec e_] in F. set (ru := frec up _) in *. set (rl := frec down _) in *. set (rv := frec near (v_ X)) in *.
  assert (is_finite rv = true) as Fv.
  { destruct (fmax_fin_or _ _ F) as [G|G]; apply fsub_fin in G; tauto. }
  assert (is_nan (fsub up ru rv) = false /\ is_nan (fsub up rv rl) = false) as [N1 N2].
  { split; eapply above_not_nan.
    - eapply fsub_up_above; [exact U|apply below_finite; [exact Fv|apply Rle_refl]].
    - eapply fsub_up_above; [apply above_finite; [exact Fv|apply Rle_refl]|exact D]. }
  split; cbn [bl_rec v_ e_]; auto. fold ru rl rv. unfold val.
  unfold Rabs. destruct Rcase_abs.
  - apply above_fmax_r; auto. replace (- (/ y - B2R rv)) with (B2R rv - / y) by ring.
    apply fsub_up_above; auto. apply above_finite; auto. lra.
  - apply above_fmax_l. apply fsub_up_above; auto. apply below_finite; auto. lra.
Qed.

Lemma bl_div_in m (X Y : bl) x y : is_finite (e_ Y) = true -> B2R (e_ Y) < Rabs (B2R (v_ Y)) ->
  is_finite (e_ (bl_div m X Y)) = true ->
  m = up \/ no_underflow emax (B2R (v_ X) * B2R (v_ (bl_rec Y))) ->
  in_ball X x -> in_ball Y y -> in_ball (bl_div m X Y) (x / y).
Proof.
  intros Fe L F M HX HY. unfold bl_div in *. apply bl_mul_in; auto.
  apply bl_rec_in; auto. cbn [bl_mul e_] in F.
  apply fadd_fin in F. destruct F as [F _]. apply fadd_fin in F. destruct F as [_ F].
  apply fmul_fin in F. tauto.
Qed.

(** ** Halving and squares *)
Lemma fhlf_up_ge m (x : fl) : is_finite (fhlf m x) = true -> m = up \/ halvable x -> B2R x / 2 <= B2R (fhlf m x).
Proof.
  intros F M. pose proof (fhlf_fin _ _ F) as Fx. destruct M as [->|M].
  - apply (proj1 (above_finite _ _ F)). rewrite <- (proj1 ftwo_val).
    apply rounded_up_above, fdiv_rounded; auto. rewrite (proj1 ftwo_val). lra.
  - destruct (halvable_exact m x Fx M) as [_ E]. lra.
Qed.

Lemma bl_hlf_in m (X : bl) x : is_finite (e_ (bl_hlf m X)) = true -> halvable (v_ X) -> m = up \/ halvable (e_ X) ->
  in_ball X x -> in_ball (bl_hlf m X) (x / 2).
Proof.
  intros F Hv He H. cbn [bl_hlf e_] in F. pose proof (fhlf_fin _ _ F) as Fe.
  destruct (in_ball_fin _ _ Fe H) as [V A]. destruct (halvable_exact m _ V Hv) as [Fv Ev].
  apply in_ball_intro; auto. cbn [bl_hlf v_ e_]. pose proof (fhlf_up_ge m _ F He). rewrite Ev.
  replace (x / 2 - B2R (v_ X) / 2) with ((x - B2R (v_ X)) * / 2) by field.
  rewrite Rabs_mult, (Rabs_pos_eq (/ 2)) by lra. lra.
Qed.

Lemma bl_sqr_in m (X : bl) x : is_finite (e_ (bl_sqr m X)) = true ->
  m = up \/ (no_underflow emax (B2R (v_ X) * B2R (v_ X)) /\
             halvable (fadd up (e_ (bl_mul m X X)) (v_ (bl_mul m X X)))) ->
  in_ball X x -> in_ball (bl_sqr m X) (x * x).
Proof.
  intros F M H. unfold bl_sqr in *. destruct flt_lt eqn:T.
  - cbn [e_] in F. pose proof (fhlf_fin _ _ F) as Fs. destruct (fadd_fin _ _ _ Fs) as [Fe Fv].
    assert (in_ball (bl_mul m X X) (x * x)) as I by (apply bl_mul_in; tauto).
    destruct (in_ball_fin _ _ Fe I) as [_ A].
    apply in_ball_intro; auto. cbn [v_ e_].
    pose proof (fhlf_up_ge m _ F ltac:(tauto)). pose proof (fadd_up_ge _ _ Fs).
    set (e' := B2R (fhlf m _)) in *.
    pose proof (Rle_abs (x * x - B2R (v_ (bl_mul m X X)))).
    apply Rabs_le. nra.
  - apply bl_mul_in; tauto.
Qed.

Lemma bl_sqr_nonneg m (X : bl) z : is_finite (v_ (bl_sqr m X)) = true -> is_finite (e_ (bl_sqr m X)) = true ->
  in_ball (bl_sqr m X) z -> 0 <= z.
Proof.
  intros V F I. destruct (in_ball_fin _ _ F I) as [_ A]. revert V F A. unfold bl_sqr.
  destruct flt_lt eqn:T; cbn [v_ e_]; intros V F A.
  - destruct (Rle_or_lt 0 z); auto. rewrite Rabs_left1 in A; [lra|].
    pose proof (Rabs_pos (z - B2R (fhlf m (fadd up (e_ (bl_mul m X X)) (v_ (bl_mul m X X)))))). lra.
  - unfold flt_lt in T. rewrite Bltb_correct in T by auto. revert T. case Rlt_bool_spec; [discriminate|].
    intros L _. pose proof (Rabs_def2 (z - B2R (v_ (bl_mul m X X))) (B2R (e_ (bl_mul m X X)) + 1)).
    revert A. unfold Rabs. destruct Rcase_abs; lra.
Qed.

(** ** Powers and conversions *)
Lemma b_error_fin (X : bounds prec emax) : is_finite (b_error X) = true -> finite_bounds X /\ is_finite (b_value X) = true.
Proof.
  intros F. unfold b_error in F.
  assert (is_finite (b_value X) = true) as V.
  { destruct (fmax_fin_or _ _ F) as [G|G]; apply fsub_fin in G; tauto. }
  split; auto. unfold b_value, fmed in V. apply fhlf_fin in V. apply fadd_fin in V. exact V.
Qed.
Lemma bl_of_bounds_in (X : bounds prec emax) r : is_finite (e_ (bl_of_bounds X)) = true -> contains X r -> in_ball (bl_of_bounds X) r.
Proof.
  intros F C. cbn [bl_of_bounds e_] in F. destruct (b_error_fin X F) as [B V].
  destruct (b_value_error X B) as [[_ H]|[H _]]; [|congruence].
  split; cbn [bl_of_bounds v_ e_]; auto.
Qed.
Lemma bl_bounds_contains (X : bl) r : in_ball X r -> contains (bl_bounds X) r.
Proof.
  intros [V A]. apply (b_pm_contains _ _ _ V A).
Qed.
Lemma bl_pow_in (X : bl) n x : is_finite (e_ (bl_pow X n)) = true -> in_ball X x -> in_ball (bl_pow X n) (x ^ N.to_nat n).
Proof. intros F H. apply bl_of_bounds_in; auto. apply b_pow_contains, bl_bounds_contains; auto. Qed.
Lemma bl_powz_in (X : bl) n x : is_finite (e_ (bl_powz X n)) = true -> (x <> 0 \/ (0 <= n)%Z) ->
  in_ball X x -> in_ball (bl_powz X n) (powerRZ x n).
Proof. intros F Hx H. apply bl_of_bounds_in; auto. apply b_powz_contains; auto. apply bl_bounds_contains; auto. Qed.

(** ** Absolute values *)
Lemma bl_abs_in m (X : bl) x : is_finite (e_ (bl_abs m X)) = true -> is_finite (e_ X) = true ->
  (B2R (e_ X) < Rabs (B2R (v_ X)) -> 0 <= B2R (v_ X)) ->
  m = up \/ halvable (fadd up (fabs (v_ X)) (e_ X)) ->
  in_ball X x -> in_ball (bl_abs m X) (Rabs x).
Proof.
  intros F Fe S M H. destruct (in_ball_fin _ _ Fe H) as [V A].
  pose proof (Rle_abs (x - B2R (v_ X))) as A1. pose proof (Rle_abs (- (x - B2R (v_ X)))) as A2. rewrite Rabs_Ropp in A2.
  unfold bl_abs in *.
  destruct (flt_lt (e_ X) (fabs (v_ X))) eqn:T.
  - apply flt_lt_finite in T; [|auto|rewrite fabs_fin; auto]. rewrite fabs_val in T. specialize (S T).
    rewrite (Rabs_pos_eq (B2R (v_ X))) in T by auto.
    rewrite Rabs_pos_eq by lra. auto.
  - cbn [e_] in F. pose proof (fhlf_up_ge m _ F M). pose proof (fadd_up_ge _ _ (fhlf_fin _ _ F)).
    rewrite fabs_val in *. apply in_ball_intro; auto. cbn [v_ e_].
    set (c := B2R (fhlf m _)) in *. pose proof (Rabs_pos x).
    pose proof (Rabs_triang (x - B2R (v_ X)) (B2R (v_ X))) as T'.
    replace (x - B2R (v_ X) + B2R (v_ X)) with x in T' by ring.
    apply Rabs_le. lra.
Qed.

Lemma bl_mag_above (X : bl) x : in_ball X x -> above (bl_mag X) (Rabs x).
Proof.
  intros [V A]. unfold bl_mag. pose proof (Rabs_triang (B2R (v_ X)) (x - B2R (v_ X))) as T.
  replace (B2R (v_ X) + (x - B2R (v_ X))) with x in T by ring. unfold val in A.
  eapply above_ge; [|exact T]. apply fadd_up_above; auto.
  apply above_finite; [rewrite fabs_fin; auto|]. rewrite fabs_val. lra.
Qed.
Lemma bl_mig_below (X : bl) x : in_ball X x -> below (bl_mig X) (Rabs x).
Proof.
  intros [V A]. unfold bl_mig. pose proof (Rabs_triang x (- (x - B2R (v_ X)))) as T.
  replace (x + - (x - B2R (v_ X))) with (B2R (v_ X)) in T by ring. rewrite Rabs_Ropp in T. unfold val in A.
  apply below_fmax; [cbn; apply Rabs_pos|].
  apply below_le with (Rabs (B2R (v_ X)) - Rabs (x - B2R (v_ X))); [|lra].
  apply fsub_down_below; auto.
  apply below_finite; [rewrite fabs_fin; auto|]. rewrite fabs_val. lra.
Qed.

(** ** Maximum and minimum *)
Lemma max_half x y : Rmax x y = ((x + y) + Rabs (x - y)) / 2.
Proof. unfold Rmax. destruct Rle_dec; unfold Rabs; destruct Rcase_abs; lra. Qed.
Lemma min_half x y : Rmin x y = ((x + y) - Rabs (x - y)) / 2.
Proof. unfold Rmin. destruct Rle_dec; unfold Rabs; destruct Rcase_abs; lra. Qed.

(** The side conditions under which the computation of |x1-x2| and of the
    final half is right. *)
Definition maxmin_ok (m : mode) (d r : bl) : Prop :=
  (B2R (e_ d) < Rabs (B2R (v_ d)) -> 0 <= B2R (v_ d)) /\
  (m = up \/ halvable (fadd up (fabs (v_ d)) (e_ d))) /\
  halvable (v_ r) /\ (m = up \/ halvable (e_ r)).

Lemma bl_abs_fin m (X : bl) : is_finite (e_ (bl_abs m X)) = true -> is_finite (e_ X) = true.
Proof.
  unfold bl_abs. destruct flt_lt; auto. cbn [e_]. intros F. apply fhlf_fin, fadd_fin in F. tauto.
Qed.
Lemma bl_max_in m (X Y : bl) x y : is_finite (e_ (bl_max m X Y)) = true ->
  maxmin_ok m (bl_sub m X Y) (bl_add m (bl_add m X Y) (bl_abs m (bl_sub m X Y))) ->
  in_ball X x -> in_ball Y y -> in_ball (bl_max m X Y) (Rmax x y).
Proof.
  intros F (O1 & O2 & O3 & O4) HX HY. unfold bl_max in *.
  pose proof F as F1. cbn [bl_hlf e_] in F1. apply fhlf_fin in F1.
  pose proof F1 as F2. cbn [bl_add e_] in F2. apply fadd_fin in F2. destruct F2 as [_ F2].
  apply fadd_fin in F2. destruct F2 as [F2 F3]. pose proof (bl_abs_fin _ _ F3) as F4.
  rewrite max_half. apply bl_hlf_in; auto. apply bl_add_in; auto.
  - apply bl_add_in; auto.
  - apply bl_abs_in; auto. apply bl_sub_in; auto.
Qed.
Lemma bl_min_in m (X Y : bl) x y : is_finite (e_ (bl_min m X Y)) = true ->
  maxmin_ok m (bl_sub m X Y) (bl_sub m (bl_add m X Y) (bl_abs m (bl_sub m X Y))) ->
  in_ball X x -> in_ball Y y -> in_ball (bl_min m X Y) (Rmin x y).
Proof.
  intros F (O1 & O2 & O3 & O4) HX HY. unfold bl_min in *.
  pose proof F as F1. cbn [bl_hlf e_] in F1. apply fhlf_fin in F1.
  pose proof F1 as F2. cbn [bl_sub e_] in F2. apply fadd_fin in F2. destruct F2 as [_ F2].
  apply fadd_fin in F2. destruct F2 as [F2 F3]. pose proof (bl_abs_fin _ _ F3) as F4.
  rewrite min_half. apply bl_hlf_in; auto. apply bl_sub_in; auto.
  - apply bl_add_in; auto.
  - apply bl_abs_in; auto. apply bl_sub_in; auto.
Qed.

(** ** Tests *)
Lemma bl_dist_up (x y : fl) : is_finite (bl_dist up x y) = true -> Rabs (B2R x - B2R y) <= B2R (bl_dist up x y).
Proof.
  unfold bl_dist. destruct (flt_le y x) eqn:T; intros F; destruct (fsub_fin _ _ _ F).
  - apply flt_le_finite in T; auto. pose proof (fsub_up_ge _ _ F). rewrite Rabs_pos_eq by lra. lra.
  - assert (B2R x < B2R y) as L.
    { destruct (Rle_or_lt (B2R y) (B2R x)) as [K|K]; auto. apply flt_le_finite in K; auto. congruence. }
    pose proof (fsub_up_ge _ _ F). rewrite Rabs_left by lra. lra.
Qed.
Lemma bl_dist_down (x y : fl) : is_finite (bl_dist down x y) = true -> B2R (bl_dist down x y) <= Rabs (B2R x - B2R y).
Proof.
  unfold bl_dist. destruct (flt_le y x) eqn:T; intros F; destruct (fsub_fin _ _ _ F).
  - apply flt_le_finite in T; auto. pose proof (fsub_down_le _ _ F). rewrite Rabs_pos_eq by lra. lra.
  - assert (B2R x < B2R y) as L.
    { destruct (Rle_or_lt (B2R y) (B2R x)) as [K|K]; auto. apply flt_le_finite in K; auto. congruence. }
    pose proof (fsub_down_le _ _ F). rewrite Rabs_left by lra. lra.
Qed.

(** Comparing an upper bound of one quantity with a lower bound of another. *)
Lemma flt_le_above_below (f g : fl) a b : flt_le f g = true -> above f a -> below g b -> a <= b.
Proof.
  intros T A B. destruct (above_cases _ _ A) as [[F A']| ->], (below_cases _ _ B) as [[G B']| ->].
  - apply flt_le_finite in T; auto. lra.
  - destruct f; discriminate.
  - destruct g as [|[]| |]; discriminate.
  - discriminate.
Qed.
Lemma flt_lt_above_below (f g : fl) a b : flt_lt f g = true -> above f a -> below g b -> a < b.
Proof.
  intros T A B. destruct (above_cases _ _ A) as [[F A']| ->], (below_cases _ _ B) as [[G B']| ->].
  - apply flt_lt_finite in T; auto. lra.
  - destruct f; discriminate.
  - destruct g as [|[]| |]; discriminate.
  - discriminate.
Qed.
Lemma dist_above (x y : fl) : is_finite x = true -> is_finite y = true -> above (bl_dist up x y) (Rabs (B2R x - B2R y)).
Proof.
  intros Fx Fy. unfold bl_dist. destruct (flt_le y x) eqn:T.
  - apply flt_le_finite in T; auto. rewrite Rabs_pos_eq by lra. apply rounded_up_above, fsub_rounded; auto.
  - assert (B2R x < B2R y) as L.
    { destruct (Rle_or_lt (B2R y) (B2R x)) as [K|K]; auto. apply flt_le_finite in K; auto. congruence. }
    rewrite Rabs_left by lra. replace (- (B2R x - B2R y)) with (B2R y - B2R x) by ring.
    apply rounded_up_above, fsub_rounded; auto.
Qed.
Lemma dist_below (x y : fl) : is_finite x = true -> is_finite y = true -> below (bl_dist down x y) (Rabs (B2R x - B2R y)).
Proof.
  intros Fx Fy. unfold bl_dist. destruct (flt_le y x) eqn:T.
  - apply flt_le_finite in T; auto. rewrite Rabs_pos_eq by lra. apply rounded_down_below, fsub_rounded; auto.
  - assert (B2R x < B2R y) as L.
    { destruct (Rle_or_lt (B2R y) (B2R x)) as [K|K]; auto. apply flt_le_finite in K; auto. congruence. }
    rewrite Rabs_left by lra. replace (- (B2R x - B2R y)) with (B2R y - B2R x) by ring.
    apply rounded_down_below, fsub_rounded; auto.
Qed.

Lemma bl_models_in (X : bl) (f : fl) : finite_ball X -> is_finite f = true -> bl_models X f = true -> in_ball X (B2R f).
Proof.
  intros [V E] F T. apply in_ball_intro; auto. rewrite Rabs_minus_sym.
  eapply flt_le_above_below; [exact T|apply dist_above; auto|]. apply below_finite; auto. lra.
Qed.
Lemma bl_refines_sub (X Y : bl) : finite_ball X -> finite_ball Y -> bl_refines X Y = true ->
  forall r, in_ball X r -> in_ball Y r.
Proof.
  intros [V E] [V' E'] T r H. apply in_ball_intro; auto. destruct (in_ball_fin _ _ E H) as [_ A].
  assert (Rabs (B2R (v_ X) - B2R (v_ Y)) + B2R (e_ X) <= B2R (e_ Y)) as L.
  { eapply flt_le_above_below; [exact T| |apply below_finite; auto; lra].
    apply fadd_up_above; [apply dist_above; auto|apply above_finite; auto; lra]. }
  replace (r - B2R (v_ Y)) with ((r - B2R (v_ X)) + (B2R (v_ X) - B2R (v_ Y))) by ring.
  eapply Rle_trans; [apply Rabs_triang|]. lra.
Qed.
Lemma op_refines_sub (X Y : bl) : finite_ball X -> finite_ball Y -> op_refines X Y = true ->
  forall r, in_ball X r -> in_ball Y r.
Proof.
  intros [V E] [V' E'] T r H. apply in_ball_intro; auto. destruct (in_ball_fin _ _ E H) as [_ A].
  assert (Rabs (B2R (v_ X) - B2R (v_ Y)) <= B2R (e_ Y) - B2R (e_ X)) as L.
  { eapply flt_le_above_below; [exact T|apply dist_above; auto|]. apply rounded_down_below, fsub_rounded; auto. }
  replace (r - B2R (v_ Y)) with ((r - B2R (v_ X)) + (B2R (v_ X) - B2R (v_ Y))) by ring.
  eapply Rle_trans; [apply Rabs_triang|]. lra.
Qed.
Lemma bl_inconsistent_disjoint (X Y : bl) : finite_ball X -> finite_ball Y -> bl_inconsistent X Y = true ->
  forall r, in_ball X r -> in_ball Y r -> False.
Proof.
  intros [V E] [V' E'] T r H H'. destruct (in_ball_fin _ _ E H) as [_ A]. destruct (in_ball_fin _ _ E' H') as [_ A'].
  assert (B2R (e_ X) + B2R (e_ Y) < Rabs (B2R (v_ X) - B2R (v_ Y))) as L.
  { eapply flt_lt_above_below; [exact T| |apply dist_below; auto]. apply rounded_up_above, fadd_rounded; auto. }
  pose proof (Rabs_triang (- (r - B2R (v_ X))) (r - B2R (v_ Y))) as S. rewrite Rabs_Ropp in S.
  replace (- (r - B2R (v_ X)) + (r - B2R (v_ Y))) with (B2R (v_ X) - B2R (v_ Y)) in S by ring. lra.
Qed.
Lemma bl_consistent_meet (X Y : bl) : finite_ball X -> finite_ball Y -> 0 <= B2R (e_ X) -> 0 <= B2R (e_ Y) ->
  bl_consistent X Y = true -> exists r, in_ball X r /\ in_ball Y r.
Proof.
  intros [V E] [V' E'] P P' T.
  assert (Rabs (B2R (v_ X) - B2R (v_ Y)) <= B2R (e_ X) + B2R (e_ Y)) as L.
  { eapply flt_le_above_below; [exact T|apply dist_above; auto|]. apply rounded_down_below, fadd_rounded; auto. }
  set (a := B2R (v_ X)) in *. set (b := B2R (v_ Y)) in *. set (e := B2R (e_ X)) in *. set (d := B2R (e_ Y)) in *.
  exists (Rmax (a - e) (Rmin (a + e) b)).
  pose proof (Rle_abs (a - b)). pose proof (Rle_abs (- (a - b))). rewrite Rabs_Ropp in *.
  split; apply in_ball_intro; auto; fold a b e d; apply Rabs_le;
    unfold Rmax, Rmin; repeat destruct Rle_dec; lra.
Qed.

Lemma bl_sgn_sound (X : bl) x : in_ball X x ->
  (bl_sgn X = TRUE -> 0 < x) /\ (bl_sgn X = FALSE -> x < 0).
Proof.
  intros [V A]. unfold val in A.
  pose proof (Rle_abs (x - B2R (v_ X))). pose proof (Rle_abs (- (x - B2R (v_ X)))). rewrite Rabs_Ropp in *.
  unfold bl_sgn. destruct (flt_lt (e_ X) (v_ X)) eqn:T1; [|destruct (flt_lt (v_ X) (fneg (e_ X))) eqn:T2]; split; intros; try discriminate.
  - destruct (above_cases _ _ A) as [[F L]|E]; [apply flt_lt_finite in T1; auto; lra|].
    rewrite E in T1. destruct (v_ X) as [|[]| |]; discriminate.
  - destruct (above_cases _ _ A) as [[F L]|E].
    + apply flt_lt_finite in T2; auto; [rewrite fneg_val in T2; lra|rewrite fneg_fin; auto].
    + rewrite E in T2. destruct (v_ X) as [|[]| |[]]; discriminate.
Qed.

End BP.
