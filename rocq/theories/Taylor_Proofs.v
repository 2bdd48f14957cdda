(** * Proofs about Taylor models *)

From Coq Require Import ZArith NArith Reals List Bool Lra Lia Sorted Permutation.
From Flocq Require Import Core IEEE754.BinarySingleNaN.
From Verif Require Import Float_Model Float_Spec Float_Proofs Bounds_Model Bounds_Spec Bounds_Proofs
  Ball_Model Ball_Spec Ball_Proofs ErrBound_Model ErrBound_Spec ErrBound_Proofs LRU_Model
  Poly_Model Poly_Spec Poly_Proofs Taylor_Model Taylor_Spec.
Import ListNotations.
Local Open Scope R_scope.

Section Err.
Context {prec emax : Z}
        {Hprec : Prec_gt_0 prec} {Hemax : Prec_lt_emax prec emax}.
Notation fl := (binary_float prec emax).
Notation bnd := (bounds prec emax).
Notation fexp := (SpecFloat.fexp prec emax).
Notation rnd m r := (round radix2 fexp (round_mode m) r).
Notation big := (bpow radix2 emax).
Notation fin x := (is_finite x = true).

(** ** The error of one operation *)
Lemma rnd_opp r : rnd up (- r) = - rnd down r.
Proof. cbn [round_mode]. apply round_UP_opp. Qed.

Lemma rounded_opp r (f : fl) : rounded up (- r) f -> rounded down r (fneg f).
Proof.
  intros [[L [F E]]|[L E]].
  - left. rewrite rnd_opp in *. rewrite Rabs_Ropp in L. rewrite fneg_fin, fneg_val, E. repeat split; auto. ring.
  - right. rewrite rnd_opp in L. rewrite Rabs_Ropp in L. split; auto.
    assert (r <> 0) as NZ.
    { intros ->. rewrite round_0 in L by typeclasses eauto. rewrite Rabs_R0 in L. pose proof (bpow_gt_0 radix2 emax). lra. }
    assert (Rlt_bool (- r) 0 = negb (Rlt_bool r 0)) as S.
    { destruct (Rlt_bool_spec (- r) 0), (Rlt_bool_spec r 0); auto; lra. }
    rewrite S in E. clear S.
    unfold fneg. destruct (Rlt_bool r 0); cbn [negb] in E; unfold binary_overflow in *; cbn in *;
      destruct f as [|[]| |[]]; cbn in *; try discriminate; try (inversion E; subst; reflexivity); auto.
Qed.

Lemma gap s (rv u ml : fl) : rounded near s rv -> rounded up s u -> rounded up (- s) ml ->
  fin (fhlf up (fadd up u ml)) -> fin rv /\ Rabs (s - B2R rv) <= B2R (fhlf up (fadd up u ml)).
Proof.
  intros N U D F. pose proof (fhlf_fin _ _ F) as FA. destruct (fadd_fin _ _ _ FA) as [Fu Fm].
  apply rounded_opp in D. assert (fin (fneg ml)) as Fd by (rewrite fneg_fin; auto).
  destruct (both_finite s u (fneg ml) U D Fu Fd) as (_ & _ & Eu & Ed).
  destruct (near_finite s rv u (fneg ml) N U D Fu Fd) as [Fv Ev]. split; auto. rewrite Ev.
  pose proof (nearest_half (prec:=prec) (emax:=emax) s) as H. rewrite fneg_val in Ed.
  pose proof (fhlf_up_ge up _ F (or_introl eq_refl)). pose proof (fadd_up_ge _ _ FA). lra.
Qed.

(** [r] approximates [s], and the accumulator grew enough. *)
Definition err_ok (k s : R) (r e e' : fl) : Prop :=
  fin e' -> fin r /\ fin e /\ Rabs (s - B2R r) <= k * (B2R e' - B2R e) /\ B2R e <= B2R e'.

Lemma acc_ok k s (r e h : fl) : 0 <= k -> (fin h -> fin r /\ Rabs (s - B2R r) <= k * B2R h /\ 0 <= B2R h) ->
  err_ok k s r e (fadd up e h).
Proof.
  intros K H F. destruct (fadd_fin _ _ _ F) as [Fe Fh]. destruct (H Fh) as (Fr & A & P).
  pose proof (fadd_up_ge _ _ F). split; [|split; [|split]]; auto; try lra.
  apply Rle_trans with (k * B2R h); auto. apply Rmult_le_compat_l; lra.
Qed.
Lemma acc_ok1 s (r e h : fl) : (fin h -> fin r /\ Rabs (s - B2R r) <= B2R h) -> err_ok 1 s r e (fadd up e h).
Proof.
  intros H. apply acc_ok; [lra|]. intros Fh. destruct (H Fh) as [A B]. split; auto.
  pose proof (Rabs_pos (s - B2R r)). lra.
Qed.

Lemma add_err_ok (x y e : fl) : err_ok 1 (B2R x + B2R y) (fst (add_err x y e)) e (snd (add_err x y e)).
Proof.
  unfold add_err; cbn [fst snd]. apply acc_ok1. intros F.
  pose proof (fhlf_fin _ _ F) as FA. destruct (fadd_fin _ _ _ FA) as [Fu Fm]. destruct (fadd_fin _ _ _ Fu) as [Fx Fy].
  apply gap; auto; try (apply fadd_rounded; auto).
  replace (- (B2R x + B2R y)) with (B2R (fneg x) - B2R y) by (rewrite fneg_val; ring).
  apply fsub_rounded; auto. rewrite fneg_fin; auto.
Qed.
Lemma sub_err_ok (x y e : fl) : err_ok 1 (B2R x - B2R y) (fst (sub_err x y e)) e (snd (sub_err x y e)).
Proof.
  unfold sub_err; cbn [fst snd]. apply acc_ok1. intros F.
  pose proof (fhlf_fin _ _ F) as FA. destruct (fadd_fin _ _ _ FA) as [Fu Fm]. destruct (fsub_fin _ _ _ Fu) as [Fx Fy].
  apply gap; auto; try (apply fsub_rounded; auto).
  replace (- (B2R x - B2R y)) with (B2R (fneg x) + B2R y) by (rewrite fneg_val; ring).
  apply fadd_rounded; auto. rewrite fneg_fin; auto.
Qed.
Lemma mul_err_ok (x y e : fl) : err_ok 1 (B2R x * B2R y) (fst (mul_err x y e)) e (snd (mul_err x y e)).
Proof.
  unfold mul_err; cbn [fst snd]. apply acc_ok1. intros F.
  pose proof (fhlf_fin _ _ F) as FA. destruct (fadd_fin _ _ _ FA) as [Fu Fm]. destruct (fmul_fin _ _ _ Fu) as [Fx Fy].
  apply gap; auto; try (apply fmul_rounded; auto).
  replace (- (B2R x * B2R y)) with (B2R (fneg x) * B2R y) by (rewrite fneg_val; ring).
  apply fmul_rounded; auto. rewrite fneg_fin; auto.
Qed.
Lemma fdiv_fin_l m (x y : fl) : fin (fdiv m x y) -> fin x.
Proof. destruct x as [|[]| |], y as [|[]| |]; cbn; auto; discriminate. Qed.
Lemma fdiv_zero_fin m (x y : fl) : fin (fdiv m x y) -> B2R y = 0 -> exists s, y = B754_infinity s.
Proof.
  intros H Y. destruct y as [s|s| |s k p Q]; eauto.
  - destruct x as [|[]| |]; cbn in H; discriminate.
  - destruct x as [|[]| |]; cbn in H; discriminate.
  - exfalso. cbn in Y. unfold F2R in Y. cbn in Y. pose proof (bpow_gt_0 radix2 p).
    destruct s; cbn [cond_Zopp] in Y; apply Rmult_integral in Y; destruct Y as [Y|Y]; try lra; apply eq_IZR in Y; discriminate.
Qed.
Lemma div_err_ok (x y e : fl) : fin y -> err_ok 1 (B2R x / B2R y) (fst (div_err x y e)) e (snd (div_err x y e)).
Proof.
  intros Y. unfold div_err; cbn [fst snd]. apply acc_ok1. intros F.
  pose proof (fhlf_fin _ _ F) as FA. destruct (fadd_fin _ _ _ FA) as [Fu Fm]. pose proof (fdiv_fin_l _ _ _ Fu) as Fx.
  assert (B2R y <> 0) as NZ.
  { intros Z. destruct (fdiv_zero_fin _ _ _ Fu Z) as [s ->]. discriminate. }
  apply gap; auto; try (apply fdiv_rounded; auto).
  replace (- (B2R x / B2R y)) with (B2R (fneg x) / B2R y) by (rewrite fneg_val; field; auto).
  apply fdiv_rounded; auto. rewrite fneg_fin; auto.
Qed.

(** ** Two roundings: between the outer bounds *)
Lemma rnd_le m r s : r <= s -> rnd m r <= rnd m s.
Proof. apply round_le; typeclasses eauto. Qed.
Lemma near_le_up r : rnd near r <= rnd up r.
Proof.
  cbn [round_mode]. apply round_le_generic; try typeclasses eauto.
  - apply generic_format_round; typeclasses eauto.
  - apply round_UP_pt; typeclasses eauto.
Qed.
Lemma down_le_near r : rnd down r <= rnd near r.
Proof.
  cbn [round_mode]. apply round_ge_generic; try typeclasses eauto.
  - apply generic_format_round; typeclasses eauto.
  - apply round_DN_pt; typeclasses eauto.
Qed.

Lemma rounded_fin_val m r (f : fl) : rounded m r f -> Rabs (rnd m r) < big -> fin f /\ B2R f = rnd m r.
Proof. intros [[L [F E]]|[L E]]; auto. intros. lra. Qed.

Lemma near_between r l h (f u ml : fl) : rounded near r f -> fin u -> fin ml ->
  r <= h -> l <= r -> rounded up h u -> rounded up (- l) ml -> fin f /\ - B2R ml <= B2R f <= B2R u.
Proof.
  intros N Fu Fm H L U D. apply rounded_opp in D. assert (fin (fneg ml)) as Fd by (rewrite fneg_fin; auto).
  assert (rnd up h < big) as BU.
  { pose proof U as U0. destruct U as [[Q [_ _]]|[Q E]]; [apply Rabs_lt_inv in Q; lra|].
    destruct (Rlt_bool_spec h 0) as [S|S].
    - pose proof (round_sign_neg (prec:=prec) (emax:=emax) up h ltac:(lra)). pose proof (bpow_gt_0 radix2 emax). lra.
    - exfalso. cbn in E. destruct u; discriminate. }
  assert (- big < rnd down l) as BD.
  { destruct D as [[Q [_ _]]|[Q E]]; [apply Rabs_lt_inv in Q; lra|].
    destruct (Rlt_bool_spec l 0) as [S|S].
    - exfalso. cbn in E. destruct (fneg ml); discriminate.
    - pose proof (round_sign_pos (prec:=prec) (emax:=emax) down l ltac:(lra)). pose proof (bpow_gt_0 radix2 emax). lra. }
  pose proof (near_le_up r). pose proof (down_le_near r).
  pose proof (rnd_le up _ _ H). pose proof (rnd_le down _ _ L).
  destruct (rounded_fin_val _ _ _ N) as [Ff Ef]; [apply Rabs_lt; lra|]. split; auto.
  assert (rnd up h <= B2R u) as Q1.
  { destruct U as [[Q [_ ->]]|[Q E]]; [lra|].
    pose proof (proj1 (above_finite _ _ Fu) (rounded_up_above h u (or_intror (conj Q E)))).
    assert (rnd up h <= - big) as M by (destruct (Rle_or_lt 0 (rnd up h)); [rewrite Rabs_pos_eq in Q by lra; lra | rewrite Rabs_left in Q by lra; lra]).
    pose proof (abs_B2R_lt_emax _ _ u) as Z. apply Rabs_lt_inv in Z. lra. }
  assert (- B2R ml <= rnd down l) as Q2.
  { rewrite fneg_fin in Fd. destruct D as [[Q [_ E]]|[Q E]]; [rewrite fneg_val in E; lra|].
    assert (big <= rnd down l) as M by (destruct (Rle_or_lt 0 (rnd down l)); [rewrite Rabs_pos_eq in Q by lra; lra | rewrite Rabs_left in Q by lra; lra]).
    pose proof (abs_B2R_lt_emax _ _ ml) as Z. apply Rabs_lt_inv in Z. lra. }
  lra.
Qed.

Lemma between_ok s (rv u ml : fl) : fin (fhlf up (fadd up u ml)) -> fin rv ->
  - B2R ml <= B2R rv <= B2R u -> - B2R ml <= s <= B2R u ->
  Rabs (s - B2R rv) <= 2 * B2R (fhlf up (fadd up u ml)) /\ 0 <= B2R (fhlf up (fadd up u ml)).
Proof.
  intros F Fv H S. pose proof (fhlf_fin _ _ F) as FA.
  pose proof (fhlf_up_ge up _ F (or_introl eq_refl)). pose proof (fadd_up_ge _ _ FA).
  split; [|lra]. apply Rabs_le. lra.
Qed.

Lemma fma_err_ok (x y z e : fl) : err_ok 2 (B2R x * B2R y + B2R z) (fst (fma_err x y z e)) e (snd (fma_err x y z e)).
Proof.
  unfold fma_err; cbn [fst snd]. apply acc_ok; [lra|]. intros F.
  pose proof (fhlf_fin _ _ F) as FA. destruct (fadd_fin _ _ _ FA) as [Fu Fm].
  destruct (fadd_fin _ _ _ Fu) as [Fp Fz]. destruct (fsub_fin _ _ _ Fm) as [Fq _]. destruct (fmul_fin _ _ _ Fp) as [Fx Fy].
  assert (fin (fneg y)) as Fny by (rewrite fneg_fin; auto).
  pose proof (fmul_rounded near x y Fx Fy) as RN.
  pose proof (fmul_rounded up x y Fx Fy) as RU.
  pose proof (fmul_rounded up x (fneg y) Fx Fny) as RD.
  assert (rounded up (- (B2R x * B2R y)) (fmul up x (fneg y))) as RD'.
  { replace (- (B2R x * B2R y)) with (B2R x * B2R (fneg y)) by (rewrite fneg_val; ring). auto. }
  destruct (near_between _ _ _ _ _ _ RN Fp Fq (Rle_refl _) (Rle_refl _) RU RD') as [Fn Bn].
  pose proof (fmul_up_ge _ _ Fp) as P1. pose proof (fmul_up_ge _ _ Fq) as P2. rewrite fneg_val in P2.
  assert (rounded up (- (- B2R (fmul up x (fneg y)) + B2R z)) (fsub up (fmul up x (fneg y)) z)) as RL.
  { replace (- (- B2R (fmul up x (fneg y)) + B2R z)) with (B2R (fmul up x (fneg y)) - B2R z) by ring. apply fsub_rounded; auto. }
  destruct (near_between (B2R (fmul near x y) + B2R z) (- B2R (fmul up x (fneg y)) + B2R z) (B2R (fmul up x y) + B2R z)
              _ _ _ (fadd_rounded near _ _ Fn Fz) Fu Fm) as [Fv Bv]; auto; try lra.
  { apply fadd_rounded; auto. }
  split; auto. pose proof (fadd_up_ge _ _ Fu). pose proof (fsub_up_ge _ _ Fm).
  apply between_ok; auto. lra.
Qed.

(** ** The middle of the bounds lies between them *)
Lemma double_format r : generic_format radix2 fexp r -> generic_format radix2 fexp (2 * r).
Proof.
  intros G. destruct (Req_dec r 0) as [->|NZ]; [rewrite Rmult_0_r; apply generic_format_0|].
  pose proof G as G0. unfold generic_format in G.
  set (c := cexp radix2 fexp r) in *. set (z := Ztrunc (scaled_mantissa radix2 fexp r)) in *.
  assert (2 * r = F2R (Float radix2 z (c + 1))) as E.
  { rewrite G. unfold F2R; cbn [Fnum Fexp]. rewrite bpow_plus. cbn. ring. }
  rewrite E. apply generic_format_F2R. intros _. rewrite <- E.
  unfold c, cexp. replace (2 * r) with (r * bpow radix2 1) by (cbn; ring). rewrite mag_mult_bpow by auto.
  unfold SpecFloat.fexp. lia.
Qed.
Lemma format_B2R (x : fl) : generic_format radix2 fexp (B2R x).
Proof. apply generic_format_B2R. Qed.
Lemma rnd_format m r : generic_format radix2 fexp r -> rnd m r = r.
Proof. apply round_generic. typeclasses eauto. Qed.

Lemma b_value_between (c : bnd) : fin (b_value c) -> B2R (b_l c) <= B2R (b_u c) ->
  finite_bounds c /\ B2R (b_l c) <= B2R (b_value c) <= B2R (b_u c).
Proof.
  intros F L. unfold b_value, fmed in *. pose proof (fhlf_fin _ _ F) as FA. destruct (fadd_fin _ _ _ FA) as [Fl Fu].
  split; [split; auto|].
  assert (B2R (fadd near (b_l c) (b_u c)) = rnd near (B2R (b_l c) + B2R (b_u c))) as E1.
  { destruct (fadd_rounded near _ _ Fl Fu) as [[_ [_ E]]|[_ E]]; auto.
    exfalso. cbn in E. destruct fadd; try discriminate. }
  pose proof (rnd_le near (2 * B2R (b_l c)) (B2R (b_l c) + B2R (b_u c)) ltac:(lra)) as M1.
  pose proof (rnd_le near (B2R (b_l c) + B2R (b_u c)) (2 * B2R (b_u c)) ltac:(lra)) as M2.
  rewrite (rnd_format near (2 * B2R (b_l c))) in M1 by (apply double_format, format_B2R).
  rewrite (rnd_format near (2 * B2R (b_u c))) in M2 by (apply double_format, format_B2R).
  set (a := fadd near (b_l c) (b_u c)) in *.
  assert (B2R (fhlf near a) = rnd near (B2R a / 2)) as E2.
  { unfold fhlf in *. assert (B2R (ftwo : fl) <> 0) as T by (rewrite (proj1 ftwo_val); lra).
    pose proof (fdiv_rounded near a ftwo FA T) as D. rewrite (proj1 ftwo_val) in D.
    destruct D as [[_ [_ E]]|[_ E]]; auto. exfalso. cbn in E. destruct fdiv; try discriminate. }
  rewrite E2.
  pose proof (rnd_le near (B2R (b_l c)) (B2R a / 2) ltac:(lra)) as M3.
  pose proof (rnd_le near (B2R a / 2) (B2R (b_u c)) ltac:(lra)) as M4.
  rewrite rnd_format in M3 by apply format_B2R. rewrite (rnd_format near (B2R (b_u c))) in M4 by apply format_B2R. lra.
Qed.

(** A point: the value is the point itself unless doubling it overflows. *)
Lemma b_value_point (q : fl) : fin q -> 2 * Rabs (B2R q) < big -> fin (b_value (b_of q)) /\ B2R (b_value (b_of q)) = B2R q.
Proof.
  intros F B. unfold b_value, fmed, b_of; cbn [b_l b_u].
  pose proof (fadd_rounded near q q F F) as A. replace (B2R q + B2R q) with (2 * B2R q) in A by ring.
  assert (rnd near (2 * B2R q) = 2 * B2R q) as E by (apply rnd_format, double_format, format_B2R).
  destruct (rounded_fin_val _ _ _ A) as [FA EA].
  { rewrite E, Rabs_mult, Rabs_pos_eq by lra. auto. }
  rewrite E in EA.
  assert (B2R (ftwo : fl) <> 0) as T by (rewrite (proj1 ftwo_val); lra).
  pose proof (fdiv_rounded near _ ftwo FA T) as D. rewrite (proj1 ftwo_val), EA in D.
  replace (2 * B2R q / 2) with (B2R q) in D by field.
  destruct (rounded_fin_val _ _ _ D) as [FD ED].
  { rewrite rnd_format by apply format_B2R. pose proof (Rabs_pos (B2R q)). lra. }
  rewrite rnd_format in ED by apply format_B2R. unfold fhlf. auto.
Qed.

Lemma finite_contains (c : bnd) v : finite_bounds c -> contains c v -> B2R (b_l c) <= v <= B2R (b_u c).
Proof. intros [F1 F2] [A B]. apply (proj1 (below_finite _ _ F1)) in A. apply (proj1 (above_finite _ _ F2)) in B. lra. Qed.

Lemma add_err_b_ok (x : fl) (c : bnd) v e : fin (b_value c) -> contains c v ->
  err_ok 2 (B2R x + v) (fst (add_err_b x c e)) e (snd (add_err_b x c e)).
Proof.
  intros Fc C. unfold add_err_b; cbn [fst snd]. apply acc_ok; [lra|]. intros F.
  pose proof (fhlf_fin _ _ F) as FA. destruct (fadd_fin _ _ _ FA) as [Fu Fm].
  destruct (fadd_fin _ _ _ Fu) as [Fx Fcu]. destruct (fsub_fin _ _ _ Fm) as [Fnx Fcl].
  destruct (finite_contains c v (conj Fcl Fcu) C) as [C1 C2].
  destruct (b_value_between c Fc ltac:(lra)) as [_ B].
  assert (rounded up (- (B2R x + B2R (b_l c))) (fsub up (fneg x) (b_l c))) as RL.
  { replace (- (B2R x + B2R (b_l c))) with (B2R (fneg x) - B2R (b_l c)) by (rewrite fneg_val; ring). apply fsub_rounded; auto. }
  destruct (near_between (B2R x + B2R (b_value c)) (B2R x + B2R (b_l c)) (B2R x + B2R (b_u c)) _ _ _
     (fadd_rounded near _ _ Fx Fc) Fu Fm) as [Fv Bv]; auto; try lra.
  { apply fadd_rounded; auto. }
  split; auto. pose proof (fadd_up_ge _ _ Fu). pose proof (fsub_up_ge _ _ Fm). rewrite fneg_val in *. apply between_ok; auto. lra.
Qed.
Lemma add_err_b_point (x q e : fl) : fin q -> 2 * Rabs (B2R q) < big ->
  err_ok 1 (B2R x + B2R q) (fst (add_err_b x (b_of q) e)) e (snd (add_err_b x (b_of q) e)).
Proof.
  intros Fq Q. destruct (b_value_point q Fq Q) as [Fc Ec].
  unfold add_err_b; cbn [fst snd b_of b_l b_u]. apply acc_ok1. intros F.
  pose proof (fhlf_fin _ _ F) as FA. destruct (fadd_fin _ _ _ FA) as [Fu Fm]. destruct (fadd_fin _ _ _ Fu) as [Fx Fy].
  apply gap; auto; try (apply fadd_rounded; auto).
  - rewrite <- Ec. apply fadd_rounded; auto.
  - replace (- (B2R x + B2R q)) with (B2R (fneg x) - B2R q) by (rewrite fneg_val; ring).
    apply fsub_rounded; auto. rewrite fneg_fin; auto.
Qed.

Lemma mul_mono_pos x a b : 0 <= x -> a <= b -> x * a <= x * b.
Proof. intros. apply Rmult_le_compat_l; auto. Qed.
Lemma mul_mono_neg x a b : x <= 0 -> a <= b -> x * b <= x * a.
Proof. intros. nra. Qed.
Lemma mul_err_b_ok (x : fl) (c : bnd) v e : fin (b_value c) -> contains c v ->
  err_ok 2 (B2R x * v) (fst (mul_err_b x c e)) e (snd (mul_err_b x c e)).
Proof.
  intros Fc C. unfold mul_err_b. destruct (ge0 x) eqn:G; cbn [fst snd]; apply acc_ok; try lra; intros F;
  pose proof (fhlf_fin _ _ F) as FA; destruct (fadd_fin _ _ _ FA) as [Fu Fm].
  - destruct (fmul_fin _ _ _ Fu) as [Fx Fcu]. destruct (fmul_fin _ _ _ Fm) as [_ Fncl].
    pose proof Fncl as Fcl. rewrite fneg_fin in Fcl. apply (proj1 (ge0_finite _ Fx)) in G.
    destruct (finite_contains c v (conj Fcl Fcu) C) as [C1 C2].
    destruct (b_value_between c Fc ltac:(lra)) as [_ B].
    assert (rounded up (- (B2R x * B2R (b_l c))) (fmul up x (fneg (b_l c)))) as RL.
    { replace (- (B2R x * B2R (b_l c))) with (B2R x * B2R (fneg (b_l c))) by (rewrite fneg_val; ring). apply fmul_rounded; auto. }
    destruct (near_between (B2R x * B2R (b_value c)) (B2R x * B2R (b_l c)) (B2R x * B2R (b_u c)) _ _ _
     (fmul_rounded near _ _ Fx Fc) Fu Fm) as [Fv Bv]; auto; try (apply mul_mono_pos; lra).
    { apply fmul_rounded; auto. }
    split; auto. pose proof (fmul_up_ge _ _ Fu). pose proof (fmul_up_ge _ _ Fm). rewrite fneg_val in *. apply between_ok; auto.
    pose proof (mul_mono_pos _ _ _ G C1). pose proof (mul_mono_pos _ _ _ G C2). lra.
  - destruct (fmul_fin _ _ _ Fu) as [Fx Fcl]. destruct (fmul_fin _ _ _ Fm) as [_ Fncu].
    pose proof Fncu as Fcu. rewrite fneg_fin in Fcu.
    assert (B2R x <= 0) as G'. { destruct (Rle_or_lt (B2R x) 0); auto. assert (ge0 x = true) by (apply ge0_finite; auto; lra). congruence. }
    destruct (finite_contains c v (conj Fcl Fcu) C) as [C1 C2].
    destruct (b_value_between c Fc ltac:(lra)) as [_ B].
    assert (rounded up (- (B2R x * B2R (b_u c))) (fmul up x (fneg (b_u c)))) as RL.
    { replace (- (B2R x * B2R (b_u c))) with (B2R x * B2R (fneg (b_u c))) by (rewrite fneg_val; ring). apply fmul_rounded; auto. }
    destruct (near_between (B2R x * B2R (b_value c)) (B2R x * B2R (b_u c)) (B2R x * B2R (b_l c)) _ _ _
     (fmul_rounded near _ _ Fx Fc) Fu Fm) as [Fv Bv]; auto; try (apply mul_mono_neg; lra).
    { apply fmul_rounded; auto. }
    split; auto. pose proof (fmul_up_ge _ _ Fu). pose proof (fmul_up_ge _ _ Fm). rewrite fneg_val in *. apply between_ok; auto.
    pose proof (mul_mono_neg _ _ _ G' C1). pose proof (mul_mono_neg _ _ _ G' C2). lra.
Qed.
Lemma mul_err_b_point (x q e : fl) : fin q -> 2 * Rabs (B2R q) < big ->
  err_ok 1 (B2R x * B2R q) (fst (mul_err_b x (b_of q) e)) e (snd (mul_err_b x (b_of q) e)).
Proof.
  intros Fq Q. destruct (b_value_point q Fq Q) as [Fc Ec].
  unfold mul_err_b; cbn [b_of b_l b_u]. destruct (ge0 x); cbn [fst snd]; apply acc_ok1; intros F;
  pose proof (fhlf_fin _ _ F) as FA; destruct (fadd_fin _ _ _ FA) as [Fu Fm]; destruct (fmul_fin _ _ _ Fu) as [Fx Fy];
  (apply gap; auto; try (apply fmul_rounded; auto);
   [ rewrite <- Ec; apply fmul_rounded; auto
   | replace (- (B2R x * B2R q)) with (B2R x * B2R (fneg q)) by (rewrite fneg_val; ring);
     apply fmul_rounded; auto; rewrite fneg_fin; auto ]).
Qed.
End Err.

(** ** Polynomials on the unit box *)
Section Tm.
Context {prec emax : Z}
        {Hprec : Prec_gt_0 prec} {Hemax : Prec_lt_emax prec emax}.
Notation fl := (binary_float prec emax).
Notation bnd := (bounds prec emax).
Notation fin x := (is_finite x = true).
Notation rpoly := (poly 0 1 Rplus Rmult).
Notation rmonom := (monom 1 Rmult).
Notation allfin p := (Forall (fun m => is_finite (snd m) = true) p).
Notation unit_pt x := (Forall (fun t => -1 <= t <= 1) x).

Lemma power_unit t n : -1 <= t <= 1 -> Rabs (power 1 Rmult t n) <= 1.
Proof.
  intros T. induction n; cbn.
  - rewrite Rabs_R1. lra.
  - rewrite Rabs_mult. assert (Rabs t <= 1) by (apply Rabs_le; lra).
    pose proof (Rabs_pos t). pose proof (Rabs_pos (power 1 Rmult t n)). nra.
Qed.
Lemma monom_unit a : forall x, unit_pt x -> Rabs (rmonom a x) <= 1.
Proof.
  induction a as [|n a IH]; intros x U; cbn; [rewrite Rabs_R1; lra|].
  destruct x as [|t x]; [rewrite Rabs_R1; lra|]. inversion_clear U as [|? ? H0 H1]. rewrite Rabs_mult.
  pose proof (power_unit t (N.to_nat n) H0). pose proof (IH x H1).
  pose proof (Rabs_pos (power 1 Rmult t (N.to_nat n))). pose proof (Rabs_pos (rmonom a x)). nra.
Qed.
Lemma term_unit c a x : unit_pt x -> Rabs (c * rmonom a x) <= Rabs c.
Proof.
  intros U. rewrite Rabs_mult. pose proof (monom_unit a x U). pose proof (Rabs_pos c). pose proof (Rabs_pos (rmonom a x)). nra.
Qed.

Lemma peval_cons a (c : fl) p x : peval ((a, c) :: p) x = B2R c * rmonom a x + peval p x.
Proof. reflexivity. Qed.
Lemma peval_nil x : peval ([] : list (mi * fl)) x = 0.
Proof. reflexivity. Qed.
Lemma peval_app (p q : list (mi * fl)) x : peval (p ++ q) x = peval p x + peval q x.
Proof. induction p as [|[a c] p IH]; cbn [app]; rewrite ?peval_cons, ?peval_nil; [ring|]. rewrite IH. ring. Qed.

Lemma abs_step (d1 d2 r1 r2 : R) : Rabs d1 <= r1 -> Rabs d2 <= r2 -> Rabs (d1 + d2) <= r1 + r2.
Proof. intros. pose proof (Rabs_triang d1 d2). lra. Qed.

(** ** Applying an operation to every coefficient *)
Lemma apply_terms_ok k s (op : fl -> fl -> fl * fl) : 0 <= k ->
  (forall c e, fin c -> err_ok k (s * B2R c) (fst (op c e)) e (snd (op c e))) ->
  forall p e, allfin p -> fin (snd (apply_terms op p e)) ->
  fin e /\ B2R e <= B2R (snd (apply_terms op p e)) /\ allfin (fst (apply_terms op p e)) /\
  forall x, unit_pt x -> Rabs (s * peval p x - peval (fst (apply_terms op p e)) x) <= k * (B2R (snd (apply_terms op p e)) - B2R e).
Proof.
  intros K O. induction p as [|[a c] p IH]; intros e A F; cbn [apply_terms] in *.
  - cbn [fst snd] in *. split; [auto|]. split; [lra|]. split; [constructor|]. intros x _. rewrite peval_nil.
    replace (s * 0 - 0) with 0 by ring. rewrite Rabs_R0. lra.
  - inversion_clear A as [|? ? A0 A1]. cbn [snd] in A0. specialize (O c e A0).
    destruct (op c e) as [v e1]. cbn [fst snd] in O. specialize (IH e1 A1).
    destruct (apply_terms op p e1) as [q e2]. cbn [fst snd] in *.
    destruct (IH F) as (F1 & L1 & Q1 & B1). destruct (O F1) as (Fv & Fe & Bv & Le).
    split; auto. split; [lra|]. split; [constructor; auto|]. intros x U. rewrite !peval_cons.
    pose proof (term_unit (s * B2R c - B2R v) a x U). specialize (B1 x U).
    replace (s * (B2R c * rmonom a x + peval p x) - (B2R v * rmonom a x + peval q x))
      with ((s * B2R c - B2R v) * rmonom a x + (s * peval p x - peval q x)) by ring.
    apply Rle_trans with (k * (B2R e1 - B2R e) + k * (B2R e2 - B2R e1)); [|lra]. apply abs_step; auto; lra.
Qed.
Lemma apply_terms_keys op p : forall e, map fst (fst (apply_terms op p e)) = map fst (p : list (mi * fl)).
Proof.
  induction p as [|[a c] p IH]; intros e; cbn; auto. destruct (op c e) as [v e1].
  specialize (IH e1). destruct (apply_terms op p e1). cbn in *. congruence.
Qed.

(** ** Merging two expansions *)
Lemma merge_ok s (op : fl -> fl -> fl -> fl * fl) (g : fl -> fl) :
  (forall c d e, err_ok 1 (B2R c + s * B2R d) (fst (op c d e)) e (snd (op c d e))) ->
  (forall d, fin d -> fin (g d) /\ B2R (g d) = s * B2R d) ->
  forall n (p q : list (mi * fl)) e, sized n p -> sized n q -> allfin p -> allfin q -> fin (snd (merge op g p q e)) ->
  fin e /\ B2R e <= B2R (snd (merge op g p q e)) /\ allfin (fst (merge op g p q e)) /\
  forall x, unit_pt x -> Rabs (peval p x + s * peval q x - peval (fst (merge op g p q e)) x) <= B2R (snd (merge op g p q e)) - B2R e.
Proof.
  intros O G.
  assert (forall q : list (mi * fl), allfin q -> allfin (map (fun m => (fst m, g (snd m))) q) /\
            forall x, peval (map (fun m => (fst m, g (snd m))) q) x = s * peval q x) as GM.
  { induction q as [|[a d] q IH]; intros A; cbn [map fst snd].
    - split; [constructor|]. intros x. rewrite peval_nil. ring.
    - inversion_clear A as [|? ? A0 A1]. cbn [snd] in A0. destruct (IH A1) as [I1 I2]. destruct (G d A0) as [G1 G2]. split; [constructor; auto|].
      intros x. rewrite !peval_cons, I2, G2. ring. }
  intros n. induction p as [|[xa xv] p IHp].
  - intros q e _ _ _ A F. cbn [merge fst snd] in *. destruct (GM q A) as [I1 I2].
    split; auto. split; [lra|]. split; auto. intros x _. rewrite I2, peval_nil.
    replace (0 + s * peval q x - s * peval q x) with 0 by ring. rewrite Rabs_R0. lra.
  - induction q as [|[ya yv] q IHq]; intros e Sp Sq A B F.
    + cbn [merge fst snd] in *. split; auto. split; [lra|]. split; auto. intros x _. rewrite peval_nil.
      replace (peval ((xa, xv) :: p) x + s * 0 - peval ((xa, xv) :: p) x) with 0 by ring. rewrite Rabs_R0. lra.
    + inversion_clear A as [|? ? A0 A1]. inversion_clear B as [|? ? B0 B1]. cbn [snd] in A0, B0.
      inversion_clear Sp as [|? ? S0 S1]. inversion_clear Sq as [|? ? T0 T1]. cbn [fst] in S0, T0.
      cbn [merge] in F |- *. destruct (reverse_lexicographic_less xa ya) eqn:L1.
      * specialize (IHp ((ya, yv) :: q) e S1 ltac:(constructor; auto) A1 ltac:(constructor; auto)).
        destruct (merge op g p ((ya, yv) :: q) e) as [t e']. cbn [fst snd] in *.
        destruct (IHp F) as (F1 & Le1 & Q1 & I). split; auto. split; auto. split; [constructor; auto|].
        intros x U. specialize (I x U). rewrite !peval_cons in *.
        match goal with |- Rabs ?a <= _ => match type of I with Rabs ?b <= _ => replace a with b by ring end end. auto.
      * destruct (reverse_lexicographic_less ya xa) eqn:L2.
        -- specialize (IHq e ltac:(constructor; auto) T1 ltac:(constructor; auto) B1). cbn [merge] in IHq.
           match goal with H : context [let '(_, _) := ?m in _] |- _ => destruct m as [t e'] end. cbn [fst snd] in *.
           destruct (IHq F) as (F1 & Le1 & Q1 & I). destruct (G yv B0) as [G1 G2]. split; auto. split; auto. split; [constructor; auto|].
           intros x U. specialize (I x U). rewrite !peval_cons in *. rewrite G2.
           match goal with |- Rabs ?a <= _ => match type of I with Rabs ?b <= _ => replace a with b by ring end end. auto.
        -- pose proof (O xv yv e) as Oe. destruct (op xv yv e) as [v e1]. cbn [fst snd] in Oe.
           specialize (IHp q e1 S1 T1 A1 B1). destruct (merge op g p q e1) as [t e2]. cbn [fst snd] in *.
           destruct (IHp F) as (F1 & Le1 & Q1 & I). destruct (Oe F1) as (Fv & Fe & Bv & Le).
           split; auto. split; [lra|]. split; [constructor; auto|].
           assert (xa = ya) as <-.
           { destruct (list_eq_dec N.eq_dec xa ya); auto. rewrite (less_total n _ (reverse_order n) xa ya) in L2; auto; discriminate. }
           intros x U. specialize (I x U). rewrite !peval_cons.
           pose proof (term_unit (B2R xv + s * B2R yv - B2R v) xa x U).
           replace (B2R xv * rmonom xa x + peval p x + s * (B2R yv * rmonom xa x + peval q x) - (B2R v * rmonom xa x + peval t x))
             with ((B2R xv + s * B2R yv - B2R v) * rmonom xa x + (peval p x + s * peval q x - peval t x)) by ring.
           apply Rle_trans with ((B2R e1 - B2R e) + (B2R e2 - B2R e1)); [|lra]. apply abs_step; auto; lra.
Qed.

Definition keys_lt (a b : mi) : Prop := reverse_lexicographic_less a b = true.
Lemma sorted_keys (p : list (mi * fl)) : sorted reverse_lexicographic_less p <-> StronglySorted keys_lt (map fst p).
Proof.
  unfold sorted. induction p as [|m p IH]; cbn; [split; constructor|].
  split; intros S; apply StronglySorted_inv in S; destruct S as [S H]; constructor; try (apply IH; auto).
  - rewrite Forall_map. eapply Forall_impl; [|exact H]. auto.
  - rewrite Forall_map in H. eapply Forall_impl; [|exact H]. auto.
Qed.
Lemma sized_keys n (p : list (mi * fl)) : sized n p <-> Forall (fun a => length a = n) (map fst p).
Proof. unfold sized. rewrite Forall_map. tauto. Qed.
Lemma keys_trans n a b c : length a = n -> length b = n -> length c = n -> keys_lt a b -> keys_lt b c -> keys_lt a c.
Proof. unfold keys_lt. intros A B C. destruct (reverse_order n) as (_ & T & _). apply T; auto. Qed.

Lemma merge_forall op g (P : mi -> Prop) : forall (p q : list (mi * fl)) e, Forall P (map fst p) -> Forall P (map fst q) ->
  Forall P (map fst (fst (merge op g p q e))).
Proof.
  induction p as [|[xa xv] p IHp].
  - intros q e _ HQ. cbn [merge fst]. rewrite map_map. auto.
  - induction q as [|[ya yv] q IHq]; intros e HP HQ; [cbn [merge fst]; auto|].
    cbn [map fst] in *. inversion_clear HP as [|? ? P0 P1]. inversion_clear HQ as [|? ? Q0 Q1].
    cbn [merge]. destruct (reverse_lexicographic_less xa ya).
    + specialize (IHp ((ya, yv) :: q) e P1 ltac:(constructor; auto)). destruct (merge op g p ((ya, yv) :: q) e). constructor; auto.
    + destruct (reverse_lexicographic_less ya xa).
      * specialize (IHq e ltac:(constructor; auto) Q1). cbn [merge] in IHq.
        match goal with H : context [fst ?m] |- context [let '(_, _) := ?m in _] => destruct m end. constructor; auto.
      * destruct (op xv yv e) as [v e1]. specialize (IHp q e1 P1 Q1). destruct (merge op g p q e1). constructor; auto.
Qed.
Lemma keys_head n a (p : list (mi * fl)) : Forall (fun b => length b = n /\ keys_lt a b) (map fst p) ->
  forall c, sorted reverse_lexicographic_less p -> sorted reverse_lexicographic_less ((a, c) :: p).
Proof.
  intros H c S. constructor; auto. rewrite Forall_map in H. eapply Forall_impl; [|exact H]. cbn. tauto.
Qed.
Lemma sorted_tail n a c (p : list (mi * fl)) : sized n p -> sorted reverse_lexicographic_less ((a, c) :: p) ->
  sorted reverse_lexicographic_less p /\ Forall (fun b => length b = n /\ keys_lt a b) (map fst p).
Proof.
  intros Z S. apply StronglySorted_inv in S. destruct S as [S H]. split; auto. rewrite Forall_map.
  apply Forall_and; auto.
Qed.
Lemma lt_all n a b (p : list (mi * fl)) : length a = n -> length b = n -> keys_lt a b ->
  Forall (fun d => length d = n /\ keys_lt b d) (map fst p) -> Forall (fun d => length d = n /\ keys_lt a d) (map fst p).
Proof.
  intros A B L H. eapply Forall_impl; [|exact H]. cbn. intros d [D K]. split; auto. apply keys_trans with n b; auto.
Qed.

Lemma merge_sorted op g n : forall (p q : list (mi * fl)) e, sized n p -> sized n q ->
  sorted reverse_lexicographic_less p -> sorted reverse_lexicographic_less q ->
  sorted reverse_lexicographic_less (fst (merge op g p q e)).
Proof.
  induction p as [|[xa xv] p IHp].
  - intros q e _ _ _. cbn [merge fst]. rewrite !sorted_keys, map_map. auto.
  - induction q as [|[ya yv] q IHq]; intros e Zp Zq Sp Sq; [cbn [merge fst]; auto|].
    pose proof Sp as Sp0. pose proof Sq as Sq0.
    pose proof Zp as Zp0. pose proof Zq as Zq0.
    inversion_clear Zp as [|? ? Z0 Z1]. inversion_clear Zq as [|? ? Y0 Y1]. cbn [fst] in Z0, Y0.
    destruct (sorted_tail n _ _ _ Z1 Sp) as [Sp1 Hp]. destruct (sorted_tail n _ _ _ Y1 Sq) as [Sq1 Hq].
    cbn [merge]. destruct (reverse_lexicographic_less xa ya) eqn:L1.
    + pose proof (merge_forall op g (fun b => length b = n /\ keys_lt xa b) p ((ya, yv) :: q) e Hp) as M.
      specialize (IHp ((ya, yv) :: q) e Z1 Zq0 Sp1 Sq0). destruct (merge op g p ((ya, yv) :: q) e) as [t e']. cbn [fst] in *.
      apply keys_head with n; auto. apply M. cbn [map fst]. constructor; auto. apply lt_all with ya; auto.
    + destruct (reverse_lexicographic_less ya xa) eqn:L2.
      * pose proof (merge_forall op g (fun b => length b = n /\ keys_lt ya b) ((xa, xv) :: p) q e) as M.
        specialize (IHq e Zp0 Y1 Sp0 Sq1). cbn [merge] in IHq, M.
        match goal with H : context [fst ?m] |- context [let '(_, _) := ?m in _] => destruct m as [t e'] end. cbn [fst] in *.
        apply keys_head with n; auto. apply M; auto. cbn [map fst]. constructor; auto. apply lt_all with xa; auto.
      * assert (xa = ya) as <-.
        { destruct (list_eq_dec N.eq_dec xa ya); auto. rewrite (less_total n _ (reverse_order n) xa ya) in L2; auto; discriminate. }
        destruct (op xv yv e) as [v e1].
        pose proof (merge_forall op g (fun b => length b = n /\ keys_lt xa b) p q e1 Hp Hq) as M.
        specialize (IHp q e1 Z1 Y1 Sp1 Sq1). destruct (merge op g p q e1) as [t e2]. cbn [fst] in *. apply keys_head with n; auto.
Qed.

(** ** Sweeping *)
Lemma sweep_terms_ok (d : mi -> fl -> bool) : forall (p : list (mi * fl)) te, allfin p -> fin (snd (sweep_terms d p te)) ->
  fin te /\ B2R te <= B2R (snd (sweep_terms d p te)) /\ allfin (fst (sweep_terms d p te)) /\
  forall x, unit_pt x -> Rabs (peval p x - peval (fst (sweep_terms d p te)) x) <= B2R (snd (sweep_terms d p te)) - B2R te.
Proof.
  induction p as [|[a c] p IH]; intros te A F; cbn [sweep_terms] in *.
  - cbn [fst snd] in *. split; auto. split; [lra|]. split; auto. intros x _. rewrite Rminus_diag_eq by reflexivity. rewrite Rabs_R0. lra.
  - inversion_clear A as [|? ? A0 A1]. cbn [snd] in A0. destruct (d a c).
    + destruct (IH _ A1 F) as (F1 & L1 & Q1 & I). destruct (fadd_fin _ _ _ F1) as [Ft _].
      pose proof (fadd_up_ge _ _ F1) as G. rewrite fabs_val in G. pose proof (Rabs_pos (B2R c)).
      split; auto. split; [lra|]. split; auto. intros x U. specialize (I x U). rewrite peval_cons.
      pose proof (term_unit (B2R c) a x U).
      replace (B2R c * rmonom a x + peval p x - peval (fst (sweep_terms d p (fadd up te (fabs c)))) x)
        with (B2R c * rmonom a x + (peval p x - peval (fst (sweep_terms d p (fadd up te (fabs c)))) x)) by ring.
      eapply Rle_trans; [apply abs_step; eassumption|]. lra.
    + specialize (IH te A1). destruct (sweep_terms d p te) as [q te']. cbn [fst snd] in *.
      destruct (IH F) as (F1 & L1 & Q1 & I). split; auto. split; auto. split; [constructor; auto|].
      intros x U. specialize (I x U). rewrite !peval_cons.
      replace (B2R c * rmonom a x + peval p x - (B2R c * rmonom a x + peval q x)) with (peval p x - peval q x) by ring. auto.
Qed.
Lemma sweep_incl (d : mi -> fl -> bool) : forall (p : list (mi * fl)) te m, In m (fst (sweep_terms d p te)) -> In m p.
Proof.
  induction p as [|[a c] p IH]; intros te m; cbn [sweep_terms]; auto. destruct (d a c).
  - intros H. right. eapply IH; eauto.
  - specialize (IH te). destruct (sweep_terms d p te). cbn [fst] in *. intros [E|H]; [left; auto|right; auto].
Qed.
Lemma sweep_sorted (d : mi -> fl -> bool) : forall (p : list (mi * fl)) te, sorted reverse_lexicographic_less p ->
  sorted reverse_lexicographic_less (fst (sweep_terms d p te)).
Proof.
  induction p as [|[a c] p IH]; intros te S; cbn [sweep_terms]; auto.
  apply StronglySorted_inv in S. destruct S as [S H]. destruct (d a c); auto.
  pose proof (sweep_incl d p te) as N. specialize (IH te S). destruct (sweep_terms d p te). cbn [fst] in *.
  constructor; auto. apply Forall_forall. intros m M. rewrite Forall_forall in H. apply H; auto.
Qed.

Lemma fzero_val : B2R (fzero : fl) = 0. Proof. reflexivity. Qed.
Lemma sweep_encl k n swp (t : tm prec emax) f : 1 <= k -> encl k n t f -> encl k n (sweep swp t) f.
Proof.
  intros K E F. unfold sweep in *. pose proof (sweep_terms_ok (swp (t_exp t) (t_err t)) (t_exp t) fzero) as O.
  destruct (sweep_terms _ _ _) as [q te]. cbn [t_exp t_err fst snd] in *.
  destruct (fadd_fin _ _ _ F) as [Fe Ft]. destruct (E Fe) as [A B]. destruct (O A Ft) as (_ & L & Q & I).
  split; auto. intros x [Lx U]. specialize (B x (conj Lx U)). specialize (I x U). rewrite fzero_val in *.
  pose proof (fadd_up_ge _ _ F).
  replace (f x - peval q x) with ((f x - peval (t_exp t) x) + (peval (t_exp t) x - peval q x)) by ring.
  eapply Rle_trans; [apply abs_step; eassumption|].
  apply Rle_trans with (k * (B2R (t_err t) + B2R te)); [|apply Rmult_le_compat_l; lra]. nra.
Qed.
Lemma sweep_wf n swp (t : tm prec emax) : well_formed n t -> well_formed n (sweep swp t).
Proof.
  intros [Z S]. unfold sweep. pose proof (sweep_incl (swp (t_exp t) (t_err t)) (t_exp t) fzero) as I.
  pose proof (sweep_sorted (swp (t_exp t) (t_err t)) (t_exp t) fzero S) as S'.
  destruct (sweep_terms _ _ _) as [q te]. cbn [fst] in *. split; cbn [t_exp]; auto.
  apply Forall_forall. intros m M. unfold sized in Z. rewrite Forall_forall in Z. apply Z; auto.
Qed.

(** Encloses-style wrappers *)
Lemma combine_encl (n : nat) k (p : list (mi * fl)) (e d : fl) f g :
  (fin e -> fin d -> allfin p /\ forall x, in_box n x -> Rabs (f x - g x) <= k * B2R e /\ Rabs (g x - peval p x) <= k * B2R d) ->
  0 <= k -> encl k n (mkTM p (fadd up e d)) f.
Proof.
  intros H K F. cbn [t_err t_exp] in *. destruct (fadd_fin _ _ _ F) as [Fe Fd]. destruct (H Fe Fd) as [A B]. split; auto.
  intros x X. destruct (B x X) as [B1 B2]. pose proof (fadd_up_ge _ _ F).
  replace (f x - peval p x) with ((f x - g x) + (g x - peval p x)) by ring.
  eapply Rle_trans; [apply abs_step; eassumption|]. rewrite <- Rmult_plus_distr_l. apply Rmult_le_compat_l; lra.
Qed.

Lemma merge_encl s op g n swp (x y : tm prec emax) f h :
  (forall c d e, err_ok 1 (B2R c + s * B2R d) (fst (op c d e)) e (snd (op c d e))) ->
  (forall d, fin d -> fin (g d) /\ B2R (g d) = s * B2R d) -> Rabs s = 1 ->
  sized n (t_exp x) -> sized n (t_exp y) -> encloses n x f -> encloses n y h ->
  encloses n (let '(q, e) := merge op g (t_exp x) (t_exp y) fzero in
              sweep swp (mkTM q (fadd up (fadd up fzero e) (fadd up (t_err x) (t_err y)))))
           (fun z => f z + s * h z).
Proof.
  intros O G S Zx Zy Ex Ey. pose proof (merge_ok s op g O G n (t_exp x) (t_exp y) fzero Zx Zy) as M.
  destruct (merge op g (t_exp x) (t_exp y) fzero) as [q e]. cbn [fst snd] in M.
  apply sweep_encl; [lra|]. intros F. cbn [t_exp t_err] in *.
  destruct (fadd_fin _ _ _ F) as [Fa Fb]. destruct (fadd_fin _ _ _ Fa) as [_ Fe]. destruct (fadd_fin _ _ _ Fb) as [Fx Fy].
  destruct (Ex Fx) as [Ax Bx]. destruct (Ey Fy) as [Ay By]. destruct (M Ax Ay Fe) as (_ & L & Q & I).
  split; auto. intros z Zz. specialize (Bx z Zz). specialize (By z Zz). specialize (I z (proj2 Zz)). rewrite fzero_val in *.
  pose proof (fadd_up_ge _ _ F). pose proof (fadd_up_ge _ _ Fa). pose proof (fadd_up_ge _ _ Fb). rewrite fzero_val in *.
  replace (f z + s * h z - peval q z) with (((f z - peval (t_exp x) z) + s * (h z - peval (t_exp y) z))
    + (peval (t_exp x) z + s * peval (t_exp y) z - peval q z)) by ring.
  apply Rle_trans with ((1 * B2R (t_err x) + 1 * B2R (t_err y)) + (B2R e - 0)); [|lra].
  apply abs_step; auto. apply abs_step; auto. rewrite Rabs_mult, S. lra.
Qed.
Lemma merge_wf op g n swp (x y : tm prec emax) : well_formed n x -> well_formed n y ->
  well_formed n (let '(q, e) := merge op g (t_exp x) (t_exp y) fzero in
              sweep swp (mkTM q (fadd up (fadd up fzero e) (fadd up (t_err x) (t_err y))))).
Proof.
  intros [Zx Sx] [Zy Sy]. pose proof (merge_sorted op g n _ _ fzero Zx Zy Sx Sy) as S.
  pose proof (merge_forall op g (fun a => length a = n) (t_exp x) (t_exp y) fzero) as P.
  rewrite sized_keys in Zx, Zy. specialize (P Zx Zy). destruct (merge _ _ _ _ _) as [q e]. cbn [fst] in *. apply sweep_wf.
  split; cbn [t_exp]; auto. apply sized_keys; auto.
Qed.

Lemma add_encl n swp (x y : tm prec emax) f g : sized n (t_exp x) -> sized n (t_exp y) -> encloses n x f -> encloses n y g ->
  encloses n (tm_add swp x y) (fun z => f z + g z).
Proof.
  intros Zx Zy Ex Ey.
  pose proof (merge_encl 1 add_err (fun v => v) n swp x y f g) as M. unfold tm_add.
  intros F. destruct M as [A B]; auto.
  - intros c d e. rewrite Rmult_1_l. apply add_err_ok.
  - intros d D. split; auto. ring.
  - apply Rabs_R1.
  - split; auto. intros z Z. specialize (B z Z). rewrite Rmult_1_l in B at 1. exact B.
Qed.
Lemma sub_encl n swp (x y : tm prec emax) f g : sized n (t_exp x) -> sized n (t_exp y) -> encloses n x f -> encloses n y g ->
  encloses n (tm_sub swp x y) (fun z => f z - g z).
Proof.
  intros Zx Zy Ex Ey.
  pose proof (merge_encl (-1) sub_err fneg n swp x y f g) as M. unfold tm_sub.
  intros F. destruct M as [A B]; auto.
  - intros c d e. replace (B2R c + -1 * B2R d) with (B2R c - B2R d) by ring. apply sub_err_ok.
  - intros d D. rewrite fneg_fin, fneg_val. split; auto. ring.
  - rewrite Rabs_left; lra.
  - split; auto. intros z Z. specialize (B z Z). replace (f z - g z) with (f z + -1 * g z) by ring. exact B.
Qed.

(** ** Negation and scaling *)
Lemma apply_encl k s op n (t : tm prec emax) (e0 : fl) f : 0 <= k ->
  (forall c e, fin c -> err_ok k (s * B2R c) (fst (op c e)) e (snd (op c e))) ->
  (fin e0 -> fin (t_err t) /\ Rabs s * B2R (t_err t) <= B2R e0) -> 1 <= k -> encloses n t f ->
  encl k n (sparse_apply op (mkTM (t_exp t) e0)) (fun z => s * f z).
Proof.
  intros K O S K1 E. unfold sparse_apply; cbn [t_exp t_err].
  pose proof (apply_terms_ok k s op K O (t_exp t) fzero) as M. destruct (apply_terms op (t_exp t) fzero) as [q e]. cbn [fst snd] in M.
  apply combine_encl with (g := fun z => s * peval (t_exp t) z); auto. intros F0 Fe.
  destruct (S F0) as [Ft St]. destruct (E Ft) as [A B]. destruct (M A Fe) as (_ & L & Q & I). split; auto.
  intros z Z. specialize (B z Z). specialize (I z (proj2 Z)). rewrite fzero_val in *. split; [|lra].
  rewrite <- Rmult_minus_distr_l, Rabs_mult. pose proof (Rabs_pos s).
  pose proof (Rabs_pos (f z - peval (t_exp t) z)).
  assert (Rabs s * Rabs (f z - peval (t_exp t) z) <= Rabs s * B2R (t_err t)) by (apply Rmult_le_compat_l; lra).
  assert (0 <= B2R e0) by nra. nra.
Qed.
Lemma apply_wf n op (t : tm prec emax) e : well_formed n t -> well_formed n (sparse_apply op (mkTM (t_exp t) e)).
Proof.
  intros [Z S]. unfold sparse_apply. cbn [t_exp t_err]. pose proof (apply_terms_keys op (t_exp t) fzero) as K.
  destruct (apply_terms _ _ _) as [q e']. cbn [fst] in K. split; cbn [t_exp].
  - apply sized_keys. rewrite K. apply sized_keys. auto.
  - apply sorted_keys. rewrite K. apply sorted_keys. auto.
Qed.
Lemma tm_eta (t : tm prec emax) : mkTM (t_exp t) (t_err t) = t. Proof. destruct t; auto. Qed.

Lemma neg_encl n (t : tm prec emax) f : encloses n t f -> encloses n (tm_neg t) (fun z => - f z).
Proof.
  intros E. unfold tm_neg. rewrite <- (tm_eta t).
  intros F. destruct (apply_encl 1 (-1) (fun c e => (fneg c, e)) n t (t_err t) f) as [A B]; auto; try lra.
  - intros c e Fc Fe. cbn [fst snd] in *. rewrite fneg_fin, fneg_val. repeat split; auto; try lra.
    replace (-1 * B2R c - - B2R c) with 0 by ring. rewrite Rabs_R0. lra.
  - intros Ft. split; auto. rewrite Rabs_left by lra. lra.
  - split; auto. intros z Z. replace (- f z) with (-1 * f z) by ring. apply B; auto.
Qed.
Lemma scal_encl n (t : tm prec emax) (c : fl) f : encloses n t f -> encloses n (tm_scal t c) (fun z => B2R c * f z).
Proof.
  intros E. apply apply_encl; auto; try lra.
  - intros v e Fv. rewrite (Rmult_comm (B2R c)). apply mul_err_ok.
  - intros F. destruct (fmul_fin _ _ _ F) as [Ft _]. split; auto. pose proof (fmul_up_ge _ _ F) as G. rewrite fabs_val in G. lra.
Qed.
Lemma scal_b_gen k n (t : tm prec emax) (c : bnd) v f : 1 <= k -> (forall x e, fin x -> err_ok k (v * B2R x) (fst (mul_err_b x c e)) e (snd (mul_err_b x c e))) ->
  contains c v -> encloses n t f -> encl k n (tm_scal_b t c) (fun z => v * f z).
Proof.
  intros K O C E. apply apply_encl; auto; try lra.
  intros F. destruct (fmul_fin _ _ _ F) as [Ft Fm]. split; auto.
  pose proof (fmul_up_ge _ _ F) as G. pose proof (b_mag_above c v C) as M. apply (proj1 (above_finite _ _ Fm)) in M.
  destruct (E Ft) as [_ B]. pose proof (B (repeat 0 n)) as B0.
  assert (in_box n (repeat 0 n)) as Z.
  { split; [apply repeat_length|]. apply Forall_forall. intros t0 H. apply repeat_spec in H. subst. lra. }
  specialize (B0 Z). pose proof (Rabs_pos (f (repeat 0 n) - peval (t_exp t) (repeat 0 n))). nra.
Qed.
End Tm.
