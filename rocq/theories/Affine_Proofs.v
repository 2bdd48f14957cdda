(** * Proofs about affine models *)

From Coq Require Import ZArith NArith Reals List Bool Lra Lia Sorted.
From Flocq Require Import Core IEEE754.BinarySingleNaN.
From Verif Require Import Float_Model Float_Spec Float_Proofs Bounds_Model Bounds_Spec Bounds_Proofs
  Ball_Model Ball_Spec Ball_Proofs ErrBound_Model ErrBound_Spec ErrBound_Proofs LRU_Model
  Poly_Model Poly_Spec Poly_Proofs Taylor_Model Taylor_Spec Taylor_Proofs Affine_Model Affine_Spec.
Import ListNotations.
Local Open Scope R_scope.

Section Aff.
Context {prec emax : Z}
        {Hprec : Prec_gt_0 prec} {Hemax : Prec_lt_emax prec emax}.
Notation fl := (binary_float prec emax).
Notation bnd := (bounds prec emax).
Notation fin x := (is_finite x = true).
Notation big := (bpow radix2 emax).

Lemma fin_zero : fin (fzero : fl). Proof. reflexivity. Qed.
Lemma val_zero : B2R (fzero : fl) = 0. Proof. reflexivity. Qed.

Lemma lin_err_ok (a1 b1 a2 b2 e : fl) :
  err_ok 2 (B2R a1 * B2R b2 + B2R b1 * B2R a2) (fst (lin_err a1 b1 a2 b2 e)) e (snd (lin_err a1 b1 a2 b2 e)).
Proof.
  unfold lin_err; cbn [fst snd]. apply acc_ok; [lra|]. intros F.
  pose proof (fhlf_fin _ _ F) as FA. destruct (fadd_fin _ _ _ FA) as [Fm Fu].
  destruct (fadd_fin _ _ _ Fu) as [Fp Fq]. destruct (fadd_fin _ _ _ Fm) as [Fp' Fq'].
  destruct (fmul_fin _ _ _ Fp) as [F1 F2]. destruct (fmul_fin _ _ _ Fq) as [F3 F4].
  assert (fin (fneg b2)) as Fn2 by (rewrite fneg_fin; auto).
  assert (fin (fneg b1)) as Fn1 by (rewrite fneg_fin; auto).
  assert (rounded up (- (B2R a1 * B2R b2)) (fmul up a1 (fneg b2))) as R1.
  { replace (- (B2R a1 * B2R b2)) with (B2R a1 * B2R (fneg b2)) by (rewrite fneg_val; ring). apply fmul_rounded; auto. }
  assert (rounded up (- (B2R b1 * B2R a2)) (fmul up (fneg b1) a2)) as R2.
  { replace (- (B2R b1 * B2R a2)) with (B2R (fneg b1) * B2R a2) by (rewrite fneg_val; ring). apply fmul_rounded; auto. }
  destruct (near_between _ _ _ _ _ _ (fmul_rounded near a1 b2 F1 F2) Fp Fp' (Rle_refl _) (Rle_refl _) (fmul_rounded up a1 b2 F1 F2) R1) as [N1 B1].
  destruct (near_between _ _ _ _ _ _ (fmul_rounded near b1 a2 F3 F4) Fq Fq' (Rle_refl _) (Rle_refl _) (fmul_rounded up b1 a2 F3 F4) R2) as [N2 B2].
  pose proof (fmul_up_ge _ _ Fp) as P1. pose proof (fmul_up_ge _ _ Fq) as P2.
  pose proof (fmul_up_ge _ _ Fp') as P3. pose proof (fmul_up_ge _ _ Fq') as P4. rewrite fneg_val in P3, P4.
  assert (rounded up (- (- B2R (fmul up a1 (fneg b2)) + - B2R (fmul up (fneg b1) a2)))
            (fadd up (fmul up a1 (fneg b2)) (fmul up (fneg b1) a2))) as RL.
  { match goal with |- rounded up ?r _ => replace r with (B2R (fmul up a1 (fneg b2)) + B2R (fmul up (fneg b1) a2)) by ring end.
    apply fadd_rounded; auto. }
  destruct (near_between (B2R (fmul near a1 b2) + B2R (fmul near b1 a2))
     (- B2R (fmul up a1 (fneg b2)) + - B2R (fmul up (fneg b1) a2))
     (B2R (fmul up a1 b2) + B2R (fmul up b1 a2)) _ _ _ (fadd_rounded near _ _ N1 N2) Fu Fm) as [Fv Bv]; auto; try lra.
  { apply fadd_rounded; auto. }
  split; auto. pose proof (fadd_up_ge _ _ Fu). pose proof (fadd_up_ge _ _ Fm).
  pose proof (fhlf_up_ge up _ F (or_introl eq_refl)). pose proof (fadd_up_ge _ _ FA).
  split; [|lra]. apply Rabs_le. lra.
Qed.

(** ** Linear forms *)
Definition unit_pt (x : list R) := Forall (fun t => -1 <= t <= 1) x.
Lemma coef_unit a t : -1 <= t <= 1 -> Rabs (a * t) <= Rabs a.
Proof. intros. rewrite Rabs_mult. assert (Rabs t <= 1) by (apply Rabs_le; lra). pose proof (Rabs_pos a). pose proof (Rabs_pos t). nra. Qed.
Fixpoint sum_abs (c : list R) : R := match c with [] => 0 | a :: c => Rabs a + sum_abs c end.
Lemma sum_abs_pos c : 0 <= sum_abs c.
Proof. induction c; cbn [sum_abs]; try lra. pose proof (Rabs_pos a). lra. Qed.
Lemma linear_unit c : forall x, unit_pt x -> Rabs (linear c x) <= sum_abs c.
Proof.
  induction c as [|a c IH]; intros [|t x] U; cbn [linear sum_abs]; try (rewrite Rabs_R0; lra).
  { rewrite Rabs_R0. pose proof (sum_abs_pos c). pose proof (Rabs_pos a). lra. }
  inversion_clear U. eapply Rle_trans; [apply Rabs_triang|]. apply Rplus_le_compat; auto. apply coef_unit; auto.
Qed.
Lemma linear_neg c : forall x, linear (map Ropp c) x = - linear c x.
Proof. induction c; intros [|t x]; cbn [linear map]; try rewrite IHc; ring. Qed.
Lemma linear_scal k c : forall x, linear (map (fun a => a * k) c) x = linear c x * k.
Proof. induction c; intros [|t x]; cbn [linear map]; try rewrite IHc; ring. Qed.
Lemma linear_add c : forall d x, length c = length d ->
  linear (map (fun p => fst p + snd p) (combine c d)) x = linear c x + linear d x.
Proof.
  induction c; intros [|b d] [|t x] L; try discriminate; cbn [linear map combine fst snd]; try ring.
  rewrite IHc by (injection L; auto). ring.
Qed.

(** ** The threaded loops *)
Lemma thread_length {A} (op : A -> fl -> fl * fl) : forall l e, length (fst (thread op l e)) = length l.
Proof.
  induction l as [|a l IH]; intros e; cbn [thread]; auto.
  destruct (op a e) as [r e1]. specialize (IH e1). destruct (thread op l e1) as [g e2]. cbn [fst length] in *. lia.
Qed.
Lemma thread_ok {A} k (op : A -> fl -> fl * fl) (s : A -> R) : 0 <= k ->
  (forall a e, err_ok k (s a) (fst (op a e)) e (snd (op a e))) ->
  forall l e, fin (snd (thread op l e)) ->
  fin e /\ Forall (fun c => fin c) (fst (thread op l e)) /\ B2R e <= B2R (snd (thread op l e)) /\
  forall x, unit_pt x -> Rabs (linear (map s l) x - linear (map B2R (fst (thread op l e))) x) <= k * (B2R (snd (thread op l e)) - B2R e).
Proof.
  intros K H. induction l as [|a l IH]; intros e F; cbn [thread] in *.
  - cbn [fst snd map linear] in *. repeat split; auto; try lra. intros x _. rewrite Rminus_0_r, Rabs_R0. lra.
  - specialize (H a e). destruct (op a e) as [r e1]. specialize (IH e1). destruct (thread op l e1) as [g e2]. cbn [fst snd] in *.
    destruct (IH F) as (F1 & G & M & B). destruct (H F1) as (Fr & Fe & D & M1). repeat split; auto; try lra.
    intros [|t x] U; cbn [map linear].
    { rewrite Rminus_0_r, Rabs_R0. apply Rmult_le_pos; lra. }
    inversion_clear U as [|? ? T U']. specialize (B x U').
    replace (s a * t + linear (map s l) x - (B2R r * t + linear (map B2R g) x))
      with ((s a - B2R r) * t + (linear (map s l) x - linear (map B2R g) x)) by ring.
    eapply Rle_trans; [apply Rabs_triang|]. pose proof (coef_unit (s a - B2R r) t T). lra.
Qed.

Lemma norm_from_ok : forall g (e : fl), fin (fold_left (fun r c => fadd up r (fabs c)) g e) ->
  fin e /\ Forall (fun c => fin c) g /\ B2R e + sum_abs (map B2R g) <= B2R (fold_left (fun r c => fadd up r (fabs c)) g e).
Proof.
  induction g as [|c g IH]; intros e F; cbn [fold_left map sum_abs] in *.
  - repeat split; auto. lra.
  - destruct (IH _ F) as (F1 & G & B). destruct (fadd_fin _ _ _ F1) as [Fe Fc]. pose proof (fadd_up_ge _ _ F1) as P.
    rewrite fabs_fin in Fc. rewrite fabs_val in P. repeat split; auto. lra.
Qed.
Lemma norm_ok (g : list fl) : fin (norm g) -> Forall (fun c => fin c) g /\ sum_abs (map B2R g) <= B2R (norm g).
Proof. intros F. destruct (norm_from_ok _ _ F) as (_ & A & B). split; auto. rewrite val_zero in B. unfold norm. lra. Qed.

(** ** Negation, sum, scaling *)
Lemma close_pos k (a : am prec emax) f : (exists x, in_box (length (a_g a)) x) -> close k a f -> 0 < k -> fin (a_e a) -> 0 <= B2R (a_e a).
Proof.
  intros [x X] C K F. destruct (C F) as (_ & _ & B). specialize (B x X). pose proof (Rabs_pos (f x - centre a x)) as P.
  destruct (Rle_or_lt 0 (B2R (a_e a))); auto. exfalso. pose proof (Rmult_lt_compat_l k _ 0 K H). lra.
Qed.
Lemma box_inhabited n : exists x, in_box n x.
Proof. exists (repeat 0 n). split; [apply repeat_length|]. apply Forall_forall. intros t I. apply repeat_spec in I. lra. Qed.
Lemma map_fneg (g : list fl) : map B2R (map fneg g) = map Ropp (map B2R g).
Proof. rewrite !map_map. apply map_ext. intros. apply fneg_val. Qed.

Lemma neg_close (a : am prec emax) f : represents a f -> represents (am_neg a) (fun x => - f x).
Proof.
  intros C F. cbn [am_neg a_e a_v a_g] in *. destruct (C F) as (V & G & B). rewrite fneg_fin. split; auto. split.
  - apply Forall_forall. intros c I. apply in_map_iff in I. destruct I as (d & <- & I). rewrite fneg_fin. rewrite Forall_forall in G. auto.
  - rewrite map_length. intros x X. specialize (B x X). unfold centre in *. cbn [am_neg a_v a_g].
    rewrite map_fneg, linear_neg, fneg_val. rewrite <- Rabs_Ropp. 
    match goal with |- Rabs ?r <= _ => replace r with (f x - (B2R (a_v a) + linear (map B2R (a_g a)) x)) by ring end. auto.
Qed.

Lemma map_pairs (s : R -> R -> R) (g1 g2 : list fl) :
  map (fun p => s (B2R (fst p)) (B2R (snd p))) (combine g1 g2) = map (fun p => s (fst p) (snd p)) (combine (map B2R g1) (map B2R g2)).
Proof. revert g2. induction g1; intros [|b g2]; cbn [map combine]; auto. cbn [fst snd]. f_equal. auto. Qed.

Lemma add_close (a1 a2 r : am prec emax) f1 f2 : represents a1 f1 -> represents a2 f2 -> am_add a1 a2 = Some r ->
  represents r (fun x => f1 x + f2 x).
Proof.
  intros C1 C2 E. unfold am_add in E. destruct (Nat.eqb_spec (length (a_g a1)) (length (a_g a2))) as [L|]; [|discriminate].
  pose proof (add_err_ok (a_v a1) (a_v a2) fzero) as O. destruct (add_err (a_v a1) (a_v a2) fzero) as [v e0].
  pose proof (thread_ok 1 (fun p e => add_err (fst p) (snd p) e) (fun p => B2R (fst p) + B2R (snd p)) ltac:(lra)
    (fun p e => add_err_ok (fst p) (snd p) e) (combine (a_g a1) (a_g a2)) e0) as T.
  pose proof (thread_length (fun p e => add_err (fst p) (snd p) e) (combine (a_g a1) (a_g a2)) e0) as TL.
  destruct (thread _ (combine (a_g a1) (a_g a2)) e0) as [g e1]. injection E as <-. cbn [fst snd] in *.
  intros F. cbn [a_e a_v a_g] in *. destruct (fadd_fin _ _ _ F) as [Fe1 F12]. destruct (fadd_fin _ _ _ F12) as [F1 F2].
  pose proof (fadd_up_ge _ _ F). pose proof (fadd_up_ge _ _ F12).
  destruct (T Fe1) as (Fe0 & G & M & B). destruct (O Fe0) as (V & _ & D & M0). rewrite val_zero in *.
  destruct (C1 F1) as (V1 & G1 & B1). destruct (C2 F2) as (V2 & G2 & B2).
  split; auto. split; auto. intros x X. rewrite combine_length in TL.
  assert (in_box (length (a_g a1)) x) as X1 by (replace (length (a_g a1)) with (length g) by lia; auto).
  assert (in_box (length (a_g a2)) x) as X2 by (rewrite <- L; auto).
  specialize (B1 x X1). specialize (B2 x X2). specialize (B x (proj2 X)). unfold centre in *. cbn [a_v a_g].
  rewrite (map_pairs Rplus), linear_add in B by (rewrite !map_length; auto).
  apply Rabs_le_inv in B, B1, B2, D. apply Rabs_le. lra.
Qed.

Lemma mulc_close k (a : am prec emax) (c : bnd) v f : 1 <= k ->
  (forall x e, err_ok k (B2R x * v) (fst (mul_err_b x c e)) e (snd (mul_err_b x c e))) ->
  contains c v -> represents a f -> close k (am_mulc c a) (fun x => v * f x).
Proof.
  intros K H C Ca. unfold am_mulc.
  pose proof (H (a_v a) fzero) as O. destruct (mul_err_b (a_v a) c fzero) as [w e0].
  pose proof (thread_ok k (fun x e => mul_err_b x c e) (fun x => B2R x * v) ltac:(lra) (fun x e => H x e) (a_g a) e0) as T.
  pose proof (thread_length (fun x e => mul_err_b x c e) (a_g a) e0) as TL.
  destruct (thread _ (a_g a) e0) as [g e1]. cbn [fst snd] in *.
  intros F. cbn [a_e a_v a_g] in *. destruct (fadd_fin _ _ _ F) as [Fe1 Fm]. destruct (fmul_fin _ _ _ Fm) as [Fc Fa].
  pose proof (fadd_up_ge _ _ F). pose proof (fmul_up_ge _ _ Fm).
  pose proof (proj1 (above_finite _ _ Fc) (b_mag_above c v C)) as Mg.
  destruct (T Fe1) as (Fe0 & G & M & B). destruct (O Fe0) as (V & _ & D & M0). rewrite val_zero in *.
  pose proof (close_pos 1 a f (box_inhabited _) Ca Rlt_0_1 Fa) as Pe.
  destruct (Ca Fa) as (V1 & G1 & B1). split; auto. split; auto. intros x X. rewrite TL in X.
  specialize (B1 x X). specialize (B x (proj2 X)). unfold centre in *. cbn [a_v a_g].
  replace (map (fun x0 => B2R x0 * v) (a_g a)) with (map (fun t => t * v) (map B2R (a_g a))) in B by (rewrite map_map; auto).
  rewrite linear_scal in B.
  set (l := linear (map B2R (a_g a)) x) in *. set (l' := linear (map B2R g) x) in *.
  replace (v * f x - (B2R w + l')) with (v * (f x - (B2R (a_v a) + l)) + ((B2R (a_v a) * v - B2R w) + (l * v - l'))) by ring.
  eapply Rle_trans; [apply Rabs_triang|]. rewrite Rabs_mult.
  assert (Rabs v * Rabs (f x - (B2R (a_v a) + l)) <= B2R (b_mag c) * B2R (a_e a)) as Q.
  { apply Rmult_le_compat; try apply Rabs_pos; auto. lra. }
  pose proof (Rabs_triang (B2R (a_v a) * v - B2R w) (l * v - l')) as Tr.
  assert (0 <= B2R (b_mag c) * B2R (a_e a)) by (apply Rmult_le_pos; auto; pose proof (Rabs_pos v); lra).
  apply Rle_trans with (k * (B2R e1 + B2R (fmul up (b_mag c) (a_e a)))); [|apply Rmult_le_compat_l; lra].
  assert (B2R (b_mag c) * B2R (a_e a) <= k * B2R (fmul up (b_mag c) (a_e a))) by nra.
  lra.
Qed.

(** ** Product *)
Lemma mul_close (a1 a2 r : am prec emax) f1 f2 : represents a1 f1 -> represents a2 f2 ->
  (is_finite (a_e a2) = true -> B2R (a_e a2) <= 1) -> am_mul a1 a2 = Some r -> close 2 r (fun x => f1 x * f2 x).
Proof.
  intros C1 C2 S E. unfold am_mul in E. destruct (Nat.eqb_spec (length (a_g a1)) (length (a_g a2))) as [L|]; [|discriminate].
  pose proof (mul_err_ok (a_v a1) (a_v a2) fzero) as O. destruct (mul_err (a_v a1) (a_v a2) fzero) as [v e0].
  pose proof (thread_ok 2 (fun p e => lin_err (a_v a1) (fst p) (a_v a2) (snd p) e)
    (fun p => B2R (a_v a1) * B2R (snd p) + B2R (fst p) * B2R (a_v a2)) ltac:(lra)
    (fun p e => lin_err_ok (a_v a1) (fst p) (a_v a2) (snd p) e) (combine (a_g a1) (a_g a2)) e0) as T.
  pose proof (thread_length (fun p e => lin_err (a_v a1) (fst p) (a_v a2) (snd p) e) (combine (a_g a1) (a_g a2)) e0) as TL.
  destruct (thread _ (combine (a_g a1) (a_g a2)) e0) as [g e1]. injection E as <-. cbn [fst snd] in *.
  intros F. cbn [a_e a_v a_g] in *. unfold mul_error in *.
  destruct (fadd_fin _ _ _ F) as [Fa Fnn]. destruct (fadd_fin _ _ _ Fa) as [Fb Fc]. destruct (fadd_fin _ _ _ Fb) as [Fe1 Fee].
  destruct (fmul_fin _ _ _ Fee) as [F1 F2]. destruct (fadd_fin _ _ _ Fc) as [Fd Fg]. destruct (fadd_fin _ _ _ Fd) as [Fv1 Fne].
  destruct (fmul_fin _ _ _ Fg) as [_ Fh]. destruct (fadd_fin _ _ _ Fh) as [Fv2 Fn2]. destruct (fmul_fin _ _ _ Fnn) as [Fn1 _].
  pose proof (fadd_up_ge _ _ F) as U1. pose proof (fadd_up_ge _ _ Fa) as U2. pose proof (fadd_up_ge _ _ Fb) as U3.
  pose proof (fmul_up_ge _ _ Fee) as U4. pose proof (fadd_up_ge _ _ Fc) as U5. pose proof (fadd_up_ge _ _ Fd) as U6.
  pose proof (fmul_up_ge _ _ Fne) as U7. pose proof (fmul_up_ge _ _ Fg) as U8. pose proof (fadd_up_ge _ _ Fh) as U9.
  pose proof (fmul_up_ge _ _ Fnn) as U10. rewrite fabs_val in U6, U9.
  destruct (T Fe1) as (Fe0 & G & M & B). destruct (O Fe0) as (V & _ & D & M0). rewrite val_zero in *.
  pose proof (close_pos 1 a1 f1 (box_inhabited _) C1 Rlt_0_1 F1) as P1.
  pose proof (close_pos 1 a2 f2 (box_inhabited _) C2 Rlt_0_1 F2) as P2. specialize (S F2).
  destruct (C1 F1) as (V1 & G1 & B1). destruct (C2 F2) as (V2 & G2 & B2).
  split; auto. split; auto. intros x X. rewrite combine_length in TL.
  assert (in_box (length (a_g a1)) x) as X1 by (replace (length (a_g a1)) with (length g) by lia; auto).
  assert (in_box (length (a_g a2)) x) as X2 by (rewrite <- L; auto).
  specialize (B1 x X1). specialize (B2 x X2). specialize (B x (proj2 X)). unfold centre in *. cbn [a_v a_g].
  assert (linear (map (fun p : fl * fl => B2R (a_v a1) * B2R (snd p) + B2R (fst p) * B2R (a_v a2)) (combine (a_g a1) (a_g a2))) x =
          B2R (a_v a1) * linear (map B2R (a_g a2)) x + linear (map B2R (a_g a1)) x * B2R (a_v a2)) as LE.
  { clear -L. revert L x. generalize (a_g a1) (a_g a2). induction l as [|b l IH]; intros [|c l'] L [|t x]; try discriminate;
      cbn [combine map linear fst snd]; try ring. rewrite IH by (injection L; auto). ring. }
  rewrite LE in B. clear LE.
  destruct (norm_ok _ Fn1) as [_ N1]. destruct (norm_ok _ Fn2) as [_ N2].
  pose proof (linear_unit (map B2R (a_g a1)) x (proj2 X)) as L1. pose proof (linear_unit (map B2R (a_g a2)) x (proj2 X)) as L2.
  set (l1 := linear (map B2R (a_g a1)) x) in *. set (l2 := linear (map B2R (a_g a2)) x) in *. set (l := linear (map B2R g) x) in *.
  set (v1 := B2R (a_v a1)) in *. set (v2 := B2R (a_v a2)) in *. set (e1' := B2R (a_e a1)) in *. set (e2' := B2R (a_e a2)) in *.
  set (n1 := B2R (norm (a_g a1))) in *. set (n2 := B2R (norm (a_g a2))) in *.
  set (d1 := f1 x - (v1 + l1)) in *. set (d2 := f2 x - (v2 + l2)) in *.
  replace (f1 x * f2 x - (B2R v + l)) with
    (d1 * d2 + ((v1 + l1) * d2 + d1 * (v2 + l2)) + l1 * l2 + ((v1 * v2 - B2R v) + (v1 * l2 + l1 * v2 - l))) by (unfold d1, d2; ring).
  assert (Rabs (d1 * d2) <= e1' * e2') as Q1 by (rewrite Rabs_mult; apply Rmult_le_compat; try apply Rabs_pos; lra).
  assert (Rabs (v1 + l1) <= Rabs v1 + n1) as A1 by (eapply Rle_trans; [apply Rabs_triang|]; lra).
  assert (Rabs (v2 + l2) <= Rabs v2 + n2) as A2 by (eapply Rle_trans; [apply Rabs_triang|]; lra).
  assert (Rabs ((v1 + l1) * d2) <= (Rabs v1 + n1) * e2') as Q2 by (rewrite Rabs_mult; apply Rmult_le_compat; try apply Rabs_pos; lra).
  assert (Rabs (d1 * (v2 + l2)) <= e1' * (Rabs v2 + n2)) as Q3 by (rewrite Rabs_mult; apply Rmult_le_compat; try apply Rabs_pos; lra).
  assert (Rabs (l1 * l2) <= n1 * n2) as Q4 by (rewrite Rabs_mult; apply Rmult_le_compat; try apply Rabs_pos; lra).
  assert (Rabs v1 * e2' <= Rabs v1) as Q5 by (pose proof (Rabs_pos v1); nra).
  assert (0 <= n1) as Pn1 by (pose proof (sum_abs_pos (map B2R (a_g a1))); lra).
  assert (0 <= n2) as Pn2 by (pose proof (sum_abs_pos (map B2R (a_g a2))); lra).
  assert (e1' * (Rabs v2 + n2) <= e1' * B2R (fadd up (fabs (a_v a2)) (norm (a_g a2)))) as Q6 by (apply Rmult_le_compat_l; lra).
  assert (0 <= e1' * e2') by (apply Rmult_le_pos; auto). assert (0 <= n1 * e2') by (apply Rmult_le_pos; auto).
  assert (0 <= n1 * n2) by (apply Rmult_le_pos; auto).
  assert (0 <= e1' * (Rabs v2 + n2)) by (apply Rmult_le_pos; auto; pose proof (Rabs_pos v2); lra).
  pose proof (Rabs_pos v1). 
  pose proof (Rabs_triang (d1 * d2 + ((v1 + l1) * d2 + d1 * (v2 + l2)) + l1 * l2) ((v1 * v2 - B2R v) + (v1 * l2 + l1 * v2 - l))) as T1.
  pose proof (Rabs_triang (d1 * d2 + ((v1 + l1) * d2 + d1 * (v2 + l2))) (l1 * l2)) as T2.
  pose proof (Rabs_triang (d1 * d2) ((v1 + l1) * d2 + d1 * (v2 + l2))) as T3.
  pose proof (Rabs_triang ((v1 + l1) * d2) (d1 * (v2 + l2))) as T4.
  pose proof (Rabs_triang (v1 * v2 - B2R v) (v1 * l2 + l1 * v2 - l)) as T5.
  replace ((Rabs v1 + n1) * e2') with (Rabs v1 * e2' + n1 * e2') in Q2 by ring.
  lra.
Qed.

(** ** Range *)
Lemma range_ok (a : am prec emax) f x : represents a f -> in_box (length (a_g a)) x ->
  is_finite (b_l (am_range a)) = true -> is_finite (b_u (am_range a)) = true -> contains (am_range a) (f x).
Proof.
  intros C X Fl Fu. unfold am_range in *. cbn [b_l b_u] in *. destruct (fadd_fin _ _ _ Fu) as [Fv Fe].
  destruct (norm_from_ok _ _ Fe) as (Fa & _ & N). destruct (C Fa) as (_ & _ & B). specialize (B x X). unfold centre in B.
  pose proof (linear_unit (map B2R (a_g a)) x (proj2 X)) as L.
  pose proof (fadd_up_ge _ _ Fu) as U. pose proof (fsub_down_le _ _ Fl) as D. apply Rabs_le_inv in B, L.
  split; [apply below_finite; auto|apply above_finite; auto]; cbn [b_l b_u]; lra.
Qed.

(** ** Adding a constant *)
Notation rnd m r := (round radix2 (SpecFloat.fexp prec emax) (round_mode m) r).
Lemma rounded_self (x : fl) : fin x -> rounded up (B2R x) x.
Proof. intros F. left. rewrite (rnd_format up (B2R x)) by apply format_B2R. split; [apply abs_B2R_lt_emax|auto]. Qed.
Lemma near_best (x r : R) : generic_format radix2 (SpecFloat.fexp prec emax) x -> Rabs (r - rnd near r) <= Rabs (r - x).
Proof.
  intros G. cbn [round_mode]. destruct (round_N_pt radix2 (SpecFloat.fexp prec emax) (fun z => negb (Z.even z)) r) as [_ H].
  rewrite (Rabs_minus_sym r), (Rabs_minus_sym r x). apply H. auto.
Qed.
Lemma addc_close (a : am prec emax) (q : fl) f : fin q -> 0 <= B2R q -> 2 * Rabs (B2R q) < big -> represents a f ->
  represents (am_addc (b_of q) a) (fun x => f x + B2R q).
Proof.
  intros Fq Pq Q C. unfold am_addc, add_err_c. destruct (b_value_point q Fq Q) as [Fc Ec]. cbn [b_of b_l b_u].
  intros F. cbn [a_e a_v a_g] in *. destruct (fadd_fin _ _ _ F) as [Fa Fh].
  pose proof (fhlf_fin _ _ Fh) as FA. destruct (fadd_fin _ _ _ FA) as [Fm Fu]. destruct (fadd_fin _ _ _ Fu) as [Fx _].
  pose proof (fadd_up_ge _ _ F). pose proof (fhlf_up_ge up _ Fh (or_introl eq_refl)). pose proof (fadd_up_ge _ _ FA).
  pose proof (fadd_up_ge _ _ Fm) as Hm. pose proof (fadd_up_ge _ _ Fu). rewrite fneg_val in Hm.
  assert (rounded near (B2R (a_v a) + B2R q) (fadd near (a_v a) (b_value (mkB q q)))) as N.
  { rewrite <- Ec. apply fadd_rounded; auto. }
  assert (fin (fneg (a_v a))) as Fn by (rewrite fneg_fin; auto).
  pose proof (rounded_self _ Fn) as RS. rewrite fneg_val in RS.
  destruct (near_between (B2R (a_v a) + B2R q) (B2R (a_v a)) (B2R (a_v a) + B2R q) _ _ _ N Fu Fn) as [Fv Bv]; try lra; auto.
  { apply fadd_rounded; auto. }
  assert (B2R (fadd near (a_v a) (b_value (mkB q q))) = rnd near (B2R (a_v a) + B2R q)) as EV.
  { destruct N as [[_ [_ E]]|[_ E]]; auto. exfalso. clear -E Fv. revert E Fv. generalize (fadd near (a_v a) (b_value (mkB q q))).
    intros z E Fz. destruct z; cbn in E, Fz; discriminate. }
  pose proof (near_best (B2R (a_v a)) (B2R (a_v a) + B2R q) (format_B2R _)) as NB. rewrite <- EV in NB.
  replace (B2R (a_v a) + B2R q - B2R (a_v a)) with (B2R q) in NB by ring. rewrite (Rabs_pos_eq (B2R q)) in NB by auto.
  destruct (C Fa) as (_ & G & B). split; auto. split; auto. intros x X. specialize (B x X). unfold centre in *. cbn [a_v a_g].
  change (mkB q q) with (b_of q) in *. apply Rabs_le_inv in B, NB. apply Rabs_le. lra.
Qed.

(** ** Conversion from affine functions *)
Lemma off_ok (c : bnd) v : finite_bounds c -> fin (b_value c) -> contains c v -> fin (off c) -> Rabs (v - B2R (b_value c)) <= B2R (off c).
Proof.
  intros FB Fv C F. pose proof (finite_contains c v FB C) as [C1 C2]. destruct FB as [Fl Fu].
  pose proof (fsub_rounded up _ _ Fu Fv) as R1. pose proof (fsub_rounded up _ _ Fv Fl) as R2.
  pose proof (above_fmax_l _ (fsub up (b_value c) (b_l c)) _ (rounded_up_above _ _ R1)) as A1.
  pose proof (above_fmax_r (fsub up (b_u c) (b_value c)) _ _ (rounded_not_nan _ _ _ R1) (rounded_up_above _ _ R2)) as A2.
  fold (off c) in A1, A2. apply (proj1 (above_finite _ _ F)) in A1. apply (proj1 (above_finite _ _ F)) in A2.
  apply Rabs_le. lra.
Qed.
Definition sound_bounds (c : bnd) : Prop := finite_bounds c /\ fin (b_value c).
Lemma affine_loop : forall (g : list bnd) (w : list R) (e : fl), Forall sound_bounds g -> Forall2 contains g w ->
  fin (fold_left (fun e c => fadd up e (off c)) g e) ->
  fin e /\ B2R e <= B2R (fold_left (fun e c => fadd up e (off c)) g e) /\
  forall x, unit_pt x -> Rabs (linear w x - linear (map B2R (map b_value g)) x) <= B2R (fold_left (fun e c => fadd up e (off c)) g e) - B2R e.
Proof.
  induction g as [|c g IH]; intros w e S W F; inversion W as [|? v ? w' Cv Cw]; subst; cbn [fold_left map linear] in *.
  - repeat split; auto; try lra. intros. rewrite Rminus_0_r, Rabs_R0. lra.
  - inversion_clear S as [|? ? [S1 S2] S']. destruct (IH w' _ S' Cw F) as (F1 & M & B). destruct (fadd_fin _ _ _ F1) as [Fe Fo].
    pose proof (fadd_up_ge _ _ F1). pose proof (off_ok c v S1 S2 Cv Fo) as O. pose proof (Rabs_pos (v - B2R (b_value c))).
    repeat split; auto; try lra. intros [|t z] U.
    { rewrite Rminus_0_r, Rabs_R0. lra. }
    inversion_clear U as [|? ? T U']. specialize (B z U'). cbn [linear].
    replace (v * t + linear w' z - (B2R (b_value c) * t + linear (map B2R (map b_value g)) z))
      with ((v - B2R (b_value c)) * t + (linear w' z - linear (map B2R (map b_value g)) z)) by ring.
    eapply Rle_trans; [apply Rabs_triang|]. pose proof (coef_unit (v - B2R (b_value c)) t T). lra.
Qed.
Lemma of_affine_ok (b : bnd) (g : list bnd) v w : sound_bounds b -> Forall sound_bounds g -> contains b v -> Forall2 contains g w ->
  represents (am_of_affine b g) (fun x => v + linear w x).
Proof.
  intros [S1 S2] Sg Cv Cw F. unfold am_of_affine in *. cbn [a_e a_v a_g] in *. destruct (fadd_fin _ _ _ F) as [Fs Fo].
  destruct (affine_loop g w _ Sg Cw Fs) as (_ & _ & B). pose proof (off_ok b v S1 S2 Cv Fo) as O. pose proof (fadd_up_ge _ _ F).
  rewrite val_zero in B. split; auto. split.
  { apply Forall_forall. intros c I. apply in_map_iff in I. destruct I as (d & <- & I). rewrite Forall_forall in Sg. apply Sg in I. apply I. }
  intros x X. specialize (B x (proj2 X)). unfold centre. cbn [a_v a_g]. apply Rabs_le_inv in B, O. apply Rabs_le. lra.
Qed.

(** ** Conversion from Taylor models *)
Notation rmonom := (monom 1 Rmult).
Fixpoint slot (a : mi) (g : list fl) : R :=
  match a, g with d :: a, y :: g => if (d =? 1)%N then B2R y else slot a g | _, _ => 0 end.
Lemma monom_total0 : forall a (x : list R), total a = 0%N -> rmonom a x = 1.
Proof.
  unfold total. induction a as [|d a IH]; intros [|t x] H; cbn [monom fold_right] in *; auto.
  assert (d = 0%N) as -> by lia. cbn [N.to_nat power]. rewrite IH by lia. ring.
Qed.
Lemma total0_eq : forall a b, length a = length b -> total a = 0%N -> total b = 0%N -> a = b.
Proof.
  unfold total. induction a as [|d a IH]; intros [|d' b] L A B; try discriminate; auto. cbn [fold_right] in *.
  f_equal; [lia|]. apply IH; try lia. injection L; auto.
Qed.
Lemma set_first_length : forall a (g : list fl) c, length (set_first a g c) = length g.
Proof. induction a as [|d a IH]; intros [|y g] c; cbn [set_first]; auto. destruct (d =? 1)%N; cbn [length]; auto. Qed.
Lemma set_first_fin : forall a (g : list fl) c, fin c -> Forall (fun c => fin c) g -> Forall (fun c => fin c) (set_first a g c).
Proof.
  induction a as [|d a IH]; intros [|y g] c C G; cbn [set_first]; auto. inversion_clear G. destruct (d =? 1)%N; constructor; auto.
Qed.
Lemma set_first_linear : forall a (g : list fl) c x, total a = 1%N -> length a = length g -> length x = length a ->
  linear (map B2R (set_first a g c)) x = linear (map B2R g) x + (B2R c - slot a g) * rmonom a x.
Proof.
  unfold total. induction a as [|d a IH]; intros [|y g] c [|t x] T L LX; try discriminate.
  cbn [set_first slot fold_right monom] in *. destruct (N.eqb_spec d 1) as [->|ND]; cbn [map linear].
  - rewrite monom_total0 by (unfold total; lia). change (N.to_nat 1) with 1%nat. cbn [power]. ring.
  - assert (d = 0%N) as -> by lia. cbn [N.to_nat power]. rewrite IH; try (injection L; injection LX; auto; lia). ring.
Qed.
Lemma slot_other : forall a b (g : list fl) c, total a = 1%N -> total b = 1%N -> length a = length b -> a <> b ->
  slot b (set_first a g c) = slot b g.
Proof.
  unfold total. induction a as [|d a IH]; intros [|d' b] [|y g] c A B L NE; try discriminate; auto.
  cbn [set_first slot fold_right] in *. injection L as L.
  destruct (N.eqb_spec d 1) as [->|ND]; destruct (N.eqb_spec d' 1) as [->|ND']; cbn [slot].
  - exfalso. apply NE. f_equal. apply total0_eq; unfold total; auto; lia.
  - destruct (N.eqb_spec d' 1); [lia|]. auto.
  - reflexivity.
  - destruct (N.eqb_spec d' 1); [lia|]. apply IH; auto; try lia. intros ->. apply NE. f_equal. lia.
Qed.
Lemma peval_cons' a (c : fl) p x : peval ((a, c) :: p) x = B2R c * rmonom a x + peval p x.
Proof. reflexivity. Qed.

Definition free (r : am prec emax) (m : mi * fl) : Prop :=
  (total (fst m) = 0%N -> B2R (a_v r) = 0) /\ (total (fst m) = 1%N -> slot (fst m) (a_g r) = 0).
Lemma taylor_loop n : forall (p : list (mi * fl)) (r : am prec emax), NoDup (map fst p) -> sized n p -> small_degrees p ->
  length (a_g r) = n -> Forall (free r) p -> Forall (fun m => fin (snd m)) p -> fin (a_v r) -> Forall (fun c => fin c) (a_g r) ->
  let r' := fold_left am_term p r in length (a_g r') = n /\
  (fin (a_e r') -> fin (a_v r') /\ Forall (fun c => fin c) (a_g r') /\ fin (a_e r) /\
   forall x, in_box n x -> Rabs (peval p x + centre r x - centre r' x) <= B2R (a_e r') - B2R (a_e r)).
Proof.
  induction p as [|[a c] p IH]; intros r ND S D L Fr C V G; cbn zeta; cbn [fold_left].
  - split; auto. intros F. repeat split; auto. intros x X. change (peval [] x) with 0.
    rewrite Rplus_0_l, !Rminus_eq_0, Rabs_R0. lra.
  - cbn [map fst] in ND. inversion_clear ND as [|? ? NI ND']. inversion_clear S as [|? ? S1 S']. inversion_clear D as [|? ? D1 D'].
    inversion_clear Fr as [|? ? [Z0 Z1] Fr']. inversion_clear C as [|? ? C1 C']. cbn [fst snd] in *.
    assert (w16 (fold_right N.add 0%N a) = total a) as W by (unfold w16; apply N.mod_small; auto).
    assert (forall m, In m p -> fst m <> a) as NA by (intros m I Q; apply NI; rewrite <- Q; apply in_map; auto).
    assert (forall m, In m p -> length (fst m) = n) as LM by (intros m I; unfold sized in S'; rewrite Forall_forall in S'; auto).
    assert (am_term r (a, c) = if (2 <=? total a)%N then mkAM (a_v r) (a_g r) (fadd up (fabs c) (a_e r))
       else if (total a =? 1)%N then mkAM (a_v r) (set_first a (a_g r) c) (a_e r) else mkAM c (a_g r) (a_e r)) as E.
    { unfold am_term. cbn [fst snd]. rewrite W. auto. }
    rewrite E. clear E W. destruct (N.leb_spec 2 (total a)) as [B2|B2]; [|destruct (N.eqb_spec (total a) 1) as [E1|E1]].
    + destruct (IH (mkAM (a_v r) (a_g r) (fadd up (fabs c) (a_e r)))) as [LR H]; auto. split; auto. intros F.
      destruct (H F) as (V' & G' & Fe & B). cbn [a_e] in Fe. destruct (fadd_fin _ _ _ Fe) as [_ Fe']. pose proof (fadd_up_ge _ _ Fe) as U.
      rewrite fabs_val in U. repeat split; auto. intros z Xz. specialize (B z Xz). cbn [a_e] in B. rewrite peval_cons'.
      change (centre (mkAM (a_v r) (a_g r) (fadd up (fabs c) (a_e r))) z) with (centre r z) in B.
      pose proof (term_unit (B2R c) a z (proj2 Xz)) as T. apply Rabs_le_inv in B, T. apply Rabs_le. lra.
    + destruct (IH (mkAM (a_v r) (set_first a (a_g r) c) (a_e r))) as [LR H]; auto; cbn [a_v a_g a_e] in *.
      { rewrite set_first_length; auto. }
      { rewrite Forall_forall in *. intros m I. destruct (Fr' m I) as [Y0 Y1]. split; cbn [a_v a_g]; auto.
        intros T1. rewrite slot_other; auto; [rewrite S1, LM; auto|]. intros Q. apply (NA m I). auto. }
      { apply set_first_fin; auto. }
      split; auto. intros F. destruct (H F) as (V' & G' & Fe & B). repeat split; auto. intros z Xz. specialize (B z Xz).
      unfold centre at 1 in B. cbn [a_v a_g] in B. rewrite set_first_linear, Z1 in B; auto; try lia; [|destruct Xz; lia].
      rewrite peval_cons'. unfold centre at 1. 
      match goal with |- Rabs ?u <= _ => match type of B with Rabs ?w <= _ => replace u with w by ring end end. auto.
    + assert (total a = 0%N) as T0 by lia. destruct (IH (mkAM c (a_g r) (a_e r))) as [LR H]; auto; cbn [a_v a_g a_e] in *.
      { rewrite Forall_forall in *. intros m I. destruct (Fr' m I) as [Y0 Y1]. split; cbn [a_v a_g]; auto.
        intros T1. exfalso. apply (NA m I). apply total0_eq; auto. rewrite LM; auto. }
      split; auto. intros F. destruct (H F) as (V' & G' & Fe & B). repeat split; auto. intros z Xz. specialize (B z Xz).
      unfold centre at 1 in B. cbn [a_v a_g] in B. rewrite peval_cons', monom_total0 by auto. unfold centre at 1. rewrite Z0 by auto.
      match goal with |- Rabs ?u <= _ => match type of B with Rabs ?w <= _ => replace u with w by ring end end. auto.
Qed.
Lemma slot_zero n : forall a, slot a (repeat fzero n) = 0.
Proof. induction n as [|n IH]; intros [|d a]; cbn [repeat slot]; auto. destruct (d =? 1)%N; auto. Qed.
Lemma linear_zero n : forall x, linear (map B2R (repeat (fzero : fl) n)) x = 0.
Proof. induction n as [|n IH]; intros [|y x]; cbn [repeat map linear]; auto. rewrite IH, val_zero. ring. Qed.
Lemma of_taylor_ok n (t : tm prec emax) f : NoDup (map fst (t_exp t)) -> sized n (t_exp t) -> small_degrees (t_exp t) ->
  encloses n t f -> length (a_g (am_of_taylor n t)) = n /\ represents (am_of_taylor n t) f.
Proof.
  intros ND S D E. unfold am_of_taylor. set (r0 := mkAM fzero (repeat fzero n) fzero : am prec emax).
  assert (length (a_g r0) = n) as L0 by apply repeat_length.
  assert (length (a_g (fold_left am_term (t_exp t) r0)) = n) as LL.
  { enough (forall r : am prec emax, length (a_g r) = n -> length (a_g (fold_left am_term (t_exp t) r)) = n) as Z by auto.
    clear. induction (t_exp t) as [|m p IH]; intros r L; cbn [fold_left]; auto. apply IH.
    unfold am_term. destruct (2 <=? _)%N; [|destruct (_ =? 1)%N]; cbn [a_g]; auto. rewrite set_first_length. auto. }
  cbn [a_g]. split; auto. intros F. cbn [a_e a_v a_g] in *. destruct (fadd_fin _ _ _ F) as [Ft Fr]. pose proof (fadd_up_ge _ _ F).
  destruct (E Ft) as [C B]. destruct (taylor_loop n (t_exp t) r0) as [_ T]; auto.
  - apply Forall_forall. intros [a c] I. split; cbn [r0 a_v a_g fst]; [reflexivity|]. intros _.
    apply slot_zero.
  - apply Forall_forall. intros c I. apply repeat_spec in I. rewrite I. reflexivity.
  - destruct (T Fr) as (V & G & _ & TB). split; auto. split; auto. rewrite LL. intros x X. specialize (B x X). specialize (TB x X).
    assert (centre r0 x = 0) as Z.
    { unfold centre, r0. cbn [a_v a_g]. rewrite val_zero, Rplus_0_l. apply linear_zero. }
    rewrite Z in TB. change (B2R (a_e r0)) with 0 in TB.
    change (centre (mkAM (a_v (fold_left am_term (t_exp t) r0)) (a_g (fold_left am_term (t_exp t) r0)) (fadd up (t_err t) (a_e (fold_left am_term (t_exp t) r0)))) x)
      with (centre (fold_left am_term (t_exp t) r0) x).
    apply Rabs_le_inv in B, TB. apply Rabs_le. lra.
Qed.
End Aff.
