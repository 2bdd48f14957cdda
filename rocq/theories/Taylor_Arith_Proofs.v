(** * Proofs about Taylor models: shifts, products, norms, comparison *)

From Coq Require Import ZArith NArith Reals List Bool Lra Lia Sorted Permutation.
From Flocq Require Import Core IEEE754.BinarySingleNaN.
From Verif Require Import Float_Model Float_Spec Float_Proofs Bounds_Model Bounds_Spec Bounds_Proofs
  Ball_Model Ball_Spec Ball_Proofs ErrBound_Model ErrBound_Spec ErrBound_Proofs LRU_Model
  Poly_Model Poly_Spec Poly_Proofs Taylor_Model Taylor_Spec Taylor_Proofs.
Import ListNotations.
Local Open Scope R_scope.

Section Arith.
Context {prec emax : Z}
        {Hprec : Prec_gt_0 prec} {Hemax : Prec_lt_emax prec emax}.
Notation fl := (binary_float prec emax).
Notation bnd := (bounds prec emax).
Notation fin x := (is_finite x = true).
Notation rpoly := (poly 0 1 Rplus Rmult).
Notation rmonom := (monom 1 Rmult).
Notation allfin p := (Forall (fun m => is_finite (snd m) = true) p).
Notation unit_pt x := (Forall (fun t => -1 <= t <= 1) x).
Notation big := (bpow radix2 emax).
Notation tmod := (tm prec emax).

(** ** The index of the constant term *)
Lemma fd_zeros k : forall b, length b = k -> first_diff gtb (repeat 0%N k) b = false.
Proof.
  induction k as [|k IH]; intros [|y b] L; cbn in *; try discriminate; auto.
  destruct y; cbn [N.eqb]; auto.
Qed.
Lemma less_zeros n a : length a = n -> reverse_lexicographic_less (repeat 0%N n) a = false.
Proof.
  intros L. unfold reverse_lexicographic_less. pose proof (rev_zeros n) as Z. unfold zeros in Z. rewrite Z. apply fd_zeros. rewrite rev_length; auto.
Qed.
Lemma degree_zero a : (total a < 65536)%N -> degree a = 0%N -> a = repeat 0%N (length a).
Proof. intros S D. rewrite degree_small in D by auto. apply total_zero; auto. Qed.
Lemma degree_zeros n : degree (repeat 0%N n) = 0%N.
Proof. rewrite degree_total. pose proof (total_zeros n) as Z. unfold zeros in Z. rewrite Z. reflexivity. Qed.
Lemma sorted_snoc {A} (S : A -> A -> Prop) (l : list A) x : StronglySorted S (l ++ [x]) <-> StronglySorted S l /\ Forall (fun y => S y x) l.
Proof.
  induction l as [|y l IH]; cbn [app].
  - split; intros; [split; constructor|]. constructor; constructor.
  - split.
    + intros H. apply StronglySorted_inv in H. destruct H as [H F]. apply IH in H. destruct H as [H1 H2].
      apply Forall_app in F. destruct F as [F1 F2]. split; constructor; auto. apply Forall_inv in F2; auto.
    + intros [H1 H2]. apply StronglySorted_inv in H1. destruct H1 as [H1 F]. constructor.
      * apply IH. split; auto. apply Forall_inv_tail in H2; auto.
      * apply Forall_app. split; auto. constructor; auto. apply Forall_inv in H2; auto.
Qed.

(** ** Adding a constant *)
Lemma zero_contains (c : bnd) v : flt_eq (b_l c) fzero && flt_eq (b_u c) fzero = true -> contains c v -> v = 0.
Proof.
  intros H [A B]. apply andb_prop in H. destruct H as [H1 H2].
  destruct (below_cases _ _ A) as [[F1 A1]|E1]; [|rewrite E1 in H1; discriminate].
  destruct (above_cases _ _ B) as [[F2 B2]|E2]; [|rewrite E2 in H2; discriminate].
  apply flt_eq_finite in H1; auto. apply flt_eq_finite in H2; auto. cbn [fzero B2R] in *. lra.
Qed.
Lemma set_err_ok (c : bnd) v e : contains c v -> err_ok 1 v (fst (set_err c e)) e (snd (set_err c e)).
Proof.
  intros C. unfold set_err; cbn [fst snd]. apply acc_ok1. intros F. destruct (b_error_fin c F) as [B V]. split; auto.
  destruct (b_value_error c B) as [[_ H]|[H _]]; [|congruence]. apply (proj1 (above_finite _ _ F)). auto.
Qed.

Lemma encl_step k (n : nat) (p q : list (mi * fl)) (e e' : fl) f v : 1 <= k ->
  (fin e' -> allfin p -> fin e /\ B2R e <= B2R e' /\ allfin q /\
     forall x, in_box n x -> Rabs (peval p x + v x - peval q x) <= k * (B2R e' - B2R e)) ->
  (fin e' -> fin e) -> encl k n (mkTM p e) f -> encl k n (mkTM q e') (fun z => f z + v z).
Proof.
  intros K H H0 E F. cbn [t_exp t_err] in *. destruct (E (H0 F)) as [A B]. cbn [t_exp t_err] in *.
  destruct (H F A) as (Fe & L & Q & I). split; auto. intros x X. specialize (B x X). specialize (I x X).
  replace (f x + v x - peval q x) with ((f x - peval p x) + (peval p x + v x - peval q x)) by ring.
  eapply Rle_trans; [apply abs_step; eassumption|]. lra.
Qed.

Lemma acc_gen k n (t : tmod) (c : bnd) v f : 1 <= k ->
  (forall x e, err_ok k (B2R x + v) (fst (add_err_b x c e)) e (snd (add_err_b x c e))) ->
  contains c v -> sized n (t_exp t) -> small_degrees (t_exp t) -> encl k n t f -> encl k n (tm_acc n t c) (fun z => f z + v).
Proof.
  intros K O C Z D E. unfold tm_acc. destruct (_ && _) eqn:E0.
  { rewrite (zero_contains c v E0 C). intros F. destruct (E F) as [A B]. split; auto. intros x X. rewrite Rplus_0_r. auto. }
  assert (encl k n (let '(rv, e) := set_err c (t_err t) in mkTM (t_exp t ++ [(repeat 0%N n, rv)]) e) (fun z => f z + v)) as Set_.
  { pose proof (set_err_ok c v (t_err t) C) as S. destruct (set_err c (t_err t)) as [rv e]. cbn [fst snd] in S.
    apply (encl_step k n (t_exp t) _ (t_err t) e f (fun _ => v)); [exact K|..].
    - intros Fe A. destruct (S Fe) as (Fr & Ft & Q & L). split; auto. split; auto. split.
      + apply Forall_app; split; auto.
      + intros x X. rewrite peval_app, peval_cons, peval_nil, (monom_zeros RTheory).
        replace (peval (t_exp t) x + v - (peval (t_exp t) x + (B2R rv * 1 + 0))) with (v - B2R rv) by ring. nra.
    - intros Fe. destruct (S Fe) as (Fr & Ft & _). auto.
    - rewrite tm_eta. auto. }
  destruct (rev (t_exp t)) as [|[a w] p] eqn:Er; auto.
  destruct (N.ltb_spec 0 (degree a)) as [_|Da]; auto.
  assert (t_exp t = rev p ++ [(a, w)]) as Et by (rewrite <- (rev_involutive (t_exp t)), Er; reflexivity).
  assert (a = repeat 0%N n) as ->.
  { unfold small_degrees, sized in *. rewrite Et in D, Z. apply Forall_app in D, Z. destruct D as [_ D], Z as [_ Z].
    apply Forall_inv in D, Z. cbn [fst] in *. rewrite <- Z. apply degree_zero; auto. lia. }
  specialize (O w (t_err t)). destruct (add_err_b w c (t_err t)) as [rv e]. cbn [fst snd] in O.
  apply (encl_step k n (t_exp t) _ (t_err t) e f (fun _ => v)); [exact K|..].
  - intros Fe A. destruct (O Fe) as (Fr & Ft & Q & L). split; auto. split; auto. rewrite Et in A |- *. apply Forall_app in A. destruct A as [A _]. split.
    + apply Forall_app; split; auto.
    + intros x X. rewrite !peval_app, !peval_cons, peval_nil, (monom_zeros RTheory).
      replace (peval (rev p) x + (B2R w * 1 + 0) + v - (peval (rev p) x + (B2R rv * 1 + 0))) with (B2R w + v - B2R rv) by ring. auto.
  - intros Fe. destruct (O Fe) as (Fr & Ft & _). auto.
  - rewrite tm_eta. auto.
Qed.
Lemma acc_wf n (t : tmod) (c : bnd) : small_degrees (t_exp t) -> well_formed n t -> well_formed n (tm_acc n t c).
Proof.
  intros D [Z S]. unfold tm_acc. destruct (_ && _); [split; auto|].
  assert (forall rv, Forall (fun m => fst m <> repeat 0%N n) (t_exp t) ->
     sized n (t_exp t ++ [(repeat 0%N n, rv : fl)]) /\ sorted reverse_lexicographic_less (t_exp t ++ [(repeat 0%N n, rv)])) as K.
  { intros rv H. split.
    - apply Forall_app. split; auto. constructor; auto. apply repeat_length.
    - apply sorted_snoc. split; auto. apply Forall_forall. intros [b d] I. cbn [fst].
      unfold sized in Z. rewrite Forall_forall in Z, H. specialize (Z _ I). specialize (H _ I). cbn [fst] in *.
      apply (less_total n _ (reverse_order n)); auto; [apply repeat_length|apply less_zeros; auto]. }
  destruct (rev (t_exp t)) as [|[a w] p] eqn:Er.
  { destruct (set_err c (t_err t)) as [rv e]. apply (K rv). rewrite <- (rev_involutive (t_exp t)), Er. constructor. }
  assert (t_exp t = rev p ++ [(a, w)]) as Et by (rewrite <- (rev_involutive (t_exp t)), Er; reflexivity).
  pose proof S as S0. rewrite Et in S0. unfold sorted in S0. rewrite sorted_snoc in S0. destruct S0 as [S1 S2].
  pose proof Z as Z0. unfold sized in Z0. rewrite Et in Z0. apply Forall_app in Z0. destruct Z0 as [Z1 Z2]. apply Forall_inv in Z2. cbn [fst] in *.
  destruct (N.ltb_spec 0 (degree a)) as [Da|Da].
  - destruct (set_err c (t_err t)) as [rv e]. apply (K rv). rewrite Et. apply Forall_app. split.
    + rewrite Forall_forall in *. intros [b d] I X. specialize (S2 _ I). cbn [fst] in S2, X. subst b. rewrite less_zeros in S2 by auto. discriminate.
    + constructor; auto. cbn [fst]. intros ->. rewrite degree_zeros in Da. lia.
  - destruct (add_err_b w c (t_err t)) as [rv e]. split; cbn [t_exp].
    + apply Forall_app. split; auto.
    + apply sorted_snoc. split; auto.
Qed.
Lemma acc_b_encl n (t : tmod) (c : bnd) v f : fin (b_value c) -> contains c v -> sized n (t_exp t) -> small_degrees (t_exp t) ->
  encl 2 n t f -> encl 2 n (tm_acc n t c) (fun z => f z + v).
Proof. intros F C Z D E. apply acc_gen; auto; [lra|]. intros. apply add_err_b_ok; auto. Qed.
Lemma acc_point_encl n (t : tmod) (q : fl) f : fin q -> 2 * Rabs (B2R q) < big -> sized n (t_exp t) -> small_degrees (t_exp t) ->
  encloses n t f -> encloses n (tm_acc n t (b_of q)) (fun z => f z + B2R q).
Proof.
  intros F C Z D E. apply acc_gen; auto; [lra| |].
  - intros. apply add_err_b_point; auto.
  - apply b_of_contains; auto.
Qed.
Lemma scal_b_encl n (t : tmod) (c : bnd) v f : fin (b_value c) -> contains c v -> encloses n t f -> encl 2 n (tm_scal_b t c) (fun z => v * f z).
Proof.
  intros F C E. apply scal_b_gen; auto; [lra|]. intros. rewrite (Rmult_comm v). apply mul_err_b_ok; auto.
Qed.
Lemma scal_point_encl n (t : tmod) (q : fl) f : fin q -> 2 * Rabs (B2R q) < big -> encloses n t f ->
  encloses n (tm_scal_b t (b_of q)) (fun z => B2R q * f z).
Proof.
  intros F C E. apply scal_b_gen; auto; [lra| |].
  - intros. rewrite (Rmult_comm (B2R q)). apply mul_err_b_point; auto.
  - apply b_of_contains; auto.
Qed.

(** ** Products *)
Lemma fma_row_nil xa (xv : fl) e : fma_row xa xv [] [] e = ([], e). Proof. reflexivity. Qed.
Lemma fma_row_mul xa (xv : fl) ya yv y e : fma_row xa xv [] ((ya, yv) :: y) e =
  let '(v, e1) := mul_err xv yv e in let '(q, e2) := fma_row xa xv [] y e1 in ((mi_plus xa ya, v) :: q, e2).
Proof. reflexivity. Qed.
Lemma fma_row_done xa (xv : fl) m r e : fma_row xa xv (m :: r) [] e = (m :: r, e). Proof. destruct m. reflexivity. Qed.
Lemma fma_row_cons xa (xv : fl) ra rv r ya yv y e : fma_row xa xv ((ra, rv) :: r) ((ya, yv) :: y) e =
  if mi_eqb ra (mi_plus xa ya) then
    let '(v, e1) := fma_err xv yv rv e in let '(q, e2) := fma_row xa xv r y e1 in ((mi_plus xa ya, v) :: q, e2)
  else if reverse_lexicographic_less ra (mi_plus xa ya) then
    let '(q, e') := fma_row xa xv r ((ya, yv) :: y) e in ((ra, rv) :: q, e')
  else let '(v, e1) := mul_err xv yv e in let '(q, e2) := fma_row xa xv ((ra, rv) :: r) y e1 in ((mi_plus xa ya, v) :: q, e2).
Proof. reflexivity. Qed.

Lemma monom_plus a : forall b x, length a = length b -> rmonom (plus a b) x = rmonom a x * rmonom b x.
Proof.
  induction a as [|u a IH]; intros [|w b] x L; cbn in *; try discriminate; [ring|].
  destruct x as [|y x]; [ring|]. rewrite IH by lia. rewrite N2Nat.inj_add, (power_add RTheory). ring.
Qed.
Lemma mi_plus_ok a : forall b, Forall (fun d => (d < 65536)%N) (plus a b) -> mi_plus a b = plus a b.
Proof.
  induction a as [|u a IH]; intros [|w b] F; cbn in *; auto. inversion_clear F. rewrite w16_small by auto. f_equal; auto.
Qed.
(** A term of [y] which can be multiplied by the index [xa]. *)
Definition row_ok n xa (y : list (mi * fl)) : Prop := length xa = n /\ Forall (fun m => length (fst m) = n /\ mi_plus xa (fst m) = plus xa (fst m)) y.

Lemma fma_row_ok k n xa (xv : fl) : 1 <= k -> forall (r y : list (mi * fl)) e, (r = [] \/ k = 2) ->
  row_ok n xa y -> allfin r -> fin (snd (fma_row xa xv r y e)) ->
  fin e /\ B2R e <= B2R (snd (fma_row xa xv r y e)) /\ allfin (fst (fma_row xa xv r y e)) /\
  forall x, unit_pt x -> Rabs (peval r x + B2R xv * rmonom xa x * peval y x - peval (fst (fma_row xa xv r y e)) x)
    <= k * (B2R (snd (fma_row xa xv r y e)) - B2R e).
Proof.
  intros K. induction r as [|[ra rv] r IHr].
  - induction y as [|[ya yv] y IHy]; intros e HK [Lx Y] A F.
    + rewrite fma_row_nil in *. cbn [fst snd] in *. split; auto. split; [lra|]. split; auto. intros x U. rewrite peval_nil.
      replace (0 + B2R xv * rmonom xa x * 0 - 0) with 0 by ring. rewrite Rabs_R0. lra.
    + pose proof (Forall_inv Y) as [Ly Py]. pose proof (Forall_inv_tail Y) as Y1. cbn [fst] in *. rewrite fma_row_mul in *.
      pose proof (mul_err_ok xv yv e) as O. destruct (mul_err xv yv e) as [v e1]. cbn [fst snd] in O.
      specialize (IHy e1 HK (conj Lx Y1) A). destruct (fma_row xa xv [] y e1) as [q e2]. cbn [fst snd] in *.
      destruct (IHy F) as (F1 & L1 & Q1 & I). destruct (O F1) as (Fv & Fe & Bv & Le).
      split; auto. split; [lra|]. split; [constructor; auto|]. intros x U. specialize (I x U). rewrite !peval_cons, peval_nil in *.
      rewrite Py, monom_plus by lia.
      replace (0 + B2R xv * rmonom xa x * (B2R yv * rmonom ya x + peval y x) - (B2R v * (rmonom xa x * rmonom ya x) + peval q x))
        with ((B2R xv * B2R yv - B2R v) * rmonom (plus xa ya) x + (0 + B2R xv * rmonom xa x * peval y x - peval q x))
        by (rewrite monom_plus by lia; ring).
      eapply Rle_trans; [apply abs_step; [eapply Rle_trans; [apply term_unit; auto|apply Bv]|apply I]|]. nra.
  - induction y as [|[ya yv] y IHy]; intros e HK [Lx Y] A F.
    + rewrite fma_row_done in *. cbn [fst snd] in *. split; auto. split; [lra|]. split; auto. intros x U. rewrite peval_nil.
      match goal with |- Rabs ?d <= _ => replace d with 0 by ring end. rewrite Rabs_R0. lra.
    + pose proof Y as Y0. pose proof (Forall_inv Y) as [Ly Py]. pose proof (Forall_inv_tail Y) as Y1. cbn [fst] in *. rewrite fma_row_cons in *.
      pose proof A as A00. inversion_clear A as [|? ? A0 A1]. cbn [snd] in A0. destruct HK as [HK|HK]; [discriminate|]. subst k.
      destruct (mi_eqb ra (mi_plus xa ya)) eqn:Q.
      * apply mi_eqb_eq in Q. subst ra.
        pose proof (fma_err_ok xv yv rv e) as O. destruct (fma_err xv yv rv e) as [v e1]. cbn [fst snd] in O.
        specialize (IHr y e1 (or_intror eq_refl) (conj Lx Y1) A1). destruct (fma_row xa xv r y e1) as [q e2]. cbn [fst snd] in *.
        destruct (IHr F) as (F1 & L1 & Q1 & I). destruct (O F1) as (Fv & Fe & Bv & Le).
        split; auto. split; [lra|]. split; [constructor; auto|]. intros x U. specialize (I x U). rewrite !peval_cons in *.
        rewrite Py, monom_plus by lia.
        replace (B2R rv * (rmonom xa x * rmonom ya x) + peval r x + B2R xv * rmonom xa x * (B2R yv * rmonom ya x + peval y x)
                 - (B2R v * (rmonom xa x * rmonom ya x) + peval q x))
          with ((B2R xv * B2R yv + B2R rv - B2R v) * rmonom (plus xa ya) x + (peval r x + B2R xv * rmonom xa x * peval y x - peval q x))
          by (rewrite monom_plus by lia; ring).
        eapply Rle_trans; [apply abs_step; [eapply Rle_trans; [apply term_unit; auto|apply Bv]|apply I]|]. lra.
      * destruct (reverse_lexicographic_less ra (mi_plus xa ya)).
        -- specialize (IHr ((ya, yv) :: y) e (or_intror eq_refl) (conj Lx Y0) A1). destruct (fma_row xa xv r ((ya, yv) :: y) e) as [q e2]. cbn [fst snd] in *.
           destruct (IHr F) as (F1 & L1 & Q1 & I). split; auto. split; auto. split; [constructor; auto|].
           intros x U. specialize (I x U). rewrite !peval_cons in *.
           match goal with H : Rabs ?d <= _ |- Rabs ?d' <= _ => replace d' with d by ring end. auto.
        -- pose proof (mul_err_ok xv yv e) as O. destruct (mul_err xv yv e) as [v e1]. cbn [fst snd] in O.
           specialize (IHy e1 (or_intror eq_refl) (conj Lx Y1) A00). destruct (fma_row xa xv ((ra, rv) :: r) y e1) as [q e2]. cbn [fst snd] in *.
           destruct (IHy F) as (F1 & L1 & Q1 & I). destruct (O F1) as (Fv & Fe & Bv & Le).
           split; auto. split; [lra|]. split; [constructor; auto|]. intros x U. specialize (I x U). rewrite !peval_cons in *.
           rewrite Py, monom_plus by lia.
           replace (B2R rv * rmonom ra x + peval r x + B2R xv * rmonom xa x * (B2R yv * rmonom ya x + peval y x)
                 - (B2R v * (rmonom xa x * rmonom ya x) + peval q x))
             with ((B2R xv * B2R yv - B2R v) * rmonom (plus xa ya) x +
                   (B2R rv * rmonom ra x + peval r x + B2R xv * rmonom xa x * peval y x - peval q x))
             by (rewrite monom_plus by lia; ring).
           eapply Rle_trans; [apply abs_step; [eapply Rle_trans; [apply term_unit; auto|apply Bv]|apply I]|]. lra.
Qed.

Lemma fma_row_forall xa (xv : fl) (P : mi -> Prop) : forall (r y : list (mi * fl)) e, Forall P (map fst r) ->
  Forall (fun m => P (mi_plus xa (fst m))) y -> Forall P (map fst (fst (fma_row xa xv r y e))).
Proof.
  induction r as [|[ra rv] r IHr].
  - induction y as [|[ya yv] y IHy]; intros e HR HY; [constructor|]. inversion_clear HY as [|? ? Y0 Y1]. rewrite fma_row_mul.
    destruct (mul_err xv yv e) as [v e1]. specialize (IHy e1 HR Y1). destruct (fma_row xa xv [] y e1). constructor; auto.
  - induction y as [|[ya yv] y IHy]; intros e HR HY; [rewrite fma_row_done; auto|].
    pose proof HY as HY0. pose proof HR as HR0. inversion_clear HY as [|? ? Y0 Y1]. cbn [map fst] in *. inversion_clear HR as [|? ? R0 R1].
    rewrite fma_row_cons. destruct (mi_eqb ra (mi_plus xa ya)).
    + destruct (fma_err xv yv rv e) as [v e1]. specialize (IHr y e1 R1 Y1). destruct (fma_row xa xv r y e1). constructor; auto.
    + destruct (reverse_lexicographic_less ra (mi_plus xa ya)).
      * specialize (IHr ((ya, yv) :: y) e R1 HY0). destruct (fma_row xa xv r ((ya, yv) :: y) e). constructor; auto.
      * destruct (mul_err xv yv e) as [v e1]. specialize (IHy e1 HR0 Y1). destruct (fma_row xa xv ((ra, rv) :: r) y e1). constructor; auto.
Qed.
Lemma row_keys n xa ya (yv : fl) y : row_ok n xa ((ya, yv) :: y) -> sorted reverse_lexicographic_less ((ya, yv) :: y) ->
  Forall (fun m => length (mi_plus xa (fst m)) = n /\ keys_lt (mi_plus xa ya) (mi_plus xa (fst m))) y.
Proof.
  intros [Lx Y] S. apply StronglySorted_inv in S. destruct S as [_ S]. pose proof (Forall_inv Y) as [Ly Py]. pose proof (Forall_inv_tail Y) as Y1. cbn [fst] in *.
  rewrite Forall_forall in *. intros [b d] I. specialize (S _ I). destruct (Y1 _ I) as [Lm Pm]. cbn [fst] in *. rewrite Pm, Py.
  rewrite plus_length by lia. split; auto. unfold keys_lt.
  assert (forall b, length b = n -> plus xa b = plus b xa) as Cm.
  { clear - Lx. intros b' Lb. subst n. revert b' Lb. induction xa as [|u xa IH]; intros [|w b'] L; cbn in *; try discriminate; auto.
    f_equal; [apply N.add_comm|apply IH; lia]. }
  rewrite !Cm by auto. rewrite reverse_plus by lia. auto.
Qed.
Lemma fma_row_sorted n xa (xv : fl) : forall (r y : list (mi * fl)) e, sized n r -> row_ok n xa y ->
  sorted reverse_lexicographic_less r -> sorted reverse_lexicographic_less y ->
  sorted reverse_lexicographic_less (fst (fma_row xa xv r y e)).
Proof.
  induction r as [|[ra rv] r IHr].
  - induction y as [|[ya yv] y IHy]; intros e Zr Ry Sr Sy; [constructor|]. rewrite fma_row_mul.
    destruct (mul_err xv yv e) as [v e1].
    pose proof (fma_row_forall xa xv (fun b => length b = n /\ keys_lt (mi_plus xa ya) b) [] y e1 (Forall_nil _) (row_keys _ _ _ _ _ Ry Sy)) as M.
    destruct Ry as [Lx Ry]. specialize (IHy e1 Zr (conj Lx (Forall_inv_tail Ry)) Sr (proj1 (StronglySorted_inv Sy))).
    destruct (fma_row xa xv [] y e1). cbn [fst] in *. apply keys_head with n; auto.
  - induction y as [|[ya yv] y IHy]; intros e Zr Ry Sr Sy; [rewrite fma_row_done; auto|].
    pose proof (row_keys _ _ _ _ _ Ry Sy) as RK. pose proof Zr as Zr0. inversion_clear Zr as [|? ? Z0 Z1]. cbn [fst] in Z0.
    destruct (sorted_tail n _ _ _ Z1 Sr) as [Sr1 Hr]. pose proof Ry as Ry0. destruct Ry as [Lx Ry]. pose proof (Forall_inv Ry) as [Ly Py]. cbn [fst] in *.
    assert (length (mi_plus xa ya) = n) as Lt by (rewrite Py, plus_length; lia).
    rewrite fma_row_cons. destruct (mi_eqb ra (mi_plus xa ya)) eqn:Q.
    + apply mi_eqb_eq in Q. subst ra. destruct (fma_err xv yv rv e) as [v e1].
      pose proof (fma_row_forall xa xv (fun b => length b = n /\ keys_lt (mi_plus xa ya) b) r y e1 Hr RK) as M.
      specialize (IHr y e1 Z1 (conj Lx (Forall_inv_tail Ry)) Sr1 (proj1 (StronglySorted_inv Sy))).
      destruct (fma_row xa xv r y e1). cbn [fst] in *. apply keys_head with n; auto.
    + destruct (reverse_lexicographic_less ra (mi_plus xa ya)) eqn:L.
      * pose proof (fma_row_forall xa xv (fun b => length b = n /\ keys_lt ra b) r ((ya, yv) :: y) e Hr) as M.
        specialize (IHr ((ya, yv) :: y) e Z1 Ry0 Sr1 Sy).
        destruct (fma_row xa xv r ((ya, yv) :: y) e). cbn [fst] in *. apply keys_head with n; auto. apply M. constructor; auto.
        eapply Forall_impl; [|exact RK]. cbn. intros m [Lm Km]. split; auto. apply keys_trans with n (mi_plus xa ya); auto.
      * assert (reverse_lexicographic_less (mi_plus xa ya) ra = true) as L2.
        { apply (less_total n _ (reverse_order n)); auto. apply mi_eqb_neq; auto. }
        destruct (mul_err xv yv e) as [v e1].
        pose proof (fma_row_forall xa xv (fun b => length b = n /\ keys_lt (mi_plus xa ya) b) ((ra, rv) :: r) y e1) as M.
        specialize (IHy e1 Zr0 (conj Lx (Forall_inv_tail Ry)) Sr (proj1 (StronglySorted_inv Sy))).
        destruct (fma_row xa xv ((ra, rv) :: r) y e1). cbn [fst] in *. apply keys_head with n; auto. apply M; auto.
        cbn [map fst]. constructor; auto. apply lt_all with ra; auto.
Qed.

Definition rows_ok n (x y : list (mi * fl)) : Prop := Forall (fun m => row_ok n (fst m) y) x.
Lemma rows_intro n (x y : list (mi * fl)) : sized n x -> sized n y -> no_index_overflow x y -> rows_ok n x y.
Proof.
  intros Zx Zy N. unfold rows_ok, no_index_overflow, sized in *. rewrite Forall_forall in *. intros m I. split; auto.
  rewrite Forall_forall. specialize (N m I). rewrite Forall_forall in *. intros m' I'. split; auto. apply mi_plus_ok; auto.
Qed.

Lemma fma_rows_encl k n swp : 1 <= k -> forall (x y : list (mi * fl)) (r : tmod) h, (t_exp r = [] /\ (length x <= 1)%nat \/ k = 2) ->
  rows_ok n x y -> encl k n r h ->
  encl k n (fma_rows swp x y r) (fun z => h z + peval x z * peval y z).
Proof.
  intros K. induction x as [|[xa xv] x IH]; intros y r h HK X E.
  - intros F. destruct (E F) as [A B]. split; auto. intros z Z. rewrite peval_nil. replace (h z + 0 * peval y z) with (h z) by ring. auto.
  - inversion_clear X as [|? ? X0 X1]. cbn [fst] in X0. cbn [fma_rows].
    pose proof (fma_row_ok k n xa xv K (t_exp r) y fzero) as O.
    destruct (fma_row xa xv (t_exp r) y fzero) as [q te]. cbn [fst snd] in O.
    assert (encl k n (sweep swp (mkTM q (fadd up (t_err r) te))) (fun z => h z + B2R xv * rmonom xa z * peval y z)) as E1.
    { apply sweep_encl; auto. intros F. cbn [t_err t_exp] in *. destruct (fadd_fin _ _ _ F) as [Fr Ft]. destruct (E Fr) as [A B].
      destruct O as (_ & L & Q & I); auto; [tauto|]. split; auto. intros z Z. specialize (B z Z). specialize (I z (proj2 Z)).
      pose proof (fadd_up_ge _ _ F). cbn [fzero B2R] in *.
      replace (h z + B2R xv * rmonom xa z * peval y z - peval q z)
        with ((h z - peval (t_exp r) z) + (peval (t_exp r) z + B2R xv * rmonom xa z * peval y z - peval q z)) by ring.
      eapply Rle_trans; [apply abs_step; eassumption|]. nra. }
    assert (x = [] \/ k = 2) as HK'. { destruct HK as [[_ L]|]; auto. left. destruct x; auto. cbn in L. lia. }
    destruct HK' as [->|HK'].
    + cbn [fma_rows]. intros F. destruct (E1 F) as [A B]. split; auto. intros z Z. specialize (B z Z). rewrite peval_cons, peval_nil.
      replace (h z + (B2R xv * rmonom xa z + 0) * peval y z) with (h z + B2R xv * rmonom xa z * peval y z) by ring. auto.
    + intros F. destruct (IH y _ _ (or_intror HK') X1 E1 F) as [A B]. split; auto. intros z Z. specialize (B z Z). rewrite peval_cons.
      replace (h z + (B2R xv * rmonom xa z + peval x z) * peval y z) with (h z + B2R xv * rmonom xa z * peval y z + peval x z * peval y z) by ring. auto.
Qed.
Lemma fma_rows_wf n swp : forall (x y : list (mi * fl)) (r : tmod), rows_ok n x y -> sorted reverse_lexicographic_less y ->
  well_formed n r -> well_formed n (fma_rows swp x y r).
Proof.
  induction x as [|[xa xv] x IH]; intros y r X Sy Wr; auto. inversion_clear X as [|? ? X0 X1]. cbn [fst] in X0. cbn [fma_rows].
  destruct Wr as [Zr Sr]. pose proof (fma_row_sorted n xa xv (t_exp r) y fzero Zr X0 Sr Sy) as S.
  pose proof (fma_row_forall xa xv (fun b => length b = n) (t_exp r) y fzero) as P.
  destruct (fma_row xa xv (t_exp r) y fzero) as [q te]. cbn [fst] in *. apply IH; auto. apply sweep_wf. split; cbn [t_exp]; auto.
  apply sized_keys. apply P; [apply sized_keys; auto|]. destruct X0 as [Lx Y]. eapply Forall_impl; [|exact Y]. cbn. intros [b d] [Lm Pm]. cbn [fst] in *.
  rewrite Pm, plus_length; lia.
Qed.

Lemma mag_sum_ok : forall (p : list (mi * fl)) s, fin (mag_sum p s) -> fin s /\ allfin p /\ B2R s <= B2R (mag_sum p s) /\
  forall x, unit_pt x -> B2R s + Rabs (peval p x) <= B2R (mag_sum p s).
Proof.
  induction p as [|[a c] p IH]; intros s F; unfold mag_sum in *; cbn [fold_left snd] in *.
  - split; auto. split; [constructor|]. split; [lra|]. intros. rewrite peval_nil, Rabs_R0. lra.
  - destruct (IH _ F) as (F1 & A & L & I). destruct (fadd_fin _ _ _ F1) as [Fs Fc]. pose proof (fadd_up_ge _ _ F1) as G.
    rewrite fabs_val in G. rewrite fabs_fin in Fc. pose proof (Rabs_pos (B2R c)). split; auto. split; [constructor; auto|]. split; [lra|].
    intros x U. specialize (I x U). rewrite peval_cons. pose proof (term_unit (B2R c) a x U).
    pose proof (Rabs_triang (B2R c * rmonom a x) (peval p x)). lra.
Qed.

Lemma ifma_encl k n swp (r x y : tmod) h f g : 1 <= k -> (t_exp r = [] /\ (length (t_exp x) <= 1)%nat \/ k = 2) ->
  sized n (t_exp x) -> sized n (t_exp y) -> no_index_overflow (t_exp x) (t_exp y) ->
  encl k n r h -> encloses n x f -> encloses n y g -> encl k n (tm_ifma swp r x y) (fun z => h z + f z * g z).
Proof.
  intros K HK Zx Zy N Er Ex Ey. pose proof (fma_rows_encl k n swp K (t_exp x) (t_exp y) r h HK (rows_intro _ _ _ Zx Zy N) Er) as E.
  unfold tm_ifma. set (r' := fma_rows swp (t_exp x) (t_exp y) r) in *. intros F. cbn [t_err t_exp] in *.
  destruct (fadd_fin _ _ _ F) as [F1 F2]. destruct (fadd_fin _ _ _ F1) as [Fr Fxy]. destruct (fadd_fin _ _ _ F2) as [Fs1 Fs2].
  destruct (fmul_fin _ _ _ Fxy) as [Fx Fy]. destruct (fmul_fin _ _ _ Fs1) as [Fxs _]. destruct (fmul_fin _ _ _ Fs2) as [Fys _].
  pose proof (fadd_up_ge _ _ F). pose proof (fadd_up_ge _ _ F1). pose proof (fadd_up_ge _ _ F2).
  pose proof (fmul_up_ge _ _ Fxy). pose proof (fmul_up_ge _ _ Fs1). pose proof (fmul_up_ge _ _ Fs2).
  destruct (E Fr) as [A B]. destruct (Ex Fx) as [_ Bx]. destruct (Ey Fy) as [_ By].
  destruct (mag_sum_ok _ _ Fxs) as (_ & _ & _ & Ix). destruct (mag_sum_ok _ _ Fys) as (_ & _ & _ & Iy). cbn [fzero B2R] in *.
  split; auto. intros z Z. specialize (B z Z). specialize (Bx z Z). specialize (By z Z). specialize (Ix z (proj2 Z)). specialize (Iy z (proj2 Z)).
  set (px := peval (t_exp x) z) in *. set (py := peval (t_exp y) z) in *.
  set (xs := mag_sum (t_exp x) fzero) in *. set (ys := mag_sum (t_exp y) fzero) in *.
  replace (h z + f z * g z - peval (t_exp r') z) with
    ((h z + px * py - peval (t_exp r') z) + (((f z - px) * (g z - py) + px * (g z - py)) + py * (f z - px))) by ring.
  assert (Rabs (px * (g z - py)) <= B2R xs * B2R (t_err y)) as P1.
  { rewrite Rabs_mult. apply Rmult_le_compat; try apply Rabs_pos; lra. }
  assert (Rabs (py * (f z - px)) <= B2R ys * B2R (t_err x)) as P2.
  { rewrite Rabs_mult. apply Rmult_le_compat; try apply Rabs_pos; lra. }
  assert (Rabs ((f z - px) * (g z - py)) <= B2R (t_err x) * B2R (t_err y)) as P3.
  { rewrite Rabs_mult. apply Rmult_le_compat; try apply Rabs_pos; lra. }
  pose proof (abs_step _ _ _ _ P3 P1) as P4. pose proof (abs_step _ _ _ _ P4 P2) as P5.
  eapply Rle_trans; [apply abs_step; [exact B|exact P5]|].
  pose proof (Rabs_pos ((f z - px) * (g z - py) + px * (g z - py) + py * (f z - px))). nra.
Qed.
Lemma ifma_wf n swp (r x y : tmod) : sized n (t_exp x) -> no_index_overflow (t_exp x) (t_exp y) -> well_formed n r -> well_formed n y ->
  well_formed n (tm_ifma swp r x y).
Proof.
  intros Zx N Wr [Zy Sy]. pose proof (fma_rows_wf n swp (t_exp x) (t_exp y) r (rows_intro _ _ _ Zx Zy N) Sy Wr) as [Z S].
  split; cbn [tm_ifma t_exp]; auto.
Qed.
Lemma nil_encl k n : encl k n (mkTM [] fzero : tmod) (fun _ => 0).
Proof.
  intros _. split; [constructor|]. intros. cbn [t_exp t_err fzero B2R]. rewrite peval_nil, Rminus_0_r, Rabs_R0. lra.
Qed.
Lemma mul_encl k n swp (x y : tmod) f g : 1 <= k -> ((length (t_exp x) <= 1)%nat \/ k = 2) ->
  sized n (t_exp x) -> sized n (t_exp y) -> no_index_overflow (t_exp x) (t_exp y) ->
  encloses n x f -> encloses n y g -> encl k n (tm_mul swp x y) (fun z => f z * g z).
Proof.
  intros K HK Zx Zy N Ex Ey. unfold tm_mul. intros F.
  destruct (ifma_encl k n swp (mkTM [] fzero) x y (fun _ => 0) f g K) as [A B]; auto.
  - cbn [t_exp]. tauto.
  - apply nil_encl.
  - split; auto. intros z Z. specialize (B z Z). rewrite Rplus_0_l in B. auto.
Qed.
Lemma mul_wf n swp (x y : tmod) : sized n (t_exp x) -> no_index_overflow (t_exp x) (t_exp y) -> well_formed n y -> well_formed n (tm_mul swp x y).
Proof. intros. apply ifma_wf; auto. split; cbn [t_exp]; constructor. Qed.

(** ** Removing repeated indices *)
Lemma unique_from_ok : forall (p : list (mi * fl)) a v e, allfin p -> fin v -> fin (snd (unique_from a v p e)) ->
  fin e /\ B2R e <= B2R (snd (unique_from a v p e)) /\ allfin (fst (unique_from a v p e)) /\
  forall x, unit_pt x -> Rabs (B2R v * rmonom a x + peval p x - peval (fst (unique_from a v p e)) x)
     <= B2R (snd (unique_from a v p e)) - B2R e.
Proof.
  induction p as [|[b c] p IH]; intros a v e A V F; cbn [unique_from] in *.
  - cbn [fst snd] in *. split; auto. split; [lra|]. split; [constructor; auto|]. intros x U. rewrite peval_cons.
    match goal with |- Rabs ?d <= _ => replace d with 0 by ring end. rewrite Rabs_R0. lra.
  - inversion_clear A as [|? ? A0 A1]. cbn [snd] in A0. destruct (mi_eqb b a) eqn:Q.
    + apply mi_eqb_eq in Q. subst b. pose proof (add_err_ok v c e) as O. destruct (add_err v c e) as [w e1]. cbn [fst snd] in O.
      assert (fin e1) as F0. { clear - F. revert a w e1 F. induction p as [|[b d] p IH]; intros a w e1 F; cbn [unique_from] in F; auto.
        destruct (mi_eqb b a); [|specialize (IH b d e1); destruct (unique_from b d p e1); auto].
        unfold add_err in F. apply IH in F. apply fadd_fin in F. tauto. }
      destruct (O F0) as (Fw & Fe & Bw & Le). destruct (IH a w e1 A1 Fw F) as (F1 & L1 & Q1 & I).
      split; auto. split; [lra|]. split; auto. intros x U. specialize (I x U). rewrite peval_cons.
      set (q := peval (fst (unique_from a w p e1)) x) in *.
      replace (B2R v * rmonom a x + (B2R c * rmonom a x + peval p x) - q) with
        ((B2R v + B2R c - B2R w) * rmonom a x + (B2R w * rmonom a x + peval p x - q)) by ring.
      eapply Rle_trans; [apply abs_step; [eapply Rle_trans; [apply term_unit; auto|apply Bw]|apply I]|]. lra.
    + specialize (IH b c e A1 A0). destruct (unique_from b c p e) as [q e']. cbn [fst snd] in *. destruct (IH F) as (F1 & L1 & Q1 & I).
      split; auto. split; auto. split; [constructor; auto|]. intros x U. specialize (I x U). rewrite !peval_cons in *.
      match goal with H : Rabs ?d <= _ |- Rabs ?d' <= _ => replace d' with d by ring end. auto.
Qed.
Lemma unique_encl n (t : tmod) f : encloses n t f -> encloses n (tm_unique t) f.
Proof.
  intros E. unfold tm_unique. destruct (t_exp t) as [|[a v] p] eqn:Et.
  - intros F. cbn [t_err t_exp] in *. destruct (fadd_fin _ _ _ F) as [Fe _]. destruct (E Fe) as [A B]. split; [constructor|].
    intros x X. specialize (B x X). rewrite Et in B. pose proof (fadd_up_ge _ _ F). cbn [fzero B2R] in *. lra.
  - pose proof (unique_from_ok p a v fzero) as O. destruct (unique_from a v p fzero) as [q e]. cbn [fst snd] in O.
    apply combine_encl with (g := peval (t_exp t)); [|lra]. intros Fe Fd. destruct (E Fe) as [A B]. rewrite Et in A.
    inversion_clear A as [|? ? A0 A1]. cbn [snd] in A0. destruct (O A1 A0 Fd) as (_ & L & Q & I). split; auto. intros x X.
    specialize (B x X). specialize (I x (proj2 X)). cbn [fzero B2R] in *. split; auto. rewrite Et, peval_cons. lra.
Qed.

(** ** Norms *)
Lemma norm_sound n (t : tmod) f z : encloses n t f -> in_box n z -> fin (tm_norm t) -> Rabs (f z) <= B2R (tm_norm t).
Proof.
  intros E Z F. unfold tm_norm in *. destruct (fadd_fin _ _ _ F) as [Fm Fe]. destruct (E Fe) as [_ B]. specialize (B z Z).
  destruct (mag_sum_ok _ _ Fm) as (_ & _ & _ & I). specialize (I z (proj2 Z)). pose proof (fadd_up_ge _ _ F). cbn [fzero B2R] in *.
  pose proof (Rabs_triang (f z - peval (t_exp t) z) (peval (t_exp t) z)) as T.
  replace (f z - peval (t_exp t) z + peval (t_exp t) z) with (f z) in T by ring. lra.
Qed.
Lemma value_split n (p : list (mi * fl)) x : sized n p -> small_degrees p -> sorted reverse_lexicographic_less p ->
  peval p x = B2R (e_get fzero p (repeat 0%N n)) + peval (filter (fun m => negb (degree (fst m) =? 0)%N) p) x.
Proof.
  intros Z D S. pose proof (sorted_nodup n _ (reverse_order n) p Z S) as N. clear S.
  assert (forall p : list (mi * fl), sized n p -> small_degrees p -> ~ In (repeat 0%N n) (map fst p) ->
     filter (fun m => negb (degree (fst m) =? 0)%N) p = p) as K.
  { clear. induction p as [|[a c] p IH]; intros Z D I; auto. inversion_clear Z as [|? ? Z0 Z1]. inversion_clear D as [|? ? D0 D1]. cbn [map fst In filter] in *.
    destruct (N.eqb_spec (degree a) 0) as [E|E]; cbn [negb].
    - exfalso. apply I. left. rewrite (degree_zero a D0 E), Z0. auto.
    - rewrite IH; auto. }
  induction p as [|[a c] p IH]; cbn [e_get map fst] in *; [cbn [filter fzero B2R]; rewrite peval_nil; ring|].
  inversion_clear Z as [|? ? Z0 Z1]. inversion_clear D as [|? ? D0 D1]. inversion_clear N as [|? ? N0 N1]. cbn [fst filter] in *.
  destruct (mi_eqb a (repeat 0%N n)) eqn:Q.
  - apply mi_eqb_eq in Q. subst a. rewrite degree_zeros. cbn [N.eqb negb]. rewrite K, peval_cons, (monom_zeros RTheory); auto. ring.
  - destruct (N.eqb_spec (degree a) 0) as [E|E]; cbn [negb].
    + exfalso. apply mi_eqb_neq in Q. apply Q. rewrite (degree_zero a D0 E), Z0. auto.
    + rewrite !peval_cons, IH; auto. ring.
Qed.
Lemma radius_sound n (t : tmod) f z : well_formed n t -> small_degrees (t_exp t) -> encloses n t f -> in_box n z -> fin (tm_radius t) ->
  Rabs (f z - B2R (tm_value n t)) <= B2R (tm_radius t).
Proof.
  intros [Zs S] D E Z F. unfold tm_radius, tm_value in *. destruct (fadd_fin _ _ _ F) as [Fm Fe]. destruct (E Fe) as [_ B]. specialize (B z Z).
  destruct (mag_sum_ok _ _ Fm) as (_ & _ & _ & I). specialize (I z (proj2 Z)). pose proof (fadd_up_ge _ _ F).
  rewrite (value_split n) in B; auto. cbn [fzero B2R] in I.
  set (v := B2R (e_get fzero (t_exp t) (repeat 0%N n))) in *. set (q := peval (filter _ _) z) in *.
  pose proof (Rabs_triang (f z - (v + q)) q) as T. replace (f z - (v + q) + q) with (f z - v) in T by ring. lra.
Qed.

(** ** Comparisons *)
Definition notmi (f : fl) : Prop := f <> B754_infinity true.
Lemma rounded_up_notmi r (f : fl) : rounded up r f -> notmi f.
Proof. intros H ->. apply rounded_up_above in H. cbn in H. tauto || discriminate. Qed.
Lemma fin_notmi (f : fl) : fin f -> notmi f.
Proof. intros F ->. discriminate. Qed.
Lemma fadd_notmi (x y : fl) : notmi x -> notmi y -> notmi (fadd up x y).
Proof.
  intros X Y. destruct (is_finite x) eqn:Fx, (is_finite y) eqn:Fy.
  - eapply rounded_up_notmi, fadd_rounded; auto.
  - destruct y as [|[]| |]; try discriminate; destruct x as [|[]| |]; cbn; try discriminate; congruence.
  - destruct x as [|[]| |]; try discriminate; destruct y as [|[]| |]; cbn; try discriminate; congruence.
  - destruct x as [|[]| |], y as [|[]| |]; cbn; try discriminate; congruence.
Qed.
Lemma fhlf_notmi (x : fl) : notmi x -> notmi (fhlf up x).
Proof.
  intros X. destruct (is_finite x) eqn:Fx.
  - eapply rounded_up_notmi, fdiv_rounded; auto. rewrite (proj1 ftwo_val). lra.
  - destruct x as [|[]| |]; try discriminate; try congruence; try (rewrite fhlf_inf; discriminate).
Qed.
Lemma fabs_notmi (x : fl) : notmi (fabs x).
Proof. destruct x as [|[]| |]; discriminate. Qed.
Lemma mag_sum_notmi : forall (p : list (mi * fl)) s, notmi s -> notmi (mag_sum p s).
Proof. induction p as [|[a c] p IH]; intros s S; unfold mag_sum in *; cbn [fold_left snd]; auto. apply IH. apply fadd_notmi; auto. apply fabs_notmi. Qed.
Lemma sweep_notmi swp (t : tmod) : notmi (t_err t) -> notmi (t_err (sweep swp t)).
Proof.
  intros E. unfold sweep. assert (forall d (p : list (mi * fl)) te, notmi te -> notmi (snd (sweep_terms d p te))) as K.
  { intros d. induction p as [|[a c] p IH]; intros te T; cbn [sweep_terms]; auto. destruct (d a c).
    - apply IH, fadd_notmi; auto. apply fabs_notmi.
    - specialize (IH te T). destruct (sweep_terms d p te). auto. }
  specialize (K (swp (t_exp t) (t_err t)) (t_exp t) fzero). destruct (sweep_terms _ _ _) as [q te]. cbn [t_err snd] in *.
  apply fadd_notmi; auto. apply K. discriminate.
Qed.
Lemma norm_notmi (t : tmod) : notmi (t_err t) -> notmi (tm_norm t).
Proof. intros E. apply fadd_notmi; auto. apply mag_sum_notmi. discriminate. Qed.
Lemma sub_err_notmi (c d e : fl) : fin c -> fin d -> notmi e -> notmi (snd (sub_err c d e)).
Proof.
  intros C D E. unfold sub_err; cbn [snd]. apply fadd_notmi; auto. apply fhlf_notmi, fadd_notmi.
  - eapply rounded_up_notmi, fsub_rounded; auto.
  - eapply rounded_up_notmi, fadd_rounded; auto. rewrite fneg_fin; auto.
Qed.
Lemma merge_notmi op g : (forall c d e, fin c -> fin d -> notmi e -> notmi (snd (op c d e))) ->
  forall (p q : list (mi * fl)) e, allfin p -> allfin q -> notmi e -> notmi (snd (merge op g p q e)).
Proof.
  intros O. induction p as [|[xa xv] p IHp]; [intros; auto|].
  induction q as [|[ya yv] q IHq]; intros e A B E; [auto|].
  pose proof A as A'. pose proof B as B'. inversion_clear A as [|? ? A0 A1]. inversion_clear B as [|? ? B0 B1]. cbn [snd] in *.
  cbn [merge]. destruct (reverse_lexicographic_less xa ya).
  - specialize (IHp ((ya, yv) :: q) e A1 B' E). destruct (merge op g p ((ya, yv) :: q) e). auto.
  - destruct (reverse_lexicographic_less ya xa).
    + specialize (IHq e A' B1 E). cbn [merge] in IHq.
      match goal with H : context [snd ?m] |- context [let '(_, _) := ?m in _] => destruct m end. auto.
    + specialize (O xv yv e A0 B0 E). destruct (op xv yv e) as [v e1]. specialize (IHp q e1 A1 B1 O). destruct (merge op g p q e1). auto.
Qed.
Lemma le_fin (f g : fl) : flt_le f g = true -> fin g -> notmi f -> fin f /\ B2R f <= B2R g.
Proof.
  intros L G N. destruct (is_finite f) eqn:F.
  - split; auto. apply (proj1 (flt_le_finite f g F G)) in L. auto.
  - exfalso. destruct f as [|[]| |]; try discriminate; try congruence; destruct g as [|[]| |]; discriminate.
Qed.

Lemma refines_sound n swp (t1 t2 : tmod) f : ge0 (t_err t1) = true -> sized n (t_exp t1) -> sized n (t_exp t2) -> allfin (t_exp t2) ->
  tm_refines swp t1 t2 = true -> encloses n t1 f -> encloses n t2 f.
Proof.
  intros P Z1 Z2 A2 T E F2. split; auto. unfold tm_refines in T.
  set (p2 := mkTM (t_exp t2) fzero : tmod) in *. set (d := tm_sub swp p2 t1) in *.
  assert (encloses n p2 (peval (t_exp t2))) as E2.
  { intros _. split; auto. intros. cbn [p2 t_exp t_err fzero B2R]. rewrite Rminus_diag_eq, Rabs_R0 by reflexivity. lra. }
  assert (notmi (t_err d)) as ND.
  { unfold d, tm_sub. cbn [p2 t_exp t_err].
    assert (fin (t_err t1) -> notmi (snd (merge sub_err fneg (t_exp t2) (t_exp t1) fzero))) as NM.
    { intros F1. apply merge_notmi; auto; [apply sub_err_notmi|apply (E F1)|discriminate]. }
    destruct (merge sub_err fneg (t_exp t2) (t_exp t1) fzero) as [q e]. cbn [snd] in NM. apply sweep_notmi. cbn [t_err].
    destruct (is_finite (t_err t1)) eqn:F1.
    - repeat apply fadd_notmi; auto; try discriminate. apply fin_notmi; auto.
    - destruct (t_err t1) as [|[]| |]; try discriminate.
      + intros X. destruct (fadd up fzero e) as [|[]| |]; cbn in X; discriminate.
      + intros X. destruct (fadd up fzero e) as [|[]| |]; cbn in X; discriminate. }
  pose proof (sub_encl n swp p2 t1 _ f Z2 Z1 E2 E) as ED.
  destruct (le_fin _ _ T F2 (norm_notmi _ ND)) as [FN LN].
  intros x X. pose proof (norm_sound n d _ x ED X FN) as NS. cbn beta in NS. rewrite Rabs_minus_sym. lra.
Qed.

Lemma peval_origin n (p : list (mi * fl)) : sized n p -> sorted reverse_lexicographic_less p ->
  peval p (repeat 0 n) = B2R (e_get fzero p (repeat 0%N n)).
Proof.
  intros Z S. pose proof (sorted_nodup n _ (reverse_order n) p Z S) as N. clear S.
  assert (forall a, length a = n -> a <> repeat 0%N n -> rmonom a (repeat 0 n) = 0) as M.
  { clear. intros a <- NE. induction a as [|u a IH]; [destruct NE; reflexivity|]. cbn [length repeat] in *. cbn [monom].
    destruct (N.eq_dec u 0) as [->|U].
    - rewrite IH; [ring|]. intros E; apply NE; f_equal; exact E.
    - destruct (N.to_nat u) eqn:E; [lia|]. cbn [power]. ring. }
  assert (forall p : list (mi * fl), sized n p -> ~ In (repeat 0%N n) (map fst p) -> peval p (repeat 0 n) = 0) as K.
  { clear - M. induction p as [|[a c] p IH]; intros Z I; [apply peval_nil|]. inversion_clear Z as [|? ? Z0 Z1]. cbn [map fst In] in *.
    rewrite peval_cons, IH, M; auto. ring. }
  induction p as [|[a c] p IH]; [reflexivity|]. inversion_clear Z as [|? ? Z0 Z1]. cbn [map fst e_get] in *. inversion_clear N as [|? ? N0 N1].
  rewrite peval_cons. destruct (mi_eqb a (repeat 0%N n)) eqn:Q.
  - apply mi_eqb_eq in Q. subst a. rewrite K, (monom_zeros RTheory); auto. ring.
  - apply mi_eqb_neq in Q. rewrite M, IH; auto. ring.
Qed.
Lemma origin_box n : in_box n (repeat 0 n).
Proof. split; [apply repeat_length|]. apply Forall_forall. intros t H. apply repeat_spec in H. subst. lra. Qed.

Lemma up_smallest d (f g : fl) : rounded up d f -> fin g -> d <= B2R g -> flt_lt g f = false.
Proof.
  intros H G L.
  assert (round radix2 (SpecFloat.fexp prec emax) (round_mode up) d <= B2R g) as K.
  { rewrite <- (rnd_format up (B2R g)) by apply format_B2R. apply rnd_le; auto. }
  destruct H as [[Q [F E]]|[Q E]].
  - destruct (flt_lt g f) eqn:T; auto. apply (proj1 (flt_lt_finite _ _ G F)) in T. lra.
  - pose proof (abs_B2R_lt_emax _ _ g) as B. apply Rabs_lt_inv in B.
    assert (round radix2 (SpecFloat.fexp prec emax) (round_mode up) d <= - big) as S.
    { unfold Rabs in Q. destruct Rcase_abs in Q; lra. }
    assert (d < 0) as D. { pose proof (round_UP_le (prec:=prec) (emax:=emax) d). pose proof (bpow_gt_0 radix2 emax). lra. }
    rewrite (Rlt_bool_true d 0 D) in E. pose proof (overflow_max f true up E eq_refl) as [F _].
    destruct (flt_lt g f) eqn:T; auto. apply (proj1 (flt_lt_finite _ _ G F)) in T. exfalso.
    pose proof (abs_B2R_le_emax_minus_prec _ _ Hprec g) as BG. apply Rabs_le_inv in BG.
    assert (B2R f = - (bpow radix2 emax - bpow radix2 (emax - prec))) as Ef.
    { assert (B2SF f = SpecFloat.S754_finite true (Z.to_pos (2 ^ prec - 1)) (emax - prec)) as E' by exact E.
      destruct f as [|[]| |s m e b]; try discriminate E'. cbn in E'. injection E' as -> -> ->. cbn [B2R cond_Zopp].
      unfold F2R. cbn [Fnum Fexp]. rewrite Z2Pos.id.
      2:{ assert (2 ^ 0 < 2 ^ prec)%Z; [apply Z.pow_lt_mono_r; auto; unfold Prec_gt_0 in Hprec; lia|]. cbn in *. lia. }
      rewrite Z.opp_sub_distr, plus_IZR, opp_IZR. change 2%Z with (radix_val radix2). rewrite IZR_Zpower by (unfold Prec_gt_0 in Hprec; lia).
      assert (bpow radix2 emax = bpow radix2 prec * bpow radix2 (emax - prec)) as -> by (rewrite <- bpow_plus; f_equal; lia). ring. }
    lra.
Qed.

Lemma inconsistent_sound n (t1 t2 : tmod) f : well_formed n t1 -> well_formed n t2 -> fin (t_err t1) -> fin (t_err t2) ->
  tm_inconsistent n t1 t2 = true -> encloses n t1 f -> encloses n t2 f -> False.
Proof.
  intros [Z1 S1] [Z2 S2] F1 F2 T E1 E2. unfold tm_inconsistent, tm_value in T.
  destruct (E1 F1) as [A1 B1]. destruct (E2 F2) as [A2 B2]. specialize (B1 _ (origin_box n)). specialize (B2 _ (origin_box n)).
  rewrite peval_origin in B1, B2 by auto.
  assert (forall (p : list (mi * fl)) a, allfin p -> fin (e_get fzero p a)) as G.
  { clear. induction p as [|[b c] p IH]; intros a A; cbn [e_get]; auto. inversion_clear A. destruct (mi_eqb b a); auto. }
  set (v1 := e_get fzero (t_exp t1) (repeat 0%N n)) in *. set (v2 := e_get fzero (t_exp t2) (repeat 0%N n)) in *.
  assert (fin v1) as V1 by (apply G; auto). assert (fin v2) as V2 by (apply G; auto).
  set (o := f (repeat 0 n)) in *. apply Rabs_le_inv in B1, B2.
  assert (- (B2R (t_err t1) + B2R (t_err t2)) <= B2R v1 - B2R v2 <= B2R (t_err t1) + B2R (t_err t2)) as D by lra.
  unfold b_mag, ff_sub in T; cbn [b_l b_u] in T.
  pose proof (fadd_rounded up _ _ F1 F2) as RS. pose proof (rounded_up_above _ _ RS) as AS.
  set (s := fadd up (t_err t1) (t_err t2)) in *. destruct (above_cases _ _ AS) as [[Fs Ls]|Es].
  - assert (flt_lt s (fsub up v1 v2) = false) as T1.
    { eapply up_smallest; [apply fsub_rounded; auto|auto|lra]. }
    assert (flt_lt s (fneg (fsub down v1 v2)) = false) as T2.
    { apply up_smallest with (- (B2R v1 - B2R v2)); auto; [|lra].
      pose proof (fsub_rounded up v2 v1 V2 V1) as R1. replace (B2R v2 - B2R v1) with (- (B2R v1 - B2R v2)) in R1 by ring.
      pose proof (fsub_rounded down v1 v2 V1 V2) as R2.
      destruct R2 as [[Q [F E]]|[Q E]].
      - left. rewrite rnd_opp, Rabs_Ropp, fneg_fin, fneg_val, E. auto.
      - right. rewrite rnd_opp, Rabs_Ropp. split; auto.
        set (r := B2R v1 - B2R v2) in *.
        assert (r <> 0) as NZ.
        { intros X. rewrite X, round_0 in Q by typeclasses eauto. rewrite Rabs_R0 in Q. pose proof (bpow_gt_0 radix2 emax). lra. }
        assert (Rlt_bool (- r) 0 = negb (Rlt_bool r 0)) as S.
        { destruct (Rlt_bool_spec (- r) 0), (Rlt_bool_spec r 0); auto; lra. }
        rewrite S. clear S. unfold fneg. destruct (Rlt_bool r 0); unfold binary_overflow in *; cbn in *;
          destruct (fsub down v1 v2) as [|[]| |[]]; cbn in *; try discriminate; try (inversion E; subst; reflexivity); auto. }
    unfold fmax in T. destruct (Bltb _ _); congruence.
  - rewrite Es in T. destruct (fmax _ _) as [|[]| |[]]; discriminate.
Qed.
End Arith.
