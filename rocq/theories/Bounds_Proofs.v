(** * Proofs about Bounds *)

From Coq Require Import ZArith Reals Bool Lia Lra Psatz.
From Flocq Require Import Core IEEE754.BinarySingleNaN.
From Flocq Require Import Mult_error.
From Verif Require Import Float_Model Float_Spec Float_Proofs Logical_Model Bounds_Model Bounds_Spec.
Local Open Scope R_scope.

Section BP.
Context {prec emax : Z}
        {Hprec : Prec_gt_0 prec} {Hemax : Prec_lt_emax prec emax}.
Notation fl := (binary_float prec emax).
Notation bnd := (bounds prec emax).

Lemma contains_no_nan (X : bnd) r : contains X r -> no_nan X.
Proof. intros [L U]. split; [eapply below_not_nan|eapply above_not_nan]; eauto. Qed.

Lemma b_add_contains (X Y : bnd) x y : contains X x -> contains Y y -> contains (b_add X Y) (x + y).
Proof. intros [? ?] [? ?]; split; cbn; [apply fadd_down_below|apply fadd_up_above]; auto. Qed.
Lemma b_sub_contains (X Y : bnd) x y : contains X x -> contains Y y -> contains (b_sub X Y) (x - y).
Proof. intros [? ?] [? ?]; split; cbn; [apply fsub_down_below|apply fsub_up_above]; auto. Qed.
Lemma b_neg_contains (X : bnd) x : contains X x -> contains (b_neg X) (- x).
Proof. intros [? ?]; split; cbn; [apply below_fneg|apply above_fneg]; auto. Qed.
Lemma b_of_contains (f : fl) : is_finite f = true -> contains (b_of f) (B2R f).
Proof. intros; split; cbn; [apply below_finite|apply above_finite]; auto; lra. Qed.

(** Facts about comparisons with zero for bounds that may be infinite. *)
Lemma lower_split (l : fl) x : below l x ->
  (is_finite l = true /\ B2R l <= x /\ (ge0 l = true -> 0 <= B2R l) /\ (ge0 l = false -> B2R l < 0)
     /\ (gt0 l = true -> 0 < B2R l) /\ (gt0 l = false -> B2R l <= 0))
  \/ (l = B754_infinity true /\ ge0 l = false /\ gt0 l = false).
Proof.
  intros H. destruct (below_cases _ _ H) as [[F L]| ->].
  - left. pose proof (ge0_finite l F). pose proof (gt0_finite l F).
    repeat split; auto; intros E.
    + tauto.
    + destruct (Rlt_or_le (B2R l) 0); auto. assert (ge0 l = true) by tauto. congruence.
    + tauto.
    + destruct (Rle_or_lt (B2R l) 0); auto. assert (gt0 l = true) by tauto. congruence.
  - right. auto.
Qed.
Lemma upper_split (u : fl) x : above u x ->
  (is_finite u = true /\ x <= B2R u /\ (le0 u = true -> B2R u <= 0) /\ (le0 u = false -> 0 < B2R u)
     /\ (lt0 u = true -> B2R u < 0) /\ (lt0 u = false -> 0 <= B2R u))
  \/ (u = B754_infinity false /\ le0 u = false /\ lt0 u = false).
Proof.
  intros H. destruct (above_cases _ _ H) as [[F L]| ->].
  - left. pose proof (le0_finite u F). pose proof (lt0_finite u F).
    repeat split; auto; intros E.
    + tauto.
    + destruct (Rlt_or_le 0 (B2R u)); auto. assert (le0 u = true) by tauto. congruence.
    + tauto.
    + destruct (Rle_or_lt 0 (B2R u)); auto. assert (lt0 u = true) by tauto. congruence.
  - right. auto.
Qed.

Ltac spec_refl := repeat match goal with
  | H : ?a = ?a -> _ |- _ => specialize (H eq_refl)
  | H : true = false -> _ |- _ => clear H
  | H : false = true -> _ |- _ => clear H
  end.

Ltac infcase := intros; spec_refl;
  try discriminate; try congruence;
  try (first [left; split; [reflexivity|lra] | right; split; [reflexivity|lra]]).

Lemma fmul_not_nan m (f g : fl) : is_nan f = false -> is_nan g = false ->
  (is_finite f = true -> B2R f <> 0) -> (is_finite g = true -> B2R g <> 0) ->
  is_nan (fmul m f g) = false.
Proof.
  intros Nf Ng Zf Zg. destruct (is_finite f) eqn:Ff, (is_finite g) eqn:Fg; spec_refl.
  - eapply rounded_not_nan. apply fmul_rounded; auto.
  - destruct g; try discriminate. destruct f; try discriminate; auto. cbn in Zf; lra.
  - destruct f; try discriminate. destruct g; try discriminate; auto. cbn in Zg; lra.
  - destruct f, g; try discriminate; reflexivity.
Qed.

Lemma b_mul_contains (X Y : bnd) x y :
  contains X x -> contains Y y -> no_nan (b_mul X Y) -> contains (b_mul X Y) (x * y).
Proof.
  destruct X as [xl xu], Y as [yl yu]. unfold contains; cbn [b_l b_u].
  intros [Lx Ux] [Ly Uy].
  pose proof (below_not_nan _ _ Lx) as N1. pose proof (above_not_nan _ _ Ux) as N2.
  pose proof (below_not_nan _ _ Ly) as N3. pose proof (above_not_nan _ _ Uy) as N4.
  unfold b_mul; cbn [b_l b_u].
  destruct (lower_split _ _ Lx) as [(F1 & A1 & B1 & C1 & _)|(E1 & B1 & _)];
  destruct (upper_split _ _ Ux) as [(F2 & A2 & B2 & C2 & _)|(E2 & B2 & _)];
  destruct (lower_split _ _ Ly) as [(F3 & A3 & B3 & C3 & _)|(E3 & B3 & _)];
  destruct (upper_split _ _ Uy) as [(F4 & A4 & B4 & C4 & _)|(E4 & B4 & _)];
  subst; try rewrite B1; try rewrite B2; try rewrite B3; try rewrite B4.
  all: try destruct (ge0 xl) eqn:G1; try destruct (le0 xu) eqn:G2;
       try destruct (ge0 yl) eqn:G3; try destruct (le0 yu) eqn:G4;
       spec_refl; try discriminate; unfold no_nan; cbn [b_l b_u]; intros [Nl Nu].
  all: split.
  all: try (apply fmul_down_below; [assumption|..]); try (apply fmul_up_above; [assumption|..]);
       try (intros; cbn [is_finite Bsign B2R] in *; try discriminate; try congruence;
            first [ nra | left; split; [reflexivity|lra] | right; split; [reflexivity|lra] | reflexivity ]).
  all: match goal with
       | |- below (fmin _ _) _ => destruct (Rle_or_lt 0 x);
           [apply below_fmin_l | apply below_fmin_r; [apply fmul_not_nan; auto; cbn; intros; try discriminate; lra|]]
       | |- above (fmax _ _) _ => destruct (Rle_or_lt 0 x);
           [apply above_fmax_r; [apply fmul_not_nan; auto; cbn; intros; try discriminate; lra|] | apply above_fmax_l]
       end.
  all: try (apply fmul_down_below; [apply fmul_not_nan; auto; cbn; intros; try discriminate; lra|..]);
       try (apply fmul_up_above; [apply fmul_not_nan; auto; cbn; intros; try discriminate; lra|..]);
       try (intros; cbn [is_finite Bsign B2R] in *; try discriminate; try congruence;
            first [ nra | left; split; [reflexivity|lra] | right; split; [reflexivity|lra] | reflexivity ]).
Qed.

Lemma b_mul_no_nan (X Y : bnd) x y :
  contains X x -> contains Y y -> finite_bounds X -> finite_bounds Y -> no_nan (b_mul X Y).
Proof.
  destruct X as [xl xu], Y as [yl yu]. unfold contains, finite_bounds, no_nan; cbn [b_l b_u].
  intros _ _ [F1 F2] [F3 F4].
  assert (forall m (f g : fl), is_finite f = true -> is_finite g = true -> is_nan (fmul m f g) = false) as M.
  { intros; eapply rounded_not_nan, fmul_rounded; auto. }
  unfold b_mul, fmin, fmax; cbn [b_l b_u]; repeat destruct Bltb;
  repeat match goal with |- context [if ?c then _ else _] => destruct c end; cbn [b_l b_u]; auto.
Qed.

Lemma b_sqr_contains (X : bnd) x : contains X x -> contains (b_sqr X) (x * x).
Proof.
  destruct X as [l u]. unfold contains; cbn [b_l b_u]. intros [L U].
  pose proof (below_not_nan _ _ L) as N1. pose proof (above_not_nan _ _ U) as N2.
  unfold b_sqr; cbn [b_l b_u].
  assert (forall m (f : fl), is_nan f = false -> is_nan (fmul m f f) = false) as M.
  { intros m f Hf. destruct (is_finite f) eqn:E.
    - eapply rounded_not_nan, fmul_rounded; auto.
    - destruct f; try discriminate; destruct s; reflexivity. }
  destruct (lower_split _ _ L) as [(F1 & A1 & _ & _ & B1 & C1)|(E1 & _ & B1)];
  destruct (upper_split _ _ U) as [(F2 & A2 & _ & _ & B2 & C2)|(E2 & _ & B2)];
  subst; try rewrite B1; try rewrite B2;
  try destruct (gt0 l) eqn:G1; try destruct (lt0 u) eqn:G2; spec_refl; try discriminate; cbn [b_l b_u].
  all: split; try (cbn; nra).
  all: try (apply fmul_down_below; [apply M; auto|..]); try (apply fmul_up_above; [apply M; auto|..]);
       try (intros; cbn [is_finite Bsign B2R] in *; try discriminate; try congruence;
            first [ nra | left; split; [reflexivity|lra] | right; split; [reflexivity|lra] | reflexivity ]).
  all: destruct (Rle_or_lt 0 x);
           [apply above_fmax_r; [apply M; auto|] | apply above_fmax_l].
  all: try (apply fmul_up_above; [apply M; auto|..]);
       try (intros; cbn [is_finite Bsign B2R] in *; try discriminate; try congruence;
            first [ nra | left; split; [reflexivity|lra] | right; split; [reflexivity|lra] | reflexivity ]).
Qed.

(** ** Division *)

Lemma fdiv_up_above (f g : fl) r : is_finite f = true -> B2R g <> 0 -> r <= B2R f / B2R g -> above (fdiv up f g) r.
Proof. intros. eapply above_ge; [|eassumption]. apply rounded_up_above, fdiv_rounded; auto. Qed.
Lemma fdiv_down_below (f g : fl) r : is_finite f = true -> B2R g <> 0 -> B2R f / B2R g <= r -> below (fdiv down f g) r.
Proof. intros. eapply below_le; [|eassumption]. apply rounded_down_below, fdiv_rounded; auto. Qed.
Lemma fdiv_by_inf m (f : fl) s : is_finite f = true -> exists s', fdiv m f (B754_infinity s) = B754_zero s'.
Proof. destruct f; cbn; intros; try discriminate; eauto. Qed.
Lemma fdiv_inf_by m (g : fl) s : is_finite g = true -> fdiv m (B754_infinity s) g = B754_infinity (xorb s (Bsign g)).
Proof. destruct g; cbn; intros; try discriminate; auto. Qed.

Lemma div_le_pos a b c d : 0 < b -> 0 < d -> a * d <= c * b -> a / b <= c / d.
Proof.
  intros Hb Hd H. apply Rmult_le_reg_r with (b * d); [nra|].
  replace (a / b * (b * d)) with (a * d) by (field; lra).
  replace (c / d * (b * d)) with (c * b) by (field; lra). lra.
Qed.
Lemma div_le_neg a b c d : b < 0 -> d < 0 -> a * d <= c * b -> a / b <= c / d.
Proof.
  intros Hb Hd H. replace (a / b) with ((- a) / (- b)) by (field; lra).
  replace (c / d) with ((- c) / (- d)) by (field; lra). apply div_le_pos; lra || nra.
Qed.

Lemma b_div_contains (X Y : bnd) x y : contains X x -> contains Y y -> y <> 0 -> contains (b_div X Y) (x / y).
Proof.
  destruct X as [xl xu], Y as [yl yu]. unfold contains; cbn [b_l b_u].
  intros [Lx Ux] [Ly Uy] Hy.
  unfold b_div; cbn [b_l b_u].
  destruct (lower_split _ _ Ly) as [(F3 & A3 & _ & _ & B3 & C3)|(E3 & _ & B3)];
  destruct (upper_split _ _ Uy) as [(F4 & A4 & _ & _ & B4 & C4)|(E4 & _ & B4)];
  subst; try rewrite B3; try rewrite B4;
  try destruct (gt0 yl) eqn:G3; try destruct (lt0 yu) eqn:G4; spec_refl; try discriminate; try lra;
  try (split; cbn [b_l b_u]; exact eq_refl).
  all: destruct (lower_split _ _ Lx) as [(F1 & A1 & B1 & C1 & _)|(E1 & B1 & _)];
  destruct (upper_split _ _ Ux) as [(F2 & A2 & B2 & C2 & _)|(E2 & B2 & _)];
  subst; try rewrite B1; try rewrite B2.
  all: try destruct (ge0 xl) eqn:G1; try destruct (le0 xu) eqn:G2;
       spec_refl; try discriminate; cbn [b_l b_u].
  all: split.
  all: try (apply fdiv_up_above; [assumption|lra|first [apply div_le_pos; [lra|lra|nra] | apply div_le_neg; [lra|lra|nra]]]).
  all: try (apply fdiv_down_below; [assumption|lra|first [apply div_le_pos; [lra|lra|nra] | apply div_le_neg; [lra|lra|nra]]]).
  all: try (rewrite fdiv_inf_by by auto;
            first [ rewrite finite_sign_pos by (auto; lra) | rewrite finite_sign_neg by (auto; lra) ]; reflexivity).
  all: match goal with |- _ (fdiv ?m ?f (B754_infinity ?s)) _ =>
         destruct (fdiv_by_inf m f s) as [s' ->]; [assumption|]; cbn [below above B2R] end.
  all: replace 0 with (0 / y) by (field; lra).
  all: first [apply div_le_pos; [lra|lra|nra] | apply div_le_neg; [lra|lra|nra]].
Qed.

Lemma b_rec_contains (Y : bnd) y : contains Y y -> y <> 0 -> contains (b_rec Y) (/ y).
Proof.
  destruct Y as [yl yu]. unfold contains; cbn [b_l b_u].
  intros [Ly Uy] Hy. replace (/ y) with (1 / y) by (field; auto).
  unfold b_rec, frec; cbn [b_l b_u].
  destruct (lower_split _ _ Ly) as [(F3 & A3 & _ & _ & B3 & C3)|(E3 & _ & B3)];
  destruct (upper_split _ _ Uy) as [(F4 & A4 & _ & _ & B4 & C4)|(E4 & _ & B4)];
  subst; try rewrite B3; try rewrite B4;
  try destruct (gt0 yl) eqn:G3; try destruct (lt0 yu) eqn:G4; spec_refl; try discriminate; try lra;
  cbn [orb b_l b_u]; try (split; exact eq_refl); split.
  all: try (apply fdiv_up_above; [apply fone_finite|lra|rewrite fone_val; first [apply div_le_pos; [lra|lra|nra] | apply div_le_neg; [lra|lra|nra]]]).
  all: try (apply fdiv_down_below; [apply fone_finite|lra|rewrite fone_val; first [apply div_le_pos; [lra|lra|nra] | apply div_le_neg; [lra|lra|nra]]]).
  all: match goal with |- _ (fdiv ?m ?f (B754_infinity ?s)) _ =>
         destruct (fdiv_by_inf m f s) as [s' ->]; [apply fone_finite|]; cbn [below above B2R] end.
  all: replace 0 with (0 / y) by (field; lra).
  all: first [apply div_le_pos; [lra|lra|nra] | apply div_le_neg; [lra|lra|nra]].
Qed.

Lemma b_div_zero (X Y : bnd) : contains Y 0 -> whole_line (b_div X Y) /\ whole_line (b_rec Y).
Proof.
  destruct Y as [yl yu]. unfold contains; cbn [b_l b_u]. intros [Ly Uy].
  assert (gt0 yl = false) as G.
  { destruct (lower_split _ _ Ly) as [(F3 & A3 & _ & _ & B3 & C3)|(E3 & _ & B3)]; auto.
    destruct (gt0 yl); auto. spec_refl; lra. }
  assert (lt0 yu = false) as G'.
  { destruct (upper_split _ _ Uy) as [(F3 & A3 & _ & _ & B3 & C3)|(E3 & _ & B3)]; auto.
    destruct (lt0 yu); auto. spec_refl; lra. }
  unfold b_div, b_rec; cbn [b_l b_u]. rewrite G, G'. repeat split.
Qed.



(** ** Comparisons *)

Lemma lt_true (u l : fl) x y : flt_lt u l = true -> above u x -> below l y -> x < y.
Proof.
  intros H A B. destruct (above_cases _ _ A) as [[F Hu]| ->], (below_cases _ _ B) as [[G Hl]| ->].
  - apply flt_lt_finite in H; auto. lra.
  - destruct u as [|[|]| |[|] ? ? ?]; discriminate.
  - destruct l as [|[|]| |[|] ? ? ?]; discriminate.
  - discriminate.
Qed.
Lemma lt_false (u l : fl) x y : flt_lt u l = false -> above u x -> below l y ->
  u = B754_infinity false \/ l = B754_infinity true \/
  (is_finite u = true /\ is_finite l = true /\ B2R l <= B2R u).
Proof.
  intros H A B. destruct (above_cases _ _ A) as [[F Hu]| ->], (below_cases _ _ B) as [[G Hl]| ->]; auto.
  right; right. repeat split; auto. unfold flt_lt in H. rewrite Bltb_correct in H by auto.
  revert H; case Rlt_bool_spec; auto; discriminate.
Qed.
Lemma le_true (u l : fl) x y : flt_le u l = true -> above u x -> below l y -> x <= y.
Proof.
  intros H A B. destruct (above_cases _ _ A) as [[F Hu]| ->], (below_cases _ _ B) as [[G Hl]| ->].
  - apply flt_le_finite in H; auto. lra.
  - destruct u as [|[|]| |[|] ? ? ?]; discriminate.
  - destruct l as [|[|]| |[|] ? ? ?]; discriminate.
  - discriminate.
Qed.
Lemma le_false (u l : fl) x y : flt_le u l = false -> above u x -> below l y ->
  u = B754_infinity false \/ l = B754_infinity true \/
  (is_finite u = true /\ is_finite l = true /\ B2R l < B2R u).
Proof.
  intros H A B. destruct (above_cases _ _ A) as [[F Hu]| ->], (below_cases _ _ B) as [[G Hl]| ->]; auto.
  right; right. repeat split; auto. unfold flt_le in H. rewrite Bleb_correct in H by auto.
  revert H; case Rle_bool_spec; auto; discriminate.
Qed.

(** If [u >= l] as floats there are members with [x >= y]; if [u > l] there
    are members with [x > y]. *)
Lemma ge_witness (X Y : bnd) : inhabited X -> inhabited Y ->
  flt_lt (b_u X) (b_l Y) = false -> exists x y, contains X x /\ contains Y y /\ y <= x.
Proof.
  intros [x [Lx Ux]] [y [Ly Uy]] H.
  destruct (lt_false _ _ _ _ H Ux Ly) as [E|[E|(F1 & F2 & L)]].
  - exists (Rmax x y), y. repeat split; auto.
    + eapply below_le; [exact Lx|apply Rmax_l].
    + rewrite E. reflexivity.
    + apply Rmax_r.
  - exists x, (Rmin x y). repeat split; auto.
    + rewrite E. reflexivity.
    + eapply above_ge; [exact Uy|apply Rmin_r].
    + apply Rmin_l.
  - exists (B2R (b_u X)), (B2R (b_l Y)).
    pose proof (proj1 (above_finite _ _ F1) Ux). pose proof (proj1 (below_finite _ _ F2) Ly).
    repeat split; auto.
    + eapply below_le; eauto.
    + apply above_finite; auto; lra.
    + apply below_finite; auto; lra.
    + eapply above_ge; eauto.
Qed.
Lemma gt_witness (X Y : bnd) : inhabited X -> inhabited Y ->
  flt_le (b_u X) (b_l Y) = false -> exists x y, contains X x /\ contains Y y /\ y < x.
Proof.
  intros [x [Lx Ux]] [y [Ly Uy]] H.
  destruct (le_false _ _ _ _ H Ux Ly) as [E|[E|(F1 & F2 & L)]].
  - exists (Rmax x (y + 1)), y. pose proof (Rmax_l x (y+1)). pose proof (Rmax_r x (y+1)).
    repeat split; auto; try lra.
    + eapply below_le; eauto.
    + rewrite E. reflexivity.
  - exists x, (Rmin (x - 1) y). pose proof (Rmin_l (x-1) y). pose proof (Rmin_r (x-1) y).
    repeat split; auto; try lra.
    + rewrite E. reflexivity.
    + eapply above_ge; eauto.
  - exists (B2R (b_u X)), (B2R (b_l Y)).
    pose proof (proj1 (above_finite _ _ F1) Ux). pose proof (proj1 (below_finite _ _ F2) Ly).
    repeat split; auto.
    + eapply below_le; eauto.
    + apply above_finite; auto; lra.
    + apply below_finite; auto; lra.
    + eapply above_ge; eauto.
Qed.

Lemma b_lt_true (X Y : bnd) x y : contains X x -> contains Y y -> b_lt X Y = TRUE -> x < y.
Proof.
  intros [Lx Ux] [Ly Uy]. unfold b_lt. destruct flt_lt eqn:E.
  - intros _. eapply lt_true; eauto.
  - destruct flt_le; discriminate.
Qed.
Lemma b_lt_false (X Y : bnd) x y : contains X x -> contains Y y -> b_lt X Y = FALSE -> y <= x.
Proof.
  intros [Lx Ux] [Ly Uy]. unfold b_lt. destruct flt_lt eqn:E; [discriminate|].
  destruct flt_le eqn:E2; [|discriminate]. intros _. eapply le_true; eauto.
Qed.
Lemma b_lt_values (X Y : bnd) : b_lt X Y = TRUE \/ b_lt X Y = FALSE \/ b_lt X Y = INDET.
Proof. unfold b_lt. repeat match goal with |- context [if ?c then _ else _] => destruct c end; auto. Qed.
Lemma b_lt_indet (X Y : bnd) : inhabited X -> inhabited Y -> b_lt X Y = INDET ->
  (exists x y, contains X x /\ contains Y y /\ x < y) /\
  (exists x y, contains X x /\ contains Y y /\ y <= x).
Proof.
  intros HX HY. unfold b_lt. destruct flt_lt eqn:E; [discriminate|].
  destruct flt_le eqn:E2; [discriminate|]. intros _. split.
  - destruct (gt_witness Y X HY HX E2) as (y & x & ? & ? & ?). exists x, y. auto.
  - apply ge_witness; auto.
Qed.

Lemma overlap_aux (X Y : bnd) x y : contains X x -> contains Y y -> x <= y ->
  flt_lt (b_u X) (b_l Y) = false -> exists r, contains X r /\ contains Y r.
Proof.
  intros [Lx Ux] [Ly Uy] L H.
  destruct (lt_false _ _ _ _ H Ux Ly) as [E|[E|(F1 & F2 & G)]].
  - exists y. repeat split; auto; [eapply below_le; eauto|rewrite E; reflexivity].
  - exists x. repeat split; auto; [rewrite E; reflexivity|eapply above_ge; eauto].
  - pose proof (proj1 (above_finite _ _ F1) Ux). pose proof (proj1 (below_finite _ _ F2) Ly).
    destruct (Rle_or_lt y (B2R (b_u X))).
    + exists y. repeat split; auto; [eapply below_le; eauto|apply above_finite; auto].
    + exists (B2R (b_u X)). repeat split; auto.
      * eapply below_le; eauto.
      * apply above_finite; auto; lra.
      * apply below_finite; auto.
      * eapply above_ge; eauto; lra.
Qed.
Lemma overlap (X Y : bnd) : inhabited X -> inhabited Y ->
  flt_lt (b_u X) (b_l Y) = false -> flt_lt (b_u Y) (b_l X) = false ->
  exists r, contains X r /\ contains Y r.
Proof.
  intros [x Hx] [y Hy] H1 H2. destruct (Rle_or_lt x y).
  - eapply overlap_aux; eauto.
  - destruct (overlap_aux Y X y x) as (r & ? & ?); auto; [lra|eauto].
Qed.

Lemma flt_eq_finite (x y : fl) : is_finite x = true -> is_finite y = true -> (flt_eq x y = true <-> B2R x = B2R y).
Proof.
  intros Fx Fy. unfold flt_eq. rewrite Beqb_correct by auto.
  case Req_bool_spec; split; intros; auto; try discriminate; contradiction.
Qed.

Lemma eq_bounds (l u : fl) x y : flt_eq l u = true -> below l x -> above u y -> y <= x.
Proof.
  intros E L U. destruct (below_cases _ _ L) as [[F A]| ->], (above_cases _ _ U) as [[G B]| ->].
  - apply flt_eq_finite in E; auto. lra.
  - destruct l as [|[|]| |[|] ? ? ?]; discriminate.
  - destruct u as [|[|]| |[|] ? ? ?]; discriminate.
  - discriminate.
Qed.
Lemma flt_not_lt_not_eq_le (u l : fl) x y : above u x -> below l y -> flt_lt u l = false -> flt_eq u l = false ->
  flt_le u l = false.
Proof.
  intros A B H E. destruct (lt_false _ _ _ _ H A B) as [->|[->|(F & G & L)]].
  - destruct (below_cases _ _ B) as [[F A']| ->]; [|reflexivity].
    destruct l as [|[|]| |[|] ? ? ?]; try discriminate; reflexivity.
  - destruct (above_cases _ _ A) as [[F A']| ->]; [|reflexivity].
    destruct u as [|[|]| |[|] ? ? ?]; try discriminate; reflexivity.
  - unfold flt_le. rewrite Bleb_correct by auto.
    unfold flt_eq in E. rewrite Beqb_correct in E by auto. revert E.
    case Req_bool_spec; [discriminate|]. intros N _. apply Rle_bool_false. lra.
Qed.
Lemma flt_eq_sym (u l : fl) : flt_eq u l = flt_eq l u.
Proof.
  unfold flt_eq. destruct (is_finite u) eqn:F, (is_finite l) eqn:G.
  - rewrite !Beqb_correct by auto. do 2 case Req_bool_spec; congruence.
  - destruct l as [|[|]| |[|] ? ? ?], u as [|[|]| |[|] ? ? ?]; try discriminate; reflexivity.
  - destruct l as [|[|]| |[|] ? ? ?], u as [|[|]| |[|] ? ? ?]; try discriminate; reflexivity.
  - destruct l as [|[|]| |[|] ? ? ?], u as [|[|]| |[|] ? ? ?]; try discriminate; reflexivity.
Qed.

Lemma b_eq_true (X Y : bnd) x y : contains X x -> contains Y y -> b_eq X Y = TRUE -> x = y.
Proof.
  intros [Lx Ux] [Ly Uy]. unfold b_eq. destruct (_ || _); [discriminate|].
  destruct (flt_eq (b_l X) (b_u Y)) eqn:E1; cbn; [|discriminate].
  destruct (flt_eq (b_u X) (b_l Y)) eqn:E2; [|discriminate]. intros _.
  pose proof (eq_bounds _ _ _ _ E1 Lx Uy). rewrite flt_eq_sym in E2.
  pose proof (eq_bounds _ _ _ _ E2 Ly Ux). lra.
Qed.
Lemma b_eq_false (X Y : bnd) x y : contains X x -> contains Y y -> b_eq X Y = FALSE -> x <> y.
Proof.
  intros [Lx Ux] [Ly Uy]. unfold b_eq.
  destruct (flt_lt (b_u X) (b_l Y)) eqn:E1; cbn [orb].
  - intros _. pose proof (lt_true _ _ _ _ E1 Ux Ly). lra.
  - destruct (flt_lt (b_u Y) (b_l X)) eqn:E2; cbn [orb].
    + intros _. pose proof (lt_true _ _ _ _ E2 Uy Lx). lra.
    + destruct (_ && _); discriminate.
Qed.
Lemma b_eq_indet (X Y : bnd) : inhabited X -> inhabited Y -> b_eq X Y = INDET ->
  (exists x y, contains X x /\ contains Y y /\ x = y) /\
  (exists x y, contains X x /\ contains Y y /\ x <> y).
Proof.
  intros HX HY. unfold b_eq.
  destruct (flt_lt (b_u X) (b_l Y)) eqn:E1; [discriminate|].
  destruct (flt_lt (b_u Y) (b_l X)) eqn:E2; [discriminate|]. cbn [orb].
  intros E. split.
  - destruct (overlap X Y HX HY E1 E2) as (r & ? & ?). exists r, r. auto.
  - destruct (flt_eq (b_l X) (b_u Y)) eqn:E3; cbn [andb] in E.
    + destruct (flt_eq (b_u X) (b_l Y)) eqn:E4; [discriminate|].
      destruct HX as [x [Lx Ux]], HY as [y [Ly Uy]].
      pose proof (flt_not_lt_not_eq_le _ _ _ _ Ux Ly E1 E4) as G.
      destruct (gt_witness X Y) as (x' & y' & ? & ? & ?); auto; try (eexists; split; eauto).
      * exists x', y'. repeat split; try apply H; try apply H0. lra.
    + rewrite flt_eq_sym in E3.
      destruct HX as [x [Lx Ux]], HY as [y [Ly Uy]].
      pose proof (flt_not_lt_not_eq_le _ _ _ _ Uy Lx E2 E3) as G.
      destruct (gt_witness Y X) as (x' & y' & ? & ? & ?); auto; try (eexists; split; eauto).
      * exists y', x'. repeat split; try apply H; try apply H0. lra.
Qed.

(** Comparison with zero is comparison with the bounds [0,0]. *)
Definition b_zero : bnd := mkB fzero fzero.
Lemma b_zero_contains r : contains b_zero r <-> r = 0.
Proof. unfold contains; cbn. split; intros; [lra|subst; lra]. Qed.
Lemma b_zero_inhabited : inhabited b_zero.
Proof. exists 0. apply b_zero_contains; auto. Qed.
Lemma b_is_zero_eq (X : bnd) : b_is_zero X = b_eq X b_zero.
Proof.
  unfold b_is_zero, b_eq, b_zero; cbn [b_l b_u]. unfold gt0, lt0, flt_lt.
  rewrite (orb_comm (Bltb fzero (b_l X))). reflexivity.
Qed.

Lemma b_sgn_true (X : bnd) x : contains X x -> b_sgn X = TRUE -> 0 < x.
Proof.
  intros [L U]. unfold b_sgn. destruct gt0 eqn:E.
  - intros _. destruct (lower_split _ _ L) as [(F & A & _ & _ & B & C)|(F & _ & B)]; [|congruence].
    specialize (B E); lra.
  - destruct lt0; discriminate.
Qed.
Lemma b_sgn_false (X : bnd) x : contains X x -> b_sgn X = FALSE -> x < 0.
Proof.
  intros [L U]. unfold b_sgn. destruct gt0; [discriminate|]. destruct lt0 eqn:E; [|discriminate].
  intros _. destruct (upper_split _ _ U) as [(F & A & _ & _ & B & C)|(F & _ & B)]; [|congruence].
  specialize (B E); lra.
Qed.
Lemma b_sgn_indet (X : bnd) : inhabited X -> b_sgn X = INDET ->
  (exists x, contains X x /\ x <= 0) /\ (exists x, contains X x /\ 0 <= x).
Proof.
  intros HX. unfold b_sgn. destruct gt0 eqn:E1; [discriminate|]. destruct lt0 eqn:E2; [discriminate|].
  intros _.
  destruct (overlap X b_zero HX b_zero_inhabited) as (r & Hr & H0); auto.
  apply b_zero_contains in H0. subst. split; exists 0; split; auto; lra.
Qed.
Lemma b_is_positive_true (X : bnd) x : contains X x -> b_is_positive X = TRUE -> 0 <= x.
Proof.
  intros [L U]. unfold b_is_positive. destruct ge0 eqn:E.
  - intros _. destruct (lower_split _ _ L) as [(F & A & B & _)|(F & B & _)]; [|congruence].
    specialize (B E); lra.
  - destruct lt0; discriminate.
Qed.
Lemma b_is_positive_false (X : bnd) x : contains X x -> b_is_positive X = FALSE -> x < 0.
Proof.
  intros [L U]. unfold b_is_positive. destruct ge0; [discriminate|]. destruct lt0 eqn:E; [|discriminate].
  intros _. destruct (upper_split _ _ U) as [(F & A & _ & _ & B & C)|(F & _ & B)]; [|congruence].
  specialize (B E); lra.
Qed.
Lemma b_is_positive_indet (X : bnd) : inhabited X -> b_is_positive X = INDET ->
  (exists x, contains X x /\ x < 0) /\ (exists x, contains X x /\ 0 <= x).
Proof.
  intros [x [L U]]. unfold b_is_positive. destruct ge0 eqn:E1; [discriminate|]. destruct lt0 eqn:E2; [discriminate|].
  intros _. split.
  - destruct (lower_split _ _ L) as [(F & A & _ & B & _)|(F & _)].
    + exists (B2R (b_l X)). specialize (B E1). repeat split; auto.
      * apply below_finite; auto; lra.
      * eapply above_ge; eauto.
    + exists (Rmin x (-1)). pose proof (Rmin_l x (-1)). pose proof (Rmin_r x (-1)). repeat split; try lra.
      * rewrite F; reflexivity.
      * eapply above_ge; eauto.
  - destruct (upper_split _ _ U) as [(F & A & _ & _ & _ & B)|(F & _)].
    + exists (B2R (b_u X)). specialize (B E2). repeat split; auto.
      * eapply below_le; eauto.
      * apply above_finite; auto; lra.
    + exists (Rmax x 1). pose proof (Rmax_l x 1). pose proof (Rmax_r x 1). repeat split; try lra.
      * eapply below_le; eauto.
      * rewrite F; reflexivity.
Qed.

(** ** Lattice *)

Lemma refines_below (f g : fl) x : flt_le f g = true -> below g x -> below f x.
Proof.
  intros H B. destruct (below_cases _ _ B) as [[F A]| ->].
  - destruct (is_finite f) eqn:Ff.
    + apply flt_le_finite in H; auto. apply below_finite; auto; lra.
    + destruct f as [|[|]| |[|] ? ? ?], g as [|[|]| |[|] ? ? ?]; try discriminate; reflexivity.
  - destruct f as [|[|]| |[|] ? ? ?]; try discriminate; reflexivity.
Qed.
Lemma refines_above (f g : fl) x : flt_le f g = true -> above f x -> above g x.
Proof.
  intros H B. destruct (above_cases _ _ B) as [[F A]| ->].
  - destruct (is_finite g) eqn:Ff.
    + apply flt_le_finite in H; auto. apply above_finite; auto; lra.
    + destruct f as [|[|]| |[|] ? ? ?], g as [|[|]| |[|] ? ? ?]; try discriminate; reflexivity.
  - destruct g as [|[|]| |[|] ? ? ?]; try discriminate; reflexivity.
Qed.

Lemma b_refines_iff (X Y : bnd) : inhabited X -> (b_refines X Y = true <-> subset X Y).
Proof.
  intros [x [L U]]. unfold b_refines, subset. split.
  - intros H r [A B]. apply andb_prop in H. destruct H as [H1 H2].
    split; [eapply refines_below|eapply refines_above]; eauto.
  - intros H. pose proof (H x (conj L U)) as [L' U']. apply andb_true_intro. split.
    + destruct (below_cases _ _ L) as [[F A]|E].
      * assert (contains X (B2R (b_l X))) as C.
        { split; [apply below_finite; auto; lra|eapply above_ge; eauto]. }
        apply H in C. destruct C as [C _].
        destruct (below_cases _ _ C) as [[F' A']| ->].
        -- apply flt_le_finite; auto.
        -- destruct (b_l X); try discriminate; reflexivity.
      * destruct (below_cases _ _ L') as [[F A]| ->]; [|rewrite E; reflexivity].
        assert (contains X (Rmin x (B2R (b_l Y) - 1))) as C.
        { split; [rewrite E; reflexivity|eapply above_ge; [eauto|apply Rmin_l]]. }
        apply H in C. destruct C as [C _]. apply (below_finite _ _ F) in C.
        pose proof (Rmin_r x (B2R (b_l Y) - 1)). lra.
    + destruct (above_cases _ _ U) as [[F A]|E].
      * assert (contains X (B2R (b_u X))) as C.
        { split; [eapply below_le; eauto|apply above_finite; auto; lra]. }
        apply H in C. destruct C as [_ C].
        destruct (above_cases _ _ C) as [[F' A']| ->].
        -- apply flt_le_finite; auto.
        -- destruct (b_u X); try discriminate; reflexivity.
      * destruct (above_cases _ _ U') as [[F A]| ->]; [|rewrite E; reflexivity].
        assert (contains X (Rmax x (B2R (b_u Y) + 1))) as C.
        { split; [eapply below_le; [eauto|apply Rmax_l]|rewrite E; reflexivity]. }
        apply H in C. destruct C as [_ C]. apply (above_finite _ _ F) in C.
        pose proof (Rmax_r x (B2R (b_u Y) + 1)). lra.
Qed.

Lemma below_fmax_iff (f g : fl) x : is_nan f = false -> is_nan g = false ->
  (below (fmax f g) x <-> below f x /\ below g x).
Proof.
  intros Nf Ng. unfold fmax. destruct (Bltb f g) eqn:E; split; intros; try tauto; split; auto.
  - eapply Bltb_true_below; eauto.
  - eapply Bltb_false_below; eauto.
Qed.
Lemma above_fmin_iff (f g : fl) x : is_nan f = false -> is_nan g = false ->
  (above (fmin f g) x <-> above f x /\ above g x).
Proof.
  intros Nf Ng. unfold fmin. destruct (Bltb g f) eqn:E; split; intros; try tauto; split; auto.
  - eapply Bltb_true_above; eauto.
  - eapply Bltb_false_above; [| |eassumption]; auto.
Qed.
Lemma b_refinement_iff (X Y : bnd) r : no_nan X -> no_nan Y ->
  (contains (b_refinement X Y) r <-> contains X r /\ contains Y r).
Proof.
  intros [? ?] [? ?]. unfold contains, b_refinement; cbn [b_l b_u].
  rewrite below_fmax_iff, above_fmin_iff by auto. tauto.
Qed.

Lemma b_coarsening_l (X Y : bnd) : subset X (b_coarsening X Y).
Proof. intros r [A B]. split; cbn; [apply below_fmin_l|apply above_fmax_l]; auto. Qed.
Lemma b_coarsening_r (X Y : bnd) : no_nan X -> subset Y (b_coarsening X Y).
Proof. intros [? ?] r [A B]. split; cbn; [apply below_fmin_r|apply above_fmax_r]; auto. Qed.
Lemma b_coarsening_least (X Y Z : bnd) : inhabited X -> inhabited Y ->
  subset X Z -> subset Y Z -> subset (b_coarsening X Y) Z.
Proof.
  intros HX HY SX SY. apply b_refines_iff in SX; auto. apply b_refines_iff in SY; auto.
  unfold b_refines in *. apply andb_prop in SX. apply andb_prop in SY.
  intros r [A B]. cbn [b_coarsening b_l b_u] in *. split.
  - unfold fmin in A. destruct Bltb; eapply refines_below; [apply SY| |apply SX|]; auto.
  - unfold fmax in B. destruct Bltb; eapply refines_above; [apply SY| |apply SX|]; auto.
Qed.

Lemma flt_le_lt (f g : fl) : is_nan f = false -> is_nan g = false -> flt_le f g = negb (flt_lt g f).
Proof.
  intros Nf Ng. unfold flt_le, flt_lt. destruct (is_finite f) eqn:F, (is_finite g) eqn:G.
  - rewrite Bleb_correct, Bltb_correct by auto. case Rle_bool_spec; case Rlt_bool_spec; intros; auto; lra.
  - destruct g as [|[|]| |[|] ? ? ?], f as [|[|]| |[|] ? ? ?]; try discriminate; reflexivity.
  - destruct g as [|[|]| |[|] ? ? ?], f as [|[|]| |[|] ? ? ?]; try discriminate; reflexivity.
  - destruct g as [|[|]| |[|] ? ? ?], f as [|[|]| |[|] ? ? ?]; try discriminate; reflexivity.
Qed.

Lemma inhabited_no_nan (X : bnd) : inhabited X -> no_nan X.
Proof. intros [r H]. eapply contains_no_nan; eauto. Qed.

Lemma b_inconsistent_iff (X Y : bnd) : inhabited X -> inhabited Y ->
  (b_inconsistent X Y = true <-> ~ exists r, contains X r /\ contains Y r).
Proof.
  intros HX HY. unfold b_inconsistent. split.
  - intros H (r & [A B] & [C D]). apply orb_prop in H. destruct H as [H|H];
    [pose proof (lt_true _ _ _ _ H D A)|pose proof (lt_true _ _ _ _ H B C)]; lra.
  - intros H. destruct (flt_lt (b_u Y) (b_l X)) eqn:E1; auto.
    destruct (flt_lt (b_u X) (b_l Y)) eqn:E2; auto. exfalso. apply H.
    apply overlap; auto.
Qed.
Lemma b_consistent_neg (X Y : bnd) : no_nan X -> no_nan Y -> b_consistent X Y = negb (b_inconsistent X Y).
Proof.
  intros [? ?] [? ?]. unfold b_consistent, b_inconsistent.
  rewrite !flt_le_lt by auto. rewrite negb_orb. reflexivity.
Qed.
Lemma b_consistent_iff (X Y : bnd) : inhabited X -> inhabited Y ->
  (b_consistent X Y = true <-> exists r, contains X r /\ contains Y r).
Proof.
  intros HX HY. rewrite b_consistent_neg by (apply inhabited_no_nan; auto).
  rewrite negb_true_iff. pose proof (b_inconsistent_iff X Y HX HY) as H.
  split.
  - intros E. unfold b_inconsistent in E. apply orb_false_elim in E. apply overlap; tauto.
  - intros E. destruct (b_inconsistent X Y); auto. exfalso. apply (proj1 H); auto.
Qed.
Lemma b_models_iff (X : bnd) v : is_finite v = true -> (b_models X v = true <-> contains X (B2R v)).
Proof.
  intros F. unfold b_models, contains. split.
  - intros H. apply andb_prop in H. destruct H as [H1 H2]. split.
    + eapply refines_below; eauto. apply below_finite; auto; lra.
    + eapply refines_above; eauto. apply above_finite; auto; lra.
  - intros [A B]. apply andb_true_intro; split.
    + destruct (below_cases _ _ A) as [[G L]| ->]; [apply flt_le_finite; auto|].
      destruct v; try discriminate; reflexivity.
    + destruct (above_cases _ _ B) as [[G L]| ->]; [apply flt_le_finite; auto|].
      destruct v; try discriminate; reflexivity.
Qed.

(** ** max, min, abs, magnitude *)

Lemma b_max_contains (X Y : bnd) x y : contains X x -> contains Y y -> contains (b_max X Y) (Rmax x y).
Proof.
  intros [A B] [C D]. split; cbn.
  - apply below_fmax; [eapply below_le; [exact A|apply Rmax_l]|eapply below_le; [exact C|apply Rmax_r]].
  - unfold Rmax; destruct Rle_dec; [apply above_fmax_r; auto; eapply above_not_nan; eauto|apply above_fmax_l; auto].
Qed.
Lemma b_min_contains (X Y : bnd) x y : contains X x -> contains Y y -> contains (b_min X Y) (Rmin x y).
Proof.
  intros [A B] [C D]. split; cbn.
  - unfold Rmin; destruct Rle_dec; [apply below_fmin_l; auto|apply below_fmin_r; auto; eapply below_not_nan; eauto].
  - apply above_fmin; [eapply above_ge; [exact B|apply Rmin_l]|eapply above_ge; [exact D|apply Rmin_r]].
Qed.
Lemma fneg_not_nan (f : fl) : is_nan (fneg f) = is_nan f.
Proof. destruct f; reflexivity. Qed.
Lemma b_abs_contains (X : bnd) x : contains X x -> contains (b_abs X) (Rabs x).
Proof.
  intros [A B]. unfold b_abs.
  destruct (lower_split _ _ A) as [(F & L & P & Q & _)|(E & P & _)];
  destruct (upper_split _ _ B) as [(G & U & S & T & _)|(E' & S & _)].
  all: destruct (ge0 (b_l X)) eqn:E1; destruct (le0 (b_u X)) eqn:E2; spec_refl; try discriminate.
  all: try (rewrite Rabs_pos_eq by lra; split; assumption).
  all: try (rewrite Rabs_left1 by lra; split; cbn [b_l b_u]; [apply below_fneg|apply above_fneg]; assumption).
  all: split; cbn [b_l b_u below B2R fzero]; [apply Rabs_pos|].
  all: unfold Rabs; destruct Rcase_abs;
    [apply above_fmax_l, above_fneg; auto|apply above_fmax_r; auto; rewrite fneg_not_nan; eapply below_not_nan; eauto].
Qed.
Lemma b_mag_above (X : bnd) x : contains X x -> above (b_mag X) (Rabs x).
Proof.
  intros [A B]. unfold b_mag. unfold Rabs; destruct Rcase_abs;
    [apply above_fmax_l, above_fneg; auto|apply above_fmax_r; auto; rewrite fneg_not_nan; eapply below_not_nan; eauto].
Qed.
Lemma b_mig_below (X : bnd) x : contains X x -> below (b_mig X) (Rabs x).
Proof.
  intros [A B]. unfold b_mig. apply below_fmax.
  - cbn. apply Rabs_pos.
  - apply below_fmax.
    + eapply below_le; [exact A|apply Rle_abs].
    + apply below_le with (- x); [apply below_fneg; auto|]. rewrite <- Rabs_Ropp. apply Rle_abs.
Qed.

(** ** widen *)
Lemma b_widen_contains (m : fl) (X : bnd) x : is_finite m = true -> 0 <= B2R m ->
  contains X x -> contains (b_widen m X) x.
Proof.
  intros F P [A B]. split; cbn.
  - apply below_le with (x - B2R m); [|lra]. apply fsub_down_below; auto. apply above_finite; auto; lra.
  - apply above_ge with (x + B2R m); [|lra]. apply fadd_up_above; auto. apply above_finite; auto; lra.
Qed.
Lemma b_widen_margin (m : fl) (X : bnd) x d : is_finite m = true -> Rabs d <= B2R m ->
  contains X x -> contains (b_widen m X) (x + d).
Proof.
  intros F P [A B]. pose proof (Rle_abs d). pose proof (Rle_abs (-d)). rewrite Rabs_Ropp in *. split; cbn.
  - apply below_le with (x - B2R m); [|lra]. apply fsub_down_below; auto. apply above_finite; auto; lra.
  - apply above_ge with (x + B2R m); [|lra]. apply fadd_up_above; auto. apply above_finite; auto; lra.
Qed.
Lemma b_narrow_lower (m : fl) (X : bnd) r : is_finite m = true -> 0 <= B2R m -> is_finite (b_l X) = true ->
  contains (b_narrow m X) r -> below (b_l X) r.
Proof.
  intros F P G [A _]. cbn in A.
  assert (above (fadd up (b_l X) m) (B2R (b_l X) + B2R m)) as H
    by (apply rounded_up_above, fadd_rounded; auto).
  apply below_finite; auto.
  destruct (below_cases _ _ A) as [[F1 A1]|E].
  - apply (above_finite _ _ F1) in H. lra.
  - rewrite E in H. discriminate.
Qed.

(** ** value and error *)

Lemma fsub_up_above' (f g : fl) r : is_finite f = true -> is_finite g = true -> r <= B2R f - B2R g -> above (fsub up f g) r.
Proof. intros. eapply above_ge; [|eassumption]. apply rounded_up_above, fsub_rounded; auto. Qed.

Lemma fadd_finite_not_nan m (f g : fl) : is_finite f = true -> is_finite g = true -> is_nan (fadd m f g) = false.
Proof. intros; eapply rounded_not_nan, fadd_rounded; auto. Qed.

Lemma ftwo_val : B2R (ftwo : fl) = 2 /\ is_finite (ftwo : fl) = true.
Proof.
  pose proof (Bldexp_correct prec emax Hprec Hemax mode_NE Bone 1) as H.
  rewrite Bone_correct in H.
  assert (generic_format radix2 (SpecFloat.fexp prec emax) (1 * bpow radix2 1)) as G.
  { rewrite Rmult_1_l. apply generic_format_bpow. unfold SpecFloat.fexp, SpecFloat.emin.
    pose proof Hprec; pose proof Hemax. unfold Prec_gt_0, Prec_lt_emax in *. lia. }
  rewrite round_generic in H by (auto with typeclass_instances).
  rewrite Rlt_bool_true in H.
  - destruct H as [H1 [H2 _]]. unfold ftwo. rewrite H1, H2. split; [cbn; lra|apply is_finite_Bone].
  - rewrite Rmult_1_l. rewrite Rabs_pos_eq by apply bpow_ge_0. apply bpow_lt.
    pose proof Hprec; pose proof Hemax. unfold Prec_gt_0, Prec_lt_emax in *. lia.
Qed.

Lemma fhlf_inf m s : fhlf m (B754_infinity s : fl) = B754_infinity s.
Proof.
  unfold fhlf. rewrite fdiv_inf_by by apply ftwo_val.
  rewrite finite_sign_pos; [destruct s; reflexivity|apply ftwo_val|].
  rewrite (proj1 ftwo_val). lra.
Qed.
Lemma fhlf_not_nan m (f : fl) : is_finite f = true -> is_nan (fhlf m f) = false.
Proof.
  intros. eapply rounded_not_nan, fdiv_rounded; auto. rewrite (proj1 ftwo_val). lra.
Qed.

(** For finite bounds: either the value is finite and the error bounds the
    distance of every member, or the value has overflowed and the error is
    +inf. *)
Lemma b_value_error (X : bnd) : finite_bounds X ->
  (is_finite (b_value X) = true /\
   forall r, contains X r -> above (b_error X) (Rabs (r - B2R (b_value X))))
  \/ (is_finite (b_value X) = false /\ is_nan (b_value X) = false /\ b_error X = B754_infinity false).
Proof.
  intros [F G]. assert (is_nan (b_value X) = false) as N.
  { unfold b_value, fmed. destruct (is_finite (fadd near (b_l X) (b_u X))) eqn:E.
    - apply fhlf_not_nan; auto.
    - pose proof (fadd_finite_not_nan near _ _ F G) as N. destruct (fadd near (b_l X) (b_u X)); try discriminate.
      rewrite fhlf_inf. reflexivity. }
  unfold b_error. set (v := b_value X) in *. clearbody v.
  destruct (is_finite v) eqn:V; [left|right]; repeat split; auto.
  - intros r [A B]. apply (below_finite _ _ F) in A. apply (above_finite _ _ G) in B.
    unfold Rabs; destruct Rcase_abs.
    + apply above_fmax_r; [eapply rounded_not_nan, fsub_rounded; auto|].
      apply fsub_up_above'; auto. lra.
    + apply above_fmax_l. apply fsub_up_above'; auto. lra.
  - destruct v as [|s| |]; try discriminate.
    destruct (b_u X); try discriminate; destruct (b_l X); try discriminate; destruct s; reflexivity.
Qed.

Lemma b_pm_contains (v e : fl) r : is_finite v = true -> above e (Rabs (r - B2R v)) -> contains (b_pm (b_of v) e) r.
Proof.
  intros F A. pose proof (Rle_abs (r - B2R v)). pose proof (Rle_abs (-(r - B2R v))). rewrite Rabs_Ropp in H0.
  set (d := Rabs (r - B2R v)) in *. split; cbn.
  - apply below_le with (B2R v - d); [|lra]. apply fsub_down_below; auto. apply below_finite; auto; lra.
  - apply above_ge with (B2R v + d); [|lra]. apply fadd_up_above; auto. apply above_finite; auto; lra.
Qed.
Lemma b_pm_contains_gen (X : bnd) (e : fl) x d : contains X x -> above e (Rabs d) -> contains (b_pm X e) (x + d).
Proof.
  intros [A B] E. pose proof (Rle_abs d). pose proof (Rle_abs (- d)). rewrite Rabs_Ropp in *. split; cbn.
  - apply below_le with (x - Rabs d); [|lra]. apply fsub_down_below; auto.
  - apply above_ge with (x + Rabs d); [|lra]. apply fadd_up_above; auto.
Qed.

(** ** Powers *)

Lemma fmul_inf_finite m (f : fl) s : is_finite f = true -> B2R f <> 0 ->
  fmul m f (B754_infinity s) = B754_infinity (xorb (Bsign f) s) /\
  fmul m (B754_infinity s) f = B754_infinity (xorb s (Bsign f)).
Proof.
  intros F N. split; [apply fmul_inf_r|apply fmul_inf_l]; apply fmul_not_nan; auto; try discriminate;
  destruct f; try discriminate; reflexivity.
Qed.

Lemma fmul_up_pos (f g : fl) x y : 0 <= x -> 0 <= y -> above f x -> above g y -> gt0 f = true -> gt0 g = true ->
  above (fmul up f g) (x * y) /\ gt0 (fmul up f g) = true.
Proof.
  intros Hx Hy A B P Q.
  destruct (above_cases _ _ A) as [[F L]| ->], (above_cases _ _ B) as [[G M]| ->].
  - apply gt0_finite in P; auto. apply gt0_finite in Q; auto.
    assert (above (fmul up f g) (B2R f * B2R g)) as H by (apply rounded_up_above, fmul_rounded; auto).
    split.
    + eapply above_ge; [exact H|nra].
    + destruct (above_cases _ _ H) as [[K N]| ->]; [|reflexivity]. apply gt0_finite; auto. nra.
  - apply gt0_finite in P; auto. rewrite (proj1 (fmul_inf_finite up f false F ltac:(lra))).
    rewrite finite_sign_pos by auto. split; reflexivity.
  - apply gt0_finite in Q; auto. rewrite (proj2 (fmul_inf_finite up g false G ltac:(lra))).
    rewrite finite_sign_pos by auto. split; reflexivity.
  - split; reflexivity.
Qed.

Lemma rounded_down_finite_pos r f : 0 <= r -> rounded (prec:=prec) (emax:=emax) mode_DN r f -> is_finite f = true /\ 0 <= B2R f.
Proof.
  intros H [[L [F E]]|[L E]].
  - split; auto. rewrite E. apply round_sign_pos; auto.
  - rewrite Rlt_bool_false in E by auto.
    destruct (overflow_max f false mode_DN E eq_refl) as [F S]. split; auto. apply B2R_sign_pos; auto.
Qed.
Lemma rounded_up_finite_neg r f : r <= 0 -> rounded (prec:=prec) (emax:=emax) mode_UP r f -> is_finite f = true /\ B2R f <= 0.
Proof.
  intros H [[L [F E]]|[L E]].
  - split; auto. rewrite E. apply round_sign_neg; auto.
  - destruct (Rlt_bool r 0) eqn:S.
    + destruct (overflow_max f true mode_UP E eq_refl) as [F S']. split; auto. apply B2R_sign_neg; auto.
    + assert (r = 0) as -> by (revert S; case Rlt_bool_spec; intros; [discriminate|lra]).
      rewrite round_0 in L by auto with typeclass_instances. rewrite Rabs_R0 in L.
      pose proof (bpow_gt_0 radix2 emax). lra.
Qed.

Lemma fmul_down_pos (f g : fl) x y : is_finite f = true -> is_finite g = true -> 0 <= B2R f <= x -> 0 <= B2R g <= y ->
  is_finite (fmul down f g) = true /\ 0 <= B2R (fmul down f g) <= x * y.
Proof.
  intros F G Hx Hy. pose proof (fmul_rounded mode_DN f g F G) as R.
  assert (0 <= B2R f * B2R g) as Hp by nra.
  destruct (rounded_down_finite_pos _ _ Hp R) as [K P]. repeat split; auto.
  apply rounded_down_below in R. apply below_finite in R; auto. nra.
Qed.

Lemma pow_pos_up m : forall (r p : fl) rho x, 0 <= rho -> 0 <= x -> above r rho -> above p x ->
  gt0 r = true -> gt0 p = true -> above (pow_pos up r p m) (rho * x ^ Pos.to_nat m).
Proof.
  induction m as [m IH|m IH|]; intros r p rho x Hr Hx A B P Q; cbn [pow_pos].
  - destruct (fmul_up_pos r p rho x) as [A' P']; auto. destruct (fmul_up_pos p p x x) as [B' Q']; auto.
    replace (rho * x ^ Pos.to_nat m~1) with ((rho * x) * (x * x) ^ Pos.to_nat m).
    + apply IH; auto; nra.
    + rewrite Pos2Nat.inj_xI. cbn [pow]. rewrite pow_mult. cbn [pow]. rewrite Rmult_1_r. ring.
  - destruct (fmul_up_pos p p x x) as [B' Q']; auto.
    replace (rho * x ^ Pos.to_nat m~0) with (rho * (x * x) ^ Pos.to_nat m).
    + apply IH; auto; nra.
    + rewrite Pos2Nat.inj_xO. rewrite pow_mult. cbn [pow]. rewrite Rmult_1_r. ring.
  - change (Pos.to_nat 1) with 1%nat. rewrite pow_1. apply fmul_up_pos; auto.
Qed.
Lemma pow_pos_down m : forall (r p : fl) rho x, is_finite r = true -> is_finite p = true ->
  0 <= B2R r <= rho -> 0 <= B2R p <= x -> below (pow_pos down r p m) (rho * x ^ Pos.to_nat m).
Proof.
  induction m as [m IH|m IH|]; intros r p rho x Fr Fp A B; cbn [pow_pos].
  - destruct (fmul_down_pos r p rho x) as [A' P']; auto. destruct (fmul_down_pos p p x x) as [B' Q']; auto.
    replace (rho * x ^ Pos.to_nat m~1) with ((rho * x) * (x * x) ^ Pos.to_nat m).
    + apply IH; auto.
    + rewrite Pos2Nat.inj_xI. cbn [pow]. rewrite pow_mult. cbn [pow]. rewrite Rmult_1_r. ring.
  - destruct (fmul_down_pos p p x x) as [B' Q']; auto.
    replace (rho * x ^ Pos.to_nat m~0) with (rho * (x * x) ^ Pos.to_nat m).
    + apply IH; auto.
    + rewrite Pos2Nat.inj_xO. rewrite pow_mult. cbn [pow]. rewrite Rmult_1_r. ring.
  - change (Pos.to_nat 1) with 1%nat. rewrite pow_1.
    destruct (fmul_down_pos r p rho x) as [K L]; auto. apply below_finite; auto. lra.
Qed.

(** Negative base: [r] and [p] stay negative, magnitudes round up when
    rounding down. *)
Lemma fmul_down_neg (f g : fl) x y : 0 <= x -> 0 <= y -> below f (- x) -> below g (- y) -> lt0 f = true -> lt0 g = true ->
  below (fmul down (fneg f) g) (- (x * y)) /\ lt0 (fmul down (fneg f) g) = true.
Proof.
  intros Hx Hy A B P Q.
  destruct (below_cases _ _ A) as [[F L]| ->], (below_cases _ _ B) as [[G M]| ->].
  - apply lt0_finite in P; auto. apply lt0_finite in Q; auto.
    assert (is_finite (fneg f) = true) as F' by (unfold fneg; rewrite is_finite_Bopp; auto).
    assert (B2R (fneg f) = - B2R f) as E by apply B2R_Bopp.
    assert (below (fmul down (fneg f) g) (- B2R f * B2R g)) as H
      by (rewrite <- E; apply rounded_down_below, fmul_rounded; auto).
    split.
    + eapply below_le; [exact H|nra].
    + destruct (below_cases _ _ H) as [[K N]| ->]; [|reflexivity]. apply lt0_finite; auto. nra.
  - apply lt0_finite in P; auto.
    assert (is_finite (fneg f) = true) as F' by (unfold fneg; rewrite is_finite_Bopp; auto).
    assert (B2R (fneg f) = - B2R f) as E by apply B2R_Bopp.
    rewrite (proj1 (fmul_inf_finite down (fneg f) true F' ltac:(lra))).
    rewrite finite_sign_pos by (auto; lra). split; reflexivity.
  - apply lt0_finite in Q; auto. change (fneg (B754_infinity true)) with (B754_infinity false : fl).
    rewrite (proj2 (fmul_inf_finite down g false G ltac:(lra))).
    rewrite finite_sign_neg by auto. split; reflexivity.
  - split; reflexivity.
Qed.
Lemma fmul_up_neg (f g : fl) x y : is_finite f = true -> is_finite g = true -> - x <= B2R f <= 0 -> - y <= B2R g <= 0 ->
  is_finite (fmul up (fneg f) g) = true /\ - (x * y) <= B2R (fmul up (fneg f) g) <= 0.
Proof.
  intros F G Hx Hy.
  assert (is_finite (fneg f) = true) as F' by (unfold fneg; rewrite is_finite_Bopp; auto).
  assert (B2R (fneg f) = - B2R f) as E by apply B2R_Bopp.
  pose proof (fmul_rounded mode_UP (fneg f) g F' G) as R. rewrite E in R.
  assert (- B2R f * B2R g <= 0) as Hp by nra.
  destruct (rounded_up_finite_neg _ _ Hp R) as [K P]. repeat split; auto.
  apply rounded_up_above in R. apply above_finite in R; auto. nra.
Qed.

Lemma pow_neg_down m : forall (r p : fl) rho x, 0 <= rho -> 0 <= x -> below r (- rho) -> below p (- x) ->
  lt0 r = true -> lt0 p = true -> below (pow_neg down r p m) (- (rho * x ^ Pos.to_nat m)).
Proof.
  induction m as [m IH|m IH|]; intros r p rho x Hr Hx A B P Q; cbn [pow_neg].
  - destruct (fmul_down_neg r p rho x) as [A' P']; auto. destruct (fmul_down_neg p p x x) as [B' Q']; auto.
    replace (rho * x ^ Pos.to_nat m~1) with ((rho * x) * (x * x) ^ Pos.to_nat m).
    + apply IH; auto; nra.
    + rewrite Pos2Nat.inj_xI. cbn [pow]. rewrite pow_mult. cbn [pow]. rewrite Rmult_1_r. ring.
  - destruct (fmul_down_neg p p x x) as [B' Q']; auto.
    replace (rho * x ^ Pos.to_nat m~0) with (rho * (x * x) ^ Pos.to_nat m).
    + apply IH; auto; nra.
    + rewrite Pos2Nat.inj_xO. rewrite pow_mult. cbn [pow]. rewrite Rmult_1_r. ring.
  - change (Pos.to_nat 1) with 1%nat. rewrite pow_1. apply fmul_down_neg; auto.
Qed.
Lemma pow_neg_up m : forall (r p : fl) rho x, is_finite r = true -> is_finite p = true ->
  - rho <= B2R r <= 0 -> - x <= B2R p <= 0 -> above (pow_neg up r p m) (- (rho * x ^ Pos.to_nat m)).
Proof.
  induction m as [m IH|m IH|]; intros r p rho x Fr Fp A B; cbn [pow_neg].
  - destruct (fmul_up_neg r p rho x) as [A' P']; auto. destruct (fmul_up_neg p p x x) as [B' Q']; auto.
    replace (rho * x ^ Pos.to_nat m~1) with ((rho * x) * (x * x) ^ Pos.to_nat m).
    + apply IH; auto.
    + rewrite Pos2Nat.inj_xI. cbn [pow]. rewrite pow_mult. cbn [pow]. rewrite Rmult_1_r. ring.
  - destruct (fmul_up_neg p p x x) as [B' Q']; auto.
    replace (rho * x ^ Pos.to_nat m~0) with (rho * (x * x) ^ Pos.to_nat m).
    + apply IH; auto.
    + rewrite Pos2Nat.inj_xO. rewrite pow_mult. cbn [pow]. rewrite Rmult_1_r. ring.
  - change (Pos.to_nat 1) with 1%nat. rewrite pow_1.
    destruct (fmul_up_neg r p rho x) as [K L]; auto. apply above_finite; auto. lra.
Qed.

Lemma fabs_pos (f : fl) : is_finite f = true -> 0 <= B2R f -> B2R (fabs f) = B2R f /\ is_finite (fabs f) = true.
Proof.
  intros F P. unfold fabs. rewrite B2R_Babs, is_finite_Babs. split; auto. apply Rabs_pos_eq; auto.
Qed.

(** Rounded powers bound powers of anything the base bounds, for a
    non-negative base... *)
Lemma fpow_up_nonneg (u : fl) x n : 0 <= x -> above u x -> above (fpow up u n) (x ^ N.to_nat n).
Proof.
  intros Hx A. destruct n as [|m]; cbn [fpow].
  - cbn. apply above_finite; [apply fone_finite|rewrite fone_val; lra].
  - cbn [N.to_nat]. destruct (Beqb u fzero) eqn:Z.
    + destruct (above_cases _ _ A) as [[F L]| ->]; [|discriminate].
      rewrite Beqb_correct in Z by auto. revert Z. case Req_bool_spec; [|discriminate]. cbn [B2R fzero]. intros E _.
      assert (x = 0) as -> by lra. rewrite pow_ne_zero by lia. cbn. lra.
    + assert (gt0 u = true) as P.
      { destruct (above_cases _ _ A) as [[F L]| ->]; [|reflexivity]. apply gt0_finite; auto.
        rewrite Beqb_correct in Z by auto. revert Z. case Req_bool_spec; [discriminate|]. cbn [B2R fzero]. intros; lra. }
      rewrite P. cbn [orb].
      rewrite <- (Rmult_1_l (x ^ _)). apply pow_pos_up; auto; try lra.
      * apply above_finite; [apply fone_finite|rewrite fone_val; lra].
      * destruct (above_cases _ _ A) as [[F L]| ->]; [|reflexivity].
        apply above_finite; [unfold fabs; rewrite is_finite_Babs; auto|].
        apply gt0_finite in P; auto. rewrite (proj1 (fabs_pos u F ltac:(lra))). auto.
      * apply gt0_finite; [apply fone_finite|rewrite fone_val; lra].
      * destruct (above_cases _ _ A) as [[F L]| ->]; [|reflexivity].
        apply gt0_finite in P; auto. destruct (fabs_pos u F ltac:(lra)) as [E G].
        apply gt0_finite; auto. rewrite E; auto.
Qed.
Lemma fpow_down_nonneg (l : fl) x n : is_finite l = true -> 0 <= B2R l <= x -> below (fpow down l n) (x ^ N.to_nat n).
Proof.
  intros F L. destruct n as [|m]; cbn [fpow].
  - cbn. apply below_finite; [apply fone_finite|rewrite fone_val; lra].
  - cbn [N.to_nat]. destruct (Beqb l fzero) eqn:Z.
    + cbn. apply pow_le; lra.
    + assert (gt0 l = true) as P.
      { apply gt0_finite; auto.
        rewrite Beqb_correct in Z by auto. revert Z. case Req_bool_spec; [discriminate|]. cbn [B2R fzero]. intros; lra. }
      rewrite P. cbn [orb].
      destruct (fabs_pos l F ltac:(lra)) as [E G].
      rewrite <- (Rmult_1_l (x ^ _)). apply pow_pos_down; auto; try rewrite E; auto.
      * apply fone_finite.
      * rewrite fone_val; lra.
Qed.

Lemma odd_pow_neg x n : N.even n = false -> (- x) ^ N.to_nat n = - (x ^ N.to_nat n).
Proof.
  intros E. assert (N.odd n = true) as O by (rewrite <- N.negb_even, E; auto).
  apply N.odd_spec in O. destruct O as [k ->].
  replace (N.to_nat (2 * k + 1)) with (S (2 * N.to_nat k)) by lia.
  cbn [pow]. rewrite !pow_mult. replace ((-x)^2) with (x^2) by ring. ring.
Qed.
Lemma even_pow_abs x n : N.even n = true -> (Rabs x) ^ N.to_nat n = x ^ N.to_nat n.
Proof.
  intros E. apply N.even_spec in E. destruct E as [k ->].
  replace (N.to_nat (2 * k)) with (2 * N.to_nat k)%nat by lia.
  rewrite !pow_mult. rewrite pow2_abs. reflexivity.
Qed.

(** ... and for odd exponents of any base. *)
Lemma fpow_down_odd (l : fl) x n : N.even n = false -> below l x -> below (fpow down l n) (x ^ N.to_nat n).
Proof.
  intros O B. destruct (lower_split _ _ B) as [(F & L & P & Q & _)|(E & P & _)].
  - destruct (ge0 l) eqn:G; spec_refl.
    + apply fpow_down_nonneg; auto.
    + assert (lt0 l = true) as S by (unfold ge0 in G; destruct (lt0 l); auto).
      destruct n as [|m]; [discriminate|]. cbn [fpow].
      rewrite Beqb_correct by auto. rewrite Req_bool_false by (cbn [B2R fzero]; lra).
      replace (gt0 l) with false by (symmetry; destruct (gt0 l) eqn:T; auto; apply gt0_finite in T; auto; lra).
      rewrite O. cbn [orb].
      apply below_le with (- (1 * (- B2R l) ^ Pos.to_nat m)).
      * apply pow_neg_down; auto; try lra.
        -- apply below_finite; [unfold fneg; rewrite is_finite_Bopp; apply fone_finite|].
           unfold fneg; rewrite B2R_Bopp, fone_val; lra.
        -- apply below_finite; auto; lra.
        -- apply lt0_finite; [unfold fneg; rewrite is_finite_Bopp; apply fone_finite|].
           unfold fneg; rewrite B2R_Bopp, fone_val; lra.
      * rewrite Rmult_1_l. change (Pos.to_nat m) with (N.to_nat (N.pos m)).
        rewrite odd_pow_neg by auto. rewrite Ropp_involutive.
        destruct (Rle_or_lt 0 x).
        -- apply Rle_trans with 0; [|apply pow_le; auto].
           replace (B2R l) with (- (- B2R l)) by ring. rewrite odd_pow_neg by auto.
           pose proof (pow_le (- B2R l) (N.to_nat (N.pos m)) ltac:(lra)). lra.
        -- pose proof (odd_pow_neg x _ O). pose proof (odd_pow_neg (B2R l) _ O).
           pose proof (pow_incr (- x) (- B2R l) (N.to_nat (N.pos m)) ltac:(lra)). lra.
  - subst l. destruct n as [|m]; [discriminate|]. cbn [fpow]. rewrite O. cbn [orb Beqb gt0 fzero].
    assert (0 <= - Rmin x 0) by (pose proof (Rmin_r x 0); lra).
    apply below_le with (- (1 * (- Rmin x 0) ^ Pos.to_nat m)).
    + apply pow_neg_down; auto; try lra; try reflexivity.
      * apply below_finite; [unfold fneg; rewrite is_finite_Bopp; apply fone_finite|].
           unfold fneg; rewrite B2R_Bopp, fone_val; lra.
      * apply lt0_finite; [unfold fneg; rewrite is_finite_Bopp; apply fone_finite|].
           unfold fneg; rewrite B2R_Bopp, fone_val; lra.
    + rewrite Rmult_1_l. change (Pos.to_nat m) with (N.to_nat (N.pos m)).
      destruct (Rle_or_lt 0 x).
      * rewrite Rmin_right by lra. rewrite Ropp_0. rewrite pow_ne_zero by lia.
        pose proof (pow_le x (N.to_nat (N.pos m)) ltac:(lra)). lra.
      * rewrite Rmin_left by lra. rewrite odd_pow_neg by auto. lra.
Qed.
Lemma fpow_up_odd (u : fl) x n : N.even n = false -> above u x -> above (fpow up u n) (x ^ N.to_nat n).
Proof.
  intros O B. destruct (Rle_or_lt 0 x) as [Hx|Hx]; [apply fpow_up_nonneg; auto|].
  destruct (upper_split _ _ B) as [(F & L & _ & _ & P & Q)|(E & _ & P)].
  - destruct (lt0 u) eqn:G; spec_refl.
    + destruct n as [|m]; [discriminate|]. cbn [fpow].
      rewrite Beqb_correct by auto. rewrite Req_bool_false by (cbn [B2R fzero]; lra).
      replace (gt0 u) with false by (symmetry; destruct (gt0 u) eqn:T; auto; apply gt0_finite in T; auto; lra).
      rewrite O. cbn [orb].
      apply above_ge with (- (1 * (- x) ^ Pos.to_nat m)).
      * apply pow_neg_up; auto; try lra.
        -- unfold fneg; rewrite is_finite_Bopp; apply fone_finite.
        -- unfold fneg; rewrite B2R_Bopp, fone_val; lra.
      * rewrite Rmult_1_l. change (Pos.to_nat m) with (N.to_nat (N.pos m)).
        rewrite odd_pow_neg by auto. lra.
    + apply above_ge with (0 ^ N.to_nat n).
      * apply fpow_up_nonneg; [lra|]. apply above_finite; auto.
      * replace x with (- (- x)) by ring. rewrite odd_pow_neg by auto.
        pose proof (pow_le (- x) (N.to_nat n) ltac:(lra)).
        rewrite pow_ne_zero; [lra|]. destruct n; [discriminate|lia].
  - subst u. apply above_ge with (0 ^ N.to_nat n).
    * apply fpow_up_nonneg; [lra|reflexivity].
    * replace x with (- (- x)) by ring. rewrite odd_pow_neg by auto.
        pose proof (pow_le (- x) (N.to_nat n) ltac:(lra)).
        rewrite pow_ne_zero; [lra|]. destruct n; [discriminate|lia].
Qed.

Lemma b_abs_lower (X : bnd) x : contains X x -> is_finite (b_l (b_abs X)) = true /\ 0 <= B2R (b_l (b_abs X)).
Proof.
  intros [A B]. unfold b_abs.
  destruct (lower_split _ _ A) as [(F & L & P & Q & _)|(E & P & _)];
  destruct (upper_split _ _ B) as [(G & U & S & T & _)|(E' & S & _)].
  all: destruct (ge0 (b_l X)) eqn:E1; destruct (le0 (b_u X)) eqn:E2; spec_refl; try discriminate; cbn [b_l b_u];
    try (split; [assumption|lra]); try (cbn; split; [reflexivity|lra]).
  all: unfold fneg; rewrite is_finite_Bopp, B2R_Bopp; split; [assumption|lra].
Qed.

Lemma b_pow_contains (X : bnd) x n : contains X x -> contains (b_pow X n) (x ^ N.to_nat n).
Proof.
  intros H. unfold b_pow. destruct (N.even n) eqn:E.
  - rewrite <- even_pow_abs by auto. pose proof (b_abs_contains X x H) as [A B].
    destruct (b_abs_lower X x H) as [F P].
    split; cbn [b_l b_u].
    + apply fpow_down_nonneg; auto. split; auto. apply (below_finite _ _ F); auto.
    + apply fpow_up_nonneg; auto. apply Rabs_pos.
  - destruct H as [A B]. split; cbn [b_l b_u]; [apply fpow_down_odd|apply fpow_up_odd]; auto.
Qed.

Lemma b_powz_contains (X : bnd) x n : contains X x -> (x <> 0 \/ (0 <= n)%Z) -> contains (b_powz X n) (powerRZ x n).
Proof.
  intros H Hx. unfold b_powz. destruct (Z.ltb_spec n 0).
  - assert (x <> 0) by (destruct Hx; auto; lia).
    replace (powerRZ x n) with ((/ x) ^ N.to_nat (Z.to_N (- n))).
    + apply b_pow_contains, b_rec_contains; auto.
    + destruct n; try lia. cbn [powerRZ Z.opp Z.to_N N.to_nat]. symmetry. rewrite pow_inv. reflexivity.
  - replace (powerRZ x n) with (x ^ N.to_nat (Z.to_N n)); [apply b_pow_contains; auto|].
    destruct n; try lia; reflexivity.
Qed.

(** ** Halving *)

Lemma fhlf_exact m (f : fl) : is_finite f = true ->
  generic_format radix2 (SpecFloat.fexp prec emax) (B2R f / 2) -> 
  is_finite (fhlf m f) = true /\ B2R (fhlf m f) = B2R f / 2.
Proof.
  intros F G. pose proof (fdiv_rounded m f (ftwo : fl) F ltac:(rewrite (proj1 ftwo_val); lra)) as R.
  rewrite (proj1 ftwo_val) in R. fold (fhlf m f) in R. destruct R as [[L [K E]]|[L E]].
  - split; auto. rewrite E. apply round_generic; auto with typeclass_instances.
  - rewrite round_generic in L by auto with typeclass_instances.
    pose proof (abs_B2R_lt_emax prec emax f). unfold Rdiv in L. rewrite Rabs_mult in L.
    rewrite (Rabs_pos_eq (/2)) in L by lra. pose proof (Rabs_pos (B2R f)). lra.
Qed.

Lemma half_format (f : fl) : bpow radix2 (3 - emax) <= Rabs (B2R f) ->
  generic_format radix2 (SpecFloat.fexp prec emax) (B2R f / 2).
Proof.
  intros H. replace (B2R f / 2) with (B2R f * bpow radix2 (-1)) by (cbn; lra).
  apply mult_bpow_exact_FLT with (emin := (3 - emax - prec)%Z); [apply generic_format_B2R|].
  assert (3 - emax < mag radix2 (B2R f))%Z as M.
  { apply mag_gt_bpow. auto. }
  lia.
Qed.

Definition halvable (f : fl) : Prop :=
  is_finite f = false \/ B2R f = 0 \/ bpow radix2 (3 - emax) <= Rabs (B2R f).

Lemma halvable_exact m (f : fl) : is_finite f = true -> halvable f ->
  is_finite (fhlf m f) = true /\ B2R (fhlf m f) = B2R f / 2.
Proof.
  intros F [H|[H|H]]; [congruence| |].
  - apply fhlf_exact; auto. rewrite H. unfold Rdiv. rewrite Rmult_0_l. apply generic_format_0.
  - apply fhlf_exact; auto. apply half_format; auto.
Qed.

Lemma b_hlf_contains m (X : bnd) x : halvable (b_l X) -> halvable (b_u X) -> contains X x -> contains (b_hlf m X) (x / 2).
Proof.
  intros Hl Hu [A B]. split; cbn [b_hlf b_l b_u].
  - destruct (below_cases _ _ A) as [[F L]| ->].
    + destruct (halvable_exact m _ F Hl) as [K E]. apply below_finite; auto. lra.
    + rewrite fhlf_inf. reflexivity.
  - destruct (above_cases _ _ B) as [[F L]| ->].
    + destruct (halvable_exact m _ F Hu) as [K E]. apply above_finite; auto. lra.
    + rewrite fhlf_inf. reflexivity.
Qed.

(** ** Mixed and positive operations *)

Lemma ff_add_contains (x y : fl) : is_finite x = true -> is_finite y = true -> contains (ff_add x y) (B2R x + B2R y).
Proof. intros. split; cbn; [apply rounded_down_below|apply rounded_up_above]; apply fadd_rounded; auto. Qed.
Lemma ff_sub_contains (x y : fl) : is_finite x = true -> is_finite y = true -> contains (ff_sub x y) (B2R x - B2R y).
Proof. intros. split; cbn; [apply rounded_down_below|apply rounded_up_above]; apply fsub_rounded; auto. Qed.
Lemma ff_mul_contains (x y : fl) : is_finite x = true -> is_finite y = true -> contains (ff_mul x y) (B2R x * B2R y).
Proof. intros. split; cbn; [apply rounded_down_below|apply rounded_up_above]; apply fmul_rounded; auto. Qed.
Lemma ff_div_contains (x y : fl) : is_finite x = true -> B2R y <> 0 -> contains (ff_div x y) (B2R x / B2R y).
Proof. intros. split; cbn; [apply rounded_down_below|apply rounded_up_above]; apply fdiv_rounded; auto. Qed.
Lemma ff_rec_contains (y : fl) : B2R y <> 0 -> contains (ff_rec y) (/ B2R y).
Proof.
  intros. replace (/ B2R y) with (1 / B2R y) by (field; auto). rewrite <- fone_val.
  split; cbn; [apply rounded_down_below|apply rounded_up_above]; apply fdiv_rounded; auto; apply fone_finite.
Qed.

Lemma fpow_any_up (f : fl) n : is_finite f = true -> above (fpow up f n) (B2R f ^ N.to_nat n).
Proof.
  intros F. destruct (N.even n) eqn:E; [|apply fpow_up_odd; auto; apply above_finite; auto; lra].
  destruct (Rle_or_lt 0 (B2R f)).
  - apply fpow_up_nonneg; auto. apply above_finite; auto; lra.
  - (* even power of a negative base goes through |x| *)
    assert (fpow up f n = fpow up (fabs f) n) as ->.
    { destruct n as [|m]; cbn [fpow]; auto. rewrite E, !orb_true_r.
      rewrite !Beqb_correct; try (unfold fabs; rewrite is_finite_Babs); auto.
      unfold fabs. rewrite B2R_Babs. cbn [B2R fzero].
      rewrite !Req_bool_false by (try rewrite Rabs_left by auto; lra).
      destruct f; reflexivity. }
    rewrite <- even_pow_abs by auto. apply fpow_up_nonneg; [apply Rabs_pos|].
    unfold fabs. apply above_finite; [rewrite is_finite_Babs; auto|rewrite B2R_Babs; lra].
Qed.
Lemma fpow_any_down (f : fl) n : is_finite f = true -> below (fpow down f n) (B2R f ^ N.to_nat n).
Proof.
  intros F. destruct (N.even n) eqn:E; [|apply fpow_down_odd; auto; apply below_finite; auto; lra].
  destruct (Rle_or_lt 0 (B2R f)).
  - apply fpow_down_nonneg; auto. lra.
  - assert (fpow down f n = fpow down (fabs f) n) as ->.
    { destruct n as [|m]; cbn [fpow]; auto. rewrite E, !orb_true_r.
      rewrite !Beqb_correct; try (unfold fabs; rewrite is_finite_Babs); auto.
      unfold fabs. rewrite B2R_Babs. cbn [B2R fzero].
      rewrite !Req_bool_false by (try rewrite Rabs_left by auto; lra).
      destruct f; reflexivity. }
    rewrite <- even_pow_abs by auto. apply fpow_down_nonneg; unfold fabs.
    + rewrite is_finite_Babs; auto.
    + rewrite B2R_Babs. split; [apply Rabs_pos|lra].
Qed.
Lemma ff_pow_contains (f : fl) n : is_finite f = true -> contains (ff_pow f n) (B2R f ^ N.to_nat n).
Proof. intros; split; cbn; [apply fpow_any_down|apply fpow_any_up]; auto. Qed.

Lemma finite_contains_below (f : fl) : is_finite f = true -> below f (B2R f) /\ above f (B2R f).
Proof. intros; split; [apply below_finite|apply above_finite]; auto; lra. Qed.

Lemma bf_add_contains (X : bnd) (f : fl) x : is_finite f = true -> contains X x ->
  contains (bf_add X f) (x + B2R f) /\ contains (fb_add f X) (B2R f + x).
Proof.
  intros F [A B]. destruct (finite_contains_below f F).
  repeat split; cbn; auto using fadd_down_below, fadd_up_above.
Qed.
Lemma bf_sub_contains (X : bnd) (f : fl) x : is_finite f = true -> contains X x ->
  contains (bf_sub X f) (x - B2R f) /\ contains (fb_sub f X) (B2R f - x).
Proof.
  intros F [A B]. destruct (finite_contains_below f F).
  repeat split; cbn; auto using fsub_down_below, fsub_up_above.
Qed.

Lemma op_mul_bf_contains (X : bnd) (f : fl) x : is_finite f = true -> finite_bounds X -> contains X x ->
  contains (op_mul_bf X f) (x * B2R f) /\ contains (op_mul_fb f X) (B2R f * x).
Proof.
  intros F [G H] [A B]. apply (below_finite _ _ G) in A. apply (above_finite _ _ H) in B.
  assert (forall (f g : fl) r, is_finite f = true -> is_finite g = true -> B2R f * B2R g <= r -> below (fmul down f g) r) as D.
  { intros. eapply below_le; [|eassumption]. apply rounded_down_below, fmul_rounded; auto. }
  assert (forall (f g : fl) r, is_finite f = true -> is_finite g = true -> r <= B2R f * B2R g -> above (fmul up f g) r) as U.
  { intros. eapply above_ge; [|eassumption]. apply rounded_up_above, fmul_rounded; auto. }
  unfold op_mul_bf, op_mul_fb. destruct (ge0 f) eqn:E.
  - apply ge0_finite in E; auto. repeat split; cbn; [apply D|apply U|apply D|apply U]; auto; nra.
  - assert (B2R f < 0) by (destruct (Rlt_or_le (B2R f) 0) as [Hr|Hr]; auto; apply ge0_finite in Hr; auto; congruence).
    repeat split; cbn; [apply D|apply U|apply D|apply U]; auto; nra.
Qed.
Lemma op_div_bf_contains (X : bnd) (f : fl) x : is_finite f = true -> contains X x -> B2R f <> 0 ->
  contains (op_div_bf X f) (x / B2R f).
Proof.
  intros F [A B] N. unfold op_div_bf.
  destruct (gt0 f) eqn:E; [apply gt0_finite in E; auto|].
  - split; cbn.
    + destruct (below_cases _ _ A) as [[G L]| ->].
      * apply fdiv_down_below; auto. apply div_le_pos; nra.
      * rewrite fdiv_inf_by, finite_sign_pos by auto. reflexivity.
    + destruct (above_cases _ _ B) as [[G L]| ->].
      * apply fdiv_up_above; auto. apply div_le_pos; nra.
      * rewrite fdiv_inf_by, finite_sign_pos by auto. reflexivity.
  - destruct (lt0 f) eqn:E'; [apply lt0_finite in E'; auto|split; reflexivity].
    split; cbn.
    + destruct (above_cases _ _ B) as [[G L]| ->].
      * apply fdiv_down_below; auto. apply div_le_neg; nra.
      * rewrite fdiv_inf_by, finite_sign_neg by auto. reflexivity.
    + destruct (below_cases _ _ A) as [[G L]| ->].
      * apply fdiv_up_above; auto. apply div_le_neg; nra.
      * rewrite fdiv_inf_by, finite_sign_neg by auto. reflexivity.
Qed.



(** A float divided by bounds. *)
Lemma op_div_fb_contains (f : fl) (Y : bnd) y : is_finite f = true -> contains Y y -> y <> 0 ->
  contains (op_div_fb f Y) (B2R f / y).
Proof.
  intros F [A B] N. unfold op_div_fb.
  destruct (le0 (b_l Y) && ge0 (b_u Y)) eqn:Z; [split; reflexivity|].
  assert (P : (is_finite (b_l Y) = true /\ 0 < B2R (b_l Y) <= y) \/ (is_finite (b_u Y) = true /\ y <= B2R (b_u Y) < 0)).
  { destruct (below_cases _ _ A) as [[G L]|E]; destruct (above_cases _ _ B) as [[K U]|E'].
    - destruct (Rle_or_lt (B2R (b_l Y)) 0) as [Q|Q]; [|left; auto].
      destruct (Rle_or_lt 0 (B2R (b_u Y))) as [Q'|Q']; [|right; auto].
      apply le0_finite in Q; auto. apply ge0_finite in Q'; auto. rewrite Q, Q' in Z. discriminate.
    - destruct (Rle_or_lt (B2R (b_l Y)) 0) as [Q|Q]; [|left; auto].
      apply le0_finite in Q; auto. rewrite Q, E' in Z. discriminate.
    - destruct (Rle_or_lt 0 (B2R (b_u Y))) as [Q'|Q']; [|right; auto].
      apply ge0_finite in Q'; auto. rewrite E, Q' in Z. discriminate.
    - rewrite E, E' in Z. discriminate. }
  assert (LO : forall s, fdiv down f (B754_infinity s) = B754_zero (xorb (Bsign f) s) /\ fdiv up f (B754_infinity s) = B754_zero (xorb (Bsign f) s)).
  { intros s. destruct f; cbn in *; try discriminate; auto. }
  assert (SG : forall a b, 0 <= a -> 0 < b -> 0 <= a / b).
  { intros. apply Rmult_le_pos; auto. apply Rlt_le, Rinv_0_lt_compat; auto. }
  assert (SN : forall a b, 0 <= a -> b < 0 -> a / b <= 0).
  { intros a b Ha Hb. replace (a / b) with (- (a / - b)) by (field; lra). pose proof (SG a (- b) Ha ltac:(lra)). lra. }
  destruct (ge0 f) eqn:E.
  - apply ge0_finite in E; auto. destruct P as [[G L]|[G L]]; split; cbn.
    + destruct (above_cases _ _ B) as [[K U]| ->].
      * apply fdiv_down_below; auto; try lra. apply div_le_pos; nra.
      * rewrite (proj1 (LO _)). cbn. apply SG; lra.
    + apply fdiv_up_above; auto; try lra. apply div_le_pos; nra.
    + apply fdiv_down_below; auto; try lra. apply div_le_neg; nra.
    + destruct (below_cases _ _ A) as [[K U]| ->].
      * apply fdiv_up_above; auto; try lra. apply div_le_neg; nra.
      * rewrite (proj2 (LO _)). cbn. apply SN; lra.
  - assert (B2R f < 0) by (destruct (Rlt_or_le (B2R f) 0) as [Hr|Hr]; auto; apply ge0_finite in Hr; auto; congruence).
    assert (M : forall b, B2R f / b = - (- B2R f / b)) by (intros; unfold Rdiv; ring).
    destruct P as [[G L]|[G L]]; split; cbn.
    + apply fdiv_down_below; auto; try lra. apply div_le_pos; nra.
    + destruct (above_cases _ _ B) as [[K U]| ->].
      * apply fdiv_up_above; auto; try lra. apply div_le_pos; nra.
      * rewrite (proj2 (LO _)). cbn. rewrite M. pose proof (SG (- B2R f) y). lra.
    + destruct (below_cases _ _ A) as [[K U]| ->].
      * apply fdiv_down_below; auto; try lra. apply div_le_neg; nra.
      * rewrite (proj1 (LO _)). cbn. rewrite M. pose proof (SN (- B2R f) y). lra.
    + apply fdiv_up_above; auto; try lra. apply div_le_neg; nra.
Qed.
Lemma op_div_fb_zero (f : fl) (Y : bnd) : contains Y 0 -> whole_line (op_div_fb f Y).
Proof.
  intros [A B]. unfold op_div_fb.
  assert (le0 (b_l Y) = true) as ->.
  { destruct (below_cases _ _ A) as [[G L]| ->]; [apply le0_finite; auto|reflexivity]. }
  assert (ge0 (b_u Y) = true) as ->.
  { destruct (above_cases _ _ B) as [[G L]| ->]; [apply ge0_finite; auto|reflexivity]. }
  split; reflexivity.
Qed.

(** Positive<Bounds>: the bounds are non-negative. *)
Definition nonneg_bounds (X : bnd) : Prop := ge0 (b_l X) = true.

Lemma fmul_up_nonneg (f g : fl) x y : 0 <= x -> 0 <= y -> above f x -> above g y ->
  is_nan (fmul up f g) = false -> above (fmul up f g) (x * y).
Proof.
  intros Hx Hy A B N. apply fmul_up_above; auto.
  - intros F G. apply (above_finite _ _ F) in A. apply (above_finite _ _ G) in B. nra.
  - intros F G. apply (above_finite _ _ G) in B. right. split; [|lra].
    destruct (above_cases _ _ A) as [[K _]| ->]; [congruence|reflexivity].
  - intros F G. apply (above_finite _ _ F) in A. right. split; [|lra].
    destruct (above_cases _ _ B) as [[K _]| ->]; [congruence|reflexivity].
  - intros F G. destruct (above_cases _ _ A) as [[K _]| ->]; [congruence|].
    destruct (above_cases _ _ B) as [[K _]| ->]; [congruence|reflexivity].
Qed.

Lemma pb_mul_contains (X Y : bnd) x y : nonneg_bounds X -> nonneg_bounds Y ->
  contains X x -> contains Y y -> no_nan (pb_mul X Y) -> contains (pb_mul X Y) (x * y).
Proof.
  intros P Q [A B] [C D] [_ N]. unfold nonneg_bounds in *. cbn [pb_mul b_l b_u] in *.
  destruct (lower_split _ _ A) as [(F & L & S & _)|(E & S & _)]; [|congruence].
  destruct (lower_split _ _ C) as [(G & M & T & _)|(E & T & _)]; [|congruence].
  specialize (S P). specialize (T Q).
  split; cbn [b_l b_u].
  - destruct (fmul_down_pos (b_l X) (b_l Y) x y F G (conj S L) (conj T M)) as [K [_ W]]. apply below_finite; auto.
  - apply fmul_up_nonneg; auto; lra.
Qed.
Lemma pb_div_contains (X Y : bnd) x y : nonneg_bounds X -> nonneg_bounds Y -> gt0 (b_l Y) = true ->
  contains X x -> contains Y y -> contains (pb_div X Y) (x / y).
Proof.
  intros P Q R [A B] [C D]. unfold nonneg_bounds in *.
  destruct (lower_split _ _ A) as [(F & L & S & _)|(E & S & _)]; [|congruence].
  destruct (lower_split _ _ C) as [(G & M & _ & _ & T & _)|(E & _ & T)]; [|congruence].
  specialize (S P). specialize (T R).
  split; cbn [b_l b_u pb_div].
  - destruct (above_cases _ _ D) as [[K U]| ->].
    + apply fdiv_down_below; auto; try lra. apply div_le_pos; try lra. nra.
    + destruct (fdiv_by_inf down (b_l X) false F) as [s ->]. cbn.
      apply Rmult_le_pos; [lra|]. apply Rlt_le, Rinv_0_lt_compat. lra.
  - destruct (above_cases _ _ B) as [[K U]| ->].
    + apply fdiv_up_above; auto; try lra. apply div_le_pos; try lra. nra.
    + rewrite fdiv_inf_by, finite_sign_pos by auto. reflexivity.
Qed.



Lemma pb_sqr_contains (X : bnd) x : nonneg_bounds X -> contains X x -> contains (pb_sqr X) (x * x).
Proof.
  intros P [A B]. unfold nonneg_bounds in *.
  destruct (lower_split _ _ A) as [(F & L & S & _)|(E & S & _)]; [|congruence].
  specialize (S P). split; cbn [b_l b_u pb_sqr]; unfold fsqr.
  - destruct (fmul_down_pos (b_l X) (b_l X) x x F F (conj S L) (conj S L)) as [K [_ W]]. apply below_finite; auto.
  - apply fmul_up_nonneg; auto; try lra.
    destruct (above_cases _ _ B) as [[K U]| ->]; [|reflexivity].
    eapply rounded_not_nan, fmul_rounded; auto.
Qed.
Lemma pb_rec_contains (X : bnd) x : gt0 (b_l X) = true -> contains X x -> contains (pb_rec X) (/ x).
Proof.
  intros P C.
  assert (Q : contains (mkB (fone : fl) fone) 1).
  { split; cbn; [apply below_finite|apply above_finite]; try apply fone_finite; rewrite fone_val; lra. }
  assert (G : ge0 (b_l X) = true).
  { destruct C as [A _]. destruct (lower_split _ _ A) as [(F & L & _ & _ & T & _)|(E & _ & T)]; [|rewrite E in P; discriminate].
    specialize (T P). apply ge0_finite; auto; lra. }
  replace (/ x) with (1 / x) by (unfold Rdiv; ring).
  apply (pb_div_contains (mkB (fone : fl) fone) X 1 x); auto.
  unfold nonneg_bounds; cbn. apply ge0_finite; [apply fone_finite|rewrite fone_val; lra].
Qed.

(** Membership of a float can be computed. *)
Lemma below_flt_le (f g : fl) : is_finite g = true -> (below f (B2R g) <-> flt_le f g = true).
Proof.
  intros G. split.
  - intros A. destruct (below_cases _ _ A) as [[F L]| ->]; [apply flt_le_finite; auto|].
    destruct g; try discriminate; reflexivity.
  - intros H. eapply refines_below; [exact H|]. apply below_finite; auto; lra.
Qed.
Lemma above_flt_le (f g : fl) : is_finite g = true -> (above f (B2R g) <-> flt_le g f = true).
Proof.
  intros G. split.
  - intros A. destruct (above_cases _ _ A) as [[F L]| ->]; [apply flt_le_finite; auto|].
    destruct g; try discriminate; reflexivity.
  - intros H. eapply refines_above; [exact H|]. apply above_finite; auto; lra.
Qed.

End BP.
