(** Proofs about the hybrid evolver: crossings, timing, guards and the coverage of runs. *)
From Coq Require Import List Bool Arith Reals Lra Lia Classical.
From Coquelicot Require Import Coquelicot.
From Verif Require Import Automaton_Model Evolver_Model HybridEvolver_Model HybridEvolver_Spec.
Import ListNotations.
Local Open Scope R_scope.

Lemma Rltb_true x y : Rltb x y = true <-> x < y.
Proof. unfold Rltb. destruct (Rlt_dec x y); split; intros; auto; discriminate. Qed.
Lemma Rltb_false x y : Rltb x y = false <-> y <= x.
Proof. unfold Rltb. destruct (Rlt_dec x y); split; intros; auto; try discriminate; lra. Qed.
Lemma Rleb_true x y : Rleb x y = true <-> x <= y.
Proof. unfold Rleb. destruct (Rle_dec x y); split; intros; auto; discriminate. Qed.
Lemma Rleb_false x y : Rleb x y = false <-> y < x.
Proof. unfold Rleb. destruct (Rle_dec x y); split; intros; auto; try discriminate; lra. Qed.

(** ** Calculus *)
Section CALC.
  Variables u du ddu : R -> R.
  Hypothesis Du : forall s, is_derive u s (du s).
  Hypothesis Ddu : forall s, is_derive du s (ddu s).
  Lemma mvt a b : a < b -> exists c, a < c < b /\ u b - u a = du c * (b - a).
  Proof.
    intros H. destruct (MVT_cor2 u du a b H) as [c [E B]].
    - intros c _. apply is_derive_Reals, Du.
    - exists c. split; [exact B | exact E].
  Qed.
  Lemma inc a b : a < b -> (forall s, a <= s <= b -> 0 < du s) -> u a < u b.
  Proof. intros H P. destruct (mvt a b H) as (c & B & E). specialize (P c ltac:(lra)). assert (0 < du c * (b - a)) by (apply Rmult_lt_0_compat; lra). lra. Qed.
  Lemma inc_le a b : a <= b -> (forall s, a <= s <= b -> 0 <= du s) -> u a <= u b.
  Proof.
    intros [H | ->] P; [| lra]. destruct (mvt a b H) as (c & B & E). specialize (P c ltac:(lra)).
    assert (0 <= du c * (b - a)) by (apply Rmult_le_pos; lra). lra.
  Qed.
  Lemma dec a b : a < b -> (forall s, a <= s <= b -> du s < 0) -> u b < u a.
  Proof. intros H P. destruct (mvt a b H) as (c & B & E). specialize (P c ltac:(lra)). assert (0 < (- du c) * (b - a)) by (apply Rmult_lt_0_compat; lra). lra. Qed.
End CALC.
Section CALC2.
  Variables u du ddu : R -> R.
  Hypothesis Du : forall s, is_derive u s (du s).
  Hypothesis Ddu : forall s, is_derive du s (ddu s).
  Variable h : R.
  (** A strictly concave function with a critical point *)
  Lemma concave_before mu a b : (forall s, 0 <= s <= h -> ddu s < 0) -> 0 <= a -> a < b -> b <= mu -> mu <= h -> du mu = 0 -> u a < u b.
  Proof.
    intros C A AB BM MH Z. destruct (mvt u du Du a b AB) as (c & B & E).
    assert (0 < du c). { rewrite <- Z. apply (dec du ddu Ddu); [lra |]. intros s Hs. apply C. lra. }
    assert (0 < du c * (b - a)) by (apply Rmult_lt_0_compat; lra). lra.
  Qed.
  Lemma concave_after mu a b : (forall s, 0 <= s <= h -> ddu s < 0) -> 0 <= mu -> mu <= a -> a < b -> b <= h -> du mu = 0 -> u b < u a.
  Proof.
    intros C A AB BM MH Z. destruct (mvt u du Du a b BM) as (c & B & E).
    assert (du c < 0). { rewrite <- Z. apply (dec du ddu Ddu); [lra |]. intros s Hs. apply C. lra. }
    assert (0 < (- du c) * (b - a)) by (apply Rmult_lt_0_compat; lra). lra.
  Qed.
  Lemma convex_between d s : (forall s, 0 <= s <= h -> 0 < ddu s) -> 0 <= s <= d -> d <= h -> u 0 <= 0 -> u d <= 0 -> u s <= 0.
  Proof.
    intros C B D U0 Ud. destruct (Rle_lt_dec (u s) 0) as [N | N]; [exact N | exfalso].
    assert (S0 : 0 < s) by (destruct (Req_dec s 0) as [-> | ]; lra).
    assert (S1 : s < d) by (destruct (Req_dec s d) as [-> | ]; lra).
    destruct (mvt u du Du 0 s S0) as (c1 & B1 & E1). destruct (mvt u du Du s d S1) as (c2 & B2 & E2).
    assert (0 < du c1). { apply Rnot_le_lt. intros G. assert (du c1 * (s - 0) <= 0) by nra. lra. }
    assert (du c2 < 0). { apply Rnot_le_lt. intros G. assert (0 <= du c2 * (d - s)) by nra. lra. }
    assert (du c1 < du c2). { apply (inc du ddu Ddu); [lra |]. intros r Hr. apply C. lra. } lra.
  Qed.
  Lemma continuous_u : forall s, continuity_pt u s.
  Proof. intros s. apply derivable_continuous_pt. exists (du s). apply is_derive_Reals, Du. Qed.
  Lemma ivt a b : a <= b -> u a <= 0 -> 0 <= u b -> exists z, a <= z <= b /\ u z = 0.
  Proof.
    intros AB A B. destruct AB as [AB | <-].
    2: { exists a. split; lra. }
    destruct A as [A | A]; [| exists a; split; lra]. destruct B as [B | B]; [| exists b; split; lra].
    destruct (IVT_cor u a b (fun s => continuous_u s) ltac:(lra)) as (z & Bz & Z).
    - apply Rlt_le. nra.
    - exists z. split; assumption.
  Qed.
  (** The derivative at a point reached from below is not negative. *)
  Lemma reached_from_below d : 0 < d -> (forall s, 0 <= s <= d -> u s <= 0) -> u d = 0 -> 0 <= du d.
  Proof.
    intros D B Z. apply Rnot_lt_le. intros N.
    pose proof (proj1 (is_derive_Reals u d (du d)) (Du d)) as Hd.
    destruct (Hd (- du d) ltac:(lra)) as (eps & E).
    set (k := Rmin (d / 2) (eps / 2)).
    assert (Hk : 0 < k) by (unfold k; apply Rmin_glb_lt; [lra | destruct eps; simpl in *; lra]).
    assert (Kd : k <= d / 2) by apply Rmin_l.
    assert (Ke : k < eps) by (apply Rle_lt_trans with (eps / 2); [apply Rmin_r | destruct eps; simpl in *; lra]).
    specialize (E (- k) ltac:(lra)). rewrite Rabs_Ropp, Rabs_right in E by lra. specialize (E Ke).
    replace (d + - k) with (d - k) in E by ring. rewrite Z in E.
    specialize (B (d - k) ltac:(lra)).
    apply Rabs_def2 in E. destruct E as [E1 E2].
    assert (Q : (u (d - k) - 0) / - k = (- u (d - k)) / k) by (field; lra). rewrite Q in *.
    assert (0 <= - u (d - k) / k) by (apply Rmult_le_pos; [lra | apply Rlt_le, Rinv_0_lt_compat; lra]). lra.
  Qed.
End CALC2.

Section HE.
Context {L X : Type}.
Variable sys : system L X.
Variable o : oracles L X.
Hypothesis FO : flow_ok sys.
Hypothesis SO : sound sys o.

Lemma lower_sound b r v : lower_above b r = true -> in_range r v -> exists lo, b lo = true /\ lo <= v.
Proof. destruct r as [[lo hi] |]; simpl; [intros; exists lo; intuition | discriminate]. Qed.
Lemma upper_sound b r v : upper_below b r = true -> in_range r v -> exists hi, b hi = true /\ v <= hi.
Proof. destruct r as [[lo hi] |]; simpl; [intros; exists hi; intuition | discriminate]. Qed.
Lemma not_empty (P : pset X) x t d : P x t d -> surely_empty o P = false.
Proof. intros H. destruct (surely_empty o P) eqn:E; [exfalso; exact (empty_sound _ _ SO P E x t d H) | reflexivity]. Qed.

Section STEP.
Variable S : enclosure L X.
Variable h : R.
Hypothesis Hh : 0 < h.
Notation phi := (phi sys S).
Notation trs := (transitions sys (e_loc S)).
Definition u (tr : transition L X) x s := tr_guard tr (phi x s).
Definition du (tr : transition L X) x s := tr_lie tr (phi x s).
Definition ddu (tr : transition L X) x s := tr_lie2 tr (phi x s).
Lemma Du tr x : In tr trs -> forall s, is_derive (u tr x) s (du tr x s).
Proof. intros I s. apply (proj1 (proj2 (proj2 FO) _ _ I x s)). Qed.
Lemma Ddu tr x : In tr trs -> forall s, is_derive (du tr x) s (ddu tr x s).
Proof. intros I s. apply (proj2 (proj2 (proj2 FO) _ _ I x s)). Qed.
Lemma phi_0 x : phi x 0 = x. Proof. apply (proj1 FO). Qed.

(** ** Crossings *)
Definition crossing_sound (tc : transition L X * crossing X) : Prop :=
  In (fst tc) trs /\ forall x t, e_set S x t -> crossing_ok (snd tc) h x (u (fst tc) x) (du (fst tc) x) (ddu (fst tc) x).

Lemma classify_ok tr c : In tr trs -> classify sys o S h tr = Crossing c -> crossing_sound (tr, c).
Proof.
  intros I H. split; [exact I |]. intros x t Sx. cbn [fst snd].
  pose proof (Du tr x I) as D1. pose proof (Ddu tr x I) as D2.
  assert (V : forall f d, 0 <= d <= h -> in_range (value_range o S h f) (f (phi x d))) by (intros; eapply value_sound; eauto).
  unfold classify in H.
  destruct (lower_above _ (value_range o S h (tr_lie tr))) eqn:E1.
  { assert (P : forall s, 0 <= s <= h -> 0 < du tr x s).
    { intros s Hs. destruct (lower_sound _ _ _ E1 (V _ s Hs)) as (lo & B & Le). apply Rltb_true in B. unfold du. lra. }
    destruct (implicit o S _ h) as [gamma |] eqn:E2; injection H as <-; simpl; [| exact P].
    destruct (implicit_sound _ _ SO _ _ _ _ x t E2 Sx) as (B & Z & Un).
    split; [lra | split; [exact Z |]]. intros U0 s Hs. split.
    - intros Lt. rewrite <- Z. apply (inc _ _ D1); [lra |]. intros r Hr. apply P. lra.
    - intros Gt. exists s. split; [lra |]. change (u tr x s > 0). rewrite <- Z. apply (inc _ _ D1); [lra |]. intros r Hr. apply P. lra. }
  destruct (upper_below _ (value_range o S h (tr_lie tr))) eqn:E2.
  { injection H as <-. simpl. intros s Hs. destruct (upper_sound _ _ _ E2 (V _ s Hs)) as (hi & B & Le). apply Rltb_true in B. unfold du. lra. }
  destruct (lower_above _ (value_range o S h (tr_lie2 tr))) eqn:E3.
  { injection H as <-. simpl. intros s Hs. destruct (lower_sound _ _ _ E3 (V _ s Hs)) as (lo & B & Le). apply Rltb_true in B. unfold ddu. lra. }
  destruct (upper_below _ (value_range o S h (tr_lie2 tr))) eqn:E4.
  2: { injection H as <-. exact Logic.I. }
  assert (C : forall s, 0 <= s <= h -> ddu tr x s < 0).
  { intros s Hs. destruct (upper_sound _ _ _ E4 (V _ s Hs)) as (hi & B & Le). apply Rltb_true in B. unfold ddu. lra. }
  destruct (implicit o S (fun x0 t0 => tr_lie tr (phi x0 t0)) h) as [mu |] eqn:E5.
  2: { injection H as <-. exact C. }
  destruct (implicit_sound _ _ SO _ _ _ _ x t E5 Sx) as (B5 & Z5 & _).
  destruct (upper_below _ (function_range o S (fun x0 => tr_guard tr (phi x0 (mu x0))))) eqn:E6; [discriminate |].
  destruct (lower_above _ (function_range o S (fun x0 => tr_guard tr (phi x0 (mu x0))))) eqn:E7.
  2: { injection H as <-. simpl. split; [exact C | split; [lra | split; [exact Z5 | discriminate]]]. }
  assert (Pos : 0 < u tr x (mu x)).
  { destruct (lower_sound _ _ _ E7 (function_sound _ _ SO S (fun x0 => tr_guard tr (phi x0 (mu x0))) x t Sx)) as (lo & B & Le).
    apply Rltb_true in B. unfold u. lra. }
  assert (G : crossing_ok (Grazing mu true) h x (u tr x) (du tr x) (ddu tr x)).
  { simpl. split; [exact C | split; [lra | split; [exact Z5 | intros _; exact Pos]]]. }
  destruct (function_range o S mu) as [[lo mm] |]; [| injection H as <-; exact G].
  destruct (implicit o S _ (15 / 16 * mm)) as [gamma |] eqn:E8; injection H as <-; [| exact G].
  destruct (implicit_sound _ _ SO _ _ _ _ x t E8 Sx) as (B8 & Z8 & Un8). change (u tr x (gamma x) = 0) in Z8.
  simpl. split; [lra | split; [exact Z8 |]]. intros U0.
  assert (M : gamma x < mu x).
  { destruct (ivt _ _ D1 0 (mu x)) as (z & Bz & Z); [lra | exact U0 | lra |].
    destruct (Rle_lt_dec z (15 / 16 * mm)) as [Zle | Zgt].
    - rewrite <- (Un8 z ltac:(lra) Z). destruct (Req_dec z (mu x)) as [-> |]; lra.
    - lra. }
  intros s Hs. split.
  - intros Lt. rewrite <- Z8. apply (concave_before _ _ _ D1 D2 h (mu x)); auto; lra.
  - intros Gt. exists (Rmin s (mu x)). destruct (Rle_lt_dec s (mu x)) as [A | A].
    + rewrite Rmin_left by lra. split; [lra |]. rewrite <- Z8. apply (concave_before _ _ _ D1 D2 h (mu x)); auto; lra.
    + rewrite Rmin_right by lra. split; [lra | exact Pos].
Qed.

Lemma compute_crossings_ok act cs : (forall tr, In tr act -> In tr trs) -> compute_crossings sys o S h act = Some cs ->
  List.Forall crossing_sound cs /\ map fst cs = act.
Proof.
  revert cs. induction act as [| tr r IH]; simpl; intros cs A H.
  - injection H as <-. split; [constructor | reflexivity].
  - destruct (classify sys o S h tr) as [c |] eqn:E; [| discriminate].
    destruct (compute_crossings sys o S h r) as [cs' |]; [| discriminate]. injection H as <-.
    destruct (IH cs') as [F M]; [intros; apply A; right; assumption | reflexivity |].
    split; [constructor; [apply classify_ok; [apply A; left; reflexivity | exact E] | exact F] | simpl; f_equal; exact M].
Qed.

Lemma active_complete tr x t d : In tr trs -> e_set S x t -> 0 <= d <= h -> ~ In tr (compute_active_events sys o S h) -> u tr x d < 0.
Proof.
  intros I Sx B N. apply Rnot_le_lt. intros G. apply N. unfold compute_active_events. apply filter_In. split; [exact I |].
  apply andb_true_intro. split; apply negb_true_iff.
  - destruct (upper_below _ _) eqn:E; [| reflexivity].
    destruct (upper_sound _ _ _ E (value_sound _ _ SO S h (tr_guard tr) x t d Sx B)) as (hi & Bh & Le). apply Rltb_true in Bh. unfold u, HybridEvolver_Model.phi in G. lra.
  - eapply (not_empty _ x t d). split; [split; assumption | exact G].
Qed.

(** ** Timing *)
Lemma halve_ok upper fuel sf : 0 < upper -> 0 < sf <= 1 -> upper * sf <= h * 2 ^ fuel ->
  0 < halve h fuel upper sf <= 1 /\ upper * halve h fuel upper sf <= h /\ (h < upper * sf -> halve h fuel upper sf < 1).
Proof.
  intros U. revert sf. induction fuel as [| f IH]; simpl; intros sf B E.
  - rewrite Rmult_1_r in E. repeat split; try lra.
  - destruct (Rltb h (upper * sf)) eqn:Q.
    + apply Rltb_true in Q. assert (G : upper * (sf / 2) <= h * 2 ^ f) by lra.
      destruct (IH (sf / 2) ltac:(lra) G) as (A1 & A2 & A3).
      split; [exact A1 | split; [exact A2 |]]. intros _.
      assert (K : halve h f upper (sf / 2) <= sf / 2).
      { clear - B U. assert (0 < sf / 2) by lra. revert H. generalize (sf / 2). induction f as [| f IH]; simpl; intros r Hr; [lra |].
        destruct (Rltb h (upper * r)); [| lra]. specialize (IH (r / 2) ltac:(lra)). lra. }
      lra.
    + apply Rltb_false in Q. repeat split; lra.
Qed.
Lemma pow2_ge n : INR n <= 2 ^ n.
Proof. induction n as [| n IH]; [simpl; lra |]. rewrite S_INR. simpl. assert (1 <= 2 ^ n) by (apply pow_R1_Rle; lra). lra. Qed.
Lemma fuel_enough upper : 0 < upper -> upper * 1 <= h * 2 ^ (Z.to_nat (up (upper / h))).
Proof.
  intros U. pose proof (archimed (upper / h)) as [A _]. assert (0 < upper / h) by (apply Rdiv_lt_0_compat; lra).
  assert (K : INR (Z.to_nat (up (upper / h))) = IZR (up (upper / h))).
  { rewrite INR_IZR_INZ. f_equal. apply Znat.Z2Nat.id. apply le_IZR. simpl. lra. }
  pose proof (pow2_ge (Z.to_nat (up (upper / h)))) as P. rewrite K in P.
  assert (upper / h * h = upper) by (field; lra). nra.
Qed.

Lemma temporal_ok creep T tl tu temp const fin : temporal h creep T tl tu = (temp, const, fin) ->
  forall t, tl <= t <= tu -> t <= T ->
  0 <= temp t <= h /\ (fin = AT_FINAL_TIME -> temp t = T - t) /\ (const = true -> temp t = h) /\
  (fin = BEFORE_FINAL_TIME -> creep = true -> t < T -> t + temp t < T).
Proof.
  unfold temporal. intros H t Bt Tt.
  destruct (Rltb (T - tu) 0) eqn:E1.
  { apply Rltb_true in E1. destruct (Rleb (T - tl) h) eqn:E2; injection H as <- <- <-.
    - apply Rleb_true in E2. repeat split; try lra; try discriminate.
    - repeat split; try lra; try discriminate. }
  apply Rltb_false in E1.
  destruct (Rleb (T - tl) h) eqn:E2.
  { injection H as <- <- <-. apply Rleb_true in E2. repeat split; try lra; try discriminate. }
  apply Rleb_false in E2.
  destruct (Rleb (T - tu) h && creep) eqn:E3.
  { apply andb_prop in E3. destruct E3 as [E3 _]. apply Rleb_true in E3. injection H as <- <- <-.
    destruct (halve_ok (T - tl) (Z.to_nat (up ((T - tl) / h))) 1 ltac:(lra) ltac:(lra) (fuel_enough (T - tl) ltac:(lra))) as (A1 & A2 & A3).
    set (sf := halve h (Z.to_nat (up ((T - tl) / h))) (T - tl) 1) in *.
    specialize (A3 ltac:(lra)). repeat split; try discriminate.
    - apply Rmult_le_pos; lra.
    - apply Rle_trans with ((T - tl) * sf); [rewrite Rmult_comm; apply Rmult_le_compat_r; lra | lra].
    - intros _ _ Lt. assert (sf * (T - t) < 1 * (T - t)) by (apply Rmult_lt_compat_r; lra). lra. }
  injection H as <- <- <-. repeat split; try lra; try discriminate.
  intros _ -> Lt. rewrite andb_true_r in E3. apply Rleb_false in E3. lra.
Qed.

Definition erased_ok (tr : transition L X) x (e : R) : Prop :=
  u tr x 0 <= 0 -> forall d, 0 <= d <= e -> u tr x d < 0 \/ e = 0.

Lemma erased_mono tr x e e' : erased_ok tr x e -> 0 <= e' <= e -> erased_ok tr x e'.
Proof. intros E B U0 d Bd. destruct (E U0 d ltac:(lra)) as [A | ->]; [left; exact A | right; lra]. Qed.

Lemma guard_creep_ok cs : forall sp sp' cs', (forall tc, In tc cs -> In (fst tc) trs) -> guard_creep sys o S h cs sp = Some (sp', cs') ->
  incl cs' cs /\ (forall tc, In tc cs -> ~ In tc cs' -> tr_kind (fst tc) <> PERMISSIVE) /\
  (forall x t, e_set S x t -> 0 <= sp x <= h ->
     0 <= sp' x <= sp x /\ forall tc, In tc cs -> ~ In tc cs' -> erased_ok (fst tc) x (sp' x)).
Proof.
  induction cs as [| [tr c] r IH]; simpl; intros sp sp' cs' A H.
  { injection H as <- <-. split; [apply incl_refl | split; [intros ? [] |]]. intros x t Sx B. split; [lra | intros ? []]. }
  assert (K : forall res, match guard_creep sys o S h r sp with Some (s, cs'0) => Some (s, (tr, c) :: cs'0) | None => None end = Some res ->
              res = (sp', cs') -> incl cs' ((tr, c) :: r) /\ (forall tc, (tr, c) = tc \/ In tc r -> ~ In tc cs' -> tr_kind (fst tc) <> PERMISSIVE) /\
              (forall x t, e_set S x t -> 0 <= sp x <= h -> 0 <= sp' x <= sp x /\
                 forall tc, (tr, c) = tc \/ In tc r -> ~ In tc cs' -> erased_ok (fst tc) x (sp' x))).
  { intros res E ->. destruct (guard_creep sys o S h r sp) as [[s cs0] |] eqn:G; [| discriminate]. injection E as <- <-.
    destruct (IH _ _ _ (fun tc i => A tc (or_intror i)) G) as (I1 & I0 & I2). split; [| split].
    - intros y [<- | Hy]; [left; reflexivity | right; apply I1; exact Hy].
    - intros tc [<- | Hr] N; [exfalso; apply N; left; reflexivity |]. apply I0; [exact Hr |]. intros Q. apply N. right. exact Q.
    - intros x t Sx B. destruct (I2 x t Sx B) as [B1 B2]. split; [exact B1 |].
      intros tc [<- | Hr] N; [exfalso; apply N; left; reflexivity |]. apply B2; [exact Hr |]. intros Q. apply N. right. exact Q. }
  assert (W : tr_kind tr = PERMISSIVE \/ (tr_kind tr <> PERMISSIVE /\
      match value_range o S h (tr_guard tr), value_range o S h (tr_lie tr) with
      | Some (glo, _), Some (dlo, _) =>
        if Rltb glo 0 then
          if Rltb 0 (1 + h * dlo / glo) && Rleb (1 + h * dlo / glo) 1 then
            match implicit o S (fun x t => tr_guard tr (phi x t) - (1 + h * dlo / glo) * tr_guard tr x) h with
            | Some ct => guard_creep sys o S h r (fun x => sp x * (ct x / h))
            | None => match guard_creep sys o S h r sp with Some (s, cs'0) => Some (s, (tr, c) :: cs'0) | None => None end
            end
          else match guard_creep sys o S h r sp with Some (s, cs'0) => Some (s, (tr, c) :: cs'0) | None => None end
        else None
      | _, _ => None
      end = Some (sp', cs'))).
  { destruct (tr_kind tr) eqn:Kd; try (right; split; [discriminate | exact H]). left; reflexivity. }
  destruct W as [Kd | [Kd W]].
  { rewrite Kd in H. apply (K _ H eq_refl). }
  clear H.
  destruct (value_range o S h (tr_guard tr)) as [[glo ghi] |] eqn:Eg; [| discriminate].
  destruct (value_range o S h (tr_lie tr)) as [[dlo dhi] |] eqn:Ed; [| discriminate].
  destruct (Rltb glo 0) eqn:Q; [| discriminate]. apply Rltb_true in Q.
  destruct (Rltb 0 (1 + h * dlo / glo) && Rleb (1 + h * dlo / glo) 1) eqn:Qa; [| apply (K _ W eq_refl)].
  destruct (implicit o S _ h) as [ct |] eqn:Ei; [| apply (K _ W eq_refl)].
  apply andb_prop in Qa. destruct Qa as [Qa Qb]. apply Rltb_true in Qa. apply Rleb_true in Qb.
  set (al := 1 + h * dlo / glo) in *.
  assert (Dlo : 0 <= dlo).
  { apply Rnot_lt_le. intros N. assert (0 < h * dlo / glo).
    { replace (h * dlo / glo) with ((h * - dlo) / (- glo)) by (field; lra). apply Rdiv_lt_0_compat; [apply Rmult_lt_0_compat; lra | lra]. }
    unfold al in Qb. lra. }
  destruct (IH _ _ _ (fun tc i => A tc (or_intror i)) W) as (I1 & I0 & I2). split; [| split].
  { intros y Hy. right. apply I1. exact Hy. }
  { intros tc [<- | Hr] N; [exact Kd | apply I0; assumption]. }
  intros x t Sx B. destruct (implicit_sound _ _ SO _ _ _ _ x t Ei Sx) as (Bc & Zc & Un).
  assert (F : 0 <= ct x / h <= 1).
  { split; [apply Rmult_le_pos; [lra | apply Rlt_le, Rinv_0_lt_compat; lra] |]. apply Rmult_le_reg_r with h; [lra |]. replace (ct x / h * h) with (ct x) by (field; lra). lra. }
  assert (G : 0 <= sp x * (ct x / h) <= sp x). { split; [apply Rmult_le_pos; lra |]. rewrite <- (Rmult_1_r (sp x)) at 2. apply Rmult_le_compat_l; lra. }
  assert (G' : sp x * (ct x / h) <= ct x). { replace (ct x) with (h * (ct x / h)) at 2 by (field; lra). apply Rmult_le_compat_r; lra. }
  destruct (I2 x t Sx ltac:(lra)) as [B1 B2]. split; [lra |].
  intros tc [<- | Hr] N; [| apply B2; assumption]. cbn [fst].
  intros U0 d Bd. pose proof (Du tr x (A _ (or_introl eq_refl))) as D1. cbn [fst] in D1.
  assert (Zc' : u tr x (ct x) = al * u tr x 0). { unfold u. rewrite phi_0. lra. }
  destruct U0 as [U0 | U0].
  - left. assert (M : u tr x d <= u tr x (ct x)).
    { apply (inc_le _ _ D1); [lra |]. intros s Hs. pose proof (value_sound _ _ SO S h (tr_lie tr) x t s Sx ltac:(lra)) as V. rewrite Ed in V. simpl in V. unfold du. unfold HybridEvolver_Model.phi. lra. }
    rewrite Zc' in M. assert (al * u tr x 0 < 0) by nra. lra.
  - right. assert (0 = ct x). { apply Un; [lra |]. unfold u in U0. rewrite phi_0 in *. rewrite U0. ring. } lra.
Qed.

Definition timing_sound (T : R) (tm : timing X) (cs cs' : list (transition L X * crossing X)) : Prop :=
  incl cs' cs /\
  (forall x t, e_set S x t -> t <= T -> 0 <= t_evolution tm x t <= h) /\
  (t_finishing tm = AT_FINAL_TIME -> forall x t, e_set S x t -> t_evolution tm x t = T - t) /\
  (t_constant tm = true -> forall x t, e_set S x t -> t <= T -> t_evolution tm x t = h) /\
  (forall tc, In tc cs -> ~ In tc cs' -> tr_kind (fst tc) <> PERMISSIVE /\
     forall x t, e_set S x t -> t <= T -> erased_ok (fst tc) x (t_evolution tm x t)).

Lemma unwound_ok tl tu t : tl < tu -> tl <= t <= tu -> 0 <= unwound h tl tu t <= h.
Proof.
  intros Lt B. unfold unwound. destruct (Rltb ((tu - tl) * 2) h) eqn:E.
  - apply Rltb_true in E. lra.
  - apply Rltb_false in E.
    assert (Q : (1 - h / 2 / (tu - tl)) * t + h * (tu - tl / 2) / (tu - tl) - t = h - h / 2 * ((t - tl) / (tu - tl))) by (field; lra).
    rewrite Q. assert (0 <= (t - tl) / (tu - tl) <= 1).
    { split; [apply Rmult_le_pos; [lra | apply Rlt_le, Rinv_0_lt_compat; lra] |].
      apply Rmult_le_reg_r with (tu - tl); [lra |]. replace ((t - tl) / (tu - tl) * (tu - tl)) with (t - tl) by (field; lra). lra. }
    nra.
Qed.

Lemma estimate_ok cfg T cs tm cs' : (forall tc, In tc cs -> In (fst tc) trs) -> estimate_timing sys o S h cfg T cs = Some (tm, cs') -> timing_sound T tm cs cs'.
Proof.
  intros A H. unfold estimate_timing in H.
  destruct (time_range o (lift (e_set S))) as [[tl tu] |] eqn:Et; [| discriminate].
  assert (TB : forall x t, e_set S x t -> tl <= t <= tu).
  { intros x t Sx. pose proof (time_sound _ _ SO (lift (e_set S)) x t 0 (conj eq_refl Sx)) as V. rewrite Et in V. simpl in V. lra. }
  destruct (temporal h (allow_creep cfg) T tl tu) as [[temp const] fin] eqn:Em.
  pose proof (temporal_ok _ _ _ _ _ _ _ Em) as TO. 
  set (cr := if allow_creep cfg && _ && _ && _ then _ else _) in H.
  assert (C : exists sp const' fin' cs0, cr = Some (sp, const', fin', cs0) /\ incl cs0 cs /\
     (forall x t, e_set S x t -> 0 <= sp x <= h) /\ (fin' = AT_FINAL_TIME \/ const' = true -> sp = (fun _ => h) /\ fin' = fin /\ const' = const) /\
     (forall tc, In tc cs -> ~ In tc cs0 -> tr_kind (fst tc) <> PERMISSIVE /\ forall x t, e_set S x t -> erased_ok (fst tc) x (sp x))).
  { unfold cr. unfold cr in H. destruct (allow_creep cfg && _ && _ && _).
    - destruct (guard_creep sys o S h cs (fun _ => h * (15 / 16))) as [[sp cs0] |] eqn:G; [| discriminate].
      destruct (guard_creep_ok cs _ _ _ A G) as (I1 & I0 & I2).
      exists sp, false, BEFORE_FINAL_TIME, cs0. split; [reflexivity | split; [exact I1 | split; [| split]]].
      + intros x t Sx. destruct (I2 x t Sx ltac:(cbn beta; lra)) as [B _]. cbn beta in B. lra.
      + intros [Q | Q]; discriminate.
      + intros tc I N. split; [apply I0; assumption |]. intros x t Sx. apply (proj2 (I2 x t Sx ltac:(cbn beta; lra)) tc I N).
    - exists (fun _ => h), const, fin, cs. split; [reflexivity | split; [apply incl_refl | split; [intros; lra | split; [auto |]]]]. intros tc I N. contradiction. }
  destruct C as (sp & const' & fin' & cs0 & Ec & I1 & Bsp & Keep & Er). rewrite Ec in H. clear Ec cr.
  assert (Tdiv : forall x t, e_set S x t -> t <= T -> 0 <= sp x * (temp t / h) <= sp x).
  { intros x t Sx Tt. destruct (TO t (TB x t Sx) Tt) as (B & _). specialize (Bsp x t Sx).
    assert (0 <= temp t / h <= 1).
    { split; [apply Rmult_le_pos; [lra | apply Rlt_le, Rinv_0_lt_compat; lra] |].
      apply Rmult_le_reg_r with h; [lra |]. replace (temp t / h * h) with (temp t) by (field; lra). lra. }
    split; [apply Rmult_le_pos; lra |]. rewrite <- (Rmult_1_r (sp x)) at 2. apply Rmult_le_compat_l; lra. }
  destruct (allow_unwind cfg && _ && _ && _ && _) eqn:Uw; injection H as <- <-; unfold timing_sound; cbn [t_evolution t_constant t_finishing].
  - repeat (apply andb_prop in Uw; destruct Uw as [Uw ?]). 
    match goal with H : Rltb tl tu = true |- _ => apply Rltb_true in H; rename H into Ht end.
    match goal with H : const' = true |- _ => destruct (Keep (or_intror H)) as (Esp & Efin & Econst); rename H into Hc end.
    split; [exact I1 | split; [| split; [discriminate | split; [discriminate |]]]].
    + intros x t Sx Tt. apply unwound_ok; [exact Ht | apply (TB x t Sx)].
    + intros tc I N. destruct (Er tc I N) as [Np E]. split; [exact Np |]. intros x t Sx Tt.
      apply erased_mono with (sp x); [apply (E x t Sx) |]. rewrite Esp. apply unwound_ok; [exact Ht | apply (TB x t Sx)].
  - split; [exact I1 | split; [| split; [| split]]].
    + intros x t Sx Tt. specialize (Tdiv x t Sx Tt). specialize (Bsp x t Sx). lra.
    + intros Q x t Sx. destruct (Keep (or_introl Q)) as (-> & Ef & _). rewrite Q in Ef. symmetry in Ef.
      assert (Tm : temp t = T - t).
      { revert Em. unfold temporal. destruct (Rltb (T - tu) 0).
        - destruct (Rleb (T - tl) h); intros Em; injection Em as <- <- <-; [reflexivity | discriminate].
        - destruct (Rleb (T - tl) h); [intros Em; injection Em as <- <- <-; reflexivity |].
          destruct (Rleb (T - tu) h && allow_creep cfg); intros Em; injection Em as <- <- <-; discriminate. }
      rewrite Tm. field. lra.
    + intros Q x t Sx Tt. destruct (Keep (or_intror Q)) as (-> & _ & Ec). rewrite Q in Ec. symmetry in Ec.
      destruct (TO t (TB x t Sx) Tt) as (_ & _ & Tc & _). rewrite (Tc Ec). field. lra.
    + intros tc I N. destruct (Er tc I N) as [Np E]. split; [exact Np |]. intros x t Sx Tt.
      apply erased_mono with (sp x); [apply (E x t Sx) | apply (Tdiv x t Sx Tt)].
Qed.

(** ** Guards *)
Definition legal (tr : transition L X) x d := forall s, 0 <= s <= d -> u tr x s <= 0.
Definition holds_in (sets : list (pset X)) x t d := exists P, In P sets /\ P x t d.
Lemma guard_set_keeps tr c (P : pset X) x t d : crossing_sound (tr, c) -> e_set S x t -> 0 <= d <= h -> legal tr x d -> P x t d ->
  holds_in (fst (guard_set sys o S UPPER (tr_guard tr) c P) :: snd (guard_set sys o S UPPER (tr_guard tr) c P)) x t d.
Proof.
  intros [_ C] Sx Bd Lg Pd. specialize (C x t Sx). cbn [fst snd] in C.
  assert (Ld : tr_guard tr (phi x d) <= 0) by (apply (Lg d); lra).
  destruct c as [gamma | | | | | | mu pos]; cbn [guard_set].
  - destruct C as (G0 & Gz & Gs). eexists. split; [left; reflexivity |]. split; [exact Pd |].
    apply Rnot_lt_le. intros Lt. destruct (Gs (Lg 0 ltac:(lra)) d Bd) as [_ Gs']. destruct (Gs' Lt) as (r & Br & Ur).
    specialize (Lg r ltac:(lra)). unfold u in *. lra.
  - eexists. split; [left; reflexivity |]. split; assumption.
  - eexists. split; [left; reflexivity |]. exact Pd.
  - eexists. split; [left; reflexivity |]. split; assumption.
  - eexists. split; [left; reflexivity |]. split; [split; [exact Pd |] |].
    + apply (Lg (1 / 2 * d)). lra.
    + rewrite Rmult_1_l. exact Ld.
  - eexists. split; [left; reflexivity |]. split; [split; [exact Pd |] |].
    + apply (Lg (1 / 2 * d)). lra.
    + rewrite Rmult_1_l. exact Ld.
  - destruct C as (_ & Bm & _ & Pos).
    destruct (surely_empty o (constrain (constrain P (fun x t d => d <= mu x)) _)) eqn:E1; [exists P; split; [left; reflexivity | exact Pd] |].
    destruct (surely_empty o (constrain (constrain P (fun x t d => mu x <= d)) _)) eqn:E2.
    { eexists. split; [left; reflexivity |]. split; assumption. }
    destruct (Rle_lt_dec (u tr x (mu x)) 0) as [M | M].
    + assert (Pm : pos = false) by (destruct pos; [specialize (Pos eq_refl); lra | reflexivity]). rewrite Pm. cbn [orb].
      set (ms := constrain P _). assert (Hm : ms x t d) by (split; [exact Pd | exact M]).
      rewrite (not_empty ms x t d Hm). exists ms. split; [left; reflexivity | exact Hm].
    + assert (Dm : d <= mu x). { apply Rnot_lt_le. intros N. specialize (Lg (mu x) ltac:(lra)). lra. }
      set (ht := constrain (constrain (constrain P (fun x t d => 0 <= _)) _) _).
      assert (Hm : ht x t d). { split; [split; [split; [exact Pd | unfold u in M; lra] | exact Dm] | exact Ld]. }
      destruct (pos || _).
      * exists ht. split; [left; reflexivity | exact Hm].
      * rewrite (not_empty ht x t d Hm). exists ht. split; [right; apply in_or_app; left; left; reflexivity | exact Hm].
Qed.

Lemma guard_loop_keeps tr c x t d : crossing_sound (tr, c) -> e_set S x t -> 0 <= d <= h -> legal tr x d ->
  forall todo done extra cap cap' sets, guard_loop sys o S UPPER (tr_guard tr) c todo done extra cap = Some (cap', sets) ->
  holds_in (done ++ todo ++ extra) x t d -> holds_in sets x t d.
Proof.
  intros C Sx Bd Lg. induction todo as [| P r IH]; cbn [guard_loop]; intros done extra cap cap' sets H Q.
  - injection H as <- <-. exact Q.
  - pose proof (guard_set_keeps tr c P x t d C Sx Bd Lg) as K.
    destruct (guard_set sys o S UPPER (tr_guard tr) c P) as [P' new] eqn:E. cbn [fst snd] in K.
    destruct (_ && _); [discriminate |]. apply IH in H; [exact H |].
    destruct Q as (W & I & Wd). apply in_app_or in I. destruct I as [I | I].
    { exists W. split; [| exact Wd]. rewrite !in_app_iff. tauto. }
    apply in_app_or in I. destruct I as [[<- | I] | I].
    + destruct (K Wd) as (W & [<- | I] & Wd').
      * exists P'. split; [| exact Wd']. rewrite !in_app_iff. left; right; left; reflexivity.
      * exists W. split; [| exact Wd']. rewrite !in_app_iff. tauto.
    + exists W. split; [| exact Wd]. rewrite !in_app_iff. tauto.
    + exists W. split; [| exact Wd]. rewrite !in_app_iff. tauto.
Qed.

Lemma apply_guards_keeps tcs x t d : e_set S x t -> 0 <= d <= h -> (forall tc, In tc tcs -> crossing_sound tc /\ legal (fst tc) x d) ->
  forall sets res, apply_guards sys o S UPPER tcs sets = Some res -> holds_in (snd sets) x t d -> holds_in (snd res) x t d.
Proof.
  intros Sx Bd. induction tcs as [| tc r IH]; intros A sets res H Q.
  - injection H as <-. exact Q.
  - unfold apply_guards in H. cbn [fold_left] in H. destruct (apply_guard sys o S UPPER tc sets) as [s |] eqn:E.
    + apply (IH (fun tc' i => A tc' (or_intror i)) s res H).
      destruct (A tc (or_introl eq_refl)) as [C Lg]. destruct tc as [tr c]. unfold apply_guard in E. cbn [fst snd] in E.
      destruct s as [cap' s]. cbn [snd]. eapply (guard_loop_keeps tr c x t d C Sx Bd Lg _ _ _ _ _ _ E). cbn [app]. rewrite app_nil_r. exact Q.
    + exfalso. clear - H. induction r; [discriminate | apply IHr; exact H].
Qed.

(** Constraints which split nothing keep the sets in order. *)
Definition one_set (tc : transition L X * crossing X) (P : pset X) : pset X := fst (guard_set sys o S UPPER (tr_guard (fst tc)) (snd tc) P).
Lemma delayed_new sem (tc : transition L X * crossing X) P : delayed (snd tc) = true -> snd (guard_set sys o S sem (tr_guard (fst tc)) (snd tc) P) = [].
Proof. destruct tc as [tr c]. cbn [fst snd]. destruct c; try discriminate; reflexivity. Qed.
Lemma delayed_sem sem (tc : transition L X * crossing X) P : delayed (snd tc) = true -> guard_set sys o S sem (tr_guard (fst tc)) (snd tc) P = guard_set sys o S UPPER (tr_guard (fst tc)) (snd tc) P.
Proof. destruct tc as [tr c]. cbn [fst snd]. destruct c; try discriminate; reflexivity. Qed.
Lemma grown_same cap size : (size <= cap)%nat -> grown cap size = cap.
Proof. intros H. unfold grown. apply Nat.leb_le in H. rewrite H. reflexivity. Qed.
Lemma guard_loop_delayed sem (tc : transition L X * crossing X) : delayed (snd tc) = true -> forall todo done cap, (length done + length todo <= cap)%nat ->
  guard_loop sys o S sem (tr_guard (fst tc)) (snd tc) todo done [] cap = Some (cap, done ++ map (one_set tc) todo).
Proof.
  intros D. induction todo as [| P r IH]; cbn [guard_loop]; intros done cap H.
  - reflexivity.
  - pose proof (delayed_new sem tc P D) as N. rewrite (delayed_sem sem tc P D) in *. unfold one_set.
    destruct (guard_set sys o S UPPER (tr_guard (fst tc)) (snd tc) P) as [P' new] eqn:E. cbn [snd] in N. subst new. cbn [length] in H.
    cbn [length app]. rewrite !Nat.add_0_r.
    rewrite (proj2 (Nat.leb_le (length done + 1 + length r) cap)) by lia. cbn [negb andb].
    rewrite grown_same by lia. rewrite IH by (rewrite app_length; cbn [length]; lia).
    rewrite <- app_assoc. cbn [map app]. unfold one_set. rewrite E. reflexivity.
Qed.
Lemma apply_delayed sem tcs : (forall tc, In tc tcs -> delayed (snd tc) = true) -> forall cap sets, (length sets <= cap)%nat ->
  apply_guards sys o S sem tcs (cap, sets) = Some (cap, map (fun P => fold_left (fun P tc => one_set tc P) tcs P) sets).
Proof.
  unfold apply_guards. induction tcs as [| tc r IH]; intros A cap sets H; cbn [fold_left].
  - rewrite map_id. reflexivity.
  - assert (E : apply_guard sys o S sem tc (cap, sets) = Some (cap, map (one_set tc) sets)) by exact (guard_loop_delayed sem tc (A tc (or_introl eq_refl)) sets [] cap H).
    rewrite E.
    etransitivity; [apply IH; [intros tc' I; apply A; right; exact I | rewrite map_length; exact H] |]. rewrite map_map. reflexivity.
Qed.
Lemma delayed_keeps tcs (P : pset X) x t d : e_set S x t -> 0 <= d <= h ->
  (forall tc, In tc tcs -> delayed (snd tc) = true /\ crossing_sound tc /\ legal (fst tc) x d) -> P x t d ->
  fold_left (fun P tc => one_set tc P) tcs P x t d.
Proof.
  intros Sx Bd. revert P. induction tcs as [| tc r IH]; intros P A Pd; cbn [fold_left]; [exact Pd |].
  apply IH; [intros; apply A; right; assumption |]. destruct (A tc (or_introl eq_refl)) as (D & C & Lg). destruct tc as [tr c].
  destruct (guard_set_keeps tr c P x t d C Sx Bd Lg Pd) as (W & [<- | I] & Wd); [exact Wd |].
  pose proof (delayed_new UPPER (tr, c) P D) as N. cbn [fst snd] in N. rewrite N in I. destruct I.
Qed.

(** The room in the vector *)
Lemma guard_set_new sem g c (P : pset X) : (length (snd (guard_set sys o S sem g c P)) <= 2)%nat.
Proof.
  destruct c; cbn [guard_set snd length]; try lia.
  - destruct sem; cbn [snd length]; lia.
  - destruct sem; cbn [snd length]; lia.
  - repeat match goal with |- context [if ?b then _ else _] => destruct b end; cbn [snd length app]; lia.
Qed.
Lemma guard_loop_room sem g c : forall todo done extra cap cap' sets, (1 <= cap)%nat -> (length done + length todo + length extra <= cap)%nat ->
  guard_loop sys o S sem g c todo done extra cap = Some (cap', sets) -> (1 <= cap')%nat /\ (length sets <= cap')%nat.
Proof.
  induction todo as [| P r IH]; cbn [guard_loop]; intros done extra cap cap' sets C1 C2 H.
  - injection H as <- <-. rewrite app_length. cbn [length] in C2. lia.
  - pose proof (guard_set_new sem g c P) as N. destruct (guard_set sys o S sem g c P) as [P' new]. cbn [snd] in N. cbn [length] in C2.
    destruct (_ && _); [discriminate |]. revert H. apply IH.
    + unfold grown. destruct (Nat.leb _ cap) eqn:Q; [lia |]. destruct (Nat.leb _ (2 * cap)); lia.
    + rewrite !app_length. cbn [length]. unfold grown. destruct (Nat.leb _ cap) eqn:Q; [apply Nat.leb_le in Q; lia |].
      destruct (Nat.leb _ (2 * cap)) eqn:Q2; [apply Nat.leb_le in Q2; lia | lia].
Qed.
Lemma apply_guards_room sem tcs : forall sets cap' sets', (1 <= fst sets)%nat -> (length (snd sets) <= fst sets)%nat ->
  apply_guards sys o S sem tcs sets = Some (cap', sets') -> (1 <= cap')%nat /\ (length sets' <= cap')%nat.
Proof.
  unfold apply_guards. induction tcs as [| tc r IH]; cbn [fold_left]; intros sets cap' sets' C1 C2 H.
  - injection H as ->. split; assumption.
  - destruct (apply_guard sys o S sem tc sets) as [[cap1 s1] |] eqn:E.
    + unfold apply_guard in E.
      assert (C3 : (length (@nil (pset X)) + length (snd sets) + length (@nil (pset X)) <= fst sets)%nat) by (cbn [length]; lia).
      destruct (guard_loop_room _ _ _ _ _ _ _ _ _ C1 C3 E) as [D1 D2]. apply (IH (cap1, s1) cap' sets' D1 D2 H).
    + exfalso. clear - H. induction r; [discriminate | apply IHr; exact H].
Qed.

(** ** One evolution step *)
Section APPLY.
Variable T : R.
Variable tm : timing X.
Variable cs0 cs : list (transition L X * crossing X).
Hypothesis CS : forall tc, In tc cs0 -> crossing_sound tc.
Hypothesis TS : timing_sound T tm cs0 cs.
Hypothesis ND : NoDup (map tr_event trs).
(** Transitions which are not among the crossings stay inactive. *)
Hypothesis AC : forall tr, In tr trs -> ~ In tr (map fst cs0) -> forall x t d, e_set S x t -> 0 <= d <= h -> u tr x d < 0.

Lemma all_effects_in (rs : list (option (list (effect L X)))) es : all_effects rs = Some es -> forall r, In r rs -> exists l, r = Some l /\ incl l es.
Proof.
  revert es. induction rs as [| [l |] rs IH]; cbn [all_effects]; intros es H r I; [destruct I | | discriminate].
  destruct (all_effects rs) as [es' |]; [| discriminate]. injection H as <-. destruct I as [<- | I].
  - exists l. split; [reflexivity | apply incl_appl, incl_refl].
  - destruct (IH es' eq_refl r I) as (l' & -> & J). exists l'. split; [reflexivity | apply incl_appr, J].
Qed.

Lemma blocking_not_permissive k : is_blocking k = true <-> k <> PERMISSIVE.
Proof. destruct k; split; intros; try discriminate; auto. Qed.

Variable es : list (effect L X).
Hypothesis STEP : apply_evolution_step sys o S h UPPER tm T cs = Some es.
Variables (x : X) (t : R).
Hypothesis Sx : e_set S x t.
Hypothesis Tt : t < T.

Lemma evolves_legal d tc : evolves sys (e_loc S) x d -> In tc cs -> is_blocking (tr_kind (fst tc)) = true -> crossing_sound tc /\ legal (fst tc) x d.
Proof.
  intros [D0 E] I B. assert (C := CS tc (proj1 TS tc I)). split; [exact C |]. intros s Hs. apply E; [apply (proj1 C) | apply blocking_not_permissive; exact B | exact Hs].
Qed.

Lemma step_inv : exists r1 r2 r3 r4 next reach,
  apply_guards sys o S UPPER (filter (fun tc => is_blocking (tr_kind (fst tc))) cs) (1%nat, [reach_set S h tm]) = Some (r1, reach) /\
  apply_guards sys o S UPPER (filter (fun tc => negb (delayed (snd tc))) (filter (fun tc => is_blocking (tr_kind (fst tc))) cs)) (1%nat, [evolve_set S tm]) = Some (r2, next) /\
  r3 = map (fun P => fold_left (fun P tc => one_set tc P) (filter (fun tc => delayed (snd tc)) (filter (fun tc => is_blocking (tr_kind (fst tc))) cs)) P) next /\
  r4 = finishing_effects sys o S tm T r3 next reach /\ incl r4 es /\
  forall tc, In tc cs -> is_activating (tr_kind (fst tc)) = true ->
    exists l, jump_effects sys o S h UPPER tm T (filter (fun tc => is_blocking (tr_kind (fst tc))) cs) tc = Some l /\ incl l es.
Proof.
  unfold apply_evolution_step in STEP.
  destruct (apply_guards sys o S UPPER (filter _ cs) (1%nat, [reach_set S h tm])) as [[r1 reach] |] eqn:E1; [| discriminate].
  destruct (apply_guards sys o S UPPER (filter _ (filter _ cs)) (1%nat, [evolve_set S tm])) as [[r2 next] |] eqn:E2; [| discriminate].
  destruct (apply_guards_room UPPER _ (1%nat, [evolve_set S tm]) _ _ (le_n 1) (le_n 1) E2) as [R1 R2].
  rewrite (apply_delayed UPPER) in STEP; [| intros tc I; apply filter_In in I; apply I | exact R2].
  exists r1, r2. do 2 eexists. exists next, reach. split; [reflexivity | split; [reflexivity | split; [reflexivity | split; [reflexivity |]]]].
  pose proof (all_effects_in _ _ STEP) as AE. split.
  - destruct (AE _ (or_introl eq_refl)) as (l & El & J). injection El as <-. exact J.
  - intros tc I A. destruct (AE (jump_effects sys o S h UPPER tm T (filter (fun tc => is_blocking (tr_kind (fst tc))) cs) tc)) as (l & El & J).
    + right. apply in_map_iff. exists tc. split; [reflexivity |]. apply filter_In. split; assumption.
    + exists l. split; assumption.
Qed.

Lemma point_in_enclosure (P : pset X) d : P x t d -> point_in (e_loc S, e_events S, flow sys (e_loc S) x d, t + d) (enclosure_of sys S P).
Proof. intros H. split; [reflexivity | split; [reflexivity |]]. exists x, t, d. split; [exact H | split; reflexivity]. Qed.
Lemma not_surely_after (P : pset X) d : P x t d -> t + d <= T -> surely_after o T P = false.
Proof.
  intros Pd B. unfold surely_after. destruct (lower_above _ _) eqn:E; [| reflexivity].
  destruct (lower_sound _ _ _ E (time_sound _ _ SO P x t d Pd)) as (lo & Q & Le). apply Rltb_true in Q. lra.
Qed.

(** Evolution within the step is in a reach set. *)
Lemma step_reach d : evolves sys (e_loc S) x d -> d <= t_evolution tm x t -> t + d <= T ->
  exists R, In (Record_ (Reach R)) es /\ point_in (e_loc S, e_events S, flow sys (e_loc S) x d, t + d) R.
Proof.
  intros Ev De Td. destruct step_inv as (r1 & r2 & r3 & r4 & next & reach & E1 & E2 & E3 & E4 & J & _).
  destruct (proj1 (proj2 TS) x t Sx ltac:(lra)) as [T0 T1]. destruct Ev as [D0 Ev].
  assert (K : holds_in reach x t d).
  { eapply (apply_guards_keeps _ x t d Sx ltac:(lra) _ _ _ E1). cbn [snd]. exists (reach_set S h tm). split; [left; reflexivity |]. split; [exact Sx | split; lra].
    Unshelve. intros tc I. apply filter_In in I. apply evolves_legal; [split; assumption | apply I | apply I]. }
  destruct K as (P & I & Pd). unfold finishing_effects in E4. destruct (t_finishing tm).
  - exists (enclosure_of sys S P). split; [apply J; rewrite E4; apply in_or_app; right; apply in_map_iff; exists P; split; [reflexivity | exact I] |].
    apply point_in_enclosure; exact Pd.
  - exists (enclosure_of sys S (bound_time T P)). split; [| apply point_in_enclosure; split; [exact Pd | exact Td]].
    apply J; rewrite E4. apply in_or_app; right. apply in_concat. eexists. split; [apply in_map, I |]. apply in_or_app. right. left. reflexivity.
  - exists (enclosure_of sys S (bound_time T P)). split; [| apply point_in_enclosure; split; [exact Pd | exact Td]].
    apply J; rewrite E4. apply in_or_app; right. apply in_concat. eexists. split; [apply in_map, I |]. apply in_or_app. right. left. reflexivity.
Qed.

(** The state at the end of the step is in the next working set. *)
Lemma step_next : evolves sys (e_loc S) x (t_evolution tm x t) -> t + t_evolution tm x t < T ->
  exists N, In (Append (with_set S N) false) es /\ N (flow sys (e_loc S) x (t_evolution tm x t)) (t + t_evolution tm x t).
Proof.
  intros Ev Td. set (d := t_evolution tm x t) in *. destruct step_inv as (r1 & r2 & r3 & r4 & next & reach & E1 & E2 & E3 & E4 & J & _).
  destruct (proj1 (proj2 TS) x t Sx ltac:(lra)) as [T0 T1]. fold d in T0, T1.
  assert (K : holds_in next x t d).
  { eapply (apply_guards_keeps _ x t d Sx ltac:(lra) _ _ _ E2). cbn [snd]. exists (evolve_set S tm). split; [left; reflexivity |]. split; [exact Sx | reflexivity].
    Unshelve. intros tc I. apply filter_In in I. destruct I as [I _]. apply filter_In in I. apply evolves_legal; [exact Ev | apply I | apply I]. }
  destruct K as (P & I & Pd).
  set (f := fun P => fold_left (fun P tc => one_set tc P) (filter (fun tc => delayed (snd tc)) (filter (fun tc => is_blocking (tr_kind (fst tc))) cs)) P) in *.
  assert (Fd : f P x t d).
  { apply (delayed_keeps _ P x t d Sx ltac:(lra)); [| exact Pd]. intros tc I'. apply filter_In in I'. destruct I' as [I' D']. apply filter_In in I'.
    split; [exact D' |]. apply evolves_legal; [exact Ev | apply I' | apply I']. }
  assert (Ic : In (f P, P) (combine r3 next)).
  { rewrite E3. clear - I. induction next as [| Q r IH]; [destruct I |]. cbn [map combine]. destruct I as [-> | I]; [left; reflexivity | right; apply IH, I]. }
  assert (Ie : In (Append (enclosure_of sys S P) false) (evolve_effects sys o S T (f P, P))).
  { unfold evolve_effects. rewrite (not_surely_after (f P) d Fd ltac:(lra)).
    assert (NE : surely_empty o (if surely_by o T (f P) then f P else bound_time T (f P)) = false).
    { apply (not_empty _ x t d). destruct (surely_by o T (f P)); [exact Fd | split; [exact Fd | lra]]. }
    rewrite NE. left. reflexivity. }
  exists (e_set (enclosure_of sys S P)). split.
  - apply J. rewrite E4. unfold finishing_effects. destruct (t_finishing tm) eqn:F.
    + exfalso. pose proof (proj1 (proj2 (proj2 TS)) F x t Sx) as Q. fold d in Q. lra.
    + apply in_or_app. left. apply in_concat. eexists. split; [apply in_map, Ic | exact Ie].
    + apply in_or_app. left. apply in_concat. eexists. split; [apply in_map, Ic | exact Ie].
  - apply (point_in_enclosure P d Pd).
Qed.

(** A jump within the step is in a jump set. *)
Lemma step_jump d tr : evolves sys (e_loc S) x d -> d <= t_evolution tm x t -> t + d <= T ->
  In tr trs -> jumps (tr_kind tr) -> (0 < d \/ tr_kind tr = IMPACT) -> 0 <= tr_guard tr (flow sys (e_loc S) x d) ->
  (tr_kind tr = IMPACT -> 0 <= tr_lie tr (flow sys (e_loc S) x d)) ->
  (exists J, In (Append J true) es /\ point_in (tr_target tr, e_events S ++ [tr_event tr], tr_reset tr (flow sys (e_loc S) x d), t + d) J) \/
  (d = 0 /\ t_evolution tm x t = 0).
Proof.
  intros Ev De Td I Kj Pos G0 Im. destruct (proj1 (proj2 TS) x t Sx ltac:(lra)) as [T0 T1]. pose proof Ev as [D0 Ev'].
  change (0 <= u tr x d) in G0.
  assert (Act : is_activating (tr_kind tr) = true) by (destruct Kj as [-> | [-> | ->]]; reflexivity).
  assert (LE : tr_kind tr <> PERMISSIVE -> legal tr x d) by (intros N s Hs; apply Ev'; assumption).
  assert (In0 : In tr (map fst cs0)).
  { destruct (in_dec (fun a b => Nat.eq_dec a b) (tr_event tr) (map tr_event (map fst cs0))) as [Ii | Nn].
    - apply in_map_iff in Ii. destruct Ii as (tr' & Ee & Ii'). assert (tr' = tr); [| subst; exact Ii'].
      apply in_map_iff in Ii'. destruct Ii' as (tc & Et & Ic). subst tr'.
      assert (I' : In (fst tc) trs) by (apply (CS tc Ic)).
      clear - ND I I' Ee. induction trs as [| a r IH]; [destruct I |]. cbn [map] in ND. inversion ND as [| ? ? N1 N2]; subst.
      destruct I as [<- | I], I' as [E | I']; auto.
      + exfalso. apply N1. rewrite <- Ee. apply in_map, I'.
      + exfalso. subst a. apply N1. rewrite Ee. apply in_map, I.
    - exfalso. assert (N : ~ In tr (map fst cs0)) by (intros Q; apply Nn, in_map, Q). pose proof (AC tr I N x t d Sx ltac:(lra)). lra. }
  apply in_map_iff in In0. destruct In0 as (tc & Et & Ic).
  destruct (classic (In tc cs)) as [Ik | Nk].
  2: { right. destruct (proj2 (proj2 (proj2 (proj2 TS))) tc Ic Nk) as [Np Er]. rewrite Et in Np, Er.
       destruct (Er x t Sx ltac:(lra) (LE Np 0 ltac:(lra)) d ltac:(lra)) as [Q | Q]; [lra | split; lra]. }
  left. destruct step_inv as (_ & _ & _ & _ & _ & _ & _ & _ & _ & _ & _ & JE).
  destruct (JE tc Ik ltac:(rewrite Et; exact Act)) as (l & El & Jl). clear JE.
  pose proof (proj2 (CS tc Ic) x t Sx) as C. destruct tc as [tr' c]. cbn [fst snd] in *. subst tr'.
  unfold jump_effects in El. cbn [fst snd] in El.
  assert (GS : snd (guard_step sys S h UPPER tm tr c) = true /\ fst (guard_step sys S h UPPER tm tr c) x t d).
  { assert (Rs : reach_set S h tm x t d) by (split; [exact Sx | split; lra]).
    destruct (tr_kind tr) eqn:Kd.
    1, 2: destruct Kj as [Q | [Q | Q]]; discriminate.
    - unfold guard_step. rewrite Kd. split; [reflexivity |]. split; [exact Rs | exact G0].
    - assert (Lg : legal tr x d) by (apply LE; discriminate).
      assert (Z : u tr x d = 0) by (specialize (Lg d ltac:(lra)); lra).
      assert (Dpos : 0 < d) by (destruct Pos as [Q | Q]; [exact Q | discriminate]).
      assert (Lp : 0 <= du tr x d) by (apply (reached_from_below _ _ (Du tr x I)); assumption).
      unfold guard_step. rewrite Kd.
      destruct c as [gamma | | | | | | mu pos]; cbn [fst snd].
      + split; [reflexivity |]. split; [exact Sx |]. destruct C as (Gp & Gz & Gs). destruct (Gs (Lg 0 ltac:(lra)) d ltac:(lra)) as [Q1 Q2].
        assert (d = gamma x).
        { destruct (Rtotal_order d (gamma x)) as [Q | [Q | Q]]; [specialize (Q1 Q); lra | exact Q |]. destruct (Q2 Q) as (r & Br & Ur). specialize (Lg r Br). lra. }
        split; [assumption |]. destruct (t_constant tm); [exact Logic.I | lra].
      + split; [reflexivity |]. split; assumption.
      + exfalso. assert (u tr x d < u tr x 0) by (apply (dec _ _ (Du tr x I)); [lra | intros s Hs; apply C; lra]). specialize (Lg 0 ltac:(lra)). lra.
      + split; [reflexivity |]. split; assumption.
      + split; [reflexivity |]. split; [split; assumption | unfold du in Lp; lra].
      + split; [reflexivity |]. split; [split; assumption | unfold du in Lp; lra].
      + split; [reflexivity |]. split; [split; assumption | unfold du in Lp; lra].
    - assert (Lg : legal tr x d) by (apply LE; discriminate).
      assert (Z : u tr x d = 0) by (specialize (Lg d ltac:(lra)); lra).
      specialize (Im eq_refl). change (0 <= tr_lie tr (phi x d)) in Im.
      unfold guard_step. rewrite Kd.
      destruct c as [gamma | | | | | | mu pos]; cbn [fst snd].
      + split; [reflexivity |]. split; [| exact Im]. split; [exact Sx |]. destruct C as (Gp & Gz & Gs). destruct (Gs (Lg 0 ltac:(lra)) d ltac:(lra)) as [Q1 Q2].
        assert (d = gamma x).
        { destruct (Rtotal_order d (gamma x)) as [Q | [Q | Q]]; [specialize (Q1 Q); lra | exact Q |]. destruct (Q2 Q) as (r & Br & Ur). specialize (Lg r Br). lra. }
        split; [assumption |]. destruct (t_constant tm); [exact Logic.I | lra].
      + split; [reflexivity |]. split; [split; assumption | exact Im].
      + exfalso. specialize (C d ltac:(lra)). unfold du in C. lra.
      + split; [reflexivity |]. split; [split; assumption | exact Im].
      + split; [reflexivity |]. split; [split; [split; [assumption | assumption] | lra] | exact Im].
      + split; [reflexivity |]. split; [split; [split; [assumption | assumption] | lra] | exact Im].
      + split; [reflexivity |]. split; [split; [split; [assumption | assumption] | lra] | exact Im]. }
  destruct (guard_step sys S h UPPER tm tr c) as [P ok]. cbn [fst snd] in GS. destruct GS as [-> Pd].
  set (P' := if surely_by o T P then P else bound_time T P) in *.
  assert (Pd' : P' x t d) by (unfold P'; destruct (surely_by o T P); [exact Pd | split; [exact Pd | exact Td]]).
  set (others := filter _ (filter _ cs)) in El.
  destruct (apply_guards sys o S UPPER others (1%nat, [P'])) as [[cap sets] |] eqn:Ea; [| discriminate]. injection El as <-.
  assert (K : holds_in sets x t d).
  { refine (apply_guards_keeps others x t d Sx ltac:(lra) _ _ _ Ea _).
    - intros tc I'. unfold others in I'. apply filter_In in I'. destruct I' as [I' _]. apply filter_In in I'. apply evolves_legal; [exact Ev | apply I' | apply I'].
    - exists P'. split; [left; reflexivity | exact Pd']. }
  destruct K as (Q & Iq & Qd). exists (reset_enclosure sys S tr Q). split.
  - apply Jl. apply in_concat. eexists. split; [apply in_map, Iq |]. cbn beta. rewrite (not_empty Q x t d Qd). left. reflexivity.
  - split; [reflexivity | split; [reflexivity |]]. exists x, t, d. split; [exact Qd | split; reflexivity].
Qed.
End APPLY.
End STEP.

(** ** The workload *)
Hypothesis EV : events_ok sys.
Variable c : termination.
Notation T := (maximum_time c).
Definition covers (w : enclosure L X * bool) (p : point) : Prop :=
  exists x t, e_set (fst w) x t /\
    if snd w then passes_after_jump sys c (e_loc (fst w)) (e_events (fst w)) x t p
    else t < T /\ passes_in_flow sys c (e_loc (fst w)) (e_events (fst w)) x t p.
Definition effects_cover (es : list (effect L X)) (p : point) : Prop :=
  (exists R, In (Record_ (Reach R)) es /\ point_in p R) \/ (exists S j, In (Append S j) es /\ covers (S, j) p).

Lemma after_jump_before l evs x t p : passes_after_jump sys c l evs x t p -> t < T.
Proof. intros H. destruct H; assumption. Qed.
Lemma evolves_sub l x d e : evolves sys l x d -> 0 <= e <= d -> evolves sys l x e.
Proof. intros [D E] B. split; [lra |]. intros tr I K s Hs. apply E; auto. lra. Qed.
Lemma evolves_rest l x d e : evolves sys l x d -> 0 <= e <= d -> evolves sys l (flow sys l x e) (d - e).
Proof.
  intros [D E] B. split; [lra |]. intros tr I K s Hs. rewrite (proj1 (proj2 FO)). apply E; auto. lra.
Qed.

Lemma flow_covers cfg S es x t p : evolution_step sys o cfg T UPPER S = Some es -> e_set S x t -> t < T ->
  passes_in_flow sys c (e_loc S) (e_events S) x t p -> effects_cover es p.
Proof.
  intros H Sx Tt Pf. unfold evolution_step in H.
  rewrite (not_empty (lift (e_set S)) x t 0 (conj eq_refl Sx)) in H.
  destruct (lower_above _ _) eqn:E0.
  { destruct (lower_sound _ _ _ E0 (time_sound _ _ SO (lift (e_set S)) x t 0 (conj eq_refl Sx))) as (lo & Q & Le). apply Rleb_true in Q. lra. }
  destruct (enable_reconditioning cfg && large_errors o S).
  { injection H as <-. right. exists (with_set S (recondition o S)), false. split; [left; reflexivity |]. exists x, t.
    split; [apply (recondition_sound _ _ SO S x t Sx) | split; assumption]. }
  rewrite andb_false_r in H.
  destruct (too_large o S && enable_subdivisions cfg).
  { injection H as <-. destruct (split_sound _ _ SO S x t Sx) as (P & I & Px). right. exists (with_set S P), false. split.
    - apply in_concat. eexists. split; [apply in_map, I |]. cbn beta. rewrite (not_empty (lift P) x t 0 (conj eq_refl Px)). left. reflexivity.
    - exists x, t. split; [exact Px | split; assumption]. }
  destruct (flow_step o S) as [h |] eqn:Eh; [| discriminate]. pose proof (step_positive _ _ SO S h Eh) as Hh.
  destruct (compute_crossings sys o S h (compute_active_events sys o S h)) as [cs0 |] eqn:Ec; [| discriminate].
  destruct (estimate_timing sys o S h cfg T cs0) as [[tm cs] |] eqn:Et; [| discriminate].
  destruct (compute_crossings_ok S h _ _ ltac:(intros tr I; unfold compute_active_events in I; apply filter_In in I; apply I) Ec) as [CF CM].
  assert (CS : forall tc, In tc cs0 -> crossing_sound S h tc) by (apply Forall_forall; exact CF).
  assert (TS : timing_sound S h T tm cs0 cs) by (apply (estimate_ok S h Hh cfg T); [intros tc I; apply (CS tc I) | exact Et]).
  assert (AC : forall tr, In tr (transitions sys (e_loc S)) -> ~ In tr (map fst cs0) -> forall x t d, e_set S x t -> 0 <= d <= h -> u S tr x d < 0).
  { intros tr I N x' t' d Sx' Bd. rewrite CM in N. apply (active_complete S h tr x' t' d I Sx' Bd N). }
  destruct (proj1 (proj2 TS) x t Sx ltac:(lra)) as [T0 T1].
  set (e := t_evolution tm x t) in *.
  assert (NX : forall p', evolves sys (e_loc S) x e -> t + e < T -> passes_in_flow sys c (e_loc S) (e_events S) (flow sys (e_loc S) x e) (t + e) p' -> effects_cover es p').
  { intros p' Ev Lt Q. destruct (step_next S h T tm cs0 cs CS TS es H x t Sx Tt Ev Lt) as (N & I & Nx).
    right. exists (with_set S N), false. split; [exact I |]. do 2 eexists. split; [exact Nx | split; [exact Lt | exact Q]]. }
  remember (e_loc S) as l eqn:El. remember (e_events S) as evs eqn:Eevs. destruct Pf as [l evs x t d Ev Td | l evs x t d tr p Ev Pos I Kj G Im Pj].
  - destruct (Rle_lt_dec d e) as [De | De].
    + left. subst l evs. apply (step_reach S h T tm cs0 cs CS TS es H x t Sx Tt d Ev De Td).
    + assert (B : 0 <= e <= d) by lra.
      apply NX; [apply (evolves_sub _ _ d); [exact Ev | exact B] | lra |].
      replace (flow sys l x d) with (flow sys l (flow sys l x e) (d - e)) by (rewrite (proj1 (proj2 FO)); f_equal; lra).
      replace (t + d) with (t + e + (d - e)) by lra. apply flows_to; [apply evolves_rest; assumption | lra].
  - pose proof (after_jump_before _ _ _ _ _ Pj) as Lt.
    destruct (Rle_lt_dec d e) as [De | De].
    + subst l evs.
      destruct (step_jump S h T tm cs0 cs CS TS (EV _) AC es H x t Sx Tt d tr Ev De ltac:(lra) I Kj Pos G Im) as [(J & Ij & Pi) | [-> E0']].
      * right. exists J, true. split; [exact Ij |]. destruct Pi as (P1 & P2 & P3). do 2 eexists. split; [exact P3 |]. cbn [fst snd]. rewrite P1, P2. exact Pj.
      * apply NX; [apply (evolves_sub _ _ 0); [exact Ev | fold e in E0'; lra] | fold e in E0'; lra |].
        fold e in E0'. rewrite E0'. rewrite (proj1 FO), Rplus_0_r. eapply flows_jumps with (d := 0); eauto.
    + assert (B : 0 <= e <= d) by lra.
      assert (Ef : flow sys l x d = flow sys l (flow sys l x e) (d - e)) by (rewrite (proj1 (proj2 FO)); f_equal; lra).
      apply NX; [apply (evolves_sub _ _ d); [exact Ev | exact B] | lra |].
      apply flows_jumps with (d := d - e) (tr := tr); auto; rewrite <- ?Ef; auto.
      * apply evolves_rest; assumption.
      * left; lra.
      * replace (t + e + (d - e)) with (t + d) by lra. exact Pj.
Qed.

Lemma possibly_active_true (P : X -> R -> Prop) g x t : P x t -> 0 <= g x -> possibly_active o P g = true.
Proof. intros Px G. unfold possibly_active. rewrite (not_empty (lift (fun x t => P x t /\ 0 <= g x)) x t 0); [reflexivity |]. split; [reflexivity | split; assumption]. Qed.
Lemma apply_invariants_keeps trs : forall (P : X -> R -> Prop) x t, P x t -> (forall tr, In tr trs -> tr_kind tr = INVARIANT -> tr_guard tr x <= 0) -> @apply_invariants L X o trs P x t.
Proof.
  unfold apply_invariants. induction trs as [| tr r IH]; cbn [fold_left]; intros P x t Px A; [exact Px |].
  apply IH; [| intros; apply A; [right |]; assumption]. destruct (tr_kind tr) eqn:K; try exact Px.
  destruct (possibly_active o P (tr_guard tr)); [| exact Px]. split; [exact Px | apply A; [left; reflexivity | exact K]].
Qed.
Lemma flowable_keeps S trs : forall (P : X -> R -> Prop) x t, P x t -> (forall tr, In tr trs -> tr_kind tr <> PERMISSIVE -> tr_guard tr x <= 0) ->
  fold_left (@starting_flowable L X o S) trs P x t.
Proof.
  induction trs as [| tr r IH]; cbn [fold_left]; intros P x t Px A; [exact Px |].
  apply IH; [| intros; apply A; [right |]; assumption]. unfold starting_flowable. destruct (tr_kind tr) eqn:K; try exact Px.
  - destruct (possibly_active o _ _); [| exact Px]. split; [exact Px | apply A; [left; reflexivity | rewrite K; discriminate]].
  - destruct (possibly_active o _ _); [| exact Px]. split; [exact Px | apply A; [left; reflexivity | rewrite K; discriminate]].
Qed.
Lemma goes_on_terminated evs : goes_on c evs -> terminated c evs = false.
Proof.
  intros [A B]. unfold terminated. apply orb_false_intro; [apply Nat.leb_gt; exact A |].
  destruct (rev evs) as [| e r] eqn:E; [reflexivity |].
  destruct (existsb (Nat.eqb e) (terminating_events c)) eqn:Q; [| reflexivity]. exfalso.
  apply existsb_exists in Q. destruct Q as (e' & I & Eq). apply Nat.eqb_eq in Eq. subst e'.
  apply (B e I (rev r)). rewrite <- (rev_involutive evs), E. reflexivity.
Qed.

Lemma jumped_covers S x t p : e_set S x t -> passes_after_jump sys c (e_loc S) (e_events S) x t p -> effects_cover (process_jumped_set sys o c S) p.
Proof.
  intros Sx Pj. pose proof (after_jump_before _ _ _ _ _ Pj) as Lt. unfold process_jumped_set.
  destruct (lower_above _ _) eqn:E0.
  { destruct (lower_sound _ _ _ E0 (time_sound _ _ SO (lift (e_set S)) x t 0 (conj eq_refl Sx))) as (lo & Q & Le). apply Rleb_true in Q. lra. }
  assert (Go : goes_on c (e_events S)) by (destruct Pj; assumption). rewrite (goes_on_terminated _ Go).
  unfold process_starting_events. set (inv := apply_invariants o _ _).
  assert (INV : invariants_hold sys (e_loc S) x -> inv x t) by (intros Hi; apply apply_invariants_keeps; [exact Sx | exact Hi]).
  assert (JMP : forall tr, invariants_hold sys (e_loc S) x -> In tr (transitions sys (e_loc S)) -> tr_kind tr = PERMISSIVE \/ tr_kind tr = URGENT -> 0 <= tr_guard tr x ->
     incl [Record_ (Reach (with_set S (fun x t => inv x t /\ 0 <= tr_guard tr x)));
           Append (reset_points tr S (fun x t => inv x t /\ 0 <= tr_guard tr x)) true]
       (concat (map (starting_jump o S inv) (transitions sys (e_loc S))))).
  { intros tr Hi I K G. set (js := fun x t => inv x t /\ 0 <= tr_guard tr x).
    assert (Es : starting_jump o S inv tr = [Record_ (Reach (with_set S js)); Record_ (Intermediate (reset_points tr S js)); Append (reset_points tr S js) true]).
    { unfold starting_jump. rewrite (possibly_active_true (e_set S) (tr_guard tr) x t Sx G).
      fold js. rewrite (not_empty (lift js) x t 0) by (split; [reflexivity | split; [apply INV, Hi | exact G]]). destruct K as [-> | ->]; reflexivity. }
    intros y Hy. apply in_concat. exists (starting_jump o S inv tr). split; [apply in_map, I |]. rewrite Es. destruct Hy as [<- | [<- | []]]; [left; reflexivity | right; right; left; reflexivity]. }
  remember (e_loc S) as l eqn:El. remember (e_events S) as evs eqn:Eevs.
  destruct Pj as [l evs x t p _ _ Pf | l evs x t tr _ _ Hi I K G | l evs x t tr p _ _ Hi I K G Pj].
  - right. set (fl := fold_left _ _ _).
    assert (Ev0 : forall tr, In tr (transitions sys l) -> tr_kind tr <> PERMISSIVE -> tr_guard tr x <= 0).
    { assert (Q : forall d, evolves sys l x d -> forall tr, In tr (transitions sys l) -> tr_kind tr <> PERMISSIVE -> tr_guard tr x <= 0).
      { intros d [D Ev] tr I K. rewrite <- (proj1 FO l x). apply Ev; auto. lra. }
      destruct Pf as [l evs x t d Ev _ | l evs x t d tr p Ev _ _ _ _ _ _]; apply (Q d Ev). }
    assert (Fx : fl x t). { apply flowable_keeps; [apply INV; intros tr I K; apply Ev0; [exact I | rewrite K; discriminate] | exact Ev0]. }
    exists (with_set S fl), false. split.
    + apply in_or_app. right. rewrite (not_empty (lift fl) x t 0 (conj eq_refl Fx)). left. reflexivity.
    + exists x, t. split; [exact Fx |]. cbn [fst snd]. split; [exact Lt |]. cbn [with_set e_loc e_events]. rewrite <- El, <- Eevs. exact Pf.
  - left. eexists. split; [apply in_or_app; left; apply (JMP tr Hi I K G); left; reflexivity |].
    split; [cbn; congruence | split; [cbn; congruence |]]. split; [apply INV, Hi | exact G].
  - right. eexists. exists true. split; [apply in_or_app; left; apply (JMP tr Hi I K G); right; left; reflexivity |].
    exists (tr_reset tr x), t. cbn [fst snd reset_points e_set e_loc e_events]. split.
    + exists x. split; [split; [apply INV, Hi | exact G] | reflexivity].
    + rewrite <- Eevs. exact Pj.
Qed.

Lemma process_covers cfg w es p : process sys o cfg c UPPER w = Some es -> covers w p -> effects_cover es p.
Proof.
  destruct w as [S j]. unfold process, covers. cbn [fst snd]. destruct j.
  - intros H. injection H as <-. intros (x & t & Sx & Pj). apply (jumped_covers S x t p Sx Pj).
  - intros H (x & t & Sx & Lt & Pf). apply (flow_covers cfg S es x t p H Sx Lt Pf).
Qed.

(** The invariant of the workload: a point is recorded, or some set still covers it. *)
Definition item_covers (i : item L X) (p : point) : Prop := match i with Waiting w => covers w p | Running es => effects_cover es p end.
Definition state_covers (s : state L X) (p : point) : Prop :=
  (exists R, In (Reach R) (log s) /\ point_in p R) \/ (exists i, In i (items s) /\ item_covers i p).
Lemma step_covers cfg s s' p : step sys o cfg c UPPER s s' -> state_covers s p -> state_covers s' p.
Proof.
  intros St [(R & I & Pi) | (i & I & Ic)].
  { left. exists R. split; [| exact Pi]. destruct St; cbn [log] in *; try exact I. apply in_or_app. left. exact I. }
  destruct St as [b1 b2 lg w es Hp | b1 b2 lg en l | b1 b2 lg S j l | b1 b2 lg]; cbn [items log] in *.
  - apply in_app_or in I. destruct I as [I | [<- | I]].
    + right. exists i. split; [apply in_or_app; left; exact I | exact Ic].
    + right. exists (Running es). split; [apply in_or_app; right; left; reflexivity |]. apply (process_covers cfg w es p Hp Ic).
    + right. exists i. split; [apply in_or_app; right; right; exact I | exact Ic].
  - apply in_app_or in I. destruct I as [I | [<- | I]].
    + right. exists i. split; [apply in_or_app; left; exact I | exact Ic].
    + destruct Ic as [(R & [E | I] & Pi) | (S & j & [E | I] & Cv)].
      * injection E as ->. left. exists R. split; [apply in_or_app; right; left; reflexivity | exact Pi].
      * right. exists (Running l). split; [apply in_or_app; right; left; reflexivity |]. left. exists R. split; assumption.
      * discriminate.
      * right. exists (Running l). split; [apply in_or_app; right; left; reflexivity |]. right. exists S, j. split; assumption.
    + right. exists i. split; [apply in_or_app; right; right; exact I | exact Ic].
  - apply in_app_or in I. destruct I as [I | [<- | I]].
    + right. exists i. split; [apply in_or_app; left; exact I | exact Ic].
    + destruct Ic as [(R & [E | I] & Pi) | (S' & j' & [E | I] & Cv)].
      * discriminate.
      * right. exists (Running l). split; [apply in_or_app; right; left; reflexivity |]. left. exists R. split; assumption.
      * injection E as -> ->. right. exists (Waiting (S', j')). split; [| exact Cv]. apply in_or_app. right. right. apply in_or_app. right. left. reflexivity.
      * right. exists (Running l). split; [apply in_or_app; right; left; reflexivity |]. right. exists S', j'. split; assumption.
    + right. exists i. split; [| exact Ic]. apply in_or_app. right. right. apply in_or_app. left. exact I.
  - apply in_app_or in I. destruct I as [I | [<- | I]].
    + right. exists i. split; [apply in_or_app; left; exact I | exact Ic].
    + destruct Ic as [(R & [] & _) | (S & j & [] & _)].
    + right. exists i. split; [apply in_or_app; right; exact I | exact Ic].
Qed.
Lemma steps_cover cfg s s' p : steps sys o cfg c UPPER s s' -> state_covers s p -> state_covers s' p.
Proof. intros H. induction H; [auto |]. intros Q. apply IHsteps, (step_covers cfg s s' p H Q). Qed.

Lemma orbit_covers cfg S lg x t p : orbit sys o cfg c UPPER S lg -> e_set S x t ->
  passes_after_jump sys c (e_loc S) (e_events S) x t p -> exists R, In (Reach R) lg /\ point_in p R.
Proof.
  intros H Sx Pj. destruct (steps_cover cfg _ _ p H) as [Q | (i & [] & _)].
  - right. exists (Waiting (S, true)). split; [left; reflexivity |]. exists x, t. split; [exact Sx | exact Pj].
  - exact Q.
Qed.
End HE.
