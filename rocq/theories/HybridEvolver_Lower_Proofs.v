From Coq Require Import List Bool Arith Reals Lra Lia Classical.
From Coquelicot Require Import Coquelicot.
From Verif Require Import Automaton_Model Evolver_Model HybridEvolver_Model HybridEvolver_Spec HybridEvolver_Proofs HybridEvolver_Exact_Proofs.
Import ListNotations.
Local Open Scope R_scope.

(** ** Convex functions *)
Section CONVEX.
  Variables u du ddu : R -> R.
  Hypothesis Du : forall s, is_derive u s (du s).
  Hypothesis Ddu : forall s, is_derive du s (ddu s).
  Hypothesis C : forall s, 0 <= ddu s.
  Lemma du_mono a b : a <= b -> du a <= du b.
  Proof. intros H. apply (inc_le du ddu Ddu); [exact H | intros; apply C]. Qed.
  Lemma stays_positive s : 0 < u 0 -> 0 <= du 0 -> 0 <= s -> 0 < u s /\ 0 <= du s.
  Proof.
    intros U0 D0 Hs. split.
    - assert (u 0 <= u s) by (apply (inc_le u du Du); [exact Hs | intros r Hr; pose proof (du_mono 0 r (proj1 Hr)); lra]). lra.
    - pose proof (du_mono 0 s Hs). lra.
  Qed.
  Lemma convex_legal d s : 0 <= s <= d -> u 0 <= 0 -> u d <= 0 -> u s <= 0.
  Proof.
    intros B U0 Ud. destruct (Rle_lt_dec (u s) 0) as [N | N]; [exact N | exfalso].
    assert (S0 : 0 < s) by (destruct (Req_dec s 0) as [-> | ]; lra).
    assert (S1 : s < d) by (destruct (Req_dec s d) as [-> | ]; lra).
    destruct (mvt u du Du 0 s S0) as (c1 & B1 & E1). destruct (mvt u du Du s d S1) as (c2 & B2 & E2).
    assert (0 < du c1). { apply Rnot_le_lt. intros G. assert (du c1 * (s - 0) <= 0) by nra. lra. }
    assert (du c2 < 0). { apply Rnot_le_lt. intros G. assert (0 <= du c2 * (d - s)) by nra. lra. }
    pose proof (du_mono c1 c2 ltac:(lra)). lra.
  Qed.
  Lemma goes_positive d : 0 <= d -> u 0 <= 0 -> 0 < u d -> 0 <= du d.
  Proof.
    intros B U0 Ud. assert (D : 0 < d) by (destruct B as [B | <-]; lra).
    destruct (mvt u du Du 0 d D) as (c & Bc & E).
    assert (0 < du c). { apply Rnot_le_lt. intros G. assert (du c * (d - 0) <= 0) by nra. lra. }
    pose proof (du_mono c d ltac:(lra)). lra.
  Qed.
End CONVEX.

Section LOW.
Context {L X : Type}.
Variable sys : system L X.
Variable o : oracles L X.
Hypothesis FO : flow_ok sys.
Hypothesis SO : sound sys o.
Hypothesis EV : events_ok sys.
Hypothesis CV : convex_guards sys.
Hypothesis IG : increasing_guards sys.

Definition good (l : L) (x : X) : Prop := forall tr, In tr (transitions sys l) -> tr_kind tr <> PERMISSIVE -> tr_guard tr x <= 0.
Definition over (tr : transition L X) (x : X) : Prop := 0 < tr_guard tr x /\ 0 <= tr_lie tr x.
Definition bad (l : L) (x : X) : Prop := exists tr, In tr (transitions sys l) /\ tr_kind tr <> PERMISSIVE /\ over tr x.

Section TR.
Variables (l : L) (tr : transition L X) (x : X).
Hypothesis I : In tr (transitions sys l).
Hypothesis K : tr_kind tr <> PERMISSIVE.
Let uu s := tr_guard tr (flow sys l x s).
Let duu s := tr_lie tr (flow sys l x s).
Let dduu s := tr_lie2 tr (flow sys l x s).
Lemma Duu s : is_derive uu s (duu s). Proof. apply (proj1 (proj2 (proj2 FO) l tr I x s)). Qed.
Lemma Dduu s : is_derive duu s (dduu s). Proof. apply (proj2 (proj2 (proj2 FO) l tr I x s)). Qed.
Lemma Cuu s : 0 <= dduu s. Proof. apply (CV l tr I K). Qed.
Lemma over_stays s : over tr x -> 0 <= s -> over tr (flow sys l x s).
Proof.
  intros [A B] Hs. rewrite <- (proj1 FO l x) in A, B. apply (stays_positive uu duu dduu Duu Dduu Cuu s A B Hs).
Qed.
Lemma legal_between d s : 0 <= s <= d -> tr_guard tr x <= 0 -> tr_guard tr (flow sys l x d) <= 0 -> tr_guard tr (flow sys l x s) <= 0.
Proof. intros B A Q. rewrite <- (proj1 FO l x) in A. apply (convex_legal uu duu dduu Duu Dduu Cuu d s B A Q). Qed.
Lemma gets_over d : 0 <= d -> tr_guard tr x <= 0 -> 0 < tr_guard tr (flow sys l x d) -> over tr (flow sys l x d).
Proof. intros B A Q. split; [exact Q |]. rewrite <- (proj1 FO l x) in A. apply (goes_positive uu duu dduu Duu Dduu Cuu d B A Q). Qed.
End TR.

Lemma good_or_bad_next l x e : good l x \/ bad l x -> 0 <= e -> good l (flow sys l x e) \/ bad l (flow sys l x e).
Proof.
  intros [G | (tr & I & K & O)] E.
  - destruct (classic (good l (flow sys l x e))) as [Q | Q]; [left; exact Q | right].
    apply not_all_ex_not in Q. destruct Q as [tr Q]. apply imply_to_and in Q. destruct Q as [I Q]. apply imply_to_and in Q. destruct Q as [K Q].
    exists tr. split; [exact I | split; [exact K |]]. apply gets_over; auto. apply Rnot_le_lt, Q.
  - right. exists tr. split; [exact I | split; [exact K |]]. apply over_stays; assumption.
Qed.
Lemma good_evolves l x e : good l x -> good l (flow sys l x e) -> 0 <= e -> evolves sys l x e.
Proof. intros G G' E. split; [exact E |]. intros tr I K s Hs. apply (legal_between l tr x I K e s Hs (G tr I K) (G' tr I K)). Qed.
Lemma evolves_compose l x d d' : evolves sys l x d -> evolves sys l (flow sys l x d) d' -> evolves sys l x (d + d').
Proof.
  intros [D E] [D' E']. split; [lra |]. intros tr I K s Hs. destruct (Rle_lt_dec s d) as [A | A]; [apply E; auto; lra |].
  replace s with (d + (s - d)) by ring. rewrite <- (proj1 (proj2 FO)). apply E'; auto. lra.
Qed.

(** ** Timing *)
Section STEP.
Variable S : enclosure L X.
Variable h : R.
Hypothesis Hh : 0 < h.
Hypothesis POS : forall f ct x t, implicit o S f h = Some ct -> e_set S x t -> 0 < ct x.
Notation l := (e_loc S).

Lemma temporal_nonneg creep T tl tu temp const fin t : temporal h creep T tl tu = (temp, const, fin) -> fin <> AT_FINAL_TIME -> tl <= t <= tu -> 0 <= temp t <= h.
Proof.
  intros H N B. destruct (Rle_lt_dec t T) as [Le | Lt].
  - apply (temporal_ok h Hh _ _ _ _ _ _ _ H t B Le).
  - revert H. unfold temporal. destruct (Rltb (T - tu) 0) eqn:E1.
    + destruct (Rleb (T - tl) h); intros H; injection H as <- <- <-; [contradiction | lra].
    + apply Rltb_false in E1. lra.
Qed.
Lemma estimate_more cfg T cs tm cs' : (forall tc, In tc cs -> In (fst tc) (transitions sys l)) -> estimate_timing sys o S h cfg T cs = Some (tm, cs') ->
  (t_finishing tm <> AT_FINAL_TIME -> forall x t, e_set S x t -> 0 <= t_evolution tm x t <= h) /\
  (cs' = cs \/ allow_creep cfg = true /\ exists sp, guard_creep sys o S h cs (fun _ => h * (15/16)) = Some (sp, cs')).
Proof.
  intros A H. unfold estimate_timing in H.
  destruct (time_range o (lift (e_set S))) as [[tl tu] |] eqn:Et; [| discriminate].
  assert (TB : forall x t, e_set S x t -> tl <= t <= tu).
  { intros x t Sx. pose proof (time_sound _ _ SO (lift (e_set S)) x t 0 (conj eq_refl Sx)) as V. rewrite Et in V. simpl in V. lra. }
  destruct (temporal h (allow_creep cfg) T tl tu) as [[temp const] fin] eqn:Em.
  set (cr := if allow_creep cfg && _ && _ && _ then _ else _) in H.
  assert (C : exists sp const' fin' cs0, cr = Some (sp, const', fin', cs0) /\ (forall x t, e_set S x t -> 0 <= sp x <= h) /\
     (fin' <> AT_FINAL_TIME -> fin <> AT_FINAL_TIME) /\
     (cs0 = cs \/ allow_creep cfg = true /\ exists sp, guard_creep sys o S h cs (fun _ => h * (15/16)) = Some (sp, cs0))).
  { unfold cr. unfold cr in H. destruct (allow_creep cfg && _ && _ && _) eqn:Q.
    - destruct (guard_creep sys o S h cs (fun _ => h * (15 / 16))) as [[sp cs0] |] eqn:G; [| discriminate].
      destruct (guard_creep_ok sys o FO SO S h Hh cs _ _ _ A G) as (I1 & I0 & I2).
      repeat (apply andb_prop in Q; destruct Q as [Q ?]).
      exists sp, false, BEFORE_FINAL_TIME, cs0. split; [reflexivity | split; [| split]].
      + intros x t Sx. destruct (I2 x t Sx ltac:(cbn beta; lra)) as [B _]. cbn beta in B. lra.
      + intros _ F. rewrite F in *. discriminate.
      + right. split; [assumption |]. exists sp. reflexivity.
    - exists (fun _ => h), const, fin, cs. split; [reflexivity | split; [intros; lra | split; [auto | left; reflexivity]]]. }
  destruct C as (sp & const' & fin' & cs0 & Ec & Bsp & Nat & Cr). rewrite Ec in H. clear Ec cr.
  destruct (allow_unwind cfg && _ && _ && _ && _) eqn:Uw; injection H as <- <-; cbn [t_evolution t_finishing]; (split; [| exact Cr]).
  - repeat (apply andb_prop in Uw; destruct Uw as [Uw ?]).
    match goal with H : Rltb tl tu = true |- _ => apply Rltb_true in H; rename H into Ht end.
    intros _ x t Sx. apply unwound_ok; [exact Hh | exact Ht | apply (TB x t Sx)].
  - intros N x t Sx. pose proof (temporal_nonneg _ _ _ _ _ _ _ t Em (Nat N) (TB x t Sx)) as B. specialize (Bsp x t Sx).
    assert (0 <= temp t / h <= 1).
    { split; [apply Rmult_le_pos; [lra | apply Rlt_le, Rinv_0_lt_compat; lra] |].
      apply Rmult_le_reg_r with h; [lra |]. replace (temp t / h * h) with (temp t) by (field; lra). lra. }
    split; [apply Rmult_le_pos; lra |]. apply Rle_trans with (sp x * 1); [apply Rmult_le_compat_l; lra | lra].
Qed.
Lemma guard_creep_over cs : forall sp sp' cs', guard_creep sys o S h cs sp = Some (sp', cs') -> (forall tc, In tc cs -> In (fst tc) (transitions sys l)) ->
  forall tc, In tc cs -> ~ In tc cs' -> forall x t, e_set S x t -> over (fst tc) x -> False.
Proof.
  induction cs as [| [tr c] r IH]; intros sp sp' cs' H A tc I N x t Sx O; [destruct I |]. cbn [guard_creep] in H.
  assert (K : forall res, match guard_creep sys o S h r sp with Some (s, cs'0) => Some (s, (tr, c) :: cs'0) | None => None end = Some res -> res = (sp', cs') -> False).
  { intros res E ->. destruct (guard_creep sys o S h r sp) as [[s cs0] |] eqn:G; [| discriminate]. injection E as <- <-.
    destruct I as [<- | I]; [apply N; left; reflexivity |].
    apply (IH _ _ _ G (fun tc i => A tc (or_intror i)) tc I (fun Q => N (or_intror Q)) x t Sx O). }
  assert (W : tr_kind tr = PERMISSIVE \/ (tr_kind tr <> PERMISSIVE /\
      match value_range o S h (tr_guard tr), value_range o S h (tr_lie tr) with
      | Some (glo, _), Some (dlo, _) =>
        if Rltb glo 0 then
          if Rltb 0 (1 + h * dlo / glo) && Rleb (1 + h * dlo / glo) 1 then
            match implicit o S (fun x t => tr_guard tr (phi sys S x t) - (1 + h * dlo / glo) * tr_guard tr x) h with
            | Some ct => guard_creep sys o S h r (fun x => sp x * (ct x / h))
            | None => match guard_creep sys o S h r sp with Some (s, cs'0) => Some (s, (tr, c) :: cs'0) | None => None end
            end
          else match guard_creep sys o S h r sp with Some (s, cs'0) => Some (s, (tr, c) :: cs'0) | None => None end
        else None
      | _, _ => None
      end = Some (sp', cs'))).
  { destruct (tr_kind tr) eqn:Kd; try (right; split; [discriminate | exact H]). left; reflexivity. }
  destruct W as [Kd | [Kd W]].
  { rewrite Kd in H. apply (K _ H eq_refl). }
  clear H.
  destruct (value_range o S h (tr_guard tr)) as [[glo ghi] |] eqn:Eg; [| discriminate].
  destruct (value_range o S h (tr_lie tr)) as [[dlo dhi] |] eqn:Ed; [| discriminate].
  destruct (Rltb glo 0) eqn:Q; [| discriminate]. apply Rltb_true in Q.
  destruct (Rltb 0 (1 + h * dlo / glo) && Rleb (1 + h * dlo / glo) 1) eqn:Qa; [| apply (K _ W eq_refl)].
  destruct (implicit o S _ h) as [ct |] eqn:Ei; [| apply (K _ W eq_refl)].
  apply andb_prop in Qa. destruct Qa as [Qa Qb]. apply Rltb_true in Qa. apply Rleb_true in Qb.
  set (al := 1 + h * dlo / glo) in *.
  destruct I as [<- | I]; [| apply (IH _ _ _ W (fun tc i => A tc (or_intror i)) tc I N x t Sx O)].
  cbn [fst] in *. destruct (implicit_sound _ _ SO _ _ _ _ x t Ei Sx) as (Bc & Zc & Un).
  pose proof (POS _ _ x t Ei Sx) as Pc. pose proof (A _ (or_introl eq_refl)) as It. cbn [fst] in It.
  assert (M : tr_guard tr x <= tr_guard tr (phi sys S x (ct x))).
  { rewrite <- (proj1 FO l x) at 1. apply (inc_le (fun s => tr_guard tr (flow sys l x s)) (fun s => tr_lie tr (flow sys l x s))).
    - intros s. apply (proj1 (proj2 (proj2 FO) l tr It x s)).
    - lra.
    - intros s Hs. apply (over_stays l tr x It Kd s O). lra. }
  assert (E1 : al = 1). { destruct O as [O _]. apply Rle_antisym; [exact Qb |]. apply Rmult_le_reg_r with (tr_guard tr x); [exact O |]. lra. }
  assert (0 = ct x). { apply Un; [lra |]. rewrite E1. unfold phi. rewrite (proj1 FO). ring. } lra.
Qed.

(** ** Points which are kept *)
Definition kept (tr : transition L X) x d : Prop := (tr_guard tr x <= 0 -> tr_guard tr (phi sys S x d) <= 0) /\ ~ over tr x.
Variable cs0 : list (transition L X * crossing X).
Hypothesis CS : forall tc, In tc cs0 -> crossing_sound sys S h tc.
Lemma not_concave tr x t : In tr (transitions sys l) -> tr_kind tr <> PERMISSIVE -> e_set S x t -> (forall s, 0 <= s <= h -> ddu sys S tr x s < 0) -> False.
Proof. intros I K Sx C. specialize (C 0 ltac:(lra)). pose proof (CV l tr I K (phi sys S x 0)). unfold ddu in C. lra. Qed.
Lemma over_later tr x d : In tr (transitions sys l) -> tr_kind tr <> PERMISSIVE -> over tr x -> 0 <= d -> 0 < u sys S tr x d /\ 0 <= du sys S tr x d.
Proof. intros I K O D. exact (over_stays l tr x I K d O D). Qed.
Lemma guard_set_kept tr c (P : pset X) x t d : crossing_sound sys S h (tr, c) -> tr_kind tr <> PERMISSIVE -> e_set S x t -> 0 <= d <= h ->
  holds_in (fst (guard_set sys o S LOWER (tr_guard tr) c P) :: snd (guard_set sys o S LOWER (tr_guard tr) c P)) x t d -> kept tr x d.
Proof.
  intros [I C] K Sx Bd H. cbn [fst snd] in *. specialize (C x t Sx).
  assert (U0 : tr_guard tr x <= 0 -> u sys S tr x 0 <= 0) by (intros Q; unfold u, phi; rewrite (proj1 FO); exact Q).
  destruct c as [gamma | | | | | | mu pos]; cbn [guard_set fst snd] in H.
  - apply in_one in H. destruct H as [_ Le]. destruct C as (G0 & Gz & Gs). split.
    + intros Q. destruct Le as [Lt | ->]; [| unfold u in Gz; rewrite Gz; lra]. destruct (Gs (U0 Q) d Bd) as [A _]. apply Rlt_le, A, Lt.
    + intros O. destruct (over_later tr x (gamma x) I K O G0). lra.
  - apply in_one in H. destruct H as [_ Le]. split; [intros _; exact Le |]. intros O. destruct (over_later tr x d I K O ltac:(lra)) as [A _]. unfold u in A. lra.
  - split.
    + intros Q. pose proof (Du sys FO S tr x I) as D1. specialize (U0 Q). destruct Bd as [[B0 | <-] B1].
      * assert (u sys S tr x d < u sys S tr x 0) by (apply (dec _ _ D1); [exact B0 | intros s Hs; apply C; lra]). unfold u in *. lra.
      * exact U0.
    + intros O. destruct (over_later tr x 0 I K O ltac:(lra)) as [_ A]. specialize (C 0 ltac:(lra)). lra.
  - apply in_one in H. destruct H as [_ Le]. split; [intros _; exact Le |]. intros O. destruct (over_later tr x d I K O ltac:(lra)) as [A _]. unfold u in A. lra.
  - exfalso. apply (not_concave tr x t I K Sx C).
  - apply in_one in H. destruct H as [_ Le]. lra.
  - exfalso. apply (not_concave tr x t I K Sx (proj1 C)).
Qed.
End STEP.

(** ** A step of the evolution *)
Variable cfg : config.
Hypothesis CR : allow_creep cfg = false \/ forall S f h ct x t, implicit o S f h = Some ct -> e_set S x t -> 0 < ct x.
Lemma erased_over S h T cs0 tm cs tc x t : 0 < h -> (forall tc, In tc cs0 -> In (fst tc) (transitions sys (e_loc S))) -> estimate_timing sys o S h cfg T cs0 = Some (tm, cs) ->
  In tc cs0 -> ~ In tc cs -> e_set S x t -> over (fst tc) x -> False.
Proof.
  intros Hh A E I N Sx O. destruct (estimate_more S h Hh cfg T cs0 tm cs A E) as [_ [-> | (AC & sp & G)]]; [contradiction |].
  destruct CR as [F | POS]; [congruence |].
  apply (guard_creep_over S h Hh (fun f ct x t => POS S f h ct x t) cs0 _ _ _ G A tc I N x t Sx O).
Qed.
Lemma kept_evolves T S es h cs0 tm cs x t d : full_step sys o cfg T LOWER S es h cs0 tm cs -> e_set S x t -> t <= T -> good (e_loc S) x \/ bad (e_loc S) x ->
  0 <= d <= h -> d <= t_evolution tm x t ->
  (forall tc, In tc cs -> is_blocking (tr_kind (fst tc)) = true -> kept S (fst tc) x d) -> good (e_loc S) x /\ evolves sys (e_loc S) x d.
Proof.
  intros F Sx Tt GB Bd De K. destruct F as [_ Hh _ Et CS TS AC _].
  assert (A0 : forall tc, In tc cs0 -> In (fst tc) (transitions sys (e_loc S))) by (intros tc I; apply (CS tc I)).
  assert (G : good (e_loc S) x).
  { destruct GB as [G | (tr & I & Kd & O)]; [exact G | exfalso].
    destruct (classic (In tr (map fst cs0))) as [Ic | Nc].
    - apply in_map_iff in Ic. destruct Ic as ([tr' c] & <- & Ic). destruct (classic (In (tr', c) cs)) as [Ic' | Nc'].
      + apply (K _ Ic'); [apply blocking_not_permissive; exact Kd | exact O].
      + apply (erased_over S h T cs0 tm cs (tr', c) x t Hh A0 Et Ic Nc' Sx O).
    - pose proof (AC tr I Nc x t 0 Sx ltac:(lra)) as Q. unfold u, phi in Q. rewrite (proj1 FO) in Q. destruct O. lra. }
  split; [exact G |]. apply good_evolves; [exact G | | lra].
  intros tr I Kd. destruct (classic (In tr (map fst cs0))) as [Ic | Nc].
  - apply in_map_iff in Ic. destruct Ic as ([tr' c] & <- & Ic). cbn [fst] in *. destruct (classic (In (tr', c) cs)) as [Ic' | Nc'].
    + apply (K _ Ic'); [apply blocking_not_permissive; exact Kd | apply G; assumption].
    + destruct (proj2 (proj2 (proj2 (proj2 TS))) _ Ic Nc') as [_ Er]. cbn [fst] in Er.
      destruct (Er x t Sx Tt ltac:(unfold u, phi; rewrite (proj1 FO); apply G; assumption) d ltac:(lra)) as [Q | Q].
      * apply Rlt_le, Q.
      * assert (d = 0) by lra. subst d. rewrite (proj1 FO). apply G; assumption.
  - apply Rlt_le, (AC tr I Nc x t d Sx Bd).
Qed.
Lemma classify_in S h act cs tc : compute_crossings sys o S h act = Some cs -> In tc cs -> classify sys o S h (fst tc) = Crossing (snd tc).
Proof.
  revert cs. induction act as [| tr r IH]; cbn [compute_crossings]; intros cs H I.
  - injection H as <-. destruct I.
  - destruct (classify sys o S h tr) as [c |] eqn:E; [| discriminate]. destruct (compute_crossings sys o S h r) as [cs' |]; [| discriminate].
    injection H as <-. destruct I as [<- | I]; [exact E | apply (IH cs' eq_refl I)].
Qed.
Lemma transverse_by S h tr gamma x t : 0 < h -> In tr (transitions sys (e_loc S)) -> tr_kind tr <> PERMISSIVE -> e_set S x t -> classify sys o S h tr = Crossing (Transverse gamma) -> gamma x <= h.
Proof.
  intros Hh I K Sx E. unfold classify in E.
  destruct (lower_above _ _).
  { destruct (implicit o S _ h) as [g |] eqn:Ei; [| discriminate]. injection E as ->. apply (implicit_sound _ _ SO _ _ _ _ x t Ei Sx). }
  destruct (upper_below _ _); [discriminate |]. destruct (lower_above _ _); [discriminate |].
  destruct (upper_below _ (value_range o S h (tr_lie2 tr))) eqn:Eu; [| discriminate].
  exfalso. destruct (upper_sound _ _ _ Eu (value_sound _ _ SO S h (tr_lie2 tr) x t 0 Sx ltac:(lra))) as (hi & Q & Le).
  apply Rltb_true in Q. pose proof (CV _ tr I K (flow sys (e_loc S) x 0)). lra.
Qed.
Lemma events_inj l tr tr' : In tr (transitions sys l) -> In tr' (transitions sys l) -> tr_event tr = tr_event tr' -> tr = tr'.
Proof.
  intros I I' E. pose proof (EV l) as N. revert I I' N. generalize (transitions sys l) as ts. induction ts as [| a r IH]; cbn [map]; intros I I' N; [destruct I |].
  inversion N as [| ? ? Na Nr]; subst. destruct I as [-> | I], I' as [-> | I']; auto.
  - exfalso. apply Na. rewrite E. apply in_map, I'.
  - exfalso. apply Na. rewrite <- E. apply in_map, I.
Qed.

Lemma own_kept S h T cs0 tm cs es tc x t d : full_step sys o cfg T LOWER S es h cs0 tm cs -> In tc cs -> is_activating (tr_kind (fst tc)) = true -> e_set S x t \/ True ->
  t + d <= T -> fst (guard_step sys S h LOWER tm (fst tc) (snd tc)) x t d ->
  e_set S x t /\ 0 <= d <= h /\ d <= t_evolution tm x t /\ 0 <= tr_guard (fst tc) (phi sys S x d) /\ (tr_kind (fst tc) = IMPACT -> 0 <= tr_lie (fst tc) (phi sys S x d)) /\
  (tr_kind (fst tc) <> PERMISSIVE -> kept S (fst tc) x d).
Proof.
  intros F Itc Act _ Le Pd. destruct F as [_ Hh Ec Et CS TS AC _]. pose proof (proj1 TS tc Itc) as I0. pose proof (CS tc I0) as [It C]. pose proof (classify_in S h _ _ tc Ec I0) as Ecl.
  destruct tc as [tr c]. cbn [fst snd] in *. unfold guard_step in Pd.
  set (js := match c with
      | Transverse gamma => ((fun x t d => e_set S x t /\ d = gamma x /\ (if t_constant tm then True else d <= t_evolution tm x t)) : pset X, true)
      | Increasing | Convex => (constrain (reach_set S h tm) (fun x t d => tr_guard tr (phi sys S x d) = 0), true)
      | Grazing _ _ | Concave =>
        (constrain (constrain (reach_set S h tm) (fun x t d => tr_guard tr (phi sys S x d) = 0)) (fun x t d => - tr_lie tr (phi sys S x d) <= 0), true)
      | Degenerate => (lift (fun x t => e_set S x t /\ tr_guard tr x * 0 + 1 <= 0), false)
      | Decreasing => (lift (e_set S), false)
      end) in *.
  assert (JS : tr_kind tr <> PERMISSIVE -> fst js x t d -> (tr_kind tr = IMPACT -> 0 <= tr_lie tr (phi sys S x d)) ->
     e_set S x t /\ 0 <= d <= h /\ d <= t_evolution tm x t /\ 0 <= tr_guard tr (phi sys S x d) /\ (tr_kind tr = IMPACT -> 0 <= tr_lie tr (phi sys S x d)) /\ (tr_kind tr <> PERMISSIVE -> kept S tr x d)).
  { intros Kp J Im.
    assert (Z : e_set S x t -> 0 <= d <= h -> d <= t_evolution tm x t -> tr_guard tr (phi sys S x d) = 0 ->
       e_set S x t /\ 0 <= d <= h /\ d <= t_evolution tm x t /\ 0 <= tr_guard tr (phi sys S x d) /\ (tr_kind tr = IMPACT -> 0 <= tr_lie tr (phi sys S x d)) /\ (tr_kind tr <> PERMISSIVE -> kept S tr x d)).
    { intros Sx Bd De G. split; [exact Sx | split; [exact Bd | split; [exact De | split; [rewrite G; lra | split; [exact Im |]]]]]. intros _. split; [intros _; rewrite G; lra |].
      intros O. destruct (over_stays (e_loc S) tr x It Kp d O ltac:(lra)) as [Q _]. unfold phi in G. lra. }
    unfold js in J. clear js Pd. destruct c as [gamma | | | | | | mu pos]; cbn [fst] in J.
    - destruct J as (Sx & -> & Ev). destruct (C x t Sx) as (G0 & Gz & _). pose proof (transverse_by S h tr gamma x t Hh It Kp Sx Ecl) as Gh.
      apply Z; auto. destruct (t_constant tm) eqn:Tc; [| exact Ev]. rewrite (proj1 (proj2 (proj2 (proj2 TS))) Tc x t Sx ltac:(lra)). exact Gh.
    - destruct J as [(Sx & Bd & De) G]. apply Z; assumption.
    - exfalso. destruct J as (-> & Sx). specialize (C x t Sx 0 ltac:(lra)). unfold du in C.
      assert (Ku : tr_kind tr = URGENT \/ tr_kind tr = IMPACT) by (destruct (tr_kind tr); try discriminate; auto; contradiction).
      pose proof (IG _ tr It Ku (phi sys S x 0)). lra.
    - destruct J as [(Sx & Bd & De) G]. apply Z; assumption.
    - exfalso. destruct J as [[(Sx & _) _] _]. apply (not_concave S h Hh tr x t It Kp Sx (C x t Sx)).
    - exfalso. destruct J as (_ & _ & F1). rewrite Rmult_0_r in F1. lra.
    - exfalso. destruct J as [[(Sx & _) _] _]. apply (not_concave S h Hh tr x t It Kp Sx (proj1 (C x t Sx))). }
  destruct (tr_kind tr) eqn:Kd; try discriminate.
  - destruct Pd as [(Sx & Bd & De) G]. split; [exact Sx | split; [exact Bd | split; [exact De | split; [exact G | split; [discriminate | contradiction]]]]].
  - apply JS; [discriminate | exact Pd | discriminate].
  - destruct Pd as [J Im]. apply JS; [discriminate | exact J | intros _; exact Im].
Qed.

(** ** The workload *)
Hypothesis NR : enable_reconditioning cfg = false.
Hypothesis SP : forall S P x t, In P (split_set o S) -> P x t -> e_set S x t.
Variable c : termination.
Notation T := (maximum_time c).
Variable init : enclosure L X.
Hypothesis T0 : forall x t, e_set init x t -> t <= T.

Definition flowing (l : L) (evs : list nat) (x : X) (t : R) : Prop :=
  good l x /\ exists x0 t0 d0, arrives sys init l evs x0 t0 /\ evolves sys l x0 d0 /\ x = flow sys l x0 d0 /\ t = t0 + d0.
Definition real (w : enclosure L X * bool) : Prop :=
  forall x t, e_set (fst w) x t ->
    if snd w then t <= T /\ arrives sys init (e_loc (fst w)) (e_events (fst w)) x t
    else t <= T -> flowing (e_loc (fst w)) (e_events (fst w)) x t \/ bad (e_loc (fst w)) x.
Definition real_entry (en : entry L X) : Prop := match en with Reach A => forall p, point_in p A -> visits sys init p | _ => True end.

Lemma flowing_good l evs x t : flowing l evs x t \/ bad l x -> good l x \/ bad l x.
Proof. intros [[G _] | B]; [left | right]; assumption. Qed.
Lemma flowing_visits l evs x t d : flowing l evs x t -> evolves sys l x d -> visits sys init (l, evs, flow sys l x d, t + d).
Proof.
  intros (_ & x0 & t0 & d0 & A & E & -> & ->) E'. rewrite (proj1 (proj2 FO)).
  replace (t0 + d0 + d) with (t0 + (d0 + d)) by ring. apply visits_flow; [exact A | apply evolves_compose; assumption].
Qed.

Lemma real_jumped S : real (S, true) -> forall e, In e (process_jumped_set sys o c S) -> match e with Record_ en => real_entry en | Append A j => real (A, j) end.
Proof.
  intros Re e Ie. unfold process_jumped_set in Ie. destruct (lower_above _ _); [destruct Ie |].
  destruct (terminated c (e_events S)); [destruct Ie as [<- | []]; exact I |].
  unfold process_starting_events in Ie. apply in_app_or in Ie. destruct Ie as [Ie | Ie].
  - apply in_concat in Ie. destruct Ie as (l & Il & Ie). apply in_map_iff in Il. destruct Il as (tr & <- & Itr). unfold starting_jump in Ie.
    set (jump := fun x t => apply_invariants o (transitions sys (e_loc S)) (e_set S) x t /\ 0 <= tr_guard tr x) in *.
    assert (K : (tr_kind tr = PERMISSIVE \/ tr_kind tr = URGENT) /\ In e [Record_ (Reach (with_set S jump)); Record_ (Intermediate (reset_points tr S jump)); Append (reset_points tr S jump) true]).
    { destruct (tr_kind tr); try contradiction; destruct (possibly_active o (e_set S) (tr_guard tr)); try contradiction; destruct (surely_empty o _); try contradiction; auto. }
    clear Ie. destruct K as [Kd [<- | [<- | [<- | []]]]].
    + intros [[[l' evs'] x'] t'] (<- & <- & [Q G]). apply (apply_invariants_holds sys o SO) in Q. destruct Q as [Q1 Q2]. destruct (Re x' t' Q1) as [_ Ar].
      eapply visits_active; eauto.
    + exact I.
    + intros y t (x & [Q G] & ->). apply (apply_invariants_holds sys o SO) in Q. destruct Q as [Q1 Q2]. destruct (Re x t Q1) as [Le Ar].
      cbn [fst snd reset_points e_loc e_events] in *. split; [exact Le |]. apply arrives_again with (l := e_loc S); auto.
  - set (fl := fold_left _ _ _) in Ie. destruct (surely_empty o (lift fl)); [destruct Ie |]. destruct Ie as [<- | []].
    intros x t Fx. cbn [fst snd with_set e_set e_loc e_events] in *. intros _. unfold fl in Fx.
    apply (flowable_holds sys o SO) in Fx; [| intros x' t' Q; apply (apply_invariants_holds sys o SO) in Q; apply Q].
    destruct Fx as [Q1 Q2]. apply (apply_invariants_holds sys o SO) in Q1. destruct Q1 as [Sx Q1]. destruct (Re x t Sx) as [_ Ar].
    destruct (classic (good (e_loc S) x)) as [G | G].
    + left. split; [exact G |]. exists x, t, 0. split; [exact Ar |]. rewrite (proj1 FO), Rplus_0_r. split; [| split; reflexivity].
      apply good_evolves; [exact G | rewrite (proj1 FO); exact G | lra].
    + right. apply not_all_ex_not in G. destruct G as [tr G]. apply imply_to_and in G. destruct G as [Itr G]. apply imply_to_and in G. destruct G as [Kd G].
      exists tr. split; [exact Itr | split; [exact Kd |]]. split; [lra |].
      destruct (tr_kind tr) eqn:Ek; try contradiction.
      * exfalso. apply G. apply Q1; assumption.
      * exfalso. apply G. apply Q2; [exact Itr | right; exact Ek].
      * exfalso. apply G. apply Q2; [exact Itr | left; exact Ek].
      * apply (IG _ tr Itr (or_intror Ek)).
Qed.

Lemma real_step S es : real (S, false) -> evolution_step sys o cfg T LOWER S = Some es ->
  forall e, In e es -> match e with Record_ en => real_entry en | Append A j => real (A, j) end.
Proof.
  intros Re H e Ie. destruct (evolution_step_cases sys o FO SO cfg T LOWER S es H) as [C | (h & cs0 & tm & cs & F)].
  { destruct (C e Ie) as (P & -> & [[_ E] | IP]); [congruence |]. intros x t Px. cbn [fst snd with_set e_set e_loc e_events] in *. apply (Re x t). apply (SP S P x t IP Px). }
  pose proof F as [_ Hh _ Et CS TS _ ST].
  assert (A0 : forall tc, In tc cs0 -> In (fst tc) (transitions sys (e_loc S))) by (intros tc Ic; apply (CS tc Ic)).
  destruct (estimate_more S h Hh cfg T cs0 tm cs A0 Et) as [EN _].
  assert (RR : forall P x t d, from_reach sys o S h LOWER tm cs P -> P x t d -> t + d <= T -> visits sys init (e_loc S, e_events S, phi sys S x d, t + d)).
  { intros P x t d FR Pd Le. destruct (from_reach_sub sys o S h LOWER tm cs P x t d FR Pd) as (Sx & Bd & De).
    specialize (Re x t Sx ltac:(lra)). cbn [fst snd] in Re.
    destruct (kept_evolves T S es h cs0 tm cs x t d F Sx ltac:(lra) (flowing_good _ _ _ _ Re) Bd De) as [G E].
    - destruct FR as (cap & reach & Ea & IP). intros tc Itc Bl.
      eapply (apply_guards_post sys o S LOWER x t d (fun tc => kept S (fst tc) x d)); [| exact Ea | |].
      + intros [tr k] Ik P0 Hd. apply filter_In in Ik. destruct Ik as [Ik Bk]. cbn [fst snd] in *.
        apply (guard_set_kept S h Hh tr k P0 x t d); auto; [apply (CS _ (proj1 TS _ Ik)) | apply blocking_not_permissive; exact Bk].
      + exists P. split; assumption.
      + apply filter_In. split; assumption.
    - destruct Re as [Fl | (tr & Itr & Kd & O)]; [apply flowing_visits; assumption |]. exfalso. destruct O. specialize (G tr Itr Kd). lra. }
  destruct (step_origin sys o S h LOWER tm T cs es ST e Ie) as [P Ef FE | P Ef FR | P Ef FE | P Ef FE Bd | P Ef FR | P Ef FR | tc J FJ]; try exact I.
  - intros p Hp. destruct p as [[[l' evs'] y] s]. destruct Hp as (<- & <- & (x & t & d & Pd & -> & ->)). apply (RR P x t d FR Pd).
    destruct (from_reach_sub sys o S h LOWER tm cs P x t d FR Pd) as (Sx & _ & De). rewrite (proj1 (proj2 (proj2 TS)) Ef x t Sx) in De. lra.
  - intros y s (x & t & d & Pd & -> & ->). destruct (FE x t d Pd) as [Sx ->]. cbn [fst snd enclosure_of with_set e_loc e_events]. intros Le.
    pose proof (EN Ef x t Sx) as Bd. specialize (Re x t Sx ltac:(lra)). cbn [fst snd] in Re.
    destruct (good_or_bad_next (e_loc S) x (t_evolution tm x t) (flowing_good _ _ _ _ Re) ltac:(lra)) as [G | B]; [| right; exact B].
    destruct Re as [Fl | (tr & Itr & Kd & O)].
    + left. split; [exact G |]. pose proof Fl as (G0 & x0 & t0 & d0 & Ar & Ev & -> & ->).
      exists x0, t0, (d0 + t_evolution tm (flow sys (e_loc S) x0 d0) (t0 + d0)). split; [exact Ar |]. split; [| split].
      * apply evolves_compose; [exact Ev |]. apply good_evolves; [exact G0 | exact G | lra].
      * unfold phi. rewrite (proj1 (proj2 FO)). reflexivity.
      * ring.
    + right. exists tr. split; [exact Itr | split; [exact Kd |]]. apply over_stays; auto. lra.
  - intros p Hp. destruct p as [[[l' evs'] y] s]. destruct Hp as (<- & <- & (x & t & d & [Pd Le] & -> & ->)). apply (RR P x t d FR Pd Le).
  - intros y s (x & t & d & Jd & -> & ->). cbn [fst snd reset_enclosure e_loc e_events].
    destruct (from_jump_sub sys o S h LOWER tm T cs tc J x t d FJ Jd) as [Pd By].
    assert (Le : t + d <= T) by (destruct By as [Sb | Le]; [apply (surely_by_sound sys o SO T _ x t d Sb Pd) | exact Le]).
    split; [exact Le |]. destruct FJ as (Itc & Act & P' & Q1 & Q2 & cap & sets & Ea & IJ).
    destruct (own_kept S h T cs0 tm cs es tc x t d F Itc Act (or_intror I) Le Pd) as (Sx & Bd & De & Gd & Im & Own).
    specialize (Re x t Sx ltac:(lra)). cbn [fst snd] in Re.
    destruct (kept_evolves T S es h cs0 tm cs x t d F Sx ltac:(lra) (flowing_good _ _ _ _ Re) Bd De) as [G E].
    + intros tc' Itc' Bl. destruct (Nat.eq_dec (tr_event (fst tc')) (tr_event (fst tc))) as [Ee | Ne].
      * assert (Eq : fst tc' = fst tc) by (apply (events_inj (e_loc S)); [apply (CS _ (proj1 TS _ Itc')) | apply (CS _ (proj1 TS _ Itc)) | exact Ee]).
        rewrite Eq. apply Own. rewrite <- Eq. apply blocking_not_permissive, Bl.
      * eapply (apply_guards_post sys o S LOWER x t d (fun tc => kept S (fst tc) x d)); [| exact Ea | exists J; split; [exact IJ | exact Jd] |].
        -- intros [tr k] Ik P0 Hd. apply filter_In in Ik. destruct Ik as [Ik _]. apply filter_In in Ik. destruct Ik as [Ik Bk]. cbn [fst snd] in *.
           apply (guard_set_kept S h Hh tr k P0 x t d); auto; [apply (CS _ (proj1 TS _ Ik)) | apply blocking_not_permissive; exact Bk].
        -- apply filter_In. split; [apply filter_In; split; assumption |]. apply Nat.eqb_neq in Ne. rewrite Ne. reflexivity.
    + destruct Re as [(_ & x0 & t0 & d0 & Ar & Ev & -> & ->) | (tr & Itr & Kd & O)]; [| exfalso; destruct O; specialize (G tr Itr Kd); lra].
      unfold phi in *. rewrite (proj1 (proj2 FO)) in *. replace (t0 + d0 + d) with (t0 + (d0 + d)) by ring.
      apply arrives_flow with (l := e_loc S); auto.
      * apply evolves_compose; assumption.
      * apply (CS _ (proj1 TS _ Itc)).
      * unfold jumps. destruct (tr_kind (fst tc)); try discriminate; auto.
Qed.

Lemma orbit_real lg : orbit sys o cfg c LOWER init lg -> forall R p, In (Reach R) lg -> point_in p R -> visits sys init p.
Proof.
  intros H R p IR Hp.
  assert (Q : real_entry (Reach R)); [| exact (Q p Hp)].
  apply (orbit_invariant sys o cfg c LOWER real real_entry) with (init := init) (lg := lg); auto.
  - intros [S j] es Re Hp' e Ie. unfold process in Hp'. cbn [fst snd] in Hp'. destruct j.
    + injection Hp' as <-. apply (real_jumped S Re e Ie).
    + apply (real_step S es Re Hp' e Ie).
  - intros x t Sx. cbn [fst snd] in *. split; [apply (T0 x t Sx) | apply arrives_init, Sx].
Qed.
End LOW.
