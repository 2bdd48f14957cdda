(** Proofs about SolverBase::zero, solve_all, solve and fixed_point. *)
From Coq Require Import Reals List Lra Lia Arith Bool FunctionalExtensionality.
From Verif Require Import Solver_Model Solver_Spec Newton_Math Solver_LU_Proofs Solver_Proofs.
Import ListNotations.
Local Open Scope R_scope.

Section LOOP.
  Variables (P : ops) (fin : num P -> option (R * R)) (e : R) (S : sound_ops P fin e).
  Notation enc := (enc P fin). Notation menc := (menc P fin). Notation venc := (venc P fin).
  Variables (n : nat) (F : fn P) (f : vec -> vec) (D : vec -> mat).
  Hypotheses (HM : models P fin n F f D) (HS : smooth n f D).

  (** The widened box from which the last step of [zero] starts. *)
  Definition widened (r : nat -> num P) : nat -> num P := fun i => nadd P (r i) (nwiden P n r).
  (** Half-width below the maximum error. *)
  Definition precise (x : nat -> num P) : Prop := forall i, (i < n)%nat -> exists l u, fin (x i) = Some (l, u) /\ (u - l) / 2 < e.

  Lemma vsmall_spec : forall x, vsmall P n x = true -> precise x.
  Proof using S. intros x H i Li. unfold vsmall in H. rewrite forallb_forall in H. apply (s_small _ _ _ S). apply H. apply in_seq. lia. Qed.
  Lemma vconsistent_false : forall x y v, vconsistent P n x y = false -> venc n x v -> venc n y v -> False.
  Proof using S.
    intros x y v H Hx Hy. assert (T : vconsistent P n x y = true); [|congruence]. unfold vconsistent. apply forallb_forall. intros i Hi. apply in_seq in Hi.
    destruct (nconsistent P (x i) (y i)) eqn:E; [reflexivity|]. exfalso. apply (s_consistent _ _ _ S (x i) (y i) (v i) E); [apply Hx|apply Hy]; lia.
  Qed.
  Lemma vconsistent_true : forall x y, vconsistent P n x y = true -> (exists v, venc n x v) -> (exists v, venc n y v) ->
    exists v, venc n x v /\ venc n y v.
  Proof using S.
    intros x y H [u Hu] [v Hv]. unfold vconsistent in H. rewrite forallb_forall in H.
    destruct (finite_choice_col n (fun i a => enc (x i) (a O) /\ enc (y i) (a O))) as [a Ha].
    - intros i Li. destruct (s_overlap _ _ _ S (x i) (y i) (u i) (v i)) as [w Hw]; [apply H; apply in_seq; lia|apply Hu; exact Li|apply Hv; exact Li|]. exists (fun _ => w). exact Hw.
    - exists (fun i => a i O). split; intros i Li; apply Ha; exact Li.
  Qed.
  Lemma vzero_enc : forall v, is_zero n f v -> venc n (vzero P) (f v).
  Proof using S. intros v Z i Li. rewrite (Z i Li). apply (s_0 _ _ _ S). Qed.

  Lemma zero_end_sound : forall s r, (exists v, venc n r v) ->
    match zero_end P n s F r with
    | Found _ nr => (exists x, is_zero n f x /\ venc n nr x /\ venc n (widened r) x) /\ (forall z, is_zero n f z -> venc n r z -> venc n nr z)
    | NoSolution _ => forall z, is_zero n f z -> ~ venc n r z
    | _ => True
    end.
  Proof using S HM HS.
    intros s r Hr. unfold zero_end. destruct (vconsistent P n (f_ev P F r) (vzero P)) eqn:E; cbn [negb].
    - destruct (step P s n F _) as [nr|] eqn:E1; [|exact I]. destruct (vrefines P n nr _) eqn:E2; [|exact I].
      assert (W : forall z, venc n r z -> venc n (store_v P n (fun i => nadd P (r i) (nwiden P n r))) z).
      { intros z Hz. apply store_venc. intros i Li. replace (z i) with (z i + 0) by ring. apply (s_add _ _ _ S); [apply Hz; exact Li|apply (s_widen _ _ _ S)]. }
      assert (IW : exists v, venc n (store_v P n (fun i => nadd P (r i) (nwiden P n r))) v) by (destruct Hr as [v Hv]; exists v; apply W; exact Hv).
      split.
      + destruct (step_exists P fin e S n F f D HM HS s _ nr E1 IW E2) as [x [Hx Zx]]. exists x. split; [exact Zx|]. split; [eapply step_zero; eauto|].
        intros i Li. specialize (Hx i Li). rewrite store_v_eq in Hx by exact Li. exact Hx.
      + intros z Zz Hz. eapply step_zero; eauto.
    - intros z Zz Hz. apply (vconsistent_false _ _ (f z) E); [apply HM; exact Hz|apply vzero_enc; exact Zz].
  Qed.

  Lemma zero_loop_sound : forall s steps has r, (exists v, venc n r v) -> (has = true -> exists x, is_zero n f x /\ venc n r x) ->
    match zero_loop P n s F steps has r with
    | Found _ nr =>
        ((exists x, is_zero n f x /\ venc n nr x /\ venc n r x) /\ precise nr \/
         (exists r', (forall v, venc n r' v -> venc n r v) /\ exists x, is_zero n f x /\ venc n nr x /\ venc n (widened r') x)) /\
        (forall z, is_zero n f z -> venc n r z -> venc n nr z)
    | NoSolution _ => forall z, is_zero n f z -> ~ venc n r z
    | _ => True
    end.
  Proof using S HM HS.
    intros s steps. induction steps as [|k IH]; intros has r Hr Hh; cbn [zero_loop].
    - pose proof (zero_end_sound s r Hr) as Q. destruct (zero_end P n s F r); auto. destruct Q as [Q1 Q2]. split; [|exact Q2]. right. exists r. auto.
    - destruct (step P s n F r) as [nr|] eqn:E; [|exact I].
      assert (Hh' : has || vrefines P n nr r = true -> exists x, is_zero n f x /\ venc n r x).
      { intros H. apply orb_prop in H. destruct H as [H|H]; [apply Hh; exact H|]. destruct (step_exists P fin e S n F f D HM HS s r nr E Hr H) as [x [H1 H2]]. exists x. auto. }
      destruct (has || vrefines P n nr r) eqn:EH; cbn [andb].
      + destruct (vsmall P n nr) eqn:ES.
        * split; [left|intros; eapply step_zero; eauto]. split; [|apply vsmall_spec; exact ES]. destruct (Hh' eq_refl) as [x [Zx Hx]]. exists x. split; [exact Zx|]. split; [eapply step_zero; eauto|exact Hx].
        * destruct (vconsistent P n nr r) eqn:EC; cbn [negb].
          2:{ intros z Zz Hz. apply (vconsistent_false nr r z EC); [eapply step_zero; eauto|exact Hz]. }
          set (r1 := store_v P n (fun i => nrefinement P (nr i) (r i))).
          assert (R1 : forall v, venc n r1 v <-> venc n nr v /\ venc n r v).
          { intros v. split.
            - intros Hv. split; intros i Li; specialize (Hv i Li); unfold r1 in Hv; rewrite store_v_eq in Hv by exact Li; apply (s_refinement _ _ _ S) in Hv; apply Hv.
            - intros [H1 H2]. apply store_venc. intros i Li. apply (s_refinement _ _ _ S). split; [apply H1|apply H2]; exact Li. }
          assert (I1 : exists v, venc n r1 v).
          { destruct (vconsistent_true nr r EC (step_inhabited P fin e S n F f D HM HS s r nr E Hr) Hr) as [v Hv]. exists v. apply R1. exact Hv. }
          specialize (IH true r1 I1). destruct (zero_loop P n s F k true r1) as [nr'| | |] eqn:EL; auto.
          -- destruct IH as [Q1 Q2]. { intros _. destruct (Hh' eq_refl) as [x [Zx Hx]]. exists x. split; [exact Zx|]. apply R1. split; [eapply step_zero; eauto|exact Hx]. }
             split; [|intros z Zz Hz; apply Q2; [exact Zz|]; apply R1; split; [eapply step_zero; eauto|exact Hz]].
             destruct Q1 as [[[x [Zx [H1 H2]]] Q1]|[r' [H1 H2]]].
             ++ left. split; [|exact Q1]. exists x. split; [exact Zx|]. split; [exact H1|]. apply R1 in H2. apply H2.
             ++ right. exists r'. split; [|exact H2]. intros v Hv. apply H1 in Hv. apply R1 in Hv. apply Hv.
          -- intros z Zz Hz. assert (IH' := fun h => IH h z Zz). apply IH'; [|apply R1; split; [eapply step_zero; eauto|exact Hz]].
             intros _. destruct (Hh' eq_refl) as [x [Zx Hx]]. exists x. split; [exact Zx|]. apply R1. split; [eapply step_zero; eauto|exact Hx].
      + destruct (vconsistent P n nr r) eqn:EC; cbn [negb].
        2:{ intros z Zz Hz. apply (vconsistent_false nr r z EC); [eapply step_zero; eauto|exact Hz]. }
        set (r1 := store_v P n (fun i => nrefinement P (nr i) (r i))).
        assert (R1 : forall v, venc n r1 v <-> venc n nr v /\ venc n r v).
        { intros v. split.
          - intros Hv. split; intros i Li; specialize (Hv i Li); unfold r1 in Hv; rewrite store_v_eq in Hv by exact Li; apply (s_refinement _ _ _ S) in Hv; apply Hv.
          - intros [H1 H2]. apply store_venc. intros i Li. apply (s_refinement _ _ _ S). split; [apply H1|apply H2]; exact Li. }
        assert (I1 : exists v, venc n r1 v).
        { destruct (vconsistent_true nr r EC (step_inhabited P fin e S n F f D HM HS s r nr E Hr) Hr) as [v Hv]. exists v. apply R1. exact Hv. }
        specialize (IH false r1 I1). destruct (zero_loop P n s F k false r1) as [nr'| | |] eqn:EL; auto.
        * destruct IH as [Q1 Q2]; [discriminate|].
          split; [|intros z Zz Hz; apply Q2; [exact Zz|]; apply R1; split; [eapply step_zero; eauto|exact Hz]].
          destruct Q1 as [[[x [Zx [H1 H2]]] Q1]|[r' [H1 H2]]].
          -- left. split; [|exact Q1]. exists x. split; [exact Zx|]. split; [exact H1|]. apply R1 in H2. apply H2.
          -- right. exists r'. split; [|exact H2]. intros v Hv. apply H1 in Hv. apply R1 in Hv. apply Hv.
        * intros z Zz Hz. apply (IH (fun h => False_ind _ (Bool.diff_false_true h)) z Zz). apply R1. split; [eapply step_zero; eauto|exact Hz].
  Qed.

  (** Uniqueness in the interval Newton method: all zeros of the box lie in a box over which
      the Jacobian is invertible, namely that of the last step taken. *)
  Lemma newton_step_unique : forall r nr x y, newton_step P n F r = Some nr -> venc n r x -> venc n r y -> is_zero n f x -> is_zero n f y -> veq n x y.
  Proof using S HM HS.
    intros r nr x y H. unfold newton_step in H. destruct (lu_inverse P n (f_jac P F r)) as [Ai|] eqn:E; [|discriminate]. intros. eapply jac_unique; eauto.
  Qed.
  Lemma zero_newton_unique : forall steps has r nr x y, zero_loop P n Newton F steps has r = Found P nr ->
    venc n r x -> venc n r y -> is_zero n f x -> is_zero n f y -> veq n x y.
  Proof using S HM HS.
    intros steps. destruct steps as [|k]; intros has r nr x y H Hx Hy Zx Zy; cbn [zero_loop] in H.
    - unfold zero_end in H. destruct (negb _); [discriminate|]. cbn [step] in H. destruct (newton_step P n F _) as [nr'|] eqn:E; [|discriminate].
      eapply newton_step_unique; [exact E| | |exact Zx|exact Zy].
      + apply store_venc. intros i Li. replace (x i) with (x i + 0) by ring. apply (s_add _ _ _ S); [apply Hx; exact Li|apply (s_widen _ _ _ S)].
      + apply store_venc. intros i Li. replace (y i) with (y i + 0) by ring. apply (s_add _ _ _ S); [apply Hy; exact Li|apply (s_widen _ _ _ S)].
    - cbn [step] in H. destruct (newton_step P n F r) as [nr'|] eqn:E; [|discriminate]. eapply newton_step_unique; eauto.
  Qed.

  (** ** solve_all *)
  Lemma set_insert_incl : forall y s x, In x (set_insert P n y s) -> In x s \/ x = y.
  Proof using. intros y s x H. unfold set_insert in H. destruct (existsb _ s); [auto|]. apply in_app_or in H. destruct H as [H|[H|[]]]; auto. Qed.
  Lemma set_adjoin_incl : forall t s x, In x (set_adjoin P n s t) -> In x s \/ In x t.
  Proof using.
    induction t as [|y t IH]; intros s x H; cbn in H; [auto|]. apply IH in H. destruct H as [H|H]; [|right; right; exact H].
    apply set_insert_incl in H. destruct H as [H| ->]; [auto|]. right. left. reflexivity.
  Qed.
  Lemma set_insert_grow : forall y s x, In x s -> In x (set_insert P n y s).
  Proof using. intros y s x H. unfold set_insert. destruct (existsb _ s); [exact H|]. apply in_or_app. auto. Qed.
  Lemma set_adjoin_grow : forall t s x, In x s -> In x (set_adjoin P n s t).
  Proof using. induction t as [|y t IH]; intros s x H; cbn; [exact H|]. apply IH. apply set_insert_grow. exact H. Qed.

  Notation overlap := (overlap P fin n). Notation linked := (linked P fin n).
  Lemma vless_false : forall c i x y, vless P c i x y = false -> vless P c i y x = false ->
    forall j, (i <= j < i + c)%nat -> nlt P (x j) (y j) = false /\ nlt P (y j) (x j) = false.
  Proof using.
    induction c as [|c IH]; intros i x y H1 H2 j L; [lia|]. cbn in H1, H2.
    destruct (nlt P (x i) (y i)) eqn:E1; [discriminate|]. destruct (nlt P (y i) (x i)) eqn:E2; [discriminate|].
    destruct (Nat.eq_dec j i) as [->|N]; [auto|]. apply (IH (Datatypes.S i)); [assumption|assumption|lia].
  Qed.
  Lemma equivalent_overlap : forall x y, equivalent P n x y = true -> (exists v, venc n x v) -> (exists v, venc n y v) -> overlap x y.
  Proof using S.
    intros x y H [u Hu] [v Hv]. unfold equivalent in H. apply andb_prop in H. destruct H as [H1 H2]. apply negb_true_iff in H1. apply negb_true_iff in H2.
    destruct (finite_choice_col n (fun i a => enc (x i) (a O) /\ enc (y i) (a O))) as [a Ha].
    - intros i Li. destruct (vless_false n 0 x y H1 H2 i) as [L1 L2]; [lia|]. destruct (s_lt _ _ _ S (x i) (y i) (u i) (v i) L1 L2 (Hu i Li) (Hv i Li)) as [w Hw]. exists (fun _ => w). exact Hw.
    - exists (fun i => a i O). split; intros i Li; apply Ha; exact Li.
  Qed.

  Lemma linked_trans : forall x y z, linked x y -> linked y z -> linked x z.
  Proof using. intros x y z H. induction H; intros Hz; [exact Hz|]. eapply linked_step; [exact H|]. auto. Qed.

  Lemma set_insert_linked : forall y s, (exists v, venc n y v) -> (forall x, In x s -> exists v, venc n x v) -> exists x, In x (set_insert P n y s) /\ linked y x.
  Proof using S.
    intros y s Hy Hs. unfold set_insert. destruct (existsb (equivalent P n y) s) eqn:E.
    - apply existsb_exists in E. destruct E as [x [Hx E]]. exists x. split; [exact Hx|]. apply (linked_step P fin n y x x); [apply equivalent_overlap; [exact E|exact Hy|apply Hs; exact Hx]|apply linked_refl].
    - exists y. split; [apply in_or_app; right; left; reflexivity|apply linked_refl].
  Qed.
  Lemma set_adjoin_linked : forall t s y, (forall x, In x s \/ In x t -> exists v, venc n x v) -> In y s \/ In y t -> exists x, In x (set_adjoin P n s t) /\ linked y x.
  Proof using S.
    induction t as [|a t IH]; intros s y H Hy; cbn.
    - destruct Hy as [Hy|[]]. exists y. split; [exact Hy|apply linked_refl].
    - assert (H' : forall x, In x (set_insert P n a s) \/ In x t -> exists v, venc n x v).
      { intros x [Hx|Hx]; [|apply H; right; right; exact Hx]. apply set_insert_incl in Hx. destruct Hx as [Hx| ->]; [apply H; auto|apply H; right; left; reflexivity]. }
      destruct Hy as [Hy|[<-|Hy]].
      + apply IH; [exact H'|]. left. apply set_insert_grow. exact Hy.
      + destruct (set_insert_linked a s) as [x [Hx Lx]]; [apply H; right; left; reflexivity|intros x Hx; apply H; auto|].
        destruct (IH (set_insert P n a s) x H' (or_introl Hx)) as [z [Hz Lz]]. exists z. split; [exact Hz|]. eapply linked_trans; eassumption.
      + apply IH; [exact H'|]. right. exact Hy.
  Qed.

  Lemma vinconsistent_true : forall x y v, vinconsistent P n x y = true -> venc n x v -> venc n y v -> False.
  Proof using S.
    intros x y v H Hx Hy. unfold vinconsistent in H. apply existsb_exists in H. destruct H as [i [Hi H]]. apply in_seq in Hi.
    apply (s_inconsistent _ _ _ S (x i) (y i) (v i) H); [apply Hx|apply Hy]; lia.
  Qed.

  Lemma solve_all_sound : forall fuel s steps bx ys g, (exists v, venc n bx v) -> solve_all P fuel n s F steps bx = All P ys g ->
    (forall y, In y ys -> exists x, is_zero n f x /\ venc n y x) /\
    (g = false -> forall z, is_zero n f z -> venc n bx z -> exists y' y, venc n y' z /\ linked y' y /\ In y ys).
  Proof using S HM HS.
    induction fuel as [|fuel IH]; intros s steps bx ys g Hb H; [discriminate|]. cbn [solve_all] in H.
    destruct (vinconsistent P n (f_ev P F bx) (vzero P)) eqn:EI.
    { injection H as <- <-. split; [intros y []|]. intros _ z Zz Hz. exfalso. apply (vinconsistent_true _ _ (f z) EI); [apply HM; exact Hz|apply vzero_enc; exact Zz]. }
    set (inve := match lu_inverse P n (f_jac P F bx) with Some _ => true | None => false end) in *.
    assert (SPL : forall o, o = (if vsmall P n bx then if inve then All P [] true else match lu_inverse P n (fun i j => nmid P (f_jac P F bx i j)) with Some _ => All P [] true | None => AllSingular P end
       else let (b1, b2) := nsplit P n bx in
            match solve_all P fuel n s F steps b1 with
            | All _ y1 g1 => match solve_all P fuel n s F steps b2 with All _ y2 g2 => All P (set_adjoin P n (set_adjoin P n [] y1) y2) (g1 || g2) | e => e end
            | e => e end) -> o = All P ys g ->
       (forall y, In y ys -> exists x, is_zero n f x /\ venc n y x) /\
       (g = false -> forall z, is_zero n f z -> venc n bx z -> exists y' y, venc n y' z /\ linked y' y /\ In y ys)).
    { intros o -> Ho. destruct (vsmall P n bx).
      - assert (Q : All P [] true = All P ys g) by (destruct inve; [exact Ho|destruct (lu_inverse P n _); [exact Ho|discriminate]]). injection Q as <- <-.
        split; [intros y []|discriminate].
      - destruct Hb as [v Hv]. pose proof (s_split _ _ _ S n bx v Hv) as SP. destruct (nsplit P n bx) as [b1 b2] eqn:EB. cbn [fst snd] in SP. destruct SP as [_ [I1 I2]].
        destruct (solve_all P fuel n s F steps b1) as [y1 g1| |] eqn:E1; try discriminate.
        destruct (solve_all P fuel n s F steps b2) as [y2 g2| |] eqn:E2; try discriminate. injection Ho as <- <-.
        destruct (IH s steps b1 y1 g1 I1 E1) as [A1 B1]. destruct (IH s steps b2 y2 g2 I2 E2) as [A2 B2].
        assert (IN : forall y, In y (set_adjoin P n [] y1) -> In y y1) by (intros y Hy; apply set_adjoin_incl in Hy; destruct Hy as [[]|Hy]; exact Hy).
        assert (INH1 : forall x, In x [] \/ In x y1 -> exists w, venc n x w) by (intros x [[]|Hx]; destruct (A1 x Hx) as [w [_ Hw]]; exists w; exact Hw).
        assert (INH2 : forall x, In x (set_adjoin P n [] y1) \/ In x y2 -> exists w, venc n x w).
        { intros x [Hx|Hx]; [apply INH1; right; apply IN; exact Hx|destruct (A2 x Hx) as [w [_ Hw]]; exists w; exact Hw]. }
        split.
        + intros y Hy. apply set_adjoin_incl in Hy. destruct Hy as [Hy|Hy]; [apply A1, IN; exact Hy|apply A2; exact Hy].
        + intros G z Zz Hz. apply orb_false_elim in G. destruct G as [G1 G2].
          pose proof (s_split _ _ _ S n bx z Hz) as SPz. rewrite EB in SPz. cbn [fst snd] in SPz. destruct SPz as [[Hz1|Hz2] _].
          * destruct (B1 G1 z Zz Hz1) as [y' [y [H1 [H2 H3]]]]. destruct (set_adjoin_linked y1 [] y INH1 (or_intror H3)) as [x [Hx Lx]].
            destruct (set_adjoin_linked y2 (set_adjoin P n [] y1) x INH2 (or_introl Hx)) as [x2 [Hx2 Lx2]].
            exists y', x2. split; [exact H1|]. split; [|exact Hx2]. eapply linked_trans; [exact H2|]. eapply linked_trans; eassumption.
          * destruct (B2 G2 z Zz Hz2) as [y' [y [H1 [H2 H3]]]]. destruct (set_adjoin_linked y2 (set_adjoin P n [] y1) y INH2 (or_intror H3)) as [x2 [Hx2 Lx2]].
            exists y', x2. split; [exact H1|]. split; [|exact Hx2]. eapply linked_trans; eassumption. }
    destruct inve.
    - pose proof (zero_loop_sound s steps false bx Hb) as ZL. unfold zero in H. destruct (zero_loop P n s F steps false bx) as [y| | |] eqn:EZ.
      + injection H as <- <-. destruct ZL as [Q1 Q2]; [discriminate|]. split.
        * intros y' [<-|[]]. destruct Q1 as [[[x [Zx [Hx _]]] _]|[r' [_ [x [Zx [Hx _]]]]]]; exists x; auto.
        * intros _ z Zz Hz. exists y, y. split; [apply Q2; assumption|]. split; [apply linked_refl|left; reflexivity].
      + injection H as <- <-. split; [intros y []|]. intros _ z Zz Hz. exfalso. apply (ZL (fun h => False_ind _ (Bool.diff_false_true h)) z Zz Hz).
      + eapply SPL; [reflexivity|exact H].
      + discriminate.
    - eapply SPL; [reflexivity|exact H].
  Qed.
End LOOP.

Section FIX.
  Variables (P : ops) (fin : num P -> option (R * R)) (e : R) (S : sound_ops P fin e) (n : nat).
  Lemma fixed_models : forall F f D, models P fin n F f D -> models P fin n (fn_minus_id P F) (fun x i => f x i - x i) (fun x i j => D x i j - delta i j).
  Proof using S.
    intros F f D H x v Hx. destruct (H x v Hx) as [H1 H2]. split.
    - intros i Li. cbn. apply (s_sub _ _ _ S); [apply H1|apply Hx]; exact Li.
    - intros i j Li Lj. cbn. apply (s_sub _ _ _ S); [apply H2; assumption|]. apply (nid_enc P fin e S n); assumption.
  Qed.
  Lemma fixed_smooth : forall f D, smooth n f D -> smooth n (fun x i => f x i - x i) (fun x i j => D x i j - delta i j).
  Proof using.
    intros f D [H1 H2]. split.
    - intros i y x t Li Ht.
      replace (sum n (fun j => (D (seg y x t) i j - delta i j) * (x j - y j))) with (sum n (fun j => D (seg y x t) i j * (x j - y j)) - (x i - y i)).
      + apply (derivable_pt_lim_minus (fun s => f (seg y x s) i) (fun s => seg y x s i)); [apply H1; assumption|].
        unfold seg. assert (Q : derivable_pt_lim (fun s => y i + s * (x i - y i)) t (0 + (1 * (x i - y i) + t * 0))).
        { apply (derivable_pt_lim_plus (fun _ => y i) (fun s => s * (x i - y i))); [apply derivable_pt_lim_const|].
          apply (derivable_pt_lim_mult (fun s => s) (fun _ => x i - y i)); [apply derivable_pt_lim_id|apply derivable_pt_lim_const]. }
        replace (0 + (1 * (x i - y i) + t * 0)) with (x i - y i) in Q by ring. exact Q.
      + rewrite <- (delta_sum n (fun j => x j - y j) i Li), <- sum_minus. apply sum_ext. intros; ring.
    - intros xl xu. destruct (H2 xl xu) as [L HL]. exists (L + 1). intros v Hv i j Li Lj. specialize (HL v Hv i j Li Lj).
      unfold Rminus. eapply Rle_trans; [apply Rabs_triang|]. rewrite Rabs_Ropp. apply Rplus_le_compat; [exact HL|]. unfold delta. destruct (Nat.eqb i j); [rewrite Rabs_R1|rewrite Rabs_R0]; lra.
  Qed.
End FIX.
