From Coq Require Import List Bool Arith ZArith QArith Reals Lia Lra.
From Verif Require Import LRU_Model Logical_Model Word_Model Tree_Model Tree_Spec Tree_Proofs
  Cell_Model Cell_Spec Cell_Proofs Paving_Model Paving_Spec Paving_Proofs Approx_Model Approx_Spec.
Import ListNotations.
Local Open Scope nat_scope.

Lemma closed_halve d g i x b y : monotone g -> ordered d b -> in_closed_box d g (halve d i x b) y -> in_closed_box d g b y.
Proof.
  intros M O H k Hk. specialize (H k Hk). specialize (O k Hk). unfold halve in H.
  destruct (k =? i mod d); [|auto]. destruct (b k) as [l u]; simpl in *.
  pose proof (mid_lo _ _ O) as A. pose proof (mid_hi _ _ O) as B.
  apply Qlt_le_weak in A, B. apply (M k) in A, B. destruct x; simpl in *; lra.
Qed.
Lemma closed_loop d g w : forall i b y, monotone g -> ordered d b -> in_closed_box d g (box_loop d i w b) y -> in_closed_box d g b y.
Proof.
  induction w; simpl; intros; auto. eapply closed_halve; eauto. eapply IHw; eauto using halve_ordered.
Qed.
Lemma closed_app d g h v w x : monotone g -> in_closed_cell d g (node_cell h (v ++ w)) x -> in_closed_cell d g (node_cell h v) x.
Proof.
  unfold in_closed_cell, cell_box, compute_lattice_box; simpl. rewrite box_loop_app. intros M H.
  eapply closed_loop; [exact M| |exact H]. apply box_loop_ordered, primary_box_ordered.
Qed.
Lemma half_open_closed d g b x : in_box d g b x -> in_closed_box d g b x.
Proof. intros H k Hk. specialize (H k Hk). lra. Qed.

(** * One node *)
Section Outer.
  Context (separated : test) (cov : option test) (h : nat).
  Lemma outer_wf n : forall path t, wf t -> wf (outer_node n h path separated cov t).
  Proof.
    induction n as [|n IH]; intros path t W; cbn [outer_node];
      (destruct (definitely _); [auto|]); (destruct (holds cov _); [simpl; auto|]); (destruct (is_enabled t); [auto|]).
    - destruct (is_leaf t); simpl; auto.
    - destruct (split_nd t) as (m & l & r & E). rewrite E. pose proof (wf_children _ _ _ _ W E) as (-> & Wl & Wr).
      simpl. auto.
  Qed.
  Lemma outer_keeps n : forall path t s, covers t s -> covers (outer_node n h path separated cov t) s.
  Proof.
    induction n as [|n IH]; intros path t s C; cbn [outer_node];
      (destruct (definitely _); [auto|]); (destruct (holds cov _); [simpl; auto|]); (destruct (is_enabled t); [auto|]).
    - destruct (is_leaf t); simpl; auto.
    - destruct (split_nd t) as (m & l & r & E). rewrite E. apply (split_cases _ _ _ _ s E) in C.
      simpl. destruct (s 0); auto.
  Qed.
  (** Why a covered address is covered. *)
  Lemma outer_added n : forall path t s, wf t -> covers (outer_node n h path separated cov t) s -> covers t s \/
    exists w, in_cell w s /\ definitely (separated (node_cell h (path ++ w))) = false /\
      (forall s', in_cell w s' -> covers (outer_node n h path separated cov t) s') /\
      (length w = n \/ holds cov (node_cell h (path ++ w)) = true).
  Proof.
    induction n as [|n IH]; intros path t s W C; cbn [outer_node] in *;
      (destruct (definitely (separated (node_cell h path))) eqn:E1; [auto|]);
      (destruct (holds cov (node_cell h path)) eqn:E2;
        [right; exists []; rewrite app_nil_r; split; [apply in_cell_nil|]; split; [auto|]; split; [intros; reflexivity|auto]|]);
      (destruct (is_enabled t) eqn:E3; [auto|]).
    - right. exists []. rewrite app_nil_r. split; [apply in_cell_nil|]. split; auto. split; auto.
      intros s' _. destruct (is_leaf t); reflexivity.
    - destruct (split_nd t) as (m & l & r & E). rewrite E in *. pose proof (wf_children _ _ _ _ W E) as (-> & Wl & Wr).
      rewrite (split_cases _ _ _ _ s E). simpl in C.
      assert (G : forall b, s 0 = b -> covers (outer_node n h (path ++ [b]) separated cov (if b then r else l)) (tail s)).
      { intros b Hb. rewrite Hb in C. destruct b; auto. }
      specialize (G (s 0) eq_refl). apply IH in G; [|destruct (s 0); auto].
      destruct G as [G|(w & I & A & B & D)]; [left; auto|]. right. exists (s 0 :: w).
      rewrite <- app_assoc in *. simpl in *. split; [apply in_cell_cons; auto|]. split; auto. split.
      + intros s' I'. apply in_cell_cons in I'. destruct I' as [I0 I']. simpl. specialize (B _ I').
        rewrite I0. destruct (s 0); auto.
      + destruct D as [D|D]; [left; lia|right; auto].
  Qed.
  Context (d : nat) (g : grid) (M : monotone g) (S : point -> Prop) (So : separated_sound d g S separated).
  Lemma outer_covers n : forall path t w s x, wf t -> length w = n -> in_closed_cell d g (node_cell h (path ++ w)) x -> S x ->
    in_cell w s -> covers (outer_node n h path separated cov t) s.
  Proof.
    assert (NS : forall path w x, in_closed_cell d g (node_cell h (path ++ w)) x -> S x ->
                 definitely (separated (node_cell h path)) = false).
    { intros path w x I Sx. apply def_false. intros E. eapply So; eauto. eapply closed_app; eauto. }
    induction n as [|n IH]; intros path t w s x W L I Sx C; cbn [outer_node];
      rewrite (NS _ _ _ I Sx); (destruct (holds cov _); [simpl; auto|]);
      (destruct (is_enabled t) eqn:E3; [rewrite (wf_enabled t W E3); reflexivity|]).
    - destruct (is_leaf t); reflexivity.
    - destruct w as [|b w]; [discriminate|]. injection L as L. apply in_cell_cons in C. destruct C as [C0 C].
      destruct (split_nd t) as (m & l & r & E). rewrite E. pose proof (wf_children _ _ _ _ W E) as (-> & Wl & Wr).
      simpl. rewrite C0. destruct b; apply (IH _ _ w _ x); auto; rewrite <- app_assoc; exact I.
  Qed.
End Outer.

Section LowerOvert.
  Context (ovl : test) (h : nat).
  Lemma overt_wf n : forall path t, wf t -> wf (lower_overt_node n h path ovl t).
  Proof.
    induction n as [|n IH]; intros path t W; cbn [lower_overt_node]; (destruct (definitely _); [|auto]).
    - destruct (has_enabled t); simpl; auto.
    - destruct (split_nd t) as (m & l & r & E). rewrite E. pose proof (wf_children _ _ _ _ W E) as (-> & Wl & Wr).
      simpl. auto.
  Qed.
  Lemma overt_keeps n : forall path t s, covers t s -> covers (lower_overt_node n h path ovl t) s.
  Proof.
    induction n as [|n IH]; intros path t s C; cbn [lower_overt_node]; (destruct (definitely _); [|auto]).
    - destruct (has_enabled t); simpl; auto.
    - destruct (split_nd t) as (m & l & r & E). rewrite E. apply (split_cases _ _ _ _ s E) in C.
      simpl. destruct (s 0); auto.
  Qed.
  Lemma overt_added n : forall path t s, covers (lower_overt_node n h path ovl t) s -> covers t s \/
    exists w, in_cell w s /\ length w = n /\ definitely (ovl (node_cell h (path ++ w))) = true /\
      (forall s', in_cell w s' -> ~ covers t s').
  Proof.
    induction n as [|n IH]; intros path t s C; cbn [lower_overt_node] in *;
      (destruct (definitely (ovl (node_cell h path))) eqn:E1; [|auto]).
    - destruct (has_enabled t) eqn:E2; [auto|]. right. exists []. rewrite app_nil_r. split; [apply in_cell_nil|].
      split; auto. split; auto. rewrite not_has_enabled in E2. auto.
    - destruct (split_nd t) as (m & l & r & E). rewrite E in *. rewrite (split_cases _ _ _ _ s E). simpl in C.
      assert (G : covers (lower_overt_node n h (path ++ [s 0]) ovl (if s 0 then r else l)) (tail s)) by (destruct (s 0); auto).
      apply IH in G. destruct G as [G|(w & I & A & B & D)]; [left; auto|]. right. exists (s 0 :: w).
      rewrite <- app_assoc in *. simpl in *. split; [apply in_cell_cons; auto|]. split; [congruence|]. split; auto.
      intros s' I' C'. apply in_cell_cons in I'. destruct I' as [I0 I']. apply (D _ I').
      apply (split_cases _ _ _ _ s' E) in C'. rewrite I0 in C'. auto.
  Qed.
  (** Every cell of full depth whose ancestors are all seen to overlap meets the result. *)
  Lemma overt_complete n : forall path t w, length w = n ->
    (forall v u, w = v ++ u -> definitely (ovl (node_cell h (path ++ v))) = true) ->
    exists s, in_cell w s /\ covers (lower_overt_node n h path ovl t) s.
  Proof.
    induction n as [|n IH]; intros path t w L H; cbn [lower_overt_node];
      pose proof (H [] w eq_refl) as H0; rewrite app_nil_r in H0; rewrite H0.
    - destruct w; [|discriminate]. destruct (has_enabled t) eqn:E.
      + apply has_enabled_exact in E. destruct E as [s E]. exists s. split; auto using in_cell_nil.
      + exists (fun _ => true). split; [apply in_cell_nil|reflexivity].
    - destruct w as [|b w]; [discriminate|]. injection L as L.
      destruct (split_nd t) as (m & l & r & E). rewrite E.
      destruct (IH (path ++ [b]) (if b then r else l) w L) as (s & A & B).
      { intros v u Ev. rewrite <- app_assoc. simpl. apply (H (b :: v) u). rewrite Ev. reflexivity. }
      exists (cons b s). split; [apply in_cell_cons; split; auto|]. destruct b; exact B.
  Qed.
End LowerOvert.

Section LowerOpen.
  Context (cov ovl : test) (h : nat).
  Lemma open_wf n : forall path t, wf t -> wf (lower_open_node n h path cov ovl t).
  Proof.
    induction n as [|n IH]; intros path t W; cbn [lower_open_node];
      (destruct (definitely _); [apply wf_mince; simpl; auto|]); (destruct (definitely _); [|auto]).
    - destruct (is_leaf t); simpl; auto.
    - destruct (split_nd t) as (m & l & r & E). rewrite E. pose proof (wf_children _ _ _ _ W E) as (-> & Wl & Wr).
      simpl. auto.
  Qed.
  Lemma open_keeps n : forall path t s, covers t s -> covers (lower_open_node n h path cov ovl t) s.
  Proof.
    induction n as [|n IH]; intros path t s C; cbn [lower_open_node];
      (destruct (definitely _); [apply mince_covers; reflexivity|]); (destruct (definitely _); [|auto]).
    - destruct (is_leaf t); simpl; auto.
    - destruct (split_nd t) as (m & l & r & E). rewrite E. apply (split_cases _ _ _ _ s E) in C.
      simpl. destruct (s 0); auto.
  Qed.
  Lemma open_added n : forall path t s, covers (lower_open_node n h path cov ovl t) s -> covers t s \/
    exists w, in_cell w s /\ (definitely (cov (node_cell h (path ++ w))) = true \/
      length w = n /\ definitely (ovl (node_cell h (path ++ w))) = true).
  Proof.
    induction n as [|n IH]; intros path t s C; cbn [lower_open_node] in *;
      (destruct (definitely (cov (node_cell h path))) eqn:E1;
        [right; exists []; rewrite app_nil_r; split; [apply in_cell_nil|auto]|]);
      (destruct (definitely (ovl (node_cell h path))) eqn:E2; [|auto]).
    - destruct (is_leaf t) eqn:E3; [|auto]. right. exists []. rewrite app_nil_r. split; [apply in_cell_nil|auto].
    - destruct (split_nd t) as (m & l & r & E). rewrite E in *. rewrite (split_cases _ _ _ _ s E). simpl in C.
      assert (G : covers (lower_open_node n h (path ++ [s 0]) cov ovl (if s 0 then r else l)) (tail s)) by (destruct (s 0); auto).
      apply IH in G. destruct G as [G|(w & I & A)]; [left; auto|]. right. exists (s 0 :: w).
      rewrite <- app_assoc in *. simpl in *. split; [apply in_cell_cons; auto|].
      destruct A as [A|[A B]]; [left; auto|right; split; [congruence|auto]].
  Qed.
End LowerOpen.

Section Inner.
  Context (cov : test) (sep : option test) (h : nat).
  Lemma inner_wf n : forall path t, wf t -> wf (inner_node n h path cov sep t).
  Proof.
    induction n as [|n IH]; intros path t W; cbn [inner_node];
      (destruct (is_enabled t); [auto|]); (destruct (definitely _); [simpl; auto|]);
      (destruct sep as [f|]; [|auto]); (destruct (definitely _); [auto|]); [auto|].
    destruct (split_nd t) as (m & l & r & E). rewrite E. pose proof (wf_children _ _ _ _ W E) as (-> & Wl & Wr).
    simpl. auto.
  Qed.
  Lemma inner_keeps n : forall path t s, covers t s -> covers (inner_node n h path cov sep t) s.
  Proof.
    induction n as [|n IH]; intros path t s C; cbn [inner_node];
      (destruct (is_enabled t); [auto|]); (destruct (definitely _); [simpl; auto|]);
      (destruct sep as [f|]; [|auto]); (destruct (definitely _); [auto|]); [auto|].
    destruct (split_nd t) as (m & l & r & E). rewrite E. apply (split_cases _ _ _ _ s E) in C.
    simpl. destruct (s 0); auto.
  Qed.
  Lemma inner_added n : forall path t s, covers (inner_node n h path cov sep t) s -> covers t s \/
    exists w, in_cell w s /\ length w <= n /\ definitely (cov (node_cell h (path ++ w))) = true.
  Proof.
    induction n as [|n IH]; intros path t s C; cbn [inner_node] in *;
      (destruct (is_enabled t); [auto|]);
      (destruct (definitely (cov (node_cell h path))) eqn:E1;
        [right; exists []; rewrite app_nil_r; split; [apply in_cell_nil|split; [simpl; lia|auto]]|]);
      (destruct sep as [f|] eqn:Es; [|auto]); (destruct (definitely (f _)); [auto|]); [auto|].
    destruct (split_nd t) as (m & l & r & E). rewrite E in *. rewrite (split_cases _ _ _ _ s E). simpl in C.
    assert (G : covers (inner_node n h (path ++ [s 0]) cov (Some f) (if s 0 then r else l)) (tail s)) by (destruct (s 0); auto).
    apply IH in G. destruct G as [G|(w & I & A & B)]; [left; auto|]. right. exists (s 0 :: w).
    rewrite <- app_assoc in *. simpl in *. split; [apply in_cell_cons; auto|]. split; [lia|auto].
  Qed.
  (** Completeness for a closed set: every cell, down to full depth, that is seen to be
      covered and none of whose ancestors is seen to be separated. *)
  Lemma inner_complete f n : sep = Some f -> forall path t w s, wf t -> length w <= n -> in_cell w s ->
    definitely (cov (node_cell h (path ++ w))) = true ->
    (forall v u, w = v ++ u -> definitely (f (node_cell h (path ++ v))) = false) ->
    covers (inner_node n h path cov sep t) s.
  Proof.
    intros Es. induction n as [|n IH]; intros path t w s W L C Cv Sp; cbn [inner_node];
      (destruct (is_enabled t) eqn:E3; [rewrite (wf_enabled t W E3); reflexivity|]);
      (destruct (definitely (cov (node_cell h path))) eqn:E1; [reflexivity|]); rewrite Es;
      pose proof (Sp [] w eq_refl) as S0; rewrite app_nil_r in S0; rewrite S0.
    - destruct w; [|simpl in L; lia]. rewrite app_nil_r in Cv. congruence.
    - destruct w as [|b w]; [rewrite app_nil_r in Cv; congruence|]. simpl in L. apply in_cell_cons in C. destruct C as [C0 C].
      destruct (split_nd t) as (m & l & r & E). rewrite E. pose proof (wf_children _ _ _ _ W E) as (-> & Wl & Wr).
      rewrite <- Es. simpl. rewrite C0.
      destruct b; (apply (IH _ _ w); auto; [lia|rewrite <- app_assoc; exact Cv|];
        intros v u Ev; rewrite <- app_assoc; apply (Sp (_ :: v) u); rewrite Ev; reflexivity).
  Qed.
End Inner.

(** * Pavings *)
Section Top.
  Context (d : nat) (g : grid) (M : monotone g) (Hd : 0 < d).
  Notation pp := (ppoints d g).
  Notation prim := (in_primary d g).
  Lemma node_points h w x : prim h x -> (in_cell_box d g (node_cell h w) x <-> in_cell w (paddr d g h x)).
  Proof. intros P. unfold in_cell_box, cell_box. rewrite (lattice_points d g M Hd). simpl. tauto. Qed.
  Lemma node_prim h w x : in_cell_box d g (node_cell h w) x -> prim h x.
  Proof. intros P. unfold in_cell_box, cell_box in P. rewrite (lattice_points d g M Hd) in P. tauto. Qed.
  Definition whole h n := (h + n) * d.
  Lemma whole_spec h n : tree_subdivisions d n h 0 = whole h n.
  Proof. unfold tree_subdivisions, whole. lia. Qed.

  (** [wf] only ensures the tests are used on well-formed nodes. *)
  Lemma adjoin_outer_spec sep cov b n p e (S : point -> Prop) : wf (p_tree p) ->
    smallest_enclosing_primary_cell_extent d b = Some (Ret e) ->
    exists p', adjoin_outer d sep cov b n p = Ret p' /\ wf (p_tree p') /\
      (forall x, pp p x -> pp p' x) /\
      (separated_sound d g S sep -> forall x w y, S x -> length w = whole (e + d) n ->
         in_closed_cell d g (node_cell (e + d) w) x -> in_cell_box d g (node_cell (e + d) w) y -> pp p' y) /\
      (forall x, pp p' x -> pp p x \/ exists w, in_cell_box d g (node_cell (e + d) w) x /\
         definitely (sep (node_cell (e + d) w)) = false /\
         (forall y, in_cell_box d g (node_cell (e + d) w) y -> pp p' y) /\
         (length w = whole (e + d) n \/ holds cov (node_cell (e + d) w) = true)).
  Proof.
    intros W E. unfold adjoin_outer. rewrite E, whole_spec.
    destruct (align_with_spec d g M Hd (e + d) true false (outer_node (whole (e + d) n) (e + d) [] sep cov) p W) as (p' & -> & _ & H).
    exists p'. split; auto. destruct H as [(u & Wu & D & A & B & C)|(D & A & B)].
    - split; [apply D, outer_wf; auto|]. split; [|split].
      + intros x P. destruct (prim_dec d g Hd (e + d) x) as [Q|Q]; [|apply C; auto].
        apply B; auto. apply outer_keeps. apply A; auto.
      + intros So x w y Sx L I J. pose proof (node_prim _ _ _ J) as Q. apply B; auto.
        apply (outer_covers sep cov (e + d) d g M S So _ [] u w _ x); auto. apply node_points; auto.
      + intros x P. destruct (prim_dec d g Hd (e + d) x) as [Q|Q]; [|left; apply C; auto].
        apply B in P; auto. apply outer_added in P; auto. destruct P as [P|(w & I & F & G & K)]; [left; apply A; auto|].
        right. exists w. simpl in *. split; [apply node_points; auto|]. split; auto. split; auto.
        intros y J. pose proof (node_prim _ _ _ J) as Qy. apply B; auto. apply G. apply node_points; auto.
    - split; auto. split; [intros x; apply A|]. destruct B as [[_ B]|[B _]]; [|discriminate]. split.
      + intros _ x w y _ _ _ J. apply A, B. eapply node_prim; eauto.
      + intros x P. left. apply A; auto.
  Qed.
  (** The whole set is covered. *)
  Lemma adjoin_outer_set sep cov b n p e (S : point -> Prop) : strict g -> wf (p_tree p) ->
    smallest_enclosing_primary_cell_extent d b = Some (Ret e) -> separated_sound d g S sep ->
    (forall x, S x -> in_closed_box d g b x) ->
    exists p', adjoin_outer d sep cov b n p = Ret p' /\ forall x, S x -> pp p' x.
  Proof.
    intros St W E So Sb. destruct (adjoin_outer_spec sep cov b n p e S W E) as (p' & Ep & _ & _ & Co & _).
    exists p'. split; auto. intros x Sx. specialize (Co So).
    assert (P : prim e x).
    { pose proof (enclosing_spec d b) as Q. rewrite E in Q. destruct Q as (_ & Q & _). rewrite inside_spec in Q.
      intros k Hk. specialize (Q k Hk). specialize (Sb x Sx k Hk). destruct Q as [Q1 Q2].
      apply (St k) in Q1, Q2. lra. }
    assert (P' : prim (e + d) x) by (apply (primary_up d g (e + d) e x M Hd); auto; lia).
    set (w := map (paddr d g (e + d) x) (seq 0 (whole (e + d) n))).
    assert (I : in_cell_box d g (node_cell (e + d) w) x).
    { apply node_points; auto. intros i c Hi. unfold w in Hi.
      assert (Hl : i < whole (e + d) n).
      { assert (K : i < length (map (paddr d g (e + d) x) (seq 0 (whole (e + d) n)))) by (apply nth_error_Some; congruence).
        rewrite map_length, seq_length in K. exact K. }
      rewrite nth_error_map, nth_error_nth' with (d := 0) in Hi by (rewrite seq_length; auto).
      rewrite seq_nth in Hi by auto. simpl in Hi. congruence. }
    apply (Co x w x); auto.
    - unfold w. rewrite map_length, seq_length. reflexivity.
    - apply half_open_closed. exact I.
  Qed.
  Lemma adjoin_overt_spec ovl h n p : wf (p_tree p) ->
    exists p', adjoin_lower_overt d ovl h n p = Ret p' /\ wf (p_tree p') /\
      (forall x, pp p x -> pp p' x) /\
      (forall x, pp p' x -> pp p x \/ exists w, in_cell_box d g (node_cell h w) x /\ length w = whole h n /\
         definitely (ovl (node_cell h w)) = true /\ (forall y, in_cell_box d g (node_cell h w) y -> ~ pp p y)).
  Proof.
    intros W. unfold adjoin_lower_overt. rewrite whole_spec.
    destruct (align_with_spec d g M Hd h true false (lower_overt_node (whole h n) h [] ovl) p W) as (p' & -> & _ & H).
    exists p'. split; auto. destruct H as [(u & Wu & D & A & B & C)|(D & A & B)].
    - split; [apply D, overt_wf; auto|]. split.
      + intros x P. destruct (prim_dec d g Hd h x) as [Q|Q]; [|apply C; auto].
        apply B; auto. apply overt_keeps. apply A; auto.
      + intros x P. destruct (prim_dec d g Hd h x) as [Q|Q]; [|left; apply C; auto].
        apply B in P; auto. apply overt_added in P; auto. destruct P as [P|(w & I & F & G & K)]; [left; apply A; auto|].
        right. exists w. simpl in *. split; [apply node_points; auto|]. split; auto. split; auto.
        intros y J. pose proof (node_prim _ _ _ J) as Qy. rewrite A by auto. apply K. apply node_points; auto.
    - split; auto. split; [intros x; apply A|]. intros x P. left. apply A; auto.
  Qed.
  Lemma adjoin_overt_complete ovl h n p w : strict g -> wf (p_tree p) -> length w = whole h n ->
    (forall v u, w = v ++ u -> definitely (ovl (node_cell h v)) = true) ->
    exists p' x, adjoin_lower_overt d ovl h n p = Ret p' /\ pp p' x /\ in_cell_box d g (node_cell h w) x.
  Proof.
    intros St W L H. unfold adjoin_lower_overt. rewrite whole_spec.
    destruct (align_with_spec d g M Hd h true false (lower_overt_node (whole h n) h [] ovl) p W) as (p' & -> & _ & K).
    exists p'. destruct K as [(u & Wu & D & A & B & C)|(D & A & B)].
    - destruct (overt_complete ovl h (whole h n) [] u w L H) as (s & I & Cs).
      set (N := length w + depth (lower_overt_node (whole h n) h [] ovl u)).
      destruct (realise d g M Hd St h s N) as (x & P & Ex). exists x. split; auto. split.
      + apply B; auto. eapply covers_ext; [|exact Cs]. intros i Hi. apply Ex. unfold N. lia.
      + apply node_points; auto. eapply in_cell_ext; [|exact I]. intros i Hi. apply Ex. unfold N. lia.
    - destruct B as [[_ B]|[B _]]; [|discriminate].
      pose proof (cell_inhabited d g h w M St) as Ci. eexists. split; auto. split; [|exact Ci].
      apply A, B. eapply (node_prim h w). exact Ci.
  Qed.
  Lemma adjoin_open_spec cov ovl h n p : wf (p_tree p) ->
    exists p', adjoin_lower_open d cov ovl h n p = Ret p' /\ wf (p_tree p') /\
      (forall x, pp p x -> pp p' x) /\
      (forall x, pp p' x -> pp p x \/ exists w, in_cell_box d g (node_cell h w) x /\
         (definitely (cov (node_cell h w)) = true \/ length w = whole h n /\ definitely (ovl (node_cell h w)) = true)).
  Proof.
    intros W. unfold adjoin_lower_open. rewrite whole_spec.
    destruct (align_with_spec d g M Hd h true false (lower_open_node (whole h n) h [] cov ovl) p W) as (p' & -> & _ & H).
    exists p'. split; auto. destruct H as [(u & Wu & D & A & B & C)|(D & A & B)].
    - split; [apply D, open_wf; auto|]. split.
      + intros x P. destruct (prim_dec d g Hd h x) as [Q|Q]; [|apply C; auto].
        apply B; auto. apply open_keeps. apply A; auto.
      + intros x P. destruct (prim_dec d g Hd h x) as [Q|Q]; [|left; apply C; auto].
        apply B in P; auto. apply open_added in P; auto. destruct P as [P|(w & I & F)]; [left; apply A; auto|].
        right. exists w. simpl in *. split; [apply node_points; auto|]. auto.
    - split; auto. split; [intros x; apply A|]. intros x P. left. apply A; auto.
  Qed.
  Lemma adjoin_inner_spec cov sep h n p : wf (p_tree p) ->
    exists p', adjoin_inner d cov sep h n p = Ret p' /\ wf (p_tree p') /\
      (forall x, pp p x -> pp p' x) /\
      (forall x, pp p' x -> pp p x \/ exists w, in_cell_box d g (node_cell h w) x /\ length w <= whole h n /\
         definitely (cov (node_cell h w)) = true) /\
      (forall f w x, sep = Some f -> length w <= whole h n -> in_cell_box d g (node_cell h w) x ->
         definitely (cov (node_cell h w)) = true -> (forall v u, w = v ++ u -> definitely (f (node_cell h v)) = false) -> pp p' x).
  Proof.
    intros W. unfold adjoin_inner. rewrite whole_spec.
    destruct (align_with_spec d g M Hd h true false (inner_node (whole h n) h [] cov sep) p W) as (p' & -> & _ & H).
    exists p'. split; auto. destruct H as [(u & Wu & D & A & B & C)|(D & A & B)].
    - split; [apply D, inner_wf; auto|]. split; [|split].
      + intros x P. destruct (prim_dec d g Hd h x) as [Q|Q]; [|apply C; auto].
        apply B; auto. apply inner_keeps. apply A; auto.
      + intros x P. destruct (prim_dec d g Hd h x) as [Q|Q]; [|left; apply C; auto].
        apply B in P; auto. apply inner_added in P; auto. destruct P as [P|(w & I & F & G)]; [left; apply A; auto|].
        right. exists w. simpl in *. split; [apply node_points; auto|]. auto.
      + intros f w x Es L J Cv Sp. pose proof (node_prim _ _ _ J) as Q. apply B; auto.
        apply (inner_complete cov sep h f (whole h n) Es [] u w); auto. apply node_points; auto.
    - split; auto. split; [intros x; apply A|]. split; [intros x P; left; apply A; auto|].
      destruct B as [[_ B]|[B _]]; [|discriminate]. intros f w x _ _ J _ _. apply A, B. eapply node_prim; eauto.
  Qed.
End Top.
