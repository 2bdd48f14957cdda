From Coq Require Import List Bool Arith ZArith QArith Qreals Reals Lia Lra Psatz.
From Verif Require Import LRU_Model Word_Model Word_Proofs Tree_Model Tree_Spec Tree_Proofs Cell_Model Cell_Spec.
Import ListNotations.
Local Open Scope nat_scope.

(** * Addresses of points *)
Lemma mono_eq g : monotone g -> forall k q q', (q == q')%Q -> g k q = g k q'.
Proof. intros M k q q' E. apply Rle_antisym; apply M; rewrite E; apply Qle_refl. Qed.

Definition bit (d : nat) (g : grid) (i : nat) (b : box) (x : point) : bool :=
  if Rle_dec (g (i mod d) (midpoint (b (i mod d)))) (x (i mod d)) then true else false.
Fixpoint addr (d : nat) (g : grid) (i : nat) (b : box) (x : point) (n : nat) : bool :=
  match n with
  | O => bit d g i b x
  | S n' => addr d g (S i) (halve d i (bit d g i b x) b) x n'
  end.

(** Boxes whose bounds are ordered. *)
Definition ordered (d : nat) (b : box) := forall k, k < d -> (fst (b k) < snd (b k))%Q.
Lemma mid_lo a b : (a < b)%Q -> (a < midpoint (a, b))%Q.
Proof. unfold midpoint; simpl. intros. apply Qlt_shift_div_l; [reflexivity|]. lra. Qed.
Lemma mid_hi a b : (a < b)%Q -> (midpoint (a, b) < b)%Q.
Proof. unfold midpoint; simpl. intros. apply Qlt_shift_div_r; [reflexivity|]. lra. Qed.
Lemma halve_ordered d i x b : ordered d b -> ordered d (halve d i x b).
Proof.
  intros O k Hk. unfold halve. destruct (k =? i mod d); [|auto]. specialize (O k Hk).
  destruct (b k) as [l u]; simpl in *. destruct x; simpl; auto using mid_lo, mid_hi.
Qed.
Lemma box_loop_ordered d w : forall i b, ordered d b -> ordered d (box_loop d i w b).
Proof. induction w; simpl; auto using halve_ordered. Qed.
Lemma halve_shrinks d g i x b y : monotone g -> ordered d b -> in_box d g (halve d i x b) y -> in_box d g b y.
Proof.
  intros M O H k Hk. specialize (H k Hk). specialize (O k Hk). unfold halve in H.
  destruct (k =? i mod d); [|auto]. destruct (b k) as [l u]; simpl in *.
  pose proof (mid_lo _ _ O) as A. pose proof (mid_hi _ _ O) as B.
  apply Qlt_le_weak in A, B. apply (M k) in A, B. destruct x; simpl in *; lra.
Qed.
Lemma box_loop_shrinks d g w : forall i b y, monotone g -> ordered d b -> in_box d g (box_loop d i w b) y -> in_box d g b y.
Proof.
  induction w; simpl; intros; auto. eapply halve_shrinks; eauto. eapply IHw; eauto using halve_ordered.
Qed.
(** A point goes to exactly one half. *)
Lemma halve_iff d g i x b y : 0 < d -> in_box d g b y -> (in_box d g (halve d i x b) y <-> bit d g i b y = x).
Proof.
  intros Hd H. set (m := i mod d). assert (Hm : m < d) by (apply Nat.mod_upper_bound; lia).
  unfold bit. fold m. split.
  - intros H'. specialize (H' m Hm). unfold halve in H'. rewrite Nat.eqb_refl in H'. 
    destruct (Rle_dec _ _); destruct x; simpl in *; auto; exfalso; lra.
  - intros E k Hk. unfold halve. fold m. destruct (Nat.eqb_spec k m) as [->|]; [|auto].
    specialize (H m Hm). destruct (Rle_dec _ _); subst x; simpl; lra.
Qed.
Lemma in_cell_addr d g w : monotone g -> 0 < d -> forall i b y, ordered d b -> in_box d g b y ->
  (in_box d g (box_loop d i w b) y <-> in_cell w (addr d g i b y)).
Proof.
  intros M Hd. induction w as [|x w IH]; intros i b y O H; simpl.
  - split; auto. intros _. apply in_cell_nil.
  - rewrite in_cell_cons. simpl. split.
    + intros H'. assert (in_box d g (halve d i x b) y) by (eapply box_loop_shrinks; eauto using halve_ordered).
      assert (E : bit d g i b y = x) by (eapply halve_iff; eauto). split; auto.
      change (tail (addr d g i b y)) with (addr d g (S i) (halve d i (bit d g i b y) b) y). rewrite E.
      apply IH; auto using halve_ordered.
    + intros [E H']. change (tail (addr d g i b y)) with (addr d g (S i) (halve d i (bit d g i b y) b) y) in H'.
      rewrite E in H'. apply IH; auto using halve_ordered. apply halve_iff; auto.
Qed.

(** Extensionality of boxes and periodicity of the dimension counter. *)
Lemma same_box_refl d b : same_box d b b. Proof. split; reflexivity. Qed.
Lemma same_box_sym d b c : same_box d b c -> same_box d c b.
Proof. intros H k Hk. destruct (H k Hk). split; symmetry; auto. Qed.
Lemma same_box_trans d a b c : same_box d a b -> same_box d b c -> same_box d a c.
Proof. intros H H' k Hk. destruct (H k Hk), (H' k Hk). split; etransitivity; eauto. Qed.
Lemma mid_ext p q : (fst p == fst q)%Q -> (snd p == snd q)%Q -> (midpoint p == midpoint q)%Q.
Proof. unfold midpoint. intros -> ->. reflexivity. Qed.
Lemma halve_ext d i j x b c : i mod d = j mod d -> same_box d b c -> same_box d (halve d i x b) (halve d j x c).
Proof.
  intros E H k Hk. unfold halve. rewrite E. destruct (H k Hk). destruct (k =? j mod d); auto.
  destruct x; simpl; split; auto using mid_ext.
Qed.
Lemma mod_S i j d : d <> 0 -> i mod d = j mod d -> S i mod d = S j mod d.
Proof.
  intros Hd E. rewrite <- (Nat.add_1_r i), <- (Nat.add_1_r j).
  rewrite Nat.add_mod, E, <- Nat.add_mod; auto.
Qed.
Lemma box_loop_ext d w : d <> 0 -> forall i j b c, i mod d = j mod d -> same_box d b c ->
  same_box d (box_loop d i w b) (box_loop d j w c).
Proof. intros Hd. induction w; simpl; intros; auto. apply IHw; auto using mod_S, halve_ext. Qed.
Lemma in_box_ext d g b c x : monotone g -> same_box d b c -> (in_box d g b x <-> in_box d g c x).
Proof.
  intros M H. split; intros I k Hk; specialize (I k Hk); destruct (H k Hk) as [A B];
  apply (mono_eq g M k) in A, B; rewrite ?A, ?B in *; auto.
Qed.
Lemma bit_ext d g i j b c x : monotone g -> 0 < d -> i mod d = j mod d -> same_box d b c -> bit d g i b x = bit d g j c x.
Proof.
  intros M Hd E H. unfold bit. rewrite E. assert (Hm : j mod d < d) by (apply Nat.mod_upper_bound; lia).
  destruct (H _ Hm). rewrite (mono_eq g M (j mod d) _ _ (mid_ext _ _ H0 H1)). reflexivity.
Qed.
Lemma addr_ext d g x n : monotone g -> 0 < d -> forall i j b c, i mod d = j mod d -> same_box d b c ->
  addr d g i b x n = addr d g j c x n.
Proof.
  intros M Hd. induction n; simpl; intros i j b c E H.
  - apply bit_ext; auto.
  - rewrite (bit_ext d g i j b c); auto. apply IHn; [apply mod_S; lia|apply halve_ext; auto].
Qed.
Lemma addr_app d g w x : monotone g -> 0 < d -> forall i b, ordered d b -> in_box d g (box_loop d i w b) x ->
  forall n, addr d g i b x (length w + n) = addr d g (i + length w) (box_loop d i w b) x n.
Proof.
  intros M Hd. induction w as [|a w IH]; intros i b O H n; simpl.
  - rewrite Nat.add_0_r. reflexivity.
  - simpl in H. assert (in_box d g (halve d i a b) x) by (eapply box_loop_shrinks; eauto using halve_ordered).
    assert (E : bit d g i b x = a) by (eapply halve_iff; eauto; eapply halve_shrinks; eauto).
    rewrite E, IH; auto using halve_ordered. replace (S i + length w) with (i + S (length w)) by lia. reflexivity.
Qed.

(** Every finite address is realised. *)
Definition corner (g : grid) (b : box) : point := fun k => g k (fst (b k)).
Lemma corner_in d g b : strict g -> ordered d b -> in_box d g b (corner g b).
Proof. intros S O k Hk. unfold corner. split; [apply Rle_refl|]. apply S, O, Hk. Qed.

(** * Primary cells *)
Lemma primary_ordered h : (fst (primary_corners h) < snd (primary_corners h))%Z.
Proof.
  induction h; simpl primary_corners; [reflexivity|]. unfold primary_cell_at_extent.
  destruct (primary_corners h) as [l r]. destruct (Nat.odd (S h)); cbn [fst snd] in *; lia.
Qed.
Lemma primary_box_ordered d h : ordered d (primary_cell_lattice_box h).
Proof.
  intros k _. unfold primary_cell_lattice_box. pose proof (primary_ordered h).
  destruct (primary_corners h); simpl in *. rewrite <- Zlt_Qlt. auto.
Qed.
Lemma halves_all d x n : forall i b, d <> 0 -> i + n <= d ->
  forall k, box_loop d i (repeat x n) b k =
     if (i <=? k) && (k <? i + n) then (if x then (midpoint (b k), snd (b k)) else (fst (b k), midpoint (b k))) else b k.
Proof.
  induction n; intros i b Hd Hi k; simpl.
  - replace (i + 0) with i by lia. destruct (Nat.leb_spec i k), (Nat.ltb_spec k i); try lia; auto.
  - rewrite IHn by lia. unfold halve. rewrite (Nat.mod_small i) by lia.
    destruct (Nat.leb_spec i k), (Nat.leb_spec (S i) k), (Nat.ltb_spec k (S i + n)),
      (Nat.ltb_spec k (i + S n)), (Nat.eqb_spec k i); simpl; try lia; auto.
Qed.
Lemma primary_step d h : d <> 0 ->
  same_box d (box_loop d 0 (repeat (Nat.odd (S h)) d) (primary_cell_lattice_box (S h))) (primary_cell_lattice_box h).
Proof.
  intros Hd k Hk. rewrite (halves_all d _ d) by lia.
  destruct (Nat.leb_spec 0 k); [|lia]. destruct (Nat.ltb_spec k (0 + d)); [|lia]. simpl.
  unfold primary_cell_lattice_box. simpl primary_corners. unfold primary_cell_at_extent.
  destruct (primary_corners h) as [l r].
  destruct (Nat.odd (S h)); cbn [fst snd]; split; try reflexivity; unfold midpoint; cbn [fst snd];
  rewrite <- inject_Z_plus.
  - replace (2 * l - r + r)%Z with (2 * l)%Z by lia. rewrite inject_Z_mult. field.
  - replace (l + (2 * r - l))%Z with (2 * r)%Z by lia. rewrite inject_Z_mult. field.
Qed.
Lemma box_loop_app d v w : forall i b, box_loop d i (v ++ w) b = box_loop d (i + length v) w (box_loop d i v b).
Proof.
  induction v; simpl; intros; [rewrite Nat.add_0_r; auto|]. rewrite IHv. f_equal. lia.
Qed.
Lemma path_down_length d n : forall top, length (primary_path_down d top n) = n * d.
Proof. induction n; simpl; intros; auto. rewrite app_length, repeat_length, IHn. reflexivity. Qed.
Lemma path_down_box d n : d <> 0 -> forall h,
  same_box d (compute_lattice_box d (n + h) (primary_path_down d (n + h) n)) (primary_cell_lattice_box h).
Proof.
  intros Hd. unfold compute_lattice_box. induction n; intros h.
  - apply same_box_refl.
  - simpl primary_path_down. rewrite box_loop_app, repeat_length. simpl plus.
    eapply same_box_trans; [|apply (IHn h)]. apply box_loop_ext; auto.
    + rewrite Nat.mod_same, Nat.mod_0_l; auto.
    + apply primary_step; auto.
Qed.
Lemma path_box d top bot : d <> 0 -> bot <= top ->
  same_box d (compute_lattice_box d top (primary_cell_path d top bot)) (primary_cell_lattice_box bot).
Proof.
  intros Hd H. unfold primary_cell_path. pose proof (path_down_box d (top - bot) Hd bot) as P.
  replace (top - bot + bot) with top in P by lia. exact P.
Qed.
Lemma path_length d top bot : length (primary_cell_path d top bot) = (top - bot) * d.
Proof. apply path_down_length. Qed.
(** Re-rooting: same box. *)
Lemma reroot_box d top bot w : d <> 0 -> bot <= top ->
  same_box d (compute_lattice_box d top (primary_cell_path d top bot ++ w)) (compute_lattice_box d bot w).
Proof.
  intros Hd H. unfold compute_lattice_box. rewrite box_loop_app. apply box_loop_ext; auto.
  - rewrite path_length. simpl. rewrite Nat.mod_mul, Nat.mod_0_l; auto.
  - apply path_box; auto.
Qed.
Lemma path_down_split d a : forall top b, primary_path_down d top (a + b) = primary_path_down d top a ++ primary_path_down d (top - a) b.
Proof.
  induction a; intros; simpl; [rewrite Nat.sub_0_r; auto|]. rewrite IHa, app_assoc.
  replace (pred top - a) with (top - S a) by lia. reflexivity.
Qed.
Lemma path_split d top mid bot : bot <= mid <= top ->
  primary_cell_path d top bot = primary_cell_path d top mid ++ primary_cell_path d mid bot.
Proof.
  intros. unfold primary_cell_path. replace (top - bot) with ((top - mid) + (mid - bot)) by lia.
  rewrite path_down_split. replace (top - (top - mid)) with mid by lia. reflexivity.
Qed.
Lemma path_refl d h : primary_cell_path d h h = [].
Proof. unfold primary_cell_path. rewrite Nat.sub_diag. reflexivity. Qed.

(** The address of a point in the primary cell of extent [h]. *)
Definition paddr (d : nat) (g : grid) (h : nat) (x : point) : address := addr d g 0 (primary_cell_lattice_box h) x.
Definition in_primary (d : nat) (g : grid) (h : nat) (x : point) := in_box d g (primary_cell_lattice_box h) x.

Lemma lattice_in_primary d g h w x : monotone g -> in_box d g (compute_lattice_box d h w) x -> in_primary d g h x.
Proof. intros M. apply box_loop_shrinks; auto using primary_box_ordered. Qed.
Lemma lattice_addr d g h w x : monotone g -> 0 < d -> in_primary d g h x ->
  (in_box d g (compute_lattice_box d h w) x <-> in_cell w (paddr d g h x)).
Proof. intros. apply in_cell_addr; auto using primary_box_ordered. Qed.
Lemma primary_addr d g top bot x : monotone g -> 0 < d -> bot <= top -> in_primary d g top x ->
  (in_cell (primary_cell_path d top bot) (paddr d g top x) <-> in_primary d g bot x).
Proof.
  intros M Hd Hb H. rewrite <- lattice_addr by auto. apply in_box_ext; auto. apply path_box; auto; lia.
Qed.
Lemma primary_up d g top bot x : monotone g -> 0 < d -> bot <= top -> in_primary d g bot x -> in_primary d g top x.
Proof.
  intros M Hd Hb H. apply lattice_in_primary with (primary_cell_path d top bot); auto.
  apply (in_box_ext d g _ _ x M (path_box d top bot ltac:(lia) Hb)), H.
Qed.
Lemma primary_addr_drop d g top bot x : monotone g -> 0 < d -> bot <= top -> in_primary d g bot x ->
  forall n, paddr d g top x (length (primary_cell_path d top bot) + n) = paddr d g bot x n.
Proof.
  intros M Hd Hb H n. unfold paddr. rewrite addr_app; auto using primary_box_ordered.
  - apply addr_ext; auto.
    + rewrite path_length. simpl. rewrite Nat.mod_mul, Nat.mod_0_l; lia.
    + apply (path_box d top bot); lia.
  - apply (in_box_ext d g _ _ x M (path_box d top bot ltac:(lia) Hb)), H.
Qed.

(** A lattice cell contains its corner. *)
Lemma cell_inhabited d g h w : monotone g -> strict g ->
  in_box d g (compute_lattice_box d h w) (corner g (compute_lattice_box d h w)).
Proof. intros M S. apply corner_in; auto. apply box_loop_ordered, primary_box_ordered. Qed.

(** * Cells *)
Lemma in_cell_app v w s : in_cell (v ++ w) s <-> in_cell v s /\ in_cell w (drop (length v) s).
Proof.
  revert s. induction v as [|b v IH]; intros s; simpl.
  - split; [|tauto]. intros H; split; [apply in_cell_nil|exact H].
  - rewrite !in_cell_cons, IH. unfold drop, tail. simpl. tauto.
Qed.
Lemma in_cell_comparable v : forall w s, in_cell v s -> in_cell w s -> (exists t, w = v ++ t) \/ (exists t, v = w ++ t).
Proof.
  induction v as [|b v IH]; intros w s H H'; [left; exists w; auto|].
  destruct w as [|c w]; [right; exists (b :: v); auto|].
  rewrite in_cell_cons in H, H'. destruct H as [E H], H' as [E' H']. assert (EC : c = b) by congruence. rewrite EC.
  destruct (IH _ _ H H') as [[t E2]|[t E2]]; [left|right]; exists t; simpl; rewrite <- E2; reflexivity.
Qed.

Definition root_word (d : nat) (top : nat) (c : cell) : word := primary_cell_path d top (c_ext c) ++ c_word c.
Lemma root_word_box d top c : d <> 0 -> c_ext c <= top ->
  same_box d (compute_lattice_box d top (root_word d top c)) (cell_box d c).
Proof. intros. apply reroot_box; auto. Qed.
Lemma root_word_points d g top c x : monotone g -> 0 < d -> c_ext c <= top ->
  (in_cell_box d g c x <-> in_box d g (compute_lattice_box d top (root_word d top c)) x).
Proof. intros M Hd H. symmetry. apply in_box_ext; auto. apply root_word_box; auto; lia. Qed.
Lemma compared_words_spec d a b : compared_words d a b =
  (root_word d (Nat.max (c_ext a) (c_ext b)) a, root_word d (Nat.max (c_ext a) (c_ext b)) b).
Proof.
  unfold compared_words, root_word. destruct (Nat.eqb_spec (c_ext a) (c_ext b)) as [E|E].
  - rewrite <- E, Nat.max_id, path_refl. reflexivity.
  - destruct (Nat.ltb_spec (c_ext b) (c_ext a)).
    + rewrite Nat.max_l by lia. rewrite path_refl, append_word_spec. reflexivity.
    + rewrite Nat.max_r by lia. rewrite path_refl, append_word_spec. reflexivity.
Qed.
Lemma aligned_paths_spec d a b : aligned_paths d a b =
  (root_word d (Nat.max (c_ext a) (c_ext b)) a, root_word d (Nat.max (c_ext a) (c_ext b)) b).
Proof.
  unfold aligned_paths, root_word. destruct (Nat.ltb_spec (c_ext a) (c_ext b)).
  - rewrite Nat.max_r by lia. rewrite path_refl, !append_word_spec. reflexivity.
  - rewrite Nat.max_l by lia. destruct (Nat.ltb_spec (c_ext b) (c_ext a)).
    + rewrite path_refl, !append_word_spec. reflexivity.
    + replace (c_ext b) with (c_ext a) by lia. rewrite path_refl, !append_word_spec. reflexivity.
Qed.

(** Inclusion of lattice cells rooted at the same primary cell is prefix order. *)
Lemma lattice_subset d g h v w : monotone g -> strict g -> 0 < d ->
  ((forall x, in_box d g (compute_lattice_box d h v) x -> in_box d g (compute_lattice_box d h w) x)
   <-> exists t, v = w ++ t).
Proof.
  intros M S Hd. split.
  - intros H. destruct (Nat.le_gt_cases (length w) (length v)) as [L|L].
    + pose proof (cell_inhabited d g h v M S) as C. set (x := corner g (compute_lattice_box d h v)) in *.
      pose proof (lattice_in_primary d g h v x M C) as P.
      specialize (H x C). apply lattice_addr in C; auto. apply lattice_addr in H; auto.
      destruct (in_cell_comparable _ _ _ C H) as [[t E]|[t E]]; [|eauto].
      subst w. rewrite app_length in L. assert (length t = 0) by lia. destruct t; [|discriminate].
      exists []. rewrite !app_nil_r. reflexivity.
    + (* w longer than v: choose a sub-cell of v that leaves w *)
      destruct (skipn (length v) w) as [|c t] eqn:E.
      { assert (length (skipn (length v) w) = 0) by (rewrite E; auto). rewrite skipn_length in H0. lia. }
      pose proof (cell_inhabited d g h (v ++ [negb c]) M S) as C.
      set (x := corner g (compute_lattice_box d h (v ++ [negb c]))) in *.
      pose proof (lattice_in_primary d g h _ x M C) as P.
      apply lattice_addr in C; auto. apply in_cell_app in C. destruct C as [C1 C2].
      assert (H1 := H x). rewrite !lattice_addr in H1 by auto. specialize (H1 C1).
      rewrite <- (firstn_skipn (length v) w), E in H1. apply in_cell_app in H1. destruct H1 as [_ H1].
      rewrite firstn_length_le in H1 by lia. apply in_cell_cons in H1, C2. destruct H1, C2.
      destruct c; simpl in *; congruence.
  - intros [t ->] x H. pose proof (lattice_in_primary d g h _ x M H) as P.
    rewrite lattice_addr in * by auto. apply in_cell_app in H. tauto.
Qed.
Lemma cell_subset_exact d g a b : monotone g -> strict g -> 0 < d ->
  exists r, cell_subset d a b = Some r /\ (r = true <-> forall x, in_cell_box d g a x -> in_cell_box d g b x).
Proof.
  intros M S Hd. unfold cell_subset. rewrite aligned_paths_spec. set (h := Nat.max _ _).
  destruct (is_prefix_spec (root_word d h b) (root_word d h a)) as (r & -> & Hr). exists r. split; auto.
  rewrite Hr. rewrite <- (lattice_subset d g h) by auto.
  split; intros H x; specialize (H x); rewrite !(root_word_points d g h) in * by (auto; lia); auto.
Qed.
Lemma cell_equal_exact d g a b : monotone g -> strict g -> 0 < d ->
  (cell_equal d a b = true <-> forall x, in_cell_box d g a x <-> in_cell_box d g b x).
Proof.
  intros M S Hd. unfold cell_equal. rewrite compared_words_spec. set (h := Nat.max _ _).
  unfold word_eq. destruct (list_eq_dec bool_dec (root_word d h a) (root_word d h b)) as [E|E].
  - split; auto. intros _ x. rewrite !(root_word_points d g h) by (auto; lia). rewrite E. tauto.
  - split; [discriminate|]. intros H. exfalso. apply E.
    assert (A : exists t, root_word d h a = root_word d h b ++ t).
    { apply (lattice_subset d g h); auto. intros x. rewrite <- !(root_word_points d g h) by (auto; lia). apply H. }
    assert (B : exists t, root_word d h b = root_word d h a ++ t).
    { apply (lattice_subset d g h); auto. intros x. rewrite <- !(root_word_points d g h) by (auto; lia). apply H. }
    destruct A as [t A], B as [u B]. rewrite B in A at 1.
    assert (length (root_word d h a) = length ((root_word d h a ++ u) ++ t)) by congruence.
    rewrite !app_length in H0. destruct t; [|simpl in H0; lia]. destruct u; [|simpl in H0; lia].
    rewrite B, app_nil_r. reflexivity.
Qed.
Lemma cells_nested_or_disjoint d g a b x : monotone g -> strict g -> 0 < d ->
  in_cell_box d g a x -> in_cell_box d g b x -> cell_subset d a b = Some true \/ cell_subset d b a = Some true.
Proof.
  intros M S Hd A B. unfold cell_subset. rewrite !aligned_paths_spec.
  rewrite (Nat.max_comm (c_ext b)). set (h := Nat.max _ _).
  rewrite (root_word_points d g h) in A, B by (auto; lia).
  pose proof (lattice_in_primary _ _ _ _ _ M A). rewrite lattice_addr in A, B by auto.
  destruct (in_cell_comparable _ _ _ A B) as [C|C]; [right|left].
  - destruct (is_prefix_spec (root_word d h a) (root_word d h b)) as (r & -> & Hr). f_equal. tauto.
  - destruct (is_prefix_spec (root_word d h b) (root_word d h a)) as (r & -> & Hr). f_equal. tauto.
Qed.

(** The order. *)
Lemma less_app p v w : word_less (p ++ v) (p ++ w) = word_less v w.
Proof. induction p; simpl; auto. rewrite Bool.eqb_reflx. auto. Qed.
Lemma cell_less_at d top a b : c_ext a <= top -> c_ext b <= top ->
  cell_less d a b = word_less (root_word d top a) (root_word d top b).
Proof.
  intros Ha Hb. unfold cell_less. rewrite compared_words_spec. set (h := Nat.max _ _). unfold root_word.
  rewrite (path_split d top h (c_ext a)), (path_split d top h (c_ext b)) by lia.
  rewrite <- !app_assoc, less_app. reflexivity.
Qed.
Lemma cell_equal_at d top a b : c_ext a <= top -> c_ext b <= top ->
  (cell_equal d a b = true <-> root_word d top a = root_word d top b).
Proof.
  intros Ha Hb. unfold cell_equal. rewrite compared_words_spec. set (h := Nat.max _ _). unfold root_word, word_eq.
  rewrite (path_split d top h (c_ext a)), (path_split d top h (c_ext b)) by lia. rewrite <- !app_assoc.
  destruct (list_eq_dec _ _ _) as [E|E].
  - rewrite E. tauto.
  - split; [discriminate|]. intros H. apply app_inv_head in H. contradiction.
Qed.
Lemma cell_less_trans d a b c : cell_less d a b = true -> cell_less d b c = true -> cell_less d a c = true.
Proof.
  set (top := Nat.max (c_ext a) (Nat.max (c_ext b) (c_ext c))).
  rewrite !(cell_less_at d top) by lia. apply less_trans.
Qed.
Lemma cell_less_irrefl d a b : cell_equal d a b = true -> cell_less d a b = false.
Proof.
  set (top := Nat.max (c_ext a) (c_ext b)). rewrite (cell_equal_at d top), (cell_less_at d top) by lia.
  intros ->. apply less_irrefl.
Qed.
Lemma cell_less_total d a b : cell_less d a b = true \/ cell_equal d a b = true \/ cell_less d b a = true.
Proof.
  set (top := Nat.max (c_ext a) (c_ext b)). rewrite (cell_equal_at d top), !(cell_less_at d top) by lia.
  apply less_total.
Qed.
(** Raising the root. *)
Lemma raise_spec d c level : raise_to_level d c level =
  if c_ext c <=? level then Ret {| c_ext := level; c_word := root_word d level c |} else AssertFail.
Proof. unfold raise_to_level, root_word, primary_cell_path. rewrite append_word_spec. reflexivity. Qed.
Lemma raise_same_box d c level c' : d <> 0 -> raise_to_level d c level = Ret c' ->
  c_ext c' = level /\ same_box d (cell_box d c') (cell_box d c).
Proof.
  intros Hd. rewrite raise_spec. destruct (Nat.leb_spec (c_ext c) level); [|discriminate].
  intros [= <-]. simpl. split; auto. unfold cell_box at 1. simpl. apply root_word_box; auto.
Qed.

(** Splitting. *)
Lemma split_partition d g c x : monotone g -> 0 < d ->
  (in_cell_box d g c x <-> in_cell_box d g (cell_split false c) x \/ in_cell_box d g (cell_split true c) x) /\
  ~ (in_cell_box d g (cell_split false c) x /\ in_cell_box d g (cell_split true c) x).
Proof.
  intros M Hd. unfold in_cell_box, cell_box, cell_split, append_bit; simpl.
  destruct c as [h w]; simpl.
  assert (P : forall v, in_box d g (compute_lattice_box d h v) x <-> in_primary d g h x /\ in_cell v (paddr d g h x)).
  { intros v. split.
    - intros A. pose proof (lattice_in_primary _ _ _ _ _ M A). split; auto. apply lattice_addr; auto.
    - intros [A B]. apply lattice_addr; auto. }
  rewrite !P, !in_cell_app, !in_cell_cons. set (s := drop _ _).
  assert (N : in_cell [] (tail s)) by apply in_cell_nil.
  split; [|intros [(_ & _ & A & _) (_ & _ & B & _)]; congruence].
  destruct (s 0); intuition congruence.
Qed.

(** * The smallest enclosing primary cell *)
Lemma primary_corners_SS h : forall l r, primary_corners h = (l, r) ->
  exists l' r', primary_corners (S (S h)) = (l', r') /\ (l' < l)%Z /\ (r < r')%Z.
Proof.
  intros l r E. pose proof (primary_ordered h) as O. cbn [primary_corners]. rewrite E in *. cbn [fst snd] in O.
  unfold primary_cell_at_extent.
  replace (Nat.odd (S (S h))) with (negb (Nat.odd (S h))).
  2:{ rewrite (Nat.odd_succ (S h)), <- Nat.negb_odd. reflexivity. }
  destruct (Nat.odd (S h)); cbn [negb]; eexists; eexists; (split; [reflexivity|]); lia.
Qed.
Lemma primary_nested h : let (l, r) := primary_corners h in let (l', r') := primary_corners (S h) in (l' <= l /\ r <= r')%Z.
Proof.
  cbn [primary_corners]. pose proof (primary_ordered h). destruct (primary_corners h) as [l r]. unfold primary_cell_at_extent.
  cbn [fst snd] in H. destruct (Nat.odd (S h)); lia.
Qed.

Lemma Qlt_bool_iff a b : Qlt_bool a b = true <-> (a < b)%Q.
Proof.
  unfold Qlt_bool. rewrite negb_true_iff. split; intros H.
  - apply Qnot_le_lt. intros C. apply Qle_bool_iff in C. congruence.
  - destruct (Qle_bool b a) eqn:E; auto. apply Qle_bool_iff in E. exfalso. revert E. apply Qlt_not_le. auto.
Qed.
Lemma inside_loop_spec n : forall k b c, inside_loop n k b c = true <->
  forall j, k <= j < k + n -> (fst (c j) < fst (b j))%Q /\ (snd (b j) < snd (c j))%Q.
Proof.
  induction n; intros k b c; simpl.
  - split; auto. intros _ j Hj; lia.
  - rewrite !andb_true_iff, !Qlt_bool_iff, IHn. split.
    + intros [[A B] H] j Hj. destruct (Nat.eq_dec j k) as [->|]; auto. apply H. lia.
    + intros H. split; [apply H; lia|]. intros j Hj. apply H. lia.
Qed.
Lemma inside_spec d b c : inside d b c = true <->
  forall k, k < d -> (fst (c k) < fst (b k))%Q /\ (snd (b k) < snd (c k))%Q.
Proof.
  unfold inside. rewrite inside_loop_spec. split; intros H k Hk; apply H; lia.
Qed.

Lemma corners32_agree h c : primary_corners32 h = Ret c -> primary_corners h = c.
Proof.
  revert c. induction h; simpl; intros c.
  - congruence.
  - destruct (primary_corners32 h) as [c0| |] eqn:E; simpl; try discriminate. rewrite (IHh c0); auto.
    unfold primary_cell_at_extent32, primary_cell_at_extent, obind, int32. destruct c0 as [l r].
    destruct (Nat.odd (S h)); repeat (destruct (_ && _)%bool); congruence.
Qed.
Definition ok32 (h : nat) : bool := match primary_corners32 h with Ret _ => true | _ => false end.
Lemma corners32_limit h : (primary_corners32 h = Ret (primary_corners h) <-> h <= 31) /\ (32 <= h -> primary_corners32 h = UB).
Proof.
  assert (B : forall n, primary_corners32 (32 + n) = UB).
  { induction n; [vm_compute; reflexivity|]. replace (32 + S n) with (S (32 + n)) by lia.
    change (primary_corners32 (S (32 + n))) with (obind (primary_corners32 (32 + n)) (primary_cell_at_extent32 (S (32 + n)))).
    rewrite IHn. reflexivity. }
  assert (C : 32 <= h -> primary_corners32 h = UB).
  { intros H. replace h with (32 + (h - 32)) by lia. apply B. }
  split; auto. split.
  - intros H. destruct (Nat.le_gt_cases h 31); auto. rewrite C in H by lia. discriminate.
  - intros H. clear B C. do 32 (destruct h as [|h]; [vm_compute; reflexivity|]). lia.
Qed.

Lemma enclosing_loop_spec f d b : forall h, h <= 31 ->
  match enclosing_loop f d h (primary_corners h) b with
  | Some (Ret e) => h <= e <= 31 /\ inside d b (primary_cell_lattice_box e) = true /\
                    (forall e', h <= e' < e -> inside d b (primary_cell_lattice_box e') = false)
  | Some AssertFail => False
  | Some UB => forall e', h <= e' <= 31 -> inside d b (primary_cell_lattice_box e') = false
  | None => f + h <= 31
  end.
Proof.
  induction f; intros h Hh; simpl; [lia|].
  change (fun _ : nat => (inject_Z (fst (primary_corners h)), inject_Z (snd (primary_corners h))))
    with (fun _ : nat => (fun c : Z * Z => (inject_Z (fst c), inject_Z (snd c))) (primary_corners h)).
  assert (EB : inside d b (fun _ => (inject_Z (fst (primary_corners h)), inject_Z (snd (primary_corners h)))) =
               inside d b (primary_cell_lattice_box h)).
  { unfold primary_cell_lattice_box. destruct (primary_corners h); reflexivity. }
  simpl. rewrite EB. destruct (inside d b (primary_cell_lattice_box h)) eqn:E.
  { split; [lia|]. split; auto. intros; lia. }
  destruct (Nat.eq_dec h 31) as [->|N].
  - destruct (primary_cell_at_extent32 32 (primary_corners 31)) as [c| |] eqn:E2; try (vm_compute in E2; discriminate).
    intros e' He. replace e' with 31 by lia. auto.
  - assert (E2 : primary_cell_at_extent32 (S h) (primary_corners h) = Ret (primary_corners (S h))).
    { destruct (corners32_limit (S h)) as [[_ A] _]. specialize (A ltac:(lia)).
      change (primary_corners32 (S h)) with (obind (primary_corners32 h) (primary_cell_at_extent32 (S h))) in A.
      destruct (corners32_limit h) as [[_ A'] _]. rewrite A' in A by lia. exact A. }
    rewrite E2. specialize (IHf (S h) ltac:(lia)).
    destruct (enclosing_loop f d (S h) (primary_corners (S h)) b) as [[e| |]|]; auto; try lia.
    + destruct IHf as (A & B & C). split; [lia|]. split; auto. intros e' He'.
      destruct (Nat.eq_dec e' h) as [->|]; auto. apply C; lia.
    + intros e' He'. destruct (Nat.eq_dec e' h) as [->|]; auto. apply IHf; lia.
Qed.
Lemma enclosing_spec d b :
  match smallest_enclosing_primary_cell_extent d b with
  | Some (Ret e) => e <= 31 /\ inside d b (primary_cell_lattice_box e) = true /\
                    (forall e', e' < e -> inside d b (primary_cell_lattice_box e') = false)
  | Some UB => forall e', e' <= 31 -> inside d b (primary_cell_lattice_box e') = false
  | Some AssertFail | None => False
  end.
Proof.
  unfold smallest_enclosing_primary_cell_extent. change (0, 1)%Z with (primary_corners 0).
  pose proof (enclosing_loop_spec 33 d b 0 ltac:(lia)) as H.
  destruct (enclosing_loop 33 d 0 (primary_corners 0) b) as [[e| |]|]; auto; try lia.
  - destruct H as (A & B & C). repeat split; auto; try lia. intros; apply C; lia.
  - intros; apply H; lia.
Qed.
(** The primary cells exhaust the space of an affine grid. *)
Lemma primary_grow n : (fst (primary_corners (2 * n)) <= - Z.of_nat n)%Z /\ (Z.of_nat n < snd (primary_corners (2 * n)))%Z.
Proof.
  induction n; [simpl; lia|]. destruct (primary_corners (2 * n)) as [l r] eqn:E.
  destruct (primary_corners_SS (2 * n) l r E) as (l' & r' & E' & A & B).
  replace (2 * S n) with (S (S (2 * n))) by lia. rewrite E'. simpl in *. lia.
Qed.

(** * Grids *)
Lemma affine_strict o l : (forall k, 0 < l k)%R -> strict (affine_grid o l).
Proof.
  intros H k q q' L. unfold affine_grid. apply Rplus_lt_compat_l, Rmult_lt_compat_l; auto. apply Qlt_Rlt, L.
Qed.
Lemma affine_monotone o l : (forall k, 0 < l k)%R -> monotone (affine_grid o l).
Proof.
  intros H k q q' L. unfold affine_grid. apply Rplus_le_compat_l, Rmult_le_compat_l; auto using Rlt_le.
  apply Qle_Rle, L.
Qed.
Lemma rounded_monotone rnd o l : monotone_rounding rnd -> (forall k, 0 <= l k)%R -> monotone (rounded_grid rnd o l).
Proof.
  intros M H k q q' L. unfold rounded_grid. apply M, Rplus_le_compat_l, M, Rmult_le_compat_l; auto.
  apply M, Qle_Rle, L.
Qed.
Lemma primary_exhaust d o l x : (forall k, 0 < l k)%R -> exists h, in_primary d (affine_grid o l) h x.
Proof.
  intros H.
  assert (B : exists N, forall k, k < d -> (- INR N <= (x k - o k) / l k < INR N)%R).
  { induction d as [|d [N HN]]; [exists 0; intros; lia|].
    set (y := ((x d - o d) / l d)%R).
    assert (HM0 : exists M, (INR M > Rabs y)%R).
    { exists (Z.to_nat (up (Rabs y))). destruct (archimed (Rabs y)) as [U _].
      assert (0 <= up (Rabs y))%Z by (apply le_IZR; pose proof (Rabs_pos y); lra).
      rewrite INR_IZR_INZ, Z2Nat.id; auto. }
    destruct HM0 as [M HM].
    exists (Nat.max N M). intros k Hk.
    assert (INR N <= INR (Nat.max N M))%R by (apply le_INR; lia).
    assert (INR M <= INR (Nat.max N M))%R by (apply le_INR; lia).
    destruct (Nat.eq_dec k d) as [->|].
    - fold y. revert HM. unfold Rabs. destruct (Rcase_abs y); lra.
    - specialize (HN k ltac:(lia)). lra. }
  destruct B as [N HN]. exists (2 * N). intros k Hk. specialize (HN k Hk).
  unfold primary_cell_lattice_box, affine_grid.
  destruct (primary_grow N) as [A B]. destruct (primary_corners (2 * N)) as [a b]. cbn [fst snd] in *.
  assert (Ea : Q2R (inject_Z a) = IZR a) by (unfold Q2R, inject_Z; simpl; lra).
  assert (Eb : Q2R (inject_Z b) = IZR b) by (unfold Q2R, inject_Z; simpl; lra).
  rewrite Ea, Eb. apply IZR_le in A. apply IZR_lt in B. rewrite opp_IZR, <- INR_IZR_INZ in A. rewrite <- INR_IZR_INZ in B.
  specialize (H k). set (y := ((x k - o k) / l k)%R) in *.
  assert (E : x k = (o k + l k * y)%R) by (unfold y; field; lra). rewrite E. nra.
Qed.

Lemma lattice_sub_of d g h v w x : monotone g -> 0 < d -> 
  in_box d g (compute_lattice_box d h (v ++ w)) x -> in_box d g (compute_lattice_box d h v) x.
Proof.
  intros M Hd H. pose proof (lattice_in_primary _ _ _ _ _ M H). rewrite lattice_addr in * by auto.
  apply in_cell_app in H. tauto.
Qed.
Lemma cell_less_geometry d g a b : monotone g -> strict g -> 0 < d ->
  (cell_less d a b = true <->
   ((forall x, in_cell_box d g b x -> in_cell_box d g a x) /\ (exists x, in_cell_box d g a x /\ ~ in_cell_box d g b x)) \/
   exists c, (forall x, in_cell_box d g a x -> in_cell_box d g (cell_split false c) x) /\
             (forall x, in_cell_box d g b x -> in_cell_box d g (cell_split true c) x)).
Proof.
  intros M S Hd. set (h := Nat.max (c_ext a) (c_ext b)).
  assert (RA := fun x => root_word_points d g h a x M Hd ltac:(lia)).
  assert (RB := fun x => root_word_points d g h b x M Hd ltac:(lia)).
  rewrite (cell_less_at d h) by lia. rewrite less_characterised. split.
  - intros [(p & v & w & Ea & Eb)|(y & t & E)]; [right|left].
    + exists {| c_ext := h; c_word := p |}. unfold cell_split, append_bit, in_cell_box at 2 4, cell_box; simpl.
      split; intros x; [rewrite RA, Ea|rewrite RB, Eb]; intros H.
      * apply lattice_sub_of with v; auto. rewrite <- app_assoc. exact H.
      * apply lattice_sub_of with w; auto. rewrite <- app_assoc. exact H.
    + split.
      * intros x. rewrite RA, RB, E. apply lattice_sub_of; auto.
      * pose proof (cell_inhabited d g h (root_word d h a ++ [negb y]) M S) as C.
        eexists. split; [rewrite RA; eapply lattice_sub_of; eauto|]. rewrite RB, E. intros C'.
        pose proof (lattice_in_primary _ _ _ _ _ M C). rewrite lattice_addr in C, C' by auto.
        apply in_cell_app in C, C'. destruct C as [_ C], C' as [_ C'].
        apply in_cell_cons in C, C'. destruct C, C'. destruct y; simpl in *; congruence.
  - intros [[H (x0 & A0 & B0)]|(c & Ha & Hb)].
    + right. assert (P : exists t, root_word d h b = root_word d h a ++ t).
      { apply (lattice_subset d g h); auto. intros x. rewrite <- RA, <- RB. apply H. }
      destruct P as [[|y t] E]; [|exists y, t; auto]. exfalso. apply B0. rewrite RB, E, app_nil_r, <- RA. auto.
    + set (top := Nat.max h (c_ext c)).
      rewrite <- less_characterised, <- (cell_less_at d h) by lia. rewrite (cell_less_at d top) by lia.
      assert (RA' := fun x => root_word_points d g top a x M Hd ltac:(lia)).
      assert (RB' := fun x => root_word_points d g top b x M Hd ltac:(lia)).
      assert (RC := fun y x => root_word_points d g top (cell_split y c) x M Hd ltac:(simpl; lia)).
      assert (A : exists t, root_word d top a = root_word d top (cell_split false c) ++ t).
      { apply (lattice_subset d g top); auto. intros x. rewrite <- RA', <- RC. apply Ha. }
      assert (B : exists t, root_word d top b = root_word d top (cell_split true c) ++ t).
      { apply (lattice_subset d g top); auto. intros x. rewrite <- RB', <- RC. apply Hb. }
      destruct A as [t A], B as [u B]. rewrite A, B. apply less_characterised. left.
      unfold root_word, cell_split, append_bit; simpl. exists (primary_cell_path d top (c_ext c) ++ c_word c), t, u.
      rewrite <- !app_assoc. auto.
Qed.
