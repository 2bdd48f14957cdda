From Coq Require Import List Bool Arith ZArith QArith Reals Lia Lra.
From Verif Require Import LRU_Model Logical_Model Word_Model Tree_Model Tree_Spec Tree_Proofs
  Cell_Model Cell_Spec Cell_Proofs Paving_Model Paving_Spec Paving_Proofs Product_Model Product_Spec.
Import ListNotations.
Local Open Scope nat_scope.

Definition half1 (x : bool) (c : Q * Q) : Q * Q := if x then (midpoint c, snd c) else (fst c, midpoint c).
Definition bits_at (k : nat) (bs : list word) : word := map (fun b => nth k b false) bs.
Definition refine (c : Q * Q) (bits : word) : Q * Q := fold_left (fun c x => half1 x c) bits c.

Lemma block_loop d w : 0 < d -> forall q i b k, k < d -> i + length w <= d ->
  box_loop d (q * d + i) w b k = if (i <=? k) && (k <? i + length w) then half1 (nth (k - i) w false) (b k) else b k.
Proof.
  intros Hd. induction w as [|x w IH]; intros q i b k Hk Hl.
  - simpl. destruct (Nat.leb_spec i k), (Nat.ltb_spec k (i + 0)); simpl; auto; lia.
  - simpl length in *. simpl box_loop. rewrite <- Nat.add_succ_r. rewrite IH by lia. 
    assert (Em : (q * d + i) mod d = i) by (rewrite Nat.add_comm, Nat.mod_add by lia; apply Nat.mod_small; lia).
    unfold halve. rewrite Em.
    destruct (Nat.eqb_spec k i) as [->|N].
    + replace (S i <=? i) with false by (symmetry; apply Nat.leb_gt; lia). simpl andb.
      replace (i <=? i) with true by (symmetry; apply Nat.leb_le; lia).
      replace (i <? i + S (length w)) with true by (symmetry; apply Nat.ltb_lt; lia).
      rewrite Nat.sub_diag. reflexivity.
    + destruct (Nat.leb_spec (S i) k) as [A|A].
      * replace (i <=? k) with true by (symmetry; apply Nat.leb_le; lia). replace (i + S (length w)) with (S i + length w) by lia.
        destruct (k <? S i + length w); simpl andb; cbv iota; auto.
        replace (k - i) with (S (k - S i)) by lia. reflexivity.
      * replace (i <=? k) with false by (symmetry; apply Nat.leb_gt; lia). reflexivity.
Qed.
Lemma blocks_loop d bs : 0 < d -> forall q b k, k < d -> (forall w, In w bs -> length w = d) ->
  box_loop d (q * d) (concat bs) b k = refine (b k) (bits_at k bs).
Proof.
  intros Hd. induction bs as [|w bs IH]; intros q b k Hk H; [reflexivity|].
  simpl concat. rewrite box_loop_app. assert (L : length w = d) by (apply H; simpl; auto).
  rewrite L. replace (q * d + d) with (S q * d) by lia. rewrite IH; auto.
  - simpl. unfold refine. simpl. f_equal. rewrite <- (Nat.add_0_r (q * d)), block_loop by (auto; lia).
    rewrite L. simpl. replace (k <? d) with true by (symmetry; apply Nat.ltb_lt; lia). rewrite Nat.sub_0_r. reflexivity.
  - intros; apply H; simpl; auto.
Qed.
Lemma lattice_blocks d h bs k : 0 < d -> k < d -> (forall w, In w bs -> length w = d) ->
  compute_lattice_box d h (concat bs) k = refine (primary_cell_lattice_box h k) (bits_at k bs).
Proof. intros. unfold compute_lattice_box. apply (blocks_loop d bs H 0); auto. Qed.

(** Blocks of a word. *)
Fixpoint blocks (d k : nat) (w : word) : list word :=
  match k with O => [] | S k' => firstn d w :: blocks d k' (skipn d w) end.
Lemma blocks_concat d k : forall w, length w = k * d -> concat (blocks d k w) = w /\ forall b, In b (blocks d k w) -> length b = d.
Proof.
  induction k; intros w H; simpl in *.
  - destruct w; [|discriminate]. split; auto. contradiction.
  - destruct (IHk (skipn d w)) as [A B]; [rewrite skipn_length; lia|]. rewrite A, firstn_skipn. split; auto.
    intros b [<-|Hb]; auto. rewrite firstn_length. lia.
Qed.
Lemma blocks_app d k j : forall w v, length w = k * d -> blocks d (k + j) (w ++ v) = blocks d k w ++ blocks d j v.
Proof.
  induction k; intros w v H; simpl in *.
  - destruct w; [|discriminate]. reflexivity.
  - rewrite firstn_app, skipn_app. replace (d - length w) with 0 by lia. simpl. rewrite app_nil_r.
    rewrite IHk by (rewrite skipn_length; lia). reflexivity.
Qed.
Lemma blocks_length d k : forall w, length (blocks d k w) = k.
Proof. induction k; simpl; auto. Qed.
Definition zip_app (a b : list word) : list word := map (fun p => fst p ++ snd p) (combine a b).

(** The product word is the interleaving of the re-rooted words. *)
Lemma odd_level m : level_bit (- Z.of_nat m) = Nat.odd m.
Proof.
  unfold level_bit. rewrite Z.rem_opp_l' . rewrite <- Nat.negb_even. f_equal.
  assert (Z.rem (Z.of_nat m) 2 = Z.of_nat (m mod 2)).
  { rewrite Z.rem_mod_nonneg by lia. rewrite Nat2Z.inj_mod. reflexivity. }
  rewrite H. destruct (Nat.even m) eqn:E.
  - apply Nat.even_spec in E. destruct E as [j ->]. replace (2 * j) with (j * 2) by lia. rewrite Nat.mod_mul by lia. reflexivity.
  - assert (O : Nat.odd m = true) by (rewrite <- Nat.negb_even, E; reflexivity). apply Nat.odd_spec in O. destruct O as [j ->].
    replace (2 * j + 1) with (1 + j * 2) by lia. rewrite Nat.mod_add by lia. reflexivity.
Qed.
Lemma path_step n H h : h <= H -> primary_cell_path n (S H) h = repeat (Nat.odd (S H)) n ++ primary_cell_path n H h.
Proof. intros L. unfold primary_cell_path. replace (S H - h) with (S (H - h)) by lia. reflexivity. Qed.
Lemma loop_below n1 n2 h1 h2 k : forall level w1 w2, (- level <= Z.of_nat h1)%Z -> (- level <= Z.of_nat h2)%Z ->
  length w1 = k * n1 -> length w2 = k * n2 ->
  product_loop k level (Z.of_nat h1) (Z.of_nat h2) n1 n2 w1 w2 = Some (concat (zip_app (blocks n1 k w1) (blocks n2 k w2))).
Proof.
  induction k; intros level w1 w2 H1 H2 L1 L2; [reflexivity|]. simpl in L1, L2. simpl. unfold next_block.
  replace (Z.of_nat h1 <? - level)%Z with false by (symmetry; apply Z.ltb_ge; lia).
  replace (Z.of_nat h2 <? - level)%Z with false by (symmetry; apply Z.ltb_ge; lia).
  unfold take. replace (n1 <=? length w1) with true by (symmetry; apply Nat.leb_le; lia).
  replace (n2 <=? length w2) with true by (symmetry; apply Nat.leb_le; lia).
  rewrite IHk by (try lia; rewrite skipn_length; lia). unfold zip_app. simpl. rewrite <- app_assoc. reflexivity.
Qed.
(** One side may still be above its root. *)
Lemma loop_all n1 n2 h1 h2 : forall k H w1 w2, (H - h1) + length w1 / n1 = k -> 0 < n1 -> 0 < n2 ->
  length w1 = (k - (H - h1)) * n1 -> length w2 = (k - (H - h2)) * n2 -> H - h1 <= k -> H - h2 <= k ->
  product_loop k (- Z.of_nat H) (Z.of_nat h1) (Z.of_nat h2) n1 n2 w1 w2 =
  Some (concat (zip_app (blocks n1 k (primary_cell_path n1 H h1 ++ w1)) (blocks n2 k (primary_cell_path n2 H h2 ++ w2)))).
Proof.
  induction k; intros H w1 w2 K N1 N2 L1 L2 A1 A2; [reflexivity|].
  destruct H as [|H].
  - unfold primary_cell_path. simpl (0 - _). simpl primary_path_down. simpl app. apply loop_below; lia.
  - cbn [product_loop].
    assert (F : forall h n w (N : 0 < n), S H - h <= S k -> length w = (S k - (S H - h)) * n ->
      exists b w', next_block (- Z.of_nat (S H)) (Z.of_nat h) n w = Some (b, w') /\
        blocks n (S k) (primary_cell_path n (S H) h ++ w) = b :: blocks n k (primary_cell_path n H h ++ w') /\
        length w' = (k - (H - h)) * n /\ H - h <= k).
    { intros h n w N A L. unfold next_block. rewrite Z.opp_involutive. destruct (Z.ltb_spec (Z.of_nat h) (Z.of_nat (S H))) as [B|B].
      - eexists _, _. split; [reflexivity|]. rewrite odd_level, path_step by lia. split; [|split; [rewrite L; f_equal; lia|lia]].
        simpl. rewrite <- app_assoc, firstn_app, skipn_app, repeat_length, Nat.sub_diag. simpl.
        rewrite app_nil_r, firstn_all2, skipn_all2 by (rewrite repeat_length; lia). reflexivity.
      - unfold take. replace (S H - h) with 0 in L by lia.
        replace (n <=? length w) with true by (symmetry; apply Nat.leb_le; nia).
        eexists _, _. split; [reflexivity|]. unfold primary_cell_path. replace (S H - h) with 0 by lia. replace (H - h) with 0 by lia.
        simpl. split; auto. split; [rewrite skipn_length; nia|lia]. }
    destruct (F h1 n1 w1 N1 A1 L1) as (b1 & w1' & E1 & B1 & M1 & C1). destruct (F h2 n2 w2 N2 A2 L2) as (b2 & w2' & E2 & B2 & M2 & C2).
    rewrite E1, E2. replace (- Z.of_nat (S H) + 1)%Z with (- Z.of_nat H)%Z by lia.
    rewrite IHk; auto.
    + rewrite B1, B2. unfold zip_app. simpl. rewrite <- app_assoc. reflexivity.
    + rewrite M1, Nat.div_mul by lia. lia.
Qed.
Lemma zip_bits1 k n1 : forall a b, length a = length b -> (forall w, In w a -> length w = n1) -> k < n1 ->
  bits_at k (zip_app a b) = bits_at k a.
Proof.
  induction a as [|x a IH]; intros [|y b] L H K; try discriminate; auto. simpl.
  unfold bits_at, zip_app in *. simpl. f_equal.
  - apply app_nth1. rewrite H; simpl; auto.
  - apply IH; auto. intros; apply H; simpl; auto.
Qed.
Lemma zip_bits2 k n1 : forall a b, length a = length b -> (forall w, In w a -> length w = n1) -> n1 <= k ->
  bits_at k (zip_app a b) = bits_at (k - n1) b.
Proof.
  induction a as [|x a IH]; intros [|y b] L H K; try discriminate; auto. simpl.
  unfold bits_at, zip_app in *. simpl. f_equal.
  - rewrite app_nth2; rewrite (H x); simpl; auto.
  - apply IH; auto. intros; apply H; simpl; auto.
Qed.
Lemma zip_length n1 n2 : forall a b w, (forall w, In w a -> length w = n1) -> (forall w, In w b -> length w = n2) ->
  In w (zip_app a b) -> length w = n1 + n2.
Proof.
  induction a as [|x a IH]; intros [|y b] w HA HB; simpl; try contradiction. unfold zip_app. simpl. intros [<-|I].
  - rewrite app_length, HA, HB; simpl; auto.
  - apply (IH b); auto; intros; [apply HA|apply HB]; simpl; auto.
Qed.
Lemma primary_same h k j : primary_cell_lattice_box h k = primary_cell_lattice_box h j.
Proof. reflexivity. Qed.

Section Prod.
  Context (n1 n2 : nat) (N1 : 0 < n1) (N2 : 0 < n2) (g1 g2 : grid) (M1 : monotone g1) (M2 : monotone g2).
  Let g := join_grid n1 g1 g2.
  Lemma join_monotone : monotone g.
  Proof. intros k q q' H. unfold g, join_grid. destruct (k <? n1); [apply M1|apply M2]; auto. Qed.
  Lemma product_word_uniform r c1 c2 : uniform n1 r c1 -> uniform n2 r c2 ->
    exists w, product_word n1 n2 c1 c2 = Some w /\
      forall x, in_cell_box (n1 + n2) g {| c_ext := Nat.max (c_ext c1) (c_ext c2); c_word := w |} x <->
                in_cell_box n1 g1 c1 x /\ in_cell_box n2 g2 c2 (second n1 x).
  Proof.
    unfold uniform. intros U1 U2. set (H := Nat.max (c_ext c1) (c_ext c2)).
    assert (R1 : (0 <= r + Z.of_nat (c_ext c1))%Z) by nia.
    assert (R2 : (0 <= r + Z.of_nat (c_ext c2))%Z) by nia.
    set (k := Z.to_nat (r + Z.of_nat H)). assert (Ek : Z.of_nat k = (r + Z.of_nat H)%Z) by (unfold k; rewrite Z2Nat.id; lia).
    assert (L1 : length (c_word c1) = (k - (H - c_ext c1)) * n1) by nia.
    assert (L2 : length (c_word c2) = (k - (H - c_ext c2)) * n2) by nia.
    unfold product_word. fold H.
    assert (D : Z.quot (cell_depth n1 c1) (Z.of_nat n1) = r).
    { unfold cell_depth. rewrite U1. replace ((r + Z.of_nat (c_ext c1)) * Z.of_nat n1 - Z.of_nat (c_ext c1 * n1))%Z with (r * Z.of_nat n1)%Z by (rewrite Nat2Z.inj_mul; ring). apply Z.quot_mul. lia. }
    rewrite D. fold k. rewrite loop_all; auto; try lia.
    2:{ rewrite L1, Nat.div_mul by lia. lia. }
    eexists. split; [reflexivity|].
    set (v1 := primary_cell_path n1 H (c_ext c1) ++ c_word c1). set (v2 := primary_cell_path n2 H (c_ext c2) ++ c_word c2).
    assert (V1 : length v1 = k * n1) by (unfold v1; rewrite app_length, path_length, L1; nia).
    assert (V2 : length v2 = k * n2) by (unfold v2; rewrite app_length, path_length, L2; nia).
    destruct (blocks_concat n1 k v1 V1) as [C1 B1]. destruct (blocks_concat n2 k v2 V2) as [C2 B2].
    set (b1 := blocks n1 k v1) in *. set (b2 := blocks n2 k v2) in *.
    assert (BL : length b1 = length b2) by (unfold b1, b2; rewrite !blocks_length; auto).
    intros x.
    rewrite (root_word_points n1 g1 H c1 x M1 N1) by lia.
    rewrite (root_word_points n2 g2 H c2 (second n1 x) M2 N2) by lia.
    unfold root_word. fold v1 v2. rewrite <- C1, <- C2. unfold in_cell_box, cell_box. simpl.
    assert (E1 : forall j, j < n1 -> compute_lattice_box (n1 + n2) H (concat (zip_app b1 b2)) j = compute_lattice_box n1 H (concat b1) j).
    { intros j Hj. rewrite !lattice_blocks; auto; try lia.
      - f_equal. apply (zip_bits1 j n1); auto.
      - intros w I. eapply zip_length; eauto. }
    assert (E2 : forall j, j < n2 -> compute_lattice_box (n1 + n2) H (concat (zip_app b1 b2)) (n1 + j) = compute_lattice_box n2 H (concat b2) j).
    { intros j Hj. rewrite !lattice_blocks; auto; try lia.
      - rewrite (primary_same H (n1 + j) j). f_equal. rewrite (zip_bits2 (n1 + j) n1) by (auto; lia). f_equal. lia.
      - intros w I. eapply zip_length; eauto. }
    unfold in_box. split.
    - intros I. split; intros j Hj.
      + specialize (I j ltac:(lia)). rewrite E1 in I by auto. unfold g, join_grid in I.
        destruct (Nat.ltb_spec j n1); [auto|lia].
      + specialize (I (n1 + j) ltac:(lia)). rewrite E2 in I by auto. unfold g, join_grid in I.
        destruct (Nat.ltb_spec (n1 + j) n1); [lia|]. replace (n1 + j - n1) with j in I by lia. exact I.
    - intros [I J] j Hj. unfold g, join_grid. destruct (Nat.ltb_spec j n1) as [A|A].
      + rewrite E1 by auto. auto.
      + assert (Hj2 : j - n1 < n2) by lia. specialize (J (j - n1) Hj2).
        rewrite <- E2 in J by auto. unfold second in J. replace (n1 + (j - n1)) with j in J by lia. exact J.
  Qed.
  Lemma adjoin_all_spec d (Hd : 0 < d) gg (M : monotone gg) cs : forall p, wf (p_tree p) -> (forall o, In o cs -> exists c, o = Ret c) ->
    exists p', adjoin_all d cs p = Ret p' /\ wf (p_tree p') /\
      forall x, ppoints d gg p' x <-> ppoints d gg p x \/ exists c, In (Ret c) cs /\ in_cell_box d gg c x.
  Proof.
    induction cs as [|o cs IH]; intros p W H; simpl.
    - exists p. split; auto. split; auto. intros x. split; [auto|]. intros [?|(c & [] & _)]; auto.
    - destruct (H o) as [c ->]; [simpl; auto|]. simpl.
      destruct (adjoin_cell_spec d gg M Hd c p W) as (q & -> & Wq & Q). simpl.
      destruct (IH q Wq) as (p' & -> & Wp & P); [intros; apply H; simpl; auto|].
      exists p'. split; auto. split; auto. intros x. rewrite P, Q. split.
      + intros [[?|?]|(c' & I & J)]; eauto.
      + intros [?|(c' & [E|I] & J)]; auto; [injection E as ->; auto|]. right. eauto.
  Qed.
  Lemma product_cells_spec r cs1 cs2 : (forall c, In c cs1 -> uniform n1 r c) -> (forall c, In c cs2 -> uniform n2 r c) ->
    exists p, product_cells n1 n2 cs1 cs2 = Ret p /\
      forall x, ppoints (n1 + n2) g p x <->
        (exists c, In c cs1 /\ in_cell_box n1 g1 c x) /\ (exists c, In c cs2 /\ in_cell_box n2 g2 c (second n1 x)).
  Proof.
    intros U1 U2. unfold product_cells.
    destruct (adjoin_all_spec (n1 + n2) ltac:(lia) g join_monotone (flat_map (fun c1 => map (product_cell_unchecked n1 n2 c1) cs2) cs1) (make_paving false))
      as (p & -> & _ & P).
    - simpl. auto.
    - intros o Io. apply in_flat_map in Io. destruct Io as (c1 & I1 & Io). apply in_map_iff in Io. destruct Io as (c2 & <- & I2).
      destruct (product_word_uniform r c1 c2) as (w & E & _); auto. unfold product_cell_unchecked. rewrite E. eauto.
    - exists p. split; auto. intros x. rewrite P. split.
      + intros [E|(c & Io & I)]; [exfalso; eapply (empty_points (n1 + n2) g join_monotone ltac:(lia) 0); exact E|].
        apply in_flat_map in Io. destruct Io as (c1 & I1 & Io). apply in_map_iff in Io. destruct Io as (c2 & E & I2).
        destruct (product_word_uniform r c1 c2) as (w & Ew & W); auto. unfold product_cell_unchecked in E. rewrite Ew in E.
        injection E as <-. apply W in I. destruct I. split; eauto.
      + intros [(c1 & I1 & J1) (c2 & I2 & J2)]. right. destruct (product_word_uniform r c1 c2) as (w & Ew & W); auto.
        eexists. split; [apply in_flat_map; exists c1; split; [exact I1|]; apply in_map_iff; exists c2; split; [|exact I2];
          unfold product_cell_unchecked; rewrite Ew; reflexivity|]. apply W. auto.
  Qed.
End Prod.

(** * image *)
Lemma skipn_nth (A : Type) (l : list A) : forall i j, nth_error l i = Some j -> skipn i l = j :: skipn (S i) l.
Proof.
  induction l as [|a l IH]; intros [|i] j H; simpl in *; try discriminate; [congruence|]. rewrite (IH i j H). reflexivity.
Qed.
Lemma image_word_single d prj w : length prj <> 0 -> (forall j, In j prj -> j < d) -> length w = d ->
  image_word d prj w = Some (map (fun j => nth j w false) prj).
Proof.
  intros Hp Hj L. unfold image_word. destruct (Nat.eq_dec d 0) as [->|Hd].
  { destruct prj as [|j prj]; [simpl in Hp; lia|]. specialize (Hj j (or_introl eq_refl)). lia. }
  rewrite L, Nat.div_same, Nat.mul_1_l by lia.
  assert (G : forall k, k <= length prj -> fold_right (fun i acc =>
      match acc, nth_error prj (i mod length prj) with
      | Some r, Some j => match nth_error w j with Some b => Some (b :: r) | None => None end
      | _, _ => None
      end) (Some []) (seq (length prj - k) k) = Some (map (fun j => nth j w false) (skipn (length prj - k) prj))).
  { induction k as [|k IH]; intros Hk.
    - simpl. rewrite Nat.sub_0_r, skipn_all. reflexivity.
    - simpl. replace (S (length prj - S k)) with (length prj - k) by lia. rewrite IH by lia.
      rewrite Nat.mod_small by lia. destruct (nth_error prj (length prj - S k)) as [j|] eqn:E.
      2:{ apply nth_error_None in E. lia. }
      assert (Hjd : j < d) by (apply Hj; eapply nth_error_In; eauto).
      rewrite (nth_error_nth' w false) by (rewrite L; auto).
      rewrite (skipn_nth _ prj _ _ E). replace (S (length prj - S k)) with (length prj - k) by lia. reflexivity. }
  specialize (G (length prj) (le_n _)). rewrite Nat.sub_diag in G. exact G.
Qed.
Lemma lattice_single d h w k : 0 < d -> k < d -> length w = d ->
  compute_lattice_box d h w k = half1 (nth k w false) (primary_cell_lattice_box h k).
Proof.
  intros Hd Hk L. pose proof (lattice_blocks d h [w] k Hd Hk) as B. simpl in B. rewrite app_nil_r in B. rewrite B; [reflexivity|].
  intros v [<-|[]]; auto.
Qed.
Lemma image_cell_single d prj g c : monotone g -> strict g -> 0 < length prj -> NoDup prj -> (forall j, In j prj -> j < d) ->
  length (c_word c) = d ->
  exists c', image_cell d prj c = Ret c' /\
    forall y, in_cell_box (length prj) (project_grid prj g) c' y <-> exists x, in_cell_box d g c x /\ projects prj x y.
Proof.
  intros M S Hp N Hj L.
  assert (Hd : 0 < d). { destruct prj as [|j prj]; [simpl in Hp; lia|]. specialize (Hj j (or_introl eq_refl)). lia. }
  unfold image_cell. rewrite L, Nat.mod_same by lia. simpl. rewrite image_word_single by (auto; lia).
  eexists. split; [reflexivity|]. intros y.
  assert (E : forall i j, nth_error prj i = Some j ->
    compute_lattice_box (length prj) (c_ext c) (map (fun j => nth j (c_word c) false) prj) i = compute_lattice_box d (c_ext c) (c_word c) j).
  { intros i j Hi. assert (Hjd : j < d) by (apply Hj; eapply nth_error_In; eauto).
    assert (Hil : i < length prj) by (apply nth_error_Some; congruence).
    rewrite !lattice_single by (auto; rewrite map_length; auto).
    rewrite (primary_same (c_ext c) i j). f_equal.
    apply (map_nth_error (fun j => nth j (c_word c) false)) in Hi. apply nth_error_nth with (d := false) in Hi. exact Hi. }
  unfold in_cell_box, cell_box. simpl. split.
  - intros I.
    set (pos := fun k => List.find (fun i => match nth_error prj i with Some j => j =? k | None => false end) (seq 0 (length prj))).
    exists (fun k => match pos k with Some i => y i | None => corner g (compute_lattice_box d (c_ext c) (c_word c)) k end).
    split.
    + intros k Hk. destruct (pos k) as [i|] eqn:Ep.
      * unfold pos in Ep. apply find_some in Ep. destruct Ep as [Ii Ep]. apply in_seq in Ii.
        destruct (nth_error prj i) as [j|] eqn:Ei; [|discriminate]. apply Nat.eqb_eq in Ep. subst j.
        specialize (I i ltac:(lia)). rewrite (E i k Ei) in I. unfold project_grid in I. rewrite (nth_error_nth _ _ 0 Ei) in I. exact I.
      * apply (cell_inhabited d g (c_ext c) (c_word c) M S k Hk).
    + intros i j Hi. destruct (pos j) as [i'|] eqn:Ep.
      * unfold pos in Ep. apply find_some in Ep. destruct Ep as [Ii Ep].
        destruct (nth_error prj i') as [j'|] eqn:Ei; [|discriminate]. apply Nat.eqb_eq in Ep. subst j'.
        assert (i = i'); [|subst; auto]. eapply (proj1 (NoDup_nth_error prj) N); [apply nth_error_Some; congruence|congruence].
      * exfalso. assert (Hil : i < length prj) by (apply nth_error_Some; congruence).
        unfold pos in Ep. pose proof (find_none _ _ Ep i) as F. cbv beta in F. rewrite Hi, Nat.eqb_refl in F.
        assert (Is : In i (seq 0 (length prj))) by (apply in_seq; lia). specialize (F Is). discriminate.
  - intros (x & I & P) i Hi. destruct (nth_error prj i) as [j|] eqn:Ei; [|apply nth_error_None in Ei; lia].
    rewrite (E i j Ei), (P i j Ei). unfold project_grid. rewrite (nth_error_nth _ _ 0 Ei). apply I. apply Hj. eapply nth_error_In; eauto.
Qed.
Lemma project_monotone prj g : monotone g -> monotone (project_grid prj g).
Proof. intros M k q q' H. apply M. exact H. Qed.
Lemma image_cells_single d prj g cs : monotone g -> strict g -> 0 < length prj -> NoDup prj -> (forall j, In j prj -> j < d) ->
  (forall c, In c cs -> length (c_word c) = d) ->
  exists p, image_cells d prj cs = Ret p /\
    forall y, ppoints (length prj) (project_grid prj g) p y <-> exists x, (exists c, In c cs /\ in_cell_box d g c x) /\ projects prj x y.
Proof.
  intros M S Hp N Hj L. unfold image_cells.
  destruct (adjoin_all_spec (length prj) Hp (project_grid prj g) (project_monotone prj g M) (map (image_cell d prj) cs) (make_paving false))
    as (p & -> & W & P).
  - simpl; auto.
  - intros o I. apply in_map_iff in I. destruct I as (c & <- & I).
    destruct (image_cell_single d prj g c M S Hp N Hj (L c I)) as (c' & E & _). eauto.
  - simpl. eexists. split; [reflexivity|]. intros y.
    rewrite ppoints_iff by (auto using project_monotone). simpl. rewrite recombine_covers.
    rewrite <- ppoints_iff by (auto using project_monotone). rewrite P. split.
    + intros [E|(c' & I & J)]; [exfalso; eapply (empty_points (length prj) (project_grid prj g)); [auto using project_monotone|auto|exact E]|].
      apply in_map_iff in I. destruct I as (c & E & I).
      destruct (image_cell_single d prj g c M S Hp N Hj (L c I)) as (c2 & E2 & H2). rewrite E2 in E. injection E as <-.
      apply H2 in J. destruct J as (x & J & K). eauto.
    + intros (x & (c & I & J) & K). right. destruct (image_cell_single d prj g c M S Hp N Hj (L c I)) as (c2 & E2 & H2).
      exists c2. split; [apply in_map_iff; eauto|]. apply H2. eauto.
Qed.
