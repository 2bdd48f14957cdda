(** The existence theorem for the projected Newton step: a system of [k] equations in [n]
    unknowns, whose slopes lie in an interval matrix, is solved along the columns of a fixed
    matrix. *)
From Coq Require Import Reals List Lra Lia Arith FunctionalExtensionality.
From Verif Require Import Solver_Model Solver_Spec Newton_Math.
Local Open Scope R_scope.

Definition inJr (k n : nat) (lo hi A : mat) : Prop := forall i j, (i < k)%nat -> (j < n)%nat -> lo i j <= A i j <= hi i j.

Theorem projected_exists : forall k n loA hiA lo hi beta xl xu f m (L : mat),
  (forall i j, (i < k)%nat -> (j < n)%nat -> loA i j <= hiA i j) ->
  (forall i j, (i < k)%nat -> (j < k)%nat -> lo i j <= hi i j) -> 0 <= beta ->
  regular k lo hi beta ->
  (forall A, inJr k n loA hiA A -> inJ k lo hi (mm n A L)) ->
  (forall j, (j < n)%nat -> xl j <= xu j) -> inb n xl xu m ->
  (forall x y, inb n xl xu x -> inb n xl xu y -> exists A, inJr k n loA hiA A /\ forall i, (i < k)%nat -> f x i - f y i = mv n A (vsub x y) i) ->
  (forall A B, inJr k n loA hiA A -> inverses k (mm n A L) B -> inb n xl xu (fun j => m j - mv k L (mv k B (f m)) j)) ->
  exists x, inb n xl xu x /\ forall i, (i < k)%nat -> f x i = 0.
Proof.
  intros k n loA hiA lo hi beta xl xu f m L HA0 HJ Hb HR HL HX Hm HS HN.
  set (P := fun (x : vec) i => clamp (xl i) (xu i) (x i)).
  assert (PI : forall x, inb n xl xu (P x)) by (intros x i Li; apply clamp_in; auto).
  set (H := fun x i => f (P x) i + mv n loA (vsub x (P x)) i).
  assert (SH : forall x y, exists A, inJr k n loA hiA A /\ forall i, (i < k)%nat -> H x i - H y i = mv n A (vsub x y) i).
  { intros x y. destruct (HS (P x) (P y) (PI x) (PI y)) as [A [HA EA]].
    destruct (finite_choice_col n (fun j a => 0 <= a O <= 1 /\ clamp (xl j) (xu j) (x j) - clamp (xl j) (xu j) (y j) = a O * (x j - y j))) as [th Hth].
    { intros j Lj. destruct (clamp_slope (xl j) (xu j) (x j) (y j) (HX j Lj)) as [t Ht]. exists (fun _ => t). exact Ht. }
    exists (fun i j => th j O * A i j + (1 - th j O) * loA i j). split.
    - intros i j Li Lj. specialize (HA i j Li Lj). destruct (Hth j Lj) as [T _]. nra.
    - intros i Li. unfold H. specialize (EA i Li).
      replace (f (P x) i + mv n loA (vsub x (P x)) i - (f (P y) i + mv n loA (vsub y (P y)) i))
        with ((f (P x) i - f (P y) i) + (mv n loA (vsub x (P x)) i - mv n loA (vsub y (P y)) i)) by ring.
      rewrite EA. unfold mv. rewrite <- sum_minus, <- sum_plus. apply sum_ext. intros j Lj. destruct (Hth j Lj) as [_ E]. unfold vsub, P in *.
      replace (loA i j * (x j - clamp (xl j) (xu j) (x j)) - loA i j * (y j - clamp (xl j) (xu j) (y j)))
        with (loA i j * ((x j - y j) - (clamp (xl j) (xu j) (x j) - clamp (xl j) (xu j) (y j)))) by ring. rewrite E. ring. }
  set (pos := fun u : vec => (fun j => m j + mv k L u j) : vec).
  set (phi := fun u => H (pos u)).
  assert (MM : forall A u v i, mv n A (vsub (pos u) (pos v)) i = mv k (mm n A L) (vsub u v) i).
  { intros A u v i. unfold mv, mm, pos, vsub, mv.
    transitivity (sum n (fun j => sum k (fun l => A i j * L j l * (u l - v l)))).
    - apply sum_ext. intros j _. rewrite (sum_ext k (fun l => A i j * L j l * (u l - v l)) (fun l => A i j * (L j l * u l - L j l * v l))) by (intros; ring).
      rewrite sum_scal, sum_minus. ring.
    - rewrite sum_swap. apply sum_ext. intros l _. apply sum_scal_r. }
  assert (ST : slopes k lo hi (fun _ => True) phi).
  { intros u v _ _. destruct (SH (pos u) (pos v)) as [A [HA EA]]. exists (mm n A L). split; [apply HL; exact HA|].
    intros i Li. unfold phi. rewrite (EA i Li). apply MM. }
  destruct (global_zero k lo hi beta phi HJ Hb HR ST) as [u Zu].
  destruct (SH (pos u) (pos (fun _ => 0))) as [A [HA EA]]. destruct (HR _ (HL A HA)) as [B [HB _]].
  assert (Pm : forall j, pos (fun _ => 0) j = m j).
  { intros j. unfold pos, mv. rewrite (sum_ext k _ (fun _ => 0)) by (intros; ring). rewrite sum_0. ring. }
  assert (Em : forall j, (j < n)%nat -> P (pos (fun _ => 0)) j = m j) by (intros j Lj; unfold P; rewrite Pm; apply clamp_id; apply Hm; exact Lj).
  assert (Fm : forall i, (i < k)%nat -> H (pos (fun _ => 0)) i = f m i).
  { intros i Li. unfold H. destruct (HS (P (pos (fun _ => 0))) m (PI _) Hm) as [A1 [_ E1]]. specialize (E1 i Li).
    assert (Z1 : mv n A1 (vsub (P (pos (fun _ => 0))) m) i = 0).
    { unfold mv. rewrite (sum_ext n _ (fun _ => 0)); [apply sum_0|]. intros j Lj. unfold vsub. rewrite (Em j Lj). ring. }
    assert (Z2 : mv n loA (vsub (pos (fun _ => 0)) (P (pos (fun _ => 0)))) i = 0).
    { unfold mv. rewrite (sum_ext n _ (fun _ => 0)); [apply sum_0|]. intros j Lj. unfold vsub. rewrite (Em j Lj), Pm. ring. }
    lra. }
  assert (Q : veq k (mv k (mm n A L) u) (fun i => - f m i)).
  { intros i Li. pose proof (EA i Li) as E. rewrite MM in E. fold (phi u) in E. rewrite (Zu i Li), (Fm i Li) in E.
    replace (mv k (mm n A L) u i) with (mv k (mm n A L) (vsub u (fun _ => 0)) i); [lra|]. unfold mv. apply sum_ext. intros; unfold vsub; ring. }
  pose proof (inverse_apply k _ B _ _ HB Q) as R1.
  assert (Eu : veq k u (fun i => - mv k B (f m) i)).
  { intros i Li. rewrite (R1 i Li). unfold mv. rewrite <- sum_opp. apply sum_ext. intros; ring. }
  assert (Ex : forall j, pos u j = m j - mv k L (mv k B (f m)) j).
  { intros j. unfold pos. unfold mv at 1 2. rewrite (sum_ext k _ (fun i => - (L j i * mv k B (f m) i))) by (intros i Li; rewrite (Eu i Li); ring). rewrite sum_opp. ring. }
  assert (Ix : inb n xl xu (pos u)). { intros j Lj. rewrite Ex. apply (HN A B HA HB j Lj). }
  assert (Px : forall j, (j < n)%nat -> P (pos u) j = pos u j) by (intros j Lj; apply clamp_id; apply Ix; exact Lj).
  exists (P (pos u)). split; [apply PI|]. intros i Li. specialize (Zu i Li). unfold phi, H in Zu.
  assert (Z : mv n loA (vsub (pos u) (P (pos u))) i = 0).
  { unfold mv. rewrite (sum_ext n _ (fun _ => 0)); [apply sum_0|]. intros j Lj. unfold vsub. rewrite (Px j Lj). ring. }
  lra.
Qed.

