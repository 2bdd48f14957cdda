(** Two number types for differentials: the exact real numbers, and intervals
    of real numbers. *)
From Coq Require Import NArith List Bool Reals Lra Lia Permutation Sorted.
From Verif Require Import LRU_Model Poly_Model Poly_Spec Poly_Proofs Diff_Model Diff_Spec.
Import ListNotations.
Local Open Scope R_scope.

(** An insertion sort by the graded order. *)
Section Sort.
Context {A : Type}.
Fixpoint sort_insert (m : mi * A) (e : list (mi * A)) : list (mi * A) :=
  match e with [] => [m] | h :: e' => if graded_less (fst h) (fst m) then h :: sort_insert m e' else m :: e end.
Definition insertion_sort (e : list (mi * A)) : list (mi * A) := fold_right sort_insert [] e.

Lemma sort_insert_perm m e : Permutation (m :: e) (sort_insert m e).
Proof.
  induction e as [|h e IH]; simpl; [reflexivity|]. destruct (graded_less (fst h) (fst m)); [|reflexivity].
  rewrite perm_swap. now apply perm_skip.
Qed.
Notation no_inv := (StronglySorted (fun m m' : mi * A => graded_less (fst m') (fst m) = false)).
Lemma sort_insert_sorted n m e : length (fst m) = n -> sized n e -> no_inv e -> no_inv (sort_insert m e).
Proof.
  destruct m as [am cm]. intros Lm. simpl in Lm. induction e as [|[ah ch] e IH]; intros Z S; simpl; [repeat constructor|].
  inversion_clear S as [|? ? S' F]. apply Forall_cons_iff in Z as [Lh Z]. simpl in Lh, F.
  destruct (graded_less ah am) eqn:Q.
  - constructor; [now apply IH|]. apply List.Forall_forall. intros x I.
    apply (Permutation_in _ (Permutation_sym (sort_insert_perm (am, cm) e))) in I. destruct I as [<-|I].
    + apply (less_asym n graded_less (graded_order n)); assumption.
    + rewrite List.Forall_forall in F. now apply F.
  - constructor; [constructor; assumption|]. constructor; [exact Q|]. unfold sized in Z. rewrite List.Forall_forall in *. intros [ax cx] I.
    specialize (F _ I). specialize (Z _ I). simpl in *. destruct (graded_less ax am) eqn:G; [|reflexivity].
    destruct (proj2 (proj2 (graded_order n)) ax ah Z Lh) as [K|[K|K]]; [congruence | congruence |].
    rewrite (less_trans n graded_less (graded_order n) ah ax am Lh Z Lm K G) in Q. discriminate Q.
Qed.
Lemma insertion_sort_result n e : sized n e -> sort_result graded_less e (insertion_sort e).
Proof.
  intros Z. induction e as [|m e IH]; [split; constructor|]. apply Forall_cons_iff in Z as [L Z]. destruct (IH Z) as [P S]. split.
  - simpl. rewrite <- sort_insert_perm. now apply perm_skip.
  - simpl. apply (sort_insert_sorted n); [exact L | | exact S].
    unfold sized in *. rewrite List.Forall_forall in *. intros x I. apply Z. eapply Permutation_in; [apply Permutation_sym, P | exact I].
Qed.
End Sort.

(** ** Exact numbers *)
Definition is0R (x : R) : bool := if Req_EM_T x 0 then true else false.
Definition posR (x : R) : bool := if Rlt_dec 0 x then true else false.
Definition RX : scalar :=
  mkScalar R 0 (fun n => INR (N.to_nat n)) Rplus Rminus Rmult Rdiv Ropp (fun x => x / 2) Rinv sqrt exp ln sin cos tan atan
           is0R posR insertion_sort.
Lemma RX_encloses : encloses RX (fun c r => c = r).
Proof.
  constructor; simpl; intros; subst; try reflexivity.
  - unfold is0R in *. now destruct (Req_EM_T r 0). - unfold posR in *. now destruct (Rlt_dec 0 r).
  - eapply insertion_sort_result; eassumption.
Qed.

(** ** Intervals: [None] is the set of all numbers *)
Definition ival := option (R * R).
Definition in_ival (v : ival) (x : R) : Prop := match v with None => True | Some (l, u) => l <= x <= u end.
Definition iop1 (f : R * R -> ival) (v : ival) : ival := match v with None => None | Some p => f p end.
Definition iop2 (f : R * R -> R * R -> ival) (v w : ival) : ival := match v, w with Some p, Some q => f p q | _, _ => None end.
Definition min4 (a b c d : R) : R := Rmin (Rmin a b) (Rmin c d).
Definition max4 (a b c d : R) : R := Rmax (Rmax a b) (Rmax c d).
Definition imul (p q : R * R) : ival :=
  Some (min4 (fst p * fst q) (fst p * snd q) (snd p * fst q) (snd p * snd q), max4 (fst p * fst q) (fst p * snd q) (snd p * fst q) (snd p * snd q)).
Definition irec (p : R * R) : ival := if Rlt_dec 0 (fst p) then Some (/ snd p, / fst p) else if Rlt_dec (snd p) 0 then Some (/ snd p, / fst p) else None.
Definition point (f : R -> R) (p : R * R) : ival := if Req_EM_T (fst p) (snd p) then Some (f (fst p), f (fst p)) else None.
Definition IX : scalar :=
  mkScalar ival (Some (0, 0)) (fun n => Some (INR (N.to_nat n), INR (N.to_nat n)))
    (iop2 (fun p q => Some (fst p + fst q, snd p + snd q))) (iop2 (fun p q => Some (fst p - snd q, snd p - fst q)))
    (iop2 imul) (iop2 (fun p q => iop2 imul (Some p) (irec q)))
    (iop1 (fun p => Some (- snd p, - fst p))) (iop1 (fun p => Some (fst p / 2, snd p / 2))) (iop1 irec)
    (iop1 (fun p => Some (sqrt (fst p), sqrt (snd p)))) (iop1 (fun p => Some (exp (fst p), exp (snd p))))
    (iop1 (fun p => if Rlt_dec 0 (fst p) then Some (ln (fst p), ln (snd p)) else None))
    (iop1 (fun p => if Req_EM_T (fst p) (snd p) then Some (sin (fst p), sin (fst p)) else Some (-1, 1)))
    (iop1 (fun p => if Req_EM_T (fst p) (snd p) then Some (cos (fst p), cos (fst p)) else Some (-1, 1)))
    (iop1 (point tan)) (iop1 (fun p => Some (atan (fst p), atan (snd p))))
    (fun v => match v with Some (l, u) => is0R l && is0R u | None => false end)
    (fun v => match v with Some (l, _) => posR l | None => false end) insertion_sort.

Lemma mul_bounds a b c d x y : a <= x <= b -> c <= y <= d -> min4 (a * c) (a * d) (b * c) (b * d) <= x * y <= max4 (a * c) (a * d) (b * c) (b * d).
Proof.
  intros X Y.
  assert (P : min4 (a * c) (a * d) (b * c) (b * d) <= a * c /\ min4 (a * c) (a * d) (b * c) (b * d) <= a * d /\ min4 (a * c) (a * d) (b * c) (b * d) <= b * c /\ min4 (a * c) (a * d) (b * c) (b * d) <= b * d).
  { unfold min4. pose proof (Rmin_l (Rmin (a * c) (a * d)) (Rmin (b * c) (b * d))). pose proof (Rmin_r (Rmin (a * c) (a * d)) (Rmin (b * c) (b * d))).
    pose proof (Rmin_l (a * c) (a * d)). pose proof (Rmin_r (a * c) (a * d)). pose proof (Rmin_l (b * c) (b * d)). pose proof (Rmin_r (b * c) (b * d)). repeat split; lra. }
  assert (Q : max4 (a * c) (a * d) (b * c) (b * d) >= a * c /\ max4 (a * c) (a * d) (b * c) (b * d) >= a * d /\ max4 (a * c) (a * d) (b * c) (b * d) >= b * c /\ max4 (a * c) (a * d) (b * c) (b * d) >= b * d).
  { unfold max4. pose proof (Rmax_l (Rmax (a * c) (a * d)) (Rmax (b * c) (b * d))). pose proof (Rmax_r (Rmax (a * c) (a * d)) (Rmax (b * c) (b * d))).
    pose proof (Rmax_l (a * c) (a * d)). pose proof (Rmax_r (a * c) (a * d)). pose proof (Rmax_l (b * c) (b * d)). pose proof (Rmax_r (b * c) (b * d)). repeat split; lra. }
  set (m := min4 _ _ _ _) in *. set (M := max4 _ _ _ _) in *. clearbody m M. split.
  - destruct (Rle_dec 0 x) as [Hx|Hx]; destruct (Rle_dec 0 y) as [Hy|Hy]; destruct (Rle_dec 0 a) as [Ha|Ha]; destruct (Rle_dec 0 b) as [Hb|Hb]; destruct (Rle_dec 0 c) as [Hc|Hc]; destruct (Rle_dec 0 d) as [Hd|Hd]; try lra; nra.
  - destruct (Rle_dec 0 x) as [Hx|Hx]; destruct (Rle_dec 0 y) as [Hy|Hy]; destruct (Rle_dec 0 a) as [Ha|Ha]; destruct (Rle_dec 0 b) as [Hb|Hb]; destruct (Rle_dec 0 c) as [Hc|Hc]; destruct (Rle_dec 0 d) as [Hd|Hd]; try lra; nra.
Qed.
Lemma irec_in p x : fst p <= x <= snd p -> x <> 0 -> in_ival (irec p) (/ x).
Proof.
  intros B N. unfold irec. destruct (Rlt_dec 0 (fst p)); [|destruct (Rlt_dec (snd p) 0)]; simpl; [| |exact Logic.I].
  - split; apply Rinv_le_contravar; lra.
  - assert (A : forall u v, u < 0 -> v < 0 -> u <= v -> / v <= / u).
    { intros u v U V L. apply Ropp_le_cancel. rewrite <- !Rinv_opp. apply Rinv_le_contravar; lra. }
    split; apply A; lra.
Qed.
Lemma IX_encloses : encloses IX in_ival.
Proof.
  constructor; [simpl; lra | intros; simpl; lra | ..].
  - intros [[a b]|] [[c d]|] r s A B; simpl in *; try exact Logic.I; lra.
  - intros [[a b]|] [[c d]|] r s A B; simpl in *; try exact Logic.I; lra.
  - intros [[a b]|] [[c d]|] r s A B; simpl in *; try exact Logic.I. now apply mul_bounds.
  - intros [[a b]|] [[c d]|] r s A B N; simpl in *; try exact Logic.I. pose proof (irec_in (c, d) s B N) as C. destruct (irec (c, d)) as [[e f]|]; [|exact Logic.I].
    simpl in *. apply mul_bounds; assumption.
  - intros [[a b]|] r; simpl; [lra | tauto].
  - intros [[a b]|] r; simpl; [lra | tauto].
  - intros [[a b]|] r A N; [apply (irec_in (a, b)); assumption | exact Logic.I].
  - intros [[a b]|] r A N; simpl in *; [|exact Logic.I]. split; apply sqrt_le_1_alt; lra.
  - intros [[a b]|] r A; simpl in *; [|exact Logic.I]. destruct A as [[A|A] [B|B]]; subst; try (apply exp_increasing in A); try (apply exp_increasing in B); lra.
  - intros [[a b]|] r A N; simpl in *; [|exact Logic.I]. destruct (Rlt_dec 0 a); simpl; [|exact Logic.I].
    destruct A as [[A|A] [B|B]]; subst; try (apply ln_increasing in A; [|lra]); try (apply ln_increasing in B; [|lra]); lra.
  - intros [[a b]|] r A; simpl in *; [|exact Logic.I]. destruct (Req_EM_T a b) as [<-|]; simpl; [assert (r = a) by lra; subst; lra | apply SIN_bound].
  - intros [[a b]|] r A; simpl in *; [|exact Logic.I]. destruct (Req_EM_T a b) as [<-|]; simpl; [assert (r = a) by lra; subst; lra | apply COS_bound].
  - intros [[a b]|] r A N; simpl in *; [|exact Logic.I]. unfold point; simpl. destruct (Req_EM_T a b) as [<-|]; simpl; [assert (r = a) by lra; subst; lra | exact Logic.I].
  - intros [[a b]|] r A; simpl in *; [|exact Logic.I]. destruct A as [[A|A] [B|B]]; subst; try (apply atan_increasing in A); try (apply atan_increasing in B); lra.
  - intros [[a b]|] r; [|intros C; discriminate C]. cbn. unfold is0R. destruct (Req_EM_T a 0); [|intros C; discriminate C]. destruct (Req_EM_T b 0); [|intros C; discriminate C]. intros _. lra.
  - intros [[a b]|] r; [|intros C; discriminate C]. cbn. unfold posR. destruct (Rlt_dec 0 a); [|intros C; discriminate C]. intros _. lra.
  - apply (@insertion_sort_result ival).
Qed.
