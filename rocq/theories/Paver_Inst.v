(** Pavings, cells and operations which do what Paver_Spec.v asks for, for the examples. *)
From Coq Require Import ZArith Reals List Bool Lra Lia.
From Coquelicot Require Import Rbar.
From Flocq Require Import Core IEEE754.BinarySingleNaN.
From Verif Require Import Logical_Model Float_Model Float_Spec Float_Proofs Bounds_Model Bounds_Spec Bounds_Proofs Bounds_Props Ball_Props Box_Num_Proofs.
From Verif Require Import ConstraintSolver_Model ConstraintSolver_Spec FunctionSet_Model FunctionSet_Spec FunctionSet_Proofs FunctionSet_Inst Paver_Model Paver_Spec Paver_Proofs.
Import ListNotations.
Local Open Scope R_scope.
Local Notation dbnd := (bounds 53 1024).

(** The midpoint. *)
Definition wmid (X : dbnd) : DP :=
  let m := fmul mode_NE (fadd mode_NE (b_l X) (b_u X)) (dp 1 (-1)) in
  if is_finite m && flt_le (b_l X) m && flt_le m (b_u X) then m else wmiddle X.
Definition pops : @function_operations 53 1024 wnum wfun := {|
  fo_get := wget; fo_float := WF; fo_args := w_args; fo_range := w_range; fo_compose := wcompose; fo_coordinate := wcoordinate;
  fo_reduce := wreduce; fo_feasible := wfeasible; fo_optimise := woptimise; fo_middle := wmid; fo_widest := fun _ => 0%nat |}.
Lemma pops_sound : sound_ops wrv w_den pops.
Proof.
  destruct wops_sound as [A1 A2 A3 A4 A5 A6 A7 A8 A9 A10 A11 A12 A13]. constructor; [exact A1|exact A2|exact A3|exact A4|exact A5|exact A6|exact A7|exact A8|exact A9|exact A10| | |].
  - intros X r E H. change (fo_middle pops X) with (wmid X) in H. unfold wmid in H. destruct (_ && _ && _) eqn:K; [|apply A11; auto].
    apply andb_prop in K. destruct K as [K K2]. apply andb_prop in K. destruct K as [K0 K1].
    destruct H as [[L U]|[L U]]; cbn [b_l b_u] in *; split; auto; [eapply refines_above; eauto|eapply refines_below; eauto].
  - intros X E. change (fo_middle pops X) with (wmid X). unfold wmid. destruct (_ && _ && _) eqn:K; [|apply A12; auto].
    apply andb_prop in K. destruct K as [K K2]. apply andb_prop in K. destruct K as [K0 K1]. unfold ivl_empty; cbn [b_l b_u]. split; apply le_not_lt; auto.
  - intros X FX E. change (fo_middle pops X) with (wmid X). unfold wmid. destruct (_ && _ && _) eqn:K; [|apply A13; auto].
    apply andb_prop in K. destruct K as [K K2]. apply andb_prop in K. tauto.
Qed.

Record cell := mkCell { cl_depth : Z; cl_bounds : list dbnd }.
Definition fin_box (B : list dbnd) : bool := forallb (fun Y => is_finite (b_l Y) && is_finite (b_u Y)) B.
Definition cl_box (c : cell) : list dbnd := if fin_box (cl_bounds c) then cl_bounds c else [].
Definition cl_split (c : cell) : cell * cell :=
  let d := (cl_depth c + 1)%Z in
  if box_empty (cl_box c) then (mkCell d (cl_bounds c), mkCell d (cl_bounds c))
  else match split_at pops (Z.to_nat (cl_depth c mod Z.of_nat (length (cl_box c)))) (cl_box c) with
       | Some (B1, B2) => (mkCell d B1, mkCell d B2)
       | None => (mkCell d (cl_bounds c), mkCell d (cl_bounds c))
       end.
Definition cl_in (c : cell) (x : list R) : Prop := in_cbox (cl_box c) x.
Definition pv_in (p : list cell) (x : list R) : Prop := Exists (fun c => cl_in c x) p.
Definition first_width (B : list dbnd) : DP := match B with [] => fzero | Y :: _ => fsub mode_UP (b_u Y) (b_l Y) end.
Definition outer (p : list cell) (B : list dbnd) : option (list cell) := if fin_box B then Some (mkCell 0 B :: p) else None.
Definition narrow (B : list dbnd) : bool := flt_lt (first_width B) (dp 1 0).
Definition wpaver (neg : bool) (ws : list DP) : @paver_operations 53 1024 wnum wfun (list cell) cell unit := {|
  po_superset := fun p b => existsb (fun c => Nat.eqb (length (cl_box b)) (length (cl_box c)) && box_subset (cl_box b) (cl_box c)) p;
  po_adjoin := fun p b => b :: p;
  po_outer := fun p B _ => outer p B;
  po_enclosing := fun _ B => if fin_box B then Some (mkCell 0 B) else None;
  po_recombine := fun p => p;
  ce_box := cl_box; ce_depth := cl_depth; ce_split := cl_split;
  po_box_reduce := fun D _ _ _ => D;
  po_hull_reduce := fun D f Y => wreduce D [f] [Y];
  po_lipschitz := fun _ _ => 0%nat;
  po_nonlinear := fun fg D _ => if existsb (fun f => flt_lt (dp 1 0) (first_width [w_range f D])) fg then Some 0%nat else None;
  po_affine := fun p V _ => outer p (apply_range pops (v_fun V) (v_dom V));
  po_small := fun _ B _ => forallb (fun Y => flt_le (first_width [Y]) (dp 1 0)) B;
  po_again := fun _ _ => false;
  po_below4 := fun _ A B => flt_lt (first_width A) (fmul mode_UP (dp 4 0) (first_width B));
  po_wider := fun _ A B => flt_lt (first_width A) (first_width B);
  po_larger := fun A B => flt_lt (first_width B) (first_width A);
  po_solve := fun _ _ _ _ => Some (tt, neg);
  po_weights := fun _ => ws; po_relax := fun x => x; po_centre := fun x _ => x; po_start := fun _ _ => tt;
  po_dual := fun N D fg bx w => if box_disjoint (apply_range pops fg D) bx && narrow D then map (fun _ => b_empty) N else N |}.

Lemma fin_box_spec B : fin_box B = true <-> finite_box B.
Proof.
  unfold fin_box, finite_box. rewrite forallb_forall, Forall_forall. split; intros H Y I; specialize (H Y I); [apply andb_prop in H; exact H|destruct H as [H1 H2]; rewrite H1, H2; reflexivity].
Qed.
Lemma cl_box_finite c : finite_box (cl_box c).
Proof. unfold cl_box. destruct fin_box eqn:E; [apply fin_box_spec; auto|constructor]. Qed.
Lemma cl_box_fin d B : finite_box B -> cl_box (mkCell d B) = B.
Proof. intros H. unfold cl_box. cbn [cl_bounds]. apply fin_box_spec in H. rewrite H. reflexivity. Qed.
Lemma split_fin k (D D1 D2 : list dbnd) : split_at pops k D = Some (D1, D2) -> finite_box D -> box_empty D = false -> finite_box D1 /\ finite_box D2.
Proof.
  intros E FD NE. unfold split_at in E. destruct nth_error as [Y|] eqn:N; [|discriminate]. cbv zeta in E. injection E as <- <-.
  pose proof (finite_at _ _ _ FD N) as FY. pose proof (so_middle _ _ _ pops_sound Y FY (box_empty_at _ _ _ N NE)) as M. destruct FY as [F1 F2].
  split; apply set_at_finite; auto; split; auto.
Qed.
Lemma cl_split_in b x : cl_in b x <-> cl_in (fst (cl_split b)) x \/ cl_in (snd (cl_split b)) x.
Proof.
  unfold cl_split. cbv zeta. destruct (box_empty (cl_box b)) eqn:E; [cbn [fst snd]; unfold cl_in; tauto|].
  destruct split_at as [[B1 B2]|] eqn:S; [|cbn [fst snd]; unfold cl_in; tauto]. cbn [fst snd]. unfold cl_in.
  destruct (split_fin _ _ _ _ S (cl_box_finite b) E) as [F1 F2]. rewrite !cl_box_fin by auto.
  split; intros H; [eapply (split_covers wrv w_den pops pops_sound); eauto; apply cl_box_finite|eapply (split_parts wrv w_den pops pops_sound); eauto].
Qed.
Lemma outer_spec p B q x : outer p B = Some q -> pv_in p x \/ in_cbox B x -> pv_in q x.
Proof.
  unfold outer. destruct fin_box eqn:E; [|discriminate]. intros H K. injection H as <-. destruct K as [K|K]; [apply Exists_cons_tl; auto|apply Exists_cons_hd].
  unfold cl_in. rewrite cl_box_fin; auto. apply fin_box_spec; auto.
Qed.
Lemma empties_empty (N : list dbnd) : N <> [] -> box_empty (map (fun _ => @b_empty 53 1024) N) = true.
Proof. destruct N; [contradiction|]. intros _. reflexivity. Qed.
Lemma wpaver_sound neg ws : sound_paver wrv w_den pv_in cl_in (wpaver neg ws).
Proof.
  constructor.
  - intros p b x H I. cbn [wpaver po_superset] in H. apply existsb_exists in H. destruct H as (c & Hc & H). apply andb_prop in H. destruct H as [H1 H2]. apply Nat.eqb_eq in H1.
    apply Exists_exists. exists c. split; auto. eapply subset_in; eauto.
  - intros p b x. cbn [wpaver po_adjoin]. unfold pv_in. rewrite Exists_cons. tauto.
  - intros p B n q x. apply outer_spec.
  - intros p B b x. cbn [wpaver po_enclosing]. destruct fin_box eqn:E; [|discriminate]. intros H I. injection H as <-. unfold cl_in. rewrite cl_box_fin; auto. apply fin_box_spec; auto.
  - intros p x. cbn [wpaver po_recombine]. tauto.
  - intros b x H. exact H.
  - intros b. apply cl_box_finite.
  - intros b x. apply cl_split_in.
  - intros b. cbn [wpaver ce_depth ce_split]. unfold cl_split. cbv zeta. destruct box_empty; [split; reflexivity|]. destruct split_at as [[]|]; split; reflexivity.
  - intros D f Y j s H _. exact H.
  - intros D f Y j H _. exact H.
  - intros D f Y s H I. cbn [wpaver po_hull_reduce]. apply (so_reduce _ _ _ pops_sound D [f] [Y] s H). constructor; [exact I|constructor].
  - intros D f Y H E. cbn [wpaver po_hull_reduce] in *. unfold wreduce in *. destruct box_disjoint; auto. destruct D as [|d D]; [constructor|]. discriminate E.
  - intros p V n q x E H. cbn [wpaver po_affine] in E. eapply outer_spec; [exact E|]. destruct H as [H|(s & D & _ & ->)]; auto. right. apply (range_in wrv w_den pops pops_sound); auto.
  - intros N D fg bx w s _ _ I J K _. cbn [wpaver po_dual]. destruct box_disjoint eqn:E; cbn [andb]; auto. exfalso.
    eapply disjoint_none; [exact E| |exact K]. apply (range_in wrv w_den pops pops_sound); auto.
Qed.
