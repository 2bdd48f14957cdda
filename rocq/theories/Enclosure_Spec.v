(** What an enclosure is: the points with their times, for the parameters in the domain which satisfy the constraints;
    and what the operations on it are supposed to do. *)
From Coq Require Import ZArith Reals List.
From Flocq Require Import Core IEEE754.BinarySingleNaN.
From Verif Require Import Logical_Model Float_Model Float_Spec Bounds_Model Bounds_Spec ConstraintSolver_Model ConstraintSolver_Spec.
From Verif Require Import LRU_Model Poly_Model Poly_Spec Taylor_Model Taylor_Spec Enclosure_Model.
Import ListNotations.
Local Open Scope R_scope.

Section Spec.
Context {prec emax : Z} {Hprec : Prec_gt_0 prec} {Hemax : Prec_lt_emax prec emax}.
Local Notation fl := (binary_float prec emax).
Local Notation bnd := (bounds prec emax).
Local Notation cbox := (list bnd).
Context {P F : Type}.

(** [pval p s v]: the patch [p] has the value [v] at [s], or may have it; [den f x v]: the same for functions. *)
Section Meaning.
Context (pval : P -> list R -> R -> Prop) (den : F -> list R -> R -> Prop).

Definition values (ps : list P) (s x : list R) : Prop := Forall2 (fun p v => pval p s v) ps x.
Definition images (fs : list F) (x y : list R) : Prop := Forall2 (fun f v => den f x v) fs y.
Definition satisfied (cs : list (P * bnd)) (s : list R) : Prop :=
  List.Forall (fun c => exists v, pval (fst c) s v /\ contains (snd c) v) cs.
(** The point [x] at time [t] with dwell time [d] is the one of the parameter [s]. *)
Definition point_at (E : @enclosure prec emax P F) (s x : list R) (t d : R) : Prop :=
  in_cbox (e_domain E) s /\ values (e_state E) s x /\ pval (e_time E) s t /\ pval (e_dwell E) s d /\ satisfied (e_constraints E) s.
(** ... and has not been lost by the reduction of the domain. *)
Definition kept_at (E : @enclosure prec emax P F) (s x : list R) (t d : R) : Prop := point_at E s x t d /\ in_cbox (e_reduced E) s.

(** Operations on patches do not lose values.  The last but one: without its error, an embedded patch has at every point
    with the same old arguments a value which is the same and within the error. *)
Record sound_ops (ops : @patch_operations prec emax P F) : Prop := {
  so_create : forall D f s v, in_cbox D s -> den f s v -> pval (p_create ops D f) s v;
  so_constant : forall D c s, in_cbox D s -> pval (p_constant ops D c) s c;
  so_coordinate : forall D i s, in_cbox D s -> (i < length D)%nat -> pval (p_coordinate ops D i) s (nth i s 0);
  so_compose : forall f ps s x v, values ps s x -> den f x v -> pval (p_compose ops f ps) s v;
  so_partial : forall f h x v, den f (x ++ [h]) v -> den (p_partial ops f h) x v;
  so_embed : forall p I s s' v, pval p s v -> in_cbox I s' -> pval (p_embed ops p I) (s ++ s') v;
  so_embed_front : forall D p s s' v, in_cbox D s -> pval p s' v -> pval (p_embed_front ops D p) (s ++ s') v;
  so_restrict : forall p D s v, in_cbox D s -> pval p s v -> pval (p_restrict ops p D) s v;
  so_add : forall p q s v w, pval p s v -> pval q s w -> pval (p_add ops p q) s (v + w);
  so_sub : forall p q s v w, pval p s v -> pval q s w -> pval (p_sub ops p q) s (v - w);
  so_shift : forall p c s v, pval p s v -> pval (p_shift ops p c) s (v + c);
  so_scale : forall p c s v, is_finite c = true -> pval p s v -> pval (p_scale ops p c) s (v * B2R c);
  so_error : forall p I s v, pval p s v -> is_finite (p_error ops (p_embed ops p I)) = true ->
    exists e, Rabs e <= B2R (p_error ops (p_embed ops p I)) /\
      forall s', in_cbox I s' -> pval (p_clobber ops (p_embed ops p I)) (s ++ s') (v - e);
  so_range : forall p B s v, in_cbox B s -> pval p s v -> contains (p_range ops p B) v
}.
(** Adding the interval [-e,e] gives all values which are as near. *)
Definition sound_blur (ops : @patch_operations prec emax P F) : Prop :=
  forall p e s v w, is_finite e = true -> pval p s v -> Rabs (w - v) <= B2R e -> pval (p_blur ops p e) s w.
(** The contractor does not lose solutions and the feasibility test says that there is none only if this is so. *)
Definition sound_contractor (contract : list (P * bnd) -> cbox -> cbox) : Prop :=
  forall cs B s, in_cbox B s -> satisfied cs s -> in_cbox (contract cs B) s.
Definition sound_feasible (feasible : cbox -> list (P * bnd) -> lv) : Prop :=
  forall cs B s, feasible B cs = FALSE -> in_cbox B s -> ~ satisfied cs s.

(** ** Histories *)
Inductive op :=
  | OMap (f : list F) | OMapAux (f a : list F) | ODiscrete (f : list F)
  | OFixed (is_patch : bool) (phi : list F) (h : R)
  | OSpace (phi : list F) (el : F) | OSpacetime (phi : list F) (el : F) | OParameter (phi : list F) (el : F)
  | OFinishing (phi : list F) (om : F)
  | OFullReach (phi : list F) (lo h : fl) | OSpacetimeReach (phi : list F) (lo h : fl) (el : F) | OParameterReach (phi : list F) (lo h : fl) (el : F)
  | OStateConstraint (g : F) (c : bnd) | OStateTimeConstraint (g : F) (c : bnd) | OParameterConstraint (g : F) (c : bnd)
  | OPositive (g : F) | ONegative (g : F) | OZero (g : F) | ONegativeParameter (g : F) | OZeroParameter (g : F)
  | OClear | OReduce | OIsEmpty.
Definition is_reach (o : op) : bool := match o with OFullReach _ _ _ | OSpacetimeReach _ _ _ _ | OParameterReach _ _ _ _ => true | _ => false end.
(** The time step of a flow is a number, and the flow is for a time interval. *)
Definition op_valid (o : op) : Prop :=
  match o with
  | OFullReach _ lo h | OSpacetimeReach _ lo h _ | OParameterReach _ lo h _ => is_finite h = true /\ flt_lt lo h = true
  | _ => True
  end.

(** What an operation does with one parameter, point, time and dwell time (enclosure.hpp:186-238).  The dwell time is
    the time since the last jump; [reach d r] is the one after flowing for time [r]. *)
Definition after (reach : R -> R -> R) (o : op) (s x : list R) (t d : R) (s' x' : list R) (t' d' : R) : Prop :=
  match o with
  | OMap f | OMapAux f _ => s' = s /\ images f x x' /\ t' = t /\ d' = 0
  | ODiscrete f => s' = s /\ images f x x' /\ t' = t + 1 /\ d' = 0
  | OFixed _ phi h => s' = s /\ images phi (x ++ [h]) x' /\ t' = t + h /\ d' = d + h
  | OSpace phi el => s' = s /\ exists e, den el x e /\ images phi (x ++ [e]) x' /\ t' = t + e /\ d' = d + e
  | OSpacetime phi el => s' = s /\ exists e, den el (x ++ [t]) e /\ images phi (x ++ [e]) x' /\ t' = t + e /\ d' = d + e
  | OParameter phi el => s' = s /\ exists e, den el s e /\ images phi (x ++ [e]) x' /\ t' = t + e /\ d' = d + e
  | OFinishing phi om => s' = s /\ exists w, den om s w /\ images phi (x ++ [w - t]) x' /\ t' = w /\ d' = d + (w - t)
  | OFullReach phi _ h => exists r, s' = s ++ [r] /\ 0 <= r <= B2R h /\ images phi (x ++ [r]) x' /\ t' = t + r /\ d' = reach d r
  | OSpacetimeReach phi _ h el => exists r e, s' = s ++ [r] /\ 0 <= r <= B2R h /\ den el (x ++ [t]) e /\ r <= e /\
      images phi (x ++ [r]) x' /\ t' = t + r /\ d' = reach d r
  | OParameterReach phi _ h el => exists r e, s' = s ++ [r] /\ 0 <= r <= B2R h /\ den el s e /\ r <= e /\
      images phi (x ++ [r]) x' /\ t' = t + r /\ d' = reach d r
  | OStateConstraint g c => (s' = s /\ x' = x /\ t' = t /\ d' = d) /\ exists v, den g x v /\ contains c v
  | OStateTimeConstraint g c => (s' = s /\ x' = x /\ t' = t /\ d' = d) /\ exists v, den g (x ++ [t]) v /\ contains c v
  | OParameterConstraint g c => (s' = s /\ x' = x /\ t' = t /\ d' = d) /\ exists v, den g s v /\ contains c v
  | OPositive g => (s' = s /\ x' = x /\ t' = t /\ d' = d) /\ exists v, den g x v /\ 0 <= v
  | ONegative g => (s' = s /\ x' = x /\ t' = t /\ d' = d) /\ exists v, den g x v /\ v <= 0
  | OZero g => (s' = s /\ x' = x /\ t' = t /\ d' = d) /\ exists v, den g x v /\ v = 0
  | ONegativeParameter g => (s' = s /\ x' = x /\ t' = t /\ d' = d) /\ exists v, den g s v /\ v <= 0
  | OZeroParameter g => (s' = s /\ x' = x /\ t' = t /\ d' = d) /\ exists v, den g s v /\ v = 0
  | OClear => s' = s /\ x' = x /\ t' = 0 /\ d' = 0
  | OReduce | OIsEmpty => s' = s /\ x' = x /\ t' = t /\ d' = d
  end.
Fixpoint history (reach : R -> R -> R) (os : list op) (s x : list R) (t d : R) (s' x' : list R) (t' d' : R) : Prop :=
  match os with
  | [] => s' = s /\ x' = x /\ t' = t /\ d' = d
  | o :: os' => exists s1 x1 t1 d1, after reach o s x t d s1 x1 t1 d1 /\ history reach os' s1 x1 t1 d1 s' x' t' d'
  end.
(** The operations of the program. *)
Definition run (ops : @patch_operations prec emax P F) (contract : list (P * bnd) -> cbox -> cbox) (o : op) (E : @enclosure prec emax P F) : @enclosure prec emax P F :=
  match o with
  | OMap f => apply_map ops f E
  | OMapAux f a => apply_map_aux ops f a E
  | ODiscrete f => discrete_step ops f E
  | OFixed b phi h => fixed_evolve ops b phi h E
  | OSpace phi el => space_evolve ops phi el E
  | OSpacetime phi el => spacetime_evolve ops phi el E
  | OParameter phi el => parameter_evolve ops phi el E
  | OFinishing phi om => finishing_evolve ops phi om E
  | OFullReach phi lo h => full_reach ops phi lo h E
  | OSpacetimeReach phi lo h el => spacetime_reach ops phi lo h el E
  | OParameterReach phi lo h el => parameter_reach ops phi lo h (p_create ops (e_domain E) el) E
  | OStateConstraint g c => new_state_constraint ops g c E
  | OStateTimeConstraint g c => new_state_time_constraint ops g c E
  | OParameterConstraint g c => new_parameter_constraint ops g c E
  | OPositive g => new_positive_state_constraint ops g E
  | ONegative g => new_negative_state_constraint ops g E
  | OZero g => new_zero_state_constraint ops g E
  | ONegativeParameter g => new_negative_parameter_constraint ops g E
  | OZeroParameter g => new_zero_parameter_constraint ops g E
  | OClear => clear_time ops E
  | OReduce => reduce contract E
  | OIsEmpty => snd (is_empty ops contract E)
  end.
Definition run_all ops contract (os : list op) (E : @enclosure prec emax P F) : @enclosure prec emax P F := fold_left (fun E o => run ops contract o E) os E.
End Meaning.

(** ** Patches which are functions, with exact operations *)
Section Exact.
Context (ev : P -> list R -> R) (fn : F -> list R -> R).
Definition exact_val (p : P) (s : list R) (v : R) : Prop := v = ev p s.
Definition exact_den (f : F) (x : list R) (v : R) : Prop := v = fn f x.
Record exact_ops (ops : @patch_operations prec emax P F) : Prop := {
  eo_create : forall D f s, ev (p_create ops D f) s = fn f s;
  eo_constant : forall D c s, ev (p_constant ops D c) s = c;
  eo_coordinate : forall D i s, ev (p_coordinate ops D i) s = nth i s 0;
  eo_compose : forall f ps s, ev (p_compose ops f ps) s = fn f (map (fun p => ev p s) ps);
  eo_partial : forall f h x, fn (p_partial ops f h) x = fn f (x ++ [h]);
  eo_embed : forall p I s s', length s' = length I -> ev (p_embed ops p I) (s ++ s') = ev p s;
  eo_embed_front : forall D p s s', length s = length D -> ev (p_embed_front ops D p) (s ++ s') = ev p s';
  eo_restrict : forall p D s, ev (p_restrict ops p D) s = ev p s;
  eo_add : forall p q s, ev (p_add ops p q) s = ev p s + ev q s;
  eo_sub : forall p q s, ev (p_sub ops p q) s = ev p s - ev q s;
  eo_shift : forall p c s, ev (p_shift ops p c) s = ev p s + c;
  eo_scale : forall p c s, ev (p_scale ops p c) s = ev p s * B2R c;
  eo_error : forall p s, p_error ops p = fzero /\ ev (p_clobber ops p) s = ev p s;
  eo_range : forall p B s, in_cbox B s -> contains (p_range ops p B) (ev p s)
}.
End Exact.

(** ** Boxes of real intervals *)
(** The numbers between [a] and [b] are described by [q]: bounds for the ends, and a domain which is not empty. *)
Definition describes (single : fl -> fl) (q : @real_interval prec emax) (a b : R) : Prop :=
  contains (ri_lb q) a /\ contains (ri_ub q) b /\
  is_finite (single (ri_la q)) = true /\ is_finite (single (ri_ua q)) = true /\ B2R (single (ri_la q)) <= B2R (single (ri_ua q)).

(** ** Sets of Taylor models *)
(** [z] is the number in [-1,1] which is scaled to [v] in the interval. *)
Definition scaled (I : bnd) (v z : R) : Prop := -1 <= z <= 1 /\ v = (B2R (b_l I) + B2R (b_u I)) / 2 + z * ((B2R (b_u I) - B2R (b_l I)) / 2).
Definition finite_box (D : cbox) : Prop := List.Forall (fun I => is_finite (b_l I) = true /\ is_finite (b_u I) = true) D.
Definition model_value (t : tm prec emax) (z : list R) (v : R) : Prop :=
  is_finite (t_err t) = true -> List.Forall (fun m => is_finite (snd m) = true) (t_exp t) /\ Rabs (v - peval (t_exp t) z) <= B2R (t_err t).
Definition tpoint_at (T : @tset prec emax) (s x : list R) (t d : R) : Prop :=
  exists z, Forall2 (fun Iv w => scaled (fst Iv) (snd Iv) w) (combine (ts_domain T) s) z /\ length s = length (ts_domain T) /\ Forall2 (fun m v => model_value m z v) (ts_state T) x /\
    model_value (ts_time T) z t /\ model_value (ts_dwell T) z d /\
    List.Forall (fun c => exists v, model_value (fst c) z v /\ contains (snd c) v) (ts_constraints T).
(** The multi-indices are as long as there are parameters. *)
Definition sized_set (T : @tset prec emax) : Prop :=
  let n := length (ts_domain T) in
  List.Forall (fun t : tm prec emax => sized n (t_exp t)) (ts_state T) /\ sized n (t_exp (ts_time T)) /\ sized n (t_exp (ts_dwell T)) /\
  List.Forall (fun c => sized n (t_exp (fst c))) (ts_constraints T).
End Spec.
