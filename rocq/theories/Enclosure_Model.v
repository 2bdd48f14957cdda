(** Enclosures: source/dynamics/enclosure.cpp.

    A function patch (a validated function model on a box of parameters) is any type [P] with the operations which
    enclosures use; validated functions are any type [F].  Boxes are lists of bounds.  Not modelled: assertions on
    sizes, drawing, output, pavings, labels, the choice of a direction for splitting. *)
From Coq Require Import ZArith NArith Bool List Reals.
From Flocq Require Import Core IEEE754.BinarySingleNaN.
From Verif Require Import Logical_Model Float_Model Bounds_Model Box_Float_Model ConstraintSolver_Model Bounder_Model.
From Verif Require Import LRU_Model Poly_Model Taylor_Model.
Import ListNotations.

Section Enclosure.
Context {prec emax : Z} {Hprec : Prec_gt_0 prec} {Hemax : Prec_lt_emax prec emax}.
Local Notation fl := (binary_float prec emax).
Local Notation bnd := (bounds prec emax).
Local Notation cbox := (list bnd).
Context {P F : Type}.

(** function/function_patch.hpp, function/scaled_function_patch.hpp *)
Record patch_operations := {
  p_create : cbox -> F -> P;           (** function_factory().create(domain,f) *)
  p_constant : cbox -> R -> P;         (** create_constant, create_zero *)
  p_coordinate : cbox -> nat -> P;     (** create_coordinate; create_identity is one for each index *)
  p_compose : F -> list P -> P;        (** compose(f,p) of a scalar and a vector function *)
  p_partial : F -> R -> F;             (** partial_evaluate in the last argument *)
  p_embed : P -> cbox -> P;            (** embed(f,domain): new arguments at the end *)
  p_embed_front : cbox -> P -> P;      (** embed(domain,f): new arguments in front *)
  p_restrict : P -> cbox -> P;         (** restriction *)
  p_add : P -> P -> P;
  p_sub : P -> P -> P;
  p_shift : P -> R -> P;               (** f+c for a number c *)
  p_blur : P -> fl -> P;               (** f+FloatDPBounds(-e,+e) *)
  p_scale : P -> fl -> P;              (** f*FloatDPBounds(c) *)
  p_error : P -> fl;                   (** the uniform error *)
  p_clobber : P -> P;                  (** set the uniform error to zero *)
  p_range : P -> cbox -> bnd           (** apply(f,box) *)
}.
Context (ops : patch_operations).

(** enclosure.hpp:95: the kinds which are used in enclosure.cpp *)
Inductive kind := INITIAL | TEMPORAL | ERROR.
(** enclosure.hpp:101-118; the configuration is [ops] *)
Record enclosure := mkE {
  e_domain : cbox;
  e_aux : list F;
  e_state : list P;
  e_time : P;
  e_dwell : P;
  e_constraints : list (P * bnd);
  e_reduced : cbox;
  e_fully : bool;
  e_kinds : list kind
}.

Section Contractor.
  (** [contract] is ConstraintSolver::reduce (see C104), [feasible] is the answer of ConstraintSolver::feasible (C106) *)
  Context (contract : list (P * bnd) -> cbox -> cbox) (feasible : cbox -> list (P * bnd) -> lv).

  (** lines 802-809: coordinates with a NaN are taken from the domain *)
  Definition undo_nan (old new : cbox) : cbox :=
    map (fun p => if is_nan (b_l (snd p)) || is_nan (b_u (snd p)) then fst p else snd p) (combine old new).
  (** lines 796-823 *)
  Definition reduce (E : enclosure) : enclosure :=
    mkE (e_domain E) (e_aux E) (e_state E) (e_time E) (e_dwell E) (e_constraints E)
      (undo_nan (e_domain E) (contract (e_constraints E) (e_reduced E))) (e_fully E) (e_kinds E).

  (** ** Constructors *)
  (** lines 282-297 *)
  Definition of_box (D : cbox) : enclosure :=
    mkE D [] (map (p_coordinate ops D) (seq 0 (length D))) (p_constant ops D 0) (p_constant ops D 0) [] D true (repeat INITIAL (length D)).
  (** lines 300-333 for a function which is a patch on [D] already, without constraints; [junk] is the value of
      _is_fully_reduced, which is not initialised *)
  Definition of_patches (junk : bool) (D : cbox) (f : list P) : enclosure :=
    reduce (mkE D [] f (p_constant ops D 0) (p_constant ops D 0) [] D junk (repeat INITIAL (length D))).
  (** lines 310-333; a constraint clears _is_fully_reduced *)
  Definition of_function (junk : bool) (D : cbox) (f : list F) (tf : F) (cs : list (F * bnd)) : enclosure :=
    reduce (mkE D [] (map (p_create ops D) f) (p_create ops D tf) (p_constant ops D 0)
      (map (fun c => (p_create ops D (fst c), snd c)) cs) D (match cs with [] => junk | _ => false end) (repeat INITIAL (length D))).

  (** ** Maps and flows *)
  (** lines 392-406 *)
  Definition new_variable (I : bnd) (k : kind) (E : enclosure) : enclosure :=
    mkE (e_domain E ++ [I]) (e_aux E)
      (map (fun p => p_embed ops p [I]) (e_state E) ++ [p_embed_front ops (e_domain E) (p_coordinate ops [I] 0)])
      (p_embed ops (e_time E) [I]) (p_embed ops (e_dwell E) [I])
      (map (fun c => (p_embed ops (fst c) [I], snd c)) (e_constraints E))
      (e_reduced E ++ [I]) (e_fully E) (e_kinds E ++ [k]).
  (** lines 408-413 *)
  Definition clear_time (E : enclosure) : enclosure :=
    mkE (e_domain E) (e_aux E) (e_state E) (p_constant ops (e_domain E) 0) (p_constant ops (e_domain E) 0)
      (e_constraints E) (e_reduced E) (e_fully E) (e_kinds E).
  Definition compose_all (f : list F) (g : list P) : list P := map (fun fi => p_compose ops fi g) f.
  (** lines 415-421 *)
  Definition apply_map (f : list F) (E : enclosure) : enclosure :=
    mkE (e_domain E) (e_aux E) (compose_all f (e_state E)) (e_time E) (p_constant ops (e_domain E) 0)
      (e_constraints E) (e_reduced E) (e_fully E) (e_kinds E).
  (** lines 423-431 *)
  Definition apply_map_aux (f a : list F) (E : enclosure) : enclosure :=
    mkE (e_domain E) a (compose_all f (e_state E)) (e_time E) (p_constant ops (e_domain E) 0)
      (e_constraints E) (e_reduced E) (e_fully E) (e_kinds E).
  Definition evolved (state : list P) (time dwell : P) (E : enclosure) : enclosure :=
    mkE (e_domain E) (e_aux E) state time dwell (e_constraints E) (e_reduced E) (e_fully E) (e_kinds E).
  (** lines 434-438 *)
  Definition discrete_step (f : list F) (E : enclosure) : enclosure :=
    let E' := apply_map f E in evolved (e_state E') (p_shift ops (e_time E') 1) (e_dwell E') E'.
  (** lines 441-455; [is_patch] tells whether the flow is a patch *)
  Definition fixed_evolve (is_patch : bool) (phi : list F) (h : R) (E : enclosure) : enclosure :=
    evolved (if is_patch then compose_all (map (fun f => p_partial ops f h) phi) (e_state E)
             else compose_all phi (e_state E ++ [p_constant ops (e_domain E) h]))
      (p_shift ops (e_time E) h) (p_shift ops (e_dwell E) h) E.
  (** lines 457-466 *)
  Definition space_evolve (phi : list F) (el : F) (E : enclosure) : enclosure :=
    let ev := p_compose ops el (e_state E) in
    evolved (compose_all phi (e_state E ++ [ev])) (p_add ops (e_time E) ev) (p_add ops (e_dwell E) ev) E.
  (** lines 468-477 *)
  Definition spacetime_evolve (phi : list F) (el : F) (E : enclosure) : enclosure :=
    let ev := p_compose ops el (e_state E ++ [e_time E]) in
    evolved (compose_all phi (e_state E ++ [ev])) (p_add ops (e_time E) ev) (p_add ops (e_dwell E) ev) E.
  (** lines 479-488; the time is a function, which is added as a patch on the domain *)
  Definition parameter_evolve (phi : list F) (el : F) (E : enclosure) : enclosure :=
    let ev := p_create ops (e_domain E) el in
    evolved (compose_all phi (e_state E ++ [ev])) (p_add ops (e_time E) ev) (p_add ops (e_dwell E) ev) E.
  (** lines 490-500 *)
  Definition finishing_evolve (phi : list F) (om : F) (E : enclosure) : enclosure :=
    let w := p_create ops (e_domain E) om in
    evolved (compose_all phi (e_state E ++ [p_sub ops w (e_time E)])) w (p_add ops (e_dwell E) (p_sub ops w (e_time E))) E.

  (** ** Constraints *)
  Definition new_constraint (p : P) (c : bnd) (E : enclosure) : enclosure :=
    mkE (e_domain E) (e_aux E) (e_state E) (e_time E) (e_dwell E) (e_constraints E ++ [(p, c)]) (e_reduced E) false (e_kinds E).
  Definition nonpositive : bnd := mkB (fneg finf) fzero.
  Definition nonnegative : bnd := mkB fzero finf.
  (** lines 548-553: compose(gamma,state)<=time, that is the difference is not positive *)
  Definition new_state_time_bound (gamma : F) (E : enclosure) : enclosure :=
    new_constraint (p_sub ops (p_compose ops gamma (e_state E)) (e_time E)) nonpositive E.
  (** lines 555-563 *)
  Definition new_state_constraint (g : F) (c : bnd) (E : enclosure) : enclosure := new_constraint (p_compose ops g (e_state E)) c E.
  (** lines 565-573 *)
  Definition new_state_time_constraint (g : F) (c : bnd) (E : enclosure) : enclosure :=
    new_constraint (p_compose ops g (e_state E ++ [e_time E])) c E.
  (** lines 575-583 *)
  Definition new_parameter_constraint (g : F) (c : bnd) (E : enclosure) : enclosure := new_constraint (p_create ops (e_domain E) g) c E.
  (** lines 585-607 *)
  Definition new_positive_state_constraint (g : F) := new_state_constraint g nonnegative.
  Definition new_negative_state_constraint (g : F) := new_state_constraint g nonpositive.
  Definition new_zero_state_constraint (g : F) := new_state_constraint g (b_of fzero).
  (** lines 609-623 *)
  Definition new_negative_parameter_constraint (g : F) := new_parameter_constraint g nonpositive.
  Definition new_zero_parameter_constraint (g : F) := new_parameter_constraint g (b_of fzero).

  (** lines 523-546; the time domain of the flow is [lo,h]; [el] is a patch on the parameter domain *)
  Definition parameter_reach (phi : list F) (lo h : fl) (el : P) (E : enclosure) : enclosure :=
    let I := mkB fzero h in
    let E1 := apply_map phi (new_variable I TEMPORAL E) in
    let D := e_domain E1 in
    let ts := p_coordinate ops D (length D - 1) in
    let E2 := evolved (e_state E1) (p_add ops (e_time E1) ts) (p_add ops (e_dwell E1) ts) E1 in
    if flt_lt lo h then new_constraint (p_sub ops ts (p_embed ops el [I])) nonpositive E2 else E2.
  (** lines 502-512 *)
  Definition full_reach (phi : list F) (lo h : fl) (E : enclosure) : enclosure :=
    parameter_reach phi lo h (p_constant ops (e_domain E) (B2R h)) E.
  (** lines 514-521 *)
  Definition spacetime_reach (phi : list F) (lo h : fl) (el : F) (E : enclosure) : enclosure :=
    parameter_reach phi lo h (p_compose ops el (e_state E ++ [e_time E])) E.

  (** ** Tests *)
  (** lines 338-345; [g] is the extension of the function to boxes, [codomain] is lines 640-642 *)
  Definition satisfies (g : cbox -> bnd) (codomain : cbox) : lv :=
    let r := g codomain in
    if flt_lt (b_u r) fzero then FALSE else if flt_lt fzero (b_l r) then TRUE else INDET.
  Definition spoil (B : cbox) : cbox := match B with [] => [] | _ :: B' => mkB (fnat 1) (fneg (fnat 1)) :: B' end.
  (** lines 748-763: the answer and the set with the changed reduced domain *)
  Definition is_empty (E : enclosure) : lv * enclosure :=
    if box_empty (e_reduced E) then (TRUE, E)
    else match e_constraints E with
    | [] => ((if box_empty (e_domain E) then TRUE else FALSE), E)
    | _ =>
      let E1 := if e_fully E then E else reduce (reduce (reduce E)) in
      if existsb (fun c => ivl_disjoint (p_range ops (fst c) (e_reduced E1)) (snd c)) (e_constraints E1)
      then (TRUE, mkE (e_domain E1) (e_aux E1) (e_state E1) (e_time E1) (e_dwell E1) (e_constraints E1) (spoil (e_reduced E1)) (e_fully E1) (e_kinds E1))
      else if box_empty (e_reduced E1) then (TRUE, E1) else (INDET, E1)
    end.
  (** lines 765-768, 770-775 *)
  Definition image_inside (E : enclosure) (B : cbox) : bool := box_refines (map (fun p => p_range ops p (e_reduced E)) (e_state E)) B.
  Definition inside (E : enclosure) (B : cbox) : bool := image_inside E B.
  Definition subset (E : enclosure) (B : cbox) : lv * enclosure :=
    let E1 := reduce E in ((if image_inside E1 B then TRUE else INDET), E1).
  (** lines 777-794; the changed reduced domain is not returned *)
  Definition separated (E : enclosure) (B : cbox) : lv :=
    let R1 := contract (e_constraints E) (e_reduced E) in
    if box_empty R1 then TRUE
    else lv_neg (feasible R1 (e_constraints E ++ flat_map (fun p => [(fst p, mkB (b_l (snd p)) finf); (fst p, mkB (fneg finf) (b_u (snd p)))]) (combine (e_state E) B))).
  (** lines 734-741 *)
  Definition satisfies_constraint (E : enclosure) (g : F) (c : bnd) : lv :=
    match fst (is_empty (new_state_constraint g c E)) with TRUE => FALSE | _ => INDET end.

  (** ** Parts and products *)
  (** lines 917-958 and 144-152 for an index which meets the precondition; [junk1], [junk2] as above *)
  Definition half_of (junk : bool) (D : cbox) (E : enclosure) : enclosure :=
    let E1 := of_patches junk D (map (fun p => p_restrict ops p D) (e_state E)) in
    mkE D (e_aux E) (e_state E1) (p_restrict ops (e_time E) D) (p_restrict ops (e_dwell E) D)
      (map (fun c => (p_restrict ops (fst c) D, snd c)) (e_constraints E)) (e_reduced E1) (e_fully E1) (e_kinds E1).
  Definition split (junk1 junk2 : bool) (d : nat) (E : enclosure) : enclosure * enclosure :=
    let (D1, D2) := split_box d ivl_midpoint (e_domain E) in (half_of junk1 D1 E, half_of junk2 D2 E).
  (** lines 1208-1226 *)
  Definition restrict (D : cbox) (E : enclosure) : enclosure :=
    reduce (mkE D (e_aux E) (map (fun p => p_restrict ops p D) (e_state E)) (p_restrict ops (e_time E) D) (p_restrict ops (e_dwell E) D)
      (map (fun c => (p_restrict ops (fst c) D, snd c)) (e_constraints E)) (map (fun p => b_refinement (fst p) (snd p)) (combine (e_reduced E) D)) (e_fully E) (e_kinds E)).
  (** lines 1293-1325: the product with a box (an interval is a box of dimension one) *)
  Definition product_box (junk : bool) (E : enclosure) (B : cbox) : enclosure :=
    let E1 := of_patches junk (e_domain E ++ B)
      (map (fun p => p_embed ops p B) (e_state E) ++ map (fun i => p_embed_front ops (e_domain E) (p_coordinate ops B i)) (seq 0 (length B))) in
    mkE (e_domain E1) [] (e_state E1) (p_embed ops (e_time E) B) (p_embed ops (e_dwell E) B)
      (map (fun c => (p_embed ops (fst c) B, snd c)) (e_constraints E)) (e_reduced E1) (e_fully E1) (e_kinds E1).
  (** lines 1327-1348, after the assertion on the ranges of the times *)
  Definition product (junk : bool) (E G : enclosure) : enclosure :=
    let E1 := of_patches junk (e_domain E ++ e_domain G)
      (map (fun p => p_embed ops p (e_domain G)) (e_state E) ++ map (p_embed_front ops (e_domain E)) (e_state G)) in
    mkE (e_domain E1) [] (e_state E1) (p_embed ops (e_time E) (e_domain G)) (p_embed ops (e_dwell E) (e_domain G))
      (map (fun c => (p_embed ops (fst c) (e_domain G), snd c)) (e_constraints E) ++
       map (fun c => (p_embed_front ops (e_domain E) (fst c), snd c)) (e_constraints G))
      (e_reduced E1) (e_fully E1) (e_kinds E1).
End Contractor.

(** ** uniform_error_recondition *)
Definition unit_interval : bnd := mkB (fneg (fnat 1)) (fnat 1).
Section Uniform.
  (** lines 1018 and 1025 *)
  Context (maximum : fl).
  Definition large (p : P) : bool := negb (flt_le (p_error ops p) maximum).
  (** lines 1047-1054: [k] is the next new variable; the pairs are the old and the embedded components *)
  Fixpoint spread (D : cbox) (k : nat) (state : list (P * P)) : list P :=
    match state with
    | [] => []
    | (p0, p) :: state' =>
      if large p0 && large p then p_add ops (p_clobber ops p) (p_scale ops (p_coordinate ops D k) (p_error ops p)) :: spread D (S k) state'
      else p :: spread D k state'
    end.
  (** lines 1015-1064 *)
  Definition uniform_recondition (E : enclosure) : enclosure :=
    let m := length (filter large (e_state E)) in
    let U := repeat unit_interval m in
    if (m =? 0)%nat then E else
    let D := e_domain E ++ U in
    mkE D (e_aux E) (spread D (length (e_domain E)) (map (fun p => (p, p_embed ops p U)) (e_state E)))
      (p_embed ops (e_time E) U) (p_embed ops (e_dwell E) U) (map (fun c => (p_embed ops (fst c) U, snd c)) (e_constraints E))
      (e_reduced E ++ U) (e_fully E) (e_kinds E ++ repeat ERROR m).
End Uniform.

(** ** kuhn_recondition *)
(** utility/array.hpp:249-260; [j] is the counter, [n] the number of rounds left *)
Fixpoint complement_from (j n : nat) (vars : list nat) : list nat :=
  match n with
  | O => []
  | S n' => match vars with
            | v :: vars' => if (j =? v)%nat then complement_from (S j) n' vars' else j :: complement_from (S j) n' vars
            | [] => j :: complement_from (S j) n' []
            end
  end.
Definition complement (n : nat) (vars : list nat) : list nat := complement_from 0 n vars.
Local Notation tmodel := (tm prec emax).
(** lines 1100-1117 *)
Fixpoint recondition_terms (kept disc : list nat) (nerr : nat) (p : list (mi * fl)) (e : fl) : list (mi * fl) * fl :=
  match p with
  | [] => ([], e)
  | (a, v) :: p' =>
    if existsb (fun k => negb (nth k a 0 =? 0)%N) disc then recondition_terms kept disc nerr p' (fadd mode_UP e (fabs v))
    else let '(q, e') := recondition_terms kept disc nerr p' e in ((map (fun k => nth k a 0%N) kept ++ repeat 0%N nerr, v) :: q, e')
  end.
Fixpoint increasing (l : list nat) : bool :=
  match l with i :: ((j :: _) as r) => (i <? j)%nat && increasing r | _ => true end.
(** lines 1066-1119; [None] is a failed precondition (for no discarded variables the loop of the check leaves the array) *)
Definition tm_recondition (n : nat) (disc : list nat) (nerr index : nat) (t : tmodel) : option tmodel :=
  match disc with
  | [] => None
  | _ =>
    if increasing disc && (last disc 0 <? n)%nat && (index <=? nerr)%nat then
      let kept := complement n disc in
      let '(q, e) := recondition_terms kept disc nerr (t_exp t) (fadd mode_UP fzero (t_err t)) in
      Some (if (nerr =? index)%nat then mkTM q e
            else mkTM ((repeat 0%N (length kept) ++ repeat 0%N index ++ 1%N :: repeat 0%N (nerr - S index), e) :: q) fzero)
    else None
  end.

(** A set given by Taylor models on a box: the models are functions of the parameters scaled to the unit box. *)
Record tset := mkT { ts_domain : cbox; ts_state : list tmodel; ts_time : tmodel; ts_dwell : tmodel; ts_constraints : list (tmodel * bnd) }.
(** lines 1144-1160: the largest dependency on variable [j] *)
Definition dependency (j : nat) (t : tmodel) : fl :=
  fold_left (fun s m => if (nth j (fst m) 0 =? 0)%N then s else fadd mode_NE s (fabs (snd m))) (t_exp t) fzero.
Definition max_dependency (state : list tmodel) (j : nat) : fl := fold_left (fun m t => fmax m (dependency j t)) state fzero.
(** lines 1161, 1167, 1168: std::sort, in the first case with std::greater on pairs *)
Definition pair_greater (x y : fl * nat) : bool := flt_lt (fst y) (fst x) || (negb (flt_lt (fst x) (fst y)) && (snd y <? snd x)%nat).
Fixpoint insert_by {A} (before : A -> A -> bool) (x : A) (l : list A) : list A :=
  match l with [] => [x] | y :: l' => if before y x then y :: insert_by before x l' else x :: l end.
Definition sort_by {A} (before : A -> A -> bool) (l : list A) : list A := fold_right (insert_by before) [] l.
Fixpoint all_some {A} (l : list (option A)) : option (list A) :=
  match l with [] => Some [] | Some x :: l' => option_map (cons x) (all_some l') | None :: _ => None end.
(** lines 1126-1205 after the test of line 1137; [kept] is the number of parameters kept.  The new set has no other
    members than those of [tset] and the auxiliary mapping; the reduced domain is the domain (line 1188). *)
Definition kuhn_recondition (kept : nat) (T : tset) : option tset :=
  let n := length (ts_domain T) in
  let dim := length (ts_state T) in
  let ranked := map snd (sort_by pair_greater (map (fun j => (max_dependency (ts_state T) j, j)) (seq 0 n))) in
  let keep := sort_by Nat.ltb (firstn kept ranked) in
  let disc := sort_by Nat.ltb (skipn kept ranked) in
  match all_some (map (fun p => tm_recondition n disc dim (fst p) (snd p)) (combine (seq 0 dim) (ts_state T))),
        tm_recondition n disc dim dim (ts_time T), tm_recondition n disc dim dim (ts_dwell T),
        all_some (map (fun c => option_map (fun t => (t, snd c)) (tm_recondition n disc dim dim (fst c))) (ts_constraints T)) with
  | Some st, Some ti, Some dw, Some cs =>
    Some (mkT (map (fun j => nth j (ts_domain T) unit_interval) keep ++ repeat unit_interval dim) st ti dw cs)
  | _, _, _, _ => None
  end.

(** ** Sets from boxes of real numbers *)
Section RealBox.
  (** [single] rounds to single precision and converts back *)
  Context (single : fl -> fl).
  (** geometry/affine_set.cpp:82-91: [la], [ua] are approximations of the ends and [lb], [ub] are bounds for them *)
  Definition make_domain (la ua : fl) (lb ub : bnd) : bnd * fl :=
    let dl := single la in
    let du := single ua in
    (mkB dl du, fmax (fmax (fsub mode_UP (b_u ub) du) (fsub mode_UP du (b_l ub))) (fmax (fsub mode_UP (b_u lb) dl) (fsub mode_UP dl (b_l lb)))).
  (** geometry/affine_set.cpp:93-100 for balls of centres [lv], [uv] and errors [le], [ue]; the second error is not used.
      [mag] of a difference of floats is the larger absolute value of its bounds. *)
  Definition mag_sub (x y : fl) : fl := fmax (fsub mode_UP x y) (fsub mode_UP y x).
  Definition make_domain_ball (lv le uv ue : fl) : bnd * fl :=
    let dl := single lv in
    let du := single uv in
    (mkB dl du, fmax (fadd mode_UP (mag_sub lv dl) le) (fadd mode_UP (mag_sub lv dl) le)).
End RealBox.
(** lines 260-263, 265-280 and 104-118: a box of real intervals, each given by what [make_domain] uses, and state constraints *)
Record real_interval := mkRI { ri_la : fl; ri_ua : fl; ri_lb : bnd; ri_ub : bnd }.
Definition of_real_set (single : fl -> fl) (q : list real_interval) (cs : list (F * bnd)) : enclosure :=
  let ds := map (fun r => make_domain single (ri_la r) (ri_ua r) (ri_lb r) (ri_ub r)) q in
  let D := map fst ds in
  let st := map (fun ie => p_blur ops (p_coordinate ops D (fst ie)) (snd (snd ie))) (combine (seq 0 (length ds)) ds) in
  let E0 := mkE D [] st (p_constant ops D 0) (p_constant ops D 0) [] [] true (repeat INITIAL (length D)) in
  let E1 := fold_left (fun E c => new_state_constraint (fst c) (snd c) E) cs E0 in
  mkE (e_domain E1) (e_aux E1) (e_state E1) (e_time E1) (e_dwell E1) (e_constraints E1) D true (e_kinds E1).
(** numeric/floatdp.hpp:483: rounding to single precision *)
Definition to_single (x : fl) : fl :=
  match x with
  | B754_finite s m e _ =>
    match binary_normalize 24 128 eq_refl eq_refl mode_NE (cond_Zopp s (Zpos m)) e false with
    | B754_finite s' m' e' _ => binary_normalize prec emax _ _ mode_NE (cond_Zopp s' (Zpos m')) e' false
    | B754_zero s' => B754_zero s'
    | B754_infinity s' => B754_infinity s'
    | B754_nan => B754_nan
    end
  | _ => x
  end.
End Enclosure.
Arguments patch_operations {prec emax} P F.
Arguments enclosure {prec emax} P F.
