(** The constraint solver: source/solvers/constraint_solver.cpp.

    Boxes are lists of intervals with floating-point end points, as in [Bounds_Model] (the arithmetic of
    [UpperIntervalType] converts to [FloatDPBounds] and back, geometry/interval.hpp:116-130).  A function
    is given by its evaluation on boxes.  Not modelled: hull reduction ([simple_hull_reduce], see Proc_Model),
    the interior point optimiser, differentiation and Taylor functions, which are parameters; log output. *)
From Coq Require Import ZArith Bool List Reals.
From Flocq Require Import Core IEEE754.BinarySingleNaN.
From Verif Require Import Logical_Model Float_Model Bounds_Model.
Import ListNotations.

Section Solver.
Context {prec emax : Z} {Hprec : Prec_gt_0 prec} {Hemax : Prec_lt_emax prec emax}.
Local Notation fl := (binary_float prec emax).
Local Notation bnd := (bounds prec emax).
Local Notation near := mode_NE.
Local Notation up := mode_UP.

Definition cbox := list bnd.
(** Evaluation on a box: [apply(function,box)]. *)
Definition evaluator := cbox -> bnd.

(** A small integer as a floating-point number. *)
Definition fint (z : Z) : fl := binary_normalize prec emax Hprec Hemax near z 0 false.
Definition fnat (k : nat) : fl := fint (Z.of_nat k).

(** [box\[v\]=x] *)
Fixpoint set_at {A} (v : nat) (a : A) (l : list A) : list A :=
  match l, v with
  | [], _ => []
  | _ :: r, O => a :: r
  | b :: r, S v' => b :: set_at v' a r
  end.
Definition b_empty : bnd := mkB finf (fneg finf).
Definition coord (dom : cbox) (v : nat) : bnd := nth v dom b_empty.

(** geometry/interval.inl.hpp:72: [definitely(ivl.is_empty())]; box.tpl.hpp:36-44 *)
Definition ivl_empty (x : bnd) : bool := flt_lt (b_u x) (b_l x).
Definition box_empty (dom : cbox) : bool := existsb ivl_empty dom.
(** interval.inl.hpp:98: [definitely(disjoint(image,c))] *)
Definition ivl_disjoint (x c : bnd) : bool := flt_lt (b_u c) (b_l x) || flt_lt (b_u x) (b_l c).
(** interval.inl.hpp:66: [ivl.width()], rounded upward *)
Definition width (x : bnd) : fl := fsub up (b_u x) (b_l x).

(** ** box_reduce: constraint_solver.cpp:424-485 *)

(** lines 50-52, in approximate arithmetic *)
Definition affine (l u : fl) (i n : nat) : fl :=
  fdiv near (fadd near (fmul near l (fnat (n - i))) (fmul near u (fnat i))) (fnat n).
Definition slices : nat := 8.
Section BoxReduce.
  Context (f : evaluator) (c : bnd) (dom : cbox) (v : nat).
  Let l := b_l (coord dom v).
  Let u := b_u (coord dom v).
  Definition cut_point (i : nat) : fl := affine l u i slices.
  Definition slice_image (i : nat) : bnd := f (set_at v (mkB (cut_point i) (cut_point (S i))) dom).
  (** lines 451-455 *)
  Definition slice_excluded (i : nat) : bool := ivl_empty (b_refinement (slice_image i) c).
  (** lines 448-461: the first slice which is not excluded, and the new lower end *)
  Fixpoint from_below (k i : nat) (nl : fl) : nat * fl :=
    match k with
    | O => (i, nl)
    | S k' => if slice_excluded i then from_below k' (S i) (cut_point (S i)) else (i, nl)
    end.
  (** lines 470-480: [k] is [j-imax] *)
  Fixpoint from_above (k j : nat) (nu : fl) : fl :=
    match k with
    | O => nu
    | S k' => if slice_excluded j then from_above k' (Nat.pred j) (cut_point j) else nu
    end.
  (** The value returned and the new domain; [None]: the assertion of line 485 fails. *)
  Definition box_reduce : option (bool * cbox) :=
    if flt_le u l then Some (false, dom)
    else
      let (imax, nl) := from_below slices 0 l in
      if Nat.eqb imax slices then Some (true, set_at v b_empty dom)
      else
        let nu := from_above (slices - 1 - imax) (slices - 1) u in
        if flt_lt nu nl then None else Some (false, set_at v (mkB nl nu) dom).
End BoxReduce.

(** ** monotone_reduce: constraint_solver.cpp:343-385 *)
Section MonotoneReduce.
  Context (f df : evaluator) (c : bnd) (dom : cbox) (v : nat).
  (** line 359; [MAX_STEPS] is 3 *)
  Definition threshold : fl := fdiv near (width (coord dom v)) (fnat 8).
  (** lines 365-367: Newton's contractor at the midpoint of [x]; [sub] is [subdomain] *)
  Definition newton (sub : cbox) (x : bnd) : bnd :=
    let s := b_value x in
    fb_add s (b_div (b_sub c (f (set_at v (b_of s) dom))) (df sub)).
  (** lines 364-370 and 371-377 *)
  Definition step_lower (sub : cbox) (x : bnd) : bnd :=
    if flt_lt threshold (width x) then
      let n := newton sub x in
      if flt_lt (b_u n) (b_l x) then b_of (b_l x) else b_refinement x n
    else x.
  Definition step_upper (sub : cbox) (x : bnd) : bnd :=
    if flt_lt threshold (width x) then
      let n := newton sub x in
      if flt_lt (b_u x) (b_l n) then b_of (b_u x) else b_refinement x n
    else x.
  (** lines 360-380; [None]: the loop goes on after [fuel] rounds *)
  Fixpoint monotone_loop (fuel : nat) (lower upper : bnd) (sub : cbox) : option cbox :=
    match fuel with
    | O => None
    | S fuel' =>
      let lower' := step_lower sub lower in
      let upper' := step_upper sub upper in
      let sub' := set_at v (mkB (b_l lower') (b_u upper')) sub in
      if flt_lt threshold (width lower') && flt_lt threshold (width upper')
      then monotone_loop fuel' lower' upper' sub' else Some sub'
    end.
  Definition monotone_reduce (fuel : nat) : option (bool * cbox) :=
    option_map (fun d => (box_empty d, d)) (monotone_loop fuel (coord dom v) (coord dom v) dom).
End MonotoneReduce.

(** ** lyapunov_reduce: constraint_solver.cpp:396-421 *)

(** [gc] is [g(centre)] and [dg] is [gradient_range(g,domain)], where [g] is the inner product of the
    multipliers and the function. *)
Definition lyapunov_value (mult : list fl) (bs : list bnd) (gc : bnd) : bnd :=
  b_sub (fold_left (fun C mb => b_add C (fb_mul (fst mb) (snd mb))) (combine mult bs) (b_of fzero)) gc.
Definition zip_with {A B C} (f : A -> B -> C) (l : list A) (r : list B) : list C := map (fun ab => f (fst ab) (snd ab)) (combine l r).
(** line 409 *)
Definition lyapunov_ranges (dom : cbox) (dg : list bnd) (centre : list fl) : list bnd :=
  zip_with (fun g dc => b_mul g (b_sub (fst dc) (b_of (snd dc)))) dg (combine dom centre).
(** lines 414-417: [E] for component [j] *)
Fixpoint subtract_others (j k : nat) (C : bnd) (rs : list bnd) : bnd :=
  match rs with
  | [] => C
  | r :: rs' => subtract_others j (S k) (if Nat.eqb j k then C else b_sub C r) rs'
  end.
Definition lyapunov_component (C : bnd) (rs : list bnd) (dom : cbox) (dg : list bnd) (centre : list fl) (j : nat) : bnd :=
  b_refinement (coord dom j) (bf_add (b_div (subtract_others j 0 C rs) (nth j dg b_empty)) (nth j centre fzero)).
Definition lyapunov_reduce (dom : cbox) (mult : list fl) (bs : list bnd) (gc : bnd) (dg : list bnd) (centre : list fl) : bool * cbox :=
  let C := lyapunov_value mult bs gc in
  let rs := lyapunov_ranges dom dg centre in
  let d := map (lyapunov_component C rs dom dg centre) (seq 0 (length dom)) in
  (box_empty d, d).

(** ** reduce: constraint_solver.cpp:211-245 and 253-292 *)
Inductive reduction :=
  | Reduced (empty : bool) (dom : cbox)
  | AssertionFailed (** the assertion in [box_reduce] *)
  | Unfinished.     (** still running *)
(** lines 219-222, 236-239: the sum of the widths, rounded upward *)
Definition magnitude (dom : cbox) : fl := fold_left (fun m x => fadd up m (width x)) dom fzero.
(** 0.75 *)
Definition three_quarters : fl := fdiv near (fnat 3) (fnat 4).

(** lines 229-234: all constraints and all variables in turn; stops when the box is empty. *)
Fixpoint shave_variables (f : evaluator) (c : bnd) (vs : list nat) (dom : cbox) : option (bool * cbox) :=
  match vs with
  | [] => Some (false, dom)
  | v :: vs' =>
    match box_reduce f c dom v with
    | None => None
    | Some (_, d) => if box_empty d then Some (true, d) else shave_variables f c vs' d
    end
  end.
Fixpoint shave_all (fcs : list (evaluator * bnd)) (dom : cbox) : option (bool * cbox) :=
  match fcs with
  | [] => Some (false, dom)
  | (f, c) :: r =>
    match shave_variables f c (seq 0 (length dom)) dom with
    | None => None
    | Some (true, d) => Some (true, d)
    | Some (false, d) => shave_all r d
    end
  end.
(** One round of the loop: a contractor, then perhaps shaving.  [hull] is [hull_reduce]. *)
Definition round_vector (hull : cbox -> cbox) (fcs : list (evaluator * bnd)) (dom : cbox) : option (bool * cbox) :=
  let d := hull dom in
  if box_empty d then Some (true, d)
  else match shave_all fcs d with
       | None => None
       | Some (e, d') => Some (e || box_empty d', d')
       end.
(** lines 265-270; [USE_BOX_REDUCE] is false; [hulls] are the contractors of the constraints in turn *)
Definition round_list (hulls : list (cbox -> cbox)) (dom : cbox) : option (bool * cbox) :=
  let d := fold_left (fun d h => h d) hulls dom in
  Some (box_empty d, d).
(** [m] is the rounding mode of the product with 0.75, which is to the nearest in the first version. *)
Section Loop.
  Context (one_round : cbox -> option (bool * cbox)) (m : mode).
  Fixpoint reduce_loop (fuel : nat) (mag : fl) (dom : cbox) : reduction :=
    match fuel with
    | O => Unfinished
    | S fuel' =>
      match one_round dom with
      | None => AssertionFailed
      | Some (true, d) => Reduced true d
      | Some (false, d) =>
        if flt_lt (magnitude d) (fmul m mag three_quarters) then reduce_loop fuel' (magnitude d) d
        else Reduced false d
      end
    end.
  Definition reduce_with (fuel : nat) (dom : cbox) : reduction :=
    if box_empty dom then Reduced true dom else reduce_loop fuel (magnitude dom) dom.
End Loop.
Definition reduce_vector (hull : cbox -> cbox) (fcs : list (evaluator * bnd)) := reduce_with (round_vector hull fcs) near.
Definition reduce_list (hulls : list (cbox -> cbox)) (m : mode) := reduce_with (round_list hulls) m.

(** ** check_feasibility: constraint_solver.cpp:494-512 *)
Fixpoint point_outside (d : cbox) (y : list fl) : bool :=
  match d, y with
  | di :: d', yi :: y' => flt_lt yi (b_l di) || flt_lt (b_u di) yi || point_outside d' y'
  | _, _ => false
  end.
Fixpoint check_values (fy c : list bnd) (result : lv) : lv :=
  match fy, c with
  | x :: fy', b :: c' =>
    if flt_lt (b_u b) (b_l x) || flt_lt (b_u x) (b_l b) then FALSE
    else check_values fy' c' (if flt_le (b_u b) (b_u x) || flt_le (b_l x) (b_l b) then INDET else result)
  | _, _ => result
  end.
Definition check_feasibility (d : cbox) (f : cbox -> list bnd) (c : cbox) (y : list fl) : lv :=
  if point_outside d y then FALSE else check_values (f (map b_of y)) c TRUE.

(** ** feasible: constraint_solver.cpp:83-208 *)

(** One step of the optimiser: the multipliers, the point and the violation. *)
Record opt_state := mkOpt { o_x : list fl; o_y : list fl; o_t : fl }.
(** -2^-10 *)
Definition terr : fl := fneg (fdiv near (fnat 1) (fnat 1024)).

(** lines 163-170: [cnst] *)
Definition add_term (lo hi : fl) (xl xu : fl) (cnst : bnd) : bnd := b_add cnst (b_sub (ff_mul hi xu) (ff_mul lo xl)).
Fixpoint add_terms (bs : cbox) (xu xl : list fl) (cnst : bnd) : bnd :=
  match bs, xu, xl with
  | b :: bs', u :: xu', l :: xl' => add_terms bs' xu' xl' (add_term (b_l b) (b_u b) l u cnst)
  | _, _, _ => cnst
  end.
Definition sub_list {A} (start len : nat) (l : list A) : list A := firstn len (skipn start l).
Definition lagrange_constant (d c : cbox) (x : list fl) : bnd :=
  let n := length c in let m := length d in
  add_terms d (sub_list (2 * n) m x) (sub_list (2 * n + m) m x)
    (add_terms c (sub_list 0 n x) (sub_list n n x) (b_of fzero)).
(** lines 162,164,168: the function part; each coefficient is [x\[j\]-x\[n+j\]] in bounds *)
Definition lagrange_coefficients (d c : cbox) (x : list fl) : list bnd :=
  let n := length c in let m := length d in
  zip_with ff_sub (sub_list 0 n x) (sub_list n n x) ++ zip_with ff_sub (sub_list (2 * n) m x) (sub_list (2 * n + m) m x).

(** Splitting a box in the widest coordinate [k] at [mid] (box.tpl.hpp:76-97, see Box_Model). *)
Definition split_box (k : nat) (mid : bnd -> fl) (d : cbox) : cbox * cbox :=
  let x := coord d k in
  (set_at k (mkB (b_l x) (mid x)) d, set_at k (mkB (mid x) (b_u x)) d).

Record solver_parts := {
  p_eval : cbox -> list bnd;                    (** the function on boxes *)
  p_eval_point : cbox -> list bnd;              (** and on points with bounds *)
  p_steps : cbox -> list opt_state;             (** the twelve states of the optimiser *)
  p_linear : cbox -> list bnd -> evaluator;     (** -(sum of coefficients times functions and coordinates), a Taylor model over a domain *)
  p_hull : evaluator -> bnd -> cbox -> cbox;    (** hull_reduce of one function *)
  p_widest : cbox -> nat; p_mid : bnd -> fl
}.
Section Feasible.
  Context (P : solver_parts) (c : cbox).
  (** lines 143-152: the loop returns at the first state with [t>=TERR] *)
  Fixpoint opt_loop (d : cbox) (steps : list opt_state) : option (lv * list fl) :=
    match steps with
    | [] => None
    | s :: r =>
      if flt_le terr (o_t s) then
        (if definitely (check_feasibility d (p_eval_point P) c (o_y s))
         then Some (TRUE, o_y s) else Some (INDET, o_y s))
      else opt_loop d r
    end.
  (** lines 158-170 *)
  Definition lagrangian (d : cbox) (x : list fl) : evaluator :=
    fun b => b_add (lagrange_constant d c x) (p_linear P d (lagrange_coefficients d c x) b).
  Definition nonneg : bnd := mkB fzero finf.
  (** lines 176-188: [Some true]: proved empty *)
  Fixpoint shave_feasible (g : evaluator) (vs : list nat) (sub : cbox) : option bool :=
    match vs with
    | [] => Some false
    | v :: vs' => match box_reduce g nonneg sub v with
                  | None => None
                  | Some (_, s) => if box_empty s then Some true else shave_feasible g vs' s
                  end
    end.
  (** [None]: an assertion fails or the recursion goes on. *)
  Fixpoint feasible (fuel : nat) (d : cbox) : option (lv * list fl) :=
    match fuel with
    | O => None
    | S fuel' =>
      if existsb (fun xc => ivl_disjoint (fst xc) (snd xc)) (combine (p_eval P d) c) then Some (FALSE, [])
      else
        match opt_loop d (p_steps P d) with
        | Some r => Some r
        | None =>
          match rev (p_steps P d) with
          | [] => Some (INDET, [])
          | s :: _ =>
            if flt_lt (o_t s) terr then
              let g := lagrangian d (o_x s) in
              let sub := p_hull P g nonneg d in
              if box_empty sub then Some (FALSE, [])
              else
                match shave_feasible g (seq 0 (length d)) sub with
                | None => None
                | Some true => Some (FALSE, [])
                | Some false =>
                  let (d1, d2) := split_box (p_widest P d) (p_mid P) d in
                  match feasible fuel' d1, feasible fuel' d2 with
                  | Some (r1, _), Some (r2, _) => Some (lv_or r1 r2, [])
                  | _, _ => None
                  end
                end
            else Some (INDET, [])
          end
        end
    end.
End Feasible.
End Solver.
