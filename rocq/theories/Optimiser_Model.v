(** Model of the feasibility tests of the nonlinear optimisers: the functions of OptimiserBase
    and the driver loops of NonlinearInfeasibleInteriorPointOptimiser,
    source/solvers/nonlinear_programming.cpp:463-500, 507-760, 810-905.

    Simplifications.  Validated numbers and their matrices are those of Solver_Model.v.  Vectors
    are functions of the index, with [n] the dimension of the box [D] and [m] the number of
    constraints; the size checks (ARIADNE_PRECONDITION) are the only use the code makes of
    other sizes.  A function is a pair of an evaluation and a Jacobian oracle.  The interior-point
    steps, which compute with approximations only, are an arbitrary sequence of iterates.
    Debug assertions and log messages are dropped. *)
From Coq Require Import List Bool Arith.
From Verif Require Import Logical_Model Solver_Model.
Import ListNotations.

(** Operations on exact numbers (FloatDP), exact intervals (ExactIntervalType, the components of
    D and C) and upper intervals (UpperIntervalType). *)
Record xops (P : ops) : Type := mkX {
  pt : Type;
  ival : Type;
  uiv : Type;
  x_num : pt -> num P;              (* FloatDPBounds(x) *)
  x_lower : ival -> pt;             (* lower_bound() *)
  x_single : ival -> bool;          (* is_singleton(), lower_bound()==upper_bound() *)
  x_cast : ival -> num P;           (* cast_singleton *)
  x_has : ival -> pt -> bool;       (* contains, interval.inl.hpp:87, of an exact number *)
  x_contains : ival -> num P -> lv; (* contains and element of bounds *)
  x_disjoint : num P -> ival -> lv; (* disjoint(UpperIntervalType(x),ivl), interval.inl.hpp:99 *)
  x_subset : num P -> ival -> lv;   (* subset(UpperIntervalType(x),ivl), interval.inl.hpp:93 *)
  x_empty : ival -> bool;           (* is_empty() *)
  x_unit : num P;                   (* FloatDPBounds(0,1,dp) *)
  x_two : num P;                    (* FloatDPBounds(2,dp) *)
  x_widen : ival -> pt -> ival;     (* [sub(down,l,e),add(up,u,e)] *)
  x_meet : ival -> uiv -> ival;     (* intersection(c,cast_exact(u)) *)
  u_num : num P -> uiv;             (* UpperIntervalType(x) *)
  u_ivl : ival -> uiv;
  u_pt : pt -> uiv;
  u_zero : uiv;
  u_sym : uiv;                      (* UpperIntervalType(-1,+1) *)
  u_add : uiv -> uiv -> uiv; u_sub : uiv -> uiv -> uiv; u_mul : uiv -> uiv -> uiv;
  u_disjoint : uiv -> uiv -> lv;    (* disjoint *)
  u_apart : uiv -> uiv -> lv        (* intersection(.,.).is_empty() *)
}.
Arguments pt {P}. Arguments ival {P}. Arguments uiv {P}. Arguments x_num {P}. Arguments x_lower {P}. Arguments x_single {P}.
Arguments x_cast {P}. Arguments x_has {P}. Arguments x_contains {P}. Arguments x_disjoint {P}. Arguments x_subset {P}. Arguments x_empty {P}.
Arguments x_unit {P}. Arguments x_two {P}. Arguments x_widen {P}. Arguments x_meet {P}. Arguments u_num {P}. Arguments u_ivl {P}. Arguments u_pt {P}.
Arguments u_zero {P}. Arguments u_sym {P}. Arguments u_add {P}. Arguments u_sub {P}. Arguments u_mul {P}. Arguments u_disjoint {P}. Arguments u_apart {P}.

Section OPT.
  Variables (P : ops) (X : xops P).
  Notation N := (num P).

  (** A validated function: evaluation on bounds, the Jacobian on bounds, [apply(g,box)] and
      [jacobian_range(g,box)] on upper intervals, the value [tyg(cast_singleton(D))] on a box of
      the Taylor model of the combination of its components with given coefficients
      (lines 743-747), and the evaluation on approximations. *)
  Record gfn : Type := mkG {
    g_ev : (nat -> N) -> nat -> N;
    g_jac : (nat -> N) -> nat -> nat -> N;
    g_apply : (nat -> uiv X) -> nat -> uiv X;
    g_jrange : (nat -> uiv X) -> nat -> nat -> uiv X;
    g_taylor : (nat -> pt X) -> (nat -> ival X) -> N;
    g_approx : (nat -> pt X) -> nat -> pt X
  }.

  Definition all_below (n : nat) (p : nat -> bool) : bool := forallb p (seq 0 n).
  Definition and_below (n : nat) (p : nat -> lv) : lv := fold_left (fun r i => lv_and r (p i)) (seq 0 n) TRUE.
  Definition or_below (n : nat) (p : nat -> lv) : lv := fold_left (fun r i => lv_or r (p i)) (seq 0 n) FALSE.

  (** box.hpp:358-362 *)
  Definition box_has (n : nat) (D : nat -> ival X) (x : nat -> pt X) : bool := all_below n (fun i => x_has X (D i) (x i)).
  (** box.hpp:372-376 and 393-397, with the upper intervals of a vector of bounds *)
  Definition box_disjoint (n : nat) (x : nat -> N) (D : nat -> ival X) : lv := or_below n (fun i => x_disjoint X (x i) (D i)).
  Definition box_subset (n : nat) (x : nat -> N) (D : nat -> ival X) : lv := and_below n (fun i => x_subset X (x i) (D i)).

  (** lines 463-469: the widened box [r] is computed, but [bx] is returned *)
  Definition cast_exact_widen (m : nat) (bx : nat -> ival X) (e : pt X) : nat -> ival X :=
    let r := fun i => x_widen X (bx i) e in let _ := r in bx.

  (** lines 476-483; [probably(contains(.,.))] of approximations is the comparison of the numbers *)
  Definition almost_feasible_point (n m : nat) (D : nat -> ival X) (g : gfn) (C : nat -> ival X) (ax : nat -> pt X) (error : pt X) : bool :=
    if negb (box_has n D ax) then false
    else let gx := g_approx g ax in all_below m (fun i => x_has X (cast_exact_widen m C error i) (gx i)).

  (** lines 486-492 *)
  Definition is_feasible_point (n m : nat) (D : nat -> ival X) (g : gfn) (C : nat -> ival X) (x : nat -> pt X) : bool :=
    if negb (box_has n D x) then false
    else let gx := g_ev g (fun i => x_num X (x i)) in definitely (and_below m (fun i => x_contains X (C i) (gx i))).

  (** The indices of the equality constraints, lines 520-525 and 614-621. *)
  Definition equalities (m : nat) (C : nat -> ival X) : list nat := filter (fun i => x_single X (C i)) (seq 0 m).
  Definition at_ (l : list nat) (i : nat) : nat := nth i l 0.

  (** ** contains_feasible_point, lines 495-581 *)
  (** An answer, the SingularMatrixException, or a failed ARIADNE_ASSERT. *)
  Inductive outcome := Answer (v : lv) | Singular | AssertFailed.
  (** The tests of the inequality constraints, lines 508-517: [None] is [return false]. *)
  Fixpoint test_ineq (C : nat -> ival X) (gx : nat -> N) (is : list nat) (result : lv) : option lv :=
    match is with
    | [] => Some result
    | i :: is' =>
      if definitely (x_disjoint X (gx i) (C i)) then None
      else let result' := if negb (x_single X (C i)) then if definitely (lv_neg (x_subset X (gx i) (C i))) then INDET else result else result in
           test_ineq C gx is' result'
    end.
  (** The projected Newton step, lines 538-577.  [L] is the matrix of exact numbers which lines
      541-547 compute with approximations from the radii of [x] and the midpoint of the Jacobian.
      Line 552 inverts the matrix outside the [try] block. *)
  Definition projected_newton (n k : nat) (e : list nat) (g : gfn) (C : nat -> ival X) (L : nat -> nat -> pt X) (x : nat -> N) : option (nat -> N) :=
    let A := fun i j => g_jac g x (at_ e i) j in
    let Ln := fun j i => x_num X (L j i) in
    let S := nmm P n A Ln in
    match lu_inverse P k S with
    | None => None
    | Some R =>
      let mx := store_v P n (fun j => nmid P (x j)) in
      let h := store_v P k (fun i => nsub P (g_ev g mx (at_ e i)) (x_cast X (C (at_ e i)))) in
      let d := store_v P k (nmv P k R h) in
      Some (store_v P n (fun j => nsub P (mx j) (nmv P k Ln d j)))
    end.
  Definition contains_feasible_point (n m : nat) (D : nat -> ival X) (g : gfn) (C : nat -> ival X) (L : nat -> nat -> pt X) (x : nat -> N) : outcome :=
    if definitely (box_disjoint n x D) then Answer FALSE
    else if definitely (lv_neg (box_subset n x D)) then Answer INDET
    else
      let gx := store_v P m (g_ev g x) in
      match test_ineq C gx (seq 0 m) TRUE with
      | None => Answer FALSE
      | Some result =>
        if negb (definitely result) then Answer result
        else
          let e := equalities m C in
          if Nat.eqb m 0 then AssertFailed
          else match projected_newton n (length e) e g C L x with
               | None => Singular
               | Some new_x => if vrefines P n new_x x then Answer TRUE else Answer INDET
               end
      end.

  (** ** validate_feasibility, lines 594-695 *)
  Section VALIDATE.
    Variables (n m : nat) (g : gfn) (C : nat -> ival X) (x0 : nat -> pt X).
    Definition start : nat -> N := fun j => x_num X (x0 j).
    (** lines 606-617: every inequality constraint holds at [x0] *)
    Definition ineq_hold (gx : nat -> N) : bool :=
      all_below m (fun i => x_single X (C i) || definitely (x_contains X (C i) (gx i))).
    Variable e : list nat.
    Let k := length e.
    (** line 634 *)
    Definition trans (j i : nat) : N := g_jac g start (at_ e i) j.
    (** x0+AT*w, lines 645-646 *)
    Definition moved (w : nat -> N) : nat -> N := store_v P n (fun j => nadd P (start j) (nmv P k trans w j)).
    (** lines 644-647; [solve] of a matrix and a vector is matrix.tpl.hpp:447-449.  [None] is the
        SingularMatrixException. *)
    Definition vf_step (w : nat -> N) : option (nat -> N) :=
      let mw := store_v P k (fun i => nmid P (w i)) in
      let x := moved w in
      let mx := moved mw in
      let J := nmm P n (fun i j => g_jac g x (at_ e i) j) trans in
      match lu_solve P k J (store_v P k (fun i => nsub P (g_ev g mx (at_ e i)) (x_num X (x_lower X (C (at_ e i)))))) with
      | None => None
      | Some d => Some (store_v P k (fun i => nsub P (mw i) (d i)))
      end.
    (** w+[0,1]*(v-w), lines 653 and 655 *)
    Definition towards (w v : nat -> N) : nat -> N :=
      store_v P k (fun i => nadd P (w i) (nmul P (x_unit X) (nsub P (v i) (w i)))).
    (** lines 643-668 *)
    Fixpoint vf_loop (c : nat) (found validated : bool) (w : nat -> N) : option (bool * (nat -> N)) :=
      match c with
      | O => Some (validated, w)
      | S c' =>
        match vf_step w with
        | None => None
        | Some nw =>
          if negb found then
            if vrefines P k nw w then vf_loop c' true validated (towards w (vzero P))
            else vf_loop c' false validated (towards w (fun i => nmul P (x_two X) (nw i)))
          else
            if vrefines P k nw w then vf_loop c' true true (store_v P k (fun i => nrefinement P (nw i) (w i)))
            else if validated then Some (validated, w)
            else vf_loop c' true validated (store_v P k (fun i => nrefinement P (nw i) (w i)))
        end
      end.
    (** lines 671-694 *)
    Definition vf_end (r : option (bool * (nat -> N))) : outcome :=
      match r with
      | None => Singular
      | Some (validated, w) =>
        if negb validated then Answer FALSE
        else Answer (make_lv (ineq_hold (store_v P m (g_ev g (moved w)))))
      end.
  End VALIDATE.
  (** The domain [D] is used for its size only. *)
  Definition validate_feasibility (n m : nat) (D : nat -> ival X) (g : gfn) (C : nat -> ival X) (x0 : nat -> pt X) : outcome :=
    if negb (ineq_hold m C (store_v P m (g_ev g (start x0)))) then Answer FALSE
    else let e := equalities m C in
      match e with
      | [] => Answer TRUE
      | _ => vf_end n m g C x0 e (vf_loop n g C x0 e 12 false false (vzero P))
      end.

  (** ** Certificates of infeasibility *)
  Fixpoint u_sum (n : nat) (start : uiv X) (f : nat -> uiv X) : uiv X := match n with O => start | S k => u_add X (u_sum k start f) (f k) end.
  Definition u_dot (m : nat) (y : nat -> pt X) (c : nat -> uiv X) : uiv X := u_sum m (u_zero X) (fun i => u_mul X (u_pt X (y i)) (c i)).
  (** lines 698-729.  The Taylor estimate of lines 716-719 is not used in the answer. *)
  Definition validate_infeasibility (n m : nat) (D : nat -> ival X) (g : gfn) (C : nat -> ival X) (x y : nat -> pt X) : bool :=
    let yC := u_dot m y (fun i => u_ivl X (C i)) in
    let dgD := g_jrange g (fun j => u_ivl X (D j)) in
    let ydgD := fun j => u_sum m (u_zero X) (fun i => u_mul X (dgD i j) (u_pt X (y i))) in
    let ygx := u_dot m y (g_apply g (fun j => u_pt X (x j))) in
    let ygD := u_sum n ygx (fun j => u_mul X (ydgD j) (u_sub X (u_ivl X (D j)) (u_pt X (x j)))) in
    definitely (u_apart X yC ygD).
  (** lines 732-760; [ny] is y.size() *)
  Definition is_infeasibility_certificate (n m ny : nat) (D : nat -> ival X) (g : gfn) (C : nat -> ival X) (y : nat -> pt X) : bool :=
    if Nat.eqb ny 0 then existsb (fun j => x_empty X (D j)) (seq 0 n)
    else
      let iygx := g_taylor g y D in
      let iyC := u_dot m y (fun i => u_ivl X (C i)) in
      definitely (u_disjoint X iyC (u_num X iygx)).

  (** ** NonlinearInfeasibleInteriorPointOptimiser *)
  (** One iterate: the primal point [x], the multipliers [y], and whether the loop stops after it
      (because [mu] is small, or, in minimise, because the values do not change any more). *)
  Record iterate := mkIt { it_x : nat -> pt X; it_y : nat -> pt X; it_stop : bool }.
  (** feasible, lines 857-893.  [its] are the iterates of the 12 steps. *)
  Fixpoint feasible_loop (n m : nat) (D : nat -> ival X) (g : gfn) (C : nat -> ival X) (its : list iterate) : outcome :=
    match its with
    | [] => Answer INDET
    | it :: its' =>
      match validate_feasibility n m D g C (it_x it) with
      | Answer v =>
        if definitely v then Answer TRUE
        else if is_infeasibility_certificate n m m D g C (it_y it) then Answer FALSE
        else if it_stop it then Answer INDET
        else feasible_loop n m D g C its'
      | o => o
      end
    end.
  Definition feasible (n m : nat) (D : nat -> ival X) (g : gfn) (C : nat -> ival X) (its : list iterate) : outcome :=
    feasible_loop n m D g C (firstn 12 its).
  (** minimise, lines 809-855: a point, InfeasibleProblemException, IndeterminateFeasibilityException
      or SingularMatrixException.  [last] is the point at the end of the loop. *)
  Inductive minimum := Point (x : nat -> N) | Infeasible | Indeterminate | MinSingular.
  Definition min_end (n m : nat) (D : nat -> ival X) (g : gfn) (C : nat -> ival X) (last : nat -> pt X) : minimum :=
    match validate_feasibility n m D g C last with
    | Answer v => if definitely v then Point (fun j => x_num X (last j)) else Indeterminate
    | _ => MinSingular
    end.
  Fixpoint minimise_loop (n m : nat) (D : nat -> ival X) (g : gfn) (C : nat -> ival X) (its : list iterate) (last : nat -> pt X) : minimum :=
    match its with
    | [] => min_end n m D g C last
    | it :: its' =>
      if is_infeasibility_certificate n m m D g C (it_y it) then Infeasible
      else if it_stop it then min_end n m D g C (it_x it)
      else minimise_loop n m D g C its' (it_x it)
    end.
  (** line 826: the constraint set is cut to the range of [g] *)
  Definition cut (D : nat -> ival X) (g : gfn) (C : nat -> ival X) : nat -> ival X :=
    fun i => x_meet X (C i) (u_add X (g_apply g (fun j => u_ivl X (D j)) i) (u_sym X)).
  Definition minimise (n m : nat) (D : nat -> ival X) (g : gfn) (C : nat -> ival X) (its : list iterate) (x0 : nat -> pt X) : minimum :=
    minimise_loop n m D g (cut D g C) (firstn 24 its) x0.
End OPT.
