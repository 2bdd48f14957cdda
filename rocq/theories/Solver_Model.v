(** Model of the linear and nonlinear equation solvers: inversion of interval matrices,
    Gauss-Seidel solution of linear systems, and the interval Newton and Krawczyk solvers
    with their driver loops.

    Simplifications.  The code works on [Vector<FloatDPBounds>] and [Matrix<FloatDPBounds>].
    The model is written once over a record [ops] of the interval operations the code uses,
    and instantiated in Solver_Float_Model.v with the floating-point bounds of Bounds_Model.v.
    A vector or matrix is a function of its indices together with its size [n]; storing it
    ([store_v], [store_m]) copies its entries into a list, as the code's arrays do.  The inner loops over rows of
    the matrix update rows which the loop does not read, so they are written as one
    simultaneous update.  Functions are pairs of an evaluation and a Jacobian oracle.  Log
    messages are dropped, except where building one can throw. *)
From Coq Require Import List Bool Arith.
Import ListNotations.

(** The operations on validated numbers used by the solvers: float_bounds.hpp:212-226,
    595-629 (arithmetic), 218-221 (rec), mig with the comparison [decide(mig(a)>mig(b))] of
    matrix.tpl.hpp:236, the lattice operations of float_bounds.hpp, the exact midpoint
    [cast_exact] of casts.hpp:53, the test [definitely(sup_error(.)<maximum_error())] of one
    component, the interval [-w,+w] by which solver.cpp:273-274 widens a vector of the given
    size, the largest-first bisection of box.tpl.hpp:79-98, and [decide(a<b)]. *)
Record ops : Type := mkOps {
  num : Type;
  n0 : num; n1 : num;
  nadd : num -> num -> num; nsub : num -> num -> num; nmul : num -> num -> num;
  nrec : num -> num; ndiv : num -> num -> num; nmid : num -> num;
  nmiggt : num -> num -> bool;
  nnonzero : num -> bool;
  nconsistent : num -> num -> bool; ninconsistent : num -> num -> bool;
  nrefines : num -> num -> bool; nrefinement : num -> num -> num;
  nsmall : num -> bool;
  nwiden : nat -> (nat -> num) -> num;
  nsplit : nat -> (nat -> num) -> (nat -> num) * (nat -> num);
  nlt : num -> num -> bool
}.

Section SOLVER.
  Variable P : ops.
  Notation X := (num P).
  Notation vec := (nat -> X).
  Notation mat := (nat -> nat -> X).

  (** Copying a vector or matrix into its array (vector.hpp, matrix.hpp:486-488). *)
  Definition store_v (n : nat) (v : vec) : vec := let l := map v (seq 0 n) in fun i => nth i l (n0 P).
  Definition store_m (n : nat) (A : mat) : mat :=
    let l := map (fun i => map (A i) (seq 0 n)) (seq 0 n) in fun i j => nth j (nth i l []) (n0 P).

  (** Sums as in the product loops of matrix.hpp:762-787: start from zero, add the terms in order. *)
  Fixpoint nsum (n : nat) (f : nat -> X) : X := match n with O => n0 P | S k => nadd P (nsum k f) (f k) end.
  (** matrix.hpp:776-787 *)
  Definition nmv (n : nat) (A : mat) (x : vec) : vec := fun i => nsum n (fun j => nmul P (A i j) (x j)).
  (** matrix.hpp:762-774 *)
  Definition nmm (n : nat) (A B : mat) : mat := fun i j => nsum n (fun k => nmul P (A i k) (B k j)).
  Definition nid : mat := fun i j => if Nat.eqb i j then n1 P else n0 P.

  (** ** lu_inverse: matrix.tpl.hpp:214-298 *)
  (** Choice of the pivot row, matrix.tpl.hpp:232-240: scan rows [i..i+c-1] of column [k]. *)
  Fixpoint pivot (A : mat) (k c i : nat) (best : option nat) : option nat :=
    match c with
    | O => best
    | S c' => let cur := match best with None => n0 P | Some b => A b k end in
              pivot A k c' (S i) (if nmiggt P (A i k) cur then Some i else best)
    end.
  Definition swap_rows (k q : nat) (A : mat) : mat :=
    fun i j => if Nat.eqb i k then A q j else if Nat.eqb i q then A k j else A i j.
  (** Swap, eliminate below the pivot and scale the pivot row, matrix.tpl.hpp:242-280.
      [None] is the SingularMatrixException. *)
  Definition lu_step (n k : nat) (AB : mat * mat) : option (mat * mat) :=
    let (A, B) := AB in
    match pivot A k (n - k) k None with
    | None => None
    | Some q =>
      let A1 : mat := fun i j => if Nat.leb k j then swap_rows k q A i j else A i j in
      let B1 := swap_rows k q B in
      let r := nrec P (A1 k k) in
      let A2 : mat := fun i j =>
        if Nat.ltb k i then
          if Nat.eqb j k then n0 P
          else if Nat.ltb k j then nsub P (A1 i j) (nmul P (nmul P (A1 i k) r) (A1 k j)) else A1 i j
        else if Nat.eqb i k then
          if Nat.eqb j k then n1 P else if Nat.ltb k j then nmul P (A1 k j) r else A1 k j
        else A1 i j in
      let B2 : mat := fun i j =>
        if Nat.ltb k i then nsub P (B1 i j) (nmul P (nmul P (A1 i k) r) (B1 k j))
        else if Nat.eqb i k then nmul P (B1 k j) r else B1 i j in
      Some (store_m n A2, store_m n B2)
    end.
  Fixpoint lu_forward (n c k : nat) (AB : mat * mat) : option (mat * mat) :=
    match c with O => Some AB | S c' => match lu_step n k AB with None => None | Some AB' => lu_forward n c' (S k) AB' end end.
  (** Back substitution, matrix.tpl.hpp:283-293: for k = c-1, ..., 0. *)
  Definition lu_back_step (n k : nat) (AB : mat * mat) : mat * mat :=
    let (A, B) := AB in
    (store_m n (fun i j => if Nat.ltb i k && Nat.eqb j k then n0 P else A i j),
     store_m n (fun i j => if Nat.ltb i k then nsub P (B i j) (nmul P (A i k) (B k j)) else B i j)).
  Fixpoint lu_back (n c : nat) (AB : mat * mat) : mat * mat :=
    match c with O => AB | S k => lu_back n k (lu_back_step n k AB) end.
  Definition lu_inverse (n : nat) (M : mat) : option mat :=
    match lu_forward n n 0 (store_m n M, store_m n nid) with None => None | Some AB => Some (snd (lu_back n n AB)) end.

  (** ** Linear systems with one right-hand side *)
  (** matrix.tpl.hpp:315-317, 446-449 *)
  Definition lu_solve (n : nat) (A : mat) (b : vec) : option vec :=
    match lu_inverse n A with None => None | Some Ai => Some (store_v n (nmv n Ai b)) end.
  (** One update of one component, matrix.tpl.hpp:352-368 and 392-411. *)
  Definition gs_entry (n : nat) (A : mat) (b x : vec) (i : nat) : vec :=
    let fix go (c k : nat) (r : X) : X :=
      match c with O => r | S c' => go c' (S k) (if Nat.eqb k i then r else nsub P r (nmul P (A i k) (x k))) end in
    let ri := go n 0 (b i) in
    if nnonzero P (A i i) then store_v n (fun j => if Nat.eqb j i then nrefinement P (x i) (ndiv P ri (A i i)) else x j) else x.
  Fixpoint gs_pass (n : nat) (A : mat) (b : vec) (c i : nat) (x : vec) : vec :=
    match c with O => x | S c' => gs_pass n A b c' (S i) (gs_entry n A b x i) end.
  (** gs_solve_bounds for one column of [B], matrix.tpl.hpp:371-419.  [J] is the matrix of exact
      numbers obtained from the approximate inverse of the midpoints (lines 379-381). *)
  Definition gs_solve (n : nat) (J A : mat) (b : vec) : option vec :=
    let JA := store_m n (nmm n J A) in let Jb := store_v n (nmv n J b) in
    match lu_solve n A b with None => None | Some x => Some (gs_pass n JA Jb n 0 x) end.

  (** ** Nonlinear solvers *)
  Record fn : Type := mkFn { f_ev : vec -> vec; f_jac : vec -> mat }.
  Inductive method := Newton | Krawczyk | Factored.

  (** IntervalNewtonSolver::step, solver.cpp:394-417 *)
  Definition newton_step (n : nat) (f : fn) (x : vec) : option vec :=
    let m := store_v n (fun i => nmid P (x i)) in
    let w := store_v n (f_ev f m) in
    match lu_inverse n (f_jac f x) with
    | None => None
    | Some Ainv => let dx := nmv n Ainv w in Some (store_v n (fun i => nsub P (m i) (dx i)))
    end.
  (** KrawczykSolver::step, solver.cpp:419-444 *)
  Definition krawczyk_step (n : nat) (f : fn) (x : vec) : option vec :=
    let m := store_v n (fun i => nmid P (x i)) in
    let fm := store_v n (f_ev f m) in
    let J := store_m n (f_jac f x) in
    match lu_inverse n (fun i j => nmid P (J i j)) with
    | None => None
    | Some M =>
      let MJ := store_m n (nmm n M J) in
      let Mfm := nmv n M fm in
      let R := nmv n (fun i j => nsub P (nid i j) (MJ i j)) (fun j => nsub P (x j) (m j)) in
      Some (store_v n (fun i => nsub P (m i) (nsub P (Mfm i) (R i))))
    end.
  (** FactoredKrawczykSolver::step, solver.cpp:447-474 *)
  Definition factored_step (n : nat) (f : fn) (x : vec) : option vec :=
    let m := store_v n (fun i => nmid P (x i)) in
    let fm := store_v n (f_ev f m) in
    let J := store_m n (f_jac f x) in
    let mJ := store_m n (fun i j => nmid P (J i j)) in
    match lu_inverse n mJ with
    | None => None
    | Some M =>
      let R := nmv n (fun i j => nsub P (J i j) (mJ i j)) (fun j => nsub P (x j) (m j)) in
      let dx := nmv n M (store_v n (fun i => nadd P (fm i) (R i))) in
      Some (store_v n (fun i => nsub P (m i) (dx i)))
    end.
  Definition step (s : method) : nat -> fn -> vec -> option vec :=
    match s with Newton => newton_step | Krawczyk => krawczyk_step | Factored => factored_step end.

  (** Componentwise tests, vector.hpp:665-726. *)
  Definition vrefines (n : nat) (x y : vec) : bool := forallb (fun i => nrefines P (x i) (y i)) (seq 0 n).
  Definition vconsistent (n : nat) (x y : vec) : bool := forallb (fun i => nconsistent P (x i) (y i)) (seq 0 n).
  Definition vinconsistent (n : nat) (x y : vec) : bool := existsb (fun i => ninconsistent P (x i) (y i)) (seq 0 n).
  Definition vsmall (n : nat) (x : vec) : bool := forallb (fun i => nsmall P (x i)) (seq 0 n).
  Definition vzero : vec := fun _ => n0 P.

  (** Outcomes of SolverBase::zero: a vector, NoSolutionException, another SolverException, or
      the SingularMatrixException of the matrix inverse. *)
  Inductive outcome := Found (x : vec) | NoSolution | Failed | Singular.
  (** The end of SolverBase::zero, solver.cpp:266-280. *)
  Definition zero_end (n : nat) (s : method) (f : fn) (r : vec) : outcome :=
    if negb (vconsistent n (f_ev f r) vzero) then NoSolution
    else let w := nwiden P n r in
         let r' := store_v n (fun i => nadd P (r i) w) in
         match step s n f r' with
         | None => Singular
         | Some nr => if vrefines n nr r' then Found nr else Failed
         end.
  (** SolverBase::zero, solver.cpp:238-265; [steps] is maximum_number_of_steps(). *)
  Fixpoint zero_loop (n : nat) (s : method) (f : fn) (steps : nat) (has : bool) (r : vec) : outcome :=
    match steps with
    | O => zero_end n s f r
    | S k =>
      match step s n f r with
      | None => Singular
      | Some nr =>
        let has' := has || vrefines n nr r in
        if has' && vsmall n nr then Found nr
        else if negb (vconsistent n nr r) then NoSolution
        else zero_loop n s f k has' (store_v n (fun i => nrefinement P (nr i) (r i)))
      end
    end.
  Definition zero (n : nat) (s : method) (f : fn) (steps : nat) (bx : vec) : outcome := zero_loop n s f steps false bx.

  (** ** SolverBase::solve_all, solver.cpp:153-232 *)
  (** ContainerComparison<Vector<X>>, solver_interface.hpp:43-52 *)
  Fixpoint vless (c i : nat) (x y : vec) : bool :=
    match c with
    | O => false
    | S c' => if nlt P (x i) (y i) then true else if nlt P (y i) (x i) then false else vless c' (S i) x y
    end.
  (** std::set::insert: an element equivalent to one already present is not inserted.  (The
      comparison is not a strict weak order, C82, so which equivalent elements an actual
      std::set finds depends on its tree; the model compares with all of them.) *)
  Definition equivalent (n : nat) (x y : vec) : bool := negb (vless n 0 x y) && negb (vless n 0 y x).
  Definition set_insert (n : nat) (y : vec) (s : list vec) : list vec := if existsb (equivalent n y) s then s else s ++ [y].
  Definition set_adjoin (n : nat) (s t : list vec) : list vec := fold_left (fun s y => set_insert n y s) t s.

  (** A run of solve_all: the set of results, and whether some box was given up with the
      warning that a solution can neither be verified nor falsified (lines 214-223); or the
      SingularMatrixException, which is not a SolverException and which nothing catches; or
      the model's fuel ran out. *)
  Inductive all_outcome := All (ys : list vec) (gave_up : bool) | AllSingular | AllFuel.
  Fixpoint solve_all (fuel n : nat) (s : method) (f : fn) (steps : nat) (bx : vec) : all_outcome :=
    match fuel with
    | O => AllFuel
    | S fuel' =>
      if vinconsistent n (f_ev f bx) vzero then All [] false
      else
        let invertible := match lu_inverse n (f_jac f bx) with None => false | Some _ => true end in
        let split_up (_ : unit) :=
          if vsmall n bx then
            if invertible then All [] true
            else (* the text of the warning contains inverse(midpoint(f.jacobian(nx))) *)
              match lu_inverse n (fun i j => nmid P (f_jac f bx i j)) with None => AllSingular | Some _ => All [] true end
          else
            let (b1, b2) := nsplit P n bx in
            match solve_all fuel' n s f steps b1 with
            | All y1 g1 =>
              match solve_all fuel' n s f steps b2 with
              | All y2 g2 => All (set_adjoin n (set_adjoin n [] y1) y2) (g1 || g2)
              | e => e
              end
            | e => e
            end in
        if invertible then
          match zero n s f steps bx with
          | Found y => All [y] false
          | NoSolution => All [] false
          | Failed => split_up tt
          | Singular => AllSingular
          end
        else split_up tt
    end.

  (** SolverBase::solve, solver.cpp:137-146 *)
  Inductive solve_outcome := Solution (x : vec) | SNoSolution | SNotUnique | SSingular | SFuel.
  Definition solve (fuel n : nat) (s : method) (f : fn) (steps : nat) (bx : vec) : solve_outcome :=
    match solve_all fuel n s f steps bx with
    | All [] _ => SNoSolution
    | All [y] _ => Solution y
    | All _ _ => SNotUnique
    | AllSingular => SSingular
    | AllFuel => SFuel
    end.

  (** SolverBase::fixed_point, solver.cpp:287-293: solve f - id = 0. *)
  Definition fn_minus_id (f : fn) : fn :=
    mkFn (fun x i => nsub P (f_ev f x i) (x i)) (fun x i j => nsub P (f_jac f x i j) (nid i j)).
  Definition fixed_point (fuel n : nat) (s : method) (f : fn) (steps : nat) (bx : vec) : solve_outcome :=
    solve fuel n s (fn_minus_id f) steps bx.
End SOLVER.
