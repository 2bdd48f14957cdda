(** Model of the feasibility tests of the simplex solver for linear programs A x = b, xl <= x <= xu:
    source/solvers/simplex_algorithm.cpp:95-165, 243-300, 398-590, 1133-1430.

    Simplifications.  The solver is a template over the number type X of the data, with RigorousNumericType<X>
    for what is computed.  The computed numbers are those of Solver_Model.v, and [lops] has the
    operations on the data.  Vectors and matrices are functions of their indices, [m] is the number of rows
    of A and [n] the number of columns, and m <= n.  Arrays of indices are lists.  ARIADNE_ASSERT,
    ARIADNE_FAIL_MSG and thrown exceptions are the result [None].  Log messages and warnings are dropped.
    The step of the simplex algorithm (lpstep, lines 1006-1120) is a parameter. *)
From Coq Require Import List Bool Arith.
From Verif Require Import Logical_Model Solver_Model.
Import ListNotations.

(** linear_programming.hpp:138-143: the status of a variable *)
Inductive slack := BASIS | LOWER | UPPER | FIXED.
Definition slack_eqb (a b : slack) : bool :=
  match a, b with BASIS, BASIS | LOWER, LOWER | UPPER, UPPER | FIXED, FIXED => true | _, _ => false end.

(** ** Arrays of indices *)
(** lines 98-127: extend an array of distinct indices to all the indices below [n] *)
Fixpoint mark (n : nat) (p : list nat) (k : nat) (q : nat -> nat) : option (nat -> nat) :=
  match p with
  | [] => Some q
  | j :: p' => if (Nat.ltb j n) && Nat.eqb (q j) n then mark n p' (S k) (fun i => if Nat.eqb i j then k else q i) else None
  end.
Fixpoint fill (n c j k : nat) (q : nat -> nat) : nat -> nat :=
  match c with
  | O => q
  | S c' => if Nat.eqb (q j) n then fill n c' (S j) (S k) (fun i => if Nat.eqb i j then k else q i) else fill n c' (S j) k q
  end.
(** the loop r[q[j]]=j: the last write wins; the array starts from zeros *)
Fixpoint invert (c j : nat) (q : nat -> nat) (r : nat -> nat) : nat -> nat :=
  match c with O => r | S c' => invert c' (S j) q (fun i => if Nat.eqb i (q j) then j else r i) end.
Definition extend_p (p : list nat) (n : nat) : option (list nat) :=
  let m := length p in
  match mark n p 0 (fun _ => n) with
  | None => None
  | Some q =>
    let q' := fill n n 0 m q in
    let r := map (invert n 0 q' (fun _ => O)) (seq 0 n) in
    if forallb (fun i => Nat.eqb (nth i p O) (nth i r O)) (seq 0 m) then Some r else None
  end.
(** lines 133-156; the loop of lines 149-151 starts at its end, and the only assignment m=n does nothing *)
Definition consistency_check_p (vt : list slack) (p : list nat) : option nat :=
  let n := length vt in
  let basic j := slack_eqb (nth j vt FIXED) BASIS in
  if negb (Nat.eqb (length p) n) then
    if Nat.ltb (length p) n then
      if forallb (fun j => Nat.ltb j n && basic j) p then Some (length p) else None
    else None
  else
    let fix go (l : list nat) : option nat :=
      match l with [] => Some n | j :: l' => if Nat.ltb j n then if basic j then go l' else Some n else None end in
    go p.
(** lines 284-297 *)
Definition compute_p (n : nat) (vt : nat -> slack) : list nat :=
  filter (fun j => slack_eqb (vt j) BASIS) (seq 0 n) ++ filter (fun j => negb (slack_eqb (vt j) BASIS)) (seq 0 n).

(** ** Linear programs *)
(** Operations on the data: [l_num] converts to a computed number; [l_lt x a] and [l_gt x a] are the
    comparisons x<a and x>a of a computed number with a datum, from which x>=a and x<=a are
    obtained by negation (numeric/arithmetic.hpp:644-654); [l_same a b] is decide(a==b) for data and
    [l_at x a] is decide(x==a); [l_lower_ok] and [l_upper_ok] are decide(a>-inf) and decide(a<+inf).
    [l_unhandled x a b] is the failure test of line 456, absent from the overload used when both
    number types are the same.  [l_small] is the test decide(norm(v)*10000<=1) of a vector, [l_inv1] and
    [l_inv2] are the tests decide(norm(Z)<MAXIMUM_ERROR) and decide(norm(Z)*10000<=1) of a matrix.
    [l_near_lo x a] is decide(x>=a-BOUNDS_TOLERANCE), [l_near_hi x a] is
    decide(x<=a+BOUNDS_TOLERANCE) and [l_res r] is decide(abs(r)<RESIDUAL_TOLERANCE). *)
Record lops (P : ops) : Type := mkL {
  ld : Type;
  l_zero : ld; l_ninf : ld; l_pinf : ld;
  l_num : ld -> num P;
  l_lt : num P -> ld -> lv; l_gt : num P -> ld -> lv;
  l_same : ld -> ld -> bool; l_at : num P -> ld -> bool;
  l_lower_ok : ld -> bool; l_upper_ok : ld -> bool;
  l_unhandled : num P -> ld -> ld -> bool;
  l_small : nat -> (nat -> num P) -> bool;
  l_inv1 : nat -> (nat -> nat -> num P) -> bool; l_inv2 : nat -> (nat -> nat -> num P) -> bool;
  l_near_lo : num P -> ld -> bool; l_near_hi : num P -> ld -> bool; l_res : num P -> bool
}.
Arguments ld {P}. Arguments l_zero {P}. Arguments l_ninf {P}. Arguments l_pinf {P}. Arguments l_num {P}. Arguments l_lt {P}. Arguments l_gt {P}.
Arguments l_same {P}. Arguments l_at {P}. Arguments l_lower_ok {P}. Arguments l_upper_ok {P}. Arguments l_unhandled {P}. Arguments l_small {P}.
Arguments l_inv1 {P}. Arguments l_inv2 {P}. Arguments l_near_lo {P}. Arguments l_near_hi {P}. Arguments l_res {P}.

Section LP.
  Variables (P : ops) (L : lops P).
  Notation N := (num P).
  Notation D := (ld L).
  Notation nat_of p k := (nth k p O).

  Definition upd {T : Type} (x : nat -> T) (j : nat) (v : T) : nat -> T := fun i => if Nat.eqb i j then v else x i.
  Definition l_le (x : N) (a : D) : lv := lv_neg (l_gt L x a).
  Definition l_ge (x : N) (a : D) : lv := lv_neg (l_lt L x a).

  (** lines 261-280 *)
  Definition compute_vt (m : nat) (xl xu : nat -> D) (p : list nat) : option (nat -> slack) :=
    let vt0 := fold_left (fun vt j => upd vt j BASIS) (firstn m p) (fun _ => BASIS) in
    fold_left (fun r j => match r with None => None | Some vt =>
                if l_lower_ok L (xl j) then Some (upd vt j LOWER) else if l_upper_ok L (xu j) then Some (upd vt j UPPER) else None end)
      (skipn m p) (Some vt0).
  (** the basic columns of A, lines 402-409 *)
  Definition basic_columns (A : nat -> nat -> D) (p : list nat) : nat -> nat -> N := fun i k => l_num L (A i (nat_of p k)).
  (** lines 398-416 *)
  Definition compute_B (m : nat) (A : nat -> nat -> D) (p : list nat) : option (nat -> nat -> N) := lu_inverse P m (basic_columns A p).
  (** lines 462-500 *)
  Definition non_basic (xl xu : nat -> D) (vt : nat -> slack) (j : nat) : N :=
    match vt j with LOWER => l_num L (xl j) | UPPER => l_num L (xu j) | _ => n0 P end.
  Definition residual_of (n : nat) (A : nat -> nat -> D) (b : nat -> D) (x : nat -> N) (i : nat) : N :=
    nsub P (nsum P n (fun j => nmul P (l_num L (A i j)) (x j))) (l_num L (b i)).
  Definition compute_x (m n : nat) (xl xu : nat -> D) (A : nat -> nat -> D) (b : nat -> D) (vt : nat -> slack) (p : list nat)
             (B : nat -> nat -> N) : option (nat -> N) :=
    let xN := non_basic xl xu vt in
    let w := store_v P m (fun i => fold_left (fun w k => nsub P w (nmul P (l_num L (A i (nat_of p k))) (xN (nat_of p k)))) (seq m (n - m)) (l_num L (b i))) in
    let x := store_v P n (fold_left (fun x k => upd x (nat_of p k) (nsum P m (fun i => nmul P (B k i) (w i)))) (seq 0 m) xN) in
    if l_small L m (residual_of n A b x) then Some x else None.
  (** lines 445-460 *)
  Definition minus1 : N := nsub P (n0 P) (n1 P).
  Definition compute_c (m : nat) (xl xu : nat -> D) (p : list nat) (x : nat -> N) : option (nat -> N) :=
    fold_left (fun r k => match r with None => None | Some c =>
      let j := nat_of p k in
      let c' := if possibly (l_le (x j) (xl j)) then upd c j minus1 else if possibly (l_ge (x j) (xu j)) then upd c j (n1 P) else c in
      if l_unhandled L (x j) (xl j) (xu j) then None else Some c' end) (seq 0 m) (Some (fun _ => n0 P)).
  (** lines 548-560 *)
  Definition compute_y (m : nat) (c : nat -> N) (p : list nat) (B : nat -> nat -> N) : nat -> N :=
    store_v P m (fun i => nsum P m (fun k => nmul P (c (nat_of p k)) (B k i))).
  (** lines 562-586; the array p lists every index, and the branch of lines 581-583 does nothing *)
  Definition compute_z (m : nat) (A : nat -> nat -> D) (c y : nat -> N) (j : nat) : N :=
    fold_left (fun z i => nsub P z (nmul P (y i) (l_num L (A i j)))) (seq 0 m) (c j).

  (** lines 1394-1405 *)
  Fixpoint primal_test (xl xu : nat -> D) (x : nat -> N) (js : list nat) (fs : lv) : lv :=
    match js with
    | [] => fs
    | j :: js' =>
      if possibly (l_le (x j) (xl j)) || possibly (l_ge (x j) (xu j)) then
        if definitely (l_lt L (x j) (xl j)) || definitely (l_gt L (x j) (xu j)) then FALSE
        else primal_test xl xu x js' INDET
      else primal_test xl xu x js' fs
    end.
  (** lines 1415-1419 *)
  Fixpoint dual_test (vt : nat -> slack) (z : nat -> N) (js : list nat) (fs : lv) : lv :=
    match js with
    | [] => fs
    | j :: js' =>
      if slack_eqb (vt j) LOWER && possibly (l_le (z j) (l_zero L)) then INDET
      else if slack_eqb (vt j) UPPER && possibly (l_ge (z j) (l_zero L)) then INDET
      else dual_test vt z js' fs
    end.
  (** lines 1344-1430.  Lines 1363-1370 compute for the log what is computed again below. *)
  Definition verify_feasibility (m n : nat) (xl xu : nat -> D) (A : nat -> nat -> D) (b : nat -> D) (vt : nat -> slack) : option lv :=
    let p := compute_p n vt in
    if existsb (fun j => l_same L (xl j) (xu j) && slack_eqb (vt j) BASIS) (seq 0 n) then None
    else match compute_B m A p with
    | None => None
    | Some B =>
      match compute_x m n xl xu A b vt p B with
      | None => None
      | Some x =>
        match compute_c m xl xu p x with
        | None => None
        | Some c =>
          let y := compute_y m c p B in
          let z := compute_z m A c y in
          let fs := primal_test xl xu x (firstn m p) TRUE in
          if definitely fs then Some fs else Some (dual_test vt z (skipn m p) fs)
        end
      end
    end.

  (** ** The feasibility test of the algorithm *)
  Record state := mkS { s_vt : nat -> slack; s_p : list nat; s_B : nat -> nat -> N; s_x : nat -> N }.
  (** lpstep of lines 1069-1090 with cost [cc], relaxed bounds [ll], [uu]: [true] when no variable can enter the basis *)
  Variable step : (nat -> N) -> (nat -> D) -> (nat -> D) -> state -> option (bool * state).
  (** lines 1162-1168 and 1189-1196: [ROBUST_FEASIBILITY_THRESHOLD] is 0 *)
  Definition below_lo (x : nat -> N) (xl : nat -> D) (j : nat) : bool := decide_lv (l_lt L (x j) (xl j)).
  Definition above_hi (x : nat -> N) (xu : nat -> D) (j : nat) : bool := decide_lv (l_gt L (x j) (xu j)).
  Definition infeasible_at (n : nat) (xl xu : nat -> D) (x : nat -> N) : bool :=
    existsb (fun j => below_lo x xl j || above_hi x xu j) (seq 0 n).
  Definition cost (x : nat -> N) (xl xu : nat -> D) (j : nat) : N :=
    if below_lo x xl j then minus1 else if above_hi x xu j then n1 P else n0 P.
  Definition relax_lo (x : nat -> N) (xl : nat -> D) (j : nat) : D := if below_lo x xl j then l_ninf L else xl j.
  Definition relax_hi (x : nat -> N) (xl xu : nat -> D) (j : nat) : D :=
    if below_lo x xl j then xu j else if above_hi x xu j then l_pinf L else xu j.
  (** lines 1212-1223 *)
  Definition final_check (m n : nat) (xl xu : nat -> D) (A : nat -> nat -> D) (b : nat -> D) (x : nat -> N) : bool :=
    forallb (fun j => l_near_lo L (x j) (xl j) && l_near_hi L (x j) (xu j)) (seq 0 n) &&
    forallb (fun i => l_res L (residual_of n A b x i)) (seq 0 m).
  (** lines 1137-1229; [c] counts the steps left, of MAX_STEPS=1024.  Simplification: the relaxed
      bounds are a function of the current x.  In the code a bound relaxed in an earlier pass stays so when its
      variable has gone from above its range to below it or back, and is reset otherwise (line 1196). *)
  Fixpoint feasible_loop (c m n : nat) (xl xu : nat -> D) (A : nat -> nat -> D) (b : nat -> D) (s : state) : option (bool * state) :=
    let x := s_x s in
    if infeasible_at n xl xu x then
      match step (cost x xl xu) (relax_lo x xl) (relax_hi x xl xu) s with
      | None => None
      | Some (true, s') => Some (false, s')
      | Some (false, s') =>
        if forallb (fun j => match s_vt s' j with LOWER => l_at L (s_x s' j) (xl j) | UPPER => l_at L (s_x s' j) (xu j) | _ => true end) (seq 0 n)
        then match c with O => None | S c' => feasible_loop c' m n xl xu A b s' end
        else None
      end
    else if final_check m n xl xu A b x then Some (true, s) else None.
  (** B*A_B-I, lines 183-187 and 224-227 *)
  Definition defect (m : nat) (A : nat -> nat -> D) (p : list nat) (B : nat -> nat -> N) : nat -> nat -> N :=
    fun i j => let v := nsum P m (fun k => nmul P (B i k) (basic_columns A p k j)) in if Nat.eqb i j then nsub P v (n1 P) else v.
  (** lines 208-238 *)
  Definition consistency_check_x (m n : nat) (xl xu : nat -> D) (A : nat -> nat -> D) (b : nat -> D) (vt : nat -> slack) (p : list nat)
             (B : nat -> nat -> N) (x : nat -> N) : bool :=
    l_inv2 L m (defect m A p B) &&
    forallb (fun j => match vt j with LOWER => l_at L (x j) (xl j) | UPPER => l_at L (x j) (xu j) | _ => false end) (skipn m p) &&
    l_small L m (residual_of n A b x).
  (** hotstarted_feasible, lines 1269-1292 and 1297-1336.  The validated answer is computed and
      compared for a warning; the answer of the algorithm is returned. *)
  Definition hotstarted_feasible (m n : nat) (xl xu : nat -> D) (A : nat -> nat -> D) (b : nat -> D) (vt : nat -> slack) : option lv :=
    let p := compute_p n vt in
    match compute_B m A p with
    | None => None
    | Some B =>
      if l_inv1 L m (defect m A p B) then
        match compute_x m n xl xu A b vt p B with
        | None => None
        | Some x =>
          if consistency_check_x m n xl xu A b vt p B x then
            match feasible_loop 1023 m n xl xu A b (mkS vt p B x) with
            | None => None
            | Some (fs, s') =>
              match verify_feasibility m n xl xu A b (s_vt s') with
              | None => None
              | Some _ => Some (if fs then TRUE else FALSE)
              end
            end
          else None
        end
      else None
    end.
End LP.
