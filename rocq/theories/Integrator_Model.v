(** Integrators for differential equations: source/solvers/integrator.cpp.

    Function models (Taylor models of vector functions of state, time and parameters) are any type [M] with the
    operations which the integrators use; the operations are fixed for the domain of the step.  Boxes, evaluation and
    times are as in [Bounder_Model].  Not modelled: preconditions on the dimensions, log output, the series of
    graded differentials (lines 520-890). *)
From Coq Require Import ZArith NArith Bool List Reals.
From Flocq Require Import Core IEEE754.BinarySingleNaN.
From Verif Require Import Float_Model Bounds_Model Box_Float_Model ConstraintSolver_Model Bounder_Model.
From Verif Require Exact_Model.
Import ListNotations.

Section Integrator.
Context {prec emax : Z} {Hprec : Prec_gt_0 prec} {Hemax : Prec_lt_emax prec emax}.
Local Notation fl := (binary_float prec emax).
Local Notation bnd := (bounds prec emax).
Local Notation cbox := (list bnd).
Local Notation time := Exact_Model.dyadic_fin.
Context {M : Type}.

(** Outcome of a step with a given step size and bounding box. *)
Inductive outcome :=
  | Step (m : M)
  | TimeStepError   (** FlowTimeStepException *)
  | OtherError      (** any other exception *)
  | Looping.        (** still running *)

(** ** TaylorPicardIntegrator, GradedTaylorPicardIntegrator *)
Record operations := {
  m_projection : M;                (** create_projection(wdom,range(0,nx)), lines 289, 373 *)
  m_constants : M;                 (** create_constants(wdom,cast_singleton(bx)), lines 291, 375 *)
  m_compose : M -> option M;       (** compose(f,join(phi,ta)); [None] is an exception *)
  m_antiderivative : M -> M;       (** antiderivative(fphi,nx) *)
  m_add : M -> M -> M;
  m_restriction : M -> M;          (** restriction(phi,dom) *)
  m_errors : M -> list fl;
  m_error : M -> fl                (** the largest error *)
}.
Section Picard.
  Context (ops : operations) (max_error : fl).
  (** [definitely(phi.error()<step_maximum_error)] and [possibly(phi.error()>step_maximum_error)] *)
  Definition below_maximum (m : M) : bool := flt_lt (m_error ops m) max_error.
  Definition above_maximum (m : M) : bool := negb (flt_le (m_error ops m) max_error).
  (** lines 300, 307; 381, 386 *)
  Definition picard (m : M) : option M :=
    option_map (fun fphi => m_add ops (m_antiderivative ops fphi) (m_projection ops)) (m_compose ops m).

  (** lines 296-310, with [n] iterations left; the error is tested before the iteration *)
  Fixpoint picard_loop (min_order n k : nat) (phi : M) : option M :=
    match n with
    | O => Some phi
    | S n' =>
      let below := below_maximum phi in
      match picard phi with
      | None => None
      | Some phi' => if below && (min_order <=? k)%nat then Some phi' else picard_loop min_order n' (S k) phi'
      end
    end.
  (** lines 262-316 *)
  Definition picard_step (min_order max_order : nat) : outcome :=
    match m_compose ops (m_projection ops) with
    | None => OtherError
    | Some _ =>
      match picard_loop min_order max_order 0 (m_constants ops) with
      | None => TimeStepError
      | Some phi => if above_maximum phi then TimeStepError else Step (m_restriction ops phi)
      end
    end.

  (** lines 379-389 *)
  Fixpoint iterate (n : nat) (phi : M) : option M :=
    match n with O => Some phi | S n' => match picard phi with None => None | Some phi' => iterate n' phi' end end.
  (** lines 394-398: an error refines another if it is not larger *)
  Definition errors_refine (new old : list fl) : bool := forallb (fun p => flt_le (fst p) (snd p)) (combine new old).
  (** lines 405-414; the arithmetic is approximate *)
  Definition has_improved (minimum : fl) (old new : list fl) : bool :=
    existsb (fun p => let e := fst p in let e' := snd p in
      flt_lt fzero e && flt_le minimum (fdiv mode_NE (fsub mode_NE e e') e)) (combine old new).
  (** lines 402-417 *)
  Fixpoint graded_refine (minimum : fl) (fuel : nat) (errors : list fl) (phi : M) : outcome :=
    match fuel with
    | O => Looping
    | S fuel' =>
      match picard phi with
      | None => OtherError
      | Some phi' =>
        if has_improved minimum errors (m_errors ops phi') then graded_refine minimum fuel' (m_errors ops phi') phi'
        else if above_maximum phi' then TimeStepError else Step (m_restriction ops phi')
      end
    end.
  (** lines 345-424 *)
  Definition graded_step (minimum : fl) (order fuel : nat) : outcome :=
    match m_compose ops (m_projection ops) with
    | None => OtherError
    | Some _ =>
      match iterate order (m_constants ops) with
      | None => TimeStepError
      | Some phi =>
        match picard phi with
        | None => OtherError
        | Some phi' => if errors_refine (m_errors ops phi') (m_errors ops phi)
                       then graded_refine minimum fuel (m_errors ops phi') phi' else TimeStepError
        end
      end
    end.
End Picard.

(** ** The choice of the step size *)
Inductive stepping :=
  | Done (h : time) (m : M)
  | Incomplete (h : time) (m : M)  (** IncompleteFlowException *)
  | Failed                         (** any other exception *)
  | Running.
(** lines 155-164, 199-208 *)
Fixpoint reduce_step (step : time -> outcome) (fuel : nat) (hprev h : time) : stepping :=
  match fuel with
  | O => Running
  | S fuel' =>
    match step h with
    | Step m => Done h m
    | TimeStepError => reduce_step step fuel' h (next_step (prec := prec) (emax := emax) hprev)
    | OtherError => Failed
    | Looping => Running
    end
  end.
(** IntegratorBase::flow_step(vf,dx,hsug), lines 150-165: the initial box is passed as bounding box *)
Definition unbounded_step (step : time -> cbox -> outcome) (D : cbox) (fuel : nat) (hsug : time) : stepping :=
  reduce_step (fun h => step h D) fuel (Exact_Model.d_mulx hsug (Exact_Model.mkD 3 (-1))) hsug.
(** BoundedIntegratorBase::flow_step(vf,dx,hsug), lines 192-209 *)
Definition bounded_step (bounder : time -> bounding (prec := prec) (emax := emax)) (step : time -> cbox -> outcome)
    (fuel : nat) (hsug : time) : stepping :=
  match bounder hsug with
  | Found h B => reduce_step (fun h => step h B) fuel (Exact_Model.d_mulx h (Exact_Model.mkD 3 (-1))) h
  | NotFound => Failed
  | Searching => Running
  end.
(** BoundedIntegratorBase::flow_step(vf,dx,h), lines 211-226 *)
Definition bounded_fixed_step (bounder : time -> bounding (prec := prec) (emax := emax)) (step : time -> cbox -> outcome)
    (h : time) : stepping :=
  match bounder h with
  | Found hbnd B =>
    match step (if t_lt hbnd h then hbnd else h) B with
    | Step m => if t_lt hbnd h then Incomplete hbnd m else Done h m
    | TimeStepError | OtherError => Failed
    | Looping => Running
    end
  | NotFound => Failed
  | Searching => Running
  end.
Definition half (h : time) : time := Exact_Model.mkD (Exact_Model.mant h) (Exact_Model.expo h - 1).
(** lines 173-176: the reduced step is always half of [h] *)
Fixpoint fixed_loop (step : time -> outcome) (inside : M -> bool) (h : time) (fuel : nat) (hred : time) (phi : M) : stepping :=
  match fuel with
  | O => Running
  | S fuel' =>
    if inside phi then (if t_lt hred h then Incomplete hred phi else Done hred phi)
    else match step (half h) with
         | Step phi' => fixed_loop step inside h fuel' (half h) phi'
         | TimeStepError | OtherError => Failed
         | Looping => Running
         end
  end.
(** IntegratorBase::flow_step(vf,dx,h), lines 167-184; [inside]: the range is a subset of the bounding box [bx] *)
Definition unbounded_fixed_step (step : time -> outcome) (inside : M -> bool) (fuel : nat) (h : time) : stepping :=
  match step h with
  | Step phi => fixed_loop step inside h fuel h phi
  | TimeStepError | OtherError => Failed
  | Looping => Running
  end.

(** ** TaylorSeriesBounderIntegrator *)
Section Series.
  (** [series h B] is series_flow_step for the time interval [0,h] and the bound [B]; [range] of a model; [first] is the
      bound computed in lines 1022-1025; [widen] is line 1036, which is also line 1047 *)
  Context (series : time -> cbox -> M) (range : M -> cbox) (error : M -> fl) (first : cbox) (widen : cbox -> cbox) (max_error : fl).
  (** lines 1040-1055; [xrng] is the range of the first model *)
  Fixpoint series_loop (xrng : cbox) (fuel : nat) (wh h : time) (B : cbox) : stepping :=
    match fuel with
    | O => Running
    | S fuel' =>
      let phi := series h B in
      if box_refines xrng B then
        if flt_lt (error phi) max_error then Done h phi
        else series_loop xrng fuel' h (half wh) xrng
      else series_loop xrng fuel' h (half wh) (widen xrng)
    end.
  (** lines 985-1058; the wide step is h+hlf(h) *)
  Definition series_bounder_step (fuel : nat) (h : time) : stepping :=
    let phi := series h first in
    let xrng := range phi in
    let B := if box_refines xrng first then first else widen xrng in
    series_loop xrng fuel (Exact_Model.d_addx h (half h)) h B.
End Series.

(** ** AffineIntegrator *)
(** A differential is the list of its terms; the last variable is the time. *)
Definition term : Type := list nat * bnd.
Definition differential := list term.
Definition index_eqb (a b : list nat) : bool := if list_eq_dec Nat.eq_dec a b then true else false.
Definition zero_index (n : nat) : list nat := repeat 0%nat n.
Definition unit_index (n j : nat) : list nat := repeat 0%nat j ++ 1%nat :: repeat 0%nat (n - S j).
Definition index_degree (a : list nat) : nat := fold_right Nat.add 0%nat a.
Definition last_entry (a : list nat) : nat := last a 0%nat.
(** expansion.hpp: operator[] of a sparse expansion; zero if absent *)
Definition coefficient (d : differential) (a : list nat) : bnd :=
  match find (fun t => index_eqb (fst t) a) d with Some t => snd t | None => b_of fzero end.
(** algebra/differential.tpl.hpp:93-101 *)
Definition d_variable (n : nat) (v : bnd) (j : nat) : differential := [(zero_index n, v); (unit_index n j, b_of (fnat 1))].
(** the sum, up to degree [deg]; terms of the first come first (the order is not used) *)
Definition d_sum (deg : nat) (x y : differential) : differential :=
  filter (fun t => index_degree (fst t) <=? deg)%nat
    (map (fun t => (fst t, if existsb (fun u => index_eqb (fst u) (fst t)) y then b_add (snd t) (coefficient y (fst t)) else snd t)) x
     ++ filter (fun t => negb (existsb (fun u => index_eqb (fst u) (fst t)) x)) y).
(** algebra/differential.tpl.hpp:642-657 in the last variable *)
Fixpoint raise_last (a : list nat) : list nat :=
  match a with [] => [] | [k] => [S k] | k :: a' => k :: raise_last a' end.
Definition d_antiderivative (x : differential) : differential :=
  map (fun t => let a := raise_last (fst t) in (a, bf_div (snd t) (fnat (last_entry a)))) x.
(** lines 1136-1152 *)
Definition d_truncate (so to_ : nat) (x : differential) : differential :=
  filter (fun t => negb ((to_ <? last_entry (fst t)) || (last_entry (fst t) + so <? index_degree (fst t))))%nat x.

Section Affine.
  (** the field evaluated on differentials *)
  Context (f : list differential -> list differential) (so to_ : nat).
  (** lines 1162-1177 *)
  Fixpoint flow_iterate (deg k : nat) (dx phi : list differential) : list differential :=
    match k with
    | O => phi
    | S k' => flow_iterate deg k' dx (map (fun p => d_sum deg (d_antiderivative (fst p)) (snd p)) (combine (f phi) dx))
    end.
  Definition flow_derivative (dom : cbox) : list differential :=
    let n := length dom in
    let dx := map (fun iv => d_variable (S n) (snd iv) (fst iv)) (combine (seq 0 n) dom) in
    map (d_truncate so to_) (flow_iterate (so + to_) to_ dx dx).

  Fixpoint pow_up (x : fl) (k : nat) : fl := match k with O => fnat 1 | S k' => fmul mode_UP x (pow_up x k') end.
  (** lines 1195-1197; [dmid] is an exact number *)
  Definition radius_of (X : bnd) : fl :=
    let m := ivl_midpoint X in fmax (fsub mode_UP (b_u X) m) (fsub mode_UP m (b_l X)).
  (** lines 1201-1214: [None] is the failed assertion *)
  Definition affine_error (rad : list fl) (md bd : differential) : option fl :=
    fold_left (fun err t =>
      let a := fst t in let rng := snd t in
      if ((last_entry a =? to_) && (last_entry a + so =? index_degree a))%nat then
        let mid := coefficient md a in
        if flt_le (b_l rng) (b_l mid) && flt_le (b_u mid) (b_u rng) then
          let mag := fmax (fsub mode_UP (b_u rng) (b_l mid)) (fsub mode_UP (b_u mid) (b_l rng)) in
          let mag := fold_left (fun m rj => fmul mode_UP m (pow_up (fst rj) (snd rj))) (combine rad a) mag in
          option_map (fun e => fadd mode_UP e mag) err
        else None
      else err) bd (Some fzero).
  (** An affine model: the value, the coefficients of [x_j - m_j] and of the time, and the error. *)
  Record affine_model := mkAffine { a_centre : list fl; a_value : bnd; a_state : list bnd; a_time : bnd; a_error : fl }.
  (** lines 1179-1233; the last lines make a function model out of the coefficients *)
  Definition affine_step (D B : cbox) (h : fl) : option (list affine_model) :=
    let n := length D in
    let dmid := map ivl_midpoint D in
    let md := flow_derivative (map (@b_of prec emax) dmid) in
    let bd := flow_derivative B in
    let rad := map radius_of D ++ [fabs h] in
    fold_right (fun mb acc =>
      match affine_error rad (fst mb) (snd mb), acc with
      | Some e, Some l =>
        Some (mkAffine dmid (coefficient (fst mb) (zero_index (S n)))
                (map (fun j => coefficient (fst mb) (unit_index (S n) j)) (seq 0 n))
                (coefficient (fst mb) (unit_index (S n) n)) e :: l)
      | _, _ => None
      end) (Some []) (combine md bd).
End Affine.
End Integrator.
Arguments operations {prec emax} M.
Arguments outcome : clear implicits.
Arguments stepping : clear implicits.
