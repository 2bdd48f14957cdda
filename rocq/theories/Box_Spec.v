(** What intervals, boxes and unions of intervals are supposed to be: sets of real
    numbers and of points. *)
From Coq Require Import Reals List.
From Coquelicot Require Import Rbar.
From Verif Require Import Logical_Model Box_Model.
Import ListNotations.
Local Open Scope R_scope.

(** An exact number type: the numbers satisfying [good] (all but NaN) denote extended
    real numbers, and the comparisons, maximum and minimum are those of the extended
    reals. *)
Record num_ok {E} (o : num_ops E) (good : E -> Prop) (v : E -> Rbar) : Prop := {
  ok_lt : forall a b, good a -> good b -> (n_lt o a b = true <-> Rbar_lt (v a) (v b));
  ok_le : forall a b, good a -> good b -> (n_le o a b = true <-> Rbar_le (v a) (v b));
  ok_eq : forall a b, good a -> good b -> (n_eq o a b = true <-> v a = v b);
  ok_max : forall a b, good a -> good b ->
    good (n_max o a b) /\ (v (n_max o a b) = v a \/ v (n_max o a b) = v b) /\
    Rbar_le (v a) (v (n_max o a b)) /\ Rbar_le (v b) (v (n_max o a b));
  ok_min : forall a b, good a -> good b ->
    good (n_min o a b) /\ (v (n_min o a b) = v a \/ v (n_min o a b) = v b) /\
    Rbar_le (v (n_min o a b)) (v a) /\ Rbar_le (v (n_min o a b)) (v b);
  ok_pinf : good (n_pinf o) /\ v (n_pinf o) = p_infty;
  ok_ninf : good (n_ninf o) /\ v (n_ninf o) = m_infty
}.

(** Closed intervals of the real line, given by extended end points. *)
Definition set := (Rbar * Rbar)%type.
Definition in_set (s : set) (r : R) : Prop := Rbar_le (fst s) (Finite r) /\ Rbar_le (Finite r) (snd s).
Definition in_inner (s : set) (r : R) : Prop := Rbar_lt (fst s) (Finite r) /\ Rbar_lt (Finite r) (snd s).
Definition nonempty (s : set) : Prop := exists r, in_set s r.
(** Inclusion, common points, inclusion in the interior, equality; and overlapping:
    there is a common point in the interior of one of them, so a common end point does
    not suffice and a single point in the interior of the other does (interval.hpp:367). *)
Definition incl (s t : set) : Prop := forall r, in_set s r -> in_set t r.
Definition meet (s t : set) : Prop := exists r, in_set s r /\ in_set t r.
Definition incl_inner (s t : set) : Prop := forall r, in_set s r -> in_inner t r.
Definition overlapping (s t : set) : Prop := exists r, in_set s r /\ in_set t r /\ (in_inner s r \/ in_inner t r).
Definition set_eq (s t : set) : Prop := forall r, in_set s r <-> in_set t r.
Definition real_ends (s : set) : Prop := is_finite (fst s) /\ is_finite (snd s).

Section Spec.
  Context {E : Type} (good : E -> Prop) (v : E -> Rbar).

  Definition raw_l (i : interval E) : E := e_raw (i_l i).
  Definition raw_u (i : interval E) : E := e_raw (i_u i).
  (** The real numbers of an interval (an over-approximation counts as the interval of
      its bounds). *)
  Definition set_of (i : interval E) : set := (v (raw_l i), v (raw_u i)).
  Definition in_ivl (i : interval E) (r : R) : Prop := in_set (set_of i) r.

  (** The end points are numbers; they are exact numbers. *)
  Definition ivl_good (i : interval E) : Prop := good (raw_l i) /\ good (raw_u i).
  Definition is_exact (i : interval E) : Prop := ivl_good i /\ e_kind (i_l i) = EX /\ e_kind (i_u i) = EX.
  (** Not one of the degenerate intervals [inf,inf] and [-inf,-inf], which contain no
      real number although the lower end is not above the upper end. *)
  Definition sane (i : interval E) : Prop := v (raw_l i) = v (raw_u i) -> is_finite (v (raw_l i)).

  (** Points of a box; they have as many coordinates as the box. *)
  Definition in_box (b : box E) (x : list R) : Prop := Forall2 in_ivl b x.
  Definition in_box_inner (b : box E) (x : list R) : Prop := Forall2 (fun i r => in_inner (set_of i) r) b x.

  (** ** Over-approximations.  An [end point] of kind [LB] ([UB]) says that some exact
      number is at least (at most) its raw value. *)
  Definition represents (e : endpoint E) (x : Rbar) : Prop :=
    match e_kind e with EX => x = v (e_raw e) | LB => Rbar_le (v (e_raw e)) x | UB => Rbar_le x (v (e_raw e)) end.
  (** The exact interval [l,u] is one of those an interval object stands for. *)
  Definition stands_for (i : interval E) (s : set) : Prop :=
    represents (i_l i) (fst s) /\ represents (i_u i) (snd s).
  (** [m] is the greater (the lesser) of two extended numbers. *)
  Definition greater_of (m x y : Rbar) : Prop := (m = x \/ m = y) /\ Rbar_le x m /\ Rbar_le y m.
  Definition lesser_of (m x y : Rbar) : Prop := (m = x \/ m = y) /\ Rbar_le m x /\ Rbar_le m y.
  (** The intervals of an over-approximation (or exact), of an under-approximation. *)
  Definition over (i : interval E) : Prop := ivl_good i /\ e_kind (i_l i) <> UB /\ e_kind (i_u i) <> LB.
  Definition under (i : interval E) : Prop := ivl_good i /\ e_kind (i_l i) <> LB /\ e_kind (i_u i) <> UB.
  Definition in_sets (s : list set) (x : list R) : Prop := Forall2 in_set s x.

  (** ** Unions of intervals *)
  Definition pair_good (i : ival E) : Prop := good (fst i) /\ good (snd i).
  Definition pair_set (i : ival E) : set := (v (fst i), v (snd i)).
  Definition in_union (s : union E) (r : R) : Prop := exists i, In i s /\ in_set (pair_set i) r.
  Definition in_union_interior (s : union E) (r : R) : Prop := exists i, In i s /\ in_inner (pair_set i) r.
  (** Non-empty intervals in increasing order without common points. *)
  Fixpoint normal (s : union E) : Prop :=
    match s with
    | [] => True
    | i :: t => nonempty (pair_set i) /\ normal t /\
                match t with [] => True | j :: _ => Rbar_lt (v (snd i)) (v (fst j)) end
    end.
End Spec.

(** A truth value which is right about [P] wherever it is definite. *)
Definition lv_right (l : lv) (P : Prop) : Prop := (l = TRUE -> P) /\ (l = FALSE -> ~ P).
(** A definite truth value deciding [P]. *)
Definition lv_decides (l : lv) (P : Prop) : Prop := (l = TRUE /\ P) \/ (l = FALSE /\ ~ P).

(** The corners of a box: each coordinate is one of the end points. *)
Definition is_corner {E} (b : box E) (x : list E) : Prop :=
  Forall2 (fun i e => e = e_raw (i_l i) \/ e = e_raw (i_u i)) b x.
(** Two points which differ in exactly one coordinate. *)
Definition one_step {E} (x y : list E) : Prop :=
  exists p a b q, x = p ++ a :: q /\ y = p ++ b :: q /\ a <> b.
Fixpoint chain {A} (R : A -> A -> Prop) (l : list A) : Prop :=
  match l with x :: ((y :: _) as t) => R x y /\ chain R t | _ => True end.
