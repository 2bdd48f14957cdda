(** Specification vocabulary for the equation solvers: real vectors and matrices, inverse
    matrices, differentiable functions, and what it means for interval data to enclose real
    data.  Nothing here refers to the solver algorithms. *)
From Coq Require Import Reals List Arith.
From Verif Require Import Solver_Model.
Local Open Scope R_scope.

(** Real vectors and matrices, of which only the components below the size [n] count. *)
Definition vec := nat -> R.
Definition mat := nat -> nat -> R.

Fixpoint sum (n : nat) (f : nat -> R) : R := match n with O => 0 | S k => sum k f + f k end.
Definition mv (n : nat) (A : mat) (x : vec) : vec := fun i => sum n (fun j => A i j * x j).
Definition mm (n : nat) (A B : mat) : mat := fun i j => sum n (fun k => A i k * B k j).
Definition vsub (x y : vec) : vec := fun i => x i - y i.
Definition delta (i j : nat) : R := if Nat.eqb i j then 1 else 0.
Definition idmat (n : nat) (A : mat) : Prop := forall i j, (i < n)%nat -> (j < n)%nat -> A i j = delta i j.
(** [A] and [B] are inverse to one another, on both sides. *)
Definition inverses (n : nat) (A B : mat) : Prop := idmat n (mm n A B) /\ idmat n (mm n B A).
Definition veq (n : nat) (x y : vec) : Prop := forall i, (i < n)%nat -> x i = y i.

(** The point at parameter [t] on the segment from [y] to [x]. *)
Definition seg (y x : vec) (t : R) : vec := fun j => y j + t * (x j - y j).
(** [f] is differentiable along every segment with Jacobian matrix [D], which is bounded on
    bounded boxes.  Every continuously differentiable function on R^n satisfies this. *)
Definition smooth (n : nat) (f : vec -> vec) (D : vec -> mat) : Prop :=
  (forall i y x t, (i < n)%nat -> 0 <= t <= 1 ->
     derivable_pt_lim (fun s => f (seg y x s) i) t (sum n (fun j => D (seg y x t) i j * (x j - y j)))) /\
  (forall xl xu, exists L, forall v, (forall i, (i < n)%nat -> xl i <= v i <= xu i) ->
     forall i j, (i < n)%nat -> (j < n)%nat -> Rabs (D v i j) <= L).
Definition is_zero (n : nat) (f : vec -> vec) (x : vec) : Prop := forall i, (i < n)%nat -> f x i = 0.

(** ** Enclosure *)
Section ENC.
  Variable P : ops.
  (** the closed interval of reals a validated number stands for; [None] is the whole line *)
  Variable fin : num P -> option (R * R).

  Definition enc (x : num P) (v : R) : Prop := match fin x with Some (l, u) => l <= v <= u | None => True end.
  Definition venc (n : nat) (x : nat -> num P) (v : vec) : Prop := forall i, (i < n)%nat -> enc (x i) (v i).
  Definition menc (n : nat) (A : nat -> nat -> num P) (M : mat) : Prop := forall i j, (i < n)%nat -> (j < n)%nat -> enc (A i j) (M i j).
  (** The interval function [F] encloses the real function [f] and its Jacobian [D]. *)
  Definition models (n : nat) (F : fn P) (f : vec -> vec) (D : vec -> mat) : Prop :=
    forall x v, venc n x v -> venc n (f_ev P F x) (f v) /\ menc n (f_jac P F x) (D v).

  (** Two vectors of validated numbers with a point in common, and chains of such vectors. *)
  Definition overlap (n : nat) (x y : nat -> num P) : Prop := exists w, venc n x w /\ venc n y w.
  Inductive linked (n : nat) : (nat -> num P) -> (nat -> num P) -> Prop :=
  | linked_refl : forall x, linked n x x
  | linked_step : forall x y z, overlap n x y -> linked n y z -> linked n x z.

  (** What the solvers need from the arithmetic: enclosure by every operation, decided answers
      of the tests are true, and results with finite bounds come from arguments with finite bounds. *)
  Record sound_ops (e : R) : Prop := mkSound {
    s_0 : enc (n0 P) 0; s_1 : enc (n1 P) 1;
    s_add : forall a b u v, enc a u -> enc b v -> enc (nadd P a b) (u + v);
    s_sub : forall a b u v, enc a u -> enc b v -> enc (nsub P a b) (u - v);
    s_mul : forall a b u v, enc a u -> enc b v -> enc (nmul P a b) (u * v);
    s_rec : forall a u, enc a u -> u <> 0 -> enc (nrec P a) (/ u);
    s_div : forall a b u v, enc a u -> enc b v -> v <> 0 -> enc (ndiv P a b) (u / v);
    s_mid : forall a u, enc a u -> exists m, enc a m /\ enc (nmid P a) m;
    s_fin_add : forall a b, fin (nadd P a b) <> None -> fin a <> None /\ fin b <> None;
    s_fin_sub : forall a b, fin (nsub P a b) <> None -> fin a <> None /\ fin b <> None;
    s_fin_mul : forall a b, fin (nmul P a b) <> None -> fin a <> None /\ fin b <> None;
    s_mig : forall a u, nmiggt P a (n0 P) = true -> enc a u -> u <> 0;
    s_mig_trans : forall a b c, nmiggt P a b = true -> nmiggt P b c = true -> nmiggt P a c = true;
    s_nonzero : forall a u, nnonzero P a = true -> enc a u -> u <> 0;
    s_consistent : forall a b u, nconsistent P a b = false -> enc a u -> enc b u -> False;
    s_inconsistent : forall a b u, ninconsistent P a b = true -> enc a u -> enc b u -> False;
    s_overlap : forall a b u v, nconsistent P a b = true -> enc a u -> enc b v -> exists w, enc a w /\ enc b w;
    s_refines : forall a b, nrefines P a b = true -> fin a <> None /\ fin b <> None /\ forall u, enc a u -> enc b u;
    s_refinement : forall a b u, enc (nrefinement P a b) u <-> enc a u /\ enc b u;
    s_small : forall a, nsmall P a = true -> exists l u, fin a = Some (l, u) /\ (u - l) / 2 < e;
    s_widen : forall n r, enc (nwiden P n r) 0;
    s_split : forall n r v, venc n r v ->
      (venc n (fst (nsplit P n r)) v \/ venc n (snd (nsplit P n r)) v) /\
      (exists w, venc n (fst (nsplit P n r)) w) /\ (exists w, venc n (snd (nsplit P n r)) w);
    s_lt : forall a b u v, nlt P a b = false -> nlt P b a = false -> enc a u -> enc b v -> exists w, enc a w /\ enc b w
  }.
End ENC.
