(** * The functions enclosed by a Taylor model *)

From Coq Require Import ZArith NArith Reals List Bool.
From Flocq Require Import Core IEEE754.BinarySingleNaN.
From Verif Require Import Float_Model Bounds_Model Bounds_Spec LRU_Model Poly_Model Poly_Spec Taylor_Model.
Import ListNotations.
Local Open Scope R_scope.

Section Spec.
Context {prec emax : Z}.
Notation fl := (binary_float prec emax).

(** The unit box [-1,1]^n. *)
Definition in_box (n : nat) (x : list R) : Prop := length x = n /\ Forall (fun t => -1 <= t <= 1) x.

(** The polynomial with the real values of the coefficients. *)
Definition peval (p : list (mi * fl)) (x : list R) : R :=
  poly 0 1 Rplus Rmult (map (fun m => (fst m, B2R (snd m))) p) x.

(** [f] is within [k] times the error of the polynomial on the unit box.  An
    infinite error (or a NaN) claims nothing; with a finite error all
    coefficients are finite. *)
Definition encl (k : R) (n : nat) (t : tm prec emax) (f : list R -> R) : Prop :=
  is_finite (t_err t) = true ->
  Forall (fun m => is_finite (snd m) = true) (t_exp t) /\
  forall x, in_box n x -> Rabs (f x - peval (t_exp t) x) <= k * B2R (t_err t).
Definition encloses := encl 1.

(** Indices of size [n], strictly increasing in the reverse lexicographic order. *)
Definition well_formed (n : nat) (t : tm prec emax) : Prop :=
  sized n (t_exp t) /\ sorted reverse_lexicographic_less (t_exp t).
(** The sum of any two indices fits in 16 bits. *)
Definition no_index_overflow (p q : list (mi * fl)) : Prop :=
  Forall (fun m => Forall (fun m' => Forall (fun d => (d < 65536)%N) (plus (fst m) (fst m'))) q) p.
(** The degree of every index fits in 16 bits. *)
Definition small_degrees (p : list (mi * fl)) : Prop := Forall (fun m => (total (fst m) < 65536)%N) p.

(** Polynomials whose coefficients are bounds: some choice of coefficients
    within the bounds. *)
Definition encl_bounds (n : nat) (p : list (mi * bounds prec emax)) (e : fl) (f : list R -> R) : Prop :=
  is_finite e = true ->
  exists c : list R, Forall2 (fun m v => contains (snd m) v) p c /\
  forall x, in_box n x -> Rabs (f x - poly 0 1 Rplus Rmult (combine (map fst p) c) x) <= B2R e.

(** No product evaluated by the Horner scheme has a NaN bound (zero times an
    infinite bound): the scheme run with a multiplication that fails on NaN
    succeeds. *)
Definition lift2 {A} (op : A -> A -> A) (x y : option A) : option A :=
  match x, y with Some x, Some y => Some (op x y) | _, _ => None end.
Definition trap (x : option (bounds prec emax)) : option (bounds prec emax) :=
  match x with Some b => if is_nan (b_l b) || is_nan (b_u b) then None else x | None => None end.
Definition nan_free {Hprec : Prec_gt_0 prec} {Hemax : Prec_lt_emax prec emax} (n : nat) (t : tm prec emax) (x : list (bounds prec emax)) : Prop :=
  exists r, horner_evaluate (Some (b_of fzero)) (lift2 b_add) (fun a b => trap (lift2 b_mul a b)) n
              (map (fun m => (fst m, Some (b_of (snd m)))) (t_exp t)) (map Some x) = Ret (Some r).

(** Replacing coordinate [k]. *)
Definition set_nth (k : nat) (t : R) (x : list R) : list R := firstn k x ++ t :: skipn (S k) x.
End Spec.
