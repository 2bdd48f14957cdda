(** Procedures: the properties a user relies on. *)
From Coq Require Import ZArith List Bool Lia Reals Lra.
From Verif Require Import Expr_Model Expr_Spec Proc_Model Proc_Spec Proc_Proofs Proc_Hull_Proofs Proc_Grad_Proofs.
Import ListNotations.

(** * C47: compiling a formula to a procedure preserves its value *)

(** A formula without scalar nodes: for every algebra, every argument and each order of
    evaluation, running the compiled procedure gives the value of the formula.  The full
    claim, for all formulae, is refuted below. *)
Theorem C47_formula_partial : forall (Y : Type) (A : Alg Y) (rtl : bool) (f : form Y) (x : list A),
  same_memory [f] -> no_scalar_nodes f ->
  evaluate A (procedure rtl f) x = feval A x f.
Proof. intros. now apply compile_scalar. Qed.
Print Assumptions C47_formula_partial.

(** Vectors of formulae, sharing nodes among them: every component has its value if no two
    components are the same node, or if moving a value leaves it intact. *)
Theorem C47_vector_partial : forall (Y : Type) (A : Alg Y) (rtl : bool) (fs : list (form Y))
    (moved : A -> A) (x : list A),
  same_memory fs -> (forall f, In f fs -> no_scalar_nodes f) ->
  (forall a, moved a = a) \/ NoDup (map addr fs) ->
  evaluate_vector A moved (convert_all rtl fs) (results (convert_all rtl fs) fs) x = map (feval A x) fs.
Proof. intros. now apply compile_vector. Qed.
Print Assumptions C47_vector_partial.

(** Integers as an algebra. *)
Definition int_alg : Alg Z := {|
  al_ty := Z; al_zero := 0%Z; al_cst y := y;
  al_un o a := match o with Neg => (- a)%Z | Sqr => (a * a)%Z | _ => a end;
  al_bin o a b := match o with
    | Add => (a + b)%Z | Sub => (a - b)%Z | Mul => (a * b)%Z | Max => Z.max a b | Min => Z.min a b
    | Div => (a / b)%Z end;
  al_pow a n := (a ^ n)%Z;
  al_scal o y a := match o with
    | Add => (y + a)%Z | Sub => (y - a)%Z | Mul => (y * a)%Z | Max => Z.max y a | Min => Z.min y a
    | Div => (y / a)%Z end
|}.

(** The formula 5-x made by [Formula::scalar] compiles to x-x, whatever the order of
    evaluation. *)
Definition scalar_formula : form Z := FScal 1 Sub 5%Z (FVar 0 0).
Theorem C47_scalar_refuted : forall rtl,
  same_memory [scalar_formula] /\
  feval int_alg [3%Z] scalar_formula = 2%Z /\ evaluate int_alg (procedure rtl scalar_formula) [3%Z] = 0%Z.
Proof.
  intros rtl. split; [ | destruct rtl; split; vm_compute; reflexivity ].
  intros f g. simpl. intros [<-|[<-|[]]] [<-|[<-|[]]]; simpl; intros; auto; discriminate.
Qed.
Print Assumptions C47_scalar_refuted.

(** Two components that are the same node: the second is what moving left behind. *)
Theorem C47_moved_refuted : forall rtl,
  let f := FVar 0 0 : form Z in
  let s := convert_all rtl [f; f] in
  same_memory [f; f] /\
  evaluate_vector int_alg (fun _ => 0%Z) s (results s [f; f]) [7%Z] = [7%Z; 0%Z] /\
  map (feval int_alg [7%Z]) [f; f] = [7%Z; 7%Z].
Proof.
  intros rtl f s. split; [ | destruct rtl; split; vm_compute; reflexivity ].
  intros g h. simpl. intros [<-|[<-|[]]] [<-|[<-|[]]]; auto.
Qed.
Print Assumptions C47_moved_refuted.

(** Non-vacuity: (x+2)*(x+2)-y with the sum shared: five instructions for the product. *)
Definition shared_sum : form Z := FBin 3 Add (FVar 1 0) (FCst 2 2%Z).
Definition shared_formula : form Z := FBin 6 Sub (FBin 4 Mul shared_sum shared_sum) (FVar 5 1).
Example C47_nonvacuous :
  same_memory [shared_formula; shared_sum] /\ no_scalar_nodes shared_formula /\
  NoDup (map addr [shared_formula; shared_sum]) /\
  ps_ins (procedure false shared_formula) =
    [IVar 0; ICst 0; IBin Add 0 1; IBin Mul 2 2; IVar 1; IBin Sub 3 4] /\
  ps_ins (procedure true shared_formula) =
    [IVar 1; ICst 0; IVar 0; IBin Add 2 1; IBin Mul 3 3; IBin Sub 4 0] /\
  evaluate int_alg (procedure true shared_formula) [3%Z; 4%Z] = 21%Z /\
  evaluate_vector int_alg (fun _ => 0%Z) (convert_all false [shared_formula; shared_sum])
    (results (convert_all false [shared_formula; shared_sum]) [shared_formula; shared_sum]) [3%Z; 4%Z] = [21%Z; 5%Z].
Proof.
  split; [ | split; [ | split; [ | repeat split; vm_compute; reflexivity ] ] ].
  - intros f g. simpl. intuition (subst; try reflexivity; try discriminate).
  - intros g. simpl. intuition (subst; exact I).
  - simpl. repeat constructor; simpl; intuition discriminate.
Qed.

(** * C48: hull reduction never discards a solution *)
Open Scope R_scope.

(** In every enclosing arithmetic: a point of the domain whose value is in the codomain
    stays in the domain, if every intermediate value at the point is on the principal
    branch of the inverse that is used.  Missing from the full claim: points with a
    negative value squared or raised to a power, values of trigonometric functions off the
    principal branch, and maxima and minima; it is false for them (below). *)
Theorem C48_hull_reduce_partial : forall (Y : Type) (A : Alg Y) (contains : A -> R -> Prop)
    (yval : Y -> R) (restrict : A -> A -> A) (int : Z -> A),
  encloses A contains yval restrict int ->
  forall (s : pstate Y) (dom : list A) (codom : A) (dom' : list A) (rho : valuation) (y : R),
  let c := map yval (ps_cst s) in
  arguments_below (length dom) (ps_ins s) ->
  in_box contains dom rho ->
  pt_value c rho (ps_ins s) = Some y -> contains codom y ->
  (forall w, pt_values c rho (ps_ins s) = Some w -> principal c w (ps_ins s)) ->
  hull_reduce A restrict int s dom codom = Some dom' ->
  in_box contains dom' rho.
Proof. intros Y A contains yval restrict int E s dom codom dom' rho y c N B V C P H.
  exact (hull_reduce_ok A contains yval restrict int E s dom codom dom' rho y N B P V C H). Qed.
Print Assumptions C48_hull_reduce_partial.

(** The same for systems of constraints. *)
Theorem C48_hull_reduce_vector_partial : forall (Y : Type) (A : Alg Y) (contains : A -> R -> Prop)
    (yval : Y -> R) (restrict : A -> A -> A) (int : Z -> A),
  encloses A contains yval restrict int ->
  forall (s : pstate Y) (rs : list nat) (dom codom dom' : list A) (rho : valuation) (w : list R),
  let c := map yval (ps_cst s) in
  arguments_below (length dom) (ps_ins s) ->
  in_box contains dom rho ->
  pt_values c rho (ps_ins s) = Some w ->
  Forall2 (fun k b => contains b (nth k w 0)) rs codom ->
  principal c w (ps_ins s) ->
  hull_reduce_vector A restrict int s rs dom codom = Some dom' ->
  in_box contains dom' rho.
Proof. intros Y A contains yval restrict int E s rs dom codom dom' rho w c N B W F P H.
  exact (hull_reduce_vector_ok A contains yval restrict int E s rs dom codom dom' rho w N B W P F H). Qed.
Print Assumptions C48_hull_reduce_vector_partial.

(** Hull reduction returns if and only if the procedure has no [nul], [hlf] or [abs]. *)
Theorem C48_returns : forall (Y : Type) (A : Alg Y) (restrict : A -> A -> A) (int : Z -> A)
    (s : pstate Y) (dom : list A) (codom : A),
  hull_reduce A restrict int s dom codom <> None <-> reducible (ps_ins s).
Proof.
  intros. split.
  - intros H i I. apply In_nth_error in I. destruct I as (r & E).
    assert (D : reducible1 i \/ ~ reducible1 i).
    { destruct i as [k|j|o a|o a b|a n|o k a]; simpl; auto. destruct o; auto. }
    destruct D as [D|D]; [ exact D | ]. exfalso. apply H. unfold hull_reduce.
    eapply back_diverges; [ exact E | exact D | | lia ].
    apply nth_error_Some. congruence.
  - intros. now apply back_terminates.
Qed.
Print Assumptions C48_returns.

Definition prog (p : list instr) : pstate R := {| ps_ins := p; ps_cst := []; ps_cache := [] |}.
Definition between (a b : R) : set_alg := fun x : R => a <= x <= b.
Definition pt1 (x : R) : valuation := fun _ => x.

(** Reducing [-1,1] by x^2 <= 1 loses -1, even in exact set arithmetic. *)
Theorem C48_sqr_refuted :
  exists dom', hull_reduce set_alg set_restrict set_int (prog [IVar 0; IUn Sqr 0]) [between (-1) 1] (between 0 1) = Some dom' /\
  in_box set_contains [between (-1) 1] (pt1 (-1)) /\
  (exists y, pt_value [] (pt1 (-1)) [IVar 0; IUn Sqr 0] = Some y /\ 0 <= y <= 1) /\
  ~ in_box set_contains dom' (pt1 (-1)).
Proof.
  eexists. split; [ reflexivity | ]. split; [ | split ].
  - intros [|[|j]] a H; simpl in H; try discriminate. injection H as <-. unfold set_contains, between, pt1. lra.
  - eexists. split; [ reflexivity | ]. unfold pt1. lra.
  - intros B. specialize (B 0%nat _ eq_refl). unfold set_contains, set_restrict, pt1 in B. simpl in B.
    destruct B as (_ & _ & z & _ & E). destruct (Rle_dec 0 z); [ | discriminate ]. injection E as E.
    pose proof (sqrt_pos z). lra.
Qed.
Print Assumptions C48_sqr_refuted.

(** Reducing [0,1]x[0,1] by max(x,y) = 1 loses (0,1). *)
Theorem C48_max_refuted :
  let p := [IVar 0; IVar 1; IBin Max 0 1] in
  let rho := fun j => if Nat.eqb j 0 then 0 else 1 in
  exists dom', hull_reduce set_alg set_restrict set_int (prog p) [between 0 1; between 0 1] (between 1 1) = Some dom' /\
  in_box set_contains [between 0 1; between 0 1] rho /\
  pt_value [] rho p = Some 1 /\
  ~ in_box set_contains dom' rho.
Proof.
  intros p rho. eexists. split; [ reflexivity | ]. split; [ | split ].
  - intros [|[|[|j]]] a H; simpl in H; try discriminate; injection H as <-;
      unfold set_contains, between, rho; simpl; lra.
  - unfold pt_value, rho. simpl. f_equal. apply Rmax_right. lra.
  - intros B. specialize (B 0%nat _ eq_refl). unfold set_contains, set_restrict, rho in B. simpl in B.
    destruct B as (_ & _ & u & v & [_ H] & _ & E). unfold between in H. injection E as E.
    pose proof (Rmax_l u v). lra.
Qed.
Print Assumptions C48_max_refuted.

(** Reducing {pi} by sin(x) = 0 loses pi. *)
Theorem C48_sin_refuted :
  exists dom', hull_reduce set_alg set_restrict set_int (prog [IVar 0; IUn Sin 0]) [between PI PI] (between 0 0) = Some dom' /\
  in_box set_contains [between PI PI] (pt1 PI) /\
  pt_value [] (pt1 PI) [IVar 0; IUn Sin 0] = Some 0 /\
  ~ in_box set_contains dom' (pt1 PI).
Proof.
  eexists. split; [ reflexivity | ]. split; [ | split ].
  - intros [|[|j]] a H; simpl in H; try discriminate. injection H as <-. unfold set_contains, between, pt1. lra.
  - unfold pt_value, pt1. simpl. f_equal. apply sin_PI.
  - intros B. specialize (B 0%nat _ eq_refl). unfold set_contains, set_restrict, pt1 in B. simpl in B.
    destruct B as (_ & _ & z & _ & E). destruct (Rle_dec (Rabs z) 1); [ | discriminate ]. injection E as E.
    pose proof (asin_bound z). pose proof PI_RGT_0. lra.
Qed.
Print Assumptions C48_sin_refuted.

(** Reducing [-1,1] by x^3 = -1 loses -1. *)
Theorem C48_pow_refuted :
  exists dom', hull_reduce set_alg set_restrict set_int (prog [IVar 0; IPow 0 3]) [between (-1) 1] (between (-1) (-1)) = Some dom' /\
  in_box set_contains [between (-1) 1] (pt1 (-1)) /\
  pt_value [] (pt1 (-1)) [IVar 0; IPow 0 3] = Some (-1) /\
  ~ in_box set_contains dom' (pt1 (-1)).
Proof.
  eexists. split; [ reflexivity | ]. split; [ | split ].
  - intros [|[|j]] a H; simpl in H; try discriminate. injection H as <-. unfold set_contains, between, pt1. lra.
  - unfold pt_value, pt1. simpl. f_equal. lra.
  - intros B. specialize (B 0%nat _ eq_refl). unfold set_contains, set_restrict, pt1 in B. simpl in B.
    destruct B as (_ & _ & z & _ & E). injection E as E. pose proof (exp_pos z). lra.
Qed.
Print Assumptions C48_pow_refuted.

(** Reducing by x/2, written with [hlf], does not return. *)
Theorem C48_hlf_diverges : forall dom codom,
  hull_reduce set_alg set_restrict set_int (prog [IVar 0; IUn Hlf 0]) dom codom = None.
Proof. reflexivity. Qed.

(** Non-vacuity: sqr(x)+exp(y) <= 2 at (1/2,0), in exact set arithmetic. *)
Definition hull_prog : list instr := [IVar 0; IUn Sqr 0; IVar 1; IUn Exp 2; IBin Add 1 3].
Definition hull_pt : valuation := fun j => if Nat.eqb j 0 then 1/2 else 0.
Example C48_nonvacuous :
  encloses set_alg set_contains (fun y => y) set_restrict set_int /\
  arguments_below 2 hull_prog /\
  in_box set_contains [between (-1) 1; between (-1) 1] hull_pt /\
  pt_value [] hull_pt hull_prog = Some (5/4) /\
  (forall w, pt_values [] hull_pt hull_prog = Some w -> principal [] w hull_prog) /\
  reducible hull_prog /\
  exists dom', hull_reduce set_alg set_restrict set_int (prog hull_prog) [between (-1) 1; between (-1) 1] (between 0 2) = Some dom'.
Proof.
  split; [ apply set_encloses | ]. split; [ | split; [ | split; [ | split; [ | split ] ] ] ].
  - intros j. simpl. intuition (try discriminate); match goal with H : IVar _ = IVar _ |- _ => injection H as <-; lia end.
  - intros [|[|[|j]]] a H; simpl in H; try discriminate; injection H as <-;
      unfold set_contains, between, hull_pt; simpl; lra.
  - unfold pt_value, hull_pt. simpl. f_equal. rewrite exp_0. lra.
  - intros w H. injection H as <-. intros i. simpl.
    intros [<-|[<-|[<-|[<-|[<-|[]]]]]]; simpl; auto. unfold hull_pt. simpl. lra.
  - intros i. simpl. intros [<-|[<-|[<-|[<-|[<-|[]]]]]]; exact I.
  - eexists. reflexivity.
Qed.

(** * C49: the reverse-mode gradient is the derivative *)

(** At a point at which every instruction is differentiable and is not an inverse sine or
    cosine, [gradient] succeeds and its components are the partial derivatives.  Missing
    from the full claim: [asin] and [acos], for which it is false, and [abs], [max] and
    [min] away from their corners, for which the code stops with a failed assertion. *)
Theorem C49_gradient_partial : forall (c : list R) (p : list instr) (n : nat) (rho : valuation) (w : list R),
  p <> [] -> pt_values c rho p = Some w -> smooth w p -> (0 < n)%nat ->
  exists g, gradient c p w n = Some g /\ length g = n /\
    forall k, (k < n)%nat -> proc_partial c p k rho (nth k g 0).
Proof.
  intros c p n rho w NE W S N.
  destruct (gradient_ok c rho p n w W NE S 0 N) as (g & G & L & _).
  exists g. split; [ exact G | ]. split; [ exact L | ]. intros k K.
  destruct (gradient_ok c rho p n w W NE S k K) as (g' & G' & _ & P). congruence.
Qed.
Print Assumptions C49_gradient_partial.

Theorem C49_asin_refuted :
  exists g, gradient [] [IVar 0; IUn Asin 0] [1/4; asin (1/4)] 1 = Some [g] /\
    pt_values [] (pt1 (1/4)) [IVar 0; IUn Asin 0] = Some [1/4; asin (1/4)] /\
    ~ proc_partial [] [IVar 0; IUn Asin 0] 0 (pt1 (1/4)) g.
Proof.
  assert (Q : sqrt (1 / 4) = 1 / 2).
  { replace (1 / 4) with (1 / 2 * (1 / 2)) by field. apply sqrt_square. lra. }
  exists 2. split; [ | split ].
  - unfold gradient. simpl. unfold rd. simpl. rewrite Q. do 2 f_equal. field.
  - unfold pt_values, pt1. simpl. destruct (Rle_dec (Rabs (1 / 4)) 1) as [H|H]; [ reflexivity | ].
    exfalso. apply H. apply Rabs_le. lra.
  - intros (delta & Hd & _ & D). unfold pt1 in D.
    assert (D2 : derivable_pt_lim asin (1/4) 2).
    { apply D. intros t z _ E. unfold pt_value, pt_values in E. simpl in E.
      unfold upd in E. simpl in E. destruct (Rle_dec (Rabs t) 1); simpl in E; [ | discriminate ]. congruence. }
    assert (RG : -1 < 1/4 < 1) by lra.
    pose proof (proj2_sig (derivable_pt_asin (1/4) RG)) as D1.
    fold (derive_pt asin (1/4) (derivable_pt_asin (1/4) RG)) in D1. rewrite derive_pt_asin in D1.
    pose proof (uniqueness_limite _ _ _ _ D1 D2) as E.
    assert (P : 0 < sqrt (1 - (1/4)²)) by (apply sqrt_lt_R0; unfold Rsqr; lra).
    assert (F : 1 = 2 * sqrt (1 - (1/4)²)).
    { rewrite <- E. field. lra. }
    assert (G : sqrt (1 - (1/4)²) * sqrt (1 - (1/4)²) = 1 - (1/4)²).
    { apply sqrt_def. unfold Rsqr. lra. }
    assert (K : sqrt (1 - (1/4)²) = 1/2) by lra. rewrite K in G. unfold Rsqr in G. lra.
Qed.
Print Assumptions C49_asin_refuted.

(** The absolute value at 1, and max(x,y) at (0,1), are differentiable, but the code fails. *)
Theorem C49_assertion_refuted : forall w,
  gradient [] [IVar 0; IUn Abs 0] w 1 = None /\ gradient [] [IVar 0; IVar 1; IBin Max 0 1] w 2 = None.
Proof. split; reflexivity. Qed.

(** Non-vacuity: x*exp(x)/y, with x used twice, at (0,2). *)
Definition grad_prog : list instr := [IVar 0; IUn Exp 0; IBin Mul 0 1; IVar 1; IBin Div 2 3].
Definition grad_pt : valuation := fun j => if Nat.eqb j 0 then 0 else 2.
Definition grad_values : list R := [0; exp 0; 0 * exp 0; 2; 0 * exp 0 / 2].
Example C49_nonvacuous :
  pt_values [] grad_pt grad_prog = Some grad_values /\ smooth grad_values grad_prog /\
  gradient [] grad_prog grad_values 2 = Some [1/2; 0].
Proof.
  split; [ | split ].
  - unfold pt_values, grad_pt. simpl. destruct (Req_EM_T 2 0) as [H|H]; [ lra | ]. reflexivity.
  - intros i. simpl. intros [<-|[<-|[<-|[<-|[<-|[]]]]]]; exact I.
  - unfold gradient, grad_values. simpl. unfold rd. simpl. rewrite exp_0. f_equal. f_equal; [ field | f_equal; field ].
Qed.
