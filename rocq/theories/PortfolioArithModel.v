(** Model of the constructor, the arithmetic operators and the contributions of
    src/skfolio/portfolio/_portfolio.py over exact real arithmetic.  No proofs here.
    Simplifications: X is a NaN-free array given as a list of rows (observations), weights and
    previous weights are arrays (input_to_array is modelled elsewhere); all other constructor
    arguments that __add__ compares are kept in one field [other]. *)
From Coq Require Import Reals List Bool Arith.
From Verif Require Import RList MeasuresModel.
Import ListNotations.
Local Open Scope R_scope.

Definition vmap2 (f : R -> R -> R) (a b : list R) : list R := map (fun p => f (fst p) (snd p)) (combine a b).
Definition dot (a b : list R) : R := rsum (vmap2 Rmult a b).

(** transaction_costs and management_fees: a scalar (None gives 0) or one value per asset *)
Inductive cost := Scalar (c : R) | PerAsset (c : list R).

Section Arith.
  Variable O : Type.
  Variable O_dec : forall a b : O, {a = b} + {a <> b}.

  Record portfolio := {
    X : list (list R);
    weights : list R;
    previous_weights : list R;
    transaction_costs : cost;
    management_fees : cost;
    other : O;          (* risk_free_rate, annualized_factor, fitness_measures, compounded, ... *)
    name : nat;
    total_cost : R;
    total_fee : R;
    returns : list R
  }.

  Definition times (c : cost) (v : list R) : R :=
    match c with Scalar x => rsum (map (fun y => x * y) v) | PerAsset l => rsum (vmap2 Rmult l v) end.
  Definition is_zero_scalar (c : cost) : bool :=
    match c with Scalar x => if Req_EM_T x 0 then true else false | PerAsset _ => false end.

  (** constructor, _portfolio.py lines 432-568; total cost and fee lines 515-524, returns line 526 *)
  Definition make (X : list (list R)) (w prev : list R) (tc mf : cost) (o : O) (n : nat) : portfolio :=
    let total_cost := if is_zero_scalar tc then 0 else times tc (map Rabs (vmap2 Rminus prev w)) in
    let total_fee := if is_zero_scalar mf then 0 else times mf w in
    {| X := X; weights := w; previous_weights := prev; transaction_costs := tc; management_fees := mf;
       other := o; name := n; total_cost := total_cost; total_fee := total_fee;
       returns := map (fun row => dot w row - total_cost - total_fee) X |}.
  Definition rebuild (p : portfolio) (w : list R) : portfolio :=
    make (X p) w (previous_weights p) (transaction_costs p) (management_fees p) (other p) (name p).

  Definition row_dec : forall a b : list R, {a = b} + {a <> b} := list_eq_dec Req_EM_T.
  Definition cost_dec (a b : cost) : {a = b} + {a <> b}.
  Proof. decide equality; [apply Req_EM_T|apply row_dec]. Defined.
  (** the loop comparing the constructor arguments, lines 590-594 and 605-611; None is ValueError *)
  Definition same_args (p q : portfolio) : bool :=
    (if list_eq_dec row_dec (X p) (X q) then true else false)
    && (if row_dec (previous_weights p) (previous_weights q) then true else false)
    && (if cost_dec (transaction_costs p) (transaction_costs q) then true else false)
    && (if cost_dec (management_fees p) (management_fees q) then true else false)
    && (if O_dec (other p) (other q) then true else false).

  (** __neg__, __abs__, __add__, __sub__, __mul__ (= __rmul__), __floordiv__, __truediv__, lines 570-647 *)
  Definition p_neg (p : portfolio) : portfolio := rebuild p (map Ropp (weights p)).
  Definition p_abs (p : portfolio) : portfolio := rebuild p (map Rabs (weights p)).
  Definition p_add (p q : portfolio) : option portfolio :=
    if same_args p q then Some (rebuild p (vmap2 Rplus (weights p) (weights q))) else None.
  Definition p_sub (p q : portfolio) : option portfolio :=
    if same_args p q then Some (rebuild p (vmap2 Rminus (weights p) (weights q))) else None.
  Definition p_mul (c : R) (p : portfolio) : portfolio := rebuild p (map (fun x => c * x) (weights p)).
  Definition p_floordiv (p : portfolio) (c : R) : portfolio := rebuild p (map (fun x => IZR (Int_part (x / c))) (weights p)).
  Definition p_div (p : portfolio) (c : R) : portfolio := rebuild p (map (fun x => x / c) (weights p)).

  (** An expression over portfolios *)
  Inductive expr := Leaf (p : portfolio) | Neg (e : expr) | Add (e f : expr) | Sub (e f : expr) | Mul (c : R) (e : expr) | Div (e : expr) (c : R).
  Fixpoint eval (e : expr) : option portfolio :=
    match e with
    | Leaf p => Some p
    | Neg e => option_map p_neg (eval e)
    | Add e f => match eval e, eval f with Some p, Some q => p_add p q | _, _ => None end
    | Sub e f => match eval e, eval f with Some p, Some q => p_sub p q | _, _ => None end
    | Mul c e => option_map (p_mul c) (eval e)
    | Div e c => option_map (fun p => p_div p c) (eval e)
    end.

  (** _get_risk, lines 864-871: weights[i] += h; the measure of the perturbed portfolio *)
  Fixpoint bump (w : list R) (i : nat) (h : R) : list R :=
    match w, i with
    | [], _ => []
    | x :: w, 0%nat => (x + h) :: w
    | x :: w, S i => x :: bump w i h
    end.
  Definition get_risk (measure : list R -> R) (p : portfolio) (i : nat) (h : R) : R :=
    measure (returns (rebuild p (bump (weights p) i h))).
  (** _compute_contribution, lines 874-902; the second component is the index of the asset kept *)
  Definition compute_contribution (measure : list R -> R) (p : portfolio) (h : R) (drop_zero_weights : bool) : list (R * nat) :=
    flat_map (fun wi => let '(i, w) := wi in
      if Req_EM_T w 0 then (if drop_zero_weights then [] else [(0, i)])
      else [((get_risk measure p i h - get_risk measure p i (- h)) / (2 * h) * w, i)])
      (combine (seq 0 (length (weights p))) (weights p)).
End Arith.
Arguments X {O}. Arguments weights {O}. Arguments previous_weights {O}. Arguments transaction_costs {O}. Arguments management_fees {O}.
Arguments other {O}. Arguments name {O}. Arguments total_cost {O}. Arguments total_fee {O}. Arguments returns {O}.
Arguments make {O}. Arguments rebuild {O}. Arguments same_args {O}. Arguments p_neg {O}. Arguments p_abs {O}. Arguments p_add {O}. Arguments p_sub {O}.
Arguments p_mul {O}. Arguments p_div {O}. Arguments p_floordiv {O}. Arguments Leaf {O}. Arguments Neg {O}. Arguments Add {O}. Arguments Sub {O}.
Arguments Mul {O}. Arguments Div {O}. Arguments eval {O}. Arguments get_risk {O}. Arguments compute_contribution {O}.
