(** Model of MeanRisk.fit, optimization/convex/_mean_risk.py lines 770-1100: the constraints and the objective as assembled.
    No proofs here.  Not modelled: efficient_frontier_size, custom objective and constraints,
    lists of limits (see SolveModel), the worst-case variance. *)
From Coq Require Import List Arith Bool Reals.
From Verif Require Import RList EquationsModel ConvexModel RiskModel.
Import ListNotations.
Local Open Scope R_scope.

Inductive objective := MINIMIZE_RISK | MAXIMIZE_RETURN | MAXIMIZE_UTILITY | MAXIMIZE_RATIO.
Definition all_risk_measures : list risk_measure :=
  [MEAN_ABSOLUTE_DEVIATION; FIRST_LOWER_PARTIAL_MOMENT; STANDARD_DEVIATION; VARIANCE; SEMI_VARIANCE; SEMI_DEVIATION;
   WORST_REALIZATION; CVAR; EVAR; MAX_DRAWDOWN; AVERAGE_DRAWDOWN; CDAR; EDAR; ULCER_INDEX; GINI_MEAN_DIFFERENCE].
Definition rm_eqb (a b : risk_measure) : bool :=
  match a, b with
  | MEAN_ABSOLUTE_DEVIATION, MEAN_ABSOLUTE_DEVIATION | FIRST_LOWER_PARTIAL_MOMENT, FIRST_LOWER_PARTIAL_MOMENT
  | STANDARD_DEVIATION, STANDARD_DEVIATION | VARIANCE, VARIANCE | SEMI_VARIANCE, SEMI_VARIANCE | SEMI_DEVIATION, SEMI_DEVIATION
  | WORST_REALIZATION, WORST_REALIZATION | CVAR, CVAR | EVAR, EVAR | MAX_DRAWDOWN, MAX_DRAWDOWN | AVERAGE_DRAWDOWN, AVERAGE_DRAWDOWN
  | CDAR, CDAR | EDAR, EDAR | ULCER_INDEX, ULCER_INDEX | GINI_MEAN_DIFFERENCE, GINI_MEAN_DIFFERENCE => true
  | _, _ => false
  end.
(** the parameters of the estimator and the fitted prior; the cleaned previous weights are [previous settings_];
    [overwrite_]: overwrite_expected_return, when it is a linear expression, by its coefficients *)
Record mean_risk := {
  prior_ : prior; settings_ : settings; params_ : params; names_ : option (list str); mip_solver_ : bool;
  objective_ : objective; risk_measure_ : risk_measure; limits_ : risk_measure -> option R; min_return_ : option R;
  max_turnover_ : option R; has_previous_ : bool; max_tracking_error_ : option R; benchmark_ : vec;
  mu_uncertainty_ : option (R * (nat -> vec)); l1_ : R; l2_ : R; risk_aversion_ : R; scale_objective_ : R;
  overwrite_ : option vec }.
(** the values of the decision variables; [common_dd] is the drawdown vector, one for all the drawdown measures *)
Record point := { w_ : vec; f_ : R; m_ : mip_vars; a_ : risk_measure -> aux; common_dd : vec }.
Definition aux_of (x : point) (rm : risk_measure) : aux :=
  let a := a_ x rm in
  {| alpha := alpha a; u := u a; ex := ex a; ey := ey a; v := v a; z := z a; gx := gx a; gy := gy a; dd := common_dd x |}.

Section MeanRisk.
  Variable to_float : str -> option R.
  Variable q : mean_risk.
  Let n := n_assets (prior_ q).
  Let st := settings_ q.
  Let s := scale st.
  Definition is_ratio : bool := match objective_ q with MAXIMIZE_RATIO => true | _ => false end.
  (** _cvx_expected_return, _base.py lines 1036-1049 *)
  Definition coefficients : vec := match overwrite_ q with Some c => c | None => mu (prior_ q) end.
  (** lines 874-881 *)
  Definition er (x : point) : R := expected_return n coefficients (costs st) (previous st) (fees st) (mu_uncertainty_ q) (w_ x) (f_ x).
  (** _cvx_regularization, _base.py lines 1222-1234 *)
  Definition regularization (w : vec) : R := l1_ q * sumn n (fun i => Rabs (w i)) + l2_ q * sumn n (fun i => w i ^ 2).
  (** lines 963-1012; the constraints of the common drawdown vector are written for each drawdown measure, where the code adds
      them once *)
  Definition risk_block (x : point) : list constraint :=
    flat_map (fun rm =>
      if rm_eqb (risk_measure_ q) rm || is_some (limits_ q rm)
      then risk_constraints (prior_ q) st rm (w_ x) (f_ x) (aux_of x rm)
           ++ match limits_ q rm with Some l => [risk_limit_constraint s (risk_value (prior_ q) st rm (w_ x) (f_ x) (aux_of x rm)) l (f_ x)] | None => [] end
      else []) all_risk_measures.
  (** lines 886-1076 *)
  Definition problem_constraints (x : point) : cres (list constraint) :=
    COk (tracking_constraints n (n_obs (prior_ q)) s (returns (prior_ q)) (benchmark_ q) (max_tracking_error_ q) (w_ x) (f_ x))
    +++ turnover_constraints n s (if has_previous_ q then Some (previous st) else None) (max_turnover_ q) (w_ x) (f_ x)
    +++ weight_constraints to_float n (params_ q) (names_ q) (mip_solver_ q) true is_ratio s (w_ x) (f_ x) (m_ x)
    +++ COk (min_return_constraints s (er x) (min_return_ q) (f_ x))
    +++ COk (risk_block x)
    +++ COk (if is_ratio
             then [ratio_constraint s (er x) (risk_free_rate st) (homogenization_factor n (mu (prior_ q))) (f_ x) (is_affine n (costs st) (mu_uncertainty_ q))]
             else []).
  (** factor is the constant 1 unless the ratio is maximised, lines 854-857 *)
  Definition feasible (x : point) : Prop :=
    (is_ratio = true \/ f_ x = 1) /\ exists l, problem_constraints x = COk l /\ Forall holds_at l.
  Definition risk (x : point) : R := risk_value (prior_ q) st (risk_measure_ q) (w_ x) (f_ x) (aux_of x (risk_measure_ q)).
  (** the objective, lines 1018-1080, as a quantity to minimise *)
  Definition loss (x : point) : R :=
    let so := scale_objective_ q in
    match objective_ q with
    | MAXIMIZE_RETURN => - (er x * so - regularization (w_ x) * so)
    | MINIMIZE_RISK | MAXIMIZE_RATIO => risk x * so + regularization (w_ x) * so
    | MAXIMIZE_UTILITY => - (er x * so - risk_aversion_ q * risk x * so - regularization (w_ x) * so)
    end.
  Definition optimal (x : point) : Prop := feasible x /\ forall x', feasible x' -> loss x <= loss x'.
  (** weights_, _base.py line 1127 *)
  Definition weights (x : point) : vec := reported (w_ x) (f_ x).
End MeanRisk.
