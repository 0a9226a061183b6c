(** Specification used by C16 and C17: the value of every measure as a function of the attributes. *)
From Coq Require Import Reals List.
From Verif Require Import RList MeasuresModel PortfolioModel.
Import ListNotations.
Local Open Scope R_scope.

Section Spec.
Variable partition : list R -> nat -> list R.
Variable sort : list R -> list R.
Variable solver : (R -> R) -> R -> R.

(** Specification: the value of every measure from the current attributes, one line per measure. *)
Definition spec_function (a : attrs) (m : measure) : option R :=
  let r := returns a in
  let mar := min_acceptable_return a in
  let d := get_drawdowns r (compounded a) in
  let f := annualized_factor a in
  match m with
  | MEAN => need 1 r (mean r)
  | ANNUALIZED_MEAN => need 1 r (mean r * f)
  | VARIANCE => need 2 r (variance r)
  | ANNUALIZED_VARIANCE => need 2 r (variance r * f)
  | SEMI_VARIANCE => need 2 r (semi_variance r mar)
  | ANNUALIZED_SEMI_VARIANCE => need 2 r (semi_variance r mar * f)
  | STANDARD_DEVIATION => need 2 r (standard_deviation r)
  | ANNUALIZED_STANDARD_DEVIATION => need 2 r (standard_deviation r * sqrt f)
  | SEMI_DEVIATION => need 2 r (semi_deviation r mar)
  | ANNUALIZED_SEMI_DEVIATION => need 2 r (semi_deviation r mar * sqrt f)
  | MEAN_ABSOLUTE_DEVIATION => need 1 r (mean_absolute_deviation r mar)
  | CVAR => need 1 r (cvar partition r (cvar_beta a))
  | EVAR => need 1 r (evar solver r (evar_beta a))
  | WORST_REALIZATION => need 1 r (worst_realization r)
  | CDAR => need 1 d (cdar partition d (cdar_beta a))
  | MAX_DRAWDOWN => need 1 d (max_drawdown partition d)
  | AVERAGE_DRAWDOWN => need 1 d (average_drawdown partition d)
  | EDAR => need 1 d (evar solver d (edar_beta a))
  | FIRST_LOWER_PARTIAL_MOMENT => need 1 r (first_lower_partial_moment r mar)
  | ULCER_INDEX => need 1 d (ulcer_index d)
  | GINI_MEAN_DIFFERENCE => need 2 r (gini_mean_difference sort r)
  | VALUE_AT_RISK => need 1 r (value_at_risk partition r (value_at_risk_beta a))
  | DRAWDOWN_AT_RISK => need 1 d (drawdown_at_risk partition d (drawdown_at_risk_beta a))
  | ENTROPIC_RISK_MEASURE =>
      need 1 r (entropic_risk_measure r (entropic_risk_measure_theta a) (entropic_risk_measure_beta a))
  | FOURTH_CENTRAL_MOMENT => need 1 r (fourth_central_moment r)
  | FOURTH_LOWER_PARTIAL_MOMENT => need 1 r (fourth_lower_partial_moment r mar)
  | SKEW => ratio (need 2 r (third_central_moment r)) (Some (standard_deviation r ^ 3))
  | KURTOSIS => ratio (need 2 r (fourth_central_moment r)) (Some (standard_deviation r ^ 4))
  | _ => None
  end.
(** the risk in the denominator of every ratio *)
Definition denominator (m : measure) : option measure :=
  match m with
  | SHARPE_RATIO => Some STANDARD_DEVIATION
  | ANNUALIZED_SHARPE_RATIO => Some ANNUALIZED_STANDARD_DEVIATION
  | SORTINO_RATIO => Some SEMI_DEVIATION
  | ANNUALIZED_SORTINO_RATIO => Some ANNUALIZED_SEMI_DEVIATION
  | MEAN_ABSOLUTE_DEVIATION_RATIO => Some MEAN_ABSOLUTE_DEVIATION
  | FIRST_LOWER_PARTIAL_MOMENT_RATIO => Some FIRST_LOWER_PARTIAL_MOMENT
  | VALUE_AT_RISK_RATIO => Some VALUE_AT_RISK
  | CVAR_RATIO => Some CVAR
  | ENTROPIC_RISK_MEASURE_RATIO => Some ENTROPIC_RISK_MEASURE
  | EVAR_RATIO => Some EVAR
  | WORST_REALIZATION_RATIO => Some WORST_REALIZATION
  | DRAWDOWN_AT_RISK_RATIO => Some DRAWDOWN_AT_RISK
  | CDAR_RATIO => Some CDAR
  | CALMAR_RATIO => Some MAX_DRAWDOWN
  | AVERAGE_DRAWDOWN_RATIO => Some AVERAGE_DRAWDOWN
  | EDAR_RATIO => Some EDAR
  | ULCER_INDEX_RATIO => Some ULCER_INDEX
  | GINI_MEAN_DIFFERENCE_RATIO => Some GINI_MEAN_DIFFERENCE
  | _ => None
  end.
Definition spec_measure (a : attrs) (m : measure) : option R :=
  match denominator m with
  | None => spec_function a m
  | Some k =>
      let perf := match m with ANNUALIZED_SHARPE_RATIO | ANNUALIZED_SORTINO_RATIO => ANNUALIZED_MEAN | _ => MEAN end in
      ratio (option_map (fun x => x - risk_free_rate a) (spec_function a perf)) (spec_function a k)
  end.
Definition improves (m : measure) : R := match class_of m with Perf | Ratio => 1 | _ => -1 end.
Definition spec_fitness (a : attrs) (ms : list measure) : list (option R) :=
  map (fun m => option_map (fun x => improves m * x) (spec_measure a m)) ms.

End Spec.
