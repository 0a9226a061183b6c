(** Model of MaximumDiversification, optimization/convex/_maximum_diversification.py lines 330-434: a MeanRisk with some
    parameters fixed and the expected return overwritten.  No proofs here. *)
From Coq Require Import List Arith Bool Reals.
From Verif Require Import RList EquationsModel ConvexModel RiskModel MeanRiskModel.
Local Open Scope R_scope.

(** the parameters of __init__ (lines 330-362) and the fitted prior, whose covariance is read at line 430 *)
Record max_div := {
  d_prior : prior; d_covariance : nat -> vec; d_settings : settings;
  d_min_weights : option vec; d_max_weights : option vec; d_budget : option R; d_min_budget : option R; d_max_budget : option R;
  d_max_short : option R; d_max_long : option R; d_groups : option groups_t; d_linear_constraints : option (list str);
  d_left_inequality : option (list (list R)); d_right_inequality : option (list R);
  d_names : option (list str); d_l1 : R; d_l2 : R; d_min_return : option R; d_max_tracking_error : option R; d_benchmark : vec;
  d_max_turnover : option R; d_has_previous : bool; d_scale_objective : R }.
(** lines 428-431 *)
Definition weighted_volatilities (cov : nat -> vec) : vec := fun i => sqrt (cov i i).
(** super().__init__, lines 363-396, and fit lines 433-434; what is not passed keeps the defaults of MeanRisk *)
Definition as_mean_risk (d : max_div) : mean_risk := {|
  prior_ := d_prior d; settings_ := d_settings d;
  params_ := {| min_weights := d_min_weights d; max_weights := d_max_weights d; budget := d_budget d; min_budget := d_min_budget d;
    max_budget := d_max_budget d; max_short := d_max_short d; max_long := d_max_long d; cardinality := None; group_cardinalities := None;
    threshold_long := None; threshold_short := None; groups := d_groups d; linear_constraints := d_linear_constraints d;
    left_inequality := d_left_inequality d; right_inequality := d_right_inequality d |};
  names_ := d_names d; mip_solver_ := false; objective_ := MAXIMIZE_RATIO; risk_measure_ := STANDARD_DEVIATION; limits_ := fun _ => None;
  min_return_ := d_min_return d; max_turnover_ := d_max_turnover d; has_previous_ := d_has_previous d;
  max_tracking_error_ := d_max_tracking_error d; benchmark_ := d_benchmark d; mu_uncertainty_ := None; l1_ := d_l1 d; l2_ := d_l2 d;
  risk_aversion_ := 1; scale_objective_ := d_scale_objective d; overwrite_ := Some (weighted_volatilities (d_covariance d)) |}.
