(** Model of MeanRisk.fit (src/skfolio/optimization/convex/_mean_risk.py lines 770-1100) with the variance as risk measure
    and uncertainty sets for the covariance and, optionally, for the expected returns.  No proofs here.
    Numbers are those of a real closed field.  The expressions of the uncertainty sets are those of UncertaintyModel.v.
    Simplified: the weight constraints are the bounds, the budget and the linear inequalities (all of them: ConvexModel.v);
    no costs, fees, penalties or custom terms (MeanRiskModel.v, CustomModel.v). *)
From mathcomp Require Import all_ssreflect all_algebra.
From Verif Require Import MatForm UncertaintyModel.
Set Implicit Arguments.
Unset Strict Implicit.
Unset Printing Implicit Defensive.
Import Order.TTheory GRing.Theory Num.Theory.
Local Open Scope ring_scope.

Inductive goal := MinimizeRisk | MaximizeReturn | MaximizeUtility | MaximizeRatio.
Section Model.
Variable F : rcfType.
(** the parameters of the estimator with the fitted prior and sets; a set comes with the square root of its shape, computed
    by sqrtm; [inequalities] has the rows of left_inequality with the entries of right_inequality *)
Record robust n := {
  mean : 'cV[F]_n; covariance : 'M[F]_n;
  mu_set : option (uncertainty_set F n * 'M[F]_n); covariance_set : uncertainty_set F (n * n); covariance_root : 'M[F]_(n * n);
  lower : 'cV[F]_n; upper : 'cV[F]_n; total : option F; inequalities : seq ('rV[F]_n * F);
  floor_return : option F; max_variance : option F;
  aim : goal; aversion : F; risk_free : F; scale_constraints : F; scale_objective : F }.
(** the values of the variables *)
Record point n := { weight : 'cV[F]_n; factor : F; vx : 'M[F]_n; vy : 'M[F]_n }.

Section Fit.
Variable n : nat.
Variable q : robust n.
Let s := scale_constraints q.
(** lines 875-882 *)
Definition er (w : 'cV[F]_n) : F :=
  match mu_set q with None => ((mean q)^T *m w) 0 0 | Some (u, Q) => penalised_return (mean q) u Q w end.
(** _optimal_homogenization_factor, lines 1103-1123 *)
Definition homogenization : F := Num.min 1000%:R (Num.max (1000%:R)^-1 ((\sum_i `|mean q i 0|) / n%:R)).
(** _get_weight_constraints, _base.py lines 766-824 and 935-945 *)
Definition weight_constraints (w : 'cV[F]_n) (f : F) : Prop :=
  (forall i, lower q i 0 * f * s <= w i 0 * s) /\ (forall i, w i 0 * s <= upper q i 0 * f * s) /\
  (match total q with None => True | Some b => (\sum_i w i 0) * s = b * f * s end) /\
  (forall r, r \in inequalities q -> (r.1 *m w) 0 0 * s - r.2 * f * s <= 0).
Definition risk (p : point n) : F := worst_case_variance (covariance q) (covariance_set q) (covariance_root q) (vx p) (vy p).
Definition is_ratio : bool := match aim q with MaximizeRatio => true | _ => false end.
(** lines 886-1076: weight constraints, min_return (954-961), risk block (963-1012) with max_variance, ratio (1038-1076);
    cvxpy's is_affine holds when there is no set of means *)
Definition feasible (p : point n) : Prop :=
  [/\ is_ratio \/ factor p = 1,
      weight_constraints (weight p) (factor p),
      match floor_return q with None => True | Some r => r * factor p * s <= er (weight p) * s end,
      worst_case_constraints s (weight p) (factor p) (vx p) (vy p) /\
      match max_variance q with None => True | Some l => risk p * s <= l * factor p * s end &
      is_ratio -> match mu_set q return Prop with
                  | None => er (weight p) * s - risk_free q * factor p * s = homogenization * s
                  | Some _ => homogenization * s <= er (weight p) * s - risk_free q * factor p * s
                  end].
(** lines 1018-1080, as a quantity to minimise *)
Definition loss (p : point n) : F :=
  let so := scale_objective q in
  match aim q with
  | MaximizeReturn => - (er (weight p) * so)
  | MinimizeRisk | MaximizeRatio => risk p * so
  | MaximizeUtility => - (er (weight p) * so - aversion q * risk p * so)
  end.
Definition optimal (p : point n) : Prop := feasible p /\ forall p', feasible p' -> loss p <= loss p'.
(** weights_, _base.py line 1127 *)
Definition reported (p : point n) : 'cV[F]_n := (factor p)^-1 *: weight p.
End Fit.
End Model.
