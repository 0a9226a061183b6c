(** Model of the risk expressions of optimization/convex/_base.py (lines 1380-2133): for each risk measure the expression and
    the constraints evaluated at the values of the weights, the factor and the auxiliary variables.  No proofs here.
    Not modelled: the worst-case variance (semi-definite constraints). *)
From Coq Require Import List Arith Reals.
From Verif Require Import RList MeasuresModel ConvexModel.
Import ListNotations.
Local Open Scope R_scope.

(** the prior model: n assets, T observations, returns, mu, and the Cholesky factor z of the covariance *)
Record prior := { n_assets : nat; n_obs : nat; returns : nat -> vec; mu : vec; cholesky : nat -> vec }.
Record settings := {
  costs : input; previous : input; fees : input; mar : option input; risk_free_rate : R;
  cvar_beta : R; evar_beta : R; cdar_beta : R; edar_beta : R; scale : R }.
Inductive risk_measure :=
  | MEAN_ABSOLUTE_DEVIATION | FIRST_LOWER_PARTIAL_MOMENT | STANDARD_DEVIATION | VARIANCE | SEMI_VARIANCE | SEMI_DEVIATION
  | WORST_REALIZATION | CVAR | EVAR | MAX_DRAWDOWN | AVERAGE_DRAWDOWN | CDAR | EDAR | ULCER_INDEX | GINI_MEAN_DIFFERENCE.
(** the values of the auxiliary variables: scalars alpha (CVaR, CDaR), u (standard deviation, worst realisation, maximum
    drawdown), x and y (EVaR, EDaR), vectors v, z, and the vectors x, y of the Gini mean difference; [dd] is the drawdown
    vector v of __cvx_drawdown with index 0..T *)
Record aux := { alpha : R; u : R; ex : R; ey : R; v : vec; z : vec; gx : vec; gy : vec; dd : vec }.

Section Risk.
  Variable pm : prior.
  Variable st : settings.
  Let n := n_assets pm.
  Let T := n_obs pm.
  Let s := scale st.
  (** _cvx_returns, line 1337 *)
  Definition ptf_returns (w : vec) (t : nat) : R := sumn n (fun i => returns pm t i * w i).
  (** _cvx_min_acceptable_return, lines 1405-1413 *)
  Definition min_acceptable (w : vec) (t : nat) : R :=
    sumn n (fun i => (returns pm t i - match mar st with None => mu pm i | Some m => value m i end) * w i).
  Definition cost (w : vec) (f : R) : R := transaction_cost n (costs st) (previous st) w f.
  Definition fee (w : vec) : R := management_fee n (fees st) w.
  (** __cvx_drawdown, lines 1438-1454 *)
  Definition drawdown_constraints (w : vec) (f : R) (a : aux) : list constraint :=
    elementwise T (fun t => Le (dd a t * s - ptf_returns w t * s + cost w f * s + fee w * s) (dd a (S t) * s))
    ++ elementwise T (fun t => Le 0 (dd a (S t) * s)) ++ [Eq (dd a 0%nat * s) 0].
  Definition gmd_weight (t : nat) : R := nth t (owa_gmd_weights T) 0 / 2.
  Definition nonneg (x : vec) : list constraint := elementwise T (fun t => Le 0 (x t)).

  Definition risk_value (rm : risk_measure) (w : vec) (f : R) (a : aux) : R :=
    match rm with
    | MEAN_ABSOLUTE_DEVIATION => 2 * sumn T (v a) / INR T                                   (* line 1548 *)
    | FIRST_LOWER_PARTIAL_MOMENT => sumn T (v a) / INR T                                    (* line 1591 *)
    | STANDARD_DEVIATION => u a                                                             (* line 1624 *)
    | VARIANCE => u a ^ 2                                                                   (* line 1647 *)
    | SEMI_VARIANCE => sumn T (fun t => v a t ^ 2) / (INR T - 1)                            (* line 1730 *)
    | SEMI_DEVIATION => sqrt (sumn T (fun t => v a t ^ 2)) / sqrt (INR T - 1)               (* line 1767 *)
    | WORST_REALIZATION => u a                                                              (* line 1808 *)
    | CVAR => alpha a + 1 / (INR T * (1 - cvar_beta st)) * sumn T (v a)                     (* line 1850 *)
    | EVAR => ex a + ey a * ln (1 / (INR T * (1 - evar_beta st)))                           (* line 1906 *)
    | MAX_DRAWDOWN => u a                                                                   (* line 1943 *)
    | AVERAGE_DRAWDOWN => sumn T (fun t => dd a (S t)) / INR T                              (* line 1971 *)
    | CDAR => alpha a + 1 / (INR T * (1 - cdar_beta st)) * sumn T (z a)                     (* line 2003 *)
    | EDAR => ex a + ey a * ln (1 / (INR T * (1 - edar_beta st)))                           (* line 2040 *)
    | ULCER_INDEX => sqrt (sumn T (fun t => dd a (S t) ^ 2)) / sqrt (INR T)                 (* line 2078 *)
    | GINI_MEAN_DIFFERENCE => 2 * sumn T (fun t => gx a t + gy a t)                         (* line 2123 *)
    end.
  Definition risk_constraints (rm : risk_measure) (w : vec) (f : R) (a : aux) : list constraint :=
    match rm with
    | MEAN_ABSOLUTE_DEVIATION | SEMI_VARIANCE | SEMI_DEVIATION =>                           (* lines 1549-1552, 1731-1734, 1768-1771 *)
        nonneg (v a) ++ elementwise T (fun t => Le (- v a t * s) (min_acceptable w t * s))
    | FIRST_LOWER_PARTIAL_MOMENT =>                                                         (* lines 1592-1596 *)
        nonneg (v a) ++ elementwise T (fun t => Le (risk_free_rate st * f * s - min_acceptable w t * s) (v a t * s))
    | STANDARD_DEVIATION | VARIANCE =>                                                      (* lines 1617-1627 *)
        [Le 0 (u a); Le (sqrt (sumn n (fun k => (sumn n (fun i => cholesky pm i k * w i) * s) ^ 2))) (u a * s)]
    | WORST_REALIZATION =>                                                                  (* lines 1809-1814 *)
        elementwise T (fun t => Le (- ptf_returns w t * s + cost w f * s + fee w * s) (u a * s))
    | CVAR =>                                                                               (* lines 1849-1859 *)
        nonneg (v a) ++ elementwise T (fun t => Le 0 (ptf_returns w t * s - cost w f * s - fee w * s + alpha a * s + v a t * s))
    | EVAR =>                                                                               (* lines 1903-1916; no transaction cost *)
        [Le 0 (ey a); Le (sumn T (z a) * s) (ey a * s)]
        ++ elementwise T (fun t => ExpCone (- ptf_returns w t * s + fee w * s - ex a * s) (ey a * s) (z a t * s))
    | MAX_DRAWDOWN => drawdown_constraints w f a ++ elementwise T (fun t => Le (dd a (S t) * s) (u a * s))   (* line 1944 *)
    | AVERAGE_DRAWDOWN | ULCER_INDEX => drawdown_constraints w f a
    | CDAR =>                                                                               (* lines 2002-2007 *)
        nonneg (z a) ++ drawdown_constraints w f a ++ elementwise T (fun t => Le (dd a (S t) * s - alpha a * s) (z a t * s))
    | EDAR =>                                                                               (* lines 2037-2048 *)
        [Le 0 (ey a)] ++ drawdown_constraints w f a ++ [Le (sumn T (z a) * s) (ey a * s)]
        ++ elementwise T (fun t => ExpCone (dd a (S t) * s - ex a * s) (ey a * s) (z a t * s))
    | GINI_MEAN_DIFFERENCE =>                                                               (* lines 2124-2132 *)
        elementwise T (fun t => Eq (ptf_returns w t * s - cost w f * s - fee w * s) (z a t * s))
        ++ flat_map (fun i => elementwise T (fun j => Le (z a i * gmd_weight j) (gx a j + gy a i))) (seq 0 T)
    end.
End Risk.
