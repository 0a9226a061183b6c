(** Model of EmpiricalPrior.fit, prior/_empirical.py lines 109-196.  No proofs here.
    The estimators of the expected returns and of the covariance are parameters: functions of the returns they are fitted on
    and of the target.  Not modelled: metadata routing, feature names, validation of X (finite values). *)
From Coq Require Import Reals.
Local Open Scope R_scope.

Definition vec := nat -> R.
Definition mat := nat -> nat -> R.
(** the fitted prior model, and the attributes mu_estimator_.mu_ and covariance_estimator_.covariance_ once fit has returned *)
Record fitted := { out_mu : vec; out_covariance : mat; out_returns : mat; attr_mu : vec; attr_covariance : mat }.
Inductive outcome := Fitted (r : fitted) | ValueError.

Section Fit.
  Variable fit_mu : mat -> option mat -> vec.
  Variable fit_covariance : mat -> option mat -> mat.
  (** np.log(1 + X), line 166; the logarithm of a number that is not positive is NaN in the code, a number without meaning here *)
  Definition log_returns (X : mat) : mat := fun t i => ln (1 + X t i).
  Definition fit (is_log_normal : bool) (investment_horizon : option R) (X : mat) (y : option mat) : outcome :=
    if negb is_log_normal then
      (* lines 144-160 *)
      match investment_horizon with
      | Some _ => ValueError
      | None => let mu := fit_mu X y in let covariance := fit_covariance X y in
                Fitted {| out_mu := mu; out_covariance := covariance; out_returns := X; attr_mu := mu; attr_covariance := covariance |}
      end
    else
      (* lines 161-193 *)
      match investment_horizon with
      | None => ValueError
      | Some h =>
          let X_log := log_returns X in
          let y_log := option_map log_returns y in
          let mu := fit_mu X_log y_log in
          let covariance := fit_covariance X_log y_log in
          (* lines 186-187: in place, so that the attributes of the estimators change too *)
          let mu := fun i => mu i * h in
          let covariance := fun i j => covariance i j * h in
          (* lines 191-192 *)
          let lin_mu := fun i => exp (mu i + 1/2 * covariance i i) in
          let lin_covariance := fun i j => lin_mu i * lin_mu j * (exp (covariance i j) - 1) in
          Fitted {| out_mu := lin_mu; out_covariance := lin_covariance; out_returns := X; attr_mu := mu; attr_covariance := covariance |}
      end.
End Fit.
