(** Model of SyntheticData.fit and _check_sample_method, src/skfolio/prior/_synthetic_data.py 143-239.
    No proofs here.  The fitted distribution estimator is a parameter: the parameters of its sample method
    ([None] without a callable [sample]) and the rows that it samples.  The white noise is a parameter, one
    number per row.  The empirical prior uses the models of EmpiricalMu and EmpiricalCovariance of
    MomentsModel.v (before the nearest-matrix repair).  Not modelled: metadata routing (RoutingModel.v),
    feature names, validation of X. *)
From Coq Require Import Reals String List Arith Bool ZArith.
From Verif Require Import RList MomentsModel.
Import ListNotations.
Local Open Scope R_scope.

Record prior_model := { returns : list obs; mu : outcome (nat -> R); covariance : outcome (nat -> nat -> R) }.

Section Fit.
Variable n_assets : nat.
(** inspect.signature(distribution_estimator.sample).parameters *)
Variable sample_parameters : option (list string).
(** distribution_estimator_.sample(n_samples=n, **sample_args) *)
Variable sample : nat -> list obs.
(** np.random.randn(len(synthetic_data), 1), 194 *)
Variable noise : list R.

(** _check_sample_method, 204-239 *)
Definition check_sample_method : bool :=
  match sample_parameters with
  | None => false
  | Some ps => existsb (String.eqb "n_samples") ps
  end.

(** np.var(synthetic_data, axis=0) < 1e-14, 192 *)
Definition var (x : list R) : R := rsum (map (fun v => (v - mean x) ^ 2) x) / INR (length x).
Definition constant (X : list obs) (j : nat) : bool :=
  if Rlt_dec (var (column X j)) (/ 100000000000000) then true else false.

(** 193-195: the same noise is added to every constant column *)
Definition perturbed (X : list obs) : list obs :=
  if existsb (constant X) (seq 0 n_assets)
  then map (fun rz => fun j => if constant X j then fst rz j + / 1000000 * snd rz else fst rz j) (combine X noise)
  else X.

(** fit, 152-202; [None]: ValueError *)
Definition fit (n_samples : nat) : option prior_model :=
  if check_sample_method
  then
    let X := perturbed (sample n_samples) in
    Some {| returns := X; mu := empirical_mu None X; covariance := empirical_covariance None 1 n_assets X |}
  else None.
End Fit.
