(** Model of src/skfolio/measures/_measures.py over exact real arithmetic.  No proofs here.
    numpy primitives: np.sort and np.partition are parameters (specified where used);
    floating-point rounding is not modelled. *)
From Coq Require Import Reals List ZArith.
From Verif Require Import RList.
Import ListNotations.
Local Open Scope R_scope.

Definition len {A} (l : list A) : R := INR (length l).
Definition minR (l : list R) : R := match l with [] => 0 | x :: l => fold_left Rmin l x end.
Definition maxR (l : list R) : R := match l with [] => 0 | x :: l => fold_left Rmax l x end.

(** mean, lines 14-27 *)
Definition mean (r : list R) : R := rsum r / len r.
(** the optional argument min_acceptable_return: None means the mean *)
Definition target (r : list R) (mar : option R) : R := match mar with Some m => m | None => mean r end.

(** mean_absolute_deviation, lines 30-52 *)
Definition mean_absolute_deviation (r : list R) (mar : option R) : R :=
  sum_over r (fun x => Rabs (x - target r mar)) / len r.
(** first_lower_partial_moment, lines 55-80 *)
Definition first_lower_partial_moment (r : list R) (mar : option R) : R :=
  - sum_over r (fun x => Rmin 0 (x - target r mar)) / len r.
(** variance, lines 83-96 (ddof = 1) *)
Definition variance (r : list R) : R := sum_over r (fun x => (x - mean r)^2) / (len r - 1).
(** semi_variance, lines 99-125 *)
Definition semi_variance (r : list R) (mar : option R) : R :=
  sum_over r (fun x => (Rmin 0 (x - target r mar))^2) / (len r - 1).
(** standard_deviation, semi_deviation, lines 128-165 *)
Definition standard_deviation (r : list R) : R := sqrt (variance r).
Definition semi_deviation (r : list R) (mar : option R) : R := sqrt (semi_variance r mar).
(** third_central_moment, skew, fourth_central_moment, kurtosis, fourth_lower_partial_moment, lines 168-268 *)
Definition third_central_moment (r : list R) : R := sum_over r (fun x => (x - mean r)^3) / len r.
Definition skew (r : list R) : R := third_central_moment r / standard_deviation r ^ 3.
Definition fourth_central_moment (r : list R) : R := sum_over r (fun x => (x - mean r)^4) / len r.
Definition kurtosis (r : list R) : R := fourth_central_moment r / standard_deviation r ^ 4.
Definition fourth_lower_partial_moment (r : list R) (mar : option R) : R :=
  sum_over r (fun x => (Rmin 0 (x - target r mar))^4) / len r.
(** worst_realization, lines 271-285 *)
Definition worst_realization (r : list R) : R := - minR r.

(** np.ceil *)
Definition ceilZ (x : R) : Z := (- Int_part (- x))%Z.

Section Partition.
  (** np.partition(a, kth) *)
  Variable partition : list R -> nat -> list R.

  (** k and ik, lines 306-307 and 332-333 *)
  Definition tail_size (beta : R) (n : nat) : R := (1 - beta) * INR n.
  Definition tail_index (beta : R) (n : nat) : nat := Z.to_nat (Z.max 0 (ceilZ (tail_size beta n) - 1)).

  (** value_at_risk, lines 288-311 *)
  Definition value_at_risk (r : list R) (beta : R) : R :=
    let ik := tail_index beta (length r) in - nth ik (partition r ik) 0.

  (** cvar, lines 314-338 *)
  Definition cvar (r : list R) (beta : R) : R :=
    let k := tail_size beta (length r) in
    let ik := tail_index beta (length r) in
    let ret := partition r ik in
    - rsum (firstn ik ret) / k + nth ik ret 0 * (INR ik / k - 1).

  (** drawdown_at_risk, max_drawdown, average_drawdown, cdar, lines 456-530 *)
  Definition drawdown_at_risk (d : list R) (beta : R) : R := value_at_risk d beta.
  Definition max_drawdown (d : list R) : R := drawdown_at_risk d 1.
  Definition cdar (d : list R) (beta : R) : R := cvar d beta.
  Definition average_drawdown (d : list R) : R := cdar d 0.
End Partition.

(** entropic_risk_measure, lines 341-366 *)
Definition entropic_risk_measure (r : list R) (theta beta : R) : R :=
  theta * ln (mean (map (fun x => exp (- x / theta)) r) / (1 - beta)).

(** evar, lines 369-402: the SLSQP solver is a parameter returning a point of the feasible interval
    [lower_bound, inf); result.fun is the objective at that point *)
Definition evar_lower_bound (r : list R) : R := maxR (map Ropp r) / 100.
Definition evar (solver : (R -> R) -> R -> R) (r : list R) (beta : R) : R :=
  let func := fun x => entropic_risk_measure r x beta in
  func (solver func (evar_lower_bound r)).

(** np.cumsum, np.cumprod, np.maximum.accumulate *)
Fixpoint scan (f : R -> R -> R) (acc : R) (l : list R) : list R :=
  match l with [] => [] | x :: l => let a := f acc x in a :: scan f a l end.
Definition accumulate (f : R -> R -> R) (l : list R) : list R :=
  match l with [] => [] | x :: l => x :: scan f x l end.

(** get_cumulative_returns, lines 405-428 *)
Definition get_cumulative_returns (r : list R) (compounded : bool) : list R :=
  if compounded then map (fun x => 1000 * x) (accumulate Rmult (map (fun x => 1 + x) r))
  else accumulate Rplus r.

(** get_drawdowns, lines 431-453 *)
Definition get_drawdowns (r : list R) (compounded : bool) : list R :=
  let c := get_cumulative_returns r compounded in
  let m := accumulate Rmax c in
  if compounded then map (fun p => fst p / snd p - 1) (combine c m)
  else map (fun p => fst p - snd p) (combine c m).

(** ulcer_index, line 565 *)
Definition ulcer_index (d : list R) : R := sqrt (sum_over d (fun x => x^2) / len d).

(** owa_gmd_weights, lines 568-583 *)
Definition owa_gmd_weights (n : nat) : list R :=
  map (fun i => (4 * INR i - 2 * (INR n + 1)) / (INR n * (INR n - 1))) (seq 1 n).

(** gini_mean_difference, lines 586-606; [sort] is np.sort *)
Definition gini_mean_difference (sort : list R -> list R) (r : list R) : R :=
  sum_over (combine (owa_gmd_weights (length r)) (sort r)) (fun p => fst p * snd p).

(** effective_number_assets, line 633 *)
Definition effective_number_assets (w : list R) : R := 1 / sum_over w (fun x => x^2).
