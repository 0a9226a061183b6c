(** Model of EmpiricalMu.fit, EWMu.fit, EmpiricalCovariance.fit and EWCovariance.fit of
    src/skfolio/moments, up to the nearest-matrix repair (modelled in CovarianceModel.v).
    No proofs here.  An observation is the vector of the assets' returns; numbers are exact
    reals; NaN in the result is an explicit case.

    pandas is not part of /repo: [ewm(alpha).mean()] and [ewm(alpha).cov()] are modelled by
    the loops of pandas' window aggregations with their defaults adjust=True,
    ignore_na=False, bias=False, for data without NaN. *)
From Coq Require Import Reals List Arith ZArith Bool.
From Verif Require Import RList.
Import ListNotations.
Local Open Scope R_scope.

Notation obs := (nat -> R) (only parsing).

Inductive outcome (A : Type) := Value (a : A) | NaN | Raises.
Arguments Value {A} a.
Arguments NaN {A}.
Arguments Raises {A}.

(** [X[k:]]: a negative start counts from the end *)
Definition slice_from {A} (X : list A) (k : Z) : list A :=
  if (k <? 0)%Z then skipn (Z.to_nat (Z.max 0 (Z.of_nat (length X) + k))) X
  else skipn (Z.to_nat k) X.
(** _empirical_mu.py 70-71, _ew_mu.py 65-66, _empirical_covariance.py 100-101,
    _ew_covariance.py 96-97: [if window_size is not None: X = X[-window_size:]] *)
Definition window {A} (w : option Z) (X : list A) : list A :=
  match w with None => X | Some w => slice_from X (- w) end.

Definition column (X : list obs) (i : nat) : list R := map (fun r => r i) X.

(** [np.mean(x)]: of nothing it is NaN *)
Definition mean (x : list R) : R := rsum x / INR (length x).
(** EmpiricalMu.fit, _empirical_mu.py 69-73 *)
Definition empirical_mu (w : option Z) (X : list obs) : outcome (nat -> R) :=
  let X := window w X in
  if (length X =? 0)%nat then NaN else Value (fun i => mean (column X i)).

(** [np.cov(X.T, ddof)]: with no degree of freedom left it divides by zero *)
Definition cov (ddof : nat) (x y : list R) : R :=
  rsum (map (fun p => (fst p - mean x) * (snd p - mean y)) (combine x y)) / (INR (length x) - INR ddof).
(** _sanity_check, _base.py 74-92: a variance below 1e-15 raises *)
Definition tiny : R := / 1000000000000000.
Definition too_small (n_assets : nat) (c : nat -> nat -> R) : bool :=
  existsb (fun i => if Rlt_dec (c i i) tiny then true else false) (seq 0 n_assets).
Definition checked (n_assets : nat) (c : nat -> nat -> R) : outcome (nat -> nat -> R) :=
  if too_small n_assets c then Raises else Value c.
(** EmpiricalCovariance.fit, _empirical_covariance.py 99-104.  For a single asset np.cov
    returns an array without dimensions, which np.diag refuses. *)
Definition empirical_covariance (w : option Z) (ddof n_assets : nat) (X : list obs)
    : outcome (nat -> nat -> R) :=
  let X := window w X in
  if (n_assets =? 1)%nat then Raises
  else if (length X <=? ddof)%nat then NaN
  else checked n_assets (fun i j => cov ddof (column X i) (column X j)).

(** ** pandas *)

(** the loop of ewm.mean: the accumulated weight and the current average *)
Definition mean_step (alpha : R) (s : R * R) (x : R) : R * R :=
  let (old_wt, weighted) := s in
  let old_wt := old_wt * (1 - alpha) in
  let weighted := (old_wt * weighted + 1 * x) / (old_wt + 1) in
  (old_wt + 1, weighted).
Definition ew_mean (alpha : R) (x : list R) : R :=
  match x with [] => 0 | x0 :: x => snd (fold_left (mean_step alpha) x (1, x0)) end.

(** the loop of ewm.cov *)
Record cov_state := { mean_x : R; mean_y : R; c_ : R; sum_wt : R; sum_wt2 : R; old_wt : R }.
Definition cov_step (alpha : R) (s : cov_state) (p : R * R) : cov_state :=
  let f := 1 - alpha in
  let sum_wt := sum_wt s * f in
  let sum_wt2 := sum_wt2 s * (f * f) in
  let old_wt := old_wt s * f in
  let mx := (old_wt * mean_x s + 1 * fst p) / (old_wt + 1) in
  let my := (old_wt * mean_y s + 1 * snd p) / (old_wt + 1) in
  let c := (old_wt * (c_ s + (mean_x s - mx) * (mean_y s - my))
            + 1 * ((fst p - mx) * (snd p - my))) / (old_wt + 1) in
  {| mean_x := mx; mean_y := my; c_ := c; sum_wt := sum_wt + 1; sum_wt2 := sum_wt2 + 1; old_wt := old_wt + 1 |}.
(** the last value: the debiased covariance, or NaN when nothing is left to divide by *)
Definition ew_cov (alpha : R) (x y : list R) : option R :=
  match combine x y with
  | [] => None
  | p :: l =>
      let s := fold_left (cov_step alpha) l
                 {| mean_x := fst p; mean_y := snd p; c_ := 0; sum_wt := 1; sum_wt2 := 1; old_wt := 1 |} in
      let numerator := sum_wt s * sum_wt s in
      let denominator := numerator - sum_wt2 s in
      if Rlt_dec 0 denominator then Some (numerator / denominator * c_ s) else None
  end.

(** pandas refuses an alpha outside (0, 1] *)
Definition alpha_ok (alpha : R) : bool :=
  if Rlt_dec 0 alpha then if Rle_dec alpha 1 then true else false else false.

(** EWMu.fit, _ew_mu.py 64-68; without observations [iloc[-1]] raises IndexError *)
Definition ew_mu (w : option Z) (alpha : R) (X : list obs) : outcome (nat -> R) :=
  let X := window w X in
  if negb (alpha_ok alpha) then Raises
  else if (length X =? 0)%nat then Raises
  else Value (fun i => ew_mean alpha (column X i)).

(** EWCovariance.fit, _ew_covariance.py 95-107; without observations the row -1 is missing:
    KeyError *)
Definition ew_covariance (w : option Z) (alpha : R) (n_assets : nat) (X : list obs)
    : outcome (nat -> nat -> R) :=
  let X := window w X in
  if negb (alpha_ok alpha) then Raises
  else if (length X =? 0)%nat then Raises
  else
    let entry i j := ew_cov alpha (column X i) (column X j) in
    if forallb (fun i => forallb (fun j => match entry i j with Some _ => true | None => false end)
                           (seq 0 n_assets)) (seq 0 n_assets)
    then checked n_assets (fun i j => match entry i j with Some c => c | None => 0 end)
    else NaN.
