(** Model of GerberCovariance.fit, moments/covariance/_gerber_covariance.py lines 120-158, up to the call of _set_covariance (modelled in
    CovarianceModel).  No proofs here.  An observation is the vector of the assets' returns; numbers are reals (rounding not modelled). *)
From Coq Require Import Reals List Arith.
From Verif Require Import RList.
Import ListNotations.
Open Scope R_scope.

Notation obs := (nat -> R) (only parsing).
(** line 137: X[-window_size:], where -0 is 0 *)
Definition window (w : option nat) (X : list obs) : list obs :=
  match w with
  | None => X
  | Some O => X
  | Some w => skipn (length X - w) X
  end.
(** line 141: population standard deviation of a column *)
Definition mean_of (X : list obs) (i : nat) : R := sum_over X (fun r => r i) / INR (length X).
Definition std_of (X : list obs) (i : nat) : R := sqrt (sum_over X (fun r => (r i - mean_of X i) ^ 2) / INR (length X)).
Definition b2r (b : bool) : R := if b then 1 else 0.
Definition leb (x y : R) : bool := if Rle_dec x y then true else false.
Section Statistic.
Variables (c : R) (X : list obs).
(** lines 142-147 *)
Definition u (i : nat) (r : obs) : bool := leb (std_of X i * c) (r i).
Definition d (i : nat) (r : obs) : bool := leb (r i) (- std_of X i * c).
Definition n (i : nat) (r : obs) : bool := andb (negb (u i r)) (negb (d i r)).
(** a.T @ b *)
Definition counts (a b : nat -> obs -> bool) (i j : nat) : R := sum_over X (fun r => b2r (a i r) * b2r (b j r)).
(** lines 148-150 *)
Definition h (i j : nat) : R := (counts u u i j + counts d d i j) - (counts u d i j + counts d u i j).
(** lines 151-155 *)
Definition corr (psd_variant : bool) (i j : nat) : R :=
  if psd_variant then h i j / (INR (length X) - counts n n i j) else h i j / (sqrt (h i i) * sqrt (h j j)).
(** line 156 *)
Definition cov (psd_variant : bool) (i j : nat) : R := corr psd_variant i j * std_of X j * std_of X i.
End Statistic.
(** None: ValueError *)
Definition gerber (psd_variant : bool) (c : R) (w : option nat) (X : list obs) : option (nat -> nat -> R) :=
  let X := window w X in
  if Rlt_dec c 1 then if Rlt_dec 0 c then Some (cov c X psd_variant) else None else None.
