(** Model of the log-densities and tail dependence coefficients of the Gaussian and Student t copulas:
    src/skfolio/distribution/copula/_gaussian.py and _student_t.py.  Their h-functions are in CopulaModel.v.  No proofs here.

    [ndtri], [stdtr], [stdtrit] and [gammaln] stand for the functions of scipy.special of the same names.  Numbers are reals: at
    rho = 1 and rho = -1, which the code accepts, it divides by zero; nothing is proved about these two values. *)
From Coq Require Import Reals List.
From Verif Require Import CopulaModel.
Import ListNotations.
Open Scope R_scope.

Definition log1p (x : R) : R := ln (1 + x).

(** The test [lo <= x <= hi]. *)
Definition between (lo x hi : R) : bool := if Rle_dec lo x then if Rle_dec x hi then true else false else false.

(** _gaussian.py 404-406, on the row whose quantiles are [x] and [y]. *)
Definition gaussian_log_density (rho x y : R) : R :=
  - (5 / 10) * log1p (- (rho ^ 2)) - rho * (5 / 10 * rho * (x ^ 2 + y ^ 2) - x * y) / (1 - rho ^ 2).

(** _base_sample_scores, _gaussian.py 397-407: None is the ValueError. *)
Definition gaussian_scores (ndtri : R -> R) (rho : R) (X : list (R * R)) : option (list R) :=
  if between (-1) rho 1 then
    Some (map (fun r => gaussian_log_density rho (ndtri (fst r)) (ndtri (snd r))) X)
  else None.

(** _student_t.py 476-485. *)
Definition student_log_density (gammaln : R -> R) (rho dof x y : R) : R :=
  let a := 1 - rho ^ 2 in
  gammaln ((dof + 2) / 2) + gammaln (dof / 2) - 2 * gammaln ((dof + 1) / 2) - ln a / 2
  + (dof + 1) / 2 * (log1p (x ^ 2 / dof) + log1p (y ^ 2 / dof))
  - (dof + 2) / 2 * log1p ((x ^ 2 - 2 * rho * x * y + y ^ 2) / a / dof).

(** _sample_scores, _student_t.py 468-486. *)
Definition student_scores (gammaln : R -> R) (stdtrit : R -> R -> R) (rho dof : R) (X : list (R * R)) : option (list R) :=
  if between (-1) rho 1 then
    if between 1 dof 50 then
      Some (map (fun r => student_log_density gammaln rho dof (stdtrit dof (fst r)) (stdtrit dof (snd r))) X)
    else None
  else None.

(** _validate_X, copula/_base.py, on every row: the first bad row is an error. *)
Fixpoint validate_rows (X : list (R * R)) : option (list (R * R)) :=
  match X with
  | [] => Some []
  | r :: X => match validate r, validate_rows X with Some r, Some X => Some (r :: X) | _, _ => None end
  end.

(** score_samples, _gaussian.py 330-334 and _student_t.py 398-401. *)
Definition gaussian_score_samples (ndtri : R -> R) (rho : R) (X : list (R * R)) : option (list R) :=
  match validate_rows X with Some X => gaussian_scores ndtri rho X | None => None end.
Definition student_score_samples (gammaln : R -> R) (stdtrit : R -> R -> R) (rho dof : R) (X : list (R * R)) : option (list R) :=
  match validate_rows X with Some X => student_scores gammaln stdtrit rho dof X | None => None end.

(** lower_tail_dependence and upper_tail_dependence, _gaussian.py 336-344 and _student_t.py 403-413. *)
Definition gaussian_lower_tail : R := 0.
Definition gaussian_upper_tail : R := 0.
Definition student_lower_tail (stdtr : R -> R -> R) (rho dof : R) : R :=
  2 * stdtr (dof + 1) (- sqrt ((dof + 1) * (1 - rho) / (1 + rho))).
Definition student_upper_tail (stdtr : R -> R -> R) (rho dof : R) : R := student_lower_tail stdtr rho dof.
