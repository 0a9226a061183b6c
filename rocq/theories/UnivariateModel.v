(** Model of the univariate distributions: Gaussian.fit (src/skfolio/distribution/univariate/_gaussian.py 99-136),
    BaseUnivariateDist.n_params, _validate_X, score_samples (univariate/_base.py 43-46, 74-115) and
    BaseDistribution.score, aic, bic (distribution/_base.py 96-203).  No proofs here.
    scipy is not part of /repo: st.norm.fit is modelled by its closed form (maximum likelihood, ddof = 0) and
    st.norm.logpdf by its formula, NaN ([None]) for a scale that is not positive.  Numbers are exact reals. *)
From Coq Require Import Reals List Arith Bool.
From Verif Require Import RList.
Import ListNotations.
Local Open Scope R_scope.

(** ** scipy.stats.norm *)
Definition average (x : list R) : R := rsum x / INR (length x).
(** norm.fit(data, floc, fscale) *)
Definition norm_fit (floc fscale : option R) (x : list R) : R * R :=
  let loc := match floc with Some l => l | None => average x end in
  let scale := match fscale with Some s => s | None => sqrt (average (map (fun v => (v - loc) ^ 2) x)) end in
  (loc, scale).
Definition norm_logpdf (loc scale : R) (v : R) : option R :=
  if Rlt_dec 0 scale then Some (- (((v - loc) / scale) ^ 2 / 2) - ln (sqrt (2 * PI)) - ln scale) else None.

(** ** The estimators *)

(** _validate_X, _base.py 88-93: rows of a single column; [None]: ValueError (also without any row) *)
Fixpoint columns_of (X : list (list R)) : option (list R) :=
  match X with
  | [] => Some []
  | [v] :: r => option_map (cons v) (columns_of r)
  | _ :: _ => None
  end.
Definition validate_X (X : list (list R)) : option (list R) :=
  match X with [] => None | _ => columns_of X end.

Record gaussian := { loc : option R; scale : option R }.
(** Gaussian.fit, _gaussian.py 119-136: loc_ and scale_; [None]: ValueError *)
Definition gaussian_fit (g : gaussian) (X : list (list R)) : option (R * R) :=
  match validate_X X with
  | None => None
  | Some x =>
      match loc g, scale g with
      | Some _, Some _ => None
      | floc, fscale => Some (norm_fit floc fscale x)
      end
  end.

(** _scipy_params and n_params, _gaussian.py 94-97 and _base.py 43-46: loc and scale, fixed or not *)
Definition gaussian_params (f : R * R) : list R := [fst f; snd f].
Definition n_params (params : list R) : nat := length params.

(** np.sum of the log-densities; NaN if one of them is *)
Fixpoint sum_scores (l : list (option R)) : option R :=
  match l with
  | [] => Some 0
  | None :: _ => None
  | Some v :: r => option_map (Rplus v) (sum_scores r)
  end.

(** score, distribution/_base.py 96-113, of the fitted Gaussian *)
Definition score (f : R * R) (x : list R) : option R := sum_scores (map (norm_logpdf (fst f) (snd f)) x).
(** aic, 115-152 *)
Definition aic (params : list R) (log_likelihood : option R) : option R :=
  option_map (fun l => 2 * (INR (n_params params) - l)) log_likelihood.
(** bic, 154-203 *)
Definition bic (params : list R) (n : nat) (log_likelihood : option R) : option R :=
  option_map (fun l => - 2 * l + INR (n_params params) * ln (INR n)) log_likelihood.
