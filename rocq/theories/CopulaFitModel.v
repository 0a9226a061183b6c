(** Model of the estimation of bivariate copulas: the fit methods of _clayton.py, _gumbel.py, _joe.py, _gaussian.py, _student_t.py and
    _independent.py, _select_rotation_itau and _select_theta_and_rotation_mle, compute_pseudo_observations and
    empirical_tail_concentration of _utils.py, select_bivariate_copula of _selection.py (all in src/skfolio/distribution/copula), and
    score, aic and bic of src/skfolio/distribution/_base.py.  No proofs here.

    Numbers are exact reals, with NaN explicit ([num]).  SciPy is not part of /repo: kendalltau's statistic and rankdata are written
    out; its p-value, the minimisers, brentq, digamma and the log-densities of the Gaussian and Student t copulas are parameters.  A row
    of X is a pair, so the test of the number of columns never fires; X without rows raises (scikit-learn's validation). *)
From Coq Require Import Bool Reals List Lra.
From Verif Require Import CopulaModel.
Import ListNotations.
Local Open Scope R_scope.

(** A float: [None] is NaN. *)
Definition num := option R.
(** Python's [a < b] on floats. *)
Definition lt (a b : num) : bool :=
  match a, b with Some x, Some y => if Rlt_dec x y then true else false | _, _ => false end.
Definition map2n (f : R -> R -> R) (a b : num) : num := match a, b with Some x, Some y => Some (f x y) | _, _ => None end.
(** np.sum of an array. *)
Definition nsum (l : list num) : num := fold_right (map2n Rplus) (Some 0) l.
(** Python's [min(a, b)]: the first unless the second is smaller. *)
Definition nmin (a b : num) : num := if lt b a then b else a.
(** np.clip. *)
Definition nclip (lo hi : R) (a : num) : num := option_map (clip lo hi) a.

(** Python's [min(results, key=results.get)] on a dictionary in insertion order: the first key unless a later one is smaller. *)
Fixpoint least {A} (best : A * num) (l : list (A * num)) : A :=
  match l with [] => fst best | p :: l => least (if lt (snd p) (snd best) then p else best) l end.

(** Exceptions. *)
Inductive outcome (A : Type) := Ok (a : A) | ValueError | RuntimeError | AttributeError.
Arguments Ok {A} a. Arguments ValueError {A}. Arguments RuntimeError {A}. Arguments AttributeError {A}.
Definition bind {A B} (x : outcome A) (f : A -> outcome B) : outcome B :=
  match x with Ok a => f a | ValueError => ValueError | RuntimeError => RuntimeError | AttributeError => AttributeError end.

(** scipy.stats.kendalltau(x, y).statistic: over the pairs of observations, concordant minus discordant, divided by the square roots
    of the numbers of pairs not tied in x and not tied in y; NaN when all the pairs are tied. *)
Definition sgn (x : R) : R := if Rlt_dec 0 x then 1 else if Rlt_dec x 0 then -1 else 0.
Fixpoint pairs {A} (l : list A) : list (A * A) := match l with [] => [] | a :: l => map (pair a) l ++ pairs l end.
Definition rsum (l : list R) : R := fold_right Rplus 0 l.
Definition over_pairs (f : R * R -> R * R -> R) (X : list (R * R)) : R := rsum (map (fun p => f (fst p) (snd p)) (pairs X)).
Definition kendalltau (X : list (R * R)) : num :=
  let con_minus_dis := over_pairs (fun p q => sgn (fst p - fst q) * sgn (snd p - snd q)) X in
  let x_untied := over_pairs (fun p q => if Req_EM_T (fst p) (fst q) then 0 else 1) X in
  let y_untied := over_pairs (fun p q => if Req_EM_T (snd p) (snd q) then 0 else 1) X in
  if Req_EM_T x_untied 0 then None else if Req_EM_T y_untied 0 then None
  else Some (con_minus_dis / sqrt x_untied / sqrt y_untied).

(** scipy.stats.rankdata: the average rank, from 1; _utils.py 52-83, compute_pseudo_observations, on one column. *)
Definition count (f : R -> bool) (l : list R) : R := INR (length (filter f l)).
Definition rank (l : list R) (x : R) : R :=
  count (fun y => if Rlt_dec y x then true else false) l + (count (fun y => if Req_EM_T y x then true else false) l + 1) / 2.
Definition pseudo_observations (l : list R) : list R := map (fun x => rank l x / (INR (length l) + 1)) l.

(** _utils.py 86-144, empirical_tail_concentration at one quantile. *)
Definition in_unit (x : R) : bool := if Rle_dec 0 x then if Rle_dec x 1 then true else false else false.
Definition compare (is_lower : bool) (x q : R) : bool :=
  if is_lower then (if Rle_dec x q then true else false) else (if Rle_dec q x then true else false).
Definition concentration (X : list (R * R)) (q : R) (is_lower : bool) : R :=
  let cond := filter (fun p => compare is_lower (fst p) q) X in
  let n := INR (length cond) in
  if Req_EM_T n 0 then n else INR (length (filter (fun p => compare is_lower (snd p) q) cond)) / n.
Definition empirical_tail_concentration (X : list (R * R)) (q : R) : outcome R :=
  if forallb (fun p => (in_unit (fst p) && in_unit (snd p))%bool) X then
    if in_unit q then Ok (if Rle_dec q (1/2) then concentration X q true else concentration X q false) else ValueError
  else ValueError.

(** _base.py 44-79, _validate_X on the whole array. *)
Fixpoint validate_rows (X : list (R * R)) : option (list (R * R)) :=
  match X with
  | [] => Some []
  | p :: X => match validate p, validate_rows X with Some q, Some Y => Some (q :: Y) | _, _ => None end
  end.
Definition validate_X (X : list (R * R)) : outcome (list (R * R)) :=
  match X with [] => ValueError | _ => match validate_rows X with Some Y => Ok Y | None => ValueError end end.

Inductive family := Gaussian | StudentT | Clayton | Gumbel | Joe | Independent.
(** The parameters of an estimator: [itau], [kendall_tau] (None unless given).  [IndependentCopula] has neither attribute. *)
Record copula := { fam : family; itau : bool; kendall_tau : option num }.
(** A fitted copula: its parameters (theta, rho, or dof and rho) and its rotation (R0 for the families without one). *)
Record fitted := { fam_ : family; params_ : list num; rotation_ : rotation }.
Inductive candidate := Copula (c : copula) | Other.       (* Other: not an instance of BaseBivariateCopula *)
Inductive criterion := AIC | BIC.

(** _clayton.py 27, _gumbel.py 27, _joe.py 29, _base.py 23, _student_t.py 22: the bounds. *)
Definition clayton_bounds : R * R := (1/10000, 50).
Definition gumbel_bounds : R * R := (10001/10000, 80).
Definition joe_bounds : R * R := (1005/1000, 20).
Definition rho_bounds : R * R := (-999/1000, 999/1000).
Definition dof_bounds : R * R := (2, 50).
(** _n_params of each class. *)
Definition n_params (f : family) : R := match f with Independent => 0 | StudentT => 2 | _ => 1 end.
(** The values of CopulaRotation in the order of the enumeration. *)
Definition rotations : list rotation := [R0; R90; R180; R270].

(** _clayton.py 201-209 and _gumbel.py 208-215: theta from Kendall's tau. *)
Definition abs_tau (tau : num) : num := nmin (option_map Rabs tau) (Some (9999/10000)).
Definition clayton_theta_of (tau : num) : num :=
  nclip (fst clayton_bounds) (snd clayton_bounds) (option_map (fun a => 2 * a / (1 - a)) (abs_tau tau)).
Definition gumbel_theta_of (tau : num) : num :=
  nclip (fst gumbel_bounds) (snd gumbel_bounds) (option_map (fun a => 1 / (1 - a)) (abs_tau tau)).
(** _gaussian.py 174-178 and _student_t.py 202-206. *)
Definition rho_of (tau : num) : num := nclip (fst rho_bounds) (snd rho_bounds) (option_map (fun t => sin (PI * t / 2)) tau).

Section Fit.
(** The p-value of scipy.stats.kendalltau. *)
Variable p_value : list (R * R) -> num.
(** The log-density of the Gaussian copula at (u, v) and of the Student t copula; None when it is NaN. *)
Variable gaussian_score : R -> R * R -> num.
Variable student_score : R -> R -> R * R -> num.
(** scipy's minimize_scalar(method="bounded"): None when success is False, otherwise the pair (fun, x). *)
Variable minimize_scalar : (R -> num) -> R * R -> option (num * R).
(** scipy's minimize(method="L-BFGS-B") from the starting point (3, rho). *)
Variable minimize : (R -> R -> num) -> num -> R * R -> R * R -> option (R * R).
(** scipy's brentq and digamma; the constant of Euler. *)
Variable brentq : (R -> R) -> R -> R -> R.
Variable digamma : R -> R.
Variable euler_gamma : R.

(** _base_sample_scores of each family on one row. *)
Definition base_score (f : family) (params : list num) (p : R * R) : num :=
  match f, params with
  | Gaussian, [Some rho] => gaussian_score rho p
  | StudentT, [Some dof; Some rho] => student_score dof rho p
  | Clayton, [Some theta] => Some (clayton_score theta (fst p) (snd p))
  | Gumbel, [Some theta] => Some (gumbel_score theta (fst p) (snd p))
  | Joe, [Some theta] => Some (joe_score theta (fst p) (snd p))
  | Independent, [] => Some 0
  | _, _ => None
  end.
(** _neg_log_likelihood of each family: _clayton.py 395-413 and the others. *)
Definition neg_log_likelihood (f : family) (params : list num) (X : list (R * R)) : num :=
  option_map Ropp (nsum (map (base_score f params) X)).

(** _utils.py 237-269, _select_rotation_itau. *)
Definition select_rotation_itau (f : family) (X : list (R * R)) (theta : num) : rotation :=
  let result r := (r, neg_log_likelihood f [theta] (map (rotate r) X)) in
  match map result rotations with [] => R0 | best :: l => least best l end.

(** _utils.py 272-338, _select_theta_and_rotation_mle: RuntimeError when the optimisation fails for all the rotations. *)
Definition mle_results (f : family) (X : list (R * R)) (bounds : R * R) : list ((R * rotation) * num) :=
  flat_map (fun r => match minimize_scalar (fun theta => neg_log_likelihood f [Some theta] (map (rotate r) X)) bounds with
                     | Some (v, theta) => [((theta, r), v)]
                     | None => []
                     end) rotations.
Definition select_theta_and_rotation_mle (f : family) (X : list (R * R)) (bounds : R * R) : outcome (R * rotation) :=
  match mle_results f X bounds with [] => RuntimeError | best :: l => Ok (least best l) end.

(** _joe.py 476-507, _tau_diff, and 213-231. *)
Definition tau_diff (theta tau : R) : R := 1 + 2 / (2 - theta) * ((1 - euler_gamma) - digamma (2 / theta + 1)) - tau.
Definition joe_theta_of (tau : num) : num :=
  match option_map Rabs tau with
  | None => None                          (* the tests on NaN fail and brentq gives NaN or raises *)
  | Some a =>
      let fa := tau_diff (fst joe_bounds) a in
      let fb := tau_diff (snd joe_bounds) a in
      if Rlt_dec 0 (fa * fb) then (if Rlt_dec (Rabs fa) (Rabs fb) then Some (fst joe_bounds) else Some (snd joe_bounds))
      else Some (brentq (fun theta => tau_diff theta a) (fst joe_bounds) (snd joe_bounds))
  end.

(** kendall_tau: the attribute if it was given, else computed on the validated data. *)
Definition tau_used (c : copula) (X : list (R * R)) : num := match kendall_tau c with Some t => t | None => kendalltau X end.

(** An Archimedean family: _clayton.py 193-224, _gumbel.py 200-225, _joe.py 204-241. *)
Definition fit_archimedean (c : copula) (theta_of : num -> num) (bounds : R * R) (X : list (R * R)) : outcome fitted :=
  if itau c then
    let theta := theta_of (tau_used c X) in
    Ok {| fam_ := fam c; params_ := [theta]; rotation_ := select_rotation_itau (fam c) X theta |}
  else bind (select_theta_and_rotation_mle (fam c) X bounds) (fun best =>
    Ok {| fam_ := fam c; params_ := [Some (fst best)]; rotation_ := snd best |}).

(** The fit methods. *)
Definition fit (c : copula) (X : list (R * R)) : outcome fitted :=
  bind (validate_X X) (fun X =>
  match fam c with
  | Clayton => fit_archimedean c clayton_theta_of clayton_bounds X
  | Gumbel => fit_archimedean c gumbel_theta_of gumbel_bounds X
  | Joe => fit_archimedean c joe_theta_of joe_bounds X
  | Gaussian =>                                                        (* _gaussian.py 167-191 *)
      if itau c then Ok {| fam_ := Gaussian; params_ := [rho_of (tau_used c X)]; rotation_ := R0 |}
      else match minimize_scalar (fun rho => neg_log_likelihood Gaussian [Some rho] X) rho_bounds with
           | Some (_, rho) => Ok {| fam_ := Gaussian; params_ := [Some rho]; rotation_ := R0 |}
           | None => RuntimeError
           end
  | StudentT =>                                                        (* _student_t.py 194-242 *)
      let rho_from_tau := rho_of (tau_used c X) in
      if itau c then
        if match rho_from_tau with None => true | _ => false end then ValueError else    (* the likelihood raises on NaN *)
        match minimize_scalar (fun dof => neg_log_likelihood StudentT [Some dof; rho_from_tau] X) dof_bounds with
        | Some (_, dof) => Ok {| fam_ := StudentT; params_ := [Some dof; rho_from_tau]; rotation_ := R0 |}
        | None => RuntimeError
        end
      else match minimize (fun dof rho => neg_log_likelihood StudentT [Some dof; Some rho] X) rho_from_tau dof_bounds rho_bounds with
           | Some (dof, rho) => Ok {| fam_ := StudentT; params_ := [Some dof; Some rho]; rotation_ := R0 |}
           | None => RuntimeError
           end
  | Independent => Ok {| fam_ := Independent; params_ := []; rotation_ := R0 |}   (* _independent.py 51-71 *)
  end).

(** score_samples and score: distribution/_base.py 108-124 and _clayton.py 346-369 (the data are validated, then rotated).  The
    Gaussian and Student t scores raise ValueError when rho is NaN (_gaussian.py 398-399). *)
Definition score (m : fitted) (X : list (R * R)) : outcome num :=
  bind (validate_X X) (fun X =>
  match fam_ m, params_ m with
  | Gaussian, [None] | StudentT, [_; None] => ValueError
  | f, params => Ok (nsum (map (base_score f params) (map (rotate (rotation_ m)) X)))
  end).
(** distribution/_base.py 126-162 and 164-203, aic and bic. *)
Definition value (cr : criterion) (m : fitted) (X : list (R * R)) : outcome num :=
  bind (score m X) (fun log_likelihood =>
  Ok (match cr with
      | AIC => option_map (fun l => 2 * (n_params (fam_ m) - l)) log_likelihood
      | BIC => option_map (fun l => -2 * l + n_params (fam_ m) * ln (INR (length X))) log_likelihood
      end)).

(** _selection.py 71-78: the default candidates. *)
Definition default (f : family) : candidate := Copula {| fam := f; itau := true; kendall_tau := None |}.
Definition default_candidates : list candidate := map default [Gaussian; StudentT; Clayton; Gumbel; Joe].

(** _selection.py 90-108: the loop over the candidates; the results in order. *)
Fixpoint evaluate (cr : criterion) (tau : num) (X : list (R * R)) (l : list candidate) : outcome (list (fitted * num)) :=
  match l with
  | [] => Ok []
  | Other :: _ => ValueError
  | Copula c :: l =>
      match fam c with
      | Independent => AttributeError                                  (* IndependentCopula has no attribute itau *)
      | _ =>
          let c := match itau c, kendall_tau c with
                   | true, None => {| fam := fam c; itau := true; kendall_tau := Some tau |}
                   | _, _ => c
                   end in
          bind (fit c X) (fun m => bind (value cr m X) (fun v => bind (evaluate cr tau X l) (fun results => Ok ((m, v) :: results))))
      end
  end.

(** _selection.py 23-111, select_bivariate_copula. *)
Definition select_bivariate_copula (X : list (R * R)) (copula_candidates : option (list candidate)) (cr : criterion)
    (independence_level : R) : outcome fitted :=
  let candidates := match copula_candidates with Some l => l | None => default_candidates end in
  let tau := kendalltau X in
  if negb (match p_value X with Some p => if Rle_dec independence_level p then true else false | None => false end) then
    bind (evaluate cr tau X candidates) (fun results =>
    match results with [] => ValueError | best :: l => Ok (least best l) end)
  else fit {| fam := Independent; itau := false; kendall_tau := None |} X.
End Fit.

(** univariate/_selection.py 19-85, select_univariate_dist: the distributions, their fit and their log-likelihood are parameters; [None]
    in the list is a candidate of another class. *)
Section Univariate.
Context {dist model : Type}.
Variable fit_dist : dist -> list R -> outcome model.
Variable log_likelihood : model -> list R -> num.
Variable n_params_dist : model -> R.
Definition dist_value (cr : criterion) (m : model) (X : list R) : num :=
  match cr with
  | AIC => option_map (fun l => 2 * (n_params_dist m - l)) (log_likelihood m X)
  | BIC => option_map (fun l => -2 * l + n_params_dist m * ln (INR (length X))) (log_likelihood m X)
  end.
Fixpoint evaluate_dist (cr : criterion) (X : list R) (l : list (option dist)) : outcome (list (model * num)) :=
  match l with
  | [] => Ok []
  | None :: _ => ValueError
  | Some d :: l => bind (fit_dist d X) (fun m => bind (evaluate_dist cr X l) (fun results => Ok ((m, dist_value cr m X) :: results)))
  end.
Definition select_univariate_dist (X : list R) (candidates : list (option dist)) (cr : criterion) : outcome model :=
  bind (evaluate_dist cr X candidates) (fun results => match results with [] => ValueError | best :: l => Ok (least best l) end).
End Univariate.
