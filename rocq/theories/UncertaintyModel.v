(** Model of the uncertainty sets: src/skfolio/uncertainty_set/_empirical.py and
    _bootstrap.py (the [fit] methods), and of the expressions the convex
    optimisers build from them (optimization/convex/_base.py
    [_cvx_mu_uncertainty_set], [_worst_case_variance_risk]).

    Numbers are those of a real closed field.  The chi-squared quantile
    [st.chi2.ppf] is an input ([k] is its square root), [sc.linalg.sqrtm] is an
    input [Q] (the specification says what is expected of it), the prior model
    (covariance, mean, number of observations) and the bootstrap samples are
    inputs.  Overflow and rounding are not modelled. *)
From mathcomp Require Import all_ssreflect all_algebra.
Set Implicit Arguments.
Unset Strict Implicit.
Unset Printing Implicit Defensive.
Import Order.TTheory GRing.Theory Num.Theory.
Local Open Scope ring_scope.

Section Model.
Variable F : rcfType.

(** ** numpy *)
(** [np.diag(np.diag(a))] *)
Definition diag_part n (a : 'M[F]_n) : 'M[F]_n := \matrix_(i, j) (if i == j then a i i else 0).
(** [np.mean(x, axis=0)] of a T x n array, as a column *)
Definition mean_rows T n (x : 'M[F]_(T, n)) : 'cV[F]_n := \col_j ((\sum_t x t j) / T%:R).
(** [np.cov(x.T)] of a T x n array: observations in rows, divided by T - 1 *)
Definition np_cov T n (x : 'M[F]_(T, n)) : 'M[F]_n :=
  \matrix_(i, j) ((\sum_t (x t i - mean_rows x i 0) * (x t j - mean_rows x j 0)) / (T%:R - 1)).
(** Positions of an array of n * n cells: p = high * n + low. *)
Lemma high_subproof n (p : 'I_(n * n)) : (p %/ n < n)%N.
Proof. by case: n p => [|n] p; [case: p|rewrite ltn_divLR]. Qed.
Lemma low_subproof n (p : 'I_(n * n)) : (p %% n < n)%N.
Proof. by case: n p => [|n] p; [case: p|rewrite ltn_mod]. Qed.
Definition high n (p : 'I_(n * n)) : 'I_n := Ordinal (high_subproof p).
Definition low n (p : 'I_(n * n)) : 'I_n := Ordinal (low_subproof p).
(** [np.kron(a, b)] of square matrices *)
Definition kron n (a b : 'M[F]_n) : 'M[F]_(n * n) := \matrix_(p, q) (a (high p) (high q) * b (low p) (low q)).
(** [x.reshape(n**2, order="F")] and [cp.vec(x, order="F")] *)
Definition vec n (x : 'M[F]_n) : 'cV[F]_(n * n) := \col_p x (low p) (high p).
(** utils/stats.py 403-421 [commutation_matrix] of a square matrix: ones at (p, p // n + (p % n) * n)
    (general shapes: [ToolsModel.commutation]) *)
Definition commutation n : 'M[F]_(n * n) := \matrix_(p, q) ((q == p %/ n + (p %% n) * n :> nat)%N)%:R.
(** [cp.pnorm(x, 2)] *)
Definition norm2 n (x : 'cV[F]_n) : F := Num.sqrt (\sum_i x i 0 ^+ 2).

(** ** UncertaintySet (uncertainty_set/_base.py 20-46): the size and the shape *)
Record uncertainty_set n := UncertaintySet { size_k : F; shape : 'M[F]_n }.

(** ** EmpiricalMuUncertaintySet.fit, _empirical.py 116-136; [quantile] is st.chi2.ppf(confidence_level, n_assets) *)
Definition empirical_mu n (T : nat) (covariance : 'M[F]_n) (diagonal : bool) (quantile : F) : uncertainty_set n :=
  let k := Num.sqrt quantile in
  let sigma := (T%:R)^-1 *: covariance in
  UncertaintySet k (if diagonal then diag_part sigma else sigma).

(** ** EmpiricalCovarianceUncertaintySet.fit, _empirical.py 232-261 *)
Definition empirical_covariance n (T : nat) (covariance : 'M[F]_n) (diagonal : bool) (quantile : F) : uncertainty_set (n * n) :=
  let k := Num.sqrt quantile in
  let sigma := (T%:R)^-1 *: covariance in
  let sigma := if diagonal then diag_part sigma else sigma in
  UncertaintySet k (diag_part ((T%:R *: (1%:M + commutation n)) *m kron sigma sigma)).

(** ** BootstrapMuUncertaintySet.fit, _bootstrap.py 127-160: [samples b] is the b-th bootstrap sample *)
Definition bootstrap_mu n B T (samples : 'I_B -> 'M[F]_(T, n)) (mu : 'cV[F]_n) (diagonal : bool) (quantile : F) : uncertainty_set n :=
  let k := Num.sqrt quantile in
  let mus := \matrix_(b, j) mean_rows (samples b) j 0 in
  let sigma := np_cov (\matrix_(b, j) (mus b j - mu j 0)) in
  UncertaintySet k (if diagonal then diag_part sigma else sigma).

(** ** BootstrapCovarianceUncertaintySet.fit, _bootstrap.py 272-305.  The reshape of the
    three-dimensional array with order="F" runs over the sample index first, so that row b, column p
    of the result is [covs[b][p % n, p // n]]. *)
Definition bootstrap_covariance n B T (samples : 'I_B -> 'M[F]_(T, n)) (covariance : 'M[F]_n) (diagonal : bool) (quantile : F)
  : uncertainty_set (n * n) :=
  let k := Num.sqrt quantile in
  let covs := fun b => np_cov (samples b) in
  let sigma := np_cov (\matrix_(b, p) vec (covs b - covariance) p 0) in
  UncertaintySet k (if diagonal then diag_part sigma else sigma).

(** ** ConvexOptimization._cvx_mu_uncertainty_set, optimization/convex/_base.py 1186-1206; [Q] is sqrtm(sigma) *)
Definition mu_penalty n (u : uncertainty_set n) (Q : 'M[F]_n) (w : 'cV[F]_n) : F := size_k u * norm2 (Q *m w).
(** ** the expected return of the problem, optimization/convex/_mean_risk.py 875-882, without costs *)
Definition penalised_return n (mu : 'cV[F]_n) (u : uncertainty_set n) (Q : 'M[F]_n) (w : 'cV[F]_n) : F :=
  (mu^T *m w) 0 0 - mu_penalty u Q w.

(** ** ConvexOptimization._worst_case_variance_risk, optimization/convex/_base.py 1650-1702: the risk
    expression, and its constraints (symmetric variables x and y, and two semi-definite
    constraints multiplied by the positive number [scale]). *)
Definition worst_case_variance n (covariance : 'M[F]_n) (u : uncertainty_set (n * n)) (Q : 'M[F]_(n * n)) (x y : 'M[F]_n) : F :=
  size_k u * norm2 (Q *m (vec x + vec y)) + \tr (covariance *m (x + y)).
Definition semidefinite n (a : 'M[F]_n) : Prop := forall v : 'cV[F]_n, 0 <= (v^T *m a *m v) 0 0.
Definition worst_case_constraints n (scale : F) (w : 'cV[F]_n) (factor : F) (x y : 'M[F]_n) : Prop :=
  x^T = x /\ y^T = y /\
  semidefinite (scale *: row_mx (col_mx x w^T) (col_mx w (const_mx factor : 'M_1))) /\
  semidefinite (scale *: y).
End Model.
