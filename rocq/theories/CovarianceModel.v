(** Model of utils/stats.py (cov_to_corr 256-277, corr_to_cov 280-301, cov_nearest 307-390), moments/covariance/_base.py (_sanity_check,
    _set_covariance 75-113), _denoise_covariance.py (fit 107-183), _detone_covariance.py (fit 109-159) and prior/_factor_model.py (fit
    225-316).  No proofs here.  Numbers are a real closed field (square roots exist), so rounding is not modelled.  np.linalg.eigh,
    np.linalg.cholesky and the positive-definiteness test (cholesky succeeds and eigenvalues positive, stats.py 169-205) are parameters.
    A matrix with a NaN or infinite entry is [Undefined]: the code then raises in eigh/cholesky or returns NaNs. *)
From mathcomp Require Import all_ssreflect all_algebra.
Set Implicit Arguments.
Unset Strict Implicit.
Unset Printing Implicit Defensive.
Import Order.TTheory GRing.Theory Num.Theory.
Local Open Scope ring_scope.

Inductive cov_error := Undefined | NotSymmetric | NoNearest | NonPositiveVariance | NotPositiveDefinite.
Section Covariance.
Variable F : rcfType.
Variable n : nat.
Notation mat := 'M[F]_n.
Notation vec := 'rV[F]_n.

(** stats.py 273-277; a zero or negative variance makes entries NaN or infinite *)
Definition cov_to_corr (cov : mat) : option (mat * vec) :=
  let std := \row_i Num.sqrt (cov i i) in
  if [forall i, 0 < cov i i] then Some (\matrix_(i, j) (cov i j / std 0 j / std 0 i), std) else None.
(** stats.py 299-301 *)
Definition corr_to_cov (corr : mat) (std : vec) : mat := \matrix_(i, j) (corr i j * std 0 j * std 0 i).
(** eig_vecs * values @ eig_vecs.T *)
Definition recompose (vals : vec) (vecs : mat) : mat := (\matrix_(i, j) (vecs i j * vals 0 j)) *m vecs^T.

Variable eigh : mat -> vec * mat.
Variable is_pd : mat -> bool.
Definition floor_values (eps : F) (vals : vec) : vec := \row_i Num.max (vals 0 i) eps.
(** np.fill_diagonal(x, 1) *)
Definition unit_diagonal (x : mat) : mat := \matrix_(i, j) (if i == j then 1 else x i j).
(** stats.py 366-380: [it] iterations left *)
Fixpoint higham_loop (eps : F) (std : vec) (it : nat) (x diff : mat) : cov_error + mat :=
  match it with
  | 0 => inl NoNearest
  | it'.+1 =>
      let x_adj := x - diff in
      let e := eigh x_adj in
      let x1 := recompose (floor_values eps e.1) e.2 in
      let diff1 := x1 - x_adj in
      let x2 := unit_diagonal x1 in
      let cov := corr_to_cov x2 std in
      if is_pd cov then inr cov else higham_loop eps std it' x2 diff1
  end.
(** cov_nearest; [eps_clip] is _CLIPPING_VALUE (1e-13), [eps_higham] is 5 machine epsilons.  The symmetry test is exact here
    (np.allclose in the code). *)
Definition cov_nearest (eps_clip eps_higham : F) (higham : bool) (max_iter : nat) (cov : mat) : cov_error + mat :=
  if ~~ [forall i, forall j, cov i j == cov j i] then inl NotSymmetric else
  if is_pd cov then inr cov else
  match cov_to_corr cov with
  | None => inl Undefined
  | Some (corr, std) =>
      if higham then higham_loop eps_higham std max_iter corr 0
      else
        let e := eigh corr in
        match cov_to_corr (recompose (floor_values eps_clip e.1) e.2) with
        | None => inl Undefined
        | Some (x, _) => inr (corr_to_cov x std)
        end
  end.
(** _base.py 75-113 *)
Definition set_covariance (tiny eps_clip eps_higham : F) (nearest higham : bool) (max_iter : nat) (cov : mat) : cov_error + mat :=
  if [exists i, cov i i < tiny] then inl NonPositiveVariance
  else if nearest then cov_nearest eps_clip eps_higham higham max_iter cov else inr cov.

(** e_val[indices], e_vec[:, indices] with indices = argsort()[::-1]: eigh returns ascending values, so this reverses the order *)
Definition descending (e : vec * mat) : vec * mat := (\row_i e.1 0 (rev_ord i), \matrix_(i, j) e.2 i (rev_ord j)).
(** _denoise_covariance.py 171-183; [threshold] is the fitted Marchenko-Pastur edge var * (1 + sqrt(1/q))^2 *)
Definition n_facts (threshold : F) (vals : vec) : nat := (n - #|[pred i | (vals 0 i < threshold)%R]|)%N.
Definition averaged (m : nat) (vals : vec) : vec :=
  \row_i (if (i < m)%N then vals 0 i else (\sum_(j < n | (m <= j)%N) vals 0 j) / (n - m)%:R).
Definition rescale (x : mat) (std : vec) : cov_error + mat :=
  match cov_to_corr x with None => inl Undefined | Some (c, _) => inr (corr_to_cov c std) end.
Definition denoise (threshold : F) (cov : mat) : cov_error + mat :=
  match cov_to_corr cov with
  | None => inl Undefined
  | Some (corr, std) =>
      let e := descending (eigh corr) in
      rescale (e.2 *m diag_mx (averaged (n_facts threshold e.1) e.1) *m (e.2)^T) std
  end.
(** _detone_covariance.py 146-157 *)
Definition first_columns (m : nat) (vecs : mat) : mat := \matrix_(i, j) (if (j < m)%N then vecs i j else 0).
Definition first_values (m : nat) (vals : vec) : vec := \row_i (if (i < m)%N then vals 0 i else 0).
Definition detone (n_markets : nat) (cov : mat) : cov_error + mat :=
  match cov_to_corr cov with
  | None => inl Undefined
  | Some (corr, std) =>
      let e := descending (eigh corr) in
      (* the sliced product of the first columns, written with the other columns set to zero *)
      let market := first_columns n_markets e.2 *m diag_mx (first_values n_markets e.1) *m (first_columns n_markets e.2)^T in
      rescale (corr - market) std
  end.
Definition and_set (set : mat -> cov_error + mat) (r : cov_error + mat) : cov_error + mat :=
  match r with inl e => inl e | inr c => set c end.
Definition denoise_fit set (threshold : F) (cov : mat) := and_set set (denoise threshold cov).
Definition detone_fit set (n_markets : nat) (cov : mat) := and_set set (detone n_markets cov).

(** * Factor model *)
Variables f T : nat.                      (* factors, observations *)
Record factor_fit (rv : bool) := {
  fm_mu : 'cV[F]_n;
  fm_cov : mat;
  fm_returns : 'M[F]_(T, n);
  fm_cholesky : 'M[F]_(n, if rv then (f + n)%N else f) }.
Variable cholesky : 'M[F]_f -> option 'M[F]_f.   (* None: LinAlgError *)
(** np.var(err, ddof=1, axis=0) *)
Definition column_mean (err : 'M[F]_(T, n)) (i : 'I_n) : F := (\sum_(t < T) err t i) / T%:R.
Definition column_var (err : 'M[F]_(T, n)) (i : 'I_n) : F := (\sum_(t < T) (err t i - column_mean err i) ^+ 2) / (T - 1)%:R.
(** factor_returns @ loading_matrix.T + intercepts *)
Definition predicted (loading : 'M[F]_(n, f)) (intercepts : 'cV[F]_n) (y : 'M[F]_(T, f)) : 'M[F]_(T, n) :=
  \matrix_(t, i) ((y *m loading^T) t i + intercepts i 0).
(** lines 287-316; [factor_*] is the fitted factor prior, X and y the data, [nearest] the call of cov_nearest *)
Definition factor_model (nearest : mat -> cov_error + mat) (rv : bool) (loading : 'M[F]_(n, f)) (intercepts : 'cV[F]_n)
    (factor_mu : 'cV[F]_f) (factor_cov : 'M[F]_f) (factor_returns : 'M[F]_(T, f)) (X : 'M[F]_(T, n)) (y : 'M[F]_(T, f)) :
    cov_error + factor_fit rv :=
  let mu := loading *m factor_mu + intercepts in
  let covariance := loading *m factor_cov *m loading^T in
  let returns := predicted loading intercepts factor_returns in
  match cholesky factor_cov with
  | None => inl NotPositiveDefinite
  | Some c =>
      let chol := loading *m c in
      let err := X - predicted loading intercepts y in
      let err_cov := \matrix_(i, j) (if i == j then column_var err i else 0) in
      match nearest (if rv then covariance + err_cov else covariance) with
      | inl e => inl e
      | inr cov =>
          inr {| fm_mu := mu; fm_cov := cov; fm_returns := returns;
                 fm_cholesky := (if rv as b return 'M[F]_(n, if b then (f + n)%N else f)
                                 then row_mx chol (\matrix_(i, j) Num.sqrt (err_cov i j)) else chol) |}
      end
  end.
End Covariance.
