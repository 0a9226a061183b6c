(** Model of the expected-return estimators: ShrunkMu.fit, moments/expected_returns/_shrunk_mu.py lines 180-240, EquilibriumMu.fit,
    _equilibrium_mu.py lines 108-131.  No proofs here.  Numbers are an arbitrary ordered field (rounding not modelled); vectors are columns;
    T observations of n assets.  The fitted covariance and np.linalg.eigvals are parameters. *)
From mathcomp Require Import all_ssreflect all_algebra.
Set Implicit Arguments.
Unset Strict Implicit.
Unset Printing Implicit Defensive.
Import Order.TTheory GRing.Theory Num.Theory.
Local Open Scope ring_scope.

Inductive shrinkage := JamesStein | BayesStein | BodnarOkhrin.
(** LinAlgError from np.linalg.inv; ZeroDivisionError (Python integers); NotFinite: a numpy division by zero, the result holds NaN or inf *)
Inductive mu_error := SingularMatrix | ZeroDivision | NotFinite.
Section Mu.
Variable F : realFieldType.
Variables T n : nat.
Record shrunk := { mu_ : 'cV[F]_n; mu_target_ : 'cV[F]_n; alpha_ : F; beta_ : F }.
(** line 200 *)
Definition sample_mu (X : 'M[F]_(T, n)) : 'cV[F]_n := \col_i ((\sum_t X t i) / T%:R).
Definition inverse (S : 'M[F]_n) : mu_error + 'M[F]_n := if S \in unitmx then inr (invmx S) else inl SingularMatrix.
Definition divide (x y : F) : mu_error + F := if y == 0 then inl NotFinite else inr (x / y).
Definition bind (A B : Type) (x : mu_error + A) (f : A -> mu_error + B) : mu_error + B := match x with inl e => inl e | inr a => f a end.
(** u' M v *)
Definition bil (M : 'M[F]_n) (u v : 'cV[F]_n) : F := (u^T *m M *m v) 0 0.
(** lines 204-209 *)
Definition target (vol_weighted : bool) (S : 'M[F]_n) (m : 'cV[F]_n) : mu_error + 'cV[F]_n :=
  if vol_weighted
  then bind (inverse S) (fun Si => bind (divide (\sum_i (\sum_j Si i j) * m i 0) (\sum_i \sum_j Si i j)) (fun x => inr (const_mx x)))
  else bind (divide (\sum_i m i 0) n%:R) (fun x => inr (const_mx x)).
Definition largest (e : seq F) : F := foldr Order.max (head 0 e) e.
(** lines 212-238 *)
Definition intensities (method : shrinkage) (eigvals : 'M[F]_n -> seq F) (S : 'M[F]_n) (m t : 'cV[F]_n) : mu_error + (F * F) :=
  match method with
  | JamesStein =>
      bind (divide (\sum_(x <- eigvals S) x - 2%:R * largest (eigvals S)) (\sum_i (m i 0 - t i 0) ^+ 2)) (fun q =>
      bind (divide q T%:R) (fun b => inr (1 - b, b)))
  | BayesStein =>
      bind (inverse S) (fun Si =>
      bind (divide (n + 2)%:R (T%:R * bil Si (m - t) (m - t) + (n + 2)%:R)) (fun b => inr (1 - b, b)))
  | BodnarOkhrin =>
      bind (inverse S) (fun Si =>
      let u := bil Si m m in let v := bil Si m t in let w := bil Si t t in
      if T == n then inl ZeroDivision else
      bind (divide ((u - n%:R / (T%:R - n%:R)) * w - v ^+ 2) (u * w - v ^+ 2)) (fun a =>
      bind (divide ((1 - a) * v) u) (fun b => inr (a, b))))
  end.
Definition shrunk_mu (method : shrinkage) (vol_weighted : bool) (eigvals : 'M[F]_n -> seq F) (S : 'M[F]_n) (X : 'M[F]_(T, n)) : mu_error + shrunk :=
  let m := sample_mu X in
  bind (target vol_weighted S m) (fun t =>
  bind (intensities method eigvals S m t) (fun ab =>
  inr {| mu_ := ab.1 *: m + ab.2 *: t; mu_target_ := t; alpha_ := ab.1; beta_ := ab.2 |})).
(** EquilibriumMu.fit: _equilibrium_mu.py lines 125-130 *)
Definition equilibrium_mu (risk_aversion : F) (weights : option 'cV[F]_n) (S : 'M[F]_n) : 'cV[F]_n :=
  risk_aversion *: (S *m (if weights is Some w then w else const_mx n%:R^-1)).
End Mu.
