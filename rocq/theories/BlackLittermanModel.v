(** Model of BlackLitterman.fit, prior/_black_litterman.py lines 147-266, after the views have been turned into the picking matrix
    and the view values (that step, equations_to_matrix, is modelled in EquationsModel).  No proofs here.
    Numbers are an arbitrary ordered field; vectors are columns. *)
From mathcomp Require Import all_ssreflect all_algebra.
Set Implicit Arguments.
Unset Strict Implicit.
Unset Printing Implicit Defensive.
Import Order.TTheory GRing.Theory Num.Theory.
Local Open Scope ring_scope.

Inductive bl_error := InequalityViews | ConfidenceOutOfRange | SingularSystem.
Section BlackLitterman.
Variable F : realFieldType.
Variables n k : nat.                 (* assets, views *)
Record prior_model := { bl_mu : 'cV[F]_n; bl_cov : 'M[F]_n }.
(** np.diag(np.diag(m)) *)
Definition diagonal (m : 'M[F]_k) : 'M[F]_k := \matrix_(i, j) (if i == j then m i i else 0).
(** lines 224-232 *)
Definition default_omega (tau : F) (P : 'M[F]_(k, n)) (S : 'M[F]_n) : 'M[F]_k := diagonal (tau *: (P *m S *m P^T)).
(** lines 233-250: zero confidences become 1e-16 *)
Definition clean_confidence (c : F) : F := if c == 0 then (10 ^+ 16)^-1 else c.
Definition alpha (c : F) : F := (clean_confidence c)^-1 - 1.
Definition confidence_omega (tau : F) (conf : 'cV[F]_k) (P : 'M[F]_(k, n)) (S : 'M[F]_n) : 'M[F]_k :=
  diagonal (\matrix_(i, j) (tau * alpha (conf i 0) * (P *m S *m P^T) i j)).
Definition omega (tau : F) (conf : option 'cV[F]_k) (P : 'M[F]_(k, n)) (S : 'M[F]_n) : bl_error + 'M[F]_k :=
  match conf with
  | None => inr (default_omega tau P S)
  | Some c => if [exists i, (c i 0 < 0) || (1 < c i 0)] then inl ConfidenceOutOfRange else inr (confidence_omega tau c P S)
  end.
(** lines 252-263; np.linalg.solve raises on a singular matrix *)
Definition posterior (tau rf : F) (pm : prior_model) (P : 'M[F]_(k, n)) (q : 'cV[F]_k) (Om : 'M[F]_k) : bl_error + prior_model :=
  let v := tau *: (bl_cov pm *m P^T) in
  let a := P *m v + Om in
  let b := q - P *m bl_mu pm in
  if a \in unitmx
  then inr {| bl_mu := bl_mu pm + v *m (invmx a *m b) + const_mx rf;
              bl_cov := bl_cov pm + tau *: bl_cov pm - v *m (invmx a *m v^T) |}
  else inl SingularSystem.
(** fit: [has_inequality] when a view uses <= or >= *)
Definition bl_fit (has_inequality : bool) (tau rf : F) (conf : option 'cV[F]_k) (pm : prior_model) (P : 'M[F]_(k, n)) (q : 'cV[F]_k) : bl_error + prior_model :=
  if has_inequality then inl InequalityViews else
  match omega tau conf P (bl_cov pm) with
  | inl e => inl e
  | inr Om => posterior tau rf pm P q Om
  end.
End BlackLitterman.
(** The array the caller passed, after fit: line 234 takes it with np.asarray (no copy for a float array) and line 243 assigns into it. *)
Definition confidences_after (F : realFieldType) (k : nat) (c : 'cV[F]_k) : 'cV[F]_k := \col_i clean_confidence (c i 0).
