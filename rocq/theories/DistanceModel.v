(** Model of _corr_to_distance, distance/_distance.py lines 550-586, which PearsonDistance, KendallDistance, SpearmanDistance and
    CovarianceDistance apply to their correlation matrix.  No proofs here.  Numbers are reals; None is NaN.  np.power of a real base: an
    integer exponent is exact; a fractional one gives NaN on negative bases.  A negative or zero power is not modelled: NumPy raises on the
    integer bounds, or the scaler is infinite. *)
From Coq Require Import Reals List.
Import ListNotations.
Open Scope R_scope.

Inductive exponent := IntPower (k : nat) | FracPower (p : R).
Definition power (e : exponent) (x : R) : option R :=
  match e with
  | IntPower k => Some (x ^ k)
  | FracPower p => if Rlt_dec x 0 then None else if Req_EM_T x 0 then Some 0 else Some (Rpower x p)
  end.
(** Python's min of the bounds: NaN when the first one is *)
Definition min3 (a b c : option R) : option R :=
  match a, b, c with
  | Some a, Some b, Some c => Some (Rmin (Rmin a b) c)
  | _, _, _ => None
  end.
Definition clip01 (x : R) : R := if Rlt_dec x 0 then 0 else if Rlt_dec 1 x then 1 else x.
(** lines 578-586 *)
Definition codependence (absolute : bool) (e : exponent) (corr : R) : option R := power e (if absolute then Rabs corr else corr).
Definition scaler (absolute : bool) (e : exponent) : option R :=
  let b x := power e (if absolute then Rabs x else x) in
  match min3 (b (-1)) (b 0) (b 1) with
  | Some m => Some (1 / (1 - m))
  | None => None
  end.
Definition distance (absolute : bool) (e : exponent) (corr : R) : option R :=
  match scaler absolute e, codependence absolute e corr with
  | Some s, Some c => Some (sqrt (clip01 (s * (1 - c))))
  | _, _ => None
  end.
(** the matrix, entry by entry *)
Definition distance_matrix (absolute : bool) (e : exponent) (C : nat -> nat -> R) (i j : nat) : option R := distance absolute e (C i j).
