(** Model of [optimal_block_size] and of the default block size of
    [stationary_bootstrap] (src/skfolio/utils/bootstrap.py 14-118).

    Simplifications: numbers are reals.  Division by zero of numpy is kept: its
    result is infinite or NaN, and NaN propagates to the result.  Rounding and
    overflow are not modelled. *)
From Coq Require Import List ZArith Bool Arith Reals.
From Verif Require Import RList ReturnsModel.
Import ListNotations.
Local Open Scope R_scope.

(** what [optimal_block_size] gives: an exception, NaN or a number *)
Inductive outcome := Raises | NaN | Num (b : R).

(** ** numpy *)
(** [np.ceil] *)
Definition ceil (r : R) : Z := (- Int_part (- r))%Z.
(** [np.log10] of a positive number, and [int()] of a non-negative one *)
Definition log10 (r : R) : R := ln r / ln 10.
Definition to_int (r : R) : nat := Z.to_nat (Int_part r).
(** [x[i:]] for a non-negative i, and [x[:z]] for any integer z *)
Definition from (i : nat) (x : list R) : list R := skipn i x.
Definition upto (z : Z) (x : list R) : list R :=
  if (z <? 0)%Z then firstn (Z.to_nat (Z.of_nat (length x) + z)) x else firstn (Z.to_nat z) x.
(** [a @ b] of two vectors; None: ValueError, the lengths differ *)
Definition matmul (a b : list R) : option R :=
  if (length a =? length b)%nat then Some (rsum (map (fun p => fst p * snd p) (combine a b))) else None.
(** [x ** (1 / 3)] of a non-negative number *)
Definition cube_root (x : R) : R := if Req_EM_T x 0 then 0 else Rpower x (1 / 3).

(** ** lines 36-37, 39-41 *)
Definition deviations (x : list R) : list R := map (fun v => v - rsum x / INR (length x)) x.
Definition kn_of (n : nat) : nat := Nat.max 5 (to_int (log10 (INR n))).
Definition m_max_of (n : nat) : nat := (Z.to_nat (ceil (sqrt (INR n))) + kn_of n)%nat.
Definition cv_of (n : nat) : R := 2 * sqrt (log10 (INR n) / INR n).
(** line 38 *)
Definition b_max_of (n : nat) : R := IZR (ceil (Rmin (3 * sqrt (INR n)) (INR n / 3))).

(** ** lines 45-50, one lag: the autocovariance and whether [abs_acorr[i] < cv].  With a null [v1 * v2]
    the quotient is infinite or NaN and the comparison is False. *)
Definition lag (n : nat) (eps : list R) (i : nat) : option (R * bool) :=
  match matmul (from (i + 1) eps) (from (i + 1) eps),
        matmul (upto (- Z.of_nat (i + 1)) eps) (upto (- Z.of_nat (i + 1)) eps),
        matmul (from i eps) (upto (Z.of_nat n - Z.of_nat i) eps) with
  | Some v1, Some v2, Some cross_prod =>
      Some (cross_prod / INR n,
            if Rlt_dec 0 (v1 * v2) then if Rlt_dec (Rabs cross_prod / sqrt (v1 * v2)) (cv_of n) then true else false else false)
  | _, _, _ => None
  end.
(** the loop of lines 45-50: an exception in an iteration ends it *)
Fixpoint lags (n : nat) (eps : list R) (is : list nat) : option (list (R * bool)) :=
  match is with
  | [] => Some []
  | i :: is => match lag n eps i with
               | None => None
               | Some l => match lags n eps is with None => None | Some ls => Some (l :: ls) end
               end
  end.
(** lines 51-53: the first i in kn, ..., m_max with the kn lags before i below the critical value *)
Definition opt_m (kn m_max : nat) (small : nat -> bool) : option nat :=
  match find (fun i => forallb small (seq (i - kn) kn)) (seq kn (m_max + 1 - kn)) with
  | Some i => Some (i - kn)%nat
  | None => None
  end.
(** lines 54-55 *)
Definition m_of (opt : option nat) (m_max : nat) : nat :=
  Nat.min (match opt with Some o => 2 * Nat.max o 1 | None => m_max end) m_max.
(** line 59 *)
Definition lam (m k : nat) : R := if Rle_dec (INR k / INR m) (1 / 2) then 1 else 2 * (1 - INR k / INR m).
(** lines 56-61 *)
Definition g_of (acv : nat -> R) (m : nat) : R := rsum (map (fun k => 2 * lam m k * INR k * acv k) (seq 1 m)).
Definition lr_acv_of (acv : nat -> R) (m : nat) : R := acv 0%nat + rsum (map (fun k => 2 * lam m k * acv k) (seq 1 m)).
(** lines 62-65.  [(2 * g**2) / d] with a null d is NaN if g is null and infinite otherwise; Python's [min(b, b_max)] is b when b
    is NaN. *)
Definition block (n : nat) (g lr_acv : R) : outcome :=
  let d := 2 * lr_acv ^ 2 in
  if Req_EM_T d 0 then if Req_EM_T (2 * g ^ 2) 0 then NaN else Num (b_max_of n)
  else Num (Rmin (cube_root (2 * g ^ 2 / d) * cube_root (INR n)) (b_max_of n)).

(** ** [optimal_block_size], lines 14-65.  An empty series raises ([int(-inf)], line 39). *)
Definition optimal_block_size (x : list R) : outcome :=
  let n := length x in
  if (n =? 0)%nat then Raises else
  let eps := deviations x in
  let kn := kn_of n in
  let m_max := m_max_of n in
  match lags n eps (seq 0 (m_max + 1)) with
  | None => Raises
  | Some ls =>
      let acv := fun i => fst (nth i ls (0, false)) in
      let small := fun i => snd (nth i ls (0, false)) in
      let m := m_of (opt_m kn m_max small) m_max in
      block n (g_of acv m) (lr_acv_of acv m)
  end.

(** ** lines 103-106: [np.median] of the block sizes; NaN if one of them is NaN *)
Fixpoint insert (v : R) (l : list R) : list R :=
  match l with [] => [v] | a :: r => if Rle_dec v a then v :: l else a :: insert v r end.
Definition sorted (l : list R) : list R := fold_right insert [] l.
Definition median (l : list R) : R :=
  let s := sorted l in
  let n := length l in
  (nth ((n - 1) / 2) s 0 + nth (n / 2) s 0) / 2.
Fixpoint median_outcome (done : list R) (l : list outcome) : outcome :=
  match l with
  | [] => Num (median (rev done))
  | Raises :: _ => Raises
  | NaN :: r => match median_outcome done r with Raises => Raises | _ => NaN end
  | Num b :: r => median_outcome (b :: done) r
  end.
Definition column (returns : list (list R)) (j : nat) : list R := map (fun row => nth j row 0) returns.
Definition default_block_size (n_assets : nat) (returns : list (list R)) : outcome :=
  median_outcome [] (map (fun j => optimal_block_size (column returns j)) (seq 0 n_assets)).
(** line 111, [u >= 1.0 / block_size]: False when the block size is NaN or null (1 / 0 is infinite) *)
Definition continues (block_size : outcome) (u : R) : bool :=
  match block_size with
  | Num b => if Req_EM_T b 0 then false else if Rle_dec (1 / b) u then true else false
  | _ => false
  end.
(** ** [stationary_bootstrap] with its default block size, lines 99-118; the draws are those of [ReturnsModel] *)
Definition bootstrap_default (n_assets : nat) (returns : list (list R)) (draws : list (list nat * list R))
  : option (list (list (option (list R)))) :=
  match default_block_size n_assets returns with
  | Raises => None
  | b => Some (map (fun d => sample (list R) returns (fst d) (map (continues b) (snd d))) draws)
  end.
