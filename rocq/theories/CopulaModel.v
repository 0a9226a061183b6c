(* ------------------------------------------------------------------------ *)
(* Bivariate copulas: rotations, Clayton, Gumbel, Joe, Gaussian, Student t   *)
(* and independent copulas.                                                  *)
(*                                                                           *)
(* Models /repo/src/skfolio/distribution/copula/_utils.py,                   *)
(* _base.py, _clayton.py, _gumbel.py, _joe.py, _gaussian.py, _student_t.py   *)
(* and _independent.py.                                                      *)
(*                                                                           *)
(* Simplifications, valid for the whole file.  Floats are exact reals.       *)
(* np.power is Rpower, which agrees with it on a positive base; every base   *)
(* below is positive because of the clipping in [validate].  A row of X is   *)
(* a pair; functions that numpy evaluates row by row are given on one row,   *)
(* and the two Newton loops, whose stopping rule looks at every row, are     *)
(* given on the whole array.                                                 *)
(* ------------------------------------------------------------------------ *)
From Coq Require Import Reals List Lra.
Import ListNotations.
Open Scope R_scope.

(* _utils.py 30-60: class CopulaRotation *)
Inductive rotation := R0 | R90 | R180 | R270.

(* np.clip(x, lo, hi) *)
Definition clip (lo hi x : R) : R := Rmin hi (Rmax lo x).

(* _base.py 22: UNIFORM_MARGINAL_EPSILON = 1e-9 *)
Definition epsilon : R := 1 / 1000000000.

(* _base.py 44-79: BaseBivariateCopula._validate_X on one row; None models
   the ValueError raised when an entry is outside [0, 1] *)
Definition validate (X : R * R) : option (R * R) :=
  let (u, v) := X in
  if Rle_dec 0 u then if Rle_dec u 1 then
  if Rle_dec 0 v then if Rle_dec v 1 then
    Some (clip epsilon (1 - epsilon) u, clip epsilon (1 - epsilon) v)
  else None else None else None else None.

(* _utils.py 341-380: _apply_copula_rotation *)
Definition rotate (r : rotation) (X : R * R) : R * R :=
  let (u, v) := X in
  match r with
  | R0 => (u, v)
  | R90 => (v, 1 - u)
  | R180 => (1 - u, 1 - v)
  | R270 => (1 - v, u)
  end.

(* _utils.py 383-407: _apply_margin_swap (the code swaps when first_margin is
   True; its docstring says the opposite) *)
Definition margin_swap (X : R * R) (first_margin : bool) : R * R :=
  if first_margin then (snd X, fst X) else X.

(* _utils.py 410-448: _apply_rotation_cdf *)
Definition rotated_cdf (func : R * R -> R) (r : rotation) (X : R * R) : R :=
  let cdf := func (rotate r X) in
  match r with
  | R0 => cdf
  | R90 => snd X - cdf
  | R180 => fst X + snd X - 1 + cdf
  | R270 => fst X - cdf
  end.

(* _utils.py 451-509: _apply_rotation_partial_derivatives; used both for the
   partial derivative and for its inverse *)
Definition rotated_pd (func : R * R -> bool -> R) (r : rotation)
           (X : R * R) (first_margin : bool) : R :=
  let rX := rotate r X in
  match r with
  | R0 => func rX first_margin
  | R90 => if first_margin then func rX (negb first_margin)
           else 1 - func rX (negb first_margin)
  | R180 => 1 - func rX first_margin
  | R270 => if first_margin then 1 - func rX (negb first_margin)
            else func rX (negb first_margin)
  end.

(* A base function that starts with _apply_margin_swap and then computes [h]
   from the two columns: _clayton.py 461-498, _gumbel.py 464-507,
   _joe.py 517-546 and the inverses *)
Definition swapped (h : R -> R -> R) (X : R * R) (first_margin : bool) : R :=
  let X := margin_swap X first_margin in h (fst X) (snd X).

(* cdf / partial_derivative / inverse_partial_derivative / score_samples of
   a rotated copula: _clayton.py 227-247, 249-291, 293-344, 346-369 and the
   same methods of _gumbel.py and _joe.py *)
Definition method_cdf (C : R -> R -> R) (r : rotation) (X : R * R) : option R :=
  option_map (rotated_cdf (fun Y => C (fst Y) (snd Y)) r) (validate X).

Definition method_pd (h : R -> R -> R) (r : rotation) (X : R * R)
           (first_margin : bool) : option R :=
  option_map (fun Y => rotated_pd (swapped h) r Y first_margin) (validate X).

Definition method_score (score : R -> R -> R) (r : rotation) (X : R * R)
  : option R :=
  option_map (fun Y => let Z := rotate r Y in score (fst Z) (snd Z)) (validate X).

(* _base.py 242-270: sample; the random numbers are the input *)
Definition method_sample (hinv : R -> R -> R) (r : rotation) (X : R * R)
  : option (R * R) :=
  option_map (fun v => (fst X, v)) (method_pd hinv r X true).

(* _base.py 304-318: tail_concentration on one quantile in (0, 1) *)
Definition tail_concentration (C : R -> R -> R) (r : rotation) (q : R)
  : option R :=
  option_map (fun cdf => if Rle_dec q (1 / 2) then cdf / q
                         else (1 - 2 * q + cdf) / (1 - q))
             (method_cdf C r (q, q)).

(* ------------------------------------------------------------------------ *)
(* Clayton                                                                   *)
(* ------------------------------------------------------------------------ *)
(* _clayton.py 451-458: _base_cdf *)
Definition clayton_cdf (theta u v : R) : R :=
  Rpower (Rpower u (- theta) + Rpower v (- theta) - 1) (- 1 / theta).

(* _clayton.py 461-498: _base_partial_derivative, after the swap *)
Definition clayton_h (theta u v : R) : R :=
  let x := Rpower u (- theta) in
  let y := Rpower v theta in
  Rpower (1 + y * (x - 1)) (- (1 + 1 / theta)).

(* _clayton.py 501-539: _base_inverse_partial_derivative, after the swap *)
Definition clayton_hinv (theta p v : R) : R :=
  let x := Rpower p (- theta / (theta + 1)) in
  let y := Rpower v (- theta) in
  Rpower (1 + y * (x - 1)) (- 1 / theta).

(* _clayton.py 416-448: _base_sample_scores; np.log1p z = ln (1 + z) and
   np.expm1 z = exp z - 1 *)
Definition clayton_score (theta u v : R) : R :=
  let x := ln u in
  let y := ln v in
  ln (1 + theta)
  - (2 + 1 / theta) * ln (1 + ((exp (- theta * x) - 1) + (exp (- theta * y) - 1)))
  - (1 + theta) * (x + y).

(* _clayton.py 197-209: theta from Kendall's tau *)
Definition clayton_theta (tau : R) : R :=
  let a := Rmin (Rabs tau) (9999 / 10000) in
  clip (1 / 10000) 50 (2 * a / (1 - a)).

(* _clayton.py 371-385: tail dependence coefficients *)
Definition clayton_lower_tail (theta : R) (r : rotation) : R :=
  match r with R0 => Rpower 2 (- 1 / theta) | _ => 0 end.
Definition clayton_upper_tail (theta : R) (r : rotation) : R :=
  match r with R180 => Rpower 2 (- 1 / theta) | _ => 0 end.

(* ------------------------------------------------------------------------ *)
(* Gumbel                                                                    *)
(* ------------------------------------------------------------------------ *)
(* _gumbel.py 454-461: _base_cdf *)
Definition gumbel_cdf (theta u v : R) : R :=
  exp (- Rpower (Rpower (- ln u) theta + Rpower (- ln v) theta) (1 / theta)).

(* _gumbel.py 464-507: _base_partial_derivative, after the swap *)
Definition gumbel_h (theta u v : R) : R :=
  let x := - ln u in
  let y := - ln v in
  exp (- Rpower (Rpower x theta + Rpower y theta) (1 / theta))
  * Rpower (Rpower (x / y) theta + 1) (1 / theta - 1)
  / v.

(* _gumbel.py 422-451: _base_sample_scores *)
Definition gumbel_score (theta u v : R) : R :=
  let zu := - ln u in
  let zv := - ln v in
  let s := Rpower (Rpower zu theta + Rpower zv theta) (1 / theta) in
  let s := Rmax s (1 / 10000000000) in
  - s + ln (s + theta - 1) + (1 - 2 * theta) * ln s
  + (theta - 1) * ln (zu * zv) + (zu + zv).

(* _gumbel.py 552-553: one update of one row.  p and v already hold minus
   logarithms *)
Definition gumbel_target (theta p v : R) : R := v + p + ln v * (theta - 1).
Definition gumbel_step (theta s x : R) : R :=
  let x_new := x * (s - (theta - 1) * (ln x - 1)) / (theta + x - 1) in
  Rmax x_new x.

(* np.max(np.abs(x_new - x)) of a non-empty array; 0 when it is empty (numpy
   raises there, and validate_data has rejected such an array before) *)
Fixpoint max_abs_diff (xs ys : list R) : R :=
  match xs, ys with
  | x :: xs', y :: ys' => Rmax (Rabs (x - y)) (max_abs_diff xs' ys')
  | _, _ => 0
  end.

(* _gumbel.py 548-558 and _joe.py 590-605: the loop of at most [fuel] updates
   with a break when the largest change is below [tol] *)
Fixpoint newton_loop (step : list R -> list R) (tol : R) (fuel : nat)
         (xs : list R) : list R :=
  match fuel with
  | O => xs
  | S fuel' =>
      let xs_new := step xs in
      if Rlt_dec (max_abs_diff xs_new xs) tol then xs_new
      else newton_loop step tol fuel' xs_new
  end.

(* one pass of an elementwise update on columns of per-row constants *)
Fixpoint map2 {A B C : Type} (f : A -> B -> C) (l : list A) (m : list B)
  : list C :=
  match l, m with
  | a :: l', b :: m' => f a b :: map2 f l' m'
  | _, _ => []
  end.

Definition newton_tol : R := 1 / 100000000.

(* _gumbel.py 542-560: _base_inverse_partial_derivative; the rows have been
   swapped already *)
Definition gumbel_finish (theta v x : R) : R :=
  exp (- Rpower (Rpower x theta - Rpower v theta) (1 / theta)).

Definition gumbel_inverse (tol : R) (max_iters : nat) (theta : R)
           (X : list (R * R)) : list R :=
  let Z := map (fun pv => (- ln (fst pv), - ln (snd pv))) X in
  let ss := map (fun z => gumbel_target theta (fst z) (snd z)) Z in
  let vs := map snd Z in
  let xs := newton_loop (map2 (gumbel_step theta) ss) tol max_iters vs in
  map2 (gumbel_finish theta) vs xs.
Definition gumbel_hinv : R -> list (R * R) -> list R :=
  gumbel_inverse newton_tol 50.

(* _gumbel.py 376-391 *)
Definition gumbel_lower_tail (theta : R) (r : rotation) : R :=
  match r with R180 => 2 - Rpower 2 (1 / theta) | _ => 0 end.
Definition gumbel_upper_tail (theta : R) (r : rotation) : R :=
  match r with R0 => 2 - Rpower 2 (1 / theta) | _ => 0 end.

(* ------------------------------------------------------------------------ *)
(* Joe                                                                       *)
(* ------------------------------------------------------------------------ *)
(* _joe.py 510-514: _base_cdf *)
Definition joe_cdf (theta u v : R) : R :=
  let zu := Rpower (1 - u) theta in
  let zv := Rpower (1 - v) theta in
  1 - Rpower (zu + zv - zu * zv) (1 / theta).

(* _joe.py 517-546: _base_partial_derivative, after the swap *)
Definition joe_h (theta u v : R) : R :=
  let x := Rpower (1 - u) theta in
  let y := Rpower (1 - v) theta in
  Rpower (1 + x / y - x) (1 / theta - 1) * (1 - x).

(* _joe.py 439-473: _base_sample_scores *)
Definition joe_score (theta u v : R) : R :=
  let x := ln (1 + - u) in
  let y := ln (1 + - v) in
  let x_y := x + y in
  let d := exp (x * theta) + exp (y * theta) - exp (x_y * theta) in
  (1 / theta - 2) * ln d + x_y * (theta - 1) + ln (theta - 1 + d).

(* _joe.py 582-588: initial guess *)
Definition joe_start (theta p v : R) : R :=
  let y := Rpower (1 - v) theta in
  Rpower ((1 - v) * (Rpower (1 - p) (1 / theta - 1) - 1) / y + 1)
         (theta / (1 - theta)).

(* _joe.py 593-601: one update of one row *)
Definition joe_step (theta p y x : R) : R :=
  let k := (x - 1) * y in
  let w := Rpower ((1 / y - 1) * x + 1) (1 / theta) in
  let x_new := x - (theta * (k - x) * (p * (- k + x) + k * w))
                   / ((y - 1) * k - theta * y) / w in
  clip 0 1 x_new.

(* np.power(x, a) for a > 0, including the base 0 that the clipping of
   [joe_step] can produce *)
Definition npow (x a : R) : R := if Req_EM_T x 0 then 0 else Rpower x a.

(* _joe.py 574-608: _base_inverse_partial_derivative on swapped rows *)
Definition joe_inverse (tol : R) (max_iters : nat) (theta : R)
           (X : list (R * R)) : list R :=
  let pys := map (fun pv => (fst pv, Rpower (1 - snd pv) theta)) X in
  let xs0 := map (fun pv => joe_start theta (fst pv) (snd pv)) X in
  let xs := newton_loop (map2 (fun py => joe_step theta (fst py) (snd py)) pys)
                        tol max_iters xs0 in
  map (fun x => 1 - npow x (1 / theta)) xs.
Definition joe_hinv : R -> list (R * R) -> list R := joe_inverse newton_tol 50.

(* _joe.py 393-408 *)
Definition joe_lower_tail (theta : R) (r : rotation) : R :=
  match r with R180 => 2 - Rpower 2 (1 / theta) | _ => 0 end.
Definition joe_upper_tail (theta : R) (r : rotation) : R :=
  match r with R0 => 2 - Rpower 2 (1 / theta) | _ => 0 end.

(* ------------------------------------------------------------------------ *)
(* Gaussian, Student t, independent                                          *)
(* ------------------------------------------------------------------------ *)
(* _gaussian.py 251-259 after the swap; [ndtr] and [ndtri] stand for the
   functions of scipy.special of the same names *)
Definition gaussian_h (ndtr ndtri : R -> R) (rho u v : R) : R :=
  ndtr ((ndtri u - rho * ndtri v) / sqrt (1 - rho ^ 2)).

(* _gaussian.py 308-314 *)
Definition gaussian_hinv (ndtr ndtri : R -> R) (rho p v : R) : R :=
  ndtr (ndtri p * sqrt (1 - rho ^ 2) + rho * ndtri v).

(* _student_t.py 304-318; [stdtr dof] and [stdtrit dof] are the Student
   distribution and quantile functions of scipy.special *)
Definition student_h (stdtr stdtrit : R -> R -> R) (rho dof u v : R) : R :=
  let u_inv := stdtrit dof u in
  let v_inv := stdtrit dof v in
  stdtr (dof + 1) ((u_inv - rho * v_inv)
                   / sqrt ((1 - rho ^ 2) * (dof + v_inv ^ 2) / (dof + 1))).

(* _student_t.py 370-381 *)
Definition student_hinv (stdtr stdtrit : R -> R -> R) (rho dof p v : R) : R :=
  let p_inv := stdtrit (dof + 1) p in
  let v_inv := stdtrit dof v in
  stdtr dof (p_inv * sqrt ((dof + v_inv ^ 2) / (dof + 1) * (1 - rho ^ 2))
             + rho * v_inv).

(* _independent.py 73-121, 123-163, 165-183 *)
Definition independent_cdf (u v : R) : R := u * v.
Definition independent_h (u v : R) : R := u.
Definition independent_hinv (p v : R) : R := p.
Definition independent_score (u v : R) : R := 0.
