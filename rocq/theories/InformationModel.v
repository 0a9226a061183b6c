(** Model of MutualInformation.fit, distance/_distance.py lines 490-545, and of n_bins_freedman, utils/stats.py lines 59-85.  No proofs
    here.  Numbers are reals.  Division follows NumPy: 0/0 is NaN and x/0 is infinite.  NumPy's histogram and histogram2d, scikit-learn's
    mutual_info_score and SciPy's entropy are modelled by the loops they run; mutual_info_score also replaces by 0 the terms below the
    machine epsilon, a rounding repair which is left out.  n_bins_knuth ends in a numerical minimiser (scipy.optimize.fmin): its result
    is a parameter. *)
From Coq Require Import Reals List ZArith.
From Verif Require Import RList.
Import ListNotations.
Local Open Scope R_scope.

Inductive num := Num (x : R) | NaN | Inf.
Inductive result (A : Type) := Ok (x : A) | ValueError.
Arguments Ok {A}. Arguments ValueError {A}.

Definition divide (a b : R) : num := if Req_EM_T b 0 then (if Req_EM_T a 0 then NaN else Inf) else Num (a / b).
(** Python's max(0.0, x): the second argument is kept only if it is greater, and no comparison with NaN holds; the infinite case cannot
    be negative in its only use *)
Definition max0 (x : num) : num := match x with Num x => Num (Rmax 0 x) | NaN => Num 0 | Inf => Inf end.

Definition column := list R.
Definition least (l : column) : R := match l with [] => 0 | x :: l => fold_left Rmin l x end.
Definition largest (l : column) : R := match l with [] => 0 | x :: l => fold_left Rmax l x end.

(** * Histograms: numpy.histogram, numpy.histogram2d with a number of bins *)
(** the outer edges: the range of the data, widened by one half on both sides when the data is constant (_get_outer_edges) *)
Definition first_edge (l : column) : R := if Req_EM_T (least l) (largest l) then least l - 1/2 else least l.
Definition last_edge (l : column) : R := if Req_EM_T (least l) (largest l) then largest l + 1/2 else largest l.
Definition edge (l : column) (k : nat) (c : nat) : R := first_edge l + INR c * ((last_edge l - first_edge l) / INR k).
(** the bin of a value: the number of inner edges not above it; every bin is half open but the last *)
Definition bin (l : column) (k : nat) (x : R) : nat :=
  length (filter (fun c => if Rle_dec (edge l k c) x then true else false) (seq 1 (k - 1))).
Definition count {A} (p : A -> bool) (l : list A) : nat := length (filter p l).
(** np.histogram(x, n_bins)[0] *)
Definition histogram (l : column) (k : nat) : list nat := map (fun a => count (fun x => Nat.eqb (bin l k x) a) l) (seq 0 k).
(** np.histogram2d(x, y, bins=n_bins)[0] *)
Definition histogram2d (l m : column) (k : nat) : list (list nat) :=
  map (fun a => map (fun b => count (fun p => andb (Nat.eqb (bin l k (fst p)) a) (Nat.eqb (bin m k (snd p)) b)) (combine l m)) (seq 0 k)) (seq 0 k).

(** * scipy.stats.entropy(pk): the counts are normalised, then the sum of entr(p) *)
Definition entr (p : R) : R := if Req_EM_T p 0 then 0 else - (p * ln p).
Definition entropy (pk : list nat) : R := let total := rsum (map INR pk) in rsum (map (fun c => entr (INR c / total)) pk).

(** * sklearn.metrics.mutual_info_score with a contingency table *)
Definition row_sum (c : list (list nat)) (a : nat) : R := rsum (map INR (nth a c [])).
Definition column_sum (c : list (list nat)) (b : nat) : R := rsum (map (fun r => INR (nth b r 0%nat)) c).
Definition table_sum (c : list (list nat)) : R := rsum (map (fun r => rsum (map INR r)) c).
Definition mutual_info_score (k : nat) (c : list (list nat)) : R :=
  if Nat.eqb k 1 then 0
  else
    let n := table_sum c in
    let term a b :=
      let v := INR (nth b (nth a c []) 0%nat) in
      if Req_EM_T v 0 then 0
      else v / n * (ln v - ln n) + v / n * (- ln (row_sum c a * column_sum c b) + ln n + ln n) in
    Rmax 0 (rsum (map (fun a => rsum (map (term a) (seq 0 k))) (seq 0 k))).

(** * n_bins_freedman, utils/stats.py lines 77-85 *)
Fixpoint insert (x : R) (l : column) : column := match l with [] => [x] | y :: l' => if Rle_dec x y then x :: l else y :: insert x l' end.
Definition sort (l : column) : column := fold_right insert [] l.
(** np.percentile(x, 25 q), linear interpolation at the position (n - 1) q / 4 *)
Definition quartile (q : nat) (l : column) : R :=
  let s := sort l in let m := (q * (length l - 1))%nat in
  let lo := nth (m / 4) s 0 in let hi := nth (Nat.min (m / 4 + 1) (length l - 1)) s 0 in
  lo + INR (m mod 4) / 4 * (hi - lo).
Definition ceil (x : R) : Z := (1 - up (- x))%Z.
Definition n_bins_freedman (l : column) : nat :=
  let d := 2 * (quartile 3 l - quartile 1 l) / Rpower (INR (length l)) (1 / 3) in
  if Req_EM_T d 0 then 5%nat
  else Z.to_nat (Z.max 1 (ceil ((largest l - least l) / d))).

(** * MutualInformation.fit *)
Inductive bins_method := FREEDMAN | KNUTH.
Record settings := { method : bins_method; n_bins : option nat; normalize : bool }.
Section Fit.
  Variable n_bins_knuth : column -> nat.
  (** lines 508-519 *)
  Definition bins_of (st : settings) (x : column) : nat :=
    match n_bins st with
    | Some k => k
    | None => match method st with FREEDMAN => n_bins_freedman x | KNUTH => n_bins_knuth x end
    end.
  (** one pair, lines 524-542; a number of bins below one is refused by np.histogram2d *)
  Definition pair (st : settings) (x y : column) : result (num * num) :=
    let k := Nat.max (bins_of st x) (bins_of st y) in
    if Nat.eqb k 0 then ValueError
    else
      let mi := mutual_info_score k (histogram2d x y k) in
      let hx := entropy (histogram x k) in
      let hy := entropy (histogram y k) in
      Ok (if normalize st
          then (divide mi (Rmin hx hy), max0 (divide (hx + hy - 2 * mi) (hx + hy - mi)))
          else (Num mi, Num (Rmax 0 (hx + hy - 2 * mi)))).
  (** the matrices, lines 521-544: the upper triangle, copied to the lower one *)
  Definition entry (st : settings) (X : nat -> column) (i j : nat) : result (num * num) :=
    if Nat.leb i j then pair st (X i) (X j) else pair st (X j) (X i).
  Definition codependence (st : settings) (X : nat -> column) (i j : nat) : result num :=
    match entry st X i j with Ok (c, _) => Ok c | ValueError => ValueError end.
  Definition distance (st : settings) (X : nat -> column) (i j : nat) : result num :=
    match entry st X i j with Ok (_, d) => Ok d | ValueError => ValueError end.
End Fit.
