(** Model of DistanceCorrelation of src/skfolio/distance/_distance.py 350-422.  No proofs
    here.  A column of returns is a function of the observation t < T; numbers are exact
    reals; None stands for NaN or infinity.  The attribute [threshold] (line 382) is
    stored by the constructor and read nowhere, so it is absent from [fit] below. *)
From Coq Require Import Reals List Arith.
From Verif Require Import RList.
Import ListNotations.
Local Open Scope R_scope.

(** np.sqrt: NaN for a negative argument *)
Definition np_sqrt (v : R) : option R := if Rlt_dec v 0 then None else Some (sqrt v).
(** division: 0/0 is NaN, other divisions by zero are infinite *)
Definition np_div (a b : R) : option R := if Req_EM_T b 0 then None else Some (a / b).
Definition bind {A B} (o : option A) (f : A -> option B) : option B := match o with Some a => f a | None => None end.

Section OneTable.
  (** [T] observations *)
  Variable T : nat.
  Definition obs : list nat := seq 0 T.

  (** _distance.py 388: [scd.squareform(scd.pdist(x.reshape(-1, 1)))]; the Euclidean
      distance of two numbers *)
  Definition pairwise (x : nat -> R) (s t : nat) : R := sqrt ((x s - x t) ^ 2).
  (** [x.mean(axis=0)[np.newaxis, :]], [x.mean(axis=1)[:, np.newaxis]], [x.mean()] *)
  Definition mean0 (a : nat -> nat -> R) (t : nat) : R := sum_over obs (fun s => a s t) / INR T.
  Definition mean1 (a : nat -> nat -> R) (s : nat) : R := sum_over obs (fun t => a s t) / INR T.
  Definition mean (a : nat -> nat -> R) : R := sum_over obs (fun s => sum_over obs (fun t => a s t)) / (INR T * INR T).
  (** _distance.py 390-391 *)
  Definition centred (a : nat -> nat -> R) (s t : nat) : R := a s t - mean0 a t - mean1 a s + mean a.
  (** [a.sum()] of a matrix *)
  Definition total (a : nat -> nat -> R) : R := sum_over obs (fun s => sum_over obs (fun t => a s t)).

  (** _distance.py 385-395: _dcorr *)
  Definition dcorr (x y : nat -> R) : option R :=
    let a := centred (pairwise x) in
    let b := centred (pairwise y) in
    bind (np_sqrt (total (fun s t => a s t * b s t))) (fun num =>
    bind (np_sqrt (total (fun s t => a s t ^ 2))) (fun da =>
    bind (np_sqrt (total (fun s t => b s t ^ 2))) (fun db =>
    bind (np_sqrt (da * db)) (fun den => np_div num den)))).

  (** _distance.py 413-420: the upper triangle is filled and mirrored; the diagonal keeps
      its ones. [X t i] is the return of asset i at t. *)
  Definition codependence (X : nat -> nat -> R) (i j : nat) : option R :=
    if (i <? j)%nat then dcorr (fun t => X t i) (fun t => X t j)
    else if (j <? i)%nat then dcorr (fun t => X t j) (fun t => X t i)
    else Some 1.
  (** _distance.py 421: [np.sqrt(np.clip(1 - codependence, a_min=0.0, a_max=1.0))] *)
  Definition clip (v : R) : R := Rmin (Rmax v 0) 1.
  Definition distance (X : nat -> nat -> R) (i j : nat) : option R :=
    bind (codependence X i j) (fun c => np_sqrt (clip (1 - c))).
End OneTable.
