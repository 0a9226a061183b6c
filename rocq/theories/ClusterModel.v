(** Model of [compute_optimal_n_clusters] (src/skfolio/utils/stats.py 424-493) and of
    HierarchicalClustering.fit (src/skfolio/cluster/_hierarchical.py 166-209).

    Numbers are reals.  scipy's [cut_tree] and [fcluster] are inputs: [cut k] is
    the column of the cut tree with k + 1 clusters (column n - k - 1), as the list
    of the labels of the assets; the distance matrix is a function of two
    positions.  NaN is not modelled, so [np.nan_to_num] is the identity. *)
From Coq Require Import Reals List Arith Bool.
Import ListNotations.
Open Scope R_scope.

Inductive error := ValueError | AssertionError.
Inductive result (A : Type) := Ok (a : A) | Err (e : error).
Arguments Ok {A} a.
Arguments Err {A} e.

Fixpoint rsum (l : list R) : R := match l with [] => 0 | x :: l => x + rsum l end.
(** ndarray.mean *)
Definition mean (l : list R) : R := rsum l / INR (length l).

(** stats.py 479 [round(np.sqrt(n))]: the square root of an integer is never half-way between two integers *)
Definition round_sqrt (n : nat) : nat := let s := Nat.sqrt n in if n - s * s <=? s then s else S s.
(** stats.py 479 *)
Definition max_clusters (n : nat) : nat := Nat.min n (Nat.max 8 (round_sqrt n)).

(** [np.argwhere(level == i).flatten()], stats.py 485 *)
Fixpoint positions (i : nat) (level : list nat) (from : nat) : list nat :=
  match level with
  | [] => []
  | c :: level => if c =? i then from :: positions i level (S from) else positions i level (S from)
  end.
(** [scd.squareform(distance[idx, :][:, idx], checks=False)], stats.py 486-488: the entries above the diagonal, row by row *)
Fixpoint condensed (distance : nat -> nat -> R) (idx : list nat) : list R :=
  match idx with
  | [] => []
  | u :: idx => map (distance u) idx ++ condensed distance idx
  end.
(** stats.py 484-490: the mean distances of the clusters with at least two assets *)
Definition cluster_densities (distance : nat -> nat -> R) (level : list nat) : list R :=
  flat_map (fun i =>
    let cluster_dists := condensed distance (positions i level 0) in
    if length cluster_dists =? 0 then [] else [mean cluster_dists]) (seq 0 (S (list_max level))).
(** stats.py 480-492 *)
Definition dispersions (distance : nat -> nat -> R) (cut : nat -> list nat) (n : nat) : list R :=
  map (fun k => rsum (cluster_densities distance (cut k))) (seq 0 (max_clusters n)).
(** [np.roll(l, -s)] *)
Definition roll_back (s : nat) (l : list R) : list R := map (fun i => nth ((i + s) mod length l) l 0) (seq 0 (length l)).
(** stats.py 493-495 *)
Definition gaps (d : list R) : list R :=
  firstn (length d - 2) (map (fun i => nth i (roll_back 2 d) 0 + nth i d 0 - 2 * nth i (roll_back 1 d) 0) (seq 0 (length d))).
(** [np.argmax]: the first position of the maximum; an empty array is an error *)
Fixpoint argmax_from (best : R) (at_ i : nat) (l : list R) : nat :=
  match l with
  | [] => at_
  | x :: l => if Rlt_dec best x then argmax_from x i (S i) l else argmax_from best at_ (S i) l
  end.
Definition argmax (l : list R) : option nat := match l with [] => None | x :: l => Some (argmax_from x 0 1 l) end.
(** stats.py 424-498 *)
Definition compute_optimal_n_clusters (distance : nat -> nat -> R) (cut : nat -> list nat) (n : nat) : result nat :=
  match argmax (gaps (dispersions distance cut n)) with
  | Some k => Ok (k + 2)%nat
  | None => Err ValueError
  end.

(** HierarchicalClustering.fit, _hierarchical.py 183-209, after the linkage.  [fcluster t] is the list of
    the labels (from 1) of [sch.fcluster(linkage, t, criterion="maxclust")]; numpy integers become naturals (labels start at 1). *)
Definition clustering_fit (distance : nat -> nat -> R) (cut : nat -> list nat) (n : nat) (fcluster : nat -> list nat)
    (param_max_clusters : option nat) : result (nat * list nat) :=
  let body t :=
    let labels := map pred (fcluster t) in
    let n_clusters := length (nodup Nat.eq_dec labels) in
    if (n_clusters =? list_max labels + 1) && (list_max labels + 1 <=? t) then Ok (n_clusters, labels) else Err AssertionError in
  match param_max_clusters with
  | Some t => body t
  | None => match compute_optimal_n_clusters distance cut n with Ok t => body t | Err e => Err e end
  end.
