(** Model of optimization/cluster/hierarchical/_herc.py (HierarchicalEqualRiskContribution.fit) and of
    utils/stats.py minimize_relative_weight_deviation.  No proofs here. *)
From Coq Require Import List Bool Arith Reals.
From Verif Require Import RList HrpModel.
Import ListNotations.
Local Open Scope R_scope.

(** scipy.cluster.hierarchy.ClusterNode as built by to_tree; pre_order lists the leaves from left to right *)
Inductive tree := Leaf (i : nat) | Node (l r : tree).
Fixpoint pre_order (t : tree) : list nat := match t with Leaf i => [i] | Node l r => pre_order l ++ pre_order r end.

Definition subset (a b : list nat) : bool := forallb (fun i => memn i b) a.
Definition same_set (a b : list nat) : bool := subset a b && subset b a.
Definition is_nil {A} (l : list A) : bool := match l with [] => true | _ => false end.

(** stats.py lines 496-577.  A convex problem is its objective and its constraints; the solver is a parameter that
    returns a point or fails.  None: an exception. *)
Record problem := Problem { objective : list R -> R; constraints : list R -> Prop }.
Definition Rleb (a b : R) : bool := if Rle_dec a b then true else false.
Definition zip3 (f : R -> R -> R -> bool) (a b c : list R) : bool :=
  forallb (fun p => f (fst p) (fst (snd p)) (snd (snd p))) (combine a (combine b c)).
(** cp.norm of a vector *)
Definition norm2 (v : list R) : R := sqrt (sum_over v (fun x => x ^ 2)).
Definition minimize_relative_weight_deviation (solve : problem -> option (list R)) (weights min_weights max_weights : list R) : option (list R) :=
  if negb ((length weights =? length min_weights)%nat && (length min_weights =? length max_weights)%nat) then None
  else if existsb (fun x => Rltb x 0) weights then None
  else if negb (Rleb (Rabs (rsum weights - 1)) (1/100000000 + 1/100000)) then None   (* np.isclose *)
  else if existsb (fun p => Rltb (snd p) (fst p)) (combine min_weights max_weights) then None
  else if zip3 (fun w a b => Rleb a w && Rleb w b) weights min_weights max_weights then Some weights
  else solve (Problem (fun w => norm2 (map (fun p => fst p / snd p - 1) (combine w weights)))
                      (fun w => length w = length weights /\ rsum w = 1
                                /\ forall i, (i < length weights)%nat -> nth i min_weights 0 <= nth i w 0 <= nth i max_weights 0)).

Section HERC.
  Variable risk : list R -> R.       (* self._risk *)
  Variable n_assets : nat.
  (** hierarchical_clustering_estimator_: labels_, n_clusters_ and to_tree(linkage_matrix_) *)
  Variable labels : list nat.
  Variable n_clusters : nat.

  (** np.argwhere(labels == i).flatten(), line 398 *)
  Definition cluster (k : nat) : list nat := filter (fun i => (nth i labels n_clusters =? k)%nat) (seq 0 n_assets).
  Definition clusters : list (list nat) := map cluster (seq 0 n_clusters).
  (** weights[ids] = v[ids] *)
  Definition set_at (ids : list nat) (v w : list R) : list R :=
    map (fun i => if memn i ids then nth i v 0 else nth i w 0) (seq 0 (length w)).
  (** lines 401-412 *)
  Definition cluster_risks : list R := map (fun ids => risk (inv_risk_w risk n_assets ids)) clusters.
  Definition intra_weights : list R := fold_left (fun w ids => set_at ids (inv_risk_w risk n_assets ids) w) clusters (repeat 1 n_assets).
  (** _recurse, lines 417-453; None: ValueError("Corrupted") or AttributeError on a leaf *)
  Fixpoint recurse (node : tree) (clusters_weights : list R) : option (list R) :=
    if existsb (same_set (pre_order node)) clusters then Some clusters_weights
    else
      match node with
      | Leaf _ => None
      | Node left_node right_node =>
          let left_cluster := filter (fun k => subset (nth k clusters []) (pre_order left_node)) (seq 0 n_clusters) in
          let right_cluster := filter (fun k => negb (subset (nth k clusters []) (pre_order left_node)) && subset (nth k clusters []) (pre_order right_node)) (seq 0 n_clusters) in
          if is_nil left_cluster || is_nil right_cluster then None
          else
            let left_risk := sum_over left_cluster (fun k => nth k cluster_risks 0) in
            let right_risk := sum_over right_cluster (fun k => nth k cluster_risks 0) in
            let alpha := 1 - left_risk / (left_risk + right_risk) in
            match recurse left_node (scale right_cluster (1 - alpha) (scale left_cluster alpha clusters_weights)) with
            | None => None
            | Some clusters_weights => recurse right_node clusters_weights
            end
      end.
  (** lines 394-461: the weights before the bounds *)
  Definition herc_weights (root : tree) : option (list R) :=
    match recurse root (repeat 1 n_clusters) with
    | None => None
    | Some clusters_weights =>
        Some (fold_left (fun w p => scale (snd p) (nth (fst p) clusters_weights 0) w) (combine (seq 0 n_clusters) clusters) intra_weights)
    end.
  (** fit, lines 386-474 *)
  Definition herc (solve : problem -> option (list R)) (min_weights max_weights : option (list R)) (root : tree) : option (list R) :=
    match convert_weights_bounds n_assets min_weights max_weights with
    | None => None
    | Some (lo, hi) =>
        match herc_weights root with
        | None => None
        | Some weights => minimize_relative_weight_deviation solve weights lo hi
        end
    end.
End HERC.
