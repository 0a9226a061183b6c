(** Model of optimization/cluster/_nco.py (NestedClustersOptimization.fit), optimization/ensemble/_stacking.py
    (StackingOptimization.fit), optimization/naive/_naive.py and utils/stats.py rand_weights.  No proofs here. *)
From Coq Require Import List ZArith Bool Arith Reals.
From Verif Require Import RList HrpModel HercModel.
Import ListNotations.
Local Open Scope R_scope.

(** w[ids] = values on an array of zeros (np.zeros, w[cluster_ids] = ...) *)
Fixpoint scatter (ids : list nat) (values : list R) (w : list R) : list R :=
  match ids, values with
  | i :: ids, v :: values => scatter ids values (map (fun j => if (j =? i)%nat then v else nth j w 0) (seq 0 (length w)))
  | _, _ => w
  end.
(** outer_weights @ inner_weights *)
Definition vecmat (outer : list R) (inner : list (list R)) (n : nat) : list R :=
  map (fun j => rsum (map (fun p => fst p * nth j (snd p) 0) (combine outer inner))) (seq 0 n).

Section NCO.
  Variable n_assets : nat.
  Variable X : list (list R).                  (* rows *)
  (** oracles: weights_ of the inner estimator fitted on the columns; its prediction on the columns (cv="ignore"), or the
      cross_val_predict of the columns (other cv); weights_ of the outer estimator fitted on the given columns *)
  Variable inner_fit : list nat -> list R.
  Variable inner_predict : list nat -> list R.
  Variable outer_fit : list (list R) -> list R.
  Variable test_indices : list nat.            (* lines 313-345: all rows, or the sorted test rows of the cv *)
  Variable labels : list Z.

  (** lines 270-272: n_clusters = max(labels) + 1 *)
  Definition n_clusters : nat := Z.to_nat (fold_right Z.max (-1)%Z labels + 1).
  Definition members (k : nat) : list nat := filter (fun i => (nth i labels (-1) =? Z.of_nat k)%Z) (seq 0 (length labels)).
  Definition nco_clusters : list (list nat) := map members (seq 0 n_clusters).
  Definition single (ids : list nat) : bool := (length ids =? 1)%nat.
  (** lines 274-306: the fitted estimators exist only for the clusters that are not singletons and are consumed in order;
      None: StopIteration *)
  Fixpoint inner_loop (clusters : list (list nat)) (fitted : list (list R)) : option (list (list R)) :=
    match clusters with
    | [] => Some []
    | ids :: clusters =>
        if single ids then
          match inner_loop clusters fitted with Some l => Some (scatter ids [1] (repeat 0 n_assets) :: l) | None => None end
        else
          match fitted with
          | [] => None
          | w :: fitted => match inner_loop clusters fitted with Some l => Some (scatter ids w (repeat 0 n_assets) :: l) | None => None end
          end
    end.
  (** lines 356-381: the columns of X_pred *)
  Fixpoint pred_loop (clusters : list (list nat)) (predictions : list (list R)) : option (list (list R)) :=
    match clusters with
    | [] => Some []
    | ids :: clusters =>
        if single ids then
          match pred_loop clusters predictions with
          | Some l => Some (map (fun t => nth (hd 0%nat ids) (nth t X []) 0) test_indices :: l)
          | None => None
          end
        else
          match predictions with
          | [] => None
          | p :: predictions => match pred_loop clusters predictions with Some l => Some (p :: l) | None => None end
          end
    end.
  Definition nco : option (list R) :=
    let many := filter (fun ids => negb (single ids)) nco_clusters in
    match inner_loop nco_clusters (map inner_fit many), pred_loop nco_clusters (map inner_predict many) with
    | Some inner_weights, Some X_pred => Some (vecmat (outer_fit X_pred) inner_weights n_assets)
    | _, _ => None
    end.
End NCO.

(** StackingOptimization.fit, lines 276-355: [inner] and [predictions] in the order of the named estimators *)
Definition stacking (n_assets : nat) (inner predictions : list (list R)) (final_fit : list (list R) -> list R) : list R :=
  vecmat (final_fit predictions) inner n_assets.

(** naive: EqualWeighted lines 165-168, InverseVolatility lines 103-106 (the diagonal of the covariance), Random line 204
    with the draw as an argument *)
Definition equal_weighted (n_assets : nat) : list R := map (fun x => x / INR n_assets) (repeat 1 n_assets).
Definition inverse_volatility (variances : list R) : list R :=
  let w := map (fun v => 1 / sqrt v) variances in map (fun x => x / rsum w) w.
(** rand_weights, stats.py lines 145-165: [k] is np.random.rand(n), [zeros_idx] the chosen indices *)
Definition rand_weights (k : list R) (zeros_idx : list nat) : list R :=
  let k := map (fun i => if memn i zeros_idx then 0 else nth i k 0) (seq 0 (length k)) in map (fun x => x / rsum k) k.
