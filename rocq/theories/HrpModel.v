(** Model of optimization/cluster/hierarchical/_hrp.py (HierarchicalRiskParity), of the bound conversion in
    hierarchical/_base.py and of utils/tools.py bisection.  No proofs here. *)
From Coq Require Import List Bool Arith Reals.
From Verif Require Import RList.
Import ListNotations.
Local Open Scope R_scope.

Definition memn (i : nat) (l : list nat) : bool := existsb (Nat.eqb i) l.
Definition Rltb (a b : R) : bool := if Rlt_dec a b then true else false.

(** BaseHierarchicalOptimization._convert_weights_bounds, hierarchical/_base.py lines 336-383.  The values are those
    after _clean_input (arrays); None as an argument is the Python None; the result None is ValueError or NameError. *)
Definition convert_weights_bounds (n_assets : nat) (min_weights max_weights : option (list R)) : option (list R * list R) :=
  let lo := match min_weights with
            | None => Some (repeat 0 n_assets)
            | Some l => if existsb (fun x => Rltb x 0) l then None else Some l
            end in
  let hi := match max_weights with
            | None => Some (repeat 1 n_assets)
            | Some l => if existsb (fun x => Rltb 1 x) l then None
                        else if Rltb (rsum l) 1 then None else Some l
            end in
  match lo, hi with
  | Some lo, Some hi => if existsb (fun p => Rltb (snd p) (fst p)) (combine lo hi) then None else Some (lo, hi)
  | _, _ => None
  end.

(** weights[ids] *= a  (in-place on an array) *)
Definition scale (ids : list nat) (a : R) (w : list R) : list R :=
  map (fun i => if memn i ids then nth i w 0 * a else nth i w 0) (seq 0 (length w)).
(** bisection, utils/tools.py lines 553-571: one element of the list *)
Definition bisect (e : list nat) : list nat * list nat :=
  let mid := (length e / 2)%nat in (firstn mid e, skipn mid e).

Inductive fit_result := Weights (w : list R) | NotFinite | OutOfFuel.

Section HRP.
  (** self._risk: the risk of the portfolio with the given weights; unitary risks are those of the unit vectors *)
  Variable risk : list R -> R.
  Variable n_assets : nat.
  Variables min_weights max_weights : list R.

  Definition unit_vector (i : nat) : list R := map (fun j => if Nat.eqb i j then 1 else 0) (seq 0 n_assets).
  (** _unitary_risks, hierarchical/_base.py lines 316-334 *)
  Definition assets_risks : list R := map (fun i => risk (unit_vector i)) (seq 0 n_assets).
  (** _hrp.py lines 360-362 *)
  Definition inv_risk_w (ids : list nat) : list R :=
    let w := map (fun i => if memn i ids then 1 / nth i assets_risks 0 else 0) (seq 0 n_assets) in
    map (fun x => x / rsum w) w.
  (** _apply_weight_constraints_to_split_factor, _hrp.py lines 390-438.  A cluster of weight 0 is divided by: since the
      minimum weights of such a cluster are 0 the code computes 0/0 and its weights become NaN (None here). *)
  Definition split_factor (alpha : R) (weights : list R) (left_cluster right_cluster : list nat) : option R :=
    let wl := nth (hd 0%nat left_cluster) weights 0 in
    let wr := nth (hd 0%nat right_cluster) weights 0 in
    if Req_EM_T wl 0 then None else if Req_EM_T wr 0 then None else
    let lo c := sum_over c (fun i => nth i min_weights 0) in
    let hi c := sum_over c (fun i => nth i max_weights 0) in
    let alpha := Rmin (hi left_cluster / wl) (Rmax (lo left_cluster / wl) alpha) in
    Some (1 - Rmin (hi right_cluster / wr) (Rmax (lo right_cluster / wr) (1 - alpha))).
  (** the for loop over bisection(items), lines 355-384: the new items and the new weights *)
  Fixpoint level (items : list (list nat)) (weights : list R) : option (list (list nat) * list R) :=
    match items with
    | [] => Some ([], weights)
    | e :: items =>
        if (1 <? length e)%nat then
          let (left_cluster, right_cluster) := bisect e in
          let left_risk := risk (inv_risk_w left_cluster) in
          let right_risk := risk (inv_risk_w right_cluster) in
          let alpha := 1 - left_risk / (left_risk + right_risk) in
          match split_factor alpha weights left_cluster right_cluster with
          | None => None
          | Some alpha =>
              let weights := scale left_cluster alpha weights in
              let weights := scale right_cluster (1 - alpha) weights in
              match level items weights with
              | None => None
              | Some (new_items, weights) => Some (left_cluster :: right_cluster :: new_items, weights)
              end
          end
        else level items weights
    end.
  (** the while loop, lines 350-387; the fuel bounds the number of iterations *)
  Fixpoint loop (fuel : nat) (items : list (list nat)) (weights : list R) : fit_result :=
    match items with
    | [] => Weights weights
    | _ =>
        match fuel with
        | O => OutOfFuel
        | S fuel =>
            match level items weights with
            | None => NotFinite
            | Some (new_items, weights) => loop fuel new_items weights
            end
        end
    end.
  (** fit, lines 340-388, after the prior, the distance and the dendrogram: [sorted_assets] is leaves_list *)
  Definition hrp (sorted_assets : list nat) : fit_result :=
    loop (length sorted_assets) [sorted_assets] (repeat 1 n_assets).
End HRP.
