(** Model of src/skfolio/pre_selection/*.py.  No proofs here.  X is the list of observations (rows). Every
    fit returns [to_keep_], or None when it raises ValueError. *)
From Coq Require Import String List ZArith Bool Arith Reals.
From Verif Require Import RList SortingModel PopulationModel PortfolioArithModel.
Import ListNotations.
Local Open Scope list_scope.
Local Open Scope R_scope.

Definition column (X : list (list R)) (i : nat) : list R := map (fun row => nth i row 0) X.
Definition avg (l : list R) : R := rsum l / INR (length l).
(** np.cov(X.T) (ddof = 1) and np.corrcoef(X.T) *)
Definition cov (X : list (list R)) (i j : nat) : R :=
  sum_over X (fun row => (nth i row 0 - avg (column X i)) * (nth j row 0 - avg (column X j))) / (INR (length X) - 1).
Definition corr (X : list (list R)) (i j : nat) : R := cov X i j / sqrt (cov X i i * cov X j j).
(** np.triu_indices(n, 1): row by row *)
Definition triu (n : nat) : list (nat * nat) :=
  concat (map (fun i => map (fun j => (i, j)) (seq (i + 1) (n - (i + 1)))) (seq 0 n)).
Definition memn (i : nat) (l : list nat) : bool := existsb (Nat.eqb i) l.
Definition valid_threshold (t : R) : bool := if Rle_dec (-1) t then if Rle_dec t 1 then true else false else false.

(** * DropCorrelated.fit, _drop_correlated.py lines 61-104 *)
Section DropCorrelated.
  (** np.argsort *)
  Variable argsort : list R -> list nat.
  (** the parameter [absolute] (line 53) is stored by the constructor and not used by fit *)
  Definition selected_pairs (X : list (list R)) (n_assets : nat) (threshold : R) : list (nat * nat) :=
    filter (fun p => if Rlt_dec threshold (corr X (fst p) (snd p)) then true else false) (triu n_assets).
  Definition ordered_pairs (X : list (list R)) (n_assets : nat) (threshold : R) : list (nat * nat) :=
    let sel := selected_pairs X n_assets threshold in
    map (fun k => nth k sel (0, 0)%nat) (argsort (map (fun p => - corr X (fst p) (snd p)) sel)).
  Definition mean_corr (X : list (list R)) (n_assets j : nat) : R :=
    sum_over (seq 0 n_assets) (fun i => corr X i j) / INR n_assets.
  Definition drop_step (X : list (list R)) (n_assets : nat) (to_remove : list nat) (p : nat * nat) : list nat :=
    let (i, j) := p in
    if negb (memn i to_remove) && negb (memn j to_remove) then
      if Rlt_dec (mean_corr X n_assets j) (mean_corr X n_assets i) then i :: to_remove else j :: to_remove
    else to_remove.
  Definition drop_correlated (X : list (list R)) (n_assets : nat) (threshold : R) (absolute : bool) : option (list bool) :=
    if valid_threshold threshold then
      let to_remove := fold_left (drop_step X n_assets) (ordered_pairs X n_assets threshold) [] in
      Some (map (fun i => negb (memn i to_remove)) (seq 0 n_assets))
    else None.
End DropCorrelated.

(** * SelectKExtremes.fit, _select_k_extremes.py lines 63-96 *)
(** the portfolio fully invested in asset i *)
Definition single (n i : nat) : list R := map (fun j => if (i =? j)%nat then 1 else 0) (seq 0 n).
Definition portfolio_returns (X : list (list R)) (w : list R) : list R := map (fun row => dot w row) X.
Section Extremes.
  (** the measure, a function of the portfolio's returns *)
  Variable measure : list R -> R.
  Definition select_k_extremes (X : list (list R)) (n_assets : nat) (k : Z) (highest : bool) : option (list bool) :=
    if (k <=? 0)%Z then None
    else
      (* a portfolio of the population is represented by its asset *)
      let population := seq 0 n_assets in
      let selected := firstn (Z.to_nat k) (sort_measure nat (fun i => measure (portfolio_returns X (single n_assets i))) population highest) in
      Some (map (fun i => memn i selected) (seq 0 n_assets)).
End Extremes.

(** * SelectNonDominated.fit, _select_non_dominated.py lines 82-150 *)
(** nonzero_assets_index, portfolio/_portfolio.py lines 655-658 *)
Definition zero_threshold : R := / 100000.
Definition nonzero_assets_index (w : list R) : list nat :=
  filter (fun i => if Rlt_dec zero_threshold (Rabs (nth i w 0)) then true else false) (seq 0 (length w)).
(** lines 117-124 *)
Definition pair_weight (var1 var2 c : R) : R := (var2 - c) / (var1 + var2 - 2 * c).
Definition pair_portfolio (X : list (list R)) (n i j : nat) : list R :=
  let w := pair_weight (cov X i i) (cov X j j) (cov X i j) in
  map (fun k => if (k =? j)%nat then 1 - w else if (k =? i)%nat then w else 0) (seq 0 n).
(** the population, lines 91-131 *)
Definition candidates (X : list (list R)) (n : nat) (threshold : R) : list (list R) :=
  map (single n) (seq 0 n)
  ++ map (fun p => pair_portfolio X n (fst p) (snd p))
         (filter (fun p => if Rlt_dec (corr X (fst p) (snd p)) threshold then true else false) (triu n)).
(** set.update *)
Definition update (s l : list nat) : list nat := fold_left (fun s x => if memn x s then s else s ++ [x]) l s.
(** the loop, lines 136-147 *)
Fixpoint collect (pop : list (list R)) (min_n_assets : option nat) (fronts : list (list nat)) (assets : list nat) : list nat :=
  match fronts with
  | [] => assets
  | f :: fronts =>
      if match min_n_assets with Some m => (m <? length assets)%nat | None => false end then assets
      else collect pop min_n_assets fronts (fold_left (fun s idx => update s (nonzero_assets_index (nth idx pop []))) f assets)
  end.
Section NonDominated.
  (** the fitness of a portfolio given its weights (see PortfolioModel.v) *)
  Variable fitness : list R -> list fnum.
  (** [fuel] bounds the loop of non_denominated_sort; None also stands for a loop that does not end *)
  Definition select_non_dominated (fuel : nat) (X : list (list R)) (n_assets : nat) (min_n_assets : option nat) (threshold : R) : option (list bool) :=
    if valid_threshold threshold then
      if match min_n_assets with Some m => (n_assets <=? m)%nat | None => false end then Some (repeat true n_assets)
      else
        let population := candidates X n_assets threshold in
        match non_denominated_sort (map fitness population) fuel (match min_n_assets with None => true | Some _ => false end) with
        | None => None
        | Some fronts =>
            let assets := collect population min_n_assets fronts [] in
            Some (map (fun i => memn i assets) (seq 0 n_assets))
        end
    else None.
End NonDominated.

(** * Availability *)
(** SelectComplete.fit, _select_complete.py lines 80-106; None is a missing value *)
Definition missing (X : list (list (option R))) (t i : nat) : bool :=
  match nth i (nth t X []) None with None => true | Some _ => false end.
Definition select_complete (X : list (list (option R))) (n_assets : nat) (drop_assets_with_internal_nan : bool) : list bool :=
  map (fun i => if drop_assets_with_internal_nan then negb (existsb (fun t => missing X t i) (seq 0 (length X)))
                else negb (missing X 0 i) && negb (missing X (length X - 1) i)) (seq 0 n_assets).
(** SelectNonExpiring.fit, _select_non_expiring.py lines 104-146: dates are integers (nanoseconds),
    [timestamp_max] is pd.Timestamp.max, [add_lookahead] adds the look-ahead to a date *)
Definition select_non_expiring (timestamp_max : Z) (add_lookahead : Z -> Z) (expiration_dates : string -> option Z) (index : list Z) (columns : list string) : option (list bool) :=
  match rev index with
  | [] => None
  | end_date :: _ =>
      let cutoff_date := add_lookahead end_date in
      Some (map (fun asset => (cutoff_date <? match expiration_dates asset with Some d => d | None => timestamp_max end)%Z) columns)
  end.
(** DropZeroVariance.fit, _drop_zero_variance.py lines 46-73; X.var(axis=0) has ddof = 0 *)
Definition drop_zero_variance (X : list (list R)) (n_assets : nat) (threshold : R) : option (list bool) :=
  if Rlt_dec threshold 0 then None
  else Some (map (fun i => let m := avg (column X i) in
                           if Rlt_dec threshold (avg (map (fun x => (x - m)^2) (column X i))) then true else false) (seq 0 n_assets)).
