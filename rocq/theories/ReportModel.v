(** Model of the tables and summary figures of portfolios:
    Portfolio.composition, weights_per_observation, diversification, expected_returns_from_assets,
    variance_from_assets, get_weight (src/skfolio/portfolio/_portfolio.py),
    MultiPeriodPortfolio.composition, weights_per_observation
    (src/skfolio/portfolio/_multi_period_portfolio.py) and Population.composition, the table drawn by
    plot_cumulative_returns (src/skfolio/population/_population.py).  No proofs here.
    Simplifications: real arithmetic; observations are integers; the orderings of pandas are parameters;
    assets are distinct strings. *)
From Coq Require Import Reals String List Bool ZArith.
From Verif Require Import RList MeasuresModel ToolsModel.
Import ListNotations.
Local Open Scope R_scope.

(** The attributes of a Portfolio that the reports read, _portfolio.py 430-570. *)
Record portfolio := {
  name : string;
  assets : list string;
  weights : list R;
  observations : list Z;
  data : list (list R);  (* X: the returns of the assets, one row per observation *)
  total_cost : R;
  total_fee : R;
  cumulative_returns : list R
}.

Definition dot (x y : list R) : R := rsum (map (fun p => fst p * snd p) (combine x y)).

(** returns, _portfolio.py 532: weights @ X.T - total_cost - total_fee *)
Definition returns (p : portfolio) : list R :=
  map (fun row => dot (weights p) row - total_cost p - total_fee p) (data p).

(** ** Frames *)

(** A DataFrame with index labels in [L]; a missing value is [None]. *)
Record frame (L : Type) := { columns : list string; rows : list (L * list (option R)) }.
Arguments columns {L} _.
Arguments rows {L} _.
Arguments Build_frame {L} _ _.

(** the labels in order of first appearance (the union of indexes of pd.concat with sort=False) *)
Fixpoint unique {L} (eqb : L -> L -> bool) (seen l : list L) : list L :=
  match l with
  | [] => []
  | x :: r => if existsb (eqb x) seen then unique eqb seen r else x :: unique eqb (x :: seen) r
  end.

(** the row of a label, missing values if the label is not in the index *)
Definition row_of {L} (eqb : L -> L -> bool) (f : frame L) (a : L) : list (option R) :=
  match find (fun r => eqb (fst r) a) (rows f) with
  | Some r => snd r
  | None => repeat None (List.length (columns f))
  end.

(** pd.concat(fs, axis=1), outer join *)
Definition concat_columns {L} (eqb : L -> L -> bool) (fs : list (frame L)) : frame L :=
  {| columns := flat_map columns fs;
     rows := map (fun a => (a, flat_map (fun f => row_of eqb f a) fs))
                 (unique eqb [] (flat_map (fun f => map fst (rows f)) fs)) |}.

(** the cell of a column in a row of a frame, missing if the frame has no such column *)
Definition cell (cols : list string) (r : list (option R)) (c : string) : option R :=
  match find (fun x => String.eqb (fst x) c) (combine cols r) with
  | Some x => snd x
  | None => None
  end.

(** pd.concat(fs, axis=0), outer join *)
Definition concat_rows {L} (fs : list (frame L)) : frame L :=
  let cols := unique String.eqb [] (flat_map columns fs) in
  {| columns := cols;
     rows := flat_map (fun f => map (fun r => (fst r, map (cell (columns f) (snd r)) cols)) (rows f)) fs |}.

(** df.fillna(0) *)
Definition fill (v : option R) : option R := match v with Some x => Some x | None => Some 0 end.
Definition fillna {L} (f : frame L) : frame L :=
  {| columns := columns f; rows := map (fun r => (fst r, map fill (snd r))) (rows f) |}.

(** df.columns = names *)
Definition with_columns {L} (f : frame L) (names : list string) : frame L :=
  {| columns := names; rows := rows f |}.

(** pd.concat raises ValueError on an empty list *)
Definition objects {X} (l : list X) : option (list X) := match l with [] => None | _ => Some l end.

(** ** Composition *)

(** abs(weights) > _ZERO_THRESHOLD, portfolio/_base.py 66 and _portfolio.py 655-659 *)
Definition invested (w : R) : bool := if Rlt_dec (1 / 100000) (Rabs w) then true else false.

(** nonzero_assets with their weights, 650-664 *)
Definition nonzero (p : portfolio) : list (string * R) :=
  filter (fun aw => invested (snd aw)) (combine (assets p) (weights p)).

Section Tables.
(** sort_values(by=..., ascending=False) on the weights and sort_index() on the observations *)
Variable sort_values : list (string * R) -> list (string * R).
Variable sort_index : list (Z * list (option R)) -> list (Z * list (option R)).

(** Portfolio.composition, 661-669 *)
Definition composition (p : portfolio) : frame string :=
  {| columns := [name p];
     rows := map (fun aw => (fst aw, [Some (snd aw)])) (sort_values (nonzero p)) |}.

(** MultiPeriodPortfolio.composition, _multi_period_portfolio.py 552-558 *)
Definition multi_composition (ps : list portfolio) : option (frame string) :=
  match objects ps with
  | None => None
  | Some ps =>
      let df := fillna (concat_columns String.eqb (map composition ps)) in
      Some (with_columns df (deduplicate_names (columns df)))
  end.

(** a member of a Population *)
Inductive member := Single (p : portfolio) | Multi (mname : string) (ps : list portfolio).
Definition member_name (m : member) : string := match m with Single p => name p | Multi n _ => n end.
Definition member_composition (m : member) : option (frame string) :=
  match m with Single p => Some (composition p) | Multi _ ps => multi_composition ps end.

(** the loop of Population.composition, _population.py 389-400 *)
Definition renamed (display_sub_ptf_name : bool) (m : member) (comp : frame string) : frame string :=
  if display_sub_ptf_name
  then match m with
       | Single _ => comp
       | Multi n _ => with_columns comp (map (fun c => n ++ "_" ++ c)%string (columns comp))
       end
  else with_columns comp (map (fun _ => member_name m) (columns comp)).
Fixpoint all_some {X} (l : list (option X)) : option (list X) :=
  match l with
  | [] => Some []
  | None :: _ => None
  | Some x :: r => match all_some r with Some r => Some (x :: r) | None => None end
  end.

(** Population.composition, 373-405 *)
Definition population_composition (display_sub_ptf_name : bool) (ms : list member) : option (frame string) :=
  match all_some (map (fun m => option_map (renamed display_sub_ptf_name m) (member_composition m)) ms) with
  | None => None
  | Some res =>
      match objects res with
      | None => None
      | Some res =>
          let df := concat_columns String.eqb res in
          Some (fillna (with_columns df (deduplicate_names (columns df))))
      end
  end.

(** ** Weights per observation *)

(** Portfolio.weights_per_observation, _portfolio.py 671-682 *)
Definition weights_per_observation (p : portfolio) : frame Z :=
  {| columns := map fst (nonzero p);
     rows := map (fun o => (o, map (fun aw => Some (1 * snd aw)) (nonzero p))) (observations p) |}.

(** MultiPeriodPortfolio.weights_per_observation, _multi_period_portfolio.py 560-567 *)
Definition multi_weights_per_observation (ps : list portfolio) : option (frame Z) :=
  match objects ps with
  | None => None
  | Some ps =>
      let df := fillna (concat_rows (map weights_per_observation ps)) in
      Some {| columns := columns df; rows := sort_index (rows df) |}
  end.

(** ** The table drawn by Population.plot_cumulative_returns, _population.py 565-605 *)

(** cumulative_returns_df, portfolio/_base.py 691-698 *)
Definition cumulative_returns_df (p : portfolio) : frame Z :=
  {| columns := ["cumulative_returns"%string];
     rows := map (fun oc => (fst oc, [Some (snd oc)])) (combine (observations p) (cumulative_returns p)) |}.

(** df.iloc[:, idx] for an array of positions; [None]: IndexError *)
Definition take_positions {X} (l : list X) (idx : list nat) : option (list X) := all_some (map (nth_error l) idx).
Fixpoint all_rows (rs : list (Z * list (option R))) (idx : list nat) : option (list (Z * list (option R))) :=
  match rs with
  | [] => Some []
  | r :: rest =>
      match take_positions (snd r) idx, all_rows rest idx with
      | Some c, Some rest => Some ((fst r, c) :: rest)
      | _, _ => None
      end
  end.
Definition iloc_columns (f : frame Z) (idx : list nat) : option (frame Z) :=
  match take_positions (columns f) idx, all_rows (rows f) idx with
  | Some c, Some r => Some {| columns := c; rows := r |}
  | _, _ => None
  end.

(** [idx = None] selects every column; the assignment of the names raises ValueError if their number differs *)
Definition plotted (idx : option (list nat)) (ps : list portfolio) : option (frame Z) :=
  match objects ps with
  | None => None
  | Some ps =>
      let df := concat_columns Z.eqb (map cumulative_returns_df ps) in
      match (match idx with None => Some df | Some idx => iloc_columns df idx end) with
      | None => None
      | Some df =>
          let names := deduplicate_names (map name ps) in
          if (List.length names =? List.length (columns df))%nat
          then Some {| columns := names; rows := sort_index (rows df) |}
          else None
      end
  end.
End Tables.

(** ** Figures *)

(** get_weight, _portfolio.py 845-861: the first match; [None]: IndexError *)
Definition get_weight (p : portfolio) (a : string) : option R :=
  option_map snd (find (fun aw => String.eqb (fst aw) a) (combine (assets p) (weights p))).

(** a column of X *)
Definition asset_returns (p : portfolio) (j : nat) : list R := map (fun row => nth j row 0) (data p).

(** np.std(X, axis=0): ddof = 0 *)
Definition population_std (x : list R) : R := sqrt (rsum (map (fun v => (v - mean x) ^ 2) x) / len x).

(** diversification, 684-689 *)
Definition diversification (p : portfolio) : R :=
  dot (weights p) (map (fun j => population_std (asset_returns p j)) (seq 0 (List.length (assets p))))
  / standard_deviation (returns p).

(** expected_returns_from_assets, 730-747 *)
Definition expected_returns_from_assets (p : portfolio) (mu : list R) : R :=
  dot (weights p) mu - total_cost p - total_fee p.

(** variance_from_assets, 749-763 *)
Definition variance_from_assets (p : portfolio) (cov : list (list R)) : R :=
  dot (weights p) (map (fun row => dot row (weights p)) cov).
