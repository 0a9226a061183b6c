(** Model of src/skfolio/preprocessing/_returns.py (prices_to_returns) and src/skfolio/utils/bootstrap.py
    (stationary_bootstrap).  No proofs here. *)
From Coq Require Import List ZArith Bool Arith Reals.
Import ListNotations.
Local Open Scope R_scope.

(** * prices_to_returns, lines 14-131 *)
(** A DataFrame: rows with a label (the index) and one cell per column; None is a missing value.
    Simplifications: X.join(y, how=join) (line 97) is done by pandas before the model starts: the table is the joined
    one, its first [n_assets] columns are those of X, the others those of y; a price is a non-zero real (no inf). *)
Notation row := (list (option R)) (only parsing).
Notation table := (list (Z * list (option R))) (only parsing).

Definition is_na (c : option R) : bool := match c with None => true | Some _ => false end.
Definition count_nan (r : row) : nat := length (filter is_na r).
(** lines 102-109: rows are dropped by label *)
Definition drop_above (n_assets : nat) (nan_threshold : R) (df : table) : table :=
  let to_drop := map fst (filter (fun r => if Rlt_dec (INR n_assets * nan_threshold) (INR (count_nan (snd r))) then true else false) df) in
  filter (fun r => negb (existsb (Z.eqb (fst r)) to_drop)) df.
(** df.ffill, lines 112-113 *)
Fixpoint fill_row (prev cur : row) : row :=
  match prev, cur with
  | p :: prev, c :: cur => (match c with Some _ => c | None => p end) :: fill_row prev cur
  | _, cur => cur
  end.
Fixpoint ffill (prev : row) (df : table) : table :=
  match df with
  | [] => []
  | (l, r) :: df => let f := fill_row prev r in (l, f) :: ffill f df
  end.
(** df.dropna on rows, line 116 *)
Definition dropna_rows (any : bool) (df : table) : table :=
  filter (fun r => if any then negb (existsb is_na (snd r)) else negb (forallb is_na (snd r))) df.
(** df.dropna(axis=1, how="all"), line 118: the remaining columns *)
Definition columns_left (n_columns : nat) (df : table) : list nat :=
  filter (fun j => existsb (fun r => negb (is_na (nth j (snd r) None))) df) (seq 0 n_columns).
(** pct_change(fill_method=None).iloc[1:] and np.log1p, lines 121-123 *)
Definition change (log_returns : bool) (a b : option R) : option R :=
  match a, b with
  | Some x, Some y => let r := y / x - 1 in Some (if log_returns then ln (1 + r) else r)
  | _, _ => None
  end.
Fixpoint changes (log_returns : bool) (cols : list nat) (df : table) : table :=
  match df with
  | (_, a) :: (((l, b) :: _) as df') => (l, map (fun j => change log_returns (nth j a None) (nth j b None)) cols) :: changes log_returns cols df'
  | _ => []
  end.
(** the columns of X and of y that are left, and the returns of each of them; None: ValueError *)
Definition select (df : table) (cols : list nat) (p : nat -> bool) : table :=
  map (fun r => (fst r, map snd (filter (fun c => p (fst c)) (combine cols (snd r))))) df.
(** lines 111-131 *)
Definition clean_returns (df : table) (n_assets n_columns : nat) (log_returns drop_inceptions_nan fill_nan : bool)
  : (list nat * table) * (list nat * table) :=
  let df := if fill_nan then ffill (repeat None n_columns) df else df in
  let df := dropna_rows drop_inceptions_nan df in
  let cols := columns_left n_columns df in
  let all_returns := changes log_returns cols df in
  let of_X := fun j => (j <? n_assets)%nat in
  let of_y := fun j => negb (j <? n_assets)%nat in
  ((filter of_X cols, select all_returns cols of_X), (filter of_y cols, select all_returns cols of_y)).
(** lines 90-131 *)
Definition prices_to_returns (df : table) (n_assets n_columns : nat) (log_returns : bool) (nan_threshold : option R) (drop_inceptions_nan fill_nan : bool)
  : option ((list nat * table) * (list nat * table)) :=
  match nan_threshold with
  | None => Some (clean_returns df n_assets n_columns log_returns drop_inceptions_nan fill_nan)
  | Some t =>
      if Rlt_dec 0 t then
        if Rle_dec t 1 then Some (clean_returns (drop_above n_assets t df) n_assets n_columns log_returns drop_inceptions_nan fill_nan)
        else None
      else None
  end.

(** * stationary_bootstrap, bootstrap.py lines 67-118 *)
Section Bootstrap.
  Variable A : Type.   (* a row of returns *)
  (** lines 111-115 for one sample: [base] is the row of np.random.randint, [cond] of np.random.rand >= 1 / block_size *)
  Fixpoint chain (prev : nat) (base : list nat) (cond : list bool) : list nat :=
    match base, cond with
    | b :: base, c :: cond => let i := if c then (prev + 1)%nat else b in i :: chain i base cond
    | _, _ => []
    end.
  Definition indices (base : list nat) (cond : list bool) : list nat :=
    match base, cond with b :: base, _ :: cond => b :: chain b base cond | _, _ => [] end.
  (** lines 97, 116-117; None: IndexError *)
  Definition sample (returns : list A) (base : list nat) (cond : list bool) : list (option A) :=
    let n_observations := length returns in
    let x := returns ++ returns in
    map (fun i => nth_error x (if (2 * n_observations <? i)%nat then 0%nat else i)) (indices base cond).
  Definition stationary_bootstrap (returns : list A) (block_size : R) (draws : list (list nat * list R)) : list (list (option A)) :=
    map (fun d => sample returns (fst d) (map (fun u => if Rle_dec (1 / block_size) u then true else false) (snd d))) draws.
End Bootstrap.
