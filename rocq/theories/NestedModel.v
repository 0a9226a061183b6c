(** Model of the data handed to the estimators inside nested clusters
    optimization and stacking, and by cross_val_predict:

      src/skfolio/utils/tools.py 147-187 (_check_method_params), 190-219
      (safe_indexing), 222-261 (safe_split), 573-615 (fit_single_estimator),
      618-685 (fit_and_predict);
      src/skfolio/model_selection/_validation.py 130-254 (cross_val_predict);
      src/skfolio/optimization/cluster/_nco.py 278-389 and
      src/skfolio/optimization/ensemble/_stacking.py 283-350 (the data on
      which the outer and the final estimators are fitted).

    No proofs here.  Simplifications: tables are lists of rows; fitting an
    estimator is an oracle [fit X y params] that does not raise and predicting
    with it is an oracle on one row (C66: predict computes the return of each
    row from the fitted weights); the routing of the parameters (C76), the
    validation of the data and the joblib parallelism are left out; when
    several exceptions are possible, which one is raised first is not
    modelled. *)
From Coq Require Import String List Arith Bool.
From Verif Require Import CombinatorialModel CrossValModel.
Import ListNotations.

Inductive err := ValueError | IndexError | CvError (e : cv_error).
Inductive result (A : Type) := Value (x : A) | Raise (e : err).
Arguments Value {A} x. Arguments Raise {A} e.

Definition bind {A B} (x : result A) (f : A -> result B) : result B :=
  match x with Value a => f a | Raise e => Raise e end.

(** A list comprehension whose body may raise. *)
Fixpoint each {A B} (f : A -> result B) (l : list A) : result (list B) :=
  match l with
  | [] => Value []
  | x :: r => bind (f x) (fun y => bind (each f r) (fun ys => Value (y :: ys)))
  end.

(** numpy and pandas indexing with a list of positions. *)
Definition pick {A} (l : list A) (i : nat) : result A :=
  match nth_error l i with Some x => Value x | None => Raise IndexError end.
Definition take {A} (idx : list nat) (l : list A) : result (list A) := each (pick l) idx.

Section Data.
Variable A : Type.               (* entries of the tables *)
Definition table := list (list A).

Inductive axis := Rows | Columns.

(** safe_indexing, tools.py 190-219 *)
Definition safe_indexing (X : table) (indices : option (list nat)) (ax : axis) : result table :=
  match indices with
  | None => Value X
  | Some idx => match ax with
                | Rows => take idx X
                | Columns => each (take idx) X
                end
  end.

(** safe_split, tools.py 222-261 *)
Definition safe_split (X : table) (y : option table) (indices : option (list nat)) (ax : axis)
  : result (table * option table) :=
  bind (safe_indexing X indices ax) (fun Xs =>
    match y with
    | Some y => bind (safe_indexing y indices ax) (fun ys => Value (Xs, Some ys))
    | None => Value (Xs, None)
    end).

Definition params := list (string * table).

(** _check_method_params, tools.py 147-187 *)
Definition check_method_params (X : table) (P : params) (indices : option (list nat)) (ax : axis)
  : result params :=
  each (fun kv =>
          if (length (snd kv) =? length X)
          then bind (safe_indexing (snd kv) indices ax) (fun v => Value (fst kv, v))
          else Raise ValueError) P.

Variable W : Type.                                            (* fitted estimators *)
Definition estimator := table -> option table -> params -> W. (* fit *)
Variable ret : W -> list A -> A.                              (* predict on one row *)

(** fit_single_estimator, tools.py 573-615 *)
Definition fit_single_estimator (fit : estimator) (X : table) (y : option table) (P : params)
           (indices : option (list nat)) (ax : axis) : result W :=
  bind (check_method_params X P indices ax) (fun P' =>
    bind (safe_split X y indices ax) (fun Xy => Value (fit (fst Xy) (snd Xy) P'))).

(** fit_and_predict, tools.py 618-685, without column_indices (cross_val_predict selects the
    columns itself): the returns predicted on one test fold *)
Definition fit_and_predict (fit : estimator) (X : table) (y : option table) (train test : list nat)
           (P : params) : result (list A) :=
  bind (check_method_params X P (Some train) Rows) (fun P' =>
    bind (safe_split X y (Some train) Rows) (fun Xy =>
      let w := fit (fst Xy) (snd Xy) P' in
      bind (safe_indexing X (Some test) Rows) (fun Xt => Value (map (ret w) Xt)))).

(** The cross-validation of the inner estimators. *)
Inductive cross_validation :=
| Ignore                                                       (* cv="ignore" *)
| Splitter (shuffle : option bool) (splits : list (list nat * list nat))
| Combinatorial (K k pu em : nat).                             (* CombinatorialPurgedCV *)

(** pred.quantile(measure, q) on the population of paths *)
Variable quantile : list (list A) -> option (list A).

(** cross_val_predict, _validation.py 130-254, followed by np.asarray: the returns of the
    multi-period portfolio, or of the chosen path *)
Definition cross_val_returns (fit : estimator) (X : table) (y : option table)
           (cv : cross_validation) (P : params) (columns : option (list nat)) : result (list A) :=
  bind (safe_split X y columns Columns) (fun Xy =>
    let predict tr te := fit_and_predict fit (fst Xy) (snd Xy) tr te P in
    match cv with
    | Ignore => Raise ValueError
    | Splitter shuffle splits =>
        match cross_val_predict (result (list A)) predict shuffle splits with
        | Err e => Raise (CvError e)
        | Ok portfolios => bind (each (fun p => p) portfolios) (fun l => Value (concat l))
        end
    | Combinatorial K k pu em =>
        match cross_val_predict_combinatorial (result (list A)) predict K k pu em (length X) with
        | None => Raise ValueError
        | Some paths =>
            bind (each (fun path => bind (each (fun p => p) path) (fun l => Value (concat l))) paths)
              (fun population => match quantile population with
                                 | Some s => Value s
                                 | None => Raise ValueError
                                 end)
        end
    end).

(** np.sort(np.concatenate([test for _, test in cv.split(X, y)])) *)
Fixpoint insert (x : nat) (l : list nat) : list nat :=
  match l with
  | [] => [x]
  | y :: r => if x <=? y then x :: l else y :: insert x r
  end.
Definition sort (l : list nat) : list nat := fold_right insert [] l.

Definition test_indices (X : table) (cv : cross_validation) : list nat :=
  match cv with
  | Splitter _ splits => sort (concat (map snd splits))
  | _ => seq 0 (length X)
  end.

(** np.array(X_pred).T : columns of unequal lengths raise *)
Definition transpose (columns : list (list A)) : result table :=
  match columns with
  | [] => Raise ValueError
  | c :: _ =>
      if forallb (fun d => length d =? length c) columns
      then each (fun i => each (fun d => pick d i) columns) (seq 0 (length c))
      else Raise ValueError
  end.

Definition is_single (ids : list nat) : bool := length ids =? 1.

(** NestedClustersOptimization.fit, _nco.py 278-389: the data on which the outer estimator is
    fitted.  The iterators over the predictions are replaced by one prediction per cluster
    (ComposeModel has the iterators). *)
Definition nco_column (fit : estimator) (X : table) (y : option table) (P : params)
           (cv : cross_validation) (ids : list nat) : result (list A) :=
  if is_single ids then
    bind (take (test_indices X cv) X) (fun rows => each (fun row => pick row (hd 0 ids)) rows)
  else
    bind (fit_single_estimator fit X y P (Some ids) Columns) (fun w =>
      match cv with
      | Ignore =>
          bind (take (test_indices X cv) X) (fun rows =>
            bind (each (take ids) rows) (fun sub => Value (map (ret w) sub)))
      | _ => cross_val_returns fit X y cv P (Some ids)
      end).

Definition nco_outer_data (fit : estimator) (X : table) (y : option table) (P : params)
           (cv : cross_validation) (clusters : list (list nat)) : result (table * option table) :=
  bind (each (nco_column fit X y P cv) clusters) (fun columns =>
    bind (match y with
          | Some y => bind (take (test_indices X cv) y) (fun y' => Value (Some y'))
          | None => Value None
          end) (fun y_pred =>
      bind (transpose columns) (fun X_pred => Value (X_pred, y_pred)))).

(** StackingOptimization.fit, _stacking.py 283-350: the data on which the final estimator is
    fitted; each estimator comes with its routed parameters *)
Definition stacking_column (X : table) (y : option table) (cv : cross_validation)
           (e : estimator * params) : result (list A) :=
  bind (fit_single_estimator (fst e) X y (snd e) None Rows) (fun w =>
    match cv with
    | Ignore => Value (map (ret w) X)
    | _ => cross_val_returns (fst e) X y cv (snd e) None
    end).

Definition stacking_final_data (X : table) (y : option table) (cv : cross_validation)
           (estimators : list (estimator * params)) : result (table * option table) :=
  bind (each (stacking_column X y cv) estimators) (fun columns =>
    bind (transpose columns) (fun X_pred =>
      match cv, y with
      | Splitter _ _, Some y => bind (take (test_indices X cv) y) (fun y' => Value (X_pred, Some y'))
      | _, _ => Value (X_pred, y)
      end)).

End Data.
