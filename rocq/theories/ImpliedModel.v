(** Model of ImpliedCovariance.fit, _predict_realised_vols, _compute_realised_vol,
    _compute_implied_vol and check_implied_vol:
    src/skfolio/moments/covariance/_implied_covariance.py 210-460.

    Numbers are reals.  A table is the list of its rows; a row gives the value of
    each column.  The prior covariance estimator is an input ([prior], the
    covariance it estimates) and so is the regressor: [regress features targets]
    is the prediction function of the fitted model.  The nearest-covariance
    correction of [_set_covariance] is C42.  NaN, infinities and overflow are not
    modelled: [ln] and the divisions are meaningful on positive volatilities, as
    the theorems require.  Column names are positions in a list. *)
From Coq Require Import Reals List Arith Bool.
Import ListNotations.
Open Scope R_scope.

Inductive error := ValueError.
Inductive result (A : Type) := Ok (a : A) | Err (e : error).
Arguments Ok {A} a.
Arguments Err {A} e.
Definition row := nat -> R.
Definition table := list row.

Fixpoint rsum (l : list R) : R := match l with [] => 0 | x :: l => x + rsum l end.
Definition mean (l : list R) : R := rsum l / INR (length l).
(** [np.std(l, ddof=1)] *)
Definition std1 (l : list R) : R := sqrt (rsum (map (fun x => (x - mean l) ^ 2) l) / (INR (length l) - 1)).

(** [np.reshape(x, (chunks, w, n_assets))]: consecutive groups of [w] rows *)
Fixpoint groups (chunks w : nat) (x : table) : list table :=
  match chunks with
  | O => []
  | S chunks => firstn w x :: groups chunks w (skipn w x)
  end.
(** _compute_realised_vol, 385-399: one row per window *)
Definition compute_realised_vol (returns : table) (w : nat) : table :=
  let n := length returns in
  let chunks := (n / w)%nat in
  map (fun (g : table) i => std1 (map (fun r : row => r i) g)) (groups chunks w (skipn (n - chunks * w) returns)).
(** [np.arange(start, stop, step)]; [fuel] is any number at least [stop] *)
Fixpoint arange (fuel start stop step : nat) : list nat :=
  match fuel with
  | O => []
  | S fuel => if start <? stop then start :: arange fuel (start + step) stop step else []
  end.
Definition zero_row : row := fun _ => 0.
(** _compute_implied_vol, 402-410 *)
Definition compute_implied_vol (implied_vol : table) (w : nat) : table :=
  let n := length implied_vol in
  let chunks := (n / w)%nat in
  map (fun t => nth t implied_vol zero_row) (arange n (n - (chunks - 1) * w - 1) n w).

(** _predict_realised_vols, 329-382: the predicted volatility of each asset *)
Definition regressor := list (R * R) -> list R -> R * R -> R.
Definition predict_realised_vols (regress : regressor) (returns implied_vol : table) (w : nat) : result row :=
  let n_folds := (length returns / w)%nat in
  if n_folds <? 3 then Err ValueError
  else
    let realised := compute_realised_vol returns w in
    let implied := compute_implied_vol implied_vol w in
    if negb (length realised =? length implied) then Err ValueError
    else
      Ok (fun i =>
        let rv := map (fun r : row => ln (r i)) realised in
        let iv := map (fun r : row => ln (r i)) implied in
        let X := combine iv rv in
        let model := regress (removelast X) (tl rv) in
        exp (model (last X (0, 0)))).

(** [volatility_risk_premium_adj]: a number, or one value per asset (None where [input_to_array] leaves NaN) *)
Inductive premium := Scalar (x : R) | PerAsset (x : nat -> option R).

(** The caller's [implied_vol]: its rows, whether it is an ndarray of floats in C order, that
    [check_array(copy=False)] returns as is (so that the later [/=] writes in it), and the names of its columns if it has any. *)
Record implied_input := { rows : table; same_object : bool; names : option (list nat) }.

(** [np.argwhere(x == vol_assets_names)[0][0]] *)
Fixpoint find_name (x : nat) (l : list nat) (at_ : nat) : option nat :=
  match l with
  | [] => None
  | y :: l => if x =? y then Some at_ else find_name x l (S at_)
  end.
Definition select (indices : list nat) (t : table) : table := map (fun (r : row) i => r (nth i indices 0%nat)) t.

(** cov_to_corr and corr_to_cov, utils/stats.py 275-276, 301 *)
Definition cov_to_corr (c : nat -> nat -> R) : nat -> nat -> R := fun i j => c i j / sqrt (c j j) / sqrt (c i i).
Definition corr_to_cov (corr : nat -> nat -> R) (std : row) : nat -> nat -> R := fun i j => corr i j * std j * std i.

(** ImpliedCovariance.fit, 210-327.  Returns the covariance handed to [_set_covariance] (or the error), and the
    contents of the caller's implied_vol afterwards.  [cols] is the number of columns of the implied volatilities. *)
Section Fit.
Variables (regress : regressor) (n_assets : nat).
Fixpoint all_below (f : nat -> bool) (n : nat) : bool := match n with O => true | S n => f n && all_below f n end.
Definition Rpos_bool (x : R) : bool := if Rlt_dec 0 x then true else false.
Definition premium_ok (p : premium) : bool :=
  match p with
  | Scalar x => Rpos_bool x
  | PerAsset x => all_below (fun i => match x i with Some v => Rpos_bool v | None => false end) n_assets
  end.
Definition premium_value (p : premium) (i : nat) : R := match p with Scalar x => x | PerAsset x => match x i with Some v => v | None => 0 end end.
(** 257-274: column selection and reordering by name *)
Definition match_columns (assets_names : option (list nat)) (iv : implied_input) : result implied_input :=
  match assets_names with
  | None => Ok iv
  | Some a =>
    match names iv with
    | None => Ok iv
    | Some v =>
      if forallb (fun x => existsb (Nat.eqb x) v) a
      then Ok {| rows := select (map (fun x => match find_name x v 0 with Some k => k | None => 0%nat end) a) (rows iv);
                 same_object := false; names := Some a |}
      else Err ValueError
    end
  end.
Definition scale_table (c : R) (t : table) : table := map (fun (r : row) i => r i / c) t.
Definition fit (prior : nat -> nat -> R) (assets_names : option (list nat)) (returns : table) (cols : nat) (iv : option implied_input)
    (annualized_factor : R) (adj : option premium) (window_size : nat) : result (nat -> nat -> R) * option implied_input :=
  match iv with
  | None => (Err ValueError, None)
  | Some iv =>
    match match_columns assets_names iv with
    | Err e => (Err e, Some iv)
    | Ok iv' =>
      let cols := match assets_names, names iv with Some a, Some _ => length a | _, _ => cols end in
      (** check_implied_vol: the shapes must agree; the sign check looks at the shape, not at the values *)
      if negb ((length (rows iv') =? length returns)%nat && (cols =? n_assets)%nat) then (Err ValueError, Some iv)
      else
        (** [implied_vol /= np.sqrt(annualized_factor)] *)
        let scaled := scale_table (sqrt annualized_factor) (rows iv') in
        let after := if same_object iv' then {| rows := scaled; same_object := true; names := names iv |} else iv in
        let corr := cov_to_corr prior in
        match adj with
        | Some p =>
          if premium_ok p then (Ok (corr_to_cov corr (fun i => last scaled zero_row i / premium_value p i)), Some after)
          else (Err ValueError, Some after)
        | None =>
          if (window_size <? 3)%nat then (Err ValueError, Some after)
          else match predict_realised_vols regress returns scaled window_size with
               | Ok p => (Ok (corr_to_cov corr p), Some after)
               | Err e => (Err e, Some after)
               end
        end
    end
  end.
End Fit.
