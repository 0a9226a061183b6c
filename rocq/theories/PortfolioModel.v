(** Model of the measure enumerations (src/skfolio/measures/_enums.py) and of the measure
    attributes and their cache in src/skfolio/portfolio/_base.py.  No proofs here. *)
From Coq Require Import String Ascii Reals List Bool Arith.
From Verif Require Import RList MeasuresModel.
Import ListNotations.
Local Open Scope string_scope.
Local Open Scope list_scope.
Local Open Scope R_scope.

(** The members of PerfMeasure, RiskMeasure, ExtraRiskMeasure and RatioMeasure,
    measures/_enums.py lines 75-338, in declaration order. *)
Inductive measure :=
| MEAN
| ANNUALIZED_MEAN
| VARIANCE
| ANNUALIZED_VARIANCE
| SEMI_VARIANCE
| ANNUALIZED_SEMI_VARIANCE
| STANDARD_DEVIATION
| ANNUALIZED_STANDARD_DEVIATION
| SEMI_DEVIATION
| ANNUALIZED_SEMI_DEVIATION
| MEAN_ABSOLUTE_DEVIATION
| CVAR
| EVAR
| WORST_REALIZATION
| CDAR
| MAX_DRAWDOWN
| AVERAGE_DRAWDOWN
| EDAR
| FIRST_LOWER_PARTIAL_MOMENT
| ULCER_INDEX
| GINI_MEAN_DIFFERENCE
| VALUE_AT_RISK
| DRAWDOWN_AT_RISK
| ENTROPIC_RISK_MEASURE
| FOURTH_CENTRAL_MOMENT
| FOURTH_LOWER_PARTIAL_MOMENT
| SKEW
| KURTOSIS
| SHARPE_RATIO
| ANNUALIZED_SHARPE_RATIO
| SORTINO_RATIO
| ANNUALIZED_SORTINO_RATIO
| MEAN_ABSOLUTE_DEVIATION_RATIO
| FIRST_LOWER_PARTIAL_MOMENT_RATIO
| VALUE_AT_RISK_RATIO
| CVAR_RATIO
| ENTROPIC_RISK_MEASURE_RATIO
| EVAR_RATIO
| WORST_REALIZATION_RATIO
| DRAWDOWN_AT_RISK_RATIO
| CDAR_RATIO
| CALMAR_RATIO
| AVERAGE_DRAWDOWN_RATIO
| EDAR_RATIO
| ULCER_INDEX_RATIO
| GINI_MEAN_DIFFERENCE_RATIO.

Inductive mclass := Perf | Risk | Extra | Ratio.
Definition class_of (m : measure) : mclass :=
  match m with
  | MEAN | ANNUALIZED_MEAN => Perf
  | VALUE_AT_RISK | DRAWDOWN_AT_RISK | ENTROPIC_RISK_MEASURE | FOURTH_CENTRAL_MOMENT | FOURTH_LOWER_PARTIAL_MOMENT | SKEW | KURTOSIS => Extra
  | SHARPE_RATIO | ANNUALIZED_SHARPE_RATIO | SORTINO_RATIO | ANNUALIZED_SORTINO_RATIO | MEAN_ABSOLUTE_DEVIATION_RATIO | FIRST_LOWER_PARTIAL_MOMENT_RATIO | VALUE_AT_RISK_RATIO | CVAR_RATIO | ENTROPIC_RISK_MEASURE_RATIO | EVAR_RATIO | WORST_REALIZATION_RATIO | DRAWDOWN_AT_RISK_RATIO | CDAR_RATIO | CALMAR_RATIO | AVERAGE_DRAWDOWN_RATIO | EDAR_RATIO | ULCER_INDEX_RATIO | GINI_MEAN_DIFFERENCE_RATIO => Ratio
  | _ => Risk
  end.
Definition measures : list measure :=
  [MEAN; ANNUALIZED_MEAN; VARIANCE; ANNUALIZED_VARIANCE; SEMI_VARIANCE; ANNUALIZED_SEMI_VARIANCE; STANDARD_DEVIATION; ANNUALIZED_STANDARD_DEVIATION; SEMI_DEVIATION; ANNUALIZED_SEMI_DEVIATION; MEAN_ABSOLUTE_DEVIATION; CVAR; EVAR; WORST_REALIZATION; CDAR; MAX_DRAWDOWN; AVERAGE_DRAWDOWN; EDAR; FIRST_LOWER_PARTIAL_MOMENT; ULCER_INDEX; GINI_MEAN_DIFFERENCE; VALUE_AT_RISK; DRAWDOWN_AT_RISK; ENTROPIC_RISK_MEASURE; FOURTH_CENTRAL_MOMENT; FOURTH_LOWER_PARTIAL_MOMENT; SKEW; KURTOSIS; SHARPE_RATIO; ANNUALIZED_SHARPE_RATIO; SORTINO_RATIO; ANNUALIZED_SORTINO_RATIO; MEAN_ABSOLUTE_DEVIATION_RATIO; FIRST_LOWER_PARTIAL_MOMENT_RATIO; VALUE_AT_RISK_RATIO; CVAR_RATIO; ENTROPIC_RISK_MEASURE_RATIO; EVAR_RATIO; WORST_REALIZATION_RATIO; DRAWDOWN_AT_RISK_RATIO; CDAR_RATIO; CALMAR_RATIO; AVERAGE_DRAWDOWN_RATIO; EDAR_RATIO; ULCER_INDEX_RATIO; GINI_MEAN_DIFFERENCE_RATIO].

(** AutoEnum, utils/tools.py lines 46-54: the value is the lower-case name *)
Definition value (m : measure) : string :=
  match m with
  | MEAN => "mean"
  | ANNUALIZED_MEAN => "annualized_mean"
  | VARIANCE => "variance"
  | ANNUALIZED_VARIANCE => "annualized_variance"
  | SEMI_VARIANCE => "semi_variance"
  | ANNUALIZED_SEMI_VARIANCE => "annualized_semi_variance"
  | STANDARD_DEVIATION => "standard_deviation"
  | ANNUALIZED_STANDARD_DEVIATION => "annualized_standard_deviation"
  | SEMI_DEVIATION => "semi_deviation"
  | ANNUALIZED_SEMI_DEVIATION => "annualized_semi_deviation"
  | MEAN_ABSOLUTE_DEVIATION => "mean_absolute_deviation"
  | CVAR => "cvar"
  | EVAR => "evar"
  | WORST_REALIZATION => "worst_realization"
  | CDAR => "cdar"
  | MAX_DRAWDOWN => "max_drawdown"
  | AVERAGE_DRAWDOWN => "average_drawdown"
  | EDAR => "edar"
  | FIRST_LOWER_PARTIAL_MOMENT => "first_lower_partial_moment"
  | ULCER_INDEX => "ulcer_index"
  | GINI_MEAN_DIFFERENCE => "gini_mean_difference"
  | VALUE_AT_RISK => "value_at_risk"
  | DRAWDOWN_AT_RISK => "drawdown_at_risk"
  | ENTROPIC_RISK_MEASURE => "entropic_risk_measure"
  | FOURTH_CENTRAL_MOMENT => "fourth_central_moment"
  | FOURTH_LOWER_PARTIAL_MOMENT => "fourth_lower_partial_moment"
  | SKEW => "skew"
  | KURTOSIS => "kurtosis"
  | SHARPE_RATIO => "sharpe_ratio"
  | ANNUALIZED_SHARPE_RATIO => "annualized_sharpe_ratio"
  | SORTINO_RATIO => "sortino_ratio"
  | ANNUALIZED_SORTINO_RATIO => "annualized_sortino_ratio"
  | MEAN_ABSOLUTE_DEVIATION_RATIO => "mean_absolute_deviation_ratio"
  | FIRST_LOWER_PARTIAL_MOMENT_RATIO => "first_lower_partial_moment_ratio"
  | VALUE_AT_RISK_RATIO => "value_at_risk_ratio"
  | CVAR_RATIO => "cvar_ratio"
  | ENTROPIC_RISK_MEASURE_RATIO => "entropic_risk_measure_ratio"
  | EVAR_RATIO => "evar_ratio"
  | WORST_REALIZATION_RATIO => "worst_realization_ratio"
  | DRAWDOWN_AT_RISK_RATIO => "drawdown_at_risk_ratio"
  | CDAR_RATIO => "cdar_ratio"
  | CALMAR_RATIO => "calmar_ratio"
  | AVERAGE_DRAWDOWN_RATIO => "average_drawdown_ratio"
  | EDAR_RATIO => "edar_ratio"
  | ULCER_INDEX_RATIO => "ulcer_index_ratio"
  | GINI_MEAN_DIFFERENCE_RATIO => "gini_mean_difference_ratio"
  end%string.

Definition measure_eq_dec (a b : measure) : {a = b} + {a <> b}.
Proof. decide equality. Defined.
Definition class_eqb (a b : mclass) : bool :=
  match a, b with Perf, Perf | Risk, Risk | Extra, Extra | Ratio, Ratio => true | _, _ => false end.

(** lookup of a member of one enumeration by value; None is ValueError / AttributeError *)
Definition member (c : mclass) (v : string) : option measure :=
  find (fun m => class_eqb (class_of m) c && String.eqb (value m) v) measures.

(** is_annualized, annualized_measure, non_annualized_measure, _enums.py lines 52-72
    (on lower-case values instead of upper-case names) *)
Definition is_annualized (m : measure) : bool := String.eqb (substring 0 10 (value m)) "annualized".
Definition annualized_measure (m : measure) : option measure :=
  if is_annualized m then None else member (class_of m) ("annualized_" ++ value m)%string.
Definition non_annualized_measure (m : measure) : option measure :=
  if is_annualized m then member (class_of m) (substring 11 (String.length (value m)) (value m)) else None.

(** str.replace(pat, ""), pat not empty; the fuel is the length of the string *)
Fixpoint remove_all (fuel : nat) (pat s : string) : string :=
  match fuel, s with
  | O, _ => s
  | _, EmptyString => EmptyString
  | S fuel, String c s' =>
      if prefix pat s then remove_all fuel pat (substring (String.length pat) (String.length s) s)
      else String c (remove_all fuel pat s')
  end.

(** linked_risk_measure, _enums.py lines 339-358 *)
Definition linked_risk_measure (m : measure) : option measure :=
  match m with
  | SHARPE_RATIO => Some STANDARD_DEVIATION
  | ANNUALIZED_SHARPE_RATIO => Some ANNUALIZED_STANDARD_DEVIATION
  | SORTINO_RATIO => Some SEMI_DEVIATION
  | ANNUALIZED_SORTINO_RATIO => Some ANNUALIZED_SEMI_DEVIATION
  | CALMAR_RATIO => Some MAX_DRAWDOWN
  | _ =>
      match class_of m with
      | Ratio =>
          let r := remove_all (String.length (value m)) "_ratio" (value m) in
          match member Risk r with Some k => Some k | None => member Extra r end
      | _ => None
      end
  end.

(** Python values met as arguments of the measure functions *)
Inductive pval := VArr (l : list R) | VNum (x : R) | VOpt (x : option R) | VBool (b : bool).

(** args_names(func) for the functions of measures/_measures.py, lines 13-606 *)
Definition args_names (f : string) : option (list string) :=
  if existsb (String.eqb f) ["mean"; "variance"; "standard_deviation"; "skew"; "fourth_central_moment";
                             "kurtosis"; "worst_realization"; "gini_mean_difference"] then Some ["returns"]
  else if existsb (String.eqb f) ["mean_absolute_deviation"; "first_lower_partial_moment"; "semi_variance";
                             "semi_deviation"; "fourth_lower_partial_moment"] then Some ["returns"; "min_acceptable_return"]
  else if existsb (String.eqb f) ["value_at_risk"; "cvar"; "evar"] then Some ["returns"; "beta"]
  else if String.eqb f "entropic_risk_measure" then Some ["returns"; "theta"; "beta"]
  else if existsb (String.eqb f) ["drawdown_at_risk"; "cdar"; "edar"] then Some ["drawdowns"; "beta"]
  else if existsb (String.eqb f) ["max_drawdown"; "average_drawdown"; "ulcer_index"] then Some ["drawdowns"]
  else None.

(** A measure value; None stands for NaN or an infinity (including "an exception was caught",
    _base.py lines 769-775) *)
Definition need (n : nat) (r : list R) (v : R) : option R := if (length r <? n)%nat then None else Some v.
Definition ratio (a b : option R) : option R :=
  match a, b with Some x, Some y => if Req_EM_T y 0 then None else Some (x / y) | _, _ => None end.

Section Portfolio.
  Variable partition : list R -> nat -> list R.   (* np.partition *)
  Variable sort : list R -> list R.               (* np.sort *)
  Variable solver : (R -> R) -> R -> R.           (* scipy minimize inside evar *)

  (** func(args): the function named [f] of measures/_measures.py applied to its arguments in the
      order of args_names.  A wrong name or argument type gives None (exception caught). *)
  Definition call (f : string) (args : list pval) : option R :=
    match args with
    | [VArr r] =>
        if String.eqb f "mean" then need 1 r (mean r)
        else if String.eqb f "variance" then need 2 r (variance r)
        else if String.eqb f "standard_deviation" then need 2 r (standard_deviation r)
        else if String.eqb f "skew" then
          ratio (need 2 r (third_central_moment r)) (Some (standard_deviation r ^ 3))
        else if String.eqb f "fourth_central_moment" then need 1 r (fourth_central_moment r)
        else if String.eqb f "kurtosis" then
          ratio (need 2 r (fourth_central_moment r)) (Some (standard_deviation r ^ 4))
        else if String.eqb f "worst_realization" then need 1 r (worst_realization r)
        else if String.eqb f "gini_mean_difference" then need 2 r (gini_mean_difference sort r)
        else if String.eqb f "max_drawdown" then need 1 r (max_drawdown partition r)
        else if String.eqb f "average_drawdown" then need 1 r (average_drawdown partition r)
        else if String.eqb f "ulcer_index" then need 1 r (ulcer_index r)
        else None
    | [VArr r; VOpt mar] =>
        if String.eqb f "mean_absolute_deviation" then need 1 r (mean_absolute_deviation r mar)
        else if String.eqb f "first_lower_partial_moment" then need 1 r (first_lower_partial_moment r mar)
        else if String.eqb f "semi_variance" then need 2 r (semi_variance r mar)
        else if String.eqb f "semi_deviation" then need 2 r (semi_deviation r mar)
        else if String.eqb f "fourth_lower_partial_moment" then need 1 r (fourth_lower_partial_moment r mar)
        else None
    | [VArr r; VNum beta] =>
        if String.eqb f "value_at_risk" then need 1 r (value_at_risk partition r beta)
        else if String.eqb f "cvar" then need 1 r (cvar partition r beta)
        else if String.eqb f "evar" then need 1 r (evar solver r beta)
        else if String.eqb f "drawdown_at_risk" then need 1 r (drawdown_at_risk partition r beta)
        else if String.eqb f "cdar" then need 1 r (cdar partition r beta)
        else if String.eqb f "edar" then need 1 r (evar solver r beta)
        else None
    | [VArr r; VNum theta; VNum beta] =>
        if String.eqb f "entropic_risk_measure" then need 1 r (entropic_risk_measure r theta beta)
        else None
    | _ => None
    end.

  (** the attributes set by __init__, _base.py lines 476-520, that measures depend on *)
  Record attrs := {
    returns : list R;
    min_acceptable_return : option R;
    compounded : bool;
    risk_free_rate : R;
    value_at_risk_beta : R;
    cvar_beta : R;
    entropic_risk_measure_theta : R;
    entropic_risk_measure_beta : R;
    evar_beta : R;
    drawdown_at_risk_beta : R;
    cdar_beta : R;
    edar_beta : R;
    annualized_factor : R
  }.

  (** A portfolio object: its attributes, a reference to the list object held in
      _fitness_measures, and the slots that cache computed values (None = slot not assigned) *)
  Record portfolio := {
    at_ : attrs;
    fitness_ref : nat;
    s_measure : measure -> option (option R);
    s_fitness : option (list (option R));
    s_cumulative : option (list R);
    s_drawdowns : option (list R)
  }.
  Definition no_slots (m : measure) : option (option R) := None.
  (** clear, _base.py lines 712-716 *)
  Definition clear (p : portfolio) : portfolio :=
    {| at_ := at_ p; fitness_ref := fitness_ref p; s_measure := no_slots; s_fitness := None; s_cumulative := None; s_drawdowns := None |}.
  Definition set_measure_slot (p : portfolio) (m : measure) (v : option R) : portfolio :=
    {| at_ := at_ p; fitness_ref := fitness_ref p;
       s_measure := fun k => if measure_eq_dec k m then Some v else s_measure p k;
       s_fitness := s_fitness p; s_cumulative := s_cumulative p; s_drawdowns := s_drawdowns p |}.
  Definition set_fitness_slot (p : portfolio) (v : option (list (option R))) : portfolio :=
    {| at_ := at_ p; fitness_ref := fitness_ref p; s_measure := s_measure p;
       s_fitness := v; s_cumulative := s_cumulative p; s_drawdowns := s_drawdowns p |}.
  Definition set_cumulative_slot (p : portfolio) (v : list R) : portfolio :=
    {| at_ := at_ p; fitness_ref := fitness_ref p; s_measure := s_measure p;
       s_fitness := s_fitness p; s_cumulative := Some v; s_drawdowns := s_drawdowns p |}.
  Definition set_drawdowns_slot (p : portfolio) (v : list R) : portfolio :=
    {| at_ := at_ p; fitness_ref := fitness_ref p; s_measure := s_measure p;
       s_fitness := s_fitness p; s_cumulative := s_cumulative p; s_drawdowns := Some v |}.

  (** cached_property_slots.__get__, utils/tools.py lines 93-107, for cumulative_returns and
      drawdowns, _base.py lines 668-679 *)
  Definition get_cumulative (p : portfolio) : portfolio * list R :=
    match s_cumulative p with
    | Some v => (p, v)
    | None => let v := get_cumulative_returns (returns (at_ p)) (compounded (at_ p)) in (set_cumulative_slot p v, v)
    end.
  Definition get_dd (p : portfolio) : portfolio * list R :=
    match s_drawdowns p with
    | Some v => (p, v)
    | None => let v := get_drawdowns (returns (at_ p)) (compounded (at_ p)) in (set_drawdowns_slot p v, v)
    end.

  (** _measure_global_args and _measure_local_args, _base.py lines 371-391 *)
  Definition measure_global_args : list string :=
    ["returns"; "cumulative_returns"; "drawdowns"; "min_acceptable_return"; "compounded"; "risk_free_rate"]%string.
  Definition measure_local_args : list string :=
    ["value_at_risk_beta"; "cvar_beta"; "entropic_risk_measure_theta"; "entropic_risk_measure_beta"; "evar_beta";
     "drawdown_at_risk_beta"; "cdar_beta"; "edar_beta"]%string.
  Definition mem (s : string) (l : list string) : bool := existsb (String.eqb s) l.

  (** getattr(self, name) for the arguments of measure functions; None is AttributeError *)
  Definition getattr_arg (p : portfolio) (name : string) : portfolio * option pval :=
    let a := at_ p in
    if String.eqb name "returns" then (p, Some (VArr (returns a)))
    else if String.eqb name "cumulative_returns" then let (p', v) := get_cumulative p in (p', Some (VArr v))
    else if String.eqb name "drawdowns" then let (p', v) := get_dd p in (p', Some (VArr v))
    else if String.eqb name "min_acceptable_return" then (p, Some (VOpt (min_acceptable_return a)))
    else if String.eqb name "compounded" then (p, Some (VBool (compounded a)))
    else if String.eqb name "risk_free_rate" then (p, Some (VNum (risk_free_rate a)))
    else if String.eqb name "value_at_risk_beta" then (p, Some (VNum (value_at_risk_beta a)))
    else if String.eqb name "cvar_beta" then (p, Some (VNum (cvar_beta a)))
    else if String.eqb name "entropic_risk_measure_theta" then (p, Some (VNum (entropic_risk_measure_theta a)))
    else if String.eqb name "entropic_risk_measure_beta" then (p, Some (VNum (entropic_risk_measure_beta a)))
    else if String.eqb name "evar_beta" then (p, Some (VNum (evar_beta a)))
    else if String.eqb name "drawdown_at_risk_beta" then (p, Some (VNum (drawdown_at_risk_beta a)))
    else if String.eqb name "cdar_beta" then (p, Some (VNum (cdar_beta a)))
    else if String.eqb name "edar_beta" then (p, Some (VNum (edar_beta a)))
    else (p, None).

  (** the dictionary comprehension, _base.py lines 746-753 *)
  Definition arg_attribute (m : measure) (arg : string) : string :=
    if mem arg measure_global_args then arg else (value m ++ "_" ++ arg)%string.
  Fixpoint get_args (p : portfolio) (names : list string) : portfolio * option (list pval) :=
    match names with
    | [] => (p, Some [])
    | n :: names =>
        match getattr_arg p n with
        | (p, None) => (p, None)
        | (p, Some v) => match get_args p names with
                         | (p, Some vs) => (p, Some (v :: vs))
                         | (p, None) => (p, None)
                         end
        end
    end.

  Definition scale (v : option R) (c : R) : option R := option_map (fun x => x * c) v.
  (** _base.py lines 756-768 *)
  Definition annualize (a : attrs) (m : measure) (v : option R) : option R :=
    match m with
    | ANNUALIZED_MEAN | ANNUALIZED_VARIANCE | ANNUALIZED_SEMI_VARIANCE => scale v (annualized_factor a)
    | ANNUALIZED_STANDARD_DEVIATION | ANNUALIZED_SEMI_DEVIATION => scale v (sqrt (annualized_factor a))
    | _ => v
    end.

  (** get_measure for performance and risk measures, _base.py lines 732-775; the outer None is an
      uncaught exception *)
  Definition get_measure_function (p : portfolio) (m : measure) : portfolio * option (option R) :=
    let fm := if is_annualized m then non_annualized_measure m else Some m in
    match fm with
    | None => (p, None)
    | Some fm =>
        match args_names (value fm) with
        | None => (p, None)
        | Some names =>
            match get_args p (map (arg_attribute m) names) with
            | (p, None) => (p, None)
            | (p, Some vs) => (p, Some (annualize (at_ p) m (call (value fm) vs)))
            end
        end
    end.
  (** __getattribute__, _base.py lines 566-578, on the name of a performance or risk measure *)
  Definition read_function (p : portfolio) (m : measure) : portfolio * option (option R) :=
    match s_measure p m with
    | Some v => (p, Some v)
    | None => match get_measure_function p m with
              | (p, Some v) => (set_measure_slot p m v, Some v)
              | (p, None) => (p, None)
              end
    end.
  (** get_measure, _base.py lines 718-784.  [class_of m = Ratio]: lines 776-782 *)
  Definition get_measure (p : portfolio) (m : measure) : portfolio * option (option R) :=
    match class_of m with
    | Perf | Risk | Extra => get_measure_function p m
    | Ratio =>
        match read_function p (if is_annualized m then ANNUALIZED_MEAN else MEAN) with
        | (p, None) => (p, None)
        | (p, Some mean_) =>
            match linked_risk_measure m with
            | None => (p, None)
            | Some k =>
                match class_of k with
                | Ratio => (p, None) (* never: linked measures are risk measures *)
                | _ =>
                    match read_function p k with
                    | (p, None) => (p, None)
                    | (p, Some risk) =>
                        (p, Some (ratio (option_map (fun x => x - risk_free_rate (at_ p)) mean_) risk))
                    end
                end
            end
        end
    end.
  (** __getattribute__ on the name of any measure *)
  Definition read_measure (p : portfolio) (m : measure) : portfolio * option (option R) :=
    match s_measure p m with
    | Some v => (p, Some v)
    | None => match get_measure p m with
              | (p, Some v) => (set_measure_slot p m v, Some v)
              | (p, None) => (p, None)
              end
    end.

  (** fitness, _base.py lines 655-665 *)
  Fixpoint compute_fitness (p : portfolio) (ms : list measure) : portfolio * option (list (option R)) :=
    match ms with
    | [] => (p, Some [])
    | m :: ms =>
        let sign := match class_of m with Perf | Ratio => 1 | _ => -1 end in
        match read_measure p m with
        | (p, None) => (p, None)
        | (p, Some v) => match compute_fitness p ms with
                         | (p, None) => (p, None)
                         | (p, Some vs) => (p, Some (option_map (fun x => sign * x) v :: vs))
                         end
        end
    end.
  Definition read_fitness (p : portfolio) (fitness_measures : list measure) : portfolio * option (list (option R)) :=
    match s_fitness p with
    | Some v => (p, Some v)
    | None => match compute_fitness p fitness_measures with
              | (p, Some v) => (set_fitness_slot p (Some v), Some v)
              | (p, None) => (p, None)
              end
    end.

  (** public attributes a user can assign and the values assigned to them *)
  Inductive assignment :=
  | Set_min_acceptable_return (x : option R) | Set_compounded (b : bool) | Set_risk_free_rate (x : R)
  | Set_value_at_risk_beta (x : R) | Set_cvar_beta (x : R) | Set_entropic_risk_measure_theta (x : R)
  | Set_entropic_risk_measure_beta (x : R) | Set_evar_beta (x : R) | Set_drawdown_at_risk_beta (x : R)
  | Set_cdar_beta (x : R) | Set_edar_beta (x : R)
  | Set_returns (x : list R) | Set_cumulative_returns (x : list R) | Set_drawdowns (x : list R).
  Definition assigned_name (s : assignment) : string :=
    match s with
    | Set_min_acceptable_return _ => "min_acceptable_return" | Set_compounded _ => "compounded"
    | Set_risk_free_rate _ => "risk_free_rate" | Set_value_at_risk_beta _ => "value_at_risk_beta"
    | Set_cvar_beta _ => "cvar_beta" | Set_entropic_risk_measure_theta _ => "entropic_risk_measure_theta"
    | Set_entropic_risk_measure_beta _ => "entropic_risk_measure_beta" | Set_evar_beta _ => "evar_beta"
    | Set_drawdown_at_risk_beta _ => "drawdown_at_risk_beta" | Set_cdar_beta _ => "cdar_beta"
    | Set_edar_beta _ => "edar_beta" | Set_returns _ => "returns"
    | Set_cumulative_returns _ => "cumulative_returns" | Set_drawdowns _ => "drawdowns"
    end%string.
  (** object.__setattr__ on a plain slot *)
  Definition store (a : attrs) (s : assignment) : attrs :=
    let '(Build_attrs r mar c rf vb cb et eb ev db cd ed f) := a in
    match s with
    | Set_min_acceptable_return x => Build_attrs r x c rf vb cb et eb ev db cd ed f
    | Set_compounded x => Build_attrs r mar x rf vb cb et eb ev db cd ed f
    | Set_risk_free_rate x => Build_attrs r mar c x vb cb et eb ev db cd ed f
    | Set_value_at_risk_beta x => Build_attrs r mar c rf x cb et eb ev db cd ed f
    | Set_cvar_beta x => Build_attrs r mar c rf vb x et eb ev db cd ed f
    | Set_entropic_risk_measure_theta x => Build_attrs r mar c rf vb cb x eb ev db cd ed f
    | Set_entropic_risk_measure_beta x => Build_attrs r mar c rf vb cb et x ev db cd ed f
    | Set_evar_beta x => Build_attrs r mar c rf vb cb et eb x db cd ed f
    | Set_drawdown_at_risk_beta x => Build_attrs r mar c rf vb cb et eb ev x cd ed f
    | Set_cdar_beta x => Build_attrs r mar c rf vb cb et eb ev db x ed f
    | Set_edar_beta x => Build_attrs r mar c rf vb cb et eb ev db cd x f
    | Set_returns x => Build_attrs x mar c rf vb cb et eb ev db cd ed f
    | Set_cumulative_returns _ | Set_drawdowns _ => a
    end.
  Definition store_factor (a : attrs) (f : R) : attrs :=
    let '(Build_attrs r mar c rf vb cb et eb ev db cd ed _) := a in Build_attrs r mar c rf vb cb et eb ev db cd ed f.
  Definition with_attrs (p : portfolio) (a : attrs) : portfolio :=
    {| at_ := a; fitness_ref := fitness_ref p; s_measure := s_measure p; s_fitness := s_fitness p;
       s_cumulative := s_cumulative p; s_drawdowns := s_drawdowns p |}.
  (** _read_only_attrs, _base.py lines 366-369 *)
  Definition read_only_attrs : list string := ["returns"; "observations"]%string.
  (** __setattr__, _base.py lines 580-590, with _loaded = True; the boolean is "raised AttributeError".
      cumulative_returns and drawdowns are data descriptors whose __set__ raises (tools.py 109-113). *)
  Definition setattr (p : portfolio) (s : assignment) : portfolio * bool :=
    let name := assigned_name s in
    if mem name read_only_attrs then (p, true)
    else
      let p := if mem name measure_global_args || mem name measure_local_args then clear p else p in
      match s with
      | Set_cumulative_returns _ | Set_drawdowns _ => (p, true)
      | _ => (with_attrs p (store (at_ p) s), false)
      end.
  (** annualized_factor.setter, _base.py lines 648-651 *)
  Definition set_annualized_factor (p : portfolio) (f : R) : portfolio :=
    clear (with_attrs p (store_factor (at_ p) f)).
  Definition with_ref (p : portfolio) (r : nat) : portfolio :=
    {| at_ := at_ p; fitness_ref := r; s_measure := s_measure p; s_fitness := s_fitness p;
       s_cumulative := s_cumulative p; s_drawdowns := s_drawdowns p |}.
  (** __copy__, _base.py lines 553-564: every slot but the measures *)
  Definition copy (p : portfolio) : portfolio :=
    {| at_ := at_ p; fitness_ref := fitness_ref p; s_measure := no_slots; s_fitness := s_fitness p;
       s_cumulative := s_cumulative p; s_drawdowns := s_drawdowns p |}.

  (** A program using portfolio objects: objects and list objects live in two heaps *)
  Record heap := { objects : list portfolio; lists : list (list measure) }.
  Inductive op :=
  | New (a : attrs) (fitness_measures : list measure)  (* constructor *)
  | ReadMeasure (i : nat) (m : measure)                (* p.cvar, p.sharpe_ratio, ... *)
  | GetMeasure (i : nat) (m : measure)                 (* p.get_measure(m) *)
  | ReadFitness (i : nat)
  | ReadCumulative (i : nat)
  | ReadDrawdowns (i : nat)
  | Assign (i : nat) (s : assignment)                  (* p.cvar_beta = ..., ... *)
  | SetFactor (i : nat) (f : R)                        (* p.annualized_factor = f *)
  | SetFitness (i : nat) (ms : list measure)           (* p.fitness_measures = [...] *)
  | AppendFitness (i : nat) (m : measure)              (* p.fitness_measures.append(m) *)
  | AssignMeasure (i : nat) (m : measure) (v : R)      (* p.mean = v: the slot is a plain one *)
  | Clear (i : nat)
  | Copy (i : nat).                                    (* the copy becomes the last object *)
  Inductive out := OutMeasure (v : option R) | OutArray (v : list R) | OutFitness (v : list (option R)) | Done | Raised.

  Fixpoint set_nth {A} (l : list A) (i : nat) (x : A) : list A :=
    match l, i with
    | [], _ => []
    | _ :: l, O => x :: l
    | y :: l, S i => y :: set_nth l i x
    end.
  Definition put (h : heap) (i : nat) (p : portfolio) : heap :=
    {| objects := set_nth (objects h) i p; lists := lists h |}.
  Definition out_measure (o : option (option R)) : out := match o with Some v => OutMeasure v | None => Raised end.
  Definition out_fitness (o : option (list (option R))) : out := match o with Some v => OutFitness v | None => Raised end.
  (** constructor, _base.py lines 476-527 *)
  Definition new_portfolio (a : attrs) (ref : nat) : portfolio :=
    {| at_ := a; fitness_ref := ref; s_measure := no_slots; s_fitness := None; s_cumulative := None; s_drawdowns := None |}.

  Definition step (h : heap) (o : op) : heap * out :=
    let on i (f : portfolio -> heap * out) := match nth_error (objects h) i with Some p => f p | None => (h, Raised) end in
    match o with
    | New a ms => ({| objects := objects h ++ [new_portfolio a (length (lists h))]; lists := lists h ++ [ms] |}, Done)
    | ReadMeasure i m => on i (fun p => let (p, v) := read_measure p m in (put h i p, out_measure v))
    | GetMeasure i m => on i (fun p => let (p, v) := get_measure p m in (put h i p, out_measure v))
    | ReadFitness i => on i (fun p => let (p, v) := read_fitness p (nth (fitness_ref p) (lists h) []) in (put h i p, out_fitness v))
    | ReadCumulative i => on i (fun p => let (p, v) := get_cumulative p in (put h i p, OutArray v))
    | ReadDrawdowns i => on i (fun p => let (p, v) := get_dd p in (put h i p, OutArray v))
    | Assign i s => on i (fun p => let (p, e) := setattr p s in (put h i p, if e : bool then Raised else Done))
    | SetFactor i f => on i (fun p => (put h i (set_annualized_factor p f), Done))
    | SetFitness i ms =>
        (* fitness_measures.setter, lines 631-641 *)
        on i (fun p => match ms with
                       | [] => (h, Raised)
                       | _ => ({| objects := set_nth (objects h) i (set_fitness_slot (with_ref p (length (lists h))) None);
                                  lists := lists h ++ [ms] |}, Done)
                       end)
    | AppendFitness i m =>
        on i (fun p => ({| objects := objects h; lists := set_nth (lists h) (fitness_ref p) (nth (fitness_ref p) (lists h) [] ++ [m]) |}, Done))
    | AssignMeasure i m v =>
        on i (fun p => if mem (value m) read_only_attrs then (h, Raised) else (put h i (set_measure_slot p m (Some v)), Done))
    | Clear i => on i (fun p => (put h i (clear p), Done))
    | Copy i => on i (fun p => ({| objects := objects h ++ [copy p]; lists := lists h |}, Done))
    end.
  Fixpoint run (h : heap) (ops : list op) : list out :=
    match ops with
    | [] => []
    | o :: ops => let (h, v) := step h o in v :: run h ops
    end.
  Definition empty_heap : heap := {| objects := []; lists := [] |}.

  (** rolling_measure, _base.py lines 813-905.  The value on one full window [w] of returns; entries
      before the first full window are NaN (pandas rolling).  Local arguments are resolved with the
      name of the risk measure (line 852). *)
  Definition rolling_args (a : attrs) (k : measure) (w : list R) : option (list pval) :=
    match args_names (value k) with
    | None => None
    | Some names =>
        let p := new_portfolio a 0 in
        let vs := map (fun n => if String.eqb n "returns" then Some (VArr w)
                                else if String.eqb n "drawdowns" then Some (VArr (get_drawdowns w (compounded a)))
                                else snd (getattr_arg p (arg_attribute k n))) names in
        fold_right (fun v acc => match v, acc with Some v, Some l => Some (v :: l) | _, _ => None end) (Some []) vs
    end.
  Definition rolling_window (a : attrs) (m : measure) (w : list R) : option (option R) :=
    match (if is_annualized m then non_annualized_measure m else Some m) with
    | None => None
    | Some nm =>
        let risk k := match rolling_args a k w with Some vs => Some (call (value k) vs) | None => None end in
        let func :=
          match class_of m with
          | Perf => Some (call (value nm) [VArr w])
          | Ratio => match linked_risk_measure nm with
                     | None => None
                     | Some k => match risk k with
                                 | Some v => Some (ratio (option_map (fun x => x - risk_free_rate a) (call "mean" [VArr w])) v)
                                 | None => None
                                 end
                     end
          | _ => risk nm
          end in
        match func with
        | None => None
        | Some v => Some (match m with
                          | ANNUALIZED_MEAN | ANNUALIZED_VARIANCE | ANNUALIZED_SEMI_VARIANCE => scale v (annualized_factor a)
                          | ANNUALIZED_STANDARD_DEVIATION | ANNUALIZED_SEMI_DEVIATION
                          | ANNUALIZED_SHARPE_RATIO | ANNUALIZED_SORTINO_RATIO => scale v (sqrt (annualized_factor a))
                          | _ => v
                          end)
        end
    end.
  Definition rolling_measure (a : attrs) (m : measure) (window : nat) : list (option (option R)) :=
    map (fun i => if (i + 1 <? window)%nat then Some None
                  else rolling_window a m (firstn window (skipn (i + 1 - window) (returns a))))
        (seq 0 (length (returns a))).
End Portfolio.
