(** Model of add_objective and add_constraints in MeanRisk (src/skfolio/optimization/convex/_base.py lines 571-613
    and 991-1034, _mean_risk.py lines 1014-1080) and of the scales of the objective and of the constraints
    (_base.py lines 963-989 and 1135).  No proofs here.
    The value of a custom expression is a function of the weight variable; a custom constraint is a predicate on it. *)
From Coq Require Import List Arith Bool Reals.
From Verif Require Import RList EquationsModel ConvexModel RiskModel MeanRiskModel.
Import ListNotations.
Local Open Scope R_scope.

(** ** Calling a Python function *)
(** what a parameter of the function can be bound to: the weight variable, the estimator, the instance of a bound method,
    or the default of parameter [k] *)
Inductive argument := WeightVariable | Estimator | Receiver | Default (k : nat).
(** a function with __code__: co_argcount, the number of trailing parameters with a default, whether it is a bound method
    (whose __code__ is that of the function, which counts the receiver), and its effect; None: it raises.
    Not modelled: functions with *args or required keyword-only parameters *)
Record code (E : Type) := { co_argcount : nat; n_defaults : nat; bound : bool; body : list argument -> option E }.
Arguments co_argcount {E}. Arguments n_defaults {E}. Arguments bound {E}. Arguments body {E}.
Inductive callable (E : Type) := NoCode | Function (c : code E).   (* NoCode: functools.partial, a class with __call__, ... *)
Arguments NoCode {E}. Arguments Function {E}.
(** the binding of positional arguments by the interpreter *)
Definition python_call {E} (c : code E) (args : list argument) : option E :=
  let given := (if bound c then [Receiver] else []) ++ args in
  if ((length given <=? co_argcount c) && (co_argcount c - n_defaults c <=? length given))%nat
  then body c (given ++ map Default (seq (length given) (co_argcount c - length given)))
  else None.
Inductive outcome (E : Type) := Value (e : E) | ValueError | TypeError.
Arguments Value {E}. Arguments ValueError {E}. Arguments TypeError {E}.
(** _call_custom_func, lines 571-613 *)
Definition call_custom_func {E} (func : callable E) : outcome E :=
  match func with
  | NoCode => ValueError
  | Function c =>
      let run args := match python_call c args with Some e => Value e | None => TypeError end in
      if (co_argcount c =? 1)%nat then run [WeightVariable]
      else if (co_argcount c =? 2)%nat then run [WeightVariable; Estimator]
      else ValueError
  end.
(** _get_custom_objective, lines 991-1010 *)
Definition custom_objective (add_objective : option (callable (vec -> R))) : outcome (vec -> R) :=
  match add_objective with None => Value (fun _ => 0) | Some f => call_custom_func f end.
(** what add_constraints returns: a list, or a single constraint *)
Inductive result := Many (l : list (vec -> Prop)) | One (c : vec -> Prop).
(** _get_custom_constraints, lines 1012-1034 *)
Definition custom_constraints (add_constraints : option (callable result)) : outcome (list (vec -> Prop)) :=
  match add_constraints with
  | None => Value []
  | Some f => match call_custom_func f with Value (Many l) => Value l | Value (One c) => Value [c] | ValueError => ValueError | TypeError => TypeError end
  end.

(** ** The problem of MeanRisk.fit with the value [g] of the custom objective and the custom constraints [C] *)
Section Custom.
  Variable to_float : str -> option R.
  Variable q : mean_risk.
  Variable g : vec -> R.
  Variable C : list (vec -> Prop).
  (** line 1016: the constraints are on the weight variable *)
  Definition feasible_custom (x : point) : Prop := feasible to_float q x /\ Forall (fun c => c (w_ x)) C.
  (** lines 1018-1076, as a quantity to minimise *)
  Definition loss_custom (x : point) : R :=
    let so := scale_objective_ q in
    match objective_ q with
    | MAXIMIZE_RETURN => - (er q x * so - regularization q (w_ x) * so + g (w_ x) * so)
    | MINIMIZE_RISK | MAXIMIZE_RATIO => risk q x * so + regularization q (w_ x) * so + g (w_ x) * so
    | MAXIMIZE_UTILITY => - (er q x * so - risk_aversion_ q * risk q x * so - regularization q (w_ x) * so + g (w_ x) * so)
    end.
  Definition optimal_custom (x : point) : Prop := feasible_custom x /\ forall x', feasible_custom x' -> loss_custom x <= loss_custom x'.
  (** problem_values_["objective"], _base.py line 1135: problem.value / scale; problem.value is the maximum or the minimum *)
  Definition reported_objective (x : point) : R :=
    match objective_ q with
    | MAXIMIZE_RETURN | MAXIMIZE_UTILITY => - loss_custom x / scale_objective_ q
    | MINIMIZE_RISK | MAXIMIZE_RATIO => loss_custom x / scale_objective_ q
    end.
End Custom.
(** the same estimator with other scales *)
Definition with_scales (so sc : R) (q : mean_risk) : mean_risk :=
  let st := settings_ q in
  {| prior_ := prior_ q;
     settings_ := {| costs := costs st; previous := previous st; fees := fees st; mar := mar st; risk_free_rate := risk_free_rate st;
                     cvar_beta := cvar_beta st; evar_beta := evar_beta st; cdar_beta := cdar_beta st; edar_beta := edar_beta st; scale := sc |};
     params_ := params_ q; names_ := names_ q; mip_solver_ := mip_solver_ q; objective_ := objective_ q; risk_measure_ := risk_measure_ q;
     limits_ := limits_ q; min_return_ := min_return_ q; max_turnover_ := max_turnover_ q; has_previous_ := has_previous_ q;
     max_tracking_error_ := max_tracking_error_ q; benchmark_ := benchmark_ q; mu_uncertainty_ := mu_uncertainty_ q;
     l1_ := l1_ q; l2_ := l2_ q; risk_aversion_ := risk_aversion_ q; scale_objective_ := so; overwrite_ := overwrite_ q |}.
