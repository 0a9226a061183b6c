(** Model of make_scorer and of the scorer it returns: src/skfolio/metrics/_scorer.py.

    A portfolio is any type [P]; reading an attribute is [attr p name] (None: the
    value is NaN; the attributes themselves are the subject of C16 and C17).  A
    custom score function takes the portfolio and the keyword arguments and may
    raise a TypeError of its own (None).  [__repr__] is not modelled. *)
From Coq Require Import String Reals List Bool.
From Verif Require Import PortfolioModel.
Import ListNotations.
Open Scope R_scope.

Section Scorer.
(** estimators, data, portfolios, and values of the keyword arguments *)
Context {E X P V : Type}.
Definition kwargs := list (string * V).
Inductive outcome (A : Type) := Returns (a : A) | TypeError.
Arguments Returns {A} a.
Arguments TypeError {A}.

(** is_perf, is_ratio of the four enumerations: measures/_enums.py 92-102, 188-198, 236-246, 328-338 *)
Definition is_perf (m : measure) : bool := match class_of m with Perf => true | _ => false end.
Definition is_ratio (m : measure) : bool := match class_of m with Ratio => true | _ => false end.

(** what can be given as [score_func] *)
Inductive score_argument :=
| Callable (f : P -> kwargs -> outcome (option R))
| AMeasure (m : measure)
| AnythingElse.

(** _PortfolioScorer.__init__, _scorer.py 24-27 *)
Record scorer := { score_func : P -> kwargs -> outcome (option R); sign : R; extra : kwargs }.

(** the nested function [score_func(pred)], _scorer.py 119-121: it takes no keyword argument *)
Definition measure_score (attr : P -> string -> option R) (m : measure) : P -> kwargs -> outcome (option R) :=
  fun pred kw => match kw with [] => Returns (attr pred (value m)) | _ => TypeError end.

(** make_scorer, _scorer.py 104-124 *)
Definition make_scorer (attr : P -> string -> option R) (arg : score_argument) (greater_is_better : option bool) (kw : kwargs) : outcome scorer :=
  match arg with
  | Callable f =>
      let g := match greater_is_better with None => true | Some b => b end in
      Returns {| score_func := f; sign := if g then 1 else - 1; extra := kw |}
  | AMeasure m =>
      let g := match greater_is_better with None => is_perf m || is_ratio m | Some b => b end in
      Returns {| score_func := measure_score attr m; sign := if g then 1 else - 1; extra := kw |}
  | AnythingElse => TypeError
  end.

(** _PortfolioScorer.__call__, _scorer.py 38-54 *)
Definition call (predict : E -> X -> P) (s : scorer) (estimator : E) (x : X) : outcome (option R) :=
  match score_func s (predict estimator x) (extra s) with
  | Returns v => Returns (match v with Some v => Some (sign s * v) | None => None end)
  | TypeError => TypeError
  end.
End Scorer.
Arguments Returns {A} a.
Arguments TypeError {A}.
