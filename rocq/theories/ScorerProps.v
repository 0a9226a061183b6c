(** C57: make_scorer orients every measure so that greater is better. *)
From Coq Require Import String Reals List Bool Lra.
From Verif Require Import PortfolioModel ScorerModel.
Import ListNotations.
Open Scope R_scope.

(** * Specification *)
(** Which way a measure is better: performance and ratio measures upwards, risk measures downwards. *)
Definition higher_is_better (m : measure) : Prop :=
  match m with
  | MEAN | ANNUALIZED_MEAN => True
  | SHARPE_RATIO | ANNUALIZED_SHARPE_RATIO | SORTINO_RATIO | ANNUALIZED_SORTINO_RATIO | MEAN_ABSOLUTE_DEVIATION_RATIO
  | FIRST_LOWER_PARTIAL_MOMENT_RATIO | VALUE_AT_RISK_RATIO | CVAR_RATIO | ENTROPIC_RISK_MEASURE_RATIO | EVAR_RATIO
  | WORST_REALIZATION_RATIO | DRAWDOWN_AT_RISK_RATIO | CDAR_RATIO | CALMAR_RATIO | AVERAGE_DRAWDOWN_RATIO | EDAR_RATIO
  | ULCER_INDEX_RATIO | GINI_MEAN_DIFFERENCE_RATIO => True
  | _ => False
  end.
Definition at_least_as_good (m : measure) (a b : R) : Prop := (higher_is_better m /\ b <= a) \/ (~ higher_is_better m /\ a <= b).

Section C57.
Context {E X P V : Type}.
Variables (attr : P -> string -> option R) (predict : E -> X -> P).
Let make := @make_scorer P V attr.
Let score := @call E X P V predict.

Lemma oriented m : is_perf m || is_ratio m = true <-> higher_is_better m.
Proof. destruct m; simpl; split; auto; discriminate. Qed.

(** The score of a measure is the measure of the predicted portfolio, or its opposite for a risk measure. *)
Theorem C57_value m : exists s, make (AMeasure m) None [] = Returns s /\
  forall e x, score s e x = Returns (match attr (predict e x) (value m) with
    | Some v => Some (match class_of m with Perf | Ratio => v | Risk | Extra => - v end) | None => None end).
Proof.
  eexists. split; [reflexivity|]. intros e x. unfold score, call. cbn [score_func extra sign measure_score].
  f_equal. destruct (attr (predict e x) (value m)) as [v|]; [|reflexivity]. f_equal.
  unfold is_perf, is_ratio. destruct (class_of m); simpl; ring.
Qed.
(** So that comparing scores is comparing portfolios: model selection by the largest score picks the best measure. *)
Theorem C57_order m s : make (AMeasure m) None [] = Returns s ->
  forall e1 e2 x v1 v2 s1 s2, attr (predict e1 x) (value m) = Some v1 -> attr (predict e2 x) (value m) = Some v2 ->
    score s e1 x = Returns (Some s1) -> score s e2 x = Returns (Some s2) -> (s2 <= s1 <-> at_least_as_good m v1 v2).
Proof.
  intros H e1 e2 x v1 v2 s1 s2 E1 E2. injection H as <-. unfold score, call. cbn [score_func extra sign measure_score]. rewrite E1, E2.
  intros H1 H2. injection H1 as <-. injection H2 as <-. unfold at_least_as_good. pose proof (oriented m) as O.
  destruct (is_perf m || is_ratio m).
  - assert (higher_is_better m) by (apply O; reflexivity). split; [intros; left; split; auto; lra|intros [[_ ?]|[? _]]; [lra|contradiction]].
  - assert (~ higher_is_better m) by (intros K; apply O in K; discriminate). split; [intros; right; split; auto; lra|intros [[? _]|[_ ?]]; [contradiction|lra]].
Qed.
Theorem C57_selection m s (candidates : list E) x best sb vb : make (AMeasure m) None [] = Returns s ->
  (forall e, In e candidates -> exists v, attr (predict e x) (value m) = Some v) ->
  In best candidates -> score s best x = Returns (Some sb) -> attr (predict best x) (value m) = Some vb ->
  ((forall e se, In e candidates -> score s e x = Returns (Some se) -> se <= sb) <->
   (forall e v, In e candidates -> attr (predict e x) (value m) = Some v -> at_least_as_good m vb v)).
Proof.
  intros Hs Hv Hb Es Ev. destruct (C57_value m) as [s' [Hs' C]]. rewrite Hs in Hs'. injection Hs' as <-. split.
  - intros H e v He E0. pose proof (C e x) as Ce. rewrite E0 in Ce. apply (C57_order m s Hs best e x vb v _ _ Ev E0 Es Ce). apply (H e _ He Ce).
  - intros H e se He Ee. destruct (Hv e He) as [v E0]. apply (C57_order m s Hs best e x vb v _ _ Ev E0 Es Ee). apply (H e v He E0).
Qed.
(** An explicit orientation wins, custom functions are scores by default and receive the keyword arguments, and anything else is refused. *)
Theorem C57_explicit arg b kw : (exists m, arg = AMeasure m) \/ (exists f, arg = Callable f) ->
  exists s, make arg (Some b) kw = Returns s /\ forall e x v,
    score s e x = Returns (Some v) <-> exists u, (if b then v = u else v = - u) /\
      match arg with AMeasure m => kw = [] /\ attr (predict e x) (value m) = Some u | Callable f => f (predict e x) kw = Returns (Some u) | AnythingElse => False end.
Proof.
  intros [[m ->]|[f ->]]; eexists; (split; [reflexivity|]); intros e x v; unfold score, call, measure_score; cbn [score_func extra sign].
  - destruct kw as [|k kw].
    + destruct (attr (predict e x) (value m)) as [u|]; split.
      * intros H. inversion H as [H1]. exists u. destruct b; repeat split; auto; lra.
      * intros [u' [Hu [_ E0]]]. injection E0 as <-. do 2 f_equal. destruct b; rewrite Hu; ring.
      * discriminate.
      * intros [u' [_ [_ E0]]]. discriminate.
    + split; [discriminate|intros [u [_ [K _]]]; discriminate].
  - destruct (f (predict e x) kw) as [[u|]|]; split; try discriminate.
    + intros H. inversion H as [H1]. exists u. destruct b; split; auto; lra.
    + intros [u' [Hu E0]]. injection E0 as <-. do 2 f_equal. destruct b; rewrite Hu; ring.
    + intros [u' [_ E0]]. discriminate.
    + intros [u' [_ E0]]. discriminate.
Qed.
Theorem C57_callable f kw : exists s, make (Callable f) None kw = Returns s /\ make (Callable f) (Some true) kw = Returns s.
Proof. eexists; split; reflexivity. Qed.
Theorem C57_refused g kw : make AnythingElse g kw = TypeError.
Proof. reflexivity. Qed.
End C57.

(** A concrete case: with the variance, the estimator whose portfolio has the smaller variance scores higher. *)
Example C57_applies : let attr (p : R) (name : string) := if String.eqb name "variance" then Some p else None in
  exists s, @make_scorer R unit attr (AMeasure VARIANCE) None [] = Returns s /\
    @call R unit R unit (fun e _ => e) s 2 tt = Returns (Some (- 2)) /\ @call R unit R unit (fun e _ => e) s 3 tt = Returns (Some (- 3)).
Proof. eexists. split; [reflexivity|]. split; unfold call; simpl; do 2 f_equal; ring. Qed.
Print Assumptions C57_value.
Print Assumptions C57_order.
Print Assumptions C57_selection.
Print Assumptions C57_explicit.
Print Assumptions C57_callable.
Print Assumptions C57_refused.
