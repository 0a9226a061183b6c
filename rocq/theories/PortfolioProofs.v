(** Lemmas about the portfolio measure cache. *)
From Coq Require Import String Ascii Reals Lra Lia List Bool Arith.
From Verif Require Import RList MeasuresModel PortfolioModel PortfolioSpec.
Import ListNotations.
Local Open Scope R_scope.

Section Cache.
Variable partition : list R -> nat -> list R.
Variable sort : list R -> list R.
Variable solver : (R -> R) -> R -> R.

Local Notation spec_function := (PortfolioSpec.spec_function partition sort solver).
Local Notation spec_measure := (PortfolioSpec.spec_measure partition sort solver).
Local Notation spec_fitness := (PortfolioSpec.spec_fitness partition sort solver).

Definition dd_ok (p : portfolio) : Prop :=
  forall v, s_drawdowns p = Some v -> v = get_drawdowns (returns (at_ p)) (compounded (at_ p)).
Definition cum_ok (p : portfolio) : Prop :=
  forall v, s_cumulative p = Some v -> v = get_cumulative_returns (returns (at_ p)) (compounded (at_ p)).
Definition meas_ok (p : portfolio) : Prop :=
  forall m v, s_measure p m = Some v -> v = spec_measure (at_ p) m.

(** reading changes slots only *)
Definition same_attrs (p p' : portfolio) : Prop := at_ p' = at_ p /\ fitness_ref p' = fitness_ref p /\ s_fitness p' = s_fitness p.

Lemma get_dd_spec p : dd_ok p ->
  exists p', get_dd p = (p', get_drawdowns (returns (at_ p)) (compounded (at_ p)))
    /\ dd_ok p' /\ same_attrs p p' /\ s_measure p' = s_measure p /\ s_cumulative p' = s_cumulative p.
Proof.
  intros H. unfold get_dd. destruct (s_drawdowns p) as [v|] eqn:E.
  - exists p. rewrite (H v E). repeat split; auto.
  - eexists. split; [reflexivity|]. split; [intros v Hv; cbn in Hv; inversion Hv; reflexivity|]. repeat split.
Qed.
Lemma get_cumulative_spec p : cum_ok p ->
  exists p', get_cumulative p = (p', get_cumulative_returns (returns (at_ p)) (compounded (at_ p)))
    /\ cum_ok p' /\ same_attrs p p' /\ s_measure p' = s_measure p /\ s_drawdowns p' = s_drawdowns p.
Proof.
  intros H. unfold get_cumulative. destruct (s_cumulative p) as [v|] eqn:E.
  - exists p. rewrite (H v E). repeat split; auto.
  - eexists. split; [reflexivity|]. split; [intros v Hv; cbn in Hv; inversion Hv; reflexivity|]. repeat split.
Qed.

Lemma scale_need n r v c : scale (need n r v) c = need n r (v * c).
Proof. unfold scale, need. destruct (length r <? n)%nat; reflexivity. Qed.

(** which function and which attributes each measure resolves to *)
Definition resolution (m : measure) : option (string * list string) :=
  match (if is_annualized m then non_annualized_measure m else Some m) with
  | None => None
  | Some fm => match args_names (value fm) with
               | None => None
               | Some names => Some (value fm, map (arg_attribute m) names)
               end
  end.
Lemma get_measure_function_unfold p m :
  get_measure_function partition sort solver p m =
  match resolution m with
  | None => (p, None)
  | Some (f, names) => match get_args p names with
                       | (p, None) => (p, None)
                       | (p, Some vs) => (p, Some (annualize (at_ p) m (call partition sort solver f vs)))
                       end
  end.
Proof.
  unfold get_measure_function, resolution.
  destruct (if is_annualized m then non_annualized_measure m else Some m) as [fm|]; [|reflexivity].
  destruct (args_names (value fm)); reflexivity.
Qed.

Lemma function_spec p m : dd_ok p -> class_of m <> Ratio ->
  exists p', get_measure_function partition sort solver p m = (p', Some (spec_function (at_ p) m))
    /\ dd_ok p' /\ same_attrs p p' /\ s_measure p' = s_measure p /\ s_cumulative p' = s_cumulative p.
Proof.
  intros H HR. rewrite get_measure_function_unfold.
  destruct (get_dd_spec p H) as (p1&E1&D1&S1&M1&C1). pose proof S1 as (A1&F1&_).
  destruct m; try (exfalso; apply HR; reflexivity);
  match goal with |- context [resolution ?m] => let r := eval vm_compute in (resolution m) in change (resolution m) with r end;
  cbn -[need mean variance semi_variance standard_deviation semi_deviation mean_absolute_deviation cvar evar worst_realization
        cdar max_drawdown average_drawdown first_lower_partial_moment ulcer_index gini_mean_difference value_at_risk drawdown_at_risk
        entropic_risk_measure fourth_central_moment fourth_lower_partial_moment third_central_moment pow ratio get_drawdowns get_dd scale].
  all: try rewrite E1; cbn -[need mean variance semi_variance standard_deviation semi_deviation mean_absolute_deviation cvar evar worst_realization
        cdar max_drawdown average_drawdown first_lower_partial_moment ulcer_index gini_mean_difference value_at_risk drawdown_at_risk
        entropic_risk_measure fourth_central_moment fourth_lower_partial_moment third_central_moment pow ratio get_drawdowns get_dd scale].
  all: rewrite ?scale_need, ?A1.
  all: first [ exists p; split; [reflexivity|]; repeat split; auto; fail | exists p1; split; [reflexivity|]; auto ].
Qed.
Lemma denominator_linked m : class_of m = Ratio -> linked_risk_measure m = denominator m.
Proof. destruct m; intros H; try discriminate H; vm_compute; reflexivity. Qed.
Lemma denominator_class m : class_of m = Ratio <-> denominator m <> None.
Proof. destruct m; cbn; split; congruence. Qed.
Lemma denominator_risk m k : denominator m = Some k -> class_of k = Risk \/ class_of k = Extra.
Proof. destruct m; cbn; intros H; inversion H; subst; cbn; auto. Qed.
Lemma spec_measure_function a m : class_of m <> Ratio -> spec_measure a m = spec_function a m.
Proof. destruct m; cbn; congruence. Qed.

Definition inv (p : portfolio) : Prop := dd_ok p /\ cum_ok p /\ meas_ok p.
Lemma inv_step_slots p p' : inv p -> dd_ok p' -> same_attrs p p' -> s_measure p' = s_measure p -> s_cumulative p' = s_cumulative p -> inv p'.
Proof.
  intros (D&C&M) D' (A&F&_) EM EC. split; [exact D'|]. split.
  - intros v Hv. rewrite EC in Hv. rewrite A. apply C, Hv.
  - intros m v Hv. rewrite EM in Hv. rewrite A. apply M, Hv.
Qed.
Lemma inv_set_measure p m : inv p -> inv (set_measure_slot p m (spec_measure (at_ p) m)).
Proof.
  intros (D&C&M). split; [exact D|]. split; [exact C|]. intros k v Hv. cbn in Hv |- *.
  destruct (measure_eq_dec k m) as [->|]; [inversion Hv; reflexivity|apply M, Hv].
Qed.
Lemma same_attrs_trans p q r : same_attrs p q -> same_attrs q r -> same_attrs p r.
Proof. intros (A&B&C) (A'&B'&C'). repeat split; congruence. Qed.
Lemma same_attrs_set p m v : same_attrs p (set_measure_slot p m v).
Proof. repeat split. Qed.

Lemma read_function_spec p m : inv p -> class_of m <> Ratio ->
  exists p', read_function partition sort solver p m = (p', Some (spec_function (at_ p) m)) /\ inv p' /\ same_attrs p p'.
Proof.
  intros I HR. unfold read_function. destruct (s_measure p m) as [v|] eqn:E.
  - exists p. destruct I as (D&C&M). rewrite (M m v E), spec_measure_function by auto. repeat split; auto.
  - destruct (function_spec p m (proj1 I) HR) as (p'&E'&D'&S'&M'&C'). rewrite E'.
    pose proof (inv_step_slots _ _ I D' S' M' C') as I'. pose proof S' as (A&_).
    eexists. split; [reflexivity|]. rewrite <- (spec_measure_function (at_ p) m HR), <- A. split; [apply inv_set_measure, I'|].
    eapply same_attrs_trans; [exact S'|apply same_attrs_set].
Qed.
Lemma get_measure_spec p m : inv p ->
  exists p', get_measure partition sort solver p m = (p', Some (spec_measure (at_ p) m)) /\ inv p' /\ same_attrs p p'.
Proof.
  intros I. unfold get_measure. destruct (class_of m) eqn:HC.
  4:{ unfold PortfolioSpec.spec_measure. assert (Hd: denominator m <> None) by (apply denominator_class; auto).
    rewrite (denominator_linked m HC). destruct (denominator m) as [k|] eqn:Ek; [|congruence].
    assert (Hperf: (if is_annualized m then ANNUALIZED_MEAN else MEAN) = match m with ANNUALIZED_SHARPE_RATIO | ANNUALIZED_SORTINO_RATIO => ANNUALIZED_MEAN | _ => MEAN end).
    { destruct m; try discriminate HC; vm_compute; reflexivity. }
    rewrite Hperf. set (pm := match m with ANNUALIZED_SHARPE_RATIO | ANNUALIZED_SORTINO_RATIO => ANNUALIZED_MEAN | _ => MEAN end).
    assert (Hpm: class_of pm <> Ratio) by (unfold pm; destruct m; cbn; discriminate).
    destruct (read_function_spec p pm I Hpm) as (p1&E1&I1&S1). rewrite E1.
    assert (Hk: class_of k <> Ratio) by (destruct (denominator_risk m k Ek) as [H|H]; rewrite H; discriminate).
    destruct (read_function_spec p1 k I1 Hk) as (p2&E2&I2&S2).
    assert (Hp: same_attrs p p2) by (eapply same_attrs_trans; eauto).
    pose proof S1 as (A1&_). pose proof S2 as (A2&_).
    exists p2. destruct (class_of k) eqn:Hck; try congruence; rewrite E2, A2, A1; auto. }
  all: assert (HR: class_of m <> Ratio) by congruence; rewrite spec_measure_function by auto;
    destruct (function_spec p m (proj1 I) HR) as (p'&E'&D'&S'&M'&C'); rewrite E';
    exists p'; split; [reflexivity|]; split; [eapply inv_step_slots; eauto|auto].
Qed.
Lemma read_measure_spec p m : inv p ->
  exists p', read_measure partition sort solver p m = (p', Some (spec_measure (at_ p) m)) /\ inv p' /\ same_attrs p p'.
Proof.
  intros I. unfold read_measure. destruct (s_measure p m) as [v|] eqn:E.
  - exists p. pose proof I as (D&C&M). rewrite (M m v E). repeat split; auto.
  - destruct (get_measure_spec p m I) as (p'&E'&I'&S'). rewrite E'. pose proof S' as (A&_).
    eexists. split; [reflexivity|]. rewrite <- A. split; [apply inv_set_measure, I'|].
    eapply same_attrs_trans; [exact S'|apply same_attrs_set].
Qed.
Lemma compute_fitness_spec ms p : inv p ->
  exists p', compute_fitness partition sort solver p ms = (p', Some (spec_fitness (at_ p) ms)) /\ inv p' /\ same_attrs p p'.
Proof.
  revert p. induction ms as [|m ms IH]; intros p I.
  - exists p. repeat split; auto; apply I.
  - cbn [compute_fitness]. destruct (read_measure_spec p m I) as (p1&E1&I1&S1). rewrite E1.
    destruct (IH p1 I1) as (p2&E2&I2&S2). rewrite E2. pose proof S1 as (A1&_).
    exists p2. split; [rewrite A1; reflexivity|]. split; [auto|]. eapply same_attrs_trans; eauto.
Qed.

(** the whole object, given the current content of its fitness list *)
Definition obj_ok (ms : list measure) (p : portfolio) : Prop :=
  inv p /\ forall v, s_fitness p = Some v -> v = spec_fitness (at_ p) ms.
Lemma obj_ok_same ms p p' : obj_ok ms p -> inv p' -> same_attrs p p' -> obj_ok ms p'.
Proof. intros [I F] I' (A&B&C). split; auto. intros v Hv. rewrite C in Hv. rewrite A. apply F, Hv. Qed.
Lemma read_fitness_spec ms p : obj_ok ms p ->
  exists p', read_fitness partition sort solver p ms = (p', Some (spec_fitness (at_ p) ms)) /\ obj_ok ms p' /\ at_ p' = at_ p /\ fitness_ref p' = fitness_ref p.
Proof.
  intros [I F]. unfold read_fitness. destruct (s_fitness p) as [v|] eqn:E.
  - exists p. rewrite (F v eq_refl). repeat split; auto; try apply I. intros v' Hv'. rewrite E in Hv'. inversion Hv'; subst. auto.
  - destruct (compute_fitness_spec ms p I) as (p'&E'&I'&S'). rewrite E'. pose proof S' as (A&B&_).
    eexists. split; [reflexivity|]. split; [|split; [exact A|exact B]]. split; [exact I'|]. intros v Hv. cbn in Hv. inversion Hv. cbn. rewrite A. reflexivity.
Qed.
Lemma clear_ok ms p : obj_ok ms (clear p).
Proof. split; [split; [|split]|]; intros v; cbn; try discriminate. Qed.
End Cache.
