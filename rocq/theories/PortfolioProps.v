(** C16 and C17: measures of a portfolio. *)
From Coq Require Import String Ascii Reals Lra Lia List Bool Arith.
From Verif Require Import RList MeasuresModel PortfolioModel PortfolioSpec PortfolioProofs.
Import ListNotations.
Local Open Scope R_scope.

(** * Specification of C16: the same programs on portfolios that never cache anything.
    A portfolio is its attributes and its own list of fitness measures. *)
Section Reference.
Variable partition : list R -> nat -> list R.
Variable sort : list R -> list R.
Variable solver : (R -> R) -> R -> R.

Definition ref_assign (a : attrs) (s : assignment) : option attrs :=
  match s with
  | Set_min_acceptable_return x =>
      Some {| returns := returns a; min_acceptable_return := x; compounded := compounded a; risk_free_rate := risk_free_rate a;
              value_at_risk_beta := value_at_risk_beta a; cvar_beta := cvar_beta a; entropic_risk_measure_theta := entropic_risk_measure_theta a;
              entropic_risk_measure_beta := entropic_risk_measure_beta a; evar_beta := evar_beta a; drawdown_at_risk_beta := drawdown_at_risk_beta a;
              cdar_beta := cdar_beta a; edar_beta := edar_beta a; annualized_factor := annualized_factor a |}
  | Set_compounded x =>
      Some {| returns := returns a; min_acceptable_return := min_acceptable_return a; compounded := x; risk_free_rate := risk_free_rate a;
              value_at_risk_beta := value_at_risk_beta a; cvar_beta := cvar_beta a; entropic_risk_measure_theta := entropic_risk_measure_theta a;
              entropic_risk_measure_beta := entropic_risk_measure_beta a; evar_beta := evar_beta a; drawdown_at_risk_beta := drawdown_at_risk_beta a;
              cdar_beta := cdar_beta a; edar_beta := edar_beta a; annualized_factor := annualized_factor a |}
  | Set_risk_free_rate x =>
      Some {| returns := returns a; min_acceptable_return := min_acceptable_return a; compounded := compounded a; risk_free_rate := x;
              value_at_risk_beta := value_at_risk_beta a; cvar_beta := cvar_beta a; entropic_risk_measure_theta := entropic_risk_measure_theta a;
              entropic_risk_measure_beta := entropic_risk_measure_beta a; evar_beta := evar_beta a; drawdown_at_risk_beta := drawdown_at_risk_beta a;
              cdar_beta := cdar_beta a; edar_beta := edar_beta a; annualized_factor := annualized_factor a |}
  | Set_value_at_risk_beta x =>
      Some {| returns := returns a; min_acceptable_return := min_acceptable_return a; compounded := compounded a; risk_free_rate := risk_free_rate a;
              value_at_risk_beta := x; cvar_beta := cvar_beta a; entropic_risk_measure_theta := entropic_risk_measure_theta a;
              entropic_risk_measure_beta := entropic_risk_measure_beta a; evar_beta := evar_beta a; drawdown_at_risk_beta := drawdown_at_risk_beta a;
              cdar_beta := cdar_beta a; edar_beta := edar_beta a; annualized_factor := annualized_factor a |}
  | Set_cvar_beta x =>
      Some {| returns := returns a; min_acceptable_return := min_acceptable_return a; compounded := compounded a; risk_free_rate := risk_free_rate a;
              value_at_risk_beta := value_at_risk_beta a; cvar_beta := x; entropic_risk_measure_theta := entropic_risk_measure_theta a;
              entropic_risk_measure_beta := entropic_risk_measure_beta a; evar_beta := evar_beta a; drawdown_at_risk_beta := drawdown_at_risk_beta a;
              cdar_beta := cdar_beta a; edar_beta := edar_beta a; annualized_factor := annualized_factor a |}
  | Set_entropic_risk_measure_theta x =>
      Some {| returns := returns a; min_acceptable_return := min_acceptable_return a; compounded := compounded a; risk_free_rate := risk_free_rate a;
              value_at_risk_beta := value_at_risk_beta a; cvar_beta := cvar_beta a; entropic_risk_measure_theta := x;
              entropic_risk_measure_beta := entropic_risk_measure_beta a; evar_beta := evar_beta a; drawdown_at_risk_beta := drawdown_at_risk_beta a;
              cdar_beta := cdar_beta a; edar_beta := edar_beta a; annualized_factor := annualized_factor a |}
  | Set_entropic_risk_measure_beta x =>
      Some {| returns := returns a; min_acceptable_return := min_acceptable_return a; compounded := compounded a; risk_free_rate := risk_free_rate a;
              value_at_risk_beta := value_at_risk_beta a; cvar_beta := cvar_beta a; entropic_risk_measure_theta := entropic_risk_measure_theta a;
              entropic_risk_measure_beta := x; evar_beta := evar_beta a; drawdown_at_risk_beta := drawdown_at_risk_beta a;
              cdar_beta := cdar_beta a; edar_beta := edar_beta a; annualized_factor := annualized_factor a |}
  | Set_evar_beta x =>
      Some {| returns := returns a; min_acceptable_return := min_acceptable_return a; compounded := compounded a; risk_free_rate := risk_free_rate a;
              value_at_risk_beta := value_at_risk_beta a; cvar_beta := cvar_beta a; entropic_risk_measure_theta := entropic_risk_measure_theta a;
              entropic_risk_measure_beta := entropic_risk_measure_beta a; evar_beta := x; drawdown_at_risk_beta := drawdown_at_risk_beta a;
              cdar_beta := cdar_beta a; edar_beta := edar_beta a; annualized_factor := annualized_factor a |}
  | Set_drawdown_at_risk_beta x =>
      Some {| returns := returns a; min_acceptable_return := min_acceptable_return a; compounded := compounded a; risk_free_rate := risk_free_rate a;
              value_at_risk_beta := value_at_risk_beta a; cvar_beta := cvar_beta a; entropic_risk_measure_theta := entropic_risk_measure_theta a;
              entropic_risk_measure_beta := entropic_risk_measure_beta a; evar_beta := evar_beta a; drawdown_at_risk_beta := x;
              cdar_beta := cdar_beta a; edar_beta := edar_beta a; annualized_factor := annualized_factor a |}
  | Set_cdar_beta x =>
      Some {| returns := returns a; min_acceptable_return := min_acceptable_return a; compounded := compounded a; risk_free_rate := risk_free_rate a;
              value_at_risk_beta := value_at_risk_beta a; cvar_beta := cvar_beta a; entropic_risk_measure_theta := entropic_risk_measure_theta a;
              entropic_risk_measure_beta := entropic_risk_measure_beta a; evar_beta := evar_beta a; drawdown_at_risk_beta := drawdown_at_risk_beta a;
              cdar_beta := x; edar_beta := edar_beta a; annualized_factor := annualized_factor a |}
  | Set_edar_beta x =>
      Some {| returns := returns a; min_acceptable_return := min_acceptable_return a; compounded := compounded a; risk_free_rate := risk_free_rate a;
              value_at_risk_beta := value_at_risk_beta a; cvar_beta := cvar_beta a; entropic_risk_measure_theta := entropic_risk_measure_theta a;
              entropic_risk_measure_beta := entropic_risk_measure_beta a; evar_beta := evar_beta a; drawdown_at_risk_beta := drawdown_at_risk_beta a;
              cdar_beta := cdar_beta a; edar_beta := x; annualized_factor := annualized_factor a |}
  | Set_returns _ | Set_cumulative_returns _ | Set_drawdowns _ => None (* read-only *)
  end.
Definition ref_set_factor (a : attrs) (x : R) : attrs :=
  {| returns := returns a; min_acceptable_return := min_acceptable_return a; compounded := compounded a; risk_free_rate := risk_free_rate a;
     value_at_risk_beta := value_at_risk_beta a; cvar_beta := cvar_beta a; entropic_risk_measure_theta := entropic_risk_measure_theta a;
     entropic_risk_measure_beta := entropic_risk_measure_beta a; evar_beta := evar_beta a; drawdown_at_risk_beta := drawdown_at_risk_beta a;
     cdar_beta := cdar_beta a; edar_beta := edar_beta a; annualized_factor := x |}.

Definition plain := (attrs * list measure)%type.
Definition replace (st : list plain) (i : nat) (x : plain) : list plain := firstn i st ++ x :: skipn (S i) st.
Definition ref_step (st : list plain) (o : op) : list plain * out :=
  let on i (f : plain -> list plain * out) := match nth_error st i with Some p => f p | None => (st, Raised) end in
  match o with
  | New a ms => (st ++ [(a, ms)], Done)
  | ReadMeasure i m | GetMeasure i m => on i (fun p => (st, OutMeasure (spec_measure partition sort solver (fst p) m)))
  | ReadFitness i => on i (fun p => (st, OutFitness (spec_fitness partition sort solver (fst p) (snd p))))
  | ReadCumulative i => on i (fun p => (st, OutArray (get_cumulative_returns (returns (fst p)) (compounded (fst p)))))
  | ReadDrawdowns i => on i (fun p => (st, OutArray (get_drawdowns (returns (fst p)) (compounded (fst p)))))
  | Assign i s => on i (fun p => match ref_assign (fst p) s with Some a => (replace st i (a, snd p), Done) | None => (st, Raised) end)
  | SetFactor i f => on i (fun p => (replace st i (ref_set_factor (fst p) f, snd p), Done))
  | SetFitness i ms => on i (fun p => match ms with [] => (st, Raised) | _ => (replace st i (fst p, ms), Done) end)
  | AppendFitness i m => on i (fun p => (replace st i (fst p, snd p ++ [m]), Done))
  | AssignMeasure i m v => on i (fun p => (st, Raised))
  | Clear i => on i (fun p => (st, Done))
  | Copy i => on i (fun p => (st ++ [p], Done))
  end.
Fixpoint ref_run (st : list plain) (ops : list op) : list out :=
  match ops with [] => [] | o :: ops => let (st, v) := ref_step st o in v :: ref_run st ops end.

(** programs that neither modify the list returned by [fitness_measures] in place nor assign a measure *)
Definition supported (o : op) : Prop := match o with AppendFitness _ _ | AssignMeasure _ _ _ => False | _ => True end.

(** * Simulation *)
Definition rel1 (ls : list (list measure)) (p : portfolio) (x : plain) : Prop :=
  at_ p = fst x /\ (fitness_ref p < length ls)%nat /\ nth (fitness_ref p) ls [] = snd x /\ obj_ok partition sort solver (snd x) p.
Definition rel (h : heap) (st : list plain) : Prop := Forall2 (rel1 (lists h)) (objects h) st.

Lemma rel_nth h st i : rel h st ->
  match nth_error (objects h) i, nth_error st i with
  | Some p, Some x => rel1 (lists h) p x
  | None, None => True
  | _, _ => False
  end.
Proof.
  unfold rel. intros H. revert i. induction H as [|p x ps xs H0 H IH]; intros [|i]; cbn; auto. apply IH.
Qed.
Lemma rel_put ls ps st i p x : Forall2 (rel1 ls) ps st -> rel1 ls p x -> (i < length ps)%nat ->
  Forall2 (rel1 ls) (set_nth ps i p) (replace st i x).
Proof.
  intros H. revert i. induction H as [|q y ps xs H0 H IH]; intros i H1 Hi; [cbn in Hi; lia|].
  destruct i as [|i]; cbn.
  - constructor; auto.
  - constructor; auto. apply IH; auto. cbn in Hi; lia.
Qed.
Lemma rel_put_same ls ps st i p x : Forall2 (rel1 ls) ps st -> rel1 ls p x -> nth_error st i = Some x ->
  Forall2 (rel1 ls) (set_nth ps i p) st.
Proof.
  intros H. revert i. induction H as [|q y ps xs H0 H IH]; intros i H1 Hi; [destruct i; discriminate|].
  destruct i as [|i]; cbn in *; constructor; auto. congruence.
Qed.
Lemma rel1_weaken ls e p x : rel1 ls p x -> rel1 (ls ++ [e]) p x.
Proof.
  intros (A&B&C&D). split; auto. split; [rewrite app_length; cbn; lia|]. split; auto. rewrite app_nth1; auto.
Qed.
Lemma rel_weaken ls e ps st : Forall2 (rel1 ls) ps st -> Forall2 (rel1 (ls ++ [e])) ps st.
Proof. induction 1; constructor; auto using rel1_weaken. Qed.

Lemma ref_assign_store a s :
  ref_assign a s = match s with Set_returns _ | Set_cumulative_returns _ | Set_drawdowns _ => None | _ => Some (store a s) end.
Proof. destruct a, s; reflexivity. Qed.

Lemma sim h st o : rel h st -> supported o ->
  rel (fst (step partition sort solver h o)) (fst (ref_step st o)) /\ snd (step partition sort solver h o) = snd (ref_step st o).
Proof.
  intros H Hs. destruct o as [a ms|i m|i m|i|i|i|i s|i f|i ms|i m|i m v|i|i]; cbn [supported] in Hs; try contradiction.
  1:{ cbn. split; auto. unfold rel. cbn. apply Forall2_app; [apply rel_weaken, H|]. constructor; [|constructor].
      split; [reflexivity|]. split; [cbn; rewrite app_length; cbn; lia|]. split; [cbn; rewrite app_nth2, Nat.sub_diag by lia; reflexivity|].
      split; [split; [|split]|]; intros v; cbn; discriminate. }
  all: pose proof (rel_nth h st i H) as Hn; cbn [step ref_step];
    destruct (nth_error (objects h) i) as [p|] eqn:Ep, (nth_error st i) as [x|] eqn:Ex; try contradiction; [|cbn; auto];
    pose proof Hn as (A&B&C&D); pose proof D as [I F];
    assert (Hi: (i < length (objects h))%nat) by (apply nth_error_Some; congruence).
  - destruct (read_measure_spec partition sort solver p m I) as (p'&E'&I'&S'). rewrite E', A. cbn. split; [|reflexivity].
    pose proof S' as (A'&R'&_).
    unfold rel; cbn. eapply rel_put_same; [exact H| |exact Ex]. split; [congruence|]. rewrite R'. split; auto. split; auto. eapply obj_ok_same; eauto.
  - destruct (get_measure_spec partition sort solver p m I) as (p'&E'&I'&S'). rewrite E', A. cbn. split; [|reflexivity].
    pose proof S' as (A'&R'&_).
    unfold rel; cbn. eapply rel_put_same; [exact H| |exact Ex]. split; [congruence|]. rewrite R'. split; auto. split; auto. eapply obj_ok_same; eauto.
  - rewrite C. destruct (read_fitness_spec partition sort solver (snd x) p D) as (p'&E'&I'&A'&R'). rewrite E', A. cbn. split; [|reflexivity].
    unfold rel; cbn. eapply rel_put_same; [exact H| |exact Ex]. split; [congruence|]. rewrite R'. split; auto.
  - destruct (get_cumulative_spec p (proj1 (proj2 I))) as (p'&E'&C'&S'&M'&D'). rewrite E', A. cbn. split; [|reflexivity].
    pose proof S' as (A'&R'&_).
    unfold rel; cbn. eapply rel_put_same; [exact H| |exact Ex]. split; [congruence|]. rewrite R'. split; auto. split; auto.
    eapply obj_ok_same; eauto. destruct I as (I1&I2&I3). split; [|split; [exact C'|]].
    + intros v Hv. rewrite D' in Hv. rewrite A'. apply I1, Hv.
    + intros m v Hv. rewrite M' in Hv. rewrite A'. apply I3, Hv.
  - destruct (get_dd_spec p (proj1 I)) as (p'&E'&C'&S'&M'&D'). rewrite E', A. cbn. split; [|reflexivity].
    pose proof S' as (A'&R'&_).
    unfold rel; cbn. eapply rel_put_same; [exact H| |exact Ex]. split; [congruence|]. rewrite R'. split; auto. split; auto.
    eapply obj_ok_same; eauto. eapply inv_step_slots; eauto.
  - rewrite ref_assign_store, <- A.
    assert (Hcl: forall a, rel1 (lists h) (with_attrs (clear p) a) (a, snd x)).
    { intros a. split; [reflexivity|]. split; [exact B|]. split; [exact C|]. split; [split; [|split]|]; intros v; cbn; discriminate. }
    destruct s; unfold setattr; cbn -[store clear with_attrs];
      (split; [|reflexivity]); unfold rel; cbn -[store clear with_attrs];
      try (apply rel_put; [exact H| |exact Hi]; apply Hcl).
    + eapply rel_put_same; [exact H|exact Hn|exact Ex].
    + eapply rel_put_same; [exact H| |exact Ex]. split; [exact A|]. split; [exact B|]. split; [exact C|apply clear_ok].
    + eapply rel_put_same; [exact H| |exact Ex]. split; [exact A|]. split; [exact B|]. split; [exact C|apply clear_ok].
  - cbn. split; [|reflexivity]. unfold rel; cbn. apply rel_put; [exact H| |exact Hi].
    split; [cbn; rewrite <- A; destruct (at_ p); reflexivity|]. split; [exact B|]. split; [exact C|]. cbn. apply clear_ok.
  - destruct ms as [|m0 ms]; cbn; [split; [exact H|reflexivity]|]. split; [|reflexivity]. unfold rel; cbn.
    apply rel_put; [apply rel_weaken, H| |exact Hi].
    split; [cbn; exact A|]. split; [cbn; rewrite app_length; cbn; lia|]. split; [cbn; rewrite app_nth2, Nat.sub_diag by lia; reflexivity|].
    split; [|intros v; cbn; discriminate]. destruct I as (I1&I2&I3). split; [exact I1|]. split; [exact I2|exact I3].
  - cbn. split; [|reflexivity]. unfold rel; cbn. eapply rel_put_same; [exact H| |exact Ex].
    split; [exact A|]. split; [exact B|]. split; [exact C|apply clear_ok].
  - cbn. split; [|reflexivity]. unfold rel; cbn. apply Forall2_app; [exact H|]. constructor; [|constructor].
    split; [exact A|]. split; [exact B|]. split; [exact C|]. destruct I as (I1&I2&I3). split; [|exact F].
    split; [exact I1|]. split; [exact I2|]. intros m v; cbn; discriminate.
Qed.
End Reference.

(** C16: every program over portfolios, their copies and their attributes observes exactly what it would
    observe if nothing were cached. *)
Theorem C16_measures_never_stale :
  forall partition sort solver ops,
    (forall o, In o ops -> supported o) ->
    run partition sort solver empty_heap ops = ref_run partition sort solver [] ops.
Proof.
  intros P S V ops. assert (H: rel P S V empty_heap []) by constructor. revert H. generalize empty_heap, (@nil plain).
  induction ops as [|o ops IH]; intros h st H Hs; [reflexivity|].
  cbn [run ref_run]. destruct (sim P S V h st o H (Hs o (or_introl eq_refl))) as [H1 H2].
  destruct (step P S V h o) as [h' v], (ref_step P S V st o) as [st' v']. cbn in H1, H2. subst v'. f_equal.
  apply IH; auto. intros; apply Hs; right; auto.
Qed.
Print Assumptions C16_measures_never_stale.

Definition attrs0 : attrs :=
  {| returns := [1; 2]; min_acceptable_return := None; compounded := false; risk_free_rate := 0; value_at_risk_beta := 0;
     cvar_beta := 0; entropic_risk_measure_theta := 1; entropic_risk_measure_beta := 0; evar_beta := 0; drawdown_at_risk_beta := 0;
     cdar_beta := 0; edar_beta := 0; annualized_factor := 252 |}.
(** non-vacuity: a program that reads, changes an attribute of a copy, and reads both *)
Example C16_example : forall o,
  In o [New attrs0 [MEAN; VARIANCE]; ReadMeasure 0 SHARPE_RATIO; Copy 0; Assign 1 (Set_risk_free_rate 1); ReadMeasure 1 SHARPE_RATIO; ReadMeasure 0 SHARPE_RATIO; ReadFitness 1] -> supported o.
Proof. intros o H. repeat (destruct H as [<-|H]; [exact I|]). destruct H. Qed.

(** The list handed out by [fitness_measures] is the internal one: appending to it leaves a stale fitness,
    and changes the list of every copy. *)
Theorem C16_fitness_list_aliased_refuted :
  exists ops, forall partition sort solver,
    run partition sort solver empty_heap ops <> ref_run partition sort solver [] ops.
Proof.
  exists [New attrs0 [MEAN]; ReadFitness 0; AppendFitness 0 MEAN; ReadFitness 0]. intros P S V H.
  apply (f_equal (fun l => nth 3 l Done)) in H. cbn -[spec_measure need mean] in H. inversion H.
Qed.
Print Assumptions C16_fitness_list_aliased_refuted.
Theorem C16_fitness_list_shared_with_copy_refuted :
  exists ops, forall partition sort solver,
    run partition sort solver empty_heap ops <> ref_run partition sort solver [] ops
    /\ (forall o, In o ops -> match o with AppendFitness i _ => i = 1%nat | ReadFitness i => i = 0%nat | AssignMeasure _ _ _ => False | _ => True end).
Proof.
  exists [New attrs0 [MEAN]; Copy 0; AppendFitness 1 MEAN; ReadFitness 0]. intros P S V. split.
  - intros H. apply (f_equal (fun l => nth 3 l Done)) in H. cbn -[spec_measure need mean] in H. inversion H.
  - intros o H. repeat (destruct H as [<-|H]; [auto|]). destruct H.
Qed.
Print Assumptions C16_fitness_list_shared_with_copy_refuted.
(** A measure attribute can be overwritten by assignment. *)
Theorem C16_measure_assignment_rejected_refuted :
  exists ops, forall partition sort solver,
    run partition sort solver empty_heap ops <> ref_run partition sort solver [] ops.
Proof.
  exists [New attrs0 [MEAN]; AssignMeasure 0 MEAN 7]. intros P S V H. discriminate H.
Qed.
Print Assumptions C16_measure_assignment_rejected_refuted.

(** * C17 *)
(** every measure of the four enumerations resolves: on a new portfolio get_measure returns, without an
    exception, the value listed in [spec_measure] *)
Theorem C17_every_measure_resolves :
  forall partition sort solver a m,
    snd (get_measure partition sort solver (new_portfolio a 0) m) = Some (spec_measure partition sort solver a m).
Proof.
  intros P S V a m.
  assert (I: inv P S V (new_portfolio a 0)) by (split; [|split]; intros v; cbn; discriminate).
  destruct (get_measure_spec P S V _ m I) as (p'&E&_&_). rewrite E. reflexivity.
Qed.
Print Assumptions C17_every_measure_resolves.
Lemma measures_complete m : In m measures.
Proof. destruct m; cbn; tauto. Qed.
(** names: annualized and non-annualized versions are inverse of each other, and every measure named
    annualized has a non-annualized version of the same class; every ratio has a linked risk measure *)
Theorem C17_names_consistent :
  NoDup (map value measures)
  /\ (forall m, In m measures)
  /\ (forall m k, annualized_measure m = Some k <-> non_annualized_measure k = Some m)
  /\ (forall m, is_annualized m = true -> exists k, non_annualized_measure m = Some k /\ class_of k = class_of m)
  /\ (forall m, class_of m = Ratio -> exists k, linked_risk_measure m = Some k /\ (class_of k = Risk \/ class_of k = Extra))
  /\ (forall m k, class_of m = Ratio -> annualized_measure m = Some k ->
        exists r r', linked_risk_measure m = Some r /\ linked_risk_measure k = Some r' /\ annualized_measure r = Some r').
Proof.
  split; [|split; [apply measures_complete|split; [|split; [|split]]]].
  - assert (D: forall (l : list string), (fix nd l := match l with [] => true | x :: l => negb (existsb (String.eqb x) l) && nd l end) l = true -> NoDup l).
    { induction l as [|x l IH]; intros H; [constructor|]. apply andb_prop in H as [H1 H2]. constructor; [|auto].
      intros Hx. rewrite negb_true_iff in H1. assert (existsb (String.eqb x) l = true) by (apply existsb_exists; exists x; split; [auto|apply String.eqb_refl]). congruence. }
    apply D. vm_compute. reflexivity.
  - intros m k. split; intros H; [destruct m|destruct k]; vm_compute in H; try discriminate H; inversion H; subst; vm_compute; reflexivity.
  - intros m H. destruct m; vm_compute in H; try discriminate H; eexists; split; vm_compute; reflexivity.
  - intros m H. destruct m; try discriminate H; eexists; (split; [vm_compute; reflexivity|cbn; auto]).
  - intros m k H H'. destruct m; try discriminate H; vm_compute in H'; try discriminate H'; inversion H'; subst;
      eexists; eexists; repeat split; vm_compute; reflexivity.
Qed.
Print Assumptions C17_names_consistent.

(** annualisation: factor for mean and variances, its square root for deviations *)
Definition annualization (m : measure) (f : R) : option R :=
  match m with
  | MEAN | VARIANCE | SEMI_VARIANCE => Some f
  | STANDARD_DEVIATION | SEMI_DEVIATION => Some (sqrt f)
  | _ => None
  end.
Theorem C17_annualization :
  forall partition sort solver a m k c,
    annualized_measure m = Some k -> annualization m (annualized_factor a) = Some c ->
    spec_measure partition sort solver a k = option_map (fun x => x * c) (spec_measure partition sort solver a m).
Proof.
  intros P S V a m k c Hk Hc. destruct m; cbn in Hc; try discriminate Hc; inversion Hc; subst; vm_compute in Hk; inversion Hk; subst;
  unfold spec_measure, spec_function, need; cbn -[Nat.ltb mean variance semi_variance standard_deviation semi_deviation sqrt]; destruct (_ <? _)%nat; reflexivity.
Qed.
Print Assumptions C17_annualization.
(** an annualised ratio is the ratio times the square root of the factor exactly when the risk-free rate is
    zero (or the factor is one): the risk-free rate is subtracted from the annualised mean as it is *)
Theorem C17_annualized_ratio :
  forall partition sort solver a m k x,
    class_of m = Ratio -> annualized_measure m = Some k -> 0 < annualized_factor a ->
    spec_measure partition sort solver a m = Some x ->
    exists y, spec_measure partition sort solver a k = Some y
      /\ (y = sqrt (annualized_factor a) * x <-> risk_free_rate a = 0 \/ annualized_factor a = 1).
Proof.
  intros P S V a m k x Hm Hk Hf Hx.
  assert (Hs: 0 < sqrt (annualized_factor a)) by (apply sqrt_lt_R0; auto).
  pose proof (sqrt_sqrt (annualized_factor a) ltac:(lra)) as Hss.
  destruct m; try discriminate Hm; vm_compute in Hk; try discriminate Hk; inversion Hk; subst k; clear Hk Hm;
  unfold spec_measure, spec_function in *; cbn -[need mean semi_deviation standard_deviation ratio sqrt] in *;
  unfold need in *; destruct (length (returns a) <? 1)%nat; try discriminate Hx; destruct (length (returns a) <? 2)%nat; try discriminate Hx;
  cbn -[mean semi_deviation standard_deviation sqrt] in *;
  (match type of Hx with context [Req_EM_T ?y 0] => set (sd := y) in * end);
  (destruct (Req_EM_T sd 0) as [E|E]; [discriminate Hx|]);
  (destruct (Req_EM_T (sd * sqrt (annualized_factor a)) 0) as [E'|E']; [exfalso; apply Rmult_integral in E' as [E'|E']; lra|]);
  inversion Hx as [Hx']; clear Hx; eexists; (split; [reflexivity|]);
  set (f := annualized_factor a) in *; set (s := sqrt f) in *; set (rf := risk_free_rate a); set (mu := mean (returns a)) in *;
  (assert (Hd: (mu * f - rf) / (sd * s) - s * ((mu - rf) / sd) = rf * (f - 1) / (sd * s)) by (rewrite <- Hss; field; lra));
  (split;
   [ intros Hy; rewrite Hy in Hd;
     assert (Hz: rf * (f - 1) / (sd * s) = 0) by lra;
     unfold Rdiv in Hz; apply Rmult_integral in Hz as [Hz|Hz];
       [apply Rmult_integral in Hz as [Hz|Hz]; [left; auto|right; lra]|exfalso; apply (Rinv_neq_0_compat _ E'), Hz]
   | intros Hy; assert (Hz: rf * (f - 1) / (sd * s) = 0) by (destruct Hy as [Hy|Hy]; rewrite Hy; unfold Rdiv; ring); lra ]).
Qed.
Print Assumptions C17_annualized_ratio.

(** rolling_measure is the measure of the portfolio restricted to each window, for every measure except the
    two annualised ratios *)
Definition with_returns (a : attrs) (r : list R) : attrs :=
  {| returns := r; min_acceptable_return := min_acceptable_return a; compounded := compounded a; risk_free_rate := risk_free_rate a;
     value_at_risk_beta := value_at_risk_beta a; cvar_beta := cvar_beta a; entropic_risk_measure_theta := entropic_risk_measure_theta a;
     entropic_risk_measure_beta := entropic_risk_measure_beta a; evar_beta := evar_beta a; drawdown_at_risk_beta := drawdown_at_risk_beta a;
     cdar_beta := cdar_beta a; edar_beta := edar_beta a; annualized_factor := annualized_factor a |}.
Theorem C17_rolling_measure :
  forall partition sort solver a m window i,
    m <> ANNUALIZED_SHARPE_RATIO -> m <> ANNUALIZED_SORTINO_RATIO -> (i < length (returns a))%nat ->
    nth_error (rolling_measure partition sort solver a m window) i
    = Some (Some (if (i + 1 <? window)%nat then None
                  else spec_measure partition sort solver (with_returns a (firstn window (skipn (i + 1 - window) (returns a)))) m)).
Proof.
  intros P S V a m window i H1 H2 Hi. unfold rolling_measure.
  rewrite nth_error_map. replace (nth_error (seq 0 (length (returns a))) i) with (Some i).
  2:{ symmetry. rewrite (nth_error_nth' _ 0%nat) by (rewrite seq_length; auto). rewrite seq_nth by auto. reflexivity. }
  cbn [option_map]. f_equal. destruct (i + 1 <? window)%nat; [reflexivity|].
  generalize (firstn window (skipn (i + 1 - window) (returns a))). intros w.
  unfold rolling_window.
  destruct m; try congruence;
  match goal with |- context [if is_annualized ?m then non_annualized_measure ?m else Some ?m] =>
    let r := eval vm_compute in (if is_annualized m then non_annualized_measure m else Some m) in
    change (if is_annualized m then non_annualized_measure m else Some m) with r; cbv iota end;
  try match goal with |- context [linked_risk_measure ?m] =>
    let r := eval vm_compute in (linked_risk_measure m) in change (linked_risk_measure m) with r end;
  cbn -[need mean variance semi_variance standard_deviation semi_deviation mean_absolute_deviation cvar evar worst_realization
        cdar max_drawdown average_drawdown first_lower_partial_moment ulcer_index gini_mean_difference value_at_risk drawdown_at_risk
        entropic_risk_measure fourth_central_moment fourth_lower_partial_moment third_central_moment pow ratio get_drawdowns get_dd scale];
  rewrite ?scale_need; reflexivity.
Qed.
Print Assumptions C17_rolling_measure.
(** the annualised Sharpe ratio of a window is not the rolling annualised Sharpe ratio *)
Theorem C17_rolling_annualized_ratio_refuted :
  exists a, forall partition sort solver,
    nth_error (rolling_measure partition sort solver a ANNUALIZED_SHARPE_RATIO (length (returns a))) (length (returns a) - 1)
    <> Some (Some (spec_measure partition sort solver a ANNUALIZED_SHARPE_RATIO)).
Proof.
  exists {| returns := [0; 2]; min_acceptable_return := None; compounded := false; risk_free_rate := 1; value_at_risk_beta := 0;
     cvar_beta := 0; entropic_risk_measure_theta := 1; entropic_risk_measure_beta := 0; evar_beta := 0; drawdown_at_risk_beta := 0;
     cdar_beta := 0; edar_beta := 0; annualized_factor := 4 |}. intros P S V H.
  cbn -[standard_deviation mean sqrt ratio] in H.
  assert (Hsd: standard_deviation [0; 2] <> 0).
  { unfold standard_deviation. apply Rgt_not_eq, sqrt_lt_R0. unfold variance, mean, len, sum_over. cbn. lra. }
  assert (H4: sqrt 4 = 2) by (replace 4 with (2 * 2) by ring; apply sqrt_square; lra).
  assert (Hm: mean [0; 2] = 1) by (unfold mean, len; cbn; lra).
  unfold ratio in H. destruct (Req_EM_T (standard_deviation [0; 2]) 0) as [E|_]; [contradiction|].
  destruct (Req_EM_T (standard_deviation [0;2] * sqrt 4) 0) as [E|E]; [discriminate H|].
  cbn -[standard_deviation mean sqrt] in H. inversion H as [H']. rewrite H4, Hm in H'.
  assert (Hx: 3 / (standard_deviation [0; 2] * 2) = 0).
  { replace 3 with (1 * 4 - 1) by ring. rewrite <- H'. field. auto. }
  apply (Rmult_eq_compat_r (standard_deviation [0; 2] * 2)) in Hx. unfold Rdiv in Hx. rewrite Rmult_assoc, Rinv_l in Hx; lra.
Qed.
Print Assumptions C17_rolling_annualized_ratio_refuted.

Example C17_example : spec_measure (fun r _ => r) (fun r => r) (fun _ l => l) attrs0 SHARPE_RATIO <> None /\ 0 < annualized_factor attrs0.
Proof.
  split; [|cbn; lra]. unfold spec_measure. cbn -[standard_deviation mean]. destruct (Req_EM_T _ 0) as [E|E]; [|discriminate].
  exfalso. assert (standard_deviation [1; 2] > 0); [|lra]. unfold standard_deviation. apply sqrt_lt_R0. unfold variance, mean, len, sum_over. cbn. lra.
Qed.
