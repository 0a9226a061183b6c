(** C95: how the optimum of a mean-risk optimisation responds to its parameters. *)
From Coq Require Import List Arith Bool Reals Lia Lra FunctionalExtensionality.
From Verif Require Import RList MeasuresModel MeasuresProofs EquationsModel EquationsSpec EquationsProps ConvexModel ConvexProps ConvexMoreProps RiskModel RiskProps RiskTailProps MeanRiskModel MeanRiskProps MeanRiskOptimalProps SolveModel SolveProps.
Import ListNotations.
Local Open Scope R_scope.

(** * Specification *)
(** the same estimator with other coefficients: l1_coef = a, l2_coef = b, risk_aversion = g *)
Definition with_coefficients (q : mean_risk) (a b g : R) : mean_risk := {| prior_ := prior_ q; settings_ := settings_ q; params_ := params_ q; names_ := names_ q; mip_solver_ := mip_solver_ q;
  objective_ := objective_ q; risk_measure_ := risk_measure_ q; limits_ := limits_ q; min_return_ := min_return_ q; max_turnover_ := max_turnover_ q; has_previous_ := has_previous_ q;
  max_tracking_error_ := max_tracking_error_ q; benchmark_ := benchmark_ q; mu_uncertainty_ := mu_uncertainty_ q; l1_ := a; l2_ := b; risk_aversion_ := g; scale_objective_ := scale_objective_ q; overwrite_ := overwrite_ q |}.
(** the same estimator asked for the least risk with an expected return of at least r *)
Definition least_risk (q : mean_risk) (r : R) : mean_risk := {| prior_ := prior_ q; settings_ := settings_ q; params_ := params_ q; names_ := names_ q; mip_solver_ := mip_solver_ q;
  objective_ := MINIMIZE_RISK; risk_measure_ := risk_measure_ q; limits_ := limits_ q; min_return_ := Some r; max_turnover_ := max_turnover_ q; has_previous_ := has_previous_ q;
  max_tracking_error_ := max_tracking_error_ q; benchmark_ := benchmark_ q; mu_uncertainty_ := mu_uncertainty_ q; l1_ := l1_ q; l2_ := l2_ q; risk_aversion_ := risk_aversion_ q; scale_objective_ := scale_objective_ q; overwrite_ := overwrite_ q |}.
Definition sum_abs (q : mean_risk) (x : vec) : R := sum_over (seq 0 (n_assets (prior_ q))) (fun i => Rabs (x i)).
Definition sum_squares (q : mean_risk) (x : vec) : R := sum_over (seq 0 (n_assets (prior_ q))) (fun i => x i ^ 2).
(** what the objective rewards besides the penalties *)
Definition merit (q : mean_risk) (g : R) (x : vec) (r : R) : R :=
  match objective_ q with
  | MINIMIZE_RISK => - r
  | MAXIMIZE_RETURN => expected q x
  | MAXIMIZE_UTILITY => expected q x - g * r
  | MAXIMIZE_RATIO => 0
  end.
(** y is better than x in one of return and risk, and not worse in the other nor in the penalties *)
Definition dominates (q : mean_risk) (y : vec) (ry : R) (x : vec) (rx : R) : Prop :=
  expected q x <= expected q y /\ ry <= rx /\ penalty q y <= penalty q x /\ (expected q x < expected q y \/ ry < rx).
(** a limit is at least as loose as another: absent, or further in the direction [le] *)
Definition looser {A} (le : A -> A -> Prop) (tight loose : option A) : Prop :=
  match loose with None => True | Some b => match tight with Some a => le a b | None => False end end.
Definition upper (n : nat) (a b : vec) : Prop := forall i, (i < n)%nat -> a i <= b i.
Definition lower (n : nat) (a b : vec) : Prop := forall i, (i < n)%nat -> b i <= a i.
(** q' is the estimator q with some limits relaxed or removed; cs and cs' are their linear constraints *)
Record relaxed (q q' : mean_risk) (cs cs' : list constr) : Prop := {
  same_prior : prior_ q' = prior_ q; same_settings : settings_ q' = settings_ q; same_names : names_ q' = names_ q; same_groups : groups (params_ q') = groups (params_ q);
  same_objective : objective_ q' = objective_ q; same_measure : risk_measure_ q' = risk_measure_ q; same_benchmark : benchmark_ q' = benchmark_ q;
  same_uncertainty : mu_uncertainty_ q' = mu_uncertainty_ q; same_overwrite : overwrite_ q' = overwrite_ q;
  same_l1 : l1_ q' = l1_ q; same_l2 : l2_ q' = l2_ q; same_aversion : risk_aversion_ q' = risk_aversion_ q;
  looser_limits : forall rm, looser Rle (limits_ q rm) (limits_ q' rm);
  looser_return : looser Rge (min_return_ q) (min_return_ q');
  looser_turnover : looser Rle (max_turnover_ q) (max_turnover_ q');
  looser_tracking : looser Rle (max_tracking_error_ q) (max_tracking_error_ q');
  looser_min_weights : looser (lower (n_assets (prior_ q))) (min_weights (params_ q)) (min_weights (params_ q'));
  looser_max_weights : looser (upper (n_assets (prior_ q))) (max_weights (params_ q)) (max_weights (params_ q'));
  looser_long : looser Rle (max_long (params_ q)) (max_long (params_ q'));
  looser_short : looser Rle (max_short (params_ q)) (max_short (params_ q'));
  looser_min_budget : looser Rge (match budget (params_ q) with Some b => Some b | None => min_budget (params_ q) end) (min_budget (params_ q'));
  looser_max_budget : looser Rle (match budget (params_ q) with Some b => Some b | None => max_budget (params_ q) end) (max_budget (params_ q'));
  looser_budget : looser eq (budget (params_ q)) (budget (params_ q'));
  fewer_constraints : incl cs' cs;
  looser_inequality : forall l r', left_inequality (params_ q') = Some l -> right_inequality (params_ q') = Some r' ->
    exists r, left_inequality (params_ q) = Some l /\ right_inequality (params_ q) = Some r /\ forall k, (k < length l)%nat -> nth k r 0 <= nth k r' 0 }.

(** * Lemmas *)
Lemma factor_one tf q p : objective_ q <> MAXIMIZE_RATIO -> feasible tf q p -> f_ p = 1.
Proof. intros Ho [[H|H] _]; [|exact H]. unfold is_ratio in H. destruct (objective_ q); congruence. Qed.
Lemma weights_one p : f_ p = 1 -> weights p = w_ p.
Proof. intros F. unfold weights. rewrite F. extensionality i. unfold reported. field. Qed.
Lemma svec_one (x : vec) : svec 1 x = x. Proof. extensionality i. unfold svec. ring. Qed.
Lemma feasible_reachable tf q p : objective_ q <> MAXIMIZE_RATIO -> feasible tf q p -> reachable tf q (weights p) 1.
Proof.
  intros Ho Hf. pose proof (factor_one tf q p Ho Hf) as F. destruct Hf as (_&l&E&Hl). destruct (problem_split tf q p l E) as (lt&lw&_&Ew&Hall). destruct (proj1 Hall Hl) as (_&_&A&_).
  exists (m_ p), lw. split; auto. rewrite (weights_one p F), svec_one. rewrite <- F. exact Ew.
Qed.
(** an optimum beats every feasible point of the same problem, with or without integer constraints *)
Lemma beats tf q cs p p' rx ry : 0 < scale (settings_ q) -> 0 < scale_objective_ q -> costs_ok (settings_ q) -> accepted tf q cs -> objective_ q <> MAXIMIZE_RATIO ->
  (objective_ q = MAXIMIZE_UTILITY -> 0 <= risk_aversion_ q) ->
  optimal tf q p -> feasible tf q p' -> risk_is q (risk_measure_ q) (weights p) rx -> risk_is q (risk_measure_ q) (weights p') ry ->
  merit q (risk_aversion_ q) (weights p') ry - penalty q (weights p') <= merit q (risk_aversion_ q) (weights p) rx - penalty q (weights p).
Proof.
  intros Hs Hso Hc Ha Ho Hg Hopt Hp' Hx Hy.
  assert (Al : allowed tf q cs (weights p')). { apply (C36_weights_allowed tf q cs p' Hs Hc Ha Hp'); [rewrite (factor_one tf q p' Ho Hp'); lra|]. intros H; contradiction. }
  pose proof (optimal_core tf q cs p Hs Hso Hc Ha Ho Hopt (weights p') rx ry Al Hx (is_at_most q _ _ ry Hy) (feasible_reachable tf q p' Ho Hp')) as K.
  unfold merit. destruct (objective_ q); try lra; [specialize (K (Hg eq_refl)); lra|congruence].
Qed.
Lemma penalty_parts q x : penalty q x = l1_ q * sum_abs q x + l2_ q * sum_squares q x. Proof. reflexivity. Qed.

(** * Theorems *)
(** ** Risk aversion: raising it never raises the risk, nor the expected return net of the penalties *)
Theorem C95_risk_aversion : forall tf q cs g g' p p' r r',
  let Q := with_coefficients q (l1_ q) (l2_ q) g in let Q' := with_coefficients q (l1_ q) (l2_ q) g' in
  0 < scale (settings_ q) -> 0 < scale_objective_ q -> costs_ok (settings_ q) -> accepted tf q cs -> objective_ q = MAXIMIZE_UTILITY -> 0 <= g < g' ->
  optimal tf Q p -> optimal tf Q' p' -> risk_is q (risk_measure_ q) (weights p) r -> risk_is q (risk_measure_ q) (weights p') r' ->
  r' <= r /\ expected q (weights p') - penalty q (weights p') <= expected q (weights p) - penalty q (weights p).
Proof.
  intros tf q cs g g' p p' r r' Q Q' Hs Hso Hc Ha Ho Hg O1 O2 R1 R2.
  assert (B1 := beats tf Q cs p p' r r' Hs Hso Hc Ha ltac:(cbn; congruence) ltac:(cbn; lra) O1 (proj1 O2) R1 R2).
  assert (B2 := beats tf Q' cs p' p r' r Hs Hso Hc Ha ltac:(cbn; congruence) ltac:(cbn; lra) O2 (proj1 O1) R2 R1).
  unfold merit in B1, B2. cbn [Q Q' with_coefficients objective_ risk_aversion_] in B1, B2. rewrite Ho in B1, B2.
  change (expected Q) with (expected q) in B1. change (expected Q') with (expected q) in B2. change (penalty Q) with (penalty q) in B1. change (penalty Q') with (penalty q) in B2.
  assert (r' <= r) by nra. split; [assumption|nra].
Qed.
Print Assumptions C95_risk_aversion.

(** ** Regularisation: raising a coefficient never raises the penalised norm, nor the rest of the objective *)
Theorem C95_l1 : forall tf q cs a a' p p' r r',
  let Q := with_coefficients q a (l2_ q) (risk_aversion_ q) in let Q' := with_coefficients q a' (l2_ q) (risk_aversion_ q) in
  0 < scale (settings_ q) -> 0 < scale_objective_ q -> costs_ok (settings_ q) -> accepted tf q cs -> objective_ q <> MAXIMIZE_RATIO -> 0 <= risk_aversion_ q -> 0 <= a < a' ->
  optimal tf Q p -> optimal tf Q' p' -> risk_is q (risk_measure_ q) (weights p) r -> risk_is q (risk_measure_ q) (weights p') r' ->
  sum_abs q (weights p') <= sum_abs q (weights p)
  /\ merit q (risk_aversion_ q) (weights p') r' - l2_ q * sum_squares q (weights p') <= merit q (risk_aversion_ q) (weights p) r - l2_ q * sum_squares q (weights p).
Proof.
  intros tf q cs a a' p p' r r' Q Q' Hs Hso Hc Ha Ho Hg Haa O1 O2 R1 R2.
  assert (B1 := beats tf Q cs p p' r r' Hs Hso Hc Ha Ho ltac:(cbn; lra) O1 (proj1 O2) R1 R2).
  assert (B2 := beats tf Q' cs p' p r' r Hs Hso Hc Ha Ho ltac:(cbn; lra) O2 (proj1 O1) R2 R1).
  rewrite !penalty_parts in B1, B2. cbn [Q Q' with_coefficients risk_aversion_ l1_ l2_] in B1, B2.
  change (merit Q) with (merit q) in B1. change (merit Q') with (merit q) in B2. change (sum_abs Q) with (sum_abs q) in B1. change (sum_abs Q') with (sum_abs q) in B2.
  change (sum_squares Q) with (sum_squares q) in B1. change (sum_squares Q') with (sum_squares q) in B2.
  assert (sum_abs q (weights p') <= sum_abs q (weights p)) by nra. split; [assumption|nra].
Qed.
Print Assumptions C95_l1.
Theorem C95_l2 : forall tf q cs b b' p p' r r',
  let Q := with_coefficients q (l1_ q) b (risk_aversion_ q) in let Q' := with_coefficients q (l1_ q) b' (risk_aversion_ q) in
  0 < scale (settings_ q) -> 0 < scale_objective_ q -> costs_ok (settings_ q) -> accepted tf q cs -> objective_ q <> MAXIMIZE_RATIO -> 0 <= risk_aversion_ q -> 0 <= b < b' ->
  optimal tf Q p -> optimal tf Q' p' -> risk_is q (risk_measure_ q) (weights p) r -> risk_is q (risk_measure_ q) (weights p') r' ->
  sum_squares q (weights p') <= sum_squares q (weights p)
  /\ merit q (risk_aversion_ q) (weights p') r' - l1_ q * sum_abs q (weights p') <= merit q (risk_aversion_ q) (weights p) r - l1_ q * sum_abs q (weights p).
Proof.
  intros tf q cs b b' p p' r r' Q Q' Hs Hso Hc Ha Ho Hg Hbb O1 O2 R1 R2.
  assert (B1 := beats tf Q cs p p' r r' Hs Hso Hc Ha Ho ltac:(cbn; lra) O1 (proj1 O2) R1 R2).
  assert (B2 := beats tf Q' cs p' p r' r Hs Hso Hc Ha Ho ltac:(cbn; lra) O2 (proj1 O1) R2 R1).
  rewrite !penalty_parts in B1, B2. cbn [Q Q' with_coefficients risk_aversion_ l1_ l2_] in B1, B2.
  change (merit Q) with (merit q) in B1. change (merit Q') with (merit q) in B2. change (sum_abs Q) with (sum_abs q) in B1. change (sum_abs Q') with (sum_abs q) in B2.
  change (sum_squares Q) with (sum_squares q) in B1. change (sum_squares Q') with (sum_squares q) in B2.
  assert (sum_squares q (weights p') <= sum_squares q (weights p)) by nra. split; [assumption|nra].
Qed.
Print Assumptions C95_l2.

(** ** Efficiency: no allowed weights dominate those of a utility (with a positive risk aversion) or of the best ratio (with a positive cost of risk) *)
Theorem C95_utility_efficient : forall tf q cs p y rx ry,
  0 < scale (settings_ q) -> 0 < scale_objective_ q -> costs_ok (settings_ q) -> accepted tf q cs -> groups_ok (n_assets (prior_ q)) (params_ q) ->
  objective_ q = MAXIMIZE_UTILITY -> 0 < risk_aversion_ q -> optimal tf q p ->
  allowed tf q cs y -> within_cardinalities (n_assets (prior_ q)) (params_ q) y -> within_thresholds (n_assets (prior_ q)) (params_ q) y ->
  (is_mip (n_assets (prior_ q)) (params_ q) = true -> forall i, (i < n_assets (prior_ q))%nat -> -1000 <= y i <= 1000) ->
  risk_is q (risk_measure_ q) (weights p) rx -> risk_is q (risk_measure_ q) y ry -> ~ dominates q y ry (weights p) rx.
Proof.
  intros tf q cs p y rx ry Hs Hso Hc Ha Hgr Ho Hg Hopt Al Wc Wt HM Hx Hy (D1&D2&D3&D4).
  assert (R : reachable tf q y 1).
  { destruct (is_mip (n_assets (prior_ q)) (params_ q)) eqn:M; [|apply (reachable_continuous tf q cs); auto; lra].
    apply (reachable_mixed tf q cs); auto; [lra|]. intros i Hi. specialize (HM eq_refl i Hi). lra. }
  pose proof (optimal_core tf q cs p Hs Hso Hc Ha ltac:(congruence) Hopt y rx ry Al Hx (is_at_most q _ _ ry Hy) R) as K. rewrite Ho in K. specialize (K ltac:(lra)). destruct D4; nra.
Qed.
Print Assumptions C95_utility_efficient.
Theorem C95_ratio_efficient : forall tf q cs p y rx ry,
  0 < scale (settings_ q) -> 0 < scale_objective_ q -> costs_ok (settings_ q) -> is_mip (n_assets (prior_ q)) (params_ q) = false -> accepted tf q cs ->
  objective_ q = MAXIMIZE_RATIO -> l2_ q = 0 -> (homogeneous (risk_measure_ q) \/ l1_ q = 0) ->
  max_tracking_error_ q = None -> (forall rm, ~ homogeneous rm -> limits_ q rm = None) ->
  optimal tf q p -> 0 < f_ p -> allowed tf q cs y -> risk_is q (risk_measure_ q) (weights p) rx -> risk_is q (risk_measure_ q) y ry ->
  0 < rx + penalty q (weights p) -> 0 <= ry + penalty q y -> ~ dominates q y ry (weights p) rx.
Proof.
  intros tf q cs p y rx ry Hs Hso Hc Hm Ha Ho Hl2 Hl1 Hte Hlim Hopt Hp Al Hx Hy P1 P2 (D1&D2&D3&D4).
  destruct (C36_weights_allowed tf q cs p Hs Hc Ha (proj1 Hopt) Hp ltac:(auto)) as [_ E]. specialize (E Ho).
  assert (E' : excess q (weights p) <= excess q y) by (unfold excess; lra).
  pose proof (C36_maximum_ratio tf q cs p Hs Hso Hc Hm Ha Ho Hl2 Hl1 Hte Hlim Hopt Hp y rx ry Al ltac:(lra) Hx Hy (or_intror P2)) as K.
  set (cx := rx + penalty q (weights p)) in *. set (cy := ry + penalty q y) in *. assert (C : cy <= cx) by (unfold cx, cy; lra).
  assert (D : degree (risk_measure_ q) = 1%nat \/ degree (risk_measure_ q) = 2%nat) by (destruct (risk_measure_ q); cbn; auto).
  assert (S : expected q (weights p) < expected q y -> excess q (weights p) < excess q y) by (unfold excess; lra).
  assert (S' : ry < rx -> cy < cx) by (unfold cx, cy; lra).
  set (a := excess q (weights p)) in *. set (b := excess q y) in *.
  destruct D as [D|D]; rewrite D in K.
  - rewrite !pow_1 in K. destruct D4 as [D4|D4]; [specialize (S D4); nra|specialize (S' D4); nra].
  - assert (A2 : a ^ 2 <= b ^ 2) by nra. assert (A3 : 0 < a ^ 2) by nra.
    destruct D4 as [D4|D4]; [specialize (S D4); assert (a ^ 2 < b ^ 2) by nra; nra|specialize (S' D4); nra].
Qed.
Print Assumptions C95_ratio_efficient.

(** ** The utility portfolios lie on the efficient frontier: least risk at their expected return gives the same risk and the same return *)
Theorem C95_utility_on_frontier : forall tf q cs p p' r r',
  0 < scale (settings_ q) -> 0 < scale_objective_ q -> costs_ok (settings_ q) -> is_mip (n_assets (prior_ q)) (params_ q) = false ->
  objective_ q = MAXIMIZE_UTILITY -> 0 < risk_aversion_ q -> l1_ q = 0 -> l2_ q = 0 -> accepted tf q cs -> min_return_ q = None -> optimal tf q p ->
  let Q := least_risk q (expected q (weights p)) in accepted tf Q cs -> optimal tf Q p' ->
  risk_is q (risk_measure_ q) (weights p) r -> risk_is q (risk_measure_ q) (weights p') r' ->
  r' = r /\ expected q (weights p') = expected q (weights p).
Proof.
  intros tf q cs p p' r r' Hs Hso Hc Hm Ho Hg L1 L2 Ha Hmr O1 Q HA O2 R1 R2.
  assert (P0 : forall x, penalty q x = 0) by (intros x; unfold penalty; rewrite L1, L2; ring). assert (P0' : forall x, penalty Q x = 0) by exact P0.
  assert (A1 : allowed tf q cs (weights p)). { apply (C36_weights_allowed tf q cs p Hs Hc Ha (proj1 O1)); [rewrite (factor_one tf q p ltac:(congruence) (proj1 O1)); lra|congruence]. }
  assert (A2 : allowed tf Q cs (weights p')). { apply (C36_weights_allowed tf Q cs p' Hs Hc HA (proj1 O2)); [rewrite (factor_one tf Q p' ltac:(discriminate) (proj1 O2)); lra|discriminate]. }
  assert (E : expected q (weights p) <= expected q (weights p')) by (destruct A2 as (_&_&_&B&_); exact B).
  assert (A1' : allowed tf Q cs (weights p)) by (destruct A1 as (B1&B2&B3&_&B5); repeat (split; [assumption|]); split; [cbn; right; reflexivity|assumption]).
  assert (A2' : allowed tf q cs (weights p')) by (destruct A2 as (B1&B2&B3&_&B5); repeat (split; [assumption|]); split; [rewrite Hmr; exact I|assumption]).
  pose proof (C36_optimal tf Q cs p' Hs Hso Hc Hm HA ltac:(discriminate) O2 (weights p) r' r A1' R2 R1) as K1. cbn [Q least_risk objective_] in K1. fold Q in K1. rewrite !P0' in K1.
  pose proof (C36_optimal tf q cs p Hs Hso Hc Hm Ha ltac:(congruence) O1 (weights p') r r' A2' R1 R2) as K2. rewrite Ho in K2. specialize (K2 ltac:(lra)). rewrite !P0 in K2.
  assert (r' = r) by nra. split; [assumption|nra].
Qed.
Print Assumptions C95_utility_on_frontier.

(** ** Relaxing limits never worsens the optimum *)
Lemma relaxed_allowed tf q q' cs cs' x : relaxed q q' cs cs' -> allowed tf q cs x -> allowed tf q' cs' x.
Proof.
  intros Rx (D&T&K&M&L). destruct D as (D1&D2&D3&D4&D5&D6&D7&D8&D9). destruct Rx.
  split; [|split; [|split; [|split]]].
  - unfold documented. rewrite same_prior0. set (n := n_assets (prior_ q)) in *.
    split; [|split; [|split; [|split; [|split; [|split; [|split; [|split]]]]]]].
    + destruct (min_weights (params_ q')); [|exact I]. destruct (min_weights (params_ q)); [|contradiction]. intros i Hi. eapply Rle_trans; [apply looser_min_weights0; exact Hi|apply D1; exact Hi].
    + destruct (max_weights (params_ q')); [|exact I]. destruct (max_weights (params_ q)); [|contradiction]. intros i Hi. eapply Rle_trans; [apply D2; exact Hi|apply looser_max_weights0; exact Hi].
    + destruct (max_long (params_ q')); [|exact I]. destruct (max_long (params_ q)); [|contradiction]. cbn in *. lra.
    + destruct (max_short (params_ q')); [|exact I]. destruct (max_short (params_ q)); [|contradiction]. cbn in *. lra.
    + destruct (min_budget (params_ q')); [|exact I]. destruct (budget (params_ q)); [cbn in *; lra|]. destruct (min_budget (params_ q)); [|contradiction]. cbn in *. lra.
    + destruct (max_budget (params_ q')); [|exact I]. destruct (budget (params_ q)); [cbn in *; lra|]. destruct (max_budget (params_ q)); [|contradiction]. cbn in *. lra.
    + destruct (budget (params_ q')); [|exact I]. destruct (budget (params_ q)); [|contradiction]. cbn in *. congruence.
    + unfold level_names in *. rewrite same_groups0, same_names0. apply Forall_forall. intros c Hc. rewrite Forall_forall in D8. apply D8, fewer_constraints0, Hc.
    + intros l r' El Er k Hk. destruct (looser_inequality0 l r' El Er) as (r&E1&E2&H). eapply Rle_trans; [apply (D9 l r E1 E2 k Hk)|apply H; exact Hk].
  - unfold turnover_ok in *. rewrite same_prior0, same_settings0. destruct (max_turnover_ q'); [|exact I]. destruct (max_turnover_ q); [|contradiction]. cbn in *. intros i Hi. eapply Rle_trans; [apply T; exact Hi|exact looser_turnover0].
  - unfold tracking_ok in *. rewrite same_prior0, same_benchmark0. destruct (max_tracking_error_ q'); [|exact I]. destruct (max_tracking_error_ q); [|contradiction]. cbn in *. eapply Rle_trans; [exact K|exact looser_tracking0].
  - destruct (min_return_ q'); [|exact I]. destruct (min_return_ q); [|contradiction]. cbn in *. unfold expected in *. rewrite same_prior0, same_settings0, same_overwrite0, same_uncertainty0. unfold norm2. rewrite same_prior0. unfold norm2 in M. lra.
  - intros rm l El. specialize (looser_limits0 rm). rewrite El in looser_limits0. destruct (limits_ q rm) as [l0|] eqn:E0; [|contradiction]. cbn in looser_limits0.
    destruct (L rm l0 E0) as (a&Ha&Va). exists a. rewrite same_prior0, same_settings0. split; [exact Ha|lra].
Qed.
Lemma relaxed_same q q' cs cs' : relaxed q q' cs cs' -> (forall x, expected q' x = expected q x) /\ (forall x, penalty q' x = penalty q x) /\ (forall rm x r, risk_is q' rm x r <-> risk_is q rm x r).
Proof.
  intros []. split; [|split].
  - intros x. unfold expected, norm2. rewrite same_prior0, same_settings0, same_overwrite0, same_uncertainty0. reflexivity.
  - intros x. unfold penalty. rewrite same_prior0, same_l3, same_l4. reflexivity.
  - intros rm x r. unfold risk_is. rewrite same_prior0, same_settings0. reflexivity.
Qed.
Theorem C95_relaxed : forall tf q q' cs cs' p p' r r',
  0 < scale (settings_ q) -> 0 < scale_objective_ q' -> costs_ok (settings_ q) -> relaxed q q' cs cs' -> accepted tf q cs -> accepted tf q' cs' ->
  is_mip (n_assets (prior_ q')) (params_ q') = false -> objective_ q <> MAXIMIZE_RATIO -> 0 <= risk_aversion_ q ->
  optimal tf q p -> optimal tf q' p' -> risk_is q (risk_measure_ q) (weights p) r -> risk_is q (risk_measure_ q) (weights p') r' ->
  allowed tf q' cs' (weights p)
  /\ merit q (risk_aversion_ q) (weights p) r - penalty q (weights p) <= merit q (risk_aversion_ q) (weights p') r' - penalty q (weights p').
Proof.
  intros tf q q' cs cs' p p' r r' Hs Hso Hc Rx Ha Ha' Hm Ho Hg O1 O2 R1 R2.
  assert (A1 : allowed tf q cs (weights p)). { apply (C36_weights_allowed tf q cs p Hs Hc Ha (proj1 O1)); [rewrite (factor_one tf q p Ho (proj1 O1)); lra|congruence]. }
  pose proof (relaxed_allowed tf q q' cs cs' _ Rx A1) as A2. split; [exact A2|].
  destruct (relaxed_same q q' cs cs' Rx) as (E1&E2&E3). pose proof (same_settings q q' cs cs' Rx) as S1. pose proof (same_objective q q' cs cs' Rx) as S2. pose proof (same_measure q q' cs cs' Rx) as S3. pose proof (same_aversion q q' cs cs' Rx) as S4.
  assert (K := C36_optimal tf q' cs' p' ltac:(rewrite S1; exact Hs) Hso ltac:(rewrite S1; exact Hc) Hm Ha' ltac:(congruence) O2 (weights p) r' r A2 ltac:(rewrite S3; apply E3; exact R2) ltac:(rewrite S3; apply E3; exact R1)).
  rewrite S2, S4, !E1, !E2 in K. unfold merit. destruct (objective_ q); try congruence; lra.
Qed.
Print Assumptions C95_relaxed.

(** ** The hypotheses are met *)
(** 20 w0 - g (w0^2 + w1^2) with w0 + w1 = 1: everything in the first asset for g = 10, three quarters of it for g = 20 *)
Definition utility_example (least : bool) (mr : option R) (a b g : R) : mean_risk := {| prior_ := two_assets; settings_ := free; params_ := long_only; names_ := None; mip_solver_ := false;
  objective_ := if least then MINIMIZE_RISK else MAXIMIZE_UTILITY; risk_measure_ := VARIANCE; limits_ := fun _ => None; min_return_ := mr; max_turnover_ := None; has_previous_ := false;
  max_tracking_error_ := None; benchmark_ := fun _ => 0; mu_uncertainty_ := None; l1_ := a; l2_ := b; risk_aversion_ := g; scale_objective_ := 1; overwrite_ := None |}.
Definition share_point (x : R) : point := {| w_ := two x (1 - x); f_ := 1; m_ := no_mip;
  a_ := fun _ => {| alpha := 0; u := sqrt (x ^ 2 + (1 - x) ^ 2); ex := 0; ey := 0; v := fun _ => 0; z := fun _ => 0; gx := fun _ => 0; gy := fun _ => 0; dd := fun _ => 0 |}; common_dd := fun _ => 0 |}.
Definition share_gain (least : bool) (b g x : R) : R := (if least then 0 else 20 * x) - ((if least then 1 else g) + b) * (x ^ 2 + (1 - x) ^ 2).
Lemma share_return least mr a b g p : er (utility_example least mr a b g) p = 20 * w_ p 0%nat.
Proof.
  unfold er, expected_return, transaction_cost, management_fee, all. cbn. unfold eqb0. destruct (Req_EM_T 0 0) as [_|N]; [|exfalso; apply N; reflexivity]. cbn. unfold sumn. cbn. ring.
Qed.
Lemma share_feasible least mr a b g x : 0 <= x <= 1 -> opt mr (fun r => r <= 20 * x) -> feasible no_float (utility_example least mr a b g) (share_point x).
Proof.
  intros Hx Hr. split; [right; reflexivity|]. unfold problem_constraints. rewrite share_return. cbn [utility_example prior_ settings_ params_ names_ mip_solver_ limits_ min_return_ max_turnover_ has_previous_ max_tracking_error_ mu_uncertainty_ n_assets two_assets is_ratio objective_].
  unfold weight_constraints, mip_constraints, is_mip. destruct least, mr; cbn; eexists; (split; [reflexivity|]); unfold sumn; cbn in *;
  repeat match goal with |- Forall _ (_ :: _) => constructor | |- Forall _ [] => constructor end; cbn; unfold sumn; cbn; try lra; try apply sqrt_pos;
  rewrite !Rmult_1_r; right; f_equal; ring.
Qed.
Lemma share_accepted least mr a b g : opt mr (fun r => r <= 20) -> accepted no_float (utility_example least mr a b g) [].
Proof.
  intros H. split; [reflexivity|]. destruct (share_feasible least mr a b g 1 ltac:(lra)) as (_&l&E&_); [destruct mr; cbn in *; lra || exact I|]. exists (share_point 1), l. exact E.
Qed.
Lemma share_optimal least mr a0 b0 g x : 0 <= x <= 1 -> opt mr (fun r => r <= 20 * x) -> (forall w, 0 <= w <= 1 -> opt mr (fun r => r <= 20 * w) -> share_gain least b0 g w <= share_gain least b0 g x) -> 0 <= g ->
  optimal no_float (utility_example least mr a0 b0 g) (share_point x).
Proof.
  intros Hx Hr H Hg. pose proof (share_feasible least mr a0 b0 g x Hx Hr) as F. split; [exact F|]. intros p Hp.
  assert (A : accepted no_float (utility_example least mr a0 b0 g) []) by (split; [reflexivity|]; destruct F as (_&l&E&_); exists (share_point x), l; exact E).
  assert (F1 : f_ p = 1) by (apply (factor_one no_float (utility_example least mr a0 b0 g)); [destruct least; discriminate|exact Hp]).
  destruct (C36_weights_allowed no_float (utility_example least mr a0 b0 g) [] p ltac:(cbn; lra) ltac:(intros i; cbn; lra) A Hp ltac:(lra) ltac:(destruct least; discriminate)) as [[D _] _]. destruct D as (D1&_&_&_&_&_&B&_).
  rewrite (weights_one p F1) in *. cbn in D1, B. pose proof (D1 0%nat ltac:(lia)). pose proof (D1 1%nat ltac:(lia)).
  destruct Hp as (_&l&E&Hl). destruct (problem_split no_float _ p l E) as (lt&lw&_&_&Hall). destruct (proj1 Hall Hl) as (_&_&_&M&K&_).
  rewrite share_return in M. cbn in M.
  rewrite risk_block_holds in K by (cbn; lra). destruct (K VARIANCE (or_introl eq_refl)) as [Q _]. cbn in Q. inversion Q as [|? ? Q1 Q2]; subst. inversion Q2 as [|? ? Q3 _]; subst. cbn in Q1, Q3. unfold sumn in Q3. cbn in Q3. rewrite !Rmult_1_r in Q3.
  specialize (H (w_ p 0%nat) ltac:(lra)). assert (Hm : opt mr (fun r => r <= 20 * w_ p 0%nat)) by (destruct mr; [|exact I]; cbn in M; inversion M as [|? ? M1 _]; subst; cbn in M1; cbn; rewrite F1 in M1; lra). specialize (H Hm).
  unfold loss. rewrite !share_return. unfold risk, regularization. cbn [utility_example objective_ risk_measure_ scale_objective_ risk_aversion_ l1_ l2_]. unfold sumn. cbn.
  set (U := u (a_ p VARIANCE)) in *. set (a := w_ p 0%nat) in *. assert (Eb : w_ p 1%nat = 1 - a) by lra. rewrite Eb in *.
  assert (V : a ^ 2 + (1 - a) ^ 2 <= U ^ 2). { apply Rle_trans with (sqrt (a ^ 2 + (1 - a) ^ 2) ^ 2); [right; symmetry; apply pow2_sqrt; nra|]. apply pow_incr. split; [apply sqrt_pos|]. eapply Rle_trans; [|exact Q3]. right. f_equal. ring. }
  assert (W : sqrt (x ^ 2 + (1 - x) ^ 2) ^ 2 = x ^ 2 + (1 - x) ^ 2) by (apply pow2_sqrt; nra). replace (x * (x * 1) + (1 - x) * ((1 - x) * 1)) with (x ^ 2 + (1 - x) ^ 2) by ring. set (Y := sqrt (x ^ 2 + (1 - x) ^ 2)) in *.
  rewrite !Rabs_right by lra. unfold share_gain in H. destruct least; nra.
Qed.
Lemma share_risk least mr a b g x : risk_is (utility_example least mr a b g) VARIANCE (weights (share_point x)) (x ^ 2 + (1 - x) ^ 2).
Proof.
  destruct (C35_standard_deviation two_assets free (weights (share_point x)) (fun i j => if (i =? j)%nat then 1 else 0)) as (_&M&_).
  - cbn. lra.
  - intros i j Hi Hj. cbn in Hi, Hj. destruct i as [|[|i]], j as [|[|j]]; try lia; cbn; lra.
  - unfold risk_is. replace (x ^ 2 + (1 - x) ^ 2) with (quadratic two_assets (fun i j => if (i =? j)%nat then 1 else 0) (weights (share_point x))); [exact M|].
    unfold quadratic, weights, reported. cbn. field.
Qed.
Example C95_applies : let q := utility_example false None 0 0 10 in
  0 < scale (settings_ q) /\ costs_ok (settings_ q) /\ accepted no_float q [] /\ groups_ok (n_assets (prior_ q)) (params_ q) /\ is_mip (n_assets (prior_ q)) (params_ q) = false
  /\ optimal no_float q (share_point 1) /\ optimal no_float (with_coefficients q 0 0 20) (share_point (3/4))
  /\ risk_is q (risk_measure_ q) (weights (share_point 1)) 1 /\ risk_is q (risk_measure_ q) (weights (share_point (3/4))) (5/8)
  /\ optimal no_float (with_coefficients q 0 10 10) (share_point (3/4)) /\ optimal no_float (with_coefficients q 3 0 10) (share_point 1)
  /\ expected q (weights (share_point 1)) = 20 /\ accepted no_float (least_risk q 20) [] /\ optimal no_float (least_risk q 20) (share_point 1)
  /\ optimal no_float (least_risk q 18) (share_point (9/10)).
Proof.
  intros q. split; [cbn; lra|]. split; [intros i; cbn; lra|]. split; [apply share_accepted; exact I|]. split; [exact I|]. split; [reflexivity|].
  assert (S : forall least b g x, 0 <= x <= 1 -> 0 <= g -> (forall w, 0 <= w <= 1 -> share_gain least b g w <= share_gain least b g x) -> forall a, optimal no_float (utility_example least None a b g) (share_point x)).
  { intros least b g x Hx Hg H a. apply share_optimal; auto. exact I. }
  repeat match goal with |- _ /\ _ => split end.
  - apply (S false 0 10 1); [lra|lra|]. intros w Hw. unfold share_gain. nra.
  - apply (S false 0 20 (3/4)); [lra|lra|]. intros w Hw. unfold share_gain. assert (0 <= (w - 3/4) ^ 2) by apply pow2_ge_0. nra.
  - pose proof (share_risk false None 0 0 10 1) as H. replace (1 ^ 2 + (1 - 1) ^ 2) with 1 in H by ring. exact H.
  - pose proof (share_risk false None 0 0 10 (3/4)) as H. replace ((3/4) ^ 2 + (1 - 3/4) ^ 2) with (5/8) in H by field. exact H.
  - apply (S false 10 10 (3/4)); [lra|lra|]. intros w Hw. unfold share_gain. assert (0 <= (w - 3/4) ^ 2) by apply pow2_ge_0. nra.
  - apply (S false 0 10 1); [lra|lra|]. intros w Hw. unfold share_gain. nra.
  - pose proof (share_return false None 0 0 10 (share_point 1)) as E. fold q in E.
    assert (Er : er q (share_point 1) = 1 * expected q (weights (share_point 1))) by (apply er_scale; [intros i; cbn; lra|lra|symmetry; apply reported_svec; cbn; lra|reflexivity]). cbn in E. lra.
  - apply (share_accepted true (Some 20) 0 0 10). cbn. lra.
  - apply (share_optimal true (Some 20) 0 0 10 1); cbn; try lra. intros w Hw Hr. unfold share_gain. assert (w = 1) by lra. subst w. lra.
  - apply (share_optimal true (Some 18) 0 0 10 (9/10)); cbn; try lra. intros w Hw Hr. unfold share_gain. nra.
Qed.
(** the estimator with a lower bound of 18 on the expected return and the one without it *)
Example C95_relaxed_applies : let q := utility_example false (Some 18) 0 0 20 in let q' := utility_example false None 0 0 20 in
  relaxed q q' [] [] /\ accepted no_float q [] /\ accepted no_float q' [] /\ optimal no_float q (share_point (9/10)) /\ optimal no_float q' (share_point (3/4)).
Proof.
  intros q q'. split; [|split; [|split; [|split]]].
  - constructor; try reflexivity; try (cbn; lra); try (cbn; intros i Hi; lra); try exact I; try (intros; exact I); try (cbn; discriminate); try (intros x Hx; exact Hx).
  - apply share_accepted. cbn. lra.
  - apply share_accepted. exact I.
  - apply share_optimal; cbn; try lra. intros w Hw Hr. unfold share_gain. nra.
  - apply share_optimal; try exact I; try lra. intros w Hw _. unfold share_gain. assert (0 <= (w - 3/4) ^ 2) by apply pow2_ge_0. nra.
Qed.
