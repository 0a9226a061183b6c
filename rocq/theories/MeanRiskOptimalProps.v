(** C36: the mean-risk optimisation optimises what it documents over the documented set of weights.  The specification is at the
    head of MeanRiskProps.v. *)
From Coq Require Import List Arith Bool Reals Lia Lra FunctionalExtensionality.
From Verif Require Import RList MeasuresModel MeasuresProofs EquationsModel EquationsSpec EquationsProps ConvexModel ConvexProps ConvexMoreProps RiskModel RiskProps RiskTailProps MeanRiskModel MeanRiskProps.
Import ListNotations.
Local Open Scope R_scope.

(** * Theorems *)
(** what the solver returns is allowed; with the ratio objective, a tracking error limit and limits on the variances are excluded *)
Theorem C36_weights_allowed : forall tf q cs p,
  0 < scale (settings_ q) -> costs_ok (settings_ q) -> accepted tf q cs ->
  feasible tf q p -> 0 < f_ p ->
  (objective_ q = MAXIMIZE_RATIO -> max_tracking_error_ q = None /\ forall rm, ~ homogeneous rm -> limits_ q rm = None) ->
  allowed tf q cs (weights p) /\ (objective_ q = MAXIMIZE_RATIO -> 0 < excess q (weights p)).
Proof.
  intros tf q cs p Hs Hc [Hcs _] Hf Hp Hr.
  assert (Fo: factor_ok q (f_ p)). { split; auto. destruct Hf as [[H|H] _]; [right; apply Hr; unfold is_ratio in H; destruct (objective_ q); discriminate || auto|left; auto]. }
  destruct (feasible_sound tf q cs Hs Hc p Hf Fo Hcs) as [A B]. split; auto. intros Ho. destruct B as [B _]; [unfold is_ratio; rewrite Ho; auto|].
  pose proof (C33_homogenization_factor (n_assets (prior_ q)) (mu (prior_ q))). nra.
Qed.
Print Assumptions C36_weights_allowed.
Lemma maximum_ratio_core : forall tf q cs p,
  0 < scale (settings_ q) -> 0 < scale_objective_ q -> costs_ok (settings_ q) -> accepted tf q cs ->
  objective_ q = MAXIMIZE_RATIO -> l2_ q = 0 -> (homogeneous (risk_measure_ q) \/ l1_ q = 0) ->
  max_tracking_error_ q = None -> (forall rm, ~ homogeneous rm -> limits_ q rm = None) ->
  optimal tf q p -> 0 < f_ p ->
  let x := weights p in
  forall y rx ry, allowed tf q cs y -> 0 < excess q y -> risk_is q (risk_measure_ q) x rx -> risk_is q (risk_measure_ q) y ry ->
    (is_affine (n_assets (prior_ q)) (costs (settings_ q)) (mu_uncertainty_ q) = true \/ 0 <= ry + penalty q y) ->
    reachable tf q y (homogenization_factor (n_assets (prior_ q)) (mu (prior_ q)) / excess q y) ->
    (rx + penalty q x) * excess q y ^ degree (risk_measure_ q) <= (ry + penalty q y) * excess q x ^ degree (risk_measure_ q).
Proof.
  intros tf q cs p Hs Hso Hc Hacc Ho Hl2 Hl1 Hte Hlim [Hf Hopt] Hp x y rx ry Hy Hey Hx Hry Haff Hreach.
  assert (Ir: is_ratio q = true) by (unfold is_ratio; rewrite Ho; auto).
  set (h := homogenization_factor (n_assets (prior_ q)) (mu (prior_ q))). assert (Hh: 0 < h) by apply C33_homogenization_factor.
  assert (Fo: factor_ok q (f_ p)) by (split; auto).
  destruct (feasible_sound tf q cs Hs Hc p Hf Fo (proj1 Hacc)) as [_ B]. destruct (B Ir) as [B1 B2]. fold h in B1, B2. fold x in B1, B2.
  set (t := h / excess q y). assert (Ht: 0 < t) by (apply Rdiv_lt_0_compat; auto).
  destruct (feasible_at tf q cs Hs Hc y t ry) as (p'&Hf'&Ew&Ef&Hr); auto.
  { split; auto. } { intros _. fold h. assert (Eh: h = t * excess q y) by (unfold t; field; lra). split; [lra|auto]. } { congruence. } { exact (proj2 Hacc). } { destruct Hry as [(a&Ha&Ea) _]. exists a. split; auto. lra. }
  specialize (Hopt p' Hf'). unfold loss in Hopt. rewrite Ho in Hopt.
  assert (Hopt': risk q p + regularization q (w_ p) <= risk q p' + regularization q (w_ p')) by (apply Rmult_le_reg_r with (scale_objective_ q); lra). clear Hopt.
  pose proof (risk_lower tf q Hs p rx Hf Hp Hx) as Hlow.
  assert (Rx: regularization q (w_ p) = f_ p * penalty q x).
  { assert (Ew0: w_ p = svec (f_ p) x) by (symmetry; apply reported_svec; auto). unfold regularization, penalty. rewrite Hl2, Ew0. rewrite l1_scale by auto. unfold sumn. ring. }
  assert (Ry: regularization q (w_ p') = t * penalty q y).
  { unfold regularization, penalty. rewrite Hl2, Ew. rewrite l1_scale by auto. unfold sumn. ring. }
  rewrite Rx, Ry in Hopt'.
  assert (Ht': t * excess q y = h) by (unfold t; field; lra).
  destruct (hom_dec (risk_measure_ q)) as [Hd|Hd].
  - rewrite (degree_hom _ Hd) in *. rewrite !pow_1 in *. set (cx := rx + penalty q x). set (cy := ry + penalty q y).
    assert (M: f_ p * cx <= t * cy) by (unfold cx, cy; nra).
    assert (M2: f_ p * (cx * excess q y) <= h * cy) by (rewrite <- Ht'; nra).
    apply Rmult_le_reg_l with (f_ p); auto. eapply Rle_trans; [exact M2|]. rewrite <- Rmult_assoc, (Rmult_comm (f_ p) cy), Rmult_assoc, (Rmult_comm cy).
    destruct Haff as [Ha|Ha]; [rewrite (B2 Ha); lra|]. apply Rmult_le_compat_r; auto.
  - assert (E2: degree (risk_measure_ q) = 2%nat). { unfold homogeneous in Hd. destruct (risk_measure_ q); try reflexivity; exfalso; apply Hd; split; discriminate. }
    destruct Hl1 as [Hl1|Hl1]; [contradiction|]. assert (P0: forall v, penalty q v = 0) by (intros v; unfold penalty; rewrite Hl1, Hl2; ring). rewrite E2 in *. rewrite !P0 in *. rewrite !Rplus_0_r in *.
    assert (M: f_ p ^ 2 * rx <= t ^ 2 * ry) by lra.
    assert (M2: f_ p ^ 2 * (rx * excess q y ^ 2) <= h ^ 2 * ry). { rewrite <- Ht'. replace ((t * excess q y) ^ 2 * ry) with (t ^ 2 * ry * excess q y ^ 2) by ring. rewrite <- Rmult_assoc. apply Rmult_le_compat_r; [apply pow2_ge_0|auto]. }
    apply Rmult_le_reg_l with (f_ p ^ 2); [apply pow_lt; auto|]. eapply Rle_trans; [exact M2|]. replace (f_ p ^ 2 * (ry * excess q x ^ 2)) with ((f_ p * excess q x) ^ 2 * ry) by ring.
    destruct Haff as [Ha|Ha]; [rewrite (B2 Ha); lra|]. apply Rmult_le_compat_r; auto. apply sq_mono; lra.
Qed.
Theorem C36_maximum_ratio : forall tf q cs p,
  0 < scale (settings_ q) -> 0 < scale_objective_ q -> costs_ok (settings_ q) -> is_mip (n_assets (prior_ q)) (params_ q) = false -> accepted tf q cs ->
  objective_ q = MAXIMIZE_RATIO -> l2_ q = 0 -> (homogeneous (risk_measure_ q) \/ l1_ q = 0) ->
  max_tracking_error_ q = None -> (forall rm, ~ homogeneous rm -> limits_ q rm = None) ->
  optimal tf q p -> 0 < f_ p ->
  let x := weights p in
  forall y rx ry, allowed tf q cs y -> 0 < excess q y -> risk_is q (risk_measure_ q) x rx -> risk_is q (risk_measure_ q) y ry ->
    (is_affine (n_assets (prior_ q)) (costs (settings_ q)) (mu_uncertainty_ q) = true \/ 0 <= ry + penalty q y) ->
    (rx + penalty q x) * excess q y ^ degree (risk_measure_ q) <= (ry + penalty q y) * excess q x ^ degree (risk_measure_ q).
Proof.
  intros tf q cs p Hs Hso Hc Hmip Hacc Ho Hl2 Hl1 Hte Hlim Hopt Hp x y rx ry Hy Hey Hx Hry Haff.
  apply (maximum_ratio_core tf q cs p Hs Hso Hc Hacc Ho Hl2 Hl1 Hte Hlim Hopt Hp y rx ry Hy Hey Hx Hry Haff).
  apply (reachable_continuous tf q cs); auto. apply Rdiv_lt_0_compat; auto. apply C33_homogenization_factor.
Qed.
Print Assumptions C36_maximum_ratio.

(** the other objectives; here the variances and the tracking error may be limited *)
Lemma is_at_most q rm x r : risk_is q rm x r -> risk_at_most q rm x r.
Proof. intros [(a&Ha&Ea) _]. exists a. split; [exact Ha|right; exact Ea]. Qed.
(** the weights compared with may have a risk of at most [ry] *)
Lemma optimal_core : forall tf q cs p,
  0 < scale (settings_ q) -> 0 < scale_objective_ q -> costs_ok (settings_ q) -> accepted tf q cs ->
  objective_ q <> MAXIMIZE_RATIO -> optimal tf q p ->
  let x := weights p in
  forall y rx ry, allowed tf q cs y -> risk_is q (risk_measure_ q) x rx -> risk_at_most q (risk_measure_ q) y ry -> reachable tf q y 1 ->
    match objective_ q with
    | MINIMIZE_RISK => rx + penalty q x <= ry + penalty q y
    | MAXIMIZE_RETURN => expected q y - penalty q y <= expected q x - penalty q x
    | MAXIMIZE_UTILITY => 0 <= risk_aversion_ q -> expected q y - risk_aversion_ q * ry - penalty q y <= expected q x - risk_aversion_ q * rx - penalty q x
    | MAXIMIZE_RATIO => True
    end.
Proof.
  intros tf q cs p Hs Hso Hc Hacc Ho [Hf Hopt] x y rx ry Hy Hx Hry Hreach.
  assert (Ir: is_ratio q = false) by (unfold is_ratio; destruct (objective_ q); auto; congruence).
  assert (F1: f_ p = 1) by (destruct Hf as [[H|H] _]; congruence). assert (Hp: 0 < f_ p) by lra.
  assert (Ex: x = w_ p) by (unfold x, weights; rewrite F1; extensionality i; unfold reported; field).
  destruct (feasible_at tf q cs Hs Hc y 1 ry) as (p'&Hf'&Ew&Ef&Hr); auto.
  { split; [lra|auto]. } { congruence. } { exact (proj2 Hacc). } 
  assert (Ey: w_ p' = y) by (rewrite Ew; extensionality i; unfold svec; ring).
  specialize (Hopt p' Hf'). pose proof (risk_lower tf q Hs p rx Hf Hp Hx) as Hlow. rewrite F1, pow1 in Hlow. rewrite pow1 in Hr.
  assert (Rx: regularization q (w_ p) = penalty q x) by (rewrite Ex; reflexivity). assert (Ry: regularization q (w_ p') = penalty q y) by (rewrite Ey; reflexivity).
  assert (Erx: er q p = expected q x). { rewrite (er_scale q Hc (f_ p) x p); auto; [rewrite F1; ring|]. rewrite Ex, F1. extensionality i. unfold svec. ring. }
  assert (Ery: er q p' = expected q y). { rewrite (er_scale q Hc 1 y p'); auto; [ring|lra]. }
  unfold loss in Hopt. destruct (objective_ q); [| | |auto]; rewrite ?Rx, ?Ry, ?Erx, ?Ery in Hopt.
  - assert (risk q p + penalty q x <= risk q p' + penalty q y) by (apply Rmult_le_reg_r with (scale_objective_ q); lra). lra.
  - apply Rmult_le_reg_r with (scale_objective_ q); lra.
  - intros Hra. assert (expected q y - risk_aversion_ q * risk q p' - penalty q y <= expected q x - risk_aversion_ q * risk q p - penalty q x) by (apply Rmult_le_reg_r with (scale_objective_ q); nra).
    assert (risk_aversion_ q * rx <= risk_aversion_ q * risk q p) by (apply Rmult_le_compat_l; lra). assert (risk_aversion_ q * risk q p' <= risk_aversion_ q * ry) by (apply Rmult_le_compat_l; lra). lra.
Qed.
Theorem C36_optimal : forall tf q cs p,
  0 < scale (settings_ q) -> 0 < scale_objective_ q -> costs_ok (settings_ q) -> is_mip (n_assets (prior_ q)) (params_ q) = false -> accepted tf q cs ->
  objective_ q <> MAXIMIZE_RATIO -> optimal tf q p ->
  let x := weights p in
  forall y rx ry, allowed tf q cs y -> risk_is q (risk_measure_ q) x rx -> risk_is q (risk_measure_ q) y ry ->
    match objective_ q with
    | MINIMIZE_RISK => rx + penalty q x <= ry + penalty q y
    | MAXIMIZE_RETURN => expected q y - penalty q y <= expected q x - penalty q x
    | MAXIMIZE_UTILITY => 0 <= risk_aversion_ q -> expected q y - risk_aversion_ q * ry - penalty q y <= expected q x - risk_aversion_ q * rx - penalty q x
    | MAXIMIZE_RATIO => True
    end.
Proof.
  intros tf q cs p Hs Hso Hc Hmip Hacc Ho Hopt x y rx ry Hy Hx Hry.
  apply (optimal_core tf q cs p Hs Hso Hc Hacc Ho Hopt y rx ry Hy Hx (is_at_most q _ y ry Hry)). apply (reachable_continuous tf q cs); auto. lra.
Qed.
Print Assumptions C36_optimal.

(** with cardinalities and thresholds: what the solver returns respects them, and nothing that respects them is better, provided that the weights
    compared with stay within the constant 1000 of the integer constraints *)
Theorem C36_integer_weights : forall tf q cs p,
  0 < scale (settings_ q) -> accepted tf q cs -> groups_ok (n_assets (prior_ q)) (params_ q) -> feasible tf q p -> 0 < f_ p ->
  within_cardinalities (n_assets (prior_ q)) (params_ q) (weights p) /\ within_thresholds (n_assets (prior_ q)) (params_ q) (weights p).
Proof.
  intros tf q cs p Hs _ Hg (H1&l&E&Hl) Hp. destruct (problem_split tf q p l E) as (lt&lw&_&Ew&Hall). destruct (proj1 Hall Hl) as (_&_&A&_).
  apply (C34_cardinalities_and_thresholds tf _ (params_ q) (names_ q) (mip_solver_ q) true (is_ratio q) (scale (settings_ q)) (w_ p) (f_ p) (m_ p) lw Hs Hp); auto.
  intros Hr. destruct H1 as [H1|H1]; congruence.
Qed.
Print Assumptions C36_integer_weights.
Theorem C36_integer_optimal : forall tf q cs p,
  0 < scale (settings_ q) -> 0 < scale_objective_ q -> costs_ok (settings_ q) -> accepted tf q cs -> groups_ok (n_assets (prior_ q)) (params_ q) ->
  objective_ q <> MAXIMIZE_RATIO -> optimal tf q p ->
  let x := weights p in
  forall y rx ry, allowed tf q cs y -> within_cardinalities (n_assets (prior_ q)) (params_ q) y -> within_thresholds (n_assets (prior_ q)) (params_ q) y ->
    (forall i, (i < n_assets (prior_ q))%nat -> -1000 <= y i <= 1000) ->
    risk_is q (risk_measure_ q) x rx -> risk_is q (risk_measure_ q) y ry ->
    match objective_ q with
    | MINIMIZE_RISK => rx + penalty q x <= ry + penalty q y
    | MAXIMIZE_RETURN => expected q y - penalty q y <= expected q x - penalty q x
    | MAXIMIZE_UTILITY => 0 <= risk_aversion_ q -> expected q y - risk_aversion_ q * ry - penalty q y <= expected q x - risk_aversion_ q * rx - penalty q x
    | MAXIMIZE_RATIO => True
    end.
Proof.
  intros tf q cs p Hs Hso Hc Hacc Hg Ho Hopt x y rx ry Hy Wc Wt HM Hx Hry.
  apply (optimal_core tf q cs p Hs Hso Hc Hacc Ho Hopt y rx ry Hy Hx (is_at_most q _ y ry Hry)). apply (reachable_mixed tf q cs); auto; [lra|]. intros i Hi. specialize (HM i Hi). lra.
Qed.
Print Assumptions C36_integer_optimal.
Theorem C36_integer_ratio : forall tf q cs p,
  0 < scale (settings_ q) -> 0 < scale_objective_ q -> costs_ok (settings_ q) -> accepted tf q cs -> groups_ok (n_assets (prior_ q)) (params_ q) ->
  objective_ q = MAXIMIZE_RATIO -> l2_ q = 0 -> (homogeneous (risk_measure_ q) \/ l1_ q = 0) ->
  max_tracking_error_ q = None -> (forall rm, ~ homogeneous rm -> limits_ q rm = None) ->
  optimal tf q p -> 0 < f_ p ->
  let x := weights p in
  forall y rx ry, allowed tf q cs y -> within_cardinalities (n_assets (prior_ q)) (params_ q) y -> within_thresholds (n_assets (prior_ q)) (params_ q) y ->
    0 < excess q y ->
    (let t := homogenization_factor (n_assets (prior_ q)) (mu (prior_ q)) / excess q y in t <= 1000 /\ forall i, (i < n_assets (prior_ q))%nat -> -1000 <= t * y i <= 1000) ->
    risk_is q (risk_measure_ q) x rx -> risk_is q (risk_measure_ q) y ry ->
    (is_affine (n_assets (prior_ q)) (costs (settings_ q)) (mu_uncertainty_ q) = true \/ 0 <= ry + penalty q y) ->
    (rx + penalty q x) * excess q y ^ degree (risk_measure_ q) <= (ry + penalty q y) * excess q x ^ degree (risk_measure_ q).
Proof.
  intros tf q cs p Hs Hso Hc Hacc Hg Ho Hl2 Hl1 Hte Hlim Hopt Hp x y rx ry Hy Wc Wt Hey [HT HM] Hx Hry Haff.
  apply (maximum_ratio_core tf q cs p Hs Hso Hc Hacc Ho Hl2 Hl1 Hte Hlim Hopt Hp y rx ry Hy Hey Hx Hry Haff).
  apply (reachable_mixed tf q cs); auto.
  - split; auto. apply Rdiv_lt_0_compat; auto. apply C33_homogenization_factor.
  - intros H. unfold is_ratio in H. rewrite Ho in H. discriminate.
Qed.
Print Assumptions C36_integer_ratio.

(** * Ratio objective: limits that do not hold for the reported weights *)
Definition two_assets : prior := {| n_assets := 2; n_obs := 2; returns := fun _ => two 20 0; mu := two 20 0; cholesky := fun i k => if (i =? k)%nat then 1 else 0 |}.
Definition free : settings := {| costs := Scalar 0; previous := Scalar 0; fees := Scalar 0; mar := None; risk_free_rate := 0;
  cvar_beta := 95/100; evar_beta := 95/100; cdar_beta := 95/100; edar_beta := 95/100; scale := 1 |}.
Definition long_only : params := {| min_weights := Some (fun _ => 0); max_weights := Some (fun _ => 1); budget := Some 1; min_budget := None; max_budget := None; max_short := None;
  max_long := None; cardinality := None; group_cardinalities := None; threshold_long := None; threshold_short := None; groups := None;
  linear_constraints := None; left_inequality := None; right_inequality := None |}.
Definition ratio_example (te : option R) (limits : risk_measure -> option R) : mean_risk := {| prior_ := two_assets; settings_ := free; params_ := long_only; names_ := None; mip_solver_ := false;
  objective_ := MAXIMIZE_RATIO; risk_measure_ := STANDARD_DEVIATION; limits_ := limits; min_return_ := None; max_turnover_ := None; has_previous_ := false;
  max_tracking_error_ := te; benchmark_ := fun _ => 19; mu_uncertainty_ := None; l1_ := 0; l2_ := 0; risk_aversion_ := 1; scale_objective_ := 1; overwrite_ := None |}.
(** w = (1/2, 0), f = 1/2, reporting all the weight on the first asset *)
Definition half_point : point := {| w_ := two (1/2) 0; f_ := 1/2; m_ := no_mip; a_ := fun _ => {| alpha := 0; u := 1/2; ex := 0; ey := 0; v := fun _ => 0; z := fun _ => 0; gx := fun _ => 0; gy := fun _ => 0; dd := fun _ => 0 |};
  common_dd := fun _ => 0 |}.
Lemma half_std : Forall holds_at (risk_constraints two_assets free STANDARD_DEVIATION (two (1/2) 0) (1/2) (aux_of half_point STANDARD_DEVIATION)).
Proof.
  cbn. constructor; [cbn; lra|constructor; [|constructor]]. cbn. unfold sumn. cbn. rewrite Rmult_1_r. apply Rle_trans with (sqrt ((1/2)^2)); [apply sqrt_le_1_alt; lra|]. rewrite sqrt_pow2 by lra. lra.
Qed.
Lemma half_h : homogenization_factor 2 (two 20 0) = 10.
Proof. unfold homogenization_factor, sumn. cbn. rewrite Rabs_R0, Rabs_right by lra. rewrite Rmax_right by lra. rewrite Rmin_right by lra. lra. Qed.
Lemma half_feasible te limits : (forall t, te = Some t -> sqrt (1/2) <= t) -> (forall rm, rm <> VARIANCE -> limits rm = None) -> (forall l, limits VARIANCE = Some l -> 1/2 <= l) ->
  feasible no_float (ratio_example te limits) half_point.
Proof.
  intros Hte Hl Hv. split; [left; reflexivity|]. unfold problem_constraints. cbn [ratio_example prior_ settings_ params_ names_ mip_solver_ limits_ min_return_ max_turnover_ has_previous_ max_tracking_error_ mu_uncertainty_ n_assets two_assets is_ratio objective_].
  eexists. split; [reflexivity|]. rewrite !Forall_app. split; [|split; [|split; [|split; [|split]]]].
  - unfold tracking_constraints. destruct te as [t|]; [|constructor]. constructor; [|constructor]. cbn [holds_at]. apply Rmult_le_compat_r; [cbn; lra|]. eapply Rle_trans; [|apply Hte; reflexivity].
    unfold tracking_error, sumn. cbn. replace (1 + 1 - 1) with 1 by ring. rewrite sqrt_1. unfold Rdiv at 1. rewrite Rinv_1, Rmult_1_r. apply sqrt_le_1_alt. lra.
  - constructor.
  - unfold elementwise. cbn [seq map w_ f_ half_point scale free two]. repeat split; repeat (constructor; [cbn; unfold sumn; cbn; lra|]); constructor.
  - constructor.
  - unfold risk_block. cbn [ratio_example risk_measure_ limits_ all_risk_measures flat_map rm_eqb]. rewrite !(Hl MEAN_ABSOLUTE_DEVIATION), !(Hl FIRST_LOWER_PARTIAL_MOMENT), !(Hl STANDARD_DEVIATION), !(Hl SEMI_VARIANCE), !(Hl SEMI_DEVIATION), !(Hl WORST_REALIZATION), !(Hl CVAR), !(Hl EVAR), !(Hl MAX_DRAWDOWN), !(Hl AVERAGE_DRAWDOWN), !(Hl CDAR), !(Hl EDAR), !(Hl ULCER_INDEX), !(Hl GINI_MEAN_DIFFERENCE) by discriminate. cbn [is_some orb app].
    rewrite !Forall_app. split; [split; [exact half_std|constructor]|]. destruct (limits VARIANCE) as [l|]; cbn [is_some]; [|repeat split; constructor]. rewrite !Forall_app. split; [|constructor]. split; [exact half_std|].
    constructor; [|constructor]. cbn. specialize (Hv l eq_refl). lra.
  - constructor; [|constructor]. cbn [ratio_example settings_ free scale risk_free_rate]. change (homogenization_factor _ (mu _)) with (homogenization_factor 2 (two 20 0)). rewrite half_h. unfold er, is_affine, expected_return, transaction_cost, management_fee, ratio_constraint, all. cbn. unfold eqb0. destruct (Req_EM_T 0 0) as [_|H]; [|exfalso; apply H; reflexivity]. cbn. unfold sumn. cbn. lra.
Qed.
(** the limit on the tracking error is not multiplied by the factor *)
Theorem C36_tracking_error_refuted : exists q p, objective_ q = MAXIMIZE_RATIO /\ 0 < f_ p /\ feasible no_float q p /\ ~ tracking_ok q (weights p).
Proof.
  exists (ratio_example (Some 1) (fun _ => None)), half_point. split; [reflexivity|]. split; [cbn; lra|]. split.
  - apply half_feasible; [|reflexivity|discriminate]. intros t Et. inversion Et. apply Rle_trans with (sqrt 1); [apply sqrt_le_1_alt; lra|rewrite sqrt_1; lra].
  - unfold tracking_ok. cbn. intros H. replace (1 + 1 - 1) with 1 in H by ring. rewrite sqrt_1 in H. unfold Rdiv in H. rewrite Rinv_1, Rmult_1_r in H. unfold weights, reported in H. cbn in H.
    set (X := _ : R) in H at 1. assert (HX: X = sqrt 2) by (unfold X; f_equal; field). rewrite HX in H. assert (sqrt 1 < sqrt 2) by (apply sqrt_lt_1_alt; lra). rewrite sqrt_1 in *. lra.
Qed.
Print Assumptions C36_tracking_error_refuted.
(** the limit on the variance is multiplied by the factor once, the variance scales with its square *)
Theorem C36_variance_limit_refuted : exists q p, objective_ q = MAXIMIZE_RATIO /\ 0 < f_ p /\ feasible no_float q p /\ ~ limits_ok q (weights p).
Proof.
  exists (ratio_example None (fun rm => match rm with VARIANCE => Some (1/2) | _ => None end)), half_point. split; [reflexivity|]. split; [cbn; lra|]. split.
  - apply half_feasible; [discriminate| |]. { intros [] H; try reflexivity; congruence. } { intros l El. inversion El. lra. }
  - intros H. destruct (H VARIANCE (1/2) eq_refl) as (a&Ha&Va). cbn [ratio_example prior_ settings_] in Ha, Va.
    destruct (C35_standard_deviation two_assets free (weights half_point) (fun i j => if (i =? j)%nat then 1 else 0)) as (_&[_ M]&_).
    + cbn; lra.
    + intros i j Hi Hj. cbn in Hi, Hj. destruct i as [|[|i]]; [| |lia]; destruct j as [|[|j]]; try lia; cbn; lra.
    + specialize (M a Ha). unfold quadratic, weights, reported in M. cbn in M. cbn in Va. lra.
Qed.
Print Assumptions C36_variance_limit_refuted.
(** the hypotheses of C36_weights_allowed and C36_maximum_ratio are met *)
Example C36_hypotheses_met : let q := ratio_example None (fun _ => None) in
  0 < scale (settings_ q) /\ costs_ok (settings_ q) /\ is_mip (n_assets (prior_ q)) (params_ q) = false /\ accepted no_float q []
  /\ feasible no_float q half_point /\ 0 < f_ half_point /\ allowed no_float q [] (weights half_point).
Proof.
  intros q. assert (F: feasible no_float q half_point) by (apply half_feasible; [discriminate|reflexivity|discriminate]).
  assert (A: accepted no_float q []). { split; [reflexivity|]. destruct F as (_&l&E&_). exists half_point, l. exact E. }
  assert (C: costs_ok (settings_ q)) by (intros i; cbn; lra). assert (P: 0 < scale (settings_ q)) by (cbn; lra). assert (P2: 0 < f_ half_point) by (cbn; lra).
  do 6 (split; [assumption || reflexivity|]). apply (C36_weights_allowed no_float q [] half_point P C A F P2). intros _. split; reflexivity.
Qed.
Example C36_optimal_point_exists : optimal no_float (ratio_example None (fun _ => None)) half_point.
Proof.
  split; [apply half_feasible; [discriminate|reflexivity|discriminate]|]. set (q := ratio_example None (fun _ => None)). intros p (_&l&E&Hl).
  destruct (problem_split no_float q p l E) as (lt&lw&Hlt&Hlw&Hall). destruct (proj1 Hall Hl) as (_&_&_&_&B&C). clear Hall. specialize (C eq_refl).
  assert (W: w_ p 0%nat = 1/2).
  { change (homogenization_factor _ (mu _)) with (homogenization_factor 2 (two 20 0)) in C. rewrite half_h in C. unfold ratio_constraint, er, is_affine, expected_return, transaction_cost, management_fee, all in C. cbn in C. unfold eqb0 in C. destruct (Req_EM_T 0 0) as [_|H]; [|exfalso; apply H; reflexivity]. cbn in C. unfold sumn in C. cbn in C. lra. }
  rewrite risk_block_holds in B by (cbn; lra). destruct (B STANDARD_DEVIATION (or_introl eq_refl)) as [D _]. cbn in D. inversion D as [|? ? D1 D2]; subst. inversion D2 as [|? ? D3 _]; subst. cbn in D1, D3. unfold sumn in D3. cbn in D3.
  unfold loss, risk, regularization, q. cbn. unfold sumn. cbn. set (U := u (a_ p STANDARD_DEVIATION)) in *.
  assert (w_ p 0%nat <= U); [|lra]. rewrite !Rmult_1_r in D3. eapply Rle_trans; [|exact D3]. rewrite W. rewrite <- (sqrt_pow2 (1/2)) at 1 by lra. apply sqrt_le_1_alt. nra.
Qed.
(** one position at most, of at least a tenth: without the cardinality the two assets would be held in equal parts *)
Definition one_position : params := {| min_weights := Some (fun _ => 0); max_weights := Some (fun _ => 1); budget := Some 1; min_budget := None; max_budget := None; max_short := None;
  max_long := None; cardinality := Some 1%nat; group_cardinalities := None; threshold_long := Some (fun _ => 1/10); threshold_short := None; groups := None;
  linear_constraints := None; left_inequality := None; right_inequality := None |}.
Definition integer_example : mean_risk := {| prior_ := two_assets; settings_ := free; params_ := one_position; names_ := None; mip_solver_ := true;
  objective_ := MINIMIZE_RISK; risk_measure_ := STANDARD_DEVIATION; limits_ := fun _ => None; min_return_ := None; max_turnover_ := None; has_previous_ := false;
  max_tracking_error_ := None; benchmark_ := fun _ => 0; mu_uncertainty_ := None; l1_ := 0; l2_ := 0; risk_aversion_ := 1; scale_objective_ := 1; overwrite_ := None |}.
Definition first_point : point := {| w_ := two 1 0; f_ := 1; m_ := {| invested := two 1 0; invested_factor := two 1 0; short := two 0 0; long := two 0 0; short_factor := two 0 0; long_factor := two 0 0 |};
  a_ := fun _ => {| alpha := 0; u := 1; ex := 0; ey := 0; v := fun _ => 0; z := fun _ => 0; gx := fun _ => 0; gy := fun _ => 0; dd := fun _ => 0 |}; common_dd := fun _ => 0 |}.
Example C36_integer_applies : let q := integer_example in
  accepted no_float q [] /\ groups_ok (n_assets (prior_ q)) (params_ q) /\ objective_ q <> MAXIMIZE_RATIO /\ optimal no_float q first_point /\ is_mip (n_assets (prior_ q)) (params_ q) = true
  /\ allowed no_float q [] (two 0 1) /\ within_cardinalities 2 (params_ q) (two 0 1) /\ within_thresholds 2 (params_ q) (two 0 1).
Proof.
  intros q.
  assert (F : feasible no_float q first_point).
  { split; [right; reflexivity|]. unfold problem_constraints. cbn [q integer_example prior_ settings_ params_ names_ mip_solver_ limits_ min_return_ max_turnover_ has_previous_ max_tracking_error_ mu_uncertainty_ n_assets two_assets is_ratio objective_].
    unfold weight_constraints, mip_constraints, is_mip, clean_threshold. cbn [one_position min_weights max_weights budget min_budget max_budget max_short max_long cardinality group_cardinalities threshold_long threshold_short groups linear_constraints left_inequality right_inequality].
    unfold all, any. cbn. unfold eqb0, ltb. destruct (Req_EM_T (1/10) 0); [lra|]. destruct (Rlt_dec 0 0); [lra|]. cbn. eexists. split; [reflexivity|]. unfold sumn. cbn.
    repeat match goal with |- Forall _ (_ :: _) => constructor | |- Forall _ [] => constructor end; cbn; unfold sumn; cbn; try lra; try (left; lra); try (right; lra).
    rewrite Rmult_1_r. apply Rle_trans with (sqrt (1 ^ 2)); [apply sqrt_le_1_alt; lra|]. rewrite sqrt_pow2; lra. }
  assert (A : accepted no_float q []) by (split; [reflexivity|]; destruct F as (_&l&E&_); exists first_point, l; exact E).
  assert (G : groups_ok (n_assets (prior_ q)) (params_ q)) by exact I.
  split; [exact A|]. split; [exact G|]. split; [discriminate|]. split; [split; [exact F|]|split; [reflexivity|]].
  - intros p Hp. assert (F1 : f_ p = 1) by (destruct Hp as [[H|H] _]; [discriminate|exact H]).
    destruct (C36_integer_weights no_float q [] p ltac:(cbn; lra) A G Hp ltac:(lra)) as [[W _] _].
    destruct (C36_weights_allowed no_float q [] p ltac:(cbn; lra) ltac:(intros i; cbn; lra) A Hp ltac:(lra) ltac:(discriminate)) as [[D _] _]. destruct D as (_&_&_&_&_&_&B&_).
    cbn in B, W. assert (Ex : weights p = w_ p) by (unfold weights; rewrite F1; extensionality i; unfold reported; field). rewrite Ex in *.
    assert (R : 1 <= w_ p 0%nat ^ 2 + w_ p 1%nat ^ 2). { unfold positions in W. cbn in W. destruct (Req_EM_T (w_ p 0%nat) 0), (Req_EM_T (w_ p 1%nat) 0); cbn in W; try lia; nra. }
    destruct Hp as (_&l&E&Hl). destruct (problem_split no_float q p l E) as (lt&lw&_&_&Hall). destruct (proj1 Hall Hl) as (_&_&_&_&K&_).
    rewrite risk_block_holds in K by (cbn; lra). destruct (K STANDARD_DEVIATION (or_introl eq_refl)) as [Q _]. cbn in Q. inversion Q as [|? ? D1 D2]; subst. inversion D2 as [|? ? D3 _]; subst. cbn in D1, D3. unfold sumn in D3. cbn in D3.
    unfold loss, risk, regularization, q. cbn. unfold sumn. cbn. set (U := u (a_ p STANDARD_DEVIATION)) in *.
    assert (1 <= U); [|lra]. rewrite !Rmult_1_r in D3. eapply Rle_trans; [|exact D3]. rewrite <- sqrt_1 at 1. apply sqrt_le_1_alt. nra.
  - split; [|split].
    + split; [|repeat split; try exact I; discriminate]. cbn. unfold documented. cbn. repeat split; try exact I; try (intros [|[|i]] Hi; cbn; lra || lia); try lra; try constructor. intros; discriminate.
    + split; [|exact I]. cbn. unfold positions. cbn. destruct (Req_EM_T 0 0); [|lra]. destruct (Req_EM_T 1 0); cbn; lia.
    + intros [|[|i]] Hi; [left; reflexivity| |lia]. right. left. cbn. lra.
Qed.
