(** C64: the maximum diversification portfolio maximises the diversification ratio over the portfolios its constraints allow. *)
From Coq Require Import List Arith Bool Reals Lia Lra.
From Verif Require Import RList MeasuresModel MeasuresProofs EquationsModel EquationsSpec EquationsProps ConvexModel ConvexProps ConvexMoreProps RiskModel RiskProps RiskTailProps MeanRiskModel MeanRiskProps MeanRiskOptimalProps MaxDivModel.
Import ListNotations.
Local Open Scope R_scope.

(** * Specification *)
Section Spec.
  Variable to_float : str -> option R.
  Variable d : max_div.
  Let n := n_assets (d_prior d).
  (** the weighted average of the volatilities of the assets, the volatility of the portfolio and the diversification ratio *)
  Definition average_volatility (x : vec) : R := sum_over (seq 0 n) (fun i => x i * sqrt (d_covariance d i i)).
  Definition volatility (x : vec) : R := sqrt (sum_over (seq 0 n) (fun i => sum_over (seq 0 n) (fun j => x i * d_covariance d i j * x j))).
  Definition diversification_ratio (x : vec) : R := average_volatility x / volatility x.
  (** what the portfolio pays *)
  Definition charges (x : vec) : R :=
    sum_over (seq 0 n) (fun i => value (costs (d_settings d)) i * Rabs (x i - value (previous (d_settings d)) i))
    + sum_over (seq 0 n) (fun i => value (fees (d_settings d)) i * x i).
  (** the constraints on the weights *)
  Definition weights_ok (cs : list constr) (x : vec) : Prop :=
    opt (d_min_weights d) (fun mn => forall i, (i < n)%nat -> mn i <= x i)
    /\ opt (d_max_weights d) (fun mx => forall i, (i < n)%nat -> x i <= mx i)
    /\ opt (d_max_long d) (fun l => sum_over (seq 0 n) (fun i => Rmax (x i) 0) <= l)
    /\ opt (d_max_short d) (fun l => sum_over (seq 0 n) (fun i => Rmax (- x i) 0) <= l)
    /\ opt (d_min_budget d) (fun b => b <= sum_over (seq 0 n) x)
    /\ opt (d_max_budget d) (fun b => sum_over (seq 0 n) x <= b)
    /\ opt (d_budget d) (fun b => sum_over (seq 0 n) x = b)
    /\ Forall (holds to_float (match d_groups d with Some g => g | None => match d_names d with Some l => [l] | None => [] end end) n false x) cs
    /\ (forall l r, d_left_inequality d = Some l -> d_right_inequality d = Some r ->
          forall k, (k < length l)%nat -> sum_over (seq 0 n) (fun i => nth i (nth k l []) 0 * x i) <= nth k r 0)
    /\ opt (d_max_turnover d) (fun t => forall i, (i < n)%nat -> Rabs (x i - value (previous (d_settings d)) i) <= t).
  (** the lower bound called min_return is on the weighted average of the volatilities net of the charges *)
  Definition min_return_ok (x : vec) : Prop := opt (d_min_return d) (fun r => r <= average_volatility x - charges x).
  Definition factor_of_covariance : Prop := forall i j, (i < n)%nat -> (j < n)%nat ->
    d_covariance d i j = sum_over (seq 0 n) (fun k => cholesky (d_prior d) i k * cholesky (d_prior d) j k).
End Spec.

(** * Proofs *)
Lemma md_expected d x : expected (as_mean_risk d) x = average_volatility d x - charges d x.
Proof.
  unfold expected, average_volatility, charges, total_cost, total_fee. cbn [as_mean_risk prior_ settings_ overwrite_ mu_uncertainty_ weighted_volatilities].
  unfold weighted_volatilities. rewrite (so_ext (fun i => sqrt (d_covariance d i i) * x i) (fun i => x i * sqrt (d_covariance d i i))) by (intros; ring). ring.
Qed.
Lemma md_allowed tf d cs x : d_max_tracking_error d = None -> (allowed tf (as_mean_risk d) cs x <-> weights_ok tf d cs x /\ min_return_ok d x).
Proof.
  intros Ht. unfold allowed, weights_ok, documented, level_names, turnover_ok, tracking_ok, limits_ok, min_return_ok, risk_at_most.
  cbn [as_mean_risk prior_ settings_ params_ names_ limits_ max_turnover_ max_tracking_error_ min_return_ min_weights max_weights max_long max_short min_budget max_budget budget left_inequality right_inequality groups].
  rewrite Ht. cbn [opt]. unfold opt. destruct (d_min_return d); try rewrite md_expected; intuition (auto; discriminate).
Qed.
Lemma md_risk d x : 0 < scale (d_settings d) -> factor_of_covariance d -> risk_is (as_mean_risk d) STANDARD_DEVIATION x (volatility d x).
Proof. intros Hs Hf. apply (C35_standard_deviation (d_prior d) (d_settings d) x (d_covariance d) Hs Hf). Qed.
Theorem C64_weights_allowed : forall tf d cs p,
  0 < scale (d_settings d) -> costs_ok (d_settings d) -> accepted tf (as_mean_risk d) cs -> d_max_tracking_error d = None ->
  feasible tf (as_mean_risk d) p -> 0 < f_ p ->
  let x := weights p in weights_ok tf d cs x /\ min_return_ok d x /\ risk_free_rate (d_settings d) < average_volatility d x - charges d x.
Proof.
  intros tf d cs p Hs Hc Ha Ht Hf Hp x. destruct (C36_weights_allowed tf (as_mean_risk d) cs p Hs Hc Ha Hf Hp) as [A B].
  { intros _. split; [exact Ht|reflexivity]. }
  apply md_allowed in A; auto. specialize (B eq_refl). unfold excess in B. rewrite md_expected in B. cbn in B. fold x in A, B. destruct A. split; auto. split; auto. lra.
Qed.
Print Assumptions C64_weights_allowed.
(** with costs, fees and a risk-free rate, what is maximised is the ratio of the net excess volatility *)
Theorem C64_maximises_net_ratio : forall tf d cs p,
  0 < scale (d_settings d) -> 0 < d_scale_objective d -> costs_ok (d_settings d) -> factor_of_covariance d -> accepted tf (as_mean_risk d) cs ->
  d_l2 d = 0 -> 0 <= d_l1 d -> d_max_tracking_error d = None ->
  optimal tf (as_mean_risk d) p -> 0 < f_ p ->
  let x := weights p in
  let gain y := average_volatility d y - charges d y - risk_free_rate (d_settings d) in
  let size y := volatility d y + d_l1 d * sum_over (seq 0 (n_assets (d_prior d))) (fun i => Rabs (y i)) in
  weights_ok tf d cs x /\ min_return_ok d x /\ 0 < gain x
  /\ forall y, weights_ok tf d cs y -> min_return_ok d y -> 0 < gain y -> gain y * size x <= gain x * size y.
Proof.
  intros tf d cs p Hs Hso Hc Hcov Hacc Hl2 Hl1 Hte Hopt Hp x gain size.
  destruct (C64_weights_allowed tf d cs p Hs Hc Hacc Hte (proj1 Hopt) Hp) as (A1&A2&A3). fold x in A1, A2, A3.
  split; auto. split; auto. split; [unfold gain; lra|]. intros y Hy Hm Hg.
  assert (E: forall z, excess (as_mean_risk d) z = gain z) by (intros z; unfold excess; rewrite md_expected; reflexivity).
  assert (P: forall z, volatility d z + penalty (as_mean_risk d) z = size z).
  { intros z. unfold penalty, size. cbn [as_mean_risk l1_ l2_ prior_]. rewrite Hl2. ring. }
  pose proof (C36_maximum_ratio tf (as_mean_risk d) cs p Hs Hso Hc eq_refl Hacc eq_refl Hl2 (or_introl (conj (ltac:(discriminate) : STANDARD_DEVIATION <> VARIANCE) (ltac:(discriminate) : STANDARD_DEVIATION <> SEMI_VARIANCE))) Hte (fun _ _ => eq_refl) Hopt Hp y (volatility d x) (volatility d y)) as M.
  cbv zeta in M. fold x in M. rewrite !E, !P in M. cbn [as_mean_risk risk_measure_ degree pow] in M. rewrite !Rmult_1_r in M.
  rewrite (Rmult_comm (gain y)), (Rmult_comm (gain x)). apply M; auto.
  - apply md_allowed; auto.
  - apply md_risk; auto.
  - apply md_risk; auto.
  - right. unfold size. apply Rplus_le_le_0_compat; [apply sqrt_pos|apply Rmult_le_pos; auto]. apply so_nonneg. intros; apply Rabs_pos.
Qed.
Print Assumptions C64_maximises_net_ratio.
(** without costs, fees, risk-free rate and penalty, it is the diversification ratio *)
Theorem C64_maximum_diversification : forall tf d cs p,
  0 < scale (d_settings d) -> 0 < d_scale_objective d -> factor_of_covariance d -> accepted tf (as_mean_risk d) cs ->
  (forall i, value (costs (d_settings d)) i = 0) -> (forall i, value (fees (d_settings d)) i = 0) -> risk_free_rate (d_settings d) = 0 ->
  d_l1 d = 0 -> d_l2 d = 0 -> d_max_tracking_error d = None -> d_min_return d = None ->
  optimal tf (as_mean_risk d) p -> 0 < f_ p ->
  let x := weights p in
  weights_ok tf d cs x /\ 0 < average_volatility d x
  /\ forall y, weights_ok tf d cs y -> 0 < volatility d y -> 0 < volatility d x -> diversification_ratio d y <= diversification_ratio d x.
Proof.
  intros tf d cs p Hs Hso Hcov Hacc Hc0 Hf0 Hrf Hl1 Hl2 Hte Hmr Hopt Hp x.
  assert (Hc: costs_ok (d_settings d)) by (intros i; rewrite Hc0; lra).
  destruct (C64_maximises_net_ratio tf d cs p Hs Hso Hc Hcov Hacc Hl2 (or_intror (eq_sym Hl1)) Hte Hopt Hp) as (A1&A2&A3&A4). fold x in A1, A2, A3, A4.
  assert (C: forall y, charges d y = 0).
  { intros y. unfold charges. rewrite (so_ext (fun i => value (costs (d_settings d)) i * _) (fun _ => 0 * 0)) by (intros; rewrite Hc0; ring). rewrite so_scal, (so_ext (fun i => _ * y i) (fun _ => 0 * 0)) by (intros; rewrite Hf0; ring). rewrite so_scal. ring. }
  rewrite C, Hrf in A3. split; auto. split; [lra|]. intros y Hy Vy Vx. unfold diversification_ratio.
  assert (G: 0 < average_volatility d y -> average_volatility d y / volatility d y <= average_volatility d x / volatility d x).
  { intros Hg. assert (Hm: min_return_ok d y) by (unfold min_return_ok; rewrite Hmr; exact I).
    specialize (A4 y Hy Hm). rewrite !C, Hrf, !Hl1 in A4. rewrite !Rminus_0_r, !Rmult_0_l, !Rplus_0_r in A4. specialize (A4 Hg).
    apply Rmult_le_reg_r with (volatility d x * volatility d y); [apply Rmult_lt_0_compat; auto|].
    replace (average_volatility d y / volatility d y * (volatility d x * volatility d y)) with (average_volatility d y * volatility d x) by (field; lra).
    replace (average_volatility d x / volatility d x * (volatility d x * volatility d y)) with (average_volatility d x * volatility d y) by (field; lra). exact A4. }
  destruct (Rlt_dec 0 (average_volatility d y)) as [H|H]; [auto|].
  apply Rle_trans with 0.
  - unfold Rdiv. assert (0 < / volatility d y) by (apply Rinv_0_lt_compat; auto). nra.
  - left. apply Rdiv_lt_0_compat; lra.
Qed.
Print Assumptions C64_maximum_diversification.

(** * A case: two uncorrelated assets of unit variance and no expected return; the optimum is half of each *)
Definition pair_prior : prior := {| n_assets := 2; n_obs := 2; returns := fun _ => two 0 0; mu := two 0 0; cholesky := fun i k => if (i =? k)%nat then 1 else 0 |}.
Definition pair_example (r : option R) : max_div := {|
  d_prior := pair_prior; d_covariance := fun i j => if (i =? j)%nat then 1 else 0; d_settings := free;
  d_min_weights := Some (fun _ => 0); d_max_weights := Some (fun _ => 1); d_budget := Some 1; d_min_budget := None; d_max_budget := None;
  d_max_short := None; d_max_long := None; d_groups := None; d_linear_constraints := None; d_left_inequality := None; d_right_inequality := None;
  d_names := None; d_l1 := 0; d_l2 := 0; d_min_return := r; d_max_tracking_error := None; d_benchmark := fun _ => 0;
  d_max_turnover := None; d_has_previous := false; d_scale_objective := 1 |}.
Definition pair_point : point := {| w_ := two (1/2000) (1/2000); f_ := 1/1000; m_ := no_mip;
  a_ := fun _ => {| alpha := 0; u := sqrt 2 / 2000; ex := 0; ey := 0; v := fun _ => 0; z := fun _ => 0; gx := fun _ => 0; gy := fun _ => 0; dd := fun _ => 0 |};
  common_dd := fun _ => 0 |}.
Lemma pair_h : homogenization_factor 2 (two 0 0) = 1/1000.
Proof. unfold homogenization_factor, sumn. cbn. rewrite Rabs_R0. rewrite Rmax_left by lra. rewrite Rmin_right by lra. lra. Qed.
Lemma pair_er r p : er (as_mean_risk (pair_example r)) p = w_ p 0%nat + w_ p 1%nat.
Proof.
  unfold er, coefficients, expected_return, transaction_cost, management_fee, all, weighted_volatilities. cbn. unfold eqb0. destruct (Req_EM_T 0 0) as [_|H]; [|exfalso; apply H; reflexivity].
  cbn. unfold sumn. cbn. unfold weighted_volatilities. cbn. rewrite sqrt_1. ring.
Qed.
Lemma pair_ratio r p : ratio_constraint (scale free) (er (as_mean_risk (pair_example r)) p) 0 (homogenization_factor 2 (two 0 0)) (f_ p) (is_affine 2 (Scalar 0) None) = Eq (er (as_mean_risk (pair_example r)) p * 1 - 0 * f_ p * 1) (1/1000 * 1).
Proof. rewrite pair_h. unfold is_affine, all. cbn. unfold eqb0. destruct (Req_EM_T 0 0) as [_|H]; [|exfalso; apply H; reflexivity]. reflexivity. Qed.
Lemma pair_feasible r : opt r (fun r => r <= 1) -> feasible no_float (as_mean_risk (pair_example r)) pair_point.
Proof.
  intros Hr. split; [left; reflexivity|]. unfold problem_constraints. cbn [pair_example as_mean_risk d_prior d_settings d_names d_min_return d_max_turnover d_has_previous d_max_tracking_error prior_ settings_ params_ names_ mip_solver_ limits_ min_return_ max_turnover_ has_previous_ max_tracking_error_ mu_uncertainty_ n_assets pair_prior is_ratio objective_].
  eexists. split; [reflexivity|]. rewrite !Forall_app. split; [|split; [|split; [|split; [|split]]]].
  - constructor.
  - constructor.
  - unfold elementwise. cbn [seq map w_ f_ pair_point scale free two]. repeat split; repeat (constructor; [cbn; unfold sumn; cbn; lra|]); constructor.
  - rewrite pair_er. destruct r as [r|]; [|constructor]. cbn in Hr. constructor; [|constructor]. cbn. lra.
  - unfold risk_block. cbn. constructor; [cbn; pose proof (sqrt_pos 2); lra|constructor; [|constructor]]. cbn. unfold sumn. cbn. rewrite !Rmult_1_r.
    match goal with |- sqrt ?X <= _ => replace X with (2 * (1/2000)²) by (unfold Rsqr; field) end. rewrite sqrt_mult by (try lra; apply Rle_0_sqr). rewrite sqrt_Rsqr by lra. lra.
  - constructor; [|constructor]. change (costs free) with (Scalar 0). change (risk_free_rate free) with 0. cbn [mu]. rewrite pair_ratio, pair_er. cbn. lra.
Qed.
Lemma pair_optimal r : opt r (fun r => r <= 1) -> optimal no_float (as_mean_risk (pair_example r)) pair_point.
Proof.
  intros Hr. split; [apply pair_feasible; auto|]. intros p (_&l&E&Hl).
  destruct (problem_split no_float (as_mean_risk (pair_example r)) p l E) as (lt&lw&Hlt&Hlw&Hall). destruct (proj1 Hall Hl) as (_&_&_&_&B&C). clear Hall. specialize (C eq_refl).
  assert (W: w_ p 0%nat + w_ p 1%nat = 1/1000).
  { rewrite <- (pair_er r). change (holds_at (ratio_constraint (scale free) (er (as_mean_risk (pair_example r)) p) 0 (homogenization_factor 2 (two 0 0)) (f_ p) (is_affine 2 (Scalar 0) None))) in C. rewrite pair_ratio in C. cbn [holds_at] in C. lra. }
  rewrite risk_block_holds in B by (cbn; lra). destruct (B STANDARD_DEVIATION (or_introl eq_refl)) as [D _]. cbn in D. inversion D as [|? ? D1 D2]; subst. inversion D2 as [|? ? D3 _]; subst. cbn in D1, D3. unfold sumn in D3. cbn in D3.
  unfold loss, risk, regularization. cbn. unfold sumn. cbn. set (U := u (a_ p STANDARD_DEVIATION)) in *.
  assert (sqrt 2 / 2000 <= U); [|lra]. rewrite !Rmult_1_r in D3. eapply Rle_trans; [|exact D3].
  replace (sqrt 2 / 2000) with (sqrt (2 * (1/2000)²)) by (rewrite sqrt_mult by (try lra; apply Rle_0_sqr); rewrite sqrt_Rsqr by lra; lra).
  apply sqrt_le_1_alt. unfold Rsqr. set (a := w_ p 0%nat) in *. set (b := w_ p 1%nat) in *. replace b with (1/1000 - a) by lra. pose proof (Rle_0_sqr (a - 1/2000)). unfold Rsqr in *. lra.
Qed.
(** the hypotheses of the theorems above are met: the optimum is the equal weights, and all in one asset is allowed too *)
Example C64_hypotheses_met : let d := pair_example None in
  0 < scale (d_settings d) /\ 0 < d_scale_objective d /\ factor_of_covariance d /\ accepted no_float (as_mean_risk d) [] /\ optimal no_float (as_mean_risk d) pair_point
  /\ 0 < f_ pair_point /\ weights pair_point 0%nat = 1/2 /\ weights pair_point 1%nat = 1/2 /\ 0 < volatility d (weights pair_point)
  /\ weights_ok no_float d [] (two 1 0).
Proof.
  intros d. split; [cbn; lra|]. split; [cbn; lra|]. split. { intros i j Hi Hj. cbn in Hi, Hj. destruct i as [|[|i]]; [| |lia]; destruct j as [|[|j]]; try lia; cbn; lra. }
  split. { split; [reflexivity|]. destruct (pair_feasible None I) as (_&l&E&_). exists pair_point, l. exact E. }
  split; [apply pair_optimal; exact I|]. split; [cbn; lra|]. split; [unfold weights, reported; cbn; lra|]. split; [unfold weights, reported; cbn; lra|].
  split. { unfold volatility. apply sqrt_lt_R0. unfold weights, reported. cbn. lra. }
  unfold weights_ok. cbn. repeat split; auto; try discriminate; intros; try (destruct i as [|[|i]]; [| |lia]; cbn; lra); try lra.
Qed.
(** min_return is documented as a lower bound on the expected return: the expected return of the result can be below it *)
Theorem C64_min_return_refuted : exists d r p, d_min_return d = Some r /\ optimal no_float (as_mean_risk d) p /\ 0 < f_ p
  /\ sum_over (seq 0 (n_assets (d_prior d))) (fun i => weights p i * mu (d_prior d) i) < r.
Proof.
  exists (pair_example (Some (1/2))), (1/2), pair_point. split; [reflexivity|]. split; [apply pair_optimal; cbn; lra|]. split; [cbn; lra|]. cbn. lra.
Qed.
Print Assumptions C64_min_return_refuted.
