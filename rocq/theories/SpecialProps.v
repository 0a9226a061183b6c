(** C98: with a constant correlation risk budgeting with equal budgets, the maximum diversification and the inverse volatility are the same weights; with no correlation
    the budgets of the risk and the minimum of the variance have closed forms. *)
From Coq Require Import List Arith Bool Reals Lia Lra.
From Verif Require Import RList MeasuresModel MeasuresProofs EquationsModel EquationsSpec EquationsProps ConvexModel ConvexProps ConvexMoreProps RiskModel RiskProps RiskTailProps MeanRiskModel MeanRiskProps MeanRiskOptimalProps
  StaticsProps BudgetingModel BudgetingProps MaxDivModel MaxDivProps UniqueProps ComposeModel.
Import ListNotations.
Local Open Scope R_scope.

(** * Specification *)
(** n assets of positive volatilities, each two with the correlation r *)
Definition constant_correlation (n : nat) (vol : vec) (r : R) (cov : nat -> vec) : Prop :=
  (forall i, (i < n)%nat -> 0 < vol i) /\ forall i j, (i < n)%nat -> (j < n)%nat -> cov i j = if (i =? j)%nat then vol i ^ 2 else r * vol i * vol j.
(** the diagonal of the covariance, which InverseVolatility reads *)
Definition variances (n : nat) (cov : nat -> vec) : list R := map (fun i => cov i i) (seq 0 n).

(** * Lemmas *)
Lemma marginal_constant n vol r cov x i : constant_correlation n vol r cov -> (i < n)%nat ->
  marginal n cov x i = vol i * ((1 - r) * (vol i * x i) + r * sum_over (seq 0 n) (fun j => vol j * x j)).
Proof.
  intros [P C] Hi. unfold marginal.
  rewrite (so_ext _ (fun j => (if (j =? i)%nat then (1 - r) * vol i ^ 2 * x i else 0) + r * vol i * (vol j * x j))).
  - rewrite so_add, so_scal, (so_pick n (fun j => if (j =? i)%nat then _ else 0) i Hi) by (intros k _ Hk; apply Nat.eqb_neq in Hk; rewrite Hk; reflexivity). rewrite Nat.eqb_refl. ring.
  - intros j Hj. apply in_seq in Hj. rewrite (C i j) by lia. rewrite (Nat.eqb_sym j i). destruct (Nat.eqb_spec i j) as [<-|]; ring.
Qed.
Lemma quadratic_constant n vol r cov x : constant_correlation n vol r cov ->
  sum_over (seq 0 n) (fun i => sum_over (seq 0 n) (fun j => x i * cov i j * x j)) = (1 - r) * sum_over (seq 0 n) (fun i => (vol i * x i) ^ 2) + r * sum_over (seq 0 n) (fun j => vol j * x j) ^ 2.
Proof.
  intros C. set (S := sum_over (seq 0 n) (fun j => vol j * x j)).
  rewrite (so_ext _ (fun i => (1 - r) * (vol i * x i) ^ 2 + r * S * (vol i * x i))).
  - rewrite so_add, !so_scal. fold S. ring.
  - intros i Hi. apply in_seq in Hi. transitivity (x i * marginal n cov x i). { unfold marginal. rewrite <- so_scal. apply so_ext. intros; ring. }
    rewrite (marginal_constant n vol r cov x i C) by lia. fold S. ring.
Qed.
(** weights of sum one that are proportional to the inverse volatilities are those of InverseVolatility *)
Lemma inverse_volatility_is n vol r cov x k : constant_correlation n vol r cov -> sum_over (seq 0 n) x = 1 -> (forall i, (i < n)%nat -> vol i * x i = k) ->
  forall i, (i < n)%nat -> x i = nth i (inverse_volatility (variances n cov)) 0.
Proof.
  intros [P C] S K i Hi. unfold inverse_volatility, variances. cbv zeta. rewrite !map_map. set (g := fun i => 1 / sqrt (cov i i)).
  assert (G : forall j, (j < n)%nat -> g j = / vol j). { intros j Hj. unfold g. rewrite C, Nat.eqb_refl by auto. rewrite sqrt_pow2 by (left; auto). field. pose proof (P j Hj). lra. }
  rewrite (nth_indep _ 0 ((fun j => g j / rsum (map g (seq 0 n))) 0%nat)) by (rewrite map_length, seq_length; auto). rewrite (map_nth (fun j => g j / rsum (map g (seq 0 n)))). rewrite seq_nth by auto. cbn [Nat.add].
  assert (X : forall j, (j < n)%nat -> x j = k * g j). { intros j Hj. rewrite G by auto. rewrite <- (K j Hj). field. pose proof (P j Hj). lra. }
  assert (T : k * rsum (map g (seq 0 n)) = 1). { rewrite <- S, <- so_id, so_map, <- so_scal. apply so_ext. intros j Hj. apply in_seq in Hj. symmetry. apply X. lia. }
  rewrite X by auto. assert (rsum (map g (seq 0 n)) <> 0) by (intros Z; rewrite Z in T; lra). apply Rmult_eq_reg_r with (rsum (map g (seq 0 n))); auto. transitivity (g i); [|field; auto]. transitivity (k * rsum (map g (seq 0 n)) * g i); [ring|]. rewrite T. ring.
Qed.
Lemma classic_nonzero n (w : vec) : (exists i, (i < n)%nat /\ w i <> 0) \/ forall i, (i < n)%nat -> w i = 0.
Proof.
  induction n as [|n [(i&Hi&H)|IH]]; [right; lia|left; exists i; split; [lia|exact H]|]. destruct (Req_dec (w n) 0) as [E|E]; [right|left; exists n; auto]. intros i Hi. destruct (Nat.eq_dec i n) as [->|]; [exact E|apply IH; lia].
Qed.

(** * Theorems *)
(** ** Equal budgets and a constant correlation: risk budgeting is the inverse volatility *)
Theorem C98_equal_budgets : forall tf q p b vol r cov, 0 < scale (rb_settings q) -> 0 < rb_scale_objective q -> (rb_measure q = VARIANCE \/ rb_measure q = STANDARD_DEVIATION) ->
  budget_is (rb_budget q) b -> default_constraints q -> is_cholesky (rb_prior q) cov -> budgeting_optimal tf q p ->
  let n := n_assets (rb_prior q) in constant_correlation n vol r cov -> r < 1 -> 0 < b 0%nat -> (forall i, (i < n)%nat -> b i = b 0%nat) ->
  forall i, (i < n)%nat -> budgeting_weights p i = nth i (inverse_volatility (variances n cov)) 0.
Proof.
  intros tf q p b vol r cov Hs Hso Hm Hb Hd Hc Ho n C R B0 B i Hi.
  destruct (C37_contributions tf q p b cov Hs Hso Hm Hb Hd Hc Ho) as (P&S&K); [fold n; lia|]. fold n in P, S, K. set (x := budgeting_weights p) in *.
  set (y := fun i => vol i * x i). set (T := sum_over (seq 0 n) (fun j => vol j * x j)) in *. assert (V := proj1 C).
  assert (Y : forall j, (j < n)%nat -> 0 < y j) by (intros j Hj; apply Rmult_lt_0_compat; auto).
  assert (T0 : 0 < T). { apply Rlt_le_trans with (y i); [auto|]. apply (so_ge_elem y); [intros j Hj; apply in_seq in Hj; left; apply Y; lia|apply in_seq; lia]. }
  set (Q := quadratic (rb_prior q) cov x) in *.
  assert (Q0 : 0 <= Q). { unfold Q. rewrite (quadratic_squares _ _ x (cholesky (rb_prior q)) _ Hc). apply so_nonneg; intros; apply pow2_ge_0. }
  assert (SB : sum_over (seq 0 n) b = INR n * b 0%nat). { rewrite (so_ext _ (fun _ => b 0%nat)) by (intros j Hj; apply in_seq in Hj; apply B; lia). rewrite so_const, seq_length. reflexivity. }
  assert (N0 : 0 < INR n) by (apply lt_0_INR; lia).
  assert (E : forall j, (j < n)%nat -> y j * ((1 - r) * y j + r * T) * INR n = Q).
  { intros j Hj. specialize (K j Hj). rewrite (marginal_constant n vol r cov x j C Hj) in K. fold T in K. rewrite SB, (B j Hj) in K. apply Rmult_eq_reg_r with (b 0%nat); [|lra]. rewrite <- (Rmult_comm (b 0%nat) Q), <- K. unfold y. ring. }
  assert (F : forall j, (j < n)%nat -> 0 <= (1 - r) * y j + r * T). { intros j Hj. specialize (E j Hj). specialize (Y j Hj). apply Rnot_lt_le. intros Z. assert (0 < y j * - ((1 - r) * y j + r * T)) by (apply Rmult_lt_0_compat; lra). nra. }
  apply (inverse_volatility_is n vol r cov x (y i) C S); auto. intros j Hj. fold (y j).
  assert (D : (y j - y i) * ((1 - r) * (y j + y i) + r * T) = 0). { pose proof (E i Hi). pose proof (E j Hj). apply Rmult_eq_reg_r with (INR n); [|lra]. rewrite Rmult_0_l. nra. }
  apply Rmult_integral in D as [D|D]; [lra|]. exfalso. pose proof (F i Hi). pose proof (F j Hj). pose proof (Y i Hi). pose proof (Y j Hj).
  destruct (Rle_dec 0 r); [assert (0 < (1 - r) * (y j + y i)) by (apply Rmult_lt_0_compat; lra); assert (0 <= r * T) by (apply Rmult_le_pos; lra); lra|].
  assert (0 < - r * T) by (apply Rmult_lt_0_compat; lra). lra.
Qed.
Print Assumptions C98_equal_budgets.
(** two assets always have a constant correlation: whatever the covariance, equal budgets of the risk give the inverse volatility *)
Theorem C98_two_assets : forall tf q p b cov, 0 < scale (rb_settings q) -> 0 < rb_scale_objective q -> (rb_measure q = VARIANCE \/ rb_measure q = STANDARD_DEVIATION) ->
  budget_is (rb_budget q) b -> default_constraints q -> is_cholesky (rb_prior q) cov -> budgeting_optimal tf q p -> n_assets (rb_prior q) = 2%nat ->
  0 < cov 0%nat 0%nat -> 0 < cov 1%nat 1%nat -> cov 0%nat 1%nat < sqrt (cov 0%nat 0%nat) * sqrt (cov 1%nat 1%nat) -> 0 < b 0%nat -> b 1%nat = b 0%nat ->
  forall i, (i < 2)%nat -> budgeting_weights p i = nth i (inverse_volatility (variances 2 cov)) 0.
Proof.
  intros tf q p b cov Hs Hso Hm Hb Hd Hc Ho Hn V0 V1 Hlt B0 B1. set (vol := fun i => sqrt (cov i i)). pose proof (sqrt_lt_R0 _ V0) as S0. pose proof (sqrt_lt_R0 _ V1) as S1. set (r := cov 0%nat 1%nat / (vol 0%nat * vol 1%nat)).
  assert (M : 0 < vol 0%nat * vol 1%nat) by (apply Rmult_lt_0_compat; auto).
  assert (Sym : cov 1%nat 0%nat = cov 0%nat 1%nat) by (apply (cholesky_symmetric (rb_prior q) cov Hc); lia).
  assert (C : constant_correlation (n_assets (rb_prior q)) vol r cov).
  { rewrite Hn. split; [intros i Hi; destruct i as [|[|i]]; [exact S0|exact S1|lia]|]. intros i j Hi Hj.
    destruct i as [|[|i]]; [| |lia]; (destruct j as [|[|j]]; [| |lia]); cbn [Nat.eqb]; try (unfold vol; rewrite pow2_sqrt by lra; reflexivity); unfold r; rewrite ?Sym; unfold vol in *; field; lra. }
  assert (R : r < 1) by (unfold r; apply Rmult_lt_reg_r with (vol 0%nat * vol 1%nat); [exact M|]; unfold Rdiv; rewrite Rmult_assoc, Rinv_l by lra; unfold vol in *; lra).
  rewrite <- Hn. apply (C98_equal_budgets tf q p b vol r cov); auto. rewrite Hn. intros i Hi. destruct i as [|[|i]]; [reflexivity|exact B1|lia].
Qed.
Print Assumptions C98_two_assets.
(** ** No correlation: the weights of risk budgeting are proportional to the square roots of the budgets over the volatilities *)
Theorem C98_uncorrelated_budgets : forall tf q p b vol cov, 0 < scale (rb_settings q) -> 0 < rb_scale_objective q -> (rb_measure q = VARIANCE \/ rb_measure q = STANDARD_DEVIATION) ->
  budget_is (rb_budget q) b -> default_constraints q -> is_cholesky (rb_prior q) cov -> budgeting_optimal tf q p ->
  let n := n_assets (rb_prior q) in constant_correlation n vol 0 cov -> (forall i, (i < n)%nat -> 0 < b i) ->
  forall i, (i < n)%nat -> budgeting_weights p i = sqrt (b i) / vol i / sum_over (seq 0 n) (fun j => sqrt (b j) / vol j).
Proof.
  intros tf q p b vol cov Hs Hso Hm Hb Hd Hc Ho n C B i Hi.
  destruct (C37_contributions tf q p b cov Hs Hso Hm Hb Hd Hc Ho) as (P&S&K); [fold n; lia|]. fold n in P, S, K. set (x := budgeting_weights p) in *. assert (V := proj1 C).
  set (Q := quadratic (rb_prior q) cov x) in *. set (SB := sum_over (seq 0 n) b) in *.
  assert (SB0 : 0 < SB). { apply Rlt_le_trans with (b i); [auto|]. apply (so_ge_elem b); [intros j Hj; apply in_seq in Hj; left; apply B; lia|apply in_seq; lia]. }
  assert (E : forall j, (j < n)%nat -> x j = sqrt (Q / SB) * (sqrt (b j) / vol j)).
  { intros j Hj. pose proof (K j Hj) as E. rewrite (marginal_constant n vol 0 cov x j C Hj) in E. pose proof (V j Hj). pose proof (P j Hj). pose proof (B j Hj).
    assert (Q0 : 0 <= Q / SB). { apply Rmult_le_reg_l with (b j); [auto|]. replace (b j * (Q / SB)) with (b j * Q / SB) by (field; lra). rewrite <- E. replace (x j * (vol j * ((1 - 0) * (vol j * x j) + 0 * sum_over (seq 0 n) (fun k => vol k * x k))) * SB / SB) with ((vol j * x j) ^ 2) by (field; lra). pose proof (pow2_ge_0 (vol j * x j)). lra. }
    replace (sqrt (Q / SB) * (sqrt (b j) / vol j)) with (sqrt (Q / SB * b j) / vol j) by (rewrite sqrt_mult; [field; lra|auto|lra]).
    replace (Q / SB * b j) with ((vol j * x j) ^ 2). { rewrite sqrt_pow2 by (left; apply Rmult_lt_0_compat; auto). field. lra. }
    apply Rmult_eq_reg_r with SB; [|lra]. replace (Q / SB * b j * SB) with (b j * Q) by (field; lra). rewrite <- E. ring. }
  assert (T : sqrt (Q / SB) * sum_over (seq 0 n) (fun j => sqrt (b j) / vol j) = 1). { rewrite <- S, <- so_scal. apply so_ext. intros j Hj. apply in_seq in Hj. symmetry. apply E. lia. }
  rewrite (E i Hi). set (k := sqrt (Q / SB)) in *. set (D := sum_over (seq 0 n) (fun j => sqrt (b j) / vol j)) in *. assert (D <> 0) by (intros Z; rewrite Z in T; lra).
  apply Rmult_eq_reg_r with D; auto. transitivity (k * D * (sqrt (b i) / vol i)); [ring|]. rewrite T. field. split; auto. pose proof (V i Hi). lra.
Qed.
Print Assumptions C98_uncorrelated_budgets.
(** ** A constant correlation: the maximum diversification is the inverse volatility, when the constraints allow it *)
Theorem C98_maximum_diversification : forall tf d cs p vol r,
  0 < scale (d_settings d) -> 0 < d_scale_objective d -> factor_of_covariance d -> accepted tf (as_mean_risk d) cs ->
  (forall i, value (costs (d_settings d)) i = 0) -> (forall i, value (fees (d_settings d)) i = 0) -> risk_free_rate (d_settings d) = 0 ->
  d_l1 d = 0 -> d_l2 d = 0 -> d_max_tracking_error d = None -> d_min_return d = None -> d_budget d = Some 1 -> optimal tf (as_mean_risk d) p -> 0 < f_ p ->
  let n := n_assets (d_prior d) in let inverse := inverse_volatility (variances n (d_covariance d)) in
  positive_definite n (d_covariance d) -> constant_correlation n vol r (d_covariance d) -> r < 1 -> weights_ok tf d cs (fun i => nth i inverse 0) ->
  forall i, (i < n)%nat -> weights p i = nth i inverse 0.
Proof.
  intros tf d cs p vol r Hs Hso Hch Ha Hc Hf Hrf L1 L2 Hte Hmr Hb Ho Hp n inverse Hpd C Hr Wi i Hi.
  destruct (C64_maximum_diversification tf d cs p Hs Hso Hch Ha Hc Hf Hrf L1 L2 Hte Hmr Ho Hp) as (W&A&M). set (x := weights p) in *. set (t := fun i => nth i inverse 0) in *. assert (V := proj1 C).
  assert (Sx : sum_over (seq 0 n) x = 1) by (destruct W as (_&_&_&_&_&_&B&_); rewrite Hb in B; exact B).
  assert (St : sum_over (seq 0 n) t = 1) by (destruct Wi as (_&_&_&_&_&_&B&_); rewrite Hb in B; exact B).
  set (g := sum_over (seq 0 n) (fun j => / vol j)).
  assert (G : 0 < g). { apply Rlt_le_trans with (/ vol i); [apply Rinv_0_lt_compat; auto|]. apply (so_ge_elem (fun j => / vol j)); [intros j Hj; apply in_seq in Hj; left; apply Rinv_0_lt_compat, V; lia|apply in_seq; lia]. }
  assert (T : forall j, (j < n)%nat -> vol j * t j = / g).
  { intros j Hj. unfold t, inverse. rewrite <- (inverse_volatility_is n vol r (d_covariance d) (fun j => / vol j / g) (/ g) C); auto.
    - field. pose proof (V j Hj). split; lra.
    - unfold Rdiv. rewrite so_scal_r. fold g. field. lra.
    - intros k Hk. field. pose proof (V k Hk). split; lra. }
  assert (AV : forall w, average_volatility d w = sum_over (seq 0 n) (fun j => vol j * w j)).
  { intros w. unfold average_volatility. fold n. apply so_ext. intros j Hj. apply in_seq in Hj. rewrite (proj2 C) by lia. rewrite Nat.eqb_refl, sqrt_pow2 by (left; apply V; lia). ring. }
  set (Q := fun w : vec => sum_over (seq 0 n) (fun i => sum_over (seq 0 n) (fun j => w i * d_covariance d i j * w j))).
  assert (VV : forall w, volatility d w = sqrt (Q w)) by reflexivity.
  assert (QE : forall w, Q w = (1 - r) * sum_over (seq 0 n) (fun i => (vol i * w i) ^ 2) + r * sum_over (seq 0 n) (fun j => vol j * w j) ^ 2) by (intros w; apply (quadratic_constant n vol r (d_covariance d) w C)).
  assert (NZ : forall w, sum_over (seq 0 n) w = 1 -> 0 < Q w).
  { intros w Sw. apply Hpd. destruct (classic_nonzero n w) as [E|E]; [exact E|exfalso]. rewrite (so_zero w) in Sw; [lra|]. intros j Hj. apply in_seq in Hj. apply E. lia. }
  pose proof (NZ x Sx) as Qx. pose proof (NZ t St) as Qt. specialize (M t Wi). rewrite !VV in M. specialize (M (sqrt_lt_R0 _ Qt) (sqrt_lt_R0 _ Qx)). unfold diversification_ratio in M. rewrite !VV, !AV in M.
  rewrite AV in A. fold n in A. set (Ax := sum_over (seq 0 n) (fun j => vol j * x j)) in *. set (Sq := sum_over (seq 0 n) (fun j => (vol j * x j) ^ 2)).
  assert (At : sum_over (seq 0 n) (fun j => vol j * t j) = INR n * / g). { rewrite (so_ext _ (fun _ => / g)) by (intros j Hj; apply in_seq in Hj; apply T; lia). rewrite so_const, seq_length. reflexivity. }
  assert (Bt : sum_over (seq 0 n) (fun j => (vol j * t j) ^ 2) = INR n * (/ g) ^ 2). { rewrite (so_ext _ (fun _ => (/ g) ^ 2)) by (intros j Hj; apply in_seq in Hj; rewrite T by lia; reflexivity). rewrite so_const, seq_length. reflexivity. }
  assert (N0 : 0 < INR n) by (apply lt_0_INR; lia). assert (G' : 0 < / g) by (apply Rinv_0_lt_compat; auto).
  assert (M2 : (INR n * / g) ^ 2 * Q x <= Ax ^ 2 * Q t).
  { rewrite At in M. pose proof (sqrt_lt_R0 _ Qx) as R1. pose proof (sqrt_lt_R0 _ Qt) as R2. assert (K : INR n * / g * sqrt (Q x) <= Ax * sqrt (Q t)).
    { apply Rmult_le_reg_r with (/ sqrt (Q t) * / sqrt (Q x)); [apply Rmult_lt_0_compat; apply Rinv_0_lt_compat; auto|].
      replace (INR n * / g * sqrt (Q x) * (/ sqrt (Q t) * / sqrt (Q x))) with (INR n * / g / sqrt (Q t)) by (field; lra). replace (Ax * sqrt (Q t) * (/ sqrt (Q t) * / sqrt (Q x))) with (Ax / sqrt (Q x)) by (field; lra). exact M. }
    assert (K2 := pow_incr _ _ 2 (conj (Rmult_le_pos _ _ (Rmult_le_pos _ _ (Rlt_le _ _ N0) (Rlt_le _ _ G')) (Rlt_le _ _ R1)) K)). rewrite !Rpow_mult_distr, !pow2_sqrt in K2 by lra. rewrite Rpow_mult_distr. exact K2. }
  rewrite !QE, At, Bt in M2. fold Ax Sq in M2.
  assert (M3 : INR n * Sq <= Ax ^ 2).
  { assert (E : (INR n * / g) ^ 2 * ((1 - r) * Sq + r * Ax ^ 2) - Ax ^ 2 * ((1 - r) * (INR n * (/ g) ^ 2) + r * (INR n * / g) ^ 2) = INR n * (/ g) ^ 2 * (1 - r) * (INR n * Sq - Ax ^ 2)) by ring.
    assert (0 < INR n * (/ g) ^ 2 * (1 - r)) by (apply Rmult_lt_0_compat; [apply Rmult_lt_0_compat; [auto|apply pow_lt; auto]|lra]). apply Rnot_lt_le. intros Z. assert (0 < INR n * (/ g) ^ 2 * (1 - r) * (INR n * Sq - Ax ^ 2)) by (apply Rmult_lt_0_compat; lra). lra. }
  assert (Z : sum_over (seq 0 n) (fun j => (vol j * x j - Ax / INR n) ^ 2) = 0).
  { apply Rle_antisym; [|apply so_nonneg; intros; apply pow2_ge_0].
    rewrite (so_ext _ (fun j => (vol j * x j) ^ 2 + (- 2 * (Ax / INR n)) * (vol j * x j) + (Ax / INR n) ^ 2)) by (intros; ring). rewrite !so_add, so_scal, so_const, seq_length. fold Sq Ax.
    replace (Sq + -2 * (Ax / INR n) * Ax + INR n * (Ax / INR n) ^ 2) with ((INR n * Sq - Ax ^ 2) / INR n) by (field; lra). apply Rmult_le_reg_r with (INR n); auto. unfold Rdiv. rewrite Rmult_assoc, Rinv_l by lra. lra. }
  apply (inverse_volatility_is n vol r (d_covariance d) x (Ax / INR n) C Sx); auto. intros j Hj.
  pose proof (so_nonneg_zero _ _ (fun k _ => pow2_ge_0 (vol k * x k - Ax / INR n)) Z j) as K. cbv beta in K. assert (K' := K ltac:(apply in_seq; lia)). assert (vol j * x j - Ax / INR n = 0) by nra. lra.
Qed.
Print Assumptions C98_maximum_diversification.
(** ** Weights with the same marginal variance on every asset are those of the minimum variance, when the constraints allow them *)
Theorem C98_minimum_variance : forall tf q cs cov c m p y, 0 < scale (settings_ q) -> 0 < scale_objective_ q -> costs_ok (settings_ q) -> accepted tf q cs ->
  is_mip (n_assets (prior_ q)) (params_ q) = false -> risk_measure_ q = VARIANCE -> objective_ q = MINIMIZE_RISK -> l1_ q = 0 -> l2_ q = 0 -> budget (params_ q) = Some c ->
  is_cholesky (prior_ q) cov -> positive_definite (n_assets (prior_ q)) cov -> optimal tf q p ->
  allowed tf q cs y -> (forall i, (i < n_assets (prior_ q))%nat -> marginal (n_assets (prior_ q)) cov y i = m) ->
  forall i, (i < n_assets (prior_ q))%nat -> weights p i = y i.
Proof.
  intros tf q cs cov c m p y Hs Hso Hc Ha Hm Hrm Hob L1 L2 Hb Hch Hpd O Ay M. set (n := n_assets (prior_ q)) in *. set (Q := quadratic (prior_ q) cov). set (x := weights p) in *.
  assert (V : forall w, risk_is q (risk_measure_ q) w (Q w)) by (intros w; rewrite Hrm; apply (C35_standard_deviation (prior_ q) (settings_ q) w cov Hs Hch)).
  assert (Ho : objective_ q <> MAXIMIZE_RATIO) by congruence.
  pose proof (optimum_allowed tf q cs p Hs Hc Ha Ho O) as Ax. pose proof (C36_optimal tf q cs p Hs Hso Hc Hm Ha Ho O y (Q x) (Q y) Ay (V x) (V y)) as K. rewrite Hob in K. fold x in K, Ax.
  assert (P : forall w, penalty q w = 0) by (intros w; unfold penalty; rewrite L1, L2; ring). rewrite !P in K.
  assert (Sx : sum_over (seq 0 n) x = c) by (destruct Ax as ((_&_&_&_&_&_&B&_)&_); rewrite Hb in B; exact B).
  assert (Sy : sum_over (seq 0 n) y = c) by (destruct Ay as ((_&_&_&_&_&_&B&_)&_); rewrite Hb in B; exact B).
  assert (QM : forall w, Q w = sum_over (seq 0 n) (fun i => w i * marginal n cov w i)) by (intros w; apply so_ext; intros i _; unfold marginal; rewrite <- so_scal; apply so_ext; intros; ring).
  assert (X1 : forall w, sum_over (seq 0 n) (fun i => w i * marginal n cov y i) = m * sum_over (seq 0 n) w) by (intros w; rewrite <- so_scal; apply so_ext; intros j Hj; apply in_seq in Hj; rewrite M by lia; ring).
  assert (X2 : sum_over (seq 0 n) (fun i => y i * marginal n cov x i) = m * sum_over (seq 0 n) x).
  { rewrite <- X1. unfold marginal. rewrite (so_ext _ (fun i => sum_over (seq 0 n) (fun j => y i * (cov i j * x j)))) by (intros; rewrite so_scal; reflexivity). rewrite so_swap. apply so_ext. intros j Hj. apply in_seq in Hj. rewrite <- so_scal. apply so_ext. intros i Hi. apply in_seq in Hi.
    rewrite (cholesky_symmetric _ _ Hch i j) by (fold n; lia). ring. }
  apply (definite_zero (prior_ q) cov x y Hpd). fold Q.
  replace (Q (fun i => x i - y i)) with (Q x - Q y); [lra|]. rewrite (QM (fun i => x i - y i)).
  rewrite (so_ext _ (fun i => x i * marginal n cov x i - y i * marginal n cov x i - (x i * marginal n cov y i - y i * marginal n cov y i))).
  - rewrite !so_sub, X2, !X1, (QM x), (QM y), X1, Sx, Sy. ring.
  - intros i _. assert (L : marginal n cov (fun i => x i - y i) i = marginal n cov x i - marginal n cov y i) by (unfold marginal; rewrite <- so_sub; apply so_ext; intros; ring). rewrite L. ring.
Qed.
Print Assumptions C98_minimum_variance.
(** with no correlation: proportional to the inverse variances *)
Theorem C98_inverse_variance : forall tf q cs cov vol c p, 0 < scale (settings_ q) -> 0 < scale_objective_ q -> costs_ok (settings_ q) -> accepted tf q cs ->
  is_mip (n_assets (prior_ q)) (params_ q) = false -> risk_measure_ q = VARIANCE -> objective_ q = MINIMIZE_RISK -> l1_ q = 0 -> l2_ q = 0 -> budget (params_ q) = Some c ->
  let n := n_assets (prior_ q) in is_cholesky (prior_ q) cov -> constant_correlation n vol 0 cov -> optimal tf q p ->
  let inverse := fun i => c * (1 / vol i ^ 2) / sum_over (seq 0 n) (fun j => 1 / vol j ^ 2) in allowed tf q cs inverse ->
  forall i, (i < n)%nat -> weights p i = inverse i.
Proof.
  intros tf q cs cov vol c p Hs Hso Hc Ha Hm Hrm Hob L1 L2 Hb n Hch C O inverse Ay. assert (V := proj1 C). set (g := sum_over (seq 0 n) (fun j => 1 / vol j ^ 2)) in *. intros i Hi.
  assert (U : forall j, (j < n)%nat -> 0 < 1 / vol j ^ 2) by (intros j Hj; apply Rdiv_lt_0_compat; [lra|apply pow_lt; auto]).
  assert (G : 0 < g). { apply Rlt_le_trans with (1 / vol i ^ 2); [auto|]. apply (so_ge_elem (fun j => 1 / vol j ^ 2)); [intros j Hj; apply in_seq in Hj; left; apply U; lia|apply in_seq; lia]. }
  apply (C98_minimum_variance tf q cs cov c (c / g) p inverse); auto.
  - intros w (k&Hk&Hw). fold n in Hk. fold n. rewrite (quadratic_constant n vol 0 cov w C). apply Rlt_le_trans with ((vol k * w k) ^ 2).
    + assert (vol k * w k <> 0) by (apply Rmult_integral_contrapositive; split; auto; pose proof (V k Hk); lra). pose proof (Rsqr_pos_lt _ H) as K. unfold Rsqr in K. nra.
    + pose proof (so_ge_elem (fun i => (vol i * w i) ^ 2) (seq 0 n) k (fun _ _ => pow2_ge_0 _) ltac:(apply in_seq; lia)). cbv beta in H. lra.
  - intros j Hj. fold n in Hj. fold n. rewrite (marginal_constant n vol 0 cov inverse j C Hj). unfold inverse. pose proof (V j Hj). field. lra.
Qed.
Print Assumptions C98_inverse_variance.

(** ** Equal volatilities too: the inverse volatility and the minimum of the variance are the equal weights *)
Theorem C98_equal_weighted : forall n vol v r cov, constant_correlation n vol r cov -> (forall i, (i < n)%nat -> vol i = v) ->
  (forall i, (i < n)%nat -> nth i (inverse_volatility (variances n cov)) 0 = nth i (equal_weighted n) 0)
  /\ forall tf q cs p, n_assets (prior_ q) = n -> 0 < scale (settings_ q) -> 0 < scale_objective_ q -> costs_ok (settings_ q) -> accepted tf q cs ->
  is_mip (n_assets (prior_ q)) (params_ q) = false -> risk_measure_ q = VARIANCE -> objective_ q = MINIMIZE_RISK -> l1_ q = 0 -> l2_ q = 0 -> budget (params_ q) = Some 1 ->
  is_cholesky (prior_ q) cov -> positive_definite n cov -> optimal tf q p -> allowed tf q cs (fun i => nth i (equal_weighted n) 0) ->
  forall i, (i < n)%nat -> weights p i = nth i (equal_weighted n) 0.
Proof.
  intros n vol v r cov C E.
  assert (N : forall i, (i < n)%nat -> nth i (equal_weighted n) 0 = 1 / INR n).
  { intros i Hi. unfold equal_weighted. rewrite (nth_indep _ 0 ((fun x => x / INR n) 1)) by (rewrite map_length, repeat_length; auto). rewrite (map_nth (fun x => x / INR n)). f_equal. apply nth_repeat. }
  assert (S : (0 < n)%nat -> sum_over (seq 0 n) (fun _ => 1 / INR n) = 1) by (intros H; rewrite so_const, seq_length; field; apply not_0_INR; lia).
  split.
  - intros i Hi. rewrite N by auto. symmetry. apply (inverse_volatility_is n vol r cov (fun _ => 1 / INR n) (v * (1 / INR n)) C); auto; [apply S; lia|]. intros j Hj. rewrite E by auto. reflexivity.
  - intros tf q cs p Hn Hs Hso Hc Ha Hm Hrm Hob L1 L2 Hb Hch Hpd O A i Hi. subst n.
    apply (C98_minimum_variance tf q cs cov 1 (v * ((1 - r) * (v * (1 / INR (n_assets (prior_ q)))) + r * v)) p (fun i => nth i (equal_weighted (n_assets (prior_ q))) 0)); auto.
    intros j Hj. rewrite (marginal_constant _ vol r cov _ j C Hj), N, (E j Hj) by auto. rewrite (so_ext _ (fun _ => v * (1 / INR (n_assets (prior_ q))))) by (intros k Hk; apply in_seq in Hk; rewrite N, E by lia; reflexivity).
    rewrite so_scal, S by lia. ring.
Qed.
Print Assumptions C98_equal_weighted.

(** * Cases that meet the hypotheses *)
(** volatilities 1 and 4, no correlation *)
Example C98_budgets_applies : let cov : nat -> vec := fun i j => if (i =? j)%nat then two 1 16 i else 0 in
  default_constraints equal_budgets /\ budget_is (rb_budget equal_budgets) (fun _ => 1) /\ is_cholesky (rb_prior equal_budgets) cov /\ budgeting_optimal no_float equal_budgets equal_point
  /\ constant_correlation (n_assets (rb_prior equal_budgets)) (two 1 4) 0 cov /\ budgeting_weights equal_point 0%nat = 4/5 /\ budgeting_weights equal_point 1%nat = 1/5.
Proof.
  intros cov. destruct C37_hypotheses_met as (A&B&C&D). split; [exact A|]. split; [exact B|]. split; [exact C|]. split; [exact D|]. split.
  - split; intros i; [|intros j]; cbn; intros; destruct i as [|[|i]]; try lia; try destruct j as [|[|j]]; try lia; cbn; lra.
  - unfold budgeting_weights, reported. cbn. split; lra.
Qed.
(** two assets of volatility 1, no correlation: the maximum diversification *)
Example C98_diversification_applies : let d := pair_example None in let inverse := inverse_volatility (variances 2 (d_covariance d)) in
  factor_of_covariance d /\ accepted no_float (as_mean_risk d) [] /\ optimal no_float (as_mean_risk d) pair_point /\ 0 < f_ pair_point /\ positive_definite 2 (d_covariance d)
  /\ constant_correlation 2 (fun _ => 1) 0 (d_covariance d) /\ weights_ok no_float d [] (fun i => nth i inverse 0).
Proof.
  intros d inverse. destruct C96_diversification_applies as (_&_&_&_&A&_&B&P&O&F). split; [exact B|]. split; [exact A|]. split; [exact O|]. split; [exact F|]. split; [exact P|].
  assert (C : constant_correlation 2 (fun _ => 1) 0 (d_covariance d)) by (split; intros i; [|intros j]; cbn; intros; destruct i as [|[|i]]; try lia; try destruct j as [|[|j]]; try lia; cbn; lra).
  split; [exact C|]. assert (E : forall i, (i < 2)%nat -> nth i inverse 0 = 1/2) by (intros i Hi; symmetry; apply (inverse_volatility_is 2 (fun _ => 1) 0 (d_covariance d) (fun _ => 1/2) (1/2) C); auto; cbn; intros; lra).
  assert (E0 := E 0%nat ltac:(lia)). assert (E1 := E 1%nat ltac:(lia)). unfold weights_ok. cbn [d_min_weights d_max_weights d_max_long d_max_short d_min_budget d_max_budget d_budget d_left_inequality d_max_turnover d pair_example opt d_prior pair_prior n_assets].
  repeat split; try discriminate; try constructor; intros; try (rewrite E by assumption; lra). cbn [seq]. rewrite !so_cons, so_nil, E0, E1. lra.
Qed.
(** the same assets: the minimum of the variance *)
Example C98_variance_applies : let q := utility_example true None 0 0 10 in let cov : nat -> vec := fun i j => if (i =? j)%nat then 1 else 0 in
  0 < scale (settings_ q) /\ 0 < scale_objective_ q /\ costs_ok (settings_ q) /\ accepted no_float q [] /\ is_mip (n_assets (prior_ q)) (params_ q) = false /\ risk_measure_ q = VARIANCE /\ objective_ q = MINIMIZE_RISK
  /\ l1_ q = 0 /\ l2_ q = 0 /\ budget (params_ q) = Some 1 /\ is_cholesky (prior_ q) cov /\ constant_correlation (n_assets (prior_ q)) (fun _ => 1) 0 cov /\ optimal no_float q (share_point (1/2))
  /\ allowed no_float q [] (fun i => 1 * (1 / 1 ^ 2) / sum_over (seq 0 2) (fun _ => 1 / 1 ^ 2)).
Proof.
  intros q cov. repeat match goal with |- _ /\ _ => split end; try reflexivity; try (cbn; lra); try (intros i; cbn; lra).
  - apply share_accepted. exact I.
  - intros i j Hi Hj. cbn in Hi, Hj. destruct i as [|[|i]], j as [|[|j]]; try lia; cbn; lra.
  - split; intros i; [|intros j]; cbn; intros; destruct i as [|[|i]]; try lia; try destruct j as [|[|j]]; try lia; cbn; lra.
  - apply share_optimal; try exact I; try lra. intros w Hw _. unfold share_gain. assert (0 <= (w - 1/2) ^ 2) by apply pow2_ge_0. nra.
  - assert (E : 1 * (1 / 1 ^ 2) / sum_over (seq 0 2) (fun _ => 1 / 1 ^ 2) = 1/2) by (cbn; field). rewrite E.
    unfold allowed, documented, turnover_ok, tracking_ok, limits_ok. cbn. repeat split; try discriminate; try constructor; intros; try lra.
Qed.
(** a correlation of one half: the equal weights of three assets *)
Example C98_equal_weighted_applies : let cov : nat -> vec := fun i j => if (i =? j)%nat then 2 ^ 2 else 1/2 * 2 * 2 in
  constant_correlation 3 (fun _ => 2) (1/2) cov /\ forall i, (i < 3)%nat -> nth i (inverse_volatility (variances 3 cov)) 0 = 1/3.
Proof.
  intros cov. assert (C : constant_correlation 3 (fun _ => 2) (1/2) cov) by (split; intros; [lra|unfold cov; destruct (i =? j)%nat; reflexivity]). split; [exact C|].
  intros i Hi. rewrite (proj1 (C98_equal_weighted 3 (fun _ => 2) 2 (1/2) cov C (fun _ _ => eq_refl)) i Hi). destruct i as [|[|[|i]]]; [| | |lia]; cbn; field.
Qed.
Example C98_two_assets_applies : let cov : nat -> vec := fun i j => if (i =? j)%nat then two 1 16 i else 0 in
  n_assets (rb_prior equal_budgets) = 2%nat /\ 0 < cov 0%nat 0%nat /\ 0 < cov 1%nat 1%nat /\ cov 0%nat 1%nat < sqrt (cov 0%nat 0%nat) * sqrt (cov 1%nat 1%nat).
Proof.
  intros cov. split; [reflexivity|]. split; [cbn; lra|]. split; [cbn; lra|]. change (cov 0%nat 1%nat) with 0. apply Rmult_lt_0_compat; apply sqrt_lt_R0; cbn; lra.
Qed.
