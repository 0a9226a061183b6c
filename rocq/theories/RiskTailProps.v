(** C35, continued: standard deviation, EVaR, drawdown measures, EDaR and Gini mean difference. *)
From Coq Require Import List Arith Reals Lia Lra Permutation Sorting.Sorted.
From Verif Require Import RList MeasuresModel MeasuresProofs MeasuresProps DrawdownProps ConvexModel ConvexProps RiskModel RiskProps.
Import ListNotations.
Local Open Scope R_scope.

(** * Standard deviation and variance *)
Definition is_cholesky (pm : prior) (cov : nat -> vec) : Prop :=
  forall i j, (i < n_assets pm)%nat -> (j < n_assets pm)%nat ->
    cov i j = sum_over (seq 0 (n_assets pm)) (fun k => cholesky pm i k * cholesky pm j k).
Definition quadratic (pm : prior) (cov : nat -> vec) (w : vec) : R :=
  sum_over (seq 0 (n_assets pm)) (fun i => sum_over (seq 0 (n_assets pm)) (fun j => w i * cov i j * w j)).
Definition sample_covariance (pm : prior) (cov : nat -> vec) : Prop :=
  forall i j, (i < n_assets pm)%nat -> (j < n_assets pm)%nat ->
    cov i j = sum_over (seq 0 (n_obs pm)) (fun t => (returns pm t i - mu pm i) * (returns pm t j - mu pm j)) / (INR (n_obs pm) - 1).
Lemma so_square {A} (g : A -> R) l : sum_over l g ^ 2 = sum_over l (fun i => sum_over l (fun j => g i * g j)).
Proof. rewrite (so_ext (fun i => sum_over l (fun j => g i * g j)) (fun i => g i * sum_over l g)) by (intros; apply so_scal). rewrite so_scal_r. ring. Qed.
Lemma quadratic_squares pm cov w (q : nat -> vec) ks : (forall i j, (i < n_assets pm)%nat -> (j < n_assets pm)%nat -> cov i j = sum_over ks (fun k => q i k * q j k)) ->
  quadratic pm cov w = sum_over ks (fun k => sum_over (seq 0 (n_assets pm)) (fun i => q i k * w i) ^ 2).
Proof.
  intros H. unfold quadratic. rewrite (so_ext (fun k => sum_over (seq 0 (n_assets pm)) (fun i => q i k * w i) ^ 2) (fun k => sum_over (seq 0 (n_assets pm)) (fun i => sum_over (seq 0 (n_assets pm)) (fun j => q i k * w i * (q j k * w j)))) ks) by (intros k _; apply so_square).
  symmetry. rewrite so_swap. apply so_ext. intros i Hi. rewrite so_swap. apply so_ext. intros j Hj. apply in_seq in Hi, Hj. rewrite H by lia.
  replace (w i * sum_over ks (fun k => q i k * q j k) * w j) with ((w i * w j) * sum_over ks (fun k => q i k * q j k)) by ring. rewrite <- so_scal. apply so_ext. intros; ring.
Qed.
Theorem C35_standard_deviation : forall pm st w cov, 0 < scale st -> is_cholesky pm cov ->
  minimum (feasible_risk pm st STANDARD_DEVIATION w 1) (risk_value pm st STANDARD_DEVIATION w 1) (sqrt (quadratic pm cov w))
  /\ minimum (feasible_risk pm st VARIANCE w 1) (risk_value pm st VARIANCE w 1) (quadratic pm cov w)
  /\ ((2 <= n_obs pm)%nat -> sample_mean pm -> sample_covariance pm cov -> quadratic pm cov w = variance (gross pm w)).
Proof.
  intros pm st w cov Hs Hc. set (q := quadratic pm cov w).
  assert (Eq: q = sum_over (seq 0 (n_assets pm)) (fun k => sum_over (seq 0 (n_assets pm)) (fun i => cholesky pm i k * w i) ^ 2)) by (apply quadratic_squares; auto).
  assert (Hq: 0 <= q) by (rewrite Eq; apply so_nonneg; intros; apply pow2_ge_0).
  assert (F: forall a, Forall holds_at [Le 0 (u a); Le (sqrt (sumn (n_assets pm) (fun k => (sumn (n_assets pm) (fun i => cholesky pm i k * w i) * scale st) ^ 2))) (u a * scale st)] <-> sqrt q <= u a).
  { intros a. assert (Es: sqrt (sumn (n_assets pm) (fun k => (sumn (n_assets pm) (fun i => cholesky pm i k * w i) * scale st) ^ 2)) = sqrt q * scale st).
    { unfold sumn. rewrite (so_ext (fun k => (sum_over (seq 0 (n_assets pm)) (fun i => cholesky pm i k * w i) * scale st) ^ 2) (fun k => sum_over (seq 0 (n_assets pm)) (fun i => cholesky pm i k * w i) ^ 2 * (scale st)^2) (seq 0 (n_assets pm))) by (intros; ring).
      rewrite so_scal_r, <- Eq. rewrite sqrt_mult by (auto; apply pow2_ge_0). rewrite sqrt_pow2 by lra. reflexivity. }
    rewrite Es. pose proof (sqrt_pos q). split.
    - intros H1. inversion H1 as [|? ? _ H2]; subst. inversion H2 as [|? ? H3 _]; subst. cbn [holds_at] in *. nra.
    - intros H1. constructor; [cbn; lra|constructor; [cbn; nra|constructor]]. }
  set (a0 := {| alpha := 0; u := sqrt q; ex := 0; ey := 0; v := fun _ => 0; z := fun _ => 0; gx := fun _ => 0; gy := fun _ => 0; dd := fun _ => 0 |}).
  assert (F0: sqrt q <= u a0) by apply Rle_refl.
  split; [|split].
  - split; [exists a0; split; [apply F; auto|reflexivity]|]. intros a Ha. apply F in Ha. exact Ha.
  - split; [exists a0; split; [apply F; auto|]|].
    + cbn [risk_value a0 u]. rewrite <- Rsqr_pow2. apply Rsqr_sqrt. auto.
    + intros a Ha. apply F in Ha. cbn [risk_value]. rewrite <- (Rsqr_sqrt q) by auto. rewrite Rsqr_pow2. apply sq_mono; auto. apply sqrt_pos.
  - intros HT Hm He. assert (HI: 0 < INR (n_obs pm) - 1) by (apply le_INR in HT; cbn in HT; lra).
    unfold q. rewrite (quadratic_squares pm cov w (fun i t => (returns pm t i - mu pm i) / sqrt (INR (n_obs pm) - 1)) (seq 0 (n_obs pm))).
    + unfold variance, len. rewrite gross_spec, so_map, map_seq_length, <- gross_spec, mean_gross by auto. unfold Rdiv. rewrite <- so_scal_r. apply so_ext. intros t _.
      unfold ptf_returns, sumn. rewrite <- so_sub.
      rewrite (so_ext (fun i => (returns pm t i - mu pm i) * / sqrt (INR (n_obs pm) - 1) * w i) (fun i => (returns pm t i * w i - mu pm i * w i) * / sqrt (INR (n_obs pm) - 1))) by (intros; ring).
      rewrite so_scal_r, Rpow_mult_distr. f_equal. rewrite pow_inv. f_equal. rewrite <- Rsqr_pow2. apply Rsqr_sqrt. lra.
    + intros i j Hi Hj. rewrite He by auto. unfold Rdiv at 1. rewrite <- so_scal_r. apply so_ext. intros t _. unfold Rdiv.
      rewrite <- (Rsqr_sqrt (INR (n_obs pm) - 1)) at 1 by lra. unfold Rsqr. rewrite Rinv_mult. ring.
Qed.
Print Assumptions C35_standard_deviation.

(** * EVaR *)
(** the value at a given y: the entropic risk measure for y > 0, the worst realisation for y = 0 *)
Definition entropic_or_worst (r : list R) (y beta : R) : R :=
  if Rlt_dec 0 y then entropic_risk_measure r y beta else worst_realization r.
Lemma exp_sum_pos n (g : vec) : (0 < n)%nat -> 0 < sumn n (fun t => exp (g t)).
Proof.
  intros H. destruct n; [lia|]. unfold sumn. cbn [seq]. rewrite so_cons. pose proof (exp_pos (g 0%nat)).
  assert (0 <= sum_over (seq 1 n) (fun t => exp (g t))) by (apply so_nonneg; intros; left; apply exp_pos). lra.
Qed.
Lemma erm_sum (r : vec) n y beta : (0 < n)%nat -> 0 <= beta < 1 -> 0 < y ->
  entropic_risk_measure (map r (seq 0 n)) y beta = y * ln (sumn n (fun t => exp (- r t / y))) + y * ln (1 / (INR n * (1 - beta))).
Proof.
  intros Hn Hb Hy. assert (HI: 0 < INR n) by (apply lt_0_INR; auto). unfold entropic_risk_measure, mean, len. rewrite !map_length, seq_length. rewrite map_map, <- so_id, so_map.
  rewrite <- Rmult_plus_distr_l, <- ln_mult.
  - f_equal. f_equal. unfold sumn. field. split; lra.
  - apply exp_sum_pos. auto.
  - unfold Rdiv. rewrite Rmult_1_l. apply Rinv_0_lt_compat. apply Rmult_lt_0_compat; lra.
Qed.
Lemma cone_sum (L : vec) n x y : 0 < y -> sumn n (fun t => y * exp ((L t - x) / y)) = y * (sumn n (fun t => exp (L t / y)) * exp (- x / y)).
Proof.
  intros Hy. unfold sumn. rewrite so_scal. f_equal. rewrite <- so_scal_r. apply so_ext. intros t _. rewrite <- exp_plus. f_equal. field. lra.
Qed.
Definition evar_aux (y x : R) (q : vec) (d : vec) : aux := {| alpha := 0; u := 0; ex := x; ey := y; v := fun _ => 0; z := q; gx := fun _ => 0; gy := fun _ => 0; dd := d |}.
(** [L] are the losses *)
Definition entropic_feasible (s : R) (n : nat) (L : vec) (x y : R) (q : vec) : Prop :=
  0 <= y /\ sumn n q * s <= y * s /\ forall t, (t < n)%nat -> holds_at (ExpCone (L t * s - x * s) (y * s) (q t * s)).
Lemma entropic_epigraph s n (L : vec) beta : 0 < s -> (0 < n)%nat -> 0 <= beta < 1 -> forall y, 0 <= y ->
  (exists x q, entropic_feasible s n L x y q /\ x + y * ln (1 / (INR n * (1 - beta))) = entropic_or_worst (map (fun t => - L t) (seq 0 n)) y beta)
  /\ (forall x q, entropic_feasible s n L x y q -> entropic_or_worst (map (fun t => - L t) (seq 0 n)) y beta <= x + y * ln (1 / (INR n * (1 - beta)))).
Proof.
  intros Hs Hn Hb y Hy. unfold entropic_or_worst. destruct (Rlt_dec 0 y) as [Hp|Hz].
  - rewrite erm_sum by auto. set (S := sumn n (fun t => exp (- - L t / y))). assert (HS: 0 < S) by (apply exp_sum_pos; auto).
    assert (ES: S = sumn n (fun t => exp (L t / y))) by (apply sumn_ext; intros; rewrite Ropp_involutive; reflexivity). split.
    + set (x := y * ln S). exists x, (fun t => y * exp ((L t - x) / y)). split; [|unfold x; ring]. split; [lra|split].
      * rewrite cone_sum, <- ES by auto. replace (exp (- x / y)) with (/ S); [rewrite Rinv_r by lra; lra|].
        unfold x. replace (- (y * ln S) / y) with (- ln S) by (field; lra). rewrite exp_Ropp, exp_ln by auto. reflexivity.
      * intros t _. cbn. left. split; [apply Rmult_lt_0_compat; auto|]. replace ((L t * s - x * s) / (y * s)) with ((L t - x) / y) by (field; lra). apply Req_le. ring.
    + intros x q (_&H1&H2). assert (A: y * (S * exp (- x / y)) <= y).
      { rewrite ES, <- cone_sum by auto. apply Rle_trans with (sumn n q); [|nra]. apply sumn_le. intros t Ht. destruct (H2 t Ht) as [[_ H3]|[H3 _]]; [|nra].
        replace ((L t * s - x * s) / (y * s)) with ((L t - x) / y) in H3 by (field; lra). nra. }
      assert (B: S <= exp (x / y)).
      { assert (S * exp (- x / y) <= 1) by nra. replace (x / y) with (- (- x / y)) by (field; lra). rewrite exp_Ropp. pose proof (exp_pos (- x / y)).
        apply Rmult_le_reg_r with (exp (- x / y)); auto. rewrite Rinv_l by lra. auto. }
      assert (C: ln S <= x / y). { rewrite <- (ln_exp (x / y)). destruct B as [B|B]; [left; apply ln_increasing; auto|rewrite B; lra]. }
      apply Rplus_le_compat_r. replace x with (y * (x / y)) at 1 by (field; lra). apply Rmult_le_compat_l; lra.
  - assert (y = 0) by lra. subst y. rewrite !Rmult_0_l. set (l := map (fun t => - L t) (seq 0 n)).
    assert (Hl: l <> []) by (unfold l; destruct n; [lia|discriminate]). destruct (minR_spec l Hl) as [A B]. unfold worst_realization. split.
    + exists (- minR l), (fun _ => 0). split; [|ring]. split; [lra|split].
      * unfold sumn. rewrite so_zero by auto. lra.
      * intros t Ht. cbn. right. split; [ring|split; [|lra]]. specialize (B _ (in_map (fun t => - L t) _ t (in_seq0 t n Ht))). cbn in B. nra.
    + intros x q (_&_&H). unfold l in A at 1. apply in_map_iff in A as (t&Et&Ht). apply in_seq in Ht. fold l in Et. rewrite <- Et. destruct (H t ltac:(lia)) as [[H1 _]|(_&H1&_)]; [nra|].
      rewrite Ropp_involutive. nra.
Qed.
Lemma net_loss pm st w : net_of_fees pm st w = map (fun t => - (- ptf_returns pm w t + fee pm st w)) (seq 0 (n_obs pm)).
Proof. rewrite net_of_fees_spec. apply map_ext. intros; ring. Qed.
(** transaction costs do not enter the EVaR of the optimiser: [net_of_fees] *)
Theorem C35_evar : forall pm st w, 0 < scale st -> (0 < n_obs pm)%nat -> 0 <= evar_beta st < 1 ->
  (forall a, feasible_risk pm st EVAR w 1 a -> 0 <= ey a)
  /\ forall y, 0 <= y ->
    minimum (fun a => feasible_risk pm st EVAR w 1 a /\ ey a = y) (risk_value pm st EVAR w 1) (entropic_or_worst (net_of_fees pm st w) y (evar_beta st)).
Proof.
  intros pm st w Hs HT Hb.
  assert (F: forall a, feasible_risk pm st EVAR w 1 a <-> entropic_feasible (scale st) (n_obs pm) (fun t => - ptf_returns pm w t + fee pm st w) (ex a) (ey a) (z a)).
  { intros a. unfold feasible_risk, entropic_feasible. cbn [risk_constraints]. rewrite Forall_app, elementwise_holds.
    assert (G: forall t, (- ptf_returns pm w t * scale st + fee pm st w * scale st) = (- ptf_returns pm w t + fee pm st w) * scale st) by (intros; ring). split.
    - intros [H1 H2]. inversion H1 as [|? ? H3 H4]; subst. inversion H4 as [|? ? H5 _]; subst. cbn [holds_at] in H3, H5. split; auto. split; auto. intros t Ht. rewrite <- G. auto.
    - intros (H1&H2&H3). split; [constructor; [auto|constructor; auto]|]. intros t Ht. rewrite G. auto. }
  split; [intros a Ha; apply F in Ha; apply Ha|]. intros y Hy. rewrite net_loss.
  destruct (entropic_epigraph (scale st) (n_obs pm) (fun t => - ptf_returns pm w t + fee pm st w) (evar_beta st) Hs HT Hb y Hy) as [(x&q&A&B) C]. split.
  - exists (evar_aux y x q (fun _ => 0)). split; [split; [apply F; exact A|reflexivity]|exact B].
  - intros a [Ha Ea]. apply F in Ha. rewrite Ea in Ha. cbn [risk_value]. rewrite Ea. apply (C (ex a) (z a)). exact Ha.
Qed.
Print Assumptions C35_evar.

(** * Drawdowns *)
(** the smallest drawdown vector *)
Fixpoint smallest (r : vec) (t : nat) : R := match t with O => 0 | S t => Rmax 0 (smallest r t - r t) end.
Lemma maxR_snoc l x : l <> [] -> maxR (l ++ [x]) = Rmax (maxR l) x.
Proof. destruct l as [|y l]; [congruence|]. intros _. cbn [app maxR]. rewrite fold_left_app. reflexivity. Qed.
Lemma smallest_drawdown (r : vec) n t : (t < n)%nat -> smallest r (S t) = drawdown_from_start (map r (seq 0 n)) t.
Proof.
  intros Ht. set (l := map r (seq 0 n)).
  assert (Hs: forall k, (k < n)%nat -> rsum (firstn (S k) l) = rsum (firstn k l) + r k).
  { intros k Hk. assert (E: firstn (S k) l = firstn k l ++ [r k]).
    { unfold l. rewrite !firstn_map. replace (firstn (S k) (seq 0 n)) with (firstn k (seq 0 n) ++ [k]); [rewrite map_app; reflexivity|].
      assert (G: forall m a b, (b < m)%nat -> firstn (S b) (seq a m) = firstn b (seq a m) ++ [(a + b)%nat]).
      { induction m; intros a b Hb; [lia|]. destruct b; cbn [seq firstn app]; [rewrite Nat.add_0_r; reflexivity|]. f_equal.
        specialize (IHm (S a) b ltac:(lia)). cbn [firstn] in IHm. rewrite IHm. do 2 f_equal. lia. }
      symmetry. apply (G n 0%nat k Hk). }
    rewrite E, rsum_app, rsum_cons. change (rsum []) with 0. ring. }
  assert (P: forall k, (k <= n)%nat -> smallest r k = maxR (map (fun j => rsum (firstn j l)) (seq 0 (S k))) - rsum (firstn k l)).
  { induction k; intros Hk.
    - cbn. ring.
    - cbn [smallest]. rewrite IHk by lia. rewrite (seq_S (S k)), map_app. cbn [map]. rewrite maxR_snoc by discriminate. cbn [Nat.add].
      rewrite Hs by lia. set (M := maxR _). unfold Rmax. destruct (Rle_dec 0 _), (Rle_dec M _); lra. }
  rewrite P by lia. reflexivity.
Qed.
Section Drawdown.
  Variable pm : prior.
  Variable st : settings.
  Variable w : vec.
  Hypothesis Hs : 0 < scale st.
  Hypothesis HT : (0 < n_obs pm)%nat.
  Hypothesis Hc : costs_ok st.
  Let r : vec := fun t => ptf_returns pm w t - cost pm st w 1 - fee pm st w.
  Let d := drawdowns_from_start (net pm st w).
  Lemma dd_constraints a : Forall holds_at (drawdown_constraints pm st w 1 a) <->
    dd a 0%nat = 0 /\ forall t, (t < n_obs pm)%nat -> 0 <= dd a (S t) /\ dd a t - r t <= dd a (S t).
  Proof.
    unfold drawdown_constraints. rewrite !Forall_app, !elementwise_holds. cbn [holds_at]. split.
    - intros (H1&H2&H3). inversion H3 as [|? ? H4 _]; subst. cbn [holds_at] in H4. split; [nra|]. intros t Ht. specialize (H1 t Ht). specialize (H2 t Ht). unfold r. split; nra.
    - intros (H1&H2). split; [|split]; [intros t Ht; destruct (H2 t Ht) as [_ H3]; unfold r in H3; nra|intros t Ht; destruct (H2 t Ht); nra|constructor; [cbn [holds_at]; rewrite H1; ring|constructor]].
  Qed.
  Lemma dd_smallest a : Forall holds_at (drawdown_constraints pm st w 1 a) -> forall t, (t <= n_obs pm)%nat -> smallest r t <= dd a t.
  Proof.
    intros H. apply dd_constraints in H as [H0 H]. induction t; intros Ht; cbn [smallest]; [lra|]. specialize (IHt ltac:(lia)). destruct (H t ltac:(lia)). apply Rmax_lub; lra.
  Qed.
  Lemma dd_attained a : (forall t, dd a t = smallest r t) -> Forall holds_at (drawdown_constraints pm st w 1 a).
  Proof.
    intros H. apply dd_constraints. split; [rewrite H; reflexivity|]. intros t Ht. rewrite !H. cbn [smallest]. split; [apply Rmax_l|apply Rmax_r].
  Qed.
  Lemma d_eq : d = map (fun t => - smallest r (S t)) (seq 0 (n_obs pm)).
  Proof.
    unfold d. rewrite net_spec by exact Hc. fold r. unfold drawdowns_from_start. rewrite map_seq_length. apply map_ext_in. intros t Ht. apply in_seq in Ht.
    rewrite (smallest_drawdown r (n_obs pm)) by lia. reflexivity.
  Qed.
  Lemma smallest_nonneg t : 0 <= smallest r t. Proof. destruct t; cbn; [lra|apply Rmax_l]. Qed.
  Lemma d_ne : d <> []. Proof. rewrite d_eq. destruct (n_obs pm); [lia|discriminate]. Qed.
  Lemma d_nonpos x : In x d -> x <= 0.
  Proof. rewrite d_eq. intros H. apply in_map_iff in H as (t&<-&_). pose proof (smallest_nonneg (S t)). lra. Qed.
  Definition dd_aux (al uu : R) (q : vec) : aux := {| alpha := al; u := uu; ex := 0; ey := 0; v := fun _ => 0; z := q; gx := fun _ => 0; gy := fun _ => 0; dd := smallest r |}.
  Lemma average_min p (Hp : partition_ok p) : minimum (feasible_risk pm st AVERAGE_DRAWDOWN w 1) (risk_value pm st AVERAGE_DRAWDOWN w 1) (average_drawdown p d).
  Proof.
    destruct (C13_drawdown_ordering p Hp d 0 d_ne d_nonpos ltac:(lra)) as [E _]. rewrite E, d_eq.
    unfold mean, len. rewrite map_seq_length, <- so_id, so_map, so_opp. replace (- (- sum_over (seq 0 (n_obs pm)) (fun t => smallest r (S t)) / INR (n_obs pm))) with (sumn (n_obs pm) (fun t => smallest r (S t)) / INR (n_obs pm)) by (unfold sumn, Rdiv; ring).
    split; [exists (dd_aux 0 0 (fun _ => 0)); split; [apply dd_attained; reflexivity|reflexivity]|]. intros a Ha. cbn [risk_value].
    apply Rmult_le_compat_r; [left; apply Rinv_0_lt_compat, lt_0_INR; exact HT|]. apply sumn_le. intros t Ht. apply dd_smallest; [exact Ha|lia].
  Qed.
  Lemma max_min p (Hp : partition_ok p) : minimum (feasible_risk pm st MAX_DRAWDOWN w 1) (risk_value pm st MAX_DRAWDOWN w 1) (max_drawdown p d).
  Proof.
    rewrite (max_drawdown_min p Hp d d_ne). destruct (minR_spec d d_ne) as [A B]. split.
    - exists (dd_aux 0 (- minR d) (fun _ => 0)). split; [|reflexivity]. unfold feasible_risk. cbn [risk_constraints]. rewrite Forall_app, elementwise_holds. split; [apply dd_attained; reflexivity|].
      intros t Ht. cbn [holds_at dd_aux dd u]. assert (G: In (- smallest r (S t)) d) by (rewrite d_eq; apply (in_map (fun t => - smallest r (S t))), in_seq0; auto). specialize (B _ G). nra.
    - intros a Ha. unfold feasible_risk in Ha. cbn [risk_constraints] in Ha. rewrite Forall_app, elementwise_holds in Ha. destruct Ha as [H1 H2]. cbn [risk_value].
      rewrite d_eq in A at 2. apply in_map_iff in A as (t&Et&Ht). apply in_seq in Ht. rewrite <- Et. specialize (H2 t ltac:(lia)). cbn [holds_at] in H2. pose proof (dd_smallest a H1 (S t) ltac:(lia)). nra.
  Qed.
  Lemma ulcer_min : minimum (feasible_risk pm st ULCER_INDEX w 1) (risk_value pm st ULCER_INDEX w 1) (ulcer_index d).
  Proof.
    assert (HI: 0 < INR (n_obs pm)) by (apply lt_0_INR; exact HT).
    assert (E: ulcer_index d = sqrt (sumn (n_obs pm) (fun t => smallest r (S t) ^ 2)) / sqrt (INR (n_obs pm))).
    { unfold ulcer_index, len. rewrite d_eq, map_seq_length, so_map. rewrite <- sqrt_div; [|apply so_nonneg; intros; apply pow2_ge_0|auto]. f_equal. f_equal. apply so_ext. intros; ring. }
    rewrite E. split; [exists (dd_aux 0 0 (fun _ => 0)); split; [apply dd_attained; reflexivity|reflexivity]|]. intros a Ha. cbn [risk_value].
    apply Rmult_le_compat_r; [left; apply Rinv_0_lt_compat, sqrt_lt_R0; auto|]. apply sqrt_le_1_alt, sumn_le. intros t Ht. apply sq_mono; [apply smallest_nonneg|apply dd_smallest; [exact Ha|lia]].
  Qed.
  Lemma cdar_min p (Hp : partition_ok p) : 0 <= cdar_beta st < 1 -> minimum (feasible_risk pm st CDAR w 1) (risk_value pm st CDAR w 1) (cdar p d (cdar_beta st)).
  Proof.
    intros Hb. unfold cdar. rewrite d_eq. destruct (cvar_epigraph p Hp (fun t => - smallest r (S t)) (n_obs pm) (cdar_beta st) HT Hb) as [A B]. split.
    - set (al := value_at_risk _ _ _) in B. exists (dd_aux al 0 (fun t => Rmax (- - smallest r (S t) - al) 0)). split; [|exact B].
      unfold feasible_risk. cbn [risk_constraints]. unfold nonneg. rewrite !Forall_app, !elementwise_holds. cbn [holds_at dd_aux z dd alpha]. split; [intros; apply Rmax_r|split; [apply dd_attained; reflexivity|]].
      intros t Ht. pose proof (Rmax_l (- - smallest r (S t) - al) 0) as G. rewrite Ropp_involutive in *. nra.
    - intros a Ha. unfold feasible_risk in Ha. cbn [risk_constraints] in Ha. unfold nonneg in Ha. rewrite !Forall_app, !elementwise_holds in Ha. destruct Ha as (H1&H2&H3). cbn [holds_at] in *.
      apply (A (alpha a) (z a)); auto. intros t Ht. specialize (H3 t Ht). pose proof (dd_smallest a H2 (S t) ltac:(lia)). nra.
  Qed.
  Lemma edar_min y : 0 <= edar_beta st < 1 -> 0 <= y ->
    minimum (fun a => feasible_risk pm st EDAR w 1 a /\ ey a = y) (risk_value pm st EDAR w 1) (entropic_or_worst d y (edar_beta st)).
  Proof.
    intros Hb Hy. rewrite d_eq.
    assert (F: forall a, feasible_risk pm st EDAR w 1 a <-> Forall holds_at (drawdown_constraints pm st w 1 a) /\ entropic_feasible (scale st) (n_obs pm) (fun t => dd a (S t)) (ex a) (ey a) (z a)).
    { intros a. unfold feasible_risk, entropic_feasible. cbn [risk_constraints]. rewrite !Forall_app, elementwise_holds. split.
      - intros (H1&H2&H3&H4). inversion H1 as [|? ? H5 _]; subst. inversion H3 as [|? ? H6 _]; subst. cbn [holds_at] in H5, H6. auto.
      - intros (H1&H2&H3&H4). split; [constructor; auto|split; [auto|split; [constructor; auto|auto]]]. }
    destruct (entropic_epigraph (scale st) (n_obs pm) (fun t => smallest r (S t)) (edar_beta st) Hs HT Hb y Hy) as [(x&q&A&B) C]. split.
    - exists (evar_aux y x q (smallest r)). split; [split; [apply F; split; [apply dd_attained; reflexivity|exact A]|reflexivity]|exact B].
    - intros a [Ha Ea]. apply F in Ha as [H1 H2]. rewrite Ea in H2. cbn [risk_value]. rewrite Ea. apply (C (ex a) (z a)). destruct H2 as (H2&H3&H4). split; [auto|split; [auto|]].
      intros t Ht. pose proof (dd_smallest a H1 (S t) ltac:(lia)) as G. destruct (H4 t Ht) as [[H5 H6]|(H5&H6&H7)]; cbn [holds_at]; [left|right].
      + split; auto. eapply Rle_trans; [|exact H6]. apply Rmult_le_compat_l; [lra|].
        assert (E: (smallest r (S t) * scale st - ex a * scale st) / (y * scale st) <= (dd a (S t) * scale st - ex a * scale st) / (y * scale st)).
        { apply Rmult_le_compat_r; [left; apply Rinv_0_lt_compat; auto|]. nra. }
        destruct E as [E|E]; [left; apply exp_increasing; auto|rewrite E; lra].
      + split; auto. split; auto. nra.
  Qed.
End Drawdown.
Theorem C35_drawdowns : forall p, partition_ok p -> forall pm st w, 0 < scale st -> (0 < n_obs pm)%nat -> costs_ok st ->
  let d := drawdowns_from_start (net pm st w) in
  minimum (feasible_risk pm st AVERAGE_DRAWDOWN w 1) (risk_value pm st AVERAGE_DRAWDOWN w 1) (average_drawdown p d)
  /\ minimum (feasible_risk pm st MAX_DRAWDOWN w 1) (risk_value pm st MAX_DRAWDOWN w 1) (max_drawdown p d)
  /\ minimum (feasible_risk pm st ULCER_INDEX w 1) (risk_value pm st ULCER_INDEX w 1) (ulcer_index d)
  /\ (0 <= cdar_beta st < 1 -> minimum (feasible_risk pm st CDAR w 1) (risk_value pm st CDAR w 1) (cdar p d (cdar_beta st)))
  /\ (0 <= edar_beta st < 1 -> forall y, 0 <= y ->
       minimum (fun a => feasible_risk pm st EDAR w 1 a /\ ey a = y) (risk_value pm st EDAR w 1) (entropic_or_worst d y (edar_beta st))).
Proof.
  intros p Hp pm st w Hs HT Hc d. split; [|split; [|split; [|split]]].
  - apply average_min; auto.
  - apply max_min; auto.
  - apply ulcer_min; auto.
  - intros. apply cdar_min; auto.
  - intros. apply edar_min; auto.
Qed.
Print Assumptions C35_drawdowns.
(** the drawdowns of the measures start from the wealth after the first observation: the same series as soon as the first
    return is not negative, and one that is at least as high in general *)
Theorem C35_drawdowns_of_measures : forall x r,
  (0 <= x -> drawdowns_from_start (x :: r) = get_drawdowns (x :: r) false)
  /\ Forall2 Rle (drawdowns_from_start (x :: r)) (get_drawdowns (x :: r) false).
Proof.
  intros x r. set (l := x :: r).
  assert (Ll: length (drawdowns_from_start l) = length (get_drawdowns l false)) by (unfold drawdowns_from_start; rewrite map_seq_length, drawdowns_length; reflexivity).
  assert (M: forall t, (t < length l)%nat -> nth t (drawdowns_from_start l) 0 = nth t (get_drawdowns l false) 0 - Rmax 0 (- maxR (firstn (S t) (get_cumulative_returns l false)))).
  { intros t Ht. unfold drawdowns_from_start. rewrite nth_mapR by auto. rewrite drawdowns_nth by auto. cbv zeta.
    rewrite cumulative_nth_simple by auto. unfold drawdown_from_start.
    set (c := get_cumulative_returns l false). assert (Lc: length c = length l) by apply cumulative_length.
    assert (E: firstn (S t) c = map (fun k => rsum (firstn (S k) l)) (seq 0 (S t))).
    { apply (nth_ext _ _ 0 0); [rewrite firstn_length, map_seq_length; lia|]. intros k Hk. rewrite firstn_length in Hk. rewrite nth_mapR by lia.
      rewrite <- cumulative_nth_simple by lia. fold c. rewrite <- (firstn_skipn (S t) c) at 2. rewrite app_nth1 by (rewrite firstn_length; lia). reflexivity. }
    rewrite E. change (seq 0 (S (S t))) with (0%nat :: seq 1 (S t)). rewrite <- seq_shift. cbn [map]. rewrite map_map.
    set (cs := map (fun k => rsum (firstn (S k) l)) (seq 0 (S t))). change (rsum (firstn 0 l)) with 0.
    assert (G: maxR (0 :: cs) = Rmax 0 (maxR cs)).
    { assert (Hcs: cs <> []) by discriminate. destruct (maxR_spec cs Hcs) as [A B]. destruct (maxR_spec (0 :: cs) ltac:(discriminate)) as [A' B']. apply Rle_antisym.
      - destruct A' as [<-|A']; [apply Rmax_l|]. eapply Rle_trans; [apply B; exact A'|apply Rmax_r].
      - apply Rmax_lub; apply B'; [left; auto|right; auto]. }
    rewrite G. unfold Rmax. destruct (Rle_dec 0 (maxR cs)), (Rle_dec 0 (- maxR cs)); lra. }
  assert (Ld: length (drawdowns_from_start l) = length l) by (unfold drawdowns_from_start; apply map_seq_length).
  split.
  - intros Hx. apply (nth_ext _ _ 0 0); auto. intros t Ht. rewrite M by lia. rewrite Rmax_left; [ring|].
    destruct (running_max (get_cumulative_returns l false) t) as [_ B]; [rewrite cumulative_length; lia|].
    specialize (B 0%nat ltac:(lia)). rewrite cumulative_nth_simple in B by (cbn; lia). replace (rsum (firstn 1 l)) with x in B by (unfold l; cbn; ring). lra.
  - assert (G: forall (a b : list R), length a = length b -> (forall t, (t < length a)%nat -> nth t a 0 <= nth t b 0) -> Forall2 Rle a b).
    { induction a as [|p a IH]; intros [|q b] HL H; try discriminate; constructor; [apply (H 0%nat); cbn; lia|apply IH; [cbn in HL; lia|]]. intros t Ht. apply (H (S t)). cbn; lia. }
    apply G; auto. intros t Ht. rewrite M by lia. pose proof (Rmax_l 0 (- maxR (firstn (S t) (get_cumulative_returns l false)))). lra.
Qed.
Print Assumptions C35_drawdowns_of_measures.
(** with a negative first return the two differ: one asset, one observation of -1/2 *)
Theorem C35_first_loss_refuted : exists r, forall p, partition_ok p ->
  max_drawdown p (drawdowns_from_start r) = 1/2 /\ max_drawdown p (get_drawdowns r false) = 0.
Proof.
  exists [-1/2]. intros p Hp. rewrite !(max_drawdown_min p Hp) by discriminate. unfold drawdowns_from_start, drawdown_from_start, get_drawdowns, get_cumulative_returns. cbn. split.
  - rewrite Rmax_left by lra. lra.
  - lra.
Qed.
Print Assumptions C35_first_loss_refuted.

(** * Gini mean difference *)
Lemma combine_sum (a b : list R) : length a = length b ->
  sum_over (combine a b) (fun p => fst p * snd p) = sumn (length a) (fun j => nth j a 0 * nth j b 0).
Proof.
  revert b. induction a as [|x a IH]; intros [|y b] HL; try discriminate; [reflexivity|]. cbn [combine length]. unfold sumn. cbn [seq]. rewrite !so_cons, IH by (cbn in HL; lia).
  unfold sumn. rewrite <- seq_shift, so_map. reflexivity.
Qed.
Theorem C35_gini_mean_difference : forall sort, sort_ok sort -> forall pm st w, 0 < scale st -> (2 <= n_obs pm)%nat -> costs_ok st ->
  minimum (feasible_risk pm st GINI_MEAN_DIFFERENCE w 1) (risk_value pm st GINI_MEAN_DIFFERENCE w 1) (gini_mean_difference sort (net pm st w)).
Proof.
  intros sort Hsort pm st w Hs HT Hc. rewrite net_spec by auto. set (r := fun t => ptf_returns pm w t - cost pm st w 1 - fee pm st w). set (n := n_obs pm) in *.
  set (l := sort (map r (seq 0 n))). destruct (Hsort (map r (seq 0 n))) as [P St]. fold l in P, St.
  assert (Ll: length l = n) by (rewrite <- (map_seq_length r n); apply Permutation_length; auto).
  assert (Lw: length (owa_gmd_weights n) = n) by (unfold owa_gmd_weights; rewrite map_length, seq_length; reflexivity).
  set (g := gmd_weight pm). assert (HI: 2 <= INR n) by (apply le_INR in HT; cbn in HT; lra).
  assert (Eg: forall j, (j < n)%nat -> nth j (owa_gmd_weights n) 0 = 2 * g j) by (intros; unfold g, gmd_weight; fold n; field).
  assert (Mg: forall i j, (i <= j < n)%nat -> g i <= g j).
  { intros i j Hij. unfold g, gmd_weight, owa_gmd_weights. fold n. apply Rmult_le_compat_r; [lra|].
    assert (V: forall k, (k < n)%nat -> nth k (map (fun i : nat => (4 * INR i - 2 * (INR n + 1)) / (INR n * (INR n - 1))) (seq 1 n)) 0 = (4 * INR (S k) - 2 * (INR n + 1)) / (INR n * (INR n - 1))).
    { intros k Hk. rewrite <- seq_shift, map_map. rewrite nth_mapR by auto. reflexivity. }
    rewrite !V by lia. apply Rmult_le_compat_r; [left; apply Rinv_0_lt_compat; nra|]. assert (INR (Datatypes.S i) <= INR (Datatypes.S j)) by (apply le_INR; lia). lra. }
  assert (Ml: forall i j, (i <= j < n)%nat -> nth i l 0 <= nth j l 0).
  { intros i j Hij. destruct (Nat.eq_dec i j) as [->|Hne]; [lra|]. apply sorted_nth; auto. lia. }
  assert (EV: gini_mean_difference sort (map r (seq 0 n)) = 2 * sumn n (fun j => nth j l 0 * g j)).
  { unfold gini_mean_difference. rewrite map_seq_length. fold l. rewrite combine_sum by lia. rewrite Lw. unfold sumn. rewrite <- so_scal. apply sumn_ext. intros j Hj. rewrite Eg by auto. ring. }
  destruct (Permutation_map_inv r (seq 0 n) P) as (sg&Esg&Psg).
  assert (Lsg: length sg = n) by (rewrite <- (seq_length n 0); symmetry; apply Permutation_length; auto).
  assert (Esum: forall h : R -> R, sumn n (fun t => h (r t)) = sumn n (fun j => h (nth j l 0))).
  { intros h. unfold sumn at 1. rewrite (so_perm _ _ _ Psg). rewrite <- (so_map r h), <- Esg.
    unfold sumn. rewrite <- (so_map (fun j => nth j l 0) h). f_equal. apply (nth_ext _ _ 0 0); [rewrite map_seq_length; auto|]. intros k Hk. rewrite nth_mapR by lia. reflexivity. }
  assert (F: forall a, feasible_risk pm st GINI_MEAN_DIFFERENCE w 1 a <-> (forall t, (t < n)%nat -> z a t = r t) /\ (forall i j, (i < n)%nat -> (j < n)%nat -> z a i * g j <= gx a j + gy a i)).
  { intros a. unfold feasible_risk. cbn [risk_constraints]. rewrite Forall_app, elementwise_holds. cbn [holds_at]. fold n. split.
    - intros [H1 H2]. split; [intros t Ht; specialize (H1 t Ht); unfold r; apply Rmult_eq_reg_r with (scale st); [rewrite <- H1; ring|lra]|].
      intros i j Hi Hj. rewrite Forall_flat_map, Forall_forall in H2. specialize (H2 i (in_seq0 i n Hi)). rewrite elementwise_holds in H2. apply (H2 j Hj).
    - intros [H1 H2]. split; [intros t Ht; rewrite H1 by auto; unfold r; ring|]. rewrite Forall_flat_map, Forall_forall. intros i Hi. apply in_seq in Hi. rewrite elementwise_holds. intros j Hj. cbn [holds_at]. apply H2; lia. }
  rewrite EV. split.
  - set (Y := fun j => sumn j (fun k => (nth (S k) l 0 - nth k l 0) * g k)). set (X := fun j => nth j l 0 * g j - Y j).
    assert (YS: forall j, Y (Datatypes.S j) = Y j + (nth (Datatypes.S j) l 0 - nth j l 0) * g j).
    { intros j. unfold Y, sumn. rewrite seq_S, so_app, so_cons. change (sum_over [] (fun k => (nth (S k) l 0 - nth k l 0) * g k)) with 0. cbn [Nat.add]. ring. }
    assert (Up: forall k i, (i + k < n)%nat -> (nth (i + k) l 0 - nth i l 0) * g i <= Y (i + k)%nat - Y i).
    { induction k; intros i Hk; [rewrite Nat.add_0_r; lra|]. rewrite Nat.add_succ_r, YS. specialize (IHk i ltac:(lia)).
      assert (A: g i <= g (i + k)%nat) by (apply Mg; lia). assert (B: nth (i + k) l 0 <= nth (Datatypes.S (i + k)) l 0) by (apply Ml; lia). nra. }
    assert (Dn: forall k i, (i + k < n)%nat -> Y (i + k)%nat - Y i <= (nth (i + k) l 0 - nth i l 0) * g (i + k)%nat).
    { induction k; intros i Hk; [rewrite Nat.add_0_r; lra|]. rewrite Nat.add_succ_r, YS. specialize (IHk i ltac:(lia)).
      assert (A: g (i + k)%nat <= g (Datatypes.S (i + k))) by (apply Mg; lia). assert (B: nth (i + k) l 0 <= nth (Datatypes.S (i + k)) l 0) by (apply Ml; lia). assert (C: nth i l 0 <= nth (i + k) l 0) by (apply Ml; lia). nra. }
    assert (K: forall i j, (i < n)%nat -> (j < n)%nat -> nth i l 0 * g j <= X j + Y i).
    { intros i j Hi Hj. unfold X. destruct (le_lt_dec j i) as [H|H].
      - specialize (Up (i - j)%nat j ltac:(lia)). replace (j + (i - j))%nat with i in Up by lia. nra.
      - specialize (Dn (j - i)%nat i ltac:(lia)). replace (i + (j - i))%nat with j in Dn by lia. nra. }
    set (h := fun x : R => maxR (map (fun j => x * g j - X j) (seq 0 n))).
    assert (Hh: forall j, (j < n)%nat -> h (nth j l 0) = Y j).
    { intros j Hj. unfold h. set (m := map _ _). assert (Hm: m <> []) by (unfold m; destruct n; [lia|discriminate]). destruct (maxR_spec m Hm) as [A B]. apply Rle_antisym.
      - unfold m in A at 2. apply in_map_iff in A as (k&<-&Hk). apply in_seq in Hk. specialize (K j k Hj ltac:(lia)). lra.
      - replace (Y j) with (nth j l 0 * g j - X j) by (unfold X; ring). apply B. apply (in_map (fun k => nth j l 0 * g k - X k)), in_seq0; auto. }
    exists {| alpha := 0; u := 0; ex := 0; ey := 0; v := fun _ => 0; z := r; gx := X; gy := fun i => h (r i); dd := fun _ => 0 |}. split.
    + apply F. cbn. split; auto. intros i j Hi Hj. unfold h. set (m := map _ _). assert (Hm: m <> []) by (unfold m; destruct n; [lia|discriminate]). destruct (maxR_spec m Hm) as [_ B].
      specialize (B _ (in_map (fun k => r i * g k - X k) _ j (in_seq0 j n Hj))). cbn beta in B. lra.
    + cbn [risk_value gx gy]. fold n. unfold sumn. rewrite so_add. f_equal. change (sum_over (seq 0 n) (fun i => h (r i))) with (sumn n (fun i => h (r i))). rewrite (Esum h).
      rewrite (sumn_ext n (fun j => h (nth j l 0)) Y) by auto. unfold sumn. rewrite <- so_add. apply so_ext. intros j _. unfold X. ring.
  - intros a Ha. apply F in Ha as [H1 H2]. cbn [risk_value]. fold n. apply Rmult_le_compat_l; [lra|]. unfold sumn. rewrite so_add. rewrite (so_perm (gy a) _ _ Psg).
    assert (Ey: sum_over sg (gy a) = sumn n (fun j => gy a (nth j sg 0%nat))).
    { unfold sumn. rewrite <- (so_map (fun j => nth j sg 0%nat) (gy a)). f_equal. apply (nth_ext _ _ 0%nat 0%nat); [rewrite map_length, seq_length; auto|]. intros k Hk.
      rewrite (nth_indep (map (fun j => nth j sg 0%nat) (seq 0 n)) 0%nat (nth 0 sg 0%nat)) by (rewrite map_length, seq_length; lia). rewrite (map_nth (fun j => nth j sg 0%nat)), seq_nth by lia. reflexivity. }
    rewrite Ey. unfold sumn. rewrite <- so_add. apply sumn_le. intros j Hj.
    assert (Hin: (nth j sg 0 < n)%nat). { assert (In (nth j sg 0%nat) (seq 0 n)) by (apply (Permutation_in _ (Permutation_sym Psg)); apply nth_In; lia). apply in_seq in H. lia. }
    replace (nth j l 0) with (z a (nth j sg 0%nat)); [apply H2; auto|]. rewrite H1 by auto. rewrite Esg. rewrite (nth_indep _ 0 (r 0%nat)) by (rewrite map_length; lia). rewrite map_nth. reflexivity.
Qed.
Print Assumptions C35_gini_mean_difference.

(** * Cases where the optimiser and the measure differ *)
Definition one_obs : prior := {| n_assets := 1; n_obs := 1; returns := fun _ _ => 0; mu := fun _ => 0; cholesky := fun _ _ => 0 |}.
Definition plain (c : R) (m : option input) (rf : R) : settings := {| costs := Scalar c; previous := Scalar 0; fees := Scalar 0; mar := m; risk_free_rate := rf;
  cvar_beta := 1/2; evar_beta := 1/2; cdar_beta := 1/2; edar_beta := 1/2; scale := 1 |}.
(** transaction costs are missing from the EVaR of the optimiser *)
Theorem C35_evar_costs_refuted : exists pm st w y, 0 <= y /\ costs_ok st /\
  (exists a, feasible_risk pm st EVAR w 1 a /\ ey a = y /\ risk_value pm st EVAR w 1 a < entropic_or_worst (net pm st w) y (evar_beta st)).
Proof.
  exists one_obs, (plain 1 None 0), (fun _ => 1), 0. split; [lra|]. split; [intros i; cbn; lra|]. exists aux0. split; [|split; [reflexivity|]].
  - unfold feasible_risk. cbn. repeat (constructor; [cbn; unfold sumn, ptf_returns, fee, management_fee, sumn; cbn; lra|]). constructor.
  - unfold entropic_or_worst. destruct (Rlt_dec 0 0); [lra|]. cbn. unfold worst_realization, net, gross, total_cost, total_fee. cbn. rewrite Rminus_0_r, Rabs_R1. lra.
Qed.
Print Assumptions C35_evar_costs_refuted.
(** with a non-zero risk free rate the first lower partial moment of the optimiser is measured from that rate as well *)
Theorem C35_flpm_risk_free_rate_refuted : exists pm st w, sample_mean pm /\ mar st = None /\
  forall a, feasible_risk pm st FIRST_LOWER_PARTIAL_MOMENT w 1 a -> first_lower_partial_moment (gross pm w) None + 1 <= risk_value pm st FIRST_LOWER_PARTIAL_MOMENT w 1 a.
Proof.
  exists one_obs, (plain 0 None 1), (fun _ => 1). split; [|split; [reflexivity|]].
  - intros i _. cbn. lra.
  - intros a Ha. unfold feasible_risk in Ha. cbn in Ha. inversion Ha as [|? ? _ H]; subst. inversion H as [|? ? H1 _]; subst. cbn in H1. unfold min_acceptable, sumn in H1. cbn in H1.
    cbn. unfold sumn, first_lower_partial_moment, gross, target, mean, len. cbn. rewrite Rmin_left by lra. lra.
Qed.
Print Assumptions C35_flpm_risk_free_rate_refuted.
(** with a minimum acceptable return other than the mean, twice the downside is not the mean absolute deviation *)
Theorem C35_mad_target_refuted : exists pm st w m, mar st = Some (Scalar m) /\
  forall a, feasible_risk pm st MEAN_ABSOLUTE_DEVIATION w 1 a -> mean_absolute_deviation (gross pm w) (Some m) + 1 <= risk_value pm st MEAN_ABSOLUTE_DEVIATION w 1 a.
Proof.
  exists one_obs, (plain 0 (Some (Scalar 1)) 0), (fun _ => 1), 1. split; [reflexivity|].
  intros a Ha. unfold feasible_risk in Ha. cbn in Ha. inversion Ha as [|? ? _ H]; subst. inversion H as [|? ? H1 _]; subst. cbn in H1. unfold min_acceptable, sumn in H1. cbn in H1.
  cbn. unfold sumn, mean_absolute_deviation, gross, target, mean, len. cbn. rewrite Rabs_left by lra. lra.
Qed.
Print Assumptions C35_mad_target_refuted.

(** the hypotheses are met: two assets, two observations, costs and fees *)
Example C35_hypotheses_met :
  let pm := {| n_assets := 2; n_obs := 2; returns := fun t i => match t, i with O, O => 1 | S O, O => -1 | O, _ => 2 | _, _ => 0 end;
               mu := fun i => match i with O => 0 | _ => 1 end; cholesky := fun i k => match k with O => sqrt 2 | _ => 0 end |} in
  let st := {| costs := Scalar (1/100); previous := Scalar (1/2); fees := PerAsset (fun i => INR i / 100); mar := None; risk_free_rate := 0;
    cvar_beta := 95/100; evar_beta := 95/100; cdar_beta := 95/100; edar_beta := 95/100; scale := 100 |} in
  let cov := fun _ _ => 2 in
  0 < scale st /\ (2 <= n_obs pm)%nat /\ costs_ok st /\ sample_mean pm /\ is_cholesky pm cov /\ sample_covariance pm cov /\ (mar st = None -> sample_mean pm).
Proof.
  intros pm st cov. assert (M: sample_mean pm). { intros i Hi. unfold pm in *. cbn in *. destruct i as [|[|i]]; [| |lia]; cbn; lra. }
  split; [cbn; lra|]. split; [cbn; lia|]. split; [intros i; cbn; lra|]. split; [exact M|]. split; [|split; [|auto]].
  - intros i j Hi Hj. cbn. rewrite sqrt_sqrt by lra. unfold cov. lra.
  - intros i j Hi Hj. unfold pm, cov in *. cbn in *. destruct i as [|[|i]]; [| |lia]; destruct j as [|[|j]]; try lia; cbn; lra.
Qed.
