(** C97: the weights of RiskBudgeting do not depend on the solver nor on the scale of the budgets, and when there is no optimum. *)
From Coq Require Import List Arith Bool Reals Lia Lra FunctionalExtensionality.
From Verif Require Import RList MeasuresModel MeasuresProofs EquationsModel EquationsSpec EquationsProps ConvexModel ConvexProps ConvexMoreProps RiskModel RiskProps RiskTailProps MeanRiskModel MeanRiskProps BudgetingModel BudgetingProps UniqueProps.
Import ListNotations.
Local Open Scope R_scope.

(** * Specification *)
(** the inputs of the theorems: the default weight constraints, positive budgets b, no transaction cost *)
Record simple_budgeting (q : risk_budgeting) (b : vec) : Prop := {
  scale_positive : 0 < scale (rb_settings q); objective_positive : 0 < rb_scale_objective q; default : default_constraints q;
  stands_for : budget_is (rb_budget q) b; budgets_positive : forall i, (i < n_assets (rb_prior q))%nat -> 0 < b i;
  some_asset : (0 < n_assets (rb_prior q))%nat; no_cost : forall i, value (costs (rb_settings q)) i = 0 }.
Definition with_budget (q : risk_budgeting) (b : option input) : risk_budgeting := {| rb_prior := rb_prior q; rb_settings := rb_settings q; rb_params := rb_params q; rb_names := rb_names q; rb_mip_solver := rb_mip_solver q;
  rb_measure := rb_measure q; rb_budget := b; rb_min_return := rb_min_return q; rb_scale_objective := rb_scale_objective q |}.
(** the factor of the risk of the weights w: their sum for the first lower partial moment, one otherwise *)
Definition own_factor (q : risk_budgeting) (w : vec) : R := match rb_measure q with FIRST_LOWER_PARTIAL_MOMENT => sum_over (seq 0 (n_assets (rb_prior q))) w | _ => 1 end.

(** * Lemmas *)
Definition log_sum (q : risk_budgeting) (b w : vec) : R := sum_over (seq 0 (n_assets (rb_prior q))) (fun i => b i * ln (w i)).
Lemma value_any pm st rm w f w' f' a : risk_value pm st rm w f a = risk_value pm st rm w' f' a. Proof. destruct rm; reflexivity. Qed.
Lemma factor_free pm st rm w f f' a : (forall i, value (costs st) i = 0) -> rm <> FIRST_LOWER_PARTIAL_MOMENT -> feasible_risk pm st rm w f a -> feasible_risk pm st rm w f' a.
Proof.
  intros Hc Hn. assert (C : cost pm st w f' = cost pm st w f) by (rewrite !cost_zero; auto). unfold feasible_risk.
  destruct rm; cbn [risk_constraints]; unfold drawdown_constraints; rewrite ?C; auto; congruence.
Qed.
Lemma own_mix q t f w : (forall i, value (costs (rb_settings q)) i = 0) -> forall a, feasible_risk (rb_prior q) (rb_settings q) (rb_measure q) w (t * f) a -> (rb_measure q = FIRST_LOWER_PARTIAL_MOMENT -> t * f = sum_over (seq 0 (n_assets (rb_prior q))) w) ->
  feasible_risk (rb_prior q) (rb_settings q) (rb_measure q) w (own_factor q w) a.
Proof.
  intros Hc a H E. destruct (rm_eqb (rb_measure q) FIRST_LOWER_PARTIAL_MOMENT) eqn:M.
  - assert (X : rb_measure q = FIRST_LOWER_PARTIAL_MOMENT) by (destruct (rb_measure q); discriminate || reflexivity). unfold own_factor. rewrite X in *. rewrite <- (E eq_refl). exact H.
  - assert (X : rb_measure q <> FIRST_LOWER_PARTIAL_MOMENT) by (intros X; rewrite X in M; discriminate). apply (factor_free _ _ _ _ (t * f)); auto.
Qed.
Lemma budget_defined q b : budget_is (rb_budget q) b -> exists b', clean_budget (rb_budget q) = COk b' /\ forall i, b' i = b i.
Proof.
  intros H. destruct (clean_budget (rb_budget q)) as [b'|e] eqn:E.
  - exists b'. split; [reflexivity|]. apply (budget_unique (rb_budget q)); [apply clean_budget_spec; exact E|exact H].
  - destruct (rb_budget q) as [[c|u]|]; cbn in *; contradiction || discriminate.
Qed.
(** a point is feasible as soon as its weights are positive, the sum of the logarithms is not negative and the risk is that of the weights *)
Lemma budgeting_point tf q b w a : simple_budgeting q b -> (forall i, (i < n_assets (rb_prior q))%nat -> 0 < w i) -> 0 <= log_sum q b w ->
  feasible_risk (rb_prior q) (rb_settings q) (rb_measure q) w (own_factor q w) a ->
  budgeting_feasible tf q {| bw := w; bf := sum_over (seq 0 (n_assets (rb_prior q))) w; bc := 0; bm := no_mip; ba := a |}.
Proof.
  intros H Hw Hl Ha. split; [exact Hw|]. set (p := {| bw := w; bf := _; bc := 0; bm := no_mip; ba := a |}). pose proof (scale_positive q b H) as Hs.
  destruct (default_weights tf q w (bf p) (bm p) Hs (default q b H)) as (lw&Ew&Hlw); [intros i Hi; left; auto|].
  destruct (budget_defined q b (stands_for q b H)) as (b'&Eb&Hb).
  assert (X : exists l, budgeting_constraints tf q p = COk l) by (unfold budgeting_constraints; rewrite Eb; cbn [bw bf bm p] in *; rewrite Ew; eexists; reflexivity).
  destruct X as (l&E). exists l. split; [exact E|]. destruct (budgeting_split tf q p l E) as (b2&lw'&Eb'&Ew'&Hall). apply Hall. clear Hall. rewrite Eb in Eb'. inversion Eb'; subst b2. cbn [bw bf bm p] in Ew', Ew. rewrite Ew in Ew'. inversion Ew'; subst lw'.
  split; [|split; [|split]].
  - cbn [bc bw p]. split; [lra|]. rewrite Rmult_0_l. apply Rmult_le_pos; [|lra]. rewrite (so_ext _ (fun i => b i * ln (w i))) by (intros i _; rewrite Hb; reflexivity). exact Hl.
  - apply Hlw. reflexivity.
  - rewrite (proj1 (default q b H)). constructor.
  - unfold own_factor in Ha. unfold risk_factor. cbn [bw bf ba p]. exact Ha.
Qed.
Lemma budgeting_facts tf q b p : simple_budgeting q b -> budgeting_feasible tf q p ->
  (forall i, (i < n_assets (rb_prior q))%nat -> 0 < bw p i) /\ 0 <= log_sum q b (bw p) /\ bf p = sum_over (seq 0 (n_assets (rb_prior q))) (bw p)
  /\ feasible_risk (rb_prior q) (rb_settings q) (rb_measure q) (bw p) (own_factor q (bw p)) (ba p).
Proof.
  intros H [Hw (l&E&Hl)]. pose proof (scale_positive q b H) as Hs. destruct (budgeting_split tf q p l E) as (b'&lw&Eb&Ew&Hall). apply Hall in Hl as ((C1&C2)&C3&_&C5).
  destruct (default_weights tf q (bw p) (bf p) (bm p) Hs (default q b H)) as (l'&E'&H'); [intros i Hi; left; auto|]. rewrite Ew in E'. inversion E'; subst l'. apply H' in C3.
  destruct (budget_defined q b (stands_for q b H)) as (b2&Eb2&Hb). rewrite Eb in Eb2. inversion Eb2; subst b2.
  split; [exact Hw|]. split; [|split; [symmetry; exact C3|]].
  - unfold log_sum. rewrite (so_ext _ (fun i => b' i * ln (bw p i))) by (intros i _; rewrite Hb; reflexivity). apply Rmult_le_reg_r with (scale (rb_settings q)); [exact Hs|]. rewrite Rmult_0_l. eapply Rle_trans; [|exact C2]. apply Rmult_le_pos; lra.
  - unfold risk_factor in C5. unfold own_factor. rewrite C3. exact C5.
Qed.
Lemma log_scale q b t w : 0 < t -> (forall i, (i < n_assets (rb_prior q))%nat -> 0 < w i) -> log_sum q b (svec t w) = log_sum q b w + sum_over (seq 0 (n_assets (rb_prior q))) b * ln t.
Proof.
  intros Ht Hw. unfold log_sum. rewrite <- so_scal_r, <- so_add. apply so_ext. intros i Hi. apply in_seq in Hi. unfold svec. rewrite ln_mult by (auto; apply Hw; lia). ring.
Qed.
Lemma log_mid a b : 0 < a -> 0 < b -> (ln a + ln b) / 2 <= ln (1/2 * a + (1 - 1/2) * b) /\ (a <> b -> (ln a + ln b) / 2 < ln (1/2 * a + (1 - 1/2) * b)).
Proof.
  intros Ha Hb. set (m := 1/2 * a + (1 - 1/2) * b). assert (Hm : 0 < m) by (unfold m; lra). rewrite <- ln_mult by assumption. assert (E : 2 * ln m = ln (m * m)) by (rewrite ln_mult by assumption; ring).
  assert (Hab : 0 < a * b) by (apply Rmult_lt_0_compat; assumption). assert (D : m * m = a * b + (a - b) ^ 2 / 4) by (unfold m; field). split.
  - destruct (Req_dec a b) as [->|N].
    + assert (m = b) by (unfold m; lra). replace (b * b) with (m * m) by congruence. rewrite <- E. lra.
    + assert (ln (a * b) < ln (m * m)); [|lra]. apply ln_increasing; [exact Hab|]. assert (0 < (a - b) ^ 2) by (replace ((a - b) ^ 2) with (Rsqr (a - b)) by (unfold Rsqr; ring); apply Rsqr_pos_lt; lra). lra.
  - intros N. assert (ln (a * b) < ln (m * m)); [|lra]. apply ln_increasing; [exact Hab|]. assert (0 < (a - b) ^ 2) by (replace ((a - b) ^ 2) with (Rsqr (a - b)) by (unfold Rsqr; ring); apply Rsqr_pos_lt; lra). lra.
Qed.
Lemma sum_lt n (f g : vec) i : (forall k, (k < n)%nat -> f k <= g k) -> (i < n)%nat -> f i < g i -> sum_over (seq 0 n) f < sum_over (seq 0 n) g.
Proof.
  intros H Hi Hlt. apply Rminus_gt_0_lt. rewrite <- so_sub. apply Rlt_le_trans with (g i - f i); [lra|]. apply (so_ge_elem (fun k => g k - f k)); [|apply in_seq; lia]. intros k Hk. apply in_seq in Hk. specialize (H k ltac:(lia)). lra.
Qed.
Lemma sum_budgets q b : simple_budgeting q b -> 0 < sum_over (seq 0 (n_assets (rb_prior q))) b.
Proof.
  intros H. pose proof (some_asset q b H) as Hn. apply Rlt_le_trans with (b 0%nat); [apply (budgets_positive q b H); exact Hn|]. apply (so_ge_elem b); [|apply in_seq; lia]. intros i Hi. apply in_seq in Hi. left. apply (budgets_positive q b H). lia.
Qed.
Lemma degree_pos rm : degree rm = 1%nat \/ degree rm = 2%nat. Proof. destruct rm; cbn; auto. Qed.
(** scaling positive weights *)
Lemma scaled_point tf q b w a t : simple_budgeting q b -> 0 < t -> (forall i, (i < n_assets (rb_prior q))%nat -> 0 < w i) -> feasible_risk (rb_prior q) (rb_settings q) (rb_measure q) w (own_factor q w) a ->
  0 <= log_sum q b w + sum_over (seq 0 (n_assets (rb_prior q))) b * ln t ->
  exists p, budgeting_feasible tf q p /\ budgeting_loss q p = t ^ degree (rb_measure q) * risk_value (rb_prior q) (rb_settings q) (rb_measure q) w (own_factor q w) a * rb_scale_objective q.
Proof.
  intros H Ht Hw Ha Hl. destruct (risk_homogeneous _ _ _ w (own_factor q w) a t Ht Ha) as [F V].
  eexists. split.
  - apply (budgeting_point tf q b (svec t w) (saux t a) H).
    + intros i Hi. unfold svec. apply Rmult_lt_0_compat; auto.
    + rewrite log_scale by auto. exact Hl.
    + apply (own_mix q t (own_factor q w)); [apply H|exact F|]. intros M. unfold own_factor. rewrite M. unfold svec. rewrite so_scal. reflexivity.
  - unfold budgeting_loss. cbn [bw ba]. rewrite (value_any _ _ _ _ _ (svec t w) (t * own_factor q w)), V. reflexivity.
Qed.

(** * Theorems *)
(** ** The reported weights are the same for every solver, when the risk of the optimum is positive *)
Theorem C97_unique : forall tf q b p p', simple_budgeting q b -> (rb_measure q = SEMI_VARIANCE \/ rb_measure q = SEMI_DEVIATION \/ rb_measure q = ULCER_INDEX -> (2 <= n_obs (rb_prior q))%nat) ->
  budgeting_optimal tf q p -> budgeting_optimal tf q p' -> 0 < budgeting_loss q p ->
  forall i, (i < n_assets (rb_prior q))%nat -> budgeting_weights p i = budgeting_weights p' i.
Proof.
  intros tf q b p p' H HT [Fp Op] [Fp' Op'] Hr. set (n := n_assets (rb_prior q)). set (pm := rb_prior q) in *. set (st := rb_settings q) in *. set (rm := rb_measure q) in *.
  assert (Eq : budgeting_loss q p = budgeting_loss q p') by (apply Rle_antisym; auto). pose proof (objective_positive q b H) as Hso.
  destruct (budgeting_facts tf q b p H Fp) as (Px&Lx&Sx&Rx). destruct (budgeting_facts tf q b p' H Fp') as (Py&Ly&Sy&Ry). fold pm st rm in Px, Lx, Sx, Rx, Py, Ly, Sy, Ry. fold n in Px, Py, Sx, Sy. set (x := bw p) in *. set (y := bw p') in *.
  assert (E : forall i, (i < n)%nat -> x i = y i).
  { intros i Hi. destruct (Req_dec (x i) (y i)) as [E|N]; [exact E|exfalso].
    set (m := mixture (1/2) x y). assert (Pm : forall k, (k < n)%nat -> 0 < m k) by (intros k Hk; unfold m, mixture; specialize (Px k Hk); specialize (Py k Hk); lra).
    assert (Lm : 0 < log_sum q b m).
    { apply Rle_lt_trans with (sum_over (seq 0 n) (fun k => b k * ((ln (x k) + ln (y k)) / 2))).
      - rewrite (so_ext _ (fun k => 1/2 * (b k * ln (x k)) + 1/2 * (b k * ln (y k)))) by (intros; field). rewrite so_add, !so_scal. unfold log_sum in Lx, Ly. fold pm n in Lx, Ly. lra.
      - unfold log_sum. fold pm n. apply (sum_lt n _ _ i).
        + intros k Hk. apply Rmult_le_compat_l; [left; apply (budgets_positive q b H k Hk)|]. apply log_mid; auto.
        + exact Hi.
        + apply Rmult_lt_compat_l; [apply (budgets_positive q b H i Hi)|]. apply log_mid; auto. }
    set (am := aadd (saux (1/2) (ba p)) (saux (1 - 1/2) (ba p'))).
    assert (Rm : feasible_risk pm st rm m (own_factor q m) am).
    { assert (G : feasible_risk pm st rm m (1/2 * own_factor q x + (1 - 1/2) * own_factor q y) am).
      { unfold m. rewrite mixture_vadd. apply risk_add; [intros k; rewrite (no_cost q b H); lra|apply H|intros _ k _; apply (no_cost q b H)| |]; apply risk_homogeneous; auto; lra. }
      apply (own_mix q 1 (1/2 * own_factor q x + (1 - 1/2) * own_factor q y)); [apply H|rewrite Rmult_1_l; exact G|]. intros M. unfold own_factor. rewrite M. fold pm n. unfold m, mixture. rewrite so_add, !so_scal. ring. }
    assert (Vm : risk_value pm st rm m (own_factor q m) am * rb_scale_objective q <= budgeting_loss q p).
    { pose proof (value_mix pm st rm (1/2) x 1 m (own_factor q m) y 1 (ba p) (ba p') ltac:(lra) HT) as V. fold am in V. unfold budgeting_loss in Eq |- *. fold pm st rm in Eq |- *. fold x in Eq |- *.
      rewrite (value_any pm st rm x (risk_factor q p) x 1) in *. rewrite (value_any pm st rm (bw p') (risk_factor q p') y 1) in Eq.
      set (A := risk_value pm st rm x 1 (ba p)) in *. set (B := risk_value pm st rm y 1 (ba p')) in *. assert (A = B) by (apply Rmult_eq_reg_r with (rb_scale_objective q); lra). apply Rmult_le_compat_r; lra. }
    set (S := sum_over (seq 0 n) b). assert (HS : 0 < S) by (apply (sum_budgets q b H)). set (t := exp (- log_sum q b m / S)).
    assert (T0 : 0 < t) by apply exp_pos. assert (T1 : t < 1). { unfold t. rewrite <- exp_0. apply exp_increasing. assert (0 < log_sum q b m / S) by (apply Rdiv_lt_0_compat; assumption). unfold Rdiv in *. lra. }
    destruct (scaled_point tf q b m am t H T0 Pm Rm) as (p2&F2&L2). { fold pm n S. unfold t. rewrite ln_exp. right. field. lra. }
    specialize (Op p2 F2). rewrite L2 in Op. fold pm st rm in Op. set (V := risk_value pm st rm m (own_factor q m) am) in *.
    assert (T2 : 0 < t ^ degree rm < 1) by (destruct (degree_pos rm) as [->| ->]; cbn; nra). set (T := t ^ degree rm) in *.
    assert (T * V * rb_scale_objective q = T * (V * rb_scale_objective q)) as EQ by ring. rewrite EQ in Op. set (W := V * rb_scale_objective q) in *. nra. }
  intros i Hi. unfold budgeting_weights, reported. fold x y. rewrite Sx, Sy, (E i Hi). f_equal. apply so_ext. intros k Hk. apply in_seq in Hk. apply E. lia.
Qed.
Print Assumptions C97_unique.
(** ** There is no optimum when some positive weights have a negative risk, so that an optimum has a risk that is not negative *)
Theorem C97_unbounded : forall tf q b w a, simple_budgeting q b -> (forall i, (i < n_assets (rb_prior q))%nat -> 0 < w i) ->
  feasible_risk (rb_prior q) (rb_settings q) (rb_measure q) w (own_factor q w) a -> risk_value (rb_prior q) (rb_settings q) (rb_measure q) w (own_factor q w) a < 0 ->
  forall bound, exists p, budgeting_feasible tf q p /\ budgeting_loss q p < bound.
Proof.
  intros tf q b w a H Hw Ha Hv bound. set (S := sum_over (seq 0 (n_assets (rb_prior q))) b). assert (HS : 0 < S) by (apply (sum_budgets q b H)). pose proof (objective_positive q b H) as Hso.
  set (V := risk_value (rb_prior q) (rb_settings q) (rb_measure q) w (own_factor q w) a) in *. set (L := log_sum q b w).
  set (t := Rmax 1 (Rmax (exp (- L / S)) (bound / (V * rb_scale_objective q) + 1))).
  assert (A1 : 1 <= t) by apply Rmax_l. assert (A2 : exp (- L / S) <= t) by (eapply Rle_trans; [apply Rmax_l|apply Rmax_r]). assert (A3 : bound / (V * rb_scale_objective q) + 1 <= t) by (eapply Rle_trans; [apply Rmax_r|apply Rmax_r]).
  destruct (scaled_point tf q b w a t H ltac:(lra) Hw Ha) as (p&F&E).
  { fold S L. assert (K : - L / S <= ln t). { rewrite <- (ln_exp (- L / S)). destruct A2 as [A2|A2]; [left; apply ln_increasing; [apply exp_pos|exact A2]|right; rewrite A2; reflexivity]. }
    apply (Rmult_le_compat_l S) in K; [|lra]. replace (S * (- L / S)) with (- L) in K by (field; lra). lra. }
  exists p. split; [exact F|]. rewrite E. fold V. set (Z := V * rb_scale_objective q) in *. assert (HZ : Z < 0) by (unfold Z; nra). replace (t ^ degree (rb_measure q) * V * rb_scale_objective q) with (t ^ degree (rb_measure q) * Z) by (unfold Z; ring).
  assert (T : t <= t ^ degree (rb_measure q)) by (destruct (degree_pos (rb_measure q)) as [->| ->]; cbn; nra). apply Rle_lt_trans with (t * Z); [nra|].
  assert (B : bound = (bound / Z) * Z) by (field; lra). set (k := bound / Z) in *. rewrite B. nra.
Qed.
Print Assumptions C97_unbounded.
Theorem C97_risk_not_negative : forall tf q b p, simple_budgeting q b -> budgeting_optimal tf q p -> 0 <= budgeting_loss q p.
Proof.
  intros tf q b p H [F O]. apply Rnot_lt_le. intros N. destruct (budgeting_facts tf q b p H F) as (P&_&S&R). unfold budgeting_loss in N. rewrite (value_any _ _ _ _ _ (bw p) (own_factor q (bw p))) in N. pose proof (objective_positive q b H).
  destruct (C97_unbounded tf q b (bw p) (ba p) H P R ltac:(nra) (budgeting_loss q p)) as (p2&F2&L2). specialize (O p2 F2). lra.
Qed.
Print Assumptions C97_risk_not_negative.
(** ** Only the proportions of the budgets matter *)
Lemma scaled_feasible tf q v k x : 0 < scale (rb_settings q) -> rb_budget q = Some (PerAsset v) -> (forall i, v i <> 0) -> 0 < k -> budgeting_feasible tf q x ->
  budgeting_feasible tf (with_budget q (Some (PerAsset (fun i => k * v i)))) {| bw := bw x; bf := bf x; bc := k * bc x; bm := bm x; ba := ba x |}.
Proof.
  intros Hs Hb Hv Hk [P (l&E&Hl)]. split; [exact P|]. destruct (budgeting_split tf q x l E) as (b&lw&Eb&Ew&Hall). destruct (proj1 Hall Hl) as ((C1&C2)&C3&C4&C5). clear Hall.
  set (Q := with_budget q (Some (PerAsset (fun i => k * v i)))). set (p := {| bw := bw x; bf := bf x; bc := k * bc x; bm := bm x; ba := ba x |}).
  assert (Z : forall c, c <> 0 -> eqb0 c = false) by (intros c Hc; unfold eqb0; destruct (Req_EM_T c 0); [contradiction|reflexivity]).
  assert (Bv : forall i, b i = v i) by (intros i; rewrite Hb in Eb; injection Eb as Eb; rewrite <- Eb, Z by apply Hv; reflexivity).
  assert (EQ : clean_budget (rb_budget Q) = COk (fun i => k * v i)).
  { cbn [Q with_budget rb_budget clean_budget]. f_equal. extensionality i. rewrite Z; [reflexivity|]. intros Y. apply Rmult_integral in Y as [Y|Y]; [lra|exact (Hv i Y)]. }
  assert (X : exists l2, budgeting_constraints tf Q p = COk l2) by (unfold budgeting_constraints; rewrite EQ; cbn [Q with_budget rb_prior rb_settings rb_params rb_names rb_mip_solver bw bf bm p]; rewrite Ew; eexists; reflexivity).
  destruct X as (l2&E2). exists l2. split; [exact E2|]. destruct (budgeting_split tf Q p l2 E2) as (b2&lw2&Eb2&Ew2&Hall2). apply Hall2. clear Hall2. rewrite EQ in Eb2. injection Eb2 as Eb2. subst b2. cbn [Q with_budget rb_prior rb_settings rb_params rb_names rb_mip_solver bw bf bm p] in Ew2. rewrite Ew in Ew2. inversion Ew2; subst lw2.
  split; [|split; [exact C3|split; [exact C4|exact C5]]]. cbn [Q with_budget rb_prior rb_settings bc bw p]. split; [apply Rmult_le_pos; lra|].
  rewrite (so_ext (fun i => k * v i * ln (bw x i)) (fun i => k * (b i * ln (bw x i)))) by (intros i _; rewrite Bv; ring). rewrite so_scal, !Rmult_assoc. apply Rmult_le_compat_l; lra.
Qed.
Theorem C97_scaled_budgets : forall tf q v k p, 0 < scale (rb_settings q) -> rb_budget q = Some (PerAsset v) -> (forall i, v i <> 0) -> 0 < k -> budgeting_optimal tf q p ->
  exists p', budgeting_optimal tf (with_budget q (Some (PerAsset (fun i => k * v i)))) p' /\ budgeting_weights p' = budgeting_weights p /\ budgeting_loss q p' = budgeting_loss q p.
Proof.
  intros tf q v k p Hs Hb Hv Hk [F O]. exists {| bw := bw p; bf := bf p; bc := k * bc p; bm := bm p; ba := ba p |}. split; [|split; reflexivity]. split; [apply scaled_feasible; assumption|].
  intros x Fx. set (Q := with_budget q (Some (PerAsset (fun i => k * v i)))) in *.
  assert (G := scaled_feasible tf Q (fun i => k * v i) (/ k) x Hs eq_refl ltac:(intros i Y; apply Rmult_integral in Y as [Y|Y]; [lra|exact (Hv i Y)]) (Rinv_0_lt_compat k Hk) Fx).
  assert (EQ : with_budget Q (Some (PerAsset (fun i => / k * (k * v i)))) = q).
  { replace (fun i => / k * (k * v i)) with v by (extensionality i; field; lra). destruct q; cbn in *. rewrite Hb. reflexivity. }
  cbv beta in G. rewrite EQ in G. specialize (O _ G). exact O.
Qed.
Print Assumptions C97_scaled_budgets.

(** ** Without risk the weights are not unique: no returns and no covariance *)
Definition riskless : risk_budgeting := {| rb_prior := {| n_assets := 2; n_obs := 2; returns := fun _ _ => 0; mu := fun _ => 0; cholesky := fun _ _ => 0 |};
  rb_settings := rb_settings equal_budgets; rb_params := rb_params equal_budgets; rb_names := None; rb_mip_solver := false; rb_measure := STANDARD_DEVIATION; rb_budget := None; rb_min_return := None; rb_scale_objective := 1 |}.
Definition no_aux : aux := {| alpha := 0; u := 0; ex := 0; ey := 0; v := fun _ => 0; z := fun _ => 0; gx := fun _ => 0; gy := fun _ => 0; dd := fun _ => 0 |}.
Lemma riskless_simple : simple_budgeting riskless (fun _ => 1).
Proof.
  constructor; try (cbn; lra); try (intros; cbn; lra); try (cbn; lia); try (intros i; reflexivity). split; [reflexivity|]. exists (fun _ => 0), (fun _ => 1). repeat split; reflexivity.
Qed.
Lemma riskless_optimal w : 1 <= w -> exists p, budgeting_optimal no_float riskless p /\ budgeting_weights p 0%nat = w / (w + 1).
Proof.
  intros Hw. set (x := two w 1). exists {| bw := x; bf := sum_over (seq 0 2) x; bc := 0; bm := no_mip; ba := no_aux |}. split; [|unfold budgeting_weights, reported; cbn; f_equal; ring]. split.
  - apply (budgeting_point no_float riskless (fun _ => 1) x no_aux riskless_simple).
    + intros [|[|i]] Hi; cbn in *; try lra; lia.
    + unfold log_sum. cbn. rewrite ln_1. destruct Hw as [Hw|<-]; [apply ln_increasing in Hw; [|lra]; rewrite ln_1 in Hw; lra|rewrite ln_1; lra].
    + unfold feasible_risk. cbn. constructor; [cbn; lra|constructor; [|constructor]]. cbn. unfold sumn. cbn. apply Rle_trans with (sqrt 0); [apply sqrt_le_1_alt; right; ring|rewrite sqrt_0; lra].
  - intros p [_ (l&E&Hl)]. destruct (budgeting_split _ _ _ _ E) as (b&lw&Eb&Ew&Hall). destruct (proj1 Hall Hl) as (_&_&_&C5). clear Hall. unfold feasible_risk in C5. cbn in C5. inversion C5 as [|? ? C6 _]; subst. cbn in C6. unfold budgeting_loss. cbn. lra.
Qed.
Theorem C97_unique_refuted : exists q p p', simple_budgeting q (fun _ => 1) /\ budgeting_optimal no_float q p /\ budgeting_optimal no_float q p' /\ budgeting_loss q p = 0 /\ budgeting_weights p 0%nat = 1/2 /\ budgeting_weights p' 0%nat = 2/3.
Proof.
  destruct (riskless_optimal 1 ltac:(lra)) as (p&O&W). destruct (riskless_optimal 2 ltac:(lra)) as (p'&O'&W'). exists riskless, p, p'. split; [exact riskless_simple|]. split; [exact O|]. split; [exact O'|]. split; [|split; lra].
  apply Rle_antisym; [|apply (C97_risk_not_negative no_float riskless (fun _ => 1) p riskless_simple O)].
  assert (F : budgeting_feasible no_float riskless {| bw := two 1 1; bf := sum_over (seq 0 2) (two 1 1); bc := 0; bm := no_mip; ba := no_aux |}).
  { apply (budgeting_point no_float riskless (fun _ => 1) (two 1 1) no_aux riskless_simple).
    - intros [|[|i]] Hi; cbn in *; try lra; lia.
    - unfold log_sum. cbn. rewrite ln_1. lra.
    - unfold feasible_risk. cbn. constructor; [cbn; lra|constructor; [|constructor]]. cbn. unfold sumn. cbn. apply Rle_trans with (sqrt 0); [apply sqrt_le_1_alt; right; ring|rewrite sqrt_0; lra]. }
  pose proof (proj2 O _ F) as K. unfold budgeting_loss at 2 in K. cbn in K. lra.
Qed.
Print Assumptions C97_unique_refuted.

(** * The hypotheses are met *)
(** variances 1 and 16 and equal budgets (C37); the same budgets given as the array (3, 3) *)
Lemma equal_simple : simple_budgeting equal_budgets (fun _ => 1).
Proof.
  constructor; try (cbn; lra); try (intros; cbn; lra); try (cbn; lia); try (intros i; reflexivity). split; [reflexivity|]. exists (fun _ => 0), (fun _ => 1). repeat split; reflexivity.
Qed.
Example C97_applies : simple_budgeting equal_budgets (fun _ => 1) /\ budgeting_optimal no_float equal_budgets equal_point /\ 0 < budgeting_loss equal_budgets equal_point
  /\ ~ (rb_measure equal_budgets = SEMI_VARIANCE \/ rb_measure equal_budgets = SEMI_DEVIATION \/ rb_measure equal_budgets = ULCER_INDEX).
Proof.
  split; [exact equal_simple|]. split; [apply C37_hypotheses_met|]. split; [unfold budgeting_loss; cbn; assert (0 < sqrt 8) by (apply sqrt_lt_R0; lra); lra|]. cbn. intros [E|[E|E]]; discriminate.
Qed.
(** one observation with a return of 1 for both assets: the worst realization of (1, 1) is -2 *)
Definition gains : risk_budgeting := {| rb_prior := {| n_assets := 2; n_obs := 1; returns := fun _ _ => 1; mu := fun _ => 1; cholesky := fun _ _ => 0 |};
  rb_settings := rb_settings equal_budgets; rb_params := rb_params equal_budgets; rb_names := None; rb_mip_solver := false; rb_measure := WORST_REALIZATION; rb_budget := None; rb_min_return := None; rb_scale_objective := 1 |}.
Example C97_unbounded_applies : exists a, simple_budgeting gains (fun _ => 1) /\ feasible_risk (rb_prior gains) (rb_settings gains) (rb_measure gains) (two 1 1) (own_factor gains (two 1 1)) a
  /\ risk_value (rb_prior gains) (rb_settings gains) (rb_measure gains) (two 1 1) (own_factor gains (two 1 1)) a < 0.
Proof.
  exists {| alpha := 0; u := -2; ex := 0; ey := 0; v := fun _ => 0; z := fun _ => 0; gx := fun _ => 0; gy := fun _ => 0; dd := fun _ => 0 |}. split; [|split; [|cbn; lra]].
  - constructor; try (cbn; lra); try (intros; cbn; lra); try (cbn; lia); try (intros i; reflexivity). split; [reflexivity|]. exists (fun _ => 0), (fun _ => 1). repeat split; reflexivity.
  - unfold feasible_risk. cbn. constructor; [|constructor]. cbn. rewrite cost_zero by (intros; reflexivity). unfold ptf_returns, fee, management_fee, sumn. cbn. lra.
Qed.
Example C97_scaled_applies : let q := with_budget equal_budgets (Some (PerAsset (fun _ => 1))) in rb_budget q = Some (PerAsset (fun _ => 1)) /\ budgeting_optimal no_float q equal_point.
Proof.
  intros q. split; [reflexivity|]. assert (E : forall p, budgeting_constraints no_float q p = budgeting_constraints no_float equal_budgets p).
  { intros p. unfold budgeting_constraints. cbn [q with_budget equal_budgets rb_budget clean_budget rb_prior rb_settings rb_params rb_names rb_mip_solver rb_min_return rb_measure]. unfold eqb0. destruct (Req_EM_T 1 0); [lra|]. reflexivity. }
  destruct C37_hypotheses_met as (_&_&_&(P&l&El&Hl)&O). split; [split; [exact P|exists l; rewrite E; auto]|]. intros p (P'&l'&El'&Hl'). apply O. split; [exact P'|]. exists l'. rewrite <- E. auto.
Qed.
