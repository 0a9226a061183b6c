(** C35: the risk minimised by the optimisers is the risk measured on the portfolio returns. *)
From Coq Require Import List Arith Reals Lia Lra Permutation Sorting.Sorted.
From Verif Require Import RList MeasuresModel MeasuresProofs MeasuresProps DrawdownProps ConvexModel ConvexProps RiskModel.
Import ListNotations.
Local Open Scope R_scope.

(** * Specification *)
Definition minimum {A} (feasible : A -> Prop) (val : A -> R) (m : R) : Prop :=
  (exists a, feasible a /\ val a = m) /\ (forall a, feasible a -> m <= val a).
Definition feasible_risk (pm : prior) (st : settings) (rm : risk_measure) (w : vec) (f : R) (a : aux) : Prop :=
  Forall holds_at (risk_constraints pm st rm w f a).
Section Spec.
  Variable pm : prior.
  Variable st : settings.
  Variable w : vec.
  (** portfolio returns, without and with transaction costs and management fees *)
  Definition gross : list R := map (fun t => sum_over (seq 0 (n_assets pm)) (fun i => returns pm t i * w i)) (seq 0 (n_obs pm)).
  Definition total_cost : R := sum_over (seq 0 (n_assets pm)) (fun i => value (costs st) i * Rabs (w i - value (previous st) i)).
  Definition total_fee : R := sum_over (seq 0 (n_assets pm)) (fun i => value (fees st) i * w i).
  Definition net : list R := map (fun x => x - total_cost - total_fee) gross.
  Definition net_of_fees : list R := map (fun x => x - total_fee) gross.
  Definition costs_ok : Prop := forall i, 0 <= value (costs st) i.
End Spec.
(** the mean of the returns of each asset *)
Definition sample_mean (pm : prior) : Prop :=
  forall i, (i < n_assets pm)%nat -> mu pm i = sum_over (seq 0 (n_obs pm)) (fun t => returns pm t i) / INR (n_obs pm).
(** drawdown after observation t: from the highest wealth, starting wealth included, to the wealth after t *)
Definition drawdown_from_start (r : list R) (t : nat) : R :=
  maxR (map (fun k => rsum (firstn k r)) (seq 0 (S (S t)))) - rsum (firstn (S t) r).
(** as negative numbers, like the drawdowns of the measures *)
Definition drawdowns_from_start (r : list R) : list R := map (fun t => - drawdown_from_start r t) (seq 0 (length r)).

(** * Proofs *)
Lemma cost_spec pm st w : costs_ok st -> cost pm st w 1 = total_cost pm st w.
Proof.
  intros H. unfold cost, transaction_cost, total_cost. destruct (all _ _) eqn:E.
  - rewrite all_spec in E. symmetry. apply so_zero. intros i Hi. apply in_seq in Hi. specialize (E i ltac:(lia)). apply eqb0_true in E. rewrite E. ring.
  - unfold sumn. assert (A: forall i, Rabs (value (previous st) i * 1 - w i) = Rabs (w i - value (previous st) i)) by (intros i; rewrite Rmult_1_r; apply Rabs_minus_sym).
    unfold costs_ok in H. destruct (costs st) as [c|c]; cbn [value] in *.
    + rewrite <- so_scal. apply so_ext. intros i _. rewrite A. reflexivity.
    + apply so_ext. intros i _. rewrite Rabs_mult, A. rewrite Rabs_right by (apply Rle_ge, H). reflexivity.
Qed.
Lemma fee_spec pm st w : fee pm st w = total_fee pm st w. Proof. reflexivity. Qed.
Lemma gross_spec pm w : gross pm w = map (ptf_returns pm w) (seq 0 (n_obs pm)). Proof. reflexivity. Qed.
Lemma net_spec pm st w : costs_ok st -> net pm st w = map (fun t => ptf_returns pm w t - cost pm st w 1 - fee pm st w) (seq 0 (n_obs pm)).
Proof. intros H. unfold net, gross. rewrite map_map. rewrite cost_spec by auto. reflexivity. Qed.
Lemma net_of_fees_spec pm st w : net_of_fees pm st w = map (fun t => ptf_returns pm w t - fee pm st w) (seq 0 (n_obs pm)).
Proof. unfold net_of_fees, gross. rewrite map_map. reflexivity. Qed.
Lemma map_seq_length {A} (g : nat -> A) n : length (map g (seq 0 n)) = n.
Proof. rewrite map_length, seq_length. reflexivity. Qed.
Lemma nth_mapR (g : nat -> R) n t : (t < n)%nat -> nth t (map g (seq 0 n)) 0 = g t.
Proof. intros H. rewrite (nth_indep _ 0 (g 0%nat)) by (rewrite map_seq_length; auto). rewrite map_nth, seq_nth by auto. reflexivity. Qed.
Definition aux0 : aux := {| alpha := 0; u := 0; ex := 0; ey := 0; v := fun _ => 0; z := fun _ => 0; gx := fun _ => 0; gy := fun _ => 0; dd := fun _ => 0 |}.
Lemma sc_ge0 s a : 0 < s -> 0 <= a * s <-> 0 <= a. Proof. intros H. split; intros; nra. Qed.

(** worst realisation *)
Theorem C35_worst_realization : forall pm st w, 0 < scale st -> (0 < n_obs pm)%nat -> costs_ok st ->
  minimum (feasible_risk pm st WORST_REALIZATION w 1) (risk_value pm st WORST_REALIZATION w 1) (worst_realization (net pm st w)).
Proof.
  intros pm st w Hs HT Hc. assert (Hne: net pm st w <> []) by (unfold net, gross; destruct (n_obs pm); [lia|discriminate]).
  destruct (minR_spec _ Hne) as [A B]. unfold worst_realization.
  assert (F: forall a, feasible_risk pm st WORST_REALIZATION w 1 a <-> forall x, In x (net pm st w) -> - x <= u a).
  { intros a. unfold feasible_risk. cbn [risk_constraints]. rewrite elementwise_holds. cbn [holds_at]. rewrite net_spec by auto. split.
    - intros H x Hx. apply in_map_iff in Hx as (t&<-&Ht). apply in_seq in Ht. specialize (H t ltac:(lia)). nra.
    - intros H t Ht. specialize (H _ (in_map (fun t => ptf_returns pm w t - cost pm st w 1 - fee pm st w) _ t (proj2 (in_seq _ _ _) (conj (Nat.le_0_l t) Ht)))). nra. }
  split.
  - exists {| alpha := 0; u := - minR (net pm st w); ex := 0; ey := 0; v := fun _ => 0; z := fun _ => 0; gx := fun _ => 0; gy := fun _ => 0; dd := fun _ => 0 |}.
    split; [|reflexivity]. apply F. intros x Hx. cbn. specialize (B x Hx). lra.
  - intros a Ha. rewrite F in Ha. specialize (Ha _ A). cbn [risk_value]. lra.
Qed.
Print Assumptions C35_worst_realization.

Lemma in_seq0 t n : (t < n)%nat -> In t (seq 0 n). Proof. intros; apply in_seq; lia. Qed.
Lemma sumn_le n a b : (forall t, (t < n)%nat -> a t <= b t) -> sumn n a <= sumn n b.
Proof. intros H. apply so_le. intros t Ht. apply in_seq in Ht. apply H. lia. Qed.
Lemma sumn_ext n a b : (forall t, (t < n)%nat -> a t = b t) -> sumn n a = sumn n b.
Proof. intros H. apply so_ext. intros t Ht. apply in_seq in Ht. apply H. lia. Qed.
Lemma ru_sum (g : nat -> R) n beta t : ru_objective (map g (seq 0 n)) beta t = t + (sumn n (fun k => Rmax (- g k - t) 0) / INR n) / (1 - beta).
Proof. unfold ru_objective. rewrite so_map, map_seq_length. reflexivity. Qed.
(** the auxiliary problem  min alpha + sum v / (T (1 - beta)),  v >= 0, v >= - r - alpha  has value CVaR(r) *)
Lemma cvar_epigraph p (Hp : partition_ok p) (r : vec) n beta : (0 < n)%nat -> 0 <= beta < 1 ->
  let val al (q : vec) := al + 1 / (INR n * (1 - beta)) * sumn n q in let l := map r (seq 0 n) in
  (forall al q, (forall t, (t < n)%nat -> 0 <= q t) -> (forall t, (t < n)%nat -> - r t - al <= q t) -> cvar p l beta <= val al q)
  /\ val (value_at_risk p l beta) (fun t => Rmax (- r t - value_at_risk p l beta) 0) = cvar p l beta.
Proof.
  intros Hn Hb val l. assert (Hl: l <> []) by (unfold l; destruct n; [lia|discriminate]). assert (HI: 0 < INR n) by (apply lt_0_INR; auto).
  destruct (C11_cvar_is_minimum p Hp l beta Hl Hb) as [A B].
  assert (Ev: forall al q, val al q = al + (sumn n q / INR n) / (1 - beta)). { intros. unfold val. field. split; lra. }
  split.
  - intros al q H0 H1. eapply Rle_trans; [apply (A al)|]. unfold l. rewrite ru_sum, Ev. apply Rplus_le_compat_l. apply Rmult_le_compat_r; [left; apply Rinv_0_lt_compat; lra|]. apply Rmult_le_compat_r; [left; apply Rinv_0_lt_compat; lra|].
    apply sumn_le. intros t Ht. apply Rmax_lub; auto.
  - rewrite B. unfold l at 3. rewrite ru_sum, Ev. reflexivity.
Qed.
Theorem C35_cvar : forall p, partition_ok p -> forall pm st w, 0 < scale st -> (0 < n_obs pm)%nat -> costs_ok st -> 0 <= cvar_beta st < 1 ->
  minimum (feasible_risk pm st CVAR w 1) (risk_value pm st CVAR w 1) (cvar p (net pm st w) (cvar_beta st)).
Proof.
  intros p Hp pm st w Hs HT Hc Hb. set (r := fun t => ptf_returns pm w t - cost pm st w 1 - fee pm st w).
  destruct (cvar_epigraph p Hp r (n_obs pm) (cvar_beta st) HT Hb) as [A B]. rewrite net_spec by auto. fold r.
  assert (F: forall a, feasible_risk pm st CVAR w 1 a <-> (forall t, (t < n_obs pm)%nat -> 0 <= v a t) /\ (forall t, (t < n_obs pm)%nat -> - r t - alpha a <= v a t)).
  { intros a. unfold feasible_risk. cbn [risk_constraints]. unfold nonneg. rewrite Forall_app, !elementwise_holds. cbn [holds_at]. split; intros [H1 H2]; split; auto; intros t Ht; specialize (H2 t Ht); unfold r in *; nra. }
  split.
  - set (al := value_at_risk p (map r (seq 0 (n_obs pm))) (cvar_beta st)) in *.
    exists {| alpha := al; u := 0; ex := 0; ey := 0; v := fun t => Rmax (- r t - al) 0; z := fun _ => 0; gx := fun _ => 0; gy := fun _ => 0; dd := fun _ => 0 |}. split; [|exact B].
    apply F. cbn. split; intros t _; [apply Rmax_r|apply Rmax_l].
  - intros a Ha. apply F in Ha as [H1 H2]. apply (A (alpha a) (v a)); auto.
Qed.
Print Assumptions C35_cvar.

(** * Lower partial moments *)
(** the target the code compares the portfolio with: the chosen minimum acceptable return, or the mean *)
Definition target_return (st : settings) (w : vec) (n : nat) : option R :=
  match mar st with
  | None => None
  | Some m => Some (sum_over (seq 0 n) (fun i => value m i * w i))
  end.
Lemma mean_gross pm w : sample_mean pm -> mean (gross pm w) = sum_over (seq 0 (n_assets pm)) (fun i => mu pm i * w i).
Proof.
  intros H. unfold mean, len, gross. rewrite map_seq_length. rewrite <- so_id, so_map, so_swap.
  rewrite (so_ext (fun i => mu pm i * w i) (fun i => sum_over (seq 0 (n_obs pm)) (fun t => returns pm t i * w i) * / INR (n_obs pm))).
  - rewrite so_scal_r. reflexivity.
  - intros i Hi. apply in_seq in Hi. rewrite H by lia. rewrite so_scal_r. unfold Rdiv. ring.
Qed.
Lemma min_acceptable_spec pm st w t : (mar st = None -> sample_mean pm) ->
  min_acceptable pm st w t = ptf_returns pm w t - target (gross pm w) (target_return st w (n_assets pm)).
Proof.
  intros H. unfold min_acceptable, ptf_returns, target, target_return, sumn. destruct (mar st) as [m|].
  - rewrite <- so_sub. apply so_ext. intros; ring.
  - rewrite mean_gross by auto. rewrite <- so_sub. apply so_ext. intros; ring.
Qed.
Lemma downside_feasible pm st w a rm : 0 < scale st -> In rm [MEAN_ABSOLUTE_DEVIATION; SEMI_VARIANCE; SEMI_DEVIATION] ->
  feasible_risk pm st rm w 1 a <-> forall t, (t < n_obs pm)%nat -> Rmax (- min_acceptable pm st w t) 0 <= v a t.
Proof.
  intros Hs Hrm. assert (E: feasible_risk pm st rm w 1 a <-> Forall holds_at (nonneg pm (v a) ++ elementwise (n_obs pm) (fun t => Le (- v a t * scale st) (min_acceptable pm st w t * scale st)))).
  { destruct Hrm as [<-|[<-|[<-|[]]]]; reflexivity. }
  rewrite E. unfold nonneg. rewrite Forall_app, !elementwise_holds. cbn [holds_at]. split.
  - intros [H1 H2] t Ht. apply Rmax_lub; [specialize (H2 t Ht); nra|auto].
  - intros H. split; intros t Ht; specialize (H t Ht); pose proof (Rmax_l (- min_acceptable pm st w t) 0); pose proof (Rmax_r (- min_acceptable pm st w t) 0); nra.
Qed.
Lemma Rmin_downside x : Rmax (- x) 0 = - Rmin 0 x.
Proof. unfold Rmax, Rmin. destruct (Rle_dec (- x) 0), (Rle_dec 0 x); lra. Qed.
Definition with_v (q : vec) : aux := {| alpha := 0; u := 0; ex := 0; ey := 0; v := q; z := fun _ => 0; gx := fun _ => 0; gy := fun _ => 0; dd := fun _ => 0 |}.
Lemma flpm_sum pm st w : (mar st = None -> sample_mean pm) ->
  first_lower_partial_moment (gross pm w) (target_return st w (n_assets pm)) = sumn (n_obs pm) (fun t => Rmax (- min_acceptable pm st w t) 0) / INR (n_obs pm).
Proof.
  intros H. unfold first_lower_partial_moment, len. set (tg := target _ _). rewrite gross_spec, so_map, map_seq_length. rewrite <- so_opp. f_equal. apply sumn_ext.
  intros t Ht. rewrite min_acceptable_spec by auto. fold tg. rewrite Rmin_downside. reflexivity.
Qed.
Theorem C35_first_lower_partial_moment : forall pm st w, 0 < scale st -> (0 < n_obs pm)%nat -> (mar st = None -> sample_mean pm) -> risk_free_rate st = 0 ->
  minimum (feasible_risk pm st FIRST_LOWER_PARTIAL_MOMENT w 1) (risk_value pm st FIRST_LOWER_PARTIAL_MOMENT w 1)
          (first_lower_partial_moment (gross pm w) (target_return st w (n_assets pm))).
Proof.
  intros pm st w Hs HT Hm Hrf. rewrite flpm_sum by auto. assert (HI: 0 < INR (n_obs pm)) by (apply lt_0_INR; auto).
  assert (F: forall a, feasible_risk pm st FIRST_LOWER_PARTIAL_MOMENT w 1 a <-> forall t, (t < n_obs pm)%nat -> Rmax (- min_acceptable pm st w t) 0 <= v a t).
  { intros a. unfold feasible_risk. cbn [risk_constraints]. unfold nonneg. rewrite Forall_app, !elementwise_holds. cbn [holds_at]. rewrite Hrf. split.
    - intros [H1 H2] t Ht. apply Rmax_lub; [specialize (H2 t Ht); nra|auto].
    - intros H. split; intros t Ht; specialize (H t Ht); pose proof (Rmax_l (- min_acceptable pm st w t) 0); pose proof (Rmax_r (- min_acceptable pm st w t) 0); nra. }
  split.
  - exists (with_v (fun t => Rmax (- min_acceptable pm st w t) 0)). split; [apply F; intros; apply Rle_refl|reflexivity].
  - intros a Ha. rewrite F in Ha. cbn [risk_value]. apply Rmult_le_compat_r; [left; apply Rinv_0_lt_compat; auto|]. apply sumn_le; auto.
Qed.
Print Assumptions C35_first_lower_partial_moment.
Theorem C35_mean_absolute_deviation : forall pm st w, 0 < scale st -> (2 <= n_obs pm)%nat -> mar st = None -> sample_mean pm ->
  minimum (feasible_risk pm st MEAN_ABSOLUTE_DEVIATION w 1) (risk_value pm st MEAN_ABSOLUTE_DEVIATION w 1) (mean_absolute_deviation (gross pm w) None).
Proof.
  intros pm st w Hs HT Hn Hm. assert (HI: 0 < INR (n_obs pm)) by (apply lt_0_INR; lia).
  assert (Hl: (2 <= length (gross pm w))%nat) by (rewrite gross_spec, map_seq_length; auto).
  destruct (C12_deviation_ordering _ Hl) as (E&_). rewrite E.
  assert (E2: first_lower_partial_moment (gross pm w) None = sumn (n_obs pm) (fun t => Rmax (- min_acceptable pm st w t) 0) / INR (n_obs pm)).
  { rewrite <- flpm_sum by auto. unfold target_return. rewrite Hn. reflexivity. }
  rewrite E2. split.
  - exists (with_v (fun t => Rmax (- min_acceptable pm st w t) 0)). split; [apply downside_feasible; auto; [left; auto|intros; apply Rle_refl]|]. cbn [risk_value with_v v]. unfold Rdiv. ring.
  - intros a Ha. rewrite downside_feasible in Ha by (first [exact Hs|cbn; tauto]). cbn [risk_value]. replace (2 * sumn (n_obs pm) (v a) / INR (n_obs pm)) with (2 * (sumn (n_obs pm) (v a) / INR (n_obs pm))) by (unfold Rdiv; ring).
    apply Rmult_le_compat_l; [lra|]. apply Rmult_le_compat_r; [left; apply Rinv_0_lt_compat; auto|]. apply sumn_le; auto.
Qed.
Print Assumptions C35_mean_absolute_deviation.
Lemma semi_sum pm st w : (mar st = None -> sample_mean pm) ->
  semi_variance (gross pm w) (target_return st w (n_assets pm)) = sumn (n_obs pm) (fun t => Rmax (- min_acceptable pm st w t) 0 ^ 2) / (INR (n_obs pm) - 1).
Proof.
  intros H. unfold semi_variance, len. set (tg := target _ _). rewrite gross_spec, so_map, map_seq_length. f_equal. apply sumn_ext.
  intros t Ht. rewrite min_acceptable_spec by auto. fold tg. rewrite Rmin_downside. ring.
Qed.
Lemma sq_mono a b : 0 <= a -> a <= b -> a ^ 2 <= b ^ 2. Proof. intros. nra. Qed.
Theorem C35_semi_variance : forall pm st w, 0 < scale st -> (2 <= n_obs pm)%nat -> (mar st = None -> sample_mean pm) ->
  minimum (feasible_risk pm st SEMI_VARIANCE w 1) (risk_value pm st SEMI_VARIANCE w 1) (semi_variance (gross pm w) (target_return st w (n_assets pm)))
  /\ minimum (feasible_risk pm st SEMI_DEVIATION w 1) (risk_value pm st SEMI_DEVIATION w 1) (semi_deviation (gross pm w) (target_return st w (n_assets pm))).
Proof.
  intros pm st w Hs HT Hm. unfold semi_deviation. rewrite semi_sum by auto. assert (HI: 0 < INR (n_obs pm) - 1) by (apply le_INR in HT; cbn in HT; lra).
  set (q := fun t => Rmax (- min_acceptable pm st w t) 0).
  assert (Sq: forall a, (forall t, (t < n_obs pm)%nat -> q t <= v a t) -> sumn (n_obs pm) (fun t => q t ^ 2) <= sumn (n_obs pm) (fun t => v a t ^ 2)).
  { intros a H. apply sumn_le. intros t Ht. apply sq_mono; [apply Rmax_r|auto]. }
  assert (S0: 0 <= sumn (n_obs pm) (fun t => q t ^ 2)) by (apply so_nonneg; intros; apply pow2_ge_0).
  split; split.
  - exists (with_v q). split; [apply downside_feasible; auto; [right; left; auto|intros; apply Rle_refl]|reflexivity].
  - intros a Ha. rewrite downside_feasible in Ha by (first [exact Hs|cbn; tauto]). cbn [risk_value]. apply Rmult_le_compat_r; [left; apply Rinv_0_lt_compat; auto|auto].
  - exists (with_v q). split; [apply downside_feasible; auto; [right; right; left; auto|intros; apply Rle_refl]|]. cbn [risk_value with_v v]. symmetry. apply sqrt_div; auto.
  - intros a Ha. rewrite downside_feasible in Ha by (first [exact Hs|cbn; tauto]). cbn [risk_value]. rewrite sqrt_div by auto. apply Rmult_le_compat_r; [left; apply Rinv_0_lt_compat, sqrt_lt_R0; auto|]. apply sqrt_le_1_alt. auto.
Qed.
Print Assumptions C35_semi_variance.
