(** C36: the mean-risk optimisation optimises what it documents over the documented set of weights. *)
From Coq Require Import List Arith Bool Reals Lia Lra.
From Verif Require Import RList MeasuresModel MeasuresProofs EquationsModel EquationsSpec EquationsProps ConvexModel ConvexProps ConvexMoreProps RiskModel RiskProps RiskTailProps MeanRiskModel.
Import ListNotations.
Local Open Scope R_scope.

(** * Specification *)
Section Spec.
  Variable to_float : str -> option R.
  Variable q : mean_risk.
  Let pm := prior_ q.
  Let st := settings_ q.
  Let n := n_assets pm.
  Definition norm2 (v : vec) : R := sqrt (sum_over (seq 0 n) (fun i => v i ^ 2)).
  (** expected return, or what replaces it, net of costs and fees, in the worst case over the uncertainty set *)
  Definition expected (x : vec) : R :=
    sum_over (seq 0 n) (fun i => match overwrite_ q with Some c => c i | None => mu pm i end * x i) - total_cost pm st x - total_fee pm st x
    - match mu_uncertainty_ q with Some (k, root) => k * norm2 (fun i => sum_over (seq 0 n) (fun j => root i j * x j)) | None => 0 end.
  Definition excess (x : vec) : R := expected x - risk_free_rate st.
  (** the value of a risk measure: C35 says which it is *)
  Definition risk_is (rm : risk_measure) (x : vec) (r : R) : Prop := minimum (feasible_risk pm st rm x 1) (risk_value pm st rm x 1) r.
  Definition risk_at_most (rm : risk_measure) (x : vec) (r : R) : Prop := exists a, feasible_risk pm st rm x 1 a /\ risk_value pm st rm x 1 a <= r.
  Definition turnover_ok (x : vec) : Prop := opt (max_turnover_ q) (fun t => forall i, (i < n)%nat -> Rabs (x i - value (previous st) i) <= t).
  Definition tracking_ok (x : vec) : Prop :=
    opt (max_tracking_error_ q) (fun t => sqrt (sum_over (seq 0 (n_obs pm)) (fun k => (sum_over (seq 0 n) (fun i => returns pm k i * x i) - benchmark_ q k) ^ 2)) / sqrt (INR (n_obs pm) - 1) <= t).
  Definition limits_ok (x : vec) : Prop := forall rm l, limits_ q rm = Some l -> risk_at_most rm x l.
  Definition allowed (cs : list constr) (x : vec) : Prop :=
    documented to_float n (params_ q) (names_ q) cs x /\ turnover_ok x /\ tracking_ok x /\ opt (min_return_ q) (fun r => r <= expected x) /\ limits_ok x.
  (** the objective as a function of the weights, of their risk and of their expected return *)
  Definition penalty (x : vec) : R := l1_ q * sum_over (seq 0 n) (fun i => Rabs (x i)) + l2_ q * sum_over (seq 0 n) (fun i => x i ^ 2).
  (** the input is accepted: no exception is raised while the problem is built *)
  Definition accepted (cs : list constr) : Prop :=
    written_constraints to_float n (params_ q) (names_ q) cs /\ exists x l, problem_constraints to_float q x = COk l.
End Spec.
Definition homogeneous (rm : risk_measure) : Prop := rm <> VARIANCE /\ rm <> SEMI_VARIANCE.
Definition degree (rm : risk_measure) : nat := match rm with VARIANCE | SEMI_VARIANCE => 2 | _ => 1 end.

(** * Homogeneity *)
Definition svec (t : R) (x : vec) : vec := fun i => t * x i.
Definition saux (t : R) (a : aux) : aux :=
  {| alpha := t * alpha a; u := t * u a; ex := t * ex a; ey := t * ey a; v := svec t (v a); z := svec t (z a); gx := svec t (gx a); gy := svec t (gy a); dd := svec t (dd a) |}.
Lemma sumn_scal n t g : sumn n (fun i => t * g i) = t * sumn n g. Proof. apply so_scal. Qed.
Lemma le_scale t a b a' b' : 0 < t -> a' = t * a -> b' = t * b -> a <= b -> a' <= b'. Proof. intros; subst. apply Rmult_le_compat_l; lra. Qed.
Lemma ptf_scale pm t w k : ptf_returns pm (svec t w) k = t * ptf_returns pm w k.
Proof. unfold ptf_returns, svec. rewrite <- sumn_scal. apply sumn_ext. intros; ring. Qed.
Lemma mar_scale pm st t w k : min_acceptable pm st (svec t w) k = t * min_acceptable pm st w k.
Proof. unfold min_acceptable, svec. rewrite <- sumn_scal. apply sumn_ext. intros; ring. Qed.
Lemma tc_scale n c p t w f : 0 < t -> transaction_cost n c p (svec t w) (t * f) = t * transaction_cost n c p w f.
Proof.
  intros Ht. unfold transaction_cost, svec. destruct (all n _); [ring|]. assert (G: forall a b, Rabs (a * (t * f) - t * b) = t * Rabs (a * f - b)) by (intros; rewrite <- (Rabs_right t) at 3 by lra; rewrite <- Rabs_mult; f_equal; ring).
  destruct c as [c|c].
  - rewrite (sumn_ext n _ (fun i => t * Rabs (value p i * f - w i))) by (intros; apply G). rewrite sumn_scal. ring.
  - rewrite <- sumn_scal. apply sumn_ext. intros i _. rewrite !Rabs_mult, G. ring.
Qed.
Lemma cost_scale pm st t w f : 0 < t -> cost pm st (svec t w) (t * f) = t * cost pm st w f.
Proof. apply tc_scale. Qed.
Lemma mf_scale n fees t w : management_fee n fees (svec t w) = t * management_fee n fees w.
Proof. unfold management_fee, svec. rewrite <- sumn_scal. apply sumn_ext. intros; ring. Qed.
Lemma fee_scale pm st t w : fee pm st (svec t w) = t * fee pm st w. Proof. apply mf_scale. Qed.
Lemma sqrt_scale t x : 0 < t -> 0 <= x -> sqrt (t ^ 2 * x) = t * sqrt x.
Proof. intros. rewrite sqrt_mult by (auto; apply pow2_ge_0). rewrite sqrt_pow2 by lra. reflexivity. Qed.
Lemma sumsq_scale n t g : sumn n (fun i => (t * g i) ^ 2) = t ^ 2 * sumn n (fun i => g i ^ 2).
Proof. rewrite <- sumn_scal. apply sumn_ext. intros; ring. Qed.
Lemma sumsq_nonneg n g : 0 <= sumn n (fun i => g i ^ 2). Proof. apply so_nonneg. intros; apply pow2_ge_0. Qed.
Lemma cone_scale t x y z x' y' z' : 0 < t -> x' = t * x -> y' = t * y -> z' = t * z ->
  (0 < y /\ y * exp (x / y) <= z) \/ (y = 0 /\ x <= 0 /\ 0 <= z) -> (0 < y' /\ y' * exp (x' / y') <= z') \/ (y' = 0 /\ x' <= 0 /\ 0 <= z').
Proof.
  intros Ht -> -> -> [[H1 H2]|(H1&H2&H3)]; [left|right].
  - split; [apply Rmult_lt_0_compat; auto|]. replace (t * x / (t * y)) with (x / y) by (field; lra). rewrite Rmult_assoc. apply Rmult_le_compat_l; lra.
  - subst. split; [ring|]. split; nra.
Qed.
Lemma nonneg_scale pm t x : 0 < t -> Forall holds_at (nonneg pm x) -> Forall holds_at (nonneg pm (svec t x)).
Proof. unfold nonneg. rewrite !elementwise_holds. intros Ht H k Hk. specialize (H k Hk). cbn in *. unfold svec. nra. Qed.
Lemma dd_scale pm st w f a t : 0 < t -> Forall holds_at (drawdown_constraints pm st w f a) -> Forall holds_at (drawdown_constraints pm st (svec t w) (t * f) (saux t a)).
Proof.
  intros Ht. unfold drawdown_constraints. rewrite !Forall_app, !elementwise_holds. intros (H1&H2&H3). split; [|split].
  - clear H2. intros k Hk; cbn [holds_at] in *. specialize (H1 k Hk). cbn [saux dd]. rewrite ptf_scale, cost_scale, fee_scale by auto. unfold svec.
    revert H1. apply le_scale with (t := t); auto; ring.
  - intros k Hk; cbn [holds_at] in *. specialize (H2 k Hk). cbn [saux dd]. unfold svec. revert H2. apply le_scale with (t := t); auto; ring.
  - inversion H3 as [|? ? H4 _]; subst. cbn [holds_at] in H4. constructor; [|constructor]. cbn [holds_at saux dd]. unfold svec. rewrite Rmult_assoc, H4. ring.
Qed.
Theorem risk_homogeneous pm st rm w f a t : 0 < t -> feasible_risk pm st rm w f a ->
  feasible_risk pm st rm (svec t w) (t * f) (saux t a)
  /\ risk_value pm st rm (svec t w) (t * f) (saux t a) = t ^ degree rm * risk_value pm st rm w f a.
Proof.
  intros Ht. unfold feasible_risk.
  assert (LE: forall n (l r l' r' : vec), (forall k, l' k = t * l k) -> (forall k, r' k = t * r k) -> (forall k, (k < n)%nat -> l k <= r k) -> forall k, (k < n)%nat -> l' k <= r' k).
  { intros n l r l' r' El Er H k Hk. rewrite El, Er. apply Rmult_le_compat_l; [lra|auto]. }
  destruct rm; cbn [risk_constraints risk_value degree]; rewrite ?Forall_app, ?elementwise_holds; cbn [holds_at saux v u alpha ex ey z gx gy dd].
  - (* MAD *) intros [H1 H2]. split; [split; [apply nonneg_scale; auto|]|].
    + revert H2. apply LE; intros k; rewrite ?mar_scale; unfold svec; ring.
    + unfold svec. rewrite sumn_scal. unfold Rdiv. ring.
  - (* FLPM *) intros [H1 H2]. split; [split; [apply nonneg_scale; auto|]|].
    + revert H2. apply LE; intros k; rewrite ?mar_scale; unfold svec; ring.
    + unfold svec. rewrite sumn_scal. unfold Rdiv. ring.
  - (* standard deviation *) intros H. inversion H as [|? ? H1 H2]; subst. inversion H2 as [|? ? H3 _]; subst. cbn [holds_at] in *. split; [|ring]. constructor; [cbn; nra|]. constructor; [|constructor]. cbn [holds_at].
    rewrite (sumn_ext _ _ (fun k => (t * (sumn (n_assets pm) (fun i => cholesky pm i k * w i) * scale st)) ^ 2)).
    + rewrite sumsq_scale, sqrt_scale by (auto; apply sumsq_nonneg). rewrite (Rmult_assoc t). apply Rmult_le_compat_l; [lra|exact H3].
    + intros k _. f_equal. rewrite <- Rmult_assoc. f_equal. unfold svec. rewrite <- sumn_scal. apply sumn_ext. intros; ring.
  - (* variance *) intros H. inversion H as [|? ? H1 H2]; subst. inversion H2 as [|? ? H3 _]; subst. cbn [holds_at] in *. split; [|ring]. constructor; [cbn; nra|]. constructor; [|constructor]. cbn [holds_at].
    rewrite (sumn_ext _ _ (fun k => (t * (sumn (n_assets pm) (fun i => cholesky pm i k * w i) * scale st)) ^ 2)).
    + rewrite sumsq_scale, sqrt_scale by (auto; apply sumsq_nonneg). rewrite (Rmult_assoc t). apply Rmult_le_compat_l; [lra|exact H3].
    + intros k _. f_equal. rewrite <- Rmult_assoc. f_equal. unfold svec. rewrite <- sumn_scal. apply sumn_ext. intros; ring.
  - (* semi variance *) intros [H1 H2]. split; [split; [apply nonneg_scale; auto|]|].
    + revert H2. apply LE; intros k; rewrite ?mar_scale; unfold svec; ring.
    + unfold svec. rewrite sumsq_scale.  unfold Rdiv. ring.
  - (* semi deviation *) intros [H1 H2]. split; [split; [apply nonneg_scale; auto|]|].
    + revert H2. apply LE; intros k; rewrite ?mar_scale; unfold svec; ring.
    + unfold svec. rewrite sumsq_scale. rewrite sqrt_scale by (auto; apply sumsq_nonneg).  unfold Rdiv. ring.
  - (* worst *) intros H. split; [|ring]. revert H. apply LE; intros k; rewrite ?ptf_scale, ?cost_scale, ?fee_scale by auto; unfold svec; ring.
  - (* cvar *) intros [H1 H2]. split; [split; [apply nonneg_scale; auto|]|].
    + revert H2. apply (LE _ (fun _ => 0) (fun t0 : nat => ptf_returns pm w t0 * scale st - cost pm st w f * scale st - fee pm st w * scale st + alpha a * scale st + v a t0 * scale st) (fun _ => 0)); intros k; rewrite ?ptf_scale, ?cost_scale, ?fee_scale by auto; unfold svec; ring.
    + unfold svec. rewrite sumn_scal. unfold Rdiv. ring.
  - (* evar *) intros [H1 H2]. inversion H1 as [|? ? H3 H4]; subst. inversion H4 as [|? ? H5 _]; subst. cbn [holds_at] in *. split; [split|ring].
    + constructor; [cbn; nra|constructor; [|constructor]]. cbn [holds_at]. unfold svec. rewrite sumn_scal, !Rmult_assoc. apply Rmult_le_compat_l; lra.
    + intros k Hk. specialize (H2 k Hk). revert H2. apply (cone_scale t); auto; rewrite ?ptf_scale, ?fee_scale; unfold svec; ring.
  - (* max *) intros [H1 H2]. split; [split; [apply dd_scale; auto|]|ring]. revert H2. apply LE; intros k; unfold svec; ring.
  - (* average *) intros H1. split; [apply dd_scale; auto|]. unfold svec. rewrite sumn_scal. unfold Rdiv. ring.
  - (* cdar *) intros (H1&H2&H3). split; [split; [apply nonneg_scale; auto|split; [apply dd_scale; auto|]]|].
    + revert H3. apply LE; intros k; unfold svec; ring.
    + unfold svec. rewrite sumn_scal. unfold Rdiv. ring.
  - (* edar *) intros (H1&H2&H3&H4). inversion H1 as [|? ? H5 _]; subst. inversion H3 as [|? ? H6 _]; subst. cbn [holds_at] in *. split; [split; [|split; [apply dd_scale; auto|split]]|ring].
    + constructor; [cbn; nra|constructor].
    + constructor; [|constructor]. cbn [holds_at]. unfold svec. rewrite sumn_scal, !Rmult_assoc. apply Rmult_le_compat_l; lra.
    + intros k Hk. specialize (H4 k Hk). revert H4. apply (cone_scale t); auto; unfold svec; ring.
  - (* ulcer *) intros H1. split; [apply dd_scale; auto|]. unfold svec.
    rewrite sumsq_scale. rewrite sqrt_scale by (auto; apply sumsq_nonneg).  unfold Rdiv. ring.
  - (* gini *) intros [H1 H2]. split; [split|].
    + intros k Hk. specialize (H1 k Hk). rewrite ptf_scale, cost_scale, fee_scale by auto. unfold svec. transitivity (t * (z a k * scale st)); [rewrite <- H1|]; ring.
    + rewrite Forall_flat_map, Forall_forall in *. intros i Hi. specialize (H2 i Hi). rewrite elementwise_holds in *. cbn [holds_at] in *. revert H2. apply LE; intros k; unfold svec; ring.
    + unfold svec. rewrite (sumn_ext _ _ (fun k => t * (gx a k + gy a k))) by (intros; ring). rewrite sumn_scal. ring.
Qed.

(** * The problem at a positive factor is the documented problem *)
From Coq Require Import FunctionalExtensionality.
Lemma reported_svec w f : 0 < f -> svec f (reported w f) = w.
Proof. intros H. extensionality i. unfold svec, reported. field. lra. Qed.
Lemma svec_reported y t : 0 < t -> reported (svec t y) t = y.
Proof. intros H. extensionality i. unfold svec, reported. field. lra. Qed.
Lemma svec_inv w f : 0 < f -> svec (/ f) w = reported w f.
Proof. intros H. extensionality i. unfold svec, reported, Rdiv. ring. Qed.
Definition with_dd (a : aux) (d : vec) : aux :=
  {| alpha := alpha a; u := u a; ex := ex a; ey := ey a; v := v a; z := z a; gx := gx a; gy := gy a; dd := d |}.
(** any auxiliary point can use the smallest drawdowns *)
Lemma share_dd pm st rm w a : 0 < scale st -> feasible_risk pm st rm w 1 a ->
  let d := smallest (fun t => ptf_returns pm w t - cost pm st w 1 - fee pm st w) in
  feasible_risk pm st rm w 1 (with_dd a d) /\ risk_value pm st rm w 1 (with_dd a d) <= risk_value pm st rm w 1 a.
Proof.
  intros Hs H d.
  assert (Dn: Forall holds_at (drawdown_constraints pm st w 1 (with_dd a d))) by (apply dd_attained; auto).
  assert (Le1: Forall holds_at (drawdown_constraints pm st w 1 a) -> forall t, (t < n_obs pm)%nat -> d (S t) <= dd a (S t)).
  { intros HH t Ht. apply (dd_smallest pm st w Hs ltac:(lia) a HH (S t)). lia. }
  assert (P0: forall t, 0 <= d t) by (intros [|t]; cbn; [lra|apply Rmax_l]).
  destruct rm; try (split; [exact H|apply Rle_refl]); unfold feasible_risk in *; cbn [risk_constraints risk_value] in *; rewrite ?Forall_app, ?elementwise_holds in *; cbn [with_dd alpha u ex ey v z dd holds_at] in *.
  - destruct H as [H1 H2]. split; [split; [exact Dn|]|lra]. intros t Ht. specialize (H2 t Ht). specialize (Le1 H1 t Ht). nra.
  - split; [exact Dn|]. destruct (n_obs pm) eqn:En; [unfold sumn; cbn; lra|]. apply Rmult_le_compat_r; [left; apply Rinv_0_lt_compat, lt_0_INR; lia|]. apply sumn_le. intros t Ht. apply Le1; auto.
  - destruct H as (H1&H2&H3). split; [split; [exact H1|split; [exact Dn|]]|lra]. intros t Ht. specialize (H3 t Ht). specialize (Le1 H2 t Ht). nra.
  - destruct H as (H1&H2&H3&H4). split; [split; [exact H1|split; [exact Dn|split; [exact H3|]]]|lra]. intros t Ht. specialize (Le1 H2 t Ht). destruct (H4 t Ht) as [[H5 H6]|(H5&H6&H7)]; [left|right].
    + split; auto. eapply Rle_trans; [|exact H6]. apply Rmult_le_compat_l; [lra|].
      assert (E: (d (S t) * scale st - ex a * scale st) / (ey a * scale st) <= (dd a (S t) * scale st - ex a * scale st) / (ey a * scale st)).
      { apply Rmult_le_compat_r; [left; apply Rinv_0_lt_compat; auto|]. nra. }
      destruct E as [E|E]; [left; apply exp_increasing; auto|rewrite E; lra].
    + split; auto. split; auto. nra.
  - split; [exact Dn|]. destruct (n_obs pm) eqn:En; [unfold sumn; cbn; rewrite sqrt_0; lra|]. apply Rmult_le_compat_r; [left; apply Rinv_0_lt_compat, sqrt_lt_R0, lt_0_INR; lia|]. apply sqrt_le_1_alt, sumn_le. intros t Ht. apply sq_mono; [apply P0|apply Le1; auto].
Qed.
Lemma choose_aux (P : risk_measure -> aux -> Prop) : (forall rm, exists a, P rm a) -> exists A, forall rm, P rm (A rm).
Proof.
  intros H. destruct (H MEAN_ABSOLUTE_DEVIATION) as [a1 H1], (H FIRST_LOWER_PARTIAL_MOMENT) as [a2 H2], (H STANDARD_DEVIATION) as [a3 H3], (H VARIANCE) as [a4 H4],
    (H SEMI_VARIANCE) as [a5 H5], (H SEMI_DEVIATION) as [a6 H6], (H WORST_REALIZATION) as [a7 H7], (H CVAR) as [a8 H8], (H EVAR) as [a9 H9], (H MAX_DRAWDOWN) as [b1 G1],
    (H AVERAGE_DRAWDOWN) as [b2 G2], (H CDAR) as [b3 G3], (H EDAR) as [b4 G4], (H ULCER_INDEX) as [b5 G5], (H GINI_MEAN_DIFFERENCE) as [b6 G6].
  exists (fun rm => match rm with MEAN_ABSOLUTE_DEVIATION => a1 | FIRST_LOWER_PARTIAL_MOMENT => a2 | STANDARD_DEVIATION => a3 | VARIANCE => a4 | SEMI_VARIANCE => a5 | SEMI_DEVIATION => a6
    | WORST_REALIZATION => a7 | CVAR => a8 | EVAR => a9 | MAX_DRAWDOWN => b1 | AVERAGE_DRAWDOWN => b2 | CDAR => b3 | EDAR => b4 | ULCER_INDEX => b5 | GINI_MEAN_DIFFERENCE => b6 end).
  intros []; assumption.
Qed.
Lemma rm_eqb_spec a b : rm_eqb a b = true <-> a = b.
Proof. destruct a, b; cbn; split; intros H; try reflexivity; discriminate. Qed.
Lemma all_measures rm : In rm all_risk_measures. Proof. destruct rm; cbn; tauto. Qed.
(** whether building the weight constraints raises does not depend on the point *)
Lemma group_card_defined n p inv inv' l : group_card_constraints n p inv = COk l -> exists l', group_card_constraints n p inv' = COk l'.
Proof.
  unfold group_card_constraints. destruct (group_cardinalities p) as [cards|]; [|eauto]. destruct (groups p) as [g|]; [|discriminate].
  destruct (group_cardinalities_to_matrix g n cards false) as [[a b]|e]; [|discriminate]. eauto.
Qed.
Lemma mip_constraints_defined n p s fv w f m l w' f' m' : mip_constraints n p s fv w f m = COk l -> exists l', mip_constraints n p s fv w' f' m' = COk l'.
Proof.
  unfold mip_constraints. destruct (negb (is_mip n p)); [eauto|]. destruct (min_weights p) as [mn|]; [|discriminate]. destruct (max_weights p) as [mx|]; [|discriminate].
  destruct (all n _); [discriminate|]. destruct (is_some _ && negb _); [discriminate|]. destruct (is_some (threshold_long p) && _ && _); [discriminate|]. destruct (is_some _ && negb _); [discriminate|].
  assert (A : forall a b b' c c' inv inv', capp (COk a) (capp (group_card_constraints n p inv) (COk c)) = COk b -> exists l', capp (COk b') (capp (group_card_constraints n p inv') (COk c')) = COk l').
  { intros a b b' c c' inv inv' E. destruct (group_card_constraints n p inv) as [g|] eqn:G; [|discriminate]. destruct (group_card_defined n p inv inv' g G) as (g'&->). cbn. eauto. }
  destruct (is_some (threshold_short p) && _).
  - destruct (clean_threshold n (threshold_long p)) as [tl|]; [|discriminate]. destruct (clean_threshold n (threshold_short p)) as [ts|]; [|discriminate]. unfold mip_short. apply A.
  - unfold mip_no_short. apply A.
Qed.
Lemma weight_constraints_defined_any tf n p names ms an fv s w f m l w' f' m' :
  weight_constraints tf n p names ms an fv s w f m = COk l -> exists l', weight_constraints tf n p names ms an fv s w' f' m' = COk l'.
Proof.
  intros E. unfold weight_constraints in *. destruct (is_mip n p && negb ms); [discriminate|].
  apply capp_ok in E as (l1&r1&E1&E&_). apply capp_ok in E as (l2&r2&E2&E&_). apply capp_ok in E as (l3&r3&E3&E&_).
  apply capp_ok in E as (l4&r4&E4&E&_). apply capp_ok in E as (l5&r5&E5&E&_). apply capp_ok in E as (l6&r6&E6&E&_).
  apply capp_ok in E as (l7&r7&E7&E&_). apply capp_ok in E as (l8&r8&E8&E&_). apply capp_ok in E as (l9&l10&E9&E10&_).
  assert (A: forall a b l, a = COk l -> (exists l', b = COk l') -> exists l', a +++ b = COk l') by (intros a b l0 -> [l' ->]; eexists; reflexivity).
  assert (B: forall a b, (exists l', a = COk l') -> (exists l', b = COk l') -> exists l', a +++ b = COk l') by (intros a b [la ->] [lb ->]; eexists; reflexivity).
  repeat (apply B; [|]).
  - destruct (min_weights p); [destruct (negb an && _); [discriminate|]|]; eexists; reflexivity.
  - destruct (max_weights p); eexists; reflexivity.
  - destruct (max_long p); [destruct (ltb _ _); [|discriminate]|]; eexists; reflexivity.
  - destruct (max_short p); [destruct (ltb _ _); [|discriminate]|]; eexists; reflexivity.
  - destruct (min_budget p); eexists; reflexivity.
  - destruct (max_budget p); eexists; reflexivity.
  - destruct (budget p); [destruct (is_some (max_budget p)); [discriminate|destruct (is_some (min_budget p)); [discriminate|]]|]; eexists; reflexivity.
  - apply (mip_constraints_defined n p s fv w f m l8 w' f' m' E8).
  - destruct (linear_constraints p); [|eexists; reflexivity]. destruct (match groups p with Some g => _ | None => _ end); [|discriminate]. destruct (equations_to_matrix _ _ _ _ _ _); [|discriminate]. eexists; reflexivity.
  - destruct (left_inequality p), (right_inequality p); try (eexists; reflexivity). destruct (_ && _); [|discriminate]. eexists; reflexivity.
Qed.
Lemma weight_constraints_defined tf n p names ms an fv s w f m l w' f' m' : is_mip n p = false ->
  weight_constraints tf n p names ms an fv s w f m = COk l -> exists l', weight_constraints tf n p names ms an fv s w' f' m' = COk l'.
Proof. intros _. apply weight_constraints_defined_any. Qed.
Section Problem.
  Variable tf : str -> option R.
  Variable q : mean_risk.
  Variable cs : list constr.
  Let pm := prior_ q.
  Let st := settings_ q.
  Let n := n_assets pm.
  Hypothesis Hs : 0 < scale st.
  Hypothesis Hc : costs_ok st.
  Hypothesis Hmip : is_mip n (params_ q) = false.
  Lemma uncertainty_scale k root t w : 0 < t -> mu_uncertainty n (Some (k, root)) (svec t w) = t * mu_uncertainty n (Some (k, root)) w.
  Proof.
    intros Ht. cbn [mu_uncertainty]. rewrite (sumn_ext n _ (fun i => (t * sumn n (fun j => root i j * w j)) ^ 2)).
    - rewrite sumsq_scale, sqrt_scale by (auto; apply sumsq_nonneg). ring.
    - intros i _. f_equal. rewrite <- sumn_scal. apply sumn_ext. unfold svec. intros; ring.
  Qed.
  Lemma er_scale t y p : 0 < t -> w_ p = svec t y -> f_ p = t -> er q p = t * expected q y.
  Proof.
    intros Ht Ew Ef. unfold er, expected_return. rewrite Ew, Ef. fold pm st n.
    replace (transaction_cost n (costs st) (previous st) (svec t y) t) with (t * total_cost pm st y).
    - rewrite mf_scale. unfold expected. fold pm st n. change (management_fee n (fees st) y) with (total_fee pm st y).
      replace (sumn n (fun i => coefficients q i * svec t y i)) with (t * sum_over (seq 0 n) (fun i => match overwrite_ q with Some c => c i | None => mu pm i end * y i)) by (rewrite <- so_scal; apply so_ext; intros; unfold svec, coefficients; destruct (overwrite_ q); unfold pm; ring).
      replace (mu_uncertainty n (mu_uncertainty_ q) (svec t y)) with (t * match mu_uncertainty_ q with Some (k, root) => k * norm2 q (fun i => sum_over (seq 0 n) (fun j => root i j * y j)) | None => 0 end); [ring|].
      destruct (mu_uncertainty_ q) as [[k root]|]; [|cbn; ring]. rewrite uncertainty_scale by auto. reflexivity.
    - rewrite <- cost_spec by exact Hc. rewrite <- cost_scale by auto. rewrite Rmult_1_r. reflexivity.
  Qed.
  Definition factor_ok (f : R) : Prop :=
    0 < f /\ (f = 1 \/ (max_tracking_error_ q = None /\ forall rm, ~ homogeneous rm -> limits_ q rm = None)).
  Lemma degree_hom rm : homogeneous rm -> degree rm = 1%nat. Proof. intros [H1 H2]. destruct rm; try reflexivity; congruence. Qed.
  Lemma hom_dec rm : homogeneous rm \/ ~ homogeneous rm. Proof. unfold homogeneous. destruct rm; try (left; split; discriminate); right; intros [H1 H2]; congruence. Qed.
  (** the parts of the problem *)
  Lemma problem_split p l : problem_constraints tf q p = COk l ->
    exists lt lw, turnover_constraints n (scale st) (if has_previous_ q then Some (previous st) else None) (max_turnover_ q) (w_ p) (f_ p) = COk lt
      /\ weight_constraints tf n (params_ q) (names_ q) (mip_solver_ q) true (is_ratio q) (scale st) (w_ p) (f_ p) (m_ p) = COk lw
      /\ (Forall holds_at l <->
            Forall holds_at (tracking_constraints n (n_obs pm) (scale st) (returns pm) (benchmark_ q) (max_tracking_error_ q) (w_ p) (f_ p))
            /\ Forall holds_at lt /\ Forall holds_at lw /\ Forall holds_at (min_return_constraints (scale st) (er q p) (min_return_ q) (f_ p))
            /\ Forall holds_at (risk_block q p)
            /\ (is_ratio q = true -> holds_at (ratio_constraint (scale st) (er q p) (risk_free_rate st) (homogenization_factor n (mu pm)) (f_ p) (is_affine n (costs st) (mu_uncertainty_ q))))).
  Proof.
    intros E. unfold problem_constraints in E. fold pm st n in E.
    apply capp_ok in E as (l1&r1&E1&E&->). apply capp_ok in E as (l2&r2&E2&E&->). apply capp_ok in E as (l3&r3&E3&E&->). apply capp_ok in E as (l4&r4&E4&E&->). apply capp_ok in E as (l5&l6&E5&E6&->).
    exists l2, l3. split; auto. split; auto. inversion E1; subst l1. inversion E4; subst l4. inversion E5; subst l5. inversion E6; subst l6. rewrite !Forall_app.
    destruct (is_ratio q); [|rewrite Forall_nil_iff]; [rewrite Forall_cons_iff, Forall_nil_iff|]; tauto || (split; [intros (A1&A2&A3&A4&A5&A6); repeat (split; auto); discriminate|intros (A1&A2&A3&A4&A5&A6); repeat (split; auto)]).
  Qed.
  Lemma risk_block_holds p : Forall holds_at (risk_block q p) <->
    forall rm, (risk_measure_ q = rm \/ limits_ q rm <> None) ->
      feasible_risk pm st rm (w_ p) (f_ p) (aux_of p rm) /\ opt (limits_ q rm) (fun l => risk_value pm st rm (w_ p) (f_ p) (aux_of p rm) <= l * f_ p).
  Proof.
    unfold risk_block. rewrite Forall_flat_map, Forall_forall. fold pm st. split.
    - intros H rm Hrm. specialize (H rm (all_measures rm)).
      assert (C: rm_eqb (risk_measure_ q) rm || is_some (limits_ q rm) = true). { apply orb_true_iff. destruct Hrm as [E|E]; [left; apply rm_eqb_spec; auto|right; destruct (limits_ q rm); [auto|congruence]]. }
      rewrite C, Forall_app in H. destruct H as [H1 H2]. split; auto. destruct (limits_ q rm) as [l|]; [|exact I]. inversion H2 as [|? ? H3 _]; subst. cbn [holds_at risk_limit_constraint opt] in *. nra.
    - intros H rm _. destruct (rm_eqb (risk_measure_ q) rm || is_some (limits_ q rm)) eqn:C; [|constructor].
      assert (Hrm: risk_measure_ q = rm \/ limits_ q rm <> None). { apply orb_true_iff in C as [E|E]; [left; apply rm_eqb_spec; auto|right; destruct (limits_ q rm); [discriminate|discriminate E]]. }
      destruct (H rm Hrm) as [H1 H2]. rewrite Forall_app. split; auto. destruct (limits_ q rm) as [l|]; [|constructor]. constructor; [|constructor]. cbn [holds_at risk_limit_constraint opt] in *. nra.
  Qed.
  Lemma scaled_risk rm p : 0 < f_ p -> feasible_risk pm st rm (w_ p) (f_ p) (aux_of p rm) ->
    exists a, feasible_risk pm st rm (weights p) 1 a /\ risk_value pm st rm (w_ p) (f_ p) (aux_of p rm) = f_ p ^ degree rm * risk_value pm st rm (weights p) 1 a.
  Proof.
    intros Hf H. assert (Hi: 0 < / f_ p) by (apply Rinv_0_lt_compat; auto). destruct (risk_homogeneous pm st rm _ _ _ (/ f_ p) Hi H) as [A B].
    rewrite svec_inv, Rinv_l in A, B by lra. exists (saux (/ f_ p) (aux_of p rm)). split; [exact A|]. unfold weights. rewrite B, <- Rmult_assoc, <- Rpow_mult_distr, Rinv_r by lra. rewrite pow1. ring.
  Qed.
  Theorem feasible_sound p : feasible tf q p -> factor_ok (f_ p) -> written_constraints tf n (params_ q) (names_ q) cs ->
    allowed tf q cs (weights p)
    /\ (is_ratio q = true -> homogenization_factor n (mu pm) <= f_ p * excess q (weights p)
        /\ (is_affine n (costs st) (mu_uncertainty_ q) = true -> homogenization_factor n (mu pm) = f_ p * excess q (weights p))).
  Proof.
    intros (_&l&E&Hl) [Hf Hh] Hcs. destruct (problem_split p l E) as (lt&lw&Et&Ew&Hall). apply Hall in Hl as (A1&A2&A3&A4&A5&A6). clear Hall.
    assert (Eer: er q p = f_ p * expected q (weights p)). { apply er_scale; auto. symmetry. apply reported_svec; auto. }
    split.
    - split; [|split; [|split; [|split]]].
      + apply (proj1 (C33_reported_weights tf n (params_ q) (names_ q) _ _ _ _ _ _ _ cs lw Hs Hf Hcs Ew) A3).
      + unfold turnover_ok. fold pm st n. destruct (max_turnover_ q) as [t|]; [|exact I]. cbn [opt]. destruct (has_previous_ q); [|discriminate]. apply (C33_turnover n (scale st) (previous st) t (w_ p) (f_ p) lt Hs Hf Et). exact A2.
      + unfold tracking_ok. fold pm st n. destruct (max_tracking_error_ q) as [t|] eqn:Ete; [|exact I]. destruct Hh as [Hh|[Hh _]]; [|discriminate]. cbn [opt tracking_constraints] in *. inversion A1 as [|? ? A _]; subst. cbn [holds_at] in A.
        assert (A': tracking_error n (n_obs pm) (returns pm) (benchmark_ q) (w_ p) (f_ p) <= t) by nra. revert A'. unfold tracking_error. rewrite Hh. intros A'.
        assert (EW: weights p = w_ p) by (unfold weights; rewrite Hh; extensionality i; unfold reported; field). rewrite EW.
        unfold sumn in A'. erewrite so_ext; [exact A'|]. intros k _. cbn beta. f_equal. rewrite Rmult_1_r. reflexivity.
      + destruct (min_return_ q) as [r|]; [|exact I]. cbn [opt min_return_constraints] in *. inversion A4 as [|? ? A _]; subst. cbn [holds_at] in A. rewrite Eer in A. apply Rmult_le_reg_r with (f_ p * scale st); nra.
      + intros rm L EL. rewrite risk_block_holds in A5. destruct (A5 rm ltac:(right; congruence)) as [B1 B2]. rewrite EL in B2. cbn [opt] in B2.
        destruct (scaled_risk rm p Hf B1) as (a&Ha&Ea). exists a. fold pm st. split; auto. rewrite Ea in B2. destruct Hh as [Hh|[_ Hh]].
        * rewrite Hh, pow1 in B2. lra.
        * destruct (hom_dec rm) as [H|H]; [|rewrite Hh in EL by auto; discriminate]. rewrite (degree_hom rm H), pow_1 in B2. nra.
    - intros Hr. specialize (A6 Hr). unfold ratio_constraint in A6. unfold excess. fold st. destruct (is_affine n (costs st) (mu_uncertainty_ q)); cbn [holds_at] in A6; rewrite Eer in A6.
      + assert (f_ p * expected q (weights p) - risk_free_rate st * f_ p = homogenization_factor n (mu pm)) by (apply Rmult_eq_reg_r with (scale st); lra). split; [lra|intros _; lra].
      + assert (homogenization_factor n (mu pm) <= f_ p * expected q (weights p) - risk_free_rate st * f_ p) by (apply Rmult_le_reg_r with (scale st); lra). split; [lra|discriminate].
  Qed.
  (** the weight constraints hold at the weights [y] with the factor [t], for some integer variables *)
  Definition reachable (y : vec) (t : R) : Prop :=
    exists m lw, weight_constraints tf n (params_ q) (names_ q) (mip_solver_ q) true (is_ratio q) (scale st) (svec t y) t m = COk lw /\ Forall holds_at lw.
  Lemma feasible_at y t r : factor_ok t ->
    (is_ratio q = true -> homogenization_factor n (mu pm) <= t * excess q y /\ (is_affine n (costs st) (mu_uncertainty_ q) = true -> homogenization_factor n (mu pm) = t * excess q y)) -> (is_ratio q = false -> t = 1) ->
    (exists x l, problem_constraints tf q x = COk l) -> allowed tf q cs y -> risk_at_most q (risk_measure_ q) y r -> reachable y t ->
    exists p, feasible tf q p /\ w_ p = svec t y /\ f_ p = t /\ risk q p <= t ^ degree (risk_measure_ q) * r.
  Proof.
    intros [Ht Hh] Hr1 Hr2 (px&lx&Ex) (D1&D2&D3&D4&D5) Hr (m&lw&Elw&Hlw).
    set (d := smallest (fun k => ptf_returns pm y k - cost pm st y 1 - fee pm st y)).
    set (P := fun rm a => (risk_measure_ q = rm \/ limits_ q rm <> None) -> feasible_risk pm st rm y 1 (with_dd a d)
      /\ opt (limits_ q rm) (fun l => risk_value pm st rm y 1 (with_dd a d) <= l) /\ (risk_measure_ q = rm -> risk_value pm st rm y 1 (with_dd a d) <= r)).
    assert (X: exists A, forall rm, P rm (A rm)).
    { apply choose_aux. intros rm. unfold P.
      assert (Y: forall a, feasible_risk pm st rm y 1 a -> feasible_risk pm st rm y 1 (with_dd a d) /\ risk_value pm st rm y 1 (with_dd a d) <= risk_value pm st rm y 1 a) by (intros a; apply share_dd; exact Hs).
      destruct (rm_eqb (risk_measure_ q) rm) eqn:C.
      - apply rm_eqb_spec in C. destruct Hr as (a&Ha&Va). rewrite C in Ha, Va. destruct (limits_ q rm) as [L|] eqn:EL.
        + destruct (D5 rm L EL) as (b&Hb&Vb). fold pm st in Hb, Vb. destruct (Rle_dec (risk_value pm st rm y 1 a) L) as [G|G].
          * exists a. intros _. destruct (Y a Ha) as [Y1 Y2]. split; auto. fold pm st in Va. cbn [opt]. split; [lra|intros _; lra].
          * exists b. intros _. destruct (Y b Hb) as [Y1 Y2]. split; auto. fold pm st in Va. cbn [opt]. split; [lra|intros _; lra].
        + exists a. intros _. destruct (Y a Ha) as [Y1 Y2]. split; auto. split; [exact I|]. fold pm st in Va. intros _; lra.
      - destruct (limits_ q rm) as [L|] eqn:EL.
        + destruct (D5 rm L EL) as (b&Hb&Vb). fold pm st in Hb, Vb. exists b. intros _. destruct (Y b Hb) as [Y1 Y2]. split; auto. cbn [opt]. split; [lra|]. intros E. apply rm_eqb_spec in E. congruence.
        + exists aux0. intros [E|E]; [apply rm_eqb_spec in E; congruence|congruence]. }
    destruct X as (A&HA). unfold P in HA. set (p := {| w_ := svec t y; f_ := t; m_ := m; a_ := fun rm => saux t (A rm); common_dd := svec t d |}).
    assert (Eaux: forall rm, aux_of p rm = saux t (with_dd (A rm) d)) by reflexivity.
    assert (Eer: er q p = t * expected q y) by (apply er_scale; auto).
    assert (RS: forall rm, feasible_risk pm st rm y 1 (with_dd (A rm) d) -> feasible_risk pm st rm (w_ p) (f_ p) (aux_of p rm) /\ risk_value pm st rm (w_ p) (f_ p) (aux_of p rm) = t ^ degree rm * risk_value pm st rm y 1 (with_dd (A rm) d)).
    { intros rm H. rewrite Eaux. cbn [w_ f_ p]. pose proof (risk_homogeneous pm st rm y 1 _ t Ht H) as G. rewrite Rmult_1_r in G. exact G. }
    destruct (problem_split px lx Ex) as (ltx&lwx&Etx&Ewx&_).
    assert (Tp: exists lt, turnover_constraints n (scale st) (if has_previous_ q then Some (previous st) else None) (max_turnover_ q) (w_ p) (f_ p) = COk lt).
    { unfold turnover_constraints in *. destruct (max_turnover_ q); [destruct (has_previous_ q); [|discriminate]|]; eexists; reflexivity. }
    destruct Tp as (ltp&Etp).
    assert (Ep: exists l, problem_constraints tf q p = COk l). { unfold problem_constraints. fold pm st n. cbn [w_ f_ m_ p]. cbn [w_ f_ p] in Etp. rewrite Etp, Elw. eexists. reflexivity. }
    destruct Ep as (l&El). exists p. split; [|split; [reflexivity|split; [reflexivity|]]].
    - split; [destruct (is_ratio q) eqn:Ei; [left; auto|right; cbn; auto]|]. exists l. split; auto. destruct (problem_split p l El) as (lt'&lw'&Et'&Ew'&Hall). apply Hall. clear Hall.
      rewrite Etp in Et'. inversion Et'; subst lt'. cbn [w_ f_ m_ p] in Ew'. rewrite Elw in Ew'. inversion Ew'; subst lw'. split; [|split; [|split; [|split; [|split]]]].
      + unfold tracking_constraints. destruct (max_tracking_error_ q) as [te|] eqn:Ete; [|constructor]. destruct Hh as [Hh|[Hh _]]; [|discriminate]. unfold tracking_ok in D3. rewrite Ete in D3. cbn [opt] in D3. fold pm n in D3.
        constructor; [|constructor]. cbn [holds_at w_ f_ p]. apply Rmult_le_compat_r; [lra|]. unfold tracking_error. rewrite Hh. assert (EW: svec 1 y = y) by (extensionality i; unfold svec; ring). rewrite EW.
        unfold sumn. erewrite so_ext; [exact D3|]. intros k _. cbn beta. f_equal. rewrite Rmult_1_r. reflexivity.
      + unfold turnover_ok in D2. fold pm st n in D2. destruct (max_turnover_ q) as [mt|]; [|inversion Etp; constructor]. cbn [opt] in D2. destruct (has_previous_ q); [|discriminate].
        apply (C33_turnover n (scale st) (previous st) mt (w_ p) (f_ p) ltp Hs Ht Etp). cbn [w_ f_ p]. rewrite svec_reported by auto. exact D2.
      + exact Hlw.
      + unfold min_return_constraints. destruct (min_return_ q) as [mr|]; [|constructor]. constructor; [|constructor]. cbn [holds_at opt f_ p] in *. rewrite Eer. apply Rmult_le_compat_r; [lra|]. rewrite Rmult_comm. apply Rmult_le_compat_l; lra.
      + apply risk_block_holds. intros rm Hrm. destruct (HA rm Hrm) as (H1&H2&_). destruct (RS rm H1) as [H3 H4]. split; auto. destruct (limits_ q rm) as [L|] eqn:EL; [|exact I]. cbn [opt] in *. rewrite H4. cbn [f_ p]. destruct Hh as [Hh|[_ Hh]].
        * rewrite Hh, pow1. lra.
        * destruct (hom_dec rm) as [G|G]; [|rewrite Hh in EL by auto; discriminate]. rewrite (degree_hom rm G), pow_1. nra.
      + intros Ei. destruct (Hr1 Ei) as [R1 R2]. unfold ratio_constraint. rewrite Eer. cbn [f_ p]. unfold excess in R1, R2. fold st in R1, R2. destruct (is_affine n (costs st) (mu_uncertainty_ q)); cbn [holds_at]; [rewrite R2 by auto; ring|].
        replace (t * expected q y * scale st - risk_free_rate st * t * scale st) with (t * (expected q y - risk_free_rate st) * scale st) by ring. apply Rmult_le_compat_r; lra.
    - unfold risk. fold pm st. destruct (HA (risk_measure_ q) (or_introl eq_refl)) as (H1&_&H3). destruct (RS _ H1) as [_ H4]. rewrite H4. apply Rmult_le_compat_l; [left; apply pow_lt; auto|]. apply H3. reflexivity.
  Qed.
  Lemma reachable_continuous y t : 0 < t -> is_mip n (params_ q) = false -> accepted tf q cs -> allowed tf q cs y -> reachable y t.
  Proof.
    intros Ht Hm (Hcs&px&lx&Ex) D. destruct (problem_split px lx Ex) as (ltx&lwx&Etx&Ewx&_).
    destruct (weight_constraints_defined tf n (params_ q) (names_ q) _ _ _ _ _ _ _ _ (svec t y) t no_mip Hm Ewx) as (lw&Elw). exists no_mip, lw. split; auto.
    apply (proj2 (C33_reported_weights tf n (params_ q) (names_ q) _ _ _ _ _ _ _ cs lw Hs Ht Hcs Elw) Hm). rewrite svec_reported by auto. exact (proj1 D).
  Qed.
  Lemma reachable_mixed y t : 0 < t <= 1000 -> (is_ratio q = false -> t = 1) -> (forall i, (i < n)%nat -> -1000 <= t * y i <= 1000) -> groups_ok n (params_ q) ->
    accepted tf q cs -> allowed tf q cs y -> within_cardinalities n (params_ q) y -> within_thresholds n (params_ q) y -> reachable y t.
  Proof.
    intros Ht H1 HM Hg (Hcs&px&lx&Ex) D Wc Wt. destruct (problem_split px lx Ex) as (ltx&lwx&Etx&Ewx&_).
    destruct (weight_constraints_defined_any tf n (params_ q) (names_ q) _ _ _ _ _ _ _ _ (svec t y) t (m_ px) Ewx) as (l0&E0).
    apply (C34_complete tf n (params_ q) (names_ q) _ _ _ _ (svec t y) t (m_ px) cs l0); auto; rewrite svec_reported by lra; auto. exact (proj1 D).
  Qed.
  Theorem feasible_complete y t r : factor_ok t ->
    (is_ratio q = true -> homogenization_factor n (mu pm) <= t * excess q y /\ (is_affine n (costs st) (mu_uncertainty_ q) = true -> homogenization_factor n (mu pm) = t * excess q y)) -> (is_ratio q = false -> t = 1) ->
    accepted tf q cs -> allowed tf q cs y -> risk_at_most q (risk_measure_ q) y r ->
    exists p, feasible tf q p /\ w_ p = svec t y /\ f_ p = t /\ risk q p <= t ^ degree (risk_measure_ q) * r.
  Proof.
    intros Ht Hr1 Hr2 Ha D Hr. apply feasible_at; auto; [exact (proj2 Ha)|]. apply reachable_continuous; auto. exact (proj1 Ht).
  Qed.
  Lemma risk_lower p rx : feasible tf q p -> 0 < f_ p -> risk_is q (risk_measure_ q) (weights p) rx -> f_ p ^ degree (risk_measure_ q) * rx <= risk q p.
  Proof.
    intros (_&l&E&Hl) Hf [_ Hx]. destruct (problem_split p l E) as (lt&lw&Et&Ew&Hall). apply Hall in Hl as (_&_&_&_&A5&_). rewrite risk_block_holds in A5. destruct (A5 _ (or_introl eq_refl)) as [B1 _].
    destruct (scaled_risk _ p Hf B1) as (a&Ha&Ea). unfold risk. fold pm st. rewrite Ea. apply Rmult_le_compat_l; [left; apply pow_lt; auto|]. apply Hx. exact Ha.
  Qed.
  Lemma l1_scale t y : 0 < t -> sumn n (fun i => Rabs (svec t y i)) = t * sumn n (fun i => Rabs (y i)).
  Proof. intros Ht. rewrite <- sumn_scal. apply sumn_ext. intros i _. unfold svec. rewrite Rabs_mult, (Rabs_right t) by lra. reflexivity. Qed.
End Problem.

