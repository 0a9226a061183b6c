(** C94: the unit in which returns are expressed is irrelevant to MeanRisk.  The code is that of MeanRiskModel.v, ConvexModel.v and
    RiskModel.v. *)
From Coq Require Import List ZArith Bool Arith Lia Reals Lra Permutation FunctionalExtensionality.
From Verif Require Import RList EquationsModel MeasuresModel ConvexModel RiskModel MeanRiskModel MaxDivModel BudgetingModel MomentsModel ComposeModel ConvexMoreProps MeanRiskProps MeanRiskOptimalProps ReorderProps.
Import ListNotations.
Local Open Scope R_scope.

(** * Specification *)
(** one unit of the old returns is [l] units of the new ones (percentages: l = 100) *)
Definition times_input (l : R) (c : input) : input := match c with Scalar x => Scalar (l * x) | PerAsset v => PerAsset (fun i => l * v i) end.
(** the power of the unit in a measure *)
Definition power (rm : risk_measure) : nat := match rm with VARIANCE | SEMI_VARIANCE => 2 | _ => 1 end%nat.
(** the unit of the objective *)
Definition objective_unit (l : R) (q : mean_risk) : R :=
  match objective_ q with MINIMIZE_RISK | MAXIMIZE_RATIO => l ^ power (risk_measure_ q) | MAXIMIZE_RETURN | MAXIMIZE_UTILITY => l end.
Definition unit_settings (l : R) (st : settings) : settings :=
  {| costs := times_input l (costs st); previous := previous st; fees := times_input l (fees st); mar := option_map (times_input l) (mar st);
     risk_free_rate := l * risk_free_rate st; cvar_beta := cvar_beta st; evar_beta := evar_beta st; cdar_beta := cdar_beta st;
     edar_beta := edar_beta st; scale := scale st |}.
(** the problem in the new unit: returns, expected returns, costs, fees, benchmark, limits and target are converted; weights and turnovers have no
    unit; regularisation has the unit of the objective and the risk aversion is return per risk *)
Definition unit_problem (l : R) (factor' root' : nat -> vec) (q : mean_risk) : mean_risk :=
  {| prior_ := {| n_assets := n_assets (prior_ q); n_obs := n_obs (prior_ q); returns := fun o i => l * returns (prior_ q) o i;
                  mu := fun i => l * mu (prior_ q) i; cholesky := factor' |};
     settings_ := unit_settings l (settings_ q); params_ := params_ q; names_ := names_ q; mip_solver_ := mip_solver_ q;
     objective_ := objective_ q; risk_measure_ := risk_measure_ q;
     limits_ := fun rm => option_map (fun x => l ^ power rm * x) (limits_ q rm); min_return_ := option_map (Rmult l) (min_return_ q);
     max_turnover_ := max_turnover_ q; has_previous_ := has_previous_ q; max_tracking_error_ := option_map (Rmult l) (max_tracking_error_ q);
     benchmark_ := fun o => l * benchmark_ q o; mu_uncertainty_ := option_map (fun u => (fst u, root')) (mu_uncertainty_ q);
     l1_ := objective_unit l q * l1_ q; l2_ := objective_unit l q * l2_ q;
     risk_aversion_ := l / l ^ power (risk_measure_ q) * risk_aversion_ q; scale_objective_ := scale_objective_ q;
     overwrite_ := option_map (fun c i => l * c i) (overwrite_ q) |}.
(** [factor'] and [root'] factorise the matrices in the new unit *)
Definition factors_converted (l : R) (factor' root' : nat -> vec) (q : mean_risk) : Prop :=
  let n := n_assets (prior_ q) in
  forall i j, (i < n)%nat -> (j < n)%nat ->
    covariance n factor' i j = l ^ 2 * covariance n (cholesky (prior_ q)) i j
    /\ (forall k root, mu_uncertainty_ q = Some (k, root) -> square n root' i j = l ^ 2 * square n root i j).
(** What the normalisation of the ratio leaves out.  The problem of MAXIMIZE_RATIO is stated on multiples of the weights, whose size is set by the
    mean absolute expected return, bounded to [0.001, 1000]; when the bounds are reached in one unit only the size changes, and nothing may depend
    on it: no mixed-integer constraint, tracking error, limit on a variance or regularisation. *)
Definition size_free (q : mean_risk) : Prop :=
  is_mip (n_assets (prior_ q)) (params_ q) = false /\ max_tracking_error_ q = None
  /\ (forall rm, power rm = 2%nat -> limits_ q rm = None) /\ l1_ q = 0 /\ l2_ q = 0.
Definition normalised_alike (l : R) (q : mean_risk) : Prop :=
  let h := homogenization_factor (n_assets (prior_ q)) in
  h (fun i => l * mu (prior_ q) i) = l * h (mu (prior_ q)).

Definition unit_aux (k : R) (a : aux) : aux :=
  {| alpha := k * alpha a; u := k * u a; ex := k * ex a; ey := k * ey a; v := fun i => k * v a i; z := fun i => k * z a i;
     gx := fun i => k * gx a i; gy := fun i => k * gy a i; dd := fun i => k * dd a i |}.
Definition times_vars (c : R) (m : mip_vars) : mip_vars :=
  {| invested := invested m; invested_factor := fun i => c * invested_factor m i; short := short m; long := long m;
     short_factor := fun i => c * short_factor m i; long_factor := fun i => c * long_factor m i |}.
(** the same investment of size multiplied by [c] *)
Definition unit_point (l c : R) (x : point) : point :=
  {| w_ := fun i => c * w_ x i; f_ := c * f_ x; m_ := times_vars c (m_ x); a_ := fun rm => unit_aux (l * c) (a_ x rm);
     common_dd := fun i => l * c * common_dd x i |}.

(** * Proofs *)
Lemma le_iff k a b a' b' : 0 < k -> a' = k * a -> b' = k * b -> (a' <= b' <-> a <= b).
Proof. intros K -> ->. split; intros H; [now apply (Rmult_le_reg_l k) in H|apply Rmult_le_compat_l; lra]. Qed.
Lemma eq_iff2 k a b a' b' : 0 < k -> a' = k * a -> b' = k * b -> (a' = b' <-> a = b).
Proof. intros K -> ->. split; [intros H; apply (Rmult_eq_reg_l k); lra|now intros ->]. Qed.
Lemma cone_iff k x y z x' y' z' : 0 < k -> x' = k * x -> y' = k * y -> z' = k * z ->
  (holds_at (ExpCone x' y' z') <-> holds_at (ExpCone x y z)).
Proof.
  intros K -> -> ->. cbn [holds_at].
  assert (P : 0 < k * y <-> 0 < y) by (split; intros; [apply (Rmult_lt_reg_l k); lra|now apply Rmult_lt_0_compat]).
  assert (Z : k * y = 0 <-> y = 0) by (split; [intros H; apply Rmult_integral in H; lra|intros ->; ring]).
  assert (X : k * x <= 0 <-> x <= 0) by (apply (le_iff k); lra).
  assert (Y : 0 <= k * z <-> 0 <= z) by (apply (le_iff k); lra).
  assert (E : 0 < y -> (k * y * exp (k * x / (k * y)) <= k * z <-> y * exp (x / y) <= z)).
  { intros H. apply (le_iff k); try lra. replace (k * x / (k * y)) with (x / y) by (field; lra). ring. }
  tauto.
Qed.
Lemma elem_iff n (c c' : nat -> constraint) : (forall i, holds_at (c' i) <-> holds_at (c i)) ->
  (Forall holds_at (elementwise n c') <-> Forall holds_at (elementwise n c)).
Proof.
  intros H. unfold elementwise. induction (seq 0 n) as [|i l IH]; cbn; [split; constructor|]. rewrite !Forall_cons_iff, IH, H. tauto.
Qed.
Lemma one_iff c c' : (holds_at c' <-> holds_at c) -> (Forall holds_at [c'] <-> Forall holds_at [c]).
Proof. intros H. rewrite !Forall_cons_iff, H. tauto. Qed.
Lemma sumn_times n k (a a' : vec) : (forall i, a' i = k * a i) -> sumn n a' = k * sumn n a.
Proof. intros H. unfold sumn. rewrite <- so_scal. apply so_ext. intros i _. apply H. Qed.
Lemma abs_times k x : 0 < k -> Rabs (k * x) = k * Rabs x.
Proof. intros H. rewrite Rabs_mult, (Rabs_pos_eq k); lra. Qed.
Lemma sqrt_times k x : 0 < k -> sqrt (k ^ 2 * x) = k * sqrt x.
Proof.
  intros H. destruct (Rle_dec 0 x) as [P|P].
  - rewrite sqrt_mult by (try apply pow2_ge_0; assumption). rewrite sqrt_pow2 by lra. reflexivity.
  - rewrite !sqrt_neg_0; [ring|lra|]. assert (0 < k ^ 2) by (apply pow_lt; assumption). nra.
Qed.

Section Unit.
Variables (l c : R) (factor' root' : nat -> vec) (q : mean_risk) (to_float : str -> option R).
Hypothesis L : 0 < l.
Hypothesis C : 0 < c.
Hypothesis F : factors_converted l factor' root' q.
Let q' := unit_problem l factor' root' q.
Let n := n_assets (prior_ q).
Let k := l * c.
Lemma K : 0 < k. Proof. now apply Rmult_lt_0_compat. Qed.
Notation tw w := (fun i => c * w i).
Lemma value_times p i : value (times_input l p) i = l * value p i.
Proof. now destruct p. Qed.
Lemma zero_times x : eqb0 (l * x) = eqb0 x.
Proof. unfold eqb0. destruct (Req_EM_T (l * x) 0) as [E|E], (Req_EM_T x 0) as [G|G]; auto; exfalso; [apply Rmult_integral in E; lra|apply E; rewrite G; ring]. Qed.
Lemma cost_unit p w f : transaction_cost n (times_input l p) (previous (settings_ q)) (tw w) (c * f) = k * transaction_cost n p (previous (settings_ q)) w f.
Proof.
  unfold transaction_cost.
  assert (E : all n (fun i => eqb0 (value (times_input l p) i)) = all n (fun i => eqb0 (value p i)))
    by (f_equal; apply functional_extensionality; intros i; now rewrite value_times, zero_times).
  rewrite E. destruct (all n (fun i => eqb0 (value p i))); [symmetry; apply Rmult_0_r|]. destruct p as [x|v]; cbn [times_input].
  - rewrite (sumn_times n c (fun i => Rabs (value (previous (settings_ q)) i * f - w i))); [unfold k; ring|]. intros i. rewrite <- abs_times by exact C. f_equal. ring.
  - apply sumn_times. intros i. rewrite <- abs_times by apply K. f_equal. unfold k. ring.
Qed.
Lemma fee_unit p w : management_fee n (times_input l p) (tw w) = k * management_fee n p w.
Proof. unfold management_fee. apply sumn_times. intros i. rewrite value_times. unfold k. ring. Qed.
Lemma id_order m : order m (fun i => i) (fun i => i).
Proof. repeat split; auto. Qed.
Lemma norm_unit (G G' : nat -> vec) w :
  (forall i j, (i < n)%nat -> (j < n)%nat -> sumn n (fun a => G' a i * G' a j) = l ^ 2 * sumn n (fun a => G a i * G a j)) ->
  sumn n (fun a => sumn n (fun i => G' a i * (c * w i)) ^ 2) = k ^ 2 * sumn n (fun a => sumn n (fun i => G a i * w i) ^ 2).
Proof.
  intros H. transitivity (sumn n (fun a => sumn n (fun i => (l * G a i) * (c * w i)) ^ 2)).
  2:{ apply sumn_times. intros a. rewrite (sumn_times n k (fun i => G a i * w i)) by (intros i; unfold k; ring). ring. }
  apply (quadratic n (fun i => i) (fun i => i) (id_order n) G' (fun a i => l * G a i) (tw w)).
  intros i j Hi Hj. rewrite H by assumption. symmetry. apply sumn_times. intros a. ring.
Qed.
Lemma uncertainty_unit w : mu_uncertainty n (mu_uncertainty_ q') (tw w) = k * mu_uncertainty n (mu_uncertainty_ q) w.
Proof.
  unfold q', mu_uncertainty. cbn [unit_problem mu_uncertainty_]. destruct (mu_uncertainty_ q) as [[e root]|] eqn:E; [|cbn; ring]. cbn [option_map fst].
  rewrite (norm_unit root root'); [rewrite sqrt_times by apply K; ring|]. intros i j Hi Hj. destruct (F i j Hi Hj) as [_ U]. apply (U e root E).
Qed.
Lemma er_unit x : er q' (unit_point l c x) = k * er q x.
Proof.
  unfold er, expected_return. pose proof (uncertainty_unit (w_ x)) as U. unfold q' in *.
  cbn [unit_problem prior_ n_assets settings_ unit_settings costs previous fees unit_point w_ f_] in *. fold n. rewrite U, cost_unit, fee_unit.
  rewrite (sumn_times n k (fun i => coefficients q i * w_ x i)); [ring|]. intros i. unfold coefficients. cbn [unit_problem overwrite_ prior_ mu].
  destruct (overwrite_ q); cbn [option_map]; unfold k; ring.
Qed.
Lemma returns_unit w o : ptf_returns (prior_ q') (tw w) o = k * ptf_returns (prior_ q) w o.
Proof. unfold ptf_returns, q'. cbn [unit_problem prior_ n_assets returns]. apply sumn_times. intros i. unfold k. ring. Qed.
Lemma min_acceptable_unit w o : min_acceptable (prior_ q') (settings_ q') (tw w) o = k * min_acceptable (prior_ q) (settings_ q) w o.
Proof.
  unfold min_acceptable, q'. cbn [unit_problem prior_ n_assets returns mu settings_ unit_settings mar]. apply sumn_times. intros i.
  destruct (mar (settings_ q)) as [m|]; cbn [option_map]; [rewrite value_times|]; unfold k; ring.
Qed.
Lemma deviation_unit w sc : sqrt (sumn n (fun a => (sumn n (fun i => factor' i a * (c * w i)) * sc) ^ 2))
  = k * sqrt (sumn n (fun a => (sumn n (fun i => cholesky (prior_ q) i a * w i) * sc) ^ 2)).
Proof.
  assert (E : forall (G : nat -> vec) v, sumn n (fun a => (sumn n (fun i => G i a * v i) * sc) ^ 2) = sc ^ 2 * sumn n (fun a => sumn n (fun i => G i a * v i) ^ 2)).
  { intros G v. apply sumn_times. intros a. ring. }
  rewrite !E, (norm_unit (fun a i => cholesky (prior_ q) i a) (fun a i => factor' i a)).
  - rewrite <- sqrt_times by apply K. f_equal. ring.
  - intros i j Hi Hj. destruct (F i j Hi Hj) as [H _]. exact H.
Qed.
Lemma risk_value_unit rm w f a :
  risk_value (prior_ q') (settings_ q') rm (tw w) (c * f) (unit_aux k a) = k ^ power rm * risk_value (prior_ q) (settings_ q) rm w f a.
Proof.
  pose proof K as PK.
  assert (S1 : forall (g : nat -> R), sumn (n_obs (prior_ q)) (fun t => k * g t) = k * sumn (n_obs (prior_ q)) g) by (intros g; now apply sumn_times).
  assert (S2 : forall (g : nat -> R), sumn (n_obs (prior_ q)) (fun t => (k * g t) ^ 2) = k ^ 2 * sumn (n_obs (prior_ q)) (fun t => g t ^ 2))
    by (intros g; apply sumn_times; intros; ring).
  unfold q'. destruct rm; cbn [risk_value power unit_problem prior_ settings_ unit_settings n_obs unit_aux alpha u ex ey v z gx gy dd cvar_beta evar_beta cdar_beta edar_beta].
  all: try (rewrite S1). all: try rewrite (S1 (fun t => dd a (S t))). all: try rewrite (S2 (v a)). all: try rewrite (S2 (fun t => dd a (S t))).
  all: try rewrite sqrt_times by exact PK. all: try (unfold Rdiv; ring).
  rewrite (sumn_times _ k (fun t => gx a t + gy a t)) by (intros; ring). ring.
Qed.
Ltac lin := first [apply (le_iff k); [apply K| |]|apply (eq_iff2 k); [apply K| |]|apply (cone_iff k); [apply K| | |]].
Ltac ap := repeat (apply app_iff); first [apply elem_iff; intros ?t|apply one_iff].
Lemma cost_unit2 w f : cost (prior_ q') (settings_ q') (tw w) (c * f) = k * cost (prior_ q) (settings_ q) w f.
Proof. apply cost_unit. Qed.
Lemma fee_unit2 w : fee (prior_ q') (settings_ q') (tw w) = k * fee (prior_ q) (settings_ q) w.
Proof. apply fee_unit. Qed.
Lemma drawdown_unit w f a : Forall holds_at (drawdown_constraints (prior_ q') (settings_ q') (tw w) (c * f) (unit_aux k a))
  <-> Forall holds_at (drawdown_constraints (prior_ q) (settings_ q) w f a).
Proof.
  unfold drawdown_constraints. rewrite cost_unit2, fee_unit2. change (n_obs (prior_ q')) with (n_obs (prior_ q)). change (scale (settings_ q')) with (scale (settings_ q)).
  cbn [unit_aux dd]. repeat apply app_iff; first [apply elem_iff; intros t|apply one_iff]; cbn [holds_at]; rewrite ?returns_unit; lin; ring.
Qed.
Lemma nonneg_unit (x : vec) : Forall holds_at (nonneg (prior_ q') (fun i => k * x i)) <-> Forall holds_at (nonneg (prior_ q) x).
Proof. unfold nonneg. change (n_obs (prior_ q')) with (n_obs (prior_ q)). apply elem_iff. intros t. cbn [holds_at]. lin; ring. Qed.
Lemma flat_iff (xs : list nat) (g g' : nat -> list constraint) : (forall i, Forall holds_at (g' i) <-> Forall holds_at (g i)) ->
  (Forall holds_at (flat_map g' xs) <-> Forall holds_at (flat_map g xs)).
Proof. intros H. induction xs as [|i xs IH]; cbn; [split; constructor|]. now apply app_iff. Qed.
Lemma risk_constraints_unit rm w f a :
  Forall holds_at (risk_constraints (prior_ q') (settings_ q') rm (tw w) (c * f) (unit_aux k a))
  <-> Forall holds_at (risk_constraints (prior_ q) (settings_ q) rm w f a).
Proof.
  pose proof (drawdown_unit w f a) as D. pose proof K as PK.
  unfold risk_constraints. rewrite cost_unit2, fee_unit2. change (n_obs (prior_ q')) with (n_obs (prior_ q)). change (scale (settings_ q')) with (scale (settings_ q)).
  assert (V : Forall holds_at (nonneg (prior_ q') (v (unit_aux k a))) <-> Forall holds_at (nonneg (prior_ q) (v a))) by apply nonneg_unit.
  assert (Z : Forall holds_at (nonneg (prior_ q') (z (unit_aux k a))) <-> Forall holds_at (nonneg (prior_ q) (z a))) by apply nonneg_unit.
  assert (X : forall t, ptf_returns (prior_ q') (tw w) t = k * ptf_returns (prior_ q) w t) by apply returns_unit.
  assert (M : forall t, min_acceptable (prior_ q') (settings_ q') (tw w) t = k * min_acceptable (prior_ q) (settings_ q) w t) by apply min_acceptable_unit.
  assert (SD : Forall holds_at [Le 0 (u (unit_aux k a)); Le (sqrt (sumn n (fun b => (sumn n (fun i => factor' i b * (c * w i)) * scale (settings_ q)) ^ 2))) (u (unit_aux k a) * scale (settings_ q))]
    <-> Forall holds_at [Le 0 (u a); Le (sqrt (sumn n (fun b => (sumn n (fun i => cholesky (prior_ q) i b * w i) * scale (settings_ q)) ^ 2))) (u a * scale (settings_ q))]).
  { rewrite deviation_unit. rewrite !Forall_cons_iff. cbn [holds_at unit_aux u].
    rewrite (le_iff k 0 (u a) 0 (k * u a)), (le_iff k _ (u a * scale (settings_ q)) _ (k * u a * scale (settings_ q)) K eq_refl) by (try apply K; ring). split; intros (A & B & _); auto. }
  assert (Y0 : Forall holds_at [Le 0 (ey (unit_aux k a))] <-> Forall holds_at [Le 0 (ey a)]) by (apply one_iff; cbn [holds_at unit_aux ey]; lin; ring).
  assert (Y1 : Forall holds_at [Le (sumn (n_obs (prior_ q)) (z (unit_aux k a)) * scale (settings_ q)) (ey (unit_aux k a) * scale (settings_ q))]
    <-> Forall holds_at [Le (sumn (n_obs (prior_ q)) (z a) * scale (settings_ q)) (ey a * scale (settings_ q))]).
  { apply one_iff. cbn [holds_at unit_aux ey z]. rewrite (sumn_times _ k (z a)) by reflexivity. lin; ring. }
  assert (Y2 : Forall holds_at [Le 0 (ey (unit_aux k a)); Le (sumn (n_obs (prior_ q)) (z (unit_aux k a)) * scale (settings_ q)) (ey (unit_aux k a) * scale (settings_ q))]
    <-> Forall holds_at [Le 0 (ey a); Le (sumn (n_obs (prior_ q)) (z a) * scale (settings_ q)) (ey a * scale (settings_ q))]) by (apply (app_iff [_] [_] [_] [_] Y0 Y1)).
  assert (B1 : forall A B A' B', (A' <-> A) -> (B' <-> B) -> (A' /\ B' <-> A /\ B)) by tauto.
  assert (Tt : forall (g g' : nat -> constraint), (forall t, holds_at (g' t) <-> holds_at (g t)) ->
     (Forall holds_at (elementwise (n_obs (prior_ q)) g') <-> Forall holds_at (elementwise (n_obs (prior_ q)) g))) by (intros g g' H; now apply elem_iff).
  destruct rm; rewrite ?Forall_app; repeat apply B1; try exact V; try exact Z; try exact D; try exact SD; try exact Y0; try exact Y1; try exact Y2.
  all: try (apply Tt; intros t; cbn [holds_at]; rewrite ?X, ?M; cbn [unit_aux alpha u ex ey v z gx gy dd]; lin; try ring).
  all: try (change (risk_free_rate (settings_ q')) with (l * risk_free_rate (settings_ q)); unfold k; ring).
  apply flat_iff. intros i. apply Tt. intros t. cbn [holds_at unit_aux z gx gy]. change (gmd_weight (prior_ q') t) with (gmd_weight (prior_ q) t). lin; ring.
Qed.

Hypothesis Size : c = 1 \/ size_free q.
Hypothesis Unscaled : is_ratio q = false -> c = 1.
Hypothesis Normal : is_ratio q = true -> homogenization_factor n (fun i => l * mu (prior_ q) i) = k * homogenization_factor n (mu (prior_ q)).
Notation up := (unit_point l c).
Lemma one_vec (x : vec) : (fun i => 1 * x i) = x.
Proof. apply functional_extensionality. intros i. ring. Qed.
Lemma one_vars m : times_vars 1 m = m.
Proof. destruct m. unfold times_vars. cbn. now rewrite !one_vec. Qed.
Lemma mip_unit p sc fv w f m : p = params_ q -> same (mip_constraints n p sc fv (tw w) (c * f) (times_vars c m)) (mip_constraints n p sc fv w f m).
Proof.
  intros ->. destruct Size as [->|(E & _)].
  - rewrite one_vec, one_vars, Rmult_1_l. destruct (mip_constraints _ _ _ _ _ _ _); cbn; tauto.
  - unfold mip_constraints. fold n in E. rewrite E. cbn. tauto.
Qed.
Lemma row_unit row w : rowdotn n row (tw w) = c * rowdotn n row w.
Proof. unfold rowdotn. apply sumn_times. intros i. ring. Qed.
Lemma map_iff {A} (g g' : A -> constraint) xs : (forall x, holds_at (g' x) <-> holds_at (g x)) -> (Forall holds_at (map g' xs) <-> Forall holds_at (map g xs)).
Proof. intros H. induction xs as [|x xs IH]; cbn; [split; constructor|]. rewrite !Forall_cons_iff, IH, H. tauto. Qed.
Ltac lc := first [apply (le_iff c); [exact C| |]|apply (eq_iff2 c); [exact C| |]]; try ring.
Lemma pos_part x : Rmax (c * x) 0 = c * Rmax x 0.
Proof. rewrite <- (Rmult_0_r c) at 1. apply RmaxRmult. lra. Qed.
Lemma weight_unit mip fv sc w f m :
  same (weight_constraints to_float n (params_ q) (names_ q) mip true fv sc (tw w) (c * f) (times_vars c m))
       (weight_constraints to_float n (params_ q) (names_ q) mip true fv sc w f m).
Proof.
  unfold weight_constraints. destruct (_ && _); [reflexivity|].
  assert (W : sumn n (tw w) = c * sumn n w) by now apply sumn_times.
  assert (W1 : sumn n (fun i => Rmax (c * w i) 0) = c * sumn n (fun i => Rmax (w i) 0)) by (apply sumn_times; intros; apply pos_part).
  assert (W2 : sumn n (fun i => Rmax (- (c * w i)) 0) = c * sumn n (fun i => Rmax (- w i) 0))
    by (apply sumn_times; intros i; rewrite <- pos_part; f_equal; ring).
  rewrite W, W1, W2.
  apply same_app; [destruct (min_weights (params_ q)); [destruct (_ && _); [reflexivity|]; apply same_ok, elem_iff; intros i; cbn [holds_at]; lc|cbn; tauto]|].
  apply same_app; [destruct (max_weights (params_ q)); [apply same_ok, elem_iff; intros i; cbn [holds_at]; lc|cbn; tauto]|].
  apply same_app; [destruct (max_long (params_ q)); [destruct (ltb _ _); [|reflexivity]; apply same_ok, one_iff; cbn [holds_at]; lc|cbn; tauto]|].
  apply same_app; [destruct (max_short (params_ q)); [destruct (ltb _ _); [|reflexivity]; apply same_ok, one_iff; cbn [holds_at]; lc|cbn; tauto]|].
  apply same_app; [destruct (min_budget (params_ q)); [apply same_ok, one_iff; cbn [holds_at]; lc|cbn; tauto]|].
  apply same_app; [destruct (max_budget (params_ q)); [apply same_ok, one_iff; cbn [holds_at]; lc|cbn; tauto]|].
  apply same_app; [destruct (budget (params_ q)); [destruct (is_some _); [reflexivity|]; destruct (is_some _); [reflexivity|]; apply same_ok, one_iff; cbn [holds_at]; lc|cbn; tauto]|].
  apply same_app; [now apply mip_unit|].
  apply same_app.
  { destruct (linear_constraints (params_ q)); [|cbn; tauto]. destruct (match groups (params_ q), names_ q with Some g, _ => Some g | None, Some l => Some [l] | None, None => None end); [|reflexivity].
    destruct (equations_to_matrix _ _ _ _ _ _); [|reflexivity].
    apply same_ok, app_iff; apply map_iff; intros [row b]; cbn [fst snd holds_at]; rewrite row_unit; lc. }
  destruct (left_inequality (params_ q)); [|cbn; tauto]. destruct (right_inequality (params_ q)); [|cbn; tauto]. destruct (_ && _); [|reflexivity].
  apply same_ok, map_iff. intros [row b]. cbn [fst snd holds_at]. rewrite row_unit. lc.
Qed.
Lemma tracking_unit w f : tracking_error n (n_obs (prior_ q)) (returns (prior_ q')) (benchmark_ q') (tw w) (c * f)
  = k * tracking_error n (n_obs (prior_ q)) (returns (prior_ q)) (benchmark_ q) w f.
Proof.
  unfold tracking_error. unfold Rdiv. rewrite <- Rmult_assoc. f_equal. rewrite <- sqrt_times by apply K. f_equal. apply sumn_times. intros o.
  change (returns (prior_ q') o) with (fun i => l * returns (prior_ q) o i). change (benchmark_ q' o) with (l * benchmark_ q o).
  rewrite (sumn_times n k (fun i => returns (prior_ q) o i * w i)) by (intros i; unfold k; ring). unfold k. ring.
Qed.
Lemma aux_unit x rm : aux_of (up x) rm = unit_aux k (aux_of x rm).
Proof. reflexivity. Qed.
Lemma size_power rm : is_some (limits_ q rm) = true -> k ^ power rm = l ^ power rm * c.
Proof.
  intros E. destruct Size as [->|(_ & _ & H & _)]; [unfold k; rewrite !Rmult_1_r; reflexivity|].
  destruct (power rm) as [|[|[|p]]] eqn:P; try (destruct rm; discriminate); [unfold k; ring|]. rewrite (H rm P) in E. discriminate.
Qed.
Lemma affine_unit : is_affine n (costs (settings_ q')) (mu_uncertainty_ q') = is_affine n (costs (settings_ q)) (mu_uncertainty_ q).
Proof.
  unfold is_affine. change (costs (settings_ q')) with (times_input l (costs (settings_ q))). f_equal.
  - f_equal. apply functional_extensionality. intros i. now rewrite value_times, zero_times.
  - f_equal. apply is_some_map.
Qed.
Lemma problem_unit x : same (problem_constraints to_float q' (up x)) (problem_constraints to_float q x).
Proof.
  unfold problem_constraints.
  change (n_assets (prior_ q')) with n. change (n_obs (prior_ q')) with (n_obs (prior_ q)). change (scale (settings_ q')) with (scale (settings_ q)).
  change (w_ (up x)) with (tw (w_ x)). change (f_ (up x)) with (c * f_ x). change (is_ratio q') with (is_ratio q). fold n.
  apply same_app.
  { apply same_ok. unfold tracking_constraints. change (max_tracking_error_ q') with (option_map (Rmult l) (max_tracking_error_ q)).
    destruct (max_tracking_error_ q) as [t|] eqn:E; [|cbn; tauto]. cbn [option_map]. apply one_iff. rewrite tracking_unit. cbn [holds_at].
    destruct Size as [H|(_ & H & _)]; [|congruence]. assert (k = l) by (unfold k; rewrite H; ring). lin; rewrite ?H0; ring. }
  apply same_app.
  { unfold turnover_constraints. change (max_turnover_ q') with (max_turnover_ q). change (has_previous_ q') with (has_previous_ q).
    change (previous (settings_ q')) with (previous (settings_ q)).
    destruct (max_turnover_ q); [|cbn; tauto]. destruct (has_previous_ q); [|reflexivity]. apply same_ok, elem_iff. intros i. cbn [holds_at].
    set (p := value (previous (settings_ q)) i). replace (c * w_ x i - p * (c * f_ x)) with (c * (w_ x i - p * f_ x)) by ring.
    rewrite abs_times by exact C. lc. }
  apply same_app; [apply weight_unit|].
  apply same_app.
  { apply same_ok. rewrite er_unit. unfold min_return_constraints. change (min_return_ q') with (option_map (Rmult l) (min_return_ q)).
    destruct (min_return_ q); [|cbn; tauto]. cbn [option_map]. apply one_iff. cbn [holds_at]. lin; unfold k; ring. }
  apply same_app.
  { apply same_ok. unfold risk_block. induction all_risk_measures as [|rm rms IH]; cbn [flat_map]; [tauto|]. apply app_iff; [|exact IH]. clear IH.
    change (risk_measure_ q') with (risk_measure_ q). change (limits_ q' rm) with (option_map (fun x => l ^ power rm * x) (limits_ q rm)). rewrite is_some_map.
    destruct (_ || _); [|tauto]. change (w_ (up x)) with (tw (w_ x)). change (f_ (up x)) with (c * f_ x). rewrite aux_unit.
    apply app_iff; [apply risk_constraints_unit|]. pose proof (size_power rm) as SP. destruct (limits_ q rm) as [lim|]; [|cbn; tauto]. cbn [option_map].
    apply one_iff. rewrite risk_value_unit. unfold risk_limit_constraint. cbn [holds_at]. rewrite (SP eq_refl). change (scale (settings_ q')) with (scale (settings_ q)).
    apply (le_iff (l ^ power rm * c)); [apply Rmult_lt_0_compat; [now apply pow_lt|exact C]|ring|ring]. }
  apply same_ok. destruct (is_ratio q) eqn:R; [|tauto]. rewrite er_unit, affine_unit.
  change (risk_free_rate (settings_ q')) with (l * risk_free_rate (settings_ q)). change (mu (prior_ q')) with (fun i => l * mu (prior_ q) i). rewrite (Normal eq_refl).
  apply one_iff. unfold ratio_constraint. destruct (is_affine _ _ _); cbn [holds_at]; lin; unfold k; ring.
Qed.
Lemma feasible_unit x : feasible to_float q' (up x) <-> feasible to_float q x.
Proof.
  unfold feasible. change (is_ratio q') with (is_ratio q). change (f_ (up x)) with (c * f_ x). pose proof (problem_unit x) as P.
  assert (A : (is_ratio q = true \/ c * f_ x = 1) <-> (is_ratio q = true \/ f_ x = 1)).
  { destruct (is_ratio q) eqn:E; [tauto|]. rewrite (Unscaled eq_refl), Rmult_1_l. tauto. }
  rewrite A. clear A.
  destruct (problem_constraints to_float q' (up x)) as [xs|e], (problem_constraints to_float q x) as [xs'|e']; cbn in P; try contradiction.
  - split; intros (A & m & E & H); (split; [exact A|]); injection E as <-; eexists; (split; [reflexivity|]); now apply P.
  - split; intros (_ & m & E & _); discriminate.
Qed.
Definition loss_unit_factor : R := match objective_ q with MINIMIZE_RISK | MAXIMIZE_RATIO => k ^ power (risk_measure_ q) | MAXIMIZE_RETURN | MAXIMIZE_UTILITY => k end.
Lemma loss_unit_pos : 0 < loss_unit_factor.
Proof. unfold loss_unit_factor. pose proof K. destruct (objective_ q); try assumption; now apply pow_lt. Qed.
Lemma loss_unit x : loss q' (up x) = loss_unit_factor * loss q x.
Proof.
  assert (G : regularization q' (w_ (up x)) = loss_unit_factor * regularization q (w_ x)).
  { unfold regularization. change (n_assets (prior_ q')) with n. fold n. change (l1_ q') with (objective_unit l q * l1_ q). change (l2_ q') with (objective_unit l q * l2_ q).
    cbn [unit_point w_]. destruct Size as [E|(_ & _ & _ & -> & ->)]; [|ring].
    assert (U : loss_unit_factor = objective_unit l q) by (unfold loss_unit_factor, objective_unit; replace k with l by (unfold k; rewrite E; ring); reflexivity).
    rewrite U, E. replace (fun i => 1 * w_ x i) with (w_ x) by (symmetry; apply one_vec).
    replace (fun i => Rabs (1 * w_ x i)) with (fun i => Rabs (w_ x i)) by (apply functional_extensionality; intros i; now rewrite Rmult_1_l).
    replace (fun i => (1 * w_ x i) ^ 2) with (fun i => w_ x i ^ 2) by (apply functional_extensionality; intros i; now rewrite Rmult_1_l). ring. }
  assert (J : risk q' (up x) = k ^ power (risk_measure_ q) * risk q x).
  { unfold risk. change (risk_measure_ q') with (risk_measure_ q). rewrite aux_unit. apply risk_value_unit. }
  unfold loss. rewrite G, er_unit, J. change (objective_ q') with (objective_ q). change (scale_objective_ q') with (scale_objective_ q).
  change (risk_aversion_ q') with (l / l ^ power (risk_measure_ q) * risk_aversion_ q). unfold loss_unit_factor in *.
  destruct (objective_ q) eqn:O; try ring.
  assert (E : c = 1) by (apply Unscaled; unfold is_ratio; now rewrite O).
  assert (Kl : k = l) by (unfold k; rewrite E; ring). rewrite Kl. field. apply pow_nonzero. lra.
Qed.
Lemma inverse x : up (unit_point (/ l) (/ c) x) = x.
Proof.
  assert (E : forall v : vec, (fun i => c * (/ c * v i)) = v) by (intros v; apply functional_extensionality; intros i; field; lra).
  assert (E2 : forall v : vec, (fun i => l * c * (/ l * / c * v i)) = v) by (intros v; apply functional_extensionality; intros i; field; lra).
  assert (E3 : forall y, l * c * (/ l * / c * y) = y) by (intros y; field; lra).
  destruct x as [w f m a d]. unfold unit_point. cbn [w_ f_ m_ a_ common_dd]. rewrite E, E2. f_equal.
  - field; lra.
  - destruct m. unfold times_vars. cbn. now rewrite !E.
  - apply functional_extensionality. intros rm. unfold unit_aux. cbn. rewrite !E2, !E3. now destruct (a rm).
Qed.
Lemma optimal_unit x : optimal to_float q' (up x) <-> optimal to_float q x.
Proof.
  unfold optimal. rewrite feasible_unit, loss_unit. pose proof loss_unit_pos as P. split; intros [A B]; (split; [exact A|]); intros y Hy.
  - apply (Rmult_le_reg_l loss_unit_factor); [exact P|]. rewrite <- (loss_unit y). apply B. now apply feasible_unit.
  - rewrite <- (inverse y), loss_unit. apply Rmult_le_compat_l; [lra|]. apply B. apply feasible_unit. now rewrite inverse.
Qed.
Lemma weights_unit x i : f_ x <> 0 -> weights (up x) i = weights x i.
Proof. intros N. unfold weights, reported. cbn [unit_point w_ f_]. field. lra. Qed.
End Unit.

(** * C94 *)
(** Expressing the returns, and every input that has a unit, in another unit changes the unit of the loss and nothing else: the same weights are
    admissible and the same weights are optimal. *)
Theorem C94_mean_risk :
  forall to_float q l factor' root',
    0 < l -> factors_converted l factor' root' q -> is_ratio q = false \/ normalised_alike l q \/ size_free q ->
    let q' := unit_problem l factor' root' q in
    exists c k, 0 < c /\ 0 < k
    /\ (forall x, feasible to_float q' (unit_point l c x) <-> feasible to_float q x)
    /\ (forall x, loss q' (unit_point l c x) = k * loss q x)
    /\ (forall x, optimal to_float q' (unit_point l c x) <-> optimal to_float q x)
    /\ (forall x i, f_ x <> 0 -> weights (unit_point l c x) i = weights x i)
    /\ (forall x', optimal to_float q' x' -> f_ x' <> 0 -> exists x, optimal to_float q x /\ forall i, weights x' i = weights x i).
Proof.
  intros to_float q l factor' root' L F N q'. set (h := homogenization_factor (n_assets (prior_ q))).
  assert (Hp : forall m, 0 < h m).
  { intros m. unfold h, homogenization_factor. apply Rmin_glb_lt; [lra|]. eapply Rlt_le_trans; [|apply Rmax_l]. lra. }
  set (c := if is_ratio q then h (fun i => l * mu (prior_ q) i) / (l * h (mu (prior_ q))) else 1).
  assert (C : 0 < c).
  { unfold c. destruct (is_ratio q); [|lra]. apply Rdiv_lt_0_compat; [apply Hp|]. now apply Rmult_lt_0_compat. }
  assert (Size : c = 1 \/ size_free q).
  { unfold c. destruct (is_ratio q); [|now left]. destruct N as [N|[N|N]]; [discriminate| |now right]. left. unfold normalised_alike in N. fold h in N. rewrite N.
    field. specialize (Hp (mu (prior_ q))). split; lra. }
  assert (U : is_ratio q = false -> c = 1) by (intros E; unfold c; now rewrite E).
  assert (M : is_ratio q = true -> h (fun i => l * mu (prior_ q) i) = l * c * h (mu (prior_ q))).
  { intros E. unfold c. rewrite E. field. specialize (Hp (mu (prior_ q))). split; lra. }
  exists c, (loss_unit_factor l c q). split; [exact C|]. split; [now apply loss_unit_pos|]. split; [|split; [|split; [|split]]].
  - intros x. now apply feasible_unit.
  - intros x. now apply loss_unit.
  - intros x. now apply optimal_unit.
  - intros x i. now apply weights_unit.
  - intros x' H Nf. exists (unit_point (/ l) (/ c) x'). pose proof (inverse l c L C x') as B. split.
    + apply (optimal_unit l c factor' root' q to_float L C F Size U M). now rewrite B.
    + intros i. rewrite <- B at 1. apply weights_unit; try assumption. cbn [unit_point f_]. apply Rmult_integral_contrapositive_currified; [|exact Nf]. apply Rinv_neq_0_compat. lra.
Qed.
Print Assumptions C94_mean_risk.

(** percentages: the problem of the maximum ratio of two assets, and an optimal point *)
Definition hundred (q : mean_risk) : nat -> vec := fun i j => 100 * cholesky (prior_ q) i j.
Example C94_applies : let q := ratio_example None (fun _ => None) in
  factors_converted 100 (hundred q) (fun _ _ => 0) q /\ normalised_alike 100 q /\ size_free q /\ optimal no_float q half_point /\ f_ half_point <> 0
  /\ mu (prior_ (unit_problem 100 (hundred q) (fun _ _ => 0) q)) 0%nat = 2000.
Proof.
  intros q. split; [|split; [|split; [|split; [|split]]]].
  - intros i j Hi Hj. split; [|discriminate]. unfold covariance, hundred. apply sumn_times. intros a. ring.
  - unfold normalised_alike. change (n_assets (prior_ q)) with 2%nat. change (mu (prior_ q)) with (two 20 0). rewrite half_h.
    unfold homogenization_factor, sumn. cbn. rewrite Rmult_0_r, Rabs_R0, Rabs_right by lra. rewrite Rmax_right by lra. rewrite Rmin_right by lra. lra.
  - repeat split.
  - apply C36_optimal_point_exists.
  - cbn. lra.
  - cbn. lra.
Qed.

(** Without those conditions the unit matters.  A limit on the variance that no portfolio meets in one unit is met in another, because the mean
    absolute expected return reaches its upper bound in the second. *)
Definition variance_limit (x : R) : mean_risk := ratio_example None (fun rm => match rm with VARIANCE => Some x | _ => None end).
Definition twentieth_point : point := {| w_ := two (1/20) 0; f_ := 1/20; m_ := no_mip;
  a_ := fun _ => {| alpha := 0; u := 50; ex := 0; ey := 0; v := fun _ => 0; z := fun _ => 0; gx := fun _ => 0; gy := fun _ => 0; dd := fun _ => 0 |}; common_dd := fun _ => 0 |}.
Theorem C94_ratio_refuted :
  exists q l factor' root', 0 < l /\ factors_converted l factor' root' q /\ objective_ q = MAXIMIZE_RATIO
    /\ (forall x, ~ feasible no_float q x) /\ (exists x, feasible no_float (unit_problem l factor' root' q) x /\ f_ x <> 0).
Proof.
  set (q := variance_limit (1/5)). exists q, 1000, (fun i j => 1000 * cholesky (prior_ q) i j), (fun _ _ => 0).
  split; [lra|]. split; [|split; [reflexivity|split]].
  - intros i j Hi Hj. split; [|discriminate]. unfold covariance. apply sumn_times. intros a. ring.
  - intros p (_&l&E&Hl).
    destruct (problem_split no_float q p l E) as (lt&lw&Hlt&Hlw&Hall). destruct (proj1 Hall Hl) as (_&_&W&_&B&C). clear Hall. specialize (C eq_refl).
    assert (W0 : w_ p 0%nat = 1/2).
    { change (homogenization_factor _ (mu _)) with (homogenization_factor 2 (two 20 0)) in C. rewrite half_h in C.
      unfold ratio_constraint, er, is_affine, expected_return, transaction_cost, management_fee, all in C. cbn in C. unfold eqb0 in C.
      destruct (Req_EM_T 0 0) as [_|H]; [|exfalso; apply H; reflexivity]. cbn in C. unfold sumn in C. cbn in C. lra. }
    assert (S : w_ p 0%nat + w_ p 1%nat = f_ p).
    { unfold q, variance_limit in Hlw. cbn in Hlw. injection Hlw as <-. rewrite Forall_forall in W. unfold sumn in W. cbn in W.
      specialize (W (Eq ((w_ p 0%nat + (w_ p 1%nat + 0)) * 1) (1 * f_ p * 1))). cbn in W. assert (G : (w_ p 0%nat + (w_ p 1%nat + 0)) * 1 = 1 * f_ p * 1) by (apply W; tauto). lra. }
    rewrite risk_block_holds in B by (cbn; lra). destruct (B VARIANCE) as [D V]; [right; discriminate|].
    cbn in D. inversion D as [|? ? D1 D2]; subst. inversion D2 as [|? ? D3 _]; subst. cbn in D1, D3, V. unfold sumn in D3. cbn in D3.
    set (U := u (a_ p VARIANCE)) in *. set (a := w_ p 1%nat) in *. rewrite W0 in D3.
    match type of D3 with sqrt ?x <= _ => assert (Q : x <= U ^ 2) end.
    { match type of D3 with sqrt ?x <= _ => assert (P : 0 <= x) by nra; rewrite <- (pow2_sqrt x P); pose proof (sqrt_pos x) as P2 end. apply pow_incr. lra. }
    rewrite W0 in S. assert (a = f_ p - 1/2) by lra. nra.
  - exists twentieth_point. split; [|cbn; lra]. split; [left; reflexivity|]. eexists. split; [reflexivity|]. rewrite !Forall_app. split; [|split; [|split; [|split; [|split]]]].
    + constructor.
    + constructor.
    + unfold elementwise. cbn [seq map]. repeat split; repeat (constructor; [cbn; unfold sumn; cbn; lra|]); constructor.
    + constructor.
    + assert (D : Forall holds_at (risk_constraints (prior_ (unit_problem 1000 (fun i j => 1000 * cholesky (prior_ q) i j) (fun _ _ => 0) q))
                    (settings_ (unit_problem 1000 (fun i j => 1000 * cholesky (prior_ q) i j) (fun _ _ => 0) q)) STANDARD_DEVIATION (two (1/20) 0) (1/20) (aux_of twentieth_point STANDARD_DEVIATION))).
      { cbn. constructor; [cbn; lra|constructor; [|constructor]]. cbn. unfold sumn. cbn. apply Rle_trans with (sqrt (50^2)); [apply sqrt_le_1_alt; lra|]. rewrite sqrt_pow2 by lra. lra. }
      unfold risk_block. cbn [unit_problem q variance_limit ratio_example risk_measure_ limits_ all_risk_measures flat_map rm_eqb option_map is_some orb app].
      rewrite !Forall_app. split; [split; [exact D|constructor]|]. split; [split; [exact D|]|constructor]. constructor; [|constructor]. cbn. lra.
    + constructor; [|constructor].
      assert (E : homogenization_factor 2 (fun i => 1000 * two 20 0 i) = 1000).
      { unfold homogenization_factor, sumn. cbn. rewrite Rmult_0_r, Rabs_R0, Rabs_right by lra. rewrite Rmax_right by lra. rewrite Rmin_left by lra. reflexivity. }
      change (homogenization_factor _ (mu _)) with (homogenization_factor 2 (fun i => 1000 * two 20 0 i)). rewrite E.
      unfold er, is_affine, expected_return, transaction_cost, management_fee, ratio_constraint, all. cbn. rewrite Rmult_0_r. unfold eqb0.
      destruct (Req_EM_T 0 0) as [_|H]; [|exfalso; apply H; reflexivity]. cbn. unfold sumn. cbn. lra.
Qed.
Print Assumptions C94_ratio_refuted.

(** ** Risk budgeting *)
Definition unit_budgeting (l : R) (factor' : nat -> vec) (q : risk_budgeting) : risk_budgeting :=
  {| rb_prior := {| n_assets := n_assets (rb_prior q); n_obs := n_obs (rb_prior q); returns := fun o i => l * returns (rb_prior q) o i;
                    mu := fun i => l * mu (rb_prior q) i; cholesky := factor' |};
     rb_settings := unit_settings l (rb_settings q); rb_params := rb_params q; rb_names := rb_names q; rb_mip_solver := rb_mip_solver q;
     rb_measure := rb_measure q; rb_budget := rb_budget q; rb_min_return := option_map (Rmult l) (rb_min_return q);
     rb_scale_objective := rb_scale_objective q |}.
(** the same weights; the variables of the risk in the new unit *)
Definition unit_bpoint (l : R) (x : bpoint) : bpoint :=
  {| bw := bw x; bf := bf x; bc := bc x; bm := bm x; ba := unit_aux l (ba x) |}.
(** the parts RiskBudgeting shares with MeanRisk *)
Definition shared (q : risk_budgeting) : mean_risk :=
  {| prior_ := rb_prior q; settings_ := rb_settings q; params_ := rb_params q; names_ := rb_names q; mip_solver_ := rb_mip_solver q;
     objective_ := MINIMIZE_RISK; risk_measure_ := rb_measure q; limits_ := fun _ => None; min_return_ := rb_min_return q; max_turnover_ := None;
     has_previous_ := false; max_tracking_error_ := None; benchmark_ := fun _ => 0; mu_uncertainty_ := None; l1_ := 0; l2_ := 0;
     risk_aversion_ := 1; scale_objective_ := 1; overwrite_ := None |}.
Section Budgeting.
Variables (l : R) (factor' : nat -> vec) (q : risk_budgeting) (to_float : str -> option R).
Hypothesis L : 0 < l.
Let n := n_assets (rb_prior q).
Hypothesis F : forall i j, (i < n)%nat -> (j < n)%nat -> covariance n factor' i j = l ^ 2 * covariance n (cholesky (rb_prior q)) i j.
Let q' := unit_budgeting l factor' q.
Lemma shared_factors : factors_converted l factor' (fun _ _ => 0) (shared q).
Proof. intros i j Hi Hj. split; [now apply F|discriminate]. Qed.
Lemma budgeting_return_unit x : budgeting_return q' (unit_bpoint l x) = l * budgeting_return q x.
Proof.
  unfold budgeting_return, expected_return. cbn [unit_bpoint bw bf].
  pose proof (cost_unit l 1 (shared q) L Rlt_0_1 (costs (rb_settings q)) (bw x) (bf x)) as A.
  pose proof (fee_unit l 1 (shared q) (fees (rb_settings q)) (bw x)) as B. rewrite one_vec, Rmult_1_r in A, B. rewrite Rmult_1_l in A.
  cbn [shared prior_ settings_] in A, B. change (mu_uncertainty _ None _) with 0.
  change (transaction_cost _ (costs (rb_settings q')) (previous (rb_settings q')) (bw x) (bf x)) with (transaction_cost (n_assets (rb_prior q)) (times_input l (costs (rb_settings q))) (previous (rb_settings q)) (bw x) (bf x)).
  change (management_fee _ (fees (rb_settings q')) (bw x)) with (management_fee (n_assets (rb_prior q)) (times_input l (fees (rb_settings q))) (bw x)). rewrite A, B.
  change (n_assets (rb_prior q')) with n. fold n. rewrite (sumn_times n l (fun i => mu (rb_prior q) i * bw x i)); [ring|]. intros i. cbn. ring.
Qed.
Lemma budgeting_feasible_unit x : budgeting_feasible to_float q' (unit_bpoint l x) <-> budgeting_feasible to_float q x.
Proof.
  unfold budgeting_feasible. change (n_assets (rb_prior q')) with (n_assets (rb_prior q)). cbn [unit_bpoint bw].
  assert (P : same (budgeting_constraints to_float q' (unit_bpoint l x)) (budgeting_constraints to_float q x)).
  { unfold budgeting_constraints. change (rb_budget q') with (rb_budget q). destruct (clean_budget (rb_budget q)) as [b|e]; [|reflexivity].
    apply same_app; [apply same_ok; apply iff_refl|]. apply same_app.
    { change (same (weight_constraints to_float n (rb_params q) (rb_names q) (rb_mip_solver q) false true (scale (rb_settings q)) (bw x) (bf x) (bm x))
                   (weight_constraints to_float n (rb_params q) (rb_names q) (rb_mip_solver q) false true (scale (rb_settings q)) (bw x) (bf x) (bm x))).
      destruct (weight_constraints _ _ _ _ _ _ _ _ _ _ _); cbn; tauto. }
    apply same_app.
    { apply same_ok. rewrite budgeting_return_unit. unfold min_return_constraints. change (rb_min_return q') with (option_map (Rmult l) (rb_min_return q)).
      destruct (rb_min_return q) as [r|]; [|cbn; tauto]. cbn [option_map]. apply one_iff. cbn [holds_at unit_bpoint bf]. change (scale (rb_settings q')) with (scale (rb_settings q)).
      apply (le_iff l); [exact L|ring|ring]. }
    apply same_ok. pose proof (risk_constraints_unit l 1 factor' (fun _ _ => 0) (shared q) L Rlt_0_1 shared_factors (rb_measure q) (bw x) (risk_factor q x) (ba x)) as R.
    rewrite one_vec, Rmult_1_l, Rmult_1_r in R. exact R. }
  destruct (budgeting_constraints to_float q' (unit_bpoint l x)) as [xs|e], (budgeting_constraints to_float q x) as [xs'|e']; cbn in P; try contradiction.
  - split; intros (A & m & E & H); (split; [exact A|]); injection E as <-; eexists; (split; [reflexivity|]); now apply P.
  - split; intros (_ & m & E & _); discriminate.
Qed.
Lemma budgeting_loss_unit x : budgeting_loss q' (unit_bpoint l x) = l ^ power (rb_measure q) * budgeting_loss q x.
Proof.
  pose proof (risk_value_unit l 1 factor' (fun _ _ => 0) (shared q) L Rlt_0_1 (rb_measure q) (bw x) (risk_factor q x) (ba x)) as R.
  rewrite one_vec, Rmult_1_l, Rmult_1_r in R. unfold budgeting_loss. rewrite <- Rmult_assoc. cbn [shared prior_ settings_] in R. rewrite <- R. reflexivity.
Qed.
Lemma budgeting_inverse x : unit_bpoint l (unit_bpoint (/ l) x) = x.
Proof.
  assert (E2 : forall v : vec, (fun i => l * (/ l * v i)) = v) by (intros v; apply functional_extensionality; intros i; field; lra).
  assert (E3 : forall y, l * (/ l * y) = y) by (intros y; field; lra).
  destruct x as [w f c m a]. unfold unit_bpoint. cbn. f_equal. unfold unit_aux. cbn. rewrite !E2, !E3. now destruct a.
Qed.
End Budgeting.
(** The weights of RiskBudgeting are the same in every unit. *)
Theorem C94_risk_budgeting :
  forall to_float q l factor', 0 < l ->
    (forall i j, (i < n_assets (rb_prior q))%nat -> (j < n_assets (rb_prior q))%nat ->
       covariance (n_assets (rb_prior q)) factor' i j = l ^ 2 * covariance (n_assets (rb_prior q)) (cholesky (rb_prior q)) i j) ->
    let q' := unit_budgeting l factor' q in
    (forall x, budgeting_feasible to_float q' (unit_bpoint l x) <-> budgeting_feasible to_float q x)
    /\ (forall x, budgeting_loss q' (unit_bpoint l x) = l ^ power (rb_measure q) * budgeting_loss q x)
    /\ (forall x, budgeting_optimal to_float q' (unit_bpoint l x) <-> budgeting_optimal to_float q x)
    /\ (forall x', budgeting_optimal to_float q' x' -> exists x, budgeting_optimal to_float q x /\ budgeting_weights x' = budgeting_weights x).
Proof.
  intros to_float q l factor' L F q'.
  assert (A : forall x, budgeting_feasible to_float q' (unit_bpoint l x) <-> budgeting_feasible to_float q x) by (intros x; now apply budgeting_feasible_unit).
  assert (B : forall x, budgeting_loss q' (unit_bpoint l x) = l ^ power (rb_measure q) * budgeting_loss q x) by (intros x; now apply budgeting_loss_unit).
  assert (P : 0 < l ^ power (rb_measure q)) by now apply pow_lt.
  assert (O : forall x, budgeting_optimal to_float q' (unit_bpoint l x) <-> budgeting_optimal to_float q x).
  { intros x. unfold budgeting_optimal. rewrite A, B. split; intros [U V]; (split; [exact U|]); intros y Hy.
    - apply (Rmult_le_reg_l (l ^ power (rb_measure q))); [exact P|]. rewrite <- (B y). apply V. now apply A.
    - rewrite <- (budgeting_inverse l L y), B. apply Rmult_le_compat_l; [lra|]. apply V. apply A. now rewrite budgeting_inverse. }
  do 3 (split; [assumption|]). intros x' H. exists (unit_bpoint (/ l) x'). split; [|reflexivity]. apply O. now rewrite budgeting_inverse.
Qed.
Print Assumptions C94_risk_budgeting.

(** ** Maximum diversification *)
Definition unit_max_div (l : R) (factor' : nat -> vec) (d : max_div) : max_div :=
  {| d_prior := {| n_assets := n_assets (d_prior d); n_obs := n_obs (d_prior d); returns := fun o i => l * returns (d_prior d) o i;
                   mu := fun i => l * mu (d_prior d) i; cholesky := factor' |};
     d_covariance := fun i j => l ^ 2 * d_covariance d i j; d_settings := unit_settings l (d_settings d);
     d_min_weights := d_min_weights d; d_max_weights := d_max_weights d; d_budget := d_budget d; d_min_budget := d_min_budget d;
     d_max_budget := d_max_budget d; d_max_short := d_max_short d; d_max_long := d_max_long d; d_groups := d_groups d;
     d_linear_constraints := d_linear_constraints d; d_left_inequality := d_left_inequality d; d_right_inequality := d_right_inequality d;
     d_names := d_names d; d_l1 := l * d_l1 d; d_l2 := l * d_l2 d; d_min_return := option_map (Rmult l) (d_min_return d);
     d_max_tracking_error := option_map (Rmult l) (d_max_tracking_error d); d_benchmark := fun o => l * d_benchmark d o;
     d_max_turnover := d_max_turnover d; d_has_previous := d_has_previous d; d_scale_objective := d_scale_objective d |}.
Lemma max_div_unit l factor' d : 0 < l -> as_mean_risk (unit_max_div l factor' d) = unit_problem l factor' (fun _ _ => 0) (as_mean_risk d).
Proof.
  intros L. unfold as_mean_risk, unit_problem, unit_max_div, objective_unit. cbn. rewrite !Rmult_1_r. f_equal.
  - field. lra.
  - f_equal. apply functional_extensionality. intros i. unfold weighted_volatilities. rewrite <- (sqrt_times l (d_covariance d i i) L). f_equal. ring.
Qed.
(** The weights of MaximumDiversification are the same in every unit. *)
Theorem C94_maximum_diversification :
  forall to_float d l factor', 0 < l ->
    (forall i j, (i < n_assets (d_prior d))%nat -> (j < n_assets (d_prior d))%nat ->
       covariance (n_assets (d_prior d)) factor' i j = l ^ 2 * covariance (n_assets (d_prior d)) (cholesky (d_prior d)) i j) ->
    normalised_alike l (as_mean_risk d) \/ (d_max_tracking_error d = None /\ d_l1 d = 0 /\ d_l2 d = 0) ->
    let q := as_mean_risk d in let q' := as_mean_risk (unit_max_div l factor' d) in
    (forall x', optimal to_float q' x' -> f_ x' <> 0 -> exists x, optimal to_float q x /\ forall i, weights x' i = weights x i)
    /\ (forall x, optimal to_float q x -> f_ x <> 0 -> exists x', optimal to_float q' x' /\ forall i, weights x' i = weights x i).
Proof.
  intros to_float d l factor' L F N q q'. unfold q'. rewrite (max_div_unit l factor' d L). fold q.
  destruct (C94_mean_risk to_float q l factor' (fun _ _ => 0) L) as (c & k & C & K & _ & _ & O & W & B).
  - intros i j Hi Hj. split; [now apply F|discriminate].
  - right. destruct N as [N|(N1 & N2 & N3)]; [now left|right]. repeat split; auto.
  - split; [exact B|]. intros x H Nf. exists (unit_point l c x). split; [now apply O|]. intros i. now apply W.
Qed.
Print Assumptions C94_maximum_diversification.

(** ** Inverse volatility *)
Lemma rsum_times k xs : rsum (map (Rmult k) xs) = k * rsum xs.
Proof. induction xs as [|x xs IH]; cbn [map]; [cbn; ring|]. rewrite !rsum_cons, IH. ring. Qed.
(** The weights of InverseVolatility are the same in every unit. *)
Theorem C94_inverse_volatility :
  forall l variances, 0 < l -> (forall v, In v variances -> 0 < v) ->
    inverse_volatility (map (Rmult (l ^ 2)) variances) = inverse_volatility variances.
Proof.
  intros l vs L P. unfold inverse_volatility. cbv zeta.
  assert (E : map (fun v => 1 / sqrt v) (map (Rmult (l ^ 2)) vs) = map (Rmult (/ l)) (map (fun v => 1 / sqrt v) vs)).
  { rewrite !map_map. apply map_ext_in. intros v Hv. rewrite sqrt_times by exact L. specialize (P v Hv). pose proof (sqrt_lt_R0 v P). field. split; lra. }
  rewrite E, rsum_times, map_map. apply map_ext_in. intros x Hx. unfold Rdiv.
  assert (S : 0 < rsum (map (fun v => 1 / sqrt v) vs)).
  { clear E. destruct vs as [|v vs]; [contradiction|]. clear Hx. cbn [map]. rewrite rsum_cons.
    assert (G : forall u, In u (v :: vs) -> 0 < 1 / sqrt u) by (intros u Hu; unfold Rdiv; rewrite Rmult_1_l; apply Rinv_0_lt_compat, sqrt_lt_R0; auto).
    assert (H : 0 <= rsum (map (fun v => 1 / sqrt v) vs)).
    { clear - G. assert (G' : forall u, In u vs -> 0 < 1 / sqrt u) by (intros; apply G; now right). clear G. induction vs as [|u us IH]; cbn [map]; [cbn; lra|].
      rewrite rsum_cons. pose proof (G' u (or_introl eq_refl)). assert (0 <= rsum (map (fun v => 1 / sqrt v) us)) by (apply IH; intros; apply G'; now right). lra. }
    specialize (G v (or_introl eq_refl)). lra. }
  field. split; lra.
Qed.
Print Assumptions C94_inverse_volatility.
Example C94_inverse_volatility_applies : inverse_volatility (map (Rmult (100 ^ 2)) [1; 4]) = [2/3; 1/3].
Proof.
  rewrite C94_inverse_volatility; [|lra|intros v [<-|[<-|[]]]; lra]. unfold inverse_volatility. cbn.
  assert (E : sqrt 4 = 2) by (replace 4 with (2 * 2) by ring; apply sqrt_square; lra). rewrite sqrt_1, E. f_equal; [field|f_equal; field].
Qed.

(** ** Moments *)
Definition times_obs (l : R) (r : nat -> R) : nat -> R := fun i => l * r i.
Lemma column_times l X i : column (map (times_obs l) X) i = map (Rmult l) (column X i).
Proof. unfold column. now rewrite !map_map. Qed.
Lemma mean_times l xs : mean (map (Rmult l) xs) = l * mean xs.
Proof. unfold mean. rewrite rsum_times, map_length. unfold Rdiv. ring. Qed.
Lemma cov_times l ddof xs ys : cov ddof (map (Rmult l) xs) (map (Rmult l) ys) = l ^ 2 * cov ddof xs ys.
Proof.
  unfold cov. rewrite !mean_times, map_length. unfold Rdiv. rewrite <- Rmult_assoc. f_equal. rewrite <- rsum_times, map_map. f_equal.
  generalize (mean xs) (mean ys). intros a b. revert ys. induction xs as [|x xs IH]; intros [|y ys]; cbn; try reflexivity. rewrite IH. f_equal. ring.
Qed.
Lemma ew_fold_times l alpha xs : forall s0, fold_left (mean_step alpha) (map (Rmult l) xs) (fst s0, l * snd s0)
  = (fst (fold_left (mean_step alpha) xs s0), l * snd (fold_left (mean_step alpha) xs s0)).
Proof.
  induction xs as [|x xs IH]; intros [a b]; [reflexivity|]. cbn [map fold_left]. rewrite <- IH. f_equal. unfold mean_step. cbn. f_equal. unfold Rdiv. ring.
Qed.
Lemma ew_mean_times l alpha xs : ew_mean alpha (map (Rmult l) xs) = l * ew_mean alpha xs.
Proof. destruct xs as [|x xs]; cbn [map ew_mean]; [ring|]. pose proof (ew_fold_times l alpha xs (1, x)) as E. cbn [fst snd] in E. now rewrite E. Qed.
Definition times_state (l : R) (s : cov_state) : cov_state :=
  {| mean_x := l * mean_x s; mean_y := l * mean_y s; c_ := l ^ 2 * c_ s; sum_wt := sum_wt s; sum_wt2 := sum_wt2 s; old_wt := old_wt s |}.
Lemma cov_fold_times l alpha ps : forall s, fold_left (cov_step alpha) (map (fun p => (l * fst p, l * snd p)) ps) (times_state l s) = times_state l (fold_left (cov_step alpha) ps s).
Proof.
  induction ps as [|p ps IH]; intros s; [reflexivity|]. cbn [map fold_left]. rewrite <- IH. f_equal. unfold cov_step, times_state. cbn. f_equal; unfold Rdiv; ring.
Qed.
Lemma combine_times l xs ys : combine (map (Rmult l) xs) (map (Rmult l) ys) = map (fun p => (l * fst p, l * snd p)) (combine xs ys).
Proof. revert ys. induction xs as [|x xs IH]; intros [|y ys]; cbn; try reflexivity. now rewrite IH. Qed.
Lemma ew_cov_times l alpha xs ys : ew_cov alpha (map (Rmult l) xs) (map (Rmult l) ys) = option_map (Rmult (l ^ 2)) (ew_cov alpha xs ys).
Proof.
  unfold ew_cov. rewrite combine_times. destruct (combine xs ys) as [|p ps]; [reflexivity|]. cbn [map fst snd].
  set (s := {| mean_x := fst p; mean_y := snd p; c_ := 0; sum_wt := 1; sum_wt2 := 1; old_wt := 1 |}).
  replace {| mean_x := l * fst p; mean_y := l * snd p; c_ := 0; sum_wt := 1; sum_wt2 := 1; old_wt := 1 |} with (times_state l s) by (unfold times_state, s; cbn; f_equal; ring).
  rewrite cov_fold_times. cbn [times_state sum_wt sum_wt2 c_]. destruct (Rlt_dec 0 _); cbn [option_map]; [|reflexivity]. f_equal. ring.
Qed.
Lemma checked_value n c : (forall i, (i < n)%nat -> tiny <= c i i) -> checked n c = Value c.
Proof.
  intros H. unfold checked. replace (too_small n c) with false; [reflexivity|]. symmetry. unfold too_small. apply not_true_is_false. intros E.
  apply existsb_exists in E as (i & Hi & E). apply in_seq in Hi. specialize (H i). destruct (Rlt_dec (c i i) tiny); [|discriminate]. assert (tiny <= c i i) by (apply H; lia). lra.
Qed.
(** In another unit the expected returns are multiplied by the unit and the covariances by its square, as long as no variance is below the bound of
    the sanity check. *)
Theorem C94_moments :
  forall l w alpha ddof n X, 0 < l ->
    let X' := map (times_obs l) X in
    empirical_mu w X' = omap (times_obs l) (empirical_mu w X)
    /\ ew_mu w alpha X' = omap (times_obs l) (ew_mu w alpha X)
    /\ (forall c, empirical_covariance w ddof n X = Value c -> (forall i, (i < n)%nat -> 1 / 1000000000000000 <= l ^ 2 * c i i) ->
          empirical_covariance w ddof n X' = Value (fun i j => l ^ 2 * c i j))
    /\ (forall c, ew_covariance w alpha n X = Value c -> (forall i, (i < n)%nat -> 1 / 1000000000000000 <= l ^ 2 * c i i) ->
          exists c', ew_covariance w alpha n X' = Value c' /\ forall i j, (i < n)%nat -> (j < n)%nat -> c' i j = l ^ 2 * c i j).
Proof.
  intros l w alpha ddof n X L X'. assert (T : 1 / 1000000000000000 = tiny) by (unfold tiny, Rdiv; ring). rewrite T. clear T.
  unfold X', empirical_mu, ew_mu, empirical_covariance, ew_covariance. rewrite window_re, map_length. set (Y := window w X).
  assert (C : column (map (times_obs l) Y) = fun i => map (Rmult l) (column Y i)) by (apply functional_extensionality; intros i; apply column_times). rewrite C.
  split; [|split; [|split]].
  - destruct (_ =? _)%nat; cbn; [reflexivity|]. f_equal. apply functional_extensionality. intros i. apply mean_times.
  - destruct (negb _); [reflexivity|]. destruct (_ =? _)%nat; cbn; [reflexivity|]. f_equal. apply functional_extensionality. intros i. apply ew_mean_times.
  - intros c. destruct (n =? 1)%nat; [discriminate|]. destruct (_ <=? _)%nat; [discriminate|]. unfold checked at 1. destruct (too_small _ _); [discriminate|]. intros E H. injection E as <-.
    assert (G : (fun i j => cov ddof (map (Rmult l) (column Y i)) (map (Rmult l) (column Y j))) = fun i j => l ^ 2 * cov ddof (column Y i) (column Y j))
      by (apply functional_extensionality; intros i; apply functional_extensionality; intros j; apply cov_times).
    rewrite G. now apply checked_value.
  - intros c. destruct (negb _); [discriminate|]. destruct (_ =? _)%nat; [discriminate|]. cbv zeta.
    destruct (forallb _ _) eqn:D; [|discriminate]. unfold checked at 1. destruct (too_small _ _); [discriminate|]. intros E H. injection E as <-.
    assert (Sm : forall i j, (i < n)%nat -> (j < n)%nat -> ew_cov alpha (column Y i) (column Y j) <> None).
    { intros i j Hi Hj Z. rewrite forallb_forall in D. specialize (D i). rewrite forallb_forall in D. specialize (D ltac:(apply in_seq; lia) j ltac:(apply in_seq; lia)). rewrite Z in D. discriminate. }
    assert (V : forall i j, (i < n)%nat -> (j < n)%nat -> match ew_cov alpha (map (Rmult l) (column Y i)) (map (Rmult l) (column Y j)) with Some c => c | None => 0 end
       = l ^ 2 * match ew_cov alpha (column Y i) (column Y j) with Some c => c | None => 0 end).
    { intros i j Hi Hj. rewrite ew_cov_times. destruct (ew_cov alpha (column Y i) (column Y j)); cbn; ring. }
    assert (D' : forallb (fun i => forallb (fun j => match ew_cov alpha (map (Rmult l) (column Y i)) (map (Rmult l) (column Y j)) with Some _ => true | None => false end) (seq 0 n)) (seq 0 n) = true).
    { apply forallb_forall. intros i Hi. apply forallb_forall. intros j Hj. apply in_seq in Hi. apply in_seq in Hj. rewrite ew_cov_times.
      pose proof (Sm i j ltac:(lia) ltac:(lia)) as Q. destruct (ew_cov alpha (column Y i) (column Y j)); [reflexivity|congruence]. }
    rewrite D'. eexists. split; [apply checked_value|]; cbv beta.
    + intros i Hi. rewrite V by assumption. now apply H.
    + exact V.
Qed.
Print Assumptions C94_moments.
(** The bound has no unit: returns accepted in percentages are refused as decimals. *)
Definition small_returns : list (nat -> R) := [fun _ => 1 / 1000000; fun _ => - (1 / 1000000)].
Theorem C94_sanity_check_refuted :
  exists l X c, 0 < l /\ empirical_covariance None 1 2 X = Value c /\ empirical_covariance None 1 2 (map (times_obs l) X) = Raises.
Proof.
  exists (1 / 100), small_returns. eexists. split; [lra|]. split.
  - unfold empirical_covariance. cbn [window]. replace (2 =? 1)%nat with false by reflexivity. replace (length small_returns <=? 1)%nat with false by reflexivity.
    apply checked_value. intros i _. unfold cov, mean, small_returns, tiny, rsum. cbn. lra.
  - unfold empirical_covariance. cbn [window]. rewrite map_length. replace (2 =? 1)%nat with false by reflexivity. replace (length small_returns <=? 1)%nat with false by reflexivity.
    unfold checked. replace (too_small 2 _) with true; [reflexivity|]. unfold too_small. cbn [seq existsb]. destruct (Rlt_dec _ tiny) as [H|H]; [reflexivity|]. exfalso. apply H.
    unfold cov, mean, small_returns, tiny, times_obs, rsum. cbn. lra.
Qed.
Print Assumptions C94_sanity_check_refuted.
Example C94_moments_applies : exists c, empirical_covariance None 1 2 small_returns = Value c /\ forall i, (i < 2)%nat -> 1 / 1000000000000000 <= 100 ^ 2 * c i i.
Proof.
  eexists. split.
  - unfold empirical_covariance. cbn [window]. replace (2 =? 1)%nat with false by reflexivity. replace (length small_returns <=? 1)%nat with false by reflexivity.
    apply checked_value. intros i _. unfold cov, mean, small_returns, tiny, rsum. cbn. lra.
  - intros i _. cbv beta. unfold cov, mean, small_returns, rsum. cbn. lra.
Qed.
(** converted factors exist for every problem *)
Example C94_factors_exist : forall n (factor : nat -> vec) l, 0 < l ->
  forall i j, (i < n)%nat -> (j < n)%nat -> covariance n (fun a b => l * factor a b) i j = l ^ 2 * covariance n factor i j.
Proof. intros n factor l _ i j _ _. unfold covariance. apply sumn_times. intros a. ring. Qed.
