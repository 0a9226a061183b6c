(** C63: the moments of the empirical prior, with and without the log-normal projection. *)
From Coq Require Import List Arith Bool Reals Lia Lra.
From Verif Require Import RList EmpiricalPriorModel.
Import ListNotations.
Local Open Scope R_scope.

(** * Specification *)
(** An expectation: linear, of total mass one, and not negative on what is not negative. *)
Record expectation {W : Type} (E : (W -> R) -> R) : Prop := {
  E_linear : forall a b f g, E (fun w => a * f w + b * g w) = a * E f + b * E g;
  E_one : E (fun _ => 1) = 1;
  E_pos : forall f, (forall w, 0 <= f w) -> 0 <= E f }.
Definition cov_of {W} (E : (W -> R) -> R) (f g : W -> R) : R := E (fun w => (f w - E f) * (g w - E g)).
(** [growth i w]: what one unit invested in asset i is worth at the horizon h, in the outcome w.  Its logarithms are jointly
    normal with mean h m and covariance h S.  Only the means of the growths and of their products are needed: they are the
    moment generating function of the normal distribution, exp(a'(hm) + a'(hS)a/2), at e_i and at e_i + e_j. *)
Definition log_normal {W} (E : (W -> R) -> R) (growth : nat -> W -> R) (n : nat) (h : R) (m : vec) (S : mat) : Prop :=
  forall i, (i < n)%nat -> E (growth i) = exp (h * m i + h * S i i / 2)
    /\ forall j, (j < n)%nat -> E (fun w => growth i w * growth j w) = exp (h * (m i + m j) + h * (S i i + S i j + S j i + S j j) / 2).
Definition linear_return {W} (growth : nat -> W -> R) (i : nat) (w : W) : R := growth i w - 1.
Definition psd (n : nat) (A : mat) : Prop := forall x, 0 <= sum_over (seq 0 n) (fun i => sum_over (seq 0 n) (fun j => x i * A i j * x j)).
(** a covariance: sums of products of the rows of a matrix *)
Definition gram (n : nat) (A : mat) : Prop := exists k L, forall i j, (i < n)%nat -> (j < n)%nat -> A i j = sum_over (seq 0 k) (fun c => L i c * L j c).

(** * Proofs *)
Section Fit.
  Variable fit_mu : mat -> option mat -> vec.
  Variable fit_covariance : mat -> option mat -> mat.
  Let fit := fit fit_mu fit_covariance.
  (** the horizon has to be given exactly with the projection *)
  Theorem C63_horizon : forall ln h X y, fit ln h X y = ValueError <-> (ln = true /\ h = None) \/ (ln = false /\ h <> None).
  Proof.
    intros [] [h|] X y; unfold fit, EmpiricalPriorModel.fit; cbn.
    - split; [discriminate|intros [[_ H]|[H _]]; discriminate].
    - split; auto.
    - split; auto. intros _. right. split; auto. discriminate.
    - split; [discriminate|intros [[H _]|[_ H]]; [discriminate|contradiction]].
  Qed.
  (** without it, the moments are those of the estimators fitted on the returns and the target *)
  Theorem C63_moments : forall X y r, fit false None X y = Fitted r ->
    out_mu r = fit_mu X y /\ out_covariance r = fit_covariance X y /\ out_returns r = X.
  Proof. intros X y r H. inversion H. subst r. repeat split. Qed.
  Lemma E_sub {W} (E : (W -> R) -> R) f g : expectation E -> E (fun w => f w - g w) = E f - E g.
  Proof. intros [L _ _]. transitivity (E (fun w => 1 * f w + -1 * g w)); [|rewrite L; ring]. f_equal. apply FunctionalExtensionality.functional_extensionality. intros; ring. Qed.
  Lemma E_ext {W} (E : (W -> R) -> R) f g : (forall w, f w = g w) -> E f = E g.
  Proof. intros H. f_equal. apply FunctionalExtensionality.functional_extensionality. exact H. Qed.
  Lemma E_const {W} (E : (W -> R) -> R) c : expectation E -> E (fun _ => c) = c.
  Proof. intros [L O _]. transitivity (E (fun w => c * 1 + 0 * 1)); [apply E_ext; intros; ring|]. rewrite (L c 0 (fun _ => 1) (fun _ => 1)), O. ring. Qed.
  Lemma cov_products {W} (E : (W -> R) -> R) f g : expectation E -> cov_of E f g = E (fun w => f w * g w) - E f * E g.
  Proof.
    intros He. unfold cov_of. set (a := E f). set (b := E g).
    transitivity (E (fun w => (f w * g w - a * g w) - (b * f w - a * b))); [apply E_ext; intros; ring|].
    rewrite E_sub, (E_sub E (fun w => f w * g w)), (E_sub E (fun w => b * f w)), (E_const E) by auto. destruct He as [L _ _].
    assert (S: forall c k, E (fun w => c * k w) = c * E k). { intros c k. transitivity (E (fun w => c * k w + 0 * k w)); [apply E_ext; intros; ring|rewrite L; ring]. }
    rewrite !S. fold a b. ring.
  Qed.
  (** with it, the covariance is that of the linear returns over the horizon, and one plus their mean is what is called mu *)
  Theorem C63_log_normal : forall {W} (E : (W -> R) -> R) growth n h X y r,
    let m := fit_mu (fun t i => ln (1 + X t i)) (option_map (fun z t i => ln (1 + z t i)) y) in
    let S := fit_covariance (fun t i => ln (1 + X t i)) (option_map (fun z t i => ln (1 + z t i)) y) in
    expectation E -> (forall i j, (i < n)%nat -> (j < n)%nat -> S i j = S j i) -> log_normal E growth n h m S ->
    fit true (Some h) X y = Fitted r ->
    out_returns r = X
    /\ forall i, (i < n)%nat -> out_mu r i = 1 + E (linear_return growth i)
        /\ forall j, (j < n)%nat -> out_covariance r i j = cov_of E (linear_return growth i) (linear_return growth j).
  Proof.
    intros W E growth n h X y r m S He Hsym Hln H. injection H as Hr. subst r. split; [reflexivity|].
    cbn [out_mu out_covariance out_returns]. change (fit_mu (log_returns X) (option_map log_returns y)) with m. change (fit_covariance (log_returns X) (option_map log_returns y)) with S.
    assert (M: forall i, (i < n)%nat -> E (growth i) = exp (m i * h + 1/2 * (S i i * h))) by (intros i Hi; rewrite (proj1 (Hln i Hi)); f_equal; field).
    assert (ML: forall i, (i < n)%nat -> E (linear_return growth i) = E (growth i) - 1).
    { intros i Hi. unfold linear_return. rewrite (E_sub E (growth i) (fun _ => 1)) by auto. rewrite (E_one E He). reflexivity. }
    intros i Hi. split; [rewrite ML, M by auto; lra|]. intros j Hj.
    assert (C: cov_of E (linear_return growth i) (linear_return growth j) = E (fun w => growth i w * growth j w) - E (growth i) * E (growth j)).
    { rewrite <- cov_products by auto. unfold cov_of. rewrite !ML by auto. apply E_ext. intros w. unfold linear_return. ring. }
    rewrite C, (proj2 (Hln i Hi) j Hj), !M by auto. rewrite <- (Hsym i j) by auto.
    replace (exp (h * (m i + m j) + h * (S i i + S i j + S i j + S j j) / 2)) with (exp (m i * h + 1 / 2 * (S i i * h)) * exp (m j * h + 1 / 2 * (S j j * h)) * exp (S i j * h)) by (rewrite <- !exp_plus; f_equal; field).
    ring.
  Qed.
  (** the covariance is a covariance: positive semidefinite, as soon as that of the estimator is one *)
  Lemma gram_psd n A : gram n A -> psd n A.
  Proof.
    intros (k&L&H) x. rewrite (so_ext _ (fun i => sum_over (seq 0 n) (fun j => sum_over (seq 0 k) (fun c => (x i * L i c) * (x j * L j c))))).
    - rewrite (so_ext _ (fun i => sum_over (seq 0 k) (fun c => sum_over (seq 0 n) (fun j => (x i * L i c) * (x j * L j c))))) by (intros; apply so_swap). rewrite so_swap. apply so_nonneg. intros c _.
      rewrite (so_ext _ (fun i => x i * L i c * sum_over (seq 0 n) (fun j => x j * L j c))) by (intros; apply so_scal). rewrite so_scal_r. apply Rle_0_sqr.
    - intros i Hi. apply so_ext. intros j Hj. apply in_seq in Hi, Hj. rewrite H by lia. rewrite (so_ext (fun c => x i * L i c * (x j * L j c)) (fun c => x i * x j * (L i c * L j c))) by (intros; ring). rewrite so_scal. ring.
  Qed.
  Lemma schur_gram n A B : gram n A -> psd n B -> psd n (fun i j => A i j * B i j).
  Proof.
    intros (k&L&H) HB x. rewrite (so_ext _ (fun i => sum_over (seq 0 k) (fun c => sum_over (seq 0 n) (fun j => (x i * L i c) * B i j * (x j * L j c))))).
    - rewrite so_swap. apply so_nonneg. intros c _. apply (HB (fun i => x i * L i c)).
    - intros i Hi. rewrite so_swap. apply so_ext. intros j Hj. apply in_seq in Hi, Hj. rewrite H by lia. rewrite (so_ext (fun c => x i * L i c * B i j * (x j * L j c)) (fun c => x i * x j * B i j * (L i c * L j c))) by (intros; ring). rewrite so_scal. ring.
  Qed.
  Lemma psd_pow n A k : gram n A -> psd n (fun i j => A i j ^ (S k)).
  Proof.
    intros H. induction k as [|k IH].
    - intros x. rewrite (so_ext _ (fun i => sum_over (seq 0 n) (fun j => x i * A i j * x j))) by (intros; apply so_ext; intros; cbn; ring). apply gram_psd; auto.
    - apply (schur_gram n A (fun i j => A i j ^ S k)); auto.
  Qed.
  Definition exp_part (N : nat) (x : R) : R := sum_f_R0 (fun k => / INR (fact k) * x ^ k) N - 1.
  Lemma exp_part_S N x : exp_part (S N) x = exp_part N x + / INR (fact (S N)) * x ^ (S N).
  Proof. unfold exp_part. rewrite tech5. ring. Qed.
  Lemma psd_exp_part n A N : gram n A -> psd n (fun i j => exp_part N (A i j)).
  Proof.
    intros H. induction N as [|N IH]; intros x.
    - apply Req_le. symmetry. apply so_zero. intros i _. apply so_zero. intros j _. unfold exp_part. cbn. rewrite Rinv_1. ring.
    - rewrite (so_ext _ (fun i => sum_over (seq 0 n) (fun j => x i * exp_part N (A i j) * x j) + / INR (fact (S N)) * sum_over (seq 0 n) (fun j => x i * A i j ^ S N * x j))).
      + rewrite so_add, so_scal. apply Rplus_le_le_0_compat; [apply IH|]. apply Rmult_le_pos; [left; apply Rinv_0_lt_compat; apply INR_fact_lt_0|apply (psd_pow n A N H)].
      + intros i _. rewrite <- so_scal, <- so_add. apply so_ext. intros j _. rewrite exp_part_S. ring.
  Qed.
  Lemma exp_part_cv x : Un_cv (fun N => exp_part N x) (exp x - 1).
  Proof.
    unfold exp_part. apply (CV_minus (fun N => sum_f_R0 (fun k => / INR (fact k) * x ^ k) N) (fun _ => 1)).
    - unfold exp. destruct (exist_exp x) as [l Hl]. cbn. exact Hl.
    - intros eps He. exists 0%nat. intros. rewrite R_dist_eq. exact He.
  Qed.
  Lemma so_cv {A} (l : list A) (f : nat -> A -> R) g : (forall a, Un_cv (fun N => f N a) (g a)) -> Un_cv (fun N => sum_over l (f N)) (sum_over l g).
  Proof.
    intros H. induction l as [|a l IH].
    - intros eps He. exists 0%nat. intros. unfold sum_over. cbn. rewrite R_dist_eq. exact He.
    - apply (CV_plus (fun N => f N a) (fun N => sum_over l (f N))); auto.
  Qed.
  Lemma cv_scal c u l : Un_cv u l -> Un_cv (fun N => c * u N) (c * l).
  Proof. intros H. apply (CV_mult (fun _ => c) u c l); auto. intros eps He. exists 0%nat. intros. rewrite R_dist_eq. exact He. Qed.
  Lemma cv_nonneg u l : Un_cv u l -> (forall N, 0 <= u N) -> 0 <= l.
  Proof. intros H P. apply Rnot_lt_le. intros Hl. destruct (H (- l)) as [N HN]; [lra|]. specialize (HN N (le_n N)). unfold R_dist in HN. specialize (P N). rewrite Rabs_right in HN; lra. Qed.
  Lemma psd_exp n A : gram n A -> psd n (fun i j => exp (A i j) - 1).
  Proof.
    intros H x. apply (cv_nonneg (fun N => sum_over (seq 0 n) (fun i => sum_over (seq 0 n) (fun j => x i * x j * exp_part N (A i j))))).
    - rewrite (so_ext _ (fun i => sum_over (seq 0 n) (fun j => x i * x j * (exp (A i j) - 1)))) by (intros; apply so_ext; intros; ring).
      apply (so_cv (seq 0 n) (fun N i => sum_over (seq 0 n) (fun j => x i * x j * exp_part N (A i j)))). intros i. apply (so_cv (seq 0 n) (fun N j => x i * x j * exp_part N (A i j))). intros j. apply cv_scal, exp_part_cv.
    - intros N. rewrite (so_ext _ (fun i => sum_over (seq 0 n) (fun j => x i * exp_part N (A i j) * x j))) by (intros; apply so_ext; intros; ring). apply psd_exp_part; auto.
  Qed.
  Theorem C63_positive_semidefinite : forall n h X y r,
    let S := fit_covariance (fun t i => ln (1 + X t i)) (option_map (fun z t i => ln (1 + z t i)) y) in
    gram n S -> 0 <= h -> fit true (Some h) X y = Fitted r -> psd n (out_covariance r) /\ forall i, 0 < out_mu r i.
  Proof.
    intros n h X y r S Hg Hh H. injection H as Hr. subst r. cbn [out_mu out_covariance]. change (fit_covariance (log_returns X) (option_map log_returns y)) with S. split; [|intros; apply exp_pos].
    intros x. set (m := fun i : nat => exp (fit_mu (log_returns X) (option_map log_returns y) i * h + 1 / 2 * (S i i * h))).
    assert (G: gram n (fun i j => S i j * h)).
    { destruct Hg as (k&L&HL). exists k, (fun i c => L i c * sqrt h). intros i j Hi Hj. rewrite HL by auto. rewrite <- so_scal_r. apply so_ext. intros c _. rewrite <- (sqrt_sqrt h Hh) at 1. ring. }
    pose proof (psd_exp n _ G (fun i => x i * m i)) as P. eapply Rle_trans; [exact P|]. apply Req_le. apply so_ext. intros i _. apply so_ext. intros j _. unfold m. ring.
  Qed.
  (** findings: mu is not the mean of the linear returns, whatever the estimates; and the attributes of the fitted estimators
      are not the moments they estimated *)
  Theorem C63_mean_refuted : forall {W} (E : (W -> R) -> R) growth n h X y r,
    let m := fit_mu (fun t i => ln (1 + X t i)) (option_map (fun z t i => ln (1 + z t i)) y) in
    let S := fit_covariance (fun t i => ln (1 + X t i)) (option_map (fun z t i => ln (1 + z t i)) y) in
    expectation E -> (forall i j, (i < n)%nat -> (j < n)%nat -> S i j = S j i) -> log_normal E growth n h m S ->
    fit true (Some h) X y = Fitted r -> forall i, (i < n)%nat -> out_mu r i <> E (linear_return growth i).
  Proof. intros W E growth n h X y r m S He Hs Hl H i Hi. destruct (C63_log_normal E growth n h X y r He Hs Hl H) as [_ A]. destruct (A i Hi) as [B _]. lra. Qed.
  Theorem C63_attributes_refuted : forall h X y r, fit true (Some h) X y = Fitted r -> h <> 1 ->
    forall i, fit_mu (fun t i => ln (1 + X t i)) (option_map (fun z t i => ln (1 + z t i)) y) i <> 0 ->
    attr_mu r i <> fit_mu (fun t i => ln (1 + X t i)) (option_map (fun z t i => ln (1 + z t i)) y) i.
  Proof.
    intros h X y r H Hh i Hi E. injection H as Hr. subst r. cbn in E. change (fit_mu (log_returns X) (option_map log_returns y) i * h = fit_mu (log_returns X) (option_map log_returns y) i) in E.
    apply Hh. apply (Rmult_eq_reg_l (fit_mu (log_returns X) (option_map log_returns y) i)); [lra|exact Hi].
  Qed.
End Fit.
Print Assumptions C63_horizon.
Print Assumptions C63_moments.
Print Assumptions C63_log_normal.
Print Assumptions C63_positive_semidefinite.
Print Assumptions C63_mean_refuted.
Print Assumptions C63_attributes_refuted.

(** * A case: one asset, estimates m = 0 and S = ln 2, horizon one; two equally likely outcomes *)
Definition coin (f : bool -> R) : R := (f true + f false) / 2.
Definition coin_growth (_ : nat) (w : bool) : R := sqrt 2 + if w then sqrt 2 else - sqrt 2.
Example C63_hypotheses_met : expectation coin /\ log_normal coin coin_growth 1 1 (fun _ => 0) (fun _ _ => ln 2) /\ gram 1 (fun _ _ => ln 2)
  /\ exists r, fit (fun _ _ => fun _ => 0) (fun _ _ => fun _ _ => ln 2) true (Some 1) (fun _ _ => 0) None = Fitted r.
Proof.
  assert (P2: 0 < sqrt 2) by (apply sqrt_lt_R0; lra). assert (S2: sqrt 2 * sqrt 2 = 2) by (apply sqrt_sqrt; lra).
  split. { constructor; unfold coin; intros; try field. pose proof (H true). pose proof (H false). lra. }
  split; [|split].
  - intros i Hi. split.
    + unfold coin, coin_growth. replace (1 * 0 + 1 * ln 2 / 2) with (ln (sqrt 2)); [rewrite exp_ln by auto; field|].
      assert (E: ln 2 = ln (sqrt 2) + ln (sqrt 2)) by (rewrite <- ln_mult by auto; f_equal; lra). lra.
    + intros j Hj. unfold coin, coin_growth. replace (1 * (0 + 0) + 1 * (ln 2 + ln 2 + ln 2 + ln 2) / 2) with (ln 2 + ln 2) by field. rewrite exp_plus, exp_ln by lra. nra.
  - exists 1%nat, (fun _ _ => sqrt (ln 2)). intros i j _ _. assert (0 < ln 2) by (rewrite <- ln_1; apply ln_increasing; lra). cbn. rewrite sqrt_sqrt by lra. ring.
  - eexists. reflexivity.
Qed.
