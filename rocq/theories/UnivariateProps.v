(** C82: a univariate Gaussian is fitted by maximum likelihood, with or without fixed parameters. *)
From Coq Require Import Reals List Arith Bool Lia Lra.
From Verif Require Import RList UnivariateModel.
Import ListNotations.
Local Open Scope R_scope.

(** * Specification *)

(** density of the normal distribution and log-likelihood of independent observations *)
Definition normal_density (m s x : R) : R := exp (- ((x - m) ^ 2 / (2 * s ^ 2))) / (s * sqrt (2 * PI)).
Definition log_likelihood (m s : R) (x : list R) : R := sum_over x (fun v => ln (normal_density m s v)).
(** the parameters that agree with the fixed ones *)
Definition allowed (g : gaussian) (m s : R) : Prop :=
  0 < s /\ (forall l, loc g = Some l -> m = l) /\ (forall c, scale g = Some c -> s = c).
(** a single column *)
Definition as_rows (x : list R) : list (list R) := map (fun v => [v]) x.
(** the number of parameters that fit estimates *)
Definition free_parameters (g : gaussian) : nat :=
  (match loc g with None => 1 | _ => 0 end + match scale g with None => 1 | _ => 0 end)%nat.

(** * Lemmas *)

Lemma sqrt_2pi : 0 < sqrt (2 * PI).
Proof. apply sqrt_lt_R0. assert (H := PI_RGT_0). lra. Qed.

Lemma log_density m s v : 0 < s -> norm_logpdf m s v = Some (ln (normal_density m s v)).
Proof.
  intros Hs. unfold norm_logpdf, normal_density. destruct (Rlt_dec 0 s); [|contradiction]. f_equal.
  assert (H2 := sqrt_2pi). unfold Rdiv at 3. rewrite ln_mult; [|apply exp_pos|apply Rinv_0_lt_compat, Rmult_lt_0_compat; auto].
  rewrite ln_exp, ln_Rinv by (apply Rmult_lt_0_compat; auto). rewrite ln_mult by auto. field. lra.
Qed.

Lemma score_likelihood m s x : 0 < s -> score (m, s) x = Some (log_likelihood m s x).
Proof.
  intros Hs. unfold score, log_likelihood. cbn [fst snd]. induction x as [|v x IH]; [reflexivity|].
  cbn [map sum_scores]. rewrite log_density, IH by auto. reflexivity.
Qed.

Definition squares (m : R) (x : list R) : R := sum_over x (fun v => (v - m) ^ 2).

Lemma likelihood_closed m s x : 0 < s ->
  log_likelihood m s x = - (INR (length x) * ln (s * sqrt (2 * PI))) - squares m x / (2 * s ^ 2).
Proof.
  intros Hs. unfold log_likelihood, squares. assert (H2 := sqrt_2pi).
  rewrite (so_ext _ (fun v => (v - m) ^ 2 * (- / (2 * s ^ 2)) + - ln (s * sqrt (2 * PI)))).
  - rewrite so_add, so_const, so_scal_r. unfold Rdiv. ring.
  - intros v _. unfold normal_density, Rdiv at 1.
    rewrite ln_mult; [|apply exp_pos|apply Rinv_0_lt_compat, Rmult_lt_0_compat; auto].
    rewrite ln_exp, ln_Rinv by (apply Rmult_lt_0_compat; auto). unfold Rdiv. ring.
Qed.

Lemma pow2_pos x : x <> 0 -> 0 < x ^ 2.
Proof. intros H. rewrite <- Rsqr_pow2. now apply Rlt_0_sqr. Qed.

Lemma ln_bound x : 0 < x -> ln x <= x - 1.
Proof.
  intros H. assert (E := exp_ineq1_le (ln x)). rewrite exp_ln in E by auto. lra.
Qed.

Lemma squares_shift m x : x <> [] -> squares m x = squares (average x) x + INR (length x) * (m - average x) ^ 2.
Proof.
  intros Hx. assert (Hn : 0 < INR (length x)) by (apply lt_0_INR; destruct x; [congruence|cbn; lia]).
  unfold squares. set (a := average x).
  rewrite (so_ext (fun v => (v - m) ^ 2) (fun v => (v - a) ^ 2 + (v * (2 * (a - m)) + (m ^ 2 - a ^ 2))));
    [|intros; ring].
  rewrite so_add, so_add, so_const, so_scal_r, so_id. unfold a, average. field. lra.
Qed.

Lemma squares_nonneg m x : 0 <= squares m x.
Proof. apply so_nonneg. intros. apply pow2_ge_0. Qed.

Lemma scale_best m x s t : x <> [] -> 0 < s -> 0 < t -> INR (length x) * t ^ 2 = squares m x ->
  log_likelihood m s x <= log_likelihood m t x.
Proof.
  intros Hx Hs Ht E. assert (Hn : 0 < INR (length x)) by (apply lt_0_INR; destruct x; [congruence|cbn; lia]).
  rewrite !likelihood_closed by auto. rewrite <- E. assert (H2 := sqrt_2pi). rewrite !ln_mult by auto.
  set (N := INR (length x)) in *. set (r := t / s). assert (Hr : 0 < r) by (apply Rdiv_lt_0_compat; auto).
  assert (L : ln t - ln s <= (r ^ 2 - 1) / 2).
  { assert (B := ln_bound (r ^ 2) ltac:(apply pow_lt; auto)). 
    assert (E1 : ln (r ^ 2) = 2 * ln r) by (replace (r ^ 2) with (r * r) by ring; rewrite ln_mult by auto; ring).
    assert (E2 : ln r = ln t - ln s) by (unfold r, Rdiv; rewrite ln_mult, ln_Rinv by (auto; now apply Rinv_0_lt_compat); ring). lra. }
  replace (N * t ^ 2 / (2 * s ^ 2)) with (N * (r ^ 2 / 2)) by (unfold r; field; lra).
  replace (N * t ^ 2 / (2 * t ^ 2)) with (N * (1 / 2)) by (field; lra). nra.
Qed.

Lemma loc_best x m s : x <> [] -> 0 < s -> log_likelihood m s x <= log_likelihood (average x) s x.
Proof.
  intros Hx Hs. rewrite !likelihood_closed by auto. rewrite (squares_shift m x Hx).
  assert (Hn : 0 < INR (length x)) by (apply lt_0_INR; destruct x; [congruence|cbn; lia]).
  assert (P : 0 < / (2 * s ^ 2)). { apply Rinv_0_lt_compat. assert (0 < s ^ 2) by (apply pow_lt; auto). lra. }
  unfold Rdiv. assert (0 <= INR (length x) * (m - average x) ^ 2) by (apply Rmult_le_pos; [lra|apply pow2_ge_0]). nra.
Qed.

Lemma validate_rows x : x <> [] -> validate_X (as_rows x) = Some x.
Proof.
  intros Hx. unfold validate_X, as_rows. destruct x as [|v x]; [congruence|]. cbn [map].
  change ([v] :: map (fun v => [v]) x) with (map (fun v => [v]) (v :: x)). generalize (v :: x). clear.
  induction l as [|v l IH]; [reflexivity|]. cbn [map columns_of]. now rewrite IH.
Qed.

Lemma fitted_scale m x : x <> [] -> let t := sqrt (average (map (fun v => (v - m) ^ 2) x)) in
  INR (length x) * t ^ 2 = squares m x /\ (0 < squares m x -> 0 < t) /\ (squares m x = 0 -> t = 0).
Proof.
  intros Hx t. assert (Hn : 0 < INR (length x)) by (apply lt_0_INR; destruct x; [congruence|cbn; lia]).
  assert (A : average (map (fun v => (v - m) ^ 2) x) = squares m x / INR (length x)) by (unfold average; rewrite map_length; reflexivity).
  unfold t. rewrite A. assert (P := squares_nonneg m x). split; [|split].
  - rewrite pow2_sqrt; [field; lra|]. apply Rmult_le_pos; auto. left. now apply Rinv_0_lt_compat.
  - intros H. apply sqrt_lt_R0. now apply Rdiv_lt_0_compat.
  - intros ->. unfold Rdiv. rewrite Rmult_0_l. apply sqrt_0.
Qed.

(** * C82 *)

(** The fitted parameters agree with the fixed ones and maximise the likelihood among all that do, provided the
    data are not all equal to the location; the score is the log-likelihood of this maximum. *)
Theorem C82_maximum_likelihood : forall g x, x <> [] ->
  ~ (loc g <> None /\ scale g <> None) ->
  (forall c, scale g = Some c -> 0 < c) ->
  (scale g = None -> exists v, In v x /\ forall l, loc g = Some l \/ (loc g = None /\ l = average x) -> v <> l) ->
  exists m s, gaussian_fit g (as_rows x) = Some (m, s) /\ allowed g m s /\
    score (m, s) x = Some (log_likelihood m s x) /\
    forall m' s', allowed g m' s' -> log_likelihood m' s' x <= log_likelihood m s x.
Proof.
  intros g x Hx Hb Hc Hs. unfold gaussian_fit. rewrite validate_rows by auto. destruct g as [[l|] [c|]]; cbn [loc scale] in *.
  - exfalso. apply Hb. split; discriminate.
  - destruct (fitted_scale l x Hx) as (E & P & _). set (t := sqrt _) in *.
    assert (Ht : 0 < t).
    { apply P. destruct (Hs eq_refl) as (v & I & D). specialize (D l (or_introl eq_refl)).
      assert (G := so_ge_elem (fun v => (v - l) ^ 2) x v ltac:(intros; apply pow2_ge_0) I). fold (squares l x) in G.
      assert (0 < (v - l) ^ 2) by (apply pow2_pos; lra). lra. }
    exists l, t. split; [reflexivity|]. split; [split; [exact Ht|split; cbn; [congruence|discriminate]]|]. split; [now apply score_likelihood|].
    intros m' s' (A1 & A2 & _). rewrite (A2 l eq_refl). now apply scale_best.
  - exists (average x), c. assert (Hc' := Hc c eq_refl). split; [reflexivity|]. split; [split; [auto|split; cbn; [discriminate|congruence]]|].
    split; [now apply score_likelihood|]. intros m' s' (A1 & _ & A2). rewrite (A2 c eq_refl). now apply loc_best.
  - destruct (fitted_scale (average x) x Hx) as (E & P & _). set (t := sqrt _) in *.
    assert (Ht : 0 < t).
    { apply P. destruct (Hs eq_refl) as (v & I & D). specialize (D (average x) (or_intror (conj eq_refl eq_refl))).
      assert (G := so_ge_elem (fun v => (v - average x) ^ 2) x v ltac:(intros; apply pow2_ge_0) I). fold (squares (average x) x) in G.
      assert (0 < (v - average x) ^ 2) by (apply pow2_pos; lra). lra. }
    exists (average x), t. split; [reflexivity|]. split; [split; [exact Ht|split; cbn; discriminate]|]. split; [now apply score_likelihood|].
    intros m' s' (A1 & _). apply Rle_trans with (log_likelihood (average x) s' x); [now apply loc_best|now apply scale_best].
Qed.
Print Assumptions C82_maximum_likelihood.

(** Both parameters fixed, several columns or no observation: fit raises. *)
Theorem C82_raises : forall g X,
  gaussian_fit g X = None <->
  (loc g <> None /\ scale g <> None) \/ X = [] \/ exists row, In row X /\ length row <> 1%nat.
Proof.
  intros g X. unfold gaussian_fit, validate_X.
  assert (C : columns_of X = None <-> exists row, In row X /\ length row <> 1%nat).
  { induction X as [|r X IH]; cbn [columns_of]; [split; [discriminate|intros (row & [] & _)]|].
    destruct r as [|v [|w r]].
    - split; auto. intros _. exists []. split; [now left|cbn; lia].
    - destruct (columns_of X); cbn [option_map].
      + split; [discriminate|]. intros (row & [<-|I] & H); [cbn in H; lia|]. assert (Some l = None) by (apply IH; eauto). discriminate.
      + split; auto. intros _. destruct (proj1 IH eq_refl) as (row & I & H). exists row. split; [now right|auto].
    - split; auto. intros _. exists (v :: w :: r). split; [now left|cbn; lia]. }
  destruct X as [|r X].
  - split; auto.
  - destruct (columns_of (r :: X)) as [x|].
    + assert (N : ~ exists row, In row (r :: X) /\ length row <> 1%nat) by (intros H; apply C in H; discriminate).
      destruct (loc g), (scale g); split; try discriminate; auto;
        try (intros [[A B]|[A|A]]; [congruence|discriminate|contradiction]).
      intros _. left. split; discriminate.
    + split; auto. intros _. right. right. now apply C.
Qed.
Print Assumptions C82_raises.

(** Constant data (or data all equal to the fixed location) have no likelihood: the fitted scale is zero, the score NaN. *)
Theorem C82_degenerate : forall g x l, x <> [] -> scale g = None -> (loc g = None \/ loc g = Some l) ->
  (forall v, In v x -> v = l) ->
  gaussian_fit g (as_rows x) = Some (l, 0) /\ score (l, 0) x = None /\
  aic (gaussian_params (l, 0)) (score (l, 0) x) = None /\ bic (gaussian_params (l, 0)) (length x) (score (l, 0) x) = None.
Proof.
  intros g x l Hx Hs Hl Hv. assert (Sc : score (l, 0) x = None).
  { unfold score. cbn [fst snd]. destruct x as [|v x]; [congruence|]. cbn [map sum_scores]. unfold norm_logpdf.
    destruct (Rlt_dec 0 0); [lra|]. reflexivity. }
  assert (Av : average x = l).
  { unfold average. rewrite <- so_id. rewrite (so_ext _ (fun _ => l)) by auto. rewrite so_const. field. apply not_0_INR. destruct x; [congruence|cbn; lia]. }
  split; [|rewrite Sc; auto]. unfold gaussian_fit. rewrite validate_rows by auto. rewrite Hs.
  assert (Z : squares l x = 0). { apply so_zero. intros v I. rewrite (Hv v I). ring. }
  destruct (fitted_scale l x Hx) as (_ & _ & E). specialize (E Z).
  destruct Hl as [-> | ->]; unfold norm_fit; [rewrite Av|]; rewrite E; reflexivity.
Qed.
Print Assumptions C82_degenerate.

(** The documented criteria, with k the number of parameters of the distribution. *)
Theorem C82_criteria : forall params n l,
  aic params (Some l) = Some (- 2 * l + 2 * INR (length params)) /\
  bic params n (Some l) = Some (- 2 * l + INR (length params) * ln (INR n)).
Proof. intros params n l. unfold aic, bic, n_params. cbn [option_map]. split; apply f_equal; ring. Qed.
Print Assumptions C82_criteria.

(** For the Gaussian, k is two and l the log-likelihood of the normal law of the fitted mean and scale. *)
Theorem C82_gaussian_criteria : forall x m s, 0 < s ->
  aic (gaussian_params (m, s)) (score (m, s) x) = Some (- 2 * log_likelihood m s x + 4) /\
  bic (gaussian_params (m, s)) (length x) (score (m, s) x) = Some (- 2 * log_likelihood m s x + 2 * ln (INR (length x))).
Proof.
  intros x m s Hs. rewrite score_likelihood by auto. destruct (C82_criteria (gaussian_params (m, s)) (length x) (log_likelihood m s x)) as [-> ->].
  unfold gaussian_params. cbn [length INR]. split; f_equal; ring.
Qed.
Print Assumptions C82_gaussian_criteria.

(** Shifted and rescaled data give the shifted and rescaled fit and the same likelihood up to the change of units. *)
Theorem C82_equivariant : forall x a b m s, x <> [] -> 0 < b ->
  gaussian_fit {| loc := None; scale := None |} (as_rows x) = Some (m, s) -> 0 < s ->
  let x' := map (fun v => a + b * v) x in
  gaussian_fit {| loc := None; scale := None |} (as_rows x') = Some (a + b * m, b * s) /\
  score (a + b * m, b * s) x' = Some (log_likelihood m s x - INR (length x) * ln b).
Proof.
  intros x a b m s Hx Hb HF Hs x'. assert (Hx' : x' <> []) by (unfold x'; destruct x; [congruence|discriminate]).
  unfold gaussian_fit in *. rewrite validate_rows in * by auto. cbn [loc scale norm_fit] in *. unfold norm_fit in *.
  injection HF as Em Es. assert (Hn : 0 < INR (length x)) by (apply lt_0_INR; destruct x; [congruence|cbn; lia]).
  assert (Av : average x' = a + b * m).
  { rewrite <- Em. unfold average, x'. rewrite map_length. rewrite <- so_id, so_map, so_add, so_const, so_scal, so_id. field. lra. }
  assert (Sq : squares (a + b * m) x' = b ^ 2 * squares m x).
  { unfold squares, x'. rewrite so_map, <- so_scal. apply so_ext. intros; ring. }
  rewrite Av. split.
  - f_equal. f_equal. rewrite Em in Es. rewrite <- Es.
    assert (A1 : forall y k, average (map (fun v => (v - k) ^ 2) y) = squares k y / INR (length y)) by (intros; unfold average; now rewrite map_length).
    rewrite !A1, Sq. unfold x' at 1. rewrite map_length. unfold Rdiv. rewrite Rmult_assoc. rewrite sqrt_mult_alt by apply pow2_ge_0.
    rewrite sqrt_pow2 by lra. do 2 apply f_equal. symmetry. apply (A1 x m).
  - rewrite score_likelihood by (apply Rmult_lt_0_compat; auto). f_equal. assert (H2 := sqrt_2pi).
    rewrite !likelihood_closed by (auto; apply Rmult_lt_0_compat; auto). rewrite Sq. unfold x'. rewrite map_length.
    rewrite Rmult_assoc, (ln_mult b) by (auto; apply Rmult_lt_0_compat; auto). field. lra.
Qed.
Print Assumptions C82_equivariant.

(** The criteria count a fixed parameter like an estimated one: fixing the location can then never lower the AIC. *)
Theorem C82_fixed_location_never_better : forall x l f0 f1, x <> [] ->
  gaussian_fit {| loc := None; scale := None |} (as_rows x) = Some f0 ->
  gaussian_fit {| loc := Some l; scale := None |} (as_rows x) = Some f1 -> 0 < snd f0 -> 0 < snd f1 ->
  exists a0 a1, aic (gaussian_params f0) (score f0 x) = Some a0 /\ aic (gaussian_params f1) (score f1 x) = Some a1 /\ a0 <= a1.
Proof.
  intros x l [m0 s0] [m1 s1] Hx H0 H1 P0 P1. cbn [snd] in *. rewrite !score_likelihood by auto. do 2 eexists. split; [reflexivity|].
  split; [reflexivity|]. unfold n_params, gaussian_params. cbn [length fst snd].
  assert (log_likelihood m1 s1 x <= log_likelihood m0 s0 x); [|lra].
  unfold gaussian_fit in H0. rewrite validate_rows in H0 by auto. cbn [loc scale] in H0. injection H0 as <- <-.
  apply Rle_trans with (log_likelihood (average x) s1 x); [now apply loc_best|]. apply scale_best; auto. now apply fitted_scale.
Qed.
Print Assumptions C82_fixed_location_never_better.

(** although the AIC with the number of estimated parameters prefers the fixed location *)
Theorem C82_free_parameters_refuted : exists x l f0 f1 L0 L1, x <> [] /\
  let g0 := {| loc := None; scale := None |} in let g1 := {| loc := Some l; scale := None |} in
  gaussian_fit g0 (as_rows x) = Some f0 /\ gaussian_fit g1 (as_rows x) = Some f1 /\
  score f0 x = Some L0 /\ score f1 x = Some L1 /\
  - 2 * L1 + 2 * INR (free_parameters g1) < - 2 * L0 + 2 * INR (free_parameters g0) /\
  exists a0 a1, aic (gaussian_params f0) (score f0 x) = Some a0 /\ aic (gaussian_params f1) (score f1 x) = Some a1 /\ a0 < a1.
Proof.
  set (x := [- 1; 3 / 2]). assert (Hx : x <> []) by discriminate.
  assert (A : average x = 1 / 4) by (unfold average, x; cbn; lra).
  assert (S0 : squares (1 / 4) x = 25 / 8) by (unfold squares, sum_over, x; cbn; lra).
  assert (S1 : squares 0 x = 13 / 4) by (unfold squares, sum_over, x; cbn; lra).
  destruct (fitted_scale (1 / 4) x Hx) as (E0 & P0 & _). destruct (fitted_scale 0 x Hx) as (E1 & P1 & _).
  set (t0 := sqrt (average (map (fun v => (v - 1 / 4) ^ 2) x))) in *. set (t1 := sqrt (average (map (fun v => (v - 0) ^ 2) x))) in *.
  assert (Q0 : 0 < t0) by (apply P0; lra). assert (Q1 : 0 < t1) by (apply P1; lra). rewrite S0 in E0. rewrite S1 in E1.
  change (INR (length x)) with (INR 2) in *. cbn in E0, E1.
  exists x, 0, (1 / 4, t0), (0, t1), (log_likelihood (1 / 4) t0 x), (log_likelihood 0 t1 x). split; [exact Hx|]. cbv zeta.
  split; [unfold gaussian_fit; rewrite validate_rows by auto; cbn [loc scale]; unfold norm_fit; rewrite A; reflexivity|].
  split; [unfold gaussian_fit; rewrite validate_rows by auto; reflexivity|].
  rewrite !score_likelihood by auto. split; [reflexivity|]. split; [reflexivity|]. cbn [free_parameters loc scale].
  rewrite !likelihood_closed by auto. rewrite S0, S1. assert (H2 := sqrt_2pi). rewrite !ln_mult by auto.
  change (INR (length x)) with (INR 2). cbn [INR Nat.add length].
  assert (R0 : 25 / 8 / (2 * t0 ^ 2) = 1). { replace (25 / 8) with (2 * t0 ^ 2) by (cbn; lra). field. lra. }
  assert (R1 : 13 / 4 / (2 * t1 ^ 2) = 1). { replace (13 / 4) with (2 * t1 ^ 2) by (cbn; lra). field. lra. }
  rewrite R0, R1.
  assert (Lt : t0 < t1) by nra.
  assert (D : 0 < ln t1 - ln t0 <= 1 / 4).
  { split; [apply Rlt_Rminus, ln_increasing; auto|].
    assert (B := ln_bound ((t1 / t0) * (t1 / t0)) ltac:(apply Rmult_lt_0_compat; apply Rdiv_lt_0_compat; auto)).
    rewrite ln_mult in B by (apply Rdiv_lt_0_compat; auto).
    assert (E2 : ln (t1 / t0) = ln t1 - ln t0) by (unfold Rdiv; rewrite ln_mult, ln_Rinv by (auto; now apply Rinv_0_lt_compat); ring).
    rewrite E2 in B.
    replace (t1 / t0 * (t1 / t0)) with ((t1 * t1) / (t0 * t0)) in B by (field; lra).
    replace (t1 * t1) with (13 / 8) in B by lra. replace (t0 * t0) with (25 / 16) in B by lra. lra. }
  unfold free_parameters. cbn [loc scale Nat.add INR]. split; [lra|]. do 2 eexists. split; [reflexivity|]. split; [reflexivity|]. unfold n_params, gaussian_params. cbn [length fst snd]. lra.
Qed.
Print Assumptions C82_free_parameters_refuted.

Example C82_applies : exists m s, gaussian_fit {| loc := None; scale := None |} (as_rows [0; 2]) = Some (m, s) /\ m = 1 /\ s = 1.
Proof.
  do 2 eexists. split; [unfold gaussian_fit; rewrite validate_rows by discriminate; reflexivity|].
  assert (average [0; 2] = 1) as -> by (unfold average; cbn; lra). split; [reflexivity|].
  unfold average. cbn. replace (((0 - 1) * ((0 - 1) * 1) + ((2 - 1) * ((2 - 1) * 1) + 0)) / (1 + 1)) with 1 by field. apply sqrt_1.
Qed.
