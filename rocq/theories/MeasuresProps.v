(** C11-C15: risk measures. *)
From Coq Require Import Reals Lra Lia List ZArith Permutation Sorting.Sorted.
From Verif Require Import RList MeasuresModel MeasuresProofs.
Import ListNotations.
Local Open Scope R_scope.

(** * C11 *)
(** Expected shortfall objective of Rockafellar and Uryasev, losses being minus the returns:
    t + E[(loss - t)+] / (1 - beta). *)
Definition ru_objective (r : list R) (beta t : R) : R :=
  t + (sum_over r (fun x => Rmax (- x - t) 0) / INR (length r)) / (1 - beta).

Theorem C11_cvar_is_minimum :
  forall partition, partition_ok partition -> forall r beta, r <> [] -> 0 <= beta < 1 ->
    (forall t, cvar partition r beta <= ru_objective r beta t)
    /\ cvar partition r beta = ru_objective r beta (value_at_risk partition r beta).
Proof.
  intros p Hp r beta Hr Hb. split.
  - intros t. apply (cvar_ru_lower p Hp); auto.
  - apply (cvar_ru_attained p Hp); auto.
Qed.
Print Assumptions C11_cvar_is_minimum.

(** worst expected loss over probability weights bounded by 1/((1-beta) n) *)
Definition tail_weights (r : list R) (beta : R) (q : list R) : Prop :=
  length q = length r /\ (forall c, In c q -> 0 <= c <= 1 / ((1 - beta) * INR (length r))) /\ rsum q = 1.
Definition expected_loss (r q : list R) : R := sum_over (combine r q) (fun p => snd p * - fst p).

Theorem C11_cvar_is_worst_expected_loss :
  forall partition, partition_ok partition -> forall r beta, r <> [] -> 0 <= beta < 1 ->
    (forall q, tail_weights r beta q -> expected_loss r q <= cvar partition r beta)
    /\ exists q, tail_weights r beta q /\ expected_loss r q = cvar partition r beta.
Proof.
  intros p Hp r beta Hr Hb. split.
  - intros q (L&Hq&S). apply (cvar_dual_upper p Hp); auto.
  - destruct (cvar_dual_attained p Hp r beta Hr Hb) as (q&L&Hq&S&E). exists q. split; [split; auto|]. symmetry. exact E.
Qed.
Print Assumptions C11_cvar_is_worst_expected_loss.

(** coherence; [p1], [p2] may be different runs of np.partition *)
Theorem C11_cvar_coherent :
  forall p, partition_ok p -> forall beta, 0 <= beta < 1 ->
    (* monotone *)
    (forall r r', r <> [] -> Forall2 Rle r r' -> cvar p r' beta <= cvar p r beta)
    (* translation *)
    /\ (forall r c, r <> [] -> cvar p (map (fun x => x + c) r) beta = cvar p r beta - c)
    (* positive homogeneity *)
    /\ (forall r c, r <> [] -> 0 < c -> cvar p (map (fun x => c * x) r) beta = c * cvar p r beta)
    (* subadditivity *)
    /\ (forall r r', r <> [] -> length r = length r' ->
          cvar p (map (fun q => fst q + snd q) (combine r r')) beta <= cvar p r beta + cvar p r' beta)
    (* only the multiset of returns matters *)
    /\ (forall r r', r <> [] -> Permutation r r' -> cvar p r beta = cvar p r' beta).
Proof.
  intros p Hp beta Hb.
  assert (Hkpos: forall r : list R, r <> [] -> 0 < INR (length r) * (1 - beta)).
  { intros r Hr. apply Rmult_lt_0_compat; [apply INR_pos; destruct r; [congruence|cbn; lia]|lra]. }
  assert (Hru: forall (r : list R) t, r <> [] -> ru r beta t = t + sum_over r (fun x => Rmax (- x - t) 0) * / (INR (length r) * (1 - beta))).
  { intros r t Hr. specialize (Hkpos r Hr). unfold ru, len. assert (INR (length r) <> 0) by nra. field. lra. }
  split; [|split; [|split; [|split]]].
  - intros r r' Hr HF.
    assert (Hl: length r = length r') by (clear -HF; induction HF; cbn; congruence).
    assert (Hr': r' <> []) by (intros ->; destruct r; [congruence|discriminate]).
    rewrite (cvar_ru_attained p Hp r beta) by auto. set (t := value_at_risk p r beta).
    eapply Rle_trans; [apply (cvar_ru_lower p Hp r' beta t); auto|].
    rewrite !Hru, Hl by auto. apply Rplus_le_compat_l. rewrite <- Hl.
    apply Rmult_le_compat_r; [left; apply Rinv_0_lt_compat; auto|].
    clearbody t; clear -HF. induction HF; rewrite ?so_nil, ?so_cons; [lra|].
    assert (Rmax (- y - t) 0 <= Rmax (- x - t) 0) by (unfold Rmax; destruct (Rle_dec (- y - t) 0); destruct (Rle_dec (- x - t) 0); lra). lra.
  - intros r c Hr. set (r' := map (fun x => x + c) r).
    assert (Hr': r' <> []) by (destruct r; [congruence|discriminate]).
    assert (E: forall t, ru r' beta (t - c) = ru r beta t - c).
    { intros t. rewrite !Hru by auto. unfold r'. rewrite map_length, so_map.
      rewrite (so_ext _ (fun x => Rmax (- x - t) 0)) by (intros; f_equal; ring). ring. }
    apply (cvar_unique p Hp); auto.
    + exists (value_at_risk p r beta - c). rewrite E, <- (cvar_ru_attained p Hp) by auto. reflexivity.
    + intros t. replace t with ((t + c) - c) by ring. rewrite E.
      pose proof (cvar_ru_lower p Hp r beta (t + c) Hr Hb). lra.
  - intros r c Hr Hc. set (r' := map (fun x => c * x) r).
    assert (Hr': r' <> []) by (destruct r; [congruence|discriminate]).
    assert (E: forall t, ru r' beta (c * t) = c * ru r beta t).
    { intros t. rewrite !Hru by auto. unfold r'. rewrite map_length, so_map.
      rewrite (so_ext _ (fun x => c * Rmax (- x - t) 0)).
      2:{ intros x _. rewrite <- RmaxRmult by lra. f_equal; ring. }
      rewrite so_scal. ring. }
    apply (cvar_unique p Hp); auto.
    + exists (c * value_at_risk p r beta). rewrite E, <- (cvar_ru_attained p Hp) by auto. reflexivity.
    + intros t. replace t with (c * (t / c)) by (field; lra). rewrite E.
      apply Rmult_le_compat_l; [lra|]. apply (cvar_ru_lower p Hp); auto.
  - intros r r' Hr Hl. set (s := map (fun q => fst q + snd q) (combine r r')).
    assert (Hr': r' <> []) by (intros ->; destruct r; [congruence|discriminate]).
    assert (Ls: length s = length r) by (unfold s; rewrite map_length, combine_length, <- Hl, Nat.min_id; reflexivity).
    assert (Hs: s <> []) by (intros E; rewrite E in Ls; destruct r; [congruence|discriminate]).
    rewrite (cvar_ru_attained p Hp r beta), (cvar_ru_attained p Hp r' beta) by auto.
    set (t := value_at_risk p r beta). set (t' := value_at_risk p r' beta).
    eapply Rle_trans; [apply (cvar_ru_lower p Hp s beta (t + t')); auto|].
    rewrite !Hru, Ls, <- Hl by auto.
    assert (Hsum: sum_over s (fun x => Rmax (- x - (t + t')) 0) <= sum_over r (fun x => Rmax (- x - t) 0) + sum_over r' (fun x => Rmax (- x - t') 0)).
    { unfold s. rewrite so_map. clearbody t t'. clear -Hl. revert r' Hl. induction r as [|x r IH]; intros [|y r'] Hl; try discriminate; cbn [combine]; rewrite ?so_nil, ?so_cons; [lra|].
      cbn in Hl. specialize (IH r' ltac:(lia)). cbn [fst snd].
      assert (Rmax (- (x + y) - (t + t')) 0 <= Rmax (- x - t) 0 + Rmax (- y - t') 0).
      { unfold Rmax. repeat destruct (Rle_dec _ _); lra. }
      lra. }
    apply Rmult_le_compat_r with (r := / (INR (length r) * (1 - beta))) in Hsum; [|left; apply Rinv_0_lt_compat; auto].
    lra.
  - intros r r' Hr P. assert (Hr': r' <> []).
    { intros ->. apply Permutation_sym, Permutation_nil in P. congruence. }
    assert (E: forall t, ru r beta t = ru r' beta t).
    { intros t. rewrite !Hru, (so_perm _ _ _ P), (Permutation_length P) by auto. reflexivity. }
    apply (cvar_unique p Hp); auto.
    + exists (value_at_risk p r' beta). rewrite E. symmetry. apply (cvar_ru_attained p Hp); auto.
    + intros t. rewrite E. apply (cvar_ru_lower p Hp); auto.
Qed.
Print Assumptions C11_cvar_coherent.

(** a concrete partition: sorting *)
Fixpoint insertR (x : R) (l : list R) : list R :=
  match l with [] => [x] | y :: l' => if Rle_dec x y then x :: l else y :: insertR x l' end.
Definition sortR (l : list R) : list R := fold_right insertR [] l.
Lemma insertR_perm x l : Permutation (insertR x l) (x :: l).
Proof.
  induction l as [|y l IH]; cbn; auto. destruct (Rle_dec x y); auto.
  eapply perm_trans; [apply perm_skip; exact IH|apply perm_swap].
Qed.
Lemma insertR_sorted x l : StronglySorted Rle l -> StronglySorted Rle (insertR x l).
Proof.
  induction 1 as [|y l Hs IH Hf]; cbn; [repeat constructor|].
  destruct (Rle_dec x y) as [H|H].
  - constructor; [constructor; auto|]. constructor; auto. apply Forall_forall. intros z Hz. pose proof (proj1 (Forall_forall _ _) Hf z Hz). lra.
  - constructor; auto. apply Forall_forall. intros z Hz. apply (Permutation_in _ (insertR_perm x l)) in Hz.
    destruct Hz as [<-|Hz]; [lra|]. apply (proj1 (Forall_forall _ _) Hf z Hz).
Qed.
Lemma sortR_ok : sort_ok sortR.
Proof.
  intros r. induction r as [|x r [P S]]; [split; constructor|]. cbn. split.
  - eapply perm_trans; [apply insertR_perm|]. constructor. exact P.
  - apply insertR_sorted. exact S.
Qed.
Lemma sorted_nth l : StronglySorted Rle l -> forall i j, (i < j < length l)%nat -> nth i l 0 <= nth j l 0.
Proof.
  induction 1 as [|x l Hs IH Hf]; intros i j H; cbn in *; [lia|].
  destruct j; [lia|]. destruct i; [apply (proj1 (Forall_forall _ _) Hf); apply nth_In; lia|apply IH; lia].
Qed.
Lemma sort_partition_ok : partition_ok (fun r _ => sortR r).
Proof.
  intros r ik H. destruct (sortR_ok r) as [P S]. pose proof (Permutation_length P) as L. split; [exact P|].
  split; intros; apply sorted_nth; auto; lia.
Qed.
Example C11_example : partition_ok (fun r _ => sortR r) /\ [1; -1] <> [] /\ 0 <= 1/2 < 1.
Proof. split; [apply sort_partition_ok|]. split; [discriminate|lra]. Qed.

(** * C12 *)
(** value_at_risk is the smallest level exceeded by fewer than (1-beta) n losses *)
Definition count_losses_above (r : list R) (v : R) : nat := length (filter (fun x => if Rlt_dec v (- x) then true else false) r).

Lemma count_perm r r' v : Permutation r r' -> count_losses_above r v = count_losses_above r' v.
Proof.
  unfold count_losses_above. induction 1; cbn; repeat destruct (Rlt_dec _ _); cbn; lia.
Qed.

Theorem C12_var_is_tail_quantile :
  forall p, partition_ok p -> forall r beta, r <> [] -> 0 <= beta < 1 ->
    INR (count_losses_above r (value_at_risk p r beta)) < (1 - beta) * INR (length r)
    /\ (forall v, v < value_at_risk p r beta -> (1 - beta) * INR (length r) <= INR (count_losses_above r v)).
Proof.
  intros p Hp r beta Hr Hb. destruct (cvar_split p Hp r beta Hr Hb) as (a&x&b&k&P&Ha&Hbb&Ek&Hk&Hka&Ev&_).
  replace ((1 - beta) * INR (length r)) with k by (rewrite Ek; reflexivity). rewrite Ev.
  assert (Hall: forall l v, (forall y, In y l -> v < - y) -> filter (fun x => if Rlt_dec v (- x) then true else false) l = l).
  { induction l as [|y l IH]; intros v H; cbn; auto. destruct (Rlt_dec v (- y)) as [H1|H1]; [|exfalso; apply H1; apply H; left; auto].
    f_equal. apply IH. intros; apply H; right; auto. }
  assert (Hnone: forall l v, (forall y, In y l -> - y <= v) -> filter (fun x => if Rlt_dec v (- x) then true else false) l = []).
  { induction l as [|y l IH]; intros v H; cbn; auto. destruct (Rlt_dec v (- y)) as [H1|H1]; [exfalso; specialize (H y (or_introl eq_refl)); lra|].
    apply IH. intros; apply H; right; auto. }
  assert (Hle: forall l v, (length (filter (fun x => if Rlt_dec v (- x) then true else false) l) <= length l)%nat).
  { induction l as [|y l IH]; intros v; cbn; [lia|]. destruct (Rlt_dec v (- y)); cbn; specialize (IH v); lia. }
  unfold len in *. split.
  - rewrite <- (count_perm _ _ (- x) P). unfold count_losses_above. rewrite filter_app, app_length. cbn [filter].
    destruct (Rlt_dec (- x) (- x)); [lra|]. rewrite (Hnone b); [|intros y Hy; specialize (Hbb y Hy); lra].
    specialize (Hle a (- x)). apply le_INR in Hle. rewrite Nat.add_0_r. lra.
  - intros v Hv. rewrite <- (count_perm _ _ v P). unfold count_losses_above. rewrite filter_app, app_length. cbn [filter].
    destruct (Rlt_dec v (- x)); [|lra]. rewrite (Hall a) by (intros y Hy; specialize (Ha y Hy); lra).
    cbn [length]. rewrite plus_INR, S_INR. pose proof (pos_INR (length (filter (fun x => if Rlt_dec v (- x) then true else false) b))). lra.
Qed.
Print Assumptions C12_var_is_tail_quantile.

(** -mean <= CVaR, VaR <= CVaR <= worst realization, CVaR <= entropic measure for every theta > 0 *)
Theorem C12_ordering :
  forall p, partition_ok p -> forall r beta, r <> [] -> 0 <= beta < 1 ->
    value_at_risk p r beta <= cvar p r beta
    /\ - mean r <= cvar p r beta
    /\ cvar p r beta <= worst_realization r
    /\ (forall beta', beta <= beta' < 1 -> cvar p r beta <= cvar p r beta')
    /\ (forall theta, 0 < theta -> cvar p r beta <= entropic_risk_measure r theta beta).
Proof.
  intros p Hp r beta Hr Hb.
  assert (Hn: 0 < INR (length r)) by (apply INR_pos; destruct r; [congruence|cbn; lia]).
  split; [|split; [|split; [|split]]].
  - rewrite (cvar_ru_attained p Hp) by auto. unfold ru.
    assert (0 <= sum_over r (fun x => Rmax (- x - value_at_risk p r beta) 0) / len r / (1 - beta)).
    { unfold len. apply Rmult_le_pos; [apply Rmult_le_pos|]; [apply so_nonneg; intros; apply Rmax_r|left; apply Rinv_0_lt_compat; lra|left; apply Rinv_0_lt_compat; lra]. }
    lra.
  - rewrite (cvar_ru_attained p Hp) by auto. set (t := value_at_risk p r beta). unfold ru, mean, len.
    assert (H: rsum (map Ropp r) - INR (length r) * t <= sum_over r (fun x => Rmax (- x - t) 0)).
    { change (rsum (map Ropp r)) with (sum_over r Ropp). rewrite <- so_const, <- so_sub. apply so_le. intros. apply Rmax_l. }
    assert (Hpos: 0 <= sum_over r (fun x => Rmax (- x - t) 0)) by (apply so_nonneg; intros; apply Rmax_r).
    change (rsum (map Ropp r)) with (sum_over r (fun x => - x)) in H. rewrite so_opp, so_id in H.
    set (S := sum_over r (fun x => Rmax (- x - t) 0)) in *. set (n := INR (length r)) in *.
    assert (S / n <= S / n / (1 - beta)).
    { assert (0 <= S / n) by (apply Rmult_le_pos; [lra|left; apply Rinv_0_lt_compat; lra]).
      rewrite <- (Rmult_1_r (S / n)) at 1. apply Rmult_le_compat_l; [lra|]. rewrite <- Rinv_1. apply Rinv_le_contravar; lra. }
    assert (- (rsum r / n) <= t + S / n).
    { apply Rmult_le_reg_r with n; [lra|]. replace (- (rsum r / n) * n) with (- rsum r) by (field; lra).
      replace ((t + S / n) * n) with (n * t + S) by (field; lra). lra. }
    lra.
  - eapply Rle_trans; [apply (cvar_ru_lower p Hp r beta (worst_realization r)); auto|]. unfold ru.
    rewrite so_zero; [unfold Rdiv; lra|]. intros x Hx. apply Rmax_right. unfold worst_realization.
    destruct (minR_spec r Hr) as [_ H]. specialize (H x Hx). lra.
  - intros beta' Hb'. rewrite (cvar_ru_attained p Hp r beta') by (auto; lra).
    eapply Rle_trans; [apply (cvar_ru_lower p Hp r beta (value_at_risk p r beta')); auto|]. unfold ru.
    apply Rplus_le_compat_l. apply Rmult_le_compat_l.
    + unfold len. apply Rmult_le_pos; [apply so_nonneg; intros; apply Rmax_r|left; apply Rinv_0_lt_compat; lra].
    + apply Rinv_le_contravar; lra.
  - intros theta Ht. destruct (cvar_dual_attained p Hp r beta Hr Hb) as (q&L&Hq&S&E). rewrite E.
    unfold entropic_risk_measure, mean, len. rewrite map_length. change (rsum (map (fun x => exp (- x / theta)) r)) with (sum_over r (fun x => exp (- x / theta))).
    replace (sum_over r (fun x => exp (- x / theta)) / INR (length r) / (1 - beta)) with (sum_over r (fun x => exp (- x / theta)) / ((1 - beta) * INR (length r))) by (field; lra).
    apply entropic_dual; auto. apply Rmult_lt_0_compat; lra.
Qed.
Print Assumptions C12_ordering.

(** EVaR, whatever point the solver stops at, bounds CVaR from above as soon as one return is negative *)
Theorem C12_evar_above_cvar :
  forall p, partition_ok p -> forall solver r beta, 0 <= beta < 1 ->
    (exists x, In x r /\ x < 0) ->
    (forall f lb, lb <= solver f lb) ->
    cvar p r beta <= evar solver r beta.
Proof.
  intros p Hp solver r beta Hb (x&Hx&Hneg) Hs. unfold evar.
  assert (Hr: r <> []) by (intros ->; destruct Hx).
  apply (C12_ordering p Hp r beta Hr Hb).
  eapply Rlt_le_trans; [|apply Hs]. unfold evar_lower_bound.
  destruct (maxR_spec (map Ropp r)) as [_ H]; [destruct r; [congruence|discriminate]|].
  specialize (H (- x) (in_map Ropp _ _ Hx)). lra.
Qed.
Print Assumptions C12_evar_above_cvar.

(** ... but not when no return is negative: the solver's interval then contains negative risk aversions,
    at which the objective is below CVaR. *)
Theorem C12_evar_no_loss_refuted :
  exists solver r beta,
    0 < beta < 1 /\ (forall f lb, lb <= solver f lb)
    /\ forall p, partition_ok p -> evar solver r beta < cvar p r beta.
Proof.
  exists (fun _ lb => lb), [1; 1], (1/2). split; [lra|]. split; [intros; lra|]. intros p Hp.
  assert (Hw: - mean [1;1] <= cvar p [1;1] (1/2)).
  { apply (C12_ordering p Hp [1;1] (1/2)); [discriminate|lra]. }
  unfold mean, len in Hw. cbn in Hw.
  unfold evar, evar_lower_bound. cbn [map maxR fold_left]. rewrite Rmax_left by lra.
  unfold entropic_risk_measure, mean, len. cbn [map length].
  replace (- (1) / (- (1) / 100)) with 100 by field.
  rewrite !rsum_cons, rsum_nil. replace ((exp 100 + (exp 100 + 0)) / INR 2 / (1 - 1 / 2)) with (exp 100 * 2) by (cbn; field).
  rewrite ln_mult, ln_exp by (try apply exp_pos; lra).
  assert (0 < ln 2) by (rewrite <- ln_1; apply ln_increasing; lra). lra.
Qed.
Print Assumptions C12_evar_no_loss_refuted.

(** deviation measures about the mean *)
Theorem C12_deviation_ordering :
  forall r, (2 <= length r)%nat ->
    mean_absolute_deviation r None = 2 * first_lower_partial_moment r None
    /\ first_lower_partial_moment r None <= semi_deviation r None
    /\ semi_deviation r None <= standard_deviation r
    /\ mean_absolute_deviation r None <= standard_deviation r.
Proof.
  intros r Hn. assert (H2: 2 <= INR (length r)) by (apply le_INR in Hn; cbn in Hn; lra).
  set (m := mean r). set (n := INR (length r)) in *.
  assert (Hmean: sum_over r (fun x => x - m) = 0).
  { rewrite so_sub, so_id, so_const. fold n. unfold m, mean, len. fold n. field. lra. }
  assert (Hmin: sum_over r (fun x => Rabs (x - m)) = - 2 * sum_over r (fun x => Rmin 0 (x - m))).
  { assert (E: sum_over r (fun x => Rabs (x - m)) = sum_over r (fun x => (x - m) - 2 * Rmin 0 (x - m))).
    { apply so_ext. intros x _. unfold Rmin, Rabs. destruct (Rle_dec 0 (x - m)), (Rcase_abs (x - m)); lra. }
    rewrite E, so_sub, Hmean, so_scal. ring. }
  assert (Hflpm: first_lower_partial_moment r None <= semi_deviation r None).
  { unfold first_lower_partial_moment, semi_deviation, semi_variance, target. fold m. unfold len. fold n.
    set (S1 := sum_over r (fun x => Rmin 0 (x - m))). set (S2 := sum_over r (fun x => Rmin 0 (x - m) ^ 2)).
    assert (HS1: S1 <= 0).
    { assert (H: 0 <= sum_over r (fun x => - Rmin 0 (x - m))).
      { apply so_nonneg. intros x _. unfold Rmin. destruct (Rle_dec 0 (x - m)); lra. }
      rewrite so_opp in H. fold S1 in H. lra. }
    pose proof (so_mean_sq (fun x => Rmin 0 (x - m)) r) as C. cbv beta in C. fold S1 S2 n in C.
    assert (HS2: 0 <= S2) by (apply so_nonneg; intros; apply pow2_ge_0).
    apply Rsqr_incr_0_var; [|apply sqrt_pos].
    assert (Hd: 0 <= S2 / (n - 1)) by (apply Rmult_le_pos; [lra|left; apply Rinv_0_lt_compat; lra]).
    rewrite Rsqr_sqrt by exact Hd. unfold Rsqr.
    replace (- S1 / n * (- S1 / n)) with (S1^2 / (n * n)) by (field; lra).
    apply Rle_trans with (n * S2 / (n * n)).
    - apply Rmult_le_compat_r; [left; apply Rinv_0_lt_compat; nra|exact C].
    - replace (n * S2 / (n * n)) with (S2 / n) by (field; lra). apply Rmult_le_compat_l; [lra|]. apply Rinv_le_contravar; lra. }
  split; [|split; [exact Hflpm|split]].
  - unfold mean_absolute_deviation, first_lower_partial_moment, target. fold m. rewrite Hmin. unfold len. fold n. field. lra.
  - unfold semi_deviation, standard_deviation, semi_variance, variance, target. fold m. unfold len. fold n.
    apply sqrt_le_1_alt. apply Rmult_le_compat_r; [left; apply Rinv_0_lt_compat; lra|]. apply so_le. intros x _.
    unfold Rmin. destruct (Rle_dec 0 (x - m)); [|lra]. pose proof (pow2_ge_0 (x - m)). lra.
  - unfold mean_absolute_deviation, standard_deviation, variance, target. fold m. unfold len. fold n.
    set (S1 := sum_over r (fun x => Rabs (x - m))). set (S2 := sum_over r (fun x => (x - m) ^ 2)).
    assert (HS1: 0 <= S1) by (apply so_nonneg; intros; apply Rabs_pos).
    pose proof (so_mean_sq (fun x => Rabs (x - m)) r) as C. cbv beta in C. fold S1 n in C.
    rewrite (so_ext (fun x => Rabs (x - m) ^ 2) (fun x => (x - m)^2)) in C by (intros; apply pow2_abs). fold S2 in C.
    assert (HS2: 0 <= S2) by (apply so_nonneg; intros; apply pow2_ge_0).
    apply Rsqr_incr_0_var; [|apply sqrt_pos].
    assert (Hd: 0 <= S2 / (n - 1)) by (apply Rmult_le_pos; [lra|left; apply Rinv_0_lt_compat; lra]).
    rewrite Rsqr_sqrt by exact Hd. unfold Rsqr.
    replace (S1 / n * (S1 / n)) with (S1^2 / (n * n)) by (field; lra).
    apply Rle_trans with (n * S2 / (n * n)).
    + apply Rmult_le_compat_r; [left; apply Rinv_0_lt_compat; nra|exact C].
    + replace (n * S2 / (n * n)) with (S2 / n) by (field; lra). apply Rmult_le_compat_l; [lra|]. apply Rinv_le_contravar; lra.
Qed.
Print Assumptions C12_deviation_ordering.

(** entropic risk measure: translation equivariant, and never more than the worst loss plus theta ln(1/(1-beta)) *)
Theorem C12_entropic_risk_measure :
  forall r theta beta, r <> [] -> 0 < theta -> 0 <= beta < 1 ->
    (forall c, entropic_risk_measure (map (fun x => x + c) r) theta beta = entropic_risk_measure r theta beta - c)
    /\ entropic_risk_measure r theta beta <= worst_realization r + theta * ln (/ (1 - beta)).
Proof.
  intros r theta beta Hr Ht Hb.
  assert (Hn: 0 < INR (length r)) by (apply INR_pos; destruct r; [congruence|cbn; lia]).
  assert (Hpos: 0 < sum_over r (fun x => exp (- x / theta))).
  { destruct r as [|y r']; [congruence|]. rewrite so_cons. pose proof (exp_pos (- y / theta)).
    assert (0 <= sum_over r' (fun x => exp (- x / theta))) by (apply so_nonneg; intros; left; apply exp_pos). lra. }
  assert (Hi: 0 < / INR (length r)) by (apply Rinv_0_lt_compat; auto).
  assert (Hj: 0 < / (1 - beta)) by (apply Rinv_0_lt_compat; lra).
  split.
  - intros c. unfold entropic_risk_measure, mean, len. rewrite !map_length.
    rewrite map_map. change (rsum (map (fun x => exp (- (x + c) / theta)) r)) with (sum_over r (fun x => exp (- (x + c) / theta))).
    rewrite (so_ext _ (fun x => exp (- c / theta) * exp (- x / theta))).
    2:{ intros x _. rewrite <- exp_plus. f_equal. field. lra. }
    rewrite so_scal.
    change (rsum (map (fun x => exp (- x / theta)) r)) with (sum_over r (fun x => exp (- x / theta))).
    set (S := sum_over r (fun x => exp (- x / theta))) in *.
    replace (exp (- c / theta) * S / INR (length r) / (1 - beta)) with (exp (- c / theta) * (S / INR (length r) / (1 - beta))) by (field; lra).
    rewrite ln_mult, ln_exp; [field; lra|apply exp_pos|]. unfold Rdiv. repeat apply Rmult_lt_0_compat; auto.
  - unfold entropic_risk_measure, mean, len, worst_realization. rewrite map_length.
    change (rsum (map (fun x => exp (- x / theta)) r)) with (sum_over r (fun x => exp (- x / theta))).
    set (S := sum_over r (fun x => exp (- x / theta))) in *.
    assert (HS: S <= INR (length r) * exp (- minR r / theta)).
    { unfold S. rewrite Rmult_comm, (Rmult_comm (exp _)), <- so_const. apply so_le. intros x Hx.
      destruct (minR_spec r Hr) as [_ B]. specialize (B x Hx).
      assert (- x / theta <= - minR r / theta) by (apply Rmult_le_compat_r; [left; apply Rinv_0_lt_compat; auto|lra]).
      destruct H as [H|H]; [left; apply exp_increasing; auto|rewrite H; lra]. }
    replace (- minR r + theta * ln (/ (1 - beta))) with (theta * (- minR r / theta + ln (/ (1 - beta)))) by (field; lra).
    apply Rmult_le_compat_l; [lra|]. rewrite <- (ln_exp (- minR r / theta)), <- ln_mult by (try apply exp_pos; auto).
    assert (Hle: S / INR (length r) / (1 - beta) <= exp (- minR r / theta) * / (1 - beta)).
    { unfold Rdiv at 1. apply Rmult_le_compat_r; [lra|].
      apply Rmult_le_reg_r with (INR (length r)); [lra|]. unfold Rdiv. rewrite Rmult_assoc, Rinv_l by lra. lra. }
    destruct Hle as [Hle|Hle]; [left; apply ln_increasing; auto|rewrite Hle; lra].
    unfold Rdiv. repeat apply Rmult_lt_0_compat; auto.
Qed.
Print Assumptions C12_entropic_risk_measure.

Example C12_example : [1; -2; 3] <> [] /\ (exists x, In x [1; -2; 3] /\ x < 0) /\ 0 <= 19/20 < 1
  /\ partition_ok (fun r _ => sortR r) /\ (forall (f : R -> R) lb, lb <= (fun _ l => l + 1) f lb).
Proof.
  split; [discriminate|]. split; [exists (-2); split; [right; left; reflexivity|lra]|]. split; [lra|].
  split; [apply sort_partition_ok|]. intros; lra.
Qed.
