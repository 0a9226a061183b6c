(** C33, C34, continued: turnover, sign of the homogenisation factor, and cases the code does not handle; examples. *)
From Coq Require Import List ZArith Bool Arith Reals Lia Lra.
From Verif Require Import RList EquationsModel EquationsSpec EquationsProofs EquationsProps ConvexModel ConvexProps.
Import ListNotations.
Local Open Scope R_scope.

(** max_turnover bounds the change of every reported weight *)
Theorem C33_turnover :
  forall n s prev t w f l, 0 < s -> 0 < f -> turnover_constraints n s (Some prev) (Some t) w f = COk l ->
    (Forall holds_at l <-> forall i, (i < n)%nat -> Rabs (reported w f i - value prev i) <= t).
Proof.
  intros n s prev t w f l Hs Hf E. cbn in E. inversion E; subst; clear E. rewrite elementwise_holds. cbn [holds_at].
  assert (G: forall i, Rabs (w i - value prev i * f) = Rabs (reported w f i - value prev i) * f).
  { intros i. replace (Rabs (reported w f i - value prev i) * f) with (Rabs (reported w f i - value prev i) * Rabs f) by (rewrite (Rabs_right f) by lra; reflexivity). rewrite <- Rabs_mult. f_equal. unfold reported. field. lra. }
  split; intros H i Hi; specialize (H i Hi); rewrite G in *.
  - apply Rmult_le_reg_r with f; auto. apply Rmult_le_reg_r with s; auto.
  - apply Rmult_le_compat_r; [lra|]. apply Rmult_le_compat_r; lra.
Qed.
Print Assumptions C33_turnover.
Theorem C33_turnover_needs_previous_weights : forall n s t w f, turnover_constraints n s None (Some t) w f = CErr PreviousWeightsMissing.
Proof. reflexivity. Qed.
Print Assumptions C33_turnover_needs_previous_weights.

(** the expected return of no position is zero *)
Lemma expected_return_zero n mu costs prev fees u w : (forall i, (i < n)%nat -> w i = 0) -> expected_return n mu costs prev fees u w 0 = 0.
Proof.
  intros H. assert (S: forall g : vec, (forall i, (i < n)%nat -> g i = 0) -> sumn n g = 0) by (intros g Hg; apply so_zero; intros i Hi; apply in_seq in Hi; apply Hg; lia).
  unfold expected_return, transaction_cost, management_fee, mu_uncertainty. rewrite (S (fun i => mu i * w i)) by (intros; rewrite H by auto; ring).
  rewrite (S (fun i => value fees i * w i)) by (intros; rewrite H by auto; ring).
  assert (T: (if all n (fun i => eqb0 (value costs i)) then 0 else match costs with Scalar c => c * sumn n (fun i => Rabs (value prev i * 0 - w i)) | PerAsset c => sumn n (fun i => Rabs (c i * (value prev i * 0 - w i))) end) = 0).
  { destruct (all n _); auto. destruct costs.
    - rewrite S; [ring|]. intros; rewrite H by auto. rewrite Rmult_0_r, Rminus_0_r. apply Rabs_R0.
    - apply S. intros; rewrite H by auto. rewrite Rmult_0_r, Rminus_0_r, Rmult_0_r. apply Rabs_R0. }
  rewrite T. destruct u as [[k root]|]; [|ring]. rewrite S; [rewrite sqrt_0; ring|]. intros i Hi. rewrite S; [ring|]. intros; rewrite H by auto; ring.
Qed.
(** with a lower and an upper bound that differ for some asset, the ratio objective cannot return a non-positive factor *)
Theorem C33_factor_positive :
  forall to_float n p names mip_solver allow_negative s w f m l mn mx mu costs prev fees u rf h,
    0 < s -> 0 < h -> min_weights p = Some mn -> max_weights p = Some mx -> (exists i, (i < n)%nat /\ mn i < mx i) ->
    weight_constraints to_float n p names mip_solver allow_negative true s w f m = COk l -> Forall holds_at l ->
    holds_at (ratio_constraint s (expected_return n mu costs prev fees u w f) rf h f (is_affine n costs u)) ->
    0 < f.
Proof.
  intros tf n p names ms an s w f m l mn mx mu costs prev fees u rf h Hs Hh Emn Emx (i&Hi&Hlt) E Hl Hr.
  unfold weight_constraints in E. rewrite Emn, Emx in E. destruct (is_mip n p && negb ms); [discriminate|].
  apply capp_ok in E as (l1&r1&E1&E&->). apply capp_ok in E as (l2&r2&E2&E&->). destruct (negb an && _); [discriminate|]. inversion E1; subst l1. inversion E2; subst l2.
  rewrite !Forall_app, !elementwise_holds in Hl. cbn [holds_at] in Hl. destruct Hl as (A&B&_).
  destruct (Rtotal_order f 0) as [H|[H|H]]; [| |exact H]; exfalso.
  - pose proof (A i Hi). pose proof (B i Hi). assert (mn i * f <= mx i * f) by (apply Rmult_le_reg_r with s; lra). nra.
  - subst f. assert (W: forall j, (j < n)%nat -> w j = 0). { intros j Hj. pose proof (A j Hj). pose proof (B j Hj). nra. }
    rewrite (expected_return_zero n mu costs prev fees u w W) in Hr. unfold ratio_constraint in Hr. destruct (is_affine n costs u); cbn [holds_at] in Hr; nra.
Qed.
Print Assumptions C33_factor_positive.
Lemma homogenization_factor_positive n mu : 1/1000 <= homogenization_factor n mu <= 1000.
Proof. unfold homogenization_factor. split; [apply Rmin_glb; [lra|apply Rmax_l]|apply Rmin_l]. Qed.
Theorem C33_homogenization_factor : forall n mu, 0 < homogenization_factor n mu <= 1000.
Proof. intros n mu. pose proof (homogenization_factor_positive n mu). lra. Qed.
Print Assumptions C33_homogenization_factor.

Definition no_params : params := {| min_weights := None; max_weights := None; budget := Some 1; min_budget := None; max_budget := None; max_short := None;
  max_long := None; cardinality := None; group_cardinalities := None; threshold_long := None; threshold_short := None; groups := None;
  linear_constraints := None; left_inequality := None; right_inequality := None |}.
Definition no_mip : mip_vars := {| invested := fun _ => 0; invested_factor := fun _ => 0; short := fun _ => 0; long := fun _ => 0; short_factor := fun _ => 0; long_factor := fun _ => 0 |}.
Definition no_float : str -> option R := fun _ => None.
Definition two (a b : R) : nat -> R := fun i => match i with O => a | _ => b end.

(** without bounds the factor may be negative, and the reported weights then break an inequality: budget 1,
    [left_inequality] 1 * x0 <= 1/10, mu = (-1, 0): the point w = (-1/2, 0), f = -1/2 is feasible and reports x = (1, 0) *)
Theorem C33_negative_factor_refuted :
  exists n p s w f m l mu h,
    0 < s /\ h = homogenization_factor n mu
    /\ weight_constraints no_float n p None true true true s w f m = COk l /\ Forall holds_at l
    /\ holds_at (ratio_constraint s (expected_return n mu (Scalar 0) (Scalar 0) (Scalar 0) None w f) 0 h f (is_affine n (Scalar 0) None))
    /\ ~ documented no_float n p None [] (reported w f).
Proof.
  set (p := {| min_weights := None; max_weights := None; budget := Some 1; min_budget := None; max_budget := None; max_short := None;
    max_long := None; cardinality := None; group_cardinalities := None; threshold_long := None; threshold_short := None; groups := None;
    linear_constraints := None; left_inequality := Some [[1; 0]]; right_inequality := Some [1/10] |}).
  eexists 2%nat, p, 1, (two (-1/2) 0), (-1/2), no_mip, _, (two (-1) 0), (1/2). split; [lra|]. split; [|split; [reflexivity|split; [|split]]].
  - unfold homogenization_factor, sumn. cbn. rewrite Rabs_R0. rewrite Rabs_left by lra. rewrite Rmax_right by lra. rewrite Rmin_right by lra. lra.
  - cbn. constructor; [cbn; unfold sumn; cbn; lra|]. constructor; [cbn; unfold rowdotn, sumn; cbn; lra|constructor].
  - unfold ratio_constraint, is_affine, expected_return, transaction_cost, management_fee, mu_uncertainty, all. cbn. unfold eqb0. destruct (Req_EM_T 0 0) as [_|H]; [|exfalso; apply H; reflexivity]. cbn. unfold sumn. cbn. lra.
  - unfold documented. intros (_&_&_&_&_&_&_&_&H). specialize (H _ _ eq_refl eq_refl 0%nat ltac:(cbn; lia)). cbn in H. unfold reported in H. cbn in H. lra.
Qed.
Print Assumptions C33_negative_factor_refuted.

(** thresholds that are all zero are dropped, but the branch of the short thresholds is still taken: TypeError *)
Theorem C34_zero_short_threshold_refuted :
  exists p, (forall i, opt (threshold_short p) (fun t => t i <= 0)) /\ (forall i, opt (threshold_long p) (fun t => 0 <= t i)) /\
    forall s w f m, weight_constraints no_float 2 p None true true true s w f m = CErr TypeError.
Proof.
  exists {| min_weights := Some (fun _ => -1); max_weights := Some (fun _ => 1); budget := Some 1; min_budget := None; max_budget := None; max_short := None;
    max_long := None; cardinality := None; group_cardinalities := None; threshold_long := Some (fun _ => 0); threshold_short := Some (fun _ => 0); groups := None;
    linear_constraints := None; left_inequality := None; right_inequality := None |}. split; [cbn; intros; lra|]. split; [cbn; intros; lra|].
  intros s w f m. unfold weight_constraints, mip_constraints, clean_threshold, is_mip, all, any. cbn.
  unfold ltb, eqb0. destruct (Rlt_dec 0 (-1)); [lra|]. destruct (Rlt_dec (-1) 0); [|lra]. destruct (Req_EM_T 0 0) as [_|H]; [|exfalso; apply H; reflexivity]. reflexivity.
Qed.
Print Assumptions C34_zero_short_threshold_refuted.
(** min_weights=None is documented as no lower bound; with a cardinality it raises TypeError instead of the ValueError *)
Theorem C34_no_min_weights_refuted :
  exists p, min_weights p = None /\ cardinality p = Some 1%nat /\
    forall s w f m, weight_constraints no_float 2 p None true true true s w f m = CErr TypeError.
Proof.
  exists {| min_weights := None; max_weights := Some (fun _ => 1); budget := Some 1; min_budget := None; max_budget := None; max_short := None;
    max_long := None; cardinality := Some 1%nat; group_cardinalities := None; threshold_long := None; threshold_short := None; groups := None;
    linear_constraints := None; left_inequality := None; right_inequality := None |}. repeat split.
Qed.
Print Assumptions C34_no_min_weights_refuted.

(** the hypotheses are met: long-only, budget 1, one position out of two, factor 2 *)
Example C33_C34_hypotheses_met :
  let p := {| min_weights := Some (fun _ => 0); max_weights := Some (fun _ => 1); budget := Some 1; min_budget := None; max_budget := None; max_short := None;
    max_long := None; cardinality := Some 1%nat; group_cardinalities := None; threshold_long := Some (fun _ => 1/10); threshold_short := None; groups := None;
    linear_constraints := None; left_inequality := Some [[1; 1]]; right_inequality := Some [3] |} in
  let w := two 2 0 in
  let m := {| invested := two 1 0; invested_factor := two 2 0; short := fun _ => 0; long := fun _ => 0; short_factor := fun _ => 0; long_factor := fun _ => 0 |} in
  is_mip 2 p = true /\ groups_ok 2 p /\ written_constraints no_float 2 p None []
  /\ exists l, weight_constraints no_float 2 p None true true true 1 w 2 m = COk l /\ Forall holds_at l /\ (10 < length l)%nat
       /\ within_cardinalities 2 p (reported w 2) /\ documented no_float 2 p None [] (reported w 2).
Proof.
  intros p w m. assert (G: groups_ok 2 p) by (unfold groups_ok; cbn; auto). assert (W: written_constraints no_float 2 p None []) by reflexivity.
  split; [reflexivity|]. split; [exact G|]. split; [exact W|].
  assert (X: exists l, weight_constraints no_float 2 p None true true true 1 w 2 m = COk l /\ Forall holds_at l /\ (10 < length l)%nat).
  { unfold weight_constraints, mip_constraints, clean_threshold, is_mip, all, any. cbn. unfold ltb, eqb0. destruct (Rlt_dec 0 0); [lra|]. destruct (Req_EM_T (1/10) 0); [lra|]. cbn.
    eexists. split; [reflexivity|]. split; [|cbn; lia]. unfold bigM, rowdotn, sumn. cbn. repeat (constructor; [cbn; unfold sum_over; cbn; lra|]). constructor. }
  destruct X as (l&E&H&L). exists l. split; auto. split; auto. split; auto. split.
  - eapply C34_cardinalities_and_thresholds; [exact Rlt_0_1|exact Rlt_0_2| |exact G|exact E|exact H]. intros X; discriminate X.
  - apply (proj1 (C33_reported_weights _ _ _ _ _ _ _ _ _ _ _ [] _ Rlt_0_1 Rlt_0_2 W E) H).
Qed.
