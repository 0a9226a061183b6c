(** C37: at an optimum of the risk budgeting problem the risk contributions are proportional to the budget. *)
From Coq Require Import List Arith Bool Reals Lia Lra.
From Verif Require Import RList EquationsModel ConvexModel ConvexProps ConvexMoreProps RiskModel RiskProps RiskTailProps BudgetingModel.
Import ListNotations.
Local Open Scope R_scope.

(** * Specification *)
(** (first-order) differentiability at w in the n weights, with gradient g *)
Definition differentiable_at (n : nat) (rho : vec -> R) (w g : vec) : Prop :=
  forall eps, 0 < eps -> exists d, 0 < d /\ forall h, (forall i, (i < n)%nat -> Rabs (h i) < d) ->
    Rabs (rho (fun i => w i + h i) - rho w - sum_over (seq 0 n) (fun i => g i * h i)) <= eps * sum_over (seq 0 n) (fun i => Rabs (h i)).
(** the constraints on the weights and the minimum return do not bind: they hold at all nearby weights for some factor *)
Definition not_binding (tf : str -> option R) (q : risk_budgeting) (x : bpoint) : Prop :=
  let n := n_assets (rb_prior q) in let s := scale (rb_settings q) in
  exists d, 0 < d /\ forall w, (forall i, (i < n)%nat -> Rabs (w i - bw x i) < d) -> exists x' l,
    bw x' = w /\ weight_constraints tf n (rb_params q) (rb_names q) (rb_mip_solver q) false true s w (bf x') (bm x') = COk l /\ Forall holds_at l
    /\ Forall holds_at (min_return_constraints s (budgeting_return q x') (rb_min_return q) (bf x')).
(** the default constraints: weights between 0 and 1 with sum 1 *)
Definition default_constraints (q : risk_budgeting) : Prop :=
  rb_min_return q = None /\ exists lo hi, (forall i, lo i = 0) /\ (forall i, hi i = 1) /\
  rb_params q = {| min_weights := Some lo; max_weights := Some hi; budget := Some 1; min_budget := None; max_budget := None; max_short := None; max_long := None;
    cardinality := None; group_cardinalities := None; threshold_long := None; threshold_short := None; groups := groups (rb_params q); linear_constraints := None; left_inequality := None; right_inequality := None |}.
Definition marginal (n : nat) (cov : nat -> vec) (x : vec) (i : nat) : R := sum_over (seq 0 n) (fun j => cov i j * x j).
(** what the budget stands for *)
Definition budget_is (b : option input) (v : vec) : Prop :=
  match b with None => forall i, v i = 1 | Some (Scalar _) => False
  | Some (PerAsset u) => forall i, (u i <> 0 -> v i = u i) /\ (u i = 0 -> v i = 1 / 10000000000) end.

(** * Proofs *)
Lemma clean_budget_spec b v : clean_budget b = COk v -> budget_is b v.
Proof.
  destruct b as [[x|u]|]; cbn; intros H; inversion H; auto. intros i. unfold eqb0. destruct (Req_EM_T (u i) 0); split; auto; congruence.
Qed.
Lemma exp_bounds x : Rabs x <= 1/2 -> 0 <= exp x - 1 - x <= 2 * x ^ 2 /\ Rabs (exp x - 1) <= 2 * Rabs x.
Proof.
  intros H. assert (Hx: -(1/2) <= x <= 1/2) by (unfold Rabs in H; destruct (Rcase_abs x); lra).
  assert (A: 0 <= exp x - 1 - x) by (pose proof (exp_ineq1_le x); lra).
  assert (B: exp x * (1 - x) <= 1). { pose proof (exp_ineq1_le (- x)). rewrite exp_Ropp in H0. pose proof (exp_pos x). apply Rmult_le_reg_l with (/ exp x); [apply Rinv_0_lt_compat; auto|]. rewrite <- Rmult_assoc, Rinv_l by lra. lra. }
  assert (C: exp x - 1 - x <= 2 * x ^ 2) by nra. split; [lra|].
  unfold Rabs. destruct (Rcase_abs (exp x - 1)), (Rcase_abs x); nra.
Qed.
Lemma so_pick n (g : vec) i : (i < n)%nat -> (forall k, (k < n)%nat -> k <> i -> g k = 0) -> sum_over (seq 0 n) g = g i.
Proof.
  intros Hi H. replace n with (i + S (n - S i))%nat by lia. rewrite seq_app, so_app. cbn [seq Nat.add]. rewrite so_cons. rewrite (so_zero g (seq 0 i)), (so_zero g (seq (S i) _)); [ring| |];
    intros k Hk; apply in_seq in Hk; apply H; lia.
Qed.
Lemma so_pick2 n (g : vec) i j : (i < n)%nat -> (j < n)%nat -> i <> j -> (forall k, (k < n)%nat -> k <> i -> k <> j -> g k = 0) -> sum_over (seq 0 n) g = g i + g j.
Proof.
  intros Hi Hj Hij H. rewrite (so_ext g (fun k => (if (k =? i)%nat then g i else 0) + (if (k =? j)%nat then g j else 0))).
  - rewrite so_add. rewrite (so_pick n _ i), (so_pick n _ j); auto; rewrite ?Nat.eqb_refl; auto; intros k _ Hk; destruct (Nat.eqb_spec k i), (Nat.eqb_spec k j); congruence.
  - intros k Hk. apply in_seq in Hk. destruct (Nat.eqb_spec k i), (Nat.eqb_spec k j); subst; try ring; try congruence. rewrite H by (auto; lia). ring.
Qed.
Lemma first_order n (b w g : vec) rho d0 i j : (forall k, (k < n)%nat -> 0 < w k) -> differentiable_at n rho w g -> 0 < d0 ->
  (forall w', (forall k, (k < n)%nat -> Rabs (w' k - w k) < d0 /\ 0 < w' k) -> sum_over (seq 0 n) (fun k => b k * ln (w' k)) = sum_over (seq 0 n) (fun k => b k * ln (w k)) -> rho w <= rho w') ->
  (i < n)%nat -> (j < n)%nat -> i <> j -> 0 <= b j * (w i * g i) - b i * (w j * g j).
Proof.
  intros Hw Hd H0 Hmin Hi Hj Hij. apply Rnot_lt_le. intros HD. set (D := b j * (w i * g i) - b i * (w j * g j)) in *.
  set (K := 2 * (Rabs (g i * w i) * b j ^ 2 + Rabs (g j * w j) * b i ^ 2)). set (M := 2 * (w i * Rabs (b j) + w j * Rabs (b i))).
  pose proof (Hw i Hi) as Wi. pose proof (Hw j Hj) as Wj.
  assert (HK: 0 <= K). { unfold K. pose proof (Rabs_pos (g i * w i)). pose proof (Rabs_pos (g j * w j)). pose proof (pow2_ge_0 (b i)). pose proof (pow2_ge_0 (b j)). nra. }
  assert (HM: 0 <= M). { unfold M. pose proof (Rabs_pos (b i)). pose proof (Rabs_pos (b j)). nra. }
  set (eps := - D / (4 * (M + 1))). assert (He: 0 < eps) by (unfold eps; apply Rdiv_lt_0_compat; lra).
  destruct (Hd eps He) as (d1&Hd1&Hdiff).
  set (B := 2 * (Rabs (b i) + Rabs (b j)) + 1). assert (HB: 1 <= B) by (unfold B; pose proof (Rabs_pos (b i)); pose proof (Rabs_pos (b j)); lra).
  set (t := Rmin (/ B) (Rmin (- D / (4 * (K + 1))) (Rmin (d0 / (2 * (M + 1))) (d1 / (2 * (M + 1)))))).
  assert (Ht: 0 < t). { unfold t. repeat apply Rmin_glb_lt; try (apply Rdiv_lt_0_compat; lra). apply Rinv_0_lt_compat; lra. }
  assert (T1: t <= / B) by apply Rmin_l.
  assert (T2: t <= - D / (4 * (K + 1))) by (eapply Rle_trans; [apply Rmin_r|apply Rmin_l]).
  assert (T3: t <= d0 / (2 * (M + 1))) by (eapply Rle_trans; [apply Rmin_r|eapply Rle_trans; [apply Rmin_r|apply Rmin_l]]).
  assert (T4: t <= d1 / (2 * (M + 1))) by (eapply Rle_trans; [apply Rmin_r|eapply Rle_trans; [apply Rmin_r|apply Rmin_r]]).
  assert (S2: t * (4 * (K + 1)) <= - D). { apply Rmult_le_compat_r with (r := 4 * (K + 1)) in T2; [|lra]. unfold Rdiv in T2. rewrite Rmult_assoc, Rinv_l in T2 by lra. lra. }
  assert (S3: t * (2 * (M + 1)) <= d0). { apply Rmult_le_compat_r with (r := 2 * (M + 1)) in T3; [|lra]. unfold Rdiv in T3. rewrite Rmult_assoc, Rinv_l in T3 by lra. lra. }
  assert (S4: t * (2 * (M + 1)) <= d1). { apply Rmult_le_compat_r with (r := 2 * (M + 1)) in T4; [|lra]. unfold Rdiv in T4. rewrite Rmult_assoc, Rinv_l in T4 by lra. lra. }
  assert (S1: t * B <= 1). { apply Rmult_le_compat_r with (r := B) in T1; [|lra]. rewrite Rinv_l in T1 by lra. lra. }
  clear T1 T2 T3 T4. clearbody t.
  assert (AB: Rabs (t * b j) <= 1/2 /\ Rabs (- (t * b i)) <= 1/2). { rewrite Rabs_Ropp, !Rabs_mult, (Rabs_right t) by lra. unfold B in S1. pose proof (Rabs_pos (b i)). pose proof (Rabs_pos (b j)). split; nra. }
  destruct AB as [Aj Ai]. destruct (exp_bounds _ Aj) as [Ej1 Ej2]. destruct (exp_bounds _ Ai) as [Ei1 Ei2].
  set (ei := exp (t * b j) - 1) in *. set (ej := exp (- (t * b i)) - 1) in *.
  set (h := fun k => if (k =? i)%nat then w i * ei else if (k =? j)%nat then w j * ej else 0).
  assert (hi: h i = w i * ei) by (unfold h; rewrite Nat.eqb_refl; auto).
  assert (hj: h j = w j * ej) by (unfold h; rewrite Nat.eqb_refl; destruct (Nat.eqb_spec j i); [congruence|auto]).
  assert (hk: forall k, k <> i -> k <> j -> h k = 0) by (intros k A1 A2; unfold h; destruct (Nat.eqb_spec k i), (Nat.eqb_spec k j); congruence).
  rewrite Rabs_Ropp, Rabs_mult, (Rabs_right t) in Ei2 by lra. rewrite Rabs_mult, (Rabs_right t) in Ej2 by lra.
  assert (Hs: sum_over (seq 0 n) (fun k => Rabs (h k)) <= t * M).
  { rewrite (so_pick2 n _ i j); auto; [|intros k _ A1 A2; rewrite hk by auto; apply Rabs_R0]. rewrite hi, hj, !Rabs_mult, (Rabs_right (w i)), (Rabs_right (w j)) by lra. unfold M. nra. }
  assert (Hsmall: forall k, (k < n)%nat -> Rabs (h k) <= t * M).
  { intros k Hk. eapply Rle_trans; [|exact Hs]. apply (so_ge_elem (fun k => Rabs (h k))); [intros; apply Rabs_pos|apply in_seq; lia]. }
  assert (Hpos: forall k, (k < n)%nat -> 0 < w k + h k).
  { intros k Hk. destruct (Nat.eq_dec k i) as [->|N1]; [rewrite hi; unfold ei; pose proof (exp_pos (t * b j)); nra|]. destruct (Nat.eq_dec k j) as [->|N2]; [rewrite hj; unfold ej; pose proof (exp_pos (- (t * b i))); nra|]. rewrite hk by auto. specialize (Hw k Hk). lra. }
  assert (Hlog: sum_over (seq 0 n) (fun k => b k * ln (w k + h k)) = sum_over (seq 0 n) (fun k => b k * ln (w k))).
  { apply Rminus_diag_uniq. rewrite <- so_sub. rewrite (so_pick2 n _ i j); auto; [|intros k _ A1 A2; rewrite hk, Rplus_0_r by auto; ring].
    rewrite hi, hj. replace (w i + w i * ei) with (w i * exp (t * b j)) by (unfold ei; ring). replace (w j + w j * ej) with (w j * exp (- (t * b i))) by (unfold ej; ring).
    rewrite !ln_mult, !ln_exp by (auto; apply exp_pos). ring. }
  assert (L: rho w <= rho (fun k => w k + h k)).
  { apply Hmin; auto. intros k Hk. split; [|apply Hpos; auto]. replace (w k + h k - w k) with (h k) by ring. specialize (Hsmall k Hk). nra. }
  specialize (Hdiff h). assert (Hc: forall k, (k < n)%nat -> Rabs (h k) < d1) by (intros k Hk; specialize (Hsmall k Hk); nra). specialize (Hdiff Hc). clear Hc.
  rewrite (so_pick2 n (fun k => g k * h k) i j) in Hdiff; auto; [|intros k _ A1 A2; rewrite hk by auto; ring]. rewrite hi, hj in Hdiff.
  assert (P: g i * (w i * ei) + g j * (w j * ej) <= t * D + K * t ^ 2).
  { assert (Q1: g i * (w i * ei) <= t * (b j * (w i * g i)) + 2 * Rabs (g i * w i) * b j ^ 2 * t ^ 2).
    { replace ei with (t * b j + (ei - t * b j)) by ring. set (r := ei - t * b j) in *. assert (R1: 0 <= r <= 2 * (t * b j) ^ 2) by exact Ej1.
      pose proof (Rle_abs (g i * w i)). pose proof (Rabs_pos (g i * w i)). assert (g i * w i * r <= Rabs (g i * w i) * (2 * (t * b j) ^ 2)) by nra. nra. }
    assert (Q2: g j * (w j * ej) <= - t * (b i * (w j * g j)) + 2 * Rabs (g j * w j) * b i ^ 2 * t ^ 2).
    { replace ej with (- (t * b i) + (ej - - (t * b i))) by ring. set (r := ej - - (t * b i)) in *. assert (R1: 0 <= r <= 2 * (- (t * b i)) ^ 2) by exact Ei1.
      pose proof (Rle_abs (g j * w j)). pose proof (Rabs_pos (g j * w j)). assert (g j * w j * r <= Rabs (g j * w j) * (2 * (- (t * b i)) ^ 2)) by nra. nra. }
    unfold D, K. lra. }
  assert (E1: eps * (M + 1) = - D / 4) by (unfold eps; field; lra).
  assert (N: - (eps * (t * M)) <= t * D + K * t ^ 2).
  { apply Rabs_le_between in Hdiff || idtac. pose proof (Rle_abs (- (rho (fun k => w k + h k) - rho w - (g i * (w i * ei) + g j * (w j * ej))))) as A. rewrite Rabs_Ropp in A.
    assert (eps * sum_over (seq 0 n) (fun k => Rabs (h k)) <= eps * (t * M)) by (apply Rmult_le_compat_l; lra).
    pose proof (Rle_abs (rho (fun k => w k + h k) - rho w - (g i * (w i * ei) + g j * (w j * ej)))) as A'. lra. }
  assert (N2: - (eps * M) <= D + K * t) by (apply Rmult_le_reg_l with t; nra). nra.
Qed.
Lemma budget_unique b v v' : budget_is b v -> budget_is b v' -> forall i, v i = v' i.
Proof. destruct b as [[x|u]|]; cbn; try tauto; [|intros; congruence]. intros A B i. destruct (Req_EM_T (u i) 0) as [E|E]; destruct (A i) as [A1 A2], (B i) as [B1 B2]; [rewrite A2, B2|rewrite A1, B1]; auto. Qed.
Lemma budgeting_split tf q x l : budgeting_constraints tf q x = COk l ->
  let n := n_assets (rb_prior q) in let s := scale (rb_settings q) in
  exists b lw, clean_budget (rb_budget q) = COk b /\ weight_constraints tf n (rb_params q) (rb_names q) (rb_mip_solver q) false true s (bw x) (bf x) (bm x) = COk lw
    /\ (Forall holds_at l <-> (0 <= bc x /\ bc x * s <= sum_over (seq 0 n) (fun i => b i * ln (bw x i)) * s) /\ Forall holds_at lw
          /\ Forall holds_at (min_return_constraints s (budgeting_return q x) (rb_min_return q) (bf x))
          /\ feasible_risk (rb_prior q) (rb_settings q) (rb_measure q) (bw x) (risk_factor q x) (ba x)).
Proof.
  intros E n s. unfold budgeting_constraints in E. destruct (clean_budget (rb_budget q)) as [b|]; [|discriminate]. fold n s in E.
  apply capp_ok in E as (l1&r1&E1&E&->). apply capp_ok in E as (l2&r2&E2&E&->). apply capp_ok in E as (l3&l4&E3&E4&->). exists b, l2. split; auto. split; auto.
  inversion E1. inversion E3. inversion E4. rewrite !Forall_app. rewrite !Forall_cons_iff, Forall_nil_iff. cbn [holds_at]. unfold feasible_risk, sumn. tauto.
Qed.
Lemma contribution_sum n (b c : vec) : (forall i j, (i < n)%nat -> (j < n)%nat -> b j * c i = b i * c j) ->
  forall i, (i < n)%nat -> c i * sum_over (seq 0 n) b = b i * sum_over (seq 0 n) c.
Proof. intros H i Hi. rewrite <- !so_scal. apply so_ext. intros j Hj. apply in_seq in Hj. rewrite <- (H i j) by lia. ring. Qed.
Lemma pairwise_eq n (b w g : vec) : (forall i j, (i < n)%nat -> (j < n)%nat -> i <> j -> 0 <= b j * (w i * g i) - b i * (w j * g j)) ->
  forall i j, (i < n)%nat -> (j < n)%nat -> b j * (w i * g i) = b i * (w j * g j).
Proof. intros H i j Hi Hj. destruct (Nat.eq_dec i j) as [->|N]; auto. pose proof (H i j Hi Hj N). pose proof (H j i Hj Hi (not_eq_sym N)). lra. Qed.
(** at the optimum no nearby weights with the same weighted sum of logarithms have a smaller risk *)
Lemma local_minimum tf q x b rho : 0 < scale (rb_settings q) -> 0 < rb_scale_objective q -> rb_measure q <> FIRST_LOWER_PARTIAL_MOMENT -> budget_is (rb_budget q) b ->
  budgeting_optimal tf q x -> not_binding tf q x ->
  (forall w, minimum (feasible_risk (rb_prior q) (rb_settings q) (rb_measure q) w 1) (risk_value (rb_prior q) (rb_settings q) (rb_measure q) w 1) (rho w)) ->
  exists d, 0 < d /\ forall w', (forall k, (k < n_assets (rb_prior q))%nat -> Rabs (w' k - bw x k) < d /\ 0 < w' k) ->
    sum_over (seq 0 (n_assets (rb_prior q))) (fun k => b k * ln (w' k)) = sum_over (seq 0 (n_assets (rb_prior q))) (fun k => b k * ln (bw x k)) -> rho (bw x) <= rho w'.
Proof.
  intros Hs Hso Hm Hb [[Hpos (l&E&Hl)] Hopt] (d&Hd&Hnb) Hrho. exists d. split; auto. intros w' Hw' Hlog.
  destruct (budgeting_split tf q x l E) as (b'&lw&Eb&Ew&Hall). apply Hall in Hl as ((C1&C2)&C3&C4&C5). clear Hall.
  pose proof (budget_unique _ _ _ Hb (clean_budget_spec _ _ Eb)) as Hbb.
  assert (RF: forall y, risk_factor q y = 1) by (intros y; unfold risk_factor; destruct (rb_measure q); congruence || auto).
  destruct (Hnb w' (fun i Hi => proj1 (Hw' i Hi))) as (x1&l1&Ex1&Ew1&Hl1&Hr1). destruct (proj1 (Hrho w')) as (a'&Ha'&Va').
  set (x' := {| bw := w'; bf := bf x1; bc := bc x; bm := bm x1; ba := a' |}).
  assert (F: budgeting_feasible tf q x').
  { split; [intros i Hi; apply Hw'; auto|]. assert (X: exists l', budgeting_constraints tf q x' = COk l'). { unfold budgeting_constraints. rewrite Eb. cbn [bw bf bm x']. rewrite Ew1. eexists. reflexivity. }
    destruct X as (l'&E'). exists l'. split; auto. destruct (budgeting_split tf q x' l' E') as (b2&lw2&Eb2&Ew2&Hall). apply Hall. rewrite Eb in Eb2. inversion Eb2; subst b2. cbn [bw bf bm bc ba x'] in *. rewrite Ew1 in Ew2. inversion Ew2; subst lw2.
    split; [split; auto|split; auto].
    - rewrite (so_ext _ (fun k => b k * ln (w' k))) by (intros; rewrite Hbb; auto). rewrite Hlog. rewrite (so_ext _ (fun k => b' k * ln (bw x k))) by (intros; rewrite Hbb; auto). exact C2.
    - split; [|rewrite RF; exact Ha']. unfold budgeting_return in *. cbn [bw bf x']. rewrite <- Ex1. exact Hr1. }
  specialize (Hopt x' F). unfold budgeting_loss in Hopt. rewrite !RF in Hopt. cbn [bw ba x'] in Hopt. rewrite Va' in Hopt. apply Rmult_le_reg_r in Hopt; auto. rewrite RF in C5. pose proof (proj2 (Hrho (bw x)) _ C5). lra.
Qed.
(** any differentiable risk: the contribution of an asset is its weight times the derivative of the risk *)
Theorem C37_differentiable_risk : forall tf q x b rho g, 0 < scale (rb_settings q) -> 0 < rb_scale_objective q -> rb_measure q <> FIRST_LOWER_PARTIAL_MOMENT -> budget_is (rb_budget q) b ->
  budgeting_optimal tf q x -> not_binding tf q x ->
  (forall w, minimum (feasible_risk (rb_prior q) (rb_settings q) (rb_measure q) w 1) (risk_value (rb_prior q) (rb_settings q) (rb_measure q) w 1) (rho w)) ->
  differentiable_at (n_assets (rb_prior q)) rho (bw x) g ->
  forall i, (i < n_assets (rb_prior q))%nat ->
    bw x i * g i * sum_over (seq 0 (n_assets (rb_prior q))) b = b i * sum_over (seq 0 (n_assets (rb_prior q))) (fun j => bw x j * g j).
Proof.
  intros tf q x b rho g Hs Hso Hm Hb Hopt Hnb Hrho Hd. apply (contribution_sum _ b (fun i => bw x i * g i)). apply pairwise_eq. intros i j Hi Hj Hij.
  destruct (local_minimum tf q x b rho Hs Hso Hm Hb Hopt Hnb Hrho) as (d&Hd0&Hmin). apply (first_order (n_assets (rb_prior q)) b (bw x) g rho d); auto. apply Hopt.
Qed.
Print Assumptions C37_differentiable_risk.

(** * Variance and standard deviation *)
Lemma quadratic_diff pm cov w : (forall i j, (i < n_assets pm)%nat -> (j < n_assets pm)%nat -> cov i j = cov j i) ->
  differentiable_at (n_assets pm) (quadratic pm cov) w (fun i => 2 * marginal (n_assets pm) cov w i).
Proof.
  intros Hsym eps He. set (n := n_assets pm). set (S := fun f => sum_over (seq 0 n) f). set (M := S (fun i => S (fun j => Rabs (cov i j)))).
  assert (HM: 0 <= M) by (apply so_nonneg; intros; apply so_nonneg; intros; apply Rabs_pos).
  exists (eps / (M + 1)). split; [apply Rdiv_lt_0_compat; lra|]. intros h Hh.
  assert (E: quadratic pm cov (fun i => w i + h i) - quadratic pm cov w - S (fun i => 2 * marginal n cov w i * h i) = S (fun i => S (fun j => h i * cov i j * h j))).
  { assert (Sw: S (fun i => S (fun j => w i * cov i j * h j)) = S (fun i => S (fun j => h i * cov i j * w j))).
    { unfold S. rewrite so_swap. apply so_ext. intros i Hi. apply so_ext. intros j Hj. apply in_seq in Hi, Hj. rewrite (Hsym j i) by (fold n; lia). ring. }
    assert (Sm: S (fun i => 2 * marginal n cov w i * h i) = S (fun i => S (fun j => h i * cov i j * w j)) + S (fun i => S (fun j => h i * cov i j * w j))).
    { unfold S. rewrite <- so_add. apply so_ext. intros i _. unfold marginal. rewrite <- so_add. rewrite Rmult_assoc, (Rmult_comm _ (h i)), <- Rmult_assoc. rewrite <- so_scal. apply so_ext. intros; ring. }
    rewrite Sm. rewrite <- Sw at 1. unfold quadratic. fold n. unfold S. rewrite <- !so_sub. rewrite <- so_add. rewrite <- so_sub. apply so_ext. intros i _. rewrite <- !so_sub, <- so_add, <- so_sub. apply so_ext. intros j _. ring. }
  unfold S in E. apply (eq_ind_r (fun z => Rabs z <= eps * sum_over (seq 0 n) (fun i => Rabs (h i)))) with (2 := E).  eapply Rle_trans; [apply so_abs|]. rewrite <- so_scal. apply so_le. intros i Hi.
  eapply Rle_trans; [apply so_abs|].
  apply Rle_trans with (sum_over (seq 0 n) (fun j => Rabs (h i) * (eps / (M + 1)) * Rabs (cov i j))).
  - apply so_le. intros j Hj. apply in_seq in Hj. rewrite !Rabs_mult. specialize (Hh j ltac:(lia)). pose proof (Rabs_pos (h i)). pose proof (Rabs_pos (cov i j)). pose proof (Rabs_pos (h j)).
    rewrite Rmult_assoc, (Rmult_comm (Rabs (cov i j))), <- Rmult_assoc. apply Rmult_le_compat_r; auto. apply Rmult_le_compat_l; lra.
  - rewrite so_scal. assert (Q: sum_over (seq 0 n) (fun j => Rabs (cov i j)) <= M). { apply (so_ge_elem (fun i => sum_over (seq 0 n) (fun j => Rabs (cov i j)))); auto. intros; apply so_nonneg; intros; apply Rabs_pos. }
    assert (Q2: eps / (M + 1) * sum_over (seq 0 n) (fun j => Rabs (cov i j)) <= eps).
    { apply Rle_trans with (eps / (M + 1) * (M + 1)); [|right; field; lra]. apply Rmult_le_compat_l; [left; apply Rdiv_lt_0_compat; lra|lra]. }
    pose proof (Rabs_pos (h i)). rewrite Rmult_assoc, (Rmult_comm eps). apply Rmult_le_compat_l; auto.
Qed.
Lemma positive_min n (w : vec) : (forall i, (i < n)%nat -> 0 < w i) -> exists d, 0 < d /\ forall i, (i < n)%nat -> d <= w i.
Proof.
  induction n as [|n IH]; intros H; [exists 1; split; [lra|lia]|]. destruct IH as (d&Hd&Hm); [auto|]. exists (Rmin d (w n)). split; [apply Rmin_glb_lt; auto|].
  intros i Hi. destruct (Nat.eq_dec i n) as [->|N]; [apply Rmin_r|]. eapply Rle_trans; [apply Rmin_l|apply Hm; lia].
Qed.
Lemma default_weights tf q w f m : 0 < scale (rb_settings q) -> default_constraints q -> (forall i, (i < n_assets (rb_prior q))%nat -> 0 <= w i) ->
  exists l, weight_constraints tf (n_assets (rb_prior q)) (rb_params q) (rb_names q) (rb_mip_solver q) false true (scale (rb_settings q)) w f m = COk l
    /\ (Forall holds_at l <-> sum_over (seq 0 (n_assets (rb_prior q))) w = f).
Proof.
  intros Hs (_&lo&hi&Hlo&Hhi&Hp) Hw. rewrite Hp. unfold weight_constraints. cbn [is_mip cardinality group_cardinalities threshold_long threshold_short is_some orb andb min_weights max_weights budget min_budget max_budget max_short max_long linear_constraints left_inequality right_inequality negb].
  assert (X: any (n_assets (rb_prior q)) (fun i => ltb (lo i) 0) = false). { apply not_true_is_false. rewrite any_spec. intros (i&_&H). apply ltb_true in H. rewrite Hlo in H. lra. }
  rewrite X. cbn [capp mip_constraints is_mip cardinality group_cardinalities threshold_long threshold_short is_some orb negb]. eexists. split; [reflexivity|]. cbn [app].
  rewrite !Forall_app, !elementwise_holds. cbn [holds_at]. rewrite !Forall_cons_iff, !Forall_nil_iff. cbn [holds_at]. unfold sumn. split.
  - intros (_&_&H&_). apply Rmult_eq_reg_r with (scale (rb_settings q)); lra.
  - intros <-. repeat split; try (intros i Hi; rewrite ?Hlo, ?Hhi); try lra.
    + specialize (Hw i Hi). nra.
    + apply Rmult_le_compat_r; [lra|]. rewrite Rmult_1_l. apply (so_ge_elem w); [|apply in_seq; lia]. intros y Hy. apply in_seq in Hy. apply Hw. lia.
Qed.
Lemma default_not_binding tf q x : 0 < scale (rb_settings q) -> default_constraints q -> (forall i, (i < n_assets (rb_prior q))%nat -> 0 < bw x i) -> not_binding tf q x.
Proof.
  intros Hs Hdef Hw. destruct (positive_min _ _ Hw) as (d&Hd&Hm). exists d. split; auto. intros w Hnear.
  assert (P: forall i, (i < n_assets (rb_prior q))%nat -> 0 <= w i). { intros i Hi. specialize (Hnear i Hi). specialize (Hm i Hi). unfold Rabs in Hnear. destruct (Rcase_abs _) in Hnear; lra. }
  set (f := sum_over (seq 0 (n_assets (rb_prior q))) w). destruct (default_weights tf q w f (bm x) Hs Hdef P) as (l&El&Hl).
  exists {| bw := w; bf := f; bc := 0; bm := bm x; ba := ba x |}, l. split; [reflexivity|]. split; [exact El|]. split; [apply Hl; reflexivity|]. destruct Hdef as (->&_). constructor.
Qed.
(** long-only, fully invested risk budgeting of the variance or of the standard deviation *)
Theorem C37_contributions : forall tf q p b cov, 0 < scale (rb_settings q) -> 0 < rb_scale_objective q -> (rb_measure q = VARIANCE \/ rb_measure q = STANDARD_DEVIATION) ->
  budget_is (rb_budget q) b -> default_constraints q -> is_cholesky (rb_prior q) cov -> budgeting_optimal tf q p ->
  let n := n_assets (rb_prior q) in let x := budgeting_weights p in (0 < n)%nat ->
  (forall i, (i < n)%nat -> 0 < x i) /\ sum_over (seq 0 n) x = 1
  /\ forall i, (i < n)%nat -> x i * marginal n cov x i * sum_over (seq 0 n) b = b i * quadratic (rb_prior q) cov x.
Proof.
  intros tf q p b cov Hs Hso Hm Hb Hdef Hc Hopt n x Hn.
  assert (Hsym: forall i j, (i < n)%nat -> (j < n)%nat -> cov i j = cov j i) by (intros i j Hi Hj; rewrite !Hc by auto; apply so_ext; intros; ring).
  assert (Hpos: forall i, (i < n)%nat -> 0 < bw p i) by apply Hopt.
  assert (Hnb: not_binding tf q p) by (apply default_not_binding; auto).
  assert (Hf: sum_over (seq 0 n) (bw p) = bf p).
  { destruct Hopt as [[_ (l&E&Hl)] _]. destruct (budgeting_split tf q p l E) as (b'&lw&Eb&Ew&Hall). apply Hall in Hl as (_&C3&_). destruct (default_weights tf q (bw p) (bf p) (bm p) Hs Hdef) as (l'&E'&H'); [intros i Hi; left; auto|]. rewrite Ew in E'. inversion E'; subst l'. apply H'; auto. }
  assert (Fp: 0 < bf p). { rewrite <- Hf. destruct n as [|k] eqn:En; [lia|]. apply Rlt_le_trans with (bw p 0%nat); [apply Hpos; lia|]. apply (so_ge_elem (bw p)); [|apply in_seq; lia]. intros y Hy. apply in_seq in Hy. left. apply Hpos. lia. }
  assert (Hex: forall w, quadratic (rb_prior q) cov w = sum_over (seq 0 n) (fun j => w j * marginal n cov w j)).
  { intros w. unfold quadratic, marginal. fold n. apply so_ext. intros i _. rewrite <- so_scal. apply so_ext. intros; ring. }
  assert (Main: forall i, (i < n)%nat -> bw p i * (2 * marginal n cov (bw p) i) * sum_over (seq 0 n) b = b i * sum_over (seq 0 n) (fun j => bw p j * (2 * marginal n cov (bw p) j))).
  { apply (contribution_sum n b (fun i => bw p i * (2 * marginal n cov (bw p) i))). apply pairwise_eq. intros i j Hi Hj Hij.
    assert (Hmin: exists d, 0 < d /\ forall w', (forall k, (k < n)%nat -> Rabs (w' k - bw p k) < d /\ 0 < w' k) ->
      sum_over (seq 0 n) (fun k => b k * ln (w' k)) = sum_over (seq 0 n) (fun k => b k * ln (bw p k)) -> quadratic (rb_prior q) cov (bw p) <= quadratic (rb_prior q) cov w').
    { destruct Hm as [Hm|Hm].
      - apply (local_minimum tf q p b (quadratic (rb_prior q) cov)); auto; [congruence|]. intros w. rewrite Hm. apply (C35_standard_deviation (rb_prior q) (rb_settings q) w cov); auto.
      - destruct (local_minimum tf q p b (fun w => sqrt (quadratic (rb_prior q) cov w))) as (d&Hd&H); auto; [congruence| |].
        + intros w. rewrite Hm. apply (C35_standard_deviation (rb_prior q) (rb_settings q) w cov); auto.
        + exists d. split; auto. intros w' H1 H2. specialize (H w' H1 H2). cbn beta in H. apply sqrt_le_0; auto; rewrite (quadratic_squares _ _ _ (cholesky (rb_prior q)) (seq 0 n) Hc); apply so_nonneg; intros; apply pow2_ge_0. }
    destruct Hmin as (d&Hd0&Hmin). apply (first_order n b (bw p) (fun i => 2 * marginal n cov (bw p) i) (quadratic (rb_prior q) cov) d); auto. apply quadratic_diff; auto. }
  assert (Mx: forall i, marginal n cov x i = marginal n cov (bw p) i / bf p). { intros i. unfold marginal, x, budgeting_weights, reported, Rdiv. rewrite <- so_scal_r. apply so_ext. intros; ring. }
  split; [intros i Hi; apply Rdiv_lt_0_compat; auto|]. split.
  - unfold x, budgeting_weights, reported, Rdiv. rewrite so_scal_r, Hf. field. lra.
  - intros i Hi. rewrite Hex. rewrite (so_ext (fun j => x j * marginal n cov x j) (fun j => bw p j * (2 * marginal n cov (bw p) j) * (/ (2 * bf p ^ 2)))) by (intros j _; rewrite Mx; unfold x, budgeting_weights, reported; field; lra).
    rewrite so_scal_r, <- Rmult_assoc, <- (Main i Hi), Mx. unfold x, budgeting_weights, reported. field. lra.
Qed.
Print Assumptions C37_contributions.
(** the first lower partial moment is measured below the risk-free rate of the whole position: with the default constraints the factor is the sum of the weights *)
Definition shortfall (q : risk_budgeting) (w : vec) : R :=
  let n := n_assets (rb_prior q) in let T := n_obs (rb_prior q) in
  sum_over (seq 0 T) (fun t => Rmax (risk_free_rate (rb_settings q) * sum_over (seq 0 n) w - min_acceptable (rb_prior q) (rb_settings q) w t) 0) / INR T.
Lemma shortfall_minimum q w f : 0 < scale (rb_settings q) -> (0 < n_obs (rb_prior q))%nat -> f = sum_over (seq 0 (n_assets (rb_prior q))) w ->
  minimum (feasible_risk (rb_prior q) (rb_settings q) FIRST_LOWER_PARTIAL_MOMENT w f) (risk_value (rb_prior q) (rb_settings q) FIRST_LOWER_PARTIAL_MOMENT w f) (shortfall q w).
Proof.
  intros Hs HT ->. unfold shortfall. set (F := sum_over (seq 0 (n_assets (rb_prior q))) w). set (r := risk_free_rate (rb_settings q)). set (pm := rb_prior q) in *. set (st := rb_settings q) in *.
  assert (HI: 0 < INR (n_obs pm)) by (apply lt_0_INR; auto).
  assert (G: forall a, feasible_risk pm st FIRST_LOWER_PARTIAL_MOMENT w F a <-> forall t, (t < n_obs pm)%nat -> Rmax (r * F - min_acceptable pm st w t) 0 <= v a t).
  { intros a. unfold feasible_risk. cbn [risk_constraints]. unfold nonneg. rewrite Forall_app, !elementwise_holds. cbn [holds_at]. fold r. split.
    - intros [H1 H2] t Ht. apply Rmax_lub; [specialize (H2 t Ht); nra|auto].
    - intros H. split; intros t Ht; specialize (H t Ht); pose proof (Rmax_l (r * F - min_acceptable pm st w t) 0); pose proof (Rmax_r (r * F - min_acceptable pm st w t) 0); nra. }
  split.
  - exists (with_v (fun t => Rmax (r * F - min_acceptable pm st w t) 0)). split; [apply G; intros; apply Rle_refl|reflexivity].
  - intros a Ha. rewrite G in Ha. cbn [risk_value]. apply Rmult_le_compat_r; [left; apply Rinv_0_lt_compat; auto|]. apply sumn_le; auto.
Qed.
Theorem C37_first_lower_partial_moment : forall tf q x b g, 0 < scale (rb_settings q) -> 0 < rb_scale_objective q -> rb_measure q = FIRST_LOWER_PARTIAL_MOMENT -> (0 < n_obs (rb_prior q))%nat ->
  budget_is (rb_budget q) b -> default_constraints q -> budgeting_optimal tf q x -> differentiable_at (n_assets (rb_prior q)) (shortfall q) (bw x) g ->
  forall i, (i < n_assets (rb_prior q))%nat ->
    bw x i * g i * sum_over (seq 0 (n_assets (rb_prior q))) b = b i * sum_over (seq 0 (n_assets (rb_prior q))) (fun j => bw x j * g j).
Proof.
  intros tf q x b g Hs Hso Hm HT Hb Hdef Hopt Hd. apply (contribution_sum _ b (fun i => bw x i * g i)). apply pairwise_eq. intros i j Hi Hj Hij.
  assert (Hpos: forall k, (k < n_assets (rb_prior q))%nat -> 0 < bw x k) by apply Hopt.
  apply (first_order (n_assets (rb_prior q)) b (bw x) g (shortfall q) 1); auto; [lra|]. intros w' Hw' Hlog.
  destruct Hopt as [[_ (l&E&Hl)] Hopt]. destruct (budgeting_split tf q x l E) as (b'&lw&Eb&Ew&Hall). apply Hall in Hl as ((C1&C2)&C3&C4&C5). clear Hall.
  assert (RF: forall y, risk_factor q y = bf y) by (intros y; unfold risk_factor; rewrite Hm; reflexivity).
  pose proof (budget_unique _ _ _ Hb (clean_budget_spec _ _ Eb)) as Hbb.
  assert (Hf: sum_over (seq 0 (n_assets (rb_prior q))) (bw x) = bf x).
  { destruct (default_weights tf q (bw x) (bf x) (bm x) Hs Hdef) as (l'&E'&H'); [intros k Hk; left; auto|]. rewrite Ew in E'. inversion E'; subst l'. apply H'; auto. }
  set (f' := sum_over (seq 0 (n_assets (rb_prior q))) w'). destruct (default_weights tf q w' f' (bm x) Hs Hdef) as (l'&E'&H'); [intros k Hk; left; apply Hw'; auto|].
  destruct (proj1 (shortfall_minimum q w' f' Hs HT eq_refl)) as (a'&Ha'&Va').
  set (x' := {| bw := w'; bf := f'; bc := bc x; bm := bm x; ba := a' |}).
  assert (F: budgeting_feasible tf q x').
  { split; [intros k Hk; apply Hw'; auto|]. assert (X: exists l2, budgeting_constraints tf q x' = COk l2). { unfold budgeting_constraints. rewrite Eb. cbn [bw bf bm x']. rewrite E'. eexists. reflexivity. }
    destruct X as (l2&E2). exists l2. split; auto. destruct (budgeting_split tf q x' l2 E2) as (b2&lw2&Eb2&Ew2&Hall). apply Hall. rewrite Eb in Eb2. inversion Eb2; subst b2. cbn [bw bf bm bc ba x'] in *. rewrite E' in Ew2. inversion Ew2; subst lw2.
    split; [split; auto|split; [apply H'; reflexivity|]].
    - rewrite (so_ext _ (fun k => b k * ln (w' k))) by (intros; rewrite Hbb; auto). rewrite Hlog. rewrite (so_ext _ (fun k => b' k * ln (bw x k))) by (intros; rewrite Hbb; auto). exact C2.
    - split; [destruct Hdef as (->&_); constructor|]. rewrite RF, Hm. exact Ha'. }
  specialize (Hopt x' F). unfold budgeting_loss in Hopt. rewrite !RF, Hm in Hopt. cbn [bw bf ba x'] in Hopt. rewrite Va' in Hopt. apply Rmult_le_reg_r in Hopt; auto. rewrite RF, Hm in C5.
  pose proof (proj2 (shortfall_minimum q (bw x) (bf x) Hs HT (eq_sym Hf)) _ C5). lra.
Qed.
Print Assumptions C37_first_lower_partial_moment.
(** a scalar budget, which the signature allows, raises *)
Theorem C37_scalar_budget_refuted : exists q, rb_budget q = Some (Scalar 1) /\ forall tf x, budgeting_constraints tf q x = CErr TypeError.
Proof.
  exists {| rb_prior := {| n_assets := 1; n_obs := 1; returns := fun _ _ => 0; mu := fun _ => 0; cholesky := fun _ _ => 1 |};
    rb_settings := {| costs := Scalar 0; previous := Scalar 0; fees := Scalar 0; mar := None; risk_free_rate := 0; cvar_beta := 95/100; evar_beta := 95/100; cdar_beta := 95/100; edar_beta := 95/100; scale := 1 |};
    rb_params := no_params; rb_names := None; rb_mip_solver := false; rb_measure := VARIANCE; rb_budget := Some (Scalar 1); rb_min_return := None; rb_scale_objective := 1 |}. split; reflexivity.
Qed.
Print Assumptions C37_scalar_budget_refuted.

(** variances 1 and 16, no correlation, equal budgets: weights 4/5 and 1/5 *)
Definition diag_1_4 : prior := {| n_assets := 2; n_obs := 1; returns := fun _ _ => 0; mu := fun _ => 0; cholesky := fun i k => if (i =? k)%nat then two 1 4 i else 0 |}.
Definition equal_budgets : risk_budgeting := {| rb_prior := diag_1_4;
  rb_settings := {| costs := Scalar 0; previous := Scalar 0; fees := Scalar 0; mar := None; risk_free_rate := 0; cvar_beta := 95/100; evar_beta := 95/100; cdar_beta := 95/100; edar_beta := 95/100; scale := 1 |};
  rb_params := {| min_weights := Some (fun _ => 0); max_weights := Some (fun _ => 1); budget := Some 1; min_budget := None; max_budget := None; max_short := None; max_long := None;
    cardinality := None; group_cardinalities := None; threshold_long := None; threshold_short := None; groups := None; linear_constraints := None; left_inequality := None; right_inequality := None |};
  rb_names := None; rb_mip_solver := false; rb_measure := STANDARD_DEVIATION; rb_budget := None; rb_min_return := None; rb_scale_objective := 1 |}.
Definition equal_point : bpoint := {| bw := two 2 (1/2); bf := 5/2; bc := 0; bm := no_mip; ba := {| alpha := 0; u := sqrt 8; ex := 0; ey := 0; v := fun _ => 0; z := fun _ => 0; gx := fun _ => 0; gy := fun _ => 0; dd := fun _ => 0 |} |}.
Example C37_hypotheses_met : default_constraints equal_budgets /\ budget_is (rb_budget equal_budgets) (fun _ => 1) /\ is_cholesky diag_1_4 (fun i j => if (i =? j)%nat then two 1 16 i else 0)
  /\ budgeting_optimal no_float equal_budgets equal_point.
Proof.
  assert (D: default_constraints equal_budgets) by (split; [reflexivity|]; exists (fun _ => 0), (fun _ => 1); repeat split; reflexivity).
  split; [exact D|]. split; [intros i; reflexivity|]. split.
  - intros i j Hi Hj. cbn in Hi, Hj. destruct i as [|[|i]]; [| |lia]; destruct j as [|[|j]]; try lia; cbn; lra.
  - split.
    + split; [intros i Hi; cbn in Hi; destruct i as [|[|i]]; [cbn; lra|cbn; lra|lia]|].
      destruct (default_weights no_float equal_budgets (bw equal_point) (bf equal_point) (bm equal_point)) as (lw&Ew&Hw); [cbn; lra|exact D|intros i Hi; cbn in Hi; destruct i as [|[|i]]; [cbn; lra|cbn; lra|lia]|].
      assert (X: exists l, budgeting_constraints no_float equal_budgets equal_point = COk l) by (unfold budgeting_constraints; cbn [clean_budget rb_budget equal_budgets]; rewrite Ew; eexists; reflexivity).
      destruct X as (l&E). exists l. split; auto. destruct (budgeting_split _ _ _ _ E) as (b&lw'&Eb&Ew'&Hall). apply Hall. clear Hall. inversion Eb; subst b. rewrite Ew in Ew'. inversion Ew'; subst lw'. split; [|split; [|split; [constructor|]]].
      * cbn. split; [lra|]. rewrite !Rmult_1_l, !Rmult_1_r, Rplus_0_r. rewrite <- ln_mult by lra. replace (2 * (1/2)) with 1 by field. rewrite ln_1. lra.
      * apply Hw. cbn. field.
      * unfold feasible_risk. cbn [rb_measure equal_budgets risk_constraints]. constructor; [cbn; apply sqrt_pos|constructor; [|constructor]]. cbn. unfold sumn. cbn. rewrite !Rmult_1_r. apply sqrt_le_1_alt. lra.
    + intros x' [Hpos (l&E&Hl)]. destruct (budgeting_split _ _ _ _ E) as (b&lw'&Eb&Ew'&Hall). destruct (proj1 Hall Hl) as ((C1&C2)&_&_&C5). inversion Eb; subst b. cbn in C2. rewrite !Rmult_1_l, !Rmult_1_r, Rplus_0_r in C2.
      pose proof (Hpos 0%nat ltac:(cbn; lia)) as P0. pose proof (Hpos 1%nat ltac:(cbn; lia)) as P1. rewrite <- ln_mult in C2 by auto. set (a := bw x' 0%nat) in *. set (c := bw x' 1%nat) in *.
      assert (AC: 1 <= a * c). { apply Rnot_lt_le. intros H. apply ln_increasing in H; [|apply Rmult_lt_0_compat; auto]. rewrite ln_1 in H. lra. }
      unfold feasible_risk in C5. cbn [rb_measure equal_budgets risk_constraints] in C5. inversion C5 as [|? ? _ C6]; subst. inversion C6 as [|? ? C7 _]; subst. cbn in C7. unfold sumn in C7. cbn in C7. fold a c in C7. rewrite !Rmult_1_r in C7.
      unfold budgeting_loss. cbn. rewrite !Rmult_1_r. eapply Rle_trans; [|exact C7]. apply sqrt_le_1_alt. pose proof (pow2_ge_0 (a - 4 * c)). match goal with |- _ <= ?X => replace X with (a ^ 2 + 16 * c ^ 2) by ring end. nra.
Qed.
(** one observation with returns 0 and -3, acceptable return 0 and risk-free rate 1: the shortfall is w_1 + 4 w_2 *)
Definition shortfall_budgets : risk_budgeting := {|
  rb_prior := {| n_assets := 2; n_obs := 1; returns := fun _ => two 0 (-(3)); mu := fun _ => 0; cholesky := fun _ _ => 0 |};
  rb_settings := {| costs := Scalar 0; previous := Scalar 0; fees := Scalar 0; mar := Some (Scalar 0); risk_free_rate := 1; cvar_beta := 95/100; evar_beta := 95/100; cdar_beta := 95/100; edar_beta := 95/100; scale := 1 |};
  rb_params := rb_params equal_budgets;
  rb_names := None; rb_mip_solver := false; rb_measure := FIRST_LOWER_PARTIAL_MOMENT; rb_budget := None; rb_min_return := None; rb_scale_objective := 1 |}.
Definition shortfall_point : bpoint := {| bw := two 2 (1/2); bf := 5/2; bc := 0; bm := no_mip; ba := {| alpha := 0; u := 0; ex := 0; ey := 0; v := fun _ => 4; z := fun _ => 0; gx := fun _ => 0; gy := fun _ => 0; dd := fun _ => 0 |} |}.
Example C37_shortfall_hypotheses_met : default_constraints shortfall_budgets /\ budget_is (rb_budget shortfall_budgets) (fun _ => 1)
  /\ budgeting_optimal no_float shortfall_budgets shortfall_point /\ differentiable_at 2 (shortfall shortfall_budgets) (bw shortfall_point) (two 1 4).
Proof.
  assert (D: default_constraints shortfall_budgets) by (split; [reflexivity|]; exists (fun _ => 0), (fun _ => 1); repeat split; reflexivity).
  split; [exact D|]. split; [intros i; reflexivity|]. split.
  - split.
    + split; [intros i Hi; cbn in Hi; destruct i as [|[|i]]; [cbn; lra|cbn; lra|lia]|].
      destruct (default_weights no_float shortfall_budgets (bw shortfall_point) (bf shortfall_point) (bm shortfall_point)) as (lw&Ew&Hw); [cbn; lra|exact D|intros i Hi; cbn in Hi; destruct i as [|[|i]]; [cbn; lra|cbn; lra|lia]|].
      assert (X: exists l, budgeting_constraints no_float shortfall_budgets shortfall_point = COk l) by (unfold budgeting_constraints; cbn [clean_budget rb_budget shortfall_budgets]; rewrite Ew; eexists; reflexivity).
      destruct X as (l&E). exists l. split; auto. destruct (budgeting_split _ _ _ _ E) as (b&lw'&Eb&Ew'&Hall). apply Hall. clear Hall. inversion Eb; subst b. rewrite Ew in Ew'. inversion Ew'; subst lw'. split; [|split; [|split; [constructor|]]].
      * cbn. split; [lra|]. rewrite !Rmult_1_l, !Rmult_1_r, Rplus_0_r. rewrite <- ln_mult by lra. replace (2 * (1/2)) with 1 by field. rewrite ln_1. lra.
      * apply Hw. cbn. field.
      * unfold feasible_risk. repeat constructor; cbn; unfold risk_factor, min_acceptable, sumn; cbn; lra.
    + intros x' [Hpos (l&E&Hl)]. destruct (budgeting_split _ _ _ _ E) as (b&lw'&Eb&Ew'&Hall). destruct (proj1 Hall Hl) as ((C1&C2)&C3&_&C5). inversion Eb; subst b. cbn in C2. rewrite !Rmult_1_l, !Rmult_1_r, Rplus_0_r in C2.
      pose proof (Hpos 0%nat ltac:(cbn; lia)) as P0. pose proof (Hpos 1%nat ltac:(cbn; lia)) as P1. rewrite <- ln_mult in C2 by auto.
      destruct (default_weights no_float shortfall_budgets (bw x') (bf x') (bm x')) as (lw&Ew&Hw); [cbn; lra|exact D|intros i Hi; left; apply Hpos; exact Hi|]. rewrite Ew in Ew'. inversion Ew'; subst lw'. apply Hw in C3. cbn in C3.
      set (a := bw x' 0%nat) in *. set (c := bw x' 1%nat) in *.
      assert (AC: 1 <= a * c). { apply Rnot_lt_le. intros H. apply ln_increasing in H; [|apply Rmult_lt_0_compat; auto]. rewrite ln_1 in H. lra. }
      unfold feasible_risk in C5. cbn [rb_measure shortfall_budgets risk_constraints] in C5. apply Forall_app in C5 as [_ C6]. inversion C6 as [|? ? C7 _]; subst. cbn in C7. unfold risk_factor, min_acceptable, sumn in C7. cbn in C7. fold a c in C7.
      unfold budgeting_loss. cbn. unfold sumn. cbn. pose proof (pow2_ge_0 (a - 4 * c)). assert (4 <= a + 4 * c) by nra. match goal with |- _ <= ?X => replace X with (v (ba x') 0%nat) by field end. lra.
  - intros eps Heps. exists (1/10). split; [lra|]. intros w Hw. pose proof (Hw 0%nat ltac:(lia)) as W0. pose proof (Hw 1%nat ltac:(lia)) as W1. cbn in W0, W1. apply Rabs_def2 in W0. apply Rabs_def2 in W1.
    unfold shortfall, min_acceptable, sumn. cbn. rewrite !Rmax_left by lra. match goal with |- Rabs ?X <= _ => replace X with 0 by lra end. rewrite Rabs_R0. apply Rmult_le_pos; [lra|]. apply Rplus_le_le_0_compat; [apply Rabs_pos|]. apply Rplus_le_le_0_compat; [apply Rabs_pos|lra].
Qed.
