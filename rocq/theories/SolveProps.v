(** C59: one solution per set of parameter values, in order, with its expected return and risk. *)
From Coq Require Import List Arith Bool Reals Lia Lra FunctionalExtensionality.
From Verif Require Import RList EquationsModel ConvexModel ConvexProps ConvexMoreProps RiskModel RiskProps RiskTailProps MeanRiskModel MeanRiskProps MeanRiskOptimalProps SolveModel.
Import ListNotations.
Local Open Scope R_scope.

(** * Specification *)
(** the parameters of problem i *)
Definition ith (p : pvalue) (i : nat) : R := match p with PScalar x => x | PList l => nth i l 0 end.
Definition lists_have_length (pv : list pvalue) (n : nat) : Prop := forall l, In (PList l) pv -> length l = n.
Definition has_list (pv : list pvalue) : Prop := exists l, In (PList l) pv.
(** one problem without lists, else one per element *)
Definition number_of_problems (pv : list pvalue) (n : nat) : Prop :=
  (has_list pv -> lists_have_length pv n) /\ (~ has_list pv -> n = 1%nat).

(** * Proofs *)
Lemma sizes_in pv n : In n (sizes pv) <-> exists l, In (PList l) pv /\ length l = n.
Proof.
  unfold sizes. rewrite in_flat_map. split.
  - intros ([x|l]&Hin&H); cbn in H; [tauto|]. destruct H as [<-|[]]. exists l. auto.
  - intros (l&Hin&<-). exists (PList l). split; auto. cbn. auto.
Qed.
Lemma n_opt pv n : (0 < n)%nat -> number_of_problems pv n -> n_optimizations pv = SOk n.
Proof.
  intros Hn [H1 H2]. unfold n_optimizations.
  assert (Hall: forall m, In m (sizes pv) -> m = n). { intros m Hm. apply sizes_in in Hm as (l&Hl&<-). apply H1; auto. exists l; auto. }
  assert (N: np_all (sizes pv) = true). { apply forallb_forall. intros m Hm. rewrite (Hall m Hm). destruct n; [lia|reflexivity]. }
  rewrite N. cbn. destruct (sizes pv) as [|m ms] eqn:E; [|rewrite (Hall m); auto; left; auto].
  f_equal. symmetry. apply H2. intros (l&Hl). assert (In (length l) (sizes pv)) by (apply sizes_in; eauto). rewrite E in H. destruct H.
Qed.
Lemma at_index_spec pv n i : lists_have_length pv n -> (i < n)%nat -> at_index pv i = Some (map (fun p => ith p i) pv).
Proof.
  intros H Hi. induction pv as [|p pv IH]; [reflexivity|]. cbn [at_index map]. rewrite IH by (intros l Hl; apply H; right; auto). destruct p as [x|l]; [reflexivity|]. cbn [ith].
  rewrite (nth_error_nth' l 0) by (rewrite (H l); [auto|left; auto]). reflexivity.
Qed.
Lemma at_index_spec' pv n i : number_of_problems pv n -> (i < n)%nat -> at_index pv i = Some (map (fun p => ith p i) pv).
Proof. intros [H1 H2] Hi. apply (at_index_spec pv n); auto. intros l Hl. apply H1; auto. exists l; auto. Qed.
Section Loop.
  Context {A : Type}.
  Variable solver : list R -> option A.
  Variable raises : bool.
  Variables (pv : list pvalue) (n : nat).
  Hypothesis Hn : number_of_problems pv n.
  Definition results (ix : list nat) : list A := flat_map (fun i => match solver (map (fun p => ith p i) pv) with Some a => [a] | None => [] end) ix.
  Lemma loop_spec ix : (forall i, In i ix -> (i < n)%nat) ->
    solve_loop solver raises pv ix = if raises && existsb (fun i => match solver (map (fun p => ith p i) pv) with Some _ => false | None => true end) ix then SErr SolverError else SOk (results ix).
  Proof.
    induction ix as [|i ix IH]; intros H; cbn [solve_loop existsb results flat_map]; [rewrite andb_false_r; reflexivity|]. rewrite (at_index_spec' pv n) by (auto; apply H; left; auto).
    rewrite IH by (intros; apply H; right; auto). destruct (solver _); [|destruct raises]; cbn; auto; destruct raises; cbn; auto. destruct (existsb _ ix); reflexivity.
  Qed.
End Loop.
(** every problem solved: solution i is the solution for the i-th parameter values *)
Theorem C59_all_solved : forall A (solver : list R -> option A) raises pv n (sol : nat -> A), (0 < n)%nat -> number_of_problems pv n ->
  (forall i, (i < n)%nat -> solver (map (fun p => ith p i) pv) = Some (sol i)) ->
  solve_problem solver raises pv = SOk (if (n =? 1)%nat then One (sol 0%nat) else Many (map sol (seq 0 n))).
Proof.
  intros A solver raises pv n sol H0 Hn Hs. unfold solve_problem. rewrite (n_opt pv n H0 Hn). rewrite (loop_spec solver raises pv n Hn) by (intros i Hi; apply in_seq in Hi; lia).
  assert (E: forall l, (forall i, In i l -> (i < n)%nat) -> existsb (fun i => match solver (map (fun p => ith p i) pv) with Some _ => false | None => true end) l = false /\ results solver pv l = map sol l).
  { induction l as [|i l IH]; intros H; [split; reflexivity|]. destruct IH as [I1 I2]; [intros; apply H; right; auto|]. cbn [existsb results flat_map map]. rewrite Hs by (apply H; left; auto). cbn. rewrite I1. split; auto. f_equal. exact I2. }
  destruct (E (seq 0 n)) as [E1 E2]; [intros i Hi; apply in_seq in Hi; lia|]. rewrite E1, E2, andb_false_r. destruct n as [|[|n]]; [lia|reflexivity|reflexivity].
Qed.
Print Assumptions C59_all_solved.
(** with raise_on_failure, fit returns only if every problem was solved *)
Theorem C59_raise_on_failure : forall A (solver : list R -> option A) pv n, (0 < n)%nat -> number_of_problems pv n ->
  ((exists i, (i < n)%nat /\ solver (map (fun p => ith p i) pv) = None) <-> solve_problem solver true pv = SErr SolverError)
  /\ forall s, solve_problem solver true pv = SOk s -> forall i, (i < n)%nat -> solver (map (fun p => ith p i) pv) <> None.
Proof.
  intros A solver pv n H0 Hn.
  assert (E: (exists i, (i < n)%nat /\ solver (map (fun p => ith p i) pv) = None) <-> existsb (fun i => match solver (map (fun p => ith p i) pv) with Some _ => false | None => true end) (seq 0 n) = true).
  { rewrite existsb_exists. split; intros (i&H1&H2); exists i; [rewrite H2; split; auto; apply in_seq; lia|]. apply in_seq in H1. split; [lia|]. destruct (solver _); congruence. }
  assert (F: solve_problem solver true pv = SErr SolverError <-> (exists i, (i < n)%nat /\ solver (map (fun p => ith p i) pv) = None)).
  { rewrite E. unfold solve_problem. rewrite (n_opt pv n H0 Hn), (loop_spec solver true pv n Hn) by (intros i Hi; apply in_seq in Hi; lia). cbn [andb].
    destruct (existsb _ _); [split; auto|]. split; [|discriminate]. destruct (n =? 1)%nat; [destruct (results _ _ _)|]; discriminate. }
  split; [symmetry; exact F|]. intros s Hs i Hi Hnone. assert (X: solve_problem solver true pv = SErr SolverError) by (apply F; eauto). congruence.
Qed.
Print Assumptions C59_raise_on_failure.
(** without it the failed problems leave no trace: the solutions of later parameter values move up *)
Theorem C59_rows_shift_refuted : exists (solver : list R -> option R) pv l, number_of_problems pv 3 /\ solve_problem solver false pv = SOk (Many l)
  /\ length l = 2%nat /\ exists a, solver (map (fun p => ith p 2) pv) = Some a /\ nth 1 l 0 = a /\ solver (map (fun p => ith p 1) pv) = None.
Proof.
  exists (fun l => match l with [x] => if Req_EM_T x 2 then None else Some x | _ => None end), [PList [1; 2; 3]], [1; 3].
  split; [split; [intros _ l [H|[]]; inversion H; reflexivity|intros H; exfalso; apply H; exists [1;2;3]; left; reflexivity]|].
  cbn. destruct (Req_EM_T 1 2); [lra|]. destruct (Req_EM_T 2 2); [|lra]. destruct (Req_EM_T 3 2); [lra|]. repeat split. exists 3. repeat split.
Qed.
Print Assumptions C59_rows_shift_refuted.
(** with a single problem the failure, only warned about, becomes an IndexError *)
Theorem C59_failure_not_tolerated_refuted : exists (solver : list R -> option R) pv, solve_problem solver false pv = SErr IndexError.
Proof. exists (fun _ => None), []. reflexivity. Qed.
Print Assumptions C59_failure_not_tolerated_refuted.
(** lists of different lengths are not rejected: the extra values are ignored, or the loop indexes out of range *)
Theorem C59_different_lengths_refuted : exists (solver : list R -> option R), solve_problem solver true [PList [1; 2]; PList [1; 2; 3]] = SOk (Many [2; 4])
  /\ solve_problem solver true [PList [1; 2; 3]; PList [1; 2]] = SErr IndexError.
Proof. exists (fun l => Some (fold_right Rplus 0 l)). split; [|reflexivity]. cbn. repeat f_equal; ring. Qed.
Print Assumptions C59_different_lengths_refuted.

(** * Values *)
(** the reported expected return is the one of the reported weights *)
Theorem C59_reported_return : forall q p, costs_ok (settings_ q) -> 0 < f_ p -> reported_return q p = expected q (weights p).
Proof.
  intros q p Hc Hf. unfold reported_return. rewrite (er_scale q Hc (f_ p) (weights p) p Hf); auto; [field; lra|]. symmetry. apply reported_svec. auto.
Qed.
Print Assumptions C59_reported_return.
Lemma reported_risk_pow q p : 0 < f_ p -> reported_risk q p = risk q p / f_ p ^ degree (risk_measure_ q).
Proof. intros Hf. unfold reported_risk, degree. destruct (risk_measure_ q); try (rewrite pow_1; reflexivity); field; lra. Qed.
(** the reported risk is never below the risk of the reported weights, and equals it when the objective depends on it *)
Theorem C59_reported_risk : forall tf q cs p rx, 0 < scale (settings_ q) -> 0 < scale_objective_ q -> costs_ok (settings_ q) -> is_mip (n_assets (prior_ q)) (params_ q) = false -> accepted tf q cs ->
  optimal tf q p -> 0 < f_ p -> risk_is q (risk_measure_ q) (weights p) rx ->
  (objective_ q = MAXIMIZE_RATIO -> max_tracking_error_ q = None /\ forall rm, ~ homogeneous rm -> limits_ q rm = None) ->
  rx <= reported_risk q p
  /\ (objective_ q = MINIMIZE_RISK \/ objective_ q = MAXIMIZE_RATIO \/ (objective_ q = MAXIMIZE_UTILITY /\ 0 < risk_aversion_ q) -> reported_risk q p = rx).
Proof.
  intros tf q cs p rx Hs Hso Hc Hmip Hacc [Hf Hopt] Hp Hx Hr. set (d := degree (risk_measure_ q)). assert (Hpd: 0 < f_ p ^ d) by (apply pow_lt; auto).
  pose proof (risk_lower tf q Hs p rx Hf Hp Hx) as Hlow. fold d in Hlow. rewrite reported_risk_pow by auto. fold d.
  assert (L: rx <= risk q p / f_ p ^ d). { apply Rmult_le_reg_l with (f_ p ^ d); auto. unfold Rdiv. rewrite (Rmult_comm (risk q p)), <- Rmult_assoc, Rinv_r by lra. lra. }
  split; auto. intros Hobj. apply Rle_antisym; auto.
  assert (Fo: factor_ok q (f_ p)). { split; auto. destruct Hf as [[H|H] _]; [right; apply Hr; unfold is_ratio in H; destruct (objective_ q); discriminate || auto|left; auto]. }
  destruct (feasible_sound tf q cs Hs Hc p Hf Fo (proj1 Hacc)) as [Hall Hrat].
  destruct (feasible_complete tf q cs Hs Hc Hmip (weights p) (f_ p) rx Fo Hrat) as (p'&Hf'&Ew&Ef&Hrisk); auto.
  { intros H. destruct Hf as [[H'|H'] _]; congruence. } { destruct Hx as [(a&Ha&Ea) _]. exists a. split; auto. lra. }
  fold d in Hrisk. specialize (Hopt p' Hf'). assert (Ew': w_ p' = w_ p) by (rewrite Ew; apply reported_svec; auto).
  assert (Eer: er q p' = er q p) by (unfold er; rewrite Ew', Ef; reflexivity).
  assert (Hle: risk q p <= risk q p').
  { unfold loss in Hopt. rewrite Ew', Eer in Hopt. destruct Hobj as [Ho|[Ho|[Ho Hra]]]; rewrite Ho in Hopt; apply Rmult_le_reg_r with (scale_objective_ q); auto; try lra.
    apply Rmult_le_reg_l with (risk_aversion_ q); auto. lra. }
  apply Rmult_le_reg_r with (f_ p ^ d); auto. unfold Rdiv. rewrite Rmult_assoc, Rinv_l by lra. lra.
Qed.
Print Assumptions C59_reported_risk.
(** with MAXIMIZE_RETURN the risk variables are not pushed down: the reported risk can be anything above the risk *)
Definition return_example : mean_risk := {| prior_ := two_assets; settings_ := free; params_ := long_only; names_ := None; mip_solver_ := false;
  objective_ := MAXIMIZE_RETURN; risk_measure_ := STANDARD_DEVIATION; limits_ := fun _ => None; min_return_ := None; max_turnover_ := None; has_previous_ := false;
  max_tracking_error_ := None; benchmark_ := fun _ => 19; mu_uncertainty_ := None; l1_ := 0; l2_ := 0; risk_aversion_ := 1; scale_objective_ := 1; overwrite_ := None |}.
Definition slack_point : point := {| w_ := two 1 0; f_ := 1; m_ := no_mip; a_ := fun _ => {| alpha := 0; u := 7; ex := 0; ey := 0; v := fun _ => 0; z := fun _ => 0; gx := fun _ => 0; gy := fun _ => 0; dd := fun _ => 0 |}; common_dd := fun _ => 0 |}.
Lemma return_example_er p : er return_example p = 20 * w_ p 0%nat.
Proof. unfold er, expected_return, transaction_cost, management_fee, all. cbn. unfold eqb0. destruct (Req_EM_T 0 0) as [_|H]; [|exfalso; apply H; reflexivity]. cbn. unfold sumn. cbn. ring. Qed.
Theorem C59_reported_risk_refuted : exists tf q p rx, optimal tf q p /\ risk_is q (risk_measure_ q) (weights p) rx /\ rx < reported_risk q p.
Proof.
  exists no_float, return_example, slack_point, (sqrt (quadratic two_assets (fun i j => if (i =? j)%nat then 1 else 0) (weights slack_point))). split; [split|split].
  - split; [right; reflexivity|]. unfold problem_constraints. cbn [return_example prior_ settings_ params_ names_ mip_solver_ limits_ min_return_ max_turnover_ has_previous_ max_tracking_error_ mu_uncertainty_ n_assets two_assets is_ratio objective_].
    eexists. split; [reflexivity|]. rewrite !Forall_app. cbn [tracking_constraints]. split; [constructor|]. split; [constructor|]. split.
    + unfold elementwise. cbn [seq map w_ f_ slack_point scale free two]. repeat split; repeat (constructor; [cbn; unfold sumn; cbn; lra|]); constructor.
    + split; [constructor|]. split; [|constructor]. unfold risk_block. cbn. constructor; [cbn; lra|constructor; [|constructor]]. cbn. unfold sumn. cbn. rewrite !Rmult_1_r. apply Rle_trans with (sqrt (7 ^ 2)); [apply sqrt_le_1_alt; lra|rewrite sqrt_pow2; lra].
  - intros p (Hf&l&E&Hl). destruct (problem_split no_float return_example p l E) as (lt&lw&Hlt&Hlw&Hall). destruct (proj1 Hall Hl) as (_&_&B&_). destruct Hf as [Hf|Hf]; [discriminate|].
    unfold weight_constraints in Hlw. cbn in Hlw. inversion Hlw. subst lw. rewrite Hf in B.
    assert (B': w_ p 0%nat <= 1). { inversion B as [|? ? _ B1]; subst. inversion B1 as [|? ? _ B2]; subst. inversion B2 as [|? ? B3 _]; subst. cbn in B3. lra. }
    unfold loss. cbn [return_example objective_ scale_objective_]. fold return_example. rewrite !return_example_er. unfold regularization. cbn. lra.
  - apply (C35_standard_deviation two_assets free (weights slack_point) (fun i j => if (i =? j)%nat then 1 else 0)); [cbn; lra|]. intros i j Hi Hj. cbn in Hi, Hj. destruct i as [|[|i]]; [| |lia]; destruct j as [|[|j]]; try lia; cbn; lra.
  - unfold reported_risk, risk, quadratic, weights, reported. cbn. apply Rle_lt_trans with (sqrt (2 ^ 2)); [apply sqrt_le_1_alt; lra|rewrite sqrt_pow2; lra].
Qed.
Print Assumptions C59_reported_risk_refuted.
(** hypotheses of the theorems on problems: three target returns and a scalar limit; those on values are met by C36_optimal_point_exists *)
Example C59_hypotheses_met : number_of_problems [PList [1; 2; 3]; PScalar 5] 3 /\ map (fun p => ith p 1) [PList [1; 2; 3]; PScalar 5] = [2; 5].
Proof. split; [|reflexivity]. split; [intros _ l [H|[H|[]]]; inversion H; reflexivity|intros H; exfalso; apply H; exists [1;2;3]; left; reflexivity]. Qed.

(** * C60: the efficient frontier *)
Definition with_min_return (q : mean_risk) (r : R) : mean_risk := {| prior_ := prior_ q; settings_ := settings_ q; params_ := params_ q; names_ := names_ q; mip_solver_ := mip_solver_ q;
  objective_ := objective_ q; risk_measure_ := risk_measure_ q; limits_ := limits_ q; min_return_ := Some r; max_turnover_ := max_turnover_ q; has_previous_ := has_previous_ q;
  max_tracking_error_ := max_tracking_error_ q; benchmark_ := benchmark_ q; mu_uncertainty_ := mu_uncertainty_ q; l1_ := l1_ q; l2_ := l2_ q; risk_aversion_ := risk_aversion_ q; scale_objective_ := scale_objective_ q; overwrite_ := overwrite_ q |}.
Theorem C60_targets : forall lo hi size l, frontier_targets lo hi size = SOk l -> (2 <= size)%nat ->
  0 < hi /\ length l = size /\ nth 0 l 0 = Rmax lo (1 / 10000000000) * (101/100) /\ nth (size - 1) l 0 = hi
  /\ (Rmax lo (1 / 10000000000) * (101/100) <= hi -> forall i j, (i <= j < size)%nat -> nth i l 0 <= nth j l 0 <= hi).
Proof.
  intros lo hi size l H Hn. unfold frontier_targets in H. destruct (Rle_dec hi 0) as [|Hhi]; [discriminate|]. assert (E: l = linspace (Rmax lo (1 / 10000000000) * (101 / 100)) hi size) by congruence. clear H. set (a := Rmax lo _ * _) in *. unfold linspace in E.
  assert (Hs: 0 < INR (size - 1)) by (apply lt_0_INR; lia).
  assert (N: forall i, (i < size)%nat -> nth i l 0 = a + INR i * ((hi - a) / INR (size - 1))) by (intros i Hi; rewrite E; apply (nth_mapR (fun k => a + INR k * ((hi - a) / INR (size - 1)))); auto).
  split; [lra|]. split; [rewrite E; apply map_seq_length|]. split; [rewrite N by lia; cbn; ring|]. split; [rewrite N by lia; field; lra|].
  intros Ha i j Hij. rewrite !N by lia. assert (Q: 0 <= (hi - a) / INR (size - 1)) by (unfold Rdiv; apply Rmult_le_pos; [lra|left; apply Rinv_0_lt_compat; auto]). assert (I1: INR i <= INR j) by (apply le_INR; lia). assert (I2: INR j <= INR (size - 1)) by (apply le_INR; lia).
  split; [nra|]. apply Rle_trans with (a + INR (size - 1) * ((hi - a) / INR (size - 1))); [nra|]. right. field. lra.
Qed.
Print Assumptions C60_targets.
(** along the frontier the risk (plus penalty) does not decrease and the expected return reaches the target *)
Theorem C60_frontier_monotone : forall tf q cs t1 t2 p1 p2 r1 r2, 0 < scale (settings_ q) -> 0 < scale_objective_ q -> costs_ok (settings_ q) -> is_mip (n_assets (prior_ q)) (params_ q) = false ->
  objective_ q = MINIMIZE_RISK -> t1 <= t2 ->
  accepted tf (with_min_return q t1) cs -> accepted tf (with_min_return q t2) cs -> optimal tf (with_min_return q t1) p1 -> optimal tf (with_min_return q t2) p2 ->
  risk_is q (risk_measure_ q) (weights p1) r1 -> risk_is q (risk_measure_ q) (weights p2) r2 ->
  t1 <= expected q (weights p1) /\ t2 <= expected q (weights p2) /\ r1 + penalty q (weights p1) <= r2 + penalty q (weights p2).
Proof.
  intros tf q cs t1 t2 p1 p2 r1 r2 Hs Hso Hc Hmip Ho Ht A1 A2 O1 O2 R1 R2.
  assert (W: forall t p, accepted tf (with_min_return q t) cs -> optimal tf (with_min_return q t) p -> allowed tf (with_min_return q t) cs (weights p)).
  { intros t p At [Op _]. apply (C36_weights_allowed tf (with_min_return q t) cs p Hs Hc At Op); [|cbn; congruence]. destruct Op as [[H|H] _]; [unfold is_ratio in H; cbn in H; rewrite Ho in H; discriminate|lra]. }
  pose proof (W t1 p1 A1 O1) as W1. pose proof (W t2 p2 A2 O2) as W2.
  split; [apply W1|]. split; [apply W2|].
  assert (W3: allowed tf (with_min_return q t1) cs (weights p2)). { destruct W2 as (B1&B2&B3&B4&B5). split; [exact B1|]. split; [exact B2|]. split; [exact B3|]. split; [|exact B5]. cbn [with_min_return min_return_ opt] in *. eapply Rle_trans; [exact Ht|exact B4]. }
  pose proof (C36_optimal tf (with_min_return q t1) cs p1 Hs Hso Hc Hmip A1) as C. cbn [with_min_return objective_] in C. rewrite Ho in C. specialize (C ltac:(discriminate) O1 (weights p2) r1 r2 W3 R1 R2). exact C.
Qed.
Print Assumptions C60_frontier_monotone.
(** when the smallest-risk and the largest return are within one percent the first target is above every attainable return *)
Theorem C60_targets_refuted : exists lo hi l, lo <= hi /\ frontier_targets lo hi 2 = SOk l /\ hi < nth 0 l 0.
Proof.
  exists 1, 1, (linspace (Rmax 1 (1 / 10000000000) * (101/100)) 1 2). split; [lra|]. unfold frontier_targets. destruct (Rle_dec 1 0); [lra|]. split; [reflexivity|]. unfold linspace. cbn. rewrite Rmax_left by lra. lra.
Qed.
Print Assumptions C60_targets_refuted.
Example C60_hypotheses_met : exists l, frontier_targets 1 2 3 = SOk l /\ Rmax 1 (1 / 10000000000) * (101/100) <= 2.
Proof. unfold frontier_targets. destruct (Rle_dec 2 0); [lra|]. eexists. split; [reflexivity|]. rewrite Rmax_left; lra. Qed.
