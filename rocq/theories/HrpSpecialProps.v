(** C98: hierarchical risk parity of the variance, with no correlation, is the inverse of the variances whatever the dendrogram. *)
From Coq Require Import List Bool Arith Reals Lia Lra Permutation.
From Verif Require Import RList HrpModel HrpProps.
Import ListNotations.
Local Open Scope R_scope.

(** * Specification *)
(** the variance of a portfolio of n uncorrelated assets of variances v *)
Definition uncorrelated_variance (n : nat) (v : nat -> R) (risk : list R -> R) : Prop :=
  forall u, length u = n -> risk u = sum_over (seq 0 n) (fun i => v i * nth i u 0 ^ 2).
(** the weights proportional to the inverse variances *)
Definition inverse_variance (n : nat) (v : nat -> R) (i : nat) : R := 1 / v i / sum_over (seq 0 n) (fun j => 1 / v j).

(** * Lemmas *)
Section Cluster.
  Variable n : nat.
  Variable v : nat -> R.
  Variable risk : list R -> R.
  Hypothesis Hv : forall i, (i < n)%nat -> 0 < v i.
  Hypothesis Hrisk : uncorrelated_variance n v risk.
  Let S (c : list nat) := sum_over c (fun i => 1 / v i).

  Lemma inverse_positive i : (i < n)%nat -> 0 < 1 / v i. Proof. intros H. apply Rdiv_lt_0_compat; [lra|auto]. Qed.
  Lemma stand_alone i : (i < n)%nat -> nth i (assets_risks risk n) 0 = v i.
  Proof.
    intros Hi. unfold assets_risks. rewrite nth_map_seq0 by auto. unfold unit_vector. rewrite Hrisk by (rewrite map_length, seq_length; reflexivity).
    rewrite (so_ext _ (fun j => if (j =? i)%nat then v i else 0)).
    - replace n with (i + Datatypes.S (n - Datatypes.S i))%nat by lia. rewrite seq_app, so_app. cbn [seq Nat.add]. rewrite so_cons, Nat.eqb_refl.
      rewrite (so_zero _ (seq 0 i)), (so_zero _ (seq (Datatypes.S i) _)); [ring| |]; intros k Hk; apply in_seq in Hk; destruct (Nat.eqb_spec k i); auto; lia.
    - intros j Hj. apply in_seq in Hj. rewrite nth_map_seq0 by lia. rewrite (Nat.eqb_sym j i). destruct (Nat.eqb_spec i j) as [<-|]; ring.
  Qed.
  Lemma indicator_sum (g : nat -> R) c : NoDup c -> (forall i, In i c -> (i < n)%nat) -> sum_over (seq 0 n) (fun i => if memn i c then g i else 0) = sum_over c g.
  Proof.
    intros Hnd Hc. assert (P : Permutation (filter (fun i => memn i c) (seq 0 n)) c).
    { apply NoDup_Permutation; auto; [apply NoDup_filter, seq_NoDup|]. intros i. rewrite filter_In, in_seq, memn_In. split; [tauto|]. intros H. pose proof (Hc i H). split; [lia|exact H]. }
    rewrite <- (so_perm g _ _ P). generalize (seq 0 n). intros l. induction l as [|i l IH]; [reflexivity|]. cbn [filter]. rewrite so_cons, IH. destruct (memn i c); [rewrite so_cons; reflexivity|ring].
  Qed.
  Lemma S_positive c : c <> [] -> (forall i, In i c -> (i < n)%nat) -> 0 < S c.
  Proof.
    intros Hne Hc. destruct c as [|i c]; [congruence|]. apply Rlt_le_trans with (1 / v i); [apply inverse_positive, Hc; left; auto|].
    apply (so_ge_elem (fun i => 1 / v i)); [intros j Hj; left; apply inverse_positive, Hc; auto|left; auto].
  Qed.
  Lemma cluster_variance c : c <> [] -> NoDup c -> (forall i, In i c -> (i < n)%nat) -> cluster_risk risk n c = 1 / S c.
  Proof.
    intros Hne Hnd Hc. unfold cluster_risk, inv_risk_w. set (f := fun i => if memn i c then 1 / nth i (assets_risks risk n) 0 else 0).
    assert (E : rsum (map f (seq 0 n)) = S c).
    { unfold S. rewrite <- so_id, so_map. rewrite <- (indicator_sum (fun i => 1 / v i) c Hnd Hc). apply so_ext. intros i Hi. apply in_seq in Hi. unfold f. rewrite stand_alone by lia. reflexivity. }
    rewrite E. pose proof (S_positive c Hne Hc) as P. rewrite Hrisk by (rewrite !map_length, seq_length; reflexivity).
    rewrite (so_ext _ (fun i => (if memn i c then 1 / v i else 0) * (1 / S c) ^ 2)).
    - rewrite so_scal_r, (indicator_sum (fun i => 1 / v i) c Hnd Hc). fold (S c). field. lra.
    - intros i Hi. apply in_seq in Hi. rewrite map_map, (nth_map_seq0 (fun i => f i / S c)) by lia. unfold f. rewrite stand_alone by lia. pose proof (Hv i ltac:(lia)). destruct (memn i c); field; lra.
  Qed.
  Lemma positive_clusters : positive_risks risk n.
  Proof.
    intros ids Hne Hids. unfold cluster_risk. assert (Hr : forall i, (i < n)%nat -> 0 < nth i (assets_risks risk n) 0) by (intros i Hi; rewrite stand_alone by auto; auto).
    destruct (inv_risk_w_spec risk n ids Hr Hne Hids) as (_&_&_&P). rewrite Hrisk by (unfold inv_risk_w; rewrite !map_length, seq_length; reflexivity).
    set (u := inv_risk_w risk n ids) in *. destruct ids as [|i ids]; [congruence|]. pose proof (P i (or_introl eq_refl)) as Pi. pose proof (Hids i (or_introl eq_refl)) as Hi.
    apply Rlt_le_trans with (v i * nth i u 0 ^ 2); [apply Rmult_lt_0_compat; [auto|apply pow_lt; auto]|].
    apply (so_ge_elem (fun i => v i * nth i u 0 ^ 2)); [|apply in_seq; lia]. intros j Hj. apply in_seq in Hj. apply Rmult_le_pos; [left; apply Hv; lia|apply pow2_ge_0].
  Qed.
  Lemma allocation_inverse lo hi w k ids W : (forall i, (i < n)%nat -> nth i lo 0 <= k * (1 / v i) <= nth i hi 0) ->
    allocation (cluster_risk risk n) lo hi w ids W -> NoDup ids -> (forall i, In i ids -> (i < n)%nat) -> W = k * S ids -> forall i, In i ids -> nth i w 0 = k * (1 / v i).
  Proof.
    intros HB HA. induction HA as [i W E|left right W WL Hlen H1 Hnear HL IHL HR IHR]; intros Hnd Hids HW.
    - intros j [<-|[]]. rewrite E, HW. unfold S. rewrite so_cons, so_nil. ring.
    - assert (Nl : left <> []) by (intros ->; cbn [app length] in Hlen, H1; pose proof (Nat.div_le_lower_bound (length right) 2 1 ltac:(lia) ltac:(lia)); lia).
      assert (Nr : right <> []). { intros ->. rewrite app_nil_r in *. pose proof (Nat.div_lt (length left) 2 ltac:(lia) ltac:(lia)). lia. }
      pose proof (nodup_app_l _ _ Hnd) as Dl. pose proof (nodup_app_r _ _ Hnd) as Dr.
      assert (Bl : forall i, In i left -> (i < n)%nat) by (intros; apply Hids, in_or_app; auto). assert (Br : forall i, In i right -> (i < n)%nat) by (intros; apply Hids, in_or_app; auto).
      rewrite (cluster_variance left Nl Dl Bl), (cluster_variance right Nr Dr Br) in Hnear. pose proof (S_positive left Nl Bl). pose proof (S_positive right Nr Br).
      assert (ES : S (left ++ right) = S left + S right) by apply so_app. rewrite ES in HW.
      replace (W * (1 / S right / (1 / S left + 1 / S right))) with (k * S left) in Hnear by (rewrite HW; field; lra).
      assert (T : forall c, (forall i, In i c -> (i < n)%nat) -> total lo c <= k * S c <= total hi c).
      { intros c Hc. unfold total, S. rewrite <- so_scal. split; apply so_le; intros i Hi; apply HB; auto. }
      pose proof (T left Bl). pose proof (T right Br). destruct Hnear as (_&_&_&N).
      assert (EW : WL = k * S left). { apply N. split; [apply Rmax_lub; lra|apply Rmin_glb; lra]. }
      intros i Hi. apply in_app_or in Hi as [Hi|Hi]; [apply IHL; auto|apply IHR; auto; lra].
  Qed.
End Cluster.

(** * Theorems *)
(** the order of the assets, which the clustering chooses, does not matter; the weights are those of the minimum of the variance *)
Theorem C98_hierarchical : forall risk v n sorted_assets min_weights max_weights lo hi, (0 < n)%nat -> Permutation sorted_assets (seq 0 n) ->
  (forall i, (i < n)%nat -> 0 < v i) -> uncorrelated_variance n v risk ->
  (forall l, min_weights = Some l -> length l = n) -> (forall l, max_weights = Some l -> length l = n) -> convert_weights_bounds n min_weights max_weights = Some (lo, hi) ->
  (forall i, (i < n)%nat -> match min_weights with Some l => nth i l 0 | None => 0 end <= inverse_variance n v i <= match max_weights with Some l => nth i l 0 | None => 1 end) ->
  (forall i, (i < n)%nat -> 0 < nth i lo 0) \/ (forall i, (i < n)%nat -> nth i lo 0 = 0) ->
  exists w, hrp risk n lo hi sorted_assets = Weights w /\ length w = n /\ forall i, (i < n)%nat -> nth i w 0 = inverse_variance n v i.
Proof.
  intros risk v n sa mn mx lo hi Hn HP Hv Hr Hmn Hmx HC HB Hl. pose proof (positive_clusters n v risk Hv Hr) as Pos.
  destruct (convert_spec n mn mx lo hi Hn Hmn Hmx HC) as (L1&L2&Hb&Hhi&Hval).
  set (G := sum_over (seq 0 n) (fun j => 1 / v j)) in *.
  assert (HG : 0 < G). { apply (S_positive n v Hv (seq 0 n)); [destruct n; [lia|discriminate]|]. intros i Hi. apply in_seq in Hi. lia. }
  assert (HB' : forall i, (i < n)%nat -> nth i lo 0 <= / G * (1 / v i) <= nth i hi 0).
  { intros i Hi. specialize (HB i Hi). unfold inverse_variance in HB. fold G in HB. replace (/ G * (1 / v i)) with (1 / v i / G) by (field; split; [pose proof (Hv i Hi)|]; lra). destruct (Hval i Hi) as [A B]. rewrite A, B. exact HB. }
  assert (TL : rsum lo <= 1).
  { rewrite <- (rsum_nth lo n L1). apply Rle_trans with (sum_over (seq 0 n) (fun i => / G * (1 / v i))); [apply so_le; intros i Hi; apply in_seq in Hi; apply HB'; lia|]. rewrite so_scal. fold G. rewrite Rinv_l by lra. lra. }
  assert (Hh : forall i, (i < n)%nat -> 0 < nth i hi 0).
  { intros i Hi. apply Rlt_le_trans with (/ G * (1 / v i)); [|apply HB'; auto]. apply Rmult_lt_0_compat; [apply Rinv_0_lt_compat; auto|apply (inverse_positive n v Hv i Hi)]. }
  destruct (C29_finite risk n sa mn mx lo hi Hn HP Pos Hmn Hmx HC TL Hh Hl) as (w&E). exists w. split; [exact E|].
  destruct (proj2 (C29_hierarchical_risk_parity risk n sa mn mx lo hi Hn HP Pos Hmn Hmx HC TL) w E) as (Lw&_&_&A). split; [exact Lw|]. intros i Hi.
  assert (Hsa : forall j, In j sa -> (j < n)%nat) by (intros j Hj; apply (Permutation_in _ HP) in Hj; apply in_seq in Hj; lia).
  rewrite (allocation_inverse n v risk Hv Hr lo hi w (/ G) sa 1 HB' A).
  - unfold inverse_variance. fold G. pose proof (Hv i Hi). field. lra.
  - apply (Permutation_NoDup (Permutation_sym HP)), seq_NoDup.
  - exact Hsa.
  - rewrite (so_perm _ _ _ HP). fold G. field. lra.
  - apply (Permutation_in _ (Permutation_sym HP)), in_seq. lia.
Qed.
Print Assumptions C98_hierarchical.
(** the default bounds allow these weights *)
Theorem C98_hierarchical_default : forall risk v n sorted_assets, (0 < n)%nat -> Permutation sorted_assets (seq 0 n) -> (forall i, (i < n)%nat -> 0 < v i) -> uncorrelated_variance n v risk ->
  exists lo hi w, convert_weights_bounds n None None = Some (lo, hi) /\ hrp risk n lo hi sorted_assets = Weights w /\ length w = n /\ forall i, (i < n)%nat -> nth i w 0 = inverse_variance n v i.
Proof.
  intros risk v n sa Hn HP Hv Hr. assert (C : convert_weights_bounds n None None = Some (repeat 0 n, repeat 1 n)).
  { unfold convert_weights_bounds. destruct (existsb _ (combine (repeat 0 n) (repeat 1 n))) eqn:E; [|reflexivity]. exfalso. apply existsb_exists in E as ((a&b)&H&L). cbn in L.
    pose proof (in_combine_l _ _ _ _ H) as A. pose proof (in_combine_r _ _ _ _ H) as B. apply repeat_spec in A, B. subst. unfold Rltb in L. destruct (Rlt_dec 1 0); [lra|discriminate]. }
  destruct (C98_hierarchical risk v n sa None None (repeat 0 n) (repeat 1 n) Hn HP Hv Hr) as (w&E&L&W); auto; try discriminate.
  - intros i Hi. unfold inverse_variance. pose proof (inverse_positive n v Hv i Hi) as P. set (G := sum_over (seq 0 n) (fun j => 1 / v j)).
    assert (1 / v i <= G) by (apply (so_ge_elem (fun j => 1 / v j)); [intros j Hj; apply in_seq in Hj; left; apply (inverse_positive n v Hv); lia|apply in_seq; lia]).
    split; [left; apply Rdiv_lt_0_compat; lra|]. apply Rmult_le_reg_r with G; [lra|]. unfold Rdiv. rewrite Rmult_assoc, Rinv_l by lra. lra.
  - right. intros i _. apply nth_repeat_0.
  - exists (repeat 0 n), (repeat 1 n), w. auto.
Qed.
Print Assumptions C98_hierarchical_default.

(** * A case: three assets of variances 1, 2 and 4 in the order 2, 0, 1 *)
Example C98_hierarchical_applies : let v := fun i => nth i [1; 2; 4] 0 in let risk := fun u => sum_over (seq 0 3) (fun i => v i * nth i u 0 ^ 2) in
  Permutation [2; 0; 1]%nat (seq 0 3) /\ (forall i, (i < 3)%nat -> 0 < v i) /\ uncorrelated_variance 3 v risk
  /\ inverse_variance 3 v 0 = 4/7 /\ inverse_variance 3 v 1 = 2/7 /\ inverse_variance 3 v 2 = 1/7.
Proof.
  intros v risk. split; [exact (Permutation_cons_append [0; 1]%nat 2%nat)|]. split; [intros i Hi; unfold v; destruct i as [|[|[|i]]]; try lia; cbn; lra|]. split; [intros u _; reflexivity|].
  unfold inverse_variance, v. cbn. repeat split; field.
Qed.
