(** C13-C15: drawdowns, Gini mean difference, second moments. *)
From Coq Require Import Reals Lra Lia List ZArith Permutation Sorting.Sorted.
From Verif Require Import RList MeasuresModel MeasuresProofs MeasuresProps.
Import ListNotations.
Local Open Scope R_scope.

(** * C13 *)
(** wealth path: value after observation j, uncompounded (sum) or compounded (product) *)
Definition wealth (r : list R) (j : nat) : R := rsum (firstn (S j) r).
Definition wealth_compounded (r : list R) (j : nat) : R := fold_right (fun x acc => (1 + x) * acc) 1 (firstn (S j) r).

Lemma wealth_comp_eq r j : rprod (firstn (S j) (map (fun x => 1 + x) r)) = wealth_compounded r j.
Proof.
  unfold wealth_compounded, rprod. rewrite firstn_map. generalize (firstn (S j) r). clear.
  induction l as [|x l IH]; cbn; [reflexivity|]. rewrite IH. reflexivity.
Qed.
Lemma wealth_comp_pos r j : (forall x, In x r -> -1 < x) -> 0 < wealth_compounded r j.
Proof.
  intros H. unfold wealth_compounded.
  assert (H': forall x, In x (firstn (S j) r) -> -1 < x).
  { intros x Hx. apply H. rewrite <- (firstn_skipn (S j) r). apply in_or_app; auto. }
  revert H'. generalize (firstn (S j) r). clear. induction l as [|x l IH]; intros H; cbn; [lra|].
  apply Rmult_lt_0_compat; [specialize (H x (or_introl eq_refl)); lra|]. apply IH. intros; apply H; right; auto.
Qed.

Theorem C13_max_drawdown :
  forall p, partition_ok p -> forall r, r <> [] ->
    (exists i j, (i <= j < length r)%nat /\ max_drawdown p (get_drawdowns r false) = wealth r i - wealth r j)
    /\ (forall i j, (i <= j < length r)%nat -> wealth r i - wealth r j <= max_drawdown p (get_drawdowns r false)).
Proof.
  intros p Hp r Hr. set (d := get_drawdowns r false).
  assert (Ld: length d = length r) by apply drawdowns_length.
  assert (Hd: d <> []) by (intros E; rewrite E in Ld; destruct r; [congruence|discriminate]).
  rewrite (max_drawdown_min p Hp d Hd). destruct (minR_spec d Hd) as [A B].
  set (c := get_cumulative_returns r false).
  assert (Lc: length c = length r) by apply cumulative_length.
  assert (Ec: forall j, (j < length r)%nat -> nth j c 0 = wealth r j) by (intros; apply cumulative_nth_simple; auto).
  assert (Ed: forall j, (j < length r)%nat -> nth j d 0 = nth j c 0 - maxR (firstn (S j) c)).
  { intros j Hj. unfold d. rewrite drawdowns_nth by auto. reflexivity. }
  split.
  - destruct (In_nth _ _ 0 A) as (j&Hj&Ej). rewrite Ld in Hj.
    destruct (running_max c j ltac:(lia)) as [(i&Hi&Ei) _]. exists i, j. split; [lia|].
    rewrite <- Ej, Ed, Ei, !Ec by lia. lra.
  - intros i j Hij. destruct (running_max c j ltac:(lia)) as [_ M]. specialize (M i ltac:(lia)).
    assert (Hb: minR d <= nth j d 0) by (apply B; apply nth_In; lia).
    rewrite Ed in Hb by lia. rewrite Ec in M by lia. rewrite (Ec j) in Hb by lia. lra.
Qed.
Print Assumptions C13_max_drawdown.

Theorem C13_max_drawdown_compounded :
  forall p, partition_ok p -> forall r, r <> [] -> (forall x, In x r -> -1 < x) ->
    (exists i j, (i <= j < length r)%nat
        /\ max_drawdown p (get_drawdowns r true) = (wealth_compounded r i - wealth_compounded r j) / wealth_compounded r i)
    /\ (forall i j, (i <= j < length r)%nat ->
          (wealth_compounded r i - wealth_compounded r j) / wealth_compounded r i <= max_drawdown p (get_drawdowns r true)).
Proof.
  intros p Hp r Hr Hpos. set (d := get_drawdowns r true).
  assert (Ld: length d = length r) by apply drawdowns_length.
  assert (Hd: d <> []) by (intros E; rewrite E in Ld; destruct r; [congruence|discriminate]).
  rewrite (max_drawdown_min p Hp d Hd). destruct (minR_spec d Hd) as [A B].
  set (c := get_cumulative_returns r true).
  assert (Lc: length c = length r) by apply cumulative_length.
  assert (Ec: forall j, (j < length r)%nat -> nth j c 0 = 1000 * wealth_compounded r j).
  { intros j Hj. unfold c. rewrite cumulative_nth_comp, wealth_comp_eq by auto. reflexivity. }
  assert (Hw: forall j, 0 < wealth_compounded r j) by (intros; apply wealth_comp_pos; auto).
  assert (Ed: forall j, (j < length r)%nat -> nth j d 0 = nth j c 0 / maxR (firstn (S j) c) - 1).
  { intros j Hj. unfold d. rewrite drawdowns_nth by auto. reflexivity. }
  split.
  - destruct (In_nth _ _ 0 A) as (j&Hj&Ej). rewrite Ld in Hj.
    destruct (running_max c j ltac:(lia)) as [(i&Hi&Ei) _]. exists i, j. split; [lia|].
    rewrite <- Ej, Ed, Ei, !Ec by lia. pose proof (Hw i). field. lra.
  - intros i j Hij. destruct (running_max c j ltac:(lia)) as [_ M]. specialize (M i ltac:(lia)).
    assert (Hb: minR d <= nth j d 0) by (apply B; apply nth_In; lia).
    rewrite Ed in Hb by lia. rewrite Ec in M by lia. rewrite (Ec j) in Hb by lia.
    pose proof (Hw i). pose proof (Hw j). set (wi := wealth_compounded r i) in *. set (wj := wealth_compounded r j) in *.
    set (m := maxR (firstn (S j) c)) in *.
    assert (1000 * wj / m <= wj / wi).
    { replace (wj / wi) with (1000 * wj / (1000 * wi)) by (field; lra). apply Rmult_le_compat_l; [lra|]. apply Rinv_le_contravar; lra. }
    replace ((wi - wj) / wi) with (1 - wj / wi) by (field; lra). lra.
Qed.
Print Assumptions C13_max_drawdown_compounded.

(** drawdowns are never positive *)
Theorem C13_drawdowns_nonpositive :
  forall r compounded, (compounded = true -> forall x, In x r -> -1 < x) ->
    length (get_drawdowns r compounded) = length r /\ forall x, In x (get_drawdowns r compounded) -> x <= 0.
Proof.
  intros r b Hpos. split; [apply drawdowns_length|]. intros x Hx.
  destruct (In_nth _ _ 0 Hx) as (j&Hj&<-). rewrite drawdowns_length in Hj.
  rewrite drawdowns_nth by auto. cbv zeta.
  destruct (running_max (get_cumulative_returns r b) j) as [_ M]; [rewrite cumulative_length; lia|].
  specialize (M j ltac:(lia)). destruct b.
  - rewrite cumulative_nth_comp, wealth_comp_eq in * by auto. pose proof (wealth_comp_pos r j (Hpos eq_refl)).
    set (m := maxR _) in *. assert (1000 * wealth_compounded r j / m <= 1); [|lra].
    apply Rmult_le_reg_r with m; [lra|]. unfold Rdiv. rewrite Rmult_assoc, Rinv_l by lra. lra.
  - lra.
Qed.
Print Assumptions C13_drawdowns_nonpositive.

(** 0 <= average <= CDaR <= max, DaR <= CDaR, average <= ulcer index <= max, on any non-positive series *)
Theorem C13_drawdown_ordering :
  forall p, partition_ok p -> forall d beta, d <> [] -> (forall x, In x d -> x <= 0) -> 0 <= beta < 1 ->
    average_drawdown p d = - mean d
    /\ 0 <= average_drawdown p d <= cdar p d beta
    /\ cdar p d beta <= max_drawdown p d
    /\ drawdown_at_risk p d beta <= cdar p d beta
    /\ average_drawdown p d <= ulcer_index d <= max_drawdown p d.
Proof.
  intros p Hp d beta Hd Hneg Hb.
  assert (Hn: 0 < INR (length d)) by (apply INR_pos; destruct d; [congruence|cbn; lia]).
  assert (Eavg: average_drawdown p d = - mean d).
  { unfold average_drawdown, cdar. destruct (cvar_split p Hp d 0 Hd ltac:(lra)) as (a&x&b&k&P&Ha&Hbb&Ek&Hk&Hka&Ev&Ec).
    rewrite Ec. unfold tail_size in Ek. rewrite Rminus_0_r, Rmult_1_l in Ek.
    assert (Hb0: b = []).
    { pose proof (Permutation_length P) as HL. rewrite app_length in HL. cbn [length] in HL. unfold len in Hka.
      rewrite Ek, <- HL, plus_INR, S_INR in Hka. assert (INR (length b) <= 0) by lra.
      destruct b; auto. cbn [length] in H. rewrite S_INR in H. pose proof (pos_INR (length b)). lra. }
    subst b. unfold mean, len. rewrite <- (rsum_perm _ _ P), rsum_app, rsum_cons, rsum_nil.
    rewrite (so_opp (fun y => y)), so_id.
    pose proof (Permutation_length P) as HL. rewrite app_length in HL. cbn [length] in HL.
    assert (Hlen: k = INR (length a) + 1) by (rewrite Ek, <- HL, plus_INR; cbn; ring).
    rewrite <- Ek. replace (k - INR (length a)) with 1 by lra. field. lra. }
  assert (Hmean: mean d <= 0).
  { unfold mean, len. assert (rsum d <= 0).
    { rewrite <- so_id. assert (0 <= sum_over d (fun x => - x)) by (apply so_nonneg; intros x Hx; specialize (Hneg x Hx); lra).
      rewrite so_opp in H. lra. }
    assert (0 < / INR (length d)) by (apply Rinv_0_lt_compat; auto). unfold Rdiv. nra. }
  destruct (C12_ordering p Hp d beta Hd Hb) as (O1&O2&O3&_).
  assert (Emax: max_drawdown p d = worst_realization d) by (apply max_drawdown_min; auto).
  split; [exact Eavg|]. rewrite Eavg. split; [split; [lra|exact O2]|]. split; [rewrite Emax; exact O3|]. split; [exact O1|].
  unfold ulcer_index, len.
  assert (Hq: 0 <= sum_over d (fun x => x ^ 2) / INR (length d)).
  { apply Rmult_le_pos; [apply so_nonneg; intros; apply pow2_ge_0|left; apply Rinv_0_lt_compat; auto]. }
  split.
  - apply Rsqr_incr_0_var; [|apply sqrt_pos]. rewrite Rsqr_sqrt by exact Hq. unfold Rsqr, mean, len.
    pose proof (so_mean_sq (fun x => x) d) as C. cbv beta in C. rewrite so_id in C.
    replace (- (rsum d / INR (length d)) * - (rsum d / INR (length d))) with (rsum d ^2 / (INR (length d) * INR (length d))) by (field; lra).
    apply Rle_trans with (INR (length d) * sum_over d (fun x => x^2) / (INR (length d) * INR (length d))).
    + apply Rmult_le_compat_r; [left; apply Rinv_0_lt_compat; nra|exact C].
    + right. field. lra.
  - rewrite Emax. unfold worst_realization. destruct (minR_spec d Hd) as [A B].
    assert (minR d <= 0) by (apply Hneg; exact A).
    rewrite <- (sqrt_Rsqr (- minR d)) by lra. apply sqrt_le_1_alt.
    apply Rmult_le_reg_r with (INR (length d)); [lra|]. unfold Rdiv. rewrite Rmult_assoc, Rinv_l, Rmult_1_r by lra.
    rewrite Rmult_comm, <- so_const. apply so_le. intros x Hx. specialize (B x Hx). specialize (Hneg x Hx). unfold Rsqr. nra.
Qed.
Print Assumptions C13_drawdown_ordering.

(** The loss of the very first observation is not a drawdown: the running peak starts after it. *)
Theorem C13_first_loss_counted_refuted :
  exists r, (forall p, partition_ok p -> max_drawdown p (get_drawdowns r false) = 0) /\ wealth r 0 = - (1/2).
Proof.
  exists [-(1/2)]. split; [|cbn; lra]. intros p Hp. rewrite (max_drawdown_min p Hp) by discriminate.
  cbn. lra.
Qed.
Print Assumptions C13_first_loss_counted_refuted.

Example C13_example : [1; -(1/2)] <> [] /\ (forall x, In x [1; -(1/2)] -> -1 < x) /\ partition_ok (fun r _ => sortR r).
Proof. split; [discriminate|]. split; [|apply sort_partition_ok]. intros x [<-|[<-|[]]]; lra. Qed.

(** * C14 *)
Definition mean_abs_difference (r : list R) : R :=
  sum_over r (fun x => sum_over r (fun y => Rabs (x - y))) / (INR (length r) * (INR (length r) - 1)).

Theorem C14_gini_is_mean_absolute_difference :
  forall sort, sort_ok sort -> forall r, (2 <= length r)%nat ->
    gini_mean_difference sort r = mean_abs_difference r.
Proof. intros sort Hs r Hn. apply gini_pair; auto. Qed.
Print Assumptions C14_gini_is_mean_absolute_difference.

Theorem C14_gini_invariance :
  forall sort, sort_ok sort -> forall r, (2 <= length r)%nat ->
    0 <= gini_mean_difference sort r
    /\ (forall c, gini_mean_difference sort (map (fun x => x + c) r) = gini_mean_difference sort r)
    /\ (forall c, gini_mean_difference sort (map (fun x => c * x) r) = Rabs c * gini_mean_difference sort r)
    /\ (forall r', Permutation r r' -> gini_mean_difference sort r' = gini_mean_difference sort r).
Proof.
  intros sort Hs r Hn.
  assert (H2: 2 <= INR (length r)) by (apply le_INR in Hn; cbn in Hn; lra).
  rewrite (gini_pair sort r Hs Hn). unfold len. split; [|split; [|split]].
  - apply Rmult_le_pos; [|left; apply Rinv_0_lt_compat; nra]. apply so_nonneg; intros; apply so_nonneg; intros; apply Rabs_pos.
  - intros c. rewrite (gini_pair sort) by (auto; rewrite map_length; auto). unfold len. rewrite map_length. f_equal.
    unfold pair_sum. rewrite so_map. apply so_ext. intros x _. rewrite so_map. apply so_ext. intros y _. f_equal. ring.
  - intros c. rewrite (gini_pair sort) by (auto; rewrite map_length; auto). unfold len. rewrite map_length. unfold Rdiv. rewrite <- Rmult_assoc. f_equal.
    unfold pair_sum. rewrite so_map, <- so_scal. apply so_ext. intros x _. rewrite so_map, <- so_scal. apply so_ext. intros y _.
    rewrite <- Rabs_mult. f_equal. ring.
  - intros r' P. pose proof (Permutation_length P) as L. rewrite (gini_pair sort) by (auto; lia). unfold len.
    rewrite L, (pair_sum_perm _ _ P). reflexivity.
Qed.
Print Assumptions C14_gini_invariance.

Example C14_example : sort_ok sortR /\ (2 <= length [3; 1; 2])%nat.
Proof. split; [apply sortR_ok|cbn; lia]. Qed.

(** * C15 *)
Definition upper_semi_sum (r : list R) : R := sum_over r (fun x => Rmax 0 (x - mean r) ^ 2).

Theorem C15_variance_relations :
  forall r, (2 <= length r)%nat ->
    0 <= variance r
    /\ (forall c, variance (map (fun x => x + c) r) = variance r)
    /\ (forall c, variance (map (fun x => c * x) r) = c^2 * variance r)
    /\ (forall r', Permutation r r' -> variance r' = variance r)
    /\ variance r = semi_variance r None + upper_semi_sum r / (INR (length r) - 1)
    /\ variance r = (rsum (map (fun x => x^2) r) - INR (length r) * mean r ^ 2) / (INR (length r) - 1)
    /\ (variance r = 0 <-> forall x, In x r -> x = mean r).
Proof.
  intros r Hn. assert (H2: 2 <= INR (length r)) by (apply le_INR in Hn; cbn in Hn; lra).
  assert (Hinv: 0 < / (INR (length r) - 1)) by (apply Rinv_0_lt_compat; lra).
  assert (Hms: rsum r = INR (length r) * mean r) by (unfold mean, len; field; lra).
  unfold variance, len. split; [|split; [|split; [|split; [|split; [|split]]]]].
  - apply Rmult_le_pos; [apply so_nonneg; intros; apply pow2_ge_0|lra].
  - intros c. rewrite map_length. f_equal. rewrite so_map. apply so_ext. intros x _.
    assert (Em: mean (map (fun x => x + c) r) = mean r + c).
    { unfold mean, len. rewrite map_length. change (rsum (map (fun x => x + c) r)) with (sum_over r (fun x => x + c)).
      rewrite so_add, so_id, so_const. field. lra. }
    rewrite Em. ring.
  - intros c. rewrite map_length.
    assert (Em: mean (map (fun x => c * x) r) = c * mean r).
    { unfold mean, len. rewrite map_length. change (rsum (map (fun x => c * x) r)) with (sum_over r (fun x => c * x)).
      rewrite so_scal, so_id. field. lra. }
    rewrite so_map, Em. rewrite (so_ext _ (fun x => c^2 * (x - mean r)^2)) by (intros; ring). rewrite so_scal. field. lra.
  - intros r' P. rewrite (Permutation_length P).
    assert (Em: mean r' = mean r) by (unfold mean, len; rewrite (rsum_perm _ _ P), (Permutation_length P); reflexivity).
    rewrite Em, (so_perm _ _ _ P). reflexivity.
  - unfold semi_variance, upper_semi_sum, target, len.
    rewrite (so_ext (fun x => (x - mean r)^2) (fun x => Rmin 0 (x - mean r)^2 + Rmax 0 (x - mean r)^2)).
    2:{ intros x _. unfold Rmin, Rmax. destruct (Rle_dec 0 (x - mean r)); ring. }
    rewrite so_add. field. lra.
  - f_equal. rewrite (so_ext _ (fun x => x^2 - (2 * mean r * x - mean r ^2))) by (intros; ring).
    rewrite so_sub, so_sub, so_scal, so_id, so_const, Hms. change (sum_over r (fun x => x ^ 2)) with (rsum (map (fun x => x^2) r)). ring.
  - split.
    + intros E x Hx. assert (E0: sum_over r (fun x => (x - mean r)^2) = 0).
      { unfold Rdiv in E. destruct (Rmult_integral _ _ E); lra. }
      pose proof (so_nonneg_zero (fun x => (x - mean r)^2) r ltac:(intros; apply pow2_ge_0) E0 x Hx) as Z. cbv beta in Z.
      assert (x - mean r = 0) by (destruct (Req_dec (x - mean r) 0); auto; exfalso; apply (pow_nonzero _ 2 H Z)). lra.
    + intros H. rewrite so_zero; [unfold Rdiv; ring|]. intros x Hx. rewrite (H x Hx). ring.
Qed.
Print Assumptions C15_variance_relations.

(** effective number of assets *)
Theorem C15_effective_number_bounds :
  forall w, (forall x, In x w -> 0 <= x) -> rsum w = 1 ->
    1 <= effective_number_assets w <= INR (length w)
    /\ (effective_number_assets w = INR (length w) <-> forall x, In x w -> x = / INR (length w))
    /\ (effective_number_assets w = 1 <-> exists x, In x w /\ x = 1).
Proof.
  intros w Hw Hs. unfold effective_number_assets. set (q := sum_over w (fun x => x^2)).
  assert (Hq1: q <= 1).
  { rewrite <- Hs, <- so_id. apply so_le. intros x Hx. pose proof (Hw x Hx).
    assert (x <= 1) by (rewrite <- Hs, <- so_id; apply (so_ge_elem (fun x => x) w x); auto). nra. }
  pose proof (so_mean_sq (fun x => x) w) as C. cbv beta in C. rewrite so_id, Hs in C. fold q in C.
  assert (Hne: w <> []) by (intros ->; cbn in Hs; lra).
  assert (Hn: 0 < INR (length w)) by (apply INR_pos; destruct w; [congruence|cbn; lia]).
  assert (Hq0: 0 < q) by nra.
  split; [|split].
  - split.
    + apply Rmult_le_reg_r with q; [lra|]. replace (1 / q * q) with 1 by (field; lra). lra.
    + apply Rmult_le_reg_r with q; [lra|]. replace (1 / q * q) with 1 by (field; lra). lra.
  - set (n := INR (length w)) in *. split.
    + intros E x Hx. assert (Eq: q = / n) by (rewrite <- E; field; lra).
      assert (Z: sum_over w (fun x => (x - / n)^2) = 0).
      { rewrite (so_ext _ (fun x => x^2 - (2 * / n * x - (/ n) ^ 2))) by (intros; ring).
        rewrite so_sub, so_sub, so_scal, so_id, so_const, Hs. fold q n. rewrite Eq. field. lra. }
      pose proof (so_nonneg_zero (fun x => (x - / n)^2) w ltac:(intros; apply pow2_ge_0) Z x Hx) as Z'. cbv beta in Z'.
      assert (x - / n = 0) by (destruct (Req_dec (x - / n) 0); auto; exfalso; apply (pow_nonzero _ 2 H Z')). lra.
    + intros H. assert (Eq: q = / n).
      { unfold q. rewrite (so_ext _ (fun _ => (/ n) ^ 2)) by (intros x Hx; rewrite (H x Hx); reflexivity).
        rewrite so_const. fold n. field. lra. }
      rewrite Eq. field. lra.
  - split.
    + intros E. assert (Eq: q = 1) by (apply Rmult_eq_reg_l with (1 / q); [rewrite E at 2; field; lra|rewrite E; lra]).
      assert (Z: sum_over w (fun x => x - x^2) = 0) by (rewrite so_sub, so_id, Hs; fold q; lra).
      assert (Zn: forall x, In x w -> 0 <= x - x^2).
      { intros x Hx. pose proof (Hw x Hx). assert (x <= 1) by (rewrite <- Hs, <- so_id; apply (so_ge_elem (fun x => x) w x); auto). nra. }
      pose proof (so_nonneg_zero _ _ Zn Z) as Z'.
      assert (Hd: (exists x, In x w /\ x = 1) \/ (forall x, In x w -> x = 0)).
      { clear -Z'. induction w as [|y w IH]; [right; intros x []|].
        destruct (Req_dec y 0) as [->|Hy].
        - destruct IH as [(x&Hx&E)|H]; [intros; apply Z'; right; auto|left; exists x; split; [right|]; auto|].
          right. intros x [<-|Hx]; auto.
        - left. exists y. split; [left; auto|]. specialize (Z' y (or_introl eq_refl)). cbv beta in Z'.
          assert (y * (1 - y) = 0) by lra. apply Rmult_integral in H. lra. }
      destruct Hd as [Hd|Hd]; auto. exfalso. rewrite <- so_id, so_zero in Hs by auto. lra.
    + intros (x&Hx&->). assert (1 <= q).
      { pose proof (so_ge_elem (fun x => x^2) w 1 ltac:(intros; apply pow2_ge_0) Hx) as G. cbv beta in G. fold q in G. lra. }
      replace q with 1 by lra. lra.
Qed.
Print Assumptions C15_effective_number_bounds.

(** skew and kurtosis do not depend on location and scale *)
Theorem C15_skew_kurtosis_invariance :
  forall r, (2 <= length r)%nat -> 0 < variance r ->
    (forall a b, 0 < a -> skew (map (fun x => a * x + b) r) = skew r)
    /\ (forall b, skew (map (fun x => - x + b) r) = - skew r)
    /\ (forall a b, a <> 0 -> kurtosis (map (fun x => a * x + b) r) = kurtosis r)
    /\ ((INR (length r) - 1) / INR (length r))^2 <= kurtosis r.
Proof.
  intros r Hn Hv. assert (H2: 2 <= INR (length r)) by (apply le_INR in Hn; cbn in Hn; lra).
  assert (Em: forall a b, mean (map (fun x => a * x + b) r) = a * mean r + b).
  { intros a b. unfold mean, len. rewrite map_length. change (rsum (map (fun x => a * x + b) r)) with (sum_over r (fun x => a * x + b)).
    rewrite so_add, so_scal, so_id, so_const. field. lra. }
  assert (Ev: forall a b, variance (map (fun x => a * x + b) r) = a^2 * variance r).
  { intros a b. unfold variance, len. rewrite map_length, so_map, Em.
    rewrite (so_ext _ (fun x => a^2 * (x - mean r)^2)) by (intros; ring). rewrite so_scal. field. lra. }
  assert (Esd: forall a b, standard_deviation (map (fun x => a * x + b) r) = Rabs a * standard_deviation r).
  { intros a b. unfold standard_deviation. rewrite Ev, sqrt_mult by (try apply pow2_ge_0; lra). f_equal.
    rewrite <- Rsqr_pow2. apply sqrt_Rsqr_abs. }
  assert (E3: forall a b, third_central_moment (map (fun x => a * x + b) r) = a^3 * third_central_moment r).
  { intros a b. unfold third_central_moment, len. rewrite map_length, so_map, Em.
    rewrite (so_ext _ (fun x => a^3 * (x - mean r)^3)) by (intros; ring). rewrite so_scal. field. lra. }
  assert (E4: forall a b, fourth_central_moment (map (fun x => a * x + b) r) = a^4 * fourth_central_moment r).
  { intros a b. unfold fourth_central_moment, len. rewrite map_length, so_map, Em.
    rewrite (so_ext _ (fun x => a^4 * (x - mean r)^4)) by (intros; ring). rewrite so_scal. field. lra. }
  assert (Hsd: 0 < standard_deviation r) by (apply sqrt_lt_R0; auto).
  split; [|split; [|split]].
  - intros a b Ha. unfold skew. rewrite E3, Esd, Rabs_pos_eq by lra. field. lra.
  - intros b. unfold skew. rewrite (map_ext (fun x => - x + b) (fun x => -1 * x + b)) by (intros; ring).
    rewrite E3, Esd. rewrite Rabs_left by lra. field. lra.
  - intros a b Ha. unfold kurtosis. rewrite E4, Esd.
    replace ((Rabs a * standard_deviation r)^4) with ((Rabs a ^2)^2 * standard_deviation r ^ 4) by ring.
    rewrite pow2_abs. field. split; [lra|auto].
  - unfold kurtosis. replace (standard_deviation r ^ 4) with (variance r ^ 2).
    2:{ unfold standard_deviation. replace (sqrt (variance r) ^ 4) with ((sqrt (variance r) * sqrt (variance r))^2) by ring. rewrite sqrt_sqrt by lra. reflexivity. }
    unfold fourth_central_moment, len. pose proof (so_mean_sq (fun x => (x - mean r)^2) r) as C. cbv beta in C.
    rewrite (so_ext (fun x => ((x - mean r)^2)^2) (fun x => (x - mean r)^4)) in C by (intros; ring).
    set (S4 := sum_over r (fun x => (x - mean r)^4)) in *.
    assert (ES: sum_over r (fun x => (x - mean r)^2) = variance r * (INR (length r) - 1)) by (unfold variance, len; field; lra).
    rewrite ES in C. set (n := INR (length r)) in *. set (v := variance r) in *.
    apply Rmult_le_reg_r with (n^2 * v^2); [apply Rmult_lt_0_compat; nra|].
    replace (((n - 1) / n)^2 * (n^2 * v^2)) with ((v * (n - 1))^2) by (field; lra).
    replace (S4 / n / v^2 * (n^2 * v^2)) with (n * S4) by (field; lra). exact C.
Qed.
Print Assumptions C15_skew_kurtosis_invariance.

Example C15_example : (2 <= length [1; 2; 4])%nat /\ 0 < variance [1; 2; 4] /\ rsum [1/4; 3/4] = 1.
Proof. split; [cbn; lia|]. split; [unfold variance, mean, len, sum_over; cbn; lra|cbn; lra]. Qed.
