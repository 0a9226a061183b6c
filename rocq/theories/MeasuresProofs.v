(** Lemmas about the risk measures. *)
From Coq Require Import Reals Lra Lia List ZArith Permutation Sorting.Sorted.
From Verif Require Import RList MeasuresModel.
Import ListNotations.
Local Open Scope R_scope.

(** what np.partition guarantees *)
Definition partition_ok (partition : list R -> nat -> list R) : Prop :=
  forall r ik, (ik < length r)%nat ->
    Permutation (partition r ik) r
    /\ (forall i, (i < ik)%nat -> nth i (partition r ik) 0 <= nth ik (partition r ik) 0)
    /\ (forall j, (ik < j < length r)%nat -> nth ik (partition r ik) 0 <= nth j (partition r ik) 0).

(** what np.sort guarantees *)
Definition sort_ok (sort : list R -> list R) : Prop :=
  forall r, Permutation (sort r) r /\ StronglySorted Rle (sort r).

Lemma ceilZ_spec x : IZR (ceilZ x) - 1 < x <= IZR (ceilZ x).
Proof.
  unfold ceilZ. rewrite opp_IZR. destruct (base_Int_part (- x)) as [A B]. lra.
Qed.

Lemma tail_index_spec beta n : 0 <= beta < 1 -> (0 < n)%nat ->
  INR (tail_index beta n) < tail_size beta n <= INR (tail_index beta n) + 1 /\ (tail_index beta n < n)%nat
  /\ 0 < tail_size beta n <= INR n.
Proof.
  intros Hb Hn. pose proof (INR_pos n Hn) as Hp.
  assert (Hk: 0 < tail_size beta n <= INR n) by (unfold tail_size; split; nra).
  unfold tail_index. destruct (ceilZ_spec (tail_size beta n)) as [A B].
  assert (Hc: (1 <= ceilZ (tail_size beta n))%Z).
  { apply le_IZR. assert (0 < IZR (ceilZ (tail_size beta n))) by lra. apply lt_IZR in H.
    apply IZR_le. lia. }
  rewrite Z.max_r by lia.
  assert (E: INR (Z.to_nat (ceilZ (tail_size beta n) - 1)) = IZR (ceilZ (tail_size beta n)) - 1).
  { rewrite INR_IZR_INZ, Z2Nat.id by lia. rewrite minus_IZR. reflexivity. }
  split; [rewrite E; lra|]. split; [|exact Hk].
  apply INR_lt. rewrite E. lra.
Qed.

Lemma tail_index_one n : tail_index 1 n = 0%nat.
Proof.
  unfold tail_index, tail_size. destruct (ceilZ_spec ((1 - 1) * INR n)) as [A B].
  assert (ceilZ ((1 - 1) * INR n) < 1)%Z by (apply lt_IZR; replace ((1-1) * INR n) with 0 in * by ring; lra).
  rewrite Z.max_l by lia. reflexivity.
Qed.

(** splitting a partitioned sample *)
Lemma partition_split partition r ik : partition_ok partition -> (ik < length r)%nat ->
  exists a x b, partition r ik = a ++ x :: b /\ length a = ik /\ nth ik (partition r ik) 0 = x
    /\ Permutation (a ++ x :: b) r /\ (forall y, In y a -> y <= x) /\ (forall y, In y b -> x <= y).
Proof.
  intros Hok Hik. destruct (Hok r ik Hik) as (P&L&U). set (p := partition r ik) in *. clearbody p.
  pose proof (Permutation_length P) as Hl.
  destruct (@nth_split R ik p 0 ltac:(lia)) as (a&b&E&La).
  exists a, (nth ik p 0), b. split; [exact E|]. split; [exact La|]. split; [reflexivity|].
  split; [rewrite <- E; exact P|]. split.
  - intros y Hy. destruct (In_nth a y 0 Hy) as (i&Hi&Ei). specialize (L i ltac:(lia)).
    rewrite E in L at 1. rewrite app_nth1, Ei in L by lia. exact L.
  - intros y Hy. destruct (In_nth b y 0 Hy) as (j&Hj&Ej).
    assert (Hlp: length p = (ik + S (length b))%nat) by (rewrite E at 1; rewrite app_length; cbn; lia).
    specialize (U (ik + S j)%nat ltac:(lia)).
    rewrite E in U at 2. rewrite app_nth2 in U by lia. replace (ik + S j - length a)%nat with (S j) in U by lia.
    cbn [nth] in U. rewrite Ej in U. exact U.
Qed.

Section WithPartition.
  Variable partition : list R -> nat -> list R.
  Hypothesis Hpart : partition_ok partition.
  Notation var := (value_at_risk partition).
  Notation cv := (cvar partition).

  (** Rockafellar-Uryasev objective *)
  Definition ru (r : list R) (beta t : R) : R := t + sum_over r (fun x => Rmax (- x - t) 0) / len r / (1 - beta).

  Lemma ru_k r beta t : r <> [] -> 0 <= beta < 1 ->
    ru r beta t = t + sum_over r (fun x => Rmax (- x - t) 0) / tail_size beta (length r).
  Proof.
    clear. intros Hr Hb. unfold ru, tail_size, len.
    assert (0 < INR (length r)) by (apply INR_pos; destruct r; [congruence|cbn; lia]).
    field. lra.
  Qed.

  Lemma cvar_split r beta : r <> [] -> 0 <= beta < 1 ->
    exists a x b k, Permutation (a ++ x :: b) r /\ (forall y, In y a -> y <= x) /\ (forall y, In y b -> x <= y)
      /\ k = tail_size beta (length r) /\ 0 < k /\ len a < k <= len a + 1
      /\ var r beta = - x /\ cv r beta = (sum_over a Ropp + (k - len a) * - x) / k.
  Proof.
    intros Hr Hb. assert (Hn: (0 < length r)%nat) by (destruct r; [congruence|cbn; lia]).
    destruct (tail_index_spec beta (length r) Hb Hn) as (K1&K2&K3).
    destruct (partition_split partition r _ Hpart K2) as (a&x&b&E&La&Ex&P&Ha&Hbb).
    exists a, x, b, (tail_size beta (length r)). split; [exact P|]. split; [exact Ha|]. split; [exact Hbb|].
    split; [reflexivity|]. split; [lra|]. unfold len. rewrite La. split; [lra|].
    unfold value_at_risk, cvar. rewrite Ex. split; [reflexivity|].
    rewrite E, <- La, firstn_app, Nat.sub_diag, firstn_all. cbn [firstn]. rewrite app_nil_r.
    rewrite La. rewrite (so_opp (fun x => x)), so_id. field. lra.
  Qed.

  Lemma cvar_ru_attained r beta : r <> [] -> 0 <= beta < 1 -> cv r beta = ru r beta (var r beta).
  Proof.
    intros Hr Hb. rewrite ru_k by auto. destruct (cvar_split r beta Hr Hb) as (a&x&b&k&P&Ha&Hbb&Ek&Hk&Hka&Ev&Ec).
    rewrite Ev, Ec, <- Ek, <- (so_perm _ _ _ P), so_app, so_cons.
    rewrite (so_ext (fun y => Rmax (- y - - x) 0) (fun y => - y + x) a).
    2:{ intros y Hy. specialize (Ha y Hy). rewrite Rmax_left by lra. lra. }
    rewrite (so_zero (fun y => Rmax (- y - - x) 0) b).
    2:{ intros y Hy. specialize (Hbb y Hy). apply Rmax_right. lra. }
    rewrite Rmax_left by lra. rewrite so_add, so_const. unfold len in *. field. lra.
  Qed.

  Lemma cvar_ru_lower r beta t : r <> [] -> 0 <= beta < 1 -> cv r beta <= ru r beta t.
  Proof.
    intros Hr Hb. rewrite ru_k by auto. destruct (cvar_split r beta Hr Hb) as (a&x&b&k&P&Ha&Hbb&Ek&Hk&Hka&Ev&Ec).
    rewrite Ec, <- Ek, <- (so_perm _ _ _ P), so_app, so_cons.
    assert (A1: sum_over a (fun y => - y - t) <= sum_over a (fun y => Rmax (- y - t) 0)) by (apply so_le; intros; apply Rmax_l).
    assert (A2: 0 <= sum_over b (fun y => Rmax (- y - t) 0)) by (apply so_nonneg; intros; apply Rmax_r).
    assert (A3: (k - len a) * (- x - t) <= Rmax (- x - t) 0).
    { unfold Rmax. destruct (Rle_dec (- x - t) 0); unfold len in *; nra. }
    rewrite so_sub, so_const in A1. unfold len in *.
    apply Rmult_le_reg_r with k; [lra|].
    replace ((sum_over a Ropp + (k - INR (length a)) * - x) / k * k) with (sum_over a Ropp + (k - INR (length a)) * - x) by (field; lra).
    match goal with |- _ <= (t + ?s / k) * k => replace ((t + s / k) * k) with (t * k + s) by (field; lra) end.
    lra.
  Qed.

  Lemma cvar_unique r beta v : r <> [] -> 0 <= beta < 1 ->
    (exists t, ru r beta t = v) -> (forall t, v <= ru r beta t) -> cv r beta = v.
  Proof.
    intros Hr Hb (t&Et) Hl. apply Rle_antisym.
    - rewrite <- Et. apply cvar_ru_lower; auto.
    - rewrite cvar_ru_attained by auto. apply Hl.
  Qed.

  (** weights on a permuted list *)
  Lemma perm_weights (l l' : list R) : Permutation l l' -> forall q : list R, length q = length l ->
    exists q', length q' = length l' /\ Permutation (combine l q) (combine l' q').
  Proof.
    clear. induction 1 as [|x l l' H IH|x y l|l1 l2 l3 H1 IH1 H2 IH2]; intros q Hq.
    - exists []. destruct q; [split; constructor|discriminate].
    - destruct q as [|c q]; [discriminate|]. destruct (IH q ltac:(cbn in Hq; lia)) as (q'&L&P).
      exists (c :: q'). split; cbn; [lia|]. constructor. exact P.
    - destruct q as [|c [|d q]]; try discriminate. exists (d :: c :: q). split; [cbn in *; lia|]. cbn. apply perm_swap.
    - destruct (IH1 q Hq) as (q1&L1&P1). destruct (IH2 q1 L1) as (q2&L2&P2). exists q2. split; auto.
      eapply perm_trans; eauto.
  Qed.

  Lemma combine_repeat_l (l : list R) (c : R) : combine l (repeat c (length l)) = map (fun x => (x, c)) l.
  Proof. clear. induction l as [|x l IH]; cbn; [reflexivity|]. rewrite IH. reflexivity. Qed.

  Lemma combine_app' {A B} (l1 l2 : list A) (m1 m2 : list B) : length l1 = length m1 ->
    combine (l1 ++ l2) (m1 ++ m2) = combine l1 m1 ++ combine l2 m2.
  Proof.
    clear. revert m1. induction l1 as [|x l1 IH]; intros [|y m1] H; try discriminate; cbn; [reflexivity|].
    rewrite IH; [reflexivity|]. cbn in H. lia.
  Qed.
  Lemma map_snd_combine {A B} (l : list A) (m : list B) : length l = length m -> map snd (combine l m) = m.
  Proof. clear. revert m. induction l; intros [|y m] H; try discriminate; cbn; [reflexivity|]. f_equal. apply IHl. cbn in H; lia. Qed.

  (** the worst-case weights attaining CVaR *)
  Lemma cvar_dual_attained r beta : r <> [] -> 0 <= beta < 1 ->
    exists q, length q = length r /\ (forall c, In c q -> 0 <= c <= 1 / ((1 - beta) * len r)) /\ rsum q = 1
      /\ cv r beta = sum_over (combine r q) (fun p => snd p * - fst p).
  Proof.
    intros Hr Hb. destruct (cvar_split r beta Hr Hb) as (a&x&b&k&P&Ha&Hbb&Ek&Hk&Hka&Ev&Ec).
    set (q0 := repeat (1/k) (length a) ++ ((k - len a)/k) :: repeat 0 (length b)).
    assert (Hq0: length q0 = length (a ++ x :: b)).
    { unfold q0. rewrite !app_length. cbn [length]. rewrite !repeat_length. reflexivity. }
    destruct (perm_weights _ _ P q0 Hq0) as (q&Lq&Pq). exists q. split; [exact Lq|].
    assert (Pq0: Permutation q0 q).
    { rewrite <- (map_snd_combine (a ++ x :: b) q0), <- (map_snd_combine r q) by auto. apply Permutation_map. exact Pq. }
    assert (Hx: 0 <= (k - len a)/k <= 1/k).
    { split; [apply Rmult_le_pos; [lra|left; apply Rinv_0_lt_compat; lra]|].
      apply Rmult_le_compat_r; [left; apply Rinv_0_lt_compat; lra|lra]. }
    assert (H1k: 0 < 1/k) by (apply Rdiv_lt_0_compat; lra).
    split; [|split].
    - intros c Hc. replace ((1 - beta) * len r) with k by (rewrite Ek; reflexivity).
      apply (Permutation_in _ (Permutation_sym Pq0)) in Hc. unfold q0 in Hc. apply in_app_or in Hc.
      destruct Hc as [Hc|[<-|Hc]]; [apply repeat_spec in Hc; subst; lra|exact Hx|apply repeat_spec in Hc; subst; lra].
    - rewrite <- (rsum_perm _ _ Pq0). unfold q0. rewrite rsum_app, rsum_cons.
      assert (HR: forall c m, rsum (repeat c m) = INR m * c).
      { intros c m. induction m as [|m IH]; [cbn; lra|]. cbn [repeat]. rewrite rsum_cons, IH, S_INR. ring. }
      rewrite !HR. unfold len. field. lra.
    - rewrite <- (so_perm _ _ _ Pq). unfold q0. rewrite combine_app' by (rewrite repeat_length; reflexivity).
      cbn [combine]. rewrite so_app, so_cons, !combine_repeat_l, !so_map. cbn [fst snd].
      rewrite (so_zero (fun y => 0 * - y) b) by (intros; lra).
      rewrite so_scal, Ec. field. lra.
  Qed.

  Lemma so_combine_snd (r q : list R) f : length q = length r -> sum_over (combine r q) (fun p => f (snd p)) = sum_over q f.
  Proof. clear. intros H. rewrite <- (map_snd_combine r q) at 2 by auto. rewrite so_map. reflexivity. Qed.
  Lemma map_fst_combine {A B} (l : list A) (m : list B) : length l = length m -> map fst (combine l m) = l.
  Proof. clear. revert m. induction l; intros [|y m] H; try discriminate; cbn; [reflexivity|]. f_equal. apply IHl. cbn in H; lia. Qed.
  Lemma so_combine_fst (r q : list R) f : length q = length r -> sum_over (combine r q) (fun p => f (fst p)) = sum_over r f.
  Proof. clear. intros H. rewrite <- (map_fst_combine r q) at 2 by auto. rewrite so_map. reflexivity. Qed.

  Lemma cvar_dual_upper r beta q : r <> [] -> 0 <= beta < 1 -> length q = length r ->
    (forall c, In c q -> 0 <= c <= 1 / ((1 - beta) * len r)) -> rsum q = 1 ->
    sum_over (combine r q) (fun p => snd p * - fst p) <= cv r beta.
  Proof.
    intros Hr Hb Lq Hq Hs. rewrite cvar_ru_attained by auto. set (t := var r beta). rewrite ru_k by auto.
    set (k := tail_size beta (length r)) in *.
    assert (Hk: (1 - beta) * len r = k) by reflexivity. rewrite Hk in Hq.
    assert (E: sum_over (combine r q) (fun p => snd p * - fst p) = t + sum_over (combine r q) (fun p => snd p * (- fst p - t))).
    { rewrite (so_ext (fun p : R * R => snd p * (- fst p - t)) (fun p => snd p * - fst p - t * snd p)) by (intros; ring).
      rewrite so_sub, so_scal. unfold sum_over at 3. rewrite map_snd_combine, Hs by auto. ring. }
    rewrite E. apply Rplus_le_compat_l.
    rewrite <- (so_combine_fst r q (fun x => Rmax (- x - t) 0)) by auto.
    unfold Rdiv. rewrite <- so_scal_r. apply so_le. intros [x c] Hi. cbn [fst snd].
    assert (Hc: In c q) by (apply in_combine_r in Hi; exact Hi). specialize (Hq c Hc).
    unfold Rdiv in Hq. rewrite Rmult_1_l in Hq. unfold Rmax. destruct (Rle_dec (- x - t) 0); nra.
  Qed.
End WithPartition.

Lemma minR_spec l : l <> [] -> In (minR l) l /\ forall y, In y l -> minR l <= y.
Proof.
  destruct l as [|x l]; [congruence|]. intros _. cbn [minR].
  assert (G: forall l x, (In (fold_left Rmin l x) l \/ fold_left Rmin l x = x) /\ fold_left Rmin l x <= x
                        /\ forall y, In y l -> fold_left Rmin l x <= y).
  { clear. induction l as [|z l IH]; intros x; cbn [fold_left].
    - split; [auto|]. split; [lra|]. intros y [].
    - destruct (IH (Rmin x z)) as (A&B&C). pose proof (Rmin_l x z). pose proof (Rmin_r x z). split; [|split].
      + destruct A as [A|A]; [left; right; auto|]. rewrite A. unfold Rmin. destruct (Rle_dec x z); [right; auto|left; left; auto].
      + lra.
      + intros y [<-|Hy]; [lra|auto]. }
  destruct (G l x) as (A&B&C). split; [destruct A as [A|A]; [right; auto|left; auto]|].
  intros y [<-|Hy]; auto.
Qed.
Lemma maxR_spec l : l <> [] -> In (maxR l) l /\ forall y, In y l -> y <= maxR l.
Proof.
  destruct l as [|x l]; [congruence|]. intros _. cbn [maxR].
  assert (G: forall l x, (In (fold_left Rmax l x) l \/ fold_left Rmax l x = x) /\ x <= fold_left Rmax l x
                        /\ forall y, In y l -> y <= fold_left Rmax l x).
  { clear. induction l as [|z l IH]; intros x; cbn [fold_left].
    - split; [auto|]. split; [lra|]. intros y [].
    - destruct (IH (Rmax x z)) as (A&B&C). pose proof (Rmax_l x z). pose proof (Rmax_r x z). split; [|split].
      + destruct A as [A|A]; [left; right; auto|]. rewrite A. unfold Rmax. destruct (Rle_dec x z); [left; left; auto|right; auto].
      + lra.
      + intros y [<-|Hy]; [lra|auto]. }
  destruct (G l x) as (A&B&C). split; [destruct A as [A|A]; [right; auto|left; auto]|].
  intros y [<-|Hy]; auto.
Qed.

(** * Entropic bound *)
Lemma exp_ineq x : 1 + x <= exp x.
Proof. destruct (Req_dec x 0) as [->|H]; [rewrite exp_0; lra|left; apply exp_ineq1; auto]. Qed.

Lemma entropic_dual (r q : list R) theta k : 0 < theta -> 0 < k -> r <> [] -> length q = length r ->
  (forall c, In c q -> 0 <= c <= 1/k) -> rsum q = 1 ->
  sum_over (combine r q) (fun p => snd p * - fst p) <= theta * ln (sum_over r (fun x => exp (- x / theta)) / k).
Proof.
  intros Ht Hk Hr Lq Hq Hs.
  set (M := sum_over (combine r q) (fun p => snd p * exp (- fst p / theta))).
  assert (HM: M <= sum_over r (fun x => exp (- x / theta)) / k).
  { unfold M. rewrite <- (so_combine_fst r q) by auto. unfold Rdiv at 2. rewrite <- so_scal_r. apply so_le.
    intros [x c] Hi. cbn [fst snd]. apply in_combine_r in Hi. specialize (Hq c Hi).
    pose proof (exp_pos (- x / theta)). unfold Rdiv in *. rewrite Rmult_1_l in Hq. nra. }
  assert (HM0: 0 < M).
  { destruct (Rlt_dec 0 M) as [H|H]; auto. exfalso.
    assert (HMz: M = 0).
    { apply Rle_antisym; [lra|]. apply so_nonneg. intros [x c] Hi. cbn [fst snd]. apply in_combine_r in Hi. specialize (Hq c Hi).
      pose proof (exp_pos (- x / theta)). nra. }
    assert (Hz: rsum q = 0).
    { rewrite <- so_id, <- (so_combine_snd r q) by auto. apply so_zero. intros [x c] Hi. cbn [snd].
      pose proof (so_nonneg_zero (fun p : R * R => snd p * exp (- fst p / theta)) (combine r q)) as Z.
      assert (Z': c * exp (- x / theta) = 0).
      { apply (Z ltac:(intros [x' c'] Hi'; cbn [fst snd]; apply in_combine_r in Hi'; specialize (Hq c' Hi'); pose proof (exp_pos (- x' / theta)); nra) HMz (x,c) Hi). }
      pose proof (exp_pos (- x / theta)). nra. }
    lra. }
  apply Rle_trans with (theta * ln M).
  - (* weighted Jensen through exp y >= 1 + y *)
    assert (J: sum_over (combine r q) (fun p => snd p * (1 + (- fst p / theta - ln M))) <= 1).
    { assert (E1: sum_over (combine r q) (fun p => snd p * exp (- fst p / theta) * / M) = 1) by (rewrite so_scal_r; fold M; field; lra).
      eapply Rle_trans; [|right; exact E1]. apply so_le.
      intros [x c] Hi. cbn [fst snd]. apply in_combine_r in Hi. specialize (Hq c Hi).
      pose proof (exp_ineq (- x / theta - ln M)) as He. unfold Rminus in He. rewrite exp_plus, exp_Ropp, exp_ln in He by auto.
      rewrite Rmult_assoc. apply Rmult_le_compat_l; [lra|]. exact He. }
    rewrite (so_ext _ (fun p => snd p * (1 - ln M) + / theta * (snd p * - fst p))) in J by (intros; field; lra).
    rewrite so_add, so_scal_r, so_scal in J. unfold sum_over at 1 in J. rewrite map_snd_combine, Hs in J by auto.
    set (Sx := sum_over (combine r q) (fun p => snd p * - fst p)) in *.
    assert (J2: / theta * Sx <= ln M) by lra.
    apply Rmult_le_compat_l with (r := theta) in J2; [|lra].
    rewrite <- Rmult_assoc, Rinv_r, Rmult_1_l in J2 by lra. exact J2.
  - apply Rmult_le_compat_l; [lra|].
    destruct HM as [HM|HM]; [left; apply ln_increasing; auto|right; rewrite HM; reflexivity].
Qed.

(** * Running sums, products, maxima *)
Lemma scan_length f l : forall acc, length (scan f acc l) = length l.
Proof. induction l; intros; cbn; auto. Qed.
Lemma accumulate_length f l : length (accumulate f l) = length l.
Proof. destruct l; cbn; auto. rewrite scan_length. auto. Qed.
Lemma scan_nth f l : forall acc j d, (j < length l)%nat -> nth j (scan f acc l) d = fold_left f (firstn (S j) l) acc.
Proof.
  induction l as [|x l IH]; intros acc j d Hj; cbn [length] in Hj; [lia|].
  destruct j; [reflexivity|]. change (nth (S j) (scan f acc (x :: l)) d) with (nth j (scan f (f acc x) l) d).
  rewrite IH by lia. reflexivity.
Qed.
Lemma accumulate_max l j d : (j < length l)%nat -> nth j (accumulate Rmax l) d = maxR (firstn (S j) l).
Proof.
  destruct l as [|x l]; cbn [length]; intros H; [lia|]. destruct j; [reflexivity|].
  change (nth (S j) (accumulate Rmax (x :: l)) d) with (nth j (scan Rmax x l) d).
  rewrite scan_nth by lia. reflexivity.
Qed.
Lemma fold_left_plus l : forall a, fold_left Rplus l a = a + rsum l.
Proof. induction l as [|x l IH]; intros a; cbn [fold_left]; rewrite ?rsum_nil, ?rsum_cons; [lra|]. rewrite IH. lra. Qed.
Definition rprod (l : list R) : R := fold_right Rmult 1 l.
Lemma fold_left_mult l : forall a, fold_left Rmult l a = a * rprod l.
Proof. unfold rprod. induction l as [|x l IH]; intros a; cbn [fold_left fold_right]; [ring|]. rewrite IH. ring. Qed.
Lemma accumulate_plus l j d : (j < length l)%nat -> nth j (accumulate Rplus l) d = rsum (firstn (S j) l).
Proof.
  destruct l as [|x l]; cbn [length]; intros H; [lia|]. destruct j; [cbn; lra|].
  change (nth (S j) (accumulate Rplus (x :: l)) d) with (nth j (scan Rplus x l) d).
  rewrite scan_nth by lia. rewrite fold_left_plus. reflexivity.
Qed.
Lemma accumulate_mult l j d : (j < length l)%nat -> nth j (accumulate Rmult l) d = rprod (firstn (S j) l).
Proof.
  destruct l as [|x l]; cbn [length]; intros H; [lia|]. destruct j; [cbn; lra|].
  change (nth (S j) (accumulate Rmult (x :: l)) d) with (nth j (scan Rmult x l) d).
  rewrite scan_nth by lia. rewrite fold_left_mult. reflexivity.
Qed.
Lemma firstn_In_nth (l : list R) n y : In y (firstn n l) -> exists i, (i < n)%nat /\ (i < length l)%nat /\ nth i l 0 = y.
Proof.
  intros H. destruct (In_nth _ _ 0 H) as (i&Hi&E). rewrite firstn_length in Hi.
  exists i. split; [lia|]. split; [lia|]. rewrite <- E, nth_firstn || idtac.
  rewrite <- E. rewrite <- (firstn_skipn n l) at 1. rewrite app_nth1; [reflexivity|]. rewrite firstn_length. lia.
Qed.
Lemma nth_In_firstn (l : list R) n i : (i < n)%nat -> (i < length l)%nat -> In (nth i l 0) (firstn n l).
Proof.
  intros H1 H2. rewrite <- (firstn_skipn n l) at 1. rewrite app_nth1 by (rewrite firstn_length; lia).
  apply nth_In. rewrite firstn_length. lia.
Qed.

Lemma running_max c j : (j < length c)%nat ->
  (exists i, (i <= j)%nat /\ maxR (firstn (S j) c) = nth i c 0) /\ (forall i, (i <= j)%nat -> nth i c 0 <= maxR (firstn (S j) c)).
Proof.
  intros Hj. assert (Hne: firstn (S j) c <> []) by (destruct c; cbn in *; [lia|discriminate]).
  destruct (maxR_spec _ Hne) as [A B]. split.
  - destruct (firstn_In_nth _ _ _ A) as (i&H1&H2&E). exists i. split; [lia|auto].
  - intros i Hi. apply B. apply nth_In_firstn; lia.
Qed.

Lemma cumulative_length r b : length (get_cumulative_returns r b) = length r.
Proof. unfold get_cumulative_returns. destruct b; rewrite ?map_length, accumulate_length, ?map_length; reflexivity. Qed.
Lemma drawdowns_length r b : length (get_drawdowns r b) = length r.
Proof.
  unfold get_drawdowns. destruct b; rewrite map_length, combine_length, accumulate_length, cumulative_length, Nat.min_id; reflexivity.
Qed.
Lemma cumulative_nth_simple r j : (j < length r)%nat -> nth j (get_cumulative_returns r false) 0 = rsum (firstn (S j) r).
Proof. intros. apply accumulate_plus. auto. Qed.
Lemma cumulative_nth_comp r j : (j < length r)%nat ->
  nth j (get_cumulative_returns r true) 0 = 1000 * rprod (firstn (S j) (map (fun x => 1 + x) r)).
Proof.
  intros H. unfold get_cumulative_returns. rewrite nth_indep with (d' := 1000 * 0) by (rewrite map_length, accumulate_length, map_length; auto).
  rewrite (map_nth (fun x => 1000 * x)), accumulate_mult by (rewrite map_length; auto). reflexivity.
Qed.
Lemma nth_map_combine (f : R * R -> R) (a b : list R) j : (j < length a)%nat -> (j < length b)%nat ->
  nth j (map f (combine a b)) 0 = f (nth j a 0, nth j b 0).
Proof.
  intros Ha Hb. rewrite nth_indep with (d' := f (0,0)) by (rewrite map_length, combine_length; lia).
  rewrite map_nth. f_equal. revert b j Ha Hb. induction a as [|x a IH]; intros [|y b] [|j] Ha Hb; cbn in *; try lia; auto.
  apply IH; lia.
Qed.
Lemma drawdowns_nth r b j : (j < length r)%nat ->
  nth j (get_drawdowns r b) 0 =
    let c := get_cumulative_returns r b in
    if b then nth j c 0 / maxR (firstn (S j) c) - 1 else nth j c 0 - maxR (firstn (S j) c).
Proof.
  intros H. unfold get_drawdowns. pose proof (cumulative_length r b) as Hc.
  destruct b; cbv zeta; rewrite nth_map_combine by (rewrite ?accumulate_length; lia); cbn [fst snd];
    rewrite accumulate_max by lia; reflexivity.
Qed.

Section MaxDD.
  Variable partition : list R -> nat -> list R.
  Hypothesis Hpart : partition_ok partition.
  Lemma max_drawdown_min d : d <> [] -> max_drawdown partition d = - minR d.
  Proof.
    intros Hd. unfold max_drawdown, drawdown_at_risk, value_at_risk. rewrite tail_index_one.
    assert (Hn: (0 < length d)%nat) by (destruct d; [congruence|cbn; lia]).
    destruct (partition_split partition d 0 Hpart Hn) as (a&x&b&E&La&Ex&P&_&Hb). rewrite Ex.
    destruct a; [|discriminate]. cbn [app] in *. destruct (minR_spec d Hd) as [A B].
    f_equal. apply Rle_antisym.
    - apply (Permutation_in _ (Permutation_sym P)) in A. destruct A as [<-|A]; [lra|auto].
    - apply B. apply (Permutation_in _ P). left; auto.
  Qed.
End MaxDD.

(** * Gini *)
Definition pair_sum (l : list R) : R := sum_over l (fun x => sum_over l (fun y => Rabs (x - y))).
Lemma pair_sum_perm a b : Permutation a b -> pair_sum a = pair_sum b.
Proof.
  intros H. unfold pair_sum. rewrite (so_perm _ _ _ H). apply so_ext. intros x _. apply so_perm. exact H.
Qed.
Lemma pair_sum_cons x l : (forall y, In y l -> x <= y) ->
  pair_sum (x :: l) = pair_sum l + 2 * (rsum l - INR (length l) * x).
Proof.
  intros H. unfold pair_sum. rewrite !so_cons. rewrite Rminus_diag_eq, Rabs_R0 by reflexivity.
  rewrite (so_ext (fun x0 => sum_over (x :: l) (fun y => Rabs (x0 - y)))
             (fun x0 => (x0 - x) + sum_over l (fun y => Rabs (x0 - y)))).
  2:{ intros y Hy. rewrite so_cons. rewrite Rabs_pos_eq; [reflexivity|]. specialize (H y Hy). lra. }
  rewrite so_add, so_sub, so_id, so_const.
  rewrite (so_ext (fun y => Rabs (x - y)) (fun y => y - x) l).
  2:{ intros y Hy. rewrite Rabs_minus_sym, Rabs_pos_eq; [reflexivity|]. specialize (H y Hy). lra. }
  rewrite so_sub, so_id, so_const. ring.
Qed.
Definition owa_raw (n : nat) (l : list R) : R :=
  sum_over (combine (map (fun i => 4 * INR i - 2 * (INR n + 1)) (seq 1 n)) l) (fun p => fst p * snd p).
Lemma combine_map_l {A B C} (g : A -> B) (l : list A) (m : list C) :
  combine (map g l) m = map (fun p => (g (fst p), snd p)) (combine l m).
Proof. revert m. induction l; intros [|y m]; cbn; auto. f_equal. apply IHl. Qed.
Lemma owa_raw_sorted l : StronglySorted Rle l -> owa_raw (length l) l = pair_sum l.
Proof.
  induction l as [|x l IH]; intros Hs; [reflexivity|].
  inversion Hs as [|? ? Hs' Hf]; subst. rewrite pair_sum_cons.
  2:{ intros y Hy. apply (proj1 (Forall_forall _ _) Hf y Hy). }
  rewrite <- IH by auto. unfold owa_raw. cbn [length seq map combine]. rewrite so_cons. cbn [fst snd].
  rewrite <- seq_shift, map_map, !combine_map_l, !so_map. cbn [fst snd].
  rewrite (so_ext (fun x0 : nat * R => (4 * INR (S (fst x0)) - 2 * (INR (S (length l)) + 1)) * snd x0)
             (fun x0 => (4 * INR (fst x0) - 2 * (INR (length l) + 1)) * snd x0 + 2 * snd x0)).
  2:{ intros. rewrite !S_INR. ring. }
  rewrite so_add, so_scal. unfold sum_over at 2. rewrite map_snd_combine by (rewrite seq_length; auto).
  rewrite !S_INR. change (INR 0) with 0. ring.
Qed.
Lemma gini_pair sort r : sort_ok sort -> (2 <= length r)%nat ->
  gini_mean_difference sort r = pair_sum r / (len r * (len r - 1)).
Proof.
  intros Hs Hn. destruct (Hs r) as [P S]. unfold gini_mean_difference.
  pose proof (Permutation_length P) as Hl.
  assert (Hlen: 2 <= len r) by (unfold len; apply le_INR in Hn; cbn in Hn; lra).
  rewrite <- (pair_sum_perm _ _ P), <- (owa_raw_sorted _ S). unfold owa_raw, owa_gmd_weights. rewrite Hl.
  rewrite !combine_map_l, !so_map. cbn [fst snd].
  rewrite (so_ext _ (fun x : nat * R => (4 * INR (fst x) - 2 * (INR (length r) + 1)) * snd x * / (len r * (len r - 1)))).
  2:{ intros. unfold len in *. field. lra. }
  rewrite so_scal_r. reflexivity.
Qed.
