(** C83: the block length [stationary_bootstrap] uses by default.

    The specification writes the Politis-White rule with explicit sums over the
    observations; nothing of it uses the model. *)
From Coq Require Import List ZArith Bool Arith Reals Lra Lia Permutation Sorted.
From Verif Require Import RList ReturnsModel ReturnsProps BlockSizeModel.
Import ListNotations.
Local Open Scope R_scope.

(** * Specification *)
Section Spec.
  Variable x : list R.
  Definition obs : nat := length x.
  Definition centre : R := sum_over (seq 0 obs) (fun t => nth t x 0) / INR obs.
  Definition dev (t : nat) : R := nth t x 0 - centre.
  (** the autocovariance at lag k *)
  Definition autocovariance (k : nat) : R := sum_over (seq 0 (obs - k)) (fun t => dev t * dev (t + k)) / INR obs.
  (** the sum of squares without the last, and without the first, k + 1 observations *)
  Definition head_squares (k : nat) : R := sum_over (seq 0 (obs - (k + 1))) (fun t => dev t ^ 2).
  Definition tail_squares (k : nat) : R := sum_over (seq (k + 1) (obs - (k + 1))) (fun t => dev t ^ 2).
  (** the lag is not significant: its autocorrelation is below 2 sqrt(log10(n) / n) *)
  Definition insignificant (k : nat) : Prop :=
    0 < head_squares k * tail_squares k /\
    Rabs (INR obs * autocovariance k) < 2 * sqrt (ln (INR obs) / ln 10 / INR obs) * sqrt (head_squares k * tail_squares k).
  (** the K lags from m on are not significant *)
  Definition quiet (K m : nat) : Prop := forall j, (j < K)%nat -> insignificant (m + j).
End Spec.
(** the number of lags to test: 5 below a million observations, the integer part of log10(n) above *)
Definition tested_lags (n : nat) (K : nat) : Prop :=
  ((Z.of_nat n < 10 ^ 6)%Z -> K = 5%nat) /\
  ((10 ^ 6 <= Z.of_nat n)%Z -> (10 ^ Z.of_nat K <= Z.of_nat n < 10 ^ (Z.of_nat K + 1))%Z).
(** the smallest integer whose square reaches n *)
Definition sqrt_above (n s : nat) : Prop := (n <= s * s)%nat /\ forall r, (n <= r * r)%nat -> (s <= r)%nat.
(** the truncation lag M: twice the first m followed by K quiet lags, at most s + K; s + K if there is none *)
Definition truncation (x : list R) (K s M : nat) : Prop :=
  (exists m, (1 <= m <= s)%nat /\ quiet x K m /\ (forall j, (j < m)%nat -> ~ quiet x K j) /\ M = Nat.min (2 * m) (s + K)) \/
  ((forall m, (m <= s)%nat -> ~ quiet x K m) /\ M = (s + K)%nat).
(** the flat-top window: 1 up to one half, then linear down to 0 at 1 *)
Definition flat_top (r : R) : R := Rmin 1 (2 * (1 - r)).
Definition weighted_lags (x : list R) (M : nat) : R :=
  sum_over (seq 1 M) (fun k => 2 * flat_top (INR k / INR M) * INR k * autocovariance x k).
Definition long_run_variance (x : list R) (M : nat) : R :=
  autocovariance x 0 + sum_over (seq 1 M) (fun k => 2 * flat_top (INR k / INR M) * autocovariance x k).
(** the largest block: the smaller of 3 sqrt(n) and n / 3, rounded up *)
Definition largest_block (n : nat) (b : R) : Prop :=
  exists z, b = IZR z /\ IZR (z - 1) < Rmin (3 * sqrt (INR n)) (INR n / 3) <= IZR z.
(** the median: the middle of the sorted values, or the middle of the two in the middle *)
Definition is_median (l : list R) (v : R) : Prop :=
  exists s, Permutation l s /\ StronglySorted Rle s /\
    (Nat.Odd (length l) -> nth_error s (length l / 2) = Some v) /\
    (Nat.Even (length l) -> exists a b, nth_error s (length l / 2 - 1) = Some a /\ nth_error s (length l / 2) = Some b /\ v = (a + b) / 2).

(** * Lemmas *)
Lemma ceil_spec r : IZR (ceil r - 1) < r <= IZR (ceil r).
Proof.
  unfold ceil. destruct (base_Int_part (- r)) as [A B]. rewrite minus_IZR, opp_IZR. lra.
Qed.
Lemma ceil_nonneg r : 0 <= r -> (0 <= ceil r)%Z.
Proof. intros H. destruct (ceil_spec r) as [_ A]. apply le_IZR. lra. Qed.
Lemma to_int_spec r : 0 <= r -> INR (to_int r) <= r < INR (to_int r) + 1.
Proof.
  intros H. unfold to_int. destruct (base_Int_part r) as [A B].
  assert (P : (0 <= Int_part r)%Z) by (assert (-1 < Int_part r)%Z by (apply lt_IZR; lra); lia).
  rewrite INR_IZR_INZ, Z2Nat.id by auto. lra.
Qed.
Lemma ln10 : 0 < ln 10.
Proof. rewrite <- ln_1. apply ln_increasing; lra. Qed.
Lemma ln_pow10 k : ln (10 ^ k) = INR k * ln 10.
Proof.
  induction k; [cbn; rewrite ln_1; lra|]. rewrite S_INR. cbn [pow]. rewrite ln_mult; [rewrite IHk; lra|lra|apply pow_lt; lra].
Qed.
Lemma log10_int n : (1 <= n)%nat -> forall k, k = to_int (log10 (INR n)) -> (10 ^ Z.of_nat k <= Z.of_nat n < 10 ^ (Z.of_nat k + 1))%Z.
Proof.
  intros Hn k ->. set (k := to_int (log10 (INR n))). assert (N1 : 1 <= INR n) by (apply INR_ge1; auto).
  assert (L0 : 0 <= ln (INR n)) by (rewrite <- ln_1; destruct (Rle_lt_or_eq_dec _ _ N1) as [G| <-]; [left; apply ln_increasing; lra|lra]).
  assert (P := ln10). destruct (to_int_spec (log10 (INR n))) as [A B].
  { unfold log10. apply Rmult_le_pos; [lra|left; now apply Rinv_0_lt_compat]. }
  fold k in A, B. assert (E : ln (INR n) = log10 (INR n) * ln 10) by (unfold log10; field; lra).
  assert (Q : forall j : nat, IZR (10 ^ Z.of_nat j) = 10 ^ j) by (intros j; symmetry; apply pow_IZR).
  split.
  - apply le_IZR. rewrite Q, <- INR_IZR_INZ. destruct (Rle_dec (10 ^ k) (INR n)) as [G|G]; [auto|]. exfalso.
    assert (ln (INR n) < ln (10 ^ k)) by (apply ln_increasing; lra). rewrite ln_pow10 in H. nra.
  - apply lt_IZR. replace (Z.of_nat k + 1)%Z with (Z.of_nat (S k)) by lia. rewrite Q, <- INR_IZR_INZ.
    destruct (Rlt_dec (INR n) (10 ^ (S k))) as [G|G]; [auto|]. exfalso.
    assert (10 ^ (S k) <= INR n) by lra. assert (ln (10 ^ (S k)) <= ln (INR n)).
    { destruct H as [H|H]; [left; apply ln_increasing; [apply pow_lt; lra|auto]|rewrite H; lra]. }
    rewrite ln_pow10, S_INR in H0. nra.
Qed.
Lemma kn_spec n : (1 <= n)%nat -> tested_lags n (kn_of n).
Proof.
  intros Hn. unfold kn_of. set (k := to_int (log10 (INR n))). assert (S := log10_int n Hn k eq_refl). split; intros H.
  - assert (k < 6)%nat; [|lia]. destruct (Nat.lt_ge_cases k 6) as [|G]; [auto|]. exfalso.
    assert (10 ^ 6 <= 10 ^ Z.of_nat k)%Z by (apply Z.pow_le_mono_r; lia). lia.
  - assert (6 <= k)%nat; [|now replace (Nat.max 5 k) with k by lia]. destruct (Nat.lt_ge_cases k 6) as [G|]; [|auto]. exfalso.
    assert (10 ^ (Z.of_nat k + 1) <= 10 ^ 6)%Z by (apply Z.pow_le_mono_r; lia). lia.
Qed.
Lemma sqrt_ceil n : sqrt_above n (Z.to_nat (ceil (sqrt (INR n)))).
Proof.
  assert (P := sqrt_pos (INR n)). assert (Z0 := ceil_nonneg _ P). destruct (ceil_spec (sqrt (INR n))) as [A B]. set (z := ceil (sqrt (INR n))) in *.
  assert (E : sqrt (INR n) * sqrt (INR n) = INR n) by (apply sqrt_sqrt, pos_INR). split.
  - apply INR_le. rewrite mult_INR, (INR_IZR_INZ (Z.to_nat z)), Z2Nat.id by auto. rewrite <- E. apply Rmult_le_compat; auto.
  - intros r Hr. apply Nat2Z.inj_le. rewrite Z2Nat.id by auto. assert (z - 1 < Z.of_nat r)%Z; [|lia]. apply lt_IZR.
    rewrite <- INR_IZR_INZ. apply Rlt_le_trans with (1 := A). assert (INR n <= INR r * INR r) by (rewrite <- mult_INR; now apply le_INR).
    rewrite <- (sqrt_square (INR r)) by apply pos_INR. now apply sqrt_le_1_alt.
Qed.
Lemma m_max_spec n : exists s, sqrt_above n s /\ m_max_of n = (s + kn_of n)%nat.
Proof. exists (Z.to_nat (ceil (sqrt (INR n)))). split; [apply sqrt_ceil|reflexivity]. Qed.
Lemma sqrt_above_le n s : sqrt_above n s -> forall r, (n <= r * r)%nat -> (s <= r)%nat.
Proof. intros H. apply H. Qed.
Lemma sqrt_above_small n s : sqrt_above n s -> (2 <= n <= 7)%nat -> (n < s + 5)%nat.
Proof.
  intros [A _] H. destruct (Nat.lt_ge_cases n (s + 5)) as [|G]; [auto|]. exfalso. assert (s <= 2)%nat by lia. assert (s * s <= 4)%nat by nia.
  assert (n <= 4)%nat by lia. lia.
Qed.
(** the number of tested lags plus the square root is below the number of observations from 8 on *)
Lemma pow10_ge k : (6 <= k)%nat -> (Z.of_nat k + 1001 <= 10 ^ Z.of_nat k)%Z.
Proof.
  intros H. induction k as [|k IH]; [lia|]. destruct (Nat.eq_dec k 5) as [->|]; [vm_compute; discriminate|].
  replace (Z.of_nat (S k)) with (Z.of_nat k + 1)%Z by lia. rewrite Z.pow_add_r by lia. specialize (IH ltac:(lia)). lia.
Qed.
Lemma sqrt_above_pred n s : sqrt_above n s -> (1 <= n)%nat -> ((s - 1) * (s - 1) < n)%nat.
Proof.
  intros [A B] Hn. destruct (Nat.lt_ge_cases ((s - 1) * (s - 1)) n) as [|G]; [auto|]. specialize (B _ G). assert (s = 0)%nat by lia. subst. cbn in A. lia.
Qed.
Lemma m_max_le n : (8 <= n)%nat -> (m_max_of n <= n)%nat.
Proof.
  intros Hn. destruct (m_max_spec n) as (s & Hs & ->). destruct (kn_spec n ltac:(lia)) as [K1 K2].
  assert (P := sqrt_above_pred n s Hs ltac:(lia)). destruct (Z.lt_ge_cases (Z.of_nat n) (10 ^ 6)) as [L|L].
  - rewrite (K1 L). destruct (Nat.lt_ge_cases n 9); [assert (n = 8)%nat by lia; subst; destruct (Nat.lt_ge_cases 3 s); [assert (9 <= (s - 1) * (s - 1))%nat by nia|]; lia|].
    destruct (Nat.lt_ge_cases s 5); [|assert (4 * (s - 1) <= (s - 1) * (s - 1))%nat by nia; lia].
    destruct (Nat.lt_ge_cases 9 n); [|assert (n = 9)%nat by lia; subst; destruct (Nat.lt_ge_cases 4 s); [assert (16 <= (s - 1) * (s - 1))%nat by nia; lia|]; specialize (sqrt_above_le _ _ Hs 3); lia]. 
    destruct (Nat.eq_dec s 4); lia.
  - specialize (K2 L). set (k := kn_of n) in *. assert (6 <= k)%nat by (destruct (Nat.lt_ge_cases k 6); [|auto]; assert (10 ^ (Z.of_nat k + 1) <= 10 ^ 6)%Z by (apply Z.pow_le_mono_r; lia); lia).
    assert (B := pow10_ge k H).
    (* k <= 2 (s - 1) would do; k + 1001 <= n and s - 1 < sqrt n *)
    assert (W : forall j, (6 <= j)%nat -> (Z.of_nat j * Z.of_nat j <= 10 ^ Z.of_nat j)%Z).
    { clear. intros j Hj. induction j as [|j IH]; [lia|]. destruct (Nat.eq_dec j 5) as [->|]; [vm_compute; discriminate|].
      replace (Z.of_nat (S j)) with (Z.of_nat j + 1)%Z by lia. rewrite Z.pow_add_r by lia. specialize (IH ltac:(lia)). nia. }
    assert (Wk := W k H). assert (k * k <= n)%nat by nia. assert (s <= n / 2)%nat.
    { apply (sqrt_above_le _ _ Hs). assert (1000 <= n)%nat by lia. assert (D := Nat.div_mod n 2 ltac:(lia)). assert (n mod 2 < 2)%nat by (apply Nat.mod_upper_bound; lia). nia. }
    assert (k <= n / 2)%nat; [|assert (D := Nat.div_mod n 2 ltac:(lia)); lia].
    apply Nat.div_le_lower_bound; nia.
Qed.

(** sums of vectors, by position *)
Lemma nth_skip (l : list R) : forall k t, nth t (skipn k l) 0 = nth (k + t) l 0.
Proof. induction l as [|a l IH]; intros [|k] t; cbn; auto. now destruct t. Qed.
Lemma nth_first (l : list R) : forall k t, (t < k)%nat -> nth t (firstn k l) 0 = nth t l 0.
Proof. induction l as [|a l IH]; intros [|k] t H; cbn; auto; try lia. destruct t; [reflexivity|]. apply IH. lia. Qed.
Lemma seq_from (f : nat -> R) a n : sum_over (seq a n) f = sum_over (seq 0 n) (fun t => f (a + t)%nat).
Proof.
  revert f a. induction n as [|n IH]; intros f a; [reflexivity|]. cbn [seq]. rewrite !so_cons, IH, (IH _ 1%nat). rewrite Nat.add_0_r. f_equal.
  apply so_ext. intros t _. f_equal. lia.
Qed.
Lemma dot_nth a : forall b, length a = length b ->
  rsum (map (fun p => fst p * snd p) (combine a b)) = sum_over (seq 0 (length a)) (fun t => nth t a 0 * nth t b 0).
Proof.
  induction a as [|v a IH]; intros [|w b] H; try discriminate; [reflexivity|]. cbn [combine map length seq]. rewrite rsum_cons, so_cons, seq_from.
  cbn [nth fst snd]. f_equal. rewrite IH by (cbn in H; lia). reflexivity.
Qed.
Lemma matmul_spec a b n : length a = n -> length b = n -> matmul a b = Some (sum_over (seq 0 n) (fun t => nth t a 0 * nth t b 0)).
Proof. intros A B. unfold matmul. rewrite A, B, Nat.eqb_refl, dot_nth by congruence. now rewrite A. Qed.
Lemma total_nth x : rsum x = sum_over (seq 0 (length x)) (fun t => nth t x 0).
Proof. induction x as [|a x IH]; [reflexivity|]. cbn [length seq]. rewrite rsum_cons, so_cons, seq_from. cbn [nth]. now rewrite IH. Qed.
Lemma deviations_length x : length (deviations x) = length x.
Proof. apply map_length. Qed.
Lemma deviations_nth x t : (t < length x)%nat -> nth t (deviations x) 0 = dev x t.
Proof.
  intros H. unfold deviations, dev, centre, obs. rewrite <- total_nth.
  set (f := fun v => v - rsum x / INR (length x)). rewrite (nth_indep _ 0 (f 0)) by (rewrite map_length; auto). now rewrite map_nth.
Qed.

Lemma lag_spec x i : (i <= length x)%nat -> exists b, lag (length x) (deviations x) i = Some (autocovariance x i, b) /\ (b = true <-> insignificant x i).
Proof.
  intros Hi. set (n := length x) in *. unfold lag.
  assert (L : length (deviations x) = n) by apply deviations_length.
  assert (T : matmul (from (i + 1) (deviations x)) (from (i + 1) (deviations x)) = Some (tail_squares x i)).
  { rewrite (matmul_spec _ _ (n - (i + 1))) by (unfold from; rewrite skipn_length, L; reflexivity). f_equal. unfold tail_squares, obs. fold n.
    rewrite (seq_from _ (i + 1)). apply so_ext. intros t Ht%in_seq. unfold from. rewrite nth_skip, deviations_nth by (fold n; lia). ring. }
  assert (U : upto (- Z.of_nat (i + 1)) (deviations x) = firstn (n - (i + 1)) (deviations x)).
  { unfold upto. replace (- Z.of_nat (i + 1) <? 0)%Z with true by (symmetry; apply Z.ltb_lt; lia). f_equal. rewrite L. lia. }
  assert (H : matmul (upto (- Z.of_nat (i + 1)) (deviations x)) (upto (- Z.of_nat (i + 1)) (deviations x)) = Some (head_squares x i)).
  { rewrite U. rewrite (matmul_spec _ _ (n - (i + 1))) by (rewrite firstn_length, L; lia). f_equal. unfold head_squares, obs. fold n.
    apply so_ext. intros t Ht%in_seq. rewrite nth_first, deviations_nth by (fold n; lia). ring. }
  assert (C : matmul (from i (deviations x)) (upto (Z.of_nat n - Z.of_nat i) (deviations x)) = Some (sum_over (seq 0 (n - i)) (fun t => dev x t * dev x (t + i)))).
  { assert (V : upto (Z.of_nat n - Z.of_nat i) (deviations x) = firstn (n - i) (deviations x)).
    { unfold upto. replace (Z.of_nat n - Z.of_nat i <? 0)%Z with false by (symmetry; apply Z.ltb_ge; lia). f_equal. lia. }
    rewrite V. rewrite (matmul_spec _ _ (n - i)); [|unfold from; rewrite skipn_length, L; lia|rewrite firstn_length, L; lia]. f_equal.
    apply so_ext. intros t Ht%in_seq. unfold from. rewrite nth_skip, nth_first, !deviations_nth by (fold n; lia). rewrite (Nat.add_comm t i). ring. }
  rewrite T, H, C. eexists. split; [reflexivity|]. unfold insignificant. rewrite (Rmult_comm (head_squares x i)).
  set (p := tail_squares x i * head_squares x i) in *. unfold autocovariance, obs, cv_of, log10. fold n. set (c := sum_over _ _).
  destruct (Nat.eq_dec n 0) as [Z|NZ].
  { assert (p = 0) by (unfold p, tail_squares, obs; fold n; rewrite Z; cbn; ring).
    destruct (Rlt_dec 0 p); [lra|]. split; [discriminate|intros [? _]; lra]. }
  assert (0 < INR n) by (apply lt_0_INR; lia). replace (INR n * (c / INR n)) with c by (field; lra).
  destruct (Rlt_dec 0 p) as [P|P]; [|split; [discriminate|tauto]]. assert (Q := sqrt_lt_R0 _ P).
  assert (E : Rabs c / sqrt p < 2 * sqrt (ln (INR n) / ln 10 / INR n) <-> Rabs c < 2 * sqrt (ln (INR n) / ln 10 / INR n) * sqrt p).
  { set (k := 2 * sqrt _). split; intros W.
    - apply (Rmult_lt_compat_r (sqrt p)) in W; [|auto]. unfold Rdiv in W. rewrite Rmult_assoc, Rinv_l in W by lra. lra.
    - apply (Rmult_lt_reg_r (sqrt p)); [auto|]. unfold Rdiv. rewrite Rmult_assoc, Rinv_l by lra. lra. }
  destruct (Rlt_dec _ _) as [W|W]; split; try discriminate; auto; intros; try tauto.
Qed.
Lemma lag_raises x i : (length x < i < 2 * length x)%nat -> lag (length x) (deviations x) i = None.
Proof.
  intros H. unfold lag. destruct (matmul (from (i + 1) _) _); [|reflexivity]. destruct (matmul (upto (- Z.of_nat (i + 1)) _) _); [|reflexivity].
  unfold matmul. assert (L := deviations_length x).
  replace (length (from i (deviations x))) with 0%nat by (unfold from; rewrite skipn_length, L; lia).
  replace (length (upto (Z.of_nat (length x) - Z.of_nat i) (deviations x))) with (2 * length x - i)%nat.
  - replace (0 =? 2 * length x - i)%nat with false by (symmetry; apply Nat.eqb_neq; lia). reflexivity.
  - unfold upto. replace (Z.of_nat (length x) - Z.of_nat i <? 0)%Z with true by (symmetry; apply Z.ltb_lt; lia). rewrite firstn_length, L. lia.
Qed.
Lemma lags_some n eps is : (forall i, In i is -> lag n eps i <> None) ->
  exists ls, lags n eps is = Some ls /\ Forall2 (fun i l => lag n eps i = Some l) is ls.
Proof.
  induction is as [|i is IH]; intros H; [exists []; split; [reflexivity|constructor]|]. cbn [lags].
  destruct (lag n eps i) as [l|] eqn:E; [|now destruct (H i (or_introl eq_refl))].
  destruct IH as (ls & -> & F); [intros; apply H; now right|]. exists (l :: ls). split; [reflexivity|]. now constructor.
Qed.
Lemma lags_none n eps is i : In i is -> lag n eps i = None -> lags n eps is = None.
Proof.
  induction is as [|j is IH]; intros H E; [destruct H|]. cbn [lags]. destruct H as [<-|H]; [now rewrite E|].
  destruct (lag n eps j); [|reflexivity]. now rewrite IH.
Qed.
Lemma forall2_nth {A B} (P : A -> B -> Prop) la lb da db i : Forall2 P la lb -> (i < length la)%nat -> P (nth i la da) (nth i lb db).
Proof. intros F. revert i. induction F as [|a b la lb Hab F IH]; intros i Hi; cbn in Hi; [lia|]. destruct i; cbn; [auto|]. apply IH. lia. Qed.

Lemma find_first f a n i : find f (seq a n) = Some i -> f i = true /\ (a <= i < a + n)%nat /\ forall j, (a <= j < i)%nat -> f j = false.
Proof.
  revert a. induction n as [|n IH]; intros a H; cbn in H; [discriminate|]. destruct (f a) eqn:E.
  - injection H as <-. split; [auto|]. split; [lia|]. intros j Hj. lia.
  - destruct (IH _ H) as (A & B & C). split; [auto|]. split; [lia|]. intros j Hj. destruct (Nat.eq_dec j a) as [->|]; [auto|]. apply C. lia.
Qed.

(** no autocorrelation is above one, so lag zero is always significant *)
Lemma exp2_lt_10 : exp 2 < 10.
Proof. replace 2 with (1 + 1) by ring. rewrite exp_plus. assert (H := exp_le_3). assert (0 < exp 1) by apply exp_pos. nra. Qed.
Lemma ln10_ge_2 : 2 <= ln 10.
Proof. rewrite <- (ln_exp 2). left. apply ln_increasing; [apply exp_pos|apply exp2_lt_10]. Qed.
Lemma ln_le_pred v : 0 < v -> ln v <= v - 1.
Proof.
  intros H. destruct (Rle_dec (ln v) (v - 1)) as [|G]; [auto|]. exfalso. assert (E : exp (v - 1) < exp (ln v)) by (apply exp_increasing; lra).
  rewrite exp_ln in E by auto. destruct (Req_dec (v - 1) 0) as [Z|Z]; [rewrite Z, exp_0 in E; lra|]. assert (W := exp_ineq1 (v - 1) Z). lra.
Qed.
Lemma critical_le_1 n : (1 <= n)%nat -> 0 <= ln (INR n) / ln 10 / INR n <= / 4 /\ 2 * sqrt (ln (INR n) / ln 10 / INR n) <= 1.
Proof.
  intros Hn. assert (N1 := INR_ge1 n Hn). assert (P := ln10_ge_2).
  assert (L0 : 0 <= ln (INR n)) by (rewrite <- ln_1; destruct (Rle_lt_or_eq_dec _ _ N1) as [G| <-]; [left; apply ln_increasing; lra|lra]).
  assert (L : ln (INR n) <= INR n / 2).
  { replace (INR n) with (INR n / 2 * 2) at 1 by field. rewrite ln_mult by lra. assert (A := ln_le_pred (INR n / 2) ltac:(lra)).
    assert (B := ln_le_pred 2 ltac:(lra)). lra. }
  assert (B : 0 <= ln (INR n) / ln 10 / INR n <= / 4).
  { split.
    - apply Rmult_le_pos; [apply Rmult_le_pos; [auto|left; apply Rinv_0_lt_compat; lra]|left; apply Rinv_0_lt_compat; lra].
    - apply (Rmult_le_reg_r (INR n)); [lra|]. unfold Rdiv. rewrite Rmult_assoc, Rinv_l by lra. apply (Rmult_le_reg_r (ln 10)); [lra|].
      rewrite Rmult_1_r, Rmult_assoc, Rinv_l by lra. nra. }
  split; [exact B|]. assert (S : sqrt (ln (INR n) / ln 10 / INR n) <= sqrt (/ 4)) by (apply sqrt_le_1_alt; apply B).
  replace (/ 4) with (/ 2 * / 2) in S by lra. rewrite sqrt_square in S by lra. lra.
Qed.
Lemma squares_le x k : head_squares x k <= INR (obs x) * autocovariance x 0 /\ tail_squares x k <= INR (obs x) * autocovariance x 0.
Proof.
  unfold head_squares, tail_squares, autocovariance. set (n := obs x).
  assert (E : INR n * (sum_over (seq 0 (n - 0)) (fun t => dev x t * dev x (t + 0)) / INR n) = sum_over (seq 0 n) (fun t => dev x t ^ 2)).
  { rewrite Nat.sub_0_r. destruct (Nat.eq_dec n 0) as [->|]; [cbn; ring|]. field_simplify; [|apply not_0_INR; auto].
    apply so_ext. intros t _. rewrite Nat.add_0_r. ring. }
  rewrite E. destruct (Nat.le_gt_cases n (k + 1)) as [G|G].
  - replace (n - (k + 1))%nat with 0%nat by lia. cbn [seq]. rewrite !so_nil. split; apply so_nonneg; intros; apply pow2_ge_0.
  - split.
    + replace n with ((n - (k + 1)) + (k + 1))%nat at 2 by lia. rewrite seq_app, so_app.
      assert (0 <= sum_over (seq (0 + (n - (k + 1))) (k + 1)) (fun t => dev x t ^ 2)) by (apply so_nonneg; intros; apply pow2_ge_0). lra.
    + replace n with ((k + 1) + (n - (k + 1)))%nat at 2 by lia. rewrite (seq_app (k + 1)), so_app. cbn [Nat.add].
      assert (0 <= sum_over (seq 0 (k + 1)) (fun t => dev x t ^ 2)) by (apply so_nonneg; intros; apply pow2_ge_0). lra.
Qed.
Lemma lag0_significant x : ~ insignificant x 0.
Proof.
  intros [P H]. destruct (squares_le x 0) as [A B]. set (S := INR (obs x) * autocovariance x 0) in *.
  assert (HN : (1 <= obs x)%nat).
  { destruct (Nat.eq_dec (obs x) 0) as [Z|]; [|lia]. unfold head_squares in P. rewrite Z in P. cbn in P. lra. }
  destruct (critical_le_1 _ HN) as [_ C].
  assert (Hh : 0 <= head_squares x 0) by (apply so_nonneg; intros; apply pow2_ge_0).
  assert (Ht : 0 <= tail_squares x 0) by (apply so_nonneg; intros; apply pow2_ge_0).
  assert (Q : sqrt (head_squares x 0 * tail_squares x 0) <= S).
  { rewrite <- (sqrt_square S) by lra. apply sqrt_le_1_alt. nra. }
  assert (Q0 := sqrt_pos (head_squares x 0 * tail_squares x 0)). assert (W := Rle_abs S). nra.
Qed.

Lemma lam_flat m k : lam m k = flat_top (INR k / INR m).
Proof. unfold lam, flat_top. destruct (Rle_dec _ _); [rewrite Rmin_left|rewrite Rmin_right]; lra. Qed.

(** the result, with the truncation lag of the specification *)
Lemma block_size_model x : (8 <= length x)%nat -> exists s M, sqrt_above (length x) s /\ truncation x (kn_of (length x)) s M /\
  optimal_block_size x = block (length x) (weighted_lags x M) (long_run_variance x M).
Proof.
  intros Hn. set (n := length x) in *. assert (Hm := m_max_le n Hn). destruct (m_max_spec n) as (s & Hs & Es). exists s.
  destruct (lags_some n (deviations x) (seq 0 (m_max_of n + 1))) as (ls & El & F).
  { intros i Hi%in_seq. destruct (lag_spec x i) as (b & E & _); [fold n; lia|]. fold n in E. rewrite E. discriminate. }
  set (acv := fun i => fst (nth i ls (0, false))). set (small := fun i => snd (nth i ls (0, false))).
  assert (A : forall i, (i <= m_max_of n)%nat -> acv i = autocovariance x i /\ (small i = true <-> insignificant x i)).
  { intros i Hi. assert (G := forall2_nth _ _ _ 0%nat (0, false) i F ltac:(rewrite seq_length; lia)). cbv beta in G. rewrite seq_nth in G by lia. cbn [Nat.add] in G.
    destruct (lag_spec x i) as (b & E & S); [fold n; lia|]. fold n in E. rewrite E in G. injection G as G. unfold acv, small. rewrite <- G. now split. }
  set (kn := kn_of n) in *. set (m_max := m_max_of n) in *.
  assert (K5 : (5 <= kn)%nat) by (unfold kn, kn_of; lia).
  assert (Q : forall i, (kn <= i <= m_max)%nat -> (forallb small (seq (i - kn) kn) = true <-> quiet x kn (i - kn))).
  { intros i Hi. rewrite forallb_forall. unfold quiet. split.
    - intros H j Hj. apply A; [lia|]. apply H, in_seq. lia.
    - intros H j Hj%in_seq. apply A; [lia|]. replace j with (i - kn + (j - (i - kn)))%nat by lia. apply H. lia. }
  exists (m_of (opt_m kn m_max small) m_max). split; [exact Hs|]. split.
  - unfold truncation, m_of, opt_m. destruct (find _ _) as [i|] eqn:E.
    + destruct (find_first _ _ _ _ E) as (E1 & E2 & E3). left. exists (i - kn)%nat.
      assert (Qi := proj1 (Q i ltac:(lia)) E1). assert (1 <= i - kn)%nat.
      { destruct (Nat.eq_dec (i - kn) 0) as [Z|]; [|lia]. exfalso. rewrite Z in Qi. apply (lag0_significant x). apply (Qi 0%nat). lia. }
      split; [lia|]. split; [exact Qi|]. split.
      * intros j Hj Hq. specialize (E3 (j + kn)%nat ltac:(lia)). assert (forallb small (seq (j + kn - kn) kn) = true); [|congruence].
        apply Q; [lia|]. now replace (j + kn - kn)%nat with j by lia.
      * rewrite Es. f_equal. lia.
    + right. split; [|rewrite Es; lia]. intros m Hm' Hq. assert (G := find_none _ _ E (m + kn)%nat ltac:(apply in_seq; lia)). cbv beta in G.
      assert (forallb small (seq (m + kn - kn) kn) = true); [|congruence]. apply Q; [lia|]. now replace (m + kn - kn)%nat with m by lia.
  - unfold optimal_block_size. fold n kn m_max. replace (n =? 0)%nat with false by (symmetry; apply Nat.eqb_neq; lia). rewrite El. fold acv small.
    set (m := m_of (opt_m kn m_max small) m_max). assert (m <= m_max)%nat by (unfold m, m_of; lia).
    f_equal.
    + unfold g_of, weighted_lags, sum_over. f_equal. apply map_ext_in. intros k Hk%in_seq. rewrite lam_flat, (proj1 (A k ltac:(lia))). reflexivity.
    + unfold lr_acv_of, long_run_variance, sum_over. rewrite (proj1 (A 0%nat ltac:(lia))). f_equal. f_equal. apply map_ext_in. intros k Hk%in_seq. rewrite lam_flat, (proj1 (A k ltac:(lia))). reflexivity.
Qed.
Lemma largest_block_spec n : largest_block n (b_max_of n).
Proof. exists (ceil (Rmin (3 * sqrt (INR n)) (INR n / 3))). split; [reflexivity|]. apply ceil_spec. Qed.
Lemma cube_root_spec y : 0 <= y -> 0 <= cube_root y /\ cube_root y ^ 3 = y.
Proof.
  intros H. unfold cube_root. destruct (Req_EM_T y 0) as [->|]; [split; [lra|ring]|]. assert (0 < y) by lra.
  split; [left; apply exp_pos|]. rewrite <- Rpower_pow by apply exp_pos. rewrite Rpower_mult. replace (1 / 3 * INR 3) with 1 by (cbn; field). now apply Rpower_1.
Qed.

(** * C83 *)
(** From eight observations on, the block size is the Politis-White length: with K the number of tested lags, M the truncation lag,
    G the window-weighted sum of k R(k) and V the window-weighted sum of R(k), it is the cube root of n (G / V)^2, capped by the
    largest block; NaN when G and V are both null. *)
Theorem C83_block_size x : let n := length x in (8 <= n)%nat ->
  exists K s M bmax, tested_lags n K /\ sqrt_above n s /\ truncation x K s M /\ largest_block n bmax /\
    let G := weighted_lags x M in let V := long_run_variance x M in
    (V <> 0 -> exists b, 0 <= b /\ b ^ 3 = INR n * (G / V) ^ 2 /\ optimal_block_size x = Num (Rmin b bmax)) /\
    (V = 0 -> G <> 0 -> optimal_block_size x = Num bmax) /\
    (V = 0 -> G = 0 -> optimal_block_size x = NaN).
Proof.
  intros n Hn. destruct (block_size_model x Hn) as (s & M & Hs & Ht & E). exists (kn_of n), s, M, (b_max_of n).
  split; [apply kn_spec; lia|]. split; [exact Hs|]. split; [exact Ht|]. split; [apply largest_block_spec|]. intros G V. rewrite E. fold n G V. unfold block. clearbody G V.
  split; [|split].
  - intros HV. assert (0 < V ^ 2) by (destruct (Rtotal_order V 0) as [|[|]]; [nra|congruence|nra]). destruct (Req_EM_T _ _); [lra|].
    assert (P : 0 <= 2 * G ^ 2 / (2 * V ^ 2)) by (apply Rmult_le_pos; [assert (W := pow2_ge_0 G); lra|left; apply Rinv_0_lt_compat; lra]).
    destruct (cube_root_spec _ P) as [A1 A2]. destruct (cube_root_spec (INR n) (pos_INR n)) as [B1 B2].
    eexists. split; [|split; [|reflexivity]]; [now apply Rmult_le_pos|]. rewrite Rpow_mult_distr, A2, B2. field. auto.
  - intros HV HG. rewrite HV. destruct (Req_EM_T (2 * 0 ^ 2) 0) as [_|N]; [|exfalso; apply N; ring]. destruct (Req_EM_T (2 * G ^ 2) 0) as [Z|]; [|reflexivity]. exfalso. apply HG. nra.
  - intros HV HG. rewrite HV, HG. destruct (Req_EM_T (2 * 0 ^ 2) 0) as [_|N]; [reflexivity|exfalso; apply N; ring].
Qed.
Print Assumptions C83_block_size.

(** Shorter series: no block size below two observations, an exception from two to seven. *)
Theorem C83_short x : (length x = 1%nat -> optimal_block_size x = NaN) /\
  ((2 <= length x <= 7)%nat -> optimal_block_size x = Raises) /\ ((8 <= length x)%nat -> optimal_block_size x <> Raises).
Proof.
  split; [|split].
  - destruct x as [|v [|w x]]; try discriminate. intros _. unfold optimal_block_size. cbn [length Nat.eqb].
    assert (L : forall i, lag 1 (deviations [v]) i = Some (0, false)).
    { intros i. assert (D : deviations [v] = [0]) by (unfold deviations; cbn; f_equal; field). rewrite D. unfold lag.
      assert (T : matmul (from (i + 1) [0]) (from (i + 1) [0]) = Some 0) by (replace (i + 1)%nat with (S i) by lia; unfold from; cbn; rewrite skipn_nil; reflexivity).
      assert (H : upto (- Z.of_nat (i + 1)) [0] = []).
      { unfold upto. replace (- Z.of_nat (i + 1) <? 0)%Z with true by (symmetry; apply Z.ltb_lt; lia). replace (Z.to_nat _) with 0%nat by (cbn [length]; lia). reflexivity. }
      assert (H2 : matmul (upto (- Z.of_nat (i + 1)) [0]) (upto (- Z.of_nat (i + 1)) [0]) = Some 0) by (rewrite H; reflexivity).
      assert (C : matmul (from i [0]) (upto (Z.of_nat 1 - Z.of_nat i) [0]) = Some 0).
      { destruct i as [|i]; [change (Some (0 * 0 + 0) = Some 0); f_equal; ring|]. unfold from. cbn [skipn]. rewrite skipn_nil.
        replace (upto (Z.of_nat 1 - Z.of_nat (S i)) [0]) with (@nil R); [reflexivity|]. unfold upto. cbn [length].
        destruct (Z.ltb_spec (Z.of_nat 1 - Z.of_nat (S i)) 0); [replace (Z.to_nat (Z.of_nat 1 + (Z.of_nat 1 - Z.of_nat (S i)))) with 0%nat by lia|replace (Z.to_nat (Z.of_nat 1 - Z.of_nat (S i))) with 0%nat by lia]; reflexivity. }
      rewrite T, H2, C. destruct (Rlt_dec 0 (0 * 0)); [lra|]. f_equal. f_equal. unfold Rdiv. ring. }
    set (is := seq 0 (m_max_of 1 + 1)). assert (LS : forall is, lags 1 (deviations [v]) is = Some (map (fun _ => (0, false)) is)).
    { clear is. induction is as [|i is IH]; [reflexivity|]. cbn [lags map]. now rewrite L, IH. }
    rewrite LS. assert (N : forall i, nth i (map (fun _ : nat => (0, false)) is) (0, false) = (0, false)) by (intros i; exact (map_nth (fun _ => (0, false)) is 0%nat i)).
    set (m := m_of _ _). unfold block.
    assert (Z : forall f : nat -> R, rsum (map (fun k => f k * fst (nth k (map (fun _ : nat => (0, false)) is) (0, false))) (seq 1 m)) = 0).
    { intros f. apply (so_zero _ (seq 1 m)). intros k _. rewrite N. cbn. ring. }
    unfold g_of, lr_acv_of. rewrite !Z, N. cbn [fst]. destruct (Req_EM_T _ _) as [_|E]; [|exfalso; apply E; ring]. destruct (Req_EM_T _ _) as [_|E]; [reflexivity|exfalso; apply E; ring].
  - intros H. unfold optimal_block_size. replace (length x =? 0)%nat with false by (symmetry; apply Nat.eqb_neq; lia).
    rewrite (lags_none _ _ _ (length x + 1)); [reflexivity| |apply lag_raises; lia].
    apply in_seq. destruct (m_max_spec (length x)) as (s & Hs & ->). assert (W := sqrt_above_small _ _ Hs H). assert (5 <= kn_of (length x))%nat by (unfold kn_of; lia). lia.
  - intros H. destruct (block_size_model x H) as (s & M & _ & _ & ->). unfold block. destruct (Req_EM_T _ _); [destruct (Req_EM_T _ _)|]; discriminate.
Qed.
Print Assumptions C83_short.

(** A block size is between zero and the largest block, which is at most 3 sqrt(n) and n / 3, rounded up. *)
Theorem C83_range x b : optimal_block_size x = Num b -> 0 <= b /\ exists bmax, largest_block (length x) bmax /\ b <= bmax.
Proof.
  intros E. destruct (Nat.lt_ge_cases (length x) 8) as [L|L].
  - exfalso. destruct (C83_short x) as (A & B & _). destruct (Nat.eq_dec (length x) 0) as [Z|].
    { unfold optimal_block_size in E. rewrite Z in E. discriminate. }
    destruct (Nat.eq_dec (length x) 1) as [Z|]; [rewrite (A Z) in E; discriminate|]. rewrite B in E by lia. discriminate.
  - destruct (C83_block_size x L) as (K & s & M & bmax & _ & _ & _ & HB & C1 & C2 & C3). assert (P : 0 <= bmax).
    { destruct HB as (z & -> & _ & H2). assert (0 <= Rmin (3 * sqrt (INR (length x))) (INR (length x) / 3)); [|lra].
      assert (S := sqrt_pos (INR (length x))). assert (I := pos_INR (length x)). apply Rmin_glb; lra. }
    destruct (Req_dec (long_run_variance x M) 0) as [V|V]; [destruct (Req_dec (weighted_lags x M) 0) as [G|G]|].
    + rewrite (C3 V G) in E. discriminate.
    + rewrite (C2 V G) in E. injection E as <-. split; [auto|]. exists bmax. split; [auto|lra].
    + destruct (C1 V) as (b' & B0 & _ & E'). rewrite E' in E. injection E as <-. split; [apply Rmin_glb; auto|]. exists bmax. split; [auto|apply Rmin_r].
Qed.
Print Assumptions C83_range.

(** The block size does not depend on the unit or on the level of the returns. *)
Theorem C83_affine_invariant x a c : a <> 0 -> optimal_block_size (map (fun v => a * v + c) x) = optimal_block_size x.
Proof.
  intros Ha. set (y := map _ x). assert (L : length y = length x) by apply map_length.
  destruct (Nat.lt_ge_cases (length x) 8) as [S|S].
  - destruct (C83_short x) as (A1 & A2 & _). destruct (C83_short y) as (B1 & B2 & _). rewrite L in *.
    destruct (Nat.eq_dec (length x) 0) as [Z|]; [destruct x; [reflexivity|discriminate]|].
    destruct (Nat.eq_dec (length x) 1) as [Z|]; [now rewrite A1, B1|]. rewrite A2, B2 by lia. reflexivity.
  - assert (I : 0 < INR (length x)) by (apply lt_0_INR; lia).
    assert (NT : forall t, (t < length x)%nat -> nth t y 0 = a * nth t x 0 + c).
    { intros t Ht. unfold y. set (f := fun v => a * v + c). rewrite (nth_indep _ 0 (f 0)) by (rewrite map_length; auto). now rewrite map_nth. }
    assert (Cy : centre y = a * centre x + c).
    { unfold centre, obs. rewrite L. transitivity (sum_over (seq 0 (length x)) (fun t => a * nth t x 0 + c) / INR (length x)).
      - f_equal. apply so_ext. intros t Ht%in_seq. apply NT. lia.
      - rewrite so_add, so_scal, so_const, seq_length. field. lra. }
    assert (D : forall t, (t < length x)%nat -> dev y t = a * dev x t) by (intros t Ht; unfold dev; rewrite NT, Cy by auto; ring).
    assert (AC : forall k, autocovariance y k = a ^ 2 * autocovariance x k).
    { intros k. unfold autocovariance, obs. rewrite L. unfold Rdiv. rewrite <- Rmult_assoc, <- so_scal. f_equal. apply so_ext. intros t Ht%in_seq. rewrite !D by lia. ring. }
    assert (P2 : 0 < a ^ 2) by (destruct (Rtotal_order a 0) as [|[|]]; [nra|congruence|nra]).
    assert (HS : forall k, head_squares y k = a ^ 2 * head_squares x k).
    { intros k. unfold head_squares, obs. rewrite L, <- so_scal. apply so_ext. intros t Ht%in_seq. rewrite D by lia. ring. }
    assert (TS : forall k, tail_squares y k = a ^ 2 * tail_squares x k).
    { intros k. unfold tail_squares, obs. rewrite L, <- so_scal. apply so_ext. intros t Ht%in_seq. rewrite D by lia. ring. }
    assert (IN : forall k, insignificant y k <-> insignificant x k).
    { intros k. unfold insignificant. rewrite HS, TS, AC. unfold obs. rewrite L. set (h := head_squares x k). set (w := tail_squares x k). set (q := autocovariance x k).
      replace (a ^ 2 * h * (a ^ 2 * w)) with ((a ^ 2 * a ^ 2) * (h * w)) by ring. rewrite sqrt_mult_alt by nra. rewrite sqrt_square by lra.
      replace (INR (length x) * (a ^ 2 * q)) with (a ^ 2 * (INR (length x) * q)) by ring. rewrite Rabs_mult, (Rabs_right (a ^ 2)) by lra.
      set (k2 := 2 * sqrt (ln (INR (length x)) / ln 10 / INR (length x))). set (r := sqrt (h * w)). set (z := Rabs _).
      replace (k2 * (a ^ 2 * r)) with (a ^ 2 * (k2 * r)) by ring. split; intros [U V]; split; try nra.
      all: first [ apply (Rmult_lt_reg_l (a ^ 2 * a ^ 2)); [nra|]; lra | apply (Rmult_lt_reg_l (a ^ 2)); [lra|exact V] | apply Rmult_lt_0_compat; [nra|auto] | idtac ]. }
    assert (QU : forall K m, quiet y K m <-> quiet x K m) by (intros K m; split; intros H j Hj; apply IN, H, Hj).
    destruct (block_size_model x S) as (s & M & Hs & T & E). destruct (block_size_model y) as (s' & M' & Hs' & T' & E'); [rewrite L; exact S|]. rewrite L in *.
    assert (s' = s) by (apply Nat.le_antisymm; [apply Hs', Hs|apply Hs, Hs']). subst s'.
    assert (M' = M).
    { destruct T as [(m & R1 & R2 & R3 & R4)|[R1 R2]], T' as [(m' & R1' & R2' & R3' & R4')|[R1' R2']].
      - assert (m' = m); [|congruence]. destruct (Nat.lt_trichotomy m m') as [G|[G|G]]; [|auto|].
        + exfalso. apply (R3' m G). now apply QU.
        + exfalso. apply (R3 m' G). now apply QU.
      - exfalso. apply (R1' m); [lia|]. now apply QU.
      - exfalso. apply (R1 m'); [lia|]. now apply QU.
      - congruence. }
    subst M'. rewrite E, E'.
    assert (GG : weighted_lags y M = a ^ 2 * weighted_lags x M) by (unfold weighted_lags; rewrite <- so_scal; apply so_ext; intros k _; rewrite AC; ring).
    assert (VV : long_run_variance y M = a ^ 2 * long_run_variance x M).
    { unfold long_run_variance. rewrite AC, Rmult_plus_distr_l, <- so_scal. f_equal. apply so_ext; intros k _; rewrite AC; ring. }
    rewrite GG, VV. set (g := weighted_lags x M). set (v := long_run_variance x M). unfold block.
    destruct (Req_dec v 0) as [->|Hv].
    + destruct (Req_EM_T (2 * (a ^ 2 * 0) ^ 2) 0) as [_|N]; [|exfalso; apply N; ring]. destruct (Req_EM_T (2 * 0 ^ 2) 0) as [_|N]; [|exfalso; apply N; ring].
      destruct (Req_EM_T (2 * g ^ 2) 0) as [Z|Z]; destruct (Req_EM_T (2 * (a ^ 2 * g) ^ 2) 0) as [Z'|Z']; auto; exfalso.
      * apply Z'. replace (2 * (a ^ 2 * g) ^ 2) with (a ^ 4 * (2 * g ^ 2)) by ring. rewrite Z. ring.
      * apply Z. replace (2 * (a ^ 2 * g) ^ 2) with (a ^ 4 * (2 * g ^ 2)) in Z' by ring. apply Rmult_integral in Z'. destruct Z' as [Z'|Z']; [|auto]. exfalso.
        replace (a ^ 4) with (a ^ 2 * a ^ 2) in Z' by ring. nra.
    + assert (0 < v ^ 2) by (destruct (Rtotal_order v 0) as [|[|]]; [nra|congruence|nra]).
      assert (0 < (a ^ 2 * v) ^ 2) by (rewrite Rpow_mult_distr; apply Rmult_lt_0_compat; [nra|auto]).
      destruct (Req_EM_T (2 * (a ^ 2 * v) ^ 2) 0); [lra|]. destruct (Req_EM_T (2 * v ^ 2) 0); [lra|].
      replace (2 * (a ^ 2 * g) ^ 2 / (2 * (a ^ 2 * v) ^ 2)) with (2 * g ^ 2 / (2 * v ^ 2)); [reflexivity|]. field. split; [auto|]. intros ->. lra.
Qed.
Print Assumptions C83_affine_invariant.

(** A constant series has no block size. *)
Theorem C83_constant x c : (8 <= length x)%nat -> (forall v, In v x -> v = c) -> optimal_block_size x = NaN.
Proof.
  intros Hn Hc. assert (I : 0 < INR (length x)) by (apply lt_0_INR; lia).
  assert (C : centre x = c).
  { unfold centre, obs. transitivity (sum_over (seq 0 (length x)) (fun _ => c) / INR (length x)).
    - f_equal. apply so_ext. intros t Ht%in_seq. apply Hc, nth_In. lia.
    - rewrite so_const, seq_length. field. lra. }
  assert (D : forall t, (t < length x)%nat -> dev x t = 0) by (intros t Ht; unfold dev; rewrite C, (Hc (nth t x 0)) by (apply nth_In; auto); ring).
  assert (A : forall k, autocovariance x k = 0).
  { intros k. unfold autocovariance, obs. rewrite so_zero; [unfold Rdiv; ring|]. intros t Ht%in_seq. rewrite D by lia. ring. }
  destruct (C83_block_size x Hn) as (K & s & M & bmax & _ & _ & _ & _ & _ & _ & C3). apply C3.
  - unfold long_run_variance. rewrite A, so_zero; [ring|]. intros k _. rewrite A. ring.
  - apply so_zero. intros k _. rewrite A. ring.
Qed.
Print Assumptions C83_constant.

(** ** the median *)
Lemma insert_perm v l : Permutation (v :: l) (insert v l).
Proof. induction l as [|a l IH]; [reflexivity|]. cbn. destruct (Rle_dec v a); [reflexivity|]. rewrite perm_swap. now constructor. Qed.
Lemma insert_sorted v l : StronglySorted Rle l -> StronglySorted Rle (insert v l).
Proof.
  induction 1 as [|a l S IH F]; [repeat constructor|]. cbn. destruct (Rle_dec v a) as [G|G].
  - constructor; [now constructor|]. constructor; [auto|]. eapply List.Forall_impl; [|exact F]. cbv beta. intros; lra.
  - constructor; [auto|]. assert (W := insert_perm v l). apply (Permutation_Forall W). constructor; [lra|auto].
Qed.
Lemma sorted_spec l : Permutation l (sorted l) /\ StronglySorted Rle (sorted l).
Proof.
  induction l as [|a l [P S]]; [split; constructor|]. unfold sorted. cbn [fold_right]. fold (sorted l). split.
  - rewrite <- insert_perm. now constructor.
  - now apply insert_sorted.
Qed.
Lemma median_spec l : l <> [] -> is_median l (median l).
Proof.
  intros NE. destruct (sorted_spec l) as [P S]. exists (sorted l). split; [auto|]. split; [auto|].
  assert (L := Permutation_length P). assert (0 < length l)%nat by (destruct l; [congruence|cbn; lia]). unfold median. rewrite L in *. set (n := length (sorted l)) in *.
  assert (B : (n / 2 < n)%nat) by (apply Nat.div_lt; lia). split.
  - intros [q Hq]. assert (E : ((n - 1) / 2 = n / 2)%nat).
    { rewrite Hq. replace (2 * q + 1 - 1)%nat with (q * 2)%nat by lia. rewrite Nat.div_mul by lia. apply Nat.div_unique with 1%nat; lia. }
    rewrite E. rewrite (nth_error_nth' _ 0) by exact B. f_equal. field.
  - intros [q Hq]. assert (E : ((n - 1) / 2 = n / 2 - 1)%nat).
    { rewrite Hq. replace (2 * q)%nat with (q * 2)%nat at 2 by lia. rewrite Nat.div_mul by lia. symmetry. apply Nat.div_unique with 1%nat; lia. }
    rewrite E. exists (nth (n / 2 - 1) (sorted l) 0), (nth (n / 2) (sorted l) 0).
    rewrite !(nth_error_nth' _ 0) by (fold n; lia). auto.
Qed.
Lemma median_outcome_num l : forall done bs, l = map Num bs -> median_outcome done l = Num (median (rev done ++ bs)).
Proof.
  induction l as [|o l IH]; intros done [|b bs] E; try discriminate; cbn [median_outcome].
  - now rewrite app_nil_r.
  - injection E as -> E. rewrite (IH (b :: done) bs E). cbn [rev]. now rewrite <- app_assoc.
Qed.
Lemma median_outcome_nan l : forall done, ~ In Raises l -> In NaN l -> median_outcome done l = NaN.
Proof.
  assert (NR : forall l done, ~ In Raises l -> median_outcome done l <> Raises).
  { clear. induction l as [|o l IH]; intros done H; cbn [median_outcome]; [discriminate|]. destruct o; [exfalso; apply H; now left| |].
    - destruct (median_outcome done l) eqn:E; try discriminate. exfalso. apply (IH done); [intros ?; apply H; now right|exact E].
    - apply IH. intros ?; apply H; now right. }
  induction l as [|o l IH]; intros done H I; [destruct I|]. cbn [median_outcome].
  destruct o; [exfalso; apply H; now left| |].
  - destruct (median_outcome done l) eqn:E; try reflexivity. exfalso. apply (NR l done); [intros ?; apply H; now right|exact E].
  - apply IH; [intros ?; apply H; now right|]. destruct I as [I|I]; [discriminate|exact I].
Qed.

(** Every sample, for any sequence of continuations. *)
Lemma sample_positions {A} (returns : list A) base cond : length base = length returns -> length cond = length returns ->
  (forall b, In b base -> (b < length returns)%nat) -> sample A returns base cond = map (nth_error returns) (positions (length returns) base cond).
Proof.
  intros L1 L2 Hb. unfold sample, indices, positions. destruct base as [|b base]; [reflexivity|]. destruct cond as [|c cond]; [reflexivity|].
  cbn [map length] in *. assert (b < length returns)%nat by (apply Hb; left; auto). f_equal.
  - replace (2 * length returns <? b)%nat with false by (symmetry; apply Nat.ltb_ge; lia). apply nth_error_app1; auto.
  - rewrite (chain_spec returns base cond b 0%nat); [rewrite Nat.mod_small by auto; reflexivity|intros; apply Hb; right; auto|lia|lia].
Qed.
Lemma positions_fresh n base (us : list R) : length us = length base -> positions n base (map (fun _ => false) us) = base.
Proof.
  intros L. destruct base as [|b base]; [reflexivity|]. destruct us as [|u us]; [discriminate|]. cbn [map positions]. f_equal. cbn in L.
  assert (L' : length us = length base) by lia. clear L. revert us b L'. induction base as [|d base IH]; intros [|v us] b L; try discriminate; [reflexivity|].
  cbn [map circular]. f_equal. apply IH. cbn in L. lia.
Qed.
Definition valid_draw (n : nat) (d : list nat * list R) : Prop :=
  length (fst d) = n /\ length (snd d) = n /\ (forall b, In b (fst d) -> (b < n)%nat) /\ (forall u, In u (snd d) -> 0 <= u < 1).
Lemma column_length returns j : length (column returns j) = length returns.
Proof. apply map_length. Qed.
Lemma default_not_raises n_assets returns : (8 <= length returns)%nat -> ~ In Raises (map (fun j => optimal_block_size (column returns j)) (seq 0 n_assets)).
Proof.
  intros Hn H. apply in_map_iff in H. destruct H as (j & E & _). destruct (C83_short (column returns j)) as (_ & _ & C). apply C in E; [auto|]. now rewrite column_length.
Qed.

(** By default, when every asset has a block size, the next observation follows the previous one exactly when the uniform draw is at
    least the inverse of the median block size: block sizes up to one give independent draws. *)
Theorem C83_default n_assets returns draws bs : (8 <= length returns)%nat -> (0 < n_assets)%nat ->
  (forall d, In d draws -> valid_draw (length returns) d) ->
  map (fun j => optimal_block_size (column returns j)) (seq 0 n_assets) = map Num bs ->
  exists b samples, is_median bs b /\ bootstrap_default n_assets returns draws = Some samples /\
    Forall2 (fun d s => exists again, s = map (nth_error returns) (positions (length returns) (fst d) again) /\
                        Forall2 (fun u c => c = true <-> 1 <= u * b) (snd d) again) draws samples /\
    (b <= 1 -> samples = map (fun d => map (nth_error returns) (fst d)) draws).
Proof.
  intros Hn Ha Hd E. assert (NE : bs <> []) by (intros ->; apply (f_equal (@length _)) in E; rewrite !map_length, seq_length in E; cbn in E; lia).
  exists (median bs). unfold bootstrap_default, default_block_size. rewrite (median_outcome_num _ [] bs E). cbn [rev app]. eexists. split; [now apply median_spec|]. split; [reflexivity|].
  assert (B0 : 0 <= median bs).
  { assert (P : forall b, In b bs -> 0 <= b).
    { intros b Hb. assert (I : In (Num b) (map Num bs)) by now apply in_map. rewrite <- E in I. apply in_map_iff in I. destruct I as (j & Ej & _). now apply C83_range in Ej. }
    destruct (sorted_spec bs) as [Q _]. unfold median. assert (N : forall i, 0 <= nth i (sorted bs) 0).
    { intros i. destruct (Nat.lt_ge_cases i (length (sorted bs))); [|rewrite nth_overflow by auto; lra]. apply P. apply (Permutation_in _ (Permutation_sym Q)). now apply nth_In. }
    assert (N1 := N ((length bs - 1) / 2)%nat). assert (N2 := N (length bs / 2)%nat). lra. }
  assert (CN : forall u, 0 <= u < 1 -> continues (Num (median bs)) u = true <-> 1 <= u * median bs).
  { intros u Hu. cbn. destruct (Req_EM_T (median bs) 0) as [->|NZ]; [split; [discriminate|lra]|]. assert (P : 0 < median bs) by lra.
    assert (Q : 1 / median bs <= u <-> 1 <= u * median bs).
    { split; intros W.
      - apply (Rmult_le_compat_r (median bs)) in W; [|lra]. unfold Rdiv in W. rewrite Rmult_assoc, Rinv_l in W by lra. lra.
      - apply (Rmult_le_reg_r (median bs)); [auto|]. unfold Rdiv. rewrite Rmult_assoc, Rinv_l by lra. lra. }
    destruct (Rle_dec _ _); split; try discriminate; tauto. }
  split.
  - assert (G : forall l, (forall d, In d l -> In d draws) -> Forall2 (fun d s => exists again, s = map (nth_error returns) (positions (length returns) (fst d) again) /\
              Forall2 (fun u c => c = true <-> 1 <= u * median bs) (snd d) again) l (map (fun d => sample (list R) returns (fst d) (map (continues (Num (median bs))) (snd d))) l)).
    { induction l as [|d l IH]; intros Hl; [constructor|]. cbn [map]. constructor; [|apply IH; intros; apply Hl; now right].
      destruct (Hd d) as (D1 & D2 & D3 & D4); [apply Hl; now left|]. exists (map (continues (Num (median bs))) (snd d)). split; [apply sample_positions; auto; now rewrite map_length|].
      clear - D4 CN. induction (snd d) as [|u us IH]; [constructor|]. cbn [map]. constructor; [apply CN, D4; now left|]. apply IH. intros; apply D4; now right. }
    now apply G.
  - intros B1. apply map_ext_in. intros d Id. destruct (Hd d Id) as (D1 & D2 & D3 & D4).
    rewrite sample_positions by (auto; now rewrite map_length). f_equal.
    rewrite (map_ext_in _ (fun _ => false)); [apply positions_fresh; congruence|]. intros u Hu. specialize (D4 u Hu). destruct (continues _ u) eqn:C; [|reflexivity].
    apply CN in C; [|exact D4]. exfalso. nra.
Qed.
Print Assumptions C83_default.

(** Finding: one asset with constant returns (a suspended or pegged asset) removes the blocks of every asset. *)
Theorem C83_constant_asset_refuted n_assets returns draws j c : (8 <= length returns)%nat -> (j < n_assets)%nat ->
  (forall row, In row returns -> nth j row 0 = c) -> (forall d, In d draws -> valid_draw (length returns) d) ->
  bootstrap_default n_assets returns draws = Some (map (fun d => map (nth_error returns) (fst d)) draws).
Proof.
  intros Hn Hj Hc Hd. unfold bootstrap_default, default_block_size. rewrite median_outcome_nan; [|now apply default_not_raises|].
  - f_equal. apply map_ext_in. intros d Id. destruct (Hd d Id) as (D1 & D2 & D3 & _). rewrite sample_positions by (auto; now rewrite map_length). f_equal.
    rewrite (map_ext (continues NaN) (fun _ => false)) by reflexivity. apply positions_fresh. congruence.
  - apply in_map_iff. exists j. split; [|apply in_seq; lia]. apply (C83_constant _ c); [now rewrite column_length|].
    intros v Hv. unfold column in Hv. apply in_map_iff in Hv. destruct Hv as (row & <- & I). now apply Hc.
Qed.
Print Assumptions C83_constant_asset_refuted.

(** With its default block size the bootstrap raises exactly when there are 0 or 2 to 7 observations. *)
Theorem C83_short_panel n_assets returns draws : (0 < n_assets)%nat ->
  (bootstrap_default n_assets returns draws = None <-> (length returns = 0 \/ 2 <= length returns <= 7)%nat).
Proof.
  intros Ha.
  assert (R : forall l done, In Raises l -> median_outcome done l = Raises).
  { induction l as [|o l IH]; intros done I; [destruct I|]. cbn. destruct o; [reflexivity| |].
    - destruct I as [I|I]; [discriminate|]. now rewrite (IH done I).
    - destruct I as [I|I]; [discriminate|]. now apply IH. }
  assert (NR : forall l done, ~ In Raises l -> median_outcome done l <> Raises).
  { induction l as [|o l IH]; intros done I; cbn in *; [discriminate|]. destruct o; [tauto| |apply IH; tauto]. assert (E : median_outcome done l <> Raises) by (apply IH; tauto). destruct (median_outcome done l); [tauto|discriminate|discriminate]. }
  unfold bootstrap_default. set (l := map (fun j => optimal_block_size (column returns j)) (seq 0 n_assets)).
  assert (Q : (length returns = 0 \/ 2 <= length returns <= 7)%nat <-> In Raises l).
  { assert (L : forall j, length (column returns j) = length returns) by (intros j; apply map_length). split.
    - intros H. apply in_map_iff. exists 0%nat. split; [|apply in_seq; lia]. destruct H as [H|H].
      + unfold optimal_block_size. now rewrite L, H.
      + apply (proj1 (proj2 (C83_short _))). now rewrite L.
    - intros I. apply in_map_iff in I. destruct I as (j & E & _). specialize (L j). destruct (C83_short (column returns j)) as (A & _ & C).
      destruct (Nat.eq_dec (length returns) 1) as [H|]; [rewrite A in E by congruence; discriminate|].
      destruct (Nat.lt_ge_cases (length returns) 8); [lia|]. exfalso. apply C; [lia|exact E]. }
  assert (D : In Raises l \/ ~ In Raises l) by (rewrite <- Q; lia).
  rewrite Q. unfold default_block_size. fold l. destruct D as [D|D].
  - rewrite (R l [] D). tauto.
  - assert (E := NR l [] D). destruct (median_outcome [] l); [tauto| |]; (split; [discriminate|tauto]).
Qed.
Print Assumptions C83_short_panel.

(** ** a series with a block size *)
Definition alternating : list R := [1; -1; 1; -1; 1; -1; 1; -1].
Lemma alternating_centre : centre alternating = 0.
Proof. unfold centre, obs, alternating, sum_over. cbn. field. Qed.
Lemma alternating_autocovariance k : (k <= 8)%nat ->
  autocovariance alternating k = nth k [1; - (7 / 8); 6 / 8; - (5 / 8); 4 / 8; - (3 / 8); 2 / 8; - (1 / 8); 0] 0.
Proof.
  intros H. unfold autocovariance, obs, dev. rewrite alternating_centre. do 9 (destruct k as [|k]; [unfold alternating, sum_over; cbn; field|]). lia.
Qed.
Lemma alternating_significant k : (k <= 3)%nat -> ~ insignificant alternating k.
Proof.
  intros Hk [_ H]. destruct (critical_le_1 (obs alternating)) as [_ C]; [cbn; lia|]. revert H. set (cv := 2 * sqrt _) in *.
  assert (E : head_squares alternating k = INR (7 - k) /\ tail_squares alternating k = INR (7 - k)).
  { unfold head_squares, tail_squares, obs, dev. rewrite alternating_centre. do 4 (destruct k as [|k]; [unfold alternating, sum_over; cbn; split; field|]). lia. }
  destruct E as [-> ->]. rewrite sqrt_square by apply pos_INR. rewrite alternating_autocovariance by lia. unfold obs.
  do 4 (destruct k as [|k]; [unfold Rabs; cbn; destruct (Rcase_abs _); nra|]). lia.
Qed.
Lemma alternating_block : optimal_block_size alternating = Num 3.
Proof.
  destruct (C83_block_size alternating) as (K & s & M & bmax & HK & Hs & HM & HB & C1 & _); [cbn; lia|].
  assert (K = 5)%nat by (apply HK; cbn; lia). subst K.
  assert (s = 3)%nat. { destruct Hs as [A B]. cbn in A, B. specialize (B 3%nat ltac:(lia)). destruct (Nat.lt_ge_cases s 3); [|lia]. assert (s * s <= 4)%nat by nia. lia. }
  subst s. assert (M = 8)%nat.
  { destruct HM as [(m & Hm & Q & _)|[_ E]]; [|exact E]. exfalso. apply (alternating_significant m); [lia|]. specialize (Q 0%nat ltac:(lia)). now rewrite Nat.add_0_r in Q. }
  subst M. assert (FT : forall k, (k <= 8)%nat -> flat_top (INR k / INR 8) = if (k <=? 4)%nat then 1 else 2 * (1 - INR k / 8)).
  { intros k Hk. unfold flat_top. replace (INR 8) with 8 by (cbn; ring). destruct (Nat.leb_spec k 4) as [G|G].
    - apply le_INR in G. replace (INR 4) with 4 in G by (cbn; ring). apply Rmin_left. lra.
    - assert (W : (5 <= k)%nat) by lia. apply le_INR in W. replace (INR 5) with 5 in W by (cbn; ring). apply Rmin_right. lra. }
  assert (G : weighted_lags alternating 8 = - (1 / 4)).
  { unfold weighted_lags. transitivity (sum_over (seq 1 8) (fun k => 2 * (if (k <=? 4)%nat then 1 else 2 * (1 - INR k / 8)) * INR k * nth k [1; - (7 / 8); 6 / 8; - (5 / 8); 4 / 8; - (3 / 8); 2 / 8; - (1 / 8); 0] 0)).
    - apply so_ext. intros k Hk%in_seq. rewrite FT, alternating_autocovariance by lia. reflexivity.
    - unfold sum_over. cbn. field. }
  assert (V : long_run_variance alternating 8 = 1 / 8).
  { unfold long_run_variance. transitivity (nth 0 [1; - (7 / 8); 6 / 8; - (5 / 8); 4 / 8; - (3 / 8); 2 / 8; - (1 / 8); 0] 0 + sum_over (seq 1 8) (fun k => 2 * (if (k <=? 4)%nat then 1 else 2 * (1 - INR k / 8)) * nth k [1; - (7 / 8); 6 / 8; - (5 / 8); 4 / 8; - (3 / 8); 2 / 8; - (1 / 8); 0] 0)).
    - f_equal; [apply alternating_autocovariance; lia|]. apply so_ext. intros k Hk%in_seq. rewrite FT, alternating_autocovariance by lia. reflexivity.
    - unfold sum_over. cbn. field. }
  rewrite G, V in C1. destruct (C1 ltac:(lra)) as (b & B0 & B3 & E). replace (INR (length alternating)) with 8 in B3 by (cbn; ring).
  assert (bmax = 3).
  { destruct HB as (z & -> & Z1 & Z2). replace (INR (length alternating)) with 8 in Z1, Z2 by (cbn; ring).
    assert (R : Rmin (3 * sqrt 8) (8 / 3) = 8 / 3).
    { apply Rmin_right. assert (1 <= sqrt 8) by (rewrite <- sqrt_1; apply sqrt_le_1_alt; lra). lra. }
    rewrite R in Z1, Z2. assert (2 < z)%Z by (apply lt_IZR; lra). assert (z - 1 < 3)%Z by (apply lt_IZR; lra). replace z with 3%Z by lia. reflexivity. }
  subst bmax. rewrite E. f_equal. apply Rmin_right. replace (8 * (- (1 / 4) / (1 / 8)) ^ 2) with 32 in B3 by field.
  destruct (Rle_dec 3 b) as [|N]; [auto|]. exfalso. assert (b ^ 2 <= 9) by nra. assert (b ^ 3 <= 27); [|lra]. replace (b ^ 3) with (b * b ^ 2) by ring. nra.
Qed.
(** the alternating asset alone is sampled in blocks; with a constant asset beside it, it is not *)
Example C83_applies :
  let one := map (fun v => [v]) alternating in let two := map (fun v => [v; 0]) alternating in
  let d := ([5; 0; 0; 0; 0; 0; 0; 0]%nat, repeat (1 / 2) 8) in
  valid_draw 8 d /\
  bootstrap_default 1 one [d] = Some [map (nth_error one) [5; 6; 7; 0; 1; 2; 3; 4]%nat] /\
  bootstrap_default 2 two [d] = Some [map (nth_error two) [5; 0; 0; 0; 0; 0; 0; 0]%nat].
Proof.
  intros one two d.
  assert (VD : valid_draw 8 d).
  { unfold valid_draw, d. cbn [fst snd]. split; [reflexivity|]. split; [reflexivity|]. split; [intros b Hb; cbn in Hb; lia|].
    intros u Hu. apply repeat_spec in Hu. lra. }
  split; [exact VD|]. split.
  - destruct (C83_default 1 one [d] [3]) as (b & ss & HM & E & F & _).
    + cbn. lia.
    + lia.
    + intros d' [<-|[]]. exact VD.
    + cbn [seq map]. replace (column one 0) with alternating by reflexivity. now rewrite alternating_block.
    + rewrite E. f_equal. assert (b = 3).
      { destruct HM as (s & P & _ & O & _). apply Permutation_length_1_inv in P. subst s. specialize (O ltac:(exists 0%nat; reflexivity)). cbn in O. now injection O. }
      subst b. inversion F as [|? s ? ? (again & -> & A) F' ]; subst. inversion F'; subst. f_equal. f_equal.
      replace again with (repeat true 8); [reflexivity|]. symmetry. clear - A. unfold d in A. cbn [snd] in A.
      assert (G : forall k l, Forall2 (fun u c => c = true <-> 1 <= u * 3) (repeat (1 / 2) k) l -> l = repeat true k).
      { induction k; intros l H; cbn in H; inversion H; subst; [reflexivity|]. cbn. f_equal; [|now apply IHk]. apply H2. lra. }
      now apply G.
  - rewrite (C83_constant_asset_refuted 2 two [d] 1 0).
    + reflexivity.
    + cbn. lia.
    + lia.
    + intros row Hr. unfold two in Hr. apply in_map_iff in Hr. destruct Hr as (v & <- & _). reflexivity.
    + intros d' [<-|[]]. exact VD.
Qed.
