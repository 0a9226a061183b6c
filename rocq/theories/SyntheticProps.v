(** C81: the prior of SyntheticData is the empirical prior of the sampled returns, with white noise on the
    constant columns so that no asset has a null variance. *)
From Coq Require Import Reals String List Arith Bool ZArith Lia Lra.
From Verif Require Import RList MomentsModel SyntheticModel.
Import ListNotations.
Local Open Scope R_scope.

(** * Specification *)

(** average and average squared deviation of T numbers *)
Definition avg (T : nat) (x : nat -> R) : R := sum_over (seq 0 T) x / INR T.
Definition spread (T : nat) (x : nat -> R) : R := avg T (fun t => (x t - avg T x) ^ 2).
(** sample covariance *)
Definition sample_cov (T : nat) (x y : nat -> R) : R :=
  sum_over (seq 0 T) (fun t => (x t - avg T x) * (y t - avg T y)) / (INR T - 1).

(** the return of asset [j] at observation [t] *)
Definition entry (X : list obs) (t j : nat) : R := nth t X (fun _ => 0) j.

(** * Lemmas *)

Lemma so_nth {A} (f : A -> R) d l : sum_over l f = sum_over (seq 0 (length l)) (fun t => f (nth t l d)).
Proof.
  induction l as [|x l IH]; [reflexivity|]. cbn [length seq]. rewrite !so_cons, IH, <- seq_shift, so_map. reflexivity.
Qed.

Lemma mean_avg X j : mean (column X j) = avg (length X) (fun t => entry X t j).
Proof.
  unfold mean, avg, column. rewrite map_length. f_equal. change (rsum (map (fun r => r j) X)) with (sum_over X (fun r => r j)).
  rewrite (so_nth _ (fun _ => 0)). reflexivity.
Qed.

Lemma var_spread X j : var (column X j) = spread (length X) (fun t => entry X t j).
Proof.
  unfold var, spread, avg at 1. rewrite mean_avg. unfold column at 1 2. rewrite map_map, map_length. f_equal.
  match goal with |- rsum (map ?g X) = _ => change (rsum (map g X)) with (sum_over X g) end.
  rewrite (so_nth _ (fun _ => 0)). reflexivity.
Qed.

Lemma cov_sample X i j : cov 1 (column X i) (column X j) = sample_cov (length X) (fun t => entry X t i) (fun t => entry X t j).
Proof.
  unfold cov, sample_cov. rewrite !mean_avg. unfold column. rewrite map_length. cbn [INR]. f_equal.
  set (a := avg _ _). set (b := avg _ _). clearbody a b.
  assert (E : combine (map (fun r : obs => r i) X) (map (fun r => r j) X) = map (fun r => (r i, r j)) X)
    by (induction X; cbn; f_equal; auto).
  rewrite E, map_map. match goal with |- rsum (map ?g X) = _ => change (rsum (map g X)) with (sum_over X g) end.
  rewrite (so_nth _ (fun _ => 0)). reflexivity.
Qed.

Lemma avg_add T x y : avg T (fun t => x t + y t) = avg T x + avg T y.
Proof. unfold avg. rewrite so_add. unfold Rdiv. ring. Qed.
Lemma avg_scal T c x : avg T (fun t => c * x t) = c * avg T x.
Proof. unfold avg. rewrite so_scal. unfold Rdiv. ring. Qed.
Lemma avg_const T c : (0 < T)%nat -> avg T (fun _ => c) = c.
Proof. intros H. unfold avg. rewrite so_const, seq_length. field. apply not_0_INR. lia. Qed.
Lemma avg_ext T x y : (forall t, (t < T)%nat -> x t = y t) -> avg T x = avg T y.
Proof. intros H. unfold avg. f_equal. apply so_ext. intros t Ht. apply in_seq in Ht. apply H. lia. Qed.
Lemma avg_nonneg T x : (0 < T)%nat -> (forall t, 0 <= x t) -> 0 <= avg T x.
Proof. intros H P. unfold avg. apply Rmult_le_pos; [apply so_nonneg; auto|]. left. apply Rinv_0_lt_compat, lt_0_INR, H. Qed.
Lemma spread_ext T x y : (forall t, (t < T)%nat -> x t = y t) -> spread T x = spread T y.
Proof. intros H. unfold spread. rewrite (avg_ext T x y H). apply avg_ext. intros t Ht. now rewrite H. Qed.

(** the standard deviation of a sum is at least the difference of the standard deviations *)
Lemma spread_sum T x y : (0 < T)%nat ->
  sqrt (spread T y) <= sqrt (spread T (fun t => x t + y t)) + sqrt (spread T x).
Proof.
  intros HT. set (z t := x t + y t). set (u t := z t - avg T z). set (v t := x t - avg T x).
  assert (Hy : spread T y = avg T (fun t => (u t - v t) ^ 2)).
  { unfold spread. apply avg_ext. intros t _. unfold u, v, z. rewrite avg_add. f_equal. ring. }
  assert (P : forall f, 0 <= avg T (fun t => f t ^ 2)) by (intros; apply avg_nonneg; auto; intros; apply pow2_ge_0).
  fold z. change (spread T z) with (avg T (fun t => u t ^ 2)). change (spread T x) with (avg T (fun t => v t ^ 2)). rewrite Hy.
  set (U := avg T (fun t => u t ^ 2)). set (V := avg T (fun t => v t ^ 2)).
  assert (HU : 0 <= U) by apply P. assert (HV : 0 <= V) by apply P.
  assert (C : (avg T (fun t => u t * v t)) ^ 2 <= U * V).
  { assert (H := so_cauchy u v (seq 0 T)). unfold U, V, avg, Rdiv. assert (HI : 0 <= (/ INR T) ^ 2) by apply pow2_ge_0.
    replace ((sum_over (seq 0 T) (fun t => u t * v t) * / INR T) ^ 2) with ((sum_over (seq 0 T) (fun t => u t * v t)) ^ 2 * (/ INR T) ^ 2) by ring.
    replace (sum_over (seq 0 T) (fun t => u t ^ 2) * / INR T * (sum_over (seq 0 T) (fun t => v t ^ 2) * / INR T))
      with (sum_over (seq 0 T) (fun t => u t ^ 2) * sum_over (seq 0 T) (fun t => v t ^ 2) * (/ INR T) ^ 2) by ring.
    apply Rmult_le_compat_r; auto. }
  assert (C' : - avg T (fun t => u t * v t) <= sqrt U * sqrt V).
  { rewrite <- sqrt_mult by auto. apply Rsqr_incr_0_var; [|apply sqrt_pos]. rewrite Rsqr_sqrt by (apply Rmult_le_pos; auto).
    unfold Rsqr. lra. }
  apply Rsqr_incr_0_var; [|apply Rplus_le_le_0_compat; apply sqrt_pos]. rewrite Rsqr_sqrt by apply P.
  assert (E : avg T (fun t => (u t - v t) ^ 2) = U + V - 2 * avg T (fun t => u t * v t)).
  { transitivity (avg T (fun t => u t ^ 2 + (v t ^ 2 + (- 2) * (u t * v t)))).
    - apply avg_ext. intros; ring.
    - rewrite avg_add, avg_add, avg_scal. fold U V. ring. }
  rewrite E. unfold Rsqr. assert (SU := sqrt_sqrt U HU). assert (SV := sqrt_sqrt V HV). nra.
Qed.

Lemma spread_scal T c x : spread T (fun t => c * x t) = c ^ 2 * spread T x.
Proof.
  unfold spread. rewrite (avg_scal T c x). rewrite <- (avg_scal T (c ^ 2)). apply avg_ext. intros; ring.
Qed.

(** * C81 *)

(** the columns that are constant up to 1e-7 receive the noise, the others are kept *)
Theorem C81_returns : forall n_assets X z,
  length z = length X ->
  length (perturbed n_assets z X) = length X /\
  forall t j, (t < length X)%nat -> (j < n_assets)%nat ->
    (spread (length X) (fun t => entry X t j) < / 100000000000000 ->
       entry (perturbed n_assets z X) t j = entry X t j + / 1000000 * nth t z 0) /\
    (/ 100000000000000 <= spread (length X) (fun t => entry X t j) ->
       entry (perturbed n_assets z X) t j = entry X t j).
Proof.
  intros n X z Hz. unfold perturbed.
  assert (Cs : forall j, constant X j = true <-> spread (length X) (fun t => entry X t j) < / 100000000000000).
  { intros j. unfold constant. rewrite var_spread. destruct (Rlt_dec _ _); split; auto; try discriminate; intros; contradiction. }
  destruct (existsb (constant X) (seq 0 n)) eqn:E.
  - split; [rewrite map_length, combine_length; lia|]. intros t j Ht Hj.
    assert (En : entry (map (fun rz : obs * R => fun j => if constant X j then fst rz j + / 1000000 * snd rz else fst rz j) (combine X z)) t j
                 = if constant X j then entry X t j + / 1000000 * nth t z 0 else entry X t j).
    { set (g := fun rz : obs * R => fun j => if constant X j then fst rz j + / 1000000 * snd rz else fst rz j). unfold entry.
      rewrite (nth_indep _ (fun _ => 0) (g ((fun _ => 0), 0))) by (rewrite map_length, combine_length; lia).
      rewrite map_nth, combine_nth by auto. reflexivity. }
    rewrite En. specialize (Cs j). destruct (constant X j).
    + split; [auto|]. intros H. assert (H' := proj1 Cs eq_refl). lra.
    + split; [|auto]. intros H. apply Cs in H. discriminate.
  - split; auto. intros t j Ht Hj. split; auto. intros H. apply Cs in H. exfalso.
    assert (existsb (constant X) (seq 0 n) = true); [|congruence]. apply existsb_exists. exists j. split; auto. apply in_seq. lia.
Qed.
Print Assumptions C81_returns.

(** the prior: sample means and sample covariance of these returns; a distribution estimator without a sample method
    that accepts n_samples raises *)
Theorem C81_prior : forall n_assets params sample z n_samples,
  (fit n_assets params sample z n_samples <> None <-> exists ps, params = Some ps /\ In "n_samples"%string ps) /\
  forall p, fit n_assets params sample z n_samples = Some p ->
    let X := perturbed n_assets z (sample n_samples) in
    returns p = X /\
    ((0 < length X)%nat -> exists m, mu p = Value m /\ forall j, m j = avg (length X) (fun t => entry X t j)) /\
    (forall c, covariance p = Value c -> forall i j, c i j = sample_cov (length X) (fun t => entry X t i) (fun t => entry X t j)).
Proof.
  intros n ps s z k. unfold fit, check_sample_method. split.
  - split.
    + destruct ps as [ps|]; [|congruence]. intros H. exists ps. split; auto.
      destruct (existsb (String.eqb "n_samples") ps) eqn:E; [|congruence]. apply existsb_exists in E as (x & I & E).
      apply String.eqb_eq in E. now subst.
    + intros (l & -> & I). assert (existsb (String.eqb "n_samples") l = true) as ->; [|discriminate].
      apply existsb_exists. exists "n_samples"%string. split; auto.
  - intros p H. set (X := perturbed n z (s k)) in *. destruct (match ps with Some ps => _ | None => false end); [|discriminate]. injection H as <-. cbn [returns mu covariance]. split; [reflexivity|]. split.
    + intros HX. unfold empirical_mu. cbn [window]. destruct (Nat.eqb_spec (length X) 0); [lia|].
      eexists. split; [reflexivity|]. intros j. apply mean_avg.
    + intros c. unfold empirical_covariance. cbn [window]. destruct (n =? 1)%nat; [discriminate|].
      destruct (length X <=? 1)%nat; [discriminate|]. unfold checked. destruct (too_small _ _); [discriminate|].
      intros [= <-] i j. apply cov_sample.
Qed.
Print Assumptions C81_prior.

Lemma sample_cov_spread T x : (2 <= T)%nat -> sample_cov T x x = spread T x * (INR T / (INR T - 1)).
Proof.
  intros H. assert (HI := le_INR _ _ H). cbn in HI. unfold sample_cov, spread, avg at 3.
  rewrite (so_ext _ (fun t => (x t - avg T x) ^ 2)) by (intros; ring). field. split; lra.
Qed.

(** With noise of a standard deviation of at least 0.2 (its expected value is 1) every asset has a variance of at
    least 1e-14 and the covariance estimator accepts the returns, whatever the sampled returns. *)
Theorem C81_no_null_variance : forall n_assets ps sample z n_samples,
  let X := sample n_samples in
  n_assets <> 1%nat -> (2 <= length X)%nat -> length z = length X -> 1 / 5 <= sqrt (spread (length X) (fun t => nth t z 0)) ->
  In "n_samples"%string ps ->
  exists p c, fit n_assets (Some ps) sample z n_samples = Some p /\ covariance p = Value c /\
    forall j, (j < n_assets)%nat -> / 100000000000000 <= c j j.
Proof.
  intros n ps s z k X Hn HT Hz Hs Hps.
  destruct (C81_prior n (Some ps) s z k) as [A _].
  assert (F : fit n (Some ps) s z k <> None) by (apply A; eauto). clear A.
  unfold fit in *. destruct (check_sample_method (Some ps)); [|congruence]. clear F.
  destruct (C81_returns n X z Hz) as [L E]. set (Y := perturbed n z X) in *.
  assert (V : forall j, (j < n)%nat -> / 100000000000000 <= sample_cov (length Y) (fun t => entry Y t j) (fun t => entry Y t j)).
  { intros j Hj. rewrite sample_cov_spread by lia. rewrite L. set (T := length X) in *.
    assert (HI := le_INR _ _ HT). cbn in HI. assert (HR : 1 <= INR T / (INR T - 1)).
    { apply (Rmult_le_reg_r (INR T - 1)); [lra|]. unfold Rdiv. rewrite Rmult_assoc, Rinv_l by lra. lra. }
    assert (Sp : / 100000000000000 <= spread T (fun t => entry Y t j)).
    { destruct (Rlt_le_dec (spread T (fun t => entry X t j)) (/ 100000000000000)) as [C|C].
      - rewrite (spread_ext T _ (fun t => entry X t j + / 1000000 * nth t z 0)) by (intros t Ht; apply E; auto).
        assert (M := spread_sum T (fun t => entry X t j) (fun t => / 1000000 * nth t z 0) ltac:(lia)).
        rewrite spread_scal in M. rewrite sqrt_mult_alt in M by apply pow2_ge_0. rewrite sqrt_pow2 in M by lra.
        set (a := spread T (fun t => entry X t j + / 1000000 * nth t z 0)) in *.
        assert (Sx : sqrt (spread T (fun t => entry X t j)) <= / 10000000).
        { rewrite <- (sqrt_pow2 (/ 10000000)) by lra. apply sqrt_le_1_alt. lra. }
        assert (Sa : / 10000000 <= sqrt a) by lra.
        assert (Pa : 0 <= a). { apply avg_nonneg; [lia|]. intros; apply pow2_ge_0. }
        rewrite <- (sqrt_sqrt a Pa). nra.
      - rewrite (spread_ext T _ (fun t => entry X t j)) by (intros t Ht; apply E; auto). exact C. }
    nra. }
  eexists. exists (fun i j => cov 1 (column Y i) (column Y j)). split; [reflexivity|]. cbn [covariance]. fold X. fold Y. split.
  - unfold empirical_covariance. cbn [window]. destruct (Nat.eqb_spec n 1); [contradiction|].
    destruct (Nat.leb_spec (length Y) 1); [lia|]. unfold checked.
    destruct (too_small n (fun i j => cov 1 (column Y i) (column Y j))) eqn:Ts; [|reflexivity]. exfalso.
    unfold too_small in Ts. apply existsb_exists in Ts as (j & I & C). apply in_seq in I.
    destruct (Rlt_dec _ tiny) as [C'|]; [|discriminate]. rewrite cov_sample in C'. specialize (V j ltac:(lia)).
    unfold tiny in C'. lra.
  - intros j Hj. rewrite cov_sample. now apply V.
Qed.
Print Assumptions C81_no_null_variance.

(** Two assets that are exactly constant in the sample (two conditioned assets) receive the same noise: the
    covariance matrix is singular, their difference has no variance at all whatever their returns. *)
Theorem C81_two_constant_assets : forall n_assets ps sample z n_samples p c i j a b,
  let X := sample n_samples in
  (i < n_assets)%nat -> (j < n_assets)%nat -> (2 <= length X)%nat -> length z = length X ->
  (forall t, (t < length X)%nat -> entry X t i = a /\ entry X t j = b) ->
  fit n_assets ps sample z n_samples = Some p -> covariance p = Value c ->
  c i i - 2 * c i j + c j j = 0 /\ c i j * c i j = c i i * c j j.
Proof.
  intros n ps s z k p c i j a b X Hi Hj HT Hz Hc HF Hv.
  destruct (C81_prior n ps s z k) as [_ A]. destruct (A p HF) as (_ & _ & B). specialize (B c Hv). cbv zeta in B.
  destruct (C81_returns n X z Hz) as [L E]. fold X in B. set (Y := perturbed n z X) in *. rewrite L in B. set (T := length X) in *.
  assert (Z0 : forall l d, (forall t, (t < T)%nat -> entry X t l = d) -> spread T (fun t => entry X t l) < / 100000000000000).
  { intros l d H. rewrite (spread_ext T _ (fun _ => d)) by auto. unfold spread. rewrite !avg_const by lia.
    replace ((d - d) ^ 2) with 0 by ring. lra. }
  assert (Yi : forall t, (t < T)%nat -> entry Y t i = a + / 1000000 * nth t z 0).
  { intros t Ht. destruct (E t i Ht Hi) as [E1 _]. rewrite E1; [f_equal; now apply Hc|]. apply (Z0 i a). intros; now apply Hc. }
  assert (Yj : forall t, (t < T)%nat -> entry Y t j = b + / 1000000 * nth t z 0).
  { intros t Ht. destruct (E t j Ht Hj) as [E1 _]. rewrite E1; [f_equal; now apply Hc|]. apply (Z0 j b). intros; now apply Hc. }
  set (e t := / 1000000 * nth t z 0).
  assert (Q : forall l m u v, (forall t, (t < T)%nat -> entry Y t l = u + e t) -> (forall t, (t < T)%nat -> entry Y t m = v + e t) ->
              c l m = sample_cov T e e).
  { intros l m u v H1 H2. rewrite B. unfold sample_cov. f_equal. rewrite (avg_ext T _ _ H1), (avg_ext T _ _ H2), !avg_add, !avg_const by lia.
    apply so_ext. intros t Ht. apply in_seq in Ht. rewrite H1, H2 by lia. ring. }
  rewrite (Q i i a a), (Q i j a b), (Q j j b b) by auto. split; ring.
Qed.
Print Assumptions C81_two_constant_assets.

(** * Concrete case and finding *)
Definition ex_row : obs := fun j => if (j =? 0)%nat then 1 else 2.
Definition ex_rows : list obs := [ex_row; ex_row].
Definition ex_noise : list R := [1; -1].

Lemma ex_noise_spread : spread 2 (fun t => nth t ex_noise 0) = 1.
Proof. unfold spread, avg, sum_over. cbn. field. Qed.

Example C81_applies : exists p c, fit 2 (Some ["n_samples"]%string) (fun _ => ex_rows) ex_noise 2 = Some p /\ covariance p = Value c /\
  forall j, (j < 2)%nat -> / 100000000000000 <= c j j.
Proof.
  apply (C81_no_null_variance 2 ["n_samples"]%string (fun _ => ex_rows) ex_noise 2); try (cbn; lia); auto.
  - cbn [ex_rows length]. rewrite ex_noise_spread, sqrt_1. lra.
  - now left.
Qed.

Theorem C81_singular_refuted : exists n_assets ps sample z n_samples p c (w : nat -> R),
  1 / 5 <= sqrt (spread (length (sample n_samples)) (fun t => nth t z 0)) /\
  fit n_assets ps sample z n_samples = Some p /\ covariance p = Value c /\ n_assets = 2%nat /\
  w 0%nat <> 0 /\ w 0%nat * w 0%nat * c 0%nat 0%nat + 2 * w 0%nat * w 1%nat * c 0%nat 1%nat + w 1%nat * w 1%nat * c 1%nat 1%nat = 0.
Proof.
  destruct C81_applies as (p & c & F & V & _).
  exists 2%nat, (Some ["n_samples"]%string), (fun _ => ex_rows), ex_noise, 2%nat, p, c, (fun i => if (i =? 0)%nat then 1 else -1).
  split; [cbn [ex_rows length]; rewrite ex_noise_spread, sqrt_1; lra|]. split; [exact F|]. split; [exact V|]. split; [reflexivity|].
  cbn [Nat.eqb]. split; [lra|].
  destruct (C81_two_constant_assets 2 (Some ["n_samples"]%string) (fun _ => ex_rows) ex_noise 2 p c 0 1 1 2) as [H _]; auto.
  - cbn. intros t Ht. destruct t as [|[|t]]; [split; reflexivity..|lia].
  - lra.
Qed.
Print Assumptions C81_singular_refuted.
