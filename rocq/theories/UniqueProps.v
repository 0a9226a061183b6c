(** C96: mixtures of allowed weights, and when the optimal weights do not depend on the solver. *)
From Coq Require Import List Arith Bool Reals Lia Lra FunctionalExtensionality.
From Verif Require Import RList MeasuresModel MeasuresProofs EquationsModel EquationsSpec EquationsProps ConvexModel ConvexProps ConvexMoreProps RiskModel RiskProps RiskTailProps MeanRiskModel MeanRiskProps MeanRiskOptimalProps SolveModel SolveProps StaticsProps MaxDivModel MaxDivProps.
Import ListNotations.
Local Open Scope R_scope.

(** * Specification *)
(** t of the first portfolio and 1 - t of the second *)
Definition mixture (t : R) (x y : vec) : vec := fun i => t * x i + (1 - t) * y i.
(** the input is convex: penalties and aversion are not negative, nor is the size of the uncertainty set, there are two observations at least,
    and no transaction cost when the Gini mean difference is used (its constraints are equalities on the net returns) *)
Record convex_input (q : mean_risk) : Prop := {
  l1_nonneg : 0 <= l1_ q; l2_nonneg : 0 <= l2_ q; aversion_nonneg : 0 <= risk_aversion_ q;
  size_nonneg : opt (mu_uncertainty_ q) (fun kr => 0 <= fst kr); costs_nonneg : costs_ok (settings_ q); two_observations : (2 <= n_obs (prior_ q))%nat;
  gini_without_cost : risk_measure_ q = GINI_MEAN_DIFFERENCE \/ limits_ q GINI_MEAN_DIFFERENCE <> None -> forall i, (i < n_assets (prior_ q))%nat -> value (costs (settings_ q)) i = 0 }.
Definition positive_definite (n : nat) (cov : nat -> vec) : Prop :=
  forall d : vec, (exists i, (i < n)%nat /\ d i <> 0) -> 0 < sum_over (seq 0 n) (fun i => sum_over (seq 0 n) (fun j => d i * cov i j * d j)).

(** * Lemmas *)
(** ** Sums *)
Lemma sumn_add n f g : sumn n (fun i => f i + g i) = sumn n f + sumn n g. Proof. apply so_add. Qed.
Lemma minkowski n f g : sqrt (sumn n (fun i => (f i + g i) ^ 2)) <= sqrt (sumn n (fun i => f i ^ 2)) + sqrt (sumn n (fun i => g i ^ 2)).
Proof.
  set (a := sumn n (fun i => f i ^ 2)). set (b := sumn n (fun i => g i ^ 2)). set (c := sumn n (fun i => f i * g i)).
  assert (Ha : 0 <= a) by apply sumsq_nonneg. assert (Hb : 0 <= b) by apply sumsq_nonneg.
  assert (E : sumn n (fun i => (f i + g i) ^ 2) = a + 2 * c + b).
  { unfold a, b, c. rewrite (sumn_ext n _ (fun i => (f i ^ 2 + 2 * (f i * g i)) + g i ^ 2)) by (intros; ring). rewrite !sumn_add, sumn_scal. ring. }
  rewrite E. pose proof (so_cauchy f g (seq 0 n)) as C. fold (sumn n (fun i => f i * g i)) (sumn n (fun i => f i ^ 2)) (sumn n (fun i => g i ^ 2)) in C. fold a b c in C.
  assert (Cs : c <= sqrt a * sqrt b). { rewrite <- sqrt_mult by assumption. destruct (Rle_dec c 0) as [N|N]; [eapply Rle_trans; [exact N|apply sqrt_pos]|]. rewrite <- (sqrt_pow2 c) by lra. apply sqrt_le_1_alt. exact C. }
  rewrite <- (sqrt_pow2 (sqrt a + sqrt b)) by (pose proof (sqrt_pos a); pose proof (sqrt_pos b); lra). apply sqrt_le_1_alt.
  pose proof (sqrt_sqrt a Ha). pose proof (sqrt_sqrt b Hb). nra.
Qed.
(** ** The exponential cone *)
Lemma exp_tangent s m : exp m * (1 + s - m) <= exp s.
Proof. replace s with (m + (s - m)) at 2 by ring. rewrite exp_plus. apply Rmult_le_compat_l; [left; apply exp_pos|]. pose proof (exp_ineq1_le (s - m)). lra. Qed.
Lemma cone_add x y z x' y' z' :
  (0 < y /\ y * exp (x / y) <= z) \/ (y = 0 /\ x <= 0 /\ 0 <= z) -> (0 < y' /\ y' * exp (x' / y') <= z') \/ (y' = 0 /\ x' <= 0 /\ 0 <= z') ->
  (0 < y + y' /\ (y + y') * exp ((x + x') / (y + y')) <= z + z') \/ (y + y' = 0 /\ x + x' <= 0 /\ 0 <= z + z').
Proof.
  assert (G : forall x y x' z, 0 < y -> y * exp (x / y) <= z -> x' <= 0 -> y * exp ((x + x') / y) <= z).
  { clear. intros x y x' z Hy H Hx. eapply Rle_trans; [|exact H]. apply Rmult_le_compat_l; [lra|]. assert ((x + x') / y <= x / y) by (unfold Rdiv; apply Rmult_le_compat_r; [left; apply Rinv_0_lt_compat; exact Hy|lra]).
    destruct (Req_dec ((x + x') / y) (x / y)) as [->|N]; [right; reflexivity|]. left. apply exp_increasing. lra. }
  intros [[H1 H2]|(->&H2&H3)] [[H1' H2']|(->&H2'&H3')].
  - left. split; [lra|]. set (m := (x + x') / (y + y')). pose proof (exp_tangent (x / y) m) as A. pose proof (exp_tangent (x' / y') m) as B.
    assert (A' : exp m * (y + x - m * y) <= y * exp (x / y)). { replace (exp m * (y + x - m * y)) with (y * (exp m * (1 + x / y - m))) by (field; lra). apply Rmult_le_compat_l; lra. }
    assert (B' : exp m * (y' + x' - m * y') <= y' * exp (x' / y')). { replace (exp m * (y' + x' - m * y')) with (y' * (exp m * (1 + x' / y' - m))) by (field; lra). apply Rmult_le_compat_l; lra. }
    assert (M : m * (y + y') = x + x') by (unfold m; field; lra).
    replace ((y + y') * exp m) with (exp m * (y + x - m * y) + exp m * (y' + x' - m * y')); [lra|]. replace (exp m * (y + x - m * y) + exp m * (y' + x' - m * y')) with (exp m * (y + y' + (x + x') - m * (y + y'))) by ring. rewrite M. ring.
  - left. rewrite Rplus_0_r. split; [exact H1|]. pose proof (G x y x' z H1 H2 H2'). lra.
  - left. rewrite Rplus_0_l. split; [exact H1'|]. pose proof (G x' y' x z' H1' H2' H2) as K. rewrite (Rplus_comm x' x) in K. lra.
  - right. split; [ring|]. lra.
Qed.
(** ** Adding two points of the constraints of a risk measure *)
Definition vadd (x y : vec) : vec := fun i => x i + y i.
Definition aadd (a b : aux) : aux :=
  {| alpha := alpha a + alpha b; u := u a + u b; ex := ex a + ex b; ey := ey a + ey b; v := vadd (v a) (v b); z := vadd (z a) (z b); gx := vadd (gx a) (gx b); gy := vadd (gy a) (gy b); dd := vadd (dd a) (dd b) |}.
Section Add.
  Variables (pm : prior) (st : settings).
  Hypothesis Hc : costs_ok st.
  Hypothesis Hs : 0 < scale st.
  Lemma ptf_add w w' k : ptf_returns pm (vadd w w') k = ptf_returns pm w k + ptf_returns pm w' k.
  Proof. unfold ptf_returns, vadd. rewrite <- sumn_add. apply sumn_ext. intros; ring. Qed.
  Lemma mar_add w w' k : min_acceptable pm st (vadd w w') k = min_acceptable pm st w k + min_acceptable pm st w' k.
  Proof. unfold min_acceptable, vadd. rewrite <- sumn_add. apply sumn_ext. intros; ring. Qed.
  Lemma fee_add w w' : fee pm st (vadd w w') = fee pm st w + fee pm st w'.
  Proof. unfold fee, management_fee, vadd. rewrite <- sumn_add. apply sumn_ext. intros; ring. Qed.
  Lemma cost_add w f w' f' : cost pm st (vadd w w') (f + f') <= cost pm st w f + cost pm st w' f'.
  Proof.
    unfold cost, transaction_cost, vadd. destruct (all _ _); [lra|]. unfold costs_ok in Hc. destruct (costs st) as [c|c]; cbn [value] in *.
    - specialize (Hc 0%nat). rewrite <- Rmult_plus_distr_l, <- sumn_add. apply Rmult_le_compat_l; [exact Hc|]. apply so_le. intros i _.
      replace (value (previous st) i * (f + f') - (w i + w' i)) with ((value (previous st) i * f - w i) + (value (previous st) i * f' - w' i)) by ring. apply Rabs_triang.
    - rewrite <- sumn_add. apply so_le. intros i _.
      replace (c i * (value (previous st) i * (f + f') - (w i + w' i))) with (c i * (value (previous st) i * f - w i) + c i * (value (previous st) i * f' - w' i)) by ring. apply Rabs_triang.
  Qed.
  Lemma cost_zero w f : (forall i, (i < n_assets pm)%nat -> value (costs st) i = 0) -> cost pm st w f = 0.
  Proof.
    intros H. unfold cost, transaction_cost. replace (all (n_assets pm) _) with true; [reflexivity|]. symmetry. unfold all. apply forallb_forall. intros i Hi. apply in_seq in Hi. unfold eqb0. destruct (Req_EM_T _ 0) as [|N]; [reflexivity|]. exfalso. apply N. apply H. lia.
  Qed.
  Lemma nonneg_add x y : Forall holds_at (nonneg pm x) -> Forall holds_at (nonneg pm y) -> Forall holds_at (nonneg pm (vadd x y)).
  Proof. unfold nonneg. rewrite !elementwise_holds. cbn. unfold vadd. intros H H' k Hk. specialize (H k Hk). specialize (H' k Hk). lra. Qed.
  Lemma dd_add w f a w' f' b : Forall holds_at (drawdown_constraints pm st w f a) -> Forall holds_at (drawdown_constraints pm st w' f' b) ->
    Forall holds_at (drawdown_constraints pm st (vadd w w') (f + f') (aadd a b)).
  Proof.
    unfold drawdown_constraints. rewrite !Forall_app, !elementwise_holds. cbn [holds_at aadd dd]. intros (H1&H2&H3) (H1'&H2'&H3'). pose proof (cost_add w f w' f') as C. split; [|split].
    - intros k Hk. specialize (H1 k Hk). specialize (H1' k Hk). rewrite ptf_add, fee_add. set (K := cost pm st (vadd w w') (f + f')) in *. unfold vadd. nra.
    - intros k Hk. specialize (H2 k Hk). specialize (H2' k Hk). unfold vadd. lra.
    - inversion H3 as [|? ? E _]; subst. inversion H3' as [|? ? E' _]; subst. cbn in E, E'. constructor; [|constructor]. cbn. unfold vadd. rewrite Rmult_plus_distr_r, E, E'. ring.
  Qed.
  Lemma deviation_add w w' : sqrt (sumn (n_assets pm) (fun k => (sumn (n_assets pm) (fun i => cholesky pm i k * vadd w w' i) * scale st) ^ 2))
    <= sqrt (sumn (n_assets pm) (fun k => (sumn (n_assets pm) (fun i => cholesky pm i k * w i) * scale st) ^ 2)) + sqrt (sumn (n_assets pm) (fun k => (sumn (n_assets pm) (fun i => cholesky pm i k * w' i) * scale st) ^ 2)).
  Proof.
    eapply Rle_trans; [|apply minkowski]. right. f_equal. apply sumn_ext. intros k _. f_equal. rewrite <- Rmult_plus_distr_r, <- sumn_add. f_equal. apply sumn_ext. intros i _. unfold vadd. ring.
  Qed.
  Lemma risk_add rm w f a w' f' b : (rm = GINI_MEAN_DIFFERENCE -> forall i, (i < n_assets pm)%nat -> value (costs st) i = 0) ->
    feasible_risk pm st rm w f a -> feasible_risk pm st rm w' f' b -> feasible_risk pm st rm (vadd w w') (f + f') (aadd a b).
  Proof.
    intros Hg. pose proof (cost_add w f w' f') as C. unfold feasible_risk.
    destruct rm; cbn [risk_constraints]; rewrite ?Forall_app, ?elementwise_holds; cbn [holds_at aadd v u alpha ex ey z gx gy dd].
    - intros [H1 H2] [H1' H2']. split; [apply nonneg_add; assumption|]. intros k Hk. specialize (H2 k Hk). specialize (H2' k Hk). rewrite mar_add. unfold vadd. lra.
    - intros [H1 H2] [H1' H2']. split; [apply nonneg_add; assumption|]. intros k Hk. specialize (H2 k Hk). specialize (H2' k Hk). rewrite mar_add. unfold vadd. lra.
    - intros H H'. inversion H as [|? ? A1 A2]; subst. inversion A2 as [|? ? A3 _]; subst. inversion H' as [|? ? B1 B2]; subst. inversion B2 as [|? ? B3 _]; subst. cbn [holds_at] in *. constructor; [cbn; lra|]. constructor; [|constructor]. cbn [holds_at]. eapply Rle_trans; [apply deviation_add|]. rewrite Rmult_plus_distr_r. apply Rplus_le_compat; assumption.
    - intros H H'. inversion H as [|? ? A1 A2]; subst. inversion A2 as [|? ? A3 _]; subst. inversion H' as [|? ? B1 B2]; subst. inversion B2 as [|? ? B3 _]; subst. cbn [holds_at] in *. constructor; [cbn; lra|]. constructor; [|constructor]. cbn [holds_at]. eapply Rle_trans; [apply deviation_add|]. rewrite Rmult_plus_distr_r. apply Rplus_le_compat; assumption.
    - intros [H1 H2] [H1' H2']. split; [apply nonneg_add; assumption|]. intros k Hk. specialize (H2 k Hk). specialize (H2' k Hk). rewrite mar_add. unfold vadd. lra.
    - intros [H1 H2] [H1' H2']. split; [apply nonneg_add; assumption|]. intros k Hk. specialize (H2 k Hk). specialize (H2' k Hk). rewrite mar_add. unfold vadd. lra.
    - intros H H' k Hk. specialize (H k Hk). specialize (H' k Hk). cbn beta in *. rewrite ptf_add, fee_add. nra.
    - intros [H1 H2] [H1' H2']. split; [apply nonneg_add; assumption|]. intros k Hk. specialize (H2 k Hk). specialize (H2' k Hk). cbn beta in *. rewrite ptf_add, fee_add. set (K := cost pm st (vadd w w') (f + f')) in *. unfold vadd. nra.
    - intros [H1 H2] [H1' H2']. inversion H1 as [|? ? A1 A2]; subst. inversion A2 as [|? ? A3 _]; subst. inversion H1' as [|? ? B1 B2]; subst. inversion B2 as [|? ? B3 _]; subst. cbn [holds_at] in *. split.
      + constructor; [cbn; lra|constructor; [|constructor]]. cbn [holds_at]. unfold vadd. rewrite sumn_add. lra.
      + intros k Hk. specialize (H2 k Hk). specialize (H2' k Hk). cbn beta in *. rewrite ptf_add, fee_add. unfold vadd.
        replace (- (ptf_returns pm w k + ptf_returns pm w' k) * scale st + (fee pm st w + fee pm st w') * scale st - (ex a + ex b) * scale st)
          with ((- ptf_returns pm w k * scale st + fee pm st w * scale st - ex a * scale st) + (- ptf_returns pm w' k * scale st + fee pm st w' * scale st - ex b * scale st)) by ring.
        rewrite (Rmult_plus_distr_r (ey a) (ey b)), (Rmult_plus_distr_r (z a k) (z b k)). apply cone_add; assumption.
    - intros [H1 H2] [H1' H2']. split; [apply dd_add; assumption|]. intros k Hk. specialize (H2 k Hk). specialize (H2' k Hk). unfold vadd. lra.
    - intros H H'. apply dd_add; assumption.
    - intros (H1&H2&H3) (H1'&H2'&H3'). split; [apply nonneg_add; assumption|]. split; [apply dd_add; assumption|]. intros k Hk. specialize (H3 k Hk). specialize (H3' k Hk). unfold vadd. lra.
    - intros (H1&H2&H3&H4) (H1'&H2'&H3'&H4'). inversion H1 as [|? ? A1 _]; subst. inversion H3 as [|? ? A3 _]; subst. inversion H1' as [|? ? B1 _]; subst. inversion H3' as [|? ? B3 _]; subst. cbn [holds_at] in *. split; [|split; [|split]].
      + constructor; [cbn; lra|constructor].
      + apply dd_add; assumption.
      + constructor; [|constructor]. cbn [holds_at]. unfold vadd. rewrite sumn_add. lra.
      + intros k Hk. specialize (H4 k Hk). specialize (H4' k Hk). cbn beta in *. unfold vadd.
        replace ((dd a (S k) + dd b (S k)) * scale st - (ex a + ex b) * scale st) with ((dd a (S k) * scale st - ex a * scale st) + (dd b (S k) * scale st - ex b * scale st)) by ring.
        rewrite (Rmult_plus_distr_r (ey a) (ey b)), (Rmult_plus_distr_r (z a k) (z b k)). apply cone_add; assumption.
    - intros H H'. apply dd_add; assumption.
    - specialize (Hg eq_refl). intros [H1 H2] [H1' H2']. split.
      + intros k Hk. specialize (H1 k Hk). specialize (H1' k Hk). cbn beta in *. rewrite (cost_zero w f Hg) in H1. rewrite (cost_zero w' f' Hg) in H1'. rewrite (cost_zero (vadd w w') (f + f') Hg). rewrite ptf_add, fee_add. unfold vadd. lra.
      + rewrite Forall_flat_map, Forall_forall in *. intros i Hi. specialize (H2 i Hi). specialize (H2' i Hi). rewrite elementwise_holds in *. cbn [holds_at] in *. intros k Hk. specialize (H2 k Hk). specialize (H2' k Hk). unfold vadd. lra.
  Qed.
End Add.

(** ** Mixtures *)
Lemma mixture_vadd t x y : mixture t x y = vadd (svec t x) (svec (1 - t) y). Proof. reflexivity. Qed.
Lemma sq_mix t a b : 0 <= t <= 1 -> (t * a + (1 - t) * b) ^ 2 <= t * a ^ 2 + (1 - t) * b ^ 2.
Proof. intros Ht. assert (0 <= t * (1 - t) * (a - b) ^ 2) by (apply Rmult_le_pos; [nra|apply pow2_ge_0]). nra. Qed.
Lemma sumsq_mix n t f g : 0 <= t <= 1 -> sumn n (fun i => (t * f i + (1 - t) * g i) ^ 2) <= t * sumn n (fun i => f i ^ 2) + (1 - t) * sumn n (fun i => g i ^ 2).
Proof. intros Ht. rewrite <- !sumn_scal, <- sumn_add. apply so_le. intros i _. apply sq_mix. exact Ht. Qed.
Lemma norm_mix n t f g : 0 <= t <= 1 -> sqrt (sumn n (fun i => (t * f i + (1 - t) * g i) ^ 2)) <= t * sqrt (sumn n (fun i => f i ^ 2)) + (1 - t) * sqrt (sumn n (fun i => g i ^ 2)).
Proof.
  intros Ht. eapply Rle_trans; [apply (minkowski n (fun i => t * f i) (fun i => (1 - t) * g i))|].
  assert (S : forall c (h : vec), 0 <= c -> sqrt (sumn n (fun i => (c * h i) ^ 2)) = c * sqrt (sumn n (fun i => h i ^ 2))).
  { intros c h Hc. rewrite sumsq_scale, sqrt_mult by (apply pow2_ge_0 || apply sumsq_nonneg). rewrite sqrt_pow2 by exact Hc. reflexivity. }
  rewrite !S by lra. lra.
Qed.
Lemma value_mix pm st rm t w f w0 f0 w' f' a b : 0 <= t <= 1 -> (rm = SEMI_VARIANCE \/ rm = SEMI_DEVIATION \/ rm = ULCER_INDEX -> (2 <= n_obs pm)%nat) ->
  risk_value pm st rm w0 f0 (aadd (saux t a) (saux (1 - t) b)) <= t * risk_value pm st rm w f a + (1 - t) * risk_value pm st rm w' f' b.
Proof.
  intros Ht HT. assert (PT : (2 <= n_obs pm)%nat -> 1 <= INR (n_obs pm) - 1) by (intros H; apply le_INR in H; cbn in H; lra).
  destruct rm; try (specialize (PT (HT ltac:(tauto)))); cbn [risk_value aadd saux v u alpha ex ey z gx gy dd]; unfold vadd, svec; rewrite ?sumn_add, ?sumn_scal; unfold Rdiv; try lra.
  - apply sq_mix. exact Ht.
  - rewrite <- !Rmult_assoc, <- Rmult_plus_distr_r. apply Rmult_le_compat_r; [left; apply Rinv_0_lt_compat; lra|]. apply sumsq_mix. exact Ht.
  - rewrite <- !Rmult_assoc, <- Rmult_plus_distr_r. apply Rmult_le_compat_r; [left; apply Rinv_0_lt_compat, sqrt_lt_R0; lra|]. apply norm_mix. exact Ht.
  - rewrite <- !Rmult_assoc, <- Rmult_plus_distr_r. apply Rmult_le_compat_r; [left; apply Rinv_0_lt_compat, sqrt_lt_R0; lra|]. apply (norm_mix _ t (fun k => dd a (S k)) (fun k => dd b (S k))). exact Ht.
Qed.
Lemma mix_one t x : t = 1 -> forall y, mixture t x y = x. Proof. intros -> y. extensionality i. unfold mixture. ring. Qed.
Lemma mix_zero t y : t = 0 -> forall x, mixture t x y = y. Proof. intros -> x. extensionality i. unfold mixture. ring. Qed.
Lemma at_most_mix q rm t x y rx ry : 0 < scale (settings_ q) -> costs_ok (settings_ q) -> (2 <= n_obs (prior_ q))%nat ->
  (rm = GINI_MEAN_DIFFERENCE -> forall i, (i < n_assets (prior_ q))%nat -> value (costs (settings_ q)) i = 0) -> 0 <= t <= 1 ->
  risk_at_most q rm x rx -> risk_at_most q rm y ry -> risk_at_most q rm (mixture t x y) (t * rx + (1 - t) * ry).
Proof.
  intros Hs Hc HT Hg Ht (a&Ha&Va) (b&Hb&Vb).
  destruct (Req_dec t 1) as [E|E]; [rewrite (mix_one t x E y); exists a; split; [exact Ha|rewrite E; lra]|].
  destruct (Req_dec t 0) as [E0|E0]; [rewrite (mix_zero t y E0 x); exists b; split; [exact Hb|rewrite E0; lra]|].
  exists (aadd (saux t a) (saux (1 - t) b)). split.
  - rewrite mixture_vadd. assert (F : forall w c, feasible_risk (prior_ q) (settings_ q) rm w (t * 1 + (1 - t) * 1) c -> feasible_risk (prior_ q) (settings_ q) rm w 1 c) by (intros w c; replace (t * 1 + (1 - t) * 1) with 1 by ring; auto).
    apply F, risk_add; auto; apply risk_homogeneous; auto; lra.
  - eapply Rle_trans; [apply (value_mix _ _ rm t x 1 _ _ y 1 a b Ht (fun _ => HT))|]. apply Rplus_le_compat; apply Rmult_le_compat_l; lra.
Qed.
Lemma abs_mix t a b : 0 <= t <= 1 -> Rabs (t * a + (1 - t) * b) <= t * Rabs a + (1 - t) * Rabs b.
Proof. intros Ht. eapply Rle_trans; [apply Rabs_triang|]. rewrite !Rabs_mult, (Rabs_right t), (Rabs_right (1 - t)) by lra. lra. Qed.
Lemma max_mix t a b : 0 <= t <= 1 -> Rmax (t * a + (1 - t) * b) 0 <= t * Rmax a 0 + (1 - t) * Rmax b 0.
Proof. intros Ht. pose proof (Rmax_l a 0). pose proof (Rmax_r a 0). pose proof (Rmax_l b 0). pose proof (Rmax_r b 0). apply Rmax_lub; nra. Qed.
Lemma so_mix {A} t (f g : A -> R) l : sum_over l (fun i => t * f i + (1 - t) * g i) = t * sum_over l f + (1 - t) * sum_over l g.
Proof. rewrite so_add, !so_scal. reflexivity. Qed.
Lemma so_mix_le {A} t (h f g : A -> R) l : (forall i, h i <= t * f i + (1 - t) * g i) -> sum_over l h <= t * sum_over l f + (1 - t) * sum_over l g.
Proof. intros H. rewrite <- so_mix. apply so_le. intros i _. apply H. Qed.
Lemma row_mix n c t x y : sum_over (seq 0 n) (fun i => c i * mixture t x y i) = t * sum_over (seq 0 n) (fun i => c i * x i) + (1 - t) * sum_over (seq 0 n) (fun i => c i * y i).
Proof. rewrite <- so_mix. apply so_ext. intros i _. unfold mixture. ring. Qed.
Lemma total_mix t (x y : vec) l : total (map (mixture t x y) l) = t * total (map x l) + (1 - t) * total (map y l).
Proof. induction l as [|i l IH]; cbn; [ring|]. unfold total in IH. rewrite IH. unfold mixture. ring. Qed.
Lemma group_mix gs n t x y g : group_value gs n false (mixture t x y) g = t * group_value gs n false x g + (1 - t) * group_value gs n false y g.
Proof. unfold group_value. apply total_mix. Qed.
Lemma term_mix tf gs n t x y e : term_value tf gs n false (mixture t x y) e = t * term_value tf gs n false x e + (1 - t) * term_value tf gs n false y e.
Proof. destruct e; cbn [term_value]; rewrite ?group_mix; ring. Qed.
Lemma side_mix tf gs n t x y s : side_value tf gs n false (mixture t x y) s = t * side_value tf gs n false x s + (1 - t) * side_value tf gs n false y s.
Proof.
  assert (S : forall b e, signed b (term_value tf gs n false (mixture t x y) e) = t * signed b (term_value tf gs n false x e) + (1 - t) * signed b (term_value tf gs n false y e)) by (intros [|] e; cbn; rewrite term_mix; ring).
  unfold side_value. rewrite S. set (L := others s).
  assert (E : total (map (fun p => signed (fst p) (term_value tf gs n false (mixture t x y) (snd p))) L) = t * total (map (fun p => signed (fst p) (term_value tf gs n false x (snd p))) L) + (1 - t) * total (map (fun p => signed (fst p) (term_value tf gs n false y (snd p))) L)).
  { induction L as [|p L IH]; cbn; [ring|]. unfold total in IH. rewrite IH, S. ring. }
  rewrite E. ring.
Qed.
Lemma holds_mix tf gs n t x y c : 0 <= t <= 1 -> holds tf gs n false x c -> holds tf gs n false y c -> holds tf gs n false (mixture t x y) c.
Proof. intros Ht. unfold holds. rewrite !side_mix. destruct (op c); intros H H'; try nra; rewrite H, H'; reflexivity. Qed.
Lemma opt_mix (o : option R) (F : vec -> R) t x y : 0 <= t <= 1 -> F (mixture t x y) <= t * F x + (1 - t) * F y -> opt o (fun l => F x <= l) -> opt o (fun l => F y <= l) -> opt o (fun l => F (mixture t x y) <= l).
Proof. intros Ht HF. destruct o; [|auto]. cbn. intros A B. eapply Rle_trans; [exact HF|]. nra. Qed.
Lemma opt_mix_ge (o : option R) (F : vec -> R) t x y : 0 <= t <= 1 -> t * F x + (1 - t) * F y <= F (mixture t x y) -> opt o (fun l => l <= F x) -> opt o (fun l => l <= F y) -> opt o (fun l => l <= F (mixture t x y)).
Proof. intros Ht HF. destruct o; [|auto]. cbn. intros A B. eapply Rle_trans; [|exact HF]. nra. Qed.
Lemma expected_mix q t x y : costs_ok (settings_ q) -> opt (mu_uncertainty_ q) (fun kr => 0 <= fst kr) -> 0 <= t <= 1 ->
  t * expected q x + (1 - t) * expected q y <= expected q (mixture t x y).
Proof.
  intros Hc Hk Ht. unfold expected, total_fee. rewrite !row_mix.
  assert (C : total_cost (prior_ q) (settings_ q) (mixture t x y) <= t * total_cost (prior_ q) (settings_ q) x + (1 - t) * total_cost (prior_ q) (settings_ q) y).
  { unfold total_cost. apply so_mix_le. intros i. specialize (Hc i). set (p := value (previous (settings_ q)) i). replace (mixture t x y i - p) with (t * (x i - p) + (1 - t) * (y i - p)) by (unfold mixture; ring). pose proof (abs_mix t (x i - p) (y i - p) Ht). nra. }
  assert (U : match mu_uncertainty_ q with Some (k, root) => k * norm2 q (fun i => sum_over (seq 0 (n_assets (prior_ q))) (fun j => root i j * mixture t x y j)) | None => 0 end
    <= t * match mu_uncertainty_ q with Some (k, root) => k * norm2 q (fun i => sum_over (seq 0 (n_assets (prior_ q))) (fun j => root i j * x j)) | None => 0 end
     + (1 - t) * match mu_uncertainty_ q with Some (k, root) => k * norm2 q (fun i => sum_over (seq 0 (n_assets (prior_ q))) (fun j => root i j * y j)) | None => 0 end).
  { destruct (mu_uncertainty_ q) as [[k root]|]; [|lra]. cbn [opt fst] in Hk.
    assert (N : norm2 q (fun i => sum_over (seq 0 (n_assets (prior_ q))) (fun j => root i j * mixture t x y j)) <= t * norm2 q (fun i => sum_over (seq 0 (n_assets (prior_ q))) (fun j => root i j * x j)) + (1 - t) * norm2 q (fun i => sum_over (seq 0 (n_assets (prior_ q))) (fun j => root i j * y j))).
    { unfold norm2. eapply Rle_trans; [|apply (norm_mix _ t); exact Ht]. right. f_equal. apply so_ext. intros i _. rewrite row_mix. reflexivity. }
    nra. }
  lra.
Qed.
Lemma allowed_mix tf q cs t x y : 0 < scale (settings_ q) -> convex_input q -> 0 <= t <= 1 -> allowed tf q cs x -> allowed tf q cs y -> allowed tf q cs (mixture t x y).
Proof.
  intros Hs [_ _ _ Hk Hc HT Hg] Ht (D&T&K&M&L) (D'&T'&K'&M'&L'). split; [|split; [|split; [|split]]].
  - destruct D as (D1&D2&D3&D4&D5&D6&D7&D8&D9), D' as (E1&E2&E3&E4&E5&E6&E7&E8&E9).
    split; [|split; [|split; [|split; [|split; [|split; [|split; [|split]]]]]]].
    + destruct (min_weights (params_ q)); [|exact I]. intros i Hi. specialize (D1 i Hi). specialize (E1 i Hi). unfold mixture. nra.
    + destruct (max_weights (params_ q)); [|exact I]. intros i Hi. specialize (D2 i Hi). specialize (E2 i Hi). unfold mixture. nra.
    + apply (opt_mix _ (fun x => sum_over (seq 0 (n_assets (prior_ q))) (fun i => Rmax (x i) 0))); auto. apply so_mix_le. intros i. apply max_mix. exact Ht.
    + apply (opt_mix _ (fun x => sum_over (seq 0 (n_assets (prior_ q))) (fun i => Rmax (- x i) 0))); auto. apply so_mix_le. intros i. replace (- mixture t x y i) with (t * - x i + (1 - t) * - y i) by (unfold mixture; ring). apply max_mix. exact Ht.
    + apply (opt_mix_ge _ (fun x => sum_over (seq 0 (n_assets (prior_ q))) x)); auto. right. symmetry. apply so_mix.
    + apply (opt_mix _ (fun x => sum_over (seq 0 (n_assets (prior_ q))) x)); auto. right. apply so_mix.
    + destruct (budget (params_ q)); [|exact I]. cbn in *. unfold mixture. rewrite so_mix, D7, E7. ring.
    + rewrite Forall_forall in *. intros c Hin. apply holds_mix; auto.
    + intros l r El Er k Hk'. specialize (D9 l r El Er k Hk'). specialize (E9 l r El Er k Hk'). rewrite row_mix. nra.
  - unfold turnover_ok in *. destruct (max_turnover_ q); [|exact I]. cbn in *. intros i Hi. specialize (T i Hi). specialize (T' i Hi). set (p := value (previous (settings_ q)) i) in *.
    replace (mixture t x y i - p) with (t * (x i - p) + (1 - t) * (y i - p)) by (unfold mixture; ring). pose proof (abs_mix t (x i - p) (y i - p) Ht). nra.
  - unfold tracking_ok in *. revert K K'. apply (opt_mix _ (fun x => sqrt (sum_over (seq 0 (n_obs (prior_ q))) (fun k => (sum_over (seq 0 (n_assets (prior_ q))) (fun i => returns (prior_ q) k i * x i) - benchmark_ q k) ^ 2)) / sqrt (INR (n_obs (prior_ q)) - 1))); auto.
    assert (P : 1 <= INR (n_obs (prior_ q)) - 1) by (apply le_INR in HT; cbn in HT; lra).
    unfold Rdiv. rewrite <- !Rmult_assoc, <- Rmult_plus_distr_r. apply Rmult_le_compat_r; [left; apply Rinv_0_lt_compat, sqrt_lt_R0; lra|]. eapply Rle_trans; [|apply (norm_mix _ t); exact Ht]. right. f_equal. apply so_ext. intros k _. rewrite row_mix. f_equal. ring.
  - revert M M'. apply (opt_mix_ge _ (expected q)); auto. apply expected_mix; assumption.
  - intros rm l El. replace l with (t * l + (1 - t) * l) by ring. apply at_most_mix; auto. intros ->. apply Hg. right. congruence.
Qed.
Lemma penalty_mix q t x y : 0 <= l1_ q -> 0 <= l2_ q -> 0 <= t <= 1 ->
  penalty q (mixture t x y) <= t * penalty q x + (1 - t) * penalty q y - l2_ q * (t * (1 - t) * sum_squares q (fun i => x i - y i)).
Proof.
  intros H1 H2 Ht. rewrite !penalty_parts.
  assert (A : sum_abs q (mixture t x y) <= t * sum_abs q x + (1 - t) * sum_abs q y) by (apply so_mix_le; intros i; apply abs_mix; exact Ht).
  assert (B : sum_squares q (mixture t x y) = t * sum_squares q x + (1 - t) * sum_squares q y - t * (1 - t) * sum_squares q (fun i => x i - y i)).
  { unfold sum_squares. rewrite <- so_mix, <- so_scal, <- so_sub. apply so_ext. intros i _. unfold mixture. ring. }
  rewrite B. nra.
Qed.
Lemma merit_mix q t x y rx ry : convex_input q -> 0 <= t <= 1 ->
  t * merit q (risk_aversion_ q) x rx + (1 - t) * merit q (risk_aversion_ q) y ry <= merit q (risk_aversion_ q) (mixture t x y) (t * rx + (1 - t) * ry).
Proof. intros H Ht. pose proof (expected_mix q t x y (costs_nonneg q H) (size_nonneg q H) Ht) as E. unfold merit. destruct (objective_ q); lra. Qed.
Lemma sum_squares_zero q x : sum_squares q x <= 0 -> forall i, (i < n_assets (prior_ q))%nat -> x i = 0.
Proof.
  intros H i Hi. unfold sum_squares in H. assert (G : forall l, In i l -> x i ^ 2 <= sum_over l (fun i => x i ^ 2)).
  { assert (N : forall l, 0 <= sum_over l (fun i => x i ^ 2)) by (intros l; apply so_nonneg; intros; apply pow2_ge_0).
    intros l. induction l as [|j l IH]; intros Hin; [destruct Hin|]. change (sum_over (j :: l) (fun i => x i ^ 2)) with (x j ^ 2 + sum_over l (fun i => x i ^ 2)). destruct Hin as [->|Hin]; [specialize (N l); lra|specialize (IH Hin); pose proof (pow2_ge_0 (x j)); lra]. }
  specialize (G (seq 0 (n_assets (prior_ q))) ltac:(apply in_seq; lia)). nra.
Qed.
Lemma quadratic_mix pm cov t x y : (forall i j, (i < n_assets pm)%nat -> (j < n_assets pm)%nat -> cov i j = cov j i) ->
  quadratic pm cov (mixture t x y) = t * quadratic pm cov x + (1 - t) * quadratic pm cov y - t * (1 - t) * quadratic pm cov (fun i => x i - y i).
Proof.
  intros Sym. unfold quadratic. set (n := n_assets pm) in *.
  assert (C : sum_over (seq 0 n) (fun i => sum_over (seq 0 n) (fun j => x i * cov i j * y j)) = sum_over (seq 0 n) (fun i => sum_over (seq 0 n) (fun j => y i * cov i j * x j))).
  { rewrite so_swap. apply so_ext. intros i Hi. apply so_ext. intros j Hj. apply in_seq in Hi, Hj. rewrite (Sym j i) by lia. ring. }
  set (X := sum_over (seq 0 n) (fun i => sum_over (seq 0 n) (fun j => x i * cov i j * x j))). set (Y := sum_over (seq 0 n) (fun i => sum_over (seq 0 n) (fun j => y i * cov i j * y j))).
  assert (G : forall a b, sum_over (seq 0 n) (fun i => sum_over (seq 0 n) (fun j => (a * x i + b * y i) * cov i j * (a * x j + b * y j))) = a ^ 2 * X + b ^ 2 * Y + 2 * (a * b) * sum_over (seq 0 n) (fun i => sum_over (seq 0 n) (fun j => x i * cov i j * y j))).
  { intros a b. replace (2 * (a * b) * sum_over (seq 0 n) (fun i => sum_over (seq 0 n) (fun j => x i * cov i j * y j))) with (a * b * sum_over (seq 0 n) (fun i => sum_over (seq 0 n) (fun j => x i * cov i j * y j)) + a * b * sum_over (seq 0 n) (fun i => sum_over (seq 0 n) (fun j => y i * cov i j * x j))) by (rewrite C; ring).
    unfold X, Y. rewrite <- !so_scal, <- !so_add. apply so_ext. intros i _. rewrite <- !so_scal, <- !so_add. apply so_ext. intros j _. ring. }
  unfold mixture. rewrite (G t (1 - t)). pose proof (G 1 (-1)) as G1.
  rewrite (so_ext (fun i => sum_over (seq 0 n) (fun j => (x i - y i) * cov i j * (x j - y j))) (fun i => sum_over (seq 0 n) (fun j => (1 * x i + -1 * y i) * cov i j * (1 * x j + -1 * y j)))) by (intros i _; apply so_ext; intros j _; ring).
  rewrite G1. ring.
Qed.
Lemma definite_zero pm cov x y : positive_definite (n_assets pm) cov -> quadratic pm cov (fun i => x i - y i) <= 0 -> forall i, (i < n_assets pm)%nat -> x i = y i.
Proof.
  intros H Q i Hi. destruct (Req_dec (x i) (y i)) as [E|N]; [exact E|exfalso]. specialize (H (fun i => x i - y i) (ex_intro _ i (conj Hi (Rminus_eq_contra _ _ N)))). unfold quadratic in Q. lra.
Qed.
Lemma cholesky_symmetric pm cov : is_cholesky pm cov -> forall i j, (i < n_assets pm)%nat -> (j < n_assets pm)%nat -> cov i j = cov j i.
Proof. intros H i j Hi Hj. rewrite !H by assumption. apply so_ext. intros; ring. Qed.
Lemma optimum_allowed tf q cs p : 0 < scale (settings_ q) -> costs_ok (settings_ q) -> accepted tf q cs -> objective_ q <> MAXIMIZE_RATIO -> optimal tf q p -> allowed tf q cs (weights p).
Proof. intros Hs Hc Ha Ho Hp. apply (C36_weights_allowed tf q cs p Hs Hc Ha (proj1 Hp)); [rewrite (factor_one tf q p Ho (proj1 Hp)); lra|contradiction]. Qed.
(** an optimum is at least as good as any allowed weights, of a risk of at most r *)
Lemma beats_allowed tf q cs p y rx ry : 0 < scale (settings_ q) -> 0 < scale_objective_ q -> convex_input q -> accepted tf q cs -> objective_ q <> MAXIMIZE_RATIO -> is_mip (n_assets (prior_ q)) (params_ q) = false ->
  optimal tf q p -> allowed tf q cs y -> risk_is q (risk_measure_ q) (weights p) rx -> risk_at_most q (risk_measure_ q) y ry ->
  merit q (risk_aversion_ q) y ry - penalty q y <= merit q (risk_aversion_ q) (weights p) rx - penalty q (weights p).
Proof.
  intros Hs Hso Hv Ha Ho Hm Hopt Hy Hx Hr. pose proof (optimal_core tf q cs p Hs Hso (costs_nonneg q Hv) Ha Ho Hopt y rx ry Hy Hx Hr (reachable_continuous tf q cs Hs y 1 ltac:(lra) Hm Ha Hy)) as K.
  unfold merit. destruct (objective_ q); try lra; [specialize (K (aversion_nonneg q Hv)); lra|congruence].
Qed.

(** * Theorems *)
(** ** A mixture of two allowed portfolios is allowed, its expected return is at least the mixture of theirs and its risk at most, whatever the risk measure *)
Theorem C96_mixture : forall tf q cs t x y, 0 < scale (settings_ q) -> convex_input q -> 0 <= t <= 1 ->
  (allowed tf q cs x -> allowed tf q cs y -> allowed tf q cs (mixture t x y))
  /\ t * expected q x + (1 - t) * expected q y <= expected q (mixture t x y)
  /\ forall rm rx ry, (rm = GINI_MEAN_DIFFERENCE -> forall i, (i < n_assets (prior_ q))%nat -> value (costs (settings_ q)) i = 0) ->
       risk_at_most q rm x rx -> risk_at_most q rm y ry -> risk_at_most q rm (mixture t x y) (t * rx + (1 - t) * ry).
Proof.
  intros tf q cs t x y Hs Hv Ht. split; [apply allowed_mix; assumption|]. split; [apply expected_mix; [apply Hv|apply Hv|exact Ht]|].
  intros rm rx ry Hg. apply at_most_mix; auto; apply Hv.
Qed.
Print Assumptions C96_mixture.
(** ** Two optima of the same problem have the same value, and so has every mixture of them, which is allowed *)
Theorem C96_optimal_mixture : forall tf q cs p p' r r' t, 0 < scale (settings_ q) -> 0 < scale_objective_ q -> convex_input q -> accepted tf q cs -> objective_ q <> MAXIMIZE_RATIO ->
  is_mip (n_assets (prior_ q)) (params_ q) = false -> optimal tf q p -> optimal tf q p' -> risk_is q (risk_measure_ q) (weights p) r -> risk_is q (risk_measure_ q) (weights p') r' -> 0 <= t <= 1 ->
  let m := mixture t (weights p) (weights p') in let g := risk_aversion_ q in
  merit q g (weights p) r - penalty q (weights p) = merit q g (weights p') r' - penalty q (weights p')
  /\ allowed tf q cs m /\ risk_at_most q (risk_measure_ q) m (t * r + (1 - t) * r')
  /\ merit q g m (t * r + (1 - t) * r') - penalty q m = merit q g (weights p) r - penalty q (weights p).
Proof.
  intros tf q cs p p' r r' t Hs Hso Hv Ha Ho Hm O O' R R' Ht m g.
  pose proof (optimum_allowed tf q cs p Hs (costs_nonneg q Hv) Ha Ho O) as W. pose proof (optimum_allowed tf q cs p' Hs (costs_nonneg q Hv) Ha Ho O') as W'.
  pose proof (allowed_mix tf q cs t _ _ Hs Hv Ht W W') as WM. fold m in WM.
  assert (RM : risk_at_most q (risk_measure_ q) m (t * r + (1 - t) * r')) by (apply at_most_mix; auto; try apply Hv; try (apply is_at_most; assumption); intros E; apply (gini_without_cost q Hv); left; exact E).
  pose proof (beats_allowed tf q cs p _ r r' Hs Hso Hv Ha Ho Hm O W' R (is_at_most q _ _ _ R')) as B1. pose proof (beats_allowed tf q cs p' _ r' r Hs Hso Hv Ha Ho Hm O' W R' (is_at_most q _ _ _ R)) as B2.
  pose proof (beats_allowed tf q cs p m r _ Hs Hso Hv Ha Ho Hm O WM R RM) as B3.
  pose proof (merit_mix q t (weights p) (weights p') r r' Hv Ht) as M. pose proof (penalty_mix q t (weights p) (weights p') (l1_nonneg q Hv) (l2_nonneg q Hv) Ht) as P. fold m in M, P. unfold g in *.
  assert (Z : 0 <= l2_ q * (t * (1 - t) * sum_squares q (fun i => weights p i - weights p' i))).
  { apply Rmult_le_pos; [apply Hv|]. apply Rmult_le_pos; [nra|]. apply so_nonneg. intros; apply pow2_ge_0. }
  split; [lra|]. split; [exact WM|]. split; [exact RM|]. apply Rle_antisym; [exact B3|].
  assert (E : merit q (risk_aversion_ q) (weights p') r' - penalty q (weights p') = merit q (risk_aversion_ q) (weights p) r - penalty q (weights p)) by lra. set (A := merit q (risk_aversion_ q) (weights p) r) in *. set (A' := merit q (risk_aversion_ q) (weights p') r') in *.
  assert (A' = A - penalty q (weights p) + penalty q (weights p')) as EA by lra. rewrite EA in M. lra.
Qed.
Print Assumptions C96_optimal_mixture.
(** ** With an l2 penalty the weights do not depend on the solver *)
Theorem C96_unique_l2 : forall tf q cs p p' r r', 0 < scale (settings_ q) -> 0 < scale_objective_ q -> convex_input q -> accepted tf q cs -> objective_ q <> MAXIMIZE_RATIO ->
  is_mip (n_assets (prior_ q)) (params_ q) = false -> 0 < l2_ q -> optimal tf q p -> optimal tf q p' -> risk_is q (risk_measure_ q) (weights p) r -> risk_is q (risk_measure_ q) (weights p') r' ->
  forall i, (i < n_assets (prior_ q))%nat -> weights p i = weights p' i.
Proof.
  intros tf q cs p p' r r' Hs Hso Hv Ha Ho Hm Hl O O' R R' i Hi.
  destruct (C96_optimal_mixture tf q cs p p' r r' (1/2) Hs Hso Hv Ha Ho Hm O O' R R' ltac:(lra)) as (E&_&_&B). cbv zeta in B.
  pose proof (merit_mix q (1/2) (weights p) (weights p') r r' Hv ltac:(lra)) as M. pose proof (penalty_mix q (1/2) (weights p) (weights p') (l1_nonneg q Hv) (l2_nonneg q Hv) ltac:(lra)) as P.
  assert (Z : sum_squares q (fun i => weights p i - weights p' i) <= 0).
  { set (S2 := sum_squares q (fun i => weights p i - weights p' i)) in *. assert (l2_ q * (1 / 2 * (1 - 1 / 2) * S2) <= 0) by lra. apply Rnot_lt_le. intros N. assert (0 < l2_ q * S2) by (apply Rmult_lt_0_compat; assumption). nra. }
  pose proof (sum_squares_zero q _ Z i Hi) as K. cbn beta in K. lra.
Qed.
Print Assumptions C96_unique_l2.
(** ** Nor do they when the variance, of a positive definite covariance, is minimised or weighs in the utility *)
Theorem C96_unique_variance : forall tf q cs cov p p', 0 < scale (settings_ q) -> 0 < scale_objective_ q -> convex_input q -> accepted tf q cs ->
  is_mip (n_assets (prior_ q)) (params_ q) = false -> risk_measure_ q = VARIANCE -> objective_ q = MINIMIZE_RISK \/ (objective_ q = MAXIMIZE_UTILITY /\ 0 < risk_aversion_ q) ->
  is_cholesky (prior_ q) cov -> positive_definite (n_assets (prior_ q)) cov -> optimal tf q p -> optimal tf q p' ->
  forall i, (i < n_assets (prior_ q))%nat -> weights p i = weights p' i.
Proof.
  intros tf q cs cov p p' Hs Hso Hv Ha Hm Hrm Hob Hch Hpd O O'. set (Q := quadratic (prior_ q) cov). set (x := weights p) in *. set (y := weights p') in *.
  assert (V : forall w, risk_is q (risk_measure_ q) w (Q w)) by (intros w; rewrite Hrm; apply (C35_standard_deviation (prior_ q) (settings_ q) w cov Hs Hch)).
  assert (Ho : objective_ q <> MAXIMIZE_RATIO) by (destruct Hob as [E|[E _]]; congruence).
  destruct (C96_optimal_mixture tf q cs p p' (Q x) (Q y) (1/2) Hs Hso Hv Ha Ho Hm O O' (V x) (V y) ltac:(lra)) as (E&A&_&B). cbv zeta in A, B. fold x y in A, B, E. set (m := mixture (1/2) x y) in *.
  pose proof (beats_allowed tf q cs p m (Q x) (Q m) Hs Hso Hv Ha Ho Hm O A (V x) (is_at_most q _ _ _ (V m))) as B2. fold x in B2.
  apply (definite_zero (prior_ q) cov x y Hpd). pose proof (quadratic_mix (prior_ q) cov (1/2) x y (cholesky_symmetric _ _ Hch)) as QM. fold Q m in QM. fold Q. set (D := Q (fun i => x i - y i)) in *.
  unfold merit in *. destruct Hob as [Eo|[Eo Hg]]; rewrite Eo in *; [lra|]. apply Rnot_lt_le. intros N. assert (0 < risk_aversion_ q * D) by (apply Rmult_lt_0_compat; assumption). nra.
Qed.
Print Assumptions C96_unique_variance.
(** the minimum of the standard deviation, without penalties *)
Theorem C96_unique_deviation : forall tf q cs cov p p', 0 < scale (settings_ q) -> 0 < scale_objective_ q -> convex_input q -> accepted tf q cs ->
  is_mip (n_assets (prior_ q)) (params_ q) = false -> risk_measure_ q = STANDARD_DEVIATION -> objective_ q = MINIMIZE_RISK -> l1_ q = 0 -> l2_ q = 0 ->
  is_cholesky (prior_ q) cov -> positive_definite (n_assets (prior_ q)) cov -> optimal tf q p -> optimal tf q p' ->
  forall i, (i < n_assets (prior_ q))%nat -> weights p i = weights p' i.
Proof.
  intros tf q cs cov p p' Hs Hso Hv Ha Hm Hrm Hob L1 L2 Hch Hpd O O'. set (Q := quadratic (prior_ q) cov). set (x := weights p) in *. set (y := weights p') in *.
  assert (V : forall w, risk_is q (risk_measure_ q) w (sqrt (Q w))) by (intros w; rewrite Hrm; apply (C35_standard_deviation (prior_ q) (settings_ q) w cov Hs Hch)).
  assert (Ho : objective_ q <> MAXIMIZE_RATIO) by congruence.
  destruct (C96_optimal_mixture tf q cs p p' (sqrt (Q x)) (sqrt (Q y)) (1/2) Hs Hso Hv Ha Ho Hm O O' (V x) (V y) ltac:(lra)) as (E&A&_&B). cbv zeta in A, B. fold x y in A, B, E. set (m := mixture (1/2) x y) in *.
  pose proof (beats_allowed tf q cs p m (sqrt (Q x)) (sqrt (Q m)) Hs Hso Hv Ha Ho Hm O A (V x) (is_at_most q _ _ _ (V m))) as B2. fold x in B2.
  apply (definite_zero (prior_ q) cov x y Hpd). pose proof (quadratic_mix (prior_ q) cov (1/2) x y (cholesky_symmetric _ _ Hch)) as QM. fold Q m in QM. fold Q. set (D := Q (fun i => x i - y i)) in *.
  assert (N : forall w, 0 <= Q w) by (intros w; unfold Q; rewrite (quadratic_squares _ _ w (cholesky (prior_ q)) _ Hch); apply so_nonneg; intros; apply pow2_ge_0).
  assert (P : forall w, penalty q w = 0) by (intros w; unfold penalty; rewrite L1, L2; ring). rewrite !P in *. unfold merit in *. rewrite Hob in *.
  assert (Q x = Q y) by (apply sqrt_inj; auto; lra). assert (Q x <= Q m) by (apply sqrt_le_0; auto; lra). lra.
Qed.
Print Assumptions C96_unique_deviation.
(** ** The weights of the maximum ratio of excess return to standard deviation or variance are unique too, for a budget that is not zero *)
Theorem C96_unique_ratio : forall tf q cs cov c p p', 0 < scale (settings_ q) -> 0 < scale_objective_ q -> convex_input q -> accepted tf q cs ->
  is_mip (n_assets (prior_ q)) (params_ q) = false -> risk_measure_ q = STANDARD_DEVIATION \/ risk_measure_ q = VARIANCE -> objective_ q = MAXIMIZE_RATIO -> l1_ q = 0 -> l2_ q = 0 ->
  max_tracking_error_ q = None -> (forall rm, ~ homogeneous rm -> limits_ q rm = None) -> budget (params_ q) = Some c -> c <> 0 ->
  is_cholesky (prior_ q) cov -> positive_definite (n_assets (prior_ q)) cov -> optimal tf q p -> optimal tf q p' -> 0 < f_ p -> 0 < f_ p' ->
  forall i, (i < n_assets (prior_ q))%nat -> weights p i = weights p' i.
Proof.
  intros tf q cs cov c p p' Hs Hso Hv Ha Hm Hrm Ho L1 L2 Hte Hlim Hbud Hc0 Hch Hpd O O' F F'. set (Q := quadratic (prior_ q) cov). assert (Hc := costs_nonneg q Hv).
  destruct (C36_weights_allowed tf q cs p Hs Hc Ha (proj1 O) F (fun _ => conj Hte Hlim)) as [W Ex]. destruct (C36_weights_allowed tf q cs p' Hs Hc Ha (proj1 O') F' (fun _ => conj Hte Hlim)) as [W' Ey]. specialize (Ex Ho). specialize (Ey Ho).
  assert (N : forall w, 0 <= Q w) by (intros w; unfold Q; rewrite (quadratic_squares _ _ w (cholesky (prior_ q)) _ Hch); apply so_nonneg; intros; apply pow2_ge_0).
  assert (P : forall w, penalty q w = 0) by (intros w; unfold penalty; rewrite L1, L2; ring).
  assert (B : forall p1 y, optimal tf q p1 -> 0 < f_ p1 -> 0 < excess q (weights p1) -> allowed tf q cs y -> 0 < excess q y -> Q (weights p1) * excess q y ^ 2 <= Q y * excess q (weights p1) ^ 2).
  { intros p1 y O1 F1 E1 Wy E2. set (x := weights p1) in *.
    assert (V : forall w, risk_is q (risk_measure_ q) w (match degree (risk_measure_ q) with 1%nat => sqrt (Q w) | _ => Q w end)) by (intros w; destruct Hrm as [-> | ->]; cbn [degree]; apply (C35_standard_deviation (prior_ q) (settings_ q) w cov Hs Hch)).
    pose proof (C36_maximum_ratio tf q cs p1 Hs Hso Hc Hm Ha Ho L2 (or_intror L1) Hte Hlim O1 F1 y _ _ Wy E2 (V _) (V y)) as K. cbv zeta in K. fold x in K. rewrite !P, !Rplus_0_r in K.
    destruct Hrm as [X|X]; rewrite X in K; cbn [degree] in K.
    - specialize (K (or_intror (sqrt_pos _))). rewrite !pow_1 in K. set (a := sqrt (Q x)) in *. set (b := sqrt (Q y)) in *. assert (Ea : Q x = a ^ 2) by (unfold a; rewrite pow2_sqrt; auto). assert (Eb : Q y = b ^ 2) by (unfold b; rewrite pow2_sqrt; auto).
      rewrite Ea, Eb, <- !Rpow_mult_distr. apply pow_incr. split; [apply Rmult_le_pos; [apply sqrt_pos|lra]|exact K].
    - specialize (K (or_intror (N y))). exact K. }
  assert (B1 := B p (weights p') O F Ex W' Ey). assert (B2 := B p' (weights p) O' F' Ey W Ex).
  set (x := weights p) in *. set (y := weights p') in *. set (ex := excess q x) in *. set (ey := excess q y) in *.
  set (t := ey / (ex + ey)). assert (Ht : 0 <= t <= 1). { unfold t. split; [left; apply Rdiv_lt_0_compat; lra|]. apply Rmult_le_reg_r with (ex + ey); [lra|]. unfold Rdiv. rewrite Rmult_assoc, Rinv_l by lra. lra. }
  set (m := mixture t x y). assert (Wm : allowed tf q cs m) by (apply allowed_mix; assumption).
  set (k := ex * ey / (ex + ey)). assert (Hk : 0 < k) by (apply Rdiv_lt_0_compat; [apply Rmult_lt_0_compat; assumption|lra]).
  assert (Em : 2 * k <= excess q m). { pose proof (expected_mix q t x y Hc (size_nonneg q Hv) Ht) as X. fold m in X. assert (Z : t * ex + (1 - t) * ey = 2 * k) by (unfold t, k; field; lra).
    assert (Y : t * ex + (1 - t) * ey = t * expected q x + (1 - t) * expected q y - risk_free_rate (settings_ q)) by (unfold ex, ey, excess; ring). unfold excess. lra. }
  assert (B3 := B p m O F Ex Wm ltac:(lra)). fold x ex in B3.
  set (x' := svec (/ ex) x). set (y' := svec (/ ey) y).
  assert (Hom : forall r w, Q (svec r w) = r ^ 2 * Q w). { intros r w. unfold Q, quadratic, svec. rewrite <- so_scal. apply so_ext. intros i _. rewrite <- so_scal. apply so_ext. intros j _. ring. }
  assert (Mm : m = svec (2 * k) (mixture (1/2) x' y')). { extensionality i. unfold m, x', y', svec, mixture, t, k. field. lra. }
  pose proof (quadratic_mix (prior_ q) cov (1/2) x' y' (cholesky_symmetric _ _ Hch)) as QM. fold Q in QM. set (D := Q (fun i => x' i - y' i)) in *.
  assert (Qm : Q m = (2 * k) ^ 2 * (1/2 * Q x' + (1 - 1/2) * Q y' - 1/2 * (1 - 1/2) * D)) by (rewrite Mm, Hom, QM; reflexivity).
  assert (Ex2 : 0 < ex ^ 2) by (apply pow_lt; assumption). assert (Ey2 : 0 < ey ^ 2) by (apply pow_lt; assumption).
  assert (Qx : Q x = ex ^ 2 * Q x') by (unfold x'; rewrite Hom; field; lra). assert (Qy : Q y = ey ^ 2 * Q y') by (unfold y'; rewrite Hom; field; lra).
  assert (Eq : Q x' = Q y'). { rewrite Qx, Qy in B1, B2. assert (0 < ex ^ 2 * ey ^ 2) by (apply Rmult_lt_0_compat; assumption). apply Rle_antisym; apply Rmult_le_reg_l with (ex ^ 2 * ey ^ 2); auto; lra. }
  assert (HD : D <= 0).
  { rewrite Qx in B3. assert (C1 : Q x' * excess q m ^ 2 <= Q m) by (apply Rmult_le_reg_l with (ex ^ 2); lra).
    assert (C2 : Q x' * (2 * k) ^ 2 <= Q x' * excess q m ^ 2) by (apply Rmult_le_compat_l; [apply N|apply pow_incr; lra]). rewrite Qm, <- Eq in C1. assert (0 < (2 * k) ^ 2) by (apply pow_lt; lra). set (K := (2 * k) ^ 2) in *. nra. }
  pose proof (definite_zero (prior_ q) cov x' y' Hpd HD) as E.
  assert (Sx : sum_over (seq 0 (n_assets (prior_ q))) x = c). { destruct W as [(_&_&_&_&_&_&D7&_) _]. rewrite Hbud in D7. exact D7. }
  assert (Sy : sum_over (seq 0 (n_assets (prior_ q))) y = c). { destruct W' as [(_&_&_&_&_&_&D7&_) _]. rewrite Hbud in D7. exact D7. }
  assert (Es : / ex * c = / ey * c). { rewrite <- Sx at 1. rewrite <- Sy. rewrite <- !so_scal. apply so_ext. intros i Hi. apply in_seq in Hi. apply E. lia. }
  assert (Ee : / ex = / ey) by (apply Rmult_eq_reg_r with c; assumption).
  intros i Hi. specialize (E i Hi). unfold x', y', svec in E. rewrite <- Ee in E. apply Rmult_eq_reg_l in E; [exact E|]. apply Rinv_neq_0_compat. lra.
Qed.
Print Assumptions C96_unique_ratio.
(** the same for the maximum diversification *)
Theorem C96_unique_diversification : forall tf d cs c p p', 0 < scale (d_settings d) -> 0 < d_scale_objective d -> costs_ok (d_settings d) -> (2 <= n_obs (d_prior d))%nat -> accepted tf (as_mean_risk d) cs ->
  d_l1 d = 0 -> d_l2 d = 0 -> d_max_tracking_error d = None -> d_budget d = Some c -> c <> 0 -> factor_of_covariance d -> positive_definite (n_assets (d_prior d)) (d_covariance d) ->
  optimal tf (as_mean_risk d) p -> optimal tf (as_mean_risk d) p' -> 0 < f_ p -> 0 < f_ p' ->
  forall i, (i < n_assets (d_prior d))%nat -> weights p i = weights p' i.
Proof.
  intros tf d cs c p p' Hs Hso Hc HT Ha L1 L2 Hte Hb Hc0 Hch Hpd O O' F F'.
  apply (C96_unique_ratio tf (as_mean_risk d) cs (d_covariance d) c p p'); auto.
  constructor; cbn; auto; try lra; try exact I. intros [E|E]; [discriminate|congruence].
Qed.
Print Assumptions C96_unique_diversification.
(** ** The efficient frontier is convex: the risk (plus penalty) at a target between two others is at most the mixture of theirs *)
Theorem C96_frontier_convex : forall tf q cs t t1 t2 p1 p2 p r1 r2 r, let target := t * t1 + (1 - t) * t2 in
  0 < scale (settings_ q) -> 0 < scale_objective_ q -> convex_input q -> is_mip (n_assets (prior_ q)) (params_ q) = false -> objective_ q = MINIMIZE_RISK -> 0 <= t <= 1 ->
  accepted tf (with_min_return q t1) cs -> accepted tf (with_min_return q t2) cs -> accepted tf (with_min_return q target) cs ->
  optimal tf (with_min_return q t1) p1 -> optimal tf (with_min_return q t2) p2 -> optimal tf (with_min_return q target) p ->
  risk_is q (risk_measure_ q) (weights p1) r1 -> risk_is q (risk_measure_ q) (weights p2) r2 -> risk_is q (risk_measure_ q) (weights p) r ->
  r + penalty q (weights p) <= t * (r1 + penalty q (weights p1)) + (1 - t) * (r2 + penalty q (weights p2)).
Proof.
  intros tf q cs t t1 t2 p1 p2 p r1 r2 r target Hs Hso Hv Hm Ho Ht A1 A2 A O1 O2 O R1 R2 R.
  assert (Hc := costs_nonneg q Hv).
  assert (CV : forall a, convex_input (with_min_return q a)) by (intros a; destruct Hv; constructor; assumption).
  assert (W1 : allowed tf (with_min_return q t1) cs (weights p1)) by (apply optimum_allowed; auto; cbn; congruence).
  assert (W2 : allowed tf (with_min_return q t2) cs (weights p2)) by (apply optimum_allowed; auto; cbn; congruence).
  set (m := mixture t (weights p1) (weights p2)). set (low := Rmin t1 t2).
  assert (L : forall a x, low <= a -> allowed tf (with_min_return q a) cs x -> allowed tf (with_min_return q low) cs x).
  { intros a x Hl (B1&B2&B3&B4&B5). split; [exact B1|]. split; [exact B2|]. split; [exact B3|]. split; [|exact B5]. cbn [with_min_return min_return_ opt] in *. eapply Rle_trans; [exact Hl|exact B4]. }
  assert (E1 : t1 <= expected q (weights p1)) by apply W1. assert (E2 : t2 <= expected q (weights p2)) by apply W2.
  assert (WM : allowed tf (with_min_return q target) cs m).
  { destruct (allowed_mix tf (with_min_return q low) cs t _ _ Hs (CV low) Ht (L t1 _ (Rmin_l _ _) W1) (L t2 _ (Rmin_r _ _) W2)) as (B1&B2&B3&_&B5).
    split; [exact B1|]. split; [exact B2|]. split; [exact B3|]. split; [|exact B5]. cbn [with_min_return min_return_ opt]. change (target <= expected q m).
    pose proof (expected_mix q t (weights p1) (weights p2) Hc (size_nonneg q Hv) Ht) as X. fold m in X. unfold target. nra. }
  assert (RM : risk_at_most q (risk_measure_ q) m (t * r1 + (1 - t) * r2)) by (apply at_most_mix; auto; try apply Hv; try (apply is_at_most; assumption); intros X; apply (gini_without_cost q Hv); left; exact X).
  pose proof (beats_allowed tf (with_min_return q target) cs p m r _ Hs Hso (CV target) A ltac:(cbn; congruence) Hm O WM R RM) as B. unfold merit in B. cbn [with_min_return objective_] in B. rewrite Ho in B.
  change (penalty (with_min_return q target)) with (penalty q) in B. pose proof (penalty_mix q t (weights p1) (weights p2) (l1_nonneg q Hv) (l2_nonneg q Hv) Ht) as P. fold m in P.
  assert (Z : 0 <= l2_ q * (t * (1 - t) * sum_squares q (fun i => weights p1 i - weights p2 i))).
  { apply Rmult_le_pos; [apply Hv|]. apply Rmult_le_pos; [nra|]. apply so_nonneg. intros; apply pow2_ge_0. }
  lra.
Qed.
Print Assumptions C96_frontier_convex.

(** ** Two identical assets: the covariance is singular and every split of the budget minimises the variance *)
Definition twins : prior := {| n_assets := 2; n_obs := 2; returns := fun _ => two 20 20; mu := two 20 20; cholesky := fun i k => if (k =? 0)%nat then 1 else 0 |}.
Definition twins_example : mean_risk := {| prior_ := twins; settings_ := free; params_ := long_only; names_ := None; mip_solver_ := false;
  objective_ := MINIMIZE_RISK; risk_measure_ := VARIANCE; limits_ := fun _ => None; min_return_ := None; max_turnover_ := None; has_previous_ := false;
  max_tracking_error_ := None; benchmark_ := fun _ => 0; mu_uncertainty_ := None; l1_ := 1; l2_ := 0; risk_aversion_ := 1; scale_objective_ := 1; overwrite_ := None |}.
Definition twin_point (x : R) : point := {| w_ := two x (1 - x); f_ := 1; m_ := no_mip;
  a_ := fun _ => {| alpha := 0; u := 1; ex := 0; ey := 0; v := fun _ => 0; z := fun _ => 0; gx := fun _ => 0; gy := fun _ => 0; dd := fun _ => 0 |}; common_dd := fun _ => 0 |}.
Lemma twin_feasible x : 0 <= x <= 1 -> feasible no_float twins_example (twin_point x).
Proof.
  intros Hx. split; [right; reflexivity|]. unfold problem_constraints. cbn [twins_example prior_ settings_ params_ names_ mip_solver_ limits_ min_return_ max_turnover_ has_previous_ max_tracking_error_ mu_uncertainty_ n_assets twins is_ratio objective_].
  unfold weight_constraints, mip_constraints, is_mip. cbn. eexists. split; [reflexivity|]. unfold sumn; cbn in *.
  repeat match goal with |- Forall _ (_ :: _) => constructor | |- Forall _ [] => constructor end; cbn; unfold sumn; cbn; try lra.
  apply Rle_trans with (sqrt (1 ^ 2)); [apply sqrt_le_1_alt; right; ring|rewrite sqrt_pow2; lra].
Qed.
Lemma twin_accepted : accepted no_float twins_example [].
Proof. split; [reflexivity|]. destruct (twin_feasible 1 ltac:(lra)) as (_&l&E&_). exists (twin_point 1), l. exact E. Qed.
Lemma twin_optimal x : 0 <= x <= 1 -> optimal no_float twins_example (twin_point x).
Proof.
  intros Hx. split; [exact (twin_feasible x Hx)|]. intros p Hp.
  assert (F1 : f_ p = 1) by (apply (factor_one no_float twins_example); [discriminate|exact Hp]).
  destruct (C36_weights_allowed no_float twins_example [] p ltac:(cbn; lra) ltac:(intros i; cbn; lra) twin_accepted Hp ltac:(lra) ltac:(discriminate)) as [[D _] _]. destruct D as (D1&_&_&_&_&_&B&_).
  rewrite (weights_one p F1) in *. cbn in D1, B. pose proof (D1 0%nat ltac:(lia)). pose proof (D1 1%nat ltac:(lia)).
  destruct Hp as (_&l&E&Hl). destruct (problem_split no_float _ p l E) as (lt&lw&_&_&Hall). destruct (proj1 Hall Hl) as (_&_&_&_&K&_).
  rewrite risk_block_holds in K by (cbn; lra). destruct (K VARIANCE (or_introl eq_refl)) as [Q _]. cbn in Q. inversion Q as [|? ? Q1 Q2]; subst. inversion Q2 as [|? ? Q3 _]; subst. cbn in Q1, Q3. unfold sumn in Q3. cbn in Q3. rewrite !Rmult_1_r in Q3.
  unfold loss, risk, regularization, twins_example. cbn. unfold sumn. cbn. set (U := u (a_ p VARIANCE)) in *. rewrite !Rabs_right by lra.
  assert (1 <= U); [|nra]. eapply Rle_trans; [|exact Q3]. rewrite <- sqrt_1 at 1. apply sqrt_le_1_alt. nra.
Qed.
Theorem C96_unique_refuted : exists q p p', 0 < scale (settings_ q) /\ 0 < scale_objective_ q /\ convex_input q /\ accepted no_float q [] /\ is_mip (n_assets (prior_ q)) (params_ q) = false /\ risk_measure_ q = VARIANCE /\ objective_ q = MINIMIZE_RISK
  /\ optimal no_float q p /\ optimal no_float q p' /\ weights p 0%nat = 1 /\ weights p' 0%nat = 0.
Proof.
  exists twins_example, (twin_point 1), (twin_point 0). repeat match goal with |- _ /\ _ => split end; try reflexivity; try (cbn; lra); try exact twin_accepted; try (apply twin_optimal; lra); try (unfold weights, reported; cbn; lra).
  constructor; cbn; try lra; try lia; try exact I; try (intros i; cbn; lra); intros; reflexivity.
Qed.
Print Assumptions C96_unique_refuted.
(** ** With a cardinality the l2 penalty does not make the weights unique *)
Definition integer_l2 : mean_risk := with_coefficients integer_example 0 1 1.
Definition second_point : point := {| w_ := two 0 1; f_ := 1; m_ := {| invested := two 0 1; invested_factor := two 0 1; short := two 0 0; long := two 0 0; short_factor := two 0 0; long_factor := two 0 0 |};
  a_ := fun _ => {| alpha := 0; u := 1; ex := 0; ey := 0; v := fun _ => 0; z := fun _ => 0; gx := fun _ => 0; gy := fun _ => 0; dd := fun _ => 0 |}; common_dd := fun _ => 0 |}.
Lemma integer_feasible p : p = first_point \/ p = second_point -> feasible no_float integer_l2 p.
Proof.
  intros Hp. split; [right; destruct Hp; subst; reflexivity|]. unfold problem_constraints. cbn [integer_l2 with_coefficients integer_example prior_ settings_ params_ names_ mip_solver_ limits_ min_return_ max_turnover_ has_previous_ max_tracking_error_ mu_uncertainty_ n_assets two_assets is_ratio objective_].
  unfold weight_constraints, mip_constraints, is_mip, clean_threshold. cbn [one_position min_weights max_weights budget min_budget max_budget max_short max_long cardinality group_cardinalities threshold_long threshold_short groups linear_constraints left_inequality right_inequality].
  unfold all, any. cbn. unfold eqb0, ltb. destruct (Req_EM_T (1/10) 0); [lra|]. destruct (Rlt_dec 0 0); [lra|]. cbn. eexists. split; [reflexivity|]. unfold sumn. destruct Hp; subst p; cbn;
  (repeat match goal with |- Forall _ (_ :: _) => constructor | |- Forall _ [] => constructor end; cbn; unfold sumn; cbn; try lra; try (left; lra); try (right; lra));
  rewrite Rmult_1_r; (apply Rle_trans with (sqrt (1 ^ 2)); [apply sqrt_le_1_alt; lra|]; rewrite sqrt_pow2; lra).
Qed.
Lemma integer_accepted : accepted no_float integer_l2 [].
Proof. split; [reflexivity|]. destruct (integer_feasible first_point (or_introl eq_refl)) as (_&l&E&_). exists first_point, l. exact E. Qed.
Lemma integer_optimal p0 : p0 = first_point \/ p0 = second_point -> optimal no_float integer_l2 p0.
Proof.
  intros H0. split; [exact (integer_feasible p0 H0)|]. intros p Hp. assert (F1 : f_ p = 1) by (destruct Hp as [[H|H] _]; [discriminate|exact H]).
  destruct (C36_integer_weights no_float integer_l2 [] p ltac:(cbn; lra) integer_accepted I Hp ltac:(lra)) as [[W _] _].
  destruct (C36_weights_allowed no_float integer_l2 [] p ltac:(cbn; lra) ltac:(intros i; cbn; lra) integer_accepted Hp ltac:(lra) ltac:(discriminate)) as [[D _] _]. destruct D as (_&_&_&_&_&_&B&_).
  cbn in B, W. rewrite (weights_one p F1) in *.
  assert (R : 1 <= w_ p 0%nat ^ 2 + w_ p 1%nat ^ 2). { unfold positions in W. cbn in W. destruct (Req_EM_T (w_ p 0%nat) 0), (Req_EM_T (w_ p 1%nat) 0); cbn in W; try lia; nra. }
  destruct Hp as (_&l&E&Hl). destruct (problem_split no_float integer_l2 p l E) as (lt&lw&_&_&Hall). destruct (proj1 Hall Hl) as (_&_&_&_&K&_).
  rewrite risk_block_holds in K by (cbn; lra). destruct (K STANDARD_DEVIATION (or_introl eq_refl)) as [Q _]. cbn in Q. inversion Q as [|? ? D1 D2]; subst. inversion D2 as [|? ? D3 _]; subst. cbn in D1, D3. unfold sumn in D3. cbn in D3.
  assert (L0 : loss integer_l2 p0 = 2) by (destruct H0; subst p0; unfold loss, risk, regularization, integer_l2; cbn; unfold sumn; cbn; ring). rewrite L0.
  unfold loss, risk, regularization, integer_l2. cbn. unfold sumn. cbn. set (U := u (a_ p STANDARD_DEVIATION)) in *.
  assert (1 <= U); [|nra]. rewrite !Rmult_1_r in D3. eapply Rle_trans; [|exact D3]. rewrite <- sqrt_1 at 1. apply sqrt_le_1_alt. nra.
Qed.
Theorem C96_unique_integer_refuted : exists q p p', 0 < scale (settings_ q) /\ 0 < scale_objective_ q /\ convex_input q /\ accepted no_float q [] /\ objective_ q = MINIMIZE_RISK /\ 0 < l2_ q
  /\ optimal no_float q p /\ optimal no_float q p' /\ weights p 0%nat = 1 /\ weights p' 0%nat = 0.
Proof.
  exists integer_l2, first_point, second_point. repeat match goal with |- _ /\ _ => split end; try reflexivity; try (cbn; lra); try exact integer_accepted; try (apply integer_optimal; auto); try (unfold weights, reported; cbn; lra).
  constructor; cbn; try lra; try lia; try exact I; try (intros i; cbn; lra); intros; reflexivity.
Qed.
Print Assumptions C96_unique_integer_refuted.

(** * The hypotheses are met *)
(** a utility with l2 = 10 and one with the variance alone, both with an optimum; allowed weights that are mixed *)
Lemma share_convex least mr a b g : 0 <= a -> 0 <= b -> 0 <= g -> convex_input (utility_example least mr a b g).
Proof. intros. constructor; cbn; try assumption; try lia; try exact I; try (intros i; cbn; lra); intros; reflexivity. Qed.
Example C96_applies : let q := utility_example false None 0 10 10 in let cov : nat -> vec := fun i j => if (i =? j)%nat then 1 else 0 in
  0 < scale (settings_ q) /\ 0 < scale_objective_ q /\ convex_input q /\ accepted no_float q [] /\ objective_ q = MAXIMIZE_UTILITY /\ is_mip (n_assets (prior_ q)) (params_ q) = false /\ 0 < l2_ q /\ 0 < risk_aversion_ q
  /\ optimal no_float q (share_point (3/4)) /\ risk_is q (risk_measure_ q) (weights (share_point (3/4))) (5/8)
  /\ is_cholesky (prior_ q) cov /\ positive_definite (n_assets (prior_ q)) cov
  /\ allowed no_float q [] (two 1 0) /\ allowed no_float q [] (two 0 1).
Proof.
  intros q cov. repeat match goal with |- _ /\ _ => split end; try reflexivity; try (cbn; lra).
  - apply share_convex; lra.
  - apply share_accepted. exact I.
  - apply share_optimal; try exact I; try lra. intros w Hw _. unfold share_gain. assert (0 <= (w - 3/4) ^ 2) by apply pow2_ge_0. nra.
  - pose proof (share_risk false None 0 10 10 (3/4)) as H. replace ((3/4) ^ 2 + (1 - 3/4) ^ 2) with (5/8) in H by field. exact H.
  - intros i j Hi Hj. cbn in Hi, Hj. destruct i as [|[|i]], j as [|[|j]]; try lia; cbn; lra.
  - intros d (i&Hi&Hd). cbn in *. destruct i as [|[|i]]; [| |lia]; nra.
  - split; [|repeat split; try exact I; discriminate]. cbn. unfold documented. cbn. repeat split; try exact I; try (intros [|[|i]] Hi; cbn; lra || lia); try lra; try constructor. intros; discriminate.
  - split; [|repeat split; try exact I; discriminate]. cbn. unfold documented. cbn. repeat split; try exact I; try (intros [|[|i]] Hi; cbn; lra || lia); try lra; try constructor. intros; discriminate.
Qed.
(** three points of a frontier, at targets of 14, 16 and 18 *)
Example C96_frontier_applies : let q := utility_example true None 0 0 10 in
  convex_input q /\ objective_ q = MINIMIZE_RISK /\ accepted no_float (with_min_return q 14) [] /\ accepted no_float (with_min_return q 18) [] /\ accepted no_float (with_min_return q (1/2 * 14 + (1 - 1/2) * 18)) []
  /\ optimal no_float (with_min_return q 14) (share_point (7/10)) /\ optimal no_float (with_min_return q 18) (share_point (9/10)) /\ optimal no_float (with_min_return q (1/2 * 14 + (1 - 1/2) * 18)) (share_point (8/10)).
Proof.
  intros q. split; [apply share_convex; lra|]. split; [reflexivity|].
  assert (A : forall r, r <= 20 -> accepted no_float (with_min_return q r) []) by (intros r Hr; apply (share_accepted true (Some r) 0 0 10); exact Hr).
  assert (S : forall r x, 1/2 <= x <= 1 -> r = 20 * x -> optimal no_float (with_min_return q r) (share_point x)).
  { intros r x Hx Hr. apply (share_optimal true (Some r) 0 0 10 x); cbn; try lra. intros w Hw Hr'. unfold share_gain. nra. }
  repeat match goal with |- _ /\ _ => split end; try (apply A; lra); apply S; lra.
Qed.
(** the maximum Sharpe ratio: all on the first asset *)
Example C96_ratio_applies : let q := ratio_example None (fun _ => None) in let cov : nat -> vec := fun i j => if (i =? j)%nat then 1 else 0 in
  convex_input q /\ accepted no_float q [] /\ optimal no_float q half_point /\ 0 < f_ half_point /\ is_cholesky (prior_ q) cov /\ positive_definite (n_assets (prior_ q)) cov /\ budget (params_ q) = Some 1 /\ l1_ q = 0 /\ l2_ q = 0.
Proof.
  intros q cov. split; [constructor; cbn; try lra; try lia; try exact I; try (intros i; cbn; lra); intros; reflexivity|].
  split; [split; [reflexivity|]; destruct (proj1 C36_optimal_point_exists) as (_&l&E&_); exists half_point, l; exact E|]. split; [exact C36_optimal_point_exists|]. split; [cbn; lra|]. destruct C96_applies as (_&_&_&_&_&_&_&_&_&_&A&B&_). split; [exact A|]. split; [exact B|]. repeat split.
Qed.
Example C96_diversification_applies : let d := pair_example None in
  0 < scale (d_settings d) /\ 0 < d_scale_objective d /\ costs_ok (d_settings d) /\ (2 <= n_obs (d_prior d))%nat /\ accepted no_float (as_mean_risk d) [] /\ d_budget d = Some 1
  /\ factor_of_covariance d /\ positive_definite (n_assets (d_prior d)) (d_covariance d) /\ optimal no_float (as_mean_risk d) pair_point /\ 0 < f_ pair_point.
Proof.
  intros d. destruct C64_hypotheses_met as (A&B&C&D&E&F&_). destruct C96_applies as (_&_&_&_&_&_&_&_&_&_&_&P&_).
  split; [exact A|]. split; [exact B|]. split; [intros i; cbn; lra|]. split; [cbn; lia|]. split; [exact D|]. split; [reflexivity|]. split; [exact C|]. split; [exact P|]. split; [exact E|exact F].
Qed.
