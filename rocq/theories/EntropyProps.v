(** Entropy of finite classifications: observations in a list, classes given by a decidable equivalence. *)
From Coq Require Import Reals Lra Lia List Bool Arith.
From Verif Require Import RList.
Import ListNotations.
Local Open Scope R_scope.

Definition ind (b : bool) : R := if b then 1 else 0.
Lemma ind_01 b : 0 <= ind b <= 1. Proof. destruct b; cbn; lra. Qed.
Lemma ln_upper x : 0 < x -> ln x <= x - 1.
Proof. intros H. pose proof (exp_ineq1_le (ln x)) as E. rewrite exp_ln in E by exact H. lra. Qed.

Lemma ln_quot x y : 0 < x -> 0 < y -> ln (x / y) = ln x - ln y.
Proof. intros. unfold Rdiv. rewrite ln_mult, ln_Rinv; auto with real. Qed.

Section Classes.
  Variable A : Type.
  Variable l : list A.
  Hypothesis nonempty : l <> [].
  Definition relation := A -> A -> bool.
  Record equiv (r : relation) : Prop := { rrefl : forall s, r s s = true; rsym : forall s t, r s t = r t s; rtrans : forall s t u, r s t = true -> r t u = true -> r s u = true }.
  Definition both (r r' : relation) : relation := fun s t => r s t && r' s t.
  Definition anything : relation := fun _ _ => true.
  Lemma equiv_both r r' : equiv r -> equiv r' -> equiv (both r r').
  Proof.
    intros [a b c] [a' b' c']. split; unfold both; intros.
    - rewrite a, a'. reflexivity.
    - rewrite b, b'. reflexivity.
    - apply andb_true_iff in H as [? ?], H0 as [? ?]. apply andb_true_iff. split; eauto.
  Qed.
  Lemma equiv_anything : equiv anything. Proof. split; auto. Qed.

  Definition T : R := INR (length l).
  Definition size (r : relation) (t : A) : R := sum_over l (fun s => ind (r t s)).
  Definition E (r : relation) : R := sum_over l (fun t => - ln (size r t / T)) / T.
  Lemma T_pos : 0 < T. Proof. apply lt_0_INR. destruct l; [congruence|cbn; lia]. Qed.
  Lemma size_le r t : size r t <= T.
  Proof. unfold size. eapply Rle_trans; [apply (so_le _ (fun _ => 1)); intros; apply ind_01|]. rewrite so_const. unfold T. lra. Qed.
  Lemma size_ge r t : equiv r -> In t l -> 1 <= size r t.
  Proof.
    intros Hr Ht. unfold size. replace 1 with (ind (r t t)) by (rewrite (rrefl _ Hr); reflexivity).
    apply (so_ge_elem (fun s => ind (r t s))); auto. intros; apply ind_01.
  Qed.
  Lemma size_eq r t t' : equiv r -> r t t' = true -> size r t = size r t'.
  Proof.
    intros Hr H. unfold size. apply so_ext. intros s _. f_equal. destruct (r t s) eqn:E1, (r t' s) eqn:E2; auto.
    - assert (r t' s = true); [|congruence]. eapply (rtrans _ Hr); [|exact E1]. rewrite (rsym _ Hr). exact H.
    - assert (r t s = true); [|congruence]. eapply (rtrans _ Hr); eauto.
  Qed.
  Lemma term_split r t : equiv r -> In t l -> - ln (size r t / T) = ln T - ln (size r t).
  Proof. intros Hr Ht. pose proof (size_ge r t Hr Ht). pose proof T_pos. rewrite ln_quot by lra. lra. Qed.
  Lemma size_mono r r' t : (forall s, In s l -> r t s = true -> r' t s = true) -> size r t <= size r' t.
  Proof. intros H. apply so_le. intros s Hs. specialize (H s Hs). destruct (r t s); [rewrite H; auto; lra|apply ind_01]. Qed.
  Lemma E_mono r r' : equiv r -> equiv r' -> (forall s t, r s t = true -> r' s t = true) -> E r' <= E r.
  Proof.
    intros Hr Hr' H. unfold E. apply Rmult_le_compat_r; [left; apply Rinv_0_lt_compat, T_pos|]. apply so_le. intros t Ht.
    rewrite !term_split by auto. pose proof (size_ge r t Hr Ht). pose proof (size_mono r r' t ltac:(auto)). apply Rplus_le_compat_l, Ropp_le_contravar.
    destruct (Req_dec (size r t) (size r' t)) as [->|N]; [lra|]. left. apply ln_increasing; lra.
  Qed.
  Lemma E_nonneg r : equiv r -> 0 <= E r.
  Proof.
    intros Hr. unfold E. apply Rmult_le_pos; [|left; apply Rinv_0_lt_compat, T_pos]. apply so_nonneg. intros t Ht. rewrite term_split by auto.
    pose proof (size_ge r t Hr Ht). pose proof (size_le r t). destruct (Req_dec (size r t) T) as [->|N]; [lra|]. assert (ln (size r t) < ln T) by (apply ln_increasing; lra). lra.
  Qed.
  Lemma E_anything : E anything = 0.
  Proof.
    unfold E. rewrite so_zero; [unfold Rdiv; lra|]. intros t Ht. assert (X: size anything t = T) by (unfold size, anything; cbn; rewrite so_const; unfold T; lra).
    rewrite X. unfold Rdiv. rewrite Rinv_r by (pose proof T_pos; lra). rewrite ln_1. lra.
  Qed.
  (** when a finer classification has the same entropy it is the same classification *)
  Lemma E_eq r r' : equiv r -> equiv r' -> (forall s t, r s t = true -> r' s t = true) -> E r = E r' -> forall s t, In s l -> In t l -> r s t = r' s t.
  Proof.
    intros Hr Hr' H He s t Hs Ht.
    assert (Z: sum_over l (fun t => ln (size r' t) - ln (size r t)) = 0).
    { pose proof T_pos. assert (sum_over l (fun t => - ln (size r t / T)) - sum_over l (fun t => - ln (size r' t / T)) = 0).
      { unfold E in He. apply (Rmult_eq_compat_r T) in He. unfold Rdiv in He. rewrite !Rmult_assoc, Rinv_l in He by lra. rewrite !Rmult_1_r in He. unfold Rdiv. lra. }
      rewrite <- so_sub in H1. rewrite <- H1. apply so_ext. intros u Hu. rewrite !term_split by auto. lra. }
    assert (L: forall u, In u l -> 0 <= ln (size r' u) - ln (size r u)).
    { intros u Hu. pose proof (size_ge r u Hr Hu). pose proof (size_mono r r' u ltac:(auto)). destruct (Req_dec (size r u) (size r' u)) as [->|N]; [lra|]. assert (ln (size r u) < ln (size r' u)) by (apply ln_increasing; lra). lra. }
    pose proof (so_nonneg_zero _ _ L Z s Hs) as Es. cbn beta in Es.
    pose proof (size_ge r s Hr Hs). pose proof (size_ge r' s Hr' Hs). assert (Eq: size r s = size r' s) by (apply ln_inv; lra).
    assert (Z': sum_over l (fun u => ind (r' s u) - ind (r s u)) = 0) by (rewrite so_sub; unfold size in Eq; lra).
    assert (L': forall u, In u l -> 0 <= ind (r' s u) - ind (r s u)). { intros u Hu. destruct (r s u) eqn:Q; [rewrite (H _ _ Q); cbn; lra|pose proof (ind_01 (r' s u)); cbn; lra]. }
    pose proof (so_nonneg_zero _ _ L' Z' t Ht) as Et. cbn beta in Et. destruct (r s t), (r' s t); auto; cbn in Et; lra.
  Qed.
  Lemma class_sum r (P : A -> bool) : equiv r -> (forall t t', P t = true -> P t' = true -> r t t' = true) -> sum_over l (fun t => ind (P t) / size r t) <= 1.
  Proof.
    intros Hr HP. destruct (existsb P l) eqn:Ex.
    - apply existsb_exists in Ex as (t0&H0&P0). pose proof (size_ge r t0 Hr H0) as G.
      rewrite (so_ext _ (fun t => ind (P t) * / size r t0)).
      + rewrite so_scal_r. apply (Rmult_le_reg_r (size r t0)); [lra|]. rewrite Rmult_assoc, Rinv_l by lra. rewrite Rmult_1_r, Rmult_1_l. unfold size. apply so_le. intros t Ht. destruct (P t) eqn:Pt; [rewrite (HP _ _ P0 Pt); cbn; lra|cbn; apply ind_01].
      + intros t Ht. destruct (P t) eqn:Pt; [rewrite (size_eq r t t0 Hr) by auto; reflexivity|cbn; unfold Rdiv; lra].
    - rewrite so_zero; [lra|]. intros t Ht. destruct (P t) eqn:Pt; [|cbn; unfold Rdiv; lra]. exfalso. assert (existsb P l = true) by (apply existsb_exists; eauto). congruence.
  Qed.
  Theorem submodular f g h : equiv f -> equiv g -> equiv h -> E (both (both f g) h) + E h <= E (both f h) + E (both g h).
  Proof.
    intros Hf Hg Hh. pose proof (equiv_both _ _ (equiv_both _ _ Hf Hg) Hh) as Hfgh. pose proof (equiv_both _ _ Hf Hh) as Hfh. pose proof (equiv_both _ _ Hg Hh) as Hgh.
    set (s3 := size (both (both f g) h)). set (s1 := size (both f h)). set (s2 := size (both g h)). set (s0 := size h).
    assert (P3: forall t, In t l -> 1 <= s3 t) by (intros; apply size_ge; auto). assert (P1: forall t, In t l -> 1 <= s1 t) by (intros; apply size_ge; auto).
    assert (P2: forall t, In t l -> 1 <= s2 t) by (intros; apply size_ge; auto). assert (P0: forall t, In t l -> 1 <= s0 t) by (intros; apply size_ge; auto).
    assert (Key: sum_over l (fun t => s1 t * s2 t / (s3 t * s0 t)) <= T).
    { rewrite (so_ext _ (fun t => sum_over l (fun a => sum_over l (fun b => ind (both f h t a) * ind (both g h t b) / (s3 t * s0 t))))).
      2: { intros t Ht. rewrite (so_ext (fun a => sum_over l (fun b => ind (both f h t a) * ind (both g h t b) / (s3 t * s0 t))) (fun a => ind (both f h t a) * (s2 t / (s3 t * s0 t)))).
        + rewrite so_scal_r. unfold s1, size, Rdiv. ring.
        + intros a _. unfold s2, size. unfold Rdiv. rewrite <- so_scal_r, <- so_scal. apply so_ext. intros. ring. }
      - rewrite so_swap. eapply Rle_trans.
        + apply (so_le _ (fun a => sum_over l (fun b => ind (h a b) / s0 a))). intros a Ha. rewrite so_swap. apply so_le. intros b Hb.
          destruct (h a b) eqn:Hab.
          * rewrite (so_ext _ (fun t => ind (both f h t a && both g h t b) / s3 t * / s0 a)).
            -- rewrite so_scal_r. cbn [ind]. apply Rmult_le_compat_r; [left; apply Rinv_0_lt_compat; pose proof (P0 a Ha); lra|]. apply class_sum; auto.
               intros t t' Pt Pt'. unfold both in *. repeat rewrite andb_true_iff in *. destruct Pt as [[? ?] [? ?]], Pt' as [[? ?] [? ?]]. repeat split.
               ++ eapply (rtrans _ Hf); [eassumption|]. rewrite (rsym _ Hf). assumption.
               ++ eapply (rtrans _ Hg); [eassumption|]. rewrite (rsym _ Hg). assumption.
               ++ eapply (rtrans _ Hh); [eassumption|]. rewrite (rsym _ Hh). assumption.
            -- intros t Ht. destruct (both f h t a) eqn:Q1; [|cbn; unfold Rdiv; lra]. destruct (both g h t b) eqn:Q2; [|cbn; unfold Rdiv; lra]. cbn [andb ind].
               assert (X: s0 t = s0 a) by (apply size_eq; auto; unfold both in Q1; apply andb_true_iff in Q1; tauto). rewrite X. pose proof (P3 t Ht). pose proof (P0 a Ha). field. split; lra.
          * rewrite so_zero; [cbn; unfold Rdiv; lra|]. intros t Ht. destruct (both f h t a) eqn:Q1; [|cbn; unfold Rdiv; lra]. destruct (both g h t b) eqn:Q2; [|cbn; unfold Rdiv; lra]. exfalso.
            unfold both in *. apply andb_true_iff in Q1 as [_ Q1], Q2 as [_ Q2]. assert (h a b = true); [|congruence]. eapply (rtrans _ Hh); [rewrite (rsym _ Hh); exact Q1|exact Q2].
        + rewrite (so_ext _ (fun _ => 1)); [rewrite so_const; unfold T; lra|]. intros a Ha. unfold Rdiv. rewrite so_scal_r. change (sum_over l (fun b => ind (h a b))) with (s0 a). apply Rinv_r. pose proof (P0 a Ha). lra. }
    assert (Sum: sum_over l (fun t => ln (s1 t) + ln (s2 t) - ln (s3 t) - ln (s0 t)) <= 0).
    { eapply Rle_trans; [apply (so_le _ (fun t => s1 t * s2 t / (s3 t * s0 t) - 1))|].
      - intros t Ht. pose proof (P0 t Ht). pose proof (P1 t Ht). pose proof (P2 t Ht). pose proof (P3 t Ht).
        replace (ln (s1 t) + ln (s2 t) - ln (s3 t) - ln (s0 t)) with (ln (s1 t * s2 t / (s3 t * s0 t))).
        + apply ln_upper. apply Rdiv_lt_0_compat; apply Rmult_lt_0_compat; lra.
        + rewrite ln_quot by (apply Rmult_lt_0_compat; lra). rewrite !ln_mult by lra. lra.
      - rewrite so_sub, so_const. unfold T in Key. lra. }
    unfold E. pose proof T_pos. apply Rminus_le. unfold Rdiv. rewrite <- !Rmult_plus_distr_r, <- Rmult_minus_distr_r, <- !so_add, <- so_sub.
    rewrite (so_ext _ (fun t => ln (s1 t) + ln (s2 t) - ln (s3 t) - ln (s0 t))).
    - assert (0 < / T) by (apply Rinv_0_lt_compat; auto). nra.
    - intros t Ht. change (size (both (both f g) h) t * / T) with (size (both (both f g) h) t / T). change (size h t * / T) with (size h t / T).
      change (size (both f h) t * / T) with (size (both f h) t / T). change (size (both g h) t * / T) with (size (both g h) t / T). rewrite !term_split by auto. unfold s0, s1, s2, s3. lra.
  Qed.
End Classes.

(** the normalised variation of information of three variables, from their entropies *)
Lemma ratio_triangle hx hy hz hxy hxz hyz :
  0 <= hx <= hxy -> 0 <= hy <= hxy -> hx <= hxz -> 0 <= hz <= hxz -> hy <= hyz -> hz <= hyz ->
  hxy + hz <= hxz + hyz -> hxz <= hx + hz -> hyz <= hy + hz -> 0 < hxy -> 0 < hxz -> 0 < hyz ->
  (hxy - hy) / hxy <= (hxz - hz) / hxz + (hyz - hy) / hyz.
Proof.
  intros X Y X2 Z Y2 Z2 Tr S1 S2 P1 P2 P3. set (a := hxz - hz). set (b := hyz - hy).
  assert (A0: 0 <= a) by (unfold a; lra). assert (B0: 0 <= b) by (unfold b; lra).
  assert (D: 0 < a + hyz) by lra.
  apply Rle_trans with ((a + b) / (a + hyz)).
  - replace ((hxy - hy) / hxy) with (1 - hy / hxy) by (field; lra). replace ((a + b) / (a + hyz)) with (1 - hy / (a + hyz)) by (unfold b; field; lra).
    assert (hy / (a + hyz) <= hy / hxy); [|lra]. apply Rmult_le_compat_l; [lra|]. apply Rinv_le_contravar; unfold a in *; lra.
  - unfold Rdiv. rewrite Rmult_plus_distr_r. apply Rplus_le_compat; apply Rmult_le_compat_l; auto; apply Rinv_le_contravar; unfold a in *; lra.
Qed.
