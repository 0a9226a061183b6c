(** C78: optimal_folds_number minimises the documented cost, and the average training size it is
    built on is the average size of the training sets. *)
From Coq Require Import List Arith Lia ZArith QArith Qabs Qround Lqa.
From Verif Require Import CombinatorialModel CombinatorialProofs CombinatorialProps OptimalFoldsModel.
Import ListNotations.

(** * Specification *)

(** The cost of the docstring: relative distances of the average training size f(x, y) = T/x (x - y)
    and of the number of test paths g(x, y) = C(x - 1, y - 1) from their targets. *)
Definition documented_cost (T : nat) (f_target g_target w_f w_g : Q) (x y : nat) : Q :=
  (w_f * Qabs ((Qn T / Qn x * (Qn x - Qn y) - f_target) / f_target)
   + w_g * Qabs ((Qn (comb (x - 1) (y - 1)) - g_target) / g_target))%Q.

(** the numbers of folds that CombinatorialPurgedCV accepts, with at least one observation per fold *)
Definition admissible (T x y : nat) : Prop := (3 <= x /\ x <= T /\ 2 <= y /\ y < x)%nat.

Definition sum (l : list nat) : nat := fold_right Nat.add 0%nat l.

(** * Binomial coefficients *)

Lemma comb_over n k : (n < k)%nat -> comb n k = 0%nat.
Proof.
  revert k. induction n as [|n IH]; intros [|k] H; simpl; try lia. rewrite !IH by lia. reflexivity.
Qed.

Lemma comb_positive n k : (k <= n)%nat -> (0 < comb n k)%nat.
Proof. revert k. induction n as [|n IH]; intros [|k] H; simpl; try lia. specialize (IH k). lia. Qed.

Lemma comb_n_n n : comb n n = 1%nat.
Proof. induction n; simpl; auto. rewrite IHn, comb_over by lia. reflexivity. Qed.

Lemma comb_sym n k : (k <= n)%nat -> comb n k = comb n (n - k).
Proof.
  revert k. induction n as [|n IH]; intros [|k] H; try lia; try reflexivity.
  - rewrite Nat.sub_0_r, comb_n_n. reflexivity.
  - destruct (Nat.eq_dec k n) as [->|N].
    + rewrite comb_n_n, Nat.sub_diag. reflexivity.
    + replace (S n - S k)%nat with (S (n - S k)) by lia. cbn [comb].
      rewrite (IH k) by lia. rewrite (IH (S k)) by lia.
      replace (n - k)%nat with (S (n - S k)) by lia. lia.
Qed.

Lemma comb_step n k : (S k * comb n (S k) = (n - k) * comb n k)%nat.
Proof.
  revert k. induction n as [|n IH]; intros k; [simpl; lia|]. destruct k as [|k].
  - assert (H := IH 0%nat). cbn [comb] in *. destruct n; cbn [comb] in *; lia.
  - cbn [comb]. assert (A := IH k). assert (Bq := IH (S k)). cbn [Nat.sub].
    destruct (Nat.lt_ge_cases k n) as [L|L].
    + replace (n - k)%nat with (S (n - S k)) in * by lia. nia.
    + rewrite (comb_over n (S k)), (comb_over n (S (S k))) by lia. replace (n - k)%nat with 0%nat by lia. lia.
Qed.

Lemma comb_up n a b : (a <= b)%nat -> (2 * b <= n)%nat -> (comb n a <= comb n b)%nat.
Proof.
  intros H. induction H as [|b H IH]; intros Hb; auto. etransitivity; [apply IH; lia|].
  assert (S1 := comb_step n b). assert (S b <= n - b)%nat by lia. nia.
Qed.

Lemma comb_mono n a b : (a <= b)%nat -> (a + b <= n)%nat -> (comb n a <= comb n b)%nat.
Proof.
  intros H1 H2. destruct (Nat.le_gt_cases (2 * b) n) as [L|L]; [now apply comb_up|].
  rewrite (comb_sym n b) by lia. apply comb_up; lia.
Qed.

(** * The search *)

Lemma Qn_le a b : (a <= b)%nat -> (Qn a <= Qn b)%Q.
Proof. unfold Qn. rewrite <- Zle_Qle. lia. Qed.

Lemma Qn_pos a : (0 < a)%nat -> (0 < Qn a)%Q.
Proof. intros H. unfold Qn. change 0%Q with (inject_Z 0). rewrite <- Zlt_Qlt. lia. Qed.

Lemma Qn_nonneg a : (0 <= Qn a)%Q.
Proof. unfold Qn. change 0%Q with (inject_Z 0). rewrite <- Zle_Qle. lia. Qed.

Section Proof.
Variables (T : nat) (f g wf wg : Q).
Notation cost := (cost T f g wf wg).

Lemma cost_documented x y : (0 < f)%Q -> (0 < g)%Q -> admissible T x y ->
  (cost x y == documented_cost T f g wf wg x y)%Q.
Proof.
  intros Hf Hg (A1 & A2 & A3 & A4). unfold OptimalFoldsModel.cost, documented_cost, avg_train_size.
  rewrite n_test_paths_comb by lia.
  assert (E : forall a b, (0 < b)%Q -> (Qabs (a / b) == Qabs a / b)%Q).
  { intros a b Hb. unfold Qdiv. rewrite Qabs_Qmult. rewrite (Qabs_pos (/ b)); [reflexivity|].
    apply Qinv_le_0_compat. now apply Qlt_le_weak. }
  rewrite !E by auto. unfold Qdiv. ring.
Qed.

Lemma inner_complete n ks st k :
  (forall i, st = Some i -> (i < n)%nat /\ (2 <= i)%nat /\ (100000 < cost n i)%Q /\ forall z, In z ks -> (i < z)%nat) ->
  Sorting.Sorted.StronglySorted lt ks -> (forall z, In z ks -> 2 <= z < n)%nat -> In k ks ->
  In (n, k) (inner T f g wf wg n ks st) \/
  exists i, (2 <= i)%nat /\ (i <= k)%nat /\ (i < n - k)%nat /\ (100000 < cost n i)%Q.
Proof.
  intros Hst S Hz Hk. revert st Hst. induction S as [|a ks S IH F]; intros st Hst; [destruct Hk|].
  rewrite Forall_forall in F. cbn [inner].
  destruct st as [i|].
  - destruct (Hst i eq_refl) as (B1 & B2 & B3 & B4).
    assert (Hst' : forall i0, Some i = Some i0 -> (i0 < n)%nat /\ (2 <= i0)%nat /\ (100000 < cost n i0)%Q /\ forall z, In z ks -> (i0 < z)%nat).
    { intros i0 [= <-]. repeat split; auto. intros z Hz'. apply B4. now right. }
    destruct Hk as [->|Hk].
    + destruct (Nat.leb_spec (n - k) i) as [L|L]; [left; now left|].
      right. exists i. assert (i < k)%nat by (apply B4; now left). split; [lia|]. split; [lia|]. split; [lia|exact B3].
    + destruct (IH (fun z h => Hz z (or_intror h)) Hk (Some i) Hst') as [H|H]; [|auto].
      left. destruct (n - a <=? i)%nat; [now right|auto].
  - destruct Hk as [->|Hk]; [left; now left|].
    assert (Hst' : forall i, (if Qle_bool (cost n a) 100000 then None else Some a) = Some i ->
              (i < n)%nat /\ (2 <= i)%nat /\ (100000 < cost n i)%Q /\ forall z, In z ks -> (i < z)%nat).
    { intros i E. destruct (Qle_bool (cost n a) 100000) eqn:EQ; [discriminate|]. injection E as <-.
      destruct (Hz a (or_introl eq_refl)). repeat split; auto.
      apply Qnot_le_lt. intros L. apply Qle_bool_iff in L. congruence. }
    destruct (IH (fun z h => Hz z (or_intror h)) Hk _ Hst') as [H|H]; [|auto]. left. now right.
Qed.

Lemma inner_sound n ks st p : In p (inner T f g wf wg n ks st) -> fst p = n /\ In (snd p) ks.
Proof.
  revert st. induction ks as [|a ks IH]; intros st H; simpl in H; [destruct H|].
  destruct (match st with None => true | Some i => n - a <=? i end)%nat.
  - destruct H as [<-|H]; [split; auto; now left|]. apply IH in H. simpl. tauto.
  - apply IH in H. simpl. tauto.
Qed.

Lemma res_sound x y : In (x, y) (res T f g wf wg) -> admissible T x y.
Proof.
  unfold res. intros H. apply in_flat_map in H. destruct H as (n & Hn & H). apply in_seq in Hn.
  apply inner_sound in H. destruct H as [E H]. simpl in *. subst n. apply in_seq in H. unfold admissible. lia.
Qed.

Lemma res_complete x y : admissible T x y ->
  In (x, y) (res T f g wf wg) \/ exists i, (2 <= i)%nat /\ (i <= y)%nat /\ (i < x - y)%nat /\ (100000 < cost x i)%Q.
Proof.
  intros (A1 & A2 & A3 & A4).
  destruct (inner_complete x (seq 2 (x - 2)) None y) as [H|H]; auto.
  - discriminate.
  - apply seq_SSorted.
  - intros z Hz. apply in_seq in Hz. lia.
  - apply in_seq. lia.
  - left. unfold res. apply in_flat_map. exists x. split; auto. apply in_seq. lia.
Qed.

Lemma argmin_spec best l : In (argmin T f g wf wg best l) (best :: l) /\
  forall c, In c (best :: l) -> (cost (fst (argmin T f g wf wg best l)) (snd (argmin T f g wf wg best l)) <= cost (fst c) (snd c))%Q.
Proof.
  revert best. induction l as [|a l IH]; intros best; cbn [argmin].
  - split; [now left|]. intros c [<-|[]]. apply Qle_refl.
  - destruct (Qle_bool (cost (fst best) (snd best)) (cost (fst a) (snd a))) eqn:E.
    + apply Qle_bool_iff in E. destruct (IH best) as [I1 I2]. split.
      * destruct I1 as [I1|I1]; [now left|right; now right].
      * intros c [<-|[<-|Hc]].
        -- apply I2. now left.
        -- eapply Qle_trans; [apply I2; now left|exact E].
        -- apply I2. now right.
    + assert (E' : (cost (fst a) (snd a) <= cost (fst best) (snd best))%Q).
      { apply Qlt_le_weak, Qnot_le_lt. intros L. apply Qle_bool_iff in L. congruence. }
      destruct (IH a) as [I1 I2]. split.
      * now right.
      * intros c [<-|Hc]; [eapply Qle_trans; [apply I2; now left|exact E']|apply I2; exact Hc].
Qed.

(** ** the parts of the cost *)
Definition path_part (x y : nat) : Q := (wg * Qabs (Qn (n_test_paths x y) - g) / g)%Q.
Definition train_part (x y : nat) : Q := (wf * Qabs (avg_train_size T x y - f) / f)%Q.

Lemma train_bounds x y : (0 < f)%Q -> (0 <= wf)%Q -> admissible T x y ->
  (0 <= train_part x y)%Q /\ (train_part x y <= wf * (1 + Qn T / f))%Q.
Proof.
  intros Hf Hw (A1 & A2 & A3 & A4). unfold train_part.
  assert (Av : (0 <= avg_train_size T x y)%Q /\ (avg_train_size T x y <= Qn T)%Q).
  { unfold avg_train_size. assert (Px := Qn_pos x ltac:(lia)). assert (Hy := Qn_le y x ltac:(lia)).
    assert (Hy0 := Qn_nonneg y). assert (HT := Qn_nonneg T).
    assert (E : (Qn T / Qn x * (Qn x - Qn y) == Qn T * ((Qn x - Qn y) / Qn x))%Q) by (field; lra). rewrite E.
    assert (R : (0 <= (Qn x - Qn y) / Qn x)%Q /\ ((Qn x - Qn y) / Qn x <= 1)%Q).
    { split; [apply Qle_shift_div_l; lra|apply Qle_shift_div_r; lra]. }
    split; nra. }
  assert (Pi : (0 < / f)%Q) by now apply Qinv_lt_0_compat.
  assert (Ab : (Qabs (avg_train_size T x y - f) <= f + Qn T)%Q).
  { apply Qabs_case; intros; lra. }
  assert (Ab0 := Qabs_nonneg (avg_train_size T x y - f)).
  assert (Ef : (f * / f == 1)%Q) by (apply Qmult_inv_r; lra).
  set (A := Qabs (avg_train_size T x y - f)) in *. unfold Qdiv. split.
  - apply Qmult_le_0_compat; [apply Qmult_le_0_compat; auto|lra].
  - assert (H1 : (A * / f <= 1 + Qn T * / f)%Q) by nra.
    rewrite <- Qmult_assoc. rewrite (Qmult_comm wf (A * / f)), (Qmult_comm wf (1 + _)). apply Qmult_le_compat_r; auto.
Qed.

Lemma path_small x y : (0 < g)%Q -> (0 <= wg)%Q -> (Qn (n_test_paths x y) <= g + g)%Q -> (path_part x y <= wg)%Q.
Proof.
  intros Hg Hw H. unfold path_part, Qdiv.
  assert (Pi : (0 < / g)%Q) by now apply Qinv_lt_0_compat.
  assert (Eg : (g * / g == 1)%Q) by (apply Qmult_inv_r; lra).
  assert (C0 := Qn_nonneg (n_test_paths x y)).
  assert (Ab : (Qabs (Qn (n_test_paths x y) - g) <= g)%Q) by (apply Qabs_case; intros; lra).
  set (A := Qabs _) in *. assert (H1 : (A * / g <= 1)%Q) by nra.
  rewrite <- Qmult_assoc. setoid_replace wg with (wg * 1)%Q at 2 by ring.
  rewrite (Qmult_comm wg (A * / g)), (Qmult_comm wg 1). apply Qmult_le_compat_r; auto.
Qed.

Lemma path_mono x i y : (0 < g)%Q -> (0 <= wg)%Q -> (g <= Qn (n_test_paths x i))%Q ->
  (n_test_paths x i <= n_test_paths x y)%nat -> (path_part x i <= path_part x y)%Q.
Proof.
  intros Hg Hw H L. unfold path_part, Qdiv. apply Qn_le in L.
  assert (Pi : (0 < / g)%Q) by now apply Qinv_lt_0_compat.
  rewrite !Qabs_pos by lra. apply Qmult_le_compat_r; [|lra].
  rewrite !(Qmult_comm wg). apply Qmult_le_compat_r; auto. lra.
Qed.

Lemma skipped x y i :
  (0 < f)%Q -> (1 <= g)%Q -> (0 <= wf)%Q -> (0 <= wg)%Q -> (2 * (wg + wf * (1 + Qn T / f)) <= 100000)%Q ->
  admissible T x y -> (2 <= i)%nat -> (i <= y)%nat -> (i < x - y)%nat -> (100000 < cost x i)%Q ->
  (cost 3 2 <= cost x y)%Q.
Proof.
  intros Hf Hg Hwf Hwg HB HA I1 I2 I3 HC.
  assert (HA' := HA). destruct HA' as (A1 & A2 & A3 & A4).
  assert (HAi : admissible T x i) by (unfold admissible; lia).
  assert (HA3 : admissible T 3 2) by (unfold admissible; lia).
  destruct (train_bounds x i Hf Hwf HAi) as [T1 T2]. destruct (train_bounds x y Hf Hwf HA) as [T3 T4].
  destruct (train_bounds 3 2 Hf Hwf HA3) as [T5 T6].
  change (cost x i) with (path_part x i + train_part x i)%Q in HC.
  change (cost x y) with (path_part x y + train_part x y)%Q.
  change (cost 3 2) with (path_part 3 2 + train_part 3 2)%Q.
  set (b := (wf * (1 + Qn T / f))%Q) in *.
  assert (P32 : (path_part 3 2 <= wg)%Q).
  { apply path_small; auto; [lra|]. change (Qn (n_test_paths 3 2)) with 2%Q. lra. }
  assert (Hb : (0 <= b)%Q) by lra.
  assert (Hge : (g <= Qn (n_test_paths x i))%Q).
  { apply Qnot_lt_le. intros L. assert (path_part x i <= wg)%Q by (apply path_small; auto; lra). lra. }
  assert (HM : (n_test_paths x i <= n_test_paths x y)%nat).
  { rewrite !n_test_paths_comb by lia. apply comb_mono; lia. }
  assert (path_part x i <= path_part x y)%Q by (apply path_mono; auto; lra). lra.
Qed.
End Proof.

(** * Theorems *)

(** The result is an admissible pair whose documented cost is the smallest over all admissible
    pairs, although the search skips pairs: for a target of at least one path and non-negative
    weights that are not huge. *)
Theorem C78_optimal :
  forall T f g wf wg,
    (3 <= T)%nat -> (0 < f)%Q -> (1 <= g)%Q -> (0 <= wf)%Q -> (0 <= wg)%Q ->
    (2 * (wg + wf * (1 + Qn T / f)) <= 100000)%Q ->
    exists x y, optimal_folds_number T f g wf wg = Some (x, y) /\ admissible T x y /\ ctor_ok x y = true /\
      forall x' y', admissible T x' y' ->
        (documented_cost T f g wf wg x y <= documented_cost T f g wf wg x' y')%Q.
Proof.
  intros T f g wf wg HT Hf Hg Hwf Hwg HB. unfold optimal_folds_number.
  assert (H32 : In (3, 2)%nat (res T f g wf wg)).
  { destruct (res_complete T f g wf wg 3 2) as [H|(i & H)]; auto; [unfold admissible; lia|lia]. }
  destruct (res T f g wf wg) as [|c r] eqn:ER; [destruct H32|].
  destruct (argmin_spec T f g wf wg c r) as [M1 M2]. destruct (argmin T f g wf wg c r) as [x y] eqn:EA.
  assert (HA : admissible T x y) by (apply (res_sound T f g wf wg); now rewrite ER).
  exists x, y. split; [reflexivity|]. split; [exact HA|]. split.
  { unfold ctor_ok. destruct HA as (A1 & A2 & A3 & A4).
    destruct (Nat.leb_spec x 2), (Nat.leb_spec y 1), (Nat.leb_spec x y); try lia; reflexivity. }
  intros x' y' HA'. rewrite <- !cost_documented by (auto; lra).
  destruct (res_complete T f g wf wg x' y' HA') as [H|(i & I1 & I2 & I3 & HC)].
  - rewrite ER in H. apply (M2 (x', y') H).
  - eapply Qle_trans; [apply (M2 (3, 2)%nat H32)|]. eapply skipped; eauto.
Qed.
Print Assumptions C78_optimal.

(** With the default weights, for instance, whenever the target training size is not smaller than
    one observation and the sample has fewer than 49998 observations. *)
Theorem C78_default_weights :
  forall T f g, (3 <= T)%nat -> (Z.of_nat T <= 49997)%Z -> (1 <= f)%Q -> (1 <= g)%Q ->
    exists x y, optimal_folds_number T f g 1 1 = Some (x, y) /\
      forall x' y', admissible T x' y' -> (documented_cost T f g 1 1 x y <= documented_cost T f g 1 1 x' y')%Q.
Proof.
  intros T f g HT HT' Hf Hg. destruct (C78_optimal T f g 1 1 HT) as (x & y & E & _ & _ & M); try lra.
  - assert (Qn T / f <= Qn T)%Q.
    { apply Qle_shift_div_r; [lra|]. assert (H0 := Qn_nonneg T). nra. }
    assert (Qn T <= 49997)%Q by (unfold Qn; change 49997%Q with (inject_Z 49997); rewrite <- Zle_Qle; lia). lra.
  - eauto.
Qed.
Print Assumptions C78_default_weights.

(** Fewer than three observations: no admissible pair, and the function raises. *)
Theorem C78_too_few : forall T f g wf wg, (T < 3)%nat ->
  optimal_folds_number T f g wf wg = None /\ forall x y, ~ admissible T x y.
Proof.
  intros T f g wf wg H. split.
  - unfold optimal_folds_number, res. replace (T - 2)%nat with 0%nat by lia. reflexivity.
  - unfold admissible. lia.
Qed.
Print Assumptions C78_too_few.

(** Finding: with a large weight the skipping of pairs misses the optimum. *)
Theorem C78_large_weight_refuted :
  exists T f g wf wg x y,
    (0 < f)%Q /\ (1 <= g)%Q /\ (0 <= wf)%Q /\ (0 <= wg)%Q /\
    optimal_folds_number T f g wf wg = Some (x, y) /\
    exists x' y', admissible T x' y' /\ (documented_cost T f g wf wg x' y' < documented_cost T f g wf wg x y)%Q.
Proof.
  exists 6%nat, 3%Q, 10%Q, 1%Q, 1000000%Q, 6%nat, 4%nat.
  split; [reflexivity|]. split; [discriminate|]. split; [discriminate|]. split; [discriminate|].
  split; [vm_compute; reflexivity|]. exists 6%nat, 3%nat. split; [unfold admissible; lia|]. vm_compute. reflexivity.
Qed.
Print Assumptions C78_large_weight_refuted.

(** * The average training size *)

Lemma sum_app a b : sum (a ++ b) = (sum a + sum b)%nat.
Proof. unfold sum. induction a; simpl; lia. Qed.

Lemma double_count {A B} (p : A -> B -> bool) (I : list A) (L : list B) :
  sum (map (fun i => List.length (filter (p i) L)) I) = sum (map (fun x => List.length (filter (fun i => p i x) I)) L).
Proof.
  induction L as [|x L IH]; simpl.
  - induction I; simpl; auto.
  - rewrite <- IH. clear IH. induction I as [|i I IHI]; simpl; [reflexivity|].
    destruct (p i x); simpl; rewrite IHI; lia.
Qed.

Lemma filter_negb_len {A} (p : A -> bool) l : (List.length (filter p l) + List.length (filter (fun x => negb (p x)) l) = List.length l)%nat.
Proof. induction l; simpl; auto. destruct (p a); simpl; lia. Qed.

Lemma train_no_purge K k n i : train_index K k 0 0 n i =
  filter (fun x => negb (memn (fold_num K n x) (nth i (test_set_index K k) []))) (seq 0 n).
Proof.
  unfold train_index, col2, col1. simpl. apply filter_ext. intros x. unfold col0. destruct (memn _ _); reflexivity.
Qed.

Lemma map_nth_seq {A B} (h : A -> B) (L : list A) d : map (fun i => h (nth i L d)) (seq 0 (List.length L)) = map h L.
Proof. induction L as [|c L IH]; simpl; auto. f_equal. rewrite <- seq_shift, map_map. exact IH. Qed.

Lemma total_no_purge K k n :
  (0 < k)%nat -> (k <= K)%nat -> (0 < n / K)%nat -> (n mod K <= n / K)%nat ->
  (K * sum (map (fun i => List.length (train_index K k 0 0 n i)) (seq 0 (n_splits K k))) = n_splits K k * n * (K - k))%nat.
Proof.
  intros Hk HkK Hm Hp.
  assert (HK : (0 < K)%nat) by lia.
  assert (HF : forall x, (x < n)%nat -> (fold_num K n x < K)%nat).
  { intros x Hx. assert (E := proj2 (C04_folds_partition_iff K n HK Hm) Hp).
    assert (In x (seq 0 n)) as Hi by (apply in_seq; lia). rewrite <- E in Hi. apply in_concat in Hi.
    destruct Hi as (l & Hl & Hx'). apply in_map_iff in Hl. destruct Hl as (fd & <- & Hfd). apply in_seq in Hfd.
    unfold fold_index in Hx'. apply filter_In in Hx'. destruct Hx' as [_ Ef]. apply Nat.eqb_eq in Ef. lia. }
  assert (E1 : map (fun i => List.length (train_index K k 0 0 n i)) (seq 0 (n_splits K k)) =
               map (fun c => List.length (filter (fun x => negb (memn (fold_num K n x) c)) (seq 0 n))) (test_set_index K k)).
  { rewrite <- (tsi_length K k).
    rewrite (map_ext _ (fun i => (fun c => List.length (filter (fun x => negb (memn (fold_num K n x) c)) (seq 0 n))) (nth i (test_set_index K k) []))).
    2: intros i; now rewrite train_no_purge.
    apply (map_nth_seq (fun c => List.length (filter (fun x => negb (memn (fold_num K n x) c)) (seq 0 n)))). }
  rewrite E1, (double_count (fun c x => negb (memn (fold_num K n x) c))).
  assert (E2 : forall x, In x (seq 0 n) ->
     (K * List.length (filter (fun c => negb (memn (fold_num K n x) c)) (test_set_index K k)) = n_splits K k * (K - k))%nat).
  { intros x Hx. apply in_seq in Hx. specialize (HF x ltac:(lia)).
    assert (A := filter_negb_len (fun c => memn (fold_num K n x) c) (test_set_index K k)).
    rewrite tsi_length in A. unfold test_set_index in A at 1.
    destruct k as [|k']; [lia|]. rewrite count_containing in A; [|apply seq_NoDup|apply in_seq; lia].
    rewrite seq_length in A. destruct K as [|K']; [lia|]. replace (S K' - 1)%nat with K' in A by lia.
    assert (Ab := comb_absorb K' k'). unfold n_splits in *.
    remember (List.length (filter (fun x0 => negb (memn (fold_num (S K') n x) x0)) (test_set_index (S K') (S k')))) as m.
    remember (comb (S K') (S k')) as c. assert (S K' - S k' + S k' = S K')%nat by lia. nia. }
  assert (E3 : forall l, (forall x, In x l -> (K * List.length (filter (fun c => negb (memn (fold_num K n x) c)) (test_set_index K k)) = n_splits K k * (K - k))%nat) ->
     (K * sum (map (fun x => List.length (filter (fun c => negb (memn (fold_num K n x) c)) (test_set_index K k))) l) = List.length l * (n_splits K k * (K - k)))%nat).
  { induction l as [|x l IH]; intros H; [simpl; lia|]. simpl map. simpl List.length. cbn [sum fold_right].
    change (fold_right Nat.add 0%nat ?z) with (sum z). rewrite Nat.mul_add_distr_l, H by now left.
    rewrite IH by (intros; apply H; now right). lia. }
  rewrite E3 by auto. rewrite seq_length. lia.
Qed.

Lemma splits_total K k pu em n splits : cpcv_split K k pu em n = Some splits ->
  sum (map (fun s => List.length (fst s)) splits) =
  sum (map (fun i => List.length (train_index K k pu em n i)) (seq 0 (n_splits K k))) /\ List.length splits = n_splits K k.
Proof.
  unfold cpcv_split. destruct (size_error _ _ _ _); [discriminate|]. intros [= <-].
  rewrite map_map, map_length, seq_length. auto.
Qed.

(** Without purging and embargo, the average number of observations of the training sets is
    n / n_folds * (n_folds - n_test_folds). *)
Theorem C78_average_train_size :
  forall K k n splits, ctor_ok K k = true -> (n mod K <= n / K)%nat ->
    cpcv_split K k 0 0 n = Some splits ->
    (Qn (sum (map (fun s => List.length (fst s)) splits)) / Qn (List.length splits) == avg_train_size n K k)%Q.
Proof.
  intros K k n splits HC Hp HS. destruct (splits_total _ _ _ _ _ _ HS) as [-> ->].
  destruct (ctor_bounds _ _ HC) as (H1 & H2 & H3).
  assert (Hm : (0 < n / K)%nat).
  { destruct (Nat.eq_dec (n / K) 0) as [E|]; [|lia].
    assert (cpcv_split K k 0 0 n = None) by (apply C03_split_raises_iff; lia). congruence. }
  assert (E := total_no_purge K k n ltac:(lia) ltac:(lia) Hm Hp).
  assert (Hs : (0 < n_splits K k)%nat) by (apply comb_positive; lia).
  remember (sum _) as tot. unfold avg_train_size.
  assert (EQ : (Qn K * Qn tot == Qn (n_splits K k) * Qn n * (Qn K - Qn k))%Q).
  { unfold Qn. unfold Qminus. rewrite <- inject_Z_opp, <- inject_Z_plus, <- !inject_Z_mult. unfold Qeq. simpl. nia. }
  assert (P1 := Qn_pos K ltac:(lia)). assert (P2 := Qn_pos _ Hs).
  assert (E' : (Qn tot == Qn (n_splits K k) * Qn n * (Qn K - Qn k) / Qn K)%Q) by (rewrite <- EQ; field; lra).
  rewrite E'. field. split; lra.
Qed.
Print Assumptions C78_average_train_size.

(** The training size reported by the summary is the integer part of that average. *)
Theorem C78_summary :
  forall K k n splits, ctor_ok K k = true -> (n mod K <= n / K)%nat ->
    cpcv_split K k 0 0 n = Some splits ->
    let total := Z.of_nat (sum (map (fun s => List.length (fst s)) splits)) in
    let count := Z.of_nat (List.length splits) in
    (summary_train_size n K k * count <= total < (summary_train_size n K k + 1) * count)%Z.
Proof.
  intros K k n splits HC Hp HS total count. assert (E := C78_average_train_size _ _ _ _ HC Hp HS).
  assert (Hc : (0 < List.length splits)%nat).
  { destruct (splits_total _ _ _ _ _ _ HS) as [_ L]. rewrite L.
    destruct (ctor_bounds _ _ HC) as (H1 & H2 & H3). unfold n_splits. apply comb_positive. lia. }
  assert (Hq := Qn_pos _ Hc).
  assert (F1 := Qfloor_le (avg_train_size n K k)). assert (F2 := Qlt_floor (avg_train_size n K k)).
  unfold summary_train_size. set (z := Qfloor (avg_train_size n K k)) in *. rewrite <- E in F1, F2.
  assert (M : (Qn (sum (map (fun s => List.length (fst s)) splits)) / Qn (List.length splits) * Qn (List.length splits)
               == inject_Z total)%Q) by (unfold total; fold (Qn (sum (map (fun s => List.length (fst s)) splits))); field; lra).
  change (inject_Z count) with (Qn (List.length splits)) in *.
  split.
  - rewrite Zle_Qle, inject_Z_mult. rewrite <- M. apply Qmult_le_compat_r; [exact F1|]. apply Qlt_le_weak, Hq.
  - rewrite Zlt_Qlt, inject_Z_mult. rewrite <- M. apply Qmult_lt_compat_r; [exact Hq|exact F2].
Qed.
Print Assumptions C78_summary.

(** With purging or embargo it is an upper bound. *)
Theorem C78_average_upper :
  forall K k pu em n splits, ctor_ok K k = true -> (n mod K <= n / K)%nat ->
    cpcv_split K k pu em n = Some splits ->
    (Qn (sum (map (fun s => List.length (fst s)) splits)) / Qn (List.length splits) <= avg_train_size n K k)%Q.
Proof.
  intros K k pu em n splits HC Hp HS. destruct (ctor_bounds _ _ HC) as (H1 & H2 & H3).
  assert (Hm : (pu + em + 1 < n / K)%nat).
  { destruct (Nat.le_gt_cases (n / K) (pu + em + 1)) as [L|L]; auto. apply (C03_split_raises_iff K k) in L. congruence. }
  destruct (cpcv_split K k 0 0 n) as [s0|] eqn:ES0; [|apply C03_split_raises_iff in ES0; lia].
  rewrite <- (C78_average_train_size K k n s0 HC Hp ES0).
  destruct (splits_total _ _ _ _ _ _ HS) as [-> ->]. destruct (splits_total _ _ _ _ _ _ ES0) as [-> ->].
  assert (Hs : (0 < n_splits K k)%nat) by (apply comb_positive; lia). apply Qn_pos in Hs.
  unfold Qdiv. apply Qmult_le_compat_r; [|apply Qinv_le_0_compat; lra]. apply Qn_le.
  assert (HL : forall i, In i (seq 0 (n_splits K k)) -> (List.length (train_index K k pu em n i) <= List.length (train_index K k 0 0 n i))%nat).
  { intros i Hi. apply in_seq in Hi. apply NoDup_incl_length; [apply NoDup_filter, seq_NoDup|].
    intros x Hx. apply train_spec in Hx. apply train_spec. split; [tauto|]. split; [tauto|].
    destruct Hx as (_ & _ & A & Bq). split; intros t Ht; [specialize (A t Ht)|specialize (Bq t Ht)]; lia. }
  generalize dependent (seq 0 (n_splits K k)). intros l HL. induction l as [|i l IH]; [simpl; lia|].
  cbn [map sum fold_right]. assert (A := HL i (or_introl eq_refl)). assert (Bq := IH (fun j h => HL j (or_intror h))).
  unfold sum in *. lia.
Qed.
Print Assumptions C78_average_upper.

(** Finding: summary reports the average training size as if there were no purging. *)
Theorem C78_summary_refuted :
  exists K k pu em n splits, ctor_ok K k = true /\ (n mod K <= n / K)%nat /\ cpcv_split K k pu em n = Some splits /\
    forall s, In s splits -> (Z.of_nat (List.length (fst s)) < summary_train_size n K k)%Z.
Proof.
  exists 4%nat, 2%nat, 1%nat, 1%nat, 16%nat. eexists. split; [reflexivity|]. split; [vm_compute; lia|].
  split; [vm_compute; reflexivity|]. change (summary_train_size 16 4 2) with 8%Z.
  intros s H. repeat (destruct H as [<-|H]; [vm_compute; reflexivity|]). destruct H.
Qed.
Print Assumptions C78_summary_refuted.

Example C78_applies :
  (2 * (1 + 1 * (1 + Qn 20 / 10)) <= 100000)%Q /\ optimal_folds_number 20 10 5 1 1 = Some (6, 2)%nat.
Proof. split; [vm_compute; discriminate|]. vm_compute. reflexivity. Qed.
