(** C23-C26: pre-selection transformers. *)
From Coq Require Import String List ZArith QArith Bool Arith Reals Lia Lra Permutation Sorted.
From Verif Require Import RList SortingModel SortingProps PopulationModel PopulationProps PortfolioArithModel MeasuresModel PreSelectionModel.
Import ListNotations.
Local Open Scope list_scope.
Local Open Scope R_scope.

(** * Specification *)
Definition kept (keep : list bool) (i : nat) : Prop := nth_error keep i = Some true.
(** np.argsort returns the positions in increasing order of the values *)
Definition argsort_ok (argsort : list R -> list nat) : Prop :=
  forall l, Permutation (argsort l) (seq 0 (length l))
    /\ forall a b, (a < b < length l)%nat -> nth (nth a (argsort l) 0%nat) l 0 <= nth (nth b (argsort l) 0%nat) l 0.
(** [x] is the one to drop in the pair {x, y}: the higher average correlation, the later asset on a tie *)
Definition loses (X : list (list R)) (n x y : nat) : Prop :=
  mean_corr X n y < mean_corr X n x \/ (mean_corr X n y = mean_corr X n x /\ (y < x)%nat).
(** the set S has exactly k elements *)
Definition cardinal (S : nat -> Prop) (k : nat) : Prop := exists l, NoDup l /\ (forall i, In i l <-> S i) /\ length l = k.

(** ** Common lemmas *)
Lemma nth_repeat_true n i : (i < n)%nat -> Some (nth i (repeat true n) false) = Some true.
Proof. intros H. f_equal. revert i H. induction n; intros [|i] H; cbn; try lia; auto. apply IHn. lia. Qed.
Lemma nth_repeat_one n i : (i < n)%nat -> nth i (repeat 1 n) 0 = 1.
Proof. revert i. induction n; intros [|i] H; cbn; try lia; auto. apply IHn. lia. Qed.
Lemma memn_In i l : memn i l = true <-> In i l.
Proof. unfold memn. rewrite existsb_exists. split; [intros (x&Hx&E); apply Nat.eqb_eq in E; subst; auto|intros H; exists i; split; [auto|apply Nat.eqb_refl]]. Qed.
Lemma memn_nIn i l : memn i l = false <-> ~ In i l.
Proof. rewrite <- memn_In. destruct (memn i l); split; intros; congruence. Qed.
Lemma nth_error_seq n i : (i < n)%nat -> nth_error (seq 0 n) i = Some i.
Proof. intros H. rewrite (nth_error_nth' _ 0%nat) by (rewrite seq_length; auto). rewrite seq_nth by auto. reflexivity. Qed.
Lemma kept_map f n i : kept (map f (seq 0 n)) i <-> (i < n)%nat /\ f i = true.
Proof.
  unfold kept. rewrite nth_error_map. destruct (Nat.lt_ge_cases i n) as [H|H].
  - rewrite nth_error_seq by auto. cbn. split; [intros E; inversion E; auto|intros [_ ->]; auto].
  - replace (nth_error (seq 0 n) i) with (@None nat) by (symmetry; apply nth_error_None; rewrite seq_length; auto). cbn. split; [discriminate|lia].
Qed.
Lemma In_triu n i j : In (i, j) (triu n) <-> (i < j < n)%nat.
Proof.
  unfold triu. rewrite in_concat. split.
  - intros (l&Hl&Hij). apply in_map_iff in Hl as (a&<-&Ha). apply in_map_iff in Hij as (b&E&Hb). inversion E; subst. apply in_seq in Ha, Hb. lia.
  - intros H. exists (map (fun j => (i, j)) (seq (i + 1) (n - (i + 1)))). split.
    + apply in_map_iff. exists i. split; [reflexivity|apply in_seq; lia].
    + apply in_map. apply in_seq. lia.
Qed.
Lemma cov_sym X i j : cov X i j = cov X j i.
Proof. unfold cov. f_equal. apply so_ext. intros; ring. Qed.
Lemma corr_sym X i j : corr X i j = corr X j i.
Proof. unfold corr. rewrite (cov_sym X i j). f_equal. f_equal. ring. Qed.

(** * C23 *)
Lemma SS_nth {A} (r : A -> A -> Prop) d l : (forall a b, (a < b < length l)%nat -> r (nth a l d) (nth b l d)) -> StronglySorted r l.
Proof.
  induction l as [|x l IH]; intros H; constructor.
  - apply IH. intros a b Hab. apply (H (S a) (S b)). cbn; lia.
  - apply Forall_forall. intros y Hy. apply (In_nth _ _ d) in Hy as (b&Hb&<-). apply (H 0%nat (S b)). cbn; lia.
Qed.
Section C23.
  Variable argsort : list R -> list nat.
  Hypothesis Hsort : argsort_ok argsort.
  Variable X : list (list R).
  Variable n : nat.
  Variable threshold : R.
  Let c (p : nat * nat) := corr X (fst p) (snd p).

  Lemma selected_In i j : In (i, j) (selected_pairs X n threshold) <-> (i < j < n)%nat /\ threshold < corr X i j.
  Proof.
    clear Hsort. unfold selected_pairs. rewrite filter_In, In_triu. cbn. destruct (Rlt_dec _ _); split; intros [H1 H2]; split; auto; try discriminate; try tauto.
  Qed.
  Lemma ordered_In p : In p (ordered_pairs argsort X n threshold) <-> In p (selected_pairs X n threshold).
  Proof.
    unfold ordered_pairs. set (sel := selected_pairs X n threshold). destruct (Hsort (map (fun p => - c p) sel)) as [H _].
    rewrite map_length in H. split.
    - intros Hp. apply in_map_iff in Hp as (k&<-&Hk). apply (Permutation_in _ H) in Hk. apply in_seq in Hk. apply nth_In. lia.
    - intros Hp. apply (In_nth _ _ (0,0)%nat) in Hp as (k&Hk&<-). apply in_map_iff. exists k. split; [reflexivity|].
      apply (Permutation_in _ (Permutation_sym H)). apply in_seq. lia.
  Qed.
  Lemma ordered_sorted : StronglySorted (fun p q => c q <= c p) (ordered_pairs argsort X n threshold).
  Proof.
    unfold ordered_pairs. set (sel := selected_pairs X n threshold). destruct (Hsort (map (fun p => - c p) sel)) as [H1 H2].
    set (v := map (fun p => - c p) sel) in *. change (map (fun p => - corr X (fst p) (snd p)) sel) with v.
    assert (Hl: length (argsort v) = length sel) by (rewrite (Permutation_length H1), seq_length; subst v; apply map_length).
    apply (SS_nth _ (0,0)%nat). rewrite map_length, Hl. intros a b Hab.
    assert (Lv: length v = length sel) by (subst v; apply map_length).
    specialize (H2 a b ltac:(lia)).
    assert (G: forall k, (k < length sel)%nat -> nth k (map (fun k => nth k sel (0, 0)%nat) (argsort v)) (0,0)%nat = nth (nth k (argsort v) 0%nat) sel (0,0)%nat).
    { intros k Hk. rewrite (nth_indep _ _ (nth 0 sel (0,0)%nat)) by (rewrite map_length; lia).
      rewrite (map_nth (fun k => nth k sel (0,0)%nat)). reflexivity. }
    assert (B: forall k, (k < length sel)%nat -> (nth k (argsort v) 0 < length sel)%nat).
    { intros k Hk. assert (Hin: In (nth k (argsort v) 0%nat) (argsort v)) by (apply nth_In; lia).
      apply (Permutation_in _ H1) in Hin. apply in_seq in Hin. lia. }
    assert (V: forall k, (k < length sel)%nat -> nth k v 0 = - c (nth k sel (0,0)%nat)).
    { intros k Hk. subst v. rewrite (nth_indep _ _ (- c (0,0)%nat)) by lia. apply (map_nth (fun p => - c p)). }
    rewrite !G by lia. rewrite !V in H2 by (apply B; lia). lra.
  Qed.

  Definition reasons (done : list (nat * nat)) (rem : list nat) (r : nat -> nat) : Prop :=
    (forall x, In x rem -> (In (x, r x) done \/ In (r x, x) done) /\ loses X n x (r x)
       /\ (In (r x) rem -> corr X (r x) (r (r x)) <= corr X x (r x)))
    /\ (forall i j, In (i, j) done -> (In i rem /\ corr X i j <= corr X i (r i)) \/ (In j rem /\ corr X i j <= corr X j (r j)))
    /\ ((0 < n)%nat -> exists z, (z < n)%nat /\ ~ In z rem).

  Lemma loop done rest rem :
    (exists r, reasons done rem r) -> (forall p q, In p done -> In q rest -> c q <= c p) -> StronglySorted (fun p q => c q <= c p) rest ->
    (forall p, In p rest -> (fst p < snd p < n)%nat) ->
    exists r, reasons (done ++ rest) (fold_left (drop_step X n) rest rem) r.
  Proof.
    clear Hsort. revert done rem; induction rest as [|[i j] rest IH]; intros done rem (r&Hr) Hd Hs Hb; cbn [fold_left].
    - exists r. rewrite app_nil_r. exact Hr.
    - change (done ++ (i, j) :: rest) with (done ++ [(i, j)] ++ rest). rewrite app_assoc. inversion Hs as [|? ? Hs1 Hs2]; subst. rewrite Forall_forall in Hs2.
      pose proof (Hb (i, j) (or_introl eq_refl)) as Hij. cbn in Hij.
      apply IH; auto.
      2:{ intros p q Hp Hq. apply in_app_or in Hp as [Hp|[<-|[]]]; [apply Hd; cbn; auto|auto]. }
      2:{ intros; apply Hb; cbn; auto. }
      destruct Hr as (R1&R2&R3).
      assert (Hc: forall x, In x rem -> corr X i j <= corr X x (r x)).
      { intros x Hx. destruct (R1 x Hx) as ([Hin|Hin]&_).
        - apply (Hd (x, r x) (i, j)); cbn; auto.
        - rewrite (corr_sym X x). apply (Hd (r x, x) (i, j)); cbn; auto. }
      cbn [drop_step]. destruct (memn i rem) eqn:Ei; cbn [negb andb].
      { apply memn_In in Ei. exists r. split; [|split; [|exact R3]].
        - intros x Hx. destruct (R1 x Hx) as (H1&H2). split; [|exact H2]. rewrite !in_app_iff. tauto.
        - intros a b Hab. apply in_app_or in Hab as [Hab|[Hab|[]]]; [auto|]. inversion Hab; subst. left. split; auto. }
      destruct (memn j rem) eqn:Ej; cbn [negb].
      { apply memn_In in Ej. exists r. split; [|split; [|exact R3]].
        - intros x Hx. destruct (R1 x Hx) as (H1&H2). split; [|exact H2]. rewrite !in_app_iff. tauto.
        - intros a b Hab. apply in_app_or in Hab as [Hab|[Hab|[]]]; [auto|]. inversion Hab; subst. right. split; auto. }
      apply memn_nIn in Ei, Ej.
      assert (ADD: forall x y, (x = i /\ y = j) \/ (x = j /\ y = i) -> loses X n x y -> exists r', reasons (done ++ [(i, j)]) (x :: rem) r').
      { intros x y Hxy Hl. set (r' := fun z => if (z =? x)%nat then y else r z).
        assert (Hxn: ~ In x rem /\ ~ In y rem /\ x <> y /\ corr X x y = corr X i j /\ (y < n)%nat).
        { destruct Hxy as [[-> ->]|[-> ->]]; repeat split; auto; try lia. apply corr_sym. }
        destruct Hxn as (Hxn&Hyn&Hne&Hcc&Hyb).
        assert (rx: r' x = y) by (unfold r'; rewrite Nat.eqb_refl; reflexivity).
        assert (ro: forall z, In z rem -> r' z = r z) by (intros z Hz; unfold r'; destruct (Nat.eqb_spec z x) as [Ezx|_]; [rewrite Ezx in Hz; tauto|reflexivity]).
        clearbody r'. exists r'. split; [|split].
        - intros z [<-|Hz].
          + rewrite rx. split; [|split; [exact Hl|]].
            * rewrite !in_app_iff. destruct Hxy as [[-> ->]|[-> ->]]; cbn; tauto.
            * intros [E|E]; [congruence|tauto].
          + rewrite (ro z Hz). destruct (R1 z Hz) as (H1&H2&H3). split; [rewrite !in_app_iff; tauto|]. split; [exact H2|].
            intros [E|E]; [|rewrite (ro _ E); auto]. rewrite <- E, rx, Hcc, E. apply Hc; auto.
        - intros a b Hab. apply in_app_or in Hab as [Hab|[Hab|[]]].
          + destruct (R2 a b Hab) as [[H1 H2]|[H1 H2]]; [left|right]; (split; [right; exact H1|rewrite ro; auto]).
          + inversion Hab; subst a b. destruct Hxy as [[-> ->]|[-> ->]]; [left|right]; (split; [left; reflexivity|rewrite rx; lra]).
        - intros _. exists y. split; [exact Hyb|]. intros [E|E]; [congruence|tauto]. }
      destruct (Rlt_dec (mean_corr X n j) (mean_corr X n i)) as [Hm|Hm].
      + apply (ADD i j); [left; auto|]. left; exact Hm.
      + apply (ADD j i); [right; auto|]. unfold loses. destruct (Rlt_dec (mean_corr X n i) (mean_corr X n j)); [left; auto|right; split; [lra|lia]].
  Qed.
End C23.

(** fit raises exactly for thresholds outside [-1, 1]; otherwise: (1) two kept assets are not correlated above the
    threshold; (2) each dropped asset x was dropped for a partner (r x), correlated with it above the threshold,
    against which it loses, and not itself dropped for a more correlated pair; (3) in every pair above the
    threshold, one of the two was dropped for a pair at least as correlated (the pairs are processed from the most
    correlated on); (4) one asset at least is kept. *)
Theorem C23_drop_correlated :
  forall argsort X n threshold absolute, argsort_ok argsort ->
    (drop_correlated argsort X n threshold absolute = None <-> ~ (-1 <= threshold <= 1))
    /\ forall keep, drop_correlated argsort X n threshold absolute = Some keep ->
         length keep = n
         /\ (forall i j, i <> j -> kept keep i -> kept keep j -> corr X i j <= threshold)
         /\ (exists r, (forall x, (x < n)%nat -> ~ kept keep x ->
                          (r x < n)%nat /\ r x <> x /\ threshold < corr X x (r x) /\ loses X n x (r x)
                          /\ (~ kept keep (r x) -> corr X (r x) (r (r x)) <= corr X x (r x)))
                  /\ (forall i j, (i < n)%nat -> (j < n)%nat -> i <> j -> threshold < corr X i j ->
                          (~ kept keep i /\ corr X i j <= corr X i (r i)) \/ (~ kept keep j /\ corr X i j <= corr X j (r j))))
         /\ ((0 < n)%nat -> exists z, kept keep z).
Proof.
  intros argsort X n threshold absolute Hs. unfold drop_correlated, valid_threshold. split.
  { destruct (Rle_dec (-1) threshold); [|split; [intros _; lra|auto]]. destruct (Rle_dec threshold 1); split; intros H; try discriminate; try lra; auto. }
  intros keep HK. destruct (Rle_dec (-1) threshold) as [T1|]; [|discriminate]. destruct (Rle_dec threshold 1) as [T2|]; [|discriminate]. injection HK as <-.
  set (rem := fold_left _ _ _).
  assert (Hb: forall p, In p (ordered_pairs argsort X n threshold) -> (fst p < snd p < n)%nat).
  { intros [i j] Hp. apply ordered_In in Hp; auto. apply selected_In in Hp. cbn. tauto. }
  destruct (loop X n [] (ordered_pairs argsort X n threshold) []) as (r&R1&R2&R3).
  { exists (fun x => x). split; [intros x []|]. split; [intros i j []|]. intros Hn. exists 0%nat. split; [auto|intros []]. }
  { intros p q []. } { apply ordered_sorted; auto. } { exact Hb. }
  cbn [app] in *. fold rem in R1, R2, R3.
  assert (K: forall i, kept (map (fun i => negb (memn i rem)) (seq 0 n)) i <-> (i < n)%nat /\ ~ In i rem).
  { intros i. rewrite kept_map, <- memn_nIn. destruct (memn i rem); cbn; split; intros [? ?]; split; auto; discriminate. }
  assert (K': forall i, (i < n)%nat -> ~ kept (map (fun i => negb (memn i rem)) (seq 0 n)) i <-> In i rem).
  { intros i Hi. rewrite K. destruct (in_dec Nat.eq_dec i rem); tauto. }
  assert (Sel: forall i j, In (i, j) (ordered_pairs argsort X n threshold) <-> (i < j < n)%nat /\ threshold < corr X i j).
  { intros i j. rewrite (ordered_In argsort Hs). apply selected_In. }
  assert (Two: forall i j, (i < n)%nat -> (j < n)%nat -> i <> j -> threshold < corr X i j ->
     (In i rem /\ corr X i j <= corr X i (r i)) \/ (In j rem /\ corr X i j <= corr X j (r j))).
  { intros i j Hi Hj Hij Hc. destruct (Nat.lt_ge_cases i j).
    - apply R2. apply Sel. split; [lia|exact Hc].
    - rewrite (corr_sym X i j). destruct (R2 j i) as [H1|H1]; auto. apply Sel. split; [lia|]. rewrite corr_sym; exact Hc. }
  split; [rewrite map_length, seq_length; reflexivity|]. split; [|split].
  - intros i j Hij Hi Hj. apply K in Hi, Hj. destruct (Rle_dec (corr X i j) threshold) as [|Hc]; [auto|].
    destruct (Two i j) as [[? _]|[? _]]; try tauto. lra.
  - exists r. split.
    + intros x Hx Hk. apply K' in Hk; auto. destruct (R1 x Hk) as (H1&H2&H3).
      assert (Hrx: (r x < n)%nat /\ r x <> x /\ threshold < corr X x (r x)).
      { destruct H1 as [H1|H1]; apply Sel in H1 as [H1 H1']; repeat split; try lia; [auto|rewrite corr_sym; auto]. }
      destruct Hrx as (A1&A2&A3). repeat split; auto. intros Hk2. apply K' in Hk2; auto.
    + intros i j Hi Hj Hij Hc. rewrite !K' by auto. apply Two; auto.
  - intros Hn. destruct (R3 Hn) as (z&Hz&Hzr). exists z. apply K. auto.
Qed.
Print Assumptions C23_drop_correlated.

(** a sort that satisfies the hypothesis *)
Definition argsort_R (l : list R) : list nat := sort_measure nat (fun i => nth i l 0) (seq 0 (length l)) false.
Example C23_argsort : argsort_ok argsort_R.
Proof.
  intros l. destruct (C22_sort_measure nat (fun i => nth i l 0) (seq 0 (length l))) as [[H1 H2] _]. fold (argsort_R l) in *. split; [symmetry; exact H1|].
  intros a b Hab. assert (length (argsort_R l) = length l) by (rewrite <- (Permutation_length H1), seq_length; reflexivity).
  revert a b Hab. rewrite <- H. generalize (argsort_R l), H2. clear. intros s; induction 1 as [|x s Hs IH Hx]; intros a b Hab; cbn in Hab; [lia|].
  rewrite Forall_forall in Hx. destruct a, b; try lia; cbn [nth].
  - apply Hx. apply nth_In. lia.
  - apply IH. lia.
Qed.
(** Two assets that mirror each other *)
Definition mirror : list (list R) := [[0; 1]; [1; 0]].
Lemma mirror_cov : cov mirror 0 0 = / 2 /\ cov mirror 1 1 = / 2 /\ cov mirror 0 1 = - / 2.
Proof. unfold cov, avg, column, sum_over; cbn. repeat split; field_simplify; lra. Qed.
Lemma mirror_corr : corr mirror 0 1 = -1.
Proof. unfold corr. destruct mirror_cov as (->&->&->). rewrite sqrt_square by lra. field. Qed.
(** the documentation of [absolute] is not honoured: two assets of correlation -1 are both kept *)
Theorem C23_absolute_refuted :
  exists X threshold, forall argsort, argsort_ok argsort ->
    exists keep, drop_correlated argsort X 2 threshold true = Some keep /\ kept keep 0 /\ kept keep 1 /\ threshold < Rabs (corr X 0 1).
Proof.
  exists mirror, (/ 2). intros argsort Hs.
  assert (E: selected_pairs mirror 2 (/2) = []).
  { unfold selected_pairs. cbn [triu concat map seq Nat.add Nat.sub app filter fst snd]. rewrite mirror_corr. destruct (Rlt_dec _ _); [lra|reflexivity]. }
  unfold drop_correlated, valid_threshold. destruct (Rle_dec (-1) (/2)); [|lra]. destruct (Rle_dec (/2) 1); [|lra].
  unfold ordered_pairs. rewrite E. destruct (Hs (map (fun p => - corr mirror (fst p) (snd p)) [])) as [H _].
  cbn in H. apply Permutation_sym, Permutation_nil in H. cbn [map]. rewrite H. cbn. eexists. repeat split. rewrite mirror_corr. rewrite Rabs_left by lra. lra.
Qed.
Print Assumptions C23_absolute_refuted.
Definition twins : list (list R) := [[0; 0]; [1; 1]].
Example C23_example : exists keep, drop_correlated argsort_R twins 2 (/ 2) false = Some keep /\ kept keep 0 /\ ~ kept keep 1.
Proof.
  assert (HC: corr twins 0 0 = 1 /\ corr twins 0 1 = 1 /\ corr twins 1 0 = 1 /\ corr twins 1 1 = 1).
  { assert (E: cov twins 0 0 = /2 /\ cov twins 0 1 = /2 /\ cov twins 1 0 = /2 /\ cov twins 1 1 = /2).
    { unfold cov, avg, column, sum_over; cbn. repeat split; field_simplify; lra. }
    unfold corr. destruct E as (->&->&->&->). rewrite sqrt_square by lra. repeat split; field. }
  destruct HC as (C00&C01&C10&C11).
  unfold drop_correlated, valid_threshold. destruct (Rle_dec (-1) (/2)); [|lra]. destruct (Rle_dec (/2) 1); [|lra].
  assert (E: selected_pairs twins 2 (/2) = [(0,1)]%nat).
  { unfold selected_pairs. cbn [triu concat map seq Nat.add Nat.sub app filter fst snd]. rewrite C01. destruct (Rlt_dec _ _); [reflexivity|lra]. }
  unfold ordered_pairs. rewrite E. cbn [map fst snd]. unfold argsort_R, sort_measure, sorted. cbn [length seq fold_right insert_sorted map nth fold_left drop_step memn existsb negb andb].
  destruct (Rlt_dec _ _) as [H|H].
  - exfalso. unfold mean_corr, sum_over in H. cbn [map seq] in H. rewrite C00, C01, C10, C11 in H. lra.
  - eexists. split; [reflexivity|]. split; [reflexivity|discriminate].
Qed.

(** * C24 *)
(** asset j comes before asset i: strictly better measure, or the same and an earlier position *)
Definition before (m : nat -> R) (highest : bool) (j i : nat) : Prop :=
  (if highest then m i < m j else m j < m i) \/ (m j = m i /\ (j < i)%nat).

Lemma firstn_rank {A} (r : A -> A -> Prop) l k x : StronglySorted r l -> NoDup l -> (forall a, ~ r a a) -> (forall a b, r a b -> ~ r b a) ->
  In x l -> (In x (firstn k l) <-> exists l', NoDup l' /\ (forall j, In j l' <-> In j l /\ r j x) /\ (length l' < k)%nat).
Proof.
  intros Hs Hn Hi Ha Hx. apply in_split in Hx as (l1&l2&->).
  assert (H1: forall y, In y l1 -> r y x).
  { clear -Hs. induction l1 as [|z l1 IH]; intros y []; inversion Hs as [|? ? Hs1 Hs2]; subst.
    - rewrite Forall_forall in Hs2. apply Hs2. apply in_or_app; cbn; auto.
    - apply IH; auto. }
  assert (H2: forall y, In y l2 -> r x y).
  { clear -Hs. induction l1 as [|z l1 IH]; intros y Hy; cbn in Hs; inversion Hs as [|? ? Hs1 Hs2]; subst; [rewrite Forall_forall in Hs2; auto|auto]. }
  assert (C: forall l', NoDup l' -> (forall j, In j l' <-> In j (l1 ++ x :: l2) /\ r j x) -> length l' = length l1).
  { intros l' Hn' Hl'. apply Permutation_length. apply NoDup_Permutation; auto.
    - apply NoDup_remove_1 in Hn. clear -Hn. induction l1; [constructor|]. inversion Hn; subst. constructor; [intros H; apply H1; apply in_or_app; auto|auto].
    - intros j. rewrite Hl'. split.
      + intros [Hj Hr]. apply in_app_or in Hj as [Hj|[->|Hj]]; [auto|destruct (Hi _ Hr)|destruct (Ha _ _ Hr (H2 _ Hj))].
      + intros Hj. split; [apply in_or_app; auto|auto]. }
  assert (N1: NoDup l1) by (apply NoDup_remove_1 in Hn; clear -Hn; induction l1; [constructor|]; inversion Hn; subst; constructor; [intros H; apply H1; apply in_or_app; auto|auto]).
  assert (Hxl1: ~ In x l1) by (apply NoDup_remove_2 in Hn; rewrite in_app_iff in Hn; tauto).
  split.
  - intros H. exists l1. split; [exact N1|]. split.
    + intros j. split; [intros Hj; split; [apply in_or_app; auto|auto]|]. intros [Hj Hr]. apply in_app_or in Hj as [Hj|[->|Hj]]; [auto|destruct (Hi _ Hr)|destruct (Ha _ _ Hr (H2 _ Hj))].
    + destruct (Nat.lt_ge_cases (length l1) k); [auto|]. exfalso. apply Hxl1. rewrite firstn_app in H. replace (k - length l1)%nat with 0%nat in H by lia.
      cbn in H. rewrite app_nil_r in H. rewrite <- (firstn_skipn k l1). apply in_or_app; auto.
  - intros (l'&Hn'&Hl'&Hk). rewrite (C l' Hn' Hl') in Hk. rewrite firstn_app. apply in_or_app. right.
    destruct (k - length l1)%nat eqn:E; [lia|]. cbn; auto.
Qed.

Section C24.
  Variable m : nat -> R.
  Lemma insert_lex (r : nat -> nat -> Prop) (Hr : forall a b, r a b <-> m a < m b \/ (m a = m b /\ r a b)) x l :
    StronglySorted r l -> (forall y, In y l -> m x = m y -> r x y) -> StronglySorted r (insert_sorted nat m x l).
  Proof.
    induction 1 as [|y l Hl IH Hy]; intros Hx; cbn; [repeat constructor|]. rewrite Forall_forall in Hy.
    assert (RM: forall a b, r a b -> m a <= m b) by (intros a b H; apply Hr in H as [H|[H _]]; lra).
    destruct (Rle_dec (m x) (m y)) as [H|H].
    - constructor; [constructor; auto; apply Forall_forall; auto|]. apply Forall_forall. intros z [<-|Hz].
      + destruct (Req_dec (m x) (m y)); [apply Hx; cbn; auto|apply Hr; left; lra].
      + destruct (Req_dec (m x) (m z)); [apply Hx; cbn; auto|apply Hr; left]. specialize (RM y z (Hy z Hz)). lra.
    - constructor; [apply IH; intros; apply Hx; cbn; auto|]. apply Forall_forall. intros z Hz.
      apply (Permutation_in _ (Permutation_sym (insert_perm nat m x l))) in Hz as [<-|Hz]; [apply Hr; left; lra|auto].
  Qed.
  Lemma sorted_up n : StronglySorted (before m false) (sort_measure nat m (seq 0 n) false).
  Proof.
    cbn. generalize 0%nat. induction n as [|n IH]; intros s; cbn; [constructor|]. apply insert_lex; [|apply IH|].
    - intros a b. unfold before. tauto.
    - intros y Hy E. right. split; [exact E|]. change (fold_right _ [] (seq (S s) n)) with (sorted nat m (seq (S s) n)) in Hy. apply (Permutation_in _ (Permutation_sym (sorted_perm nat m _))) in Hy. apply in_seq in Hy. lia.
  Qed.
  Lemma sorted_down n : StronglySorted (before m true) (sort_measure nat m (seq 0 n) true).
  Proof.
    cbn. set (r := fun a b => m a < m b \/ (m a = m b /\ (b < a)%nat)).
    assert (H: StronglySorted r (sorted nat m (rev (seq 0 n)))).
    { induction n as [|n IH]; [constructor|]. rewrite seq_S, rev_app_distr. cbn. apply insert_lex; [|exact IH|].
      - intros a b. unfold r. tauto.
      - intros y Hy E. right. split; [exact E|]. change (fold_right _ [] (rev (seq 0 n))) with (sorted nat m (rev (seq 0 n))) in Hy. apply (Permutation_in _ (Permutation_sym (sorted_perm nat m _))) in Hy. apply in_rev in Hy. apply in_seq in Hy. lia. }
    apply StronglySorted_rev in H. clear -H. induction H as [|x l Hl IH Hx]; constructor; auto. rewrite Forall_forall in *.
    intros y Hy. specialize (Hx y Hy). unfold r in Hx. unfold before. destruct Hx as [Hx|[Hx Hx']]; [left; auto|right; auto].
  Qed.
End C24.

Lemma dot_unit (row : list R) i : forall s, dot (map (fun j => if (i =? j)%nat then 1 else 0) (seq s (length row))) row = if ((s <=? i) && (i <? s + length row))%nat then nth (i - s) row 0 else 0.
Proof.
  unfold dot, vmap2. induction row as [|x row IH]; intros s; cbn [length seq map combine].
  - destruct (s <=? i)%nat eqn:E1, (i <? s + 0)%nat eqn:E2; cbn; try reflexivity. destruct (i - s)%nat; reflexivity.
  - rewrite rsum_cons. rewrite IH. cbn [fst snd]. destruct (Nat.eqb_spec i s) as [->|Hne].
    + replace (S s <=? s)%nat with false by (symmetry; apply Nat.leb_gt; lia). cbn [andb].
      rewrite Nat.leb_refl. replace (s <? s + S (length row))%nat with true by (symmetry; apply Nat.ltb_lt; lia). cbn [andb]. rewrite Nat.sub_diag. cbn. lra.
    + replace (s <=? i)%nat with (S s <=? i)%nat by (destruct (Nat.leb_spec (S s) i), (Nat.leb_spec s i); lia || reflexivity).
      replace (i <? s + S (length row))%nat with (i <? S s + length row)%nat by (f_equal; lia).
      destruct (S s <=? i)%nat eqn:E; cbn [andb]; [|lra]. apply Nat.leb_le in E. destruct (_ <? _)%nat; [|lra].
      replace (i - s)%nat with (S (i - S s)) by lia. cbn [nth]. lra.
Qed.
Lemma single_returns X n i : (forall row, In row X -> length row = n) -> (i < n)%nat -> portfolio_returns X (single n i) = column X i.
Proof.
  intros HX Hi. unfold portfolio_returns, column. apply map_ext_in. intros row Hrow. unfold single. rewrite <- (HX row Hrow).
  rewrite dot_unit. rewrite (HX row Hrow). replace (i <? 0 + n)%nat with true by (symmetry; apply Nat.ltb_lt; lia). cbn. rewrite Nat.sub_0_r. reflexivity.
Qed.

(** An asset is kept exactly when fewer than k assets come before it (in measure of their return column, ties in the
    order of the columns). *)
Theorem C24_select_k_extremes :
  forall (measure : list R -> R) X n k highest,
    (forall row, In row X -> length row = n) ->
    let m := fun i => measure (column X i) in
    (select_k_extremes measure X n k highest = None <-> (k <= 0)%Z)
    /\ forall keep, select_k_extremes measure X n k highest = Some keep ->
         length keep = n
         /\ (forall i, (i < n)%nat -> (kept keep i <-> exists b, cardinal (fun j => (j < n)%nat /\ before m highest j i) b /\ (Z.of_nat b < k)%Z))
         /\ (forall i j, (i < n)%nat -> (j < n)%nat -> kept keep i -> ~ kept keep j -> if highest then m j <= m i else m i <= m j)
         /\ cardinal (kept keep) (Nat.min (Z.to_nat k) n).
Proof.
  intros measure X n k highest HX m. unfold select_k_extremes. split.
  { destruct (Z.leb_spec k 0); split; intros; try discriminate; auto; lia. }
  intros keep HK. destruct (Z.leb_spec k 0) as [|Hk]; [discriminate|]. inversion HK; clear HK.
  set (m' := fun i => measure (portfolio_returns X (single n i))).
  assert (Em: forall i, (i < n)%nat -> m' i = m i) by (intros i Hi; unfold m', m; rewrite single_returns; auto).
  set (s := sort_measure nat m' (seq 0 n) highest).
  assert (HP: Permutation (seq 0 n) s) by (destruct (C22_sort_measure nat m' (seq 0 n)) as ((?&_)&(?&_)&_); destruct highest; auto).
  assert (HS: StronglySorted (before m' highest) s) by (subst s; destruct highest; [apply sorted_down|apply sorted_up]).
  assert (ND: NoDup s) by (eapply Permutation_NoDup; [exact HP|apply seq_NoDup]).
  assert (Hin: forall i, In i s <-> (i < n)%nat) by (intros i; split; intros Hi; [apply (Permutation_in _ (Permutation_sym HP)) in Hi; apply in_seq in Hi; lia|apply (Permutation_in _ HP); apply in_seq; lia]).
  assert (K: forall i, kept (map (fun i => memn i (firstn (Z.to_nat k) s)) (seq 0 n)) i <-> In i (firstn (Z.to_nat k) s)).
  { intros i. rewrite kept_map, memn_In. split; [tauto|]. intros Hi. split; [|exact Hi]. apply Hin. rewrite <- (firstn_skipn (Z.to_nat k) s). apply in_or_app; auto. }
  assert (IR: forall a, ~ before m' highest a a) by (intros a [H|[_ H]]; [destruct highest; lra|lia]).
  assert (AS: forall a b, before m' highest a b -> ~ before m' highest b a) by (intros a b [H|[H H']] [H2|[H2 H2']]; destruct highest; lra || lia).
  assert (BB: forall i j, (i < n)%nat -> (j < n)%nat -> before m' highest j i <-> before m highest j i).
  { intros i j Hi Hj. unfold before. rewrite (Em i Hi), (Em j Hj). tauto. }
  split; [rewrite map_length, seq_length; reflexivity|].
  assert (Main: forall i, (i < n)%nat -> (kept (map (fun i => memn i (firstn (Z.to_nat k) s)) (seq 0 n)) i <-> exists b, cardinal (fun j => (j < n)%nat /\ before m highest j i) b /\ (Z.of_nat b < k)%Z)).
  { intros i Hi. rewrite K. rewrite (firstn_rank (before m' highest)) by (auto; apply Hin; auto). split.
    - intros (l'&N&Hl'&HL). exists (length l'). split; [|lia]. exists l'. split; [exact N|]. split; [|reflexivity].
      intros j. rewrite Hl', Hin. split; intros [A B]; (split; [exact A|apply BB; auto]).
    - intros (b&(l'&N&Hl'&HL)&Hb). exists l'. split; [exact N|]. split; [|lia]. intros j. rewrite Hl', Hin. split; intros [A B]; (split; [exact A|apply BB; auto]). }
  split; [exact Main|]. split.
  - intros i j Hi Hj Ki Kj. rewrite K in Ki, Kj.
    assert (Hij: before m' highest i j).
    { assert (Hj': In j (skipn (Z.to_nat k) s)).
      { assert (Hjs: In j s) by (apply Hin; auto). rewrite <- (firstn_skipn (Z.to_nat k) s) in Hjs. apply in_app_or in Hjs as [|]; tauto. }
      rewrite <- (firstn_skipn (Z.to_nat k) s) in HS. clear -HS Ki Hj'. induction (firstn (Z.to_nat k) s) as [|y l IH]; [destruct Ki|].
      cbn in HS. inversion HS as [|? ? H1 H2]; subst. destruct Ki as [->|Ki]; [|auto]. rewrite Forall_forall in H2. apply H2. apply in_or_app; auto. }
    apply (BB j i) in Hij; auto. unfold before in Hij. destruct highest; destruct Hij as [|[]]; lra.
  - exists (firstn (Z.to_nat k) s). split; [|split].
    + clear -ND. revert ND. generalize (Z.to_nat k). induction s as [|x l IH]; intros [|k'] H; cbn; try constructor; inversion H; subst; [|auto].
      intros Hx. apply H2. rewrite <- (firstn_skipn k' l). apply in_or_app; auto.
    + intros i. symmetry. apply K.
    + rewrite firstn_length. rewrite <- (Permutation_length HP), seq_length. reflexivity.
Qed.
Print Assumptions C24_select_k_extremes.
Example C24_example : exists keep, select_k_extremes (fun r => rsum r) [[1; 3; 2; 3]] 4 2 true = Some keep.
Proof. eexists. reflexivity. Qed.

(** * C25 *)
(** the levels of C01 *)
Definition pareto_fronts (F : list (list fnum)) (fronts : list (list nat)) : Prop :=
  Permutation (concat fronts) (seq 0 (length F))
  /\ (forall f, In f fronts -> f <> [])
  /\ (forall j, InFront fronts 0 j <-> (j < length F)%nat /\ forall i, ~ DomRow F i j)
  /\ (forall k j, InFront fronts (S k) j <->
        (j < length F)%nat /\ (forall i, DomRow F i j -> exists k', (k' <= k)%nat /\ InFront fronts k' i) /\ (exists i, InFront fronts k i /\ DomRow F i j)).
(** asset i is in one of the portfolios numbered in [fronts] *)
Definition used_in (pop : list (list R)) (fronts : list (list nat)) (i : nat) : Prop :=
  exists f idx w, In f fronts /\ In idx f /\ nth_error pop idx = Some w /\ (i < length w)%nat /\ zero_threshold < Rabs (nth i w 0).

Lemma nonzero_In w i : In i (nonzero_assets_index w) <-> (i < length w)%nat /\ zero_threshold < Rabs (nth i w 0).
Proof. unfold nonzero_assets_index. rewrite filter_In, in_seq. destruct (Rlt_dec _ _); split; intros [A B]; split; auto; try lia; try discriminate; tauto. Qed.
Lemma update_In s l x : In x (update s l) <-> In x s \/ In x l.
Proof.
  unfold update. revert s; induction l as [|y l IH]; intros s; cbn; [tauto|]. rewrite IH. destruct (memn y s) eqn:E.
  - apply memn_In in E. split; [tauto|]. intros [H|[->|H]]; auto.
  - rewrite in_app_iff. cbn. tauto.
Qed.
Lemma update_NoDup s l : NoDup s -> NoDup (update s l).
Proof.
  unfold update. revert s; induction l as [|y l IH]; intros s H; cbn; [auto|]. apply IH. destruct (memn y s) eqn:E; [auto|].
  apply memn_nIn in E. apply (Permutation_NoDup (Permutation_cons_append s y)). constructor; auto.
Qed.

Definition gather (pop : list (list R)) (fronts : list (list nat)) (a : list nat) : list nat :=
  fold_left (fun a f => fold_left (fun s idx => update s (nonzero_assets_index (nth idx pop []))) f a) fronts a.
Lemma gather_In pop fronts : forall a x, In x (gather pop fronts a) <-> In x a \/ used_in pop fronts x.
Proof.
  assert (F: forall f a x, In x (fold_left (fun s idx => update s (nonzero_assets_index (nth idx pop []))) f a) <->
     In x a \/ exists idx w, In idx f /\ nth_error pop idx = Some w /\ (x < length w)%nat /\ zero_threshold < Rabs (nth x w 0)).
  { induction f as [|idx f IH]; intros a x; cbn [fold_left].
    - split; [auto|]. intros [H|(i&w&[]&_)]. exact H.
    - rewrite IH, update_In, nonzero_In. split.
      + intros [[H|[H1 H2]]|(i&w&H1&H2)]; [auto| |right; exists i, w; cbn; tauto].
        right. destruct (nth_error pop idx) as [w|] eqn:E.
        * exists idx, w. rewrite (nth_error_nth _ _ _ E) in *. cbn; auto.
        * exfalso. apply nth_error_None in E. rewrite nth_overflow in H1 by auto. cbn in H1. lia.
      + intros [H|(i&w&[<-|H1]&H2&H3)]; [auto| |right; exists i, w; tauto].
        left. right. rewrite (nth_error_nth _ _ _ H2). exact H3. }
  unfold gather. induction fronts as [|f fronts IH]; intros a x; cbn [fold_left].
  - split; [auto|]. intros [H|(f&i&w&[]&_)]. exact H.
  - rewrite IH, F. unfold used_in. split.
    + intros [[H|(i&w&H)]|(g&i&w&H1&H2)]; [auto|right; exists f, i, w; cbn; tauto|right; exists g, i, w; cbn; tauto].
    + intros [H|(g&i&w&[<-|H1]&H2)]; [auto|left; right; exists i, w; tauto|right; exists g, i, w; tauto].
Qed.
Lemma gather_NoDup pop fronts : forall a, NoDup a -> NoDup (gather pop fronts a).
Proof.
  unfold gather. induction fronts as [|f fronts IH]; intros a H; cbn [fold_left]; [auto|]. apply IH. revert a H. induction f as [|i f IHf]; intros a H; cbn; [auto|].
  apply IHf. apply update_NoDup; auto.
Qed.
Lemma collect_Some pop m fronts : forall a,
  exists k, (k <= length fronts)%nat /\ collect pop (Some m) fronts a = gather pop (firstn k fronts) a
    /\ (forall k', (k' < k)%nat -> (length (gather pop (firstn k' fronts) a) <= m)%nat)
    /\ (k = length fronts \/ (m < length (gather pop (firstn k fronts) a))%nat).
Proof.
  induction fronts as [|f fronts IH]; intros a.
  - exists 0%nat. cbn. repeat split; auto. intros; lia.
  - cbn [collect]. destruct (Nat.ltb_spec m (length a)) as [H|H].
    + exists 0%nat. cbn. repeat split; auto; try lia.
    + destruct (IH (fold_left (fun s idx => update s (nonzero_assets_index (nth idx pop []))) f a)) as (k&H1&H2&H3&H4).
      exists (S k). cbn [length firstn]. split; [lia|]. split; [exact H2|]. split.
      * intros [|k'] Hk'; [cbn; auto|]. apply (H3 k'). lia.
      * destruct H4 as [H4|H4]; [left; lia|right; exact H4].
Qed.
Lemma collect_None pop fronts : forall a, collect pop None fronts a = gather pop fronts a.
Proof. induction fronts as [|f fronts IH]; intros a; cbn; [reflexivity|apply IH]. Qed.
Lemma candidates_length X n threshold w : In w (candidates X n threshold) -> length w = n.
Proof.
  unfold candidates. intros H. apply in_app_or in H as [H|H]; apply in_map_iff in H as (x&<-&_); unfold single, pair_portfolio; rewrite map_length, seq_length; reflexivity.
Qed.
Lemma candidates_single X n threshold i : (i < n)%nat -> nth_error (candidates X n threshold) i = Some (single n i).
Proof. intros H. unfold candidates. rewrite nth_error_app1 by (rewrite map_length, seq_length; auto). rewrite nth_error_map, nth_error_seq by auto. reflexivity. Qed.
Lemma zero_threshold_pos : 0 < zero_threshold < 1.
Proof. unfold zero_threshold. lra. Qed.
Lemma single_used n i : (i < n)%nat -> zero_threshold < Rabs (nth i (single n i) 0).
Proof.
  intros H. unfold single. rewrite (nth_indep _ _ (if (i =? 0)%nat then 1 else 0)) by (rewrite map_length, seq_length; auto).
  rewrite (map_nth (fun j => if (i =? j)%nat then 1 else 0)). rewrite seq_nth by auto. cbn. rewrite Nat.eqb_refl, Rabs_R1. apply zero_threshold_pos.
Qed.
Lemma used_lt X n threshold fronts i : used_in (candidates X n threshold) fronts i -> (i < n)%nat.
Proof. intros (f&idx&w&_&_&E&H&_). apply nth_error_In in E. apply candidates_length in E. lia. Qed.

(** With min_n_assets: everything is kept if there are no more assets; otherwise the kept assets are those used in
    the portfolios of the k first Pareto fronts of the candidates, for the least k for which they are (strictly) more
    than min_n_assets.  The candidates are the single assets, then the pairs of correlation below the threshold. *)
Theorem C25_min_n_assets :
  forall fitness X n min_n_assets threshold fuel,
    -1 <= threshold <= 1 ->
    let pop := candidates X n threshold in
    Clean (map fitness pop) -> (length pop <= fuel)%nat ->
    exists keep, select_non_dominated fitness fuel X n (Some min_n_assets) threshold = Some keep /\ length keep = n
      /\ ((n <= min_n_assets)%nat -> forall i, (i < n)%nat -> kept keep i)
      /\ ((min_n_assets < n)%nat ->
           exists fronts k, pareto_fronts (map fitness pop) fronts /\ (k <= length fronts)%nat
             /\ (forall i, kept keep i <-> used_in pop (firstn k fronts) i)
             /\ (exists b, cardinal (kept keep) b /\ (min_n_assets < b)%nat)
             /\ (forall k', (k' < k)%nat -> exists b, cardinal (used_in pop (firstn k' fronts)) b /\ (b <= min_n_assets)%nat)).
Proof.
  intros fitness X n m threshold fuel Ht pop Hc Hf. unfold select_non_dominated, valid_threshold.
  destruct (Rle_dec (-1) threshold); [|lra]. destruct (Rle_dec threshold 1); [|lra].
  destruct (Nat.leb_spec n m) as [Hn|Hn].
  { exists (repeat true n). rewrite repeat_length. repeat split; [|lia]. intros _ i Hi. unfold kept. rewrite (nth_error_nth' _ false) by (rewrite repeat_length; auto).
    rewrite nth_repeat_true; auto. }
  fold pop. destruct (C01_sort_fronts (map fitness pop) fuel Hc) as (fronts&E&HF); [rewrite map_length; auto|].
  rewrite E. eexists. split; [reflexivity|]. split; [rewrite map_length, seq_length; reflexivity|]. split; [lia|]. intros _.
  destruct (collect_Some pop m fronts []) as (k&H1&H2&H3&H4). exists fronts, k. split; [exact HF|]. split; [exact H1|].
  assert (K: forall i, kept (map (fun i => memn i (collect pop (Some m) fronts [])) (seq 0 n)) i <-> used_in pop (firstn k fronts) i).
  { intros i. rewrite kept_map, memn_In, H2, gather_In. cbn. split; [tauto|]. intros H. split; [eapply used_lt; eauto|auto]. }
  split; [exact K|]. split.
  - exists (length (gather pop (firstn k fronts) [])). split.
    + exists (gather pop (firstn k fronts) []). split; [apply gather_NoDup; constructor|]. split; [|reflexivity].
      intros i. rewrite K, gather_In. cbn. tauto.
    + destruct H4 as [H4|H4]; [|exact H4]. subst k. rewrite firstn_all.
      enough (H: incl (seq 0 n) (gather pop fronts [])) by (apply (NoDup_incl_length (seq_NoDup n 0)) in H; rewrite seq_length in H; lia).
      intros i Hi. apply in_seq in Hi. apply gather_In. right. destruct HF as (HP&_).
      assert (Hi': In i (concat fronts)).
      { apply (Permutation_in _ (Permutation_sym HP)). rewrite map_length. apply in_seq. split; [lia|].
        assert (nth_error pop i = Some (single n i)) by (apply candidates_single; lia). assert (i < length pop)%nat by (apply nth_error_Some; congruence). lia. }
      apply in_concat in Hi' as (f&Hff&Hif). exists f, i, (single n i). repeat split; auto.
      * apply candidates_single; lia.
      * unfold single. rewrite map_length, seq_length. lia.
      * apply single_used. lia.
  - intros k' Hk'. exists (length (gather pop (firstn k' fronts) [])). split; [|auto].
    exists (gather pop (firstn k' fronts) []). split; [apply gather_NoDup; constructor|]. split; [|reflexivity].
    intros i. rewrite gather_In. cbn. tauto.
Qed.
Print Assumptions C25_min_n_assets.

(** Without min_n_assets: exactly the assets used in the non-dominated candidates. *)
Theorem C25_first_front :
  forall fitness X n threshold fuel,
    -1 <= threshold <= 1 -> (0 < n)%nat ->
    let pop := candidates X n threshold in
    exists keep, select_non_dominated fitness fuel X n None threshold = Some keep /\ length keep = n
      /\ forall i, kept keep i <-> exists idx w, nth_error pop idx = Some w /\ (forall j, ~ DomRow (map fitness pop) j idx)
                                      /\ (i < length w)%nat /\ zero_threshold < Rabs (nth i w 0).
Proof.
  intros fitness X n threshold fuel Ht Hn pop. unfold select_non_dominated, valid_threshold.
  destruct (Rle_dec (-1) threshold); [|lra]. destruct (Rle_dec threshold 1); [|lra]. fold pop.
  destruct (C01_first_front_only (map fitness pop) fuel) as (f&E&N&Hf).
  { rewrite map_length. assert (H: nth_error pop 0 = Some (single n 0)) by (apply candidates_single; auto). assert (0 < length pop)%nat by (apply nth_error_Some; congruence). lia. }
  rewrite E. eexists. split; [reflexivity|]. split; [rewrite map_length, seq_length; reflexivity|].
  intros i. rewrite kept_map, memn_In, collect_None, gather_In. split.
  - intros [Hi [[]|(g&idx&w&[<-|[]]&H2&H3&H4)]]. exists idx, w. split; [exact H3|]. split; [apply Hf; exact H2|exact H4].
  - intros (idx&w&H1&H2&H3). assert (U: used_in pop [f] i).
    { exists f, idx, w. split; [cbn; auto|]. split; [|tauto]. apply Hf. split; [|exact H2]. rewrite map_length. apply nth_error_Some. congruence. }
    split; [eapply used_lt; eauto|auto].
Qed.
Print Assumptions C25_first_front.

(** ** The pairs have minimum variance *)
(** fully invested in assets i and j, with weight x in i *)
Definition pair_at (n i j : nat) (x : R) : list R := map (fun k => if (k =? j)%nat then 1 - x else if (k =? i)%nat then x else 0) (seq 0 n).
Lemma dot_pair row i j x : (i < length row)%nat -> (j < length row)%nat -> i <> j -> dot (pair_at (length row) i j x) row = x * nth i row 0 + (1 - x) * nth j row 0.
Proof.
  intros Hi Hj Hij.
  assert (E: forall s r, rsum (vmap2 Rmult (map (fun k => if (k =? j)%nat then 1 - x else if (k =? i)%nat then x else 0) (seq s (length r))) r)
     = x * rsum (vmap2 Rmult (map (fun k => if (i =? k)%nat then 1 else 0) (seq s (length r))) r) + (1 - x) * rsum (vmap2 Rmult (map (fun k => if (j =? k)%nat then 1 else 0) (seq s (length r))) r)).
  { intros s r; revert s; induction r as [|y r IH]; intros s; unfold vmap2 in *; cbn [length seq map combine fst snd]; rewrite ?rsum_cons; [cbn; lra|].
    rewrite IH. rewrite (Nat.eqb_sym s j), (Nat.eqb_sym s i). destruct (Nat.eqb_spec j s), (Nat.eqb_spec i s); subst; try congruence; ring. }
  unfold dot at 1, pair_at. rewrite E. fold (dot (map (fun k => if (i =? k)%nat then 1 else 0) (seq 0 (length row))) row). fold (dot (map (fun k => if (j =? k)%nat then 1 else 0) (seq 0 (length row))) row).
  rewrite !dot_unit. replace (i <? 0 + length row)%nat with true by (symmetry; apply Nat.ltb_lt; lia). replace (j <? 0 + length row)%nat with true by (symmetry; apply Nat.ltb_lt; lia).
  cbn. rewrite !Nat.sub_0_r. reflexivity.
Qed.
Lemma pair_variance X n i j x : (forall row, In row X -> length row = n) -> (i < n)%nat -> (j < n)%nat -> i <> j -> (0 < length X)%nat ->
  variance (portfolio_returns X (pair_at n i j x)) = x^2 * cov X i i + (1 - x)^2 * cov X j j + 2 * x * (1 - x) * cov X i j.
Proof.
  intros HX Hi Hj Hij Hl.
  assert (ER: portfolio_returns X (pair_at n i j x) = map (fun row => x * nth i row 0 + (1 - x) * nth j row 0) X).
  { apply map_ext_in. intros row Hrow. rewrite <- (HX row Hrow). rewrite <- (HX row Hrow) in Hi, Hj. apply dot_pair; auto. }
  rewrite ER. unfold variance, mean, len. rewrite !map_length. rewrite so_map.
  assert (EM: rsum (map (fun row => x * nth i row 0 + (1 - x) * nth j row 0) X) / INR (length X) = x * avg (column X i) + (1 - x) * avg (column X j)).
  { fold (sum_over X (fun row => x * nth i row 0 + (1 - x) * nth j row 0)). rewrite so_add, !so_scal. unfold avg, column. rewrite !map_length. unfold sum_over. field. apply not_0_INR. lia. }
  rewrite EM. unfold cov.
  rewrite (so_ext _ (fun row => x^2 * ((nth i row 0 - avg (column X i)) * (nth i row 0 - avg (column X i)))
     + (1 - x)^2 * ((nth j row 0 - avg (column X j)) * (nth j row 0 - avg (column X j)))
     + 2 * x * (1 - x) * ((nth i row 0 - avg (column X i)) * (nth j row 0 - avg (column X j))))) by (intros; ring).
  rewrite !so_add, !so_scal. unfold Rdiv. ring.
Qed.
(** A pair below the threshold enters with the weights, summing to one, of least variance *)
Theorem C25_pair_minimum_variance :
  forall X n i j threshold, (forall row, In row X -> length row = n) -> (i < j < n)%nat -> (0 < length X)%nat ->
    threshold <= 1 -> 0 < cov X i i -> 0 < cov X j j -> corr X i j < threshold ->
    In (pair_portfolio X n i j) (candidates X n threshold)
    /\ rsum (pair_portfolio X n i j) = 1
    /\ forall x, variance (portfolio_returns X (pair_portfolio X n i j)) <= variance (portfolio_returns X (pair_at n i j x)).
Proof.
  intros X n i j threshold HX Hij Hl Ht Hvi Hvj Hc.
  set (v1 := cov X i i) in *. set (v2 := cov X j j) in *. set (c := cov X i j).
  assert (HD: 0 < v1 + v2 - 2 * c).
  { unfold corr in Hc. fold v1 v2 c in Hc. assert (Hs: 0 < sqrt (v1 * v2)) by (apply sqrt_lt_R0; nra).
    assert (Hcs: c < sqrt (v1 * v2)).
    { apply (Rmult_lt_reg_r (/ sqrt (v1 * v2))); [apply Rinv_0_lt_compat; exact Hs|]. rewrite Rinv_r by lra. unfold Rdiv in Hc. lra. }
    assert (Hsq: sqrt (v1 * v2) * sqrt (v1 * v2) = v1 * v2) by (apply sqrt_sqrt; nra).
    pose proof (pow2_ge_0 (v1 - v2)) as Hsq2. clear -Hs Hsq Hsq2 Hcs Hvi Hvj. clearbody v1 v2 c. generalize dependent (sqrt (v1 * v2)). intros s Hs Hcs Hsq.
    assert (2 * s <= v1 + v2) by (apply Rsqr_incr_0_var; [unfold Rsqr; nra|lra]). lra. }
  set (w := pair_weight v1 v2 c).
  assert (EP: pair_portfolio X n i j = pair_at n i j w) by reflexivity.
  split; [|split].
  - unfold candidates. apply in_or_app. right. apply in_map_iff. exists (i, j). split; [reflexivity|]. apply filter_In. split; [apply In_triu; exact Hij|]. cbn. destruct (Rlt_dec _ _); tauto.
  - rewrite EP. assert (HO: rsum (pair_at n i j w) = dot (pair_at n i j w) (repeat 1 n)).
    { unfold dot, vmap2. assert (L: length (pair_at n i j w) = n) by (unfold pair_at; rewrite map_length, seq_length; reflexivity). clear -L. revert L. generalize (pair_at n i j w). intros l <-. induction l as [|a l IH]; [reflexivity|]. cbn [length repeat combine map fst snd]. rewrite !rsum_cons, <- IH. lra. }
    rewrite HO. rewrite <- (repeat_length 1 n) at 1. rewrite dot_pair by (rewrite ?repeat_length; lia). rewrite !nth_repeat_one by lia. lra.
  - intros x. rewrite EP, !(pair_variance X n i j) by (auto; lia). fold v1 v2 c.
    assert (HW: w * (v1 + v2 - 2 * c) = v2 - c) by (unfold w, pair_weight; field; lra).
    assert (E: x^2 * v1 + (1 - x)^2 * v2 + 2 * x * (1 - x) * c - (w^2 * v1 + (1 - w)^2 * v2 + 2 * w * (1 - w) * c) = (v1 + v2 - 2 * c) * (x - w)^2 + 2 * (x - w) * (w * (v1 + v2 - 2 * c) - (v2 - c))) by ring.
    rewrite HW in E. pose proof (pow2_ge_0 (x - w)). nra.
Qed.
Print Assumptions C25_pair_minimum_variance.

(** Finding: the loop goes on when the number of kept assets is exactly min_n_assets *)
Theorem C25_stops_when_reached_refuted :
  exists fitness X n m threshold fuel keep, -1 <= threshold <= 1 /\ Clean (map fitness (candidates X n threshold)) /\
    select_non_dominated fitness fuel X n (Some m) threshold = Some keep
    /\ exists fronts, pareto_fronts (map fitness (candidates X n threshold)) fronts
         /\ cardinal (used_in (candidates X n threshold) (firstn 1 fronts)) m /\ cardinal (kept keep) (S m).
Proof.
  set (fit := fun w : list R => [FFin (if Req_EM_T (nth 0 w 0) 1 then inject_Z 1 else inject_Z 0)]).
  assert (EC: candidates mirror 2 (-1) = [[1; 0]; [0; 1]]).
  { unfold candidates. cbn [triu concat map seq Nat.add Nat.sub app filter fst snd]. rewrite mirror_corr. destruct (Rlt_dec _ _); [lra|reflexivity]. }
  assert (EF: map fit [[1; 0]; [0; 1]] = [[FFin (inject_Z 1)]; [FFin (inject_Z 0)]]).
  { cbn [map]. unfold fit. cbn [nth]. destruct (Req_EM_T 1 1); [|congruence]. destruct (Req_EM_T 0 1); [lra|]. reflexivity. }
  assert (HC: Clean [[FFin (inject_Z 1)]; [FFin (inject_Z 0)]]).
  { split; [intros r [<-|[<-|[]]] [H|[]]; discriminate|intros r s [<-|[<-|[]]] [<-|[<-|[]]]; reflexivity]. }
  destruct (C01_sort_fronts [[FFin (inject_Z 1)]; [FFin (inject_Z 0)]] 2 HC (le_n _)) as (fronts&E&HF).
  assert (ES: non_denominated_sort [[FFin (inject_Z 1)]; [FFin (inject_Z 0)]] 2 false = Some [[0]; [1]]%nat) by (vm_compute; reflexivity).
  rewrite E in ES. inversion ES; subst fronts. clear ES.
  assert (N1: nonzero_assets_index [1; 0] = [0%nat]).
  { unfold nonzero_assets_index. cbn [length seq filter nth]. rewrite Rabs_R1, Rabs_R0. pose proof zero_threshold_pos. destruct (Rlt_dec _ _); [|lra]. destruct (Rlt_dec _ _); [lra|reflexivity]. }
  assert (N2: nonzero_assets_index [0; 1] = [1%nat]).
  { unfold nonzero_assets_index. cbn [length seq filter nth]. rewrite Rabs_R1, Rabs_R0. pose proof zero_threshold_pos. destruct (Rlt_dec _ _); [lra|]. destruct (Rlt_dec _ _); [reflexivity|lra]. }
  exists fit, mirror, 2%nat, 1%nat, (-1), 2%nat, [true; true]. split; [lra|]. rewrite EC, EF. split; [exact HC|]. split.
  { unfold select_non_dominated, valid_threshold. destruct (Rle_dec (-1) (-1)); [|lra]. destruct (Rle_dec (-1) 1); [|lra].
    cbn [Nat.leb]. rewrite EC, EF, E. cbn [collect length Nat.ltb Nat.leb fold_left nth]. rewrite N1. cbn [update fold_left memn existsb app length Nat.leb]. rewrite N2. reflexivity. }
  exists [[0]; [1]]%nat. split; [exact HF|]. split.
  - exists [0%nat]. split; [repeat constructor; intros []|]. split; [|reflexivity]. intros i. cbn [firstn]. split.
    + intros [<-|[]]. exists [0%nat], 0%nat, [1; 0]. cbn. repeat split; auto; try lia. rewrite Rabs_R1. apply zero_threshold_pos.
    + intros (f&idx&w&[<-|[]]&[<-|[]]&Hw&Hi&Hz). inversion Hw; subst w. assert (In i (nonzero_assets_index [1; 0])) by (apply nonzero_In; auto). rewrite N1 in H. exact H.
  - exists [0; 1]%nat. split; [repeat constructor; cbn; intuition lia|]. split; [|reflexivity]. intros [|[|i]]; unfold kept; cbn; split; auto; try (intros [?|[?|[]]]; lia).
    destruct i; discriminate.
Qed.
Print Assumptions C25_stops_when_reached_refuted.

(** * C26 *)
Theorem C26_select_complete :
  forall X n i, X <> [] -> (i < n)%nat ->
    let present t := exists v, nth i (nth t X []) None = Some v in
    (kept (select_complete X n false) i <-> present 0%nat /\ present (length X - 1)%nat)
    /\ (kept (select_complete X n true) i <-> forall t, (t < length X)%nat -> present t).
Proof.
  intros X n i HX Hi present. unfold select_complete. rewrite !kept_map.
  assert (P: forall t, negb (missing X t i) = true <-> present t).
  { intros t. unfold missing, present. destruct (nth i (nth t X []) None); cbn; split; eauto; [discriminate|intros (v&H); discriminate]. }
  split.
  - rewrite andb_true_iff, !P. tauto.
  - rewrite negb_true_iff. split.
    + intros [_ H] t Ht. apply P. apply negb_true_iff. destruct (missing X t i) eqn:E; [|reflexivity].
      rewrite <- H. symmetry. apply existsb_exists. exists t. split; [apply in_seq; lia|exact E].
    + intros H. split; [exact Hi|]. destruct (existsb _ _) eqn:E; [|reflexivity]. apply existsb_exists in E as (t&Ht&E). apply in_seq in Ht.
      assert (negb (missing X t i) = true) by (apply P, H; lia). rewrite E in H0. discriminate.
Qed.
Print Assumptions C26_select_complete.
(** an asset is kept iff it has no expiry date or expires after the last observation plus the look-ahead (which must
    be a date before the last representable one for assets without expiry) *)
Theorem C26_select_non_expiring :
  forall timestamp_max add_lookahead expiration_dates index end_date columns i asset,
    nth_error columns i = Some asset -> (add_lookahead end_date < timestamp_max)%Z ->
    exists keep, select_non_expiring timestamp_max add_lookahead expiration_dates (index ++ [end_date]) columns = Some keep
      /\ length keep = length columns
      /\ (kept keep i <-> expiration_dates asset = None \/ exists d, expiration_dates asset = Some d /\ (add_lookahead end_date < d)%Z).
Proof.
  intros tm al ed ix e cols i a Ha Ht. unfold select_non_expiring. rewrite rev_app_distr. cbn [rev app]. eexists. split; [reflexivity|].
  split; [apply map_length|]. unfold kept. rewrite nth_error_map, Ha. cbn. destruct (ed a) as [d|].
  - split; [intros H; right; exists d; split; [reflexivity|apply Z.ltb_lt; congruence]|]. intros [H|(d'&E&H)]; [discriminate|]. inversion E; subst. f_equal. apply Z.ltb_lt; auto.
  - split; [auto|]. intros _. f_equal. apply Z.ltb_lt; auto.
Qed.
Print Assumptions C26_select_non_expiring.
Theorem C26_drop_zero_variance :
  forall X n threshold,
    (drop_zero_variance X n threshold = None <-> threshold < 0)
    /\ forall keep i, drop_zero_variance X n threshold = Some keep -> (i < n)%nat ->
         let x := column X i in
         (kept keep i <-> threshold < sum_over x (fun v => (v - rsum x / INR (length x))^2) / INR (length x)).
Proof.
  intros X n threshold. unfold drop_zero_variance. split.
  - destruct (Rlt_dec threshold 0); split; intros; auto; try discriminate; tauto.
  - intros keep i HK Hi. destruct (Rlt_dec threshold 0); [discriminate|]. inversion HK; subst. rewrite kept_map. unfold avg. rewrite !map_length. unfold sum_over.
    destruct (Rlt_dec _ _) as [h|h]; split; [intros _; exact h|intros _; split; [exact Hi|reflexivity]|intros [_ H]; discriminate|intros H; contradiction].
Qed.
Print Assumptions C26_drop_zero_variance.
Example C26_example : kept (select_complete [[Some 1; None]; [None; Some 1]; [Some 2; Some 3]] 2 false) 0
  /\ ~ kept (select_complete [[Some 1; None]; [None; Some 1]; [Some 2; Some 3]] 2 true) 0.
Proof. split; [reflexivity|discriminate]. Qed.
