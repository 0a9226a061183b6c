(** C03, C04: CombinatorialPurgedCV.
    The specification below only talks about what the cross-validator returns:
    a list of (train indices, list of test blocks), and the path ids. *)
From Coq Require Import List Arith ZArith Bool Lia Sorted.
Import ListNotations.
From Verif Require Import CombinatorialModel CombinatorialProofs.

(** * Specification *)

(** an observation is tested by a split *)
Definition tested (tests : list (list nat)) (t : nat) : Prop := exists b, In b tests /\ In t b.

(** [x] is a legal training observation w.r.t. the test observations: not tested, not within
    [pu] observations before a tested one, not within [pu + em] after a tested one *)
Definition legal_train (pu em n : nat) (tests : list (list nat)) (x : nat) : Prop :=
  x < n /\ ~ tested tests x /\
  (forall t, tested tests t -> ~ (x < t /\ t <= x + pu)) /\
  (forall t, tested tests t -> ~ (t < x /\ x <= t + pu + em)).

(** [k] distinct folds, in increasing order *)
Definition fold_choice (K k : nat) (c : list nat) : Prop :=
  length c = k /\ StronglySorted lt c /\ (forall f, In f c -> f < K).

(** * Bridge lemmas *)
Lemma ctor_bounds K k : ctor_ok K k = true -> 2 < K /\ 1 < k /\ k < K.
Proof.
  unfold ctor_ok. rewrite !andb_true_iff, !negb_true_iff, !Nat.leb_gt. tauto.
Qed.

Lemma tests_eq K k n i : 0 < k -> k <= K -> i < n_splits K k ->
  test_index_list K k n i = map (fold_index K n) (nth i (test_set_index K k) []).
Proof.
  intros H1 H2 Hi. unfold test_index_list. rewrite argwhere_spec by auto. rewrite map_map. reflexivity.
Qed.

Lemma tested_isT K k n i t : 0 < k -> k <= K -> i < n_splits K k ->
  (tested (test_index_list K k n i) t <-> t < n /\ isT K k n i t = true).
Proof.
  intros H1 H2 Hi. rewrite tests_eq by auto. unfold tested, isT. rewrite memn_In. split.
  - intros (b & Hb & Ht). apply in_map_iff in Hb. destruct Hb as (f & <- & Hf).
    unfold fold_index in Ht. apply filter_In in Ht. destruct Ht as [A B]. apply in_seq in A.
    apply Nat.eqb_eq in B. subst f. split; [lia|auto].
  - intros [A B]. exists (fold_index K n (fold_num K n t)). split; [apply in_map; auto|].
    unfold fold_index. apply filter_In. split; [apply in_seq; lia|apply Nat.eqb_refl].
Qed.

Lemma split_In K k pu em n splits s :
  cpcv_split K k pu em n = Some splits -> In s splits ->
  exists i, i < n_splits K k /\ s = (train_index K k pu em n i, test_index_list K k n i).
Proof.
  unfold cpcv_split. destruct (size_error _ _ _ _); [discriminate|]. intros [= <-] H.
  apply in_map_iff in H. destruct H as (i & <- & Hi). apply in_seq in Hi. exists i. split; [lia|auto].
Qed.

(** * C03 *)

(** Every split's training set is exactly the set of legal training observations, listed
    without repetition in chronological order. *)
Theorem C03_train_is_purged_complement :
  forall K k pu em n splits train tests,
    ctor_ok K k = true ->
    cpcv_split K k pu em n = Some splits ->
    In (train, tests) splits ->
    StronglySorted lt train /\
    (forall x, In x train <-> legal_train pu em n tests x).
Proof.
  intros K k pu em n splits train tests Hc Hs Hin.
  apply ctor_bounds in Hc. destruct Hc as (_ & Hk & HkK).
  destruct (split_In _ _ _ _ _ _ _ Hs Hin) as (i & Hi & [= -> ->]).
  split.
  - unfold train_index. generalize (seq_SSorted 0 n). generalize (seq 0 n).
    intros l Hl. induction Hl as [|x l Hl IH Hx]; simpl; [constructor|].
    destruct (Z.eqb _ _); auto. constructor; auto. rewrite Forall_forall in *. intros y Hy. apply filter_In in Hy. apply Hx, Hy.
  - intros x. rewrite train_spec. unfold legal_train.
    assert (T := fun t => tested_isT K k n i t ltac:(lia) ltac:(lia) Hi).
    split.
    + intros (A & B & C & D). repeat split; auto.
      * rewrite T. intros [_ h]. congruence.
      * intros t Ht. apply T in Ht. intros h. apply (C t); tauto.
      * intros t Ht. apply T in Ht. intros h. apply (D t); try tauto. lia.
    + intros (A & B & C & D). repeat split; auto.
      * destruct (isT K k n i x) eqn:E; auto. exfalso. apply B, T. auto.
      * intros t Ht1 Ht2 h. apply (C t); [apply T; auto|lia].
      * intros t Ht1 Ht2 h. apply (D t); [apply T; auto|lia].
Qed.
Print Assumptions C03_train_is_purged_complement.

(** The splitter raises exactly when purge plus embargo does not fit strictly inside a fold. *)
Theorem C03_split_raises_iff :
  forall K k pu em n, cpcv_split K k pu em n = None <-> n / K <= pu + em + 1.
Proof.
  intros. unfold cpcv_split, size_error, min_fold_size.
  destruct (Nat.leb_spec (n / K - 1) (pu + em)); split; intros; try discriminate; auto; lia.
Qed.
Print Assumptions C03_split_raises_iff.

(** Finding: the size check does not prevent an empty training set, because a training fold
    between two test folds is purged from both sides. *)
Theorem C03_train_nonempty_refuted :
  exists K k pu em n splits tests,
    ctor_ok K k = true /\ cpcv_split K k pu em n = Some splits /\ In ([], tests) splits.
Proof.
  exists 5, 3, 3, 0, 25. eexists. eexists. split; [reflexivity|]. split; [vm_compute; reflexivity|].
  vm_compute. do 4 right. left. reflexivity.
Qed.
Print Assumptions C03_train_nonempty_refuted.

Example C03_nonvacuous :
  ctor_ok 4 2 = true /\ (exists s, cpcv_split 4 2 1 1 17 = Some s /\ length s = 6 /\
   nth 0 s ([],[]) = ([10; 11; 12; 13; 14; 15; 16], [[0;1;2;3];[4;5;6;7]])).
Proof. split; [reflexivity|]. eexists. split; [vm_compute; reflexivity|]. split; reflexivity. Qed.

(** * C04 *)

(** There are exactly C(K,k) splits, one per choice of [k] folds: no choice is missing or repeated,
    and the test blocks of a split are the chosen folds in order. *)
Theorem C04_splits_enumerate_choices :
  forall K k pu em n splits,
    ctor_ok K k = true ->
    cpcv_split K k pu em n = Some splits ->
    length splits = comb K k /\
    exists choices,
      NoDup choices /\
      (forall c, In c choices <-> fold_choice K k c) /\
      map snd splits = map (map (fold_index K n)) choices.
Proof.
  intros K k pu em n splits Hc Hs. apply ctor_bounds in Hc. destruct Hc as (_ & Hk & HkK).
  unfold cpcv_split in Hs. destruct (size_error _ _ _ _); [discriminate|]. injection Hs as <-.
  rewrite map_length, seq_length. split; [reflexivity|].
  exists (test_set_index K k). split; [apply tsi_NoDup|]. split.
  - intros c. apply tsi_spec.
  - rewrite map_map. simpl.
    transitivity (map (fun i => map (fold_index K n) (nth i (test_set_index K k) [])) (seq 0 (n_splits K k))).
    + apply map_ext_in. intros i Hi. apply in_seq in Hi. apply tests_eq; lia.
    + rewrite <- tsi_length, <- (map_map (fun i => nth i (test_set_index K k) []) (map (fold_index K n))).
      f_equal. clear. induction (test_set_index K k) as [|c l IH]; simpl; auto. f_equal.
      rewrite <- seq_shift, map_map. apply IH.
Qed.
Print Assumptions C04_splits_enumerate_choices.

(** The fold blocks laid end to end are the whole sample in order exactly when the remainder
    of n by K does not exceed the fold size. *)
Theorem C04_folds_partition_iff :
  forall K n, 0 < K -> 0 < n / K ->
    (concat (map (fold_index K n) (seq 0 K)) = seq 0 n <-> n mod K <= n / K).
Proof.
  intros K n HK Hm. rewrite folds_concat by auto. destruct (n_decomp K n HK Hm) as [E R].
  assert (X : (K + 1) * (n / K) = K * (n / K) + n / K) by lia. rewrite X. split.
  - intros H. apply (f_equal (@length nat)) in H. rewrite !seq_length in H. lia.
  - intros H. f_equal. lia.
Qed.
Print Assumptions C04_folds_partition_iff.

(** Finding: otherwise the tail observations are never tested although every split trains on
    data around them: a path has fewer observations than the sample. *)
Theorem C04_every_observation_tested_refuted :
  exists K k pu em n splits x,
    ctor_ok K k = true /\ cpcv_split K k pu em n = Some splits /\ x < n /\
    forall train tests, In (train, tests) splits -> ~ tested tests x /\ In x train.
Proof.
  exists 5, 2, 0, 0, 14.
  eexists. exists 12. split; [reflexivity|]. split; [vm_compute; reflexivity|]. split; [lia|].
  intros train tests H.
  assert (D : forall tests x, existsb (fun b => memn x b) tests = false -> ~ tested tests x).
  { intros ts x E (b & Hb & Hx). apply memn_In in Hx.
    assert (existsb (fun b => memn x b) ts = true) by (apply existsb_exists; eauto). congruence. }
  simpl in H. repeat (destruct H as [H|H]; [injection H as <- <-; split; [apply D; reflexivity|apply memn_In; reflexivity]|]).
  contradiction.
Qed.
Print Assumptions C04_every_observation_tested_refuted.

(** Path ids: every (split, position) gets a path below the number of test paths
    C(K-1,k-1), and for every path and every fold there is exactly one (split, position)
    that tests that fold on that path. *)
Theorem C04_paths_cover_each_fold_once :
  forall K k, ctor_ok K k = true ->
    n_test_paths K k = comb (K - 1) (k - 1) /\
    (forall i j, i < n_splits K k -> j < k ->
       exists p, path_id K k i j = Some p /\ p < n_test_paths K k) /\
    (forall p f, p < n_test_paths K k -> f < K ->
       exists! ij : nat * nat,
         fst ij < n_splits K k /\
         nth_error (nth (fst ij) (test_set_index K k) []) (snd ij) = Some f /\
         path_id K k (fst ij) (snd ij) = Some p).
Proof.
  intros K k Hc. apply ctor_bounds in Hc. destruct Hc as (_ & Hk & HkK).
  assert (Hk0 : 0 < k) by lia. assert (HkK' : k <= K) by lia.
  assert (NP := n_test_paths_comb K k ltac:(lia) Hk0).
  assert (PID : forall i j f, i < n_splits K k -> nth_error (nth i (test_set_index K k) []) j = Some f ->
            path_id K k i j = Some (pos i (row K k f)) /\ f < K /\ In i (row K k f)).
  { intros i j f Hi Hf. unfold path_id. rewrite argwhere_spec by auto.
    rewrite nth_error_map, Hf. split; [reflexivity|].
    assert (In (nth i (test_set_index K k) []) (test_set_index K k)) by (apply nth_In; rewrite tsi_length; auto).
    apply tsi_spec in H. destruct H as (_ & _ & H). assert (In f (nth i (test_set_index K k) [])) by (eapply nth_error_In; eauto).
    split; [apply H; auto|]. apply row_In; auto. }
  split; [auto|]. split.
  - intros i j Hi Hj.
    assert (Hin : In (nth i (test_set_index K k) []) (test_set_index K k)) by (apply nth_In; rewrite tsi_length; auto).
    apply tsi_spec in Hin. destruct Hin as (Hl & _ & _).
    destruct (nth_error (nth i (test_set_index K k) []) j) as [f|] eqn:Ef.
    2:{ apply nth_error_None in Ef. lia. }
    destruct (PID i j f Hi Ef) as (A & B & C). exists (pos i (row K k f)). split; auto.
    rewrite NP, <- (row_length K k Hk0 HkK' f B). apply (proj2 (pos_nth _ i 0 C)).
  - intros p f Hp Hf. rewrite NP, <- (row_length K k Hk0 HkK' f Hf) in Hp.
    set (i := nth p (row K k f) 0). assert (Hi : In i (row K k f)) by (apply nth_In; auto).
    assert (Hi' := Hi). apply row_In in Hi'. destruct Hi' as [HiN Hif].
    destruct (In_nth_error _ _ Hif) as [j Hj].
    assert (POS : pos i (row K k f) = p).
    { destruct (pos_nth _ i 0 Hi) as [A B]. assert (ND := row_NoDup K k f).
      apply (proj1 (NoDup_nth (row K k f) 0) ND); auto. }
    exists (i, j). split.
    + simpl. split; auto. split; auto. destruct (PID i j f HiN Hj) as (A & _). rewrite A, POS. reflexivity.
    + intros [i' j'] (A & B & C). simpl in *. destruct (PID i' j' f A B) as (D & _ & E).
      rewrite D in C. injection C as C.
      assert (i' = i). { destruct (pos_nth _ i' 0 E) as [F _]. rewrite C in F. unfold i. auto. }
      subst i'. f_equal.
      assert (Hin : In (nth i (test_set_index K k) []) (test_set_index K k)) by (apply nth_In; rewrite tsi_length; auto).
      apply tsi_spec in Hin. destruct Hin as (_ & Hs & _).
      assert (ND : NoDup (nth i (test_set_index K k) [])).
      { clear -Hs. induction Hs as [|x l Hl IH Hx]; constructor; auto. rewrite Forall_forall in Hx. intros h. specialize (Hx _ h). lia. }
      rewrite NoDup_nth_error in ND. apply ND; [apply nth_error_Some; congruence|congruence].
Qed.
Print Assumptions C04_paths_cover_each_fold_once.

(** Put together: following a path through the folds yields every observation exactly once, in
    chronological order (under the arithmetic condition of [C04_folds_partition_iff]). *)
Theorem C04_path_is_whole_sample :
  forall K k pu em n splits p,
    ctor_ok K k = true -> cpcv_split K k pu em n = Some splits ->
    n mod K <= n / K -> p < n_test_paths K k ->
    exists route : list (nat * nat),
      length route = K /\ NoDup route /\
      (forall i j, In (i, j) route <-> i < length splits /\ j < k /\ path_id K k i j = Some p) /\
      concat (map (fun ij => nth (snd ij) (snd (nth (fst ij) splits ([], []))) []) route) = seq 0 n.
Proof.
  intros K k pu em n splits p Hc Hs Hmod Hp.
  destruct (C04_paths_cover_each_fold_once K k Hc) as (_ & _ & U).
  assert (Hb := ctor_bounds _ _ Hc). destruct Hb as (_ & Hk & HkK).
  assert (Hm : 0 < n / K).
  { destruct (Nat.eq_dec (n / K) 0) as [E|]; [|lia].
    assert (cpcv_split K k pu em n = None) by (apply C03_split_raises_iff; lia). congruence. }
  assert (HS : splits = map (fun i => (train_index K k pu em n i, test_index_list K k n i)) (seq 0 (n_splits K k))).
  { unfold cpcv_split in Hs. destruct (size_error _ _ _ _); congruence. }
  assert (G : forall M, M <= K -> exists route, length route = M /\
     (forall q, q < M -> exists i j, nth_error route q = Some (i, j) /\ i < n_splits K k /\
          nth_error (nth i (test_set_index K k) []) j = Some q /\ path_id K k i j = Some p) /\
     map (fun ij => nth (snd ij) (snd (nth (fst ij) splits ([], []))) []) route = map (fold_index K n) (seq 0 M)).
  { induction M as [|M IH]; intros HM.
    - exists []. split; [auto|]. split; [intros; lia|auto].
    - destruct IH as (r & A & B & C); [lia|]. destruct (U p M Hp ltac:(lia)) as ([i j] & (D & E & F) & _). cbn [fst snd] in D, E, F.
      exists (r ++ [(i, j)]). rewrite app_length. cbn [length]. split; [lia|]. split.
      + intros q Hq. destruct (Nat.eq_dec q M) as [->|].
        * exists i, j. split; [|auto]. rewrite nth_error_app2 by lia. rewrite A, Nat.sub_diag. reflexivity.
        * destruct (B q ltac:(lia)) as (i' & j' & G1 & G2). exists i', j'. split; [|auto].
          rewrite nth_error_app1; auto. apply nth_error_Some. congruence.
      + rewrite map_app, C, seq_S, map_app. f_equal. simpl. f_equal.
        rewrite HS. rewrite nth_indep with (d' := (train_index K k pu em n 0, test_index_list K k n 0)) by (rewrite map_length, seq_length; auto).
        rewrite (map_nth (fun i => (train_index K k pu em n i, test_index_list K k n i))). rewrite seq_nth by auto. simpl.
        rewrite tests_eq by lia. rewrite nth_indep with (d' := fold_index K n 0).
        * rewrite map_nth. rewrite (nth_error_nth _ _ 0 E). reflexivity.
        * rewrite map_length. apply nth_error_Some. congruence. }
  destruct (G K (le_n K)) as (r & A & B & C). exists r. split; [auto|]. split; [|split].
  - apply NoDup_nth_error. intros a b Ha Hab. 
    destruct (B a ltac:(lia)) as (i & j & A1 & A2 & A3 & A4).
    rewrite A1 in Hab. symmetry in Hab. assert (Hb : b < length r) by (apply nth_error_Some; congruence).
    destruct (B b ltac:(lia)) as (i' & j' & B1 & B2 & B3 & B4). rewrite Hab in B1. injection B1 as <- <-. congruence.
  - intros i j. rewrite HS, map_length, seq_length. split.
    + intros H. apply In_nth_error in H. destruct H as [q Hq].
      assert (Hql : q < length r) by (apply nth_error_Some; congruence).
      destruct (B q ltac:(lia)) as (i' & j' & A1 & A2 & A3 & A4). rewrite Hq in A1. injection A1 as <- <-.
      split; auto. split; auto.
      assert (Hin : In (nth i (test_set_index K k) []) (test_set_index K k)) by (apply nth_In; rewrite tsi_length; auto).
      apply tsi_spec in Hin. destruct Hin as (Hl & _). rewrite <- Hl. apply nth_error_Some. congruence.
    + intros (A1 & A2 & A3).
      assert (Hin : In (nth i (test_set_index K k) []) (test_set_index K k)) by (apply nth_In; rewrite tsi_length; auto).
      apply tsi_spec in Hin. destruct Hin as (Hl & _ & Hlt).
      destruct (nth_error (nth i (test_set_index K k) []) j) as [f|] eqn:Ef.
      2:{ apply nth_error_None in Ef. lia. }
      assert (Hf : f < K) by (apply Hlt; eapply nth_error_In; eauto).
      destruct (U p f Hp Hf) as (ij & _ & Uq).
      destruct (B f Hf) as (i' & j' & B1 & B2 & B3 & B4).
      assert (E1 := Uq (i, j) (conj A1 (conj Ef A3))). assert (E2 := Uq (i', j') (conj B2 (conj B3 B4))).
      rewrite <- E1, E2. eapply nth_error_In; eauto.
  - rewrite C. apply C04_folds_partition_iff; auto; lia.
Qed.
Print Assumptions C04_path_is_whole_sample.

Example C04_nonvacuous :
  ctor_ok 4 2 = true /\ (exists s, cpcv_split 4 2 1 1 17 = Some s) /\ 17 mod 4 <= 17 / 4 /\ 2 < n_test_paths 4 2.
Proof. split; [reflexivity|]. split; [eexists; vm_compute; reflexivity|]. split; vm_compute; lia. Qed.
