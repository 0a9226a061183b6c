(** C07: cross_val_predict. *)
From Coq Require Import List Arith ZArith Bool Lia Sorted Permutation.
Import ListNotations.
From Verif Require Import CombinatorialModel CombinatorialProofs CombinatorialProps.
From Verif Require Import WalkForwardModel WalkForwardProps CrossValModel CrossValProofs.

(** * Ordinary splitters *)

(** The folds are contiguous blocks of observations *)
Definition contiguous (t : list nat) : Prop := exists a len, t = seq a (S len).

(** Whenever cross_val_predict returns, the portfolios of the multi-period portfolio are the
    out-of-sample predictions of all the splits, each exactly once, ordered by the first test
    observation, and no observation is tested twice. *)
Theorem C07_every_fold_once :
  forall (A : Type) (predict : list nat -> list nat -> A) shuffle splits portfolios,
    cross_val_predict A predict shuffle splits = Ok portfolios ->
    exists order,
      Permutation order splits /\
      portfolios = map (fun s => predict (fst s) (snd s)) order /\
      (forall s, In s order -> snd s <> []) /\
      StronglySorted (fun s1 s2 => hd 0 (snd s1) < hd 0 (snd s2)) order /\
      NoDup (concat (map snd order)).
Proof.
  intros A predict sh splits pf H. unfold cross_val_predict in H.
  destruct (shuffle_check sh splits); [|discriminate].
  destruct splits as [|s0 splits']; [discriminate|]. set (splits := s0 :: splits') in *.
  destruct (all_distinct (concat (map snd splits))) eqn:D; [|discriminate]. cbn [negb] in H.
  destruct (heads (map snd splits)) as [keys|] eqn:HK; [|discriminate].
  assert (Epf : pf = map (fun id => nth id (map (fun s => predict (fst s) (snd s)) splits) (predict (fst s0) (snd s0))) (argsort keys)) by (inversion H; reflexivity).
  subst pf. clear H. apply all_distinct_NoDup in D. clearbody splits.
  destruct (heads_spec _ _ HK) as [KL KH]. rewrite map_length in KL, KH.
  destruct (argsort_spec keys) as (l & EL & SL & PL).
  set (order := map (fun id => nth id splits s0) (argsort keys)).
  assert (PI : Permutation (argsort keys) (seq 0 (length splits))).
  { rewrite EL, (Permutation_map snd PL). rewrite KL.
    assert (E : forall (a b : list nat), length a = length b -> map snd (combine a b) = b).
    { induction a as [|a0 a IHa]; intros [|y b] Hl; simpl in *; try congruence. f_equal. auto. }
    rewrite E by (rewrite seq_length; auto). reflexivity. }
  assert (PO : Permutation order splits).
  { unfold order. rewrite (Permutation_map _ PI).
    replace (map (fun id => nth id splits s0) (seq 0 (length splits))) with splits; auto.
    clear. induction splits as [|x l IH]; simpl; auto. f_equal. rewrite <- seq_shift, map_map. exact IH. }
  assert (KEY : forall e, In e l -> snd e < length splits /\ exists tl, snd (nth (snd e) splits s0) = fst e :: tl).
  { intros [ky id] He. apply (Permutation_in _ PL) in He. cbn [fst snd].
    apply In_nth_error in He. destruct He as [q Hq].
    assert (Q : q < length keys).
    { assert (Hlt : q < length (combine keys (seq 0 (length keys)))) by (apply nth_error_Some; congruence).
      rewrite combine_length, seq_length in Hlt. lia. }
    rewrite (nth_error_nth' _ (0, 0)) in Hq by (rewrite combine_length, seq_length; lia).
    rewrite combine_nth in Hq by (rewrite seq_length; auto). rewrite seq_nth in Hq by auto.
    injection Hq as <- <-. cbn [plus]. split; [lia|].
    destruct (KH q ltac:(lia)) as [tl Ht]. exists tl. rewrite <- Ht.
    rewrite nth_indep with (d' := snd s0) by (rewrite map_length; lia). rewrite map_nth. reflexivity. }
  exists order. split; [auto|]. split; [|split; [|split]].
  - unfold order. rewrite map_map. apply map_ext_in. intros id Hid.
    apply (map_nth (fun s => predict (fst s) (snd s)) splits s0 id).
  - intros s Hs. unfold order in Hs. rewrite EL, map_map in Hs. apply in_map_iff in Hs. destruct Hs as (e & <- & He).
    destruct (KEY e He) as (_ & tl & ->). discriminate.
  - assert (NDO : NoDup (concat (map snd order))).
    { eapply Permutation_NoDup; [|exact D]. rewrite <- !flat_map_concat_map. apply Permutation_flat_map. symmetry. auto. }
    unfold order in *. rewrite EL, map_map in *. clear -SL KEY NDO.
    induction SL as [|e l Hl IH He]; simpl; [constructor|].
    assert (KEY' := KEY e (or_introl eq_refl)). destruct KEY' as (_ & tl & Et).
    simpl in NDO. rewrite Et in NDO. simpl in NDO. inversion NDO as [|? ? N1 N2]; subst.
    constructor.
    + apply IH; [intros; apply KEY; right; auto|].
      clear -N2. revert N2. induction tl; simpl; auto. intros N2. inversion N2; auto.
    + apply Forall_forall. intros s Hs. apply in_map_iff in Hs. destruct Hs as (e' & <- & He').
      rewrite Forall_forall in He. specialize (He e' He'). unfold key_le in He.
      destruct (KEY e' (or_intror He')) as (_ & tl' & Et'). rewrite Et, Et'. cbn [hd].
      destruct (Nat.eq_dec (fst e) (fst e')) as [Eq|]; [|lia]. exfalso. apply N1.
      apply in_or_app. right. apply in_concat. exists (fst e' :: tl'). split; [|rewrite Eq; left; auto].
      rewrite <- Et'. apply (in_map (fun x => snd (nth x splits s0))), (in_map snd), He'.
  - eapply Permutation_NoDup; [|exact D]. rewrite <- !flat_map_concat_map. apply Permutation_flat_map. symmetry. auto.
Qed.
Print Assumptions C07_every_fold_once.

(** If the test folds are contiguous blocks, the resulting out-of-sample history is chronological. *)
Theorem C07_chronological :
  forall (A : Type) (predict : list nat -> list nat -> A) shuffle splits portfolios,
    cross_val_predict A predict shuffle splits = Ok portfolios ->
    (forall tr te, In (tr, te) splits -> contiguous te) ->
    exists order,
      Permutation order splits /\
      portfolios = map (fun s => predict (fst s) (snd s)) order /\
      StronglySorted lt (concat (map snd order)).
Proof.
  intros A predict sh splits pf H HC.
  destruct (C07_every_fold_once _ _ _ _ _ H) as (order & P & E & NE & SO & ND).
  exists order. split; [auto|]. split; [auto|].
  assert (HC' : forall s, In s order -> contiguous (snd s)).
  { intros [tr te] Hs. apply (HC tr). eapply Permutation_in; eauto. }
  clear -SO ND HC'. induction SO as [|s l Hl IH Hs]; simpl; [constructor|]. simpl in ND.
  destruct (HC' s (or_introl eq_refl)) as (a & len & Ea).
  assert (NDl : NoDup (concat (map snd l))).
  { revert ND. generalize (snd s). intros t. induction t; simpl; auto. intros N. inversion N; auto. }
  assert (IHs := IH NDl ltac:(intros; apply HC'; right; auto)).
  apply SS_app; auto.
  - rewrite Ea. apply seq_SSorted.
  - intros x y Hx Hy. rewrite Ea in Hx. apply in_seq in Hx.
    apply in_concat in Hy. destruct Hy as (t & Ht & Hy). apply in_map_iff in Ht. destruct Ht as (s' & <- & Hs').
    destruct (HC' s' (or_intror Hs')) as (a' & len' & Ea').
    rewrite Forall_forall in Hs. specialize (Hs s' Hs'). rewrite Ea, Ea' in Hs. simpl in Hs.
    assert (Hy' := Hy). rewrite Ea' in Hy. apply in_seq in Hy.
    (* a' is beyond the end of the first block, otherwise it is tested twice *)
    assert (a + S len <= a').
    { destruct (Nat.le_gt_cases (a + S len) a'); auto. exfalso.
      assert (I1 : In a' (snd s)) by (rewrite Ea; apply in_seq; lia).
      assert (I2 : In a' (concat (map snd l))).
      { apply in_concat. exists (snd s'). split; [apply in_map; auto|]. rewrite Ea'. left; auto. }
      revert ND I1 I2. generalize (snd s) (concat (map snd l)). clear. intros t u. induction t as [|z t IH]; simpl; [tauto|].
      intros N [->|I1] I2; inversion N as [|? ? N1 N2]; subst; [apply N1, in_or_app; auto|auto]. }
    lia.
Qed.
Print Assumptions C07_chronological.

(** When it returns: a splitter with non-empty, pairwise disjoint test folds is accepted as soon as
    it declares shuffle=False, or declares nothing and its first split is increasing. *)
Theorem C07_accepts :
  forall (A : Type) (predict : list nat -> list nat -> A) shuffle splits,
    splits <> [] -> (forall tr te, In (tr, te) splits -> te <> []) ->
    NoDup (concat (map snd splits)) ->
    (shuffle = Some false \/
     (shuffle = None /\ forall tr te r, splits = (tr, te) :: r -> StronglySorted lt tr /\ StronglySorted lt te)) ->
    exists portfolios, cross_val_predict A predict shuffle splits = Ok portfolios.
Proof.
  intros A predict sh splits Hne Hte ND Hsh. unfold cross_val_predict.
  assert (SC : shuffle_check sh splits = Ok tt).
  { unfold shuffle_check. destruct Hsh as [->|[-> Hs]]; auto. destruct splits as [|[tr te] r]; [congruence|].
    destruct (Hs tr te r eq_refl) as [A1 A2]. apply strictly_increasing_spec in A1, A2. rewrite A1, A2. reflexivity. }
  rewrite SC. destruct splits as [|s0 r]; [congruence|]. rewrite (NoDup_all_distinct _ ND). cbn [negb].
  assert (HS : exists keys, heads (map snd (s0 :: r)) = Some keys).
  { clear -Hte. induction (s0 :: r) as [|[tr te] l IH]; simpl; [eauto|].
    destruct te as [|x te]; [exfalso; apply (Hte tr []); [left; auto|auto]|].
    destruct IH as [ks Hk]; [intros; eapply Hte; right; eauto|]. rewrite Hk. simpl. eauto. }
  destruct HS as [keys ->]. eauto.
Qed.
Print Assumptions C07_accepts.

(** Everything else is refused; a splitter that declares shuffle=True always is. *)
Theorem C07_refuses :
  forall (A : Type) (predict : list nat -> list nat -> A) shuffle splits,
    (forall portfolios, cross_val_predict A predict shuffle splits = Ok portfolios ->
      splits <> [] /\ (forall tr te, In (tr, te) splits -> te <> []) /\ NoDup (concat (map snd splits)) /\
      (shuffle = Some false \/
       (shuffle = None /\ forall tr te r, splits = (tr, te) :: r -> StronglySorted lt tr /\ StronglySorted lt te))) /\
    (shuffle = Some true -> cross_val_predict A predict shuffle splits = Err ShuffleError) /\
    (forall tr te r, shuffle = None -> splits = (tr, te) :: r -> ~ (StronglySorted lt tr /\ StronglySorted lt te) ->
      cross_val_predict A predict shuffle splits = Err UnorderedError).
Proof.
  intros A predict sh splits. split; [|split].
  - intros pf H. destruct (C07_every_fold_once _ _ _ _ _ H) as (order & P & _ & NE & _ & ND).
    split; [intros ->; unfold cross_val_predict in H; destruct (shuffle_check sh []); discriminate|].
    split; [intros tr te Hi; apply (NE (tr, te)); eapply Permutation_in; [symmetry; exact P|exact Hi]|].
    split; [eapply Permutation_NoDup; [|exact ND]; rewrite <- !flat_map_concat_map; apply Permutation_flat_map; auto|].
    unfold cross_val_predict, shuffle_check in H. destruct sh as [[|]|]; [discriminate|auto|]. right. split; auto.
    intros tr te r ->. destruct (strictly_increasing tr && strictly_increasing te) eqn:E; [|discriminate].
    apply andb_prop in E. destruct E as [E1 E2]. split; apply strictly_increasing_spec; auto.
  - intros ->. reflexivity.
  - intros tr te r -> -> N. unfold cross_val_predict, shuffle_check.
    destruct (strictly_increasing tr && strictly_increasing te) eqn:E; [|reflexivity].
    exfalso. apply N. apply andb_prop in E. destruct E as [E1 E2]. split; apply strictly_increasing_spec; auto.
Qed.
Print Assumptions C07_refuses.

(** Walk-forward: the result is one prediction per split, in the order of the splits. *)
Theorem C07_walk_forward :
  forall (A : Type) (predict : list nat -> list nat -> A) n tr te pu expend reduce fuel splits,
    0 < te -> tr + pu < n -> n < fuel ->
    split_without_period n tr te pu expend reduce fuel = Fin splits -> splits <> [] ->
    cross_val_predict A predict None splits = Ok (map (fun s => predict (fst s) (snd s)) splits).
Proof.
  intros A predict n tr te pu ex red fuel splits Hte Hn Hf HS Hne.
  destruct (C05_walk_forward_splits n tr te pu ex red Hte Hn) as (sp & HF & OK & _).
  rewrite (HF fuel Hf) in HS. injection HS as ->.
  destruct OK as [TR TE LA (len & TI & _)].
  assert (ND : NoDup (concat (map snd splits))) by (rewrite TI; apply seq_NoDup).
  assert (NEt : forall tr0 te0, In (tr0, te0) splits -> te0 <> []).
  { intros tr0 te0 H. apply In_nth_error in H. destruct H as [i Hi]. apply (TE i tr0 te0 Hi). }
  destruct (C07_accepts A predict None splits Hne NEt ND) as [pf Hpf].
  { right. split; auto. intros tr0 te0 r E. subst splits. split.
    - rewrite (TR 0 tr0 te0 eq_refl). destruct ex; apply seq_SSorted.
    - destruct (TE 0 tr0 te0 eq_refl) as (_ & len0 & -> & _). apply seq_SSorted. }
  rewrite Hpf. f_equal.
  destruct (C07_every_fold_once _ _ _ _ _ Hpf) as (order & P & -> & _ & SO & _).
  f_equal. apply (sorted_unique (fun s1 s2 : list nat * list nat => hd 0 (snd s1) < hd 0 (snd s2))); auto.
  - intros x. lia.
  - intros x y z. lia.
  - assert (G : forall l s, (forall i a b, nth_error l i = Some (a, b) -> b <> [] /\ exists len, b = seq (tr + pu + (s + i) * te) len) ->
        StronglySorted (fun s1 s2 : list nat * list nat => hd 0 (snd s1) < hd 0 (snd s2)) l).
    { assert (HD : forall (b : list nat) x len, b <> [] -> b = seq x len -> hd 0 b = x).
      { intros b x [|len0] Hb ->; [simpl in Hb; congruence|reflexivity]. }
      induction l as [|[a b] l IH]; intros s Hl; constructor.
      - apply (IH (S s)). intros i a' b' Hi. destruct (Hl (S i) a' b' Hi) as (B1 & len0 & B2). split; auto. exists len0.
        replace (S s + i) with (s + S i) by lia. auto.
      - apply Forall_forall. intros [a' b'] H. apply In_nth_error in H. destruct H as [i Hi].
        destruct (Hl 0 a b eq_refl) as (B1 & l1 & B2). destruct (Hl (S i) a' b' Hi) as (C1 & l2 & C2). cbn [snd].
        rewrite (HD b _ _ B1 B2), (HD b' _ _ C1 C2). nia. }
    apply (G splits 0). intros i a b Hi. destruct (TE i a b Hi) as (B1 & len0 & B2 & _). split; auto. exists len0. auto.
  - intros x. split; apply Permutation_in; [auto|symmetry; auto].
Qed.
Print Assumptions C07_walk_forward.

(** Finding: only the first split is inspected and only first indices are sorted, so interleaved test
    folds produce a history that is not chronological. *)
Theorem C07_interleaved_refuted :
  exists (splits : list (list nat * list nat)) order,
    (forall tr te, In (tr, te) splits -> StronglySorted lt tr /\ StronglySorted lt te) /\
    cross_val_predict (list nat) (fun _ te => te) None splits = Ok order /\
    ~ StronglySorted lt (concat order).
Proof.
  exists [([4;5], [0;2]); ([4;5], [1;3])], [[0;2];[1;3]]. split; [|split].
  - intros tr te H. simpl in H. destruct H as [[= <- <-]|[[= <- <-]|[]]]; split; apply strictly_increasing_spec; reflexivity.
  - reflexivity.
  - intros H. apply strictly_increasing_spec in H. discriminate.
Qed.
Print Assumptions C07_interleaved_refuted.

(** Finding: a shuffled fold after the first split is not detected. *)
Theorem C07_shuffled_fold_detected_refuted :
  exists (splits : list (list nat * list nat)) order te,
    In te (map snd splits) /\ ~ StronglySorted lt te /\
    cross_val_predict (list nat) (fun _ te => te) None splits = Ok order.
Proof.
  exists [([4;5], [0;1]); ([4;5], [3;2])], [[0;1];[3;2]], [3;2]. split; [simpl; auto|]. split; [|reflexivity].
  intros H. apply strictly_increasing_spec in H. discriminate.
Qed.
Print Assumptions C07_shuffled_fold_detected_refuted.

(** * Combinatorial cross-validation *)

(** One multi-period portfolio per path; on every path the folds appear once each in chronological
    order 0..K-1, each predicted by the estimator trained on a split that tests that fold. *)
Theorem C07_combinatorial_paths :
  forall (A : Type) (predict : list nat -> list nat -> A) K k pu em n splits,
    ctor_ok K k = true -> cpcv_split K k pu em n = Some splits ->
    exists paths,
      cross_val_predict_combinatorial A predict K k pu em n = Some paths /\
      length paths = n_test_paths K k /\
      forall p, p < n_test_paths K k ->
        exists split_of : nat -> nat,
          (forall f, f < K -> split_of f < length splits /\
                              In (fold_index K n f) (snd (nth (split_of f) splits ([], [])))) /\
          nth p paths [] =
            map (fun f => predict (fst (nth (split_of f) splits ([], []))) (fold_index K n f)) (seq 0 K).
Proof.
  intros A predict K k pu em n splits Hc Hs.
  destruct (ctor_bounds _ _ Hc) as (_ & Hk & HkK).
  assert (HS : splits = splits_ K k pu em n).
  { unfold cpcv_split in Hs. destruct (size_error _ _ _ _); [discriminate|]. injection Hs as <-. reflexivity. }
  unfold cross_val_predict_combinatorial. rewrite Hs, HS. cbn [option_map]. eexists. split; [reflexivity|].
  assert (PN := path_nb_eq K k Hk HkK).
  split.
  { rewrite <- PN. apply (collect_nth A predict K k pu em n Hk HkK 0). unfold path_nb. lia. }
  intros p Hp. rewrite <- PN in Hp.
  destruct (collect_nth A predict K k pu em n Hk HkK p Hp) as [_ E].
  rewrite PN, n_test_paths_comb in Hp by lia.
  rewrite (path_filter K k Hk HkK p Hp), map_map in E.
  exists (fun f => fst (route_at K k p f)).
  assert (NT : forall i, i < n_splits K k -> nth i (splits_ K k pu em n) ([], []) = (train_index K k pu em n i, test_index_list K k n i)).
  { intros i Hi. unfold splits_. rewrite nth_indep with (d' := (train_index K k pu em n 0, test_index_list K k n 0)) by (rewrite map_length, seq_length; auto).
    rewrite (map_nth (fun i => (train_index K k pu em n i, test_index_list K k n i))), seq_nth by auto. reflexivity. }
  assert (TB : forall f, f < K -> fst (route_at K k p f) < n_splits K k /\
       nth (snd (route_at K k p f)) (test_index_list K k n (fst (route_at K k p f))) [] = fold_index K n f /\
       snd (route_at K k p f) < length (test_index_list K k n (fst (route_at K k p f)))).
  { intros f Hf. destruct (route_in K k Hk HkK p f Hp Hf) as (A1 & A2 & A3 & A4). split; auto.
    rewrite tests_eq by lia. rewrite map_length. split.
    - rewrite nth_indep with (d' := fold_index K n 0) by (rewrite map_length; apply nth_error_Some; congruence).
      rewrite map_nth. rewrite (nth_error_nth _ _ 0 A3). reflexivity.
    - apply nth_error_Some. congruence. }
  split.
  - intros f Hf. destruct (TB f Hf) as (B1 & B2 & B3). unfold splits_ at 1. rewrite map_length, seq_length. split; auto.
    rewrite NT by auto. cbn [snd]. rewrite <- B2. apply nth_In. auto.
  - rewrite E. apply map_ext_in. intros f Hf. apply in_seq in Hf. destruct (TB f ltac:(lia)) as (B1 & B2 & B3).
    unfold val. rewrite B2, NT by auto. reflexivity.
Qed.
Print Assumptions C07_combinatorial_paths.

Example C07_nonvacuous :
  (exists s, cpcv_split 4 2 1 1 17 = Some s) /\ ctor_ok 4 2 = true /\
  cross_val_predict (list nat) (fun _ te => te) None [([0;1],[4;5]); ([4;5],[0;1]); ([0;1],[2;3])] = Ok [[0;1];[2;3];[4;5]].
Proof. split; [eexists; vm_compute; reflexivity|]. split; reflexivity. Qed.
