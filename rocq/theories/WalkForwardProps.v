(** C05, C06: WalkForward. *)
From Coq Require Import List Arith ZArith Bool Lia Sorted.
Import ListNotations.
From Verif Require Import WalkForwardModel WalkForwardProofs.

(** * C05: integer sizes *)

(** What the user expects of the list of (train, test) pairs on [n] observations. *)
Record walk_forward_ok (n tr te pu : nat) (expend reduce : bool)
       (splits : list (list nat * list nat)) : Prop := {
  (* i-th training window: [train_size] observations ending [pu] before the test window, or all of
     the past when expanding *)
  wf_train : forall i train test, nth_error splits i = Some (train, test) ->
     train = if expend then seq 0 (i * te + tr) else seq (i * te) tr;
  (* i-th test window: the next [te] observations (fewer only for the last one, with reduce_test) *)
  wf_test : forall i train test, nth_error splits i = Some (train, test) ->
     test <> [] /\ exists len, test = seq (tr + pu + i * te) len /\
     (len = te \/ (reduce = true /\ S i = length splits /\ len < te));
  (* no look-ahead, with the purge *)
  wf_no_lookahead : forall train test a b, In (train, test) splits -> In a train -> In b test -> a + pu < b;
  (* the test windows tile a contiguous range, reaching the end of the sample when reduce_test and
     missing fewer than [te] observations otherwise *)
  wf_tile : exists len, concat (map snd splits) = seq (tr + pu) len /\
     tr + pu + len <= n /\
     (reduce = true -> tr + pu + len = n) /\ (reduce = false -> n < tr + pu + len + te)
}.

Lemma cnt_bounds te red d : 0 < te ->
  (red = true -> (cnt te red d - 1) * te < d \/ cnt te red d = 0) /\ (red = true -> d <= cnt te red d * te) /\
  (red = false -> cnt te red d * te <= d /\ d < cnt te red d * te + te).
Proof.
  intros Hte. unfold cnt. destruct red.
  - assert (D := Nat.div_mod (d + te - 1) te ltac:(lia)). assert (M := Nat.mod_upper_bound (d + te - 1) te ltac:(lia)).
    set (q := (d + te - 1) / te) in *. split; [|split]; [intros _|intros _|discriminate].
    + destruct q; [right; auto|left]. nia.
    + nia.
  - assert (D := Nat.div_mod d te ltac:(lia)). assert (M := Nat.mod_upper_bound d te ltac:(lia)).
    set (q := d / te) in *. split; [|split]; [discriminate|discriminate|intros _]. nia.
Qed.

(** The generator terminates, does not raise, and yields walk-forward splits. *)
Theorem C05_walk_forward_splits :
  forall n tr te pu expend reduce, 0 < te -> tr + pu < n ->
    exists splits,
      (forall fuel, n < fuel -> split_without_period n tr te pu expend reduce fuel = Fin splits) /\
      walk_forward_ok n tr te pu expend reduce splits /\
      get_n_splits n tr te pu reduce = Some (Z.of_nat (length splits)).
Proof.
  intros n tr te pu ex red Hte Hn.
  set (s := tr + pu). set (N := cnt te red (n - s)).
  exists (map (fun i => exp_split n tr te pu ex (s + i * te)) (seq 0 N)).
  destruct (cnt_bounds te red (n - s) Hte) as (B1 & B2 & B3). fold N in B1, B2, B3.
  assert (INR : forall i, i < N -> s + i * te < n /\ (s + i * te + te <= n \/ (red = true /\ S i = N /\ n < s + i * te + te))).
  { intros i Hi. destruct red.
    - destruct (B1 eq_refl) as [B|B]; [|lia]. assert (i * te <= (N - 1) * te) by (apply Nat.mul_le_mono_r; lia). split; [unfold s in *; lia|].
      destruct (Nat.eq_dec (S i) N) as [E|E].
      + destruct (Nat.le_gt_cases (s + i * te + te) n); auto.
      + left. assert ((S i) * te <= (N - 1) * te) by (apply Nat.mul_le_mono_r; lia). simpl in *. lia.
    - destruct (B3 eq_refl) as [B _]. assert (S i * te <= N * te) by (apply Nat.mul_le_mono_r; lia). simpl in *. split; [|left]; lia. }
  split; [|split].
  - intros fuel Hf. unfold split_without_period. destruct (Nat.leb_spec n (tr + pu)); [lia|].
    rewrite wf_loop_spec by (auto; lia). reflexivity.
  - assert (NTH : forall i train test, nth_error (map (fun i => exp_split n tr te pu ex (s + i * te)) (seq 0 N)) i = Some (train, test) ->
        i < N /\ train = fst (exp_split n tr te pu ex (s + i * te)) /\ test = snd (exp_split n tr te pu ex (s + i * te))).
    { intros i train test H. assert (Hi : i < N).
      { assert (i < length (map (fun i => exp_split n tr te pu ex (s + i * te)) (seq 0 N))) by (apply nth_error_Some; congruence).
        rewrite map_length, seq_length in *. auto. }
      split; auto. rewrite nth_error_map in H.
      assert (E : nth_error (seq 0 N) i = Some i).
      { rewrite (nth_error_nth' _ 0) by (rewrite seq_length; auto). rewrite seq_nth by auto. reflexivity. }
      rewrite E in H. simpl in H. inversion H as [H0]. split; reflexivity. }
    constructor.
    + intros i train test H. apply NTH in H. destruct H as (Hi & -> & _). unfold exp_split. cbn [fst].
      unfold s. destruct ex; f_equal; lia.
    + intros i train test H. apply NTH in H. destruct H as (Hi & _ & ->). unfold exp_split. cbn [snd].
      destruct (INR i Hi) as [A B]. split.
      * intros E. apply (f_equal (@length nat)) in E. rewrite seq_length in E. simpl in E. lia.
      * exists (Nat.min te (n - (s + i * te))). split; [reflexivity|]. rewrite map_length, seq_length.
        destruct B as [B|B]; [left; lia|right]. repeat split; try tauto. lia.
    + intros train test a b H Ha Hb. apply In_nth_error in H. destruct H as [i H]. apply NTH in H.
      destruct H as (Hi & -> & ->). unfold exp_split in *. cbn [fst snd] in *.
      apply in_seq in Hb. unfold s in *. destruct ex; apply in_seq in Ha; lia.
    + exists (Nat.min (N * te) (n - s)). split.
      * rewrite map_map. unfold exp_split. cbn [snd]. apply windows_concat; auto.
        destruct N as [|N']; [right; auto|left]. apply INR. lia.
      * unfold s in *. split; [lia|]. split; intros R; [specialize (B2 R)|specialize (B3 R)]; lia.
  - rewrite map_length, seq_length. unfold get_n_splits, N, cnt, s.
    replace (Z.of_nat n - Z.of_nat tr - Z.of_nat pu)%Z with (Z.of_nat (n - (tr + pu))) by lia.
    set (d := n - (tr + pu)).
    destruct (Z.eqb_spec (Z.of_nat te) 0); [lia|].
    rewrite <- Nat2Z.inj_mod, <- Nat2Z.inj_div.
    destruct red; cbn [andb]; [|reflexivity].
    assert (D := Nat.div_mod d te ltac:(lia)). assert (M := Nat.mod_upper_bound d te ltac:(lia)).
    destruct (Z.eqb_spec (Z.of_nat (d mod te)) 0); cbn [negb]; f_equal.
    + f_equal. apply Nat.div_unique with (te - 1); lia.
    + rewrite <- (Nat2Z.inj_add _ 1). f_equal. apply Nat.div_unique with (d mod te - 1); lia.
Qed.
Print Assumptions C05_walk_forward_splits.

(** The splitter raises exactly when there is no room for a test observation. *)
Theorem C05_raises_iff :
  forall n tr te pu expend reduce fuel, 0 < te -> n < fuel ->
    (split_without_period n tr te pu expend reduce fuel = Raise <-> n <= tr + pu).
Proof.
  intros n tr te pu ex red fuel Hte Hf. split.
  - intros H. destruct (Nat.le_gt_cases n (tr + pu)) as [|G]; auto.
    destruct (C05_walk_forward_splits n tr te pu ex red Hte G) as (sp & E & _). rewrite E in H by auto. discriminate.
  - intros H. unfold split_without_period. destruct (Nat.leb_spec n (tr + pu)); [auto|lia].
Qed.
Print Assumptions C05_raises_iff.

(** Finding: test_size = 0 passes validation and makes the generator yield forever. *)
Theorem C05_zero_test_size_terminates_refuted :
  exists n tr pu expend reduce, tr + pu < n /\
    forall fuel, exists l, length l = fuel /\ split_without_period n tr 0 pu expend reduce fuel = Running l.
Proof.
  exists 10, 3, 1, false, false. split; [lia|]. intros fuel. unfold split_without_period.
  apply (wf_zero_running 10 3 1 false false fuel 4). lia.
Qed.
Print Assumptions C05_zero_test_size_terminates_refuted.

Example C05_nonvacuous :
  0 < 2 /\ 3 + 0 < 6 /\
  split_without_period 6 3 2 0 true true 10 = Fin [([0;1;2],[3;4]); ([0;1;2;3;4],[5])] /\
  split_without_period 12 3 2 1 false false 20 =
    Fin [([0;1;2],[4;5]); ([2;3;4],[6;7]); ([4;5;6],[8;9]); ([6;7;8],[10;11])].
Proof. repeat split; lia. Qed.

(** * C06: calendar frequency *)

(** pd.date_range returns strictly increasing dates inside the requested interval *)
Definition good_date_range (dr : Z -> Z -> list Z) : Prop :=
  forall s e, StronglySorted Z.lt (dr s e) /\ (forall d, In d (dr s e) -> (s <= d <= e)%Z).

(** One split: indices are real positions, and every training index precedes every test index by
    more than [gap] observations. *)
Definition causal (n : nat) (gap : nat) (s : list Z * list Z) : Prop :=
  (forall a, In a (fst s) -> (0 <= a)%Z) /\
  (forall b, In b (snd s) -> (b < Z.of_nat n)%Z) /\
  (forall a b, In a (fst s) -> In b (snd s) -> (a + Z.of_nat gap < b)%Z).

(** test windows appear in chronological order without overlap *)
Definition tests_in_order (l : list (list Z * list Z)) : Prop :=
  ForallOrdPairs (fun s1 s2 => forall b1 b2, In b1 (snd s1) -> In b2 (snd s2) -> (b1 < b2)%Z) l.

(** The dates given by the frequency, moved by freq_offset when there is one. *)
Definition rebalancing_dates (dr : Z -> Z -> list Z) (ts : list Z) (freq_offset : option Z) : list Z :=
  match freq_offset with
  | None => dr (hd 0%Z ts) (last ts 0%Z)
  | Some o => map (fun d => (d + o)%Z) (dr (Z.min (hd 0%Z ts) (hd 0%Z ts - o)) (last ts 0%Z))
  end.
(** Every date has an observation at or after it (default), or at or before it ([previous]). *)
Definition located (previous : bool) (ts dates : list Z) : Prop :=
  forall d, In d dates -> if previous then (hd 0 ts <= d)%Z else (d <= last ts 0)%Z.

Lemma grid_dates dr ts fo : grid dr ts fo = rebalancing_dates dr ts fo.
Proof. destruct fo; reflexivity. Qed.

(** Without freq_offset that is always so. *)
Theorem C06_no_offset_located dr ts previous : good_date_range dr -> located previous ts (rebalancing_dates dr ts None).
Proof. intros H d Hd. apply (proj2 (H (hd 0%Z ts) (last ts 0%Z))) in Hd. destruct previous; lia. Qed.
Print Assumptions C06_no_offset_located.

(** With an integer train_size: the generator terminates, and every split is causal with the purge. *)
Theorem C06_period_int_train :
  forall dr ts freq_offset previous pu te expend reduce tr,
    good_date_range dr -> StronglySorted Z.lt ts -> ts <> [] -> 0 < te ->
    located previous ts (rebalancing_dates dr ts freq_offset) ->
    exists fuel splits,
      split_period_int dr ts freq_offset previous pu te expend reduce tr fuel = Fin splits /\
      Forall (causal (length ts) pu) splits /\ tests_in_order splits.
Proof.
  intros dr ts fo prev pu te ex red tr Hdr Hts Hne Hte Hin. rewrite <- grid_dates in Hin.
  destruct (loop_fin dr ts prev pu te ex red fo tr (S (length (idx dr ts fo prev))) 0 Hte ltac:(lia)) as [l Hl].
  exists (S (length (idx dr ts fo prev))), l. split; [exact Hl|].
  destruct (loop_ok dr ts prev pu te ex red Hts Hne Hdr fo Hin tr (S (length (idx dr ts fo prev))) 0) as (A & B & _).
  rewrite Hl in A, B. split; [exact A|exact B].
Qed.
Print Assumptions C06_period_int_train.

(** Position of a grid date in the sample: the first observation at or after it (default), or the
    last observation at or before it ([previous]). *)
Definition date_pos (previous : bool) (ts : list Z) (d : Z) : Z :=
  if previous then Z.of_nat (length (filter (fun t => (t <=? d)%Z) ts)) - 1
  else Z.of_nat (length (filter (fun t => (t <? d)%Z) ts)).

Lemma countb_filter p l : countb p l = Z.of_nat (length (filter p l)).
Proof. induction l as [|x l IH]; simpl; auto. destruct (p x); simpl length; lia. Qed.

Lemma date_pos_indexer prev ts d : StronglySorted Z.lt ts -> ts <> [] -> (if prev : bool then (hd 0 ts <= d)%Z else (d <= last ts 0)%Z) ->
  get_indexer prev ts d = date_pos prev ts d.
Proof.
  intros Hs Hne Hd. assert (R := get_indexer_range prev ts d Hs Hne Hd). unfold get_indexer, date_pos in *.
  destruct prev.
  - rewrite ffill_spec in * by (auto; lia). rewrite countb_filter in *. destruct (Z.eqb_spec (Z.of_nat (length (filter (fun t => (t <=? d)%Z) ts))) 0); lia.
  - destruct (bfill_spec ts 0 d Hs) as [A _]; [exists (last ts 0%Z); split; [apply last_in; auto|lia]|].
    rewrite A, countb_filter. lia.
Qed.

(** The windows themselves: with dates d_0 < d_1 < ... given by the frequency, split k trains from
    d_{k*te} (or the start) up to purged_size observations before d_{k*te+tr} and tests from
    d_{k*te+tr} up to d_{k*te+tr+te} (or the end of the sample); a split exists exactly while the
    dates last. *)
Theorem C06_period_int_windows :
  forall dr ts freq_offset previous pu te expend reduce tr fuel splits,
    good_date_range dr -> StronglySorted Z.lt ts -> ts <> [] -> 0 < te ->
    let dates := rebalancing_dates dr ts freq_offset in
    located previous ts dates ->
    split_period_int dr ts freq_offset previous pu te expend reduce tr fuel = Fin splits ->
    let P j := date_pos previous ts (nth j dates 0%Z) in
    forall k,
      let s := k * te in
      let exists_split := if reduce then s + tr < length dates else s + tr + te < length dates in
      (~ exists_split -> nth_error splits k = None) /\
      (exists_split -> nth_error splits k =
        Some (arange (if expend then 0 else P s) (P (s + tr) - Z.of_nat pu),
              arange (P (s + tr)) (if s + tr + te <? length dates then P (s + tr + te) else Z.of_nat (length ts)))).
Proof.
  intros dr ts fo prev pu te ex red tr fuel splits Hdr Hts Hne Hte dates Hin H P k s exists_split.
  assert (GD : grid dr ts fo = dates) by apply grid_dates.
  assert (W := loop_windows dr ts prev pu te ex red fo tr fuel 0 splits Hte H k). cbn [plus] in W. fold s in W.
  assert (L : length (idx dr ts fo prev) = length dates) by (rewrite idx_len, GD; reflexivity). rewrite L in W.
  assert (PE : forall j, j < length dates -> idx_at dr ts fo prev j = P j).
  { intros j Hj. rewrite idx_at_eq by (rewrite L; auto). rewrite GD. unfold P. apply date_pos_indexer; auto.
    apply Hin. apply nth_In. exact Hj. }
  assert (WE : s + tr < length dates -> window dr ts prev pu te ex fo tr s =
    (arange (if ex then 0 else P s) (P (s + tr) - Z.of_nat pu),
     arange (P (s + tr)) (if s + tr + te <? length dates then P (s + tr + te) else Z.of_nat (length ts)))).
  { intros Hs. unfold window. rewrite L, !PE by lia. destruct (Nat.ltb_spec (s + tr + te) (length dates)); [rewrite PE by auto|]; reflexivity. }
  unfold exists_split. split; intros He; rewrite W; destruct red.
  - destruct (Nat.ltb_spec (s + tr) (length dates)); [contradiction|auto].
  - destruct (Nat.ltb_spec (s + tr + te) (length dates)); [contradiction|auto].
  - rewrite (proj2 (Nat.ltb_lt (s + tr) (length dates))) by lia. rewrite WE by lia. reflexivity.
  - rewrite WE by lia. rewrite (proj2 (Nat.ltb_lt (s + tr + te) (length dates))) by lia. reflexivity.
Qed.
Print Assumptions C06_period_int_windows.

(** With a train offset: the generator terminates, the training data precede the test data, and the
    tests do not overlap. *)
Theorem C06_period_offset_train :
  forall dr ts freq_offset previous pu te expend reduce toff,
    good_date_range dr -> StronglySorted Z.lt ts -> ts <> [] -> 0 < te ->
    located previous ts (rebalancing_dates dr ts freq_offset) ->
    exists fuel splits,
      split_period_offset dr ts freq_offset previous pu te expend reduce toff fuel = Fin splits /\
      Forall (causal (length ts) 0) splits /\ tests_in_order splits.
Proof.
  intros dr ts fo prev pu te ex red toff Hdr Hts Hne Hte Hin. rewrite <- grid_dates in Hin. exists (S (length (idx dr ts fo prev))). unfold split_period_offset.
  destruct (forallb (fun x => (x =? -1)%Z) (train_idx dr ts fo toff)) eqn:E; [exists []; split; [reflexivity|split; constructor]|].
  set (i0 := argmax_pos (train_idx dr ts fo toff)).
  destruct (offset_fin dr ts prev pu te ex red fo toff (S (length (idx dr ts fo prev))) i0 Hte ltac:(lia)) as [l Hl].
  exists l. split; [exact Hl|].
  destruct (offset_loop_ok dr ts prev pu te ex red Hts Hne Hdr fo Hin toff (S (length (idx dr ts fo prev))) i0 E (le_n _)) as (A & B & _).
  rewrite Hl in A, B. split; [exact A|exact B].
Qed.
Print Assumptions C06_period_offset_train.

(** Its windows: the first date used is the first one that lies at least the train offset after the
    first observation; from there, every [te]-th date tests up to the next one used, less purged_size
    observations (or to the end of the sample), after training on the observations from the last one
    at or before the date minus the train offset. *)
Theorem C06_period_offset_windows :
  forall dr ts freq_offset previous pu te expend reduce toff fuel splits,
    good_date_range dr -> StronglySorted Z.lt ts -> ts <> [] -> 0 < te ->
    let dates := rebalancing_dates dr ts freq_offset in
    located previous ts dates ->
    split_period_offset dr ts freq_offset previous pu te expend reduce toff fuel = Fin splits ->
    let P j := date_pos previous ts (nth j dates 0%Z) in
    let reaches j := (hd 0 ts <= nth j dates 0 - toff)%Z in
    ((forall j, j < length dates -> ~ reaches j) -> splits = []) /\
    (forall i0, i0 < length dates -> reaches i0 -> (forall j, j < i0 -> ~ reaches j) -> forall k,
      let i := i0 + k * te in
      let exists_split := if reduce then i < length dates else i + te < length dates in
      (~ exists_split -> nth_error splits k = None) /\
      (exists_split -> nth_error splits k =
        Some (arange (if expend then 0 else date_pos true ts (nth i dates 0%Z - toff)) (P i),
              arange (P i) (if i + te <? length dates then P (i + te) - Z.of_nat pu else Z.of_nat (length ts))))).
Proof.
  intros dr ts fo prev pu te ex red toff fuel splits Hdr Hts Hne Hte dates Hin H P reaches.
  assert (GD : grid dr ts fo = dates) by apply grid_dates.
  assert (L : length (idx dr ts fo prev) = length dates) by (rewrite idx_len, GD; reflexivity).
  assert (LT : length (train_idx dr ts fo toff) = length dates) by (rewrite <- GD; apply map_length).
  assert (PE : forall j, j < length dates -> idx_at dr ts fo prev j = P j).
  { intros j Hj. rewrite idx_at_eq by (rewrite L; auto). rewrite GD. unfold P. apply date_pos_indexer; auto. apply Hin. apply nth_In. exact Hj. }
  assert (TE : forall j, j < length dates -> train_at dr ts fo toff j = get_indexer true ts (nth j dates 0 - toff)%Z).
  { intros j Hj. rewrite tidx_eq with (prev := prev) by (rewrite L; auto). rewrite GD. reflexivity. }
  assert (TP : forall j, j < length dates -> reaches j -> train_at dr ts fo toff j = date_pos true ts (nth j dates 0 - toff)%Z).
  { intros j Hj R. rewrite TE by auto. apply date_pos_indexer; auto. }
  assert (TN : forall j, j < length dates -> ~ reaches j -> train_at dr ts fo toff j = (-1)%Z).
  { intros j Hj R. rewrite TE by auto. unfold get_indexer, reaches in *. rewrite ffill_spec by (auto; lia).
    rewrite countb_0; [reflexivity|]. intros x Hx. apply Z.leb_gt.
    destruct ts as [|t0 r]; [congruence|]. cbn [hd] in R. destruct Hx as [<-|Hx]; [lia|]. inversion Hts as [|? ? S1 S2]; subst.
    rewrite Forall_forall in S2. specialize (S2 x Hx). lia. }
  unfold split_period_offset in H. split.
  - intros N. replace (forallb (fun x => (x =? -1)%Z) (train_idx dr ts fo toff)) with true in H; [injection H as <-; reflexivity|].
    symmetry. apply forallb_forall. intros x Hx. apply (In_nth _ _ 0%Z) in Hx. destruct Hx as (j & Hj & <-). rewrite LT in Hj.
    apply Z.eqb_eq. apply (TN j Hj (N j Hj)).
  - intros i0 Hi0 R0 Rmin k i exists_split.
    assert (T0 : (0 <= train_at dr ts fo toff i0)%Z).
    { rewrite TE by auto. apply (get_indexer_range true); auto. }
    assert (E : forallb (fun x => (x =? -1)%Z) (train_idx dr ts fo toff) = false).
    { destruct (forallb _ _) eqn:E; auto. rewrite forallb_forall in E. specialize (E (train_at dr ts fo toff i0)).
      unfold train_at in E, T0. rewrite Z.eqb_eq in E. rewrite E in T0; [lia|]. apply nth_In. lia. }
    rewrite E in H.
    assert (AM : argmax_pos (train_idx dr ts fo toff) = i0).
    { assert (G : forall l i, i < length l -> (0 <= nth i l 0)%Z -> (forall j, j < i -> nth j l 0%Z = (-1)%Z) -> argmax_pos l = i).
      { clear. induction l as [|x l IH]; intros i Hi Hp Hm; simpl in *; [lia|]. destruct i as [|i].
        - destruct (Z.ltb_spec (-1) x); [reflexivity|lia].
        - assert (X := Hm 0 ltac:(lia)). simpl in X. subst x. cbn [Z.ltb Z.compare]. replace ((-1 <? -1)%Z) with false by reflexivity.
          f_equal. apply IH; [lia|auto|]. intros j Hj. apply (Hm (S j)). lia. }
      apply G; [lia|exact T0|]. intros j Hj. apply TN; [lia|]. apply Rmin. auto. }
    rewrite AM in H.
    assert (RM : forall j, i0 <= j < length dates -> reaches j).
    { intros j Hj. unfold reaches in *. assert (nth i0 dates 0 <= nth j dates 0)%Z; [|lia].
      apply sorted_nth; [rewrite <- GD; apply (grid_sorted dr ts prev Hdr fo); rewrite GD; exact Hin|exact Hj]. }
    assert (W := offset_windows dr ts prev pu te ex red fo toff fuel i0 splits Hte H k). fold i in W. rewrite L in W.
    assert (WE : i < length dates -> offset_window dr ts prev pu te ex fo toff i =
      (arange (if ex then 0 else date_pos true ts (nth i dates 0%Z - toff)) (P i),
       arange (P i) (if i + te <? length dates then P (i + te) - Z.of_nat pu else Z.of_nat (length ts)))).
    { intros Hs. unfold offset_window. rewrite L, PE by lia. rewrite TP by (auto; apply RM; unfold i in *; lia).
      destruct (Nat.ltb_spec (i + te) (length dates)); [rewrite PE by auto|]; reflexivity. }
    unfold exists_split. split; intros He; rewrite W; destruct red.
    + destruct (Nat.ltb_spec i (length dates)); [contradiction|auto].
    + destruct (Nat.ltb_spec (i + te) (length dates)); [contradiction|auto].
    + rewrite (proj2 (Nat.ltb_lt i (length dates))) by lia. rewrite WE by lia. reflexivity.
    + rewrite WE by lia. rewrite (proj2 (Nat.ltb_lt (i + te) (length dates))) by lia. reflexivity.
Qed.
Print Assumptions C06_period_offset_windows.

(** a monthly-like grid: multiples of 5 *)
Definition dr5 (s e : Z) : list Z :=
  filter (fun d => (s <=? d)%Z && (d <=? e)%Z) [0; 5; 10; 15; 20; 25]%Z.
Lemma dr5_good : good_date_range dr5.
Proof.
  intros s e. split.
  - unfold dr5. assert (H : StronglySorted Z.lt [0; 5; 10; 15; 20; 25]%Z) by (repeat constructor).
    revert H. generalize [0; 5; 10; 15; 20; 25]%Z. intros l H. induction H as [|x l Hl IH Hx]; simpl; [constructor|].
    destruct (_ && _); auto. constructor; auto. rewrite Forall_forall in *. intros y Hy. apply filter_In in Hy. apply Hx, Hy.
  - intros d H. apply filter_In in H. destruct H as [_ H]. lia.
Qed.
Definition ts20 : list Z := map Z.of_nat (seq 0 21).
Lemma ts20_sorted : StronglySorted Z.lt ts20.
Proof. unfold ts20. simpl. repeat constructor. Qed.

(** Finding: with a train offset the purge is cut from the end of the *test* window; training ends
    immediately before the test window whatever purged_size is. *)
Theorem C06_offset_purge_refuted :
  exists dr ts pu te toff fuel splits train test a b,
    good_date_range dr /\ StronglySorted Z.lt ts /\
    split_period_offset dr ts None false pu te false false toff fuel = Fin splits /\
    In (train, test) splits /\ In a train /\ In b test /\ 2 <= pu /\ (b = a + 1)%Z.
Proof.
  exists dr5, ts20, 2, 1, 5%Z, 10. eexists. exists [0;1;2;3;4]%Z, [5;6;7]%Z, 4%Z, 5%Z.
  split; [apply dr5_good|]. split; [apply ts20_sorted|]. split; [vm_compute; reflexivity|].
  split; [left; reflexivity|]. repeat split; simpl; auto 10.
Qed.
Print Assumptions C06_offset_purge_refuted.

(** Finding: a positive freq_offset can push the last grid date after the sample; with the default
    back-fill the missing position -1 is used as an index, and the last test window becomes
    -1, 0, 1, ..., n-1: it restarts at the beginning of history. *)
Theorem C06_freq_offset_bfill_refuted :
  exists dr ts o te fuel splits test,
    good_date_range dr /\ StronglySorted Z.lt ts /\
    split_period_int dr ts (Some o) false 0 te false true 2 fuel = Fin splits /\
    In ([], test) splits /\ test = arange (-1) (Z.of_nat (length ts)).
Proof.
  exists dr5, ts20, 2%Z, 1, 10. eexists. eexists. split; [apply dr5_good|]. split; [apply ts20_sorted|].
  split; [vm_compute; reflexivity|]. split; [|reflexivity]. vm_compute. auto 10.
Qed.
Print Assumptions C06_freq_offset_bfill_refuted.

(** Finding: a negative freq_offset with previous=True puts index -1 (the last, future observation)
    into the first training window. *)
Theorem C06_freq_offset_ffill_leak_refuted :
  exists dr ts o te fuel splits train test,
    good_date_range dr /\ StronglySorted Z.lt ts /\
    split_period_int dr ts (Some o) true 0 te false false 2 fuel = Fin splits /\
    In (train, test) splits /\ In (-1)%Z train /\ (forall b, In b test -> (b < Z.of_nat (length ts) - 1)%Z).
Proof.
  exists dr5, ts20, (-2)%Z, 1, 10. eexists. eexists. eexists. split; [apply dr5_good|]. split; [apply ts20_sorted|].
  split; [vm_compute; reflexivity|]. split; [left; reflexivity|]. split; [simpl; auto|].
  vm_compute. intros b H. repeat (destruct H as [<-|H]; [reflexivity|]). contradiction.
Qed.
Print Assumptions C06_freq_offset_ffill_leak_refuted.

(** Finding: get_n_splits ignores freq, so it does not count the calendar splits. *)
Theorem C06_get_n_splits_refuted :
  exists dr ts te tr fuel splits,
    good_date_range dr /\ StronglySorted Z.lt ts /\
    split_period_int dr ts None false 0 te false false tr fuel = Fin splits /\
    get_n_splits (length ts) tr te 0 false <> Some (Z.of_nat (length splits)).
Proof.
  exists dr5, ts20, 1, 2, 10. eexists. split; [apply dr5_good|]. split; [apply ts20_sorted|].
  split; [vm_compute; reflexivity|]. vm_compute. congruence.
Qed.
Print Assumptions C06_get_n_splits_refuted.

Example C06_nonvacuous :
  good_date_range dr5 /\ StronglySorted Z.lt ts20 /\ ts20 <> [] /\
  split_period_int dr5 ts20 None false 1 1 false false 2 10 =
   Fin [([0;1;2;3;4;5;6;7;8],[10;11;12;13;14]); ([5;6;7;8;9;10;11;12;13],[15;16;17;18;19])]%Z.
Proof. split; [apply dr5_good|]. split; [apply ts20_sorted|]. split; [discriminate|vm_compute; reflexivity]. Qed.
(** with offsets: dates moved one day back are still located by the default back-fill *)
Example C06_offset_nonvacuous :
  located false ts20 (rebalancing_dates dr5 ts20 (Some (-1)%Z)) /\
  split_period_offset dr5 ts20 (Some (-1)%Z) false 1 1 false true 5 10 =
   Fin [([4;5;6;7;8],[9;10;11;12]); ([9;10;11;12;13],[14;15;16;17]); ([14;15;16;17;18],[19;20])]%Z.
Proof.
  split; [|vm_compute; reflexivity]. intros d H. vm_compute in H. repeat (destruct H as [<-|H]; [vm_compute; discriminate|]). contradiction.
Qed.
