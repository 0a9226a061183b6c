(** Lemmas about WalkForwardModel. *)
From Coq Require Import List Arith ZArith Bool Lia Sorted.
Import ListNotations.
From Verif Require Import WalkForwardModel.

Lemma slice_seq n a b : b <= n -> slice a b (seq 0 n) = seq a (b - a).
Proof.
  intros H. unfold slice.
  destruct (Nat.le_gt_cases b a) as [H1|H1].
  - replace (b - a) with 0 by lia. reflexivity.
  - replace n with (a + ((b - a) + (n - b))) by lia.
    rewrite seq_app, skipn_app, seq_length, Nat.sub_diag, skipn_all2 by (rewrite seq_length; lia). simpl.
    rewrite seq_app, firstn_app, seq_length, Nat.sub_diag, firstn_O, app_nil_r, firstn_all2; auto.
    rewrite seq_length; auto.
Qed.

Section NP.
  Variables n tr te pu : nat.
  Variables ex red : bool.
  Hypothesis Hte : 0 < te.

  Definition cnt (d : nat) : nat := if red then (d + te - 1) / te else d / te.

  Definition exp_split (s : nat) : list nat * list nat :=
    (if ex then seq 0 (s - pu) else seq (s - pu - tr) tr, seq s (Nat.min te (n - s))).

  Lemma cnt_0 : cnt 0 = 0.
  Proof. unfold cnt. destruct red; apply Nat.div_small; lia. Qed.

  Lemma cnt_step d : te <= d -> cnt d = S (cnt (d - te)).
  Proof.
    intros H. unfold cnt. destruct red.
    - replace (d + te - 1) with (1 * te + (d - te + te - 1)) by lia. rewrite Nat.div_add_l by lia. lia.
    - replace d with (1 * te + (d - te)) at 1 by lia. rewrite Nat.div_add_l by lia. lia.
  Qed.

  Lemma wf_loop_spec fuel s : tr + pu <= s -> n - s < fuel ->
    wf_loop n tr te pu ex red fuel s = Fin (map (fun i => exp_split (s + i * te)) (seq 0 (cnt (n - s)))).
  Proof.
    revert s; induction fuel as [|fuel IH]; intros s Hs Hf; [lia|]. cbn [wf_loop].
    destruct (Nat.leb_spec n s) as [H|H].
    - replace (n - s) with 0 by lia. rewrite cnt_0. reflexivity.
    - assert (TR : slice (if ex then 0 else s - pu - tr) (s - pu) (indices n) = fst (exp_split s)).
      { unfold indices, exp_split. cbn [fst]. destruct ex; rewrite slice_seq by lia; f_equal; lia. }
      rewrite TR. unfold indices. rewrite !slice_seq by lia.
      destruct (Nat.ltb_spec n (s + te)) as [H2|H2].
      + destruct red eqn:R; cbn [negb].
        * rewrite IH by lia. replace (n - (s + te)) with 0 by lia. rewrite cnt_0.
          assert (C : cnt (n - s) = 1).
          { unfold cnt. rewrite R. symmetry. apply Nat.div_unique with (n - s - 1); lia. }
          rewrite C. cbn [seq map emit]. rewrite Nat.add_0_r. unfold exp_split. cbn [fst]. do 4 f_equal. lia.
        * assert (C : cnt (n - s) = 0) by (unfold cnt; rewrite R; apply Nat.div_small; lia).
          rewrite C. reflexivity.
      + rewrite slice_seq by lia. rewrite IH by lia. rewrite (cnt_step (n - s)) by lia.
        cbn [seq map emit]. f_equal. f_equal.
        * rewrite Nat.add_0_r. unfold exp_split. cbn [fst]. do 2 f_equal. lia.
        * replace (n - (s + te)) with (n - s - te) by lia.
          rewrite <- seq_shift, map_map. apply map_ext. intros i. f_equal. lia.
  Qed.

  (** windows laid end to end *)
  Lemma windows_concat s c : s + (c - 1) * te < n \/ c = 0 ->
    concat (map (fun i => seq (s + i * te) (Nat.min te (n - (s + i * te)))) (seq 0 c))
    = seq s (Nat.min (c * te) (n - s)).
  Proof.
    induction c as [|c IH]; intros H; auto.
    rewrite seq_S, map_app, concat_app. cbn [map concat]. rewrite app_nil_r.
    destruct c as [|c].
    - simpl. f_equal; lia.
    - rewrite IH by (left; nia). cbn [plus].
      assert (E : Nat.min (S c * te) (n - s) = S c * te) by nia. rewrite E.
      rewrite <- seq_app. f_equal. nia.
  Qed.
End NP.

Lemma wf_zero_running n tr pu ex red fuel s : s < n ->
  exists l, length l = fuel /\ wf_loop n tr 0 pu ex red fuel s = Running l.
Proof.
  intros Hs. induction fuel as [|fuel (l & Hl & IH)]; [exists []; auto|].
  cbn [wf_loop]. rewrite Nat.add_0_r.
  destruct (Nat.leb_spec n s); [lia|]. destruct (Nat.ltb_spec n s); [lia|].
  rewrite IH. eexists. split; [|reflexivity]. simpl; auto.
Qed.

(** * get_indexer *)
Local Open Scope Z_scope.
Fixpoint countb (p : Z -> bool) (l : list Z) : Z :=
  match l with [] => 0 | x :: l' => (if p x then 1 else 0) + countb p l' end.
Lemma countb_nonneg p l : 0 <= countb p l <= Z.of_nat (length l).
Proof. induction l as [|x l IH]; cbn [countb length]; [lia|]. destruct (p x); lia. Qed.
Lemma countb_mono p q l : (forall x, p x = true -> q x = true) -> countb p l <= countb q l.
Proof.
  intros H. induction l as [|x l IH]; cbn [countb]; [lia|]. specialize (H x).
  destruct (p x), (q x); lia.
Qed.
Lemma countb_0 p l : (forall x, In x l -> p x = false) -> countb p l = 0.
Proof. induction l as [|x l IH]; cbn [countb]; intros H; auto. rewrite (H x) by (left; auto). rewrite IH; auto. intros y Hy; apply H; right; auto. Qed.

Lemma bfill_spec ts pos d : StronglySorted Z.lt ts -> (exists t, In t ts /\ d <= t) ->
  bfill_from pos ts d = pos + countb (fun t => t <? d) ts /\ countb (fun t => t <? d) ts < Z.of_nat (length ts).
Proof.
  intros H; revert pos; induction H as [|t ts Hs IH Ht]; intros pos (t0 & Hin & Hd); [contradiction|].
  rewrite Forall_forall in Ht.
  cbn [bfill_from countb length]. destruct (Z.leb_spec d t).
  - destruct (Z.ltb_spec t d); [lia|]. rewrite countb_0; [lia|].
    intros x Hx. specialize (Ht x Hx). apply Z.ltb_ge. lia.
  - destruct (Z.ltb_spec t d); [|lia]. destruct Hin as [->|Hin]; [lia|].
    destruct (IH (pos + 1)) as [A B]; eauto. lia.
Qed.

Lemma ffill_spec ts pos d : StronglySorted Z.lt ts -> 0 <= pos ->
  ffill_from pos ts d = if countb (fun t => t <=? d) ts =? 0 then -1 else pos + countb (fun t => t <=? d) ts - 1.
Proof.
  intros H; revert pos; induction H as [|t ts Hs IH Ht]; intros pos Hpos; [reflexivity|].
  rewrite Forall_forall in Ht. cbn [ffill_from countb].
  assert (N := countb_nonneg (fun t => t <=? d) ts).
  destruct (Z.leb_spec t d).
  - rewrite IH by lia. destruct (Z.eqb_spec (countb (fun t => t <=? d) ts) 0) as [E|E].
    + rewrite E. cbn [Z.add Z.eqb]. destruct (Z.eqb_spec (1 + 0) 0); lia.
    + destruct (Z.eqb_spec (1 + countb (fun t => t <=? d) ts) 0); lia.
  - rewrite countb_0; [reflexivity|]. intros x Hx. specialize (Ht x Hx). apply Z.leb_gt. lia.
Qed.

Lemma last_in (l : list Z) d : l <> [] -> In (last l d) l.
Proof. induction l as [|x l IH]; intros H; [congruence|]. destruct l as [|y l]; [left; auto|]. right. apply IH. discriminate. Qed.
Lemma hd_in (l : list Z) d : l <> [] -> In (hd d l) l.
Proof. destruct l; [congruence|left; auto]. Qed.

Lemma get_indexer_range ff ts d : StronglySorted Z.lt ts -> ts <> [] -> (if ff : bool then hd 0 ts <= d else d <= last ts 0) ->
  0 <= get_indexer ff ts d < Z.of_nat (length ts).
Proof.
  intros Hs Hne Hd. unfold get_indexer. destruct ff.
  - rewrite ffill_spec by (auto; lia).
    assert (N := countb_nonneg (fun t => t <=? d) ts).
    destruct (Z.eqb_spec (countb (fun t => t <=? d) ts) 0) as [E|E].
    + exfalso. destruct ts as [|t ts]; [congruence|]. cbn [countb hd] in *.
      assert (N' := countb_nonneg (fun t => t <=? d) ts). destruct (Z.leb_spec t d); lia.
    + assert (B : forall p l, countb p l <= Z.of_nat (length l)).
      { clear. intros p l. induction l as [|x l IH]; cbn [countb length]; [lia|]. destruct (p x); lia. }
      specialize (B (fun t => t <=? d) ts). lia.
  - destruct (bfill_spec ts 0 d Hs) as [A B].
    + exists (last ts 0). split; [apply last_in; auto|lia].
    + rewrite A. assert (N := countb_nonneg (fun t => t <? d) ts). lia.
Qed.

Lemma get_indexer_mono ff ts d1 d2 : StronglySorted Z.lt ts -> ts <> [] -> d1 <= d2 ->
  (ff = true \/ d2 <= last ts 0) -> get_indexer ff ts d1 <= get_indexer ff ts d2.
Proof.
  intros Hs Hne Hd Hor. unfold get_indexer. destruct ff.
  - rewrite !ffill_spec by (auto; lia).
    assert (M := countb_mono (fun t => t <=? d1) (fun t => t <=? d2) ts ltac:(intros x Hx; apply Z.leb_le in Hx; apply Z.leb_le; lia)).
    assert (N1 := countb_nonneg (fun t => t <=? d1) ts). assert (N2 := countb_nonneg (fun t => t <=? d2) ts).
    destruct (Z.eqb_spec (countb (fun t => t <=? d1) ts) 0), (Z.eqb_spec (countb (fun t => t <=? d2) ts) 0); lia.
  - destruct Hor as [|Hor]; [discriminate|].
    assert (L := last_in ts 0 Hne).
    destruct (bfill_spec ts 0 d1 Hs) as [A _]; [exists (last ts 0); split; auto; lia|].
    destruct (bfill_spec ts 0 d2 Hs) as [B _]; [exists (last ts 0); split; auto; lia|].
    rewrite A, B.
    assert (M := countb_mono (fun t => t <? d1) (fun t => t <? d2) ts ltac:(intros x Hx; apply Z.ltb_lt in Hx; apply Z.ltb_lt; lia)). lia.
Qed.

Lemma arange_In a b x : In x (arange a b) <-> a <= x < b.
Proof.
  unfold arange. rewrite in_map_iff. split.
  - intros (k & <- & Hk). apply in_seq in Hk. lia.
  - intros H. exists (Z.to_nat (x - a)). split; [lia|]. apply in_seq. lia.
Qed.

Definition outputs {A} (o : outcome A) : list A :=
  match o with Raise => [] | Fin l => l | Running l => l end.
Lemma outputs_emit {A} (x : A) o : outputs (emit x o) = x :: outputs o \/ o = Raise.
Proof. destruct o; simpl; auto. Qed.

Lemma sorted_nth (l : list Z) i j : StronglySorted Z.lt l -> (i <= j < length l)%nat -> nth i l 0 <= nth j l 0.
Proof.
  intros H; revert i j; induction H as [|x l Hl IH Hx]; intros i j Hij; simpl in *; [lia|].
  rewrite Forall_forall in Hx. destruct i, j; try lia.
  - specialize (Hx (nth j l 0)). assert (Hj : In (nth j l 0) l) by (apply nth_In; lia). specialize (Hx Hj). lia.
  - apply IH. lia.
Qed.

Section PeriodProofs.
  Variable dr : Z -> Z -> list Z.
  Variable ts : list Z.
  Variable prev : bool.
  Variables pu te : nat.
  Variables ex red : bool.
  Hypothesis Hts : StronglySorted Z.lt ts.
  Hypothesis Hne : ts <> [].
  Hypothesis Hdr : forall s e, StronglySorted Z.lt (dr s e) /\ (forall d, In d (dr s e) -> s <= d <= e).
  Variable fo : option Z.
  Hypothesis Hin : forall d, In d (grid dr ts fo) -> if prev then hd 0 ts <= d else d <= last ts 0.

  Notation IDX := (idx dr ts fo prev).
  Notation at_ := (idx_at dr ts fo prev).
  Notation n := (Z.of_nat (length ts)).

  Lemma idx_len : length IDX = length (grid dr ts fo).
  Proof. apply map_length. Qed.

  Lemma idx_at_eq i : (i < length IDX)%nat -> at_ i = get_indexer prev ts (nth i (grid dr ts fo) 0).
  Proof.
    intros H. unfold idx_at, idx in *. rewrite map_length in H.
    rewrite nth_indep with (d' := get_indexer prev ts 0) by (rewrite map_length; auto). apply map_nth.
  Qed.

  Lemma grid_in i : (i < length (grid dr ts fo))%nat -> if prev then hd 0 ts <= nth i (grid dr ts fo) 0 else nth i (grid dr ts fo) 0 <= last ts 0.
  Proof. intros H. apply Hin. apply nth_In. exact H. Qed.
  Lemma grid_sorted : StronglySorted Z.lt (grid dr ts fo).
  Proof.
    unfold grid. destruct fo as [o|]; [|apply Hdr].
    assert (S := proj1 (Hdr (Z.min (hd 0 ts) (hd 0 ts - o)) (last ts 0))). clear -S.
    induction S as [|x l Hl IH Hx]; cbn [map]; constructor; auto.
    rewrite Forall_forall in *. intros y Hy. apply in_map_iff in Hy. destruct Hy as (z & <- & Hz). specialize (Hx z Hz). lia.
  Qed.

  Lemma idx_range i : (i < length IDX)%nat -> 0 <= at_ i < n.
  Proof. intros H. rewrite idx_at_eq by auto. apply get_indexer_range; auto. apply grid_in. rewrite <- idx_len; auto. Qed.

  Lemma idx_mono i j : (i <= j < length IDX)%nat -> at_ i <= at_ j.
  Proof.
    intros H. rewrite !idx_at_eq by lia. apply get_indexer_mono; auto.
    - apply sorted_nth; [apply grid_sorted|]. rewrite idx_len in H. exact H.
    - assert (G := grid_in j). rewrite idx_len in H. specialize (G ltac:(lia)). destruct prev; [left; auto|right; exact G].
  Qed.

  (** what is known of the output of a loop started at position [i] *)
  Definition split_ok (gap : Z) (s : list Z * list Z) : Prop :=
    (forall a, In a (fst s) -> 0 <= a) /\ (forall b, In b (snd s) -> b < n) /\
    (forall a b, In a (fst s) -> In b (snd s) -> a + gap < b).
  Definition before_ (s1 s2 : list Z * list Z) : Prop :=
    forall b1 b2, In b1 (snd s1) -> In b2 (snd s2) -> b1 < b2.

  Lemma loop_ok tr fuel i :
    let o := outputs (period_loop dr ts fo prev pu te ex red tr fuel i) in
    Forall (split_ok (Z.of_nat pu)) o /\ ForallOrdPairs before_ o /\
    ((0 < te)%nat -> Forall (fun s => forall b, In b (snd s) -> at_ (i + tr) <= b) o /\ o <> [] -> (i + tr < length IDX)%nat) /\
    Forall (fun s => forall b, In b (snd s) -> (i + tr < length IDX)%nat /\ at_ (i + tr) <= b) o.
  Proof.
    revert i; induction fuel as [|fuel IH]; intros i o.
    - subst o. simpl. repeat split; try constructor. intros _ [_ H]; congruence.
    - subst o. cbn [period_loop].
      destruct (Nat.leb_spec (length IDX) (i + tr)) as [H|H].
      { simpl. repeat split; try constructor. intros _ [_ H']; congruence. }
      specialize (IH (i + te)%nat). cbv zeta in IH.
      set (rest := period_loop dr ts fo prev pu te ex red tr fuel (i + te)) in *.
      destruct IH as (I1 & I2 & _ & I4).
      assert (RNG := idx_range (i + tr) H).
      assert (RI : 0 <= at_ i) by (apply idx_range; lia).
      assert (TR : forall a, In a (arange (if ex then 0 else at_ i) (at_ (i + tr) - zpurged pu)) -> 0 <= a /\ a + Z.of_nat pu < at_ (i + tr)).
      { intros a Ha. apply arange_In in Ha. unfold zpurged in Ha. destruct ex; lia. }
      assert (I4' : Forall (fun s => forall b, In b (snd s) -> at_ (i + tr) <= b) (outputs rest)).
      { eapply Forall_impl; [|exact I4]. intros s Hs b Hb. destruct (Hs b Hb) as [A B].
        assert (at_ (i + tr) <= at_ (i + te + tr)) by (apply idx_mono; lia). lia. }
      assert (NR : forall f j, period_loop dr ts fo prev pu te ex red tr f j <> Raise).
      { clear. induction f as [|f IHf]; intros j; cbn [period_loop]; [discriminate|].
        destruct (_ <=? _)%nat; [discriminate|]. destruct (_ <=? _)%nat; [destruct (negb red); [discriminate|]|];
        specialize (IHf (j + te)%nat); destruct (period_loop _ _ _ _ _ _ _ _ _ f _); simpl; congruence. }
      assert (EM : forall x, outputs (emit x rest) = x :: outputs rest).
      { intros x. destruct (outputs_emit x rest); auto. exfalso. eapply NR; eauto. }
      destruct (Nat.leb_spec (length IDX) (i + tr + te)) as [H2|H2].
      + destruct (negb red); [simpl; repeat split; try constructor; intros _ [_ H']; congruence|].
        rewrite EM. assert (EMP : Forall (fun s => forall b, In b (snd s) -> False) (outputs rest)).
        { eapply Forall_impl; [|exact I4]. intros s Hs b Hb. destruct (Hs b Hb). lia. }
        split; [|split; [|split]].
        * constructor; auto. split; [|split]; cbn [fst snd].
          -- intros a Ha. apply TR in Ha. lia.
          -- intros b Hb. apply arange_In in Hb. unfold n_samples_z in Hb. lia.
          -- intros a b Ha Hb. apply TR in Ha. apply arange_In in Hb. lia.
        * constructor; auto. eapply Forall_impl; [|exact EMP]. intros s Hs b1 b2 _ Hb2. destruct (Hs b2 Hb2).
        * auto.
        * constructor; [|eapply Forall_impl; [|exact EMP]; intros s Hs b Hb; destruct (Hs b Hb)].
          cbn [snd]. intros b Hb. apply arange_In in Hb. lia.
      + rewrite EM. assert (NX := idx_range (i + tr + te) H2).
        assert (MO : at_ (i + tr) <= at_ (i + tr + te)) by (apply idx_mono; lia).
        split; [|split; [|split]].
        * constructor; auto. split; [|split]; cbn [fst snd].
          -- intros a Ha. apply TR in Ha. lia.
          -- intros b Hb. apply arange_In in Hb. lia.
          -- intros a b Ha Hb. apply TR in Ha. apply arange_In in Hb. lia.
        * constructor; auto. eapply Forall_impl; [|exact I4]. intros s Hs b1 b2 Hb1 Hb2. cbn [snd] in Hb1.
          destruct (Hs b2 Hb2) as [A B]. apply arange_In in Hb1.
          replace (i + te + tr)%nat with (i + tr + te)%nat in B by lia. lia.
        * auto.
        * constructor; [cbn [snd]; intros b Hb; apply arange_In in Hb; lia|].
          rewrite Forall_forall in I4', I4 |- *. intros s Hs b Hb. split; [auto|apply (I4' s Hs b Hb)].
  Qed.

  (** termination *)
  Lemma loop_fin tr fuel i : (0 < te)%nat -> (length IDX - (i + tr) < fuel)%nat ->
    exists l, period_loop dr ts fo prev pu te ex red tr fuel i = Fin l.
  Proof.
    intros Hte. revert i; induction fuel as [|fuel IH]; intros i Hf; [lia|]. cbn [period_loop].
    destruct (Nat.leb_spec (length IDX) (i + tr)) as [H|H]; [eauto|].
    destruct (IH (i + te)%nat) as [l Hl]; [lia|]. rewrite Hl.
    destruct (_ <=? _)%nat; [destruct (negb red)|]; simpl; eauto.
  Qed.

  (** exact windows *)
  Definition window (tr i : nat) : list Z * list Z :=
    (arange (if ex then 0 else at_ i) (at_ (i + tr) - Z.of_nat pu),
     arange (at_ (i + tr)) (if (i + tr + te <? length IDX)%nat then at_ (i + tr + te) else n)).

  Lemma loop_windows tr fuel i l : (0 < te)%nat ->
    period_loop dr ts fo prev pu te ex red tr fuel i = Fin l ->
    forall k, nth_error l k =
      if (if red then (i + k * te + tr <? length IDX)%nat else (i + k * te + tr + te <? length IDX)%nat)
      then Some (window tr (i + k * te)) else None.
  Proof.
    intros Hte. revert i l; induction fuel as [|fuel IH]; intros i l H k; [discriminate|].
    cbn [period_loop] in H.
    destruct (Nat.leb_spec (length IDX) (i + tr)) as [H1|H1].
    { injection H as <-. replace (nth_error [] k) with (@None (list Z * list Z)) by (destruct k; auto).
      destruct (Nat.ltb_spec (i + k * te + tr) (length IDX)), (Nat.ltb_spec (i + k * te + tr + te) (length IDX)); destruct red; auto; lia. }
    destruct (period_loop dr ts fo prev pu te ex red tr fuel (i + te)) as [|l'|l'] eqn:R.
    { destruct (_ <=? _)%nat in H; [destruct (negb red)|]; try discriminate.
      injection H as <-. exfalso. clear -R. revert R. generalize (i + te)%nat. induction fuel as [|f IHf]; intros j R; cbn [period_loop] in R; [discriminate|].
      destruct (_ <=? _)%nat in R; [discriminate|].
      destruct (period_loop dr ts fo prev pu te ex red tr f (j + te)) eqn:R2; [eapply IHf; eauto| |];
      (destruct (_ <=? _)%nat in R; [destruct (negb red)|]); discriminate. }
    2:{ destruct (Nat.leb_spec (length IDX) (i + tr + te)) in H; [destruct red; cbn [negb] in H|]; try discriminate.
        injection H as <-. replace (nth_error [] k) with (@None (list Z * list Z)) by (destruct k; auto).
        destruct (Nat.ltb_spec (i + k * te + tr + te) (length IDX)); auto; lia. }
    specialize (IH _ _ R).
    destruct (Nat.leb_spec (length IDX) (i + tr + te)) as [H2|H2].
    - destruct red eqn:ER; cbn [negb] in H.
      + injection H as <-. destruct k as [|k]; cbn [nth_error].
        * rewrite Nat.mul_0_l, Nat.add_0_r. destruct (Nat.ltb_spec (i + tr) (length IDX)); [|lia].
          unfold window. destruct (Nat.ltb_spec (i + tr + te) (length IDX)); [lia|reflexivity].
        * rewrite IH. cbn [Nat.mul]. rewrite Nat.add_assoc. reflexivity.
      + injection H as <-. replace (nth_error [] k) with (@None (list Z * list Z)) by (destruct k; auto).
        destruct (Nat.ltb_spec (i + k * te + tr + te) (length IDX)); auto; lia.
    - injection H as <-. destruct k as [|k]; cbn [nth_error].
      + rewrite Nat.mul_0_l, Nat.add_0_r. unfold window.
        destruct (Nat.ltb_spec (i + tr + te) (length IDX)); [|lia]. destruct (Nat.ltb_spec (i + tr) (length IDX)); [|lia]. destruct red; reflexivity.
      + rewrite IH. cbn [Nat.mul]. rewrite Nat.add_assoc. reflexivity.
  Qed.

  (** ** with a train offset *)
  Variable toff : Z.
  Notation TIDX := (train_idx dr ts fo toff).
  Notation tat := (train_at dr ts fo toff).

  Lemma tidx_eq i : (i < length IDX)%nat -> tat i = get_indexer true ts (nth i (grid dr ts fo) 0 - toff).
  Proof.
    intros H. rewrite idx_len in H. unfold train_at, train_idx.
    rewrite nth_indep with (d' := (fun d => get_indexer true ts (d - toff)) 0) by (rewrite map_length; auto).
    rewrite (map_nth (fun d => get_indexer true ts (d - toff))). reflexivity.
  Qed.
  Lemma tidx_mono i j : (i <= j < length IDX)%nat -> tat i <= tat j.
  Proof.
    intros H. rewrite !tidx_eq by lia. apply get_indexer_mono; auto.
    assert (nth i (grid dr ts fo) 0 <= nth j (grid dr ts fo) 0); [|lia].
    apply sorted_nth; [apply grid_sorted|]. rewrite idx_len in H. exact H.
  Qed.
  Lemma argmax_pos_spec l : forallb (fun x => x =? -1) l = false -> (forall x, In x l -> -1 <= x) ->
    (argmax_pos l < length l)%nat /\ 0 <= nth (argmax_pos l) l 0.
  Proof.
    induction l as [|x l IH]; simpl; intros H Hb; [discriminate|].
    destruct (Z.ltb_spec (-1) x); [split; [lia|simpl; lia]|].
    assert (x = -1) by (specialize (Hb x (or_introl eq_refl)); lia). subst x. simpl in *.
    destruct IH; auto. split; [lia|auto].
  Qed.
  Lemma ffill_ge ts' pos d : 0 <= pos -> -1 <= ffill_from pos ts' d.
  Proof.
    revert pos; induction ts' as [|t ts' IH]; intros pos Hp; simpl; [lia|].
    destruct (t <=? d); [lia|lia].
  Qed.
  Lemma train_start_nonneg i : forallb (fun x => x =? -1) TIDX = false ->
    (argmax_pos TIDX <= i < length IDX)%nat -> 0 <= tat i.
  Proof.
    intros H Hi. destruct (argmax_pos_spec TIDX H) as [A B].
    { intros x Hx. unfold train_idx in Hx. apply in_map_iff in Hx. destruct Hx as (d & <- & _).
      unfold get_indexer. apply ffill_ge. lia. }
    assert (tat (argmax_pos TIDX) <= tat i) by (apply tidx_mono; lia). unfold train_at in *. lia.
  Qed.

  Lemma offset_loop_ok fuel i : forallb (fun x => x =? -1) TIDX = false -> (argmax_pos TIDX <= i)%nat ->
    let o := outputs (offset_loop dr ts fo prev pu te ex red toff fuel i) in
    Forall (split_ok 0) o /\ ForallOrdPairs before_ o /\
    Forall (fun s => forall b, In b (snd s) -> (i < length IDX)%nat /\ at_ i <= b) o.
  Proof.
    intros HT. revert i; induction fuel as [|fuel IH]; intros i Hi o.
    - subst o. simpl. repeat split; constructor.
    - subst o. cbn [offset_loop].
      destruct (Nat.leb_spec (length IDX) i) as [H|H]; [simpl; repeat split; constructor|].
      specialize (IH (i + te)%nat ltac:(lia)). cbv zeta in IH.
      set (rest := offset_loop dr ts fo prev pu te ex red toff fuel (i + te)) in *.
      destruct IH as (I1 & I2 & I4).
      assert (RNG := idx_range i H).
      assert (TS := train_start_nonneg i HT ltac:(lia)).
      assert (TR : forall a, In a (arange (if ex then 0 else tat i) (at_ i)) -> 0 <= a /\ a < at_ i).
      { intros a Ha. apply arange_In in Ha. destruct ex; lia. }
      assert (NR : forall f j, offset_loop dr ts fo prev pu te ex red toff f j <> Raise).
      { clear. induction f as [|f IHf]; intros j; cbn [offset_loop]; [discriminate|].
        destruct (_ <=? _)%nat; [discriminate|]. destruct (_ <=? _)%nat; [destruct (negb red); [discriminate|]|];
        specialize (IHf (j + te)%nat); destruct (offset_loop _ _ _ _ _ _ _ _ _ f _); simpl; congruence. }
      assert (EM : forall x, outputs (emit x rest) = x :: outputs rest).
      { intros x. destruct (outputs_emit x rest); auto. exfalso. eapply NR; eauto. }
      destruct (Nat.leb_spec (length IDX) (i + te)) as [H2|H2].
      + destruct (negb red); [simpl; repeat split; constructor|].
        rewrite EM. assert (EMP : Forall (fun s => forall b, In b (snd s) -> False) (outputs rest)).
        { eapply Forall_impl; [|exact I4]. intros s Hs b Hb. destruct (Hs b Hb). lia. }
        split; [|split].
        * constructor; auto. split; [|split]; cbn [fst snd].
          -- intros a Ha. apply TR in Ha. lia.
          -- intros b Hb. apply arange_In in Hb. unfold n_samples_z in Hb. lia.
          -- intros a b Ha Hb. apply TR in Ha. apply arange_In in Hb. lia.
        * constructor; auto. eapply Forall_impl; [|exact EMP]. intros s Hs b1 b2 _ Hb2. destruct (Hs b2 Hb2).
        * constructor; [|eapply Forall_impl; [|exact EMP]; intros s Hs b Hb; destruct (Hs b Hb)].
          cbn [snd]. intros b Hb. apply arange_In in Hb. lia.
      + rewrite EM. assert (NX := idx_range (i + te) H2).
        assert (MO : at_ i <= at_ (i + te)) by (apply idx_mono; lia).
        assert (PU : 0 <= zpurged pu) by (unfold zpurged; lia).
        split; [|split].
        * constructor; auto. split; [|split]; cbn [fst snd].
          -- intros a Ha. apply TR in Ha. lia.
          -- intros b Hb. apply arange_In in Hb. lia.
          -- intros a b Ha Hb. apply TR in Ha. apply arange_In in Hb. lia.
        * constructor; auto. eapply Forall_impl; [|exact I4]. intros s Hs b1 b2 Hb1 Hb2. cbn [snd] in Hb1.
          destruct (Hs b2 Hb2) as [A B]. apply arange_In in Hb1. lia.
        * constructor; [cbn [snd]; intros b Hb; apply arange_In in Hb; lia|].
          rewrite Forall_forall in I4 |- *. intros s Hs b Hb. split; [auto|]. destruct (I4 s Hs b Hb). lia.
  Qed.

  Lemma offset_fin fuel i : (0 < te)%nat -> (length IDX - i < fuel)%nat ->
    exists l, offset_loop dr ts fo prev pu te ex red toff fuel i = Fin l.
  Proof.
    intros Hte. revert i; induction fuel as [|fuel IH]; intros i Hf; [lia|]. cbn [offset_loop].
    destruct (Nat.leb_spec (length IDX) i) as [H|H]; [eauto|].
    destruct (IH (i + te)%nat) as [l Hl]; [lia|]. rewrite Hl.
    destruct (_ <=? _)%nat; [destruct (negb red)|]; simpl; eauto.
  Qed.
  Definition offset_window (i : nat) : list Z * list Z :=
    (arange (if ex then 0 else tat i) (at_ i),
     arange (at_ i) (if (i + te <? length IDX)%nat then at_ (i + te) - Z.of_nat pu else n)).
  Lemma offset_windows fuel i l : (0 < te)%nat ->
    offset_loop dr ts fo prev pu te ex red toff fuel i = Fin l ->
    forall k, nth_error l k =
      if (if red then (i + k * te <? length IDX)%nat else (i + k * te + te <? length IDX)%nat)
      then Some (offset_window (i + k * te)) else None.
  Proof.
    intros Hte. revert i l; induction fuel as [|fuel IH]; intros i l H k; [discriminate|].
    cbn [offset_loop] in H.
    destruct (Nat.leb_spec (length IDX) i) as [H1|H1].
    { injection H as <-. replace (nth_error [] k) with (@None (list Z * list Z)) by (destruct k; auto).
      destruct (Nat.ltb_spec (i + k * te) (length IDX)), (Nat.ltb_spec (i + k * te + te) (length IDX)); destruct red; auto; lia. }
    destruct (offset_loop dr ts fo prev pu te ex red toff fuel (i + te)) as [|l'|l'] eqn:R.
    { exfalso. clear -R. revert R. generalize (i + te)%nat. induction fuel as [|f IHf]; intros j R; cbn [offset_loop] in R; [discriminate|].
      destruct (_ <=? _)%nat in R; [discriminate|].
      destruct (offset_loop dr ts fo prev pu te ex red toff f (j + te)) eqn:R2; [eapply IHf; eauto| |];
      (destruct (_ <=? _)%nat in R; [destruct (negb red)|]); discriminate. }
    2:{ destruct (Nat.leb_spec (length IDX) (i + te)) in H; [destruct red; cbn [negb] in H|]; try discriminate.
        injection H as <-. replace (nth_error [] k) with (@None (list Z * list Z)) by (destruct k; auto).
        destruct (Nat.ltb_spec (i + k * te + te) (length IDX)); auto; lia. }
    specialize (IH _ _ R).
    destruct (Nat.leb_spec (length IDX) (i + te)) as [H2|H2].
    - destruct red eqn:ER; cbn [negb] in H.
      + injection H as <-. destruct k as [|k]; cbn [nth_error].
        * rewrite Nat.mul_0_l, Nat.add_0_r. destruct (Nat.ltb_spec i (length IDX)); [|lia].
          unfold offset_window. destruct (Nat.ltb_spec (i + te) (length IDX)); [lia|reflexivity].
        * rewrite IH. cbn [Nat.mul]. rewrite Nat.add_assoc. reflexivity.
      + injection H as <-. replace (nth_error [] k) with (@None (list Z * list Z)) by (destruct k; auto).
        destruct (Nat.ltb_spec (i + k * te + te) (length IDX)); auto; lia.
    - injection H as <-. destruct k as [|k]; cbn [nth_error].
      + rewrite Nat.mul_0_l, Nat.add_0_r. unfold offset_window.
        destruct (Nat.ltb_spec (i + te) (length IDX)); [|lia]. destruct (Nat.ltb_spec i (length IDX)); [|lia]. destruct red; reflexivity.
      + rewrite IH. cbn [Nat.mul]. rewrite Nat.add_assoc. reflexivity.
  Qed.
End PeriodProofs.
