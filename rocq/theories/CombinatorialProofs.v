(** Lemmas about CombinatorialModel. *)
From Coq Require Import List Arith ZArith Bool Lia Permutation Sorted.
Import ListNotations.
From Verif Require Import CombinatorialModel.

Lemma memn_In x l : memn x l = true <-> In x l.
Proof.
  unfold memn; rewrite existsb_exists. split.
  - intros (y & H & E); apply Nat.eqb_eq in E; subst; auto.
  - intros H; exists x; split; auto; apply Nat.eqb_refl.
Qed.
Lemma memn_nIn x l : memn x l = false <-> ~ In x l.
Proof. rewrite <- memn_In. destruct (memn x l); split; congruence. Qed.

(** * combinations *)
Lemma combinations_length l k : length (combinations l k) = comb (length l) k.
Proof.
  revert k; induction l as [|x l IH]; intros [|k]; simpl; auto.
  rewrite app_length, map_length, !IH. reflexivity.
Qed.

Lemma combinations_sorted l k c :
  StronglySorted lt l ->
  (In c (combinations l k) <-> length c = k /\ StronglySorted lt c /\ incl c l).
Proof.
  intros Hl. revert k c; induction Hl as [|x l Hl IH Hx]; intros k c.
  - destruct k; simpl.
    + split.
      * intros [<-|[]]. repeat split; auto using SSorted_nil. intros y [].
      * intros (H & _ & _). destruct c; [left; auto|discriminate].
    + split; [tauto|]. intros (H & _ & Hi). destruct c as [|y c]; [discriminate|].
      exact (Hi y (or_introl eq_refl)).
  - destruct k; simpl.
    + split.
      * intros [<-|[]]. repeat split; auto using SSorted_nil. intros y [].
      * intros (H & _ & _). destruct c; [left; auto|discriminate].
    + rewrite in_app_iff, in_map_iff. split.
      * intros [(c' & <- & Hc)|Hc].
        -- apply IH in Hc. destruct Hc as (H1 & H2 & H3). split; [simpl; auto|]. split.
           ++ constructor; auto. apply Forall_forall. intros y Hy. rewrite Forall_forall in Hx. apply Hx, H3, Hy.
           ++ intros y [<-|Hy]; [left; auto|right; apply H3; auto].
        -- apply IH in Hc. destruct Hc as (H1 & H2 & H3). repeat split; auto. intros y Hy; right; apply H3; auto.
      * intros (H1 & H2 & H3). destruct c as [|y c]; [discriminate|].
        inversion H2 as [|? ? Hc Hy]; subst. rewrite Forall_forall in Hy, Hx.
        assert (Hci : forall z, In z c -> In z l).
        { intros z Hz. destruct (H3 z (or_intror Hz)) as [<-|h]; auto.
          specialize (Hy _ Hz). destruct (H3 y (or_introl eq_refl)) as [<-|h]; [lia|]. specialize (Hx _ h). lia. }
        destruct (H3 y (or_introl eq_refl)) as [<-|Hyl].
        -- left. exists c. split; auto. apply IH. simpl in H1. repeat split; auto.
        -- right. apply IH. repeat split; auto. intros z [<-|Hz]; auto.
Qed.

Lemma combinations_NoDup l k : NoDup l -> NoDup (combinations l k).
Proof.
  intros H; revert k; induction H as [|x l Hx Hl IH]; intros [|k]; simpl; try (constructor; [simpl; tauto|constructor]); [constructor|].
  assert (Hin : forall c, In c (combinations l (S k)) -> ~ In x c).
  { assert (G : forall l' k' c, In c (combinations l' k') -> incl c l').
    { induction l' as [|y l' IH']; intros [|k'] c; simpl.
      - intros [<-|[]]; intros z [].
      - tauto.
      - intros [<-|[]]; intros z [].
      - rewrite in_app_iff, in_map_iff. intros [(c' & <- & Hc)|Hc].
        + intros z [<-|Hz]; [left; auto|right; eapply IH'; eauto].
        + intros z Hz; right; eapply IH'; eauto. }
    intros c Hc Hxc. apply Hx. eapply G; eauto. }
  assert (N1 : NoDup (map (cons x) (combinations l k))).
  { apply FinFun.Injective_map_NoDup; auto. intros a b Hab; congruence. }
  revert N1. assert (D : forall c, In c (map (cons x) (combinations l k)) -> ~ In c (combinations l (S k))).
  { intros c Hc Hc'. apply in_map_iff in Hc. destruct Hc as (c' & <- & _). apply (Hin _ Hc'). left; auto. }
  induction (map (cons x) (combinations l k)) as [|a m IHm]; simpl; intros N1; auto.
  inversion N1; subst. constructor.
  - rewrite in_app_iff. intros [h|h]; [tauto|apply (D a); [left; auto|auto]].
  - apply IHm; auto. intros c Hc; apply D; right; auto.
Qed.

Lemma filter_map_len {A B} (f : A -> B) p l : length (filter p (map f l)) = length (filter (fun x => p (f x)) l).
Proof. induction l; simpl; auto. destruct (p (f a)); simpl; auto. Qed.

Lemma filter_ext_len {A} (p q : A -> bool) l : (forall x, In x l -> p x = q x) -> length (filter p l) = length (filter q l).
Proof.
  induction l as [|x l IH]; simpl; intros H; auto. rewrite H by auto. destruct (q x); simpl; auto.
Qed.

Lemma filter_all {A} (p : A -> bool) l : (forall x, In x l -> p x = true) -> filter p l = l.
Proof. induction l as [|x l IH]; simpl; intros H; auto. rewrite H by auto. f_equal; auto. Qed.
Lemma filter_none {A} (p : A -> bool) l : (forall x, In x l -> p x = false) -> filter p l = [].
Proof. induction l as [|x l IH]; simpl; intros H; auto. rewrite H by auto. auto. Qed.

Lemma comb_incl l k c : In c (combinations l k) -> incl c l.
Proof.
  revert k c; induction l as [|y l IH]; intros [|k] c; simpl.
  - intros [<-|[]]; intros z [].
  - tauto.
  - intros [<-|[]]; intros z [].
  - rewrite in_app_iff, in_map_iff. intros [(c' & <- & Hc)|Hc].
    + intros z [<-|Hz]; [left; auto|right; eapply IH; eauto].
    + intros z Hz; right; eapply IH; eauto.
Qed.

Lemma count_containing l k f : NoDup l -> In f l ->
  length (filter (fun c => memn f c) (combinations l (S k))) = comb (length l - 1) k.
Proof.
  intros H; revert k; induction H as [|x l Hx Hl IH]; intros k Hf; [contradiction|].
  cbn [combinations]. rewrite filter_app, app_length, filter_map_len.
  destruct (Nat.eq_dec f x) as [->|Hfx].
  - rewrite filter_all.
    2:{ intros c _. apply memn_In. left; auto. }
    rewrite filter_none.
    2:{ intros c Hc. apply memn_nIn. intros h. apply Hx. eapply comb_incl; eauto. }
    rewrite combinations_length. simpl. rewrite Nat.sub_0_r. lia.
  - assert (Hfl : In f l) by (destruct Hf; [congruence|auto]).
    rewrite (filter_ext_len _ (fun c => memn f c)).
    2:{ intros c _. unfold memn. simpl. destruct (Nat.eqb_spec f x); [congruence|auto]. }
    rewrite IH by auto. simpl length. rewrite Nat.sub_succ, Nat.sub_0_r.
    destruct l as [|y l']; [contradiction|]. simpl length in *. rewrite Nat.sub_succ, Nat.sub_0_r in *.
    destruct k as [|k].
    + rewrite filter_none by (intros c Hc; cbn in Hc; destruct Hc as [<-|[]]; reflexivity). simpl. destruct (length l'); reflexivity.
    + rewrite IH by auto. rewrite ?Nat.sub_succ, ?Nat.sub_0_r. simpl. reflexivity.
Qed.

Lemma comb_absorb n k : S n * comb n k = S k * comb (S n) (S k).
Proof.
  revert k; induction n as [|n IH]; intros k.
  - destruct k as [|k]; simpl; [reflexivity|]. destruct k; simpl; lia.
  - destruct k as [|k].
    + specialize (IH 0). cbn [comb] in *. destruct n; cbn [comb] in *; nia.
    + assert (A := IH k). assert (B := IH (S k)).
      change (comb (S n) (S k)) with (comb n k + comb n (S k)) in *.
      change (comb (S (S n)) (S (S k))) with (comb (S n) (S k) + comb (S n) (S (S k))).
      change (comb (S n) (S k)) with (comb n k + comb n (S k)) in *.
      nia.
Qed.

Lemma n_test_paths_comb n k : 0 < n -> 0 < k -> n_test_paths n k = comb (n - 1) (k - 1).
Proof.
  intros Hn Hk. destruct n as [|n]; [lia|]. destruct k as [|k]; [lia|].
  unfold n_test_paths, n_splits. rewrite Nat.mul_comm, <- comb_absorb.
  rewrite Nat.mul_comm, Nat.div_mul by lia. simpl. rewrite !Nat.sub_0_r. reflexivity.
Qed.

(** * chunks *)
Lemma chunks_flat_map (g : nat -> list nat) c K s :
  (forall f, s <= f < s + K -> length (g f) = c) ->
  chunks K c (flat_map g (seq s K)) = map g (seq s K).
Proof.
  revert s; induction K as [|K IH]; intros s H; simpl; auto.
  assert (E : length (g s) = c) by (apply H; lia).
  rewrite firstn_app, E, Nat.sub_diag, firstn_O, app_nil_r, firstn_all2 by lia. f_equal.
  rewrite skipn_app, E, Nat.sub_diag, skipn_all2 by lia. simpl.
  apply IH. intros; apply H; lia.
Qed.

Lemma flat_map_length_const (g : nat -> list nat) c K s :
  (forall f, s <= f < s + K -> length (g f) = c) -> length (flat_map g (seq s K)) = K * c.
Proof.
  revert s; induction K as [|K IH]; intros s H; simpl; auto.
  rewrite app_length, IH by (intros; apply H; lia). rewrite H by lia. lia.
Qed.

Lemma filter_nth_seq {A} (p : A -> bool) (L : list A) d s M :
  length (filter (fun i => p (nth (i - s) L d)) (seq s (length L))) = length (filter p L) + 0 * M.
Proof.
  rewrite Nat.mul_0_l, Nat.add_0_r. revert s; induction L as [|x L IH]; intros s; simpl; auto.
  rewrite Nat.sub_diag. assert (E : length (filter (fun i => p (nth (i - s) (x :: L) d)) (seq (S s) (length L))) = length (filter p L)).
  { rewrite <- (IH (S s)). apply filter_ext_len. intros i Hi. apply in_seq in Hi. replace (i - s) with (S (i - S s)) by lia. reflexivity. }
  cbn [nth] in E. destruct (p x); simpl; rewrite E; auto.
Qed.

  Lemma seq_SSorted s n : StronglySorted lt (seq s n).
  Proof.
    revert s; induction n; intros s; simpl; constructor; auto. apply Forall_forall. intros x Hx. apply in_seq in Hx; lia.
  Qed.

  (** position of a value in a list *)
  Fixpoint pos (i : nat) (l : list nat) : nat :=
    match l with [] => 0 | x :: l' => if Nat.eqb x i then 0 else S (pos i l') end.

  Lemma filter_pos l i s d : NoDup l -> In i l -> d <> i ->
    filter (fun p => Nat.eqb (nth (p - s) l d) i) (seq s (length l)) = [s + pos i l].
  Proof.
    intros H; revert s; induction H as [|x l Hx Hl IH]; intros s Hi Hd; [contradiction|].
    cbn [length seq filter pos]. rewrite Nat.sub_diag. change (nth 0 (x :: l) d) with x.
    assert (E : filter (fun p => nth (p - s) (x :: l) d =? i) (seq (S s) (length l))
              = filter (fun p => nth (p - S s) l d =? i) (seq (S s) (length l))).
    { apply filter_ext_in. intros p Hp. apply in_seq in Hp. replace (p - s) with (S (p - S s)) by lia. reflexivity. }
    rewrite E. destruct (Nat.eqb_spec x i) as [->|Hxi].
    - rewrite Nat.add_0_r. f_equal. apply filter_none. intros p Hp. apply in_seq in Hp.
      apply Nat.eqb_neq. intros h. apply Hx. rewrite <- h. apply nth_In. lia.
    - destruct Hi as [|Hi]; [congruence|]. rewrite IH by auto. f_equal. lia.
  Qed.

  Lemma pos_nth l i d : In i l -> nth (pos i l) l d = i /\ pos i l < length l.
  Proof.
    induction l as [|x l IH]; simpl; [tauto|]. intros [->|H].
    - rewrite Nat.eqb_refl. split; auto; lia.
    - destruct (Nat.eqb_spec x i); [split; auto; lia|]. destruct (IH H). split; auto; lia.
  Qed.

Section Rows.
  Variables K k : nat.
  Hypothesis Hk : 0 < k.
  Hypothesis HkK : k <= K.
  Notation tsi := (test_set_index K k).
  Notation N := (n_splits K k).

  Lemma tsi_length : length tsi = N.
  Proof. clear Hk HkK. unfold test_set_index. rewrite combinations_length, seq_length. reflexivity. Qed.

  Lemma tsi_spec c : In c tsi <-> length c = k /\ StronglySorted lt c /\ (forall f, In f c -> f < K).
  Proof. clear Hk HkK.
    unfold test_set_index. rewrite combinations_sorted by apply seq_SSorted.
    split; intros (H1 & H2 & H3); repeat split; auto; intros f Hf.
    - apply H3, in_seq in Hf. lia.
    - apply in_seq. specialize (H3 f Hf). lia.
  Qed.

  Lemma tsi_NoDup : NoDup tsi.
  Proof. clear Hk HkK. apply combinations_NoDup, seq_NoDup. Qed.

  Definition row (f : nat) : list nat := filter (fun i => memn f (nth i tsi [])) (seq 0 N).

  Lemma row_length f : f < K -> length (row f) = comb (K - 1) (k - 1).
  Proof.
    intros Hf. unfold row. rewrite <- tsi_length.
    assert (E := filter_nth_seq (fun c => memn f c) tsi [] 0 0). simpl in E. rewrite Nat.add_0_r in E.
    rewrite (filter_ext_len _ (fun i => memn f (nth (i - 0) tsi []))) by (intros; rewrite Nat.sub_0_r; auto).
    rewrite E. unfold test_set_index. destruct k as [|k']; [lia|].
    rewrite count_containing; [|apply seq_NoDup|apply in_seq; lia].
    rewrite seq_length. simpl. rewrite Nat.sub_0_r. reflexivity.
  Qed.

  Lemma recombined_rows : recombined_paths K k = map row (seq 0 K).
  Proof.
    unfold recombined_paths. change (flat_ones K k) with (flat_map row (seq 0 K)).
    assert (HK : 0 < K) by lia.
    rewrite (flat_map_length_const row (comb (K - 1) (k - 1))) by (intros f Hf; apply row_length; lia).
    rewrite Nat.mul_comm, Nat.div_mul by lia.
    apply chunks_flat_map. intros f Hf; apply row_length; lia.
  Qed.

  Lemma row_In f i : In i (row f) <-> i < N /\ In f (nth i tsi []).
  Proof. clear Hk HkK. unfold row. rewrite filter_In, in_seq, memn_In. split; intros [A B]; split; auto; lia. Qed.
  Lemma row_NoDup f : NoDup (row f).
  Proof. apply NoDup_filter, seq_NoDup. Qed.

  Lemma argwhere_spec i : i < N ->
    argwhere_eq K k i = map (fun f => (f, pos i (row f))) (nth i tsi []).
  Proof.
    intros Hi. unfold argwhere_eq. rewrite recombined_rows, map_length, seq_length.
    set (c := nth i tsi []).
    assert (Hc : In c tsi) by (apply nth_In; rewrite tsi_length; auto).
    apply tsi_spec in Hc. destruct Hc as (_ & Hs & Hlt).
    assert (E : forall f, f < K ->
       map (fun p => (f, p)) (filter (fun p => nth p (nth f (map row (seq 0 K)) []) (S i) =? i) (seq 0 (length (nth f (map row (seq 0 K)) []))))
       = if memn f c then [(f, pos i (row f))] else []).
    { intros f Hf.
      assert (En : nth f (map row (seq 0 K)) [] = row f).
      { rewrite nth_indep with (d' := row 0) by (rewrite map_length, seq_length; auto).
        rewrite map_nth. rewrite seq_nth by auto. reflexivity. }
      rewrite En. destruct (memn f c) eqn:Em.
      - apply memn_In in Em. assert (In i (row f)) by (apply row_In; auto).
        assert (F := filter_pos (row f) i 0 (S i) (row_NoDup f) H ltac:(lia)). simpl in F.
        rewrite (filter_ext_in (fun p => nth p (row f) (S i) =? i) (fun p => nth (p - 0) (row f) (S i) =? i)) by (intros; rewrite Nat.sub_0_r; auto).
        rewrite F. reflexivity.
      - apply memn_nIn in Em. rewrite filter_none; auto. intros p Hp. apply in_seq in Hp.
        apply Nat.eqb_neq. intros h. apply Em. assert (In i (row f)) by (rewrite <- h; apply nth_In; lia).
        apply row_In in H. apply H. }
    assert (G : forall M s, s + M = K -> forall c', StronglySorted lt c' -> (forall f, In f c' -> s <= f < K) ->
       flat_map (fun f => if memn f c' then [(f, pos i (row f))] else []) (seq s M) = map (fun f => (f, pos i (row f))) c').
    { induction M as [|M IH]; intros s HsM c' Hs' Hl'.
      - destruct c' as [|y c']; auto. specialize (Hl' y (or_introl eq_refl)). lia.
      - simpl. destruct c' as [|y c'].
        + rewrite <- (IH (S s) ltac:(lia) []); [reflexivity|constructor|intros ? []].
        + inversion Hs' as [|? ? Hs2 Hy]; subst. rewrite Forall_forall in Hy.
          destruct (Nat.eq_dec y s) as [->|Hys].
          * unfold memn at 1. simpl existsb. rewrite Nat.eqb_refl. simpl. f_equal.
            rewrite <- (IH (S s) ltac:(lia) c' Hs2).
            2:{ intros f Hf. specialize (Hy f Hf). specialize (Hl' f (or_intror Hf)). lia. }
            rewrite !flat_map_concat_map. f_equal. apply map_ext_in. intros f Hf. apply in_seq in Hf.
            unfold memn. simpl. destruct (Nat.eqb_spec f s); [lia|]. reflexivity.
          * assert (Hyl := Hl' y (or_introl eq_refl)).
            assert (Em : memn s (y :: c') = false).
            { apply memn_nIn. intros [h|h]; [lia|]. specialize (Hy _ h). lia. }
            rewrite Em. cbn [app]. apply (IH (S s) ltac:(lia) (y :: c') Hs'). intros f Hf. assert (Hf' := Hl' f Hf).
            destruct Hf as [<-|Hf]; [lia|]. specialize (Hy f Hf). lia. }
    rewrite <- (G K 0 eq_refl c Hs) by (intros f Hf; specialize (Hlt f Hf); lia).
    rewrite !flat_map_concat_map. f_equal. apply map_ext_in. intros f Hf. apply in_seq in Hf. apply E. lia.
  Qed.
End Rows.

(** * Purging *)
Lemma set_minus1_spec ps c x : set_minus1 c ps x = if memn x ps then (-1)%Z else c x.
Proof.
  unfold set_minus1. revert c; induction ps as [|p ps IH]; intros c; simpl; auto.
  rewrite IH. unfold memn. simpl. destruct (Nat.eqb_spec x p); simpl; auto.
  destruct (existsb (Nat.eqb x) ps); auto.
Qed.

Lemma marks_spec (g : nat -> list nat) K c x :
  fold_left (fun c k => set_minus1 c (g k)) (seq 0 K) c x
  = if existsb (fun k => memn x (g k)) (seq 0 K) then (-1)%Z else c x.
Proof.
  generalize (seq 0 K). intros l; revert c; induction l as [|k l IH]; intros c; simpl; auto.
  rewrite IH, set_minus1_spec. destruct (memn x (g k)); simpl; auto. destruct (existsb _ l); auto.
Qed.

Lemma up_crossing (P : nat -> bool) y x : P x = false -> P y = true -> x < y ->
  exists t, x <= t < y /\ P t = false /\ P (t + 1) = true.
Proof.
  intros Hx. induction y as [|y IH]; intros Hy Hlt; [lia|].
  destruct (P y) eqn:E.
  - assert (x < y) by (destruct (Nat.eq_dec x y); [subst; congruence|lia]).
    destruct IH as (t & A & B & C); auto. exists t. repeat split; auto; lia.
  - exists y. replace (y + 1) with (S y) by lia. repeat split; auto; lia.
Qed.

Lemma down_crossing (P : nat -> bool) y x : P x = true -> P y = false -> x < y ->
  exists t, x <= t < y /\ P t = true /\ P (t + 1) = false.
Proof.
  intros Hx Hy Hlt. destruct (up_crossing (fun z => negb (P z)) y x) as (t & A & B & C); auto.
  - rewrite Hx; auto.
  - rewrite Hy; auto.
  - exists t. apply negb_false_iff in B. apply negb_true_iff in C. auto.
Qed.

Section Purge.
  Variables K k pu em n : nat.
  Definition isT (i x : nat) : bool := memn (fold_num K n x) (nth i (test_set_index K k) []).

  Lemma col0_isT i x : col0 K k n i x = if isT i x then 1%Z else 0%Z.
  Proof. reflexivity. Qed.

  Lemma before_In i t : In t (before_index K k n i) <-> t + 1 < n /\ isT i t = false /\ isT i (t + 1) = true.
  Proof.
    unfold before_index, diff. rewrite filter_In, in_seq, Z.eqb_eq, !col0_isT.
    destruct (isT i t), (isT i (t + 1)); (split; [intros (A & B)|intros (A & B & C)]); try discriminate; repeat split; auto; try lia.
  Qed.
  Lemma after_In i t : In t (after_index K k n i) <-> t + 1 < n /\ isT i t = true /\ isT i (t + 1) = false.
  Proof.
    unfold after_index, diff. rewrite filter_In, in_seq, Z.eqb_eq, !col0_isT.
    destruct (isT i t), (isT i (t + 1)); (split; [intros (A & B)|intros (A & B & C)]); try discriminate; repeat split; auto; try lia.
  Qed.

  Lemma train_spec i x : In x (train_index K k pu em n i) <->
    x < n /\ isT i x = false /\
    (forall t, t < n -> isT i t = true -> ~ (x < t <= x + pu)) /\
    (forall t, t < n -> isT i t = true -> ~ (t < x <= t + (pu + em))).
  Proof.
    unfold train_index. rewrite filter_In, in_seq, Z.eqb_eq.
    unfold col2. rewrite marks_spec. unfold col1. rewrite marks_spec. rewrite col0_isT.
    assert (HB : isT i x = false -> x < n ->
       (existsb (fun k0 => memn x (map (fun t => t - k0) (before_index K k n i))) (seq 0 pu) = true
        <-> exists t, t < n /\ isT i t = true /\ x < t <= x + pu)).
    { intros Hx Hxn. rewrite existsb_exists. split.
      - intros (q & Hq & Hm). apply in_seq in Hq. apply memn_In, in_map_iff in Hm.
        destruct Hm as (t & E & Ht). apply before_In in Ht. destruct Ht as (A & B & C).
        exists (t + 1). repeat split; auto; lia.
      - intros (t & Ht & HT & Hr). destruct (up_crossing (isT i) t x) as (t0 & A & B & C); auto; try lia.
        exists (t0 - x). split; [apply in_seq; lia|]. apply memn_In, in_map_iff. exists t0. split; [lia|].
        apply before_In. repeat split; auto; lia. }
    assert (HA : isT i x = false -> x < n ->
       (existsb (fun k0 => memn x (map (fun t => Nat.min (n - 1) (t + k0 + 1)) (after_index K k n i))) (seq 0 (pu + em)) = true
        <-> exists t, t < n /\ isT i t = true /\ t < x <= t + (pu + em))).
    { intros Hx Hxn. rewrite existsb_exists. split.
      - intros (q & Hq & Hm). apply in_seq in Hq. apply memn_In, in_map_iff in Hm.
        destruct Hm as (t & E & Ht). apply after_In in Ht. destruct Ht as (A & B & C).
        exists t. repeat split; auto; lia.
      - intros (t & Ht & HT & Hr). destruct (down_crossing (isT i) x t) as (t0 & A & B & C); auto; try lia.
        exists (x - t0 - 1). split; [apply in_seq; lia|]. apply memn_In, in_map_iff. exists t0. split; [lia|].
        apply after_In. repeat split; auto; lia. }
    split.
    - intros [Hx Hz].
      destruct (existsb (fun k0 => memn x (map (fun t => Nat.min (n - 1) (t + k0 + 1)) (after_index K k n i))) (seq 0 (pu + em))) eqn:EA; [discriminate|].
      destruct (existsb (fun k0 => memn x (map (fun t => t - k0) (before_index K k n i))) (seq 0 pu)) eqn:EB; [discriminate|].
      destruct (isT i x) eqn:ET; [discriminate|].
      assert (Hxn : x < n) by lia. specialize (HA eq_refl Hxn). specialize (HB eq_refl Hxn).
      repeat split; auto.
      + intros t Ht HT Hr. destruct HB as [_ HB]. discriminate HB. exists t; auto.
      + intros t Ht HT Hr. destruct HA as [_ HA]. discriminate HA. exists t; auto.
    - intros (Hxn & ET & H1 & H2). split; [lia|].
      specialize (HA ET Hxn). specialize (HB ET Hxn).
      destruct (existsb (fun k0 => memn x (map (fun t => Nat.min (n - 1) (t + k0 + 1)) (after_index K k n i))) (seq 0 (pu + em))) eqn:EA.
      { destruct HA as [HA _]. destruct (HA eq_refl) as (t & A & B & C). exfalso. apply (H2 t); auto. }
      destruct (existsb (fun k0 => memn x (map (fun t => t - k0) (before_index K k n i))) (seq 0 pu)) eqn:EB.
      { destruct HB as [HB _]. destruct (HB eq_refl) as (t & A & B & C). exfalso. apply (H1 t); auto. }
      rewrite ET. reflexivity.
  Qed.
End Purge.

(** * Folds *)
Section Folds.
  Variables K n : nat.
  Hypothesis HK : 0 < K.
  Notation m := (n / K).
  Hypothesis Hm : 0 < m.

  Lemma n_decomp : n = K * m + n mod K /\ n mod K < K.
  Proof. split; [apply Nat.div_mod; lia|apply Nat.mod_upper_bound; lia]. Qed.

  Lemma fold_num_spec f x : f < K -> (f < K - 1 -> (fold_num K n x = f <-> f * m <= x < (f + 1) * m)) /\
     (f = K - 1 -> (fold_num K n x = f <-> (K - 1) * m <= x < (K + 1) * m)).
  Proof.
    intros Hf. unfold fold_num, min_fold_size.
    assert (D : forall q, x / m = q <-> q * m <= x < (q + 1) * m).
    { intros q. split.
      - intros <-. split; [rewrite Nat.mul_comm; apply Nat.mul_div_le; lia|].
        rewrite Nat.mul_comm. replace (x / m + 1) with (S (x / m)) by lia. apply Nat.mul_succ_div_gt; lia.
      - intros [A B]. symmetry. apply (Nat.div_unique x m q (x - q * m)); nia. }
    split; intros Hf'.
    - destruct (Nat.eqb_spec (x / m) K) as [E|E].
      + split; [lia|]. intros H. apply D in H. lia.
      + apply D.
    - subst f. assert (DK := D K). assert (DK1 := D (K - 1)). replace (K - 1 + 1) with K in DK1 by lia.
      destruct (Nat.eqb_spec (x / m) K) as [E|E].
      + apply DK in E. split; auto. intros _. split; nia.
      + rewrite DK1. split; [intros; nia|]. intros [A B].
        destruct (Nat.lt_ge_cases x (K * m)); [auto|exfalso]. apply E, D. lia.
  Qed.
End Folds.

Lemma filter_interval a b s M : s <= a -> a <= b -> b <= s + M ->
  filter (fun x => (a <=? x) && (x <? b)) (seq s M) = seq a (b - a).
Proof.
  revert s; induction M as [|M IH]; intros s H1 H2 H3.
  - replace (b - a) with 0 by lia. reflexivity.
  - simpl. destruct (Nat.leb_spec a s), (Nat.ltb_spec s b); simpl.
    + assert (a = s) by lia; subst a. replace (b - s) with (S (b - S s)) by lia. simpl. f_equal.
      destruct (Nat.eq_dec b (S s)) as [->|Hb].
      { rewrite Nat.sub_diag. apply filter_none. intros x Hx. apply in_seq in Hx.
        destruct (Nat.leb_spec s x), (Nat.ltb_spec x (S s)); auto; lia. }
      assert (F : filter (fun x => (S s <=? x) && (x <? b)) (seq (S s) M) = seq (S s) (b - S s)).
      { clear IH. assert (G : forall q M', q + M' >= b -> filter (fun x => (q <=? x) && (x <? b)) (seq q M') = seq q (b - q)).
        { intros q M'; revert q; induction M' as [|M' IH']; intros q Hq.
          - replace (b - q) with 0 by lia; reflexivity.
          - simpl. rewrite Nat.leb_refl. destruct (Nat.ltb_spec q b); simpl.
            + replace (b - q) with (S (b - S q)) by lia. simpl. f_equal. rewrite <- IH' by lia.
              apply filter_ext_in. intros x Hx. apply in_seq in Hx.
              destruct (Nat.leb_spec q x), (Nat.leb_spec (S q) x); auto; lia.
            + replace (b - q) with 0 by lia. apply filter_none. intros x Hx. apply in_seq in Hx.
              destruct (Nat.ltb_spec x b); [lia|apply andb_false_r]. }
        apply G. lia. }
      rewrite <- F. apply filter_ext_in. intros x Hx. apply in_seq in Hx.
      destruct (Nat.leb_spec s x), (Nat.leb_spec (S s) x); auto; lia.
    + replace (b - a) with 0 by lia. apply filter_none. intros x Hx. apply in_seq in Hx.
      destruct (Nat.leb_spec a x), (Nat.ltb_spec x b); auto; lia.
    + apply IH; lia.
    + lia.
Qed.

Section Partition.
  Variables K n : nat.
  Hypothesis HK : 0 < K.
  Notation m := (n / K).
  Hypothesis Hm : 0 < m.

  Lemma fold_index_inner f : f < K - 1 -> fold_index K n f = seq (f * m) m.
  Proof.
    intros Hf. destruct (n_decomp K n HK Hm) as [E R].
    unfold fold_index. assert (f * m + m <= n).
    { assert (X := Nat.mul_le_mono_r (f + 1) K m ltac:(lia)). rewrite Nat.mul_add_distr_r in X. lia. }
    assert (F := filter_interval (f * m) (f * m + m) 0 n ltac:(lia) ltac:(lia) ltac:(lia)).
    replace (f * m + m - f * m) with m in F by lia. rewrite <- F.
    apply filter_ext. intros x.
    destruct (fold_num_spec K n HK Hm f x ltac:(lia)) as [A _]. specialize (A Hf).
    destruct (Nat.eqb_spec (fold_num K n x) f) as [H0|H0].
    - apply A in H0. rewrite Nat.mul_add_distr_r in H0. destruct (Nat.leb_spec (f * m) x), (Nat.ltb_spec x (f * m + m)); auto; lia.
    - destruct (Nat.leb_spec (f * m) x), (Nat.ltb_spec x (f * m + m)); auto. exfalso. apply H0, A. rewrite Nat.mul_add_distr_r. lia.
  Qed.

  Lemma fold_index_last : fold_index K n (K - 1) = seq ((K - 1) * m) (Nat.min n ((K + 1) * m) - (K - 1) * m).
  Proof.
    destruct (n_decomp K n HK Hm) as [E R]. set (b := Nat.min n ((K + 1) * m)).
    assert (Hb : (K - 1) * m <= b <= n).
    { assert (X := Nat.mul_le_mono_r (K - 1) K m ltac:(lia)). assert (Y := Nat.mul_le_mono_r (K - 1) (K + 1) m ltac:(lia)). unfold b. lia. }
    rewrite <- (filter_interval ((K - 1) * m) b 0 n (Nat.le_0_l _) (proj1 Hb) (proj2 Hb)).
    unfold fold_index. apply filter_ext_in. intros x Hx. apply in_seq in Hx.
    destruct (fold_num_spec K n HK Hm (K - 1) x ltac:(lia)) as [_ A]. specialize (A eq_refl).
    destruct (Nat.eqb_spec (fold_num K n x) (K - 1)) as [H0|H0].
    - apply A in H0. destruct (Nat.leb_spec ((K - 1) * m) x), (Nat.ltb_spec x b); auto; unfold b in *; lia.
    - destruct (Nat.leb_spec ((K - 1) * m) x), (Nat.ltb_spec x b); auto. exfalso. apply H0, A. unfold b in *; lia.
  Qed.

  Lemma concat_inner q : q <= K - 1 -> concat (map (fold_index K n) (seq 0 q)) = seq 0 (q * m).
  Proof.
    induction q as [|q IH]; intros Hq; auto.
    rewrite seq_S, map_app, concat_app, IH by lia. simpl. rewrite app_nil_r, fold_index_inner by lia.
    rewrite <- seq_app. f_equal. lia.
  Qed.

  Lemma folds_concat : concat (map (fold_index K n) (seq 0 K)) = seq 0 (Nat.min n ((K + 1) * m)).
  Proof.
    destruct (n_decomp K n HK Hm) as [E R].
    replace K with (S (K - 1)) at 2 by lia.
    rewrite seq_S, map_app, concat_app, concat_inner by lia. cbn [map concat plus app]. rewrite app_nil_r, fold_index_last.
    change ((K - 1) * m) with (0 + (K - 1) * m) at 2. rewrite <- seq_app. f_equal.
    assert (X := Nat.mul_le_mono_r (K - 1) K m ltac:(lia)). assert (Y := Nat.mul_le_mono_r (K - 1) (K + 1) m ltac:(lia)). lia.
  Qed.
End Partition.
