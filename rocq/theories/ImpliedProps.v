(** C56: implied-covariance windows are aligned and causal. *)
From Coq Require Import Reals List Arith Bool Lra Lia.
From Verif Require Import ImpliedModel.
Import ListNotations.
Open Scope R_scope.

(** * Specification *)
Fixpoint total (n : nat) (f : nat -> R) : R := match n with O => 0 | S n => total n f + f n end.
(** The observations of a table, from position [from], [n] of them: unbiased standard deviation of a column. *)
Definition average_at (x : table) (from n i : nat) : R := total n (fun t => nth (from + t) x zero_row i) / INR n.
Definition volatility_at (x : table) (from n i : nat) : R :=
  sqrt (total n (fun t => (nth (from + t) x zero_row i - average_at x from n i) ^ 2) / (INR n - 1)).
(** Window j (from 0) of [c] consecutive windows of [w] observations that end with the last of the [n] observations. *)
Definition first_obs (n w c j : nat) : nat := (n - (c - j) * w)%nat.
Definition last_obs (n w c j : nat) : nat := (n - (c - j - 1) * w - 1)%nat.
(** What is known at the end of window j: the logarithms of the implied volatility of its last observation and of its realised volatility. *)
Definition known (returns implied : table) (w c j i : nat) : R * R :=
  let n := length returns in
  (ln (nth (last_obs n w c j) implied zero_row i), ln (volatility_at returns (first_obs n w c j) w i)).

(** * Lemmas *)
Lemma rsum_total {A} (l : list A) (d : A) (f : A -> R) : rsum (map f l) = total (length l) (fun t => f (nth t l d)).
Proof.
  induction l as [|x l IH] using rev_ind; [reflexivity|].
  assert (E : forall a b, rsum (a ++ b) = rsum a + rsum b) by (intros a b; induction a; simpl; [lra|rewrite IHa; lra]).
  rewrite map_app, E, app_length, Nat.add_1_r. cbn [map rsum total].
  rewrite app_nth2, Nat.sub_diag by lia. cbn [nth]. rewrite IH.
  assert (T : forall n g h, (forall t, (t < n)%nat -> g t = h t) -> total n g = total n h).
  { induction n; intros g h H; simpl; auto. rewrite (IHn g h), H; auto. }
  rewrite (T _ (fun t => f (nth t (l ++ [x]) d)) (fun t => f (nth t l d))); [lra|]. intros t Ht. rewrite app_nth1; auto.
Qed.
Lemma total_ext n g h : (forall t, (t < n)%nat -> g t = h t) -> total n g = total n h.
Proof. induction n; intros H; simpl; auto. rewrite IHn, H; auto. Qed.
Lemma nth_firstn_row (l : table) n k : (k < n)%nat -> nth k (firstn n l) zero_row = nth k l zero_row.
Proof. revert n k. induction l; intros [|n] [|k] H; simpl; auto; try lia. apply IHl. lia. Qed.
Lemma nth_skipn_row (l : table) n k : nth k (skipn n l) zero_row = nth (n + k) l zero_row.
Proof. revert n. induction l; intros [|n]; simpl; auto. destruct k; auto. Qed.
Lemma skipn_skipn {A} a b (l : list A) : skipn a (skipn b l) = skipn (a + b) l.
Proof. revert b. induction l as [|x l IH]; intros b; [rewrite !skipn_nil; reflexivity|]. destruct b; [rewrite Nat.add_0_r; reflexivity|]. rewrite Nat.add_succ_r. cbn [skipn]. apply IH. Qed.
Lemma groups_length c w x : length (groups c w x) = c.
Proof. revert x. induction c; intros x; simpl; auto. Qed.
Lemma groups_nth c w x j : (j < c)%nat -> nth j (groups c w x) [] = firstn w (skipn (j * w) x).
Proof.
  revert x j. induction c as [|c IH]; intros x j H; [lia|]. destruct j as [|j]; [reflexivity|].
  cbn [groups nth]. rewrite IH by lia. f_equal. rewrite skipn_skipn. f_equal. simpl. lia.
Qed.
Lemma std1_ok x from w i : (from + w <= length x)%nat -> std1 (map (fun r : row => r i) (firstn w (skipn from x))) = volatility_at x from w i.
Proof.
  intros H. unfold std1, mean. assert (L : length (firstn w (skipn from x)) = w) by (rewrite firstn_length, skipn_length; lia).
  rewrite map_length, L, map_map. unfold volatility_at, average_at.
  assert (N : forall t, (t < w)%nat -> nth t (firstn w (skipn from x)) zero_row = nth (from + t) x zero_row)
    by (intros t Ht; rewrite nth_firstn_row, nth_skipn_row by auto; reflexivity).
  assert (M : rsum (map (fun r : row => r i) (firstn w (skipn from x))) = total w (fun t => nth (from + t) x zero_row i)).
  { rewrite (rsum_total _ zero_row), L. apply total_ext. intros t Ht. rewrite N; auto. }
  rewrite M. f_equal. f_equal. rewrite (rsum_total _ zero_row), L. apply total_ext. intros t Ht. rewrite N; auto.
Qed.
Section Windows.
Variables (n w : nat).
Hypothesis w0 : (0 < w)%nat.
Let c := (n / w)%nat.
Lemma windows_fit : (c * w <= n)%nat.
Proof. unfold c. rewrite Nat.mul_comm. apply Nat.mul_div_le. lia. Qed.
Lemma realised_nth returns j : length returns = n -> (j < c)%nat ->
  forall i, nth j (compute_realised_vol returns w) zero_row i = volatility_at returns (first_obs n w c j) w i.
Proof.
  intros L H i. unfold compute_realised_vol. rewrite L. fold c. pose proof windows_fit as F.
  set (f := fun (g : table) i => std1 (map (fun r : row => r i) g)).
  rewrite (nth_indep _ zero_row (f [])) by (rewrite map_length, groups_length; auto).
  rewrite map_nth, groups_nth by auto. unfold f. rewrite skipn_skipn.
  assert (J : ((c - j) * w = c * w - j * w)%nat) by apply Nat.mul_sub_distr_r.
  assert (K : (S j * w <= c * w)%nat) by (apply Nat.mul_le_mono_r; lia).
  replace (j * w + (n - c * w))%nat with (first_obs n w c j) by (unfold first_obs; lia).
  apply std1_ok. unfold first_obs. simpl in K. lia.
Qed.
Lemma arange_spec fuel : forall start k, (start + k * w < n)%nat -> (n <= start + S k * w)%nat -> (k < fuel)%nat ->
  arange fuel start n w = map (fun j => start + j * w)%nat (seq 0 (S k)).
Proof.
  induction fuel as [|fuel IH]; intros start k H1 H2 H3; [lia|]. cbn [arange].
  replace (start <? n)%nat with true by (symmetry; apply Nat.ltb_lt; nia).
  destruct k as [|k].
  - cbn [seq map]. f_equal; [lia|]. destruct fuel; [reflexivity|]. cbn [arange]. replace (start + w <? n)%nat with false by (symmetry; apply Nat.ltb_ge; lia). reflexivity.
  - rewrite (IH (start + w)%nat k) by (simpl in *; lia). cbn [seq map]. f_equal; [lia|]. f_equal; [lia|].
    rewrite <- (seq_shift k 1), map_map. apply map_ext. intros j. simpl. lia.
Qed.
Lemma implied_ok implied : length implied = n -> (1 <= c)%nat ->
  compute_implied_vol implied w = map (fun j => nth (last_obs n w c j) implied zero_row) (seq 0 c).
Proof.
  intros L H. unfold compute_implied_vol. rewrite L. fold c. pose proof windows_fit as F.
  assert (J : ((c - 1) * w = c * w - w)%nat) by (rewrite Nat.mul_sub_distr_r; lia).
  assert (K : (1 * w <= c * w)%nat) by (apply Nat.mul_le_mono_r; lia).
  assert (C : (c <= c * w)%nat) by nia.
  rewrite (arange_spec n _ (c - 1)); [|lia| |lia].
  - replace (S (c - 1)) with c by lia. rewrite map_map. apply map_ext_in. intros j Hj. apply in_seq in Hj. f_equal.
    unfold last_obs. assert (J2 : ((c - j - 1) * w = c * w - w - j * w)%nat) by (rewrite !Nat.mul_sub_distr_r; lia).
    assert (K2 : (S j * w <= c * w)%nat) by (apply Nat.mul_le_mono_r; lia). simpl in K2. lia.
  - replace (S (c - 1)) with c by lia. lia.
Qed.
End Windows.
Lemma realised_length returns w : length (compute_realised_vol returns w) = (length returns / w)%nat.
Proof. unfold compute_realised_vol. rewrite map_length, groups_length. reflexivity. Qed.
Lemma list_eq_nth (l : table) : l = map (fun j => nth j l zero_row) (seq 0 (length l)).
Proof.
  induction l as [|x l IH]; [reflexivity|]. cbn [length seq map nth]. f_equal. rewrite <- seq_shift, map_map. exact IH.
Qed.
Lemma combine_maps {A} (f g : A -> R) (l : list A) : combine (map f l) (map g l) = map (fun x => (f x, g x)) l.
Proof. induction l; simpl; f_equal; auto. Qed.
Lemma removelast_seq {A} (f : nat -> A) n : (1 <= n)%nat -> removelast (map f (seq 0 n)) = map f (seq 0 (n - 1)).
Proof. intros H. replace n with (S (n - 1)) at 1 by lia. rewrite seq_S, map_app. cbn [map Nat.add]. apply removelast_last. Qed.
Lemma tl_seq {A} (f : nat -> A) n : (1 <= n)%nat -> tl (map f (seq 0 n)) = map (fun j => f (S j)) (seq 0 (n - 1)).
Proof. intros H. replace n with (S (n - 1)) at 1 by lia. cbn [seq map tl]. rewrite <- seq_shift, map_map. reflexivity. Qed.
Lemma last_seq {A} (f : nat -> A) n d : (1 <= n)%nat -> last (map f (seq 0 n)) d = f (n - 1)%nat.
Proof. intros H. replace n with (S (n - 1)) at 1 by lia. rewrite seq_S, map_app. cbn [map Nat.add]. apply last_last. Qed.

(** * C56 *)
(** The regression: as many whole windows as fit, ending with the last observation; the target of a window is regressed on what was
    known at the end of the preceding one, and the prediction is made from what is known at the end of the last one. *)
Theorem C56_windows regress returns implied w : (3 <= w)%nat -> length implied = length returns ->
  let n := length returns in let c := (n / w)%nat in
  (((n < 3 * w)%nat -> predict_realised_vols regress returns implied w = Err ValueError) /\
   ((3 * w <= n)%nat -> exists p, predict_realised_vols regress returns implied w = Ok p /\
     forall i, p i = exp (regress (map (fun j => known returns implied w c j i) (seq 0 (c - 1)))
                                  (map (fun j => ln (volatility_at returns (first_obs n w c (S j)) w i)) (seq 0 (c - 1)))
                                  (known returns implied w c (c - 1) i)))).
Proof.
  intros W L n c. unfold predict_realised_vols. fold n. fold c. split; intros H.
  - replace (c <? 3)%nat with true; [reflexivity|]. symmetry. apply Nat.ltb_lt. unfold c. apply Nat.div_lt_upper_bound; lia.
  - assert (C3 : (3 <= c)%nat) by (unfold c; apply Nat.div_le_lower_bound; lia).
    replace (c <? 3)%nat with false by (symmetry; apply Nat.ltb_ge; lia).
    assert (I : compute_implied_vol implied w = map (fun j => nth (last_obs n w c j) implied zero_row) (seq 0 c)) by (apply implied_ok; [lia|exact L|fold c; lia]).
    assert (LR := realised_length returns w). fold n in LR. fold c in LR.
    rewrite I, LR, map_length, seq_length, Nat.eqb_refl. cbn [negb]. eexists. split; [reflexivity|]. intros i.
    assert (R : map (fun r : row => ln (r i)) (compute_realised_vol returns w) = map (fun j => ln (volatility_at returns (first_obs n w c j) w i)) (seq 0 c)).
    { rewrite (list_eq_nth (compute_realised_vol returns w)), LR, map_map. apply map_ext_in. intros j Hj. apply in_seq in Hj. f_equal.
      apply (realised_nth n w ltac:(lia)); [reflexivity|fold c; lia]. }
    cbv beta zeta. rewrite R, map_map, combine_maps.
    change (fun x => (ln (nth (last_obs n w c x) implied zero_row i), ln (volatility_at returns (first_obs n w c x) w i))) with (fun j => known returns implied w c j i).
    rewrite removelast_seq, tl_seq, last_seq by lia. reflexivity.
Qed.
(** The windows do not overlap, follow each other, are whole, and end with the last observation. *)
Theorem C56_layout n w c j : (1 <= w)%nat -> (c * w <= n)%nat -> (j < c)%nat ->
  (last_obs n w c j = first_obs n w c j + w - 1)%nat /\ (last_obs n w c j < n)%nat /\
  ((S j < c)%nat -> first_obs n w c (S j) = S (last_obs n w c j)) /\ (S j = c -> S (last_obs n w c j) = n).
Proof.
  intros W H J. unfold first_obs, last_obs. assert (E : ((c - j) * w = (c - j - 1) * w + w)%nat) by (replace (c - j)%nat with (S (c - j - 1)) at 1 by lia; simpl; lia).
  assert (B : ((c - j) * w <= c * w)%nat) by (apply Nat.mul_le_mono_r; lia).
  split; [lia|]. split; [lia|]. split; intros K.
  - replace (c - S j)%nat with (c - j - 1)%nat by lia. lia.
  - replace (c - j - 1)%nat with 0%nat by lia. lia.
Qed.
(** What is known at the end of a window depends on no later observation. *)
Theorem C56_causal returns returns' implied implied' w c j i : (1 <= w)%nat -> (c * w <= length returns)%nat -> (j < c)%nat -> length returns' = length returns ->
  (forall t, (t <= last_obs (length returns) w c j)%nat -> nth t returns' zero_row i = nth t returns zero_row i /\ nth t implied' zero_row i = nth t implied zero_row i) ->
  known returns' implied' w c j i = known returns implied w c j i.
Proof.
  intros W H J L E. destruct (C56_layout (length returns) w c j W H J) as [A [B _]]. unfold known. rewrite L. f_equal.
  - f_equal. apply E. lia.
  - f_equal. assert (T : forall t, (t < w)%nat -> nth (first_obs (length returns) w c j + t) returns' zero_row i = nth (first_obs (length returns) w c j + t) returns zero_row i).
    { intros t Ht. apply E. lia. }
    unfold volatility_at. assert (M : average_at returns' (first_obs (length returns) w c j) w i = average_at returns (first_obs (length returns) w c j) w i).
    { unfold average_at. f_equal. apply total_ext. intros t Ht. apply T; auto. }
    rewrite M. do 2 f_equal. apply total_ext. intros t Ht. rewrite T; auto.
Qed.
(** ** The whole fit *)
(** The column of the implied volatilities used for asset i: the first one that bears its name when both have names, otherwise column i. *)
Definition column_for (assets_names vol_names : option (list nat)) (i k : nat) : Prop :=
  match assets_names, vol_names with
  | Some a, Some v => nth_error v k = nth_error a i /\ (exists x, nth_error a i = Some x) /\ forall k', (k' < k)%nat -> nth_error v k' <> nth_error a i
  | _, _ => k = i
  end.
(** The implied volatilities that the fit works with: matching column, one period. *)
Definition aligned (assets_names : option (list nat)) (iv : implied_input) (af : R) (used : table) (n_assets : nat) : Prop :=
  length used = length (rows iv) /\
  forall t i, (t < length used)%nat -> (i < n_assets)%nat -> exists k, column_for assets_names (names iv) i k /\
    nth t used zero_row i = nth t (rows iv) zero_row k / sqrt af.
Lemma find_name_ok x l : forall at_ k, find_name x l at_ = Some k -> exists j, k = (at_ + j)%nat /\ nth_error l j = Some x /\ forall j', (j' < j)%nat -> nth_error l j' <> Some x.
Proof.
  induction l as [|y l IH]; intros at_ k H; [discriminate|]. cbn [find_name] in H. destruct (Nat.eqb_spec x y) as [->|Hne].
  - injection H as <-. exists 0%nat. split; [lia|]. split; [reflexivity|]. intros j' Hj; lia.
  - apply IH in H as [j [-> [A B]]]. exists (S j). split; [lia|]. split; [exact A|]. intros [|j'] Hj; simpl; [congruence|apply B; lia].
Qed.
Lemma find_name_total x l : forall at_, existsb (Nat.eqb x) l = true -> exists k, find_name x l at_ = Some k.
Proof.
  induction l as [|y l IH]; intros at_ H; [discriminate|]. cbn [find_name existsb] in *. destruct (x =? y)%nat; [eauto|apply IH; exact H].
Qed.
Lemma nth_select idx (t : table) k i : (k < length t)%nat -> nth k (select idx t) zero_row i = nth k t zero_row (nth i idx 0%nat).
Proof.
  intros H. unfold select. set (f := fun (r : row) i => r (nth i idx 0%nat)).
  rewrite (nth_indep _ zero_row (f zero_row)) by (rewrite map_length; auto). rewrite map_nth. reflexivity.
Qed.
Lemma nth_scale c (t : table) k i : (k < length t)%nat -> nth k (scale_table c t) zero_row i = nth k t zero_row i / c.
Proof.
  intros H. unfold scale_table. set (f := fun (r : row) i => r i / c).
  rewrite (nth_indep _ zero_row (f zero_row)) by (rewrite map_length; auto). rewrite map_nth. reflexivity.
Qed.
Lemma aligned_ok a iv iv' af n : match_columns a iv = Ok iv' -> (forall l, a = Some l -> length l = n) ->
  aligned a iv af (scale_table (sqrt af) (rows iv')) n.
Proof.
  intros H Hn. unfold match_columns in H. unfold aligned, column_for.
  assert (P : forall t, length (scale_table (sqrt af) t) = length t) by (intros; apply map_length). rewrite P.
  destruct a as [a|]; [|injection H as <-; split; auto; intros t i Ht Hi; exists i; split; auto; apply nth_scale; auto].
  destruct (names iv) as [v|]; [|injection H as <-; split; auto; intros t i Ht Hi; exists i; split; auto; apply nth_scale; auto].
  destruct (forallb _ a) eqn:F; [|discriminate]. injection H as <-. cbn [rows].
  assert (S : forall idx t, length (select idx t) = length t) by (intros; apply map_length). rewrite S. split; auto.
  intros t i Ht Hi. rewrite <- (Hn a eq_refl) in Hi. rewrite nth_scale by (rewrite S; auto). rewrite nth_select by auto.
  set (g := fun x => match find_name x v 0 with Some k => k | None => 0%nat end).
  rewrite (nth_indep _ 0%nat (g 0%nat)) by (rewrite map_length; auto). rewrite map_nth.
  assert (N : nth_error a i = Some (nth i a 0%nat)) by (apply nth_error_nth'; auto).
  set (x := nth i a 0%nat) in *. rewrite forallb_forall in F. specialize (F x (nth_error_In _ _ N)).
  destruct (find_name_total x v 0 F) as [k Ek]. unfold g. rewrite Ek. apply find_name_ok in Ek as [j [-> [A B]]]. cbn [Nat.add].
  exists j. rewrite N. split; auto. split; auto. split; [eauto|exact B].
Qed.
(** Every successful fit: correlation of the prior, and predicted volatilities from the aligned one-period implied volatilities. *)
Theorem C56_fit regress n prior a returns cols iv af adj w cov after : (forall l, a = Some l -> length l = n) ->
  fit regress n prior a returns cols (Some iv) af adj w = (Ok cov, after) ->
  exists used v, aligned a iv af used n /\ length used = length returns /\
    (forall i j, cov i j = prior i j / sqrt (prior j j) / sqrt (prior i i) * v j * v i) /\
    (forall i, 0 < prior i i -> cov i i = v i ^ 2) /\
    match adj with
    | Some p => forall i, (i < n)%nat -> exists q, 0 < q /\ v i = last used zero_row i / q /\
        match p with Scalar x => q = x | PerAsset f => f i = Some q end
    | None => (3 <= w)%nat /\ predict_realised_vols regress returns used w = Ok v
    end.
Proof.
  intros Hn H. unfold fit in H. destruct (match_columns a iv) as [iv'|] eqn:M; [|discriminate].
  destruct (_ && _) eqn:S in H; cbn [negb] in H; [|discriminate]. apply andb_prop in S as [S _]. apply Nat.eqb_eq in S.
  assert (A := aligned_ok a iv iv' af n M Hn). set (used := scale_table (sqrt af) (rows iv')) in *.
  assert (L : length used = length returns) by (unfold used, scale_table; rewrite map_length; exact S).
  assert (D : forall v : row, forall i, 0 < prior i i -> corr_to_cov (cov_to_corr prior) v i i = v i ^ 2).
  { intros v i Hi. unfold corr_to_cov, cov_to_corr. pose proof (sqrt_lt_R0 _ Hi) as Q. pose proof (sqrt_sqrt (prior i i) ltac:(lra)) as QQ.
    rewrite <- QQ at 1. field. lra. }
  destruct adj as [p|].
  - destruct (premium_ok n p) eqn:PO; [|discriminate]. injection H as <- _.
    exists used, (fun i => last used zero_row i / premium_value p i). split; [exact A|]. split; [exact L|]. split; [reflexivity|]. split; [apply D|].
    intros i Hi. exists (premium_value p i). destruct p as [x|f]; cbn [premium_ok premium_value] in *.
    + unfold Rpos_bool in PO. destruct (Rlt_dec 0 x); [|discriminate]. auto.
    + assert (Q : forall m, all_below (fun i => match f i with Some v => Rpos_bool v | None => false end) m = true -> forall i, (i < m)%nat -> exists v, f i = Some v /\ 0 < v).
      { induction m as [|m IH]; intros P k Hk; [lia|]. cbn [all_below] in P. apply andb_prop in P as [P1 P2].
        destruct (Nat.eq_dec k m) as [->|]; [|apply IH; auto; lia]. destruct (f m) as [v|]; [|discriminate]. exists v. split; auto.
        unfold Rpos_bool in P1. destruct (Rlt_dec 0 v); [auto|discriminate]. }
      destruct (Q n PO i Hi) as [v [Ev Pv]]. rewrite Ev. auto.
  - destruct (Nat.ltb_spec w 3); [discriminate|]. destruct (predict_realised_vols regress returns used w) as [v|] eqn:P; [|discriminate].
    injection H as <- _. exists used, v. split; [exact A|]. split; [exact L|]. split; [reflexivity|]. split; [apply D|]. split; [lia|exact P].
Qed.
(** When the fit succeeds: every asset has its column, the shapes agree, and the premium is positive or there are three windows of at least three. *)
Definition usable n (a : option (list nat)) (returns : table) (cols : nat) (iv : implied_input) (adj : option premium) (w : nat) : Prop :=
  match a, names iv with Some l, Some v => incl l v /\ length l = n | _, _ => cols = n end /\
  length (rows iv) = length returns /\
  match adj with
  | Some (Scalar x) => 0 < x
  | Some (PerAsset f) => forall i, (i < n)%nat -> exists x, f i = Some x /\ 0 < x
  | None => (3 <= w)%nat /\ (3 * w <= length returns)%nat
  end.
Lemma all_below_ok f m : all_below f m = true <-> forall i, (i < m)%nat -> f i = true.
Proof.
  induction m as [|m IH]; cbn [all_below]; [split; auto; intros; lia|]. rewrite andb_true_iff, IH. split.
  - intros [A B] i Hi. destruct (Nat.eq_dec i m) as [->|]; auto. apply B. lia.
  - intros H. split; [apply H; lia|]. intros i Hi. apply H. lia.
Qed.
Lemma Rpos_bool_ok x : Rpos_bool x = true <-> 0 < x.
Proof. unfold Rpos_bool. destruct (Rlt_dec 0 x); split; auto; try discriminate; intros; contradiction. Qed.
Lemma premium_ok_iff n p : premium_ok n p = true <-> match p with Scalar x => 0 < x | PerAsset f => forall i, (i < n)%nat -> exists x, f i = Some x /\ 0 < x end.
Proof.
  destruct p as [x|f]; cbn [premium_ok]; [apply Rpos_bool_ok|]. rewrite all_below_ok. split; intros H i Hi; specialize (H i Hi).
  - destruct (f i) as [v|]; [|discriminate]. apply Rpos_bool_ok in H. eauto.
  - destruct H as [v [-> P]]. apply Rpos_bool_ok. auto.
Qed.
Theorem C56_accepts regress n prior a returns cols iv af adj w :
  (usable n a returns cols iv adj w -> exists cov, fst (fit regress n prior a returns cols (Some iv) af adj w) = Ok cov) /\
  (~ usable n a returns cols iv adj w -> fst (fit regress n prior a returns cols (Some iv) af adj w) = Err ValueError) /\
  fst (fit regress n prior a returns cols None af adj w) = Err ValueError.
Proof.
  assert (G : (usable n a returns cols iv adj w /\ exists cov, fst (fit regress n prior a returns cols (Some iv) af adj w) = Ok cov) \/
              (~ usable n a returns cols iv adj w /\ fst (fit regress n prior a returns cols (Some iv) af adj w) = Err ValueError)).
  2: { destruct G as [[U E]|[U E]]; (split; [intros; auto; contradiction|split; [intros; auto; contradiction|reflexivity]]). }
  unfold fit, usable. 
  assert (T : forall iv', length (rows iv') = length (rows iv) -> forall P cs, (P <-> cs = n) ->
   let r := if negb ((length (rows iv') =? length returns)%nat && (cs =? n)%nat) then (Err ValueError, Some iv)
     else let scaled := scale_table (sqrt af) (rows iv') in
        let after := if same_object iv' then {| rows := scaled; same_object := true; names := names iv |} else iv in
        let corr := cov_to_corr prior in
        match adj with
        | Some p =>
          if premium_ok n p then (Ok (corr_to_cov corr (fun i => last scaled zero_row i / premium_value p i)), Some after)
          else (Err ValueError, Some after)
        | None =>
          if (w <? 3)%nat then (Err ValueError, Some after)
          else match predict_realised_vols regress returns scaled w with
               | Ok p => (Ok (corr_to_cov corr p), Some after)
               | Err e => (Err e, Some after)
               end
        end in
   let U := P /\ length (rows iv) = length returns /\ match adj with Some (Scalar x) => 0 < x
      | Some (PerAsset f) => forall i, (i < n)%nat -> exists x, f i = Some x /\ 0 < x | None => (3 <= w)%nat /\ (3 * w <= length returns)%nat end in
   (U /\ exists cov, fst r = Ok cov) \/ (~ U /\ fst r = Err ValueError)).
  { intros iv' L P cs HP r U. unfold r. rewrite L. destruct (Nat.eqb_spec (length (rows iv)) (length returns)) as [E1|E1]; cbn [andb negb].
    2: { right. split; [|reflexivity]. unfold U. tauto. }
    destruct (Nat.eqb_spec cs n) as [E2|E2]; cbn [negb]. 2: { right. split; [|reflexivity]. unfold U. tauto. }
    cbv zeta. destruct adj as [p|].
    - pose proof (premium_ok_iff n p) as K. destruct (premium_ok n p) eqn:Q.
      + left. split; [|eexists; reflexivity]. unfold U. split; [tauto|]. split; [exact E1|]. destruct p; apply K; reflexivity.
      + right. split; [|reflexivity]. unfold U. intros [_ [_ X]]. destruct p; apply K in X; discriminate.
    - destruct (Nat.ltb_spec w 3). { right. split; [|reflexivity]. unfold U. lia. }
      assert (LL : length (scale_table (sqrt af) (rows iv')) = length returns) by (unfold scale_table; rewrite map_length; lia).
      destruct (C56_windows regress returns _ w ltac:(lia) LL) as [N Y].
      destruct (le_lt_dec (3 * w) (length returns)) as [Z|Z].
      + left. destruct (Y Z) as [q [-> _]]. split; [|eexists; reflexivity]. unfold U. repeat split; auto. tauto.
      + right. rewrite (N Z). split; [unfold U; lia|reflexivity]. }
  unfold match_columns. destruct a as [a|]; [|apply (T iv eq_refl (cols = n) cols); tauto].
  destruct (names iv) as [v|] eqn:NV; [|apply (T iv eq_refl (cols = n) cols); tauto].
  destruct (forallb _ a) eqn:F.
  - assert (I : incl a v). { intros x Hx. rewrite forallb_forall in F. specialize (F x Hx). apply existsb_exists in F as [y [Hy E]]. apply Nat.eqb_eq in E. subst. exact Hy. }
    match goal with |- context [length (rows ?r) =? _] => apply (T r ltac:(cbn [rows]; apply map_length) (incl a v /\ length a = n) (length a)) end. tauto.
  - right. split; [|reflexivity]. intros [[I _] _]. assert (X : forallb (fun x => existsb (Nat.eqb x) v) a = true); [|congruence].
    apply forallb_forall. intros x Hx. apply existsb_exists. exists x. split; [apply I; exact Hx|apply Nat.eqb_refl].
Qed.
(** Together: the predicted volatility of an asset, from the caller's implied volatilities. *)
Corollary C56_regression regress n prior a returns cols iv af w cov after : (forall l, a = Some l -> length l = n) ->
  fit regress n prior a returns cols (Some iv) af None w = (Ok cov, after) ->
  exists used, aligned a iv af used n /\ (3 <= w)%nat /\ (3 * w <= length returns)%nat /\
    forall i, 0 < prior i i -> cov i i = exp (let m := length returns in let c := (m / w)%nat in
      regress (map (fun j => known returns used w c j i) (seq 0 (c - 1)))
              (map (fun j => ln (volatility_at returns (first_obs m w c (S j)) w i)) (seq 0 (c - 1)))
              (known returns used w c (c - 1) i)) ^ 2.
Proof.
  intros Hn H. destruct (C56_fit _ _ _ _ _ _ _ _ _ _ _ _ Hn H) as [used [v [A [L [_ [D [W P]]]]]]]. exists used.
  destruct (C56_windows regress returns used w W L) as [N Y].
  destruct (le_lt_dec (3 * w) (length returns)) as [G|G]; [|rewrite (N G) in P; discriminate].
  split; [exact A|]. split; [exact W|]. split; [exact G|]. intros i Hi. rewrite D by auto. destruct (Y G) as [p [Ep Vp]]. rewrite Ep in P. injection P as <-. rewrite Vp. reflexivity.
Qed.
(** Fitting leaves the caller's implied volatilities alone, so that fitting again gives the same result, whenever they are not
    an array that the validation returns as is. *)
Theorem C56_refit regress n prior a returns cols iv af adj w : same_object iv = false ->
  let once := fit regress n prior a returns cols (Some iv) af adj w in
  snd once = Some iv /\ fit regress n prior a returns cols (snd once) af adj w = once.
Proof.
  intros S once. assert (E : snd once = Some iv); [|split; [exact E|rewrite E; reflexivity]].
  unfold once, fit. destruct (match_columns a iv) as [iv'|] eqn:M; [|reflexivity].
  assert (S' : same_object iv' = false).
  { unfold match_columns in M. destruct a as [a|]; [|injection M as <-; auto]. destruct (names iv); [|injection M as <-; auto].
    destruct (forallb _ a); [injection M as <-; reflexivity|discriminate]. }
  rewrite S'. destruct (negb _); [reflexivity|]. destruct adj as [p|]; [destruct (premium_ok n p); reflexivity|].
  destruct (w <? 3)%nat; [reflexivity|]. destruct (predict_realised_vols _ _ _ _); reflexivity.
Qed.
(** With an ndarray of floats the division by sqrt(annualized_factor) is done in the caller's array: the second fit annualises twice. *)
Theorem C56_refit_refuted regress : exists n prior returns cols iv af adj w cov cov',
  let once := fit regress n prior None returns cols (Some iv) af adj w in
  fst once = Ok cov /\ fst (fit regress n prior None returns cols (snd once) af adj w) = Ok cov' /\ cov 0%nat 0%nat <> cov' 0%nat 0%nat.
Proof.
  exists 1%nat, (fun _ _ => 1), [fun _ => 0], 1%nat, {| rows := [fun _ => 1]; same_object := true; names := None |}, 4, (Some (Scalar 1)), 0%nat.
  do 2 eexists. unfold fit. cbn [match_columns rows length Nat.eqb andb negb same_object snd names]. unfold premium_ok, Rpos_bool.
  destruct (Rlt_dec 0 1); [|lra]. cbn [fst snd rows same_object scale_table map length Nat.eqb andb negb].
  split; [reflexivity|]. cbn [match_columns rows length Nat.eqb andb negb same_object]. split; [reflexivity|].
  unfold corr_to_cov, cov_to_corr. cbn [last scale_table map]. rewrite sqrt_1.
  replace (sqrt 4) with 2 by (symmetry; replace 4 with (2 * 2) by ring; apply sqrt_square; lra). cbn [premium_value]. lra.
Qed.
(** The sign of the implied volatilities is not checked: the validation looks at the shape.  A negative one is accepted. *)
Theorem C56_negative_refuted regress : exists n prior returns cols iv af adj w cov after t i,
  nth t (rows iv) zero_row i < 0 /\ fit regress n prior None returns cols (Some iv) af adj w = (Ok cov, after) /\ cov 0%nat 1%nat < 0 < prior 0%nat 1%nat.
Proof.
  exists 2%nat, (fun i j => if (i =? j)%nat then 1 else 1 / 2), [fun _ => 0], 2%nat,
    {| rows := [fun i => if (i =? 0)%nat then 1 else - 1]; same_object := false; names := None |}, 1, (Some (Scalar 1)), 0%nat.
  do 2 eexists. exists 0%nat, 1%nat. cbn [rows nth Nat.eqb]. split; [lra|]. unfold fit.
  cbn [match_columns rows length Nat.eqb andb negb same_object snd names]. unfold premium_ok, Rpos_bool. destruct (Rlt_dec 0 1); [|lra].
  split; [reflexivity|]. unfold corr_to_cov, cov_to_corr. cbn [last scale_table map Nat.eqb premium_value]. rewrite sqrt_1. lra.
Qed.
(** A concrete case: one asset, nine observations, windows of three; a regressor that answers with the second feature it is given. *)
Definition example_returns : table := map (fun x (_ : nat) => x) [1; 2; 3; 1; 3; 5; 1; 4; 7].
Example C56_applies : exists cov after,
  fit (fun _ _ f => snd f) 1 (fun _ _ => 4) None example_returns 1 (Some {| rows := map (fun _ _ => 2) example_returns; same_object := true; names := None |}) 1 None 3 = (Ok cov, after)
  /\ cov 0%nat 0%nat = 9.
Proof.
  unfold fit. cbn [match_columns rows same_object]. 
  replace (length (map (fun (_ : row) (_ : nat) => 2) example_returns) =? length example_returns)%nat with true by reflexivity.
  cbn [names Nat.eqb andb negb Nat.ltb Nat.leb].
  destruct (C56_windows (fun _ _ f => snd f) example_returns (scale_table (sqrt 1) (map (fun _ _ => 2) example_returns)) 3 ltac:(lia) eq_refl) as [_ H].
  destruct (H ltac:(cbn; lia)) as [p [-> Ep]]. do 2 eexists. split; [reflexivity|].
  unfold corr_to_cov, cov_to_corr. rewrite Ep.
  change (length example_returns) with 9%nat. change (9 / 3)%nat with 3%nat. unfold known. change (length example_returns) with 9%nat. cbn [snd].
  assert (V : volatility_at example_returns (first_obs 9 3 3 (3 - 1)) 3 0 = 3).
  { unfold volatility_at, average_at. cbn. replace (_ / (1 + 1 + 1 - 1)) with (3 * 3) by field. apply sqrt_square. lra. }
  rewrite V, exp_ln by lra. replace (sqrt 4) with 2 by (symmetry; replace 4 with (2 * 2) by ring; apply sqrt_square; lra). field.
Qed.
Print Assumptions C56_windows.
Print Assumptions C56_layout.
Print Assumptions C56_causal.
Print Assumptions C56_fit.
Print Assumptions C56_accepts.
Print Assumptions C56_regression.
Print Assumptions C56_refit.
Print Assumptions C56_refit_refuted.
Print Assumptions C56_negative_refuted.
