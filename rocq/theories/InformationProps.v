(** C68: the mutual information distance is the documented variation of information, and a metric when the number of bins is given. *)
From Coq Require Import Reals Lra Lia List Bool Arith ZArith Permutation Sorting.Sorted.
From Verif Require Import RList EntropyProps InformationModel.
Import ListNotations.
Local Open Scope R_scope.

(** * Specification *)
(** the range cut in bins: from the smallest to the largest value, or one unit around a constant *)
Definition range (x : column) (lo hi : R) : Prop :=
  (In lo x /\ In hi x /\ lo < hi /\ forall v, In v x -> lo <= v <= hi) \/
  (exists c, (forall v, In v x -> v = c) /\ lo = c - 1/2 /\ hi = c + 1/2).
(** the c-th of k bins of equal width; the last one contains its right end *)
Definition in_bin (lo hi : R) (k c : nat) (v : R) : Prop :=
  (c < k)%nat /\ lo + INR c * ((hi - lo) / INR k) <= v /\ (v < lo + INR (c + 1) * ((hi - lo) / INR k) \/ (c + 1 = k)%nat /\ v <= hi).
(** c gives the bin of each observation of x *)
Definition classified (x : column) (k : nat) (c : nat -> nat) : Prop :=
  exists lo hi, range x lo hi /\ forall t, (t < length x)%nat -> in_bin lo hi k (c t) (nth t x 0).
(** the share of the T observations satisfying P *)
Definition share (T : nat) (P : nat -> bool) : R := sum_over (seq 0 T) (fun t => if P t then 1 else 0) / INR T.
Definition plogp (p : R) : R := p * ln p.
(** the entropy of a classification, and of two jointly *)
Definition entropy_of (T k : nat) (c : nat -> nat) : R := - sum_over (seq 0 k) (fun a => plogp (share T (fun t => c t =? a)%nat)).
Definition joint_entropy_of (T k : nat) (c d : nat -> nat) : R :=
  - sum_over (seq 0 k) (fun a => sum_over (seq 0 k) (fun b => plogp (share T (fun t => (c t =? a)%nat && (d t =? b)%nat)))).

(** * Bins *)
Lemma fold_min l x : fold_left Rmin l x <= x /\ (forall v, In v l -> fold_left Rmin l x <= v) /\ In (fold_left Rmin l x) (x :: l).
Proof.
  revert x. induction l as [|y l IH]; intros x; cbn; [split; [lra|split; [intros ? []|auto]]|].
  destruct (IH (Rmin x y)) as (A&B&C). pose proof (Rmin_l x y). pose proof (Rmin_r x y). split; [lra|]. split.
  - intros v [->|Hv]; [lra|auto].
  - destruct C as [C|C]; [|auto]. rewrite <- C. unfold Rmin. destruct (Rle_dec x y); auto.
Qed.
Lemma fold_max l x : x <= fold_left Rmax l x /\ (forall v, In v l -> v <= fold_left Rmax l x) /\ In (fold_left Rmax l x) (x :: l).
Proof.
  revert x. induction l as [|y l IH]; intros x; cbn; [split; [lra|split; [intros ? []|auto]]|].
  destruct (IH (Rmax x y)) as (A&B&C). pose proof (Rmax_l x y). pose proof (Rmax_r x y). split; [lra|]. split.
  - intros v [->|Hv]; [lra|auto].
  - destruct C as [C|C]; [|auto]. rewrite <- C. unfold Rmax. destruct (Rle_dec x y); auto.
Qed.
Lemma least_spec l : l <> [] -> In (least l) l /\ forall v, In v l -> least l <= v.
Proof. destruct l as [|x l]; [congruence|]. intros _. destruct (fold_min l x) as (A&B&C). cbn [least]. split; auto. intros v [->|Hv]; auto. Qed.
Lemma largest_spec l : l <> [] -> In (largest l) l /\ forall v, In v l -> v <= largest l.
Proof. destruct l as [|x l]; [congruence|]. intros _. destruct (fold_max l x) as (A&B&C). cbn [largest]. split; auto. intros v [->|Hv]; auto. Qed.
Lemma range_model l lo hi : l <> [] -> (range l lo hi <-> lo = first_edge l /\ hi = last_edge l).
Proof.
  intros Hl. destruct (least_spec l Hl) as [L1 L2]. destruct (largest_spec l Hl) as [M1 M2]. unfold range, first_edge, last_edge.
  destruct (Req_EM_T (least l) (largest l)) as [E|E]; split.
  - intros [(A&B&C&D)|(c&A&->&->)]; [pose proof (L2 _ A); pose proof (M2 _ B); pose proof (D _ L1); pose proof (D _ M1); lra|]. rewrite (A _ L1), (A _ M1). auto.
  - intros [-> ->]. right. exists (least l). split; [|lra]. intros v Hv. pose proof (L2 v Hv). pose proof (M2 v Hv). lra.
  - intros [(A&B&C&D)|(c&A&->&->)]; [|rewrite (A _ L1), (A _ M1) in E; congruence]. pose proof (L2 _ A). pose proof (M2 _ B). pose proof (D _ L1). pose proof (D _ M1). lra.
  - intros [-> ->]. left. pose proof (L2 _ M1). repeat split; auto. lra.
Qed.
Lemma edges_lt l : l <> [] -> first_edge l < last_edge l.
Proof.
  intros Hl. destruct (least_spec l Hl) as [L1 L2]. destruct (largest_spec l Hl) as [M1 M2]. unfold first_edge, last_edge. pose proof (L2 _ M1). destruct (Req_EM_T (least l) (largest l)); lra.
Qed.
Lemma edges_bound l v : l <> [] -> In v l -> first_edge l <= v <= last_edge l.
Proof.
  intros Hl Hv. destruct (least_spec l Hl) as [L1 L2]. destruct (largest_spec l Hl) as [M1 M2]. unfold first_edge, last_edge. pose proof (L2 _ Hv). pose proof (M2 _ Hv). destruct (Req_EM_T (least l) (largest l)); lra.
Qed.
(** counting a down-closed property of an interval of integers *)
Lemma count_prefix (P : nat -> bool) n : (forall c, (1 <= c)%nat -> (c + 1 <= n)%nat -> P (c + 1)%nat = true -> P c = true) ->
  let m := length (filter P (seq 1 n)) in (m <= n)%nat /\ (forall c, (1 <= c <= n)%nat -> (P c = true <-> (c <= m)%nat)).
Proof.
  induction n as [|n IH]; intros Hd; cbn zeta; [cbn; split; [lia|intros; lia]|].
  destruct IH as [A B]; [intros; apply Hd; auto; lia|]. rewrite seq_S, filter_app, app_length. cbn [filter length plus Nat.add]. cbn zeta in A, B.
  destruct (P (S n)) eqn:Q; cbn [length].
  - assert (F: length (filter P (seq 1 n)) = n).
    { destruct n; [reflexivity|]. assert (P (S n) = true) by (apply Hd; [lia|lia|]; rewrite Nat.add_1_r; exact Q). apply B in H; lia. }
    rewrite F. split; [lia|]. intros c Hc. destruct (Nat.eq_dec c (S n)) as [->|Nc]; [split; [lia|auto]|]. split; [lia|]. intros _. apply B; lia.
  - rewrite Nat.add_0_r. split; [lia|]. intros c Hc. destruct (Nat.eq_dec c (S n)) as [->|Nc]; [rewrite Q; split; [discriminate|lia]|]. apply B. lia.
Qed.
Lemma edge_step l k c c' : l <> [] -> (0 < k)%nat -> (c <= c')%nat -> edge l k c <= edge l k c'.
Proof.
  intros Hl Hk Hc. unfold edge. pose proof (edges_lt l Hl). apply Rplus_le_compat_l, Rmult_le_compat_r; [|apply le_INR; auto].
  apply Rmult_le_pos; [lra|]. left. apply Rinv_0_lt_compat, lt_0_INR. auto.
Qed.
Lemma bin_spec l k v c : l <> [] -> (0 < k)%nat -> In v l -> (bin l k v = c <-> in_bin (first_edge l) (last_edge l) k c v).
Proof.
  intros Hl Hk Hv. destruct (edges_bound l v Hl Hv) as [B1 B2].
  destruct (count_prefix (fun c => if Rle_dec (edge l k c) v then true else false) (k - 1)) as [A B].
  { intros d _ _ H. destruct (Rle_dec (edge l k (d + 1)) v); [|discriminate]. destruct (Rle_dec (edge l k d) v) as [|N]; auto. exfalso. apply N. eapply Rle_trans; [|eassumption]. apply edge_step; auto. lia. }
  fold (bin l k v) in A, B. set (m := bin l k v) in *.
  assert (Q: forall d, (1 <= d <= k - 1)%nat -> (edge l k d <= v <-> (d <= m)%nat)).
  { intros d Hd. rewrite <- (B d Hd). destruct (Rle_dec (edge l k d) v); split; intros; auto; discriminate. }
  assert (In0: in_bin (first_edge l) (last_edge l) k m v).
  { split; [lia|]. split.
    - change (edge l k m <= v). destruct (Nat.eq_dec m 0) as [->|N]; [unfold edge; cbn; lra|]. apply Q; lia.
    - destruct (Nat.eq_dec (m + 1) k) as [E|N]; [right; split; auto|]. left. change (v < edge l k (m + 1)). apply Rnot_le_lt. intros H. apply Q in H; lia. }
  split; [intros <-; exact In0|]. intros (C1&C2&C3). change (edge l k c <= v) in C2.
  assert (U: (c <= m)%nat). { destruct (Nat.eq_dec c 0); [lia|]. apply Q; [lia|auto]. }
  destruct (Nat.eq_dec m c) as [|N]; auto. exfalso. destruct C3 as [C3|[C3 _]]; [|lia]. assert (edge l k (c + 1) <= v) by (apply Q; lia). change (v < edge l k (c + 1)) in C3. lra.
Qed.
Lemma bin_lt l k v : l <> [] -> (0 < k)%nat -> In v l -> (bin l k v < k)%nat.
Proof. intros A B C. destruct (proj1 (bin_spec l k v _ A B C) eq_refl) as [Q _]. exact Q. Qed.
Definition cell (x : column) (k : nat) (t : nat) : nat := bin x k (nth t x 0).
Lemma classified_cell x k : x <> [] -> (0 < k)%nat -> classified x k (cell x k).
Proof. intros Hx Hk. exists (first_edge x), (last_edge x). split; [apply range_model; auto|]. intros t Ht. apply bin_spec; auto. apply nth_In. auto. Qed.
Lemma classified_unique x k c : x <> [] -> (0 < k)%nat -> classified x k c -> forall t, (t < length x)%nat -> c t = cell x k t.
Proof. intros Hx Hk (lo&hi&R&H) t Ht. apply range_model in R as [-> ->]; auto. symmetry. apply bin_spec; auto. apply nth_In. auto. Qed.

(** * The tables are the counts of the classes *)
Lemma count_sum {A} (p : A -> bool) (l : list A) d : INR (count p l) = sum_over (seq 0 (length l)) (fun t => ind (p (nth t l d))).
Proof.
  induction l as [|x l IH]; [reflexivity|]. unfold count in *. cbn [filter length seq]. rewrite so_cons, <- seq_shift, so_map. cbn [nth].
  destruct (p x); cbn [length ind]; rewrite ?S_INR, IH; lra.
Qed.
Lemma combine_nth_lt (x y : column) t : length x = length y -> nth t (combine x y) (0, 0) = (nth t x 0, nth t y 0).
Proof. intros. apply combine_nth. auto. Qed.

Lemma len_pos (x : column) : x <> [] -> (0 < length x)%nat. Proof. destruct x; [congruence|cbn; lia]. Qed.
Section Tables.
  Variables (x y : column) (k : nat).
  Hypothesis Hx : x <> [].
  Hypothesis Hk : (0 < k)%nat.
  Hypothesis len : length y = length x.
  Lemma Hy : y <> []. Proof. destruct y, x; cbn in *; congruence. Qed.
  Definition T' : nat := length x.
  Definition n1 (c : nat -> nat) (a : nat) : R := sum_over (seq 0 T') (fun t => ind (c t =? a)%nat).
  Definition n2 (c d : nat -> nat) (a b : nat) : R := sum_over (seq 0 T') (fun t => ind ((c t =? a)%nat && (d t =? b)%nat)).
  Lemma Tpos : 0 < INR T'. Proof. apply lt_0_INR, len_pos, Hx. Qed.
  Lemma share_n1 c a : share T' (fun t => c t =? a)%nat = n1 c a / INR T'. Proof. reflexivity. Qed.
  Lemma cell_lt t : (t < T')%nat -> (cell x k t < k)%nat. Proof. intros Ht. apply bin_lt; auto. apply nth_In. exact Ht. Qed.
  Lemma cell_lt_y t : (t < T')%nat -> (cell y k t < k)%nat. Proof. intros Ht. apply bin_lt; auto; [apply Hy|]. apply nth_In. unfold T' in Ht. lia. Qed.
  Lemma pick (a : nat) (g : nat -> R) : (a < k)%nat -> sum_over (seq 0 k) (fun b => ind (a =? b)%nat * g b) = g a.
  Proof. clear Hx Hk len.
    intros Ha. assert (In a (seq 0 k)) by (apply in_seq; lia). assert (Nd: NoDup (seq 0 k)) by apply seq_NoDup. revert H Nd. generalize (seq 0 k). induction l as [|b l IH]; [intros []|]. intros [->|H] Nd.
    - rewrite so_cons, Nat.eqb_refl. cbn [ind]. inversion Nd; subst. rewrite so_zero; [lra|]. intros b Hb. destruct (Nat.eqb_spec a b); [subst; contradiction|cbn; lra].
    - inversion Nd; subst. rewrite so_cons, IH; auto. destruct (Nat.eqb_spec a b); [subst; contradiction|cbn; lra].
  Qed.
  Lemma by_class c g : (forall t, (t < T')%nat -> (c t < k)%nat) -> sum_over (seq 0 k) (fun a => n1 c a * g a) = sum_over (seq 0 T') (fun t => g (c t)).
  Proof. clear Hx Hk len.
    intros Hc. unfold n1. rewrite (so_ext _ (fun a => sum_over (seq 0 T') (fun t => ind (c t =? a)%nat * g a))) by (intros; rewrite so_scal_r; reflexivity).
    rewrite so_swap. apply so_ext. intros t Ht. apply in_seq in Ht. apply pick. apply Hc. lia.
  Qed.
  Lemma by_class2 c d g : (forall t, (t < T')%nat -> (c t < k)%nat) -> (forall t, (t < T')%nat -> (d t < k)%nat) ->
    sum_over (seq 0 k) (fun a => sum_over (seq 0 k) (fun b => n2 c d a b * g a b)) = sum_over (seq 0 T') (fun t => g (c t) (d t)).
  Proof. clear Hx Hk len.
    intros Hc Hd. unfold n2. rewrite (so_ext _ (fun a => sum_over (seq 0 T') (fun t => ind (c t =? a)%nat * g a (d t)))).
    - rewrite so_swap. apply so_ext. intros t Ht. apply in_seq in Ht. apply (pick (c t) (fun a => g a (d t))). apply Hc. lia.
    - intros a _. rewrite (so_ext _ (fun b => sum_over (seq 0 T') (fun t => ind (d t =? b)%nat * (ind (c t =? a)%nat * g a b)))).
      + rewrite so_swap. apply so_ext. intros t Ht. apply in_seq in Ht. apply (pick (d t) (fun b => ind (c t =? a)%nat * g a b)). apply Hd. lia.
      + intros b _. rewrite <- so_scal_r. apply so_ext. intros t _. destruct (c t =? a)%nat, (d t =? b)%nat; cbn; lra.
  Qed.
  (** entropies in terms of the sizes of the classes *)
  Definition same (c : nat -> nat) : nat -> nat -> bool := fun s t => (c s =? c t)%nat.
  Lemma same_equiv c : equiv nat (same c).
  Proof.
    split; unfold same; intros; [apply Nat.eqb_refl|apply Nat.eqb_sym|]. apply Nat.eqb_eq in H, H0. apply Nat.eqb_eq. congruence.
  Qed.
  Definition L : list nat := seq 0 T'.
  Lemma L_T : T nat L = INR T'. Proof. unfold T, L. rewrite seq_length. reflexivity. Qed.
  Lemma L_ne : L <> []. Proof. clear len Hk. unfold L, T'. pose proof (len_pos x Hx) as P. destruct (length x); [inversion P|discriminate]. Qed.
  Lemma size1 c t : size nat L (same c) t = n1 c (c t).
  Proof. clear Hx Hk len. unfold size, n1, same, L. apply so_ext. intros s _. rewrite Nat.eqb_sym. reflexivity. Qed.
  Lemma size2 c d t : size nat L (both nat (same c) (same d)) t = n2 c d (c t) (d t).
  Proof. clear Hx Hk len. unfold size, n2, both, same, L. apply so_ext. intros s _. rewrite (Nat.eqb_sym (c t)), (Nat.eqb_sym (d t)). reflexivity. Qed.
  Lemma entropy1_E c : (forall t, (t < T')%nat -> (c t < k)%nat) -> entropy_of T' k c = E nat L (same c).
  Proof. clear Hx Hk len.
    intros Hc. unfold entropy_of, E. rewrite L_T. rewrite (so_ext (fun a => plogp _) (fun a => n1 c a * (ln (n1 c a / INR T') * / INR T'))).
    - rewrite by_class by exact Hc. rewrite (so_ext (fun t => - ln (size nat L (same c) t / INR T')) (fun t => - (ln (n1 c (c t) / INR T')))) by (intros; rewrite size1; reflexivity).
      rewrite so_opp, so_scal_r. unfold Rdiv, L. ring.
    - intros a _. unfold plogp. rewrite share_n1. unfold Rdiv. ring.
  Qed.
  Lemma entropy2_E c d : (forall t, (t < T')%nat -> (c t < k)%nat) -> (forall t, (t < T')%nat -> (d t < k)%nat) -> joint_entropy_of T' k c d = E nat L (both nat (same c) (same d)).
  Proof. clear Hx Hk len.
    intros Hc Hd. unfold joint_entropy_of, E. rewrite L_T. rewrite (so_ext (fun a => sum_over _ _) (fun a => sum_over (seq 0 k) (fun b => n2 c d a b * (ln (n2 c d a b / INR T') * / INR T')))).
    - rewrite (by_class2 c d (fun a b => ln (n2 c d a b / INR T') * / INR T')) by auto. rewrite (so_ext (fun t => - ln (size nat L _ t / INR T')) (fun t => - (ln (n2 c d (c t) (d t) / INR T')))) by (intros; rewrite size2; reflexivity).
      rewrite so_opp, so_scal_r. unfold Rdiv, L. ring.
    - intros a _. apply so_ext. intros b _. unfold plogp, share. change (sum_over (seq 0 T') (fun t => if (c t =? a)%nat && (d t =? b)%nat then 1 else 0)) with (n2 c d a b). unfold Rdiv. ring.
  Qed.
  Lemma ind_if b : (if b : bool then 1 else 0) = ind b. Proof. reflexivity. Qed.
  (** the model's tables *)
  Lemma hist_x a : (a < k)%nat -> INR (nth a (histogram x k) 0%nat) = n1 (cell x k) a.
  Proof. clear len.
    intros Ha. unfold histogram. rewrite (nth_indep _ _ (count (fun v => Nat.eqb (bin x k v) 0) x)) by (rewrite map_length, seq_length; auto).
    rewrite (map_nth (fun a => count (fun v => Nat.eqb (bin x k v) a) x)), seq_nth by auto. rewrite (count_sum _ _ 0). reflexivity.
  Qed.
  Lemma hist2 a b : (a < k)%nat -> (b < k)%nat -> INR (nth b (nth a (histogram2d x y k) []) 0%nat) = n2 (cell x k) (cell y k) a b.
  Proof.
    intros Ha Hb. unfold histogram2d. set (F := fun a b => count (fun p => andb (Nat.eqb (bin x k (fst p)) a) (Nat.eqb (bin y k (snd p)) b)) (combine x y)).
    change (INR (nth b (nth a (map (fun a => map (F a) (seq 0 k)) (seq 0 k)) []) 0%nat) = n2 (cell x k) (cell y k) a b).
    rewrite (nth_indep _ [] (map (F 0%nat) (seq 0 k))) by (rewrite map_length, seq_length; auto). rewrite (map_nth (fun a => map (F a) (seq 0 k))), seq_nth by auto. cbn [plus Nat.add].
    rewrite (nth_indep _ 0%nat (F a 0%nat)) by (rewrite map_length, seq_length; auto). rewrite map_nth, seq_nth by auto. cbn [plus Nat.add].
    unfold F. rewrite (count_sum _ _ (0, 0)), combine_length, len, Nat.min_id. apply so_ext. intros t _. rewrite combine_nth_lt by auto. reflexivity.
  Qed.
  Lemma rsum_nth (l : list nat) : rsum (map INR l) = sum_over (seq 0 (length l)) (fun a => INR (nth a l 0%nat)).
  Proof. clear len. induction l as [|c l IH]; [reflexivity|]. cbn [map length seq]. rewrite rsum_cons, so_cons, <- seq_shift, so_map, IH. reflexivity. Qed.
  Lemma hist_len : length (histogram x k) = k. Proof. clear len. unfold histogram. rewrite map_length, seq_length. reflexivity. Qed.
  Lemma n1_total c : (forall t, (t < T')%nat -> (c t < k)%nat) -> sum_over (seq 0 k) (n1 c) = INR T'.
  Proof. clear Hx Hk len. intros Hc. rewrite (so_ext _ (fun a => n1 c a * 1)) by (intros; lra). rewrite (by_class c (fun _ => 1)) by auto. rewrite so_const, seq_length. lra. Qed.
  Lemma entropy_x : entropy (histogram x k) = entropy_of T' k (cell x k).
  Proof. clear len.
    unfold entropy. rewrite rsum_nth, hist_len. rewrite (so_ext _ (n1 (cell x k))) by (intros a Ha; apply in_seq in Ha; apply hist_x; lia). rewrite n1_total by apply cell_lt.
    assert (G: forall (l : list nat) g, rsum (map g l) = sum_over (seq 0 (length l)) (fun a => g (nth a l 0%nat) : R)).
    { induction l as [|c l IH]; intros g; [reflexivity|]. cbn [map length seq]. rewrite rsum_cons, so_cons, <- seq_shift, so_map, IH. reflexivity. }
    rewrite G, hist_len. unfold entropy_of. rewrite <- so_opp. apply so_ext. intros a Ha. apply in_seq in Ha. rewrite hist_x by lia. rewrite share_n1. unfold entr, plogp. destruct (Req_EM_T _ 0) as [Z|Z]; [rewrite Z; lra|reflexivity].
  Qed.
  Lemma n2_row c d a : (forall t, (t < T')%nat -> (d t < k)%nat) -> sum_over (seq 0 k) (n2 c d a) = n1 c a.
  Proof. clear Hx Hk len.
    intros Hd. unfold n2, n1. rewrite so_swap. apply so_ext. intros t Ht. apply in_seq in Ht.
    rewrite (so_ext _ (fun b => ind (d t =? b)%nat * ind (c t =? a)%nat)) by (intros; destruct (c t =? a)%nat, (d t =? x0)%nat; cbn; lra). apply (pick (d t) (fun _ => ind (c t =? a)%nat)). apply Hd. lia.
  Qed.
  Lemma n2_col c d b : (forall t, (t < T')%nat -> (c t < k)%nat) -> sum_over (seq 0 k) (fun a => n2 c d a b) = n1 d b.
  Proof. clear Hx Hk len.
    intros Hc. unfold n2, n1. rewrite so_swap. apply so_ext. intros t Ht. apply in_seq in Ht.
    rewrite (so_ext _ (fun a => ind (c t =? a)%nat * ind (d t =? b)%nat)) by (intros; destruct (c t =? x0)%nat, (d t =? b)%nat; cbn; lra). apply (pick (c t) (fun _ => ind (d t =? b)%nat)). apply Hc. lia.
  Qed.
  Lemma h2_len : length (histogram2d x y k) = k. Proof. unfold histogram2d. rewrite map_length, seq_length. reflexivity. Qed.
  Lemma h2_row a : (a < k)%nat -> length (nth a (histogram2d x y k) []) = k.
  Proof.
    intros Ha. unfold histogram2d. match goal with |- context [map ?F (seq 0 k)] => rewrite (nth_indep _ [] (F 0%nat)) by (rewrite map_length, seq_length; auto); rewrite (map_nth F) end. rewrite map_length, seq_length. reflexivity.
  Qed.
  Lemma row_sum_n a : (a < k)%nat -> row_sum (histogram2d x y k) a = n1 (cell x k) a.
  Proof.
    intros Ha. unfold row_sum. rewrite rsum_nth, h2_row by auto. rewrite <- (n2_row (cell x k) (cell y k)) by apply cell_lt_y. apply so_ext. intros b Hb. apply in_seq in Hb. apply hist2; lia.
  Qed.
  Lemma rsum_rows (l : list (list nat)) g : rsum (map g l) = sum_over (seq 0 (length l)) (fun a => g (nth a l []) : R).
  Proof. induction l as [|c l IH]; [reflexivity|]. cbn [map length seq]. rewrite rsum_cons, so_cons, <- seq_shift, so_map, IH. reflexivity. Qed.
  Lemma column_sum_n b : (b < k)%nat -> column_sum (histogram2d x y k) b = n1 (cell y k) b.
  Proof.
    intros Hb. unfold column_sum. rewrite rsum_rows, h2_len. rewrite <- (n2_col (cell x k) (cell y k)) by apply cell_lt. apply so_ext. intros a Ha. apply in_seq in Ha. apply hist2; lia.
  Qed.
  Lemma table_sum_n : table_sum (histogram2d x y k) = INR T'.
  Proof.
    unfold table_sum. rewrite rsum_rows, h2_len. rewrite <- (n1_total (cell x k)) by apply cell_lt. apply so_ext. intros a Ha. apply in_seq in Ha. apply row_sum_n. lia.
  Qed.
  Lemma n1_pos c t : (t < T')%nat -> 1 <= n1 c (c t).
  Proof. clear len. intros Ht. rewrite <- size1. apply size_ge; [apply same_equiv|]. unfold L. apply in_seq. lia. Qed.
  Lemma n2_pos c d t : (t < T')%nat -> 1 <= n2 c d (c t) (d t).
  Proof. clear len. intros Ht. rewrite <- size2. apply size_ge; [apply equiv_both; apply same_equiv|]. unfold L. apply in_seq. lia. Qed.
  Lemma n2_le1 c d a b : n2 c d a b <= n1 c a.
  Proof. unfold n2, n1. apply so_le. intros t _. destruct (c t =? a)%nat, (d t =? b)%nat; cbn; lra. Qed.
  Lemma n2_le2 c d a b : n2 c d a b <= n1 d b.
  Proof. unfold n2, n1. apply so_le. intros t _. destruct (c t =? a)%nat, (d t =? b)%nat; cbn; lra. Qed.
  Lemma n2_nonneg c d a b : 0 <= n2 c d a b. Proof. apply so_nonneg. intros; apply ind_01. Qed.
  Definition h (c : nat -> nat) : R := E nat L (same c).
  Definition hh (c d : nat -> nat) : R := E nat L (both nat (same c) (same d)).
  Lemma hh_ge1 c d : h c <= hh c d.
  Proof. clear len. apply E_mono; [apply L_ne|apply equiv_both; apply same_equiv|apply same_equiv|]. unfold both. intros s t Q. apply andb_true_iff in Q. tauto. Qed.
  Lemma hh_ge2 c d : h d <= hh c d.
  Proof. clear len. apply E_mono; [apply L_ne|apply equiv_both; apply same_equiv|apply same_equiv|]. unfold both. intros s t Q. apply andb_true_iff in Q. tauto. Qed.
  Lemma hh_sym c d : hh c d = hh d c.
  Proof. unfold hh, E. f_equal. apply so_ext. intros t _. do 3 f_equal. unfold size. apply so_ext. intros s _. f_equal. unfold both. apply andb_comm. Qed.
  Lemma h_nonneg c : 0 <= h c. Proof. clear len. apply E_nonneg; [apply L_ne|apply same_equiv]. Qed.
  Lemma E_ext r r' : (forall s t, r s t = r' s t) -> E nat L r = E nat L r'.
  Proof. intros H. unfold E. f_equal. apply so_ext. intros t _. do 3 f_equal. unfold size. apply so_ext. intros s _. f_equal. apply H. Qed.
  Lemma hh_sub c d : hh c d <= h c + h d.
  Proof. clear len.
    pose proof (submodular nat L L_ne (same c) (same d) (anything nat) (same_equiv c) (same_equiv d) (equiv_anything nat)) as S. rewrite E_anything in S by apply L_ne.
    rewrite (E_ext (both nat (same c) (anything nat)) (same c)) in S by (intros; unfold both, anything; rewrite andb_true_r; reflexivity).
    rewrite (E_ext (both nat (same d) (anything nat)) (same d)) in S by (intros; unfold both, anything; rewrite andb_true_r; reflexivity).
    rewrite (E_ext (both nat (both nat (same c) (same d)) (anything nat)) (both nat (same c) (same d))) in S by (intros; unfold both, anything; rewrite andb_true_r; reflexivity). unfold hh, h. lra.
  Qed.
  Lemma hh_tri c d e : hh c d + h e <= hh c e + hh d e.
  Proof. clear len.
    pose proof (submodular nat L L_ne (same c) (same d) (same e) (same_equiv c) (same_equiv d) (same_equiv e)) as S.
    assert (M: hh c d <= E nat L (both nat (both nat (same c) (same d)) (same e))).
    { apply E_mono; [apply L_ne|apply equiv_both; [apply equiv_both|]; apply same_equiv|apply equiv_both; apply same_equiv|]. intros s t Q. unfold both in *. apply andb_true_iff in Q. tauto. }
    unfold hh, h in *. lra.
  Qed.
  Lemma hh_self c : hh c c = h c. Proof. apply E_ext. intros. unfold both. apply andb_diag. Qed.
  Lemma mutual_information : mutual_info_score k (histogram2d x y k) = h (cell x k) + h (cell y k) - hh (cell x k) (cell y k).
  Proof.
    set (cx := cell x k). set (cy := cell y k). pose proof (hh_sub cx cy) as NN.
    unfold mutual_info_score. destruct (Nat.eqb_spec k 1) as [K1|K1].
    - assert (Z: forall c, (forall t, (t < T')%nat -> (c t < k)%nat) -> forall r, (forall s t, In s L -> In t L -> r s t = true) -> E nat L r = 0).
      { intros c Hc r Hr. unfold E. rewrite so_zero; [unfold Rdiv; lra|]. intros t Ht. assert (X: size nat L r t = INR T').
        { unfold size. rewrite (so_ext _ (fun _ => 1)) by (intros; rewrite Hr; auto). rewrite so_const. unfold L. rewrite seq_length. lra. }
        rewrite X, L_T. unfold Rdiv. rewrite Rinv_r by (pose proof Tpos; lra). rewrite ln_1. lra. }
      assert (Q: forall c, (forall t, (t < T')%nat -> (c t < k)%nat) -> forall s t, In s L -> In t L -> same c s t = true).
      { intros c Hc s t Hs Ht. unfold L in *. apply in_seq in Hs, Ht. unfold same. apply Nat.eqb_eq. pose proof (Hc s). pose proof (Hc t). lia. }
      unfold h, hh. rewrite !(Z cx); auto using cell_lt; [lra|..]; intros s t Hs Ht; unfold both; rewrite ?(Q cx cell_lt), ?(Q cy cell_lt_y) by auto; reflexivity.
    - cbv zeta. rewrite table_sum_n.
      match goal with |- Rmax 0 ?S = _ => assert (Z: S = h cx + h cy - hh cx cy) end; [|rewrite Z; apply Rmax_right; lra].
      match goal with |- rsum (map (fun a => rsum (map (@?term a) (seq 0 k))) (seq 0 k)) = _ =>
        transitivity (sum_over (seq 0 k) (fun a => sum_over (seq 0 k) (fun b => n2 cx cy a b * ((ln (n2 cx cy a b) + ln (INR T') - ln (n1 cx a * n1 cy b)) / INR T')))) end.
      + apply so_ext. intros a Ha. apply so_ext. intros b Hb. apply in_seq in Ha, Hb. rewrite hist2, row_sum_n, column_sum_n by lia. fold cx cy.
        destruct (Req_EM_T _ 0) as [Q|Q]; [rewrite Q; lra|]. unfold Rdiv. ring.
      + rewrite (by_class2 cx cy (fun a b => (ln (n2 cx cy a b) + ln (INR T') - ln (n1 cx a * n1 cy b)) / INR T')) by (apply cell_lt || apply cell_lt_y).
        unfold h, hh, E. unfold Rdiv. rewrite so_scal_r, <- Rmult_plus_distr_r, <- Rmult_minus_distr_r, L_T. f_equal. rewrite <- so_add, <- so_sub. apply so_ext. intros t Ht. fold L in Ht.
        pose proof (term_split nat L L_ne (same cx) t (same_equiv cx) Ht) as S1. pose proof (term_split nat L L_ne (same cy) t (same_equiv cy) Ht) as S2.
        pose proof (term_split nat L L_ne (both nat (same cx) (same cy)) t (equiv_both _ _ _ (same_equiv cx) (same_equiv cy)) Ht) as S3. rewrite L_T, size1 in S1, S2. rewrite L_T, size2 in S3.
        rewrite !size1, size2. unfold Rdiv in S1, S2, S3. rewrite S1, S2, S3. unfold L in Ht. apply in_seq in Ht. pose proof (n1_pos cx t). pose proof (n1_pos cy t). rewrite ln_mult by (assert ((t < T')%nat) by lia; intuition lra). lra.
  Qed.
End Tables.

(** * One pair *)
Lemma share_ext T P Q : (forall t, (t < T)%nat -> P t = Q t) -> share T P = share T Q.
Proof. intros H. unfold share. f_equal. apply so_ext. intros t Ht. apply in_seq in Ht. rewrite H by lia. reflexivity. Qed.
Lemma entropy_of_ext T k c d : (forall t, (t < T)%nat -> c t = d t) -> entropy_of T k c = entropy_of T k d.
Proof. intros H. unfold entropy_of. f_equal. apply so_ext. intros a _. f_equal. apply share_ext. intros. rewrite H; auto. Qed.
Lemma joint_ext T k c d c' d' : (forall t, (t < T)%nat -> c t = c' t) -> (forall t, (t < T)%nat -> d t = d' t) -> joint_entropy_of T k c d = joint_entropy_of T k c' d'.
Proof. intros H H'. unfold joint_entropy_of. f_equal. apply so_ext. intros a _. apply so_ext. intros b _. f_equal. apply share_ext. intros. rewrite H, H'; auto. Qed.
Lemma h_len x y c : length y = length x -> h y c = h x c.
Proof. intros E. unfold h, L, T'. rewrite E. reflexivity. Qed.

(** the distance of a pair from its entropies *)
Definition information (norm : bool) (hx hy hxy : R) : num * num :=
  let I := hx + hy - hxy in
  if norm then (if Req_EM_T (Rmin hx hy) 0 then NaN else Num (I / Rmin hx hy), Num (if Req_EM_T hxy 0 then 0 else (hxy - I) / hxy))
  else (Num I, Num (hxy - I)).
Lemma pair_spec knuth st x y k : x <> [] -> length y = length x -> k = Nat.max (bins_of knuth st x) (bins_of knuth st y) -> (0 < k)%nat ->
  pair knuth st x y = Ok (information (normalize st) (h x (cell x k)) (h x (cell y k)) (hh x (cell x k) (cell y k))).
Proof.
  intros Hx Hl Hk Hpos. assert (Hy': y <> []) by (destruct y, x; cbn in *; congruence).
  unfold pair. rewrite <- Hk. destruct (Nat.eqb_spec k 0); [lia|]. cbv zeta.
  rewrite (mutual_information x y k Hx Hpos Hl), (entropy_x x k Hx Hpos), (entropy_x y k Hy' Hpos). rewrite (entropy1_E x k), (entropy1_E y k) by (intros; apply cell_lt; auto).
  fold (h x (cell x k)) (h y (cell y k)). rewrite (h_len x y _ Hl). set (a := h x (cell x k)). set (b := h x (cell y k)). set (c := hh x (cell x k) (cell y k)).
  pose proof (hh_ge1 x Hx (cell x k) (cell y k)) as G1. pose proof (hh_ge2 x Hx (cell x k) (cell y k)) as G2. pose proof (h_nonneg x Hx (cell x k)) as N1. pose proof (h_nonneg x Hx (cell y k)) as N2. pose proof (hh_sub x Hx (cell x k) (cell y k)) as S.
  fold a in G1, N1, S. fold b in G2, N2, S. fold c in G1, G2, S. unfold information. replace (a + b - (a + b - c)) with c by ring. replace (a + b - 2 * (a + b - c)) with (c - (a + b - c)) by ring.
  destruct (normalize st); f_equal; [|rewrite Rmax_right by lra; reflexivity]. f_equal.
  - unfold divide. destruct (Req_EM_T (Rmin a b) 0) as [M|M]; auto. destruct (Req_EM_T (a + b - c) 0) as [Z|Z]; auto. exfalso. apply Z.
    unfold Rmin in M. destruct (Rle_dec a b); lra.
  - unfold divide. destruct (Req_EM_T c 0) as [C|C].
    + destruct (Req_EM_T (c - (a + b - c)) 0) as [Z|Z]; [reflexivity|exfalso; apply Z; lra].
    + cbn [max0]. rewrite Rmax_right; [reflexivity|]. apply Rmult_le_pos; [lra|]. left. apply Rinv_0_lt_compat. lra.
Qed.
Lemma information_sym norm hx hy hxy : information norm hx hy hxy = information norm hy hx hxy.
Proof. unfold information. rewrite (Rmin_comm hx hy), (Rplus_comm hx hy). reflexivity. Qed.
Lemma pair_sym knuth st x y : x <> [] -> length y = length x -> pair knuth st x y = pair knuth st y x.
Proof.
  intros Hx Hl. assert (Hy': y <> []) by (destruct y, x; cbn in *; congruence). destruct (Nat.eq_dec (Nat.max (bins_of knuth st x) (bins_of knuth st y)) 0) as [Z|Z].
  - unfold pair. rewrite (Nat.max_comm (bins_of knuth st y)), Z. reflexivity.
  - rewrite (pair_spec knuth st x y _ Hx Hl eq_refl) by lia. rewrite (pair_spec knuth st y x (Nat.max (bins_of knuth st x) (bins_of knuth st y)) Hy' (eq_sym Hl)) by lia.
    set (k := Nat.max _ _). rewrite information_sym. rewrite !(h_len x y _ Hl). assert (X: hh y (cell y k) (cell x k) = hh x (cell x k) (cell y k)); [|rewrite X; reflexivity].
    rewrite hh_sym. unfold hh, L, T'. rewrite Hl. reflexivity.
Qed.

(** * Theorems *)
(** every observation falls in exactly one bin *)
Theorem C68_bins : forall x k, x <> [] -> (0 < k)%nat ->
  (exists c, classified x k c) /\ forall c d, classified x k c -> classified x k d -> forall t, (t < length x)%nat -> c t = d t.
Proof.
  intros x k Hx Hk. split; [exists (cell x k); apply classified_cell; auto|]. intros c d Hc Hd t Ht. rewrite (classified_unique x k c Hx Hk Hc t Ht), (classified_unique x k d Hx Hk Hd t Ht). reflexivity.
Qed.
Print Assumptions C68_bins.

(** the codependence is the mutual information and the distance the variation of information, of the binned observations *)
Theorem C68_variation_of_information : forall n_bins_knuth st X i j T k cx cy,
  (0 < T)%nat -> length (X i) = T -> length (X j) = T ->
  k = Nat.max (bins_of n_bins_knuth st (X i)) (bins_of n_bins_knuth st (X j)) -> (0 < k)%nat ->
  classified (X i) k cx -> classified (X j) k cy ->
  let hx := entropy_of T k cx in let hy := entropy_of T k cy in let hxy := joint_entropy_of T k cx cy in
  let I := hx + hy - hxy in
  (0 <= I <= Rmin hx hy /\ Rmax hx hy <= hxy) /\
  (normalize st = false -> codependence n_bins_knuth st X i j = Ok (Num I) /\ distance n_bins_knuth st X i j = Ok (Num (hxy - I))) /\
  (normalize st = true ->
     (0 < Rmin hx hy -> codependence n_bins_knuth st X i j = Ok (Num (I / Rmin hx hy))) /\
     (0 < hxy -> distance n_bins_knuth st X i j = Ok (Num ((hxy - I) / hxy)) /\ 0 <= (hxy - I) / hxy <= 1)).
Proof.
  intros knuth st X i j T k cx cy HT Hi Hj Hk Hpos Cx Cy hx hy hxy I.
  assert (Hx: X i <> []) by (intros Z; rewrite Z in Hi; cbn in Hi; lia). assert (Hl: length (X j) = length (X i)) by congruence. assert (Hy': X j <> []) by (intros Z; rewrite Z in Hj; cbn in Hj; lia).
  assert (Ex: hx = h (X i) (cell (X i) k)).
  { unfold hx. rewrite (entropy_of_ext _ _ _ (cell (X i) k)) by (intros; apply classified_unique; auto; lia). subst T. apply (entropy1_E (X i) k). intros; apply cell_lt; auto. }
  assert (Ey: hy = h (X i) (cell (X j) k)).
  { unfold hy. rewrite (entropy_of_ext _ _ _ (cell (X j) k)) by (intros; apply classified_unique; auto; lia). rewrite <- (h_len _ _ _ Hl), <- Hj. apply (entropy1_E (X j) k). intros; apply cell_lt; auto. }
  assert (Exy: hxy = hh (X i) (cell (X i) k) (cell (X j) k)).
  { unfold hxy. rewrite (joint_ext _ _ _ _ (cell (X i) k) (cell (X j) k)) by (intros; apply classified_unique; auto; lia). subst T. apply (entropy2_E (X i) k); intros; [apply cell_lt; auto|apply cell_lt; auto; unfold T' in *; lia]. }
  assert (P: entry knuth st X i j = Ok (information (normalize st) hx hy hxy)).
  { unfold entry. rewrite (pair_sym knuth st (X j) (X i)) by auto. rewrite (pair_spec knuth st (X i) (X j) k) by auto. rewrite Ex, Ey, Exy. destruct (i <=? j)%nat; reflexivity. }
  pose proof (hh_ge1 _ Hx (cell (X i) k) (cell (X j) k)) as G1. pose proof (hh_ge2 _ Hx (cell (X i) k) (cell (X j) k)) as G2. pose proof (h_nonneg _ Hx (cell (X i) k)) as N1. pose proof (h_nonneg _ Hx (cell (X j) k)) as N2. pose proof (hh_sub _ Hx (cell (X i) k) (cell (X j) k)) as S.
  rewrite <- Ex in *. rewrite <- Ey in *. rewrite <- Exy in *. clearbody hx hy hxy. unfold codependence, distance. rewrite P. unfold information. fold I. split.
  - unfold I. unfold Rmin, Rmax. destruct (Rle_dec hx hy); lra.
  - split; intros ->; [auto|]. split.
    + intros M. destruct (Req_EM_T _ 0); [lra|reflexivity].
    + intros M. destruct (Req_EM_T hxy 0); [lra|]. split; [reflexivity|]. split.
      * apply Rmult_le_pos; [unfold I; lra|]. left. apply Rinv_0_lt_compat. auto.
      * apply (Rmult_le_reg_r hxy); auto. unfold Rdiv. rewrite Rmult_assoc, Rinv_l by lra. unfold I. lra.
Qed.
Print Assumptions C68_variation_of_information.

(** with a given number of bins the distances form a metric, for the observations seen through the bins *)
Theorem C68_metric : forall n_bins_knuth st X T k,
  n_bins st = Some k -> (0 < k)%nat -> (0 < T)%nat -> (forall i, length (X i) = T) ->
  exists d : nat -> nat -> R,
    (forall i j, distance n_bins_knuth st X i j = Ok (Num (d i j))) /\
    (forall i j, 0 <= d i j /\ d i j = d j i /\ d i i = 0) /\
    (forall i j m, d i j <= d i m + d m j) /\
    (forall i j c c', classified (X i) k c -> classified (X j) k c' ->
       (d i j = 0 <-> forall s t, (s < T)%nat -> (t < T)%nat -> (c s = c t <-> c' s = c' t))).
Proof.
  intros knuth st X T k Hk Hpos HT Hl.
  assert (Hx: forall i, X i <> []) by (intros i Z; specialize (Hl i); rewrite Z in Hl; cbn in Hl; lia).
  set (x0 := X 0%nat). set (c := fun i => cell (X i) k). set (hx := fun i => h x0 (c i)). set (hxy := fun i j => hh x0 (c i) (c j)).
  set (d := fun i j => let I := hx i + hx j - hxy i j in if normalize st then (if Req_EM_T (hxy i j) 0 then 0 else (hxy i j - I) / hxy i j) else hxy i j - I).
  assert (Hy0: forall i j, hh (X i) (c i) (c j) = hxy i j) by (intros; unfold hxy, hh, L, T', x0; rewrite !Hl; reflexivity).
  assert (Hh0: forall i j, h (X i) (c j) = hx j) by (intros; unfold hx, h, L, T', x0; rewrite !Hl; reflexivity).
  assert (B: forall i, bins_of knuth st (X i) = k) by (intros; unfold bins_of; rewrite Hk; reflexivity).
  assert (G: forall i j, hx i <= hxy i j /\ hx j <= hxy i j /\ 0 <= hx i /\ 0 <= hx j /\ hxy i j <= hx i + hx j).
  { intros i j. unfold hx, hxy. repeat split; [apply hh_ge1|apply hh_ge2|apply h_nonneg|apply h_nonneg|apply hh_sub]; apply Hx. }
  assert (Tri: forall i j m, hxy i j + hx m <= hxy i m + hxy j m) by (intros; unfold hx, hxy; apply hh_tri; apply Hx).
  assert (Sy: forall i j, hxy i j = hxy j i) by (intros; apply hh_sym).
  assert (Self: forall i, hxy i i = hx i) by (intros; apply hh_self).
  exists d. split; [|split; [|split]].
  - intros i j. unfold distance, entry. rewrite (pair_sym knuth st (X j) (X i)) by (auto; rewrite !Hl; reflexivity). rewrite (pair_spec knuth st (X i) (X j) k) by (auto; rewrite ?B, ?Hl; lia).
    fold (c i) (c j). rewrite Hh0, Hh0, Hy0. unfold information, d. destruct (i <=? j)%nat, (normalize st); reflexivity.
  - intros i j. unfold d. cbv zeta. rewrite (Sy j i), (Rplus_comm (hx j)). destruct (G i j) as (A1&A2&A3&A4&A5). destruct (normalize st).
    + split; [|split; [reflexivity|]].
      * destruct (Req_EM_T _ 0); [lra|]. apply Rmult_le_pos; [lra|]. left. apply Rinv_0_lt_compat. lra.
      * destruct (Req_EM_T _ 0); [reflexivity|]. rewrite Self. unfold Rdiv. ring.
    + rewrite Self. split; [lra|split; [reflexivity|lra]].
  - intros i j m. unfold d. cbv zeta. pose proof (Tri i j m) as T1. pose proof (Tri i m j) as T2. pose proof (Tri m j i) as T3. rewrite (Sy j m) in T1. rewrite (Sy m j) in *. rewrite (Sy j m) in *. rewrite (Sy m i), (Sy j i) in T3.
    destruct (G i j) as (A1&A2&A3&A4&A5). destruct (G i m) as (B1&B2&B3&B4&B5). destruct (G m j) as (C1&C2&C3&C4&C5).
    destruct (normalize st); [|lra].
    destruct (Req_EM_T (hxy i j) 0) as [Z|Z].
    { assert (Q: forall a b, 0 <= a -> 0 <= b -> 0 <= a + b) by (intros; lra). apply Q.
      - destruct (Req_EM_T (hxy i m) 0); [lra|]. apply Rmult_le_pos; [lra|]. left. apply Rinv_0_lt_compat. lra.
      - destruct (Req_EM_T (hxy m j) 0); [lra|]. apply Rmult_le_pos; [lra|]. left. apply Rinv_0_lt_compat. lra. }
    destruct (Req_EM_T (hxy i m) 0) as [Z1|Z1].
    { (* i and m carry no information: the distances to j are equal *)
      destruct (Req_EM_T (hxy m j) 0) as [Z2|Z2]; [exfalso; lra|]. assert (hx i = 0) by lra. assert (hx m = 0) by lra. assert (hxy i j = hxy m j) by lra. replace (hx i + hx j - hxy i j) with (hx m + hx j - hxy m j) by lra. rewrite H1. lra. }
    destruct (Req_EM_T (hxy m j) 0) as [Z2|Z2].
    { assert (hx j = 0) by lra. assert (hx m = 0) by lra. assert (hxy i j = hxy i m) by lra. replace (hx i + hx j - hxy i j) with (hx i + hx m - hxy i m) by lra. rewrite H1. lra. }
    replace ((hxy i j - (hx i + hx j - hxy i j)) / hxy i j) with ((hxy i j - hx j) / hxy i j + (hxy i j - hx i) / hxy i j) by (field; auto).
    replace ((hxy i m - (hx i + hx m - hxy i m)) / hxy i m) with ((hxy i m - hx m) / hxy i m + (hxy i m - hx i) / hxy i m) by (field; auto).
    replace ((hxy m j - (hx m + hx j - hxy m j)) / hxy m j) with ((hxy m j - hx j) / hxy m j + (hxy m j - hx m) / hxy m j) by (field; auto).
    pose proof (ratio_triangle (hx i) (hx j) (hx m) (hxy i j) (hxy i m) (hxy m j)) as R1. pose proof (ratio_triangle (hx j) (hx i) (hx m) (hxy i j) (hxy m j) (hxy i m)) as R2.
    specialize (R1 ltac:(lra) ltac:(lra) ltac:(lra) ltac:(lra) ltac:(lra) ltac:(lra) ltac:(lra) ltac:(lra) ltac:(lra) ltac:(lra) ltac:(lra) ltac:(lra)).
    specialize (R2 ltac:(lra) ltac:(lra) ltac:(lra) ltac:(lra) ltac:(lra) ltac:(lra) ltac:(lra) ltac:(lra) ltac:(lra) ltac:(lra) ltac:(lra) ltac:(lra)). lra.
  - intros i j a b Ca Cb.
    assert (Ea: forall t, (t < T)%nat -> a t = c i t) by (intros; apply classified_unique; auto; rewrite Hl; auto). assert (Eb: forall t, (t < T)%nat -> b t = c j t) by (intros; apply classified_unique; auto; rewrite Hl; auto).
    destruct (G i j) as (A1&A2&A3&A4&A5).
    assert (D0: d i j = 0 <-> hxy i j = hx i /\ hxy i j = hx j).
    { unfold d. cbv zeta. destruct (normalize st); [|split; [intros; split; lra|lra]]. destruct (Req_EM_T (hxy i j) 0) as [Z|Z]; [split; [intros; split; lra|reflexivity]|]. split; [|intros [P Q]; rewrite P in *; rewrite <- Q; unfold Rdiv; ring].
      intros Q. apply (Rmult_eq_compat_r (hxy i j)) in Q. unfold Rdiv in Q. rewrite Rmult_assoc, Rinv_l, Rmult_0_l in Q by auto. split; lra. }
    rewrite D0. clear D0. assert (Lx: forall t, In t (L x0) <-> (t < T)%nat) by (intros; unfold L, T', x0; rewrite Hl, in_seq; lia).
    split.
    + intros [P Q] s t Hs Ht. rewrite !Ea, !Eb by auto.
      pose proof (E_eq nat (L x0) (L_ne x0 (Hx _)) (both nat (same (c i)) (same (c j))) (same (c i)) (equiv_both _ _ _ (same_equiv (c i)) (same_equiv (c j))) (same_equiv (c i))) as E1.
      pose proof (E_eq nat (L x0) (L_ne x0 (Hx _)) (both nat (same (c i)) (same (c j))) (same (c j)) (equiv_both _ _ _ (same_equiv (c i)) (same_equiv (c j))) (same_equiv (c j))) as E2.
      specialize (E1 ltac:(unfold both; intros ? ? W; apply andb_true_iff in W; tauto) P s t (proj2 (Lx s) Hs) (proj2 (Lx t) Ht)). specialize (E2 ltac:(unfold both; intros ? ? W; apply andb_true_iff in W; tauto) Q s t (proj2 (Lx s) Hs) (proj2 (Lx t) Ht)).
      assert (W: same (c i) s t = same (c j) s t) by congruence. unfold same in W. rewrite <- !Nat.eqb_eq. rewrite W. tauto.
    + intros Q. assert (W: forall s t, (s < T)%nat -> (t < T)%nat -> same (c i) s t = same (c j) s t).
      { intros s t Hs Ht. specialize (Q s t Hs Ht). rewrite !Ea, !Eb in Q by auto. unfold same. destruct (Nat.eqb_spec (c i s) (c i t)), (Nat.eqb_spec (c j s) (c j t)); tauto. }
      assert (X1: forall r r', (forall s t, (s < T)%nat -> (t < T)%nat -> r s t = r' s t) -> E nat (L x0) r = E nat (L x0) r').
      { intros r r' Hr. unfold E. f_equal. apply so_ext. intros t Ht. do 3 f_equal. unfold size. apply so_ext. intros s Hs. f_equal. apply Hr; apply Lx; auto. }
      unfold hxy, hx, hh, h. split; apply X1; intros s t Hs Ht; unfold both; rewrite W by auto; destruct (same (c j) s t); reflexivity.
Qed.
Print Assumptions C68_metric.

(** * The Freedman-Diaconis rule *)
Lemma freedman_pos x : (0 < n_bins_freedman x)%nat.
Proof. unfold n_bins_freedman. destruct (Req_EM_T _ 0); [lia|]. pose proof (Z.le_max_l 1 (ceil ((largest x - least x) / (2 * (quartile 3 x - quartile 1 x) / Rpower (INR (length x)) (1 / 3))))). lia. Qed.
Section Affine.
  Variables a b : R.
  Hypothesis Ha : 0 < a.
  Definition phi (v : R) : R := a * v + b.
  Lemma phi_le v w : phi v <= phi w <-> v <= w. Proof. unfold phi. split; nra. Qed.
  Lemma phi_inj v w : phi v = phi w -> v = w. Proof. unfold phi. nra. Qed.
  Lemma insert_phi v l : insert (phi v) (map phi l) = map phi (insert v l).
  Proof.
    induction l as [|y l IH]; [reflexivity|]. cbn. destruct (Rle_dec v y) as [P|P], (Rle_dec (phi v) (phi y)) as [Q|Q]; cbn; rewrite ?IH; auto; exfalso; rewrite phi_le in Q; auto.
  Qed.
  Lemma sort_phi l : sort (map phi l) = map phi (sort l).
  Proof. induction l as [|y l IH]; [reflexivity|]. cbn. unfold sort in IH. rewrite IH. apply insert_phi. Qed.
  Lemma insert_length v l : length (insert v l) = S (length l).
  Proof. induction l as [|y l IH]; [reflexivity|]. cbn. destruct (Rle_dec v y); cbn; auto. Qed.
  Lemma sort_length l : length (sort l) = length l.
  Proof. induction l as [|y l IH]; [reflexivity|]. cbn. rewrite insert_length. unfold sort in IH. lia. Qed.
  Lemma nth_phi l t : (t < length l)%nat -> nth t (map phi l) 0 = phi (nth t l 0).
  Proof. intros H. rewrite (nth_indep _ 0 (phi 0)) by (rewrite map_length; auto). apply map_nth. Qed.
  Lemma quartile_phi q l : l <> [] -> (q <= 4)%nat -> quartile q (map phi l) = phi (quartile q l).
  Proof.
    intros Hl Hq. pose proof (len_pos l Hl) as Lp. unfold quartile. rewrite sort_phi, map_length. cbv zeta. set (m := (q * (length l - 1))%nat).
    assert (m / 4 <= length l - 1)%nat by (apply Nat.div_le_upper_bound; [lia|unfold m; nia]).
    rewrite !nth_phi by (rewrite sort_length; lia). unfold phi. ring.
  Qed.
  Lemma least_phi l : l <> [] -> least (map phi l) = phi (least l).
  Proof.
    intros Hl. assert (Hm: map phi l <> []) by (destruct l; [congruence|discriminate]). destruct (least_spec l Hl) as [A B]. destruct (least_spec _ Hm) as [C D].
    apply in_map_iff in C as (v&E&Hv). rewrite <- E in *. assert (Q: phi v <= phi (least l)) by (apply D, in_map, A). apply (proj1 (phi_le _ _)) in Q. pose proof (B v Hv). replace (least l) with v by lra. reflexivity.
  Qed.
  Lemma largest_phi l : l <> [] -> largest (map phi l) = phi (largest l).
  Proof.
    intros Hl. assert (Hm: map phi l <> []) by (destruct l; [congruence|discriminate]). destruct (largest_spec l Hl) as [A B]. destruct (largest_spec _ Hm) as [C D].
    apply in_map_iff in C as (v&E&Hv). rewrite <- E in *. assert (Q: phi (largest l) <= phi v) by (apply D, in_map, A). apply (proj1 (phi_le _ _)) in Q. pose proof (B v Hv). replace (largest l) with v by lra. reflexivity.
  Qed.
  Lemma freedman_phi l : l <> [] -> n_bins_freedman (map phi l) = n_bins_freedman l.
  Proof.
    intros Hl. unfold n_bins_freedman. rewrite !quartile_phi, least_phi, largest_phi, map_length by (auto; lia). set (r := Rpower (INR (length l)) (1 / 3)).
    assert (Rp: 0 < r) by (unfold r, Rpower; apply exp_pos). cbv zeta.
    replace (2 * (phi (quartile 3 l) - phi (quartile 1 l)) / r) with (a * (2 * (quartile 3 l - quartile 1 l) / r)) by (unfold phi; field; lra).
    set (d := 2 * (quartile 3 l - quartile 1 l) / r). destruct (Req_EM_T (a * d) 0) as [P|P], (Req_EM_T d 0) as [Q|Q]; auto; [exfalso; apply Rmult_integral in P as [P|P]; lra|exfalso; apply P; rewrite Q; ring|].
    do 3 f_equal. unfold phi. field. split; lra.
  Qed.
  Lemma classified_phi x k c : (0 < k)%nat -> classified x k c -> classified (map phi x) k c.
  Proof.
    intros Hk (lo&hi&R&H). assert (Kp: 0 < INR k) by (apply lt_0_INR; auto). destruct R as [(A&B&C&D)|(u&A&->&->)].
    - exists (phi lo), (phi hi). split.
      + left. repeat split; try (apply in_map; auto); [unfold phi; nra| |]; apply in_map_iff in H0 as (w&<-&Hw); apply phi_le, D, Hw.
      + rewrite map_length. intros t Ht. rewrite nth_phi by auto. destruct (H t Ht) as (P&Q&S). split; auto.
        replace (phi lo + INR (c t) * ((phi hi - phi lo) / INR k)) with (phi (lo + INR (c t) * ((hi - lo) / INR k))) by (unfold phi; field; lra).
        replace (phi lo + INR (c t + 1) * ((phi hi - phi lo) / INR k)) with (phi (lo + INR (c t + 1) * ((hi - lo) / INR k))) by (unfold phi; field; lra).
        split; [apply phi_le; auto|]. destruct S as [S|[S1 S2]]; [left; unfold phi; nra|right; split; auto; apply phi_le; auto].
    - exists (phi u - 1/2), (phi u + 1/2). split.
      + right. exists (phi u). split; auto. intros v Hv. apply in_map_iff in Hv as (w&<-&Hw). rewrite (A w Hw). reflexivity.
      + rewrite map_length. intros t Ht. rewrite nth_phi by auto. rewrite (A (nth t x 0)) by (apply nth_In; auto). destruct (H t Ht) as (P&Q&S). rewrite (A (nth t x 0)) in Q, S by (apply nth_In; auto). split; auto.
        replace (phi u - 1/2 + INR (c t) * ((phi u + 1/2 - (phi u - 1/2)) / INR k)) with (phi u - u + (u - 1/2 + INR (c t) * ((u + 1/2 - (u - 1/2)) / INR k))) by (field; lra).
        replace (phi u - 1/2 + INR (c t + 1) * ((phi u + 1/2 - (phi u - 1/2)) / INR k)) with (phi u - u + (u - 1/2 + INR (c t + 1) * ((u + 1/2 - (u - 1/2)) / INR k))) by (field; lra).
        split; [lra|]. destruct S as [S|[S1 S2]]; [left; lra|right; split; auto; lra].
  Qed.
End Affine.

Lemma E_L_ext x r r' : (forall s t, (s < length x)%nat -> (t < length x)%nat -> r s t = r' s t) -> E nat (L x) r = E nat (L x) r'.
Proof.
  intros H. unfold E. f_equal. apply so_ext. intros t Ht. do 3 f_equal. unfold size. apply so_ext. intros s Hs. f_equal. unfold L, T' in Hs, Ht. apply in_seq in Hs, Ht. apply H; lia.
Qed.
(** the result for a pair depends on the numbers of bins and on the cells only *)
Lemma pair_cells knuth knuth' st st' x y x' y' : x <> [] -> length y = length x -> length x' = length x -> length y' = length x -> normalize st = normalize st' ->
  Nat.max (bins_of knuth st x) (bins_of knuth st y) = Nat.max (bins_of knuth' st' x') (bins_of knuth' st' y') ->
  (forall k t, (0 < k)%nat -> (t < length x)%nat -> cell x k t = cell x' k t) -> (forall k t, (0 < k)%nat -> (t < length x)%nat -> cell y k t = cell y' k t) ->
  pair knuth st x y = pair knuth' st' x' y'.
Proof.
  intros Hx L1 L2 L3 N B Cx Cy. assert (Hx': x' <> []) by (destruct x, x'; cbn in *; congruence). destruct (Nat.eq_dec (Nat.max (bins_of knuth st x) (bins_of knuth st y)) 0) as [Z|Z].
  - unfold pair. rewrite <- B, Z. reflexivity.
  - rewrite (pair_spec knuth st x y _ Hx L1 eq_refl) by lia. rewrite (pair_spec knuth' st' x' y' _ Hx' ltac:(congruence) B) by lia. set (k := Nat.max (bins_of knuth st x) (bins_of knuth st y)) in *. rewrite N.
    rewrite !(h_len x x' _ L2). replace (hh x' (cell x' k) (cell y' k)) with (hh x (cell x' k) (cell y' k)) by (unfold hh, L, T'; rewrite L2; reflexivity).
    unfold h, hh. do 2 f_equal; apply E_L_ext; intros s t Hs Ht; unfold both, same; rewrite ?Cx, ?Cy by (auto; lia); reflexivity.
Qed.

(** rescaling and shifting the assets changes nothing, for a given number of bins or the default rule *)
Theorem C68_affine_invariance : forall n_bins_knuth st X X' T a b,
  (0 < T)%nat -> (forall i, length (X i) = T) -> (forall i, 0 < a i) -> (forall i, X' i = map (fun v => a i * v + b i) (X i)) ->
  (n_bins st <> None \/ method st = FREEDMAN) ->
  forall i j, codependence n_bins_knuth st X' i j = codependence n_bins_knuth st X i j /\ distance n_bins_knuth st X' i j = distance n_bins_knuth st X i j.
Proof.
  intros knuth st X X' T a b HT Hl Ha HX Hm i j.
  assert (Hx: forall i, X i <> []) by (intros m Z; specialize (Hl m); rewrite Z in Hl; cbn in Hl; lia).
  assert (HX': forall i, X' i = map (phi (a i) (b i)) (X i)) by (intros; apply HX).
  assert (Hl': forall i, length (X' i) = T) by (intros m; rewrite HX', map_length; auto).
  assert (Hx': forall i, X' i <> []) by (intros m Z; specialize (Hl' m); rewrite Z in Hl'; cbn in Hl'; lia).
  assert (B: forall i, bins_of knuth st (X' i) = bins_of knuth st (X i)).
  { intros m. unfold bins_of. destruct (n_bins st); auto. destruct Hm as [Hm|Hm]; [congruence|]. rewrite Hm, HX'. apply freedman_phi; auto. }
  assert (C: forall i k t, (0 < k)%nat -> (t < T)%nat -> cell (X' i) k t = cell (X i) k t).
  { intros m k t Hk Ht. symmetry. apply (classified_unique (X' m) k); auto; [|rewrite Hl'; auto]. rewrite HX'. apply classified_phi; auto. apply classified_cell; auto. }
  assert (P: forall i j, pair knuth st (X' i) (X' j) = pair knuth st (X i) (X j)).
  { intros m n. apply pair_cells; auto; rewrite ?Hl, ?Hl', ?B; auto. }
  unfold codependence, distance, entry. rewrite !P. auto.
Qed.
Print Assumptions C68_affine_invariance.

(** the default rule always gives at least one bin: fit does not raise *)
Theorem C68_default_total : forall n_bins_knuth st X i j, n_bins st = None -> method st = FREEDMAN ->
  exists c d, codependence n_bins_knuth st X i j = Ok c /\ distance n_bins_knuth st X i j = Ok d.
Proof.
  intros knuth st X i j N M. assert (B: forall x, (0 < bins_of knuth st x)%nat) by (intros x; unfold bins_of; rewrite N, M; apply freedman_pos).
  assert (P: forall x y, exists c d, pair knuth st x y = Ok (c, d)).
  { intros x y. unfold pair. pose proof (B x). destruct (Nat.eqb_spec (Nat.max (bins_of knuth st x) (bins_of knuth st y)) 0); [lia|]. cbv zeta. destruct (normalize st); eauto. }
  unfold codependence, distance, entry. destruct (i <=? j)%nat; [destruct (P (X i) (X j)) as (c&d&->)|destruct (P (X j) (X i)) as (c&d&->)]; eauto.
Qed.
Print Assumptions C68_default_total.

(** * The default number of bins depends on the pair: the distances are then not a metric *)
Lemma cube_root_8 : Rpower (INR 8) (1 / 3) = 2.
Proof.
  replace (INR 8) with (Rpower 2 3).
  - rewrite Rpower_mult. replace (3 * (1/3)) with 1 by field. apply Rpower_1. lra.
  - replace 3 with (INR 3) by (cbn; lra). rewrite Rpower_pow by lra. cbn. lra.
Qed.
Lemma ceil_int z : ceil (IZR z) = z.
Proof. unfold ceil. assert (U: (1 - z)%Z = up (- IZR z)) by (apply tech_up; rewrite minus_IZR; lra). rewrite <- U. lia. Qed.
Definition ex_x : column := [0; 0; 0; 0; 1; 1; 1; 1].
Definition ex_y : column := [0; 1; 0; 1; 0; 1; 0; 1].
Definition ex_z : column := [0; 0; 0; 0; 1; 1; 1; 2].
Ltac decide_le := repeat match goal with |- context [Rle_dec ?a ?b] => destruct (Rle_dec a b); [|exfalso; lra] || (destruct (Rle_dec a b); [exfalso; lra|]) end.
Lemma insert_le v y l : v <= y -> insert v (y :: l) = v :: y :: l. Proof. intros. cbn. destruct (Rle_dec v y); [reflexivity|lra]. Qed.
Lemma insert_gt v y l : y < v -> insert v (y :: l) = y :: insert v l. Proof. intros. cbn. destruct (Rle_dec v y); [lra|reflexivity]. Qed.
Ltac sorting := unfold sort; cbn [fold_right]; repeat (change (insert ?v []) with [v] || rewrite insert_le by lra || rewrite insert_gt by lra); reflexivity.
Lemma sort_x : sort ex_x = [0; 0; 0; 0; 1; 1; 1; 1].
Proof. unfold ex_x, sort. cbn [fold_right]. change (insert 1 []) with [1]. rewrite !insert_le by lra. reflexivity. Qed.
Lemma sort_z : sort ex_z = [0; 0; 0; 0; 1; 1; 1; 2].
Proof. unfold ex_z, sort. cbn [fold_right]. change (insert 2 []) with [2]. rewrite !insert_le by lra. reflexivity. Qed.
Lemma sort_y : sort ex_y = [0; 0; 0; 0; 1; 1; 1; 1].
Proof.
  unfold ex_y, sort. cbn [fold_right]. change (insert 1 []) with [1]. rewrite (insert_le 0 1) by lra. rewrite (insert_gt 1 0) by lra. rewrite (insert_le 1 1) by lra. rewrite (insert_le 0 0) by lra.
  rewrite !(insert_gt 1 0) by lra. rewrite (insert_le 1 1) by lra. rewrite (insert_le 0 0) by lra. rewrite !(insert_gt 1 0) by lra. rewrite (insert_le 1 1) by lra. rewrite (insert_le 0 0) by lra. reflexivity.
Qed.
Lemma least_is l m : In m l -> (forall v, In v l -> m <= v) -> least l = m.
Proof. intros A B. destruct (least_spec l) as [C D]; [intros ->; destruct A|]. pose proof (B _ C). pose proof (D _ A). lra. Qed.
Lemma largest_is l m : In m l -> (forall v, In v l -> v <= m) -> largest l = m.
Proof. intros A B. destruct (largest_spec l) as [C D]; [intros ->; destruct A|]. pose proof (B _ C). pose proof (D _ A). lra. Qed.
Ltac min_max := (apply least_is || apply largest_is); [cbn; intuition|intros v Hv; cbn in Hv; intuition lra].
Lemma freedman_x : n_bins_freedman ex_x = 1%nat.
Proof.
  unfold n_bins_freedman, quartile. rewrite sort_x. replace (Rpower (INR (length ex_x)) (1/3)) with 2 by (symmetry; apply cube_root_8). cbn -[least largest ceil Z.max Z.to_nat].
  replace (least ex_x) with 0 by (symmetry; min_max). replace (largest ex_x) with 1 by (symmetry; min_max). cbv zeta.
  match goal with |- (if Req_EM_T ?d 0 then _ else _) = _ => replace d with 1 by field; destruct (Req_EM_T 1 0); [lra|] end. replace ((1 - 0) / 1) with (IZR 1) by field. rewrite ceil_int. reflexivity.
Qed.
Lemma freedman_y : n_bins_freedman ex_y = 1%nat.
Proof.
  unfold n_bins_freedman, quartile. rewrite sort_y. replace (Rpower (INR (length ex_y)) (1/3)) with 2 by (symmetry; apply cube_root_8). cbn -[least largest ceil Z.max Z.to_nat].
  replace (least ex_y) with 0 by (symmetry; min_max). replace (largest ex_y) with 1 by (symmetry; min_max). cbv zeta.
  match goal with |- (if Req_EM_T ?d 0 then _ else _) = _ => replace d with 1 by field; destruct (Req_EM_T 1 0); [lra|] end. replace ((1 - 0) / 1) with (IZR 1) by field. rewrite ceil_int. reflexivity.
Qed.
Lemma freedman_z : n_bins_freedman ex_z = 2%nat.
Proof.
  unfold n_bins_freedman, quartile. rewrite sort_z. replace (Rpower (INR (length ex_z)) (1/3)) with 2 by (symmetry; apply cube_root_8). cbn -[least largest ceil Z.max Z.to_nat].
  replace (least ex_z) with 0 by (symmetry; min_max). replace (largest ex_z) with 2 by (symmetry; min_max). cbv zeta.
  match goal with |- (if Req_EM_T ?d 0 then _ else _) = _ => replace d with 1 by field; destruct (Req_EM_T 1 0); [lra|] end. replace ((2 - 0) / 1) with (IZR 2) by field. rewrite ceil_int. reflexivity.
Qed.
Lemma x_cells : classified ex_x 2 (fun t => nth t [0; 0; 0; 0; 1; 1; 1; 1] 0)%nat.
Proof.
  exists 0, 1. split; [left; split; [cbn; auto 12|split; [cbn; auto 12|split; [lra|intros v Hv; cbn in Hv; intuition lra]]]|]. intros t Ht. cbn in Ht. do 8 (destruct t as [|t]; [unfold in_bin; cbn; repeat split; first [lia|lra|left; lra|right; split; [lia|lra]]|]). lia.
Qed.
Lemma y_cells : classified ex_y 2 (fun t => nth t [0; 1; 0; 1; 0; 1; 0; 1] 0)%nat.
Proof.
  exists 0, 1. split; [left; split; [cbn; auto 12|split; [cbn; auto 12|split; [lra|intros v Hv; cbn in Hv; intuition lra]]]|]. intros t Ht. cbn in Ht. do 8 (destruct t as [|t]; [unfold in_bin; cbn; repeat split; first [lia|lra|left; lra|right; split; [lia|lra]]|]). lia.
Qed.
Lemma z_cells : classified ex_z 2 (fun t => nth t [0; 0; 0; 0; 1; 1; 1; 1] 0)%nat.
Proof.
  exists 0, 2. split; [left; split; [cbn; auto 12|split; [cbn; auto 12|split; [lra|intros v Hv; cbn in Hv; intuition lra]]]|]. intros t Ht. cbn in Ht. do 8 (destruct t as [|t]; [unfold in_bin; cbn; repeat split; first [lia|lra|left; lra|right; split; [lia|lra]]|]). lia.
Qed.
Definition default_settings : settings := {| method := FREEDMAN; n_bins := None; normalize := true |}.
(** three assets with eight observations: the second is at distance zero from the first, the first from the third, but not the second from the third *)
Theorem C68_default_metric_refuted : exists X d, (forall i, length (X i) = 8%nat) /\
  (forall n_bins_knuth i j, (i < 3)%nat -> (j < 3)%nat -> distance n_bins_knuth default_settings X i j = Ok (Num (d i j))) /\
  d 1%nat 0%nat = 0 /\ d 0%nat 2%nat = 0 /\ 0 < d 1%nat 2%nat /\
  (forall n_bins_knuth, codependence n_bins_knuth default_settings X 0%nat 0%nat = Ok NaN).
Proof.
  set (X := fun i => match i with 0%nat => ex_x | 1%nat => ex_y | _ => ex_z end). set (two := {| method := FREEDMAN; n_bins := Some 2%nat; normalize := true |}). set (one := {| method := FREEDMAN; n_bins := Some 1%nat; normalize := true |}).
  assert (Hl: forall i, length (X i) = 8%nat) by (intros [|[|i]]; reflexivity).
  destruct (C68_metric (fun _ => 0%nat) two X 8 2 eq_refl ltac:(lia) ltac:(lia) Hl) as (d2&D2&M2&_&Z2).
  destruct (C68_metric (fun _ => 0%nat) one X 8 1 eq_refl ltac:(lia) ltac:(lia) Hl) as (d1&D1&M1&_&Z1).
  assert (B: forall knuth, bins_of knuth default_settings ex_x = 1%nat /\ bins_of knuth default_settings ex_y = 1%nat /\ bins_of knuth default_settings ex_z = 2%nat) by (intros; unfold bins_of; cbn [n_bins method default_settings]; rewrite freedman_x, freedman_y, freedman_z; auto).
  assert (P2: forall knuth i j, Nat.max (bins_of knuth default_settings (X i)) (bins_of knuth default_settings (X j)) = 2%nat -> distance knuth default_settings X i j = Ok (Num (d2 i j))).
  { intros knuth i j Hb. rewrite <- D2. unfold distance, entry. assert (G: forall a b, Nat.max (bins_of knuth default_settings (X a)) (bins_of knuth default_settings (X b)) = 2%nat -> pair knuth default_settings (X a) (X b) = pair (fun _ => 0%nat) two (X a) (X b)).
    { intros a b Q. apply pair_cells; auto; rewrite ?Hl; auto. intros Z. apply (f_equal (@length R)) in Z. rewrite Hl in Z. discriminate. }
    destruct (i <=? j)%nat; rewrite G; auto. rewrite Nat.max_comm. exact Hb. }
  assert (P1: forall knuth i j, Nat.max (bins_of knuth default_settings (X i)) (bins_of knuth default_settings (X j)) = 1%nat -> distance knuth default_settings X i j = Ok (Num (d1 i j))).
  { intros knuth i j Hb. rewrite <- D1. unfold distance, entry. assert (G: forall a b, Nat.max (bins_of knuth default_settings (X a)) (bins_of knuth default_settings (X b)) = 1%nat -> pair knuth default_settings (X a) (X b) = pair (fun _ => 0%nat) one (X a) (X b)).
    { intros a b Q. apply pair_cells; auto; rewrite ?Hl; auto. intros Z. apply (f_equal (@length R)) in Z. rewrite Hl in Z. discriminate. }
    destruct (i <=? j)%nat; rewrite G; auto. rewrite Nat.max_comm. exact Hb. }
  exists X, (fun i j => if ((i =? 2) || (j =? 2))%nat then d2 i j else d1 i j). split; [exact Hl|]. split.
  { intros knuth i j Hi Hj. destruct (B knuth) as (B1&B2&B3).
    assert (V: forall m, (m < 3)%nat -> bins_of knuth default_settings (X m) = if (m =? 2)%nat then 2%nat else 1%nat) by (intros [|[|[|m]]] Hm; cbn [X Nat.eqb]; try assumption; lia).
    destruct ((i =? 2) || (j =? 2))%nat eqn:Q; [apply P2|apply P1]; rewrite !V by auto; destruct (i =? 2)%nat, (j =? 2)%nat; try discriminate; reflexivity. }
  assert (one_cell: forall i c, classified (X i) 1 c -> forall t, (t < 8)%nat -> c t = 0%nat) by (intros i c (lo&hi&_&H) t Ht; rewrite Hl in H; destruct (H t Ht) as [Q _]; lia).
  cbn [Nat.eqb orb]. split; [|split; [|split]].
  - destruct (C68_bins (X 1%nat) 1) as [[c Hc] _]; [discriminate|lia|]. destruct (C68_bins (X 0%nat) 1) as [[c' Hc'] _]; [discriminate|lia|].
    apply (Z1 1%nat 0%nat c c' Hc Hc'). intros s t Hs Ht. rewrite !(one_cell _ _ Hc), !(one_cell _ _ Hc') by auto. tauto.
  - apply (Z2 0%nat 2%nat _ _ x_cells z_cells). intros; tauto.
  - destruct (M2 1%nat 2%nat) as [N _]. destruct N as [N|N]; auto. exfalso. symmetry in N. pose proof (proj1 (Z2 1%nat 2%nat _ _ y_cells z_cells) N 0%nat 2%nat ltac:(lia) ltac:(lia)) as Q. pose proof (proj1 (Z2 1%nat 2%nat _ _ y_cells z_cells) N 0%nat 1%nat ltac:(lia) ltac:(lia)) as Q'. cbn in Q'. destruct Q' as [_ Q']. specialize (Q' eq_refl). discriminate.
  - intros knuth. destruct (B knuth) as (B1&_). unfold codependence, entry. cbn [Nat.leb X]. rewrite (pair_spec knuth default_settings ex_x ex_x 1) by (auto; try discriminate; rewrite B1; reflexivity).
    assert (Z: h ex_x (cell ex_x 1) = 0).
    { rewrite <- (E_anything nat (L ex_x)) by (apply L_ne; discriminate). apply E_L_ext. intros s t Hs Ht. unfold same, anything. pose proof (cell_lt ex_x 1 ltac:(discriminate) ltac:(lia) s Hs). pose proof (cell_lt ex_x 1 ltac:(discriminate) ltac:(lia) t Ht). apply Nat.eqb_eq. lia. }
    unfold information. cbn [normalize default_settings]. rewrite Z. rewrite Rmin_left by lra. destruct (Req_EM_T 0 0); [reflexivity|lra].
Qed.
Print Assumptions C68_default_metric_refuted.

(** ** Non-vacuity: two independent columns in two bins are at distance one *)
Example C68_hypotheses_met : let X := fun i => match i with 0%nat => [0; 0; 1; 1] | _ => [0; 3; 0; 3] end in
  classified (X 0%nat) 2 (fun t => nth t [0; 0; 1; 1] 0)%nat /\ classified (X 1%nat) 2 (fun t => nth t [0; 1; 0; 1] 0)%nat /\
  distance (fun _ => 0%nat) {| method := KNUTH; n_bins := Some 2%nat; normalize := true |} X 0%nat 1%nat = Ok (Num 1).
Proof.
  intros X.
  assert (C0: classified (X 0%nat) 2 (fun t => nth t [0; 0; 1; 1] 0)%nat).
  { exists 0, 1. split; [left; split; [cbn; auto 12|split; [cbn; auto 12|split; [lra|intros v Hv; cbn in Hv; intuition lra]]]|]. intros t Ht. cbn in Ht. do 4 (destruct t as [|t]; [unfold in_bin; cbn; repeat split; first [lia|lra|left; lra|right; split; [lia|lra]]|]). lia. }
  assert (C1: classified (X 1%nat) 2 (fun t => nth t [0; 1; 0; 1] 0)%nat).
  { exists 0, 3. split; [left; split; [cbn; auto 12|split; [cbn; auto 12|split; [lra|intros v Hv; cbn in Hv; intuition lra]]]|]. intros t Ht. cbn in Ht. do 4 (destruct t as [|t]; [unfold in_bin; cbn; repeat split; first [lia|lra|left; lra|right; split; [lia|lra]]|]). lia. }
  split; [exact C0|split; [exact C1|]].
  pose proof (C68_variation_of_information (fun _ => 0%nat) {| method := KNUTH; n_bins := Some 2%nat; normalize := true |} X 0 1 4 2 _ _ ltac:(lia) eq_refl eq_refl eq_refl ltac:(lia) C0 C1) as V.
  destruct V as (_&_&V). specialize (V eq_refl) as [_ V].
  assert (L2: 0 < ln 2) by (rewrite <- ln_1; apply ln_increasing; lra).
  assert (Lh: ln (1/2) = - ln 2) by (replace (1/2) with (/ 2) by field; apply ln_Rinv; lra).
  assert (Lq: ln (1/4) = - (2 * ln 2)) by (replace (1/4) with (/ (2 * 2)) by field; rewrite ln_Rinv, ln_mult by lra; ring).
  assert (E0: entropy_of 4 2 (fun t => nth t [0; 0; 1; 1] 0)%nat = ln 2). { unfold entropy_of, plogp, share, sum_over. cbn. replace ((1 + (1 + (0 + (0 + 0)))) / (1 + 1 + 1 + 1)) with (1/2) by field. replace ((0 + (0 + (1 + (1 + 0)))) / (1 + 1 + 1 + 1)) with (1/2) by field. rewrite Lh. field. }
  assert (E1: entropy_of 4 2 (fun t => nth t [0; 1; 0; 1] 0)%nat = ln 2). { unfold entropy_of, plogp, share, sum_over. cbn. replace ((1 + (0 + (1 + (0 + 0)))) / (1 + 1 + 1 + 1)) with (1/2) by field. replace ((0 + (1 + (0 + (1 + 0)))) / (1 + 1 + 1 + 1)) with (1/2) by field. rewrite Lh. field. }
  assert (E2: joint_entropy_of 4 2 (fun t => nth t [0; 0; 1; 1] 0)%nat (fun t => nth t [0; 1; 0; 1] 0)%nat = 2 * ln 2).
  { unfold joint_entropy_of, plogp, share, sum_over. cbn. replace ((1 + (0 + (0 + (0 + 0)))) / (1 + 1 + 1 + 1)) with (1/4) by field. replace ((0 + (1 + (0 + (0 + 0)))) / (1 + 1 + 1 + 1)) with (1/4) by field. replace ((0 + (0 + (1 + (0 + 0)))) / (1 + 1 + 1 + 1)) with (1/4) by field. replace ((0 + (0 + (0 + (1 + 0)))) / (1 + 1 + 1 + 1)) with (1/4) by field. rewrite Lq. field. }
  rewrite E0, E1, E2 in V. destruct V as [V _]; [lra|]. rewrite V. do 2 f_equal. field. lra.
Qed.
