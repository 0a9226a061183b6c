(** C58: the optimal number of clusters. *)
From Coq Require Import Reals List Arith Lra Lia Permutation.
From Verif Require Import ClusterModel.
Import ListNotations.
Open Scope R_scope.

(** * Specification *)
Definition total {A} (l : list A) (f : A -> R) : R := fold_right (fun x s => f x + s) 0 l.
(** the assets of a cluster *)
Definition members (level : list nat) (i : nat) : list nat := filter (fun u => nth u level 0 =? i)%nat (seq 0 (length level)).
(** the average distance between two different assets of a group (0 when there is no pair) *)
Definition pairs (l : list nat) : list (nat * nat) := filter (fun p => fst p <? snd p)%nat (list_prod l l).
Definition average_distance (d : nat -> nat -> R) (l : list nat) : R := total (pairs l) (fun p => d (fst p) (snd p)) / INR (length (pairs l)).
(** within-cluster dispersion of a partition: the sum over the clusters of their average distances *)
Definition dispersion (d : nat -> nat -> R) (level : list nat) : R :=
  total (seq 0 (S (list_max level))) (fun i => if (length (pairs (members level i)) =? 0)%nat then 0 else average_distance d (members level i)).
(** the documented one: D_i / (2 |C_i|), with D_i the sum over all ordered pairs *)
Definition documented_dispersion (d : nat -> nat -> R) (level : list nat) : R :=
  total (seq 0 (S (list_max level))) (fun i => let l := members level i in total (list_prod l l) (fun p => d (fst p) (snd p)) / (2 * INR (length l))).
(** [r] is the nearest integer to the square root of [n] *)
Definition nearest_sqrt (n r : nat) : Prop := INR r - 1 / 2 <= sqrt (INR n) <= INR r + 1 / 2.
(** first point of [from, to) where f is maximal *)
Definition first_max (f : nat -> R) (from to k : nat) : Prop :=
  (from <= k < to)%nat /\ (forall j, (from <= j < to)%nat -> f j <= f k) /\ (forall j, (from <= j < k)%nat -> f j < f k).

(** * Lemmas *)
Lemma total_app {A} (a b : list A) f : total (a ++ b) f = total a f + total b f.
Proof. induction a; simpl; [lra|rewrite IHa; lra]. Qed.
Lemma total_map {A B} (g : A -> B) l f : total (map g l) f = total l (fun x => f (g x)).
Proof. induction l; simpl; auto; rewrite IHl; auto. Qed.
Lemma total_ext {A} (l : list A) f g : (forall x, In x l -> f x = g x) -> total l f = total l g.
Proof. induction l; simpl; auto; intros H; rewrite H, IHl; auto. Qed.
Lemma total_rsum l : rsum l = total l (fun x => x).
Proof. induction l; simpl; auto; rewrite IHl; auto. Qed.
Lemma round_sqrt_ok n : nearest_sqrt n (round_sqrt n).
Proof.
  unfold nearest_sqrt, round_sqrt. set (s := Nat.sqrt n). pose proof (Nat.sqrt_spec n ltac:(lia)) as [H1 H2]. fold s in H1, H2.
  assert (N0 : 0 <= INR n) by apply pos_INR. assert (S0 : 0 <= INR s) by apply pos_INR.
  pose proof (sqrt_pos (INR n)) as Q0. pose proof (sqrt_sqrt (INR n) N0) as QQ.
  set (q := sqrt (INR n)) in *.
  assert (B1 : INR s * INR s <= INR n) by (rewrite <- mult_INR; apply le_INR; lia).
  assert (B2 : INR n < (INR s + 1) * (INR s + 1)) by (rewrite <- S_INR, <- mult_INR; apply lt_INR; lia).
  destruct (n - s * s <=? s)%nat eqn:E.
  - apply Nat.leb_le in E. assert (B3 : INR n <= INR s * INR s + INR s) by (rewrite <- mult_INR, <- plus_INR; apply le_INR; lia).
    split; nra.
  - apply Nat.leb_gt in E. assert (B3 : INR s * INR s + INR s + 1 <= INR n) by (rewrite <- mult_INR, <- plus_INR, <- S_INR; apply le_INR; lia).
    rewrite S_INR. split; nra.
Qed.
(** clusters *)
Lemma positions_members level i from : positions i level from = map (Nat.add from) (members level i).
Proof.
  revert from. induction level as [|c level IH]; intros from; [reflexivity|].
  unfold members. cbn [length seq filter positions]. change (nth 0 (c :: level) 0%nat) with c. rewrite <- seq_shift, IH.
  assert (E : map (Nat.add from) (filter (fun u => (nth u (c :: level) 0 =? i)%nat) (map S (seq 0 (length level)))) = map (Nat.add (S from)) (members level i)).
  { unfold members. induction (seq 0 (length level)) as [|x l IHl]; [reflexivity|].
    cbn [map filter]. change (nth (S x) (c :: level) 0%nat) with (nth x level 0%nat). destruct (nth x level 0%nat =? i)%nat; cbn [map]; rewrite IHl; auto. f_equal. lia. }
  destruct (c =? i)%nat; cbn [map]; rewrite E; auto. f_equal. lia.
Qed.
Lemma positions0 level i : positions i level 0 = members level i.
Proof. rewrite positions_members. erewrite map_ext; [apply map_id|reflexivity]. Qed.
Definition increasing (l : list nat) : Prop := forall a x b y c, l = a ++ x :: b ++ y :: c -> (x < y)%nat.
Lemma inc_cons x l : increasing (x :: l) -> increasing l /\ forall y, In y l -> (x < y)%nat.
Proof.
  intros H. split.
  - intros a u b v c E. apply (H (x :: a) u b v c). rewrite E. reflexivity.
  - intros y Hy. apply in_split in Hy as [b [c E]]. apply (H [] x b y c). rewrite E. reflexivity.
Qed.
Lemma inc_intro x l : increasing l -> (forall y, In y l -> (x < y)%nat) -> increasing (x :: l).
Proof.
  intros H Hx [|a0 a] u b v c E; simpl in E; inversion E as [[E1 E2]].
  - subst u. apply Hx. rewrite E2. apply in_app_iff. right. left. reflexivity.
  - apply (H a u b v c). exact E2.
Qed.
Lemma inc_filter f l : increasing l -> increasing (filter f l).
Proof.
  induction l as [|x l IH]; intros H; [exact H|]. apply inc_cons in H as [H1 H2]. simpl. destruct (f x); auto.
  apply inc_intro; auto. intros y Hy. apply filter_In in Hy as [Hy _]. auto.
Qed.
Lemma inc_seq n from : increasing (seq from n).
Proof.
  revert from. induction n as [|n IH]; intros from; [intros a x b y c E; destruct a; discriminate|].
  simpl. apply inc_intro; auto. intros y Hy. apply in_seq in Hy. lia.
Qed.
Lemma inc_members level i : increasing (members level i).
Proof. apply inc_filter, inc_seq. Qed.
Lemma condensed_pairs d l : increasing l -> exists q, Permutation q (pairs l) /\ condensed d l = map (fun p => d (fst p) (snd p)) q.
Proof.
  induction l as [|x l IH]; intros H; [exists []; split; auto|].
  apply inc_cons in H as [H1 H2]. destruct (IH H1) as [q [Pq Eq]].
  exists (map (pair x) l ++ q). split; [|simpl; rewrite map_app, map_map, Eq; reflexivity].
  unfold pairs. simpl list_prod. cbn [map app filter fst snd]. rewrite Nat.ltb_irrefl. rewrite filter_app.
  apply Permutation_app.
  - assert (E : filter (fun p => (fst p <? snd p)%nat) (map (fun y => (x, y)) l) = map (pair x) l).
    { clear -H2. induction l as [|y l IHl]; [reflexivity|]. cbn [map filter fst snd].
      destruct (Nat.ltb_spec x y); [|exfalso; specialize (H2 y (or_introl eq_refl)); lia].
      rewrite IHl; auto. intros z Hz. apply H2. right. auto. }
    rewrite E. apply Permutation_refl.
  - apply (perm_trans Pq). unfold pairs. clear IH Pq Eq.
    assert (E : forall m, (forall y, In y m -> (x < y)%nat) ->
      filter (fun p => (fst p <? snd p)%nat) (list_prod m l) = filter (fun p => (fst p <? snd p)%nat) (list_prod m (x :: l))).
    { induction m as [|y m IHm]; intros Hm; [reflexivity|]. cbn [list_prod map app filter fst snd].
      destruct (Nat.ltb_spec y x); [exfalso; specialize (Hm y (or_introl eq_refl)); lia|].
      rewrite !filter_app, IHm; auto. intros z Hz. apply Hm. right. auto. }
    rewrite (E l H2). apply Permutation_refl.
Qed.
Lemma total_perm {A} (a b : list A) f : Permutation a b -> total a f = total b f.
Proof. induction 1; simpl; lra. Qed.
Lemma densities_ok d level : rsum (cluster_densities d level) = dispersion d level.
Proof.
  unfold cluster_densities, dispersion. generalize (seq 0 (S (list_max level))) as is_. induction is_ as [|i is_ IH]; [reflexivity|].
  cbn [flat_map]. rewrite total_rsum, total_app, <- !total_rsum, IH. cbn [total fold_right]. f_equal.
  rewrite positions0. destruct (condensed_pairs d _ (inc_members level i)) as [q [Pq Eq]].
  rewrite Eq, map_length, (Permutation_length Pq). destruct (length (pairs (members level i)) =? 0)%nat; [reflexivity|].
  simpl. unfold mean, average_distance. rewrite map_length, (Permutation_length Pq), total_rsum, total_map, (total_perm _ _ _ Pq). lra.
Qed.
(** gaps *)
Lemma nth_map_seq (f : nat -> R) n k dflt : (k < n)%nat -> nth k (map f (seq 0 n)) dflt = f k.
Proof.
  intros H. rewrite (nth_indep _ dflt (f 0%nat)) by (rewrite map_length, seq_length; auto).
  rewrite map_nth, seq_nth; auto.
Qed.
Lemma nth_firstn_R (l : list R) n k : (k < n)%nat -> nth k (firstn n l) 0 = nth k l 0.
Proof. revert n k. induction l; intros [|n] [|k] H; simpl; auto; try lia. apply IHl. lia. Qed.
Lemma gaps_length d : length (gaps d) = (length d - 2)%nat.
Proof. unfold gaps. rewrite firstn_length, map_length, seq_length. lia. Qed.
Lemma gaps_nth d k : (k + 2 < length d)%nat -> nth k (gaps d) 0 = nth (k + 2) d 0 + nth k d 0 - 2 * nth (k + 1) d 0.
Proof.
  intros H. unfold gaps. rewrite nth_firstn_R by lia. rewrite nth_map_seq by lia. unfold roll_back.
  rewrite !nth_map_seq by lia. rewrite !Nat.mod_small by lia. reflexivity.
Qed.
(** argmax *)
Lemma argmax_from_ok l : forall best at_ pre, (at_ < length pre)%nat -> nth at_ pre 0 = best ->
  (forall j, (j < length pre)%nat -> nth j pre 0 <= best) -> (forall j, (j < at_)%nat -> nth j pre 0 < best) ->
  first_max (fun j => nth j (pre ++ l) 0) 0 (length (pre ++ l)) (argmax_from best at_ (length pre) l).
Proof.
  induction l as [|x l IH]; intros best at_ pre H1 H2 H3 H4.
  - cbn [argmax_from]. rewrite app_nil_r. split; [lia|]. split; intros j Hj; rewrite H2; [apply H3|apply H4]; lia.
  - cbn [argmax_from]. assert (E : pre ++ x :: l = (pre ++ [x]) ++ l) by (rewrite <- app_assoc; reflexivity). rewrite E.
    assert (L : length (pre ++ [x]) = S (length pre)) by (rewrite app_length; simpl; lia).
    destruct (Rlt_dec best x) as [Hx|Hx]; rewrite <- L; apply IH.
    + lia.
    + rewrite app_nth2 by lia. rewrite Nat.sub_diag. reflexivity.
    + intros j Hj. destruct (Nat.eq_dec j (length pre)) as [->|Hne].
      * rewrite app_nth2 by lia. rewrite Nat.sub_diag. simpl. lra.
      * rewrite app_nth1 by lia. specialize (H3 j ltac:(lia)). lra.
    + intros j Hj. rewrite app_nth1 by lia. specialize (H3 j Hj). lra.
    + lia.
    + rewrite app_nth1 by lia. auto.
    + intros j Hj. destruct (Nat.eq_dec j (length pre)) as [->|Hne].
      * rewrite app_nth2 by lia. rewrite Nat.sub_diag. simpl. lra.
      * rewrite app_nth1 by lia. apply H3. lia.
    + intros j Hj. rewrite app_nth1 by lia. auto.
Qed.
Lemma argmax_ok l : l <> [] -> exists k, argmax l = Some k /\ first_max (fun j => nth j l 0) 0 (length l) k.
Proof.
  destruct l as [|x l]; [congruence|intros _]. eexists. split; [reflexivity|].
  apply (argmax_from_ok l x 0 [x]); simpl; auto; intros; [destruct j; [lra|lia]|lia].
Qed.
Lemma max_clusters_bounds n : (3 <= n)%nat -> (3 <= max_clusters n <= n)%nat.
Proof. unfold max_clusters. lia. Qed.
Lemma dispersions_nth d cut n k : (k < max_clusters n)%nat -> nth k (dispersions d cut n) 0 = dispersion d (cut k).
Proof. intros H. unfold dispersions. rewrite nth_map_seq by auto. apply densities_ok. Qed.
Lemma dispersions_length d cut n : length (dispersions d cut n) = max_clusters n.
Proof. unfold dispersions. rewrite map_length, seq_length. reflexivity. Qed.

(** * C58 *)
(** With W k the dispersion of the partition in k clusters: for three assets or more the result is the first k,
    from two to one less than the largest number of clusters considered, that maximises W (k+1) + W (k-1) - 2 W k. *)
Theorem C58_optimal d cut n : (3 <= n)%nat ->
  let W k := dispersion d (cut (k - 1)%nat) in
  exists r k, nearest_sqrt n r /\ compute_optimal_n_clusters d cut n = Ok k /\
    first_max (fun k => W (k + 1)%nat + W (k - 1)%nat - 2 * W k) 2 (Nat.min n (Nat.max 8 r)) k.
Proof.
  intros Hn W. exists (round_sqrt n). pose proof (max_clusters_bounds n Hn) as B.
  assert (L := dispersions_length d cut n). assert (G := gaps_length (dispersions d cut n)). rewrite L in G.
  destruct (argmax_ok (gaps (dispersions d cut n))) as [k [Ek [K1 [K2 K3]]]].
  { intros E. rewrite E in G. simpl in G. lia. }
  exists (k + 2)%nat. split; [apply round_sqrt_ok|]. unfold compute_optimal_n_clusters. rewrite Ek. split; [reflexivity|].
  fold (max_clusters n). rewrite G in K1, K2.
  assert (V : forall j, (j < max_clusters n - 2)%nat ->
    nth j (gaps (dispersions d cut n)) 0 = W (j + 2 + 1)%nat + W (j + 2 - 1)%nat - 2 * W (j + 2)%nat).
  { intros j Hj. rewrite gaps_nth by lia. rewrite !dispersions_nth by lia. unfold W.
    replace (j + 2 + 1 - 1)%nat with (j + 2)%nat by lia. replace (j + 2 - 1 - 1)%nat with j by lia. replace (j + 2 - 1)%nat with (j + 1)%nat by lia. reflexivity. }
  split; [lia|]. split; intros j Hj.
  - specialize (K2 (j - 2)%nat ltac:(lia)). rewrite !V in K2 by lia. replace (j - 2 + 2)%nat with j in K2 by lia. exact K2.
  - specialize (K3 (j - 2)%nat ltac:(lia)). rewrite !V in K3 by lia. replace (j - 2 + 2)%nat with j in K3 by lia. exact K3.
Qed.
Corollary C58_range d cut n k : (3 <= n)%nat -> compute_optimal_n_clusters d cut n = Ok k ->
  (2 <= k < n)%nat /\ exists r, nearest_sqrt n r /\ (k < Nat.max 8 r)%nat.
Proof.
  intros Hn E. destruct (C58_optimal d cut n Hn) as [r [k' [Hr [E' [B _]]]]]. rewrite E in E'. injection E' as <-.
  split; [lia|exists r; split; auto; lia].
Qed.
(** With one or two assets it raises. *)
Theorem C58_two_assets_refuted d cut n : (n <= 2)%nat -> compute_optimal_n_clusters d cut n = Err ValueError.
Proof.
  intros Hn. unfold compute_optimal_n_clusters. assert (G := gaps_length (dispersions d cut n)). rewrite dispersions_length in G.
  destruct (gaps (dispersions d cut n)); [reflexivity|]. simpl in G. unfold max_clusters in G. lia.
Qed.

(** HierarchicalClustering.fit: scipy's flat clusters are numbered from 1 without gaps and are at most t. *)
Definition flat_clusters (n t : nat) (labels : list nat) : Prop :=
  length labels = n /\ exists m, (1 <= m <= t)%nat /\ forall c, In c labels <-> (1 <= c <= m)%nat.
Theorem C58_fit d cut n fcluster param : (3 <= n)%nat -> (forall t, (1 <= t)%nat -> flat_clusters n t (fcluster t)) ->
  (forall t, param = Some t -> (1 <= t)%nat) ->
  exists m labels, clustering_fit d cut n fcluster param = Ok (m, labels) /\ length labels = n /\
    (forall c, In c labels <-> (c < m)%nat) /\ (1 <= m)%nat /\
    (exists t, (m <= t)%nat /\ match param with Some t' => t = t' | None => compute_optimal_n_clusters d cut n = Ok t end /\
       labels = map (fun c => c - 1)%nat (fcluster t)).
Proof.
  intros Hn HF HP.
  assert (K : exists t, (1 <= t)%nat /\ match param with Some t' => t = t' | None => compute_optimal_n_clusters d cut n = Ok t end /\
    clustering_fit d cut n fcluster param = clustering_fit d cut n fcluster (Some t)).
  { destruct param as [t|]; [exists t; auto|]. destruct (C58_optimal d cut n Hn) as [r [k [_ [E [B _]]]]].
    exists k. split; [lia|]. split; auto. cbn [clustering_fit]. rewrite E. reflexivity. }
  destruct K as [t [T1 [T2 ->]]]. destruct (HF t T1) as [L [m [Hm HI]]].
  set (labels := map pred (fcluster t)).
  assert (HL : forall c, In c labels <-> (c < m)%nat).
  { intros c. unfold labels. rewrite in_map_iff. split.
    - intros [x [Ex Hx]]. apply HI in Hx. lia.
    - intros Hc. exists (S c). split; [reflexivity|]. apply HI. lia. }
  assert (M : list_max labels = (m - 1)%nat).
  { apply Nat.le_antisymm.
    - apply list_max_le. apply Forall_forall. intros x Hx. apply HL in Hx. lia.
    - assert (H : In (m - 1)%nat labels) by (apply HL; lia).
      assert (F := proj1 (list_max_le labels (list_max labels)) (le_n _)). rewrite Forall_forall in F. auto. }
  assert (N : length (nodup Nat.eq_dec labels) = m).
  { assert (P : Permutation (nodup Nat.eq_dec labels) (seq 0 m)).
    { apply NoDup_Permutation; [apply NoDup_nodup|apply seq_NoDup|]. intros x. rewrite nodup_In, HL, in_seq. lia. }
    rewrite (Permutation_length P), seq_length. reflexivity. }
  exists m, labels. cbn [clustering_fit]. fold labels. rewrite N, M.
  replace (m =? m - 1 + 1)%nat with true by (symmetry; apply Nat.eqb_eq; lia).
  replace (m - 1 + 1 <=? t)%nat with true by (symmetry; apply Nat.leb_le; lia). simpl.
  split; [reflexivity|]. split; [unfold labels; rewrite map_length; auto|]. split; [exact HL|]. split; [lia|].
  exists t. split; [lia|]. split; [exact T2|]. unfold labels. apply map_ext. intros c. lia.
Qed.

(** Whatever fcluster returns, fit succeeds exactly when the labels are numbered without gaps and their number is
    within the number of clusters asked for; otherwise it raises. *)
Theorem C58_accepted d cut n fcluster t m labels : fcluster t <> [] ->
  clustering_fit d cut n fcluster (Some t) = Ok (m, labels) <->
  labels = map (fun c => c - 1)%nat (fcluster t) /\ (forall c, In c labels <-> (c < m)%nat) /\ (m <= t)%nat.
Proof.
  intros Hne. cbn [clustering_fit].
  assert (EL : map pred (fcluster t) = map (fun c => c - 1)%nat (fcluster t)) by (apply map_ext; intros; lia).
  rewrite EL. set (L := map (fun c => c - 1)%nat (fcluster t)).
  assert (HL : L <> []) by (unfold L; destruct (fcluster t); [auto|discriminate]).
  assert (F : forall x, In x L -> (x <= list_max L)%nat).
  { apply Forall_forall, (list_max_le L (list_max L)); auto. }
  assert (FM : In (list_max L) L).
  { clear - HL. induction L as [|x L IH]; [contradiction|]. destruct L as [|y L]; [left; simpl; lia|].
    change (list_max (x :: y :: L)) with (Nat.max x (list_max (y :: L))).
    destruct (Nat.max_spec x (list_max (y :: L))) as [[_ ->]|[_ ->]]; [right; apply IH; discriminate|left; auto]. }
  split.
  - destruct (Nat.eqb_spec (length (nodup Nat.eq_dec L)) (list_max L + 1)) as [E|_]; [|discriminate].
    destruct (Nat.leb_spec (list_max L + 1) t) as [Ht|_]; [|discriminate]. simpl andb. cbv iota.
    intros H. injection H as <- <-. split; [reflexivity|]. split; [|lia]. rewrite E. intros c. split.
    + intros H. apply F in H. lia.
    + intros Hc. apply (nodup_In Nat.eq_dec).
      apply (NoDup_length_incl (NoDup_nodup Nat.eq_dec L) (l' := seq 0 (list_max L + 1))); [rewrite seq_length; lia| |apply in_seq; lia].
      intros x Hx. apply nodup_In, F in Hx. apply in_seq. lia.
  - intros [-> [HI Ht]].
    assert (M : (list_max L + 1 = m)%nat).
    { assert (H := proj1 (HI _) FM). destruct m as [|m]; [lia|]. assert (H2 := F m (proj2 (HI m) (Nat.lt_succ_diag_r m))). lia. }
    assert (N : length (nodup Nat.eq_dec L) = m).
    { assert (P : Permutation (nodup Nat.eq_dec L) (seq 0 m)).
      { apply NoDup_Permutation; [apply NoDup_nodup|apply seq_NoDup|]. intros x. rewrite nodup_In, HI, in_seq. lia. }
      rewrite (Permutation_length P), seq_length. reflexivity. }
    rewrite N, M, Nat.eqb_refl. rewrite (proj2 (Nat.leb_le m t) Ht). reflexivity.
Qed.
Example C58_accepted_applies d cut :
  clustering_fit d cut 4 (fun _ => [1; 1; 2; 3]%nat) (Some 3%nat) = Ok (3, [0; 0; 1; 2])%nat /\
  clustering_fit d cut 4 (fun _ => [1; 1; 2; 3]%nat) (Some 2%nat) = Err AssertionError.
Proof. split; reflexivity. Qed.

(** A concrete case: two tight pairs of assets, far from each other. *)
Definition example_distance (u v : nat) : R :=
  match u, v with 0%nat, 1%nat | 1%nat, 0%nat => 1 | 2%nat, 3%nat | 3%nat, 2%nat => 2
  | 0%nat, 0%nat | 1%nat, 1%nat | 2%nat, 2%nat | 3%nat, 3%nat => 0 | _, _ => 10 end.
Definition example_cut (k : nat) : list nat := match k with 0 => [0; 0; 0; 0] | 1 => [0; 0; 1; 1] | 2 => [0; 0; 1; 2] | _ => [0; 1; 2; 3] end%nat.
Ltac compute_dispersion :=
  cbn [example_cut]; unfold dispersion, documented_dispersion; 
  cbn [list_max fold_right Nat.max seq total]; unfold average_distance, members, pairs; cbn [length seq filter nth Nat.eqb list_prod map app fst snd Nat.ltb Nat.leb]; cbn [total fold_right fst snd example_distance length]; try (cbn [INR]; lra).
Lemma example_W : dispersion example_distance (example_cut 0) = 43 / 6 /\ dispersion example_distance (example_cut 1) = 3 /\
  dispersion example_distance (example_cut 2) = 1 /\ dispersion example_distance (example_cut 3) = 0.
Proof. repeat split; compute_dispersion. Qed.
Lemma example_documented_W : documented_dispersion example_distance (example_cut 0) = 43 / 4 /\ documented_dispersion example_distance (example_cut 1) = 3 / 2 /\
  documented_dispersion example_distance (example_cut 2) = 1 / 2 /\ documented_dispersion example_distance (example_cut 3) = 0.
Proof. repeat split; compute_dispersion. Qed.
Example C58_applies : compute_optimal_n_clusters example_distance example_cut 4 = Ok 2%nat.
Proof.
  destruct (C58_optimal example_distance example_cut 4 ltac:(lia)) as [r [k [_ [E [B [M _]]]]]].
  assert (k = 2 \/ k = 3)%nat as [->| ->] by lia; [exact E|exfalso].
  specialize (M 2%nat ltac:(lia)). cbn [Nat.add Nat.sub] in M. destruct example_W as [W1 [W2 [W3 W4]]].
  rewrite W1, W2, W3, W4 in M. lra.
Qed.
(** The documentation asks for the k that maximises W(k+2) + W(k) - 2 W(k+1); the number returned is not that one,
    with either definition of the dispersion. *)
Theorem C58_documented_refuted : exists d cut n k, compute_optimal_n_clusters d cut n = Ok k /\
  forall W, W = dispersion d \/ W = documented_dispersion d ->
  exists j, (1 <= j <= n - 2)%nat /\ forall i, (1 <= i <= n - 2)%nat -> i <> j ->
    W (cut (i + 1)%nat) + W (cut (i - 1)%nat) - 2 * W (cut i) < W (cut (j + 1)%nat) + W (cut (j - 1)%nat) - 2 * W (cut j) /\ j <> k.
Proof.
  exists example_distance, example_cut, 4%nat, 2%nat. split; [exact C58_applies|].
  destruct example_W as [W1 [W2 [W3 W4]]], example_documented_W as [V1 [V2 [V3 V4]]].
  intros W [-> | ->]; exists 1%nat; (split; [lia|]); intros i Hi Hne; assert (i = 2)%nat by lia; subst i; cbn [Nat.add Nat.sub];
    rewrite ?W1, ?W2, ?W3, ?W4, ?V1, ?V2, ?V3, ?V4; split; try lia; lra.
Qed.
Print Assumptions C58_optimal.
Print Assumptions C58_range.
Print Assumptions C58_fit.
Print Assumptions C58_accepted.
Print Assumptions C58_two_assets_refuted.
Print Assumptions C58_documented_refuted.
