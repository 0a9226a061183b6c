(** C31, C32: nested / stacked optimisations and naive allocations. *)
From Coq Require Import List ZArith Bool Arith Reals Lia Lra Permutation.
From Verif Require Import RList HrpModel HrpProps HercModel ComposeModel.
Import ListNotations.
Local Open Scope R_scope.

(** * Specification *)
(** the assets with label k, in order *)
Definition of_label (labels : list Z) (k : nat) : list nat := filter (fun i => (nth i labels (-1) =? Z.of_nat k)%Z) (seq 0 (length labels)).
(** allocation inside cluster k, given to its p-th asset *)
Definition inside_weight (inner_fit : list nat -> list R) (ids : list nat) (p : nat) : R :=
  if (length ids =? 1)%nat then 1 else nth p (inner_fit ids) 0.
(** the series the outer estimator sees for a cluster *)
Definition series (X : list (list R)) (inner_predict : list nat -> list R) (test_indices ids : list nat) : list R :=
  match ids with [i] => map (fun t => nth i (nth t X []) 0) test_indices | _ => inner_predict ids end.

(** ** Proofs *)
Lemma scatter_length ids : forall vs w, length (scatter ids vs w) = length w.
Proof. induction ids as [|i ids IH]; intros [|v vs] w; cbn; auto. rewrite IH, map_length, seq_length. reflexivity. Qed.
Lemma scatter_nth ids : forall vs w, NoDup ids -> (forall i, In i ids -> (i < length w)%nat) -> length vs = length ids ->
  (forall p i, nth_error ids p = Some i -> nth i (scatter ids vs w) 0 = nth p vs 0) /\ (forall i, ~ In i ids -> nth i (scatter ids vs w) 0 = nth i w 0).
Proof.
  induction ids as [|i ids IH]; intros [|v vs] w Hnd Hin L; try discriminate.
  - split; [intros [|p] i H; discriminate|intros; reflexivity].
  - apply NoDup_cons_iff in Hnd as [N1 N2]. cbn [scatter]. set (w1 := map _ _).
    assert (L1: length w1 = length w) by (unfold w1; rewrite map_length, seq_length; reflexivity).
    assert (E: forall j, nth j w1 0 = if (j =? i)%nat && (j <? length w)%nat then v else nth j w 0).
    { intros j. destruct (Nat.ltb_spec j (length w)).
      - unfold w1. rewrite (nth_map_seq0 (fun j => if (j =? i)%nat then v else nth j w 0)) by auto. rewrite andb_true_r. reflexivity.
      - rewrite andb_false_r. rewrite !nth_overflow by lia. reflexivity. }
    destruct (IH vs w1 N2) as [A B]; [intros; rewrite L1; apply Hin; right; auto|cbn in L; lia|]. split.
    + intros [|p] j Hj; cbn in Hj.
      * inversion Hj; subst j. rewrite B by auto. rewrite E, Nat.eqb_refl. rewrite (proj2 (Nat.ltb_lt _ _)) by (apply Hin; left; auto). reflexivity.
      * cbn [nth]. apply A; auto.
    + intros j Hj. rewrite B by (intros H; apply Hj; right; auto). rewrite E. replace (j =? i)%nat with false by (symmetry; apply Nat.eqb_neq; intros ->; apply Hj; left; auto). reflexivity.
Qed.
Lemma inner_loop_spec n inner_fit cs :
  inner_loop n cs (map inner_fit (filter (fun ids => negb (single ids)) cs))
  = Some (map (fun ids => scatter ids (if single ids then [1] else inner_fit ids) (repeat 0 n)) cs).
Proof.
  induction cs as [|ids cs IH]; [reflexivity|]. cbn [inner_loop filter map]. destruct (single ids) eqn:E; cbn [negb map]; rewrite IH; reflexivity.
Qed.
Lemma pred_loop_spec X pred test cs :
  pred_loop X test cs (map pred (filter (fun ids => negb (single ids)) cs)) = Some (map (series X pred test) cs).
Proof.
  induction cs as [|ids cs IH]; [reflexivity|]. cbn [pred_loop filter map]. destruct (single ids) eqn:E; cbn [negb map]; rewrite IH; f_equal; f_equal.
  - apply Nat.eqb_eq in E. destruct ids as [|i [|j ids]]; try discriminate. reflexivity.
  - apply Nat.eqb_neq in E. destruct ids as [|i [|j ids]]; try reflexivity. exfalso; apply E; reflexivity.
Qed.
Lemma vecmat_nth outer inner n j : (j < n)%nat -> nth j (vecmat outer inner n) 0 = rsum (map (fun p => fst p * nth j (snd p) 0) (combine outer inner)).
Proof. intros H. unfold vecmat. rewrite (nth_map_seq0 (fun j => rsum (map (fun p => fst p * nth j (snd p) 0) (combine outer inner)))) by auto. reflexivity. Qed.
Lemma vecmat_length outer inner n : length (vecmat outer inner n) = n.
Proof. unfold vecmat. rewrite map_length, seq_length. reflexivity. Qed.
Lemma vecmat_sum outer inner n j : (j < n)%nat -> length outer = length inner ->
  nth j (vecmat outer inner n) 0 = sum_over (seq 0 (length inner)) (fun k => nth k outer 0 * nth j (nth k inner []) 0).
Proof.
  intros Hj L. rewrite vecmat_nth by auto. clear Hj. revert outer L. induction inner as [|r inner IH]; intros [|o outer] L; try discriminate; [reflexivity|].
  cbn [combine map length seq]. rewrite rsum_cons, so_cons. cbn [fst snd nth]. f_equal. rewrite IH by (cbn in L; lia). rewrite <- seq_shift, so_map. reflexivity.
Qed.
Lemma so_one_term (f : nat -> R) K k : (k < K)%nat -> (forall j, (j < K)%nat -> j <> k -> f j = 0) -> sum_over (seq 0 K) f = f k.
Proof.
  intros Hk H. assert (P: Permutation (seq 0 K) (k :: filter (fun j => negb (j =? k)%nat) (seq 0 K))).
  { apply NoDup_Permutation; [apply seq_NoDup|constructor; [rewrite filter_In, Nat.eqb_refl; intros [_ X]; discriminate|apply NoDup_filter, seq_NoDup]|].
    intros x. cbn [In]. rewrite filter_In, in_seq. destruct (Nat.eqb_spec x k); cbn; intuition lia. }
  rewrite (so_perm _ _ _ P), so_cons, so_zero; [ring|]. intros x Hx. apply filter_In in Hx as [A B]. apply in_seq in A. destruct (Nat.eqb_spec x k); [discriminate|]. apply H; lia.
Qed.
Lemma of_label_In labels k i : In i (of_label labels k) <-> nth_error labels i = Some (Z.of_nat k).
Proof.
  unfold of_label. rewrite filter_In, in_seq, Z.eqb_eq. split.
  - intros [H <-]. apply nth_error_nth'. lia.
  - intros H. pose proof (proj1 (nth_error_Some labels i) ltac:(congruence)). split; [lia|]. apply nth_error_nth; auto.
Qed.
Lemma of_label_NoDup labels k : NoDup (of_label labels k).
Proof. apply NoDup_filter, seq_NoDup. Qed.
Lemma n_clusters_spec labels i k : nth_error labels i = Some (Z.of_nat k) -> (k < n_clusters labels)%nat.
Proof.
  intros H. apply nth_error_In in H. unfold n_clusters. assert (Z.of_nat k <= fold_right Z.max (-1) labels)%Z; [|lia].
  induction labels as [|l labels IH]; [destruct H|]. cbn. destruct H as [->|H]; [lia|]. specialize (IH H). lia.
Qed.
Lemma n_clusters_ge labels : forall k, (k < n_clusters labels)%nat -> exists z, In z labels /\ (Z.of_nat k <= z)%Z.
Proof.
  unfold n_clusters. induction labels as [|l labels IH]; intros k H; [cbn in H; lia|]. cbn in H.
  destruct (Z_le_gt_dec (Z.of_nat k) l); [exists l; split; [left; auto|auto]|]. destruct (IH k) as (z&A&B); [lia|]. exists z. split; [right; auto|auto].
Qed.

(** The fit finds for every cluster its own inner allocation (one for a singleton) and hands the outer estimator one
    series per cluster; an asset gets the weight of its cluster times its weight inside the cluster, an asset
    labelled as noise gets nothing. *)
Theorem C31_nco :
  forall n X inner_fit inner_predict outer_fit test_indices labels,
    length labels = n -> let K := n_clusters labels in
    (forall k, (k < K)%nat -> length (inner_fit (of_label labels k)) = length (of_label labels k)) ->
    (forall P, length P = K -> length (outer_fit P) = K) ->
    (forall i k, nth_error labels i = Some (Z.of_nat k) -> (k < K)%nat)
    /\ (forall k, (k < K)%nat -> exists i z, nth_error labels i = Some z /\ (Z.of_nat k <= z)%Z)
    /\ exists w, nco n X inner_fit inner_predict outer_fit test_indices labels = Some w /\ length w = n
      /\ let outer := outer_fit (map (fun k => series X inner_predict test_indices (of_label labels k)) (seq 0 K)) in
         (forall k p i, (k < K)%nat -> nth_error (of_label labels k) p = Some i -> nth i w 0 = nth k outer 0 * inside_weight inner_fit (of_label labels k) p)
         /\ (forall i z, nth_error labels i = Some z -> (z < 0)%Z -> nth i w 0 = 0).
Proof.
  intros n X inner_fit inner_predict outer_fit test labels Hn K Hin Hout. split; [intros i k H; eapply n_clusters_spec; eauto|]. split.
  { intros k Hk. destruct (n_clusters_ge labels k Hk) as (z&A&B). apply In_nth_error in A as [i A]. eauto. }
  unfold nco. rewrite inner_loop_spec, pred_loop_spec. eexists. split; [reflexivity|]. split; [apply vecmat_length|].
  assert (EC: nco_clusters labels = map (of_label labels) (seq 0 K)) by reflexivity.
  rewrite EC, !map_map. clear EC. set (outer := outer_fit _). assert (Lo: length outer = K) by (apply Hout; rewrite map_length, seq_length; reflexivity).
  set (inner := map (fun k => scatter (of_label labels k) (if single (of_label labels k) then [1] else inner_fit (of_label labels k)) (repeat 0 n)) (seq 0 K)). assert (Li: length inner = K) by (unfold inner; rewrite map_length, seq_length; reflexivity).
  assert (Ni: forall k, (k < K)%nat -> nth k inner [] = scatter (of_label labels k) (if single (of_label labels k) then [1] else inner_fit (of_label labels k)) (repeat 0 n)).
  { intros k Hk. unfold inner. set (g := fun k => scatter (of_label labels k) (if single (of_label labels k) then [1] else inner_fit (of_label labels k)) (repeat 0 n)). rewrite (nth_indep _ _ (g 0%nat)) by (rewrite map_length, seq_length; auto). rewrite map_nth, seq_nth by auto. reflexivity. }
  assert (Sc: forall k, (k < K)%nat -> (forall p i, nth_error (of_label labels k) p = Some i -> nth i (nth k inner []) 0 = inside_weight inner_fit (of_label labels k) p)
                                     /\ (forall i, ~ In i (of_label labels k) -> nth i (nth k inner []) 0 = 0)).
  { intros k Hk. rewrite Ni by auto. unfold inside_weight, single. pose proof (of_label_NoDup labels k) as Hd.
    assert (Hr: forall i, In i (of_label labels k) -> (i < length (repeat 0%R n))%nat).
    { intros i Hi. rewrite repeat_length, <- Hn. apply of_label_In in Hi. apply nth_error_Some. congruence. }
    destruct (Nat.eqb_spec (length (of_label labels k)) 1) as [E|E].
    - destruct (scatter_nth (of_label labels k) [1] (repeat 0 n) Hd Hr ltac:(rewrite E; reflexivity)) as [A B]. split.
      + intros p i Hp. rewrite (A p i Hp). assert (Hp0: p = 0%nat) by (pose proof (proj1 (nth_error_Some (of_label labels k) p) ltac:(congruence)); lia). subst p. reflexivity.
      + intros i Hi. rewrite B by auto. apply nth_repeat_0.
    - destruct (scatter_nth (of_label labels k) (inner_fit (of_label labels k)) (repeat 0 n) Hd Hr (Hin k Hk)) as [A B]. split; [auto|]. intros i Hi. rewrite B by auto. apply nth_repeat_0. }
  split.
  - intros k p i Hk Hp. assert (Hil: nth_error labels i = Some (Z.of_nat k)) by (apply of_label_In; eapply nth_error_In; eauto).
    assert (Hi: (i < n)%nat) by (rewrite <- Hn; apply nth_error_Some; congruence).
    rewrite vecmat_sum by congruence. rewrite Li. rewrite (so_one_term _ K k Hk).
    + rewrite (proj1 (Sc k Hk) p i Hp). reflexivity.
    + intros j Hj Hjk. rewrite (proj2 (Sc j Hj)); [ring|]. rewrite of_label_In. intros H. apply Hjk. rewrite Hil in H. inversion H. lia.
  - intros i z Hil Hz. assert (Hi: (i < n)%nat) by (rewrite <- Hn; apply nth_error_Some; congruence).
    rewrite vecmat_sum by congruence. rewrite Li. apply so_zero. intros k Hk. apply in_seq in Hk. rewrite (proj2 (Sc k ltac:(lia))); [ring|]. rewrite of_label_In, Hil. intros H. inversion H. lia.
Qed.
Print Assumptions C31_nco.
Lemma rsum_outer (outer : list R) : rsum outer = sum_over (seq 0 (length outer)) (fun k => nth k outer 0).
Proof. symmetry. apply rsum_nth. reflexivity. Qed.
(** composition of full (long-only) allocations *)
Lemma vecmat_full outer inner n : length outer = length inner -> rsum outer = 1 -> (forall r, In r inner -> length r = n /\ rsum r = 1) -> rsum (vecmat outer inner n) = 1.
Proof.
  intros L S H. rewrite <- (rsum_nth _ n) by apply vecmat_length.
  rewrite (so_ext _ (fun j => sum_over (seq 0 (length inner)) (fun k => nth k outer 0 * nth j (nth k inner []) 0))) by (intros j Hj; apply in_seq in Hj; apply vecmat_sum; auto; lia).
  rewrite so_swap. rewrite (so_ext _ (fun k => nth k outer 0)); [rewrite <- L; rewrite <- rsum_outer; auto|].
  intros k Hk. apply in_seq in Hk. rewrite so_scal. destruct (H (nth k inner [])) as [A B]; [apply nth_In; lia|]. rewrite rsum_nth, B by auto. ring.
Qed.
Lemma vecmat_nonneg outer inner n : length outer = length inner -> (forall k, 0 <= nth k outer 0) -> (forall r, In r inner -> forall j, 0 <= nth j r 0) -> forall j, 0 <= nth j (vecmat outer inner n) 0.
Proof.
  intros L Ho Hi j. destruct (Nat.lt_ge_cases j n) as [Hj|Hj]; [|rewrite nth_overflow by (rewrite vecmat_length; auto); lra].
  rewrite vecmat_sum by auto. apply so_nonneg. intros k Hk. apply in_seq in Hk. apply Rmult_le_pos; [auto|apply Hi, nth_In; lia].
Qed.
(** Stacking: each asset gets the final-weighted combination of the base allocations; full and long-only allocations
    compose; and the in-sample return series of the result is the same combination of the base predictions. *)
Theorem C31_stacking :
  forall n inner predictions final_fit,
    let outer := final_fit predictions in let w := stacking n inner predictions final_fit in
    length outer = length inner -> (forall r, In r inner -> length r = n) ->
    length w = n
    /\ (forall j, (j < n)%nat -> nth j w 0 = sum_over (seq 0 (length inner)) (fun k => nth k outer 0 * nth j (nth k inner []) 0))
    /\ (rsum outer = 1 -> (forall r, In r inner -> rsum r = 1) -> rsum w = 1)
    /\ ((forall k, 0 <= nth k outer 0) -> (forall r, In r inner -> forall j, 0 <= nth j r 0) -> forall j, 0 <= nth j w 0)
    /\ (forall x : nat -> R,
          sum_over (seq 0 n) (fun j => x j * nth j w 0)
          = sum_over (seq 0 (length inner)) (fun k => nth k outer 0 * sum_over (seq 0 n) (fun j => x j * nth j (nth k inner []) 0))).
Proof.
  intros n inner predictions final_fit outer w Lo Hr. unfold w, stacking. fold outer. split; [apply vecmat_length|]. split; [intros j Hj; apply vecmat_sum; auto|].
  split; [intros S H; apply vecmat_full; auto|]. split; [intros H1 H2; apply vecmat_nonneg; auto|]. intros x.
  rewrite (so_ext _ (fun j => sum_over (seq 0 (length inner)) (fun k => nth k outer 0 * (x j * nth j (nth k inner []) 0)))).
  - rewrite so_swap. apply so_ext. intros k _. apply so_scal.
  - intros j Hj. apply in_seq in Hj. rewrite vecmat_sum by (auto; lia). rewrite <- so_scal. apply so_ext. intros; ring.
Qed.
Print Assumptions C31_stacking.

Lemma scatter_sum ids : forall vs w, NoDup ids -> (forall i, In i ids -> (i < length w)%nat) -> length vs = length ids -> (forall i, In i ids -> nth i w 0 = 0) ->
  rsum (scatter ids vs w) = rsum w + rsum vs.
Proof.
  induction ids as [|i ids IH]; intros [|v vs] w Hnd Hin L Hz; try discriminate; [cbn [scatter]; change (rsum []) with 0; ring|].
  apply NoDup_cons_iff in Hnd as [N1 N2]. cbn [scatter]. set (w1 := map _ _).
  assert (L1: length w1 = length w) by (unfold w1; rewrite map_length, seq_length; reflexivity).
  assert (Nw: forall j, (j < length w)%nat -> nth j w1 0 = if (j =? i)%nat then v else nth j w 0).
  { intros j Hj. unfold w1. rewrite (nth_map_seq0 (fun j => if (j =? i)%nat then v else nth j w 0)) by auto. reflexivity. }
  rewrite IH; auto.
  - rewrite rsum_cons. enough (rsum w1 = rsum w + v) by lra. rewrite <- (rsum_nth w1 (length w)) by auto. rewrite <- (rsum_nth w (length w)) by auto.
    rewrite (so_ext _ (fun j => nth j w 0 + (if (j =? i)%nat then v else 0))).
    + rewrite so_add. f_equal. rewrite (so_one_term _ (length w) i); [rewrite Nat.eqb_refl; reflexivity|apply Hin; left; auto|]. intros j _ Hj. apply Nat.eqb_neq in Hj. rewrite Hj. reflexivity.
    + intros j Hj. apply in_seq in Hj. rewrite Nw by lia. destruct (Nat.eqb_spec j i); [subst; rewrite Hz by (left; auto); ring|ring].
  - intros j Hj. rewrite L1. apply Hin. right; auto.
  - intros j Hj. rewrite Nw by (apply Hin; right; auto). replace (j =? i)%nat with false by (symmetry; apply Nat.eqb_neq; intros ->; auto). apply Hz. right; auto.
Qed.
Theorem C31_nco_full :
  forall n X inner_fit inner_predict outer_fit test_indices labels w,
    length labels = n -> nco n X inner_fit inner_predict outer_fit test_indices labels = Some w ->
    (forall k, (k < n_clusters labels)%nat -> length (inner_fit (of_label labels k)) = length (of_label labels k)) ->
    (forall P, length P = n_clusters labels -> length (outer_fit P) = n_clusters labels) ->
    ((forall P, rsum (outer_fit P) = 1) -> (forall ids, (length ids <> 1)%nat -> rsum (inner_fit ids) = 1) -> rsum w = 1)
    /\ ((forall P k, 0 <= nth k (outer_fit P) 0) -> (forall ids p, 0 <= nth p (inner_fit ids) 0) -> forall i, 0 <= nth i w 0).
Proof.
  intros n X inner_fit inner_predict outer_fit test labels w Hn Hw Hin Hout. unfold nco in Hw. rewrite inner_loop_spec, pred_loop_spec in Hw. inversion Hw as [E]. clear Hw E.
  set (K := n_clusters labels) in *.
  assert (LC: length (nco_clusters labels) = K) by (unfold nco_clusters; rewrite map_length, seq_length; reflexivity).
  assert (HC: forall ids, In ids (nco_clusters labels) -> NoDup ids /\ (forall i, In i ids -> (i < n)%nat) /\ length (if single ids then [1] else inner_fit ids) = length ids).
  { intros ids H. unfold nco_clusters in H. apply in_map_iff in H as (k&<-&Hk). apply in_seq in Hk. fold (of_label labels k). change (members labels k) with (of_label labels k). split; [apply of_label_NoDup|]. split.
    - intros i Hi. apply of_label_In in Hi. rewrite <- Hn. apply nth_error_Some. congruence.
    - unfold single. destruct (Nat.eqb_spec (length (of_label labels k)) 1) as [E|E]; [rewrite E; reflexivity|apply Hin; unfold K; lia]. }
  split.
  - intros Ho Hi. apply vecmat_full; [rewrite Hout, map_length; auto; rewrite map_length; auto|apply Ho|].
    intros r Hr. apply in_map_iff in Hr as (ids&<-&Hids). destruct (HC ids Hids) as (A&B&C). split; [rewrite scatter_length, repeat_length; reflexivity|].
    rewrite scatter_sum; auto; [|intros; rewrite repeat_length; auto|intros; apply nth_repeat_0]. rewrite rsum_repeat. unfold single. destruct (Nat.eqb_spec (length ids) 1); [cbn; ring|rewrite Hi by auto; ring].
  - intros Ho Hi. apply vecmat_nonneg; [rewrite Hout, map_length; auto; rewrite map_length; auto|apply Ho|].
    intros r Hr. apply in_map_iff in Hr as (ids&<-&Hids). destruct (HC ids Hids) as (A&B&C). intros j.
    destruct (scatter_nth ids (if single ids then [1] else inner_fit ids) (repeat 0 n) A) as [P Q]; auto; [intros; rewrite repeat_length; auto|].
    destruct (in_dec Nat.eq_dec j ids) as [Hj|Hj]; [|rewrite Q by auto; rewrite nth_repeat_0; lra]. apply In_nth_error in Hj as [p Hp]. rewrite (P p j Hp). destruct (single ids); [destruct p as [|[|p]]; cbn; lra|auto].
Qed.
Print Assumptions C31_nco_full.
(** five assets, clusters {0, 3} and {1}, {2, 4}; equal inner weights, outer weights 1/2, 1/4, 1/4 *)
Example C31_example :
  let eq ids := map (fun _ : nat => / INR (length ids)) ids in
  exists w, nco 5 [] eq (fun _ => []) (fun _ => [1/2; 1/4; 1/4]) [] [0; 1; 2; 0; 2]%Z = Some w /\ w = [1/4; 1/4; 1/8; 1/4; 1/8].
Proof.
  intros eq. eexists. split; [reflexivity|]. unfold eq, nco_clusters, members, n_clusters, vecmat, scatter. cbn. repeat (f_equal; try lra).
Qed.

(** * Naive allocations *)
Theorem C32_equal_weighted : forall n, (0 < n)%nat -> length (equal_weighted n) = n /\ rsum (equal_weighted n) = 1 /\ forall i, (i < n)%nat -> nth i (equal_weighted n) 0 = / INR n.
Proof.
  intros n Hn. unfold equal_weighted. assert (0 < INR n) by (apply lt_0_INR; auto).
  assert (E: map (fun x => x / INR n) (repeat 1 n) = repeat (/ INR n) n). { clear. generalize (INR n). intros r. induction n; [reflexivity|]. cbn. f_equal; [lra|auto]. }
  rewrite E. split; [apply repeat_length|]. split; [rewrite rsum_repeat; field; lra|]. intros i Hi. apply nth_repeat_lt; auto.
Qed.
Print Assumptions C32_equal_weighted.
Lemma rsum_map_scal {A} (f : A -> R) c l : rsum (map (fun x => f x * c) l) = rsum (map f l) * c.
Proof. induction l as [|a l IH]; cbn [map]; rewrite ?rsum_cons; [cbn; ring|rewrite IH; ring]. Qed.
Lemma rsum_map_div l s : s <> 0 -> rsum (map (fun x => x / s) l) = rsum l / s.
Proof. intros H. unfold Rdiv. rewrite (rsum_map_scal (fun x => x)), map_id. reflexivity. Qed.
Lemma rsum_pos l : l <> [] -> (forall x, In x l -> 0 < x) -> 0 < rsum l.
Proof.
  destruct l as [|a l]; [congruence|]. intros _ H. rewrite rsum_cons. assert (0 <= rsum l); [|pose proof (H a (or_introl eq_refl)); lra].
  assert (forall x, In x l -> 0 < x) as H2 by (intros; apply H; right; auto). clear H. induction l as [|b l IH]; [cbn; lra|]. rewrite rsum_cons. pose proof (H2 b (or_introl eq_refl)). specialize (IH (fun x Hx => H2 x (or_intror Hx))). lra.
Qed.
(** the weights are positive, sum to one, and are proportional to the inverse volatilities *)
Theorem C32_inverse_volatility :
  forall variances, variances <> [] -> (forall v, In v variances -> 0 < v) -> let w := inverse_volatility variances in
    length w = length variances /\ rsum w = 1
    /\ (forall i, (i < length variances)%nat -> 0 < nth i w 0)
    /\ (forall i j, (i < length variances)%nat -> (j < length variances)%nat -> nth i w 0 * sqrt (nth i variances 0) = nth j w 0 * sqrt (nth j variances 0)).
Proof.
  intros vs Hne Hpos w. unfold w, inverse_volatility. set (u := map (fun v => 1 / sqrt v) vs).
  assert (Hu: forall x, In x u -> 0 < x). { intros x Hx. apply in_map_iff in Hx as (v&<-&Hv). apply Rdiv_lt_0_compat; [lra|apply sqrt_lt_R0; auto]. }
  assert (Su: 0 < rsum u). { apply rsum_pos; auto. intros E. apply Hne. destruct vs; [auto|discriminate]. }
  assert (Ni: forall i, (i < length vs)%nat -> nth i (map (fun x => x / rsum u) u) 0 = 1 / sqrt (nth i vs 0) / rsum u).
  { intros i Hi. rewrite (nth_indep _ 0 ((fun x => x / rsum u) (1 / sqrt 0))) by (unfold u; rewrite !map_length; auto). unfold u at 2. rewrite map_map. rewrite (map_nth (fun x => 1 / sqrt x / rsum u)).
    f_equal; f_equal; f_equal; apply nth_indep; auto. }
  split; [unfold u; rewrite !map_length; reflexivity|]. split; [rewrite rsum_map_div by lra; field; lra|]. split.
  - intros i Hi. rewrite Ni by auto. apply Rdiv_lt_0_compat; auto. apply Rdiv_lt_0_compat; [lra|]. apply sqrt_lt_R0, Hpos, nth_In; auto.
  - assert (Q: forall i, (i < length vs)%nat -> nth i (map (fun x => x / rsum u) u) 0 * sqrt (nth i vs 0) = / rsum u).
    { intros i Hi. rewrite Ni by auto. assert (0 < sqrt (nth i vs 0)) by (apply sqrt_lt_R0, Hpos, nth_In; auto). field. lra. }
    intros i j Hi Hj. rewrite !Q by auto. reflexivity.
Qed.
Print Assumptions C32_inverse_volatility.
(** random weights: drawn zeros stay zero, the others are positive, the sum is one; when every asset is drawn as a zero
    the denominator is zero *)
Theorem C32_rand_weights :
  forall k zeros_idx, (forall x, In x k -> 0 < x) -> let w := rand_weights k zeros_idx in
    (exists i, (i < length k)%nat /\ ~ In i zeros_idx) ->
    length w = length k /\ rsum w = 1
    /\ (forall i, (i < length k)%nat -> In i zeros_idx -> nth i w 0 = 0)
    /\ (forall i, (i < length k)%nat -> ~ In i zeros_idx -> 0 < nth i w 0).
Proof.
  intros k z Hpos w (a&Ha&Hna). unfold w, rand_weights. set (u := map _ (seq 0 (length k))).
  assert (Nu: forall i, (i < length k)%nat -> nth i u 0 = if memn i z then 0 else nth i k 0). { intros i Hi. unfold u. rewrite (nth_map_seq0 (fun i => if memn i z then 0 else nth i k 0)) by auto. reflexivity. }
  assert (Lu: length u = length k) by (unfold u; rewrite map_length, seq_length; reflexivity).
  assert (P: forall i, (i < length k)%nat -> 0 < nth i k 0) by (intros; apply Hpos, nth_In; auto).
  assert (Su: 0 < rsum u).
  { rewrite <- (rsum_nth u (length k)) by auto. apply Rlt_le_trans with (nth a u 0); [rewrite Nu by auto; apply memn_nIn in Hna; rewrite Hna; auto|].
    apply (so_ge_elem (fun i => nth i u 0)); [|apply in_seq; lia]. intros i Hi. apply in_seq in Hi. rewrite Nu by lia. specialize (P i ltac:(lia)). destruct (memn i z); lra. }
  assert (Ni: forall i, (i < length k)%nat -> nth i (map (fun x => x / rsum u) u) 0 = nth i u 0 / rsum u).
  { intros i Hi. rewrite (nth_indep _ 0 ((fun x => x / rsum u) 0)) by (rewrite map_length; lia). rewrite (map_nth (fun x => x / rsum u)). reflexivity. }
  split; [rewrite map_length; auto|]. split; [rewrite rsum_map_div by lra; field; lra|]. split; intros i Hi Hz; rewrite Ni, Nu by auto.
  - apply memn_In in Hz. rewrite Hz. lra.
  - apply memn_nIn in Hz. rewrite Hz. apply Rdiv_lt_0_compat; auto.
Qed.
Print Assumptions C32_rand_weights.
Theorem C32_all_zeros_refuted : exists k zeros_idx, NoDup zeros_idx /\ (length zeros_idx <= length k)%nat /\ (forall x, In x k -> 0 < x)
  /\ rsum (map (fun i => if memn i zeros_idx then 0 else nth i k 0) (seq 0 (length k))) = 0.
Proof. exists [1], [0%nat]. split; [repeat constructor; auto|]. split; [cbn; lia|]. split; [intros x [<-|[]]; lra|cbn; ring]. Qed.
Print Assumptions C32_all_zeros_refuted.
Example C32_example : let w := inverse_volatility [1; 4] in nth 0 w 0 = 2/3 /\ nth 1 w 0 = 1/3.
Proof.
  assert (S1: sqrt 1 = 1) by apply sqrt_1. assert (S2: sqrt 4 = 2) by (replace 4 with (2*2) by lra; apply sqrt_square; lra).
  unfold inverse_volatility. cbn. rewrite S1, S2. split; field.
Qed.
