(** C30: Hierarchical Equal Risk Contribution. *)
From Coq Require Import List Bool Arith Reals Lia Lra Permutation.
From Verif Require Import RList HrpModel HrpProps HercModel.
Import ListNotations.
Local Open Scope R_scope.

(** * Specification *)
(** the leaves of a node *)
Fixpoint leaf (t : tree) (i : nat) : Prop := match t with Leaf j => i = j | Node l r => leaf l i \/ leaf r i end.
Fixpoint subtree (s t : tree) : Prop := s = t \/ match t with Leaf _ => False | Node l r => subtree s l \/ subtree s r end.
(** asset i has label k *)
Definition labelled (labels : list nat) (i k : nat) : Prop := nth_error labels i = Some k.
(** the labelling is a cut of the dendrogram: going down from the root, every path meets a node whose leaves are exactly one cluster *)
Inductive is_cut (labels : list nat) : tree -> Prop :=
| cut_here t k : (forall i, leaf t i <-> labelled labels i k) -> is_cut labels t
| cut_below l r : is_cut labels l -> is_cut labels r -> is_cut labels (Node l r).
Definition weight_of (w : list R) (n : nat) (S : nat -> bool) : R := sum_over (filter S (seq 0 n)) (fun i => nth i w 0).
(** the clusters inside a node, and the sum of their risks *)
Definition inside (labels : list nat) (n : nat) (t : tree) (k : nat) : bool :=
  forallb (fun i => negb (nth i labels 0 =? k)%nat || memn i (pre_order t)) (seq 0 n).
Definition risk_inside (risk : list R -> R) (labels : list nat) (n K : nat) (t : tree) : R :=
  sum_over (filter (inside labels n t) (seq 0 K)) (fun k => cluster_risk risk n (filter (fun i => (nth i labels 0 =? k)%nat) (seq 0 n))).

(** ** Proofs *)
Lemma leaf_pre_order t i : leaf t i <-> In i (pre_order t).
Proof. induction t as [j|l IHl r IHr]; cbn; [intuition|]. rewrite in_app_iff, IHl, IHr. tauto. Qed.
Lemma leaf_exists t : exists i, leaf t i.
Proof. induction t as [j|l [i Hi] r _]; cbn; eauto. Qed.
Lemma subset_spec a b : subset a b = true <-> incl a b.
Proof. unfold subset. rewrite forallb_forall. split; intros H i Hi; specialize (H i Hi); apply memn_In; auto. Qed.
Lemma NoDup_app_disj {A} (a b : list A) : NoDup (a ++ b) -> forall x, In x a -> ~ In x b.
Proof. induction a as [|y a IH]; intros H x []; cbn in H; inversion H; subst; auto. intros Hx; apply H3, in_or_app; auto. Qed.

Section HERC.
  Variable risk : list R -> R.
  Variable n : nat.
  Variable labels : list nat.
  Variable K : nat.
  Hypothesis Hlab : length labels = n.
  Hypothesis HK : forall i k, labelled labels i k -> (k < K)%nat.
  Hypothesis Hne : forall k, (k < K)%nat -> exists i, labelled labels i k.
  Hypothesis Hrisk : positive_risks risk n.

  Notation cl := (cluster n labels K).
  Lemma cl_In k i : (k < K)%nat -> (In i (cl k) <-> labelled labels i k).
  Proof.
    intros Hk. unfold cluster, labelled. rewrite filter_In, in_seq, Nat.eqb_eq. split.
    - intros [H <-]. apply nth_error_nth'. lia.
    - intros H. pose proof (proj1 (nth_error_Some labels i) ltac:(congruence)). split; [lia|]. apply nth_error_nth. exact H.
  Qed.
  Lemma lab_unique i k k' : labelled labels i k -> labelled labels i k' -> k = k'.
  Proof. unfold labelled. congruence. Qed.
  Lemma lab_total i : (i < n)%nat -> exists k, labelled labels i k.
  Proof. intros H. unfold labelled. destruct (nth_error labels i) eqn:E; [eauto|]. apply nth_error_None in E. lia. Qed.
  Lemma nth_clusters k : (k < K)%nat -> nth k (clusters n labels K) [] = cl k.
  Proof.
    intros H. unfold clusters. rewrite (nth_indep _ _ (cl 0)) by (rewrite map_length, seq_length; auto). rewrite map_nth, seq_nth by auto. reflexivity.
  Qed.
  Definition ins (t : tree) (k : nat) : bool := subset (cl k) (pre_order t).
  Lemma ins_spec t k : (k < K)%nat -> (ins t k = true <-> forall i, labelled labels i k -> leaf t i).
  Proof. intros Hk. unfold ins. rewrite subset_spec. split; intros H i Hi; [apply leaf_pre_order, H, cl_In; auto|apply leaf_pre_order, H, (cl_In k); auto]. Qed.

  Lemma cut_dichotomy t : is_cut labels t -> forall k, (k < K)%nat -> ins t k = true \/ (forall i, labelled labels i k -> ~ leaf t i).
  Proof.
    induction 1 as [t k0 H0|l r _ IHl _ IHr]; intros k Hk.
    - destruct (Nat.eq_dec k k0) as [->|Hne']; [left; apply ins_spec; auto; intros i Hi; apply H0; auto|].
      right. intros i Hi Hl. apply H0 in Hl. apply Hne'. eapply lab_unique; eauto.
    - destruct (IHl k Hk) as [A|A]; [left; apply ins_spec; auto; intros i Hi; left; apply (proj1 (ins_spec l k Hk) A); auto|].
      destruct (IHr k Hk) as [B|B]; [left; apply ins_spec; auto; intros i Hi; right; apply (proj1 (ins_spec r k Hk) B); auto|].
      right. intros i Hi [Hl|Hr]; [apply (A i Hi Hl)|apply (B i Hi Hr)].
  Qed.
  Lemma cut_covers t : is_cut labels t -> forall i, leaf t i -> exists k, labelled labels i k /\ ins t k = true.
  Proof.
    induction 1 as [t k0 H0|l r _ IHl _ IHr]; intros i Hi.
    - apply H0 in Hi as Hi'. exists k0. split; auto. apply ins_spec; [eapply HK; eauto|]. intros j Hj. apply H0; auto.
    - destruct Hi as [Hi|Hi]; [destruct (IHl i Hi) as (k&A&B)|destruct (IHr i Hi) as (k&A&B)]; exists k; (split; [auto|]); (apply ins_spec; [eapply HK; eauto|]); intros j Hj; [left|right];
        (eapply ins_spec; [eapply HK; eauto|exact B|exact Hj]).
  Qed.
  Definition sumk (t : tree) (v : list R) : R := sum_over (filter (ins t) (seq 0 K)) (fun k => nth k v 0).
  Lemma sumk_node l r v : is_cut labels l -> is_cut labels r -> NoDup (pre_order (Node l r)) -> sumk (Node l r) v = sumk l v + sumk r v.
  Proof.
    intros Cl Cr Hnd. cbn [pre_order] in Hnd. unfold sumk. assert (HS: forall k, In k (seq 0 K) -> (k < K)%nat) by (intros k Hk; apply in_seq in Hk; lia).
    induction (seq 0 K) as [|k ks IH]; [cbn; unfold sum_over; cbn; ring|].
    assert (Hk: (k < K)%nat) by (apply HS; left; auto). cbn [filter].
    assert (D: ins l k = true -> ins r k = false).
    { intros A. destruct (ins r k) eqn:B; auto. exfalso. destruct (Hne k Hk) as [i Hi]. apply (proj1 (ins_spec l k Hk)) with (i := i) in A; auto. apply (proj1 (ins_spec r k Hk)) with (i := i) in B; auto.
      apply leaf_pre_order in A, B. exact (NoDup_app_disj _ _ Hnd i A B). }
    assert (E: ins (Node l r) k = ins l k || ins r k).
    { apply eq_true_iff_eq. rewrite orb_true_iff. split.
      - intros A. destruct (cut_dichotomy l Cl k Hk) as [|B]; auto. destruct (cut_dichotomy r Cr k Hk) as [|C]; auto. exfalso.
        destruct (Hne k Hk) as [i Hi]. apply (proj1 (ins_spec (Node l r) k Hk)) with (i := i) in A; auto. destruct A as [A|A]; [apply (B i Hi A)|apply (C i Hi A)].
      - intros [A|A]; apply ins_spec; auto; intros i Hi; [left|right]; eapply ins_spec; eauto. }
    rewrite E. specialize (IH (fun k' H => HS k' (or_intror H))).
    destruct (ins l k) eqn:A; [rewrite (D eq_refl); cbn [orb]; rewrite !so_cons, IH; ring|].
    destruct (ins r k) eqn:B; cbn [orb]; rewrite ?so_cons, IH; ring.
  Qed.
  Lemma so_ins_scale t v c w0 : (forall k, (k < K)%nat -> ins t k = true -> nth k v 0 = c * nth k w0 0) -> sumk t v = c * sumk t w0.
  Proof.
    intros H. unfold sumk. rewrite <- so_scal. apply so_ext. intros k Hk. apply filter_In in Hk as [H1 H2]. apply in_seq in H1. apply H; auto; lia.
  Qed.
  Notation rsk := (cluster_risks risk n labels K).
  Lemma rsk_pos k : (k < K)%nat -> 0 < nth k rsk 0.
  Proof.
    intros Hk. unfold cluster_risks, clusters. rewrite map_map. rewrite (nth_map_seq0 (fun k => risk (inv_risk_w risk n (cl k)))) by auto.
    apply Hrisk; [|intros i Hi; apply (cl_In k) in Hi; auto; unfold labelled in Hi; rewrite <- Hlab; apply nth_error_Some; congruence].
    destruct (Hne k Hk) as [i Hi]. apply (cl_In k) in Hi; auto. intros E; rewrite E in Hi; destruct Hi.
  Qed.
  Lemma sumk_pos t v : (forall k, (k < K)%nat -> ins t k = true -> 0 < nth k v 0) -> (exists k, (k < K)%nat /\ ins t k = true) -> 0 < sumk t v.
  Proof.
    intros H (k&Hk&Ik). unfold sumk. assert (Hin: In k (filter (ins t) (seq 0 K))) by (apply filter_In; split; [apply in_seq; lia|auto]).
    eapply Rlt_le_trans; [apply (H k Hk Ik)|]. apply (so_ge_elem (fun k => nth k v 0)); auto. intros y Hy. apply filter_In in Hy as [A B]. apply in_seq in A. apply Rlt_le, H; auto; lia.
  Qed.
  Lemma one_cluster t k0 v : (k0 < K)%nat -> (forall i, leaf t i <-> labelled labels i k0) -> sumk t v = nth k0 v 0.
  Proof.
    intros Hk0 H0. assert (E: filter (ins t) (seq 0 K) = [k0]).
    { assert (F: forall k, (k < K)%nat -> ins t k = (k =? k0)%nat).
      { intros k Hk. apply eq_true_iff_eq. rewrite Nat.eqb_eq, ins_spec by auto. split.
        - intros H. destruct (Hne k Hk) as [i Hi]. specialize (H i Hi). apply H0 in H. eapply lab_unique; eauto.
        - intros ->. intros i Hi. apply H0; auto. }
      transitivity (filter (fun k => (k =? k0)%nat) (seq 0 K)).
      - apply filter_ext_in. intros k Hk. apply in_seq in Hk. apply F; lia.
      - clear F H0 v. assert (G: forall s len, (s <= k0 < s + len)%nat -> filter (fun k => (k =? k0)%nat) (seq s len) = [k0]).
        { intros s len; revert s; induction len as [|len IH]; intros s Hs; [lia|]. cbn [seq filter]. destruct (s =? k0)%nat eqn:E.
          - apply Nat.eqb_eq in E; subst s. f_equal. assert (G: forall m s, (k0 < s)%nat -> filter (fun k => (k =? k0)%nat) (seq s m) = []); [|apply G; lia].
            clear. induction m as [|m IH]; intros s Hs; [reflexivity|]. cbn [seq filter]. replace (s =? k0)%nat with false by (symmetry; apply Nat.eqb_neq; lia). apply IH; lia.
          - apply Nat.eqb_neq in E. apply IH. lia. }
        apply G. lia. }
    unfold sumk. rewrite E, so_cons, so_nil. ring.
  Qed.
  (** no cluster contains all leaves of the node *)
  Definition above (t : tree) : Prop := forall k, exists i, leaf t i /\ ~ labelled labels i k.
  Lemma recurse_spec t : is_cut labels t -> NoDup (pre_order t) -> forall cw, length cw = K ->
    exists cw', recurse risk n labels K t cw = Some cw' /\ length cw' = K
      /\ (forall k, (k < K)%nat -> ins t k = false -> nth k cw' 0 = nth k cw 0)
      /\ forall W, 0 < W -> (forall k, (k < K)%nat -> ins t k = true -> nth k cw 0 = W) ->
           sumk t cw' = W /\ (forall k, (k < K)%nat -> ins t k = true -> 0 < nth k cw' 0)
           /\ forall a b, subtree (Node a b) t -> above (Node a b) -> sumk a cw' * sumk a rsk = sumk b cw' * sumk b rsk.
  Proof.
    (* a node that is a cluster *)
    assert (Here: forall t k0 cw, (k0 < K)%nat -> (forall i, leaf t i <-> labelled labels i k0) -> length cw = K ->
       exists cw', Some cw = Some cw' /\ length cw' = K
      /\ (forall k, (k < K)%nat -> ins t k = false -> nth k cw' 0 = nth k cw 0)
      /\ forall W, 0 < W -> (forall k, (k < K)%nat -> ins t k = true -> nth k cw 0 = W) ->
           sumk t cw' = W /\ (forall k, (k < K)%nat -> ins t k = true -> 0 < nth k cw' 0)
           /\ forall a b, subtree (Node a b) t -> above (Node a b) -> sumk a cw' * sumk a rsk = sumk b cw' * sumk b rsk).
    { intros t0 k0 cw Hk0 H0 Lc. exists cw. split; [auto|]. split; [auto|]. split; [auto|]. intros W HW Hc. split; [|split].
      - rewrite (one_cluster t0 k0) by auto. apply Hc; auto. apply ins_spec; auto. intros i Hi; apply H0; auto.
      - intros k Hk Ik. rewrite Hc by auto. lra.
      - intros a b Hs Hab. exfalso. destruct (Hab k0) as (i&Hi&Hn). apply Hn, H0.
        assert (G: forall s t i, subtree s t -> leaf s i -> leaf t i).
        { clear. intros s. induction t as [j|l IHl r IHr]; intros i Hst Hsi; cbn in Hst.
          - destruct Hst as [->|[]]; auto.
          - destruct Hst as [->|[H|H]]; auto; [left|right]; auto. }
        eapply G; eauto. }
    assert (Test: forall t, existsb (same_set (pre_order t)) (clusters n labels K) = true -> exists k0, (k0 < K)%nat /\ forall i, leaf t i <-> labelled labels i k0).
    { intros t0 H. apply existsb_exists in H as (c&Hc&Hs). unfold clusters in Hc. apply in_map_iff in Hc as (k&<-&Hk). apply in_seq in Hk. apply andb_true_iff in Hs as [S1 S2].
      apply subset_spec in S1, S2. exists k. split; [lia|]. intros i. rewrite leaf_pre_order. rewrite <- (cl_In k) by lia. split; [apply S1|apply S2]. }
    assert (Untest: forall t k0, (k0 < K)%nat -> (forall i, leaf t i <-> labelled labels i k0) -> existsb (same_set (pre_order t)) (clusters n labels K) = true).
    { intros t0 k0 Hk0 H0. apply existsb_exists. exists (cl k0). split; [apply in_map, in_seq; lia|]. unfold same_set. apply andb_true_iff. split; apply subset_spec; intros i Hi.
      - apply cl_In; auto. apply H0, leaf_pre_order; auto.
      - apply leaf_pre_order, H0, (cl_In k0); auto. }
    induction 1 as [t k0 H0|l r Cl IHl Cr IHr]; intros Hnd cw Lc.
    - assert (Hk0: (k0 < K)%nat). { destruct (leaf_exists t) as [i Hi]. apply H0 in Hi. eapply HK; eauto. }
      replace (recurse risk n labels K t cw) with (Some cw); [apply (Here t k0); auto|]. destruct t; cbn [recurse]; rewrite (Untest _ k0 Hk0 H0); reflexivity.
    - destruct (existsb (same_set (pre_order (Node l r))) (clusters n labels K)) eqn:T.
      { destruct (Test _ T) as (k0&Hk0&H0). replace (recurse risk n labels K (Node l r) cw) with (Some cw); [apply (Here (Node l r) k0); auto|]. cbn [recurse]. rewrite T. reflexivity. }
      cbn [recurse]. rewrite T. clear T.
      assert (Hnl: NoDup (pre_order l)) by (cbn in Hnd; apply nodup_app_l in Hnd; auto).
      assert (Hnr: NoDup (pre_order r)) by (cbn in Hnd; apply nodup_app_r in Hnd; auto).
      assert (EL: filter (fun k => subset (nth k (clusters n labels K) []) (pre_order l)) (seq 0 K) = filter (ins l) (seq 0 K)).
      { apply filter_ext_in. intros k Hk. apply in_seq in Hk. rewrite nth_clusters by lia. reflexivity. }
      assert (Dis: forall k, (k < K)%nat -> ins l k = true -> ins r k = false).
      { intros k Hk A. destruct (ins r k) eqn:B; auto. exfalso. destruct (Hne k Hk) as [i Hi]. apply (proj1 (ins_spec l k Hk)) with (i := i) in A; auto. apply (proj1 (ins_spec r k Hk)) with (i := i) in B; auto.
        apply leaf_pre_order in A, B. cbn in Hnd. exact (NoDup_app_disj _ _ Hnd i A B). }
      assert (ER: filter (fun k => negb (subset (nth k (clusters n labels K) []) (pre_order l)) && subset (nth k (clusters n labels K) []) (pre_order r)) (seq 0 K) = filter (ins r) (seq 0 K)).
      { apply filter_ext_in. intros k Hk. apply in_seq in Hk. rewrite nth_clusters by lia. fold (ins l k) (ins r k). destruct (ins l k) eqn:A; cbn; [rewrite Dis by (auto; lia); reflexivity|reflexivity]. }
      rewrite EL, ER.
      assert (NE: forall t, is_cut labels t -> exists k, (k < K)%nat /\ ins t k = true).
      { intros t Ct. destruct (leaf_exists t) as [i Hi]. destruct (cut_covers t Ct i Hi) as (k&A&B). exists k. split; auto. eapply HK; eauto. }
      assert (NN: forall t, is_cut labels t -> is_nil (filter (ins t) (seq 0 K)) = false).
      { intros t Ct. destruct (NE t Ct) as (k&A&B). assert (Hin: In k (filter (ins t) (seq 0 K))) by (apply filter_In; split; [apply in_seq; lia|auto]). destruct (filter (ins t) (seq 0 K)); [destruct Hin|reflexivity]. }
      rewrite (NN l Cl), (NN r Cr). cbn [orb].
      change (sum_over (filter (ins l) (seq 0 K)) (fun k => nth k rsk 0)) with (sumk l rsk). change (sum_over (filter (ins r) (seq 0 K)) (fun k => nth k rsk 0)) with (sumk r rsk).
      set (RL := sumk l rsk). set (RR := sumk r rsk). set (al := 1 - RL / (RL + RR)).
      assert (PL: 0 < RL) by (apply sumk_pos; [intros; apply rsk_pos; auto|apply NE; auto]).
      assert (PR: 0 < RR) by (apply sumk_pos; [intros; apply rsk_pos; auto|apply NE; auto]).
      assert (Eal: al = RR / (RL + RR)) by (unfold al; field; lra).
      set (cw1 := scale (filter (ins r) (seq 0 K)) (1 - al) (scale (filter (ins l) (seq 0 K)) al cw)).
      assert (Lc1: length cw1 = K) by (unfold cw1; rewrite !scale_length; auto).
      assert (Mem: forall t k, (k < K)%nat -> memn k (filter (ins t) (seq 0 K)) = ins t k).
      { intros t k Hk. apply eq_true_iff_eq. rewrite memn_In, filter_In, in_seq. intuition lia. }
      assert (N1: forall k, (k < K)%nat -> nth k cw1 0 = if ins r k then nth k cw 0 * (1 - al) else if ins l k then nth k cw 0 * al else nth k cw 0).
      { intros k Hk. unfold cw1. rewrite !scale_nth, !Mem by auto. destruct (ins r k) eqn:A; [|reflexivity]. destruct (ins l k) eqn:B; [rewrite Dis in A by auto; discriminate|reflexivity]. }
      destruct (IHl Hnl cw1 Lc1) as (cw2&E2&L2&K2&P2). rewrite E2.
      destruct (IHr Hnr cw2 L2) as (cw3&E3&L3&K3&P3). exists cw3. split; [exact E3|]. split; [exact L3|].
      assert (Up: forall s k, (k < K)%nat -> (s = l \/ s = r) -> ins s k = true -> ins (Node l r) k = true).
      { intros s k Hk Hs A. apply ins_spec; auto. intros i Hi. apply (proj1 (ins_spec s k Hk)) with (i := i) in A; auto. destruct Hs as [->| ->]; [left|right]; auto. }
      split.
      + intros k Hk A. assert (Fl: ins l k = false) by (destruct (ins l k) eqn:B; auto; rewrite (Up l k) in A; auto).
        assert (Fr: ins r k = false) by (destruct (ins r k) eqn:B; auto; rewrite (Up r k) in A; auto).
        rewrite K3, K2, N1, Fl, Fr by auto. reflexivity.
      + intros W HW Hc.
        assert (A01: 0 < al < 1). { rewrite Eal. split; [apply Rdiv_lt_0_compat; lra|]. apply (Rmult_lt_reg_r (RL + RR)); [lra|]. field_simplify; lra. }
        destruct (P2 (W * al)) as (S2&Pos2&Rat2).
        { apply Rmult_lt_0_compat; lra. }
        { intros k Hk A. rewrite N1 by auto. rewrite Dis, A by auto. rewrite Hc by (auto; apply (Up l k); auto). reflexivity. }
        destruct (P3 (W * (1 - al))) as (S3&Pos3&Rat3).
        { apply Rmult_lt_0_compat; lra. }
        { intros k Hk A. assert (Fl: ins l k = false) by (destruct (ins l k) eqn:B; auto; rewrite Dis in A; auto; discriminate).
          rewrite K2, N1, A by auto. rewrite Hc by (auto; apply (Up r k); auto). reflexivity. }
        assert (Keep: forall s, (forall k, (k < K)%nat -> ins s k = true -> ins l k = true) -> sumk s cw3 = sumk s cw2).
        { intros s Hs. rewrite <- (Rmult_1_l (sumk s cw2)). apply so_ins_scale. intros k Hk A. rewrite K3; [ring|auto|]. apply Dis; auto. }
        split; [|split].
        * rewrite sumk_node by auto. rewrite (Keep l) by auto. rewrite S2, S3. ring.
        * intros k Hk A. destruct (ins r k) eqn:B; [apply Pos3; auto|]. rewrite K3 by auto. apply Pos2; auto.
          destruct (cut_dichotomy l Cl k Hk) as [|C]; auto. destruct (cut_dichotomy r Cr k Hk) as [|D]; [congruence|]. exfalso. destruct (Hne k Hk) as [i Hi].
          apply (proj1 (ins_spec (Node l r) k Hk)) with (i := i) in A; auto. destruct A as [A|A]; [apply (C i Hi A)|apply (D i Hi A)].
        * intros a b Hs Hab. cbn [subtree] in Hs. destruct Hs as [E|[Hs|Hs]].
          -- inversion E; subst a b. rewrite (Keep l) by auto. rewrite S2, S3. fold RL RR. rewrite Eal. field. lra.
          -- assert (G: forall s t k, (k < K)%nat -> subtree s t -> ins s k = true -> ins t k = true).
             { intros s t k Hk Hst A. apply ins_spec; auto. intros i Hi. apply (proj1 (ins_spec s k Hk)) with (i := i) in A; auto. clear -Hst A. induction t as [j|l IHl r IHr]; cbn in Hst.
               - destruct Hst as [->|[]]; auto.
               - destruct Hst as [->|[H|H]]; auto; [left|right]; auto. }
             assert (Gab: forall s, s = a \/ s = b -> forall k, (k < K)%nat -> ins s k = true -> ins l k = true).
             { intros s Hsab k Hk A. eapply G; [auto|exact Hs|]. apply ins_spec; auto. intros i Hi. apply (proj1 (ins_spec s k Hk)) with (i := i) in A; auto. destruct Hsab as [->| ->]; [left|right]; auto. }
             rewrite !Keep by (apply Gab; auto). apply Rat2; auto.
          -- apply Rat3; auto.
  Qed.

  Lemma lab_lt i k : labelled labels i k -> (i < n)%nat.
  Proof. unfold labelled. intros H. rewrite <- Hlab. apply nth_error_Some. congruence. Qed.
  Lemma set_at_nth ids v w i : (i < length w)%nat -> nth i (set_at ids v w) 0 = if memn i ids then nth i v 0 else nth i w 0.
  Proof. intros H. unfold set_at. rewrite nth_map_seq0 by auto. reflexivity. Qed.
  Lemma set_at_length ids v w : length (set_at ids v w) = length w.
  Proof. unfold set_at. rewrite map_length, seq_length. reflexivity. Qed.
  Lemma memn_cl i k k0 : (k < K)%nat -> labelled labels i k0 -> memn i (cl k) = (k =? k0)%nat.
  Proof.
    intros Hk H0. apply eq_true_iff_eq. rewrite memn_In, (cl_In k) by auto. rewrite Nat.eqb_eq. split; [intros H; eapply lab_unique; eauto|intros ->; auto].
  Qed.
  Lemma intra_nth i k0 : labelled labels i k0 -> nth i (intra_weights risk n labels K) 0 = nth i (inv_risk_w risk n (cl k0)) 0.
  Proof.
    intros H0. pose proof (lab_lt _ _ H0) as Hi. pose proof (HK _ _ H0) as Hk0. unfold intra_weights, clusters.
    assert (G: forall ks w0, NoDup ks -> (forall k, In k ks -> (k < K)%nat) -> length w0 = n ->
      nth i (fold_left (fun w ids => set_at ids (inv_risk_w risk n ids) w) (map cl ks) w0) 0 = if memn k0 ks then nth i (inv_risk_w risk n (cl k0)) 0 else nth i w0 0).
    { induction ks as [|k ks IH]; intros w0 Hnd Hks Lw; [reflexivity|]. cbn [map fold_left]. apply NoDup_cons_iff in Hnd as [N1 N2].
      rewrite IH; [|auto|intros; apply Hks; right; auto|rewrite set_at_length; auto]. rewrite set_at_nth by lia. rewrite (memn_cl i k k0) by (auto; apply Hks; left; auto).
      unfold memn at 2. cbn [existsb]. fold (memn k0 ks). destruct (Nat.eqb_spec k k0) as [->|Hne'].
      - rewrite Nat.eqb_refl. cbn [orb]. rewrite (proj2 (memn_nIn k0 ks) N1). reflexivity.
      - replace (k0 =? k)%nat with false by (symmetry; apply Nat.eqb_neq; auto). reflexivity. }
    rewrite G; [|apply seq_NoDup|intros k Hk; apply in_seq in Hk; lia|apply repeat_length]. rewrite (proj2 (memn_In k0 (seq 0 K))); [reflexivity|apply in_seq; lia].
  Qed.
  Lemma intra_length : length (intra_weights risk n labels K) = n.
  Proof.
    unfold intra_weights. assert (G: forall cs w, length (fold_left (fun w ids => set_at ids (inv_risk_w risk n ids) w) cs w) = length w).
    { induction cs as [|c cs IH]; intros w; [reflexivity|]. cbn. rewrite IH, set_at_length. reflexivity. }
    rewrite G. apply repeat_length.
  Qed.
  Lemma final_nth cw i k0 : labelled labels i k0 ->
    nth i (fold_left (fun w p => scale (snd p) (nth (fst p) cw 0) w) (combine (seq 0 K) (clusters n labels K)) (intra_weights risk n labels K)) 0
    = nth i (inv_risk_w risk n (cl k0)) 0 * nth k0 cw 0.
  Proof.
    intros H0. pose proof (lab_lt _ _ H0) as Hi. pose proof (HK _ _ H0) as Hk0. unfold clusters. rewrite <- (intra_nth i k0 H0).
    assert (G: forall ks w0, NoDup ks -> (forall k, In k ks -> (k < K)%nat) ->
      nth i (fold_left (fun w p => scale (snd p) (nth (fst p) cw 0) w) (combine ks (map cl ks)) w0) 0 = if memn k0 ks then nth i w0 0 * nth k0 cw 0 else nth i w0 0).
    { induction ks as [|k ks IH]; intros w0 Hnd Hks; [reflexivity|]. cbn [map combine fold_left fst snd]. apply NoDup_cons_iff in Hnd as [N1 N2].
      rewrite IH; [|auto|intros; apply Hks; right; auto]. rewrite scale_nth. rewrite (memn_cl i k k0) by (auto; apply Hks; left; auto).
      unfold memn at 2. cbn [existsb]. fold (memn k0 ks). destruct (Nat.eqb_spec k k0) as [->|Hne'].
      - rewrite Nat.eqb_refl. cbn [orb]. rewrite (proj2 (memn_nIn k0 ks) N1). reflexivity.
      - replace (k0 =? k)%nat with false by (symmetry; apply Nat.eqb_neq; auto). reflexivity. }
    rewrite G; [|apply seq_NoDup|intros k Hk; apply in_seq in Hk; lia]. rewrite (proj2 (memn_In k0 (seq 0 K))); [reflexivity|apply in_seq; lia].
  Qed.
  Lemma final_length cw : length (fold_left (fun w p => scale (snd p) (nth (fst p) cw 0) w) (combine (seq 0 K) (clusters n labels K)) (intra_weights risk n labels K)) = n.
  Proof.
    assert (G: forall (cs : list (nat * list nat)) w, length (fold_left (fun w p => scale (snd p) (nth (fst p) cw 0) w) cs w) = length w).
    { induction cs as [|c cs IH]; intros w; [reflexivity|]. cbn. rewrite IH, scale_length. reflexivity. }
    rewrite G. apply intra_length.
  Qed.
  Hypothesis Hunit : forall i, (i < n)%nat -> 0 < risk (unit_vector n i).
  Lemma ar_nth i : (i < n)%nat -> nth i (assets_risks risk n) 0 = risk (unit_vector n i).
  Proof. intros H. unfold assets_risks. rewrite (nth_map_seq0 (fun i => risk (unit_vector n i))) by auto. reflexivity. Qed.
  Lemma inv_cl k : (k < K)%nat ->
    sum_over (cl k) (fun i => nth i (inv_risk_w risk n (cl k)) 0) = 1
    /\ (forall i j, In i (cl k) -> In j (cl k) -> nth i (inv_risk_w risk n (cl k)) 0 * risk (unit_vector n i) = nth j (inv_risk_w risk n (cl k)) 0 * risk (unit_vector n j))
    /\ (forall i, In i (cl k) -> 0 < nth i (inv_risk_w risk n (cl k)) 0).
  Proof.
    intros Hk. assert (Hin: forall i, In i (cl k) -> (i < n)%nat) by (intros i Hi; apply (cl_In k) in Hi; auto; apply lab_lt in Hi; auto).
    destruct (inv_risk_w_spec risk n (cl k)) as (A&B&C&D).
    - intros i Hi. rewrite ar_nth by auto. auto.
    - destruct (Hne k Hk) as [i Hi]. apply (cl_In k) in Hi; auto. intros E; rewrite E in Hi; destruct Hi.
    - exact Hin.
    - set (v := inv_risk_w risk n (cl k)) in *. split; [|split; [|exact D]].
      + rewrite <- A. rewrite <- (rsum_nth v n) by (unfold v, inv_risk_w; rewrite !map_length, seq_length; reflexivity).
        assert (G: forall f l, (forall i, ~ In i (filter f l) -> nth i v 0 = 0) -> sum_over (filter f l) (fun i => nth i v 0) = sum_over l (fun i => nth i v 0)).
        { clear. intros f. induction l as [|x l IH]; intros H; [reflexivity|]. cbn [filter] in *. destruct (f x) eqn:E.
          - rewrite !so_cons. f_equal. destruct (in_dec Nat.eq_dec x (filter f l)) as [Hx|Hx].
            + apply IH. intros i Hi. apply H. cbn. intros [->|H']; auto.
            + clear IH. assert (F: forall l', (forall i, In i l' -> f i = false -> nth i v 0 = 0) -> sum_over (filter f l') (fun i => nth i v 0) = sum_over l' (fun i => nth i v 0)).
              { induction l' as [|y l' IH']; intros H'; [reflexivity|]. cbn [filter]. destruct (f y) eqn:Ey; rewrite ?so_cons, IH' by (intros; apply H'; [right|]; auto); [reflexivity|]. rewrite (H' y) by (auto; left; auto). ring. }
              apply F. intros i Hi Fi. apply H. cbn. intros [->|H']; [congruence|]. apply filter_In in H' as [_ H']. congruence.
          - rewrite so_cons, IH by auto. rewrite (H x); [ring|]. intros H'. apply filter_In in H' as [_ H']. congruence. }
        apply G. exact B.
      + intros i j Hi Hj. rewrite <- !ar_nth by auto. apply C; auto.
  Qed.
  Lemma NoDup_clusters ks : NoDup ks -> (forall k, In k ks -> (k < K)%nat) -> NoDup (flat_map cl ks).
  Proof.
    induction ks as [|k ks IH]; intros Hnd Hks; [constructor|]. cbn. apply NoDup_cons_iff in Hnd as [N1 N2].
    assert (Hk: (k < K)%nat) by (apply Hks; left; auto).
    assert (G: forall (a b : list nat), NoDup a -> NoDup b -> (forall x, In x a -> ~ In x b) -> NoDup (a ++ b)).
    { clear. induction a as [|x a IH]; intros b Ha Hb H; [exact Hb|]. inversion Ha; subst. cbn. constructor.
      - intros Hx. apply in_app_or in Hx as [Hx|Hx]; [auto|apply (H x (or_introl eq_refl) Hx)].
      - apply IH; auto. intros y Hy. apply H. right; auto. }
    apply G.
    - unfold cluster. apply NoDup_filter, seq_NoDup.
    - apply IH; auto. intros; apply Hks; right; auto.
    - intros i Hi Hf. apply (cl_In k) in Hi; auto. apply in_flat_map in Hf as (k'&Hk'&Hi'). apply (cl_In k') in Hi'; [|apply Hks; right; auto].
      assert (k = k') by (eapply lab_unique; eauto). subst. auto.
  Qed.
  (** the weight of a node is the sum of the weights of its clusters *)
  Lemma node_weight cw w t : (forall i k, labelled labels i k -> nth i w 0 = nth i (inv_risk_w risk n (cl k)) 0 * nth k cw 0) ->
    is_cut labels t -> NoDup (pre_order t) -> total w (pre_order t) = sumk t cw.
  Proof.
    intros Hw Ct Hnd. unfold total. rewrite (so_perm _ (pre_order t) (flat_map cl (filter (ins t) (seq 0 K)))).
    - unfold sumk. assert (HS: forall k, In k (filter (ins t) (seq 0 K)) -> (k < K)%nat) by (intros k Hk; apply filter_In in Hk as [Hk _]; apply in_seq in Hk; lia).
      induction (filter (ins t) (seq 0 K)) as [|k ks IH]; [reflexivity|]. cbn [flat_map]. rewrite so_app, so_cons, IH by (intros; apply HS; right; auto). f_equal.
      assert (Hk: (k < K)%nat) by (apply HS; left; auto).
      rewrite (so_ext _ (fun i => nth i (inv_risk_w risk n (cl k)) 0 * nth k cw 0)) by (intros i Hi; apply Hw, (cl_In k); auto).
      rewrite so_scal_r, (proj1 (inv_cl k Hk)). ring.
    - apply NoDup_Permutation; auto.
      + apply NoDup_clusters; [apply NoDup_filter, seq_NoDup|]. intros k Hk. apply filter_In in Hk as [Hk _]. apply in_seq in Hk. lia.
      + intros i. rewrite <- leaf_pre_order, in_flat_map. split.
        * intros Hi. destruct (cut_covers t Ct i Hi) as (k&A&B). pose proof (HK _ _ A). exists k. split; [apply filter_In; split; [apply in_seq; lia|auto]|]. apply cl_In; auto.
        * intros (k&Hk&Hi). apply filter_In in Hk as [Hk B]. apply in_seq in Hk. apply (cl_In k) in Hi; [|lia]. apply (proj1 (ins_spec t k ltac:(lia)) B). exact Hi.
  Qed.
  Lemma above_cut t a b : is_cut labels t -> subtree (Node a b) t -> above (Node a b) -> is_cut labels a /\ is_cut labels b.
  Proof.
    assert (G: forall s t i, subtree s t -> leaf s i -> leaf t i).
    { clear. intros s. induction t as [j|l IHl r IHr]; intros i Hst Hsi; cbn in Hst.
      - destruct Hst as [->|[]]; auto.
      - destruct Hst as [->|[H|H]]; auto; [left|right]; auto. }
    induction 1 as [t k0 H0|l r Cl IHl Cr IHr]; intros Hs Hab.
    - exfalso. destruct (Hab k0) as (i&Hi&Hn). apply Hn, H0. eapply G; eauto.
    - cbn in Hs. destruct Hs as [E|[Hs|Hs]]; [inversion E; subst; auto|apply IHl; auto|apply IHr; auto].
  Qed.
  Lemma subtree_NoDup s t : subtree s t -> NoDup (pre_order t) -> NoDup (pre_order s).
  Proof.
    induction t as [j|l IHl r IHr]; cbn; intros Hs Hnd.
    - destruct Hs as [->|[]]; auto.
    - destruct Hs as [->|[H|H]]; auto; [apply IHl; auto; apply nodup_app_l in Hnd; auto|apply IHr; auto; apply nodup_app_r in Hnd; auto].
  Qed.
  Lemma risk_inside_sumk t : risk_inside risk labels n K t = sumk t rsk.
  Proof.
    unfold risk_inside, sumk. assert (C: forall k, (k < K)%nat -> filter (fun i => (nth i labels 0 =? k)%nat) (seq 0 n) = cl k).
    { intros k Hk. unfold cluster. apply filter_ext_in. intros i Hi. apply in_seq in Hi. rewrite (nth_indep labels 0%nat K) by lia. reflexivity. }
    assert (E: filter (inside labels n t) (seq 0 K) = filter (ins t) (seq 0 K)).
    { apply filter_ext_in. intros k Hk. apply in_seq in Hk. apply eq_true_iff_eq. rewrite (ins_spec t k) by lia. unfold inside. rewrite forallb_forall. split.
      - intros H i Hi. pose proof (lab_lt _ _ Hi) as Hin. specialize (H i). rewrite in_seq in H. specialize (H ltac:(lia)). apply orb_true_iff in H as [H|H].
        + exfalso. unfold labelled in Hi. apply nth_error_nth with (d := 0%nat) in Hi. rewrite Hi, Nat.eqb_refl in H. discriminate.
        + apply leaf_pre_order, memn_In; auto.
      - intros H i Hi. apply in_seq in Hi. destruct (Nat.eqb_spec (nth i labels 0%nat) k) as [E|E]; [|reflexivity]. cbn. apply memn_In, leaf_pre_order, H. unfold labelled. rewrite <- E. apply nth_error_nth'. lia. }
    rewrite E. apply so_ext. intros k Hk. apply filter_In in Hk as [Hk _]. apply in_seq in Hk. rewrite C by lia.
    unfold cluster_risks, clusters. rewrite map_map. rewrite (nth_map_seq0 (fun k => risk (inv_risk_w risk n (cl k)))) by lia. reflexivity.
  Qed.
  Lemma herc_weights_spec root : is_cut labels root -> Permutation (pre_order root) (seq 0 n) ->
    exists w, herc_weights risk n labels K root = Some w /\ length w = n /\ rsum w = 1
      /\ (forall i, (i < n)%nat -> 0 < nth i w 0)
      /\ (forall i j k, labelled labels i k -> labelled labels j k -> nth i w 0 * risk (unit_vector n i) = nth j w 0 * risk (unit_vector n j))
      /\ (forall a b, subtree (Node a b) root -> above (Node a b) ->
            total w (pre_order a) * risk_inside risk labels n K a = total w (pre_order b) * risk_inside risk labels n K b).
  Proof.
    intros Hc HP. assert (Hnd: NoDup (pre_order root)) by (eapply Permutation_NoDup; [apply Permutation_sym, HP|apply seq_NoDup]).
    destruct (recurse_spec root Hc Hnd (repeat 1 K) (repeat_length 1 K)) as (cw&E&L&_&P).
    destruct (P 1 ltac:(lra)) as (S&Pos&Rat). { intros k Hk _. apply nth_repeat_lt; auto. }
    unfold herc_weights. rewrite E. eexists. split; [reflexivity|]. split; [apply final_length|].
    set (w := fold_left _ _ _).
    assert (Hw: forall i k, labelled labels i k -> nth i w 0 = nth i (inv_risk_w risk n (cl k)) 0 * nth k cw 0) by (intros i k Hik; apply final_nth; auto).
    assert (InsR: forall k, (k < K)%nat -> ins root k = true).
    { intros k Hk. apply ins_spec; auto. intros i Hi. apply leaf_pre_order. apply (Permutation_in _ (Permutation_sym HP)). apply in_seq. apply lab_lt in Hi. lia. }
    split; [|split; [|split]].
    - rewrite <- (rsum_nth w n) by apply final_length. rewrite <- S, <- (node_weight cw w root Hw Hc Hnd). unfold total. apply so_perm, Permutation_sym, HP.
    - intros i Hi. destruct (lab_total i Hi) as [k Hk]. pose proof (HK _ _ Hk) as HkK. rewrite (Hw i k Hk). apply Rmult_lt_0_compat; [apply inv_cl; auto; apply cl_In; auto|apply Pos; auto].
    - intros i j k Hi Hj. pose proof (HK _ _ Hi) as HkK. rewrite (Hw i k Hi), (Hw j k Hj). destruct (inv_cl k HkK) as (_&B&_).
      specialize (B i j (proj2 (cl_In k i HkK) Hi) (proj2 (cl_In k j HkK) Hj)).
      replace (nth i (inv_risk_w risk n (cl k)) 0 * nth k cw 0 * risk (unit_vector n i)) with (nth i (inv_risk_w risk n (cl k)) 0 * risk (unit_vector n i) * nth k cw 0) by ring.
      rewrite B. ring.
    - intros a b Hs Hab. destruct (above_cut root a b Hc Hs Hab) as [Ca Cb]. pose proof (subtree_NoDup _ _ Hs Hnd) as Nab. cbn in Nab.
      rewrite (node_weight cw w a Hw Ca) by (apply nodup_app_l in Nab; auto). rewrite (node_weight cw w b Hw Cb) by (apply nodup_app_r in Nab; auto).
      rewrite !risk_inside_sumk. apply Rat; auto.
  Qed.
End HERC.

(** The weights before the bounds: a full, strictly positive allocation; inside a cluster the weights are inversely
    proportional to the stand-alone risks; at every node above the clusters the two sides have weights inversely
    proportional to the summed risks of their clusters.  (Together these determine every weight.) *)
Theorem C30_weights_before_bounds :
  forall risk n labels K root,
    length labels = n -> (forall i k, labelled labels i k -> (k < K)%nat) -> (forall k, (k < K)%nat -> exists i, labelled labels i k) ->
    positive_risks risk n -> (forall i, (i < n)%nat -> 0 < risk (unit_vector n i)) ->
    is_cut labels root -> Permutation (pre_order root) (seq 0 n) ->
    exists w, herc_weights risk n labels K root = Some w /\ length w = n /\ rsum w = 1
      /\ (forall i, (i < n)%nat -> 0 < nth i w 0)
      /\ (forall i j k, labelled labels i k -> labelled labels j k -> nth i w 0 * risk (unit_vector n i) = nth j w 0 * risk (unit_vector n j))
      /\ (forall a b, subtree (Node a b) root -> (forall k, exists i, leaf (Node a b) i /\ ~ labelled labels i k) ->
            total w (pre_order a) * risk_inside risk labels n K a = total w (pre_order b) * risk_inside risk labels n K b).
Proof. intros risk n labels K root H1 H2 H3 H4 H5 H6 H7. exact (herc_weights_spec risk n labels K H1 H2 H3 H4 H5 root H6 H7). Qed.
Print Assumptions C30_weights_before_bounds.

(** a correct solver returns a feasible point of least objective *)
Definition solver_ok (solve : problem -> option (list R)) : Prop :=
  forall p w, solve p = Some w -> constraints p w /\ forall v, constraints p v -> objective p w <= objective p v.
Definition feasible (lo hi v : list R) : Prop :=
  length v = length lo /\ rsum v = 1 /\ forall i, (i < length lo)%nat -> nth i lo 0 <= nth i v 0 <= nth i hi 0.
Definition deviation (v w : list R) : R := sum_over (seq 0 (length w)) (fun i => (nth i v 0 / nth i w 0 - 1) ^ 2).
Lemma so_combine (f : R -> R -> R) v w : length v = length w ->
  sum_over (map (fun p => f (fst p) (snd p)) (combine v w)) (fun x => x ^ 2) = sum_over (seq 0 (length w)) (fun i => f (nth i v 0) (nth i w 0) ^ 2).
Proof.
  revert v; induction w as [|y w IH]; intros [|x v] L; try discriminate; [reflexivity|]. cbn [combine map length seq]. rewrite !so_cons. cbn [nth fst snd]. f_equal.
  rewrite IH by (cbn in L; lia). rewrite <- seq_shift, so_map. reflexivity.
Qed.
Lemma zip3_spec f a b c : length a = length b -> length b = length c ->
  (zip3 f a b c = true <-> forall i, (i < length a)%nat -> f (nth i a 0) (nth i b 0) (nth i c 0) = true).
Proof.
  revert b c; induction a as [|x a IH]; intros [|y b] [|z c] L1 L2; try discriminate; unfold zip3 in *; cbn [combine forallb fst snd length]; [split; [intros _ i Hi; lia|auto]|].
  rewrite andb_true_iff, IH by (cbn in *; lia). split.
  - intros [A B] [|i] Hi; cbn; [auto|apply B; cbn in Hi; lia].
  - intros H. split; [apply (H 0%nat); cbn; lia|]. intros i Hi. apply (H (S i)). cbn; lia.
Qed.
(** The reported weights satisfy the bounds and sum to one, and no other such weights have a smaller relative
    deviation from the weights before the bounds; those are reported unchanged when they satisfy the bounds. *)
Theorem C30_bounds :
  forall risk n labels K root solve min_weights max_weights w lo hi w',
    solver_ok solve -> (0 < n)%nat ->
    (forall l, min_weights = Some l -> length l = n) -> (forall l, max_weights = Some l -> length l = n) ->
    convert_weights_bounds n min_weights max_weights = Some (lo, hi) ->
    herc_weights risk n labels K root = Some w -> length w = n -> rsum w = 1 -> (forall i, (i < n)%nat -> 0 < nth i w 0) ->
    herc risk n labels K solve min_weights max_weights root = Some w' ->
    feasible lo hi w' /\ (forall v, feasible lo hi v -> deviation w' w <= deviation v w)
    /\ ((forall i, (i < n)%nat -> nth i lo 0 <= nth i w 0 <= nth i hi 0) -> w' = w).
Proof.
  intros risk n labels K root solve mn mx w lo hi w' Hs Hn Hmn Hmx HC Ew Lw Sw Pw E. unfold herc in E. rewrite HC, Ew in E.
  destruct (convert_spec n mn mx lo hi Hn Hmn Hmx HC) as (L1&L2&Hb&_).
  unfold minimize_relative_weight_deviation in E. rewrite Lw, L1, L2, Nat.eqb_refl in E. cbn [andb negb] in E.
  destruct (existsb _ w); [discriminate|]. destruct (negb _); [discriminate|]. destruct (existsb _ (combine lo hi)); [discriminate|].
  assert (Z: zip3 (fun w a b => Rleb a w && Rleb w b) w lo hi = true <-> forall i, (i < n)%nat -> nth i lo 0 <= nth i w 0 <= nth i hi 0).
  { rewrite zip3_spec by congruence. rewrite Lw. split; intros H i Hi; specialize (H i Hi).
    - apply andb_true_iff in H as [A B]. unfold Rleb in *. destruct (Rle_dec (nth i lo 0) (nth i w 0)), (Rle_dec (nth i w 0) (nth i hi 0)); try discriminate. auto.
    - apply andb_true_iff. unfold Rleb. destruct (Rle_dec (nth i lo 0) (nth i w 0)), (Rle_dec (nth i w 0) (nth i hi 0)); tauto. }
  destruct (zip3 _ w lo hi) eqn:EZ.
  - inversion E; subst w'. assert (Bw := proj1 Z eq_refl). split; [|split; auto].
    + split; [congruence|]. split; [auto|]. rewrite L1. exact Bw.
    + intros v _. replace (deviation w w) with 0; [apply so_nonneg; intros; apply pow2_ge_0|]. symmetry. apply so_zero. intros i Hi. apply in_seq in Hi.
      specialize (Pw i ltac:(lia)). replace (nth i w 0 / nth i w 0) with 1 by (field; lra). ring.
  - destruct (Hs _ _ E) as [(A&B&C) Opt]. cbn [constraints objective] in *.
    split; [split; [congruence|split; [auto|rewrite L1; auto]]|]. split.
    + intros v (Fa&Fb&Fc). assert (Opt' := Opt v). cbn [constraints objective] in Opt'. specialize (Opt' ltac:(split; [congruence|split; [auto|rewrite <- L1; auto]])).
      unfold norm2 in Opt'. rewrite !(so_combine (fun x y => x / y - 1)) in Opt' by congruence. apply sqrt_le_0 in Opt'; [exact Opt'|apply so_nonneg; intros; apply pow2_ge_0..].
    + intros H. apply Z in H. congruence.
Qed.
Print Assumptions C30_bounds.

(** four assets in the dendrogram ((0 2) (1 3)) with clusters {0, 2}, {1}, {3} *)
Example C30_example : let labels := [0; 1; 0; 2]%nat in let root := Node (Node (Leaf 0) (Leaf 2)) (Node (Leaf 1) (Leaf 3)) in
  is_cut labels root /\ Permutation (pre_order root) (seq 0 4) /\ (forall i k, labelled labels i k -> (k < 3)%nat) /\ (forall k, (k < 3)%nat -> exists i, labelled labels i k)
  /\ (forall k, exists i, leaf root i /\ ~ labelled labels i k).
Proof.
  cbn zeta. split; [|split; [|split; [|split]]].
  - assert (G: forall t k, (forall i, In i (pre_order t) <-> nth_error [0; 1; 0; 2]%nat i = Some k) -> is_cut [0; 1; 0; 2]%nat t).
    { intros t k H. apply cut_here with (k := k). intros i. rewrite leaf_pre_order. apply H. }
    apply cut_below; [apply (G _ 0%nat)|apply cut_below; [apply (G _ 1%nat)|apply (G _ 2%nat)]]; intros [|[|[|[|i]]]]; cbn; (split; [intros H|intros H]); try discriminate; try tauto;
      try (destruct i; discriminate); try (repeat destruct H as [H|H]; try discriminate; try tauto; lia).
  - cbn. apply perm_skip. apply perm_swap.
  - intros i k. unfold labelled. destruct i as [|[|[|[|i]]]]; cbn; intros H; try (inversion H; lia). destruct i; discriminate.
  - intros [|[|[|k]]] Hk; [exists 0%nat|exists 1%nat|exists 3%nat|lia]; reflexivity.
  - intros k. destruct (Nat.eq_dec k 0) as [->|H]; [exists 1%nat|exists 0%nat]; (split; [cbn; tauto|]); unfold labelled; cbn; congruence.
Qed.
