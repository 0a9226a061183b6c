(** C49: the trees built by [VineCopula.fit] form a regular vine. *)
Require Import List Arith Bool Lia Permutation Sorted Reals Lra.
From Verif Require Import VineModel VineGraph.
Import ListNotations.
Close Scope R_scope.
Open Scope nat_scope.

(** * Specification *)

(** What [minimum_spanning_tree] is trusted for: given distinct entries
    [(i, j)] with [i < j < n], row by row and none of them zero, it keeps a
    subset of them, without a cycle, that joins everything the entries join. *)
Definition spanning_forest_oracle (mst : nat -> list (edge * R) -> list edge) : Prop :=
  forall n (w : list (edge * R)),
    (forall a b x, In ((a, b) : edge, x) w -> a < b < n /\ x <> 0%R) ->
    row_major (map fst w) ->
    incl (mst n w) (map fst w)
    /\ acyclic (mst n w)
    /\ (forall x y, linked (map fst w) x y -> linked (mst n w) x y)
    /\ row_major (mst n w).

(** The order in which a set is enumerated is any permutation of it. *)
Definition enumerates (enum : list nat -> list nat) : Prop :=
  forall l, Permutation l (enum l).

(** * The candidates *)

Definition lexlt (e f : edge) : Prop :=
  fst e < fst f \/ fst e = fst f /\ snd e < snd f.

Lemma sorted_row_major : forall t, StronglySorted lexlt t -> row_major t.
Proof.
  induction t as [|e t IH]; intros Hs i j Hij; [cbn in Hij; lia|].
  inversion Hs as [|? ? H1 H2]; subst. destruct j as [|j]; [lia|]. cbn [length] in Hij.
  rewrite (edge_at_cons e t j). destruct i as [|i].
  - rewrite Forall_forall in H2. change (edge_at (e :: t) 0) with e.
    apply H2. unfold edge_at. apply nth_In. lia.
  - rewrite edge_at_cons. apply IH; auto. lia.
Qed.

Lemma sorted_filter : forall p t, StronglySorted lexlt t -> StronglySorted lexlt (filter p t).
Proof.
  induction 1 as [|e t Hs IH Hf]; [constructor|]. cbn [filter].
  destruct (p e); [|auto]. constructor; [auto|].
  rewrite Forall_forall in *. intros f Hi. apply filter_In in Hi. apply Hf; tauto.
Qed.

Lemma sorted_app : forall a b, StronglySorted lexlt a -> StronglySorted lexlt b ->
  (forall x y, In x a -> In y b -> lexlt x y) -> StronglySorted lexlt (a ++ b).
Proof.
  induction 1 as [|e a Hs IH Hf]; intros Hb Hab; [exact Hb|]. cbn [app].
  constructor; [apply IH; auto; intros; apply Hab; cbn; auto|].
  rewrite Forall_forall in *. intros f Hi. apply in_app_iff in Hi as [Hi|Hi]; [auto|].
  apply Hab; cbn; auto.
Qed.

Lemma pairs_sorted : forall n, StronglySorted lexlt (pairs n).
Proof.
  intros n. unfold pairs. generalize 0 as s. generalize n at 2 as m.
  induction m as [|m IH]; intros s; [constructor|]. cbn [seq flat_map].
  apply sorted_app; [|apply IH|].
  - generalize (n - S s) as d. generalize (S s) at 1 as q. intros q d. revert q.
    induction d as [|d IHd]; intros q; [constructor|]. cbn [seq map]. constructor; [apply IHd|].
    rewrite Forall_forall. intros f Hf. apply in_map_iff in Hf as (j & <- & Hj).
    apply in_seq in Hj. right. cbn. lia.
  - intros x y Hx Hy. apply in_map_iff in Hx as (j & <- & Hj).
    apply in_flat_map in Hy as (i & Hi & Hy). apply in_map_iff in Hy as (j' & <- & _).
    apply in_seq in Hi. left. cbn. lia.
Qed.

Lemma in_pairs : forall n i j, In (i, j) (pairs n) <-> i < j < n.
Proof.
  intros n i j. unfold pairs. rewrite in_flat_map. split.
  - intros (i' & Hi & H). apply in_map_iff in H as (j' & He & Hj).
    injection He; intros; subst. apply in_seq in Hi, Hj. lia.
  - intros H. exists i. split; [apply in_seq; lia|]. apply in_map_iff.
    exists j. split; [reflexivity | apply in_seq; lia].
Qed.

Lemma in_candidates : forall n below i j,
  In (i, j) (candidates n below) <-> i < j < n /\ eligible below (i, j) = true.
Proof. intros. unfold candidates. rewrite filter_In, in_pairs. reflexivity. Qed.

Lemma candidates_row_major : forall n below, row_major (candidates n below).
Proof. intros. apply sorted_row_major, sorted_filter, pairs_sorted. Qed.

Lemma edge_order : forall m t k, spanning_tree m t -> k < length t ->
  fst (edge_at t k) < snd (edge_at t k) < m.
Proof. intros m t k (H & _) Hk. apply H, edge_in; auto. Qed.

Lemma edge_inj : forall t i j, acyclic t -> i < length t -> j < length t -> i <> j ->
  edge_at t i <> edge_at t j.
Proof. intros. apply forest_simple; auto. Qed.

Lemma eligible_above : forall m t below i j, spanning_tree m t ->
  i < length t -> j < length t -> i <> j ->
  (eligible (t :: below) (i, j) = true <->
   exists x, touches (edge_at t i) x /\ touches (edge_at t j) x).
Proof.
  intros m t below i j Ht Hi Hj N. cbn [eligible fst snd].
  assert (H1 := edge_order m t i Ht Hi). assert (H2 := edge_order m t j Ht Hj).
  destruct Ht as (_ & _ & Ha). apply share_one_spec; [lia | lia | apply edge_inj; auto].
Qed.

Lemma candidates_connected : forall n below t m, spanning_tree m t ->
  n = length t -> forall i j, i < n -> j < n ->
  linked (candidates n (t :: below)) i j.
Proof.
  intros n below t m Ht Hn i j Hi Hj.
  assert (A : forall x i j, i < n -> j < n -> touches (edge_at t i) x ->
            touches (edge_at t j) x -> linked (candidates n (t :: below)) i j).
  { clear i j Hi Hj. intros x i j Hi Hj Ti Tj.
    destruct (lt_eq_lt_dec i j) as [[L|E]|L].
    - apply linked_edge, in_candidates. split; [lia|].
      eapply eligible_above; eauto; try lia.
    - subst; constructor.
    - apply linked_sym, linked_edge, in_candidates. split; [lia|].
      eapply eligible_above; eauto; try lia. }
  assert (B : forall x y, linked t x y -> forall i j, i < n -> j < n ->
            touches (edge_at t i) x -> touches (edge_at t j) y ->
            linked (candidates n (t :: below)) i j).
  { clear i j Hi Hj. induction 1 as [x | x z y Hs Hl IH]; intros i j Hi Hj Ti Tj; [eauto|].
    assert (exists k, k < n /\ touches (edge_at t k) x /\ touches (edge_at t k) z)
      as (k & Hk & K1 & K2).
    { destruct Hs as [Hs|Hs]; apply in_edge in Hs as (k & Hk & He); exists k;
        rewrite He; unfold touches; cbn [fst snd]; (split; [rewrite Hn; exact Hk | auto]). }
    eapply linked_trans; [eapply A; eauto | eapply IH; eauto]. }
  assert (O1 := edge_order m t i Ht ltac:(lia)). assert (O2 := edge_order m t j Ht ltac:(lia)).
  eapply (B (fst (edge_at t i)) (fst (edge_at t j))); auto; try (unfold touches; auto).
  destruct Ht as (_ & Hc & _). apply Hc; lia.
Qed.

Lemma candidates_connected0 : forall n i j, i < n -> j < n -> linked (candidates n []) i j.
Proof.
  intros n i j Hi Hj. destruct (lt_eq_lt_dec i j) as [[L|E]|L].
  - apply linked_edge, in_candidates. split; [lia | reflexivity].
  - subst; constructor.
  - apply linked_sym, linked_edge, in_candidates. split; [lia | reflexivity].
Qed.

Lemma shared_total : forall m t below i j, spanning_tree m t -> row_major t ->
  i < j < length t -> eligible (t :: below) (i, j) = true ->
  exists l1 l2, shared_node_is_left (edge_at t i) (edge_at t j) = Some (l1, l2).
Proof.
  intros m t below i j Ht Hm Hij He.
  apply (eligible_above m t below i j Ht) in He as (x & T1 & T2); [|lia | lia | lia].
  assert (H1 := edge_order m t i Ht ltac:(lia)). assert (H2 := edge_order m t j Ht ltac:(lia)).
  assert (Ho := Hm i j Hij).
  unfold shared_node_is_left, touches in *.
  destruct (Nat.eqb_spec (fst (edge_at t i)) (fst (edge_at t j))); [eauto|].
  destruct (Nat.eqb_spec (snd (edge_at t i)) (fst (edge_at t j))); [eauto|].
  destruct (Nat.eqb_spec (snd (edge_at t i)) (snd (edge_at t j))); [eauto|].
  exfalso. lia.
Qed.

Lemma shared_spec : forall e f l1 l2, shared_node_is_left e f = Some (l1, l2) ->
  (if l1 then fst e else snd e) = (if l2 then fst f else snd f).
Proof.
  intros e f l1 l2 H. unfold shared_node_is_left in H.
  destruct (Nat.eqb_spec (fst e) (fst f)); [injection H; intros; subst; auto|].
  destruct (Nat.eqb_spec (snd e) (fst f)); [injection H; intros; subst; auto|].
  destruct (Nat.eqb_spec (snd e) (snd f)); [|discriminate].
  injection H; intros; subst; auto.
Qed.

(** * The trees *)

Lemma rmax_list_nonneg : forall l, (0 <= rmax_list l)%R.
Proof.
  induction l as [|x l IH]; cbn; [lra|]. eapply Rle_trans; [exact IH | apply Rmax_r].
Qed.

Lemma weight_pos : forall root below dep cand p, (forall e, (0 <= dep e)%R) ->
  (0 < edge_weight root below dep cand p)%R.
Proof.
  intros root below dep cand p Hd. unfold edge_weight.
  assert (B : (0 < base_weight dep p)%R) by (unfold base_weight; specialize (Hd p); lra).
  assert (M := rmax_list_nonneg (map (base_weight dep) cand)).
  destruct (existsb _ cand); [|exact B].
  destruct (weakly_central root below p); [|exact B].
  destruct (strongly_central root below p); lra.
Qed.

Lemma set_edges_regular : forall mst root dependence n below,
  spanning_forest_oracle mst -> (forall b e, (0 <= dependence b e)%R) ->
  regular n below -> length below + 1 < n ->
  exists t, set_edges mst root dependence (n - length below) below = Some t
    /\ length t = n - length below - 1 /\ regular n (t :: below).
Proof.
  intros mst root dependence n below Ho Hd Hr Hn.
  unfold set_edges. set (m := n - length below). set (cand := candidates m below).
  assert (Hord : forallb (ordered below) cand = true).
  { apply forallb_forall. intros [i j] Hin. apply in_candidates in Hin as [Hij He].
    destruct below as [|t' below']; [reflexivity|]. cbn [ordered fst snd].
    destruct Hr as (R1 & R2 & R3 & _). assert (Et := tree_edges _ _ R2).
    cbn [length] in m, Hn.
    destruct (shared_total _ t' below' i j R2 R3 ltac:(unfold m in *; lia) He)
      as (l1 & l2 & ->). reflexivity. }
  rewrite Hord. set (w := map _ cand).
  assert (Hw : map (@fst edge R) w = cand) by (unfold w; rewrite map_map; apply map_id).
  assert (Ho' := Ho m w). rewrite Hw in Ho'.
  destruct Ho' as (O1 & O2 & O3 & O4).
  { intros a b x Hin. split.
    - assert (Hc : In (a, b) cand) by (rewrite <- Hw; apply in_map_iff; exists ((a, b), x); auto).
      apply in_candidates in Hc. tauto.
    - apply in_map_iff in Hin as (p & He & _). injection He; intros <- _.
      apply Rgt_not_eq, weight_pos; auto. }
  { apply candidates_row_major. }
  exists (mst m w).
  assert (Hst : spanning_tree m (mst m w)).
  { split; [|split; [|exact O2]].
    - intros a b Hin. apply O1, in_candidates in Hin. tauto.
    - intros x y Hx Hy. apply O3. destruct below as [|t' below'].
      + apply candidates_connected0; auto.
      + destruct Hr as (R1 & R2 & _). assert (Et := tree_edges _ _ R2).
        eapply candidates_connected; eauto. unfold m. cbn [length]. lia. }
  split; [reflexivity|]. split; [apply tree_edges; exact Hst|].
  split; [exact Hr|]. split; [exact Hst|]. split; [exact O4|].
  destruct below as [|t' below']; [exact I|].
  intros a b Hin. apply O1, in_candidates in Hin as [Hab He].
  destruct Hr as (R1 & R2 & _). assert (Et := tree_edges _ _ R2).
  cbn [length] in m.
  apply (eligible_above _ t' below' a b R2) in He as (x & T1 & T2); [eauto | unfold m in *; lia ..].
Qed.

Lemma grow_regular : forall mst root dependence n, spanning_forest_oracle mst ->
  (forall b e, (0 <= dependence b e)%R) ->
  forall depth below, regular n below -> length below + depth < n ->
  exists ts, grow mst root dependence n depth below = Some ts
    /\ regular n ts /\ length ts = depth + length below.
Proof.
  intros mst root dependence n Ho Hd. induction depth as [|d IH]; intros below Hr Hn.
  - exists below. auto.
  - cbn [grow]. destruct (set_edges_regular mst root dependence n below Ho Hd Hr ltac:(lia))
      as (t & -> & Hl & Hr').
    rewrite Hl, Nat.eqb_refl.
    destruct (IH (t :: below) Hr' ltac:(cbn [length]; lia)) as (ts & H1 & H2 & H3).
    exists ts. split; [exact H1|]. split; [exact H2|]. cbn [length] in H3. lia.
Qed.

(** Fitting succeeds for every number of assets above two and every depth above
    one, and the trees form a regular vine of the depth asked for. *)
Theorem C49_regular_vine : forall mst root dependence n max_depth,
  spanning_forest_oracle mst -> (forall b e, (0 <= dependence b e)%R) ->
  2 < n -> (forall d, max_depth = Some d -> 1 < d) ->
  exists ts, fit_trees mst root dependence n max_depth = Fitted ts
    /\ regular n ts
    /\ length ts = match max_depth with None => n - 1 | Some d => Nat.min d (n - 1) end.
Proof.
  intros mst root dependence n max_depth Ho Hd Hn Hdep. unfold fit_trees.
  destruct (Nat.leb_spec n 2) as [|_]; [lia|].
  destruct max_depth as [d|].
  - specialize (Hdep d eq_refl). destruct (Nat.leb_spec d 1) as [|_]; [lia|].
    destruct (grow_regular mst root dependence n Ho Hd (Nat.min d (n - 1)) [] I
                ltac:(cbn [length]; lia)) as (ts & -> & H1 & H2).
    exists ts. cbn [length] in H2. split; [reflexivity|]. split; [exact H1 | lia].
  - destruct (grow_regular mst root dependence n Ho Hd (n - 1) [] I
                ltac:(cbn [length]; lia)) as (ts & -> & H1 & H2).
    exists ts. cbn [length] in H2. split; [reflexivity|]. split; [exact H1 | lia].
Qed.
Print Assumptions C49_regular_vine.

Theorem C49_rejected : forall mst root dependence n max_depth,
  fit_trees mst root dependence n max_depth = TooFewAssets <-> n <= 2.
Proof.
  intros. unfold fit_trees. destruct (Nat.leb_spec n 2); split; intros; try lia; auto.
  destruct max_depth as [d|]; [destruct (d <=? 1); [discriminate|]|];
    destruct (grow _ _ _ _ _ _); discriminate.
Qed.
Print Assumptions C49_rejected.

(** The tree on level [l] (counted from the first) has [n - l - 1] edges. *)
Theorem C49_levels : forall n ts below t above, regular n ts ->
  ts = above ++ t :: below -> length t = n - length below - 1.
Proof.
  intros n ts below t above Hr ->. induction above as [|t' above IH].
  - destruct Hr as (_ & H & _). apply tree_edges; exact H.
  - apply IH. destruct Hr as (H & _). exact H.
Qed.
Print Assumptions C49_levels.

(** * Conditioning sets *)

Lemma regular_suffix : forall n above ts, regular n (above ++ ts) -> regular n ts.
Proof. induction above as [|t above IH]; intros ts H; [exact H|]. apply IH. exact (proj1 H). Qed.

Lemma in_to_set : forall x c,
  In x (to_set c) <-> x = fst (conditioned c) \/ x = snd (conditioned c) \/ In x (conditioning c).
Proof.
  intros x c. unfold to_set. rewrite in_union. cbn [In]. intuition auto.
Qed.

Lemma perm_two : forall (l : list nat) a b, Permutation [a; b] l -> l = [a; b] \/ l = [b; a].
Proof.
  intros l a b H. assert (Hl := Permutation_length H).
  destruct l as [|x [|y [|z l]]]; try discriminate.
  apply Permutation_length_2_inv in H. destruct H as [H|H]; injection H; intros; subst; auto.
Qed.

Lemma nodup_two : forall (l : list nat) a b, NoDup l -> (forall x, In x l <-> x = a \/ x = b) ->
  a <> b -> Permutation [a; b] l.
Proof.
  intros l a b Hn H N. apply NoDup_Permutation; auto.
  - constructor; [cbn; intuition | constructor; [cbn; tauto | constructor]].
  - intros x. rewrite H. cbn. intuition auto.
Qed.

Lemma one_element : forall (l : list nat), NoDup l -> length l = 1 -> exists a, l = [a].
Proof. intros [|a [|b l]] _ H; try discriminate. eauto. Qed.

(** Facts about two edges of a regular vine joined by an edge of the next tree. *)
Lemma joined : forall n t' below' a b c, regular n (t' :: below') ->
  a < length t' -> b < length t' -> a <> b ->
  touches (edge_at t' a) c -> touches (edge_at t' b) c ->
  exists p q,
    (forall x, In x (vars (t' :: below') a) <-> x = p \/ In x (vars below' c))
    /\ (forall x, In x (vars (t' :: below') b) <-> x = q \/ In x (vars below' c))
    /\ ~ In p (vars below' c) /\ ~ In q (vars below' c) /\ p <> q.
Proof.
  intros n t' below' a b c Hr Ha Hb N Ta Tb.
  assert (Hr' := Hr). destruct Hr' as (R1 & R2 & _). assert (Et := tree_edges _ _ R2).
  assert (Ha' := edge_order _ _ a R2 Ha).
  set (L := length below') in *.
  assert (Hc : c < n - L) by (destruct Ta as [<-|<-]; lia).
  destruct (vine_size (S L) (t' :: below') n eq_refl Hr) as [V1 V2].
  destruct (vine_size L below' n eq_refl R1) as [W1 _].
  assert (Ia : incl (vars below' c) (vars (t' :: below') a)).
  { intros x Hx. apply vars_cons. destruct Ta as [->| ->]; auto. }
  assert (Ib : incl (vars below' c) (vars (t' :: below') b)).
  { intros x Hx. apply vars_cons. destruct Tb as [->| ->]; auto. }
  assert (Da := diff_length _ _ (nodup_vars _ _) (nodup_vars _ _) Ia).
  assert (Db := diff_length _ _ (nodup_vars _ _) (nodup_vars _ _) Ib).
  rewrite V1 in Da by lia. rewrite V1 in Db by lia. rewrite W1 in Da, Db by lia.
  destruct (one_element (filter (fun x => negb (mem x (vars below' c))) (vars (t' :: below') a)))
    as (p & Ep); [apply NoDup_filter, nodup_vars | lia |].
  destruct (one_element (filter (fun x => negb (mem x (vars below' c))) (vars (t' :: below') b)))
    as (q & Eq); [apply NoDup_filter, nodup_vars | lia |].
  assert (Fp : forall x, In x (vars (t' :: below') a) /\ ~ In x (vars below' c) <-> x = p).
  { intros x. assert (Hf := filter_In (fun y => negb (mem y (vars below' c))) x (vars (t' :: below') a)).
    rewrite Ep, negb_true_iff, mem_not in Hf. rewrite <- Hf. cbn [In]. intuition auto. }
  assert (Fq : forall x, In x (vars (t' :: below') b) /\ ~ In x (vars below' c) <-> x = q).
  { intros x. assert (Hf := filter_In (fun y => negb (mem y (vars below' c))) x (vars (t' :: below') b)).
    rewrite Eq, negb_true_iff, mem_not in Hf. rewrite <- Hf. cbn [In]. intuition auto. }
  exists p, q.
  assert (Sa : forall x, In x (vars (t' :: below') a) <-> x = p \/ In x (vars below' c)).
  { intros x. rewrite <- Fp. destruct (in_dec Nat.eq_dec x (vars below' c)); intuition auto. }
  assert (Sb : forall x, In x (vars (t' :: below') b) <-> x = q \/ In x (vars below' c)).
  { intros x. rewrite <- Fq. destruct (in_dec Nat.eq_dec x (vars below' c)); intuition auto. }
  repeat split; try (apply Sa); try (apply Sb).
  - apply (proj2 (Fp p) eq_refl).
  - apply (proj2 (Fq q) eq_refl).
  - intros E. apply N. apply V2; [lia | lia |]. intros x. rewrite Sa, Sb, E. tauto.
Qed.

Section Conditioning.
  Variable enum : list nat -> list nat.
  Hypothesis enum_ok : enumerates enum.

  Lemma cond_sets_spec : forall n below t k, regular n (t :: below) -> k < length t ->
    let c := cond_sets enum t below k in
    let a := fst (edge_at t k) in
    let b := snd (edge_at t k) in
    (forall x, In x (to_set c) <-> In x (vars (t :: below) k))
    /\ (In (fst (conditioned c)) (vars below a) /\ ~ In (fst (conditioned c)) (vars below b))
    /\ (In (snd (conditioned c)) (vars below b) /\ ~ In (snd (conditioned c)) (vars below a))
    /\ (forall x, In x (conditioning c) <-> In x (vars below a) /\ In x (vars below b))
    /\ NoDup (conditioning c) /\ length (conditioning c) = length below.
  Proof.
    intros n below. induction below as [|t' below' IH]; intros t k Hr Hk c a b.
    - assert (O := edge_order _ _ k (proj1 (proj2 Hr)) Hk). fold a b in O.
      assert (Hc : c = {| conditioned := (a, b); conditioning := [] |}).
      { unfold c, a, b. cbn [cond_sets]. rewrite <- surjective_pairing. reflexivity. }
      rewrite Hc. split.
      + intros x. rewrite in_to_set, vars_cons. cbn. fold a b. intuition auto.
      + cbn [conditioned conditioning fst snd vars In length].
        repeat split; try constructor; try tauto; try lia.
    - assert (Hr' := Hr). destruct Hr' as (R1 & R2 & R3 & R4).
      assert (O := edge_order _ _ k R2 Hk). fold a b in O.
      assert (Et' := tree_edges _ _ (proj1 (proj2 R1))). cbn [length] in O.
      destruct (R4 a b (edge_in t k Hk)) as (d & Ta & Tb).
      destruct (joined n t' below' a b d R1 ltac:(lia) ltac:(lia) ltac:(lia) Ta Tb)
        as (p & q & Sa & Sb & Np & Nq & Npq).
      destruct (IH t' a R1 ltac:(lia)) as (A1 & A2 & A3 & A4 & A5 & A6).
      destruct (IH t' b R1 ltac:(lia)) as (B1 & B2 & B3 & B4 & B5 & B6).
      set (ca := cond_sets enum t' below' a) in *. set (cb := cond_sets enum t' below' b) in *.
      assert (Sd : forall x, In x (set_symdiff (to_set ca) (to_set cb)) <-> x = p \/ x = q).
      { intros x. rewrite in_symdiff, A1, B1, Sa, Sb. split.
        - intros [[[->|H] N]|[[->|H] N]]; tauto.
        - intros [->| ->]; [left | right]; split; auto; intros [H|H]; auto. }
      assert (Hp := nodup_two _ _ _ (nodup_symdiff _ _) Sd Npq).
      assert (He : enum (set_symdiff (to_set ca) (to_set cb)) = [p; q]
                   \/ enum (set_symdiff (to_set ca) (to_set cb)) = [q; p]).
      { apply perm_two. eapply Permutation_trans; [exact Hp | apply enum_ok]. }
      assert (Mp : mem p [fst (conditioned cb); snd (conditioned cb)] = false).
      { apply mem_not. intros H. assert (In p (to_set cb)) as H'.
        { apply in_to_set. cbn in H. intuition auto. }
        apply B1, Sb in H' as [->|H']; tauto. }
      assert (Mq : mem q [fst (conditioned cb); snd (conditioned cb)] = true).
      { apply mem_In. assert (H : In q (to_set cb)) by (apply B1, Sb; auto).
        apply in_to_set in H as [->|[->|H]]; cbn; auto.
        exfalso. apply B4 in H as [H1 H2]. apply Nq. destruct Tb as [<-|<-]; auto. }
      assert (Hc : conditioned c = (p, q)).
      { unfold c. cbn [cond_sets]. fold a b ca cb. unfold cond_add. cbn [conditioned].
        destruct He as [-> | ->]; cbn [nth]; [rewrite Mp | rewrite Mq]; reflexivity. }
      assert (Hg : forall x, In x (conditioning c) <-> In x (vars below' d)).
      { intros x. unfold c. cbn [cond_sets]. fold a b ca cb. unfold cond_add.
        cbn [conditioning]. rewrite in_inter, A1, B1, Sa, Sb. split.
        - intros [[->|H1] [->|H2]]; auto. congruence.
        - auto. }
      assert (Hab : forall x, In x (vars (t :: t' :: below') k) <->
                x = p \/ x = q \/ In x (vars below' d)).
      { intros x. rewrite vars_cons. fold a b. rewrite Sa, Sb. tauto. }
      rewrite Hc. cbn [fst snd]. split; [|split; [|split; [|split; [|split]]]].
      + intros x. rewrite in_to_set, Hc, Hg, Hab. reflexivity.
      + rewrite Sa, Sb. intuition congruence.
      + rewrite Sa, Sb. intuition congruence.
      + intros x. rewrite Hg, Sa, Sb. split; [auto|]. intros [[->|H1] [->|H2]]; auto. congruence.
      + unfold c. cbn [cond_sets]. apply nodup_inter.
      + destruct R1 as (Q1 & Q2 & _).
        assert (Hd : d < n - length below').
        { assert (O' := edge_order _ _ a Q2 ltac:(lia)). destruct Ta as [<-|<-]; lia. }
        destruct (vine_size _ below' n eq_refl Q1) as [W1 _].
        cbn [length]. rewrite <- (W1 d Hd).
        apply Permutation_length, NoDup_Permutation; [|apply nodup_vars | exact Hg].
        unfold c. cbn [cond_sets]. apply nodup_inter.
  Qed.

  (** Every edge on level [l] has two distinct conditioned variables and exactly
      [l] conditioning variables, none of them conditioned; the first conditioned
      variable belongs to the first node only, the second to the second node
      only, the conditioning variables to both. *)
  Theorem C49_conditioning_sets : forall n above t below k,
    regular n (above ++ t :: below) -> k < length t ->
    let c := cond_sets enum t below k in
    let a := fst (edge_at t k) in
    let b := snd (edge_at t k) in
    NoDup (fst (conditioned c) :: snd (conditioned c) :: conditioning c)
    /\ length (conditioning c) = length below
    /\ (forall x, x = fst (conditioned c) <-> In x (vars below a) /\ ~ In x (vars below b))
    /\ (forall x, x = snd (conditioned c) <-> In x (vars below b) /\ ~ In x (vars below a))
    /\ (forall x, In x (conditioning c) <-> In x (vars below a) /\ In x (vars below b)).
  Proof.
    intros n above t below k Hr Hk c a b. apply regular_suffix in Hr.
    destruct (cond_sets_spec n below t k Hr Hk) as (H1 & H2 & H3 & H4 & H5 & H6).
    fold c a b in H1, H2, H3, H4, H5, H6.
    assert (Hs : forall x, In x (vars (t :: below) k) ->
              x = fst (conditioned c) \/ x = snd (conditioned c) \/ In x (conditioning c))
      by (intros x Hx; apply in_to_set, H1; auto).
    split.
    { constructor; [|constructor; [|exact H5]].
      - intros [E|E]; [rewrite E in H3; tauto|]. apply H4 in E. tauto.
      - intros E. apply H4 in E. tauto. }
    split; [exact H6|]. split; [|split; [|exact H4]].
    - intros x. split; [intros ->; exact H2|]. intros [X1 X2].
      destruct (Hs x) as [E|[E|E]]; auto.
      + apply vars_cons. auto.
      + subst x. tauto.
      + apply H4 in E. tauto.
    - intros x. split; [intros ->; exact H3|]. intros [X1 X2].
      destruct (Hs x) as [E|[E|E]]; auto.
      + apply vars_cons. auto.
      + subst x. tauto.
      + apply H4 in E. tauto.
  Qed.

  (** The two columns of an edge above the first tree are margins of its two
      nodes: the ordering check succeeds, and the margins selected are those of
      the two conditioned variables, each given exactly the conditioning
      variables of the edge. *)
  Theorem C49_columns : forall n above t t' below' k,
    regular n (above ++ t :: t' :: below') -> k < length t ->
    let c := cond_sets enum t (t' :: below') k in
    let a := fst (edge_at t k) in
    let b := snd (edge_at t k) in
    exists l1 l2,
      shared_node_is_left (edge_at t' a) (edge_at t' b) = Some (l1, l2)
      /\ get_var enum t' below' a (negb l1) = fst (conditioned c)
      /\ get_var enum t' below' b (negb l2) = snd (conditioned c)
      /\ (forall x, In x (conditioning c) <->
            In x (vars (t' :: below') a) /\ x <> fst (conditioned c))
      /\ (forall x, In x (conditioning c) <->
            In x (vars (t' :: below') b) /\ x <> snd (conditioned c)).
  Proof.
    intros n above t t' below' k Hr Hk c a b. apply regular_suffix in Hr.
    destruct (cond_sets_spec n (t' :: below') t k Hr Hk) as (H1 & H2 & H3 & H4 & H5 & H6).
    fold c a b in H1, H2, H3, H4, H5, H6.
    destruct Hr as (R1 & R2 & R3 & R4).
    assert (O := edge_order _ _ k R2 Hk). fold a b in O. cbn [length] in O.
    assert (Et' := tree_edges _ _ (proj1 (proj2 R1))).
    assert (Hel : eligible (t' :: below') (a, b) = true).
    { eapply eligible_above; [exact (proj1 (proj2 R1)) | lia | lia | lia |].
      destruct (R4 a b (edge_in t k Hk)) as (d & Ta & Tb). exists d; auto. }
    destruct (shared_total _ t' below' a b (proj1 (proj2 R1)) (proj1 (proj2 (proj2 R1)))
                ltac:(lia) Hel) as (l1 & l2 & Hsh).
    exists l1, l2. split; [exact Hsh|]. apply shared_spec in Hsh.
    set (d := if l1 then fst (edge_at t' a) else snd (edge_at t' a)) in *.
    assert (Ta : touches (edge_at t' a) d) by (unfold d, touches; destruct l1; auto).
    assert (Tb : touches (edge_at t' b) d) by (rewrite Hsh; unfold touches; destruct l2; auto).
    destruct (joined n t' below' a b d R1 ltac:(lia) ltac:(lia) ltac:(lia) Ta Tb)
      as (p & q & Sa & Sb & Np & Nq & Npq).
    assert (Ep : fst (conditioned c) = p).
    { destruct H2 as [X1 X2]. apply Sa in X1. rewrite Sb in X2. tauto. }
    assert (Eq : snd (conditioned c) = q).
    { destruct H3 as [X1 X2]. apply Sb in X1. rewrite Sa in X2. tauto. }
    destruct (cond_sets_spec n below' t' a R1 ltac:(lia)) as (A1 & A2 & A3 & _).
    destruct (cond_sets_spec n below' t' b R1 ltac:(lia)) as (B1 & B2 & B3 & _).
    rewrite Ep, Eq. split; [|split; [|split]].
    - unfold get_var. destruct l1; cbn [negb].
      + assert (X : In (snd (conditioned (cond_sets enum t' below' a))) (vars (t' :: below') a))
          by (apply vars_cons; tauto).
        apply Sa in X as [X|X]; [exact X | tauto].
      + assert (X : In (fst (conditioned (cond_sets enum t' below' a))) (vars (t' :: below') a))
          by (apply vars_cons; tauto).
        apply Sa in X as [X|X]; [exact X | tauto].
    - unfold get_var. rewrite Hsh in Sb. destruct l2; cbn [negb].
      + assert (X : In (snd (conditioned (cond_sets enum t' below' b))) (vars (t' :: below') b))
          by (apply vars_cons; tauto).
        apply Sb in X as [X|X]; [exact X | tauto].
      + assert (X : In (fst (conditioned (cond_sets enum t' below' b))) (vars (t' :: below') b))
          by (apply vars_cons; tauto).
        apply Sb in X as [X|X]; [exact X | tauto].
    - intros x. rewrite H4, Sa, Sb. split.
      + intros [[->|X1] [->|X2]]; try congruence; split; auto; intros ->; tauto.
      + intros [[->|X1] X2]; [congruence | auto].
    - intros x. rewrite H4, Sa, Sb. split.
      + intros [[->|X1] [->|X2]]; try congruence; split; auto; intros ->; tauto.
      + intros [[->|X1] X2]; [congruence | auto].
  Qed.
End Conditioning.
Print Assumptions C49_conditioning_sets.
Print Assumptions C49_columns.

(** * The hypotheses can be met *)

(** Keeping an entry unless the entries kept after it already join its ends. *)
Fixpoint greedy (l : list edge) : list edge :=
  match l with
  | [] => []
  | e :: l' => if linkedb (greedy l') (fst e) (snd e) then greedy l' else e :: greedy l'
  end.

Lemma greedy_sorted : forall l, StronglySorted lexlt l -> StronglySorted lexlt (greedy l).
Proof.
  assert (Hi : forall l, incl (greedy l) l).
  { induction l as [|e l IH]; cbn [greedy]; [apply incl_refl|].
    destruct (linkedb _ _ _); [apply incl_tl; auto|].
    intros x [->|Hx]; [left; auto | right; auto]. }
  induction 1 as [|e l Hs IH Hf]; [constructor|]. cbn [greedy].
  destruct (linkedb _ _ _); [auto|]. constructor; [auto|].
  rewrite Forall_forall in *. intros x Hx. apply Hf, Hi; auto.
Qed.

Lemma row_major_sorted : forall t, row_major t -> StronglySorted lexlt t.
Proof.
  induction t as [|e t IH]; intros H; [constructor|]. constructor.
  - apply IH. intros i j Hij. apply (H (S i) (S j)). cbn [length]. unfold tree, edge in *. lia.
  - rewrite Forall_forall. intros f Hf. destruct f as [a b].
    apply in_edge in Hf as (k & Hk & He). rewrite <- He.
    apply (H 0 (S k)). cbn [length]. unfold tree, edge in *. lia.
Qed.

Lemma greedy_spanning : spanning_forest_oracle (fun _ w => greedy (map fst w)).
Proof.
  intros n w _ Hm. set (l := map fst w) in *. clearbody l.
  assert (Hi : forall l, incl (greedy l) l).
  { clear. induction l as [|e l IH]; cbn [greedy]; [apply incl_refl|].
    destruct (linkedb _ _ _); [apply incl_tl; auto|].
    intros x [->|Hx]; [left; auto | right; auto]. }
  split; [apply Hi|]. split; [|split].
  - clear. induction l as [|[a b] l IH]; cbn [greedy]; [intros E1 a b E2 E; destruct E1; discriminate|].
    cbn [fst snd]. destruct (linkedb (greedy l) a b) eqn:L; [exact IH|].
    apply acyclic_cons. split; [|exact IH]. rewrite <- linkedb_spec. congruence.
  - clear. intros x y. revert x y. induction l as [|[a b] l IH]; intros x y; cbn [greedy]; [auto|].
    cbn [fst snd]. rewrite linked_cons. intros H.
    assert (H' : linked (greedy l) x y \/ linked (greedy l) x a /\ linked (greedy l) b y
                 \/ linked (greedy l) x b /\ linked (greedy l) a y).
    { destruct H as [H|[[H1 H2]|[H1 H2]]]; auto. }
    destruct (linkedb (greedy l) a b) eqn:L; [|apply linked_cons; exact H'].
    apply linkedb_spec in L.
    destruct H' as [H'|[[H1 H2]|[H1 H2]]]; [auto | |];
      eauto using linked_trans, linked_sym.
  - apply sorted_row_major, greedy_sorted, row_major_sorted, Hm.
Qed.

Example C49_applies :
  exists ts, fit_trees (fun _ w => greedy (map fst w)) (fun _ => false) (fun _ _ => 0%R) 4 None
             = Fitted ts
    /\ regular 4 ts /\ length ts = 3.
Proof.
  apply (C49_regular_vine _ _ _ 4 None greedy_spanning); [intros; lra | lia | discriminate].
Qed.

(** A vine on four variables: the edges (0,1), (1,2), (1,3); then 0,2|1 and 0,3|1
    are joined to 2,3|0,1. *)
Example C49_sets :
  let t0 := [(0, 1); (1, 2); (1, 3)] in
  let t1 := [(0, 1); (0, 2)] in
  let t2 := [(0, 1)] in
  cond_sets (fun l => l) t1 [t0] 0 = {| conditioned := (0, 2); conditioning := [1] |}
  /\ cond_sets (fun l => l) t2 [t1; t0] 0
     = {| conditioned := (2, 3); conditioning := [0; 1] |}.
Proof. split; reflexivity. Qed.
