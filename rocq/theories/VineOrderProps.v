(** C71: when conditional samples are exact. *)
Require Import List Arith Bool Lia Permutation Reals.
From Verif Require Import VineModel VineGraph VineProps VineSampleProps VinePropagateProps VineCentralProps.
Import ListNotations.
Close Scope R_scope.
Open Scope nat_scope.

(** * Specification *)

(** The conditioning assets come before all the others. *)
Definition conditions_first (enum : list nat -> list nat) (cond : list nat) (ts : list tree)
    (order : list entry) : Prop :=
  exists o1 o2, order = o1 ++ o2
    /\ Permutation (map (entry_var enum ts) o1) cond
    /\ (forall e, In e o1 -> exists r, e = RootEntry r)
    /\ (forall e, In e o2 -> ~ In (entry_var enum ts e) cond).

(** An asset drawn through an edge is drawn given all the assets before it, and only
    them: they are the other variables of its edge. *)
Definition given_all_before (enum : list nat -> list nat) (ts : list tree)
    (order : list entry) : Prop :=
  forall o1 l k lft o2, order = o1 ++ ChildEntry l k lft :: o2 ->
    exists t below, tree_on_level ts l t below /\ k < length t
      /\ forall x, In x (vars (t :: below) k) <->
           x = get_var enum t below k lft \/ In x (map (entry_var enum ts) o1).

(** * Every pair of assets is the conditioned pair of at most one edge *)

Definition norm (p : nat * nat) : nat * nat := (Nat.min (fst p) (snd p), Nat.max (fst p) (snd p)).

Section Pairs.
  Variable enum : list nat -> list nat.
  Hypothesis enum_ok : enumerates enum.

  Fixpoint pairs_of (ts : list tree) : list (nat * nat) :=
    match ts with
    | [] => []
    | t :: below => map (fun k => norm (conditioned (cond_sets enum t below k))) (seq 0 (length t))
                    ++ pairs_of below
    end.

  Lemma pair_in_node : forall below n k, regular n below -> k < n - length below ->
    forall a b, In a (vars below k) -> In b (vars below k) -> a < b -> In (a, b) (pairs_of below).
  Proof.
    induction below as [|t below IH]; intros n k Hr Hk a b Ha Hb Hab.
    - cbn in Ha, Hb. lia.
    - assert (R1 := proj1 Hr). assert (R2 := proj1 (proj2 Hr)). assert (Et := tree_edges _ _ R2).
      cbn [length] in Hk. assert (Hk' : k < length t) by lia.
      assert (O := edge_order _ t k R2 Hk').
      destruct (C49_conditioning_sets enum enum_ok n [] t below k Hr Hk') as (_ & _ & H1 & H2 & _).
      cbn [pairs_of]. apply in_app_iff.
      destruct (in_dec Nat.eq_dec a (vars below (fst (edge_at t k)))) as [A1|A1],
               (in_dec Nat.eq_dec b (vars below (fst (edge_at t k)))) as [B1|B1].
      + right. apply (IH n (fst (edge_at t k))); auto. lia.
      + destruct (in_dec Nat.eq_dec a (vars below (snd (edge_at t k)))) as [A2|A2].
        * apply vars_cons in Hb as [Hb|Hb]; [contradiction|]. right. apply (IH n (snd (edge_at t k))); auto. lia.
        * left. apply in_map_iff. exists k. split; [|apply in_seq; lia].
          apply vars_cons in Hb as [Hb|Hb]; [contradiction|].
          assert (E1 : a = fst (conditioned (cond_sets enum t below k))) by (apply H1; auto).
          assert (E2 : b = snd (conditioned (cond_sets enum t below k))) by (apply H2; auto).
          unfold norm. rewrite <- E1, <- E2. f_equal; lia.
      + destruct (in_dec Nat.eq_dec b (vars below (snd (edge_at t k)))) as [B2|B2].
        * apply vars_cons in Ha as [Ha|Ha]; [contradiction|]. right. apply (IH n (snd (edge_at t k))); auto. lia.
        * left. apply in_map_iff. exists k. split; [|apply in_seq; lia].
          apply vars_cons in Ha as [Ha|Ha]; [contradiction|].
          assert (E1 : b = fst (conditioned (cond_sets enum t below k))) by (apply H1; auto).
          assert (E2 : a = snd (conditioned (cond_sets enum t below k))) by (apply H2; auto).
          unfold norm. rewrite <- E1, <- E2. f_equal; lia.
      + apply vars_cons in Ha as [Ha|Ha]; [contradiction|]. apply vars_cons in Hb as [Hb|Hb]; [contradiction|].
        right. apply (IH n (snd (edge_at t k))); auto. lia.
  Qed.

  Lemma pairs_of_length : forall ts n, regular n ts -> length ts < n ->
    2 * length (pairs_of ts) = length ts * (2 * n - length ts - 1).
  Proof.
    induction ts as [|t ts IH]; intros n Hr Hl; [reflexivity|].
    assert (R1 := proj1 Hr). assert (R2 := proj1 (proj2 Hr)). assert (Et := tree_edges _ _ R2).
    cbn [length] in Hl. specialize (IH n R1 ltac:(lia)).
    cbn [pairs_of length]. rewrite app_length, map_length, seq_length.
    replace (n) with (length ts + S (length t)) in * by lia. nia.
  Qed.

  Lemma pairs_length : forall n, 2 * length (pairs n) = n * (n - 1).
  Proof.
    intros n. unfold pairs.
    assert (K : forall m s, s + m = n ->
      2 * length (flat_map (fun i => map (fun j => (i, j)) (seq (S i) (n - S i))) (seq s m)) = m * (m - 1)).
    { induction m as [|m IH]; intros s Hs; [reflexivity|]. cbn [seq flat_map].
      rewrite app_length, map_length, seq_length. specialize (IH (S s) ltac:(lia)).
      replace (n - S s) with m by lia. nia. }
    apply (K n 0). reflexivity.
  Qed.

  Lemma in_pairs : forall n a b, In (a, b) (pairs n) <-> a < b < n.
  Proof.
    intros n a b. assert (H := in_candidates n [] a b). unfold candidates in H.
    rewrite filter_In in H. cbn [eligible] in H. tauto.
  Qed.

  Lemma pairs_nodup : forall n, NoDup (pairs n).
  Proof. intros n. apply sorted_nodup, pairs_sorted. Qed.

  Lemma full_top : forall n ts, regular n ts -> S (length ts) = n -> forall x, x < n -> In x (vars ts 0).
  Proof.
    intros n ts Hr Hl x Hx. destruct (covered ts n x Hr ltac:(lia) Hx) as (y & Hy & Hin).
    assert (y = 0) by lia. subst. exact Hin.
  Qed.

  Lemma full_nodup : forall n ts, regular n ts -> S (length ts) = n -> NoDup (pairs_of ts).
  Proof.
    intros n ts Hr Hl. apply (NoDup_incl_NoDup (pairs_nodup n)).
    - assert (A := pairs_of_length ts n Hr ltac:(lia)). assert (B := pairs_length n).
      replace (2 * n - length ts - 1) with n in A by lia. replace (n - 1) with (length ts) in B by lia.
      rewrite (Nat.mul_comm n) in B. unfold edge in *. lia.
    - intros [a b] H. apply in_pairs in H. apply (pair_in_node ts n 0 Hr ltac:(lia)); try lia;
        apply (full_top n ts Hr Hl); lia.
  Qed.

  Lemma pairs_of_suffix : forall above below, exists l, pairs_of (above ++ below) = l ++ pairs_of below.
  Proof.
    induction above as [|t above IH]; intros below; [exists []; reflexivity|].
    destruct (IH below) as (l & E). cbn [app pairs_of]. rewrite E, app_assoc. eauto.
  Qed.

  Lemma nodup_app_disjoint : forall (l l' : list (nat * nat)) x, NoDup (l ++ l') -> In x l -> In x l' -> False.
  Proof.
    induction l as [|y l IH]; intros l' x H H1 H2; [destruct H1|]. cbn [app] in H.
    apply NoDup_cons_iff in H as [N H]. destruct H1 as [->|H1]; [apply N, in_app_iff; auto | eauto].
  Qed.
  Lemma nodup_app_r : forall (l l' : list (nat * nat)), NoDup (l ++ l') -> NoDup l'.
  Proof. induction l as [|y l IH]; intros l' H; [exact H|]. apply NoDup_cons_iff in H as [_ H]. auto. Qed.

  (** The two conditioned variables of an edge are not together in a node below. *)
  Lemma fresh_pair : forall n ts above t mid below k j, regular n ts -> S (length ts) = n ->
    ts = above ++ t :: mid ++ below -> k < length t -> j < n - length below ->
    In (fst (conditioned (cond_sets enum t (mid ++ below) k))) (vars below j) ->
    In (snd (conditioned (cond_sets enum t (mid ++ below) k))) (vars below j) -> False.
  Proof.
    intros n ts above t mid below k j Hr Hl E Hk Hj H1 H2.
    assert (N := full_nodup n ts Hr Hl). rewrite E in N, Hr.
    destruct (pairs_of_suffix above (t :: mid ++ below)) as (l & El). rewrite El in N.
    apply nodup_app_r in N. cbn [pairs_of] in N. apply regular_suffix in Hr.
    destruct (C49_conditioning_sets enum enum_ok n [] t (mid ++ below) k Hr Hk) as (_ & _ & C1 & C2 & _).
    set (c := cond_sets enum t (mid ++ below) k) in *.
    assert (Ne : fst (conditioned c) <> snd (conditioned c)).
    { intros Q. destruct (proj1 (C1 _) eq_refl) as [A B]. destruct (proj1 (C2 _) eq_refl) as [A' B'].
      rewrite <- Q in A'. contradiction. }
    assert (Hrb : regular n below).
    { assert (R1 := proj1 Hr). eapply regular_suffix; eauto. }
    assert (I : In (norm (conditioned c)) (pairs_of below)).
    { unfold norm. apply (pair_in_node below n j Hrb Hj); [| |lia].
      - destruct (Nat.min_dec (fst (conditioned c)) (snd (conditioned c))) as [-> | ->]; auto.
      - destruct (Nat.max_dec (fst (conditioned c)) (snd (conditioned c))) as [-> | ->]; auto. }
    destruct (pairs_of_suffix mid below) as (l' & El').
    apply (nodup_app_disjoint _ _ (norm (conditioned c)) N).
    - apply in_map_iff. exists k. split; [reflexivity|]. apply in_seq. lia.
    - rewrite El'. apply in_app_iff. auto.
  Qed.
End Pairs.

Section Full.
  Variable enum : list nat -> list nat.
  Hypothesis enum_ok : enumerates enum.
  Variable n : nat.
  Variable ts : list tree.
  Hypothesis Hreg : regular n ts.
  Hypothesis Hfull : S (length ts) = n.
  Variable cond : list nat.

  Lemma marginalize_levels : forall below t k lft E1 l j lf E2,
    marginalize enum cond t below k lft = E1 ++ ChildEntry l j lf :: E2 -> length E2 = S l.
  Proof.
    clear Hreg Hfull. induction below as [|t' below IH]; intros t k lft E1 l j lf E2 H; cbn [marginalize] in H.
    - destruct E1 as [|? [|]]; discriminate.
    - destruct E1 as [|e E1]; cbn [app] in H.
      + injection H as <- _ _ <-.
        assert (L : forall below t k lft, length (marginalize enum cond t below k lft) = S (length below)).
        { clear. induction below as [|t' below IH]; intros t k lft; cbn [marginalize length]; auto. }
        apply L.
      + injection H as _ H. eauto.
  Qed.

  (** A branch that keeps a set of variables lying in one node below. *)
  Lemma keeps : forall t mid below k j above, ts = above ++ t :: mid ++ below -> k < length t ->
    j < n - length below -> (forall x, In x cond <-> In x (vars below j)) ->
    ~ In (get_var enum t (mid ++ below) k (is_left_branch enum cond t (mid ++ below) k)) cond.
  Proof.
    intros t mid below k j above E Hk Hj HS.
    assert (F := fresh_pair enum enum_ok n ts above t mid below k j Hreg Hfull E Hk Hj).
    rewrite <- !HS in F. unfold get_var, is_left_branch. set (c := cond_sets enum t (mid ++ below) k) in *.
    destruct (mem (fst (conditioned c)) cond) eqn:M1, (mem (snd (conditioned c)) cond) eqn:M2; cbn [andb negb];
      rewrite ?mem_In in *; rewrite ?mem_not in *.
    - exfalso. auto.
    - exact M2.
    - exact M1.
    - destruct (_ <=? _); assumption.
  Qed.

  Lemma drops : forall below' j, (forall x, In x cond <-> In x (vars below' j)) -> j < n - length below' ->
    forall mid t k lft above, ts = above ++ t :: mid ++ below' -> k < length t ->
    incl cond (vars (mid ++ below') (stem t (k, lft))) ->
    exists A B, marginalize enum cond t (mid ++ below') k lft = A ++ B
      /\ length B = S (length below')
      /\ (forall e, In e A -> ~ In (entry_var enum ts e) cond)
      /\ (forall e, In e B -> In (entry_var enum ts e) cond).
  Proof.
    intros below' j HS Hj. induction mid as [|t' mid IH]; intros t k lft above E Hk Hi.
    - cbn [app] in *. exists [], (marginalize enum cond t below' k lft). split; [reflexivity|].
      assert (Hlev : tree_on_level ts (length below') t below') by (split; eauto).
      destruct (marginalize_spec enum enum_ok cond n ts Hreg below' t k lft Hlev Hk) as (M1 & M2 & M3).
      split; [exact M3|]. split; [intros e []|].
      assert (Hr := level_regular n ts Hreg _ _ _ Hlev). assert (R1 := proj1 Hr). assert (R2 := proj1 (proj2 Hr)).
      destruct (vine_size (length below') below' n eq_refl R1) as [V1 _].
      assert (O := edge_order _ t k R2 Hk).
      assert (Hst : stem t (k, lft) < n - length below') by (unfold stem; cbn [fst snd]; destruct lft; lia).
      assert (Q1 : incl (vars below' (stem t (k, lft))) (vars below' j)).
      { apply NoDup_length_incl; [apply nodup_vars | rewrite !V1; auto |].
        intros x Hx. apply Hi, HS. exact Hx. }
      assert (Q2 : incl (map (entry_var enum ts) (marginalize enum cond t below' k lft)) (vars below' (stem t (k, lft)))).
      { apply NoDup_length_incl; [apply nodup_vars | rewrite map_length, M3, V1; auto | exact M2]. }
      intros e He. apply HS, Q1, Q2, in_map. exact He.
    - cbn [app] in *. cbn [marginalize].
      change (if lft then snd (edge_at t k) else fst (edge_at t k)) with (stem t (k, lft)).
      set (node := stem t (k, lft)) in *.
      assert (Hlev : tree_on_level ts (length (t' :: mid ++ below')) t (t' :: mid ++ below')) by (split; eauto).
      assert (Hr := level_regular n ts Hreg _ _ _ Hlev).
      destruct (node_range n t t' (mid ++ below') k lft Hr Hk) as [Hn _]. fold node in Hn.
      assert (Hlev' := level_below ts _ _ _ _ Hlev).
      assert (E' : ts = (above ++ [t]) ++ t' :: mid ++ below') by (rewrite <- app_assoc; exact E).
      set (l' := is_left_branch enum cond t' (mid ++ below') node).
      assert (Kp := keeps t' mid below' node j (above ++ [t]) E' Hn Hj HS). fold l' in Kp.
      destruct (side enum enum_ok n t' (mid ++ below') node l' (proj1 Hr) Hn) as (S1 & S2 & S3).
      destruct (IH t' node l' (above ++ [t]) E' Hn) as (A & B & EM & LB & HA & HB).
      { intros x Hx. apply S3; [apply Hi; exact Hx | intros ->; contradiction]. }
      exists (ChildEntry (length (mid ++ below')) node l' :: A), B. rewrite EM. split; [reflexivity|].
      split; [exact LB|]. split; [|exact HB].
      intros e [<-|He]; [|auto]. rewrite (entry_var_child enum ts _ _ _ _ _ Hlev'). exact Kp.
  Qed.

  Lemma full_order : forall t below, ts = t :: below -> 2 <= n ->
    length t = 1 /\
    forall order, sampling_order enum cond n ts = Some order ->
    let lft := is_left_branch enum cond t below 0 in
    order = rev (map (replace_conditioned enum cond ts)
                  (ChildEntry (length below) 0 lft :: marginalize enum cond t below 0 lft)).
  Proof.
    intros t below E Hn. assert (Hr := Hreg). rewrite E in Hr. assert (R2 := proj1 (proj2 Hr)).
    assert (Et := tree_edges _ _ R2). assert (Hl := Hfull). rewrite E in Hl. cbn [length] in Hl.
    assert (H1 : length t = 1) by lia. split; [exact H1|].
    intros order Ho lft. unfold sampling_order in Ho. rewrite E in Ho. rewrite H1 in Ho. rewrite <- E in Ho. cbn [Nat.eqb] in Ho.
    cbv zeta in Ho. cbn [map fst snd app] in Ho. fold lft in Ho.
    destruct (distinct _ && _); [|discriminate]. injection Ho as <-. reflexivity.
  Qed.
End Full.

(** Whatever the conditions, each asset of a full vine that is drawn through an edge is
    drawn given all the assets before it. *)
Theorem C71_given_all_before : forall enum n ts cond, enumerates enum -> regular n ts ->
  S (length ts) = n -> 2 <= n ->
  exists order, sampling_order enum cond n ts = Some order
    /\ complete_order enum cond n ts order /\ given_all_before enum ts order.
Proof.
  intros enum n ts cond Hen Hr Hl Hn.
  assert (Hne : ts <> []) by (intros ->; cbn in Hl; lia).
  destruct (C48_order enum Hen cond n ts Hr Hne ltac:(lia)) as (order & Ho & Hc).
  exists order. split; [exact Ho|]. split; [exact Hc|].
  intros o1 l k lft o2 E. destruct Hc as (Hp & _ & Hc). destruct (Hc o1 l k lft o2 E) as (t & below & T1 & T2 & T3 & T4).
  exists t, below. split; [exact T1|]. split; [exact T2|].
  assert (Hreg' := level_regular n ts Hr _ _ _ T1). destruct (vine_size (S (length below)) (t :: below) n eq_refl Hreg') as [V1 _].
  assert (Et := tree_edges _ _ (proj1 (proj2 Hreg'))).
  assert (Hlev := proj2 T1). specialize (V1 k ltac:(lia)).
  assert (Lo : length o1 = S l).
  { destruct ts as [|t0 b0] eqn:Ets; [congruence|]. rewrite <- Ets in *.
    destruct (full_order enum n ts Hr Hl cond t0 b0 Ets Hn) as [_ Fo]. specialize (Fo order Ho). cbv zeta in Fo.
    rewrite Fo in E.
    assert (Hrev : map (replace_conditioned enum cond ts)
              (ChildEntry (length b0) 0 (is_left_branch enum cond t0 b0 0) :: marginalize enum cond t0 b0 0 (is_left_branch enum cond t0 b0 0))
              = rev o2 ++ ChildEntry l k lft :: rev o1).
    { rewrite <- (rev_involutive (map _ _)). rewrite E, rev_app_distr. cbn [rev]. rewrite <- app_assoc. reflexivity. }
    apply map_eq_app in Hrev as (E1 & E2' & HE & HE1 & HE2).
    destruct E2' as [|e E2]; [discriminate|]. cbn [map] in HE2. injection HE2 as He HE2'.
    assert (He' : e = ChildEntry l k lft).
    { unfold replace_conditioned in He. destruct (mem (entry_var enum ts e) cond); [discriminate|]. exact He. }
    subst e. rewrite <- (rev_length o1), <- HE2', map_length.
    destruct E1 as [|e1 E1]; cbn [app] in HE.
    - injection HE as <- _ _ <-.
      assert (Hlev0 : tree_on_level ts (length b0) t0 b0) by (split; [exists []; rewrite Ets; reflexivity | reflexivity]).
      destruct (full_order enum n ts Hr Hl cond t0 b0 Ets Hn) as [L1 _].
      destruct (marginalize_spec enum Hen cond n ts Hr b0 t0 0 (is_left_branch enum cond t0 b0 0) Hlev0 ltac:(lia)) as (_ & _ & M3).
      exact M3.
    - injection HE as _ HE. eapply marginalize_levels; eauto. }
  assert (Hev : entry_var enum ts (ChildEntry l k lft) = get_var enum t below k lft) by (apply entry_var_child; auto).
  assert (Hi : incl (vars (t :: below) k) (get_var enum t below k lft :: map (entry_var enum ts) o1)).
  { intros x Hx. destruct (Nat.eq_dec x (get_var enum t below k lft)) as [->|N]; [left; auto | right; auto]. }
  assert (Hi' := NoDup_length_incl (nodup_vars (t :: below) k)
     (l' := get_var enum t below k lft :: map (entry_var enum ts) o1)
     ltac:(rewrite V1; cbn [length]; rewrite map_length; lia) Hi).
  intros x. split.
  - intros Hx. apply Hi in Hx. destruct Hx as [<-|Hx]; auto.
  - intros [->|Hx]; apply Hi'; [left | right]; auto.
Qed.
Print Assumptions C71_given_all_before.

(** When the conditioning assets are the variables of one node of a full vine, they come
    first: all the other assets are drawn given all the conditions. *)
Theorem C71_conditions_first : forall enum n ts cond above below j, enumerates enum ->
  regular n ts -> S (length ts) = n -> 2 <= n ->
  ts = above ++ below -> j < n - length below -> NoDup cond ->
  (forall x, In x cond <-> In x (vars below j)) -> length cond < n ->
  exists order, sampling_order enum cond n ts = Some order
    /\ complete_order enum cond n ts order /\ given_all_before enum ts order
    /\ conditions_first enum cond ts order.
Proof.
  intros enum n ts cond above below j Hen Hr Hl Hn E Hj Hnd HS Hc.
  destruct (C71_given_all_before enum n ts cond Hen Hr Hl Hn) as (order & Ho & Hco & Hg).
  exists order. split; [exact Ho|]. split; [exact Hco|]. split; [exact Hg|].
  assert (Hrb : regular n below) by (rewrite E in Hr; eapply regular_suffix; eauto).
  destruct (vine_size (length below) below n eq_refl Hrb) as [V1 _].
  assert (Lc : length cond = S (length below)).
  { rewrite <- (V1 j Hj). apply Permutation_length, NoDup_Permutation; auto using nodup_vars. }
  destruct above as [|t above]; [cbn [app] in E; subst below; lia|]. cbn [app] in E.
  destruct (full_order enum n ts Hr Hl cond t (above ++ below) E Hn) as [L1 Fo]. specialize (Fo order Ho). cbv zeta in Fo.
  set (lft := is_left_branch enum cond t (above ++ below) 0) in *.
  assert (Hrt : regular n (t :: above ++ below)) by (rewrite <- E; exact Hr).
  assert (Kp := keeps enum Hen n ts Hr Hl cond t above below 0 j [] E ltac:(lia) Hj HS). fold lft in Kp.
  destruct (side enum Hen n t (above ++ below) 0 lft Hrt ltac:(lia)) as (S1 & S2 & S3).
  destruct (drops enum Hen n ts Hr Hl cond below j HS Hj above t 0 lft [] E ltac:(lia)) as (A & B & EM & LB & HA & HB).
  { intros x Hx. apply S3; [|intros ->; contradiction]. rewrite <- E. apply (full_top n ts Hr Hl).
    apply HS in Hx. apply (vars_range below n j Hrb Hj x Hx). }
  rewrite EM in Fo.
  assert (Hlev : tree_on_level ts (length (above ++ below)) t (above ++ below)) by (split; [exists []; exact E | reflexivity]).
  assert (HA' : forall e, In e (ChildEntry (length (above ++ below)) 0 lft :: A) -> ~ In (entry_var enum ts e) cond).
  { intros e [<-|He]; [|auto]. rewrite (entry_var_child enum ts _ _ _ _ _ Hlev). exact Kp. }
  set (A' := ChildEntry (length (above ++ below)) 0 lft :: A) in *.
  change (ChildEntry (length (above ++ below)) 0 lft :: A ++ B) with (A' ++ B) in Fo.
  rewrite map_app, rev_app_distr in Fo.
  exists (rev (map (replace_conditioned enum cond ts) B)), (rev (map (replace_conditioned enum cond ts) A')).
  assert (Hv : forall l, map (entry_var enum ts) (map (replace_conditioned enum cond ts) l) = map (entry_var enum ts) l).
  { intros l. rewrite map_map. apply map_ext. intros e. apply replace_var. }
  split; [exact Fo|]. split; [|split].
  - rewrite map_rev, Hv. eapply Permutation_trans; [apply Permutation_sym, Permutation_rev|].
    assert (NB : NoDup (map (entry_var enum ts) B)).
    { destruct Hco as (P & _). rewrite Fo in P. rewrite map_app, !map_rev, !Hv in P.
      assert (N : NoDup (rev (map (entry_var enum ts) B) ++ rev (map (entry_var enum ts) A')))
        by (eapply Permutation_NoDup; [apply Permutation_sym; exact P | apply seq_NoDup]).
      rewrite <- rev_app_distr in N. apply NoDup_rev in N. rewrite rev_involutive in N.
      clear - N. induction (map (entry_var enum ts) A') as [|y l IH]; [exact N|]. apply NoDup_cons_iff in N as [_ N]. auto. }
    apply NoDup_Permutation_bis; [exact NB | rewrite map_length; lia |].
    intros x Hx. apply in_map_iff in Hx as (e & <- & He). auto.
  - intros e He. apply in_rev in He. apply in_map_iff in He as (e' & <- & He). apply HB in He.
    unfold replace_conditioned. apply mem_In in He. rewrite He. eauto.
  - intros e He. apply in_rev in He. apply in_map_iff in He as (e' & <- & He). apply HA' in He.
    rewrite replace_var. exact He.
Qed.
Print Assumptions C71_conditions_first.

(** One conditioned asset. *)
Theorem C71_one_condition : forall enum n ts c, enumerates enum ->
  regular n ts -> S (length ts) = n -> 2 <= n -> c < n ->
  exists rest, sampling_order enum [c] n ts = Some (RootEntry c :: rest)
    /\ given_all_before enum ts (RootEntry c :: rest).
Proof.
  intros enum n ts c Hen Hr Hl Hn Hc.
  destruct (C71_conditions_first enum n ts [c] ts [] c Hen Hr Hl Hn) as (order & Ho & _ & Hg & (o1 & o2 & E & P & Q & _)).
  - symmetry. apply app_nil_r.
  - cbn [length]. lia.
  - constructor; [intros [] | constructor].
  - intros x. cbn. tauto.
  - cbn [length]. lia.
  - apply Permutation_sym, Permutation_length_1_inv in P.
    destruct o1 as [|e [|e' o1]]; try discriminate. cbn [map] in P. injection P as P.
    destruct (Q e (or_introl eq_refl)) as (r & ->). cbn [entry_var] in P. subst r.
    cbn [app] in E. subst order. eauto.
Qed.
Print Assumptions C71_one_condition.

(** A vine fitted with the conditioning assets as central ones, and not truncated. *)
Theorem C71_central : forall mst dependence n max_depth ts enum cond,
  maximum_forest_oracle mst -> (forall b e, (0 <= dependence b e)%R) -> enumerates enum ->
  fit_trees mst (fun x => mem x cond) dependence n max_depth = Fitted ts ->
  (forall d, max_depth = Some d -> n - 1 <= d) ->
  NoDup cond -> cond <> [] -> (forall x, In x cond -> x < n) -> length cond < n ->
  exists order, sampling_order enum cond n ts = Some order
    /\ complete_order enum cond n ts order /\ given_all_before enum ts order
    /\ conditions_first enum cond ts order.
Proof.
  intros mst dependence n max_depth ts enum cond Ho Hd Hen Hf Hdep Hnd Hne Hr Hc.
  assert (Hreg := fit_regular _ _ _ _ _ _ Ho Hd Hf).
  assert (Hn : 2 < n).
  { unfold fit_trees in Hf. destruct (Nat.leb_spec n 2); [discriminate | auto]. }
  assert (Hl : S (length ts) = n).
  { destruct (C49_regular_vine mst (fun x => mem x cond) dependence n max_depth (proj1 Ho) Hd Hn) as (ts' & Hf' & _ & Hl).
    - intros d Ed. specialize (Hdep d Ed). lia.
    - rewrite Hf in Hf'. injection Hf' as <-. destruct max_depth as [d|]; [specialize (Hdep d eq_refl)|]; lia. }
  assert (P : Permutation (filter (fun x => mem x cond) (seq 0 n)) cond).
  { apply NoDup_Permutation; [apply NoDup_filter, seq_NoDup | exact Hnd|].
    intros x. rewrite filter_In, in_seq, mem_In. split; [tauto|]. intros Hx. specialize (Hr x Hx). split; [lia | auto]. }
  assert (Lc := Permutation_length P).
  destruct cond as [|c0 cond0] eqn:Ec; [congruence|]. rewrite <- Ec in *.
  assert (Ls : length (filter (fun x => mem x cond) (seq 0 n)) = S (length cond0)) by (rewrite Lc, Ec; reflexivity).
  destruct (C70_own_vine mst (fun x => mem x cond) dependence n max_depth ts (length cond0) Ho Hd Hf Ls) as (above & below & k & E & Lb & Hk & HS).
  { rewrite Ec in Hc. cbn [length] in Hc. lia. }
  apply (C71_conditions_first enum n ts cond above below k); auto; try lia.
  intros x. rewrite HS, mem_In. split; [intros Hx; split; auto | tauto].
Qed.
Print Assumptions C71_central.

(** * What the order does not achieve *)

(** Three assets in a chain 0 - 1 - 2. *)
Definition chain3 : list tree := [[(0, 1)]; [(0, 1); (1, 2)]].
(** Four assets in a chain 0 - 1 - 2 - 3, truncated after the second tree. *)
Definition chain4 : list tree := [[(0, 1); (1, 2)]; [(0, 1); (1, 2); (2, 3)]].

Ltac small_tree :=
  split; [intros a b H; cbn in H; repeat (destruct H as [H|H]; [injection H as <- <-; cbn; lia|]); destruct H
         | split; [intros x y Hx Hy; cbn [length Nat.sub] in Hx, Hy; apply linkedb_spec;
                   do 4 (destruct x as [|x]; [do 4 (destruct y as [|y]; [try lia; reflexivity | try lia]) | try lia])
                  | apply acyclicb_spec; reflexivity]].

Lemma chain3_regular : regular 3 chain3.
Proof.
  cbn [regular chain3]. split; [split; [exact I|]|]; (split; [|split]).
  - small_tree.
  - apply sorted_row_major. repeat constructor.
  - exact I.
  - small_tree.
  - apply sorted_row_major. repeat constructor.
  - intros a b [H|[]]. injection H as <- <-. exists 1. split; [right | left]; reflexivity.
Qed.

Lemma chain4_regular : regular 4 chain4.
Proof.
  cbn [regular chain4]. split; [split; [exact I|]|]; (split; [|split]).
  - small_tree.
  - apply sorted_row_major. repeat constructor.
  - exact I.
  - small_tree.
  - apply sorted_row_major. repeat constructor.
  - intros a b [H|[H|[]]]; injection H as <- <-; [exists 1 | exists 2]; (split; [right | left]; reflexivity).
Qed.

(** Two conditions at the two ends of the chain: asset 1 is drawn given asset 2 only,
    whatever value was asked for asset 0 and whatever the copulas are. *)
Theorem C71_two_conditions_refuted :
  regular 3 chain3 /\ S (length chain3) = 3
  /\ exists order, sampling_order (fun l => l) [0; 2] 3 chain3 = Some order
    /\ forall V C (hu hv hinv : C -> V -> V -> V) copula clip given u,
       exists s, propagate (fun l => l) V C hu hv hinv copula clip [0; 2] given chain3 order [u] = Some s
         /\ roots V s 0 = Some (clip (given 0)) /\ roots V s 2 = Some (clip (given 2))
         /\ roots V s 1 = Some (hinv (copula 0 1) (clip u) (clip (given 2))).
Proof.
  split; [exact chain3_regular|]. split; [reflexivity|].
  eexists. split; [vm_compute; reflexivity|]. intros V C hu hv hinv copula clip given u.
  eexists. split; [cbv; reflexivity|]. repeat split.
Qed.
Print Assumptions C71_two_conditions_refuted.

(** One condition on a truncated vine: assets 1, 2 and 3 are drawn as if there were no
    condition on asset 0. *)
Theorem C71_truncated_refuted :
  regular 4 chain4
  /\ exists order, sampling_order (fun l => l) [0] 4 chain4 = Some order
    /\ forall V C (hu hv hinv : C -> V -> V -> V) copula clip given given' u1 u2 u3,
       exists s s',
         propagate (fun l => l) V C hu hv hinv copula clip [0] given chain4 order [u1; u2; u3] = Some s
         /\ propagate (fun l => l) V C hu hv hinv copula clip [0] given' chain4 order [u1; u2; u3] = Some s'
         /\ roots V s 0 = Some (clip (given 0)) /\ roots V s' 0 = Some (clip (given' 0))
         /\ roots V s 1 = roots V s' 1 /\ roots V s 2 = roots V s' 2 /\ roots V s 3 = roots V s' 3.
Proof.
  split; [exact chain4_regular|].
  eexists. split; [vm_compute; reflexivity|]. intros V C hu hv hinv copula clip given given' u1 u2 u3.
  eexists. eexists. split; [cbv; reflexivity|].
  split; [cbv; reflexivity|]. repeat split.
Qed.
Print Assumptions C71_truncated_refuted.

(** The hypotheses are met: the chain on three assets and each single condition, or the
    conditions {0, 1}, the variables of the first edge. *)
Example C71_applies :
  (forall c, c < 3 -> exists rest, sampling_order (fun l => l) [c] 3 chain3 = Some (RootEntry c :: rest)
     /\ given_all_before (fun l => l) chain3 (RootEntry c :: rest))
  /\ exists order, sampling_order (fun l => l) [1; 0] 3 chain3 = Some order
     /\ conditions_first (fun l => l) [1; 0] chain3 order.
Proof.
  assert (He : enumerates (fun l => l)) by (intros l; apply Permutation_refl).
  split.
  - intros c Hc. apply (C71_one_condition (fun l => l) 3 chain3 c); auto using chain3_regular.
  - destruct (C71_conditions_first (fun l => l) 3 chain3 [1; 0] [[(0, 1)]] [[(0, 1); (1, 2)]] 0) as (order & H1 & _ & _ & H2);
      [exact He | exact chain3_regular | reflexivity | lia | reflexivity | cbn; lia | | | cbn; lia | eauto].
    + constructor; [cbn; lia|]. constructor; [intros []|constructor].
    + intros x. cbn. tauto.
Qed.
Example C71_central_applies :
  exists ts order,
    fit_trees heaviest (fun x => mem x [3; 1]) (fun _ _ => 0%R) 5 None = Fitted ts
    /\ sampling_order (fun l => l) [3; 1] 5 ts = Some order
    /\ conditions_first (fun l => l) [3; 1] ts order.
Proof.
  assert (Ho := heaviest_oracle). revert Ho. generalize heaviest. intros mst Ho.
  assert (Hd : forall (b : list tree) (e : edge), (0 <= 0)%R) by (intros; apply Rle_refl).
  destruct (C49_regular_vine mst (fun x => mem x [3; 1]) (fun _ _ => 0%R) 5 None (proj1 Ho) Hd) as (ts & Hf & _); [lia | discriminate|].
  destruct (C71_central mst (fun _ _ => 0%R) 5 None ts (fun l => l) [3; 1] Ho Hd) as (order & H1 & _ & _ & H2);
    [intros l; apply Permutation_refl | exact Hf | discriminate | | discriminate | | cbn; lia | eauto].
  - constructor; [cbn; lia|]. constructor; [intros []|constructor].
  - intros x [<-|[<-|[]]]; lia.
Qed.
