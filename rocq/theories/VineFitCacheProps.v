(** Fitting a vine copula: clearing the caches of a tree while the next ones are
    built changes no value (C93). *)

Require Import List Arith Bool Lia Reals FunctionalExtensionality.
From Verif Require Import VineModel VineCacheModel VineFitCacheModel VineGraph VineProps VinePropagateProps
  VineCacheProps.
Import ListNotations.

(** * Specification *)

(** The copulas of the trees [ts] (the last one first) when every margin is
    computed from the values [x] of the variables: each edge receives the copula
    selected on its two columns, given the copulas of the trees below. *)
Fixpoint selected {V C} (hu hv : C -> V -> V -> V) (select : V * V -> C) (x : nat -> V)
    (c0 : nat -> nat -> C) (ts : list tree) : nat -> nat -> C :=
  match ts with
  | [] => c0
  | t :: below =>
      let c := selected hu hv select x c0 below in
      fun l k => if (l =? length below) && (k <? length t)
                 then select (edge_pair hu hv c x t below k) else c l k
  end.

(** The dependence of the edge [p] above the trees [ts]. *)
Definition edge_dependence {V C} (hu hv : C -> V -> V -> V) (select : V * V -> C) (x : nat -> V)
    (c0 : nat -> nat -> C) (dep : V * V -> R) (ts : list tree) (p : edge) : R :=
  dep (edge_pair hu hv (selected hu hv select x c0 ts) x [p] ts 0).

(** * Proofs *)

Section Fit.
  Variables V C : Type.
  Variables hu hv : C -> V -> V -> V.
  Variable nan : V.
  Variable dep : V * V -> R.
  Variable select : V * V -> C.
  Variable mst : nat -> list (edge * R) -> list edge.
  Variable root : nat -> bool.
  Hypothesis Hmst : forall n w, incl (mst n w) (map fst w).
  Variable x : nat -> V.
  Variable depth : nat.

  Notation M := (margins V).
  Notation mv c := (model_value V C hu hv c x).
  Notation blankm := (blank_margin V).

  Lemma margins_set : forall s l k b m i j d,
    M (set_margin V s l k b m) i j d = if (i =? l) && (j =? k) && Bool.eqb d b then m else M s i j d.
  Proof. reflexivity. Qed.

  Lemma same_key : forall i j d l k b, (i =? l) && (j =? k) && Bool.eqb d b = true -> i = l /\ j = k /\ d = b.
  Proof.
    intros i j d l k b H. apply andb_true_iff in H. destruct H as [H H3]. apply andb_true_iff in H.
    destruct H as [H1 H2]. apply Nat.eqb_eq in H1, H2. apply eqb_prop in H3. auto.
  Qed.

  (** Nothing but the number of visits changes, on the levels [P]. *)
  Definition touch (P : nat -> Prop) (s s' : vine_state V) : Prop :=
    pseudo_values V s' = pseudo_values V s /\ counting V s' = counting V s /\ evaluated V s' = evaluated V s
    /\ (forall l k b, cached V (M s' l k b) = cached V (M s l k b)
                      /\ expected V (M s' l k b) = expected V (M s l k b))
    /\ forall l k b, ~ P l -> M s' l k b = M s l k b.

  Lemma touch_trans : forall P s1 s2 s3, touch P s1 s2 -> touch P s2 s3 -> touch P s1 s3.
  Proof.
    intros P s1 s2 s3 (A1 & A2 & A3 & A4 & A5) (B1 & B2 & B3 & B4 & B5).
    split; [congruence|]. split; [congruence|]. split; [congruence|]. split.
    - intros l k b. destruct (A4 l k b), (B4 l k b). split; congruence.
    - intros l k b H. rewrite B5, A5; auto.
  Qed.
  Lemma touch_refl : forall P s, touch P s s.
  Proof. intros P s. repeat split; auto. Qed.

  (** No visit is expected, so nothing is released. *)
  Definition unplanned (s : vine_state V) : Prop :=
    counting V s = false /\ forall l k b, expected V (M s l k b) = 0.

  Lemma touch_unplanned : forall P s s', touch P s s' -> unplanned s -> unplanned s'.
  Proof.
    intros P s s' (_ & A2 & _ & A4 & _) [H1 H2]. split; [congruence|]. intros l k b.
    rewrite (proj2 (A4 l k b)). apply H2.
  Qed.

  Lemma uncounted : forall s l, counting V s = false -> is_count V depth s l = false.
  Proof. intros s l H. unfold is_count. rewrite H. apply andb_false_r. Qed.

  Lemma visit_touch : forall (P : nat -> Prop) s l k b, P l -> unplanned s -> touch P s (visit V depth l k b s).
  Proof.
    intros P s l k b HP [H1 H2]. unfold visit. rewrite uncounted by exact H1.
    split; [reflexivity|]. split; [reflexivity|]. split; [reflexivity|]. split.
    - intros i j d. rewrite margins_set. destruct (_ && _) eqn:E; [|auto].
      apply same_key in E. destruct E as (-> & -> & ->). auto.
    - intros i j d Hi. rewrite margins_set. destruct (_ && _) eqn:E; [|reflexivity].
      apply same_key in E. destruct E as (-> & _). contradiction.
  Qed.

  Lemma release_none : forall s l k b, unplanned s -> release V depth l k b s = s.
  Proof.
    intros s l k b [H1 H2]. unfold release. rewrite H2. cbn. rewrite andb_false_r. reflexivity.
  Qed.

  Lemma read_cached : forall c t below k b s w (P : nat -> Prop), unplanned s -> P (length below) ->
    cached V (M s (length below) k b) = Some w ->
    exists s', read_margin V C hu hv nan depth c t below k b s = (Some w, s') /\ touch P s s'.
  Proof.
    intros c t below k b s w P Hu HP Hc. assert (T := visit_touch P s (length below) k b HP Hu).
    exists (visit V depth (length below) k b s). split; [|exact T].
    assert (U := touch_unplanned _ _ _ T Hu).
    assert (Hc' : cached V (M (visit V depth (length below) k b s) (length below) k b) = Some w)
      by (destruct T as (_ & _ & _ & A & _); rewrite (proj1 (A _ _ _)); exact Hc).
    destruct below; cbn [read_margin]; unfold bind at 1, modify; rewrite Hc', release_none by exact U; reflexivity.
  Qed.

  (** The two columns of edge [k] of [t] are at hand. *)
  Definition avail (c : nat -> nat -> C) (t : tree) (below : list tree) (s : vine_state V) (k : nat) : Prop :=
    let a := fst (edge_at t k) in
    let b := snd (edge_at t k) in
    match below with
    | [] => pseudo_values V s a = Some (x a) /\ pseudo_values V s b = Some (x b)
    | t' :: below' =>
        match shared_node_is_left (edge_at t' a) (edge_at t' b) with
        | Some (l1, l2) =>
            cached V (M s (length below') a (negb l1)) = Some (mv c t' below' a (negb l1))
            /\ cached V (M s (length below') b (negb l2)) = Some (mv c t' below' b (negb l2))
        | None => False
        end
    end.

  Lemma avail_touch : forall P c t below s s' k, touch P s s' -> avail c t below s k -> avail c t below s' k.
  Proof.
    intros P c t below s s' k (A1 & _ & _ & A4 & _) H. destruct below as [|t' below]; cbn [avail] in *.
    - rewrite A1. exact H.
    - destruct (shared_node_is_left _ _) as [[l1 l2]|]; [|exact H].
      rewrite (proj1 (A4 _ _ _)), (proj1 (A4 _ _ _)). exact H.
  Qed.

  (** While the tree above [t :: below] is built. *)
  Definition good (c : nat -> nat -> C) (t : tree) (below : list tree) (s : vine_state V) : Prop :=
    unplanned s
    /\ (forall k, k < length t -> avail c t below s k)
    /\ (forall k b w, cached V (M s (length below) k b) = Some w -> w = mv c t below k b)
    /\ (forall l k b, l <> length below -> S l <> length below -> M s l k b = blankm)
    /\ NoDup (evaluated V s)
    /\ (forall l k b, In (l, k, b) (evaluated V s) ->
          l < length below \/ l = length below /\ cached V (M s l k b) <> None)
    /\ (below <> [] -> forall r, pseudo_values V s r = None).

  Lemma good_touch : forall c t below s s',
    touch (fun l => l = length below \/ S l = length below) s s' -> good c t below s -> good c t below s'.
  Proof.
    intros c t below s s' T (H1 & H2 & H3 & H4 & H5 & H6 & H7). assert (T' := T).
    destruct T as (A1 & A2 & A3 & A4 & A5).
    split; [eapply touch_unplanned; eauto|]. split; [intros k Hk; eapply avail_touch; eauto|].
    split; [intros k b w; rewrite (proj1 (A4 _ _ _)); apply H3|].
    split; [intros l k b N1 N2; rewrite A5 by tauto; auto|].
    rewrite A3, A1. split; [exact H5|]. split; [|exact H7]. intros l k b Hi. rewrite (proj1 (A4 _ _ _)). auto.
  Qed.

  (** Values already computed are kept. *)
  Definition keeps (below : list tree) (s s' : vine_state V) : Prop :=
    forall k b w, cached V (M s (length below) k b) = Some w -> cached V (M s' (length below) k b) = Some w.

  Lemma inputs : forall c t below k s, unplanned s -> avail c t below s k ->
    exists s', touch (fun l => S l = length below) s s'
      /\ edge_X V C hu hv nan depth c t below k s = (Some (edge_pair hu hv c x t below k), s').
  Proof.
    intros c t below k s Hu Ha. destruct below as [|t' below]; cbn [avail edge_X edge_pair] in *.
    - exists s. split; [apply touch_refl|]. unfold bind, read_pseudo. destruct Ha as [-> ->]. reflexivity.
    - destruct (shared_node_is_left _ _) as [[l1 l2]|]; [|contradiction]. destruct Ha as [Ha Hb].
      destruct (read_cached c t' below _ _ s _ (fun l => S l = length (t' :: below)) Hu eq_refl Ha) as (s1 & R1 & T1).
      assert (T1' := T1). destruct T1 as (_ & _ & _ & A4 & _).
      rewrite <- (proj1 (A4 _ _ _)) in Hb.
      destruct (read_cached c t' below _ _ s1 _ (fun l => S l = length (t' :: below))
                  (touch_unplanned _ _ _ T1' Hu) eq_refl Hb) as (s2 & R2 & T2).
      exists s2. split; [eapply touch_trans; eauto|]. unfold bind. rewrite R1, R2. reflexivity.
  Qed.

  (** The margins as [get_X] followed by the partial derivative. *)
  Lemma read_X : forall c t below k b s,
    read_margin V C hu hv nan depth c t below k b s
    = bind V (modify V (visit V depth (length below) k b)) (fun _ s =>
        match cached V (M s (length below) k b) with
        | Some w => (Some w, release V depth (length below) k b s)
        | None => bind V (bind V (edge_X V C hu hv nan depth c t below k)
                           (fun p => evaluate V C hu hv nan depth c (length below) k b (fst p) (snd p)))
                         (fun w s => (Some w, release V depth (length below) k b s)) s
        end) s.
  Proof.
    intros c t below k b s. destruct below as [|t' below]; cbn [read_margin edge_X]; unfold bind, modify, ret;
      (destruct (cached _ _); [reflexivity|]).
    - destruct (read_pseudo V _ _) as [[v1|] s1]; [|reflexivity].
      destruct (read_pseudo V _ _) as [[v2|] s2]; reflexivity.
    - destruct (shared_node_is_left _ _) as [[l1 l2]|]; [|reflexivity].
      destruct (read_margin _ _ _ _ _ _ _ _ _ _ _ _) as [[v1|] s1]; [|reflexivity].
      destruct (read_margin _ _ _ _ _ _ _ _ _ _ _ _) as [[v2|] s2]; reflexivity.
  Qed.

  Lemma mv_pair : forall c t below k b s, avail c t below s k ->
    mv c t below k b = (if b then hu else hv) (c (length below) k)
      (fst (edge_pair hu hv c x t below k)) (snd (edge_pair hu hv c x t below k)).
  Proof.
    intros c t below k b s H. destruct below as [|t' below]; cbn [model_value edge_pair avail] in *; [reflexivity|].
    destruct (shared_node_is_left _ _) as [[l1 l2]|]; [reflexivity|contradiction].
  Qed.

  Lemma read_good : forall c t below k b s, good c t below s -> k < length t ->
    exists s', read_margin V C hu hv nan depth c t below k b s = (Some (mv c t below k b), s')
      /\ good c t below s' /\ keeps below s s'
      /\ cached V (M s' (length below) k b) = Some (mv c t below k b).
  Proof.
    intros c t below k b s G Hk. assert (G0 := G). destruct G0 as (H1 & H2 & H3 & H4 & H5 & H6 & H7).
    destruct (cached V (M s (length below) k b)) as [w|] eqn:Ec.
    - assert (w = mv c t below k b) by (apply H3; exact Ec). subst w.
      destruct (read_cached c t below k b s _ (fun l => l = length below \/ S l = length below) H1 (or_introl eq_refl) Ec)
        as (s' & R & T).
      exists s'. split; [exact R|]. split; [eapply good_touch; eauto|].
      destruct T as (_ & _ & _ & A4 & _).
      split; [intros k' b' w'; rewrite (proj1 (A4 _ _ _)); auto|].
      rewrite (proj1 (A4 _ _ _)). exact Ec.
    - assert (T := visit_touch (fun l => l = length below \/ S l = length below) s (length below) k b
                     (or_introl eq_refl) H1).
      set (s1 := visit V depth (length below) k b s) in *.
      assert (U1 := touch_unplanned _ _ _ T H1).
      assert (A1 := avail_touch _ _ _ _ _ _ _ T (H2 k Hk)).
      destruct (inputs c t below k s1 U1 A1) as (s2 & T2 & R2).
      assert (U2 := touch_unplanned _ _ _ T2 U1).
      assert (T' : touch (fun l => l = length below \/ S l = length below) s s2).
      { eapply touch_trans; [exact T|]. destruct T2 as (B1 & B2 & B3 & B4 & B5).
        split; [exact B1|]. split; [exact B2|]. split; [exact B3|]. split; [exact B4|].
        intros l k' b' N. apply B5. tauto. }
      assert (G2 := good_touch _ _ _ _ _ T' G).
      set (w := mv c t below k b).
      set (s3 := set_value V (log_call V s2 (length below) k b) (length below) k b w).
      assert (Key : forall i j d, M s3 i j d = if (i =? length below) && (j =? k) && Bool.eqb d b
          then {| cached := Some w; seen := seen V (M s2 (length below) k b);
                  expected := expected V (M s2 (length below) k b) |} else M s2 i j d) by reflexivity.
      assert (U3 : unplanned s3).
      { destruct U2 as [Ua Ub]. split; [exact Ua|]. intros i j d. rewrite Key.
        destruct (_ && _); [apply Ub | apply Ub]. }
      exists s3. split; [|split; [|split]].
      + rewrite read_X. unfold bind at 1, modify. fold s1.
        assert (E1 : cached V (M s1 (length below) k b) = None)
          by (destruct T as (_ & _ & _ & A4 & _); rewrite (proj1 (A4 _ _ _)); exact Ec).
        rewrite E1. unfold bind at 1 2. rewrite R2. unfold evaluate at 1. rewrite uncounted by apply U2.
        rewrite <- (mv_pair c t below k b s1 A1). fold w. fold s3. rewrite release_none by exact U3. reflexivity.
      + destruct G2 as (J1 & J2 & J3 & J4 & J5 & J6 & J7). split; [exact U3|]. split; [|split; [|split; [|split; [|split; [|exact J7]]]]].
        * intros k' Hk'. specialize (J2 k' Hk'). clear - J2 Key. destruct below as [|t' below]; cbn [avail] in *; [exact J2|].
          destruct (shared_node_is_left _ _) as [[l1 l2]|]; [|exact J2]. rewrite !Key.
          replace (length below =? length (t' :: below)) with false; [exact J2|].
          symmetry. apply Nat.eqb_neq. cbn [length]. lia.
        * intros k' b' w'. rewrite Key. destruct (_ && _) eqn:E; [|apply J3].
          apply same_key in E. destruct E as (_ & -> & ->). cbn [cached]. intros E. injection E; auto.
        * intros l k' b' N1 N2. rewrite Key. apply Nat.eqb_neq in N1. rewrite N1. cbn [andb].
          apply Nat.eqb_neq in N1. apply J4; assumption.
        * cbn [s3 set_value set_margin log_call evaluated]. constructor; [|exact J5]. intros Hin.
          destruct (J6 _ _ _ Hin) as [Hl|[_ Hl]]; [lia|]. apply Hl.
          destruct T' as (_ & _ & _ & A4 & _). rewrite (proj1 (A4 _ _ _)). exact Ec.
        * cbn [s3 set_value set_margin log_call evaluated]. intros l k' b' [E|Hin].
          -- injection E; intros; subst l k' b'. right. split; [reflexivity|]. rewrite Key, !Nat.eqb_refl, eqb_reflx.
             discriminate.
          -- destruct (J6 _ _ _ Hin) as [Hl|[Hl Hn]]; [auto|]. right. split; [exact Hl|]. rewrite Key.
             destruct (_ && _); [discriminate | exact Hn].
      + intros k' b' w' E. rewrite Key. destruct (_ && _) eqn:Ek.
        * apply same_key in Ek. destruct Ek as (_ & -> & ->). congruence.
        * destruct T' as (_ & _ & _ & A4 & _). rewrite (proj1 (A4 _ _ _)). exact E.
      + rewrite Key, !Nat.eqb_refl, eqb_reflx. reflexivity.
  Qed.

  (** Reading the columns of an edge [e] above the tree [t]. *)
  Lemma X_good : forall c t below u k s, good c t below s ->
    fst (edge_at u k) < length t -> snd (edge_at u k) < length t ->
    match shared_node_is_left (edge_at t (fst (edge_at u k))) (edge_at t (snd (edge_at u k))) with
    | Some _ =>
        exists s', edge_X V C hu hv nan depth c u (t :: below) k s = (Some (edge_pair hu hv c x u (t :: below) k), s')
          /\ good c t below s' /\ keeps below s s' /\ avail c u (t :: below) s' k
    | None => edge_X V C hu hv nan depth c u (t :: below) k s = (None, s)
    end.
  Proof.
    intros c t below u k s G Ha Hb. cbn [edge_X edge_pair avail].
    destruct (shared_node_is_left _ _) as [[l1 l2]|]; [|reflexivity].
    destruct (read_good c t below _ (negb l1) s G Ha) as (s1 & R1 & G1 & K1 & E1).
    destruct (read_good c t below _ (negb l2) s1 G1 Hb) as (s2 & R2 & G2 & K2 & E2).
    exists s2. split; [unfold bind; rewrite R1, R2; reflexivity|]. split; [exact G2|].
    split; [intros k' b' w H; apply K2, K1, H|]. split; [apply K2; exact E1 | exact E2].
  Qed.

  Lemma keeps_avail : forall c t below u k s s', keeps below s s' -> avail c u (t :: below) s k ->
    avail c u (t :: below) s' k.
  Proof.
    intros c t below u k s s' K H. cbn [avail] in *. destruct (shared_node_is_left _ _) as [[l1 l2]|]; [|exact H].
    split; apply K, H.
  Qed.

  Lemma candidates_good : forall c t below (cand : list edge) s, good c t below s ->
    (forall p, In p cand -> fst p < length t /\ snd p < length t) ->
    if forallb (ordered (t :: below)) cand then
      exists s', candidate_pairs V C hu hv nan depth c (t :: below) cand s
          = (Some (map (fun p => edge_pair hu hv c x [p] (t :: below) 0) cand), s')
        /\ good c t below s'
    else exists s', candidate_pairs V C hu hv nan depth c (t :: below) cand s = (None, s').
  Proof.
    intros c t below. induction cand as [|p cand IH]; intros s G Hc; cbn [forallb candidate_pairs map].
    - exists s. split; [reflexivity | exact G].
    - destruct (Hc p (or_introl eq_refl)) as [Ha Hb].
      assert (X := X_good c t below [p] 0 s G Ha Hb).
      assert (E : ordered (t :: below) p = match shared_node_is_left (edge_at t (fst p)) (edge_at t (snd p)) with
                                           | Some _ => true | None => false end) by reflexivity.
      rewrite E. clear E.
      change (edge_at [p] 0) with p in X.
      destruct (shared_node_is_left _ _) as [[l1 l2]|].
      + destruct X as (s1 & R1 & G1 & _). cbn [andb].
        assert (X := IH s1 G1 (fun q Hq => Hc q (or_intror Hq))).
        destruct (forallb (ordered (t :: below)) cand).
        * destruct X as (s2 & R2 & G2). exists s2. split; [|exact G2].
          unfold bind at 1. rewrite R1. unfold bind at 1. rewrite R2. reflexivity.
        * destruct X as (s2 & R2). exists s2. unfold bind at 1. rewrite R1. unfold bind at 1. rewrite R2. reflexivity.
      + cbn [andb]. exists s. unfold bind at 1. rewrite X. reflexivity.
  Qed.

  Lemma tree_good : forall c t below u ks s, good c t below s ->
    (forall k, In k ks -> fst (edge_at u k) < length t /\ snd (edge_at u k) < length t
       /\ shared_node_is_left (edge_at t (fst (edge_at u k))) (edge_at t (snd (edge_at u k))) <> None) ->
    exists s', tree_pairs V C hu hv nan depth c u (t :: below) ks s
        = (Some (map (edge_pair hu hv c x u (t :: below)) ks), s')
      /\ good c t below s' /\ keeps below s s' /\ forall k, In k ks -> avail c u (t :: below) s' k.
  Proof.
    intros c t below u. induction ks as [|k ks IH]; intros s G Hk; cbn [tree_pairs map].
    - exists s. split; [reflexivity|]. split; [exact G|]. split; [intros k b w H; exact H | intros k []].
    - destruct (Hk k (or_introl eq_refl)) as (Ha & Hb & Hs). assert (X := X_good c t below u k s G Ha Hb).
      destruct (shared_node_is_left _ _) as [[l1 l2]|]; [|congruence].
      destruct X as (s1 & R1 & G1 & K1 & A1).
      destruct (IH s1 G1 (fun q Hq => Hk q (or_intror Hq))) as (s2 & R2 & G2 & K2 & A2).
      exists s2. unfold bind at 1. rewrite R1. unfold bind at 1. rewrite R2. split; [reflexivity|].
      split; [exact G2|]. split; [intros k' b' w H; apply K2, K1, H|].
      intros q [<-|Hq]; [eapply keeps_avail; eauto | auto].
  Qed.

  (** The first tree reads the variables. *)
  Definition fresh (n : nat) (s : vine_state V) : Prop :=
    counting V s = false /\ (forall r, r < n -> pseudo_values V s r = Some (x r))
    /\ (forall l k b, M s l k b = blankm) /\ evaluated V s = [].

  Lemma fresh_X : forall n c u k s, fresh n s -> fst (edge_at u k) < n -> snd (edge_at u k) < n ->
    edge_X V C hu hv nan depth c u [] k s = (Some (edge_pair hu hv c x u [] k), s).
  Proof.
    intros n c u k s (_ & H & _) Ha Hb. cbn [edge_X edge_pair]. unfold bind, read_pseudo.
    rewrite !H by assumption. reflexivity.
  Qed.
  Lemma fresh_candidates : forall n c s (cand : list edge), fresh n s -> (forall p, In p cand -> fst p < n /\ snd p < n) ->
    candidate_pairs V C hu hv nan depth c [] cand s
    = (Some (map (fun p => edge_pair hu hv c x [p] [] 0) cand), s).
  Proof.
    intros n c s cand F. induction cand as [|p cand IH]; intros Hc; cbn [candidate_pairs map]; [reflexivity|].
    destruct (Hc p (or_introl eq_refl)) as [Ha Hb]. unfold bind at 1.
    rewrite (fresh_X n c [p] 0 s F Ha Hb). unfold bind at 1. rewrite IH by (intros q Hq; apply Hc; right; exact Hq).
    reflexivity.
  Qed.
  Lemma fresh_tree : forall n c s u ks, fresh n s ->
    (forall k, In k ks -> fst (edge_at u k) < n /\ snd (edge_at u k) < n) ->
    tree_pairs V C hu hv nan depth c u [] ks s = (Some (map (edge_pair hu hv c x u []) ks), s).
  Proof.
    intros n c s u ks F. induction ks as [|k ks IH]; intros Hk; cbn [tree_pairs map]; [reflexivity|].
    destruct (Hk k (or_introl eq_refl)) as [Ha Hb]. unfold bind at 1.
    rewrite (fresh_X n c u k s F Ha Hb). unfold bind at 1. rewrite IH by (intros q Hq; apply Hk; right; exact Hq).
    reflexivity.
  Qed.

  (** Copulas of higher trees are not used. *)
  Lemma mv_ext : forall below c c' t k b, (forall l k, l <= length below -> c l k = c' l k) ->
    mv c t below k b = mv c' t below k b.
  Proof.
    induction below as [|t' below IH]; intros c c' t k b H; cbn [model_value].
    - rewrite (H (length (@nil tree)) k (Nat.le_refl _)). reflexivity.
    - destruct (shared_node_is_left _ _) as [[l1 l2]|]; [|reflexivity].
      rewrite (H (length (t' :: below)) k (Nat.le_refl _)).
      rewrite (IH c c'), (IH c c'); [reflexivity | |]; intros l j Hl; apply H; cbn [length]; lia.
  Qed.
  Lemma pair_ext : forall c c' t below k, (forall l k, l < length below -> c l k = c' l k) ->
    edge_pair hu hv c x t below k = edge_pair hu hv c' x t below k.
  Proof.
    intros c c' t [|t' below] k H; cbn [edge_pair]; [reflexivity|].
    destruct (shared_node_is_left _ _) as [[l1 l2]|]; [|reflexivity].
    f_equal; apply mv_ext; intros l j Hl; apply H; cbn [length]; lia.
  Qed.
  Lemma avail_ext : forall c c' t below s k, (forall l k, l < length below -> c l k = c' l k) ->
    avail c t below s k -> avail c' t below s k.
  Proof.
    intros c c' t [|t' below] s k H A; cbn [avail] in *; [exact A|].
    destruct (shared_node_is_left _ _) as [[l1 l2]|]; [|exact A].
    rewrite <- !(mv_ext below c c'); [exact A | |]; intros l j Hl; apply H; cbn [length]; lia.
  Qed.

  (** The start of a round of the loop. *)
  Definition ready (n : nat) (c : nat -> nat -> C) (below : list tree) (s : vine_state V) : Prop :=
    match below with
    | [] => fresh n s
    | t :: below' => good c t below' (blank_level V (length below') s) /\ length t = n - length below
    end.

  Variable c0 : nat -> nat -> C.
  Notation sel := (selected hu hv select x c0).
  Notation D := (edge_dependence hu hv select x c0 dep).

  Lemma candidate_range : forall n below p, In p (candidates n below) -> fst p < n /\ snd p < n.
  Proof.
    intros n below p H. apply filter_In in H. destruct H as [H _]. unfold pairs in H.
    apply in_flat_map in H. destruct H as (i & Hi & H). apply in_map_iff in H. destruct H as (j & <- & Hj).
    apply in_seq in Hi, Hj. cbn [fst snd]. lia.
  Qed.

  Lemma entry_found : forall (f : edge -> R) cand p, In p cand -> entry_of cand (map f cand) p = f p.
  Proof.
    intros f cand p H. unfold entry_of.
    assert (G : forall l, incl l cand -> In p l ->
      find (fun q => (fst (fst q) =? fst p) && (snd (fst q) =? snd p)) (combine l (map f l)) = Some (p, f p)).
    { induction l as [|q l IH]; intros Hi Hp; [destruct Hp|]. cbn [map combine find fst snd].
      destruct ((fst q =? fst p) && (snd q =? snd p)) eqn:E.
      - apply andb_true_iff in E. destruct E as [E1 E2]. apply Nat.eqb_eq in E1, E2.
        destruct q, p; cbn in E1, E2; subst. reflexivity.
      - destruct Hp as [->|Hp]; [rewrite !Nat.eqb_refl in E; discriminate|].
        apply IH; [intros r Hr; apply Hi; right; exact Hr | exact Hp]. }
    rewrite G by (auto using incl_refl). reflexivity.
  Qed.

  Lemma weights_found : forall below (f : edge -> R) cand,
    map (fun p => (p, edge_weight root below (entry_of cand (map f cand)) cand p)) cand
    = map (fun p => (p, edge_weight root below f cand p)) cand.
  Proof.
    intros below f cand. apply map_ext_in. intros p Hp. f_equal. unfold edge_weight.
    assert (E : forall q, In q cand -> base_weight (entry_of cand (map f cand)) q = base_weight f q)
      by (intros q Hq; unfold base_weight; rewrite entry_found by exact Hq; reflexivity).
    rewrite (map_ext_in _ _ _ E), (E p Hp). reflexivity.
  Qed.

  Lemma sel_set : forall t below,
    set_copulas C (sel below) (length below)
      (map select (map (edge_pair hu hv (sel below) x t below) (seq 0 (length t))))
    = sel (t :: below).
  Proof.
    intros t below. apply functional_extensionality; intros l. apply functional_extensionality; intros k.
    unfold set_copulas. cbn [selected]. destruct (Nat.eqb_spec l (length below)) as [->|]; [|reflexivity].
    cbn [andb]. destruct (Nat.ltb_spec k (length t)) as [Hk|Hk].
    - rewrite map_map. rewrite nth_indep with (d' := select (edge_pair hu hv (sel below) x t below 0))
        by (rewrite map_length, seq_length; exact Hk).
      rewrite (map_nth (fun k => select (edge_pair hu hv (sel below) x t below k))), seq_nth by exact Hk. reflexivity.
    - apply nth_overflow. rewrite !map_length, seq_length. exact Hk.
  Qed.

  Lemma sel_lower : forall t below l k, l < length below -> sel below l k = sel (t :: below) l k.
  Proof.
    intros t below l k H. cbn [selected]. destruct (Nat.eqb_spec l (length below)); [lia|reflexivity].
  Qed.

  Lemma edge_in : forall (t : tree) k, k < length t -> In (edge_at t k) t.
  Proof. intros t k H. apply nth_In. exact H. Qed.

  Lemma rounds : forall n d below s, ready n (sel below) below s ->
    match grow mst root D n d below with
    | Some ts => exists s', fit_loop V C hu hv nan dep select mst root depth n d below (sel below) s
                            = (Some (ts, sel ts), s') /\ ready n (sel ts) ts s' /\ length ts = length below + d
    | None => exists s', fit_loop V C hu hv nan dep select mst root depth n d below (sel below) s = (None, s')
    end.
  Proof.
    intros n. induction d as [|d IH]; intros below s Hr.
    { exists s. split; [reflexivity|]. split; [exact Hr | cbn [length]; lia]. }
    cbn [grow]. set (cand := candidates (n - length below) below). unfold set_edges. fold cand.
    assert (Hrange : forall p, In p cand -> fst p < n - length below /\ snd p < n - length below)
      by (intros p; apply candidate_range).
    assert (W : map (fun p => (p, edge_weight root below (entry_of cand (map dep
                  (map (fun p => edge_pair hu hv (sel below) x [p] below 0) cand))) cand p)) cand
                = map (fun p => (p, edge_weight root below (D below) cand p)) cand)
      by (rewrite map_map; apply (weights_found below (D below))).
    set (w := map (fun p => (p, edge_weight root below (D below) cand p)) cand) in *.
    set (u := mst (n - length below) w) in *.
    assert (Hu : incl u cand).
    { intros p Hp. apply Hmst in Hp. unfold w in Hp. rewrite map_map in Hp. cbn [fst] in Hp.
      rewrite map_id in Hp. exact Hp. }
    destruct below as [|t below].
    - assert (Hrange' : forall p, In p cand -> fst p < n /\ snd p < n)
        by (intros p Hp; destruct (Hrange p Hp); cbn [length] in *; lia).
      assert (Ho : forallb (ordered []) cand = true) by (apply forallb_forall; reflexivity). rewrite Ho. fold w u.
      cbn [ready] in Hr.
      assert (R : forall k, In k (seq 0 (length u)) -> fst (edge_at u k) < n /\ snd (edge_at u k) < n).
      { intros k Hk. apply in_seq in Hk. apply Hrange', Hu, edge_in. lia. }
      assert (Ht := fresh_tree n (sel []) s u (seq 0 (length u)) Hr R).
      assert (Step : fit_loop V C hu hv nan dep select mst root depth n (S d) [] (sel []) s
        = if length u =? n - length (@nil tree) - 1
          then fit_loop V C hu hv nan dep select mst root depth n d [u] (sel [u]) s else (None, s)).
      { cbn [fit_loop]. fold cand. unfold bind at 1, modify at 1. unfold bind at 1.
        rewrite (fresh_candidates n _ s cand Hr Hrange'). rewrite W. fold u.
        destruct (length u =? n - length (@nil tree) - 1); [|reflexivity].
        unfold bind at 1. rewrite Ht. rewrite sel_set. reflexivity. }
      rewrite Step. destruct (length u =? n - length (@nil tree) - 1) eqn:El; [|exists s; reflexivity].
      assert (N : ready n (sel [u]) [u] s).
      { destruct Hr as (F1 & F2 & F3 & F4). cbn [ready length]. split; [|apply Nat.eqb_eq in El; cbn [length] in El; lia].
        assert (B : forall l k b, M (blank_level V 0 s) l k b = blankm)
          by (intros l k b; cbn [blank_level margins]; destruct (l =? 0); auto).
        split; [split; [exact F1 | intros l k b; rewrite B; reflexivity]|].
        split; [intros k Hk; cbn [avail blank_level pseudo_values]; assert (Rk := R k ltac:(apply in_seq; lia));
                split; apply F2, Rk|].
        split; [intros k b v; rewrite B; discriminate|]. split; [intros l k b _ _; apply B|].
        cbn [blank_level evaluated]. rewrite F4. split; [constructor|]. split; [intros l k b [] | intros N; exfalso; apply N; reflexivity]. }
      assert (X := IH [u] s N).
      match goal with |- match ?g1 with _ => _ end =>
        match type of X with match ?g2 with _ => _ end => change g2 with g1 in X; destruct g1 as [ts|] end
      end; [|exact X].
      destruct X as (s' & X1 & X2 & X3). exists s'. split; [exact X1|]. split; [exact X2|].
      rewrite X3. cbn [length]. lia.
    - cbn [ready] in Hr. destruct Hr as [G Hlen].
      set (s1 := blank_level V (length below) s) in *.
      rewrite <- Hlen in Hrange.
      assert (Hc := candidates_good (sel (t :: below)) t below cand s1 G Hrange).
      destruct (forallb (ordered (t :: below)) cand) eqn:Ho.
      2:{ destruct Hc as (s2 & Hc). exists s2. cbn [fit_loop]. fold cand. unfold bind at 1, modify at 1.
          cbn [length]. fold s1. unfold bind at 1. rewrite Hc. reflexivity. }
      destruct Hc as (s2 & Hc & G2). fold w u.
      assert (R : forall k, In k (seq 0 (length u)) -> fst (edge_at u k) < length t /\ snd (edge_at u k) < length t
        /\ shared_node_is_left (edge_at t (fst (edge_at u k))) (edge_at t (snd (edge_at u k))) <> None).
      { intros k Hk. apply in_seq in Hk. assert (Hi : In (edge_at u k) cand) by (apply Hu, edge_in; lia).
        destruct (Hrange _ Hi) as [Ha Hb]. split; [exact Ha|]. split; [exact Hb|].
        rewrite forallb_forall in Ho. specialize (Ho _ Hi). cbn [ordered] in Ho.
        destruct (shared_node_is_left _ _); [discriminate | discriminate Ho]. }
      destruct (tree_good (sel (t :: below)) t below u (seq 0 (length u)) s2 G2 R) as (s3 & Ht & G3 & _ & A3).
      set (s4 := clear_tree V (length below) s3).
      assert (Step : fit_loop V C hu hv nan dep select mst root depth n (S d) (t :: below) (sel (t :: below)) s
        = if length u =? n - length (t :: below) - 1
          then fit_loop V C hu hv nan dep select mst root depth n d (u :: t :: below) (sel (u :: t :: below)) s4
          else (None, s2)).
      { cbn [fit_loop]. fold cand. unfold bind at 1, modify at 1. cbn [length]. fold s1. unfold bind at 1.
        rewrite Hc, W. fold u. change (S (length below)) with (length (t :: below)). fold u.
        destruct (length u =? n - length (t :: below) - 1); [|reflexivity].
        unfold bind at 1. rewrite Ht. rewrite sel_set. reflexivity. }
      rewrite Step. destruct (length u =? n - length (t :: below) - 1) eqn:El; [|exists s2; reflexivity].
      assert (N : ready n (sel (u :: t :: below)) (u :: t :: below) s4).
      { destruct G3 as (H1 & H2 & H3 & H4 & H5 & H6 & H7).
        cbn [ready length]. split; [|apply Nat.eqb_eq in El; cbn [length] in El; lia].
        assert (P : evaluated V s4 = evaluated V s3 /\ counting V s4 = counting V s3)
          by (unfold s4; destruct (length below); auto).
        assert (B : forall l k b, l <> length below -> M s4 l k b = blankm).
        { intros l k b Hl. unfold s4. destruct (length below) as [|m] eqn:Em; cbn [clear_tree blank_level margins].
          - apply H4; lia.
          - destruct (Nat.eqb_spec l m); [reflexivity | apply H4; lia]. }
        assert (K : forall k b, M s4 (length below) k b = M s3 (length below) k b).
        { intros k b. unfold s4. destruct (length below) as [|m]; cbn [clear_tree blank_level margins]; [reflexivity|].
          destruct (Nat.eqb_spec (S m) m); [lia | reflexivity]. }
        assert (Q : forall l k b, M (blank_level V (S (length below)) s4) l k b
                      = if l =? length below then M s3 l k b else blankm).
        { intros l k b. cbn [blank_level margins]. destruct (Nat.eqb_spec l (S (length below))).
          - destruct (Nat.eqb_spec l (length below)); [lia | reflexivity].
          - destruct (Nat.eqb_spec l (length below)) as [->|]; [apply K | apply B; assumption]. }
        split; [split; [cbn [blank_level counting]; rewrite (proj2 P); apply H1|]|].
        { intros l k b. rewrite Q. destruct (l =? length below); [apply H1 | reflexivity]. }
        split; [intros k Hk; apply (avail_ext (sel (t :: below))); [intros; apply sel_lower; assumption|]|].
        { specialize (A3 k ltac:(apply in_seq; lia)). cbn [avail] in A3 |- *.
          destruct (shared_node_is_left _ _) as [[l1 l2]|]; [|exact A3]. rewrite !Q, Nat.eqb_refl. exact A3. }
        split; [intros k b v; rewrite Q; cbn [length]; destruct (Nat.eqb_spec (S (length below)) (length below));
                [lia | discriminate]|].
        cbn [length]. split; [intros l k b N1 N2; rewrite Q; destruct (Nat.eqb_spec l (length below)); [lia|reflexivity]|].
        cbn [blank_level evaluated pseudo_values]. rewrite (proj1 P). split; [exact H5|]. split.
        - intros l k b Hi. left. destruct (H6 _ _ _ Hi) as [|[-> _]]; lia.
        - intros _ r. unfold s4. destruct below as [|t1 b1]; cbn [length clear_tree]; [reflexivity|].
          cbn [blank_level pseudo_values]. apply H7. discriminate. }
      assert (X := IH (u :: t :: below) s4 N).
      match goal with |- match ?g1 with _ => _ end =>
        match type of X with match ?g2 with _ => _ end => change g2 with g1 in X; destruct g1 as [ts|] end
      end; [|exact X].
      destruct X as (s' & X1 & X2 & X3). exists s'. split; [exact X1|]. split; [exact X2|].
      rewrite X3. cbn [length]. lia.
  Qed.
End Fit.

(** * Theorem *)

(** Fitting with the caches gives the trees and the copulas of the fit in which
    every margin is computed from the data, or fails as it does; every partial
    derivative is evaluated at most once; and the fitted vine holds no value. *)
Theorem C93_fit : forall V C (hu hv : C -> V -> V -> V) nan dep select mst root x c0 n max_depth,
  (forall n w, incl (mst n w) (map fst w)) ->
  let fitted := fit_vine V C hu hv nan dep select mst root c0 n max_depth x in
  match fit_trees mst root (edge_dependence hu hv select x c0 dep) n max_depth with
  | Fitted ts => exists s', fitted = (Fitted ts, selected hu hv select x c0 ts, s')
                            /\ blank s' /\ NoDup (evaluated V s')
  | failed => fst (fst fitted) = failed
  end.
Proof.
  intros V C hu hv nan dep select mst root x c0 n max_depth Hmst fitted. unfold fitted, fit_vine, fit_trees.
  set (start := fold_left _ _ _).
  assert (F : fresh V x n start).
  { destruct (set_all_pseudo V x (seq 0 n) (fitted_state V)) as (E1 & E2 & E3 & E4). fold start in E1, E2, E3, E4.
    split; [exact E1|]. split; [|split; [intros l k b; rewrite E2; reflexivity | exact E3]].
    intros r Hr. rewrite E4. destruct (in_dec _ _ _) as [|N]; [reflexivity|]. exfalso. apply N, in_seq. lia. }
  assert (L : forall d, 0 < d ->
    match match grow mst root (edge_dependence hu hv select x c0 dep) n d [] with
          | Some ts => Fitted ts | None => Failure end with
    | Fitted ts => exists s',
        match fit_loop V C hu hv nan dep select mst root d n d [] c0 start with
        | (Some (ts, copula), s) => (Fitted ts, copula, blank_level V (d - 1) (clear_tree V (d - 1) s))
        | (None, s) => (Failure, c0, s)
        end = (Fitted ts, selected hu hv select x c0 ts, s') /\ blank s' /\ NoDup (evaluated V s')
    | failed =>
        fst (fst match fit_loop V C hu hv nan dep select mst root d n d [] c0 start with
                 | (Some (ts, copula), s) => (Fitted ts, copula, blank_level V (d - 1) (clear_tree V (d - 1) s))
                 | (None, s) => (Failure, c0, s)
                 end) = failed
    end).
  { intros d Hd. assert (X := rounds V C hu hv nan dep select mst root Hmst x d c0 n d [] start F).
    cbn [selected] in X. destruct (grow _ _ _ n d []) as [ts|].
    - destruct X as (s & X1 & X2 & X3). rewrite X1. eexists. split; [reflexivity|].
      destruct ts as [|t below]; [cbn [length] in X3; lia|].
      cbn [length plus] in X3. replace (d - 1) with (length below) by lia.
      cbn [ready] in X2. destruct X2 as [((H1 & _) & _ & _ & H4 & H5 & _ & H7) _].
      split; [|destruct (length below); exact H5].
      assert (B : forall l k b, l <> length below -> S l <> length below -> margins V s l k b = blank_margin V).
      { intros l k b N1 N2. specialize (H4 l k b N1 N2). cbn [blank_level margins] in H4.
        apply Nat.eqb_neq in N1. rewrite N1 in H4. exact H4. }
      split; [destruct (length below); exact H1|]. split.
      + intros r. destruct below as [|t1 b1]; [reflexivity|]. cbn [length clear_tree blank_level pseudo_values].
        apply H7. discriminate.
      + intros l k b. cbn [blank_level margins]. destruct (Nat.eqb_spec l (length below)) as [|N]; [reflexivity|].
        destruct (length below) as [|m]; cbn [clear_tree blank_level margins]; [apply B; lia|].
        destruct (Nat.eqb_spec l m); [reflexivity | apply B; lia].
    - destruct X as (s & X). rewrite X. reflexivity. }
  destruct (Nat.leb_spec n 2) as [|Hn]; [reflexivity|].
  destruct max_depth as [d|].
  - destruct (Nat.leb_spec d 1) as [|Hd]; [reflexivity|]. apply L. lia.
  - apply L. lia.
Qed.
Print Assumptions C93_fit.

(** Three variables, candidates kept from the first node on: the trees 0-1, 0-2
    and 1,2|0, with copulas selected from the columns. *)
Example C93_fit_applies :
  let hu c x y := 100 * c + 10 * x + y in
  let hv c x y := 200 * c + 3 * x + 7 * y in
  let select p := fst p + 2 * snd p in
  let mst n (w : list (edge * R)) := firstn (n - 1) (map fst w) in
  (forall n w, incl (mst n w) (map fst w))
  /\ let f := fit_vine nat nat hu hv 0 (fun _ => 0%R) select mst (fun _ => false) (fun _ _ => 0) 3 None (fun r => r) in
     fst (fst f) = Fitted [[(0, 1)]; [(0, 1); (0, 2)]]
     /\ snd (fst f) 0 0 = 2 /\ snd (fst f) 0 1 = 4 /\ snd (fst f) 1 0 = 2035
     /\ evaluated nat (snd f) = [(0, 1, false); (0, 0, false)].
Proof.
  intros hu hv select mst. split.
  - intros n w p Hp. unfold mst in Hp. rewrite <- (firstn_skipn (n - 1) (map fst w)). apply in_or_app. left. exact Hp.
  - vm_compute. repeat split.
Qed.
