(** C70: the assets declared central are in the centre of the fitted vine. *)
Require Import List Arith Bool Lia Permutation Sorted Reals Lra.
From Verif Require Import VineModel VineGraph VineProps.
Import ListNotations.
Close Scope R_scope.
Open Scope nat_scope.

(** * Specification *)

Definition total (W : edge -> R) (F : list edge) : R := fold_right Rplus 0%R (map W F).

(** What [minimum_spanning_tree] is trusted for, besides being a spanning forest: no
    spanning forest made of the entries has a larger weight (the code negates the
    weights to turn the minimum into a maximum). *)
Definition maximum_forest_oracle (mst : nat -> list (edge * R) -> list edge) : Prop :=
  spanning_forest_oracle mst /\
  forall n (cand : list edge) (W : edge -> R),
    (forall a b, In (a, b) cand -> a < b < n /\ W (a, b) <> 0%R) -> row_major cand ->
    forall F, incl F cand -> acyclic F -> (forall x y, linked cand x y -> linked F x y) ->
    (total W F <= total W (mst n (map (fun p => (p, W p)) cand)))%R.

(** A node (the trees below it, its position) all of whose assets are central. *)
Definition all_central (root : nat -> bool) (below : list tree) (k : nat) : bool :=
  forallb root (vars below k).
(** The edges of a tree that join two such nodes. *)
Definition core (root : nat -> bool) (below : list tree) (t : tree) : list edge :=
  filter (fun e => all_central root below (fst e) && all_central root below (snd e)) t.

(** * Graphs *)

Lemma linked_sub : forall E F x y, (forall u v, In (u, v) E -> linked F u v) ->
  linked E x y -> linked F x y.
Proof.
  intros E F x y H. induction 1 as [x|x z y Hs Hl IH]; [constructor|].
  eapply linked_trans; [|exact IH]. destruct Hs as [Hs|Hs]; [auto | apply linked_sym; auto].
Qed.

Lemma acyclic_remove : forall E1 f E2, acyclic (E1 ++ f :: E2) -> acyclic (E1 ++ E2).
Proof.
  induction E1 as [|[a b] E1 IH]; intros [c d] E2 H.
  - cbn [app] in *. apply acyclic_cons in H. tauto.
  - cbn [app] in *. apply acyclic_cons in H as [H1 H2]. apply acyclic_cons.
    split; [|eapply IH; eauto]. intros Hl. apply H1. eapply linked_mono; [|exact Hl].
    intros e He. apply in_app_iff in He. apply in_app_iff. cbn. tauto.
Qed.

Lemma acyclic_filter : forall p E, acyclic E -> acyclic (filter p E).
Proof.
  intros p. induction E as [|[a b] E IH]; intros H; [exact H|]. apply acyclic_cons in H as [H1 H2].
  cbn [filter]. destruct (p (a, b)); [|auto]. apply acyclic_cons. split; [|auto].
  intros Hl. apply H1. eapply linked_mono; [|exact Hl]. intros e He. apply filter_In in He. tauto.
Qed.

(** In a forest, two nodes joined but not by the selected edges are separated by
    removing one of the others. *)
Lemma separating : forall p t a b, acyclic t -> linked t a b -> ~ linked (filter p t) a b ->
  exists E1 f E2, t = E1 ++ f :: E2 /\ p f = false /\ ~ linked (E1 ++ E2) a b.
Proof.
  intros p. induction t as [|[c d] t IH]; intros a b Ha Hl Hn.
  - exfalso. apply Hn. exact Hl.
  - apply acyclic_cons in Ha as [Hcd Ha].
    destruct (linked_dec t a b) as [L|L].
    + destruct (IH a b Ha L) as (E1 & f & E2 & -> & Hf & Hs).
      { intros Q. apply Hn. eapply linked_mono; [|exact Q]. intros e He. cbn [filter].
        destruct (p (c, d)); [right|]; auto. }
      exists ((c, d) :: E1), f, E2. split; [reflexivity|]. split; [exact Hf|].
      cbn [app]. rewrite linked_cons. intros [Q|Q]; [auto|].
      assert (I : incl (E1 ++ E2) (E1 ++ f :: E2))
        by (intros e He; apply in_app_iff in He; apply in_app_iff; cbn; tauto).
      apply Hcd. destruct Q as [[Q1 Q2]|[Q1 Q2]]; apply (linked_mono _ _ _ _ I) in Q1, Q2;
        eauto using linked_trans, linked_sym.
    + destruct (p (c, d)) eqn:Ep.
      * assert (K : exists u v, ((u = c /\ v = d) \/ (u = d /\ v = c)) /\ linked t a u /\ linked t v b).
        { apply linked_cons in Hl as [Hl|[[H1 H2]|[H1 H2]]]; [contradiction| |]; eauto 8. }
        destruct K as (u & v & Huv & H1 & H2). cbn [filter] in Hn. rewrite Ep in Hn.
        assert (Hsep : forall E, incl E t -> ~ (linked E a u /\ linked E v b) -> ~ linked ((c, d) :: E) a b).
        { intros E HE N. rewrite linked_cons. intros Q.
          assert (Q' : linked E a b \/ (linked E a u /\ linked E v b) \/ (linked E a v /\ linked E u b)).
          { destruct Huv as [[-> ->]|[-> ->]]; tauto. }
          destruct Q' as [Q'|[Q'|[Q1 Q2]]]; [apply L; eapply linked_mono; eauto | tauto |].
          apply L. apply (linked_mono _ _ _ _ HE) in Q1. apply (linked_mono _ _ _ _ HE) in Q2.
          eauto using linked_trans, linked_sym. }
        assert (K : ~ linked (filter p t) a u \/ ~ linked (filter p t) v b).
        { destruct (linked_dec (filter p t) a u) as [L1|L1]; [|auto].
          destruct (linked_dec (filter p t) v b) as [L2|L2]; [|auto].
          exfalso. apply Hn. apply linked_cons. destruct Huv as [[-> ->]|[-> ->]]; auto. }
        destruct K as [K|K]; [destruct (IH _ _ Ha H1 K) as (E1 & f & E2 & -> & Hf & Hs) | destruct (IH _ _ Ha H2 K) as (E1 & f & E2 & -> & Hf & Hs)];
          (exists ((c, d) :: E1), f, E2; split; [reflexivity|]; split; [exact Hf|];
           cbn [app]; apply Hsep; [intros e He; apply in_app_iff in He; apply in_app_iff; cbn; tauto | tauto]).
      * exists [], (c, d), t. auto.
Qed.

Lemma total_app : forall W E F, total W (E ++ F) = (total W E + total W F)%R.
Proof. intros W E F. unfold total. induction E as [|e E IH]; cbn; [lra|]. rewrite IH. lra. Qed.
Lemma total_cons : forall W e F, total W (e :: F) = (W e + total W F)%R.
Proof. reflexivity. Qed.

(** Two ends of an entry are joined in the tree by edges that weigh at least as much. *)
Lemma heavy_path : forall (W : edge -> R) cand t a b,
  incl t cand -> acyclic t -> (forall x y, linked cand x y -> linked t x y) ->
  (forall F, incl F cand -> acyclic F -> (forall x y, linked cand x y -> linked F x y) ->
     (total W F <= total W t)%R) ->
  In (a, b) cand ->
  linked (filter (fun f => if Rle_dec (W (a, b)) (W f) then true else false) t) a b.
Proof.
  intros W cand t a b Hi Ha Hc Hmax Hab.
  set (p := fun f => if Rle_dec (W (a, b)) (W f) then true else false).
  destruct (linked_dec (filter p t) a b) as [L|L]; [exact L|exfalso].
  assert (Hl : linked t a b) by (apply Hc, linked_edge; auto).
  destruct (separating p t a b Ha Hl L) as (E1 & [c d] & E2 & Et & Hf & Hs).
  assert (Hw : (W (c, d) < W (a, b))%R).
  { unfold p in Hf. destruct Rle_dec as [|N]; [discriminate|]. lra. }
  assert (Hsub : incl (E1 ++ E2) t)
    by (rewrite Et; intros e He; apply in_app_iff in He; apply in_app_iff; cbn; tauto).
  assert (Hmx := Hmax ((a, b) :: E1 ++ E2)).
  assert (T : (total W ((a, b) :: E1 ++ E2) <= total W t)%R).
  { apply Hmx.
    - intros e [<-|He]; auto.
    - apply acyclic_cons. split; [exact Hs|]. rewrite Et in Ha. eapply acyclic_remove; eauto.
    - intros x y Hxy. apply Hc in Hxy. eapply linked_sub; [|exact Hxy].
      assert (Q : linked (E1 ++ E2) a c /\ linked (E1 ++ E2) d b \/ linked (E1 ++ E2) a d /\ linked (E1 ++ E2) c b).
      { assert (Hl' : linked ((c, d) :: E1 ++ E2) a b).
        { eapply linked_mono; [|exact Hl]. rewrite Et. intros e He. apply in_app_iff in He.
          cbn in *. rewrite in_app_iff. tauto. }
        apply linked_cons in Hl' as [Hl'|Hl']; [contradiction|exact Hl']. }
      assert (M : forall x y, linked (E1 ++ E2) x y -> linked ((a, b) :: E1 ++ E2) x y)
        by (intros x' y'; apply linked_mono; intros e He; right; auto).
      assert (Lab : linked ((a, b) :: E1 ++ E2) a b) by (apply linked_edge; left; auto).
      intros u v Huv. rewrite Et in Huv. apply in_app_iff in Huv as [Huv|[Huv|Huv]].
      + apply linked_edge. right. apply in_app_iff. auto.
      + injection Huv as -> ->. destruct Q as [[Q1 Q2]|[Q1 Q2]]; apply M in Q1, Q2;
          eauto using linked_trans, linked_sym.
      + apply linked_edge. right. apply in_app_iff. auto. }
  rewrite Et, total_cons, !total_app, total_cons in T. lra.
Qed.

Lemma linked_first' : forall E x y, linked E x y -> x <> y -> exists z, In (x, z) E \/ In (z, x) E.
Proof. intros E x y [z | z w z' H _]; [congruence | eauto]. Qed.

(** * Centrality *)

Lemma central_spec : forall root below k, central root below k = all_central root below k.
Proof.
  intros root. induction below as [|t below IH]; intros k; cbn [central].
  - unfold all_central. cbn [vars forallb]. rewrite andb_true_r. reflexivity.
  - rewrite !IH. unfold all_central.
    destruct (forallb root (vars (t :: below) k)) eqn:E.
    + rewrite forallb_forall in E. apply andb_true_iff. split; apply forallb_forall; intros x Hx;
        apply E, vars_cons; auto.
    + apply andb_false_iff.
      destruct (forallb root (vars below (fst (edge_at t k)))) eqn:E1; [right|auto].
      destruct (forallb root (vars below (snd (edge_at t k)))) eqn:E2; [|auto].
      rewrite <- E. symmetry. apply forallb_forall. intros x Hx. rewrite forallb_forall in E1, E2.
      apply vars_cons in Hx as [Hx|Hx]; auto.
Qed.

Lemma rmax_list_ge : forall l x, In x l -> (x <= rmax_list l)%R.
Proof.
  induction l as [|y l IH]; intros x []; cbn; [subst; apply Rmax_l|].
  eapply Rle_trans; [apply IH; auto | apply Rmax_r].
Qed.

Lemma weight_strong : forall root below dep cand p q, (forall e, (0 <= dep e)%R) ->
  In p cand -> In q cand -> strongly_central root below p = true ->
  (edge_weight root below dep cand p <= edge_weight root below dep cand q)%R ->
  strongly_central root below q = true.
Proof.
  intros root below dep cand p q Hd Hp Hq Sp Hw. unfold edge_weight in Hw.
  assert (Wp : weakly_central root below p = true).
  { unfold weakly_central, strongly_central in *. apply andb_true_iff in Sp as [-> _]. reflexivity. }
  assert (Ex : existsb (weakly_central root below) cand = true) by (apply existsb_exists; eauto).
  rewrite Ex, Wp, Sp in Hw. assert (Bp : (0 < base_weight dep p)%R) by (unfold base_weight; specialize (Hd p); lra).
  assert (M := rmax_list_nonneg (map (base_weight dep) cand)).
  assert (Bq : (base_weight dep q <= rmax_list (map (base_weight dep) cand))%R) by (apply rmax_list_ge, in_map; auto).
  destruct (strongly_central root below q); [reflexivity|exfalso].
  destruct (weakly_central root below q); lra.
Qed.
Lemma weight_weak : forall root below dep cand p q, (forall e, (0 <= dep e)%R) ->
  In p cand -> In q cand -> weakly_central root below p = true ->
  (edge_weight root below dep cand p <= edge_weight root below dep cand q)%R ->
  weakly_central root below q = true.
Proof.
  intros root below dep cand p q Hd Hp Hq Wp Hw. unfold edge_weight in Hw.
  assert (Ex : existsb (weakly_central root below) cand = true) by (apply existsb_exists; eauto).
  rewrite Ex, Wp in Hw. assert (Bp : (0 < base_weight dep p)%R) by (unfold base_weight; specialize (Hd p); lra).
  assert (M := rmax_list_nonneg (map (base_weight dep) cand)).
  assert (Bq : (base_weight dep q <= rmax_list (map (base_weight dep) cand))%R) by (apply rmax_list_ge, in_map; auto).
  destruct (weakly_central root below q); [reflexivity|exfalso].
  destruct (strongly_central root below p); lra.
Qed.

(** * The fitted trees *)

Lemma grow_suffix : forall mst root dependence n depth below ts,
  grow mst root dependence n depth below = Some ts ->
  forall above t b, ts = above ++ t :: b -> length below <= length b ->
  set_edges mst root dependence (n - length b) b = Some t.
Proof.
  intros mst root dependence n. induction depth as [|d IH]; intros below ts H above t b Hts Hl.
  - cbn [grow] in H. injection H as ->. rewrite Hts, app_length in Hl. cbn [length] in Hl. lia.
  - cbn [grow] in H. destruct (set_edges mst root dependence (n - length below) below) as [u|] eqn:Eu; [|discriminate].
    destruct (length u =? n - length below - 1); [|discriminate].
    destruct (Nat.eq_dec (length below) (length b)) as [E|E].
    + assert (G : exists a, ts = a ++ u :: below).
      { clear - H. revert u below H. induction d as [|d IH]; intros u below H; cbn [grow] in H.
        - injection H as <-. exists []. reflexivity.
        - destruct (set_edges mst root dependence (n - length (u :: below)) (u :: below)) as [w|]; [|discriminate].
          destruct (length w =? _); [|discriminate]. apply IH in H as (a & ->).
          exists (a ++ [w]). rewrite <- app_assoc. reflexivity. }
      destruct G as (a & G). rewrite Hts in G.
      assert (Q : t :: b = u :: below).
      { assert (length above = length a).
        { apply (f_equal (@length tree)) in G. rewrite !app_length in G. cbn [length] in G. lia. }
        clear - G H0. revert a G H0. induction above as [|x above IH]; intros [|y a] G H; try discriminate; [exact G|].
        cbn [app length] in *. injection G as _ G. injection H as H. eauto. }
      injection Q as -> ->. exact Eu.
    + eapply IH; eauto. cbn [length]. lia.
Qed.

Section Tree.
  Variable mst : nat -> list (edge * R) -> list edge.
  Hypothesis Ho : maximum_forest_oracle mst.
  Variable root : nat -> bool.
  Variable dependence : list tree -> edge -> R.
  Hypothesis Hd : forall b e, (0 <= dependence b e)%R.
  Variable n : nat.
  Variable below : list tree.
  Variable t : tree.
  Hypothesis Hset : set_edges mst root dependence (n - length below) below = Some t.
  Notation cand := (candidates (n - length below) below).

  Lemma tree_heavy : forall a b, In (a, b) cand ->
    linked (filter (fun f => if Rle_dec (edge_weight root below (dependence below) cand (a, b))
                                        (edge_weight root below (dependence below) cand f) then true else false) t) a b
    /\ incl t cand.
  Proof.
    intros a b Hab. unfold set_edges in Hset. destruct (forallb _ _); [|discriminate].
    injection Hset as Et. set (W := edge_weight root below (dependence below) cand) in *.
    destruct Ho as [Hf Hmax].
    assert (Hcond : forall a b, In (a, b) cand -> a < b < n - length below /\ W (a, b) <> 0%R).
    { intros x y Hxy. split; [apply in_candidates in Hxy; tauto|].
      apply Rgt_not_eq, weight_pos; auto. }
    assert (Hw : map (@fst edge R) (map (fun p => (p, W p)) cand) = cand) by (rewrite map_map; apply map_id).
    assert (Hf' := Hf (n - length below) (map (fun p => (p, W p)) cand)). rewrite Hw in Hf'.
    destruct Hf' as (F1 & F2 & F3 & _).
    { intros x y z Hin. apply in_map_iff in Hin as ([x' y'] & E & Hin). injection E as <- <- <-. auto. }
    { apply candidates_row_major. }
    rewrite Et in F1, F2, F3. split; [|exact F1]. apply (heavy_path W cand t a b); auto.
    intros F. rewrite <- Et. apply Hmax; auto. apply candidates_row_major.
  Qed.

  Lemma strong_path : forall a b, In (a, b) cand ->
    all_central root below a = true -> all_central root below b = true ->
    linked (core root below t) a b.
  Proof.
    intros a b Hab Ca Cb. destruct (tree_heavy a b Hab) as [H Hi].
    eapply linked_mono; [|exact H]. intros [c d] Hcd. apply filter_In in Hcd as [Hcd Hw].
    destruct Rle_dec as [L|]; [|discriminate].
    unfold core. apply filter_In. split; [exact Hcd|].
    rewrite <- !central_spec. apply (weight_strong root below (dependence below) cand (a, b) (c, d)); auto.
    unfold strongly_central. cbn [fst snd]. rewrite !central_spec, Ca, Cb. reflexivity.
  Qed.

  Lemma weak_edge : forall a b, In (a, b) cand \/ In (b, a) cand ->
    all_central root below a = true -> all_central root below b = false ->
    exists c, all_central root below c = true /\ (In (b, c) t \/ In (c, b) t).
  Proof.
    intros a b Hab Ca Cb.
    assert (K : linked (filter (weakly_central root below) t) b a).
    { destruct Hab as [Hab|Hab]; destruct (tree_heavy _ _ Hab) as [H Hi]; [apply linked_sym|];
        (eapply linked_mono; [|exact H]; intros [c d] Hcd; apply filter_In in Hcd as [Hcd Hw];
         destruct Rle_dec as [L|]; [|discriminate]; apply filter_In; split; [exact Hcd|];
         eapply weight_weak; [| exact Hab | | | exact L]; auto;
         unfold weakly_central; cbn [fst snd]; rewrite !central_spec, Ca; auto using orb_true_r). }
    inversion K as [x E1 E2 | x c z Hs Hl E1 E2]; [subst; congruence|]. subst x z.
    assert (Q : (In (b, c) t \/ In (c, b) t) /\ weakly_central root below (b, c) = true).
    { destruct Hs as [Hs|Hs]; apply filter_In in Hs as [Hs Hw]; split; auto.
      unfold weakly_central in *. cbn [fst snd] in *. rewrite orb_comm. exact Hw. }
    destruct Q as [Q1 Q2]. exists c. split; [|exact Q1].
    unfold weakly_central in Q2. cbn [fst snd] in Q2. rewrite !central_spec, Cb in Q2. exact Q2.
  Qed.
End Tree.

Section Levels.
  Variable mst : nat -> list (edge * R) -> list edge.
  Hypothesis Ho : maximum_forest_oracle mst.
  Variable root : nat -> bool.
  Variable dependence : list tree -> edge -> R.
  Hypothesis Hd : forall b e, (0 <= dependence b e)%R.
  Variable n : nat.

  Definition built (ts : list tree) : Prop :=
    forall above t b, ts = above ++ t :: b -> set_edges mst root dependence (n - length b) b = Some t.
  Lemma built_tail : forall t b, built (t :: b) -> built b.
  Proof. intros t b H above u c E. apply (H (t :: above) u c). rewrite E. reflexivity. Qed.

  (** Two central nodes are joined by central nodes. *)
  Lemma core_connected : forall below t, regular n (t :: below) -> built (t :: below) ->
    forall i j, i < n - length below -> j < n - length below ->
    all_central root below i = true -> all_central root below j = true ->
    linked (core root below t) i j.
  Proof.
    induction below as [|t' below IH]; intros t Hr Hb i j Hi Hj Ci Cj.
    - assert (Hs := Hb [] t [] eq_refl). destruct (lt_eq_lt_dec i j) as [[L|E]|L].
      + apply (strong_path mst Ho root dependence Hd n [] t Hs); auto. apply in_candidates.
        cbn [length] in *. split; [lia|reflexivity].
      + subst; constructor.
      + apply linked_sym. apply (strong_path mst Ho root dependence Hd n [] t Hs); auto. apply in_candidates.
        cbn [length] in *. split; [lia|reflexivity].
    - assert (Hr' := Hr). destruct Hr' as (R1 & R2 & R3 & R4). assert (Hs := Hb [] t (t' :: below) eq_refl).
      assert (Hst := proj1 (proj2 R1)). assert (Et := tree_edges _ _ Hst). cbn [length] in Hi, Hj.
      assert (A : forall x i j, i < length t' -> j < length t' -> touches (edge_at t' i) x -> touches (edge_at t' j) x ->
                all_central root (t' :: below) i = true -> all_central root (t' :: below) j = true ->
                linked (core root (t' :: below) t) i j).
      { clear i j Hi Hj Ci Cj. intros x i j Hi Hj Ti Tj Ci Cj.
        destruct (lt_eq_lt_dec i j) as [[L|E]|L].
        - apply (strong_path mst Ho root dependence Hd n (t' :: below) t Hs); auto. apply in_candidates.
          split; [cbn [length]; lia|]. eapply eligible_above; eauto; try lia.
        - subst; constructor.
        - apply linked_sym. apply (strong_path mst Ho root dependence Hd n (t' :: below) t Hs); auto. apply in_candidates.
          split; [cbn [length]; lia|]. eapply eligible_above; eauto; try lia. }
      assert (C1 : forall k, all_central root (t' :: below) k = true <->
                all_central root below (fst (edge_at t' k)) = true /\ all_central root below (snd (edge_at t' k)) = true).
      { intros k. rewrite <- !central_spec. cbn [central]. apply andb_true_iff. }
      assert (B : forall x y, linked (core root below t') x y -> forall i j, i < length t' -> j < length t' ->
                touches (edge_at t' i) x -> touches (edge_at t' j) y ->
                all_central root (t' :: below) i = true -> all_central root (t' :: below) j = true ->
                linked (core root (t' :: below) t) i j).
      { clear i j Hi Hj Ci Cj. induction 1 as [x | x z y Hst' Hl IHl]; intros i j Hi Hj Ti Tj Ci Cj; [eauto|].
        assert (exists k, k < length t' /\ touches (edge_at t' k) x /\ touches (edge_at t' k) z /\ all_central root (t' :: below) k = true)
          as (k & Hk & K1 & K2 & K3).
        { destruct Hst' as [Hst'|Hst']; apply filter_In in Hst' as [Hin Hc]; apply andb_true_iff in Hc as [Hc1 Hc2];
            apply in_edge in Hin as (k & Hk & He); exists k; rewrite C1, He; unfold touches; cbn [fst snd] in *; auto 6. }
        eapply linked_trans; [eapply A; [| |exact Ti|exact K1| |]; auto | eapply IHl; eauto]. }
      assert (O1 := edge_order _ t' i Hst ltac:(lia)). assert (O2 := edge_order _ t' j Hst ltac:(lia)).
      eapply (B (fst (edge_at t' i)) (fst (edge_at t' j))); try (unfold touches; auto); try lia.
      apply IH; auto; try lia; [apply (built_tail t); auto | apply C1; auto ..].
  Qed.

  (** The number of central nodes of a level. *)
  Definition n_central (below : list tree) : nat :=
    length (filter (all_central root below) (seq 0 (n - length below))).

  Lemma filter_edges : forall (g : edge -> bool) (t : tree),
    length (filter (fun k => g (edge_at t k)) (seq 0 (length t))) = length (filter g t).
  Proof.
    intros g t. assert (E : t = map (edge_at t) (seq 0 (length t))).
    { clear g. unfold edge_at. apply nth_ext with (d := (0, 0)) (d' := (0, 0)); [rewrite map_length, seq_length; auto|].
      intros k Hk. rewrite nth_indep with (d' := nth 0 t (0, 0)) (n := k) (l := map _ _) by (rewrite map_length, seq_length; auto).
      change (nth 0 t (0, 0)) with ((fun k => nth k t (0, 0)) 0). rewrite map_nth, seq_nth by auto. reflexivity. }
    replace (filter g t) with (filter g (map (edge_at t) (seq 0 (length t)))) by (rewrite <- E; reflexivity).
    generalize (seq 0 (length t)). intros l. induction l as [|k l IH]; [reflexivity|].
    cbn [filter map]. destruct (g (edge_at t k)); cbn [length]; auto.
  Qed.

  Lemma one_less : forall t below, regular n (t :: below) -> built (t :: below) ->
    1 <= n_central below -> n_central (t :: below) = n_central below - 1.
  Proof.
    intros t below Hr Hb Hc. assert (R2 := proj1 (proj2 Hr)). assert (Et := tree_edges _ _ R2).
    set (S := filter (all_central root below) (seq 0 (n - length below))) in *.
    assert (E : n_central (t :: below) = length (core root below t)).
    { unfold n_central, core. cbn [length]. replace (n - Datatypes.S (length below)) with (length t) by lia.
      rewrite <- filter_edges. f_equal. apply filter_ext. intros k. rewrite <- !central_spec. reflexivity. }
    assert (HS : NoDup S) by (apply NoDup_filter, seq_NoDup).
    assert (Hin : forall x, In x S <-> x < n - length below /\ all_central root below x = true).
    { intros x. unfold S. rewrite filter_In, in_seq. intuition lia. }
    assert (Hne : S <> []) by (intros Q; unfold n_central in Hc; fold S in Hc; rewrite Q in Hc; cbn in Hc; lia).
    assert (Ha : acyclic (core root below t)) by (apply acyclic_filter; destruct R2 as (_ & _ & R2); exact R2).
    assert (H1 := forest_count _ Ha S HS Hne).
    assert (F : filter (within S) (core root below t) = core root below t).
    { assert (Q : forall e, In e (core root below t) -> within S e = true).
      { intros [a b] H. apply filter_In in H as [H Hab]. apply andb_true_iff in Hab as [A B]. cbn [fst snd] in *.
        apply within_In. rewrite !Hin. destruct R2 as (R2 & _). apply R2 in H. split; split; auto; lia. }
      clear - Q. induction (core root below t) as [|e l IH]; [reflexivity|]. cbn [filter].
      rewrite Q by (left; auto). f_equal. apply IH. intros; apply Q; right; auto. }
    rewrite F in H1. destruct (separate (core root below t) S HS) as (R & Q1 & Q2 & Q3 & Q4).
    assert (length R <= 1).
    { destruct R as [|x [|y R]]; cbn; try lia. exfalso. inversion Q1 as [|? ? N _]; subst.
      apply N. left. symmetry. apply Q3; cbn; auto.
      assert (Ix : In x S) by (apply Q2; cbn; auto). assert (Iy : In y S) by (apply Q2; cbn; auto).
      apply Hin in Ix, Iy. apply core_connected; tauto. }
    rewrite E. unfold n_central. fold S. lia.
  Qed.

  Lemma count_down : forall below, regular n below -> built below ->
    length below < n_central [] -> n_central below = n_central [] - length below.
  Proof.
    induction below as [|t below IH]; intros Hr Hb Hc; [cbn [length]; lia|]. cbn [length] in *.
    destruct Hr as (R1 & R2) eqn:Q. rewrite one_less; auto.
    - rewrite IH; auto; [lia | apply (built_tail t); auto | lia].
    - rewrite IH; auto; [lia | apply (built_tail t); auto | lia].
  Qed.
End Levels.

(** * C70 *)

Lemma fit_built : forall mst root dependence n max_depth ts,
  fit_trees mst root dependence n max_depth = Fitted ts -> built mst root dependence n ts.
Proof.
  intros mst root dependence n max_depth ts H above t b E. unfold fit_trees in H.
  destruct (n <=? 2); [discriminate|].
  destruct max_depth as [d|]; [destruct (d <=? 1); [discriminate|]|];
    (destruct (grow mst root dependence n _ []) as [ts'|] eqn:G; [|discriminate];
     injection H as ->; eapply grow_suffix; eauto; cbn [length]; lia).
Qed.
Lemma fit_regular : forall mst root dependence n max_depth ts, maximum_forest_oracle mst ->
  (forall b e, (0 <= dependence b e)%R) ->
  fit_trees mst root dependence n max_depth = Fitted ts -> regular n ts.
Proof.
  intros mst root dependence n max_depth ts [Ho _] Hd H.
  destruct (Nat.le_gt_cases n 2) as [L|L]; [unfold fit_trees in H; apply Nat.leb_le in L; rewrite L in H; discriminate|].
  assert (Hdep : forall d, max_depth = Some d -> 1 < d).
  { intros d ->. unfold fit_trees in H. destruct (n <=? 2); [discriminate|].
    destruct (Nat.leb_spec d 1); [discriminate | auto]. }
  destruct (C49_regular_vine mst root dependence n max_depth Ho Hd L Hdep) as (ts' & E & Hr & _). congruence.
Qed.

(** On every level, the nodes made of central assets only are joined among themselves
    by edges of the tree: the path from one to the other never leaves them. *)
Theorem C70_core : forall mst root dependence n max_depth ts above t below,
  maximum_forest_oracle mst -> (forall b e, (0 <= dependence b e)%R) ->
  fit_trees mst root dependence n max_depth = Fitted ts -> ts = above ++ t :: below ->
  forall i j, i < n - length below -> j < n - length below ->
  (forall x, In x (vars below i) -> root x = true) ->
  (forall x, In x (vars below j) -> root x = true) ->
  linked (core root below t) i j.
Proof.
  intros mst root dependence n max_depth ts above t below Ho Hd Hf E i j Hi Hj Ci Cj.
  assert (Hr := fit_regular _ _ _ _ _ _ Ho Hd Hf). assert (Hb := fit_built _ _ _ _ _ _ Hf).
  subst ts. apply (core_connected mst Ho root dependence Hd n below t); auto.
  - eapply regular_suffix; eauto.
  - intros a u b E'. apply (Hb (above ++ a) u b). rewrite E', <- app_assoc. reflexivity.
  - apply forallb_forall; auto.
  - apply forallb_forall; auto.
Qed.
Print Assumptions C70_core.

(** In the first tree every other asset is attached to a central one. *)
Theorem C70_first_tree : forall mst root dependence n max_depth ts above t,
  maximum_forest_oracle mst -> (forall b e, (0 <= dependence b e)%R) ->
  fit_trees mst root dependence n max_depth = Fitted ts -> ts = above ++ [t] ->
  (exists c, c < n /\ root c = true) ->
  forall j, j < n -> root j = false ->
  exists c, root c = true /\ (In (j, c) t \/ In (c, j) t).
Proof.
  intros mst root dependence n max_depth ts above t Ho Hd Hf E (c & Hc & Rc) j Hj Rj.
  assert (Hb := fit_built _ _ _ _ _ _ Hf above t [] E).
  assert (A : forall k, all_central root [] k = root k) by (intros k; cbn; apply andb_true_r).
  destruct (weak_edge mst Ho root dependence Hd n [] t Hb c j) as (c' & C1 & C2).
  - cbn [length]. rewrite Nat.sub_0_r.
    destruct (lt_eq_lt_dec c j) as [[L|Q]|L]; [left | subst; congruence | right];
      apply in_candidates; split; auto; lia.
  - rewrite A. exact Rc.
  - rewrite A. exact Rj.
  - rewrite A in C1. eauto.
Qed.
Print Assumptions C70_first_tree.

(** The same in the next trees, for a node that can be joined to a central one. *)
Theorem C70_next_trees : forall mst root dependence n max_depth ts above t t' below,
  maximum_forest_oracle mst -> (forall b e, (0 <= dependence b e)%R) ->
  fit_trees mst root dependence n max_depth = Fitted ts -> ts = above ++ t :: t' :: below ->
  forall i j x, i < length t' -> j < length t' -> touches (edge_at t' i) x -> touches (edge_at t' j) x ->
  (forall y, In y (vars (t' :: below) i) -> root y = true) ->
  ~ (forall y, In y (vars (t' :: below) j) -> root y = true) ->
  exists c, (forall y, In y (vars (t' :: below) c) -> root y = true) /\ (In (j, c) t \/ In (c, j) t).
Proof.
  intros mst root dependence n max_depth ts above t t' below Ho Hd Hf E i j x Hi Hj Ti Tj Ci Cj.
  assert (Hb := fit_built _ _ _ _ _ _ Hf above t (t' :: below) E).
  assert (Hr := fit_regular _ _ _ _ _ _ Ho Hd Hf). rewrite E in Hr. apply regular_suffix in Hr.
  destruct Hr as (R1 & _). assert (Hst := proj1 (proj2 R1)). assert (Et := tree_edges _ _ Hst).
  assert (N : i <> j) by (intros ->; auto).
  destruct (weak_edge mst Ho root dependence Hd n (t' :: below) t Hb i j) as (c' & C1 & C2).
  - cbn [length]. destruct (lt_eq_lt_dec i j) as [[L|Q]|L]; [left | contradiction | right];
      (apply in_candidates; split; [lia|]; eapply eligible_above; eauto; lia).
  - apply forallb_forall. exact Ci.
  - destruct (all_central root (t' :: below) j) eqn:Q; [|reflexivity]. exfalso. apply Cj. apply forallb_forall. exact Q.
  - exists c'. split; [|exact C2]. apply forallb_forall. exact C1.
Qed.
Print Assumptions C70_next_trees.

(** The central assets make a vine of their own: when the vine is deep enough, one node
    has exactly them as its variables. *)
Theorem C70_own_vine : forall mst root dependence n max_depth ts s,
  maximum_forest_oracle mst -> (forall b e, (0 <= dependence b e)%R) ->
  fit_trees mst root dependence n max_depth = Fitted ts ->
  length (filter root (seq 0 n)) = S s -> s <= length ts ->
  exists above below k, ts = above ++ below /\ length below = s /\ k < n - s /\
    forall x, In x (vars below k) <-> x < n /\ root x = true.
Proof.
  intros mst root dependence n max_depth ts s Ho Hd Hf Hs Hl.
  assert (Hr := fit_regular _ _ _ _ _ _ Ho Hd Hf). assert (Hb := fit_built _ _ _ _ _ _ Hf).
  set (above := firstn (length ts - s) ts). set (below := skipn (length ts - s) ts).
  assert (E : ts = above ++ below) by (symmetry; apply firstn_skipn).
  assert (Lb : length below = s) by (unfold below; rewrite skipn_length; lia).
  assert (Hrb : regular n below) by (rewrite E in Hr; eapply regular_suffix; eauto).
  assert (Hbb : built mst root dependence n below).
  { intros a u b E'. apply (Hb (above ++ a) u b). rewrite E at 1. rewrite E', <- app_assoc. reflexivity. }
  assert (N0 : n_central root n [] = S s).
  { rewrite <- Hs. unfold n_central. cbn [length]. rewrite Nat.sub_0_r. f_equal. apply filter_ext.
    intros k. cbn. apply andb_true_r. }
  assert (C := count_down mst Ho root dependence Hd n below Hrb Hbb ltac:(lia)). rewrite N0, Lb in C.
  unfold n_central in C. rewrite Lb in C.
  destruct (filter (all_central root below) (seq 0 (n - s))) as [|k l] eqn:F; [cbn [length] in C; lia|].
  assert (Hk : In k (filter (all_central root below) (seq 0 (n - s)))) by (rewrite F; left; auto).
  apply filter_In in Hk as [Hk Ck]. apply in_seq in Hk.
  exists above, below, k. split; [exact E|]. split; [exact Lb|]. split; [lia|].
  destruct (vine_size s below n Lb Hrb) as [V1 _]. specialize (V1 k ltac:(lia)).
  assert (I : incl (vars below k) (filter root (seq 0 n))).
  { intros x Hx. apply filter_In. split; [apply in_seq; split; [lia|]; cbn; apply (vars_range below n k); [exact Hrb | rewrite Lb; lia | exact Hx]|].
    eapply forallb_forall in Ck; eauto. }
  assert (LL : length (filter root (seq 0 n)) <= length (vars below k)) by (rewrite V1, Hs; lia).
  assert (I' := NoDup_length_incl (nodup_vars below k) LL I).
  intros x. split.
  - intros Hx. apply I in Hx. apply filter_In in Hx as [Hx Rx]. apply in_seq in Hx. split; [lia|auto].
  - intros [Hx Rx]. apply I'. apply filter_In. split; [apply in_seq; lia|auto].
Qed.
Print Assumptions C70_own_vine.

(** * The hypotheses can be met *)

Fixpoint subseqs (l : list edge) : list (list edge) :=
  match l with
  | [] => [[]]
  | e :: l' => map (cons e) (subseqs l') ++ subseqs l'
  end.
Fixpoint acyclicb (l : list edge) : bool :=
  match l with
  | [] => true
  | e :: l' => negb (linkedb l' (fst e) (snd e)) && acyclicb l'
  end.
Definition spansb (cand F : list edge) : bool :=
  acyclicb F && forallb (fun e => linkedb F (fst e) (snd e)) cand.
Definition weight_in (w : list (edge * R)) (e : edge) : R :=
  match find (fun p => (fst (fst p) =? fst e) && (snd (fst p) =? snd e)) w with
  | Some p => snd p
  | None => 0%R
  end.
(** The heaviest of all the spanning forests. *)
Definition heaviest (_ : nat) (w : list (edge * R)) : list edge :=
  let cand := map fst w in
  fold_right (fun F acc => if Rle_dec (total (weight_in w) acc) (total (weight_in w) F) then F else acc)
    (greedy cand) (filter (spansb cand) (subseqs cand)).

Lemma acyclicb_spec : forall l, acyclicb l = true <-> acyclic l.
Proof.
  induction l as [|[a b] l IH]; cbn [acyclicb].
  - split; [|auto]. intros _ E1 a b E2 E. destruct E1; discriminate.
  - rewrite acyclic_cons, andb_true_iff, IH, negb_true_iff. cbn [fst snd].
    rewrite <- linkedb_spec. destruct (linkedb l a b); intuition congruence.
Qed.
Lemma spansb_spec : forall cand F, spansb cand F = true <->
  acyclic F /\ (forall x y, linked cand x y -> linked F x y).
Proof.
  intros cand F. unfold spansb. rewrite andb_true_iff, acyclicb_spec, forallb_forall.
  split; intros [H1 H2]; (split; [exact H1|]).
  - intros x y. apply linked_sub. intros u v Huv. apply (linkedb_spec F u v). apply (H2 (u, v) Huv).
  - intros [u v] Huv. apply linkedb_spec, H2, linked_edge. exact Huv.
Qed.
Lemma subseqs_spec : forall l F, In F (subseqs l) ->
  incl F l /\ (StronglySorted lexlt l -> StronglySorted lexlt F).
Proof.
  induction l as [|e l IH]; intros F H; cbn [subseqs] in H.
  - destruct H as [<-|[]]. split; [apply incl_refl|auto].
  - apply in_app_iff in H as [H|H].
    + apply in_map_iff in H as (G & <- & H). apply IH in H as [H1 H2]. split.
      * intros x [<-|Hx]; [left; auto | right; auto].
      * intros S. inversion S as [|? ? S1 S2]; subst. constructor; [auto|].
        rewrite Forall_forall in *. auto.
    + apply IH in H as [H1 H2]. split; [apply incl_tl; auto|]. intros S. inversion S; subst; auto.
Qed.
Lemma filter_subseq : forall p l, In (filter p l) (subseqs l).
Proof.
  intros p. induction l as [|e l IH]; cbn [filter subseqs]; [left; auto|].
  apply in_app_iff. destruct (p e); [left; apply in_map; auto | right; auto].
Qed.
Lemma sorted_nodup : forall l, StronglySorted lexlt l -> NoDup l.
Proof.
  induction 1 as [|e l _ IH H]; constructor; [|auto]. intros Hin. rewrite Forall_forall in H.
  apply H in Hin. unfold lexlt in Hin. lia.
Qed.
Lemma acyclic_nodup : forall F, acyclic F -> NoDup F.
Proof.
  induction F as [|[a b] F IH]; intros H; [constructor|]. apply acyclic_cons in H as [H1 H2].
  constructor; [|auto]. intros Hin. apply H1, linked_edge. exact Hin.
Qed.
Lemma total_perm : forall W E F, Permutation E F -> total W E = total W F.
Proof. intros W E F. unfold total. induction 1; cbn; lra. Qed.
Definition edge_dec : forall e f : edge, {e = f} + {e <> f}.
Proof. decide equality; apply Nat.eq_dec. Defined.

Lemma weight_in_map : forall W cand e, In e cand -> weight_in (map (fun p => (p, W p)) cand) e = W e.
Proof.
  intros W cand [a b] H. unfold weight_in. induction cand as [|[c d] cand IH]; [destruct H|].
  cbn [map find fst snd]. destruct (Nat.eqb_spec c a) as [->|N], (Nat.eqb_spec d b) as [->|N']; cbn [andb snd];
    [reflexivity|..]; (apply IH; destruct H as [H|H]; [congruence | exact H]).
Qed.
Lemma total_ext : forall W V E, (forall e, In e E -> W e = V e) -> total W E = total V E.
Proof.
  intros W V E H. unfold total. f_equal. apply map_ext_in. exact H.
Qed.

Lemma heaviest_spec : forall n w, row_major (map fst w) ->
  (incl (heaviest n w) (map fst w) /\ spansb (map fst w) (heaviest n w) = true
   /\ StronglySorted lexlt (heaviest n w))
  /\ forall F, In F (subseqs (map fst w)) -> spansb (map fst w) F = true ->
       (total (weight_in w) F <= total (weight_in w) (heaviest n w))%R.
Proof.
  intros n w Hm. unfold heaviest. set (cand := map fst w) in *.
  assert (Hs := row_major_sorted _ Hm).
  assert (G : incl (greedy cand) cand /\ spansb cand (greedy cand) = true /\ StronglySorted lexlt (greedy cand)).
  { assert (Q : forall l, incl (greedy l) l /\ acyclic (greedy l) /\ (forall x y, linked l x y -> linked (greedy l) x y)).
    { induction l as [|[a b] l (I1 & I2 & I3)]; cbn [greedy].
      - split; [apply incl_refl|]. split; [|auto]. apply acyclicb_spec. reflexivity.
      - cbn [fst snd]. destruct (linkedb (greedy l) a b) eqn:L.
        + split; [apply incl_tl; auto|]. split; [auto|]. intros x y. apply linked_sub.
          intros u v [E|H]; [injection E as <- <-; apply linkedb_spec; auto | apply I3, linked_edge; auto].
        + split; [intros x [<-|Hx]; [left | right]; auto|]. split.
          * apply acyclic_cons. split; [rewrite <- linkedb_spec; congruence | auto].
          * intros x y. apply linked_sub. intros u v [E|H]; [apply linked_edge; left; auto|].
            eapply linked_mono; [|apply I3, linked_edge; exact H]. intros e He; right; auto. }
    destruct (Q cand) as (Q1 & Q2 & Q3). split; [exact Q1|]. split; [apply spansb_spec; auto|].
    apply greedy_sorted. exact Hs. }
  assert (K : forall Fs, (forall F, In F Fs -> incl F cand /\ spansb cand F = true /\ StronglySorted lexlt F) ->
    let B := fold_right (fun F acc => if Rle_dec (total (weight_in w) acc) (total (weight_in w) F) then F else acc) (greedy cand) Fs in
    (incl B cand /\ spansb cand B = true /\ StronglySorted lexlt B)
    /\ forall F, In F Fs -> (total (weight_in w) F <= total (weight_in w) B)%R).
  { induction Fs as [|F Fs IH]; intros H; cbn [fold_right].
    - split; [exact G | intros F []].
    - destruct (IH (fun F' HF' => H F' (or_intror HF'))) as [I1 I2]. cbv zeta in *.
      destruct Rle_dec as [L|L].
      + split; [apply H; left; auto|]. intros F' [<-|HF']; [lra|]. specialize (I2 F' HF'). lra.
      + split; [exact I1|]. intros F' [<-|HF']; [lra | auto]. }
  destruct (K (filter (spansb cand) (subseqs cand))) as [K1 K2].
  { intros F HF. apply filter_In in HF as [HF1 HF2]. apply subseqs_spec in HF1 as [Q1 Q2]. auto. }
  split; [exact K1|]. intros F HF1 HF2. apply K2. apply filter_In. auto.
Qed.

Lemma heaviest_oracle : maximum_forest_oracle heaviest.
Proof.
  split.
  - intros n w _ Hm. destruct (heaviest_spec n w Hm) as [(H1 & H2 & H3) _].
    apply spansb_spec in H2 as [H2 H4]. split; [exact H1|]. split; [exact H2|]. split; [exact H4|].
    apply sorted_row_major. exact H3.
  - intros n cand W _ Hm F HF Ha Hc. set (w := map (fun p => (p, W p)) cand).
    assert (Hw : map fst w = cand) by (unfold w; rewrite map_map; apply map_id).
    assert (Hm' : row_major (map fst w)) by (rewrite Hw; exact Hm).
    destruct (heaviest_spec n w Hm') as [(H1 & _) H2]. rewrite Hw in *.
    set (p := fun e => if in_dec edge_dec e F then true else false).
    assert (P : Permutation F (filter p cand)).
    { apply NoDup_Permutation; [apply acyclic_nodup; auto | apply NoDup_filter, sorted_nodup, row_major_sorted; auto|].
      intros e. rewrite filter_In. unfold p. destruct in_dec as [I|I]; (split; [intros Q; split; [auto | congruence] | intros [? ?]; auto; discriminate]). }
    assert (S : spansb cand (filter p cand) = true).
    { apply spansb_spec. split; [|].
      - intros E1 a b E2 E Hl. 
        assert (Pm : Permutation F ((a, b) :: E1 ++ E2)).
        { eapply Permutation_trans; [exact P|]. rewrite E. apply Permutation_sym, Permutation_middle. }
        assert (I : In (a, b) F) by (eapply Permutation_in; [apply Permutation_sym, Pm | left; auto]).
        apply in_split in I as (F1 & F2 & EF). apply (Ha F1 a b F2 EF).
        eapply linked_mono; [|exact Hl]. intros e He.
        assert (Pm' : Permutation (E1 ++ E2) (F1 ++ F2)).
        { apply (Permutation_cons_inv (a := (a, b))). eapply Permutation_trans; [apply Permutation_sym, Pm|].
          rewrite EF. apply Permutation_sym, Permutation_middle. }
        eapply Permutation_in; eauto.
      - intros x y Hxy. eapply linked_mono; [|apply Hc; exact Hxy]. intros e He. eapply Permutation_in; eauto. }
    assert (T := H2 _ (filter_subseq p cand) S). rewrite (total_perm W _ _ P).
    rewrite <- (total_ext (weight_in w) W (filter p cand)), <- (total_ext (weight_in w) W (heaviest n w)).
    + exact T.
    + intros e He. apply weight_in_map. auto.
    + intros e He. apply weight_in_map. apply filter_In in He. tauto.
Qed.

(** Five assets, of which 1 and 3 are central; the others prefer each other. *)
Example C70_applies :
  let root := fun x => (x =? 1) || (x =? 3) in
  let dependence := fun (_ : list tree) (e : edge) => if root (fst e) || root (snd e) then 0%R else 1%R in
  exists ts above t,
    fit_trees heaviest root dependence 5 None = Fitted ts /\ ts = above ++ [t]
    /\ In (1, 3) t
    /\ (forall j, j < 5 -> root j = false -> exists c, root c = true /\ (In (j, c) t \/ In (c, j) t))
    /\ exists above' below k, ts = above' ++ below /\ length below = 1 /\ k < 4 /\ forall x, In x (vars below k) <-> x < 5 /\ root x = true.
Proof.
  intros root dependence.
  assert (Hd : forall b e, (0 <= dependence b e)%R) by (intros b e; unfold dependence; destruct (_ || _); lra).
  assert (Ho := heaviest_oracle). revert Ho. generalize heaviest. intros mst Ho.
  destruct (C49_regular_vine mst root dependence 5 None (proj1 Ho) Hd) as (ts & Hf & Hr & Hl); [lia | discriminate|].
  assert (E : exists above t, ts = above ++ [t]).
  { destruct ts as [|u ts] using rev_ind; [cbn in Hl; lia | eauto]. }
  destruct E as (above & t & E). exists ts, above, t. split; [exact Hf|]. split; [exact E|].
  split; [|split].
  - assert (H := C70_core mst root dependence 5 None ts above t [] Ho Hd Hf E 1 3 ltac:(cbn; lia) ltac:(cbn; lia)).
    assert (L : linked (core root [] t) 1 3)
      by (apply H; cbn; intros x [<-|[]]; reflexivity).
    apply linked_first' in L.
    2: lia.
    destruct L as (z & Hz).
    assert (Hz' : z = 3 /\ (In (1, z) t \/ In (z, 1) t)).
    { rewrite E in Hr. apply regular_suffix in Hr. destruct Hr as (_ & (R2 & _) & _).
      destruct Hz as [Hz|Hz]; apply filter_In in Hz as [Hz Hc]; (split; [|auto]); apply R2 in Hz;
        unfold all_central, root in Hc; cbn [vars forallb fst snd] in Hc;
        repeat (apply andb_true_iff in Hc as [? Hc] || apply andb_true_iff in H0 as [? H0]);
        destruct z as [|[|[|[|z]]]]; cbn in *; try lia; discriminate. }
    destruct Hz' as [-> [Hz'|Hz']]; [exact Hz'|].
    rewrite E in Hr. apply regular_suffix in Hr. destruct Hr as (_ & (R2 & _) & _). apply R2 in Hz'. lia.
  - apply (C70_first_tree mst root dependence 5 None ts above t Ho Hd Hf E).
    exists 1. split; [lia | reflexivity].
  - apply (C70_own_vine mst root dependence 5 None ts 1 Ho Hd Hf); [reflexivity | lia].
Qed.
