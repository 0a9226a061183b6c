(** C48: sampling from a vine copula inverts the fitted model. *)
Require Import List Arith Bool Lia Permutation.
From Verif Require Import VineModel VineGraph VineProps.
Import ListNotations.

(** * Specification *)

(** The node an entry of the order stands for is the node of edge [k] of the tree on
    level [l]. *)
Definition tree_on_level (ts : list tree) (l : nat) (t : tree) (below : list tree) : Prop :=
  (exists above, ts = above ++ t :: below) /\ length below = l.

(** Every variable once; the variables the edge of an entry involves besides the
    variable of the entry come earlier; conditioning variables are drawn directly. *)
Definition complete_order (enum : list nat -> list nat) (cond : list nat) (n : nat)
    (ts : list tree) (order : list entry) : Prop :=
  Permutation (map (entry_var enum ts) order) (seq 0 n)
  /\ (forall r, In r cond -> r < n -> In (RootEntry r) order)
  /\ (forall o1 l k lft o2, order = o1 ++ ChildEntry l k lft :: o2 ->
        exists t below, tree_on_level ts l t below /\ k < length t
          /\ ~ In (get_var enum t below k lft) cond
          /\ forall x, In x (vars (t :: below) k) -> x <> get_var enum t below k lft ->
               In x (map (entry_var enum ts) o1)).

(** * Lists *)

Lemma filter_one : forall (A : Type) (p : A -> bool) l, NoDup l -> length (filter p l) = 1 ->
  forall x y, In x l -> In y l -> p x = true -> p y = true -> x = y.
Proof.
  intros A p l _ H x y Hx Hy Px Py.
  assert (Ix : In x (filter p l)) by (apply filter_In; auto).
  assert (Iy : In y (filter p l)) by (apply filter_In; auto).
  destruct (filter p l) as [|a [|b m]]; try discriminate.
  destruct Ix as [<-|[]], Iy as [<-|[]]; reflexivity.
Qed.

Lemma insert_perm : forall cost x l, Permutation (x :: l) (insert_by cost x l).
Proof.
  induction l as [|y l IH]; cbn [insert_by]; [auto|].
  destruct (cost x <=? cost y); [auto|].
  eapply Permutation_trans; [apply perm_swap|]. apply perm_skip. exact IH.
Qed.

Lemma sort_perm : forall cost l, Permutation l (sort_by cost l).
Proof.
  induction l as [|x l IH]; cbn; [auto|].
  eapply Permutation_trans; [apply perm_skip; exact IH | apply insert_perm].
Qed.

Lemma suffix_skipn : forall (above : list tree) t below,
  skipn (length (above ++ t :: below) - S (length below)) (above ++ t :: below) = t :: below.
Proof.
  intros above t below. rewrite app_length. cbn [length].
  replace (length above + S (length below) - S (length below)) with (length above) by lia.
  rewrite skipn_app, skipn_all, Nat.sub_diag. reflexivity.
Qed.

Lemma level_unique : forall ts l t below t' below',
  tree_on_level ts l t below -> tree_on_level ts l t' below' -> t = t' /\ below = below'.
Proof.
  intros ts l t below t' below' [(a & Ha) H1] [(a' & Ha') H2].
  assert (E : t :: below = t' :: below').
  { rewrite <- (suffix_skipn a t below), <- (suffix_skipn a' t' below').
    rewrite <- Ha, <- Ha', H1, H2. reflexivity. }
  injection E; auto.
Qed.

Lemma linked_first : forall E x y, linked E x y ->
  x = y \/ exists z, In (x, z) E \/ In (z, x) E.
Proof. intros E x y [z | z w z' H _]; [auto | right; eauto]. Qed.

(** * Leaves *)

Section Peeling.
  Variable m : nat.
  Variable t : tree.
  Hypothesis Ht : spanning_tree m t.

  Definition rest (visited : list nat) : list nat :=
    filter (fun k => negb (mem k visited)) (seq 0 (length t)).

  Lemma in_rest : forall visited k, In k (rest visited) <-> k < length t /\ ~ In k visited.
  Proof.
    intros. unfold rest. rewrite filter_In, negb_true_iff, mem_not, in_seq. intuition lia.
  Qed.

  Definition joins (R : list nat) (x : nat) : Prop :=
    exists k, In k R /\ touches (edge_at t k) x.

  Definition sub (R : list nat) : list edge := map (edge_at t) R.

  Definition whole (R : list nat) : Prop :=
    forall x y, joins R x -> joins R y -> linked (sub R) x y.

  Lemma degree_count : forall visited x,
    degree t visited x
    = length (filter (fun k => (fst (edge_at t k) =? x) || (snd (edge_at t k) =? x))
                (rest visited)).
  Proof.
    intros visited x. unfold degree, rest. f_equal.
    induction (seq 0 (length t)) as [|k l IH]; [reflexivity|]. cbn [filter].
    destruct (negb (mem k visited)) eqn:V; cbn [filter].
    - rewrite andb_true_r. destruct (_ || _); cbn [filter]; rewrite ?IH; reflexivity.
    - rewrite andb_false_r. exact IH.
  Qed.

  Lemma touchb : forall k x,
    ((fst (edge_at t k) =? x) || (snd (edge_at t k) =? x)) = true <-> touches (edge_at t k) x.
  Proof. intros. rewrite orb_true_iff, !Nat.eqb_eq. reflexivity. Qed.

  Lemma leaf_unique : forall visited x j k, degree t visited x = 1 ->
    In j (rest visited) -> In k (rest visited) ->
    touches (edge_at t j) x -> touches (edge_at t k) x -> j = k.
  Proof.
    intros visited x j k Hd Hj Hk Tj Tk. rewrite degree_count in Hd.
    eapply filter_one; eauto; [apply NoDup_filter, seq_NoDup | |]; apply touchb; auto.
  Qed.

  Lemma degree_pos : forall visited x k, In k (rest visited) -> touches (edge_at t k) x ->
    1 <= degree t visited x.
  Proof.
    intros visited x k Hk Tk. rewrite degree_count.
    assert (H : In k (filter (fun k => (fst (edge_at t k) =? x) || (snd (edge_at t k) =? x))
                        (rest visited))) by (apply filter_In; split; [auto | apply touchb; auto]).
    destruct (filter _ _); [destruct H | cbn; lia].
  Qed.

  (** Counting edge ends. *)
  Lemma handshake : forall S R, NoDup S ->
    (forall k, In k R -> fst (edge_at t k) <> snd (edge_at t k)
                         /\ In (fst (edge_at t k)) S /\ In (snd (edge_at t k)) S) ->
    list_sum (map (fun x => length (filter (fun k => (fst (edge_at t k) =? x)
                                                     || (snd (edge_at t k) =? x)) R)) S)
    = 2 * length R.
  Proof.
    intros S R Hs. induction R as [|k R IH]; intros H.
    - cbn [filter length]. clear. induction S; cbn; auto.
    - assert (IH' := IH (fun j Hj => H j (or_intror Hj))). cbn [length].
      destruct (H k (or_introl eq_refl)) as (Hab & Ha & Hb).
      set (a := fst (edge_at t k)) in *. set (b := snd (edge_at t k)) in *.
      assert (Hsplit : forall S', list_sum (map (fun x => length (filter (fun k => (fst (edge_at t k) =? x)
                  || (snd (edge_at t k) =? x)) (k :: R))) S')
                = list_sum (map (fun x => length (filter (fun k => (fst (edge_at t k) =? x)
                  || (snd (edge_at t k) =? x)) R)) S')
                  + length (filter (fun x => (a =? x) || (b =? x)) S')).
      { induction S' as [|x S' IHS]; [reflexivity|]. cbn [map list_sum fold_right].
        change (fold_right Nat.add 0) with list_sum.
        rewrite IHS. cbn [filter]. fold a b.
        destruct ((a =? x) || (b =? x)); cbn [length]; lia. }
      rewrite Hsplit, IH'.
      enough (length (filter (fun x => (a =? x) || (b =? x)) S) = 2) by lia.
      transitivity (length [a; b]); [|reflexivity].
      apply Permutation_length, NoDup_Permutation.
      + apply NoDup_filter; auto.
      + constructor; [cbn; intuition | constructor; [cbn; tauto | constructor]].
      + intros x. rewrite filter_In, orb_true_iff, !Nat.eqb_eq. cbn. intuition (subst; auto).
  Qed.

  Lemma sub_acyclic : forall (l : list nat), NoDup l -> (forall k, In k l -> k < length t) ->
    acyclic (sub l).
  Proof.
    intros l Hn Hl. destruct Ht as (_ & _ & Ha).
    induction l as [|k l IH]; [intros E1 a b E2 E; destruct E1; discriminate|].
    apply NoDup_cons_iff in Hn as [N1 N2]. cbn [sub map].
    destruct (edge_at t k) as [a b] eqn:Ek. apply acyclic_cons. split.
    - intros Hlk. destruct (split_at t k ltac:(apply Hl; cbn; auto)) as (E1 & E2 & He & Hr).
      rewrite Ek in He. apply (Ha E1 a b E2 He). eapply linked_mono; [|exact Hlk].
      intros e Hin. apply in_map_iff in Hin as (j & <- & Hj). apply Hr.
      + apply Hl; cbn; auto.
      + intros ->. auto.
    - apply IH; auto. intros; apply Hl; cbn; auto.
  Qed.

  Lemma leaf_exists : forall visited, rest visited <> [] ->
    exists k x, In k (rest visited) /\ touches (edge_at t k) x /\ degree t visited x = 1.
  Proof.
    intros visited Hne. set (R := rest visited) in *.
    assert (HR : forall k, In k R -> k < length t) by (intros k Hk; apply in_rest in Hk; tauto).
    assert (HRn : NoDup R) by apply NoDup_filter, seq_NoDup.
    set (S := nodup Nat.eq_dec (flat_map (fun k => [fst (edge_at t k); snd (edge_at t k)]) R)).
    assert (HS : forall x, In x S <-> joins R x).
    { intros x. unfold S. rewrite nodup_In, in_flat_map. unfold joins, touches. cbn.
      split; intros (k & H1 & H2); exists k; intuition auto. }
    destruct (existsb (fun x => degree t visited x =? 1) S) eqn:Hex.
    - apply existsb_exists in Hex as (x & Hx & Hd). apply Nat.eqb_eq in Hd.
      apply HS in Hx as (k & Hk & Tk). eauto.
    - exfalso.
      assert (Hall : forall x, In x S -> 2 <= degree t visited x).
      { intros x Hx. apply HS in Hx as Hj. destruct Hj as (k & Hk & Tk).
        assert (1 <= degree t visited x) by (eapply degree_pos; eauto).
        assert (degree t visited x <> 1); [|lia]. intros C.
        assert (existsb (fun x => degree t visited x =? 1) S = true); [|congruence].
        apply existsb_exists. exists x. rewrite Nat.eqb_eq. auto. }
      assert (Hsum := handshake S R (NoDup_nodup _ _)).
      assert (Hord : forall k, In k R -> fst (edge_at t k) < snd (edge_at t k))
        by (intros k Hk; apply (edge_order m t k Ht); auto).
      specialize (Hsum ltac:(intros k Hk; assert (X := Hord k Hk); split; [lia|];
        split; apply HS; exists k; unfold touches; auto)).
      assert (Hge : 2 * length S <= list_sum (map (fun x => length (filter (fun k =>
                (fst (edge_at t k) =? x) || (snd (edge_at t k) =? x)) R)) S)).
      { clear -Hall. induction S as [|x S IH]; [cbn; lia|]. cbn [map list_sum fold_right length].
        change (fold_right Nat.add 0) with list_sum.
        assert (H1 := Hall x (or_introl eq_refl)). rewrite degree_count in H1. fold R in H1.
        assert (H2 := IH (fun y Hy => Hall y (or_intror Hy))). lia. }
      assert (Hc := forest_count (sub R) (sub_acyclic R HRn HR) S (NoDup_nodup _ _)).
      assert (HSne : S <> []).
      { destruct R as [|k R']; [congruence|]. intros C.
        assert (In (fst (edge_at t k)) S); [|rewrite C in H; destruct H].
        apply HS. exists k. unfold touches. cbn; auto. }
      specialize (Hc HSne).
      assert (Hf : length (filter (within S) (sub R)) = length R).
      { unfold sub. rewrite <- (map_length (edge_at t) R) at 1. f_equal.
        assert (Hw : forall e, In e (map (edge_at t) R) -> within S e = true).
        { intros e He. apply in_map_iff in He as (k & <- & Hk).
          rewrite (surjective_pairing (edge_at t k)). apply within_In.
          split; apply HS; exists k; unfold touches; auto. }
        clear -Hw. induction (map (edge_at t) R) as [|e l IH]; [reflexivity|]. cbn [filter].
        rewrite Hw by (left; auto). f_equal. apply IH. intros; apply Hw; right; auto. }
      lia.
  Qed.

  Definition leaf (p : nat * bool) : nat :=
    if snd p then fst (edge_at t (fst p)) else snd (edge_at t (fst p)).
  Definition stem (p : nat * bool) : nat :=
    if snd p then snd (edge_at t (fst p)) else fst (edge_at t (fst p)).

  Lemma leaf_stem : forall p, touches (edge_at t (fst p)) (leaf p)
    /\ touches (edge_at t (fst p)) (stem p)
    /\ (forall x, touches (edge_at t (fst p)) x -> x = leaf p \/ x = stem p)
    /\ (fst p < length t -> leaf p <> stem p).
  Proof.
    intros [k l]. unfold leaf, stem, touches. cbn [fst snd].
    repeat split; try (destruct l; auto; fail).
    - intros x [<-|<-]; destruct l; auto.
    - intros Hk. assert (O := edge_order m t k Ht Hk). destruct l; lia.
  Qed.

  Variable enum : list nat -> list nat.
  Variable cond : list nat.
  Variable below : list tree.

  Lemma peel_some : forall visited k l, peel enum cond t below visited k = Some l ->
    degree t visited (leaf (k, l)) = 1.
  Proof.
    intros visited k l H. unfold peel in H. unfold leaf. cbn [fst snd].
    destruct (Nat.eqb_spec (degree t visited (fst (edge_at t k))) 1) as [E1|E1],
             (Nat.eqb_spec (degree t visited (snd (edge_at t k))) 1) as [E2|E2];
      cbn [orb andb] in H; try discriminate; injection H; intros <-; auto.
    destruct (is_left_branch enum cond t below k); auto.
  Qed.

  Lemma peel_none : forall visited k x, peel enum cond t below visited k = None ->
    touches (edge_at t k) x -> degree t visited x <> 1.
  Proof.
    intros visited k x H. unfold peel in H.
    destruct (Nat.eqb_spec (degree t visited (fst (edge_at t k))) 1) as [E1|E1],
             (Nat.eqb_spec (degree t visited (snd (edge_at t k))) 1) as [E2|E2];
      cbn [orb] in H; try discriminate. intros [<-|<-]; auto.
  Qed.

  Lemma select_in : forall visited R k l,
    In (k, l) (select enum cond t below visited R) <->
    In k R /\ peel enum cond t below visited k = Some l.
  Proof.
    induction R as [|j R IH]; intros k l; cbn [select]; [cbn; tauto|].
    destruct (peel enum cond t below visited j) as [l'|] eqn:P; cbn [In]; rewrite IH.
    - split.
      + intros [E|[H1 H2]]; [injection E; intros; subst; auto | auto].
      + intros [[->|H1] H2]; [left; congruence | auto].
    - split; [intros [H1 H2]; auto|]. intros [[->|H1] H2]; [congruence | auto].
  Qed.

  Lemma select_last : forall visited R k l, R <> [] ->
    (forall j, In j R -> exists l, peel enum cond t below visited j = Some l) ->
    peel enum cond t below visited (last R k) = Some (last (map snd (select enum cond t below visited R)) l)
    /\ In (last R k) R.
  Proof.
    intros visited R k l Hne Hall. induction R as [|j R IH]; [congruence|].
    cbn [select]. destruct (Hall j (or_introl eq_refl)) as (lj & Hj). rewrite Hj. cbn [map snd].
    destruct R as [|j' R].
    - cbn. split; auto.
    - assert (IH' := IH ltac:(discriminate) (fun i Hi => Hall i (or_intror Hi))).
      assert (Hne' : map snd (select enum cond t below visited (j' :: R)) <> []).
      { destruct (Hall j' ltac:(cbn; auto)) as (l'' & H''). cbn [select]. rewrite H''. discriminate. }
      destruct (map snd (select enum cond t below visited (j' :: R))) as [|z zs] eqn:Ez;
        [congruence|].
      cbn [last] in *. destruct IH' as [I1 I2]. split; [exact I1 | right; exact I2].
  Qed.

  Lemma select_nodup : forall visited R, NoDup R ->
    NoDup (map fst (select enum cond t below visited R)).
  Proof.
    induction 1 as [|k R N _ IH]; [constructor|]. cbn [select].
    destruct (peel _ _ _ _ _ _); [|auto]. cbn [map fst]. constructor; [|auto].
    intros C. apply in_map_iff in C as ([k' l'] & E & Hin). cbn in E. subst.
    apply select_in in Hin. tauto.
  Qed.

  (** One round of the loop on a connected remainder. *)
  Lemma round : forall visited, whole (rest visited) -> rest visited <> [] ->
    let sel := select enum cond t below visited (rest visited) in
    let R' := rest (map fst sel ++ visited) in
    (R' <> [] -> whole R' /\ forall p, In p sel -> joins R' (stem p))
    /\ (R' = [] -> forall p q, In p sel -> In q sel -> stem p = stem q).
  Proof.
    intros visited Hw Hne sel R'. set (R := rest visited) in *.
    assert (Hsel : forall k l, In (k, l) sel -> In k R /\ degree t visited (leaf (k, l)) = 1).
    { intros k l H. apply select_in in H as [H1 H2]. split; [auto | apply peel_some; auto]. }
    assert (HR' : forall k, In k R' <-> In k R /\ ~ In k (map fst sel)).
    { intros k. unfold R', R. rewrite !in_rest, in_app_iff. tauto. }
    assert (Hlt : forall k, In k R -> k < length t) by (intros k H; apply in_rest in H; tauto).
    (* a peeled leaf only touches its own edge *)
    assert (Hown : forall p k, In p sel -> In k R -> touches (edge_at t k) (leaf p) -> k = fst p).
    { intros [j l] k Hp Hk Tk. destruct (Hsel j l Hp) as [H1 H2].
      eapply leaf_unique; eauto. apply (leaf_stem (j, l)). }
    assert (Hnl : forall p q, In p sel -> In q sel -> stem p <> leaf q).
    { intros [j l] [j' l'] Hp Hq E.
      assert (HjR : In j R) by (eapply Hsel; eauto).
      assert (j = j').
      { apply (Hown (j', l') j Hq HjR). rewrite <- E. apply (leaf_stem (j, l)). }
      subst j'. apply select_in in Hp as [_ Hp], Hq as [_ Hq].
      assert (l = l') by congruence. subst l'.
      apply (proj2 (proj2 (proj2 (leaf_stem (j, l))))); [cbn; auto | symmetry; exact E]. }
    (* edges of R, as steps *)
    assert (Hstep : forall x z, In (x, z) (sub R) \/ In (z, x) (sub R) ->
              exists k, In k R /\ touches (edge_at t k) x /\ touches (edge_at t k) z /\ x <> z).
    { intros x z [H|H]; apply in_map_iff in H as (k & He & Hk); exists k;
        (split; [exact Hk|]); assert (O := edge_order m t k Ht (Hlt k Hk));
        rewrite He in *; unfold touches; cbn [fst snd] in *; intuition lia. }
    assert (Hlink : forall k x z, In k R' -> touches (edge_at t k) x -> touches (edge_at t k) z ->
              linked (sub R') x z).
    { intros k x z Hk Tx Tz.
      assert (He : linked (sub R') (fst (edge_at t k)) (snd (edge_at t k))).
      { apply linked_edge. rewrite <- surjective_pairing. apply in_map; auto. }
      destruct Tx as [<-|<-], Tz as [<-|<-]; auto using linked_sym; constructor. }
    assert (Hcase : forall k, In k R -> In k R' \/ exists l, In (k, l) sel).
    { intros k Hk. destruct (in_dec Nat.eq_dec k (map fst sel)) as [Hin|Hin].
      - right. apply in_map_iff in Hin as ([k' l] & E & Hin). cbn in E. subst. eauto.
      - left. apply HR'. auto. }
    assert (Hends : forall k l x z, In (k, l) sel -> touches (edge_at t k) x ->
              touches (edge_at t k) z -> x <> z ->
              x = leaf (k, l) /\ z = stem (k, l) \/ x = stem (k, l) /\ z = leaf (k, l)).
    { intros k l x z _ Tx Tz N. destruct (leaf_stem (k, l)) as (_ & _ & H & _).
      destruct (H x Tx), (H z Tz); subst; auto; congruence. }
    split.
    - intros Hne'.
      assert (Hfar : forall y, joins R' y -> forall x, linked (sub R) x y ->
                linked (sub R') x y
                \/ exists p, In p sel /\ leaf p = x /\ linked (sub R') (stem p) y).
      { intros y (ky & Hky & Ty) x Hl. revert Ty.
        induction Hl as [x | x z y Hs Hl IH]; intros Ty; [left; constructor|].
        specialize (IH Ty). destruct (Hstep x z Hs) as (k & Hk & Tx & Tz & N).
        destruct (Hcase k Hk) as [Hk'|(l & Hkl)].
        - destruct IH as [IH|(p & Hp & E & IH)].
          + left. eapply linked_trans; [eapply Hlink; eauto | exact IH].
          + exfalso. rewrite <- E in Tz. assert (k = fst p) by (eapply Hown; eauto).
            apply HR' in Hk' as [_ Hk']. apply Hk'. subst k. apply in_map; auto.
        - destruct (Hends k l x z Hkl Tx Tz N) as [[Ex Ez]|[Ex Ez]].
          + right. exists (k, l). split; [auto|]. split; [auto|].
            destruct IH as [IH|(p & Hp & E & IH)]; [rewrite <- Ez; exact IH|].
            exfalso. apply (Hnl (k, l) p Hkl Hp). congruence.
          + left. destruct IH as [IH|(p & Hp & E & IH)].
            * exfalso.
              assert (Hno : forall j w, In j R' -> touches (edge_at t j) w -> w <> z).
              { intros j w Hj Tj ->. rewrite Ez in Tj. apply HR' in Hj as [Hj1 Hj2].
                apply Hj2. rewrite (Hown (k, l) j Hkl Hj1 Tj).
                apply in_map_iff. exists (k, l). auto. }
              apply linked_first in IH as [IH|(w & Hs')].
              -- apply (Hno ky y Hky Ty). congruence.
              -- destruct Hs' as [Hs'|Hs']; apply in_map_iff in Hs' as (j & Ej & Hj);
                   apply (Hno j z Hj); auto; rewrite Ej; unfold touches; cbn; auto.
            * rewrite Ex. assert (fst p = k).
              { symmetry. apply (Hown p k Hp Hk). rewrite E. exact Tz. }
              destruct p as [k' l']. cbn in H. subst k'.
              apply select_in in Hp as [_ Hp], Hkl as [_ Hkl].
              assert (l = l') by congruence. subst l'. exact IH. }
      assert (Hjoin : forall x, joins R' x -> joins R x).
      { intros x (k & Hk & T). exists k. split; [apply HR'; auto | auto]. }
      split.
      + intros x y Hx Hy. destruct (Hfar y Hy x (Hw x y (Hjoin x Hx) (Hjoin y Hy)))
          as [H|(p & Hp & E & _)]; [exact H|]. exfalso.
        destruct Hx as (k & Hk & T). rewrite <- E in T. apply HR' in Hk as [Hk1 Hk2].
        apply Hk2. rewrite (Hown p k Hp Hk1 T). apply in_map; auto.
      + intros p Hp. destruct R' as [|k0 R0] eqn:ER; [congruence|].
        assert (Hk0 : In k0 (k0 :: R0)) by (left; auto).
        set (y := fst (edge_at t k0)).
        assert (Hy : joins (k0 :: R0) y) by (exists k0; unfold touches; auto).
        assert (Hs : joins R (stem p)).
        { destruct p as [k l]. exists k. split; [eapply Hsel; eauto | apply (leaf_stem (k, l))]. }
        destruct (Hfar y Hy (stem p) (Hw _ _ Hs (Hjoin y Hy))) as [H|(q & Hq & E & _)].
        * apply linked_first in H as [H|(z & Hs')]; [rewrite H; exact Hy|].
          destruct Hs' as [Hs'|Hs']; apply in_map_iff in Hs' as (j & Ej & Hj); exists j;
            (split; [exact Hj|]); rewrite Ej; unfold touches; cbn; auto.
        * exfalso. apply (Hnl p q Hp Hq). congruence.
    - intros He p q Hp Hq.
      assert (Hall : forall k, In k R -> exists l, In (k, l) sel).
      { intros k Hk. destruct (Hcase k Hk) as [H|H]; [rewrite He in H; destruct H | exact H]. }
      assert (Hfar : forall x, linked (sub R) x (stem q) ->
                x = stem q \/ exists p, In p sel /\ leaf p = x /\ stem p = stem q).
      { intros x Hl. remember (stem q) as y eqn:Ey.
        induction Hl as [x | x z y Hs Hl IH]; [left; auto|]. specialize (IH Ey).
        destruct (Hstep x z Hs) as (k & Hk & Tx & Tz & N). destruct (Hall k Hk) as (l & Hkl).
        destruct (Hends k l x z Hkl Tx Tz N) as [[Ex Ez]|[Ex Ez]].
        - destruct IH as [IH|(p' & Hp' & E & IH)].
          + right. exists (k, l). split; [auto|]. split; congruence.
          + exfalso. apply (Hnl (k, l) p' Hkl Hp'). congruence.
        - destruct IH as [IH|(p' & Hp' & E & IH)].
          + exfalso. apply (Hnl q (k, l) Hq Hkl). congruence.
          + left. assert (fst p' = k).
            { symmetry. apply (Hown p' k Hp' Hk). rewrite E. exact Tz. }
            destruct p' as [k' l']. cbn in H. subst k'.
            apply select_in in Hp' as [_ Hp'], Hkl as [_ Hkl].
            assert (l = l') by congruence. subst l'. congruence. }
      assert (J : forall p, In p sel -> joins R (stem p)).
      { intros [k l] H. exists k. split; [eapply Hsel; eauto | apply (leaf_stem (k, l))]. }
      destruct (Hfar (stem p) (Hw _ _ (J p Hp) (J q Hq))) as [H|(p' & Hp' & E & _)]; [exact H|].
      exfalso. apply (Hnl p p' Hp Hp'). congruence.
  Qed.

  (** Each peeled edge hangs on a node peeled later or on the node left over. *)
  Fixpoint hangs (L : list (nat * bool)) (z : nat) : Prop :=
    match L with
    | [] => True
    | p :: L' => (stem p = z \/ exists q, In q L' /\ leaf q = stem p) /\ hangs L' z
    end.

  Lemma hangs_app : forall A L z,
    (forall p, In p A -> stem p = z \/ exists q, In q L /\ leaf q = stem p) ->
    hangs L z -> hangs (A ++ L) z.
  Proof.
    induction A as [|p A IH]; intros L z HA HL; [exact HL|]. cbn [app hangs]. split.
    - destruct (HA p (or_introl eq_refl)) as [H|(q & Hq & H)]; [auto|]. right.
      exists q. split; [apply in_app_iff; auto | auto].
    - apply IH; auto. intros; apply HA; cbn; auto.
  Qed.

  Lemma rest_idem : forall visited visited',
    filter (fun k => negb (mem k (visited' ++ visited))) (rest visited) = rest (visited' ++ visited).
  Proof.
    intros visited visited'. unfold rest.
    induction (seq 0 (length t)) as [|k l IH]; [reflexivity|]. cbn [filter].
    destruct (mem k visited) eqn:M; cbn [negb filter].
    - assert (M' : mem k (visited' ++ visited) = true)
        by (apply mem_In, in_app_iff; right; apply mem_In; auto).
      rewrite M'. exact IH.
    - rewrite IH. reflexivity.
  Qed.

  Lemma peel_loop_spec : forall fuel visited cur acc,
    rest visited <> [] -> whole (rest visited) -> length (rest visited) <= fuel ->
    exists L p,
      peel_loop enum fuel cond t below visited (rest visited) cur acc = Some (acc ++ L, p)
      /\ Permutation (map fst L) (rest visited)
      /\ In p L
      /\ hangs L (stem p)
      /\ (forall x, joins (rest visited) x -> x = stem p \/ exists q, In q L /\ leaf q = x).
  Proof.
    induction fuel as [|f IH]; intros visited cur acc Hne Hw Hlen.
    { destruct (rest visited); [congruence | cbn in Hlen; lia]. }
    assert (Hrd := round visited Hw Hne). cbv zeta in Hrd.
    cbn [peel_loop]. destruct (rest visited) as [|k0 R0] eqn:ER; [congruence|].
    rewrite <- ER in *. clear k0 R0 ER.
    set (sel := select enum cond t below visited (rest visited)) in *.
    set (cost := fun p : nat * bool => conditioning_count enum (t :: below)
                    (get_var enum t below (fst p) (snd p))).
    rewrite rest_idem. set (R' := rest (map fst sel ++ visited)) in *.
    assert (HR' : forall k, In k R' <-> In k (rest visited) /\ ~ In k (map fst sel)).
    { intros k. unfold R'. rewrite !in_rest, in_app_iff. tauto. }
    assert (Hnd : NoDup (rest visited)) by apply NoDup_filter, seq_NoDup.
    assert (Hperm : Permutation (map fst sel ++ R') (rest visited)).
    { apply NoDup_Permutation; auto.
      - assert (N1 := select_nodup visited (rest visited) Hnd). fold sel in N1.
        assert (N2 : NoDup R') by apply NoDup_filter, seq_NoDup.
        assert (N3 : forall x, In x (map fst sel) -> ~ In x R')
          by (intros x H1 H2; apply HR' in H2; tauto).
        clearbody R'. clear -N1 N2 N3. induction (map fst sel) as [|x l IHl]; [exact N2|]. cbn [app].
        apply NoDup_cons_iff in N1 as [A B]. constructor.
        + rewrite in_app_iff. intros [H|H]; [auto|]. apply (N3 x); cbn; auto.
        + apply IHl; auto. intros; apply N3; cbn; auto.
      - intros x. rewrite in_app_iff, HR'. split.
        + intros [H|[H _]]; auto. apply in_map_iff in H as ([k l] & <- & H).
          apply select_in in H. tauto.
        + intros H. destruct (in_dec Nat.eq_dec x (map fst sel)); auto. }
    assert (Hsn : sel <> []).
    { destruct (leaf_exists visited Hne) as (k & x & Hk & T & D). intros C.
      destruct (peel enum cond t below visited k) as [l|] eqn:P.
      - assert (In (k, l) sel) by (apply select_in; auto). rewrite C in H. destruct H.
      - apply (peel_none visited k x P T D). }
    assert (Hsl : 1 <= length (map fst sel)) by (rewrite map_length; destruct sel; [congruence | cbn; lia]).
    assert (Hl' := Permutation_length Hperm). rewrite app_length in Hl'.
    assert (Hins : forall p, In p (sort_by cost sel) <-> In p sel).
    { intros p. split; apply Permutation_in; [apply Permutation_sym|]; apply sort_perm. }
    destruct (list_eq_dec Nat.eq_dec R' []) as [E|E].
    - (* last round *)
      destruct Hrd as [_ Hrd]. specialize (Hrd E).
      rewrite E. destruct f as [|f]; cbn [peel_loop].
      all: exists (sort_by cost sel), (after_round (rest visited) sel cur).
      all: assert (Hall : forall j, In j (rest visited) ->
             exists l, peel enum cond t below visited j = Some l)
        by (intros j Hj; destruct (in_dec Nat.eq_dec j (map fst sel)) as [H|H];
            [apply in_map_iff in H as ([k l] & <- & H); apply select_in in H; exists l; tauto
            | assert (H' : In j R') by (apply HR'; auto); rewrite E in H'; destruct H']).
      all: destruct (select_last visited (rest visited) (fst cur) (snd cur) Hne Hall) as [S1 S2];
           fold sel in S1.
      all: assert (Hlast : In (after_round (rest visited) sel cur) sel)
        by (unfold after_round; apply select_in; auto).
      all: split; [reflexivity|].
      all: split; [eapply Permutation_trans;
             [apply Permutation_map, Permutation_sym, sort_perm
             | rewrite E, app_nil_r in Hperm; exact Hperm]|].
      all: split; [apply Hins; exact Hlast|].
      all: split; [rewrite <- (app_nil_r (sort_by cost sel)); apply hangs_app;
             [intros p Hp; left; apply Hins in Hp; apply Hrd; auto | exact I]|].
      all: intros x (k & Hk & T); destruct (Hall k Hk) as (l & Hl);
           assert (Hkl : In (k, l) sel) by (apply select_in; auto);
           destruct (leaf_stem (k, l)) as (_ & _ & Hls & _);
           destruct (Hls x T) as [->| ->];
           [right; exists (k, l); rewrite Hins; auto | left; apply Hrd; auto].
    - destruct Hrd as [Hrd _]. destruct (Hrd E) as [Hw' Hst].
      destruct (IH (map fst sel ++ visited) (after_round (rest visited) sel cur)
                  (acc ++ sort_by cost sel) E Hw' ltac:(fold R'; lia))
        as (L & p & H1 & H2 & H3 & H4 & H5).
      fold R' in H1, H2, H5.
      exists (sort_by cost sel ++ L), p.
      split; [rewrite app_assoc; exact H1|]. split.
      { rewrite map_app. eapply Permutation_trans; [|exact Hperm].
        apply Permutation_app; [|exact H2].
        apply Permutation_map, Permutation_sym, sort_perm. }
      split; [apply in_app_iff; auto|]. split.
      { apply hangs_app; [|exact H4]. intros q Hq. apply Hins in Hq.
        destruct (H5 (stem q) (Hst q Hq)) as [H|(r & Hr & H)]; eauto. }
      intros x (k & Hk & T). destruct (in_dec Nat.eq_dec k (map fst sel)) as [Hin|Hin].
      + apply in_map_iff in Hin as ([k' l] & Ek & Hin). cbn in Ek. subst k'.
        destruct (leaf_stem (k, l)) as (_ & _ & Hls & _). destruct (Hls x T) as [->| ->].
        * right. exists (k, l). split; [apply in_app_iff; left; apply Hins; auto | auto].
        * destruct (H5 _ (Hst _ Hin)) as [H|(r & Hr & H)]; [auto|]. right. exists r.
          split; [apply in_app_iff; auto | auto].
      + assert (Hx : joins R' x) by (exists k; split; [apply HR'; auto | auto]).
        destruct (H5 x Hx) as [H|(r & Hr & H)]; [auto|]. right. exists r.
        split; [apply in_app_iff; auto | auto].
  Qed.
End Peeling.

(** * The sampling order *)

Lemma rest_nil : forall t, rest t [] = seq 0 (length t).
Proof.
  intros t. unfold rest. induction (seq 0 (length t)) as [|k l IH]; [reflexivity|].
  cbn. f_equal. exact IH.
Qed.

Lemma sub_all : forall t, sub t (seq 0 (length t)) = t.
Proof.
  intros t. unfold sub, edge_at. apply nth_ext with (d := (0, 0)) (d' := (0, 0)).
  - rewrite map_length, seq_length. reflexivity.
  - intros k Hk. rewrite map_length, seq_length in Hk.
    rewrite (nth_indep _ (0, 0) (nth 0 t (0, 0))) by (rewrite map_length, seq_length; auto).
    change (nth 0 t (0, 0)) with ((fun k => nth k t (0, 0)) 0).
    rewrite map_nth, seq_nth by auto. reflexivity.
Qed.

Lemma joins_all : forall m t, spanning_tree m t -> 2 <= m -> forall x, x < m ->
  joins t (seq 0 (length t)) x.
Proof.
  intros m t Ht Hm x Hx.
  destruct Ht as (H1 & H2 & H3).
  set (y := if x =? 0 then 1 else 0).
  assert (Hy : y < m /\ x <> y) by (unfold y; destruct (Nat.eqb_spec x 0); lia).
  destruct (linked_first _ _ _ (H2 x y Hx (proj1 Hy))) as [E|(z & [Hz|Hz])]; [lia | |];
    apply in_edge in Hz as (k & Hk & He); exists k; rewrite in_seq, He; unfold touches; cbn;
    (split; [unfold tree, edge in *; lia | auto]).
Qed.

Lemma covered : forall below n r, regular n below -> length below < n -> r < n ->
  exists x, x < n - length below /\ In r (vars below x).
Proof.
  induction below as [|t below IH]; intros n r Hr Hl Hrn.
  - exists r. cbn. split; [lia | auto].
  - destruct Hr as (R1 & R2 & _). cbn [length] in *.
    destruct (IH n r R1 ltac:(lia) Hrn) as (y & Hy & Hin).
    destruct (joins_all _ t R2 ltac:(lia) y Hy) as (k & Hk & T).
    exists k. apply in_seq in Hk. assert (E := tree_edges _ _ R2). split; [lia|].
    apply vars_cons. destruct T as [->| ->]; auto.
Qed.

Section Order.
  Variable enum : list nat -> list nat.
  Hypothesis enum_ok : enumerates enum.

  Lemma side : forall n t below k lft, regular n (t :: below) -> k < length t ->
    In (get_var enum t below k lft) (vars below (leaf t (k, lft)))
    /\ ~ In (get_var enum t below k lft) (vars below (stem t (k, lft)))
    /\ forall x, In x (vars (t :: below) k) -> x <> get_var enum t below k lft ->
         In x (vars below (stem t (k, lft))).
  Proof.
    intros n t below k lft Hr Hk.
    destruct (C49_conditioning_sets enum enum_ok n [] t below k Hr Hk) as (_ & _ & H1 & H2 & _).
    unfold get_var, leaf, stem. cbn [fst snd]. destruct lft.
    - destruct (proj1 (H1 _) eq_refl) as [A B]. split; [exact A|]. split; [exact B|].
      intros x Hx N. apply vars_cons in Hx as [Hx|Hx]; [|exact Hx].
      destruct (in_dec Nat.eq_dec x (vars below (snd (edge_at t k)))); [auto|].
      exfalso. apply N, H1. auto.
    - destruct (proj1 (H2 _) eq_refl) as [A B]. split; [exact A|]. split; [exact B|].
      intros x Hx N. apply vars_cons in Hx as [Hx|Hx]; [exact Hx|].
      destruct (in_dec Nat.eq_dec x (vars below (fst (edge_at t k)))); [auto|].
      exfalso. apply N, H2. auto.
  Qed.

  Variable cond : list nat.
  Variable n : nat.
  Variable ts : list tree.
  Hypothesis Hreg : regular n ts.

  Lemma entry_var_child : forall l k lft t below, tree_on_level ts l t below ->
    entry_var enum ts (ChildEntry l k lft) = get_var enum t below k lft.
  Proof.
    intros l k lft t below [(above & E) <-]. cbn [entry_var]. rewrite E, suffix_skipn.
    reflexivity.
  Qed.

  Fixpoint elim (l : list entry) : Prop :=
    match l with
    | [] => True
    | e :: r =>
        match e with
        | RootEntry _ => True
        | ChildEntry lv k lft =>
            exists t below, tree_on_level ts lv t below /\ k < length t
              /\ forall x, In x (vars (t :: below) k) -> x <> get_var enum t below k lft ->
                   In x (map (entry_var enum ts) r)
        end /\ elim r
    end.

  Lemma level_regular : forall l t below, tree_on_level ts l t below -> regular n (t :: below).
  Proof. intros l t below [(above & E) _]. rewrite E in Hreg. eapply regular_suffix; eauto. Qed.

  Lemma level_below : forall l t t' below, tree_on_level ts l t (t' :: below) ->
    tree_on_level ts (length below) t' below.
  Proof.
    intros l t t' below [(above & E) _]. split; [|reflexivity].
    exists (above ++ [t]). rewrite <- app_assoc. exact E.
  Qed.

  Lemma node_range : forall t t' below k lft, regular n (t :: t' :: below) -> k < length t ->
    stem t (k, lft) < length t' /\ leaf t (k, lft) < length t'.
  Proof.
    intros t t' below k lft (R1 & R2 & _) Hk.
    assert (O := edge_order _ _ k R2 Hk). cbn [length] in O.
    assert (E := tree_edges _ _ (proj1 (proj2 R1))).
    unfold stem, leaf. cbn [fst snd]. destruct lft; lia.
  Qed.

  Lemma marginalize_spec : forall below t k lft,
    tree_on_level ts (length below) t below -> k < length t ->
    elim (marginalize enum cond t below k lft)
    /\ incl (vars below (stem t (k, lft)))
            (map (entry_var enum ts) (marginalize enum cond t below k lft))
    /\ length (marginalize enum cond t below k lft) = S (length below).
  Proof.
    induction below as [|t' below IH]; intros t k lft Hlev Hk; cbn [marginalize].
    - split; [cbn; auto|]. split; [|reflexivity]. cbn [vars map entry_var].
      unfold stem. cbn [fst snd]. apply incl_refl.
    - assert (Hr := level_regular _ _ _ Hlev).
      destruct (node_range t t' below k lft Hr Hk) as [Hn _].
      change (if lft then snd (edge_at t k) else fst (edge_at t k)) with (stem t (k, lft)).
      set (node := stem t (k, lft)) in *.
      set (l' := is_left_branch enum cond t' below node).
      assert (Hlev' := level_below _ _ _ _ Hlev).
      destruct (IH t' node l' Hlev' Hn) as (I1 & I2 & I3).
      destruct (side n t' below node l' (proj1 Hr) Hn) as (S1 & S2 & S3).
      cbn [elim map length].
      split; [split; [exists t', below; split; [exact Hlev'|]; split; [exact Hn|];
              intros x Hx N; apply I2; apply S3; auto | exact I1]|].
      split; [|rewrite I3; reflexivity].
      intros x Hx. rewrite (entry_var_child _ _ _ _ _ Hlev').
      destruct (Nat.eq_dec x (get_var enum t' below node l')) as [->|N]; [left; auto|].
      right. apply I2, S3; auto.
  Qed.

  Lemma hanging : forall t below z M, tree_on_level ts (length below) t below ->
    elim M -> incl (vars below z) (map (entry_var enum ts) M) ->
    forall L, (forall p, In p L -> fst p < length t) -> hangs t L z ->
    let child := fun p : nat * bool => ChildEntry (length below) (fst p) (snd p) in
    elim (map child L ++ M)
    /\ (forall q, In q L ->
          incl (vars below (leaf t q)) (map (entry_var enum ts) (map child L ++ M)))
    /\ incl (vars below z) (map (entry_var enum ts) (map child L ++ M)).
  Proof.
    intros t below z M Hlev HM Hz L. induction L as [|p L IH]; intros HL Hh child.
    - cbn [map app]. split; [exact HM|]. split; [intros q []|]. exact Hz.
    - destruct Hh as [Hp Hh].
      destruct (IH (fun q Hq => HL q (or_intror Hq)) Hh) as (I1 & I2 & I3). fold child in I1, I2, I3.
      assert (Hr := level_regular _ _ _ Hlev). assert (Hk := HL p (or_introl eq_refl)).
      destruct p as [k lft]. cbn [fst] in Hk.
      destruct (side n t below k lft Hr Hk) as (S1 & S2 & S3).
      assert (Hst : incl (vars below (stem t (k, lft)))
                      (map (entry_var enum ts) (map child L ++ M))).
      { destruct Hp as [->|(q & Hq & <-)]; [exact I3 | apply I2; auto]. }
      cbn [map app]. change (child (k, lft)) with (ChildEntry (length below) k lft).
      split; [|split].
      + cbn [elim]. split; [|exact I1]. exists t, below. split; [exact Hlev|].
        split; [exact Hk|]. intros x Hx N. apply Hst, S3; auto.
      + intros q [<-|Hq]; cbn [map]; [|apply incl_tl; apply I2; auto].
        intros x Hx. rewrite (entry_var_child _ _ _ _ _ Hlev).
        destruct (Nat.eq_dec x (get_var enum t below k lft)) as [->|N]; [left; auto|].
        right. apply Hst, S3; auto. apply vars_cons. unfold leaf in Hx. cbn [fst snd] in Hx.
        destruct lft; auto.
      + cbn [map]. apply incl_tl. exact I3.
  Qed.

  Lemma entry_eqb_eq : forall a b, entry_eqb a b = true -> a = b.
  Proof.
    intros [r|l k x] [s|m j y]; cbn; try discriminate.
    - intros H. apply Nat.eqb_eq in H. congruence.
    - rewrite !andb_true_iff. intros [[H1 H2] H3].
      apply Nat.eqb_eq in H1, H2. apply eqb_prop in H3. congruence.
  Qed.

  Lemma distinct_ok : forall l, NoDup (map (entry_var enum ts) l) -> distinct l = true.
  Proof.
    induction l as [|e l IH]; intros H; [reflexivity|]. cbn [map] in H.
    apply NoDup_cons_iff in H as [H1 H2]. cbn [distinct]. rewrite (IH H2), andb_true_r.
    apply negb_true_iff. destruct (existsb (entry_eqb e) l) eqn:E; [|reflexivity].
    exfalso. apply existsb_exists in E as (f & Hf & He). apply entry_eqb_eq in He. subst f.
    apply H1. apply in_map; auto.
  Qed.

  Lemma replace_var : forall e, entry_var enum ts (replace_conditioned enum cond ts e)
                                = entry_var enum ts e.
  Proof. intros e. unfold replace_conditioned. destruct (mem _ cond); reflexivity. Qed.

  Lemma elim_at : forall E1 l k lft E2, elim (E1 ++ ChildEntry l k lft :: E2) ->
    exists t below, tree_on_level ts l t below /\ k < length t
      /\ forall x, In x (vars (t :: below) k) -> x <> get_var enum t below k lft ->
           In x (map (entry_var enum ts) E2).
  Proof.
    induction E1 as [|e E1 IH]; intros l k lft E2 H; cbn [app elim] in H.
    - exact (proj1 H).
    - apply (IH l k lft E2). exact (proj2 H).
  Qed.

  (** For every regular vine and every set of conditioning variables, the sampling
      order is found, holds every variable exactly once, and lists each entry after
      all the other variables of its edge. *)
  Theorem C48_order : ts <> [] -> length ts < n ->
    exists order, sampling_order enum cond n ts = Some order
      /\ complete_order enum cond n ts order.
  Proof.
    intros Hne Hlen. destruct ts as [|t below] eqn:Ets; [congruence|]. rewrite <- Ets in *.
    unfold sampling_order. rewrite Ets. cbv beta iota zeta. rewrite <- Ets.
    assert (Hlev : tree_on_level ts (length below) t below)
      by (split; [exists []; rewrite Ets; reflexivity | reflexivity]).
    assert (Hr := level_regular _ _ _ Hlev). assert (Hr' := Hr). destruct Hr' as (R1 & R2 & _).
    assert (Et := tree_edges _ _ R2).
    assert (Hbl : S (length below) < n) by (rewrite Ets in Hlen; exact Hlen).
    set (m := n - length below) in *.
    (* the peeled edges *)
    assert (Hstart : exists L p,
      (if length t =? 1 then
         Some ([(0, is_left_branch enum cond t below 0)], (0, is_left_branch enum cond t below 0))
       else peel_loop enum (length t) cond t below [] (seq 0 (length t)) (0, true) [])
      = Some (L, p)
      /\ Permutation (map fst L) (seq 0 (length t)) /\ In p L /\ hangs t L (stem t p)
      /\ (forall x, joins t (seq 0 (length t)) x ->
            x = stem t p \/ exists q, In q L /\ leaf t q = x)).
    { destruct (Nat.eqb_spec (length t) 1) as [E1|E1].
      - set (l := is_left_branch enum cond t below 0).
        exists [(0, l)], (0, l). rewrite E1. split; [reflexivity|]. split; [reflexivity|].
        split; [cbn; auto|]. split; [cbn; auto|].
        intros x (k & Hk & T). apply in_seq in Hk. assert (k = 0) by lia. subst k.
        destruct (leaf_stem m t R2 (0, l)) as (_ & _ & H & _).
        destruct (H x T) as [->| ->]; [right; exists (0, l); cbn; auto | auto].
      - assert (Hrn := rest_nil t).
        destruct (peel_loop_spec m t R2 enum cond below (length t) [] (0, true) [])
          as (L & p & H1 & H2 & H3 & H4 & H5).
        + rewrite Hrn. destruct (length t); [lia | discriminate].
        + rewrite Hrn. intros x y Hx Hy. rewrite sub_all. destruct R2 as (B1 & B2 & _).
          assert (J : forall x, joins t (seq 0 (length t)) x -> x < m).
          { intros z (k & Hk & T). apply in_seq in Hk. assert (O := B1 _ _ (edge_in t k ltac:(lia))).
            destruct T as [<-|<-]; lia. }
          apply B2; apply J; auto.
        + rewrite Hrn, seq_length. lia.
        + rewrite Hrn in *. exists L, p. cbn [app] in H1. auto. }
    destruct Hstart as (L & p & -> & P1 & P2 & P3 & P4). destruct p as [k lft].
    set (child := fun p : nat * bool => ChildEntry (length below) (fst p) (snd p)).
    set (M := marginalize enum cond t below k lft).
    assert (HL : forall q, In q L -> fst q < length t).
    { intros q Hq. assert (In (fst q) (seq 0 (length t)))
        by (eapply Permutation_in; [exact P1 | apply in_map; auto]).
      apply in_seq in H. lia. }
    destruct (marginalize_spec below t k lft Hlev (HL _ P2)) as (M1 & M2 & M3). fold M in M1, M2, M3.
    destruct (hanging t below (stem t (k, lft)) M Hlev M1 M2 L HL P3) as (K1 & K2 & K3).
    fold child in K1, K2, K3. set (E := map child L ++ M) in *.
    assert (HlE : length E = n).
    { unfold E. rewrite app_length, map_length, M3.
      apply Permutation_length in P1. rewrite map_length, seq_length in P1. lia. }
    assert (Hcov : incl (seq 0 n) (map (entry_var enum ts) E)).
    { intros r Hrr. apply in_seq in Hrr.
      destruct (covered below n r R1 ltac:(lia) ltac:(lia)) as (x & Hx & Hin).
      destruct (P4 x (joins_all m t R2 ltac:(lia) x Hx)) as [->|(q & Hq & <-)];
        [apply K3; auto | apply (K2 q Hq); auto]. }
    assert (Hperm : Permutation (seq 0 n) (map (entry_var enum ts) E)).
    { apply NoDup_Permutation_bis; [apply seq_NoDup | rewrite map_length, seq_length; lia | exact Hcov]. }
    set (order := rev (map (replace_conditioned enum cond ts) E)).
    assert (Hmap : map (entry_var enum ts) (map (replace_conditioned enum cond ts) E)
                   = map (entry_var enum ts) E)
      by (rewrite map_map; apply map_ext; exact replace_var).
    assert (Hvars : Permutation (map (entry_var enum ts) order) (seq 0 n)).
    { unfold order. rewrite map_rev, Hmap.
      eapply Permutation_trans; [apply Permutation_sym, Permutation_rev | apply Permutation_sym; exact Hperm]. }
    exists order. split.
    - assert (Hd : distinct order = true).
      { apply distinct_ok. eapply Permutation_NoDup; [apply Permutation_sym; exact Hvars | apply seq_NoDup]. }
      assert (Hlo : length order = n) by (unfold order; rewrite rev_length, map_length; exact HlE).
      fold order. rewrite Hd, Hlo, Nat.eqb_refl. reflexivity.
    - split; [exact Hvars|]. split.
      + intros r Hrc Hrn. assert (Hin : In r (map (entry_var enum ts) E)) by (apply Hcov, in_seq; lia).
        apply in_map_iff in Hin as (e & He & Hin). unfold order. apply -> in_rev.
        apply in_map_iff. exists e. split; [|exact Hin]. unfold replace_conditioned. rewrite He.
        rewrite (proj2 (mem_In r cond) Hrc). reflexivity.
      + intros o1 l j lf o2 Ho.
        assert (Hrev : map (replace_conditioned enum cond ts) E
                       = rev o2 ++ ChildEntry l j lf :: rev o1).
        { rewrite <- (rev_involutive (map _ E)). fold order. rewrite Ho, rev_app_distr.
          cbn [rev]. rewrite <- app_assoc. reflexivity. }
        apply map_eq_app in Hrev as (E1 & E2' & HE & HE1 & HE2).
        destruct E2' as [|e E2]; [discriminate|]. cbn [map] in HE2.
        injection HE2; intros HE2' He.
        assert (He' : e = ChildEntry l j lf /\ ~ In (entry_var enum ts e) cond).
        { unfold replace_conditioned in He. destruct (mem (entry_var enum ts e) cond) eqn:Mm;
            [discriminate|]. apply mem_not in Mm. auto. }
        destruct He' as [-> Hnc]. rewrite HE in K1.
        destruct (elim_at _ _ _ _ _ K1) as (t1 & below1 & T1 & T2 & T3).
        exists t1, below1. split; [exact T1|]. split; [exact T2|].
        rewrite (entry_var_child _ _ _ _ _ T1) in Hnc. split; [exact Hnc|].
        intros x Hx N. specialize (T3 x Hx N).
        assert (Hm2 : map (entry_var enum ts) E2 = map (entry_var enum ts) (rev o1)).
        { rewrite <- HE2', map_map. apply map_ext. intros a. symmetry. apply replace_var. }
        rewrite Hm2, map_rev in T3. apply in_rev in T3. exact T3.
  Qed.
End Order.
Print Assumptions C48_order.
