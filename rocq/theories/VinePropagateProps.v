(** C48, continued: the samples propagated through the vine reproduce the
    uniforms they were generated from. *)
Require Import List Arith Bool Lia Permutation.
From Verif Require Import VineModel VineGraph VineProps VineSampleProps.
Import ListNotations.

(** * Specification *)

Section Spec.
  Variables V C : Type.
  Variables hu hv hinv : C -> V -> V -> V.
  Variable copula : nat -> nat -> C.

  (** The value the fitted model attaches to one margin of an edge, at a point
      [x]: the two margins of the edge are transformed by the partial derivatives
      of its copula, starting from the values of the variables. *)
  Fixpoint model_value (x : nat -> V) (t : tree) (below : list tree) (k : nat)
      (first : bool) : V :=
    let a := fst (edge_at t k) in
    let b := snd (edge_at t k) in
    let h := (if first then hu else hv) (copula (length below) k) in
    match below with
    | [] => h (x a) (x b)
    | t' :: below' =>
        match shared_node_is_left (edge_at t' a) (edge_at t' b) with
        | Some (l1, l2) =>
            h (model_value x t' below' a (negb l1)) (model_value x t' below' b (negb l2))
        | None => x 0
        end
    end.

  (** The value attached to an entry of the sampling order. *)
  Definition entry_value (ts : list tree) (x : nat -> V) (e : entry) : V :=
    match e with
    | RootEntry r => x r
    | ChildEntry l k lft =>
        match skipn (length ts - S l) ts with
        | t :: below => model_value x t below k lft
        | [] => x 0
        end
    end.

  (** The uniforms, in sampling order: the given one for a conditioning variable,
      the next random one otherwise. *)
  Fixpoint uniforms (cond : list nat) (given : nat -> V) (vs : list nat) (rand : list V)
    : list V :=
    match vs with
    | [] => []
    | v :: vs' =>
        if mem v cond then given v :: uniforms cond given vs' rand
        else match rand with
             | [] => []
             | r :: rand' => r :: uniforms cond given vs' rand'
             end
    end.

  (** The inverse of the first margin's partial derivative, on the values [good]
      (the open unit interval). *)
  Definition inverts (good : V -> Prop) : Prop :=
    forall c p y, good p -> good y ->
      good (hinv c p y) /\ hu c (hinv c p y) y = p /\ good (hu c p y)
      /\ hinv c (hu c p y) y = p.

  (** A copula that does not change when its two variables are exchanged. *)
  Definition exchangeable : Prop := forall c x y, hv c x y = hu c y x.
End Spec.

(** * Proofs *)

Definition setx {V} (x : nat -> V) (q : nat) (y : V) : nat -> V :=
  fun j => if j =? q then y else x j.

Lemma setx_same : forall V (x : nat -> V) q y, setx x q y q = y.
Proof. intros. unfold setx. rewrite Nat.eqb_refl. reflexivity. Qed.
Lemma setx_other : forall V (x : nat -> V) q y j, j <> q -> setx x q y j = x j.
Proof. intros. unfold setx. destruct (Nat.eqb_spec j q); congruence. Qed.

Section Proofs.
  Variables V C : Type.
  Variables hu hv hinv : C -> V -> V -> V.
  Variable copula : nat -> nat -> C.
  Variable good : V -> Prop.
  Hypothesis inv_ok : inverts V C hu hinv good.
  Hypothesis exch : exchangeable V C hu hv.
  Variable enum : list nat -> list nat.
  Hypothesis enum_ok : enumerates enum.
  Variable n : nat.
  Variable ts : list tree.
  Hypothesis Hreg : regular n ts.

  Notation mv := (model_value V C hu hv copula).
  Notation state := (state V).

  Lemma children : forall l t t' below k, tree_on_level ts l t (t' :: below) -> k < length t ->
    exists l1 l2,
      shared_node_is_left (edge_at t' (fst (edge_at t k))) (edge_at t' (snd (edge_at t k)))
      = Some (l1, l2)
      /\ fst (edge_at t k) < length t' /\ snd (edge_at t k) < length t'
      /\ get_var enum t' below (fst (edge_at t k)) (negb l1) = get_var enum t (t' :: below) k true
      /\ get_var enum t' below (snd (edge_at t k)) (negb l2) = get_var enum t (t' :: below) k false.
  Proof.
    intros l t t' below k Hlev Hk. assert (Hr := level_regular n ts Hreg _ _ _ Hlev).
    destruct (C49_columns enum enum_ok n [] t t' below k Hr Hk)
      as (l1 & l2 & H1 & H2 & H3 & _). cbv zeta in *.
    exists l1, l2. split; [exact H1|].
    destruct (node_range n t t' below k true Hr Hk) as [N1 N2].
    unfold stem, leaf in N1, N2. cbn [fst snd] in N1, N2.
    split; [exact N2|]. split; [exact N1|]. split; [exact H2 | exact H3].
  Qed.

  Lemma mv_ext : forall below t k lft x x', tree_on_level ts (length below) t below ->
    k < length t -> (forall v, In v (vars (t :: below) k) -> x v = x' v) ->
    mv x t below k lft = mv x' t below k lft.
  Proof.
    induction below as [|t' below IH]; intros t k lft x x' Hlev Hk Hx.
    - cbn [model_value]. rewrite !Hx; [reflexivity | |]; apply vars_cons; cbn; auto.
    - destruct (children _ _ _ _ _ Hlev Hk) as (l1 & l2 & H1 & H2 & H3 & _).
      assert (Hlev' := level_below _ _ _ _ _ Hlev).
      cbn [model_value]. rewrite H1. f_equal; apply IH; auto;
        intros v Hv; apply Hx, vars_cons; auto.
  Qed.

  Lemma good_h : forall c x y lft, good x -> good y -> good ((if lft : bool then hu else hv) c x y).
  Proof.
    intros c x y lft Hx Hy. destruct lft; [|rewrite exch]; apply inv_ok; auto.
  Qed.

  Lemma mv_good : forall below t k lft x, tree_on_level ts (length below) t below ->
    k < length t -> (forall v, In v (vars (t :: below) k) -> good (x v)) ->
    good (mv x t below k lft).
  Proof.
    induction below as [|t' below IH]; intros t k lft x Hlev Hk Hx.
    - cbn [model_value]. apply good_h; apply Hx, vars_cons; cbn; auto.
    - destruct (children _ _ _ _ _ Hlev Hk) as (l1 & l2 & H1 & H2 & H3 & _).
      assert (Hlev' := level_below _ _ _ _ _ Hlev).
      cbn [model_value]. rewrite H1. apply good_h; apply IH; auto;
        intros v Hv; apply Hx, vars_cons; auto.
  Qed.

  Lemma level_vars : forall l t below k, tree_on_level ts l t below -> k < length t ->
    forall v, In v (vars (t :: below) k) -> v < n.
  Proof.
    intros l t below k Hlev Hk v Hv. assert (Hr := level_regular n ts Hreg _ _ _ Hlev).
    apply (vars_range (t :: below) n k Hr); [|exact Hv]. destruct Hr as (_ & R2 & _).
    assert (Et := tree_edges _ _ R2). unfold tree, edge in *. cbn [length] in *. lia.
  Qed.

  Definition set_of (s : state) (is_u : bool) : nat -> nat -> option V :=
    if is_u then set_u V s else set_v V s.

  Definition tidy (s : state) (x : nat -> V) (K : nat -> Prop) : Prop :=
    forall l t below k is_u w, tree_on_level ts l t below -> k < length t ->
      (forall v, In v (vars (t :: below) k) -> K v) ->
      set_of s is_u l k = Some w -> w = mv x t below k is_u.

  Definition known (s : state) (x : nat -> V) (K : nat -> Prop) : Prop :=
    forall r, K r -> roots V s r = Some (x r).

  Lemma read_ok : forall below t k is_u s x (K : nat -> Prop), tree_on_level ts (length below) t below ->
    k < length t -> (forall v, In v (vars (t :: below) k) -> K v) ->
    tidy s x K -> known s x K ->
    read V C hu hv copula s t below k is_u = Some (mv x t below k is_u).
  Proof.
    induction below as [|t' below IH]; intros t k is_u s x K Hlev Hk Hv Ht Hn.
    - cbn [read model_value]. fold (set_of s is_u). destruct (set_of s is_u (length (@nil tree)) k) eqn:E.
      + f_equal. exact (Ht _ _ _ _ _ _ Hlev Hk Hv E).
      + rewrite !Hn; [reflexivity | |]; apply Hv, vars_cons; cbn; auto.
    - destruct (children _ _ _ _ _ Hlev Hk) as (l1 & l2 & H1 & H2 & H3 & _).
      assert (Hlev' := level_below _ _ _ _ _ Hlev).
      cbn [read model_value]. fold (set_of s is_u).
      destruct (set_of s is_u (length (t' :: below)) k) eqn:E.
      + f_equal. rewrite (Ht _ _ _ _ _ _ Hlev Hk Hv E). reflexivity.
      + rewrite H1. rewrite (IH t' _ (negb l1) s x K Hlev' H2), (IH t' _ (negb l2) s x K Hlev' H3);
          auto; intros v Hx; apply Hv, vars_cons; auto.
  Qed.

  Lemma read_set : forall below t k is_u s w, set_of s is_u (length below) k = Some w ->
    read V C hu hv copula s t below k is_u = Some w.
  Proof.
    intros below t k is_u s w H. destruct below; cbn [read]; fold (set_of s is_u); rewrite H;
      reflexivity.
  Qed.

  Lemma put_same : forall s l k is_u w, set_of (put V s l k is_u w) is_u l k = Some w.
  Proof.
    intros s l k is_u w. unfold set_of, put, upd2. destruct is_u; cbn [set_u set_v];
      rewrite !Nat.eqb_refl; reflexivity.
  Qed.
  Lemma put_other : forall s l k is_u w l' k' b, (l', k', b) <> (l, k, is_u) ->
    set_of (put V s l k is_u w) b l' k' = set_of s b l' k'.
  Proof.
    intros s l k is_u w l' k' b N. unfold set_of, put, upd2.
    destruct is_u, b; cbn [set_u set_v]; auto;
      destruct (Nat.eqb_spec l' l), (Nat.eqb_spec k' k); cbn [andb]; auto; subst; congruence.
  Qed.
  Lemma put_roots : forall s l k is_u w, roots V (put V s l k is_u w) = roots V s.
  Proof. intros. unfold put. destruct is_u; reflexivity. Qed.

  (** Going down from an entry to the root of its variable. *)
  Lemma descend_ok : forall below t k lft s x (K : nat -> Prop) w,
    let q := get_var enum t below k lft in
    tree_on_level ts (length below) t below -> k < length t ->
    (forall v, In v (vars (t :: below) k) -> v <> q -> K v) -> ~ K q ->
    tidy s x K -> known s x K -> (forall r, K r -> good (x r)) ->
    set_of s lft (length below) k = Some w -> good w ->
    (forall y, mv (setx x q y) t below k lft = w ->
       tidy s (setx x q y) (fun v => K v \/ v = q)) ->
    exists y s', descend V C hu hv hinv copula s t below k lft = Some s'
      /\ good y
      /\ mv (setx x q y) t below k lft = w
      /\ tidy s' (setx x q y) (fun v => K v \/ v = q)
      /\ roots V s' q = Some y
      /\ (forall r, r <> q -> roots V s' r = roots V s r)
      /\ (forall l' t' below' k' b, tree_on_level ts l' t' below' -> k' < length t' ->
            set_of s' b l' k' = set_of s b l' k'
            \/ (forall v, In v (vars (t' :: below') k') -> K v \/ v = q)).
  Proof.
    induction below as [|t' below IH]; intros t k lft s x K w q Hlev Hk Hv Hq Ht Hn Hg Hs Hw Hy.
    - assert (Hr := level_regular n ts Hreg _ _ _ Hlev).
      destruct (side enum enum_ok n t [] k lft Hr Hk) as (S1 & S2 & S3). fold q in S1, S2, S3.
      cbn [vars In] in S1, S2.
      assert (E1 : leaf t (k, lft) = q) by tauto. set (b := stem t (k, lft)) in *.
      assert (Hb : K b).
      { apply Hv; [|intros ->; apply S2; auto]. apply vars_cons. unfold b, stem. cbn [fst snd vars In].
        destruct lft; auto. }
      cbn [descend]. rewrite (read_set [] t k lft s w Hs).
      destruct (inv_ok (copula 0 k) w (x b) Hw (Hg b Hb)) as (G1 & G2 & _).
      assert (Hbq : b <> q) by (intros E; apply Hq; rewrite <- E; exact Hb).
      set (y := hinv (copula 0 k) w (x b)) in *.
      assert (Hmv : mv (setx x q y) t [] k lft = w).
      { cbn [model_value length]. unfold leaf in E1. unfold b, stem in *. cbn [fst snd] in *.
        destruct lft.
        - rewrite E1, setx_same, setx_other by auto. exact G2.
        - rewrite E1, setx_same, setx_other by auto. rewrite exch. exact G2. }
      exists y, (put_root V s q y).
      split.
      { unfold leaf in E1. unfold y, b, stem in *. cbn [fst snd length] in *. destruct lft.
        - rewrite (Hn _ Hb), E1. reflexivity.
        - rewrite (Hn _ Hb), E1. reflexivity. }
      split; [exact G1|]. split; [exact Hmv|]. split; [|split; [|split]].
      + intros l t1 below1 k1 b1 w1 L1 L2 L3 L4. eapply (Hy y Hmv); eauto.
      + unfold put_root, upd. cbn [roots]. rewrite Nat.eqb_refl. reflexivity.
      + intros r Hr'. unfold put_root, upd. cbn [roots]. destruct (Nat.eqb_spec r q); congruence.
      + auto.
    - assert (Hr := level_regular n ts Hreg _ _ _ Hlev).
      destruct (side enum enum_ok n t (t' :: below) k lft Hr Hk) as (S1 & S2 & S3). fold q in S1, S2, S3.
      destruct (children _ _ _ _ _ Hlev Hk) as (l1 & l2 & C1 & C2 & C3 & C4 & C5).
      assert (Hlev' := level_below _ _ _ _ _ Hlev).
      set (a := fst (edge_at t k)) in *. set (b := snd (edge_at t k)) in *.
      (* the branch taken: node na goes down, node nb is known *)
      set (na := if lft then a else b). set (nb := if lft then b else a).
      set (la := if lft then negb l1 else negb l2). set (lb := if lft then negb l2 else negb l1).
      assert (Ena : leaf t (k, lft) = na) by reflexivity.
      assert (Enb : stem t (k, lft) = nb) by reflexivity.
      rewrite Ena in S1. rewrite Enb in S2, S3.
      assert (Hna : na < length t') by (unfold na; destruct lft; auto).
      assert (Hnb : nb < length t') by (unfold nb; destruct lft; auto).
      assert (Hva : get_var enum t' below na la = q).
      { unfold na, la, q. destruct lft; auto. }
      assert (HKb : forall v, In v (vars (t' :: below) nb) -> K v).
      { intros v Hin. apply Hv; [|intros ->; auto]. apply vars_cons. fold a b.
        unfold nb in Hin. destruct lft; auto. }
      assert (Hrb := read_ok below t' nb lb s x K Hlev' Hnb HKb Ht Hn).
      set (vb := mv x t' below nb lb) in *.
      assert (Gb : good vb) by (apply mv_good; auto).
      set (c := copula (length (t' :: below)) k).
      destruct (inv_ok c w vb Hw Gb) as (G1 & G2 & _). set (u := hinv c w vb) in *.
      set (s1 := put V s (length below) na la u).
      (* the value at the edge is determined by the value at na *)
      assert (Hup : forall y, mv (setx x q y) t' below na la = u ->
                mv (setx x q y) t (t' :: below) k lft = w).
      { intros y E. cbn [model_value]. fold a b. rewrite C1. fold c.
        assert (Eb : mv (setx x q y) t' below nb lb = vb).
        { apply mv_ext; auto. intros v Hin. apply setx_other. intros ->. apply Hq, HKb; auto. }
        unfold na, la, nb, lb in *. destruct lft; [|rewrite exch]; rewrite E, Eb; exact G2. }
      assert (Hvq : forall v, In v (vars (t' :: below) na) -> v <> q -> K v).
      { intros v Hin N. apply Hv; auto. apply vars_cons. fold a b. unfold na in Hin.
        destruct lft; auto. }
      assert (Hqin : In q (vars (t' :: below) na)) by exact S1.
      assert (Ht1 : tidy s1 x K).
      { intros l t1 below1 k1 b1 w1 L1 L2 L3 L4.
        destruct (Nat.eq_dec l (length below)) as [->|N1].
        - destruct (level_unique _ _ _ _ _ _ L1 Hlev') as [-> ->].
          destruct (Nat.eq_dec k1 na) as [->|N2]; [exfalso; apply Hq, L3; auto|].
          unfold s1 in L4. rewrite put_other in L4 by congruence. eapply Ht; eauto.
        - unfold s1 in L4. rewrite put_other in L4 by congruence. eapply Ht; eauto. }
      assert (Hy1 : forall y, mv (setx x q y) t' below na la = u ->
                tidy s1 (setx x q y) (fun v => K v \/ v = q)).
      { intros y E l t1 below1 k1 b1 w1 L1 L2 L3 L4.
        destruct (Nat.eq_dec l (length below)) as [->|N1];
          [destruct (Nat.eq_dec k1 na) as [->|N2];
             [destruct (bool_dec b1 la) as [->|N3]|]|].
        - destruct (level_unique _ _ _ _ _ _ L1 Hlev') as [-> ->].
          unfold s1 in L4. rewrite put_same in L4. injection L4; intros <-. symmetry. exact E.
        - unfold s1 in L4. rewrite put_other in L4 by congruence. eapply (Hy y (Hup y E)); eauto.
        - unfold s1 in L4. rewrite put_other in L4 by congruence. eapply (Hy y (Hup y E)); eauto.
        - unfold s1 in L4. rewrite put_other in L4 by congruence. eapply (Hy y (Hup y E)); eauto. }
      assert (IH' := IH t' na la s1 x K u). cbv zeta in IH'. rewrite Hva in IH'.
      destruct IH' as (y & s' & D1 & D2 & D3 & D4 & D5 & D6 & D7); auto.
      { unfold known, s1. rewrite put_roots. exact Hn. }
      { apply put_same. }
      exists y, s'. split.
      { cbn [descend]. rewrite (read_set (t' :: below) t k lft s w Hs). fold a b.
        rewrite C1. fold c. unfold nb, lb, na, la in *. destruct lft; rewrite Hrb; exact D1. }
      split; [exact D2|]. split; [apply Hup; exact D3|]. split; [exact D4|].
      split; [exact D5|]. split.
      { intros r N. rewrite D6 by auto. unfold s1. rewrite put_roots. reflexivity. }
      intros l' t1 below1 k' b1 L1 L2.
      destruct (D7 l' t1 below1 k' b1 L1 L2) as [E|E]; [rewrite E | right; exact E].
      destruct (Nat.eq_dec l' (length below)) as [->|N1];
        [|left; apply put_other; congruence].
      destruct (level_unique _ _ _ _ _ _ L1 Hlev') as [-> ->].
      destruct (Nat.eq_dec k' na) as [->|N2]; [|left; apply put_other; congruence].
      right. intros v Hin. destruct (Nat.eq_dec v q); auto.
  Qed.

  Notation var := (entry_var enum ts).
  Notation val := (entry_value V C hu hv copula ts).

  Lemma val_child : forall l k lft t below x, tree_on_level ts l t below ->
    val x (ChildEntry l k lft) = mv x t below k lft.
  Proof.
    intros l k lft t below x [(above & E) <-]. cbn [entry_value]. rewrite E, suffix_skipn.
    reflexivity.
  Qed.

  (** The entries still in the queue. *)
  Definition ready (K : nat -> Prop) (order : list entry) : Prop :=
    forall o1 l k lft o2, order = o1 ++ ChildEntry l k lft :: o2 ->
      exists t below, tree_on_level ts l t below /\ k < length t
        /\ ~ K (get_var enum t below k lft)
        /\ forall v, In v (vars (t :: below) k) -> v <> get_var enum t below k lft ->
             K v \/ In v (map var o1).

  Definition children_only (order : list entry) : list entry :=
    filter (fun e => match e with RootEntry _ => false | ChildEntry _ _ _ => true end) order.

  Lemma run_queue_ok : forall order s x (K : nat -> Prop) (w : entry -> V),
    (forall e, In e order -> match e with RootEntry r => K r | _ => True end) ->
    ready K order -> NoDup (map var (children_only order)) ->
    tidy s x K -> known s x K -> (forall r, K r -> good (x r)) ->
    (forall l k lft, In (ChildEntry l k lft) order ->
       set_of s lft l k = Some (w (ChildEntry l k lft)) /\ good (w (ChildEntry l k lft))) ->
    (forall l t below k b w', tree_on_level ts l t below -> k < length t ->
       set_of s b l k = Some w' ->
       (forall v, In v (vars (t :: below) k) -> K v) \/ In (ChildEntry l k b) order) ->
    exists s' x', run_queue V C hu hv hinv copula ts order s = Some s'
      /\ (forall r, K r -> x' r = x r)
      /\ (forall r, K r \/ In r (map var order) -> roots V s' r = Some (x' r) /\ good (x' r))
      /\ (forall l k lft, In (ChildEntry l k lft) order ->
            val x' (ChildEntry l k lft) = w (ChildEntry l k lft)).
  Proof.
    induction order as [|e order IH]; intros s x K w Hroot Hready Hnd Ht Hn Hg Hset Hpend.
    - exists s, x. cbn [run_queue map In]. repeat split; auto.
      + apply Hn. tauto.
      + apply Hg. tauto.
      + intros l k lft [].
    - destruct e as [r|l k lft].
      + cbn [run_queue].
        assert (Hr : K r) by (apply (Hroot (RootEntry r)); left; auto).
        destruct (IH s x K w) as (s' & x' & H1 & H2 & H3 & H4); auto.
        * intros e He. apply Hroot. right; auto.
        * intros o1 l k lft o2 E. destruct (Hready (RootEntry r :: o1) l k lft o2) as (t & below & A & B & D & F).
          { rewrite E. reflexivity. }
          exists t, below. split; [exact A|]; split; [exact B|]; split; [exact D|]. intros v Hv N.
          destruct (F v Hv N) as [G|[G|G]]; auto. cbn in G. subst v. auto.
        * intros l k lft Hin. apply Hset. right; auto.
        * intros l t below k b w' A B D. destruct (Hpend l t below k b w' A B D) as [G|[G|G]];
            [auto | discriminate | auto].
        * exists s', x'. split; [exact H1|]. split; [exact H2|]. split.
          -- intros r' [Hr'|Hr']; [auto|]. cbn [map In entry_var] in Hr'.
             destruct Hr' as [<-|Hr']; auto.
          -- intros l k lft [E|Hin]; [discriminate | auto].
      + cbn [run_queue].
        destruct (Hready [] l k lft order eq_refl) as (t & below & Hlev & Hk & HqK & Hvars).
        assert (Hl : length below = l) by exact (proj2 Hlev).
        assert (Hsk : skipn (length ts - S l) ts = t :: below).
        { destruct Hlev as [(above & E) <-]. rewrite E. apply suffix_skipn. }
        rewrite Hsk. set (q := get_var enum t below k lft) in *.
        assert (Evar : var (ChildEntry l k lft) = q) by (apply entry_var_child; exact Hlev).
        cbn [children_only filter] in Hnd. fold (children_only order) in Hnd.
        cbn [map] in Hnd. rewrite Evar in Hnd. apply NoDup_cons_iff in Hnd as [Hnq Hnd].
        destruct (Hset l k lft (or_introl eq_refl)) as [Hw Gw].
        set (w0 := w (ChildEntry l k lft)) in *.
        (* pending entries are about other variables *)
        assert (Hother : forall l' k' b', In (ChildEntry l' k' b') order ->
                  exists t1 below1, tree_on_level ts l' t1 below1 /\ k' < length t1
                    /\ In (get_var enum t1 below1 k' b') (vars (t1 :: below1) k')
                    /\ ~ K (get_var enum t1 below1 k' b') /\ get_var enum t1 below1 k' b' <> q).
        { intros l' k' b' Hin. apply in_split in Hin as (o1 & o2 & E).
          destruct (Hready (ChildEntry l k lft :: o1) l' k' b' o2) as (t1 & below1 & A & B & D & _).
          { rewrite E. reflexivity. }
          exists t1, below1. split; [exact A|]. split; [exact B|]. split.
          - destruct (side enum enum_ok n t1 below1 k' b' (level_regular n ts Hreg _ _ _ A) B) as (S1 & _).
            apply vars_cons. unfold leaf in S1. cbn [fst snd] in S1. destruct b'; auto.
          - split; [exact D|]. intros E'. apply Hnq. rewrite <- E'.
            rewrite <- (entry_var_child enum ts l' k' b' t1 below1 A).
            apply in_map. apply filter_In. split; [rewrite E; apply in_app_iff; right; left; auto | auto]. }
        destruct (descend_ok below t k lft s x K w0) as (y & s1 & D1 & D2 & D3 & D4 & D5 & D6 & D7); auto.
        * rewrite Hl. exact Hlev.
        * intros v Hv N. destruct (Hvars v Hv N) as [G|[]]. exact G.
        * rewrite Hl. exact Hw.
        * fold q. intros y Ey l' t1 below1 k' b' w' A B D F.
          destruct (Hpend l' t1 below1 k' b' w' A B F) as [G|[G|G]].
          -- rewrite (mv_ext below1 t1 k' b' (setx x q y) x).
             ++ eapply Ht; eauto.
             ++ destruct A as [A <-]. split; auto.
             ++ auto.
             ++ intros v Hv. apply setx_other. intros ->. apply HqK, G, Hv.
          -- injection G; intros; subst l' k' b'.
             destruct (level_unique _ _ _ _ _ _ A Hlev) as [-> ->].
             rewrite Hw in F. injection F; intros <-. symmetry. exact Ey.
          -- exfalso. destruct (Hother l' k' b' G) as (t2 & below2 & A' & B' & I1 & I2 & I3).
             destruct (level_unique _ _ _ _ _ _ A A') as [-> ->].
             destruct (D _ I1); auto.
        * fold q in D3, D4, D5, D6, D7. rewrite D1.
          set (K' := fun v => K v \/ v = q) in *. set (x1 := setx x q y) in *.
          assert (Hx1 : forall r, K r -> x1 r = x r).
          { intros r Hr. apply setx_other. intros ->. auto. }
          destruct (IH s1 x1 K' w) as (s' & x' & H1 & H2 & H3 & H4); auto.
          -- intros e He. specialize (Hroot e (or_intror He)). destruct e; auto. left; auto.
          -- intros o1 l' k' b' o2 E.
             destruct (Hready (ChildEntry l k lft :: o1) l' k' b' o2) as (t1 & below1 & A & B & D & F).
             { rewrite E. reflexivity. }
             destruct (Hother l' k' b') as (t2 & below2 & A' & B' & I1 & I2 & I3).
             { rewrite E. apply in_app_iff. right; left; auto. }
             destruct (level_unique _ _ _ _ _ _ A A') as [-> ->].
             exists t2, below2. split; [exact A|]. split; [exact B|]. split.
             { intros [G|G]; auto. }
             intros v Hv N. destruct (F v Hv N) as [G|G]; [left; left; auto|].
             cbn [map In] in G. rewrite Evar in G. destruct G as [G|G]; [left; right; auto | auto].
          -- intros r [Hr|Hr].
             ++ rewrite Hx1 by auto. rewrite D6; [apply Hn; auto | intros ->; auto].
             ++ subst r. rewrite D5. unfold x1. rewrite setx_same. reflexivity.
          -- intros r [Hr|Hr]; [rewrite Hx1; auto|]. subst r. unfold x1. rewrite setx_same. exact D2.
          -- intros l' k' b' Hin.
             destruct (Hother l' k' b' Hin) as (t2 & below2 & A' & B' & I1 & I2 & I3).
             destruct (D7 l' t2 below2 k' b' A' B') as [E|E].
             ++ rewrite E. apply Hset. right; auto.
             ++ exfalso. destruct (E _ I1); auto.
          -- intros l' t1 below1 k' b' w' A B F.
             destruct (D7 l' t1 below1 k' b' A B) as [E|E]; [|left; exact E].
             rewrite E in F. destruct (Hpend l' t1 below1 k' b' w' A B F) as [P|[P|P]].
             ++ left. intros v Hv. left. auto.
             ++ injection P; intros; subst l' k' b'.
                destruct (level_unique _ _ _ _ _ _ A Hlev) as [-> ->].
                left. intros v Hv. destruct (Nat.eq_dec v q) as [|N]; [right; auto|].
                left. destruct (Hvars v Hv N) as [G|[]]; exact G.
             ++ right. exact P.
          -- exists s', x'. split; [exact H1|]. split.
             { intros r Hr. rewrite H2 by (left; auto). auto. }
             split.
             { intros r [Hr|Hr]; [apply H3; left; left; auto|]. cbn [map In] in Hr. rewrite Evar in Hr.
               destruct Hr as [<-|Hr]; apply H3; [left; right; auto | auto]. }
             intros l' k' b' [E|Hin]; [|apply H4; auto].
             injection E; intros; subst l' k' b'.
             rewrite (val_child _ _ _ _ _ _ Hlev). fold w0; rewrite <- D3.
             apply mv_ext; [rewrite Hl; exact Hlev | exact Hk|].
             intros v Hv. rewrite H2; [reflexivity|]. destruct (Nat.eq_dec v q); [right; auto|].
             left. destruct (Hvars v Hv n0) as [G|[]]; exact G.
  Qed.
  (** The initial samples. *)
  Variable clip : V -> V.
  Variable cond : list nat.
  Variable given : nat -> V.

  Definition lookup (s : state) (e : entry) : option V :=
    match e with
    | RootEntry r => roots V s r
    | ChildEntry l k lft => set_of s lft l k
    end.

  Definition record (s : state) (e : entry) (w : V) : state :=
    match e with
    | RootEntry r => put_root V s r w
    | ChildEntry l k lft => put V s l k lft w
    end.

  Lemma record_same : forall s e w, lookup (record s e w) e = Some w.
  Proof.
    intros s [r|l k lft] w; cbn [lookup record].
    - unfold put_root, upd. cbn [roots]. rewrite Nat.eqb_refl. reflexivity.
    - apply put_same.
  Qed.
  Lemma record_other : forall s e w e', e' <> e -> lookup (record s e w) e' = lookup s e'.
  Proof.
    intros s [r|l k lft] w [r'|l' k' lft'] N; cbn [lookup record].
    - unfold put_root, upd. cbn [roots]. destruct (Nat.eqb_spec r' r); congruence.
    - reflexivity.
    - rewrite put_roots. reflexivity.
    - apply put_other. congruence.
  Qed.

  Lemma init_ok : forall order rand s, NoDup order ->
    length (filter (fun v => negb (mem v cond)) (map var order)) <= length rand ->
    exists s', init_samples enum V clip cond given ts order rand s = Some s'
      /\ map (fun e => lookup s' e) order
         = map (fun u => Some (clip u)) (uniforms V cond given (map var order) rand)
      /\ forall e, ~ In e order -> lookup s' e = lookup s e.
  Proof.
    induction order as [|e order IH]; intros rand s Hnd Hlen.
    - exists s. cbn. auto.
    - apply NoDup_cons_iff in Hnd as [Hne Hnd]. cbn [map filter] in Hlen.
      cbn [init_samples map uniforms]. destruct (mem (var e) cond); cbn [negb] in Hlen.
      + destruct (IH rand (record s e (clip (given (var e)))) Hnd Hlen) as (s' & H1 & H2 & H3).
        exists s'. split; [destruct e; exact H1|]. split.
        * cbn [map]. rewrite <- H2. rewrite H3 by auto. rewrite record_same. reflexivity.
        * intros e' N. rewrite H3 by (intros ?; apply N; right; auto).
          apply record_other. intros ->. apply N. left; auto.
      + destruct rand as [|u rand]; [cbn [length] in Hlen; lia|]. cbn [length] in Hlen.
        destruct (IH rand (record s e (clip u)) Hnd ltac:(lia)) as (s' & H1 & H2 & H3).
        exists s'. split; [destruct e; exact H1|]. split.
        * cbn [map]. rewrite <- H2. rewrite H3 by auto. rewrite record_same. reflexivity.
        * intros e' N. rewrite H3 by (intros ?; apply N; right; auto).
          apply record_other. intros ->. apply N. left; auto.
  Qed.

  Lemma filter_perm_length : forall (p : nat -> bool) l l', Permutation l l' ->
    length (filter p l) = length (filter p l').
  Proof.
    induction 1; cbn [filter]; auto.
    - destruct (p x); cbn [length]; auto.
    - destruct (p x), (p y); reflexivity.
    - congruence.
  Qed.

  Lemma nodup_filter_map : forall order, NoDup (map var order) ->
    NoDup (map var (children_only order)).
  Proof.
    induction order as [|e order IH]; intros H; cbn [children_only filter map]; [constructor|].
    cbn [map] in H. apply NoDup_cons_iff in H as [H1 H2]. fold (children_only order).
    destruct e; auto. cbn [map]. constructor; auto. intros Hin. apply H1.
    apply in_map_iff in Hin as (e & <- & He). apply in_map. apply filter_In in He. tauto.
  Qed.

  Lemma propagate_ok : forall order rand, complete_order enum cond n ts order ->
    (forall v, good (clip v)) ->
    length (filter (fun v => negb (mem v cond)) (seq 0 n)) <= length rand ->
    exists s x, propagate enum V C hu hv hinv copula clip cond given ts order rand = Some s
      /\ (forall r, r < n -> roots V s r = Some (x r) /\ good (x r))
      /\ map (val x) order = map clip (uniforms V cond given (map var order) rand).
  Proof.
    intros order rand (Hperm & Hcond & Hchild) Hclip Hlen.
    assert (Hnd : NoDup (map var order))
      by (eapply Permutation_NoDup; [apply Permutation_sym; exact Hperm | apply seq_NoDup]).
    assert (Hnd' := NoDup_map_inv _ _ Hnd).
    destruct (init_ok order rand (empty_state V) Hnd') as (s0 & I1 & I2 & I3).
    { rewrite (filter_perm_length _ _ _ Hperm). exact Hlen. }
    set (us := uniforms V cond given (map var order) rand) in *.
    assert (Hval : forall e, In e order -> exists w, lookup s0 e = Some w /\ good w).
    { intros e He. assert (Hin : In (lookup s0 e) (map (fun u => Some (clip u)) us)).
      { rewrite <- I2. apply in_map_iff. eauto. }
      apply in_map_iff in Hin as (u & Hu & _). exists (clip u). auto. }
    set (w := fun e => match lookup s0 e with Some w => w | None => given 0 end).
    assert (Hw : forall e, In e order -> lookup s0 e = Some (w e) /\ good (w e)).
    { intros e He. destruct (Hval e He) as (w1 & E & G). unfold w. rewrite E. auto. }
    assert (Hmw : map w order = map clip us).
    { assert (E : map Some (map w order) = map Some (map clip us)).
      { rewrite !map_map. rewrite <- I2. apply map_ext_in. intros e He. symmetry. apply Hw, He. }
      revert E. generalize (map w order) (map clip us). induction l as [|a l IH]; intros [|b l'] E;
        cbn [map] in E; try discriminate; [reflexivity|]. injection E; intros E' ->. f_equal. auto. }
    set (K := fun r => In (RootEntry r) order).
    destruct (run_queue_ok order s0 (fun r => w (RootEntry r)) K w) as (s' & x' & R1 & R2 & R3 & R4).
    - intros [r|] He; [exact He | exact I].
    - intros o1 l k lft o2 E. destruct (Hchild o1 l k lft o2 E) as (t & below & A & B & D & F).
      exists t, below. split; [exact A|]. split; [exact B|]. split; [|auto].
      intros Hk. unfold K in Hk.
      assert (Hin : In (ChildEntry l k lft) order) by (rewrite E; apply in_app_iff; right; left; auto).
      apply in_split in Hk as (p1 & p2 & E2). rewrite E2 in Hnd. rewrite map_app in Hnd.
      cbn [map] in Hnd. apply NoDup_remove_2 in Hnd. apply Hnd. rewrite <- map_app.
      change (var (RootEntry (get_var enum t below k lft))) with (get_var enum t below k lft).
      rewrite <- (entry_var_child enum ts l k lft t below A). apply in_map.
      rewrite E2 in Hin. apply in_app_iff in Hin. apply in_app_iff.
      destruct Hin as [Hin|[Hin|Hin]]; [auto | discriminate | auto].
    - apply nodup_filter_map; auto.
    - intros l t below k b w' A B D E. exfalso.
      destruct (in_dec (fun a b : entry => ltac:(repeat decide equality)) (ChildEntry l k b) order)
        as [Hin|Hin].
      + apply in_split in Hin as (o1 & o2 & Eo).
        destruct (Hchild o1 l k b o2 Eo) as (t' & below' & A' & B' & _ & _).
        destruct (level_unique _ _ _ _ _ _ A A') as [-> ->].
        destruct (side enum enum_ok n t' below' k b (level_regular n ts Hreg _ _ _ A) B) as (S1 & _).
        assert (Hin : In (get_var enum t' below' k b) (vars (t' :: below') k)).
        { apply vars_cons. unfold leaf in S1. cbn [fst snd] in S1. destruct b; auto. }
        specialize (D _ Hin). unfold K in D. rewrite Eo in D, Hnd.
        rewrite map_app in Hnd. cbn [map] in Hnd. apply NoDup_remove_2 in Hnd. apply Hnd.
        rewrite <- map_app, (entry_var_child enum ts l k b t' below' A).
        change (get_var enum t' below' k b) with (var (RootEntry (get_var enum t' below' k b))).
        apply in_map. apply in_app_iff in D. apply in_app_iff.
        destruct D as [D|[D|D]]; [auto | discriminate | auto].
      + specialize (I3 _ Hin). cbn [lookup] in I3. rewrite I3 in E. destruct b; discriminate.
    - intros r Hr. apply (Hw (RootEntry r) Hr).
    - intros r Hr. apply (Hw (RootEntry r) Hr).
    - intros l k lft Hin. apply (Hw _ Hin).
    - intros l t below k b w' A B E. right.
      destruct (in_dec (fun a b : entry => ltac:(repeat decide equality)) (ChildEntry l k b) order)
        as [Hin|Hin]; [exact Hin|]. exfalso.
      specialize (I3 _ Hin). cbn [lookup] in I3. rewrite I3 in E. destruct b; discriminate.
    - exists s', x'. split; [unfold propagate; rewrite I1; exact R1|]. split.
      + intros r Hr. apply R3. right. eapply Permutation_in; [apply Permutation_sym; exact Hperm|].
        apply in_seq. lia.
      + rewrite <- Hmw. apply map_ext_in. intros [r|l k lft] He; [|auto].
        cbn [entry_value]. apply R2. exact He.
  Qed.

  (** The values along the order determine the variables. *)
  Lemma order_unique : forall x x' order, complete_order enum cond n ts order ->
    (forall r, r < n -> good (x r)) -> (forall r, r < n -> good (x' r)) ->
    map (val x) order = map (val x') order -> forall r, r < n -> x r = x' r.
  Proof.
    intros x x' order (Hperm & _ & Hchild) Hx Hx' Hmap.
    assert (Hpre : forall o1 o2, order = o1 ++ o2 -> forall v, In v (map var o1) -> x v = x' v).
    { induction o1 as [|e o1 IH] using rev_ind; intros o2 E v Hv; [destruct Hv|].
      rewrite <- app_assoc in E. cbn [app] in E.
      rewrite map_app in Hv. apply in_app_iff in Hv as [Hv|[<-|[]]]; [eapply IH; eauto|].
      rewrite E, !map_app in Hmap. cbn [map] in Hmap.
      assert (Ee : val x e = val x' e).
      { apply (f_equal (fun l => nth_error l (length o1))) in Hmap.
        rewrite !nth_error_app2 in Hmap by (rewrite map_length; lia).
        rewrite !map_length, Nat.sub_diag in Hmap. cbn in Hmap. congruence. }
      destruct e as [r|l k lft]; [exact Ee|].
      destruct (Hchild o1 l k lft o2 E) as (t & below & A & B & _ & F).
      rewrite !(val_child _ _ _ _ _ _ A) in Ee.
      rewrite (entry_var_child enum ts l k lft t below A).
      assert (Hag : forall v, In v (vars (t :: below) k) -> v <> get_var enum t below k lft -> x v = x' v)
        by (intros v H1 H2; eapply IH; eauto).
      clear - Ee Hag A B Hx Hx' inv_ok exch enum_ok Hreg.
      assert (A' : tree_on_level ts (length below) t below) by (destruct A as [A <-]; split; auto).
      clear A. revert t k lft A' B Ee Hag.
      assert (inj : forall c y z z', good y -> good z -> good z' -> hu c z y = hu c z' y -> z = z').
      { intros c y z z' G1 G2 G3 E.
        destruct (inv_ok c z y G2 G1) as (_ & _ & _ & H1).
        destruct (inv_ok c z' y G3 G1) as (_ & _ & _ & H2). rewrite <- H1, <- H2, E. reflexivity. }
      induction below as [|t' below IH]; intros t k lft Hlev Hk Ee Hag;
        assert (Hr := level_regular n ts Hreg _ _ _ Hlev);
        destruct (side enum enum_ok n t _ k lft Hr Hk) as (S1 & S2 & S3).
      - assert (Hn : forall v, In v (vars ([t]) k) -> v < n)
          by (intros v Hv; apply (level_vars _ _ _ _ Hlev Hk v Hv)).
        set (q := get_var enum t [] k lft) in *. cbn [vars In] in S1, S2.
        assert (E1 : leaf t (k, lft) = q) by tauto.
        set (b := stem t (k, lft)) in *.
        assert (Hb : In b (vars [t] k)).
        { apply vars_cons. unfold b, stem. cbn [fst snd vars In]. destruct lft; auto. }
        assert (Hq : In q (vars [t] k)).
        { apply vars_cons. rewrite <- E1. unfold leaf. cbn [fst snd vars In]. destruct lft; auto. }
        assert (Eb : x b = x' b) by (apply Hag; [exact Hb|]; intros E; apply S2; auto).
        apply (inj (copula 0 k) (x b)); auto.
        cbn [model_value length] in Ee. unfold leaf in E1. unfold b, stem in *. cbn [fst snd] in *.
        destruct lft; [|rewrite !exch in Ee]; rewrite E1, <- Eb in Ee; exact Ee.
      - assert (Hn : forall v, In v (vars (t :: t' :: below) k) -> v < n)
          by (intros v Hv; apply (level_vars _ _ _ _ Hlev Hk v Hv)).
        set (q := get_var enum t (t' :: below) k lft) in *.
        destruct (children _ _ _ _ _ Hlev Hk) as (l1 & l2 & C1 & C2 & C3 & C4 & C5).
        assert (Hlev' := level_below _ _ _ _ _ Hlev).
        assert (Hle : forall v, In v (vars (t' :: below) (leaf t (k, lft))) -> In v (vars (t :: t' :: below) k)).
        { intros v Hv. apply vars_cons. unfold leaf in Hv. cbn [fst snd] in Hv. destruct lft; auto. }
        assert (Hst : forall v, In v (vars (t' :: below) (stem t (k, lft))) -> In v (vars (t :: t' :: below) k)).
        { intros v Hv. apply vars_cons. unfold stem in Hv. cbn [fst snd] in Hv. destruct lft; auto. }
        assert (Hl1 : leaf t (k, lft) < length t') by (unfold leaf; cbn [fst snd]; destruct lft; auto).
        assert (Hl2 : stem t (k, lft) < length t') by (unfold stem; cbn [fst snd]; destruct lft; auto).
        set (la := if lft then negb l1 else negb l2). set (lb := if lft then negb l2 else negb l1).
        assert (Hva : get_var enum t' below (leaf t (k, lft)) la = q).
        { unfold leaf, la, q. cbn [fst snd]. destruct lft; auto. }
        rewrite <- Hva.
        apply (IH t' (leaf t (k, lft)) la Hlev' Hl1);
          [|intros v Hv N; apply Hag; [auto | rewrite Hva in N; exact N]].
        assert (Eb : mv x t' below (stem t (k, lft)) lb = mv x' t' below (stem t (k, lft)) lb).
        { apply mv_ext; auto. intros v Hv. apply Hag; auto. intros ->. auto. }
        apply (inj (copula (length (t' :: below)) k) (mv x t' below (stem t (k, lft)) lb)).
        + apply mv_good; auto.
        + apply mv_good; auto.
        + apply mv_good; auto.
        + cbn [model_value] in Ee. rewrite C1 in Ee. rewrite Eb at 2.
          unfold leaf, stem, la, lb in *. cbn [fst snd] in *.
          destruct lft; [|rewrite !exch in Ee]; exact Ee. }
    intros r Hr. apply (Hpre order [] (eq_sym (app_nil_r order))).
    eapply Permutation_in; [apply Permutation_sym; exact Hperm|]. apply in_seq. lia.
  Qed.
End Proofs.

(** Sampling a vine fitted on [n] variables: the order exists, the propagation
    succeeds, and the values found reproduce the clipped uniforms, variable by
    variable in sampling order. They are the only values that do. *)
Theorem C48_sampling : forall V C (hu hv hinv : C -> V -> V -> V) copula good enum clip n ts
    cond given rand,
  inverts V C hu hinv good -> exchangeable V C hu hv -> enumerates enum ->
  regular n ts -> ts <> [] -> length ts < n -> (forall v, good (clip v)) ->
  length (filter (fun v => negb (mem v cond)) (seq 0 n)) <= length rand ->
  exists order s x,
    sampling_order enum cond n ts = Some order
    /\ propagate enum V C hu hv hinv copula clip cond given ts order rand = Some s
    /\ (forall r, r < n -> roots V s r = Some (x r) /\ good (x r))
    /\ map (entry_value V C hu hv copula ts x) order
       = map clip (uniforms V cond given (map (entry_var enum ts) order) rand)
    /\ (forall r, r < n -> In r cond -> x r = clip (given r))
    /\ forall x', (forall r, r < n -> good (x' r)) ->
         map (entry_value V C hu hv copula ts x') order
         = map clip (uniforms V cond given (map (entry_var enum ts) order) rand) ->
         forall r, r < n -> x' r = x r.
Proof.
  intros V C hu hv hinv copula good enum clip n ts cond given rand Hi He Hen Hr Hne Hl Hc Hrand.
  destruct (C48_order enum Hen cond n ts Hr Hne Hl) as (order & H1 & H2).
  destruct (propagate_ok V C hu hv hinv copula good Hi He enum Hen n ts Hr clip cond given
              order rand H2 Hc Hrand) as (s & x & P1 & P2 & P3).
  exists order, s, x. split; [exact H1|]. split; [exact P1|]. split; [exact P2|].
  split; [exact P3|]. split.
  - intros r Hrn Hrc. destruct H2 as (_ & Hroot & _). specialize (Hroot r Hrc Hrn).
    assert (G : forall o rd, In (RootEntry r) o ->
              map (entry_value V C hu hv copula ts x) o
              = map clip (uniforms V cond given (map (entry_var enum ts) o) rd) ->
              x r = clip (given r)); [|exact (G order rand Hroot P3)].
    induction o as [|e o IH]; intros rd Hin E; [destruct Hin|]. cbn [map uniforms] in E.
    destruct Hin as [->|Hin].
    + cbn [entry_var] in E. rewrite (proj2 (mem_In r cond) Hrc) in E. cbn [map] in E.
      injection E; intros _ E'. exact E'.
    + destruct (mem (entry_var enum ts e) cond).
      * cbn [map] in E. injection E; intros E' _. eauto.
      * destruct rd as [|u rd]; cbn [map] in E; [discriminate|]. injection E; intros E' _. eauto.
  - intros x' Hg Hx' r Hrn. symmetry.
    apply (order_unique V C hu hv hinv copula good Hi He enum Hen n ts Hr cond x x' order H2); auto.
    + intros q Hq. apply P2. exact Hq.
    + rewrite P3, Hx'. reflexivity.
Qed.
Print Assumptions C48_sampling.
