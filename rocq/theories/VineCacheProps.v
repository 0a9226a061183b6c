(** C93: the caches of the vine copula and the counting of the visits change no
    value.  *)
Require Import List Arith Bool Lia Permutation.
From Verif Require Import VineModel VineCacheModel VineGraph VineProps VineSampleProps VinePropagateProps.
Import ListNotations.

(** * The machine that remembers every value (used in the proofs only) *)

Definition slot : Type := nat * nat * bool.
Definition slot_eq : forall a b : slot, {a = b} + {a <> b}.
Proof. repeat decide equality. Defined.
Notation cnt := (count_occ slot_eq).
Definition lev (p : slot) : nat := fst (fst p).

Section Memo.
  Variables V C : Type.
  Variables hu hv hinv : C -> V -> V -> V.
  Variable copula : nat -> nat -> C.
  Variable enum : list nat -> list nat.
  Variable clip : V -> V.

  Record memo : Type := { mroots : nat -> option V; mval : slot -> option V; mev : list slot }.

  Definition mput (m : memo) (p : slot) (x : V) : memo :=
    {| mroots := mroots m; mval := fun q => if slot_eq q p then Some x else mval m q;
       mev := mev m |}.
  Definition mput_ev (m : memo) (p : slot) (x : V) : memo :=
    {| mroots := mroots m; mval := fun q => if slot_eq q p then Some x else mval m q;
       mev := p :: mev m |}.
  Definition mroot (m : memo) (r : nat) (x : V) : memo :=
    {| mroots := upd V (mroots m) r x; mval := mval m; mev := mev m |}.

  Fixpoint mread (m : memo) (t : tree) (below : list tree) (k : nat) (b : bool)
    : option (V * memo * list slot) :=
    let l := length below in
    match mval m (l, k, b) with
    | Some x => Some (x, m, [(l, k, b)])
    | None =>
        let i := fst (edge_at t k) in
        let j := snd (edge_at t k) in
        match below with
        | [] =>
            match mroots m i, mroots m j with
            | Some x, Some y =>
                let w := (if b then hu else hv) (copula l k) x y in
                Some (w, mput_ev m (l, k, b) w, [(l, k, b)])
            | _, _ => None
            end
        | t' :: below' =>
            match shared_node_is_left (edge_at t' i) (edge_at t' j) with
            | Some (l1, l2) =>
                match mread m t' below' i (negb l1) with
                | Some (x, m1, tr1) =>
                    match mread m1 t' below' j (negb l2) with
                    | Some (y, m2, tr2) =>
                        let w := (if b then hu else hv) (copula l k) x y in
                        Some (w, mput_ev m2 (l, k, b) w, (l, k, b) :: tr1 ++ tr2)
                    | None => None
                    end
                | None => None
                end
            | None => None
            end
        end
    end.

  Fixpoint mdescend (m : memo) (t : tree) (below : list tree) (k : nat) (lft : bool)
    : option (memo * list slot) :=
    let l := length below in
    let i := fst (edge_at t k) in
    let j := snd (edge_at t k) in
    match below with
    | [] =>
        match mread m t below k lft with
        | Some (p, m1, tr) =>
            match mroots m1 (if lft then j else i) with
            | Some y => Some (mroot m1 (if lft then i else j) (hinv (copula l k) p y), tr)
            | None => None
            end
        | None => None
        end
    | t' :: below' =>
        match shared_node_is_left (edge_at t' i) (edge_at t' j) with
        | Some (l1, l2) =>
            match mread m t below k lft with
            | Some (p, m1, tr1) =>
                let na := if lft then i else j in
                let la := if lft then negb l1 else negb l2 in
                let nb := if lft then j else i in
                let lb := if lft then negb l2 else negb l1 in
                match mread m1 t' below' nb lb with
                | Some (y, m2, tr2) =>
                    match mdescend (mput m2 (length below', na, la) (hinv (copula l k) p y))
                            t' below' na la with
                    | Some (m3, tr3) => Some (m3, tr1 ++ tr2 ++ tr3)
                    | None => None
                    end
                | None => None
                end
            | None => None
            end
        | None => None
        end
    end.

  Fixpoint mqueue (ts : list tree) (order : list entry) (m : memo)
    : option (memo * list slot) :=
    match order with
    | [] => Some (m, [])
    | RootEntry _ :: rest => mqueue ts rest m
    | ChildEntry l k lft :: rest =>
        match skipn (length ts - S l) ts with
        | t :: below =>
            match mdescend m t below k lft with
            | Some (m1, tr1) =>
                match mqueue ts rest m1 with
                | Some (m2, tr2) => Some (m2, tr1 ++ tr2)
                | None => None
                end
            | None => None
            end
        | [] => None
        end
    end.

  Definition mstore (m : memo) (e : entry) (x : V) : memo :=
    match e with
    | RootEntry r => mroot m r x
    | ChildEntry l k lft => mput m (l, k, lft) x
    end.

  Fixpoint minit (cond : list nat) (given : nat -> V) (ts : list tree)
      (order : list entry) (rand : list V) (m : memo) : option memo :=
    match order with
    | [] => Some m
    | e :: rest =>
        if mem (entry_var enum ts e) cond
        then minit cond given ts rest rand (mstore m e (clip (given (entry_var enum ts e))))
        else match rand with
             | x :: xs => minit cond given ts rest xs (mstore m e (clip x))
             | [] => None
             end
    end.

  (** ** Levels read *)
  Lemma mread_levels : forall below t k b m x m' tr, mread m t below k b = Some (x, m', tr) ->
    (exists tr', tr = (length below, k, b) :: tr' /\ forall p, In p tr' -> lev p < length below)
    /\ (forall p, length below < lev p -> mval m' p = mval m p)
    /\ mroots m' = mroots m.
  Proof.
    induction below as [|t' below IH]; intros t k b m x m' tr; cbn [mread];
      destruct (mval m _) eqn:E.
    - intros H; injection H; intros <- <- <-. split; [exists []; split; [reflexivity|intros p []]|auto].
    - destruct (mroots m _); [|discriminate]. destruct (mroots m _); [|discriminate].
      intros H; injection H; intros <- <- <-. split; [exists []; split; [reflexivity|intros p []]|].
      split; [|reflexivity]. intros p Hp. cbn [mput_ev mval].
      destruct (slot_eq p _) as [->|]; [cbn in Hp; lia | reflexivity].
    - intros H; injection H; intros <- <- <-. split; [exists []; split; [reflexivity|intros p []]|auto].
    - destruct (shared_node_is_left _ _) as [[l1 l2]|]; [|discriminate].
      destruct (mread m t' below _ _) as [[[x1 m1] tr1]|] eqn:E1; [|discriminate].
      destruct (mread m1 t' below _ _) as [[[x2 m2] tr2]|] eqn:E2; [|discriminate].
      intros H; injection H; intros <- <- <-.
      destruct (IH _ _ _ _ _ _ _ E1) as ((r1 & -> & A1) & B1 & D1).
      destruct (IH _ _ _ _ _ _ _ E2) as ((r2 & -> & A2) & B2 & D2).
      split; [|split].
      + eexists. split; [reflexivity|]. intros p Hp. cbn [length].
        apply in_app_iff in Hp as [[<-|Hp]|[<-|Hp]]; cbn [lev fst]; try lia.
        * specialize (A1 p Hp). lia.
        * specialize (A2 p Hp). lia.
      + intros p Hp. cbn [length] in Hp. cbn [mput_ev mval].
        destruct (slot_eq p _) as [->|]; [cbn in Hp; lia|]. rewrite B2, B1 by lia. reflexivity.
      + cbn [mput_ev mroots]. congruence.
  Qed.

  (** ** Every value is evaluated at most once *)
  Definition once (m : memo) : Prop := NoDup (mev m) /\ forall p, In p (mev m) -> mval m p <> None.

  Lemma once_put : forall m p x, once m -> once (mput m p x).
  Proof.
    intros m p x [H1 H2]. split; [exact H1|]. intros q Hq. cbn [mput mval].
    destruct (slot_eq q p); [discriminate|]. apply H2, Hq.
  Qed.
  Lemma once_root : forall m r x, once m -> once (mroot m r x).
  Proof. intros m r x H. exact H. Qed.
  Lemma once_put_ev : forall m p x, once m -> mval m p = None -> once (mput_ev m p x).
  Proof.
    intros m p x [H1 H2] N. split.
    - cbn [mput_ev mev]. constructor; [|exact H1]. intros Hin. apply (H2 p Hin N).
    - intros q Hq. cbn [mput_ev mval mev] in *. destruct (slot_eq q p); [discriminate|].
      destruct Hq as [->|Hq]; [congruence|]. apply H2, Hq.
  Qed.

  Lemma once_read : forall below t k b m x m' tr, mread m t below k b = Some (x, m', tr) ->
    once m -> once m'.
  Proof.
    induction below as [|t' below IH]; intros t k b m x m' tr; cbn [mread];
      destruct (mval m _) eqn:E.
    - intros H; injection H; intros <- <- <-; auto.
    - destruct (mroots m _); [|discriminate]. destruct (mroots m _); [|discriminate].
      intros H; injection H; intros <- <- <-. intros Ho. apply once_put_ev; auto.
    - intros H; injection H; intros <- <- <-; auto.
    - destruct (shared_node_is_left _ _) as [[l1 l2]|]; [|discriminate].
      destruct (mread m t' below _ _) as [[[x1 m1] tr1]|] eqn:E1; [|discriminate].
      destruct (mread m1 t' below _ _) as [[[x2 m2] tr2]|] eqn:E2; [|discriminate].
      intros H; injection H; intros <- <- <-. intros Ho.
      destruct (mread_levels _ _ _ _ _ _ _ _ E1) as (_ & B1 & _).
      destruct (mread_levels _ _ _ _ _ _ _ _ E2) as (_ & B2 & _).
      apply once_put_ev; [eauto|]. rewrite B2, B1 by (cbn; lia). exact E.
  Qed.

  Lemma once_descend : forall below t k b m m' tr, mdescend m t below k b = Some (m', tr) ->
    once m -> once m'.
  Proof.
    induction below as [|t' below IH]; intros t k b m m' tr; cbn [mdescend].
    - destruct (mread _ _ _ _ _) as [[[p m1] tr1]|] eqn:E1; [|discriminate].
      destruct (mroots _ _); [|discriminate]. intros H; injection H; intros <- <- Ho.
      apply once_root. eapply once_read; eauto.
    - destruct (shared_node_is_left _ _) as [[l1 l2]|]; [|discriminate].
      destruct (mread m _ _ _ _) as [[[p m1] tr1]|] eqn:E1; [|discriminate].
      destruct (mread m1 _ _ _ _) as [[[y m2] tr2]|] eqn:E2; [|discriminate].
      destruct (mdescend _ _ _ _ _) as [[m3 tr3]|] eqn:E3; [|discriminate].
      intros H; injection H; intros <- <- Ho.
      eapply IH; [exact E3|]. apply once_put. eauto using once_read.
  Qed.

  Lemma once_queue : forall ts order m m' tr, mqueue ts order m = Some (m', tr) -> once m -> once m'.
  Proof.
    induction order as [|[r|l k lft] order IH]; intros m m' tr; cbn [mqueue].
    - intros H; injection H; intros <- <-; auto.
    - apply IH.
    - destruct (skipn _ _) as [|t below]; [discriminate|].
      destruct (mdescend _ _ _ _ _) as [[m1 tr1]|] eqn:E1; [|discriminate].
      destruct (mqueue _ _ _) as [[m2 tr2]|] eqn:E2; [|discriminate].
      intros H; injection H; intros <- <- Ho. eauto using once_descend.
  Qed.

  Lemma once_init : forall cond given ts order rand m m', minit cond given ts order rand m = Some m' ->
    once m -> once m'.
  Proof.
    intros cond given ts. induction order as [|e order IH]; intros rand m m'; cbn [minit].
    - intros H; injection H; intros <-; auto.
    - assert (S : forall x, once m -> once (mstore m e x))
        by (intros x Ho; destruct e; [apply once_root | apply once_put]; auto).
      destruct (mem _ _); [|destruct rand; [discriminate|]]; intros H Ho; eapply IH; eauto.
  Qed.

  (** ** The entries of the queue are read *)
  Lemma mdescend_reads : forall below t k b m m' tr, mdescend m t below k b = Some (m', tr) ->
    In (length below, k, b) tr.
  Proof.
    intros [|t' below] t k b m m' tr; cbn [mdescend].
    - destruct (mread _ _ _ _ _) as [[[p m1] tr1]|] eqn:E1; [|discriminate].
      destruct (mroots _ _); [|discriminate]. intros H; injection H; intros <- <-.
      destruct (mread_levels _ _ _ _ _ _ _ _ E1) as ((tr' & -> & _) & _). left; reflexivity.
    - destruct (shared_node_is_left _ _) as [[l1 l2]|]; [|discriminate].
      destruct (mread m _ _ _ _) as [[[p m1] tr1]|] eqn:E1; [|discriminate].
      destruct (mread m1 _ _ _ _) as [[[y m2] tr2]|] eqn:E2; [|discriminate].
      destruct (mdescend _ _ _ _ _) as [[m3 tr3]|] eqn:E3; [|discriminate].
      intros H; injection H; intros <- <-.
      destruct (mread_levels _ _ _ _ _ _ _ _ E1) as ((tr' & -> & _) & _). left; reflexivity.
  Qed.

  Lemma mqueue_reads : forall ts order m m' tr, mqueue ts order m = Some (m', tr) ->
    forall l k lft, In (ChildEntry l k lft) order -> l < length ts -> In (l, k, lft) tr.
  Proof.
    induction order as [|[r|l k lft] order IH]; intros m m' tr; cbn [mqueue].
    - intros _ l k lft [].
    - intros H l k lft [E|Hin] Hl; [discriminate | eauto].
    - destruct (skipn _ _) as [|t below] eqn:Es; [discriminate|].
      destruct (mdescend _ _ _ _ _) as [[m1 tr1]|] eqn:E1; [|discriminate].
      destruct (mqueue _ _ _) as [[m2 tr2]|] eqn:E2; [|discriminate].
      intros H; injection H; intros <- <-. intros l' k' lft' [E|Hin] Hl; apply in_app_iff.
      + injection E; intros <- <- <-. left.
        assert (L : length below = l).
        { apply (f_equal (@length _)) in Es. rewrite skipn_length in Es. cbn [length] in Es.
          unfold tree, edge in *. lia. }
        rewrite <- L. eapply mdescend_reads; eauto.
      + right. eauto.
  Qed.
End Memo.

(** * The counting pass and the evicting pass follow the remembering machine *)

Section Passes.
  Variables V C : Type.
  Variables hu hv hinv : C -> V -> V -> V.
  Variable nan : V.
  Variable copula : nat -> nat -> C.
  Variable enum : list nat -> list nat.
  Variable clip : V -> V.
  Variable depth : nat.

  Notation vine_state := (vine_state V).
  Notation memo := (memo V).
  Notation MR := (mread V C hu hv copula).
  Notation MD := (mdescend V C hu hv hinv copula).
  Notation MQ := (mqueue V C hu hv hinv copula).
  Notation MI := (minit V enum clip).
  Notation RM := (read_margin V C hu hv nan depth copula).
  Notation GD := (go_down V C hu hv hinv nan depth copula).
  Notation EQ := (empty_queue V C hu hv hinv nan depth copula).
  Notation SI := (set_initial V nan enum clip).

  Definition mg (s : vine_state) (p : slot) : margin V := margins V s (fst (fst p)) (snd (fst p)) (snd p).
  Definition cch (s : vine_state) (p : slot) := cached V (mg s p).
  Definition sn (s : vine_state) (p : slot) := seen V (mg s p).
  Definition ex (s : vine_state) (p : slot) := expected V (mg s p).

  Lemma mg_set : forall s l k b m p,
    mg (set_margin V s l k b m) p = if slot_eq p (l, k, b) then m else mg s p.
  Proof.
    intros s l k b m [[i j] c]. unfold mg, set_margin. cbn [margins fst snd].
    destruct (slot_eq (i, j, c) (l, k, b)) as [E|N].
    - injection E; intros -> -> ->. rewrite !Nat.eqb_refl, eqb_reflx. reflexivity.
    - destruct (Nat.eqb_spec i l), (Nat.eqb_spec j k), (Bool.eqb_spec c b); cbn [andb]; congruence.
  Qed.

  Lemma mg_value : forall s l k b x p,
    mg (set_value V s l k b x) p
    = if slot_eq p (l, k, b)
      then {| cached := Some x; seen := sn s p; expected := ex s p |} else mg s p.
  Proof.
    intros. unfold set_value. rewrite mg_set. destruct (slot_eq p (l, k, b)) as [->|]; reflexivity.
  Qed.
  Lemma mg_pseudo : forall s r x p, mg (set_pseudo V s r x) p = mg s p.
  Proof. reflexivity. Qed.
  Lemma mg_log : forall s l k b p, mg (log_call V s l k b) p = mg s p.
  Proof. reflexivity. Qed.

  Lemma mg_visit : forall l k b s p,
    mg (visit V depth l k b s) p
    = if slot_eq p (l, k, b) then
        if is_count V depth s l
        then {| cached := cch s p; seen := sn s p; expected := S (ex s p) |}
        else {| cached := cch s p; seen := S (sn s p); expected := ex s p |}
      else mg s p.
  Proof.
    intros. unfold visit. rewrite mg_set. destruct (slot_eq p (l, k, b)) as [->|]; reflexivity.
  Qed.

  Lemma fields_visit : forall l k b s,
    pseudo_values V (visit V depth l k b s) = pseudo_values V s
    /\ counting V (visit V depth l k b s) = counting V s
    /\ evaluated V (visit V depth l k b s) = evaluated V s.
  Proof. intros. unfold visit. auto. Qed.

  (** ** Counting *)
  Definition present (m : memo) (s : vine_state) : Prop :=
    (forall r, mroots V m r = None <-> pseudo_values V s r = None)
    /\ forall p, mval V m p = None <-> cch s p = None.

  Definition counted (s s' : vine_state) (tr : list slot) : Prop :=
    counting V s' = true /\ evaluated V s' = evaluated V s
    /\ forall p, ex s' p = ex s p + (if S (lev p) <? depth then cnt tr p else 0)
                 /\ (S (lev p) < depth -> sn s' p = sn s p).

  Lemma counted_refl : forall s, counting V s = true -> counted s s [].
  Proof.
    intros s H. split; [exact H|]. split; [reflexivity|]. intros p. split; [|auto].
    cbn [count_occ]. destruct (S (lev p) <? depth); lia.
  Qed.
  Lemma counted_app : forall s s1 s2 tr1 tr2, counted s s1 tr1 -> counted s1 s2 tr2 ->
    counted s s2 (tr1 ++ tr2).
  Proof.
    intros s s1 s2 tr1 tr2 (A1 & B1 & D1) (A2 & B2 & D2). split; [exact A2|].
    split; [congruence|]. intros p. destruct (D1 p) as [E1 F1]. destruct (D2 p) as [E2 F2]. split.
    - rewrite count_occ_app. destruct (S (lev p) <? depth); lia.
    - intros H. rewrite F2, F1; auto.
  Qed.

  (** The nodes of the last tree's edges are in no tree: their visits are not counted. *)
  Definition tops (s : vine_state) : Prop := forall p, depth <= S (lev p) -> ex s p = 0.

  Lemma counted_tops : forall s s' tr, counted s s' tr -> tops s -> tops s'.
  Proof.
    intros s s' tr (_ & _ & H) Ht p Hp. rewrite (proj1 (H p)), (Ht p Hp).
    destruct (Nat.ltb_spec (S (lev p)) depth); lia.
  Qed.

  Lemma release_counting : forall l k b s, counting V s = true -> tops s ->
    release V depth l k b s = s.
  Proof.
    intros l k b s H Ht. unfold release, is_count. rewrite H, andb_true_r.
    destruct (Nat.ltb_spec (S l) depth); [reflexivity|].
    change (expected V (margins V s l k b)) with (ex s (l, k, b)).
    rewrite (Ht (l, k, b)) by (cbn; lia). reflexivity.
  Qed.

  Lemma visit_counted : forall l k b s, counting V s = true ->
    (forall p, cch (visit V depth l k b s) p = cch s p)
    /\ counted s (visit V depth l k b s) [(l, k, b)].
  Proof.
    intros l k b s H. split.
    - intros p. unfold cch. rewrite mg_visit. destruct (slot_eq p _); [|reflexivity].
      destruct (is_count _ _ _ _); reflexivity.
    - split; [exact H|]. split; [reflexivity|]. intros p. unfold ex, sn. rewrite mg_visit.
      cbn [count_occ]. unfold is_count. rewrite H, andb_true_r.
      destruct (slot_eq p (l, k, b)) as [->|N].
      + cbn [lev fst]. destruct (slot_eq _ _); [|congruence].
        destruct (Nat.ltb_spec (S l) depth); cbn [seen expected]; unfold ex, sn; split; auto; try lia.
      + destruct (slot_eq (l, k, b) p); [congruence|]. split; auto. destruct (_ <? _); lia.
  Qed.

  Lemma evaluate_counting : forall l k b x y s, counting V s = true -> S l < depth ->
    evaluate V C hu hv nan depth copula l k b x y s = (Some nan, set_value V s l k b nan).
  Proof.
    intros l k b x y s H Hl. unfold evaluate, is_count. rewrite H.
    apply Nat.ltb_lt in Hl. rewrite Hl. reflexivity.
  Qed.

  Lemma present_value : forall m s l k b x y, present m s ->
    present (mput_ev V m (l, k, b) x) (set_value V s l k b y).
  Proof.
    intros m s l k b x y [H1 H2]. split; [exact H1|]. intros p. unfold cch. rewrite mg_value.
    cbn [mput_ev mval]. destruct (slot_eq p _); [|apply H2]. split; discriminate.
  Qed.
  Lemma present_put : forall m s l k b x y, present m s ->
    present (mput V m (l, k, b) x) (set_value V s l k b y).
  Proof.
    intros m s l k b x y [H1 H2]. split; [exact H1|]. intros p. unfold cch. rewrite mg_value.
    cbn [mput mval]. destruct (slot_eq p _); [|apply H2]. split; discriminate.
  Qed.
  Lemma present_root : forall m s r x y, present m s ->
    present (mroot V m r x) (set_pseudo V s r y).
  Proof.
    intros m s r x y [H1 H2]. split; [|exact H2]. intros q. cbn [mroot mroots set_pseudo pseudo_values].
    unfold upd. destruct (q =? r); [split; discriminate | apply H1].
  Qed.
  Lemma counted_value : forall s l k b x, counting V s = true -> counted s (set_value V s l k b x) [].
  Proof.
    intros s l k b x H. split; [exact H|]. split; [reflexivity|]. intros p. unfold ex, sn. rewrite mg_value.
    cbn [count_occ]. destruct (slot_eq p _); cbn [seen expected]; unfold ex, sn; split; auto;
      destruct (_ <? _); lia.
  Qed.
  Lemma counted_pseudo : forall s r x, counting V s = true -> counted s (set_pseudo V s r x) [].
  Proof. intros s r x H. apply (counted_refl s H). Qed.

  Lemma some_of : forall A (o o' : option A) x, (o = None <-> o' = None) -> o = Some x ->
    exists y, o' = Some y.
  Proof. intros A o o' x H E. destruct o'; [eauto|]. destruct H as [_ H]. rewrite H in E; [discriminate|auto]. Qed.

  Lemma count_read : forall below t k b m x m' tr s, MR m t below k b = Some (x, m', tr) ->
    present m s -> counting V s = true -> tops s ->
    S (length below) < depth \/ mval V m (length below, k, b) <> None ->
    exists x' s', RM t below k b s = (Some x', s') /\ present m' s' /\ counted s s' tr.
  Proof.
    assert (pre : forall m s l k b, present m s -> counting V s = true -> tops s ->
              let s1 := visit V depth l k b s in
              present m s1 /\ counting V s1 = true /\ tops s1 /\ counted s s1 [(l, k, b)]
              /\ (forall x, mval V m (l, k, b) = Some x ->
                    exists y, cached V (margins V s1 l k b) = Some y)
              /\ (mval V m (l, k, b) = None -> cached V (margins V s1 l k b) = None)).
    { intros m s l k b Hp Hc Ht s1. destruct (visit_counted l k b s Hc) as [Hv1 Hv2]. fold s1 in Hv1, Hv2.
      assert (Hp1 : present m s1)
        by (destruct Hp as [P1 P2]; split; [exact P1|]; intros p; rewrite Hv1; apply P2).
      split; [exact Hp1|]. split; [exact Hc|]. split; [exact (counted_tops _ _ _ Hv2 Ht)|].
      split; [exact Hv2|]. split.
      - intros x Hx. exact (some_of _ _ _ _ (proj2 Hp1 (l, k, b)) Hx).
      - apply (proj2 Hp1 (l, k, b)). }
    assert (hit : forall m s l k b x, present m s -> counting V s = true -> tops s ->
              mval V m (l, k, b) = Some x ->
              let s1 := visit V depth l k b s in
              exists y, cached V (margins V s1 l k b) = Some y
                /\ exists s', release V depth l k b s1 = s' /\ present m s' /\ counted s s' [(l, k, b)]).
    { intros m s l k b x Hp Hc Ht E s1.
      destruct (pre m s l k b Hp Hc Ht) as (P1 & P2 & P3 & P4 & P5 & _). fold s1 in P1, P2, P3, P4, P5.
      destruct (P5 x E) as (y & Ey). exists y. split; [exact Ey|]. exists s1.
      rewrite release_counting by auto. auto. }
    induction below as [|t' below IH]; intros t k b m x m' tr s;
      cbn [read_margin];
      unfold bind at 1, modify; intros Hm Hp Hc Ht Hin.
    - cbn [mread] in Hm.
      destruct (mval V m (length (@nil tree), k, b)) as [y|] eqn:E.
      + destruct (hit m s (length (@nil tree)) k b y Hp Hc Ht E) as (y' & -> & s' & H1 & H2 & H3).
        injection Hm; intros <- <- <-. exists y', s'. rewrite H1. auto.
      + destruct Hin as [Hl|Hn]; [|congruence].
        destruct (pre m s (length (@nil tree)) k b Hp Hc Ht) as (P1 & P2 & P3 & P4 & _ & P6).
        rewrite (P6 E). set (s1 := visit V depth (length (@nil tree)) k b s) in *.
        destruct (mroots V m (fst (edge_at t k))) as [x1|] eqn:E1; [|discriminate].
        destruct (mroots V m (snd (edge_at t k))) as [x2|] eqn:E2; [|discriminate].
        injection Hm; intros <- <- <-.
        destruct (some_of _ _ _ _ (proj1 P1 _) E1) as (y1 & F1).
        destruct (some_of _ _ _ _ (proj1 P1 _) E2) as (y2 & F2).
        unfold bind, read_pseudo. rewrite F1, F2, evaluate_counting by auto.
        assert (Cv := counted_value s1 (length (@nil tree)) k b nan P2).
        rewrite release_counting by (auto; exact (counted_tops _ _ _ Cv P3)).
        eexists _, _. split; [reflexivity|]. split; [apply present_value; exact P1|].
        exact (counted_app _ _ _ _ _ P4 Cv).
    - cbn [mread] in Hm.
      destruct (mval V m (length (t' :: below), k, b)) as [y|] eqn:E.
      + destruct (hit m s (length (t' :: below)) k b y Hp Hc Ht E) as (y' & -> & s' & H1 & H2 & H3).
        injection Hm; intros <- <- <-. exists y', s'. rewrite H1. auto.
      + destruct Hin as [Hl|Hn]; [|congruence].
        destruct (pre m s (length (t' :: below)) k b Hp Hc Ht) as (P1 & P2 & P3 & P4 & _ & P6).
        rewrite (P6 E). set (s1 := visit V depth (length (t' :: below)) k b s) in *.
        destruct (shared_node_is_left _ _) as [[l1 l2]|]; [|discriminate].
        destruct (MR m t' below _ _) as [[[x1 m1] tr1]|] eqn:E1; [|discriminate].
        destruct (MR m1 t' below _ _) as [[[x2 m2] tr2]|] eqn:E2; [|discriminate].
        injection Hm; intros <- <- <-.
        assert (Hl' : S (length below) < depth) by (cbn [length] in Hl; lia).
        destruct (IH _ _ _ _ _ _ _ _ E1 P1 P2 P3 (or_introl Hl')) as (y1 & s2 & R1 & Q1 & G1).
        assert (P2' : counting V s2 = true) by apply G1.
        assert (P3' := counted_tops _ _ _ G1 P3).
        destruct (IH _ _ _ _ _ _ _ _ E2 Q1 P2' P3' (or_introl Hl')) as (y2 & s3 & R2 & Q2 & G2).
        assert (P2'' : counting V s3 = true) by apply G2.
        assert (P3'' := counted_tops _ _ _ G2 P3').
        unfold bind. rewrite R1, R2, evaluate_counting by auto.
        assert (Cv := counted_value s3 (length (t' :: below)) k b nan P2'').
        rewrite release_counting by (auto; exact (counted_tops _ _ _ Cv P3'')).
        eexists _, _. split; [reflexivity|]. split; [apply present_value; exact Q2|].
        rewrite <- (app_nil_r tr2).
        exact (counted_app _ _ _ _ _ P4 (counted_app _ _ _ _ _ G1 (counted_app _ _ _ _ _ G2 Cv))).
  Qed.

  Lemma count_down : forall below t k b m m' tr s, MD m t below k b = Some (m', tr) ->
    present m s -> counting V s = true -> tops s ->
    mval V m (length below, k, b) <> None -> length below < depth ->
    exists s', GD true t below k b s = (Some tt, s') /\ present m' s' /\ counted s s' tr.
  Proof.
    induction below as [|t' below IH]; intros t k b m m' tr s Hm Hp Hc Ht Hin Hd;
      cbn [mdescend go_down] in *.
    - destruct (MR m t [] k b) as [[[p m1] tr1]|] eqn:E1; [|discriminate].
      destruct (mroots V m1 _) as [y|] eqn:E2; [|discriminate]. injection Hm; intros <- <-.
      destruct (count_read _ _ _ _ _ _ _ _ _ E1 Hp Hc Ht (or_intror Hin)) as (p' & s1 & R1 & Q1 & G1).
      destruct (some_of _ _ _ _ (proj1 Q1 _) E2) as (y' & F2).
      unfold bind, read_pseudo, modify. rewrite R1, F2. eexists. split; [reflexivity|].
      split; [apply present_root; exact Q1|]. rewrite <- (app_nil_r tr1).
      eapply counted_app; [exact G1|]. apply counted_pseudo, G1.
    - destruct (shared_node_is_left _ _) as [[l1 l2]|]; [|discriminate].
      destruct (MR m t (t' :: below) k b) as [[[p m1] tr1]|] eqn:E1; [|discriminate].
      destruct (MR m1 t' below _ _) as [[[y m2] tr2]|] eqn:E2; [|discriminate].
      destruct (MD _ t' below _ _) as [[m3 tr3]|] eqn:E3; [|discriminate].
      injection Hm; intros <- <-. cbn [length] in Hd.
      destruct (count_read _ _ _ _ _ _ _ _ _ E1 Hp Hc Ht (or_intror Hin)) as (p' & s1 & R1 & Q1 & G1).
      assert (T1 := counted_tops _ _ _ G1 Ht).
      destruct (count_read _ _ _ _ _ _ _ _ _ E2 Q1 (proj1 G1) T1) as (y' & s2 & R2 & Q2 & G2);
        [left; lia|].
      assert (T2 := counted_tops _ _ _ G2 T1).
      set (na := if b then fst (edge_at t k) else snd (edge_at t k)) in *.
      set (la := if b then negb l1 else negb l2) in *.
      assert (Cv := counted_value s2 (length below) na la nan (proj1 G2)).
      destruct (IH _ _ _ _ _ _ (set_value V s2 (length below) na la nan) E3) as (s3 & R3 & Q3 & G3);
        [apply present_put; exact Q2 | apply Cv | exact (counted_tops _ _ _ Cv T2)
        | cbn [mput mval]; destruct (slot_eq _ _); [discriminate|congruence] | lia |].
      exists s3. split.
      + unfold bind, modify. rewrite R1. unfold inverse. destruct b; rewrite R2; exact R3.
      + split; [exact Q3|]. eapply counted_app; [exact G1|]. eapply counted_app; [exact G2|].
        exact (counted_app _ _ _ _ _ Cv G3).
  Qed.

  Lemma count_queue : forall ts order m m' tr s, MQ ts order m = Some (m', tr) ->
    present m s -> counting V s = true -> tops s -> depth = length ts ->
    (forall o1 l k b o2 m1 tr1, order = o1 ++ ChildEntry l k b :: o2 -> MQ ts o1 m = Some (m1, tr1) ->
       mval V m1 (l, k, b) <> None /\ l < depth) ->
    exists s', EQ true ts order s = (Some tt, s') /\ present m' s' /\ counted s s' tr.
  Proof.
    intros ts. induction order as [|[r|l k b] order IH]; intros m m' tr s Hm Hp Hc Ht Hd Hin;
      cbn [mqueue empty_queue] in *.
    - injection Hm; intros <- <-. exists s. split; [reflexivity|]. split; [exact Hp|].
      apply counted_refl, Hc.
    - eapply IH; eauto. intros o1 l k b o2 m1 tr1 E E1.
      apply (Hin (RootEntry r :: o1) l k b o2 m1 tr1); [rewrite E; reflexivity | exact E1].
    - destruct (Hin [] l k b order m [] eq_refl eq_refl) as [H1 H2].
      destruct (skipn _ _) as [|t below] eqn:Es; [discriminate|].
      assert (L : length below = l).
      { apply (f_equal (@length _)) in Es. rewrite skipn_length in Es. cbn [length] in Es.
        unfold tree, edge in *. lia. }
      destruct (MD m t below k b) as [[m1 tr1]|] eqn:E1; [|discriminate].
      destruct (MQ ts order m1) as [[m2 tr2]|] eqn:E2; [|discriminate].
      injection Hm; intros <- <-.
      destruct (count_down _ _ _ _ _ _ _ s E1) as (s1 & R1 & Q1 & G1); auto; try (rewrite L; auto).
      destruct (IH m1 m2 tr2 s1 E2 Q1 (proj1 G1) (counted_tops _ _ _ G1 Ht) Hd) as (s2 & R2 & Q2 & G2).
      { intros o1 l' k' b' o2 m3 tr3 E E3.
        apply (Hin (ChildEntry l k b :: o1) l' k' b' o2 m3 (tr1 ++ tr3)); [rewrite E; reflexivity|].
        cbn [mqueue]. rewrite Es, E1, E3. reflexivity. }
      exists s2. split; [unfold bind; rewrite R1; exact R2|]. split; [exact Q2|].
      exact (counted_app _ _ _ _ _ G1 G2).
  Qed.

  Lemma count_initial : forall cond given ts order rand m m' s, MI cond given ts order rand m = Some m' ->
    present m s -> counting V s = true ->
    exists s', SI true cond given ts order rand s = (Some tt, s') /\ present m' s'
      /\ counted s s' [].
  Proof.
    intros cond given ts. induction order as [|e order IH]; intros rand m m' s Hm Hp Hc;
      cbn [minit set_initial] in *.
    - injection Hm; intros <-. exists s. split; [reflexivity|]. split; [exact Hp|]. apply counted_refl, Hc.
    - assert (St : forall x y, let s1 := match e with
                     | RootEntry r => set_pseudo V s r y
                     | ChildEntry l k lft => set_value V s l k lft y end in
                   present (mstore V m e x) s1 /\ counting V s1 = true /\ counted s s1 []).
      { intros x y. destruct e as [r|l k b]; cbv zeta.
        - split; [apply present_root; exact Hp|]. split; [exact Hc|]. apply counted_pseudo, Hc.
        - split; [apply present_put; exact Hp|]. split; [exact Hc|]. apply counted_value, Hc. }
      cbv zeta in St. unfold bind, modify. unfold bind in IH.
      set (s1 := match e with RootEntry r => set_pseudo V s r (clip nan)
                 | ChildEntry l k lft => set_value V s l k lft (clip nan) end) in *.
      assert (exists rand' x, MI cond given ts order rand' (mstore V m e x) = Some m') as (rand' & x & Hm').
      { destruct (mem _ _); [eauto|]. destruct rand; [discriminate | eauto]. }
      destruct (St x (clip nan)) as (P1 & P2 & P3). fold s1 in P1, P2, P3.
      assert (ext : forall o r1 r2 s0, SI true cond given ts o r1 s0 = SI true cond given ts o r2 s0).
      { clear. induction o as [|e o IH]; intros r1 r2 s0; [reflexivity|].
        cbn [set_initial]. unfold bind, modify. apply IH. }
      destruct (IH rand' _ m' s1 Hm' P1 P2) as (s2 & R2 & Q2 & G2).
      exists s2. split; [rewrite (ext order rand rand'); exact R2|]. split; [exact Q2|].
      exact (counted_app _ _ _ _ _ P3 G2).
  Qed.

  (** ** Evicting *)
  Section Evict.
  Variable ev0 : list slot.

  Definition kept (rest : list slot) (m : memo) (s : vine_state) (p : slot) : Prop :=
    if S (lev p) <? depth
    then (0 < cnt rest p -> cch s p = mval V m p /\ sn s p + cnt rest p = ex s p)
         /\ (cnt rest p = 0 -> cch s p = None /\ sn s p = 0)
    else cch s p = mval V m p /\ ex s p = 0.

  Definition follows (L : nat) (rest : list slot) (m : memo) (s : vine_state) : Prop :=
    (forall r, pseudo_values V s r = mroots V m r) /\ counting V s = false
    /\ evaluated V s = mev V m ++ ev0
    /\ forall p, lev p < L -> kept rest m s p.

  Lemma kept_now : forall rest m s p, kept (p :: rest) m s p -> cch s p = mval V m p.
  Proof.
    intros rest m s p H. unfold kept in H. destruct (S (lev p) <? depth); [|apply H].
    destruct H as [H _]. cbn [count_occ] in H. destruct (slot_eq p p); [|congruence].
    apply H. lia.
  Qed.

  Lemma kept_more : forall tr rest m s m' s' p, ~ In p tr -> mg s' p = mg s p -> mval V m' p = mval V m p ->
    kept (tr ++ rest) m s p -> kept rest m' s' p.
  Proof.
    intros tr rest m s m' s' p N E1 E2 H. unfold kept, cch, sn, ex in *. rewrite E1, E2.
    rewrite count_occ_app in H. rewrite (proj1 (count_occ_not_In slot_eq tr p) N) in H. exact H.
  Qed.

  (** What a read leaves at its own place, once the value is cached. *)
  Lemma release_kept : forall rest m s l k b x, counting V s = false ->
    cch s (l, k, b) = Some x -> mval V m (l, k, b) = Some x ->
    (if S l <? depth then sn s (l, k, b) + cnt rest (l, k, b) = ex s (l, k, b) /\ sn s (l, k, b) <> 0
     else ex s (l, k, b) = 0) ->
    kept rest m (release V depth l k b s) (l, k, b)
    /\ (forall p, p <> (l, k, b) -> mg (release V depth l k b s) p = mg s p)
    /\ pseudo_values V (release V depth l k b s) = pseudo_values V s
    /\ counting V (release V depth l k b s) = false
    /\ evaluated V (release V depth l k b s) = evaluated V s.
  Proof.
    intros rest m s l k b x Hc Hx Hm He. unfold release, is_count. rewrite Hc, andb_false_r. cbn [negb andb].
    change (expected V (margins V s l k b)) with (ex s (l, k, b)).
    change (seen V (margins V s l k b)) with (sn s (l, k, b)).
    unfold kept. cbn [lev fst].
    destruct (S l <? depth) eqn:El.
    - destruct He as [He Hs]. destruct (Nat.eqb_spec (ex s (l, k, b)) 0) as [Z|Z]; [lia|].
      destruct (Nat.eqb_spec (sn s (l, k, b)) (ex s (l, k, b))) as [Q|Q]; cbn [negb andb].
      + split; [|split; [|auto]].
        * unfold cch, sn, ex. rewrite mg_set. destruct (slot_eq _ _); [|congruence].
          cbn [cached seen expected]. split; [intros; lia | auto].
        * intros p Hp. rewrite mg_set. destruct (slot_eq p _); [congruence | reflexivity].
      + split; [|auto]. split; [intros _; split; [congruence | lia] | intros; lia].
    - rewrite He. cbn [Nat.eqb negb andb]. split; [|auto]. split; [congruence | exact He].
  Qed.

  Lemma evict_read : forall below t k b m x m' tr rest s, MR m t below k b = Some (x, m', tr) ->
    follows (S (length below)) (tr ++ rest) m s ->
    exists s', RM t below k b s = (Some x, s') /\ follows (S (length below)) rest m' s'
      /\ forall p, length below < lev p -> mg s' p = mg s p.
  Proof.
    assert (pre : forall m s l k b tr rest, (forall p, In p tr -> lev p < l) ->
              follows (S l) ((l, k, b) :: tr ++ rest) m s ->
              let s1 := visit V depth l k b s in
              cached V (margins V s1 l k b) = mval V m (l, k, b)
              /\ follows l (tr ++ rest) m s1
              /\ (forall p, p <> (l, k, b) -> mg s1 p = mg s p)
              /\ (if S l <? depth then sn s1 (l, k, b) + cnt rest (l, k, b) = ex s1 (l, k, b) /\ sn s1 (l, k, b) <> 0
                  else ex s1 (l, k, b) = 0)).
    { intros m s l k b tr rest Htr (F1 & F2 & F3 & F4) s1.
      assert (Hk := F4 (l, k, b) (Nat.lt_succ_diag_r l)).
      assert (Hmg : forall p, p <> (l, k, b) -> mg s1 p = mg s p).
      { intros p N. unfold s1. rewrite mg_visit. destruct (slot_eq p _); [congruence | reflexivity]. }
      assert (Hown : mg s1 (l, k, b) = {| cached := cch s (l, k, b); seen := S (sn s (l, k, b)); expected := ex s (l, k, b) |}).
      { unfold s1. rewrite mg_visit. destruct (slot_eq _ _); [|congruence].
        unfold is_count. rewrite F2, andb_false_r. reflexivity. }
      split; [|split; [|split; [exact Hmg|]]].
      - change (cached V (margins V s1 l k b)) with (cached V (mg s1 (l, k, b))). rewrite Hown. cbn [cached].
        eapply kept_now; eauto.
      - split; [exact F1|]. split; [exact F2|]. split; [exact F3|]. intros p Hp.
        assert (N : p <> (l, k, b)) by (intros ->; cbn in Hp; lia).
        apply (kept_more [(l, k, b)] (tr ++ rest) m s); [intros [?|[]]; congruence | auto | reflexivity |].
        apply F4. lia.
      - unfold sn at 1 2, ex. rewrite Hown. cbn [seen expected].
        unfold kept in Hk. cbn [lev fst] in Hk. destruct (S l <? depth); [|apply Hk].
        destruct Hk as [Hk _]. cbn [count_occ] in Hk. destruct (slot_eq _ _); [|congruence].
        rewrite count_occ_app in Hk.
        assert (Z : cnt tr (l, k, b) = 0)
          by (apply count_occ_not_In; intros Hin; specialize (Htr _ Hin); cbn in Htr; lia).
        rewrite Z in Hk. destruct Hk as [_ Hk]; [lia|]. split; lia. }
    assert (fin : forall rest m s l k b x, follows l rest m s -> cch s (l, k, b) = Some x ->
              mval V m (l, k, b) = Some x -> (forall p, lev p = l -> p <> (l, k, b) -> kept rest m s p) ->
              (if S l <? depth then sn s (l, k, b) + cnt rest (l, k, b) = ex s (l, k, b) /\ sn s (l, k, b) <> 0
               else ex s (l, k, b) = 0) ->
              follows (S l) rest m (release V depth l k b s)
              /\ forall p, l < lev p -> mg (release V depth l k b s) p = mg s p).
    { intros rest m s l k b x (F1 & F2 & F3 & F4) Hx Hm Ho He.
      destruct (release_kept rest m s l k b x F2 Hx Hm He) as (R1 & R2 & R3 & R4 & R5).
      split.
      - split; [rewrite R3; exact F1|]. split; [exact R4|]. split; [rewrite R5; exact F3|].
        intros p Hp. destruct (slot_eq p (l, k, b)) as [->|N]; [exact R1|].
        apply (kept_more [] rest m s); [intros [] | auto | reflexivity|].
        destruct (Nat.eq_dec (lev p) l); [auto | apply F4; lia].
      - intros p Hp. apply R2. intros ->. cbn in Hp. lia. }
    assert (hit : forall m s l k b x rest, mval V m (l, k, b) = Some x ->
              follows (S l) ((l, k, b) :: rest) m s ->
              let s1 := visit V depth l k b s in
              cached V (margins V s1 l k b) = Some x
              /\ follows (S l) rest m (release V depth l k b s1)
              /\ forall p, l < lev p -> mg (release V depth l k b s1) p = mg s p).
    { intros m s l k b x rest Hx Hf s1.
      destruct (pre m s l k b [] rest (fun p H => match H with end) Hf) as (P1 & P2 & P3 & P4).
      fold s1 in P1, P2, P3, P4. rewrite Hx in P1. split; [exact P1|].
      destruct (fin rest m s1 l k b x P2 P1 Hx) as (Q1 & Q2); [|exact P4|].
      - intros p Hp N. apply (kept_more [(l, k, b)] rest m s);
          [intros [?|[]]; congruence | auto | reflexivity|]. destruct Hf as (_ & _ & _ & Hf). apply Hf. lia.
      - split; [exact Q1|]. intros p Hp. rewrite Q2 by auto. apply P3. intros ->. cbn in Hp. lia. }
    assert (miss : forall m s l k b tr rest m2 s2 x y w, mval V m (l, k, b) = None ->
              (forall p, In p tr -> lev p < l) ->
              follows (S l) ((l, k, b) :: tr ++ rest) m s ->
              (forall p, l <= lev p -> mval V m2 p = mval V m p) ->
              follows l rest m2 s2 ->
              (forall p, l <= lev p -> mg s2 p = mg (visit V depth l k b s) p) ->
              w = (if b then hu else hv) (copula l k) x y ->
              exists s', (bind V (evaluate V C hu hv nan depth copula l k b x y) (fun x s => (Some x, release V depth l k b s)) s2 = (Some w, s'))
                /\ follows (S l) rest (mput_ev V m2 (l, k, b) w) s'
                /\ forall p, l < lev p -> mg s' p = mg s p).
    { intros m s l k b tr rest m2 s2 x y w Hn Htr Hf Hm2 (F1 & F2 & F3 & F4) Hs2 Ew.
      destruct (pre m s l k b tr rest Htr Hf) as (P1 & _ & P3 & P4). cbv zeta in *.
      set (s1 := visit V depth l k b s) in *.
      unfold bind, evaluate, is_count. rewrite F2, andb_false_r, <- Ew.
      set (s3 := set_value V (log_call V s2 l k b) l k b w).
      set (m3 := mput_ev V m2 (l, k, b) w).
      assert (O3 : forall p, p <> (l, k, b) -> mg s3 p = mg s2 p).
      { intros p N. unfold s3. rewrite mg_value. destruct (slot_eq p _); [congruence|]. apply mg_log. }
      assert (V3 : forall p, p <> (l, k, b) -> mval V m3 p = mval V m2 p).
      { intros p N. unfold m3. cbn [mput_ev mval]. destruct (slot_eq p _); [congruence | reflexivity]. }
      assert (E3 : mg s3 (l, k, b) = {| cached := Some w; seen := sn s1 (l, k, b); expected := ex s1 (l, k, b) |}).
      { unfold s3. rewrite mg_value. destruct (slot_eq _ _); [|congruence]. unfold sn, ex. rewrite mg_log.
        rewrite Hs2 by (cbn; lia). reflexivity. }
      assert (G3 : follows l rest m3 s3).
      { split; [exact F1|]. split; [exact F2|]. split.
        - unfold s3, m3. cbn [set_value set_margin log_call evaluated mput_ev mev app]. rewrite F3. reflexivity.
        - intros p Hp. assert (N : p <> (l, k, b)) by (intros ->; cbn in Hp; lia).
          apply (kept_more [] rest m2 s2); auto. }
      destruct (fin rest m3 s3 l k b w G3) as (Q1 & Q2).
      - unfold cch. rewrite E3. reflexivity.
      - unfold m3. cbn [mput_ev mval]. destruct (slot_eq _ _); [reflexivity | congruence].
      - intros p Hp N.
        apply (kept_more ((l, k, b) :: tr) rest m s).
        + intros [?|Hin]; [congruence|]. specialize (Htr p Hin). lia.
        + rewrite O3, Hs2, P3; auto. lia.
        + rewrite V3 by auto. apply Hm2. lia.
        + destruct Hf as (_ & _ & _ & Hf). apply Hf. lia.
      - unfold sn, ex. rewrite E3. exact P4.
      - eexists. split; [reflexivity|]. split; [exact Q1|]. intros p Hp.
        assert (N : p <> (l, k, b)) by (intros ->; cbn in Hp; lia).
        rewrite Q2, O3, Hs2, P3 by (auto; lia). reflexivity. }
    induction below as [|t' below IH]; intros t k b m x m' tr rest s Hm Hf; cbn [read_margin];
      unfold bind at 1, modify; cbn [mread] in Hm.
    - set (l := length (@nil tree)) in *.
      destruct (mval V m (l, k, b)) as [y|] eqn:E.
      + injection Hm; intros <- <- <-. destruct (hit m s l k b y rest E Hf) as (H1 & H2 & H3).
        cbv zeta in *. rewrite H1. eexists. split; [reflexivity|]. split; [exact H2 | exact H3].
      + destruct (mroots V m (fst (edge_at t k))) as [x1|] eqn:E1; [|discriminate].
        destruct (mroots V m (snd (edge_at t k))) as [x2|] eqn:E2; [|discriminate].
        injection Hm; intros <- <- <-.
        destruct (pre m s l k b [] rest (fun p H => match H with end) Hf) as (P1 & P2 & P3 & P4).
        cbv zeta in *. rewrite P1, E.
        destruct (miss m s l k b [] rest m (visit V depth l k b s) x1 x2 _ E (fun p H => match H with end) Hf
                    (fun _ _ => eq_refl) P2 (fun _ _ => eq_refl) eq_refl) as (s' & R1 & R2 & R3).
        exists s'. split; [|split; [exact R2 | exact R3]].
        rewrite <- R1. unfold bind, read_pseudo.
        change (pseudo_values V (visit V depth l k b s)) with (pseudo_values V s).
        destruct Hf as (F1 & _). rewrite !F1, E1, E2. reflexivity.
    - set (l := length (t' :: below)) in *.
      destruct (mval V m (l, k, b)) as [y|] eqn:E.
      + injection Hm; intros <- <- <-. destruct (hit m s l k b y rest E Hf) as (H1 & H2 & H3).
        cbv zeta in *. rewrite H1. eexists. split; [reflexivity|]. split; [exact H2 | exact H3].
      + destruct (shared_node_is_left _ _) as [[l1 l2]|]; [|discriminate].
        destruct (MR m t' below _ _) as [[[x1 m1] tr1]|] eqn:E1; [|discriminate].
        destruct (MR m1 t' below _ _) as [[[x2 m2] tr2]|] eqn:E2; [|discriminate].
        injection Hm; intros <- <- <-.
        assert (Htr : forall p, In p (tr1 ++ tr2) -> lev p < l).
        { destruct (mread_levels _ _ _ _ _ _ _ _ _ _ _ _ _ E1) as ((r1 & -> & A1) & _).
          destruct (mread_levels _ _ _ _ _ _ _ _ _ _ _ _ _ E2) as ((r2 & -> & A2) & _).
          intros p Hp. unfold l. cbn [length].
          apply in_app_iff in Hp as [[<-|Hp]|[<-|Hp]]; [cbn; lia| specialize (A1 _ Hp); lia | cbn; lia | specialize (A2 _ Hp); lia]. }
        destruct (pre m s l k b (tr1 ++ tr2) rest Htr Hf) as (P1 & P2 & P3 & P4).
        cbv zeta in *. rewrite P1, E. set (s1 := visit V depth l k b s) in *.
        rewrite <- app_assoc in P2.
        destruct (IH _ _ _ _ _ _ _ _ _ E1 P2) as (s2 & R1 & Q1 & G1).
        destruct (IH _ _ _ _ _ _ _ _ _ E2 Q1) as (s3 & R2 & Q2 & G2).
        destruct (mread_levels _ _ _ _ _ _ _ _ _ _ _ _ _ E1) as (_ & B1 & _).
        destruct (mread_levels _ _ _ _ _ _ _ _ _ _ _ _ _ E2) as (_ & B2 & _).
        assert (M2 : forall p, l <= lev p -> mval V m2 p = mval V m p).
        { intros p Hp. unfold l in Hp. cbn [length] in Hp. rewrite B2, B1 by lia. reflexivity. }
        assert (S3 : forall p, l <= lev p -> mg s3 p = mg s1 p).
        { intros p Hp. unfold l in Hp. cbn [length] in Hp. rewrite G2, G1 by lia. reflexivity. }
        destruct (miss m s l k b (tr1 ++ tr2) rest m2 s3 x1 x2 _ E Htr Hf M2 Q2 S3 eq_refl)
          as (s' & R3 & R4 & R5).
        exists s'. split; [|split; [exact R4 | exact R5]]. rewrite <- R3. unfold bind. rewrite R1, R2. reflexivity.
  Qed.

  (** From one level to all levels. *)
  Lemma follows_all : forall L l tr rest m s m' s', follows L (tr ++ rest) m s -> S l <= L ->
    (forall p, In p tr -> lev p <= l) -> (forall p, l < lev p -> mg s' p = mg s p) ->
    (forall p, l < lev p -> mval V m' p = mval V m p) ->
    follows (S l) rest m' s' -> follows L rest m' s'.
  Proof.
    intros L l tr rest m s m' s' (F1 & F2 & F3 & F4) Hl Htr Hs Hm (G1 & G2 & G3 & G4).
    split; [exact G1|]. split; [exact G2|]. split; [exact G3|]. intros p Hp.
    destruct (Nat.ltb_spec (lev p) (S l)) as [H|H]; [auto|].
    apply (kept_more tr rest m s); auto.
    intros Hin. specialize (Htr p Hin). lia.
  Qed.
  Lemma follows_less : forall L l rest m s, follows L rest m s -> l <= L -> follows l rest m s.
  Proof.
    intros L l rest m s (F1 & F2 & F3 & F4) Hl. split; [exact F1|]. split; [exact F2|].
    split; [exact F3|]. intros p Hp. apply F4. lia.
  Qed.

  Lemma evict_read_all : forall below t k b m x m' tr rest s, MR m t below k b = Some (x, m', tr) ->
    length below < depth -> follows depth (tr ++ rest) m s ->
    exists s', RM t below k b s = (Some x, s') /\ follows depth rest m' s'.
  Proof.
    intros below t k b m x m' tr rest s Hm Hl Hf.
    destruct (evict_read _ _ _ _ _ _ _ _ rest s Hm (follows_less depth _ _ _ _ Hf Hl)) as (s' & H1 & H2 & H3).
    exists s'. split; [exact H1|].
    destruct (mread_levels _ _ _ _ _ _ _ _ _ _ _ _ _ Hm) as ((r & -> & A) & B & _).
    eapply follows_all; eauto.
    intros p [<-|Hp]; [cbn; lia|]. specialize (A p Hp). lia.
  Qed.

  Lemma follows_root : forall rest m s r x, follows depth rest m s ->
    follows depth rest (mroot V m r x) (set_pseudo V s r x).
  Proof.
    intros rest m s r x (F1 & F2 & F3 & F4). split; [|split; [exact F2|split; [exact F3|exact F4]]].
    intros q. cbn [set_pseudo pseudo_values mroot mroots]. unfold upd. destruct (q =? r); auto.
  Qed.

  Lemma follows_put : forall rest m s l k b x, follows depth rest m s -> In (l, k, b) rest ->
    follows depth rest (mput V m (l, k, b) x) (set_value V s l k b x).
  Proof.
    intros rest m s l k b x (F1 & F2 & F3 & F4) Hin. split; [exact F1|]. split; [exact F2|].
    split; [exact F3|]. intros p Hp. specialize (F4 p Hp). unfold kept in *.
    unfold cch, sn, ex in *. rewrite mg_value. cbn [mput mval].
    destruct (slot_eq p (l, k, b)) as [->|N]; [|exact F4]. cbn [cached seen expected].
    apply (count_occ_In slot_eq) in Hin.
    destruct (S (lev (l, k, b)) <? depth).
    - destruct F4 as [F4 _]. split; [|lia]. intros H. split; [reflexivity|]. apply F4, H.
    - split; [reflexivity | apply F4].
  Qed.

  Lemma evict_down : forall below t k b m m' tr rest s, MD m t below k b = Some (m', tr) ->
    length below < depth -> follows depth (tr ++ rest) m s ->
    exists s', GD false t below k b s = (Some tt, s') /\ follows depth rest m' s'.
  Proof.
    induction below as [|t' below IH]; intros t k b m m' tr rest s Hm Hl Hf;
      cbn [mdescend go_down] in *.
    - destruct (MR m t [] k b) as [[[p m1] tr1]|] eqn:E1; [|discriminate].
      destruct (mroots V m1 _) as [y|] eqn:E2; [|discriminate]. injection Hm; intros <- <-.
      destruct (evict_read_all _ _ _ _ _ _ _ _ _ _ E1 Hl Hf) as (s1 & R1 & Q1).
      unfold bind, read_pseudo, modify. rewrite R1. destruct Q1 as (Q1 & Q1'). rewrite Q1, E2.
      eexists. split; [reflexivity|]. apply follows_root. split; auto.
    - destruct (shared_node_is_left _ _) as [[l1 l2]|]; [|discriminate].
      destruct (MR m t (t' :: below) k b) as [[[p m1] tr1]|] eqn:E1; [|discriminate].
      destruct (MR m1 t' below _ _) as [[[y m2] tr2]|] eqn:E2; [|discriminate].
      destruct (MD _ t' below _ _) as [[m3 tr3]|] eqn:E3; [|discriminate].
      injection Hm; intros <- <-. rewrite <- !app_assoc in Hf.
      assert (Hl' : length below < depth) by (cbn [length] in Hl; lia).
      destruct (evict_read_all _ _ _ _ _ _ _ _ _ _ E1 Hl Hf) as (s1 & R1 & Q1).
      destruct (evict_read_all _ _ _ _ _ _ _ _ _ _ E2 Hl' Q1) as (s2 & R2 & Q2).
      set (na := if b then fst (edge_at t k) else snd (edge_at t k)) in *.
      set (la := if b then negb l1 else negb l2) in *.
      assert (Hin : In (length below, na, la) (tr3 ++ rest)).
      { apply in_app_iff. left. eapply mdescend_reads; eauto. }
      assert (Q3 := follows_put _ _ _ _ _ _ (hinv (copula (length (t' :: below)) k) p y) Q2 Hin).
      destruct (IH _ _ _ _ _ _ _ _ E3 Hl' Q3) as (s3 & R3 & Q4).
      exists s3. split; [|exact Q4].
      unfold bind, modify. rewrite R1. unfold inverse. destruct b; rewrite R2; exact R3.
  Qed.

  Lemma evict_queue : forall ts order m m' tr rest s, MQ ts order m = Some (m', tr) ->
    depth = length ts -> (forall l k b, In (ChildEntry l k b) order -> l < depth) ->
    follows depth (tr ++ rest) m s ->
    exists s', EQ false ts order s = (Some tt, s') /\ follows depth rest m' s'.
  Proof.
    intros ts. induction order as [|[r|l k b] order IH]; intros m m' tr rest s Hm Hd Hin Hf;
      cbn [mqueue empty_queue] in *.
    - injection Hm; intros <- <-. exists s. split; [reflexivity | exact Hf].
    - eapply IH; eauto. intros l k b H. apply (Hin l k b). right; exact H.
    - destruct (skipn _ _) as [|t below] eqn:Es; [discriminate|].
      assert (Hl := Hin l k b (or_introl eq_refl)).
      assert (L : length below = l).
      { apply (f_equal (@length _)) in Es. rewrite skipn_length in Es. cbn [length] in Es.
        unfold tree, edge in *. lia. }
      destruct (MD m t below k b) as [[m1 tr1]|] eqn:E1; [|discriminate].
      destruct (MQ ts order m1) as [[m2 tr2]|] eqn:E2; [|discriminate].
      injection Hm; intros <- <-. rewrite <- app_assoc in Hf.
      destruct (evict_down _ _ _ _ _ _ _ _ _ E1 ltac:(lia) Hf) as (s1 & R1 & Q1).
      destruct (IH m1 m2 tr2 rest s1 E2 Hd) as (s2 & R2 & Q2); [intros; eapply Hin; right; eauto | exact Q1|].
      exists s2. split; [unfold bind; rewrite R1; exact R2 | exact Q2].
  Qed.

  Lemma evict_initial : forall cond given ts order rand m m' rest s, MI cond given ts order rand m = Some m' ->
    (forall l k b, In (ChildEntry l k b) order -> In (l, k, b) rest) ->
    follows depth rest m s ->
    exists s', SI false cond given ts order rand s = (Some tt, s') /\ follows depth rest m' s'.
  Proof.
    intros cond given ts. induction order as [|e order IH]; intros rand m m' rest s Hm Hin Hf;
      cbn [minit set_initial] in *.
    - injection Hm; intros <-. exists s. split; [reflexivity | exact Hf].
    - assert (St : forall x, follows depth rest (mstore V m e x)
                     (match e with RootEntry r => set_pseudo V s r x
                      | ChildEntry l k lft => set_value V s l k lft x end)).
      { intros x. destruct e as [r|l k b]; [apply follows_root; exact Hf|].
        apply follows_put; [exact Hf|]. apply Hin. left; reflexivity. }
      assert (Hin' : forall l k b, In (ChildEntry l k b) order -> In (l, k, b) rest)
        by (intros; apply Hin; right; auto).
      unfold bind, modify. destruct (mem _ _); [|destruct rand; [discriminate|]];
        (destruct (IH _ _ _ _ _ Hm Hin' (St _)) as (s1 & R1 & Q1); exists s1; split; [exact R1 | exact Q1]).
  Qed.
  End Evict.

  (** ** Both passes *)
  Lemma both_passes : forall cond given ts order rand m1 m2 tr,
    depth = length ts ->
    let m0 := {| mroots := fun _ => None; mval := fun _ => None; mev := [] |} in
    MI cond given ts order rand m0 = Some m1 -> MQ ts order m1 = Some (m2, tr) ->
    (exists r rest, order = RootEntry r :: rest) ->
    (forall o1 l k b o2 m tr, order = o1 ++ ChildEntry l k b :: o2 -> MQ ts o1 m1 = Some (m, tr) ->
       mval V m (l, k, b) <> None /\ l < depth) ->
    (forall l k b, In (ChildEntry l k b) order -> l < depth) ->
    forall s, counting V s = false ->
    exists s', two_passes V C hu hv hinv nan depth copula enum clip cond given ts order rand
                 (clear_cache V true s) = (Some tt, s')
      /\ follows (evaluated V s) depth [] m2 s'.
  Proof.
    intros cond given ts order rand m1 m2 tr Hd m0 H1 H2 (r0 & o0 & Ho) Hpres Hlev s Hc.
    set (s0 := set_counting V (clear_cache V true s) true).
    assert (P0 : present m0 s0) by (split; intros; unfold m0, s0; cbn; tauto).
    assert (T0 : tops s0) by (intros p _; reflexivity).
    destruct (count_initial _ _ _ _ _ _ _ s0 H1 P0 eq_refl) as (s1 & R1 & Q1 & G1).
    assert (T1 := counted_tops _ _ _ G1 T0).
    destruct (count_queue _ _ _ _ _ s1 H2 Q1 (proj1 G1) T1 Hd Hpres) as (s2 & R2 & Q2 & G2).
    assert (G := counted_app _ _ _ _ _ G1 G2). cbn [app] in G.
    set (s3 := clear_cache V false (set_counting V s2 false)).
    assert (F3 : follows (evaluated V s) depth (tr ++ []) m0 s3).
    { split; [reflexivity|]. split; [reflexivity|]. split.
      - destruct G as (_ & G & _). exact G.
      - intros p Hp. rewrite app_nil_r. destruct G as (_ & _ & G). destruct (G p) as [Ge Gs].
        change (ex s0 p) with 0 in Ge. change (sn s0 p) with 0 in Gs.
        assert (E1 : ex s3 p = ex s2 p) by reflexivity.
        assert (E2 : sn s3 p = sn s2 p) by reflexivity.
        unfold kept. change (cch s3 p) with (@None V). change (mval V m0 p) with (@None V).
        rewrite E1, E2, Ge. destruct (Nat.ltb_spec (S (lev p)) depth) as [L|L].
        + rewrite Gs by auto. split; intros; split; auto; lia.
        + split; [reflexivity|lia]. }
    destruct (evict_initial (evaluated V s) _ _ _ _ _ _ _ (tr ++ []) s3 H1) as (s4 & R4 & Q4); auto.
    { intros l k b Hin. apply in_app_iff. left. eapply mqueue_reads; eauto.
      rewrite <- Hd. eauto. }
    destruct (evict_queue (evaluated V s) _ _ _ _ _ _ _ H2 Hd Hlev Q4) as (s5 & R5 & Q5).
    exists s5. split; [|exact Q5].
    unfold two_passes, count_node_visits, propagate_samples, bind at 1.
    assert (OC : forall s, order_counted V depth order s = (Some (counting V s), s))
      by (intros; rewrite Ho; reflexivity).
    unfold bind at 1. rewrite OC. change (counting V _) with true.
    unfold bind at 1. fold s0. rewrite R1, R2. fold s3.
    unfold bind at 1. rewrite OC. change (counting V s3) with false.
    unfold bind. rewrite R4. exact R5.
  Qed.
End Passes.

(** * Remembering values changes nothing, on a regular vine *)

Section Fresh.
  Variables V C : Type.
  Variables hu hv hinv : C -> V -> V -> V.
  Variable copula : nat -> nat -> C.
  Variable enum : list nat -> list nat.
  Hypothesis enum_ok : enumerates enum.
  Variable n : nat.
  Variable ts : list tree.
  Hypothesis Hreg : regular n ts.
  Variable clip : V -> V.
  Variable cond : list nat.
  Variable given : nat -> V.

  Notation state := (state V).
  Notation memo := (memo V).
  Notation MR := (mread V C hu hv copula).
  Notation MD := (mdescend V C hu hv hinv copula).
  Notation MQ := (mqueue V C hu hv hinv copula).
  Notation MI := (minit V enum clip).
  Notation rd := (read V C hu hv copula).
  Notation set_of := (set_of V).

  Definition valid (l : nat) (t : tree) (below : list tree) (k : nat) : Prop :=
    tree_on_level ts l t below /\ k < length t.
  Definition inside (K : nat -> Prop) (t : tree) (below : list tree) (k : nat) : Prop :=
    forall v, In v (vars (t :: below) k) -> K v.

  Definition agree (s : state) (m : memo) (K : nat -> Prop) : Prop :=
    (forall r, mroots V m r = roots V s r)
    /\ (forall l k b w, set_of s b l k = Some w -> mval V m (l, k, b) = Some w)
    /\ (forall l k b w, mval V m (l, k, b) = Some w ->
          set_of s b l k = Some w
          \/ (set_of s b l k = None
              /\ exists t below, valid l t below k /\ inside K t below k /\ rd s t below k b = Some w)).

  Definition rooted (s : state) (K : nat -> Prop) : Prop := forall r, K r -> roots V s r <> None.

  Lemma read_ext : forall below t k b s s' K, valid (length below) t below k -> inside K t below k ->
    (forall r, K r -> roots V s r = roots V s' r) ->
    (forall l t' below' k' b', valid l t' below' k' -> inside K t' below' k' ->
       set_of s b' l k' = set_of s' b' l k') ->
    rd s t below k b = rd s' t below k b.
  Proof.
    induction below as [|t' below IH]; intros t k b s s' K [Hlev Hk] Hin Hr Hs; cbn [read];
      fold (set_of s b) (set_of s' b); rewrite (Hs _ _ _ _ b (conj Hlev Hk) Hin);
      destruct (set_of s' b _ k); try reflexivity.
    - rewrite !Hr; [reflexivity | |]; apply Hin, vars_cons; cbn; auto.
    - destruct (children enum enum_ok n ts Hreg _ _ _ _ _ Hlev Hk) as (l1 & l2 & H1 & H2 & H3 & _).
      assert (Hlev' := level_below _ _ _ _ _ Hlev). rewrite H1.
      rewrite (IH t' _ (negb l1) s s' K), (IH t' _ (negb l2) s s' K); auto;
        try (split; auto; fail); intros v Hv; apply Hin, vars_cons; auto.
  Qed.

  Lemma memo_read : forall below t k b s m K, valid (length below) t below k -> agree s m K ->
    rooted s K -> inside K t below k \/ set_of s b (length below) k <> None ->
    exists w m' tr, MR m t below k b = Some (w, m', tr) /\ rd s t below k b = Some w /\ agree s m' K.
  Proof.
    assert (hit : forall below t k b s m K w, valid (length below) t below k -> agree s m K ->
              mval V m (length below, k, b) = Some w -> rd s t below k b = Some w).
    { intros below t k b s m K w [Hlev Hk] (A1 & A2 & A3) E.
      destruct (A3 _ _ _ _ E) as [H|(_ & t' & below' & [L1 L2] & _ & H)].
      - apply read_set. exact H.
      - destruct (level_unique _ _ _ _ _ _ Hlev L1) as [-> ->]. exact H. }
    assert (add : forall below t k b s m K w, valid (length below) t below k -> inside K t below k ->
              agree s m K -> set_of s b (length below) k = None -> rd s t below k b = Some w ->
              agree s (mput_ev V m (length below, k, b) w) K).
    { intros below t k b s m K w Hv Hin (A1 & A2 & A3) Hn Hr. split; [exact A1|]. cbn [mput_ev mval].
      split; intros l' k' b' w' H; destruct (slot_eq (l', k', b') (length below, k, b)) as [E|N]; auto.
      - injection E; intros -> -> ->. congruence.
      - injection E; intros -> -> ->. injection H; intros <-. right. split; [exact Hn|]. eauto. }
    induction below as [|t' below IH]; intros t k b s m K Hv Ha Hr Hin; cbn [mread].
    - destruct (mval V m (length (@nil tree), k, b)) as [x|] eqn:E.
      + exists x, m, [(length (@nil tree), k, b)]. split; [reflexivity|]. split; [|exact Ha].
        exact (hit [] t k b s m K x Hv Ha E).
      + assert (Hn : set_of s b (length (@nil tree)) k = None).
        { destruct (set_of s b _ k) eqn:Es; [|reflexivity]. destruct Ha as (_ & A2 & _).
          rewrite (A2 _ _ _ _ Es) in E. discriminate. }
        destruct Hin as [Hin|Hin]; [|congruence].
        assert (Ri : roots V s (fst (edge_at t k)) <> None) by (apply Hr, Hin, vars_cons; cbn; auto).
        assert (Rj : roots V s (snd (edge_at t k)) <> None) by (apply Hr, Hin, vars_cons; cbn; auto).
        assert (A1 := proj1 Ha). rewrite !A1.
        destruct (roots V s (fst (edge_at t k))) as [x|] eqn:Ex; [|congruence].
        destruct (roots V s (snd (edge_at t k))) as [y|] eqn:Ey; [|congruence].
        assert (Hrd : rd s t [] k b = Some ((if b then hu else hv) (copula (length (@nil tree)) k) x y)).
        { cbn [read]. fold (set_of s b). rewrite Hn, Ex, Ey. reflexivity. }
        eexists _, _, _. split; [reflexivity|]. split; [exact Hrd|].
        exact (add [] t k b s m K _ Hv Hin Ha Hn Hrd).
    - destruct (mval V m (length (t' :: below), k, b)) as [x|] eqn:E.
      + exists x, m, [(length (t' :: below), k, b)]. split; [reflexivity|]. split; [|exact Ha].
        exact (hit (t' :: below) t k b s m K x Hv Ha E).
      + assert (Hn : set_of s b (length (t' :: below)) k = None).
        { destruct (set_of s b _ k) eqn:Es; [|reflexivity]. destruct Ha as (_ & A2 & _).
          rewrite (A2 _ _ _ _ Es) in E. discriminate. }
        destruct Hin as [Hin|Hin]; [|congruence]. destruct Hv as [Hlev Hk].
        destruct (children enum enum_ok n ts Hreg _ _ _ _ _ Hlev Hk) as (l1 & l2 & H1 & H2 & H3 & _).
        assert (Hlev' := level_below _ _ _ _ _ Hlev). rewrite H1.
        destruct (IH t' (fst (edge_at t k)) (negb l1) s m K) as (x & m1 & tr1 & R1 & D1 & A1);
          [split; auto | exact Ha | exact Hr | left; intros v Hx; apply Hin, vars_cons; auto |].
        destruct (IH t' (snd (edge_at t k)) (negb l2) s m1 K) as (y & m2 & tr2 & R2 & D2 & A2);
          [split; auto | exact A1 | exact Hr | left; intros v Hx; apply Hin, vars_cons; auto |].
        rewrite R1, R2.
        assert (Hrd : rd s t (t' :: below) k b = Some ((if b then hu else hv) (copula (length (t' :: below)) k) x y)).
        { cbn [read]. fold (set_of s b). rewrite Hn, H1, D1, D2. reflexivity. }
        eexists _, _, _. split; [reflexivity|]. split; [exact Hrd|].
        exact (add (t' :: below) t k b s m2 K _ (conj Hlev Hk) Hin A2 Hn Hrd).
  Qed.

  Definition changes (s s' : state) (K : nat -> Prop) (q : nat) : Prop :=
    forall l t below k b, valid l t below k ->
      set_of s' b l k = set_of s b l k
      \/ (In q (vars (t :: below) k) /\ inside (fun v => K v \/ v = q) t below k).

  Lemma agree_put : forall s m (K : nat -> Prop) q t below k b x, agree s m K -> ~ K q ->
    valid (length below) t below k -> In q (vars (t :: below) k) ->
    agree (put V s (length below) k b x) (mput V m (length below, k, b) x) K.
  Proof.
    intros s m K q t below k b x (A1 & A2 & A3) Hq [Hlev Hk] Hin.
    split; [intros r; rewrite put_roots; apply A1|]. cbn [mput mval].
    split; intros l' k' b' w H; destruct (slot_eq (l', k', b') (length below, k, b)) as [E|N].
    - injection E; intros -> -> ->. rewrite put_same in H. exact H.
    - rewrite put_other in H by exact N. auto.
    - injection E; intros -> -> ->. left. rewrite put_same. exact H.
    - rewrite put_other by exact N. destruct (A3 _ _ _ _ H) as [G|(G & t1 & below1 & V1 & I1 & R1)]; [auto|].
      right. split; [exact G|]. exists t1, below1. split; [exact V1|]. split; [exact I1|].
      rewrite <- R1. symmetry. destruct V1 as [V1 V2].
      assert (El : length below1 = l') by exact (proj2 V1).
      apply (read_ext below1 t1 k' b' s _ K); [rewrite El; split; auto | exact I1 | intros; rewrite put_roots; reflexivity|].
      intros l2 t2 below2 k2 b2 [L2 K2] I2. symmetry. apply put_other. intros E. injection E; intros -> -> ->.
      destruct (level_unique _ _ _ _ _ _ L2 Hlev) as [-> ->]. apply Hq, I2, Hin.
  Qed.

  Lemma agree_root : forall s m (K : nat -> Prop) q x, agree s m K -> ~ K q ->
    agree (put_root V s q x) (mroot V m q x) (fun v => K v \/ v = q).
  Proof.
    intros s m K q x (A1 & A2 & A3) Hq. split; [|split; [exact A2|]].
    - intros r. cbn [mroot mroots put_root roots]. unfold upd. destruct (r =? q); auto.
    - intros l k b w H. destruct (A3 _ _ _ _ H) as [G|(G & t1 & below1 & V1 & I1 & R1)]; [left; exact G|].
      right. split; [exact G|]. exists t1, below1. split; [exact V1|].
      split; [intros v Hv; left; auto|]. rewrite <- R1. symmetry. destruct V1 as [V1 V2].
      assert (El : length below1 = l) by exact (proj2 V1).
      apply (read_ext below1 t1 k b s _ K); [rewrite El; split; auto | exact I1 | | reflexivity].
      intros r Hr. cbn [put_root roots]. unfold upd. destruct (Nat.eqb_spec r q); congruence.
  Qed.

  Lemma memo_down : forall below t k lft s m (K : nat -> Prop), valid (length below) t below k ->
    let q := get_var enum t below k lft in
    (forall v, In v (vars (t :: below) k) -> v <> q -> K v) -> ~ K q ->
    agree s m K -> rooted s K -> set_of s lft (length below) k <> None ->
    exists s' m' tr, descend V C hu hv hinv copula s t below k lft = Some s'
      /\ MD m t below k lft = Some (m', tr)
      /\ agree s' m' (fun v => K v \/ v = q)
      /\ rooted s' (fun v => K v \/ v = q)
      /\ changes s s' K q.
  Proof.
    induction below as [|t' below IH]; intros t k lft s m K [Hlev Hk] q Hv Hq Ha Hr Hset.
    - assert (Hrg := level_regular n ts Hreg _ _ _ Hlev).
      destruct (side enum enum_ok n t [] k lft Hrg Hk) as (S1 & S2 & S3). fold q in S1, S2, S3.
      cbn [vars In] in S1, S2.
      assert (E1 : leaf t (k, lft) = q) by tauto. set (b := stem t (k, lft)) in *.
      assert (Hb : K b).
      { apply Hv; [|intros ->; apply S2; auto]. apply vars_cons. unfold b, stem. cbn [fst snd vars In].
        destruct lft; auto. }
      destruct (memo_read [] t k lft s m K (conj Hlev Hk) Ha Hr (or_intror Hset)) as (p & m1 & tr & R1 & D1 & A1).
      cbn [descend mdescend]. rewrite D1, R1, (proj1 A1).
      assert (Hbr := Hr b Hb). unfold leaf in E1. unfold b, stem in Hbr. cbn [fst snd] in E1, Hbr.
      assert (Fin : forall y, agree (put_root V s q y) (mroot V m1 q y) (fun v => K v \/ v = q)
                /\ rooted (put_root V s q y) (fun v => K v \/ v = q) /\ changes s (put_root V s q y) K q).
      { intros y. split; [apply agree_root; auto|]. split.
        - intros r Hr'. cbn [put_root roots]. unfold upd. destruct (Nat.eqb_spec r q); [discriminate|].
          destruct Hr' as [Hr'|Hr']; [apply Hr, Hr' | congruence].
        - intros l t1 below1 k1 b1 _. left. reflexivity. }
      destruct lft.
      + destruct (roots V s (snd (edge_at t k))) as [y|] eqn:Ey; [|congruence]. rewrite E1.
        eexists _, _, _. split; [reflexivity|]. split; [reflexivity|]. apply Fin.
      + destruct (roots V s (fst (edge_at t k))) as [y|] eqn:Ey; [|congruence]. rewrite E1.
        eexists _, _, _. split; [reflexivity|]. split; [reflexivity|]. apply Fin.
    - assert (Hrg := level_regular n ts Hreg _ _ _ Hlev).
      destruct (side enum enum_ok n t (t' :: below) k lft Hrg Hk) as (S1 & S2 & S3). fold q in S1, S2, S3.
      destruct (children enum enum_ok n ts Hreg _ _ _ _ _ Hlev Hk) as (l1 & l2 & C1 & C2 & C3 & C4 & C5).
      assert (Hlev' := level_below _ _ _ _ _ Hlev).
      set (a := fst (edge_at t k)) in *. set (b := snd (edge_at t k)) in *.
      set (na := if lft then a else b). set (nb := if lft then b else a).
      set (la := if lft then negb l1 else negb l2). set (lb := if lft then negb l2 else negb l1).
      assert (Ena : leaf t (k, lft) = na) by reflexivity.
      assert (Enb : stem t (k, lft) = nb) by reflexivity.
      rewrite Ena in S1. rewrite Enb in S2, S3.
      assert (Hna : na < length t') by (unfold na; destruct lft; auto).
      assert (Hnb : nb < length t') by (unfold nb; destruct lft; auto).
      assert (Hva : get_var enum t' below na la = q).
      { unfold na, la, q. destruct lft; auto. }
      assert (HKb : inside K t' below nb).
      { intros v Hin. apply Hv; [|intros ->; auto]. apply vars_cons. fold a b.
        unfold nb in Hin. destruct lft; auto. }
      assert (Hvq : forall v, In v (vars (t' :: below) na) -> v <> q -> K v).
      { intros v Hin N. apply Hv; auto. apply vars_cons. fold a b. unfold na in Hin. destruct lft; auto. }
      destruct (memo_read (t' :: below) t k lft s m K (conj Hlev Hk) Ha Hr (or_intror Hset)) as (p & m1 & tr1 & R1 & D1 & A1).
      destruct (memo_read below t' nb lb s m1 K (conj Hlev' Hnb) A1 Hr (or_introl HKb)) as (y & m2 & tr2 & R2 & D2 & A2).
      set (u := hinv (copula (length (t' :: below)) k) p y).
      assert (A3 := agree_put s m2 K q t' below na la u A2 Hq (conj Hlev' Hna) S1).
      set (s1 := put V s (length below) na la u) in *.
      assert (IH' := IH t' na la s1 (mput V m2 (length below, na, la) u) K (conj Hlev' Hna)).
      cbv zeta in IH'. rewrite Hva in IH'.
      destruct IH' as (s' & m' & tr3 & F1 & F2 & F3 & F4 & F5); auto.
      { intros r Hr'. unfold s1. rewrite put_roots. auto. }
      { unfold s1. rewrite put_same. discriminate. }
      exists s', m', (tr1 ++ tr2 ++ tr3). split; [|split; [|split; [exact F3|split; [exact F4|]]]].
      + cbn [descend]. fold a b. rewrite D1, C1. unfold na, la, nb, lb, s1, u in *.
        destruct lft; rewrite D2; exact F1.
      + cbn [mdescend]. fold a b. rewrite C1, R1. fold na la nb lb. rewrite R2. fold u. rewrite F2. reflexivity.
      + intros l3 t3 below3 k3 b3 V3. destruct (F5 _ _ _ _ b3 V3) as [E|E]; [|right; exact E].
        destruct (slot_eq (l3, k3, b3) (length below, na, la)) as [E3|N3].
        * injection E3; intros -> -> ->. right. destruct (level_unique _ _ _ _ _ _ (proj1 V3) Hlev') as [-> ->].
          split; [exact S1|]. intros v Hx. destruct (Nat.eq_dec v q); auto.
        * left. rewrite E. unfold s1. apply put_other. exact N3.
  Qed.

  Notation var := (entry_var enum ts).

  Lemma memo_queue : forall order s m (K : nat -> Prop),
    (forall e, In e order -> match e with RootEntry r => K r | _ => True end) ->
    ready enum ts K order -> NoDup (map var (children_only order)) ->
    agree s m K -> rooted s K ->
    (forall l k lft, In (ChildEntry l k lft) order -> set_of s lft l k <> None) ->
    exists s' m' tr, run_queue V C hu hv hinv copula ts order s = Some s'
      /\ MQ ts order m = Some (m', tr)
      /\ (forall r, mroots V m' r = roots V s' r)
      /\ (forall r, K r \/ In r (map var order) -> roots V s' r <> None)
      /\ (forall o1 l k b o2 m1 tr1, order = o1 ++ ChildEntry l k b :: o2 -> MQ ts o1 m = Some (m1, tr1) ->
            mval V m1 (l, k, b) <> None).
  Proof.
    induction order as [|e order IH]; intros s m K Hroot Hready Hnd Ha Hr Hset.
    - exists s, m, []. cbn [run_queue mqueue map In]. split; [reflexivity|]. split; [reflexivity|].
      split; [apply Ha|]. split; [intros r [H|[]]; apply Hr, H|].
      intros [|e o1] l k b o2 m1 tr1 E; discriminate.
    - destruct e as [r|l k lft].
      + cbn [run_queue mqueue].
        assert (HrK : K r) by (apply (Hroot (RootEntry r)); left; auto).
        destruct (IH s m K) as (s' & m' & tr & H1 & H2 & H3 & H4 & H5); auto.
        * intros e He. apply Hroot. right; auto.
        * intros o1 l k lft o2 E. destruct (Hready (RootEntry r :: o1) l k lft o2) as (t & below & A & B & D & F).
          { rewrite E. reflexivity. }
          exists t, below. split; [exact A|]; split; [exact B|]; split; [exact D|]. intros v Hv N.
          destruct (F v Hv N) as [G|[G|G]]; auto. cbn in G. subst v. auto.
        * intros l k lft Hin. apply Hset. right; auto.
        * exists s', m', tr. split; [exact H1|]. split; [exact H2|]. split; [exact H3|]. split.
          -- intros r' [Hr'|Hr']; [auto|]. cbn [map In entry_var] in Hr'. destruct Hr' as [<-|Hr']; auto.
          -- intros [|e o1] l k b o2 m1 tr1 E Eq; [discriminate|]. injection E; intros E' <-.
             cbn [mqueue] in Eq. eapply H5; eauto.
      + cbn [run_queue mqueue].
        destruct (Hready [] l k lft order eq_refl) as (t & below & Hlev & Hk & HqK & Hvars).
        assert (Hl : length below = l) by exact (proj2 Hlev).
        assert (Hsk : skipn (length ts - S l) ts = t :: below).
        { destruct Hlev as [(above & E) <-]. rewrite E. apply suffix_skipn. }
        rewrite Hsk. set (q := get_var enum t below k lft) in *.
        assert (Evar : var (ChildEntry l k lft) = q) by (apply entry_var_child; exact Hlev).
        cbn [children_only filter] in Hnd. fold (children_only order) in Hnd.
        cbn [map] in Hnd. rewrite Evar in Hnd. apply NoDup_cons_iff in Hnd as [Hnq Hnd].
        assert (Hother : forall l' k' b', In (ChildEntry l' k' b') order ->
                  exists t1 below1, tree_on_level ts l' t1 below1 /\ k' < length t1
                    /\ In (get_var enum t1 below1 k' b') (vars (t1 :: below1) k')
                    /\ ~ K (get_var enum t1 below1 k' b') /\ get_var enum t1 below1 k' b' <> q).
        { intros l' k' b' Hin. apply in_split in Hin as (o1 & o2 & E).
          destruct (Hready (ChildEntry l k lft :: o1) l' k' b' o2) as (t1 & below1 & A & B & D & _).
          { rewrite E. reflexivity. }
          exists t1, below1. split; [exact A|]. split; [exact B|]. split.
          - destruct (side enum enum_ok n t1 below1 k' b' (level_regular n ts Hreg _ _ _ A) B) as (S1 & _).
            apply vars_cons. unfold leaf in S1. cbn [fst snd] in S1. destruct b'; auto.
          - split; [exact D|]. intros E'. apply Hnq. rewrite <- E'.
            rewrite <- (entry_var_child enum ts l' k' b' t1 below1 A).
            apply in_map. apply filter_In. split; [rewrite E; apply in_app_iff; right; left; auto | auto]. }
        assert (Hs0 := Hset l k lft (or_introl eq_refl)).
        destruct (memo_down below t k lft s m K) as (s1 & m1 & tr1 & D1 & D2 & D3 & D4 & D5); auto.
        * split; [rewrite Hl; exact Hlev | exact Hk].
        * intros v Hv N. destruct (Hvars v Hv N) as [G|[]]. exact G.
        * rewrite Hl. exact Hs0.
        * fold q in D3, D4, D5. rewrite D1, D2.
          set (K' := fun v => K v \/ v = q) in *.
          destruct (IH s1 m1 K') as (s' & m' & tr2 & H1 & H2 & H3 & H4 & H5); auto.
          -- intros e He. specialize (Hroot e (or_intror He)). destruct e; auto. left; auto.
          -- intros o1 l' k' b' o2 E.
             destruct (Hready (ChildEntry l k lft :: o1) l' k' b' o2) as (t1 & below1 & A & B & D & F).
             { rewrite E. reflexivity. }
             destruct (Hother l' k' b') as (t2 & below2 & A' & B' & I1 & I2 & I3).
             { rewrite E. apply in_app_iff. right; left; auto. }
             destruct (level_unique _ _ _ _ _ _ A A') as [-> ->].
             exists t2, below2. split; [exact A|]. split; [exact B|]. split.
             { intros [G|G]; auto. }
             intros v Hv N. destruct (F v Hv N) as [G|G]; [left; left; auto|].
             cbn [map In] in G. rewrite Evar in G. destruct G as [G|G]; [left; right; auto | auto].
          -- intros l' k' b' Hin.
             destruct (Hother l' k' b' Hin) as (t2 & below2 & A' & B' & I1 & I2 & I3).
             destruct (D5 l' t2 below2 k' b' (conj A' B')) as [E|[_ E]].
             ++ rewrite E. apply Hset. right; auto.
             ++ exfalso. destruct (E _ I1); auto.
          -- rewrite H2. exists s', m', (tr1 ++ tr2). split; [exact H1|]. split; [reflexivity|].
             split; [exact H3|]. split.
             ++ intros r [Hr'|Hr']; [apply H4; left; left; auto|]. cbn [map In] in Hr'. rewrite Evar in Hr'.
                destruct Hr' as [<-|Hr']; apply H4; [left; right; auto | auto].
             ++ intros [|e o1] l' k' b' o2 m3 tr3 E Eq.
                ** cbn [app] in E. injection E; intros; subst l' k' b' o2. cbn [mqueue] in Eq.
                   injection Eq; intros _ <-. destruct (set_of s lft l k) as [w|] eqn:Es; [|congruence].
                   rewrite (proj1 (proj2 Ha) _ _ _ _ Es). discriminate.
                ** cbn [app] in E. injection E; intros E' <-. cbn [mqueue] in Eq. rewrite Hsk, D2 in Eq.
                   destruct (MQ ts o1 m1) as [[m4 tr4]|] eqn:E4; [|discriminate].
                   injection Eq; intros _ <-. eapply H5; eauto.
  Qed.

  Lemma memo_init : forall order rand s m, (forall r, mroots V m r = roots V s r) ->
    (forall l k b, mval V m (l, k, b) = set_of s b l k) ->
    match init_samples enum V clip cond given ts order rand s, MI cond given ts order rand m with
    | Some s', Some m' => (forall r, mroots V m' r = roots V s' r)
                          /\ (forall l k b, mval V m' (l, k, b) = set_of s' b l k)
    | None, None => True
    | _, _ => False
    end.
  Proof.
    induction order as [|e order IH]; intros rand s m H1 H2; cbn [init_samples minit]; [auto|].
      assert (St : forall x, (forall r, mroots V (mstore V m e x) r = roots V (match e with RootEntry r => put_root V s r x | ChildEntry l k lft => put V s l k lft x end) r)
                /\ (forall l k b, mval V (mstore V m e x) (l, k, b) = set_of (match e with RootEntry r => put_root V s r x | ChildEntry l k lft => put V s l k lft x end) b l k)).
      { intros x. destruct e as [r|l k b]; cbn [mstore].
        - split; [|exact H2]. intros r'. cbn [mroot mroots put_root roots]. unfold upd. destruct (r' =? r); auto.
        - split; [intros r; rewrite put_roots; apply H1|]. intros l' k' b'. cbn [mput mval].
          destruct (slot_eq (l', k', b') (l, k, b)) as [E|N].
          + injection E; intros -> -> ->. rewrite put_same. reflexivity.
          + rewrite put_other by exact N. apply H2. }
      destruct (mem _ _); [|destruct rand as [|x rand]; [exact I|]].
      - destruct (St (clip (given (var e)))). apply IH; auto.
      - destruct (St (clip x)). apply IH; auto. 
  Qed.

  (** The whole propagation. *)
  Lemma memo_propagate : forall order rand, complete_order enum cond n ts order ->
    length (filter (fun v => negb (mem v cond)) (seq 0 n)) <= length rand ->
    let m0 := {| mroots := fun _ => None; mval := fun _ => None; mev := [] |} in
    exists s m1 m2 tr,
      propagate enum V C hu hv hinv copula clip cond given ts order rand = Some s
      /\ MI cond given ts order rand m0 = Some m1
      /\ MQ ts order m1 = Some (m2, tr)
      /\ (forall r, mroots V m2 r = roots V s r)
      /\ (forall r, r < n -> roots V s r <> None)
      /\ (forall o1 l k b o2 m tr, order = o1 ++ ChildEntry l k b :: o2 -> MQ ts o1 m1 = Some (m, tr) ->
            mval V m (l, k, b) <> None /\ l < length ts)
      /\ (forall l k b, In (ChildEntry l k b) order -> l < length ts).
  Proof.
    intros order rand (Hperm & Hcond & Hchild) Hlen m0.
    assert (Hnd : NoDup (map var order))
      by (eapply Permutation_NoDup; [apply Permutation_sym; exact Hperm | apply seq_NoDup]).
    assert (Hnd' := NoDup_map_inv _ _ Hnd).
    destruct (init_ok V enum ts clip cond given order rand (empty_state V) Hnd') as (s0 & I1 & I2 & I3).
    { rewrite (filter_perm_length _ _ _ Hperm). exact Hlen. }
    assert (M := memo_init order rand (empty_state V) m0 (fun _ => eq_refl)
                   (fun l k b => match b with true => eq_refl | false => eq_refl end)).
    rewrite I1 in M. destruct (MI cond given ts order rand m0) as [m1|] eqn:E1; [|destruct M].
    destruct M as [M1 M2].
    assert (Hval : forall e, In e order -> lookup V s0 e <> None).
    { intros e He. assert (Hin : In (lookup V s0 e) (map (fun u => Some (clip u)) (uniforms V cond given (map var order) rand))).
      { rewrite <- I2. apply in_map_iff. eauto. }
      apply in_map_iff in Hin as (u & Hu & _). rewrite <- Hu. discriminate. }
    assert (Hlevel : forall l k b, In (ChildEntry l k b) order -> l < length ts).
    { intros l k b Hin. apply in_split in Hin as (o1 & o2 & E).
      destruct (Hchild o1 l k b o2 E) as (t & below & [(above & A) <-] & _).
      rewrite A, app_length. cbn [length]. lia. }
    set (K := fun r => In (RootEntry r) order).
    destruct (memo_queue order s0 m1 K) as (s' & m2 & tr & R1 & R2 & R3 & R4 & R5).
    - intros [r|] He; [exact He | exact I].
    - intros o1 l k lft o2 E. destruct (Hchild o1 l k lft o2 E) as (t & below & A & B & D & F).
      exists t, below. split; [exact A|]. split; [exact B|]. split; [|auto].
      intros Hk. unfold K in Hk.
      assert (Hin : In (ChildEntry l k lft) order) by (rewrite E; apply in_app_iff; right; left; auto).
      apply in_split in Hk as (p1 & p2 & E2). rewrite E2 in Hnd. rewrite map_app in Hnd.
      cbn [map] in Hnd. apply NoDup_remove_2 in Hnd. apply Hnd. rewrite <- map_app.
      change (var (RootEntry (get_var enum t below k lft))) with (get_var enum t below k lft).
      rewrite <- (entry_var_child enum ts l k lft t below A). apply in_map.
      rewrite E2 in Hin. apply in_app_iff in Hin. apply in_app_iff.
      destruct Hin as [Hin|[Hin|Hin]]; [auto | discriminate | auto].
    - apply (nodup_filter_map V C copula enum n ts clip given); auto.
    - split; [exact M1|]. split; intros l k b w H; [rewrite M2; exact H | left; rewrite <- M2; exact H].
    - intros r Hr. apply (Hval (RootEntry r) Hr).
    - intros l k lft Hin. apply (Hval _ Hin).
    - exists s', m1, m2, tr. split; [unfold propagate; rewrite I1; exact R1|]. split; [reflexivity|].
      split; [exact R2|]. split; [exact R3|]. split; [|split; [|exact Hlevel]].
      + intros r Hr. apply R4. right. eapply Permutation_in; [apply Permutation_sym; exact Hperm|].
        apply in_seq. lia.
      + intros o1 l k b o2 m tr' E Eq. split; [eapply R5; eauto|]. apply (Hlevel l k b).
        rewrite E. apply in_app_iff. right; left; reflexivity.
  Qed.
End Fresh.

(** * Reading without counting *)

Section Plain.
  Variables V C : Type.
  Variables hu hv : C -> V -> V -> V.
  Variable nan : V.
  Variable copula : nat -> nat -> C.
  Variable depth : nat.
  Variable enum : list nat -> list nat.
  Hypothesis enum_ok : enumerates enum.
  Variable n : nat.
  Variable ts : list tree.
  Hypothesis Hreg : regular n ts.
  Variable x : nat -> V.
  Variable ev0 : list slot.

  Notation RM := (read_margin V C hu hv nan depth copula).
  Notation mv := (model_value V C hu hv copula).
  Notation valid := (valid ts).

  Definition plain (s : vine_state V) : Prop :=
    counting V s = false
    /\ (forall r, r < n -> pseudo_values V s r = Some (x r))
    /\ (forall p, ex V s p = 0)
    /\ (forall l t below k b w, valid l t below k -> cch V s (l, k, b) = Some w -> w = mv x t below k b)
    /\ exists ev, evaluated V s = ev ++ ev0 /\ NoDup ev /\ forall p, In p ev -> cch V s p <> None.

  Lemma plain_visit : forall l k b s, plain s ->
    plain (visit V depth l k b s) /\ forall p, cch V (visit V depth l k b s) p = cch V s p.
  Proof.
    intros l k b s (P1 & P2 & P3 & P4 & ev & P5 & P6 & P7).
    assert (E : forall p, cch V (visit V depth l k b s) p = cch V s p).
    { intros p. unfold cch. rewrite mg_visit. destruct (slot_eq p _); [|reflexivity].
      destruct (is_count _ _ _ _); reflexivity. }
    split; [|exact E]. split; [exact P1|]. split; [exact P2|]. split.
    - intros p. unfold ex. rewrite mg_visit. destruct (slot_eq p _); [|apply P3].
      unfold is_count. rewrite P1, andb_false_r. cbn [expected]. apply P3.
    - split; [intros l' t below k' b' w Hv; rewrite E; eauto|]. exists ev. split; [exact P5|]. split; [exact P6|].
      intros p Hp. rewrite E. auto.
  Qed.

  Lemma plain_release : forall l k b s, plain s -> release V depth l k b s = s.
  Proof.
    intros l k b s (P1 & P2 & P3 & _). unfold release.
    change (expected V (margins V s l k b)) with (ex V s (l, k, b)). rewrite P3.
    cbn [Nat.eqb negb]. rewrite andb_false_r. reflexivity.
  Qed.

  Lemma plain_evaluate : forall l t below k b y z s, plain s -> valid l t below k ->
    cch V s (l, k, b) = None -> (if b then hu else hv) (copula l k) y z = mv x t below k b ->
    exists s', evaluate V C hu hv nan depth copula l k b y z s = (Some (mv x t below k b), s') /\ plain s'.
  Proof.
    intros l t below k b y z s (P1 & P2 & P3 & P4 & ev & P5 & P6 & P7) Hv Hn E.
    unfold evaluate, is_count. rewrite P1, andb_false_r, E. eexists. split; [reflexivity|].
    assert (Ec : forall p, cch V (set_value V (log_call V s l k b) l k b (mv x t below k b)) p
              = if slot_eq p (l, k, b) then Some (mv x t below k b) else cch V s p).
    { intros p. unfold cch. rewrite mg_value. destruct (slot_eq p _); reflexivity. }
    split; [exact P1|]. split; [exact P2|]. split; [|split].
    - intros p. unfold ex. rewrite mg_value. destruct (slot_eq p _); cbn [expected]; apply P3.
    - intros l' t' below' k' b' w Hv' Hw. rewrite Ec in Hw.
      destruct (slot_eq (l', k', b') (l, k, b)) as [Es|N]; [|eauto].
      injection Es; intros; subst l' k' b'. destruct (level_unique _ _ _ _ _ _ (proj1 Hv) (proj1 Hv')) as [-> ->].
      congruence.
    - exists ((l, k, b) :: ev). split; [|split].
      + cbn [set_value set_margin log_call evaluated app]. rewrite P5. reflexivity.
      + constructor; [|exact P6]. intros Hin. exact (P7 _ Hin Hn).
      + intros p Hp. rewrite Ec. destruct (slot_eq p _); [discriminate|].
        destruct Hp as [Hp|Hp]; [congruence | auto].
  Qed.

  Definition below_same (l : nat) (s s' : vine_state V) : Prop :=
    forall p, l < lev p -> cch V s' p = cch V s p.

  Lemma evaluate_same : forall l k b y z s w s',
    evaluate V C hu hv nan depth copula l k b y z s = (w, s') -> below_same l s s'.
  Proof.
    intros l k b y z s w s' E p Hp. unfold evaluate in E.
    assert (N : p <> (l, k, b)) by (intros ->; cbn in Hp; lia).
    destruct (is_count _ _ _ _); injection E; intros; subst s'; unfold cch; rewrite mg_value;
      destruct (slot_eq p _); try congruence; reflexivity.
  Qed.

  Lemma plain_read : forall below t k b s, valid (length below) t below k -> plain s ->
    exists s', RM t below k b s = (Some (mv x t below k b), s') /\ plain s'
      /\ below_same (length below) s s'.
  Proof.
    induction below as [|t' below IH]; intros t k b s Hv Hp; cbn [read_margin];
      unfold bind at 1, modify.
    - destruct (plain_visit (length (@nil tree)) k b s Hp) as [V1 V2].
      set (s1 := visit V depth (length (@nil tree)) k b s) in *.
      change (cached V (margins V s1 (length (@nil tree)) k b)) with (cch V s1 (length (@nil tree), k, b)).
      destruct (cch V s1 (length (@nil tree), k, b)) as [w|] eqn:Ec.
      + destruct V1 as (P1 & P2 & P3 & P4 & P5).
        rewrite (P4 _ _ _ _ _ _ Hv Ec). rewrite plain_release by (repeat split; auto).
        exists s1. split; [reflexivity|]. split; [repeat split; auto|]. intros p _. apply V2.
      + destruct Hv as [Hlev Hk].
        assert (Hr := level_vars n ts Hreg _ _ _ _ Hlev Hk).
        assert (Ri : fst (edge_at t k) < n) by (apply Hr, vars_cons; cbn; auto).
        assert (Rj : snd (edge_at t k) < n) by (apply Hr, vars_cons; cbn; auto).
        unfold bind, read_pseudo. rewrite !(proj1 (proj2 V1)) by auto.
        destruct (plain_evaluate _ t [] k b (x (fst (edge_at t k))) (x (snd (edge_at t k))) s1 V1 (conj Hlev Hk) Ec) as (s2 & E2 & Q2).
        { reflexivity. }
        rewrite E2. rewrite plain_release by exact Q2. exists s2. split; [reflexivity|]. split; [exact Q2|].
        intros p Hp'. rewrite (evaluate_same _ _ _ _ _ _ _ _ E2 p Hp'). apply V2.
    - destruct (plain_visit (length (t' :: below)) k b s Hp) as [V1 V2].
      set (s1 := visit V depth (length (t' :: below)) k b s) in *.
      change (cached V (margins V s1 (length (t' :: below)) k b)) with (cch V s1 (length (t' :: below), k, b)).
      destruct (cch V s1 (length (t' :: below), k, b)) as [w|] eqn:Ec.
      + destruct V1 as (P1 & P2 & P3 & P4 & P5).
        rewrite (P4 _ _ _ _ _ _ Hv Ec). rewrite plain_release by (repeat split; auto).
        exists s1. split; [reflexivity|]. split; [repeat split; auto|]. intros p _. apply V2.
      + destruct Hv as [Hlev Hk].
        destruct (children enum enum_ok n ts Hreg _ _ _ _ _ Hlev Hk) as (l1 & l2 & H1 & H2 & H3 & _).
        assert (Hlev' := level_below _ _ _ _ _ Hlev). rewrite H1.
        destruct (IH t' (fst (edge_at t k)) (negb l1) s1 (conj Hlev' H2) V1) as (s2 & R2 & Q2 & F2).
        destruct (IH t' (snd (edge_at t k)) (negb l2) s2 (conj Hlev' H3) Q2) as (s3 & R3 & Q3 & F3).
        assert (Ec3 : cch V s3 (length (t' :: below), k, b) = None).
        { rewrite F3, F2 by (cbn; lia). exact Ec. }
        destruct (plain_evaluate _ t (t' :: below) k b (mv x t' below (fst (edge_at t k)) (negb l1))
                    (mv x t' below (snd (edge_at t k)) (negb l2)) s3 Q3 (conj Hlev Hk) Ec3) as (s4 & E4 & Q4).
        { cbn [model_value]. rewrite H1. reflexivity. }
        unfold bind. rewrite R2, R3, E4. rewrite plain_release by exact Q4.
        exists s4. split; [reflexivity|]. split; [exact Q4|].
        intros p Hp'. rewrite (evaluate_same _ _ _ _ _ _ _ _ E4 p Hp'). cbn [length] in Hp'.
        rewrite F3, F2 by lia. apply V2.
  Qed.
End Plain.

(** * Specification *)

(** A vine with nothing cached and nothing counted, as [fit] leaves it. *)
Definition blank {V} (s : vine_state V) : Prop :=
  counting V s = false
  /\ (forall r, pseudo_values V s r = None)
  /\ forall l k b, margins V s l k b = {| cached := None; seen := 0; expected := 0 |}.

(** The two values scored for an edge at a point [x]: the margins of the vine
    model, computed from the values of the variables. *)
Definition edge_pair {V C} (hu hv : C -> V -> V -> V) (copula : nat -> nat -> C) (x : nat -> V)
    (t : tree) (below : list tree) (k : nat) : V * V :=
  let a := fst (edge_at t k) in
  let b := snd (edge_at t k) in
  match below with
  | [] => (x a, x b)
  | t' :: below' =>
      match shared_node_is_left (edge_at t' a) (edge_at t' b) with
      | Some (l1, l2) => (model_value V C hu hv copula x t' below' a (negb l1),
                          model_value V C hu hv copula x t' below' b (negb l2))
      | None => (x a, x b)
      end
  end.

(** All edges, the first tree first. *)
Fixpoint vine_pairs {V C} (hu hv : C -> V -> V -> V) (copula : nat -> nat -> C) (x : nat -> V)
    (ts : list tree) : list (V * V) :=
  match ts with
  | [] => []
  | t :: below => vine_pairs hu hv copula x below
                  ++ map (edge_pair hu hv copula x t below) (seq 0 (length t))
  end.

(** * Theorems *)

Lemma order_starts : forall enum cond n ts order, sampling_order enum cond n ts = Some order ->
  exists r rest, order = RootEntry r :: rest.
Proof.
  intros enum cond n ts order H.
  assert (M : forall below t k b, exists pre r, marginalize enum cond t below k b = pre ++ [RootEntry r]).
  { induction below as [|t' below IH]; intros t k b; cbn [marginalize].
    - exists [], (if b then snd (edge_at t k) else fst (edge_at t k)). reflexivity.
    - destruct (IH t' (if b then snd (edge_at t k) else fst (edge_at t k))
                  (is_left_branch enum cond t' below (if b then snd (edge_at t k) else fst (edge_at t k))))
        as (pre & r & ->). eexists (_ :: pre), r. reflexivity. }
  destruct ts as [|t below]; [discriminate|]. cbn [sampling_order] in H.
  destruct (if length t =? 1 then _ else _) as [[top [k b]]|]; [|discriminate].
  destruct (M below t k b) as (pre & r & Em). rewrite Em in H.
  destruct (_ && _); [|discriminate]. injection H; intros <-.
  rewrite app_assoc, map_app, rev_app_distr. cbn [map rev app].
  assert (E : replace_conditioned enum cond (t :: below) (RootEntry r) = RootEntry r)
    by (unfold replace_conditioned; cbn [entry_var]; destruct (mem r cond); reflexivity).
  rewrite E. eauto.
Qed.

Lemma sample_passes : forall V C (hu hv hinv : C -> V -> V -> V) nan copula enum clip n ts cond given rand s,
  enumerates enum -> regular n ts -> ts <> [] -> length ts < n ->
  length (filter (fun v => negb (mem v cond)) (seq 0 n)) <= length rand ->
  counting V s = false ->
  exists order p m s',
    sampling_order enum cond n ts = Some order
    /\ propagate enum V C hu hv hinv copula clip cond given ts order rand = Some p
    /\ two_passes V C hu hv hinv nan (length ts) copula enum clip cond given ts order rand
         (clear_cache V true s) = (Some tt, s')
    /\ (forall r, mroots V m r = roots V p r) /\ (forall r, r < n -> roots V p r <> None)
    /\ once V m /\ follows V (length ts) (evaluated V s) (length ts) [] m s'.
Proof.
  intros V C hu hv hinv nan copula enum clip n ts cond given rand s Hen Hreg Hne Hl Hrand Hc.
  destruct (C48_order enum Hen cond n ts Hreg Hne Hl) as (order & H1 & H2).
  destruct (memo_propagate V C hu hv hinv copula enum Hen n ts Hreg clip cond given order rand H2 Hrand)
    as (p & m1 & m2 & tr & A1 & A2 & A3 & A4 & A5 & A6 & A7).
  destruct (both_passes V C hu hv hinv nan copula enum clip (length ts) cond given ts order rand m1 m2 tr
              eq_refl A2 A3 (order_starts _ _ _ _ _ H1) A6 A7 s Hc) as (s' & B1 & B2).
  exists order, p, m2, s'. split; [exact H1|]. split; [exact A1|]. split; [exact B1|].
  split; [exact A4|]. split; [exact A5|]. split; [|exact B2].
  eapply once_queue; [exact A3|]. eapply once_init; [exact A2|]. split; [constructor|]. intros q [].
Qed.

Lemma collect_ok : forall V (s : vine_state V) (f : nat -> option V) rs,
  (forall r, In r rs -> pseudo_values V s r = f r /\ f r <> None) ->
  exists xs, collect V rs s = (Some xs, s) /\ map Some xs = map f rs.
Proof.
  induction rs as [|r rs IH]; intros H.
  - exists []. split; reflexivity.
  - destruct IH as (xs & H1 & H2); [intros; apply H; right; auto|].
    destruct (H r (or_introl eq_refl)) as [E N]. destruct (f r) as [y|] eqn:Ef; [|congruence].
    exists (y :: xs). cbn [collect map]. unfold bind, read_pseudo. rewrite E, H1.
    split; [reflexivity|]. rewrite H2, Ef. reflexivity.
Qed.

Lemma clear_blank : forall V (s : vine_state V), counting V s = false -> blank (clear_cache V true s).
Proof. intros V s H. split; [exact H|]. split; reflexivity. Qed.

(** Sampling with the caches, from whatever state earlier calls have left: the
    samples are those of the propagation that recomputes every value at every
    read, nothing is left behind, and no partial derivative is evaluated twice. *)
Theorem C93_sample : forall V C (hu hv hinv : C -> V -> V -> V) nan copula enum clip n ts cond given rand s,
  enumerates enum -> regular n ts -> ts <> [] -> length ts < n ->
  length (filter (fun v => negb (mem v cond)) (seq 0 n)) <= length rand ->
  counting V s = false ->
  exists order p xs s' calls,
    sampling_order enum cond n ts = Some order
    /\ propagate enum V C hu hv hinv copula clip cond given ts order rand = Some p
    /\ sample V C hu hv hinv nan enum clip n ts copula cond given rand s = (Some xs, s')
    /\ map Some xs = map (roots V p) (seq 0 n)
    /\ blank s'
    /\ evaluated V s' = calls ++ evaluated V s /\ NoDup calls.
Proof.
  intros V C hu hv hinv nan copula enum clip n ts cond given rand s Hen Hreg Hne Hl Hrand Hc.
  destruct (sample_passes V C hu hv hinv nan copula enum clip n ts cond given rand s Hen Hreg Hne Hl Hrand Hc)
    as (order & p & m & s' & H1 & H2 & H3 & H4 & H5 & [H6 _] & (F1 & F2 & F3 & _)).
  destruct (collect_ok V s' (roots V p) (seq 0 n)) as (xs & X1 & X2).
  { intros r Hr. apply in_seq in Hr. rewrite F1, H4. split; [reflexivity|]. apply H5. lia. }
  exists order, p, xs, (clear_cache V true s'), (mev V m).
  split; [exact H1|]. split; [exact H2|]. split.
  - unfold sample. unfold bind at 1, modify at 1. rewrite H1.
    unfold bind at 1. rewrite H3. unfold bind at 1. rewrite X1. reflexivity.
  - split; [exact X2|]. split; [apply clear_blank; exact F2|]. split; [exact F3 | exact H6].
Qed.
Print Assumptions C93_sample.

(** Every value cached on a node of a tree has been dropped when the samples are
    collected: the number of visits found by the first pass is reached. *)
Theorem C93_released : forall V C (hu hv hinv : C -> V -> V -> V) nan copula enum clip n ts cond given rand s,
  enumerates enum -> regular n ts -> ts <> [] -> length ts < n ->
  length (filter (fun v => negb (mem v cond)) (seq 0 n)) <= length rand ->
  counting V s = false ->
  exists order s',
    sampling_order enum cond n ts = Some order
    /\ two_passes V C hu hv hinv nan (length ts) copula enum clip cond given ts order rand
         (clear_cache V true s) = (Some tt, s')
    /\ forall l k b, S l < length ts ->
         cached V (margins V s' l k b) = None /\ seen V (margins V s' l k b) = 0.
Proof.
  intros V C hu hv hinv nan copula enum clip n ts cond given rand s Hen Hreg Hne Hl Hrand Hc.
  destruct (sample_passes V C hu hv hinv nan copula enum clip n ts cond given rand s Hen Hreg Hne Hl Hrand Hc)
    as (order & p & m & s' & H1 & H2 & H3 & H4 & H5 & _ & (F1 & F2 & F3 & F4)).
  exists order, s'. split; [exact H1|]. split; [exact H3|]. intros l k b Hlev.
  assert (F := F4 (l, k, b)). cbn [lev fst] in F. specialize (F ltac:(lia)).
  unfold kept in F. cbn [lev fst] in F. apply Nat.ltb_lt in Hlev. rewrite Hlev in F.
  destruct F as [_ F]. apply F. reflexivity.
Qed.
Print Assumptions C93_released.

Lemma set_all_pseudo : forall V (x : nat -> V) rs s,
  let s' := fold_left (fun s i => set_pseudo V s i (x i)) rs s in
  counting V s' = counting V s /\ margins V s' = margins V s /\ evaluated V s' = evaluated V s
  /\ forall r, pseudo_values V s' r = if in_dec Nat.eq_dec r rs then Some (x r) else pseudo_values V s r.
Proof.
  intros V x. induction rs as [|i rs IH]; intros s; cbn [fold_left].
  - split; [reflexivity|]. split; [reflexivity|]. split; [reflexivity|]. intros r.
    destruct (in_dec _ _ _) as [[]|]; reflexivity.
  - destruct (IH (set_pseudo V s i (x i))) as (H1 & H2 & H3 & H4).
    split; [exact H1|]. split; [exact H2|]. split; [exact H3|]. intros r. rewrite H4.
    cbn [set_pseudo pseudo_values]. unfold upd.
    destruct (in_dec Nat.eq_dec r rs), (in_dec Nat.eq_dec r (i :: rs)) as [E|E]; cbn [In] in E; try tauto;
      destruct (Nat.eqb_spec r i); subst; try tauto. destruct E; congruence || tauto.
Qed.

Section ScoreProofs.
  Variables V C : Type.
  Variables hu hv : C -> V -> V -> V.
  Variable nan : V.
  Variable copula : nat -> nat -> C.
  Variable enum : list nat -> list nat.
  Hypothesis enum_ok : enumerates enum.
  Variable n : nat.
  Variable ts : list tree.
  Hypothesis Hreg : regular n ts.
  Variable x : nat -> V.
  Variable ev0 : list slot.
  Variable depth : nat.
  Notation plain := (plain V C hu hv copula n ts x ev0).

  Lemma plain_X : forall t below k s, valid ts (length below) t below k -> plain s ->
    exists s', edge_X V C hu hv nan depth copula t below k s = (Some (edge_pair hu hv copula x t below k), s')
      /\ plain s'.
  Proof.
    intros t [|t' below] k s [Hlev Hk] Hp; cbn [edge_X edge_pair].
    - assert (Hr := level_vars n ts Hreg _ _ _ _ Hlev Hk).
      assert (Ri : fst (edge_at t k) < n) by (apply Hr, vars_cons; cbn; auto).
      assert (Rj : snd (edge_at t k) < n) by (apply Hr, vars_cons; cbn; auto).
      unfold bind, read_pseudo. rewrite !(proj1 (proj2 Hp)) by auto.
      exists s. split; [reflexivity | exact Hp].
    - destruct (children enum enum_ok n ts Hreg _ _ _ _ _ Hlev Hk) as (l1 & l2 & H1 & H2 & H3 & _).
      assert (Hlev' := level_below _ _ _ _ _ Hlev). rewrite H1.
      destruct (plain_read V C hu hv nan copula depth enum enum_ok n ts Hreg x ev0 below t' _ (negb l1) s (conj Hlev' H2) Hp)
        as (s2 & R2 & Q2 & _).
      destruct (plain_read V C hu hv nan copula depth enum enum_ok n ts Hreg x ev0 below t' _ (negb l2) s2 (conj Hlev' H3) Q2)
        as (s3 & R3 & Q3 & _).
      unfold bind. rewrite R2, R3. exists s3. split; [reflexivity | exact Q3].
  Qed.

  Lemma plain_tree : forall t below, tree_on_level ts (length below) t below ->
    forall ks s, (forall k, In k ks -> k < length t) -> plain s ->
    exists s', tree_pairs V C hu hv nan depth copula t below ks s
               = (Some (map (edge_pair hu hv copula x t below) ks), s') /\ plain s'.
  Proof.
    intros t below Hlev. induction ks as [|k ks IH]; intros s Hk Hp; cbn [tree_pairs map].
    - exists s. split; [reflexivity | exact Hp].
    - destruct (plain_X t below k s (conj Hlev (Hk k (or_introl eq_refl))) Hp) as (s1 & R1 & Q1).
      destruct (IH s1 (fun j H => Hk j (or_intror H)) Q1) as (s2 & R2 & Q2).
      unfold bind. rewrite R1, R2. exists s2. split; [reflexivity | exact Q2].
  Qed.

  Lemma plain_all : forall below above s, ts = above ++ below -> plain s ->
    exists s', all_pairs V C hu hv nan depth copula below s
               = (Some (vine_pairs hu hv copula x below), s') /\ plain s'.
  Proof.
    induction below as [|t below IH]; intros above s E Hp; cbn [all_pairs vine_pairs].
    - exists s. split; [reflexivity | exact Hp].
    - destruct (IH (above ++ [t]) s) as (s1 & R1 & Q1); [rewrite <- app_assoc; exact E | exact Hp|].
      destruct (plain_tree t below (conj (ex_intro _ above E) eq_refl) (seq 0 (length t)) s1) as (s2 & R2 & Q2);
        [intros k Hk; apply in_seq in Hk; lia | exact Q1|].
      unfold bind. rewrite R1, R2. exists s2. split; [reflexivity | exact Q2].
  Qed.
End ScoreProofs.

(** Scoring with the caches, from whatever state earlier calls have left: the pairs
    scored are the margins of the vine model at the given point. *)
Theorem C93_score : forall V C (hu hv : C -> V -> V -> V) nan copula enum n ts x s,
  enumerates enum -> regular n ts -> counting V s = false ->
  exists s' calls,
    score_pairs V C hu hv nan ts copula n x s = (Some (vine_pairs hu hv copula x ts), s')
    /\ blank s'
    /\ evaluated V s' = calls ++ evaluated V s /\ NoDup calls.
Proof.
  intros V C hu hv nan copula enum n ts x s Hen Hreg Hc.
  set (s1 := fold_left (fun s i => set_pseudo V s i (x i)) (seq 0 n) (clear_cache V true s)).
  destruct (set_all_pseudo V x (seq 0 n) (clear_cache V true s)) as (E1 & E2 & E3 & E4). fold s1 in E1, E2, E3, E4.
  assert (Hp : plain V C hu hv copula n ts x (evaluated V s) s1).
  { split; [rewrite E1; exact Hc|]. split.
    - intros r Hr. rewrite E4. destruct (in_dec _ _ _) as [|N]; [reflexivity|].
      exfalso. apply N, in_seq. lia.
    - split; [intros p; unfold ex, mg; rewrite E2; reflexivity|]. split.
      + intros l t below k b w _ Hw. unfold cch, mg in Hw. rewrite E2 in Hw. discriminate.
      + exists []. split; [exact E3|]. split; [constructor|]. intros p []. }
  destruct (plain_all V C hu hv nan copula enum Hen n ts Hreg x (evaluated V s) (length ts) ts [] s1 eq_refl Hp)
    as (s2 & R2 & (Q1 & _ & _ & _ & ev & Q5 & Q6 & _)).
  exists (clear_cache V true s2), ev. split.
  - unfold score_pairs. unfold bind at 1, modify at 1. unfold bind at 1, modify at 1. fold s1.
    unfold bind at 1. rewrite R2. reflexivity.
  - split; [apply clear_blank; exact Q1|]. split; [exact Q5 | exact Q6].
Qed.
Print Assumptions C93_score.

(** ** Histories *)

Section Quiet.
  Variables V C : Type.
  Variables hu hv hinv : C -> V -> V -> V.
  Variable nan : V.
  Variable copula : nat -> nat -> C.
  Variable enum : list nat -> list nat.
  Variable clip : V -> V.
  Variable depth : nat.

  Definition quiet {A} (p : run V A) : Prop := forall s, counting V (snd (p s)) = counting V s.

  Lemma quiet_bind : forall A B (p : run V A) (q : A -> run V B), quiet p -> (forall a, quiet (q a)) ->
    quiet (bind V p q).
  Proof.
    intros A B p q Hp Hq s. unfold bind. specialize (Hp s). destruct (p s) as [[a|] s'].
    - rewrite Hq. exact Hp.
    - exact Hp.
  Qed.
  Lemma quiet_modify : forall f, (forall s, counting V (f s) = counting V s) -> quiet (modify V f).
  Proof. intros f H s. apply H. Qed.
  Lemma quiet_ret : forall A (a : A), quiet (ret V a).
  Proof. intros A a s. reflexivity. Qed.
  Lemma quiet_fail : forall A, quiet (@fail V A).
  Proof. intros A s. reflexivity. Qed.
  Lemma quiet_pseudo : forall r, quiet (read_pseudo V r).
  Proof. intros r s. reflexivity. Qed.
  Lemma quiet_evaluate : forall l k b x y, quiet (evaluate V C hu hv nan depth copula l k b x y).
  Proof. intros l k b x y s. unfold evaluate. destruct (is_count _ _ _ _); reflexivity. Qed.
  Lemma quiet_release : forall A (x : A) l k b, quiet (fun s => (Some x, release V depth l k b s)).
  Proof. intros A x l k b s. cbn [snd]. unfold release. destruct (_ && _); reflexivity. Qed.

  Lemma quiet_read : forall below t k b, quiet (read_margin V C hu hv nan depth copula t below k b).
  Proof.
    induction below as [|t' below IH]; intros t k b; cbn [read_margin];
      (apply quiet_bind; [apply quiet_modify; reflexivity|]; intros _ s; destruct (cached _ _);
       [apply (quiet_release V v) | apply quiet_bind; [|intros x; apply quiet_release]]).
    - apply quiet_bind; [apply quiet_pseudo|]; intros x. apply quiet_bind; [apply quiet_pseudo|]; intros y.
      apply quiet_evaluate.
    - destruct (shared_node_is_left _ _) as [[l1 l2]|]; [|apply quiet_fail].
      apply quiet_bind; [apply IH|]; intros x. apply quiet_bind; [apply IH|]; intros y. apply quiet_evaluate.
  Qed.

  Lemma quiet_X : forall t below k, quiet (edge_X V C hu hv nan depth copula t below k).
  Proof.
    intros t [|t' below] k; cbn [edge_X].
    - apply quiet_bind; [apply quiet_pseudo|]; intros x. apply quiet_bind; [apply quiet_pseudo|]; intros y.
      apply quiet_ret.
    - destruct (shared_node_is_left _ _) as [[l1 l2]|]; [|apply quiet_fail].
      apply quiet_bind; [apply quiet_read|]; intros x. apply quiet_bind; [apply quiet_read|]; intros y.
      apply quiet_ret.
  Qed.

  Lemma quiet_down : forall c below t k b, quiet (go_down V C hu hv hinv nan depth copula c t below k b).
  Proof.
    intros c. induction below as [|t' below IH]; intros t k b; cbn [go_down].
    - apply quiet_bind; [apply quiet_read|]; intros x. apply quiet_bind; [apply quiet_pseudo|]; intros y.
      apply quiet_modify. reflexivity.
    - destruct (shared_node_is_left _ _) as [[l1 l2]|]; [|apply quiet_fail].
      apply quiet_bind; [apply quiet_read|]; intros x. destruct b;
        (apply quiet_bind; [apply quiet_read|]; intros y; apply quiet_bind; [apply quiet_modify; reflexivity|];
         intros _; apply IH).
  Qed.

  Lemma quiet_queue : forall c ts order, quiet (empty_queue V C hu hv hinv nan depth copula c ts order).
  Proof.
    intros c ts. induction order as [|[r|l k b] order IH]; cbn [empty_queue]; [apply quiet_ret | exact IH |].
    destruct (skipn _ _); [apply quiet_fail|]. apply quiet_bind; [apply quiet_down | intros _; exact IH].
  Qed.

  Lemma quiet_initial : forall c cond given ts order rand, quiet (set_initial V nan enum clip c cond given ts order rand).
  Proof.
    intros c cond given ts. induction order as [|e order IH]; intros rand; cbn [set_initial]; [apply quiet_ret|].
    destruct c; [|destruct (mem _ _); [|destruct rand; [apply quiet_fail|]]];
      (apply quiet_bind; [apply quiet_modify; intros s; destruct e; reflexivity | intros _; apply IH]).
  Qed.

  Lemma quiet_propagate : forall cond given ts order rand,
    quiet (propagate_samples V C hu hv hinv nan depth copula enum clip cond given ts order rand).
  Proof.
    intros. apply quiet_bind.
    - intros s. destruct order as [|[r|l k b] order]; cbn [order_counted]; [reflexivity | reflexivity |].
      destruct (S l <? depth); reflexivity.
    - intros c. apply quiet_bind; [apply quiet_initial | intros _; apply quiet_queue].
  Qed.

  (** Counting is switched off again whether or not the pass raises. *)
  Lemma count_off : forall p s, counting V (snd (count_node_visits V p s)) = false.
  Proof. intros p s. unfold count_node_visits. destruct (p _). reflexivity. Qed.

  Lemma quiet_collect : forall rs, quiet (collect V rs).
  Proof.
    induction rs as [|r rs IH]; cbn [collect]; [apply quiet_ret|].
    apply quiet_bind; [apply quiet_pseudo|]; intros x. apply quiet_bind; [exact IH|]; intros xs. apply quiet_ret.
  Qed.

  Lemma quiet_tree : forall t below ks, quiet (tree_pairs V C hu hv nan depth copula t below ks).
  Proof.
    intros t below. induction ks as [|k ks IH]; cbn [tree_pairs]; [apply quiet_ret|].
    apply quiet_bind; [apply quiet_X|]; intros x. apply quiet_bind; [exact IH|]; intros xs. apply quiet_ret.
  Qed.
  Lemma quiet_all : forall ts, quiet (all_pairs V C hu hv nan depth copula ts).
  Proof.
    induction ts as [|t below IH]; cbn [all_pairs]; [apply quiet_ret|].
    apply quiet_bind; [exact IH|]; intros x. apply quiet_bind; [apply quiet_tree|]; intros xs. apply quiet_ret.
  Qed.
End Quiet.

(** The calls a user makes on a fitted vine, with the uniforms drawn for them. *)
Inductive vine_call (V : Type) : Type :=
  | Sample (cond : list nat) (given : nat -> V) (rand : list V)
  | Score (x : nat -> V).
Arguments Sample {V}.
Arguments Score {V}.

Definition after_call {V C} (hu hv hinv : C -> V -> V -> V) nan enum clip n ts copula
    (s : vine_state V) (c : vine_call V) : vine_state V :=
  match c with
  | Sample cond given rand => snd (sample V C hu hv hinv nan enum clip n ts copula cond given rand s)
  | Score x => snd (score_pairs V C hu hv nan ts copula n x s)
  end.
Definition after_calls {V C} (hu hv hinv : C -> V -> V -> V) nan enum clip n ts copula
    (calls : list (vine_call V)) : vine_state V :=
  fold_left (after_call hu hv hinv nan enum clip n ts copula) calls (fitted_state V).

(** After any calls with any arguments, also calls that raised half-way, a call
    returns what it returns on the vine just fitted. *)
Theorem C93_history : forall V C (hu hv hinv : C -> V -> V -> V) nan copula enum clip n ts calls,
  enumerates enum -> regular n ts -> ts <> [] -> length ts < n ->
  let s := after_calls hu hv hinv nan enum clip n ts copula calls in
  (forall cond given rand,
     length (filter (fun v => negb (mem v cond)) (seq 0 n)) <= length rand ->
     exists xs,
       fst (sample V C hu hv hinv nan enum clip n ts copula cond given rand s) = Some xs
       /\ fst (sample V C hu hv hinv nan enum clip n ts copula cond given rand (fitted_state V)) = Some xs)
  /\ (forall x,
        fst (score_pairs V C hu hv nan ts copula n x s)
        = fst (score_pairs V C hu hv nan ts copula n x (fitted_state V))).
Proof.
  intros V C hu hv hinv nan copula enum clip n ts calls Hen Hreg Hne Hl s.
  assert (Hc : counting V s = false).
  { unfold s, after_calls. assert (G : forall cs s0, counting V s0 = false ->
      counting V (fold_left (after_call hu hv hinv nan enum clip n ts copula) cs s0) = false).
    { induction cs as [|c cs IH]; intros s0 H; [exact H|]. cbn [fold_left]. apply IH.
      destruct c as [cond given rand|x]; cbn [after_call].
      - unfold sample. unfold bind at 1, modify at 1.
        destruct (sampling_order enum cond n ts) as [order|]; [|exact H].
        unfold bind at 1.
        destruct (two_passes _ _ _ _ _ _ _ _ _ _ _ _ _ _ _ (clear_cache V true s0)) as [r s1] eqn:E.
        assert (H1 : counting V s1 = false).
        { apply (f_equal snd) in E. cbn [snd] in E. rewrite <- E. unfold two_passes, bind at 1.
          match goal with |- context [count_node_visits V ?p ?s] => assert (O := count_off V p s);
            destruct (count_node_visits V p s) as [[u|] s2] end; cbn [snd] in O |- *; [|exact O].
          rewrite (quiet_propagate V C hu hv hinv nan copula enum clip (length ts) cond given ts order rand s2). exact O. }
        destruct r as [u|]; [|exact H1]. unfold bind at 1.
        assert (Q := quiet_collect V (seq 0 n) s1). destruct (collect V (seq 0 n) s1) as [[xs|] s2];
          cbn [snd] in Q |- *; change (counting V s2 = false); congruence.
      - unfold score_pairs. unfold bind at 1, modify at 1. unfold bind at 1, modify at 1.
        set (s1 := fold_left _ _ _).
        assert (H1 : counting V s1 = false).
        { destruct (set_all_pseudo V x (seq 0 n) (clear_cache V true s0)) as (E1 & _). fold s1 in E1.
          rewrite E1. exact H. }
        unfold bind at 1. assert (Q := quiet_all V C hu hv nan copula (length ts) ts s1).
        destruct (all_pairs V C hu hv nan (length ts) copula ts s1) as [[xs|] s2]; cbn [snd] in Q |- *;
          change (counting V s2 = false); congruence. }
    apply G. reflexivity. }
  split.
  - intros cond given rand Hr.
    destruct (C93_sample V C hu hv hinv nan copula enum clip n ts cond given rand s Hen Hreg Hne Hl Hr Hc)
      as (o1 & p1 & xs1 & s1 & c1 & A1 & A2 & A3 & A4 & _).
    destruct (C93_sample V C hu hv hinv nan copula enum clip n ts cond given rand (fitted_state V) Hen Hreg Hne Hl Hr eq_refl)
      as (o2 & p2 & xs2 & s2 & c2 & B1 & B2 & B3 & B4 & _).
    exists xs1. rewrite A3, B3. split; [reflexivity|]. cbn [fst]. f_equal.
    assert (Eo : o1 = o2) by congruence. subst o2. assert (Ep : p1 = p2) by congruence. subst p2.
    rewrite <- A4 in B4. clear - B4. revert xs2 B4. induction xs1 as [|a xs1 IH]; intros [|b xs2] E; cbn [map] in E;
      try discriminate; [reflexivity|]. injection E; intros E' ->. f_equal. auto.
  - intros x.
    destruct (C93_score V C hu hv nan copula enum n ts x s Hen Hreg Hc) as (s1 & c1 & A1 & _).
    destruct (C93_score V C hu hv nan copula enum n ts x (fitted_state V) Hen Hreg eq_refl) as (s2 & c2 & B1 & _).
    rewrite A1, B1. reflexivity.
Qed.
Print Assumptions C93_history.

From Verif Require VineCopulaProps.
Notation vine3 := VineCopulaProps.vine3.

Example C93_applies : enumerates (fun l => l) /\ regular 3 vine3 /\ vine3 <> [] /\ length vine3 < 3
  /\ length (filter (fun v => negb (mem v [1])) (seq 0 3)) <= length [5; 7]
  /\ counting nat (fitted_state nat) = false.
Proof.
  split; [intros l; apply Permutation.Permutation_refl|]. split; [exact VineCopulaProps.vine3_regular|]. split; [discriminate|].
  cbn. split; [lia|]. split; [lia|reflexivity].
Qed.

(** A vine over three assets with [hu c x y = 100 c + 10 x + y] and so on: a conditional
    sample that raises because it lacks a uniform leaves values behind, and the
    next call is not affected. *)
Example C93_interrupted :
  let hu c x y := 100 * c + 10 * x + y in
  let hv c x y := 200 * c + 3 * x + 7 * y in
  let hinv c x y := c + x + 5 * y in
  let smp := sample nat nat hu hv hinv 0 (fun l => l) (fun x => x) 3 vine3 (fun l k => l + k) in
  let broken := snd (smp [1] (fun _ => 4) [5] (fitted_state nat)) in
  fst (smp [1] (fun _ => 4) [5] (fitted_state nat)) = None
  /\ pseudo_values nat broken 1 = Some 4
  /\ fst (smp [1] (fun _ => 4) [5; 7] broken) = fst (smp [1] (fun _ => 4) [5; 7] (fitted_state nat))
  /\ exists x y, fst (smp [1] (fun _ => 4) [5; 7] broken) = Some [x; 4; y].
Proof. vm_compute. repeat split. eauto. Qed.
