(** C20: MultiPeriodPortfolio.  Specification (a program over plain lists of portfolios, without stored
    returns and without shared list objects), refinement theorem, findings. *)
From Coq Require Import List ZArith Bool Arith Lia.
From Verif Require Import MultiPeriodModel.
Import ListNotations.
Local Open Scope Z_scope.

Section Spec.
  Variable A P : Type.
  Variable default_params : P.
  Variable neg : A -> A.
  Local Notation portfolio := (portfolio A).

  (** consecutive portfolios *)
  Definition pairs (l : list portfolio) : list (portfolio * portfolio) := combine l (tl l).
  (** [q] starts strictly after the end of [p] (both non-empty) *)
  Definition after (p q : portfolio) : bool :=
    match p_observations q, rev (p_observations p) with a :: _, b :: _ => b <? a | _, _ => false end.
  (** [q] does not start before the end of [p] *)
  Definition not_before (p q : portfolio) : bool :=
    match p_observations q, rev (p_observations p) with a :: _, b :: _ => b <=? a | _, _ => false end.
  Definition in_order (l : list portfolio) : bool := forallb (fun pq => after (fst pq) (snd pq)) (pairs l).

  (** what a user thinks a MultiPeriodPortfolio is *)
  Record plain := { content : list portfolio; checked : bool; settings : P }.

  Definition assign (st : list plain) (i : nat) (l : list portfolio) : list plain * out A P :=
    match nth_error st i with
    | None => (st, Raised)
    | Some x => if checked x && negb (in_order l) then (st, Raised)
                else (firstn i st ++ {| content := l; checked := checked x; settings := settings x |} :: skipn (S i) st, Done)
    end.
  Definition spec_step (st : list plain) (o : op A P) : list plain * out A P :=
    match o with
    | New l c p => if c && negb (in_order l) then (st, Raised) else (st ++ [{| content := l; checked := c; settings := p |}], Done)
    | Append i p =>
        match nth_error st i with
        | None => (st, Raised)
        | Some x =>
            if checked x && match rev (content x) with q :: _ => negb (not_before q p) | [] => false end then (st, Raised)
            else (firstn i st ++ {| content := content x ++ [p]; checked := checked x; settings := settings x |} :: skipn (S i) st, Done)
        end
    | SetItem i k p =>
        match nth_error st i with
        | None => (st, Raised)
        | Some x => if (k <? length (content x))%nat then assign st i (firstn k (content x) ++ p :: skipn (S k) (content x)) else (st, Raised)
        end
    | DelItem i k =>
        match nth_error st i with
        | None => (st, Raised)
        | Some x => if (k <? length (content x))%nat then assign st i (firstn k (content x) ++ skipn (S k) (content x)) else (st, Raised)
        end
    | SetPortfolios i l => assign st i l
    | Copy i => match nth_error st i with None => (st, Raised) | Some x => (st ++ [x], Done) end
    | Neg i =>
        match nth_error st i with
        | None => (st, Raised)
        | Some x => (st ++ [{| content := map (fun p => {| p_returns := map neg (p_returns p); p_observations := p_observations p |}) (content x);
                               checked := false; settings := default_params |}], Done)
        end
    | ReadReturns i => match nth_error st i with None => (st, Raised) | Some x => (st, OutReturns (concat (map p_returns (content x)))) end
    | ReadObservations i => match nth_error st i with None => (st, Raised) | Some x => (st, OutObservations (concat (map p_observations (content x)))) end
    | ReadPortfolios i => match nth_error st i with None => (st, Raised) | Some x => (st, OutPortfolios (content x)) end
    | ReadParams i => match nth_error st i with None => (st, Raised) | Some x => (st, OutParams (settings x)) end
    end.
  Fixpoint spec_run (st : list plain) (ops : list (op A P)) : list (out A P) :=
    match ops with
    | [] => []
    | o :: ops => let (st, v) := spec_step st o in v :: spec_run st ops
    end.

  Definition is_copy (o : op A P) : bool := match o with Copy _ => true | _ => false end.
  Definition is_append (o : op A P) : bool := match o with Append _ _ => true | _ => false end.
  (** every portfolio has one observation per return *)
  Definition sized (p : portfolio) : Prop := length (p_returns p) = length (p_observations p).
  Definition sized_op (o : op A P) : Prop :=
    match o with
    | New l _ _ | SetPortfolios _ l => forall p, In p l -> sized p
    | Append _ p | SetItem _ _ p => sized p
    | _ => True
    end.
End Spec.
Arguments content {A P}. Arguments checked {A P}. Arguments settings {A P}. Arguments spec_step {A P}. Arguments spec_run {A P}. Arguments in_order {A}.
Arguments is_copy {A P}. Arguments is_append {A P}. Arguments sized_op {A P}. Arguments sized {A}. Arguments after {A}. Arguments not_before {A}. Arguments assign {A P}. Arguments pairs {A}.

Section Proofs.
  Variable A P : Type.
  Variable default_params : P.
  Variable neg : A -> A.
  Local Notation portfolio := (portfolio A).

  Lemma set_nth_eq {B} (l : list B) i x : (i < length l)%nat -> set_nth l i x = firstn i l ++ x :: skipn (S i) l.
  Proof.
    revert i; induction l as [|y l IH]; intros i H; cbn in H; [lia|]. destruct i; cbn; [reflexivity|].
    f_equal. rewrite IH by lia. reflexivity.
  Qed.
  Lemma del_nth_eq {B} (l : list B) i : (i < length l)%nat -> del_nth l i = firstn i l ++ skipn (S i) l.
  Proof.
    revert i; induction l as [|y l IH]; intros i H; cbn in H; [lia|]. destruct i; cbn; [reflexivity|].
    f_equal. rewrite IH by lia. reflexivity.
  Qed.
  Lemma nth_error_set_nth {B} (l : list B) i j x :
    nth_error (set_nth l i x) j = if (i =? j)%nat then match nth_error l j with Some _ => Some x | None => None end else nth_error l j.
  Proof.
    revert i j; induction l as [|y l IH]; intros i j.
    - cbn. destruct (i =? j)%nat, j; reflexivity.
    - destruct i, j; cbn; try reflexivity. apply IH.
  Qed.
  Lemma length_set_nth {B} (l : list B) i x : length (set_nth l i x) = length l.
  Proof. revert i; induction l; intros i; destruct i; cbn; auto. Qed.

  Lemma overlaps_spec p (l : list portfolio) : overlaps p l = negb (in_order (p :: l)).
  Proof.
    revert p; induction l as [|q l IH]; intros p; [reflexivity|].
    unfold in_order, pairs. cbn [overlaps tl combine forallb]. unfold after at 1, first, last_obs. cbn [fst snd].
    destruct (p_observations q) as [|a oq]; cbn [hd_error]; [reflexivity|].
    destruct (rev (p_observations p)) as [|b r]; cbn [hd_error]; [reflexivity|].
    destruct (a <=? b) eqn:E; [apply Z.leb_le in E; replace (b <? a) with false by (symmetry; apply Z.ltb_ge; lia); reflexivity|].
    apply Z.leb_gt in E. replace (b <? a) with true by (symmetry; apply Z.ltb_lt; lia). cbn [andb].
    rewrite IH. reflexivity.
  Qed.
  Lemma concatenated_spec c (l : list portfolio) :
    concatenated c l = if c && negb (in_order l) then None else Some (concat (map p_returns l), concat (map p_observations l)).
  Proof.
    destruct l as [|p l]; cbn [concatenated].
    - destruct c; reflexivity.
    - rewrite overlaps_spec. reflexivity.
  Qed.

  (** object [m] of the heap represents [x] *)
  Definition rep (h : heap A P) (m : multi A P) (x : plain A P) : Prop :=
    (ref m < length (lists h))%nat /\ lookup h (ref m) = content x
    /\ returns m = concat (map p_returns (content x)) /\ observations m = concat (map p_observations (content x))
    /\ check_observations_order m = checked x /\ params m = settings x /\ (forall p, In p (content x) -> sized p).
  Definition rel (h : heap A P) (st : list (plain A P)) : Prop :=
    length (objects h) = length st
    /\ forall i m x, nth_error (objects h) i = Some m -> nth_error st i = Some x -> rep h m x.
  Definition unshared (h : heap A P) : Prop :=
    forall i j m n, nth_error (objects h) i = Some m -> nth_error (objects h) j = Some n -> i <> j -> ref m <> ref n.

  Lemma rep_extend h m x l os : rep h m x -> rep {| lists := lists h ++ [l]; objects := os |} m x.
  Proof.
    intros (H1&H2&H). split; [cbn; rewrite app_length; lia|]. split; [|exact H].
    unfold lookup in *. cbn [lists]. rewrite app_nth1; auto.
  Qed.
  Lemma lookup_new (h : heap A P) l (os : list (multi A P)) : lookup {| lists := lists h ++ [l]; objects := os |} (length (lists h)) = l.
  Proof. unfold lookup; cbn [lists]. rewrite app_nth2 by lia. rewrite Nat.sub_diag. reflexivity. Qed.

  Lemma nth_error_snoc {B} (l : list B) x i y : nth_error (l ++ [x]) i = Some y -> nth_error l i = Some y \/ (i = length l /\ y = x).
  Proof.
    intros H. destruct (Nat.lt_ge_cases i (length l)) as [Hi|Hi].
    - left. rewrite nth_error_app1 in H; auto.
    - right. rewrite nth_error_app2 in H by auto. destruct (i - length l)%nat eqn:E; cbn in H; [|destruct n; discriminate].
      inversion H; subst. split; [lia|auto].
  Qed.
  Lemma nth_error_replace {B} (l : list B) i x : (i < length l)%nat ->
    forall j, nth_error (firstn i l ++ x :: skipn (S i) l) j = if (i =? j)%nat then Some x else nth_error l j.
  Proof.
    intros Hi j. rewrite <- set_nth_eq by auto. rewrite nth_error_set_nth. destruct (Nat.eqb_spec i j); [|reflexivity].
    subst. destruct (nth_error l j) eqn:E; [reflexivity|]. apply nth_error_None in E. lia.
  Qed.
  Lemma rel_get h st i m : rel h st -> nth_error (objects h) i = Some m -> exists x, nth_error st i = Some x /\ rep h m x.
  Proof.
    intros [L H] E. destruct (nth_error st i) as [x|] eqn:Ex.
    - exists x; split; [reflexivity|eauto].
    - apply nth_error_None in Ex. assert (i < length (objects h))%nat by (apply nth_error_Some; congruence). lia.
  Qed.
  Lemma rel_none h st i : rel h st -> nth_error (objects h) i = None -> nth_error st i = None.
  Proof. intros [L H] E. apply nth_error_None in E. apply nth_error_None. lia. Qed.

  Lemma construct_sim h st l c p : rel h st -> (forall q, In q l -> sized q) ->
    let r := construct h l c p in
    let s := if c && negb (in_order l) then (st, Raised) else (st ++ [{| content := l; checked := c; settings := p |}], Done) in
    rel (fst r) (fst s) /\ snd r = snd s /\ (unshared h -> unshared (fst r)).
  Proof.
    intros HR Hl. cbn zeta. unfold construct. rewrite concatenated_spec.
    destruct (c && negb (in_order l)); cbn [fst snd]; [auto|]. split; [|split; [reflexivity|]].
    - destruct HR as [L H]. split; [cbn; rewrite !app_length; cbn; lia|]. cbn [objects]. intros i m x Em Ex.
      apply nth_error_snoc in Em as [Em|[Ei Em]].
      + rewrite nth_error_app1 in Ex by (rewrite <- L; apply nth_error_Some; congruence).
        apply rep_extend. eauto.
      + subst i m. rewrite L, nth_error_app2, Nat.sub_diag in Ex by lia. cbn in Ex. inversion Ex; subst x; clear Ex.
        split; [cbn; rewrite app_length; cbn; lia|]. cbn [ref]. split; [apply lookup_new|]. cbn. auto.
    - intros U i j m n Em En Hij. cbn [objects] in *.
      destruct HR as [L H].
      assert (B: forall k o, nth_error (objects h) k = Some o -> (ref o < length (lists h))%nat).
      { intros k o Ek. destruct (rel_get h st k o (conj L H) Ek) as (x&_&Hx&_). exact Hx. }
      apply nth_error_snoc in Em as [Em|[Ei Em]]; apply nth_error_snoc in En as [En|[Ej En]]; subst.
      + eauto.
      + cbn. apply B in Em. lia.
      + cbn. apply B in En. lia.
      + congruence.
  Qed.
  Lemma set_portfolios_sim h st i m l : rel h st -> nth_error (objects h) i = Some m -> (forall q, In q l -> sized q) ->
    let r := set_portfolios h i m l in let s := assign st i l in
    rel (fst r) (fst s) /\ snd r = snd s /\ (unshared h -> unshared (fst r)).
  Proof.
    intros HR Em Hl. cbn zeta. destruct (rel_get _ _ _ _ HR Em) as (x&Ex&Hx).
    unfold set_portfolios, assign. rewrite Ex, concatenated_spec.
    pose proof Hx as Hx'. destruct Hx as (B1&B2&B3&B4&B5&B6&B7). rewrite B5.
    destruct (checked x && negb (in_order l)); cbn [fst snd]; [auto|]. 
    assert (Hi: (i < length (objects h))%nat) by (apply nth_error_Some; congruence).
    assert (Hi': (i < length st)%nat) by (apply nth_error_Some; congruence).
    destruct HR as [L H]. split; [|split; [reflexivity|]].
    - split; [cbn [objects]; rewrite <- set_nth_eq by auto; rewrite !length_set_nth; auto|]. cbn [objects].
      intros j n y En Ey. rewrite nth_error_set_nth in En. rewrite nth_error_replace in Ey by auto.
      destruct (Nat.eqb_spec i j).
      + subst j. rewrite Em in En. inversion En; inversion Ey; subst; clear En Ey.
        split; [cbn; rewrite app_length; cbn; lia|]. cbn [ref]. split; [apply lookup_new|]. cbn. auto.
      + apply rep_extend. eauto.
    - intros U j k n o En Eo Hjk. cbn [objects] in *. rewrite nth_error_set_nth in En, Eo.
      assert (B: forall k o, nth_error (objects h) k = Some o -> (ref o < length (lists h))%nat).
      { intros k' o' Ek. destruct (rel_get h st k' o' (conj L H) Ek) as (z&_&Hz&_). exact Hz. }
      destruct (Nat.eqb_spec i j), (Nat.eqb_spec i k); subst; try congruence.
      + rewrite Em in En. inversion En; subst. cbn. apply B in Eo. lia.
      + rewrite Em in Eo. inversion Eo; subst. cbn. apply B in En. lia.
      + eauto.
  Qed.
  Lemma concat_nil_iff (l : list portfolio) : (forall p, In p l -> sized p) ->
    concat (map p_observations l) = [] -> concat (map p_returns l) = [].
  Proof.
    induction l as [|p l IH]; cbn; intros Hs H; [reflexivity|]. apply app_eq_nil in H as [H1 H2].
    rewrite IH by auto. rewrite app_nil_r. specialize (Hs p (or_introl eq_refl)). unfold sized in Hs. rewrite H1 in Hs. destruct (p_returns p); [reflexivity|discriminate].
  Qed.
  Lemma append_sim h st i m p : rel h st -> nth_error (objects h) i = Some m -> sized p -> unshared h ->
    let r := append h i m p in
    let s := spec_step default_params neg st (Append i p) in
    rel (fst r) (fst s) /\ snd r = snd s /\ unshared (fst r).
  Proof.
    intros HR Em Hp U. cbn zeta. destruct (rel_get _ _ _ _ HR Em) as (x&Ex&Hx). cbn [spec_step]. rewrite Ex.
    destruct Hx as (B1&B2&B3&B4&B5&B6&B7). unfold append. rewrite B2, B5.
    set (clash := if checked x && _ then _ else _).
    set (clash' := checked x && _).
    assert (C: clash = clash').
    { subst clash clash'. destruct (checked x); cbn [andb]; [|reflexivity].
      destruct (content x) as [|q0 l0] eqn:Ec; [reflexivity|]. cbn [length Nat.eqb negb].
      destruct (rev (q0 :: l0)) as [|q l] eqn:Er; [apply (f_equal (@length _)) in Er; rewrite rev_length in Er; discriminate|].
      cbn [hd_error]. unfold not_before, first, last_obs. destruct (p_observations p) as [|a op']; [reflexivity|].
      cbn [hd_error]. destruct (rev (p_observations q)) as [|b rq]; [reflexivity|]. cbn [hd_error].
      rewrite Z.leb_antisym, negb_involutive. reflexivity. }
    rewrite C. clearbody clash'. subst clash. destruct clash'; cbn [fst snd]; [auto|].
    assert (Hi: (i < length (objects h))%nat) by (apply nth_error_Some; congruence).
    assert (Hi': (i < length st)%nat) by (apply nth_error_Some; congruence).
    set (ro := if (length (observations m) =? 0)%nat then _ else _).
    assert (Ero: ro = (concat (map p_returns (content x ++ [p])), concat (map p_observations (content x ++ [p])))).
    { subst ro. rewrite !map_app, !concat_app. cbn. rewrite !app_nil_r, <- B4, <- B3.
      destruct (Nat.eqb_spec (length (observations m)) 0) as [E|E]; [|reflexivity].
      apply length_zero_iff_nil in E. rewrite E. rewrite B3, concat_nil_iff; auto. congruence. }
    rewrite Ero. cbn [fst snd]. destruct HR as [L H]. split; [|split; [reflexivity|]].
    - split; [cbn [objects]; rewrite <- set_nth_eq by auto; rewrite !length_set_nth; auto|]. cbn [objects].
      intros j n y En Ey. rewrite nth_error_set_nth in En. rewrite nth_error_replace in Ey by auto.
      assert (LK: forall r, lookup {| lists := set_nth (lists h) (ref m) (content x ++ [p]);
          objects := set_nth (objects h) i {| ref := ref m; returns := concat (map p_returns (content x ++ [p])); observations := concat (map p_observations (content x ++ [p]));
               check_observations_order := checked x; params := params m |} |} r = if (ref m =? r)%nat then content x ++ [p] else lookup h r).
      { intros r. unfold lookup; cbn [lists]. rewrite !nth_default_eq || idtac.
        destruct (nth_error (lists h) r) as [l0|] eqn:E0.
        - destruct (Nat.eqb_spec (ref m) r).
          + subst r. apply nth_error_nth. rewrite nth_error_set_nth, Nat.eqb_refl, E0. reflexivity.
          + rewrite (nth_error_nth (lists h) r [] E0). apply nth_error_nth. rewrite nth_error_set_nth.
            destruct (Nat.eqb_spec (ref m) r); congruence.
        - apply nth_error_None in E0. destruct (Nat.eqb_spec (ref m) r); [lia|].
          rewrite !nth_overflow; auto. rewrite length_set_nth; auto. }
      destruct (Nat.eqb_spec i j).
      + subst j. rewrite Em in En. inversion En; inversion Ey; subst n y; clear En Ey.
        split; [cbn; rewrite length_set_nth; lia|]. cbn [ref]. split; [rewrite LK, Nat.eqb_refl; reflexivity|]. cbn.
        repeat (split; [auto; fail|]). intros q Hq. apply in_app_or in Hq as [Hq|[<-|[]]]; auto.
      + destruct (H j n y En Ey) as (C1&C2&C3).
        split; [cbn; rewrite length_set_nth; auto|]. split; [|auto].
        rewrite LK. destruct (Nat.eqb_spec (ref m) (ref n)) as [E|E]; [|auto].
        exfalso. eapply (U i j); eauto.
    - intros j k n o En Eo Hjk. cbn [objects] in *. rewrite nth_error_set_nth in En, Eo.
      destruct (Nat.eqb_spec i j), (Nat.eqb_spec i k); subst; try congruence.
      + rewrite Em in En. inversion En; subst. cbn. eapply (U j k); eauto.
      + rewrite Em in Eo. inversion Eo; subst. cbn. eapply (U j k); eauto.
      + eapply (U j k); eauto.
  Qed.

  Lemma sim h st o : rel h st -> sized_op o -> (is_append o = true -> unshared h) ->
    let r := step default_params neg h o in let s := spec_step default_params neg st o in
    rel (fst r) (fst s) /\ snd r = snd s /\ (unshared h -> is_copy o = false -> unshared (fst r)).
  Proof.
    intros HR Hs Ha. cbn zeta.
    destruct o as [l c p|i p|i k p|i k|i l|i|i|i|i|i|i]; cbn [step spec_step].
    - destruct (construct_sim h st l c p HR Hs) as (H1&H2&H3). auto.
    - destruct (nth_error (objects h) i) as [m|] eqn:Em.
      + destruct (append_sim h st i m p HR Em Hs (Ha eq_refl)) as (H1&H2&H3). auto.
      + rewrite (rel_none _ _ _ HR Em). auto.
    - destruct (nth_error (objects h) i) as [m|] eqn:Em; [|rewrite (rel_none _ _ _ HR Em); auto].
      destruct (rel_get _ _ _ _ HR Em) as (x&Ex&Hx). rewrite Ex. pose proof Hx as (_&HL&_&_&_&_&Hz). rewrite HL.
      destruct (Nat.ltb_spec k (length (content x))) as [Hk|Hk]; [|auto].
      rewrite set_nth_eq by auto.
      destruct (set_portfolios_sim h st i m (firstn k (content x) ++ p :: skipn (S k) (content x)) HR Em) as (H1&H2&H3); [|auto].
      intros q Hq. apply in_app_or in Hq as [Hq|[<-|Hq]]; auto.
      * apply Hz. rewrite <- (firstn_skipn k (content x)). apply in_or_app; auto.
      * apply Hz. rewrite <- (firstn_skipn (S k) (content x)). apply in_or_app; auto.
    - destruct (nth_error (objects h) i) as [m|] eqn:Em; [|rewrite (rel_none _ _ _ HR Em); auto].
      destruct (rel_get _ _ _ _ HR Em) as (x&Ex&Hx). rewrite Ex. pose proof Hx as (_&HL&_&_&_&_&Hz). rewrite HL.
      destruct (Nat.ltb_spec k (length (content x))) as [Hk|Hk]; [|auto].
      rewrite del_nth_eq by auto.
      destruct (set_portfolios_sim h st i m (firstn k (content x) ++ skipn (S k) (content x)) HR Em) as (H1&H2&H3); [|auto].
      intros q Hq. apply in_app_or in Hq as [Hq|Hq]; auto.
      * apply Hz. rewrite <- (firstn_skipn k (content x)). apply in_or_app; auto.
      * apply Hz. rewrite <- (firstn_skipn (S k) (content x)). apply in_or_app; auto.
    - destruct (nth_error (objects h) i) as [m|] eqn:Em.
      + destruct (set_portfolios_sim h st i m l HR Em Hs) as (H1&H2&H3); auto.
      + unfold assign. rewrite (rel_none _ _ _ HR Em); auto.
    - destruct (nth_error (objects h) i) as [m|] eqn:Em; [|rewrite (rel_none _ _ _ HR Em); auto].
      destruct (rel_get _ _ _ _ HR Em) as (x&Ex&Hx). rewrite Ex. cbn [fst snd]. split; [|split; [reflexivity|discriminate]].
      destruct HR as [L H]. split; [cbn; rewrite !app_length; cbn; lia|]. cbn [objects]. intros j n y En Ey.
      apply nth_error_snoc in En as [En|[Ej En]].
      + rewrite nth_error_app1 in Ey by (rewrite <- L; apply nth_error_Some; congruence). exact (H j n y En Ey).
      + subst j n. rewrite L, nth_error_app2, Nat.sub_diag in Ey by lia. cbn in Ey. inversion Ey; subst y. exact Hx.
    - destruct (nth_error (objects h) i) as [m|] eqn:Em; [|rewrite (rel_none _ _ _ HR Em); auto].
      destruct (rel_get _ _ _ _ HR Em) as (x&Ex&Hx). rewrite Ex. pose proof Hx as (_&HL&_&_&_&_&Hz). rewrite HL.
      destruct (construct_sim h st (map (neg_portfolio neg) (content x)) false default_params HR) as (H1&H2&H3).
      { intros q Hq. apply in_map_iff in Hq as (q0&<-&Hq0). unfold sized; cbn. rewrite map_length. apply Hz; auto. }
      auto.
    - destruct (nth_error (objects h) i) as [m|] eqn:Em; [|rewrite (rel_none _ _ _ HR Em); auto].
      destruct (rel_get _ _ _ _ HR Em) as (x&Ex&B1&B2&B3&B4&B5&B6&B7). rewrite Ex. cbn. rewrite B3. auto.
    - destruct (nth_error (objects h) i) as [m|] eqn:Em; [|rewrite (rel_none _ _ _ HR Em); auto].
      destruct (rel_get _ _ _ _ HR Em) as (x&Ex&B1&B2&B3&B4&B5&B6&B7). rewrite Ex. cbn. rewrite B4. auto.
    - destruct (nth_error (objects h) i) as [m|] eqn:Em; [|rewrite (rel_none _ _ _ HR Em); auto].
      destruct (rel_get _ _ _ _ HR Em) as (x&Ex&B1&B2&B3&B4&B5&B6&B7). rewrite Ex. cbn [fst snd]. rewrite B2. auto.
    - destruct (nth_error (objects h) i) as [m|] eqn:Em; [|rewrite (rel_none _ _ _ HR Em); auto].
      destruct (rel_get _ _ _ _ HR Em) as (x&Ex&B1&B2&B3&B4&B5&B6&B7). rewrite Ex. cbn. rewrite B6. auto.
  Qed.

  Lemma run_sim ops : forall h st, rel h st -> (forall o, In o ops -> sized_op o) ->
    (unshared h /\ forallb (fun o => negb (is_copy o)) ops = true \/ forallb (fun o => negb (is_append o)) ops = true) ->
    snd (run default_params neg h ops) = spec_run default_params neg st ops.
  Proof.
    induction ops as [|o ops IH]; intros h st HR Hs Hc; [reflexivity|]. cbn [run spec_run].
    destruct (sim h st o HR (Hs o (or_introl eq_refl))) as (H1&H2&H3).
    { intros Ho. destruct Hc as [[U _]|Hc]; [exact U|]. cbn in Hc. rewrite Ho in Hc. discriminate. }
    destruct (step default_params neg h o) as [h' v], (spec_step default_params neg st o) as [st' v']. cbn [fst snd] in *. subst v'.
    specialize (IH h' st' H1 (fun x Hx => Hs x (or_intror Hx))).
    destruct (run default_params neg h' ops) as [h'' vs]. cbn [snd] in *. f_equal. apply IH.
    destruct Hc as [[U Hc]|Hc]; cbn in Hc; apply andb_prop in Hc as [Hc1 Hc2]; [left|right; auto].
    split; [|auto]. apply H3; auto. destruct (is_copy o); [discriminate|reflexivity].
  Qed.
End Proofs.

(** * C20 *)
(** Any program of constructions, appends, item assignments, deletions, assignments of [portfolios], copies,
    negations and reads, in which copy() and append() are not both used, prints what the specification
    prints: in particular returns and observations are always the concatenation over the current content,
    an operation that raises changes nothing, and copies are independent. *)
Theorem C20_multi_period_is_concatenation :
  forall (A P : Type) (default_params : P) (neg : A -> A) ops,
    (forall o, In o ops -> sized_op o) ->
    (forall o, In o ops -> is_copy o = false) \/ (forall o, In o ops -> is_append o = false) ->
    snd (run default_params neg empty_heap ops) = spec_run default_params neg [] ops.
Proof.
  intros A P d neg ops Hs Hc. apply run_sim; auto.
  - split; [reflexivity|]. intros i m x H. destruct i; discriminate.
  - destruct Hc as [Hc|Hc]; [left; split|right].
    + intros i j m n H. destruct i; discriminate.
    + apply forallb_forall. intros o Ho. rewrite Hc; auto.
    + apply forallb_forall. intros o Ho. rewrite Hc; auto.
Qed.
Print Assumptions C20_multi_period_is_concatenation.

(** What the check of the observations' order means: each portfolio starts strictly after the previous one's end. *)
Theorem C20_order_checked :
  forall (A : Type) (l : list (portfolio A)),
    in_order l = true <->
    forall i p q, nth_error l i = Some p -> nth_error l (S i) = Some q ->
      exists a b, hd_error (p_observations q) = Some a /\ hd_error (rev (p_observations p)) = Some b /\ b < a.
Proof.
  intros A l. unfold in_order, pairs. induction l as [|p l IH].
  - cbn. split; [intros _ [|i] p q H; discriminate|reflexivity].
  - destruct l as [|q l].
    + cbn. split; [intros _ [|[|i]] p' q' _ H; discriminate|reflexivity].
    + cbn [tl combine forallb fst snd]. rewrite andb_true_iff. cbn [tl] in IH. rewrite IH. split.
      * intros [H1 H2] i p' q' Hp Hq. destruct i as [|i]; [|apply (H2 i); auto].
        cbn in Hp, Hq. inversion Hp; inversion Hq; subst. unfold after in H1.
        destruct (p_observations q') as [|a r]; [discriminate|]. destruct (rev (p_observations p')) as [|b s]; [discriminate|].
        exists a, b. repeat split. apply Z.ltb_lt; auto.
      * intros H. split.
        -- destruct (H 0%nat p q eq_refl eq_refl) as (a&b&Ha&Hb&Hab). unfold after.
           destruct (p_observations q); [discriminate|]. destruct (rev (p_observations p)); [discriminate|].
           inversion Ha; inversion Hb; subst. apply Z.ltb_lt; auto.
        -- intros i p' q' Hp Hq. apply (H (S i)); auto.
Qed.
Print Assumptions C20_order_checked.

Definition day (r z : Z) : portfolio Z := {| p_returns := [r]; p_observations := [z] |}.
Example C20_example :
  let ops := [New [day 1 1; day 2 2] true tt; Append 0 (day 3 3); Append 0 (day 9 1); SetItem 0 1 (day 5 2); DelItem 0 0; ReadReturns 0; ReadObservations 0] in
  (forall o, In o ops -> sized_op o) /\ (forall o, In o ops -> is_copy o = false)
  /\ snd (run tt Z.opp empty_heap ops) = [Done; Done; Raised; Done; Done; OutReturns [5; 3]; OutObservations [2; 3]].
Proof.
  cbn zeta. split; [|split; [|reflexivity]].
  - intros o H. repeat (destruct H as [<-|H]; [cbn; try exact I; try reflexivity; intros p [<-|[<-|[]]]; reflexivity|]). destruct H.
  - intros o H. repeat (destruct H as [<-|H]; [reflexivity|]). destruct H.
Qed.

(** Findings. Appending to a copy corrupts the original: its list grows, its returns do not. *)
Theorem C20_copies_independent_refuted :
  exists ops, (forall o, In o ops -> @sized_op Z unit o)
    /\ snd (run tt Z.opp empty_heap ops) <> spec_run tt Z.opp [] ops
    /\ forall m, nth_error (objects (fst (run tt Z.opp empty_heap ops))) 0 = Some m ->
         length (lookup (fst (run tt Z.opp empty_heap ops)) (ref m)) = 2%nat /\ returns m = [1].
Proof.
  exists [New [day 1 1] true tt; Copy 0; Append 1 (day 2 2); ReadPortfolios 0]. split; [|split].
  - intros o H. repeat (destruct H as [<-|H]; [cbn; try exact I; try reflexivity; intros p [<-|[]]; reflexivity|]). destruct H.
  - cbn. discriminate.
  - intros m H. cbn in H. inversion H; subst. split; reflexivity.
Qed.
Print Assumptions C20_copies_independent_refuted.
(** append accepts a portfolio that starts on the last observation, the constructor rejects the same content *)
Theorem C20_append_same_check_refuted :
  exists (l : list (portfolio Z)) p,
    snd (run tt Z.opp empty_heap [New l true tt; Append 0 p]) = [Done; Done]
    /\ snd (run tt Z.opp empty_heap [New (l ++ [p]) true tt]) = [Raised].
Proof. exists [day 1 1], (day 2 1). split; reflexivity. Qed.
Print Assumptions C20_append_same_check_refuted.
(** an operator drops every constructor argument but the tag and the fitness measures *)
Theorem C20_operators_keep_settings_refuted :
  exists ops (rf : Z), snd (run 0 Z.opp empty_heap (New [day 1 1] false rf :: ops)) = [Done; Done; OutParams rf; OutParams 0] /\ rf <> 0.
Proof. exists [Neg 0; ReadParams 0; ReadParams 1], 5. split; [reflexivity|discriminate]. Qed.
Print Assumptions C20_operators_keep_settings_refuted.
