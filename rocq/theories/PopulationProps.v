(** C21, C22: Population. *)
From Coq Require Import String List ZArith Bool Arith Reals Lia Lra Permutation Sorted.
From Verif Require Import PopulationModel.
Import ListNotations.
Local Open Scope list_scope.

(** * Specification *)
Definition is_portfolio (x : item) : Prop := match x with Other _ => False | _ => True end.
Definition only_portfolios (st : state) : Prop := forall l x, In l st -> In x l -> is_portfolio x.
Definition is_iadd (o : op) : Prop := match o with IAdd _ _ => True | _ => False end.
Definition is_extend (o : op) : Prop := match o with Extend _ _ => True | _ => False end.

(** * C21 *)
Lemma validate_ok x y : validate_item x = Some y -> y = x /\ is_portfolio x.
Proof. destruct x; cbn; intros H; inversion H; subst; cbn; auto. Qed.
Lemma feed_spec l : forall acc,
  exists k, fst (feed acc l) = acc ++ firstn k l /\ (forall x, In x (firstn k l) -> is_portfolio x)
    /\ (snd (feed acc l) = false -> k = length l) /\ (snd (feed acc l) = true -> exists x, nth_error l k = Some x /\ ~ is_portfolio x).
Proof.
  induction l as [|x l IH]; intros acc; cbn [feed].
  - exists 0%nat. cbn. rewrite app_nil_r. repeat split; auto; [intros ? []|discriminate].
  - destruct (validate_item x) as [y|] eqn:E.
    + apply validate_ok in E as [-> Hx]. destruct (IH (acc ++ [x])) as (k&H1&H2&H3&H4). exists (S k). cbn [firstn length nth_error].
      rewrite H1, <- app_assoc. cbn. repeat split; auto.
      * intros z [<-|Hz]; auto.
    + exists 0%nat. cbn. rewrite app_nil_r. repeat split; auto; [intros ? []|discriminate|].
      intros _. exists x. split; [reflexivity|]. destruct x; cbn in *; try discriminate; auto.
Qed.
Lemma feed_ok acc l : (forall x, In x l -> is_portfolio x) -> feed acc l = (acc ++ l, false).
Proof.
  revert acc; induction l as [|x l IH]; intros acc H; cbn; [rewrite app_nil_r; reflexivity|].
  replace (validate_item x) with (Some x) by (specialize (H x (or_introl eq_refl)); destruct x; cbn in *; tauto).
  rewrite IH by (intros; apply H; right; auto). rewrite <- app_assoc. reflexivity.
Qed.
Lemma replace_nth_In {B} (l : list B) i x y : In y (replace_nth l i x) -> y = x \/ In y l.
Proof. revert i; induction l as [|z l IH]; intros [|i]; cbn; intuition. destruct (IH _ H0); auto. Qed.
Lemma replace_nth_same {B} (l : list B) i x : nth_error l i = Some x -> replace_nth l i x = l.
Proof. revert i; induction l as [|z l IH]; intros [|i] H; cbn in *; try discriminate; [congruence|f_equal; auto]. Qed.
Lemma In_firstn {B} k (l : list B) x : In x (firstn k l) -> In x l.
Proof. intros H. rewrite <- (firstn_skipn k l). apply in_or_app; auto. Qed.
Lemma In_skipn {B} k (l : list B) x : In x (skipn k l) -> In x l.
Proof. intros H. rewrite <- (firstn_skipn k l). apply in_or_app; auto. Qed.
Lemma In_repeat_concat {B} n (l : list B) x : In x (concat (repeat l n)) -> In x l.
Proof. induction n; cbn; intros H; [destruct H|]. apply in_app_or in H as [H|H]; auto. Qed.

Lemma step_only st o : only_portfolios st -> ~ is_iadd o -> only_portfolios (fst (step st o)).
Proof.
  intros H Ho.
  assert (ON: forall i (f : list item -> list item * bool),
    (forall l, nth_error st i = Some l -> (forall x, In x l -> is_portfolio x) -> forall x, In x (fst (f l)) -> is_portfolio x) ->
    only_portfolios (fst (match nth_error st i with None => (st, true) | Some l => let (l', e) := f l in (replace_nth st i l', e) end))).
  { intros i f Hf. destruct (nth_error st i) as [l|] eqn:E; [|exact H]. specialize (Hf l eq_refl).
    assert (Hl: forall x, In x l -> is_portfolio x) by (intros x Hx; eapply H; [eapply nth_error_In; eauto|auto]).
    specialize (Hf Hl). destruct (f l) as [l' e]. cbn in *. intros l0 x Hl0 Hx. apply replace_nth_In in Hl0 as [->|Hl0]; eauto. }
  assert (NEW: forall l, only_portfolios (fst (let (l', e) := feed [] l in if e then (st, true) else (st ++ [l'], false)))).
  { intros l. destruct (feed_spec l []) as (k&H1&H2&H3&H4). destruct (feed [] l) as [l' e]. cbn in *.
    destruct e; [exact H|]. cbn. subst l'. intros l0 x Hl0 Hx. apply in_app_or in Hl0 as [Hl0|[<-|[]]]; [eapply H; eauto|auto]. }
  destruct o; cbn [step]; try (apply ON; clear ON NEW; intros l0 El0 Hl0 y Hy); try apply NEW.
  - destruct (validate_item x) as [x'|] eqn:E; [|auto]. apply validate_ok in E as [-> Hx].
    destruct (index k (length l0)); [|auto]. cbn in Hy. apply replace_nth_In in Hy as [->|Hy]; auto.
  - destruct (validate_item x) as [[n|n parts|n]|]; auto. cbn [fst] in Hy.
    apply in_app_or in Hy as [Hy|Hy]; [apply Hl0; eapply In_firstn; eauto|].
    apply in_app_or in Hy as [Hy|Hy]; [apply in_map_iff in Hy as (?&<-&_); exact I|apply Hl0; eapply In_skipn; eauto].
  - destruct (validate_item x) as [x'|] eqn:E; [|auto]. apply validate_ok in E as [-> Hx]. cbn in Hy. apply in_app_or in Hy as [Hy|[<-|[]]]; auto.
  - destruct (validate_item x) as [x'|] eqn:E; [|auto]. apply validate_ok in E as [-> Hx]. cbn [fst] in Hy. apply in_app_or in Hy as [Hy|[<-|Hy]]; auto.
    + apply Hl0; eapply In_firstn; eauto.
    + apply Hl0; eapply In_skipn; eauto.
  - destruct (feed_spec l l0) as (k&H1&H2&_). rewrite H1 in Hy. apply in_app_or in Hy as [Hy|Hy]; auto.
  - destruct (nth_error st j) as [new|] eqn:Ej; [|exact H].
    apply (ON i (fun l => (l ++ new, false))). intros l0 El0 Hl0 y Hy. cbn in Hy. apply in_app_or in Hy as [Hy|Hy]; auto. exact (H new y (nth_error_In _ _ Ej) Hy).
  - destruct (nth_error st i) as [a|] eqn:Ei; [|exact H]. destruct (nth_error st j) as [b|] eqn:Ej; [|exact H]. apply NEW.
  - exact H.
  - destruct (nth_error st i) as [a'|] eqn:Ei; [|exact H]. apply NEW.
  - destruct (index k (length l0)); [|auto]. cbn [fst] in Hy. unfold delete_nth in Hy. apply in_app_or in Hy as [Hy|Hy]; apply Hl0; [eapply In_firstn; eauto|eapply In_skipn; eauto].
  - apply (ON i (fun l => (rev l, false))). intros l0 El0 Hl0 y Hy. cbn in Hy. apply Hl0. apply in_rev; auto.
  - apply (ON i (fun l => ([], false))). intros l0 El0 Hl0 y [].
  - apply (ON i (fun l => (concat (repeat l n), false))). intros l0 El0 Hl0 y Hy. cbn in Hy. apply Hl0. eapply In_repeat_concat; eauto.
  - exfalso; apply Ho; exact I.
Qed.
(** After any program that does not use +=, every element of every population is a portfolio. *)
Theorem C21_only_portfolios :
  forall ops, (forall o, In o ops -> ~ is_iadd o) -> only_portfolios (run [] ops).
Proof.
  assert (G: forall ops st, only_portfolios st -> (forall o, In o ops -> ~ is_iadd o) -> only_portfolios (run st ops)).
  { induction ops as [|o ops IH]; intros st H Ho; cbn; [exact H|]. apply IH; [|intros; apply Ho; right; auto].
    apply step_only; [exact H|apply Ho; left; reflexivity]. }
  intros ops Ho. apply G; [intros l x []|exact Ho].
Qed.
Print Assumptions C21_only_portfolios.
(** An operation that raises leaves every population unchanged, extend apart: extend keeps the portfolios that
    precede the offending element. *)
Theorem C21_raising_changes_nothing :
  forall st o, snd (step st o) = true ->
    (~ is_extend o -> fst (step st o) = st)
    /\ (forall i new l, o = Extend i new -> nth_error st i = Some l ->
          exists k x, nth_error new k = Some x /\ ~ is_portfolio x /\ (forall y, In y (firstn k new) -> is_portfolio y)
            /\ fst (step st o) = firstn i st ++ (l ++ firstn k new) :: skipn (S i) st).
Proof.
  intros st o He. split.
  - intros Ho.
    assert (ON: forall i (f : list item -> list item * bool),
      (forall l, nth_error st i = Some l -> snd (f l) = true -> fst (f l) = l) ->
      snd (match nth_error st i with None => (st, true) | Some l => let (l', e) := f l in (replace_nth st i l', e) end) = true ->
      fst (match nth_error st i with None => (st, true) | Some l => let (l', e) := f l in (replace_nth st i l', e) end) = st).
    { intros i f Hf. destruct (nth_error st i) as [l|] eqn:E; [|reflexivity]. specialize (Hf l eq_refl).
      destruct (f l) as [l' e]. cbn in *. intros ->. rewrite (Hf eq_refl). apply replace_nth_same; auto. }
    assert (NEW: forall l, snd (let (l', e) := feed [] l in if e then (st, true) else (st ++ [l'], false)) = true ->
        fst (let (l', e) := feed [] l in if e then (st, true) else (st ++ [l'], false)) = st).
    { intros l. destruct (feed [] l) as [l' e]. destruct e; cbn; [reflexivity|discriminate]. }
    destruct o; cbn [step] in *; try (apply ON; [clear ON NEW; intros l0 El0 Hl0|exact He]); try (apply NEW; exact He).
    + destruct (validate_item x); [|reflexivity]. destruct (index k (length l0)); [discriminate|reflexivity].
    + destruct (validate_item x) as [[| |]|]; try discriminate; reflexivity.
    + destruct (validate_item x); [discriminate|reflexivity].
    + destruct (validate_item x); [discriminate|reflexivity].
    + exfalso; apply Ho; exact I.
    + destruct (nth_error st j); [|reflexivity]. destruct (nth_error st i); [discriminate|reflexivity].
    + destruct (nth_error st i); [|reflexivity]. destruct (nth_error st j); [|reflexivity]. apply NEW; exact He.
    + reflexivity.
    + destruct (nth_error st i); [|reflexivity]. apply NEW; exact He.
    + destruct (index k (length l0)); [discriminate|reflexivity].
    + destruct (nth_error st i); [discriminate|reflexivity].
    + destruct (nth_error st i); [discriminate|reflexivity].
    + destruct (nth_error st i); [discriminate|reflexivity].
    + destruct (nth_error st i); [discriminate|reflexivity].
  - intros i new l -> E. cbn [step] in *. rewrite E in *. destruct (feed_spec new l) as (k&H1&H2&H3&H4).
    destruct (feed l new) as [l' e]. cbn [fst snd] in *. subst e. destruct (H4 eq_refl) as (x&Hx&Hn). exists k, x.
    repeat split; auto. subst l'. clear -E. revert i E; induction st as [|z st IH]; intros [|i] E; cbn in *; try discriminate; [reflexivity|].
    f_equal. apply IH. exact E.
Qed.
Print Assumptions C21_raising_changes_nothing.
(** When they only get portfolios (and valid indices) the operations do what list operations do. *)
Theorem C21_list_semantics :
  forall st i l, nth_error st i = Some l -> only_portfolios st ->
    (forall new, (forall x, In x new -> is_portfolio x) -> step st (Init new) = (st ++ [new], false))
    /\ (forall x, is_portfolio x -> fst (step st (Append i x)) = firstn i st ++ (l ++ [x]) :: skipn (S i) st /\ snd (step st (Append i x)) = false)
    /\ (forall new, (forall x, In x new -> is_portfolio x) ->
          step st (Extend i new) = (firstn i st ++ (l ++ new) :: skipn (S i) st, false))
    /\ (forall k x, is_portfolio x -> (0 <= k <= Z.of_nat (length l))%Z ->
          step st (Insert i k x) = (firstn i st ++ (firstn (Z.to_nat k) l ++ x :: skipn (Z.to_nat k) l) :: skipn (S i) st, false))
    /\ (forall k x, is_portfolio x -> (0 <= k < Z.of_nat (length l))%Z ->
          step st (SetItem i k x) = (firstn i st ++ (firstn (Z.to_nat k) l ++ x :: skipn (S (Z.to_nat k)) l) :: skipn (S i) st, false))
    /\ (forall j m, nth_error st j = Some m -> step st (Add i j) = (st ++ [l ++ m], false)).
Proof.
  intros st i l E H.
  assert (RN: forall B (l : list B) i x, (i < length l)%nat -> replace_nth l i x = firstn i l ++ x :: skipn (S i) l).
  { clear. intros B l; induction l as [|y l IH]; intros i x Hi; cbn in Hi; [lia|]. destruct i; cbn; [reflexivity|]. f_equal. rewrite IH by lia. reflexivity. }
  assert (Hi: (i < length st)%nat) by (apply nth_error_Some; congruence).
  assert (V: forall x, is_portfolio x -> validate_item x = Some x) by (intros [n|n p|n] Hx; cbn in *; tauto).
  repeat split.
  - intros new Hn. cbn [step]. rewrite feed_ok by auto. reflexivity.
  - cbn [step]. rewrite E, V by auto. cbn [fst]. apply RN; auto.
  - cbn [step]. rewrite E, V by auto. reflexivity.
  - intros new Hn. cbn [step]. rewrite E, feed_ok by auto. rewrite RN by auto. reflexivity.
  - intros k x Hx Hk. cbn [step]. rewrite E, V by auto. rewrite RN by auto. unfold clamp. replace (k <? 0)%Z with false by (symmetry; apply Z.ltb_ge; lia).
    rewrite Nat.min_r by lia. reflexivity.
  - intros k x Hx Hk. cbn [step]. rewrite E, V by auto. unfold index. replace (k <? 0)%Z with false by (symmetry; apply Z.ltb_ge; lia).
    replace ((0 <=? k)%Z && (k <? Z.of_nat (length l))%Z) with true by (symmetry; apply andb_true_intro; split; [apply Z.leb_le|apply Z.ltb_lt]; lia).
    rewrite (RN _ st) by auto. rewrite RN by lia. reflexivity.
  - intros j m Ej. cbn [step]. rewrite E, Ej, feed_ok; [reflexivity|].
    intros x Hx. apply in_app_or in Hx as [Hx|Hx]; [exact (H l x (nth_error_In _ _ E) Hx)|exact (H m x (nth_error_In _ _ Ej) Hx)].
Qed.
Print Assumptions C21_list_semantics.
Example C21_example :
  run [] [Init [Single 1; Multi 2 [3; 4]]%nat; Append 0 (Other 9); Append 0 (Single 5); SetSlice 0 0 1 (Multi 2 [3; 4]%nat); Slice 0 1 3; Add 0 1]
  = [[Single 3; Single 4; Multi 2 [3; 4]; Single 5]; [Single 4; Multi 2 [3; 4]]; [Single 3; Single 4; Multi 2 [3; 4]; Single 5; Single 4; Multi 2 [3; 4]]]%nat.
Proof. reflexivity. Qed.
(** Findings *)
Theorem C21_iadd_refuted : exists ops, ~ only_portfolios (run [] ops).
Proof. exists [Init []; IAdd 0 [Other 0]]. intros H. apply (H [Other 0] (Other 0)); cbn; auto. Qed.
Print Assumptions C21_iadd_refuted.
Theorem C21_extend_atomic_refuted : exists st o, snd (step st o) = true /\ fst (step st o) <> st.
Proof. exists [[]], (Extend 0 [Single 1; Other 2]). split; [reflexivity|discriminate]. Qed.
Print Assumptions C21_extend_atomic_refuted.

(** * C22 *)
Local Open Scope R_scope.
Lemma Rabs_le_inv a b : Rabs a <= b -> - b <= a <= b.
Proof. intros H. pose proof (Rle_abs a). pose proof (Rle_abs (- a)) as H1. rewrite Rabs_Ropp in H1. lra. Qed.
Section C22.
  Variable T : Type.
  Variable name : T -> string.
  Variable tag : T -> option string.
  Variable key : T -> R.
  Local Notation sorted := (sorted T key).
  Local Notation insert_sorted := (insert_sorted T key).
  Local Notation sort_measure := (sort_measure T key).
  Local Notation quantile := (quantile T key).

  Lemma insert_perm x l : Permutation (x :: l) (insert_sorted x l).
  Proof. induction l as [|y l IH]; cbn; [auto|]. destruct (Rle_dec _ _); [auto|]. rewrite perm_swap. constructor. exact IH. Qed.
  Lemma sorted_perm l : Permutation l (sorted l).
  Proof. induction l as [|x l IH]; cbn; [constructor|]. etransitivity; [constructor; exact IH|apply insert_perm]. Qed.
  Lemma insert_sorted_ok x l : StronglySorted (fun a b => key a <= key b) l -> StronglySorted (fun a b => key a <= key b) (insert_sorted x l).
  Proof.
    induction 1 as [|y l Hl IH Hy]; cbn; [repeat constructor|]. rewrite Forall_forall in Hy.
    destruct (Rle_dec (key x) (key y)).
    - constructor; [constructor; auto; rewrite Forall_forall; auto|]. constructor; auto. rewrite Forall_forall. intros z Hz. specialize (Hy z Hz). lra.
    - constructor; auto. rewrite Forall_forall. intros z Hz. apply (Permutation_in _ (Permutation_sym (insert_perm x l))) in Hz as [<-|Hz]; [lra|auto].
  Qed.
  Lemma sorted_sorted l : StronglySorted (fun a b => key a <= key b) (sorted l).
  Proof. induction l; cbn; [constructor|apply insert_sorted_ok; auto]. Qed.
  Lemma insert_stable f x l : (forall a b, f a = true -> f b = true -> key a = key b) ->
    filter f (insert_sorted x l) = filter f (x :: l).
  Proof.
    intros Hf. induction l as [|y l IH]; cbn; [reflexivity|]. destruct (Rle_dec (key x) (key y)) as [H|H]; [reflexivity|].
    cbn [filter]. rewrite IH. cbn [filter]. destruct (f x) eqn:Ex, (f y) eqn:Ey; try reflexivity.
    rewrite (Hf x y Ex Ey) in H. exfalso; lra.
  Qed.
  Lemma sorted_stable f l : (forall a b, f a = true -> f b = true -> key a = key b) -> filter f (sorted l) = filter f l.
  Proof.
    intros Hf. induction l as [|x l IH]; [reflexivity|]. cbn [PopulationModel.sorted fold_right]. change (fold_right insert_sorted [] l) with (sorted l).
    rewrite insert_stable by auto. cbn. rewrite IH. reflexivity.
  Qed.
  Lemma filter_rev {B} (f : B -> bool) l : filter f (rev l) = rev (filter f l).
  Proof. induction l as [|x l IH]; cbn; [reflexivity|]. rewrite filter_app, IH. cbn. destruct (f x); cbn; [reflexivity|rewrite app_nil_r; reflexivity]. Qed.
  Lemma StronglySorted_app {B} (r : B -> B -> Prop) l1 l2 : StronglySorted r l1 -> StronglySorted r l2 ->
    (forall x y, In x l1 -> In y l2 -> r x y) -> StronglySorted r (l1 ++ l2).
  Proof.
    induction 1 as [|x l H IH Hx]; intros H2 H3; cbn; [auto|]. constructor.
    - apply IH; auto. intros; apply H3; cbn; auto.
    - apply Forall_app. split; [auto|]. apply Forall_forall. intros; apply H3; cbn; auto.
  Qed.
  Lemma StronglySorted_rev {B} (r : B -> B -> Prop) l : StronglySorted r l -> StronglySorted (fun a b => r b a) (rev l).
  Proof.
    induction 1 as [|x l H IH Hx]; cbn; [constructor|]. apply StronglySorted_app; [auto|repeat constructor|].
    intros a b Ha [<-|[]]. rewrite Forall_forall in Hx. apply Hx. apply in_rev; auto.
  Qed.
  (** sort_measure returns the same portfolios, in increasing (decreasing) order of the measure, ties in their
      original order *)
  Theorem C22_sort_measure : forall pop,
    (Permutation pop (sort_measure pop false) /\ StronglySorted (fun a b => key a <= key b) (sort_measure pop false))
    /\ (Permutation pop (sort_measure pop true) /\ StronglySorted (fun a b => key a >= key b) (sort_measure pop true))
    /\ (forall reverse f, (forall a b, f a = true -> f b = true -> key a = key b) ->
          filter f (sort_measure pop reverse) = filter f pop).
  Proof.
    intros pop. repeat split.
    - apply sorted_perm.
    - apply sorted_sorted.
    - cbn. rewrite <- Permutation_rev, <- sorted_perm. apply Permutation_rev.
    - cbn. pose proof (StronglySorted_rev _ _ (sorted_sorted (rev pop))) as H. 
      clear -H. induction H as [|x l H IH Hx]; constructor; auto. rewrite Forall_forall in *. intros y Hy. apply Rle_ge. apply Hx; auto.
    - intros [|] f Hf; cbn.
      + rewrite filter_rev, sorted_stable by auto. rewrite filter_rev, rev_involutive. reflexivity.
      + apply sorted_stable; auto.
  Qed.

  (** rounding: within one half *)
  Lemma round_near x : Rabs (IZR (round_half_even x) - x) <= / 2.
  Proof.
    unfold round_half_even. destruct (base_fp x) as [H1 H2]. unfold frac_part in *.
    destruct (Rlt_dec _ _); [apply Rabs_le; lra|]. destruct (Rlt_dec _ _); [rewrite plus_IZR; apply Rabs_le; lra|].
    destruct (Z.even _); [apply Rabs_le; lra|rewrite plus_IZR; apply Rabs_le; lra].
  Qed.
  Lemma Int_part_mono x y : x <= y -> (Int_part x <= Int_part y)%Z.
  Proof.
    intros H. destruct (base_Int_part x), (base_Int_part y). apply Znot_gt_le. intros Hc.
    assert (IZR (Int_part y) + 1 <= IZR (Int_part x)) by (rewrite <- plus_IZR; apply IZR_le; lia). lra.
  Qed.
  Lemma round_mono x y : x <= y -> (round_half_even x <= round_half_even y)%Z.
  Proof.
    intros H. pose proof (Int_part_mono x y H) as HI. unfold round_half_even.
    destruct (base_fp x), (base_fp y).
    destruct (Z.eq_dec (Int_part x) (Int_part y)) as [E|E].
    - rewrite <- E. assert (frac_part x <= frac_part y) by (unfold frac_part; rewrite E; lra).
      repeat (match goal with |- context[Rlt_dec ?a ?b] => destruct (Rlt_dec a b) end; try lra); destruct (Z.even (Int_part x)); lia.
    - repeat (match goal with |- context[Rlt_dec ?a ?b] => destruct (Rlt_dec a b) end); destruct (Z.even (Int_part x)), (Z.even (Int_part y)); lia.
  Qed.
  Lemma round_INR n : round_half_even (INR n) = Z.of_nat n.
  Proof.
    pose proof (round_near (INR n)) as H. rewrite INR_IZR_INZ in *. apply Rabs_le_inv in H. rewrite <- minus_IZR in H.
    assert (IZR (round_half_even (IZR (Z.of_nat n)) - Z.of_nat n) < 1) by lra.
    assert (-1 < IZR (round_half_even (IZR (Z.of_nat n)) - Z.of_nat n)) by lra.
    apply lt_IZR in H0. apply lt_IZR in H1. lia.
  Qed.
  Definition rank n q := Z.to_nat (Z.max 0 (round_half_even (INR n * q) - 1)).
  Lemma rank_lt n q : (0 < n)%nat -> 0 <= q <= 1 -> (rank n q < n)%nat.
  Proof.
    intros Hn Hq. unfold rank. pose proof (pos_INR n).
    assert (Hr: (round_half_even (INR n * q) <= Z.of_nat n)%Z) by (rewrite <- round_INR; apply round_mono; nra). lia.
  Qed.
  Lemma quantile_eq pop q : 0 <= q <= 1 -> quantile pop q = nth_error (sort_measure pop false) (rank (length pop) q).
  Proof.
    intros Hq. unfold PopulationModel.quantile. destruct (Rle_dec 0 q); [|lra]. destruct (Rle_dec q 1); [|lra].
    unfold rank. rewrite <- (Permutation_length (proj1 (proj1 (C22_sort_measure pop)))). reflexivity.
  Qed.
  Lemma sorted_nth l i j x y : StronglySorted (fun a b => key a <= key b) l -> (i <= j)%nat -> nth_error l i = Some x -> nth_error l j = Some y -> key x <= key y.
  Proof.
    intros H; revert i j; induction H as [|z l H IH Hz]; intros i j Hij Hx Hy; [destruct i; discriminate|].
    destruct i, j; cbn in *; try lia.
    - inversion Hx; inversion Hy; subst. lra.
    - inversion Hx; subst. rewrite Forall_forall in Hz. apply Hz. eapply nth_error_In; eauto.
    - eapply (IH i j); eauto; lia.
  Qed.
  (** quantile returns a portfolio exactly when q is in [0, 1] and the population is not empty; the portfolio is
      in the population; at position k of the sorted population, with k + 1 within 1/2 of n q (or k = 0) *)
  Theorem C22_quantile : forall pop q,
    (quantile pop q <> None <-> 0 <= q <= 1 /\ pop <> [])
    /\ forall p, quantile pop q = Some p ->
         In p pop /\ exists k, nth_error (sort_measure pop false) k = Some p
                       /\ (Rabs (INR k + 1 - INR (length pop) * q) <= / 2 \/ k = 0%nat /\ INR (length pop) * q <= / 2).
  Proof.
    intros pop q. pose proof (proj1 (proj1 (C22_sort_measure pop))) as HP. split.
    - split.
      + intros H. assert (Hq: 0 <= q <= 1) by (unfold PopulationModel.quantile in H; destruct (Rle_dec 0 q); [|congruence]; destruct (Rle_dec q 1); [lra|congruence]).
        split; [exact Hq|]. intros ->. rewrite quantile_eq in H by auto. apply H. destruct (rank _ _); reflexivity.
      + intros [Hq Hp]. rewrite quantile_eq by auto. apply nth_error_Some. rewrite <- (Permutation_length HP). apply rank_lt; [|auto].
        destruct pop; [congruence|cbn; lia].
    - intros p Hp. assert (Hq: 0 <= q <= 1) by (unfold PopulationModel.quantile in Hp; destruct (Rle_dec 0 q); [|congruence]; destruct (Rle_dec q 1); [lra|congruence]).
      rewrite quantile_eq in Hp by auto. split; [eapply Permutation_in; [symmetry; exact HP|eapply nth_error_In; eauto]|].
      exists (rank (length pop) q). split; [exact Hp|]. pose proof (round_near (INR (length pop) * q)) as Hr. unfold rank.
      destruct (Z_le_gt_dec (round_half_even (INR (length pop) * q)) 0) as [H0|H0].
      + right. rewrite Z.max_l by lia. split; [reflexivity|]. apply Rabs_le_inv in Hr. apply IZR_le in H0. lra.
      + left. rewrite Z.max_r by lia. rewrite INR_IZR_INZ, Z2Nat.id by lia. rewrite minus_IZR. ring_simplify (IZR (round_half_even (INR (length pop) * q)) - 1 + 1 - INR (length pop) * q). 
        exact Hr.
  Qed.
  (** the quantile is monotone in q *)
  Theorem C22_quantile_monotone : forall pop q q' p p',
    q <= q' -> quantile pop q = Some p -> quantile pop q' = Some p' -> key p <= key p'.
  Proof.
    intros pop q q' p p' Hqq Hp Hp'.
    assert (Hq: 0 <= q <= 1) by (unfold PopulationModel.quantile in Hp; destruct (Rle_dec 0 q); [|congruence]; destruct (Rle_dec q 1); [lra|congruence]).
    assert (Hq': 0 <= q' <= 1) by (unfold PopulationModel.quantile in Hp'; destruct (Rle_dec 0 q'); [|congruence]; destruct (Rle_dec q' 1); [lra|congruence]).
    rewrite quantile_eq in Hp, Hp' by auto. eapply sorted_nth; [| |exact Hp|exact Hp'].
    - apply sorted_sorted.
    - unfold rank. pose proof (pos_INR (length pop)). assert (round_half_even (INR (length pop) * q) <= round_half_even (INR (length pop) * q'))%Z by (apply round_mono; nra). lia.
  Qed.
  (** min_measure and max_measure *)
  Theorem C22_min_max : forall pop, pop <> [] ->
    (exists p, min_measure T key pop = Some p /\ In p pop /\ forall x, In x pop -> key p <= key x)
    /\ (exists p, max_measure T key pop = Some p /\ In p pop /\ forall x, In x pop -> key x <= key p).
  Proof.
    intros pop Hp. pose proof (proj1 (proj1 (C22_sort_measure pop))) as HP.
    assert (Hn: (0 < length pop)%nat) by (destruct pop; [congruence|cbn; lia]).
    assert (R0: rank (length pop) 0 = 0%nat).
    { unfold rank. rewrite Rmult_0_r. change 0 with (INR 0) at 1. rewrite round_INR. reflexivity. }
    assert (R1: rank (length pop) 1 = (length pop - 1)%nat) by (unfold rank; rewrite Rmult_1_r, round_INR; lia).
    assert (G: forall q, 0 <= q <= 1 -> exists p, quantile pop q = Some p /\ In p pop).
    { intros q Hq. destruct (quantile pop q) as [p|] eqn:E.
      - exists p. split; [reflexivity|]. apply (proj2 (C22_quantile pop q) p E).
      - exfalso. apply (proj2 (proj1 (C22_quantile pop q))) in E; auto. }
    split.
    - destruct (G 0 ltac:(lra)) as (p&E&Hin). exists p. split; [exact E|]. split; [exact Hin|]. intros x Hx.
      rewrite quantile_eq, R0 in E by lra. apply (Permutation_in _ HP) in Hx. apply In_nth_error in Hx as [j Hj].
      eapply (sorted_nth _ 0 j); eauto using sorted_sorted; lia.
    - destruct (G 1 ltac:(lra)) as (p&E&Hin). exists p. split; [exact E|]. split; [exact Hin|]. intros x Hx.
      rewrite quantile_eq, R1 in E by lra. apply (Permutation_in _ HP) in Hx. apply In_nth_error in Hx as [j Hj].
      assert (j < length pop)%nat by (rewrite (Permutation_length HP); apply nth_error_Some; congruence).
      eapply (sorted_nth _ j (length pop - 1)); eauto using sorted_sorted; lia.
  Qed.

  (** names given as nothing, one name or several *)
  Definition allows (a : names_arg) (s : option string) : Prop :=
    match a with NoName => True | OneName t => s = Some t | Names l => exists t, s = Some t /\ In t l end.
  (** filter keeps exactly, and in order, the portfolios whose name and tag are asked for *)
  Theorem C22_filter : forall pop names tags,
    exists keep, (forall p, keep p = true <-> allows names (Some (name p)) /\ allows tags (tag p))
      /\ filter_population T name tag pop names tags = filter keep pop.
  Proof.
    assert (M: forall s l, mem s l = true <-> In s l).
    { intros s l. unfold mem. rewrite existsb_exists. split; [intros (x&Hx&E); apply String.eqb_eq in E; subst; auto|intros H; exists s; split; [auto|apply String.eqb_refl]]. }
    assert (A: forall a l, as_list a = Some l -> forall s, mem_tag s l = true <-> allows a s).
    { intros [|t|l'] l E s; inversion E; subst; destruct s as [s|]; cbn [mem_tag allows].
      - rewrite M. cbn. split; [intros [->|[]]; auto|intros H; inversion H; auto].
      - split; discriminate.
      - rewrite M. split; [intros H; exists s; auto|intros (t&H&Hi); inversion H; subst; auto].
      - split; [discriminate|intros (t&H&_); discriminate]. }
    assert (N: forall a, as_list a = None -> a = NoName) by (intros [|t|l] H; [auto|discriminate|discriminate]).
    intros pop names tags. unfold filter_population.
    destruct (as_list names) as [ns|] eqn:En, (as_list tags) as [ts|] eqn:Et.
    - eexists. split; [|reflexivity]. intros p. cbn. rewrite andb_true_iff. rewrite (A tags ts Et). rewrite <- (A names ns En). reflexivity.
    - eexists. split; [|reflexivity]. intros p. cbn. rewrite (N _ Et). rewrite <- (A names ns En). cbn. tauto.
    - eexists. split; [|reflexivity]. intros p. cbn. rewrite (N _ En). rewrite (A tags ts Et). cbn. tauto.
    - exists (fun _ => true). rewrite (N _ En), (N _ Et). split; [cbn; tauto|]. clear. induction pop; cbn; [reflexivity|congruence].
  Qed.
End C22.
Print Assumptions C22_sort_measure.
Print Assumptions C22_quantile.
Print Assumptions C22_quantile_monotone.
Print Assumptions C22_min_max.
Print Assumptions C22_filter.
Example C22_example : exists p, quantile R (fun x => x) [3; 1; 2] (1 / 2) = Some p /\ p = 2.
Proof.
  exists 2. split; [|reflexivity]. rewrite quantile_eq by lra. unfold rank. cbn [length].
  assert (E: round_half_even (INR 3 * (1 / 2)) = 2%Z).
  { unfold round_half_even, frac_part. assert (Int_part (INR 3 * (1/2)) = 1%Z) as ->.
    { unfold Int_part. rewrite <- (tech_up (INR 3 * (1/2)) 2); cbn; try lra; reflexivity. } cbn [INR]. destruct (Rlt_dec _ _); [lra|]. destruct (Rlt_dec _ _); [lra|]. reflexivity. }
  rewrite E. cbn. repeat (destruct (Rle_dec _ _); try lra; cbn); reflexivity.
Qed.
