(** C80: the composition tables, the weights per observation and the figures derived from the weights of a
    portfolio agree with its weights and returns. *)
From Coq Require Import Reals String List Bool ZArith Lia Lra Permutation Sorted.
From Verif Require Import RList MeasuresModel ToolsModel ReportModel.
Import ListNotations.
Local Open Scope R_scope.

(** * Specification *)

(** asset [a] has weight [w] in the portfolio *)
Definition holds (p : portfolio) (a : string) (w : R) : Prop :=
  exists i, nth_error (assets p) i = Some a /\ nth_error (weights p) i = Some w.

(** and it is more than 0.001% in absolute value *)
Definition invested_in (p : portfolio) (a : string) (w : R) : Prop := holds p a w /\ 1 / 100000 < Rabs w.

(** the value shown for an asset: its weight if it is invested in, zero otherwise *)
Definition reported (p : portfolio) (a : string) (v : R) : Prop :=
  invested_in p a v \/ (v = 0 /\ forall w, ~ invested_in p a w).

Definition shown (p : portfolio) (a : string) (c : option R) : Prop := exists v, c = Some v /\ reported p a v.

Record well_formed (p : portfolio) : Prop := {
  wf_weights : List.length (weights p) = List.length (assets p);
  wf_assets : NoDup (assets p);
  wf_rows : List.length (data p) = List.length (observations p);
  wf_data : forall row, In row (data p) -> List.length row = List.length (assets p)
}.

Definition sorts_descending (sort : list (string * R) -> list (string * R)) : Prop :=
  forall l, Permutation (sort l) l /\ StronglySorted (fun x y => snd y <= snd x) (sort l).
Definition sorts_by_index (sort : list (Z * list (option R)) -> list (Z * list (option R))) : Prop :=
  forall l, Permutation (sort l) l /\ StronglySorted (fun x y => (fst x <= fst y)%Z) (sort l).

(** sample mean and covariance of two series *)
Definition sample_mean (x : list R) : R := rsum x / INR (List.length x).
Definition sample_covariance (x y : list R) : R :=
  rsum (map (fun ab => (fst ab - sample_mean x) * (snd ab - sample_mean y)) (combine x y)) / (INR (List.length x) - 1).

(** * Lists *)

Lemma nonzero_spec p a w : In (a, w) (nonzero p) <-> invested_in p a w.
Proof.
  unfold nonzero, invested_in, holds, invested. rewrite filter_In. cbn [snd].
  assert (E : In (a, w) (combine (assets p) (weights p)) <-> exists i, nth_error (assets p) i = Some a /\ nth_error (weights p) i = Some w).
  { generalize (weights p). induction (assets p) as [|b l IH]; intros ws.
    - cbn. split; [tauto|]. intros ([|i] & H & _); discriminate.
    - destruct ws as [|v ws].
      + cbn. split; [tauto|]. intros ([|i] & _ & H); discriminate.
      + cbn [combine]. cbn [In]. rewrite IH. split.
        * intros [[= -> ->]|(i & H1 & H2)]; [exists 0%nat; auto|exists (S i); auto].
        * intros ([|i] & H1 & H2); cbn in *; [left; congruence|right; eauto]. }
  rewrite E. destruct (Rlt_dec (1 / 100000) (Rabs w)); intuition congruence.
Qed.

Lemma filter_fst_nodup (f : string * R -> bool) l : NoDup (map fst l) -> NoDup (map fst (filter f l)).
Proof.
  induction l as [|x l IH]; intros H; cbn; auto. inversion H; subst. destruct (f x); auto. cbn. constructor; auto.
  intros C. apply H2. apply in_map_iff in C as (y & E & C). apply filter_In in C as [C _]. rewrite <- E. now apply in_map.
Qed.

Lemma combine_fst_nodup {A B} (l : list A) (m : list B) : NoDup l -> NoDup (map fst (combine l m)).
Proof.
  revert m. induction l as [|x l IH]; intros [|y m] H; cbn; try constructor; inversion H; subst; auto.
  intros C. apply H2. apply in_map_iff in C as ([u v] & E & C). apply in_combine_l in C. cbn in E. congruence.
Qed.

Lemma nonzero_nodup p : NoDup (assets p) -> NoDup (map fst (nonzero p)).
Proof. intros H. apply filter_fst_nodup, combine_fst_nodup, H. Qed.

Lemma unique_spec {L} (eqb : L -> L -> bool) (He : forall x y, eqb x y = true <-> x = y) l : forall seen,
  NoDup (unique eqb seen l) /\ forall x, In x (unique eqb seen l) <-> In x l /\ ~ In x seen.
Proof.
  assert (Hs : forall x s, existsb (eqb x) s = true <-> In x s).
  { intros x s. rewrite existsb_exists. split; [intros (y & H & E); apply He in E; subst; auto|intros H; exists x; split; auto; now apply He]. }
  induction l as [|x l IH]; intros seen; cbn [unique].
  - split; [constructor|]. cbn. tauto.
  - destruct (existsb (eqb x) seen) eqn:E.
    + apply Hs in E. destruct (IH seen) as [A B]. split; auto. intros y. rewrite B. cbn. intuition (subst; tauto).
    + assert (N : ~ In x seen) by (rewrite <- Hs; congruence). destruct (IH (x :: seen)) as [A B]. split.
      * constructor; auto. rewrite B. cbn. tauto.
      * intros y. cbn. rewrite B. cbn. split; [intuition (subst; tauto)|].
        intros [[->|H] H2]; [now left|]. destruct (existsb (eqb y) [x]) eqn:F.
        -- apply Hs in F. cbn in F. tauto.
        -- right. split; auto. intros [->|]; [|tauto]. cbn in F. rewrite orb_false_r in F.
           assert (eqb y y = true) by now apply He. congruence.
Qed.

Lemma row_of_in {L} (eqb : L -> L -> bool) (He : forall x y, eqb x y = true <-> x = y) (f : frame L) a r :
  NoDup (map fst (rows f)) -> In (a, r) (rows f) -> row_of eqb f a = r.
Proof.
  intros N H. unfold row_of. destruct (find _ (rows f)) as [[b s]|] eqn:F.
  - apply find_some in F as [F E]. cbn in E. apply He in E. subst b. cbn.
    revert N H F. generalize (rows f). induction l as [|[u v] l IH]; cbn; [tauto|]. intros N H F. inversion N; subst.
    destruct H as [H|H]; destruct F as [F|F]; try congruence; auto.
    + exfalso. apply H2. injection H as -> ->. apply in_map_iff. exists (a, s). auto.
    + exfalso. apply H2. injection F as -> ->. apply in_map_iff. exists (a, r). auto.
  - exfalso. apply (find_none _ _ F) in H. cbn in H. assert (eqb a a = true) by now apply He. congruence.
Qed.

Lemma row_of_out {L} (eqb : L -> L -> bool) (He : forall x y, eqb x y = true <-> x = y) (f : frame L) a :
  ~ In a (map fst (rows f)) -> row_of eqb f a = repeat None (List.length (columns f)).
Proof.
  intros N. unfold row_of. destruct (find _ (rows f)) as [[b s]|] eqn:F; auto.
  apply find_some in F as [F E]. cbn in E. apply He in E. subst b. exfalso. apply N. apply in_map_iff. exists (a, s). auto.
Qed.

Lemma string_eqb x y : String.eqb x y = true <-> x = y.
Proof. apply String.eqb_eq. Qed.

(** * Compositions *)

Section Proofs.
Variable sort_values : list (string * R) -> list (string * R).
Variable sort_index : list (Z * list (option R)) -> list (Z * list (option R)).
Hypothesis Hv : sorts_descending sort_values.
Hypothesis Hi : sorts_by_index sort_index.

Lemma comp_rows p : NoDup (assets p) ->
  NoDup (map fst (rows (composition sort_values p))) /\
  (forall a r, In (a, r) (rows (composition sort_values p)) <-> exists w, r = [Some w] /\ invested_in p a w).
Proof.
  intros H. destruct (Hv (nonzero p)) as [P _]. cbn [composition rows]. split.
  - rewrite map_map. cbn [fst]. apply (Permutation_NoDup (l := map fst (nonzero p))).
    + apply Permutation_map, Permutation_sym, P.
    + now apply nonzero_nodup.
  - intros a r. rewrite in_map_iff. split.
    + intros ([b w] & [= <- <-] & I). exists w. split; auto. apply nonzero_spec. cbn. eapply Permutation_in; eauto.
    + intros (w & -> & I). exists (a, w). split; auto. apply nonzero_spec in I. eapply Permutation_in; [apply Permutation_sym|]; eauto.
Qed.

(** a frame shows, for each of the portfolios [ps], in this order, the reported weights *)
Definition shows (ps : list portfolio) (f : frame string) : Prop :=
  NoDup (map fst (rows f)) /\
  (forall a, In a (map fst (rows f)) <-> exists p w, In p ps /\ invested_in p a w) /\
  (forall a r, In (a, r) (rows f) -> Forall2 (fun p c => shown p a (fill c)) ps r) /\
  List.length (columns f) = List.length ps.

Lemma shows_composition p : NoDup (assets p) -> shows [p] (composition sort_values p).
Proof.
  intros H. destruct (comp_rows p H) as [N S]. split; [exact N|]. split; [|split; [|reflexivity]].
  - intros a. rewrite in_map_iff. split.
    + intros ([b r] & <- & I). apply S in I as (w & _ & I). exists p, w. cbn. auto.
    + intros (q & w & [<-|[]] & I). exists (a, [Some w]). split; auto. apply S. eauto.
  - intros a r I. apply S in I as (w & -> & I). constructor; [|constructor]. exists w. cbn. split; auto. now left.
Qed.

Lemma shown_missing a ps k : (forall p w, In p ps -> ~ invested_in p a w) -> k = List.length ps ->
  Forall2 (fun p c => shown p a (fill c)) ps (repeat None k).
Proof.
  intros H ->. induction ps as [|p ps IH]; cbn; constructor.
  - exists 0. split; auto. right. split; auto. intros w. apply H. now left.
  - apply IH. intros q w Hq. apply H. now right.
Qed.

Lemma shows_concat pss fs : Forall2 shows pss fs -> shows (List.concat pss) (concat_columns String.eqb fs).
Proof.
  intros F. unfold concat_columns. set (idx := unique _ _ _). destruct (unique_spec String.eqb string_eqb (flat_map (fun f => map fst (rows f)) fs) []) as [N U].
  fold idx in N, U. split; cbn [rows columns].
  { rewrite map_map. cbn [fst]. rewrite map_id. exact N. }
  split; [|split].
  - intros a. rewrite map_map. cbn [fst]. rewrite map_id, U. cbn [In].
    assert (E : In a (flat_map (fun f => map fst (rows f)) fs) <-> exists p w, In p (List.concat pss) /\ invested_in p a w).
    { clear N U idx. induction F as [|ps f pss fs S F IH]; cbn; [split; [tauto|intros (p & w & [] & _)]|].
      rewrite in_app_iff, IH. destruct S as (_ & S & _). rewrite S. split.
      - intros [(p & w & I & J)|(p & w & I & J)]; exists p, w; rewrite in_app_iff; auto.
      - intros (p & w & I & J). rewrite in_app_iff in I. destruct I; [left|right]; eauto. }
    rewrite E. tauto.
  - intros a r I. apply in_map_iff in I as (b & [= <- <-] & I). clear I N U idx.
    induction F as [|ps f pss fs S F IH]; cbn; [constructor|]. apply Forall2_app; [|exact IH].
    destruct S as (N & S1 & S2 & S3). destruct (in_dec string_dec b (map fst (rows f))) as [I|I].
    + apply in_map_iff in I as ([c r] & E & I). cbn in E. subst c. rewrite (row_of_in _ string_eqb f b r); auto.
    + rewrite (row_of_out _ string_eqb f b) by auto. apply shown_missing; auto. intros p w Hp C. apply I, S1. eauto.
  - clear N U idx. induction F as [|ps f pss fs S F IH]; cbn; auto. rewrite !app_length, IH. destruct S as (_ & _ & _ & ->). reflexivity.
Qed.

Lemma shows_fillna ps f : shows ps f -> shows ps (fillna f).
Proof.
  intros (N & A & B & C). unfold shows. cbn [fillna rows columns].
  assert (M : map fst (map (fun r : string * list (option R) => (fst r, map fill (snd r))) (rows f)) = map fst (rows f)) by (rewrite map_map; reflexivity).
  rewrite M. split; [exact N|]. split; [exact A|]. split; [|exact C].
  intros a r I. apply in_map_iff in I as ([b s] & [= <- <-] & I). apply B in I.
  clear -I. induction I as [|p c ps' r' H I IH]; cbn; constructor; auto.
  destruct c; exact H.
Qed.

Lemma shows_renamed ps f l : List.length l = List.length (columns f) -> shows ps f -> shows ps (with_columns f l).
Proof. intros E (N & A & B & C). unfold shows. cbn. rewrite E. auto. Qed.

Lemma fillna_filled f a r c : In (a, r) (rows (@fillna string f)) -> In c r -> fill c = c.
Proof.
  intros I J. cbn in I. apply in_map_iff in I as (x & [= <- <-] & _). apply in_map_iff in J as (y & <- & _). destruct y; reflexivity.
Qed.

Lemma dedup_len l : List.length (deduplicate_names l) = List.length l.
Proof. unfold deduplicate_names. generalize (@nil (string * nat)). induction l; intros c; cbn; auto. Qed.

Lemma forall2_filled ps a r : (forall c, In c r -> fill c = c) -> Forall2 (fun p c => shown p a (fill c)) ps r -> Forall2 (fun p c => shown p a c) ps r.
Proof.
  intros H F. induction F as [|p c ps r S F IH]; constructor.
  - rewrite <- (H c) by now left. exact S.
  - apply IH. intros d D. apply H. now right.
Qed.

Lemma multi_shows ps : ps <> [] -> (forall p, In p ps -> NoDup (assets p)) ->
  exists f, multi_composition sort_values ps = Some f /\ columns f = deduplicate_names (map name ps) /\
    shows ps f /\ (forall a r c, In (a, r) (rows f) -> In c r -> fill c = c).
Proof.
  intros Hn Hp. unfold multi_composition. destruct ps as [|p0 ps0] eqn:E; [congruence|]. cbn [objects]. rewrite <- E in *. clear E p0 ps0.
  eexists. split; [reflexivity|]. cbn [with_columns columns fillna concat_columns].
  assert (C : flat_map columns (map (composition sort_values) ps) = map name ps).
  { clear. induction ps; cbn; f_equal; auto. }
  rewrite C. split; [reflexivity|]. split.
  - apply (shows_renamed ps (fillna (concat_columns String.eqb (map (composition sort_values) ps)))).
    + cbn. rewrite C. apply dedup_len.
    + apply shows_fillna. replace ps with (List.concat (map (fun p => [p]) ps)) at 1 by (clear; induction ps; cbn; f_equal; auto).
      apply shows_concat. clear Hn C. induction ps as [|p ps IH]; cbn; constructor.
      * apply shows_composition. apply Hp. now left.
      * apply IH. intros q Hq. apply Hp. now right.
  - intros a r c I J. eapply (fillna_filled (concat_columns String.eqb (map (composition sort_values) ps))); eauto.
Qed.

(** ** Weights per observation *)

Lemma cell_spec p c : NoDup (assets p) ->
  shown p c (fill (cell (map fst (nonzero p)) (map (fun aw => Some (1 * snd aw)) (nonzero p)) c)).
Proof.
  intros H. assert (N := nonzero_nodup p H). unfold cell.
  destruct (find _ _) as [[a v]|] eqn:F.
  - apply find_some in F as [F E]. cbn in E. apply String.eqb_eq in E. subst a. cbn [snd].
    assert (exists w, v = Some w /\ In (c, w) (nonzero p)).
    { clear N. revert F. generalize (nonzero p). induction l as [|[b w] l IH]; cbn; [tauto|].
      intros [[= -> <-]|F]; [exists w; split; [f_equal; ring|auto]|]. destruct (IH F) as (u & -> & I). eauto. }
    destruct H0 as (w & -> & I). exists w. cbn. split; auto. left. now apply nonzero_spec.
  - exists 0. split; auto. right. split; auto. intros w C. apply nonzero_spec in C.
    assert (I : In (c, Some (1 * w)) (combine (map fst (nonzero p)) (map (fun aw => Some (1 * snd aw)) (nonzero p)))).
    { revert C. generalize (nonzero p). clear. induction l as [|[b u] l IH]; cbn; [tauto|]. intros [[= -> ->]|C]; auto. }
    apply (find_none _ _ F) in I. cbn in I. rewrite String.eqb_refl in I. discriminate.
Qed.

Lemma Forall2_map_r {A B C} (P : A -> C -> Prop) (g : B -> C) l m :
  Forall2 (fun a b => P a (g b)) l m -> Forall2 P l (map g m).
Proof. induction 1; cbn; constructor; auto. Qed.
Lemma Forall2_same {A} (P : A -> A -> Prop) l : (forall x, In x l -> P x x) -> Forall2 P l l.
Proof. induction l; intros H; constructor; [apply H; now left|apply IHl; intros; apply H; now right]. Qed.

Lemma Forall2_perm {A B} (P : A -> B -> Prop) l m m' : Forall2 P l m -> Permutation m m' ->
  exists l', Permutation l l' /\ Forall2 P l' m'.
Proof.
  intros F Q. revert l F. induction Q; intros l0 F.
  - inversion F; subst. exists []. auto.
  - inversion F as [|a ? l1 ? Pa F1]; subst. destruct (IHQ _ F1) as (l3 & Q1 & F2). exists (a :: l3). split; auto.
  - inversion F as [|a ? l1 ? Pa F1]; subst. inversion F1 as [|b ? l2 ? Pb F2]; subst. exists (b :: a :: l2). split; [apply perm_swap|auto].
  - destruct (IHQ1 _ F) as (l3 & R1 & F1). destruct (IHQ2 _ F1) as (l4 & R2 & F2). exists l4. split; auto. now transitivity l3.
Qed.

(** * C80 *)

(** The composition of a portfolio lists exactly its assets with more than 0.001% and their weights, largest first. *)
Theorem C80_composition : forall p, NoDup (assets p) ->
  columns (composition sort_values p) = [name p] /\
  exists l, rows (composition sort_values p) = map (fun aw => (fst aw, [Some (snd aw)])) l /\
    NoDup (map fst l) /\ (forall a w, In (a, w) l <-> invested_in p a w) /\
    StronglySorted (fun x y => snd y <= snd x) l.
Proof.
  intros p H. split; [reflexivity|]. exists (sort_values (nonzero p)). destruct (Hv (nonzero p)) as [P S].
  split; [reflexivity|]. split; [|split; [|exact S]].
  - apply (Permutation_NoDup (l := map fst (nonzero p))); [apply Permutation_map, Permutation_sym, P|now apply nonzero_nodup].
  - intros a w. rewrite <- nonzero_spec. split; apply Permutation_in; [|apply Permutation_sym]; auto.
Qed.

(** The composition of a multi-period portfolio has one column per portfolio, in their order, and one row per asset
    that one of them is invested in, with zero where the portfolio is not. *)
Theorem C80_multi_period : forall ps, ps <> [] -> (forall p, In p ps -> NoDup (assets p)) ->
  exists f, multi_composition sort_values ps = Some f /\
    columns f = deduplicate_names (map name ps) /\
    NoDup (map fst (rows f)) /\
    (forall a, In a (map fst (rows f)) <-> exists p w, In p ps /\ invested_in p a w) /\
    (forall a r, In (a, r) (rows f) -> Forall2 (fun p c => shown p a c) ps r).
Proof.
  intros ps Hn Hp. destruct (multi_shows ps Hn Hp) as (f & E & C & (N & A & B & _) & F). exists f.
  split; [exact E|]. split; [exact C|]. split; [exact N|]. split; [exact A|].
  intros a r I. apply forall2_filled; [intros c; now apply (F a r)|]. now apply B.
Qed.

Definition portfolios_of (m : member) : list portfolio := match m with Single p => [p] | Multi _ ps => ps end.
Definition labels_of (display : bool) (m : member) : list string :=
  match m with
  | Single p => [name p]
  | Multi n ps => if display then map (fun c => n ++ "_" ++ c)%string (deduplicate_names (map name ps)) else map (fun _ => n) ps
  end.

(** The composition of a population has the columns of its members, in their order. *)
Theorem C80_population : forall display ms, ms <> [] ->
  (forall m, In m ms -> portfolios_of m <> [] /\ forall p, In p (portfolios_of m) -> NoDup (assets p)) ->
  exists f, population_composition sort_values display ms = Some f /\
    columns f = deduplicate_names (flat_map (labels_of display) ms) /\
    NoDup (map fst (rows f)) /\
    (forall a, In a (map fst (rows f)) <-> exists p w, In p (flat_map portfolios_of ms) /\ invested_in p a w) /\
    (forall a r, In (a, r) (rows f) -> Forall2 (fun p c => shown p a c) (flat_map portfolios_of ms) r).
Proof.
  intros d ms Hn Hm. unfold population_composition.
  assert (S : exists res, all_some (map (fun m => option_map (renamed d m) (member_composition sort_values m)) ms) = Some res /\
            Forall2 shows (map portfolios_of ms) res /\ flat_map columns res = flat_map (labels_of d) ms /\ List.length res = List.length ms).
  { clear Hn. induction ms as [|m ms IH]; cbn [map all_some]; [exists []; auto|].
    destruct IH as (res & E & F & C & L); [intros; apply Hm; now right|]. destruct (Hm m) as [Hp Hq]; [now left|].
    assert (S : exists f, option_map (renamed d m) (member_composition sort_values m) = Some f /\ shows (portfolios_of m) f /\ columns f = labels_of d m).
    { destruct m as [p|n ps]; cbn [member_composition portfolios_of] in *.
      - eexists. split; [reflexivity|]. assert (S := shows_composition p (Hq p (or_introl eq_refl))).
        destruct d; cbn [renamed labels_of]; [split; auto|]. split; [|reflexivity]. apply shows_renamed; auto.
      - destruct (multi_shows ps Hp Hq) as (f & -> & Cf & Sf & _). eexists. split; [reflexivity|].
        destruct d; cbn [renamed labels_of member_name]; (split; [apply shows_renamed; [now rewrite map_length|exact Sf]|]); cbn [with_columns columns]; rewrite Cf; auto.
        assert (LL := dedup_len (map name ps)). rewrite map_length in LL. revert LL. generalize (deduplicate_names (map name ps)). clear.
        induction ps; intros [|x l]; cbn; try discriminate; auto. intros [= H]. f_equal. auto. }
    destruct S as (f & -> & Sf & Cf). rewrite E. exists (f :: res). split; auto. split; [constructor; auto|]. cbn. rewrite C, Cf, L. auto. }
  destruct S as (res & -> & F & C & L). destruct res as [|f0 res0] eqn:Er; [destruct ms; [congruence|discriminate]|]. cbn [objects]. rewrite <- Er in *. clear Er f0 res0.
  eexists. split; [reflexivity|]. cbn [fillna with_columns concat_columns columns]. rewrite C. split; [reflexivity|].
  apply shows_concat in F.
  assert (S : shows (flat_map portfolios_of ms) (fillna (with_columns (concat_columns String.eqb res) (deduplicate_names (flat_map columns res))))).
  { apply shows_fillna, shows_renamed; [apply dedup_len|]. rewrite flat_map_concat_map. exact F. }
  rewrite C in S. assert (FF := fillna_filled (with_columns (concat_columns String.eqb res) (deduplicate_names (flat_map (labels_of d) ms)))).
  destruct S as (N & A & B & _). split; [exact N|]. split; [exact A|].
  intros a r I. apply forall2_filled; [intros c; now apply (FF a r)|]. now apply B.
Qed.

(** The weights per observation of a multi-period portfolio: for each portfolio and each of its observations one row,
    in the order of the observations, with the reported weight of each asset of a column. *)
Theorem C80_weights_per_observation : forall ps, ps <> [] -> (forall p, In p ps -> NoDup (assets p)) ->
  exists f l, multi_weights_per_observation sort_index ps = Some f /\
    NoDup (columns f) /\
    (forall a, In a (columns f) <-> exists p w, In p ps /\ invested_in p a w) /\
    Permutation l (flat_map (fun p => map (fun o => (p, o)) (observations p)) ps) /\
    Forall2 (fun po r => fst r = snd po /\ Forall2 (fun a c => shown (fst po) a c) (columns f) (snd r)) l (rows f) /\
    StronglySorted (fun x y => (fst x <= fst y)%Z) (rows f).
Proof.
  intros ps Hn Hp. unfold multi_weights_per_observation. destruct ps as [|p0 ps0] eqn:E; [congruence|]. cbn [objects]. rewrite <- E in *. clear E p0 ps0.
  set (df := fillna _). destruct (Hi (rows df)) as [P S].
  assert (F : Forall2 (fun po r => fst r = snd po /\ Forall2 (fun a c => shown (fst po) a c) (columns df) (snd r))
                (flat_map (fun p => map (fun o => (p, o)) (observations p)) ps) (rows df)).
  { unfold df. cbn [fillna concat_rows rows columns]. set (cols := unique _ _ _). clearbody cols. clear df P S.
    rewrite !flat_map_concat_map, concat_map, !map_map. clear Hn. induction ps as [|p ps IH]; cbn [map List.concat]; [constructor|].
    apply Forall2_app; [|apply IH; intros; apply Hp; now right]. cbn [weights_per_observation columns rows]. rewrite !map_map.
    induction (observations p) as [|o os IHo]; cbn [map]; constructor; [|exact IHo]. cbn [fst snd]. split; [reflexivity|].
    apply Forall2_map_r, Forall2_map_r, Forall2_same. intros c _. apply cell_spec. apply Hp. now left. }
  destruct (Forall2_perm _ _ _ _ F (Permutation_sym P)) as (l & Q & F').
  eexists. exists l. split; [reflexivity|]. cbn [columns rows].
  destruct (unique_spec String.eqb string_eqb (flat_map columns (map weights_per_observation ps)) []) as [N U].
  split; [exact N|]. split; [|split; [apply Permutation_sym, Q|split; [exact F'|exact S]]].
  intros a. change (columns df) with (unique String.eqb [] (flat_map columns (map weights_per_observation ps))). rewrite U. cbn [In].
  rewrite in_flat_map. split.
  - intros [(f & I & J) _]. apply in_map_iff in I as (p & <- & I). cbn in J. apply in_map_iff in J as ([b w] & <- & J). exists p, w. split; auto. now apply nonzero_spec.
  - intros (p & w & I & J). split; [|tauto]. exists (weights_per_observation p). split; [now apply in_map|]. cbn. apply in_map_iff. exists (a, w). split; auto. now apply nonzero_spec.
Qed.

(** Empty collections raise. *)
Theorem C80_empty : multi_composition sort_values [] = None /\ multi_weights_per_observation sort_index [] = None /\
  forall d, population_composition sort_values d [] = None.
Proof. repeat split. Qed.

(** Without [idx] the drawn table has, in the row of an observation, the cumulative return of each portfolio at this
    observation, and nothing for a portfolio without it. *)
Theorem C80_plotted : forall ps, ps <> [] ->
  (forall p, In p ps -> NoDup (observations p) /\ List.length (cumulative_returns p) = List.length (observations p)) ->
  exists f, plotted sort_index None ps = Some f /\
    columns f = deduplicate_names (map name ps) /\
    StronglySorted (fun x y => (fst x <= fst y)%Z) (rows f) /\ NoDup (map fst (rows f)) /\
    (forall o, In o (map fst (rows f)) <-> exists p, In p ps /\ In o (observations p)) /\
    (forall o r, In (o, r) (rows f) ->
      Forall2 (fun p c => forall v, c = Some v <-> exists i, nth_error (observations p) i = Some o /\ nth_error (cumulative_returns p) i = Some v) ps r).
Proof.
  intros ps Hn Hp. unfold plotted. destruct ps as [|p0 ps0] eqn:E; [congruence|]. cbn [objects]. rewrite <- E in *. clear E p0 ps0.
  set (df := concat_columns _ _).
  assert (L : List.length (columns df) = List.length ps).
  { unfold df. cbn. clear. induction ps; cbn; auto. }
  rewrite dedup_len, map_length, L, Nat.eqb_refl. destruct (Hi (rows df)) as [P S].
  eexists. split; [reflexivity|]. cbn [columns rows]. split; [reflexivity|]. split; [exact S|].
  assert (Z_eqb : forall x y, Z.eqb x y = true <-> x = y) by apply Z.eqb_eq.
  destruct (unique_spec Z.eqb Z_eqb (flat_map (fun f => map fst (rows f)) (map cumulative_returns_df ps)) []) as [N U].
  assert (M : map fst (rows df) = unique Z.eqb [] (flat_map (fun f => map fst (rows f)) (map cumulative_returns_df ps))).
  { unfold df. cbn. rewrite map_map. cbn. apply map_id. }
  assert (R1 : forall p, In p ps -> map fst (rows (cumulative_returns_df p)) = observations p).
  { intros p Hq. cbn. rewrite map_map. cbn [fst]. destruct (Hp p Hq) as [_ Le]. revert Le. generalize (cumulative_returns p). clear.
    induction (observations p); intros [|c cs]; cbn; try discriminate; auto. intros [= H]. f_equal. auto. }
  split; [apply (Permutation_NoDup (l := map fst (rows df))); [apply Permutation_map, Permutation_sym, P|rewrite M; exact N]|]. split.
  - intros o. transitivity (In o (map fst (rows df))).
    { split; apply Permutation_in, Permutation_map; [|apply Permutation_sym]; exact P. }
    rewrite M, U. cbn [In]. rewrite in_flat_map. split.
    + intros [(f & I & J) _]. apply in_map_iff in I as (p & <- & I). rewrite R1 in J by auto. eauto.
    + intros (p & I & J). split; [|tauto]. exists (cumulative_returns_df p). split; [now apply in_map|]. now rewrite R1.
  - intros o r I. apply (Permutation_in _ P) in I. unfold df in I. cbn in I. apply in_map_iff in I as (b & [= <- <-] & _).
    clear -Hp R1 Z_eqb. induction ps as [|p ps IH]; cbn; [constructor|].
    assert (One : exists c, row_of Z.eqb (cumulative_returns_df p) b = [c] /\ forall v, c = Some v <-> exists i, nth_error (observations p) i = Some b /\ nth_error (cumulative_returns p) i = Some v).
    { destruct (Hp p (or_introl eq_refl)) as [Nd Le].
      assert (Hin : forall v, In (b, [Some v]) (rows (cumulative_returns_df p)) <-> exists i, nth_error (observations p) i = Some b /\ nth_error (cumulative_returns p) i = Some v).
      { intros v. cbn. clear. generalize (cumulative_returns p). induction (observations p) as [|x l IHl]; intros cs.
        - cbn. split; [tauto|]. intros ([|i] & H & _); discriminate.
        - destruct cs as [|c cs]; cbn [combine map In].
          + split; [tauto|]. intros ([|i] & _ & H); discriminate.
          + assert (IHc : In (b, [Some v]) (map (fun oc : Z * R => (fst oc, [Some (snd oc)])) (combine l cs)) <-> exists i, nth_error l i = Some b /\ nth_error cs i = Some v).
            { apply IHl. }
            rewrite IHc. split.
            * intros [[= -> ->]|(i & H1 & H2)]; [exists 0%nat; auto|exists (S i); auto].
            * intros ([|i] & H1 & H2); cbn in *; [left; congruence|right; eauto]. }
      assert (Nr : NoDup (map fst (rows (cumulative_returns_df p)))) by (rewrite R1; [exact Nd|now left]).
      destruct (in_dec Z.eq_dec b (map fst (rows (cumulative_returns_df p)))) as [I|I].
      - apply in_map_iff in I as ([c r] & Ec & I). cbn in Ec. subst c. rewrite (row_of_in _ Z_eqb _ b r Nr I).
        assert (exists v, r = [Some v]) as [v ->]. { cbn in I. apply in_map_iff in I as ([x y] & [= <- <-] & _). eauto. }
        exists (Some v). split; [reflexivity|]. intros u. rewrite <- Hin. split; [intros [= ->]; exact I|].
        intros J. assert (Q1 := row_of_in _ Z_eqb _ b _ Nr I). assert (Q2 := row_of_in _ Z_eqb _ b _ Nr J). congruence.
      - exists None. rewrite (row_of_out _ Z_eqb _ b I). split; [reflexivity|]. intros v. rewrite <- Hin. split; [discriminate|].
        intros J. exfalso. apply I. apply in_map_iff. exists (b, [Some v]). auto. }
    destruct One as (c & -> & Hc). cbn. constructor; [exact Hc|]. apply IH; intros; [apply Hp|apply R1]; now right.
Qed.
End Proofs.
Print Assumptions C80_composition.
Print Assumptions C80_multi_period.
Print Assumptions C80_population.
Print Assumptions C80_weights_per_observation.
Print Assumptions C80_empty.
Print Assumptions C80_plotted.

(** The weight of an asset by its name; an unknown name raises. *)
Theorem C80_get_weight : forall p a, well_formed p ->
  (forall w, get_weight p a = Some w <-> holds p a w) /\ (get_weight p a = None <-> ~ In a (assets p)).
Proof.
  intros p a [Hl Hn _ _]. unfold get_weight, holds. revert Hl Hn. generalize (weights p).
  induction (assets p) as [|b l IH]; intros [|w ws] Hl Hn; cbn in Hl; try discriminate.
  - cbn. split; [|tauto]. intros w. split; [discriminate|]. intros ([|i] & H & _); discriminate.
  - inversion Hn as [|? ? Hb Hn']; subst. injection Hl as Hl. destruct (IH ws Hl Hn') as [A B]. cbn [combine find fst].
    destruct (String.eqb_spec b a) as [->|N]; cbn [option_map snd].
    + split; [|split; [discriminate|]; intros C; exfalso; apply C; now left].
      intros v. split; [intros [= ->]; exists 0%nat; auto|]. intros ([|i] & H1 & H2); cbn in *; [congruence|].
      exfalso. apply Hb. eapply nth_error_In; eauto.
    + split; [|rewrite B; cbn; tauto]. intros v. rewrite A. split.
      * intros (i & H1 & H2). exists (S i). auto.
      * intros ([|i] & H1 & H2); cbn in *; [congruence|eauto].
Qed.
Print Assumptions C80_get_weight.

Lemma holds_unique p a v w : NoDup (assets p) -> holds p a v -> holds p a w -> v = w.
Proof.
  intros N (i & A & B) (j & C & D). assert (i = j); [|congruence].
  rewrite NoDup_nth_error in N. apply N; [|congruence]. apply nth_error_Some. congruence.
Qed.

Lemma dot_cons a x b y : dot (a :: x) (b :: y) = a * b + dot x y.
Proof. reflexivity. Qed.

(** The reported weights reproduce every linear function of the weights up to 0.001% of the sum of its absolute
    coefficients: with the returns of the assets, the return before costs; with ones, the total weight. *)
Theorem C80_reported_close : forall p v x, well_formed p -> Forall2 (reported p) (assets p) v ->
  List.length x = List.length (assets p) ->
  Rabs (dot v x - dot (weights p) x) <= 1 / 100000 * rsum (map Rabs x).
Proof.
  intros p v x [Hl Hn _ _] F Hx.
  assert (G : Forall2 (fun u w => Rabs (u - w) <= 1 / 100000) v (weights p)).
  { assert (H : forall i a, nth_error (assets p) i = Some a -> forall u w, nth_error v i = Some u -> nth_error (weights p) i = Some w -> Rabs (u - w) <= 1 / 100000).
    { intros i a Ha u w Hu Hw. assert (Hh : holds p a w) by (exists i; auto).
      assert (Rr : reported p a u).
      { clear -F Ha Hu. revert i Ha Hu. induction F as [|b u' l v' Rb F IH]; intros [|i] Ha Hu; cbn in *; try discriminate; [congruence|eauto]. }
      destruct Rr as [[Hb _]|[-> Hno]].
      - rewrite (holds_unique p a u w) by auto. unfold Rminus. rewrite Rplus_opp_r, Rabs_R0. lra.
      - replace (0 - w) with (- w) by ring. rewrite Rabs_Ropp. destruct (Rle_dec (Rabs w) (1 / 100000)) as [|C]; auto.
        exfalso. apply (Hno w). split; auto. lra. }
    assert (Lv : List.length v = List.length (assets p)) by (clear -F; induction F; cbn; auto).
    clear F Hn Hx x. revert v Lv H Hl. generalize (assets p), (weights p). induction l as [|a l IH]; intros [|w ws] [|u v] Lv H Hl; try discriminate; constructor.
    - apply (H 0%nat a); reflexivity.
    - apply IH; auto. intros i b Hb u' w' Hu Hw. apply (H (S i) b); auto. }
  clear F. rewrite <- Hl in Hx. clear Hl Hn. revert x Hx. induction G as [|u w v ws Hd G IH]; intros [|c x] Hx; try discriminate.
  - unfold dot. cbn. rewrite Rminus_0_r, Rabs_R0. lra.
  - injection Hx as Hx. specialize (IH x Hx). rewrite !dot_cons. cbn [map]. rewrite rsum_cons.
    replace (u * c + dot v x - (w * c + dot ws x)) with ((u - w) * c + (dot v x - dot ws x)) by ring.
    eapply Rle_trans; [apply Rabs_triang|]. rewrite Rabs_mult. assert (0 <= Rabs c) by apply Rabs_pos. nra.
Qed.
Print Assumptions C80_reported_close.

(** * Figures *)

Lemma dot_seq n x y : List.length x = n -> List.length y = n -> dot x y = sum_over (seq 0 n) (fun j => nth j x 0 * nth j y 0).
Proof.
  revert x y. induction n as [|n IH]; intros [|a x] [|b y] Hx Hy; try discriminate; [reflexivity|].
  injection Hx as Hx. injection Hy as Hy. rewrite dot_cons, (IH x y) by auto. cbn [seq]. rewrite so_cons, <- seq_shift, so_map. reflexivity.
Qed.

Lemma nth_map_seq (g : nat -> R) n j : (j < n)%nat -> nth j (map g (seq 0 n)) 0 = g j.
Proof.
  intros H. rewrite (nth_indep _ 0 (g 0%nat)) by (rewrite map_length, seq_length; lia).
  rewrite (map_nth g (seq 0 n) 0%nat j), seq_nth by lia. reflexivity.
Qed.

Lemma rsum_so {A} (f : A -> R) l : rsum (map f l) = sum_over l f.
Proof. reflexivity. Qed.

Section Figures.
Variable p : portfolio.
Hypothesis W : well_formed p.
Hypothesis T1 : data p <> [].
Let n := List.length (assets p).
Let T := INR (List.length (data p)).
Let w j := nth j (weights p) 0.
Let m j := sum_over (data p) (fun row => nth j row 0) / T.

Lemma T_pos : 0 < T.
Proof. unfold T. apply lt_0_INR. destruct (data p); [congruence|cbn; lia]. Qed.

Lemma asset_mean j : mean (asset_returns p j) = m j.
Proof. unfold mean, asset_returns, len, m. rewrite map_length. reflexivity. Qed.

Lemma row_return row : In row (data p) ->
  dot (weights p) row = sum_over (seq 0 n) (fun j => w j * nth j row 0).
Proof. intros H. apply dot_seq; [apply W|apply (wf_data p W row H)]. Qed.

Lemma mean_returns : mean (returns p) = sum_over (seq 0 n) (fun j => w j * m j) - total_cost p - total_fee p.
Proof.
  unfold mean, returns, len. rewrite map_length, rsum_so. fold T.
  rewrite (so_ext _ (fun row => sum_over (seq 0 n) (fun j => w j * nth j row 0) - (total_cost p + total_fee p))).
  2:{ intros row H. rewrite row_return by auto. ring. }
  rewrite so_sub, so_const, so_swap. fold T.
  rewrite (so_ext (fun b => sum_over (data p) (fun a => w b * nth b a 0)) (fun j => (w j * m j) * T)).
  2:{ intros j _. rewrite so_scal. unfold m. field. apply Rgt_not_eq, T_pos. }
  rewrite so_scal_r. field. apply Rgt_not_eq, T_pos.
Qed.

Lemma deviation row : In row (data p) ->
  dot (weights p) row - total_cost p - total_fee p - mean (returns p) = sum_over (seq 0 n) (fun j => w j * (nth j row 0 - m j)).
Proof.
  intros H. rewrite mean_returns, row_return by auto.
  rewrite (so_ext (fun j => w j * (nth j row 0 - m j)) (fun j => w j * nth j row 0 - w j * m j)) by (intros; ring).
  rewrite so_sub. ring.
Qed.

Definition co i j := sum_over (data p) (fun row => (nth i row 0 - m i) * (nth j row 0 - m j)).

Lemma squares : sum_over (returns p) (fun x => (x - mean (returns p)) ^ 2)
  = sum_over (seq 0 n) (fun i => sum_over (seq 0 n) (fun j => w i * w j * co i j)).
Proof.
  unfold returns at 1. rewrite so_map.
  rewrite (so_ext _ (fun row => sum_over (seq 0 n) (fun i => sum_over (seq 0 n) (fun j => w i * w j * ((nth i row 0 - m i) * (nth j row 0 - m j)))))).
  2:{ intros row H. rewrite deviation by auto. set (f j := w j * (nth j row 0 - m j)).
      transitivity (sum_over (seq 0 n) (fun i => f i * sum_over (seq 0 n) f)).
      - rewrite so_scal_r. ring.
      - apply so_ext. intros i _. rewrite <- so_scal. apply so_ext. intros j _. unfold f. ring. }
  rewrite so_swap. apply so_ext. intros i _. rewrite so_swap. apply so_ext. intros j _. unfold co. rewrite so_scal. reflexivity.
Qed.

Lemma co_square i j : co i j <= sqrt (co i i) * sqrt (co j j).
Proof.
  assert (H := so_cauchy (fun row => nth i row 0 - m i) (fun row => nth j row 0 - m j) (data p)).
  assert (E : forall k, sum_over (data p) (fun row => (nth k row 0 - m k) ^ 2) = co k k) by (intros k; apply so_ext; intros; ring).
  assert (P : forall k, 0 <= co k k) by (intros k; rewrite <- E; apply so_nonneg; intros; apply pow2_ge_0).
  cbv beta in H. rewrite !E in H. fold (co i j) in H. rewrite <- sqrt_mult by auto.
  apply Rsqr_incr_0_var; [|apply sqrt_pos]. rewrite Rsqr_sqrt by (apply Rmult_le_pos; auto). unfold Rsqr. lra.
Qed.

Lemma std_asset j : population_std (asset_returns p j) = sqrt (co j j) / sqrt T.
Proof.
  unfold population_std. rewrite asset_mean. unfold asset_returns, len. rewrite map_map, map_length, rsum_so. fold T.
  rewrite (so_ext _ (fun row => (nth j row 0 - m j) * (nth j row 0 - m j))) by (intros; ring).
  apply sqrt_div_alt. apply T_pos.
Qed.

Definition average_std := sum_over (seq 0 n) (fun j => w j * sqrt (co j j)).

Lemma diversification_eq : diversification p = average_std / sqrt T / standard_deviation (returns p).
Proof.
  unfold diversification. f_equal. rewrite (dot_seq n).
  - unfold average_std, Rdiv. rewrite <- so_scal_r. apply so_ext. intros j Hj. apply in_seq in Hj. fold n.
    rewrite nth_map_seq by lia.
    rewrite std_asset. unfold w, Rdiv. ring.
  - apply W.
  - now rewrite map_length, seq_length.
Qed.

(** The expected return from the sample means of the assets is the mean of the returns of the portfolio. *)
Lemma expected_figure :
  expected_returns_from_assets p (map (fun j => sample_mean (asset_returns p j)) (seq 0 n)) = mean (returns p).
Proof.
  unfold expected_returns_from_assets. rewrite mean_returns. do 2 f_equal. rewrite (dot_seq n).
  - apply so_ext. intros j Hj. apply in_seq in Hj. fold (w j). f_equal.
    rewrite nth_map_seq by lia. apply asset_mean.
  - apply W.
  - now rewrite map_length, seq_length.
Qed.

Lemma sample_covariance_co i j : sample_covariance (asset_returns p i) (asset_returns p j) = co i j / (T - 1).
Proof.
  unfold sample_covariance. assert (E : forall k, sample_mean (asset_returns p k) = m k) by apply asset_mean. rewrite !E.
  replace (List.length (asset_returns p i)) with (List.length (data p)) by (symmetry; apply map_length). fold T. f_equal. unfold asset_returns, co. rewrite rsum_so.
  generalize (m i), (m j). intros a b. clear. induction (data p) as [|r l IH]; cbn [map combine]; [reflexivity|].
  rewrite !so_cons, IH. reflexivity.
Qed.

Lemma variance_figure :
  variance_from_assets p (map (fun i => map (fun j => sample_covariance (asset_returns p i) (asset_returns p j)) (seq 0 n)) (seq 0 n))
  = variance (returns p).
Proof.
  unfold variance_from_assets, variance, len. rewrite squares. unfold returns. rewrite map_length. fold T. rewrite map_map.
  rewrite (dot_seq n) by (first [now rewrite map_length, seq_length | apply W]).
  unfold Rdiv. rewrite <- so_scal_r. apply so_ext. intros i Hi. apply in_seq in Hi.
  rewrite nth_map_seq by lia.
  rewrite (dot_seq n) by (first [now rewrite map_length, seq_length | apply W]). fold (w i).
  rewrite <- so_scal, <- so_scal_r. apply so_ext. intros j Hj. apply in_seq in Hj. fold (w j).
  rewrite nth_map_seq by lia. rewrite sample_covariance_co. unfold Rdiv. ring.
Qed.

Lemma T_two : (2 <= List.length (data p))%nat -> 2 <= T.
Proof. intros H. unfold T. apply le_INR in H. exact H. Qed.

Lemma std_returns : (2 <= List.length (data p))%nat ->
  standard_deviation (returns p) * sqrt (T - 1) = sqrt (sum_over (seq 0 n) (fun i => sum_over (seq 0 n) (fun j => w i * w j * co i j))).
Proof.
  intros H. apply T_two in H. unfold standard_deviation, variance, len. rewrite squares. unfold returns. rewrite map_length. fold T.
  rewrite sqrt_div_alt by lra. field. apply Rgt_not_eq, sqrt_lt_R0. lra.
Qed.

Lemma std_le : (forall x, In x (weights p) -> 0 <= x) ->
  sqrt (sum_over (seq 0 n) (fun i => sum_over (seq 0 n) (fun j => w i * w j * co i j))) <= average_std.
Proof.
  intros Hw. assert (Hp : forall j, 0 <= w j).
  { intros j. unfold w. destruct (nth_in_or_default j (weights p) 0) as [I| ->]; [auto|lra]. }
  assert (P : 0 <= average_std) by (apply so_nonneg; intros; apply Rmult_le_pos; [auto|apply sqrt_pos]).
  rewrite <- (sqrt_pow2 average_std) by auto. apply sqrt_le_1_alt.
  assert (E : average_std ^ 2 = sum_over (seq 0 n) (fun i => sum_over (seq 0 n) (fun j => w i * w j * (sqrt (co i i) * sqrt (co j j))))).
  { transitivity (sum_over (seq 0 n) (fun i => (w i * sqrt (co i i)) * average_std)).
    - rewrite so_scal_r. fold average_std. ring.
    - apply so_ext. intros i _. unfold average_std. rewrite <- so_scal. apply so_ext. intros; ring. }
  rewrite E. apply so_le. intros i _. apply so_le. intros j _. apply Rmult_le_compat_l; [apply Rmult_le_pos; auto|apply co_square].
Qed.
End Figures.

(** With the sample means of the assets the expected return is the mean of the returns of the portfolio,
    costs and fees included; with their sample covariance the variance is its variance. *)
Theorem C80_from_assets : forall p, well_formed p -> data p <> [] ->
  let js := seq 0 (List.length (assets p)) in
  expected_returns_from_assets p (map (fun j => sample_mean (asset_returns p j)) js) = mean (returns p) /\
  variance_from_assets p (map (fun i => map (fun j => sample_covariance (asset_returns p i) (asset_returns p j)) js) js)
  = variance (returns p).
Proof. intros p W H js. split; [apply expected_figure|apply variance_figure]; auto. Qed.
Print Assumptions C80_from_assets.

(** The diversification of a long-only portfolio is at least sqrt((T - 1) / T). *)
Theorem C80_diversification : forall p, well_formed p -> (2 <= List.length (data p))%nat ->
  (forall x, In x (weights p) -> 0 <= x) -> 0 < variance (returns p) ->
  sqrt ((INR (List.length (data p)) - 1) / INR (List.length (data p))) <= diversification p.
Proof.
  intros p W H2 Hw Hv. assert (T1 : data p <> []) by (destruct (data p); [cbn in H2; lia|discriminate]).
  rewrite diversification_eq by auto. assert (HT := T_two p H2). cbv zeta in *. set (T := INR (List.length (data p))) in *.
  assert (Hs : 0 < standard_deviation (returns p)) by now apply sqrt_lt_R0.
  assert (E := std_returns p W T1 H2). assert (L := Rle_trans _ _ _ (Req_le _ _ E) (std_le p Hw)). fold T in L.
  rewrite sqrt_div_alt by lra. assert (S1 : 0 < sqrt T) by (apply sqrt_lt_R0; lra).
  unfold Rdiv. rewrite (Rmult_comm (average_std p * / sqrt T)). rewrite <- Rmult_assoc. apply Rmult_le_compat_r; [left; now apply Rinv_0_lt_compat|].
  apply (Rmult_le_reg_l (standard_deviation (returns p))); auto. rewrite <- Rmult_assoc, Rinv_r, Rmult_1_l by lra. exact L.
Qed.
Print Assumptions C80_diversification.

Section Single.
(** A portfolio with all its weight in one asset has a diversification of exactly sqrt((T - 1) / T), not one. *)
Lemma single_asset : forall p a, well_formed p -> assets p = [a] -> weights p = [1] -> (2 <= List.length (data p))%nat ->
  0 < variance (returns p) ->
  diversification p = sqrt ((INR (List.length (data p)) - 1) / INR (List.length (data p))).
Proof.
  intros p a W Ha Hw H2 Hv. assert (T1 : data p <> []) by (destruct (data p); [cbn in H2; lia|discriminate]).
  rewrite diversification_eq by auto. assert (HT := T_two p H2). cbv zeta in *. set (T := INR (List.length (data p))) in *.
  assert (Hs : 0 < standard_deviation (returns p)) by now apply sqrt_lt_R0.
  assert (E := std_returns p W T1 H2). fold T in E.
  assert (A : average_std p = sqrt (co p 0 0)).
  { unfold average_std. rewrite Ha, Hw. cbn. unfold sum_over. cbn. ring. }
  assert (B : sqrt (co p 0 0) = standard_deviation (returns p) * sqrt (T - 1)).
  { rewrite E, Ha, Hw. unfold sum_over. cbn. f_equal. ring. }
  rewrite A, B, sqrt_div_alt by lra. field. split; [apply Rgt_not_eq, sqrt_lt_R0; lra|lra].
Qed.
End Single.

Theorem C80_single_asset : forall p a, well_formed p -> assets p = [a] -> weights p = [1] -> (2 <= List.length (data p))%nat ->
  0 < variance (returns p) ->
  diversification p = sqrt ((INR (List.length (data p)) - 1) / INR (List.length (data p))) /\ diversification p < 1.
Proof.
  intros p a W Ha Hw H2 Hv. assert (E := single_asset p a W Ha Hw H2 Hv). split; [exact E|]. rewrite E.
  assert (HT := T_two p H2). cbv zeta in HT. apply Rlt_le_trans with (sqrt 1); [|right; apply sqrt_1]. apply sqrt_lt_1_alt. split.
  - apply Rmult_le_pos; [lra|]. left. apply Rinv_0_lt_compat. lra.
  - apply (Rmult_lt_reg_r (INR (List.length (data p)))); [lra|]. unfold Rdiv. rewrite Rmult_assoc, Rinv_l by lra. lra.
Qed.
Print Assumptions C80_single_asset.

(** * Concrete portfolios *)

Definition ex_p : portfolio :=
  {| name := "a"; assets := ["x"; "y"; "z"]%string; weights := [1/4; 3/4; 1/1000000]; observations := [1; 2]%Z;
     data := [[1; 0; 2]; [0; 3; 1]]; total_cost := 0; total_fee := 0; cumulative_returns := [1/4; 5/2] |}.
Definition ex_q : portfolio :=
  {| name := "a"; assets := ["z"; "x"]%string; weights := [1/2; 1/2]; observations := [4; 3]%Z;
     data := [[1; 0]; [0; 3]]; total_cost := 0; total_fee := 0; cumulative_returns := [1/2; 2] |}.
Definition ex_1 : portfolio :=
  {| name := "s"; assets := ["x"]%string; weights := [1]; observations := [1; 2]%Z;
     data := [[0]; [2]]; total_cost := 0; total_fee := 0; cumulative_returns := [0; 2] |}.

Example C80_applies :
  well_formed ex_p /\ well_formed ex_q /\ 0 < variance (returns ex_p) /\
  invested_in ex_p "y" (3/4) /\ reported ex_p "z" 0.
Proof.
  assert (Hz : forall w, ~ invested_in ex_p "z" w).
  { intros w [(i & A & B) C]. destruct i as [|[|[|[|i]]]]; cbn in A, B; try discriminate. injection B as <-.
    rewrite Rabs_right in C by lra. lra. }
  split; [split|split; [split|split; [|split]]].
  1,3,5,7: reflexivity.
  1,3: repeat (constructor; [cbn; intuition discriminate|]); constructor.
  1,2: cbn; intros row [<-|[<-|[]]]; reflexivity.
  - unfold variance, mean, returns, dot, len, sum_over. cbn. lra.
  - split; [exists 1%nat; split; reflexivity|]. rewrite Rabs_right; lra.
  - right. split; auto.
Qed.

(** Both orderings exist: insertion sort. *)
Fixpoint insert {A} (before : A -> A -> bool) (x : A) (l : list A) : list A :=
  match l with [] => [x] | y :: r => if before x y then x :: l else y :: insert before x r end.
Definition insertion_sort {A} (before : A -> A -> bool) (l : list A) : list A := fold_right (insert before) [] l.

Lemma insertion_sorts {A} (before : A -> A -> bool) (le : A -> A -> Prop) :
  (forall x y, before x y = true -> le x y) -> (forall x y, before x y = false -> le y x) ->
  (forall x y z, le x y -> le y z -> le x z) ->
  forall l, Permutation (insertion_sort before l) l /\ StronglySorted le (insertion_sort before l).
Proof.
  intros H1 H2 H3.
  assert (I : forall x l, Permutation (insert before x l) (x :: l)).
  { intros x l. induction l as [|y l IH]; cbn; auto. destruct (before x y); auto.
    transitivity (y :: x :: l); [now constructor|apply perm_swap]. }
  induction l as [|x l [IP IS]]; cbn; [split; constructor|]. split.
  - rewrite I. now constructor.
  - clear IP. fold (insertion_sort before l). revert IS. generalize (insertion_sort before l). intros s IS. induction IS as [|y r IS IHs F]; cbn; [constructor; constructor|]. destruct (before x y) eqn:E.
    + constructor; [constructor; auto|]. rewrite Forall_forall in *. intros z [<-|Hz]; [auto|]. eapply H3; [apply H1, E|auto].
    + constructor; auto. rewrite Forall_forall in *. intros z Hz. apply (Permutation_in _ (I x r)) in Hz. destruct Hz as [<-|Hz]; auto.
Qed.

Example C80_sorts :
  (exists sv, sorts_descending sv) /\ (exists si, sorts_by_index si).
Proof.
  split.
  - exists (insertion_sort (fun x y => if Rle_dec (snd y) (snd x) then true else false)). intros l.
    apply insertion_sorts; intros x y; [| |intros; lra]; destruct (Rle_dec (snd y) (snd x)); try discriminate; intros; lra.
  - exists (insertion_sort (fun x y => (fst x <=? fst y)%Z)). intros l.
    apply insertion_sorts; intros x y; [apply Z.leb_le| |intros; lia]. intros H. apply Z.leb_gt in H. lia.
Qed.

(** The variance of a one-asset portfolio with returns 0 and 2 is positive, its diversification below one. *)
Theorem C80_diversification_refuted :
  exists p, well_formed p /\ (2 <= List.length (data p))%nat /\ rsum (weights p) = 1 /\
    (forall x, In x (weights p) -> 0 <= x) /\ 0 < variance (returns p) /\ diversification p < 1.
Proof.
  exists ex_1.
  assert (W : well_formed ex_1).
  { split; [reflexivity| |reflexivity|].
    - constructor; [cbn; tauto|constructor].
    - cbn. intros row [<-|[<-|[]]]; reflexivity. }
  assert (V : 0 < variance (returns ex_1)) by (unfold variance, mean, returns, dot, len, sum_over; cbn; lra).
  split; [exact W|]. split; [cbn; lia|]. split; [unfold rsum; cbn; ring|]. split; [cbn; intros x [<-|[]]; lra|]. split; [exact V|].
  apply (C80_single_asset ex_1 "x"); auto.
Qed.
Print Assumptions C80_diversification_refuted.

(** Observations selected with [idx], as documented, are taken for portfolios: two observations of one portfolio raise. *)
Theorem C80_plotted_idx_refuted : forall sort_index, exists ps idx,
  (forall p, In p ps -> forall i, In i idx -> (i < List.length (observations p))%nat) /\ ps <> [] /\
  plotted sort_index None ps <> None /\ plotted sort_index (Some idx) ps = None.
Proof.
  intros sort_index. exists [ex_1], [0%nat; 1%nat]. split; [|split; [discriminate|split; [discriminate|reflexivity]]].
  intros p [<-|[]] i [<-|[<-|[]]]; cbn; lia.
Qed.
Print Assumptions C80_plotted_idx_refuted.
