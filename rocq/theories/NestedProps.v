(** C77: what the outer estimator of a nested clusters optimization and the final estimator of a
    stacking are trained on. *)
From Coq Require Import String List Arith Bool Lia Sorting.Sorted Sorting.Permutation.
From Verif Require Import CombinatorialModel CombinatorialProofs CombinatorialProps
  CrossValModel CrossValProofs CrossValProps WalkForwardModel WalkForwardProps NestedModel.
Import ListNotations.

(** * Specification *)

(** [r] is [l[idx]] *)
Definition selected {B} (idx : list nat) (l r : list B) : Prop :=
  Forall2 (fun i x => nth_error l i = Some x) idx r.

(** [E] is the part of the table [D] made of the given observations (rows), in that order, and of
    the given columns (all of them when [None]) *)
Definition part {B} (D : list (list B)) (rows : list nat) (cols : option (list nat)) (E : list (list B)) : Prop :=
  Forall2 (fun t e => exists d, nth_error D t = Some d /\
                     match cols with None => e = d | Some cs => selected cs d e end) rows E.

(** [w] is the estimator fitted on the observations [rows] only: the columns [cols] of X and of y,
    the columns [pcols] of the parameters *)
Definition trained {B W} (fit : list (list B) -> option (list (list B)) -> list (string * list (list B)) -> W)
           (X : list (list B)) (y : option (list (list B))) (P : list (string * list (list B)))
           (rows : list nat) (cols pcols : option (list nat)) (w : W) : Prop :=
  exists Xs ys Ps,
    part X rows cols Xs /\
    match y, ys with
    | None, None => True
    | Some yt, Some yr => part yt rows cols yr
    | _, _ => False
    end /\
    Forall2 (fun kv kv' => fst kv' = fst kv /\ part (snd kv) rows pcols (snd kv')) P Ps /\
    w = fit Xs ys Ps.

(** the observations [train] are the training set of a split whose test set contains [t] *)
Definition tested_after (cv : cross_validation) (n : nat) (train : list nat) (t : nat) : Prop :=
  match cv with
  | Ignore => False
  | Splitter _ splits => exists test, In (train, test) splits /\ In t test
  | Combinatorial K k pu em =>
      exists splits tests test, cpcv_split K k pu em n = Some splits /\ In (train, tests) splits /\
                                In test tests /\ In t test
  end.

(** the observations predicted, in chronological order *)
Definition observations (cv : cross_validation) (n : nat) (ts : list nat) : Prop :=
  match cv with
  | Splitter _ splits => StronglySorted le ts /\ Permutation ts (concat (map snd splits))
  | _ => ts = seq 0 n
  end.

(** the return at time [t] of an estimator with the data of the assets [cols] (all when [None]):
    in sample with cv="ignore", otherwise by a clone trained on a split that tests [t] *)
Definition predicted {B W} fit (ret : W -> list B -> B) X y P cv (cols : option (list nat)) (t : nat) (v : B) : Prop :=
  exists w row sub,
    match cv with
    | Ignore => trained fit X y P (seq 0 (length X)) cols cols w
    | _ => exists train, tested_after cv (length X) train t /\ trained fit X y P train cols None w
    end /\
    nth_error X t = Some row /\
    match cols with None => sub = row | Some cs => selected cs row sub end /\
    v = ret w sub.

(** a cluster of one asset is the asset itself *)
Definition cluster_return {B W} fit (ret : W -> list B -> B) X y P cv (ids : list nat) (t : nat) (v : B) : Prop :=
  match ids with
  | [j] => exists row, nth_error X t = Some row /\ nth_error row j = Some v
  | _ => predicted fit ret X y P cv (Some ids) t v
  end.

(** the splitters covered: the test folds are intervals; the combinatorial folds cover the sample *)
Definition interval_folds (cv : cross_validation) (n : nat) : Prop :=
  match cv with
  | Ignore => True
  | Splitter _ splits => forall tr te, In (tr, te) splits -> contiguous te
  | Combinatorial K k _ _ => ctor_ok K k = true /\ n mod K <= n / K
  end.

(** the chosen path is one of the paths *)
Definition picks_a_path {B} (quantile : list (list B) -> option (list B)) : Prop :=
  forall population s, quantile population = Some s -> In s population.

(** two tables have the same observations [rows] *)
Definition agree_on {B} (rows : list nat) (D D' : list (list B)) : Prop :=
  forall t, In t rows -> nth_error D t = nth_error D' t.

(** * Lists *)

Lemma F2_nth {B C} (Q : B -> C -> Prop) l1 l2 :
  Forall2 Q l1 l2 <-> List.length l1 = List.length l2 /\
  forall i a b, nth_error l1 i = Some a -> nth_error l2 i = Some b -> Q a b.
Proof.
  split.
  - induction 1 as [|a b l1 l2 H F [IL IH]]; simpl; split; auto.
    + intros [|i]; discriminate.
    + intros [|i] x y; simpl; [intros [= <-] [= <-]; auto|apply IH].
  - revert l2. induction l1 as [|a l1 IH]; intros [|b l2] [L H]; try discriminate; constructor.
    + apply (H 0); reflexivity.
    + apply IH. split; [simpl in L; lia|]. intros i x y Hx Hy. apply (H (S i)); auto.
Qed.

Lemma F2_len {B C} (Q : B -> C -> Prop) l1 l2 : Forall2 Q l1 l2 -> List.length l1 = List.length l2.
Proof. intros F. apply F2_nth in F. apply F. Qed.

Lemma F2_imp {B C} (Q Q' : B -> C -> Prop) l1 l2 :
  (forall a b, In a l1 -> In b l2 -> Q a b -> Q' a b) -> Forall2 Q l1 l2 -> Forall2 Q' l1 l2.
Proof.
  intros H F. induction F; constructor.
  - apply H; auto; now left.
  - apply IHF. intros. apply H; auto; now right.
Qed.

Lemma F2_concat {B C} (Q : B -> C -> Prop) l1 l2 : Forall2 (Forall2 Q) l1 l2 -> Forall2 Q (concat l1) (concat l2).
Proof. induction 1; simpl; [constructor|]. now apply Forall2_app. Qed.

Lemma F2_map_l {B C D} (Q : B -> C -> Prop) (f : D -> B) l1 l2 :
  Forall2 Q (map f l1) l2 <-> Forall2 (fun a b => Q (f a) b) l1 l2.
Proof.
  revert l2. induction l1 as [|a l1 IH]; intros l2; simpl; split; intros F; inversion F; subst; constructor; auto; now apply IH.
Qed.

Lemma F2_map_r {B C D} (Q : B -> C -> Prop) (f : D -> C) l1 l2 :
  Forall2 Q l1 (map f l2) <-> Forall2 (fun a b => Q a (f b)) l1 l2.
Proof.
  revert l1. induction l2 as [|a l2 IH]; intros l1; simpl; split; intros F; inversion F; subst; constructor; auto; now apply IH.
Qed.

Lemma F2_fun {B C} (Q : B -> C -> Prop) l1 l2 l3 :
  (forall a b c, In a l1 -> Q a b -> Q a c -> b = c) -> Forall2 Q l1 l2 -> Forall2 Q l1 l3 -> l2 = l3.
Proof.
  intros H F. revert l3. induction F as [|a b l1 l2 Q1 F IH]; intros l3 G; inversion G; subst; auto.
  f_equal; [eapply H; eauto; now left|]. apply IH; auto. intros. eapply H; eauto. now right.
Qed.

Lemma F2_total {B C} (Q : B -> C -> Prop) l : (forall a, In a l -> exists b, Q a b) -> exists r, Forall2 Q l r.
Proof.
  induction l as [|a l IH]; intros H; [exists []; constructor|].
  destruct (H a (or_introl eq_refl)) as [b Hb]. destruct IH as [r Hr]; [intros; apply H; now right|].
  exists (b :: r). now constructor.
Qed.

Lemma each_spec {B C} (f : B -> result C) l r : each f l = Value r <-> Forall2 (fun a b => f a = Value b) l r.
Proof.
  revert r. induction l as [|a l IH]; intros r; simpl.
  - split; [intros [= <-]; constructor|intros F; inversion F; reflexivity].
  - split.
    + destruct (f a) as [b|] eqn:E; simpl; [|discriminate].
      destruct (each f l) as [bs|] eqn:E'; simpl; [|discriminate]. intros [= <-]. constructor; auto. now apply IH.
    + intros F. inversion F as [|x b l' bs H1 H2]; subst. rewrite H1. simpl. apply IH in H2. now rewrite H2.
Qed.

Lemma pick_spec {B} (l : list B) i x : pick l i = Value x <-> nth_error l i = Some x.
Proof. unfold pick. destruct (nth_error l i); split; intros [= <-]; reflexivity. Qed.

Lemma take_spec {B} idx (l r : list B) : take idx l = Value r <-> selected idx l r.
Proof.
  unfold take. rewrite each_spec. unfold selected. split; apply F2_imp; intros a b _ _; apply pick_spec.
Qed.

Lemma bind_inv {B C} (x : result B) (f : B -> result C) r :
  bind x f = Value r -> exists a, x = Value a /\ f a = Value r.
Proof. destruct x; simpl; [eauto|discriminate]. Qed.

(** * Tables *)

Section S.
Variables B W : Type.
Notation table := (list (list B)).

Definition colsel (cols : option (list nat)) (d e : list B) : Prop :=
  match cols with None => e = d | Some cs => selected cs d e end.

Lemma columns_spec (D Dc : table) cols : safe_indexing B D cols Columns = Value Dc <-> Forall2 (colsel cols) D Dc.
Proof.
  unfold safe_indexing. destruct cols as [cs|].
  - etransitivity; [apply each_spec|]. split; apply F2_imp; intros a b _ _; apply take_spec.
  - split.
    + intros [= <-]. induction D; constructor; auto. reflexivity.
    + intros F. f_equal. induction F; simpl in *; congruence.
Qed.

Lemma rows_spec (D E : table) rows : safe_indexing B D (Some rows) Rows = Value E <-> selected rows D E.
Proof. unfold safe_indexing. apply take_spec. Qed.

Lemma part_of_columns (D Dc E : table) cols rows :
  Forall2 (colsel cols) D Dc -> selected rows Dc E -> part D rows cols E.
Proof.
  intros H. apply F2_nth in H. destruct H as [HL H].
  apply F2_imp. intros t e _ _ Ht. destruct (nth_error D t) as [d|] eqn:E1.
  - exists d. split; auto. exact (H _ _ _ E1 Ht).
  - exfalso. apply nth_error_None in E1. assert (nth_error Dc t <> None) as N by congruence.
    apply nth_error_Some in N. lia.
Qed.

Lemma part_all (D : table) cols E : part D (seq 0 (List.length D)) cols E <-> Forall2 (colsel cols) D E.
Proof.
  unfold part. rewrite !F2_nth. rewrite seq_length. split; intros [L H]; split; auto.
  - intros i d e Hd He. destruct (H i i e) as (d' & Hd' & Q); auto.
    + assert (nth_error D i <> None) as N by congruence. apply nth_error_Some in N.
      rewrite (nth_error_nth' _ 0) by (rewrite seq_length; lia). now rewrite seq_nth.
    + replace d with d' by congruence. exact Q.
  - intros i t e Ht He. assert (nth_error (seq 0 (List.length D)) i <> None) as N by congruence.
    apply nth_error_Some in N. rewrite seq_length in N.
    rewrite (nth_error_nth' _ 0) in Ht by (rewrite seq_length; lia). rewrite seq_nth in Ht by lia.
    injection Ht as <-. simpl. destruct (nth_error D i) as [d|] eqn:E1.
    + exists d. split; auto. exact (H _ _ _ E1 He).
    + apply nth_error_None in E1. lia.
Qed.

Lemma part_none_all (D : table) : part D (seq 0 (List.length D)) None D.
Proof. apply part_all. induction D; constructor; auto. reflexivity. Qed.

Lemma part_rows (D E : table) rows : selected rows D E -> part D rows None E.
Proof. apply F2_imp. intros t e _ _ H. exists e. auto. Qed.

(** fit_single_estimator: what it is fitted on *)
Lemma fit_single_inv fit X y P idx w :
  fit_single_estimator B W fit X y P idx Columns = Value w ->
  (forall kv, In kv P -> List.length (snd kv) = List.length X) /\
  exists Xs ys Ps, Forall2 (colsel idx) X Xs /\
    match y, ys with None, None => True | Some yt, Some yr => Forall2 (colsel idx) yt yr | _, _ => False end /\
    Forall2 (fun kv kv' => fst kv' = fst kv /\ Forall2 (colsel idx) (snd kv) (snd kv')) P Ps /\ w = fit Xs ys Ps.
Proof.
  unfold fit_single_estimator. intros H. apply bind_inv in H. destruct H as (Ps & HP & H).
  apply bind_inv in H. destruct H as ([Xs ys] & HX & H). injection H as <-.
  unfold check_method_params in HP. apply each_spec in HP.
  assert (HP' : Forall2 (fun kv kv' => List.length (snd kv) = List.length X /\ fst kv' = fst kv /\
                                       Forall2 (colsel idx) (snd kv) (snd kv')) P Ps).
  { revert HP. apply F2_imp. intros kv kv' _ _ E. destruct (Nat.eqb_spec (List.length (snd kv)) (List.length X)); [|discriminate].
    apply bind_inv in E. destruct E as (v & Ev & E). injection E as <-. apply columns_spec in Ev. auto. }
  split.
  { intros kv Hi. clear -HP' Hi. induction HP' as [|a b l l' (E & _) F IH]; [destruct Hi|destruct Hi as [<-|Hi]; auto]. }
  unfold safe_split in HX. apply bind_inv in HX. destruct HX as (Xs' & HX & E).
  exists Xs, ys, Ps. apply columns_spec in HX.
  assert (Xs = Xs' /\ match y, ys with None, None => True | Some yt, Some yr => Forall2 (colsel idx) yt yr | _, _ => False end) as [-> Hy].
  { destruct y as [yt|].
    - apply bind_inv in E. destruct E as (yr & Hy & E). injection E as <- <-. apply columns_spec in Hy. auto.
    - injection E as <- <-. auto. }
  repeat split; auto. revert HP'. apply F2_imp. tauto.
Qed.

Lemma fit_single_total fit X y P idx :
  (forall kv, In kv P -> List.length (snd kv) = List.length X /\ exists v, Forall2 (colsel idx) (snd kv) v) ->
  (exists Xs, Forall2 (colsel idx) X Xs) ->
  (forall yt, y = Some yt -> exists yr, Forall2 (colsel idx) yt yr) ->
  exists w, fit_single_estimator B W fit X y P idx Columns = Value w.
Proof.
  intros HP [Xs HX] Hy. unfold fit_single_estimator, check_method_params, safe_split.
  match goal with |- context [each ?f P] => assert (exists Ps, each f P = Value Ps) as [Ps ->] end.
  { clear HX Hy. induction P as [|kv P IH]; [eexists; reflexivity|].
    destruct (HP kv (or_introl eq_refl)) as (E & v & Hv). apply columns_spec in Hv.
    destruct IH as [Ps IH]; [intros; apply HP; now right|]. simpl. rewrite E, Nat.eqb_refl, Hv. simpl.
    rewrite IH. simpl. eauto. }
  apply columns_spec in HX. rewrite HX. simpl. destruct y as [yt|]; simpl; [|eauto].
  destruct (Hy yt eq_refl) as [yr Hr]. apply columns_spec in Hr. rewrite Hr. simpl. eauto.
Qed.

Lemma fit_single_none fit X y P ax : fit_single_estimator B W fit X y P None ax = fit_single_estimator B W fit X y P None Columns.
Proof. destruct ax; reflexivity. Qed.

Lemma fit_single_trained fit X y P idx w :
  (forall yt, y = Some yt -> List.length yt = List.length X) ->
  fit_single_estimator B W fit X y P idx Columns = Value w ->
  trained fit X y P (seq 0 (List.length X)) idx idx w.
Proof.
  intros Ly H. apply fit_single_inv in H. destruct H as (HL & Xs & ys & Ps & HX & Hy & HP & E).
  exists Xs, ys, Ps. split; [now apply part_all|]. split; [|split; [|exact E]].
  - destruct y as [yt|], ys as [yr|]; auto. rewrite <- (Ly yt eq_refl). now apply part_all.
  - revert HP. apply F2_imp. intros kv kv' Hi _ [E1 E2]. split; auto. rewrite <- (HL kv Hi). now apply part_all.
Qed.

Variable ret : W -> list B -> B.

(** fit_and_predict on the selected columns *)
Lemma fit_and_predict_inv fit (X Xc : table) y yc P cols tr te l :
  Forall2 (colsel cols) X Xc ->
  match y, yc with None, None => True | Some yt, Some yr => Forall2 (colsel cols) yt yr | _, _ => False end ->
  fit_and_predict B W ret fit Xc yc tr te P = Value l ->
  exists w, trained fit X y P tr cols None w /\
    Forall2 (fun t v => exists row sub, nth_error X t = Some row /\ colsel cols row sub /\ v = ret w sub) te l.
Proof.
  intros HX Hy H. unfold fit_and_predict in H.
  apply bind_inv in H. destruct H as (Ps & HP & H). apply bind_inv in H. destruct H as ([Xs ys] & HXs & H).
  apply bind_inv in H. destruct H as (Xt & HXt & H). injection H as <-. simpl.
  unfold safe_split in HXs. apply bind_inv in HXs. destruct HXs as (Xs' & HXs & E).
  exists (fit Xs ys Ps). split.
  - exists Xs, ys, Ps. assert (Xs' = Xs) by (destruct yc; [apply bind_inv in E; destruct E as (? & _ & E)|]; congruence).
    subst Xs'. split; [eapply part_of_columns; eauto; now apply rows_spec|]. split; [|split; [|reflexivity]].
    + destruct y as [yt|], yc as [yr|]; try contradiction.
      * apply bind_inv in E. destruct E as (yr' & Hr & E). injection E as <-. eapply part_of_columns; eauto. now apply rows_spec.
      * injection E as <-. exact I.
    + unfold check_method_params in HP. apply each_spec in HP. revert HP. apply F2_imp. intros kv kv' _ _ E1.
      destruct (_ =? _); [|discriminate]. apply bind_inv in E1. destruct E1 as (v & Ev & E1). injection E1 as <-. simpl.
      split; auto. apply part_rows. now apply rows_spec.
  - apply rows_spec in HXt. apply F2_map_r. apply (part_of_columns _ _ _ _ _ HX) in HXt.
    revert HXt. apply F2_imp. intros t e _ _ (d & Hd & Hs). exists d, e. auto.
Qed.

Lemma fit_and_predict_total fit (Xc : table) yc P tr te :
  (forall kv, In kv P -> List.length (snd kv) = List.length Xc) ->
  (forall yr, yc = Some yr -> List.length yr = List.length Xc) ->
  (forall t, In t tr \/ In t te -> t < List.length Xc) ->
  exists l, fit_and_predict B W ret fit Xc yc tr te P = Value l.
Proof.
  intros HP Hy Ht. unfold fit_and_predict, check_method_params, safe_split.
  assert (HR : forall (D : table) rows, List.length D = List.length Xc -> (forall t, In t rows -> t < List.length Xc) ->
               exists E, safe_indexing B D (Some rows) Rows = Value E).
  { intros D rows L Hr. destruct (F2_total (fun i x => nth_error D i = Some x) rows) as [E HE].
    - intros t Hi. apply Hr in Hi. destruct (nth_error D t) eqn:E; eauto. apply nth_error_None in E. lia.
    - exists E. now apply rows_spec. }
  match goal with |- context [each ?f P] => assert (exists Ps, each f P = Value Ps) as [Ps ->] end.
  { clear Hy. induction P as [|kv P IH]; [eexists; reflexivity|].
    destruct IH as [Ps IH]; [intros; apply HP; now right|]. assert (E := HP kv (or_introl eq_refl)).
    destruct (HR (snd kv) tr E) as [v Hv]; [auto|]. cbn [each]. rewrite E, Nat.eqb_refl, Hv. cbn [bind].
    rewrite IH. cbn [bind]. eauto. }
  destruct (HR Xc tr eq_refl) as [Xs E]; [auto|]. destruct (HR Xc te eq_refl) as [Xt Et]; [auto|].
  cbn [bind]. rewrite E, Et. cbn [bind]. destruct yc as [yr|]; cbn [bind]; [|eauto].
  destruct (HR yr tr (Hy yr eq_refl)) as [ys E']; [auto|]. rewrite E'. cbn [bind]. eauto.
Qed.

(** * Observations *)

Lemma insert_perm x l : Permutation (insert x l) (x :: l).
Proof.
  induction l as [|a l IH]; simpl; auto. destruct (x <=? a); auto. rewrite IH. constructor.
Qed.

Lemma insert_sorted x l : StronglySorted le l -> StronglySorted le (insert x l).
Proof.
  induction 1 as [|a l S IH F]; simpl; [repeat constructor|]. destruct (Nat.leb_spec x a) as [L|L].
  - constructor; [now constructor|]. constructor; auto. eapply Forall_impl; [|exact F]. intros; simpl in *; lia.
  - constructor; auto. apply Forall_forall. intros z Hz. apply (Permutation_in _ (insert_perm x l)) in Hz.
    rewrite Forall_forall in F. destruct Hz as [<-|Hz]; [lia|auto].
Qed.

Lemma sort_spec l : StronglySorted le (sort l) /\ Permutation (sort l) l.
Proof.
  induction l as [|a l [IS IP]]; simpl; [split; constructor|]. split; [now apply insert_sorted|].
  rewrite insert_perm. now constructor.
Qed.

Lemma le_sorted_unique (l1 l2 : list nat) : StronglySorted le l1 -> StronglySorted le l2 -> Permutation l1 l2 -> l1 = l2.
Proof.
  intros S1. revert l2. induction S1 as [|a l1 S1 IH F1]; intros l2 S2 P.
  - apply Permutation_nil in P. congruence.
  - destruct S2 as [|b l2 S2 F2]; [symmetry in P; apply Permutation_nil in P; discriminate|].
    rewrite Forall_forall in F1, F2.
    assert (a = b).
    { assert (In a (b :: l2)) as Ha by (eapply Permutation_in; [exact P|now left]).
      assert (In b (a :: l1)) as Hb by (eapply Permutation_in; [symmetry; exact P|now left]).
      destruct Ha as [->|Ha]; auto. destruct Hb as [->|Hb]; auto. apply F1 in Hb. apply F2 in Ha. lia. }
    subst b. f_equal. apply IH; auto. eapply Permutation_cons_inv; eauto.
Qed.

Lemma lt_le_sorted l : StronglySorted lt l -> StronglySorted le l.
Proof. induction 1; constructor; auto. eapply Forall_impl; [|eassumption]. intros; simpl in *; lia. Qed.

Lemma test_indices_obs (X : table) cv : observations cv (List.length X) (test_indices B X cv).
Proof. destruct cv; simpl; auto. apply sort_spec. Qed.

Lemma observations_unique cv n ts ts' : observations cv n ts -> observations cv n ts' -> ts = ts'.
Proof.
  destruct cv as [|sh splits|]; simpl; try congruence. intros [S1 P1] [S2 P2]. apply le_sorted_unique; auto.
  now rewrite P1, P2.
Qed.

Variable quantile : list (list B) -> option (list B).

(** cross_val_predict on the selected columns *)
Lemma cross_val_inv fit X y P cv cols l :
  picks_a_path quantile -> interval_folds cv (List.length X) ->
  cross_val_returns B W ret quantile fit X y cv P cols = Value l ->
  Forall2 (predicted fit ret X y P cv cols) (test_indices B X cv) l.
Proof.
  intros HQ HI H. unfold cross_val_returns in H. apply bind_inv in H. destruct H as ([Xc yc] & HX & H).
  unfold safe_split in HX. apply bind_inv in HX. destruct HX as (Xc' & HX & E). apply columns_spec in HX.
  assert (Xc' = Xc /\ match y, yc with None, None => True | Some yt, Some yr => Forall2 (colsel cols) yt yr | _, _ => False end) as [-> Hy].
  { destruct y as [yt|].
    - apply bind_inv in E. destruct E as (yr & Hy & E). injection E as <- <-. apply columns_spec in Hy. auto.
    - injection E as <- <-. auto. }
  clear E. simpl in H.
  assert (FP : forall tr te p, fit_and_predict B W ret fit Xc yc tr te P = Value p ->
    (forall t, In t te -> tested_after cv (List.length X) tr t) -> cv <> Ignore ->
    Forall2 (predicted fit ret X y P cv cols) te p).
  { intros tr te p E HT HN. destruct (fit_and_predict_inv _ _ _ _ _ _ _ _ _ _ HX Hy E) as (w & Hw & F).
    revert F. apply F2_imp. intros t v Ht _ (row & sub & H1 & H2 & H3). exists w, row, sub.
    split; [|auto]. destruct cv; [congruence| |]; exists tr; auto. }
  destruct cv as [|sh splits|K k pu em]; [discriminate| |].
  - destruct (cross_val_predict _ _ sh splits) as [pf|] eqn:EC; [|discriminate].
    apply bind_inv in H. destruct H as (ls & HL & H). injection H as <-.
    destruct (C07_chronological _ _ _ _ _ EC HI) as (order & PO & -> & SO).
    apply each_spec, F2_map_l in HL. simpl in HL.
    assert (TI : test_indices B X (Splitter sh splits) = concat (map snd order)).
    { eapply observations_unique; [apply test_indices_obs|]. simpl. split; [now apply lt_le_sorted|].
      rewrite <- !flat_map_concat_map. now apply Permutation_flat_map. }
    rewrite TI. apply F2_concat, F2_map_l. revert HL. apply F2_imp. intros [tr te] p Hi _ E. simpl in *.
    apply (FP tr te p E); [|discriminate]. intros t Ht. exists te. split; auto. eapply Permutation_in; eauto.
  - destruct HI as [HC HM]. unfold cross_val_predict_combinatorial in H.
    destruct (cpcv_split K k pu em (List.length X)) as [splits|] eqn:ES; [|discriminate].
    destruct (C07_combinatorial_paths (result (list B)) (fun tr te => fit_and_predict B W ret fit Xc yc tr te P)
                K k pu em (List.length X) splits HC ES) as (paths & EP & LP & HP).
    unfold cross_val_predict_combinatorial in EP. rewrite ES in EP. simpl in EP, H. injection EP as EP. rewrite EP in H.
    apply bind_inv in H. destruct H as (population & HPop & H).
    destruct (quantile population) as [s|] eqn:EQ; [|discriminate]. injection H as <-. apply HQ in EQ.
    apply each_spec in HPop. apply In_nth_error in EQ. destruct EQ as [p EQ].
    apply F2_nth in HPop. destruct HPop as [LPop HPop].
    assert (Hp : p < List.length paths).
    { rewrite LPop. apply nth_error_Some. congruence. }
    specialize (HPop p (nth p paths []) s (nth_error_nth' _ _ Hp) EQ).
    destruct (HP p) as (sof & Hs & EN); [lia|]. rewrite EN in HPop.
    apply bind_inv in HPop. destruct HPop as (ls & HL & E). injection E as <-.
    apply each_spec, F2_map_l in HL. destruct (ctor_bounds _ _ HC) as (HK & _ & _).
    assert (Hpos : 0 < List.length X / K).
    { destruct (Nat.lt_ge_cases 0 (List.length X / K)); auto. exfalso.
      assert (E0 : cpcv_split K k pu em (List.length X) = None) by (apply C03_split_raises_iff; lia). congruence. }
    assert (TI : test_indices B X (Combinatorial K k pu em) = concat (map (fold_index K (List.length X)) (seq 0 K))).
    { simpl. symmetry. apply C04_folds_partition_iff; auto; lia. }
    rewrite TI. apply F2_concat, F2_map_l. revert HL. apply F2_imp. intros f q Hf _ E. apply in_seq in Hf.
    destruct (Hs f ltac:(lia)) as [H1 H2].
    apply (FP _ _ q E); [|discriminate]. intros t Ht. destruct (nth (sof f) splits ([], [])) as [tr tests] eqn:EN'.
    simpl in *. exists splits, tests, (fold_index K (List.length X) f). repeat split; auto.
    rewrite <- EN'. now apply nth_In.
Qed.

Lemma splitter_nodup fit X y P sh splits cols l :
  cross_val_returns B W ret quantile fit X y (Splitter sh splits) P cols = Value l ->
  NoDup (concat (map snd splits)).
Proof.
  intros H. unfold cross_val_returns in H. apply bind_inv in H. destruct H as ([Xc yc] & HX & H).
  destruct (cross_val_predict _ _ sh splits) as [pf|] eqn:EC; [|discriminate].
  eapply C07_refuses in EC. apply EC.
Qed.

(** * The transposition *)

Lemma transpose_inv {C} (Q : C -> nat -> B -> Prop) cs ts cols M :
  cs <> [] -> Forall2 (fun c col => Forall2 (Q c) ts col) cs cols -> transpose B cols = Value M ->
  Forall2 (fun t row => Forall2 (fun c v => Q c t v) cs row) ts M.
Proof.
  intros Hne F HT. destruct cols as [|c0 cols']; [inversion F; subst; congruence|]. unfold transpose in HT.
  set (cols := c0 :: cols') in *. destruct (forallb _ cols) eqn:EL; [|discriminate].
  apply each_spec in HT. apply F2_nth in HT. destruct HT as [HL HT]. rewrite seq_length in HL.
  assert (L0 : List.length c0 = List.length ts).
  { inversion F as [|? ? ? ? F0]; subst. symmetry. now apply F2_len in F0. }
  apply F2_nth. split; [congruence|]. intros i t row Ht Hrow.
  assert (Hi : i < List.length ts) by (apply nth_error_Some; congruence).
  assert (Hrow' : each (fun d => pick d i) cols = Value row).
  { apply (HT i i row); auto. rewrite (nth_error_nth' _ 0) by (rewrite seq_length; lia). rewrite seq_nth by lia. reflexivity. }
  apply each_spec in Hrow'. clearbody cols. clear -F Hrow' Ht.
  revert row Hrow'. induction F as [|c col cs cols F1 F IH]; intros row H; inversion H; subst; constructor; auto.
  apply pick_spec in H2. apply F2_nth in F1. destruct F1 as [_ F1]. eapply F1; eauto.
Qed.

Lemma transpose_total (ts : list nat) cols : cols <> [] -> (forall c, In c cols -> List.length c = List.length ts) ->
  exists M, transpose B cols = Value M.
Proof.
  intros Hne HL. destruct cols as [|c0 cols']; [congruence|]. unfold transpose. set (cols := c0 :: cols') in *.
  assert (L0 : List.length c0 = List.length ts) by (apply HL; now left).
  assert (EL : forallb (fun d => List.length d =? List.length c0) cols = true).
  { apply forallb_forall. intros c Hc. apply Nat.eqb_eq. rewrite L0. auto. }
  rewrite EL. clearbody cols.
  destruct (F2_total (fun i row => each (fun d => pick d i) cols = Value row) (seq 0 (List.length c0))) as [M HM].
  - intros i Hi. apply in_seq in Hi. destruct (F2_total (fun d v => pick d i = Value v) cols) as [row Hrow].
    + intros d Hd. apply HL in Hd. destruct (nth_error d i) as [v|] eqn:E; [exists v; now apply pick_spec|].
      apply nth_error_None in E. lia.
    + exists row. now apply each_spec.
  - exists M. now apply each_spec.
Qed.

(** * Columns *)

Lemma not_single fit X y P cv ids t v : List.length ids <> 1 ->
  cluster_return fit ret X y P cv ids t v <-> predicted fit ret X y P cv (Some ids) t v.
Proof. destruct ids as [|a [|b l]]; simpl; intros; tauto || lia. Qed.

Lemma selected_seq {C} (l : list C) : selected (seq 0 (List.length l)) l l.
Proof.
  apply F2_nth. rewrite seq_length. split; auto. intros i a b Ha Hb.
  assert (i < List.length l) by (apply nth_error_Some; congruence).
  rewrite (nth_error_nth' _ 0) in Ha by (rewrite seq_length; lia). rewrite seq_nth in Ha by lia. injection Ha as <-. auto.
Qed.

Lemma nco_column_inv fit X y P cv ids col :
  picks_a_path quantile -> interval_folds cv (List.length X) ->
  (forall yt, y = Some yt -> List.length yt = List.length X) ->
  nco_column B W ret quantile fit X y P cv ids = Value col ->
  Forall2 (cluster_return fit ret X y P cv ids) (test_indices B X cv) col.
Proof.
  intros HQ HI Ly H. unfold nco_column, is_single in H. destruct (Nat.eqb_spec (List.length ids) 1) as [E|E].
  - destruct ids as [|j [|]]; try discriminate. apply bind_inv in H. destruct H as (rows & HR & H).
    apply take_spec in HR. apply each_spec in H. simpl in H. apply F2_nth in HR, H. apply F2_nth.
    destruct HR as [L1 HR], H as [L2 H]. split; [congruence|]. intros i t v Ht Hv.
    destruct (nth_error rows i) as [row|] eqn:Er.
    + exists row. split; [eapply HR; eauto|]. apply pick_spec. eapply H; eauto.
    + apply nth_error_None in Er. assert (i < List.length col) by (apply nth_error_Some; congruence). lia.
  - apply bind_inv in H. destruct H as (w & Hw & H).
    cut (Forall2 (predicted fit ret X y P cv (Some ids)) (test_indices B X cv) col).
    { apply F2_imp. intros t v _ _. now apply not_single. }
    destruct cv as [|sh splits|K k pu em]; [|apply cross_val_inv; auto..].
    apply bind_inv in H. destruct H as (rows & HR & H). apply bind_inv in H. destruct H as (sub & HS & H). injection H as <-.
    apply take_spec in HR. apply F2_map_r. apply each_spec in HS.
    assert (HP : part X (test_indices B X Ignore) (Some ids) sub).
    { apply F2_nth in HR, HS. apply F2_nth. destruct HR as [L1 HR], HS as [L2 HS]. split; [congruence|].
      intros i t s Ht Hs. destruct (nth_error rows i) as [row|] eqn:Er.
      - exists row. split; [eapply HR; eauto|]. apply take_spec. eapply HS; eauto.
      - apply nth_error_None in Er. assert (i < List.length sub) by (apply nth_error_Some; congruence). lia. }
    revert HP. apply F2_imp. intros t s _ _ (row & H1 & H2). exists w, row, s. split; auto.
    now apply fit_single_trained.
Qed.

Lemma stacking_column_inv X y cv fit P col :
  picks_a_path quantile -> interval_folds cv (List.length X) ->
  (forall yt, y = Some yt -> List.length yt = List.length X) ->
  stacking_column B W ret quantile X y cv (fit, P) = Value col ->
  Forall2 (predicted fit ret X y P cv None) (test_indices B X cv) col.
Proof.
  intros HQ HI Ly H. unfold stacking_column in H. apply bind_inv in H. destruct H as (w & Hw & H). simpl in *.
  destruct cv as [|sh splits|K k pu em]; [|apply cross_val_inv; auto..].
  injection H as <-. apply F2_map_r. simpl. generalize (selected_seq X). apply F2_imp.
  intros t row _ _ Ht. exists w, row, row. split; auto. apply fit_single_trained; auto.
Qed.

End S.

(** * Theorems *)

(** The outer estimator of a nested clusters optimization is fitted on one row per predicted
    observation, in chronological order, with one entry per cluster: the return of the asset when
    the cluster has one asset, otherwise the return of the inner estimator at that observation.
    With a cross-validation that return comes from a clone that saw only the training observations
    of a split testing that observation, and only the assets of the cluster.  The rows of y are
    those of the same observations. *)
Theorem C77_nco :
  forall (B W : Type) (ret : W -> list B -> B) quantile fit X y P cv clusters M Y ts,
    picks_a_path quantile -> interval_folds cv (List.length X) ->
    (forall yt, y = Some yt -> List.length yt = List.length X) ->
    observations cv (List.length X) ts ->
    nco_outer_data B W ret quantile fit X y P cv clusters = Value (M, Y) ->
    Forall2 (fun t row => Forall2 (fun ids v => cluster_return fit ret X y P cv ids t v) clusters row) ts M /\
    match y, Y with None, None => True | Some yt, Some Yt => selected ts yt Yt | _, _ => False end.
Proof.
  intros B W ret quantile fit X y P cv clusters M Y ts HQ HI Ly HO H.
  rewrite (observations_unique _ _ _ _ HO (test_indices_obs _ X cv)) in *. clear HO ts.
  unfold nco_outer_data in H. apply bind_inv in H. destruct H as (cols & HC & H).
  apply bind_inv in H. destruct H as (Yp & HY & H). apply bind_inv in H. destruct H as (M' & HM & H). injection H as -> ->.
  apply each_spec in HC. split.
  - apply (transpose_inv _ (fun ids t v => cluster_return fit ret X y P cv ids t v) clusters _ cols); auto.
    + intros ->. inversion HC; subst. discriminate.
    + revert HC. apply F2_imp. intros ids col _ _. now apply nco_column_inv.
  - destruct y as [yt|].
    + apply bind_inv in HY. destruct HY as (y' & HT & E). injection E as <-. now apply take_spec.
    + injection HY as <-. exact I.
Qed.
Print Assumptions C77_nco.

(** Likewise for the final estimator of a stacking, with one entry per estimator and all the
    assets. *)
Theorem C77_stacking :
  forall (B W : Type) (ret : W -> list B -> B) quantile X y cv estimators M Y ts,
    picks_a_path quantile -> interval_folds cv (List.length X) ->
    (forall yt, y = Some yt -> List.length yt = List.length X) ->
    observations cv (List.length X) ts ->
    stacking_final_data B W ret quantile X y cv estimators = Value (M, Y) ->
    Forall2 (fun t row => Forall2 (fun e v => predicted (fst e) ret X y (snd e) cv None t v) estimators row) ts M /\
    match y, Y with None, None => True | Some yt, Some Yt => selected ts yt Yt | _, _ => False end.
Proof.
  intros B W ret quantile X y cv ests M Y ts HQ HI Ly HO H.
  rewrite (observations_unique _ _ _ _ HO (test_indices_obs _ X cv)) in *. clear HO ts.
  unfold stacking_final_data in H. apply bind_inv in H. destruct H as (cols & HC & H).
  apply bind_inv in H. destruct H as (M' & HM & H). apply each_spec in HC.
  assert (EM : M' = M /\ match y, Y with None, None => True | Some yt, Some Yt => selected (test_indices B X cv) yt Yt | _, _ => False end).
  { destruct cv as [|sh splits|K k pu em], y as [yt|].
    2,4,6: injection H as <- <-; auto.
    2: apply bind_inv in H; destruct H as (y' & HT & E); injection E as <- <-; split; auto; now apply take_spec.
    all: injection H as <- <-; split; auto; simpl; rewrite <- (Ly yt eq_refl); apply selected_seq. }
  destruct EM as [-> EY]. split; auto.
  apply (transpose_inv _ (fun e t v => predicted (fst e) ret X y (snd e) cv None t v) ests _ cols); auto.
  - intros ->. inversion HC; subst. discriminate.
  - revert HC. apply F2_imp. intros [fit P] col _ _. now apply stacking_column_inv.
Qed.
Print Assumptions C77_stacking.

(** The fits that give the inner weights see all the observations, and the columns of the cluster
    in X, in y and in the parameters. *)
Theorem C77_weights_fit :
  forall (B W : Type) fit X y P ids (w : W),
    (forall yt, y = Some yt -> List.length yt = List.length X) ->
    fit_single_estimator B W fit X y P (Some ids) Columns = Value w ->
    trained fit X y P (seq 0 (List.length X)) (Some ids) (Some ids) w.
Proof. intros B W fit X y P ids w Ly H. apply fit_single_trained; auto. Qed.
Print Assumptions C77_weights_fit.

(** two data sets have the same observations [rows] *)
Definition same_data {B} (rows : list nat) (X X' : list (list B)) (y y' : option (list (list B)))
           (P P' : list (string * list (list B))) : Prop :=
  agree_on rows X X' /\
  match y, y' with None, None => True | Some yt, Some yt' => agree_on rows yt yt' | _, _ => False end /\
  Forall2 (fun kv kv' => fst kv = fst kv' /\ agree_on rows (snd kv) (snd kv')) P P'.

Lemma selected_fun {B} idx (l r r' : list B) : selected idx l r -> selected idx l r' -> r = r'.
Proof. apply F2_fun. intros. congruence. Qed.

Lemma part_agree {B} (D D' E E' : list (list B)) rows cols :
  agree_on rows D D' -> part D rows cols E -> part D' rows cols E' -> E = E'.
Proof.
  intros HA H1 H2.
  assert (H2' : part D rows cols E').
  { revert H2. apply F2_imp. intros t e Ht _ (d & Hd & H). exists d. split; auto. rewrite HA; auto. }
  revert H1 H2'. apply F2_fun. intros t e e' Ht (d & Hd & H) (d' & Hd' & H').
  replace d' with d in * by congruence. destruct cols; [eapply selected_fun; eauto|congruence].
Qed.

Lemma trained_agree {B W} fit (X X' : list (list B)) y y' P P' rows cols pcols (w w' : W) :
  same_data rows X X' y y' P P' ->
  trained fit X y P rows cols pcols w -> trained fit X' y' P' rows cols pcols w' -> w = w'.
Proof.
  intros (HX & Hy & HP) (Xs & ys & Ps & A1 & A2 & A3 & ->) (Xs' & ys' & Ps' & B1 & B2 & B3 & ->).
  f_equal.
  - eapply part_agree; eauto.
  - destruct y, ys; try contradiction; destruct y', ys'; try contradiction; auto. f_equal. eapply part_agree; eauto.
  - clear -HP A3 B3. revert Ps Ps' A3 B3. induction HP as [|kv kv' P P' [E HA] F IH]; intros Ps Ps' A3 B3.
    + inversion A3; inversion B3; auto.
    + inversion A3 as [|? a ? Pa [E1 Q1] A3']; inversion B3 as [|? b ? Pb [E2 Q2] B3']; subst. f_equal; auto.
      destruct a, b; simpl in *. f_equal; [congruence|]. eapply part_agree; eauto.
Qed.

Lemma same_data_refl {B} rows (X : list (list B)) y P : same_data rows X X y y P P.
Proof.
  split; [intros z _; reflexivity|]. split; [destruct y; auto; intros z _; reflexivity|].
  induction P; constructor; auto. split; auto. intros z _. reflexivity.
Qed.

Lemma fold_unique (splits : list (list nat * list nat)) t tr te tr' te' :
  NoDup (concat (map snd splits)) -> In (tr, te) splits -> In (tr', te') splits -> In t te -> In t te' -> tr = tr'.
Proof.
  intros ND. induction splits as [|[a b] l IH]; intros H H' Ht Ht'; [destruct H|]. simpl in ND.
  assert (ND2 : NoDup (concat (map snd l))).
  { revert ND. clear. induction b; simpl; auto. intros N. inversion N; auto. }
  assert (HD : forall z, In z b -> In z (concat (map snd l)) -> False).
  { revert ND. clear. induction b as [|x b IHb]; simpl; [tauto|]. intros N z [->|Hz] Hc; inversion N as [|? ? N1 N2]; subst.
    - apply N1. apply in_or_app. now right.
    - eapply IHb; eauto. }
  destruct H as [E|H], H' as [E'|H'].
  - congruence.
  - injection E as <- <-. exfalso. apply (HD t Ht). apply in_concat. exists te'. split; auto. now apply (in_map snd _ (tr', te')).
  - injection E' as <- <-. exfalso. apply (HD t Ht'). apply in_concat. exists te. split; auto. now apply (in_map snd _ (tr, te)).
  - now apply IH.
Qed.

Lemma nco_nodup {B W} (ret : W -> list B -> B) quantile fit X y P sh splits clusters R ids :
  nco_outer_data B W ret quantile fit X y P (Splitter sh splits) clusters = Value R ->
  In ids clusters -> List.length ids <> 1 -> NoDup (concat (map snd splits)).
Proof.
  intros H Hi Hl. unfold nco_outer_data in H. apply bind_inv in H. destruct H as (cols & HC & _).
  apply each_spec in HC.
  assert (exists col, nco_column B W ret quantile fit X y P (Splitter sh splits) ids = Value col) as [col Hc].
  { clear -HC Hi. induction HC; [destruct Hi|destruct Hi as [<-|Hi]; eauto]. }
  unfold nco_column, is_single in Hc. apply Nat.eqb_neq in Hl. rewrite Hl in Hc.
  apply bind_inv in Hc. destruct Hc as (w & _ & Hc). eapply splitter_nodup; eauto.
Qed.

Lemma F2_fun2 {B C} (Q Q' : B -> C -> Prop) l1 l2 l3 :
  (forall a b c, In a l1 -> Q a b -> Q' a c -> b = c) -> Forall2 Q l1 l2 -> Forall2 Q' l1 l3 -> l2 = l3.
Proof.
  intros H F. revert l3. induction F as [|a b l1 l2 Q1 F IH]; intros l3 G; inversion G; subst; auto.
  f_equal; [eapply H; eauto; now left|]. apply IH; auto. intros. eapply H; eauto. now right.
Qed.

Lemma predicted_agree {B W} fit (ret : W -> list B -> B) X X' y y' P P' sh splits cols t v v' :
  NoDup (concat (map snd splits)) ->
  (forall tr te, In (tr, te) splits -> In t te -> same_data tr X X' y y' P P') ->
  nth_error X t = nth_error X' t ->
  predicted fit ret X y P (Splitter sh splits) cols t v ->
  predicted fit ret X' y' P' (Splitter sh splits) cols t v' -> v = v'.
Proof.
  intros ND HS HX (w & r & s & (tr & (te & T1 & T2) & T3) & R1 & R2 & ->)
    (w' & r' & s' & (tr' & (te' & T1' & T2') & T3') & R1' & R2' & ->).
  assert (tr = tr') as <- by (eapply fold_unique; eauto).
  replace r' with r in * by congruence. f_equal.
  - eapply trained_agree; eauto.
  - destruct cols; [eapply selected_fun; eauto|congruence].
Qed.

(** No leak: with a splitter, the row of an observation depends only on the training sets of the
    splits that test it and on the returns of that observation.  Change anything else, in the test
    fold, after it or before, and the row stays the same. *)
Theorem C77_no_leak :
  forall (B W : Type) (ret : W -> list B -> B) quantile fit X X' y y' P P' sh splits clusters M M' Y Y' ts i t,
    picks_a_path quantile ->
    (forall tr te, In (tr, te) splits -> contiguous te) ->
    List.length X' = List.length X ->
    (forall yt, y = Some yt -> List.length yt = List.length X) ->
    (forall yt, y' = Some yt -> List.length yt = List.length X') ->
    observations (Splitter sh splits) (List.length X) ts ->
    nth_error ts i = Some t ->
    nco_outer_data B W ret quantile fit X y P (Splitter sh splits) clusters = Value (M, Y) ->
    nco_outer_data B W ret quantile fit X' y' P' (Splitter sh splits) clusters = Value (M', Y') ->
    (forall tr te, In (tr, te) splits -> In t te -> same_data tr X X' y y' P P') ->
    agree_on [t] X X' ->
    nth_error M i = nth_error M' i.
Proof.
  intros B W ret quantile fit X X' y y' P P' sh splits clusters M M' Y Y' ts i t HQ HI LX Ly Ly' HO Ht H H' HS HA.
  destruct (C77_nco B W ret quantile fit X y P (Splitter sh splits) clusters M Y ts HQ HI Ly HO H) as [F _].
  destruct (C77_nco B W ret quantile fit X' y' P' (Splitter sh splits) clusters M' Y' ts HQ HI Ly' HO H') as [F' _].
  apply F2_nth in F, F'. destruct F as [L F], F' as [L' F'].
  assert (Hi : i < List.length ts) by (apply nth_error_Some; congruence).
  destruct (nth_error M i) as [row|] eqn:E; [|apply nth_error_None in E; lia].
  destruct (nth_error M' i) as [row'|] eqn:E'; [|apply nth_error_None in E'; lia].
  f_equal. specialize (F i t row Ht E). specialize (F' i t row' Ht E'). simpl in F, F'.
  assert (HX : nth_error X t = nth_error X' t) by (apply HA; now left).
  revert F F'. apply F2_fun2. intros ids v v' Hin R R'. destruct (Nat.eq_dec (List.length ids) 1) as [E1|E1].
  - destruct ids as [|j [|]]; try discriminate. destruct R as (r & R1 & R2), R' as (r' & R1' & R2'). congruence.
  - apply not_single in R, R'; auto. eapply predicted_agree; eauto.
    eapply (nco_nodup _ _ _ _ _ _ _ _ _ _ _ H); eauto.
Qed.
Print Assumptions C77_no_leak.

Theorem C77_stacking_no_leak :
  forall (B W : Type) (ret : W -> list B -> B) quantile X X' y y' sh splits es es' M M' Y Y' ts i t,
    picks_a_path quantile ->
    (forall tr te, In (tr, te) splits -> contiguous te) ->
    List.length X' = List.length X ->
    (forall yt, y = Some yt -> List.length yt = List.length X) ->
    (forall yt, y' = Some yt -> List.length yt = List.length X') ->
    observations (Splitter sh splits) (List.length X) ts ->
    nth_error ts i = Some t ->
    stacking_final_data B W ret quantile X y (Splitter sh splits) es = Value (M, Y) ->
    stacking_final_data B W ret quantile X' y' (Splitter sh splits) es' = Value (M', Y') ->
    Forall2 (fun e e' => fst e = fst e' /\
               forall tr te, In (tr, te) splits -> In t te -> same_data tr X X' y y' (snd e) (snd e')) es es' ->
    agree_on [t] X X' ->
    nth_error M i = nth_error M' i.
Proof.
  intros B W ret quantile X X' y y' sh splits es es' M M' Y Y' ts i t HQ HI LX Ly Ly' HO Ht H H' HS HA.
  destruct (C77_stacking B W ret quantile X y (Splitter sh splits) es M Y ts HQ HI Ly HO H) as [F _].
  destruct (C77_stacking B W ret quantile X' y' (Splitter sh splits) es' M' Y' ts HQ HI Ly' HO H') as [F' _].
  assert (ND : es <> [] -> NoDup (concat (map snd splits))).
  { intros Hne. destruct es as [|[f P] es]; [congruence|]. unfold stacking_final_data in H.
    apply bind_inv in H. destruct H as (cols & HC & _). apply each_spec in HC. inversion HC as [|? col ? ? Hc]; subst.
    unfold stacking_column in Hc. apply bind_inv in Hc. destruct Hc as (w & _ & Hc). eapply splitter_nodup; eauto. }
  apply F2_nth in F, F'. destruct F as [L F], F' as [L' F'].
  assert (Hi : i < List.length ts) by (apply nth_error_Some; congruence).
  destruct (nth_error M i) as [row|] eqn:E; [|apply nth_error_None in E; lia].
  destruct (nth_error M' i) as [row'|] eqn:E'; [|apply nth_error_None in E'; lia].
  f_equal. specialize (F i t row Ht E). specialize (F' i t row' Ht E'). simpl in F, F'.
  assert (HX : nth_error X t = nth_error X' t) by (apply HA; now left).
  assert (ND' : es = [] \/ NoDup (concat (map snd splits))).
  { destruct es; [now left|]. right. apply ND. discriminate. }
  clear -F F' HS HX ND'. revert row row' F F'.
  induction HS as [|e e' es es' [E1 E2] HS IH]; intros row row' F F'; inversion F; inversion F'; subst; auto.
  destruct ND' as [ND'|ND']; [discriminate|]. f_equal.
  - destruct e, e'; simpl in *. subst. eapply predicted_agree; eauto.
  - apply IH; auto.
Qed.
Print Assumptions C77_stacking_no_leak.

(** With the walk-forward splitter the row of an observation depends on nothing after it. *)
Theorem C77_walk_forward_causal :
  forall (B W : Type) (ret : W -> list B -> B) quantile fit X X' y y' P P' tr te pu expend reduce fuel splits
         clusters M M' Y Y' i,
    picks_a_path quantile ->
    0 < te -> tr + pu < List.length X -> List.length X < fuel ->
    split_without_period (List.length X) tr te pu expend reduce fuel = Fin splits ->
    List.length X' = List.length X ->
    (forall yt, y = Some yt -> List.length yt = List.length X) ->
    (forall yt, y' = Some yt -> List.length yt = List.length X') ->
    nco_outer_data B W ret quantile fit X y P (Splitter None splits) clusters = Value (M, Y) ->
    nco_outer_data B W ret quantile fit X' y' P' (Splitter None splits) clusters = Value (M', Y') ->
    same_data (seq 0 (S (tr + pu + i))) X X' y y' P P' ->
    nth_error M i = nth_error M' i.
Proof.
  intros B W ret quantile fit X X' y y' P P' tr te pu ex red fuel splits clusters M M' Y Y' i HQ Hte Hn Hf HSp LX Ly Ly' H H' HD.
  destruct (C05_walk_forward_splits (List.length X) tr te pu ex red Hte Hn) as (sp & HF & OK & _).
  rewrite (HF fuel Hf) in HSp. injection HSp as ->. destruct OK as [TR TE LA (len & TI & _)].
  assert (HI : forall a b, In (a, b) splits -> contiguous b).
  { intros a b Hi. apply In_nth_error in Hi. destruct Hi as [k Hk]. destruct (TE k a b Hk) as (Ne & l & -> & _). destruct l as [|l]; [simpl in Ne; congruence|]. exists (tr + pu + k * te), l. reflexivity. }
  assert (HO : observations (Splitter None splits) (List.length X) (seq (tr + pu) len)).
  { simpl. rewrite TI. split; [apply lt_le_sorted, seq_SSorted|reflexivity]. }
  destruct (C77_nco B W ret quantile fit X y P (Splitter None splits) clusters M Y _ HQ HI Ly HO H) as [F _].
  destruct (C77_nco B W ret quantile fit X' y' P' (Splitter None splits) clusters M' Y' _ HQ HI Ly' HO H') as [F' _].
  apply F2_len in F, F'. rewrite seq_length in F, F'. destruct (Nat.lt_ge_cases i len) as [Hi|Hi].
  - refine (C77_no_leak B W ret quantile fit X X' y y' P P' None splits clusters M M' Y Y' (seq (tr + pu) len) i (tr + pu + i) HQ HI LX Ly Ly' HO _ H H' _ _).
    + rewrite (nth_error_nth' _ 0) by (rewrite seq_length; lia). now rewrite seq_nth.
    + intros a b Hab Ht. destruct HD as (D1 & D2 & D3).
      assert (HS : forall z, In z a -> In z (seq 0 (S (tr + pu + i)))).
      { intros z Hz. apply in_seq. assert (z + pu < tr + pu + i) by (eapply LA; eauto). lia. }
      split; [intros z Hz; apply D1; auto|]. split.
      * destruct y, y'; try contradiction; auto. intros z Hz. apply D2; auto.
      * revert D3. apply F2_imp. intros kv kv' _ _ [E1 E2]. split; auto. intros z Hz. apply E2; auto.
    + intros z [<-|[]]. apply HD. apply in_seq. lia.
  - assert (E1 : nth_error M i = None) by (apply nth_error_None; lia).
    assert (E2 : nth_error M' i = None) by (apply nth_error_None; lia). congruence.
Qed.
Print Assumptions C77_walk_forward_causal.

(** * When there is a result *)

(** the splits that cross_val_predict accepts, within the sample *)
Definition accepted (cv : cross_validation) (n : nat) : Prop :=
  match cv with
  | Ignore => True
  | Splitter shuffle splits =>
      splits <> [] /\ (forall tr te, In (tr, te) splits -> te <> [] /\ forall t, In t tr \/ In t te -> t < n) /\
      NoDup (concat (map snd splits)) /\
      (shuffle = Some false \/
       (shuffle = None /\ forall tr te r, splits = (tr, te) :: r -> StronglySorted lt tr /\ StronglySorted lt te))
  | Combinatorial K k pu em => pu + em + 1 < n / K
  end.

(** a table with one row per observation in which the columns [ids] exist *)
Definition has_columns {B} (n : nat) (ids : list nat) (D : list (list B)) : Prop :=
  List.length D = n /\ forall d j, In d D -> In j ids -> j < List.length d.

Lemma selected_total {B} (l : list B) idx : (forall i, In i idx -> i < List.length l) -> exists r, selected idx l r.
Proof.
  intros H. apply F2_total. intros i Hi. apply H in Hi. destruct (nth_error l i) eqn:E; eauto.
  apply nth_error_None in E. lia.
Qed.

Lemma colsel_total {B} (D : list (list B)) ids :
  (forall d j, In d D -> In j ids -> j < List.length d) -> exists E, Forall2 (colsel B (Some ids)) D E.
Proof. intros H. apply F2_total. intros d Hd. apply selected_total. eauto. Qed.

Lemma fold_below K n f t : 0 < K -> 0 < n / K -> f < K -> In t (fold_index K n f) -> t < n.
Proof.
  intros HK Hm Hf Ht.
  assert (H : In t (concat (map (fold_index K n) (seq 0 K)))).
  { apply in_concat. exists (fold_index K n f). split; auto. apply in_map. apply in_seq. lia. }
  rewrite folds_concat in H by auto. apply in_seq in H. lia.
Qed.

Lemma paths_positive K k : ctor_ok K k = true -> 0 < n_test_paths K k.
Proof.
  intros H. destruct (ctor_bounds _ _ H) as (H1 & H2 & H3). rewrite n_test_paths_comb by lia.
  apply (comb_pos K k); lia.
Qed.

Lemma cross_val_total B W (ret : W -> list B -> B) quantile fit X Xc y yc P cv cols :
  (forall population, population <> [] -> exists s, quantile population = Some s) ->
  interval_folds cv (List.length X) -> accepted cv (List.length X) -> cv <> Ignore ->
  Forall2 (colsel B cols) X Xc ->
  match y, yc with None, None => True | Some yt, Some yr => Forall2 (colsel B cols) yt yr /\ List.length yt = List.length X | _, _ => False end ->
  (forall kv, In kv P -> List.length (snd kv) = List.length X) ->
  exists l, cross_val_returns B W ret quantile fit X y cv P cols = Value l.
Proof.
  intros HQ HI HA HN HX Hy HP. unfold cross_val_returns.
  assert (LX := F2_len _ _ _ HX). apply columns_spec in HX.
  assert (E : exists r, safe_split B X y cols Columns = Value (Xc, r)
              /\ (forall yr, r = Some yr -> List.length yr = List.length Xc)).
  { unfold safe_split. rewrite HX. cbn [bind]. destruct y as [yt|], yc as [yr|]; try contradiction.
    - destruct Hy as [Hy HyL]. assert (Ly := F2_len _ _ _ Hy). apply columns_spec in Hy. rewrite Hy. cbn [bind].
      eexists. split; [reflexivity|]. intros r [= <-]. lia.
    - eexists. split; [reflexivity|]. discriminate. }
  destruct E as (yc' & E & Ly). rewrite E. cbn [bind fst snd].
  assert (FT : forall tr te, (forall t, In t tr \/ In t te -> t < List.length X) ->
               exists p, fit_and_predict B W ret fit Xc yc' tr te P = Value p).
  { intros tr te Ht. apply fit_and_predict_total; auto.
    - intros kv Hi. rewrite <- LX. auto.
    - rewrite <- LX. auto. }
  assert (EI : forall (l : list (result (list B))), (forall x, In x l -> exists p, x = Value p) ->
               exists r, each (fun p => p) l = Value r).
  { intros l H. destruct (F2_total (fun x p => x = Value p) l H) as [r Hr]. exists r. now apply each_spec. }
  destruct cv as [|sh splits|K k pu em]; [congruence| |].
  - destruct HA as (A1 & A2 & A3 & A4).
    destruct (C07_accepts _ (fun tr te => fit_and_predict B W ret fit Xc yc' tr te P) sh splits A1) as [pf HPf]; auto.
    { intros tr te Hi. now apply (A2 tr te). }
    rewrite HPf. destruct (C07_every_fold_once _ _ _ _ _ HPf) as (order & PO & -> & _).
    destruct (EI (map (fun s => fit_and_predict B W ret fit Xc yc' (fst s) (snd s) P) order)) as [r Hr].
    { intros x Hx. apply in_map_iff in Hx. destruct Hx as ([tr te] & <- & Hi). apply FT. simpl.
      apply (A2 tr te). eapply Permutation_in; eauto. }
    rewrite Hr. cbn [bind]. eauto.
  - destruct HI as [HC HM]. simpl in HA. destruct (ctor_bounds _ _ HC) as (HK & _ & _).
    destruct (cpcv_split K k pu em (List.length X)) as [splits|] eqn:ES; [|apply C03_split_raises_iff in ES; lia].
    destruct (C07_combinatorial_paths (result (list B)) (fun tr te => fit_and_predict B W ret fit Xc yc' tr te P)
                K k pu em (List.length X) splits HC ES) as (paths & EP & LP & HPa).
    rewrite EP. assert (PP := paths_positive K k HC).
    match goal with |- context [each ?f paths] => assert (exists pop, each f paths = Value pop) as [pop Hpop] end.
    { destruct (F2_total (fun path l => bind (each (fun p => p) path) (fun l => Value (concat l)) = Value l) paths) as [pop Hpop].
      - intros path Hi. apply In_nth_error in Hi. destruct Hi as [p Hi].
        assert (Hp : p < List.length paths) by (apply nth_error_Some; congruence).
        rewrite (nth_error_nth' _ [] Hp) in Hi. injection Hi as <-.
        destruct (HPa p) as (sof & Hs & ->); [lia|].
        match goal with |- context [each _ ?l] => destruct (EI l) as [r ->] end; [|cbn [bind]; eauto].
        intros x Hx. apply in_map_iff in Hx. destruct Hx as (f & <- & Hf). apply in_seq in Hf.
        destruct (Hs f ltac:(lia)) as [H1 H2]. apply FT. intros t [Ht|Ht].
        + assert (Hin : In (nth (sof f) splits ([], [])) splits) by now apply nth_In.
          destruct (nth (sof f) splits ([], [])) as [tr tests]. 
          apply (proj2 (C03_train_is_purged_complement K k pu em (List.length X) splits tr tests HC ES Hin)) in Ht. apply Ht.
        + apply (fold_below K _ f); auto; lia.
      - exists pop. now apply each_spec. }
    rewrite Hpop. cbn [bind]. destruct (HQ pop) as [s ->]; [|eauto].
    intros ->. apply each_spec, F2_len in Hpop. simpl in Hpop. lia.
Qed.

(** The data of the outer estimator exist: every cluster column is in X, in y and in the
    parameters, which have one row per observation; the splits are accepted. *)
Theorem C77_nco_total :
  forall (B W : Type) (ret : W -> list B -> B) quantile fit X y P cv clusters,
    picks_a_path quantile ->
    (forall population, population <> [] -> exists s, quantile population = Some s) ->
    interval_folds cv (List.length X) -> accepted cv (List.length X) ->
    clusters <> [] ->
    (forall ids, In ids clusters -> has_columns (List.length X) ids X) ->
    (forall yt, y = Some yt -> List.length yt = List.length X) ->
    (forall ids, In ids clusters -> List.length ids <> 1 ->
       (forall yt, y = Some yt -> has_columns (List.length X) ids yt) /\
       (forall kv, In kv P -> has_columns (List.length X) ids (snd kv))) ->
    exists M Y, nco_outer_data B W ret quantile fit X y P cv clusters = Value (M, Y).
Proof.
  intros B W ret quantile fit X y P cv clusters HQ HQ' HI HA Hne HX Ly HyP.
  assert (Hts : forall t, In t (test_indices B X cv) -> t < List.length X).
  { assert (HO := test_indices_obs B X cv). destruct cv as [|sh splits|K k pu em].
    1,3: simpl; intros t Ht; apply in_seq in Ht; lia.
    destruct HO as [_ PO]. intros t Ht. apply (Permutation_in _ PO) in Ht. apply in_concat in Ht.
    destruct Ht as (te & Hte & Ht). apply in_map_iff in Hte. destruct Hte as ([tr te'] & <- & Hi).
    destruct HA as (_ & A2 & _). eapply (A2 tr te'); eauto. }
  assert (HC : forall ids, In ids clusters -> exists col, nco_column B W ret quantile fit X y P cv ids = Value col).
  { intros ids Hi. destruct (HX ids Hi) as [_ HXi]. unfold nco_column, is_single.
    destruct (selected_total X _ Hts) as [rows HR].
    assert (Hrow : forall d, In d rows -> In d X).
    { clear -HR. intros d Hd. induction HR as [|? ? ? ? H1]; [destruct Hd|]. destruct Hd as [<-|Hd]; auto.
      eapply nth_error_In; eauto. }
    assert (HR' := HR). apply take_spec in HR'.
    destruct (Nat.eqb_spec (List.length ids) 1) as [E|E].
    - rewrite HR'. cbn [bind]. destruct ids as [|j [|]]; try discriminate. simpl.
      destruct (F2_total (fun row v => pick row j = Value v) rows) as [col Hc]; [|exists col; now apply each_spec].
      intros d Hd. assert (j < List.length d) by (apply HXi; [auto|now left]).
      destruct (nth_error d j) eqn:En; [|apply nth_error_None in En; lia]. eexists. apply pick_spec. exact En.
    - destruct (HyP ids Hi E) as [Hy HP]. destruct (colsel_total X ids HXi) as [Xc HXc].
      destruct (fit_single_total B W fit X y P (Some ids)) as [w Hw].
      { intros kv Hk. destruct (HP kv Hk) as [L1 L2]. split; auto. now apply colsel_total. }
      { eauto. }
      { intros yt ->. apply colsel_total. now apply Hy. }
      rewrite Hw. cbn [bind].
      assert (HCV : cv <> Ignore -> exists col, cross_val_returns B W ret quantile fit X y cv P (Some ids) = Value col).
      { intros HN. assert (exists yc, match y, yc with None, None => True | Some yt, Some yr => Forall2 (colsel B (Some ids)) yt yr /\ List.length yt = List.length X | _, _ => False end) as [yc Hyc].
        { destruct y as [yt|]; [|exists None; exact I]. destruct (colsel_total yt ids) as [yr Hr]; [now apply Hy|].
          exists (Some yr). split; auto. }
        apply (cross_val_total B W ret quantile fit X Xc y yc); auto. intros kv Hk. now apply (HP kv Hk). }
      destruct cv; [|apply HCV; discriminate..].
      rewrite HR'. cbn [bind].
      destruct (F2_total (fun row sub => take ids row = Value sub) rows) as [subs HS].
      { intros d Hd. destruct (selected_total d ids) as [s Hs]; [intros; apply HXi; auto|]. exists s. now apply take_spec. }
      apply each_spec in HS. rewrite HS. cbn [bind]. eauto. }
  unfold nco_outer_data. destruct (F2_total (fun ids col => nco_column B W ret quantile fit X y P cv ids = Value col) clusters HC) as [cols HCs].
  assert (HCe := HCs). apply each_spec in HCe. rewrite HCe. cbn [bind].
  match goal with |- context [bind ?m _] => assert (exists Yp, m = Value Yp) as [Yp ->] end.
  { destruct y as [yt|]; [|eauto]. destruct (selected_total yt (test_indices B X cv)) as [r Hr].
    - rewrite (Ly yt eq_refl). auto.
    - apply take_spec in Hr. rewrite Hr. cbn [bind]. eauto. }
  cbn [bind]. destruct (transpose_total B (test_indices B X cv) cols) as [M ->].
  - intros ->. inversion HCs; subst. congruence.
  - intros c Hc. assert (HL : Forall2 (fun (ids : list nat) col => List.length col = List.length (test_indices B X cv)) clusters cols).
    { revert HCs. apply F2_imp. intros ids col _ _ Hcol. apply nco_column_inv in Hcol; auto. symmetry. now apply F2_len in Hcol. }
    clear -HL Hc. induction HL; [destruct Hc|]. destruct Hc as [<-|Hc]; auto.
  - cbn [bind]. eauto.
Qed.
Print Assumptions C77_nco_total.

(** * Findings *)

(** y (factors or benchmarks) is sliced with the positions of the assets of the cluster: as soon as
    a cluster of several assets contains an asset whose position is not the position of a factor,
    the fit raises, whatever the cross-validation. *)
Theorem C77_factors_refuted :
  forall (B W : Type) (ret : W -> list B -> B) quantile fit X yt P cv clusters ids j d,
    In ids clusters -> List.length ids <> 1 -> In j ids -> In d yt -> List.length d <= j ->
    forall r, nco_outer_data B W ret quantile fit X (Some yt) P cv clusters <> Value r.
Proof.
  intros B W ret quantile fit X yt P cv clusters ids j d Hi Hl Hj Hd Hlen r H.
  unfold nco_outer_data in H. apply bind_inv in H. destruct H as (cols & HC & _). apply each_spec in HC.
  assert (exists col, nco_column B W ret quantile fit X (Some yt) P cv ids = Value col) as [col Hc].
  { clear -HC Hi. induction HC; [destruct Hi|destruct Hi as [<-|Hi]; eauto]. }
  unfold nco_column, is_single in Hc. apply Nat.eqb_neq in Hl. rewrite Hl in Hc.
  apply bind_inv in Hc. destruct Hc as (w & Hw & _). apply fit_single_inv in Hw.
  destruct Hw as (_ & Xs & ys & Ps & _ & Hy & _). destruct ys as [yr|]; [|contradiction].
  assert (exists e, selected ids d e) as [e He].
  { clear -Hy Hd. induction Hy; [destruct Hd|]. destruct Hd as [<-|Hd]; eauto. }
  clear -He Hj Hlen. induction He as [|a b l l' H1]; [destruct Hj|]. destruct Hj as [->|Hj]; auto.
  assert (nth_error d j <> None) as N by congruence. apply nth_error_Some in N. lia.
Qed.
Print Assumptions C77_factors_refuted.

(** When there are enough factors, each cluster is fitted on some of the factors only: with four
    assets, four factors and two clusters, the second cluster sees the factors 2 and 3. *)
Theorem C77_factor_subset_refuted :
  exists (X yt : list (list nat)) ids w,
    fit_single_estimator nat (option (list (list nat))) (fun _ y _ => y) X (Some yt) [] (Some ids) Columns = Value w /\
    (forall d, In d yt -> List.length d = 4) /\
    exists yr, w = Some yr /\ forall d, In d yr -> List.length d = 2.
Proof.
  exists [[1;2;3;4];[5;6;7;8]], [[11;12;13;14];[15;16;17;18]], [2;3]. eexists. split; [reflexivity|].
  split; [intros d [<-|[<-|[]]]; reflexivity|]. eexists. split; [reflexivity|].
  intros d [<-|[<-|[]]]; reflexivity.
Qed.
Print Assumptions C77_factor_subset_refuted.

(** The parameters of the cross-validated fits keep all their columns, although the same estimator
    gets the columns of its cluster when it is fitted for the weights. *)
Theorem C77_params_refuted :
  exists (X : list (list nat)) (P : list (string * list (list nat))) ids w col,
    let width := fun (_ : list (list nat)) (_ : option (list (list nat))) (p : list (string * list (list nat))) =>
                   match p with (_, d :: _) :: _ => List.length d | _ => 0 end in
    (* the prediction is the number of columns of the parameter that the estimator was fitted with *)
    let ret := fun (w : nat) (_ : list nat) => w in
    fit_single_estimator nat nat width X None P (Some ids) Columns = Value w /\ w = List.length ids /\
    cross_val_returns nat nat ret (fun _ => None) width X None
      (Splitter (Some false) [([2;3], [0;1]); ([0;1], [2;3])]) P (Some ids) = Value col /\
    forall v, In v col -> v = 4.
Proof.
  exists [[1;2;3;4];[5;6;7;8];[1;2;3;4];[5;6;7;8]], [("implied_vol"%string, [[1;2;3;4];[5;6;7;8];[1;2;3;4];[5;6;7;8]])], [1;3].
  eexists. eexists. simpl. split; [reflexivity|]. split; [reflexivity|]. split; [reflexivity|].
  intros v H. simpl in H. intuition.
Qed.
Print Assumptions C77_params_refuted.

(** With interleaved test folds, which cross_val_predict accepts, the returns of the clusters are
    in the order of the folds while the returns of the assets are in chronological order: a row of
    the data of the outer estimator mixes two dates. *)
Theorem C77_interleaved_refuted :
  exists (X : list (list nat)) splits M,
    (* every asset returns the date *)
    (forall t d v, nth_error X t = Some d -> In v d -> v = t) /\
    (forall tr te, In (tr, te) splits -> StronglySorted lt te) /\
    (* the inner estimator returns the return of its first asset *)
    nco_outer_data nat unit (fun _ row => hd 0 row) (fun _ => None) (fun _ _ _ => tt) X None []
      (Splitter None splits) [[0; 1]; [2]] = Value (M, None) /\
    exists a b, In [a; b] M /\ a <> b.
Proof.
  exists [[0;0;0];[1;1;1];[2;2;2];[3;3;3]], [([1;3], [0;2]); ([0;2], [1;3])]. eexists. split; [|split; [|split]].
  - intros t d v Ht Hv. destruct t as [|[|[|[|t]]]]; simpl in Ht; try (injection Ht as <-; simpl in Hv; intuition; subst; auto; fail).
    destruct t; discriminate.
  - intros tr te H. apply strictly_increasing_spec. simpl in H. destruct H as [[= <- <-]|[[= <- <-]|[]]]; reflexivity.
  - reflexivity.
  - exists 2, 1. split; [simpl; auto|lia].
Qed.
Print Assumptions C77_interleaved_refuted.

(** * Non-vacuity *)

Definition ex_X : list (list nat) := map (fun t => [t; 10 + t; 20 + t]) (seq 0 10).
Definition ex_fit (X : list (list nat)) (_ : option (list (list nat))) (_ : list (string * list (list nat))) : nat := List.length X.
Definition ex_ret (w : nat) (row : list nat) : nat := w * 1000 + fold_right Nat.add 0 row.
Definition ex_quantile (p : list (list nat)) : option (list nat) := match p with [] => None | s :: _ => Some s end.

Example C77_quantile_ok : picks_a_path ex_quantile /\ (forall p, p <> [] -> exists s, ex_quantile p = Some s).
Proof.
  split.
  - intros [|s p] x; simpl; [discriminate|]. intros [= <-]. now left.
  - intros [|s p]; [congruence|]. simpl. eauto.
Qed.

(** walk-forward, two clusters, one of them a single asset *)
Example C77_applies : exists splits M,
  split_without_period 10 4 3 1 false true 11 = Fin splits /\
  accepted (Splitter None splits) 10 /\ interval_folds (Splitter None splits) 10 /\
  nco_outer_data nat nat ex_ret ex_quantile ex_fit ex_X None [] (Splitter None splits) [[0; 1]; [2]] = Value (M, None) /\
  List.length M = 5 /\ hd [] M = [4020; 25].
Proof.
  eexists. eexists. split; [vm_compute; reflexivity|]. split; [|split; [|split; [vm_compute; reflexivity|split; reflexivity]]].
  - split; [discriminate|]. split; [|split].
    + intros tr te H. simpl in H. destruct H as [[= <- <-]|[[= <- <-]|[]]]; (split; [discriminate|simpl; lia]).
    + simpl. repeat constructor; simpl; lia.
    + right. split; auto. intros tr te r [= <- <- <-]. split; apply strictly_increasing_spec; reflexivity.
  - intros tr te H. simpl in H. destruct H as [[= <- <-]|[[= <- <-]|[]]].
    + now exists 5, 2.
    + now exists 8, 1.
Qed.

(** combinatorial cross-validation *)
Example C77_combinatorial_applies :
  interval_folds (Combinatorial 3 2 0 0) 10 /\ accepted (Combinatorial 3 2 0 0) 10 /\
  exists M, nco_outer_data nat nat ex_ret ex_quantile ex_fit ex_X None [] (Combinatorial 3 2 0 0) [[0; 1]; [2]] = Value (M, None) /\
            List.length M = 10.
Proof.
  split; [split; [reflexivity|vm_compute; lia]|]. split; [vm_compute; lia|].
  eexists. split; [vm_compute; reflexivity|reflexivity].
Qed.
