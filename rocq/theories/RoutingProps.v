(** C76: fit parameters reach exactly the sub-estimators that request them. *)
From Coq Require Import List String Bool Lia Arith.
From Verif Require Import RoutingModel.
Import ListNotations.
Open Scope string_scope.
Open Scope list_scope.

(** * Specification *)

Definition class_of (e : est) : cls := let 'Est c _ _ := e in c.
Definition requests_of (e : est) : list (string * request) := let 'Est _ r _ := e in r.
Definition subs_of (e : est) : list (attr * est) := let 'Est _ _ s := e in s.

(** [at_path e p x]: the estimator [x] sits in [e] under the path [p] of
    constructor arguments. *)
Inductive at_path : est -> list attr -> est -> Prop :=
| at_here : forall e, at_path e [] e
| at_sub : forall e a s p x,
    In (a, s) (subs_of e) -> at_path s p x -> at_path e (a :: p) x.

(** The constructor arguments of each class that hold estimators. *)
Definition holds_estimator (c : cls) (a : attr) : Prop :=
  match c with
  | Consumer => False
  | MeanRisk | MaximumDiversification =>
      In a [Arg "prior_estimator"; Arg "mu_uncertainty_set_estimator";
            Arg "covariance_uncertainty_set_estimator"]
  | RiskBudgeting | DistributionallyRobust | InverseVolatility
  | UncertaintySet | BlackLitterman => a = Arg "prior_estimator"
  | HRP | HERC =>
      In a [Arg "prior_estimator"; Arg "distance_estimator";
            Arg "hierarchical_clustering_estimator"]
  | NCO =>
      In a [Arg "distance_estimator"; Arg "clustering_estimator";
            Arg "inner_estimator"; Arg "outer_estimator"]
  | Stacking => (exists n, a = Entry n) \/ a = Arg "final_estimator"
  | CovarianceDistance | EquilibriumMu | ShrunkMu | DenoiseCovariance
  | DetoneCovariance => a = Arg "covariance_estimator"
  | EmpiricalPrior => In a [Arg "mu_estimator"; Arg "covariance_estimator"]
  | FactorModel =>
      In a [Arg "factor_prior_estimator"; Arg "loading_matrix_estimator"]
  | LoadingMatrixRegression => a = Arg "linear_regressor"
  | SyntheticData => a = Arg "distribution_estimator"
  | ImpliedCovariance => a = Arg "prior_covariance_estimator"
  | CrossVal => a = Arg "estimator"
  end.

(** Three arguments are fitted without parameters: the outer estimator of a
    nested clusters optimization, the final estimator of a stacking, and the
    loading matrix estimator of a factor model. *)
Definition not_routed (c : cls) (a : attr) : Prop :=
  (c = NCO /\ a = Arg "outer_estimator")
  \/ (c = Stacking /\ a = Arg "final_estimator")
  \/ (c = FactorModel /\ a = Arg "loading_matrix_estimator").

(** The path crosses no such argument. *)
Inductive routed_path : est -> list attr -> Prop :=
| routed_here : forall e, routed_path e []
| routed_sub : forall e a s p,
    In (a, s) (subs_of e) -> ~ not_routed (class_of e) a ->
    routed_path s p -> routed_path e (a :: p).

(** An estimator of [e] reached by routed arguments asks for [k]: its request
    is [True] or was left unset. *)
Definition asked (e : est) (p : list attr) (k : string) (r : request) : Prop :=
  exists x, at_path e p x /\ routed_path e p /\ In (k, r) (requests_of x).

(** Trees a user can build. *)
Definition well_formed (e : est) : Prop :=
  forall p x, at_path e p x ->
    NoDup (map fst (subs_of x))
    /\ (forall a s, In (a, s) (subs_of x) -> holds_estimator (class_of x) a)
    /\ NoDup (map fst (requests_of x))
    (* only consumers and ImpliedCovariance have parameters of their own *)
    /\ (requests_of x = [] \/ class_of x = Consumer \/ class_of x = ImpliedCovariance).

(** [SyntheticData] registers its distribution estimator under another name
    than the one it reads: excluded here, see [C76_synthetic_data_refuted]. *)
Definition no_synthetic_data (e : est) : Prop :=
  forall p x, at_path e p x -> class_of x <> SyntheticData.

(** No parameter refused by an estimator is asked by estimators inside it:
    see [C76_refusal_refuted]. *)
Definition refusals_effective (e : est) : Prop :=
  forall p x k, at_path e p x -> In (k, No) (requests_of x) ->
    forall q r, q <> [] -> asked x q k r -> r = No.

(** Whether the estimator requested [k] with [True]; whether [k] is in the
    signature of its [fit]. *)
Definition requested (x : est) (k : string) : bool :=
  existsb (fun pr => String.eqb (fst pr) k && match snd pr with Yes => true | _ => false end)
          (requests_of x).
Definition in_signature (x : est) (k : string) : bool :=
  existsb (fun pr => String.eqb (fst pr) k) (requests_of x).

(** What the estimator [x] at path [p] must receive. *)
Definition must_receive {V} (e : est) (P : params V) (p : list attr) (x : est)
           (q : params V) : Prop :=
  (p = [] /\ q = filter (fun kv => in_signature x (fst kv)) P)
  \/ (p <> [] /\ routed_path e p /\ q = filter (fun kv => requested x (fst kv)) P)
  \/ (~ routed_path e p /\ q = []).

(** The parameter is legitimate: in the signature of a consumer, or asked by
    some estimator of the tree. *)
Definition legitimate (e : est) (k : string) : Prop :=
  (class_of e = Consumer /\ exists r, In (k, r) (requests_of e))
  \/ (class_of e <> Consumer /\ exists p r, asked e p k r /\ r <> No).

(** Some estimator below the root left the request of a passed parameter
    unset. *)
Definition undecided {V} (e : est) (P : params V) : Prop :=
  exists p k, p <> [] /\ asked e p k Unset /\ In k (map fst P).

(** * Proof *)

Lemma attr_eqb_spec : forall a b, reflect (a = b) (attr_eqb a b).
Proof.
  intros [s|s] [t|t]; simpl; try (right; discriminate);
    destruct (String.eqb_spec s t); constructor; congruence.
Qed.

Lemma mem_spec : forall n l, mem n l = true <-> In n l.
Proof.
  intros n l. unfold mem. rewrite existsb_exists. split.
  - intros [x [Hx E]]. apply String.eqb_eq in E. now subst.
  - intros H. exists n. split; [exact H|apply String.eqb_refl].
Qed.

Lemma mem_false : forall n l, mem n l = false <-> ~ In n l.
Proof.
  intros n l. rewrite <- mem_spec. destruct (mem n l); split; congruence.
Qed.

Lemma find_attr_in : forall A (l : list (attr * A)) a x,
  NoDup (map fst l) -> (find_attr a l = Some x <-> In (a, x) l).
Proof.
  intros A l a x. induction l as [|[b y] r IH]; simpl; intros H.
  - split; [discriminate|tauto].
  - inversion H; subst. destruct (attr_eqb_spec a b) as [->|N].
    + split; [intros E; inversion E; now left|].
      intros [E|E]; [now inversion E|]. exfalso. apply H2.
      now apply (in_map fst) in E.
    + rewrite IH by assumption. split; [now right|].
      intros [E|E]; [congruence|exact E].
Qed.

Lemma find_attr_some : forall A (l : list (attr * A)) a x,
  find_attr a l = Some x -> In (a, x) l.
Proof.
  intros A l a x. induction l as [|[b y] r IH]; simpl; [discriminate|].
  destruct (attr_eqb_spec a b) as [->|N]; [intros E; inversion E; now left|].
  intros E; right; auto.
Qed.

Lemma find_attr_map : forall A B (f : A -> B) (l : list (attr * A)) a,
  find_attr a (map (fun ax => (fst ax, f (snd ax))) l) = option_map f (find_attr a l).
Proof.
  intros A B f l a. induction l as [|[b y] r IH]; simpl; [reflexivity|].
  destruct (attr_eqb a b); [reflexivity|exact IH].
Qed.

Lemma map_fst_map : forall A B (f : A -> B) (l : list (attr * A)),
  map fst (map (fun ax => (fst ax, f (snd ax))) l) = map fst l.
Proof. intros. rewrite map_map. apply map_ext. reflexivity. Qed.

Lemma find_name_in : forall A (l : list (string * A)) n x,
  NoDup (map fst l) -> In (n, x) l -> find_name n l = Some x.
Proof.
  intros A l n x. induction l as [|[m y] r IH]; simpl; [tauto|].
  intros H Hin. inversion H; subst. destruct (String.eqb_spec n m) as [->|N].
  - destruct Hin as [E|E]; [now inversion E|]. exfalso. apply H2.
    now apply (in_map fst) in E.
  - destruct Hin as [E|E]; [congruence|auto].
Qed.

(** The induction principle for trees. *)
Lemma est_induction : forall (Q : est -> Prop),
  (forall c rq subs, (forall a s, In (a, s) subs -> Q s) -> Q (Est c rq subs)) ->
  forall e, Q e.
Proof.
  intros Q H. fix IH 1. intros [c rq subs]. apply H.
  induction subs as [|[b y] r IHr]; simpl; [tauto|].
  pose proof (IH y) as Hy.
  intros a s [E|E]; [|now apply (IHr a s)]. injection E as _ <-. exact Hy.
Qed.

(** ** The tables *)

Definition name_of (a : attr) : string := match a with Arg s => s | Entry s => s end.

Lemma stack_registered : forall names n a,
  In (n, a) (registered Stacking names) <-> (a = Entry n /\ In a names).
Proof.
  intros names n a. unfold registered. rewrite in_flat_map. split.
  - intros [[s|s] [Hin H]]; simpl in H; [tauto|]. destruct H as [E|[]].
    inversion E; subst. auto.
  - intros [-> Hin]. exists (Entry n). split; [exact Hin|now left].
Qed.

Lemma stack_fits : forall names a o,
  In (a, o) (fits Stacking names) <->
  ((exists n, a = Entry n /\ o = Some n /\ In a names)
   \/ (a = Arg "final_estimator" /\ o = None)).
Proof.
  intros names a o. unfold fits. rewrite in_app_iff, in_flat_map. split.
  - intros [[[s|s] [Hin H]]|[E|[]]]; simpl in *; try tauto.
    + destruct H as [E|[]]. inversion E; subst. left. eauto.
    + inversion E; subst. now right.
  - intros [[n [-> [-> Hin]]]|[-> ->]].
    + left. exists (Entry n). split; [exact Hin|now left].
    + right. now left.
Qed.

Ltac in_cases H :=
  simpl in H; repeat (destruct H as [H|H]; [try (inversion H; subst; clear H)|]); try contradiction.

Lemma registered_routed : forall c names n a,
  c <> SyntheticData -> In (n, a) (registered c names) ->
  n = name_of a /\ holds_estimator c a /\ ~ not_routed c a.
Proof.
  intros c names n a Hc H. unfold not_routed.
  destruct c; try (rewrite stack_registered in H; destruct H as [-> _];
    split; [reflexivity|split; [left; eauto|intuition congruence]]);
  try congruence; in_cases H; (split; [reflexivity|split; [simpl; tauto|intuition congruence]]).
Qed.

Lemma routed_registered : forall c names a,
  c <> SyntheticData -> In a names -> holds_estimator c a -> ~ not_routed c a ->
  In (name_of a, a) (registered c names).
Proof.
  intros c names a Hc Hin Ha Hn. unfold not_routed in Hn.
  destruct c; try (simpl in Ha; tauto);
    try (simpl in Ha; subst a; simpl; tauto);
    try (simpl in Ha; repeat (destruct Ha as [Ha|Ha]; [subst a; simpl; tauto|]); tauto).
  destruct Ha as [[n ->]| ->]; [|tauto]. apply stack_registered. auto.
Qed.

Lemma fits_fact : forall c names a o,
  c <> SyntheticData -> In (a, o) (fits c names) ->
  holds_estimator c a
  /\ ((not_routed c a /\ o = None)
      \/ (~ not_routed c a /\ o = Some (name_of a) /\ In (name_of a, a) (registered c names))).
Proof.
  intros c names a o Hc H.
  destruct c; try congruence.
  all: try (rewrite stack_fits in H; destruct H as [[n [-> [-> Hin]]]|[-> ->]];
    [split; [left; eauto|right; split; [unfold not_routed; intuition congruence|
       split; [reflexivity|now apply stack_registered]]]
    |split; [now right|left; split; [unfold not_routed; tauto|reflexivity]]]; fail).
  all: in_cases H; split; try (simpl; tauto); unfold not_routed;
    first [left; split; [tauto|reflexivity]
          |right; split; [intuition congruence|split; [reflexivity|simpl; tauto]]].
Qed.

Lemma fits_total : forall c names a,
  In a names -> holds_estimator c a -> exists o, In (a, o) (fits c names).
Proof.
  intros c names a Hin Ha.
  destruct c; try (simpl in Ha; tauto);
    try (simpl in Ha; subst a; simpl; eauto; fail);
    try (simpl in Ha; repeat (destruct Ha as [Ha|Ha]; [subst a; simpl; eauto 6|]); tauto).
  destruct Ha as [[n ->]| ->].
  - exists (Some n). apply stack_fits. left. eauto.
  - exists None. apply stack_fits. now right.
Qed.

Lemma NoDup_flat_entries : forall names, NoDup names ->
  NoDup (map fst (registered Stacking names)).
Proof.
  intros names H. induction H as [|a r Hn Hr IH]; simpl; [constructor|].
  destruct a as [s|s]; simpl; [exact IH|]. constructor; [|exact IH].
  intros Hin. apply in_map_iff in Hin. destruct Hin as [[n a] [E Hin]]. simpl in E. subst n.
  apply stack_registered in Hin. destruct Hin as [-> Hin]. now apply Hn.
Qed.

Lemma registered_nodup : forall c names, NoDup names ->
  NoDup (map fst (registered c names)).
Proof.
  intros c names H. destruct c; try (apply NoDup_flat_entries; exact H);
  simpl; repeat constructor; simpl; intuition congruence.
Qed.

(** ** Names asked *)

Lemma at_inv : forall e a p x, at_path e (a :: p) x ->
  exists s, In (a, s) (subs_of e) /\ at_path s p x.
Proof. intros e a p x H. inversion H; subst. eauto. Qed.

Lemma routed_inv : forall e a p, routed_path e (a :: p) ->
  ~ not_routed (class_of e) a /\ exists s, In (a, s) (subs_of e) /\ routed_path s p.
Proof. intros e a p H. inversion H; subst. eauto. Qed.

Lemma names_of_subs_in : forall c subs k,
  c <> SyntheticData -> NoDup (map fst subs) ->
  (forall a s, In (a, s) subs -> holds_estimator c a) ->
  (In k (names_of_subs c (map (fun asub => (fst asub, param_names (snd asub))) subs)) <->
   exists a s, In (a, s) subs /\ ~ not_routed c a /\ In k (param_names s)).
Proof.
  intros c subs k Hc Hnd Hs. unfold names_of_subs. rewrite in_flat_map, map_fst_map. split.
  - intros [[n a] [Hin H]]. simpl in H. rewrite find_attr_map in H.
    destruct (find_attr a subs) as [s|] eqn:E; [|now simpl in H]. simpl in H.
    apply find_attr_some in E. exists a, s. split; [exact E|]. split; [|exact H].
    now destruct (registered_routed _ _ _ _ Hc Hin) as [_ [_ N]].
  - intros [a [s [Hin [Hn Hk]]]]. exists (name_of a, a). split.
    + apply routed_registered; auto; [now apply (in_map fst) in Hin|eauto].
    + simpl. rewrite find_attr_map.
      rewrite (proj2 (find_attr_in _ _ _ _ Hnd) Hin). exact Hk.
Qed.

Lemma wf_sub : forall e a s, well_formed e -> In (a, s) (subs_of e) -> well_formed s.
Proof. intros e a s H Hin p x Hx. apply (H (a :: p)). now apply at_sub with s. Qed.
Lemma ns_sub : forall e a s, no_synthetic_data e -> In (a, s) (subs_of e) -> no_synthetic_data s.
Proof. intros e a s H Hin p x Hx. apply (H (a :: p)). now apply at_sub with s. Qed.
Lemma re_sub : forall e a s, refusals_effective e -> In (a, s) (subs_of e) -> refusals_effective s.
Proof. intros e a s H Hin p x k Hx. apply (H (a :: p)). now apply at_sub with s. Qed.

Lemma own_names_in : forall e k, well_formed e ->
  (In k (own_names (class_of e) (requests_of e)) <->
   exists r, In (k, r) (requests_of e) /\ r <> No).
Proof.
  intros e k H. destruct (H [] e (at_here e)) as [_ [_ [_ Hrq]]]. unfold own_names.
  destruct (self_request (class_of e)) eqn:E.
  - rewrite in_map_iff. split.
    + intros [[k' r] [Ek Hin]]. apply filter_In in Hin. simpl in *. subst k'.
      exists r. split; [tauto|]. destruct Hin as [_ Hr]. now destruct r.
    + intros [r [Hin Hr]]. exists (k, r). split; [reflexivity|].
      apply filter_In. split; [exact Hin|]. now destruct r.
  - destruct Hrq as [Hrq|[Hrq|Hrq]]; try (rewrite Hrq in E; discriminate).
    rewrite Hrq. split; [intros []|intros [r [[] _]]].
Qed.

Lemma asked_sub : forall e a s p k r,
  well_formed e -> In (a, s) (subs_of e) ->
  (asked e (a :: p) k r <-> ~ not_routed (class_of e) a /\ asked s p k r).
Proof.
  intros e a s p k r H Hin.
  destruct (H [] e (at_here e)) as [Hnd _].
  assert (U : forall s', In (a, s') (subs_of e) -> s' = s).
  { intros s' Hs'. apply (find_attr_in _ _ _ _ Hnd) in Hs', Hin. congruence. }
  split.
  - intros [x [Hx [Hr Hk]]]. apply at_inv in Hx. destruct Hx as [s1 [H1 Hx]].
    apply routed_inv in Hr. destruct Hr as [Hn [s2 [H2 Hr]]].
    rewrite (U _ H1) in Hx. rewrite (U _ H2) in Hr. split; [assumption|].
    exists x. auto.
  - intros [Hn [x [Hx [Hr Hk]]]]. exists x. split; [now apply at_sub with s|].
    split; [now apply routed_sub with s|exact Hk].
Qed.

Lemma param_names_in : forall e k, well_formed e -> no_synthetic_data e ->
  (In k (param_names e) <-> exists p r, asked e p k r /\ r <> No).
Proof.
  intros e. induction e as [c rq subs IH] using est_induction. intros k Hw Hs.
  pose proof (Hw [] _ (at_here _)) as [Hnd [Hh _]]. simpl in Hnd, Hh.
  pose proof (Hs [] _ (at_here _)) as Hc. simpl in Hc.
  simpl. rewrite in_app_iff, (own_names_in (Est c rq subs) k Hw), names_of_subs_in by assumption.
  split.
  - intros [[r [Hin Hr]]|[a [s [Hin [Hn Hk]]]]].
    + exists [], r. split; [|exact Hr]. exists (Est c rq subs).
      split; [constructor|]. split; [constructor|exact Hin].
    + apply IH with (a := a) in Hk; [|exact Hin|eapply wf_sub; eauto|eapply ns_sub; eauto].
      destruct Hk as [p [r [Ha Hr]]]. exists (a :: p), r. split; [|exact Hr].
      apply (asked_sub (Est c rq subs) a s); auto.
  - intros [p [r [Ha Hr]]]. destruct p as [|a p].
    + left. destruct Ha as [x [Hx [_ Hk]]]. inversion Hx; subst. eauto.
    + right. destruct Ha as [x [Hx Ha]]. destruct (at_inv _ _ _ _ Hx) as [s [Hin _]].
      simpl in Hin. exists a, s. split; [assumption|].
      assert (Ha' : asked (Est c rq subs) (a :: p) k r) by (exists x; auto).
      apply (asked_sub (Est c rq subs) a s) in Ha'; auto. destruct Ha' as [Hn Ha'].
      split; [exact Hn|]. apply IH with (a := a); eauto using wf_sub, ns_sub.
Qed.

Lemma sub_names_in : forall e k, well_formed e -> no_synthetic_data e ->
  (In k (sub_names e) <-> exists p r, p <> [] /\ asked e p k r /\ r <> No).
Proof.
  intros [c rq subs] k Hw Hs.
  pose proof (Hw [] _ (at_here _)) as [Hnd [Hh _]]. simpl in Hnd, Hh.
  pose proof (Hs [] _ (at_here _)) as Hc. simpl in Hc.
  simpl. rewrite names_of_subs_in by assumption. split.
  - intros [a [s [Hin [Hn Hk]]]].
    apply param_names_in in Hk; [|eapply wf_sub; eauto|eapply ns_sub; eauto].
    destruct Hk as [p [r [Ha Hr]]]. exists (a :: p), r. split; [discriminate|]. split; [|exact Hr].
    apply (asked_sub (Est c rq subs) a s); auto.
  - intros [p [r [Hp [Ha Hr]]]]. destruct p as [|a p]; [congruence|].
    destruct Ha as [x [Hx Ha]]. destruct (at_inv _ _ _ _ Hx) as [s [Hin _]].
    simpl in Hin. exists a, s. split; [assumption|].
    assert (Ha' : asked (Est c rq subs) (a :: p) k r) by (exists x; auto).
    apply (asked_sub (Est c rq subs) a s) in Ha'; auto. destruct Ha' as [Hn Ha'].
    split; [exact Hn|]. apply param_names_in; eauto using wf_sub, ns_sub.
Qed.

Lemma in_signature_in : forall x k,
  in_signature x k = true <-> exists r, In (k, r) (requests_of x).
Proof.
  intros x k. unfold in_signature. rewrite existsb_exists. split.
  - intros [[k' r] [Hin E]]. apply String.eqb_eq in E. simpl in E. subst. eauto.
  - intros [r Hin]. exists (k, r). split; [exact Hin|apply String.eqb_refl].
Qed.

Lemma requested_in : forall x k,
  requested x k = true <-> In (k, Yes) (requests_of x).
Proof.
  intros x k. unfold requested. rewrite existsb_exists. split.
  - intros [[k' r] [Hin E]]. apply andb_prop in E. destruct E as [E Er].
    apply String.eqb_eq in E. simpl in *. subst. destruct r; congruence.
  - intros Hin. exists (k, Yes). split; [exact Hin|]. simpl.
    rewrite String.eqb_refl. reflexivity.
Qed.

Lemma filter_true : forall A (f : A -> bool) l,
  (forall x, In x l -> f x = true) -> filter f l = l.
Proof.
  intros A f l H. induction l as [|x r IH]; simpl; [reflexivity|].
  rewrite (H x) by now left. f_equal. apply IH. intros; apply H; now right.
Qed.

Lemma filter_filter_eq : forall A (f g h : A -> bool) l,
  (forall x, In x l -> (f x && g x)%bool = h x) ->
  filter f (filter g l) = filter h l.
Proof.
  intros A f g h l H. induction l as [|x r IH]; simpl; [reflexivity|].
  rewrite <- (H x) by now left. destruct (g x) eqn:E; simpl.
  - destruct (f x); simpl; rewrite IH; auto; intros; apply H; now right.
  - rewrite andb_false_r. apply IH. intros; apply H; now right.
Qed.

Section Main.
Variable V : Type.
Notation params := (params V).

Lemma given_in : forall k (P : params), given V k P = true <-> In k (map fst P).
Proof. intros. apply mem_spec. Qed.

(** ** Routing of one sub-estimator *)

Definition keep (s : est) (kv : string * V) : bool :=
  requested s (fst kv) || mem (fst kv) (sub_names s).

Lemma route_spec : forall s (P : params), well_formed s ->
  ((exists k, In (k, Unset) (requests_of s) /\ In k (map fst P)) /\ route V s P = Err UnsetErr)
  \/ ((forall k, In (k, Unset) (requests_of s) -> ~ In k (map fst P))
      /\ route V s P = Ok (filter (keep s) P)).
Proof.
  intros s P Hw. destruct (Hw [] s (at_here s)) as [_ [_ [_ Hrq]]].
  destruct s as [c rq subs]. simpl in Hrq.
  assert (Eown : (if self_request c then rq else []) = rq).
  { destruct (self_request c) eqn:E; [reflexivity|].
    destruct Hrq as [->|[->| ->]]; [reflexivity|discriminate|discriminate]. }
  unfold route. rewrite Eown.
  destruct (existsb _ rq) eqn:E.
  - left. split; [|reflexivity]. apply existsb_exists in E.
    destruct E as [[k r] [Hin H]]. apply andb_prop in H. destruct H as [Hr Hg].
    simpl in *. apply given_in in Hg. exists k. destruct r; try discriminate. auto.
  - right. split.
    + intros k Hk Hg. apply given_in in Hg.
      assert (existsb (fun pr => is_unset (snd pr) && given V (fst pr) P) rq = true).
      { apply existsb_exists. exists (k, Unset). split; [exact Hk|]. simpl. exact Hg. }
      congruence.
    + f_equal. apply filter_ext. intros [k v]. unfold keep. simpl. f_equal.
      apply eq_true_iff_eq. rewrite mem_spec, requested_in, in_map_iff. simpl. split.
      * intros [[k' r] [Ek Hin]]. apply filter_In in Hin. simpl in *. subst k'.
        destruct Hin as [Hin Hr]. now destruct r.
      * intros Hin. exists (k, Yes). split; [reflexivity|]. now apply filter_In.
Qed.

Definition given_unset (s : est) (P : params) : Prop :=
  exists k, In (k, Unset) (requests_of s) /\ In k (map fst P).

Lemma given_unset_dec : forall s (P : params), given_unset s P \/ ~ given_unset s P.
Proof.
  intros s P.
  destruct (existsb (fun pr => is_unset (snd pr) && given V (fst pr) P) (requests_of s)) eqn:E.
  - left. apply existsb_exists in E. destruct E as [[k r] [Hin H]].
    apply andb_prop in H. destruct H as [Hr Hg]. simpl in *. apply given_in in Hg.
    exists k. destruct r; try discriminate. auto.
  - right. intros [k [Hk Hg]]. apply given_in in Hg.
    assert (existsb (fun pr => is_unset (snd pr) && given V (fst pr) P) (requests_of s) = true).
    { apply existsb_exists. exists (k, Unset). split; [exact Hk|]. simpl. exact Hg. }
    congruence.
Qed.

(** The outcome for one registered sub-estimator. *)
Lemma route_all_spec : forall l subs (P : params),
  (forall n a s, In (n, a) l -> find_attr a subs = Some s -> well_formed s) ->
  ((exists n a s, In (n, a) l /\ find_attr a subs = Some s /\ given_unset s P)
   /\ route_all V l subs P = Err UnsetErr)
  \/ ((forall n a s, In (n, a) l -> find_attr a subs = Some s -> ~ given_unset s P)
      /\ exists rt, route_all V l subs P = Ok rt /\ map fst rt = map fst l
         /\ forall n a s, In (n, a) l -> find_attr a subs = Some s ->
              In (n, filter (keep s) P) rt).
Proof.
  intros l subs P. induction l as [|[n a] r IH]; intros Hw.
  - right. split; [simpl; tauto|]. exists []. simpl. split; [reflexivity|]. split; [reflexivity|tauto].
  - simpl. destruct (find_attr a subs) as [s|] eqn:E.
    + destruct (route_spec s P (Hw n a s (or_introl eq_refl) E)) as [[Hu ->]|[Hu ->]]; simpl.
      { left. split; [|reflexivity]. exists n, a, s. split; [now left|]. auto. }
      assert (Nu : ~ given_unset s P).
      { intros [k [Hk Hg]]. now apply (Hu k). }
      destruct IH as [[[n' [a' [s' [Hin [E' Hg]]]]] ->]|[Hr [rt [-> [Hf Hrt]]]]].
      * intros n' a' s' Hin Es. apply (Hw n' a' s'); [now right|exact Es].
      * left. split; [|reflexivity]. exists n', a', s'. split; [now right|]. auto.
      * right. split.
        { intros n' a' s' [E'|Hin] Es; [|eauto].
          injection E' as <- <-. replace s' with s by congruence. exact Nu. }
        exists ((n, filter (keep s) P) :: rt). simpl. split; [reflexivity|].
        split; [now rewrite Hf|]. intros n' a' s' [E'|Hin] Es.
        { inversion E'; subst. rewrite E in Es. inversion Es; subst. now left. }
        right. eauto.
    + simpl. destruct IH as [[[n' [a' [s' [Hin [E' Hg]]]]] ->]|[Hr [rt [-> [Hf Hrt]]]]].
      * intros n' a' s' Hin Es. apply (Hw n' a' s'); [now right|exact Es].
      * left. split; [|reflexivity]. exists n', a', s'. split; [now right|]. auto.
      * right. split.
        { intros n' a' s' [E'|Hin] Es; [inversion E'; subst; congruence|eauto]. }
        exists ((n, []) :: rt). simpl. split; [reflexivity|].
        split; [now rewrite Hf|]. intros n' a' s' [E'|Hin] Es.
        { inversion E'; subst. congruence. }
        right. eauto.
Qed.

(** ** The fits of the sub-estimators *)

Lemma run_fits_ok : forall l subs rt,
  (forall a n, In (a, n) l -> exists q, read_routed V rt n = Ok q
     /\ forall s, find_attr a subs = Some s -> exists t, fit V s q = Ok t) ->
  exists t, run_fits V l (map (fun asub => (fst asub, fit V (snd asub))) subs) rt = Ok t
    /\ forall p q, In (p, q) t <->
         exists a n s q' t' p', In (a, n) l /\ read_routed V rt n = Ok q'
           /\ find_attr a subs = Some s
           /\ fit V s q' = Ok t' /\ p = a :: p' /\ In (p', q) t'.
Proof.
  intros l subs rt. induction l as [|[a n] r IH]; intros Hr.
  - exists []. split; [reflexivity|]. intros p q. simpl. split; [tauto|].
    intros [a [n [s [q' [t' [p' [[] _]]]]]]].
  - simpl. destruct (Hr a n) as [q0 [Eq Hf]]; [now left|]. rewrite Eq. simpl. rewrite find_attr_map.
    destruct IH as [t2 [E2 H2]].
    { intros a' n' Hin. apply Hr. now right. }
    destruct (find_attr a subs) as [s|] eqn:E; simpl.
    + destruct (Hf s eq_refl) as [t1 E1]. rewrite E1. simpl. rewrite E2. simpl.
      eexists. split; [reflexivity|]. intros p q. rewrite in_app_iff, H2. split.
      * intros [H|[a' [n' [s' [q' [t' [p' [Hin H]]]]]]]].
        { unfold push in H. apply in_map_iff in H. destruct H as [[p' q'] [Ep H]].
          injection Ep as <- <-. exists a, n, s, q0, t1, p'. simpl. rewrite E. intuition. }
        { exists a', n', s', q', t', p'. simpl. tauto. }
      * intros [a' [n' [s' [q' [t' [p' [[Hin|Hin] [Eq' [Es [Et [Ep H]]]]]]]]]]].
        { left. injection Hin as <- <-. rewrite E in Es. injection Es as <-.
          rewrite Eq in Eq'. injection Eq' as <-.
          rewrite E1 in Et. injection Et as <-.
          unfold push. apply in_map_iff. exists (p', q). simpl. subst p. auto. }
        { right. exists a', n', s', q', t', p'. auto 8. }
    + rewrite E2. simpl. eexists. split; [reflexivity|]. intros p q. rewrite H2. split.
      * intros [a' [n' [s' [q' [t' [p' [Hin H]]]]]]]. exists a', n', s', q', t', p'. simpl. tauto.
      * intros [a' [n' [s' [q' [t' [p' [[Hin|Hin] [Eq' [Es H]]]]]]]]];
          [injection Hin as <- <-; congruence|].
        exists a', n', s', q', t', p'. auto 8.
Qed.

Lemma run_fits_err : forall l subs rt,
  (forall a n, In (a, n) l -> exists q, read_routed V rt n = Ok q
     /\ forall s, find_attr a subs = Some s ->
          (exists t, fit V s q = Ok t) \/ fit V s q = Err UnsetErr) ->
  (exists a n s q, In (a, n) l /\ read_routed V rt n = Ok q /\ find_attr a subs = Some s
     /\ fit V s q = Err UnsetErr) ->
  run_fits V l (map (fun asub => (fst asub, fit V (snd asub))) subs) rt = Err UnsetErr.
Proof.
  intros l subs rt. induction l as [|[a n] r IH]; intros Hr Hx.
  - destruct Hx as [a [n [s [q [[] _]]]]].
  - simpl. destruct (Hr a n) as [q0 [Eq Hf]]; [now left|]. rewrite Eq. simpl. rewrite find_attr_map.
    assert (IH' : (exists a n s q, In (a, n) r /\ read_routed V rt n = Ok q
                     /\ find_attr a subs = Some s /\ fit V s q = Err UnsetErr) ->
      run_fits V r (map (fun asub => (fst asub, fit V (snd asub))) subs) rt = Err UnsetErr).
    { apply IH. intros a' n' Hin. apply Hr. now right. }
    destruct (find_attr a subs) as [s|] eqn:E; simpl.
    + destruct (Hf s eq_refl) as [[t E1]|E1]; rewrite E1; simpl; [|reflexivity].
      rewrite IH'; [reflexivity|].
      destruct Hx as [a' [n' [s' [q' [[Hin|Hin] [Eq' [Es H]]]]]]].
      * injection Hin as <- <-. congruence.
      * exists a', n', s', q'. auto.
    + rewrite IH'; [reflexivity|].
      destruct Hx as [a' [n' [s' [q' [[Hin|Hin] [Eq' [Es H]]]]]]].
      * injection Hin as <- <-. congruence.
      * exists a', n', s', q'. auto.
Qed.

Definition good (e : est) : Prop :=
  well_formed e /\ no_synthetic_data e /\ refusals_effective e.

Lemma good_sub : forall e a s, good e -> In (a, s) (subs_of e) -> good s.
Proof.
  intros e a s [H1 [H2 H3]] Hin. split; [|split]; eauto using wf_sub, ns_sub, re_sub.
Qed.

Definition received (e : est) (P : params) (t : trace V) : Prop :=
  forall p q, In (p, q) t <-> exists x, at_path e p x /\ must_receive e P p x q.

Definition correct (e : est) : Prop := forall P : params,
  (forall k, In k (map fst P) -> legitimate e k) ->
  (~ undecided e P /\ exists t, fit V e P = Ok t /\ received e P t)
  \/ (undecided e P /\ fit V e P = Err UnsetErr).

Lemma path_sub : forall e a s p x, well_formed e -> In (a, s) (subs_of e) ->
  (at_path e (a :: p) x <-> at_path s p x).
Proof.
  intros e a s p x H Hin. destruct (H [] e (at_here e)) as [Hnd _].
  split; [|intros; now apply at_sub with s].
  intros Hx. apply at_inv in Hx. destruct Hx as [s0 [Hs0 Hx]].
  apply (find_attr_in _ _ _ _ Hnd) in Hs0, Hin. now replace s with s0 by congruence.
Qed.

Lemma routed_path_sub : forall e a s p, well_formed e -> In (a, s) (subs_of e) ->
  (routed_path e (a :: p) <-> ~ not_routed (class_of e) a /\ routed_path s p).
Proof.
  intros e a s p H Hin. destruct (H [] e (at_here e)) as [Hnd _].
  split; [|intros []; now apply routed_sub with s].
  intros Hx. apply routed_inv in Hx. destruct Hx as [Hn [s0 [Hs0 Hx]]].
  apply (find_attr_in _ _ _ _ Hnd) in Hs0, Hin. replace s with s0 by congruence. auto.
Qed.

Lemma keys_filter : forall (f : string * V -> bool) P k,
  In k (map fst (filter f P)) -> In k (map fst P).
Proof.
  intros f P k H. apply in_map_iff in H. destruct H as [kv [E H]].
  apply filter_In in H. apply in_map_iff. exists kv. tauto.
Qed.

Lemma keys_keep : forall s (P : params) k,
  In k (map fst (filter (keep s) P)) <->
  In k (map fst P) /\ (requested s k = true \/ In k (sub_names s)).
Proof.
  intros s P k. rewrite in_map_iff. split.
  - intros [[k' v] [E H]]. simpl in E. subst k'. apply filter_In in H. destruct H as [H K].
    unfold keep in K. simpl in K. apply orb_prop in K. rewrite mem_spec in K.
    split; [|tauto]. now apply (in_map fst) in H.
  - intros [H K]. apply in_map_iff in H. destruct H as [[k' v] [E H]]. simpl in E. subst k'.
    exists (k, v). split; [reflexivity|]. apply filter_In. split; [exact H|].
    unfold keep. simpl. apply orb_true_intro. rewrite mem_spec. exact K.
Qed.

(** The parameters kept for a sub-estimator are legitimate there, and what
    must be received from them is what must be received from all. *)
Lemma keep_legitimate : forall s (P : params) k, good s ->
  In k (map fst (filter (keep s) P)) -> legitimate s k.
Proof.
  intros s P k [Hw [Hn _]] H. apply keys_keep in H. destruct H as [_ H].
  unfold legitimate.
  destruct (class_of s) eqn:E; try (right; split; [discriminate|]).
  { left. split; [reflexivity|]. destruct H as [H|H].
    - apply requested_in in H. eauto.
    - destruct s as [c rq subs]. simpl in E. subst c. simpl in H. destruct H. }
  all: destruct H as [H|H];
    [apply requested_in in H; exists [], Yes; split; [exists s; split; [constructor|split; [constructor|exact H]]|discriminate]
    |apply sub_names_in in H; try assumption; destruct H as [p [r [_ [Ha Hr]]]]; eauto].
Qed.

Lemma keep_undecided : forall s (P : params), good s ->
  (undecided s (filter (keep s) P) <-> undecided s P).
Proof.
  intros s P [Hw [Hn _]]. unfold undecided. split.
  - intros [p [k [Hp [Ha Hk]]]]. exists p, k. split; [exact Hp|]. split; [exact Ha|].
    eapply keys_filter; eauto.
  - intros [p [k [Hp [Ha Hk]]]]. exists p, k. split; [exact Hp|]. split; [exact Ha|].
    apply keys_keep. split; [exact Hk|]. right. apply sub_names_in; try assumption.
    exists p, Unset. repeat split; try assumption. discriminate.
Qed.

Lemma keep_receive : forall e a s (P : params) p x q,
  good e -> In (a, s) (subs_of e) -> ~ not_routed (class_of e) a ->
  ~ given_unset s P -> at_path s p x ->
  (must_receive s (filter (keep s) P) p x q <-> must_receive e P (a :: p) x q).
Proof.
  intros e a s P p x q He Hin Hn Hu Hx.
  pose proof (good_sub _ _ _ He Hin) as [Hw [Hns Hre]]. destruct He as [Hwe _].
  unfold must_receive. rewrite (routed_path_sub e a s p Hwe Hin).
  destruct p as [|b p].
  - inversion Hx; subst x.
    assert (E : filter (fun kv => in_signature s (fst kv)) (filter (keep s) P)
                = filter (fun kv => requested s (fst kv)) P).
    { apply filter_filter_eq. intros [k v] Hk. simpl.
      apply (in_map fst) in Hk. simpl in Hk.
      apply eq_true_iff_eq. rewrite andb_true_iff, in_signature_in, requested_in.
      unfold keep. simpl. rewrite orb_true_iff, requested_in, mem_spec. split.
      - intros [[r Hr] [K|K]]; [exact K|].
        apply sub_names_in in K; try assumption. destruct K as [p [r' [Hp [Ha Hr']]]].
        destruct r; [exact Hr| |].
        + exfalso. apply Hr'. eapply (Hre [] s k (at_here s) Hr p); eauto.
        + exfalso. apply Hu. exists k. auto.
      - intros Hy. split; [eauto|now left]. }
    rewrite E. assert (routed_path s []) by constructor.
    split.
    + intros [[_ ->]|[[N _]|[N _]]]; [|congruence|tauto].
      right. left. split; [discriminate|]. auto.
    + intros [[N _]|[[_ [_ ->]]|[N _]]]; [discriminate| |tauto]. left. auto.
  - assert (E : routed_path s (b :: p) ->
                filter (fun kv => requested x (fst kv)) (filter (keep s) P)
                = filter (fun kv => requested x (fst kv)) P).
    { intros Hr. apply filter_filter_eq. intros [k v] Hk. simpl.
      apply eq_true_iff_eq. rewrite andb_true_iff, requested_in.
      unfold keep. simpl. rewrite orb_true_iff, mem_spec. split; [tauto|].
      intros H. split; [exact H|]. right. apply sub_names_in; try assumption.
      exists (b :: p), Yes. split; [discriminate|]. split; [|discriminate].
      exists x. auto. }
    split.
    + intros [[N _]|[[_ [Hr ->]]|[N ->]]]; [discriminate| |].
      * right. left. split; [discriminate|]. split; [auto|]. now rewrite E.
      * right. right. split; [tauto|reflexivity].
    + intros [[N _]|[[_ [[_ Hr] ->]]|[N ->]]]; [discriminate| |].
      * right. left. split; [discriminate|]. split; [auto|]. now rewrite E.
      * right. right. split; [tauto|reflexivity].
Qed.

Lemma not_routed_dec : forall c a, not_routed c a \/ ~ not_routed c a.
Proof.
  intros c a. unfold not_routed.
  assert (D : forall k, a = Arg k \/ a <> Arg k).
  { intros k. destruct (attr_eqb_spec a (Arg k)); tauto. }
  destruct (D "outer_estimator"), (D "final_estimator"), (D "loading_matrix_estimator");
    destruct c; first [left; tauto | right; intuition congruence].
Qed.

Lemma routed_path_dec : forall p e, routed_path e p \/ ~ routed_path e p.
Proof.
  intros p. induction p as [|a p IH]; intros e; [left; constructor|].
  destruct (not_routed_dec (class_of e) a) as [N|N].
  { right. intros R. inversion R; subst. contradiction. }
  assert (L : forall l : list (attr * est),
    (exists s, In (a, s) l /\ routed_path s p) \/ ~ (exists s, In (a, s) l /\ routed_path s p)).
  { intros l. induction l as [|[b y] r IHr]; [right; intros [s [[] _]]|].
    destruct IHr as [[s [Hs Hr]]|Nr]; [left; exists s; split; [now right|exact Hr]|].
    destruct (attr_eqb_spec a b) as [->|Nb].
    - destruct (IH y) as [Hy|Hy]; [left; exists y; split; [now left|exact Hy]|].
      right. intros [s [[E|E] Hr]]; [congruence|apply Nr; eauto].
    - right. intros [s [[E|E] Hr]]; [congruence|apply Nr; eauto]. }
  destruct (L (subs_of e)) as [[s [Hs Hr]]|Nr].
  - left. now apply routed_sub with s.
  - right. intros R. inversion R; subst. apply Nr. eauto.
Qed.

Lemma nothing_received : forall s p x (q : params), at_path s p x ->
  (must_receive s [] p x q <-> q = []).
Proof.
  intros s p x q Hx. unfold must_receive. simpl. split; [tauto|]. intros ->.
  destruct p as [|a p]; [now left|]. right.
  destruct (routed_path_dec (a :: p) s) as [D|D];
    [left; split; [discriminate|auto]|right; auto].
Qed.

(** ** One estimator *)

Lemma legitimate_names : forall c rq subs k, good (Est c rq subs) -> c <> Consumer ->
  (In k (param_names (Est c rq subs)) <-> legitimate (Est c rq subs) k).
Proof.
  intros c rq subs k [Hw [Hn _]] Hc. rewrite param_names_in by assumption.
  unfold legitimate. simpl. tauto.
Qed.

Lemma find_name_total : forall A (l : list (string * A)) n,
  In n (map fst l) -> exists x, find_name n l = Some x.
Proof.
  intros A l n. induction l as [|[m y] r IH]; simpl; [tauto|].
  intros [E|H]; destruct (String.eqb_spec n m) as [En|N]; eauto. congruence.
Qed.

Lemma routed_argument : forall c rq subs (P : params) (rt : list (string * params)),
  good (Est c rq subs) ->
  map fst rt = map fst (registered c (map fst subs)) ->
  (forall n a s, In (n, a) (registered c (map fst subs)) -> find_attr a subs = Some s ->
     In (n, filter (keep s) P) rt) ->
  forall a n, In (a, n) (fits c (map fst subs)) ->
  exists q, read_routed V (Some rt) n = Ok q
    /\ forall s, In (a, s) subs ->
         (~ not_routed c a -> q = filter (keep s) P) /\ (not_routed c a -> q = []).
Proof.
  intros c rq subs P rt [Hw [Hn _]] Hf Hrt a n Hin.
  pose proof (Hw [] _ (at_here _)) as [Hnd _]. simpl in Hnd.
  pose proof (Hn [] _ (at_here _)) as Hc. simpl in Hc.
  destruct (fits_fact _ _ _ _ Hc Hin) as [_ [[N ->]|[N [-> Hreg]]]].
  { exists []. split; [reflexivity|]. intros s _. split; [contradiction|reflexivity]. }
  destruct (find_name_total _ rt (name_of a)) as [q Eq].
  { rewrite Hf. now apply (in_map fst) in Hreg. }
  exists q. split; [unfold read_routed; now rewrite Eq|]. intros s Hs. split; [|contradiction]. intros _.
  apply (find_attr_in _ _ _ _ Hnd) in Hs.
  pose proof (find_name_in _ rt (name_of a) (filter (keep s) P)) as F.
  rewrite F in Eq; [congruence| |].
  - rewrite Hf. now apply registered_nodup.
  - eapply Hrt; eauto.
Qed.

Lemma consumer_correct : forall rq subs, good (Est Consumer rq subs) ->
  correct (Est Consumer rq subs).
Proof.
  intros rq subs [Hw _] P Hl.
  pose proof (Hw [] _ (at_here _)) as [_ [Hh _]]. simpl in Hh.
  assert (Es : subs = []).
  { destruct subs as [|[a s] r]; [reflexivity|]. exfalso. apply (Hh a s). now left. }
  subst subs.
  assert (Eo : forall k, mem k (map fst rq) = in_signature (Est Consumer rq []) k).
  { intros k. apply eq_true_iff_eq. rewrite mem_spec, in_signature_in, in_map_iff. simpl. split.
    - intros [[k' r] [E H]]. simpl in E. subst. eauto.
    - intros [r H]. exists (k, r). auto. }
  simpl.
  assert (Ef : forallb (fun kv => mem (fst kv) (map fst rq)) P = true).
  { apply forallb_forall. intros [k v] Hk. simpl. rewrite Eo, in_signature_in.
    apply (in_map fst) in Hk. destruct (Hl k Hk) as [[_ H]|[N _]]; [exact H|now elim N]. }
  rewrite Ef. left. split.
  2: { eexists. split; [reflexivity|]. intros p q. split.
    + intros [E|[]]. injection E as <- <-. exists (Est Consumer rq []).
      split; [constructor|]. left. split; [reflexivity|].
      apply filter_ext. intros [k v]. apply Eo.
    + intros [x [Hx Hm]]. left. destruct p as [|a p].
      * inversion Hx; subst. destruct Hm as [[_ ->]|[[N _]|[N _]]]; [|congruence|].
        -- f_equal. apply filter_ext. intros [k v]. apply Eo.
        -- elim N. constructor.
      * apply at_inv in Hx. destruct Hx as [s [[] _]]. }
  - intros [p [k [Hp [[x [Hx _]] _]]]]. destruct p as [|a p]; [congruence|].
    apply at_inv in Hx. destruct Hx as [s [[] _]].
Qed.

Lemma undecided_sub : forall e (P : params), well_formed e ->
  (undecided e P <->
   exists a s, In (a, s) (subs_of e) /\ ~ not_routed (class_of e) a
     /\ (given_unset s P \/ undecided s P)).
Proof.
  intros e P Hw. split.
  - intros [p [k [Hp [Ha Hk]]]]. destruct p as [|a p]; [congruence|].
    destruct Ha as [x [Hx Ha]]. destruct (at_inv _ _ _ _ Hx) as [s [Hin Hx']].
    assert (Ha' : asked e (a :: p) k Unset) by (exists x; auto).
    apply (asked_sub e a s) in Ha'; auto. destruct Ha' as [Hn Ha'].
    exists a, s. split; [exact Hin|]. split; [exact Hn|].
    destruct p as [|b p].
    + left. destruct Ha' as [y [Hy [_ Hu]]]. inversion Hy; subst. exists k. auto.
    + right. exists (b :: p), k. split; [discriminate|auto].
  - intros [a [s [Hin [Hn [[k [Hu Hk]]|[p [k [Hp [Ha Hk]]]]]]]]].
    + exists [a], k. split; [discriminate|]. split; [|exact Hk].
      apply (asked_sub e a s); auto. split; [exact Hn|].
      exists s. split; [constructor|]. split; [constructor|exact Hu].
    + exists (a :: p), k. split; [discriminate|]. split; [|exact Hk].
      apply (asked_sub e a s); auto.
Qed.

Lemma router_correct : forall c rq subs, c <> Consumer -> good (Est c rq subs) ->
  (forall a s, In (a, s) subs -> correct s) -> correct (Est c rq subs).
Proof.
  intros c rq subs Hc Hg IH P Hl.
  pose proof Hg as [Hw [Hns _]].
  pose proof (Hw [] _ (at_here _)) as [Hnd [Hh [_ Hrq]]]. simpl in Hnd, Hh, Hrq.
  pose proof (Hns [] _ (at_here _)) as Hsd. simpl in Hsd.
  set (e := Est c rq subs) in *.
  assert (Eo : forall k, mem k (map fst rq) = in_signature e k).
  { intros k. apply eq_true_iff_eq. rewrite mem_spec, in_signature_in, in_map_iff. simpl. split.
    - intros [[k' r] [E H]]. simpl in E. subst. eauto.
    - intros [r H]. exists (k, r). auto. }
  assert (Er : is_router c = true) by (destruct c; auto; congruence).
  assert (Ef : fit V e P = bind (process_routing V e P)
      (fun routed =>
         bind (run_fits V (fits c (map fst subs))
                        (map (fun asub => (fst asub, fit V (snd asub))) subs) routed)
              (fun t => Ok (([], filter (fun kv => mem (fst kv) (map fst rq)) P) :: t)))).
  { unfold e. simpl fit. rewrite Er. reflexivity. }
  (* the outcome of the routing *)
  assert (R : (exists a s, In (a, s) subs /\ ~ not_routed c a /\ given_unset s P)
                /\ process_routing V e P = Err UnsetErr
              \/ (forall a s, In (a, s) subs -> ~ not_routed c a -> ~ given_unset s P)
                 /\ exists rt, process_routing V e P = Ok rt
                 /\ forall a n, In (a, n) (fits c (map fst subs)) ->
                      exists q, read_routed V rt n = Ok q
                      /\ forall s, In (a, s) subs ->
                           (~ not_routed c a -> q = filter (keep s) P)
                           /\ (not_routed c a -> q = [])).
  { destruct P as [|kv P'] eqn:EP.
    - right. split; [intros a s _ _ [k [_ []]]|]. exists None. split; [reflexivity|].
      intros a n _. exists []. simpl. split; [destruct n; reflexivity|auto].
    - rewrite <- EP in *.
      assert (Eall : forallb (fun kv => mem (fst kv) (param_names e)) P = true).
      { apply forallb_forall. intros [k v] Hk. simpl. rewrite mem_spec.
        apply legitimate_names; auto. apply Hl. now apply (in_map fst) in Hk. }
      assert (Ep : process_routing V e P = bind (route_all V (registered c (map fst subs)) subs P)
                (fun r => Ok (Some r))).
      { rewrite EP. unfold process_routing. rewrite <- EP.
        change (Est c rq subs) with e. unfold e at 1.
        rewrite Eall. reflexivity. }
      rewrite Ep.
      destruct (route_all_spec (registered c (map fst subs)) subs P)
        as [[[n [a [s [Hin [E' Hu]]]]] ->]|[Hr [rt [-> [Hf Hrt]]]]].
      + intros n a s _ E'. apply find_attr_some in E'. now apply (wf_sub e a s).
      + left. split; [|reflexivity]. exists a, s. split; [now apply find_attr_some|].
        split; [|exact Hu]. now destruct (registered_routed _ _ _ _ Hsd Hin) as [_ [_ N]].
      + right. split.
        * intros a s Hin Hn. apply (Hr (name_of a) a s).
          -- apply routed_registered; auto; [now apply (in_map fst) in Hin|eauto].
          -- now apply find_attr_in.
        * exists (Some rt). split; [reflexivity|]. eapply routed_argument; eauto. }
  rewrite Ef. destruct R as [[[a [s [Hin [Hn Hu]]]] ->]|[Hnu [rt [-> Hread]]]].
  { simpl. right. split; [|reflexivity].
    apply undecided_sub; [exact Hw|]. exists a, s. auto. }
  simpl.
  (* each sub-estimator *)
  assert (S : forall a s, In (a, s) subs ->
     exists n q, In (a, n) (fits c (map fst subs)) /\ read_routed V rt n = Ok q).
  { intros a s Hin. destruct (fits_total c (map fst subs) a) as [n Hn].
    { now apply (in_map fst) in Hin. }
    { eauto. }
    destruct (Hread a n Hn) as [q [Eq _]]. eauto. }
  assert (T : forall a n q s, In (a, n) (fits c (map fst subs)) -> read_routed V rt n = Ok q ->
     In (a, s) subs ->
     (~ (~ not_routed c a /\ undecided s P) /\ exists t, fit V s q = Ok t
        /\ forall p q', In (p, q') t <-> exists x, at_path s p x /\ must_receive e P (a :: p) x q')
     \/ ((~ not_routed c a /\ undecided s P) /\ fit V s q = Err UnsetErr)).
  { intros a n q s Hin Eq Hs.
    destruct (Hread a n Hin) as [q1 [Eq1 Hq]]. rewrite Eq in Eq1. injection Eq1 as <-.
    destruct (Hq s Hs) as [Q1 Q2].
    pose proof (good_sub e a s Hg Hs) as Hgs.
    destruct (not_routed_dec c a) as [N|N].
    - rewrite (Q2 N) in *. left. split; [tauto|].
      destruct (IH a s Hs []) as [[_ [t [Et Ht]]]|[[p [k [_ [_ []]]]] _]]; [intros k []|].
      exists t. split; [exact Et|]. intros p q'. rewrite (Ht p q').
      split; intros [x [Hx Hm]]; exists x; split; try exact Hx.
      + apply nothing_received in Hm; [|exact Hx]. subst. right. right.
        split; [|reflexivity]. rewrite (routed_path_sub e a s p Hw Hs). simpl. tauto.
      + apply nothing_received; [exact Hx|].
        destruct Hm as [[D _]|[[_ [D _]]|[_ E]]]; [discriminate| |exact E].
        rewrite (routed_path_sub e a s p Hw Hs) in D. simpl in D. tauto.
    - rewrite (Q1 N) in *.
      destruct (IH a s Hs (filter (keep s) P)) as [[U [t [Et Ht]]]|[U Et]].
      { intros k Hk. eapply keep_legitimate; eauto. }
      + rewrite (keep_undecided s P Hgs) in U. left. split; [tauto|].
        exists t. split; [exact Et|].
        intros p q'. rewrite (Ht p q').
        split; intros [x [Hx Hm]]; exists x; split; try exact Hx;
          apply (keep_receive e a s P p x q' Hg Hs N (Hnu a s Hs N) Hx); exact Hm.
      + rewrite (keep_undecided s P Hgs) in U. right. auto. }
  assert (D : forall l, incl l subs ->
     (exists a s, In (a, s) l /\ ~ not_routed c a /\ undecided s P)
     \/ (forall a s, In (a, s) l -> ~ (~ not_routed c a /\ undecided s P))).
  { intros l Hi. induction l as [|[a s] r IHr]; [right; simpl; tauto|].
    destruct IHr as [[b [y [Hb Hy]]]|Nr]; [intros z Hz; apply Hi; now right| |].
    { left. exists b, y. split; [now right|exact Hy]. }
    assert (Hs : In (a, s) subs) by (apply Hi; now left).
    destruct (S a s Hs) as [n [q [Hn Eq]]].
    destruct (T a n q s Hn Eq Hs) as [[U _]|[U _]].
    - right. intros b y [E|E]; [injection E as <- <-; exact U|auto].
    - left. exists a, s. split; [now left|exact U]. }
  destruct (D subs (incl_refl _)) as [[a [s [Hin [N U]]]]|Nus].
  - right. split; [apply undecided_sub; [exact Hw|]; exists a, s; auto|].
    rewrite run_fits_err; [reflexivity| |].
    + intros a' n' Hin'. destruct (Hread a' n' Hin') as [q [Eq _]]. exists q. split; [exact Eq|].
      intros s' Es. apply find_attr_some in Es.
      destruct (T a' n' q s' Hin' Eq Es) as [[_ [t [Et _]]]|[_ Et]]; [left; eauto|now right].
    + destruct (S a s Hin) as [n [q [Hn Eq]]].
      exists a, n, s, q. split; [exact Hn|]. split; [exact Eq|].
      split; [now apply find_attr_in|].
      destruct (T a n q s Hn Eq Hin) as [[U' _]|[_ Et]]; [tauto|exact Et].
  - left. split.
    { intros U. apply undecided_sub in U; [|exact Hw].
      destruct U as [a [s [Hin [N [U|U]]]]]; simpl in Hin, N; [elim (Hnu a s Hin N U)|].
      apply (Nus a s Hin). auto. }
    destruct (run_fits_ok (fits c (map fst subs)) subs rt) as [t [Et Ht]].
    { intros a n Hin. destruct (Hread a n Hin) as [q [Eq _]]. exists q. split; [exact Eq|].
      intros s Es. apply find_attr_some in Es.
      destruct (T a n q s Hin Eq Es) as [[_ [t [Et _]]]|[U _]]; [eauto|elim (Nus a s Es U)]. }
    rewrite Et. simpl. eexists. split; [reflexivity|]. intros p q. split.
    + intros [E|H].
      * injection E as <- <-. exists e. split; [constructor|]. left. split; [reflexivity|].
        apply filter_ext. intros [k v]. apply Eo.
      * apply Ht in H. destruct H as [a [n [s [q' [t' [p' [Hin [Eq [Es [Et' [-> H]]]]]]]]]]].
        apply find_attr_some in Es.
        destruct (T a n q' s Hin Eq Es) as [[_ [t2 [Et2 Ht2]]]|[U _]]; [|elim (Nus a s Es U)].
        rewrite Et' in Et2. injection Et2 as <-. apply Ht2 in H.
        destruct H as [x [Hx Hm]]. exists x. split; [now apply at_sub with s|exact Hm].
    + intros [x [Hx Hm]]. destruct p as [|a p].
      * left. inversion Hx; subst. destruct Hm as [[_ ->]|[[N _]|[N _]]]; [|congruence|].
        -- f_equal. apply filter_ext. intros [k v]. apply Eo.
        -- elim N. constructor.
      * right. apply Ht. apply at_inv in Hx. destruct Hx as [s [Hin Hx]]. simpl in Hin.
        destruct (S a s Hin) as [n [q1 [Hn Eq1]]].
        destruct (T a n q1 s Hn Eq1 Hin) as [[_ [t2 [Et2 Ht2]]]|[U _]]; [|elim (Nus a s Hin U)].
        exists a, n, s, q1, t2, p. split; [exact Hn|]. split; [exact Eq1|].
        split; [now apply find_attr_in|]. split; [exact Et2|]. split; [reflexivity|].
        apply Ht2. eauto.
Qed.

Lemma all_correct : forall e, good e -> correct e.
Proof.
  intros e. induction e as [c rq subs IH] using est_induction. intros Hg.
  assert (Dc : c = Consumer \/ c <> Consumer) by (destruct c; (now left) || (right; discriminate)).
  destruct Dc as [->|Hc]; [now apply consumer_correct|].
  apply router_correct; auto. intros a s Hin. apply (IH a s Hin).
  now apply (good_sub (Est c rq subs) a s).
Qed.

End Main.

(** * Theorems *)

(** Fit parameters passed to any tree of estimators: a parameter that nobody
    asks for is an error, a parameter whose request was left unset by a
    sub-estimator is an error, and otherwise every estimator of the tree is
    fitted with exactly the parameters it requested, and nothing when it sits
    under one of the three arguments without routing. *)
Theorem C76_delivery : forall V e (P : params V),
  well_formed e -> no_synthetic_data e -> refusals_effective e ->
  ((exists k, In k (map fst P) /\ ~ legitimate e k) -> fit V e P = Err TypeErr)
  /\ ((forall k, In k (map fst P) -> legitimate e k) ->
      (undecided e P -> fit V e P = Err UnsetErr)
      /\ (~ undecided e P ->
          exists t, fit V e P = Ok t
            /\ forall p q, In (p, q) t <->
                 exists x, at_path e p x /\ must_receive e P p x q)).
Proof.
  intros V e P Hw Hn Hre. split.
  - intros [k [Hk Nl]]. destruct e as [c rq subs].
    assert (Dc : c = Consumer \/ c <> Consumer)
      by (destruct c; (now left) || (right; discriminate)).
    destruct Dc as [->|Hc].
    + simpl. destruct (forallb _ P) eqn:E; [|reflexivity]. exfalso. apply Nl.
      left. split; [reflexivity|]. rewrite forallb_forall in E.
      apply in_map_iff in Hk. destruct Hk as [[k' v] [Ek Hk]]. simpl in Ek. subst k'.
      specialize (E _ Hk). simpl in E. apply mem_spec, in_map_iff in E.
      destruct E as [[k' r] [Ek H]]. simpl in Ek. subst k'. simpl. eauto.
    + assert (Er : is_router c = true) by (destruct c; auto; congruence).
      simpl fit. rewrite Er. unfold process_routing.
      destruct P as [|kv P']; [destruct Hk|].
      destruct (forallb _ (kv :: P')) eqn:E; [|reflexivity]. exfalso. apply Nl.
      apply legitimate_names; [split; auto|exact Hc|].
      rewrite forallb_forall in E.
      apply in_map_iff in Hk. destruct Hk as [[k' v] [Ek Hk]]. simpl in Ek. subst k'.
      specialize (E _ Hk). now apply mem_spec in E.
  - intros Hl.
    destruct (all_correct V e (conj Hw (conj Hn Hre)) P Hl) as [[U [t [E Ht]]]|[U E]].
    + split; [contradiction|]. intros _. exists t. split; [exact E|exact Ht].
    + split; [intros _; exact E|contradiction].
Qed.

(** Without parameter every tree (also with [SyntheticData]) is fitted, and no
    estimator receives anything. *)
Lemma run_fits_none : forall V l subs,
  (forall a s, In (a, s) subs -> exists t, fit V s [] = Ok t /\ forall p q, In (p, q) t -> q = []) ->
  exists t, run_fits V l (map (fun asub => (fst asub, fit V (snd asub))) subs) None = Ok t
    /\ forall p q, In (p, q) t -> q = [].
Proof.
  intros V l subs H. induction l as [|[a n] r [t [E Ht]]].
  - exists []. split; [reflexivity|intros p q []].
  - simpl. assert (En : read_routed V None n = Ok []) by (destruct n; reflexivity).
    rewrite En. simpl. rewrite find_attr_map.
    destruct (find_attr a subs) as [s|] eqn:Es; simpl.
    + apply find_attr_some in Es. destruct (H a s Es) as [t1 [E1 H1]]. rewrite E1. simpl.
      rewrite E. simpl. eexists. split; [reflexivity|]. intros p q Hin.
      apply in_app_iff in Hin. destruct Hin as [Hin|Hin]; [|eauto].
      unfold push in Hin. apply in_map_iff in Hin. destruct Hin as [[p' q'] [Ep Hin]].
      injection Ep as <- <-. eauto.
    + rewrite E. simpl. eauto.
Qed.

Theorem C76_nothing : forall V e,
  exists t, fit V e [] = Ok t /\ forall p q, In (p, q) t -> q = [].
Proof.
  intros V e. induction e as [c rq subs IH] using est_induction.
  simpl. destruct (is_router c).
  - simpl. destruct (run_fits_none V (fits c (map fst subs)) subs IH) as [t [E Ht]].
    rewrite E. simpl. eexists. split; [reflexivity|].
    intros p q [Eq|Hin]; [now injection Eq as _ <-|eauto].
  - eexists. split; [reflexivity|]. intros p q [Eq|[]]. now injection Eq as _ <-.
Qed.

(** The synthetic data prior cannot be fitted with any parameter, even when
    its distribution estimator requests it: the distribution estimator is
    registered as [distance_estimator] and read as [distribution_estimator]. *)
Theorem C76_synthetic_data_refuted : forall V d (P : params V),
  P <> [] ->
  (forall t, fit V (Est SyntheticData [] [(Arg "distribution_estimator", d)]) P <> Ok t)
  /\ (forall c rq subs, d = Est c rq subs ->
      (forall k, In k (map fst P) -> In (k, Yes) rq) ->
      self_request c = true -> NoDup (map fst rq) ->
      fit V (Est SyntheticData [] [(Arg "distribution_estimator", d)]) P = Err AttributeErr).
Proof.
  intros V d P HP.
  assert (F : forall o, bind (process_routing V
      (Est SyntheticData [] [(Arg "distribution_estimator", d)]) P)
      (fun routed => bind (run_fits V (fits SyntheticData [Arg "distribution_estimator"])
           [(Arg "distribution_estimator", fit V d)] routed) o)
      = match process_routing V (Est SyntheticData [] [(Arg "distribution_estimator", d)]) P with
        | Ok _ => @Err (trace V) AttributeErr
        | Err x => Err x
        end).
  { intros o. unfold process_routing. destruct P as [|kv P']; [congruence|].
    destruct (forallb _ (kv :: P')); [|reflexivity]. simpl.
    destruct (route V d (kv :: P')); reflexivity. }
  split.
  - intros t. simpl fit. rewrite F.
    destruct (process_routing V _ P); discriminate.
  - intros c rq subs Hd Hk Hc Hnd. simpl fit. rewrite F.
    unfold process_routing. destruct P as [|kv P'] eqn:EP; [congruence|]. rewrite <- EP in *.
    destruct (forallb _ P) eqn:E.
    + simpl. subst d. simpl route. rewrite Hc.
      destruct (existsb _ rq) eqn:E2; [|reflexivity]. exfalso.
      apply existsb_exists in E2. destruct E2 as [[k r] [Hin H]]. apply andb_prop in H.
      destruct H as [Hr Hg]. simpl in *. apply mem_spec in Hg.
      specialize (Hk k Hg).
      assert (r = Yes); [|subst; discriminate].
      clear - Hnd Hin Hk. induction rq as [|[m y] l IH]; [destruct Hin|].
      simpl in Hnd. inversion Hnd; subst.
      destruct Hin as [E1|E1]; destruct Hk as [E2|E2].
      * congruence.
      * exfalso. apply H1. injection E1 as -> ->. now apply (in_map fst) in E2.
      * exfalso. apply H1. injection E2 as -> ->. now apply (in_map fst) in E1.
      * auto.
    + exfalso. assert (T : forallb (fun kv => mem (fst kv) (param_names
          (Est SyntheticData [] [(Arg "distribution_estimator", d)]))) P = true).
      { apply forallb_forall. intros [k v] Hin. simpl. rewrite mem_spec.
        subst d. simpl. unfold names_of_subs at 1. simpl. rewrite app_nil_r, in_app_iff. left. unfold own_names. rewrite Hc.
        apply in_map_iff. exists (k, Yes). split; [reflexivity|]. apply filter_In.
        split; [|reflexivity]. apply Hk. now apply (in_map fst) in Hin. }
      congruence.
Qed.

(** Without [refusals_effective] the delivery fails: a parameter refused with
    [False] still reaches the estimator when an estimator inside it requests
    it. *)
Definition refusing : est :=
  Est DenoiseCovariance []
    [(Arg "covariance_estimator",
      Est ImpliedCovariance [("implied_vol", No)]
        [(Arg "prior_covariance_estimator",
          Est ImpliedCovariance [("implied_vol", Yes)] [])])].

Ltac walk :=
  repeat match goal with
  | H : at_path (Est _ _ _) _ _ |- _ => inversion H; subst; clear H
  | H : In _ (subs_of _) |- _ => simpl in H
  | H : In _ (_ :: _) |- _ => simpl in H
  | H : _ \/ _ |- _ => destruct H
  | H : False |- _ => destruct H
  | H : (_, _) = (_, _) |- _ => injection H as <- <-
  end.

Ltac nodup := repeat first [apply NoDup_nil | apply NoDup_cons]; simpl; intuition congruence.
Ltac tree := intros p x Hx; walk; simpl;
  (split; [nodup|]);
  (split; [intros a s Hs; simpl in Hs; walk; simpl; eauto; tauto|]);
  (split; [nodup|]);
  auto.
Ltac no_sd := intros p x Hx; walk; simpl; discriminate.

Theorem C76_refusal_refuted : exists e (P : params nat),
  well_formed e /\ no_synthetic_data e
  /\ (forall k, In k (map fst P) -> legitimate e k) /\ ~ undecided e P
  /\ exists p x t, at_path e p x /\ routed_path e p /\ In ("implied_vol", No) (requests_of x)
     /\ fit nat e P = Ok t /\ In (p, [("implied_vol", 7)]) t.
Proof.
  exists refusing, [("implied_vol", 7)].
  split; [unfold refusing; tree|]. split; [unfold refusing; no_sd|].
  split.
  { intros k [<-|[]]. right. split; [discriminate|].
    exists [Arg "covariance_estimator"; Arg "prior_covariance_estimator"], Yes.
    split; [|discriminate]. eexists. split; [|split].
    - eapply at_sub; [now left|]. eapply at_sub; [now left|]. apply at_here.
    - eapply routed_sub; [now left| |eapply routed_sub; [now left| |constructor]];
        unfold not_routed; simpl; intuition congruence.
    - now left. }
  split.
  { intros [p [k [_ [[x [Hx [_ Hu]]] _]]]]. unfold refusing in Hx. walk; simpl in Hu;
      intuition congruence. }
  exists [Arg "covariance_estimator"]. do 2 eexists. split; [|split; [|split; [|split]]].
  - eapply at_sub; [now left|]. apply at_here.
  - eapply routed_sub; [now left| |constructor]. unfold not_routed; simpl; intuition congruence.
  - now left.
  - vm_compute. reflexivity.
  - simpl. tauto.
Qed.

(** A parameter requested only by the loading matrix estimator of a factor
    model (for instance the weights of its regression), by the final estimator
    of a stacking or by the outer estimator of nested clusters cannot be
    passed at all. *)
Theorem C76_unrouted_refuted : forall V c a k (v : V),
  not_routed c a ->
  holds_estimator c a
  /\ fit V (Est c [] [(a, Est Consumer [(k, Yes)] [])]) [(k, v)] = Err TypeErr.
Proof.
  intros V c a k v H. split.
  - destruct H as [[-> ->]|[[-> ->]|[-> ->]]]; simpl; tauto.
  - destruct H as [[-> ->]|[[-> ->]|[-> ->]]]; reflexivity.
Qed.

(** * A concrete case *)

(** A stacking of a mean-risk optimization, whose prior uses implied
    volatilities below a denoised covariance, and of a hierarchical
    optimization with an estimator taking weights it refuses. *)
Definition portfolio : est :=
  Est Stacking []
    [(Entry "mean_risk",
      Est MeanRisk []
        [(Arg "prior_estimator",
          Est EmpiricalPrior []
            [(Arg "mu_estimator", Est Consumer [("weights", Yes)] []);
             (Arg "covariance_estimator",
              Est DenoiseCovariance []
                [(Arg "covariance_estimator",
                  Est ImpliedCovariance [("implied_vol", Yes)] [])])])]);
     (Entry "hrp",
      Est HRP []
        [(Arg "distance_estimator", Est Consumer [("weights", No)] [])]);
     (Arg "final_estimator", Est MeanRisk [] [])].

Example C76_delivery_applies :
  well_formed portfolio /\ no_synthetic_data portfolio /\ refusals_effective portfolio
  /\ fit nat portfolio [("implied_vol", 1); ("weights", 2)] =
     Ok [([], []);
         ([Entry "mean_risk"], []);
         ([Entry "mean_risk"; Arg "prior_estimator"], []);
         ([Entry "mean_risk"; Arg "prior_estimator"; Arg "mu_estimator"], [("weights", 2)]);
         ([Entry "mean_risk"; Arg "prior_estimator"; Arg "covariance_estimator"], []);
         ([Entry "mean_risk"; Arg "prior_estimator"; Arg "covariance_estimator";
           Arg "covariance_estimator"], [("implied_vol", 1)]);
         ([Entry "hrp"], []);
         ([Entry "hrp"; Arg "distance_estimator"], []);
         ([Arg "final_estimator"], [])]
  /\ fit nat portfolio [("sample_weight", 1)] = Err TypeErr.
Proof.
  split; [unfold portfolio; tree|]. split; [unfold portfolio; no_sd|].
  split; [|split; vm_compute; reflexivity].
  intros p x k Hx Hk q r Hq [y [Hy _]]. unfold portfolio in Hx. walk;
    simpl in Hk; try tauto; try (intuition congruence);
    inversion Hy; subst; try congruence; simpl in *; tauto.
Qed.

Print Assumptions C76_delivery.
Print Assumptions C76_nothing.
Print Assumptions C76_synthetic_data_refuted.
Print Assumptions C76_refusal_refuted.
Print Assumptions C76_unrouted_refuted.
