(** C86: copies of portfolios made by copy.deepcopy and pickle. *)
From Coq Require Import String List ZArith Bool Arith Lia.
From Verif Require Import SerialModel.
Import ListNotations.
Local Open Scope string_scope.
Local Open Scope list_scope.
Local Open Scope nat_scope.

(** ** Specification *)
(** what a user sees of an attribute: an array is seen by its content *)
Definition shown {W} (cs : list (cell W)) (v : value W) : value W + option (cell W) :=
  match v with Ref r => inr (nth_error cs r) | v => inl v end.
(** the public attributes of a portfolio *)
Definition settings : list string :=
  ["risk_free_rate"; "name"; "tag"; "annualized_factor"; "fitness_measures"; "compounded"; "min_acceptable_return"; "value_at_risk_beta";
   "entropic_risk_measure_theta"; "entropic_risk_measure_beta"; "cvar_beta"; "evar_beta"; "drawdown_at_risk_beta"; "cdar_beta"; "edar_beta"].
Definition inputs : list string := ["X"; "weights"; "previous_weights"; "transaction_costs"; "management_fees"].
Definition results : list string := ["assets"; "n_assets"; "total_cost"; "total_fee"].
(** two portfolios, in their heaps, that nothing tells apart but their identity *)
Definition same_single {W} (cs : list (cell W)) (o : obj W) (cs' : list (cell W)) (o' : obj W) : Prop :=
  kind_of o = Single /\ kind_of o' = Single /\ returns o' = returns o /\ observations o' = observations o /\
  forall n, In n (settings ++ inputs ++ results) -> shown cs' (attr o' n) = shown cs (attr o n).
Definition same_multi {W} (s : state W) (o : obj W) (s' : state W) (o' : obj W) : Prop :=
  kind_of o = Multi /\ kind_of o' = Multi /\ returns o' = returns o /\ observations o' = observations o /\
  (forall n, In n ("check_observations_order" :: settings) -> attr o' n = attr o n) /\
  exists l l', attr o "portfolios" = Objs l /\ attr o' "portfolios" = Objs l' /\
    Forall2 (fun i i' => exists p p', nth_error (objs s) i = Some p /\ nth_error (objs s') i' = Some p' /\
                                      same_single (cells s) p (cells s') p') l l'.
(** the arrays a portfolio refers to *)
Definition refers {W} (o : obj W) (r : nat) : Prop := exists n, In n inputs /\ attr o n = Ref r.

(** the amount charged by costs (a number for all assets, or one number per asset) *)
Definition charged {W} (cs : list (cell W)) (v : value W) (n : nat) (amounts : list (num W)) (total_charge : num W) : Prop :=
  match v with
  | Num a => total_charge = if is_zero_ W a then zero_ W else total (map (mul_ W a) amounts)
  | Ref r => exists l, nth_error cs r = Some (Vec l) /\ length l = n /\ Forall (fun x => nan_ W x = false) l /\
                       total_charge = total (zip_with (mul_ W) l amounts)
  | _ => False
  end.
(** the results stored in a portfolio are those of its arrays as they are now *)
Definition current {W} (cs : list (cell W)) (o : obj W) : Prop :=
  exists x n frame rows w wl p pl cost fee,
    attr o "X" = Ref x /\ nth_error cs x = Some (Mat n frame rows) /\
    attr o "weights" = Ref w /\ nth_error cs w = Some (Vec wl) /\ length wl = n /\ Forall (fun x => nan_ W x = false) wl /\
    attr o "previous_weights" = Ref p /\ nth_error cs p = Some (Vec pl) /\ length pl = n /\ Forall (fun x => nan_ W x = false) pl /\
    charged cs (attr o "transaction_costs") n (map (absolute_ W) (zip_with (sub_ W) pl wl)) cost /\
    charged cs (attr o "management_fees") n wl fee /\
    attr o "total_cost" = Num cost /\ attr o "total_fee" = Num fee /\ attr o "n_assets" = Count n /\
    attr o "assets" = Names (match frame with Some (columns, _) => columns | None => default_names_ W n end) /\
    observations o = (match frame with Some (_, index) => index | None => map Z.of_nat (seq 0 (length rows)) end) /\
    returns o = map (fun row => sub_ W (sub_ W (total (zip_with (mul_ W) wl row)) cost) fee) rows /\
    Forall (fun x => nan_ W x = false) (returns o).

(** each portfolio starts after the end of the previous one *)
Fixpoint ordered {W} (l : list (obj W)) : Prop :=
  match l with
  | p :: ((q :: _) as l') =>
      (exists a b, hd_error (observations q) = Some a /\ hd_error (rev (observations p)) = Some b /\ (b < a)%Z) /\ ordered l'
  | _ => True
  end.

(** ** Lists *)
Lemma nth_set_nth {A} (l : list A) i x j : nth_error (set_nth l i x) j = if Nat.eq_dec i j then match nth_error l i with Some _ => Some x | None => None end else nth_error l j.
Proof.
  destruct (Nat.eq_dec i j) as [->|N].
  - revert j. induction l as [|a l IH]; intros [|j]; cbn; auto.
  - revert i j N. induction l as [|a l IH]; intros [|i] [|j] N; cbn; try congruence; auto.
Qed.
Lemma length_set_nth {A} (l : list A) i x : length (set_nth l i x) = length l.
Proof. revert i; induction l as [|a l IH]; intros [|i]; cbn; congruence. Qed.
Lemma nth_app {A} (l m : list A) i x : nth_error l i = Some x -> nth_error (l ++ m) i = Some x.
Proof. intros E. rewrite nth_error_app1; [exact E|]. apply nth_error_Some; congruence. Qed.
Lemma nth_last {A} (l : list A) x : nth_error (l ++ [x]) (length l) = Some x.
Proof. rewrite nth_error_app2 by lia. now rewrite Nat.sub_diag. Qed.
Lemma nth_lt {A} (l : list A) i x : nth_error l i = Some x -> i < length l.
Proof. intros E. apply nth_error_Some; congruence. Qed.
Lemma existsb_false {A} (f : A -> bool) l : existsb f l = false <-> Forall (fun x => f x = false) l.
Proof.
  induction l as [|a l IH]; cbn; [split; auto|]. rewrite orb_false_iff, IH. split; [intros [? ?]; now constructor|].
  intros F; inversion F; auto.
Qed.
Lemma valid_spec {W} n (l : list (num W)) : valid n l = true <-> length l = n /\ Forall (fun x => nan_ W x = false) l.
Proof.
  unfold valid. rewrite andb_true_iff, negb_true_iff, existsb_false, Nat.eqb_eq. tauto.
Qed.

(** ** The constructor *)
Section Construct.
  Context {W : world}.
  Implicit Types (cs : list (cell W)) (v : value W) (kw : list (string * value W)).

  Lemma to_array_spec cs n names v cs' r : to_array cs n names v = Some (cs', r) ->
    (exists ext, cs' = cs ++ ext /\ Forall (fun c => rectangular c = true) ext) /\ exists l, nth_error cs' r = Some (Vec l) /\ length l = n /\ Forall (fun x => nan_ W x = false) l.
  Proof.
    destruct v; cbn; try discriminate.
    - destruct (valid n l) eqn:V; [|discriminate]. intros E. injection E as <- <-. split; [eexists; split; [reflexivity|now repeat constructor]|]. exists l. rewrite nth_last. apply valid_spec in V. tauto.
    - destruct names as [ns|]; [|discriminate]. match goal with |- context [valid n ?l] => destruct (valid n l) eqn:V end; [|discriminate].
      intros E. injection E as <- <-. split; [eexists; split; [reflexivity|now repeat constructor]|]. eexists. rewrite nth_last. apply valid_spec in V. split; [reflexivity|exact V].
    - destruct (nth_error cs r0) as [[l|]|] eqn:N; try discriminate. destruct (valid n l) eqn:V; [|discriminate].
      intros E. injection E as <- <-. split; [exists []; now rewrite app_nil_r|]. exists l. apply valid_spec in V. tauto.
  Qed.
  (** an argument of the constructor as it is stored *)
  Definition cost_ok cs n v : Prop :=
    match v with
    | Num _ => True
    | Ref r => exists l, nth_error cs r = Some (Vec l) /\ length l = n /\ Forall (fun x => nan_ W x = false) l
    | _ => False
    end.
  Lemma resolve_cost_spec cs n names v cs' t : resolve_cost cs n names v = Some (cs', t) -> (exists ext, cs' = cs ++ ext /\ Forall (fun c => rectangular c = true) ext) /\ cost_ok cs' n t.
  Proof.
    assert (G : forall v, match to_array cs n names v with Some (cs, r) => Some (cs, Ref r) | None => None end = Some (cs', t) ->
                (exists ext, cs' = cs ++ ext /\ Forall (fun c => rectangular c = true) ext) /\ cost_ok cs' n t).
    { intros u E. destruct (to_array cs n names u) as [[c r]|] eqn:T; [|discriminate]. injection E as <- <-. apply to_array_spec in T. exact T. }
    destruct v; intros E; try (apply G in E; exact E); cbn in E; injection E as <- <-; (split; [exists []; now rewrite app_nil_r|exact I]).
  Qed.
  Lemma cost_ok_app cs ext n v : cost_ok cs n v -> cost_ok (cs ++ ext) n v.
  Proof. destruct v; cbn; auto. intros (l & N & L). exists l. split; [now apply nth_app|exact L]. Qed.
  Lemma content_of cs r l : nth_error cs r = Some (Vec l) -> content cs r = l.
  Proof. intros E. unfold content. now rewrite E. Qed.
  Lemma charge_charged cs n v l : cost_ok cs n v -> charged cs v n l (charge cs v l).
  Proof. destruct v; cbn; try tauto. intros (m & N & L & F). exists m. rewrite (content_of _ _ _ N). auto. Qed.
  Lemma charged_charge cs n v l c : charged cs v n l c -> cost_ok cs n v /\ c = charge cs v l.
  Proof. destruct v; cbn; try tauto. intros (m & N & L & F & E). rewrite (content_of _ _ _ N). split; [exists m; auto|exact E]. Qed.

  (** the attributes that can be stored as settings *)
  Definition stored (o : obj W) : Prop := forall n, In n settings -> plain (attr o n) = true.
  Lemma base_init_spec k kw base : base_init k kw = Some base ->
    map fst base = ["annualized_factor"; "risk_free_rate"; "tag"; "compounded"; "min_acceptable_return"; "value_at_risk_beta";
      "entropic_risk_measure_theta"; "entropic_risk_measure_beta"; "cvar_beta"; "evar_beta"; "drawdown_at_risk_beta"; "cdar_beta"; "edar_beta";
      "name"; "fitness_measures"] /\ Forall (fun p => plain (snd p) = true) base /\ attributes base "fitness_measures" <> None_ /\ attributes base "name" <> None_.
  Proof.
    unfold base_init.
    assert (S : forall n v, setting kw n = Some v -> plain v = true).
    { intros n v. unfold setting. destruct (arg kw n) as [u|]; [|discriminate]. destruct (plain u) eqn:P; [|discriminate]. now intros [= <-]. }
    repeat match goal with |- context [match setting kw ?n with _ => _ end] => let E := fresh "E" in destruct (setting kw n) eqn:E; [apply S in E|discriminate] end.
    intros [= <-]. split; [reflexivity|]. split; [|split].
    - unfold base_attrs. repeat constructor; cbn [snd]; try assumption.
      + destruct v; try assumption; reflexivity.
      + destruct v2; try assumption; reflexivity.
    - cbn. destruct v2; discriminate.
    - cbn. destruct v; discriminate.
  Qed.

  Lemma lookup_in {B} (l : list (string * B)) n : In n (map fst l) -> exists u, lookup l n = Some u /\ In (n, u) l.
  Proof.
    unfold lookup. induction l as [|[a b] l IH]; [intros []|]. cbn. destruct (String.eqb_spec a n) as [->|N].
    - intros _. exists b. cbn. auto.
    - intros [G|G]; [easy|]. destruct (IH G) as (v & E & I). exists v. auto.
  Qed.
  Lemma attributes_app (l m : list (string * value W)) n : ~ In n (map fst l) -> attributes (l ++ m) n = attributes m n.
  Proof.
    unfold attributes, lookup. induction l as [|[a b] l IH]; [reflexivity|]. cbn. intros N. destruct (String.eqb_spec a n); [tauto|].
    apply IH. tauto.
  Qed.
  Lemma base_stored (l base : list (string * value W)) k kw : base_init k kw = Some base ->
    (forall n, In n settings -> ~ In n (map fst l)) ->
    (forall n, In n settings -> plain (attributes (l ++ base) n) = true) /\
    attributes (l ++ base) "fitness_measures" <> None_ /\ attributes (l ++ base) "name" <> None_.
  Proof.
    intros B D. destruct (base_init_spec _ _ _ B) as (K & P & F & N).
    assert (G : forall n, In n settings -> attributes (l ++ base) n = attributes base n) by (intros n I; apply attributes_app; auto).
    split; [|split; rewrite G; auto; cbn; tauto].
    intros n I. rewrite G by exact I. unfold attributes.
    destruct (lookup_in base n) as (v & E & J). { rewrite K. revert I. unfold settings. cbn. tauto. }
    rewrite E. rewrite Forall_forall in P. exact (P _ J).
  Qed.
  Ltac not_here := cbn; intuition discriminate.

  Lemma new_single_spec cs k kw cs' o : new_single cs k kw = Some (cs', o) ->
    (exists ext, cs' = cs ++ ext /\ Forall (fun c => rectangular c = true) ext) /\ kind_of o = Single /\ current cs' o /\ stored o /\ attr o "fitness_measures" <> None_ /\ attr o "name" <> None_.
  Proof.
    unfold new_single. intros E.
    destruct (arg kw "X") as [[]|]; try discriminate. rename r into x.
    destruct (arg kw "weights") as [wv|]; [|discriminate].
    destruct (arg kw "previous_weights") as [pv|]; [|discriminate].
    destruct (arg kw "transaction_costs") as [tv|]; [|discriminate].
    destruct (arg kw "management_fees") as [mv|]; [|discriminate].
    destruct (nth_error cs x) as [[|n frame rows]|] eqn:Ex; try discriminate.
    set (names := match frame with Some (columns, _) => Some columns | None => None end) in E.
    destruct (to_array cs n names wv) as [[cs1 w]|] eqn:Ew; [|discriminate].
    destruct (resolve_previous cs1 n names pv) as [[cs2 p]|] eqn:Ep; [|discriminate].
    destruct (resolve_cost cs2 n names tv) as [[cs3 t]|] eqn:Et; [|discriminate].
    destruct (resolve_cost cs3 n names mv) as [[cs4 m]|] eqn:Em; [|discriminate].
    cbv zeta in E. destruct (existsb (nan_ W) _) eqn:NaN; [discriminate|].
    destruct (base_init k kw) as [base|] eqn:B; [|discriminate]. injection E as <- <-.
    destruct (to_array_spec _ _ _ _ _ _ Ew) as [(e1 & -> & V1) (wl & Nw & Lw & Fw)].
    assert (P : (exists ext, cs2 = (cs ++ e1) ++ ext /\ Forall (fun c => rectangular c = true) ext) /\ exists l, nth_error cs2 p = Some (Vec l) /\ length l = n /\ Forall (fun x => nan_ W x = false) l).
    { destruct pv; unfold resolve_previous in Ep; try (apply to_array_spec in Ep; exact Ep).
      cbn in Ep. injection Ep as <- <-. split; [eexists; split; [reflexivity|now repeat constructor]|]. exists (repeat (zero_ W) n). rewrite nth_last. split; [reflexivity|]. split; [apply repeat_length|].
      apply Forall_forall. intros z I. apply repeat_spec in I. subst z. apply zero_number. }
    destruct P as [(e2 & -> & V2) (pl & Np & Lp & Fp)].
    destruct (resolve_cost_spec _ _ _ _ _ _ Et) as [(e3 & -> & V3) Ct]. destruct (resolve_cost_spec _ _ _ _ _ _ Em) as [(e4 & -> & V4) Cm].
    assert (Nw' : nth_error ((((cs ++ e1) ++ e2) ++ e3) ++ e4) w = Some (Vec wl)) by (do 3 apply nth_app; exact Nw).
    assert (Np' : nth_error ((((cs ++ e1) ++ e2) ++ e3) ++ e4) p = Some (Vec pl)) by (do 2 apply nth_app; exact Np).
    rewrite (content_of _ _ _ Nw'), (content_of _ _ _ Np') in *.
    match goal with |- context [attributes ?l] => set (L := l) end.
    split; [exists (((e1 ++ e2) ++ e3) ++ e4); split; [now rewrite !app_assoc|repeat (apply Forall_app; split); assumption]|]. split; [reflexivity|].
    split.
    - exists x, n, frame, rows, w, wl, p, pl.
      apply (cost_ok_app _ e4) in Ct.
      eexists (charge _ t _), (charge _ m _). cbn [attr returns observations].
      split; [reflexivity|]. split; [do 4 apply nth_app; exact Ex|]. split; [reflexivity|]. split; [exact Nw'|]. split; [exact Lw|]. split; [exact Fw|].
      split; [reflexivity|]. split; [exact Np'|]. split; [exact Lp|]. split; [exact Fp|].
      split; [apply charge_charged; exact Ct|]. split; [apply charge_charged; exact Cm|].
      split; [reflexivity|]. split; [reflexivity|]. split; [reflexivity|].
      split; [destruct frame as [[? ?]|]; reflexivity|]. split; [reflexivity|]. split; [reflexivity|].
      apply existsb_false. exact NaN.
    - destruct (base_stored (firstn 9 L) base k kw B) as (S1 & S2 & S3).
      { intros a I. revert I. unfold settings, L. cbn. intuition (subst; discriminate). }
      split; [exact S1|]. split; [exact S2|exact S3].
  Qed.
End Construct.

(** ** Copies *)
Section Copies.
  Context {W : world}.
  Implicit Types (cs : list (cell W)) (v : value W).

  Definition okv cs v : Prop := match v with Ref r => r < length cs | Objs _ => False | _ => True end.
  Lemma shown_app cs ext v : okv cs v -> shown (cs ++ ext) v = shown cs v.
  Proof. destruct v; cbn; auto. intros L. now rewrite nth_error_app1. Qed.
  Lemma okv_app cs ext v : okv cs v -> okv (cs ++ ext) v.
  Proof. destruct v; cbn; auto. rewrite app_length. lia. Qed.
  Definition costv cs v : Prop := match v with Num _ => True | Ref r => r < length cs | _ => False end.
  Definition computed v : Prop := match v with Num _ | Names _ | Count _ => True | _ => False end.
  Record shaped cs (o : obj W) : Prop := {
    sh_kind : kind_of o = Single; sh_stored : stored o; sh_fit : attr o "fitness_measures" <> None_;
    sh_x : exists r, attr o "X" = Ref r /\ r < length cs;
    sh_w : exists r, attr o "weights" = Ref r /\ r < length cs;
    sh_p : exists r, attr o "previous_weights" = Ref r /\ r < length cs;
    sh_t : costv cs (attr o "transaction_costs"); sh_m : costv cs (attr o "management_fees");
    sh_res : forall n, In n results -> computed (attr o n) }.
  Lemma cost_ok_costv cs n v : cost_ok cs n v -> costv cs v.
  Proof. destruct v; cbn; auto. intros (l & N & _). now apply nth_lt in N. Qed.
  Lemma current_shaped cs o : kind_of o = Single -> stored o -> attr o "fitness_measures" <> None_ -> current cs o -> shaped cs o.
  Proof.
    intros K S F (x & n & frame & rows & w & wl & p & pl & cost & fee & Ex & Nx & Ew & Nw & Lw & Fw & Ep & Np & Lp & Fp & Ct & Cm & Et & Em & En & Ea & _).
    apply charged_charge in Ct, Cm. destruct Ct as [Ct _], Cm as [Cm _]. apply cost_ok_costv in Ct, Cm.
    constructor; auto.
    - exists x. split; [exact Ex|]. now apply nth_lt in Nx.
    - exists w. split; [exact Ew|]. now apply nth_lt in Nw.
    - exists p. split; [exact Ep|]. now apply nth_lt in Np.
    - intros a I. cbn in I. destruct I as [<-|[<-|[<-|[<-|[]]]]]; [rewrite Ea|rewrite En|rewrite Et|rewrite Em]; exact I.
  Qed.
  Lemma costv_app cs ext v : costv cs v -> costv (cs ++ ext) v.
  Proof. destruct v; cbn; auto. rewrite app_length. lia. Qed.
  Lemma shaped_app cs ext o : shaped cs o -> shaped (cs ++ ext) o.
  Proof.
    intros []. constructor; auto; try (now apply costv_app).
    all: match goal with H : exists r, ?a = Ref r /\ _ |- exists r, ?a = Ref r /\ _ => destruct H as (r & E & L); exists r; split; [exact E|]; rewrite app_length; lia end.
  Qed.
  Lemma plain_okv cs v : plain v = true -> okv cs v.
  Proof. destruct v; cbn; easy. Qed.
  Lemma shaped_okv cs o n : shaped cs o -> In n (settings ++ inputs ++ results) -> okv cs (attr o n).
  Proof.
    intros [] I. apply in_app_or in I. destruct I as [I|I]; [now apply plain_okv, sh_stored0|].
    apply in_app_or in I. destruct I as [I|I].
    - cbn in I. destruct I as [<-|[<-|[<-|[<-|[<-|[]]]]]].
      + destruct sh_x0 as (r & -> & L). exact L.
      + destruct sh_w0 as (r & -> & L). exact L.
      + destruct sh_p0 as (r & -> & L). exact L.
      + destruct (attr o "transaction_costs"); cbn in *; tauto.
      + destruct (attr o "management_fees"); cbn in *; tauto.
    - apply sh_res0 in I. destruct (attr o n); cbn in *; tauto.
  Qed.
  Lemma init_names_in n : In n (init_names Single) -> In n (settings ++ inputs ++ results).
  Proof. cbn. tauto. Qed.

  (** [v'] is a copy of [v] in new cells *)
  Definition copied base cs cs' v v' : Prop :=
    match v with
    | Ref r => exists r' c, v' = Ref r' /\ base <= r' /\ nth_error cs r = Some c /\ nth_error cs' r' = Some c
    | _ => v' = v
    end.
  Lemma copied_shown base cs cs' v v' : copied base cs cs' v v' -> shown cs' v' = shown cs v.
  Proof. destruct v; cbn; intros E; try (subst; reflexivity). destruct E as (r' & c & -> & _ & E & E'). cbn. congruence. Qed.
  Lemma copied_app base cs cs' ext v v' : copied base cs cs' v v' -> copied base cs (cs' ++ ext) v v'.
  Proof. destruct v; cbn; auto. intros (r' & c & E & L & N & N'). exists r', c. split; [exact E|]. split; [exact L|]. split; [exact N|now apply nth_app]. Qed.
  Definition memo_ok base cs0 cs (m : list (nat * nat)) : Prop :=
    forall r r', In (r, r') m -> base <= r' /\ exists c, nth_error cs0 r = Some c /\ nth_error cs r' = Some c.
  Lemma seen_in m i j : seen m i = Some j -> In (i, j) m.
  Proof.
    unfold seen. destruct (find _ m) as [[a b]|] eqn:F; [|discriminate]. intros [= <-]. apply find_some in F. cbn in F. destruct F as [I E].
    apply Nat.eqb_eq in E. now subst.
  Qed.
  Lemma copy_value_ok base cs0 cs m v : (exists ext, cs = cs0 ++ ext) -> base <= length cs0 -> memo_ok base cs0 cs m -> okv cs0 v ->
    exists cs' m' v', copy_value cs m v = Some (cs', m', v') /\ (exists ext, cs' = cs ++ ext) /\ memo_ok base cs0 cs' m' /\ copied base cs0 cs' v v'.
  Proof.
    intros [ext Ex] B M O. destruct v; cbn in O; try (exists cs, m; eexists; split; [reflexivity|]; split; [exists []; now rewrite app_nil_r|]; split; [exact M|reflexivity]); [|easy].
    cbn. destruct (seen m r) as [r'|] eqn:S.
    - exists cs, m, (Ref r'). split; [reflexivity|]. split; [exists []; now rewrite app_nil_r|]. split; [exact M|].
      apply seen_in in S. destruct (M _ _ S) as (L & c & N & N'). exists r', c. auto.
    - destruct (nth_error cs0 r) as [c|] eqn:N; [|apply nth_error_None in N; lia].
      assert (N1 : nth_error cs r = Some c) by (rewrite Ex; now apply nth_app). rewrite N1.
      exists (cs ++ [c]), ((r, length cs) :: m), (Ref (length cs)). split; [reflexivity|]. split; [eauto|].
      assert (L : base <= length cs) by (rewrite Ex, app_length; lia). split.
      + intros a b [E|I]; [injection E as <- <-; split; [exact L|]; exists c; split; [exact N|apply nth_last]|].
        destruct (M _ _ I) as (L' & c' & E & E'). split; [exact L'|]. exists c'. split; [exact E|now apply nth_app].
      + exists (length cs), c. split; [reflexivity|]. split; [exact L|]. split; [reflexivity|apply nth_last].
  Qed.
  Lemma copy_values_ok base cs0 l cs m : (exists ext, cs = cs0 ++ ext) -> base <= length cs0 -> memo_ok base cs0 cs m -> Forall (okv cs0) l ->
    exists cs' m' l', copy_values cs m l = Some (cs', m', l') /\ (exists ext, cs' = cs ++ ext) /\ memo_ok base cs0 cs' m' /\ Forall2 (copied base cs0 cs') l l'.
  Proof.
    revert cs m. induction l as [|v l IH]; intros cs m Ex B M F; [exists cs, m, []; cbn; split; [reflexivity|]; split; [exists []; now rewrite app_nil_r|]; auto|].
    inversion F as [|? ? F1 F2]; subst. destruct (copy_value_ok base cs0 cs m v Ex B M F1) as (cs1 & m1 & v' & E1 & [e1 X1] & M1 & C1).
    assert (Ex1 : exists ext, cs1 = cs0 ++ ext) by (destruct Ex as [e ->]; exists (e ++ e1); now rewrite app_assoc).
    destruct (IH cs1 m1 Ex1 B M1 F2) as (cs2 & m2 & l' & E2 & [e2 X2] & M2 & C2).
    exists cs2, m2, (v' :: l'). cbn. rewrite E1, E2. split; [reflexivity|]. split; [exists (e1 ++ e2); subst; now rewrite app_assoc|].
    split; [exact M2|]. constructor; [|exact C2]. rewrite X2. now apply copied_app.
  Qed.
  Lemma copied_plain base cs cs' v v' : plain v = true -> copied base cs cs' v v' -> v' = v.
  Proof. destruct v; cbn; easy. Qed.

  Lemma lookup_combine (R : value W -> value W -> Prop) (g : string -> value W) names args n :
    Forall2 R (map g names) args -> In n names -> exists v', lookup (combine names args) n = Some v' /\ R (g n) v'.
  Proof.
    unfold lookup. revert args. induction names as [|a names IH]; intros args F; [intros []|]. inversion F as [|? v' ? args' R1 F1]; subst. cbn.
    destruct (String.eqb_spec a n) as [->|N]; [intros _; exists v'; cbn; auto|]. intros [G|G]; [easy|]. exact (IH _ F1 G).
  Qed.
  Lemma base_init_given k kw (f : string -> value W) : (forall n, In n settings -> arg kw n = Some (f n) /\ plain (f n) = true) ->
    base_init k kw = Some (base_attrs k (f "name") (f "tag") (f "annualized_factor") (f "fitness_measures") (f "risk_free_rate") (f "compounded")
      (f "min_acceptable_return") (f "value_at_risk_beta") (f "entropic_risk_measure_theta") (f "entropic_risk_measure_beta") (f "cvar_beta") (f "evar_beta")
      (f "drawdown_at_risk_beta") (f "cdar_beta") (f "edar_beta")).
  Proof.
    intros G. assert (S : forall n, In n settings -> setting kw n = Some (f n)).
    { intros n I. destruct (G n I) as [E P]. unfold setting. now rewrite E, P. }
    unfold base_init. rewrite !S by (cbn; tauto). reflexivity.
  Qed.
  Lemma base_attrs_get k (f : string -> value W) l n : In n settings -> f "fitness_measures" <> None_ -> (n = "name" -> f "name" <> None_) ->
    (forall n, In n settings -> ~ In n (map fst l)) ->
    attributes (l ++ base_attrs k (f "name") (f "tag") (f "annualized_factor") (f "fitness_measures") (f "risk_free_rate") (f "compounded")
      (f "min_acceptable_return") (f "value_at_risk_beta") (f "entropic_risk_measure_theta") (f "entropic_risk_measure_beta") (f "cvar_beta") (f "evar_beta")
      (f "drawdown_at_risk_beta") (f "cdar_beta") (f "edar_beta")) n = f n.
  Proof.
    intros I F N D. rewrite attributes_app by auto. unfold settings in I. cbn in I.
    repeat (destruct I as [<-|I]; [cbn; try reflexivity|]); try easy.
    - specialize (N eq_refl). now destruct (f "name").
    - now destruct (f "fitness_measures").
  Qed.

  (** the constructor on the copies of the arguments of an existing portfolio *)
  Lemma rebuilt base cs cs' k o args : shaped cs o ->
    Forall2 (copied base cs cs') (map (attr o) (init_names Single)) args ->
    (forall cs2 o', new_single cs' k (positional Single args) = Some (cs2, o') ->
       cs2 = cs' /\ (forall n, In n inputs -> copied base cs cs' (attr o n) (attr o' n)) /\
       (forall n, In n settings -> (n = "name" -> attr o n <> None_) -> attr o' n = attr o n)) /\
    (current cs o -> exists cs2 o', new_single cs' k (positional Single args) = Some (cs2, o')).
  Proof.
    intros [] F. set (kw := positional Single args).
    assert (G : forall n, In n (init_names Single) -> exists v', arg kw n = Some v' /\ copied base cs cs' (attr o n) v').
    { intros n I. destruct (lookup_combine _ _ _ _ _ F I) as (v' & E & C). exists v'. split; [|exact C]. unfold arg, kw, positional. now rewrite E. }
    assert (S : forall n, In n settings -> arg kw n = Some (attr o n) /\ plain (attr o n) = true).
    { intros n I. pose proof (sh_stored0 n I) as P. split; [|exact P]. destruct (G n) as (v' & E & C); [revert I; unfold settings; cbn; tauto|].
      rewrite E. f_equal. exact (copied_plain _ _ _ _ _ P C). }
    destruct (G "X") as (vx & Gx & Cx); [cbn; tauto|]. destruct (G "weights") as (vw & Gw & Cw); [cbn; tauto|].
    destruct (G "previous_weights") as (vp & Gp & Cp); [cbn; tauto|]. destruct (G "transaction_costs") as (vt & Gt & Ct); [cbn; tauto|].
    destruct (G "management_fees") as (vm & Gm & Cm); [cbn; tauto|].
    destruct sh_x0 as (x & Ax & Lx), sh_w0 as (w & Aw & Lw), sh_p0 as (p & Ap & Lp).
    assert (Tc : forall v v', costv cs v -> copied base cs cs' v v' -> (exists a, v' = Num a) \/ (exists r, v' = Ref r)).
    { intros v v' Co C'. destruct v; cbn in *; try tauto; [subst; eauto|]. destruct C' as (r' & c & -> & _). eauto. }
    assert (Rc : forall v', (exists a, v' = Num a) \/ (exists r, v' = Ref r) -> forall n names c t, resolve_cost cs' n names v' = Some (c, t) -> c = cs' /\ t = v').
    { intros v' [[a ->]|[r ->]] n names c t E; cbn in E; [injection E as <- <-; auto|].
      destruct (nth_error cs' r) as [[l|]|]; try discriminate. destruct (valid n l); [|discriminate]. now injection E as <- <-. }
    rewrite Ax in Cx. rewrite Aw in Cw. rewrite Ap in Cp. cbn [copied] in Cx, Cw, Cp.
    destruct Cx as (x' & cx & -> & Bx & Nx & Nx'), Cw as (w' & cw & -> & Bw & Nw & Nw'), Cp as (p' & cp & -> & Bp & Np & Np').
    assert (Sep : forall u1 u2 u3 u4 u5 u6 u7 u8 u9, forall n, In n settings -> ~ In n (map fst [("X", u1 : value W); ("assets", u2); ("n_assets", u3); ("weights", u4);
                           ("transaction_costs", u5); ("management_fees", u6); ("previous_weights", u7); ("total_cost", u8); ("total_fee", u9)])).
    { intros u1 u2 u3 u4 u5 u6 u7 u8 u9 n I. revert I. unfold settings. cbn. intuition (subst; discriminate). }
    pose proof (base_init_given k kw _ S) as Bi.
    split.
    - intros cs2 o'. unfold new_single. rewrite Gx, Gw, Gp, Gt, Gm, Nx', Bi.
      destruct cx as [|n frame rows]; [discriminate|].
      set (names := match frame with Some (columns, _) => Some columns | None => None end).
      cbn [to_array]. rewrite Nw'. destruct cw as [wl|]; [|discriminate]. destruct (valid n wl); [|discriminate].
      cbn [resolve_previous to_array]. rewrite Np'. destruct cp as [pl|]; [|discriminate]. destruct (valid n pl); [|discriminate].
      destruct (resolve_cost cs' n names vt) as [[c1 t]|] eqn:Et; [|discriminate].
      destruct (Rc _ (Tc _ _ sh_t0 Ct) _ _ _ _ Et) as [-> ->].
      destruct (resolve_cost cs' n names vm) as [[c2 m]|] eqn:Em; [|discriminate].
      destruct (Rc _ (Tc _ _ sh_m0 Cm) _ _ _ _ Em) as [-> ->].
      cbv zeta. destruct (existsb (nan_ W) _); [discriminate|]. intros E. injection E as <- <-. split; [reflexivity|]. split.
      + intros a I. cbn in I. destruct I as [<-|[<-|[<-|[<-|[<-|[]]]]]]; cbn [attr].
        * rewrite Ax. cbn. exists x', (Mat n frame rows). auto.
        * rewrite Aw. cbn. exists w', (Vec wl). auto.
        * rewrite Ap. cbn. exists p', (Vec pl). auto.
        * exact Ct.
        * exact Cm.
      + intros a I Na. refine (base_attrs_get k (attr o) [_; _; _; _; _; _; _; _; _] a I sh_fit0 _ (Sep _ _ _ _ _ _ _ _ _)). intros ->. now apply Na.
    - intros (x1 & n & frame & rows & w1 & wl & p1 & pl & cost & fee & Ex & Mx & Ew & Mw & Lwn & Fw & Ep & Mp & Lpn & Fp & Kt & Km & Et & Em & En & Ea & Eo & Er & Fr).
      assert (x1 = x) by congruence. assert (w1 = w) by congruence. assert (p1 = p) by congruence. subst x1 w1 p1.
      assert (cx = Mat n frame rows) by congruence. assert (cw = Vec wl) by congruence. assert (cp = Vec pl) by congruence. subst cx cw cp.
      unfold new_single. rewrite Gx, Gw, Gp, Gt, Gm, Nx', Bi. cbn [to_array]. rewrite Nw'.
      replace (valid n wl) with true by (symmetry; apply valid_spec; auto).
      cbn [resolve_previous to_array]. rewrite Np'. replace (valid n pl) with true by (symmetry; apply valid_spec; auto).
      assert (Cv : forall v v' l c, charged cs v n l c -> copied base cs cs' v v' -> (forall names, resolve_cost cs' n names v' = Some (cs', v')) /\ charge cs' v' l = c).
      { intros v v' l c K C'. destruct v; cbn in K, C'; try tauto.
        - subst v'. cbn. auto.
        - destruct K as (q & Nq & Lq & Fq & ->), C' as (r' & c' & -> & _ & N1 & N2). assert (c' = Vec q) by congruence. subst c'. cbn. rewrite N2.
          replace (valid n q) with true by (symmetry; apply valid_spec; auto). split; [reflexivity|]. now rewrite (content_of _ _ _ N2). }
      destruct (Cv _ _ _ _ Kt Ct) as [Rt Ht]. destruct (Cv _ _ _ _ Km Cm) as [Rm Hm]. rewrite Rt, Rm. cbv zeta.
      rewrite (content_of _ _ _ Nw'), (content_of _ _ _ Np'), Ht, Hm, <- Er.
      replace (existsb (nan_ W) (returns o)) with false by (symmetry; now apply existsb_false). eauto.
  Qed.

  (** the results are determined by the arguments *)
  Lemma current_same cs o cs' o' : current cs o -> current cs' o' -> (forall n, In n inputs -> shown cs' (attr o' n) = shown cs (attr o n)) ->
    returns o' = returns o /\ observations o' = observations o /\ forall n, In n results -> attr o' n = attr o n.
  Proof.
    intros (x & n & frame & rows & w & wl & p & pl & cost & fee & Ex & Mx & Ew & Mw & Lw & Fw & Ep & Mp & Lp & Fp & Kt & Km & Et & Em & En & Ea & Eo & Er & Fr)
      (x1 & n1 & frame1 & rows1 & w1 & wl1 & p1 & pl1 & cost1 & fee1 & Ex1 & Mx1 & Ew1 & Mw1 & Lw1 & Fw1 & Ep1 & Mp1 & Lp1 & Fp1 & Kt1 & Km1 & Et1 & Em1 & En1 & Ea1 & Eo1 & Er1 & Fr1) S.
    assert (Sx := S "X" ltac:(cbn; tauto)). assert (Sw := S "weights" ltac:(cbn; tauto)). assert (Sp := S "previous_weights" ltac:(cbn; tauto)).
    assert (St := S "transaction_costs" ltac:(cbn; tauto)). assert (Sm := S "management_fees" ltac:(cbn; tauto)).
    rewrite Ex, Ex1 in Sx. cbn in Sx. rewrite Mx, Mx1 in Sx. injection Sx as -> -> ->.
    rewrite Ew, Ew1 in Sw. cbn in Sw. rewrite Mw, Mw1 in Sw. injection Sw as ->.
    rewrite Ep, Ep1 in Sp. cbn in Sp. rewrite Mp, Mp1 in Sp. injection Sp as ->.
    assert (D : forall v v1 l c c1, charged cs v n l c -> charged cs' v1 n l c1 -> shown cs' v1 = shown cs v -> c1 = c).
    { intros v v1 l c c1 K K1 Q. destruct v, v1; cbn in *; try tauto; try discriminate; [injection Q as ->; now rewrite K, K1|].
      destruct K as (q & Nq & _ & _ & ->), K1 as (q1 & Nq1 & _ & _ & ->). congruence. }
    assert (cost1 = cost) by exact (D _ _ _ _ _ Kt Kt1 St). assert (fee1 = fee) by exact (D _ _ _ _ _ Km Km1 Sm). subst cost1 fee1.
    split; [congruence|]. split; [congruence|]. intros a I. cbn in I. destruct I as [<-|[<-|[<-|[<-|[]]]]]; congruence.
  Qed.
End Copies.

(** ** Programs *)
Section Programs.
  Context {W : world}.
  Implicit Types (s : state W) (o p : obj W).

  Lemma charged_app (cs ext : list (cell W)) v n l c : charged cs v n l c -> charged (cs ++ ext) v n l c.
  Proof. destruct v; cbn; auto. intros (q & N & L). exists q. split; [now apply nth_app|exact L]. Qed.
  Lemma current_kept (cs cs' : list (cell W)) o o' : (forall n, In n (inputs ++ results) -> attr o' n = attr o n) -> returns o' = returns o -> observations o' = observations o ->
    (forall r, refers o r -> forall c, nth_error cs r = Some c -> nth_error cs' r = Some c) -> current cs o -> current cs' o'.
  Proof.
    intros A Rr Ro K (x & n & frame & rows & w & wl & p & pl & cost & fee & Ex & Mx & Ew & Mw & Lw & Fw & Ep & Mp & Lp & Fp & Kt & Km & Et & Em & En & Ea & Eo & Er & Fr).
    assert (Kc : forall a l c, In a inputs -> charged cs (attr o a) n l c -> charged cs' (attr o a) n l c).
    { intros a l c I. destruct (attr o a) eqn:E; cbn; auto. intros (q & N & L). exists q. split; [|exact L]. apply (K r); [exists a; auto|exact N]. }
    exists x, n, frame, rows, w, wl, p, pl, cost, fee. rewrite !A by (cbn; tauto). rewrite Rr, Ro.
    split; [exact Ex|]. split; [apply (K x); [exists "X"; cbn; tauto|exact Mx]|].
    split; [exact Ew|]. split; [apply (K w); [exists "weights"; cbn; tauto|exact Mw]|]. split; [exact Lw|]. split; [exact Fw|].
    split; [exact Ep|]. split; [apply (K p); [exists "previous_weights"; cbn; tauto|exact Mp]|]. split; [exact Lp|]. split; [exact Fp|].
    split; [apply Kc; [cbn; tauto|exact Kt]|]. split; [apply Kc; [cbn; tauto|exact Km]|]. auto 10.
  Qed.
  Lemma current_app (cs ext : list (cell W)) o : current cs o -> current (cs ++ ext) o.
  Proof. apply current_kept; auto. intros r _ c N. now apply nth_app. Qed.

  Definition extends s s' : Prop := (exists e, cells s' = cells s ++ e) /\ (exists e, objs s' = objs s ++ e).
  Lemma extends_refl s : extends s s.
  Proof. split; exists []; now rewrite app_nil_r. Qed.
  Lemma extends_trans s1 s2 s3 : extends s1 s2 -> extends s2 s3 -> extends s1 s3.
  Proof. intros [[a A] [b B]] [[c C] [d D]]. split; [exists (a ++ c)|exists (b ++ d)]; rewrite ?C, ?D, ?A, ?B; now rewrite app_assoc. Qed.
  (** portfolio [i'] of [s] is a copy, in new arrays, of portfolio [i] of [s0] *)
  Definition sim s0 i s i' : Prop :=
    length (objs s0) <= i' /\ exists p p', nth_error (objs s0) i = Some p /\ nth_error (objs s) i' = Some p' /\
      same_single (cells s0) p (cells s) p' /\ shaped (cells s) p' /\ current (cells s) p' /\ (forall r, refers p' r -> length (cells s0) <= r).
  Lemma sim_extends s0 i s s' i' : extends s s' -> sim s0 i s i' -> sim s0 i s' i'.
  Proof.
    intros [[e Ec] [eo Eo]] (L & p & p' & N & N' & (K & K' & Rr & Ro & Sh) & Sp & Cu & Fr). split; [exact L|]. exists p, p'. split; [exact N|].
    split; [rewrite Eo; now apply nth_app|]. rewrite Ec. split.
    - split; [exact K|]. split; [exact K'|]. split; [exact Rr|]. split; [exact Ro|]. intros n I. rewrite <- (Sh n I). apply shown_app. eapply shaped_okv; eauto.
    - split; [now apply shaped_app|]. split; [now apply current_app|exact Fr].
  Qed.
  Definition memos_ok s0 s (m : memo) : Prop :=
    memo_ok (length (cells s0)) (cells s0) (cells s) (cell_memo m) /\ forall i i', In (i, i') (obj_memo m) -> sim s0 i s i'.
  Definition fit s0 i : Prop :=
    exists p, nth_error (objs s0) i = Some p /\ shaped (cells s0) p /\ current (cells s0) p /\ attr p "name" <> None_.
  Lemma kind_single o : kind_of o = Single -> is_single o = true.
  Proof. unfold is_single. now intros ->. Qed.

  Lemma args_okv cs o : shaped cs o -> Forall (okv cs) (map (attr o) (init_names Single)).
  Proof. intros S. apply Forall_forall. intros v I. apply in_map_iff in I. destruct I as (n & <- & I). eapply shaped_okv; [exact S|]. now apply init_names_in. Qed.

  Lemma copied_fresh base (cs cs' : list (cell W)) v r : copied base cs cs' v (Ref r) -> base <= r.
  Proof. destruct v; cbn; try discriminate. intros (r' & c & E & B & _). now injection E as <-. Qed.
  Lemma rebuilt_same base (cs cs' : list (cell W)) k o args cs2 o' : shaped cs o -> Forall2 (copied base cs cs') (map (attr o) (init_names Single)) args ->
    new_single cs' k (positional Single args) = Some (cs2, o') ->
    cs2 = cs' /\ current cs' o' /\ shaped cs' o' /\ (forall n, In n inputs -> shown cs' (attr o' n) = shown cs (attr o n)) /\
    (forall n, In n settings -> (n = "name" -> attr o n <> None_) -> attr o' n = attr o n) /\ (forall r, refers o' r -> base <= r) /\
    (current cs o -> attr o "name" <> None_ -> same_single cs o cs' o').
  Proof.
    intros S F E. destruct (rebuilt base cs cs' k o args S F) as [R _]. destruct (R _ _ E) as (-> & Ri & Rs).
    destruct (new_single_spec _ _ _ _ _ E) as (_ & K' & Cu & St & Fi & _). split; [reflexivity|]. split; [exact Cu|].
    split; [now apply current_shaped|].
    assert (Sh : forall n, In n inputs -> shown cs' (attr o' n) = shown cs (attr o n)) by (intros n I; exact (copied_shown _ _ _ _ _ (Ri n I))).
    split; [exact Sh|]. split; [exact Rs|]. split.
    - intros r (n & I & A). specialize (Ri n I). rewrite A in Ri. exact (copied_fresh _ _ _ _ _ Ri).
    - intros C N. destruct (current_same _ _ _ _ C Cu Sh) as (Rr & Ro & Res). split; [now destruct S|]. split; [exact K'|]. split; [exact Rr|]. split; [exact Ro|].
      intros n I. apply in_app_or in I. destruct I as [I|I]; [|apply in_app_or in I; destruct I as [I|I]; [now apply Sh|]].
      + rewrite Rs by (auto; intros ->; exact N). destruct S as [? St' _ _ _ _ _ _ _]. specialize (St' n I). now destruct (attr o n).
      + rewrite Res by exact I. destruct S as [_ _ _ _ _ _ _ _ Sr]. specialize (Sr n I). now destruct (attr o n).
  Qed.

  Lemma copy_single_ok s0 s m i : extends s0 s -> memos_ok s0 s m -> fit s0 i ->
    exists s' m' i', copy_single s m i = Some (s', m', i') /\ extends s s' /\ memos_ok s0 s' m' /\ sim s0 i s' i'.
  Proof.
    intros X [Mc Mo] (p & N & Sp & Cu & Nm). unfold copy_single. destruct (seen (obj_memo m) i) as [i'|] eqn:Se.
    - exists s, m, i'. split; [reflexivity|]. split; [apply extends_refl|]. split; [split; assumption|]. apply Mo. now apply seen_in.
    - destruct X as [[e Ec] [eo Eo]]. assert (N' : nth_error (objs s) i = Some p) by (rewrite Eo; now apply nth_app). rewrite N'.
      rewrite (kind_single p) by (now destruct Sp). unfold reduce. cbn [fst snd]. rename Sp into S. rewrite (sh_kind _ _ S).
      destruct (copy_values_ok (length (cells s0)) (cells s0) (map (attr p) (init_names Single)) (cells s) (cell_memo m)) as (cs & cm & args & E & [e1 X1] & M1 & F1);
        [eauto|lia|exact Mc|now apply args_okv|].
      rewrite E. destruct (rebuilt (length (cells s0)) (cells s0) cs (length (objs s)) p args S F1) as [_ Rb].
      destruct (Rb Cu) as (cs2 & o' & En). rewrite En.
      destruct (rebuilt_same _ _ _ _ _ _ _ _ S F1 En) as (-> & Cu' & Sh' & _ & _ & Fr & Sa).
      eexists _, _, _. split; [reflexivity|].
      assert (Xs : extends s {| cells := cs; objs := objs s ++ [o'] |}) by (split; cbn; eauto).
      assert (Si : sim s0 i {| cells := cs; objs := objs s ++ [o'] |} (length (objs s))).
      { split; [rewrite Eo, app_length; lia|]. exists p, o'. cbn. split; [exact N|]. split; [apply nth_last|]. split; [now apply Sa|]. auto. }
      split; [exact Xs|]. split; [|exact Si]. split; cbn [cell_memo obj_memo].
      + exact M1.
      + intros a b [G|G]; [injection G as <- <-; exact Si|]. eapply sim_extends; [exact Xs|]. now apply Mo.
  Qed.
  Lemma copy_singles_ok s0 l s m : extends s0 s -> memos_ok s0 s m -> Forall (fit s0) l ->
    exists s' m' l', copy_singles s m l = Some (s', m', l') /\ extends s s' /\ memos_ok s0 s' m' /\ Forall2 (fun i i' => sim s0 i s' i') l l'.
  Proof.
    revert s m. induction l as [|i l IH]; intros s m X M F; [exists s, m, []; cbn; split; [reflexivity|]; split; [apply extends_refl|]; auto|].
    inversion F as [|? ? F1 F2]; subst. destruct (copy_single_ok s0 s m i X M F1) as (s1 & m1 & i' & E1 & X1 & M1 & S1).
    destruct (IH s1 m1 (extends_trans _ _ _ X X1) M1 F2) as (s2 & m2 & l' & E2 & X2 & M2 & S2).
    exists s2, m2, (i' :: l'). cbn. rewrite E1, E2. split; [reflexivity|]. split; [eapply extends_trans; eauto|]. split; [exact M2|].
    constructor; [|exact S2]. eapply sim_extends; eauto.
  Qed.
End Programs.

(** ** What every program keeps true *)
Section Invariant.
  Context {W : world}.
  Implicit Types (s : state W) (o p : obj W) (cs : list (cell W)) (os : list (obj W)).
  Notation rect := (Forall (fun c : cell W => rectangular c = true)).

  Definition rets os i : list (num W) := match nth_error os i with Some p => returns p | None => [] end.
  Definition obss os i : list Z := match nth_error os i with Some p => observations p | None => [] end.
  Definition multi_ok os o : Prop :=
    stored o /\ attr o "fitness_measures" <> None_ /\ plain (attr o "check_observations_order") = true /\
    exists l, attr o "portfolios" = Objs l /\ Forall (fun i => exists p, nth_error os i = Some p /\ kind_of p = Single) l /\
              returns o = flat_map (rets os) l /\ observations o = flat_map (obss os) l.
  Definition obj_ok s o : Prop :=
    match kind_of o with
    | Single => shaped (cells s) o /\ length (returns o) = length (observations o)
    | Multi => multi_ok (objs s) o
    end.
  Record inv s : Prop := { inv_cells : rect (cells s); inv_objs : forall i o, nth_error (objs s) i = Some o -> obj_ok s o }.

  Lemma shaped_len cs cs' o : length cs <= length cs' -> shaped cs o -> shaped cs' o.
  Proof.
    intros L []. assert (C : forall v, costv cs v -> costv cs' v) by (intros v; destruct v; cbn; auto; lia).
    constructor; auto.
    all: match goal with H : exists r, ?a = Ref r /\ _ |- exists r, ?a = Ref r /\ _ => destruct H as (r & E & K); exists r; split; [exact E|]; lia end.
  Qed.
  Lemma current_lengths cs o : rect cs -> current cs o -> length (returns o) = length (observations o).
  Proof.
    intros R (x & n & frame & rows & w & wl & p & pl & cost & fee & Ex & Mx & _ & _ & _ & _ & _ & _ & _ & _ & _ & _ & _ & _ & _ & _ & Eo & Er & _).
    rewrite Eo, Er, map_length. apply nth_error_In in Mx. rewrite Forall_forall in R. specialize (R _ Mx). cbn in R. apply andb_true_iff in R. destruct R as [_ R].
    destruct frame as [[columns index]|]; [|now rewrite map_length, seq_length]. apply andb_true_iff in R. destruct R as [_ R]. apply Nat.eqb_eq in R. now symmetry.
  Qed.
  Lemma multi_ok_kept os os' o : (forall i p, nth_error os i = Some p -> kind_of p = Single -> exists p', nth_error os' i = Some p' /\ kind_of p' = Single /\ returns p' = returns p /\ observations p' = observations p) ->
    multi_ok os o -> multi_ok os' o.
  Proof.
    intros K (S & F & C & l & El & G & Er & Eo). split; [exact S|]. split; [exact F|]. split; [exact C|]. exists l. split; [exact El|].
    rewrite Forall_forall in G.
    assert (X : forall i, In i l -> rets os' i = rets os i /\ obss os' i = obss os i).
    { intros i I. destruct (G i I) as (p & N & Ks). destruct (K i p N Ks) as (p' & N' & _ & E1 & E2). unfold rets, obss. now rewrite N, N', E1, E2. }
    split; [|split].
    - apply Forall_forall. intros i I. destruct (G i I) as (p & N & Ks). destruct (K i p N Ks) as (p' & N' & Ks' & _). eauto.
    - rewrite Er, !flat_map_concat_map. f_equal. apply map_ext_in. intros i I. symmetry. now apply X.
    - rewrite Eo, !flat_map_concat_map. f_equal. apply map_ext_in. intros i I. symmetry. now apply X.
  Qed.
  Lemma inv_add s cs ext o : inv s -> cs = cells s ++ ext -> rect ext -> obj_ok {| cells := cs; objs := objs s ++ [o] |} o ->
    inv {| cells := cs; objs := objs s ++ [o] |}.
  Proof.
    intros [Ic Io] -> R O. constructor; cbn; [apply Forall_app; auto|]. intros i q N.
    destruct (Nat.lt_ge_cases i (length (objs s))) as [L|L].
    - rewrite nth_error_app1 in N by exact L. specialize (Io _ _ N). unfold obj_ok in *. destruct (kind_of q); cbn.
      + destruct Io. split; [now apply shaped_app|assumption].
      + revert Io. apply multi_ok_kept. intros j p Nj Kj. exists p. split; [now apply nth_app|auto].
    - rewrite nth_error_app2 in N by exact L. destruct (i - length (objs s)) as [|d]; cbn in N; [now injection N as <-|]. destruct d; discriminate.
  Qed.
  Lemma inv_update s i o o' : inv s -> nth_error (objs s) i = Some o -> kind_of o' = kind_of o ->
    (kind_of o = Single -> shaped (cells s) o' /\ returns o' = returns o /\ observations o' = observations o) ->
    (kind_of o = Multi -> multi_ok (objs s) o') -> inv (update s i o').
  Proof.
    intros [Ic Io] N K Hs Hm. constructor; [exact Ic|]. unfold update. cbn. intros j q Nj. rewrite nth_set_nth in Nj.
    assert (T : forall r, multi_ok (objs s) r -> multi_ok (set_nth (objs s) i o') r).
    { intros r. apply multi_ok_kept. intros a p Na Ka. rewrite nth_set_nth. destruct (Nat.eq_dec i a) as [<-|D]; [|exists p; auto].
      rewrite N. exists o'. assert (o = p) by congruence. subst p. destruct (Hs Ka) as (_ & ? & ?). rewrite K. auto. }
    destruct (Nat.eq_dec i j) as [<-|D].
    - rewrite N in Nj. injection Nj as <-. unfold obj_ok. rewrite K. destruct (kind_of o) eqn:Ko; cbn.
      + destruct (Hs eq_refl) as (S & Rr & Ro). split; [exact S|]. specialize (Io _ _ N). unfold obj_ok in Io. rewrite Ko in Io. destruct Io. congruence.
      + apply T. now apply Hm.
    - specialize (Io _ _ Nj). unfold obj_ok in *. destruct (kind_of q); cbn; [exact Io|now apply T].
  Qed.

  Lemma fetch_spec os l ps : fetch os l = Some ps <-> Forall2 (fun i p => nth_error os i = Some p /\ kind_of p = Single) l ps.
  Proof.
    revert ps. induction l as [|i l IH]; intros ps; cbn.
    - split; [intros [= <-]; constructor|intros F; now inversion F].
    - split.
      + destruct (nth_error os i) as [p|] eqn:N; [|discriminate]. destruct (fetch os l) as [r|]; [|discriminate].
        destruct (is_single p) eqn:S; [|discriminate]. intros [= <-]. constructor; [|now apply IH]. split; [exact N|]. unfold is_single in S. now destruct (kind_of p).
      + intros F. inversion F as [|? p ? r [N K] F1]; subst. apply IH in F1. rewrite N, F1. now rewrite kind_single.
  Qed.
  Lemma concatenated_spec check ps r b : concatenated check ps = Some (r, b) -> r = concat (map (@returns W) ps) /\ b = concat (map (@observations W) ps).
  Proof. destruct ps as [|p ps]; cbn; [intros [= <- <-]; auto|]. destruct (_ && _); [discriminate|]. now intros [= <- <-]. Qed.
  Lemma fetch_concat os l ps : fetch os l = Some ps -> concat (map (@returns W) ps) = flat_map (rets os) l /\ concat (map (@observations W) ps) = flat_map (obss os) l.
  Proof.
    intros F. apply fetch_spec in F. induction F as [|i p l ps [N _] F [I1 I2]]; [auto|]. cbn. unfold rets at 1, obss at 1. rewrite N. now rewrite I1, I2.
  Qed.
  Lemma fetch_single os l ps : fetch os l = Some ps -> Forall (fun i => exists p, nth_error os i = Some p /\ kind_of p = Single) l.
  Proof. intros F. apply fetch_spec in F. induction F; constructor; eauto. Qed.
  Lemma setting_plain kw n v : setting kw n = Some v -> @plain W v = true.
  Proof. unfold setting. destruct (arg kw n) as [u|]; [|discriminate]. destruct (plain u) eqn:P; [|discriminate]. now intros [= <-]. Qed.

  Lemma new_multi_spec os k kw o : new_multi os k kw = Some o -> kind_of o = Multi /\ multi_ok os o.
  Proof.
    unfold new_multi. destruct (arg kw "portfolios") as [pv|]; [|discriminate]. destruct (setting kw "check_observations_order") as [check|] eqn:Ec; [|discriminate].
    destruct (base_init k kw) as [base|] eqn:B; [|discriminate]. set (ol := match pv with None_ => Some [] | Objs l => Some l | _ => None end).
    cbv zeta. destruct ol as [l|]; [|discriminate]. destruct (fetch os l) as [ps|] eqn:F; [|discriminate].
    destruct (concatenated check ps) as [[r b]|] eqn:C; [|discriminate]. intros [= <-]. split; [reflexivity|].
    destruct (base_stored [("check_observations_order", check); ("portfolios", Objs l)] base k kw B) as (S1 & S2 & _).
    { intros a I. revert I. unfold settings. cbn. intuition (subst; discriminate). }
    split; [exact S1|]. split; [exact S2|]. split; [exact (setting_plain _ _ _ Ec)|]. exists l. split; [reflexivity|]. split; [exact (fetch_single _ _ _ F)|].
    cbn [returns observations]. apply concatenated_spec in C. destruct C as [-> ->]. exact (fetch_concat _ _ _ F).
  Qed.

  Lemma copy_values_ext l cs m cs' m' l' : copy_values cs m l = Some (cs', m', l') -> exists e, cs' = cs ++ e /\ incl e cs.
  Proof.
    revert cs m cs' m' l'. induction l as [|v l IH]; intros cs m cs' m' l'; cbn; [intros [= <- _ _]; exists []; rewrite app_nil_r; split; [reflexivity|intros ? []]|].
    destruct (copy_value cs m v) as [[[c1 m1] v1]|] eqn:E; [|discriminate]. destruct (copy_values c1 m1 l) as [[[c2 m2] l2]|] eqn:E2; [|discriminate].
    intros [= <- _ _]. destruct (IH _ _ _ _ _ E2) as (e2 & -> & I2).
    assert (X : exists e, c1 = cs ++ e /\ incl e cs).
    { destruct v; cbn in E; try discriminate; try (injection E as <- _ _; exists []; rewrite app_nil_r; split; [reflexivity|intros ? []]).
      destruct (seen m r); [injection E as <- _ _; exists []; rewrite app_nil_r; split; [reflexivity|intros ? []]|].
      destruct (nth_error cs r) as [c|] eqn:N; [|discriminate]. injection E as <- _ _. exists [c]. split; [reflexivity|]. intros a [<-|[]]. eapply nth_error_In; eauto. }
    destruct X as (e1 & -> & I1). exists (e1 ++ e2). rewrite app_assoc. split; [reflexivity|]. intros a I. apply in_app_or in I. destruct I as [I|I]; [auto|].
    apply I2 in I. apply in_app_or in I. destruct I; auto.
  Qed.
  Lemma rect_incl e cs : incl e cs -> rect cs -> rect e.
  Proof. intros I R. rewrite Forall_forall in *. auto. Qed.
  Lemma new_single_ok s cs k kw cs' o : inv s -> (exists e, cs = cells s ++ e /\ rect e) -> new_single cs k kw = Some (cs', o) ->
    inv {| cells := cs'; objs := objs s ++ [o] |}.
  Proof.
    intros I (e & -> & Re) E. destruct (new_single_spec _ _ _ _ _ E) as ((e1 & -> & R1) & K & C & S & F & _).
    apply inv_add with (e ++ e1); [exact I|now rewrite app_assoc|apply Forall_app; auto|]. unfold obj_ok. rewrite K. cbn. split; [now apply current_shaped|].
    eapply current_lengths; [|exact C]. destruct I as [Ic _]. repeat (apply Forall_app; split); assumption.
  Qed.
  Lemma copy_single_inv s m i s' m' i' : inv s -> copy_single s m i = Some (s', m', i') -> inv s' /\ extends s s'.
  Proof.
    intros I. unfold copy_single. destruct (seen (obj_memo m) i); [intros [= <- _ _]; split; [exact I|apply extends_refl]|].
    destruct (nth_error (objs s) i) as [o|]; [|discriminate]. destruct (is_single o); [|discriminate].
    destruct (copy_values _ _ _) as [[[cs cm] args]|] eqn:E; [|discriminate]. destruct (new_single cs _ _) as [[cs2 o']|] eqn:En; [|discriminate].
    intros [= <- _ _]. destruct (copy_values_ext _ _ _ _ _ _ E) as (e & -> & Ie). split.
    - eapply new_single_ok; [exact I| |exact En]. exists e. split; [reflexivity|]. eapply rect_incl; [exact Ie|]. now destruct I.
    - destruct (new_single_spec _ _ _ _ _ En) as ((e1 & -> & _) & _). split; cbn; [|eauto]. exists (e ++ e1). now rewrite app_assoc.
  Qed.
  Lemma copy_singles_inv l s m s' m' l' : inv s -> copy_singles s m l = Some (s', m', l') -> inv s' /\ extends s s'.
  Proof.
    revert s m s' m' l'. induction l as [|i l IH]; intros s m s' m' l' I; cbn; [intros [= <- _ _]; split; [exact I|apply extends_refl]|].
    destruct (copy_single s m i) as [[[s1 m1] i1]|] eqn:E1; [|discriminate]. destruct (copy_singles s1 m1 l) as [[[s2 m2] l2]|] eqn:E2; [|discriminate].
    intros [= <- _ _]. destruct (copy_single_inv _ _ _ _ _ _ I E1) as [I1 X1]. destruct (IH _ _ _ _ _ I1 E2) as [I2 X2]. split; [exact I2|]. eapply extends_trans; eauto.
  Qed.
  Lemma copy_multi_inv s o s' : inv s -> copy_multi s o = Some s' -> inv s' /\ extends s s'.
  Proof.
    intros I. unfold copy_multi. destruct (snd (reduce o)) as [|[] rest]; try discriminate.
    destruct (copy_singles s _ l) as [[[s1 m1] l1]|] eqn:E; [|discriminate]. destruct (copy_values _ _ rest) as [[[cs cm] args]|] eqn:Ev; [|discriminate].
    destruct (new_multi _ _ _) as [o'|] eqn:En; [|discriminate]. intros [= <-]. destruct (copy_singles_inv _ _ _ _ _ _ I E) as [I1 X1].
    destruct (copy_values_ext _ _ _ _ _ _ Ev) as (e & -> & Ie). destruct (new_multi_spec _ _ _ _ En) as [K M]. split.
    - apply inv_add with e; [exact I1|reflexivity|eapply rect_incl; [exact Ie|now destruct I1]|]. unfold obj_ok. rewrite K. cbn.
      revert M. apply multi_ok_kept. intros j p Nj Kj. exists p. split; [now apply nth_app|auto].
    - eapply extends_trans; [exact X1|]. split; cbn; eauto.
  Qed.

  Lemma set_plain_ok s i o n v : inv s -> nth_error (objs s) i = Some o -> mem n (settable (kind_of o)) = true \/ n = "fitness_measures" -> plain v = true ->
    (n = "fitness_measures" -> v <> None_) -> inv (update s i (with_attr o n v)).
  Proof.
    intros I N Hn Pv Hf.
    assert (D : n <> "portfolios" /\ ~ In n inputs /\ ~ In n results).
    { destruct Hn as [Hn|Hn]; [|subst n; cbn; intuition discriminate]. unfold mem in Hn. apply existsb_exists in Hn. destruct Hn as (a & Ia & Ea). apply String.eqb_eq in Ea. subst a.
      revert Ia. unfold settable. destruct (kind_of o); cbn; intros Ia; intuition (subst; discriminate). }
    destruct D as (D1 & D2 & D3).
    assert (St : stored o -> stored (with_attr o n v)) by (intros St a Ia; cbn [attr with_attr]; destruct (String.eqb_spec a n); auto).
    assert (Fi : attr o "fitness_measures" <> None_ -> attr (with_attr o n v) "fitness_measures" <> None_).
    { intros Fi. cbn [attr with_attr]. destruct (String.eqb_spec "fitness_measures" n) as [E|]; [apply Hf; now symmetry|exact Fi]. }
    apply inv_update with o; auto.
    - intros K. destruct I as [_ Io]. specialize (Io _ _ N). unfold obj_ok in Io. rewrite K in Io. destruct Io as [S _]. split; [|auto].
      assert (Sa : forall a, In a (inputs ++ results) -> attr (with_attr o n v) a = attr o a).
      { intros a Ia. cbn [attr with_attr]. destruct (String.eqb_spec a n) as [->|]; [|reflexivity]. apply in_app_or in Ia. tauto. }
      destruct S. constructor; auto; try (rewrite Sa by (cbn; tauto); assumption).
      intros a Ia. rewrite Sa by (apply in_or_app; auto). auto.
    - intros K. destruct I as [_ Io]. specialize (Io _ _ N). unfold obj_ok in Io. rewrite K in Io. destruct Io as (S & F & C & l & El & Rest).
      split; [auto|]. split; [auto|]. split.
      + cbn [attr with_attr]. destruct (String.eqb "check_observations_order" n); auto.
      + exists l. split; [|exact Rest]. cbn [attr with_attr]. destruct (String.eqb_spec "portfolios" n) as [E|]; [congruence|exact El].
  Qed.
  Lemma with_attr_other o n v a : a <> n -> attr (with_attr o n v) a = attr o a.
  Proof. cbn [attr with_attr]. now destruct (String.eqb_spec a n). Qed.
  Lemma some_inj {B} (a b : B) : Some a = Some b -> a = b.
  Proof. congruence. Qed.
  Lemma step_inv s q s' : inv s -> step s q = Some s' -> inv s'.
  Proof.
    intros I. destruct q as [c|r c|[] kw|i n v|i j|i|i]; cbn [step].
    - destruct (rectangular c) eqn:R; [|discriminate]. intros [= <-]. destruct I as [Ic Io]. constructor; cbn; [apply Forall_app; auto|].
      intros i o N. specialize (Io i o N). unfold obj_ok in *. destruct (kind_of o); cbn in *; [|exact Io]. destruct Io. split; [now apply shaped_app|assumption].
    - destruct (_ <? _) eqn:L; [|discriminate]. destruct (rectangular c) eqn:R; [|discriminate]. intros [= <-]. destruct I as [Ic Io]. constructor; cbn.
      + apply Forall_forall. intros d Id. apply In_nth_error in Id. destruct Id as [k Nk]. rewrite nth_set_nth in Nk. rewrite Forall_forall in Ic.
        destruct (Nat.eq_dec r k); [destruct (nth_error (cells s) r); [now injection Nk as <-|discriminate]|]. apply Ic. eapply nth_error_In; eauto.
      + intros i o N. specialize (Io i o N). unfold obj_ok in *. destruct (kind_of o); cbn in *; [|exact Io]. destruct Io. split; [|assumption].
        eapply shaped_len; [|eassumption]. now rewrite length_set_nth.
    - destruct (new_single _ _ kw) as [[cs o]|] eqn:E; [|discriminate]. intros [= <-]. eapply new_single_ok; [exact I| |exact E]. exists []. rewrite app_nil_r. auto.
    - destruct (new_multi _ _ kw) as [o|] eqn:E; [|discriminate]. intros [= <-]. destruct (new_multi_spec _ _ _ _ E) as [K M].
      apply inv_add with []; [exact I|now rewrite app_nil_r|constructor|]. unfold obj_ok. rewrite K. cbn.
      revert M. apply multi_ok_kept. intros j p Nj Kj. exists p. split; [now apply nth_app|auto].
    - destruct (nth_error (objs s) i) as [o|] eqn:N; [|discriminate]. unfold set_attr. destruct (String.eqb_spec n "fitness_measures") as [->|Nf].
      + destruct v as [| | | |[|m l]| | | | | |]; try discriminate. intros [= <-]. apply set_plain_ok; auto; try discriminate.
      + destruct (String.eqb_spec n "portfolios") as [->|Np].
        * destruct (is_single o) eqn:S; cbn [negb andb].
          { destruct (mem "portfolios" (settable (kind_of o))) eqn:Me; [|discriminate]. unfold is_single in S. destruct (kind_of o); [|discriminate]. discriminate Me. }
          assert (K : kind_of o = Multi) by (unfold is_single in S; now destruct (kind_of o)).
          destruct v as [| | | | | | | | | |l]; try discriminate. destruct (fetch (objs s) l) as [ps|] eqn:F; [|discriminate].
          destruct (concatenated _ ps) as [[r b]|] eqn:C; [|discriminate]. intros Es; apply some_inj in Es; subst s'. apply inv_update with o; auto; [congruence|]. intros _.
          destruct I as [_ Io]. specialize (Io _ _ N). unfold obj_ok in Io. rewrite K in Io. destruct Io as (St & Fi & Ch & _).
          split; [intros a Ia; cbn [attr]; rewrite with_attr_other; [now apply St|intros ->; revert Ia; unfold settings; cbn; intuition discriminate]|].
          split; [exact Fi|]. split; [exact Ch|]. exists l. split; [reflexivity|]. split; [exact (fetch_single _ _ _ F)|]. cbn [returns observations].
          apply concatenated_spec in C. destruct C as [-> ->]. exact (fetch_concat _ _ _ F).
        * cbn [andb]. destruct (mem n _) eqn:Me; [|discriminate]. destruct (plain v) eqn:Pv; [|discriminate]. intros [= <-]. now apply set_plain_ok; auto.
    - destruct (nth_error (objs s) i) as [o|] eqn:N; [|discriminate]. destruct (nth_error (objs s) j) as [p|] eqn:Nj; [|discriminate].
      destruct (is_single p) eqn:Sp; [|discriminate]. destruct (is_single o) eqn:So; [discriminate|]. cbn [negb andb].
      assert (K : kind_of o = Multi) by (unfold is_single in So; now destruct (kind_of o)). assert (Kp : kind_of p = Single) by (unfold is_single in Sp; now destruct (kind_of p)).
      unfold append. pose proof I as [_ Io]. pose proof (Io _ _ N) as Oo. unfold obj_ok in Oo. rewrite K in Oo. destruct Oo as (St & Fi & Ch & l & El & G & Er & Eo). rewrite El. cbv zeta.
      match goal with |- (if ?b then _ else _) = _ -> _ => destruct b; [discriminate|] end.
      assert (X : exists r b, (if length (observations o) =? 0 then (returns p, observations p) else (returns o ++ returns p, observations o ++ observations p)) = (r, b) /\
                              r = flat_map (rets (objs s)) (l ++ [j]) /\ b = flat_map (obss (objs s)) (l ++ [j])).
      { assert (Ej : rets (objs s) j = returns p /\ obss (objs s) j = observations p) by (unfold rets, obss; now rewrite Nj).
        rewrite !flat_map_app. cbn. destruct Ej as [-> ->]. rewrite !app_nil_r, <- Er, <- Eo. destruct (Nat.eqb_spec (length (observations o)) 0) as [Z|Z].
        - assert (Zo : observations o = []) by (destruct (observations o); [reflexivity|discriminate]).
          assert (Zr : returns o = []).
          { rewrite Er. rewrite Eo in Zo. clear - G Zo Io. induction l as [|a l IH]; [reflexivity|]. cbn in *. apply app_eq_nil in Zo. destruct Zo as [Z1 Z2].
            inversion G as [|? ? (q & Nq & Kq) G']; subst. rewrite IH by assumption. rewrite app_nil_r. unfold rets, obss in *. rewrite Nq in *.
            specialize (Io _ _ Nq). unfold obj_ok in Io. rewrite Kq in Io. destruct Io as [_ Lq]. rewrite Z1 in Lq. now destruct (returns q). }
          rewrite Zo, Zr. eauto.
        - eauto. }
      destruct X as (r & b & -> & -> & ->). intros Es; apply some_inj in Es; subst s'. apply inv_update with o; auto; [congruence|]. intros _.
      split; [intros a Ia; cbn [attr]; rewrite with_attr_other; [now apply St|intros ->; revert Ia; unfold settings; cbn; intuition discriminate]|].
      split; [exact Fi|]. split; [exact Ch|]. exists (l ++ [j]). split; [reflexivity|]. split; [|auto]. apply Forall_app. split; [exact G|]. constructor; [eauto|constructor].
    - destruct (nth_error (objs s) i) as [o|] eqn:N; [|discriminate]. intros [= <-]. apply inv_add with []; [exact I|now rewrite app_nil_r|constructor|].
      pose proof I as [_ Io]. specialize (Io _ _ N). unfold obj_ok in *. destruct (kind_of o); cbn; [exact Io|].
      revert Io. apply multi_ok_kept. intros j p Nj Kj. exists p. split; [now apply nth_app|auto].
    - destruct (nth_error (objs s) i) as [o|] eqn:N; [|discriminate]. destruct (is_single o).
      + destruct (copy_single s _ i) as [[[s1 m1] i1]|] eqn:E; [|discriminate]. intros [= <-]. now apply (copy_single_inv _ _ _ _ _ _ I E).
      + intros E. now apply (copy_multi_inv _ _ _ I E).
  Qed.
  Lemma run_inv ops s : inv s -> inv (run s ops).
  Proof.
    revert s. induction ops as [|q ops IH]; intros s I; [exact I|]. cbn. apply IH. destruct (step s q) as [s'|] eqn:E; [|exact I]. eapply step_inv; eauto.
  Qed.
  Lemma start_inv : inv start.
  Proof. constructor; cbn; [constructor|]. intros [|i] o N; discriminate. Qed.
End Invariant.

(** ** Theorems *)
Definition writes {W} (q : op W) (r : nat) : Prop := exists c, q = Write r c.
Definition targets {W} (q : op W) (i : nat) : Prop := (exists n v, q = SetAttr i n v) \/ (exists j, q = Append i j).

Section Frame.
  Context {W : world}.
  Implicit Types (s : state W) (o : obj W).
  Lemma some_inj' {B} (a b : B) : Some a = Some b -> a = b.
  Proof. congruence. Qed.
  Lemma step_frame s q s' : inv s -> step s q = Some s' ->
    (forall r c, nth_error (cells s) r = Some c -> ~ writes q r -> nth_error (cells s') r = Some c) /\
    (forall i o, nth_error (objs s) i = Some o -> ~ targets q i -> nth_error (objs s') i = Some o) /\
    (forall i o, nth_error (objs s) i = Some o -> exists o', nth_error (objs s') i = Some o' /\ kind_of o' = kind_of o /\
       (kind_of o = Single -> returns o' = returns o /\ observations o' = observations o /\ forall n, In n (inputs ++ results) -> attr o' n = attr o n)) /\
    length (cells s) <= length (cells s') /\ length (objs s) <= length (objs s').
  Proof.
    intros I E.
    assert (X : forall t, extends s t ->
      (forall r c, nth_error (cells s) r = Some c -> ~ writes q r -> nth_error (cells t) r = Some c) /\
      (forall i o, nth_error (objs s) i = Some o -> ~ targets q i -> nth_error (objs t) i = Some o) /\
      (forall i o, nth_error (objs s) i = Some o -> exists o', nth_error (objs t) i = Some o' /\ kind_of o' = kind_of o /\
         (kind_of o = Single -> returns o' = returns o /\ observations o' = observations o /\ forall n, In n (inputs ++ results) -> attr o' n = attr o n)) /\
      length (cells s) <= length (cells t) /\ length (objs s) <= length (objs t)).
    { intros t [[e ->] [eo ->]]. split; [intros; now apply nth_app|]. split; [intros; now apply nth_app|]. split; [|rewrite !app_length; lia].
      intros i o N. exists o. split; [now apply nth_app|auto]. }
    assert (U : forall i o o', nth_error (objs s) i = Some o -> targets q i -> kind_of o' = kind_of o ->
         (kind_of o = Single -> returns o' = returns o /\ observations o' = observations o /\ forall n, In n (inputs ++ results) -> attr o' n = attr o n) ->
      (forall r c, nth_error (cells s) r = Some c -> ~ writes q r -> nth_error (cells (update s i o')) r = Some c) /\
      (forall i0 o, nth_error (objs s) i0 = Some o -> ~ targets q i0 -> nth_error (objs (update s i o')) i0 = Some o) /\
      (forall i0 o, nth_error (objs s) i0 = Some o -> exists o1, nth_error (objs (update s i o')) i0 = Some o1 /\ kind_of o1 = kind_of o /\
         (kind_of o = Single -> returns o1 = returns o /\ observations o1 = observations o /\ forall n, In n (inputs ++ results) -> attr o1 n = attr o n)) /\
      length (cells s) <= length (cells (update s i o')) /\ length (objs s) <= length (objs (update s i o'))).
    { intros i o o' N T K S. unfold update. cbn [cells objs]. split; [auto|]. rewrite length_set_nth. split; [|split; [|lia]].
      - intros j p Nj Tj. rewrite nth_set_nth. destruct (Nat.eq_dec i j) as [<-|]; [tauto|exact Nj].
      - intros j p Nj. rewrite nth_set_nth. destruct (Nat.eq_dec i j) as [<-|]; [|exists p; auto]. rewrite N. exists o'. assert (p = o) by congruence. subst p. auto. }
    destruct q as [c|r c|[] kw|i n v|i j|i|i]; cbn [step] in E.
    - destruct (rectangular c); [|discriminate]. injection E as <-. apply X. split; cbn; [eauto|exists []; now rewrite app_nil_r].
    - destruct (_ <? _); [|discriminate]. destruct (rectangular c); [|discriminate]. injection E as <-. cbn. rewrite length_set_nth. split; [|split; [auto|split; [|lia]]].
      + intros a d N Wr. rewrite nth_set_nth. destruct (Nat.eq_dec r a) as [<-|]; [|exact N]. exfalso. apply Wr. now exists c.
      + intros a o N. exists o. auto.
    - destruct (new_single _ _ kw) as [[cs o]|] eqn:En; [|discriminate]. injection E as <-. destruct (new_single_spec _ _ _ _ _ En) as ((e1 & -> & _) & _). apply X. split; cbn; eauto.
    - destruct (new_multi _ _ kw) as [o|] eqn:En; [|discriminate]. injection E as <-. apply X. split; cbn; [exists []; now rewrite app_nil_r|eauto].
    - destruct (nth_error (objs s) i) as [o|] eqn:N; [|discriminate]. unfold set_attr in E. assert (T : targets (SetAttr i n v) i) by (left; eauto).
      destruct (String.eqb_spec n "fitness_measures") as [->|Nf].
      + destruct v as [| | | |[|m l]| | | | | |]; try discriminate. apply some_inj' in E. subst s'. apply (U i o); auto. intros K. split; [reflexivity|]. split; [reflexivity|].
        intros a Ia. apply with_attr_other. intros ->. revert Ia. cbn. intuition discriminate.
      + destruct (String.eqb_spec n "portfolios") as [->|Np].
        * destruct (is_single o) eqn:S; cbn [negb andb] in E.
          { destruct (mem "portfolios" (settable (kind_of o))) eqn:Me; [|discriminate]. unfold is_single in S. destruct (kind_of o); [|discriminate]. discriminate Me. }
          destruct v as [| | | | | | | | | |l]; try discriminate. destruct (fetch (objs s) l) as [ps|]; [|discriminate].
          destruct (concatenated _ ps) as [[r b]|]; [|discriminate]. apply some_inj' in E. subst s'. apply (U i o); auto. intros K. unfold is_single in S. now rewrite K in S.
        * cbn [andb] in E. destruct (mem n _) eqn:Me; [|discriminate]. destruct (plain v); [|discriminate]. apply some_inj' in E. subst s'. apply (U i o); auto.
          intros K. split; [reflexivity|]. split; [reflexivity|]. intros a Ia. apply with_attr_other. intros ->.
          unfold mem in Me. apply existsb_exists in Me. destruct Me as (a & Im & Ea). apply String.eqb_eq in Ea. subst a. rewrite K in Im. revert Ia Im. unfold settable. cbn. intuition (subst; discriminate).
    - destruct (nth_error (objs s) i) as [o|] eqn:N; [|discriminate]. destruct (nth_error (objs s) j) as [p|] eqn:Nj; [|discriminate].
      destruct (is_single p); [|discriminate]. destruct (is_single o) eqn:So; [discriminate|]. cbn [negb andb] in E. unfold append in E.
      destruct (attr o "portfolios"); try discriminate. cbv zeta in E. match type of E with (if ?b then _ else _) = _ => destruct b; [discriminate|] end.
      match type of E with (let '(_, _) := ?b in _) = _ => destruct b as [r b'] end. apply some_inj' in E. subst s'. apply (U i o); auto; [right; eauto|].
      intros K. unfold is_single in So. now rewrite K in So.
    - destruct (nth_error (objs s) i) as [o|]; [|discriminate]. injection E as <-. apply X. split; cbn; [exists []; now rewrite app_nil_r|eauto].
    - destruct (nth_error (objs s) i) as [o|]; [|discriminate]. destruct (is_single o).
      + destruct (copy_single s _ i) as [[[s1 m1] i1]|] eqn:Ec; [|discriminate]. injection E as <-. apply X. now apply (copy_single_inv _ _ _ _ _ _ I Ec).
      + apply X. now apply (copy_multi_inv _ _ _ I E).
  Qed.
  Lemma run_frame ops s : inv s ->
    (forall r c, nth_error (cells s) r = Some c -> (forall q, In q ops -> ~ writes q r) -> nth_error (cells (run s ops)) r = Some c) /\
    (forall i o, nth_error (objs s) i = Some o -> (forall q, In q ops -> ~ targets q i) -> nth_error (objs (run s ops)) i = Some o) /\
    (forall i o, nth_error (objs s) i = Some o -> exists o', nth_error (objs (run s ops)) i = Some o' /\ kind_of o' = kind_of o /\
       (kind_of o = Single -> returns o' = returns o /\ observations o' = observations o /\ forall n, In n (inputs ++ results) -> attr o' n = attr o n)).
  Proof.
    revert s. induction ops as [|q ops IH]; intros s I; [cbn; split; [auto|]; split; [auto|]; intros i o N; exists o; auto|]. cbn [run].
    destruct (step s q) as [s'|] eqn:E.
    - destruct (step_frame s q s' I E) as (F1 & F2 & F3 & _). destruct (IH s' (step_inv _ _ _ I E)) as (G1 & G2 & G3). split; [|split].
      + intros r c N Wr. apply G1; [apply F1; [exact N|apply Wr; now left]|]. intros a Ia. apply Wr. now right.
      + intros i o N T. apply G2; [apply F2; [exact N|apply T; now left]|]. intros a Ia. apply T. now right.
      + intros i o N. destruct (F3 i o N) as (o1 & N1 & K1 & S1). destruct (G3 i o1 N1) as (o2 & N2 & K2 & S2). exists o2. split; [exact N2|]. split; [congruence|].
        intros K. destruct (S1 K) as (A1 & B1 & C1). rewrite K1 in S2. destruct (S2 K) as (A2 & B2 & C2). split; [congruence|]. split; [congruence|].
        intros n In_. rewrite C2 by exact In_. now apply C1.
    - destruct (IH s I) as (G1 & G2 & G3). split; [|split; [|exact G3]].
      + intros r c N Wr. apply G1; [exact N|]. intros a Ia. apply Wr. now right.
      + intros i o N T. apply G2; [exact N|]. intros a Ia. apply T. now right.
  Qed.
  Lemma reach ops : inv (run (@start W) ops).
  Proof. apply run_inv, start_inv. Qed.
  Lemma reach_single ops i o : nth_error (objs (run (@start W) ops)) i = Some o -> kind_of o = Single -> shaped (cells (run start ops)) o.
  Proof. intros N K. destruct (reach ops) as [_ Io]. specialize (Io _ _ N). unfold obj_ok in Io. rewrite K in Io. tauto. Qed.

  Lemma overlaps_ordered (p : obj W) l : overlaps p l = false <-> ordered (p :: l).
  Proof.
    revert p. induction l as [|q l IH]; intros p; [cbn; tauto|]. cbn [overlaps]. change (ordered (p :: q :: l)) with
      ((exists a b, hd_error (observations q) = Some a /\ hd_error (rev (observations p)) = Some b /\ (b < a)%Z) /\ ordered (q :: l)).
    rewrite <- IH. unfold first, last_obs. destruct (hd_error (observations q)) as [a|], (hd_error (rev (observations p))) as [b|];
      try (split; [discriminate|intros [(x & y & E1 & E2 & _) _]; discriminate]).
    destruct (Z.leb_spec a b).
    - split; [discriminate|]. intros [(x & y & E1 & E2 & L) _]. injection E1 as <-. injection E2 as <-. lia.
    - split; [intros O; split; [exists a, b; auto|exact O]|tauto].
  Qed.
  Lemma overlaps_same (p p' : obj W) l l' : observations p' = observations p -> Forall2 (fun q q' => observations q' = observations q) l l' -> overlaps p' l' = overlaps p l.
  Proof.
    intros E F. revert p p' E. induction F as [|q q' l l' Eq F IH]; intros p p' E; [reflexivity|]. cbn. unfold first, last_obs. rewrite Eq, E. now rewrite (IH q q' Eq).
  Qed.
  Lemma concatenated_same check (l l' : list (obj W)) : Forall2 (fun q q' => returns q' = returns q /\ observations q' = observations q) l l' -> concatenated check l' = concatenated check l.
  Proof.
    intros F. assert (M : map (@returns W) l' = map (@returns W) l /\ map (@observations W) l' = map (@observations W) l).
    { induction F as [|q q' l l' [E1 E2] F [I1 I2]]; [auto|]. cbn. now rewrite E1, E2, I1, I2. }
    destruct M as [M1 M2]. destruct F as [|q q' l l' [E1 E2] F]; [reflexivity|]. unfold concatenated. rewrite M1, M2. rewrite (overlaps_same q q' l l' E2); [reflexivity|].
    clear - F. induction F as [|a b l l' [_ E] F IH]; constructor; auto.
  Qed.
  Lemma copy_values_plain l (cs : list (cell W)) m : Forall (fun v => plain v = true) l -> copy_values cs m l = Some (cs, m, l).
  Proof.
    intros F. induction F as [|v l P F IH]; [reflexivity|]. cbn. assert (E : copy_value cs m v = Some (cs, m, v)) by (destruct v; try discriminate; reflexivity). now rewrite E, IH.
  Qed.
End Frame.

(** A portfolio's stored results are those of its arrays from its construction on (by a call, a
    deep copy or a copy of such a portfolio) as long as none of its arrays is written. *)
Theorem C86_current : forall W (prog post : list (op W)) s i o,
  s = run start prog -> nth_error (objs s) i = Some o -> kind_of o = Single ->
  (i = length (objs (run start (removelast prog))) /\ (exists kw, last prog (Copy 0) = New Single kw) \/ current (cells s) o) ->
  (forall q r, In q post -> writes q r -> ~ refers o r) ->
  exists o', nth_error (objs (run s post)) i = Some o' /\ current (cells (run s post)) o' /\ returns o' = returns o /\ observations o' = observations o.
Proof.
  intros W prog post s i o -> N K D Wr.
  assert (C : current (cells (run start prog)) o).
  { destruct D as [[Ei [kw El]]|C]; [|exact C]. destruct prog as [|q0 prog0] using rev_ind; [discriminate|]. clear IHprog0.
    rewrite removelast_last in Ei. rewrite last_last in El. subst q0. assert (A : forall (a b : list (op W)) s, run s (a ++ b) = run (run s a) b) by (induction a; intros; cbn; auto).
    rewrite A in N |- *. set (s := run start prog0) in *. cbn [run] in N |- *. cbn [step] in N |- *. destruct (new_single (cells s) (length (objs s)) kw) as [[cs o1]|] eqn:E.
    - cbn in N |- *. subst i. rewrite nth_last in N. injection N as <-. now apply new_single_spec in E.
    - subst i. apply nth_lt in N. lia. }
  destruct (run_frame post _ (reach prog)) as (F1 & _ & F3). destruct (F3 i o N) as (o' & N' & _ & S). destruct (S K) as (Sr & So & Sa).
  exists o'. split; [exact N'|]. split; [|auto]. revert C. apply current_kept; auto. intros r Rf c Nc. apply F1; [exact Nc|]. intros q Iq Wq. exact (Wr q r Iq Wq Rf).
Qed.
Print Assumptions C86_current.

(** Deep copying or unpickling a portfolio succeeds and gives a portfolio with the same returns, observations
    and attributes, in arrays of its own; nothing else changes. *)
Theorem C86_single : forall W (prog : list (op W)) s i o,
  s = run start prog -> nth_error (objs s) i = Some o -> kind_of o = Single -> current (cells s) o -> attr o "name" <> None_ ->
  exists s' o', step s (DeepCopy i) = Some s' /\ objs s' = objs s ++ [o'] /\ (exists new, cells s' = cells s ++ new) /\
    same_single (cells s) o (cells s') o' /\ current (cells s') o' /\ (forall r, refers o' r -> length (cells s) <= r).
Proof.
  intros W prog s i o -> N K C Nm. set (s := run start prog) in *. pose proof (reach_single prog i o N K) as S. fold s in S.
  destruct (copy_single_ok s s {| cell_memo := []; obj_memo := [] |} i) as (s' & m' & i' & E & [[e Ec] [eo Eo]] & _ & (_ & p & p' & Np & Np' & Sa & _ & Cu & Fr)).
  { apply extends_refl. } { split; cbn; intros ? ? []. } { exists o. auto. }
  assert (p = o) by congruence. subst p. unfold copy_single in E. cbn [seen obj_memo find] in E. change (seen [] i) with (@None nat) in E. cbv iota in E.
  rewrite N, (kind_single o K) in E. destruct (copy_values _ _ _) as [[[cs cm] args]|] eqn:E1; [|discriminate]. destruct (new_single cs _ _) as [[cs2 o']|] eqn:E2; [|discriminate].
  injection E as <- _ <-. cbn [objs cells] in *. rewrite nth_last in Np'. injection Np' as <-.
  eexists _, o'. split.
  { cbn [step]. fold s. rewrite N, (kind_single o K). unfold copy_single. cbn [obj_memo cell_memo]. change (seen [] i) with (@None nat). cbv iota. rewrite N, (kind_single o K).
    cbn [cell_memo] in E1. rewrite E1, E2. reflexivity. }
  cbn. split; [reflexivity|]. split; [eauto|]. split; [exact Sa|]. split; [exact Cu|exact Fr].
Qed.
Print Assumptions C86_single.

(** Whatever happened to the arrays, a deep copy that succeeds carries the present arguments and settings,
    and its results are those of the present arrays. *)
Theorem C86_recomputed : forall W (prog : list (op W)) s i o s',
  s = run start prog -> nth_error (objs s) i = Some o -> kind_of o = Single -> step s (DeepCopy i) = Some s' ->
  exists o', objs s' = objs s ++ [o'] /\ (exists new, cells s' = cells s ++ new) /\ kind_of o' = Single /\ current (cells s') o' /\
    (forall n, In n inputs -> shown (cells s') (attr o' n) = shown (cells s) (attr o n)) /\
    (forall n, In n settings -> (n = "name" -> attr o n <> None_) -> attr o' n = attr o n) /\
    (forall r, refers o' r -> length (cells s) <= r).
Proof.
  intros W prog s i o s' -> N K E. set (s := run start prog) in *. pose proof (reach_single prog i o N K) as S. fold s in S.
  cbn [step] in E. fold s in E. rewrite N, (kind_single o K) in E. unfold copy_single in E. cbn [obj_memo cell_memo] in E. change (seen [] i) with (@None nat) in E. cbv iota in E.
  rewrite N, (kind_single o K) in E. unfold reduce in E. cbn [fst snd] in E. rewrite K in E.
  destruct (copy_values_ok (length (cells s)) (cells s) (map (attr o) (init_names Single)) (cells s) []) as (cs & cm & args & E1 & [e X1] & _ & F1);
    [exists []; now rewrite app_nil_r|lia|intros ? ? []|now apply args_okv|].
  rewrite E1 in E. destruct (new_single cs _ _) as [[cs2 o']|] eqn:E2; [|discriminate]. injection E as <-.
  destruct (rebuilt_same _ _ _ _ _ _ _ _ S F1 E2) as (-> & Cu & Sh & Ri & Rs & Fr & _). exists o'. cbn. split; [reflexivity|]. split; [eauto|]. split; [now destruct Sh|]. auto.
Qed.
Print Assumptions C86_recomputed.

(** Deep copying or unpickling a multi-period portfolio: it raises exactly when check_observations_order is
    set and some portfolio does not start after the end of the previous one; otherwise the copy is the same,
    with portfolios and arrays of its own. *)
Theorem C86_multi : forall W (prog : list (op W)) s i o l ps check,
  s = run start prog -> nth_error (objs s) i = Some o -> kind_of o = Multi -> attr o "name" <> None_ ->
  attr o "portfolios" = Objs l -> Forall2 (fun j p => nth_error (objs s) j = Some p) l ps ->
  Forall (fun p => current (cells s) p /\ attr p "name" <> None_) ps -> attr o "check_observations_order" = Flag check ->
  (step s (DeepCopy i) = None <-> check = true /\ ~ ordered ps) /\
  (forall s', step s (DeepCopy i) = Some s' ->
     exists new o' l', objs s' = objs s ++ new ++ [o'] /\ (exists new, cells s' = cells s ++ new) /\
       same_multi s o s' o' /\ attr o' "portfolios" = Objs l' /\
       Forall (fun j => length (objs s) <= j < length (objs s) + length new /\ forall p, nth_error (objs s') j = Some p -> forall r, refers p r -> length (cells s) <= r) l').
Proof.
  intros W prog s i o l ps check -> N K Nm El F Fp Ek. set (s := run start prog) in *.
  pose proof (reach prog) as I. fold s in I. pose proof I as [Ic Io]. pose proof (Io _ _ N) as Oo. unfold obj_ok in Oo. rewrite K in Oo.
  destruct Oo as (St & Fi & Ch & l0 & El0 & G & Er & Eo). assert (l0 = l) by congruence. subst l0.
  assert (Fs : fetch (objs s) l = Some ps).
  { apply fetch_spec. clear - F G. induction F as [|j p l ps Nj F IH]; [constructor|]. inversion G as [|? ? (q & Nq & Kq) G']; subst. constructor; [|auto]. split; [exact Nj|congruence]. }
  assert (Fit : Forall (fit s) l).
  { clear - F G Fp Io. induction F as [|j p l ps Nj F IH]; [constructor|]. inversion G as [|? ? (q & Nq & Kq) G']; subst. inversion Fp as [|? ? [Cp Np] Fp']; subst. constructor; [|auto].
    assert (q = p) by congruence. subst q. exists p. split; [exact Nj|]. specialize (Io _ _ Nj). unfold obj_ok in Io. rewrite Kq in Io. tauto. }
  destruct (copy_singles_ok s l s {| cell_memo := []; obj_memo := [] |}) as (s1 & m1 & l' & E1 & X1 & M1 & S1); [apply extends_refl|split; cbn; intros ? ? []|exact Fit|].
  destruct X1 as [[e Ec] [eo Eob]].
  assert (Ef : exists ps', fetch (objs s1) l' = Some ps' /\ Forall2 (fun q q' => returns q' = returns q /\ observations q' = observations q) ps ps').
  { clear - F S1. revert l' S1. induction F as [|j p l ps Nj F IH]; intros l' S1; inversion S1 as [|? j' ? l1 Sj S2]; subst; [exists []; auto|].
    destruct (IH _ S2) as (ps' & Ep & Fp). destruct Sj as (_ & q & q' & Nq & Nq' & (Kq & Kq' & Rr & Ro & _) & _). assert (q = p) by congruence. subst q.
    exists (q' :: ps'). split; [cbn; now rewrite Nq', Ep, (kind_single q' Kq')|]. constructor; auto. }
  destruct Ef as (ps' & Ef & Same).
  set (rest := ["name"; "tag"; "risk_free_rate"; "annualized_factor"; "fitness_measures"; "compounded";
                "min_acceptable_return"; "value_at_risk_beta"; "entropic_risk_measure_theta"; "entropic_risk_measure_beta";
                "cvar_beta"; "evar_beta"; "drawdown_at_risk_beta"; "cdar_beta"; "edar_beta"; "check_observations_order"]).
  assert (Pl : Forall (fun v => plain v = true) (map (attr o) rest)).
  { apply Forall_forall. intros v Iv. apply in_map_iff in Iv. destruct Iv as (n & <- & In_). unfold rest in In_. cbn in In_.
    destruct (String.eqb_spec n "check_observations_order") as [->|Nc]; [exact Ch|]. apply St. unfold settings. cbn. intuition congruence. }
  assert (Step : step s (DeepCopy i) =
    match new_multi (objs s1) (length (objs s1)) (positional Multi (Objs l' :: map (attr o) rest)) with Some o' => Some {| cells := cells s1; objs := objs s1 ++ [o'] |} | None => None end).
  { cbn [step]. rewrite N. replace (is_single o) with false by (unfold is_single; now rewrite K). unfold copy_multi, reduce. rewrite K. cbn [fst snd]. change (init_names Multi) with ("portfolios" :: rest).
    cbn [map]. rewrite El. cbv iota. rewrite E1. rewrite (copy_values_plain (map (attr o) rest)) by exact Pl. reflexivity. }
  set (kw := positional Multi (Objs l' :: map (attr o) rest)) in *.
  assert (Kw : forall n, In n rest -> arg kw n = Some (attr o n)).
  { intros n In_. unfold arg, kw, positional. change (init_names Multi) with ("portfolios" :: rest). cbn [combine]. unfold lookup. cbn [find fst snd].
    destruct (String.eqb_spec "portfolios" n) as [<-|Nn]; [exfalso; revert In_; unfold rest; cbn; intuition discriminate|].
    assert (Fr : Forall2 (fun a b : value W => b = a) (map (attr o) rest) (map (attr o) rest)) by (clear; induction (map (attr o) rest); constructor; auto).
    destruct (lookup_combine (fun a b => b = a) (attr o) rest (map (attr o) rest) n Fr In_) as (v' & E & ->). unfold lookup in E. destruct (find _ _); [|discriminate]. now injection E as ->. }
  assert (Bi := base_init_given (length (objs s1)) kw (attr o) (fun n Hn => conj (Kw n ltac:(revert Hn; unfold settings, rest; cbn; tauto)) (St n Hn))).
  assert (Kp : arg kw "portfolios" = Some (Objs l')) by reflexivity.
  assert (Kc : setting kw "check_observations_order" = Some (Flag check)) by (unfold setting; rewrite Kw by (unfold rest; cbn; tauto); now rewrite Ek).
  assert (Nm' : new_multi (objs s1) (length (objs s1)) kw = match concatenated (Flag check) ps with
     | None => None
     | Some (r, b) => Some {| kind_of := Multi; attr := attributes ([("check_observations_order", Flag check); ("portfolios", Objs l')] ++
          base_attrs (length (objs s1)) (attr o "name") (attr o "tag") (attr o "annualized_factor") (attr o "fitness_measures") (attr o "risk_free_rate") (attr o "compounded")
      (attr o "min_acceptable_return") (attr o "value_at_risk_beta") (attr o "entropic_risk_measure_theta") (attr o "entropic_risk_measure_beta") (attr o "cvar_beta") (attr o "evar_beta")
      (attr o "drawdown_at_risk_beta") (attr o "cdar_beta") (attr o "edar_beta")); returns := r; observations := b |} end).
  { unfold new_multi. rewrite Kp, Kc, Bi. cbv zeta iota. rewrite Ef, (concatenated_same _ _ _ Same). reflexivity. }
  rewrite Step, Nm'. split.
  - destruct ps as [|p rest_ps]; cbn [concatenated]; [split; [discriminate|intros [_ H]; destruct H; exact Logic.I]|].
    pose proof (overlaps_ordered p rest_ps) as Ov. destruct check; cbn [andb].
    + destruct (overlaps p rest_ps); [split; [intros _; split; [reflexivity|]; intros H; apply Ov in H; discriminate|auto]|].
      split; [discriminate|]. intros [_ H]. exfalso. apply H. now apply Ov.
    + split; [discriminate|]. intros [H _]; discriminate.
  - intros s'. destruct (concatenated (Flag check) ps) as [[r b]|] eqn:Cc; [|discriminate]. intros Es; apply some_inj' in Es; subst s'. cbn [objs cells].
    apply concatenated_spec in Cc. destruct Cc as [-> ->]. destruct (fetch_concat _ _ _ Fs) as [Q1 Q2].
    eexists eo, _, l'. split; [now rewrite Eob, app_assoc|]. split; [eauto|]. split; [|split; [reflexivity|]].
    + split; [exact K|]. split; [reflexivity|]. cbn [returns observations]. split; [congruence|]. split; [congruence|]. split.
      * intros n In_. cbn [attr]. destruct In_ as [<-|In_]; [now rewrite Ek|].
        apply (base_attrs_get _ (attr o)); [exact In_|exact Fi|intros _; exact Nm|]. intros a Ia. revert Ia. unfold settings. cbn. intuition (subst; discriminate).
      * exists l, l'. split; [exact El|]. split; [reflexivity|]. cbn [objs cells]. match goal with |- context [objs s1 ++ [?x]] => generalize x; intros last_one end. clear - S1. induction S1 as [|j j' l l' (_ & p & p' & Nj & Nj' & Sa & _) S1 IH]; [constructor|]. constructor; [|exact IH].
        exists p, p'. split; [exact Nj|]. split; [now apply nth_app|exact Sa].
    + match goal with |- context [objs s1 ++ [?x]] => generalize x; intros last_one end. clear - S1 Eob. induction S1 as [|j j' l l' (L & p & p' & Nj & Nj' & Sa & _ & _ & Fr) S1 IH]; [constructor|]. constructor; [|exact IH].
      split; [split; [exact L|]; apply nth_lt in Nj'; rewrite Eob, app_length in Nj'; exact Nj'|]. cbn [objs]. intros q Nq. rewrite (nth_app _ _ _ _ Nj') in Nq. now injection Nq as <-.
Qed.
Print Assumptions C86_multi.

(** A deep copy and its original are independent: a later program that only writes arrays and sets attributes
    on one side of the copy does not change the portfolios of the other side nor the arrays of that side. *)
Theorem C86_independent : forall W (prog post : list (op W)) s s' i,
  s = run start prog -> step s (DeepCopy i) = Some s' ->
  ((forall q r, In q post -> writes q r -> r < length (cells s)) -> (forall q j, In q post -> targets q j -> j < length (objs s)) ->
   (forall r c, length (cells s) <= r -> nth_error (cells s') r = Some c -> nth_error (cells (run s' post)) r = Some c) /\
   (forall j o, length (objs s) <= j -> nth_error (objs s') j = Some o -> nth_error (objs (run s' post)) j = Some o)) /\
  ((forall q r, In q post -> writes q r -> length (cells s) <= r) -> (forall q j, In q post -> targets q j -> length (objs s) <= j) ->
   (forall r c, r < length (cells s) -> nth_error (cells s) r = Some c -> nth_error (cells (run s' post)) r = Some c) /\
   (forall j o, j < length (objs s) -> nth_error (objs s) j = Some o -> nth_error (objs (run s' post)) j = Some o)).
Proof.
  intros W prog post s s' i -> E. pose proof (reach prog) as I. pose proof (step_inv _ _ _ I E) as I'.
  destruct (step_frame _ _ _ I E) as (A1 & A2 & _). destruct (run_frame post _ I') as (F1 & F2 & _). split; intros Hw Ht; (split; [intros r c L Nc|intros j o L Nj]).
  - apply F1; [exact Nc|]. intros q Iq Wq. specialize (Hw q r Iq Wq). lia.
  - apply F2; [exact Nj|]. intros q Iq Tq. specialize (Ht q j Iq Tq). lia.
  - apply F1; [apply A1; [exact Nc|intros [c' H]; discriminate]|]. intros q Iq Wq. specialize (Hw q r Iq Wq). lia.
  - apply F2; [apply A2; [exact Nj|intros [(n & v & H)|(k & H)]; discriminate]|]. intros q Iq Tq. specialize (Ht q j Iq Tq). lia.
Qed.
Print Assumptions C86_independent.

(** ** Findings and examples *)
(** integers as numbers: no NaN *)
Definition integers : world :=
  {| num := Z; zero_ := 0%Z; c252_ := 252%Z; c095_ := 95%Z; c1_ := 1%Z; add_ := Z.add; sub_ := Z.sub; mul_ := Z.mul; absolute_ := Z.abs;
     nan_ := fun _ => false; is_zero_ := Z.eqb 0; id_string_ := fun k => match k with 0 => "a" | 1 => "b" | _ => "c" end; zero_number := eq_refl;
     default_names_ := fun n => repeat "x" n |}.
Definition nothing : obj integers := {| kind_of := Single; attr := fun _ => None_; returns := []; observations := [] |}.
Definition got (s : state integers) (i : nat) : obj integers := nth i (objs s) nothing.
Definition next (s : option (state integers)) : state integers := match s with Some s => s | None => start end.
Lemma got_it (s : state integers) i : Nat.ltb i (length (objs s)) = true -> nth_error (objs s) i = Some (got s i).
Proof. intros L. apply Nat.ltb_lt in L. now apply nth_error_nth'. Qed.
Lemma next_is (s : option (state integers)) : (if s then true else false) = true -> s = Some (next s).
Proof. now destruct s. Qed.
Ltac run_it := match goal with |- nth_error _ _ = Some (got _ _) => apply got_it; vm_compute; reflexivity | |- _ = Some (next _) => apply next_is; vm_compute; reflexivity | |- _ => vm_compute; reflexivity end.
Definition prices_1 : cell integers := Mat (W:=integers) 2 (Some (["u"; "v"], [1%Z; 2%Z])) [[1%Z; 2%Z]; [3%Z; 4%Z]].
Definition prices_2 : cell integers := Mat (W:=integers) 2 (Some (["u"; "v"], [2%Z; 3%Z])) [[5%Z; 6%Z]; [7%Z; 8%Z]].
Definition build : list (op integers) :=
  [Array prices_1; Array prices_2; Array (Vec (W:=integers) [1%Z; 1%Z]);
   New Single [("X", Ref 0); ("weights", Ref 2); ("transaction_costs", Lit (W:=integers) [1%Z; 0%Z]); ("tag", Str "t"); ("cvar_beta", Num (W:=integers) 90%Z)];
   New Single [("X", Ref 1); ("weights", Dict (W:=integers) [("v", 1%Z)]); ("name", Str "p")]].

(** writing an array after the construction: the deep copy of the portfolio has other returns than the portfolio *)
Theorem C86_written_refuted : exists (prog : list (op integers)) o s' o',
  nth_error (objs (run start prog)) 0 = Some o /\ kind_of o = Single /\ step (run start prog) (DeepCopy 0) = Some s' /\
  nth_error (objs s') 2 = Some o' /\ returns o' <> returns o /\ attr o' "total_cost" <> attr o "total_cost".
Proof.
  set (prog := build ++ [Write 2 (Vec (W:=integers) [2%Z; 0%Z])]). exists prog, (got (run start prog) 0), (next (step (run start prog) (DeepCopy 0))), (got (next (step (run start prog) (DeepCopy 0))) 2).
  do 4 (split; [run_it|]). split; vm_compute; discriminate.
Qed.
Print Assumptions C86_written_refuted.
(** append() accepts a portfolio that starts on the last observation of the previous one; the result
    cannot be deep copied or unpickled *)
Theorem C86_append_refuted : exists (prog : list (op integers)) o s' o',
  nth_error (objs (run start prog)) 2 = Some o /\ kind_of o = Multi /\ attr o "check_observations_order" = Flag true /\
  step (run start prog) (Append 2 1) = Some s' /\ nth_error (objs s') 2 = Some o' /\
  returns o' = [2%Z; 6%Z; 6%Z; 8%Z] /\ step s' (DeepCopy 2) = None.
Proof.
  set (prog := build ++ [New Multi [("portfolios", Objs [0]); ("check_observations_order", Flag true)]]).
  exists prog, (got (run start prog) 2), (next (step (run start prog) (Append 2 1))), (got (next (step (run start prog) (Append 2 1))) 2).
  do 6 (split; [run_it|]). vm_compute; reflexivity.
Qed.
Print Assumptions C86_append_refuted.
(** so does setting check_observations_order after the construction: it is not checked until the copy *)
Theorem C86_flag_refuted : exists (prog : list (op integers)) s',
  step (run start prog) (SetAttr 2 "check_observations_order" (Flag true)) = Some s' /\ step s' (DeepCopy 2) = None.
Proof.
  set (prog := build ++ [New Multi [("portfolios", Objs [1; 0])]]). exists prog, (next (step (run start prog) (SetAttr 2 "check_observations_order" (Flag true)))).
  split; [run_it|vm_compute; reflexivity].
Qed.
Print Assumptions C86_flag_refuted.

(** Setting the portfolios of a multi-period portfolio: it raises exactly when check_observations_order is set and some portfolio
    does not start after the end of the previous one; otherwise its returns and observations are those of the new portfolios one after the other,
    and nothing else changes. *)
Theorem C86_portfolios_set : forall W (prog : list (op W)) s i o l ps check,
  s = run start prog -> nth_error (objs s) i = Some o -> kind_of o = Multi -> attr o "check_observations_order" = Flag check ->
  Forall2 (fun j p => nth_error (objs s) j = Some p /\ kind_of p = Single) l ps ->
  (step s (SetAttr i "portfolios" (Objs l)) = None <-> check = true /\ ~ ordered ps) /\
  (forall s', step s (SetAttr i "portfolios" (Objs l)) = Some s' ->
     cells s' = cells s /\ (forall j, j <> i -> nth_error (objs s') j = nth_error (objs s) j) /\
     exists o', nth_error (objs s') i = Some o' /\ kind_of o' = Multi /\ returns o' = concat (map returns ps) /\ observations o' = concat (map observations ps) /\
       (forall n, attr o' n = if String.eqb n "portfolios" then Objs l else attr o n)).
Proof.
  intros W prog s i o l ps check _ N K Ek F. cbn [step]. rewrite N. unfold set_attr, is_single. rewrite K. cbn [String.eqb Ascii.eqb Bool.eqb andb negb].
  assert (Fs : fetch (objs s) l = Some ps) by now apply fetch_spec. rewrite Fs, Ek.
  assert (D : concatenated (Flag check) ps = if check then match ps with [] => Some ([], []) | p :: r => if overlaps p r then None else Some (concat (map returns ps), concat (map observations ps)) end
              else Some (concat (map returns ps), concat (map observations ps))) by (destruct ps, check; reflexivity).
  split.
  - rewrite D. destruct check; [|split; [discriminate|intros [? _]; discriminate]].
    destruct ps as [|p r]; [split; [discriminate|intros [_ H]; exfalso; now apply H]|]. pose proof (overlaps_ordered p r) as Ov.
    destruct (overlaps p r); split; try discriminate; intros; [split; [reflexivity|]; intros H0; now apply Ov in H0|reflexivity|exfalso; apply H; now apply Ov].
  - intros s'. destruct (concatenated (Flag check) ps) as [[r b]|] eqn:E; [|discriminate]. apply concatenated_spec in E as [-> ->]. intros E. injection E as <-.
    cbn [update cells objs]. split; [reflexivity|]. split; [intros j Nj; rewrite nth_set_nth; destruct (Nat.eq_dec i j); [congruence|reflexivity]|].
    eexists. rewrite nth_set_nth. destruct (Nat.eq_dec i i) as [_|X]; [|congruence]. rewrite N. split; [reflexivity|]. repeat split.
Qed.
Print Assumptions C86_portfolios_set.

(** a portfolio with costs, settings changed after its construction and an array written elsewhere; its deep copy;
    and a checked multi-period portfolio that is copied *)
Example C86_applies :
  let prog := build ++ [Write 1 (Mat (W:=integers) 2 None [[0%Z; 0%Z]]); SetAttr 0 "risk_free_rate" (Num (W:=integers) 7%Z); SetAttr 0 "fitness_measures" (Measures ["cvar"])] in
  (exists o, nth_error (objs (run start prog)) 0 = Some o /\ kind_of o = Single /\ current (cells (run start prog)) o /\ attr o "name" = Str "a" /\
             returns o = [2%Z; 6%Z] /\ attr o "total_cost" = Num (W:=integers) 1%Z /\ attr o "risk_free_rate" = Num (W:=integers) 7%Z) /\
  (exists s' o', step (run start prog) (DeepCopy 0) = Some s' /\ nth_error (objs s') 2 = Some o' /\ returns o' = [2%Z; 6%Z] /\ attr o' "weights" = Ref 8 /\
             nth_error (cells s') 8 = Some (Vec (W:=integers) [1%Z; 1%Z]) /\ attr o' "name" = Str "a" /\ attr o' "fitness_measures" = Measures ["cvar"]) /\
  (exists o s' o', nth_error (objs (run start (build ++ [New Multi [("portfolios", Objs [0; 0; 1])]]))) 2 = Some o /\ returns o = [2%Z; 6%Z; 2%Z; 6%Z; 6%Z; 8%Z] /\
     step (run start (build ++ [New Multi [("portfolios", Objs [0; 0; 1])]])) (DeepCopy 2) = Some s' /\ nth_error (objs s') 5 = Some o' /\
     attr o' "portfolios" = Objs [3; 3; 4] /\ returns o' = returns o).
Proof.
  intros prog. set (multi := build ++ [New Multi [("portfolios", Objs [0; 0; 1])]]). split; [|split].
  - exists (got (run start prog) 0). do 2 (split; [run_it|]). split.
    + exists 0, 2, (Some (["u"; "v"], [1%Z; 2%Z])), [[1%Z; 2%Z]; [3%Z; 4%Z]], 2, [1%Z; 1%Z], 3, [0%Z; 0%Z], 1%Z, 0%Z.
      do 5 (split; [run_it|]). split; [repeat constructor|]. do 3 (split; [run_it|]). split; [repeat constructor|].
      split; [replace (attr (got (run start prog) 0) "transaction_costs") with (Ref (W:=integers) 4) by run_it; exists [1%Z; 0%Z]; do 2 (split; [run_it|]); split; [repeat constructor|run_it]|].
      split; [replace (attr (got (run start prog) 0) "management_fees") with (Num (W:=integers) 0%Z) by run_it; run_it|].
      do 6 (split; [run_it|]). vm_compute. repeat constructor.
    + do 3 (split; [run_it|]). run_it.
  - exists (next (step (run start prog) (DeepCopy 0))), (got (next (step (run start prog) (DeepCopy 0))) 2). do 6 (split; [run_it|]). run_it.
  - exists (got (run start multi) 2), (next (step (run start multi) (DeepCopy 2))), (got (next (step (run start multi) (DeepCopy 2))) 5). do 5 (split; [run_it|]). run_it.
Qed.

Definition later_prices : cell integers := Mat (W:=integers) 2 (Some (["u"; "v"], [5%Z; 6%Z])) [[5%Z; 6%Z]; [7%Z; 8%Z]].
(** a checked multi-period portfolio accepts its portfolios in order and refuses them in the other order *)
Example C86_portfolios_set_applies :
  let prog := build ++ [Array later_prices; New Single [("X", Ref (length (cells (run start build)))); ("weights", Dict (W:=integers) [("v", 1%Z)])]; New Multi [("check_observations_order", Flag true)]] in
  (exists o p0 p2, nth_error (objs (run start prog)) 3 = Some o /\ kind_of o = Multi /\ attr o "check_observations_order" = Flag (W:=integers) true /\
     Forall2 (fun j p => nth_error (objs (run start prog)) j = Some p /\ kind_of p = Single) [0; 2] [p0; p2]) /\
  (exists s', step (run start prog) (SetAttr 3 "portfolios" (Objs [0; 2])) = Some s') /\ step (run start prog) (SetAttr 3 "portfolios" (Objs [2; 0])) = None.
Proof.
  intros prog. split; [|split].
  - exists (got (run start prog) 3), (got (run start prog) 0), (got (run start prog) 2). do 3 (split; [run_it|]). repeat constructor; run_it.
  - exists (next (step (run start prog) (SetAttr 3 "portfolios" (Objs [0; 2])))). run_it.
  - vm_compute. reflexivity.
Qed.
