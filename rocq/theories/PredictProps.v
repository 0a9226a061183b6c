(** C66: [predict] evaluates the fitted weights with the user's portfolio parameters, else the
    estimator's costs, fees, previous weights and risk-free rate; [score] is the (mean) Sharpe
    ratio; neither changes anything the user holds. *)
From Coq Require Import String Reals Bool Arith List Lia Lra.
From Verif Require Import RList MeasuresModel PredictModel.
Import ListNotations.
Local Open Scope string_scope.
Local Open Scope R_scope.

(** ** Specification *)

(** what the user wrote in portfolio_params *)
Definition user (e : estimator) (m : memory) : dict :=
  match portfolio_params e with None => [] | Some a => nth a m [] end.
Definition first (o : option value) (v : value) : value := match o with Some x => x | None => v end.
(** the four inherited settings: the user's, else the estimator's, else the constructor's default *)
Definition setting (e : estimator) (m : memory) (k : string) (default : value) : value :=
  first (lookup (user e m) k) (first (lookup (attributes e) k) default).

(** the number a setting means for the i-th asset *)
Definition number (X : frame) (v : value) (i : nat) : R :=
  match v with
  | VNum x => x
  | VArr l => nth i l 0
  | VDict d => match columns X with
               | Some names => match lookup d (nth i names "") with Some x => x | None => 0 end
               | None => 0
               end
  | _ => 0
  end.

(** one number per asset *)
Definition per_asset (X : frame) (v : value) : Prop :=
  match v with
  | VArr l => length l = width X
  | VDict _ => columns X <> None
  | _ => False
  end.
Definition table (X : frame) : Prop :=
  (forall row, In row (rows X) -> length row = width X) /\
  (forall names, columns X = Some names -> length names = width X).

(** the keyword arguments Portfolio documents *)
Definition documented (k : string) : Prop :=
  In k ["previous_weights"; "transaction_costs"; "management_fees"; "risk_free_rate"; "name"; "tag";
        "annualized_factor"; "fitness_measures"; "compounded"; "min_acceptable_return";
        "value_at_risk_beta"; "entropic_risk_measure_theta"; "entropic_risk_measure_beta";
        "cvar_beta"; "evar_beta"; "drawdown_at_risk_beta"; "cdar_beta"; "edar_beta"].

Definition acceptable (e : estimator) (m : memory) (X : frame) (w : list R) : Prop :=
  (forall k v, In (k, v) (user e m) -> documented k) /\
  length w = width X /\
  (setting e m "previous_weights" VNone = VNone \/ per_asset X (setting e m "previous_weights" VNone)) /\
  (forall k, k = "transaction_costs" \/ k = "management_fees" ->
     setting e m k VNone = VNone \/ (exists x, setting e m k VNone = VNum x) \/ per_asset X (setting e m k VNone)).

Definition total (n : nat) (f : nat -> R) : R := sum_over (seq 0 n) f.

(** the return of the weights on one observation, net of costs and fees *)
Definition net_return (e : estimator) (m : memory) (X : frame) (w row : list R) : R :=
  total (width X) (fun i => nth i w 0 * nth i row 0)
  - total (width X) (fun i => number X (setting e m "transaction_costs" VNone) i
                              * Rabs (number X (setting e m "previous_weights" VNone) i - nth i w 0))
  - total (width X) (fun i => number X (setting e m "management_fees" VNone) i * nth i w 0).

Definition evaluates (e : estimator) (m : memory) (X : frame) (w : list R) (nm : value) (p : portfolio) : Prop :=
  weights p = w /\
  returns p = map (net_return e m X w) (rows X) /\
  length (previous_weights p) = width X /\
  (forall i, (i < width X)%nat -> nth i (previous_weights p) 0 = number X (setting e m "previous_weights" VNone) i) /\
  risk_free_rate p = setting e m "risk_free_rate" (VNum 0) /\
  name p = nm /\
  (forall k, ~ In k ["previous_weights"; "transaction_costs"; "management_fees"; "risk_free_rate"; "name"] ->
     lookup (rest p) k = lookup (user e m) k).

Definition chosen_name (e : estimator) (m : memory) : value :=
  first (lookup (user e m) "name") (VStr (class_name e)).

Definition valid (e : estimator) (m : memory) : Prop :=
  match portfolio_params e with None => True | Some a => (a < length m)%nat end.

(** ** Proofs *)

Lemma read_write m a d : (a < length m)%nat -> read (write m a d) a = d.
Proof.
  revert a; induction m as [|x m IH]; simpl; intros a H; [lia|].
  destruct a; simpl; [reflexivity|]. apply IH; lia.
Qed.
Lemma read_write_other m a b d : a <> b -> read (write m a d) b = read m b.
Proof.
  unfold read. revert a b; induction m as [|x m IH]; simpl; intros a b H; [reflexivity|].
  destruct a, b; simpl; try reflexivity; try lia. apply IH; lia.
Qed.
Lemma length_write m a d : length (write m a d) = length m.
Proof. revert a; induction m as [|x m IH]; simpl; intros [|a]; simpl; auto. Qed.

Definition pure_inherit (attrs d : dict) (k : string) : dict :=
  match lookup d k, lookup attrs k with None, Some v => assign d k v | _, _ => d end.

Lemma inherit_read e a m k : (a < length m)%nat ->
  read (inherit e a m k) a = pure_inherit (attributes e) (read m a) k
  /\ length (inherit e a m k) = length m
  /\ (forall b, b <> a -> read (inherit e a m k) b = read m b).
Proof.
  intros H. unfold inherit, pure_inherit.
  destruct (lookup (read m a) k); [auto|]. destruct (lookup (attributes e) k); [|auto].
  split; [apply read_write; exact H|]. split; [apply length_write|].
  intros b Hb. apply read_write_other. auto.
Qed.
Lemma inherit_fold e a ks : forall m, (a < length m)%nat ->
  read (fold_left (inherit e a) ks m) a = fold_left (pure_inherit (attributes e)) ks (read m a)
  /\ length (fold_left (inherit e a) ks m) = length m
  /\ (forall b, b <> a -> read (fold_left (inherit e a) ks m) b = read m b).
Proof.
  induction ks as [|k ks IH]; simpl; intros m H; [auto|].
  destruct (inherit_read e a m k H) as (A & B & C).
  destruct (IH (inherit e a m k)) as (A' & B' & C'); [rewrite B; exact H|].
  rewrite A', A, B', B. repeat split; auto. intros b Hb. rewrite C', C; auto.
Qed.

Lemma lookup_app {A} (d1 d2 : list (string * A)) k :
  lookup (d1 ++ d2) k = match lookup d1 k with Some v => Some v | None => lookup d2 k end.
Proof.
  induction d1 as [|[k' v] d1 IH]; simpl; [reflexivity|]. destruct (String.eqb k k'); auto.
Qed.
Lemma lookup_filter (d : dict) (f : string -> bool) k :
  lookup (filter (fun p => f (fst p)) d) k = if f k then lookup d k else None.
Proof.
  induction d as [|[k' v] d IH]; simpl; [destruct (f k); reflexivity|].
  destruct (f k') eqn:F; simpl.
  - destruct (String.eqb_spec k k') as [->|N]; [rewrite F; reflexivity|exact IH].
  - destruct (String.eqb_spec k k') as [->|N]; [rewrite F in *; exact IH|exact IH].
Qed.
Lemma pure_lookup attrs d k k' :
  lookup (pure_inherit attrs d k) k' =
  match lookup d k' with
  | Some v => Some v
  | None => if String.eqb k' k then lookup attrs k' else None
  end.
Proof.
  unfold pure_inherit, assign. destruct (lookup d k) eqn:L.
  - destruct (lookup d k') eqn:L'; [reflexivity|].
    destruct (String.eqb_spec k' k) as [->|N]; [congruence|reflexivity].
  - destruct (lookup attrs k) eqn:A.
    + rewrite lookup_app. destruct (lookup d k') eqn:L'; [reflexivity|]. simpl.
      destruct (String.eqb_spec k' k) as [->|N]; [auto|reflexivity].
    + destruct (lookup d k') eqn:L'; [reflexivity|].
      destruct (String.eqb_spec k' k) as [->|N]; [auto|reflexivity].
Qed.

Definition inherited_dict (e : estimator) (m : memory) : dict :=
  remove (fold_left (pure_inherit (attributes e)) inherited (user e m)) "name".

Lemma inherited_lookup e m k :
  lookup (inherited_dict e m) k =
  if String.eqb k "name" then None
  else match lookup (user e m) k with
       | Some v => Some v
       | None => if existsb (String.eqb k) inherited then lookup (attributes e) k else None
       end.
Proof.
  unfold inherited_dict, remove. rewrite (lookup_filter _ (fun x => negb (String.eqb x "name"))).
  destruct (String.eqb k "name"); simpl negb; cbv iota; [reflexivity|].
  unfold inherited. cbn [fold_left existsb]. rewrite !pure_lookup.
  destruct (lookup (user e m) k); [reflexivity|].
  destruct (String.eqb k "transaction_costs"), (String.eqb k "management_fees"),
    (String.eqb k "previous_weights"), (String.eqb k "risk_free_rate"); simpl; try reflexivity;
  destruct (lookup (attributes e) k); reflexivity.
Qed.
Lemma fold_name e m : lookup (fold_left (pure_inherit (attributes e)) inherited (user e m)) "name" = lookup (user e m) "name".
Proof.
  unfold inherited. cbn [fold_left]. rewrite !pure_lookup. simpl.
  destruct (lookup (user e m) "name"); reflexivity.
Qed.
Lemma pure_keys attrs k d p : In p (pure_inherit attrs d k) -> In p d \/ fst p = k.
Proof.
  unfold pure_inherit, assign. destruct (lookup d k); [auto|]. destruct (lookup attrs k); [|auto].
  rewrite in_app_iff. simpl. intros [H|[H|[]]]; auto. right. subst p. reflexivity.
Qed.
Lemma pure_keeps attrs k d p : In p d -> In p (pure_inherit attrs d k).
Proof.
  unfold pure_inherit, assign. destruct (lookup d k); [auto|]. destruct (lookup attrs k); [|auto].
  rewrite in_app_iff. auto.
Qed.
Lemma fold_keys attrs ks : forall d p,
  In p (fold_left (pure_inherit attrs) ks d) -> In p d \/ In (fst p) ks.
Proof.
  induction ks as [|k ks IH]; simpl; intros d p H; [auto|].
  apply IH in H. destruct H as [H|H]; [|auto]. apply pure_keys in H. destruct H; auto.
Qed.
Lemma fold_keeps attrs ks : forall d p, In p d -> In p (fold_left (pure_inherit attrs) ks d).
Proof. induction ks as [|k ks IH]; simpl; intros d p H; auto using pure_keeps. Qed.

(** the whole of predict, without the memory *)
Lemma predict_pure e X m ws : valid e m -> weights_ e = Some ws ->
  fst (predict e X m) =
    match ws with
    | Many ws =>
        bind (sequence (map (fun i =>
                make X (VArr (nth i ws []))
                  (VStr ("ptf" ++ decimal i ++ " - " ++ show (chosen_name e m))) (inherited_dict e m))
                (seq 0 (length ws))))
          (fun ps => Ok (Several ps))
    | One w => bind (make X (VArr w) (chosen_name e m) (inherited_dict e m)) (fun p => Ok (Single p))
    end
  /\ (forall b, (b < length m)%nat -> read (snd (predict e X m)) b = read m b)
  /\ (length m <= length (snd (predict e X m)))%nat.
Proof.
  intros V W. unfold predict. rewrite W.
  set (d := user e m).
  assert (A : (match portfolio_params e with None => alloc m [] | Some p => alloc m (read m p) end)
              = (length m, m ++ [d])%list).
  { unfold d, user, alloc, read. destruct (portfolio_params e); reflexivity. }
  rewrite A. clear A. cbv beta iota zeta.
  set (a := length m). set (m0 := (m ++ [d])%list).
  assert (La : (a < length m0)%nat) by (unfold a, m0; rewrite app_length; simpl; lia).
  assert (Ra : read m0 a = d).
  { unfold read, m0, a. rewrite app_nth2, Nat.sub_diag; [reflexivity|lia]. }
  destruct (inherit_fold e a inherited m0 La) as (F & L & O).
  set (m1 := fold_left (inherit e a) inherited m0) in *.
  assert (La1 : (a < length m1)%nat) by (rewrite L; exact La).
  rewrite read_write by exact La1. rewrite F, Ra.
  assert (N : given (fold_left (pure_inherit (attributes e)) inherited d) "name" (VStr (class_name e))
              = chosen_name e m).
  { unfold given, chosen_name, d. rewrite fold_name. unfold first. reflexivity. }
  rewrite N. fold d. unfold inherited_dict. fold d.
  split; [reflexivity|]. cbn [snd].
  split.
  - intros b Hb. rewrite read_write_other by (unfold a; lia). rewrite O by (unfold a; lia).
    unfold read, m0. rewrite app_nth1 by exact Hb. reflexivity.
  - rewrite length_write, L. unfold m0. rewrite app_length. lia.
Qed.

Lemma nth_map2 f : forall a b i, (i < length a)%nat -> (i < length b)%nat ->
  nth i (vmap2 f a b) 0 = f (nth i a 0) (nth i b 0).
Proof.
  unfold vmap2. induction a as [|x a IH]; simpl; intros [|y b] i Ha Hb; simpl in *; try lia.
  destruct i; simpl; [reflexivity|]. apply IH; lia.
Qed.
Lemma length_map2 f a b : length (vmap2 f a b) = Nat.min (length a) (length b).
Proof. unfold vmap2. rewrite map_length, combine_length. reflexivity. Qed.
Lemma rsum_total l n : length l = n -> rsum l = total n (fun i => nth i l 0).
Proof.
  unfold total. revert n; induction l as [|x l IH]; simpl; intros n <-; [reflexivity|].
  cbn [seq]. rewrite so_cons, <- seq_shift, so_map. rewrite (IH (length l) eq_refl). reflexivity.
Qed.
Lemma total_ext n f g : (forall i, (i < n)%nat -> f i = g i) -> total n f = total n g.
Proof. intros H. apply so_ext. intros i Hi. apply in_seq in Hi. apply H. lia. Qed.

Lemma to_array_ok X v l : table X -> to_array X v = Ok l ->
  per_asset X v /\ length l = width X /\ forall i, (i < width X)%nat -> nth i l 0 = number X v i.
Proof.
  intros [T1 T2]. unfold to_array, per_asset, number.
  destruct v as [|x|l'|d|s]; simpl; try discriminate.
  - destruct (Nat.eqb_spec (length l') (width X)) as [E|E]; [|discriminate].
    intros [= <-]. auto.
  - destruct (columns X) as [names|] eqn:C; simpl; [|discriminate].
    rewrite map_length. destruct (Nat.eqb_spec (length names) (width X)) as [E|E]; [|discriminate].
    intros [= <-]. rewrite map_length. split; [congruence|]. split; [exact E|].
    intros i Hi.
    set (f := fun a => match lookup d a with Some x => x | None => 0 end).
    rewrite (nth_indep _ 0 (f "")) by (rewrite map_length; lia).
    rewrite map_nth. reflexivity.
Qed.
Lemma to_array_accepts X v : table X -> per_asset X v -> exists l, to_array X v = Ok l.
Proof.
  intros [T1 T2]. unfold to_array, per_asset. destruct v as [|x|l'|d|s]; simpl; try tauto.
  - intros E. rewrite (proj2 (Nat.eqb_eq _ _) E). eauto.
  - destruct (columns X) as [names|] eqn:C; simpl; [|tauto]. intros _.
    rewrite map_length, (T2 _ eq_refl), Nat.eqb_refl. eauto.
Qed.

Lemma previous_ok X v l : table X -> previous_of X v = Ok l ->
  (v = VNone \/ per_asset X v) /\ length l = width X
  /\ forall i, (i < width X)%nat -> nth i l 0 = number X v i.
Proof.
  intros T. unfold previous_of. destruct v; try (intros H; apply (to_array_ok _ _ _ T) in H; tauto).
  intros [= <-]. split; [auto|]. split; [apply repeat_length|]. intros i Hi.
  simpl. clear. revert i; induction (width X) as [|n IH]; intros [|i]; simpl; auto.
Qed.
Lemma previous_accepts X v : table X -> (v = VNone \/ per_asset X v) -> exists l, previous_of X v = Ok l.
Proof.
  intros T [->|H]; [simpl; eauto|]. unfold previous_of. destruct v; try exact (to_array_accepts _ _ T H).
  eauto.
Qed.

Lemma charge_ok X v c vec r : table X -> cost_of X v = Ok c -> length vec = width X -> charge c vec = Ok r ->
  (v = VNone \/ (exists x, v = VNum x) \/ per_asset X v)
  /\ r = total (width X) (fun i => number X v i * nth i vec 0).
Proof.
  intros T. unfold cost_of. destruct v as [|x|l'|d|s].
  - intros [= <-] L. simpl. destruct (Req_EM_T 0 0); [|congruence]. intros [= <-]. split; [auto|].
    unfold total. rewrite so_zero; [reflexivity|]. intros; simpl; ring.
  - intros [= <-] L. simpl. destruct (Req_EM_T x 0) as [->|N]; intros [= <-]; (split; [eauto|]).
    + unfold total. rewrite so_zero; [reflexivity|]. intros; simpl; ring.
    + rewrite (rsum_total _ (width X)) by (rewrite map_length; exact L).
      apply total_ext. intros i Hi. rewrite (nth_indep _ 0 (x * 0)) by (rewrite map_length; lia).
      rewrite map_nth. reflexivity.
  - destruct (to_array X (VArr l')) as [l|] eqn:A; simpl; [|discriminate].
    intros [= <-] L. simpl. intros [= <-]. destruct (to_array_ok _ _ _ T A) as (P & E & N).
    split; [auto|]. rewrite (rsum_total _ (width X)) by (rewrite length_map2; lia).
    apply total_ext. intros i Hi. rewrite nth_map2 by lia. rewrite N by exact Hi. reflexivity.
  - destruct (to_array X (VDict d)) as [l|] eqn:A; simpl; [|discriminate].
    intros [= <-] L. simpl. intros [= <-]. destruct (to_array_ok _ _ _ T A) as (P & E & N).
    split; [auto|]. rewrite (rsum_total _ (width X)) by (rewrite length_map2; lia).
    apply total_ext. intros i Hi. rewrite nth_map2 by lia. rewrite N by exact Hi. reflexivity.
  - intros [= <-] _. discriminate.
Qed.
Lemma cost_accepts X v : table X -> (v = VNone \/ (exists x, v = VNum x) \/ per_asset X v) ->
  exists c, cost_of X v = Ok c /\ forall vec, exists r, charge c vec = Ok r.
Proof.
  intros T [->|[[x ->]|H]].
  - exists (VNum 0). split; [reflexivity|]. intros vec. simpl. destruct (Req_EM_T 0 0); eauto.
  - exists (VNum x). split; [reflexivity|]. intros vec. simpl. destruct (Req_EM_T x 0); eauto.
  - destruct (to_array_accepts X v T H) as [l E]. destruct v as [|x|l'|d|s]; try (simpl in H; tauto);
    exists (VArr l); unfold cost_of; rewrite E; split; try reflexivity; intros vec; simpl; eauto.
Qed.

Lemma given_setting e m k default : In k ["transaction_costs"; "management_fees"; "previous_weights"; "risk_free_rate"] ->
  given (inherited_dict e m) k default = setting e m k default.
Proof.
  intros H. unfold given. rewrite inherited_lookup.
  assert (E : String.eqb k "name" = false) by (simpl in H; intuition; subst; reflexivity).
  assert (F : existsb (String.eqb k) inherited = true).
  { apply existsb_exists. exists k. split; [exact H|apply String.eqb_refl]. }
  rewrite E, F. unfold setting, first. destruct (lookup (user e m) k); reflexivity.
Qed.

Lemma keys_tests e m :
  (forallb (fun p => existsb (String.eqb (fst p)) parameters) (inherited_dict e m) = true
   <-> forall k v, In (k, v) (user e m) -> documented k)
  /\ existsb (fun p => String.eqb (fst p) "name") (inherited_dict e m) = false.
Proof.
  split.
  - rewrite forallb_forall. split.
    + intros H k v Hin. destruct (string_dec k "name") as [->|N].
      { unfold documented. simpl. tauto. }
      assert (In (k, v) (inherited_dict e m)) as Hi.
      { unfold inherited_dict, remove. rewrite filter_In. split; [apply fold_keeps; exact Hin|].
        simpl. apply String.eqb_neq in N. rewrite N. reflexivity. }
      apply H in Hi. simpl fst in Hi. apply existsb_exists in Hi. destruct Hi as (k' & I & E).
      apply String.eqb_eq in E. subst k'. exact I.
    + intros H [k v] Hi. unfold inherited_dict, remove in Hi. rewrite filter_In in Hi.
      destruct Hi as [Hi _]. apply fold_keys in Hi. simpl fst in *.
      apply existsb_exists. exists k. split; [|apply String.eqb_refl].
      destruct Hi as [Hi|Hi]; [exact (H _ _ Hi)|].
      unfold inherited in Hi. unfold parameters. simpl in *. tauto.
  - destruct (existsb _ _) eqn:E; [|reflexivity]. apply existsb_exists in E.
    destruct E as ([k v] & Hi & E). unfold inherited_dict, remove in Hi. rewrite filter_In in Hi.
    destruct Hi as [_ Hi]. simpl in *. rewrite E in Hi. discriminate.
Qed.

Lemma make_spec e m X w nm p : table X ->
  make X (VArr w) nm (inherited_dict e m) = Ok p -> acceptable e m X w /\ evaluates e m X w nm p.
Proof.
  intros T. destruct (keys_tests e m) as [K N]. unfold make. rewrite N.
  destruct (forallb _ _) eqn:F; [|discriminate]. cbn [negb].
  rewrite !given_setting by (simpl; tauto).
  set (vp := setting e m "previous_weights" VNone). set (vt := setting e m "transaction_costs" VNone).
  set (vf := setting e m "management_fees" VNone).
  destruct (to_array X (VArr w)) as [w'|] eqn:A; cbn [bind]; [|discriminate].
  assert (w' = w) as ->.
  { unfold to_array in A. simpl in A. destruct (length w =? width X)%nat; congruence. }
  destruct (previous_of X vp) as [prev|] eqn:B; cbn [bind]; [|discriminate].
  destruct (cost_of X vt) as [tc|] eqn:C; cbn [bind]; [|discriminate].
  destruct (cost_of X vf) as [mf|] eqn:D; cbn [bind]; [|discriminate].
  destruct (charge tc _) as [total_cost|] eqn:G; cbn [bind]; [|discriminate].
  destruct (charge mf w) as [total_fee|] eqn:H; cbn [bind]; [|discriminate].
  intros [= <-].
  destruct (to_array_ok _ _ _ T A) as (A1 & A2 & A3).
  destruct (previous_ok _ _ _ T B) as (B1 & B2 & B3).
  assert (Lv : length (map Rabs (vmap2 Rminus prev w)) = width X).
  { rewrite map_length, length_map2. lia. }
  destruct (charge_ok _ _ _ _ _ T C Lv G) as (C1 & C2).
  destruct (charge_ok _ _ _ _ _ T D A2 H) as (D1 & D2).
  split.
  - split; [apply K; reflexivity|]. split; [exact A2|]. split; [exact B1|].
    intros k [->| ->]; assumption.
  - unfold evaluates. cbn [weights returns previous_weights risk_free_rate name rest].
    split; [reflexivity|]. split.
    { apply map_ext_in. intros row Hr. unfold net_return. fold vt vf vp.
      rewrite C2, D2. f_equal. f_equal.
      - rewrite (rsum_total _ (width X)) by (rewrite length_map2, (proj1 T _ Hr); lia).
        apply total_ext. intros i Hi. rewrite nth_map2; [reflexivity|lia|rewrite (proj1 T _ Hr); lia].
      - apply total_ext. intros i Hi. f_equal.
        rewrite (nth_indep _ 0 (Rabs 0)) by lia. rewrite map_nth. f_equal.
        rewrite nth_map2 by lia. rewrite B3 by exact Hi. reflexivity. }
    split; [exact B2|]. split; [exact B3|]. split; [reflexivity|]. split; [reflexivity|].
    intros k Hk.
    rewrite (lookup_filter _ (fun x => negb (existsb (String.eqb x)
       ["previous_weights"; "transaction_costs"; "management_fees"; "risk_free_rate"]))).
    assert (E : forall k', In k' ["previous_weights"; "transaction_costs"; "management_fees"; "risk_free_rate"; "name"] ->
                String.eqb k k' = false).
    { intros k' Hk'. apply String.eqb_neq. intros ->. exact (Hk Hk'). }
    rewrite inherited_lookup. unfold inherited. cbn [existsb].
    rewrite !E by (simpl; tauto). cbn [orb negb].
    destruct (lookup (user e m) k); reflexivity.
Qed.
Lemma make_accepts e m X w nm : table X -> acceptable e m X w ->
  exists p, make X (VArr w) nm (inherited_dict e m) = Ok p.
Proof.
  intros T (Hk & Hw & Hp & Hc). destruct (keys_tests e m) as [K N]. unfold make.
  rewrite (proj2 K Hk), N. cbn [negb]. rewrite !given_setting by (simpl; tauto).
  destruct (to_array_accepts X (VArr w) T Hw) as [w' ->]. cbn [bind].
  destruct (previous_accepts _ _ T Hp) as [prev ->]. cbn [bind].
  destruct (cost_accepts _ _ T (Hc _ (or_introl eq_refl))) as (tc & -> & Ht). cbn [bind].
  destruct (cost_accepts _ _ T (Hc _ (or_intror eq_refl))) as (mf & -> & Hf). cbn [bind].
  destruct (Ht (map Rabs (vmap2 Rminus prev w'))) as [x ->]. destruct (Hf w') as [y ->]. cbn [bind]. eauto.
Qed.

Lemma sequence_ok {A} (l : list (result A)) r : sequence l = Ok r -> l = map Ok r.
Proof.
  revert r; induction l as [|x l IH]; simpl; intros r; [intros [= <-]; reflexivity|].
  destruct x as [a|]; simpl; [|discriminate]. destruct (sequence l) as [t|]; simpl; [|discriminate].
  intros [= <-]. simpl. rewrite (IH t eq_refl). reflexivity.
Qed.
Lemma sequence_all {A} (l : list (result A)) : (forall x, In x l -> exists a, x = Ok a) -> exists r, sequence l = Ok r.
Proof.
  induction l as [|x l IH]; simpl; intros H; [eauto|].
  destruct (H x (or_introl eq_refl)) as [a ->]. simpl.
  destruct IH as [r ->]; [intros; apply H; auto|]. simpl. eauto.
Qed.
Lemma sequence_map {A} (l : list A) : sequence (map Ok l) = Ok l.
Proof. induction l as [|x l IH]; simpl; [reflexivity|]. rewrite IH. reflexivity. Qed.

(** ** Theorems *)

(** One vector of weights: predict returns one portfolio, exactly when the data and settings are
    acceptable, and it is the net performance of those weights. *)
Theorem C66_portfolio : forall e m X w,
  valid e m -> table X -> weights_ e = Some (One w) ->
  ((exists p, fst (predict e X m) = Ok (Single p)) <-> acceptable e m X w) /\
  (forall r, fst (predict e X m) = Ok r ->
     exists p, r = Single p /\ evaluates e m X w (chosen_name e m) p).
Proof.
  intros e m X w V T W. rewrite (proj1 (predict_pure e X m _ V W)). split.
  - split.
    + intros [p H]. destruct (make _ _ _ _) as [q|] eqn:M; simpl in H; [|discriminate].
      exact (proj1 (make_spec _ _ _ _ _ _ T M)).
    + intros A. destruct (make_accepts _ _ _ _ (chosen_name e m) T A) as [p ->]. simpl. eauto.
  - intros r H. destruct (make _ _ _ _) as [q|] eqn:M; simpl in H; [|discriminate].
    injection H as <-. exists q. split; [reflexivity|]. exact (proj2 (make_spec _ _ _ _ _ _ T M)).
Qed.
Print Assumptions C66_portfolio.

(** Several vectors: a population with one portfolio per row, in order, named by its position. *)
Theorem C66_population : forall e m X ws,
  valid e m -> table X -> weights_ e = Some (Many ws) ->
  ((exists ps, fst (predict e X m) = Ok (Several ps)) <-> forall w, In w ws -> acceptable e m X w) /\
  (forall r, fst (predict e X m) = Ok r ->
     exists ps, r = Several ps /\ length ps = length ws /\
     forall i p, nth_error ps i = Some p ->
       evaluates e m X (nth i ws [])
         (VStr ("ptf" ++ decimal i ++ " - " ++ show (chosen_name e m))) p).
Proof.
  intros e m X ws V T W. rewrite (proj1 (predict_pure e X m _ V W)).
  set (f := fun i => make X (VArr (nth i ws [])) (VStr ("ptf" ++ decimal i ++ " - " ++ show (chosen_name e m))) (inherited_dict e m)).
  split.
  - split.
    + intros [ps H] w Hw. destruct (sequence (map f _)) as [l|] eqn:S; simpl in H; [|discriminate].
      apply sequence_ok in S. destruct (In_nth ws w [] Hw) as (i & Hi & <-).
      assert (Hf : In (f i) (map Ok l)) by (rewrite <- S; apply in_map, in_seq; lia).
      apply in_map_iff in Hf. destruct Hf as (p & Hp & _). symmetry in Hp.
      exact (proj1 (make_spec _ _ _ _ _ _ T Hp)).
    + intros A. destruct (sequence_all (map f (seq 0 (length ws)))) as [l ->]; [|simpl; eauto].
      intros x Hx. apply in_map_iff in Hx. destruct Hx as (i & <- & Hi). apply in_seq in Hi.
      apply make_accepts; [exact T|]. apply A, nth_In. lia.
  - intros r H. destruct (sequence (map f _)) as [l|] eqn:S; simpl in H; [|discriminate].
    injection H as <-. apply sequence_ok in S. exists l. split; [reflexivity|].
    assert (L : length l = length ws).
    { apply (f_equal (@length _)) in S. rewrite !map_length, seq_length in S. auto. }
    split; [exact L|]. intros i p Hp.
    assert (Hi : (i < length l)%nat) by (apply nth_error_Some; congruence).
    assert (E : nth_error (map f (seq 0 (length ws))) i = Some (f i)).
    { rewrite nth_error_map, (nth_error_nth' _ 0%nat) by (rewrite seq_length; lia).
      rewrite seq_nth by lia. reflexivity. }
    rewrite S, nth_error_map, Hp in E. simpl in E. injection E as E. symmetry in E.
    exact (proj2 (make_spec _ _ _ _ _ _ T E)).
Qed.
Print Assumptions C66_population.

(** Nothing the user holds is changed, so predicting (or scoring) again gives the same answer. *)
Theorem C66_no_side_effect : forall e m X Y,
  valid e m ->
  (forall a, (a < length m)%nat -> nth a (snd (predict e X m)) [] = nth a m []) /\
  fst (predict e Y (snd (predict e X m))) = fst (predict e Y m) /\
  fst (score e Y (snd (score e X m))) = fst (score e Y m).
Proof.
  intros e m X Y V.
  assert (S : forall Z m', snd (score e Z m') = snd (predict e Z m')).
  { intros Z m'. unfold score. destruct (predict e Z m'); reflexivity. }
  destruct (weights_ e) as [ws|] eqn:W.
  2: { assert (P : forall Z m', predict e Z m' = (Err NotFitted, m')) by (intros; unfold predict; rewrite W; reflexivity).
       rewrite S, !P. simpl. split; [auto|]. split; reflexivity. }
  destruct (predict_pure e X m ws V W) as (_ & A & L).
  assert (V' : valid e (snd (predict e X m))).
  { unfold valid in *. destruct (portfolio_params e); [lia|exact I]. }
  assert (U : user e (snd (predict e X m)) = user e m).
  { unfold user. unfold valid in V. destruct (portfolio_params e) as [a|]; [|reflexivity]. exact (A a V). }
  assert (P : fst (predict e Y (snd (predict e X m))) = fst (predict e Y m)).
  { rewrite (proj1 (predict_pure e Y _ ws V' W)), (proj1 (predict_pure e Y m ws V W)).
    unfold chosen_name, inherited_dict. rewrite U. reflexivity. }
  split; [exact A|]. split; [exact P|]. rewrite S. unfold score.
  destruct (predict e Y (snd (predict e X m))) as [r1 m1], (predict e Y m) as [r2 m2].
  simpl in *. rewrite P. reflexivity.
Qed.
Print Assumptions C66_no_side_effect.

(** The score: the Sharpe ratio of the predicted portfolio, or the average of the population's. *)
Definition sharpe (r : list R) (rf : R) : R :=
  let n := INR (length r) in
  let mu := rsum r / n in
  (mu - rf) / sqrt (sum_over r (fun x => (x - mu) ^ 2) / (n - 1)).

Theorem C66_score : forall e m X rf,
  setting e m "risk_free_rate" (VNum 0) = VNum rf -> valid e m -> table X ->
  (forall w, weights_ e = Some (One w) -> acceptable e m X w ->
     fst (score e X m) = Ok (sharpe (map (net_return e m X w) (rows X)) rf)) /\
  (forall ws, weights_ e = Some (Many ws) -> (forall w, In w ws -> acceptable e m X w) ->
     fst (score e X m) =
       Ok (sum_over ws (fun w => sharpe (map (net_return e m X w) (rows X)) rf) / INR (length ws))).
Proof.
  intros e m X rf Hrf V T. split.
  - intros w W A. destruct (C66_portfolio e m X w V T W) as [[_ P] Q].
    destruct (P A) as [p Hp]. destruct (Q _ Hp) as (p' & [= <-] & E).
    unfold score. destruct (predict e X m) as [r m']. simpl in Hp. subst r. cbn [fst bind].
    unfold sharpe_ratio. destruct E as (_ & E1 & _ & _ & E2 & _). rewrite E2, Hrf, E1. reflexivity.
  - intros ws W A. destruct (C66_population e m X ws V T W) as [[_ P] Q].
    destruct (P A) as [ps Hp]. destruct (Q _ Hp) as (ps' & [= <-] & L & E).
    unfold score. destruct (predict e X m) as [r m']. simpl in Hp. subst r. cbn [fst bind].
    assert (M : map sharpe_ratio ps = map Ok (map (fun w => sharpe (map (net_return e m X w) (rows X)) rf) ws)).
    { rewrite map_map. apply (nth_ext _ _ (Err TypeError) (Err TypeError)); [rewrite !map_length; exact L|].
      intros i Hi. rewrite map_length in Hi.
      destruct (nth_error ps i) as [p|] eqn:Np; [|apply nth_error_None in Np; lia].
      specialize (E i p Np).
      assert (Nw : nth_error ws i = Some (nth i ws [])) by (apply nth_error_nth'; lia).
      rewrite (nth_error_nth (map sharpe_ratio ps) i (Err TypeError) (x := sharpe_ratio p))
        by (rewrite nth_error_map, Np; reflexivity).
      rewrite (nth_error_nth (map _ ws) i (Err TypeError) (x := Ok (sharpe (map (net_return e m X (nth i ws [])) (rows X)) rf)))
        by (rewrite nth_error_map, Nw; reflexivity).
      unfold sharpe_ratio. destruct E as (_ & E1 & _ & _ & E2 & _). rewrite E2, Hrf, E1. reflexivity. }
    rewrite M, sequence_map. cbn [bind]. unfold mean, len. rewrite map_length. reflexivity.
Qed.
Print Assumptions C66_score.

(** Before fit nothing is predicted. *)
Theorem C66_not_fitted : forall e m X, weights_ e = None ->
  predict e X m = (Err NotFitted, m) /\ score e X m = (Err NotFitted, m).
Proof. intros e m X H. unfold score, predict. rewrite H. auto. Qed.
Print Assumptions C66_not_fitted.

(** ** Non-vacuity: an estimator with costs by name, the user overriding the fees *)
Definition demo_data : frame :=
  {| columns := Some ["a"; "b"]; rows := [[1; 2]; [3; 5]]; width := 2 |}.
Definition demo : estimator :=
  {| class_name := "MeanRisk";
     attributes := [("transaction_costs", VDict [("b", 1)]); ("management_fees", VNum 7);
                    ("previous_weights", VArr [1; 0]); ("risk_free_rate", VNum (1/2))];
     portfolio_params := Some 0%nat;
     weights_ := Some (Many [[1/2; 1/2]; [0; 1]]) |}.
Definition demo_memory : memory := [[("management_fees", VNone); ("tag", VStr "x"); ("name", VStr "me")]].

Example C66_hypotheses_met :
  valid demo demo_memory /\ table demo_data /\
  (forall w, In w [[1/2; 1/2]; [0; 1]] -> acceptable demo demo_memory demo_data w) /\
  setting demo demo_memory "risk_free_rate" (VNum 0) = VNum (1/2) /\
  net_return demo demo_memory demo_data [1/2; 1/2] [3; 5] = 7/2.
Proof.
  split; [simpl; unfold valid; simpl; lia|]. split.
  { split; [intros row [<-|[<-|[]]]; reflexivity|]. intros names [= <-]. reflexivity. }
  split.
  { intros w Hw. split.
    { intros k v [[= <- <-]|[[= <- <-]|[[= <- <-]|[]]]]; unfold documented; simpl; tauto. }
    split; [destruct Hw as [<-|[<-|[]]]; reflexivity|]. split; [right; reflexivity|].
    intros k [->| ->]; [right; right; simpl; discriminate|left; reflexivity]. }
  split; [reflexivity|].
  unfold net_return, total, sum_over. simpl.
  replace (1 - 1/2) with (1/2) by lra. replace (0 - 1/2) with (-(1/2)) by lra.
  rewrite Rabs_Ropp, Rabs_pos_eq by lra. lra.
Qed.
