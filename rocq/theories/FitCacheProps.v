(** C38: fit solves the same problem whatever was fitted before. *)
From Coq Require Import List Arith Bool Lia Reals Lra.
From Verif Require Import RiskModel MeanRiskModel FitCacheModel ConvexModel ConvexProps.
Import ListNotations.

(** * Specification *)
Definition no_drawdown (c : config) : Prop := forall rm, In rm (measures c) -> ~ In rm [MAX_DRAWDOWN; AVERAGE_DRAWDOWN; CDAR; EDAR; ULCER_INDEX].
Definition failed (o : outcome) : Prop := o <> Succeeds.
(** every failed fit since the last successful one was without drawdown measures *)
Fixpoint recent_failures_without_drawdown (h : list (config * outcome)) : Prop :=   (* h: latest fit first *)
  match h with
  | [] => True
  | (_, Succeeds) :: _ => True
  | (c, Raises _) :: h => no_drawdown c /\ recent_failures_without_drawdown h
  end.

(** * Proofs *)
Definition older (k : nat) (c : cache_t) : Prop := forall m args e, In ((m, args), e) c -> forall i, In i args -> (i < k)%nat.
Lemma method_eqb_spec a b : method_eqb a b = true <-> a = b. Proof. destruct a, b; cbn; split; congruence. Qed.
Lemma ids_eqb_spec a b : ids_eqb a b = true <-> a = b.
Proof.
  revert b. induction a as [|x a IH]; intros [|y b]; cbn; try (split; congruence). rewrite andb_true_iff, Nat.eqb_eq, IH. split; [intros [-> ->]; auto|intros H; inversion H; auto].
Qed.
Lemma lookup_in m args c e : lookup m args c = Some e -> In ((m, args), e) c.
Proof.
  induction c as [|[[m' a'] e'] c IH]; cbn; [discriminate|]. destruct (method_eqb m m' && ids_eqb args a') eqn:E; [|auto]. apply andb_true_iff in E as [E1 E2]. apply method_eqb_spec in E1. apply ids_eqb_spec in E2. intros H. inversion H. subst. auto.
Qed.
Lemma lookup_app m args a b : lookup m args (a ++ b) = match lookup m args a with Some e => Some e | None => lookup m args b end.
Proof. induction a as [|[[m' a'] e'] a IH]; cbn; auto. destruct (_ && _); auto. Qed.
(** running on a cache extended with old entries gives the same result *)
Section Sim.
  Variable old : cache_t.
  Variable k : nat.
  Hypothesis Hold : older k old.
  Hypothesis Hnd : has_name Drawdown old = false.
  Definition sim {A} (a : M A) : Prop := forall new nx,
    let (x, s) := a {| cache := new; next := nx |} in a {| cache := new ++ old; next := nx |} = (x, {| cache := cache s ++ old; next := next s |}).
  Lemma sim_ret {A} (x : A) : sim (ret x). Proof. intros new nx. reflexivity. Qed.
  Lemma sim_fresh : sim fresh. Proof. intros new nx. reflexivity. Qed.
  Lemma sim_bind {A B} (a : M A) (b : A -> M B) : sim a -> (forall x, sim (b x)) -> sim (bind a b).
  Proof. intros Ha Hb new nx. unfold bind. specialize (Ha new nx). destruct (a {| cache := new; next := nx |}) as [x [c n]]. rewrite Ha. cbn [cache next]. specialize (Hb x c n). destruct (b x {| cache := c; next := n |}) as [y s]. exact Hb. Qed.
  Lemma sim_cached m args w body : In w args -> (k <= w)%nat -> sim body -> sim (cached m args body).
  Proof.
    intros Hw Hk Hb new nx. unfold cached. cbn [cache]. rewrite lookup_app.
    assert (L: lookup m args old = None). { destruct (lookup m args old) eqn:E; auto. apply lookup_in in E. pose proof (Hold _ _ _ E _ Hw). lia. }
    rewrite L. destruct (lookup m args new); [reflexivity|]. specialize (Hb new nx). destruct (body {| cache := new; next := nx |}) as [e s]. rewrite Hb. reflexivity.
  Qed.
  Section Objects.
    Variables pm w f : nat.
    Hypothesis Hw : (k <= w)%nat.
    Lemma sim_simple p m args : In w args -> sim (simple p m args).
    Proof. intros H. apply (sim_cached m args w); auto. apply sim_ret. Qed.
    Ltac s := repeat (apply sim_bind; [|intros ?]); try apply sim_ret; try apply sim_fresh; try (apply sim_simple; cbn; tauto).
    Lemma sim_inner p : sim (cvx_drawdown_inner p pm w f).
    Proof. apply (sim_cached _ _ w); auto; [cbn; tauto|]. s. Qed.
    Lemma sim_drawdown p : sim (cvx_drawdown p pm w f).
    Proof.
      intros new nx. unfold cvx_drawdown. cbn [cache]. unfold has_name. rewrite existsb_app. fold (has_name Drawdown old). fold (has_name Drawdown new). rewrite Hnd, orb_false_r.
      pose proof (sim_inner p new nx) as H. destruct (has_name Drawdown new); destruct (cvx_drawdown_inner p pm w f {| cache := new; next := nx |}) as [e s']; rewrite H; reflexivity.
    Qed.
    Lemma sim_risk p rm : sim (risk_items p pm w f rm).
    Proof. destruct rm; cbn; s; apply sim_drawdown. Qed.
    Lemma sim_actions c u : Forall (fun a => sim a) (actions c pm w f u).
    Proof.
      unfold actions. apply Forall_app. split.
      - repeat apply Forall_cons; try apply Forall_nil; try destruct (with_mu_uncertainty c); try destruct (with_tracking_error c); try destruct (with_turnover c); s.
      - apply Forall_map, Forall_forall. intros rm _. apply sim_risk.
    Qed.
  End Objects.
  Lemma sim_run l : Forall (fun a => sim a) l -> sim (run l).
  Proof. induction 1; cbn; [apply sim_ret|]. apply sim_bind; auto. intros x0. apply sim_bind; auto. intros; apply sim_ret. Qed.
End Sim.
(** all that is cached is about objects created before *)
Definition bounded (s : state) : Prop := older (next s) (cache s).
Definition inv (k0 : nat) (dd : bool) (s s' : state) : Prop :=
  (next s <= next s')%nat /\ ((k0 <= next s)%nat -> older (next s) (cache s) -> older (next s') (cache s')) /\ (dd = false -> has_name Drawdown (cache s') = has_name Drawdown (cache s)).
Definition pres {A} (k0 : nat) (dd : bool) (a : M A) : Prop := forall s, inv k0 dd s (snd (a s)).
Lemma inv_refl k dd s : inv k dd s s. Proof. repeat split; auto. Qed.
Lemma inv_trans k dd a b c : inv k dd a b -> inv k dd b c -> inv k dd a c.
Proof. intros (A1&A2&A3) (B1&B2&B3). split; [lia|]. split; [intros H1 H2; apply B2; [lia|auto]|]. intros E. rewrite B3, A3; auto. Qed.
Lemma pres_ret {A} k dd (x : A) : pres k dd (ret x). Proof. intros s. apply inv_refl. Qed.
Lemma older_mono k k' c : (k <= k')%nat -> older k c -> older k' c. Proof. intros H O m args e Hin i Hi. specialize (O m args e Hin i Hi). lia. Qed.
Lemma pres_fresh k dd : pres k dd fresh. Proof. intros s. split; [cbn; lia|]. split; auto. intros _ H. cbn. apply older_mono with (next s); auto. Qed.
Lemma pres_bind {A B} k dd (a : M A) (b : A -> M B) : pres k dd a -> (forall x, pres k dd (b x)) -> pres k dd (bind a b).
Proof. intros Ha Hb s. unfold bind. specialize (Ha s). destruct (a s) as [x s']. eapply inv_trans; [exact Ha|apply Hb]. Qed.
Lemma pres_cached k dd m args body : (forall i, In i args -> (i < k)%nat) -> (dd = false -> m <> Drawdown) -> pres k dd body -> pres k dd (cached m args body).
Proof.
  intros Hargs Hm Hb s. unfold cached. destruct (lookup m args (cache s)); [apply inv_refl|]. specialize (Hb s). destruct (body s) as [e s'] eqn:E. destruct Hb as (B1&B2&B3). cbn [snd] in *. split; [exact B1|]. cbn [cache next]. split.
  - intros H1 H2. specialize (B2 H1 H2). intros m' a' e' [Hin|Hin] i Hi; [inversion Hin; subst; specialize (Hargs i Hi); lia|]. exact (B2 m' a' e' Hin i Hi).
  - intros Hd. cbn [has_name existsb fst]. fold (has_name Drawdown (cache s')). rewrite B3 by auto. specialize (Hm Hd). destruct m; cbn; auto. congruence.
Qed.
Section PresObjects.
  Variables (k : nat) (dd : bool) (pm w f u : nat).
  Hypothesis H1 : (pm < k)%nat. Hypothesis H2 : (w < k)%nat. Hypothesis H3 : (f < k)%nat. Hypothesis H4 : (u < k)%nat.
  Lemma pres_simple p m args : (forall i, In i args -> i = pm \/ i = w \/ i = f \/ i = u) -> (dd = false -> m <> Drawdown) -> pres k dd (simple p m args).
  Proof. intros Ha Hm. apply pres_cached; auto; [|apply pres_ret]. intros i Hi. destruct (Ha i Hi) as [->|[->|[->| ->]]]; auto. Qed.
  Ltac s := repeat (apply pres_bind; [|intros ?]); try apply pres_ret; try apply pres_fresh; try (apply pres_simple; [intros ? Hin; cbn in Hin; intuition|discriminate]).
  Lemma pres_drawdown p : dd = true -> pres k dd (cvx_drawdown p pm w f).
  Proof.
    intros Hd. assert (I: pres k dd (cvx_drawdown_inner p pm w f)). { apply pres_cached; [intros i Hi; cbn in Hi; intuition; subst; auto|congruence|s]. }
    intros st. unfold cvx_drawdown. specialize (I st). destruct (has_name Drawdown (cache st)); destruct (cvx_drawdown_inner p pm w f st) as [e s']; exact I.
  Qed.
  Lemma pres_risk p rm : (dd = false -> is_drawdown rm = false) -> pres k dd (risk_items p pm w f rm).
  Proof. intros Hd. destruct rm; cbn in *; s; apply pres_drawdown; destruct dd; auto; discriminate (Hd eq_refl). Qed.
  Lemma pres_actions c : (dd = false -> no_drawdown c) -> Forall (fun a => pres k dd a) (actions c pm w f u).
  Proof.
    intros Hd. unfold actions. apply Forall_app. split.
    - repeat apply Forall_cons; try apply Forall_nil; try destruct (with_mu_uncertainty c); try destruct (with_tracking_error c); try destruct (with_turnover c); s.
    - apply Forall_map, Forall_forall. intros rm Hrm. apply pres_risk. intros E. specialize (Hd E rm Hrm). destruct rm; cbn in *; tauto.
  Qed.
End PresObjects.
Lemma pres_run k dd l : Forall (fun a => pres k dd a) l -> pres k dd (run l).
Proof. induction 1; cbn; [apply pres_ret|]. apply pres_bind; auto. intros x0. apply pres_bind; auto. intros; apply pres_ret. Qed.
Lemma firstn_Forall {A} (P : A -> Prop) n l : Forall P l -> Forall P (firstn n l).
Proof. intros H. revert n. induction H; intros [|n]; cbn; auto. Qed.
Lemma build_keeps c upto s : bounded s -> bounded (snd (build c upto s)) /\ (no_drawdown c -> has_name Drawdown (cache (snd (build c upto s))) = has_name Drawdown (cache s)).
Proof.
  intros Hb. set (n := next s). assert (E: build c upto s = (let (l, s') := run (firstn upto (actions c n (S n) (S (S n)) (S (S (S n))))) {| cache := cache s; next := S (S (S (S n))) |} in ((S n, l), s'))) by reflexivity.
  assert (G: forall dd, (dd = false -> no_drawdown c) -> inv (S (S (S (S n)))) dd {| cache := cache s; next := S (S (S (S n))) |} (snd (build c upto s))).
  { intros dd Hd. rewrite E. pose proof (pres_run (S (S (S (S n)))) dd _ (firstn_Forall _ upto _ (pres_actions (S (S (S (S n)))) dd n (S n) (S (S n)) (S (S (S n))) ltac:(lia) ltac:(lia) ltac:(lia) ltac:(lia) c Hd)) {| cache := cache s; next := S (S (S (S n))) |}) as P.
    destruct (run _ _) as [l s']. exact P. }
  split.
  - destruct (G true ltac:(discriminate)) as (_&G2&_). apply G2; cbn [next cache]; auto. apply older_mono with n; [lia|exact Hb].
  - intros Hnd. destruct (G false (fun _ => Hnd)) as (_&_&G3). rewrite G3 by auto. reflexivity.
Qed.
Lemma after_bounded h s : bounded s -> bounded (after h s).
Proof.
  revert s. induction h as [|[c o] h IH]; intros s Hs; [exact Hs|]. cbn. apply IH. destruct o; cbn; [intros m a e []|]. apply build_keeps. exact Hs.
Qed.
Lemma after_app a b s : after (a ++ b) s = after b (after a s). Proof. apply fold_left_app. Qed.
Lemma after_no_drawdown h n : recent_failures_without_drawdown h -> has_name Drawdown (cache (after (rev h) (new_estimator n))) = false.
Proof.
  induction h as [|[c o] h IH]; intros H; [reflexivity|]. cbn [rev]. rewrite after_app. cbn [after fold_left fst snd]. destruct o as [|upto]; [reflexivity|]. destruct H as [H1 H2].
  cbn [fit]. destruct (build_keeps c upto (after (rev h) (new_estimator n))) as [_ B]; [apply after_bounded; intros m a e []|]. rewrite B by auto. apply IH. exact H2.
Qed.
Lemma build_sim c upto s : bounded s -> has_name Drawdown (cache s) = false -> fst (build c upto s) = fst (build c upto {| cache := []; next := next s |}).
Proof.
  intros Hb Hn. set (n := next s).
  assert (S1: sim (cache s) (run (firstn upto (actions c n (S n) (S (S n)) (S (S (S n))))))).
  { apply sim_run, firstn_Forall. apply (sim_actions (cache s) n Hb Hn). lia. }
  specialize (S1 [] (S (S (S (S n))))). cbn [app] in S1.
  assert (E: forall s, build c upto s = (let (l, s') := run (firstn upto (actions c (next s) (S (next s)) (S (S (next s))) (S (S (S (next s)))))) {| cache := cache s; next := S (S (S (S (next s)))) |} in ((S (next s), l), s'))) by reflexivity.
  rewrite !E. cbn [next cache]. fold n. destruct (run _ {| cache := []; next := S (S (S (S n))) |}) as [l s']. rewrite S1. reflexivity.
Qed.

(** * A drawdown measure always comes with the constraints of its drawdown variable *)
Section Present.
  Variables (p pm w f : nat).
  Definition has_constraints (acc : list item) (s : state) : Prop :=
    if has_name Drawdown (cache s)
    then exists v sub, lookup Drawdown [pm; w; f] (cache s) = Some (DrawdownVar v sub p) /\ In (DrawdownConstraints v sub p) acc
    else True.
  Definition supports (acc : list item) : Prop := forall rm vars sub q, In (OwnConstraints rm vars sub q) acc -> is_drawdown rm = true ->
    exists v dsub, sub = [DrawdownVar v dsub p] /\ In (DrawdownConstraints v dsub p) acc.
  Definition keeps (a : M (list item)) : Prop := forall acc s, has_constraints acc s -> supports acc ->
    let (x, s') := a s in has_constraints (acc ++ x) s' /\ supports (acc ++ x).
  (** the drawdown entries of the cache are not touched *)
  Definition quiet {A} (a : M A) : Prop := forall s, let (_, s') := a s in
    has_name Drawdown (cache s') = has_name Drawdown (cache s) /\ lookup Drawdown [pm; w; f] (cache s') = lookup Drawdown [pm; w; f] (cache s).
  Lemma quiet_ret {A} (x : A) : quiet (ret x). Proof. intros s. cbn. auto. Qed.
  Lemma quiet_fresh : quiet fresh. Proof. intros s. cbn. auto. Qed.
  Lemma quiet_bind {A B} (a : M A) (b : A -> M B) : quiet a -> (forall x, quiet (b x)) -> quiet (bind a b).
  Proof. intros Ha Hb s. unfold bind. specialize (Ha s). destruct (a s) as [x s1]. specialize (Hb x s1). destruct (b x s1) as [y s2]. destruct Ha, Hb. split; congruence. Qed.
  Lemma quiet_simple m args : m <> Drawdown -> quiet (simple p m args).
  Proof.
    intros Hm s. unfold simple, cached, ret. destruct (lookup m args (cache s)); [auto|]. cbn. destruct m; cbn; auto. congruence.
  Qed.
  Ltac q := repeat (apply quiet_bind; [|intros ?]); try apply quiet_ret; try apply quiet_fresh; try (apply quiet_simple; discriminate).
  Lemma has_constraints_more acc x s : has_constraints acc s -> has_constraints (acc ++ x) s.
  Proof. unfold has_constraints. destruct (has_name Drawdown (cache s)); auto. intros (v&sub&A&B). exists v, sub. split; auto. apply in_app_iff; auto. Qed.
  Lemma keeps_quiet a : quiet a -> (forall s i, In i (fst (a s)) -> match i with OwnConstraints rm _ _ _ => is_drawdown rm = false | _ => True end) -> keeps a.
  Proof.
    intros Hq Hi acc s Hc Hs. specialize (Hq s). specialize (Hi s). destruct (a s) as [x s']. cbn [fst] in Hi. destruct Hq as [Q1 Q2]. split.
    - apply has_constraints_more. unfold has_constraints in *. rewrite Q1, Q2. exact Hc.
    - intros rm vars sub q Hin Hrm. apply in_app_iff in Hin as [Hin|Hin]; [|specialize (Hi _ Hin); cbn in Hi; congruence].
      destruct (Hs _ _ _ _ Hin Hrm) as (v&ds&A&B). exists v, ds. split; auto. apply in_app_iff; auto.
  Qed.
  Lemma quiet_body : quiet (r <- cvx_returns p pm w ;; c <- cvx_cost p pm w f ;; g <- cvx_fee p pm w ;; v <- fresh ;; ret (DrawdownVar v [r; c; g] p)).
  Proof. unfold cvx_returns, cvx_cost, cvx_fee. q. Qed.
  Lemma body_var s : exists v sub, fst ((r <- cvx_returns p pm w ;; c <- cvx_cost p pm w f ;; g <- cvx_fee p pm w ;; v <- fresh ;; ret (DrawdownVar v [r; c; g] p)) s) = DrawdownVar v sub p.
  Proof. unfold bind, ret, fresh. destruct (cvx_returns p pm w s) as [r s1]. destruct (cvx_cost p pm w f s1) as [c s2]. destruct (cvx_fee p pm w s2) as [g s3]. cbn. eauto. Qed.
  Lemma no_name_lookup m args c : has_name m c = false -> lookup m args c = None.
  Proof.
    unfold has_name. induction c as [|[[m' a'] e] c IH]; cbn; auto. intros H. apply orb_false_iff in H as [H1 H2]. rewrite H1. cbn. auto.
  Qed.
  Lemma ids_refl l : ids_eqb l l = true. Proof. apply ids_eqb_spec. reflexivity. Qed.
  Lemma keeps_drawdown rm : is_drawdown rm = true ->
    keeps (d <- cvx_drawdown p pm w f ;; v <- fresh ;; ret (snd d ++ [OwnConstraints rm [v] [fst d] p])).
  Proof.
    intros Hrm acc s Hc Hs. unfold bind, cvx_drawdown, cvx_drawdown_inner, cached, has_constraints in *.
    destruct (has_name Drawdown (cache s)) eqn:En.
    - destruct Hc as (v&sub&L&Hin). rewrite L. cbn -[has_name lookup]. rewrite En. split.
      + exists v, sub. split; auto. apply in_app_iff; auto.
      + intros rm' vars sub' q Hin' Hrm'. apply in_app_iff in Hin' as [H|H].
        * destruct (Hs _ _ _ _ H Hrm') as (v'&ds&A&B). exists v', ds. split; auto. apply in_app_iff; auto.
        * destruct H as [H|[]]. inversion H; subst. exists v, sub. split; auto. apply in_app_iff; auto.
    - rewrite (no_name_lookup _ _ _ En). destruct (body_var s) as (v&sub&Ev).
      destruct ((r <- cvx_returns p pm w ;; c <- cvx_cost p pm w f ;; g <- cvx_fee p pm w ;; v <- fresh ;; ret (DrawdownVar v [r; c; g] p)) s) as [e s'] eqn:Eb.
      cbn [fst] in Ev. subst e. cbn. rewrite !Nat.eqb_refl. cbn. split.
      + exists v, sub. split; auto. apply in_app_iff. right. left. reflexivity.
      + intros rm' vars sub' q Hin' Hrm'. apply in_app_iff in Hin' as [H|H].
        * destruct (Hs _ _ _ _ H Hrm') as (v'&ds&A&B). exists v', ds. split; auto. apply in_app_iff; auto.
        * destruct H as [H|[H|[]]]; [discriminate|]. inversion H; subst. exists v, sub. split; auto. apply in_app_iff. right. left. reflexivity.
  Qed.
  Lemma keeps_risk rm : keeps (risk_items p pm w f rm).
  Proof.
    destruct (is_drawdown rm) eqn:E; [destruct rm; try discriminate; apply keeps_drawdown; reflexivity|].
    apply keeps_quiet; [destruct rm; try discriminate; unfold risk_items, cvx_returns, cvx_cost, cvx_fee; q|].
    intros s i Hi. destruct rm; try discriminate; unfold risk_items, bind, ret, fresh, simple, cvx_returns, cvx_cost, cvx_fee, cached in Hi; cbn in Hi;
      repeat (match type of Hi with context [let (_, _) := ?X in _] => destruct X as [? ?] end); cbn in Hi; destruct Hi as [<-|[]]; exact E.
  Qed.
  Lemma keeps_run l : Forall keeps l -> keeps (run l).
  Proof.
    induction 1 as [|a l Ha Hl IH]; cbn; intros acc s Hc Hs.
    - unfold ret. rewrite app_nil_r. auto.
    - unfold bind. specialize (Ha acc s Hc Hs). destruct (a s) as [x s1]. destruct Ha as [A1 A2]. specialize (IH (acc ++ x) s1 A1 A2). destruct (run l s1) as [y s2]. cbn. rewrite app_assoc. exact IH.
  Qed.
  Lemma keeps_uses a : (exists e : M expr, a = bind e (fun e => ret [Uses e]) /\ quiet e) \/ a = ret [] \/ (exists k, a = ret [WeightConstraints w f k]) -> keeps a.
  Proof.
    intros [(e&->&Q)|[->|(k&->)]].
    - apply keeps_quiet; [q; exact Q|]. intros s i Hi. unfold bind, ret in Hi. destruct (e s) as [y s']. destruct Hi as [<-|[]]. exact I.
    - apply keeps_quiet; [q|]. intros s i [].
    - apply keeps_quiet; [q|]. intros s i [<-|[]]. exact I.
  Qed.
End Present.
Lemma keeps_actions c pm w f u : Forall (keeps (params_tag c) pm w f) (actions c pm w f u).
Proof.
  unfold actions. apply Forall_app. split.
  - repeat apply Forall_cons; try apply Forall_nil; apply keeps_uses; try destruct (with_mu_uncertainty c); try destruct (with_tracking_error c); try destruct (with_turnover c);
      first [right; left; reflexivity | right; right; eexists; reflexivity | left; eexists; split; [reflexivity|]; apply quiet_simple; discriminate].
  - apply Forall_map, Forall_forall. intros rm _. apply keeps_risk.
Qed.
Lemma run_in l a : In a l -> forall s, exists s', incl (fst (a s')) (fst (run l s)).
Proof.
  induction l as [|b l IH]; [intros []|]. intros [->|H] s; cbn.
  - exists s. unfold bind. destruct (a s) as [x s1]. destruct (run l s1) as [y s2]. cbn. intros i Hi. apply in_app_iff; auto.
  - unfold bind. destruct (b s) as [x s1]. destruct (IH H s1) as (s'&Hs). exists s'. destruct (run l s1) as [y s2]. cbn in *. intros i Hi. apply in_app_iff; auto.
Qed.
Lemma own_constraints p pm w f rm s : exists vars sub, In (OwnConstraints rm vars sub p) (fst (risk_items p pm w f rm s)).
Proof.
  destruct rm; unfold risk_items, bind, ret, fresh; repeat (match goal with |- context [let (_, _) := ?X in _] => destruct X as [? ?] end); cbn; eexists _, _; try (left; reflexivity); apply in_app_iff; right; left; reflexivity.
Qed.
(** * Theorems *)
(** every drawdown measure of the problem constrains its own drawdown variable, which the problem defines *)
Theorem C38_drawdown_defined : forall h n c rm, recent_failures_without_drawdown h -> In rm (measures c) -> In rm [MAX_DRAWDOWN; AVERAGE_DRAWDOWN; CDAR; EDAR; ULCER_INDEX] ->
  let items := snd (problem c (after (rev h) (new_estimator n))) in
  (exists vars sub, In (OwnConstraints rm vars sub (params_tag c)) items) /\
  forall vars sub q, In (OwnConstraints rm vars sub q) items ->
    exists v dsub, sub = [DrawdownVar v dsub (params_tag c)] /\ In (DrawdownConstraints v dsub (params_tag c)) items.
Proof.
  intros h n c rm Hh Hin Hrm items. assert (D: is_drawdown rm = true) by (cbn in Hrm; intuition; subst; reflexivity).
  set (s := after (rev h) (new_estimator n)) in *.
  assert (E: problem c s = problem c (new_estimator (next s))).
  { apply build_sim; [apply after_bounded; intros m a e []|]. apply after_no_drawdown. exact Hh. }
  unfold items. rewrite E. clear items E. generalize (next s). clear s. intros k. unfold problem, build, bind, fresh, ret, new_estimator. cbn [next cache].
  set (l := firstn (complete c) (actions c k (S k) (S (S k)) (S (S (S k))))).
  assert (El: l = actions c k (S k) (S (S k)) (S (S (S k)))).
  { unfold l. apply firstn_all2. unfold complete, actions. rewrite app_length, map_length. cbn. lia. }
  rewrite El. clear l El.
  pose proof (keeps_run _ _ _ _ _ (keeps_actions c k (S k) (S (S k)) (S (S (S k)))) [] {| cache := []; next := S (S (S (S k))) |} I ltac:(intros ? ? ? ? [])) as K.
  pose proof (run_in (actions c k (S k) (S (S k)) (S (S (S k)))) (risk_items (params_tag c) k (S k) (S (S k)) rm) ltac:(unfold actions; apply in_app_iff; right; apply in_map; exact Hin) {| cache := []; next := S (S (S (S k))) |}) as (s'&Hs').
  destruct (run _ _) as [l s2]. cbn [fst snd] in *. destruct K as [_ K]. cbn [app] in K. split.
  - destruct (own_constraints (params_tag c) k (S k) (S (S k)) rm s') as (vars&sub&Ho). exists vars, sub. apply Hs'. exact Ho.
  - intros vars sub q Ho. exact (K _ _ _ _ Ho D).
Qed.
Print Assumptions C38_drawdown_defined.
(** [h] is the history, latest first; the problem is the one of a new estimator creating the same objects *)
Theorem C38_same_problem : forall h n c, recent_failures_without_drawdown h ->
  let s := after (rev h) (new_estimator n) in problem c s = problem c (new_estimator (next s)).
Proof.
  intros h n c H s. apply build_sim; [apply after_bounded; intros m a e []|]. apply after_no_drawdown. exact H.
Qed.
Print Assumptions C38_same_problem.
(** in particular after successful fits *)
Corollary C38_after_success : forall h n c0 c, let s := after (rev ((c0, Succeeds) :: h)) (new_estimator n) in problem c s = problem c (new_estimator (next s)).
Proof. intros h n c0 c. apply C38_same_problem. exact I. Qed.
Print Assumptions C38_after_success.
(** after a failed fit with a drawdown measure the drawdown variable of the next problem is left unconstrained *)
Definition max_drawdown_config : config := {| params_tag := 0; with_mu_uncertainty := false; with_turnover := false; with_tracking_error := false; measures := [MAX_DRAWDOWN] |}.
Theorem C38_failed_fit_refuted : exists c upto n, let s := after [(c, Raises upto)] (new_estimator n) in
  (exists v sub p, In (DrawdownConstraints v sub p) (snd (problem c (new_estimator (next s))))) /\ (forall v sub p, ~ In (DrawdownConstraints v sub p) (snd (problem c s))).
Proof.
  exists max_drawdown_config, 9, 0. cbn. split; [eexists _, _, _; do 5 right; left; reflexivity|]. intros v sub p H. repeat (destruct H as [H|H]; [discriminate|]). exact H.
Qed.
Print Assumptions C38_failed_fit_refuted.
(** without them every risk, however small, is attained by any weights *)
Theorem C38_dropped_constraints_unbounded : forall pm st w f r, (0 < scale st)%R -> exists a,
  Forall holds_at (elementwise (n_obs pm) (fun t => Le (dd a (S t) * scale st) (u a * scale st))) /\ risk_value pm st MAX_DRAWDOWN w f a = r.
Proof.
  intros pm st w f r Hs. exists {| alpha := 0; u := r; ex := 0; ey := 0; v := fun _ => 0%R; z := fun _ => 0%R; gx := fun _ => 0%R; gy := fun _ => 0%R; dd := fun _ => r |}. split; [|reflexivity].
  apply elementwise_holds. intros t _. cbn. lra.
Qed.
Print Assumptions C38_dropped_constraints_unbounded.
(** a history with failures that meets the hypothesis *)
Example C38_hypotheses_met : recent_failures_without_drawdown
  [({| params_tag := 2; with_mu_uncertainty := true; with_turnover := false; with_tracking_error := true; measures := [CVAR; VARIANCE] |}, Raises 10); (max_drawdown_config, Succeeds); (max_drawdown_config, Raises 9)].
Proof. split; [|exact I]. intros rm [<-|[<-|[]]] H; cbn in H; intuition discriminate. Qed.
