(** C18 (portfolio arithmetic) and C19 (contributions). *)
From Coq Require Import Reals Lra Lia List Bool Arith.
From Verif Require Import RList MeasuresModel PortfolioArithModel.
Import ListNotations.
Local Open Scope R_scope.

(** * vectors *)
Lemma vmap2_length f a b : length (vmap2 f a b) = Nat.min (length a) (length b).
Proof. unfold vmap2. rewrite map_length, combine_length. reflexivity. Qed.
Lemma vmap2_nth f a b i : (i < length a)%nat -> (i < length b)%nat -> nth i (vmap2 f a b) 0 = f (nth i a 0) (nth i b 0).
Proof.
  revert b i. induction a as [|x a IH]; intros [|y b] [|i] Ha Hb; cbn in *; try lia; auto. apply IH; lia.
Qed.
Lemma nth_map_lt {A} (f : A -> R) l i d d' : (i < length l)%nat -> nth i (map f l) d = f (nth i l d').
Proof. revert i. induction l as [|x l IH]; intros [|i] H; cbn in *; try lia; auto. apply IH; lia. Qed.
Lemma dot_cons x a y b : dot (x :: a) (y :: b) = x * y + dot a b.
Proof. reflexivity. Qed.
Lemma dot_add a b x : length a = length b -> dot (vmap2 Rplus a b) x = dot a x + dot b x.
Proof.
  revert b x. induction a as [|p a IH]; intros [|q b] [|y x] L; cbn in L; try discriminate; try (cbn; lra).
  change (vmap2 Rplus (p :: a) (q :: b)) with ((p + q) :: vmap2 Rplus a b). rewrite !dot_cons, IH by lia. lra.
Qed.
Lemma dot_sub a b x : length a = length b -> dot (vmap2 Rminus a b) x = dot a x - dot b x.
Proof.
  revert b x. induction a as [|p a IH]; intros [|q b] [|y x] L; cbn in L; try discriminate; try (cbn; lra).
  change (vmap2 Rminus (p :: a) (q :: b)) with ((p - q) :: vmap2 Rminus a b). rewrite !dot_cons, IH by lia. lra.
Qed.
Lemma dot_scal c a x : dot (map (fun z => c * z) a) x = c * dot a x.
Proof.
  revert x. induction a as [|p a IH]; intros [|y x]; try (cbn; lra).
  cbn [map]. rewrite !dot_cons, IH. lra.
Qed.
Lemma dot_comm a x : dot a x = dot x a.
Proof. revert x. induction a as [|p a IH]; intros [|y x]; try reflexivity. rewrite !dot_cons, IH. lra. Qed.

(** the fee (or cost) vector of a cost *)
Definition cost_vec (n : nat) (c : cost) : list R := match c with Scalar x => repeat x n | PerAsset l => l end.
Definition cost_len (n : nat) (c : cost) : Prop := match c with Scalar _ => True | PerAsset l => length l = n end.
Lemma times_dot n c v : length v = n -> times c v = dot (cost_vec n c) v.
Proof.
  intros <-. destruct c as [x|l]; [|reflexivity]. cbn [cost_vec times]. induction v as [|y v IH]; [reflexivity|].
  cbn [map length repeat]. rewrite dot_cons, rsum_cons, IH. reflexivity.
Qed.
Lemma fee_dot n c v : length v = n -> (if is_zero_scalar c then 0 else times c v) = dot (cost_vec n c) v.
Proof.
  intros L. rewrite <- (times_dot n c v L). unfold is_zero_scalar. destruct c as [x|l]; [|reflexivity].
  destruct (Req_EM_T x 0) as [->|]; [|reflexivity]. cbn [times]. clear. induction v as [|y v IH]; [reflexivity|].
  cbn [map]. rewrite rsum_cons, <- IH. lra.
Qed.

(** * Specification of C18 *)
Section Spec.
Context {O : Type}.
Variable O_dec : forall a b : O, {a = b} + {a <> b}.

(** A portfolio over n assets as the constructor leaves it: at each date the return is the weighted
    asset return minus the transaction costs |previous - weights| and minus the management fees. *)
Definition built (n : nat) (p : portfolio O) : Prop :=
  length (weights p) = n /\ length (previous_weights p) = n /\ (forall row, In row (X p) -> length row = n)
  /\ cost_len n (transaction_costs p) /\ cost_len n (management_fees p)
  /\ returns p = map (fun row => dot (weights p) row
                                 - dot (cost_vec n (transaction_costs p)) (map Rabs (vmap2 Rminus (previous_weights p) (weights p)))
                                 - dot (cost_vec n (management_fees p)) (weights p)) (X p).

Fixpoint leaves (e : expr O) : list (portfolio O) :=
  match e with
  | Leaf p => [p]
  | Neg e | Mul _ e | Div e _ => leaves e
  | Add e f | Sub e f => leaves e ++ leaves f
  end.
Fixpoint no_zero_division (e : expr O) : Prop :=
  match e with
  | Leaf p => True
  | Neg e | Mul _ e => no_zero_division e
  | Div e c => no_zero_division e /\ c <> 0
  | Add e f | Sub e f => no_zero_division e /\ no_zero_division f
  end.
(** the same expression on numbers *)
Fixpoint denote (v : portfolio O -> R) (e : expr O) : R :=
  match e with
  | Leaf p => v p
  | Neg e => - denote v e
  | Add e f => denote v e + denote v f
  | Sub e f => denote v e - denote v f
  | Mul c e => c * denote v e
  | Div e c => denote v e / c
  end.
Definition same_setup (p q : portfolio O) : Prop :=
  X p = X q /\ previous_weights p = previous_weights q /\ transaction_costs p = transaction_costs q
  /\ management_fees p = management_fees q /\ other p = other q.

Lemma rebuild_built n p w : built n p -> length w = n -> built n (rebuild p w).
Proof.
  intros (A&B&C&D&E&F) L. unfold rebuild, make. split; [exact L|]. split; [exact B|]. split; [exact C|]. split; [exact D|]. split; [exact E|].
  cbn. apply map_ext. intros row. rewrite !(fee_dot n); auto. rewrite map_length, vmap2_length, B, L. lia.
Qed.
Lemma rebuild_setup p w : same_setup (rebuild p w) p.
Proof. repeat split. Qed.
Lemma same_args_spec p q : same_args O_dec p q = true <-> same_setup p q.
Proof.
  unfold same_args, same_setup.
  destruct (list_eq_dec row_dec (X p) (X q)), (row_dec (previous_weights p) (previous_weights q)),
    (cost_dec (transaction_costs p) (transaction_costs q)), (cost_dec (management_fees p) (management_fees q)), (O_dec (other p) (other q));
    cbn; split; intros H; try discriminate H; try tauto; exfalso; tauto.
Qed.
Lemma make_built n X w prev tc mf o nm :
  length w = n -> length prev = n -> (forall row, In row X -> length row = n) -> cost_len n tc -> cost_len n mf ->
  built n (make X w prev tc mf o nm : portfolio O).
Proof.
  intros L B C D E. split; [exact L|]. split; [exact B|]. split; [exact C|]. split; [exact D|]. split; [exact E|].
  cbn. apply map_ext. intros row. rewrite !(fee_dot n); auto. rewrite map_length, vmap2_length, B, L. lia.
Qed.

Lemma setup_trans p q r : same_setup p q -> same_setup q r -> same_setup p r.
Proof. unfold same_setup. intuition congruence. Qed.
Lemma setup_sym p q : same_setup p q -> same_setup q p.
Proof. unfold same_setup. intuition congruence. Qed.

Lemma eval_inv n e p : (forall l, In l (leaves e) -> built n l) -> eval O_dec e = Some p ->
  built n p /\ (forall l, In l (leaves e) -> same_setup l p)
  /\ (forall i, (i < n)%nat -> nth i (weights p) 0 = denote (fun q => nth i (weights q) 0) e).
Proof.
  revert p. induction e as [q|e IH|e IHe f IHf|e IHe f IHf|c e IH|e IH c]; intros p HL HE; cbn in HE, HL |- *.
  - inversion HE; subst. split; [apply HL; auto|]. split; [intros l [<-|[]]; repeat split|]. auto.
  - destruct (eval O_dec e) as [q|] eqn:E; [|discriminate]. inversion HE; subst; clear HE.
    destruct (IH q HL eq_refl) as (B&S&N). split; [apply rebuild_built; auto; rewrite map_length; exact (proj1 B)|].
    split; [intros l Hl; eapply setup_trans; [apply S, Hl|apply setup_sym, rebuild_setup]|].
    intros i Hi. cbn. rewrite <- (N i Hi).
    rewrite (nth_indep _ 0 (- 0)) by (rewrite map_length; destruct B as (B&_); lia). apply (map_nth Ropp).
  - destruct (eval O_dec e) as [q|] eqn:E; [|discriminate]. destruct (eval O_dec f) as [r|] eqn:F; [|discriminate].
    unfold p_add in HE. destruct (same_args O_dec q r) eqn:A; [|discriminate]. inversion HE; subst; clear HE. apply same_args_spec in A.
    destruct (IHe q ltac:(intros; apply HL, in_or_app; auto) eq_refl) as (B&S&N).
    destruct (IHf r ltac:(intros; apply HL, in_or_app; auto) eq_refl) as (B'&S'&N').
    pose proof (proj1 B) as L. pose proof (proj1 B') as L'.
    split; [apply rebuild_built; auto; rewrite vmap2_length; lia|].
    split. { intros l Hl. apply in_app_or in Hl as [Hl|Hl].
      - eapply setup_trans; [apply S, Hl|apply setup_sym, rebuild_setup].
      - eapply setup_trans; [apply S', Hl|]. eapply setup_trans; [apply setup_sym, A|apply setup_sym, rebuild_setup]. }
    intros i Hi. cbn. rewrite vmap2_nth by lia. rewrite N, N' by auto. reflexivity.
  - destruct (eval O_dec e) as [q|] eqn:E; [|discriminate]. destruct (eval O_dec f) as [r|] eqn:F; [|discriminate].
    unfold p_sub in HE. destruct (same_args O_dec q r) eqn:A; [|discriminate]. inversion HE; subst; clear HE. apply same_args_spec in A.
    destruct (IHe q ltac:(intros; apply HL, in_or_app; auto) eq_refl) as (B&S&N).
    destruct (IHf r ltac:(intros; apply HL, in_or_app; auto) eq_refl) as (B'&S'&N').
    pose proof (proj1 B) as L. pose proof (proj1 B') as L'.
    split; [apply rebuild_built; auto; rewrite vmap2_length; lia|].
    split. { intros l Hl. apply in_app_or in Hl as [Hl|Hl].
      - eapply setup_trans; [apply S, Hl|apply setup_sym, rebuild_setup].
      - eapply setup_trans; [apply S', Hl|]. eapply setup_trans; [apply setup_sym, A|apply setup_sym, rebuild_setup]. }
    intros i Hi. cbn. rewrite vmap2_nth by lia. rewrite N, N' by auto. reflexivity.
  - destruct (eval O_dec e) as [q|] eqn:E; [|discriminate]. inversion HE; subst; clear HE.
    destruct (IH q HL eq_refl) as (B&S&N). split; [apply rebuild_built; auto; rewrite map_length; exact (proj1 B)|].
    split; [intros l Hl; eapply setup_trans; [apply S, Hl|apply setup_sym, rebuild_setup]|].
    intros i Hi. cbn. rewrite <- (N i Hi).
    rewrite (nth_indep _ 0 (c * 0)) by (rewrite map_length; destruct B as (B&_); lia). apply (map_nth (fun x => c * x)).
  - destruct (eval O_dec e) as [q|] eqn:E; [|discriminate]. inversion HE; subst; clear HE.
    destruct (IH q HL eq_refl) as (B&S&N). split; [apply rebuild_built; auto; rewrite map_length; exact (proj1 B)|].
    split; [intros l Hl; eapply setup_trans; [apply S, Hl|apply setup_sym, rebuild_setup]|].
    intros i Hi. cbn. rewrite <- (N i Hi).
    rewrite (nth_indep _ 0 (0 / c)) by (rewrite map_length; destruct B as (B&_); lia). apply (map_nth (fun x => x / c)).
Qed.

(** dot distributes over the denotation *)
Lemma denote_dot n e p x : (forall l, In l (leaves e) -> built n l) -> eval O_dec e = Some p ->
  dot (weights p) x = denote (fun q => dot (weights q) x) e.
Proof.
  revert p. induction e as [q|e IH|e IHe f IHf|e IHe f IHf|c e IH|e IH c]; intros p HL HE; cbn in HE, HL |- *.
  - inversion HE; reflexivity.
  - destruct (eval O_dec e) as [q|] eqn:E; [|discriminate]. inversion HE; subst; clear HE. rewrite <- (IH q HL eq_refl). cbn [p_neg p_add p_sub p_mul p_div rebuild make weights].
    rewrite (map_ext Ropp (fun z => -1 * z)) by (intros; ring). rewrite dot_scal. ring.
  - destruct (eval O_dec e) as [q|] eqn:E; [|discriminate]. destruct (eval O_dec f) as [r|] eqn:F; [|discriminate].
    unfold p_add in HE. destruct (same_args O_dec q r) eqn:A; [|discriminate]. inversion HE; subst; clear HE.
    assert (H1: forall l, In l (leaves e) -> built n l) by (intros; apply HL, in_or_app; auto).
    assert (H2: forall l, In l (leaves f) -> built n l) by (intros; apply HL, in_or_app; auto).
    rewrite <- (IHe q H1 eq_refl), <- (IHf r H2 eq_refl). cbn [p_neg p_add p_sub p_mul p_div rebuild make weights]. apply dot_add.
    destruct (eval_inv n e q H1 E) as ((L&_)&_). destruct (eval_inv n f r H2 F) as ((L'&_)&_). congruence.
  - destruct (eval O_dec e) as [q|] eqn:E; [|discriminate]. destruct (eval O_dec f) as [r|] eqn:F; [|discriminate].
    unfold p_sub in HE. destruct (same_args O_dec q r) eqn:A; [|discriminate]. inversion HE; subst; clear HE.
    assert (H1: forall l, In l (leaves e) -> built n l) by (intros; apply HL, in_or_app; auto).
    assert (H2: forall l, In l (leaves f) -> built n l) by (intros; apply HL, in_or_app; auto).
    rewrite <- (IHe q H1 eq_refl), <- (IHf r H2 eq_refl). cbn [p_neg p_add p_sub p_mul p_div rebuild make weights]. apply dot_sub.
    destruct (eval_inv n e q H1 E) as ((L&_)&_). destruct (eval_inv n f r H2 F) as ((L'&_)&_). congruence.
  - destruct (eval O_dec e) as [q|] eqn:E; [|discriminate]. inversion HE; subst; clear HE. rewrite <- (IH q HL eq_refl). cbn [p_neg p_add p_sub p_mul p_div rebuild make weights]. apply dot_scal.
  - destruct (eval O_dec e) as [q|] eqn:E; [|discriminate]. inversion HE; subst; clear HE. rewrite <- (IH q HL eq_refl). cbn [p_neg p_add p_sub p_mul p_div rebuild make weights].
    rewrite (map_ext (fun z => z / c) (fun z => / c * z)) by (intros; unfold Rdiv; ring). rewrite dot_scal. unfold Rdiv. ring.
Qed.
Lemma denote_ext v v' e : (forall l, In l (leaves e) -> v l = v' l) -> denote v e = denote v' e.
Proof.
  induction e as [q|e IH|e IHe f IHf|e IHe f IHf|c e IH|e IH c]; intros H; cbn in *; auto;
    try (rewrite IH by auto; reflexivity); rewrite IHe, IHf by (intros; apply H, in_or_app; auto); reflexivity.
Qed.
Lemma denote_sub v v' e : denote (fun q => v q - v' q) e = denote v e - denote v' e.
Proof.
  induction e as [q|e IH|e IHe f IHf|e IHe f IHf|c e IH|e IH c]; cbn; auto; try (rewrite IH; unfold Rdiv; ring); rewrite IHe, IHf; ring.
Qed.
End Spec.

(** C18, main theorem: whatever the expression, if it evaluates then all its portfolios share X, previous weights,
    costs, fees and parameters; the result carries them too, its weights are the same expression of the weights, its
    returns are those of a portfolio built with these weights and, without transaction costs, the same expression
    of the returns. *)
Theorem C18_expression :
  forall (O : Type) O_dec n (e : expr O) p,
    (forall l, In l (leaves e) -> built n l) -> no_zero_division e -> eval O_dec e = Some p ->
    built n p
    /\ (forall l, In l (leaves e) -> same_setup l p)
    /\ (forall i, (i < n)%nat -> nth i (weights p) 0 = denote (fun q => nth i (weights q) 0) e)
    /\ (transaction_costs p = Scalar 0 ->
        forall t, (t < length (X p))%nat -> nth t (returns p) 0 = denote (fun q => nth t (returns q) 0) e).
Proof.
  intros O O_dec n e p HL _ HE. destruct (eval_inv O_dec n e p HL HE) as (B&S&N). split; [auto|]. split; [auto|]. split; [auto|].
  intros HT t Ht.
  assert (R: forall q : portfolio O, built n q -> X q = X p -> transaction_costs q = Scalar 0 ->
    nth t (returns q) 0 = dot (weights q) (nth t (X p) []) - dot (weights q) (cost_vec n (management_fees q))).
  { intros q (A1&A2&A3&A4&A5&A6) EX ET. rewrite A6, ET, EX.
    rewrite (nth_map_lt _ _ _ _ []) by auto. rewrite (dot_comm (cost_vec n (management_fees q))).
    replace (dot (cost_vec n (Scalar 0)) (map Rabs (vmap2 Rminus (previous_weights q) (weights q)))) with 0; [lra|].
    cbn [cost_vec]. generalize (map Rabs (vmap2 Rminus (previous_weights q) (weights q))). clear. induction n as [|n IH]; intros [|y l]; try reflexivity.
    cbn [repeat]. rewrite dot_cons, <- IH. lra. }
  rewrite (R p B eq_refl HT), !(denote_dot O_dec n e p) by auto.
  rewrite <- denote_sub. apply denote_ext. intros l Hl. destruct (S l Hl) as (E1&E2&E3&E4&E5).
  rewrite (R l (HL l Hl) E1 ltac:(congruence)), E4. reflexivity.
Qed.
Print Assumptions C18_expression.

(** an addition or a subtraction is accepted exactly when the two portfolios share everything but weights, name and tag *)
Theorem C18_mismatch_rejected :
  forall (O : Type) O_dec (p q : portfolio O),
    ((exists r, p_add O_dec p q = Some r) <-> same_setup p q) /\ ((exists r, p_sub O_dec p q = Some r) <-> same_setup p q).
Proof.
  intros O O_dec p q. unfold p_add, p_sub. pose proof (same_args_spec O_dec p q) as H.
  destruct (same_args O_dec p q); split; split; intros H'; try (apply H; reflexivity); try (eexists; reflexivity);
    try (destruct H' as (r&Hr); discriminate Hr); apply H in H'; discriminate H'.
Qed.
Print Assumptions C18_mismatch_rejected.

(** vector-space laws on weights (two expressions with the same value on numbers give the same weights, hence the
    same portfolio up to its name) *)
Theorem C18_laws :
  forall (O : Type) O_dec n (e f : expr O) p q,
    (forall l, In l (leaves e) -> built n l) -> (forall l, In l (leaves f) -> built n l) ->
    no_zero_division e -> no_zero_division f ->
    eval O_dec e = Some p -> eval O_dec f = Some q ->
    (exists l, In l (leaves e) /\ In l (leaves f)) ->
    (forall v, denote v e = denote v f) -> weights p = weights q /\ returns p = returns q.
Proof.
  intros O O_dec n e f p q HL HL' _ _ HE HF (l&L1&L2) Hv.
  destruct (eval_inv O_dec n e p HL HE) as ((A1&A2&A3&A4&A5&A6)&S&N). destruct (eval_inv O_dec n f q HL' HF) as ((B1&B2&B3&B4&B5&B6)&S'&N').
  assert (EW: weights p = weights q).
  { apply (nth_ext _ _ 0 0); [congruence|]. intros i Hi. rewrite N, N' by lia. apply Hv. }
  split; auto. rewrite A6, B6. destruct (S l L1) as (E1&E2&E3&E4&E5). destruct (S' l L2) as (F1&F2&F3&F4&F5).
  rewrite <- E1, <- E2, <- E3, <- E4, <- F1, <- F2, <- F3, <- F4, EW. reflexivity.
Qed.
Print Assumptions C18_laws.
Corollary C18_add_comm :
  forall (O : Type) O_dec n (p q r s : portfolio O), built n p -> built n q ->
    p_add O_dec p q = Some r -> p_add O_dec q p = Some s -> weights r = weights s /\ returns r = returns s.
Proof.
  intros O O_dec n p q r s Bp Bq H H'. eapply (C18_laws O O_dec n (Add (Leaf p) (Leaf q)) (Add (Leaf q) (Leaf p))); cbn; auto.
  - intros l [<-|[<-|[]]]; auto.
  - intros l [<-|[<-|[]]]; auto.
  - exists p. auto.
  - intros; ring.
Qed.
Print Assumptions C18_add_comm.
(** absolute value and floor division act weight by weight *)
Theorem C18_abs_floordiv :
  forall (O : Type) n (p : portfolio O), built n p ->
    built n (p_abs p) /\ (forall i, (i < n)%nat -> nth i (weights (p_abs p)) 0 = Rabs (nth i (weights p) 0))
    /\ (forall c, c <> 0 -> built n (p_floordiv p c)
         /\ forall i, (i < n)%nat -> exists z : Z, nth i (weights (p_floordiv p c)) 0 = IZR z /\ IZR z <= nth i (weights p) 0 / c < IZR z + 1).
Proof.
  intros O n p B. pose proof (proj1 B) as L. split; [apply rebuild_built; auto; rewrite map_length; auto|]. split.
  - intros i Hi. cbn. rewrite (nth_indep _ 0 (Rabs 0)) by (rewrite map_length; lia). apply map_nth.
  - intros c Hc. split; [apply rebuild_built; auto; rewrite map_length; auto|]. intros i Hi.
    exists (Int_part (nth i (weights p) 0 / c)). split.
    + cbn. rewrite (nth_indep _ 0 ((fun x => IZR (Int_part (x / c))) 0)) by (rewrite map_length; lia). apply (map_nth (fun x => IZR (Int_part (x / c)))).
    + destruct (base_Int_part (nth i (weights p) 0 / c)). lra.
Qed.
Print Assumptions C18_abs_floordiv.

Definition ex_p : portfolio nat := make [[1; 2]; [3; -1]] [1/2; 1/2] [0; 0] (Scalar 0) (PerAsset [1; 2]) 0%nat 0%nat.
Definition ex_q : portfolio nat := make [[1; 2]; [3; -1]] [1; 0] [0; 0] (Scalar 0) (PerAsset [1; 2]) 0%nat 1%nat.
Example C18_example :
  built 2 ex_p /\ built 2 ex_q /\ same_setup ex_p ex_q /\ exists r, eval Nat.eq_dec (Sub (Mul 2 (Leaf ex_p)) (Leaf ex_q)) = Some r.
Proof.
  assert (Hr: forall row, In row [[1; 2]; [3; -1]] -> length row = 2%nat) by (intros row [<-|[<-|[]]]; reflexivity).
  split; [apply make_built; cbn; auto|]. split; [apply make_built; cbn; auto|]. split; [repeat split|].
  cbn [eval option_map]. unfold p_sub.
  rewrite (proj2 (same_args_spec Nat.eq_dec (p_mul 2 ex_p) ex_q)) by (repeat split). eexists; reflexivity.
Qed.

(** * C19 *)
Lemma bump_length w i h : length (bump w i h) = length w.
Proof. revert i. induction w; intros [|i]; cbn; auto. Qed.
Lemma dot_bump w i h x : (i < length w)%nat -> length x = length w -> dot (bump w i h) x = dot w x + h * nth i x 0.
Proof.
  revert i x. induction w as [|y w IH]; intros [|i] [|z x] Hi L; cbn in Hi, L; try lia; cbn [bump nth]; rewrite !dot_cons.
  - lra.
  - rewrite IH by lia. lra.
Qed.


Definition asset_returns (X : list (list R)) (i : nat) : list R := map (fun row => nth i row 0) X.
Definition covariance (a b : list R) : R :=
  sum_over (combine a b) (fun p => (fst p - mean a) * (snd p - mean b)) / (INR (length a) - 1).

Lemma contribution_list {O} measure (p : portfolio O) h (g : nat -> R) :
  (forall i, (i < length (weights p))%nat -> (get_risk measure p i h - get_risk measure p i (- h)) / (2 * h) = g i) ->
  compute_contribution measure p h false = map (fun i => (nth i (weights p) 0 * g i, i)) (seq 0 (length (weights p)))
  /\ compute_contribution measure p h true
     = map (fun i => (nth i (weights p) 0 * g i, i)) (filter (fun i => if Req_EM_T (nth i (weights p) 0) 0 then false else true) (seq 0 (length (weights p)))).
Proof.
  intros H. unfold compute_contribution.
  assert (E: combine (seq 0 (length (weights p))) (weights p) = map (fun i => (i, nth i (weights p) 0)) (seq 0 (length (weights p)))).
  { clear. generalize (weights p). intros w.
    assert (G: forall s, combine (seq s (length w)) w = map (fun i => (i, nth (i - s) w 0)) (seq s (length w))).
    { induction w as [|x w IH]; intros s; cbn [length seq combine map]; [reflexivity|]. rewrite Nat.sub_diag. f_equal. rewrite (IH (S s)).
      apply map_ext_in. intros i Hi. apply in_seq in Hi. f_equal. replace (i - s)%nat with (S (i - S s)) by lia. reflexivity. }
    rewrite G. apply map_ext. intros i. f_equal. f_equal. lia. }
  rewrite E. assert (Hin: forall i, In i (seq 0 (length (weights p))) -> (i < length (weights p))%nat) by (intros i Hi; apply in_seq in Hi; lia).
  clear E. revert Hin. generalize (seq 0 (length (weights p))). induction l as [|i l IH]; intros Hin; [split; reflexivity|].
  destruct IH as [I1 I2]; [intros; apply Hin; right; auto|]. cbn [map flat_map filter].
  pose proof (H i (Hin i (or_introl eq_refl))) as Hi.
  destruct (Req_EM_T (nth i (weights p) 0) 0) as [Z|Z]; split; cbn [map app]; rewrite ?I1, ?I2, ?Z.
  - f_equal. f_equal. ring.
  - reflexivity.
  - f_equal. f_equal. rewrite Hi. ring.
  - f_equal. f_equal. rewrite Hi. ring.
Qed.

Lemma bumped_returns {O} n (p : portfolio O) i h : built n p -> (i < n)%nat ->
  exists k, returns (rebuild p (bump (weights p) i h)) = map (fun row => dot (weights p) row + h * nth i row 0 - k) (X p)
    /\ (transaction_costs p = Scalar 0 -> k = dot (cost_vec n (management_fees p)) (weights p) + h * nth i (cost_vec n (management_fees p)) 0).
Proof.
  intros B Hi. pose proof (proj1 B) as L.
  assert (Lb: length (bump (weights p) i h) = n) by (rewrite bump_length; auto).
  pose proof (rebuild_built n p _ B Lb) as B'. destruct B as (A1&A2&A3&A4&A5&A6).
  destruct B' as (_&_&_&_&_&E). rewrite E. cbn [rebuild make weights previous_weights transaction_costs management_fees X].
  set (tcost := dot (cost_vec n (transaction_costs p)) _). set (fee := dot (cost_vec n (management_fees p)) (bump (weights p) i h)).
  exists (tcost + fee). split.
  - apply map_ext_in. intros row Hr. rewrite dot_bump; [|lia|rewrite (A3 row Hr); lia]. ring.
  - intros ET. assert (tcost = 0).
    { unfold tcost. rewrite ET. cbn [cost_vec]. generalize (map Rabs (vmap2 Rminus (previous_weights p) (bump (weights p) i h))). clear.
      induction n as [|n IH]; intros [|y l]; try reflexivity. cbn [repeat]. rewrite dot_cons, IH. lra. }
    rewrite H, Rplus_0_l. unfold fee. rewrite dot_comm, dot_bump, dot_comm; [reflexivity|lia|].
    destruct (management_fees p); cbn in *; rewrite ?repeat_length; lia.
Qed.

(** mean: contribution = weight times (mean asset return - fee), whatever the step; they add up to the mean *)
Theorem C19_mean_contributions :
  forall (O : Type) n (p : portfolio O) h, built n p -> X p <> [] -> transaction_costs p = Scalar 0 -> h <> 0 ->
    compute_contribution mean p h false
      = map (fun i => (nth i (weights p) 0 * (mean (asset_returns (X p) i) - nth i (cost_vec n (management_fees p)) 0), i)) (seq 0 n)
    /\ rsum (map fst (compute_contribution mean p h false)) = mean (returns p).
Proof.
  intros O n p h B HX HT Hh. pose proof B as (A1&A2&A3&A4&A5&A6).
  assert (HN: 0 < INR (length (X p))) by (apply INR_pos; destruct (X p); [congruence|cbn; lia]).
  assert (Hm: forall i h', (i < n)%nat -> get_risk mean p i h' =
     (sum_over (X p) (dot (weights p)) + h' * sum_over (X p) (fun row => nth i row 0)) / INR (length (X p))
     - (dot (cost_vec n (management_fees p)) (weights p) + h' * nth i (cost_vec n (management_fees p)) 0)).
  { intros i h' Hi. unfold get_risk. destruct (bumped_returns n p i h' B Hi) as (k&E&Hk). rewrite E, (Hk HT). unfold mean, len. rewrite map_length.
    set (c := dot (cost_vec n (management_fees p)) (weights p) + h' * nth i (cost_vec n (management_fees p)) 0).
    change (rsum (map (fun row => dot (weights p) row + h' * nth i row 0 - c) (X p))) with (sum_over (X p) (fun row => dot (weights p) row + h' * nth i row 0 - c)).
    rewrite so_sub, so_add, so_scal, so_const. field. lra. }
  assert (G: forall i, (i < length (weights p))%nat -> (get_risk mean p i h - get_risk mean p i (- h)) / (2 * h)
     = mean (asset_returns (X p) i) - nth i (cost_vec n (management_fees p)) 0).
  { intros i Hi. rewrite !Hm by lia. unfold mean, len, asset_returns. rewrite map_length.
    change (rsum (map (fun row => nth i row 0) (X p))) with (sum_over (X p) (fun row => nth i row 0)). field. split; lra. }
  destruct (contribution_list mean p h _ G) as [C _]. rewrite A1 in C. split; [exact C|].
  rewrite C, map_map. cbn [fst].
  assert (Hdot: forall x, length x = n -> dot (weights p) x = sum_over (seq 0 n) (fun i => nth i (weights p) 0 * nth i x 0)).
  { intros x Lx. clear -A1 Lx. revert n x A1 Lx. generalize (weights p). induction l as [|y w IH]; intros n [|z x] A L; cbn in A, L; subst; try discriminate; [reflexivity|].
    rewrite dot_cons. cbn [seq length]. rewrite so_cons. cbn [nth]. f_equal. rewrite <- seq_shift, so_map. apply IH; auto. }
  change (rsum (map (fun i => nth i (weights p) 0 * (mean (asset_returns (X p) i) - nth i (cost_vec n (management_fees p)) 0)) (seq 0 n)))
    with (sum_over (seq 0 n) (fun i => nth i (weights p) 0 * (mean (asset_returns (X p) i) - nth i (cost_vec n (management_fees p)) 0))).
  rewrite (so_ext _ (fun i => nth i (weights p) 0 * mean (asset_returns (X p) i) - nth i (weights p) 0 * nth i (cost_vec n (management_fees p)) 0)) by (intros; ring).
  rewrite so_sub. rewrite <- (Hdot (cost_vec n (management_fees p))) by (destruct (management_fees p); cbn in *; rewrite ?repeat_length; auto).
  unfold mean, len. rewrite A6, HT, !map_length.
  replace (dot (cost_vec n (Scalar 0)) (map Rabs (vmap2 Rminus (previous_weights p) (weights p)))) with 0.
  2:{ cbn [cost_vec]. generalize (map Rabs (vmap2 Rminus (previous_weights p) (weights p))). clear. induction n as [|n IH]; intros [|y l]; try reflexivity. cbn [repeat]. rewrite dot_cons, <- IH. lra. }
  set (c := dot (cost_vec n (management_fees p)) (weights p)).
  change (rsum (map (fun row => dot (weights p) row - 0 - c) (X p))) with (sum_over (X p) (fun row => dot (weights p) row - 0 - c)).
  rewrite so_sub, so_sub, !so_const.
  rewrite (so_ext (dot (weights p)) (fun row => sum_over (seq 0 n) (fun i => nth i (weights p) 0 * nth i row 0))) by (intros row Hr; apply Hdot, A3, Hr).
  rewrite so_swap. rewrite (so_ext (fun i => sum_over (X p) (fun row => nth i (weights p) 0 * nth i row 0)) (fun i => INR (length (X p)) * (nth i (weights p) 0 * (rsum (asset_returns (X p) i) / INR (length (asset_returns (X p) i)))))).
  2:{ intros i _. rewrite so_scal. unfold asset_returns. rewrite map_length. change (rsum (map (fun row => nth i row 0) (X p))) with (sum_over (X p) (fun row => nth i row 0)). field. lra. }
  rewrite so_scal. unfold c. rewrite (dot_comm (cost_vec n (management_fees p))). field. lra.
Qed.
Print Assumptions C19_mean_contributions.

(** variance: contribution = 2 weight times the covariance of the asset with the portfolio, whatever the step and
    whatever the costs and fees; they add up to twice the variance *)
Theorem C19_variance_contributions :
  forall (O : Type) n (p : portfolio O) h, built n p -> (2 <= length (X p))%nat -> h <> 0 ->
    compute_contribution variance p h false
      = map (fun i => (nth i (weights p) 0 * (2 * covariance (asset_returns (X p) i) (returns p)), i)) (seq 0 n)
    /\ rsum (map fst (compute_contribution variance p h false)) = 2 * variance (returns p).
Proof.
  intros O n p h B HX Hh. pose proof B as (A1&A2&A3&A4&A5&A6).
  assert (HN: 2 <= INR (length (X p))) by (apply le_INR in HX; cbn in HX; lra).
  set (N := INR (length (X p))) in *.
  set (mw := sum_over (X p) (dot (weights p)) / N).
  set (mi := fun i => sum_over (X p) (fun row => nth i row 0) / N).
  assert (Hv: forall i h', (i < n)%nat -> get_risk variance p i h' =
     sum_over (X p) (fun row => ((dot (weights p) row - mw) + h' * (nth i row 0 - mi i))^2) / (N - 1)).
  { intros i h' Hi. unfold get_risk. destruct (bumped_returns n p i h' B Hi) as (k&E&_). rewrite E. unfold variance, mean, len. rewrite !map_length. fold N.
    rewrite so_map. f_equal. apply so_ext. intros row _.
    change (rsum (map (fun row => dot (weights p) row + h' * nth i row 0 - k) (X p))) with (sum_over (X p) (fun row => dot (weights p) row + h' * nth i row 0 - k)).
    rewrite so_sub, so_add, so_scal, so_const. fold N. unfold mw, mi. f_equal. field. lra. }
  assert (Hret: exists k, returns p = map (fun row => dot (weights p) row - k) (X p)).
  { rewrite A6. exists (dot (cost_vec n (transaction_costs p)) (map Rabs (vmap2 Rminus (previous_weights p) (weights p)))
                        + dot (cost_vec n (management_fees p)) (weights p)). apply map_ext. intros row. ring. }
  destruct Hret as (k&Er).
  assert (Em: mean (returns p) = mw - k).
  { rewrite Er. unfold mean, len. rewrite map_length. fold N. change (rsum (map (fun row => dot (weights p) row - k) (X p))) with (sum_over (X p) (fun row => dot (weights p) row - k)).
    rewrite so_sub, so_const. fold N. unfold mw. field. lra. }
  assert (Hcov: forall i, covariance (asset_returns (X p) i) (returns p) = sum_over (X p) (fun row => (nth i row 0 - mi i) * (dot (weights p) row - mw)) / (N - 1)).
  { intros i. unfold covariance. rewrite Em, Er. unfold asset_returns at 3. rewrite map_length. fold N. f_equal.
    assert (Ei: mean (asset_returns (X p) i) = mi i) by (unfold mean, len, asset_returns, mi; rewrite map_length; reflexivity).
    rewrite Ei. unfold asset_returns. generalize (mi i). clearbody mw. clear. intros m. induction (X p) as [|row l IH]; [reflexivity|]. cbn [map combine]. rewrite !so_cons, IH. cbn [fst snd]. f_equal. ring. }
  assert (G: forall i, (i < length (weights p))%nat -> (get_risk variance p i h - get_risk variance p i (- h)) / (2 * h)
     = 2 * covariance (asset_returns (X p) i) (returns p)).
  { intros i Hi. rewrite !Hv, Hcov by lia.
    assert (D: sum_over (X p) (fun row => ((dot (weights p) row - mw) + h * (nth i row 0 - mi i))^2)
       - sum_over (X p) (fun row => ((dot (weights p) row - mw) + - h * (nth i row 0 - mi i))^2)
       = 4 * h * sum_over (X p) (fun row => (nth i row 0 - mi i) * (dot (weights p) row - mw))).
    { rewrite <- so_sub, <- so_scal. apply so_ext. intros; ring. }
    unfold Rdiv at 1 2 3. rewrite <- Rmult_minus_distr_r, D. field. split; lra. }
  destruct (contribution_list variance p h _ G) as [C _]. rewrite A1 in C. split; [exact C|].
  rewrite C, map_map. cbn [fst].
  change (rsum (map (fun i => nth i (weights p) 0 * (2 * covariance (asset_returns (X p) i) (returns p))) (seq 0 n)))
    with (sum_over (seq 0 n) (fun i => nth i (weights p) 0 * (2 * covariance (asset_returns (X p) i) (returns p)))).
  assert (Hdot: forall x, length x = n -> dot (weights p) x = sum_over (seq 0 n) (fun i => nth i (weights p) 0 * nth i x 0)).
  { intros x Lx. clear -A1 Lx. revert n x A1 Lx. generalize (weights p). induction l as [|y w IH]; intros n [|z x] A L; cbn in A, L; subst; try discriminate; [reflexivity|].
    rewrite dot_cons. cbn [seq length]. rewrite so_cons. cbn [nth]. f_equal. rewrite <- seq_shift, so_map. apply IH; auto. }
  rewrite (so_ext _ (fun i => 2 / (N - 1) * sum_over (X p) (fun row => (nth i (weights p) 0 * nth i row 0 - nth i (weights p) 0 * mi i) * (dot (weights p) row - mw)))).
  2:{ intros i _. rewrite Hcov. unfold Rdiv. rewrite (so_ext (fun row => (nth i (weights p) 0 * nth i row 0 - nth i (weights p) 0 * mi i) * (dot (weights p) row - mw))
        (fun row => nth i (weights p) 0 * ((nth i row 0 - mi i) * (dot (weights p) row - mw)))) by (intros; ring). rewrite so_scal. ring. }
  rewrite so_scal, so_swap.
  assert (Hmw: mw = sum_over (seq 0 n) (fun i => nth i (weights p) 0 * mi i)).
  { unfold mw, mi. rewrite (so_ext (dot (weights p)) (fun row => sum_over (seq 0 n) (fun i => nth i (weights p) 0 * nth i row 0))) by (intros row Hr; apply Hdot, A3, Hr).
    rewrite so_swap. unfold Rdiv. rewrite <- so_scal_r. apply so_ext. intros i _. rewrite so_scal. ring. }
  rewrite (so_ext _ (fun row => (dot (weights p) row - mw)^2)).
  2:{ intros row Hr. rewrite so_scal_r, so_sub, <- Hmw, <- (Hdot row) by (apply A3; auto). ring. }
  unfold variance, len. rewrite Em, Er, so_map, map_length. fold N.
  rewrite (so_ext (fun x => (dot (weights p) x - k - (mw - k))^2) (fun row => (dot (weights p) row - mw)^2)) by (intros; ring).
  field. lra.
Qed.
Print Assumptions C19_variance_contributions.

(** with [to_df=True] exactly the assets with a non-zero weight are kept, with the same values *)
Theorem C19_dropped_zero_weights :
  forall (O : Type) measure (p : portfolio O) h,
    compute_contribution measure p h true
    = filter (fun c => if Req_EM_T (nth (snd c) (weights p) 0) 0 then false else true) (compute_contribution measure p h false)
    /\ map snd (compute_contribution measure p h false) = seq 0 (length (weights p))
    /\ forall v i, In (v, i) (compute_contribution measure p h false) -> nth i (weights p) 0 = 0 -> v = 0.
Proof.
  intros O measure p h.
  destruct (contribution_list measure p h (fun i => (get_risk measure p i h - get_risk measure p i (- h)) / (2 * h)) ltac:(reflexivity)) as [C D].
  rewrite C, D. clear C D. generalize (fun i => (get_risk measure p i h - get_risk measure p i (- h)) / (2 * h)). intros g. split; [|split].
  - generalize (seq 0 (length (weights p))). induction l as [|i l IH]; [reflexivity|]. cbn [map filter snd].
    destruct (Req_EM_T (nth i (weights p) 0) 0); [exact IH|cbn [map]; f_equal; exact IH].
  - rewrite map_map. cbn. apply map_id.
  - intros v i Hi Hz. apply in_map_iff in Hi as (j&E&_). inversion E; subst. rewrite Hz. ring.
Qed.
Print Assumptions C19_dropped_zero_weights.

Example C19_example : built 2 ex_p /\ X ex_p <> [] /\ (2 <= length (X ex_p))%nat /\ transaction_costs ex_p = Scalar 0 /\ 1/100000 <> 0.
Proof. split; [apply C18_example|]. split; [discriminate|]. split; [cbn; lia|]. split; [reflexivity|lra]. Qed.
