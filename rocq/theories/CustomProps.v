(** Property C88: custom objectives and constraints, and the scales of the problem.
    The specification of the documented weights (allowed, expected, penalty, risk_is) is at the head of MeanRiskProps.v. *)
From Coq Require Import List Arith Bool Reals Lia Lra FunctionalExtensionality.
From Verif Require Import RList MeasuresModel MeasuresProofs EquationsModel EquationsSpec EquationsProps ConvexModel ConvexProps ConvexMoreProps RiskModel RiskProps RiskTailProps MeanRiskModel MeanRiskProps MeanRiskOptimalProps CustomModel.
Import ListNotations.
Local Open Scope R_scope.

(** ** Specification *)
(** the weights meet every custom constraint *)
Definition meets (C : list (vec -> Prop)) (x : vec) : Prop := forall c, In c C -> c x.
(** a constraint that does not depend on the size of the weights, e.g. a bound on a ratio of weights *)
Definition cone (c : vec -> Prop) : Prop := forall t x, 0 < t -> c (fun i => t * x i) <-> c x.
(** an objective that grows with the power [k] of the weights *)
Definition grows (k : nat) (g : vec -> R) : Prop := forall t x, 0 < t -> g (fun i => t * x i) = t ^ k * g x.

(** ** Calling custom functions *)
(** a function with one or two parameters, without defaults, gets the weight variable, or the weight variable and the
    estimator; everything else is refused *)
Theorem C88_call : forall E (c : code E), bound c = false -> n_defaults c = 0%nat ->
  (co_argcount c = 1%nat -> call_custom_func (Function c) = match body c [WeightVariable] with Some e => Value e | None => TypeError end) /\
  (co_argcount c = 2%nat -> call_custom_func (Function c) = match body c [WeightVariable; Estimator] with Some e => Value e | None => TypeError end) /\
  (co_argcount c <> 1%nat -> co_argcount c <> 2%nat -> call_custom_func (Function c) = ValueError) /\
  call_custom_func (E := E) NoCode = ValueError.
Proof.
  intros E c B D. unfold call_custom_func, python_call. rewrite B, D. split; [|split; [|split; [|reflexivity]]].
  - intros ->. reflexivity.
  - intros ->. reflexivity.
  - intros N1 N2. apply Nat.eqb_neq in N1, N2. now rewrite N1, N2.
Qed.
Print Assumptions C88_call.

(** no bound method without *args is ever accepted: the count includes the receiver *)
Theorem C88_method_refuted : forall E (c : code E) e, bound c = true -> call_custom_func (Function c) <> Value e.
Proof.
  intros E c e B. unfold call_custom_func, python_call. rewrite B. destruct (Nat.eqb_spec (co_argcount c) 1) as [->|N1]; [discriminate|].
  destruct (Nat.eqb_spec (co_argcount c) 2) as [->|N2]; discriminate.
Qed.
Print Assumptions C88_method_refuted.

(** a second parameter with a default value, as in lambda w, k=0.1: w >= k, gets the estimator instead of its default *)
Theorem C88_default_refuted :
  (forall E (c : code E), bound c = false -> co_argcount c = 2%nat -> n_defaults c = 1%nat ->
     python_call c [WeightVariable] = body c [WeightVariable; Default 1] /\
     call_custom_func (Function c) = match body c [WeightVariable; Estimator] with Some e => Value e | None => TypeError end) /\
  exists (c : code nat) e, python_call c [WeightVariable] = Some e /\ call_custom_func (Function c) = TypeError.
Proof.
  split.
  - intros E c B A D. unfold call_custom_func, python_call. rewrite B, A, D. split; reflexivity.
  - exists {| co_argcount := 2; n_defaults := 1; bound := false; body := fun l => match l with [WeightVariable; Default _] => Some 7%nat | _ => None end |}, 7%nat.
    split; reflexivity.
Qed.
Print Assumptions C88_default_refuted.

Theorem C88_absent : custom_objective None = Value (fun _ => 0) /\ custom_constraints None = Value [] /\
  (forall f l, call_custom_func f = Value (Many l) -> custom_constraints (Some f) = Value l) /\
  (forall f c, call_custom_func f = Value (One c) -> custom_constraints (Some f) = Value [c]) /\
  (forall f, custom_objective (Some f) = call_custom_func f) /\
  (forall f, call_custom_func f = ValueError -> custom_constraints (Some f) = ValueError) /\
  (forall f, call_custom_func f = TypeError -> custom_constraints (Some f) = TypeError).
Proof. repeat split; cbn; try intros f x H; try intros f H; try rewrite H; reflexivity. Qed.
Print Assumptions C88_absent.

(** ** Optimality with custom terms *)
Lemma one_weights p : f_ p = 1 -> weights p = w_ p.
Proof. intros F. unfold weights. rewrite F. extensionality i. unfold reported. field. Qed.

(** the reported weights are allowed, meet the custom constraints and are optimal for the documented objective plus the
    custom term, which is maximised with a maximised objective and minimised with a minimised one *)
Theorem C88_optimal : forall tf q g C cs p,
  0 < scale (settings_ q) -> 0 < scale_objective_ q -> costs_ok (settings_ q) -> is_mip (n_assets (prior_ q)) (params_ q) = false -> accepted tf q cs ->
  objective_ q <> MAXIMIZE_RATIO -> optimal_custom tf q g C p ->
  let x := weights p in
  allowed tf q cs x /\ meets C x /\
  forall y rx ry, allowed tf q cs y -> meets C y -> risk_is q (risk_measure_ q) x rx -> risk_is q (risk_measure_ q) y ry ->
    match objective_ q with
    | MINIMIZE_RISK => rx + penalty q x + g x <= ry + penalty q y + g y
    | MAXIMIZE_RETURN => expected q y - penalty q y + g y <= expected q x - penalty q x + g x
    | MAXIMIZE_UTILITY => 0 <= risk_aversion_ q ->
        expected q y - risk_aversion_ q * ry - penalty q y + g y <= expected q x - risk_aversion_ q * rx - penalty q x + g x
    | MAXIMIZE_RATIO => True
    end.
Proof.
  intros tf q g C cs p Hs Hso Hc Hmip Hacc Ho [[Hf HC] Hopt] x.
  assert (Ir: is_ratio q = false) by (unfold is_ratio; destruct (objective_ q); auto; congruence).
  assert (F1: f_ p = 1) by (destruct Hf as [[H|H] _]; congruence). assert (Hp: 0 < f_ p) by lra.
  assert (Ex: x = w_ p) by (apply one_weights; auto).
  split; [apply (C36_weights_allowed tf q cs p Hs Hc Hacc Hf Hp); intros; contradiction|].
  split; [rewrite Ex; rewrite Forall_forall in HC; exact HC|]. intros y rx ry Hy HCy Hx Hry.
  destruct (feasible_complete tf q cs Hs Hc Hmip y 1 ry) as (p'&Hf'&Ew&Ef&Hr); auto.
  { split; [lra|auto]. } { congruence. } { destruct Hry as [(a&Ha&Ea) _]. exists a. split; auto. lra. }
  assert (Ey: w_ p' = y) by (rewrite Ew; extensionality i; unfold svec; ring).
  assert (HC': feasible_custom tf q C p') by (split; auto; rewrite Ey; apply Forall_forall; exact HCy).
  specialize (Hopt p' HC'). pose proof (risk_lower tf q Hs p rx Hf Hp Hx) as Hlow. rewrite F1, pow1 in Hlow. rewrite pow1 in Hr.
  assert (Rx: regularization q (w_ p) = penalty q x) by (rewrite Ex; reflexivity). assert (Ry: regularization q (w_ p') = penalty q y) by (rewrite Ey; reflexivity).
  assert (Erx: er q p = expected q x). { rewrite (er_scale q Hc (f_ p) x p); auto; [rewrite F1; ring|]. rewrite Ex, F1. extensionality i. unfold svec. ring. }
  assert (Ery: er q p' = expected q y). { rewrite (er_scale q Hc 1 y p'); auto; [ring|lra]. }
  unfold loss_custom in Hopt. rewrite Ey, <- Ex in Hopt. rewrite Ex in Rx. rewrite Ey in Ry.
  destruct (objective_ q); [| | |auto]; rewrite ?Erx, ?Ery in Hopt; rewrite <- Ex in Rx; rewrite ?Rx, ?Ry in Hopt.
  - assert (risk q p + penalty q x + g x <= risk q p' + penalty q y + g y) by (apply Rmult_le_reg_r with (scale_objective_ q); lra). lra.
  - apply Rmult_le_reg_r with (scale_objective_ q); lra.
  - intros Hra. assert (expected q y - risk_aversion_ q * risk q p' - penalty q y + g y <= expected q x - risk_aversion_ q * risk q p - penalty q x + g x) by (apply Rmult_le_reg_r with (scale_objective_ q); nra).
    assert (risk_aversion_ q * rx <= risk_aversion_ q * risk q p) by (apply Rmult_le_compat_l; lra). assert (risk_aversion_ q * risk q p' <= risk_aversion_ q * ry) by (apply Rmult_le_compat_l; lra). lra.
Qed.
Print Assumptions C88_optimal.

(** with the ratio, custom constraints that do not depend on the size of the weights hold for the reported weights, and a
    custom term that grows like the risk is added to the risk *)
Theorem C88_ratio : forall tf q g C cs p,
  0 < scale (settings_ q) -> 0 < scale_objective_ q -> costs_ok (settings_ q) -> is_mip (n_assets (prior_ q)) (params_ q) = false -> accepted tf q cs ->
  objective_ q = MAXIMIZE_RATIO -> l2_ q = 0 -> (homogeneous (risk_measure_ q) \/ l1_ q = 0) ->
  max_tracking_error_ q = None -> (forall rm, ~ homogeneous rm -> limits_ q rm = None) ->
  (forall c, In c C -> cone c) -> grows (degree (risk_measure_ q)) g ->
  optimal_custom tf q g C p -> 0 < f_ p ->
  let x := weights p in
  allowed tf q cs x /\ meets C x /\ 0 < excess q x /\
  forall y rx ry, allowed tf q cs y -> meets C y -> 0 < excess q y -> risk_is q (risk_measure_ q) x rx -> risk_is q (risk_measure_ q) y ry ->
    (is_affine (n_assets (prior_ q)) (costs (settings_ q)) (mu_uncertainty_ q) = true \/ 0 <= ry + penalty q y + g y) ->
    (rx + penalty q x + g x) * excess q y ^ degree (risk_measure_ q) <= (ry + penalty q y + g y) * excess q x ^ degree (risk_measure_ q).
Proof.
  intros tf q g C cs p Hs Hso Hc Hmip Hacc Ho Hl2 Hl1 Hte Hlim Hcone Hg [[Hf HC] Hopt] Hp x.
  assert (Ir: is_ratio q = true) by (unfold is_ratio; rewrite Ho; auto).
  set (h := homogenization_factor (n_assets (prior_ q)) (mu (prior_ q))). assert (Hh: 0 < h) by apply C33_homogenization_factor.
  assert (Fo: factor_ok q (f_ p)) by (split; auto).
  destruct (feasible_sound tf q cs Hs Hc p Hf Fo (proj1 Hacc)) as [A B]. destruct (B Ir) as [B1 B2]. fold h in B1, B2. fold x in A, B1, B2.
  assert (Ew0: w_ p = svec (f_ p) x) by (symmetry; apply reported_svec; auto).
  split; [exact A|]. rewrite Forall_forall in HC.
  split. { intros c Ic. apply (Hcone c Ic (f_ p) x Hp). specialize (HC c Ic). rewrite Ew0 in HC. exact HC. }
  split; [nra|]. intros y rx ry Hy HCy Hey Hx Hry Haff.
  set (t := h / excess q y). assert (Ht: 0 < t) by (apply Rdiv_lt_0_compat; auto).
  destruct (feasible_complete tf q cs Hs Hc Hmip y t ry) as (p'&Hf'&Ew&Ef&Hr); auto.
  { split; auto. } { intros _. fold h. assert (Eh: h = t * excess q y) by (unfold t; field; lra). split; [lra|auto]. } { congruence. } { destruct Hry as [(a&Ha&Ea) _]. exists a. split; auto. lra. }
  assert (HC': feasible_custom tf q C p'). { split; auto. apply Forall_forall. intros c Ic. rewrite Ew. apply (Hcone c Ic t y Ht). exact (HCy c Ic). }
  specialize (Hopt p' HC'). unfold loss_custom in Hopt. rewrite Ho in Hopt.
  assert (Hopt': risk q p + regularization q (w_ p) + g (w_ p) <= risk q p' + regularization q (w_ p') + g (w_ p')) by (apply Rmult_le_reg_r with (scale_objective_ q); lra). clear Hopt.
  pose proof (risk_lower tf q Hs p rx Hf Hp Hx) as Hlow.
  assert (Rx: regularization q (w_ p) = f_ p * penalty q x).
  { unfold regularization, penalty. rewrite Hl2, Ew0. rewrite l1_scale by auto. unfold sumn. ring. }
  assert (Ry: regularization q (w_ p') = t * penalty q y).
  { unfold regularization, penalty. rewrite Hl2, Ew. rewrite l1_scale by auto. unfold sumn. ring. }
  assert (Gx: g (w_ p) = f_ p ^ degree (risk_measure_ q) * g x) by (rewrite Ew0; apply Hg; auto).
  assert (Gy: g (w_ p') = t ^ degree (risk_measure_ q) * g y) by (rewrite Ew; apply Hg; auto).
  rewrite Rx, Ry, Gx, Gy in Hopt'.
  assert (Ht': t * excess q y = h) by (unfold t; field; lra).
  destruct (hom_dec (risk_measure_ q)) as [Hd|Hd].
  - rewrite (degree_hom _ Hd) in *. rewrite !pow_1 in *. set (cx := rx + penalty q x + g x). set (cy := ry + penalty q y + g y).
    assert (M: f_ p * cx <= t * cy) by (unfold cx, cy; nra).
    assert (M2: f_ p * (cx * excess q y) <= h * cy) by (rewrite <- Ht'; nra).
    apply Rmult_le_reg_l with (f_ p); auto. eapply Rle_trans; [exact M2|]. rewrite <- Rmult_assoc, (Rmult_comm (f_ p) cy), Rmult_assoc, (Rmult_comm cy).
    destruct Haff as [Ha|Ha]; [rewrite (B2 Ha); lra|]. apply Rmult_le_compat_r; auto.
  - assert (E2: degree (risk_measure_ q) = 2%nat). { unfold homogeneous in Hd. destruct (risk_measure_ q); try reflexivity; exfalso; apply Hd; split; discriminate. }
    destruct Hl1 as [Hl1|Hl1]; [contradiction|]. assert (P0: forall v, penalty q v = 0) by (intros v; unfold penalty; rewrite Hl1, Hl2; ring). rewrite E2 in *. rewrite !P0 in *. rewrite !Rplus_0_r in *.
    set (cx := rx + g x) in *. set (cy := ry + g y) in *.
    assert (M: f_ p ^ 2 * cx <= t ^ 2 * cy) by (unfold cx, cy; lra).
    assert (M2: f_ p ^ 2 * (cx * excess q y ^ 2) <= h ^ 2 * cy). { rewrite <- Ht'. replace ((t * excess q y) ^ 2 * cy) with (t ^ 2 * cy * excess q y ^ 2) by ring. rewrite <- Rmult_assoc. apply Rmult_le_compat_r; [apply pow2_ge_0|auto]. }
    apply Rmult_le_reg_l with (f_ p ^ 2); [apply pow_lt; auto|]. eapply Rle_trans; [exact M2|]. replace (f_ p ^ 2 * (cy * excess q x ^ 2)) with ((f_ p * excess q x) ^ 2 * cy) by ring.
    destruct Haff as [Ha|Ha]; [rewrite (B2 Ha); lra|]. apply Rmult_le_compat_r; auto. apply sq_mono; lra.
Qed.
Print Assumptions C88_ratio.

(** with the ratio, other custom constraints are imposed on the weights before they are divided by the factor: the upper
    bound 1/2 on the first asset is met by the weight variable of this optimum and not by the reported weights *)
Theorem C88_ratio_refuted : exists q C p, objective_ q = MAXIMIZE_RATIO /\ 0 < f_ p /\ optimal_custom no_float q (fun _ => 0) C p /\ ~ meets C (weights p) /\
  exists y, allowed no_float q [] y /\ meets C y /\ 0 < excess q y.
Proof.
  set (q := ratio_example None (fun _ => None)). set (C := [(fun w : vec => w 0%nat <= 1/2)]).
  exists q, C, half_point. split; [reflexivity|]. split; [cbn; lra|].
  destruct C36_optimal_point_exists as [F O].
  assert (L: forall x, loss_custom q (fun _ => 0) x = loss q x) by (intros x; unfold loss_custom, loss; cbn [q ratio_example objective_ scale_objective_]; ring).
  split; [|split].
  - split; [split; [exact F|constructor; [cbn; lra|constructor]]|]. intros x' [F' _]. rewrite !L. now apply O.
  - intros M. specialize (M _ (or_introl eq_refl)). cbn in M. unfold weights, reported in M. cbn in M. lra.
  - destruct C36_hypotheses_met as (_&_&_&_&_&_&A).
    exists (two (1/2) (1/2)). split; [|split].
    + split; [|split; [exact I|split; [exact I|split; [exact I|intros rm l E; discriminate E]]]].
      assert (T: forall i, (i < 2)%nat -> two (1/2) (1/2) i = 1/2) by (intros [|[|i]] Hi; [reflexivity|reflexivity|lia]).
      split; [intros i Hi; rewrite (T i Hi); cbn; lra|]. split; [intros i Hi; rewrite (T i Hi); cbn; lra|].
      do 4 (split; [exact I|]). split; [cbn; lra|]. split; [constructor|]. intros l r E. discriminate E.
    + intros c [<-|[]]. cbn. lra.
    + unfold excess, expected, total_cost, total_fee. cbn. lra.
Qed.
Print Assumptions C88_ratio_refuted.

(** ** Scales *)
Definition same (a b : cres (list constraint)) : Prop :=
  match a, b with
  | COk l, COk m => Forall holds_at l <-> Forall holds_at m
  | CErr e, CErr e' => e = e'
  | _, _ => False
  end.
(** a list of constraints whose truth does not depend on a positive scale *)
Definition unscaled (l : R -> cres (list constraint)) : Prop := forall s s', 0 < s -> 0 < s' -> same (l s) (l s').
Definition unscaled_list (l : R -> list constraint) : Prop := forall s s', 0 < s -> 0 < s' -> (Forall holds_at (l s) <-> Forall holds_at (l s')).
Definition unscaled_one (c : R -> constraint) : Prop := forall s s', 0 < s -> 0 < s' -> (holds_at (c s) <-> holds_at (c s')).

Lemma u_err e : unscaled (fun _ => CErr e). Proof. intros s s' _ _. reflexivity. Qed.
Lemma u_ok l : unscaled_list l -> unscaled (fun s => COk (l s)). Proof. intros H s s' A B. exact (H s s' A B). Qed.
Lemma u_app a b : unscaled a -> unscaled b -> unscaled (fun s => a s +++ b s).
Proof.
  intros A B s s' P Q. specialize (A s s' P Q). specialize (B s s' P Q). destruct (a s), (a s'); cbn in *; try contradiction; auto.
  destruct (b s), (b s'); cbn in *; try contradiction; auto. rewrite !Forall_app. tauto.
Qed.
Lemma l_const l : unscaled_list (fun _ => l). Proof. intros s s' _ _. tauto. Qed.
Lemma l_app a b : unscaled_list a -> unscaled_list b -> unscaled_list (fun s => a s ++ b s).
Proof. intros A B s s' P Q. specialize (A s s' P Q). specialize (B s s' P Q). rewrite !Forall_app. tauto. Qed.
Lemma l_one c : unscaled_one c -> unscaled_list (fun s => [c s]).
Proof. intros A s s' P Q. specialize (A s s' P Q). rewrite !Forall_cons_iff. intuition constructor. Qed.
Lemma l_cons c l : unscaled_one c -> unscaled_list l -> unscaled_list (fun s => c s :: l s).
Proof. intros A B s s' P Q. specialize (A s s' P Q). specialize (B s s' P Q). rewrite !Forall_cons_iff. tauto. Qed.
Lemma l_map {A} (c : R -> A -> constraint) (l : list A) : (forall x, unscaled_one (fun s => c s x)) -> unscaled_list (fun s => map (c s) l).
Proof. intros H s s' P Q. rewrite !Forall_map. split; apply Forall_impl; intros x; apply (H x s s' P Q). Qed.
Lemma l_flat {A} (c : R -> A -> list constraint) (l : list A) : (forall x, unscaled_list (fun s => c s x)) -> unscaled_list (fun s => flat_map (c s) l).
Proof. intros H s s' P Q. rewrite !Forall_flat_map. split; apply Forall_impl; intros x; apply (H x s s' P Q). Qed.
Lemma l_each n (c : R -> nat -> constraint) : (forall x, unscaled_one (fun s => c s x)) -> unscaled_list (fun s => elementwise n (c s)).
Proof. apply l_map. Qed.
Lemma c_const c : unscaled_one (fun _ => c). Proof. intros s s' _ _. tauto. Qed.
Lemma c_le F G : (forall s, G s - F s = s * (G 1 - F 1)) -> unscaled_one (fun s => Le (F s) (G s)).
Proof.
  intros H s s' P Q. cbn. pose proof (H s) as A. pose proof (H s') as B.
  assert (X: forall s, 0 < s -> (0 <= s * (G 1 - F 1) <-> 0 <= G 1 - F 1)).
  { clear. intros s P. split; intros H; [|apply Rmult_le_pos; lra]. apply Rmult_le_reg_l with s; lra. }
  pose proof (X s P) as X1. pose proof (X s' Q) as X2. rewrite <- A in X1. rewrite <- B in X2.
  split; intros E; [assert (D: 0 <= G 1 - F 1) by (apply X1; lra); apply X2 in D|assert (D: 0 <= G 1 - F 1) by (apply X2; lra); apply X1 in D]; lra.
Qed.
Lemma c_eq F G : (forall s, G s - F s = s * (G 1 - F 1)) -> unscaled_one (fun s => Eq (F s) (G s)).
Proof.
  intros H s s' P Q. cbn. pose proof (H s) as A. pose proof (H s') as B.
  assert (X: forall s, 0 < s -> s * (G 1 - F 1) = 0 -> G 1 - F 1 = 0).
  { clear. intros s P H. apply Rmult_integral in H as [H|H]; lra. }
  split; intros E.
  - assert (D: G 1 - F 1 = 0) by (apply (X s P); lra). rewrite D in B. lra.
  - assert (D: G 1 - F 1 = 0) by (apply (X s' Q); lra). rewrite D in A. lra.
Qed.
Lemma c_exp x y z : unscaled_one (fun s => ExpCone (x * s) (y * s) (z * s)).
Proof.
  assert (X: forall s s', 0 < s -> 0 < s' -> holds_at (ExpCone (x * s) (y * s) (z * s)) -> holds_at (ExpCone (x * s') (y * s') (z * s'))).
  { intros s s' P Q H. assert (K: 0 < s' / s) by (now apply Rdiv_lt_0_compat).
    apply (cone_scale (s' / s) (x * s) (y * s) (z * s) (x * s') (y * s') (z * s')); auto; field; lra. }
  intros s s' P Q. split; apply X; auto.
Qed.
Lemma c_exp_ext x y z : (forall s, x s = x 1 * s) -> (forall s, y s = y 1 * s) -> (forall s, z s = z 1 * s) -> unscaled_one (fun s => ExpCone (x s) (y s) (z s)).
Proof. intros A B C s s' P Q. rewrite (A s), (B s), (C s), (A s'), (B s'), (C s'). now apply c_exp. Qed.
Ltac one := first [apply c_const | apply c_le; intros; ring | apply c_eq; intros; ring | apply c_exp_ext; intros; ring].
Ltac lists := repeat first [assumption | apply l_const | apply l_app | apply l_each; intros; one | apply l_map; intros; one | apply l_cons; [one|] | apply l_one; one].

Section Scale.
  Variable tf : str -> option R.
  Lemma u_mip n p v w f m : unscaled (fun s => mip_constraints n p s v w f m).
  Proof.
    unfold mip_constraints. destruct (negb (is_mip n p)); [apply u_ok, l_const|]. destruct (min_weights p) as [mn|]; [|apply u_err].
    destruct (max_weights p) as [mx|]; [|apply u_err]. destruct (all n _); [apply u_err|]. destruct (_ && negb _); [apply u_err|].
    destruct (_ && _ && _); [apply u_err|]. destruct (_ && negb _); [apply u_err|].
    assert (K: forall t, unscaled (fun s => mip_no_short n p s v w f m mn mx t)).
    { intros t. unfold mip_no_short. apply u_app; [apply u_ok; lists|]. apply u_app; [destruct (group_card_constraints _ _ _); [apply u_ok, l_const|apply u_err]|].
      apply u_ok. apply l_app; [apply l_const|]. apply l_app; [destruct t; lists|]. apply l_app; [lists|]. destruct (any n _); lists. }
    destruct (_ && _); [|apply K]. destruct (clean_threshold n (threshold_long p)) as [tl|]; [|apply u_err]. destruct (clean_threshold n (threshold_short p)) as [ts|]; [|apply u_err].
    unfold mip_short. apply u_app; [apply u_ok; lists|]. apply u_app; [destruct (group_card_constraints _ _ _); [apply u_ok, l_const|apply u_err]|].
    apply u_ok. lists.
  Qed.
  Lemma u_weights n p names ms an fv w f m : unscaled (fun s => weight_constraints tf n p names ms an fv s w f m).
  Proof.
    unfold weight_constraints. destruct (_ && _); [apply u_err|].
    apply u_app; [destruct (min_weights p); [destruct (_ && _); [apply u_err|]|]; apply u_ok; lists|].
    apply u_app; [destruct (max_weights p); apply u_ok; lists|].
    apply u_app; [destruct (max_long p); [destruct (ltb _ _); [|apply u_err]|]; apply u_ok; lists|].
    apply u_app; [destruct (max_short p); [destruct (ltb _ _); [|apply u_err]|]; apply u_ok; lists|].
    apply u_app; [destruct (min_budget p); apply u_ok; lists|].
    apply u_app; [destruct (max_budget p); apply u_ok; lists|].
    apply u_app; [destruct (budget p); [destruct (is_some _); [apply u_err|]; destruct (is_some _); [apply u_err|]|]; apply u_ok; lists|].
    apply u_app; [apply u_mip|].
    apply u_app.
    - destruct (linear_constraints p) as [eqs|]; [|apply u_ok; lists]. destruct (match groups p with Some g => Some g | None => _ end) as [g|]; [|apply u_err].
      destruct (equations_to_matrix _ _ _ _ _ _); [|apply u_err]. apply u_ok. lists.
    - destruct (left_inequality p) as [l|]; [|apply u_ok; lists]. destruct (right_inequality p) as [r|]; [|apply u_ok; lists].
      destruct (_ && _); [|apply u_err]. apply u_ok. lists.
  Qed.
  Lemma u_risk pm st rm w f a :
    unscaled_list (fun s => risk_constraints pm {| costs := costs st; previous := previous st; fees := fees st; mar := mar st; risk_free_rate := risk_free_rate st;
       cvar_beta := cvar_beta st; evar_beta := evar_beta st; cdar_beta := cdar_beta st; edar_beta := edar_beta st; scale := s |} rm w f a).
  Proof.
    assert (Q: unscaled_list (fun s => [Le 0 (u a); Le (sqrt (sumn (n_assets pm) (fun k => (sumn (n_assets pm) (fun i => cholesky pm i k * w i) * s) ^ 2))) (u a * s)])).
    { apply l_cons; [one|]. intros s s' P P'. rewrite !Forall_cons_iff. cbn [holds_at].
      assert (K: forall s, 0 < s -> sqrt (sumn (n_assets pm) (fun k => (sumn (n_assets pm) (fun i => cholesky pm i k * w i) * s) ^ 2)) =
        sqrt (sumn (n_assets pm) (fun k => (sumn (n_assets pm) (fun i => cholesky pm i k * w i)) ^ 2)) * s).
      { clear. intros s P. set (b := fun k => sumn (n_assets pm) (fun i => cholesky pm i k * w i)).
        transitivity (sqrt (sumn (n_assets pm) (fun k => b k ^ 2) * s ^ 2)).
        - f_equal. unfold sumn. rewrite <- so_scal_r. apply so_ext. intros k _. fold (b k). unfold b, sumn. ring.
        - rewrite sqrt_mult_alt by (apply so_nonneg; intros; apply pow2_ge_0). rewrite sqrt_pow2 by lra. reflexivity. }
      rewrite (K s P), (K s' P'). generalize (sqrt (sumn (n_assets pm) (fun k => (sumn (n_assets pm) (fun i => cholesky pm i k * w i)) ^ 2))). intros r.
      assert (B: unscaled_one (fun s => Le (r * s) (u a * s))) by one. specialize (B s s' P P'). cbn in B. intuition constructor. }
    assert (D: unscaled_list (fun s => drawdown_constraints pm {| costs := costs st; previous := previous st; fees := fees st; mar := mar st; risk_free_rate := risk_free_rate st;
       cvar_beta := cvar_beta st; evar_beta := evar_beta st; cdar_beta := cdar_beta st; edar_beta := edar_beta st; scale := s |} w f a)).
    { unfold drawdown_constraints, cost, fee. cbn [scale costs previous fees]. lists. }
    destruct rm; unfold risk_constraints; auto; unfold cost, fee, min_acceptable; cbn [scale risk_free_rate costs previous fees mar]; auto.
    all: unfold nonneg; lists.
  Qed.
  Lemma u_problem q so x : unscaled (fun s => problem_constraints tf (with_scales so s q) x).
  Proof.
    unfold problem_constraints. apply u_app; [apply u_ok; cbn; unfold tracking_constraints; destruct (max_tracking_error_ q); lists|].
    apply u_app; [cbn; unfold turnover_constraints; destruct (max_turnover_ q); [destruct (has_previous_ q); [|apply u_err]|]; apply u_ok; lists|].
    apply u_app; [exact (u_weights (n_assets (prior_ q)) (params_ q) (names_ q) (mip_solver_ q) true (is_ratio q) (w_ x) (f_ x) (m_ x))|].
    apply u_app; [apply u_ok; unfold min_return_constraints; cbn [with_scales min_return_ settings_ scale]; destruct (min_return_ q); [|apply l_const]|].
    { apply l_one. apply (c_le (fun s => r * f_ x * s) (fun s => er q x * s)). intros. ring. }
    apply u_app; [apply u_ok|].
    - unfold risk_block. apply l_flat. intros rm. cbn [with_scales prior_ settings_ risk_measure_ limits_ scale]. destruct (rm_eqb _ _ || _); [|apply l_const].
      apply l_app; [apply u_risk|]. destruct (limits_ q rm); [|apply l_const]. apply l_one. unfold risk_limit_constraint.
      apply (c_le (fun s => risk_value (prior_ q) (settings_ q) rm (w_ x) (f_ x) (aux_of x rm) * s)). intros. ring.
    - apply u_ok. change (fun s => if is_ratio (with_scales so s q) then _ else _) with
        (fun s => if is_ratio q then [ratio_constraint s (er q x) (risk_free_rate (settings_ q)) (homogenization_factor (n_assets (prior_ q)) (mu (prior_ q))) (f_ x)
                                        (is_affine (n_assets (prior_ q)) (costs (settings_ q)) (mu_uncertainty_ q))] else []).
      destruct (is_ratio q); [|apply l_const]. unfold ratio_constraint. destruct (is_affine _ _ _); lists.
  Qed.
  Lemma feasible_scales q so so' s s' x : 0 < s -> 0 < s' -> feasible tf (with_scales so s q) x -> feasible tf (with_scales so' s' q) x.
  Proof.
    intros P Q [F (l&E&H)]. split; [exact F|]. pose proof (u_problem q so x s s' P Q) as U. cbn beta in U. rewrite E in U.
    change (problem_constraints tf (with_scales so' s' q) x) with (problem_constraints tf (with_scales so s' q) x).
    destruct (problem_constraints tf (with_scales so s' q) x) as [m|]; [|contradiction]. exists m. split; [reflexivity|]. now apply U.
  Qed.
End Scale.

Lemma own_scales q : with_scales (scale_objective_ q) (scale (settings_ q)) q = q.
Proof. destruct q as [? st]. destruct st. reflexivity. Qed.

(** the scales only change the numbers given to the solver: a point is feasible, or optimal, with some positive scales if and
    only if it is with any others, mixed-integer problems included, and the reported objective is the same *)
Theorem C88_scale : forall tf q g C so sc x, 0 < scale (settings_ q) -> 0 < scale_objective_ q -> 0 < so -> 0 < sc ->
  (feasible_custom tf (with_scales so sc q) C x <-> feasible_custom tf q C x) /\
  (optimal_custom tf (with_scales so sc q) g C x <-> optimal_custom tf q g C x) /\
  reported_objective (with_scales so sc q) g x = reported_objective q g x /\
  reported_objective q g x = match objective_ q with
    | MINIMIZE_RISK | MAXIMIZE_RATIO => risk q x + regularization q (w_ x) + g (w_ x)
    | MAXIMIZE_RETURN => er q x - regularization q (w_ x) + g (w_ x)
    | MAXIMIZE_UTILITY => er q x - risk_aversion_ q * risk q x - regularization q (w_ x) + g (w_ x)
    end.
Proof.
  intros tf q g C so sc x P Po Pso Psc.
  assert (F: forall x, feasible_custom tf (with_scales so sc q) C x <-> feasible_custom tf q C x).
  { intros y. unfold feasible_custom. rewrite <- (own_scales q) at 2. split; intros [A B]; (split; [|exact B]); now apply feasible_scales with (3 := A). }
  assert (L: forall x, loss_custom q g x * so = loss_custom (with_scales so sc q) g x * scale_objective_ q).
  { intros y. unfold loss_custom. change (objective_ (with_scales so sc q)) with (objective_ q). change (scale_objective_ (with_scales so sc q)) with so.
    change (er (with_scales so sc q) y) with (er q y). change (risk (with_scales so sc q) y) with (risk q y). change (regularization (with_scales so sc q) (w_ y)) with (regularization q (w_ y)).
    change (risk_aversion_ (with_scales so sc q)) with (risk_aversion_ q). destruct (objective_ q); ring. }
  split; [apply F|]. split; [|split].
  - unfold optimal_custom. rewrite F. split; intros [A B]; (split; [exact A|]); intros x' H.
    + apply F in H. specialize (B x' H). apply Rmult_le_reg_r with so; auto. rewrite !L. apply Rmult_le_compat_r; lra.
    + apply F in H. specialize (B x' H). apply Rmult_le_reg_r with (scale_objective_ q); auto. rewrite <- !L. apply Rmult_le_compat_r; lra.
  - unfold reported_objective. change (objective_ (with_scales so sc q)) with (objective_ q). change (scale_objective_ (with_scales so sc q)) with so.
    specialize (L x). assert (E: loss_custom (with_scales so sc q) g x / so = loss_custom q g x / scale_objective_ q).
    { apply Rmult_eq_reg_r with (so * scale_objective_ q); [|nra]. field_simplify; lra. }
    destruct (objective_ q); try exact E; unfold Rdiv in *; lra.
  - unfold reported_objective, loss_custom. destruct (objective_ q); field; lra.
Qed.
Print Assumptions C88_scale.

(** neither scale is checked: when scale_objective is zero every feasible point is a solution *)
Theorem C88_scale_refuted : forall tf q g C x, scale_objective_ q = 0 -> feasible_custom tf q C x -> optimal_custom tf q g C x.
Proof.
  intros tf q g C x E F. split; [exact F|]. intros x' _. unfold loss_custom. rewrite E. destruct (objective_ q); lra.
Qed.
Print Assumptions C88_scale_refuted.

(** the hypotheses of the theorems are met: the return of two assets is maximised with at most half of the weight in the best
    one and a bonus for the other one; and the ratio with a cone and a penalty on the second asset *)
Definition return_example : mean_risk :=
  {| prior_ := two_assets; settings_ := free; params_ := long_only; names_ := None; mip_solver_ := false;
     objective_ := MAXIMIZE_RETURN; risk_measure_ := STANDARD_DEVIATION; limits_ := fun _ => None; min_return_ := None; max_turnover_ := None; has_previous_ := false;
     max_tracking_error_ := None; benchmark_ := fun _ => 19; mu_uncertainty_ := None; l1_ := 0; l2_ := 0; risk_aversion_ := 1; scale_objective_ := 1; overwrite_ := None |}.
Definition even_point : point :=
  {| w_ := two (1/2) (1/2); f_ := 1; m_ := no_mip;
     a_ := fun _ => {| alpha := 0; u := 1; ex := 0; ey := 0; v := fun _ => 0; z := fun _ => 0; gx := fun _ => 0; gy := fun _ => 0; dd := fun _ => 0 |};
     common_dd := fun _ => 0 |}.
Lemma even_feasible : feasible no_float return_example even_point.
Proof.
  split; [right; reflexivity|]. unfold problem_constraints. eexists. split; [reflexivity|]. cbn [tracking_constraints max_tracking_error_ return_example app].
  rewrite !Forall_app. repeat split; try constructor; cbn; unfold sumn; cbn; try lra.
  all: try (repeat (constructor; [cbn; unfold sumn; cbn; try lra|]); try constructor).
  replace (1 * 1) with (sqrt 1) by (rewrite sqrt_1; ring). apply sqrt_lt_1_alt. lra.
Qed.
Example C88_applies :
  let g := fun w : vec => w 1%nat in let C := [fun w : vec => w 0%nat <= 1/2] in let q := return_example in
  (0 < scale (settings_ q) /\ 0 < scale_objective_ q /\ costs_ok (settings_ q) /\ is_mip (n_assets (prior_ q)) (params_ q) = false /\ accepted no_float q [] /\
   objective_ q <> MAXIMIZE_RATIO /\ optimal_custom no_float q g C even_point /\ loss_custom q g even_point = - (21/2)) /\
  let g := fun w : vec => Rabs (w 1%nat) in let C := [fun w : vec => w 1%nat <= w 0%nat] in let q := ratio_example None (fun _ => None) in
  0 < scale (settings_ q) /\ 0 < scale_objective_ q /\ costs_ok (settings_ q) /\ is_mip (n_assets (prior_ q)) (params_ q) = false /\ accepted no_float q [] /\
  homogeneous (risk_measure_ q) /\ (forall c, In c C -> cone c) /\ grows (degree (risk_measure_ q)) g /\ optimal_custom no_float q g C half_point /\ 0 < f_ half_point.
Proof.
  cbv zeta. split.
  - split; [cbn; lra|]. split; [cbn; lra|]. split; [intros i; cbn; lra|]. split; [reflexivity|].
    split. { split; [reflexivity|]. destruct even_feasible as (_&l&E&_). exists even_point, l. exact E. }
    split; [discriminate|].
    assert (V: forall p, er return_example p = 20 * w_ p 0%nat).
    { intros p. unfold er, expected_return, transaction_cost, management_fee, all. cbn. unfold eqb0. destruct (Req_EM_T 0 0) as [_|H]; [|exfalso; apply H; reflexivity]. cbn. unfold sumn. cbn. lra. }
    assert (K: forall p, loss_custom return_example (fun w => w 1%nat) p = - (20 * w_ p 0%nat + w_ p 1%nat)).
    { intros p. unfold loss_custom. cbn [return_example objective_ scale_objective_]. rewrite V. unfold regularization. cbn. ring. }
    split; [split; [split; [exact even_feasible|constructor; [cbn; lra|constructor]]|]|rewrite K; cbn; lra].
    intros p [(F&l&E&H) HC]. rewrite !K. cbn [even_point w_ two]. inversion HC as [|? ? C1 _]; subst.
    destruct (problem_split no_float return_example p l E) as (lt&lw&Hlt&Hlw&Hall). destruct (proj1 Hall H) as (_&_&W&_). clear Hall.
    cbn in Hlw. injection Hlw as <-. rewrite !Forall_cons_iff in W.
    destruct F as [F|F]; [discriminate F|]. rewrite F in W. cbn [holds_at] in W. destruct W as (_&_&_&_&W&_). lra.
  - destruct C36_hypotheses_met as (A1&A2&A3&A4&_&A6&_). destruct C36_optimal_point_exists as [F O].
    split; [exact A1|]. split; [cbn; lra|]. split; [exact A2|]. split; [exact A3|]. split; [exact A4|]. split; [split; discriminate|].
    split. { intros c [<-|[]] t x Ht. split; intros H; [apply Rmult_le_reg_l with t; auto|apply Rmult_le_compat_l; lra]. }
    split. { intros t x Ht. cbn [degree ratio_example risk_measure_]. rewrite pow_1, Rabs_mult, (Rabs_right t) by lra. reflexivity. }
    split; [|exact A6]. split; [split; [exact F|constructor; [cbn; lra|constructor]]|]. intros p [Fp _]. specialize (O p Fp). unfold loss in O. unfold loss_custom. cbn [ratio_example objective_ scale_objective_] in *.
    pose proof (Rabs_pos (w_ p 1%nat)). replace (Rabs (w_ half_point 1%nat)) with 0 by (cbn; rewrite Rabs_R0; reflexivity). lra.
Qed.
