(** C44: correlation distances. *)
From Coq Require Import Reals List Arith Lra Lia.
From Verif Require Import DistanceModel.
Open Scope R_scope.

(** * Specification *)
(** The settings the distance is meant for: a positive integer power, or any positive power of the absolute correlation. *)
Definition usable (absolute : bool) (e : exponent) : Prop :=
  match e with
  | IntPower k => (1 <= k)%nat
  | FracPower p => absolute = true /\ 0 < p
  end.
(** Opposite series are far apart for the signed odd powers; for the others only the strength of the correlation matters. *)
Definition signed (absolute : bool) (e : exponent) : bool :=
  match e with
  | IntPower k => andb (negb absolute) (Nat.odd k)
  | FracPower _ => false
  end.
Definition strength (absolute : bool) (e : exponent) (c : R) : R := if signed absolute e then c else Rabs c.
Definition raise (e : exponent) (x : R) : R :=
  match e with
  | IntPower k => x ^ k
  | FracPower p => if Req_EM_T x 0 then 0 else Rpower x p
  end.
(** Symmetric, unit diagonal, entries in [-1, 1], and no combination of the variables with negative variance (stated for three variables,
    which is all the triangle inequality needs). *)
Definition correlation_matrix (C : nat -> nat -> R) : Prop :=
  (forall i j, C i j = C j i) /\ (forall i, C i i = 1) /\ (forall i j, -1 <= C i j <= 1) /\
  (forall i j k x y z, 0 <= x * x + y * y + z * z + 2 * (x * y * C i j) + 2 * (x * z * C i k) + 2 * (y * z * C j k)).

(** * Lemmas *)
Lemma pow_odd_neg x k : Nat.odd k = true -> (- x) ^ k = - x ^ k.
Proof. intros H. apply Nat.odd_spec in H as [m ->]. rewrite !pow_add, !pow_mult. simpl. replace (- x * (- x * 1)) with (x * (x * 1)) by ring. ring. Qed.
Lemma pow_even_abs x k : Nat.odd k = false -> x ^ k = Rabs x ^ k.
Proof.
  intros H. rewrite <- Nat.negb_even in H. apply Bool.negb_false_iff, Nat.even_spec in H as [m ->]. rewrite !pow_mult. f_equal.
  simpl. rewrite !Rmult_1_r. apply Rsqr_abs.
Qed.
Lemma pow_lt_strict k x y : 0 <= x -> x < y -> x ^ S k < y ^ S k.
Proof.
  intros Hx Hy. induction k as [|k IH]; [simpl; lra|]. change (x * x ^ S k < y * y ^ S k). assert (0 <= x ^ S k) by (apply pow_le; auto).
  apply Rle_lt_trans with (x * y ^ S k). apply Rmult_le_compat_l; lra. apply Rmult_lt_compat_r; auto. apply Rle_lt_trans with (x ^ S k); lra.
Qed.
Lemma raise_lt_pos absolute e x y : usable absolute e -> 0 <= x -> x < y -> raise e x < raise e y.
Proof.
  intros U Hx Hxy. destruct e as [k|p]; simpl in *.
  - destruct k; [lia|]. apply pow_lt_strict; auto.
  - destruct U as [_ P]. destruct (Req_EM_T x 0), (Req_EM_T y 0); try lra. apply exp_pos. unfold Rpower. apply exp_increasing, Rmult_lt_compat_l; auto. apply ln_increasing; lra.
Qed.
Lemma raise_0 absolute e : usable absolute e -> raise e 0 = 0.
Proof. destruct e as [k|p]; simpl; intros U. destruct k; [lia|simpl; ring]. destruct (Req_EM_T 0 0); lra. Qed.
Lemma raise_1 e : raise e 1 = 1.
Proof. destruct e as [k|p]; simpl. apply pow1. destruct (Req_EM_T 1 0); [lra|]. unfold Rpower. rewrite ln_1, Rmult_0_r. apply exp_0. Qed.
Lemma raise_neg absolute e x : signed absolute e = true -> raise e (- x) = - raise e x.
Proof. destruct e as [k|p]; simpl; intros H; [|discriminate]. apply Bool.andb_true_iff in H as [_ H]. apply pow_odd_neg; auto. Qed.
Lemma raise_lt absolute e x y : usable absolute e -> (signed absolute e = false -> 0 <= x) -> x < y -> raise e x < raise e y.
Proof.
  intros U D Hxy. destruct (Rle_dec 0 x) as [Hx|Hx]; [eapply raise_lt_pos; eauto|].
  destruct (signed absolute e) eqn:Sg; [|exfalso; apply Hx; auto]. apply Rnot_le_lt in Hx.
  destruct (Rle_dec 0 y) as [Hy|Hy].
  - pose proof (raise_lt_pos absolute e 0 (- x) U (Rle_refl 0) ltac:(lra)) as A. rewrite (raise_0 absolute e U), (raise_neg absolute) in A by auto.
    assert (0 <= raise e y). { destruct Hy as [Hy| <-]. rewrite <- (raise_0 absolute e U). left. eapply raise_lt_pos; eauto; lra. rewrite (raise_0 absolute e U); lra. } lra.
  - pose proof (raise_lt_pos absolute e (- y) (- x) U ltac:(lra) ltac:(lra)) as A. rewrite !(raise_neg absolute) in A by auto. lra.
Qed.
Lemma codependence_eq absolute e c : usable absolute e -> codependence absolute e c = Some (raise e (strength absolute e c)).
Proof.
  destruct e as [k|p]; unfold codependence, strength; simpl.
  - intros _. destruct absolute; simpl; auto. destruct (Nat.odd k) eqn:O; auto. f_equal. apply pow_even_abs; auto.
  - intros [-> P]. pose proof (Rabs_pos c). destruct (Rlt_dec (Rabs c) 0); [lra|]. destruct (Req_EM_T (Rabs c) 0); auto.
Qed.
Lemma strength_1 absolute e : strength absolute e 1 = 1.
Proof. unfold strength. destruct signed; auto. apply Rabs_R1. Qed.
Lemma strength_0 absolute e : strength absolute e 0 = 0.
Proof. unfold strength. destruct signed; auto. apply Rabs_R0. Qed.
Lemma scaler_eq absolute e : usable absolute e -> scaler absolute e = Some (if signed absolute e then 1 / 2 else 1).
Proof.
  intros U. unfold scaler. fold (codependence absolute e (-1)) (codependence absolute e 0) (codependence absolute e 1).
  rewrite !codependence_eq, strength_0, strength_1, raise_1, (raise_0 absolute) by auto. unfold min3. f_equal.
  unfold strength. destruct (signed absolute e) eqn:Sg.
  - replace (-1) with (- (1)) by lra. rewrite (raise_neg absolute), raise_1 by auto. rewrite (Rmin_left (- (1)) 0), (Rmin_left (- (1)) 1) by lra. field.
  - replace (Rabs (-1)) with 1 by (rewrite Rabs_left; lra). rewrite raise_1, (Rmin_right 1 0), (Rmin_left 0 1) by lra. field.
Qed.
Lemma strength_range absolute e c : -1 <= c <= 1 -> strength absolute e c <= 1 /\ (if signed absolute e then -1 else 0) <= strength absolute e c.
Proof. intros H. unfold strength. destruct signed. lra. split; [apply Rabs_le; lra|apply Rabs_pos]. Qed.
Lemma raise_le absolute e x y : usable absolute e -> (signed absolute e = false -> 0 <= x) -> x <= y -> raise e x <= raise e y.
Proof. intros U D [H| ->]; [left; eapply raise_lt; eauto|lra]. Qed.
Lemma raise_range absolute e c : usable absolute e -> -1 <= c <= 1 -> (if signed absolute e then -1 else 0) <= raise e (strength absolute e c) <= 1.
Proof.
  intros U H. destruct (strength_range absolute e c H) as [A B]. split.
  - destruct (signed absolute e) eqn:Sg.
    + replace (-1) with (raise e (-1)). apply (raise_le absolute); auto; congruence. replace (-1) with (- (1)) by lra. rewrite (raise_neg absolute), raise_1 by auto; lra.
    + rewrite <- (raise_0 absolute e) at 1 by auto. apply (raise_le absolute); auto; intros; lra.
  - rewrite <- (raise_1 e). apply (raise_le absolute); auto. intros Sg; rewrite Sg in B; auto.
Qed.
Definition factor absolute e : R := if signed absolute e then 1 / 2 else 1.
Lemma distance_eq absolute e c : usable absolute e -> -1 <= c <= 1 ->
  distance absolute e c = Some (sqrt (factor absolute e * (1 - raise e (strength absolute e c)))) /\
  0 <= factor absolute e * (1 - raise e (strength absolute e c)) <= 1.
Proof.
  intros U H. assert (B : 0 <= factor absolute e * (1 - raise e (strength absolute e c)) <= 1).
  { pose proof (raise_range absolute e c U H) as R. unfold factor. destruct (signed absolute e); lra. }
  split; auto. unfold distance. rewrite scaler_eq, codependence_eq by auto. fold (factor absolute e). f_equal. f_equal. unfold clip01.
  destruct Rlt_dec; [lra|]. destruct Rlt_dec; lra.
Qed.
Lemma factor_pos absolute e : 0 < factor absolute e. Proof. unfold factor. destruct signed; lra. Qed.
Lemma strength_dom absolute e c : signed absolute e = false -> 0 <= strength absolute e c.
Proof. unfold strength. intros ->. apply Rabs_pos. Qed.
Lemma decreasing absolute e c c' d d' : usable absolute e -> -1 <= c <= 1 -> -1 <= c' <= 1 -> distance absolute e c = Some d -> distance absolute e c' = Some d' ->
  strength absolute e c < strength absolute e c' -> d' < d.
Proof.
  intros U H H' D D' L. destruct (distance_eq absolute e c U H) as [E B]. destruct (distance_eq absolute e c' U H') as [E' B'].
  rewrite E in D; injection D as <-. rewrite E' in D'; injection D' as <-. apply sqrt_lt_1; try lra.
  pose proof (raise_lt absolute e _ _ U (strength_dom absolute e c) L). apply Rmult_lt_compat_l; [apply factor_pos|lra].
Qed.

(** * Theorems *)
(** Every correlation in [-1, 1] gets a distance in [0, 1]: sqrt((1 - c^k) / 2) for the signed odd powers, sqrt(1 - |c|^p) for the others
    (no clipping ever happens); it is zero exactly for perfectly correlated series, and for perfectly anti-correlated ones when the sign
    does not count; it is one exactly at the other end. *)
Theorem C44_distance absolute e c : usable absolute e -> -1 <= c <= 1 ->
  exists d, distance absolute e c = Some d /\ 0 <= d <= 1 /\
    d * d = (if signed absolute e then (1 - raise e c) / 2 else 1 - raise e (Rabs c)) /\
    (d = 0 <-> c = 1 \/ (signed absolute e = false /\ c = -1)) /\
    (d = 1 <-> if signed absolute e then c = -1 else c = 0).
Proof.
  intros U H. destruct (distance_eq absolute e c U H) as [E B]. eexists. split; [exact E|]. set (d := sqrt _).
  assert (D0 : 0 <= d) by apply sqrt_pos.
  assert (DD : d * d = factor absolute e * (1 - raise e (strength absolute e c))) by (apply sqrt_sqrt; lra).
  split; [split; [auto|rewrite <- DD in B; nra]|].
  split; [rewrite DD; unfold factor, strength; destruct signed; lra|].
  assert (S1 : strength absolute e c = 1 <-> c = 1 \/ (signed absolute e = false /\ c = -1)).
  { unfold strength. destruct signed eqn:Sg. split; [auto|intros [?|[? ?]]; auto; congruence].
    unfold Rabs. destruct (Rcase_abs c); split; intros K; [right; split; auto; lra|lra|left; auto|destruct K as [K|[_ K]]; lra]. }
  assert (F := factor_pos absolute e). destruct (strength_range absolute e c H) as [A A'].
  split; split; intros K.
  - apply S1. assert (R1 : raise e (strength absolute e c) = 1). { assert (Z : factor absolute e * (1 - raise e (strength absolute e c)) = 0) by (rewrite <- DD, K; ring). apply Rmult_integral in Z as [Z|Z]; lra. }
    destruct (Rtotal_order (strength absolute e c) 1) as [L|[?|L]]; auto; try lra.
    pose proof (raise_lt absolute e _ _ U (strength_dom absolute e c) L) as Q. rewrite raise_1 in Q. lra.
  - apply S1 in K. rewrite K, raise_1 in DD. nra.
  - rewrite K in DD. unfold factor, strength in *. destruct (signed absolute e) eqn:Sg.
    + destruct (Rtotal_order (-1) c) as [L|[?|L]]; auto; try lra.
      pose proof (raise_lt absolute e _ _ U ltac:(congruence) L) as Q. replace (-1) with (- (1)) in Q by lra. rewrite (raise_neg absolute), raise_1 in Q by auto. lra.
    + destruct (Req_EM_T c 0); auto. pose proof (Rabs_pos_lt c n) as L. pose proof (raise_lt absolute e 0 (Rabs c) U (fun _ => Rle_refl 0) L) as Q. rewrite (raise_0 absolute) in Q by auto. lra.
  - assert (d * d = 1); [|nra]. rewrite DD. unfold factor, strength. destruct (signed absolute e) eqn:Sg; rewrite K.
    + replace (-1) with (- (1)) by lra. rewrite (raise_neg absolute), raise_1 by auto. lra.
    + rewrite Rabs_R0, (raise_0 absolute) by auto. lra.
Qed.
(** More correlated (in strength, when the sign does not count) is strictly closer, and conversely. *)
Theorem C44_decreasing absolute e c c' d d' : usable absolute e -> -1 <= c <= 1 -> -1 <= c' <= 1 ->
  distance absolute e c = Some d -> distance absolute e c' = Some d' ->
  (d' < d <-> if signed absolute e then c < c' else Rabs c < Rabs c').
Proof.
  intros U H H' D D'. assert (E : (if signed absolute e then c < c' else Rabs c < Rabs c') <-> strength absolute e c < strength absolute e c') by (unfold strength; destruct signed; tauto).
  rewrite E. split; [|eapply decreasing; eauto]. intros L. destruct (Rlt_dec (strength absolute e c) (strength absolute e c')) as [|N]; auto. exfalso.
  apply Rnot_lt_le in N as [N|N]. pose proof (decreasing absolute e c' c d' d U H' H D' D N). lra.
  destruct (distance_eq absolute e c U H) as [E1 _]. destruct (distance_eq absolute e c' U H') as [E2 _]. rewrite N in E2. assert (Some d = Some d') by congruence. injection H0 as ->. lra.
Qed.
(** On a correlation matrix: symmetric, zero diagonal. *)
Theorem C44_matrix absolute e C : usable absolute e -> correlation_matrix C ->
  (forall i j, distance_matrix absolute e C i j = distance_matrix absolute e C j i) /\ (forall i, distance_matrix absolute e C i i = Some 0).
Proof.
  intros U [Sy [Di [Ra _]]]. unfold distance_matrix. split; [intros; rewrite Sy; auto|]. intros i. rewrite Di.
  destruct (C44_distance absolute e 1 U ltac:(lra)) as [d [E [_ [_ [Z _]]]]]. rewrite E. f_equal. apply Z; auto.
Qed.
Lemma discriminant a b k : 0 <= a -> (forall s t, 0 <= 2 * a * (s * s) + 2 * (s * t * k) + 2 * b * (t * t)) -> k * k <= 4 * (a * b).
Proof.
  intros A Q. destruct A as [A|A].
  - pose proof (Q (- k) (2 * a)) as P. assert (0 <= 2 * a * (4 * (a * b) - k * k)) by (eapply Rle_trans; [exact P|right; ring]).
    apply Rnot_lt_le. intros L. assert (2 * a * (4 * (a * b) - k * k) < 0); [|lra]. apply Ropp_lt_cancel. rewrite Ropp_0, Ropp_mult_distr_r. apply Rmult_lt_0_compat; lra.
  - subst a. destruct (Req_EM_T k 0) as [->|K]; [lra|]. exfalso. pose proof (Q (- (b + 1) / k) 1) as P.
    replace (2 * 0 * (- (b + 1) / k * (- (b + 1) / k)) + 2 * (- (b + 1) / k * 1 * k) + 2 * b * (1 * 1)) with (-2) in P by (field; auto). lra.
Qed.
Lemma angular_core a b c : 0 <= a -> 0 <= b -> 0 <= c -> (forall s t, 0 <= 2 * a * (s * s) + 2 * (s * t * (c - a - b)) + 2 * b * (t * t)) -> sqrt c <= sqrt a + sqrt b.
Proof.
  intros A B Cc Q. apply discriminant in Q; auto.
  pose proof (sqrt_sqrt a A) as SA. pose proof (sqrt_sqrt b B) as SB. pose proof (sqrt_pos a) as PA. pose proof (sqrt_pos b) as PB.
  assert (AB : 0 <= sqrt a * sqrt b) by (apply Rmult_le_pos; auto).
  assert (E : 4 * (a * b) = (2 * (sqrt a * sqrt b)) * (2 * (sqrt a * sqrt b))) by (rewrite <- SA at 1; rewrite <- SB at 1; ring).
  assert (c - a - b <= 2 * (sqrt a * sqrt b)). { rewrite E in Q. apply Rnot_lt_le; intros L. nra. }
  apply Rsqr_incr_0_var; [|lra]. unfold Rsqr. rewrite sqrt_sqrt by auto.
  replace ((sqrt a + sqrt b) * (sqrt a + sqrt b)) with (sqrt a * sqrt a + sqrt b * sqrt b + 2 * (sqrt a * sqrt b)) by ring. lra.
Qed.
Lemma triangle_signed r s t : -1 <= r <= 1 -> -1 <= s <= 1 -> -1 <= t <= 1 ->
  (forall x y z, 0 <= x * x + y * y + z * z + 2 * (x * y * r) + 2 * (x * z * t) + 2 * (y * z * s)) -> sqrt (1 - t) <= sqrt (1 - r) + sqrt (1 - s).
Proof.
  intros R S T P. apply angular_core; try lra. intros x y. eapply Rle_trans; [apply (P x (y - x) (- y))|]. right. ring.
Qed.
(** flip signs so that r and s are not negative *)
Lemma flip r s t : (forall x y z, 0 <= x * x + y * y + z * z + 2 * (x * y * r) + 2 * (x * z * t) + 2 * (y * z * s)) ->
  exists t', Rabs t' = Rabs t /\ forall x y z, 0 <= x * x + y * y + z * z + 2 * (x * y * Rabs r) + 2 * (x * z * t') + 2 * (y * z * Rabs s).
Proof.
  intros P. destruct (Rcase_abs r) as [R|R], (Rcase_abs s) as [S|S].
  - exists t. split; auto. intros x y z. rewrite (Rabs_left r R), (Rabs_left s S). eapply Rle_trans; [apply (P x (- y) z)|right; ring].
  - exists (- t). split; [apply Rabs_Ropp|]. intros x y z. rewrite (Rabs_left r R), (Rabs_right s S). eapply Rle_trans; [apply (P (- x) y z)|right; ring].
  - exists (- t). split; [apply Rabs_Ropp|]. intros x y z. rewrite (Rabs_right r R), (Rabs_left s S). eapply Rle_trans; [apply (P x y (- z))|right; ring].
  - exists t. split; auto. intros x y z. rewrite (Rabs_right r R), (Rabs_right s S). apply P.
Qed.
Lemma triangle_abs r s t : -1 <= r <= 1 -> -1 <= s <= 1 -> -1 <= t <= 1 ->
  (forall x y z, 0 <= x * x + y * y + z * z + 2 * (x * y * r) + 2 * (x * z * t) + 2 * (y * z * s)) -> sqrt (1 - Rabs t) <= sqrt (1 - Rabs r) + sqrt (1 - Rabs s).
Proof.
  intros R S T P. destruct (flip r s t P) as [t' [E P']].
  assert (Br : -1 <= Rabs r <= 1) by (pose proof (Rabs_pos r); split; [lra|apply Rabs_le; lra]).
  assert (Bs : -1 <= Rabs s <= 1) by (pose proof (Rabs_pos s); split; [lra|apply Rabs_le; lra]).
  assert (Bt : Rabs t' <= 1) by (rewrite E; apply Rabs_le; lra).
  assert (-1 <= t' <= 1) by (unfold Rabs in Bt; destruct (Rcase_abs t'); lra).
  eapply Rle_trans; [|apply (triangle_signed (Rabs r) (Rabs s) t')]; auto. apply sqrt_le_1_alt. rewrite <- E. pose proof (Rle_abs t'). lra.
Qed.
Lemma triangle_square r s t : -1 <= r <= 1 -> -1 <= s <= 1 -> -1 <= t <= 1 ->
  (forall x y z, 0 <= x * x + y * y + z * z + 2 * (x * y * r) + 2 * (x * z * t) + 2 * (y * z * s)) -> sqrt (1 - t * t) <= sqrt (1 - r * r) + sqrt (1 - s * s).
Proof.
  intros R S T P. destruct (flip r s t P) as [t' [E P']].
  assert (AA : forall x, Rabs x * Rabs x = x * x) by (intros; symmetry; apply Rsqr_abs).
  rewrite <- (AA t), <- E, (AA t'). rewrite <- (AA r), <- (AA s).
  assert (Br : 0 <= Rabs r <= 1) by (split; [apply Rabs_pos|apply Rabs_le; lra]).
  assert (Bs : 0 <= Rabs s <= 1) by (split; [apply Rabs_pos|apply Rabs_le; lra]).
  assert (Bt : Rabs t' <= 1) by (rewrite E; apply Rabs_le; lra). clear E P.
  set (c := Rabs r) in *. set (c' := Rabs s) in *. clearbody c c'.
  assert (Dt : (t' - c * c') * (t' - c * c') <= 4 * ((1 - c * c) / 2 * ((1 - c' * c') / 2))).
  { apply discriminant; [nra|]. intros x z. eapply Rle_trans; [apply (P' x (- (c * x + c' * z)) z)|]. right. field. }
  set (S1 := sqrt (1 - c * c)). set (S2 := sqrt (1 - c' * c')).
  assert (Q1 : S1 * S1 = 1 - c * c) by (apply sqrt_sqrt; nra). assert (Q2 : S2 * S2 = 1 - c' * c') by (apply sqrt_sqrt; nra).
  assert (N1 : 0 <= S1) by apply sqrt_pos. assert (N2 : 0 <= S2) by apply sqrt_pos. clearbody S1 S2.
  assert (N12 : 0 <= S1 * S2) by (apply Rmult_le_pos; auto).
  assert (Dt' : (t' - c * c') * (t' - c * c') <= (S1 * S2) * (S1 * S2)).
  { replace ((S1 * S2) * (S1 * S2)) with ((S1 * S1) * (S2 * S2)) by ring. rewrite Q1, Q2. lra. }
  assert (Ab : - (S1 * S2) <= t' - c * c') by (apply Rnot_lt_le; intros L; nra).
  apply Rsqr_incr_0_var; [|lra]. unfold Rsqr.
  assert (T2 : t' * t' <= 1) by (rewrite <- AA; pose proof (Rabs_pos t'); nra).
  rewrite sqrt_sqrt by lra.
  destruct (Rle_dec (c * c') (S1 * S2)) as [L|L].
  - assert (C0 : 0 <= c * c') by (apply Rmult_le_pos; lra).
    assert ((c * c') * (c * c') <= (S1 * S2) * (S1 * S2)) by (apply Rmult_le_compat; auto).
    replace ((S1 * S2) * (S1 * S2)) with ((S1 * S1) * (S2 * S2)) in H by ring. replace ((c * c') * (c * c')) with ((1 - S1 * S1) * (1 - S2 * S2)) in H by (rewrite Q1, Q2; ring).
    assert (0 <= t' * t') by (apply Rle_0_sqr). nra.
  - assert (K : (c * c' - S1 * S2) * (c * c' - S1 * S2) <= t' * t') by (apply Rmult_le_compat; lra).
    assert (I : 1 - (c * c' - S1 * S2) * (c * c' - S1 * S2) = (S1 * c' + c * S2) * (S1 * c' + c * S2)).
    { replace ((S1 * c' + c * S2) * (S1 * c' + c * S2)) with ((S1 * S1) * (c' * c') + (c * c) * (S2 * S2) + 2 * (c * c' * (S1 * S2))) by ring.
      replace ((c * c' - S1 * S2) * (c * c' - S1 * S2)) with ((c * c) * (c' * c') + (S1 * S1) * (S2 * S2) - 2 * (c * c' * (S1 * S2))) by ring. rewrite Q1, Q2. ring. }
    apply Rle_trans with ((S1 * c' + c * S2) * (S1 * c' + c * S2)); [lra|]. apply Rmult_le_compat; nra.
Qed.
(** The three documented distances satisfy the triangle inequality on every correlation matrix: standard angular sqrt((1 - c) / 2), absolute
    angular sqrt(1 - |c|), squared angular sqrt(1 - c^2). *)
Theorem C44_triangle absolute k C : (k = 1 \/ k = 2)%nat -> correlation_matrix C ->
  forall a b c dab dbc dac, distance_matrix absolute (IntPower k) C a b = Some dab -> distance_matrix absolute (IntPower k) C b c = Some dbc ->
    distance_matrix absolute (IntPower k) C a c = Some dac -> dac <= dab + dbc.
Proof.
  intros K [Sy [Di [Ra P]]] a b c dab dbc dac A B D. unfold distance_matrix in *.
  assert (AA : forall x, Rabs x * Rabs x = x * x) by (intros; symmetry; apply Rsqr_abs).
  assert (U : usable absolute (IntPower k)) by (destruct K; subst; simpl; lia).
  destruct (distance_eq absolute _ _ U (Ra a b)) as [E1 _]. destruct (distance_eq absolute _ _ U (Ra b c)) as [E2 _]. destruct (distance_eq absolute _ _ U (Ra a c)) as [E3 _].
  rewrite E1 in A; injection A as <-. rewrite E2 in B; injection B as <-. rewrite E3 in D; injection D as <-. clear E1 E2 E3.
  destruct K as [-> | ->]; unfold factor, strength, raise, signed; change (Nat.odd 1) with true; change (Nat.odd 2) with false; destruct absolute; simpl negb; simpl andb; cbv iota.
  - rewrite !pow_1, !Rmult_1_l. apply triangle_abs; auto.
  - rewrite !pow_1, !(sqrt_mult_alt (1 / 2)) by lra. rewrite <- Rmult_plus_distr_l. apply Rmult_le_compat_l; [apply sqrt_pos|]. apply triangle_signed; auto.
  - rewrite !Rmult_1_l. simpl. rewrite !Rmult_1_r. rewrite !AA. apply triangle_square; auto.
  - rewrite !Rmult_1_l. simpl. rewrite !Rmult_1_r. rewrite !AA. apply triangle_square; auto.
Qed.
(** Finding.  A fractional power without the absolute option, which the parameter's type allows, gives NaN everywhere, even for positive
    correlations: the lower bound -1 is raised to the power too. *)
Theorem C44_fractional_power_refuted p c : 0 < p -> distance false (FracPower p) c = None.
Proof. intros _. unfold distance, scaler. simpl. destruct (Rlt_dec (-1) 0); [reflexivity|lra]. Qed.
(** Any number of assets with all correlations equal to 1/2. *)
Example C44_matrix_example : exists C, correlation_matrix C /\ C 0%nat 1%nat = 1 / 2.
Proof.
  exists (fun i j => if Nat.eqb i j then 1 else 1 / 2). split; [|reflexivity]. split; [|split; [|split]].
  - intros i j. rewrite Nat.eqb_sym. reflexivity.
  - intros i. rewrite Nat.eqb_refl. reflexivity.
  - intros i j. destruct (Nat.eqb i j); lra.
  - intros i j k x y z.
    assert (G : forall a b c : R, (a = 1 \/ a = 1/2) -> (b = 1 \/ b = 1/2) -> (c = 1 \/ c = 1/2) -> (a = 1 -> c = 1 -> b = 1) -> (a = 1 -> b = 1 -> c = 1) -> (b = 1 -> c = 1 -> a = 1) ->
      0 <= x * x + y * y + z * z + 2 * (x * y * a) + 2 * (x * z * b) + 2 * (y * z * c)).
    { assert (SQ : forall q : R, 0 <= q * q) by (intros; apply Rle_0_sqr).
      intros a b c [-> | ->] [-> | ->] [-> | ->] H1 H2 H3; try (exfalso; lra).
      all: first [ exfalso; specialize (H1 eq_refl eq_refl); lra | exfalso; specialize (H2 eq_refl eq_refl); lra | exfalso; specialize (H3 eq_refl eq_refl); lra
        | pose proof (SQ (x + y + z)); pose proof (SQ (x + y + z / 2)); pose proof (SQ (x + z + y / 2)); pose proof (SQ (y + z + x / 2)); pose proof (SQ x); pose proof (SQ y); pose proof (SQ z); lra ]. }
    apply G; repeat match goal with |- context [Nat.eqb ?i ?j] => destruct (Nat.eqb_spec i j) end; subst; auto; intros; try lra; congruence.
Qed.
Example C44_value : distance false (IntPower 1) (1 / 2) = Some (1 / 2) /\ distance true (IntPower 1) (-1) = Some 0.
Proof.
  destruct (C44_distance false (IntPower 1) (1/2) (le_n 1) ltac:(lra)) as [d [E [B [D _]]]]. destruct (C44_distance true (IntPower 1) (-1) (le_n 1) ltac:(lra)) as [d' [E' [B' [_ [Z _]]]]].
  split. rewrite E. f_equal. simpl in D. nra. rewrite E'. f_equal. apply Z. right; split; auto.
Qed.
Print Assumptions C44_distance.
Print Assumptions C44_decreasing.
Print Assumptions C44_matrix.
Print Assumptions C44_triangle.
Print Assumptions C44_fractional_power_refuted.
