(** C41: the Gerber statistic is a correlation. *)
From Coq Require Import Reals List Arith Lra Lia.
From Verif Require Import RList GerberModel.
Import ListNotations.
Open Scope R_scope.

(** * Specification *)
(** An asset moves in an observation when its return is at least c standard deviations away from zero; +1 up, -1 down, 0 not. *)
Definition moves_up (c s x : R) : Prop := c * s <= x.
Definition moves_down (c s x : R) : Prop := x <= - (c * s).
Fixpoint how_many {A} (P : A -> Prop) (l : list A) (k : nat) : Prop :=
  match l with
  | [] => k = O
  | x :: l => (P x /\ exists k', k = S k' /\ how_many P l k') \/ (~ P x /\ how_many P l k)
  end.
(** The statistic of two assets: (moves together - moves apart) / (observations in which at least one of them moves). *)
Definition gerber_statistic (c : R) (X : list (nat -> R)) (si sj : R) (i j : nat) (g : R) : Prop :=
  exists together apart active : nat,
    how_many (fun r => (moves_up c si (r i) /\ moves_up c sj (r j)) \/ (moves_down c si (r i) /\ moves_down c sj (r j))) X together /\
    how_many (fun r => (moves_up c si (r i) /\ moves_down c sj (r j)) \/ (moves_down c si (r i) /\ moves_up c sj (r j))) X apart /\
    how_many (fun r => moves_up c si (r i) \/ moves_down c si (r i) \/ moves_up c sj (r j) \/ moves_down c sj (r j)) X active /\
    (0 < active)%nat /\ g = (INR together - INR apart) / INR active.
(** The other variant divides by the geometric mean of the numbers of observations in which each asset moves. *)
Definition gerber_normalised (c : R) (X : list (nat -> R)) (si sj : R) (i j : nat) (g : R) : Prop :=
  exists together apart moves_i moves_j : nat,
    how_many (fun r => (moves_up c si (r i) /\ moves_up c sj (r j)) \/ (moves_down c si (r i) /\ moves_down c sj (r j))) X together /\
    how_many (fun r => (moves_up c si (r i) /\ moves_down c sj (r j)) \/ (moves_down c si (r i) /\ moves_up c sj (r j))) X apart /\
    how_many (fun r => moves_up c si (r i) \/ moves_down c si (r i)) X moves_i /\
    how_many (fun r => moves_up c sj (r j) \/ moves_down c sj (r j)) X moves_j /\
    (0 < moves_i)%nat /\ (0 < moves_j)%nat /\ g = (INR together - INR apart) / sqrt (INR moves_i * INR moves_j).
(** Population variance. *)
Definition variance (X : list (nat -> R)) (i : nat) : R :=
  let m := sum_over X (fun r => r i) / INR (length X) in sum_over X (fun r => (r i - m) ^ 2) / INR (length X).
Definition last_observations (w : option nat) (X Y : list (nat -> R)) : Prop :=
  match w with
  | Some w => (0 < w)%nat -> exists old, X = old ++ Y /\ length Y = Nat.min w (length X)
  | None => Y = X
  end.

(** * Lemmas *)
Lemma leb_true x y : leb x y = true <-> x <= y.
Proof. unfold leb; destruct (Rle_dec x y); split; intros; auto; discriminate. Qed.
Lemma leb_false x y : leb x y = false <-> y < x.
Proof. unfold leb; destruct (Rle_dec x y); split; intros; auto; try discriminate; lra. Qed.
Lemma how_many_sum {A} (P : A -> Prop) (b : A -> bool) l : (forall x, In x l -> (b x = true <-> P x)) ->
  exists k, how_many P l k /\ sum_over l (fun x => b2r (b x)) = INR k.
Proof.
  induction l as [|x l IH]; intros H; [exists O; split; [reflexivity|apply so_nil]|].
  destruct IH as [k [Hk Ek]]; [intros; apply H; simpl; auto|].
  pose proof (H x (or_introl eq_refl)) as Hx. rewrite so_cons, Ek. destruct (b x) eqn:E; unfold b2r at 1.
  - exists (S k). split; [left; split; [apply Hx; auto|exists k; auto]|rewrite S_INR; ring].
  - exists k. split; [right; split; [intros HP; apply Hx in HP; discriminate|auto]|ring].
Qed.
Section S.
Variables (c : R) (X : list (nat -> R)).
Hypotheses (c0 : 0 < c) (c1 : c < 1) (X0 : X <> []).
Let T := INR (length X).
Lemma T_pos : 0 < T.
Proof. unfold T. apply INR_pos. destruct X; [congruence|simpl; lia]. Qed.
Lemma std_ge0 i : 0 <= std_of X i. Proof. apply sqrt_pos. Qed.
Lemma std_sq i : std_of X i ^ 2 = variance X i.
Proof.
  unfold std_of, variance, mean_of. rewrite pow2_sqrt; auto. pose proof T_pos. apply Rmult_le_pos; [apply so_nonneg; intros; apply pow2_ge_0|left; apply Rinv_0_lt_compat; auto].
Qed.
(** mean square is at least the variance *)
Lemma var_le_sq i : T * variance X i <= sum_over X (fun r => r i ^ 2).
Proof.
  unfold variance. set (m := sum_over X (fun r => r i) / INR (length X)). pose proof T_pos. fold T.
  replace (T * (sum_over X (fun r => (r i - m) ^ 2) / T)) with (sum_over X (fun r => (r i - m) ^ 2)) by (field; lra).
  rewrite (so_ext (fun r => (r i - m)^2) (fun r => r i ^ 2 + ((-2 * m) * r i + m ^ 2))) by (intros; ring).
  rewrite so_add, so_add, so_scal, so_const. fold T.
  assert (E : sum_over X (fun r => r i) = T * m) by (unfold m; fold T; field; lra). rewrite E. nra.
Qed.
(** some observation is at least c standard deviations away from zero *)
Lemma some_active i : exists r, In r X /\ (moves_up c (std_of X i) (r i) \/ moves_down c (std_of X i) (r i)).
Proof.
  destruct (Exists_dec (fun r => moves_up c (std_of X i) (r i) \/ moves_down c (std_of X i) (r i)) X) as [E|E].
  - intros r. unfold moves_up, moves_down. destruct (Rle_dec (c * std_of X i) (r i)); [left; auto|].
    destruct (Rle_dec (r i) (- (c * std_of X i))); [left; auto|right; tauto].
  - apply Exists_exists in E; auto.
  - exfalso. assert (A : forall r, In r X -> r i ^ 2 <= c^2 * std_of X i ^ 2 /\ 0 < std_of X i).
    { intros r Hr. assert (N : ~ (moves_up c (std_of X i) (r i) \/ moves_down c (std_of X i) (r i))) by (intros HN; apply E; apply Exists_exists; eauto).
      unfold moves_up, moves_down in N. assert (r i < c * std_of X i) by (apply Rnot_le_lt; tauto). assert (- (c * std_of X i) < r i) by (apply Rnot_le_lt; tauto).
      pose proof (std_ge0 i). split; nra. }
    assert (exists r0, In r0 X) as [r0 Hr0] by (destruct X as [|r0 X']; [congruence|exists r0; left; auto]).
    destruct (A r0 Hr0) as [_ Hs]. pose proof T_pos.
    assert (B : sum_over X (fun r => r i ^ 2) <= T * (c^2 * std_of X i ^ 2)).
    { unfold T. rewrite <- so_const. apply so_le. intros; apply A; auto. }
    pose proof (var_le_sq i) as V. rewrite <- std_sq in V. assert (0 < std_of X i ^ 2) by nra. assert (c^2 < 1) by nra.
    assert (T * (c ^ 2 * std_of X i ^ 2) < T * std_of X i ^ 2) by (apply Rmult_lt_compat_l; nra). lra.
Qed.
Lemma u_true i r : u c X i r = true <-> moves_up c (std_of X i) (r i).
Proof. unfold u, moves_up. rewrite leb_true, Rmult_comm. tauto. Qed.
Lemma d_true i r : d c X i r = true <-> moves_down c (std_of X i) (r i).
Proof. unfold d, moves_down. rewrite leb_true. replace (- std_of X i * c) with (- (c * std_of X i)) by ring. tauto. Qed.
Lemma not_both i r : 0 < std_of X i -> u c X i r = true -> d c X i r = true -> False.
Proof. rewrite u_true, d_true. unfold moves_up, moves_down. intros. nra. Qed.
(** the direction of a move *)
Definition dir i r : R := b2r (u c X i r) - b2r (d c X i r).
Lemma h_eq i j : h c X i j = sum_over X (fun r => dir i r * dir j r).
Proof. unfold h, counts, dir. rewrite <- !so_add, <- so_sub. apply so_ext. intros; ring. Qed.
Definition idle i r : R := b2r (n c X i r).
Lemma idle01 i r : idle i r = 0 \/ idle i r = 1. Proof. unfold idle, b2r; destruct n; auto. Qed.
Definition a i j : R := counts X (n c X) (n c X) i j.
Lemma a_eq i j : a i j = sum_over X (fun r => idle i r * idle j r). Proof. reflexivity. Qed.
Definition active i j r : bool := orb (orb (u c X i r) (d c X i r)) (orb (u c X j r) (d c X j r)).
Lemma active_eq i j r : b2r (active i j r) = 1 - idle i r * idle j r.
Proof. unfold active, idle, n. destruct (u c X i r), (d c X i r), (u c X j r), (d c X j r); simpl; ring. Qed.
Lemma T_minus i j : T - a i j = sum_over X (fun r => b2r (active i j r)).
Proof.
  rewrite a_eq, (so_ext (fun r => b2r (active i j r)) (fun r => 1 - idle i r * idle j r)) by (intros; apply active_eq).
  rewrite so_sub, so_const. unfold T. ring.
Qed.
Lemma active_count i j : exists k, (0 < k)%nat /\ T - a i j = INR k /\
  how_many (fun r => moves_up c (std_of X i) (r i) \/ moves_down c (std_of X i) (r i) \/ moves_up c (std_of X j) (r j) \/ moves_down c (std_of X j) (r j)) X k.
Proof.
  destruct (how_many_sum (fun r => moves_up c (std_of X i) (r i) \/ moves_down c (std_of X i) (r i) \/ moves_up c (std_of X j) (r j) \/ moves_down c (std_of X j) (r j)) (active i j) X) as [k [Hk Ek]].
  { intros r _. unfold active. rewrite !Bool.orb_true_iff, !u_true, !d_true. tauto. }
  exists k. rewrite T_minus. split; [|split; auto].
  destruct (some_active i) as [r [Hr Ha]].
  assert (1 <= sum_over X (fun r => b2r (active i j r))).
  { replace 1 with (b2r (active i j r)). apply (so_ge_elem (fun r => b2r (active i j r))); auto. intros; unfold b2r; destruct active; lra.
    unfold active. rewrite <- u_true, <- d_true in Ha. destruct Ha as [-> | ->]; rewrite ?Bool.orb_true_r; reflexivity. }
  rewrite Ek in H. destruct k; [simpl in H; lra|lia].
Qed.
Lemma a_bounds i j : 0 <= a i j <= T - 1.
Proof.
  split. rewrite a_eq. apply so_nonneg. intros r _. destruct (idle01 i r) as [-> | ->], (idle01 j r) as [-> | ->]; lra.
  destruct (active_count i j) as [k [Hk [E _]]]. assert (1 <= INR k) by (apply INR_ge1; lia). lra.
Qed.
Lemma a_sym i j : a i j = a j i. Proof. rewrite !a_eq. apply so_ext. intros; ring. Qed.
Lemma h_sym i j : h c X i j = h c X j i. Proof. rewrite !h_eq. apply so_ext. intros; ring. Qed.
Lemma dir_cases i r : dir i r = 0 \/ dir i r = 1 \/ dir i r = -1.
Proof. unfold dir, b2r. destruct u, d; lra. Qed.
Lemma dir_idle i r : idle i r = 1 -> dir i r = 0.
Proof. unfold idle, dir, n, b2r. destruct u, d; simpl; lra. Qed.
Lemma h_bound i j : Rabs (h c X i j) <= T - a i j.
Proof.
  rewrite h_eq, T_minus. eapply Rle_trans; [apply so_abs|]. apply so_le. intros r _. rewrite active_eq.
  destruct (idle01 i r) as [Ei|Ei]; [|rewrite (dir_idle i r Ei), Rmult_0_l, Rabs_R0, Ei; destruct (idle01 j r) as [-> | ->]; lra].
  rewrite Ei. assert (Rabs (dir i r * dir j r) <= 1). { destruct (dir_cases i r) as [-> | [-> | ->]], (dir_cases j r) as [-> | [-> | ->]]; apply Rabs_le; lra. } lra.
Qed.
Lemma dir_sq i r : 0 < std_of X i -> dir i r * dir i r = 1 - idle i r * idle i r.
Proof.
  intros Hs. rewrite <- active_eq. unfold dir, active. pose proof (not_both i r Hs). destruct (u c X i r), (d c X i r); simpl; try ring. exfalso; auto.
Qed.
Lemma h_diag i : 0 < std_of X i -> h c X i i = T - a i i.
Proof.
  intros Hs. rewrite h_eq, T_minus. apply so_ext. intros r _. rewrite active_eq. apply dir_sq; auto.
Qed.
Lemma h_diag_pos i : 0 < std_of X i -> 0 < h c X i i.
Proof. intros; rewrite h_diag by auto. pose proof (a_bounds i i). lra. Qed.

(** quadratic forms over the assets in l *)
Definition quad (l : list nat) (x : nat -> R) (m : nat -> nat -> R) : R := sum_over l (fun i => sum_over l (fun j => x i * x j * m i j)).
Lemma quad_ext l x m m' : (forall i j, m i j = m' i j) -> quad l x m = quad l x m'.
Proof. intros H. unfold quad. apply so_ext; intros; apply so_ext; intros; rewrite H; auto. Qed.
Lemma quad_add l x m m' : quad l x (fun i j => m i j + m' i j) = quad l x m + quad l x m'.
Proof. unfold quad. rewrite <- so_add. apply so_ext; intros. rewrite <- so_add. apply so_ext; intros; ring. Qed.
Lemma quad_scal l x k m : quad l x (fun i j => k * m i j) = k * quad l x m.
Proof. unfold quad. rewrite <- so_scal. apply so_ext; intros. rewrite <- so_scal. apply so_ext; intros; ring. Qed.
Lemma quad_sum {A} l x (rs : list A) (m : A -> nat -> nat -> R) : quad l x (fun i j => sum_over rs (fun r => m r i j)) = sum_over rs (fun r => quad l x (m r)).
Proof.
  induction rs as [|r rs IH]. rewrite so_nil. unfold quad. apply so_zero; intros; apply so_zero; intros; rewrite so_nil; ring.
  rewrite so_cons, <- IH, <- quad_add. apply quad_ext. intros i j. rewrite so_cons. reflexivity.
Qed.
Lemma quad_rank1 l x v : quad l x (fun i j => v i * v j) = (sum_over l (fun i => x i * v i)) ^ 2.
Proof.
  unfold quad. rewrite (so_ext _ (fun i => (x i * v i) * sum_over l (fun j => x j * v j))).
  rewrite so_scal_r; ring. intros i _. rewrite <- so_scal. apply so_ext; intros; ring.
Qed.
Lemma quad_weights l x y m : quad l (fun i => x i * y i) m = quad l x (fun i j => y i * y j * m i j).
Proof. unfold quad. apply so_ext; intros; apply so_ext; intros; ring. Qed.
Lemma quad_h l x : 0 <= quad l x (h c X).
Proof.
  rewrite (quad_ext l x _ _ h_eq), quad_sum. apply so_nonneg. intros r _. rewrite (quad_rank1 l x (fun i => dir i r)). apply pow2_ge_0.
Qed.
Lemma quad_pow l k : forall x, 0 <= quad l x (fun i j => h c X i j * a i j ^ k).
Proof.
  induction k as [|k IH]; intros x.
  - rewrite (quad_ext l x _ (h c X)) by (intros; simpl; ring). apply quad_h.
  - rewrite (quad_ext l x _ (fun i j => sum_over X (fun r => idle i r * idle j r * (h c X i j * a i j ^ k)))).
    + rewrite quad_sum. apply so_nonneg. intros r _. rewrite <- quad_weights. apply IH.
    + intros i j. simpl. rewrite so_scal_r, <- a_eq. ring.
Qed.
Fixpoint geo (K : nat) (z : R) : R := match K with O => 0 | S K => geo K z + z ^ K * (/ T) ^ S K end.
Lemma geo_rest K z : z < T -> / (T - z) - geo K z = (z / T) ^ K / (T - z).
Proof.
  intros H. pose proof T_pos. induction K as [|K IH]; simpl geo. simpl. unfold Rdiv. ring.
  assert (E : geo K z = / (T - z) - (z / T) ^ K / (T - z)) by lra. rewrite E. unfold Rdiv. rewrite !Rpow_mult_distr. simpl. field. lra.
Qed.
Lemma quad_geo l x K : 0 <= quad l x (fun i j => h c X i j * geo K (a i j)).
Proof.
  pose proof T_pos. induction K as [|K IH].
  - simpl. unfold quad. right. symmetry. apply so_zero; intros; apply so_zero; intros; ring.
  - simpl geo. rewrite (quad_ext l x _ (fun i j => h c X i j * geo K (a i j) + (/ T) ^ S K * (h c X i j * a i j ^ K))) by (intros; cbn [geo pow]; ring).
    rewrite quad_add, quad_scal. assert (0 <= (/ T) ^ S K) by (apply pow_le; left; apply Rinv_0_lt_compat; auto).
    pose proof (quad_pow l K x). assert (0 <= (/ T) ^ S K * quad l x (fun i j => h c X i j * a i j ^ K)) by (apply Rmult_le_pos; auto). lra.
Qed.
Lemma quad_abs l x m : Rabs (quad l x m) <= sum_over l (fun i => sum_over l (fun j => Rabs (x i * x j) * Rabs (m i j))).
Proof.
  unfold quad. eapply Rle_trans; [apply so_abs|]. apply so_le; intros i _. eapply Rle_trans; [apply so_abs|]. apply so_le; intros j _. rewrite Rabs_mult. lra.
Qed.
Lemma quad_psd l x : 0 <= quad l x (corr c X true).
Proof.
  pose proof T_pos as HT. destruct (Rle_dec 0 (quad l x (corr c X true))) as [|N]; auto. exfalso. apply Rnot_le_lt in N.
  set (rho := 1 - / T). assert (R0 : Rabs rho < 1).
  { assert (1 <= T). { unfold T. apply INR_ge1. destruct X; [congruence|simpl; lia]. }
    assert (0 < / T <= 1). { split. apply Rinv_0_lt_compat; auto. rewrite <- Rinv_1. apply Rinv_le_contravar; lra. } unfold rho. rewrite Rabs_pos_eq; lra. }
  set (B := sum_over l (fun i => sum_over l (fun j => Rabs (x i * x j) * 1))).
  assert (B0 : 0 <= B) by (apply so_nonneg; intros; apply so_nonneg; intros; pose proof (Rabs_pos (x x0 * x x1)); lra).
  destruct (pow_lt_1_zero rho R0 (- quad l x (corr c X true) / (B + 1))) as [K HK].
  { apply Rdiv_lt_0_compat; lra. }
  specialize (HK K (le_n K)).
  assert (E : quad l x (corr c X true) = quad l x (fun i j => h c X i j * geo K (a i j)) + quad l x (fun i j => h c X i j * ((a i j / T) ^ K / (T - a i j)))).
  { rewrite <- quad_add. apply quad_ext. intros i j. pose proof (a_bounds i j). rewrite <- geo_rest by lra. unfold corr. fold (a i j). fold T. field. lra. }
  pose proof (quad_geo l x K) as G.
  assert (RB : Rabs (quad l x (fun i j => h c X i j * ((a i j / T) ^ K / (T - a i j)))) <= Rabs (rho ^ K) * B).
  { eapply Rle_trans; [apply quad_abs|]. unfold B. rewrite <- so_scal. apply so_le; intros i _. rewrite <- so_scal. apply so_le; intros j _.
    pose proof (a_bounds i j) as [A0 A1]. pose proof (h_bound i j) as HB. pose proof (Rabs_pos (x i * x j)) as P.
    assert (Rabs (h c X i j * ((a i j / T) ^ K / (T - a i j))) <= Rabs (rho ^ K)).
    { assert (rho0 : 0 <= a i j / T <= rho).
      { split. apply Rmult_le_pos; auto. left; apply Rinv_0_lt_compat; auto. unfold rho. apply Rmult_le_reg_r with T; auto. unfold Rdiv.
        rewrite Rmult_assoc, Rinv_l, Rmult_1_r by lra. replace ((1 - / T) * T) with (T - 1) by (field; lra). auto. }
      assert (PK : 0 <= (a i j / T) ^ K <= rho ^ K) by (split; [apply pow_le; lra|apply pow_incr; auto]).
      assert (Q0 : 0 <= (a i j / T) ^ K / (T - a i j)) by (apply Rmult_le_pos; [lra|left; apply Rinv_0_lt_compat; lra]).
      rewrite Rabs_mult, (Rabs_pos_eq ((a i j / T) ^ K / (T - a i j)) Q0), (Rabs_pos_eq (rho ^ K)) by lra.
      apply Rle_trans with ((T - a i j) * ((a i j / T) ^ K / (T - a i j))). apply Rmult_le_compat_r; [exact Q0|exact HB].
      replace ((T - a i j) * ((a i j / T) ^ K / (T - a i j))) with ((a i j / T) ^ K) by (field; lra). lra. }
    rewrite Rmult_1_r, Rmult_comm. apply Rmult_le_compat_r; auto. }
  assert (- Rabs (rho ^ K) * B <= quad l x (fun i j => h c X i j * ((a i j / T) ^ K / (T - a i j)))).
  { pose proof (Rle_abs (- quad l x (fun i j => h c X i j * ((a i j / T) ^ K / (T - a i j))))) as L. rewrite Rabs_Ropp in L. lra. }
  assert (Rabs (rho ^ K) * (B + 1) < - quad l x (corr c X true)).
  { apply Rmult_lt_compat_r with (r := B + 1) in HK; [|lra]. unfold Rdiv in HK. rewrite Rmult_assoc, Rinv_l, Rmult_1_r in HK by lra. auto. }
  pose proof (Rabs_pos (rho ^ K)). nra.
Qed.
Lemma quad_normalised l x : (forall i, In i l -> 0 < std_of X i) -> 0 <= quad l x (corr c X false).
Proof.
  intros Hs.
  assert (E : quad l x (corr c X false) = quad l (fun i => x i * / sqrt (h c X i i)) (h c X)).
  { unfold quad. apply so_ext; intros i Hi. apply so_ext; intros j Hj. unfold corr.
    assert (sqrt (h c X i i) <> 0) by (apply Rgt_not_eq, sqrt_lt_R0, h_diag_pos; auto). assert (sqrt (h c X j j) <> 0) by (apply Rgt_not_eq, sqrt_lt_R0, h_diag_pos; auto). field; auto. }
  rewrite E. apply quad_h.
Qed.

Lemma together_apart i j : 0 < std_of X i -> 0 < std_of X j -> exists t p : nat, h c X i j = INR t - INR p /\
    how_many (fun r => (moves_up c (std_of X i) (r i) /\ moves_up c (std_of X j) (r j)) \/ (moves_down c (std_of X i) (r i) /\ moves_down c (std_of X j) (r j))) X t /\
    how_many (fun r => (moves_up c (std_of X i) (r i) /\ moves_down c (std_of X j) (r j)) \/ (moves_down c (std_of X i) (r i) /\ moves_up c (std_of X j) (r j))) X p.
Proof.
  intros Si Sj.
  destruct (how_many_sum (fun r => (moves_up c (std_of X i) (r i) /\ moves_up c (std_of X j) (r j)) \/ (moves_down c (std_of X i) (r i) /\ moves_down c (std_of X j) (r j)))
    (fun r => orb (andb (u c X i r) (u c X j r)) (andb (d c X i r) (d c X j r))) X) as [t [Ht Et]].
  { intros r _. rewrite Bool.orb_true_iff, !Bool.andb_true_iff, !u_true, !d_true. tauto. }
  destruct (how_many_sum (fun r => (moves_up c (std_of X i) (r i) /\ moves_down c (std_of X j) (r j)) \/ (moves_down c (std_of X i) (r i) /\ moves_up c (std_of X j) (r j)))
    (fun r => orb (andb (u c X i r) (d c X j r)) (andb (d c X i r) (u c X j r))) X) as [p [Hp Ep]].
  { intros r _. rewrite Bool.orb_true_iff, !Bool.andb_true_iff, !u_true, !d_true. tauto. }
  exists t, p. split; [|split; assumption]. rewrite h_eq, <- Et, <- Ep, <- so_sub. apply so_ext. intros r _.
  unfold dir. pose proof (not_both i r Si). pose proof (not_both j r Sj). destruct (u c X i r), (d c X i r), (u c X j r), (d c X j r); simpl; try ring; exfalso; auto.
Qed.
Lemma statistic i j : 0 < std_of X i -> 0 < std_of X j -> gerber_statistic c X (std_of X i) (std_of X j) i j (corr c X true i j).
Proof.
  intros Si Sj. destruct (together_apart i j Si Sj) as [t [p [E [Ht Hp]]]]. destruct (active_count i j) as [k [Hk [Ek HK]]].
  exists t, p, k. repeat (split; [assumption|]). unfold corr. fold (a i j). fold T. rewrite Ek, E. reflexivity.
Qed.
Lemma moves_count i : 0 < std_of X i -> exists k, (0 < k)%nat /\ h c X i i = INR k /\
  how_many (fun r => moves_up c (std_of X i) (r i) \/ moves_down c (std_of X i) (r i)) X k.
Proof.
  intros Si. destruct (how_many_sum (fun r => moves_up c (std_of X i) (r i) \/ moves_down c (std_of X i) (r i)) (fun r => orb (u c X i r) (d c X i r)) X) as [k [Hk Ek]].
  { intros r _. rewrite Bool.orb_true_iff, !u_true, !d_true. tauto. }
  assert (E : h c X i i = INR k).
  { rewrite <- Ek, h_eq. apply so_ext. intros r _. rewrite dir_sq, <- active_eq by auto. unfold active. destruct (u c X i r), (d c X i r); reflexivity. }
  exists k. split; [|split; auto]. pose proof (h_diag_pos i Si) as P. rewrite E in P. destruct k; [simpl in P; lra|lia].
Qed.
Lemma normalised i j : 0 < std_of X i -> 0 < std_of X j -> gerber_normalised c X (std_of X i) (std_of X j) i j (corr c X false i j).
Proof.
  intros Si Sj. destruct (together_apart i j Si Sj) as [t [p [E [Ht Hp]]]]. destruct (moves_count i Si) as [ki [Pi [Ei Hi]]]. destruct (moves_count j Sj) as [kj [Pj [Ej Hj]]].
  exists t, p, ki, kj. repeat (split; [assumption|]). unfold corr. rewrite E, Ei, Ej, sqrt_mult by apply pos_INR. reflexivity.
Qed.
Lemma corr_sym v i j : corr c X v i j = corr c X v j i.
Proof. unfold corr. fold (a i j) (a j i). rewrite (h_sym i j), (a_sym i j). destruct v; auto. f_equal; ring. Qed.
Lemma corr_diag v i : 0 < std_of X i -> corr c X v i i = 1.
Proof.
  intros Hs. unfold corr. fold (a i i). pose proof (h_diag_pos i Hs). destruct v.
  - rewrite h_diag by auto. fold T. pose proof (a_bounds i i). field. lra.
  - rewrite sqrt_sqrt by lra. field. lra.
Qed.
Lemma corr_bound v i j : 0 < std_of X i -> 0 < std_of X j -> -1 <= corr c X v i j <= 1.
Proof.
  intros Si Sj. unfold corr. fold (a i j). fold T. destruct v.
  - pose proof (a_bounds i j). pose proof (h_bound i j) as B. pose proof (Rle_abs (h c X i j)) as B1. pose proof (Rle_abs (- h c X i j)) as B2. rewrite Rabs_Ropp in B2.
    assert (D : 0 < T - a i j) by lra. split; apply Rmult_le_reg_r with (T - a i j); auto; unfold Rdiv; rewrite Rmult_assoc, Rinv_l by lra; lra.
  - pose proof (h_diag_pos i Si) as Pi. pose proof (h_diag_pos j Sj) as Pj.
    pose proof (so_cauchy (dir i) (dir j) X) as C.
    rewrite <- (h_eq i j) in C.
    assert (Ei : sum_over X (fun r => dir i r ^ 2) = h c X i i) by (rewrite h_eq; apply so_ext; intros; ring).
    assert (Ej : sum_over X (fun r => dir j r ^ 2) = h c X j j) by (rewrite h_eq; apply so_ext; intros; ring).
    rewrite Ei, Ej in C. rewrite <- sqrt_mult by lra. set (s := sqrt (h c X i i * h c X j j)).
    assert (S0 : 0 < s) by (apply sqrt_lt_R0, Rmult_lt_0_compat; auto).
    assert (SS : s * s = h c X i i * h c X j j) by (apply sqrt_sqrt; left; apply Rmult_lt_0_compat; auto).
    assert (h c X i j * h c X i j <= s * s) by (rewrite SS; simpl in C; lra).
    assert (- s <= h c X i j <= s) by (split; nra).
    split; apply Rmult_le_reg_r with s; auto; unfold Rdiv; rewrite Rmult_assoc, Rinv_l by lra; lra.
Qed.
Lemma corr_quad v l x : (forall i, In i l -> 0 < std_of X i) -> 0 <= quad l x (corr c X v).
Proof. intros H. destruct v. apply quad_psd. apply quad_normalised; auto. Qed.
Lemma cov_quad v l x : (forall i, In i l -> 0 < std_of X i) -> 0 <= quad l x (cov c X v).
Proof.
  intros H. rewrite (quad_ext l x _ (fun i j => std_of X i * std_of X j * corr c X v i j)) by (intros; unfold cov; ring).
  rewrite <- quad_weights. apply corr_quad; auto.
Qed.
End S.

Lemma std_variance X i : std_of X i = sqrt (variance X i). Proof. reflexivity. Qed.
Lemma variance_ge0 X i : 0 <= variance X i.
Proof.
  unfold variance. destruct X as [|r X]. cbn. unfold sum_over; cbn. unfold Rdiv. rewrite Rmult_0_l. lra.
  apply Rmult_le_pos. apply so_nonneg; intros; apply pow2_ge_0. left. apply Rinv_0_lt_compat. apply INR_pos. simpl; lia.
Qed.
Lemma window_last w X : last_observations w X (window w X).
Proof.
  destruct w as [[|w]|]; unfold window, last_observations; [intros H; lia| |reflexivity]. intros _. exists (firstn (length X - S w) X). split. symmetry; apply firstn_skipn. rewrite skipn_length. lia.
Qed.
Lemma window_nonempty w X : X <> [] -> window w X <> [].
Proof.
  intros H. destruct w as [[|w]|]; simpl; auto. intros E. apply (f_equal (@length _)) in E. rewrite skipn_length in E. destruct X; [auto|cbn [length] in E; lia].
Qed.

(** * Theorems *)
(** The estimator rejects exactly the thresholds outside (0, 1).  Otherwise, for any data and any assets which are not constant over the
    chosen window, the fitted matrix is std_i * std_j * g_ij with g the Gerber statistic of the window (no division by zero can occur); it is
    symmetric, has the population variances on its diagonal, every g_ij lies in [-1, 1], and in both variants no portfolio of such assets
    has a negative variance. *)
Theorem C41_gerber (psd_variant : bool) (c : R) (w : option nat) (X : list (nat -> R)) : X <> [] ->
  (gerber psd_variant c w X = None <-> ~ (0 < c < 1)) /\
  (forall m, gerber psd_variant c w X = Some m -> exists Y, Y <> [] /\ last_observations w X Y /\
    (forall i j, 0 < variance Y i -> 0 < variance Y j ->
      m i j = m j i /\ m i i = variance Y i /\
      exists g, m i j = g * sqrt (variance Y i) * sqrt (variance Y j) /\ -1 <= g <= 1 /\
        (if psd_variant then gerber_statistic else gerber_normalised) c Y (sqrt (variance Y i)) (sqrt (variance Y j)) i j g) /\
    (forall (assets : list nat) (weights : nat -> R), (forall i, In i assets -> 0 < variance Y i) ->
      0 <= sum_over assets (fun i => sum_over assets (fun j => weights i * weights j * m i j)))).
Proof.
  intros X0. unfold gerber. split.
  { destruct (Rlt_dec c 1), (Rlt_dec 0 c); split; intros H; try discriminate; auto; try lra; exfalso; apply H; lra. }
  intros m H. destruct (Rlt_dec c 1) as [c1|]; [|discriminate]. destruct (Rlt_dec 0 c) as [c0|]; [|discriminate].
  injection H as <-. exists (window w X). split; [apply window_nonempty; auto|]. split; [apply window_last|].
  set (Y := window w X). assert (Y0 : Y <> []) by (apply window_nonempty; auto). clearbody Y. split.
  2: { intros assets weights V. apply (cov_quad c Y); auto. intros i Hi. rewrite std_variance. apply sqrt_lt_R0; auto. }
  intros i j Vi Vj.
  assert (Si : 0 < std_of Y i) by (rewrite std_variance; apply sqrt_lt_R0; auto). assert (Sj : 0 < std_of Y j) by (rewrite std_variance; apply sqrt_lt_R0; auto).
  split; [|split].
  - unfold cov. rewrite corr_sym. ring.
  - unfold cov. rewrite corr_diag by auto. rewrite std_variance, Rmult_1_l. apply sqrt_sqrt. lra.
  - exists (corr c Y psd_variant i j). rewrite <- !std_variance. split; [unfold cov; ring|]. split; [apply corr_bound; auto|].
    destruct psd_variant; [apply statistic|apply normalised]; auto.
Qed.
(** A window of zero observations is read as the whole history. *)
Theorem C41_window_zero_refuted : ~ (forall psd_variant c (X : list (nat -> R)) m, gerber psd_variant c (Some 0%nat) X = Some m ->
  exists Y, length Y = 0%nat /\ gerber psd_variant c None Y = Some m).
Proof.
  set (X := [(fun _ => 1); (fun _ => -1)] : list (nat -> R)). intros H. destruct (H true (1/2) X (cov (1/2) X true)) as [Y [LY E]].
  { unfold gerber. destruct (Rlt_dec (1/2) 1); [|lra]. destruct (Rlt_dec 0 (1/2)); [|lra]. reflexivity. }
  destruct Y; [|discriminate]. unfold gerber in E. destruct (Rlt_dec (1/2) 1); [|lra]. destruct (Rlt_dec 0 (1/2)); [|lra]. injection E as E.
  assert (E0 : cov (1/2) (window None []) true 0%nat 0%nat = cov (1/2) X true 0%nat 0%nat) by (change (window None []) with (@nil (nat -> R)); rewrite E; reflexivity).
  assert (V : variance X 0%nat = 1) by (unfold variance, X, sum_over; simpl; field).
  assert (cov (1/2) X true 0%nat 0%nat = 1).
  { unfold cov. rewrite corr_diag; try lra; try (rewrite std_variance, V, sqrt_1; lra). discriminate. }
  assert (cov (1/2) (window None []) true 0%nat 0%nat = 0).
  { unfold cov, corr. replace (h (1/2) (window None []) 0%nat 0%nat) with 0; [unfold Rdiv; ring|]. unfold h, counts, window. rewrite !so_nil. ring. }
  lra.
Qed.
(** Three observations of two assets: 3, -2, 0.1 and 2, -2, 3.  Both meet the hypotheses and the statistic is 2/3 as the two move together
    twice and only the second moves in the third observation. *)
Example C41_data : list (nat -> R) := [(fun i => match i with O => 3 | _ => 2 end); (fun i => match i with O => -2 | _ => -2 end); (fun i => match i with O => 1/10 | _ => 3 end)].
Lemma C41_var0 : 4 < variance C41_data 0%nat < 5. Proof. unfold variance, C41_data, sum_over; simpl; lra. Qed.
Lemma C41_var1 : 4 < variance C41_data 1%nat < 5. Proof. unfold variance, C41_data, sum_over; simpl; lra. Qed.
Lemma sqrt_range v : 4 < v < 5 -> 2 < sqrt v < 2.5.
Proof.
  intros [A B]. split. replace 2 with (sqrt 4). apply sqrt_lt_1; lra. replace 4 with (2*2) by lra. apply sqrt_square; lra.
  replace 2.5 with (sqrt (2.5*2.5)) by (apply sqrt_square; lra). apply sqrt_lt_1; lra.
Qed.
Example C41_example : C41_data <> [] /\ 0 < variance C41_data 0%nat /\ 0 < variance C41_data 1%nat /\
  gerber_statistic (1/2) C41_data (sqrt (variance C41_data 0%nat)) (sqrt (variance C41_data 1%nat)) 0 1 (2/3).
Proof.
  pose proof (sqrt_range _ C41_var0). pose proof (sqrt_range _ C41_var1). pose proof C41_var0. pose proof C41_var1.
  split; [discriminate|]. split; [lra|]. split; [lra|].
  set (s := sqrt (variance C41_data 0%nat)) in *. set (t := sqrt (variance C41_data 1%nat)) in *. clearbody s t.
  exists 2%nat, 0%nat, 3%nat. unfold C41_data, moves_up, moves_down. split; [|split; [|split; [|split]]].
  - left. split; [left; lra|]. exists 1%nat. split; auto. left. split; [right; lra|]. exists 0%nat. split; auto. right. split; [|reflexivity]. intros [[? ?]|[? ?]]; lra.
  - right. split; [intros [[? ?]|[? ?]]; lra|]. right. split; [intros [[? ?]|[? ?]]; lra|]. right. split; [|reflexivity]. intros [[? ?]|[? ?]]; lra.
  - left. split; [left; lra|]. exists 2%nat. split; auto. left. split; [right; left; lra|]. exists 1%nat. split; auto. left. split; [right; right; left; lra|]. exists 0%nat. split; reflexivity.
  - lia.
  - simpl. lra.
Qed.
Print Assumptions C41_gerber.
Print Assumptions C41_window_zero_refuted.
