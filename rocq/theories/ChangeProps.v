(** C91: the measures of a portfolio under changes of unit, of cash and of the order of the observations.
    The code is that of PortfolioModel.v and MeasuresModel.v. *)
From Coq Require Import String Ascii Reals Lra Lia List Bool Arith Permutation FunctionalExtensionality.
From Verif Require Import RList MeasuresModel MeasuresProofs MeasuresProps DrawdownProps PortfolioModel PortfolioSpec PortfolioProofs PortfolioProps.
Import ListNotations.
Local Open Scope R_scope.

(** * Specification *)
(** the same portfolio with its amounts, rates and risk aversion in another unit *)
Definition in_units (c : R) (a : attrs) : attrs :=
  {| returns := map (fun x => c * x) (returns a); min_acceptable_return := option_map (fun x => c * x) (min_acceptable_return a);
     compounded := compounded a; risk_free_rate := c * risk_free_rate a; value_at_risk_beta := value_at_risk_beta a; cvar_beta := cvar_beta a;
     entropic_risk_measure_theta := c * entropic_risk_measure_theta a; entropic_risk_measure_beta := entropic_risk_measure_beta a;
     evar_beta := evar_beta a; drawdown_at_risk_beta := drawdown_at_risk_beta a; cdar_beta := cdar_beta a; edar_beta := edar_beta a;
     annualized_factor := annualized_factor a |}.
(** the same portfolio with an amount [b] of cash earned at every observation, all rates counted with it *)
Definition with_cash (b : R) (a : attrs) : attrs :=
  {| returns := map (fun x => x + b) (returns a); min_acceptable_return := option_map (fun x => x + b) (min_acceptable_return a);
     compounded := compounded a; risk_free_rate := risk_free_rate a + b; value_at_risk_beta := value_at_risk_beta a; cvar_beta := cvar_beta a;
     entropic_risk_measure_theta := entropic_risk_measure_theta a; entropic_risk_measure_beta := entropic_risk_measure_beta a;
     evar_beta := evar_beta a; drawdown_at_risk_beta := drawdown_at_risk_beta a; cdar_beta := cdar_beta a; edar_beta := edar_beta a;
     annualized_factor := annualized_factor a |}.
(** the power of the unit in which a measure is expressed *)
Definition degree (m : measure) : nat :=
  match m with
  | VARIANCE | ANNUALIZED_VARIANCE | SEMI_VARIANCE | ANNUALIZED_SEMI_VARIANCE => 2
  | FOURTH_CENTRAL_MOMENT | FOURTH_LOWER_PARTIAL_MOMENT => 4
  | SKEW | KURTOSIS => 0
  | _ => match denominator m with Some _ => 0 | None => 1 end
  end%nat.
(** what the cash adds to a measure; None: no claim (drawdowns, and ratios whose risk moves with the cash) *)
Definition cash (a : attrs) (m : measure) (b : R) : option R :=
  match m with
  | MEAN => Some b
  | ANNUALIZED_MEAN => Some (b * annualized_factor a)
  | CVAR | EVAR | WORST_REALIZATION | VALUE_AT_RISK | ENTROPIC_RISK_MEASURE => Some (- b)
  | VARIANCE | ANNUALIZED_VARIANCE | SEMI_VARIANCE | ANNUALIZED_SEMI_VARIANCE | STANDARD_DEVIATION | ANNUALIZED_STANDARD_DEVIATION
  | SEMI_DEVIATION | ANNUALIZED_SEMI_DEVIATION | MEAN_ABSOLUTE_DEVIATION | FIRST_LOWER_PARTIAL_MOMENT | GINI_MEAN_DIFFERENCE
  | FOURTH_CENTRAL_MOMENT | FOURTH_LOWER_PARTIAL_MOMENT | SKEW | KURTOSIS
  | SHARPE_RATIO | SORTINO_RATIO | MEAN_ABSOLUTE_DEVIATION_RATIO | FIRST_LOWER_PARTIAL_MOMENT_RATIO | GINI_MEAN_DIFFERENCE_RATIO => Some 0
  | _ => None
  end.
(** measures computed from the drawdowns, and from the entropic value at risk *)
Definition from_drawdowns (m : measure) : bool :=
  match m with
  | CDAR | MAX_DRAWDOWN | AVERAGE_DRAWDOWN | EDAR | ULCER_INDEX | DRAWDOWN_AT_RISK
  | DRAWDOWN_AT_RISK_RATIO | CDAR_RATIO | CALMAR_RATIO | AVERAGE_DRAWDOWN_RATIO | EDAR_RATIO | ULCER_INDEX_RATIO => true
  | _ => false
  end.
(** levels as documented, positive risk aversion *)
Definition admissible (a : attrs) : Prop :=
  0 <= value_at_risk_beta a <= 1 /\ 0 <= cvar_beta a < 1 /\ 0 < entropic_risk_measure_theta a /\ entropic_risk_measure_beta a < 1
  /\ evar_beta a < 1 /\ 0 <= drawdown_at_risk_beta a <= 1 /\ 0 <= cdar_beta a < 1 /\ edar_beta a < 1.
(** the solver finds the minimum of the entropic value at risk over all positive risk aversions *)
Definition solved (solver : (R -> R) -> R -> R) (r : list R) (beta : R) : Prop :=
  let f := fun t => entropic_risk_measure r t beta in
  let t := solver f (evar_lower_bound r) in 0 < t /\ forall u, 0 < u -> f t <= f u.
Definition solver_exact (solver : (R -> R) -> R -> R) (a : attrs) (m : measure) : Prop :=
  match m with
  | EVAR | EVAR_RATIO => solved solver (returns a) (evar_beta a)
  | EDAR | EDAR_RATIO => solved solver (get_drawdowns (returns a) (compounded a)) (edar_beta a)
  | _ => True
  end.

(** * Functions of the returns under an increasing affine map *)
Section Affine.
Variables c b : R.
Hypothesis Hc : 0 < c.
Let T := fun x => c * x + b.
Lemma len_map (r : list R) (f : R -> R) : len (map f r) = len r.
Proof. unfold len. now rewrite map_length. Qed.
Lemma len_pos (r : list R) : r <> [] -> 0 < len r.
Proof. intros H. unfold len. apply INR_pos. destruct r; [contradiction|cbn; lia]. Qed.
Lemma mean_T r : r <> [] -> mean (map T r) = c * mean r + b.
Proof.
  intros H. pose proof (len_pos r H) as L. unfold mean. rewrite len_map, <- so_id, so_map. unfold T.
  rewrite so_add, so_scal, so_const, so_id. fold (len r). field. lra.
Qed.
Lemma target_T r mar : r <> [] -> target (map T r) (option_map T mar) = T (target r mar).
Proof. intros H. destruct mar; cbn; [reflexivity|now apply mean_T]. Qed.
Lemma min_scale x y : Rmin 0 (T x - T y) = c * Rmin 0 (x - y).
Proof. unfold T. replace (c * x + b - (c * y + b)) with (c * (x - y)) by ring. unfold Rmin. destruct (Rle_dec 0 (c * (x - y))), (Rle_dec 0 (x - y)); nra. Qed.
Lemma mad_T r mar : r <> [] -> mean_absolute_deviation (map T r) (option_map T mar) = c * mean_absolute_deviation r mar.
Proof.
  intros H. unfold mean_absolute_deviation. rewrite target_T, len_map, so_map by exact H.
  rewrite (so_ext _ (fun x => c * Rabs (x - target r mar))); [rewrite so_scal; unfold Rdiv; ring|].
  intros x _. unfold T. replace (c * x + b - (c * target r mar + b)) with (c * (x - target r mar)) by ring. rewrite Rabs_mult, (Rabs_right c) by lra. reflexivity.
Qed.
Lemma flpm_T r mar : r <> [] -> first_lower_partial_moment (map T r) (option_map T mar) = c * first_lower_partial_moment r mar.
Proof.
  intros H. unfold first_lower_partial_moment. rewrite target_T, len_map, so_map by exact H.
  rewrite (so_ext _ (fun x => c * Rmin 0 (x - target r mar))); [rewrite so_scal; unfold Rdiv; ring|]. intros x _. apply min_scale.
Qed.
Lemma variance_T r : r <> [] -> variance (map T r) = c ^ 2 * variance r.
Proof.
  intros H. unfold variance. rewrite mean_T, len_map, so_map by exact H.
  rewrite (so_ext _ (fun x => c ^ 2 * (x - mean r) ^ 2)); [rewrite so_scal; unfold Rdiv; ring|]. intros x _. unfold T. ring.
Qed.
Lemma semi_variance_T r mar : r <> [] -> semi_variance (map T r) (option_map T mar) = c ^ 2 * semi_variance r mar.
Proof.
  intros H. unfold semi_variance. rewrite target_T, len_map, so_map by exact H.
  rewrite (so_ext _ (fun x => c ^ 2 * Rmin 0 (x - target r mar) ^ 2)); [rewrite so_scal; unfold Rdiv; ring|].
  intros x _. rewrite min_scale. ring.
Qed.
Lemma sqrt_scale x : sqrt (c ^ 2 * x) = c * sqrt x.
Proof. rewrite sqrt_mult_alt by (apply pow_le; lra). f_equal. apply sqrt_pow2. lra. Qed.
Lemma sd_T r : r <> [] -> standard_deviation (map T r) = c * standard_deviation r.
Proof. intros H. unfold standard_deviation. rewrite variance_T by exact H. apply sqrt_scale. Qed.
Lemma semi_deviation_T r mar : r <> [] -> semi_deviation (map T r) (option_map T mar) = c * semi_deviation r mar.
Proof. intros H. unfold semi_deviation. rewrite semi_variance_T by exact H. apply sqrt_scale. Qed.
Lemma third_T r : r <> [] -> third_central_moment (map T r) = c ^ 3 * third_central_moment r.
Proof.
  intros H. unfold third_central_moment. rewrite mean_T, len_map, so_map by exact H.
  rewrite (so_ext _ (fun x => c ^ 3 * (x - mean r) ^ 3)); [rewrite so_scal; unfold Rdiv; ring|]. intros x _. unfold T. ring.
Qed.
Lemma fourth_T r : r <> [] -> fourth_central_moment (map T r) = c ^ 4 * fourth_central_moment r.
Proof.
  intros H. unfold fourth_central_moment. rewrite mean_T, len_map, so_map by exact H.
  rewrite (so_ext _ (fun x => c ^ 4 * (x - mean r) ^ 4)); [rewrite so_scal; unfold Rdiv; ring|]. intros x _. unfold T. ring.
Qed.
Lemma flpm4_T r mar : r <> [] -> fourth_lower_partial_moment (map T r) (option_map T mar) = c ^ 4 * fourth_lower_partial_moment r mar.
Proof.
  intros H. unfold fourth_lower_partial_moment. rewrite target_T, len_map, so_map by exact H.
  rewrite (so_ext _ (fun x => c ^ 4 * Rmin 0 (x - target r mar) ^ 4)); [rewrite so_scal; unfold Rdiv; ring|].
  intros x _. rewrite min_scale. ring.
Qed.
Lemma minR_unique l v : In v l -> (forall y, In y l -> v <= y) -> minR l = v.
Proof.
  intros I H. assert (N : l <> []) by (intros ->; destruct I). destruct (minR_spec l N) as [M1 M2]. apply Rle_antisym; [now apply M2|now apply H].
Qed.
Lemma worst_T r : r <> [] -> worst_realization (map T r) = c * worst_realization r - b.
Proof.
  intros H. unfold worst_realization. destruct (minR_spec r H) as [M1 M2].
  rewrite (minR_unique _ (T (minR r))); [unfold T; ring|now apply in_map|].
  intros y Hy. apply in_map_iff in Hy as (x & <- & Hx). unfold T. specialize (M2 x Hx). nra.
Qed.
Lemma entropic_T r t beta : r <> [] -> 0 < t -> beta < 1 ->
  entropic_risk_measure (map T r) (c * t) beta = c * entropic_risk_measure r t beta - b.
Proof.
  intros H Ht Hb. unfold entropic_risk_measure. rewrite map_map.
  set (s := rsum (map (fun x => exp (- x / t)) r)).
  assert (S0 : 0 < s).
  { unfold s. destruct r as [|x r]; [contradiction|]. cbn [map]. rewrite rsum_cons. pose proof (exp_pos (- x / t)).
    assert (0 <= sum_over r (fun x => exp (- x / t))) by (apply so_nonneg; intros; left; apply exp_pos). unfold sum_over in H1. lra. }
  pose proof (len_pos r H) as L.
  assert (E : mean (map (fun x => exp (- T x / (c * t))) r) = exp (- b / (c * t)) * mean (map (fun x => exp (- x / t)) r)).
  { unfold mean. rewrite !len_map. fold s. change (rsum (map (fun x => exp (- T x / (c * t))) r)) with (sum_over r (fun x => exp (- T x / (c * t)))).
    rewrite (so_ext _ (fun x => exp (- b / (c * t)) * exp (- x / t))).
    - rewrite so_scal. change (sum_over r (fun x => exp (- x / t))) with s. unfold Rdiv. ring.
    - intros x _. rewrite <- exp_plus. f_equal. unfold T. field. lra. }
  rewrite E. replace (exp (- b / (c * t)) * mean (map (fun x => exp (- x / t)) r) / (1 - beta))
    with (exp (- b / (c * t)) * (mean (map (fun x => exp (- x / t)) r) / (1 - beta))) by (unfold Rdiv; ring).
  rewrite ln_mult; [|apply exp_pos|].
  - rewrite ln_exp. field. lra.
  - unfold mean. rewrite len_map. fold s. apply Rdiv_lt_0_compat; [apply Rdiv_lt_0_compat; lra|lra].
Qed.
Lemma gini_T sort r : sort_ok sort -> (2 <= length r)%nat -> gini_mean_difference sort (map T r) = c * gini_mean_difference sort r.
Proof.
  intros Hs H. destruct (C14_gini_invariance sort Hs r H) as (_ & _ & G2 & _).
  assert (H' : (2 <= length (map (fun x => (c * x)%R) r))%nat) by now rewrite map_length.
  destruct (C14_gini_invariance sort Hs _ H') as (_ & G1 & _).
  specialize (G1 b). rewrite map_map in G1. unfold T. rewrite G1, G2, Rabs_right by lra. reflexivity.
Qed.
End Affine.

(** * Order statistics depend on the multiset only *)
Definition below (v : R) (l : list R) : nat := length (filter (fun y => if Rlt_dec y v then true else false) l).
Lemma below_perm v l l' : Permutation l l' -> below v l = below v l'.
Proof.
  unfold below. induction 1; cbn; auto; [|destruct (Rlt_dec x v), (Rlt_dec y v); reflexivity|congruence].
  destruct (Rlt_dec x v); cbn; congruence.
Qed.
Lemma below_app v l l' : below v (l ++ l') = (below v l + below v l')%nat.
Proof. unfold below. induction l as [|x l IH]; cbn; [reflexivity|]. destruct (Rlt_dec x v); cbn; lia. Qed.
Lemma below_all v l : (forall y, In y l -> y < v) -> below v l = length l.
Proof.
  unfold below. induction l as [|x l IH]; intros H; cbn; [reflexivity|]. destruct (Rlt_dec x v) as [L|L]; [cbn; rewrite IH; auto; intros; apply H; now right|].
  exfalso. apply L, H. now left.
Qed.
Lemma below_none v l : (forall y, In y l -> v <= y) -> below v l = 0%nat.
Proof.
  unfold below. induction l as [|x l IH]; intros H; cbn; [reflexivity|]. destruct (Rlt_dec x v) as [L|L]; [|apply IH; intros; apply H; now right].
  exfalso. specialize (H x (or_introl eq_refl)). lra.
Qed.
Lemma below_le v l : (below v l <= length l)%nat.
Proof. unfold below. induction l as [|x l IH]; cbn; [lia|]. destruct (Rlt_dec x v); cbn; lia. Qed.
Lemma order_le a x d a' x' d' : Permutation (a ++ x :: d) (a' ++ x' :: d') -> length a = length a' ->
  (forall y, In y a -> y <= x) -> (forall y, In y d' -> x' <= y) -> x' <= x.
Proof.
  intros P L A D. apply Rnot_lt_le. intros N. pose proof (below_perm x' _ _ P) as E. rewrite !below_app in E.
  rewrite (below_all x' a) in E by (intros y Hy; specialize (A y Hy); lra).
  assert (B : (1 <= below x' (x :: d))%nat) by (unfold below; cbn; destruct (Rlt_dec x x'); [cbn; lia|contradiction]).
  assert (B' : below x' (x' :: d') = 0%nat) by (apply below_none; intros y [<-|Hy]; [lra|now apply D]).
  pose proof (below_le x' a'). lia.
Qed.
Lemma order_unique p r r' ik : partition_ok p -> (ik < length r)%nat -> Permutation r r' -> nth ik (p r ik) 0 = nth ik (p r' ik) 0.
Proof.
  intros Hp H P. pose proof (Permutation_length P) as L.
  destruct (partition_split p r ik Hp H) as (a & x & d & _ & La & -> & Pa & A & D).
  destruct (partition_split p r' ik Hp ltac:(lia)) as (a' & x' & d' & _ & La' & -> & Pa' & A' & D').
  assert (Q : Permutation (a ++ x :: d) (a' ++ x' :: d')) by (rewrite Pa, P; now symmetry).
  apply Rle_antisym; [apply (order_le a' x' d' a x d)|apply (order_le a x d a' x' d')]; auto; try congruence; now symmetry.
Qed.
Lemma order_T p c b r ik : partition_ok p -> 0 < c -> (ik < length r)%nat ->
  nth ik (p (map (fun x => c * x + b) r) ik) 0 = c * nth ik (p r ik) 0 + b.
Proof.
  intros Hp Hc H. set (T := fun x => c * x + b).
  destruct (partition_split p r ik Hp H) as (a & x & d & _ & La & -> & Pa & A & D).
  destruct (partition_split p (map T r) ik Hp ltac:(rewrite map_length; lia)) as (a' & x' & d' & _ & La' & -> & Pa' & A' & D').
  assert (Q : Permutation (map T a ++ T x :: map T d) (a' ++ x' :: d')).
  { rewrite Pa', <- Pa, map_app. reflexivity. }
  assert (mono : forall u v, u <= v -> T u <= T v) by (intros u v Huv; unfold T; nra).
  apply Rle_antisym.
  - apply (order_le (map T a) (T x) (map T d) a' x' d'); auto; [rewrite map_length; congruence|].
    intros y Hy. apply in_map_iff in Hy as (u & <- & Hu). apply mono, A, Hu.
  - apply (order_le a' x' d' (map T a) (T x) (map T d)); auto; [now symmetry|rewrite map_length; congruence|].
    intros y Hy. apply in_map_iff in Hy as (u & <- & Hu). apply mono, D, Hu.
Qed.
Lemma index_ok beta (r : list R) : r <> [] -> 0 <= beta <= 1 -> (tail_index beta (length r) < length r)%nat.
Proof.
  intros H Hb. assert (0 < length r)%nat by (destruct r; [contradiction|cbn; lia]).
  destruct (Req_dec beta 1) as [->|N]; [rewrite tail_index_one; lia|]. apply tail_index_spec; lra || lia.
Qed.
Lemma var_T p c b r beta : partition_ok p -> 0 < c -> r <> [] -> 0 <= beta <= 1 ->
  value_at_risk p (map (fun x => c * x + b) r) beta = c * value_at_risk p r beta - b.
Proof.
  intros Hp Hc H Hb. unfold value_at_risk. rewrite map_length, order_T by (auto using index_ok). ring.
Qed.
Lemma var_perm p r r' beta : partition_ok p -> r <> [] -> 0 <= beta <= 1 -> Permutation r r' -> value_at_risk p r beta = value_at_risk p r' beta.
Proof. intros Hp H Hb P. unfold value_at_risk. rewrite <- (Permutation_length P). f_equal. apply order_unique; auto using index_ok. Qed.
Lemma cvar_T p c b r beta : partition_ok p -> 0 < c -> r <> [] -> 0 <= beta < 1 ->
  cvar p (map (fun x => c * x + b) r) beta = c * cvar p r beta - b.
Proof.
  intros Hp Hc H Hb. destruct (C11_cvar_coherent p Hp beta Hb) as (_ & Tr & Sc & _).
  rewrite <- (Sc r c H Hc), <- (Tr (map (fun x => c * x) r) b); [now rewrite map_map|]. destruct r; [contradiction|discriminate].
Qed.
Lemma evar_T solver c b r beta : 0 < c -> r <> [] -> beta < 1 -> solved solver r beta -> solved solver (map (fun x => c * x + b) r) beta ->
  evar solver (map (fun x => c * x + b) r) beta = c * evar solver r beta - b.
Proof.
  intros Hc H Hb [P M] [P' M']. cbv beta zeta in P, M, P', M'. unfold evar. cbv beta zeta.
  set (t := solver (fun t => entropic_risk_measure r t beta) _) in *. set (t' := solver (fun t => entropic_risk_measure (map (fun x => c * x + b) r) t beta) _) in *. clearbody t t'.
  apply Rle_antisym.
  - eapply Rle_trans; [apply (M' (c * t)); nra|]. rewrite (entropic_T c b Hc r t beta) by auto. lra.
  - assert (Q : 0 < t' / c) by (apply Rdiv_lt_0_compat; auto).
    specialize (M (t' / c) Q).
    replace t' with (c * (t' / c)) by (field; lra). rewrite (entropic_T c b Hc r (t' / c) beta) by auto. nra.
Qed.

(** * Drawdowns *)
Lemma scan_scale c l : forall acc, MeasuresModel.scan Rplus (c * acc) (map (fun x => c * x) l) = map (fun x => c * x) (MeasuresModel.scan Rplus acc l).
Proof. induction l as [|x l IH]; intros acc; cbn; [reflexivity|]. rewrite <- Rmult_plus_distr_l, IH. reflexivity. Qed.
Lemma scan_max_scale c l : 0 < c -> forall acc, MeasuresModel.scan Rmax (c * acc) (map (fun x => c * x) l) = map (fun x => c * x) (MeasuresModel.scan Rmax acc l).
Proof. intros Hc. induction l as [|x l IH]; intros acc; cbn; [reflexivity|]. rewrite RmaxRmult, IH by lra. reflexivity. Qed.
Lemma drawdowns_scale c r : 0 < c -> get_drawdowns (map (fun x => c * x) r) false = map (fun x => c * x) (get_drawdowns r false).
Proof.
  intros Hc. unfold get_drawdowns, get_cumulative_returns.
  assert (E : accumulate Rplus (map (fun x => c * x) r) = map (fun x => c * x) (accumulate Rplus r)).
  { destruct r as [|x r]; [reflexivity|]. cbn. now rewrite scan_scale. }
  rewrite E. set (l := accumulate Rplus r).
  assert (E' : accumulate Rmax (map (fun x => c * x) l) = map (fun x => c * x) (accumulate Rmax l)).
  { destruct l as [|x l']; [reflexivity|]. cbn. now rewrite scan_max_scale. }
  rewrite E'. generalize (accumulate Rmax l). clearbody l. clear E E'. induction l as [|x l' IH]; intros [|y m]; cbn; try reflexivity. rewrite IH. f_equal. ring.
Qed.
Lemma ulcer_scale c d : 0 < c -> ulcer_index (map (fun x => c * x) d) = c * ulcer_index d.
Proof.
  intros Hc. unfold ulcer_index. rewrite len_map, so_map, (so_ext _ (fun x => c ^ 2 * x ^ 2)) by (intros; ring). rewrite so_scal.
  replace (c ^ 2 * sum_over d (fun x => x ^ 2) / len d) with (c ^ 2 * (sum_over d (fun x => x ^ 2) / len d)) by (unfold Rdiv; ring).
  now apply sqrt_scale.
Qed.

(** * The measures *)
Definition affine (c b : R) (a : attrs) : attrs :=
  {| returns := map (fun x => c * x + b) (returns a); min_acceptable_return := option_map (fun x => c * x + b) (min_acceptable_return a);
     compounded := compounded a; risk_free_rate := c * risk_free_rate a + b; value_at_risk_beta := value_at_risk_beta a; cvar_beta := cvar_beta a;
     entropic_risk_measure_theta := c * entropic_risk_measure_theta a; entropic_risk_measure_beta := entropic_risk_measure_beta a;
     evar_beta := evar_beta a; drawdown_at_risk_beta := drawdown_at_risk_beta a; cdar_beta := cdar_beta a; edar_beta := edar_beta a;
     annualized_factor := annualized_factor a |}.
Lemma units_affine c a : in_units c a = affine c 0 a.
Proof.
  unfold in_units, affine. f_equal; [apply map_ext; intros; ring| |ring]. destruct (min_acceptable_return a); cbn; [f_equal; ring|reflexivity].
Qed.
Lemma cash_affine b a : with_cash b a = affine 1 b a.
Proof.
  unfold with_cash, affine. f_equal; [apply map_ext; intros; ring| |ring|ring]. destruct (min_acceptable_return a); cbn; [f_equal; ring|reflexivity].
Qed.
Lemma need_map n (f : R -> R) r v : need n (map f r) v = need n r v.
Proof. unfold need. now rewrite map_length. Qed.
Lemma need_eq n r v v' g : (forall H : (n <= length r)%nat, v' = g v) -> need n r v' = option_map g (need n r v).
Proof. intros H. unfold need. destruct (Nat.ltb_spec (length r) n); [reflexivity|]. cbn. f_equal. apply H. lia. Qed.
Lemma need_nil n (r : list R) : (1 <= n)%nat -> (n <= length r)%nat -> r <> [].
Proof. intros A B ->. cbn in B. lia. Qed.
Lemma ratio_scale a b k l : 0 < l -> ratio (option_map (fun x => k * x) a) (option_map (fun x => l * x) b) = option_map (fun x => k / l * x) (ratio a b).
Proof.
  intros H. destruct a as [x|], b as [y|]; cbn; try reflexivity.
  destruct (Req_EM_T (l * y) 0) as [E|E], (Req_EM_T y 0) as [F|F]; cbn; try reflexivity.
  - exfalso. apply F. nra.
  - exfalso. apply E. rewrite F. ring.
  - f_equal. field. split; lra || auto.
Qed.
Lemma skew_T k (M : list R -> R) c b r : 0 < c -> (forall r, r <> [] -> M (map (fun x => c * x + b) r) = c ^ k * M r) ->
  ratio (need 2 r (M (map (fun x => c * x + b) r))) (Some (standard_deviation (map (fun x => c * x + b) r) ^ k))
  = option_map (fun v => c ^ 0 * v + 0) (ratio (need 2 r (M r)) (Some (standard_deviation r ^ k))).
Proof.
  intros Hc HM. destruct (Nat.ltb_spec (length r) 2) as [L|L].
  - unfold need. apply Nat.ltb_lt in L. rewrite L. reflexivity.
  - assert (N : r <> []) by (apply (need_nil 2); lia).
    rewrite HM, sd_T, Rpow_mult_distr by auto. pose proof (pow_lt c k Hc) as P.
    change (Some (c ^ k * standard_deviation r ^ k)) with (option_map (fun x => c ^ k * x) (Some (standard_deviation r ^ k))).
    rewrite (need_eq 2 r (M r) (c ^ k * M r) (fun x => c ^ k * x) (fun _ => eq_refl)), ratio_scale by exact P.
    destruct (ratio _ _); cbn; [f_equal; field; lra|reflexivity].
Qed.
Section Measures.
Variable p : list R -> nat -> list R.
Variable sort : list R -> list R.
Variable solver : (R -> R) -> R -> R.
Hypothesis Hp : partition_ok p.
Hypothesis Hs : sort_ok sort.
Notation spec := (spec_function p sort solver).
Lemma function_affine c b a m : 0 < c -> admissible a -> denominator m = None -> from_drawdowns m = false ->
  solver_exact solver a m -> solver_exact solver (affine c b a) m ->
  spec (affine c b a) m = option_map (fun v => c ^ degree m * v + match cash a m b with Some s => s | None => 0 end) (spec a m).
Proof.
  intros Hc (A1 & A2 & A3 & A4 & A5 & _) D F E E'.
  assert (N1 : forall r : list R, (1 <= length r)%nat -> r <> []) by (intros r; apply need_nil; lia).
  assert (N2 : forall r : list R, (2 <= length r)%nat -> r <> []) by (intros r; apply need_nil; lia).
  destruct m; try discriminate; cbn [spec_function affine returns min_acceptable_return annualized_factor cvar_beta evar_beta
    value_at_risk_beta entropic_risk_measure_theta entropic_risk_measure_beta degree denominator cash]; rewrite ?need_map;
  try (apply need_eq; intros L).
  all: try (rewrite ?mean_T, ?mad_T, ?flpm_T, ?variance_T, ?semi_variance_T, ?sd_T, ?semi_deviation_T, ?fourth_T, ?flpm4_T, ?worst_T,
    ?gini_T, ?var_T, ?cvar_T, ?entropic_T by auto; ring).
  - rewrite evar_T by auto. ring.
  - apply (skew_T 3 third_central_moment); [exact Hc|]. intros r. now apply third_T.
  - apply (skew_T 4 fourth_central_moment); [exact Hc|]. intros r. now apply fourth_T.
Qed.
(** the drawdown measures, non-compounded *)
Lemma function_drawdown c a m : 0 < c -> admissible a -> denominator m = None -> from_drawdowns m = true -> compounded a = false ->
  solver_exact solver a m -> solver_exact solver (affine c 0 a) m ->
  spec (affine c 0 a) m = option_map (fun v => c ^ degree m * v) (spec a m).
Proof.
  intros Hc (_ & _ & _ & _ & _ & A6 & A7 & A8) D F C E E'.
  assert (N1 : forall r : list R, (1 <= length r)%nat -> r <> []) by (intros r; apply need_nil; lia).
  assert (G : get_drawdowns (map (fun x => c * x + 0) (returns a)) false = map (fun x => c * x + 0) (get_drawdowns (returns a) false)).
  { rewrite (map_ext (fun x => c * x + 0) (fun x => c * x)) by (intros; ring). rewrite drawdowns_scale by exact Hc.
    apply map_ext. intros; ring. }
  assert (U : forall d, ulcer_index (map (fun x => c * x + 0) d) = c * ulcer_index d).
  { intros d. rewrite (map_ext (fun x => c * x + 0) (fun x => c * x)) by (intros; ring). now apply ulcer_scale. }
  destruct m; try discriminate; cbn [solver_exact affine returns compounded edar_beta] in E, E';
  cbn [spec_function affine returns compounded cdar_beta edar_beta drawdown_at_risk_beta degree denominator];
  rewrite C in *; rewrite G in *; rewrite need_map; apply need_eq; intros L;
  unfold average_drawdown, max_drawdown, cdar, drawdown_at_risk; rewrite ?U, ?cvar_T, ?var_T by (auto; lra); try ring.
  rewrite evar_T by auto. ring.
Qed.

Lemma function_units c a m : 0 < c -> admissible a -> denominator m = None -> (from_drawdowns m = true -> compounded a = false) ->
  solver_exact solver a m -> solver_exact solver (affine c 0 a) m ->
  spec (affine c 0 a) m = option_map (fun v => c ^ degree m * v) (spec a m).
Proof.
  intros Hc A D F E E'. destruct (from_drawdowns m) eqn:G; [now apply function_drawdown; auto|].
  rewrite function_affine by auto. destruct (spec a m); cbn; [|reflexivity]. f_equal.
  assert (Z : match cash a m 0 with Some s => s | None => 0 end = 0) by (destruct m; cbn; ring). rewrite Z. ring.
Qed.
Lemma measure_units c a m : 0 < c -> admissible a -> (from_drawdowns m = true -> compounded a = false) ->
  solver_exact solver a m -> solver_exact solver (affine c 0 a) m ->
  spec_measure p sort solver (affine c 0 a) m = option_map (fun v => c ^ degree m * v) (spec_measure p sort solver a m).
Proof.
  intros Hc A F E E'. unfold spec_measure. destruct (denominator m) as [k|] eqn:D; [|now apply function_units].
  assert (K : denominator k = None /\ degree k = 1%nat /\ from_drawdowns k = from_drawdowns m
    /\ solver_exact solver a k /\ solver_exact solver (affine c 0 a) k /\ degree m = 0%nat).
  { destruct m; inversion D; subst k; refine (conj eq_refl (conj eq_refl (conj eq_refl (conj _ (conj _ eq_refl))))); exact I || exact E || exact E'. }
  destruct K as (K1 & K2 & K3 & K4 & K5 & K6). rewrite K6. rewrite (function_units c a k) by (auto; now rewrite K3). rewrite K2.
  set (q := match m with ANNUALIZED_SHARPE_RATIO | ANNUALIZED_SORTINO_RATIO => ANNUALIZED_MEAN | _ => MEAN end).
  assert (Q : spec (affine c 0 a) q = option_map (fun v => c ^ 1 * v) (spec a q)).
  { assert (Q1 : q = MEAN \/ q = ANNUALIZED_MEAN) by (unfold q; destruct m; auto).
    destruct Q1 as [-> | ->]; (rewrite function_units; [reflexivity| | | | | |]; auto; try exact I; intros; discriminate). }
  rewrite Q. cbn [affine risk_free_rate].
  assert (E1 : option_map (fun x => x - (c * risk_free_rate a + 0)) (option_map (fun v => c ^ 1 * v) (spec a q))
    = option_map (fun x => c ^ 1 * x) (option_map (fun x => x - risk_free_rate a) (spec a q))).
  { destruct (spec a q); cbn; [f_equal; ring|reflexivity]. }
  rewrite E1, ratio_scale by (rewrite pow_1; exact Hc).
  destruct (ratio _ _); cbn; [f_equal; field; lra|reflexivity].
Qed.
Lemma measure_cash b a m s : admissible a -> cash a m b = Some s ->
  solver_exact solver a m -> solver_exact solver (affine 1 b a) m ->
  spec_measure p sort solver (affine 1 b a) m = option_map (fun v => v + s) (spec_measure p sort solver a m).
Proof.
  intros A C E E'. pose proof Rlt_0_1 as H1. unfold spec_measure. destruct (denominator m) as [k|] eqn:D.
  - assert (K : denominator k = None /\ cash a k b = Some 0 /\ from_drawdowns k = false
      /\ solver_exact solver a k /\ solver_exact solver (affine 1 b a) k /\ s = 0
      /\ match m with ANNUALIZED_SHARPE_RATIO | ANNUALIZED_SORTINO_RATIO => ANNUALIZED_MEAN | _ => MEAN end = MEAN).
    { destruct m; inversion D; subst k; cbn in C; try discriminate; inversion C; exact (conj eq_refl (conj eq_refl (conj eq_refl (conj I (conj I (conj eq_refl eq_refl)))))). }
    destruct K as (K1 & K2 & K3 & K4 & K5 & -> & ->). rewrite !function_affine, K2 by (auto; exact I). cbn [cash degree denominator affine risk_free_rate].
    rewrite !pow1.
    assert (E1 : option_map (fun x => x - (1 * risk_free_rate a + b)) (option_map (fun v => 1 * v + b) (spec a MEAN))
      = option_map (fun x => 1 * x) (option_map (fun x => x - risk_free_rate a) (spec a MEAN))).
    { destruct (spec a MEAN); cbn; [f_equal; ring|reflexivity]. }
    assert (E2 : option_map (fun v => 1 * v + 0) (spec a k) = option_map (fun x => 1 * x) (spec a k)).
    { destruct (spec a k); cbn; [f_equal; ring|reflexivity]. }
    rewrite E1, E2, ratio_scale by exact H1. destruct (ratio _ _); cbn; [f_equal; field|reflexivity].
  - rewrite function_affine, C; auto; [|destruct m; cbn in C |- *; congruence].
    rewrite pow1. destruct (spec a m); cbn; [f_equal; ring|reflexivity].
Qed.
(** order *)
Lemma mean_perm r r' : Permutation r r' -> mean r = mean r'.
Proof. intros P. unfold mean, len. now rewrite (Permutation_length P), (rsum_perm _ _ P). Qed.
Lemma target_perm r r' mar : Permutation r r' -> target r mar = target r' mar.
Proof. intros P. destruct mar; cbn; [reflexivity|now apply mean_perm]. Qed.
Lemma worst_perm r r' : r <> [] -> Permutation r r' -> worst_realization r = worst_realization r'.
Proof.
  intros H P. unfold worst_realization. f_equal. destruct (minR_spec r H) as [M1 M2]. symmetry. apply minR_unique.
  - now apply (Permutation_in _ P).
  - intros y Hy. apply M2. now apply (Permutation_in _ (Permutation_sym P)).
Qed.
Lemma entropic_perm r r' t beta : Permutation r r' -> entropic_risk_measure r t beta = entropic_risk_measure r' t beta.
Proof. intros P. unfold entropic_risk_measure. now rewrite (mean_perm _ _ (Permutation_map (fun x => exp (- x / t)) P)). Qed.
Lemma maxR_perm r r' : r <> [] -> Permutation r r' -> maxR r = maxR r'.
Proof.
  intros H P. assert (H' : r' <> []) by (intros ->; apply H, Permutation_nil; now symmetry).
  destruct (maxR_spec r H) as [A B], (maxR_spec r' H') as [A' B'].
  apply Rle_antisym; [apply B', (Permutation_in _ P), A|apply B, (Permutation_in _ (Permutation_sym P)), A'].
Qed.
Lemma evar_perm r r' beta : r <> [] -> Permutation r r' -> evar solver r beta = evar solver r' beta.
Proof.
  intros H P. unfold evar. cbv beta zeta.
  assert (E : (fun x => entropic_risk_measure r x beta) = (fun x => entropic_risk_measure r' x beta)).
  { apply functional_extensionality. intros x. now apply entropic_perm. }
  assert (L : evar_lower_bound r = evar_lower_bound r').
  { unfold evar_lower_bound. f_equal. apply maxR_perm; [destruct r; [contradiction|discriminate]|now apply Permutation_map]. }
  rewrite E, L. now apply entropic_perm.
Qed.
Lemma function_perm a r' m : admissible a -> denominator m = None -> from_drawdowns m = false -> Permutation (returns a) r' ->
  spec (with_returns a r') m = spec a m.
Proof.
  intros (A1 & A2 & A3 & A4 & A5 & _) D F P.
  assert (NP : forall n v, need n r' v = need n (returns a) v) by (intros; unfold need; now rewrite (Permutation_length P)).
  assert (NE : forall n v v', (1 <= n)%nat -> ((n <= length (returns a))%nat -> returns a <> [] -> v' = v) -> need n (returns a) v' = need n (returns a) v).
  { intros n v v' Hn H. unfold need. destruct (Nat.ltb_spec (length (returns a)) n); [reflexivity|]. f_equal. apply H; [lia|]. now apply (need_nil n). }
  assert (SD : standard_deviation r' = standard_deviation (returns a)).
  { unfold standard_deviation, variance, len. now rewrite (mean_perm _ _ P), (so_perm _ _ _ P), (Permutation_length P). }
  destruct m; try discriminate; cbn [spec_function with_returns returns min_acceptable_return annualized_factor cvar_beta evar_beta
    value_at_risk_beta entropic_risk_measure_theta entropic_risk_measure_beta]; rewrite ?SD, NP; try (apply (f_equal2 ratio); [|reflexivity]); apply NE; try lia; intros L N;
  unfold standard_deviation, semi_deviation, variance, semi_variance, mean_absolute_deviation, first_lower_partial_moment,
    third_central_moment, fourth_central_moment, fourth_lower_partial_moment, len;
  rewrite <- ?(target_perm _ _ _ P), <- ?(mean_perm _ _ P), ?(Permutation_length P); try reflexivity;
  try (rewrite (so_perm _ _ _ P); reflexivity).
  - symmetry. apply (C11_cvar_coherent p Hp _ A2); auto.
  - symmetry. now apply evar_perm.
  - symmetry. now apply worst_perm.
  - now apply (C14_gini_invariance sort Hs).
  - symmetry. now apply var_perm.
  - symmetry. now apply entropic_perm.
Qed.
Lemma measure_perm a r' m : admissible a -> from_drawdowns m = false -> Permutation (returns a) r' ->
  spec_measure p sort solver (with_returns a r') m = spec_measure p sort solver a m.
Proof.
  intros A F P. unfold spec_measure. destruct (denominator m) as [k|] eqn:D; [|now apply function_perm].
  assert (K : denominator k = None /\ from_drawdowns k = false).
  { destruct m; inversion D; subst k; cbn in F; try discriminate; split; reflexivity. }
  rewrite (function_perm a r' k) by tauto.
  rewrite function_perm; [reflexivity|exact A| | |exact P]; destruct m; reflexivity.
Qed.
End Measures.

(** * C91 *)
(** A change of unit multiplies every measure by the power of the unit it is expressed in: moments of order k by its k-th power, deviations,
    tails and drawdowns by the unit itself, and every ratio, the skew and the kurtosis are pure numbers.  The levels are in [0, 1); the
    drawdowns must not be compounded; the optimisation behind the entropic value at risk must be solved. *)
Theorem C91_units :
  forall partition sort solver a c m,
    partition_ok partition -> sort_ok sort -> 0 < c -> admissible a ->
    (from_drawdowns m = true -> compounded a = false) ->
    solver_exact solver a m -> solver_exact solver (in_units c a) m ->
    snd (get_measure partition sort solver (new_portfolio (in_units c a) 0) m)
    = option_map (option_map (fun v => c ^ degree m * v)) (snd (get_measure partition sort solver (new_portfolio a 0) m)).
Proof.
  intros p sort solver a c m Hp Hs Hc A F E E'. rewrite !C17_every_measure_resolves. cbn [option_map]. f_equal.
  rewrite units_affine in *. now apply measure_units.
Qed.
Print Assumptions C91_units.
(** Cash earned at every observation, all rates counted with it, adds itself to the mean, subtracts itself from the tail risks and leaves
    every deviation and every ratio of excess mean to deviation unchanged. *)
Theorem C91_cash :
  forall partition sort solver a b m s,
    partition_ok partition -> sort_ok sort -> admissible a -> cash a m b = Some s ->
    solver_exact solver a m -> solver_exact solver (with_cash b a) m ->
    snd (get_measure partition sort solver (new_portfolio (with_cash b a) 0) m)
    = option_map (option_map (fun v => v + s)) (snd (get_measure partition sort solver (new_portfolio a 0) m)).
Proof.
  intros p sort solver a b m s Hp Hs A C E E'. rewrite !C17_every_measure_resolves. cbn [option_map]. f_equal.
  rewrite cash_affine in *. now apply measure_cash.
Qed.
Print Assumptions C91_cash.
(** The order of the observations is irrelevant to every measure that is not computed from drawdowns. *)
Theorem C91_order :
  forall partition sort solver a r m,
    partition_ok partition -> sort_ok sort -> admissible a -> from_drawdowns m = false -> Permutation (returns a) r ->
    snd (get_measure partition sort solver (new_portfolio (with_returns a r) 0) m)
    = snd (get_measure partition sort solver (new_portfolio a 0) m).
Proof.
  intros p sort solver a r m Hp Hs A F P. rewrite !C17_every_measure_resolves. f_equal. now apply measure_perm.
Qed.
Print Assumptions C91_order.
(** ... and relevant to those that are: the same two returns in the two orders *)
Definition two (compound : bool) (r : list R) : attrs :=
  {| returns := r; min_acceptable_return := None; compounded := compound; risk_free_rate := 0; value_at_risk_beta := 95 / 100; cvar_beta := 95 / 100;
     entropic_risk_measure_theta := 1; entropic_risk_measure_beta := 95 / 100; evar_beta := 95 / 100; drawdown_at_risk_beta := 95 / 100;
     cdar_beta := 95 / 100; edar_beta := 95 / 100; annualized_factor := 252 |}.
Lemma two_admissible compound r : admissible (two compound r).
Proof. unfold admissible, two; cbn. lra. Qed.
Theorem C91_order_refuted :
  forall partition sort solver, partition_ok partition ->
    snd (get_measure partition sort solver (new_portfolio (two false [1; -1]) 0) MAX_DRAWDOWN) = Some (Some 1)
    /\ snd (get_measure partition sort solver (new_portfolio (two false [-1; 1]) 0) MAX_DRAWDOWN) = Some (Some 0).
Proof.
  intros p sort solver Hp. rewrite !C17_every_measure_resolves. unfold spec_measure, spec_function, denominator.
  assert (D1 : get_drawdowns [1; -1] false = [0; -1]) by (cbn; rewrite Rmax_left by lra; repeat f_equal; ring).
  assert (D2 : get_drawdowns [-1; 1] false = [0; 0]) by (cbn; rewrite Rmax_right by lra; repeat f_equal; ring).
  cbn [two returns compounded]. rewrite D1, D2. unfold need. cbn [length Nat.ltb Nat.leb].
  rewrite !max_drawdown_min by (auto; discriminate). cbn [minR fold_right].
  split; repeat f_equal; cbn; unfold Rmin; repeat destruct Rle_dec; lra.
Qed.
Print Assumptions C91_order_refuted.
(** with compounded returns the drawdowns do not follow the unit: returns of 100% and -50%, and the same halved *)
Theorem C91_compounded_refuted :
  forall partition sort solver, partition_ok partition ->
    snd (get_measure partition sort solver (new_portfolio (two true [1; - (1 / 2); - (1 / 2)]) 0) MAX_DRAWDOWN) = Some (Some (3 / 4))
    /\ snd (get_measure partition sort solver (new_portfolio (in_units (1 / 2) (two true [1; - (1 / 2); - (1 / 2)])) 0) MAX_DRAWDOWN) = Some (Some (7 / 16)).
Proof.
  intros p sort solver Hp. rewrite !C17_every_measure_resolves. unfold spec_measure, spec_function, denominator.
  assert (D1 : get_drawdowns [1; - (1 / 2); - (1 / 2)] true = [0; - (1 / 2); - (3 / 4)]).
  { cbn. rewrite !Rmax_left by (rewrite ?Rmax_left; lra). repeat f_equal; field. }
  assert (D2 : get_drawdowns [1 / 2 * 1; 1 / 2 * - (1 / 2); 1 / 2 * - (1 / 2)] true = [0; - (1 / 4); - (7 / 16)]).
  { cbn. rewrite !Rmax_left by (rewrite ?Rmax_left; lra). repeat f_equal; field. }
  cbn [in_units two returns compounded map]. rewrite D1, D2. unfold need. cbn [length Nat.ltb Nat.leb].
  rewrite !max_drawdown_min by (auto; discriminate). unfold worst_realization.
  split; repeat f_equal; cbn; unfold Rmin; repeat destruct Rle_dec; lra.
Qed.
Print Assumptions C91_compounded_refuted.

(** the hypotheses are met: three returns, sorting, and any solver for the measures that need none *)
Example C91_applies :
  partition_ok (fun l _ => sortR l) /\ sort_ok sortR /\ admissible (two false [1; -2; 4])
  /\ (forall m, m <> EVAR -> m <> EVAR_RATIO -> m <> EDAR -> m <> EDAR_RATIO -> forall solver a, solver_exact solver a m)
  /\ Permutation (returns (two false [1; -2; 4])) [4; 1; -2].
Proof.
  split; [apply sort_partition_ok|]. split; [apply sortR_ok|]. split; [apply two_admissible|]. split; [intros []; try easy; now intros|].
  cbn. eapply perm_trans; [|apply perm_swap]. apply perm_skip, perm_swap.
Qed.
(** and for the entropic value at risk: two returns -1 and 0, a level for which the best risk aversion is the unit *)
Definition level : R := 1 - (exp 1 + 1) / 2 * exp (- (exp 1 / (exp 1 + 1))).
Lemma exp_line x : 1 + x <= exp x.
Proof. destruct (Req_dec x 0) as [->|H]; [rewrite exp_0; lra|left; now apply exp_ineq1]. Qed.
Lemma jensen q v : 0 <= q <= 1 -> exp (q * v) <= q * exp v + (1 - q).
Proof.
  intros Hq. pose proof (exp_pos (q * v)) as P.
  assert (A : exp v = exp (q * v) * exp (v - q * v)) by (rewrite <- exp_plus; f_equal; ring).
  assert (B : 1 = exp (q * v) * exp (- (q * v))) by (rewrite <- exp_plus, <- exp_0; f_equal; ring).
  pose proof (exp_line (v - q * v)) as L1. pose proof (exp_line (- (q * v))) as L2.
  assert (C1 : exp (q * v) * (1 + (v - q * v)) <= exp v) by (rewrite A; apply Rmult_le_compat_l; lra).
  assert (C2 : exp (q * v) * (1 + - (q * v)) <= 1) by (apply (Rle_trans _ (exp (q * v) * exp (- (q * v)))); [apply Rmult_le_compat_l; lra|rewrite <- B; lra]).
  assert (C3 : q * (exp (q * v) * (1 + (v - q * v))) <= q * exp v) by (apply Rmult_le_compat_l; lra).
  assert (C4 : (1 - q) * (exp (q * v) * (1 + - (q * v))) <= (1 - q) * 1) by (apply Rmult_le_compat_l; lra).
  nra.
Qed.

Lemma entropic_two t : 0 < t -> entropic_risk_measure [-1; 0] t level
  = t * ln ((exp 1 / (exp 1 + 1) * exp (1 / t - 1) + (1 - exp 1 / (exp 1 + 1))) * exp (exp 1 / (exp 1 + 1))).
Proof.
  intros Ht. pose proof (exp_pos 1) as P. unfold entropic_risk_measure, level, mean, len. cbn [map rsum fold_right length].
  change (INR 2) with (1 + 1). set (q := exp 1 / (exp 1 + 1)). pose proof (exp_pos (- q)) as Pq.
  replace (- -1 / t) with (1 + (1 / t - 1)) by (field; lra). replace (- 0 / t) with 0 by (field; lra). rewrite exp_0, exp_plus.
  do 2 f_equal. replace (exp q) with (/ exp (- q)) by (rewrite <- exp_Ropp; f_equal; ring). set (w := exp (- q)) in *. clearbody w. unfold q. field. repeat split; try lra. intros Z. nra.
Qed.
Lemma solved_two : solved (fun _ lower => 100 * lower) [-1; 0] level.
Proof.
  assert (L : evar_lower_bound [-1; 0] = 1 / 100).
  { unfold evar_lower_bound. f_equal. assert (N : map Ropp [-1; 0] <> []) by discriminate. destruct (maxR_spec _ N) as [[<-|[<-|[]]] B]; [ring|].
    specialize (B (- -1) (or_introl eq_refl)). lra. }
  unfold solved. cbv zeta. rewrite L. replace (100 * (1 / 100)) with 1 by field. split; [lra|]. intros u Hu.
  pose proof (exp_pos 1) as P. rewrite !entropic_two by lra. set (q := exp 1 / (exp 1 + 1)).
  assert (Hq : 0 <= q <= 1).
  { unfold q. split; [left; apply Rdiv_lt_0_compat; lra|]. apply (Rmult_le_reg_r (exp 1 + 1)); [lra|]. unfold Rdiv. rewrite Rmult_assoc, Rinv_l by lra. lra. }
  replace (1 / 1 - 1) with 0 by field. rewrite exp_0. replace (q * 1 + (1 - q)) with 1 by ring. rewrite !Rmult_1_l, ln_exp.
  pose proof (jensen q (1 / u - 1) Hq) as J.
  assert (K : exp (q * (1 / u)) <= (q * exp (1 / u - 1) + (1 - q)) * exp q).
  { replace (q * (1 / u)) with (q * (1 / u - 1) + q) by ring. rewrite exp_plus. apply Rmult_le_compat_r; [left; apply exp_pos|exact J]. }
  assert (M : q * (1 / u) <= ln ((q * exp (1 / u - 1) + (1 - q)) * exp q)).
  { rewrite <- (ln_exp (q * (1 / u))). destruct K as [K|K]; [left; apply ln_increasing; [apply exp_pos|exact K]|right; now rewrite K]. }
  apply (Rle_trans _ (u * (q * (1 / u)))); [right; field; lra|apply Rmult_le_compat_l; lra].
Qed.
Example C91_applies_entropic :
  level < 1 /\ solved (fun _ lower => 100 * lower) [-1; 0] level
  /\ solved (fun _ lower => 100 * lower) (map (fun x => 2 * x) [-1; 0]) level.
Proof.
  assert (B : level < 1).
  { unfold level. pose proof (exp_pos 1). pose proof (exp_pos (- (exp 1 / (exp 1 + 1)))).
    assert (0 < (exp 1 + 1) / 2 * exp (- (exp 1 / (exp 1 + 1)))) by (apply Rmult_lt_0_compat; lra). lra. }
  split; [exact B|]. split; [apply solved_two|]. pose proof solved_two as S2. unfold solved in *. cbv zeta in *.
  assert (L : evar_lower_bound [-1; 0] = 1 / 100).
  { unfold evar_lower_bound. f_equal. assert (N : map Ropp [-1; 0] <> []) by discriminate. destruct (maxR_spec _ N) as [[<-|[<-|[]]] M]; [ring|].
    specialize (M (- -1) (or_introl eq_refl)). lra. }
  assert (L' : evar_lower_bound (map (fun x => 2 * x) [-1; 0]) = 2 / 100).
  { unfold evar_lower_bound. f_equal. cbn [map]. assert (N : [- (2 * -1); - (2 * 0)] <> []) by discriminate. destruct (maxR_spec _ N) as [[<-|[<-|[]]] M]; [ring|].
    specialize (M (- (2 * -1)) (or_introl eq_refl)). lra. }
  rewrite L in S2. rewrite L'. destruct S2 as [S1 S2]. split; [lra|]. intros u Hu.
  assert (Q : forall t, 0 < t -> entropic_risk_measure (map (fun x => 2 * x) [-1; 0]) (2 * t) level = 2 * entropic_risk_measure [-1; 0] t level).
  { intros t Ht. rewrite (map_ext (fun x => 2 * x) (fun x => 2 * x + 0)) by (intros; ring). rewrite (entropic_T 2 0) by (lra || discriminate || auto). ring. }
  replace (100 * (2 / 100)) with (2 * (100 * (1 / 100))) by field. replace u with (2 * (u / 2)) by field. rewrite !Q by lra.
  specialize (S2 (u / 2) ltac:(lra)). lra.
Qed.
