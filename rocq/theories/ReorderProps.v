(** C92: the order of the assets is irrelevant to MeanRisk and to the empirical moments.  The code is that of MeanRiskModel.v, ConvexModel.v,
    RiskModel.v, EquationsModel.v and MomentsModel.v. *)
From Coq Require Import List ZArith Bool Arith Lia Reals Lra Permutation FunctionalExtensionality.
From Verif Require Import RList EquationsModel ConvexModel RiskModel MeanRiskModel MomentsModel ConvexMoreProps MeanRiskOptimalProps.
Import ListNotations.
Local Open Scope R_scope.

(** * Specification *)
(** a new order of n assets: position i is taken by the asset that was at [s i]; [t] is the inverse *)
Definition order (n : nat) (s t : nat -> nat) : Prop :=
  (forall i, (i < n)%nat -> (s i < n)%nat) /\ (forall i, t (s i) = i) /\ (forall i, s (t i) = i).
(** one value per asset, as a function or as a list *)
Definition re {A} (s : nat -> nat) (v : nat -> A) : nat -> A := fun i => v (s i).
Definition pick {A} (n : nat) (s : nat -> nat) (d : A) (l : list A) : list A := map (fun i => nth (s i) l d) (seq 0 n).
Definition re_input (s : nat -> nat) (c : input) : input := match c with Scalar x => Scalar x | PerAsset v => PerAsset (re s v) end.
Definition re_params (n : nat) (s : nat -> nat) (p : params) : params :=
  {| min_weights := option_map (re s) (min_weights p); max_weights := option_map (re s) (max_weights p);
     budget := budget p; min_budget := min_budget p; max_budget := max_budget p; max_short := max_short p; max_long := max_long p;
     cardinality := cardinality p; group_cardinalities := group_cardinalities p;
     threshold_long := option_map (re s) (threshold_long p); threshold_short := option_map (re s) (threshold_short p);
     groups := option_map (map (pick n s [])) (groups p); linear_constraints := linear_constraints p;
     left_inequality := option_map (map (pick n s 0)) (left_inequality p); right_inequality := right_inequality p |}.
Definition re_settings (s : nat -> nat) (st : settings) : settings :=
  {| costs := re_input s (costs st); previous := re_input s (previous st); fees := re_input s (fees st); mar := option_map (re_input s) (mar st);
     risk_free_rate := risk_free_rate st; cvar_beta := cvar_beta st; evar_beta := evar_beta st; cdar_beta := cdar_beta st; edar_beta := edar_beta st;
     scale := scale st |}.
(** the problem with its assets reordered; the factors of the reordered covariance matrices are given *)
Definition re_problem (s : nat -> nat) (factor' : nat -> vec) (root' : nat -> vec) (q : mean_risk) : mean_risk :=
  let n := n_assets (prior_ q) in
  {| prior_ := {| n_assets := n; n_obs := n_obs (prior_ q); returns := fun o => re s (returns (prior_ q) o); mu := re s (mu (prior_ q)); cholesky := factor' |};
     settings_ := re_settings s (settings_ q); params_ := re_params n s (params_ q); names_ := option_map (pick n s []) (names_ q);
     mip_solver_ := mip_solver_ q; objective_ := objective_ q; risk_measure_ := risk_measure_ q; limits_ := limits_ q; min_return_ := min_return_ q;
     max_turnover_ := max_turnover_ q; has_previous_ := has_previous_ q; max_tracking_error_ := max_tracking_error_ q; benchmark_ := benchmark_ q;
     mu_uncertainty_ := option_map (fun u => (fst u, root')) (mu_uncertainty_ q);
     l1_ := l1_ q; l2_ := l2_ q; risk_aversion_ := risk_aversion_ q; scale_objective_ := scale_objective_ q; overwrite_ := option_map (re s) (overwrite_ q) |}.
(** [factor'] factorises the covariance matrix of the reordered assets, [root'] the reordered matrix of the uncertainty set *)
Definition covariance (n : nat) (factor : nat -> vec) (i j : nat) : R := sumn n (fun k => factor i k * factor j k).
Definition square (n : nat) (root : nat -> vec) (i j : nat) : R := sumn n (fun k => root k i * root k j).
Definition factors_reordered (s : nat -> nat) (factor' root' : nat -> vec) (q : mean_risk) : Prop :=
  let n := n_assets (prior_ q) in
  forall i j, (i < n)%nat -> (j < n)%nat ->
    covariance n factor' i j = covariance n (cholesky (prior_ q)) (s i) (s j)
    /\ (forall k root, mu_uncertainty_ q = Some (k, root) -> square n root' i j = square n root (s i) (s j)).
(** one name per asset in every level of the groups, in the names and in the rows of the inequality *)
Definition one_per_asset (q : mean_risk) : Prop :=
  let n := n_assets (prior_ q) in
  (forall g, groups (params_ q) = Some g -> Forall (fun level => length level = n) g)
  /\ (forall l, names_ q = Some l -> length l = n)
  /\ (forall a, left_inequality (params_ q) = Some a -> Forall (fun row => length row = n) a).
(** the same investment with the assets reordered *)
Definition re_vars (s : nat -> nat) (m : mip_vars) : mip_vars :=
  {| invested := re s (invested m); invested_factor := re s (invested_factor m); short := re s (short m); long := re s (long m);
     short_factor := re s (short_factor m); long_factor := re s (long_factor m) |}.
Definition re_point (s : nat -> nat) (x : point) : point :=
  {| w_ := re s (w_ x); f_ := f_ x; m_ := re_vars s (m_ x); a_ := a_ x; common_dd := common_dd x |}.

(** * Sums, tests and constraints over the assets *)
Section Order.
Variables (n : nat) (s t : nat -> nat).
Hypothesis O : order n s t.
Lemma order_perm : Permutation (map s (seq 0 n)) (seq 0 n).
Proof.
  destruct O as (B & L & _). apply NoDup_Permutation_bis.
  - apply FinFun.Injective_map_NoDup; [|apply seq_NoDup]. intros x y E. rewrite <- (L x), <- (L y). now rewrite E.
  - now rewrite map_length.
  - intros y Hy. apply in_map_iff in Hy as (x & <- & Hx). apply in_seq in Hx. apply in_seq. specialize (B x). lia.
Qed.
Lemma order_lt i : (i < n)%nat -> (s i < n)%nat.
Proof. apply O. Qed.
Lemma order_back i : (i < n)%nat -> exists j, (j < n)%nat /\ s j = i.
Proof.
  intros H. assert (I : In i (map s (seq 0 n))) by (apply (Permutation_in _ (Permutation_sym order_perm)), in_seq; lia).
  apply in_map_iff in I as (j & E & Hj). apply in_seq in Hj. exists j. split; [lia|exact E].
Qed.
Lemma sumn_ext (a b : vec) : (forall i, (i < n)%nat -> a i = b i) -> sumn n a = sumn n b.
Proof. intros H. apply so_ext. intros i Hi. apply in_seq in Hi. apply H. lia. Qed.
Lemma sumn_re (v' v : vec) : (forall i, (i < n)%nat -> v' i = v (s i)) -> sumn n v' = sumn n v.
Proof.
  intros H. rewrite (sumn_ext v' (fun i => v (s i)) H). unfold sumn.
  rewrite <- (so_perm v _ _ order_perm). symmetry. apply so_map.
Qed.
Lemma any_re (f' f : nat -> bool) : (forall i, (i < n)%nat -> f' i = f (s i)) -> any n f' = any n f.
Proof.
  intros H. unfold any. apply eq_true_iff_eq. rewrite !existsb_exists. split.
  - intros (i & Hi & E). apply in_seq in Hi. exists (s i). split; [apply in_seq; pose proof (order_lt i); lia|]. rewrite <- H; [exact E|lia].
  - intros (i & Hi & E). apply in_seq in Hi. destruct (order_back i) as (j & Hj & <-); [lia|]. exists j. split; [apply in_seq; lia|]. now rewrite H.
Qed.
Lemma all_re (f' f : nat -> bool) : (forall i, (i < n)%nat -> f' i = f (s i)) -> all n f' = all n f.
Proof.
  intros H. unfold all. apply eq_true_iff_eq. rewrite !forallb_forall. split; intros A i Hi; apply in_seq in Hi.
  - destruct (order_back i) as (j & Hj & <-); [lia|]. rewrite <- H by exact Hj. apply A, in_seq. lia.
  - rewrite H by lia. apply A, in_seq. pose proof (order_lt i). lia.
Qed.
Lemma elementwise_re (c' c : nat -> constraint) : (forall i, (i < n)%nat -> c' i = c (s i)) ->
  (Forall holds_at (elementwise n c') <-> Forall holds_at (elementwise n c)).
Proof.
  intros H. unfold elementwise. rewrite !Forall_map, !Forall_forall. split; intros A i Hi; apply in_seq in Hi.
  - destruct (order_back i) as (j & Hj & <-); [lia|]. rewrite <- H by exact Hj. apply A, in_seq. lia.
  - rewrite H by lia. apply A, in_seq. pose proof (order_lt i). lia.
Qed.
Lemma quadratic (F' F : nat -> vec) (w : vec) :
  (forall i j, (i < n)%nat -> (j < n)%nat -> sumn n (fun k => F' k i * F' k j) = sumn n (fun k => F k (s i) * F k (s j))) ->
  sumn n (fun k => sumn n (fun i => F' k i * re s w i) ^ 2) = sumn n (fun k => sumn n (fun i => F k i * w i) ^ 2).
Proof.
  intros H.
  assert (Q : forall (G : nat -> vec) v, sumn n (fun k => sumn n (fun i => G k i * v i) ^ 2)
    = sumn n (fun i => sumn n (fun j => v i * v j * sumn n (fun k => G k i * G k j)))).
  { intros G v. unfold sumn.
    rewrite (so_ext _ (fun k => sum_over (seq 0 n) (fun i => sum_over (seq 0 n) (fun j => v i * v j * (G k i * G k j))))).
    - rewrite so_swap. apply so_ext. intros i _. rewrite so_swap. apply so_ext. intros j _. now rewrite so_scal.
    - intros k _. cbn [pow]. rewrite Rmult_1_r, <- so_scal_r. apply so_ext. intros i _. rewrite <- so_scal. apply so_ext. intros j _. ring. }
  rewrite !Q. apply sumn_re. intros i Hi. apply sumn_re. intros j Hj. rewrite H by assumption. reflexivity.
Qed.
(** lists *)
Lemma pick_length {A} (d : A) l : length (pick n s d l) = n.
Proof. unfold pick. now rewrite map_length, seq_length. Qed.
Lemma pick_nth {A} (d : A) l i : (i < n)%nat -> nth i (pick n s d l) d = nth (s i) l d.
Proof.
  intros H. unfold pick. rewrite (nth_indep _ d (nth (s 0%nat) l d)) by (now rewrite map_length, seq_length).
  rewrite (map_nth (fun i => nth (s i) l d)), seq_nth by exact H. reflexivity.
Qed.
Lemma pick_perm {A} (d : A) l : length l = n -> Permutation (pick n s d l) l.
Proof.
  intros L. assert (E : map (fun i => nth i l d) (seq 0 n) = l).
  { apply (nth_ext _ _ d d); [now rewrite map_length, seq_length|]. intros i Hi. rewrite map_length, seq_length in Hi.
    rewrite (nth_indep _ d (nth 0 l d)) by (now rewrite map_length, seq_length). rewrite (map_nth (fun i => nth i l d)), seq_nth by exact Hi. reflexivity. }
  unfold pick. rewrite <- (map_map s (fun i => nth i l d)). eapply Permutation_trans; [apply Permutation_map, order_perm|]. rewrite E. reflexivity.
Qed.
Lemma rowdotn_re row w : rowdotn n (pick n s 0 row) (re s w) = rowdotn n row w.
Proof. unfold rowdotn. apply sumn_re. intros i Hi. now rewrite pick_nth. Qed.
End Order.

(** * Constraint strings and group cardinalities *)
Definition emap {A B} (f : A -> B) (x : eres A) : eres B := match x with EOk a => EOk (f a) | EErr e => EErr e end.
Lemma mem_str_perm e l l' : Permutation l l' -> mem_str e l = mem_str e l'.
Proof.
  intros P. unfold mem_str. apply eq_true_iff_eq. rewrite !existsb_exists. split; intros (x & Hx & E); exists x; split; auto.
  - now apply (Permutation_in _ P).
  - now apply (Permutation_in _ (Permutation_sym P)).
Qed.
Lemma forallb_perm {A} (f : A -> bool) l l' : Permutation l l' -> forallb f l = forallb f l'.
Proof.
  intros P. apply eq_true_iff_eq. rewrite !forallb_forall. split; intros H x Hx; apply H.
  - now apply (Permutation_in _ (Permutation_sym P)).
  - now apply (Permutation_in _ P).
Qed.
Lemma forallb_same {A} (f f' : A -> bool) l : (forall x, f x = f' x) -> forallb f l = forallb f' l.
Proof. intros H. induction l as [|x l IH]; cbn; [reflexivity|]. now rewrite H, IH. Qed.
Section Strings.
Variables (n : nat) (s t : nat -> nat).
Hypothesis O : order n s t.
Variable to_float : str -> option R.
Variable g : groups_t.
Variable sum_to_one : bool.
Hypothesis G : Forall (fun level => length level = n) g.
Let g' := map (pick n s []) g.
Lemma absent_re e r : Forall (fun level => length level = n) r ->
  forallb (fun l' => negb (mem_str e l')) (map (pick n s []) r) = forallb (fun l' => negb (mem_str e l')) r.
Proof. induction 1 as [|l' r L' H IH]; cbn; [reflexivity|]. now rewrite (mem_str_perm e _ _ (pick_perm n s t O [] l' L')), IH. Qed.
Lemma validate_re : validate_groups_from g' = validate_groups_from g.
Proof.
  unfold g'. induction G as [|l r L H IH]; cbn; [reflexivity|]. rewrite IH by exact H. f_equal.
  rewrite (forallb_perm _ _ _ (pick_perm n s t O [] l L)). apply forallb_same. intros e. now apply absent_re.
Qed.
Lemma is_group_re e : is_group g' e = is_group g e.
Proof.
  unfold is_group, g'. induction G as [|l r L H IH]; cbn; [reflexivity|]. rewrite IH by exact H. f_equal. apply mem_str_perm. now apply (pick_perm n s t).
Qed.
Lemma match_at_re key i : (i < n)%nat -> match_at g' key i = match_at g key (s i).
Proof.
  intros Hi. unfold match_at, g'. clear G. induction g as [|l r IH]; cbn; [reflexivity|]. now rewrite IH, pick_nth.
Qed.
Lemma matching_re key : matching_array g' n sum_to_one key = emap (pick n s 0) (matching_array g n sum_to_one key).
Proof.
  unfold matching_array.
  assert (E : map (match_at g' key) (seq 0 n) = map (fun i => match_at g key (s i)) (seq 0 n)).
  { apply map_ext_in. intros i Hi. apply in_seq in Hi. apply match_at_re. lia. }
  assert (P : Permutation (map (match_at g' key) (seq 0 n)) (map (match_at g key) (seq 0 n))).
  { rewrite E, <- (map_map s). apply Permutation_map. now apply (order_perm n s t). }
  assert (X : existsb (fun b => b) (map (match_at g' key) (seq 0 n)) = existsb (fun b => b) (map (match_at g key) (seq 0 n))).
  { apply eq_true_iff_eq. rewrite !existsb_exists. split; intros (x & Hx & Ex); exists x; split; auto;
      [now apply (Permutation_in _ P)|now apply (Permutation_in _ (Permutation_sym P))]. }
  cbv zeta. rewrite X. destruct (existsb (fun b => b) (map (match_at g key) (seq 0 n))); cbn [negb emap]; [|reflexivity]. f_equal.
  assert (S : sumR (map b2r (map (match_at g' key) (seq 0 n))) = sumR (map b2r (map (match_at g key) (seq 0 n)))).
  { apply (rsum_perm _ _ (Permutation_map b2r P)). }
  rewrite S. set (d := if sum_to_one then _ else _). unfold pick. rewrite !map_map. apply map_ext_in. intros i Hi. apply in_seq in Hi.
  rewrite match_at_re by lia. set (h := fun x => b2r (match_at g key x) / d).
  change (h (s i) = nth (s i) (map h (seq 0 n)) 0). pose proof (order_lt n s t O i) as L.
  rewrite (nth_indep _ 0 (h 0%nat)) by (rewrite map_length, seq_length; apply L; lia). rewrite map_nth, seq_nth by (apply L; lia). reflexivity.
Qed.
Lemma matching_length key arr : matching_array g n sum_to_one key = EOk arr -> length arr = n.
Proof. unfold matching_array. destruct (negb _); [discriminate|]. intros E. injection E as <-. now rewrite !map_length, seq_length. Qed.
Lemma axpy_length a x y : length x = n -> length y = n -> length (axpy a x y) = n.
Proof. intros A B. unfold axpy. rewrite map_length, combine_length. lia. Qed.
Lemma axpy_nth a x y i : length x = n -> length y = n -> (i < n)%nat -> nth i (axpy a x y) 0 = nth i y 0 + a * nth i x 0.
Proof.
  intros A B Hi. unfold axpy. rewrite (nth_indep _ 0 ((fun p => fst p + a * snd p) (0, 0))) by (rewrite map_length, combine_length; lia).
  rewrite (map_nth (fun p => fst p + a * snd p)), combine_nth by congruence. reflexivity.
Qed.
Lemma axpy_re a x y : length x = n -> length y = n -> axpy a (pick n s 0 x) (pick n s 0 y) = pick n s 0 (axpy a x y).
Proof.
  intros A B. apply (nth_ext _ _ 0 0); [rewrite axpy_length, pick_length; auto using pick_length|].
  intros i Hi. rewrite axpy_length in Hi by auto using pick_length. rewrite axpy_nth, !pick_nth by auto using pick_length.
  rewrite axpy_nth; auto. now apply (order_lt n s t).
Qed.
Definition pst (st : pstate) : pstate :=
  {| left := pick n s 0 (left st); right := right st; main_sign := main_sign st; csign := csign st; ineq := ineq st |}.
Definition pst2 (x : pstate * list str) := (pst (fst x), snd x).
Lemma add_left_re st c arr : length (left st) = n -> length arr = n -> add_left (pst st) c (pick n s 0 arr) = pst (add_left st c arr).
Proof. intros A B. unfold add_left, pst. cbn [left right main_sign csign ineq]. now rewrite axpy_re. Qed.
Ltac hyp H := let h := fresh in intro h; apply H in h.
Lemma operand_re sign st toks : length (left st) = n ->
  operand to_float g' n sum_to_one sign (pst st) toks = emap pst2 (operand to_float g n sum_to_one sign st toks)
  /\ (forall st1 r, operand to_float g n sum_to_one sign st toks = EOk (st1, r) -> length (left st1) = n).
Proof.
  intros L. unfold operand. cbn [main_sign pst].
  destruct toks as [|e r]; [split; [reflexivity|discriminate]|].
  destruct (is_op e); [split; [reflexivity|discriminate]|]. rewrite is_group_re. destruct (is_group g e) eqn:Ge.
  - rewrite matching_re. destruct (matching_array g n sum_to_one e) as [arr|x] eqn:M; cbn [emap]; [|split; [reflexivity|discriminate]].
    apply matching_length in M.
    destruct r as [|e2 r2]; [|destruct (is_non_mul e2); [|destruct (is_mul e2); [destruct r2 as [|e3 r3]; [|destruct (to_float e3)]|]]];
      (split; [rewrite ?add_left_re by assumption; reflexivity|]); try discriminate; intros st1 r' E; injection E as <- <-; now apply axpy_length.
  - destruct (to_float e) as [x|]; [|split; [reflexivity|discriminate]].
    destruct r as [|e2 r2]; [split; [reflexivity|intros st1 r' E; injection E as <- <-; exact L]|].
    destruct (is_mul e2); [|destruct (is_non_mul e2); [split; [reflexivity|intros st1 r' E; injection E as <- <-; exact L]|split; [reflexivity|discriminate]]].
    destruct r2 as [|e3 r3]; [split; [reflexivity|discriminate]|]. rewrite is_group_re. destruct (negb (is_group g e3)); [split; [reflexivity|discriminate]|].
    rewrite matching_re. destruct (matching_array g n sum_to_one e3) as [arr|y] eqn:M; cbn [emap]; [|split; [reflexivity|discriminate]].
    apply matching_length in M. split; [rewrite add_left_re by assumption; reflexivity|]. intros st1 r' E; injection E as <- <-; now apply axpy_length.
Qed.
Lemma step_re st toks : length (left st) = n ->
  parse_step to_float g' n sum_to_one (pst st) toks = emap pst2 (parse_step to_float g n sum_to_one st toks)
  /\ (forall st1 r, parse_step to_float g n sum_to_one st toks = EOk (st1, r) -> length (left st1) = n).
Proof.
  intros L. unfold parse_step. destruct toks as [|e r]; [split; [reflexivity|intros st1 r E; injection E as <- <-; exact L]|].
  destruct (is_comp_op e).
  - set (st' := {| left := left st; right := right st; main_sign := -1; csign := Some (comp_sign e); ineq := Some (is_ineq_op e) |}).
    change {| left := left (pst st); right := right (pst st); main_sign := -1; csign := Some (comp_sign e); ineq := Some (is_ineq_op e) |} with (pst st').
    destruct r as [|e2 r2]; [now apply operand_re|]. destruct (is_sub_add e2); now apply operand_re.
  - destruct (is_sub_add e); [now apply operand_re|]. destruct (is_mul e); [split; [reflexivity|discriminate]|]. now apply operand_re.
Qed.
Lemma loop_re fuel : forall i st toks, length (left st) = n ->
  parse_loop to_float g' n sum_to_one fuel i (pst st) toks = emap pst (parse_loop to_float g n sum_to_one fuel i st toks)
  /\ (forall st1, parse_loop to_float g n sum_to_one fuel i st toks = EOk st1 -> length (left st1) = n).
Proof.
  induction fuel as [|fuel IH]; intros i st toks L; cbn [parse_loop]; [split; [reflexivity|discriminate]|].
  destruct (1000000 <? i + 1)%Z; [split; [reflexivity|discriminate]|].
  destruct toks as [|e r]; [split; [reflexivity|intros st1 E; injection E as <-; exact L]|].
  destruct (step_re st (e :: r) L) as [E1 E2]. rewrite E1.
  destruct (parse_step to_float g n sum_to_one st (e :: r)) as [[st1 r1]|x]; cbn [emap pst2 fst snd]; [|split; [reflexivity|discriminate]].
  apply IH. now apply (E2 st1 r1).
Qed.
Definition row_re (x : list R * R * bool) := (pick n s 0 (fst (fst x)), snd (fst x), snd x).
Lemma tokens_re toks : parse_tokens to_float g' n sum_to_one toks = emap row_re (parse_tokens to_float g n sum_to_one toks).
Proof.
  unfold parse_tokens. set (st := {| left := repeat 0 n; right := 0; main_sign := 1; csign := None; ineq := None |}).
  assert (E : st = pst st).
  { unfold pst, st. cbn. f_equal. apply (nth_ext _ _ 0 0); [rewrite repeat_length, pick_length; reflexivity|]. intros i Hi. rewrite repeat_length in Hi.
    rewrite pick_nth by exact Hi. now rewrite !nth_repeat. }
  rewrite E at 1. destruct (loop_re (S (length toks)) 0 st toks) as [E1 E2]; [apply repeat_length|]. rewrite E1.
  destruct (parse_loop to_float g n sum_to_one (S (length toks)) 0 st toks) as [st1|x]; cbn [emap]; [|reflexivity].
  cbn [pst csign ineq left right]. destruct (csign st1) as [c|]; [|reflexivity]. destruct (ineq st1) as [b|]; [|reflexivity].
  cbn. unfold row_re. cbn. repeat f_equal. specialize (E2 st1 eq_refl). unfold pick. rewrite map_map. apply map_ext. intros i.
  destruct (Nat.lt_ge_cases (s i) (length (left st1))) as [Q|Q].
  - rewrite (nth_indep (map _ _) 0 (0 * c)) by now rewrite map_length. now rewrite (map_nth (fun x => x * c)).
  - rewrite !nth_overflow by (rewrite ?map_length; exact Q). ring.
Qed.
Lemma equation_re e : string_to_equation to_float g' n sum_to_one e = emap row_re (string_to_equation to_float g n sum_to_one e).
Proof. unfold string_to_equation. destruct (split_equation_string e); [apply tokens_re|reflexivity]. Qed.
End Strings.
Definition mat_re (n : nat) (s : nat -> nat) (m : matrices) : matrices :=
  {| a_eq := map (pick n s 0) (a_eq m); b_eq := b_eq m; a_ineq := map (pick n s 0) (a_ineq m); b_ineq := b_ineq m |}.
Lemma matrix_re n s t to_float g equations stp rm : order n s t -> Forall (fun level => length level = n) g ->
  equations_to_matrix to_float (map (pick n s []) g) n equations stp rm = emap (mat_re n s) (equations_to_matrix to_float g n equations stp rm).
Proof.
  intros O G. unfold equations_to_matrix, validate_groups. rewrite (validate_re n s t O g G). destruct (validate_groups_from g); [|reflexivity].
  set (acc := EOk {| a_eq := []; b_eq := []; a_ineq := []; b_ineq := [] |}). change acc with (emap (mat_re n s) acc) at 1. generalize acc. clear acc.
  induction equations as [|e l IH]; intros acc; cbn [fold_left]; [reflexivity|]. rewrite <- IH. f_equal.
  destruct acc as [m|x]; [|reflexivity]. cbn [emap]. rewrite (equation_re n s t O to_float g stp G).
  destruct (string_to_equation to_float g n stp e) as [[[row b] []]|x]; cbn [emap row_re fst snd].
  - cbn. unfold mat_re. cbn. now rewrite map_app.
  - cbn. unfold mat_re. cbn. now rewrite map_app.
  - destruct x; try reflexivity. destruct rm; reflexivity.
Qed.
Lemma card_re n s t g cards rm : order n s t -> Forall (fun level => length level = n) g ->
  group_cardinalities_to_matrix (map (pick n s []) g) n cards rm
  = emap (fun ab => (map (pick n s 0) (fst ab), snd ab)) (group_cardinalities_to_matrix g n cards rm).
Proof.
  intros O G. unfold group_cardinalities_to_matrix, validate_groups. rewrite (validate_re n s t O g G). destruct (validate_groups_from g); [|reflexivity].
  set (acc := @EOk (list (list R) * list Z) ([], [])). change acc with (emap (fun ab => (map (pick n s 0) (fst ab), snd ab)) acc) at 1. generalize acc. clear acc.
  induction cards as [|e l IH]; intros acc; cbn [fold_left]; [reflexivity|]. rewrite <- IH. f_equal.
  destruct acc as [[a b]|x]; [|reflexivity]. cbn [emap fst snd]. rewrite (matching_re n s t O g false).
  destruct (matching_array g n false (fst e)) as [arr|x]; cbn [emap].
  - cbn. now rewrite map_app.
  - destruct x; try reflexivity. destruct rm; reflexivity.
Qed.

(** * Lists of constraints *)
Definition same (a b : cres (list constraint)) : Prop :=
  match a, b with COk l, COk m => Forall holds_at l <-> Forall holds_at m | CErr e, CErr e' => e = e' | _, _ => False end.
Lemma same_app a a' b b' : same a a' -> same b b' -> same (a +++ b) (a' +++ b').
Proof.
  destruct a as [l|e], a' as [l'|e']; cbn; try tauto. destruct b as [m|x], b' as [m'|x']; cbn; try tauto.
  intros A B. rewrite !Forall_app. tauto.
Qed.
Lemma same_ok l l' : (Forall holds_at l <-> Forall holds_at l') -> same (COk l) (COk l').
Proof. auto. Qed.
Lemma app_iff (a a' b b' : list constraint) : (Forall holds_at a <-> Forall holds_at a') -> (Forall holds_at b <-> Forall holds_at b') ->
  (Forall holds_at (a ++ b) <-> Forall holds_at (a' ++ b')).
Proof. rewrite !Forall_app. tauto. Qed.
Lemma eq_iff (a b : list constraint) : a = b -> (Forall holds_at a <-> Forall holds_at b).
Proof. intros ->. tauto. Qed.
Section Constraints.
Variables (n : nat) (s t : nat -> nat).
Hypothesis O : order n s t.
Notation sumn_re := (sumn_re n s t O).
Notation elementwise_re := (elementwise_re n s t O).
Lemma rows_re (f : R -> R -> constraint) rows bs w :
  map (fun rb => f (rowdotn n (fst rb) (re s w)) (snd rb)) (combine (map (pick n s 0) rows) bs) = map (fun rb => f (rowdotn n (fst rb) w) (snd rb)) (combine rows bs).
Proof.
  revert bs. induction rows as [|r rows IH]; intros [|b bs]; cbn; try reflexivity. now rewrite IH, (rowdotn_re n s t O).
Qed.
Lemma rows_reZ (f : R -> Z -> constraint) rows bs w :
  map (fun rb => f (rowdotn n (fst rb) (re s w)) (snd rb)) (combine (map (pick n s 0) rows) bs) = map (fun rb => f (rowdotn n (fst rb) w) (snd rb)) (combine rows bs).
Proof.
  revert bs. induction rows as [|r rows IH]; intros [|b bs]; cbn; try reflexivity. now rewrite IH, (rowdotn_re n s t O).
Qed.
Ltac elem := apply elementwise_re; intros; reflexivity.
Lemma cardinality_re p inv : cardinality_constraints n (re_params n s p) (re s inv) = cardinality_constraints n p inv.
Proof. unfold cardinality_constraints. cbn [re_params cardinality]. destruct (cardinality p); [|reflexivity]. rewrite (sumn_re (re s inv) inv) by reflexivity. reflexivity. Qed.
Lemma group_card_re p inv : (forall g, groups p = Some g -> Forall (fun level => length level = n) g) ->
  group_card_constraints n (re_params n s p) (re s inv) = group_card_constraints n p inv.
Proof.
  intros G. unfold group_card_constraints. cbn [re_params group_cardinalities groups]. destruct (group_cardinalities p); [|reflexivity].
  destruct (groups p) as [g|]; [|reflexivity]. cbn [option_map]. rewrite (card_re n s t) by auto.
  destruct (group_cardinalities_to_matrix g n l false) as [[a b]|e]; cbn [emap fst snd]; [|reflexivity].
  f_equal. apply (rows_reZ (fun x z => Le (x - IZR z) 0)).
Qed.
Lemma product_re b bf f : Forall holds_at (product_constraints n (re s b) (re s bf) f) <-> Forall holds_at (product_constraints n b bf f).
Proof. unfold product_constraints. repeat apply app_iff; elem. Qed.
Lemma mip_no_short_re p sc fv w f m mn mx tl : (forall g, groups p = Some g -> Forall (fun level => length level = n) g) ->
  same (mip_no_short n (re_params n s p) sc fv (re s w) f (re_vars s m) (re s mn) (re s mx) (option_map (re s) tl)) (mip_no_short n p sc fv w f m mn mx tl).
Proof.
  intros G. unfold mip_no_short. cbn [re_vars invested invested_factor]. rewrite cardinality_re, group_card_re by exact G.
  rewrite (any_re n s t O (fun i => ltb (re s mn i) 0) (fun i => ltb (mn i) 0)) by reflexivity.
  apply same_app; [apply same_ok, app_iff; [elem|tauto]|]. apply same_app; [destruct (group_card_constraints n p (invested m)); cbn; tauto|].
  apply same_ok. apply app_iff; [destruct fv; [apply product_re|tauto]|]. apply app_iff; [destruct tl; [destruct fv; elem|cbn; tauto]|].
  apply app_iff; [destruct fv; elem|]. destruct (any _ _); [destruct fv; elem|tauto].
Qed.
Lemma mip_short_re p sc fv w f m mn mx tl ts : (forall g, groups p = Some g -> Forall (fun level => length level = n) g) ->
  same (mip_short n (re_params n s p) sc fv (re s w) f (re_vars s m) (re s mn) (re s mx) (re s tl) (re s ts)) (mip_short n p sc fv w f m mn mx tl ts).
Proof.
  intros G. unfold mip_short. cbn [re_vars short long short_factor long_factor].
  change (fun i => re s (short m) i + re s (long m) i) with (re s (fun i => short m i + long m i)). rewrite cardinality_re, group_card_re by exact G.
  set (inv := fun i => short m i + long m i).
  apply same_app; [apply same_ok; repeat apply app_iff; [elem|elem|tauto]|]. apply same_app; [destruct (group_card_constraints n p inv); cbn; tauto|].
  apply same_ok. apply app_iff; [destruct fv; [apply app_iff; apply product_re|tauto]|]. repeat apply app_iff; destruct fv; elem.
Qed.
Lemma clean_re v : clean_threshold n (option_map (re s) v) = option_map (re s) (clean_threshold n v).
Proof.
  unfold clean_threshold. destruct v as [v|]; [|reflexivity]. cbn [option_map].
  rewrite (all_re n s t O (fun i => eqb0 (re s v i)) (fun i => eqb0 (v i))) by reflexivity. destruct (all _ _); reflexivity.
Qed.
Lemma is_some_map {A B} (f : A -> B) o : is_some (option_map f o) = is_some o.
Proof. now destruct o. Qed.
Lemma is_mip_re p : is_mip n (re_params n s p) = is_mip n p.
Proof. unfold is_mip. cbn [re_params cardinality group_cardinalities threshold_long threshold_short]. now rewrite !is_some_map. Qed.
Lemma mip_re p sc fv w f m : (forall g, groups p = Some g -> Forall (fun level => length level = n) g) ->
  same (mip_constraints n (re_params n s p) sc fv (re s w) f (re_vars s m)) (mip_constraints n p sc fv w f m).
Proof.
  intros G. unfold mip_constraints. rewrite is_mip_re. destruct (negb (is_mip n p)); [cbn; tauto|].
  cbn [re_params threshold_long threshold_short min_weights max_weights group_cardinalities groups]. rewrite !clean_re, !is_some_map.
  destruct (min_weights p) as [mn|]; [|reflexivity]. destruct (max_weights p) as [mx|]; [|reflexivity]. cbn [option_map].
  rewrite (any_re n s t O (fun i => ltb (re s mn i) 0) (fun i => ltb (mn i) 0)) by reflexivity.
  rewrite (all_re n s t O (fun i => ltb 0 (re s mn i)) (fun i => ltb 0 (mn i))) by reflexivity.
  destruct (all n _); [reflexivity|]. destruct (_ && _); [reflexivity|]. destruct (_ && _ && _); [reflexivity|]. destruct (_ && _); [reflexivity|].
  fold (re_params n s p).
  destruct (_ && _); [|now apply mip_no_short_re].
  destruct (clean_threshold n (threshold_long p)) as [tl|]; [|reflexivity]. destruct (clean_threshold n (threshold_short p)) as [ts|]; [|reflexivity].
  now apply mip_short_re.
Qed.
Lemma weight_re to_float p names mip allow fv sc w f m :
  (forall g, groups p = Some g -> Forall (fun level => length level = n) g) -> (forall l, names = Some l -> length l = n) ->
  (forall a, left_inequality p = Some a -> Forall (fun row => length row = n) a) ->
  same (weight_constraints to_float n (re_params n s p) (option_map (pick n s []) names) mip allow fv sc (re s w) f (re_vars s m))
       (weight_constraints to_float n p names mip allow fv sc w f m).
Proof.
  intros G N I. unfold weight_constraints. rewrite is_mip_re. destruct (_ && _); [reflexivity|].
  pose proof (sumn_re (re s w) w (fun _ _ => eq_refl)) as W.
  pose proof (sumn_re (fun i => Rmax (re s w i) 0) (fun i => Rmax (w i) 0) (fun _ _ => eq_refl)) as W1.
  pose proof (sumn_re (fun i => Rmax (- re s w i) 0) (fun i => Rmax (- w i) 0) (fun _ _ => eq_refl)) as W2.
  apply same_app.
  { cbn [re_params min_weights]. destruct (min_weights p) as [mn|]; [|cbn; tauto]. cbn [option_map].
    rewrite (any_re n s t O (fun i => ltb (re s mn i) 0) (fun i => ltb (mn i) 0)) by reflexivity. destruct (_ && _); [reflexivity|]. apply same_ok. elem. }
  apply same_app; [cbn [re_params max_weights]; destruct (max_weights p) as [mx|]; [apply same_ok; cbn [option_map]; elem|cbn; tauto]|].
  apply same_app; [cbn [re_params max_long]; destruct (max_long p) as [l|]; [destruct (ltb 0 l); [rewrite W1; cbn; tauto|reflexivity]|cbn; tauto]|].
  apply same_app; [cbn [re_params max_short]; destruct (max_short p) as [l|]; [destruct (ltb 0 l); [rewrite W2; cbn; tauto|reflexivity]|cbn; tauto]|].
  apply same_app; [cbn [re_params min_budget]; rewrite W; destruct (min_budget p); cbn; tauto|].
  apply same_app; [cbn [re_params max_budget]; rewrite W; destruct (max_budget p); cbn; tauto|].
  apply same_app.
  { cbn [re_params budget max_budget min_budget]. rewrite W. destruct (budget p); [|cbn; tauto]. destruct (is_some _); [reflexivity|]. destruct (is_some _); [reflexivity|cbn; tauto]. }
  apply same_app; [now apply mip_re|].
  apply same_app.
  { cbn [re_params linear_constraints groups]. destruct (linear_constraints p) as [eqs|]; [|cbn; tauto].
    assert (K : forall g, Forall (fun level => length level = n) g ->
      same (match equations_to_matrix to_float (map (pick n s []) g) n eqs false false with
            | EErr e => CErr (BadEquation e)
            | EOk mat => COk (map (fun rb => Eq (rowdotn n (fst rb) (re s w) * sc - snd rb * f * sc) 0) (combine (a_eq mat) (b_eq mat))
                              ++ map (fun rb => Le (rowdotn n (fst rb) (re s w) * sc - snd rb * f * sc) 0) (combine (a_ineq mat) (b_ineq mat)))
            end)
           (match equations_to_matrix to_float g n eqs false false with
            | EErr e => CErr (BadEquation e)
            | EOk mat => COk (map (fun rb => Eq (rowdotn n (fst rb) w * sc - snd rb * f * sc) 0) (combine (a_eq mat) (b_eq mat))
                              ++ map (fun rb => Le (rowdotn n (fst rb) w * sc - snd rb * f * sc) 0) (combine (a_ineq mat) (b_ineq mat)))
            end)).
    { intros g Hg. rewrite (matrix_re n s t) by assumption. destruct (equations_to_matrix to_float g n eqs false false) as [mat|e]; cbn [emap]; [|reflexivity].
      apply same_ok, eq_iff. cbn [mat_re a_eq b_eq a_ineq b_ineq].
      now rewrite (rows_re (fun x b => Eq (x * sc - b * f * sc) 0)), (rows_re (fun x b => Le (x * sc - b * f * sc) 0)). }
    destruct (groups p) as [g|]; cbn [option_map]; [now apply K, G|]. destruct names as [l|]; cbn [option_map]; [|reflexivity].
    apply (K [l]). constructor; [now apply N|constructor]. }
  cbn [re_params left_inequality right_inequality]. destruct (left_inequality p) as [a|]; [|cbn; tauto]. destruct (right_inequality p) as [b|]; [|cbn; tauto].
  cbn [option_map]. specialize (I a eq_refl).
  assert (L1 : forallb (fun row => (length row =? n)%nat) a = true) by (apply forallb_forall; intros r Hr; apply Nat.eqb_eq; now apply (proj1 (Forall_forall _ _) I)).
  assert (L2 : forallb (fun row => (length row =? n)%nat) (map (pick n s 0) a) = true).
  { apply forallb_forall. intros r Hr. apply in_map_iff in Hr as (r0 & <- & _). apply Nat.eqb_eq, pick_length. }
  rewrite L1, L2, map_length. cbn [andb]. destruct (_ =? _)%nat; [|reflexivity]. apply same_ok, eq_iff.
  apply (rows_re (fun x b => Le (x * sc - b * f * sc) 0)).
Qed.
End Constraints.

(** * The problem *)
Section Problem.
Variables (s t : nat -> nat) (factor' root' : nat -> vec) (q : mean_risk) (to_float : str -> option R).
Let n := n_assets (prior_ q).
Let q' := re_problem s factor' root' q.
Hypothesis O : order n s t.
Hypothesis F : factors_reordered s factor' root' q.
Hypothesis N : one_per_asset q.
Notation sumn_re := (sumn_re n s t O).
Lemma value_re c i : value (re_input s c) i = value c (s i).
Proof. now destruct c. Qed.
Lemma cost_re c p w f : transaction_cost n (re_input s c) (re_input s p) (re s w) f = transaction_cost n c p w f.
Proof.
  unfold transaction_cost. rewrite (all_re n s t O (fun i => eqb0 (value (re_input s c) i)) (fun i => eqb0 (value c i))) by (intros; now rewrite value_re).
  destruct (all _ _); [reflexivity|]. destruct c as [x|v]; cbn [re_input].
  - f_equal. apply sumn_re. intros i _. now rewrite value_re.
  - apply sumn_re. intros i _. rewrite value_re. reflexivity.
Qed.
Lemma fee_re c w : management_fee n (re_input s c) (re s w) = management_fee n c w.
Proof. unfold management_fee. apply sumn_re. intros i _. now rewrite value_re. Qed.
Lemma uncertainty_re w : mu_uncertainty n (mu_uncertainty_ q') (re s w) = mu_uncertainty n (mu_uncertainty_ q) w.
Proof.
  unfold q', mu_uncertainty. cbn [re_problem mu_uncertainty_]. destruct (mu_uncertainty_ q) as [[k root]|] eqn:E; [|reflexivity]. cbn [option_map fst].
  do 2 f_equal. apply (quadratic n s t O). intros i j Hi Hj. destruct (F i j Hi Hj) as [_ U]. apply (U k root E).
Qed.
Lemma er_re x : er q' (re_point s x) = er q x.
Proof.
  unfold er, expected_return. pose proof (uncertainty_re (w_ x)) as U. unfold q' in *.
  cbn [re_problem prior_ n_assets settings_ re_settings costs previous fees re_point w_ f_] in *. fold n. rewrite U, cost_re, fee_re.
  do 3 f_equal. apply sumn_re. intros i _. unfold coefficients. cbn [re_problem overwrite_ prior_ mu]. now destruct (overwrite_ q).
Qed.
Lemma returns_re w o : ptf_returns (prior_ q') (re s w) o = ptf_returns (prior_ q) w o.
Proof. unfold ptf_returns, q'. cbn [re_problem prior_ n_assets returns]. fold n. apply sumn_re. reflexivity. Qed.
Lemma min_acceptable_re w o : min_acceptable (prior_ q') (settings_ q') (re s w) o = min_acceptable (prior_ q) (settings_ q) w o.
Proof.
  unfold min_acceptable, q'. cbn [re_problem prior_ n_assets returns mu settings_ re_settings mar]. fold n. apply sumn_re. intros i _.
  destruct (mar (settings_ q)); cbn [option_map]; [now rewrite value_re|reflexivity].
Qed.
Lemma norm_re w sc : sumn n (fun k => (sumn n (fun i => factor' i k * re s w i) * sc) ^ 2)
  = sumn n (fun k => (sumn n (fun i => cholesky (prior_ q) i k * w i) * sc) ^ 2).
Proof.
  assert (E : forall (G : nat -> vec) v, sumn n (fun k => (sumn n (fun i => G i k * v i) * sc) ^ 2) = sc ^ 2 * sumn n (fun k => sumn n (fun i => G i k * v i) ^ 2)).
  { intros G v. unfold sumn. rewrite <- so_scal. apply so_ext. intros k _. ring. }
  rewrite !E. f_equal. apply (quadratic n s t O (fun k i => factor' i k) (fun k i => cholesky (prior_ q) i k)).
  intros i j Hi Hj. destruct (F i j Hi Hj) as [C _]. exact C.
Qed.
Lemma risk_value_re rm w f a : risk_value (prior_ q') (settings_ q') rm (re s w) f a = risk_value (prior_ q) (settings_ q) rm w f a.
Proof. destruct rm; reflexivity. Qed.
Lemma elem_eq k (c c' : nat -> constraint) : (forall i, c i = c' i) -> elementwise k c = elementwise k c'.
Proof. intros H. unfold elementwise. apply map_ext. exact H. Qed.
Lemma risk_constraints_re rm w f a :
  risk_constraints (prior_ q') (settings_ q') rm (re s w) f a = risk_constraints (prior_ q) (settings_ q) rm w f a.
Proof.
  assert (C : cost (prior_ q') (settings_ q') (re s w) f = cost (prior_ q) (settings_ q) w f) by apply cost_re.
  assert (E : fee (prior_ q') (settings_ q') (re s w) = fee (prior_ q) (settings_ q) w) by apply fee_re.
  assert (D : drawdown_constraints (prior_ q') (settings_ q') (re s w) f a = drawdown_constraints (prior_ q) (settings_ q) w f a).
  { unfold drawdown_constraints. rewrite C, E. f_equal. apply elem_eq. intros o. now rewrite returns_re. }
  unfold risk_constraints. rewrite C, E, D. change (n_obs (prior_ q')) with (n_obs (prior_ q)). change (scale (settings_ q')) with (scale (settings_ q)).
  assert (X : ptf_returns (prior_ q') (re s w) = ptf_returns (prior_ q) w) by (apply functional_extensionality, returns_re).
  assert (Y : min_acceptable (prior_ q') (settings_ q') (re s w) = min_acceptable (prior_ q) (settings_ q) w)
    by (apply functional_extensionality, min_acceptable_re).
  rewrite X, Y. destruct rm; try reflexivity;
    change (n_assets (prior_ q')) with n; change (n_assets (prior_ q)) with n; change (cholesky (prior_ q')) with factor'; now rewrite norm_re.
Qed.

Lemma aux_re x rm : aux_of (re_point s x) rm = aux_of x rm.
Proof. reflexivity. Qed.
Lemma problem_re x : same (problem_constraints to_float q' (re_point s x)) (problem_constraints to_float q x).
Proof.
  unfold problem_constraints.
  change (n_assets (prior_ q')) with n. change (n_obs (prior_ q')) with (n_obs (prior_ q)). change (scale (settings_ q')) with (scale (settings_ q)).
  change (w_ (re_point s x)) with (re s (w_ x)). change (f_ (re_point s x)) with (f_ x). change (is_ratio q') with (is_ratio q). fold n.
  apply same_app.
  { apply same_ok, eq_iff. unfold tracking_constraints, tracking_error. change (max_tracking_error_ q') with (max_tracking_error_ q).
    change (benchmark_ q') with (benchmark_ q). destruct (max_tracking_error_ q); [|reflexivity]. 
    assert (E : forall o, sumn n (fun i => returns (prior_ q') o i * re s (w_ x) i) = sumn n (fun i => returns (prior_ q) o i * w_ x i)) by (intros o; apply sumn_re; reflexivity).
    do 6 f_equal. apply functional_extensionality. intros o. now rewrite E. }
  apply same_app.
  { unfold turnover_constraints. change (max_turnover_ q') with (max_turnover_ q). change (has_previous_ q') with (has_previous_ q).
    change (previous (settings_ q')) with (re_input s (previous (settings_ q))).
    destruct (max_turnover_ q); [|cbn; tauto]. destruct (has_previous_ q); [|reflexivity]. apply same_ok, (elementwise_re n s t O).
    intros i _. now rewrite value_re. }
  apply same_app; [destruct N as (N1 & N2 & N3); apply (weight_re n s t O); assumption|].
  apply same_app; [apply same_ok, eq_iff; rewrite er_re; reflexivity|].
  apply same_app.
  { apply same_ok, eq_iff. unfold risk_block. apply flat_map_ext. intros rm. change (risk_measure_ q') with (risk_measure_ q). change (limits_ q') with (limits_ q).
    destruct (_ || _); [|reflexivity]. change (w_ (re_point s x)) with (re s (w_ x)). change (f_ (re_point s x)) with (f_ x).
    rewrite aux_re, risk_constraints_re. f_equal. }
  apply same_ok, eq_iff. destruct (is_ratio q); [|reflexivity]. rewrite er_re.
  change (risk_free_rate (settings_ q')) with (risk_free_rate (settings_ q)).
  assert (H : homogenization_factor n (mu (prior_ q')) = homogenization_factor n (mu (prior_ q))).
  { unfold homogenization_factor. do 3 f_equal. apply sumn_re. reflexivity. }
  assert (A : is_affine n (costs (settings_ q')) (mu_uncertainty_ q') = is_affine n (costs (settings_ q)) (mu_uncertainty_ q)).
  { unfold is_affine. f_equal; [|f_equal; apply is_some_map]. apply (all_re n s t O). intros i _.
    change (costs (settings_ q')) with (re_input s (costs (settings_ q))). now rewrite value_re. }
  now rewrite H, A.
Qed.
Lemma feasible_re x : feasible to_float q' (re_point s x) <-> feasible to_float q x.
Proof.
  unfold feasible. change (is_ratio q') with (is_ratio q). change (f_ (re_point s x)) with (f_ x). pose proof (problem_re x) as P.
  destruct (problem_constraints to_float q' (re_point s x)) as [l|e], (problem_constraints to_float q x) as [l'|e']; cbn in P; try contradiction.
  - split; intros (A & m & E & H); (split; [exact A|]); injection E as <-; eexists; (split; [reflexivity|]); now apply P.
  - split; intros (_ & m & E & _); discriminate.
Qed.
Lemma loss_re x : loss q' (re_point s x) = loss q x.
Proof.
  assert (G : regularization q' (w_ (re_point s x)) = regularization q (w_ x)).
  { unfold regularization. change (n_assets (prior_ q')) with n. fold n. f_equal; f_equal; apply sumn_re; reflexivity. }
  unfold loss. rewrite G, er_re. change (objective_ q') with (objective_ q). change (scale_objective_ q') with (scale_objective_ q).
  change (risk_aversion_ q') with (risk_aversion_ q).
  assert (K : risk q' (re_point s x) = risk q x).
  { unfold risk. change (risk_measure_ q') with (risk_measure_ q). rewrite aux_re. apply risk_value_re. }
  now rewrite K.
Qed.
Lemma back x : re_point s (re_point t x) = x.
Proof.
  assert (E : forall v : vec, re s (re t v) = v) by (intros v; apply functional_extensionality; intros i; unfold re; destruct O as (_ & L & _); now rewrite L).
  destruct x as [w f m a d]. unfold re_point. cbn [w_ f_ m_ a_ common_dd]. rewrite E. f_equal. destruct m. unfold re_vars. cbn. now rewrite !E.
Qed.
Lemma optimal_re x : optimal to_float q' (re_point s x) <-> optimal to_float q x.
Proof.
  unfold optimal. rewrite feasible_re, loss_re. split; intros [A B]; (split; [exact A|]); intros y Hy.
  - rewrite <- (loss_re y). apply B. now apply feasible_re.
  - rewrite <- (back y), loss_re. apply B. apply feasible_re. now rewrite back.
Qed.
End Problem.

(** * C92 *)
(** Reordering the assets, with every input given per asset reordered in the same way, reorders the solutions and changes nothing else: the same
    investments are admissible, they have the same loss, the optimal ones correspond, and the weights reported are the old ones in the new order. *)
Theorem C92_mean_risk :
  forall to_float q s t factor' root',
    order (n_assets (prior_ q)) s t -> factors_reordered s factor' root' q -> one_per_asset q ->
    let q' := re_problem s factor' root' q in
    (forall x, feasible to_float q' (re_point s x) <-> feasible to_float q x)
    /\ (forall x, loss q' (re_point s x) = loss q x)
    /\ (forall x, optimal to_float q' (re_point s x) <-> optimal to_float q x)
    /\ (forall x i, weights (re_point s x) i = weights x (s i))
    /\ (forall x', optimal to_float q' x' -> exists x, optimal to_float q x /\ forall i, weights x' i = weights x (s i)).
Proof.
  intros to_float q s t factor' root' O F N. split; [|split; [|split; [|split]]].
  - intros x. now apply (feasible_re s t).
  - intros x. now apply (loss_re s t).
  - intros x. now apply (optimal_re s t).
  - reflexivity.
  - intros x' H. exists (re_point t x'). pose proof (back s t q O x') as B. split.
    + apply (optimal_re s t factor' root' q to_float O F N). now rewrite B.
    + intros i. rewrite <- B at 1. reflexivity.
Qed.
Print Assumptions C92_mean_risk.

(** ** The moments *)
Definition omap {A B} (f : A -> B) (x : outcome A) : outcome B := match x with Value a => Value (f a) | NaN => NaN | Raises => Raises end.
Lemma window_re {A B} (f : A -> B) w l : window w (map f l) = map f (window w l).
Proof.
  destruct w as [w|]; [|reflexivity]. cbn. unfold slice_from. rewrite map_length. destruct (_ <? _)%Z.
  - apply skipn_map.
  - apply skipn_map.
Qed.
Lemma column_re s X i : column (map (re s) X) i = column X (s i).
Proof. unfold column. now rewrite map_map. Qed.
Lemma checked_re n s t (c : nat -> nat -> R) : order n s t -> checked n (fun i j => c (s i) (s j)) = omap (fun c i j => c (s i) (s j)) (checked n c).
Proof.
  intros O. unfold checked.
  assert (E : too_small n (fun i j => c (s i) (s j)) = too_small n c).
  { apply (any_re n s t O (fun i => if Rlt_dec (c (s i) (s i)) tiny then true else false) (fun i => if Rlt_dec (c i i) tiny then true else false)). reflexivity. }
  rewrite E. now destruct (too_small n c).
Qed.
(** The moments of the reordered columns are the reordered moments, and are refused exactly when the others are. *)
Theorem C92_moments :
  forall n s t w alpha ddof X, order n s t ->
    let X' := map (re s) X in
    empirical_mu w X' = omap (re s) (empirical_mu w X)
    /\ ew_mu w alpha X' = omap (re s) (ew_mu w alpha X)
    /\ empirical_covariance w ddof n X' = omap (fun c i j => c (s i) (s j)) (empirical_covariance w ddof n X)
    /\ ew_covariance w alpha n X' = omap (fun c i j => c (s i) (s j)) (ew_covariance w alpha n X).
Proof.
  intros n s t w alpha ddof X O X'. unfold X', empirical_mu, ew_mu, empirical_covariance, ew_covariance. rewrite window_re, map_length.
  set (Y := window w X).
  assert (C : column (map (re s) Y) = fun i => column Y (s i)) by (apply functional_extensionality; intros i; apply column_re). rewrite C.
  split; [|split; [|split]].
  - now destruct (_ =? _)%nat.
  - destruct (negb _); [reflexivity|]. now destruct (_ =? _)%nat.
  - destruct (n =? 1)%nat; [reflexivity|]. destruct (_ <=? _)%nat; [reflexivity|]. now apply (checked_re n s t (fun i j => cov ddof (column Y i) (column Y j))).
  - destruct (negb _); [reflexivity|]. destruct (_ =? _)%nat; [reflexivity|]. cbv zeta.
    set (entry := fun i j => ew_cov alpha (column Y i) (column Y j)).
    change (fun i => column Y (s i)) with (re s (column Y)).
    match goal with |- (if ?b then _ else _) = omap _ (if ?c then _ else _) => assert (E : b = c); [|rewrite E; clear E; destruct c; [|reflexivity]] end.
    { apply (all_re n s t O (fun i => all n (fun j => match entry (s i) (s j) with Some _ => true | None => false end))
        (fun i => all n (fun j => match entry i j with Some _ => true | None => false end))).
      intros i _. apply (all_re n s t O). reflexivity. }
    now apply (checked_re n s t (fun i j => match entry i j with Some c => c | None => 0 end)).
Qed.
Print Assumptions C92_moments.

(** two assets exchanged in the example of C36: the hypotheses are met and the optimum follows *)
Definition exchange (i : nat) : nat := match i with 0 => 1 | 1 => 0 | _ => i end%nat.
Example C92_applies :
  let q := ratio_example None (fun _ => None) in
  let one := fun i j : nat => if (i =? j)%nat then 1 else 0 in
  order (n_assets (prior_ q)) exchange exchange /\ factors_reordered exchange one one q /\ one_per_asset q
  /\ optimal no_float (re_problem exchange one one q) (re_point exchange half_point)
  /\ weights (re_point exchange half_point) 0%nat = weights half_point 1%nat.
Proof.
  intros q one.
  assert (O : order (n_assets (prior_ q)) exchange exchange).
  { split; [|split]; [intros [|[|i]]; cbn; lia|intros [|[|i]]; reflexivity|intros [|[|i]]; reflexivity]. }
  assert (F : factors_reordered exchange one one q).
  { intros i j Hi Hj. cbn in Hi, Hj. split; [|discriminate]. destruct i as [|[|i]]; [| |lia]; destruct j as [|[|j]]; try lia; cbn; unfold covariance, sumn; cbn; lra. }
  assert (N : one_per_asset q) by (split; [|split]; discriminate).
  split; [exact O|]. split; [exact F|]. split; [exact N|]. destruct (C92_mean_risk no_float q exchange exchange one one O F N) as (_ & _ & C & W & _).
  split; [apply C, C36_optimal_point_exists|apply (W half_point 0%nat)].
Qed.
