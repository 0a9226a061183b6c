(** C72: estimating a copula and selecting one among candidates. *)
From Coq Require Import Bool Reals List Lra Lia Arith Psatz Classical_Prop.
From Verif Require Import CopulaModel CopulaFitModel.
Import ListNotations.
Local Open Scope R_scope.

(** * Specification *)
(** A row of the unit square, and a row that the validation leaves unchanged. *)
Definition in_square (p : R * R) : Prop := 0 <= fst p <= 1 /\ 0 <= snd p <= 1.
Definition inner (p : R * R) : Prop := epsilon <= fst p <= 1 - epsilon /\ epsilon <= snd p <= 1 - epsilon.

Section Spec.
Variable gaussian_score : R -> R * R -> num.
Variable student_score : R -> R -> R * R -> num.
(** The log-density of a fitted copula at one row: what score_samples returns (C45, C46). *)
Definition log_density (m : fitted) (p : R * R) : option R :=
  match fam_ m, params_ m with
  | Clayton, [Some theta] => method_score (clayton_score theta) (rotation_ m) p
  | Gumbel, [Some theta] => method_score (gumbel_score theta) (rotation_ m) p
  | Joe, [Some theta] => method_score (joe_score theta) (rotation_ m) p
  | Gaussian, [Some rho] => match validate p with Some q => gaussian_score rho (rotate (rotation_ m) q) | None => None end
  | StudentT, [Some dof; Some rho] => match validate p with Some q => student_score dof rho (rotate (rotation_ m) q) | None => None end
  | Independent, [] => match validate p with Some _ => Some 0 | None => None end
  | _, _ => None
  end.
(** [L] is the log-likelihood of the data under a fitted copula. *)
Definition likelihood (m : fitted) (X : list (R * R)) (L : R) : Prop :=
  exists ls, Forall2 (fun p l => log_density m p = Some l) X ls /\ L = fold_right Rplus 0 ls.
(** The documented criteria: -2 log L + 2 k and -2 log L + k ln n. *)
Definition criterion_is (cr : criterion) (m : fitted) (X : list (R * R)) (v : R) : Prop :=
  exists L, likelihood m X L /\
  v = -2 * L + match fam_ m with Independent => 0 | StudentT => 2 | _ => 1 end
               * match cr with AIC => 2 | BIC => ln (INR (length X)) end.
End Spec.

(** [k] is the position of the first minimum of a list. *)
Definition first_minimum (l : list R) (k : nat) : Prop :=
  exists v, nth_error l k = Some v /\
  forall j w, nth_error l j = Some w -> v <= w /\ ((j < k)%nat -> v < w).

(** * Lemmas *)
Lemma least_spec {A} (l : list (A * R)) : forall (a : A) (v : R),
  exists k, first_minimum (v :: map snd l) k /\
  nth_error (a :: map fst l) k = Some (least (a, Some v) (map (fun p => (fst p, Some (snd p))) l)).
Proof.
  induction l as [|[b w] l IH]; intros a v.
  - exists 0%nat. split; [|reflexivity]. exists v. split; [reflexivity|]. intros [|j] x Hx.
    + injection Hx as <-. split; [lra|lia].
    + destruct j; discriminate Hx.
  - cbn [map least fst snd]. unfold lt at 1. cbn [fst snd]. destruct (Rlt_dec w v) as [H|H].
    + destruct (IH b w) as [k [[x [Hx Fx]] Ek]]. exists (S k). split; [|exact Ek].
      assert (Hw : x <= w) by (apply (Fx 0%nat w); reflexivity).
      exists x. split; [exact Hx|]. intros [|j] y Hy.
      * injection Hy as <-. split; [lra|]. intros _. lra.
      * destruct (Fx j y Hy) as [F1 F2]. split; [exact F1|]. intros Hj. apply F2. lia.
    + destruct (IH a v) as [k [[x [Hx Fx]] Ek]]. assert (Hv : x <= v) by (apply (Fx 0%nat v); reflexivity).
      destruct k as [|k].
      * injection Hx as ->. exists 0%nat. split; [|exact Ek]. exists x. split; [reflexivity|].
        intros [|[|j]] y Hy.
        -- injection Hy as <-. split; [lra|lia].
        -- injection Hy as <-. split; [lra|lia].
        -- destruct (Fx (S j) y Hy) as [F1 F2]. split; [exact F1|lia].
      * exists (S (S k)). split; [|exact Ek]. exists x. split; [exact Hx|].
        assert (Lv : x < v) by (apply (Fx 0%nat v); [reflexivity|lia]).
        intros [|[|j]] y Hy.
        -- injection Hy as <-. split; [lra|intros _; lra].
        -- injection Hy as <-. split; [lra|intros _; lra].
        -- destruct (Fx (S j) y Hy) as [F1 F2]. split; [exact F1|]. intros Hj. apply F2. lia.
Qed.

Lemma nsum_some (l : list R) : nsum (map Some l) = Some (fold_right Rplus 0 l).
Proof. unfold nsum. induction l as [|x l IH]; [reflexivity|]. cbn. rewrite IH. reflexivity. Qed.
Lemma nsum_inv (l : list num) s : nsum l = Some s -> exists l', l = map Some l' /\ s = fold_right Rplus 0 l'.
Proof.
  revert s. induction l as [|[x|] l IH]; intros s H.
  - exists []. split; [reflexivity|]. unfold nsum in H. cbn in H |- *. congruence.
  - change (map2n Rplus (Some x) (nsum l) = Some s) in H. destruct (nsum l) as [r|] eqn:E; [|discriminate]. destruct (IH r eq_refl) as [l' [-> ->]].
    exists (x :: l'). split; [reflexivity|]. cbn in H |- *. congruence.
  - discriminate H.
Qed.

Lemma validate_some p : in_square p -> exists q, validate p = Some q.
Proof.
  destruct p as [u v]. intros [[A B] [C D]]. cbn in A, B, C, D. unfold validate.
  destruct (Rle_dec 0 u); [|lra]. destruct (Rle_dec u 1); [|lra]. destruct (Rle_dec 0 v); [|lra]. destruct (Rle_dec v 1); [|lra]. eauto.
Qed.
Lemma validate_square p q : validate p = Some q -> in_square p.
Proof.
  destruct p as [u v]. unfold validate, in_square.
  destruct (Rle_dec 0 u); [|discriminate]. destruct (Rle_dec u 1); [|discriminate]. destruct (Rle_dec 0 v); [|discriminate].
  destruct (Rle_dec v 1); [|discriminate]. cbn. tauto.
Qed.
Lemma clip_same lo hi x : lo <= x <= hi -> clip lo hi x = x.
Proof. intros H. unfold clip. rewrite Rmax_right by lra. apply Rmin_right. lra. Qed.
Lemma validate_inner p : inner p -> validate p = Some p.
Proof.
  destruct p as [u v]. intros [H K]. cbn in H, K. assert (E : 0 < epsilon) by (unfold epsilon; lra).
  unfold validate. destruct (Rle_dec 0 u); [|lra]. destruct (Rle_dec u 1); [|lra]. destruct (Rle_dec 0 v); [|lra].
  destruct (Rle_dec v 1); [|lra]. now rewrite !clip_same.
Qed.
Lemma rows_some X : Forall in_square X -> exists Y, validate_rows X = Some Y /\ Forall2 (fun p q => validate p = Some q) X Y.
Proof.
  induction 1 as [|p X H _ [Y [E F]]]; [exists []; split; [reflexivity|constructor]|].
  destruct (validate_some p H) as [q Q]. exists (q :: Y). cbn. rewrite Q, E. split; [reflexivity|constructor; auto].
Qed.
Lemma rows_square X Y : validate_rows X = Some Y -> Forall in_square X /\ Forall2 (fun p q => validate p = Some q) X Y.
Proof.
  revert Y. induction X as [|p X IH]; intros Y H; cbn in H.
  - injection H as <-. split; constructor.
  - destruct (validate p) as [q|] eqn:Q; [|discriminate]. destruct (validate_rows X) as [Z|]; [|discriminate]. injection H as <-.
    destruct (IH Z eq_refl) as [A B]. split; constructor; auto. now apply validate_square in Q.
Qed.
Lemma rows_inner X : Forall inner X -> validate_rows X = Some X.
Proof. induction 1 as [|p X H _ IH]; [reflexivity|]. cbn. now rewrite validate_inner, IH. Qed.
Lemma X_ok X Y : validate_X X = Ok Y <-> X <> [] /\ validate_rows X = Some Y.
Proof.
  unfold validate_X. destruct X as [|p X]; [split; [discriminate|intros [H _]; congruence]|].
  destruct (validate_rows (p :: X)) as [Z|]; split.
  - intros [= <-]. split; [discriminate|reflexivity].
  - intros [_ [= <-]]. reflexivity.
  - discriminate.
  - intros [_ H]. discriminate H.
Qed.

Section Fit.
Variable p_value : list (R * R) -> num.
Variable gaussian_score : R -> R * R -> num.
Variable student_score : R -> R -> R * R -> num.
Variable minimize_scalar : (R -> num) -> R * R -> option (num * R).
Variable minimize : (R -> R -> num) -> num -> R * R -> R * R -> option (R * R).
Variable brentq : (R -> R) -> R -> R -> R.
Variable digamma : R -> R.
Variable euler_gamma : R.
Notation base_score := (base_score gaussian_score student_score).
Notation neg_log_likelihood := (neg_log_likelihood gaussian_score student_score).
Notation select_rotation_itau := (select_rotation_itau gaussian_score student_score).
Notation fit := (fit gaussian_score student_score minimize_scalar minimize brentq digamma euler_gamma).
Notation score := (score gaussian_score student_score).
Notation value := (value gaussian_score student_score).
Notation evaluate := (evaluate gaussian_score student_score minimize_scalar minimize brentq digamma euler_gamma).
Notation select := (select_bivariate_copula p_value gaussian_score student_score minimize_scalar minimize brentq digamma euler_gamma).
Notation likelihood := (likelihood gaussian_score student_score).
Notation log_density := (log_density gaussian_score student_score).
Notation criterion_is := (criterion_is gaussian_score student_score).

Lemma base_density m p q : validate p = Some q -> base_score (fam_ m) (params_ m) (rotate (rotation_ m) q) = log_density m p.
Proof.
  intros V. unfold CopulaFitModel.base_score, CopulaFitProps.log_density.
  destruct (fam_ m); destruct (params_ m) as [|[x|] [|[y|] [|z l]]]; try reflexivity; rewrite ?V; try reflexivity;
  unfold method_score; rewrite V; reflexivity.
Qed.

Lemma sum_density m X Y : Forall2 (fun p q => validate p = Some q) X Y ->
  forall L, nsum (map (base_score (fam_ m) (params_ m)) (map (rotate (rotation_ m)) Y)) = Some L <-> likelihood m X L.
Proof.
  intros F L. split.
  - intros H. apply nsum_inv in H. destruct H as [l' [E ->]]. exists l'. split; [|reflexivity].
    rewrite map_map in E. revert l' E. induction F as [|p q X Y V F IH]; intros l' E.
    + destruct l'; [constructor|discriminate].
    + destruct l' as [|x l']; [discriminate|]. cbn in E. injection E as E1 E2. constructor; [|apply IH, E2].
      rewrite <- E1. symmetry. apply base_density, V.
  - intros [ls [G ->]]. rewrite <- nsum_some. f_equal. rewrite map_map. revert ls G.
    induction F as [|p q X Y V F IH]; intros ls G; inversion G; subst; [reflexivity|]. cbn. f_equal; [|now apply IH].
    rewrite (base_density m _ _ V). assumption.
Qed.

(** The Gaussian and Student t scores raise on a NaN correlation, and then there is no likelihood either. *)
Lemma score_spec m X L : X <> [] -> Forall in_square X -> score m X = Ok (Some L) <-> likelihood m X L.
Proof.
  intros N Q. destruct (rows_some X Q) as [Y [E F]]. unfold CopulaFitModel.score.
  rewrite (proj2 (X_ok X Y)) by auto. cbn [bind].
  assert (G : (match fam_ m, params_ m with
  | Gaussian, [None] | StudentT, [_; None] => ValueError
  | f, params => Ok (nsum (map (base_score f params) (map (rotate (rotation_ m)) Y)))
  end = Ok (Some L)) <-> nsum (map (base_score (fam_ m) (params_ m)) (map (rotate (rotation_ m)) Y)) = Some L).
  { assert (B : X <> [] -> forall f ps, (forall z, base_score f ps z = None) -> nsum (map (base_score f ps) (map (rotate (rotation_ m)) Y)) <> Some L).
    { intros NX f ps Z H. destruct F as [|p q X Y V F]; [congruence|]. cbn in H. rewrite Z in H. discriminate. }
    destruct (fam_ m) eqn:Ef; destruct (params_ m) as [|[x|] [|[y|] [|z l]]]; cbv zeta iota;
    try (split; [intros H; injection H as H; exact H|intros H; f_equal; exact H]);
    (split; [intros H; discriminate H|intros H; exfalso; revert H; apply B; [exact N|intros z0; reflexivity]]). }
  rewrite G. apply sum_density, F.
Qed.

Lemma value_spec cr m X v : X <> [] -> Forall in_square X -> value cr m X = Ok (Some v) <-> criterion_is cr m X v.
Proof.
  intros N Q. unfold CopulaFitModel.value, CopulaFitProps.criterion_is. split.
  - destruct (score m X) as [[L|]| | |] eqn:E; cbn; try discriminate; [|destruct cr; discriminate].
    intros H. exists L. split; [now apply score_spec|]. destruct cr; cbn in H; injection H as <-; unfold n_params; destruct (fam_ m); ring.
  - intros [L [H ->]]. apply (score_spec m X L N Q) in H. rewrite H. cbn. f_equal. destruct cr; cbn; f_equal; unfold n_params; destruct (fam_ m); ring.
Qed.

(** Giving the statistic of the data changes nothing when the validation leaves the data unchanged. *)
Lemma fit_reuse c X : Forall inner X -> itau c = true -> kendall_tau c = None ->
  fit {| fam := fam c; itau := true; kendall_tau := Some (kendalltau X) |} X = fit c X.
Proof.
  intros Q I K. unfold CopulaFitModel.fit. destruct (validate_X X) as [Y| | |] eqn:E; cbn [bind]; try reflexivity.
  apply X_ok in E. destruct E as [_ E]. rewrite (rows_inner X Q) in E. injection E as <-. destruct c as [f i k]. cbn in I, K |- *. subst i k. reflexivity.
Qed.
Lemma inner_square X : Forall inner X -> Forall in_square X.
Proof. apply Forall_impl. intros [u v] [A B]. cbn in A, B. assert (E : 0 < epsilon) by (unfold epsilon; lra). unfold in_square; cbn. lra. Qed.

(** * Theorems *)
(** The fitted candidate and its criterion. *)
Definition fits (X : list (R * R)) (cr : criterion) (cand : candidate) (m : fitted) (v : R) : Prop :=
  exists c, cand = Copula c /\ fam c <> Independent /\ fit c X = Ok m /\ criterion_is cr m X v.
Definition dependent (X : list (R * R)) (level : R) : Prop := forall p, p_value X = Some p -> p < level.

Lemma evaluate_spec cr X l : X <> [] -> Forall inner X -> forall mvs,
  Forall2 (fun cand mv => fits X cr cand (fst mv) (snd mv)) l mvs ->
  evaluate cr (kendalltau X) X l = Ok (map (fun p => (fst p, Some (snd p))) mvs).
Proof.
  intros N Q mvs F. induction F as [|cand [m v] l mvs [c [-> [Nf [Fc Cv]]]] F IH]; [reflexivity|]. cbn [fst snd] in *.
  apply (value_spec cr m X v N (inner_square X Q)) in Cv.
  cbn [CopulaFitModel.evaluate map fst snd].
  assert (Fc' : fit (match itau c, kendall_tau c with true, None => {| fam := fam c; itau := true; kendall_tau := Some (kendalltau X) |} | _, _ => c end) X = Ok m).
  { destruct (itau c) eqn:I; destruct (kendall_tau c) eqn:K; auto. rewrite fit_reuse; auto. }
  destruct (fam c) eqn:Ef; try congruence;
  rewrite Fc'; cbn [bind]; rewrite Cv; cbn [bind]; rewrite IH; reflexivity.
Qed.

Lemma select_dependent X l cr level : dependent X level ->
  select X (Some l) cr level = bind (evaluate cr (kendalltau X) X l) (fun results => match results with [] => ValueError | b :: r => Ok (least b r) end).
Proof.
  intros D. unfold select_bivariate_copula, dependent in *. destruct (p_value X) as [p|]; [|reflexivity].
  specialize (D p eq_refl). destruct (Rle_dec level p); [lra|reflexivity].
Qed.

(** The selected copula is the first of the candidates, each fitted as it would be alone, whose criterion is the smallest. *)
Theorem C72_best : forall X l cr level mvs,
  X <> [] -> Forall inner X -> dependent X level -> l <> [] ->
  Forall2 (fun cand mv => fits X cr cand (fst mv) (snd mv)) l mvs ->
  exists k m, first_minimum (map snd mvs) k /\ nth_error (map fst mvs) k = Some m /\ select X (Some l) cr level = Ok m.
Proof.
  intros X l cr level mvs N Q D NE F. rewrite select_dependent by exact D. rewrite (evaluate_spec cr X l N Q mvs F).
  destruct F as [|cand [m v] l mvs H F]; [congruence|]. cbn [map fst snd bind].
  destruct (least_spec mvs m v) as [k [A B]]. exists k. eexists. split; [exact A|]. split; [exact B|]. reflexivity.
Qed.

(** No dependence detected: the independent copula, whatever the candidates. *)
Theorem C72_independence : forall X l cr level p, X <> [] -> p_value X = Some p -> level <= p ->
  select X l cr level = (if forallb (fun r => in_unit (fst r) && in_unit (snd r)) X then Ok {| fam_ := Independent; params_ := []; rotation_ := R0 |} else ValueError).
Proof.
  intros X l cr level p N P H. unfold select_bivariate_copula. rewrite P. destruct (Rle_dec level p) as [Hl|Hl]; [|lra]. cbn [negb].
  unfold CopulaFitModel.fit. cbn [fam].
  destruct (forallb (fun r => in_unit (fst r) && in_unit (snd r)) X) eqn:E.
  - assert (Q : Forall in_square X).
    { rewrite forallb_forall in E. apply Forall_forall. intros r Hr. specialize (E r Hr). apply andb_prop in E. destruct E as [A B].
      unfold in_unit in A, B. split.
      - destruct (Rle_dec 0 (fst r)); [|discriminate]. destruct (Rle_dec (fst r) 1); [|discriminate]. lra.
      - destruct (Rle_dec 0 (snd r)); [|discriminate]. destruct (Rle_dec (snd r) 1); [|discriminate]. lra. }
    destruct (rows_some X Q) as [Y [EY _]]. rewrite (proj2 (X_ok X Y)) by auto. reflexivity.
  - destruct (validate_X X) as [Y| | |] eqn:V; try reflexivity; exfalso.
    + apply X_ok in V. destruct V as [_ V]. apply rows_square in V. destruct V as [Q _].
      assert (T : forallb (fun r => in_unit (fst r) && in_unit (snd r)) X = true); [|congruence].
      apply forallb_forall. intros r Hr. rewrite Forall_forall in Q. destruct (Q r Hr) as [A B]. apply andb_true_intro. unfold in_unit.
      split; [destruct (Rle_dec 0 (fst r)); [|lra]; destruct (Rle_dec (fst r) 1); [|lra]|
              destruct (Rle_dec 0 (snd r)); [|lra]; destruct (Rle_dec (snd r) 1); [|lra]]; reflexivity.
    + unfold validate_X in V. destruct X; [discriminate|]. destruct (validate_rows _); discriminate.
    + unfold validate_X in V. destruct X; [discriminate|]. destruct (validate_rows _); discriminate.
Qed.

(** Data outside the unit square or without observation: no copula can be fitted. *)
Theorem C72_data : forall c X m, fit c X = Ok m -> X <> [] /\ Forall in_square X /\ fam_ m = fam c.
Proof.
  intros c X m H. unfold CopulaFitModel.fit in H. destruct (validate_X X) as [Y| | |] eqn:V; try discriminate. apply X_ok in V.
  destruct V as [N V]. apply rows_square in V. split; [exact N|]. split; [tauto|]. cbn [bind] in H. clear V.
  assert (A : forall theta_of bounds, fit_archimedean gaussian_score student_score minimize_scalar c theta_of bounds Y = Ok m -> fam_ m = fam c).
  { intros f b K. unfold fit_archimedean in K. destruct (itau c); [injection K as <-; reflexivity|].
    destruct (select_theta_and_rotation_mle _ _ _ _ _ _) as [x| | |]; cbn [bind] in K; try discriminate. injection K as <-. reflexivity. }
  destruct (fam c) eqn:Ef; try (eapply A; exact H).
  - destruct (itau c); [injection H as <-; reflexivity|]. destruct (minimize_scalar _ _) as [[? ?]|]; [|discriminate]. injection H as <-. reflexivity.
  - destruct (itau c).
    + destruct (rho_of _); [|discriminate]. destruct (minimize_scalar _ _) as [[? ?]|]; [|discriminate]. injection H as <-. reflexivity.
    + destruct (minimize _ _ _ _) as [[? ?]|]; [|discriminate]. injection H as <-. reflexivity.
  - injection H as <-. reflexivity.
Qed.
Theorem C72_bad_data : forall c X, ~ Forall in_square X -> fit c X = ValueError.
Proof.
  intros c X H. unfold CopulaFitModel.fit. destruct (validate_X X) as [Y| | |] eqn:V; try reflexivity; exfalso.
  - apply X_ok in V. destruct V as [_ V]. apply rows_square in V. tauto.
  - unfold validate_X in V. destruct X; [discriminate|]. destruct (validate_rows _); discriminate.
  - unfold validate_X in V. destruct X; [discriminate|]. destruct (validate_rows _); discriminate.
Qed.

(** A candidate of another class, or no candidate, is rejected. *)
Theorem C72_rejected : forall X l cr level, X <> [] -> Forall inner X -> dependent X level ->
  select X (Some []) cr level = ValueError /\
  forall before mvs after, l = before ++ Other :: after ->
    Forall2 (fun cand mv => fits X cr cand (fst mv) (snd mv)) before mvs -> select X (Some l) cr level = ValueError.
Proof.
  intros X l cr level N Q D. split; [now rewrite select_dependent|]. intros before mvs after -> F. rewrite select_dependent by exact D.
  assert (E : evaluate cr (kendalltau X) X (before ++ Other :: after) = ValueError); [|now rewrite E].
  induction F as [|cand [m v] l mvs [c [-> [Nf [Fc Cv]]]] F IH]; [reflexivity|]. cbn [fst snd] in *.
  apply (value_spec cr m X v N (inner_square X Q)) in Cv.
  cbn [CopulaFitModel.evaluate app].
  assert (Fc' : fit (match itau c, kendall_tau c with true, None => {| fam := fam c; itau := true; kendall_tau := Some (kendalltau X) |} | _, _ => c end) X = Ok m).
  { destruct (itau c) eqn:I; destruct (kendall_tau c) eqn:K; auto. rewrite fit_reuse; auto. }
  destruct (fam c) eqn:Ef; try congruence; rewrite Fc'; cbn [bind]; rewrite Cv; cbn [bind]; rewrite IH; reflexivity.
Qed.

(** The families with a parameter and a rotation, with their bounds. *)
Definition bounds_of (f : family) : option (R * R) :=
  match f with Clayton => Some (1/10000, 50) | Gumbel => Some (10001/10000, 80) | Joe => Some (1005/1000, 20) | _ => None end.
Definition turned (f : family) (theta : R) (r : rotation) : fitted := {| fam_ := f; params_ := [Some theta]; rotation_ := r |}.

Lemma nll_spec f b X Y theta r : bounds_of f = Some b -> Forall2 (fun p q => validate p = Some q) X Y ->
  exists L, likelihood (turned f theta r) X L /\ neg_log_likelihood f [Some theta] (map (rotate r) Y) = Some (- L).
Proof.
  intros B F.
  assert (S : exists L, nsum (map (base_score f [Some theta]) (map (rotate r) Y)) = Some L).
  { exists (fold_right Rplus 0 (map (fun p => match base_score f [Some theta] p with Some x => x | None => 0 end) (map (rotate r) Y))).
    rewrite <- nsum_some. f_equal. generalize (map (rotate r) Y). intros Z. rewrite map_map. apply map_ext. intros q. destruct f; try discriminate B; reflexivity. }
  destruct S as [L HL]. exists L. split.
  - apply (sum_density (turned f theta r) X Y F L). exact HL.
  - unfold CopulaFitModel.neg_log_likelihood. rewrite HL. reflexivity.
Qed.
Lemma likelihood_unique m X L L' : likelihood m X L -> likelihood m X L' -> L = L'.
Proof.
  intros [l [F ->]] [l' [F' ->]]. f_equal. revert l' F'. induction F as [|p x X l H F IH]; intros l' F'; inversion F'; subst; [reflexivity|].
  f_equal; [congruence|now apply IH].
Qed.

Lemma fit_turned c b X m : bounds_of (fam c) = Some b -> fit c X = Ok m ->
  exists Y, X <> [] /\ Forall2 (fun p q => validate p = Some q) X Y /\
  fit_archimedean gaussian_score student_score minimize_scalar c
    (match fam c with Clayton => clayton_theta_of | Gumbel => gumbel_theta_of | _ => joe_theta_of brentq digamma euler_gamma end) b Y = Ok m.
Proof.
  intros B H. unfold CopulaFitModel.fit in H. destruct (validate_X X) as [Y| | |] eqn:V; try discriminate. apply X_ok in V. destruct V as [N V].
  apply rows_square in V. exists Y. split; [exact N|]. split; [tauto|]. cbn [bind] in H.
  destruct (fam c); try discriminate B; cbn in B; injection B as <-; exact H.
Qed.

(** With Kendall's tau inversion the rotation is the one under which the data are the most likely. *)
Theorem C72_rotation : forall c b X m theta,
  bounds_of (fam c) = Some b -> itau c = true -> fit c X = Ok m -> params_ m = [Some theta] ->
  exists L, likelihood m X L /\ forall r L', likelihood (turned (fam c) theta r) X L' -> L' <= L.
Proof.
  intros c b X m theta B I H P. destruct (fit_turned c b X m B H) as [Y [N [F A]]]. unfold fit_archimedean in A. rewrite I in A.
  injection A as <-. cbn [params_] in P. injection P as P. rewrite P. clear H.
  destruct (nll_spec (fam c) b X Y theta R0 B F) as [L0 [K0 E0]]. destruct (nll_spec (fam c) b X Y theta R90 B F) as [L1 [K1 E1]].
  destruct (nll_spec (fam c) b X Y theta R180 B F) as [L2 [K2 E2]]. destruct (nll_spec (fam c) b X Y theta R270 B F) as [L3 [K3 E3]].
  unfold CopulaFitModel.select_rotation_itau. cbn [map rotations]. unfold num in *. rewrite E0, E1, E2, E3.
  pose proof (least_spec [(R90, - L1); (R180, - L2); (R270, - L3)] R0 (- L0)) as [k [[v [Hv Fv]] Ek]]. cbn [map fst snd] in Hv, Fv, Ek.
  set (best := least _ _) in *. clearbody best.
  pose proof (Fv 0%nat _ eq_refl) as [B0 _]. pose proof (Fv 1%nat _ eq_refl) as [B1 _].
  pose proof (Fv 2%nat _ eq_refl) as [B2 _]. pose proof (Fv 3%nat _ eq_refl) as [B3 _].
  assert (M : exists L, likelihood (turned (fam c) theta best) X L /\ v = - L).
  { destruct k as [|[|[|[|k]]]]; cbn in Hv, Ek; [| | | |destruct k; discriminate];
    injection Hv as <-; injection Ek as <-; eauto. }
  destruct M as [L [ML ->]]. exists L. split; [exact ML|]. intros r L' HL'.
  assert (G : L' = L0 \/ L' = L1 \/ L' = L2 \/ L' = L3).
  { destruct r; [left|right; left|right; right; left|right; right; right]; eapply likelihood_unique; eassumption. }
  lra.
Qed.

(** Without inversion, if the minimiser is right whenever it reports success, the parameter and the rotation maximise the likelihood
    over the bounds and over the rotations for which it succeeds. *)
Definition minimises (f : R -> num) (b : R * R) (v x : R) : Prop :=
  fst b <= x <= snd b /\ f x = Some v /\ forall y w, fst b <= y <= snd b -> f y = Some w -> v <= w.
Definition sound : Prop := forall f b v x, minimize_scalar f b = Some (v, x) -> exists w, v = Some w /\ minimises f b w x.
(** The negative log-likelihood as a function of the parameter. *)
Definition objective_of (f : family) (r : rotation) (X : list (R * R)) (g : R -> num) : Prop :=
  forall theta, exists L, likelihood (turned f theta r) X L /\ g theta = Some (- L).
Definition succeeds (f : family) (r : rotation) (X : list (R * R)) (b : R * R) : Prop :=
  forall g, objective_of f r X g -> minimize_scalar g b <> None.

Theorem C72_maximum_likelihood : sound ->
  forall c b X m, bounds_of (fam c) = Some b -> itau c = false -> fit c X = Ok m ->
  exists theta L, m = turned (fam c) theta (rotation_ m) /\ fst b <= theta <= snd b /\ likelihood m X L /\
  forall theta' r L', succeeds (fam c) r X b -> fst b <= theta' <= snd b -> likelihood (turned (fam c) theta' r) X L' -> L' <= L.
Proof.
  intros O c b X m B I H. destruct (fit_turned c b X m B H) as [Y [N [F A]]]. unfold fit_archimedean in A. rewrite I in A. clear H.
  set (g := fun r theta => neg_log_likelihood (fam c) [Some theta] (map (rotate r) Y)) in *.
  assert (G : forall r, objective_of (fam c) r X (g r)) by (intros r theta; apply (nll_spec (fam c) b X Y theta r B F)).
  set (entry := fun r => match minimize_scalar (g r) b with Some (v, theta) => [((theta, r), v)] | None => [] end).
  assert (T : exists l : list ((R * rotation) * R), mle_results gaussian_score student_score minimize_scalar (fam c) Y b = map (fun p => (fst p, Some (snd p))) l /\
    (forall p, In p l -> fst b <= fst (fst p) <= snd b /\ likelihood (turned (fam c) (fst (fst p)) (snd (fst p))) X (- snd p)) /\
    forall theta' r L', succeeds (fam c) r X b -> fst b <= theta' <= snd b -> likelihood (turned (fam c) theta' r) X L' ->
      exists p, In p l /\ snd p <= - L').
  { assert (One : forall r, exists l : list ((R * rotation) * R), entry r = map (fun p => (fst p, Some (snd p))) l /\
      (forall p, In p l -> fst b <= fst (fst p) <= snd b /\ likelihood (turned (fam c) (fst (fst p)) (snd (fst p))) X (- snd p)) /\
      forall theta' L', succeeds (fam c) r X b -> fst b <= theta' <= snd b -> likelihood (turned (fam c) theta' r) X L' ->
      exists p, In p l /\ snd p <= - L').
    { intros r. unfold entry. destruct (minimize_scalar (g r) b) as [[v x]|] eqn:E.
      - destruct (O _ _ _ _ E) as [w [-> [Rg [Ew Mn]]]]. destruct (G r x) as [L [HL EL]]. rewrite EL in Ew. injection Ew as <-.
        exists [((x, r), - L)]. split; [reflexivity|]. split.
        + intros p [<-|[]]. cbn [fst snd]. split; [exact Rg|]. rewrite Ropp_involutive. exact HL.
        + intros t' L' _ Ht HL'. exists ((x, r), - L). split; [now left|]. cbn [snd]. destruct (G r t') as [L2 [H2 E2]].
          rewrite (likelihood_unique _ _ _ _ HL' H2). exact (Mn t' (- L2) Ht E2).
      - exists []. split; [reflexivity|]. split; [intros p []|]. intros t' L' S. destruct (S (g r) (G r) E). }
    assert (All : forall rs, exists l : list ((R * rotation) * R), flat_map entry rs = map (fun p => (fst p, Some (snd p))) l /\
      (forall p, In p l -> fst b <= fst (fst p) <= snd b /\ likelihood (turned (fam c) (fst (fst p)) (snd (fst p))) X (- snd p)) /\
      forall theta' r L', In r rs -> succeeds (fam c) r X b -> fst b <= theta' <= snd b -> likelihood (turned (fam c) theta' r) X L' ->
      exists p, In p l /\ snd p <= - L').
    { induction rs as [|r rs [l [E [P Q]]]].
      - exists []. split; [reflexivity|]. split; [intros p []|]. intros t' r L' [].
      - destruct (One r) as [l1 [E1 [P1 Q1]]]. exists (l1 ++ l). split; [cbn [flat_map]; rewrite E1, E; now rewrite map_app|]. split.
        + intros p Hp. apply in_app_or in Hp. destruct Hp; auto.
        + intros t' r' L' [<-|Hr] S Ht HL'.
          * destruct (Q1 t' L' S Ht HL') as [p [Hp Lp]]. exists p. split; [apply in_or_app; now left|exact Lp].
          * destruct (Q t' r' L' Hr S Ht HL') as [p [Hp Lp]]. exists p. split; [apply in_or_app; now right|exact Lp]. }
    destruct (All rotations) as [l [E [P Q]]]. exists l. split; [exact E|]. split; [exact P|]. intros t' r L'. apply Q. destruct r; cbn; tauto. }
  destruct T as [l [E [P Q]]]. unfold select_theta_and_rotation_mle in A. rewrite E in A. destruct l as [|[a v] l]; [discriminate|].
  cbn [map fst snd bind] in A. destruct (least_spec l a v) as [k [[w [Hw Fw]] Ek]]. set (best := least _ _) in *. clearbody best.
  injection A as <-.
  assert (Hin : In (best, w) ((a, v) :: l)).
  { change (v :: map snd l) with (map snd ((a, v) :: l)) in Hw. change (a :: map fst l) with (map fst ((a, v) :: l)) in Ek.
    rewrite nth_error_map in Hw, Ek. destruct (nth_error ((a, v) :: l) k) as [p|] eqn:Ep; [|discriminate].
    apply nth_error_In in Ep. cbn in Hw, Ek. injection Hw as <-. injection Ek as <-. now rewrite <- surjective_pairing. }
  destruct (P _ Hin) as [Gb ML]. cbn [fst snd] in Gb, ML. exists (fst best), (- w). split; [reflexivity|]. split; [exact Gb|]. split; [exact ML|].
  intros t' r L' S Ht HL'. destruct (Q t' r L' S Ht HL') as [p [Hp Lp]].
  assert (w <= snd p); [|lra]. change (v :: map snd l) with (map snd ((a, v) :: l)) in Fw.
  apply In_nth_error in Hp. destruct Hp as [j Hj]. apply (Fw j). rewrite nth_error_map, Hj. reflexivity.
Qed.
(** ... and if it fails for every rotation, fit raises. *)
Theorem C72_failure : (forall f b, minimize_scalar f b = None) ->
  forall c X, X <> [] -> Forall in_square X -> itau c = false -> bounds_of (fam c) <> None \/ fam c = Gaussian -> fit c X = RuntimeError.
Proof.
  intros O c X N Q I B. destruct (rows_some X Q) as [Y [E F]]. unfold CopulaFitModel.fit. rewrite (proj2 (X_ok X Y)) by auto. cbn [bind].
  unfold fit_archimedean. rewrite I. unfold select_theta_and_rotation_mle, mle_results. cbn [flat_map rotations]. rewrite !O. cbn.
  destruct (fam c); try reflexivity; exfalso; destruct B as [B|B]; cbn in B; congruence.
Qed.

(** The estimated parameters stay in the bounds of their family, whatever tau. *)
Theorem C72_bounds : forall c b X m theta, bounds_of (fam c) = Some b -> itau c = true ->
  (fam c = Joe -> forall f x y, x <= y -> x <= brentq f x y <= y) ->
  fit c X = Ok m -> params_ m = [Some theta] -> fst b <= theta <= snd b.
Proof.
  intros c b X m theta B I J H P. destruct (fit_turned c b X m B H) as [Y [N [F A]]]. unfold fit_archimedean in A. rewrite I in A.
  injection A as <-. cbn [params_] in P. injection P as P. clear H.
  assert (K : forall lo hi x, lo <= hi -> lo <= clip lo hi x <= hi).
  { intros lo hi x L. unfold clip. split; [apply Rmin_glb; [exact L|apply Rmax_l]|apply Rmin_l]. }
  destruct (fam c) eqn:Ef; try discriminate B; cbn in B; injection B as <-; cbn [fst snd].
  - unfold clayton_theta_of, nclip in P. destruct (abs_tau _); cbn in P; [|discriminate]. injection P as <-. apply K. lra.
  - unfold gumbel_theta_of, nclip in P. destruct (abs_tau _); cbn in P; [|discriminate]. injection P as <-. apply K. lra.
  - unfold joe_theta_of in P. destruct (option_map Rabs _); [|discriminate].
    destruct (Rlt_dec 0 _); [destruct (Rlt_dec _ _); injection P as <-; cbn; lra|]. injection P as <-. apply J; cbn; auto; lra.
Qed.
Theorem C72_correlation : forall tau rho, rho_of (Some tau) = Some rho ->
  -999/1000 <= rho <= 999/1000 /\ (-999/1000 <= sin (PI * tau / 2) <= 999/1000 -> rho = sin (PI * tau / 2)).
Proof.
  intros tau rho H. cbn in H. injection H as <-. split.
  - unfold clip. split; [apply Rmin_glb; [lra|apply Rmax_l]|apply Rmin_l].
  - apply clip_same.
Qed.
(** The elliptical copulas are not rotated.  The Gaussian one fitted without inversion, and the Student t, maximise the likelihood over
    their bounds if the minimisers are right whenever they report success; with inversion, only the degrees of freedom are searched. *)
Definition sound_pair : Prop := forall f start b b' x y, minimize f start b b' = Some (x, y) ->
  fst b <= x <= snd b /\ fst b' <= y <= snd b' /\
  exists v, f x y = Some v /\ forall x' y' w, fst b <= x' <= snd b -> fst b' <= y' <= snd b' -> f x' y' = Some w -> v <= w.
Definition gaussian_copula (rho : R) : fitted := {| fam_ := Gaussian; params_ := [Some rho]; rotation_ := R0 |}.
Definition student_copula (dof rho : R) : fitted := {| fam_ := StudentT; params_ := [Some dof; Some rho]; rotation_ := R0 |}.
Lemma nll_straight m X Y v : rotation_ m = R0 -> Forall2 (fun p q => validate p = Some q) X Y ->
  (neg_log_likelihood (fam_ m) (params_ m) Y = Some v <-> likelihood m X (- v)).
Proof.
  intros R F. rewrite <- (sum_density m X Y F (- v)). rewrite R. unfold CopulaFitModel.neg_log_likelihood.
  replace (map (rotate R0) Y) with Y by (rewrite <- (map_id Y) at 1; apply map_ext; intros [a b]; reflexivity).
  destruct (nsum _) as [s|]; cbn [option_map]; [|split; discriminate]. split; intros H; injection H as H; f_equal; lra.
Qed.
Theorem C72_gaussian : forall c X m, fam c = Gaussian -> fit c X = Ok m ->
  (itau c = true -> forall Y tau, Forall2 (fun p q => validate p = Some q) X Y -> kendall_tau c = None -> kendalltau Y = Some tau ->
     m = gaussian_copula (clip (-999/1000) (999/1000) (sin (PI * tau / 2)))) /\
  (itau c = false -> sound -> exists rho L, m = gaussian_copula rho /\ -999/1000 <= rho <= 999/1000 /\ likelihood m X L /\
     forall rho' L', -999/1000 <= rho' <= 999/1000 -> likelihood (gaussian_copula rho') X L' -> L' <= L).
Proof.
  intros c X m G H. unfold CopulaFitModel.fit in H. destruct (validate_X X) as [Y| | |] eqn:V; try discriminate. apply X_ok in V. destruct V as [N V].
  apply rows_square in V. destruct V as [_ F]. cbn [bind] in H. rewrite G in H. split.
  - intros I Y' tau F' K T. rewrite I in H. assert (Y' = Y).
    { clear -F F'. revert Y' F'. induction F as [|p q X Y Hq F IH]; intros Y' F'; inversion F'; subst; [reflexivity|]. f_equal; [congruence|now apply IH]. }
    subst Y'. injection H as <-. unfold tau_used. rewrite K, T. reflexivity.
  - intros I O. rewrite I in H. destruct (minimize_scalar _ _) as [[v rho]|] eqn:E; [|discriminate]. injection H as <-. destruct (O _ _ _ _ E) as (w & -> & B & Fw & M).
    cbn [fst snd rho_bounds] in *. exists rho, (- w). split; [reflexivity|]. split; [exact B|].
    split; [now apply (nll_straight (gaussian_copula rho) X Y w eq_refl F)|]. intros rho' L' B' HL.
    pose proof (M rho' (- L') B') as M'. enough (w <= - L') by lra. apply M'. apply (nll_straight (gaussian_copula rho') X Y (- L') eq_refl F). now rewrite Ropp_involutive.
Qed.
Theorem C72_student : forall c X m, fam c = StudentT -> fit c X = Ok m ->
  (itau c = true -> sound -> exists dof rho L, m = student_copula dof rho /\ 2 <= dof <= 50 /\ likelihood m X L /\
     (forall Y tau, Forall2 (fun p q => validate p = Some q) X Y -> kendall_tau c = None -> kendalltau Y = Some tau -> rho = clip (-999/1000) (999/1000) (sin (PI * tau / 2))) /\
     forall dof' L', 2 <= dof' <= 50 -> likelihood (student_copula dof' rho) X L' -> L' <= L) /\
  (itau c = false -> sound_pair -> exists dof rho L, m = student_copula dof rho /\ 2 <= dof <= 50 /\ -999/1000 <= rho <= 999/1000 /\ likelihood m X L /\
     forall dof' rho' L', 2 <= dof' <= 50 -> -999/1000 <= rho' <= 999/1000 -> likelihood (student_copula dof' rho') X L' -> L' <= L).
Proof.
  intros c X m G H. unfold CopulaFitModel.fit in H. destruct (validate_X X) as [Y| | |] eqn:V; try discriminate. apply X_ok in V. destruct V as [N V].
  apply rows_square in V. destruct V as [_ F]. cbn [bind] in H. rewrite G in H. split.
  - intros I O. rewrite I in H. destruct (rho_of (tau_used c Y)) as [rho|] eqn:Er; [|discriminate]. destruct (minimize_scalar _ _) as [[v dof]|] eqn:E; [|discriminate].
    injection H as <-. destruct (O _ _ _ _ E) as (w & -> & B & Fw & M). cbn [fst snd dof_bounds] in *. exists dof, rho, (- w). split; [reflexivity|]. split; [exact B|].
    split; [now apply (nll_straight (student_copula dof rho) X Y w eq_refl F)|]. split.
    + intros Y' tau F' K T. assert (Y' = Y).
      { clear -F F'. revert Y' F'. induction F as [|p q X Y Hq F IH]; intros Y' F'; inversion F'; subst; [reflexivity|]. f_equal; [congruence|now apply IH]. }
      subst Y'. unfold tau_used in Er. rewrite K, T in Er. injection Er as <-. reflexivity.
    + intros dof' L' B' HL. enough (w <= - L') by lra. apply (M dof' (- L') B'). apply (nll_straight (student_copula dof' rho) X Y (- L') eq_refl F). now rewrite Ropp_involutive.
  - intros I O. rewrite I in H. destruct (minimize _ _ _ _) as [[dof rho]|] eqn:E; [|discriminate]. injection H as <-. destruct (O _ _ _ _ _ _ E) as (B & B' & w & Fw & M).
    cbn [fst snd dof_bounds rho_bounds] in *. exists dof, rho, (- w). split; [reflexivity|]. split; [exact B|]. split; [exact B'|].
    split; [now apply (nll_straight (student_copula dof rho) X Y w eq_refl F)|]. intros dof' rho' L' D1 D2 HL.
    enough (w <= - L') by lra. apply (M dof' rho' (- L') D1 D2). apply (nll_straight (student_copula dof' rho') X Y (- L') eq_refl F). now rewrite Ropp_involutive.
Qed.
(** Without candidates, the Gaussian, Student t, Clayton, Gumbel and Joe copulas are compared, each fitted by inversion. *)
Theorem C72_default : forall X cr level, select X None cr level =
  select X (Some (map (fun f => Copula {| fam := f; itau := true; kendall_tau := None |}) [Gaussian; StudentT; Clayton; Gumbel; Joe])) cr level.
Proof. reflexivity. Qed.
End Fit.

(** * Findings *)
Lemma sgn_pos x : 0 < x -> sgn x = 1. Proof. intros H. unfold sgn. destruct (Rlt_dec 0 x); [reflexivity|lra]. Qed.
Lemma sgn_neg x : x < 0 -> sgn x = -1.
Proof. intros H. unfold sgn. destruct (Rlt_dec 0 x); [lra|]. destruct (Rlt_dec x 0); [reflexivity|lra]. Qed.
Lemma sgn_0 x : x = 0 -> sgn x = 0.
Proof. intros ->. unfold sgn. destruct (Rlt_dec 0 0); [lra|]. destruct (Rlt_dec 0 0); [lra|reflexivity]. Qed.
Ltac decide_sgn := repeat (first
  [ rewrite sgn_pos by lra | rewrite sgn_neg by lra | rewrite sgn_0 by lra ]);
  repeat match goal with |- context [if Req_EM_T ?a ?b then 0 else 1] => destruct (Req_EM_T a b); try (exfalso; lra) end;
  repeat match goal with |- context [Req_EM_T ?a ?b] => destruct (Req_EM_T a b); try (exfalso; lra) end.

Section Findings.
Variable p_value : list (R * R) -> num.
Variable gaussian_score : R -> R * R -> num.
Variable student_score : R -> R -> R * R -> num.
Variable minimize_scalar : (R -> num) -> R * R -> option (num * R).
Variable minimize : (R -> R -> num) -> num -> R * R -> R * R -> option (R * R).
Variable brentq : (R -> R) -> R -> R -> R.
Variable digamma : R -> R.
Variable euler_gamma : R.
Notation fit := (fit gaussian_score student_score minimize_scalar minimize brentq digamma euler_gamma).
Notation select := (select_bivariate_copula p_value gaussian_score student_score minimize_scalar minimize brentq digamma euler_gamma).

(** IndependentCopula is a copula, but as a candidate it raises AttributeError. *)
Theorem C72_independent_candidate_refuted : forall X cr level, dependent p_value X level ->
  select X (Some [Copula {| fam := Independent; itau := true; kendall_tau := None |}]) cr level = AttributeError.
Proof. intros X cr level D. rewrite (select_dependent p_value) by exact D. reflexivity. Qed.

(** Distinct values closer to the border than 1e-9 are tied by the validation, so a candidate selected with the statistic of the raw
    data is not the candidate fitted alone. *)
Definition border : list (R * R) := [(0, 1/4); (epsilon / 2, 1/2); (1/2, 3/4)].
Definition clayton_candidate : copula := {| fam := Clayton; itau := true; kendall_tau := None |}.
Lemma border_valid : validate_X border = Ok [(epsilon, 1/4); (epsilon, 1/2); (1/2, 3/4)].
Proof.
  apply X_ok. split; [discriminate|]. unfold border, validate_rows, validate, epsilon.
  repeat match goal with |- context [Rle_dec ?a ?b] => destruct (Rle_dec a b); [|exfalso; lra] end.
  unfold clip. repeat (first [rewrite (Rmax_left _ _) by lra | rewrite (Rmax_right _ _) by lra | rewrite (Rmin_right _ _) by lra]).
  reflexivity.
Qed.
Lemma border_raw : kendalltau border = Some 1.
Proof.
  unfold kendalltau, over_pairs, border, epsilon. cbn [pairs map app rsum fold_right fst snd]. decide_sgn.
  f_equal. replace (1 + (1 + (1 + 0))) with 3 by ring. replace (-1 * -1 + (-1 * -1 + (-1 * -1 + 0))) with 3 by ring.
  unfold Rdiv. rewrite Rmult_assoc, <- Rinv_mult by (apply Rgt_not_eq, sqrt_lt_R0; lra). rewrite sqrt_sqrt by lra. field.
Qed.
Lemma border_clipped : exists t, kendalltau [(epsilon, 1/4); (epsilon, 1/2); (1/2, 3/4)] = Some t /\ 0 <= t <= 9/10.
Proof.
  unfold kendalltau, over_pairs, epsilon. cbn [pairs map app rsum fold_right fst snd]. decide_sgn.
  replace (1 + (1 + (1 + 0))) with 3 by ring. replace (0 * -1 + (-1 * -1 + (-1 * -1 + 0))) with 2 by ring. replace (0 + (1 + (1 + 0))) with 2 by ring.
  eexists. split; [reflexivity|].
  assert (S2 : 0 < sqrt 2) by (apply sqrt_lt_R0; lra). assert (S3 : 0 < sqrt 3) by (apply sqrt_lt_R0; lra).
  assert (Q2 : sqrt 2 * sqrt 2 = 2) by (apply sqrt_sqrt; lra). assert (Q3 : sqrt 3 * sqrt 3 = 3) by (apply sqrt_sqrt; lra).
  split; [apply Rmult_le_pos; [apply Rmult_le_pos; [lra|]|]; left; now apply Rinv_0_lt_compat|].
  apply (Rmult_le_reg_r (sqrt 3)); [exact S3|]. unfold Rdiv at 1. rewrite Rmult_assoc, Rinv_l, Rmult_1_r by lra.
  replace (2 / sqrt 2) with (sqrt 2) by (rewrite <- Q2 at 2; field; lra).
  apply Rsqr_incr_0_var; [|nra]. unfold Rsqr. nra.
Qed.
Theorem C72_reuse_refuted : (forall X, p_value X = Some 0) ->
  exists m m', select border (Some [Copula clayton_candidate]) AIC (1/20) = Ok m /\ fit clayton_candidate border = Ok m' /\ params_ m <> params_ m'.
Proof.
  intros P. assert (D : dependent p_value border (1/20)) by (intros p Hp; rewrite P in Hp; injection Hp as <-; lra).
  rewrite (select_dependent p_value) by exact D.
  destruct border_clipped as [t [Et [T0 T1]]].
  unfold CopulaFitModel.evaluate, clayton_candidate. cbn [fam itau kendall_tau]. unfold CopulaFitModel.fit. rewrite border_valid. cbn [bind fam].
  unfold fit_archimedean. cbn [itau fam bind]. unfold tau_used. cbn [kendall_tau]. rewrite border_raw, Et.
  unfold CopulaFitModel.value, CopulaFitModel.score. rewrite border_valid. cbn [bind fam_ params_].
  eexists. eexists. split; [reflexivity|]. split; [reflexivity|]. cbn [least fst params_].
  unfold clayton_theta_of, abs_tau, nmin, lt. cbn [option_map]. rewrite Rabs_R1, (Rabs_right t) by lra.
  destruct (Rlt_dec (9999/10000) 1); [|lra]. destruct (Rlt_dec (9999/10000) t); [lra|]. cbn [nclip option_map clayton_bounds fst snd].
  intros H. injection H as H. unfold clip in H. rewrite (Rmax_right (1/10000)), (Rmin_left 50) in H by lra.
  assert (B : 2 * t / (1 - t) <= 18).
  { apply (Rmult_le_reg_r (1 - t)); [lra|]. unfold Rdiv. rewrite Rmult_assoc, Rinv_l by lra. lra. }
  unfold Rmin, Rmax in H. repeat destruct (Rle_dec _ _); lra.
Qed.

(** A constant column gives a NaN p-value, which does not count as independence: a copula with a NaN parameter is returned. *)
Theorem C72_constant_refuted : forall a u v, inner (a, u) -> inner (a, v) -> p_value [(a, u); (a, v)] = None ->
  exists m, select [(a, u); (a, v)] (Some [Copula clayton_candidate]) AIC (1/20) = Ok m /\ params_ m = [None].
Proof.
  intros a u v Hu Hv P.
  assert (D : dependent p_value [(a, u); (a, v)] (1/20)) by (intros p Hp; rewrite P in Hp; discriminate).
  assert (V : validate_X [(a, u); (a, v)] = Ok [(a, u); (a, v)]).
  { apply X_ok. split; [discriminate|]. apply rows_inner. apply Forall_cons; [exact Hu|]. apply Forall_cons; [exact Hv|]. apply Forall_nil. }
  assert (K : kendalltau [(a, u); (a, v)] = None).
  { unfold kendalltau, over_pairs. cbn [pairs map app rsum fold_right fst snd]. destruct (Req_EM_T a a); [|congruence].
    destruct (Req_EM_T (0 + 0) 0); [reflexivity|lra]. }
  rewrite (select_dependent p_value) by exact D. unfold CopulaFitModel.evaluate, clayton_candidate. cbn [fam itau kendall_tau].
  unfold CopulaFitModel.fit. rewrite V. cbn [bind fam]. unfold fit_archimedean. cbn [itau fam bind]. unfold tau_used. cbn [kendall_tau]. rewrite K.
  unfold CopulaFitModel.value, CopulaFitModel.score. rewrite V. cbn [bind fam_ params_].
  eexists. split; reflexivity.
Qed.
End Findings.

(** * The hypotheses are met *)
(** Whatever the SciPy routines do, Clayton and Gumbel candidates with inversion satisfy the hypotheses of C72_best. *)
Definition gumbel_candidate : copula := {| fam := Gumbel; itau := true; kendall_tau := Some (Some (-1/2)) |}.
Definition sample3 : list (R * R) := [(1/4, 1/3); (1/2, 2/3); (3/4, 1/2)].
Lemma sample3_inner : Forall inner sample3.
Proof. repeat apply Forall_cons; try apply Forall_nil; unfold inner, epsilon; cbn; lra. Qed.
Lemma sample3_tau : kendalltau sample3 = Some (1/3).
Proof.
  unfold kendalltau, over_pairs, sample3. cbn [pairs map app rsum fold_right fst snd]. decide_sgn.
  f_equal. replace (1 + (1 + (1 + 0))) with 3 by ring. replace (-1 * -1 + (-1 * -1 + (-1 * 1 + 0))) with 1 by ring.
  unfold Rdiv. rewrite Rmult_assoc, <- Rinv_mult by (apply Rgt_not_eq, sqrt_lt_R0; lra). rewrite sqrt_sqrt by lra. reflexivity.
Qed.
Example C72_best_applies : forall p_value gaussian_score student_score minimize_scalar minimize brentq digamma euler_gamma,
  (forall X, p_value X = Some (1/100)) ->
  exists mvs, Forall2 (fun cand mv => fits gaussian_score student_score minimize_scalar minimize brentq digamma euler_gamma sample3 AIC cand (fst mv) (snd mv))
    [Copula clayton_candidate; Copula gumbel_candidate] mvs /\
  dependent p_value sample3 (1/20) /\ Forall inner sample3 /\
  map (fun mv => params_ (fst mv)) mvs = [[Some 1]; [Some 2]].
Proof.
  intros pv gs ss ms mi br di eg P.
  assert (N : sample3 <> []) by discriminate. pose proof (inner_square _ sample3_inner) as Q.
  assert (V : validate_X sample3 = Ok sample3) by (apply X_ok; split; [exact N|apply rows_inner, sample3_inner]).
  assert (C1 : clayton_theta_of (Some (1/3)) = Some 1).
  { unfold clayton_theta_of, abs_tau, nmin, lt. cbn [option_map]. rewrite Rabs_right by lra. destruct (Rlt_dec (9999/10000) (1/3)); [lra|].
    cbn [nclip option_map clayton_bounds fst snd]. f_equal. replace (2 * (1/3) / (1 - 1/3)) with 1 by field. apply clip_same; lra. }
  assert (C2 : gumbel_theta_of (Some (-1/2)) = Some 2).
  { unfold gumbel_theta_of, abs_tau, nmin, lt. cbn [option_map]. rewrite Rabs_left by lra. destruct (Rlt_dec (9999/10000) (- (-1/2))); [lra|].
    cbn [nclip option_map gumbel_bounds fst snd]. f_equal. replace (1 / (1 - - (-1/2))) with 2 by field. apply clip_same; lra. }
  assert (F1 : exists m, fit gs ss ms mi br di eg clayton_candidate sample3 = Ok m /\ params_ m = [Some 1] /\ fam_ m = Clayton).
  { unfold fit, clayton_candidate. rewrite V. cbn [bind fam]. unfold fit_archimedean. cbn [itau fam]. unfold tau_used. cbn [kendall_tau]. rewrite sample3_tau, C1.
    eexists. split; [reflexivity|]. split; reflexivity. }
  assert (F2 : exists m, fit gs ss ms mi br di eg gumbel_candidate sample3 = Ok m /\ params_ m = [Some 2] /\ fam_ m = Gumbel).
  { unfold fit, gumbel_candidate. rewrite V. cbn [bind fam]. unfold fit_archimedean. cbn [itau fam]. unfold tau_used. cbn [kendall_tau]. rewrite C2.
    eexists. split; [reflexivity|]. split; reflexivity. }
  destruct F1 as [m1 [F1 [P1 A1]]]. destruct F2 as [m2 [F2 [P2 A2]]].
  assert (E : forall m f b theta, fam_ m = f -> params_ m = [Some theta] -> bounds_of f = Some b -> exists v, criterion_is gs ss AIC m sample3 v).
  { intros m f b theta Em Ep Eb. destruct (rows_some sample3 Q) as [Y [_ FY]].
    destruct (nll_spec gs ss f b sample3 Y theta (rotation_ m) Eb FY) as [L [HL _]]. eexists. exists L. split; [|reflexivity].
    destruct m as [f' p' r']. cbn in Em, Ep. subst f' p'. exact HL. }
  destruct (E m1 _ _ _ A1 P1 eq_refl) as [v1 V1]. destruct (E m2 _ _ _ A2 P2 eq_refl) as [v2 V2].
  exists [(m1, v1); (m2, v2)]. split; [|split; [|split; [exact sample3_inner|cbn; now rewrite P1, P2]]].
  - constructor; [|constructor; [|constructor]]; cbn [fst snd].
    + exists clayton_candidate. split; [reflexivity|]. split; [discriminate|]. split; assumption.
    + exists gumbel_candidate. split; [reflexivity|]. split; [discriminate|]. split; assumption.
  - intros p Hp. rewrite P in Hp. injection Hp as <-. lra.
Qed.
(** A minimiser that is sound, and succeeds on every function with exactly one minimum point, exists: C72_maximum_likelihood is not vacuous. *)
Definition decide (P : Prop) : {P} + {~ P} :=
  match ClassicalDedekindReals.sig_not_dec P with left nn => left (NNPP P nn) | right n => right n end.
Definition pick (S : R -> Prop) : option R :=
  match decide (bound S), decide (exists x, S x) with
  | left B, left E => let x := proj1_sig (completeness S B E) in if decide (S x) then Some x else None
  | _, _ => None
  end.
Definition ideal_minimiser (f : R -> num) (b : R * R) : option (num * R) :=
  option_map (fun x => (f x, x)) (pick (fun x => exists v, minimises f b v x)).
Example C72_ideal_minimiser : sound ideal_minimiser /\
  forall f b v x, minimises f b v x -> (forall w y, minimises f b w y -> y = x) -> ideal_minimiser f b = Some (Some v, x).
Proof.
  split.
  - intros f b v x H. unfold ideal_minimiser, pick in H. destruct (decide (bound _)) as [B|]; [|discriminate].
    destruct (decide (exists x, exists v, minimises f b v x)) as [E|]; [|discriminate]. cbv zeta in H.
    destruct (decide (exists v, minimises f b v _)) as [[w M]|]; [|discriminate]. cbn [option_map] in H. injection H as <- <-.
    exists w. split; [apply M|exact M].
  - intros f b v x M U. unfold ideal_minimiser, pick.
    assert (B : bound (fun x => exists v, minimises f b v x)) by (exists (snd b); intros y [w [[_ L] _]]; exact L).
    destruct (decide (bound _)) as [B'|N]; [|destruct (N B)].
    destruct (decide (exists x, exists v, minimises f b v x)) as [E|N]; [|destruct N; eauto]. cbv zeta.
    destruct (completeness _ B' E) as [z [Ub Lb]]. cbn [proj1_sig].
    assert (z = x) as ->.
    { apply Rle_antisym; [apply Lb; intros y [w My]; rewrite (U w y My); lra|apply Ub; eauto]. }
    destruct (decide _) as [_|N]; [|destruct N; eauto]. cbn [option_map]. destruct M as [_ [-> _]]. reflexivity.
Qed.

(** A sound minimiser in two variables: it checks its guess, and on a likelihood that peaks there the fit succeeds. *)
Definition is_minimum (f : R -> R -> num) (b b' : R * R) (x y : R) : Prop :=
  fst b <= x <= snd b /\ fst b' <= y <= snd b' /\
  exists v, f x y = Some v /\ forall x' y' w, fst b <= x' <= snd b -> fst b' <= y' <= snd b' -> f x' y' = Some w -> v <= w.
Definition guess (f : R -> R -> num) (_ : num) (b b' : R * R) : option (R * R) := if decide (is_minimum f b b' 3 0) then Some (3, 0) else None.
Example C72_student_applies : sound_pair guess /\
  exists c m, fam c = StudentT /\ itau c = false /\
    fit (fun rho _ => Some (- (rho * rho))) (fun dof rho _ => Some (- (dof - 3) * (dof - 3) - rho * rho)) ideal_minimiser guess (fun _ _ _ => 0) (fun _ => 0) 0 c sample3 = Ok m
    /\ m = student_copula 3 0.
Proof.
  split.
  - intros f start b b' x y H. unfold guess in H. destruct (decide _) as [D|]; [|discriminate]. injection H as <- <-. exact D.
  - exists {| fam := StudentT; itau := false; kendall_tau := None |}. eexists. split; [reflexivity|]. split; [reflexivity|].
    assert (V : validate_X sample3 = Ok sample3) by (apply X_ok; split; [discriminate|apply rows_inner, sample3_inner]).
    unfold CopulaFitModel.fit. rewrite V. cbn [bind fam itau]. unfold guess. destruct (decide _) as [D|N]; [split; reflexivity|]. exfalso. apply N.
    split; [cbn; lra|]. split; [cbn; lra|]. unfold sample3, CopulaFitModel.neg_log_likelihood, nsum. cbn. eexists. split; [reflexivity|]. intros x' y' w A B H. injection H as <-. clear N. pose proof (Rle_0_sqr (x' - 3)). pose proof (Rle_0_sqr y'). unfold Rsqr in *. lra.
Qed.

(** * Univariate distributions *)
Section Univariate.
Context {dist model : Type}.
Variable fit_dist : dist -> list R -> outcome model.
Variable loglik : model -> list R -> num.
Variable k : model -> R.
(** [d] is fitted as [m], whose criterion is [v]. *)
Definition fits_dist (X : list R) (cr : criterion) (d : option dist) (m : model) (v : R) : Prop :=
  exists d' L, d = Some d' /\ fit_dist d' X = Ok m /\ loglik m X = Some L /\
  v = -2 * L + k m * match cr with AIC => 2 | BIC => ln (INR (length X)) end.
Theorem C72_univariate : forall X l cr mvs, l <> [] -> Forall2 (fun d mv => fits_dist X cr d (fst mv) (snd mv)) l mvs ->
  exists i m, first_minimum (map snd mvs) i /\ nth_error (map fst mvs) i = Some m /\ select_univariate_dist fit_dist loglik k X l cr = Ok m.
Proof.
  intros X l cr mvs N F.
  assert (E : evaluate_dist fit_dist loglik k cr X l = Ok (map (fun p => (fst p, Some (snd p))) mvs)).
  { clear N. induction F as [|d [m v] l mvs [d' [L [-> [Fd [HL Ev]]]]] F IH]; [reflexivity|]. cbn [fst snd] in *. subst v. cbn [evaluate_dist map fst snd].
    rewrite Fd. cbn [bind]. rewrite IH. cbn [bind]. f_equal. f_equal. f_equal. unfold dist_value. rewrite HL. destruct cr; cbn; f_equal; ring. }
  unfold select_univariate_dist. rewrite E. cbn [bind]. destruct F as [|d [m v] l mvs H F]; [congruence|]. cbn [map fst snd].
  destruct (least_spec mvs m v) as [i [A B]]. exists i. eexists. split; [exact A|]. split; [exact B|]. reflexivity.
Qed.
Theorem C72_univariate_rejected : forall X cr before mvs after,
  Forall2 (fun d mv => fits_dist X cr d (fst mv) (snd mv)) before mvs ->
  select_univariate_dist fit_dist loglik k X (before ++ None :: after) cr = ValueError /\ select_univariate_dist fit_dist loglik k X [] cr = ValueError.
Proof.
  intros X cr before mvs after F. split; [|reflexivity]. unfold select_univariate_dist.
  assert (E : evaluate_dist fit_dist loglik k cr X (before ++ None :: after) = ValueError); [|now rewrite E].
  induction F as [|d [m v] l mvs [d' [L [-> [Fd _]]]] F IH]; [reflexivity|]. cbn [fst snd] in *. cbn [app evaluate_dist]. rewrite Fd. cbn [bind].
  now rewrite IH.
Qed.
End Univariate.
Example C72_univariate_applies : exists m, select_univariate_dist (fun (d : R) _ => Ok d) (fun m X => Some (- m)) (fun _ => 2) [1; 2] [Some 3; Some 1; Some 1] BIC = Ok m /\ m = 1.
Proof.
  eexists. split; [reflexivity|]. cbn. unfold lt. cbn.
  repeat match goal with |- context [Rlt_dec ?a ?b] => destruct (Rlt_dec a b); cbn end; try reflexivity; exfalso; lra.
Qed.

Print Assumptions C72_best.
Print Assumptions C72_independence.
Print Assumptions C72_data.
Print Assumptions C72_bad_data.
Print Assumptions C72_rejected.
Print Assumptions C72_rotation.
Print Assumptions C72_maximum_likelihood.
Print Assumptions C72_failure.
Print Assumptions C72_bounds.
Print Assumptions C72_correlation.
Print Assumptions C72_gaussian.
Print Assumptions C72_student.
Print Assumptions C72_default.
Print Assumptions C72_independent_candidate_refuted.
Print Assumptions C72_reuse_refuted.
Print Assumptions C72_constant_refuted.
Print Assumptions C72_univariate.
Print Assumptions C72_univariate_rejected.
