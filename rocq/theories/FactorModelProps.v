(** C40: the moments reported by FactorModel. *)
From mathcomp Require Import all_ssreflect all_algebra.
From Verif Require Import MatForm CovarianceModel CovarianceProps.
Set Implicit Arguments.
Unset Strict Implicit.
Unset Printing Implicit Defensive.
Import Order.TTheory GRing.Theory Num.Theory.
Local Open Scope ring_scope.

(** * Specification *)
Section Spec.
Variable F : rcfType.
Variables n f T : nat.
Variables (loading : 'M[F]_(n, f)) (intercepts : 'cV[F]_n).
(** What the factors explain of asset i when the factors return y. *)
Definition explained (y : 'I_f -> F) (i : 'I_n) : F := (\sum_k loading i k * y k) + intercepts i 0.
Definition systematic_cov (fc : 'M[F]_f) (i j : 'I_n) : F := \sum_k \sum_l loading i k * fc k l * loading j l.
Definition residual (X : 'M[F]_(T, n)) (y : 'M[F]_(T, f)) (t : 'I_T) (i : 'I_n) : F := X t i - explained (fun k => y t k) i.
(** The unbiased sample variance of the residuals of asset i. *)
Definition residual_var (X : 'M[F]_(T, n)) (y : 'M[F]_(T, f)) (i : 'I_n) : F :=
  let mean := (\sum_t residual X y t i) / T%:R in (\sum_t (residual X y t i - mean) ^+ 2) / (T - 1)%:R.
Definition model_cov (rv : bool) (fc : 'M[F]_f) X y : 'M[F]_n :=
  \matrix_(i, j) (systematic_cov fc i j + (if rv && (i == j) then residual_var X y i else 0)).
End Spec.

Section Main.
Variable F : rcfType.
Variables n f T : nat.
Variable cholesky : 'M[F]_f -> option 'M[F]_f.
Variable eigh : 'M[F]_n -> 'rV[F]_n * 'M[F]_n.
Variable is_pd : 'M[F]_n -> bool.
Variables (loading : 'M[F]_(n, f)) (intercepts : 'cV[F]_n) (fmu : 'cV[F]_f) (fc K : 'M[F]_f) (fr y : 'M[F]_(T, f)) (X : 'M[F]_(T, n)).
Variables (eps eps' : F) (higham : bool) (it : nat) (rv : bool).
Notation nearest := (cov_nearest eigh is_pd eps eps' higham it).
Notation fit := (factor_model cholesky nearest rv loading intercepts fmu fc fr X y).
Notation S := (model_cov loading intercepts rv fc X y).

Lemma predicted_explained (z : 'M[F]_(T, f)) t i : predicted loading intercepts z t i = explained loading intercepts (fun k => z t k) i.
Proof. rewrite !mxE /explained; congr (_ + _); apply: eq_bigr => k _; by rewrite mxE mulrC. Qed.
Lemma column_var_residual i : column_var (X - predicted loading intercepts y) i = residual_var loading intercepts X y i.
Proof.
have E t : (X - predicted loading intercepts y) t i = residual loading intercepts X y t i.
  by rewrite /residual -predicted_explained mxE; congr (_ + _); rewrite mxE.
rewrite /column_var /residual_var /column_mean; congr (_ / _); apply: eq_bigr => t _; rewrite E; congr ((_ - _ / _) ^+ 2).
by apply: eq_bigr => s _; rewrite E.
Qed.
Lemma systematic_eq i j : (loading *m fc *m loading^T) i j = systematic_cov loading fc i j.
Proof.
rewrite mxE /systematic_cov exchange_big /=; apply: eq_bigr => l _; rewrite mxE mulr_suml; apply: eq_bigr => k _; by rewrite mxE.
Qed.
Lemma fitted_cov_eq :
  (if rv then loading *m fc *m loading^T + \matrix_(i, j) (if i == j then column_var (X - predicted loading intercepts y) i else 0)
   else loading *m fc *m loading^T) = S.
Proof.
apply/matrixP=> i j; rewrite [RHS]mxE -systematic_eq; case: rv => /=; last by rewrite addr0.
rewrite mxE; congr (_ + _); rewrite mxE; by case: eqP => // _; rewrite column_var_residual.
Qed.
Lemma model_sym : symmetric fc -> symmetric S.
Proof.
move=> H; have Hs : symmetric (loading *m fc *m loading^T) by apply: tr_sym; rewrite !trmx_mul trmxK sym_tr // mulmxA.
move=> i j; rewrite !mxE -!systematic_eq Hs; congr (_ + _); rewrite [j == i]eq_sym; case: rv => //=; by case: eqP => [->|].
Qed.
Lemma residual_ge0 i : 0 <= residual_var loading intercepts X y i.
Proof. by rewrite /residual_var mulr_ge0 ?invr_ge0 ?ler0n //; apply: sumr_ge0 => t _; apply: sqr_ge0. Qed.
Lemma model_form x : form S x = form fc (loading^T *m x) + (if rv then \sum_i residual_var loading intercepts X y i * x i 0 ^+ 2 else 0).
Proof.
rewrite -fitted_cov_eq; case: rv; last by rewrite form_congr addr0.
by rewrite form_add form_congr diag_form; congr (_ + _); apply: eq_bigr => i _; rewrite column_var_residual.
Qed.
Lemma model_nonneg : nonnegative fc -> nonnegative S.
Proof.
move=> H x; rewrite model_form addr_ge0 //; case: rv => //; apply: sumr_ge0 => i _; by rewrite mulr_ge0 ?sqr_ge0 ?residual_ge0.
Qed.
Lemma model_positive : nonnegative fc -> rv -> (forall i, 0 < residual_var loading intercepts X y i) -> positive S.
Proof.
move=> H R V x Xn; rewrite model_form R; apply: ltr_paddl; first exact: H.
by have := diag_positive V Xn; rewrite diag_form.
Qed.

(** * C40 *)
(** The mean and the scenarios are what the factors explain; the covariance is the systematic covariance plus (with residual_variance)
    the residual variances; and the reported root times its transpose is that covariance - whenever that covariance is positive definite,
    in particular whenever residual_variance=True and no residual variance is zero. *)
Theorem C40_moments :
  symmetric fc -> positive fc -> cholesky fc = Some K -> K *m K^T = fc ->
  (is_pd S <-> positive S) ->
  (positive S \/ rv /\ (forall i, 0 < residual_var loading intercepts X y i)) ->
  exists2 r, fit = inr r &
    [/\ forall i, fm_mu r i 0 = explained loading intercepts (fun k => fmu k 0) i,
        fm_cov r = S,
        forall t i, fm_returns r t i = explained loading intercepts (fun k => fr t k) i
      & fm_cholesky r *m (fm_cholesky r)^T = fm_cov r].
Proof.
move=> Hs Hp Ek HK Ht Hc.
have PS : positive S by case: Hc => // [[R V]]; apply: model_positive => //; apply: positive_nonneg.
have Ts : is_pd S by apply/Ht.
have En : nearest S = inr S by rewrite /cov_nearest sym_test ?Ts //; exact: model_sym.
rewrite /factor_model Ek fitted_cov_eq En; eexists; first by reflexivity.
split=> //=.
- move=> i; rewrite !mxE /explained; congr (_ + _).
- by move=> t i; rewrite predicted_explained.
- rewrite -fitted_cov_eq; case: rv.
  + rewrite tr_row_mx mul_row_col trmx_mul -!mulmxA [K *m (K^T *m _)]mulmxA HK mulmxA; congr (_ + _).
    apply/matrixP=> i j; rewrite [RHS]mxE mxE (bigD1 i) //= big1 ?addr0.
      rewrite !mxE eqxx; case: eqP => [->|/eqP N]; last by rewrite eq_sym (negbTE N) sqrtr0 mulr0.
      by rewrite eqxx -expr2 sqr_sqrtr // column_var_residual residual_ge0.
    by move=> k N; rewrite !mxE eq_sym (negbTE N) sqrtr0 mul0r.
  + by rewrite trmx_mul -!mulmxA [K *m (K^T *m _)]mulmxA HK mulmxA.
Qed.

(** In every case the reported covariance is positive definite and has the model's variances, provided no asset has zero variance under the model. *)
Theorem C40_always_positive_definite r :
  symmetric fc -> 0 < eps -> (forall i, 0 < S i i) ->
  (forall M, symmetric M -> (is_pd M <-> positive M)) -> (forall M, symmetric M -> (forall i, M i i = 1) -> eigenbasis M (eigh M)) ->
  fit = inr r -> [/\ symmetric (fm_cov r), positive (fm_cov r) & forall i, fm_cov r i i = S i i].
Proof.
move=> Hs e0 V Ht He; rewrite /factor_model; case: (cholesky fc) => [c|//]; rewrite fitted_cov_eq.
have SS := model_sym Hs.
case E: nearest => [//|C] [<-] /=.
case: higham E => E.
- by have := @C42_nearest_higham F n eigh is_pd S eps eps' it SS V Ht; rewrite E => [[]].
- have [|S' E' [A B D _]] := @C42_nearest_clip F n eigh is_pd S eps eps' it SS V e0 (Ht _ SS).
    move=> C1 HC1; apply: He => [i j|i]; first by rewrite !HC1 SS [X in _ / X]mulrC.
    by rewrite HC1 sqrt_sq // divff // gt_eqF.
  by move: E; rewrite E' => [[<-]].
Qed.

(** If the factor means are the averages of the factor scenarios, the asset means are the averages of the asset scenarios. *)
Theorem C40_mean_of_scenarios r : (0 < T)%N ->
  fit = inr r -> (forall k, fmu k 0 = (\sum_t fr t k) / T%:R) -> forall i, fm_mu r i 0 = (\sum_t fm_returns r t i) / T%:R.
Proof.
move=> T0; rewrite /factor_model; case: (cholesky fc) => [c|//]; case: nearest => [//|C] [<-] /= H i.
have -> : \sum_t predicted loading intercepts fr t i = (\sum_k loading i k * (\sum_t fr t k)) + T%:R * intercepts i 0.
  rewrite (eq_bigr (fun t => (\sum_k loading i k * fr t k) + intercepts i 0)); last by move=> t _; rewrite predicted_explained.
  rewrite big_split /= sumr_const card_ord mulr_natl; congr (_ + _); rewrite exchange_big; apply: eq_bigr => k _; by rewrite mulr_sumr.
rewrite mulrDl [T%:R * _]mulrC mulfK ?pnatr_eq0 -?lt0n // mxE; congr (_ + _); rewrite mxE mulr_suml; apply: eq_bigr => k _.
by rewrite H mulrA.
Qed.
End Main.

(** Refuted without residual variances: two assets on one factor give a root that does not reproduce the reported covariance. *)
Theorem C40_cholesky_refuted : forall F : rcfType, exists cholesky eigh (is_pd : 'M[F]_2 -> bool) loading fmu (fc : 'M[F]_1) (fr y : 'M[F]_(3, 1)) X r,
  [/\ positive fc /\ cholesky fc = Some fc /\ fc *m fc^T = fc, forall M, symmetric M -> (is_pd M <-> positive M),
      forall M : 'M[F]_2, symmetric M -> (forall i, M i i = 1) -> eigenbasis M (eigh M),
      factor_model cholesky (cov_nearest eigh is_pd (10%:R ^- 13) 0 false 100) false loading 0 fmu fc fr X y = inr r
    & fm_cholesky r *m (fm_cholesky r)^T <> fm_cov r].
Proof.
move=> F; exists Some, (@eigh2 F), (@is_pd2 F), (const_mx 1), 0, 1%:M, 0, 0, 0.
have E : (const_mx 1 : 'M[F]_(2, 1)) *m 1%:M *m (const_mx 1 : 'M[F]_(2, 1))^T = ones F.
  apply/matrixP=> i j; rewrite mulmx1 !mxE big_ord_recl big_ord0 !mxE mulr1 addr0 //.
have [S' ES [_ NS]] := C42_clip_met F.
rewrite /factor_model E ES; eexists; split; last 2 first.
- by reflexivity.
- by move=> /= X; apply: NS; rewrite -X mulmx1 -E mulmx1.
- split; last by rewrite trmx1 mulmx1.
  move=> x Xn; rewrite (_ : 1%:M = \matrix_(i, j) (if i == j then (fun _ => 1) i else 0)).
    exact: (diag_positive (fun i : 'I_1 => @ltr01 F) Xn).
  by apply/matrixP=> i j; rewrite !ord1 !mxE eqxx.
- exact: is_pd2_ok.
- exact: eigh2_ok.
Qed.
(** Refuted without residual variances: an asset with no loading on any factor (LassoCV produces such assets) makes the fit undefined (NaN). *)
Theorem C40_zero_loading_undefined : forall (F : rcfType) n f T cholesky eigh (is_pd : 'M[F]_n -> bool) (loading : 'M[F]_(n, f)) intercepts fmu (fc K : 'M[F]_f) (fr y : 'M[F]_(T, f)) (X : 'M[F]_(T, n)) eps eps' higham it i,
  (forall M, symmetric M -> (is_pd M <-> positive M)) -> symmetric fc -> cholesky fc = Some K -> (forall k, loading i k = 0) ->
  factor_model cholesky (cov_nearest eigh is_pd eps eps' higham it) false loading intercepts fmu fc fr X y = inl Undefined.
Proof.
move=> F n f T cholesky eigh is_pd loading intercepts fmu fc K fr y X eps eps' higham it i Ht Hs EK Z.
rewrite /factor_model EK; set S := loading *m fc *m loading^T.
have Sy : symmetric S by apply: tr_sym; rewrite !trmx_mul trmxK sym_tr // mulmxA.
have Zi : S i i = 0 by rewrite /S systematic_eq /systematic_cov big1 // => k _; rewrite big1 // => l _; rewrite Z !mul0r.
have NP : is_pd S = false by apply/negbTE/negP=> /(Ht _ Sy) P; have := positive_diag P i; rewrite Zi ltxx.
rewrite /cov_nearest sym_test // NP /=; case E: (cov_to_corr S) => [[c s]|//].
by have := cov_to_corr_inv E i; rewrite Zi ltxx.
Qed.

(** Two assets on one factor, with residual variance. *)
Example C40_hypotheses_met : forall F : rcfType,
  let y : 'M[F]_(3, 1) := \matrix_(t, k) (t%:R) in
  let X : 'M[F]_(3, 2) := \matrix_(t, i) (if (i == 0) then (t%:R) ^+ 2 else - (t%:R) ^+ 2) in
  let loading : 'M[F]_(2, 1) := const_mx 1 in
  exists2 r, factor_model Some (cov_nearest (@eigh2 F) (@is_pd2 F) (10%:R ^- 13) 0 false 100) true loading 0 0 1%:M y X y = inr r
    & fm_cholesky r *m (fm_cholesky r)^T = fm_cov r.
Proof.
move=> F y X loading.
have P1 : positive (1%:M : 'M[F]_1).
  move=> x Xn; rewrite (_ : 1%:M = \matrix_(i, j) (if i == j then (fun _ => 1) i else 0)).
    exact: (diag_positive (fun i : 'I_1 => @ltr01 F) Xn).
  by apply/matrixP=> i j; rewrite !ord1 !mxE eqxx.
have S1 : symmetric (1%:M : 'M[F]_1) by move=> i j; rewrite !ord1.
have V : forall i, 0 < residual_var loading 0 X y i.
  move=> i; rewrite /residual_var mulr_gt0 ?invr_gt0 ?ltr0n //.
  have E t : residual loading 0 X y t i = X t i - t%:R.
    by rewrite /residual /explained big_ord_recl big_ord0 !mxE mul1r !addr0.
  set m := _ / 3%:R; rewrite lt_def sumr_ge0 ?andbT; last by move=> t _; apply: sqr_ge0.
  apply/eqP=> /eqP; rewrite psumr_eq0; last by move=> t _; apply: sqr_ge0.
  move/allP=> A.
  have H t : residual loading 0 X y t i = m by have := A t (mem_index_enum _); rewrite sqrf_eq0 subr_eq0 => /eqP.
  have : X (lift ord0 (lift ord0 ord0)) i - (lift ord0 (lift ord0 (ord0 : 'I_1)))%:R = X ord0 i - (ord0 : 'I_3)%:R by rewrite -!E !H.
  move/eqP.
  rewrite !mxE /=; case: ifP => _; rewrite expr0n /= ?mulr0n ?oppr0 ?subr0 ?addr0.
  + by rewrite subr_eq0 -natrX eqr_nat.
  + by rewrite -opprD oppr_eq0 -natrX -natrD pnatr_eq0.
have H : is_pd2 (model_cov loading 0 true 1%:M X y) <-> positive (model_cov loading 0 true 1%:M X y) by apply: is_pd2_ok; apply: model_sym.
have [r E [_ _ _ G]] := @C40_moments F 2 1 3 Some (@eigh2 F) (@is_pd2 F) loading 0 0 1%:M 1%:M y y X (10%:R ^- 13) 0 false 100 true
  S1 P1 erefl (etrans (mul1mx _) (trmx1 _ _)) H (or_intror (conj isT V)).
by exists r.
Qed.
Print Assumptions C40_moments.
Print Assumptions C40_always_positive_definite.
Print Assumptions C40_mean_of_scenarios.
Print Assumptions C40_cholesky_refuted.
Print Assumptions C40_zero_loading_undefined.
