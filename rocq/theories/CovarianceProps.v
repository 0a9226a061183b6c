(** C42: nearest covariance, denoising and detoning keep the variances. *)
From mathcomp Require Import all_ssreflect all_algebra.
Require Import Ring Field.
From Verif Require Import FieldTac MatForm CovarianceModel.
Set Implicit Arguments.
Unset Strict Implicit.
Unset Printing Implicit Defensive.
Import Order.TTheory GRing.Theory Num.Theory.
Local Open Scope ring_scope.

(** * Specification *)
Section Spec.
Variable F : rcfType.
Variable n : nat.
(** An orthonormal basis of eigenvectors (the columns of Q) with their eigenvalues in increasing order. *)
Definition eigenbasis (S : 'M[F]_n) (e : 'rV[F]_n * 'M[F]_n) : Prop :=
  [/\ e.2^T *m e.2 = 1%:M, forall i, S *m col i e.2 = e.1 0 i *: col i e.2 & forall i j : 'I_n, (i <= j)%N -> e.1 0 i <= e.1 0 j].
Definition positive_variances (S : 'M[F]_n) : Prop := forall i, 0 < S i i.
Definition same_variances (S S' : 'M[F]_n) : Prop := forall i, S' i i = S i i.
(** C is the correlation matrix of S. *)
Definition correlation_of (S C : 'M[F]_n) : Prop := forall i j, C i j = S i j / (Num.sqrt (S i i) * Num.sqrt (S j j)).
(** S' is a covariance with the correlations of M and the variances of S. *)
Definition rescaled (M S S' : 'M[F]_n) : Prop :=
  forall i j, S' i j = M i j / (Num.sqrt (M i i) * Num.sqrt (M j j)) * (Num.sqrt (S i i) * Num.sqrt (S j j)).
(** The mean of the eigenvalues below a threshold. *)
Definition mean_below (h : F) (vals : 'rV[F]_n) : F := (\sum_(j | vals 0 j < h) vals 0 j) / #|[pred j | vals 0 j < h]|%:R.
End Spec.

(** * Lemmas *)
Section Lemmas.
Variable F : rcfType.
Variable n : nat.
Implicit Types (S M Q : 'M[F]_n) (d lam : 'rV[F]_n).
Add Field covariance_field : (fth F).
Lemma scaled_alg (x s dj di y : fT F) : (x * (s * dj * di) * y = di * x * s * (dj * y))%fr.
Proof. ring. Qed.
Lemma rescaled_alg (m a b c d : fT F) : (m * b^-1 * a^-1 * d * c = m * (a^-1 * b^-1) * (c * d))%fr.
Proof. ring. Qed.
Lemma rescaled_alg2 (m a b c d : fT F) : (m * (a^-1 * b^-1) * (c * d) = m * (d * b^-1) * (c * a^-1))%fr.
Proof. ring. Qed.
Definition scaled d S : 'M[F]_n := \matrix_(i, j) (S i j * d 0 j * d 0 i).
Lemma back_alg0 (m a b : fT F) : a <> 0%fr -> b <> 0%fr -> (m * b^-1 * a^-1 * b * a = m)%fr.
Proof. move=> A B; field; by split. Qed.
Lemma back_alg (m a b : F) : a != 0 -> b != 0 -> m / b / a * b * a = m.
Proof. move=> /eqP A /eqP B; exact: back_alg0. Qed.
Lemma scaled_form d S x : form (scaled d S) x = form S (\col_i (d 0 i * x i 0)).
Proof.
rewrite /form !mxE; apply: eq_bigr => j _; rewrite !mxE mulr_suml [RHS]mulr_suml; apply: eq_bigr => i _; rewrite !mxE.
exact: scaled_alg.
Qed.
Lemma scaled_sym d S : symmetric S -> symmetric (scaled d S).
Proof. by move=> H i j; rewrite !mxE H mulrAC. Qed.
Lemma scaled_nonneg d S : nonnegative S -> nonnegative (scaled d S).
Proof. by move=> H x; rewrite scaled_form. Qed.
Lemma scaled_positive d S : (forall i, d 0 i != 0) -> positive S -> positive (scaled d S).
Proof.
move=> D H x X; rewrite scaled_form; apply: H; apply/eqP=> E; move/eqP: X; apply; apply/matrixP=> i j.
rewrite ord1 !mxE; move/matrixP/(_ i 0): E; rewrite !mxE => /eqP; rewrite mulf_eq0 (negbTE (D i)) /= => /eqP //.
Qed.
Lemma positive_diag S : positive S -> positive_variances S.
Proof.
move=> H i; have := H (delta_mx i 0); have -> : form S (delta_mx i 0) = S i i.
  by rewrite /form trmx_delta -rowE -colE !mxE.
apply; apply/eqP=> /matrixP/(_ i 0); rewrite !mxE !eqxx => /eqP; by rewrite oner_eq0.
Qed.
Lemma nonneg_diag S i : nonnegative S -> 0 <= S i i.
Proof. by move=> H; have := H (delta_mx i 0); rewrite /form trmx_delta -rowE -colE !mxE. Qed.

Lemma recompose_eq lam Q : recompose lam Q = Q *m diag_mx lam *m Q^T.
Proof. by rewrite /recompose mul_mx_diag; congr (_ *m _). Qed.
Lemma recompose_form lam Q x : form (Q *m diag_mx lam *m Q^T) x = \sum_i lam 0 i * (Q^T *m x) i 0 ^+ 2.
Proof.
rewrite form_congr; set y := Q^T *m x.
have -> : diag_mx lam = \matrix_(i, j) (if i == j then (fun i => lam 0 i) i else 0).
  by apply/matrixP=> i j; rewrite !mxE; case: eqP => [->|_]; rewrite ?mulr1n ?mulr0n.
by rewrite diag_form.
Qed.
Lemma recompose_sym lam Q : symmetric (Q *m diag_mx lam *m Q^T).
Proof. by apply: tr_sym; rewrite !trmx_mul trmxK tr_diag_mx mulmxA. Qed.
Lemma recompose_nonneg lam Q : (forall i, 0 <= lam 0 i) -> nonnegative (Q *m diag_mx lam *m Q^T).
Proof. by move=> H x; rewrite recompose_form; apply: sumr_ge0 => i _; rewrite mulr_ge0 ?sqr_ge0. Qed.
Lemma recompose_positive lam Q : Q^T *m Q = 1%:M -> (forall i, 0 < lam 0 i) -> positive (Q *m diag_mx lam *m Q^T).
Proof.
move=> O H x X; rewrite recompose_form; set y := Q^T *m x.
have Y : y != 0.
  apply/eqP=> E; move/eqP: X; apply; have O2 : Q *m Q^T = 1%:M by apply: mulmx1C.
  by rewrite -[x]mul1mx -O2 -mulmxA -/y E mulmx0.
have := diag_positive H Y; by rewrite diag_form.
Qed.
Lemma eigen_recompose S e : eigenbasis S e -> S = e.2 *m diag_mx e.1 *m (e.2)^T.
Proof.
case: e => lam Q [/= O E _]; have O2 : Q *m Q^T = 1%:M by apply: mulmx1C.
have -> : Q *m diag_mx lam = S *m Q.
  apply/matrixP=> i j; have := congr1 (fun Z : 'cV[F]_n => Z i 0) (E j); rewrite mul_mx_diag !mxE => X.
  rewrite mulrC -X; apply: eq_bigr => l _; by rewrite !mxE.
by rewrite -mulmxA O2 mulmx1.
Qed.
Lemma eigen_values S e i : eigenbasis S e -> e.1 0 i = form S (col i e.2).
Proof.
case: e => lam Q [/= O E _]; rewrite /form -mulmxA E -scalemxAr mxE.
have -> : ((col i Q)^T *m col i Q) 0 0 = (Q^T *m Q) i i by rewrite !mxE; apply: eq_bigr => j _; rewrite !mxE.
by rewrite O mxE eqxx mulr1.
Qed.
Lemma eigen_col_neq S e i : eigenbasis S e -> col i e.2 != 0.
Proof.
case: e => lam Q [/= O E _]; apply/eqP=> Z.
have : (Q^T *m Q) i i = 0.
  have -> : (Q^T *m Q) i i = ((col i Q)^T *m col i Q) 0 0 by rewrite !mxE; apply: eq_bigr => j _; rewrite !mxE.
  by rewrite Z mulmx0 mxE.
by rewrite O mxE eqxx => /eqP; rewrite oner_eq0.
Qed.

Lemma cov_to_corr_some S : positive_variances S ->
  cov_to_corr S = Some (scaled (\row_i (Num.sqrt (S i i))^-1) S, \row_i Num.sqrt (S i i)).
Proof.
move=> H; rewrite /cov_to_corr ifT; last by apply/forallP.
by congr (Some (_, _)); apply/matrixP=> i j; rewrite !mxE.
Qed.
Lemma cov_to_corr_inv S r : cov_to_corr S = Some r -> positive_variances S.
Proof. by rewrite /cov_to_corr; case: forallP. Qed.
Lemma sqrt_neq0 (x : F) : 0 < x -> Num.sqrt x != 0.
Proof. by move=> H; rewrite gt_eqF // sqrtr_gt0. Qed.
Lemma sqrt_sq (x : F) : 0 < x -> Num.sqrt x * Num.sqrt x = x.
Proof. by move=> H; rewrite -expr2 sqr_sqrtr // ltW. Qed.
Lemma rescale_some M S : positive_variances M -> positive_variances S ->
  exists2 S', rescale M (\row_i Num.sqrt (S i i)) = inr S' & rescaled M S S' /\ S' = scaled (\row_i (Num.sqrt (S i i) / Num.sqrt (M i i))) M.
Proof.
move=> HM HS; rewrite /rescale (cov_to_corr_some HM).
eexists; first by reflexivity.
have E : forall i j, corr_to_cov (scaled (\row_i0 (Num.sqrt (M i0 i0))^-1) M) (\row_i0 Num.sqrt (S i0 i0)) i j =
   M i j / (Num.sqrt (M i i) * Num.sqrt (M j j)) * (Num.sqrt (S i i) * Num.sqrt (S j j)).
  by move=> i j; rewrite !mxE invfM; exact: rescaled_alg.
split; first exact: E.
apply/matrixP=> i j; rewrite E !mxE invfM; exact: rescaled_alg2.
Qed.
Lemma rescaled_facts M S S' : positive_variances M -> positive_variances S -> rescaled M S S' -> S' = scaled (\row_i (Num.sqrt (S i i) / Num.sqrt (M i i))) M -> symmetric M ->
  [/\ symmetric S', same_variances S S', (nonnegative M -> nonnegative S') & (positive M -> positive S')].
Proof.
move=> HM HS R E Sy; split.
- by rewrite E; apply: scaled_sym.
- by move=> i; rewrite R !sqrt_sq // divff ?mul1r // gt_eqF.
- by move=> N; rewrite E; apply: scaled_nonneg.
- move=> P; rewrite E; apply: scaled_positive => // i; by rewrite mxE mulf_neq0 ?invr_neq0 ?sqrt_neq0.
Qed.
Lemma corr_of S C s : cov_to_corr S = Some (C, s) -> correlation_of S C.
Proof.
move=> H; have P := cov_to_corr_inv H; move: H; rewrite cov_to_corr_some // => [[<- _]] i j.
by rewrite !mxE invfM -mulrA [in LHS](mulrC (_^-1)).
Qed.
End Lemmas.

Section Threshold.
Variable n : nat.
Lemma card_ge (i : 'I_n) : #|[pred j : 'I_n | (i <= j)%N]| = (n - i)%N.
Proof.
have E : #|[pred j : 'I_n | (j < i)%N]| = i.
  rewrite -sum1_card; have -> : (\sum_(j in [pred j : 'I_n | (j < i)%N]) 1 = \sum_(j < n | (j < i)%N) 1)%N by apply: eq_bigl.
  by rewrite -(big_ord_widen n (fun _ => 1%N)) ?sum1_card ?card_ord // ltnW.
have := cardC [pred j : 'I_n | (j < i)%N]; rewrite E card_ord => X.
have -> : #|[pred j : 'I_n | (i <= j)%N]| = #|[predC [pred j : 'I_n | (j < i)%N]]|.
  by apply: eq_card => j; rewrite !inE -leqNgt.
by rewrite -[X in (X - _)%N]X addKn.
Qed.
(** an upward closed set of indices is a final segment *)
Lemma final_segment (p : pred 'I_n) : (forall i j : 'I_n, (i <= j)%N -> p i -> p j) -> forall i, p i = (n - #|p| <= i)%N.
Proof.
move=> U i; apply/idP/idP.
- move=> Pi; have L : (n - i <= #|p|)%N.
    rewrite -card_ge; apply: subset_leq_card; apply/subsetP=> j; rewrite inE => /U; exact.
  by rewrite leq_subLR addnC -leq_subLR.
- apply: contraTT => Pi; rewrite -ltnNge.
  have L : (#|p| <= #|[pred j : 'I_n | (i < j)%N]|)%N.
    apply: subset_leq_card; apply/subsetP=> j Pj; rewrite inE ltnNge; apply/negP=> ji.
    by move/negP: Pi; apply; apply: U ji Pj.
  have L2 : #|[pred j : 'I_n | (i < j)%N]| = (n - i.+1)%N.
    have := cardD1 i [pred j : 'I_n | (i <= j)%N]; rewrite inE leqnn card_ge add1n => X.
    have -> : #|[pred j : 'I_n | (i < j)%N]| = #|[predD1 [pred j : 'I_n | (i <= j)%N] & i]|.
      apply: eq_card => j; rewrite !inE ltn_neqAle eq_sym; by congr (~~ _ && _).
    by rewrite subnS X.
  by rewrite L2 leq_subRL // addSn addnC in L; rewrite ltn_subRL.
Qed.
End Threshold.

Section Main.
Variable F : rcfType.
Variable n : nat.
Variable eigh : 'M[F]_n -> 'rV[F]_n * 'M[F]_n.
Variable is_pd : 'M[F]_n -> bool.
Implicit Types (S M C Q : 'M[F]_n) (lam : 'rV[F]_n).

Lemma desc_orth S e : eigenbasis S e -> (descending e).2^T *m (descending e).2 = 1%:M.
Proof.
case: e => lam Q [/= O _ _]; apply/matrixP=> i j; have := congr1 (fun Z : 'M[F]_n => Z (rev_ord i) (rev_ord j)) O.
rewrite !mxE (inj_eq rev_ord_inj) => <-; by apply: eq_bigr => k _; rewrite !mxE.
Qed.
Lemma desc_col (e : 'rV[F]_n * 'M[F]_n) k : col k e.2 = col (rev_ord k) (descending e).2.
Proof. by apply/matrixP=> i j; rewrite !mxE rev_ordK. Qed.
Lemma recompose_eigen lam Q k : Q^T *m Q = 1%:M -> Q *m diag_mx lam *m Q^T *m col k Q = lam 0 k *: col k Q.
Proof.
move=> O; have -> : col k Q = Q *m delta_mx k 0 by rewrite colE.
rewrite -[_ *m (Q *m _)]mulmxA [Q^T *m _]mulmxA O mul1mx -mulmxA scalemxAr; congr (_ *m _).
by apply/matrixP=> i j; rewrite mul_diag_mx !mxE; case: eqP => [->|_]; rewrite ?mulr0.
Qed.
Lemma desc_recompose S e : eigenbasis S e -> S = (descending e).2 *m diag_mx (descending e).1 *m (descending e).2^T.
Proof.
move=> H; rewrite {1}(eigen_recompose H); case: e H => lam Q _ /=.
rewrite -!mulmxA !mul_diag_mx; apply/matrixP=> i j; rewrite !mxE [RHS](reindex_inj rev_ord_inj) /=.
apply: eq_bigr => k _; by rewrite !mxE rev_ordK.
Qed.
Lemma sub_sym (A B : 'M[F]_n) : symmetric A -> symmetric B -> symmetric (A - B).
Proof. by move=> HA HB i j; rewrite mxE [RHS]mxE HA; congr (_ + _); rewrite mxE [RHS]mxE HB. Qed.
Lemma unit_sym (A : 'M[F]_n) : symmetric A -> symmetric (unit_diagonal A).
Proof. by move=> H i j; rewrite !mxE eq_sym H. Qed.
Lemma sym_test S : symmetric S -> [forall i, forall j, S i j == S j i].
Proof. by move=> H; apply/forallP=> i; apply/forallP=> j; rewrite H. Qed.

(** * C42 *)
(** A covariance with positive variances has a correlation matrix with ones on the diagonal (entries in [-1,1] when positive
    semi-definite), and converting back gives the covariance; and the other way round. *)
Theorem C42_correlation S :
  (positive_variances S ->
     exists C s, [/\ cov_to_corr S = Some (C, s), correlation_of S C, forall i, C i i = 1, corr_to_cov C s = S
       & (nonnegative S -> symmetric S -> forall i j, -1 <= C i j <= 1)]) /\
  (forall s : 'rV[F]_n, (forall i, S i i = 1) -> (forall i, 0 < s 0 i) -> cov_to_corr (corr_to_cov S s) = Some (S, s)).
Proof.
split.
- move=> H; do 2 eexists; rewrite cov_to_corr_some //; split; first by reflexivity.
  + by apply: corr_of; rewrite cov_to_corr_some.
  + by move=> i; rewrite !mxE -mulrA -invfM sqrt_sq // divff // gt_eqF.
  + by apply/matrixP=> i j; rewrite !mxE back_alg // sqrt_neq0.
  + move=> N Sy i j; set C := scaled _ _; have NC : nonnegative C by apply: scaled_nonneg.
    have SC : symmetric C by apply: scaled_sym.
    have D k : C k k = 1 by rewrite !mxE -mulrA -invfM sqrt_sq // divff // gt_eqF.
    clearbody C.
    have E (a : F) : form C (delta_mx i 0 + a *: delta_mx j 0) = 1 + 2%:R * (a * C i j) + a ^+ 2.
      rewrite (form_sum _ _ SC) /form -scalemxAr.
      have -> : (a *: (delta_mx j 0 : 'cV[F]_n))^T = a *: (delta_mx j 0)^T by apply/matrixP=> x y; rewrite !mxE.
      rewrite -!scalemxAl -!scalemxAr !trmx_delta -!rowE -!colE !mxE !D expr2 !mulr1 //.
    have P1 := NC (delta_mx i 0 + 1 *: delta_mx j 0); have P2 := NC (delta_mx i 0 + (-1) *: delta_mx j 0).
    rewrite E in P1; rewrite E in P2; rewrite expr1n mul1r in P1; rewrite sqrrN expr1n mulN1r in P2.
    apply/andP; split.
    * have : 0 <= 2%:R * (1 + C i j) by move: P1; rewrite mulrDr mulr1 addrAC.
      by rewrite pmulr_rge0 ?ltr0n // -ler_subl_addl sub0r.
    * have : 0 <= 2%:R * (1 - C i j) by move: P2; rewrite mulrDr mulr1 addrAC.
      by rewrite pmulr_rge0 ?ltr0n // subr_ge0.
- move=> s D P; have V : positive_variances (corr_to_cov S s) by move=> i; rewrite mxE D mul1r mulr_gt0.
  have Q i : Num.sqrt (corr_to_cov S s i i) = s 0 i by rewrite mxE D mul1r -expr2 sqrtr_sqr gtr0_norm.
  rewrite cov_to_corr_some //; congr (Some (_, _)); apply/matrixP=> i j; last by rewrite ord1 mxE Q.
  have -> : scaled (\row_i0 (Num.sqrt (corr_to_cov S s i0 i0))^-1) (corr_to_cov S s) i j = corr_to_cov S s i j * (s 0 j)^-1 * (s 0 i)^-1.
    by rewrite mxE ![(\row__ _) _ _]mxE !Q.
  rewrite [corr_to_cov S s i j]mxE; have := @back_alg _ (S i j) (s 0 i)^-1 (s 0 j)^-1; rewrite !invrK; apply; by rewrite invr_neq0 // gt_eqF.
Qed.

(** cov_nearest (eigenvalue clipping): leaves a positive definite matrix alone; otherwise always returns a symmetric positive definite
    matrix with the same variances. *)
Theorem C42_nearest_clip S (eps eps' : F) it :
  symmetric S -> positive_variances S -> 0 < eps ->
  (is_pd S <-> positive S) -> (forall C, correlation_of S C -> eigenbasis C (eigh C)) ->
  exists2 S', cov_nearest eigh is_pd eps eps' false it S = inr S' &
    [/\ symmetric S', positive S', same_variances S S' & (positive S -> S' = S)].
Proof.
move=> Hs Hv e0 T E; rewrite /cov_nearest sym_test //=; case Tp: (is_pd S).
  by exists S => //; split=> //; apply/T.
have [C' [s [EC]]] : exists C' s, [/\ cov_to_corr S = Some (C', s) & s = \row_i Num.sqrt (S i i)].
  by do 2 eexists; rewrite cov_to_corr_some //.
move=> Es; rewrite EC; have EB := E _ (corr_of EC).
set e := eigh C' in EB *.
have O : e.2^T *m e.2 = 1%:M by case: EB.
set M := recompose _ _.
have PM : positive M.
  rewrite /M recompose_eq; apply: recompose_positive => // i; by rewrite mxE lt_maxr e0 orbT.
have SM : symmetric M by rewrite /M recompose_eq; apply: recompose_sym.
have VM := positive_diag PM.
have [S' ES' [R1 R2]] := rescale_some VM Hv.
move: ES'; rewrite /rescale; case: (cov_to_corr M) => [[x w]|] //.
rewrite -Es => [[E']]; exists S'; first by rewrite E'.
have [A1 A2 A3 A4] := rescaled_facts VM Hv R1 R2 SM.
split=> //; first exact: A4.
by move=> PS; move/T: PS; rewrite Tp.
Qed.
(** cov_nearest (Higham): never returns anything else than a symmetric positive definite matrix with the same variances; it may raise. *)
Theorem C42_nearest_higham S (eps eps' : F) it :
  symmetric S -> positive_variances S -> (forall M, symmetric M -> (is_pd M <-> positive M)) ->
  match cov_nearest eigh is_pd eps eps' true it S with
  | inr S' => [/\ symmetric S', positive S', same_variances S S' & (positive S -> S' = S)]
  | inl e => e = NoNearest /\ ~ positive S
  end.
Proof.
move=> Hs Hv T; rewrite /cov_nearest sym_test //=; case Tp: (is_pd S).
  by split=> //; apply/T.
have NP : ~ positive S by move=> /(T _ Hs); rewrite Tp.
rewrite cov_to_corr_some //; set std := \row__ _; set C := scaled _ _.
have SC : symmetric C by apply: scaled_sym.
have S0 : symmetric (0 : 'M[F]_n) by move=> i j; rewrite !mxE.
move: C SC (0 : 'M[F]_n) S0; elim: it => [|it IH] x Sx d Sd //=.
set x1 := recompose _ _; have S1 : symmetric x1 by rewrite /x1 recompose_eq; apply: recompose_sym.
have S2 : symmetric (unit_diagonal x1) by apply: unit_sym.
have Ec : corr_to_cov (unit_diagonal x1) std = scaled std (unit_diagonal x1) by [].
case P: (is_pd _).
- rewrite Ec in P *; split.
  + exact: scaled_sym.
  + apply/T => //; exact: scaled_sym.
  + by move=> i; rewrite !mxE eqxx mul1r sqrt_sq.
  + by [].
- apply: IH => //; apply: sub_sym => //; exact: sub_sym.
Qed.

(** DenoiseCovariance before the final check: eigenvalues of the correlation below the edge are replaced by their mean, and the result is
    rescaled to the original variances. *)
Theorem C42_denoise S C h :
  symmetric S -> positive_variances S -> correlation_of S C -> eigenbasis C (eigh C) ->
  exists M, [/\ symmetric M,
    forall k, M *m col k (eigh C).2 = (if (eigh C).1 0 k < h then mean_below h (eigh C).1 else (eigh C).1 0 k) *: col k (eigh C).2,
    (forall S', denoise eigh h S = inr S' -> [/\ rescaled M S S', symmetric S', same_variances S S' & (nonnegative S -> nonnegative S')])
    & (positive S -> exists2 S', denoise eigh h S = inr S' & positive S')].
Proof.
move=> Hs Hv HC EB.
have EC : cov_to_corr S = Some (C, \row_i Num.sqrt (S i i)).
  rewrite cov_to_corr_some //; congr (Some (_, _)); apply/matrixP=> i j; rewrite HC !mxE invfM -mulrA; congr (_ * _); by rewrite mulrC.
set e := eigh C in EB *; set d := descending e; set m := n_facts h d.1; set M := d.2 *m diag_mx (averaged m d.1) *m d.2^T.
have O : d.2^T *m d.2 = 1%:M by apply: desc_orth EB.
have SM : symmetric M by apply: recompose_sym.
have seg i : (d.1 0 i < h) = (m <= i)%N.
  rewrite /m /n_facts; have := @final_segment n [pred i | d.1 0 i < h] _ i; rewrite /= => -> // a b ab.
  rewrite !mxE; case: EB => _ _ Mo; apply: le_lt_trans; apply: Mo; by rewrite /= leq_sub2l.
have mn : (m <= n)%N by rewrite /m /n_facts leq_subr.
have av k : averaged m d.1 0 (rev_ord k) = if e.1 0 k < h then mean_below h e.1 else e.1 0 k.
  have dk : d.1 0 (rev_ord k) = e.1 0 k by rewrite mxE rev_ordK.
  rewrite mxE ltnNge -seg dk; case: (e.1 0 k < h) => //=; rewrite /mean_below; congr (_ / _).
    rewrite (reindex_inj rev_ord_inj) /=; apply: eq_big => j; last by rewrite mxE rev_ordK.
    by rewrite -(seg (rev_ord j)) mxE rev_ordK.
  congr (_%:R); rewrite /m /n_facts subKn; last by have := max_card [pred i | d.1 0 i < h]; rewrite card_ord.
  rewrite -!sum1_card (reindex_inj rev_ord_inj) /=; apply: eq_bigl => j; by rewrite !inE mxE rev_ordK.
have eig k : M *m col k e.2 = (if e.1 0 k < h then mean_below h e.1 else e.1 0 k) *: col k e.2.
  by rewrite desc_col -/d recompose_eigen // av.
have Ecs : C = scaled (\row_i (Num.sqrt (S i i))^-1) S by move: EC; rewrite cov_to_corr_some // => [[]].
have avi i : averaged m d.1 0 i = if e.1 0 (rev_ord i) < h then mean_below h e.1 else e.1 0 (rev_ord i) by rewrite -av rev_ordK.
exists M; split=> //.
- move=> S'; rewrite /denoise EC -/e -/d -/m -/M => ES'.
  have VM : positive_variances M by move: ES'; rewrite /rescale; case X: (cov_to_corr M) => [r|//] _; apply: cov_to_corr_inv X.
  have [S2 E2 [R1 R2]] := rescale_some VM Hv; rewrite E2 in ES'; case: ES' => <-.
  have [A1 A2 A3 A4] := rescaled_facts VM Hv R1 R2 SM; split=> // NS; apply: A3.
  have NC : nonnegative C by rewrite Ecs; apply: scaled_nonneg.
  have L0 k : 0 <= e.1 0 k by rewrite (eigen_values k EB).
  apply: recompose_nonneg => i; rewrite avi; case: ifP => // _; rewrite /mean_below mulr_ge0 ?invr_ge0 ?ler0n //; exact: sumr_ge0.
- move=> PS.
  have PC : positive C by rewrite Ecs; apply: scaled_positive => // i; rewrite mxE invr_neq0 ?sqrt_neq0.
  have L0 k : 0 < e.1 0 k by rewrite (eigen_values k EB); apply: PC; apply: eigen_col_neq EB.
  have PM : positive M.
    apply: recompose_positive => // i; rewrite avi; case: ifP => // lt; rewrite /mean_below; apply: divr_gt0.
      rewrite (bigD1 (rev_ord i)) //=; apply: ltr_paddr => //; apply: sumr_ge0 => j _; exact: ltW.
    by rewrite ltr0n; apply/card_gt0P; exists (rev_ord i); rewrite inE.
  have VM := positive_diag PM; have [S2 E2 [R1 R2]] := rescale_some VM Hv.
  exists S2; first by rewrite /denoise EC.
  have [_ _ _ A4] := rescaled_facts VM Hv R1 R2 SM; exact: A4.
Qed.

(** DetoneCovariance before the final check: the market eigenvalues (the n_markets largest) are removed from the correlation, and the
    result is rescaled to the original variances. *)
Theorem C42_detone S C m :
  symmetric S -> positive_variances S -> correlation_of S C -> eigenbasis C (eigh C) ->
  exists M, [/\ symmetric M,
    forall k, M *m col k (eigh C).2 = (if (n <= k + m)%N then 0 else (eigh C).1 0 k) *: col k (eigh C).2
    & forall S', detone eigh m S = inr S' -> [/\ rescaled M S S', symmetric S', same_variances S S' & (nonnegative S -> nonnegative S')]].
Proof.
move=> Hs Hv HC EB.
have EC : cov_to_corr S = Some (C, \row_i Num.sqrt (S i i)).
  rewrite cov_to_corr_some //; congr (Some (_, _)); apply/matrixP=> i j; rewrite HC !mxE invfM -mulrA; congr (_ * _); by rewrite mulrC.
set e := eigh C in EB *; set d := descending e; pose l := \row_i (if (i < m)%N then 0 else d.1 0 i); pose M := d.2 *m diag_mx l *m d.2^T.
have O : d.2^T *m d.2 = 1%:M by apply: desc_orth EB.
have SM : symmetric M by apply: recompose_sym.
have EM : C - first_columns m d.2 *m diag_mx (first_values m d.1) *m (first_columns m d.2)^T = M.
  rewrite {1}(desc_recompose EB) -/e -/d.
  have -> : first_columns m d.2 *m diag_mx (first_values m d.1) *m (first_columns m d.2)^T = d.2 *m diag_mx (first_values m d.1) *m d.2^T.
    rewrite !mul_mx_diag; apply/matrixP=> i j; rewrite [LHS]mxE [RHS]mxE; apply: eq_bigr => k _; rewrite ![in LHS]mxE ![in RHS]mxE.
    by case: ifP => _; rewrite ?mulr0 ?mul0r.
  rewrite -mulmxBl -mulmxBr -raddfB /M; congr (_ *m diag_mx _ *m _); apply/matrixP=> i j; rewrite !ord1 mxE.
  have -> : (- first_values m d.1) 0 j = - (if (j < m)%N then d.1 0 j else 0) by rewrite mxE; congr (- _); rewrite mxE.
  have -> : l 0 j = if (j < m)%N then 0 else d.1 0 j by rewrite mxE.
  by case: ifP => _; rewrite ?subrr ?subr0.
have Ecs : C = scaled (\row_i (Num.sqrt (S i i))^-1) S by move: EC; rewrite cov_to_corr_some // => [[]].
exists M; split=> //.
- move=> k; rewrite desc_col -/d recompose_eigen //; congr (_ *: _); rewrite mxE.
  have -> : (rev_ord k < m)%N = (n <= k + m)%N by rewrite /= ltn_subLR // ltnS.
  by case: ifP => // _; rewrite mxE rev_ordK.
- move=> S'; rewrite /detone EC -/e -/d EM => ES'.
  have VM : positive_variances M by move: ES'; rewrite /rescale; case X: (cov_to_corr M) => [r|//] _; apply: cov_to_corr_inv X.
  have [S2 E2 [R1 R2]] := rescale_some VM Hv; rewrite E2 in ES'; case: ES' => <-.
  have [A1 A2 A3 A4] := rescaled_facts VM Hv R1 R2 SM; split=> // NS; apply: A3.
  have NC : nonnegative C by rewrite Ecs; apply: scaled_nonneg.
  have L0 k : 0 <= e.1 0 k by rewrite (eigen_values k EB).
  by apply: recompose_nonneg => i; rewrite mxE; case: ifP => // _; rewrite mxE.
Qed.

(** The fitted estimators (with or without the final repair): what they report is symmetric, has the variances of the underlying estimate, and
    with nearest=True is positive definite. *)
Theorem C42_fitted S C tiny eps eps' nearest higham it :
  symmetric S -> positive_variances S -> (forall M, symmetric M -> (forall i, M i i = 1) -> eigenbasis M (eigh M)) -> correlation_of S C -> 0 < eps ->
  (forall M, symmetric M -> (is_pd M <-> positive M)) ->
  let set := set_covariance eigh is_pd tiny eps eps' nearest higham it in
  forall S', (exists h, denoise_fit eigh set h S = inr S') \/ (exists m, detone_fit eigh set m S = inr S') ->
  [/\ symmetric S', same_variances S S', forall i, tiny <= S i i & (nearest -> positive S')].
Proof.
move=> Hs Hv HE HC e0 T set S' H.
have EC : cov_to_corr S = Some (C, \row_i Num.sqrt (S i i)).
  rewrite cov_to_corr_some //; congr (Some (_, _)); apply/matrixP=> i j; rewrite HC !mxE invfM -mulrA; congr (_ * _); by rewrite mulrC.
have SC : symmetric C by move=> i j; rewrite !HC Hs [X in _ / X]mulrC.
have UC : forall i, C i i = 1 by move=> i; rewrite HC sqrt_sq // divff // gt_eqF.
have EB := HE _ SC UC.
have [S1 [Sy1 Sv1 Es]] : exists S1, [/\ symmetric S1, same_variances S S1 & set S1 = inr S'].
  case: H => [[h]|[m]]; rewrite /denoise_fit /detone_fit /and_set.
  - have [M [_ _ D _]] := C42_denoise h Hs Hv HC EB.
    case E: (denoise eigh h S) => [//|S1] X; exists S1; by have [_ A B _] := D _ E.
  - have [M [_ _ D]] := C42_detone m Hs Hv HC EB.
    case E: (detone eigh m S) => [//|S1] X; exists S1; by have [_ A B _] := D _ E.
have V1 : positive_variances S1 by move=> i; rewrite Sv1.
move: Es; rewrite /set /set_covariance; case: ifP => // /negbT /existsPn Ex.
have Ti i : tiny <= S i i by have := Ex i; rewrite -leNgt Sv1.
case: nearest {set H} => [|[<-]]; last by split.
case: higham => Es.
- have := C42_nearest_higham eps eps' it Sy1 V1 T; rewrite Es => [[A B D _]].
  by split=> // i; rewrite D Sv1.
- have [|S2 E2 [A B D _]] := C42_nearest_clip eps' it Sy1 V1 e0 (T _ Sy1) _.
    move=> C1 HC1; apply: HE => [i j|i]; first by rewrite !HC1 Sy1 [X in _ / X]mulrC.
    by rewrite HC1 sqrt_sq // divff // gt_eqF.
  rewrite E2 in Es; case: Es => <-; split=> // i; by rewrite D Sv1.
Qed.
End Main.

(** Two assets, over any real closed field: an eigendecomposition of every 2x2 correlation matrix and a positive-definiteness test. *)
Section Example2.
Variable F : rcfType.
Definition h2 : F := (Num.sqrt 2%:R)^-1.
Definition o0 : 'I_2 := ord0. Definition o1 : 'I_2 := lift ord0 ord0.
Definition eigh2 (M : 'M[F]_2) : 'rV[F]_2 * 'M[F]_2 :=
  let r := M o0 o1 in
  if 0 <= r then (\row_j (if j == o0 then 1 - r else 1 + r), \matrix_(i, j) (if (i == o1) && (j == o0) then - h2 else h2))
  else (\row_j (if j == o0 then 1 + r else 1 - r), \matrix_(i, j) (if (i == o1) && (j == o1) then - h2 else h2)).
Definition is_pd2 (M : 'M[F]_2) : bool := (0 < M o0 o0) && (0 < M o0 o0 * M o1 o1 - M o0 o1 * M o1 o0).
Lemma two_cases (i : 'I_2) : i = o0 \/ i = o1.
Proof. case: i => [[|[|]]] //= H; [left|right]; exact: val_inj. Qed.
Lemma sum2 (f : 'I_2 -> F) : \sum_i f i = f o0 + f o1.
Proof. by rewrite !big_ord_recl big_ord0 addr0. Qed.
Lemma h2_sq : h2 * h2 + h2 * h2 = 1.
Proof.
have -> : h2 * h2 = 2%:R^-1 by rewrite /h2 -invfM -expr2 sqr_sqrtr // ler0n.
by rewrite -mulr2n -mulr_natl divff // pnatr_eq0.
Qed.
Lemma h2_neg : h2 * h2 + (- h2) * (- h2) = 1.
Proof. by rewrite mulNr mulrN opprK h2_sq. Qed.
Lemma eigh2_ok M : symmetric M -> (forall i, M i i = 1) -> eigenbasis M (eigh2 M).
Proof.
move=> Sy U; rewrite /eigh2; set r := M o0 o1; have r' : M o1 o0 = r by rewrite Sy.
have D0 : M o0 o0 = 1 by []. have D1 : M o1 o1 = 1 by [].
case: (lerP 0 r) => Hr; split=> /=.
- apply/matrixP=> i j; case: (two_cases i) => ->; case: (two_cases j) => ->; rewrite !mxE sum2 !mxE /=.
  + by rewrite h2_neg. + by rewrite mulNr subrr. + by rewrite mulrN subrr. + by rewrite h2_sq.
- move=> i; apply/matrixP=> k j; case: (two_cases i) => ->; case: (two_cases k) => ->; rewrite !mxE sum2 !mxE /= ?D0 ?D1 ?r' -/r ?mul1r.
  + by rewrite mulrBl mul1r mulrN. + by rewrite mulrBl mul1r mulrN opprK addrC. + by rewrite mulrDl mul1r. + by rewrite mulrDl mul1r addrC.
- move=> i j; case: (two_cases i) => ->; case: (two_cases j) => -> //= _; rewrite !mxE //=.
  by apply: ler_add => //; rewrite (le_trans _ Hr) // oppr_le0.
- apply/matrixP=> i j; case: (two_cases i) => ->; case: (two_cases j) => ->; rewrite !mxE sum2 !mxE /=.
  + by rewrite h2_sq. + by rewrite mulrN subrr. + by rewrite mulNr subrr. + by rewrite h2_neg.
- move=> i; apply/matrixP=> k j; case: (two_cases i) => ->; case: (two_cases k) => ->; rewrite !mxE sum2 !mxE /= ?D0 ?D1 ?r' -/r ?mul1r.
  + by rewrite mulrDl mul1r. + by rewrite mulrDl mul1r addrC. + by rewrite mulrBl mul1r mulrN. + by rewrite mulrBl mul1r mulrN opprK addrC.
- move=> i j; case: (two_cases i) => ->; case: (two_cases j) => -> //= _; rewrite !mxE //=.
  by apply: ler_add => //; rewrite (le_trans (ltW Hr)) // oppr_ge0 ltW.
Qed.
Add Field example_field : (fth F).
Lemma form2_alg (a b c x y : fT F) : (a * ((x * a + y * b) * x + (x * b + y * c) * y) = (a * x + b * y) * (a * x + b * y) + (a * c - b * b) * (y * y))%fr.
Proof. ring. Qed.
Lemma form2 (M : 'M[F]_2) x : symmetric M ->
  M o0 o0 * form M x = (M o0 o0 * x o0 0 + M o0 o1 * x o1 0) ^+ 2 + (M o0 o0 * M o1 o1 - M o0 o1 * M o1 o0) * x o1 0 ^+ 2.
Proof. move=> Sy; rewrite /form !mxE sum2 !mxE !sum2 !mxE (Sy o1 o0) !expr2; exact: form2_alg. Qed.
Lemma is_pd2_ok M : symmetric M -> (is_pd2 M <-> positive M).
Proof.
move=> Sy; split.
- case/andP=> a0 D x X; rewrite -(pmulr_rgt0 _ a0) form2 //.
  case: (eqVneq (x o1 0) 0) => [y0|yn].
  + have x0 : x o0 0 != 0.
      apply/eqP=> x0; move/eqP: X; apply; apply/matrixP=> i j; rewrite ord1 mxE; by case: (two_cases i) => ->.
    by rewrite y0 mulr0 addr0 expr0n mulr0 addr0 lt_def sqr_ge0 andbT sqrf_eq0 mulf_eq0 negb_or x0 andbT gt_eqF.
  + apply: ltr_paddl; first exact: sqr_ge0.
    by rewrite mulr_gt0 // lt_def sqr_ge0 andbT sqrf_eq0.
- move=> P; have a0 := positive_diag P o0; rewrite /is_pd2 a0 /=.
  pose x : 'cV[F]_2 := \col_i (if i == o0 then - M o0 o1 else M o0 o0).
  have X : x != 0 by apply/eqP=> /matrixP/(_ o1 0); rewrite !mxE /= => E; move: a0; rewrite E ltxx.
  have := P _ X; rewrite -(pmulr_rgt0 (form M x) a0) form2 // !mxE /= mulrN mulrC addNr expr0n add0r.
  by rewrite pmulr_lgt0 // exprn_gt0.
Qed.
(** Perfectly correlated assets, and two assets with correlation one half. *)
Definition ones : 'M[F]_2 := const_mx 1.
Definition half : 'M[F]_2 := 1%:M + const_mx 1.
Example C42_clip_met : exists2 S', cov_nearest eigh2 is_pd2 (10%:R ^- 13) 0 false 100 ones = inr S' & positive S' /\ S' <> ones.
Proof.
have Sy : symmetric ones by move=> i j; rewrite !mxE.
have V : positive_variances ones by move=> i; rewrite mxE ltr01.
have e0 : (0 : F) < 10%:R ^- 13 by rewrite invr_gt0 exprn_gt0 // ltr0n.
have [|S' E [A B C _]] := @C42_nearest_clip F 2 eigh2 is_pd2 ones _ 0 100 Sy V e0 (is_pd2_ok Sy).
  move=> C HC; apply: eigh2_ok => [i j|i]; rewrite !HC !mxE //; by rewrite sqrtr1 mulr1 divr1.
exists S' => //; split=> // X; move: B; rewrite X => /(is_pd2_ok Sy); by rewrite /is_pd2 !mxE mulr1 subrr ltxx andbF.
Qed.
Example C42_denoise_met : exists2 S', denoise_fit eigh2 (set_covariance eigh2 is_pd2 (10%:R ^- 15) (10%:R ^- 13) 0 true false 100) 1 half = inr S' &
  [/\ symmetric S', same_variances half S' & positive S'].
Proof.
have Sy : symmetric half by move=> i j; rewrite !mxE eq_sym.
have P : positive half.
  apply/is_pd2_ok => //; rewrite /is_pd2 !mxE /= !mulr0n !mulr1n !add0r mulr1.
  by rewrite -[1 + 1]/(2%:R) ltr0n /= subr_gt0 -natrM ltr1n.
have V := positive_diag P.
have e0 : (0 : F) < 10%:R ^- 13 by rewrite invr_gt0 exprn_gt0 // ltr0n.
have [C [s [EC HC UC _ _]]] := (C42_correlation half).1 V.
have SC : symmetric C by move=> i j; rewrite !HC Sy [X in _ / X]mulrC.
have [M [_ _ D1 D2]] := C42_denoise 1 Sy V HC (eigh2_ok SC UC).
have [S1 E1 P1] := D2 P; have [_ Sy1 Sv1 _] := D1 _ E1.
have V1 := positive_diag P1.
have [|S' E [A B C' _]] := @C42_nearest_clip F 2 eigh2 is_pd2 S1 _ 0 100 Sy1 V1 e0 (is_pd2_ok Sy1).
  move=> C1 HC1; apply: eigh2_ok => [i j|i]; first by rewrite !HC1 Sy1 [X in _ / X]mulrC.
  by rewrite HC1 sqrt_sq // divff // gt_eqF.
exists S'; last by split=> // i; rewrite C' Sv1.
rewrite /denoise_fit /and_set E1 /set_covariance ifF //.
apply/negbTE/existsPn=> i; rewrite -leNgt Sv1 !mxE eqxx mulr1n.
apply: (@le_trans _ _ 1); last by rewrite ler_addl ler01.
by rewrite invf_le1 ?exprn_gt0 ?ltr0n // exprn_ege1 // ler1n.
Qed.
End Example2.
Print Assumptions C42_correlation.
Print Assumptions C42_nearest_clip.
Print Assumptions C42_nearest_higham.
Print Assumptions C42_denoise.
Print Assumptions C42_detone.
Print Assumptions C42_fitted.
