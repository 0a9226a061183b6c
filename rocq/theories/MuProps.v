(** C43: shrunk expected returns; C61: equilibrium expected returns. *)
From mathcomp Require Import all_ssreflect all_algebra.
From Verif Require Import MatForm FieldTac MuModel.
Require Import Ring Field.
Set Implicit Arguments.
Unset Strict Implicit.
Unset Printing Implicit Defensive.
Import Order.TTheory GRing.Theory Num.Theory.
Local Open Scope ring_scope.

(** * Specification *)
Section Spec.
Variable F : realFieldType.
(** Average return of asset i over the T observations. *)
Definition mean_return T n (X : 'M[F]_(T, n)) (i : 'I_n) : F := (\sum_t X t i) / T%:R.
(** Weights adding up to one. *)
Definition invested n (w : 'cV[F]_n) : Prop := \sum_i w i 0 = 1.
Definition minimum_variance n (S : 'M[F]_n) (w : 'cV[F]_n) : Prop := invested w /\ forall v, invested v -> form S w <= form S v.
(** Expected return of a portfolio. *)
Definition portfolio_return n (w : 'cV[F]_n) (m : 'I_n -> F) : F := \sum_i w i 0 * m i.
(** The weights whose return the target is: equal weights, or those of the minimum variance portfolio. *)
Definition target_weights n (vol_weighted : bool) (S : 'M[F]_n) (w : 'cV[F]_n) : Prop :=
  if vol_weighted then minimum_variance S w else forall i, w i 0 = n%:R^-1.
(** The values an eigenvalue routine returns for a symmetric matrix. *)
Definition eigenvalues_of n (S : 'M[F]_n) (e : seq F) : Prop :=
  exists (Q : 'M[F]_n) (d : 'I_n -> F), Q *m Q^T = 1%:M /\ S = Q *m (\matrix_(i, j) (if i == j then d i else 0)) *m Q^T /\ e = [seq d i | i <- enum 'I_n].
(** The largest variance of a portfolio whose squared weights add up to one. *)
Definition largest_variance n (S : 'M[F]_n) (l : F) : Prop :=
  (exists x : 'cV[F]_n, \sum_i x i 0 ^+ 2 = 1 /\ form S x = l) /\ forall x : 'cV[F]_n, \sum_i x i 0 ^+ 2 = 1 -> form S x <= l.
End Spec.

(** * Lemmas *)
Section Lemmas.
Variable F : realFieldType.
Variables T n : nat.
Implicit Types (S : 'M[F]_n) (w m t : 'cV[F]_n) (X : 'M[F]_(T, n)).
Definition ones : 'cV[F]_n := const_mx 1.
Lemma onesT w : (ones^T *m w) 0 0 = \sum_i w i 0.
Proof. by rewrite mxE; apply: eq_bigr => i _; rewrite !mxE mul1r. Qed.
Lemma Tones w : (w^T *m ones) 0 0 = \sum_i w i 0.
Proof. by rewrite mxE; apply: eq_bigr => i _; rewrite !mxE mulr1. Qed.
Lemma bil_form M (x : 'cV[F]_n) : bil M x x = form M x. Proof. by []. Qed.
Lemma sum_inv S : \sum_i \sum_j (invmx S) i j = form (invmx S) ones.
Proof.
rewrite /form -mulmxA onesT; apply: eq_bigr => i _; rewrite mxE; apply: eq_bigr => j _; by rewrite !mxE mulr1.
Qed.
Lemma sum_inv_mu S m : symmetric (invmx S) -> \sum_i (\sum_j (invmx S) i j) * m i 0 = (ones^T *m invmx S *m m) 0 0.
Proof.
move=> H; rewrite mxE; apply: eq_bigr => i _; congr (_ * _); rewrite mxE; apply: eq_bigr => j _; by rewrite !mxE mul1r H.
Qed.
Lemma ones0 : (0 < n)%N -> ones != 0.
Proof.
move=> n0; apply/eqP=> /matrixP /(_ (Ordinal n0) 0); rewrite !mxE => /eqP; by rewrite oner_eq0.
Qed.
(** the minimum variance portfolio *)
Definition mv S : 'cV[F]_n := (form (invmx S) ones)^-1 *: (invmx S *m ones).
Lemma mv_unique S w : (0 < n)%N -> symmetric S -> positive S -> minimum_variance S w -> w = mv S.
Proof.
move=> n0 H P [I M]; have U := positive_unit P; have [Hi _] := inv_form H U.
have c0 : 0 < form (invmx S) ones by apply: (positive_inv H P) (ones0 n0).
have Imv : invested (mv S).
  rewrite /invested -onesT /mv -scalemxAr mxE mulmxA -/(form _ _) mulVf //; by rewrite gt_eqF.
have E : form S w = form S (mv S) + form S (w - mv S).
  have {1}-> : w = mv S + (w - mv S) by rewrite addrC subrK.
  rewrite form_sum //.
  suff -> : ((mv S)^T *m S *m (w - mv S)) 0 0 = 0 by rewrite mulr0 addr0.
  rewrite {1}/mv.
  have -> : ((form (invmx S) ones)^-1 *: (invmx S *m ones))^T *m S = (form (invmx S) ones)^-1 *: ones^T.
    have -> : ((form (invmx S) ones)^-1 *: (invmx S *m ones))^T = (form (invmx S) ones)^-1 *: (invmx S *m ones)^T by apply/matrixP=> i j; rewrite !mxE.
    by rewrite trmx_mul (sym_tr Hi) -scalemxAl mulmxKV.
  rewrite -scalemxAl mxE onesT.
  suff -> : \sum_i (w - mv S) i 0 = 0 by rewrite mulr0.
  under eq_bigr => i _ do rewrite mxE [X in _ + X]mxE.
  by rewrite sumrB I Imv subrr.
have D : form S (w - mv S) <= 0 by have := M _ Imv; rewrite E ger_addl.
apply/eqP; rewrite -subr_eq0; apply/negPn/negP=> N; by have := P _ N; rewrite ltNge D.
Qed.
Lemma target_grand S m t : target false S m = inr t -> t = const_mx ((\sum_i m i 0) / n%:R).
Proof. by rewrite /target /divide; case: eqP => //= _ []. Qed.
Lemma target_const v S m t : target v S m = inr t -> exists x, t = const_mx x.
Proof.
rewrite /target /divide /inverse; case: v; last by case: eqP => //= _ [] <-; eexists.
case: (S \in unitmx) => //=; case: eqP => //= _ [] <-; by eexists.
Qed.
(** the target is the sample return of the target weights, the same for every asset *)
Lemma target_return v S m t w : (0 < n)%N -> symmetric S -> positive S -> target v S m = inr t -> target_weights v S w ->
  invested w /\ forall i, t i 0 = portfolio_return w (fun i => m i 0).
Proof.
move=> n0 H P; rewrite /target_weights; case: v => [|/target_grand ->] ; last first.
  move=> W; split=> [|i]; rewrite /invested /portfolio_return.
    under eq_bigr => i _ do rewrite W.
    by rewrite sumr_const card_ord -(mulr_natl (n%:R^-1 : F) n) mulfV // pnatr_eq0 -lt0n.
  rewrite mxE mulrC mulr_sumr; by apply: eq_bigr => j _; rewrite W.
move=> E W; have := W; move=> [I _]; split=> // i; rewrite (mv_unique n0 H P W).
have U := positive_unit P; have [Hi _] := inv_form H U.
move: E; rewrite /target /inverse U /= /divide; case: eqP => //= _ [] <-; rewrite mxE.
rewrite sum_inv sum_inv_mu // /portfolio_return.
have -> : \sum_i0 (mv S) i0 0 * m i0 0 = ((mv S)^T *m m) 0 0 by rewrite mxE; apply: eq_bigr => j _; rewrite [X in X * _ = _]mxE [X in _ = X * _]mxE [X in _ = X * _]mxE.
have -> : (mv S)^T = (form (invmx S) ones)^-1 *: (ones^T *m invmx S).
  rewrite /mv; have -> : ((form (invmx S) ones)^-1 *: (invmx S *m ones))^T = (form (invmx S) ones)^-1 *: (invmx S *m ones)^T by apply/matrixP=> a b; rewrite !mxE.
  by rewrite trmx_mul (sym_tr Hi).
by rewrite -scalemxAl [RHS]mxE mulrC.
Qed.
Lemma target_ok v S m : (0 < n)%N -> symmetric S -> positive S -> exists t, target v S m = inr t.
Proof.
move=> n0 H P; rewrite /target; case: v; last first.
  rewrite /divide ifF /=; first by eexists.
  by apply/negbTE; rewrite pnatr_eq0 -lt0n.
have U := positive_unit P; rewrite /inverse U /= /divide sum_inv ifF /=; first by eexists.
apply/negbTE; rewrite gt_eqF //; exact: (positive_inv H P) (ones0 n0).
Qed.
Lemma sample_mean X i : sample_mu X i 0 = mean_return X i. Proof. by rewrite mxE. Qed.
Lemma fitted method v eig S X r : shrunk_mu method v eig S X = inr r ->
  exists t, target v S (sample_mu X) = inr t /\ intensities T method eig S (sample_mu X) t = inr (alpha_ r, beta_ r) /\ mu_target_ r = t /\
    forall i, mu_ r i 0 = alpha_ r * mean_return X i + beta_ r * t i 0.
Proof.
rewrite /shrunk_mu; case: (target _ _ _) => [//|t] /=; case E: (intensities _ _ _ _ _ _) => [//|[a b]] [] <-; exists t; do 3 split => //.
by move=> i; rewrite !mxE.
Qed.
Lemma alpha_beta method v eig S X r : method <> BodnarOkhrin -> shrunk_mu method v eig S X = inr r -> alpha_ r = 1 - beta_ r.
Proof.
move=> N /fitted [t [_ [E _]]]; move: E; rewrite /intensities /divide /inverse; case: method N => // _.
  by case: eqP => //= _; case: eqP => //= _ [] <- <-.
by case: (_ \in _) => //=; case: eqP => //= _ [] <- <-.
Qed.
End Lemmas.
Section Eigen.
Variable F : realFieldType.
Lemma sq_norm n (x : 'cV[F]_n) : (x^T *m x) 0 0 = \sum_i x i 0 ^+ 2.
Proof. by rewrite mxE; apply: eq_bigr => i _; rewrite !mxE expr2. Qed.
Lemma max_fold (h : F) (e : seq F) : foldr Order.max h e \in h :: e /\ forall x, x \in h :: e -> x <= foldr Order.max h e.
Proof.
elim: e => [|y e [I M]] /=; first by split=> [|x]; rewrite ?inE ?eqxx // => /eqP ->.
split.
  rewrite maxEle; case: ifP => _; last by rewrite !inE eqxx orbT.
  by move: I; rewrite !inE => /orP [->|->] //; rewrite !orbT.
move=> x; rewrite inE le_maxr => /orP [/eqP ->|]; first by rewrite M ?orbT // inE eqxx.
rewrite inE => /orP [/eqP ->|X]; first by rewrite lexx.
by rewrite M ?orbT // inE X orbT.
Qed.
Lemma largest_in (e : seq F) : e <> [::] -> largest e \in e /\ forall x, x \in e -> x <= largest e.
Proof.
case: e => [//|h e] _; have [I M] := max_fold h (h :: e); rewrite /largest /=; split.
  by move: I; rewrite /= !inE orbA orbb.
by move=> x X; apply: M; rewrite inE X orbT.
Qed.
Lemma eigen_sum n (S : 'M[F]_n) e : eigenvalues_of S e -> \sum_(x <- e) x = \tr S.
Proof.
move=> [Q [d [O [-> ->]]]]; rewrite big_map -mulmxA mxtrace_mulC -mulmxA.
have -> : Q^T *m Q = 1%:M by apply: mulmx1C.
by rewrite mulmx1 big_enum /=; apply: eq_bigr => i _; rewrite mxE eqxx.
Qed.
Lemma eigen_max n (S : 'M[F]_n) e : (0 < n)%N -> eigenvalues_of S e -> largest_variance S (largest e).
Proof.
move=> n0 [Q [d [O [ES Ee]]]].
have [|I M] := @largest_in e.
  by move=> E0; have := congr1 size E0; rewrite Ee size_map size_enum_ord /= => E; rewrite E in n0.
have ES' x : form S x = \sum_i d i * (Q^T *m x) i 0 ^+ 2 by rewrite ES form_congr diag_form.
split.
  have [i _ ->] : exists2 i, i \in enum 'I_n & largest e = d i by apply/mapP; rewrite -Ee.
  exists (Q *m delta_mx i 0).
  have N : Q^T *m (Q *m delta_mx i 0) = (delta_mx i 0 : 'cV[F]_n) by rewrite mulmxA (mulmx1C O) mul1mx.
  have D j : (delta_mx i 0 : 'cV[F]_n) j 0 = (j == i)%:R by rewrite mxE eqxx andbT.
  split.
    rewrite -sq_norm trmx_mul -mulmxA N sq_norm (bigD1 i) //= big1 => [|j /negbTE J]; rewrite D ?eqxx ?J ?expr0n ?expr1n ?addr0 //.
  rewrite ES' N (bigD1 i) //= big1 => [|j /negbTE J]; rewrite D ?eqxx ?J ?expr0n ?expr1n ?addr0 ?mulr1 ?mulr0 //.
move=> x X; rewrite ES'.
have Y : \sum_i (Q^T *m x) i 0 ^+ 2 = 1 by rewrite -sq_norm trmx_mul trmxK -mulmxA (mulmxA Q) O mul1mx sq_norm.
rewrite -[largest e]mulr1 -Y mulr_sumr; apply: ler_sum => i _; apply: ler_wpmul2r; first exact: sqr_ge0.
by apply: M; rewrite Ee map_f // mem_enum.
Qed.
End Eigen.

Section Identity.
Variable F : realFieldType.
Add Field fmu : (fth F).
Lemma square_identity_ (z b c w : fT F) : ((z - (1 + 1) * (b * (c * w)) + b * b * w) - (z - (1 + 1) * (c * (c * w)) + c * c * w) = w * ((b - c) * (b - c)))%fr.
Proof. ring. Qed.
Lemma square_identity (z b c w : F) : z - 2%:R * (b * (c * w)) + b ^+ 2 * w - (z - 2%:R * (c * (c * w)) + c ^+ 2 * w) = w * (b - c) ^+ 2.
Proof. rewrite !expr2; exact: (square_identity_ z b c w). Qed.
Lemma bodnar_identity_ (u v w k : fT F) : (u * w - v * v)%fr <> 0%fr -> ((1 - ((u - k) * w - v * v) / (u * w - v * v)) * (u * w - v * v) = k * w)%fr.
Proof. move=> H; field; exact H. Qed.
Lemma bodnar_identity (u v w k : F) : u * w - v ^+ 2 <> 0 -> (1 - ((u - k) * w - v ^+ 2) / (u * w - v ^+ 2)) * (u * w - v ^+ 2) = k * w.
Proof. rewrite !expr2 => H; exact: (@bodnar_identity_ u v w k H). Qed.
Lemma utility_identity_ (d w c f : fT F) : (1 + 1)%fr <> (0%fr : fT F) -> (d * (w + c) - d / (1 + 1) * (w + (1 + 1) * c + f) = d * w - d / (1 + 1) * w - d / (1 + 1) * f)%fr.
Proof. move=> H; field; exact H. Qed.
Lemma utility_identity (d w c f : F) : d * (w + c) - d / 2%:R * (w + 2%:R * c + f) = d * w - d / 2%:R * w - d / 2%:R * f.
Proof. have H : (2%:R : F) <> 0 by apply/eqP; rewrite pnatr_eq0. exact: (@utility_identity_ d w c f H). Qed.
Lemma shrink_identity_ (b x t : fT F) : ((1 - b) * x + b * t - t = (1 - b) * (x - t))%fr.
Proof. ring. Qed.
Lemma shrink_identity (b x t : F) : (1 - b) * x + b * t - t = (1 - b) * (x - t).
Proof. exact: (shrink_identity_ b x t). Qed.
End Identity.
(** * Theorems *)
Section Theorems.
Variable F : realFieldType.
Variables T n : nat.
Implicit Types (S : 'M[F]_n) (X : 'M[F]_(T, n)).
(** The target: the same return for every asset, the average of the sample means or (vol_weighted_target) the sample return of the minimum
    variance portfolio. *)
Theorem C43_target method vol_weighted eig S X r w : (0 < n)%N -> symmetric S -> positive S ->
  shrunk_mu method vol_weighted eig S X = inr r -> target_weights vol_weighted S w ->
  forall i, mu_target_ r i 0 = portfolio_return w (mean_return X).
Proof.
move=> n0 H P /fitted [t [Et [_ [-> _]]]] W i; have [_ ->] := target_return n0 H P Et W; rewrite /portfolio_return.
by apply: eq_bigr => j _; rewrite sample_mean.
Qed.
(** James-Stein and Bayes-Stein do not change the expected return of the target portfolio: the cross-sectional average is kept (or, for the
    volatility-weighted target, the expected return of the minimum variance portfolio). *)
Theorem C43_preserved method vol_weighted eig S X r w : (0 < n)%N -> symmetric S -> positive S -> method <> BodnarOkhrin ->
  shrunk_mu method vol_weighted eig S X = inr r -> target_weights vol_weighted S w ->
  portfolio_return w (fun i => mu_ r i 0) = portfolio_return w (mean_return X).
Proof.
move=> n0 H P N E W; have A := alpha_beta N E; have Tg := C43_target n0 H P E W.
have [t [Et [_ [Er M]]]] := fitted E; have [I _] := target_return n0 H P Et W.
have -> : portfolio_return w (fun i => mu_ r i 0) = \sum_i (alpha_ r * (w i 0 * mean_return X i) + beta_ r * portfolio_return w (mean_return X) * w i 0).
  apply: eq_bigr => i _; rewrite M -Er Tg mulrDr; congr (_ + _); first by rewrite mulrCA.
  by rewrite mulrC.
by rewrite big_split /= -!mulr_sumr I mulr1 -/(portfolio_return w (mean_return X)) -mulrDl A subrK mul1r.
Qed.
(** Bayes-Stein always succeeds on a positive definite covariance; its intensity is the documented one, is in (0, 1], and every expected
    return is the corresponding weighted average of the sample mean and the target. *)
Theorem C43_bayes_stein vol_weighted eig S X : (0 < n)%N -> symmetric S -> positive S ->
  exists r, shrunk_mu BayesStein vol_weighted eig S X = inr r /\
    0 < beta_ r /\ beta_ r <= 1 /\
    (forall i, mu_ r i 0 = (1 - beta_ r) * mean_return X i + beta_ r * mu_target_ r i 0) /\
    beta_ r = (n + 2)%:R / (T%:R * form (invmx S) (\col_i (mean_return X i - mu_target_ r i 0)) + (n + 2)%:R) /\
    ((0 < T)%N -> (beta_ r = 1 <-> forall i, mean_return X i = mu_target_ r i 0)).
Proof.
move=> n0 H P; have [t Et] := target_ok vol_weighted (sample_mu X) n0 H P; have U := positive_unit P.
set f := form (invmx S) (sample_mu X - t).
have f0 : 0 <= f by apply: positive_nonneg (positive_inv H P) _.
have N0 : 0 < (n + 2)%:R :> F by rewrite ltr0n addn2.
have D0 : 0 < T%:R * f + (n + 2)%:R by rewrite ltr_paddl // mulr_ge0 // ler0n.
set b := (n + 2)%:R / (T%:R * f + (n + 2)%:R).
exists {| mu_ := (1 - b) *: sample_mu X + b *: t; mu_target_ := t; alpha_ := 1 - b; beta_ := b |}; split.
  by rewrite /shrunk_mu Et /= /inverse U /= /divide bil_form -/f gt_eqF.
rewrite /=; split; first by rewrite /b divr_gt0.
split; first by rewrite /b ler_pdivr_mulr // mul1r ler_addr mulr_ge0 // ler0n.
split; first by move=> i; rewrite !mxE.
have Ed : (\col_i (mean_return X i - t i 0)) = sample_mu X - t by apply/matrixP=> i j; rewrite !mxE !ord1.
split; first by rewrite Ed.
move=> T0; split=> [B i|Eq].
  have /eqP : T%:R * f = 0.
    have : b * (T%:R * f + (n + 2)%:R) = (n + 2)%:R by rewrite /b divfK // gt_eqF.
    by rewrite B mul1r => /(canRL (addrK _)); rewrite subrr.
  rewrite mulf_eq0 pnatr_eq0 -leqn0 leqNgt T0 /= => /eqP f00.
  have E0 : sample_mu X - t = 0.
    apply/eqP/negPn/negP=> N; have := positive_inv H P N; by rewrite -/f f00 ltxx.
  by have /matrixP /(_ i 0) := E0; rewrite mxE [X in _ + X]mxE [X in _ = X]mxE sample_mean => /eqP; rewrite subr_eq0 => /eqP.
suff -> : b = (n + 2)%:R / (n + 2)%:R by rewrite mulfV // gt_eqF.
rewrite /b; suff -> : f = 0 by rewrite mulr0 add0r.
rewrite /f -Ed; have -> : (\col_i (mean_return X i - t i 0)) = 0 by apply/matrixP=> i j; rewrite !mxE Eq subrr.
exact: form_zero.
Qed.
(** James-Stein: fails to give finite numbers exactly when every sample mean already equals the target; otherwise the intensity is
    (total variance - 2 * largest variance) / (T * squared distance of the means from the target). *)
Theorem C43_james_stein vol_weighted (eig : 'M[F]_n -> seq F) S X : (0 < n)%N -> (0 < T)%N -> symmetric S -> positive S -> eigenvalues_of S (eig S) ->
  (shrunk_mu JamesStein vol_weighted eig S X = inl NotFinite /\ exists x, forall i, mean_return X i = x) \/
  (exists r l, shrunk_mu JamesStein vol_weighted eig S X = inr r /\ largest_variance S l /\
    (exists i, mean_return X i <> mu_target_ r i 0) /\
    beta_ r * (T%:R * \sum_i (mean_return X i - mu_target_ r i 0) ^+ 2) = \tr S - 2%:R * l /\
    (forall i, mu_ r i 0 = (1 - beta_ r) * mean_return X i + beta_ r * mu_target_ r i 0)).
Proof.
move=> n0 T0 H P He; have [t Et] := target_ok vol_weighted (sample_mu X) n0 H P.
have [x Ex] := target_const Et.
rewrite /shrunk_mu Et /= (eigen_sum He).
set D := \sum_i (sample_mu X i 0 - t i 0) ^+ 2.
have ED : D = \sum_i (mean_return X i - t i 0) ^+ 2 by apply: eq_bigr => i _; rewrite sample_mean.
rewrite /divide; case: eqP => [D0|/eqP D0] /=; [left|right].
  split=> //; exists x => i; apply/eqP; rewrite -subr_eq0 -sqrf_eq0.
  have /eqP := D0; rewrite ED psumr_eq0; last by move=> j _; exact: sqr_ge0.
  by move=> /allP /(_ i (mem_index_enum i)); rewrite Ex mxE.
have T1 : T%:R != 0 :> F by rewrite pnatr_eq0 -lt0n.
rewrite (negbTE T1) /=; eexists; exists (largest (eig S)); split; first by []. rewrite /=; split; first exact: eigen_max.
split.
  case: (pickP (fun i => mean_return X i != t i 0)) => [i Hi|A]; first by exists i; apply/eqP.
  move/negP: D0; case; rewrite ED; apply/eqP; apply: big1 => i _; have /negbFE/eqP -> := A i; by rewrite subrr expr0n.
split; last by move=> i; rewrite !mxE.
rewrite -ED; set N := _ - _; by rewrite (mulrC T%:R) mulrA -[N / D / T%:R * D]mulrA (mulrC T%:R^-1) mulrA !divfK.
Qed.

(** Bodnar-Okhrin: raises when there are as many observations as assets; otherwise, writing <x, y> for x' S^-1 y, m for the sample means and t
    for the target, 1 - alpha = n / (T - n) * <t, t> / (<m, m> <t, t> - <m, t>^2), below one only if T > n, and beta = (1 - alpha) <m, t> / <m, m>. *)
Theorem C43_bodnar_okhrin vol_weighted eig S X : (0 < n)%N -> symmetric S -> positive S ->
  (T = n -> shrunk_mu BodnarOkhrin vol_weighted eig S X = inl ZeroDivision) /\
  (forall r, shrunk_mu BodnarOkhrin vol_weighted eig S X = inr r ->
    let m := \col_i mean_return X i in let t := mu_target_ r in
    let u := form (invmx S) m in let w := form (invmx S) t in let v := (m^T *m invmx S *m t) 0 0 in
    [/\ T <> n, u * w - v ^+ 2 <> 0, (1 - alpha_ r) * (u * w - v ^+ 2) = n%:R / (T%:R - n%:R) * w,
        beta_ r * u = (1 - alpha_ r) * v & forall i, mu_ r i 0 = alpha_ r * mean_return X i + beta_ r * t i 0]).
Proof.
move=> n0 H P; have U := positive_unit P; split=> [E|r Er].
  have [t Et] := target_ok vol_weighted (sample_mu X) n0 H P.
  by rewrite /shrunk_mu Et /= /inverse U /=; have -> : (T == n) = true by apply/eqP.
have [t [Et [Ei [-> M]]]] := fitted Er.
have Em : \col_i mean_return X i = sample_mu X by apply/matrixP=> i j; rewrite !mxE.
rewrite /= Em; move: Ei; rewrite /intensities /inverse U /= !bil_form -/(bil (invmx S) (sample_mu X) t).
set u := form _ _; set w := form _ _; set v := bil _ _ _.
case: eqP => //= TN; rewrite /divide; case: eqP => //= D0; case: eqP => //= U0 [] Ea Eb; split=> //.
  rewrite -Ea; exact: bodnar_identity.
by rewrite -Eb -Ea divfK //; exact/eqP.
Qed.
(** Finding.  In the method's definition beta projects the sample mean on the target, <m, t> / <t, t>; the code divides by <m, m>.  Whenever
    that makes a difference, another multiple of the target brings the estimate closer to the sample means. *)
Theorem C43_bodnar_okhrin_projection_refuted vol_weighted eig S X r : (0 < n)%N -> symmetric S -> positive S ->
  shrunk_mu BodnarOkhrin vol_weighted eig S X = inr r ->
  let m := \col_i mean_return X i in let t := mu_target_ r in
  alpha_ r <> 1 -> (m^T *m invmx S *m t) 0 0 <> 0 -> form (invmx S) m <> form (invmx S) t ->
  exists b, form (invmx S) (m - (alpha_ r *: m + b *: t)) < form (invmx S) (m - mu_ r).
Proof.
move=> n0 H P Er m t A1 V0 UW; have U := positive_unit P; have [Hi _] := inv_form H U.
have [_ /(_ r Er) /= [_ D0 _ B M]] := C43_bodnar_okhrin vol_weighted eig X n0 H P.
move: (V0) (UW) (D0) (B); rewrite -/m -/t; set u := form _ m; set w := form _ t; set v := (_ *m t) 0 0.
move=> {}V0 {}UW {}D0 {}B.
have t0 : t != 0 by apply/eqP=> E; apply: V0; rewrite /v E mulmx0 mxE.
have w0 : 0 < w by apply: (positive_inv H P).
have m0 : m != 0 by apply/eqP=> E; apply: V0; rewrite /v E trmx0 mul0mx mul0mx mxE.
have u0 : 0 < u by apply: (positive_inv H P).
have Emu : mu_ r = alpha_ r *: m + beta_ r *: t by apply/matrixP=> i j; rewrite ord1 M !mxE.
have Fb b : form (invmx S) (m - (alpha_ r *: m + b *: t)) = (1 - alpha_ r) ^+ 2 * u - 2%:R * ((1 - alpha_ r) * b * v) + b ^+ 2 * w.
  have -> : m - (alpha_ r *: m + b *: t) = (1 - alpha_ r) *: m + (- b) *: t by rewrite opprD addrA scalerBl scale1r scaleNr.
  rewrite form_sum //.
  have Sc (a : F) (x : 'cV[F]_n) : form (invmx S) (a *: x) = a ^+ 2 * form (invmx S) x.
    rewrite /form; have -> : (a *: x)^T = a *: x^T by apply/matrixP=> i j; rewrite !mxE.
    by rewrite -!scalemxAl -scalemxAr scalerA mxE expr2.
  rewrite !Sc sqrrN; congr (_ + _ + _).
  have -> : ((1 - alpha_ r) *: m)^T = (1 - alpha_ r) *: m^T by apply/matrixP=> i j; rewrite !mxE.
  by rewrite -!scalemxAl -scalemxAr scalerA mxE -mulrN; congr (_ * _); rewrite mulrN mulNr.
exists ((1 - alpha_ r) * v / w); rewrite Emu !Fb -subr_gt0.
set c := 1 - alpha_ r; set b := beta_ r; set b' := c * v / w.
have Eb : c * v = b' * w by rewrite /b' divfK // gt_eqF.
have K (y : F) : c * y * v = y * (b' * w) by rewrite -Eb mulrCA mulrA.
have -> : c ^+ 2 * u - 2%:R * (c * b * v) + b ^+ 2 * w - (c ^+ 2 * u - 2%:R * (c * b' * v) + b' ^+ 2 * w) = w * (b - b') ^+ 2.
  rewrite !K; exact: square_identity.
apply: mulr_gt0 => //; rewrite lt_def sqr_ge0 andbT sqrf_eq0 subr_eq0; apply/eqP=> E.
apply: UW; apply: (mulfI (x := c * v)).
  rewrite mulf_neq0 //; [rewrite subr_eq0 eq_sym|]; exact/eqP.
by rewrite {1}Eb -E mulrAC B mulrC.
Qed.

End Theorems.
Section TwoAssets.
Variable F : realFieldType.
Variables T : nat.
(** Finding.  With two assets James-Stein never moves the estimates towards the target: the largest variance is at least half of the total. *)
Theorem C43_james_stein_two_assets_refuted vol_weighted (eig : 'M[F]_2 -> seq F) (S : 'M[F]_2) (X : 'M[F]_(T, 2)) r : (0 < T)%N -> symmetric S -> positive S -> eigenvalues_of S (eig S) ->
  shrunk_mu JamesStein vol_weighted eig S X = inr r -> forall i, `|mean_return X i - mu_target_ r i 0| <= `|mu_ r i 0 - mu_target_ r i 0|.
Proof.
move=> T0 H P He Er i; have [[E _]|[r' [l [Er' [[_ L] [[k Hk] [B M]]]]]]] := C43_james_stein vol_weighted X (isT : (0 < 2)%N) T0 H P He.
  by rewrite E in Er.
move: Er'; rewrite Er => -[E]; rewrite -E in Hk B M => {E r'}.
have D (j : 'I_2) : S j j <= l.
  have <- : form S (delta_mx j 0) = S j j.
    rewrite /form trmx_delta -rowE mxE (bigD1 j) //= big1 => [|a /negbTE J]; first by rewrite !mxE !eqxx mulr1 addr0.
    by rewrite !mxE J mulr0.
  apply: L; rewrite (bigD1 j) //= big1 => [|a /negbTE J]; first by rewrite !mxE !eqxx expr1n addr0.
  by rewrite mxE J expr0n.
have Tr : \tr S - 2%:R * l <= 0.
  rewrite subr_le0 /mxtrace big_ord_recl big_ord1 mulr_natl mulr2n; by apply: ler_add; apply: D.
have b0 : beta_ r <= 0.
  rewrite -B in Tr; move: Tr; rewrite pmulr_lle0 // mulr_gt0 ?ltr0n //.
  rewrite (bigD1 k) //=; apply: ltr_paddr; first by apply: sumr_ge0 => a _; exact: sqr_ge0.
  by rewrite lt_def sqr_ge0 andbT sqrf_eq0 subr_eq0; apply/eqP.
have -> : mu_ r i 0 - mu_target_ r i 0 = (1 - beta_ r) * (mean_return X i - mu_target_ r i 0).
  rewrite M; exact: shrink_identity.
rewrite normrM -{1}[`|_|]mul1r; apply: ler_wpmul2r; first exact: normr_ge0.
by rewrite ger0_norm ?ler_addl ?oppr_ge0 // subr_ge0; apply: le_trans b0 _; exact: ler01.
Qed.
End TwoAssets.
Section Equilibrium.
Variable F : realFieldType.
(** C61: the equilibrium expected returns are the ones for which the given weights (equal weights by default) are the best choice of an
    investor maximising expected return minus half of risk aversion times variance; with a positive definite covariance, the only one. *)
Definition utility n (risk_aversion : F) (mu : 'cV[F]_n) (S : 'M[F]_n) (w : 'cV[F]_n) : F :=
  portfolio_return w (fun i => mu i 0) - risk_aversion / 2%:R * form S w.
Theorem C61_equilibrium n (risk_aversion : F) (weights : option 'cV[F]_n) (S : 'M[F]_n) : 0 < risk_aversion -> symmetric S -> nonnegative S ->
  let mu := equilibrium_mu risk_aversion weights S in
  let w := if weights is Some w then w else const_mx n%:R^-1 in
  (forall v, utility risk_aversion mu S v <= utility risk_aversion mu S w) /\
  (positive S -> forall v, v <> w -> utility risk_aversion mu S v < utility risk_aversion mu S w) /\
  portfolio_return w (fun i => mu i 0) = risk_aversion * form S w.
Proof.
move=> d0 H N mu w.
have R v : portfolio_return v (fun i => mu i 0) = risk_aversion * (v^T *m S *m w) 0 0.
  rewrite /mu /equilibrium_mu -/w /portfolio_return.
  transitivity ((v^T *m (risk_aversion *: (S *m w))) 0 0); last by rewrite -scalemxAr mxE mulmxA.
  rewrite [RHS]mxE; apply: eq_bigr => i _; by rewrite [in RHS]mxE.
have E v : utility risk_aversion mu S v = utility risk_aversion mu S w - risk_aversion / 2%:R * form S (v - w).
  rewrite /utility !R -/(form S w).
  have {2}-> : v = w + (v - w) by rewrite addrC subrK.
  have -> : (v^T *m S *m w) 0 0 = form S w + (w^T *m S *m (v - w)) 0 0.
    by rewrite (form_cross _ _ H) mulmxBr [X in _ + X]mxE [X in _ + (_ + X)]mxE addrC subrK.
  rewrite form_sum //; exact: utility_identity.
have h0 : 0 < risk_aversion / 2%:R by rewrite divr_gt0 // ltr0n.
split; first by move=> v; rewrite (E v) ger_addl oppr_le0 mulr_ge0 // ltW.
split; last by rewrite R.
by move=> P v /eqP V; rewrite (E v) gtr_addl oppr_lt0 mulr_gt0 // P // subr_eq0.
Qed.
End Equilibrium.
(** * Concrete cases *)
Section Examples.
Lemma one_symmetric n : symmetric (1%:M : 'M[rat]_n). Proof. by apply: tr_sym; rewrite trmx1. Qed.
Lemma one_positive n : positive (1%:M : 'M[rat]_n).
Proof.
have -> : (1%:M : 'M[rat]_n) = \matrix_(i, j) (if i == j then 1 else 0) by apply/matrixP=> i j; rewrite !mxE; case: eqP.
by apply: diag_positive.
Qed.
Lemma one_eigenvalues n : eigenvalues_of (1%:M : 'M[rat]_n) (nseq n 1).
Proof.
exists 1%:M, (fun _ => 1); split; first by rewrite trmx1 mulmx1.
split; first by rewrite trmx1 mulmx1 mul1mx; apply/matrixP=> i j; rewrite !mxE; case: eqP.
by rewrite -[n in LHS]size_enum_ord; elim: (enum _) => //= a l ->.
Qed.
Definition ex_X : 'M[rat]_(12, 2) := \matrix_(t, i) (if i == 0 then 1 else 2%:R).
Lemma ex_mean i : mean_return ex_X i = if i == 0 then 1 else 2%:R.
Proof.
rewrite /mean_return; under eq_bigr => t _ do rewrite mxE.
by case: (i == 0); rewrite sumr_const card_ord.
Qed.
Lemma ex_sample : sample_mu ex_X = \col_i (if i == 0 then 1 else 2%:R).
Proof. by apply/matrixP=> i j; rewrite [RHS]mxE -ex_mean mxE. Qed.
Lemma bil1 (u v : 'cV[rat]_2) : bil (1%:M) u v = u 0 0 * v 0 0 + u 1 0 * v 1 0.
Proof. by rewrite /bil mulmx1 mxE big_ord_recl big_ord1 !mxE; congr (_ + u _ _ * v _ _); apply/val_inj. Qed.
Lemma ex_target : target false (1%:M : 'M[rat]_2) (sample_mu ex_X) = inr (const_mx (3%:R / 2%:R)).
Proof. by rewrite /target /divide ex_sample big_ord_recl big_ord1 !mxE. Qed.
Definition ex_r (a b : rat) : shrunk rat_realFieldType 2 :=
  {| mu_ := a *: (\col_i (if i == 0 then 1 else 2%:R)) + b *: const_mx (3%:R / 2%:R); mu_target_ := const_mx (3%:R / 2%:R); alpha_ := a; beta_ := b |}.
Lemma bind_inr (A B : Type) (a : A) (f : A -> mu_error + B) : bind (inr a) f = f a. Proof. by []. Qed.
Lemma divide_eq (x y z : rat) : y != 0 -> x / y == z -> divide (x : rat_realFieldType) y = inr z.
Proof. by rewrite /divide => /negbTE -> /eqP ->. Qed.
Lemma ex_vals : [/\ bil (1%:M : 'M[rat]_2) (sample_mu ex_X) (sample_mu ex_X) = 5%:R,
  bil (1%:M : 'M[rat]_2) (sample_mu ex_X) (const_mx (3%:R / 2%:R)) = 9%:R / 2%:R,
  bil (1%:M : 'M[rat]_2) (const_mx (3%:R / 2%:R)) (const_mx (3%:R / 2%:R)) = 9%:R / 2%:R &
  bil (1%:M : 'M[rat]_2) (sample_mu ex_X - const_mx (3%:R / 2%:R)) (sample_mu ex_X - const_mx (3%:R / 2%:R)) = 2%:R^-1].
Proof.
have E0 : sample_mu ex_X 0 0 = 1 by rewrite ex_sample mxE eqxx.
have E1 : sample_mu ex_X 1 0 = 2%:R by rewrite ex_sample mxE.
rewrite !bil1 E0 E1.
have D (i : 'I_2) : (sample_mu ex_X - const_mx (3%:R / 2%:R)) i 0 = sample_mu ex_X i 0 - 3%:R / 2%:R by rewrite mxE [X in _ + X]mxE [X in _ - X]mxE.
have C (i : 'I_2) : (const_mx (3%:R / 2%:R) : 'cV[rat]_2) i 0 = 3%:R / 2%:R by rewrite mxE.
by rewrite !D !C E0 E1; split; apply/eqP.
Qed.
(** twelve observations with means 1 and 2, unit covariance *)
Example C43_bodnar_example eig : shrunk_mu BodnarOkhrin false eig (1%:M : 'M[rat]_2) ex_X = inr (ex_r (3%:R / 5%:R) (9%:R / 25%:R)).
Proof.
have [U V W _] := ex_vals.
rewrite /shrunk_mu ex_target bind_inr /intensities /inverse unitmx1 bind_inr invmx1 U V W.
change (12 == 2)%N with false; cbv zeta iota; rewrite (@divide_eq _ _ (3%:R / 5%:R)) // bind_inr; cbv beta.
have -> : (1 - 3%:R / 5%:R) * (9%:R / 2%:R) / 5%:R = 9%:R / 25%:R :> rat by apply/eqP.
by rewrite ex_sample.
Qed.
Example C43_bodnar_refuted_hyps (r := ex_r (3%:R / 5%:R) (9%:R / 25%:R)) (m := \col_i mean_return ex_X i) (S := (1%:M : 'M[rat]_2)) :
  alpha_ r <> 1 /\ (m^T *m invmx S *m mu_target_ r) 0 0 <> 0 /\ form (invmx S) m <> form (invmx S) (mu_target_ r).
Proof.
have -> : m = sample_mu ex_X by apply/matrixP=> i j; rewrite /m !mxE.
have [U V W _] := ex_vals.
rewrite /S invmx1 -!bil_form -/(bil 1%:M (sample_mu ex_X) (mu_target_ r)) U V W; by split; [|split]; apply/eqP.
Qed.
(** Bayes-Stein on the same data: intensity 4 / (12 * 1/2 + 4) = 2/5 *)
Example C43_bayes_example eig : shrunk_mu BayesStein false eig (1%:M : 'M[rat]_2) ex_X = inr (ex_r (3%:R / 5%:R) (2%:R / 5%:R)).
Proof.
have [_ _ _ W] := ex_vals.
rewrite /shrunk_mu ex_target bind_inr /intensities /inverse unitmx1 bind_inr invmx1 W (@divide_eq _ _ (2%:R / 5%:R)) // !bind_inr ex_sample.
have -> : 1 - 2%:R / 5%:R = 3%:R / 5%:R :> rat by apply/eqP.
by [].
Qed.
End Examples.
Print Assumptions C43_target.
Print Assumptions C43_preserved.
Print Assumptions C43_bayes_stein.
Print Assumptions C43_james_stein.
Print Assumptions C43_bodnar_okhrin.
Print Assumptions C43_bodnar_okhrin_projection_refuted.
Print Assumptions C43_james_stein_two_assets_refuted.
Print Assumptions C61_equilibrium.
