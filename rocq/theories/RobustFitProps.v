(** Property C89: mean-variance optimisation with uncertainty sets is robust optimisation. *)
From mathcomp Require Import all_ssreflect all_algebra.
Require Import Ring Field.
From Verif Require Import FieldTac MatForm UncertaintyModel UncertaintyProps RobustFitModel.
Set Implicit Arguments.
Unset Strict Implicit.
Unset Printing Implicit Defensive.
Import Order.TTheory GRing.Theory Num.Theory.
Local Open Scope ring_scope.

(** * Specification *)
Section Spec.
Variable F : rcfType.
Variables (n : nat) (q : robust F n).
(** the expected returns the user allows for: those of the set around the estimate, or the estimate alone *)
Definition considered_mean (m : 'cV[F]_n) : Prop :=
  match mu_set q with None => m = mean q | Some (u, _) => possible_mean u (mean q) m end.
Definition considered_covariance (M : 'M[F]_n) : Prop := possible_covariance (covariance_set q) (covariance q) M.
(** the lowest expected return and the largest variance of weights over the sets *)
Definition lowest_return (x : 'cV[F]_n) (r : F) : Prop :=
  (forall m, considered_mean m -> r <= (m^T *m x) 0 0) /\ exists2 m, considered_mean m & r = (m^T *m x) 0 0.
Definition largest_variance (x : 'cV[F]_n) (v : F) : Prop :=
  (forall M, considered_covariance M -> form M x <= v) /\ exists2 M, considered_covariance M & v = form M x.
(** weights that meet the bounds, the budget, the inequalities and, whatever the mean and covariance in the sets, the minimum
    return and the maximum variance *)
Definition allowed (x : 'cV[F]_n) : Prop :=
  [/\ forall i, lower q i 0 <= x i 0 <= upper q i 0,
      match total q with None => True | Some b => \sum_i x i 0 = b end,
      forall r, r \in inequalities q -> (r.1 *m x) 0 0 <= r.2,
      match floor_return q with None => True | Some r => forall m, considered_mean m -> r <= (m^T *m x) 0 0 end &
      match max_variance q with None => True | Some l => forall M, considered_covariance M -> form M x <= l end].
(** the parameters are meaningful: positive scales, and sets of non-negative size with the square roots sqrtm is asked for *)
Definition sound : Prop :=
  [/\ 0 < scale_constraints q, 0 < scale_objective q,
      0 <= size_k (covariance_set q) /\ square_root (shape (covariance_set q)) (covariance_root q) &
      match mu_set q with None => True | Some (u, Q) => 0 <= size_k u /\ square_root (shape u) Q end].
(** the set of covariances is the one EmpiricalCovarianceUncertaintySet fits on T observations *)
Definition empirical (T : nat) (diagonal : bool) (quantile : F) : Prop :=
  [/\ (0 < T)%N, symmetric (covariance q), nonnegative (covariance q), 0 <= quantile &
      covariance_set q = empirical_covariance T (covariance q) diagonal quantile].
End Spec.

Section Lemmas.
Variable F : rcfType.
Variables (n : nat) (q : robust F n).
Hypothesis Hq : sound q.
Let s := scale_constraints q.
Lemma s_pos : 0 < s. Proof. by case: Hq. Qed.
Lemma h_pos : 0 < homogenization q.
Proof. by rewrite /homogenization lt_minr ltr0n /= lt_maxr invr_gt0 ltr0n. Qed.
Lemma er_lowest x : lowest_return q x (er q x).
Proof.
rewrite /lowest_return /considered_mean /er; case: Hq => _ _ _; case: (mu_set q) => [[u Q] [k0 R]|_].
- have [A [m [Hm Em]]] := C55_mu_worst_case (mean q) x k0 R; split=> //; by exists m.
- by split=> [m ->|]; [|exists (mean q)].
Qed.
Lemma lowest_unique x r : lowest_return q x r -> r = er q x.
Proof.
have [A [m Hm Em]] := er_lowest x; move=> [B [m' Hm' Em']].
by apply/eqP; rewrite eq_le {1}Em {2}Em' (B _ Hm) (A _ Hm').
Qed.
Lemma er_scale t x : 0 < t -> er q (t *: x) = t * er q x.
Proof.
move=> t0; have [_ [m Hm Em]] := er_lowest x; have [B [m' Hm' Em']] := er_lowest (t *: x); have [A _] := er_lowest x.
have E : forall (c : 'cV[F]_n), (c^T *m (t *: x)) 0 0 = t * (c^T *m x) 0 0 by move=> c; rewrite -scalemxAr mxE.
apply/eqP; rewrite eq_le; apply/andP; split.
- by rewrite Em -E; apply: B.
- by rewrite Em' E ler_pmul2l //; apply: A.
Qed.
Lemma variance_bound p : 0 < factor p -> worst_case_constraints s (weight p) (factor p) (vx p) (vy p) ->
  forall M, considered_covariance q M -> form M (reported p) <= risk q p / factor p.
Proof.
move=> f0 H M HM; case: Hq => s0 _ [k0 R] _.
exact: (C55_covariance_bound k0 R s0 f0 H HM).
Qed.
Lemma largest_unique x v v' : largest_variance q x v -> largest_variance q x v' -> v = v'.
Proof.
move=> [A [M HM E]] [A' [M' HM' E']]; apply/eqP; rewrite eq_le; apply/andP; split.
- by rewrite E; apply: A'.
- by rewrite E'; apply: A.
Qed.
Lemma largest_nonneg x v : largest_variance q x v -> 0 <= v.
Proof. by case=> _ [M [_ N _] ->]; apply: N. Qed.
Lemma weights_iff x t : 0 < t -> weight_constraints q (t *: x) t <->
  [/\ forall i, lower q i 0 <= x i 0 <= upper q i 0,
      match total q with None => True | Some b => \sum_i x i 0 = b end &
      forall r, r \in inequalities q -> (r.1 *m x) 0 0 <= r.2].
Proof.
move=> t0; have s0 := s_pos; have sn : scale_constraints q != 0 by rewrite gt_eqF. have tn : t != 0 by rewrite gt_eqF.
have L a b : (a * t * s <= t * b * s) = (a <= b) by rewrite ler_pmul2r // mulrC ler_pmul2l.
have U a b : (t * b * s <= a * t * s) = (b <= a) by rewrite ler_pmul2r // [a * t]mulrC ler_pmul2l.
have Sx : \sum_i (t *: x) i 0 = t * \sum_i x i 0 by rewrite mulr_sumr; apply: eq_bigr => i _; rewrite mxE.
split.
- case=> A [B [C D]]; split.
  + move=> i; have := A i; have := B i; rewrite mxE L U => -> ->. by [].
  + move: C; case: (total q) => // b; rewrite Sx => /(mulIf sn); rewrite mulrC [b * t]mulrC; rewrite [X in X = _]mulrC. by move/(mulfI tn).
  + move=> r Hr; have := D r Hr; rewrite subr_le0 -scalemxAr mxE U. by [].
- case=> A B C; split; first by move=> i; rewrite mxE L; case/andP: (A i).
  split; first by move=> i; rewrite mxE U; case/andP: (A i).
  split; first by move: B; case: (total q) => // b B; rewrite Sx B [b * t]mulrC.
  by move=> r Hr; rewrite subr_le0 -scalemxAr mxE U; apply: C.
Qed.
Lemma factor_pos p : feasible q p -> 0 < factor p.
Proof.
case=> A _ _ [H _] R; case: A => [A|->]; last exact: ltr01.
have s0 := s_pos; case: H => _ [_ [H _]]; move: H; rewrite semidefinite_scale // => H.
have f0 : 0 <= factor p.
  have := H (col_mx 0 1%:M); rewrite form_bordered expr1n mulr1 /form /dot !mulmx0 !mxE mulr0 mulr0 addr0 add0r. by [].
rewrite lt_def f0 andbT; apply/eqP => fz.
have wz : weight p = 0.
  apply/matrixP => i j; rewrite ord1 [RHS]mxE; apply/eqP; apply: contraT => wn.
  set a := form (vx p) (delta_mx i 0).
  have := H (col_mx (delta_mx i 0) (- ((a + 1) / (2%:R * weight p i 0)))%:M); rewrite form_bordered fz mul0r addr0 -/a.
  have -> : dot (weight p) (delta_mx i 0) = weight p i 0.
    by rewrite dotE (bigD1 i) //= big1 => [|k /negbTE kn]; rewrite mxE ?kn ?mulr0 // !eqxx mulr1 addr0.
  have -> : 2%:R * (- ((a + 1) / (2%:R * weight p i 0)) * weight p i 0) = - (a + 1).
    have tn : (2%:R : F) != 0 by rewrite pnatr_eq0.
    move: (weight p i 0) wn => b bn; have K : 2%:R * ((a + 1) / (2%:R * b) * b) = a + 1; last by rewrite mulNr mulrN K.
    by rewrite mulrC -[X in X = _]mulrA [b * _]mulrC divfK // mulf_neq0.
  by rewrite opprD addrA subrr add0r oppr_ge0 ler10.
have ez : er q (weight p) = 0 by have [_ [m _ ->]] := er_lowest (weight p); rewrite wz mulmx0 mxE.
have hp := mulr_gt0 h_pos s0; move: (R A); rewrite ez fz mulr0 !mul0r subrr.
case: (mu_set q) => [_|] H0; first by move: hp; rewrite ltNge H0.
by move: hp; rewrite -H0 ltxx.
Qed.
(** feasible points and allowed weights *)
Lemma feasible_allowed p : feasible q p -> allowed q (reported p).
Proof.
move=> Fp; have f0 := factor_pos Fp; have fn : factor p != 0 by rewrite gt_eqF. have s0 := s_pos.
have Ew : weight p = factor p *: reported p by rewrite /reported scalerA divff // scale1r.
case: Fp => _ W Fl [C L] _; move: W; rewrite {1}Ew; case/weights_iff => // A B D; split=> //.
- move: Fl; case: (floor_return q) => // r; rewrite ler_pmul2r // Ew er_scale // mulrC ler_pmul2l // => H m Hm.
  by apply: le_trans H _; have [E _] := er_lowest (reported p); apply: E.
- move: L; case: (max_variance q) => // l; rewrite ler_pmul2r // => H M HM.
  by apply: le_trans (variance_bound f0 C HM) _; rewrite ler_pdivr_mulr.
Qed.
Section Empirical.
Variables (T : nat) (diagonal : bool) (quantile : F).
Hypothesis He : empirical q T diagonal quantile.
Lemma variance_attained x t : 0 < t -> exists X Y v,
  [/\ worst_case_constraints s (t *: x) t X Y, largest_variance q x v &
      risk q {| weight := t *: x; factor := t; vx := X; vy := Y |} = t * v].
Proof.
move=> t0; case: Hq He => s0 _ [_ R] _ [T0 HS N q0 E]; rewrite E in R.
have [X [Y [M [C1 C2 C3]]]] := C55_covariance_exact (t *: x) T0 HS N q0 s0 t0 R.
have tn : t != 0 by rewrite gt_eqF.
move: C3; rewrite scalerA mulVf // scale1r => C3.
have Er : risk q {| weight := t *: x; factor := t; vx := X; vy := Y |} = t * form M x.
  by rewrite C3 /risk /= E mulrCA divff // mulr1.
exists X, Y, (form M x); split=> //; split; last by exists M; rewrite ?/considered_covariance ?E.
move=> M' HM'; pose p := {| weight := t *: x; factor := t; vx := X; vy := Y |}.
have := @variance_bound p t0 C1 M' HM'; by rewrite /reported /= scalerA mulVf // scale1r Er mulrC mulKf.
Qed.
Lemma allowed_feasible x t v : 0 < t -> (is_ratio q \/ t = 1) -> allowed q x -> largest_variance q x v ->
  (is_ratio q -> t * (er q x - risk_free q) = homogenization q) ->
  exists2 p, feasible q p & [/\ weight p = t *: x, factor p = t & risk q p = t * v].
Proof.
move=> t0 Ht [A B D E G] Hv Hr; have s0 := s_pos.
have [X [Y [v' [C1 C2 C3]]]] := variance_attained x t0; rewrite -(largest_unique Hv C2) in C3.
exists {| weight := t *: x; factor := t; vx := X; vy := Y |}; last by split.
split=> //=.
- exact/weights_iff.
- move: E; case: (floor_return q) => // r H; rewrite ler_pmul2r // er_scale // mulrC ler_pmul2l //.
  by have [_ [m Hm ->]] := er_lowest x; apply: H.
- split=> //; move: G; case: (max_variance q) => // l H; rewrite ler_pmul2r // C3 mulrC ler_pmul2r //.
  by case: Hv => _ [M HM ->]; apply: H.
- move=> R; rewrite er_scale // -mulrBl [_ * t]mulrC -mulrBr Hr //; by case: (mu_set q).
Qed.
Lemma robust_optimal p : optimal q p -> allowed q (reported p) /\
  (forall m, considered_mean q m -> er q (reported p) <= (m^T *m reported p) 0 0) /\
  forall y vx vy rx ry, allowed q y -> largest_variance q (reported p) vx -> largest_variance q y vy ->
    lowest_return q (reported p) rx -> lowest_return q y ry ->
    match aim q return Prop with
    | MinimizeRisk => vx <= vy
    | MaximizeReturn => ry <= rx
    | MaximizeUtility => 0 <= aversion q -> ry - aversion q * vy <= rx - aversion q * vx
    | MaximizeRatio => 0 < rx - risk_free q /\ (0 < ry - risk_free q -> vx * (ry - risk_free q) <= vy * (rx - risk_free q))
    end.
Proof.
case=> Fp O; split; first exact: feasible_allowed. split; first by have [H _] := er_lowest (reported p).
move=> y v v' r r' Ay Hv Hv' /lowest_unique -> /lowest_unique ->.
have f0 := factor_pos Fp; have fn : factor p != 0 by rewrite gt_eqF. have s0 := s_pos.
have Ew : weight p = factor p *: reported p by rewrite /reported scalerA divff // scale1r.
have so : 0 < scale_objective q by case: Hq.
have B : factor p * v <= risk q p.
  case: Hv => _ [M HM ->]; case: (Fp) => _ _ _ [C _] _; have := variance_bound f0 C HM; by rewrite ler_pdivl_mulr // mulrC.
have N1 : ~~ is_ratio q -> exists2 p', feasible q p' & [/\ weight p' = y, factor p = 1 & risk q p' = v'].
  move=> nr; have F1 : factor p = 1 by case: (Fp) => [[R|//]]; rewrite R in nr.
  have [|p' Fp' [E1 _ E3]] := @allowed_feasible y 1 v' ltr01 (or_intror erefl) Ay Hv'; first by move=> R; rewrite R in nr.
  by exists p' => //; split=> //; rewrite ?E1 ?E3 ?scale1r ?mul1r.
move: (Fp) N1 O; rewrite /is_ratio /loss => Fp'; case Ea: (aim q) => N1 O.
- have [//|p' F' [E1 E2 E3]] := N1; have := O p' F'; rewrite ler_pmul2r // E3 => H. by move: B; rewrite E2 mul1r => B; apply: le_trans H.
- have [//|p' F' [E1 E2 E3]] := N1; have := O p' F'; rewrite ler_opp2 ler_pmul2r // E1 Ew E2 scale1r. by [].
- have [//|p' F' [E1 E2 E3]] := N1; have := O p' F'; rewrite ler_opp2 -!mulrBl ler_pmul2r // E1 E3 Ew E2 scale1r => H a0.
  by apply: le_trans H _; rewrite ler_add2l ler_opp2 ler_wpmul2l //; move: B; rewrite E2 mul1r.
- have Ir : is_ratio q by rewrite /is_ratio Ea.
  have Hh : homogenization q <= factor p * (er q (reported p) - risk_free q).
    have Ee : er q (weight p) = factor p * er q (reported p) by rewrite {1}Ew er_scale.
    case: Fp' => _ _ _ _ /(_ Ir); rewrite Ee -mulrBl [risk_free q * _]mulrC -mulrBr.
    by case: (mu_set q) => [_|/(mulIf (lt0r_neq0 s0)) ->]; rewrite ?ler_pmul2r.
  have hp := h_pos; have ep : 0 < er q (reported p) - risk_free q by rewrite -(pmulr_rgt0 _ f0); apply: lt_le_trans Hh.
  split=> // ey; set t := homogenization q / (er q y - risk_free q); have t0 : 0 < t by apply: divr_gt0.
  have Et : t * (er q y - risk_free q) = homogenization q by rewrite /t divfK // gt_eqF.
  have [p' Fp'' [E1 E2 E3]] := @allowed_feasible y t v' t0 (or_introl Ir) Ay Hv' (fun _ => Et).
  have := O p' Fp''; rewrite ler_pmul2r // E3 => H.
  rewrite -(ler_pmul2l f0) mulrA; apply: le_trans (_ : t * v' * (er q y - risk_free q) <= _).
    by rewrite ler_pmul2r //; apply: le_trans H.
  rewrite mulrAC Et mulrCA [v' * _]mulrC; by rewrite ler_wpmul2r // (largest_nonneg Hv').
Qed.
End Empirical.
End Lemmas.

(** * Theorems *)
(** Whatever the set of covariances: the reported weights meet every constraint for every mean and covariance of the sets, and
    their variance and return are never worse than what the problem reports. *)
Theorem C89_guarantee (F : rcfType) n (q : robust F n) p : sound q -> feasible q p ->
  [/\ 0 < factor p, allowed q (reported p),
      forall M, considered_covariance q M -> form M (reported p) <= risk q p / factor p &
      forall m, considered_mean q m -> er q (weight p) / factor p <= (m^T *m reported p) 0 0].
Proof.
move=> Hq Fp; have f0 := factor_pos Hq Fp; split=> //; first exact: feasible_allowed.
- by case: Fp => _ _ _ [C _] _; apply: variance_bound.
- move=> m Hm; have [E _] := er_lowest Hq (reported p); have fn : factor p != 0 by rewrite gt_eqF.
  have -> : er q (weight p) = factor p * er q (reported p) by rewrite -er_scale // /reported scalerA divff // scale1r.
  by rewrite [factor p * _]mulrC mulfK //; apply: E.
Qed.
Print Assumptions C89_guarantee.
(** Every weight vector has a lowest return over the set of means and, for the empirical set, a largest variance. *)
Theorem C89_values (F : rcfType) n (q : robust F n) T diagonal quantile x : sound q -> empirical q T diagonal quantile ->
  (exists r, lowest_return q x r) /\ exists v, largest_variance q x v.
Proof.
move=> Hq He; split; first by exists (er q x); apply: er_lowest.
by have [X [Y [v [_ H _]]]] := variance_attained Hq He x ltr01; exists v.
Qed.
Print Assumptions C89_values.
(** With the empirical set of covariances the reported weights are optimal in the worst case over the two sets, among all
    weights that meet the constraints in the worst case. *)
Theorem C89_robust (F : rcfType) n (q : robust F n) T diagonal quantile p : sound q -> empirical q T diagonal quantile -> optimal q p ->
  allowed q (reported p) /\
  forall y vx vy rx ry, allowed q y -> largest_variance q (reported p) vx -> largest_variance q y vy ->
    lowest_return q (reported p) rx -> lowest_return q y ry ->
    match aim q return Prop with
    | MinimizeRisk => vx <= vy
    | MaximizeReturn => ry <= rx
    | MaximizeUtility => 0 <= aversion q -> ry - aversion q * vy <= rx - aversion q * vx
    | MaximizeRatio => 0 < rx - risk_free q /\ (0 < ry - risk_free q -> vx * (ry - risk_free q) <= vy * (rx - risk_free q))
    end.
Proof. by move=> Hq He Op; have [A [_ B]] := robust_optimal Hq He Op. Qed.
Print Assumptions C89_robust.

(** The two-asset example: means 0 and 1, variances 1 and 3, no correlation, long-only and fully invested, a set of
    covariances of size zero. *)
Section Example.
Variable F : rcfType.
Add Field robust_field : (fth F).
Lemma square_identity0 (b : fT F) : ((1 - b) * (1 - b) + (1 + 1 + 1) * (b * b) - (1 + 1) * b = ((1 + 1) * b - 1) * ((1 + 1) * b - 1))%fr.
Proof. ring. Qed.
Lemma square_identity (b : F) : (1 - b) ^+ 2 + 3%:R * b ^+ 2 - 2%:R * b = (2%:R * b - 1) ^+ 2.
Proof.
have E3 : 3%:R = 1 + 1 + 1 :> F by rewrite -[1]/(1%:R) -!natrD.
have E2 : 2%:R = 1 + 1 :> F by rewrite -[1]/(1%:R) -natrD.
rewrite E3 E2 !expr2; exact: square_identity0.
Qed.
Definition two (a b : F) : 'cV[F]_2 := \col_i (if i == 0 then a else b).
Definition diag2 (a b : F) : 'M[F]_2 := \matrix_(i, j) (if i == j then (if i == 0 then a else b) else 0).
Definition example (Q : 'M[F]_(2 * 2)) : robust F 2 :=
  {| mean := two 0 1; covariance := diag2 1 3%:R; mu_set := None;
     covariance_set := empirical_covariance 12 (diag2 1 3%:R) false 0; covariance_root := Q;
     lower := two 0 0; upper := two 1 1; total := Some 1; inequalities := [::]; floor_return := None; max_variance := None;
     aim := MaximizeRatio; aversion := 1; risk_free := 0; scale_constraints := 1; scale_objective := 1 |}.
Lemma sum2 (f : 'I_2 -> F) : \sum_i f i = f 0 + f 1.
Proof. by rewrite !big_ord_recl big_ord0 addr0; congr (_ + f _); apply: val_inj. Qed.
Lemma form2 a b x : form (diag2 a b) x = a * x 0 0 ^+ 2 + b * x 1 0 ^+ 2.
Proof. by rewrite /diag2 (diag_form (fun i => if i == 0 then a else b)) sum2. Qed.
Lemma example_fitted : exists Q, sound (example Q) /\ empirical (example Q) 12 false 0.
Proof.
have S : symmetric (diag2 1 3%:R) by apply: diag_sym.
have N : nonnegative (diag2 1 3%:R) by move=> x; rewrite form2 addr_ge0 // mulr_ge0 ?sqr_ge0 ?ler0n // ler01.
have [[Q HQ] _] := @C55_roots F _ 12 _ false 0 isT S N (lexx 0); exists Q; split; last by split.
by split; rewrite ?ltr01 //=; split=> //; apply: sqrtr_ge0.
Qed.
(** a set of size zero has one member *)
Lemma point_set n (q : robust F n) M : sound q -> size_k (covariance_set q) = 0 -> considered_covariance q M -> M = covariance q.
Proof.
move=> Hq k0 [_ _ E]; case: Hq => _ _ [kp R] _; have [HS N] := root_nonneg R.
have Z : forall w, dot w (vec M - vec (covariance q)) = 0.
  by move=> w; apply/eqP; rewrite -normr_le0; have := ellipsoid_bound w HS N kp E; rewrite k0 mul0r.
apply/matrixP=> i j; rewrite -!(vec_pos _ j i); move: Z; move: (vec M) (vec (covariance q)) => a b Z.
have := Z (delta_mx (pos j i) 0); rewrite dotE (bigD1 (pos j i)) //= big1 => [|k /negbTE kn]; last by rewrite mxE kn mul0r.
by rewrite !mxE !eqxx mul1r addr0 => /eqP; rewrite subr_eq0 => /eqP.
Qed.
Lemma half2 : (2%:R^-1 : F) + 2%:R^-1 = 1.
Proof. by have := splitr (1 : F); rewrite !div1r => <-. Qed.
Lemma example_h Q : homogenization (example Q) = 2%:R^-1.
Proof.
rewrite /homogenization /= sum2 !mxE /= normr0 normr1 add0r mul1r.
have A : (1000%:R^-1 : F) <= 2%:R^-1 by rewrite lef_pinv ?posrE ?ltr0n // ler_nat.
have B : (2%:R^-1 : F) <= 1000%:R by apply: le_trans (_ : 1 <= _); [rewrite invf_le1 ?ltr0n // ler1n|rewrite ler1n].
by rewrite (max_idPr A) (min_idPr B).
Qed.
Lemma example_er Q w : er (example Q) w = w 1 0.
Proof. by rewrite /er /= mxE sum2 !mxE /= mul0r mul1r add0r. Qed.
Lemma example_optimal Q : sound (example Q) -> empirical (example Q) 12 false 0 ->
  exists2 p, optimal (example Q) p & reported p = two 2%:R^-1 2%:R^-1.
Proof.
move=> Hq He; set q := example Q; set x := two 2%:R^-1 2%:R^-1.
have K0 : size_k (covariance_set q) = 0 by rewrite /= sqrtr0.
have CC : considered_covariance q (covariance q).
  have [_ [v [_ [M HM _]]]] := C89_values x Hq He; by rewrite -(point_set Hq K0 HM).
have LV y : largest_variance q y (form (covariance q) y).
  by split; [move=> M /(point_set Hq K0) ->|exists (covariance q)].
have h0 : (0 : F) <= 2%:R^-1 by rewrite invr_ge0 ler0n. have h1 : (2%:R^-1 : F) <= 1 by rewrite invf_le1 ?ltr0n // ler1n.
have Ax : allowed q x.
  split=> //=; first by move=> i; rewrite !mxE; case: (i == 0); rewrite h0 h1.
  by rewrite sum2 !mxE /= half2.
have Vx : form (covariance q) x = 1.
  rewrite form2 !mxE /= mul1r -[X in X + _]mul1r -mulrDl.
  have -> : (1 + 3%:R : F) = 2%:R ^+ 2 by rewrite -[1]/(1%:R) -natrD expr2 -natrM.
  by rewrite -exprMn divff ?expr1n // pnatr_eq0.
have [|p Fp [E1 E2 E3]] := @allowed_feasible _ _ _ Hq _ _ _ He x 1 _ ltr01 (or_introl isT) Ax (LV x).
  by move=> _; rewrite mul1r example_er /= subr0 mxE /= example_h.
exists p; last by rewrite /reported E1 E2 invr1 !scale1r.
split=> // p' Fp'; rewrite /loss /= !mulr1 E3 Vx mulr1.
have [f0 A B _] := C89_guarantee Hq Fp'; have fn : factor p' != 0 by rewrite gt_eqF.
have {B} := B _ CC; rewrite ler_pdivl_mulr //; apply: le_trans; set y := reported p'.
have Ey : factor p' * y 1 0 = 2%:R^-1.
  case: Fp' => _ _ _ _ /(_ isT) /=; rewrite !mulr1 mul0r subr0 example_er example_h => <-.
  by rewrite /y /reported mxE mulVKf.
case: A => _ /=; rewrite sum2 -/y => Sy _ _ _.
rewrite form2 mul1r; have {Sy} -> : y 0 0 = 1 - y 1 0 by rewrite -Sy addrK.
move: (y 1 0) Ey => b Eb.
have D : 2%:R * b <= (1 - b) ^+ 2 + 3%:R * b ^+ 2.
  rewrite -subr_ge0; have -> : (1 - b) ^+ 2 + 3%:R * b ^+ 2 - 2%:R * b = (2%:R * b - 1) ^+ 2; last exact: sqr_ge0.
  exact: square_identity.
apply: le_trans (_ : 2%:R * b * factor p' <= _); last by rewrite ler_pmul2r.
by rewrite -mulrA [b * _]mulrC Eb divff // pnatr_eq0.
Qed.
(** With the ratio, return is measured per unit of variance: the weights found have a lower return per unit of standard
    deviation than others, which C36 shows are preferred when no set of covariances is given. *)
Theorem C89_ratio_refuted : exists (q : robust F 2) p y,
  [/\ sound q /\ size_k (covariance_set q) = 0, aim q = MaximizeRatio /\ mu_set q = None, optimal q p, allowed q y &
      (((mean q)^T *m reported p) 0 0 - risk_free q) ^+ 2 * form (covariance q) y <
      (((mean q)^T *m y) 0 0 - risk_free q) ^+ 2 * form (covariance q) (reported p)].
Proof.
have [Q [Hq He]] := example_fitted; have [p Op Ep] := example_optimal Hq He.
exists (example Q), p, (two 0 1); split=> //; first by split=> //=; rewrite sqrtr0.
- split=> //=; first by move=> i; rewrite !mxE; case: (i == 0); rewrite ?lexx ?ler01.
  by rewrite sum2 !mxE add0r.
- rewrite Ep !form2 /= !subr0 !mxE !sum2 !mxE /= !mul0r !add0r !mul1r expr0n /= add0r expr1n !mulr1 mul1r.
  rewrite mulrC -[X in _ < X + _]mul1r -mulrDl ltr_pmul2r ?exprn_gt0 ?invr_gt0 ?ltr0n //.
  by rewrite ltr_addr ltr01.
Qed.
End Example.
Print Assumptions C89_ratio_refuted.
(** the hypotheses of the theorems are met *)
Example C89_applies (F : rcfType) : exists (q : robust F 2) p, [/\ sound q, empirical q 12 false 0, optimal q p & reported p = two 2%:R^-1 2%:R^-1].
Proof. by have [Q [Hq He]] := example_fitted F; have [p Op Ep] := example_optimal Hq He; exists (example Q), p. Qed.
