(** C55: uncertainty sets bound the worst case. *)
From mathcomp Require Import all_ssreflect all_algebra.
Require Import Ring Field.
From Verif Require Import FieldTac MatForm UncertaintyModel.
Set Implicit Arguments.
Unset Strict Implicit.
Unset Printing Implicit Defensive.
Import Order.TTheory GRing.Theory Num.Theory.
Local Open Scope ring_scope.

(** * Specification *)
Section Spec.
Variable F : rcfType.
(** The ellipsoid of size k and shape S around zero.  When S is invertible it is the documented d' S^-1 d <= k^2
    (theorem C55_ellipsoid); the definition below also covers singular shapes. *)
Definition in_ellipsoid n (k : F) (S : 'M[F]_n) (d : 'cV[F]_n) : Prop := exists u, d = S *m u /\ form S u <= k ^+ 2.
(** An asset's expected returns belong to the set around mu. *)
Definition possible_mean n (u : uncertainty_set F n) (mu m : 'cV[F]_n) : Prop := in_ellipsoid (size_k u) (shape u) (m - mu).
(** A covariance matrix belongs to the set around C. *)
Definition possible_covariance n (u : uncertainty_set F (n * n)) (C M : 'M[F]_n) : Prop :=
  [/\ symmetric M, nonnegative M & in_ellipsoid (size_k u) (shape u) (vec M - vec C)].
(** What sc.linalg.sqrtm returns for a symmetric non-negative matrix. *)
Definition square_root n (S Q : 'M[F]_n) : Prop := Q^T = Q /\ Q *m Q = S.
(** sample mean and unbiased sample covariance of the columns of a table *)
Definition average B (x : 'I_B -> F) : F := (\sum_b x b) / B%:R.
Definition covariance_of B (x y : 'I_B -> F) : F := (\sum_b (x b - average x) * (y b - average y)) / (B%:R - 1).
End Spec.

(** * Lemmas *)
Section Lemmas.
Variable F : rcfType.
Definition dot n (x y : 'cV[F]_n) : F := (x^T *m y) 0 0.
Lemma dotE n (x y : 'cV[F]_n) : dot x y = \sum_i x i 0 * y i 0.
Proof. by rewrite /dot mxE; apply: eq_bigr => i _; rewrite mxE. Qed.
Lemma dotC n (x y : 'cV[F]_n) : dot x y = dot y x.
Proof. by rewrite !dotE; apply: eq_bigr => i _; rewrite mulrC. Qed.
Lemma formE n (S : 'M[F]_n) x : form S x = \sum_i \sum_j x i 0 * S i j * x j 0.
Proof.
rewrite /form mxE exchange_big /=; apply: eq_bigr => j _; rewrite mxE mulr_suml; apply: eq_bigr => i _; by rewrite mxE.
Qed.
Lemma form_scalev n (S : 'M[F]_n) (a : F) x : form S (a *: x) = a ^+ 2 * form S x.
Proof.
rewrite /form; have -> : (a *: x)^T = a *: x^T by apply/matrixP=> i j; rewrite !mxE.
by rewrite -!scalemxAl -scalemxAr mxE [X in _ * X]mxE mulrA expr2.
Qed.
Lemma cauchy n (S : 'M[F]_n) (w u : 'cV[F]_n) : symmetric S -> nonnegative S -> ((w^T *m S *m u) 0 0) ^+ 2 <= form S w * form S u.
Proof.
move=> HS N; set b := (w^T *m S *m u) 0 0; set a := form S w; set c := form S u.
have E s t : form S (s *: w + t *: u) = s ^+ 2 * a + 2%:R * (s * t * b) + t ^+ 2 * c.
  rewrite form_sum // !form_scalev; congr (_ + 2%:R * _ + _).
  have -> : (s *: w)^T = s *: w^T by apply/matrixP=> i j; rewrite !mxE.
  by rewrite -!scalemxAl -scalemxAr mxE [X in _ * X]mxE mulrA.
have c0 : 0 <= c by apply: N.
case: (ltP 0 c) => [cp|cn].
- have := N (c *: w + (- b) *: u); rewrite E.
  have -> : c ^+ 2 * a + 2%:R * (c * - b * b) + (- b) ^+ 2 * c = c * (a * c - b ^+ 2).
    rewrite mulrBr !mulrN mulNr mulrN sqrrN mulr_natl mulr2n !expr2 (mulrC a c) !mulrA -addrA; congr (_ + _).
    by rewrite opprD -addrA (mulrC (b * b) c) !mulrA addNr addr0.
  by rewrite pmulr_rge0 // subr_ge0.
- have cz : c = 0 by apply/eqP; rewrite eq_le cn c0.
  rewrite cz mulr0; case: (eqVneq b 0) => [->|bn]; first by rewrite expr2 mul0r.
  exfalso; have := N (1 *: w + (- (a + 1) / (2%:R * b)) *: u); rewrite E cz mulr0 addr0 expr1n !mul1r.
  rewrite (_ : 2%:R * (- (a + 1) / (2%:R * b) * b) = - (a + 1)).
    by rewrite opprD addrA subrr add0r oppr_ge0 ler10.
  by rewrite mulrCA mulfVK // mulf_neq0 // pnatr_eq0.
Qed.
Lemma norm2_form n (S Q : 'M[F]_n) x : square_root S Q -> norm2 (Q *m x) = Num.sqrt (form S x).
Proof.
move=> [T E]; rewrite /norm2; congr Num.sqrt.
rewrite /form -E -{2}T -!mulmxA mulmxA -trmx_mul mxE; apply: eq_bigr => i _; by rewrite [(_ ^T) _ _]mxE expr2.
Qed.
Lemma root_nonneg n (S Q : 'M[F]_n) : square_root S Q -> symmetric S /\ nonnegative S.
Proof.
move=> [T E]; split; first by apply: tr_sym; rewrite -E trmx_mul T.
move=> x; rewrite /form -E -{1}T -!mulmxA mulmxA -trmx_mul mxE; apply: sumr_ge0 => i _; by rewrite [(_ ^T) _ _]mxE -expr2 sqr_ge0.
Qed.
(** Bound by the ellipsoid in every direction, and the point where it is attained. *)
Lemma ellipsoid_bound n (k : F) (S : 'M[F]_n) d w : symmetric S -> nonnegative S -> 0 <= k -> in_ellipsoid k S d ->
  `|dot w d| <= k * Num.sqrt (form S w).
Proof.
move=> HS N k0 [u [-> Hu]]; have C := cauchy w u HS N.
rewrite /dot mulmxA -(ler_pexpn2r (n := 2)) // ?nnegrE ?mulr_ge0 ?sqrtr_ge0 //.
rewrite real_normK ?num_real // exprMn sqr_sqrtr //; apply: le_trans C _.
by rewrite [X in _ <= X]mulrC; apply: ler_wpmul2l.
Qed.
Lemma ellipsoid_extreme n (k : F) (S : 'M[F]_n) w : symmetric S -> nonnegative S -> 0 <= k ->
  exists d, in_ellipsoid k S d /\ dot w d = k * Num.sqrt (form S w) /\ exists c, 0 <= c /\ d = c *: (S *m w).
Proof.
move=> HS N k0; set a := form S w; case: (ltP 0 a) => [ap|an].
- set s := Num.sqrt a; have sp : 0 < s by rewrite sqrtr_gt0.
  have s2 : s ^+ 2 = a by rewrite sqr_sqrtr // ltW.
  exists ((k / s) *: (S *m w)); split; last split.
  + exists ((k / s) *: w); rewrite -scalemxAr; split=> //.
    by rewrite form_scalev -/a -s2 exprMn exprVn -mulrA mulVf ?mulr1 // expf_neq0 // gt_eqF.
  + rewrite /dot -scalemxAr mxE mulmxA -/(form S w) -/a -s2 expr2 mulrA mulfVK // gt_eqF //.
  + by exists (k / s); split=> //; rewrite mulr_ge0 // invr_ge0 ltW.
- have az : a = 0 by apply/eqP; rewrite eq_le an N.
  exists 0; split; last split.
  + by exists 0; rewrite mulmx0 form_zero exprn_ge0.
  + by rewrite /dot mulmx0 mxE az sqrtr0 mulr0.
  + by exists 0; rewrite scale0r.
Qed.

Lemma form_block n (a t : F) (c x : 'cV[F]_n) (D : 'M[F]_n) :
  form (block_mx a%:M c^T c D) (col_mx t%:M x) = a * t ^+ 2 + 2%:R * (t * dot c x) + form D x.
Proof.
rewrite /form tr_col_mx mul_row_block mul_row_col tr_scalar_mx !mulmxDl -!scalar_mxM addE; rewrite [X in X + _]addE.
have -> : ((t * a * t)%:M : 'M[F]_1) 0 0 = a * t ^+ 2 by rewrite mxE eqxx mulr1n expr2 mulrA (mulrC a).
rewrite addE mul_scalar_mx mul_mx_scalar -!scalemxAl mxE -/(dot x c) [X in _ + (X + _)]mxE -/(dot c x) (dotC x c).
by rewrite mulr_natl mulr2n !addrA.
Qed.
Lemma sym_block n (B : 'M[F]_(1 + n)) : symmetric B ->
  B = block_mx ((B (lshift n 0) (lshift n 0))%:M) (dlsubmx B)^T (dlsubmx B) (drsubmx B).
Proof.
move=> S; rewrite -{1}(submxK B); congr block_mx.
- by apply/matrixP=> i j; rewrite !ord1 !mxE eqxx mulr1n.
- by apply/matrixP=> i j; rewrite !mxE S.
Qed.
(** Every symmetric non-negative matrix is V V'. *)
Lemma cholesky n (B : 'M[F]_n) : symmetric B -> nonnegative B -> exists V : 'M[F]_n, B = V *m V^T.
Proof.
elim: n B => [|n IH] B S N; first by exists 0; apply/matrixP=> -[].
change ('M[F]_(1 + n)) in B.
have := sym_block S; set a := B _ _; set c := dlsubmx B; set D := drsubmx B => E.
have SD : symmetric D by move=> i j; rewrite !mxE.
have Q' t x : 0 <= a * t ^+ 2 + 2%:R * (t * dot c x) + form D x by rewrite -form_block -E; apply: N.
have z0 : form D (0 : 'cV_n) = 0 by rewrite form_zero.
have d0 : dot c (0 : 'cV_n) = 0 by rewrite /dot mulmx0 mxE.
have a0 : 0 <= a by have := Q' 1 0; rewrite z0 d0 expr1n !mulr1 !mulr0 !addr0.
case: (ltP 0 a) => [ap|an].
- set D' := D - a^-1 *: (c *m c^T).
  have fcc x : form (c *m c^T) x = dot c x ^+ 2.
    by rewrite /form !mulmxA -/(dot x c) -mulmxA mxE big_ord_recl big_ord0 addr0 -/(dot c x) -/(dot x c) dotC expr2.
  have S' : symmetric D'.
    by apply: tr_sym; rewrite /D' linearB /= (sym_tr SD) linearZ /= trmx_mul trmxK.
  have N' : nonnegative D'.
    move=> x; rewrite form_sub form_scale fcc; have := Q' (- (dot c x / a)) x.
    congr (0 <= _); have an0 : a != 0 by rewrite gt_eqF.
    set d := dot c x; set e := d / a; have De : d = a * e by rewrite /e mulrCA divff // mulr1.
    have -> : a^-1 * d ^+ 2 = a * e ^+ 2 by rewrite De exprMn mulrA expr2 mulKf.
    have -> : - e * d = - (a * e ^+ 2) by rewrite De mulNr mulrCA expr2.
    by rewrite sqrrN mulrN mulr_natl mulr2n opprD !addrA subrr add0r addrC.
  have [V EV] := IH _ S' N'.
  set s := Num.sqrt a; have sp : 0 < s by rewrite sqrtr_gt0.
  have ss : s * s = a by rewrite -expr2 sqr_sqrtr // ltW.
  pose W : 'M[F]_(1 + n) := block_mx s%:M 0 (s^-1 *: c) V.
  have H : block_mx a%:M c^T c D = W *m W^T; last by exists W; rewrite E.
  rewrite /W tr_block_mx mulmx_block tr_scalar_mx trmx0 !mul0mx !mulmx0 !addr0 -EV -scalar_mxM ss.
  have -> : (s^-1 *: c)^T = s^-1 *: c^T by apply/matrixP=> i j; rewrite !mxE.
  rewrite mul_scalar_mx mul_mx_scalar !scalerA mulfV ?mulVf ?gt_eqF // !scale1r -scalemxAl -scalemxAr scalerA -invfM ss.
  by rewrite /D' addrC subrK.
- have az : a = 0 by apply/eqP; rewrite eq_le an a0.
  have cz x : dot c x = 0.
    apply/eqP; case: (eqVneq (dot c x) 0) => // bn; exfalso.
    have := Q' (- (form D x + 1) / (2%:R * dot c x)) x; rewrite az mul0r add0r mulrCA mulfVK ?mulf_neq0 ?pnatr_eq0 //.
    by rewrite addrC opprD addrA subrr add0r oppr_ge0 ler10.
  have c0 : c = 0.
    apply/matrixP=> i j; rewrite !ord1 [RHS]mxE; have := cz (delta_mx i 0).
    rewrite dotE (bigD1 i) //= big1 => [|k /negbTE kn]; first by rewrite addr0 [delta_mx _ _ _ _]mxE !eqxx mulr1.
    by rewrite [delta_mx _ _ _ _]mxE kn mulr0.
  have N' : nonnegative D by move=> x; have := Q' 0 x; rewrite az !mul0r mulr0 !add0r.
  have [V EV] := IH _ SD N'; 
  pose W : 'M[F]_(1 + n) := block_mx 0 0 0 V.
  have H : block_mx a%:M c^T c D = W *m W^T; last by exists W; rewrite E.
  rewrite /W az c0 tr_block_mx mulmx_block !trmx0 !mul0mx !mulmx0 !addr0 !add0r -EV.
  by congr block_mx; apply/matrixP=> i j; rewrite !mxE mul0rn.
Qed.

(** The trace of the product of two such matrices is non-negative. *)
Lemma trace_nonneg n (A B : 'M[F]_n) : nonnegative A -> symmetric B -> nonnegative B -> 0 <= \tr (A *m B).
Proof.
move=> NA SB NB; have [V ->] := cholesky SB NB.
rewrite mulmxA mxtrace_mulC; apply: sumr_ge0 => k _.
have := NA (col k V); rewrite /form; congr (0 <= _).
rewrite -mulmxA [RHS]mxE [LHS]mxE; apply: eq_bigr => i _; rewrite !mxE; congr (_ * _).
apply: eq_bigr => j _; by rewrite !mxE.
Qed.
(** So is the entrywise product of two of them (Schur). *)
Lemma hadamard_nonneg n (A B : 'M[F]_n) : nonnegative A -> symmetric B -> nonnegative B ->
  nonnegative (\matrix_(i, j) (A i j * B i j)).
Proof.
move=> NA SB NB x; have [V EB] := cholesky SB NB.
have -> : form (\matrix_(i, j) (A i j * B i j)) x = \sum_k form A (\col_i (x i 0 * V i k)).
  transitivity (\sum_k \sum_i \sum_j (x i 0 * V i k) * A i j * (x j 0 * V j k)); last first.
    by apply: eq_bigr => k _; rewrite formE; apply: eq_bigr => i _; apply: eq_bigr => j _; rewrite !mxE.
  rewrite formE.
  rewrite [RHS]exchange_big; apply: eq_bigr => i _; rewrite [RHS]exchange_big; apply: eq_bigr => j _.
  rewrite mxE EB [(V *m _) i j]mxE !mulr_sumr mulr_suml; apply: eq_bigr => k _; rewrite mxE.
  by rewrite -!mulrA; congr (_ * _); rewrite mulrCA; congr (_ * _); congr (_ * _); rewrite mulrC.
by apply: sumr_ge0 => k _; apply: NA.
Qed.
(** Positions. *)
Lemma pos_subproof n (i j : 'I_n) : (i * n + j < n * n)%N.
Proof.
have := ltn_ord j; have := ltn_ord i => Hi Hj.
apply: (leq_trans (n := (i * n + n)%N)); first by rewrite ltn_add2l.
by rewrite -mulSnr leq_mul2r Hi orbT.
Qed.
Definition pos n (i j : 'I_n) : 'I_(n * n) := Ordinal (pos_subproof i j).
Lemma high_pos n (i j : 'I_n) : high (pos i j) = i.
Proof. by apply: val_inj => /=; rewrite divnMDl ?(divn_small (ltn_ord j)) ?addn0 //; apply: leq_ltn_trans (ltn_ord i). Qed.
Lemma low_pos n (i j : 'I_n) : low (pos i j) = j.
Proof. by apply: val_inj => /=; rewrite modnMDl modn_small. Qed.
Lemma pos_high_low n (p : 'I_(n * n)) : pos (high p) (low p) = p.
Proof. by apply: val_inj => /=; rewrite -divn_eq. Qed.
Lemma sum_positions n (f : 'I_n -> 'I_n -> F) : \sum_p f (high p) (low p) = \sum_i \sum_j f i j.
Proof.
rewrite pair_big /= (reindex (fun p : 'I_(n * n) => (high p, low p))) //=.
exists (fun q => pos q.1 q.2) => [p _|[i j] _] /=; first exact: pos_high_low.
by rewrite high_pos low_pos.
Qed.
Lemma vec_pos n (A : 'M[F]_n) i j : vec A (pos i j) 0 = A j i.
Proof. by rewrite mxE high_pos low_pos. Qed.
Lemma dot_vec n (A B : 'M[F]_n) : dot (vec A) (vec B) = \tr (A^T *m B).
Proof.
rewrite dotE (eq_bigr (fun p => A (low p) (high p) * B (low p) (high p))); last by move=> p _; rewrite !mxE.
rewrite (sum_positions (fun i j => A j i * B j i)); apply: eq_bigr => i _; rewrite mxE; apply: eq_bigr => j _; by rewrite mxE.
Qed.
Lemma vec_inj n (A B : 'M[F]_n) : vec A = vec B -> A = B.
Proof. by move=> E; apply/matrixP=> i j; rewrite -vec_pos E vec_pos. Qed.
Lemma vecD n (A B : 'M[F]_n) : vec (A + B) = vec A + vec B.
Proof. by apply/matrixP=> i j; rewrite !mxE. Qed.
Lemma vecB n (A B : 'M[F]_n) : vec (A - B) = vec A - vec B.
Proof. by apply/matrixP=> i j; rewrite !mxE. Qed.
Lemma diag_part_form n (A : 'M[F]_n) x : form (diag_part A) x = \sum_i A i i * x i 0 ^+ 2.
Proof. by rewrite /diag_part diag_form. Qed.
Lemma entry_nonneg n (A : 'M[F]_n) i : nonnegative A -> 0 <= A i i.
Proof.
move=> N; have := N (delta_mx i 0); rewrite formE (bigD1 i) //= (bigD1 i) //= !big1.
- by rewrite !addr0 mxE !eqxx mul1r mulr1.
- by move=> j /negbTE jn; apply: big1 => k _; rewrite !mxE jn !mul0r.
- by move=> j /negbTE jn; rewrite [X in _ * X]mxE jn mulr0.
Qed.
Lemma entry_positive n (A : 'M[F]_n) i : positive A -> 0 < A i i.
Proof.
move=> P; have := P (delta_mx i 0); rewrite formE (bigD1 i) //= (bigD1 i) //= !big1.
- rewrite !addr0 mxE !eqxx mul1r mulr1; apply; apply/eqP=> /matrixP/(_ i 0); rewrite !mxE !eqxx => /eqP; by rewrite oner_eq0.
- by move=> j /negbTE jn; apply: big1 => k _; rewrite !mxE jn !mul0r.
- by move=> j /negbTE jn; rewrite [X in _ * X]mxE jn mulr0.
Qed.
Lemma diag_part_ok n (A : 'M[F]_n) : nonnegative A -> symmetric (diag_part A) /\ nonnegative (diag_part A).
Proof. by move=> N; split; [apply: diag_sym|apply: diag_nonneg => i; apply: entry_nonneg]. Qed.
Lemma outer_form n (w x : 'cV[F]_n) : form (w *m w^T) x = dot w x ^+ 2.
Proof. by rewrite /form !mulmxA -/(dot x w) -mulmxA mxE big_ord_recl big_ord0 addr0 -/(dot w x) -/(dot x w) dotC expr2. Qed.
Lemma outer_sym n (w : 'cV[F]_n) : symmetric (w *m w^T).
Proof. by apply: tr_sym; rewrite trmx_mul trmxK. Qed.
Lemma trace_outer n (A : 'M[F]_n) (w : 'cV[F]_n) : \tr (A *m (w *m w^T)) = form A w.
Proof. by rewrite mulmxA mxtrace_mulC mulmxA /mxtrace big_ord_recl big_ord0 addr0. Qed.
(** The sample covariance is symmetric and non-negative. *)
Lemma np_covE T n (x : 'M[F]_(T, n)) i j : np_cov x i j = covariance_of (fun t => x t i) (fun t => x t j).
Proof. by rewrite !mxE. Qed.
Lemma np_cov_ok T n (x : 'M[F]_(T, n)) : symmetric (np_cov x) /\ ((0 < T)%N -> nonnegative (np_cov x)).
Proof.
split=> [i j|T0 v]; first by rewrite !mxE; congr (_ / _); apply: eq_bigr => t _; rewrite mulrC.
set y := fun t => \sum_i v i 0 * (x t i - mean_rows x i 0).
have -> : form (np_cov x) v = (\sum_t y t ^+ 2) / (T%:R - 1).
  rewrite formE mulr_suml.
  transitivity (\sum_t \sum_i \sum_j (v i 0 * ((x t i - mean_rows x i 0) * (x t j - mean_rows x j 0) / (T%:R - 1)) * v j 0)).
    rewrite [RHS]exchange_big; apply: eq_bigr => i _; rewrite [RHS]exchange_big; apply: eq_bigr => j _.
    by rewrite [np_cov x i j]mxE mulr_suml mulr_sumr mulr_suml.
  apply: eq_bigr => t _; rewrite expr2 {1}/y mulr_suml mulr_suml; apply: eq_bigr => i _; rewrite /y mulr_sumr mulr_suml; apply: eq_bigr => j _.
  by rewrite -!mulrA; congr (_ * _); congr (_ * _); rewrite mulrA mulrC.
apply: mulr_ge0; first by apply: sumr_ge0 => t _; apply: sqr_ge0.
by rewrite invr_ge0 subr_ge0 (ler_nat F 1 T).
Qed.
End Lemmas.

(** * C55 *)
Section Theorems.
Variable F : rcfType.
(** The ellipsoid is the documented one. *)
Theorem C55_ellipsoid n (k : F) (S : 'M[F]_n) (d : 'cV[F]_n) : symmetric S -> positive S ->
  in_ellipsoid k S d <-> form (invmx S) d <= k ^+ 2.
Proof.
move=> HS P; have U := positive_unit P; have [HI EI] := inv_form HS U; split=> [[u [-> H]]|H].
  by rewrite EI mulKmx.
by exists (invmx S *m d); rewrite mulKVmx // -EI.
Qed.
(** The return of the problem is the lowest expected return of the weights over the set of means. *)
Theorem C55_mu_worst_case n (u : uncertainty_set F n) (Q : 'M[F]_n) (mu w : 'cV[F]_n) : 0 <= size_k u -> square_root (shape u) Q ->
  (forall m, possible_mean u mu m -> penalised_return mu u Q w <= (m^T *m w) 0 0) /\
  (exists m, possible_mean u mu m /\ penalised_return mu u Q w = (m^T *m w) 0 0).
Proof.
move=> k0 R; have [HS N] := root_nonneg R.
rewrite /penalised_return /mu_penalty (norm2_form _ R).
have E m : (m^T *m w) 0 0 = (mu^T *m w) 0 0 + dot w (m - mu) by rewrite dotC /dot linearB /= mulmxBl [X in _ + X]addE addrC [X in _ + X + _]mxE subrK.
split=> [m H|].
- rewrite (E m) ler_add2l; have := ellipsoid_bound w HS N k0 H; rewrite ler_norml => /andP [A _] //.
- have [d [Hd [Ed _]]] := ellipsoid_extreme w HS N k0.
  exists (mu - d); split; last by rewrite (E (mu - d)) -Ed; congr (_ + _); rewrite addrAC subrr sub0r /dot mulmxN [RHS]mxE.
  rewrite /possible_mean addrAC subrr sub0r; case: Hd => x [-> Hx]; exists (- x); by rewrite mulmxN form_opp.
Qed.
(** The empirical set: the covariance of the sample mean. *)
Theorem C55_empirical_mu n T (C : 'M[F]_n) diagonal (quantile : F) : (0 < T)%N -> symmetric C -> nonnegative C -> 0 <= quantile ->
  let u := empirical_mu T C diagonal quantile in
  [/\ 0 <= size_k u, size_k u ^+ 2 = quantile,
      forall i j, shape u i j = (if diagonal && (i != j) then 0 else C i j / T%:R),
      symmetric (shape u) /\ nonnegative (shape u) & positive C -> positive (shape u)].
Proof.
move=> T0 HS N q0 u; have Tp : (0 : F) < T%:R by rewrite ltr0n.
have Ti : 0 < (T%:R : F)^-1 by rewrite invr_gt0.
have H1 : symmetric ((T%:R)^-1 *: C) by move=> i j; rewrite !mxE HS.
have H2 : nonnegative ((T%:R)^-1 *: C) by move=> x; rewrite form_scale mulr_ge0 // ltW.
split.
- exact: sqrtr_ge0.
- exact: sqr_sqrtr.
- move=> i j; rewrite /u /= {u}; case: diagonal => /=; last by rewrite mxE mulrC.
  by rewrite !mxE; case: eqP => [->|] //=; rewrite mulrC.
- by rewrite /u /= {u}; case: diagonal; [apply: diag_part_ok|].
- move=> P; have P' : positive ((T%:R)^-1 *: C) by move=> x X; rewrite form_scale mulr_gt0 // P.
  by rewrite /u /= {u}; case: diagonal => //; apply: diag_positive => i; apply: entry_positive.
Qed.
(** The bootstrap set: the unbiased covariance of the bootstrapped means, whatever the centre. *)
Lemma average_shift B (x : 'I_B -> F) c : (0 < B)%N -> average (fun b => x b - c) = average x - c.
Proof.
move=> B0; rewrite /average sumrB mulrBl; congr (_ - _).
by rewrite sumr_const card_ord -[c *+ B]mulr_natr mulfK // pnatr_eq0 -lt0n.
Qed.
Lemma covariance_shift B (x y : 'I_B -> F) c d : (0 < B)%N ->
  covariance_of (fun b => x b - c) (fun b => y b - d) = covariance_of x y.
Proof.
move=> B0; rewrite /covariance_of !average_shift //; congr (_ / _); apply: eq_bigr => b _; congr (_ * _); by rewrite opprB addrA subrK.
Qed.
Lemma covariance_ext B (x y x' y' : 'I_B -> F) : x =1 x' -> y =1 y' -> covariance_of x y = covariance_of x' y'.
Proof.
move=> Ex Ey; have Ax : average x = average x' by rewrite /average; congr (_ / _); apply: eq_bigr.
have Ay : average y = average y' by rewrite /average; congr (_ / _); apply: eq_bigr.
by rewrite /covariance_of Ax Ay; congr (_ / _); apply: eq_bigr => b _; rewrite Ex Ey.
Qed.
Theorem C55_bootstrap_mu n B T (samples : 'I_B -> 'M[F]_(T, n)) mu diagonal (quantile : F) : (1 < B)%N -> 0 <= quantile ->
  let u := bootstrap_mu samples mu diagonal quantile in
  [/\ 0 <= size_k u, size_k u ^+ 2 = quantile,
      forall i j, shape u i j = (if diagonal && (i != j) then 0
        else covariance_of (fun b => average (fun t => samples b t i)) (fun b => average (fun t => samples b t j))) &
      symmetric (shape u) /\ nonnegative (shape u)].
Proof.
move=> B1 q0 u; have B0 : (0 < B)%N by apply: ltn_trans B1.
split; [exact: sqrtr_ge0|exact: sqr_sqrtr| |].
- have E i j : np_cov (\matrix_(b, j) ((\matrix_(b, j) mean_rows (samples b) j 0) b j - mu j 0)) i j =
    covariance_of (fun b => average (fun t => samples b t i)) (fun b => average (fun t => samples b t j)).
    rewrite np_covE -[RHS](covariance_shift _ _ (mu i 0) (mu j 0)) //; by apply: covariance_ext => b; rewrite !mxE.
  move=> i j; rewrite /u /= {u}; case: diagonal => /=; last exact: E.
  by rewrite [LHS]mxE; case: eqP => [->|] //=; apply: E.
- by rewrite /u /= {u}; case: diagonal; [apply: diag_part_ok|]; have [A C] := np_cov_ok (\matrix_(b, j) ((\matrix_(b, j) mean_rows (samples b) j 0) b j - mu j 0)); [apply: C|split=> //; apply: C].
Qed.

(** The semi-definite constraints. *)
Lemma form_bordered n (x : 'M[F]_n) (w v : 'cV[F]_n) (f t : F) :
  form (row_mx (col_mx x w^T) (col_mx w (const_mx f : 'M_1))) (col_mx v t%:M) = form x v + 2%:R * (t * dot w v) + f * t ^+ 2.
Proof.
rewrite -block_mxEh /form tr_col_mx mul_row_block mul_row_col tr_scalar_mx !mulmxDl addE; rewrite [X in X + _]addE -!addrA; congr (_ + _).
have -> : (const_mx f : 'M[F]_1) = f%:M by apply/matrixP=> i j; rewrite !ord1 !mxE eqxx mulr1n.
rewrite addE -!scalar_mxM mul_scalar_mx mul_mx_scalar -!scalemxAl mxE -/(dot w v) [X in _ + (X + _)]mxE -/(dot v w) (dotC v w).
have -> : ((t * f * t)%:M : 'M[F]_1) 0 0 = f * t ^+ 2 by rewrite mxE eqxx mulr1n expr2 mulrA (mulrC f).
by rewrite mulr_natl mulr2n !addrA.
Qed.
Lemma semidefinite_scale n (a : 'M[F]_n) s : 0 < s -> semidefinite (s *: a) <-> nonnegative a.
Proof.
move=> s0; split=> H v; have := H v; rewrite -/(form _ v) form_scale ?pmulr_rge0 //.
Qed.
Lemma bordered_iff n (x : 'M[F]_n) (w : 'cV[F]_n) (f : F) : 0 < f ->
  nonnegative (row_mx (col_mx x w^T) (col_mx w (const_mx f : 'M_1))) <-> nonnegative (x - f^-1 *: (w *m w^T)).
Proof.
move=> f0; have fn : f != 0 by rewrite gt_eqF.
have K v t : form x v + 2%:R * (t * dot w v) + f * t ^+ 2 = form (x - f^-1 *: (w *m w^T)) v + f * (t + dot w v / f) ^+ 2.
  rewrite form_sub form_scale outer_form -!addrA; congr (_ + _).
  set d := dot w v; set e := d / f; have De : d = f * e by rewrite /e mulrCA divff // mulr1.
  have -> : f^-1 * d ^+ 2 = f * e ^+ 2 by rewrite De exprMn mulrA expr2 mulKf.
  have -> : t * d = f * (t * e) by rewrite De mulrCA.
  by rewrite sqrrD !mulrDr mulr_natl mulr2n [RHS]addrC addrK addrC.
split=> H v.
- have := H (col_mx v (- (dot w v / f))%:M); by rewrite form_bordered K addNr expr0n /= mulr0 addr0.
- have -> : v = col_mx (usubmx v) ((dsubmx v 0 0)%:M).
    rewrite -{1}(vsubmxK v); congr col_mx; by apply/matrixP=> i j; rewrite !ord1 [RHS]mxE eqxx mulr1n.
  rewrite form_bordered K addr_ge0 //. by rewrite mulr_ge0 ?sqr_ge0 // ltW.
Qed.
(** No covariance in the set gives the weights w / factor a larger variance than the risk expression of a feasible point. *)
Theorem C55_covariance_bound n (u : uncertainty_set F (n * n)) Q (C M x y : 'M[F]_n) (w : 'cV[F]_n) (scale factor : F) :
  0 <= size_k u -> square_root (shape u) Q -> 0 < scale -> 0 < factor ->
  worst_case_constraints scale w factor x y -> possible_covariance u C M ->
  form M (factor^-1 *: w) <= worst_case_variance C u Q x y / factor.
Proof.
move=> k0 R s0 f0 [Hx [Hy [H1 H2]]] [SM NM EM]; have [HS N] := root_nonneg R.
move: H1 H2; rewrite !semidefinite_scale // bordered_iff // => H1 H2.
rewrite form_scalev expr2 -mulrA mulrC ler_pmul2r ?invr_gt0 //.
set Z := x + y; have ZT : Z^T = Z by rewrite /Z linearD /= Hx Hy.
have B := ellipsoid_bound (vec Z) HS N k0 EM; rewrite -(norm2_form _ R) in B.
have B' : \tr (M *m Z) <= worst_case_variance C u Q x y.
  rewrite /worst_case_variance -vecD -/Z.
  have -> : \tr (M *m Z) = \tr (C *m Z) + dot (vec Z) (vec M - vec C).
    by rewrite -vecB dot_vec ZT mulmxBr linearB /= (mxtrace_mulC Z M) (mxtrace_mulC Z C) addrC subrK.
  by rewrite addrC ler_add2r; apply: le_trans B; apply: ler_norm.
apply: le_trans B'.
have S1 : symmetric (x - factor^-1 *: (w *m w^T)).
  by apply: tr_sym; rewrite linearB linearZ /= Hx trmx_mul trmxK.
have T1 := trace_nonneg NM S1 H1; have T2 := trace_nonneg NM (tr_sym Hy) H2.
move: T1; rewrite mulmxBr linearB /= -scalemxAr mxtraceZ trace_outer subr_ge0 => T1.
by rewrite /Z mulmxDr mxtraceD; apply: ler_paddr.
Qed.

Add Field uncertainty_field : (fth F).
Lemma shuffle0 (v a t x y z : fT F) : (v * (a * t * (x * y)) * z = t * (v * x * a * (z * y)))%fr.
Proof. ring. Qed.
Lemma shuffle (v a t x y z : F) : v * (a * t * (x * y)) * z = t * (v * x * a * (z * y)).
Proof. exact: shuffle0. Qed.
(** The empirical set of covariances: the variances of the entries of a Wishart matrix (with 1 / T). *)
Definition kept n diagonal (C : 'M[F]_n) i j : F := if diagonal && (i != j) then 0 else C i j.
Lemma kept_form n diagonal (C : 'M[F]_n) : symmetric C -> nonnegative C ->
  symmetric (\matrix_(i, j) kept diagonal C i j) /\ nonnegative (\matrix_(i, j) kept diagonal C i j).
Proof.
move=> HS N; case: diagonal; rewrite /kept /=.
- have -> : (\matrix_(i, j) (if i != j then 0 else C i j)) = diag_part C.
    by apply/matrixP=> i j; rewrite !mxE; case: eqP => [->|].
  exact: diag_part_ok.
- by have -> : (\matrix_(i, j) C i j) = C by apply/matrixP=> i j; rewrite mxE.
Qed.
Lemma wishart_entry n T (C : 'M[F]_n) diagonal (quantile : F) p q : (0 < T)%N -> symmetric C ->
  shape (empirical_covariance T C diagonal quantile) p q =
  if p == q then (kept diagonal C (high p) (high p) * kept diagonal C (low p) (low p) + kept diagonal C (high p) (low p) ^+ 2) / T%:R else 0.
Proof.
move=> T0 HS; rewrite [LHS]/=; set s := if diagonal then _ else _.
have Es i j : s i j = (T%:R)^-1 * kept diagonal C i j.
  rewrite /s /kept; case: diagonal {s} => /=; rewrite !mxE; [case: eqP => [->|] //=; by rewrite mulr0|by []].
rewrite mxE; case: eqP => // _.
have -> : ((T%:R *: (1%:M + commutation F n)) *m kron s s) p p = T%:R * (kron s s p p + kron s s (pos (low p) (high p)) p).
  rewrite -scalemxAl mxE mulmxDl mul1mx addE; congr (_ * (_ + _)).
  rewrite mxE (bigD1 (pos (low p) (high p))) //= [commutation _ _ _ _]mxE /= addnC eqxx mul1r big1 ?addr0 // => r /negP rn.
  rewrite [commutation _ _ _ _]mxE; case: eqP => E; last by rewrite mul0r.
  by case: rn; apply/eqP; apply: val_inj; rewrite /= E addnC.
rewrite !mxE high_pos low_pos !Es /kept [low p == high p]eq_sym (HS (low p) (high p)).
have Tn : (T%:R : F) != 0 by rewrite pnatr_eq0 -lt0n.
have K (a b c : F) : T%:R * (T%:R^-1 * a * (T%:R^-1 * b) + T%:R^-1 * c * (T%:R^-1 * c)) = (a * b + c ^+ 2) / T%:R.
  have L (x y : F) : T%:R^-1 * x * (T%:R^-1 * y) = T%:R^-1 * (T%:R^-1 * (x * y)) by rewrite mulrACA -mulrA.
  by rewrite !L -!mulrDr mulVKf // mulrC expr2.
exact: K.
Qed.
Theorem C55_empirical_covariance n T (C : 'M[F]_n) diagonal (quantile : F) : (0 < T)%N -> symmetric C -> nonnegative C -> 0 <= quantile ->
  let u := empirical_covariance T C diagonal quantile in
  let c i j := if diagonal && (i != j) then 0 else C i j in
  [/\ 0 <= size_k u, size_k u ^+ 2 = quantile,
      forall i j k l, shape u (pos i j) (pos k l) = (if (i == k) && (j == l) then (c i i * c j j + c i j ^+ 2) / T%:R else 0),
      symmetric (shape u) /\ nonnegative (shape u) & (forall i, 0 < C i i) -> positive (shape u)].
Proof.
move=> T0 HS N q0 u c; have Tp : (0 : F) < T%:R by rewrite ltr0n.
have cc i : c i i = C i i by rewrite /c eqxx andbF.
pose d p := (c (high p) (high p) * c (low p) (low p) + c (high p) (low p) ^+ 2) / T%:R.
have E : shape u = \matrix_(p, q) (if p == q then d p else 0).
  by apply/matrixP=> p q; rewrite (wishart_entry diagonal quantile _ _ T0 HS) mxE.
split.
- exact: sqrtr_ge0.
- exact: sqr_sqrtr.
- move=> i j k l; rewrite E mxE /d high_pos low_pos.
  have -> : (pos i j == pos k l) = (i == k) && (j == l); last by [].
  apply/eqP/andP=> [H|[/eqP -> /eqP ->] //]; split; apply/eqP.
    by rewrite -(high_pos i j) H high_pos.
  by rewrite -(low_pos i j) H low_pos.
- rewrite E; split; [apply: diag_sym|apply: diag_nonneg => p].
  by rewrite /d !cc mulr_ge0 ?addr_ge0 ?sqr_ge0 ?mulr_ge0 ?entry_nonneg // invr_ge0 ltW.
- move=> Cp; rewrite E; apply: diag_positive => p; rewrite /d !cc divr_gt0 //; apply: ltr_paddr; [exact: sqr_ge0|exact: mulr_gt0].
Qed.
(** The risk expression of that set is exactly the largest variance over the set. *)
Theorem C55_covariance_exact n T (C : 'M[F]_n) diagonal (quantile : F) Q (w : 'cV[F]_n) (scale factor : F) :
  (0 < T)%N -> symmetric C -> nonnegative C -> 0 <= quantile -> 0 < scale -> 0 < factor ->
  let u := empirical_covariance T C diagonal quantile in square_root (shape u) Q ->
  exists x y M, [/\ worst_case_constraints scale w factor x y, possible_covariance u C M &
    form M (factor^-1 *: w) = worst_case_variance C u Q x y / factor].
Proof.
move=> T0 HS N q0 s0 f0 u R; have [k0 _ _ [US UN] _] := C55_empirical_covariance diagonal T0 HS N q0; rewrite -/u in k0 US UN.
set W := w *m w^T; have [d [Hd [Ed [c0 [c0p Ec]]]]] := ellipsoid_extreme (vec W) US UN k0.
set K := \matrix_(i, j) kept diagonal C i j; have [KS KN] : symmetric K /\ nonnegative K by apply: kept_form.
have Tp : (0 : F) < T%:R by rewrite ltr0n.
pose H : 'M[F]_n := \matrix_(i, j) ((K i i * K j j + K i j ^+ 2) / T%:R * (w i 0 * w j 0)).
have WE i j : W i j = w i 0 * w j 0 by rewrite /W mxE big_ord_recl big_ord0 addr0 mxE.
have VH : vec H = shape u *m vec W.
  apply/matrixP=> p z; rewrite !ord1 mxE [RHS]mxE (bigD1 p) //= big1 ?addr0 => [|r rn]; last first.
    by rewrite (wishart_entry diagonal quantile _ _ T0 HS) eq_sym (negbTE rn) mul0r.
  rewrite (wishart_entry diagonal quantile _ _ T0 HS) eqxx [vec W p 0]mxE WE [H _ _]mxE.
  have Ek i j : K i j = kept diagonal C i j by rewrite mxE.
  rewrite -!Ek (KS (low p) (high p)); congr (_ / _ * _); by rewrite (mulrC (K (low p) _)).
have HT : H^T = H by apply/matrixP=> i j; rewrite !mxE -!/(K _ _) (mulrC (w i 0)) (_ : kept diagonal C j i = kept diagonal C i j) ?(mulrC (kept _ _ j j)) //; have := KS j i; rewrite !mxE.
have HN : nonnegative H.
  move=> v; pose g : 'cV[F]_n := \col_i (v i 0 * w i 0).
  have -> : form H v = (T%:R)^-1 * ((dot (\col_i K i i) g) ^+ 2 + form (\matrix_(i, j) (K i j * K i j)) g).
    rewrite -outer_form -form_add formE formE mulr_sumr; apply: eq_bigr => i _; rewrite mulr_sumr; apply: eq_bigr => j _.
    rewrite [H i j]mxE [(_ + _ : 'M_n) i j]mxE [(_ *m _) i j]mxE big_ord_recl big_ord0 addr0.
    have -> : (\matrix_(i, j) (K i j * K i j)) i j = K i j ^+ 2 by rewrite [LHS]mxE expr2.
    have -> : (\col_i0 K i0 i0) i 0 = K i i by rewrite [LHS]mxE.
    have -> : ((\col_i0 K i0 i0)^T : 'rV_n) 0 j = K j j by rewrite [LHS]mxE [LHS]mxE.
    have -> : g i 0 = v i 0 * w i 0 by rewrite [LHS]mxE. have -> : g j 0 = v j 0 * w j 0 by rewrite [LHS]mxE.
    move: (K i i * K j j + K i j ^+ 2) => a.
    exact: shuffle.
  apply: mulr_ge0; first by rewrite invr_ge0 ltW.
  apply: addr_ge0; first exact: sqr_ge0. exact: hadamard_nonneg.
exists (factor^-1 *: W), 0, (C + c0 *: H); split.
- split; first by rewrite linearZ /= /W trmx_mul trmxK.
  split; first by rewrite trmx0.
  rewrite !semidefinite_scale // bordered_iff // subrr; split=> v; by rewrite /form mulmx0 mul0mx mxE.
- split.
  + by apply: tr_sym; rewrite linearD linearZ /= HT (sym_tr HS).
  + by move=> v; rewrite form_add form_scale addr_ge0 // mulr_ge0.
  + rewrite vecD addrC addKr (_ : vec (c0 *: H) = c0 *: vec H); last by apply/matrixP=> i j; rewrite !mxE.
    by rewrite VH -Ec.
- rewrite /worst_case_variance addr0 (norm2_form _ R).
  have -> : vec (0 : 'M[F]_n) = 0 by apply/matrixP=> i j; rewrite !mxE.
  have -> : vec (factor^-1 *: W) = factor^-1 *: vec W by apply/matrixP=> i j; rewrite !mxE.
  rewrite addr0 !form_scalev sqrtrM ?sqr_ge0 // sqrtr_sqr ger0_norm ?invr_ge0 ?ltW //.
  rewrite -scalemxAr mxtraceZ trace_outer mulrCA -Ed -mulrDr [RHS]mulrAC expr2; congr (_ * _).
  rewrite form_add form_scale [RHS]addrC; congr (_ + _).
  rewrite Ec -VH (_ : c0 *: vec H = vec (c0 *: H)); last by apply/matrixP=> i j; rewrite !mxE.
  by rewrite dot_vec (sym_tr (outer_sym w)) mxtrace_mulC -scalemxAl mxtraceZ trace_outer.
Qed.

(** The bootstrap set of covariances: the unbiased covariance of the entries of the bootstrapped covariance matrices. *)
Theorem C55_bootstrap_covariance n B T (samples : 'I_B -> 'M[F]_(T, n)) C diagonal (quantile : F) : (1 < B)%N -> 0 <= quantile ->
  let u := bootstrap_covariance samples C diagonal quantile in
  let c i j b := covariance_of (fun t => samples b t i) (fun t => samples b t j) in
  [/\ 0 <= size_k u, size_k u ^+ 2 = quantile,
      forall i j k l, shape u (pos i j) (pos k l) = (if diagonal && ((i, j) != (k, l)) then 0 else covariance_of (c i j) (c k l)) &
      symmetric (shape u) /\ nonnegative (shape u)].
Proof.
move=> B1 q0 u c; have B0 : (0 < B)%N by apply: ltn_trans B1.
split; [exact: sqrtr_ge0|exact: sqr_sqrtr| |].
- have E i j k l : np_cov (\matrix_(b, p) vec (np_cov (samples b) - C) p 0) (pos i j) (pos k l) = covariance_of (c i j) (c k l).
    rewrite np_covE -[RHS](covariance_shift _ _ (C j i) (C l k)) //; apply: covariance_ext => b.
      by rewrite mxE vec_pos [LHS]mxE [X in _ + X]mxE (proj1 (np_cov_ok (samples b))) np_covE.
    by rewrite mxE vec_pos [LHS]mxE [X in _ + X]mxE (proj1 (np_cov_ok (samples b))) np_covE.
  move=> i j k l; rewrite /u /= {u}; case: diagonal => /=; last exact: E.
  rewrite [LHS]mxE; have -> : ((i, j) != (k, l)) = (pos i j != pos k l).
    congr (~~ _); apply/eqP/eqP=> [[-> ->] //|H]; by rewrite -(high_pos i j) -{2}(low_pos i j) H high_pos low_pos.
  by case: eqP => [H|] //=; rewrite {2}H; apply: E.
- by rewrite /u /= {u}; case: diagonal; [apply: diag_part_ok|]; have [A D] := np_cov_ok (\matrix_(b, p) vec (np_cov (samples b) - C) p 0); [apply: D|split=> //; apply: D].
Qed.
(** A diagonal non-negative shape has a square root, so that the theorems above apply to every empirical set of covariances. *)
Lemma diagonal_root n (d : 'I_n -> F) : (forall i, 0 <= d i) ->
  square_root (\matrix_(i, j) (if i == j then d i else 0)) (\matrix_(i, j) (if i == j then Num.sqrt (d i) else 0)).
Proof.
move=> d0; split; first by apply/matrixP=> i j; rewrite !mxE eq_sym; case: eqP => // ->.
apply/matrixP=> i j; rewrite !mxE (bigD1 i) //= big1 => [|k kn].
  rewrite !mxE eqxx addr0; case: eqP => [->|] //; last by rewrite mulr0.
  by rewrite -expr2 sqr_sqrtr.
by rewrite !mxE eq_sym (negbTE kn) mul0r.
Qed.
Lemma diag_partK n (A : 'M[F]_n) : diag_part (diag_part A) = diag_part A.
Proof. by apply/matrixP=> i j; rewrite !mxE; case: eqP => // _; rewrite eqxx. Qed.
Theorem C55_roots n T (C : 'M[F]_n) diagonal (quantile : F) : (0 < T)%N -> symmetric C -> nonnegative C -> 0 <= quantile ->
  (exists Q, square_root (shape (empirical_covariance T C diagonal quantile)) Q) /\
  (exists Q, square_root (shape (empirical_mu T C true quantile)) Q).
Proof.
move=> T0 HS N q0; split.
- have [_ _ _ [US UN] _] := C55_empirical_covariance diagonal T0 HS N q0.
  eexists; apply: diagonal_root => i; move: (entry_nonneg i UN); rewrite /= mxE eqxx; exact.
- have [_ _ _ [US UN] _] := C55_empirical_mu true T0 HS N q0.
  eexists; apply: diagonal_root => i; move: (entry_nonneg i UN); rewrite /= mxE eqxx; exact.
Qed.
(** The documented shape of the empirical covariance set, Cov[vec] = (I + K)(C (x) C) / (T - 1), is not the one
    computed, even with diagonal=False: the off-diagonal terms are dropped and 1 / T is used. *)
Definition documented_shape n (T : nat) (C : 'M[F]_n) : 'M[F]_(n * n) := (T%:R - 1)^-1 *: ((1%:M + commutation F n) *m kron C C).
Lemma documented_entry n T (C : 'M[F]_n) i j k l :
  documented_shape T C (pos i j) (pos k l) = (T%:R - 1)^-1 * (C i k * C j l + C j k * C i l).
Proof.
rewrite mxE; congr (_ * _); rewrite mulmxDl mul1mx addE; congr (_ + _); first by rewrite mxE !high_pos !low_pos.
have Ij : (i : nat) = ((i * n + j) %/ n)%N by have := congr1 val (high_pos i j).
have Jj : (j : nat) = ((i * n + j) %% n)%N by have := congr1 val (low_pos i j).
rewrite mxE (bigD1 (pos j i)) //= [commutation _ _ _ _]mxE /= -Ij -Jj addnC eqxx mul1r big1 ?addr0 => [|r /negP rn].
  by rewrite mxE !high_pos !low_pos.
rewrite [commutation _ _ _ _]mxE /= -Ij -Jj; case: eqP => E; last by rewrite mul0r.
by case: rn; apply/eqP; apply: val_inj; rewrite /= E addnC.
Qed.
Lemma identity_ok n : symmetric (1%:M : 'M[F]_n) /\ positive (1%:M : 'M[F]_n).
Proof.
have -> : (1%:M : 'M[F]_n) = \matrix_(i, j) (if i == j then (fun _ => 1) i else 0) by apply/matrixP=> i j; rewrite !mxE; case: eqP.
by split; [apply: diag_sym|apply: diag_positive => i; apply: ltr01].
Qed.
Theorem C55_wishart_refuted T : (1 < T)%N -> exists n (C : 'M[F]_n), [/\ symmetric C, positive C &
  forall quantile, shape (empirical_covariance T C false quantile) <> documented_shape T C].
Proof.
move=> T1; have T0 : (0 < T)%N by apply: ltn_trans T1.
exists 2%N, 1%:M; have [HS P] := identity_ok 2; split=> // quantile /matrixP/(_ (pos ord0 ord_max) (pos ord_max ord0)).
rewrite wishart_entry // documented_entry !mxE /=.
rewrite mulr0 add0r mulr1n mulr1 mulr1 => /eqP; rewrite eq_sym invr_eq0 subr_eq0 (eqr_nat F T 1) => /eqP E; by rewrite E in T1.
Qed.
(** The hypotheses are met: two assets, twelve observations, unit covariance, 5.99 (95% with two degrees of freedom). *)
Example C55_applies (mu w : 'cV[F]_2) : exists Q, let u := empirical_mu 12 1%:M true (599%:R / 100%:R) in
  [/\ square_root (shape u) Q, 0 < size_k u, positive (shape u) &
      exists m, form (invmx (shape u)) (m - mu) <= 599%:R / 100%:R /\ penalised_return mu u Q w = (m^T *m w) 0 0].
Proof.
have [HS P] := identity_ok 2; have q0 : (0 : F) <= 599%:R / 100%:R by rewrite divr_ge0 ?ler0n.
have [[_ _] [Q HQ]] := @C55_roots _ 12 _ true _ isT HS (positive_nonneg P) q0.
have [k0 k2 _ [US UN] UP] := @C55_empirical_mu _ 12 _ true _ isT HS (positive_nonneg P) q0.
exists Q; split=> //; first by rewrite sqrtr_gt0 divr_gt0 ?ltr0n. exact: UP.
have [_ [m [Hm Em]]] := C55_mu_worst_case mu w k0 HQ; exists m; split=> //.
by rewrite -[X in _ <= X]k2 -C55_ellipsoid //; apply: UP.
Qed.
End Theorems.
Print Assumptions C55_ellipsoid.
Print Assumptions C55_mu_worst_case.
Print Assumptions C55_empirical_mu.
Print Assumptions C55_bootstrap_mu.
Print Assumptions C55_covariance_bound.
Print Assumptions C55_empirical_covariance.
Print Assumptions C55_covariance_exact.
Print Assumptions C55_bootstrap_covariance.
Print Assumptions C55_roots.
Print Assumptions C55_wishart_refuted.
