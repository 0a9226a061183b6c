(* ------------------------------------------------------------------------ *)
(* Property C79: density and tail dependence of the Gaussian and Student t   *)
(* copulas.                                                                  *)
(* ------------------------------------------------------------------------ *)
From Coq Require Import Reals List Lra Psatz.
From Coquelicot Require Import Coquelicot.
From Verif Require Import CopulaModel CopulaProps CopulaTailProps EllipticalModel.
Import ListNotations.
Open Scope R_scope.

(* ------------------------------------------------------------------------ *)
(* Specification                                                             *)
(* ------------------------------------------------------------------------ *)
(* scipy's ndtr and ndtri: the distribution function with density
   exp(-x^2/2) / c, and its quantile function.  c = sqrt(2 pi); its value plays
   no role. *)
Definition normal_pair (ndtr ndtri : R -> R) : Prop :=
  quantile_pair ndtr ndtri /\
  exists c, 0 < c /\ forall x, derivable_pt_lim ndtr x (exp (- x ^ 2 / 2) / c).

(* scipy's stdtr, stdtrit and gammaln at nu degrees of freedom: the density of
   stdtr nu is Gamma((nu+1)/2) / (sqrt(nu pi) Gamma(nu/2)) (1 + x^2/nu)^(-(nu+1)/2) *)
Definition student_pair (gammaln : R -> R) (stdtr stdtrit : R -> R -> R) (nu : R) : Prop :=
  quantile_pair (stdtr nu) (stdtrit nu) /\
  forall x, derivable_pt_lim (stdtr nu) x
    (exp (gammaln ((nu + 1) / 2)) / (sqrt (nu * PI) * exp (gammaln (nu / 2)))
     * Rpower (1 + x ^ 2 / nu) (- (nu + 1) / 2)).

(* h(. | v) runs from 0 to 1 *)
Definition runs_from_0_to_1 (h : R -> R -> R) : Prop :=
  forall v, unit v -> tends0 (fun t => h t v) 0 /\ tends0 (fun t => h (1 - t) v) 1.

(* an exchangeable copula (grounded, with uniform margins) whose conditional
   distribution functions are h *)
Definition copula_with (h C : R -> R -> R) : Prop :=
  exchangeable C /\ h_function_of C h /\
  forall u, unit u -> tends0 (fun t => C u t) 0 /\ tends0 (fun t => C u (1 - t)) u.

Definition inside_row (X : R * R) : Prop := inside (fst X) /\ inside (snd X).

(* ------------------------------------------------------------------------ *)
(* A distribution function with a positive derivative, and its quantiles     *)
(* ------------------------------------------------------------------------ *)
Section quantiles.
  Variables (F Q f : R -> R).
  Hypothesis U : forall x, unit (F x).
  Hypothesis QF : forall x, Q (F x) = x.
  Hypothesis FQ : forall p, unit p -> F (Q p) = p.
  Hypothesis D : forall x, derivable_pt_lim F x (f x).
  Hypothesis P : forall x, 0 < f x.

  Lemma F_incr x y : x < y -> F x < F y.
  Proof.
    intros L. destruct (MVT_cor2 F f x y L) as (c & E & _); [auto|].
    specialize (P c). nra.
  Qed.
  Lemma F_incr_iff x y : F x < F y <-> x < y.
  Proof.
    split; [|apply F_incr]. intros L. destruct (Rtotal_order x y) as [?|[->|G]]; [auto|lra|].
    apply F_incr in G. lra.
  Qed.
  Lemma Q_incr p q : unit p -> unit q -> p < q -> Q p < Q q.
  Proof. intros. apply F_incr_iff. now rewrite !FQ. Qed.
  Lemma F_cont x : continuity_pt F x.
  Proof. eapply continuous_of. apply D. Qed.

  Lemma Q_cont p : unit p -> continuity_pt Q p.
  Proof.
    intros Hp eps He.
    pose proof (U (Q p - eps)) as U1. pose proof (U (Q p + eps)) as U2.
    assert (L1 : F (Q p - eps) < p) by (rewrite <- (FQ p Hp) at 2; apply F_incr; lra).
    assert (L2 : p < F (Q p + eps)) by (rewrite <- (FQ p Hp) at 1; apply F_incr; lra).
    exists (Rmin (p - F (Q p - eps)) (F (Q p + eps) - p)). split; [apply Rmin_glb_lt; lra|].
    intros q (_ & Hq). cbn in *. unfold R_dist in *.
    pose proof (Rmin_l (p - F (Q p - eps)) (F (Q p + eps) - p)).
    pose proof (Rmin_r (p - F (Q p - eps)) (F (Q p + eps) - p)).
    apply Rabs_def2 in Hq. unfold unit in *.
    assert (unit q) by (unfold unit; lra).
    assert (Q p - eps < Q q) by (apply F_incr_iff; rewrite (FQ q) by auto; lra).
    assert (Q q < Q p + eps) by (apply F_incr_iff; rewrite (FQ q) by auto; lra).
    apply Rabs_def1; lra.
  Qed.

  Lemma Q_derive p : unit p -> derivable_pt_lim Q p (/ f (Q p)).
  Proof.
    intros Hp eps He. pose proof (P (Q p)) as Pf. set (x := Q p) in *.
    (* (Q(p+h) - Q p)/h = 1 / ((F(x+k) - F x)/k), k = Q(p+h) - Q p *)
    assert (CI : continuity_pt Rinv (f x)).
    { apply continuity_pt_inv; [apply derivable_continuous_pt, derivable_pt_id | unfold id; lra]. }
    destruct (CI eps He) as (e1 & P1 & K1).
    destruct (D x (Rmin e1 (f x))) as (e2 & K2); [apply Rmin_glb_lt; lra|].
    destruct (Q_cont p Hp e2 (cond_pos e2)) as (e3 & P3 & K3).
    assert (Pm : 0 < Rmin e3 (Rmin p (1 - p))) by (unfold unit in Hp; repeat apply Rmin_glb_lt; lra).
    exists (mkposreal _ Pm). cbn. intros h h0 Hh.
    pose proof (Rmin_l e3 (Rmin p (1 - p))). pose proof (Rmin_r e3 (Rmin p (1 - p))).
    pose proof (Rmin_l p (1 - p)). pose proof (Rmin_r p (1 - p)).
    assert (Up : unit (p + h)) by (apply Rabs_def2 in Hh; unfold unit in *; lra).
    set (k := Q (p + h) - x).
    assert (Ek : Q (p + h) = x + k) by (unfold k; ring).
    assert (Fk : F (x + k) - F x = h) by (rewrite <- Ek, FQ by auto; unfold x; rewrite FQ by auto; ring).
    assert (k0 : k <> 0) by (intros Z; rewrite Z, Rplus_0_r in Fk; lra).
    assert (Ak : Rabs k < e2).
    { apply (K3 (p + h)). split; [split; [exact I | lra]|]. cbn. unfold R_dist.
      replace (p + h - p) with h by ring. lra. }
    specialize (K2 k k0 Ak). rewrite Fk in K2.
    pose proof (Rmin_l e1 (f x)). pose proof (Rmin_r e1 (f x)).
    assert (NZ : h / k <> 0).
    { unfold Rdiv. apply Rmult_integral_contrapositive. split; auto. now apply Rinv_neq_0_compat. }
    fold k. replace (k / h) with (/ (h / k)) by (field; auto).
    destruct (Req_dec (h / k) (f x)) as [E|N].
    - rewrite E. unfold Rminus. rewrite Rplus_opp_r, Rabs_R0. lra.
    - apply (K1 (h / k)). split; [split; [exact I | congruence]|]. cbn. unfold R_dist. lra.
  Qed.

  Lemma Q_low m : exists d, 0 < d /\ forall t, 0 < t < d -> Q t < m.
  Proof.
    exists (F m). split; [apply U|]. intros t Ht. pose proof (U m).
    apply F_incr_iff. rewrite FQ; unfold unit in *; lra.
  Qed.
  Lemma Q_high m : exists d, 0 < d /\ forall t, 0 < t < d -> m < Q (1 - t).
  Proof.
    exists (1 - F m). pose proof (U m). split; [unfold unit in *; lra|]. intros t Ht.
    apply F_incr_iff. rewrite FQ; unfold unit in *; lra.
  Qed.

  Lemma inv_low : tends0 (fun t => / Q t) 0.
  Proof.
    intros eps He. destruct (Q_low (- / eps)) as (d & Hd & K). exists d. split; auto.
    intros t Ht _. specialize (K t Ht). pose proof (Rinv_0_lt_compat eps He).
    rewrite Rminus_0_r, Rabs_left by (apply Rinv_lt_0_compat; lra).
    rewrite <- (Rinv_inv eps). rewrite <- Rinv_opp. apply Rinv_lt_contravar; [|lra].
    apply Rmult_lt_0_compat; lra.
  Qed.
  Lemma inv_high : tends0 (fun t => / Q (1 - t)) 0.
  Proof.
    intros eps He. destruct (Q_high (/ eps)) as (d & Hd & K). exists d. split; auto.
    intros t Ht _. specialize (K t Ht). pose proof (Rinv_0_lt_compat eps He).
    rewrite Rminus_0_r, Rabs_right by (left; apply Rinv_0_lt_compat; lra).
    rewrite <- (Rinv_inv eps). apply Rinv_lt_contravar; [|lra].
    apply Rmult_lt_0_compat; lra.
  Qed.

  (* F at minus and plus infinity *)
  Lemma F_low (g : R -> R) : (forall m, exists d, 0 < d /\ forall t, 0 < t < d -> t < 1 -> g t < m) ->
    tends0 (fun t => F (g t)) 0.
  Proof.
    intros H eps He.
    assert (Ue : unit (Rmin eps (1 / 2))).
    { unfold unit. split; [apply Rmin_glb_lt; lra|]. pose proof (Rmin_r eps (1 / 2)). lra. }
    destruct (H (Q (Rmin eps (1 / 2)))) as (d & Hd & K). exists d. split; auto.
    intros t Ht L. specialize (K t Ht L). apply F_incr in K. rewrite FQ in K by auto.
    pose proof (U (g t)). pose proof (Rmin_l eps (1 / 2)). unfold unit in *.
    rewrite Rabs_right; lra.
  Qed.
  Lemma F_high (g : R -> R) : (forall m, exists d, 0 < d /\ forall t, 0 < t < d -> t < 1 -> m < g t) ->
    tends0 (fun t => F (g t)) 1.
  Proof.
    intros H eps He.
    assert (Ue : unit (1 - Rmin eps (1 / 2))).
    { unfold unit. pose proof (Rmin_r eps (1 / 2)).
      assert (0 < Rmin eps (1 / 2)) by (apply Rmin_glb_lt; lra). lra. }
    destruct (H (Q (1 - Rmin eps (1 / 2)))) as (d & Hd & K). exists d. split; auto.
    intros t Ht L. specialize (K t Ht L). apply F_incr in K. rewrite FQ in K by auto.
    pose proof (U (g t)). pose proof (Rmin_l eps (1 / 2)). unfold unit in *.
    rewrite Rabs_left; lra.
  Qed.

  (* an even density makes F symmetric *)
  Lemma F_sym : (forall x, f (- x) = f x) -> forall x, F (- x) = 1 - F x.
  Proof.
    intros E x.
    assert (DG : forall y, derivable_pt_lim (fun z => F z + F (- z)) y 0).
    { intros y. eapply d_eq.
      - apply d_plus; [apply D|]. apply (d_comp (fun z => - z) F); [apply d_opp, d_id | apply D].
      - rewrite E. ring. }
    assert (K : forall y, F y + F (- y) = 2 * F 0).
    { intros y. destruct (Rtotal_order 0 y) as [L|[<-|L]].
      - destruct (MVT_cor2 (fun z => F z + F (- z)) (fun _ => 0) 0 y L) as (c & H & _); [auto|].
        rewrite Ropp_0 in H. lra.
      - rewrite Ropp_0. ring.
      - destruct (MVT_cor2 (fun z => F z + F (- z)) (fun _ => 0) y 0 L) as (c & H & _); [auto|].
        rewrite Ropp_0 in H. lra. }
    assert (F 0 = 1 / 2).
    { pose proof (U 0) as U0. destruct (Rtotal_order (F 0) (1 / 2)) as [L|[?|L]]; [|auto|]; exfalso.
      - assert (UA : unit ((1 + 2 * F 0) / 2)) by (unfold unit in *; lra).
        pose proof (FQ _ UA) as A. pose proof (K (Q ((1 + 2 * F 0) / 2))) as B.
        pose proof (U (- Q ((1 + 2 * F 0) / 2))). unfold unit in *. lra.
      - assert (UA : unit ((2 * F 0 - 1) / 2)) by (unfold unit in *; lra).
        pose proof (FQ _ UA) as A. pose proof (K (Q ((2 * F 0 - 1) / 2))) as B.
        pose proof (U (- Q ((2 * F 0 - 1) / 2))). unfold unit in *. lra. }
    pose proof (K x). lra.
  Qed.
End quantiles.

(* ------------------------------------------------------------------------ *)
(* From the diagonal of the h-function to the tails of the copula            *)
(* ------------------------------------------------------------------------ *)
Lemma ratio_limit Dg d l :
  (forall q, unit q -> derivable_pt_lim Dg q (d q)) -> (forall q, unit q -> 0 <= Dg q <= q) ->
  tends0 d l -> tends0 (fun q => Dg q / q) l.
Proof.
  intros HD HB HL eps He. destruct (HL (eps / 2) ltac:(lra)) as (e & Pe & K).
  exists e. split; auto. intros q Hq L1.
  assert (B : forall a, 0 < a < q -> Rabs (Dg q - Dg a - l * (q - a)) <= eps / 2 * q).
  { intros a Ha. destruct (MVT_cor2 Dg d a q (proj2 Ha)) as (c & E & Hc).
    { intros c Hc. apply HD. unfold unit. lra. }
    rewrite E. replace (d c * (q - a) - l * (q - a)) with ((d c - l) * (q - a)) by ring.
    rewrite Rabs_mult, (Rabs_right (q - a)) by lra.
    specialize (K c ltac:(lra) ltac:(lra)). pose proof (Rabs_pos (d c - l)).
    apply Rmult_le_compat; lra. }
  assert (M : Rabs (Dg q - l * q) <= eps / 2 * q).
  { apply le_epsilon. intros z Hz. set (a := Rmin (q / 2) (z / (1 + Rabs l))).
    pose proof (Rabs_pos l).
    assert (Pz : 0 < z / (1 + Rabs l)) by (apply Rdiv_lt_0_compat; lra).
    assert (Ha : 0 < a <= q / 2) by (unfold a; split; [apply Rmin_glb_lt; lra | apply Rmin_l]).
    specialize (B a ltac:(lra)). specialize (HB a ltac:(unfold unit; lra)).
    assert (Za : a * (1 + Rabs l) <= z).
    { apply Rle_trans with (z / (1 + Rabs l) * (1 + Rabs l)); [|right; field; lra].
      apply Rmult_le_compat_r; [lra|apply Rmin_r]. }
    replace (Dg q - l * q) with ((Dg q - Dg a - l * (q - a)) + (Dg a - l * a)) by ring.
    eapply Rle_trans; [apply Rabs_triang|]. apply Rplus_le_compat; auto.
    eapply Rle_trans; [apply Rabs_triang|]. rewrite Rabs_Ropp, Rabs_mult, (Rabs_right a), (Rabs_right (Dg a)) by lra.
    lra. }
  replace (Dg q / q - l) with ((Dg q - l * q) / q) by (field; lra).
  unfold Rdiv. rewrite Rabs_mult, Rabs_inv, (Rabs_right q) by lra.
  apply Rle_lt_trans with (eps / 2 * q * / q).
  - apply Rmult_le_compat_r; auto. left. apply Rinv_0_lt_compat. lra.
  - apply Rle_lt_trans with (eps / 2); [right; field; lra | lra].
Qed.

Lemma diagonal h C : exchangeable C -> h_function_of C h ->
  (forall q, unit q -> continuity_2d_pt h q q) ->
  forall q, unit q -> derivable_pt_lim (fun t => C t t) q (2 * h q q).
Proof.
  intros S H Hc q Hq eps He.
  destruct (H q q Hq Hq (eps / 2) ltac:(lra)) as (e1 & K1).
  destruct (Hc q Hq (mkposreal (eps / 2) ltac:(lra))) as (e2 & K2). cbn in K2.
  assert (Pm : 0 < Rmin (Rmin e1 e2) (Rmin q (1 - q))).
  { unfold unit in Hq. repeat apply Rmin_glb_lt; try apply cond_pos; lra. }
  exists (mkposreal _ Pm). cbn. intros k k0 Hk.
  pose proof (Rmin_l (Rmin e1 e2) (Rmin q (1 - q))). pose proof (Rmin_r (Rmin e1 e2) (Rmin q (1 - q))).
  pose proof (Rmin_l e1 e2). pose proof (Rmin_r e1 e2). pose proof (Rmin_l q (1 - q)). pose proof (Rmin_r q (1 - q)).
  assert (Uk : unit (q + k)) by (apply Rabs_def2 in Hk; unfold unit in *; lra).
  specialize (K1 k k0 ltac:(lra)).
  (* C(q+k, q+k) - C(q+k, q) by the mean value theorem *)
  assert (exists c, C (q + k) (q + k) - C (q + k) q = h (q + k) c * k /\ Rabs (c - q) < e2) as (c & E & Hcq).
  { assert (Ab : Rabs k < e2) by lra. apply Rabs_def2 in Ab.
    destruct (Rtotal_order 0 k) as [L|[Z|L]]; [| congruence |].
    - destruct (MVT_cor2 (fun t => C (q + k) t) (h (q + k)) q (q + k)) as (c & E & Hc'); [lra| |].
      + intros c Hc'. apply H; auto. unfold unit in *; lra.
      + exists c. split; [rewrite E; ring|]. apply Rabs_def1; lra.
    - destruct (MVT_cor2 (fun t => C (q + k) t) (h (q + k)) (q + k) q) as (c & E & Hc'); [lra| |].
      + intros c Hc'. apply H; auto. unfold unit in *; lra.
      + exists c. split; [|apply Rabs_def1; lra].
        replace (C (q + k) (q + k) - C (q + k) q) with (- (C (q + k) q - C (q + k) (q + k))) by ring.
        rewrite E. ring. }
  specialize (K2 (q + k) c). replace (q + k - q) with k in K2 by ring. specialize (K2 ltac:(lra) Hcq).
  replace ((C (q + k) (q + k) - C q q) / k - 2 * h q q)
    with ((h (q + k) c - h q q) + ((C q (q + k) - C q q) / k - h q q)).
  - eapply Rle_lt_trans; [apply Rabs_triang|]. lra.
  - replace (C (q + k) (q + k) - C q q) with (h (q + k) c * k + (C (q + k) q - C q q)) by (rewrite <- E; ring).
    rewrite (S (q + k) q) by auto. field. auto.
Qed.

Lemma positive_from_0 f f' : (forall t, unit t -> derivable_pt_lim f t (f' t)) -> (forall t, unit t -> 0 < f' t) ->
  tends0 f 0 -> forall t, unit t -> 0 < f t.
Proof.
  intros D P L t Ht.
  assert (I : forall a b, unit a -> unit b -> a < b -> f a < f b).
  { intros a b Ha Hb Lab. destruct (MVT_cor2 f f' a b Lab) as (c & E & Hc).
    - intros c Hc. apply D. unfold unit in *; lra.
    - specialize (P c ltac:(unfold unit in *; lra)). nra. }
  assert (T : unit (t / 2)) by (unfold unit in *; lra).
  specialize (I (t / 2) t T Ht ltac:(unfold unit in *; lra)) as I1.
  enough (0 <= f (t / 2)) by lra.
  apply Rnot_lt_le. intros N. destruct (L (- f (t / 2)) ltac:(lra)) as (d & Pd & K).
  set (z := Rmin (d / 2) (t / 4)).
  assert (Z : 0 < z <= t / 4) by (unfold z; unfold unit in *; split; [apply Rmin_glb_lt; lra | apply Rmin_r]).
  assert (Zd : z <= d / 2) by apply Rmin_l.
  specialize (K z ltac:(lra) ltac:(unfold unit in *; lra)).
  specialize (I z (t / 2) ltac:(unfold unit in *; lra) T ltac:(lra)).
  apply Rabs_def2 in K. lra.
Qed.

Lemma copula_frechet h C : copula_with h C -> (forall u v, unit u -> unit v -> unit (h u v)) ->
  frechet_bounds (fun X => C (fst X) (snd X)).
Proof.
  intros (S & H & L) U.
  assert (A : forall u v, unit u -> unit v -> 0 < C u v).
  { intros u v Hu Hv. apply (positive_from_0 (C u) (h u)); auto.
    - intros t Ht. now apply U.
    - now apply L. }
  assert (B : forall u v, unit u -> unit v -> 0 < v - C u v).
  { intros u v Hu Hv. apply (positive_from_0 (fun t => t - C u t) (fun t => 1 - h u t)); auto.
    - intros t Ht. apply d_minus; [apply d_id | auto].
    - intros t Ht. pose proof (U u t Hu Ht). unfold unit in *; lra.
    - rewrite <- (Rplus_opp_r 0). apply (t0_plus (fun t => t)); [apply t0_id | apply t0_opp, L; auto]. }
  assert (D : forall u v, unit u -> unit v -> 0 < 1 - u - v + C u v).
  { intros u v Hu Hv.
    replace (1 - u - v + C u v) with ((fun t => t + (- u) + C u (1 - t)) (1 - v)).
    2:{ cbn beta. replace (1 - (1 - v)) with v by ring. ring. }
    apply (positive_from_0 (fun t => t + (- u) + C u (1 - t)) (fun t => 1 - h u (1 - t))).
    - intros t Ht. assert (unit (1 - t)) by (unfold unit in *; lra). eapply d_eq.
      + apply d_plus; [apply d_plus; [apply d_id | apply d_const]|].
        apply (d_comp (fun t => 1 - t) (C u)); [apply d_one_minus | now apply H].
      + ring.
    - intros t Ht. pose proof (U u (1 - t) Hu ltac:(unfold unit in *; lra)). unfold unit in *; lra.
    - replace 0 with (0 + - u + u) by ring. apply (t0_plus (fun t => t + - u) (fun t => C u (1 - t))); [|now apply L].
      apply (t0_plus (fun t => t)); [apply t0_id | apply t0_const].
    - unfold unit in *; lra. }
  intros u v Hu Hv. cbn [fst snd].
  pose proof (A u v Hu Hv). pose proof (B u v Hu Hv). pose proof (B v u Hv Hu). pose proof (D u v Hu Hv).
  rewrite (S v u) in * by auto. lra.
Qed.

Lemma tails_of h C l u : copula_with h C -> (forall u v, unit u -> unit v -> unit (h u v)) -> (forall q, unit q -> continuity_2d_pt h q q) ->
  tends0 (fun q => 2 * h q q) l -> tends0 (fun t => 2 * (1 - h (1 - t) (1 - t))) u ->
  lower_tail_is (fun X => C (fst X) (snd X)) l /\ upper_tail_is (fun X => C (fst X) (snd X)) u.
Proof.
  intros CW HU Hc Hl Hu. pose proof (copula_frechet h C CW HU) as B.
  destruct CW as (S & H & _). pose proof (diagonal h C S H Hc) as Dg. split.
  - unfold lower_tail_is. cbn [fst snd]. apply (ratio_limit _ (fun q => 2 * h q q)); auto.
    intros q Hq. specialize (B q q Hq Hq). cbn [fst snd] in B. lra.
  - unfold upper_tail_is. cbn [fst snd].
    eapply t0_ext; [|apply (ratio_limit (fun t => 1 - 2 * (1 - t) + C (1 - t) (1 - t))
                              (fun t => 2 * (1 - h (1 - t) (1 - t)))); [| |exact Hu]].
    + intros t Ht. cbn beta. f_equal. ring.
    + intros t Ht. assert (unit (1 - t)) by (unfold unit in *; lra).
      eapply d_eq.
      * apply d_plus; [apply d_minus; [apply d_const | apply d_mult; [apply d_const | apply d_one_minus]]|].
        apply (d_comp (fun t => 1 - t) (fun t => C t t)); [apply d_one_minus | now apply Dg].
      * cbn beta. ring.
    + intros t Ht. assert (U1 : unit (1 - t)) by (unfold unit in *; lra).
      specialize (B (1 - t) (1 - t) U1 U1). cbn [fst snd] in B. lra.
Qed.

(* ------------------------------------------------------------------------ *)
(* Gaussian                                                                  *)
(* ------------------------------------------------------------------------ *)
Section gaussian.
  Variables (F Q : R -> R) (c rho : R).
  Hypothesis U : forall x, unit (F x).
  Hypothesis QF : forall x, Q (F x) = x.
  Hypothesis FQ : forall p, unit p -> F (Q p) = p.
  Hypothesis Pc : 0 < c.
  Hypothesis D : forall x, derivable_pt_lim F x (exp (- x ^ 2 / 2) / c).
  Hypothesis Hr : -1 < rho < 1.

  Notation f := (fun x => exp (- x ^ 2 / 2) / c).
  Lemma ga_pos x : 0 < f x.
  Proof. apply Rdiv_lt_0_compat; auto. apply exp_pos. Qed.
  Lemma ga_a : 0 < 1 - rho ^ 2.
  Proof. nra. Qed.
  Lemma ga_s : 0 < sqrt (1 - rho ^ 2).
  Proof. apply sqrt_lt_R0, ga_a. Qed.

  Lemma ga_cdf : conditional_cdf (gaussian_h F Q rho).
  Proof.
    split; [intros; apply U|]. intros u u' v Hu Hu' Hv L.
    apply (F_incr F f D ga_pos). apply (Q_incr F Q f FQ D ga_pos) in L; auto.
    pose proof ga_s. apply Rmult_lt_compat_r; [now apply Rinv_0_lt_compat | lra].
  Qed.

  Lemma ga_runs : runs_from_0_to_1 (gaussian_h F Q rho).
  Proof.
    intros v Hv. pose proof ga_s as Ps. unfold gaussian_h. split.
    - apply (F_low F Q f U FQ D ga_pos). intros m.
      destruct (Q_low F Q f U FQ D ga_pos (m * sqrt (1 - rho ^ 2) + rho * Q v)) as (d & Pd & K).
      exists d. split; auto. intros t Ht _. specialize (K t Ht).
      apply Rmult_lt_reg_r with (sqrt (1 - rho ^ 2)); auto.
      apply Rle_lt_trans with (Q t - rho * Q v); [right; field; lra | lra].
    - apply (F_high F Q f U FQ D ga_pos). intros m.
      destruct (Q_high F Q f U FQ D ga_pos (m * sqrt (1 - rho ^ 2) + rho * Q v)) as (d & Pd & K).
      exists d. split; auto. intros t Ht _. specialize (K t Ht).
      apply Rmult_lt_reg_r with (sqrt (1 - rho ^ 2)); auto.
      apply Rlt_le_trans with (Q (1 - t) - rho * Q v); [lra | right; field; lra].
  Qed.

  Lemma sqrt_exp_ln a : 0 < a -> sqrt a = exp (ln a / 2).
  Proof.
    intros Ha. rewrite <- Rpower_sqrt by auto. unfold Rpower. f_equal. field.
  Qed.

  Lemma ga_density : density_of (gaussian_h F Q rho) (fun u v => exp (gaussian_log_density rho (Q u) (Q v))).
  Proof.
    intros u v Hu Hv. unfold gaussian_h. pose proof ga_s as Ps. pose proof ga_a as Pa.
    eapply d_eq.
    - apply (d_comp (fun t => (Q t - rho * Q v) / sqrt (1 - rho ^ 2)) F); [|apply D].
      unfold Rdiv. apply d_mult; [|apply d_const].
      apply d_minus; [|apply d_const]. apply (Q_derive F Q f U FQ D ga_pos u Hu).
    - cbn beta. set (x := Q u). set (y := Q v). unfold gaussian_log_density, log1p.
      replace (1 + - rho ^ 2) with (1 - rho ^ 2) by ring.
      assert (Z : ((x - rho * y) / sqrt (1 - rho ^ 2)) ^ 2 = (x - rho * y) ^ 2 / (1 - rho ^ 2)).
      { rewrite <- (pow2_sqrt (1 - rho ^ 2)) at 2 by lra. field. lra. }
      rewrite Z. set (E1 := exp (- x ^ 2 / 2)). pose proof (exp_pos (- x ^ 2 / 2)) as PE. fold E1 in PE.
      replace (- (5 / 10) * ln (1 - rho ^ 2) - rho * (5 / 10 * rho * (x ^ 2 + y ^ 2) - x * y) / (1 - rho ^ 2))
        with (- ((x - rho * y) ^ 2 / (1 - rho ^ 2)) / 2 + - (- x ^ 2 / 2) + - (ln (1 - rho ^ 2) / 2)) by (field; lra).
      rewrite !exp_plus, !exp_Ropp, <- sqrt_exp_ln by auto. fold E1.
      replace (- ((x - rho * y) ^ 2 / (1 - rho ^ 2)) / 2) with (- (((x - rho * y) ^ 2 / (1 - rho ^ 2)) / 2)) by (field; lra).
      field. repeat split; lra.
  Qed.

  Lemma ga_cont q : unit q -> continuity_2d_pt (gaussian_h F Q rho) q q.
  Proof.
    intros Hq. unfold gaussian_h.
    apply (continuity_1d_2d_pt_comp F); [apply (F_cont F f D)|]. unfold Rdiv.
    apply continuity_2d_pt_mult; [|apply continuity_2d_pt_const].
    apply continuity_2d_pt_minus.
    - apply (continuity_1d_2d_pt_comp Q (fun a b => a)); [now apply (Q_cont F Q f U FQ D ga_pos) | apply continuity_2d_pt_id1].
    - apply continuity_2d_pt_mult; [apply continuity_2d_pt_const|].
      apply (continuity_1d_2d_pt_comp Q (fun a b => b)); [now apply (Q_cont F Q f U FQ D ga_pos) | apply continuity_2d_pt_id2].
  Qed.

  Lemma ga_low : tends0 (fun q => 2 * gaussian_h F Q rho q q) 0.
  Proof.
    rewrite <- (Rmult_0_r 2). apply (t0_mul (fun q => gaussian_h F Q rho q q)). unfold gaussian_h.
    pose proof ga_s as Ps. apply (F_low F Q f U FQ D ga_pos). intros m.
    destruct (Q_low F Q f U FQ D ga_pos (m * sqrt (1 - rho ^ 2) / (1 - rho))) as (d & Pd & K).
    exists d. split; auto. intros t Ht _. specialize (K t Ht).
    apply Rmult_lt_reg_r with (sqrt (1 - rho ^ 2)); auto.
    apply Rle_lt_trans with (Q t * (1 - rho)); [right; field; lra|].
    apply Rlt_le_trans with (m * sqrt (1 - rho ^ 2) / (1 - rho) * (1 - rho)); [|right; field; lra].
    apply Rmult_lt_compat_r; lra.
  Qed.
  Lemma ga_high : tends0 (fun t => 2 * (1 - gaussian_h F Q rho (1 - t) (1 - t))) 0.
  Proof.
    rewrite <- (Rmult_0_r 2). apply (t0_mul (fun t => 1 - gaussian_h F Q rho (1 - t) (1 - t))).
    rewrite <- (Rplus_opp_r 1). apply (t0_plus (fun _ => 1)); [apply t0_const|]. apply t0_opp. unfold gaussian_h.
    pose proof ga_s as Ps. apply (F_high F Q f U FQ D ga_pos). intros m.
    destruct (Q_high F Q f U FQ D ga_pos (m * sqrt (1 - rho ^ 2) / (1 - rho))) as (d & Pd & K).
    exists d. split; auto. intros t Ht _. specialize (K t Ht).
    apply Rmult_lt_reg_r with (sqrt (1 - rho ^ 2)); auto.
    apply Rlt_le_trans with (Q (1 - t) * (1 - rho)); [|right; field; lra].
    apply Rle_lt_trans with (m * sqrt (1 - rho ^ 2) / (1 - rho) * (1 - rho)); [right; field; lra|].
    apply Rmult_lt_compat_r; lra.
  Qed.
End gaussian.

(* ------------------------------------------------------------------------ *)
(* Student t                                                                 *)
(* ------------------------------------------------------------------------ *)
Section student.
  Variables (gl : R -> R) (F Q : R -> R -> R) (rho nu : R).
  Hypothesis Hn : 0 < nu.
  Hypothesis Hr : -1 < rho < 1.
  Definition tpdf (nu x : R) : R :=
    exp (gl ((nu + 1) / 2)) / (sqrt (nu * PI) * exp (gl (nu / 2))) * Rpower (1 + x ^ 2 / nu) (- (nu + 1) / 2).
  Hypothesis U : forall x, unit (F nu x).
  Hypothesis FQ : forall p, unit p -> F nu (Q nu p) = p.
  Hypothesis D : forall x, derivable_pt_lim (F nu) x (tpdf nu x).
  Hypothesis U1 : forall x, unit (F (nu + 1) x).
  Hypothesis FQ1 : forall p, unit p -> F (nu + 1) (Q (nu + 1) p) = p.
  Hypothesis D1 : forall x, derivable_pt_lim (F (nu + 1)) x (tpdf (nu + 1) x).

  Lemma st_pos m x : 0 < m -> 0 < tpdf m x.
  Proof.
    intros Hm. unfold tpdf. apply Rmult_lt_0_compat; [|apply pw_pos].
    apply Rdiv_lt_0_compat; [apply exp_pos|]. apply Rmult_lt_0_compat; [|apply exp_pos].
    apply sqrt_lt_R0. apply Rmult_lt_0_compat; auto. apply PI_RGT_0.
  Qed.
  Lemma st_even m x : tpdf m (- x) = tpdf m x.
  Proof. unfold tpdf. now replace ((- x) ^ 2) with (x ^ 2) by ring. Qed.
  Let P x : 0 < tpdf nu x := st_pos nu x Hn.
  Lemma Hn1 : 0 < nu + 1. Proof. lra. Qed.
  Let P1 x : 0 < tpdf (nu + 1) x := st_pos (nu + 1) x Hn1.

  Lemma st_a : 0 < 1 - rho ^ 2.
  Proof. nra. Qed.
  Lemma st_s2 y : 0 < (1 - rho ^ 2) * (nu + y ^ 2) / (nu + 1).
  Proof.
    apply Rdiv_lt_0_compat; [|lra]. apply Rmult_lt_0_compat; [apply st_a|]. pose proof (pow2_ge_0 y). lra.
  Qed.
  Lemma st_s y : 0 < sqrt ((1 - rho ^ 2) * (nu + y ^ 2) / (nu + 1)).
  Proof. apply sqrt_lt_R0, st_s2. Qed.

  Lemma st_cdf : conditional_cdf (student_h F Q rho nu).
  Proof.
    split; [intros; apply U1|]. intros u u' v Hu Hu' Hv L.
    apply (F_incr _ _ D1 P1). apply (Q_incr _ _ _ FQ D P) in L; auto.
    pose proof (st_s (Q nu v)). apply Rmult_lt_compat_r; [now apply Rinv_0_lt_compat | lra].
  Qed.

  Lemma st_runs : runs_from_0_to_1 (student_h F Q rho nu).
  Proof.
    intros v Hv. pose proof (st_s (Q nu v)) as Ps. unfold student_h. cbv zeta. set (s := sqrt _) in *. split.
    - apply (F_low _ _ _ U1 FQ1 D1 P1). intros m.
      destruct (Q_low _ _ _ U FQ D P (m * s + rho * Q nu v)) as (d & Pd & K).
      exists d. split; auto. intros t Ht _. specialize (K t Ht).
      apply Rmult_lt_reg_r with s; auto.
      apply Rle_lt_trans with (Q nu t - rho * Q nu v); [right; field; lra | lra].
    - apply (F_high _ _ _ U1 FQ1 D1 P1). intros m.
      destruct (Q_high _ _ _ U FQ D P (m * s + rho * Q nu v)) as (d & Pd & K).
      exists d. split; auto. intros t Ht _. specialize (K t Ht).
      apply Rmult_lt_reg_r with s; auto.
      apply Rlt_le_trans with (Q nu (1 - t) - rho * Q nu v); [lra | right; field; lra].
  Qed.

  Lemma ln_quotient a b : 0 < a -> 0 < b -> ln (a / b) = ln a - ln b.
  Proof.
    intros. unfold Rdiv. rewrite ln_mult, ln_Rinv by auto using Rinv_0_lt_compat. ring.
  Qed.

  Lemma tpdf_exp m x : 0 < m -> tpdf m x =
    exp (gl ((m + 1) / 2) - gl (m / 2) - (ln m + ln PI) / 2 - (m + 1) / 2 * ln (1 + x ^ 2 / m)).
  Proof.
    intros Hm. unfold tpdf, Rpower. pose proof PI_RGT_0.
    rewrite sqrt_exp_ln by (apply Rmult_lt_0_compat; auto). rewrite ln_mult by auto.
    unfold Rdiv at 1. rewrite <- exp_plus, <- exp_Ropp, <- !exp_plus. f_equal. field.
  Qed.

  Lemma st_density : density_of (student_h F Q rho nu)
    (fun u v => exp (student_log_density gl rho nu (Q nu u) (Q nu v))).
  Proof.
    intros u v Hu Hv. unfold student_h. cbv zeta. pose proof (st_s (Q nu v)) as Ps. pose proof st_a as Pa.
    eapply d_eq.
    - apply (d_comp (fun t => (Q nu t - rho * Q nu v) / sqrt ((1 - rho ^ 2) * (nu + Q nu v ^ 2) / (nu + 1))) (F (nu + 1))); [|apply D1].
      unfold Rdiv at 1. apply d_mult; [|apply d_const].
      apply d_minus; [|apply d_const]. apply (Q_derive _ _ _ U FQ D P u Hu).
    - cbn beta. set (x := Q nu u). set (y := Q nu v).
      pose proof (st_s2 y) as S2. fold y in Ps. set (s := sqrt _) in *.
      assert (Y : 0 < nu + y ^ 2) by (pose proof (pow2_ge_0 y); lra).
      assert (Yn : 0 < 1 + y ^ 2 / nu).
      { replace (1 + y ^ 2 / nu) with ((nu + y ^ 2) / nu) by (field; lra). apply Rdiv_lt_0_compat; lra. }
      assert (M : 0 < 1 + (x ^ 2 - 2 * rho * x * y + y ^ 2) / (1 - rho ^ 2) / nu).
      { replace (x ^ 2 - 2 * rho * x * y + y ^ 2) with ((x - rho * y) ^ 2 + (1 - rho ^ 2) * y ^ 2) by ring.
        replace (1 + ((x - rho * y) ^ 2 + (1 - rho ^ 2) * y ^ 2) / (1 - rho ^ 2) / nu)
          with ((1 + y ^ 2 / nu) + (x - rho * y) ^ 2 / ((1 - rho ^ 2) * nu)) by (field; lra).
        assert (0 <= (x - rho * y) ^ 2 / ((1 - rho ^ 2) * nu)).
        { apply Rdiv_le_0_compat; [apply pow2_ge_0 | apply Rmult_lt_0_compat; lra]. }
        lra. }
      assert (Z : 1 + ((x - rho * y) / s) ^ 2 / (nu + 1)
                  = (1 + (x ^ 2 - 2 * rho * x * y + y ^ 2) / (1 - rho ^ 2) / nu) / (1 + y ^ 2 / nu)).
      { replace (((x - rho * y) / s) ^ 2) with ((x - rho * y) ^ 2 / (s ^ 2)) by (field; lra).
        unfold s. rewrite pow2_sqrt by lra. field. repeat split; try lra.
        all: try (apply Rgt_not_eq; lra). }
      rewrite Rminus_0_r, Rmult_0_r, Rplus_0_r.
      rewrite !tpdf_exp by lra. rewrite Z. unfold s. rewrite sqrt_exp_ln by auto.
      rewrite <- !exp_Ropp, <- !exp_plus. f_equal. unfold student_log_density, log1p. cbv zeta.
      rewrite (ln_quotient _ _ M Yn).
      replace ((1 - rho ^ 2) * (nu + y ^ 2) / (nu + 1))
        with ((1 - rho ^ 2) * (nu * (1 + y ^ 2 / nu)) / (nu + 1)) by (field; lra).
      assert (V1 : 0 < nu * (1 + y ^ 2 / nu)) by (apply Rmult_lt_0_compat; lra).
      assert (V2 : 0 < (1 - rho ^ 2) * (nu * (1 + y ^ 2 / nu))) by (apply Rmult_lt_0_compat; lra).
      rewrite (ln_quotient _ _ V2 Hn1), (ln_mult _ _ Pa V1), (ln_mult _ _ Hn Yn).
      replace (nu + 1 + 1) with (nu + 2) by ring. set (L := ln (1 + _ / _ / nu)).
      field.
  Qed.

  Lemma st_cont q : unit q -> continuity_2d_pt (student_h F Q rho nu) q q.
  Proof.
    intros Hq. unfold student_h. cbv zeta.
    assert (C1 : continuity_2d_pt (fun a b : R => Q nu a) q q).
    { apply (continuity_1d_2d_pt_comp (Q nu) (fun a b => a)); [now apply (Q_cont _ _ _ U FQ D P) | apply continuity_2d_pt_id1]. }
    assert (C2 : continuity_2d_pt (fun a b : R => Q nu b) q q).
    { apply (continuity_1d_2d_pt_comp (Q nu) (fun a b => b)); [now apply (Q_cont _ _ _ U FQ D P) | apply continuity_2d_pt_id2]. }
    apply (continuity_1d_2d_pt_comp (F (nu + 1))); [apply (F_cont _ _ D1)|]. unfold Rdiv.
    apply continuity_2d_pt_mult.
    - apply continuity_2d_pt_minus; auto. apply continuity_2d_pt_mult; [apply continuity_2d_pt_const | auto].
    - apply continuity_2d_pt_inv; [|apply Rgt_not_eq, st_s].
      apply (continuity_1d_2d_pt_comp sqrt); [apply continuity_pt_sqrt; left; apply st_s2|].
      apply continuity_2d_pt_mult; [|apply continuity_2d_pt_const].
      apply continuity_2d_pt_mult; [apply continuity_2d_pt_const|].
      apply continuity_2d_pt_plus; [apply continuity_2d_pt_const|].
      cbn [pow]. apply continuity_2d_pt_mult; auto. apply continuity_2d_pt_mult; auto. apply continuity_2d_pt_const.
  Qed.

  Let k := sqrt ((nu + 1) * (1 - rho) / (1 + rho)).
  Lemma st_k2 : 0 < (nu + 1) * (1 - rho) / (1 + rho).
  Proof. apply Rdiv_lt_0_compat; [apply Rmult_lt_0_compat|]; lra. Qed.

  (* the argument of t_{nu+1} on the diagonal *)
  Lemma st_arg x : x <> 0 ->
    (x - rho * x) / sqrt ((1 - rho ^ 2) * (nu + x ^ 2) / (nu + 1))
    = (x / Rabs x) * (k / sqrt (1 + nu * (/ x) ^ 2)).
  Proof.
    intros Nx. pose proof (Rabs_pos_lt x Nx) as PA. pose proof (st_s x) as Ps.
    pose proof st_k2 as K2. assert (Pk : 0 < k) by now apply sqrt_lt_R0.
    assert (W : 0 < 1 + nu * (/ x) ^ 2).
    { pose proof (pow2_ge_0 (/ x)). nra. }
    pose proof (sqrt_lt_R0 _ W) as Pw.
    assert (X2 : Rabs x ^ 2 = x ^ 2) by (now rewrite pow2_abs).
    assert (E : Rabs x * (1 - rho) * sqrt (1 + nu * (/ x) ^ 2) = k * sqrt ((1 - rho ^ 2) * (nu + x ^ 2) / (nu + 1))).
    { apply Rsqr_inj.
      - repeat apply Rmult_le_pos; lra.
      - apply Rmult_le_pos; lra.
      - rewrite !Rsqr_pow2, !Rpow_mult_distr, X2. unfold k.
        rewrite !pow2_sqrt by (left; auto using st_s2). field. repeat split; lra. }
    apply Rmult_eq_reg_r with (sqrt ((1 - rho ^ 2) * (nu + x ^ 2) / (nu + 1))); [|lra].
    transitivity (x * (1 - rho)); [field; lra|].
    transitivity (x / Rabs x / sqrt (1 + nu * (/ x) ^ 2) * (k * sqrt ((1 - rho ^ 2) * (nu + x ^ 2) / (nu + 1)))).
    - rewrite <- E. field. split; lra.
    - field. repeat split; lra.
  Qed.

  Lemma st_limit_cont e : continuity_pt (fun w => F (nu + 1) (e * (k / sqrt (1 + nu * w ^ 2)))) 0.
  Proof.
    apply (continuity_pt_comp (fun w => e * (k / sqrt (1 + nu * w ^ 2))) (F (nu + 1))); [|apply (F_cont _ _ D1)].
    apply continuity_pt_mult; [apply continuity_pt_const; now intros ? ?|].
    apply continuity_pt_mult; [apply continuity_pt_const; now intros ? ?|].
    apply continuity_pt_inv.
    - apply (continuity_pt_comp (fun w => 1 + nu * w ^ 2) sqrt).
      + apply derivable_continuous_pt. reg.
      + apply continuity_pt_sqrt. nra.
    - apply Rgt_not_eq, sqrt_lt_R0. nra.
  Qed.

  Lemma st_low : tends0 (fun q => 2 * student_h F Q rho nu q q) (student_lower_tail F rho nu).
  Proof.
    unfold student_lower_tail. apply t0_mul. fold k.
    pose proof (t0_comp _ _ _ (inv_low _ _ _ U FQ D P) (st_limit_cont (-1))) as T. cbn beta in T.
    replace (-1 * (k / sqrt (1 + nu * 0 ^ 2))) with (- k) in T.
    2:{ replace (1 + nu * 0 ^ 2) with 1 by ring. rewrite sqrt_1. field. }
    intros eps He. destruct (T eps He) as (d & Pd & K).
    destruct (Q_low _ _ _ U FQ D P 0) as (d' & Pd' & K').
    exists (Rmin d d'). split; [apply Rmin_glb_lt; lra|]. intros t Ht L.
    pose proof (Rmin_l d d'). pose proof (Rmin_r d d'). specialize (K t ltac:(lra) L). specialize (K' t ltac:(lra)).
    unfold student_h. cbv zeta. rewrite st_arg by lra.
    replace (Q nu t / Rabs (Q nu t)) with (-1) by (rewrite Rabs_left by lra; field; lra). exact K.
  Qed.
  Lemma st_high : tends0 (fun t => 2 * (1 - student_h F Q rho nu (1 - t) (1 - t))) (student_upper_tail F rho nu).
  Proof.
    unfold student_upper_tail, student_lower_tail. fold k.
    rewrite (F_sym _ _ _ U1 FQ1 D1 (st_even (nu + 1))).
    apply t0_mul. apply (t0_plus (fun _ => 1)); [apply t0_const|]. apply t0_opp.
    pose proof (t0_comp _ _ _ (inv_high _ _ _ U FQ D P) (st_limit_cont 1)) as T. cbn beta in T.
    replace (1 * (k / sqrt (1 + nu * 0 ^ 2))) with k in T.
    2:{ replace (1 + nu * 0 ^ 2) with 1 by ring. rewrite sqrt_1. field. }
    intros eps He. destruct (T eps He) as (d & Pd & K).
    destruct (Q_high _ _ _ U FQ D P 0) as (d' & Pd' & K').
    exists (Rmin d d'). split; [apply Rmin_glb_lt; lra|]. intros t Ht L.
    pose proof (Rmin_l d d'). pose proof (Rmin_r d d'). specialize (K t ltac:(lra) L). specialize (K' t ltac:(lra)).
    unfold student_h. cbv zeta. rewrite st_arg by lra.
    replace (Q nu (1 - t) / Rabs (Q nu (1 - t))) with 1 by (rewrite Rabs_right by lra; field; lra). exact K.
  Qed.
End student.

(* ------------------------------------------------------------------------ *)
(* C79                                                                       *)
(* ------------------------------------------------------------------------ *)
Lemma validate_rows_inside X : List.Forall inside_row X -> validate_rows X = Some X.
Proof.
  induction 1 as [|[u v] X (A & B) _ IH]; auto. cbn [validate_rows]. cbn [fst snd] in A, B. now rewrite validate_inside, IH by auto.
Qed.
Lemma between_true lo x hi : lo <= x <= hi -> between lo x hi = true.
Proof. intros [A B]. unfold between. destruct (Rle_dec lo x); [|lra]. destruct (Rle_dec x hi); [auto | lra]. Qed.
Lemma between_false lo x hi : ~ lo <= x <= hi -> between lo x hi = false.
Proof. intros N. unfold between. destruct (Rle_dec lo x); auto. destruct (Rle_dec x hi); auto. exfalso. lra. Qed.

Theorem C79_gaussian : forall ndtr ndtri rho, normal_pair ndtr ndtri -> -1 < rho < 1 ->
  let h := gaussian_h ndtr ndtri rho in
  conditional_cdf h /\ runs_from_0_to_1 h /\
  exists log_density,
    density_of h (fun u v => exp (log_density u v)) /\ exchangeable log_density /\
    forall X, List.Forall inside_row X ->
      gaussian_score_samples ndtri rho X = Some (map (fun r => log_density (fst r) (snd r)) X).
Proof.
  intros F Q rho ((U & QF & FQ) & c & Pc & D) Hr h.
  split; [eapply ga_cdf; eauto|]. split; [eapply ga_runs; eauto|].
  exists (fun u v => gaussian_log_density rho (Q u) (Q v)).
  split; [eapply ga_density; eauto|]. split.
  - intros u v _ _. unfold gaussian_log_density. f_equal. f_equal. ring.
  - intros X HX. unfold gaussian_score_samples, gaussian_scores.
    rewrite validate_rows_inside by auto. now rewrite between_true by lra.
Qed.

Theorem C79_student : forall gammaln stdtr stdtrit rho dof,
  student_pair gammaln stdtr stdtrit dof -> student_pair gammaln stdtr stdtrit (dof + 1) ->
  -1 < rho < 1 -> 1 <= dof <= 50 ->
  let h := student_h stdtr stdtrit rho dof in
  conditional_cdf h /\ runs_from_0_to_1 h /\
  exists log_density,
    density_of h (fun u v => exp (log_density u v)) /\ exchangeable log_density /\
    forall X, List.Forall inside_row X ->
      student_score_samples gammaln stdtrit rho dof X = Some (map (fun r => log_density (fst r) (snd r)) X).
Proof.
  intros gl F Q rho nu ((U & QF & FQ) & D) ((U1 & QF1 & FQ1) & D1) Hr Hd h.
  assert (Hn : 0 < nu) by lra.
  split; [eapply (st_cdf gl F Q rho nu); eauto|]. split; [eapply (st_runs gl F Q rho nu); eauto|].
  exists (fun u v => student_log_density gl rho nu (Q nu u) (Q nu v)).
  split; [eapply st_density; eauto|]. split.
  - intros u v _ _. unfold student_log_density. f_equal; [f_equal; ring|]. f_equal. f_equal. f_equal. f_equal. ring.
  - intros X HX. unfold student_score_samples, student_scores.
    rewrite validate_rows_inside by auto. now rewrite !between_true by lra.
Qed.

(* parameters outside of their domain are refused *)
Theorem C79_rejects : forall ndtri gammaln stdtrit rho dof X,
  (~ -1 <= rho <= 1 -> gaussian_score_samples ndtri rho X = None) /\
  (~ -1 <= rho <= 1 \/ ~ 1 <= dof <= 50 -> student_score_samples gammaln stdtrit rho dof X = None).
Proof.
  intros. unfold gaussian_score_samples, student_score_samples, gaussian_scores, student_scores.
  destruct (validate_rows X); [|auto]. split.
  - intros N. now rewrite between_false.
  - intros [N|N]; rewrite (between_false _ _ _ N); auto. now destruct (between _ _ _).
Qed.

(* FINDING.  The docstrings announce a ValueError when rho is not in (-1, 1);
   rho = 1 and rho = -1, where the formula divides by zero, are accepted. *)
Theorem C79_boundary_refuted : forall ndtri gammaln stdtrit dof X, 1 <= dof <= 50 -> List.Forall inside_row X ->
  exists s1 s2 s3 s4,
    gaussian_score_samples ndtri 1 X = Some s1 /\ gaussian_score_samples ndtri (-1) X = Some s2 /\
    student_score_samples gammaln stdtrit 1 dof X = Some s3 /\
    student_score_samples gammaln stdtrit (-1) dof X = Some s4.
Proof.
  intros Q gl Qt nu X Hd HX. unfold gaussian_score_samples, student_score_samples, gaussian_scores, student_scores.
  rewrite validate_rows_inside by auto. rewrite !between_true by lra. do 4 eexists. repeat split.
Qed.

(* without correlation the Gaussian copula is the independent copula *)
Theorem C79_uncorrelated : forall ndtr ndtri u v, normal_pair ndtr ndtri -> unit u -> unit v ->
  gaussian_h ndtr ndtri 0 u v = u /\
  (inside_row (u, v) -> gaussian_score_samples ndtri 0 [(u, v)] = Some [0]).
Proof.
  intros F Q u v ((U & QF & FQ) & _) Hu Hv. split.
  - unfold gaussian_h. replace (1 - 0 ^ 2) with 1 by ring. rewrite sqrt_1.
    replace ((Q u - 0 * Q v) / 1) with (Q u) by field. auto.
  - intros I. unfold gaussian_score_samples. rewrite validate_rows_inside by (constructor; auto).
    unfold gaussian_scores. rewrite between_true by lra. cbn [map fst snd]. do 2 f_equal.
    unfold gaussian_log_density, log1p. replace (1 + - 0 ^ 2) with 1 by ring. rewrite ln_1. field.
Qed.

(* the tail dependence coefficients are the limits that define them *)
Theorem C79_gaussian_tails : forall ndtr ndtri rho C, normal_pair ndtr ndtri -> -1 < rho < 1 ->
  copula_with (gaussian_h ndtr ndtri rho) C ->
  lower_tail_is (fun X => C (fst X) (snd X)) gaussian_lower_tail /\
  upper_tail_is (fun X => C (fst X) (snd X)) gaussian_upper_tail.
Proof.
  intros F Q rho C ((U & QF & FQ) & c & Pc & D) Hr CW.
  apply (tails_of _ _ _ _ CW).
  - intros; apply U.
  - intros q Hq. eapply ga_cont; eauto.
  - eapply ga_low; eauto.
  - eapply ga_high; eauto.
Qed.

Theorem C79_student_tails : forall gammaln stdtr stdtrit rho dof C,
  student_pair gammaln stdtr stdtrit dof -> student_pair gammaln stdtr stdtrit (dof + 1) ->
  -1 < rho < 1 -> 1 <= dof <= 50 -> copula_with (student_h stdtr stdtrit rho dof) C ->
  lower_tail_is (fun X => C (fst X) (snd X)) (student_lower_tail stdtr rho dof) /\
  upper_tail_is (fun X => C (fst X) (snd X)) (student_upper_tail stdtr rho dof).
Proof.
  intros gl F Q rho nu C ((U & QF & FQ) & D) ((U1 & QF1 & FQ1) & D1) Hr Hd CW.
  assert (Hn : 0 < nu) by lra.
  apply (tails_of _ _ _ _ CW).
  - intros; apply U1.
  - intros q Hq. eapply (st_cont gl); eauto.
  - eapply (st_low gl); eauto.
  - eapply (st_high gl); eauto.
Qed.

(* the Student coefficient lies strictly between 0 and 1 and grows with rho *)
Theorem C79_student_coefficient : forall gammaln stdtr stdtrit rho rho' dof,
  student_pair gammaln stdtr stdtrit (dof + 1) -> -1 < rho < 1 -> -1 < rho' < 1 -> 1 <= dof <= 50 ->
  0 < student_lower_tail stdtr rho dof < 1 /\
  (rho < rho' -> student_lower_tail stdtr rho dof < student_lower_tail stdtr rho' dof).
Proof.
  intros gl F Q rho rho' nu ((U & QF & FQ) & D) Hr Hr' Hd. unfold student_lower_tail.
  assert (P : forall x, 0 < tpdf gl (nu + 1) x) by (intros; apply st_pos; lra).
  pose proof (F_sym _ _ _ U FQ D (st_even gl (nu + 1)) 0) as H0. rewrite Ropp_0 in H0.
  assert (K : 0 < sqrt ((nu + 1) * (1 - rho) / (1 + rho))).
  { apply sqrt_lt_R0. apply Rdiv_lt_0_compat; [apply Rmult_lt_0_compat|]; lra. }
  split.
  - pose proof (U (- sqrt ((nu + 1) * (1 - rho) / (1 + rho)))).
    assert (F (nu + 1) (- sqrt ((nu + 1) * (1 - rho) / (1 + rho))) < F (nu + 1) 0) by (apply (F_incr _ _ D P); lra).
    unfold unit in *. lra.
  - intros L. apply Rmult_lt_compat_l; [lra|]. apply (F_incr _ _ D P). apply Ropp_lt_contravar.
    apply sqrt_lt_1_alt. split.
    + apply Rlt_le, Rdiv_lt_0_compat; [apply Rmult_lt_0_compat|]; lra.
    + apply Rmult_lt_reg_r with (1 + rho); [lra|]. apply Rmult_lt_reg_r with (1 + rho'); [lra|].
      apply Rle_lt_trans with ((nu + 1) * ((1 - rho') * (1 + rho))); [right; field; lra|].
      apply Rlt_le_trans with ((nu + 1) * ((1 - rho) * (1 + rho'))); [|right; field; lra].
      apply Rmult_lt_compat_l; nra.
Qed.

(* ------------------------------------------------------------------------ *)
(* The hypotheses are met                                                    *)
(* ------------------------------------------------------------------------ *)
(* a normal distribution function: its density exists, is integrable and is
   divided by its integral *)
Section normal_exists.
  Definition bell (t : R) : R := exp (- t ^ 2 / 2).
  Definition area (x : R) : R := RInt bell 0 x.
  Lemma area_derive x : derivable_pt_lim area x (bell x).
  Proof.
    apply is_derive_Reals. unfold area.
    assert (Cb : forall t, continuous bell t).
    { intros t. apply continuity_pt_filterlim, derivable_continuous_pt. unfold bell. reg. }
    apply (is_derive_RInt bell area 0 x); [|apply Cb].
    apply filter_forall. intros t. apply (RInt_correct bell). apply (ex_RInt_continuous bell).
    intros z _. apply Cb.
  Qed.
  Lemma bell_pos t : 0 < bell t.
  Proof. apply exp_pos. Qed.
  Lemma area_0 : area 0 = 0.
  Proof. unfold area. apply (RInt_point 0 bell). Qed.
  Lemma area_incr x y : x < y -> area x < area y.
  Proof.
    intros L. destruct (MVT_cor2 area bell x y L) as (c & E & _); [intros; apply area_derive|].
    pose proof (bell_pos c). nra.
  Qed.
  Lemma area_odd x : area (- x) = - area x.
  Proof.
    assert (DG : forall y, derivable_pt_lim (fun z => area z + area (- z)) y 0).
    { intros y. eapply d_eq.
      - apply d_plus; [apply area_derive|].
        apply (d_comp (fun z => - z) area); [apply d_opp, d_id | apply area_derive].
      - unfold bell. replace ((- y) ^ 2) with (y ^ 2) by ring. ring. }
    assert (K : forall y, area y + area (- y) = 0).
    { intros y. pose proof area_0 as A0. destruct (Rtotal_order 0 y) as [L|[<-|L]].
      - destruct (MVT_cor2 (fun z => area z + area (- z)) (fun _ => 0) 0 y L) as (c & H & _); [auto|].
        rewrite Ropp_0 in H. lra.
      - rewrite Ropp_0. lra.
      - destruct (MVT_cor2 (fun z => area z + area (- z)) (fun _ => 0) y 0 L) as (c & H & _); [auto|].
        rewrite Ropp_0 in H. lra. }
    pose proof (K x). lra.
  Qed.
  Lemma area_bounded x : area x <= 4.
  Proof.
    destruct (Rle_or_lt x 0) as [L|L].
    { destruct L as [L| ->]; [apply area_incr in L|]; rewrite area_0 in *; lra. }
    (* bell t <= 1 / (1 + t^2 / 2) <= 2 / (1 + t^2), and 2 atan is bounded *)
    destruct (MVT_cor2 (fun z => 2 * atan z - area z) (fun z => 2 * (/ (1 + z ^ 2)) - bell z) 0 x L) as (c & E & _).
    { intros c _. apply d_minus; [|apply area_derive].
      eapply d_eq; [apply d_mult; [apply d_const | apply derivable_pt_lim_atan]|]. cbn beta.
      unfold Rsqr. field. nra. }
    assert (B : bell c <= 2 * / (1 + c ^ 2)).
    { unfold bell. replace (- c ^ 2 / 2) with (- (c ^ 2 / 2)) by field. rewrite exp_Ropp.
      pose proof (exp_ineq1_le (c ^ 2 / 2)). pose proof (pow2_ge_0 c).
      apply Rle_trans with (/ (1 + c ^ 2 / 2)).
      - apply Rinv_le_contravar; lra.
      - replace (2 * / (1 + c ^ 2)) with (/ ((1 + c ^ 2) / 2)) by (field; lra).
        apply Rinv_le_contravar; lra. }
    rewrite atan_0, area_0 in E. pose proof (atan_bound x). pose proof PI_4. nra.
  Qed.

  Lemma area_sup : exists L, 0 < L /\ (forall x, - L < area x < L) /\ forall e, 0 < e -> exists x, L - e < area x.
  Proof.
    destruct (completeness (fun y => exists x, y = area x)) as (L & ub & lub).
    - exists 4. intros y (x & ->). apply area_bounded.
    - exists 0, 0. now rewrite area_0.
    - assert (Lt : forall x, area x < L).
      { intros x. apply Rlt_le_trans with (area (x + 1)); [apply area_incr; lra|]. apply ub. now exists (x + 1). }
      exists L. split; [rewrite <- area_0; apply Lt|]. split.
      + intros x. split; [|apply Lt]. specialize (Lt (- x)). rewrite area_odd in Lt. lra.
      + intros e He. apply Classical_Pred_Type.not_all_not_ex. intros N.
        assert (L <= L - e); [|lra]. apply lub. intros y (x & ->). apply Rnot_lt_le, N.
  Qed.
End normal_exists.

Theorem normal_pair_exists : exists ndtr ndtri, normal_pair ndtr ndtri.
Proof.
  destruct area_sup as (L & PL & B & S).
  set (F := fun x => 1 / 2 + area x / (2 * L)).
  set (Q := fun p => real (Lub_Rbar (fun x => F x <= p))).
  assert (D : forall x, derivable_pt_lim F x (exp (- x ^ 2 / 2) / (2 * L))).
  { intros x. unfold F. eapply d_eq.
    - apply d_plus; [apply d_const|]. apply d_mult; [apply area_derive | apply d_const].
    - cbn beta. unfold bell. field. lra. }
  assert (I : forall x y, F x <= F y -> x <= y).
  { intros x y H. apply Rnot_lt_le. intros N. apply area_incr in N. unfold F in H.
    assert (area x / (2 * L) <= area y / (2 * L)) by lra.
    apply Rmult_le_reg_r in H0; [lra|]. apply Rinv_0_lt_compat. lra. }
  assert (I' : forall x y, x <= y -> F x <= F y).
  { intros x y H. unfold F. apply Rplus_le_compat_l. apply Rmult_le_compat_r; [left; apply Rinv_0_lt_compat; lra|].
    destruct H as [H| ->]; [left; now apply area_incr | lra]. }
  assert (QF : forall x, Q (F x) = x).
  { intros x. unfold Q. rewrite (is_lub_Rbar_unique _ (Finite x)); auto. split.
    - intros y Hy. apply I in Hy. exact Hy.
    - intros b Hb. apply (Hb x). lra. }
  assert (E : forall p, unit p -> exists x, F x = p).
  { intros p Hp. unfold unit in Hp.
    destruct (S (2 * L * (1 - p)) ltac:(nra)) as (b & Hb). destruct (S (2 * L * p) ltac:(nra)) as (a & Ha).
    assert (Fb : p < F b).
    { unfold F. apply Rmult_lt_reg_r with (2 * L); [lra|].
      apply Rlt_le_trans with (L + area b); [nra | right; field; lra]. }
    assert (Fa : F (- a) < p).
    { unfold F. rewrite area_odd. apply Rmult_lt_reg_r with (2 * L); [lra|].
      apply Rle_lt_trans with (L - area a); [right; field; lra | nra]. }
    assert (Lab : - a < b).
    { apply Rnot_le_lt. intros N. apply I' in N. lra. }
    destruct (IVT (fun x => F x - p) (- a) b) as (z & _ & Hz); try lra.
    - intros x. apply continuity_pt_minus; [|apply continuity_pt_const; now intros ? ?].
      eapply continuous_of. apply D.
    - exists z. lra. }
  exists F, Q. split; [split; [|split]|].
  - intros x. specialize (B x). unfold unit, F. split.
    + apply Rmult_lt_reg_r with (2 * L); [lra|]. apply Rlt_le_trans with (L + area x); [lra | right; field; lra].
    + apply Rmult_lt_reg_r with (2 * L); [lra|]. apply Rle_lt_trans with (L + area x); [right; field; lra | lra].
  - exact QF.
  - intros p Hp. destruct (E p Hp) as (x & <-). now rewrite QF.
  - exists (2 * L). split; [lra | exact D].
Qed.

(* Gaussian copula with correlation 1/2, and the tails of the copula without correlation *)
Example C79_gaussian_applies : exists ndtr ndtri, normal_pair ndtr ndtri /\ -1 < 1 / 2 < 1 /\
  copula_with (gaussian_h ndtr ndtri 0) (fun u v => u * v).
Proof.
  destruct normal_pair_exists as (F & Q & N). exists F, Q. split; [auto|]. split; [lra|].
  split; [intros u v _ _; ring|]. split.
  - intros u v Hu Hv. rewrite (proj1 (C79_uncorrelated F Q u v N Hu Hv)).
    eapply d_eq; [apply d_mult; [apply d_const | apply d_id] | cbn beta; ring].
  - intros u Hu. split.
    + rewrite <- (Rmult_0_r u). apply t0_mul, t0_id.
    + pose proof (t0_mul (fun t => 1 + - t) u (1 + - 0)
                    (t0_plus (fun _ => 1) (fun t => - t) 1 (- 0) (t0_const 1) (t0_opp _ _ t0_id))) as T.
      replace (u * (1 + - 0)) with u in T by ring. exact T.
Qed.

(* one degree of freedom: the Cauchy distribution, and the t distribution with
   two degrees of freedom *)
Definition ex_gammaln (x : R) : R :=
  if Req_EM_T x (1 / 2) then ln (sqrt PI) else if Req_EM_T x 1 then 0 else ln (sqrt PI / 2).
Definition ex_stdtr (nu x : R) : R :=
  if Req_EM_T nu 1 then 1 / 2 + atan x / PI else 1 / 2 + x / (2 * sqrt (2 + x ^ 2)).
Definition ex_stdtrit (nu p : R) : R :=
  if Req_EM_T nu 1 then tan (PI * (p - 1 / 2)) else (2 * p - 1) * sqrt 2 / sqrt (1 - (2 * p - 1) ^ 2).

Lemma ex_gl1 : ex_gammaln (1 / 2) = ln (sqrt PI).
Proof. unfold ex_gammaln. destruct (Req_EM_T _ _); [auto | lra]. Qed.
Lemma ex_gl2 : ex_gammaln 1 = 0.
Proof. unfold ex_gammaln. destruct (Req_EM_T _ _); [lra|]. destruct (Req_EM_T _ _); [auto | lra]. Qed.
Lemma ex_gl3 : ex_gammaln (3 / 2) = ln (sqrt PI / 2).
Proof. unfold ex_gammaln. destruct (Req_EM_T _ _); [lra|]. destruct (Req_EM_T _ _); [lra | auto]. Qed.
Lemma ex_F1 x : ex_stdtr 1 x = 1 / 2 + atan x / PI.
Proof. unfold ex_stdtr. destruct (Req_EM_T _ _); [auto | lra]. Qed.
Lemma ex_F2 x : ex_stdtr (1 + 1) x = 1 / 2 + x / (2 * sqrt (2 + x ^ 2)).
Proof. unfold ex_stdtr. destruct (Req_EM_T _ _); [lra | auto]. Qed.
Lemma ex_Q1 p : ex_stdtrit 1 p = tan (PI * (p - 1 / 2)).
Proof. unfold ex_stdtrit. destruct (Req_EM_T _ _); [auto | lra]. Qed.
Lemma ex_Q2 p : ex_stdtrit (1 + 1) p = (2 * p - 1) * sqrt 2 / sqrt (1 - (2 * p - 1) ^ 2).
Proof. unfold ex_stdtrit. destruct (Req_EM_T _ _); [lra | auto]. Qed.

Lemma ex_student_1 : student_pair ex_gammaln ex_stdtr ex_stdtrit 1.
Proof.
  pose proof PI_RGT_0 as PP. split; [split; [|split]|].
  - intros x. rewrite ex_F1. pose proof (atan_bound x) as B. unfold unit. split.
    + apply Rmult_lt_reg_r with PI; auto. apply Rlt_le_trans with (PI / 2 + atan x); [lra | right; field; lra].
    + apply Rmult_lt_reg_r with PI; auto. apply Rle_lt_trans with (PI / 2 + atan x); [right; field; lra | lra].
  - intros x. rewrite ex_F1, ex_Q1.
    replace (PI * (1 / 2 + atan x / PI - 1 / 2)) with (atan x) by (field; lra). apply tan_atan.
  - intros p Hp. rewrite ex_F1, ex_Q1, atan_tan by (unfold unit in Hp; split; nra). field. lra.
  - intros x. apply (d_ext (fun x => 1 / 2 + atan x / PI)); [intros; now rewrite ex_F1|].
    eapply d_eq.
    + apply d_plus; [apply d_const|]. apply d_mult; [apply derivable_pt_lim_atan | apply d_const].
    + cbn beta. replace ((1 + 1) / 2) with 1 by field. rewrite ex_gl1, ex_gl2, exp_0, Rmult_1_l, exp_ln by (now apply sqrt_lt_R0).
      replace (- (1 + 1) / 2) with (- (1)) by field.
      assert (0 < 1 + x ^ 2) by (pose proof (pow2_ge_0 x); lra).
      rewrite sqrt_sqrt by lra. replace (x ^ 2 / 1) with (x ^ 2) by field.
      rewrite Rpower_Ropp, Rpower_1 by auto. unfold Rsqr. field. split; nra.
Qed.

Lemma ex_square r s x : s <> 0 -> r ^ 2 = s ^ 2 - x ^ 2 -> (r / s) ^ 2 = 1 - (x / s) ^ 2.
Proof.
  intros Ns E. replace ((r / s) ^ 2) with (r ^ 2 / s ^ 2) by (field; auto). rewrite E. field. auto.
Qed.
Lemma ex_square' r q w : q <> 0 -> r ^ 2 = 2 -> q ^ 2 = 1 - w ^ 2 -> (r / q) ^ 2 = 2 + (w * r / q) ^ 2.
Proof.
  intros Nq E E'. rewrite <- E. replace (r ^ 2 + (w * r / q) ^ 2) with (r ^ 2 * (q ^ 2 + w ^ 2) / q ^ 2) by (field; auto).
  rewrite E' at 1. field. auto.
Qed.

Lemma ex_student_2 : student_pair ex_gammaln ex_stdtr ex_stdtrit (1 + 1).
Proof.
  pose proof PI_RGT_0 as PP.
  assert (Pr : forall x, 0 < 2 + x ^ 2) by (intros x; pose proof (pow2_ge_0 x); lra).
  assert (Ps : forall x, 0 < sqrt (2 + x ^ 2)) by (intros x; apply sqrt_lt_R0, Pr).
  assert (Sq : forall x, sqrt (2 + x ^ 2) ^ 2 = 2 + x ^ 2) by (intros x; apply pow2_sqrt; specialize (Pr x); lra).
  assert (B : forall x, - sqrt (2 + x ^ 2) < x < sqrt (2 + x ^ 2)).
  { intros x. specialize (Ps x). specialize (Sq x). split; nra. }
  assert (S2 : 0 < sqrt 2) by (apply sqrt_lt_R0; lra).
  assert (S22 : sqrt 2 ^ 2 = 2) by (apply pow2_sqrt; lra).
  split; [split; [|split]|].
  - intros x. rewrite ex_F2. specialize (Ps x). specialize (B x). unfold unit. split.
    + apply Rmult_lt_reg_r with (2 * sqrt (2 + x ^ 2)); [lra|].
      apply Rlt_le_trans with (sqrt (2 + x ^ 2) + x); [lra | right; field; lra].
    + apply Rmult_lt_reg_r with (2 * sqrt (2 + x ^ 2)); [lra|].
      apply Rle_lt_trans with (sqrt (2 + x ^ 2) + x); [right; field; lra | lra].
  - intros x. rewrite ex_F2, ex_Q2. specialize (Ps x). specialize (Sq x).
    replace (2 * (1 / 2 + x / (2 * sqrt (2 + x ^ 2))) - 1) with (x / sqrt (2 + x ^ 2)) by (field; lra).
    replace (1 - (x / sqrt (2 + x ^ 2)) ^ 2) with ((sqrt 2 / sqrt (2 + x ^ 2)) ^ 2).
    2:{ apply ex_square; lra. }
    rewrite sqrt_pow2 by (left; apply Rdiv_lt_0_compat; lra). field. lra.
  - intros p Hp. rewrite ex_F2, ex_Q2. set (w := 2 * p - 1).
    assert (Hw : -1 < w < 1) by (unfold w; unfold unit in Hp; lra).
    assert (Pw : 0 < 1 - w ^ 2) by nra. pose proof (sqrt_lt_R0 _ Pw) as Pq.
    assert (Qw : sqrt (1 - w ^ 2) ^ 2 = 1 - w ^ 2) by (apply pow2_sqrt; lra).
    replace (2 + (w * sqrt 2 / sqrt (1 - w ^ 2)) ^ 2) with ((sqrt 2 / sqrt (1 - w ^ 2)) ^ 2).
    2:{ apply ex_square'; lra. }
    rewrite sqrt_pow2 by (left; apply Rdiv_lt_0_compat; lra).
    replace p with ((1 + w) / 2) by (unfold w; field). field. split; lra.
  - intros x. apply (d_ext (fun x => 1 / 2 + x / (2 * sqrt (2 + x ^ 2)))); [intros; now rewrite ex_F2|].
    pose proof (Ps x) as Psx. pose proof (Sq x) as Sqx. pose proof (Pr x) as Prx.
    eapply d_eq.
    + apply is_derive_Reals. auto_derive.
      * split; [cbn in Prx; lra|]. split; auto. apply Rgt_not_eq. cbn in Psx. lra.
      * reflexivity.
    + replace (2 + x * (x * 1)) with (2 + x ^ 2) by ring.
      replace ((1 + 1 + 1) / 2) with (3 / 2) by field. replace ((1 + 1) / 2) with 1 by field.
      assert (SP : 0 < sqrt PI) by now apply sqrt_lt_R0.
      rewrite ex_gl3, ex_gl2, exp_0, Rmult_1_r, exp_ln by lra.
      rewrite sqrt_mult by lra. replace (1 + 1) with 2 by ring.
      replace (- (2 + 1) / 2) with (- (1 + / 2)) by field.
      assert (P1 : 0 < 1 + x ^ 2 / 2) by (pose proof (pow2_ge_0 x); lra).
      rewrite Rpower_Ropp, Rpower_plus, Rpower_1, Rpower_sqrt by auto.
      replace (1 + x ^ 2 / 2) with ((2 + x ^ 2) / 2) by field.
      rewrite sqrt_div_alt by lra.
      set (s := sqrt (2 + x ^ 2)) in *. rewrite <- Sqx. set (r := sqrt 2) in *.
      change R0 with 0.
      transitivity (2 / (2 * s ^ 3)).
      * transitivity ((s ^ 2 - x ^ 2) / (2 * s ^ 3)); [field; lra|]. now replace (s ^ 2 - x ^ 2) with 2 by lra.
      * field. repeat split; lra.
Qed.

(* the bivariate Cauchy copula without correlation; its components are not
   independent *)
Definition ex_copula (u v : R) : R :=
  let x := tan (PI * (u - 1 / 2)) in
  let y := tan (PI * (v - 1 / 2)) in
  1 / 4 + (PI * (u - 1 / 2) + PI * (v - 1 / 2) + atan (x * y / sqrt (1 + x ^ 2 + y ^ 2))) / (2 * PI).

Section cauchy_copula.
  Notation F1 := (fun x => 1 / 2 + atan x / PI).
  Notation Q1 := (fun p => tan (PI * (p - 1 / 2))).
  Notation f1 := (fun x => / (PI * (1 + x ^ 2))).
  Lemma ca_U x : unit (F1 x).
  Proof. cbn beta. rewrite <- ex_F1. apply ex_student_1. Qed.
  Lemma ca_FQ p : unit p -> F1 (Q1 p) = p.
  Proof. intros Hp. cbn beta. rewrite <- ex_F1, <- ex_Q1. now apply ex_student_1. Qed.
  Lemma ca_pos x : 0 < f1 x.
  Proof. apply Rinv_0_lt_compat, Rmult_lt_0_compat; [apply PI_RGT_0|]. pose proof (pow2_ge_0 x). lra. Qed.
  Lemma ca_D x : derivable_pt_lim F1 x (f1 x).
  Proof.
    eapply d_eq.
    - apply d_plus; [apply d_const|]. apply d_mult; [apply derivable_pt_lim_atan | apply d_const].
    - cbn beta. pose proof PI_RGT_0. unfold Rsqr. field. split; nra.
  Qed.
  Lemma ca_atan p : unit p -> atan (Q1 p) = PI * (p - 1 / 2).
  Proof. intros Hp. pose proof PI_RGT_0. apply atan_tan. unfold unit in Hp. split; nra. Qed.

  Lemma ca_r x y : 0 < 1 + x ^ 2 + y ^ 2.
  Proof. pose proof (pow2_ge_0 x). pose proof (pow2_ge_0 y). lra. Qed.

  Lemma ca_h : h_function_of ex_copula (student_h ex_stdtr ex_stdtrit 0 1).
  Proof.
    intros u v Hu Hv. pose proof PI_RGT_0 as PP. unfold ex_copula, student_h. cbv zeta. rewrite !ex_Q1, ex_F2.
    set (x := tan (PI * (u - 1 / 2))). set (y := tan (PI * (v - 1 / 2))).
    assert (Dg : derivable_pt_lim (fun y => atan (x * y / sqrt (1 + x ^ 2 + y ^ 2))) y
              (/ (1 + (x * y / sqrt (1 + x ^ 2 + y ^ 2)) ^ 2) * (x * (1 + x ^ 2) / sqrt (1 + x ^ 2 + y ^ 2) ^ 3))).
    { pose proof (ca_r x y) as Pr. pose proof (sqrt_lt_R0 _ Pr) as Ps.
      apply (d_comp (fun y => x * y / sqrt (1 + x ^ 2 + y ^ 2)) atan).
      - apply is_derive_Reals. auto_derive.
        + split; [cbn in Pr; lra|]. split; auto. apply Rgt_not_eq. cbn in Ps. lra.
        + replace (1 + x * (x * 1) + y * (y * 1)) with (1 + x ^ 2 + y ^ 2) by ring.
          assert (E : 1 + x ^ 2 = sqrt (1 + x ^ 2 + y ^ 2) ^ 2 - y ^ 2) by (rewrite pow2_sqrt; lra).
          replace (x * (1 + x ^ 2)) with (x * (sqrt (1 + x ^ 2 + y ^ 2) ^ 2 - y ^ 2)) by (now rewrite <- E).
          set (s := sqrt (1 + x ^ 2 + y ^ 2)) in *. field. lra.
      - eapply d_eq; [apply derivable_pt_lim_atan|]. unfold Rsqr. rewrite <- Rsqr_pow2. unfold Rsqr. field.
        split; [lra|]. pose proof (Rle_0_sqr (x * y)). unfold Rsqr in *.
        assert (0 < sqrt (1 + x ^ 2 + y ^ 2) * sqrt (1 + x ^ 2 + y ^ 2)) by now apply Rmult_lt_0_compat. lra. }
    pose proof (Q_derive F1 Q1 f1 ca_U ca_FQ ca_D ca_pos v Hv) as DQ. cbn beta in DQ. fold y in DQ.
    eapply d_eq.
    - apply d_plus; [apply d_const|]. unfold Rdiv at 2. apply d_mult; [|apply d_const].
      apply d_plus.
      + apply d_plus; [apply d_const|]. apply d_mult; [apply d_const|]. apply d_minus; [apply d_id | apply d_const].
      + apply (d_comp Q1 (fun y => atan (x * y / sqrt (1 + x ^ 2 + y ^ 2)))); [exact DQ | exact Dg].
    - cbn beta. pose proof (ca_r x y) as Pr. pose proof (sqrt_lt_R0 _ Pr) as Ps.
      assert (X1 : 0 < 1 + x ^ 2) by (pose proof (pow2_ge_0 x); lra).
      assert (Y1 : 0 < 1 + y ^ 2) by (pose proof (pow2_ge_0 y); lra).
      assert (S2 : sqrt (1 + x ^ 2 + y ^ 2) ^ 2 = 1 + x ^ 2 + y ^ 2) by (apply pow2_sqrt; lra).
      assert (H1 : (x - 0 * y) / sqrt ((1 - 0 ^ 2) * (1 + y ^ 2) / (1 + 1)) / (2 * sqrt (2 + ((x - 0 * y) / sqrt ((1 - 0 ^ 2) * (1 + y ^ 2) / (1 + 1))) ^ 2))
                   = x / (2 * sqrt (1 + x ^ 2 + y ^ 2))).
      { replace ((1 - 0 ^ 2) * (1 + y ^ 2) / (1 + 1)) with ((1 + y ^ 2) / 2) by field.
        replace (x - 0 * y) with x by ring.
        assert (Pq : 0 < (1 + y ^ 2) / 2) by lra. pose proof (sqrt_lt_R0 _ Pq) as Pq'.
        assert (Q2 : sqrt ((1 + y ^ 2) / 2) ^ 2 = (1 + y ^ 2) / 2) by (apply pow2_sqrt; lra).
        replace (2 + (x / sqrt ((1 + y ^ 2) / 2)) ^ 2) with ((sqrt (1 + x ^ 2 + y ^ 2) / sqrt ((1 + y ^ 2) / 2)) ^ 2).
        - rewrite sqrt_pow2 by (left; apply Rdiv_lt_0_compat; lra). field. split; lra.
        - assert (PD : forall a b, b <> 0 -> (a / b) ^ 2 = a ^ 2 / b ^ 2) by (intros; field; auto).
          rewrite !PD, S2, Q2 by lra. field. lra. }
      rewrite H1. set (s := sqrt (1 + x ^ 2 + y ^ 2)) in *.
      assert (G : 1 + (x * y / s) ^ 2 = (1 + x ^ 2) * (1 + y ^ 2) / s ^ 2).
      { replace (1 + (x * y / s) ^ 2) with ((s ^ 2 + x ^ 2 * y ^ 2) / s ^ 2) by (field; lra). rewrite S2 at 1. field. lra. }
      rewrite G. rewrite Rinv_inv. field. repeat split; lra.
  Qed.

  Lemma ca_arg x y : y <> 0 ->
    x * y / sqrt (1 + x ^ 2 + y ^ 2) = (y / Rabs y) * (x / sqrt (1 + (1 + x ^ 2) * (/ y) ^ 2)).
  Proof.
    intros Ny. pose proof (Rabs_pos_lt y Ny) as PA. pose proof (ca_r x y) as Pr. pose proof (sqrt_lt_R0 _ Pr) as Ps.
    assert (W : 0 < 1 + (1 + x ^ 2) * (/ y) ^ 2).
    { pose proof (pow2_ge_0 (/ y)). pose proof (pow2_ge_0 x). nra. }
    pose proof (sqrt_lt_R0 _ W) as Pw.
    assert (E : sqrt (1 + x ^ 2 + y ^ 2) = Rabs y * sqrt (1 + (1 + x ^ 2) * (/ y) ^ 2)).
    { apply Rsqr_inj; [lra | apply Rmult_le_pos; lra|].
      rewrite !Rsqr_pow2, Rpow_mult_distr, pow2_abs, !pow2_sqrt by lra. field. auto. }
    rewrite E. field. split; lra.
  Qed.
  Lemma ca_cont x e : continuity_pt (fun w => atan (e * (x / sqrt (1 + (1 + x ^ 2) * w ^ 2)))) 0.
  Proof.
    apply (continuity_pt_comp (fun w => e * (x / sqrt (1 + (1 + x ^ 2) * w ^ 2))) atan).
    2:{ eapply continuous_of. apply derivable_pt_lim_atan. }
    apply continuity_pt_mult; [apply continuity_pt_const; now intros ? ?|].
    apply continuity_pt_mult; [apply continuity_pt_const; now intros ? ?|].
    apply continuity_pt_inv.
    - apply (continuity_pt_comp (fun w => 1 + (1 + x ^ 2) * w ^ 2) sqrt).
      + apply derivable_continuous_pt. reg.
      + apply continuity_pt_sqrt. nra.
    - apply Rgt_not_eq, sqrt_lt_R0. nra.
  Qed.
  Lemma ca_low x : tends0 (fun t => atan (x * Q1 t / sqrt (1 + x ^ 2 + Q1 t ^ 2))) (- atan x).
  Proof.
    pose proof (t0_comp _ _ _ (inv_low F1 Q1 f1 ca_U ca_FQ ca_D ca_pos) (ca_cont x (-1))) as T. cbn beta in T.
    replace (-1 * (x / sqrt (1 + (1 + x ^ 2) * 0 ^ 2))) with (- x) in T.
    2:{ replace (1 + (1 + x ^ 2) * 0 ^ 2) with 1 by ring. rewrite sqrt_1. field. }
    rewrite atan_opp in T. intros eps He. destruct (T eps He) as (d & Pd & K).
    destruct (Q_low F1 Q1 f1 ca_U ca_FQ ca_D ca_pos 0) as (d' & Pd' & K').
    exists (Rmin d d'). split; [apply Rmin_glb_lt; lra|]. intros t Ht L.
    pose proof (Rmin_l d d'). pose proof (Rmin_r d d'). specialize (K t ltac:(lra) L). specialize (K' t ltac:(lra)).
    cbn beta in *. set (y := tan (PI * (t - 1 / 2))) in *. rewrite ca_arg by lra.
    replace (y / Rabs y) with (-1) by (rewrite Rabs_left by lra; field; lra). exact K.
  Qed.
  Lemma ca_high x : tends0 (fun t => atan (x * Q1 (1 - t) / sqrt (1 + x ^ 2 + Q1 (1 - t) ^ 2))) (atan x).
  Proof.
    pose proof (t0_comp _ _ _ (inv_high F1 Q1 f1 ca_U ca_FQ ca_D ca_pos) (ca_cont x 1)) as T. cbn beta in T.
    replace (1 * (x / sqrt (1 + (1 + x ^ 2) * 0 ^ 2))) with x in T.
    2:{ replace (1 + (1 + x ^ 2) * 0 ^ 2) with 1 by ring. rewrite sqrt_1. field. }
    intros eps He. destruct (T eps He) as (d & Pd & K).
    destruct (Q_high F1 Q1 f1 ca_U ca_FQ ca_D ca_pos 0) as (d' & Pd' & K').
    exists (Rmin d d'). split; [apply Rmin_glb_lt; lra|]. intros t Ht L.
    pose proof (Rmin_l d d'). pose proof (Rmin_r d d'). specialize (K t ltac:(lra) L). specialize (K' t ltac:(lra)).
    cbn beta in *. set (y := tan (PI * (1 - t - 1 / 2))) in *. rewrite ca_arg by lra.
    replace (y / Rabs y) with 1 by (rewrite Rabs_right by lra; field; lra). exact K.
  Qed.

  Lemma t0_affine a b : tends0 (fun t => a + b * t) a.
  Proof.
    pose proof (t0_plus (fun _ => a) (fun t => b * t) a (b * 0) (t0_const a) (t0_mul _ b _ t0_id)) as T.
    now replace (a + b * 0) with a in T by ring.
  Qed.

  Lemma ca_copula : copula_with (student_h ex_stdtr ex_stdtrit 0 1) ex_copula.
  Proof.
    pose proof PI_RGT_0 as PP. split; [|split].
    - intros u v _ _. unfold ex_copula. cbv zeta.
      set (x := tan (PI * (u - 1 / 2))). set (y := tan (PI * (v - 1 / 2))).
      replace (y * x) with (x * y) by ring. replace (1 + y ^ 2 + x ^ 2) with (1 + x ^ 2 + y ^ 2) by ring. f_equal. f_equal. ring.
    - apply ca_h.
    - intros u Hu. pose proof (ca_atan u Hu) as Au. cbn beta in Au. unfold ex_copula. cbv zeta.
      set (x := tan (PI * (u - 1 / 2))) in *. split.
      + pose proof (t0_plus _ _ _ _ (t0_affine (1 / 4 + (atan x - PI / 2) / (2 * PI)) (1 / 2))
                     (t0_mul _ (/ (2 * PI)) _ (ca_low x))) as T.
        replace (1 / 4 + (atan x - PI / 2) / (2 * PI) + / (2 * PI) * - atan x) with 0 in T by (field; lra).
        eapply t0_ext; [|exact T]. intros t Ht. cbn beta. rewrite <- Au. field. lra.
      + pose proof (t0_plus _ _ _ _ (t0_affine (1 / 4 + (atan x + PI / 2) / (2 * PI)) (- (1 / 2)))
                     (t0_mul _ (/ (2 * PI)) _ (ca_high x))) as T.
        replace (1 / 4 + (atan x + PI / 2) / (2 * PI) + / (2 * PI) * atan x) with u in T by (rewrite Au; field; lra).
        eapply t0_ext; [|exact T]. intros t Ht. cbn beta. rewrite <- Au. field. lra.
  Qed.
End cauchy_copula.

Example C79_student_applies :
  student_pair ex_gammaln ex_stdtr ex_stdtrit 1 /\ student_pair ex_gammaln ex_stdtr ex_stdtrit (1 + 1) /\
  copula_with (student_h ex_stdtr ex_stdtrit 0 1) ex_copula /\
  lower_tail_is (fun X => ex_copula (fst X) (snd X)) (1 - sqrt 2 / 2).
Proof.
  split; [apply ex_student_1|]. split; [apply ex_student_2|]. split; [apply ca_copula|].
  replace (1 - sqrt 2 / 2) with (student_lower_tail ex_stdtr 0 1).
  - apply (C79_student_tails ex_gammaln ex_stdtr ex_stdtrit 0 1 ex_copula); try lra;
      [apply ex_student_1 | apply ex_student_2 | apply ca_copula].
  - unfold student_lower_tail. rewrite ex_F2. replace ((1 + 1) * (1 - 0) / (1 + 0)) with 2 by field.
    replace (2 + (- sqrt 2) ^ 2) with (2 ^ 2).
    + rewrite sqrt_pow2 by lra. field.
    + replace ((- sqrt 2) ^ 2) with (sqrt 2 ^ 2) by ring. rewrite pow2_sqrt by lra. ring.
Qed.

Print Assumptions C79_gaussian.
Print Assumptions C79_student.
Print Assumptions C79_rejects.
Print Assumptions C79_uncorrelated.
Print Assumptions C79_gaussian_tails.
Print Assumptions C79_student_tails.
Print Assumptions C79_student_coefficient.
