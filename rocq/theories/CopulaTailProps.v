(* ------------------------------------------------------------------------ *)
(* Property C62: tail dependence coefficients of the Archimedean copulas.    *)
(* ------------------------------------------------------------------------ *)
From Coq Require Import Reals List Lra Psatz.
From Verif Require Import CopulaModel CopulaProps.
Import ListNotations.
Open Scope R_scope.

(* ------------------------------------------------------------------------ *)
(* Specification                                                             *)
(* ------------------------------------------------------------------------ *)
(* f(t) tends to l when t decreases to 0 *)
Definition tends0 (f : R -> R) (l : R) : Prop :=
  forall eps, 0 < eps -> exists d, 0 < d /\
    forall t, 0 < t < d -> t < 1 -> Rabs (f t - l) < eps.

(* lim P(U <= q, V <= q) / q as q -> 0, for the distribution function F *)
Definition lower_tail_is (F : R * R -> R) (l : R) : Prop :=
  tends0 (fun q => F (q, q) / q) l.
(* lim P(U > q, V > q) / (1 - q) as q -> 1 *)
Definition upper_tail_is (F : R * R -> R) (l : R) : Prop :=
  tends0 (fun t => (1 - 2 * (1 - t) + F (1 - t, 1 - t)) / (1 - (1 - t))) l.

(* ------------------------------------------------------------------------ *)
(* Limits                                                                    *)
(* ------------------------------------------------------------------------ *)
Lemma t0_ext f g l : (forall t, unit t -> f t = g t) -> tends0 f l -> tends0 g l.
Proof.
  intros E H eps He. destruct (H eps He) as (d & Hd & K). exists d. split; auto.
  intros t Ht L. rewrite <- E by (unfold unit; lra). now apply K.
Qed.

Lemma t0_const c : tends0 (fun _ => c) c.
Proof.
  intros eps He. exists 1. split; [lra|]. intros. replace (c - c) with 0 by ring.
  rewrite Rabs_R0. lra.
Qed.

Lemma t0_id : tends0 (fun t => t) 0.
Proof.
  intros eps He. exists eps. split; auto. intros t Ht _.
  rewrite Rabs_right; lra.
Qed.

Lemma t0_plus f g a b : tends0 f a -> tends0 g b -> tends0 (fun t => f t + g t) (a + b).
Proof.
  intros Hf Hg eps He. destruct (Hf (eps / 2)) as (d1 & P1 & K1); [lra|].
  destruct (Hg (eps / 2)) as (d2 & P2 & K2); [lra|].
  exists (Rmin d1 d2). split; [now apply Rmin_glb_lt|]. intros t Ht L.
  pose proof (Rmin_l d1 d2). pose proof (Rmin_r d1 d2).
  specialize (K1 t ltac:(lra) L). specialize (K2 t ltac:(lra) L).
  replace (f t + g t - (a + b)) with ((f t - a) + (g t - b)) by ring.
  eapply Rle_lt_trans; [apply Rabs_triang|]. lra.
Qed.

Lemma t0_comp f g l : tends0 f l -> continuity_pt g l -> tends0 (fun t => g (f t)) (g l).
Proof.
  intros Hf Hg eps He. destruct (Hg eps He) as (d & Pd & K).
  destruct (Hf d Pd) as (e & Pe & K'). exists e. split; auto.
  intros t Ht L. specialize (K' t Ht L).
  destruct (Req_dec (f t) l) as [E|N].
  - rewrite E. replace (g l - g l) with 0 by ring. rewrite Rabs_R0. lra.
  - apply (K (f t)). split; [|exact K']. split; [exact I | congruence].
Qed.

Lemma continuous_of f x l : derivable_pt_lim f x l -> continuity_pt f x.
Proof. intros H. apply derivable_continuous_pt. now exists l. Qed.

Lemma t0_pow a : 0 < a -> tends0 (fun t => Rpower t a) 0.
Proof.
  intros Ha eps He. exists (Rpower eps (1 / a)). split; [apply pw_pos|].
  intros t Ht _. pose proof (pw_pos t a). rewrite Rabs_right by lra.
  rewrite Rminus_0_r. rewrite <- (pw_inv eps (1 / a) a); [|auto | field; lra].
  apply pw_incr; auto.
Qed.

Lemma t0_squeeze f g l : (forall t, unit t -> l <= f t <= g t) -> tends0 g l -> tends0 f l.
Proof.
  intros B H eps He. destruct (H eps He) as (d & Hd & K). exists d. split; auto.
  intros t Ht L. specialize (K t Ht L). specialize (B t ltac:(unfold unit; lra)).
  rewrite Rabs_right in * by lra. lra.
Qed.

Lemma t0_opp f a : tends0 f a -> tends0 (fun t => - f t) (- a).
Proof.
  intros H eps He. destruct (H eps He) as (d & Hd & K). exists d. split; auto.
  intros t Ht L. specialize (K t Ht L).
  replace (- f t - - a) with (- (f t - a)) by ring. now rewrite Rabs_Ropp.
Qed.

Lemma t0_mul f c a : tends0 f a -> tends0 (fun t => c * f t) (c * a).
Proof.
  intros H. apply (t0_comp f (fun x => c * x) a H).
  apply continuous_of with (c * 1). eapply d_eq; [apply d_mult; [apply d_const | apply d_id]|].
  cbn beta. ring.
Qed.

(* a left derivative at 1 *)
Lemma t0_left_derivative f l : derivable_pt_lim f 1 l ->
  tends0 (fun t => (f 1 - f (1 - t)) / t) l.
Proof.
  intros H eps He. destruct (H eps He) as (d & K). exists d. split; [apply cond_pos|].
  intros t Ht _. specialize (K (- t) ltac:(lra)). rewrite Rabs_Ropp, Rabs_right in K by lra.
  specialize (K ltac:(lra)). replace (1 + - t) with (1 - t) in K by ring.
  replace ((f 1 - f (1 - t)) / t) with ((f (1 - t) - f 1) / - t) by (field; lra). exact K.
Qed.

(* ------------------------------------------------------------------------ *)
(* Rotations                                                                 *)
(* ------------------------------------------------------------------------ *)
Section tails.
  Variable C : R -> R -> R.
  Variables lower upper : R.
  Hypothesis C_sym : exchangeable C.
  Hypothesis HL : tends0 (fun t => C t t / t) lower.
  Hypothesis HU : tends0 (fun t => (2 * t - 1 + C (1 - t) (1 - t)) / t) upper.
  Hypothesis HX : tends0 (fun t => (t - C t (1 - t)) / t) 0.

  Lemma rotated_tails : forall r,
    lower_tail_is (rotated_cdf (fun X => C (fst X) (snd X)) r)
                  (match r with R0 => lower | R180 => upper | _ => 0 end) /\
    upper_tail_is (rotated_cdf (fun X => C (fst X) (snd X)) r)
                  (match r with R0 => upper | R180 => lower | _ => 0 end).
  Proof.
    assert (X : forall t, 1 - (1 - t) = t) by (intros; ring).
    intros r. unfold lower_tail_is, upper_tail_is, rotated_cdf, rotate.
    destruct r; split; cbn [fst snd].
    - exact HL.
    - eapply t0_ext; [|exact HU]. intros t Ht. cbn beta. rewrite X. f_equal. ring.
    - exact HX.
    - eapply t0_ext; [|exact HX]. intros t Ht. cbn beta. rewrite !X.
      rewrite (C_sym (1 - t) t) by (unfold unit in *; lra). f_equal. ring.
    - eapply t0_ext; [|exact HU]. intros t Ht. cbn beta. f_equal. ring.
    - eapply t0_ext; [|exact HL]. intros t Ht. cbn beta. rewrite !X. f_equal. ring.
    - eapply t0_ext; [|exact HX]. intros t Ht. cbn beta.
      rewrite (C_sym (1 - t) t) by (unfold unit in *; lra). reflexivity.
    - eapply t0_ext; [|exact HX]. intros t Ht. cbn beta. rewrite !X. f_equal. ring.
  Qed.
End tails.

(* (t - C(t, 1-t)) / t -> 0 when C(u, v) >= u v *)
Lemma cross_tail C : (forall u v, unit u -> unit v -> u * v <= C u v <= u) ->
  tends0 (fun t => (t - C t (1 - t)) / t) 0.
Proof.
  intros H. apply (t0_squeeze _ (fun t => t)); [|apply t0_id].
  intros t Ht. destruct (H t (1 - t) Ht (unit_1m t Ht)) as [A B]. unfold unit in Ht.
  assert (Pt : 0 < / t) by (apply Rinv_0_lt_compat; lra). unfold Rdiv. split.
  - nra.
  - apply Rle_trans with (t * t * / t); [apply Rmult_le_compat_r; nra|]. right. field. lra.
Qed.

(* ------------------------------------------------------------------------ *)
(* Clayton                                                                   *)
(* ------------------------------------------------------------------------ *)
Section clayton.
  Variable theta : R.
  Hypothesis Ht : 0 < theta.

  Lemma cl_product u v : unit u -> unit v -> u * v <= clayton_cdf theta u v <= u.
  Proof.
    intros U V. split; [|apply (cl_bounds theta Ht u v U V)].
    unfold clayton_cdf.
    pose proof (pw_unit_neg u (- theta) U ltac:(lra)) as Gu.
    pose proof (pw_unit_neg v (- theta) V ltac:(lra)) as Gv.
    assert (N : - 1 / theta < 0).
    { replace (- 1 / theta) with (- (1 / theta)) by (field; lra).
      assert (0 < 1 / theta) by (apply Rdiv_lt_0_compat; lra). lra. }
    assert (I : forall x, unit x -> Rpower (Rpower x (- theta)) (- 1 / theta) = x).
    { intros x Hx. apply pw_inv; [apply Hx | field; lra]. }
    replace (u * v) with (Rpower (Rpower u (- theta) * Rpower v (- theta)) (- 1 / theta)).
    2:{ rewrite pw_mul by apply pw_pos. now rewrite !I. }
    left. apply pw_decr; auto. split; [lra | nra].
  Qed.

  Lemma cl_lower : tends0 (fun t => clayton_cdf theta t t / t) (Rpower 2 (- 1 / theta)).
  Proof.
    eapply t0_ext with (f := fun t => Rpower (2 + - Rpower t theta) (- 1 / theta)).
    - intros t U. unfold clayton_cdf.
      replace (Rpower t (- theta) + Rpower t (- theta) - 1)
        with (Rpower t (- theta) * (2 + - Rpower t theta)).
      2:{ pose proof (pw_opp t theta). nra. }
      pose proof (pw_unit t theta U Ht) as Q. unfold unit in *.
      rewrite pw_mul; [|apply pw_pos | lra]. rewrite pw_inv; [field; lra | lra | field; lra].
    - assert (E : Rpower 2 (- 1 / theta) = Rpower (2 + - 0) (- 1 / theta)) by (f_equal; ring).
      rewrite E.
      apply (t0_comp (fun t => 2 + - Rpower t theta) (fun x => Rpower x (- 1 / theta))).
      + apply t0_plus; [apply t0_const|]. apply t0_opp. now apply t0_pow.
      + eapply continuous_of. apply (d_pow (fun t => t)); [apply d_id | lra].
  Qed.

  Lemma cl_upper : tends0 (fun t => (2 * t - 1 + clayton_cdf theta (1 - t) (1 - t)) / t) 0.
  Proof.
    set (phi := fun u => Rpower (Rpower u (- theta) + Rpower u (- theta) - 1) (- 1 / theta)).
    assert (D : derivable_pt_lim phi 1 2).
    { unfold phi. eapply d_eq.
      - apply (d_pow (fun t => Rpower t (- theta) + Rpower t (- theta) - 1)).
        + apply d_minus; [|apply d_const].
          apply d_plus; apply (d_pow (fun t => t)); try apply d_id; lra.
        + rewrite !pw_one. lra.
      - cbn beta. rewrite !pw_one. replace (1 + 1 - 1) with 1 by ring. rewrite pw_one. field. lra. }
    pose proof (t0_left_derivative phi 2 D) as K.
    replace 0 with (2 + - 2) by ring.
    eapply t0_ext; [|apply t0_plus; [apply (t0_const 2) | apply t0_opp; exact K]].
    intros t U. cbn beta. unfold phi, clayton_cdf. rewrite !pw_one.
    replace (1 + 1 - 1) with 1 by ring. rewrite pw_one. field. unfold unit in U. lra.
  Qed.
End clayton.

(* ------------------------------------------------------------------------ *)
(* Gumbel                                                                    *)
(* ------------------------------------------------------------------------ *)
Section gumbel.
  Variable theta : R.
  Hypothesis Ht : 1 < theta.
  Let a := Rpower 2 (1 / theta).

  Lemma gt_a : 1 < a < 2.
  Proof.
    pose proof (jo_inv theta Ht). unfold a. split.
    - apply pw_big; lra.
    - rewrite <- (Rpower_1 2) at 2 by lra. apply Rpower_lt; lra.
  Qed.

  Lemma gt_diag u : unit u -> gumbel_cdf theta u u = Rpower u a.
  Proof.
    intros U. pose proof (ln_neg u U). unfold gumbel_cdf.
    replace (Rpower (- ln u) theta + Rpower (- ln u) theta) with (2 * Rpower (- ln u) theta) by ring.
    rewrite pw_mul; [|lra | apply pw_pos]. rewrite pw_inv; [|lra | field; lra].
    fold a. unfold Rpower. f_equal. ring.
  Qed.

  Lemma gu_product u v : unit u -> unit v -> u * v <= gumbel_cdf theta u v <= u.
  Proof.
    intros U V. split; [|apply (gu_bounds theta Ht u v U V)].
    unfold gumbel_cdf. pose proof (ln_neg u U). pose proof (ln_neg v V). pose proof (jo_inv theta Ht).
    assert (L : Rpower (Rpower (- ln u) theta + Rpower (- ln v) theta) (1 / theta) <= - ln u + - ln v).
    { eapply Rle_trans; [apply pw_subadd; try apply pw_pos; lra|].
      rewrite !pw_inv; try lra; field; lra. }
    rewrite <- (exp_ln u) at 1 by apply U. rewrite <- (exp_ln v) at 1 by apply V.
    rewrite <- exp_plus. destruct L as [L|L].
    - left. apply exp_increasing. lra.
    - right. f_equal. lra.
  Qed.

  Lemma gu_lower : tends0 (fun t => gumbel_cdf theta t t / t) 0.
  Proof.
    eapply t0_ext with (f := fun t => Rpower t (a - 1)).
    - intros t U. rewrite gt_diag by auto. replace a with (a - 1 + 1) at 2 by ring.
      rewrite Rpower_plus, Rpower_1 by apply U. field. unfold unit in U. lra.
    - apply t0_pow. pose proof gt_a. lra.
  Qed.

  Lemma gu_upper : tends0 (fun t => (2 * t - 1 + gumbel_cdf theta (1 - t) (1 - t)) / t) (2 - a).
  Proof.
    assert (D : derivable_pt_lim (fun u => Rpower u a) 1 a).
    { eapply d_eq; [apply (d_pow (fun t => t)); [apply d_id | lra]|].
      cbn beta. rewrite pw_one. ring. }
    pose proof (t0_left_derivative _ _ D) as K.
    eapply t0_ext; [|apply t0_plus; [apply (t0_const 2) | apply t0_opp; exact K]].
    intros t U. cbn beta. rewrite gt_diag by (now apply unit_1m). rewrite pw_one.
    field. unfold unit in U. lra.
  Qed.
End gumbel.

(* ------------------------------------------------------------------------ *)
(* Joe                                                                       *)
(* ------------------------------------------------------------------------ *)
Section joe.
  Variable theta : R.
  Hypothesis Ht : 1 < theta.

  (* Bernoulli *)
  Lemma bernoulli q : unit q -> 1 - theta * q <= Rpower (1 - q) theta.
  Proof.
    intros U. pose proof (unit_1m q U) as U'.
    destruct (MVT_cor2 (fun x => Rpower x theta) (fun x => theta * Rpower x (theta - 1)) (1 - q) 1)
      as (c & E & Hc); [unfold unit in U; lra | |].
    { intros c Hc. apply derivable_pt_lim_power. unfold unit in *. lra. }
    rewrite pw_one in E.
    assert (unit (Rpower c (theta - 1))) by (apply pw_unit; unfold unit in *; lra).
    unfold unit in *.
    assert (0 <= theta * q * (1 - Rpower c (theta - 1))) by (apply Rmult_le_pos; nra). lra.
  Qed.

  Lemma jo_lower : tends0 (fun t => joe_cdf theta t t / t) 0.
  Proof.
    pose proof (jo_inv theta Ht) as Hi.
    replace 0 with (theta * theta * 0) by ring.
    apply (t0_squeeze _ (fun t => theta * theta * t)).
    - intros t U. rewrite Rmult_0_r.
      pose proof (proj1 (jo_bounds theta Ht t t U U)) as P. cbn [fst snd] in P.
      assert (Pt : 0 < / t) by (apply Rinv_0_lt_compat, U).
      split; [unfold Rdiv; nra|].
      assert (joe_cdf theta t t <= theta * theta * (t * t)).
      { unfold joe_cdf. set (x := Rpower (1 - t) theta).
        assert (Ux : unit x) by (apply pw_unit; [now apply unit_1m | lra]).
        pose proof (bernoulli t U) as B. fold x in B.
        set (d := x + x - x * x). assert (Ud : unit d) by (unfold d, unit in *; nra).
        assert (d <= Rpower d (1 / theta)).
        { rewrite <- (Rpower_1 d) at 1 by apply Ud. pose proof (ln_neg d Ud).
          unfold Rpower. left. apply exp_increasing. nra. }
        assert (1 - d = (1 - x) * (1 - x)) by (unfold d; ring).
        unfold unit in *. nra. }
      unfold Rdiv. apply Rle_trans with (theta * theta * (t * t) * / t); [nra|].
      right. field. unfold unit in U. lra.
    - apply t0_mul, t0_id.
  Qed.

  Lemma jo_upper : tends0 (fun t => (2 * t - 1 + joe_cdf theta (1 - t) (1 - t)) / t)
                          (2 - Rpower 2 (1 / theta)).
  Proof.
    pose proof (jo_inv theta Ht) as Hi.
    eapply t0_ext with (f := fun t => 2 + - Rpower (2 + - Rpower t theta) (1 / theta)).
    - intros t U. unfold joe_cdf. replace (1 - (1 - t)) with t by ring.
      replace (Rpower t theta + Rpower t theta - Rpower t theta * Rpower t theta)
        with (Rpower t theta * (2 + - Rpower t theta)) by ring.
      pose proof (pw_unit t theta U ltac:(lra)) as Q. unfold unit in *.
      rewrite pw_mul; [|apply pw_pos | lra]. rewrite pw_inv; [field; lra | lra | field; lra].
    - apply t0_plus; [apply t0_const|]. apply t0_opp.
      assert (E : Rpower 2 (1 / theta) = Rpower (2 + - 0) (1 / theta)) by (f_equal; ring).
      rewrite E.
      apply (t0_comp (fun t => 2 + - Rpower t theta) (fun x => Rpower x (1 / theta))).
      + apply t0_plus; [apply t0_const|]. apply t0_opp. apply t0_pow. lra.
      + eapply continuous_of. apply (d_pow (fun t => t)); [apply d_id | lra].
  Qed.

  Lemma jo_cross : tends0 (fun t => (t - joe_cdf theta t (1 - t)) / t) 0.
  Proof.
    pose proof (jo_inv theta Ht) as Hi.
    assert (K : tends0 (fun t => 1 + - (Rpower (1 - t) (theta - 1)) + Rpower t theta) 0).
    { replace 0 with (1 + - 1 + 0) by ring.
      apply t0_plus; [|apply t0_pow; lra]. apply t0_plus; [apply t0_const|]. apply t0_opp.
      assert (T : tends0 (fun t => Rpower (1 - t) (theta - 1)) (Rpower (1 - 0) (theta - 1))).
      2:{ rewrite Rminus_0_r, pw_one in T. exact T. }
      apply (t0_comp (fun t => t) (fun x => Rpower (1 - x) (theta - 1)) 0); [apply t0_id|].
      eapply continuous_of. apply (d_pow (fun t => 1 - t)); [apply d_one_minus | lra]. }
    refine (t0_squeeze _ _ 0 _ K). intros t U.
    pose proof (unit_1m t U) as U'. pose proof U as [U0 U1].
    assert (Pt : 0 < / t) by (apply Rinv_0_lt_compat, U).
    split.
    - pose proof (jo_bounds theta Ht t (1 - t) U U') as B. cbn [fst snd] in B. unfold Rdiv. nra.
    - unfold joe_cdf. replace (1 - (1 - t)) with t by ring.
      set (x := Rpower (1 - t) theta). set (y := Rpower t theta).
      assert (Ux : unit x) by (apply pw_unit; auto; lra).
      assert (Uy : unit y) by (apply pw_unit; auto; lra).
      (* (1 - w)^(1/theta) <= 1 - w / theta *)
      set (w := (1 - x) * (1 - y)).
      assert (Uw : unit w) by (unfold w, unit in *; nra).
      replace (x + y - x * y) with (1 - w) by (unfold w; ring).
      assert (B1 : Rpower (1 - w) (1 / theta) <= 1 - w / theta).
      { destruct (MVT_cor2 (fun x => Rpower x (1 / theta)) (fun x => 1 / theta * Rpower x (1 / theta - 1)) (1 - w) 1)
          as (c & E & Hc); [unfold unit in Uw; lra | |].
        { intros c Hc. apply derivable_pt_lim_power. unfold unit in *. lra. }
        rewrite pw_one in E.
        assert (1 < Rpower c (1 / theta - 1)) by (apply pw_unit_neg; unfold unit in *; lra).
        unfold unit in *.
        assert (0 <= 1 / theta * w * (Rpower c (1 / theta - 1) - 1)) by (apply Rmult_le_pos; nra).
        replace (w / theta) with (1 / theta * w) by (field; lra). lra. }
      assert (B2 : theta * Rpower (1 - t) (theta - 1) * t <= 1 - x).
      { destruct (MVT_cor2 (fun x => Rpower x theta) (fun x => theta * Rpower x (theta - 1)) (1 - t) 1)
          as (c & E & Hc); [unfold unit in U; lra | |].
        { intros c Hc. apply derivable_pt_lim_power. unfold unit in *. lra. }
        rewrite pw_one in E. fold x in E.
        assert (Rpower (1 - t) (theta - 1) < Rpower c (theta - 1))
          by (apply pw_incr; unfold unit in *; lra).
        rewrite E. replace (1 - (1 - t)) with t by ring.
        apply Rmult_le_compat_r; [lra|]. nra. }
      set (m := Rpower (1 - t) (theta - 1)) in *.
      assert (Um : unit m) by (apply pw_unit; auto; lra).
      assert (B3 : m * t * (1 - y) <= w / theta).
      { unfold w. apply (Rmult_le_reg_r theta); [lra|].
        replace ((1 - x) * (1 - y) / theta * theta) with ((1 - x) * (1 - y)) by (field; lra).
        unfold unit in Uy. nra. }
      apply Rle_trans with ((t - m * t * (1 - y)) / t).
      + unfold Rdiv. apply Rmult_le_compat_r; lra.
      + apply Rle_trans with (1 - m * (1 - y)); [right; field; lra|]. unfold unit in *. nra.
  Qed.
End joe.

(* ------------------------------------------------------------------------ *)
(* C62                                                                       *)
(* ------------------------------------------------------------------------ *)
Theorem C62_clayton : forall theta r, 0 < theta ->
  let F := rotated_cdf (fun X => clayton_cdf theta (fst X) (snd X)) r in
  lower_tail_is F (clayton_lower_tail theta r) /\
  upper_tail_is F (clayton_upper_tail theta r).
Proof.
  intros theta r Ht F.
  pose proof (rotated_tails (clayton_cdf theta) _ _ (cl_sym theta) (cl_lower theta Ht)
               (cl_upper theta Ht) (cross_tail _ (cl_product theta Ht)) r) as H.
  unfold F. destruct r; exact H.
Qed.

Theorem C62_gumbel : forall theta r, 1 < theta ->
  let F := rotated_cdf (fun X => gumbel_cdf theta (fst X) (snd X)) r in
  lower_tail_is F (gumbel_lower_tail theta r) /\
  upper_tail_is F (gumbel_upper_tail theta r).
Proof.
  intros theta r Ht F.
  pose proof (rotated_tails (gumbel_cdf theta) _ _ (gu_sym theta) (gu_lower theta Ht)
               (gu_upper theta Ht) (cross_tail _ (gu_product theta Ht)) r) as H.
  unfold F. destruct r; exact H.
Qed.

Theorem C62_joe : forall theta r, 1 < theta ->
  let F := rotated_cdf (fun X => joe_cdf theta (fst X) (snd X)) r in
  lower_tail_is F (joe_lower_tail theta r) /\
  upper_tail_is F (joe_upper_tail theta r).
Proof.
  intros theta r Ht F.
  pose proof (rotated_tails (joe_cdf theta) _ _ (jo_sym theta) (jo_lower theta Ht)
               (jo_upper theta Ht) (jo_cross theta Ht) r) as H.
  unfold F. destruct r; exact H.
Qed.

(* tail_concentration is the finite-q version of these ratios, on the quantiles
   that the clipping leaves alone; it lies in [0, 1] there *)
Theorem C62_concentration : forall C r q, exchangeable C ->
  frechet_bounds (fun X => C (fst X) (snd X)) -> inside q ->
  exists c, tail_concentration C r q = Some c /\ 0 <= c <= 1 /\
    let F := rotated_cdf (fun X => C (fst X) (snd X)) r in
    (q <= 1 / 2 -> c * q = F (q, q)) /\
    (1 / 2 < q -> c * (1 - q) = 1 - 2 * q + F (q, q)).
Proof.
  intros C r q S B I. pose proof (inside_unit q I) as U.
  unfold tail_concentration, method_cdf. rewrite validate_inside by auto. cbn [option_map].
  eexists. split; [reflexivity|]. cbv zeta.
  set (F := rotated_cdf _ r (q, q)).
  assert (BF : 0 <= F /\ 2 * q - 1 <= F /\ F <= q).
  { unfold F. pose proof (unit_1m q U) as U'.
    destruct r; unfold rotated_cdf, rotate; cbn [fst snd];
      [pose proof (B q q U U) | pose proof (B q (1 - q) U U')
      |pose proof (B (1 - q) (1 - q) U' U') | pose proof (B (1 - q) q U' U)];
      cbn [fst snd] in *; lra. }
  unfold unit in U. split.
  - destruct (Rle_dec q (1 / 2)).
    + assert (P : 0 < / q) by (apply Rinv_0_lt_compat; lra). unfold Rdiv.
      split; [nra|]. apply Rle_trans with (q * / q); [apply Rmult_le_compat_r; lra | right; field; lra].
    + assert (P : 0 < / (1 - q)) by (apply Rinv_0_lt_compat; lra). unfold Rdiv.
      split; [nra|]. apply Rle_trans with ((1 - q) * / (1 - q)); [apply Rmult_le_compat_r; lra | right; field; lra].
  - split; intros L; destruct (Rle_dec q (1 / 2)); try lra; field; lra.
Qed.

(* FINDING.  tail_concentration accepts every quantile in [0, 1], but the
   quantiles below 1e-9 are clipped before the cdf is evaluated and not in the
   denominator: the returned conditional probability exceeds 1. *)
Theorem C62_concentration_clipped_refuted :
  exists q c, 0 < q < 1 /\ tail_concentration (clayton_cdf 1) R0 q = Some c /\ 4 < c.
Proof.
  exists (epsilon / 10).
  unfold tail_concentration, method_cdf.
  rewrite validate_some by (cbn; unfold epsilon; lra).
  cbn [fst snd option_map].
  assert (E : clip epsilon (1 - epsilon) (epsilon / 10) = epsilon).
  { unfold clip. rewrite Rmax_left, Rmin_right; unfold epsilon; lra. }
  rewrite E. eexists. split; [unfold epsilon; lra|]. split; [reflexivity|].
  destruct (Rle_dec (epsilon / 10) (1 / 2)) as [L|L]; [|unfold epsilon in L; lra].
  unfold rotated_cdf, rotate, clayton_cdf. cbn [fst snd].
  replace (- 1 / 1) with (- (1)) by field.
  assert (P : 0 < epsilon) by (unfold epsilon; lra).
  rewrite !Rpower_Ropp, (Rpower_1 epsilon) by auto.
  assert (Q : 0 < / epsilon + / epsilon - 1).
  { assert (1 < / epsilon); [|lra]. rewrite <- Rinv_1. apply Rinv_lt_contravar; unfold epsilon; lra. }
  rewrite Rpower_1 by auto. unfold epsilon. lra.
Qed.

(* a concrete coefficient: Clayton with theta = 1 rotated by 180 degrees has
   upper tail dependence 1/2 *)
Example C62_value : clayton_upper_tail 1 R180 = / 2.
Proof.
  unfold clayton_upper_tail. replace (- 1 / 1) with (- (1)) by field.
  rewrite Rpower_Ropp, Rpower_1; lra.
Qed.

Print Assumptions C62_clayton.
Print Assumptions C62_gumbel.
Print Assumptions C62_joe.
Print Assumptions C62_concentration.
Print Assumptions C62_concentration_clipped_refuted.
