(* ------------------------------------------------------------------------ *)
(* Property C47: the iterations that invert the Gumbel and Joe h-functions.  *)
(* ------------------------------------------------------------------------ *)
From Coq Require Import Reals Ranalysis5 List Lra Lia Psatz.
From Verif Require Import CopulaModel CopulaProps.
Import ListNotations.
Open Scope R_scope.

(* ------------------------------------------------------------------------ *)
(* Newton steps for a convex decreasing function                             *)
(* ------------------------------------------------------------------------ *)
(* one row's update [f]: from anywhere in [lo, hi] it lands in [lo, r]; from
   the left of r it moves right by at least the fraction q of the distance *)
Definition good_step (f : R -> R) (lo hi r q : R) : Prop :=
  lo <= r <= hi /\ 0 < q <= 1 /\
  (forall x, lo <= x <= hi -> lo <= f x <= r) /\
  (forall x, lo <= x <= r -> x + q * (r - x) <= f x).

Section convex.
  Variables F G : R -> R.
  Variables lo hi r : R.
  Hypothesis Hr : lo <= r <= hi.
  Hypothesis dF : forall x, lo <= x <= hi -> derivable_pt_lim F x (- G x).
  Hypothesis Gpos : forall x, lo <= x <= hi -> 0 < G x.
  Hypothesis Gdec : forall x y, lo <= x -> x <= y -> y <= hi -> G y <= G x.
  Hypothesis root : F r = 0.

  Lemma residual_bounds x : lo <= x <= r ->
    G r * (r - x) <= F x <= G lo * (r - x).
  Proof.
    intros [A B]. destruct B as [B | ->]; [|rewrite root; nra].
    destruct (MVT_cor2 F (fun t => - G t) x r B) as (c & E & Hc).
    { intros c Hc. apply dF. lra. }
    rewrite root in E.
    pose proof (Gdec c r ltac:(lra) ltac:(lra) ltac:(lra)).
    pose proof (Gdec lo c ltac:(lra) ltac:(lra) ltac:(lra)). nra.
  Qed.

  Lemma newton_left x : lo <= x <= r ->
    x + G r / G lo * (r - x) <= x + F x / G x <= r.
  Proof.
    intros [A B]. pose proof (Gpos x ltac:(lra)) as Px. pose proof (Gpos lo ltac:(lra)) as Pl.
    pose proof (Gpos r Hr) as Pr. pose proof (Gdec lo x ltac:(lra) A ltac:(lra)) as L.
    assert (E : G r * (r - x) <= F x <= G x * (r - x)).
    { destruct B as [B | ->]; [|rewrite root; nra].
      destruct (MVT_cor2 F (fun t => - G t) x r B) as (c & E & Hc).
      { intros c Hc. apply dF. lra. }
      rewrite root in E.
      pose proof (Gdec c r ltac:(lra) ltac:(lra) ltac:(lra)).
      pose proof (Gdec x c ltac:(lra) ltac:(lra) ltac:(lra)). nra. }
    assert (I : / G lo <= / G x) by (apply Rinv_le_contravar; auto).
    pose proof (Rinv_0_lt_compat _ Px) as Ix. pose proof (Rinv_0_lt_compat _ Pl) as Il.
    unfold Rdiv. split.
    - assert (G r * / G lo * (r - x) <= F x * / G x); [|lra].
      apply Rle_trans with (G r * (r - x) * / G lo); [lra|].
      apply Rle_trans with (G r * (r - x) * / G x); [|nra].
      apply Rmult_le_compat_l; [nra | auto].
    - apply Rle_trans with (x + G x * (r - x) * / G x); [nra|]. right. field. lra.
  Qed.

  Lemma newton_right x : r < x -> x <= hi -> x + F x / G x <= r.
  Proof.
    intros A B. pose proof (Gpos x ltac:(lra)) as Px.
    destruct (MVT_cor2 F (fun t => - G t) r x A) as (c & E & Hc).
    { intros c Hc. apply dF. lra. }
    rewrite root in E. pose proof (Gdec c x ltac:(lra) ltac:(lra) ltac:(lra)).
    pose proof (Rinv_0_lt_compat _ Px).
    assert (F x <= - G x * (x - r)) by nra.
    apply Rle_trans with (x + - G x * (x - r) * / G x); [unfold Rdiv; nra|]. right. field. lra.
  Qed.

  Lemma convex_good f :
    (forall x, lo <= x <= hi -> x + F x / G x <= r -> f x = Rmax lo (x + F x / G x)) ->
    good_step f lo hi r (G r / G lo).
  Proof.
    intros Hf. pose proof (Gpos lo ltac:(lra)) as Pl. pose proof (Gpos r Hr) as Pr.
    assert (K : forall x, lo <= x <= hi -> x + F x / G x <= r).
    { intros x Hx. destruct (Rle_dec x r); [apply newton_left | apply newton_right]; lra. }
    split; auto. split; [|split].
    - split; [apply Rdiv_lt_0_compat; auto|].
      apply (Rmult_le_reg_r (G lo)); auto. unfold Rdiv. rewrite Rmult_assoc, Rinv_l by lra.
      rewrite Rmult_1_r, Rmult_1_l. apply Gdec; lra.
    - intros x Hx. rewrite Hf; auto. split; [apply Rmax_l|]. apply Rmax_lub; [lra | auto].
    - intros x Hx. rewrite Hf; [|lra|apply K; lra].
      eapply Rle_trans; [apply newton_left; auto|]. apply Rmax_r.
  Qed.
End convex.

(* ------------------------------------------------------------------------ *)
(* The loop                                                                  *)
(* ------------------------------------------------------------------------ *)
Lemma max_abs_diff_ge : forall xs ys i x y,
  nth_error xs i = Some x -> nth_error ys i = Some y ->
  Rabs (x - y) <= max_abs_diff xs ys.
Proof.
  induction xs as [|a xs IH]; intros ys i x y Hx Hy; [destruct i; discriminate|].
  destruct ys as [|b ys]; [destruct i; discriminate|].
  destruct i as [|i]; cbn in *.
  - injection Hx as ->. injection Hy as ->. apply Rmax_l.
  - eapply Rle_trans; [eapply IH; eauto | apply Rmax_r].
Qed.

Lemma map2_nth {A B C : Type} (f : A -> B -> C) : forall l m i a b,
  nth_error l i = Some a -> nth_error m i = Some b ->
  nth_error (map2 f l m) i = Some (f a b).
Proof.
  induction l as [|a' l IH]; intros m i a b Ha Hb; [destruct i; discriminate|].
  destruct m as [|b' m]; [destruct i; discriminate|].
  destruct i as [|i]; cbn in *; [congruence | now apply IH].
Qed.

Section loop.
  Context {A : Type}.
  Variable f : A -> R -> R.
  Variable cs : list A.
  Variable tol : R.
  Variables (i : nat) (a : A) (lo hi r q : R).
  Hypothesis Ha : nth_error cs i = Some a.
  Hypothesis Hgood : good_step (f a) lo hi r q.

  (* x' is the result of an update that moved this row by less than tol *)
  Definition stopped (x' : R) : Prop :=
    exists x0, lo <= x0 <= hi /\ x' = f a x0 /\ Rabs (x' - x0) < tol.

  Lemma loop_left : forall fuel xs x,
    nth_error xs i = Some x -> lo <= x <= r ->
    exists x', nth_error (newton_loop (map2 f cs) tol fuel xs) i = Some x' /\
      x <= x' <= r /\ ((0 < fuel)%nat -> f a x <= x') /\
      (stopped x' \/ r - x' <= (1 - q) ^ fuel * (r - x)).
  Proof.
    destruct Hgood as (B & Q & P1 & P2).
    induction fuel as [|fuel IH]; intros xs x Hx R0; cbn [newton_loop].
    - exists x. split; auto. split; [lra|]. split; [lia|]. right. cbn. lra.
    - pose proof (map2_nth f cs xs i a x Ha Hx) as Hn.
      pose proof (P1 x ltac:(lra)) as L1. pose proof (P2 x R0) as L2.
      assert (x <= f a x) by nra.
      destruct (Rlt_dec _ tol) as [T|T].
      + exists (f a x). split; auto. split; [lra|]. split; [intros _; lra|]. left.
        exists x. split; [lra|]. split; auto.
        pose proof (max_abs_diff_ge _ _ _ _ _ Hn Hx) as M. lra.
      + destruct (IH _ _ Hn ltac:(lra)) as (x' & E & Rg & _ & O).
        exists x'. split; auto. split; [lra|]. split; [intros _; lra|].
        destruct O as [O|O]; [now left|]. right. cbn [pow].
        eapply Rle_trans; [exact O|].
        assert (0 <= (1 - q) ^ fuel) by (apply pow_le; lra).
        assert (r - f a x <= (1 - q) * (r - x)) by lra. nra.
  Qed.

  Lemma loop_any : forall fuel xs x,
    nth_error xs i = Some x -> lo <= x <= hi ->
    exists x', nth_error (newton_loop (map2 f cs) tol (S fuel) xs) i = Some x' /\
      lo <= x' <= r /\
      (stopped x' \/ r - x' <= (1 - q) ^ fuel * (r - lo)).
  Proof.
    destruct Hgood as (B & Q & P1 & P2).
    intros fuel xs x Hx R0. cbn [newton_loop].
    pose proof (map2_nth f cs xs i a x Ha Hx) as Hn. pose proof (P1 x R0) as L1.
    destruct (Rlt_dec _ tol) as [T|T].
    - exists (f a x). split; auto. split; [lra|]. left.
      pose proof (max_abs_diff_ge _ _ _ _ _ Hn Hx) as M.
      exists x. split; [lra|]. split; auto. lra.
    - destruct (loop_left fuel _ _ Hn L1) as (x' & E & Rg & _ & O).
      exists x'. split; auto. split; [lra|]. destruct O as [O|O]; [now left|]. right.
      eapply Rle_trans; [exact O|].
      assert (0 <= (1 - q) ^ fuel) by (apply pow_le; lra). nra.
  Qed.
End loop.

(* the value left at a stop is small *)
Section stop.
  Variables F G : R -> R.
  Variables lo hi r : R.
  Hypothesis Hr : lo <= r <= hi.
  Hypothesis dF : forall x, lo <= x <= hi -> derivable_pt_lim F x (- G x).
  Hypothesis Gpos : forall x, lo <= x <= hi -> 0 < G x.
  Hypothesis Gdec : forall x y, lo <= x -> x <= y -> y <= hi -> G y <= G x.
  Hypothesis root : F r = 0.

  Lemma F_decreasing x y : lo <= x -> x <= y -> y <= hi -> F y <= F x.
  Proof.
    intros A [B | ->] D; [|lra].
    destruct (MVT_cor2 F (fun t => - G t) x y B) as (c & E & Hc).
    { intros c Hc. apply dF. lra. }
    pose proof (Gpos c ltac:(lra)). nra.
  Qed.

  Lemma stop_small {A : Type} (f : A -> R -> R) a tol x' :
    (forall x, lo <= x <= hi -> x + F x / G x <= r -> f a x = Rmax lo (x + F x / G x)) ->
    lo <= x' <= r -> stopped f tol a lo hi x' -> F x' < tol * G lo.
  Proof.
    intros Hf Hx (x0 & H0 & -> & T).
    pose proof (Gpos lo ltac:(lra)) as Pl.
    destruct (Rle_dec x0 r) as [L|L].
    - pose proof (newton_left F G lo hi r Hr dF Gpos Gdec root x0 ltac:(lra)) as N.
      pose proof (residual_bounds F G lo hi r Hr dF Gdec root x0 ltac:(lra)) as RB.
      pose proof (Gpos x0 H0) as P0. pose proof (Gdec lo x0 ltac:(lra) ltac:(lra) ltac:(lra)) as D0.
      pose proof (Gpos r Hr) as Pr.
      assert (F0 : 0 <= F x0) by nra.
      assert (S0 : x0 <= x0 + F x0 / G x0).
      { unfold Rdiv. pose proof (Rinv_0_lt_compat _ P0). nra. }
      rewrite Hf in * by (auto; lra). rewrite Rmax_right in * by lra.
      replace (x0 + F x0 / G x0 - x0) with (F x0 / G x0) in T by ring.
      rewrite Rabs_right in T by (unfold Rdiv; pose proof (Rinv_0_lt_compat _ P0); nra).
      assert (F x0 < tol * G x0).
      { replace (F x0) with (F x0 / G x0 * G x0) by (field; lra). nra. }
      pose proof (F_decreasing x0 (x0 + F x0 / G x0) ltac:(lra) S0 ltac:(lra)).
      assert (0 < tol). { apply Rle_lt_trans with (F x0 / G x0); auto. lra. }
      nra.
    - rewrite Rabs_left in T by lra.
      pose proof (residual_bounds F G lo hi r Hr dF Gdec root (f a x0) Hx) as RB.
      assert (r - f a x0 < tol) by lra. nra.
  Qed.
End stop.

(* ------------------------------------------------------------------------ *)
(* Gumbel                                                                    *)
(* ------------------------------------------------------------------------ *)
Section gumbel.
  Variables theta p v : R.
  Hypothesis Ht : 1 < theta.
  Hypothesis Up : unit p.
  Hypothesis Uv : unit v.
  Let V := - ln v.
  Let P := - ln p.
  Let s := gumbel_target theta P V.
  Let F (x : R) := s - x - (theta - 1) * ln x.
  Let G (x : R) := 1 + (theta - 1) / x.

  Lemma gn_pos : 0 < V /\ 0 < P.
  Proof. unfold V, P. pose proof (ln_neg v Uv). pose proof (ln_neg p Up). lra. Qed.

  Lemma gn_dF x : V <= x -> derivable_pt_lim F x (- G x).
  Proof.
    intros L. pose proof gn_pos. unfold F, G. eapply d_eq.
    - apply d_minus; [apply d_minus; [apply d_const | apply d_id]|].
      apply d_mult; [apply d_const|]. apply (d_ln (fun t => t)); [apply d_id | lra].
    - cbn beta. field. lra.
  Qed.

  Lemma gn_G x : V <= x -> 1 <= G x.
  Proof.
    intros L. pose proof gn_pos. unfold G.
    assert (0 < (theta - 1) / x) by (apply Rdiv_lt_0_compat; lra). lra.
  Qed.

  Lemma gn_Gdec x y : V <= x -> x <= y -> G y <= G x.
  Proof.
    intros L L'. pose proof gn_pos. unfold G, Rdiv.
    assert (/ y <= / x) by (apply Rinv_le_contravar; lra). nra.
  Qed.

  Lemma gn_FV : F V = P.
  Proof. unfold F, s, gumbel_target. ring. Qed.

  Lemma gn_root : exists r, V < r <= V + P /\ F r = 0.
  Proof.
    pose proof gn_pos as (PV & PP).
    destruct (IVT_interv (fun x => - F x) V (V + P)) as (r & Hr & E).
    - intros a Ha. apply continuity_pt_opp. apply derivable_continuous_pt.
      exists (- G a). apply gn_dF. lra.
    - lra.
    - rewrite gn_FV. lra.
    - unfold F, s, gumbel_target. pose proof (ln_increasing V (V + P) ltac:(lra) ltac:(lra)). nra.
    - exists r. split; [|lra]. split; [|lra]. destruct (Req_dec r V) as [->|N]; [|lra].
      rewrite gn_FV in E. lra.
  Qed.

  Lemma gn_step r x : V < r -> F r = 0 -> V <= x <= r -> x + F x / G x <= r ->
    gumbel_step theta s x = Rmax V (x + F x / G x).
  Proof.
    intros Hr E Hx L. pose proof gn_pos. pose proof (gn_G x ltac:(lra)).
    unfold gumbel_step.
    replace (x * (s - (theta - 1) * (ln x - 1)) / (theta + x - 1)) with (x + F x / G x).
    2:{ unfold F, G. field. split; lra. }
    assert (0 <= F x).
    { rewrite <- E. apply (F_decreasing F G V r); try lra.
      - intros; apply gn_dF; lra.
      - intros y Hy. pose proof (gn_G y ltac:(lra)). lra. }
    assert (x <= x + F x / G x).
    { unfold Rdiv. assert (0 < / G x) by (apply Rinv_0_lt_compat; lra). nra. }
    rewrite Rmax_left, Rmax_right; lra.
  Qed.

  (* the h-function at the point that the last line computes from x *)
  Lemma gn_h x : V < x ->
    unit (gumbel_finish theta V x) /\
    gumbel_h theta (gumbel_finish theta V x) v = p * exp (F x).
  Proof.
    intros L. pose proof gn_pos as (PV & PP). unfold gumbel_finish.
    assert (D : 0 < Rpower x theta - Rpower V theta).
    { pose proof (pw_incr V x theta). lra. }
    set (d := Rpower x theta - Rpower V theta) in *.
    pose proof (pw_pos d (1 / theta)) as Pd.
    assert (U : unit (exp (- Rpower d (1 / theta)))).
    { split; [apply exp_pos | apply exp_lt1; lra]. }
    split; auto. unfold gumbel_h. rewrite ln_exp. fold V.
    rewrite Ropp_involutive.
    replace (Rpower (Rpower d (1 / theta)) theta) with d.
    2:{ symmetry. apply pw_inv; auto. field. lra. }
    replace (d + Rpower V theta) with (Rpower x theta) by (unfold d; ring).
    rewrite pw_inv; [|lra | field; lra].
    replace (Rpower (Rpower d (1 / theta) / V) theta + 1) with (Rpower (x / V) theta).
    2:{ unfold Rdiv at 1 2. assert (0 < / V) by (apply Rinv_0_lt_compat; lra).
        rewrite !pw_mul by (auto; lra). rewrite (pw_inv d (1 / theta) theta); auto; [|field; lra].
        replace (Rpower (/ V) theta) with (Rpower V (- theta)).
        - pose proof (pw_opp V theta). unfold d. nra.
        - unfold Rpower. rewrite ln_Rinv by lra. f_equal. ring. }
    rewrite pw_pw. unfold Rpower, Rdiv.
    replace (/ v) with (exp V).
    2:{ unfold V. rewrite <- ln_Rinv by apply Uv. apply exp_ln, Rinv_0_lt_compat, Uv. }
    rewrite <- !exp_plus.
    replace p with (exp (- P)) at 1.
    2:{ unfold P. rewrite Ropp_involutive. apply exp_ln, Up. }
    rewrite <- exp_plus. f_equal. unfold F, s, gumbel_target, Rdiv.
    rewrite ln_mult, ln_Rinv; [|lra ..|apply Rinv_0_lt_compat; lra]. field. lra.
  Qed.
End gumbel.

(* the geometric rate of the iteration for a conditioning value v *)
Definition gumbel_rate (theta v : R) : R := (theta - 1) / (theta - 1 - ln v).
Definition gumbel_slope (theta v : R) : R := 1 + (theta - 1) / - ln v.

Theorem C47_gumbel_solution : forall theta p v,
  1 < theta -> unit p -> unit v ->
  exists u, unit u /\ gumbel_h theta u v = p /\
            forall u', unit u' -> gumbel_h theta u' v = p -> u' = u.
Proof.
  intros theta p v Ht Up Uv. destruct (gn_root theta p v Ht Up Uv) as (r & Hr & E).
  destruct (gn_h theta p v Ht Up Uv r (proj1 Hr)) as (U & H).
  eexists. split; [exact U|]. rewrite H, E, exp_0, Rmult_1_r. split; auto.
  intros u' U' E'. destruct (C46_gumbel theta Ht) as (_ & _ & _ & (_ & M) & _).
  rewrite E, exp_0, Rmult_1_r in H.
  destruct (Rtotal_order u' (gumbel_finish theta (- ln v) r)) as [L | [L | L]]; auto;
    [pose proof (M _ _ v U' U Uv L) | pose proof (M _ _ v U U' Uv L)]; lra.
Qed.

(* C47 for Gumbel: whatever the other rows are, each row (p, v) of the array
   gives a value u in (0, 1) whose conditional probability is at least p and
   at most p exp(B), where B shrinks with the tolerance and with the number of
   updates. *)
Theorem C47_gumbel : forall theta tol n X i p v,
  1 < theta -> nth_error X i = Some (p, v) -> unit p -> unit v ->
  exists u,
    nth_error (gumbel_inverse tol (S n) theta X) i = Some u /\ unit u /\
    p <= gumbel_h theta u v /\
    gumbel_h theta u v <=
      p * exp (Rmax (tol * gumbel_slope theta v)
                    (gumbel_slope theta v * gumbel_rate theta v ^ (S n) * - ln p)).
Proof.
  intros theta tol n X i p v Ht HX Up Uv.
  pose proof (gn_pos p v Up Uv) as (PV & PP).
  destruct (gn_root theta p v Ht Up Uv) as (r & Hr & E).
  set (s := gumbel_target theta (- ln p) (- ln v)) in *.
  set (F := fun x => s - x - (theta - 1) * ln x).
  set (G := fun x : R => 1 + (theta - 1) / x).
  assert (dF : forall x, - ln v <= x <= r -> derivable_pt_lim F x (- G x)).
  { intros x Hx. apply (gn_dF theta p v Up Uv x). lra. }
  assert (Gp : forall x, - ln v <= x <= r -> 0 < G x).
  { intros x Hx. pose proof (gn_G theta p v Ht Up Uv x ltac:(lra)). unfold G. lra. }
  assert (Gd : forall x y, - ln v <= x -> x <= y -> y <= r -> G y <= G x).
  { intros x y L1 L2 _. apply (gn_Gdec theta p v Ht Up Uv x y L1 L2). }
  assert (Hf : forall x, - ln v <= x <= r -> x + F x / G x <= r ->
               gumbel_step theta s x = Rmax (- ln v) (x + F x / G x)).
  { intros x Hx L. apply (gn_step theta p v Ht Up Uv r x); auto; lra. }
  assert (Good : good_step (gumbel_step theta s) (- ln v) r r (G r / G (- ln v))).
  { apply (convex_good F G); auto; lra. }
  unfold gumbel_inverse.
  set (Z := map (fun pv => (- ln (fst pv), - ln (snd pv))) X).
  assert (HZ : nth_error Z i = Some (- ln p, - ln v)).
  { unfold Z. now rewrite (map_nth_error _ _ _ HX). }
  assert (Hs : nth_error (map (fun z => gumbel_target theta (fst z) (snd z)) Z) i = Some s).
  { now rewrite (map_nth_error _ _ _ HZ). }
  assert (Hv : nth_error (map snd Z) i = Some (- ln v)).
  { now rewrite (map_nth_error _ _ _ HZ). }
  destruct (loop_left (gumbel_step theta) _ tol i s _ _ _ _ Hs Good (S n) _ _ Hv ltac:(lra))
    as (x' & Hx' & Rg & First & O).
  assert (Hgt : - ln v < x').
  { specialize (First ltac:(lia)). destruct Good as (_ & Q & _ & P2).
    pose proof (P2 (- ln v) ltac:(lra)). nra. }
  exists (gumbel_finish theta (- ln v) x').
  split; [now apply map2_nth|].
  destruct (gn_h theta p v Ht Up Uv x' Hgt) as (U & H). split; auto. rewrite H. fold s.
  change (s - x' - (theta - 1) * ln x') with (F x').
  pose proof (residual_bounds F G (- ln v) r r ltac:(lra) dF Gd E x' ltac:(lra)) as RB.
  pose proof (Gp r ltac:(lra)) as Gr.
  assert (F0 : 0 <= F x') by nra.
  assert (GV : G (- ln v) = gumbel_slope theta v) by reflexivity.
  split.
  - assert (1 <= exp (F x')); [|unfold unit in Up; nra].
    rewrite <- exp_0. destruct F0 as [F0 | F0]; [left; now apply exp_increasing | rewrite <- F0; lra].
  - assert (F1 : F x' <= Rmax (tol * gumbel_slope theta v)
                    (gumbel_slope theta v * gumbel_rate theta v ^ (S n) * - ln p)).
    { destruct O as [O|O].
      - eapply Rle_trans; [|apply Rmax_l]. left. rewrite <- GV.
        apply (stop_small F G (- ln v) r r ltac:(lra) dF Gp Gd E (gumbel_step theta) s tol x' Hf); auto; lra.
      - eapply Rle_trans; [|apply Rmax_r]. rewrite <- GV.
        pose proof (Gp (- ln v) ltac:(lra)) as Gl.
        apply Rle_trans with (G (- ln v) * ((1 - G r / G (- ln v)) ^ S n * (r - - ln v))); [nra|].
        rewrite Rmult_assoc. apply Rmult_le_compat_l; [lra|].
        assert (K : 0 <= 1 - G r / G (- ln v) <= gumbel_rate theta v).
        { split.
          - destruct Good as (_ & Q & _). lra.
          - replace (gumbel_rate theta v) with (1 - 1 / G (- ln v)).
            + unfold Rdiv. assert (0 < / G (- ln v)) by (now apply Rinv_0_lt_compat).
              pose proof (gn_G theta p v Ht Up Uv r ltac:(lra)). fold (G r) in *.
              assert (1 <= G r) by auto. nra.
            + unfold gumbel_rate, G. field. lra. }
        apply Rmult_le_compat; [apply pow_le; lra | lra | apply pow_incr; lra | lra]. }
    apply Rmult_le_compat_l; [unfold unit in Up; lra|].
    destruct F1 as [F1 | ->]; [left; now apply exp_increasing | lra].
Qed.

(* with enough updates and a small enough tolerance the value is as close to
   the exact inverse as wanted *)
Theorem C47_gumbel_converges : forall theta p v eps,
  1 < theta -> unit p -> unit v -> 0 < eps ->
  exists N tol0, 0 < tol0 /\
    forall X i n tol, nth_error X i = Some (p, v) -> (N <= n)%nat -> tol <= tol0 ->
    exists u, nth_error (gumbel_inverse tol (S n) theta X) i = Some u /\ unit u /\
              p <= gumbel_h theta u v < p + eps.
Proof.
  intros theta p v eps Ht Up Uv He.
  pose proof (gn_pos p v Up Uv) as (PV & PP).
  assert (Sl : 0 < gumbel_slope theta v).
  { unfold gumbel_slope. assert (0 < (theta - 1) / - ln v) by (apply Rdiv_lt_0_compat; lra). lra. }
  assert (Ra : 0 < gumbel_rate theta v < 1).
  { unfold gumbel_rate. split; [apply Rdiv_lt_0_compat; lra|].
    apply (Rmult_lt_reg_r (theta - 1 - ln v)); [lra|].
    unfold Rdiv. rewrite Rmult_assoc, Rinv_l by lra. lra. }
  (* exp B < 1 + eps for B < b *)
  set (b := ln (1 + eps)).
  assert (Hb : 0 < b) by (apply ln_pos1; lra).
  destruct (pow_lt_1_zero (gumbel_rate theta v) ltac:(rewrite Rabs_right; lra)
              (b / (gumbel_slope theta v * - ln p))) as (N & HN).
  { apply Rdiv_lt_0_compat; nra. }
  exists N, (b / gumbel_slope theta v / 2).
  assert (Q : 0 < b / gumbel_slope theta v) by (now apply Rdiv_lt_0_compat).
  split; [lra|].
  intros X i n tol HX Hn Htol.
  destruct (C47_gumbel theta tol n X i p v Ht HX Up Uv) as (u & E & U & L & B).
  exists u. split; auto. split; auto. split; auto.
  eapply Rle_lt_trans; [exact B|].
  assert (M : exp (Rmax (tol * gumbel_slope theta v)
       (gumbel_slope theta v * gumbel_rate theta v ^ S n * - ln p)) < 1 + eps).
  { replace (1 + eps) with (exp b) by (apply exp_ln; lra). apply exp_increasing.
    apply Rmax_lub_lt.
    - apply Rle_lt_trans with (b / gumbel_slope theta v / 2 * gumbel_slope theta v); [nra|].
      replace (b / gumbel_slope theta v / 2 * gumbel_slope theta v) with (b / 2) by (field; lra). lra.
    - specialize (HN (S n) ltac:(lia)).
      rewrite Rabs_right in HN by (apply Rle_ge, pow_le; lra).
      set (w := gumbel_rate theta v ^ S n) in *.
      replace (gumbel_slope theta v * w * - ln p) with (w * (gumbel_slope theta v * - ln p)) by ring.
      apply Rlt_le_trans with (b / (gumbel_slope theta v * - ln p) * (gumbel_slope theta v * - ln p)).
      + apply Rmult_lt_compat_r; nra.
      + right. field. nra. }
  unfold unit in Up. nra.
Qed.

(* ------------------------------------------------------------------------ *)
(* Joe                                                                       *)
(* ------------------------------------------------------------------------ *)
Section joe.
  Variables theta p y : R.
  Hypothesis Ht : 1 < theta.
  Hypothesis Up : unit p.
  Hypothesis Uy : unit y.
  Let D (x : R) := 1 + x / y - x.
  Let H (x : R) := Rpower (D x) (1 / theta - 1) * (1 - x).
  Let F (x : R) := H x - p.
  Let G (x : R) := Rpower (D x) (1 / theta - 1) / theta
                   + (1 - 1 / theta) / y * Rpower (D x) (1 / theta - 2).

  Lemma jn_y : 1 < / y.
  Proof. rewrite <- Rinv_1. unfold unit in Uy. apply Rinv_lt_contravar; lra. Qed.

  Lemma jn_D x : 0 <= x -> 1 <= D x.
  Proof. intros Hx. pose proof jn_y. unfold D, Rdiv. nra. Qed.

  Lemma jn_th : 0 < 1 / theta < 1.
  Proof. now apply jo_inv. Qed.

  Lemma jn_dF x : 0 <= x -> derivable_pt_lim F x (- G x).
  Proof.
    intros Hx. pose proof (jn_D x Hx). unfold F, H. eapply d_eq.
    - apply d_minus; [|apply d_const]. apply d_mult; [|apply d_one_minus].
      apply (d_pow D); [|lra]. unfold D. apply d_minus; [|apply d_id].
      apply d_plus; [apply d_const|]. unfold Rdiv. apply d_mult; [apply d_id | apply d_const].
    - cbn beta. replace (1 / theta - 1 - 1) with (1 / theta - 2) by ring. unfold G.
      replace (Rpower (D x) (1 / theta - 1)) with (Rpower (D x) (1 / theta - 2) * D x).
      2:{ rewrite <- (Rpower_1 (D x)) at 2 by lra. rewrite <- Rpower_plus. f_equal. ring. }
      set (A := Rpower (D x) (1 / theta - 2)). unfold D. field. unfold unit in Uy. lra.
  Qed.

  Lemma jn_Gpos x : 0 < G x.
  Proof.
    unfold G. pose proof (pw_pos (D x) (1 / theta - 1)). pose proof (pw_pos (D x) (1 / theta - 2)).
    pose proof jn_th. pose proof jn_y.
    assert (0 < Rpower (D x) (1 / theta - 1) / theta) by (apply Rdiv_lt_0_compat; lra).
    assert (0 < (1 - 1 / theta) / y) by (apply Rdiv_lt_0_compat; unfold unit in Uy; lra). nra.
  Qed.

  Lemma pw_decr_le x x' a : a < 0 -> 0 < x <= x' -> Rpower x' a <= Rpower x a.
  Proof.
    intros A [B [L | ->]]; [|lra]. left. apply pw_decr; auto.
  Qed.

  Lemma jn_Gdec x x' : 0 <= x -> x <= x' -> G x' <= G x.
  Proof.
    intros A B. pose proof jn_th. pose proof jn_y. pose proof (jn_D x A).
    assert (L : D x <= D x') by (unfold D, Rdiv; nra).
    pose proof (pw_decr_le (D x) (D x') (1 / theta - 1) ltac:(lra) ltac:(lra)).
    pose proof (pw_decr_le (D x) (D x') (1 / theta - 2) ltac:(lra) ltac:(lra)).
    assert (0 < (1 - 1 / theta) / y) by (apply Rdiv_lt_0_compat; unfold unit in Uy; lra).
    unfold G. assert (0 < / theta) by (apply Rinv_0_lt_compat; lra). unfold Rdiv in *. nra.
  Qed.

  Lemma jn_root : exists r, 0 < r < 1 /\ F r = 0.
  Proof.
    destruct (IVT_interv (fun x => - F x) 0 1) as (r & Hr & E).
    - intros a Ha. apply continuity_pt_opp. apply derivable_continuous_pt.
      exists (- G a). apply jn_dF. lra.
    - lra.
    - unfold F, H, D. replace (1 + 0 / y - 0) with 1 by (field; unfold unit in Uy; lra).
      rewrite pw_one. unfold unit in Up. lra.
    - unfold F, H. unfold unit in Up. lra.
    - exists r. split; [|lra]. destruct (Req_dec r 0) as [->|N0]; [exfalso|].
      + unfold F, H, D in E. replace (1 + 0 / y - 0) with 1 in E by (field; unfold unit in Uy; lra).
        rewrite pw_one in E. unfold unit in Up. lra.
      + destruct (Req_dec r 1) as [->|N1]; [exfalso|lra].
        unfold F, H in E. unfold unit in Up. lra.
  Qed.

  Lemma jn_step r x : 0 < r < 1 -> 0 <= x <= 1 -> x + F x / G x <= r ->
    joe_step theta p y x = Rmax 0 (x + F x / G x).
  Proof.
    intros Hr Hx L. unfold joe_step, clip.
    replace ((1 / y - 1) * x + 1) with (D x) by (unfold D; field; unfold unit in Uy; lra).
    pose proof (jn_D x ltac:(lra)) as HD. pose proof (jn_Gpos x) as PG.
    pose proof (pw_pos (D x) (1 / theta)) as Pw.
    assert (E1 : Rpower (D x) (1 / theta - 1) = Rpower (D x) (1 / theta) / D x).
    { apply (Rmult_eq_reg_r (D x)); [|lra]. rewrite <- (Rpower_1 (D x)) at 2 by lra.
      rewrite <- Rpower_plus. replace (1 / theta - 1 + 1) with (1 / theta) by ring. field. lra. }
    assert (E2 : Rpower (D x) (1 / theta - 2) = Rpower (D x) (1 / theta) / (D x * D x)).
    { apply (Rmult_eq_reg_r (D x)); [|lra]. rewrite <- (Rpower_1 (D x)) at 2 by lra.
      rewrite <- Rpower_plus. replace (1 / theta - 2 + 1) with (1 / theta - 1) by ring.
      rewrite E1. field. lra. }
    replace (x - theta * ((x - 1) * y - x) *
             (p * (- ((x - 1) * y) + x) + (x - 1) * y * Rpower (D x) (1 / theta)) /
             ((y - 1) * ((x - 1) * y) - theta * y) / Rpower (D x) (1 / theta))
      with (x + F x / G x).
    { rewrite Rmin_right; auto. apply Rmax_lub; lra. }
    unfold F, H, G in *. rewrite E1, E2 in *.
    set (w := Rpower (D x) (1 / theta)) in *. clearbody w.
    assert (Ey : D x * y = y + x - x * y) by (unfold D; field; unfold unit in Uy; lra).
    assert (N1 : y * ((y - 1) * (x - 1) - theta) <> 0).
    { unfold unit in Uy. apply Rmult_integral_contrapositive_currified; [lra|]. nra. }
    assert (N2 : D x * y + (theta - 1) <> 0) by (rewrite Ey; unfold unit in Uy; nra).
    assert (HG : w / D x / theta + (1 - 1 / theta) / y * (w / (D x * D x))
                 = w * (D x * y + (theta - 1)) / (theta * y * (D x * D x))).
    { field. unfold unit in Uy. lra. }
    rewrite HG.
    replace ((w / D x * (1 - x) - p) / (w * (D x * y + (theta - 1)) / (theta * y * (D x * D x))))
      with ((w * (1 - x) - p * D x) * (theta * y * D x) / (w * (D x * y + (theta - 1)))).
    2:{ field. unfold unit in Uy. repeat split; lra. }
    replace (D x * y + (theta - 1)) with (- ((y - 1) * (x - 1) - theta)) by (rewrite Ey; ring).
    replace (theta * y * D x) with (theta * (D x * y)) by ring. rewrite Ey.
    assert (HD2 : D x = (y + x - x * y) / y).
    { apply (Rmult_eq_reg_r y); [|unfold unit in Uy; lra]. rewrite Ey. field. unfold unit in Uy; lra. }
    rewrite HD2. field.
    assert ((y - 1) * (x - 1) - theta <> 0) by (intros Z; apply N1; rewrite Z; ring).
    unfold unit in Uy. repeat split; try lra.
  Qed.
End joe.

Definition joe_bound (theta tol : R) (n : nat) (v : R) : R :=
  Rmax tol ((1 - Rpower (1 - v) (2 * theta - 1)) ^ n) / Rpower (1 - v) theta.

Lemma joe_h_of_x theta x v : 1 < theta -> 0 < x ->
  joe_h theta (1 - Rpower x (1 / theta)) v
  = Rpower (1 + x / Rpower (1 - v) theta - x) (1 / theta - 1) * (1 - x).
Proof.
  intros Ht Hx. unfold joe_h.
  replace (1 - (1 - Rpower x (1 / theta))) with (Rpower x (1 / theta)) by ring.
  rewrite (pw_inv x (1 / theta) theta); [reflexivity | auto | field; lra].
Qed.

Lemma joe_start_unit theta p v : 1 < theta -> unit p -> unit v ->
  unit (joe_start theta p v).
Proof.
  intros Ht Up Uv. unfold joe_start. pose proof (jo_inv theta Ht).
  apply pw_big_neg.
  - pose proof (pw_unit_neg (1 - p) (1 / theta - 1) (unit_1m p Up) ltac:(lra)).
    pose proof (pw_pos (1 - v) theta).
    assert (0 < (1 - v) * (Rpower (1 - p) (1 / theta - 1) - 1) / Rpower (1 - v) theta); [|lra].
    apply Rdiv_lt_0_compat; auto. unfold unit in Uv. nra.
  - replace (theta / (1 - theta)) with (- (theta / (theta - 1))) by (field; lra).
    assert (0 < theta / (theta - 1)) by (apply Rdiv_lt_0_compat; lra). lra.
Qed.

Theorem C47_joe_solution : forall theta p v,
  1 < theta -> unit p -> unit v ->
  exists u, unit u /\ joe_h theta u v = p /\
            forall u', unit u' -> joe_h theta u' v = p -> u' = u.
Proof.
  intros theta p v Ht Up Uv. pose proof (jo_inv theta Ht).
  assert (Uy : unit (Rpower (1 - v) theta)) by (apply pw_unit; [now apply unit_1m | lra]).
  destruct (jn_root theta p _ Ht Up Uy) as (r & Hr & E).
  assert (U : unit (1 - Rpower r (1 / theta))) by (apply unit_1m, pw_unit; auto; lra).
  assert (Q : joe_h theta (1 - Rpower r (1 / theta)) v = p) by (rewrite joe_h_of_x; lra).
  eexists. split; [exact U|]. split; [exact Q|].
  intros u' U' E'. destruct (C46_joe theta Ht) as (_ & _ & _ & (_ & M) & _).
  destruct (Rtotal_order u' (1 - Rpower r (1 / theta))) as [L | [L | L]]; auto;
    [pose proof (M _ _ v U' U Uv L) | pose proof (M _ _ v U U' Uv L)]; lra.
Qed.

(* C47 for Joe: the iteration may start on either side of the solution; each
   row (p, v) gives a value u in (0, 1] whose conditional probability is
   within the bound above p (u = 1 stands for probability 1). *)
Theorem C47_joe : forall theta tol n X i p v,
  1 < theta -> nth_error X i = Some (p, v) -> unit p -> unit v ->
  exists u,
    nth_error (joe_inverse tol (S n) theta X) i = Some u /\
    ((u = 1 /\ 1 <= p + joe_bound theta tol n v) \/
     (unit u /\ p <= joe_h theta u v <= p + joe_bound theta tol n v)).
Proof.
  intros theta tol n X i p v Ht HX Up Uv. pose proof (jo_inv theta Ht) as Hi.
  set (y := Rpower (1 - v) theta).
  assert (Uy : unit y) by (apply pw_unit; [now apply unit_1m | lra]).
  destruct (jn_root theta p _ Ht Up Uy) as (r & Hr & E).
  set (F := fun x => Rpower (1 + x / y - x) (1 / theta - 1) * (1 - x) - p).
  set (G := fun x : R => Rpower (1 + x / y - x) (1 / theta - 1) / theta
                   + (1 - 1 / theta) / y * Rpower (1 + x / y - x) (1 / theta - 2)).
  assert (dF : forall x, 0 <= x <= 1 -> derivable_pt_lim F x (- G x)).
  { intros x Hx. apply (jn_dF theta p y Ht Uy x). lra. }
  assert (Gp : forall x, 0 <= x <= 1 -> 0 < G x).
  { intros x Hx. apply (jn_Gpos theta y Ht Uy x). }
  assert (Gd : forall x x', 0 <= x -> x <= x' -> x' <= 1 -> G x' <= G x).
  { intros x x' L1 L2 _. apply (jn_Gdec theta y Ht Uy x x' L1 L2). }
  assert (Hf : forall x, 0 <= x <= 1 -> x + F x / G x <= r ->
               joe_step theta p y x = Rmax 0 (x + F x / G x)).
  { intros x Hx L. apply (jn_step theta p y Ht Uy r x); auto; lra. }
  assert (Good : good_step (joe_step theta p y) 0 1 r (G r / G 0)).
  { apply (convex_good F G); auto; lra. }
  assert (E' : F r = 0) by exact E.
  unfold joe_inverse.
  set (pys := map (fun pv => (fst pv, Rpower (1 - snd pv) theta)) X).
  assert (Hp : nth_error pys i = Some (p, y)).
  { unfold pys. now rewrite (map_nth_error _ _ _ HX). }
  assert (H0 : nth_error (map (fun pv => joe_start theta (fst pv) (snd pv)) X) i
               = Some (joe_start theta p v)).
  { now rewrite (map_nth_error _ _ _ HX). }
  pose proof (joe_start_unit theta p v Ht Up Uv) as Us.
  destruct (loop_any (fun py => joe_step theta (fst py) (snd py)) pys tol i (p, y) 0 1 r
              (G r / G 0) Hp Good n _ _ H0 ltac:(unfold unit in Us; lra))
    as (x' & Hx' & Rg & O).
  exists (1 - npow x' (1 / theta)).
  split; [now rewrite (map_nth_error _ _ _ Hx')|].
  pose proof (residual_bounds F G 0 1 r ltac:(lra) dF Gd E' x' ltac:(lra)) as RB.
  pose proof (Gp r ltac:(lra)) as Gr. pose proof (Gp 0 ltac:(lra)) as G0.
  assert (F0 : 0 <= F x') by nra.
  (* the slope at 0 is at most 1 / y *)
  assert (S0 : G 0 <= / y).
  { unfold G. replace (1 + 0 / y - 0) with 1 by (field; unfold unit in Uy; lra).
    rewrite !pw_one. assert (1 < / y) by (apply (jn_y y Uy)).
    unfold Rdiv. unfold Rdiv in Hi. nra. }
  assert (S1 : Rpower (1 - v) (2 * theta - 1) <= G r / G 0).
  { assert (L1 : G 1 <= G r) by (apply Gd; lra).
    assert (E1 : G 1 = Rpower y (1 - 1 / theta)).
    { unfold G. replace (1 + 1 / y - 1) with (/ y) by (field; unfold unit in Uy; lra).
      assert (I : forall a, Rpower (/ y) a = Rpower y (- a)).
      { intros a. unfold Rpower. rewrite ln_Rinv by apply Uy. f_equal. ring. }
      rewrite !I. replace (- (1 / theta - 1)) with (1 - 1 / theta) by ring.
      replace (- (1 / theta - 2)) with (1 - 1 / theta + 1) by ring.
      rewrite Rpower_plus, (Rpower_1 y) by apply Uy. field. unfold unit in Uy. lra. }
    apply Rle_trans with (G r * y).
    - apply Rle_trans with (Rpower y (1 - 1 / theta) * y); [|rewrite <- E1; unfold unit in Uy; nra].
      right. unfold y. rewrite pw_pw, <- Rpower_plus. f_equal. field. lra.
    - unfold Rdiv. apply Rmult_le_compat_l; [lra|].
      rewrite <- (Rinv_inv y). apply Rinv_le_contravar; auto. }
  assert (B : F x' <= joe_bound theta tol n v).
  { unfold joe_bound. fold y. assert (Py : 0 < / y) by (apply Rinv_0_lt_compat, Uy).
    destruct O as [O|O].
    - pose proof (stop_small F G 0 1 r ltac:(lra) dF Gp Gd E'
                    (fun py => joe_step theta (fst py) (snd py)) (p, y) tol x' Hf ltac:(lra) O) as L.
      assert (0 < tol) by nra.
      pose proof (Rmax_l tol ((1 - Rpower (1 - v) (2 * theta - 1)) ^ n)).
      unfold Rdiv. nra.
    - pose proof (Rmax_r tol ((1 - Rpower (1 - v) (2 * theta - 1)) ^ n)) as M.
      assert (Q : 0 <= 1 - G r / G 0) by (destruct Good as (_ & Q & _); lra).
      assert (PI : (1 - G r / G 0) ^ n <= (1 - Rpower (1 - v) (2 * theta - 1)) ^ n)
        by (apply pow_incr; lra).
      assert (PQ : 0 <= (1 - G r / G 0) ^ n) by (now apply pow_le).
      assert (r - x' <= (1 - Rpower (1 - v) (2 * theta - 1)) ^ n) by nra.
      unfold Rdiv. nra. }
  unfold npow. destruct (Req_EM_T x' 0) as [->|N].
  - left. split; [ring|]. assert (F 0 = 1 - p); [|lra].
    unfold F. replace (1 + 0 / y - 0) with 1 by (field; unfold unit in Uy; lra).
    rewrite pw_one. ring.
  - right. split; [apply unit_1m, pw_unit; unfold unit; lra|].
    rewrite joe_h_of_x by lra. fold y. fold (F x').
    replace (Rpower (1 + x' / y - x') (1 / theta - 1) * (1 - x')) with (F x' + p)
      by (unfold F; ring). lra.
Qed.

(* the two inverses with the constants of the code, on the domain where the
   validated data lie *)
Theorem C47_code : forall theta X i p v,
  1 < theta -> nth_error X i = Some (p, v) -> unit p -> unit v ->
  (exists u, nth_error (gumbel_hinv theta X) i = Some u /\ unit u /\
     p <= gumbel_h theta u v <=
     p * exp (Rmax (newton_tol * gumbel_slope theta v)
                   (gumbel_slope theta v * gumbel_rate theta v ^ 50 * - ln p))) /\
  (exists u, nth_error (joe_hinv theta X) i = Some u /\ 0 < u <= 1 /\
     (unit u -> p <= joe_h theta u v <= p + joe_bound theta newton_tol 49 v)).
Proof.
  intros theta X i p v Ht HX Up Uv. split.
  - destruct (C47_gumbel theta newton_tol 49 X i p v Ht HX Up Uv) as (u & A & B & D & E).
    exists u. auto.
  - destruct (C47_joe theta newton_tol 49 X i p v Ht HX Up Uv) as (u & A & B).
    exists u. split; [exact A|]. destruct B as [(-> & B)|(U & B)].
    + split; [lra|]. unfold unit. lra.
    + split; [unfold unit in U; lra | auto].
Qed.

(* a concrete case: theta = 2, p = 1/2, v = 1/2 *)
Example C47_example :
  exists u, nth_error (gumbel_hinv 2 [(/ 2, / 2)]) 0 = Some u /\ unit u /\
            / 2 <= gumbel_h 2 u (/ 2).
Proof.
  destruct (C47_code 2 [(/ 2, / 2)] 0 (/ 2) (/ 2)) as ((u & A & B & D & _) & _);
    try (unfold unit; lra); [reflexivity|]. exists u. auto.
Qed.

Print Assumptions C47_gumbel_solution.
Print Assumptions C47_gumbel.
Print Assumptions C47_gumbel_converges.
Print Assumptions C47_joe_solution.
Print Assumptions C47_joe.
Print Assumptions C47_code.
