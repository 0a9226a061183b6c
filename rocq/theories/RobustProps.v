(** C65: the distributionally robust CVaR portfolio minimises the worst mean-CVaR over the Wasserstein ball. *)
From Coq Require Import List Arith Bool Reals Lia Lra FunctionalExtensionality.
From Verif Require Import RList EquationsModel EquationsSpec EquationsProps ConvexModel ConvexProps ConvexMoreProps MeanRiskProps FarkasProps RobustModel.
Import ListNotations.
Local Open Scope R_scope.

(** * Specification *)
(** A probability law of the vector of the returns of n assets, none of which can lose more than everything: an expectation E on
    a class I of integrable functions, with the returns themselves, their linear combinations and their absolute values. *)
Record law (n : nat) (I : (vec -> R) -> Prop) (E : (vec -> R) -> R) : Prop := {
  law_const : forall c, I (fun _ => c);
  law_return : forall j, (j < n)%nat -> I (fun x => x j);
  law_comb : forall a b f g, I f -> I g -> I (fun x => a * f x + b * g x);
  law_abs : forall f, I f -> I (fun x => Rabs (f x));
  law_linear : forall a b f g, I f -> I g -> E (fun x => a * f x + b * g x) = a * E f + b * E g;
  law_one : E (fun _ => 1) = 1;
  law_monotone : forall f g, I f -> I g -> (forall x, (forall j, (j < n)%nat -> -1 <= x j) -> f x <= g x) -> E f <= E g }.
Section Spec.
  Variable to_float : str -> option R.
  Variable q : robust.
  Let n := r_assets q.
  Let T := r_obs q.
  (** A law within the radius of the uniform law on the observed returns: each observation i keeps its probability 1/T and is
      replaced by a random vector with law E i; the distance moved is on average at most the radius (Wasserstein distance of
      order one for the l1 norm). *)
  Definition expect (E : nat -> (vec -> R) -> R) (f : vec -> R) : R := sum_over (seq 0 T) (fun i => E i f) / INR T.
  Definition in_ball (E : nat -> (vec -> R) -> R) : Prop :=
    exists I : nat -> (vec -> R) -> Prop, (forall i, (i < T)%nat -> law n (I i) (E i))
    /\ sum_over (seq 0 T) (fun i => E i (fun x => sum_over (seq 0 n) (fun j => Rabs (x j - r_returns q i j)))) / INR T <= r_radius q.
  Definition portfolio (w : vec) (x : vec) : R := sum_over (seq 0 n) (fun j => w j * x j).
  (** expected loss plus the risk aversion times the CVaR, the least over t of t + E max(loss - t, 0) / (1 - beta) *)
  Definition mean_cvar_at (E : nat -> (vec -> R) -> R) (w : vec) (t : R) : R :=
    expect E (fun x => - portfolio w x) + r_aversion q * (t + expect E (fun x => Rmax (- portfolio w x - t) 0) / (1 - r_beta q)).
  Definition mean_cvar (E : nat -> (vec -> R) -> R) (w : vec) (r : R) : Prop :=
    (forall t, r <= mean_cvar_at E w t) /\ forall r', (forall t, r' <= mean_cvar_at E w t) -> r' <= r.
  Definition robust_allowed (cs : list constr) (x : vec) : Prop := documented to_float n (robust_params q) (r_names q) cs x.
  Definition valid : Prop :=
    (0 < T)%nat /\ 0 < r_beta q < 1 /\ 0 < r_aversion q /\ 0 < r_scale q /\ 0 < r_scale_objective q
    /\ forall i j, (i < T)%nat -> (j < n)%nat -> -1 <= r_returns q i j.
  (** the value of the problem, before it is scaled *)
  Definition robust_value (p : rpoint) : R := r_radius q * rlb p + sum_over (seq 0 T) (rs p) / INR T.
End Spec.

(** * Sums *)
Lemma norm_inf_le n x b : norm_inf n x <= b <-> 0 <= b /\ forall j, (j < n)%nat -> Rabs (x j) <= b.
Proof.
  unfold norm_inf. assert (G: forall l, fold_right Rmax 0 (map (fun j => Rabs (x j)) l) <= b <-> 0 <= b /\ forall j, In j l -> Rabs (x j) <= b).
  { induction l as [|a l IH]; cbn; [intuition|]. split.
    - intros H. assert (H1: fold_right Rmax 0 (map (fun j => Rabs (x j)) l) <= b) by (eapply Rle_trans; [apply Rmax_r|exact H]). apply IH in H1 as [H1 H2]. split; auto. intros j [->|Hj]; auto. eapply Rle_trans; [apply Rmax_l|exact H].
    - intros [H1 H2]. apply Rmax_lub; [apply H2; auto|]. apply IH. split; auto. }
  rewrite G. split; intros [H1 H2]; split; auto; intros j Hj; apply H2; [apply in_seq; lia|apply in_seq in Hj; lia].
Qed.
Lemma flat_map_holds {A} (f : A -> list constraint) l : Forall holds_at (flat_map f l) <-> forall a, In a l -> Forall holds_at (f a).
Proof. rewrite Forall_forall. split; [intros H a Ha; apply Forall_forall; intros c Hc; apply H; apply in_flat_map; exists a; auto|]. intros H c Hc. apply in_flat_map in Hc as (a&Ha&Hc). specialize (H a Ha). rewrite Forall_forall in H. auto. Qed.

Section Proofs.
  Variable tf : str -> option R.
  Variable q : robust.
  Let n := r_assets q.
  Let T := r_obs q.
  Hypothesis Hv : valid q.
  Let HT : (0 < T)%nat. Proof. apply Hv. Qed.
  Let HN : 0 < INR T. Proof. apply lt_0_INR, HT. Qed.
  Let Hb : 0 < r_beta q < 1. Proof. apply Hv. Qed.
  Let Hrho : 0 < r_aversion q. Proof. apply Hv. Qed.
  Let Hs : 0 < r_scale q. Proof. apply Hv. Qed.
  Let Hret : forall i j, (i < T)%nat -> (j < n)%nat -> -1 <= r_returns q i j. Proof. apply Hv. Qed.
  Definition A (k : bool) : R := if k then a2 q else a1.
  Definition B (k : bool) : R := if k then b2 q else b1 q.
  Definition gross (w : vec) (i : nat) : R := sum_over (seq 0 n) (fun j => r_returns q i j * w j).
  Definition core (p : rpoint) : Prop :=
    0 <= rlb p /\ forall i, (i < T)%nat ->
      (forall j, (j < n)%nat -> 0 <= ru p i j /\ 0 <= rv p i j /\ Rabs (- ru p i j - a1 * rw p j) <= rlb p /\ Rabs (- rv p i j - a2 q * rw p j) <= rlb p)
      /\ b1 q * rtau p + a1 * gross (rw p) i + sum_over (seq 0 n) (fun j => ru p i j * (1 + r_returns q i j)) <= rs p i
      /\ b2 q * rtau p + a2 q * gross (rw p) i + sum_over (seq 0 n) (fun j => rv p i j * (1 + r_returns q i j)) <= rs p i.
  Lemma feasible_core p : robust_feasible tf q p <-> core p /\ exists lw, weight_constraints tf n (robust_params q) (r_names q) false true false (r_scale q) (rw p) 1 (rm p) = COk lw /\ Forall holds_at lw.
  Proof.
    unfold robust_feasible, robust_constraints. fold n T.
    assert (S: forall a b, a * r_scale q <= b * r_scale q <-> a <= b) by (intros a b; split; [apply Rmult_le_reg_r; auto|apply Rmult_le_compat_r; lra]).
    assert (S0: forall a, 0 <= a * r_scale q <-> 0 <= a) by (intros a; rewrite <- (S 0 a), Rmult_0_l; reflexivity).
    assert (C: Forall holds_at (flat_map (fun i => elementwise n (fun j => Le 0 (ru p i j * r_scale q))) (seq 0 T)
             ++ flat_map (fun i => elementwise n (fun j => Le 0 (rv p i j * r_scale q))) (seq 0 T)
             ++ map (piece q a1 (b1 q) (ru p) p) (seq 0 T) ++ map (piece q (a2 q) (b2 q) (rv p) p) (seq 0 T)
             ++ flat_map (fun i => [ball q a1 (ru p) p i; ball q (a2 q) (rv p) p i]) (seq 0 T)) <-> core p).
    { rewrite !Forall_app, !flat_map_holds, !Forall_map, !Forall_forall. unfold piece, ball, core. fold n.
      assert (P: forall a b c d e, b * c * r_scale q + a * d * r_scale q + e * r_scale q = (b * c + a * d + e) * r_scale q) by (intros; ring).
      split.
      - intros (H1&H2&H3&H4&H5).
        assert (L: forall i, (i < T)%nat -> norm_inf n (fun j => - ru p i j - a1 * rw p j) <= rlb p /\ norm_inf n (fun j => - rv p i j - a2 q * rw p j) <= rlb p).
        { intros i Hi. specialize (H5 i ltac:(apply in_seq; lia)). inversion H5 as [|? ? Q1 Q2]; subst. inversion Q2 as [|? ? Q3 _]; subst. cbn [holds_at] in Q1, Q3. rewrite S in Q1, Q3. auto. }
        split. { destruct (L 0%nat HT) as [L0 _]. apply norm_inf_le in L0. apply L0. }
        intros i Hi. assert (In i (seq 0 T)) by (apply in_seq; lia). specialize (H1 i H). specialize (H2 i H). specialize (H3 i H). specialize (H4 i H). rewrite elementwise_holds in H1, H2. cbn [holds_at] in *.
        rewrite P, S in H3, H4. destruct (L i Hi) as [L1 L2]. apply norm_inf_le in L1 as [_ L1]. apply norm_inf_le in L2 as [_ L2]. split; [|split; [exact H3|exact H4]].
        intros j Hj. specialize (H1 j Hj). specialize (H2 j Hj). rewrite S0 in H1, H2. auto.
      - intros [H0 H]. split; [|split; [|split; [|split]]]; intros i Hi; apply in_seq in Hi; destruct (H i ltac:(lia)) as (H1&H2&H3).
        + apply elementwise_holds. intros j Hj. cbn [holds_at]. rewrite S0. apply H1; auto.
        + apply elementwise_holds. intros j Hj. cbn [holds_at]. rewrite S0. apply H1; auto.
        + cbn [holds_at]. rewrite P, S. exact H2.
        + cbn [holds_at]. rewrite P, S. exact H3.
        + constructor; [|constructor; [|constructor]]; cbn [holds_at]; rewrite S; apply norm_inf_le; (split; [auto|]); intros j Hj; apply (H1 j Hj). }
    split.
    - intros (l&E&H). apply capp_ok in E as (lw&lc&Ew&Ec&->). injection Ec as <-. apply Forall_app in H as [H1 H2]. split; [apply C; auto|]. exists lw. auto.
    - intros (Hc&lw&Ew&Hl). rewrite Ew. eexists. split; [reflexivity|]. apply Forall_app. split; auto. apply C. auto.
  Qed.
  (** ** Every law of the ball *)
  Lemma pieces w t y : - portfolio q w y + r_aversion q * (t + Rmax (- portfolio q w y - t) 0 / (1 - r_beta q)) = Rmax (A false * portfolio q w y + B false * t) (A true * portfolio q w y + B true * t).
  Proof.
    unfold A, B, a1, a2, b1, b2. set (z := portfolio q w y). set (r := r_aversion q). set (b := r_beta q) in *.
    assert (D: (-1 - r / (1 - b)) * z + r * (1 - 1 / (1 - b)) * t - (-1 * z + r * t) = r / (1 - b) * (- z - t)) by (field; lra).
    assert (P: 0 < r / (1 - b)) by (apply Rdiv_lt_0_compat; unfold r; lra).
    destruct (Rle_dec (- z - t) 0) as [L|L].
    - rewrite (Rmax_right (- z - t) 0) by lra. rewrite Rmax_left by nra. field. lra.
    - rewrite (Rmax_left (- z - t) 0) by lra. rewrite Rmax_right by nra. field. lra.
  Qed.
  Lemma law_ext I E f g : law n I E -> I f -> I g -> (forall x, f x = g x) -> E f = E g.
  Proof. intros L Hf Hg H. apply Rle_antisym; apply (law_monotone n I E L); auto; intros; rewrite H; lra. Qed.
  Lemma law_sum {X} I E (l : list X) (f : X -> vec -> R) : law n I E -> (forall a, In a l -> I (f a)) -> I (fun x => sum_over l (fun a => f a x)).
  Proof.
    intros L. induction l as [|a l IH]; intros H; [exact (law_const n I E L 0)|].
    assert (F: (fun x => sum_over (a :: l) (fun b => f b x)) = (fun x => 1 * f a x + 1 * sum_over l (fun b => f b x))) by (extensionality x; rewrite so_cons; ring).
    rewrite F. apply (law_comb n I E L); [apply H; left; auto|]. apply IH. intros; apply H; right; auto.
  Qed.
  Lemma law_portfolio I E w : law n I E -> I (portfolio q w).
  Proof.
    intros L. unfold portfolio. fold n. apply (law_sum I E (seq 0 n) (fun j x => w j * x j) L). intros j Hj. apply in_seq in Hj.
    assert (F: (fun x : vec => w j * x j) = (fun x => w j * x j + 0 * x j)) by (extensionality x; ring). rewrite F. apply (law_comb n I E L); apply (law_return n I E L); lia.
  Qed.
  Lemma law_excess I E w t : law n I E -> I (fun x => Rmax (- portfolio q w x - t) 0).
  Proof.
    intros L. assert (G: I (fun x => -1 * portfolio q w x + - t * 1)) by (apply (law_comb n I E L (-1) (- t) (portfolio q w) (fun _ => 1)); [apply (law_portfolio I E); auto|apply (law_const n I E L)]).
    assert (F: (fun x => Rmax (- portfolio q w x - t) 0) = (fun x => 1/2 * (-1 * portfolio q w x + - t * 1) + 1/2 * Rabs (-1 * portfolio q w x + - t * 1))).
    { extensionality x. set (z := portfolio q w x). replace (-1 * z + - t * 1) with (- z - t) by ring. unfold Rmax, Rabs. destruct (Rle_dec (- z - t) 0); destruct (Rcase_abs (- z - t)); lra. }
    rewrite F. apply (law_comb n I E L); auto. apply (law_abs n I E L); auto.
  Qed.
  Definition distance (i : nat) (x : vec) : R := sum_over (seq 0 n) (fun j => Rabs (x j - r_returns q i j)).
  Lemma law_distance I E i : law n I E -> I (distance i).
  Proof.
    intros L. apply (law_sum I E (seq 0 n) (fun j x => Rabs (x j - r_returns q i j)) L). intros j Hj. apply in_seq in Hj. apply (law_abs n I E L).
    assert (F: (fun x : vec => x j - r_returns q i j) = (fun x => 1 * x j + - r_returns q i j * 1)) by (extensionality x; ring). rewrite F. apply (law_comb n I E L 1 _ (fun x => x j) (fun _ => 1)); [apply (law_return n I E L); lia|apply (law_const n I E L)].
  Qed.
  Definition loss_at (w : vec) (t : R) (x : vec) : R := - portfolio q w x + r_aversion q * (t + Rmax (- portfolio q w x - t) 0 / (1 - r_beta q)).
  Lemma law_loss I E w t : law n I E -> I (loss_at w t) /\ E (loss_at w t) = E (fun x => - portfolio q w x) + r_aversion q * (t + E (fun x => Rmax (- portfolio q w x - t) 0) / (1 - r_beta q)).
  Proof.
    intros L. pose proof (law_portfolio I E w L) as P. pose proof (law_excess I E w t L) as X. pose proof (law_const n I E L 1) as O.
    set (c := r_aversion q / (1 - r_beta q)). set (m := fun x => Rmax (- portfolio q w x - t) 0) in *.
    assert (F0: (fun x => - portfolio q w x) = (fun x => -1 * portfolio q w x + 0 * portfolio q w x)) by (extensionality x; ring).
    assert (N: I (fun x => - portfolio q w x)) by (rewrite F0; apply (law_comb n I E L); auto).
    assert (F: loss_at w t = (fun x => 1 * (fun y => - portfolio q w y) x + 1 * (fun y => c * m y + r_aversion q * t * 1) x)) by (extensionality x; unfold loss_at, c, m; field; lra).
    assert (M: I (fun y => c * m y + r_aversion q * t * 1)) by (apply (law_comb n I E L c _ m (fun _ => 1)); auto).
    split; [rewrite F; apply (law_comb n I E L 1 1 (fun y => - portfolio q w y) (fun y => c * m y + r_aversion q * t * 1)); auto|].
    rewrite F, (law_linear n I E L 1 1 (fun y => - portfolio q w y) (fun y => c * m y + r_aversion q * t * 1)) by auto. rewrite (law_linear n I E L c _ m (fun _ => 1)) by auto. rewrite (law_one n I E L). unfold c. field. lra.
  Qed.
  Lemma expect_loss I E w t : (forall i, (i < T)%nat -> law n (I i) (E i)) -> mean_cvar_at q E w t = expect q E (loss_at w t).
  Proof.
    intros L. unfold mean_cvar_at, expect. fold T.
    rewrite (so_ext (fun i => E i (loss_at w t)) (fun i => (E i (fun x => - portfolio q w x) + r_aversion q * t) + r_aversion q / (1 - r_beta q) * E i (fun x => Rmax (- portfolio q w x - t) 0))).
    - rewrite so_add, so_add, so_const, so_scal, seq_length. field. split; lra.
    - intros i Hi. apply in_seq in Hi. rewrite (proj2 (law_loss (I i) (E i) w t (L i ltac:(lia)))). field. lra.
  Qed.
  Lemma piece_bound k (u : nat -> vec) p i x : (forall j, (j < n)%nat -> 0 <= u i j /\ Rabs (- u i j - A k * rw p j) <= rlb p) ->
    B k * rtau p + A k * gross (rw p) i + sum_over (seq 0 n) (fun j => u i j * (1 + r_returns q i j)) <= rs p i ->
    (forall j, (j < n)%nat -> -1 <= x j) -> A k * portfolio q (rw p) x + B k * rtau p <= rs p i + rlb p * distance i x.
  Proof.
    intros Hu Hp Hx. assert (E: A k * portfolio q (rw p) x = A k * gross (rw p) i + sum_over (seq 0 n) (fun j => A k * rw p j * (x j - r_returns q i j))).
    { unfold portfolio, gross. fold n. rewrite <- !so_scal, <- so_add. apply so_ext. intros; ring. }
    assert (L: sum_over (seq 0 n) (fun j => A k * rw p j * (x j - r_returns q i j)) <= sum_over (seq 0 n) (fun j => u i j * (1 + r_returns q i j)) + rlb p * distance i x).
    { unfold distance. rewrite <- so_scal, <- so_add. apply so_le. intros j Hj. apply in_seq in Hj. destruct (Hu j ltac:(lia)) as [U1 U2]. specialize (Hx j ltac:(lia)).
      set (d := x j - r_returns q i j). assert (G: - ((- u i j - A k * rw p j) * d) <= rlb p * Rabs d).
      { eapply Rle_trans; [apply Rle_abs|]. rewrite Rabs_Ropp, Rabs_mult. apply Rmult_le_compat_r; [apply Rabs_pos|auto]. }
      assert (0 <= u i j * (1 + x j)) by (apply Rmult_le_pos; lra). unfold d in *. nra. }
    lra.
  Qed.
  Lemma certificate p E : core p -> in_ball q E -> mean_cvar_at q E (rw p) (rtau p) <= robust_value q p.
  Proof.
    intros [Hlb Hc] (I&L&Hd). rewrite (expect_loss I E) by auto. unfold expect, robust_value. fold T in Hd |- *. fold n in Hd.
    assert (S: sum_over (seq 0 T) (fun i => E i (loss_at (rw p) (rtau p))) <= sum_over (seq 0 T) (rs p) + rlb p * sum_over (seq 0 T) (fun i => E i (distance i))).
    { rewrite <- so_scal, <- so_add. apply so_le. intros i Hi. apply in_seq in Hi. assert (Li := L i ltac:(lia)). destruct (Hc i ltac:(lia)) as (H1&H2&H3).
      replace (rs p i + rlb p * E i (distance i)) with (E i (fun x => rs p i * (fun _ => 1) x + rlb p * distance i x)).
      - apply (law_monotone n (I i) (E i) Li).
        + apply (law_loss (I i) (E i)); auto.
        + apply (law_comb n (I i) (E i) Li); [apply (law_const n (I i) (E i) Li)|apply (law_distance (I i) (E i)); auto].
        + intros x Hx. unfold loss_at. rewrite pieces. rewrite Rmult_1_r. apply Rmax_lub.
          * apply (piece_bound false (ru p) p i x); auto. intros j Hj. destruct (H1 j Hj) as (Q1&_&Q2&_). auto.
          * apply (piece_bound true (rv p) p i x); auto. intros j Hj. destruct (H1 j Hj) as (_&Q1&_&Q2). auto.
      - rewrite (law_linear n (I i) (E i) Li) by (try apply (law_const n (I i) (E i) Li); apply (law_distance (I i) (E i)); auto). rewrite (law_one n (I i) (E i) Li). ring. }
    apply Rle_trans with ((sum_over (seq 0 T) (rs p) + rlb p * sum_over (seq 0 T) (fun i => E i (distance i))) / INR T); [apply Rmult_le_compat_r; [left; apply Rinv_0_lt_compat; auto|auto]|].
    assert (D: sum_over (seq 0 T) (fun i => E i (distance i)) / INR T <= r_radius q) by exact Hd.
    replace ((sum_over (seq 0 T) (rs p) + rlb p * sum_over (seq 0 T) (fun i => E i (distance i))) / INR T) with (rlb p * (sum_over (seq 0 T) (fun i => E i (distance i)) / INR T) + sum_over (seq 0 T) (rs p) / INR T) by (field; lra).
    apply Rplus_le_compat_r. rewrite (Rmult_comm (r_radius q)). apply Rmult_le_compat_l; auto.
  Qed.
  (** ** A law of the ball for which the bound is met *)
  (** the points with some coordinates replaced by a total loss *)
  Fixpoint masks (m : nat) : list (nat -> bool) :=
    match m with O => [fun _ => false] | S m' => flat_map (fun f => [f; fun j => if (j =? m')%nat then true else f j]) (masks m') end.
  Lemma masks_all (f : nat -> bool) m : exists g, In g (masks m) /\ forall j, (j < m)%nat -> g j = f j.
  Proof.
    induction m as [|m (g&Hg&Eg)]; [exists (fun _ => false); split; [left; auto|intros; lia]|]. destruct (f m) eqn:Ef.
    - exists (fun j => if (j =? m)%nat then true else g j). split; [apply in_flat_map; exists g; split; auto; right; left; auto|]. intros j Hj. destruct (Nat.eqb_spec j m) as [->|]; auto. apply Eg. lia.
    - assert (Gm: forall k h, In h (masks k) -> forall j, (k <= j)%nat -> h j = false).
      { induction k as [|k IH]; intros h Hh j Hj; [destruct Hh as [<-|[]]; auto|]. apply in_flat_map in Hh as (h'&Hh'&Hh). destruct Hh as [<-|[<-|[]]]; [apply IH; auto; lia|]. destruct (Nat.eqb_spec j k); [lia|]. apply IH; auto; lia. }
      exists g. split; [apply in_flat_map; exists g; split; auto; left; auto|]. intros j Hj. destruct (Nat.eq_dec j m) as [->|]; [rewrite Ef; apply (Gm m g Hg); lia|apply Eg; lia].
  Qed.
  Definition corner (i : nat) (g : nat -> bool) : vec := fun j => if g j then -1 else r_returns q i j.
  Lemma corner_support i g j : (i < T)%nat -> (j < n)%nat -> -1 <= corner i g j.
  Proof. intros Hi Hj. unfold corner. destruct (g j); [lra|auto]. Qed.
  Lemma corner_distance i g : (i < T)%nat -> distance i (corner i g) = sum_over (seq 0 n) (fun j => if g j then 1 + r_returns q i j else 0).
  Proof.
    intros Hi. apply so_ext. intros j Hj. apply in_seq in Hj. unfold corner. destruct (g j).
    - replace (-1 - r_returns q i j) with (- (1 + r_returns q i j)) by ring. rewrite Rabs_Ropp, Rabs_right; auto. specialize (Hret i j Hi ltac:(lia)). lra.
    - rewrite Rminus_diag_eq, Rabs_R0; auto.
  Qed.
  Section Dual.
    Variable w : vec.
    (** the variables are tau, lambda and s *)
    Definition row (i : nat) (k : bool) (x : vec) : ineq :=
      ((fun c => match c with O => - B k | S O => distance i x | S (S c) => if (c =? i)%nat then 1 else 0 end), A k * portfolio q w x).
    Definition ray (b : R) : ineq := ((fun c => match c with S O => 1 | _ => 0 end), b).
    Definition system : list ineq :=
      flat_map (fun i => flat_map (fun k => map (fun g => row i k (corner i g)) (masks n)) [false; true]) (seq 0 T)
      ++ flat_map (fun k => map (fun j => ray (A k * w j)) (seq 0 n)) [false; true] ++ [ray 0].
    Lemma system_in d : In d system <-> (exists i k g, (i < T)%nat /\ In g (masks n) /\ d = row i k (corner i g)) \/ (exists k j, (j < n)%nat /\ d = ray (A k * w j)) \/ d = ray 0.
    Proof.
      unfold system. rewrite !in_app_iff, !in_flat_map. split.
      - intros [(i&Hi&Hd)|[(k&Hk&Hd)|[<-|[]]]]; auto.
        + left. apply in_flat_map in Hd as (k&Hk&Hd). apply in_map_iff in Hd as (g&<-&Hg). apply in_seq in Hi. exists i, k, g. split; [lia|auto].
        + right. left. apply in_map_iff in Hd as (j&<-&Hj). apply in_seq in Hj. exists k, j. split; [lia|auto].
      - assert (Kb: forall k : bool, In k [false; true]) by (intros []; cbn; auto). intros [(i&k&g&Hi&Hg&->)|[(k&j&Hj&->)| ->]].
        + left. exists i. split; [apply in_seq; lia|]. apply in_flat_map. exists k. split; auto. apply in_map_iff. exists g. auto.
        + right. left. exists k. split; auto. apply in_map_iff. exists j. split; auto. apply in_seq. lia.
        + right. right. left. reflexivity.
    Qed.
    Definition objective (c : nat) : R := match c with O => 0 | S O => r_radius q | S (S _) => 1 / INR T end.
    Lemma dot_shift m a x : dot (S (S m)) a x = a 0%nat * x 0%nat + a 1%nat * x 1%nat + sum_over (seq 0 m) (fun i => a (S (S i)) * x (S (S i))).
    Proof.
      unfold dot. cbn [seq]. rewrite !so_cons. rewrite <- (seq_shift m 1), <- (seq_shift m 0), !so_map. ring.
    Qed.
    Lemma pick m i (f : nat -> R) : (i < m)%nat -> sum_over (seq 0 m) (fun c => (if (c =? i)%nat then 1 else 0) * f c) = f i.
    Proof.
      induction m as [|m IH]; intros Hi; [lia|]. rewrite seq_S, so_app. unfold sum_over at 2. cbn [Nat.add map rsum fold_right]. destruct (Nat.eqb_spec m i) as [->|].
      - rewrite so_zero; [unfold rsum; cbn; ring|]. intros c Hc. apply in_seq in Hc. destruct (Nat.eqb_spec c i); [lia|ring].
      - rewrite IH by lia. unfold rsum. cbn. ring.
    Qed.
    Lemma row_sat i k y x : (i < T)%nat -> (satisfies (S (S T)) x (row i k y) <-> A k * portfolio q w y <= - B k * x 0%nat + distance i y * x 1%nat + x (S (S i))).
    Proof. intros Hi. unfold satisfies. rewrite dot_shift. cbn [row fst snd]. rewrite (pick T i (fun c => x (S (S c)))) by auto. reflexivity. Qed.
    Lemma ray_sat b x : satisfies (S (S T)) x (ray b) <-> b <= x 1%nat.
    Proof. unfold satisfies. rewrite dot_shift. cbn [ray fst snd]. rewrite so_zero by (intros; ring). split; intros H; lra. Qed.
    Definition move (k : bool) (l : R) : nat -> bool := fun j => if Rlt_dec 0 (- A k * w j - l) then true else false.
    Definition cut (k : bool) (l : R) : vec := fun j => Rmax 0 (- A k * w j - l).
    (** a solution of the system is a feasible point *)
    Definition point_of (x : nat -> R) : rpoint :=
      {| rw := w; ru := fun _ => cut false (x 1%nat); rv := fun _ => cut true (x 1%nat); rlb := x 1%nat; rtau := x 0%nat; rs := fun i => x (S (S i)); rm := no_mip |}.
    Lemma point_core x : (forall d, In d system -> satisfies (S (S T)) x d) -> core (point_of x).
    Proof.
      intros H. assert (L0: 0 <= x 1%nat) by (apply ray_sat; apply H; apply system_in; auto).
      assert (La: forall k j, (j < n)%nat -> A k * w j <= x 1%nat) by (intros k j Hj; apply ray_sat; apply H; apply system_in; right; left; exists k, j; auto).
      assert (U: forall k j, (j < n)%nat -> 0 <= cut k (x 1%nat) j /\ Rabs (- cut k (x 1%nat) j - A k * w j) <= x 1%nat).
      { intros k j Hj. specialize (La k j Hj). unfold cut. split; [apply Rmax_l|]. apply Rabs_le. unfold Rmax. destruct (Rle_dec 0 (- A k * w j - x 1%nat)); lra. }
      assert (P: forall i k, (i < T)%nat -> B k * x 0%nat + A k * gross w i + sum_over (seq 0 n) (fun j => cut k (x 1%nat) j * (1 + r_returns q i j)) <= x (S (S i))).
      { intros i k Hi. destruct (masks_all (move k (x 1%nat)) n) as (g&Hg&Eg).
        assert (R: satisfies (S (S T)) x (row i k (corner i g))) by (apply H; apply system_in; left; exists i, k, g; auto). apply row_sat in R; auto. rewrite corner_distance in R by auto.
        assert (E: A k * portfolio q w (corner i g) - sum_over (seq 0 n) (fun j => if g j then 1 + r_returns q i j else 0) * x 1%nat = A k * gross w i + sum_over (seq 0 n) (fun j => cut k (x 1%nat) j * (1 + r_returns q i j))).
        { unfold portfolio, gross. fold n. rewrite <- !so_scal, <- so_scal_r, <- so_sub, <- so_add. apply so_ext. intros j Hj. apply in_seq in Hj. unfold corner, cut. rewrite Eg by lia. unfold move.
          destruct (Rlt_dec 0 (- A k * w j - x 1%nat)) as [G|G]; [rewrite Rmax_right by lra|rewrite Rmax_left by lra]; ring. }
        lra. }
      split; [exact L0|]. intros i Hi. cbn [point_of rw ru rv rlb rtau rs]. split; [|split; [apply (P i false Hi)|apply (P i true Hi)]].
      intros j Hj. destruct (U false j Hj), (U true j Hj). auto.
    Qed.
    Lemma point_value x : robust_value q (point_of x) = dot (S (S T)) objective x.
    Proof. rewrite dot_shift. unfold robust_value. fold T. cbn [objective point_of rlb rs]. rewrite so_scal. field. lra. Qed.
    Lemma system_feasible : exists x, forall d, In d system -> satisfies (S (S T)) x d.
    Proof.
      destruct (between (map snd system) []) as (z&Hz&_); [intros a b _ []|]. set (m := Rmax z 0).
      exists (fun c => match c with O => 0 | S O => m | _ => m end). intros d Hd. assert (S: snd d <= m) by (eapply Rle_trans; [apply Hz; apply in_map; exact Hd|apply Rmax_l]).
      assert (M: 0 <= m) by apply Rmax_r. apply system_in in Hd as [(i&k&g&Hi&Hg&->)|[(k&j&Hj&->)| ->]]; [apply row_sat; auto| |]; try (apply ray_sat; exact S).
      cbn [row snd] in S. assert (0 <= distance i (corner i g)) by (apply so_nonneg; intros; apply Rabs_pos). nra.
    Qed.
    (** atoms of probability *)
    Record atom := { at_i : nat; at_k : bool; at_x : vec; at_m : R }.
    Definition atom_ok (a : atom) : Prop := (at_i a < T)%nat /\ 0 <= at_m a /\ forall j, (j < n)%nat -> -1 <= at_x a j.
    Definition both (f : bool -> R) : R := f false + f true.
    Lemma cone_atoms d : cone system d -> exists P Z z0,
      Forall atom_ok P /\ (forall k j, 0 <= Z k j) /\ 0 <= z0
      /\ fst d 0%nat = - sum_over P (fun a => at_m a * B (at_k a))
      /\ fst d 1%nat = sum_over P (fun a => at_m a * distance (at_i a) (at_x a)) + both (fun k => sum_over (seq 0 n) (Z k)) + z0
      /\ (forall i, (i < T)%nat -> fst d (S (S i)) = sum_over P (fun a => if (i =? at_i a)%nat then at_m a else 0))
      /\ snd d = sum_over P (fun a => at_m a * (A (at_k a) * portfolio q w (at_x a))) + both (fun k => sum_over (seq 0 n) (fun j => Z k j * (A k * w j))).
    Proof.
      induction 1 as [d Hd| |a b _ (P1&Z1&y1&F1&N1&M1&E1&E2&E3&E4) _ (P2&Z2&y2&F2&N2&M2&G1&G2&G3&G4)|t a Ht _ (P1&Z1&y1&F1&N1&M1&E1&E2&E3&E4)].
      - apply system_in in Hd as [(i&k&g&Hi&Hg&->)|[(k&j&Hj&->)| ->]].
        + exists [{| at_i := i; at_k := k; at_x := corner i g; at_m := 1 |}], (fun _ _ => 0), 0. split; [constructor; [|constructor]; split; [exact Hi|split; [cbn; lra|intros j Hj; apply corner_support; auto]]|].
          split; [intros; lra|]. split; [lra|]. unfold both. rewrite !(so_const 0), !(so_zero (fun j => 0 * _)) by (intros; ring). rewrite !so_cons, !so_nil. cbn [row fst snd at_i at_k at_x at_m]. split; [ring|]. split; [ring|]. split; [intros c Hc; rewrite so_cons, so_nil; cbn [at_i at_m]; destruct (c =? i)%nat; ring|ring].
        + exists [], (fun k' j' => if Bool.eqb k' k then if (j' =? j)%nat then 1 else 0 else 0), 0. split; [constructor|]. split; [intros k' j'; destruct (Bool.eqb k' k), (j' =? j)%nat; lra|]. split; [lra|].
          rewrite !so_nil. cbn [ray fst snd]. split; [ring|].
          assert (G: forall f : nat -> R, both (fun k' => sum_over (seq 0 n) (fun j' => (if Bool.eqb k' k then if (j' =? j)%nat then 1 else 0 else 0) * f j')) = f j).
          { intros f. unfold both. destruct k; cbn [Bool.eqb]; rewrite pick by auto; rewrite (so_zero (fun j' => 0 * _)) by (intros; ring); ring. }
          split; [specialize (G (fun _ => 1)); unfold both in *; rewrite !(so_ext (fun j' => _ * 1) (fun j' => _)) in G by (intros; rewrite Rmult_1_r; reflexivity); lra|]. split; [intros; reflexivity|].
          specialize (G (fun j' => A k * w j')). unfold both in *. rewrite <- G at 1. rewrite Rplus_0_l. f_equal; apply so_ext; intros j' _; destruct k; cbn [Bool.eqb]; ring.
        + exists [], (fun _ _ => 0), 1. split; [constructor|]. split; [intros; lra|]. split; [lra|]. unfold both. rewrite !(so_const 0), !(so_zero (fun j => 0 * _)) by (intros; ring). rewrite !so_nil. cbn [ray fst snd]. split; [ring|]. split; [ring|]. split; [intros; reflexivity|ring].
      - exists [], (fun _ _ => 0), 0. split; [constructor|]. split; [intros; lra|]. split; [lra|]. unfold both. rewrite !(so_const 0), !(so_zero (fun j => 0 * _)) by (intros; ring). rewrite !so_nil. cbn [fst snd]. split; [ring|]. split; [ring|]. split; [intros; reflexivity|ring].
      - exists (P1 ++ P2), (fun k j => Z1 k j + Z2 k j), (y1 + y2). split; [apply Forall_app; auto|]. split; [intros; apply Rplus_le_le_0_compat; auto|]. split; [lra|].
        rewrite !so_app. cbn [fst snd]. unfold both in *. rewrite !(so_add (Z1 _) (Z2 _)). split; [rewrite E1, G1; ring|]. split; [rewrite E2, G2; ring|]. split; [intros i Hi; rewrite so_app, E3, G3 by auto; ring|].
        rewrite E4, G4. assert (D: forall k, sum_over (seq 0 n) (fun j => (Z1 k j + Z2 k j) * (A k * w j)) = sum_over (seq 0 n) (fun j => Z1 k j * (A k * w j)) + sum_over (seq 0 n) (fun j => Z2 k j * (A k * w j))) by (intros k; rewrite <- so_add; apply so_ext; intros; ring).
        rewrite !D. ring.
      - exists (map (fun a => {| at_i := at_i a; at_k := at_k a; at_x := at_x a; at_m := t * at_m a |}) P1), (fun k j => t * Z1 k j), (t * y1).
        split. { apply Forall_map. eapply Forall_impl; [|exact F1]. intros c (C1&C2&C3). split; [exact C1|split; [cbn; apply Rmult_le_pos; auto|exact C3]]. }
        split; [intros; apply Rmult_le_pos; auto|]. split; [apply Rmult_le_pos; auto|]. cbn [fst snd]. unfold both in *. rewrite !(so_scal t). rewrite !so_map. cbn [at_i at_k at_x at_m].
        split; [rewrite E1, (so_ext (fun a => t * at_m a * _) (fun a => t * (at_m a * B (at_k a)))) by (intros; ring); rewrite so_scal; ring|].
        split; [rewrite E2, (so_ext (fun a => t * at_m a * _) (fun a => t * (at_m a * distance (at_i a) (at_x a)))) by (intros; ring); rewrite so_scal; ring|].
        split; [intros i Hi; rewrite E3, so_map by auto; cbn [at_i at_m]; rewrite <- so_scal; apply so_ext; intros c _; destruct (i =? at_i c)%nat; ring|].
        rewrite E4. rewrite (so_ext (fun a => t * at_m a * _) (fun a => t * (at_m a * (A (at_k a) * portfolio q w (at_x a))))) by (intros; ring). rewrite so_scal.
        assert (D: forall k, sum_over (seq 0 n) (fun j => t * Z1 k j * (A k * w j)) = t * sum_over (seq 0 n) (fun j => Z1 k j * (A k * w j))) by (intros k; rewrite <- so_scal; apply so_ext; intros; ring). rewrite !D. ring.
    Qed.
    (** atoms make a law *)
    Definition atoms_law (P : list atom) (i : nat) (f : vec -> R) : R := INR T * sum_over P (fun a => if (i =? at_i a)%nat then at_m a * f (at_x a) else 0).
    Lemma atoms_is_law P i : Forall atom_ok P -> sum_over P (fun a => if (i =? at_i a)%nat then at_m a else 0) = 1 / INR T -> law n (fun _ => True) (atoms_law P i).
    Proof.
      intros F S. constructor; auto.
      - intros a b f g _ _. unfold atoms_law. rewrite (so_ext _ (fun c => a * (if (i =? at_i c)%nat then at_m c * f (at_x c) else 0) + b * (if (i =? at_i c)%nat then at_m c * g (at_x c) else 0))) by (intros c _; destruct (i =? at_i c)%nat; ring). rewrite so_add, !so_scal. ring.
      - unfold atoms_law. rewrite (so_ext _ (fun c => if (i =? at_i c)%nat then at_m c else 0)) by (intros c _; destruct (i =? at_i c)%nat; ring). rewrite S. field. lra.
      - intros f g _ _ H. apply Rmult_le_compat_l; [lra|]. apply so_le. intros c Hc. rewrite Forall_forall in F. destruct (F c Hc) as (F1&F2&F3). destruct (i =? at_i c)%nat; [|lra]. apply Rmult_le_compat_l; auto.
    Qed.
    Lemma atoms_expect P (f : nat -> vec -> R) : Forall atom_ok P -> sum_over (seq 0 T) (fun i => atoms_law P i (f i)) / INR T = sum_over P (fun a => at_m a * f (at_i a) (at_x a)).
    Proof.
      intros F. unfold atoms_law. rewrite so_scal. replace (INR T * _ / INR T) with (sum_over (seq 0 T) (fun i => sum_over P (fun a => if (i =? at_i a)%nat then at_m a * f i (at_x a) else 0))) by (field; lra).
      rewrite so_swap. apply so_ext. intros a Ha. rewrite Forall_forall in F. destruct (F a Ha) as [F1 _]. rewrite <- (pick T (at_i a) (fun i => at_m a * f i (at_x a)) F1). apply so_ext. intros i _. destruct (i =? at_i a)%nat; ring.
    Qed.
    Theorem dual_law v : (forall x, (forall d, In d system -> satisfies (S (S T)) x d) -> v <= dot (S (S T)) objective x) ->
      forall delta, 0 < delta -> exists E, in_ball q E /\ forall t, v - delta <= mean_cvar_at q E w t.
    Proof.
      intros Hmin delta Hd. destruct system_feasible as (x0&Hx0). destruct (linear_duality _ _ _ v x0 Hx0 Hmin delta Hd) as (d&Cd&Fd&Vd).
      destruct (cone_atoms d Cd) as (P&Z&z0&FP&NZ&N0&E1&E2&E3&E4).
      rewrite Fd in E1, E2 by lia. cbn [objective] in E1, E2. assert (E3': forall i, (i < T)%nat -> sum_over P (fun a => if (i =? at_i a)%nat then at_m a else 0) = 1 / INR T) by (intros i Hi; rewrite <- E3, Fd by lia; reflexivity). clear E3.
      set (Y := fun k => sum_over P (fun a => if Bool.eqb (at_k a) k then at_m a else 0)).
      assert (G: forall f : bool -> R, sum_over P (fun a => at_m a * f (at_k a)) = both (fun k => Y k * f k)).
      { intros f. unfold both, Y. rewrite <- !so_scal_r, <- so_add. apply so_ext. intros a _. destruct (at_k a); cbn; ring. }
      assert (Y1: Y false + Y true = 1).
      { transitivity (sum_over P (fun a => at_m a * 1)); [rewrite (G (fun _ => 1)); unfold both; ring|]. rewrite <- (atoms_expect P (fun _ _ => 1) FP). unfold atoms_law.
        rewrite (so_ext _ (fun _ => 1)) by (intros i Hi; apply in_seq in Hi; rewrite (so_ext _ (fun a => if (i =? at_i a)%nat then at_m a else 0)) by (intros a _; destruct (i =? at_i a)%nat; ring); rewrite E3' by lia; field; lra).
        rewrite so_const, seq_length. field. lra. }
      assert (Y2: Y false * b1 q + Y true * b2 q = 0) by (rewrite (G B) in E1; unfold both, B in E1; lra).
      assert (YP: forall k, 0 < Y k).
      { unfold b1, b2 in Y2. set (r := r_aversion q) in *. set (b := r_beta q) in *. assert (D: Y true = 1 - b).
        { replace (Y false) with (1 - Y true) in Y2 by lra. assert (K: (r / (1 - b)) * ((1 - b) - Y true) = 0) by (replace ((r / (1 - b)) * ((1 - b) - Y true)) with ((1 - Y true) * r + Y true * (r * (1 - 1 / (1 - b)))) by (field; lra); exact Y2).
          assert (0 < r / (1 - b)) by (apply Rdiv_lt_0_compat; [exact Hrho|assert (HB: 0 < b < 1) by exact Hb; clear - HB; lra]). apply Rmult_integral in K. lra. }
        assert (HB: 0 < b < 1) by exact Hb. intros [|]; [rewrite D; clear - HB; lra|]. replace (Y false) with (1 - Y true) by lra. rewrite D. clear - HB. lra. }
      set (shift := fun k j => Z k j / Y k). set (P' := map (fun a => {| at_i := at_i a; at_k := at_k a; at_x := fun j => at_x a j + shift (at_k a) j; at_m := at_m a |}) P).
      assert (SH: forall k j, 0 <= shift k j) by (intros k j; apply Rmult_le_pos; [auto|left; apply Rinv_0_lt_compat, YP]).
      assert (FP': Forall atom_ok P'). { apply Forall_map. eapply Forall_impl; [|exact FP]. intros a (Q1&Q2&Q3). split; [exact Q1|split; [exact Q2|]]. intros j Hj. cbn. specialize (Q3 j Hj). specialize (SH (at_k a) j). lra. }
      assert (L: forall i, (i < T)%nat -> law n (fun _ => True) (atoms_law P' i)). { intros i Hi. apply atoms_is_law; auto. unfold P'. rewrite so_map. cbn. auto. }
      exists (atoms_law P'). split.
      - exists (fun _ _ => True). split; [exact L|]. fold T n. rewrite (atoms_expect P' (fun i x => sum_over (seq 0 n) (fun j => Rabs (x j - r_returns q i j))) FP'). unfold P'. rewrite so_map. cbn [at_i at_k at_x at_m].
        apply Rle_trans with (sum_over P (fun a => at_m a * distance (at_i a) (at_x a) + at_m a * sum_over (seq 0 n) (shift (at_k a)))).
        + apply so_le. intros a Ha. rewrite <- Rmult_plus_distr_l. rewrite Forall_forall in FP. destruct (FP a Ha) as (_&Q2&_). apply Rmult_le_compat_l; auto. unfold distance. rewrite <- so_add. apply so_le. intros j _.
          replace (at_x a j + shift (at_k a) j - r_returns q (at_i a) j) with ((at_x a j - r_returns q (at_i a) j) + shift (at_k a) j) by ring. eapply Rle_trans; [apply Rabs_triang|]. rewrite (Rabs_right (shift _ _)); [lra|]. apply Rle_ge, SH.
        + rewrite so_add, (G (fun k => sum_over (seq 0 n) (shift k))). rewrite E2. unfold both. assert (K: forall k, Y k * sum_over (seq 0 n) (shift k) = sum_over (seq 0 n) (Z k)) by (intros k; rewrite <- so_scal; apply so_ext; intros j _; unfold shift; field; apply Rgt_not_eq, YP). rewrite !K. lra.
      - intros t. rewrite (expect_loss (fun _ _ => True)) by auto. unfold expect. fold T. rewrite (atoms_expect P' (fun _ => loss_at w t) FP'). unfold P'. rewrite so_map. cbn [at_i at_k at_x at_m].
        apply Rle_trans with (sum_over P (fun a => at_m a * (A (at_k a) * portfolio q w (fun j => at_x a j + shift (at_k a) j) + B (at_k a) * t))).
        + rewrite (so_ext _ (fun a => at_m a * (A (at_k a) * portfolio q w (at_x a)) + (at_m a * (A (at_k a) * portfolio q w (shift (at_k a))) + at_m a * B (at_k a) * t))).
          * rewrite so_add, so_add, (so_scal_r t). replace (sum_over P (fun a => at_m a * B (at_k a))) with 0 by lra. rewrite (G (fun k => A k * portfolio q w (shift k))). 
            assert (K: forall k, Y k * (A k * portfolio q w (shift k)) = sum_over (seq 0 n) (fun j => Z k j * (A k * w j))).
            { intros k. unfold portfolio. fold n. rewrite <- !so_scal. apply so_ext. intros j _. unfold shift. field. apply Rgt_not_eq, YP. }
            unfold both in *. rewrite !K. lra.
          * intros a _. unfold portfolio. fold n. rewrite (so_ext (fun j => w j * (at_x a j + shift (at_k a) j)) (fun j => w j * at_x a j + w j * shift (at_k a) j)) by (intros; ring). rewrite so_add. ring.
        + apply so_le. intros a Ha. rewrite Forall_forall in FP. destruct (FP a Ha) as (_&Q2&_). apply Rmult_le_compat_l; auto. unfold loss_at. rewrite pieces. destruct (at_k a); [apply Rmax_r|apply Rmax_l].
    Qed.
  End Dual.
End Proofs.

(** * Theorems *)
Lemma loss_value q p : (0 < r_obs q)%nat -> robust_loss q p = robust_value q p * r_scale_objective q.
Proof. intros H. unfold robust_loss, robust_value, sumn. field. apply not_0_INR. lia. Qed.
Lemma reported_one (x : vec) : reported x 1 = x.
Proof. extensionality i. unfold reported. field. Qed.
(** Feasible points: the weights are allowed, and the value is at least the mean-CVaR of the weights under every law of the ball. *)
Theorem C65_certificate : forall tf q cs p, valid q -> written_constraints tf (r_assets q) (robust_params q) (r_names q) cs ->
  robust_feasible tf q p ->
  robust_allowed tf q cs (robust_weights p)
  /\ forall E, in_ball q E -> mean_cvar_at q E (robust_weights p) (rtau p) <= robust_value q p.
Proof.
  intros tf q cs p Hv Hw Hf. assert (Hs: 0 < r_scale q) by apply Hv. apply (feasible_core tf q Hv) in Hf as (Hc&lw&Ew&Hl). split.
  - exact (proj1 (C33_reported_weights tf _ _ _ _ _ _ _ _ _ _ cs lw Hs Rlt_0_1 Hw Ew) Hl).
  - intros E HE. unfold robust_weights. rewrite reported_one. apply certificate; auto.
Qed.
Print Assumptions C65_certificate.
(** The optimal value is the worst mean-CVaR of the weights, and for any other allowed weights the worst is not less. *)
Theorem C65_worst_case : forall tf q cs p, valid q -> written_constraints tf (r_assets q) (robust_params q) (r_names q) cs ->
  robust_optimal tf q p ->
  robust_allowed tf q cs (robust_weights p)
  /\ (forall E r, in_ball q E -> mean_cvar q E (robust_weights p) r -> r <= robust_value q p)
  /\ (forall w delta, robust_allowed tf q cs w -> 0 < delta -> exists E r, in_ball q E /\ mean_cvar q E w r /\ robust_value q p - delta <= r).
Proof.
  intros tf q cs p Hv Hw [Hf Hopt]. destruct (C65_certificate tf q cs p Hv Hw Hf) as [Ha Hc]. split; [auto|]. split.
  - intros E r HE [Hr _]. eapply Rle_trans; [apply (Hr (rtau p))|auto].
  - intros w delta Hwa Hd. pose proof (proj1 Hv) as HT. assert (Hso: 0 < r_scale_objective q) by apply Hv. assert (Hs: 0 < r_scale q) by apply Hv.
    destruct (dual_law q Hv w (robust_value q p)) with (delta := delta) as (E&HE&HL); auto.
    + intros x Hx. rewrite <- (point_value q Hv w x). apply Rmult_le_reg_r with (r_scale_objective q); auto. rewrite <- !loss_value by auto. apply Hopt.
      apply (feasible_core tf q Hv). split; [apply point_core; auto|].
      apply (feasible_core tf q Hv) in Hf as (_&lw&Ew&_). destruct (weight_constraints_defined tf (r_assets q) (robust_params q) (r_names q) _ _ _ _ _ _ _ lw (rw (point_of q w x)) 1 (rm (point_of q w x)) eq_refl Ew) as (lw'&Ew'). exists lw'. split; auto.
      apply (proj2 (C33_reported_weights tf (r_assets q) (robust_params q) (r_names q) _ _ _ _ _ _ _ cs lw' Hs Rlt_0_1 Hw Ew') eq_refl). cbn [point_of rw]. rewrite reported_one. exact Hwa.
    + assert (G: exists r, mean_cvar q E w r).
      { destruct (completeness (fun y => exists t, y = - mean_cvar_at q E w t)) as (m&Hm1&Hm2).
        - exists (- (robust_value q p - delta)). intros y (t&->). specialize (HL t). lra.
        - exists (- mean_cvar_at q E w 0), 0. reflexivity.
        - exists (- m). split.
          + intros t. specialize (Hm1 (- mean_cvar_at q E w t) (ex_intro _ t eq_refl)). lra.
          + intros r' Hr'. assert (m <= - r'); [|lra]. apply Hm2. intros y (t&->). specialize (Hr' t). lra. }
      destruct G as (r&Hr). exists E, r. split; auto. split; auto. apply (proj2 Hr). exact HL.
Qed.
Print Assumptions C65_worst_case.
(** so that no allowed portfolio has a smaller bound on its mean-CVaR over the ball *)
Corollary C65_minimises_worst_case : forall tf q cs p w bound, valid q -> written_constraints tf (r_assets q) (robust_params q) (r_names q) cs ->
  robust_optimal tf q p -> robust_allowed tf q cs w ->
  (forall E r, in_ball q E -> mean_cvar q E w r -> r <= bound) ->
  forall E r, in_ball q E -> mean_cvar q E (robust_weights p) r -> r <= bound.
Proof.
  intros tf q cs p w bound Hv Hw Hopt Hwa Hb E r HE Hr. destruct (C65_worst_case tf q cs p Hv Hw Hopt) as (_&U&L).
  apply Rle_trans with (robust_value q p); [apply (U E); auto|]. apply Rnot_lt_le. intros Hlt. destruct (L w ((robust_value q p - bound) / 2) Hwa ltac:(lra)) as (E'&r'&HE'&Hr'&Hle). specialize (Hb E' r' HE' Hr'). lra.
Qed.
Print Assumptions C65_minimises_worst_case.

(** * A case: one asset that did not move, all the weight on it, radius one: the worst law loses everything, the value is 2 *)
Definition robust_example : robust := {|
  r_assets := 1; r_obs := 1; r_returns := fun _ _ => 0; r_beta := 1/2; r_aversion := 1; r_radius := 1; r_scale := 1; r_scale_objective := 1;
  r_min_weights := Some (fun _ => 0); r_max_weights := Some (fun _ => 1); r_budget := Some 1; r_min_budget := None; r_max_budget := None;
  r_max_short := None; r_max_long := None; r_groups := None; r_linear_constraints := None; r_left_inequality := None; r_right_inequality := None; r_names := None |}.
Definition robust_point : rpoint := {| rw := fun _ => 1; ru := fun _ _ => 0; rv := fun _ _ => 2; rlb := 1; rtau := 1; rs := fun _ => 1; rm := no_mip |}.
Example C65_hypotheses_met : valid robust_example /\ written_constraints no_float 1 (robust_params robust_example) None [] /\ robust_optimal no_float robust_example robust_point
  /\ robust_value robust_example robust_point = 2 /\ in_ball robust_example (fun _ f => f (fun _ => 0)) /\ in_ball robust_example (fun _ f => f (fun _ => -1)).
Proof.
  assert (V: valid robust_example) by (unfold valid; cbn; repeat split; try lia; try lra; intros; lra).
  assert (HB: forall c, -1 <= c <= 0 -> in_ball robust_example (fun _ f => f (fun _ => c))).
  { intros c Hc. exists (fun _ _ => True). split.
    - intros i Hi. constructor; auto. intros f g _ _ H. apply H. intros; lra.
    - cbn. unfold Rminus. rewrite !Ropp_0, !Rplus_0_r. rewrite Rabs_left1 by lra. lra. }
  split; [exact V|]. split; [reflexivity|]. split; [|split; [unfold robust_value; cbn; lra|split; apply HB; lra]]. split.
  - apply (feasible_core no_float robust_example V). split.
    + split; [cbn; lra|]. intros i Hi. cbn in Hi. split; [intros j Hj; cbn; unfold a1, a2; cbn; repeat split; try lra; apply Rabs_le; lra|]. unfold gross, a1, a2, b1, b2. cbn. lra.
    + eexists. split; [reflexivity|]. unfold elementwise. cbn. repeat (constructor; [cbn; unfold sumn; cbn; lra|]). constructor.
  - intros p Hp. apply (feasible_core no_float robust_example V) in Hp as ((L&H)&lw&Ew&Hl). destruct (H 0%nat ltac:(cbn; lia)) as (H1&H2&H3). destruct (H1 0%nat ltac:(cbn; lia)) as (U1&U2&N1&N2).
    pose proof (proj1 (C33_reported_weights no_float 1 (robust_params robust_example) None _ _ _ 1 _ _ _ [] lw Rlt_0_1 Rlt_0_1 eq_refl Ew) Hl) as D. destruct D as (_&_&_&_&_&_&D&_). cbn in D. unfold reported in D.
    unfold a1, a2, b1, b2, gross in *. cbn in *. unfold robust_loss, sumn. cbn.
    assert (W: rw p 0%nat = 1) by lra. rewrite W in N1, N2. pose proof (Rle_abs (- (- ru p 0%nat 0%nat - -1 * 1))) as A1. rewrite Rabs_Ropp in A1. pose proof (Rle_abs (- rv p 0%nat 0%nat - (-1 - 1 / (1 - 1 / 2)) * 1)) as A2. rewrite W in H2, H3.
    pose proof (Rle_abs (- ru p 0%nat 0%nat - -1 * 1)) as A3. lra.
Qed.
