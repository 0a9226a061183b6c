(** C33, C34: the weights reported by a convex optimisation satisfy the documented constraints. *)
From Coq Require Import List ZArith Bool Arith Reals Lia Lra.
From Verif Require Import RList EquationsModel EquationsSpec EquationsProofs EquationsProps ConvexModel.
Import ListNotations.
Local Open Scope R_scope.

(** * Specification: what the documentation promises about the weights x of the n assets *)
Section Spec.
  Variable to_float : str -> option R.
  Variable n : nat.
  Variable p : params.
  Definition opt {A} (o : option A) (P : A -> Prop) : Prop := match o with Some a => P a | None => True end.
  (** the linear constraints [cs] are those written in [linear_constraints] *)
  Definition written_constraints (names : option (list str)) (cs : list constr) : Prop :=
    match linear_constraints p with
    | None => cs = []
    | Some strings =>
        exists g, (match groups p with Some g' => g = g' | None => match names with Some l => g = [l] | None => False end end)
          /\ Forall (fun level => length level = n) g /\ levels_disjoint g
          /\ Forall (wf_constr to_float g) cs /\ Forall (fun c => (Z.of_nat (n_terms c) < 1000000)%Z) cs
          /\ Forall2 (fun c s => written (constr_toks c) s) cs strings
    end.
  Definition level_names (names : option (list str)) : list (list str) :=
    match groups p with Some g => g | None => match names with Some l => [l] | None => [] end end.
  Definition documented (names : option (list str)) (cs : list constr) (x : vec) : Prop :=
    opt (min_weights p) (fun mn => forall i, (i < n)%nat -> mn i <= x i)
    /\ opt (max_weights p) (fun mx => forall i, (i < n)%nat -> x i <= mx i)
    /\ opt (max_long p) (fun l => sum_over (seq 0 n) (fun i => Rmax (x i) 0) <= l)
    /\ opt (max_short p) (fun l => sum_over (seq 0 n) (fun i => Rmax (- x i) 0) <= l)
    /\ opt (min_budget p) (fun b => b <= sum_over (seq 0 n) x)
    /\ opt (max_budget p) (fun b => sum_over (seq 0 n) x <= b)
    /\ opt (budget p) (fun b => sum_over (seq 0 n) x = b)
    /\ Forall (holds to_float (level_names names) n false x) cs
    /\ (forall l r, left_inequality p = Some l -> right_inequality p = Some r ->
          forall k, (k < length l)%nat -> sum_over (seq 0 n) (fun i => nth i (nth k l []) 0 * x i) <= nth k r 0).
  (** number of assets with a position, of all the assets and of a group *)
  Definition positions (x : vec) (ids : list nat) : nat := length (filter (fun i => if Req_EM_T (x i) 0 then false else true) ids).
  Definition within_cardinalities (x : vec) : Prop :=
    opt (cardinality p) (fun k => (positions x (seq 0 n) <= k)%nat)
    /\ opt (group_cardinalities p) (fun cards => opt (groups p) (fun g =>
         Forall (fun gc => (Z.of_nat (positions x (members g n (fst gc))) <= snd gc)%Z) cards)).
  (** every position is long above the long threshold or short below the short threshold *)
  Definition within_thresholds (x : vec) : Prop :=
    forall i, (i < n)%nat -> x i = 0
      \/ (opt (threshold_long p) (fun t => t i <= x i) /\ 0 <= x i)
      \/ (opt (threshold_short p) (fun t => x i <= t i) /\ x i <= 0).
End Spec.

(** * Proofs *)
Lemma capp_ok a b l : a +++ b = COk l <-> exists la lb, a = COk la /\ b = COk lb /\ l = la ++ lb.
Proof.
  destruct a as [la|]; cbn; [destruct b as [lb|]; cbn|]; split; intros H.
  - inversion H; subst; eauto. - destruct H as (x&y&A&B&->). inversion A; inversion B; subst; reflexivity.
  - discriminate. - destruct H as (x&y&A&B&_). discriminate. - discriminate. - destruct H as (x&y&A&_). discriminate.
Qed.
Lemma elementwise_holds n c : Forall holds_at (elementwise n c) <-> forall i, (i < n)%nat -> holds_at (c i).
Proof.
  unfold elementwise. rewrite Forall_forall. split.
  - intros H i Hi. apply H, in_map, in_seq. lia.
  - intros H x Hx. apply in_map_iff in Hx as (i&<-&Hi). apply in_seq in Hi. apply H. lia.
Qed.
Lemma all_spec n q : all n q = true <-> forall i, (i < n)%nat -> q i = true.
Proof. unfold all. rewrite forallb_forall. split; intros H i Hi; apply H; [apply in_seq; lia|apply in_seq in Hi; lia]. Qed.
Lemma any_spec n q : any n q = true <-> exists i, (i < n)%nat /\ q i = true.
Proof. unfold any. rewrite existsb_exists. split; intros (i&Hi&H); exists i; split; auto; [apply in_seq in Hi; lia|apply in_seq; lia]. Qed.
Lemma any_false n q : any n q = false <-> forall i, (i < n)%nat -> q i = false.
Proof.
  split.
  - intros H i Hi. destruct (q i) eqn:E; auto. assert (any n q = true) by (apply any_spec; eauto). congruence.
  - intros H. destruct (any n q) eqn:E; auto. apply any_spec in E as (i&Hi&E). rewrite H in E by auto. discriminate.
Qed.
Lemma ltb_true x y : ltb x y = true <-> x < y.
Proof. unfold ltb. destruct (Rlt_dec x y); split; intros; auto; discriminate. Qed.
Lemma ltb_false x y : ltb x y = false <-> y <= x.
Proof. unfold ltb. destruct (Rlt_dec x y); split; intros; auto; try discriminate; lra. Qed.
Lemma eqb0_true x : eqb0 x = true <-> x = 0.
Proof. unfold eqb0. destruct (Req_EM_T x 0); split; intros; auto; discriminate. Qed.

Section Scale.
  Variables (s f : R). Hypotheses (Hs : 0 < s) (Hf : 0 < f).
  Lemma sc_le a b : a * s <= b * s <-> a <= b.
  Proof. clear Hf. split; intros H; nra. Qed.
  Lemma div_le_r a b : a <= b * f <-> a / f <= b.
  Proof. clear Hs. split; intros H; [apply Rmult_le_reg_r with f; auto; unfold Rdiv; rewrite Rmult_assoc, Rinv_l by lra; lra|]. apply (Rmult_le_compat_r f) in H; [|lra]. unfold Rdiv in H. rewrite Rmult_assoc, Rinv_l in H by lra. lra. Qed.
  Lemma div_le_l a b : b * f <= a <-> b <= a / f.
  Proof. clear Hs. split; intros H; [apply Rmult_le_reg_r with f; auto; unfold Rdiv; rewrite Rmult_assoc, Rinv_l by lra; lra|]. apply (Rmult_le_compat_r f) in H; [|lra]. unfold Rdiv in H. rewrite Rmult_assoc, Rinv_l in H by lra. lra. Qed.
  Lemma div_eq a b : a = b * f <-> a / f = b.
  Proof. clear Hs. split; intros H; [subst; field; lra|subst; field; lra]. Qed.
  Lemma upper a b : a * s <= b * f * s <-> a / f <= b.
  Proof. rewrite sc_le. apply div_le_r. Qed.
  Lemma lower a b : b * f * s <= a * s <-> b <= a / f.
  Proof. rewrite sc_le. apply div_le_l. Qed.
  Lemma equal a b : a * s = b * f * s <-> a / f = b.
  Proof. rewrite <- div_eq. split; intros H; [apply Rmult_eq_reg_r with s; lra|rewrite H; ring]. Qed.
  Lemma upper0 a b : a * s - b * f * s <= 0 <-> a / f <= b.
  Proof. rewrite <- upper. split; lra. Qed.
  Lemma equal0 a b : a * s - b * f * s = 0 <-> a / f = b.
  Proof. rewrite <- equal. split; lra. Qed.
  Lemma sum_div n w : sumn n w / f = sum_over (seq 0 n) (reported w f).
  Proof. clear. unfold sumn, reported, Rdiv. rewrite <- so_scal_r. reflexivity. Qed.
  Lemma pos_div x : Rmax x 0 / f = Rmax (x / f) 0.
  Proof. clear Hs. unfold Rdiv. assert (0 < / f) by (apply Rinv_0_lt_compat; auto). rewrite !(Rmult_comm _ (/ f)). rewrite <- RmaxRmult by lra. rewrite Rmult_0_r. reflexivity. Qed.
  Lemma row_div n row w : rowdotn n row w / f = rowdotn n row (reported w f).
  Proof. clear. unfold rowdotn, sumn, reported, Rdiv. rewrite <- so_scal_r. apply so_ext. intros; ring. Qed.
End Scale.
Lemma rows_forall2 (P : list R -> R -> Prop) (g : list R * R -> constraint) :
  (forall rb, holds_at (g rb) <-> P (fst rb) (snd rb)) -> forall a b, length a = length b ->
  Forall holds_at (map g (combine a b)) <-> Forall2 P a b.
Proof.
  intros Hg. induction a as [|x a IH]; intros [|y b] L; try discriminate; cbn [combine map].
  - split; constructor.
  - assert (L': length a = length b) by (cbn in L; lia). split; intros H; inversion H; subst; constructor; [apply (Hg (x, y)); auto|apply (IH b L'); auto|apply (Hg (x, y)); auto|apply (IH b L'); auto].
Qed.
Lemma matrix_lengths tf g n eqs av rm m : equations_to_matrix tf g n eqs av rm = EOk m -> length (a_eq m) = length (b_eq m) /\ length (a_ineq m) = length (b_ineq m).
Proof.
  unfold equations_to_matrix. destruct (validate_groups g) as [g'|]; [|discriminate].
  set (F := fun acc s => _). assert (G: forall eqs acc, (match acc with EOk m => length (a_eq m) = length (b_eq m) /\ length (a_ineq m) = length (b_ineq m) | EErr _ => True end) ->
    match fold_left F eqs acc with EOk m => length (a_eq m) = length (b_eq m) /\ length (a_ineq m) = length (b_ineq m) | EErr _ => True end).
  { clear. induction eqs as [|e eqs IH]; intros acc H; [auto|]. cbn [fold_left]. apply IH. unfold F. destruct acc as [m|]; [|auto].
    destruct (string_to_equation tf g' n av e) as [[[l r] [|]]|[]]; cbn; rewrite ?app_length; cbn; try (destruct rm); auto; lia. }
  intros H. specialize (G eqs (EOk {| a_eq := []; b_eq := []; a_ineq := []; b_ineq := [] |}) (conj eq_refl eq_refl)). rewrite H in G. exact G.
Qed.
Lemma rowdot_same n row w : rowdotn n row w = rowdot n row w.
Proof. reflexivity. Qed.

Lemma weight_constraints_core tf n p names ms an fv s w f m cs l :
    0 < s -> 0 < f -> written_constraints tf n p names cs ->
    weight_constraints tf n p names ms an fv s w f m = COk l ->
    exists l8, mip_constraints n p s fv w f m = COk l8 /\ (Forall holds_at l <-> documented tf n p names cs (reported w f) /\ Forall holds_at l8).
Proof.
  intros Hs Hf Hcs E. unfold weight_constraints in E.
  destruct (is_mip n p && negb ms) eqn:Em; [discriminate|]. clear Em.
  apply capp_ok in E as (l1&r1&E1&E&->). apply capp_ok in E as (l2&r2&E2&E&->). apply capp_ok in E as (l3&r3&E3&E&->).
  apply capp_ok in E as (l4&r4&E4&E&->). apply capp_ok in E as (l5&r5&E5&E&->). apply capp_ok in E as (l6&r6&E6&E&->).
  apply capp_ok in E as (l7&r7&E7&E&->). apply capp_ok in E as (l8&r8&E8&E&->). apply capp_ok in E as (l9&l10&E9&E10&->).
  set (x := reported w f).
  assert (H1: Forall holds_at l1 <-> opt (min_weights p) (fun mn => forall i, (i < n)%nat -> mn i <= x i)).
  { destruct (min_weights p) as [mn|]; [|inversion E1; subst; cbn; split; auto]. destruct (negb an && _); [discriminate|]. inversion E1; subst. rewrite elementwise_holds. cbn [opt holds_at].
    split; intros H i Hi; specialize (H i Hi); apply (lower s f); auto. }
  assert (H2: Forall holds_at l2 <-> opt (max_weights p) (fun mx => forall i, (i < n)%nat -> x i <= mx i)).
  { destruct (max_weights p) as [mx|]; inversion E2; subst; [|cbn; split; auto]. rewrite elementwise_holds. cbn [opt holds_at]. split; intros H i Hi; specialize (H i Hi); apply (upper s f); auto. }
  assert (one: forall c, Forall holds_at [c] <-> holds_at c). { intros c. split; intros H; [inversion H; auto|constructor; auto]. }
  assert (H3: Forall holds_at l3 <-> opt (max_long p) (fun l => sum_over (seq 0 n) (fun i => Rmax (x i) 0) <= l)).
  { destruct (max_long p) as [b|]; [|inversion E3; subst; cbn; split; auto]. destruct (ltb 0 b); [|discriminate]. inversion E3; subst. rewrite one. cbn [opt holds_at]. rewrite (upper s f) by auto. rewrite sum_div.
    unfold reported. rewrite (so_ext _ (fun i => Rmax (x i) 0)); [tauto|]. intros i _. apply pos_div; auto. }
  assert (H4: Forall holds_at l4 <-> opt (max_short p) (fun l => sum_over (seq 0 n) (fun i => Rmax (- x i) 0) <= l)).
  { destruct (max_short p) as [b|]; [|inversion E4; subst; cbn; split; auto]. destruct (ltb 0 b); [|discriminate]. inversion E4; subst. rewrite one. cbn [opt holds_at]. rewrite (upper s f) by auto. rewrite sum_div.
    unfold reported. rewrite (so_ext _ (fun i => Rmax (- x i) 0)); [tauto|]. intros i _. rewrite pos_div by auto. unfold x, reported. f_equal. field. lra. }
  assert (H5: Forall holds_at l5 <-> opt (min_budget p) (fun b => b <= sum_over (seq 0 n) x)).
  { destruct (min_budget p) as [b|]; inversion E5; subst; [|cbn; split; auto]. rewrite one. cbn [opt holds_at]. rewrite (lower s f) by auto. rewrite sum_div. tauto. }
  assert (H6: Forall holds_at l6 <-> opt (max_budget p) (fun b => sum_over (seq 0 n) x <= b)).
  { destruct (max_budget p) as [b|]; inversion E6; subst; [|cbn; split; auto]. rewrite one. cbn [opt holds_at]. rewrite (upper s f) by auto. rewrite sum_div. tauto. }
  assert (H7: Forall holds_at l7 <-> opt (budget p) (fun b => sum_over (seq 0 n) x = b)).
  { destruct (budget p) as [b|]; [|inversion E7; subst; cbn; split; auto]. destruct (is_some (max_budget p)); [discriminate|]. destruct (is_some (min_budget p)); [discriminate|]. inversion E7; subst. rewrite one. cbn [opt holds_at]. rewrite (equal s f) by auto. rewrite sum_div. tauto. }
  assert (H9: Forall holds_at l9 <-> Forall (holds tf (level_names p names) n false x) cs).
  { unfold written_constraints in Hcs. destruct (linear_constraints p) as [strings|]; [|inversion E9; subst; cbn; split; constructor].
    destruct Hcs as (g&Hg&Hs1&Hd&Hwf&Hnt&Hwr).
    assert (Eg: level_names p names = g /\ (match groups p, names with Some g, _ => Some g | None, Some l => Some [l] | None, None => None end) = Some g).
    { unfold level_names. destruct (groups p); [subst; auto|]. destruct names; [subst; auto|destruct Hg]. }
    destruct Eg as [Eg1 Eg2]. rewrite Eg2 in E9. rewrite Eg1.
    destruct (C08_matrix_meaning tf g n false false cs strings Hs1 Hd Hwf Hnt Hwr) as (mat&Em&_&_&Hrows). rewrite Em in E9. inversion E9; subst l9. clear E9.
    destruct (matrix_lengths _ _ _ _ _ _ _ Em) as [L1 L2]. rewrite <- (Hrows x). unfold rows_hold. rewrite Forall_app.
    rewrite (rows_forall2 (fun row b => rowdot n row x = b)); [|intros [row b]; cbn [holds_at fst snd]; rewrite (equal0 s f) by auto; rewrite row_div, rowdot_same; tauto|auto].
    rewrite (rows_forall2 (fun row b => rowdot n row x <= b)); [|intros [row b]; cbn [holds_at fst snd]; rewrite (upper0 s f) by auto; rewrite row_div, rowdot_same; tauto|auto]. tauto. }
  assert (H10: Forall holds_at l10 <-> (forall l r, left_inequality p = Some l -> right_inequality p = Some r ->
          forall k, (k < length l)%nat -> sum_over (seq 0 n) (fun i => nth i (nth k l []) 0 * x i) <= nth k r 0)).
  { destruct (left_inequality p) as [lm|]; [destruct (right_inequality p) as [rv|]|]; [|inversion E10; subst; split; [intros _ ? ? ? ?; discriminate|constructor]|inversion E10; subst; split; [intros _ ? ? ?; discriminate|constructor]].
    destruct (forallb _ lm && (length lm =? length rv)%nat) eqn:Es; [|discriminate]. apply andb_true_iff in Es as [_ L]. apply Nat.eqb_eq in L. inversion E10; subst l10. clear E10.
    rewrite (rows_forall2 (fun row b => rowdot n row x <= b)); [|intros [row b]; cbn [holds_at fst snd]; rewrite (upper0 s f) by auto; rewrite row_div, rowdot_same; tauto|auto].
    split.
    - intros HF l r A B. inversion A; inversion B; subst l r. clear A B. clear -HF. induction HF as [|row b lm rv H HF IH]; intros k Hk; [cbn in Hk; lia|]. destruct k; [exact H|]. apply IH. cbn in Hk. lia.
    - intros H. specialize (H lm rv eq_refl eq_refl). clear -H L. revert rv L H. induction lm as [|row lm IH]; intros [|b rv] L H; try discriminate; constructor.
      + apply (H 0%nat). cbn. lia. + apply IH; [cbn in L; lia|]. intros k Hk. apply (H (S k)). cbn. lia. }
  exists l8. split; [exact E8|]. unfold documented. rewrite !Forall_app. fold x. tauto.
Qed.
(** The weights reported from a point (w, f) with positive factor satisfy the documented constraints if and only if
    the point satisfies the constraints given to the solver (without mixed-integer constraints); with mixed-integer
    constraints the documented constraints still follow. *)
Theorem C33_reported_weights :
  forall to_float n p names mip_solver allow_negative factor_is_variable s w f m cs l,
    0 < s -> 0 < f -> written_constraints to_float n p names cs ->
    weight_constraints to_float n p names mip_solver allow_negative factor_is_variable s w f m = COk l ->
    (Forall holds_at l -> documented to_float n p names cs (reported w f))
    /\ (is_mip n p = false -> documented to_float n p names cs (reported w f) -> Forall holds_at l).
Proof.
  intros tf n p names ms an fv s w f m cs l Hs Hf Hcs E. destruct (weight_constraints_core tf n p names ms an fv s w f m cs l Hs Hf Hcs E) as (l8&E8&H). split; [tauto|].
  intros Hmip D. apply H. split; auto. unfold mip_constraints in E8. rewrite Hmip in E8. inversion E8. constructor.
Qed.
Print Assumptions C33_reported_weights.

(** * C34 *)
Lemma product_spec n b bf f : Forall holds_at (elementwise n (fun i => IsBoolean (b i))) -> Forall holds_at (product_constraints n b bf f) ->
  forall i, (i < n)%nat -> bf i = b i * f.
Proof.
  intros Hb H i Hi. unfold product_constraints in H. rewrite !Forall_app, !elementwise_holds in H. destruct H as (A1&A2&A3&A4). rewrite elementwise_holds in Hb.
  specialize (Hb i Hi). specialize (A1 i Hi). specialize (A2 i Hi). specialize (A3 i Hi). specialize (A4 i Hi). cbn [holds_at] in *. unfold bigM in *. destruct Hb as [Hb|Hb]; rewrite Hb in *; lra.
Qed.
Lemma positions_le x (b row : vec) (q : nat -> bool) l :
  (forall i, In i l -> 0 <= b i) -> (forall i, In i l -> x i <> 0 -> 1 <= b i) ->
  (forall i, In i l -> q i = true -> row i = 1) -> (forall i, In i l -> q i = false -> row i = 0) ->
  INR (positions x (filter q l)) <= sum_over l (fun i => row i * b i).
Proof.
  unfold positions. induction l as [|i l IH]; intros H0 H1 H2 H3; [cbn; lra|]. rewrite so_cons. cbn [filter].
  assert (IH': INR (length (filter (fun i => if Req_EM_T (x i) 0 then false else true) (filter q l))) <= sum_over l (fun i => row i * b i)) by (apply IH; intros; auto with datatypes).
  pose proof (H0 i (or_introl eq_refl)). destruct (q i) eqn:Eq.
  - rewrite (H2 i (or_introl eq_refl) Eq). cbn [filter]. destruct (Req_EM_T (x i) 0) as [E|E]; [lra|]. pose proof (H1 i (or_introl eq_refl) E). cbn [length]. rewrite S_INR. lra.
  - rewrite (H3 i (or_introl eq_refl) Eq). lra.
Qed.
Lemma filter_true_all {A} (l : list A) : filter (fun _ => true) l = l.
Proof. induction l; cbn; congruence. Qed.
Lemma positions_all x (b : vec) n : (forall i, (i < n)%nat -> 0 <= b i) -> (forall i, (i < n)%nat -> x i <> 0 -> 1 <= b i) -> INR (positions x (seq 0 n)) <= sumn n b.
Proof.
  intros H0 H1. unfold sumn. rewrite (so_ext b (fun i => 1 * b i)) by (intros; ring). rewrite <- (filter_true_all (seq 0 n)) at 1.
  apply (positions_le x b (fun _ => 1) (fun _ => true)); intros i Hi; try apply in_seq in Hi; try (apply H0 || apply H1); auto; try lia; discriminate.
Qed.
Definition position (x : vec) (i : nat) : R := if Req_EM_T (x i) 0 then 0 else 1.
Lemma positions_eq x (row : vec) (q : nat -> bool) l :
  (forall i, In i l -> q i = true -> row i = 1) -> (forall i, In i l -> q i = false -> row i = 0) ->
  INR (positions x (filter q l)) = sum_over l (fun i => row i * position x i).
Proof.
  unfold positions, position. induction l as [|i l IH]; intros H2 H3; [reflexivity|]. rewrite so_cons. cbn [filter].
  assert (IH': INR (length (filter (fun i => if Req_EM_T (x i) 0 then false else true) (filter q l))) = sum_over l (fun i => row i * (if Req_EM_T (x i) 0 then 0 else 1))) by (apply IH; intros; auto with datatypes).
  destruct (q i) eqn:Eq.
  - rewrite (H2 i (or_introl eq_refl) Eq). cbn [filter]. destruct (Req_EM_T (x i) 0) as [E|E]; [lra|]. cbn [length]. rewrite S_INR. lra.
  - rewrite (H3 i (or_introl eq_refl) Eq). lra.
Qed.
Lemma positions_eq_all x n : INR (positions x (seq 0 n)) = sumn n (position x).
Proof.
  unfold sumn. rewrite (so_ext (position x) (fun i => 1 * position x i)) by (intros; ring). rewrite <- (filter_true_all (seq 0 n)) at 1.
  apply (positions_eq x (fun _ => 1) (fun _ => true)); intros; auto; discriminate.
Qed.
Lemma positions_bound x l : (positions x l <= length l)%nat.
Proof. unfold positions. induction l as [|i l IH]; cbn; [lia|]. destruct (Req_EM_T (x i) 0); cbn; lia. Qed.
(** the group names and levels used in group_cardinalities are valid *)
Definition groups_ok (n : nat) (p : params) : Prop :=
  opt (group_cardinalities p) (fun cards => opt (groups p) (fun g =>
    Forall (fun level => length level = n) g /\ levels_disjoint g /\ Forall (fun gc => known g (fst gc)) cards)).
Lemma card_sound n p x inv l : groups_ok n p -> (forall i, (i < n)%nat -> 0 <= inv i) -> (forall i, (i < n)%nat -> x i <> 0 -> 1 <= inv i) ->
  Forall holds_at (cardinality_constraints n p inv) -> group_card_constraints n p inv = COk l -> Forall holds_at l -> within_cardinalities n p x.
Proof.
  intros Hg H0 H1 Hc El Hl. split.
  - unfold cardinality_constraints in Hc. destruct (cardinality p) as [k|]; [|exact I]. cbn [opt]. destruct (Nat.ltb_spec k n).
    + apply INR_le. inversion Hc as [|? ? A _]; subst. cbn [holds_at] in A. pose proof (positions_all x inv n H0 H1). lra.
    + pose proof (positions_bound x (seq 0 n)). rewrite seq_length in *. lia.
  - unfold group_card_constraints in El. unfold groups_ok in Hg. destruct (group_cardinalities p) as [cards|]; [|exact I]. destruct (groups p) as [g|]; [|exact I]. cbn [opt] in *. destruct Hg as (G1&G2&G3).
    destruct (C10_group_cardinalities g n cards false G1 G2 G3) as (a&Ea&HF). rewrite Ea in El. inversion El; subst l. clear El Ea G3. induction HF as [|gc row cards a [Lr Hr] HF IH]; [constructor|].
    cbn [map combine] in Hl. inversion Hl as [|? ? A B]; subst. cbn [holds_at fst snd] in A. constructor; [|apply IH; auto].
    apply le_IZR. rewrite <- INR_IZR_INZ. unfold members. unfold rowdotn, sumn in A. eapply Rle_trans; [|apply Rminus_le, A].
    apply (positions_le x inv (fun i => nth i row 0)); intros i Hi; apply in_seq in Hi; try (apply H0 || apply H1); try lia; intros Eq; apply (Hr i); try lia; unfold members; rewrite filter_In; rewrite Eq; [split; [apply in_seq; lia|auto]|intros [_ Y]; discriminate].
Qed.
Lemma card_complete n p x : groups_ok n p -> (is_some (group_cardinalities p) = true -> is_some (groups p) = true) -> within_cardinalities n p x ->
  Forall holds_at (cardinality_constraints n p (position x)) /\ exists l, group_card_constraints n p (position x) = COk l /\ Forall holds_at l.
Proof.
  intros Hg Hgs [A B]. split.
  - unfold cardinality_constraints. destruct (cardinality p) as [k|]; [|constructor]. destruct (Nat.ltb_spec k n); constructor; [|constructor]. cbn [holds_at opt] in *. rewrite <- positions_eq_all. apply le_INR; auto.
  - unfold group_card_constraints, groups_ok in *. destruct (group_cardinalities p) as [cards|]; [|exists []; split; [auto|constructor]]. destruct (groups p) as [g|]; [|discriminate Hgs; auto]. cbn [opt] in *. destruct Hg as (G1&G2&G3).
    destruct (C10_group_cardinalities g n cards false G1 G2 G3) as (a&Ea&HF). rewrite Ea. eexists. split; [reflexivity|]. clear Ea G3. induction HF as [|gc row cards a [Lr Hr] HF IH]; [constructor|].
    inversion B as [|? ? B1 B2]; subst. cbn [map combine]. constructor; [|apply IH; auto]. cbn [holds_at fst snd]. apply IZR_le in B1. rewrite <- INR_IZR_INZ in B1. unfold members in B1.
    rewrite (positions_eq x (fun i => nth i row 0)) in B1; [unfold rowdotn, sumn; lra| |]; intros i Hi Eq; apply in_seq in Hi; apply (Hr i); try lia; unfold members; rewrite filter_In; rewrite Eq; [split; [apply in_seq; lia|auto]|intros [_ Y]; discriminate].
Qed.
(** every feasible mixed-integer point gives reported weights within the cardinalities and the thresholds *)
Theorem C34_cardinalities_and_thresholds :
  forall to_float n p names mip_solver allow_negative factor_is_variable s w f m l,
    0 < s -> 0 < f -> (factor_is_variable = false -> f = 1) -> groups_ok n p ->
    weight_constraints to_float n p names mip_solver allow_negative factor_is_variable s w f m = COk l ->
    Forall holds_at l -> within_cardinalities n p (reported w f) /\ within_thresholds n p (reported w f).
Proof.
  intros tf n p names ms an fv s w f m l Hs Hf Hfv Hg E Hl.
  destruct (is_mip n p) eqn:Hmip.
  2: { unfold is_mip in Hmip. rewrite !orb_false_iff in Hmip. destruct Hmip as (((M1&M2)&M3)&M4). split; [split|].
       - destruct (cardinality p) as [k|]; [|exact I]. apply Nat.ltb_ge in M1. cbn [opt]. pose proof (positions_bound (reported w f) (seq 0 n)). rewrite seq_length in *. lia.
       - destruct (group_cardinalities p); [discriminate|exact I].
       - intros i Hi. right. destruct (threshold_long p); [discriminate|]. destruct (threshold_short p); [discriminate|]. cbn [opt]. destruct (Rle_dec 0 (reported w f i)); [left|right]; split; auto; lra. }
  unfold weight_constraints in E.
  destruct (is_mip n p && negb ms) eqn:Em; [discriminate|]. clear Em.
  apply capp_ok in E as (l1&r1&E1&E&->). apply capp_ok in E as (l2&r2&E2&E&->). apply capp_ok in E as (l3&r3&E3&E&->).
  apply capp_ok in E as (l4&r4&E4&E&->). apply capp_ok in E as (l5&r5&E5&E&->). apply capp_ok in E as (l6&r6&E6&E&->).
  apply capp_ok in E as (l7&r7&E7&E&->). apply capp_ok in E as (l8&r8&E8&E&->). rewrite !Forall_app in Hl. destruct Hl as (A1&_&_&_&_&_&_&A8&_).
  clear E2 E3 E4 E5 E6 E7 E l2 l3 l4 l5 l6 l7 r8.
  unfold mip_constraints in E8. rewrite Hmip in E8. cbn [negb] in E8. destruct (min_weights p) as [mn|] eqn:Emn; [|discriminate].
  destruct (negb an && _); [discriminate|]. inversion E1; subst l1. clear E1. rewrite elementwise_holds in A1. cbn [holds_at] in A1.
  destruct (max_weights p) as [mx|]; [|discriminate]. destruct (all n _); [discriminate|]. destruct (is_some (group_cardinalities p) && _); [discriminate|].
  set (is_short := any n (fun i => ltb (mn i) 0)) in *. set (tl := clean_threshold n (threshold_long p)) in *. set (ts := clean_threshold n (threshold_short p)) in *.
  destruct (is_some (threshold_long p) && negb (is_some (threshold_short p)) && is_short) eqn:C1; [discriminate|].
  destruct (is_some ts && negb (is_some tl)) eqn:C2; [discriminate|].
  set (x := reported w f).
  assert (Hw: forall i, w i = x i * f) by (intros i; unfold x, reported; field; lra).
  assert (Hmn: forall i, (i < n)%nat -> mn i <= x i) by (intros i Hi; apply (lower s f); auto; apply A1; auto).
  assert (Hcl: forall t i, (i < n)%nat -> match clean_threshold n t with Some v => t = Some v | None => t = None \/ exists v, t = Some v /\ v i = 0 end).
  { intros t i Hi. unfold clean_threshold. destruct t as [v|]; [|auto]. destruct (all n _) eqn:Ea; [|auto]. right. exists v. split; auto. rewrite all_spec in Ea. apply eqb0_true. apply (Ea i Hi). }
  assert (Hx0: forall i, w i = 0 -> x i = 0). { intros i Hi. unfold x, reported. rewrite Hi. field. lra. }
  destruct (is_some (threshold_short p) && is_short) eqn:C3.
  - (* two booleans *)
    destruct tl as [tlv|] eqn:Etl; [|discriminate]. destruct ts as [tsv|] eqn:Ets; [|discriminate]. unfold mip_short in E8.
    apply capp_ok in E8 as (la&r&Ea&E8&->). apply capp_ok in E8 as (lb&lc&Eb&Ec&->). inversion Ea; subst la. inversion Ec; subst lc. clear Ea Ec.
    rewrite !Forall_app in A8. destruct A8 as ((B1&B2&B3)&B4&B5&B6&B7&B8&B9&B10). cbn [holds_at] in *.
    assert (Hf2: forall i, (i < n)%nat -> (if fv then short_factor m else short m) i = short m i * f /\ (if fv then long_factor m else long m) i = long m i * f).
    { intros i Hi. destruct fv; [|rewrite Hfv by auto; split; ring]. rewrite Forall_app in B5. destruct B5. split; apply (product_spec n); auto. }
    rewrite elementwise_holds in B1, B2, B6, B7, B8, B9, B10. cbn [holds_at] in *.
    assert (Q: forall i, (i < n)%nat -> (x i = 0 \/ (tlv i <= x i /\ 0 <= x i) \/ (x i <= tsv i /\ x i <= 0)) /\ 0 <= short m i + long m i /\ (x i <> 0 -> 1 <= short m i + long m i)).
    { intros i Hi. destruct (Hf2 i Hi) as [F1 F2]. specialize (B1 i Hi). specialize (B2 i Hi). specialize (B6 i Hi). specialize (B7 i Hi). specialize (B8 i Hi). specialize (B9 i Hi). specialize (B10 i Hi).
      rewrite F2 in B7. rewrite F1 in B8. rewrite F2 in B9. rewrite F1 in B10. apply sc_le in B7; auto. apply sc_le in B8; auto. rewrite <- Rmult_minus_distr_r in B9. apply sc_le in B9; auto. rewrite <- Rmult_plus_distr_r in B10. apply sc_le in B10; auto.
      destruct B1 as [b1|b1], B2 as [b2|b2]; rewrite b1, b2 in *.
      - assert (x i = 0) by (apply Hx0; nra). split; [auto|]. split; [lra|]. intros; contradiction.
      - split; [|split; [lra|intros; lra]]. right; left. unfold x, reported. split; [apply (div_le_l f Hf); lra|]. apply (div_le_l f Hf). nra.
      - split; [|split; [lra|intros; lra]]. right; right. unfold x, reported. split; [apply (div_le_r f Hf); lra|]. apply (div_le_r f Hf). nra.
      - lra. }
    split.
    + apply (card_sound n p x (fun i => short m i + long m i) lb); auto; intros i Hi; apply (Q i Hi).
    + intros i Hi. destruct (Q i Hi) as [Q1 _]. pose proof (Hcl (threshold_long p) i Hi) as T1. fold tl in T1. rewrite Etl in T1. pose proof (Hcl (threshold_short p) i Hi) as T2. fold ts in T2. rewrite Ets in T2. rewrite T1, T2. cbn [opt]. exact Q1.
  - (* one boolean *)
    unfold mip_no_short in E8. fold is_short in E8.
    apply capp_ok in E8 as (la&r&Ea&E8&->). apply capp_ok in E8 as (lb&lc&Eb&Ec&->). inversion Ea; subst la. inversion Ec; subst lc. clear Ea Ec.
    rewrite !Forall_app in A8. destruct A8 as ((B1&B3)&B4&B5&B6&B7&B8).
    assert (Hf2: forall i, (i < n)%nat -> (if fv then invested_factor m else invested m) i = invested m i * f).
    { intros i Hi. destruct fv; [|rewrite Hfv by auto; ring]. apply (product_spec n); auto. }
    rewrite elementwise_holds in B1, B7. cbn [holds_at] in *.
    assert (Hmin: forall i, (i < n)%nat -> invested m i * f * mn i <= w i \/ (is_short = false /\ 0 <= w i)).
    { intros i Hi. destruct is_short eqn:Es.
      - left. rewrite elementwise_holds in B8. specialize (B8 i Hi). cbn [holds_at] in B8. rewrite (Hf2 i Hi) in B8. apply sc_le in B8; auto.
      - right. split; auto. unfold is_short in Es. rewrite any_false in Es. specialize (Es i Hi). apply ltb_false in Es. rewrite Hw. pose proof (Hmn i Hi). nra. }
    assert (Q: forall i, (i < n)%nat -> (invested m i = 0 /\ x i = 0) \/ invested m i = 1).
    { intros i Hi. specialize (B1 i Hi). specialize (B7 i Hi). rewrite (Hf2 i Hi) in B7. apply sc_le in B7; auto. destruct B1 as [b|b]; [left|right; auto]. split; auto. apply Hx0. specialize (Hmin i Hi). rewrite b in *. nra. }
    split.
    + apply (card_sound n p x (invested m) lb); auto; intros i Hi; destruct (Q i Hi) as [[-> ?]| ->]; try lra; intros; contradiction.
    + intros i Hi. destruct (Q i Hi) as [[_ Q0]|Q1]; [left; auto|]. right.
      assert (Pos: is_short = false -> 0 <= x i). { intros Es. destruct (Hmin i Hi) as [|[_ H]]; [|unfold x, reported; apply (div_le_l f Hf); lra]. unfold is_short in Es. rewrite any_false in Es. specialize (Es i Hi). apply ltb_false in Es. pose proof (Hmn i Hi). lra. }
      assert (L1: forall t, threshold_long p = Some t -> is_short = false -> t i <= x i).
      { intros t Et Es. pose proof (Hcl (threshold_long p) i Hi) as T1. fold tl in T1. destruct tl as [tlv|].
        - rewrite T1 in Et. inversion Et; subst t. rewrite elementwise_holds in B6. specialize (B6 i Hi). cbn [holds_at] in B6. rewrite (Hf2 i Hi), Q1 in B6. apply sc_le in B6; auto. unfold x, reported. apply (div_le_l f Hf). lra.
        - destruct T1 as [T1|(v&T1&T0)]; [congruence|]. rewrite T1 in Et. inversion Et; subst. rewrite T0. auto. }
      destruct (Bool.bool_dec is_short false) as [Es|Es].
      * left. split; [|auto]. destruct (threshold_long p) as [t|]; [cbn; apply L1; auto|exact I].
      * apply not_false_is_true in Es. rewrite Es, andb_true_r in C3. destruct (threshold_short p); [discriminate|].
        destruct (threshold_long p); [cbn in C1; rewrite Es in C1; discriminate|]. cbn. destruct (Rle_dec 0 (x i)); [left|right]; split; auto; lra.
Qed.
Print Assumptions C34_cardinalities_and_thresholds.

(** Conversely the mixed-integer formulation does not exclude any weights that meet the documented constraints, as long
    as the factor and the positions stay within the big-M constant. *)
Lemma capp_change a b b' l : a +++ b = COk l -> (forall lb, b = COk lb -> exists lb', b' = COk lb') -> exists l', a +++ b' = COk l'.
Proof. intros H Hb. apply capp_ok in H as (la&lb&->&Eb&_). destruct (Hb _ Eb) as (lb'&->). cbn. eauto. Qed.
Lemma weight_constraints_change tf n p names ms an fv s w f m0 m l0 l8 :
  weight_constraints tf n p names ms an fv s w f m0 = COk l0 -> mip_constraints n p s fv w f m = COk l8 -> exists l, weight_constraints tf n p names ms an fv s w f m = COk l.
Proof.
  intros E E8. unfold weight_constraints in *. destruct (is_mip n p && negb ms); [discriminate|].
  eapply capp_change; [exact E|]. clear E. intros ? E. eapply capp_change; [exact E|]. clear E. intros ? E. eapply capp_change; [exact E|]. clear E. intros ? E. eapply capp_change; [exact E|]. clear E. intros ? E.
  eapply capp_change; [exact E|]. clear E. intros ? E. eapply capp_change; [exact E|]. clear E. intros ? E. eapply capp_change; [exact E|]. clear E. intros ? E.
  apply capp_ok in E as (zla&zlb&_&Eb&_). rewrite E8, Eb. cbn. eauto.
Qed.
Lemma product_complete n b f : 0 <= f <= bigM -> (forall i, (i < n)%nat -> b i = 0 \/ b i = 1) -> Forall holds_at (product_constraints n b (fun i => b i * f) f).
Proof.
  intros Hf Hb. unfold product_constraints, bigM in *. rewrite !Forall_app, !elementwise_holds. cbn [holds_at]. repeat split; intros i Hi; destruct (Hb i Hi) as [-> | ->]; lra.
Qed.
Theorem C34_complete :
  forall to_float n p names mip_solver allow_negative factor_is_variable s w f m0 cs l0,
    0 < s -> 0 < f <= 1000 -> (factor_is_variable = false -> f = 1) -> (forall i, (i < n)%nat -> -1000 <= w i <= 1000) ->
    groups_ok n p -> written_constraints to_float n p names cs ->
    weight_constraints to_float n p names mip_solver allow_negative factor_is_variable s w f m0 = COk l0 ->
    documented to_float n p names cs (reported w f) -> within_cardinalities n p (reported w f) -> within_thresholds n p (reported w f) ->
    exists m l, weight_constraints to_float n p names mip_solver allow_negative factor_is_variable s w f m = COk l /\ Forall holds_at l.
Proof.
  intros tf n p names ms an fv s w f m0 cs l0 Hs [Hf HfM] Hfv HM Hg Hcs E0 D Hc Ht. set (x := reported w f) in *.
  set (sh := fun i => if Rlt_dec (x i) 0 then 1 else 0). set (lg := fun i => if Rlt_dec 0 (x i) then 1 else 0).
  set (m := {| invested := position x; invested_factor := fun i => position x i * f; short := sh; long := lg; short_factor := fun i => sh i * f; long_factor := fun i => lg i * f |}).
  enough (X: exists l8, mip_constraints n p s fv w f m = COk l8 /\ Forall holds_at l8).
  { destruct X as (l8&E8&H8). destruct (weight_constraints_change _ _ _ _ _ _ _ _ _ _ _ m _ _ E0 E8) as (l&El). exists m, l. split; auto.
    destruct (weight_constraints_core _ _ _ _ _ _ _ _ _ _ _ cs _ Hs Hf Hcs El) as (l8'&E8'&H). apply H. split; auto. congruence. }
  assert (Hw: forall i, w i = x i * f) by (intros i; unfold x, reported; field; lra).
  destruct D as (Dmn&Dmx&_).
  assert (Hp: forall i, position x i = 0 \/ position x i = 1) by (intros i; unfold position; destruct (Req_EM_T (x i) 0); auto).
  assert (Hsh: forall i, sh i = 0 \/ sh i = 1) by (intros i; unfold sh; destruct (Rlt_dec (x i) 0); auto).
  assert (Hlg: forall i, lg i = 0 \/ lg i = 1) by (intros i; unfold lg; destruct (Rlt_dec 0 (x i)); auto).
  assert (Hpos: forall i, sh i + lg i = position x i). { intros i. unfold sh, lg, position. destruct (Rlt_dec (x i) 0), (Rlt_dec 0 (x i)), (Req_EM_T (x i) 0); lra. }
  destruct (weight_constraints_core _ _ _ _ _ _ _ _ _ _ _ cs _ Hs Hf Hcs E0) as (l80&E80&_). unfold mip_constraints in *.
  destruct (negb (is_mip n p)); [exists []; split; [reflexivity|constructor]|].
  destruct (min_weights p) as [mn|]; [|discriminate]. destruct (max_weights p) as [mx|]; [|discriminate]. cbn [opt] in Dmn, Dmx. destruct (all n _); [discriminate|].
  destruct (is_some (group_cardinalities p) && negb (is_some (groups p))) eqn:Cg; [discriminate|].
  assert (Hgs: is_some (group_cardinalities p) = true -> is_some (groups p) = true). { intros H. rewrite H in Cg. destruct (is_some (groups p)); [auto|discriminate]. }
  destruct (card_complete n p x Hg Hgs Hc) as (K1&lk&K2&K3).
  set (is_short := any n (fun i => ltb (mn i) 0)) in *. set (tl := clean_threshold n (threshold_long p)) in *. set (ts := clean_threshold n (threshold_short p)) in *.
  destruct (is_some (threshold_long p) && negb (is_some (threshold_short p)) && is_short) eqn:C1; [discriminate|].
  destruct (is_some ts && negb (is_some tl)) eqn:C2; [discriminate|].
  assert (Hcl: forall t v, clean_threshold n t = Some v -> t = Some v). { intros t v. unfold clean_threshold. destruct t as [u|]; [|discriminate]. destruct (all n _); [discriminate|auto]. }
  destruct (is_some (threshold_short p) && is_short) eqn:C3.
  - destruct tl as [tlv|] eqn:Etl; [|discriminate]. destruct ts as [tsv|] eqn:Ets; [|discriminate]. apply Hcl in Etl. apply Hcl in Ets. unfold mip_short.
    assert (Kc: cardinality_constraints n p (fun i => short m i + long m i) = cardinality_constraints n p (position x)).
    { unfold cardinality_constraints. destruct (cardinality p); auto. destruct (_ <? _)%nat; auto. f_equal. f_equal. unfold sumn. apply so_ext. intros i _. apply Hpos. }
    assert (Kg: group_card_constraints n p (fun i => short m i + long m i) = group_card_constraints n p (position x)).
    { unfold group_card_constraints. destruct (group_cardinalities p); auto. destruct (groups p); auto. destruct (group_cardinalities_to_matrix _ _ _ _) as [[a b]|]; auto. f_equal. apply map_ext. intros rb. f_equal. f_equal. unfold rowdotn, sumn. apply so_ext. intros i _. cbn [short long m]. rewrite Hpos. reflexivity. }
    rewrite Kc, Kg, K2. cbn [capp]. eexists. split; [reflexivity|]. rewrite !Forall_app. rewrite !elementwise_holds. cbn [short long short_factor long_factor m holds_at].
    assert (Hf2: forall i, (if fv then (fun i => sh i * f) else sh) i = sh i * f /\ (if fv then (fun i => lg i * f) else lg) i = lg i * f). { intros i. destruct fv; [auto|]. rewrite Hfv by auto. split; ring. }
    split; [split; [intros; apply Hsh|split; [intros; apply Hlg|exact K1]]|]. split; [exact K3|]. split.
    { destruct fv; [|constructor]. rewrite Forall_app. split; apply product_complete; auto; unfold bigM; lra. }
    split; [intros i Hi; rewrite Hpos; destruct (Hp i); lra|].
    assert (Q: forall i, (i < n)%nat -> w i <= lg i * f * mx i /\ sh i * f * mn i <= w i /\ lg i * f * tlv i - bigM * (1 - lg i) <= w i /\ w i <= sh i * f * tsv i + bigM * (1 - sh i)).
    { intros i Hi. specialize (Dmn i Hi). specialize (Dmx i Hi). specialize (Ht i Hi). specialize (HM i Hi). rewrite Etl, Ets in Ht. cbn [opt] in Ht. rewrite (Hw i) in *. unfold lg, sh, bigM. destruct (Rlt_dec (x i) 0), (Rlt_dec 0 (x i)); try lra.
      - destruct Ht as [|[[? ?]|[? ?]]]; try lra. repeat split; nra.
      - destruct Ht as [|[[? ?]|[? ?]]]; try lra. repeat split; nra.
      - assert (x i = 0) as -> by lra. repeat split; nra. }
    repeat split; intros i Hi; destruct (Hf2 i) as [F1 F2]; rewrite ?F1, ?F2; destruct (Q i Hi) as (q1&q2&q3&q4); try (apply (sc_le s Hs); auto; fail).
    + rewrite <- Rmult_minus_distr_r. apply (sc_le s Hs); auto. + rewrite <- Rmult_plus_distr_r. apply (sc_le s Hs); auto.
  - unfold mip_no_short. cbn [invested invested_factor m]. rewrite K2. cbn [capp]. eexists. split; [reflexivity|]. fold is_short. rewrite !Forall_app. rewrite !elementwise_holds. cbn [holds_at].
    assert (Hf2: forall i, (if fv then (fun i => position x i * f) else position x) i = position x i * f). { intros i. destruct fv; [auto|]. rewrite Hfv by auto. ring. }
    split; [split; [intros; apply Hp|exact K1]|]. split; [exact K3|]. split.
    { destruct fv; [|constructor]. apply product_complete; auto; unfold bigM; lra. }
    assert (Pp: forall i, position x i = 0 /\ x i = 0 \/ position x i = 1 /\ x i <> 0). { intros i. unfold position. destruct (Req_EM_T (x i) 0); auto. }
    split; [|split].
    + destruct tl as [tlv|] eqn:Etl; [|constructor]. apply Hcl in Etl. rewrite elementwise_holds. intros i Hi. cbn [holds_at]. rewrite Hf2. apply (sc_le s Hs). rewrite Hw. specialize (Ht i Hi). rewrite Etl in Ht. cbn [opt] in Ht. specialize (Dmn i Hi).
      destruct (Pp i) as [[-> ->]|[-> Hne]]; [lra|]. destruct Ht as [|[[? ?]|[H1 H2]]]; [contradiction|nra|].
      exfalso. destruct is_short eqn:Es; [rewrite andb_true_r in C3; rewrite Etl, C3 in C1; discriminate|]. unfold is_short in Es. rewrite any_false in Es. specialize (Es i Hi). apply ltb_false in Es. lra.
    + intros i Hi. rewrite Hf2. apply (sc_le s Hs). rewrite Hw. specialize (Dmx i Hi). destruct (Pp i) as [[-> ->]|[-> Hne]]; nra.
    + destruct is_short; [|constructor]. rewrite elementwise_holds. intros i Hi. cbn [holds_at]. rewrite Hf2. apply (sc_le s Hs). rewrite Hw. specialize (Dmn i Hi). destruct (Pp i) as [[-> ->]|[-> Hne]]; nra.
Qed.
Print Assumptions C34_complete.
