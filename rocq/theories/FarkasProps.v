(** Farkas' lemma by Fourier-Motzkin elimination: a finite system of linear inequalities has a solution, or a combination of its
    rows with weights that are not negative is an inequality that nothing satisfies. *)
From Coq Require Import List Arith Bool Reals Lia Lra.
From Verif Require Import RList.
Import ListNotations.
Local Open Scope R_scope.

(** the inequality b <= a.x *)
Definition ineq : Type := ((nat -> R) * R)%type.
Definition dot (n : nat) (a x : nat -> R) : R := sum_over (seq 0 n) (fun j => a j * x j).
Definition satisfies (n : nat) (x : nat -> R) (c : ineq) : Prop := snd c <= dot n (fst c) x.
Inductive cone (l : list ineq) : ineq -> Prop :=
  | cone_in c : In c l -> cone l c
  | cone_zero : cone l (fun _ => 0, 0)
  | cone_add a b : cone l a -> cone l b -> cone l (fun j => fst a j + fst b j, snd a + snd b)
  | cone_scale t a : 0 <= t -> cone l a -> cone l (fun j => t * fst a j, t * snd a).

Lemma dot_S n a x : dot (S n) a x = dot n a x + a n * x n.
Proof. unfold dot. rewrite seq_S, so_app. cbn [Nat.add]. unfold sum_over at 2. cbn. ring. Qed.
Lemma dot_ext n a b x y : (forall j, (j < n)%nat -> a j * x j = b j * y j) -> dot n a x = dot n b y.
Proof. intros H. apply so_ext. intros j Hj. apply in_seq in Hj. apply H. lia. Qed.
Lemma dot_comb n s t a b x : dot n (fun j => s * a j + t * b j) x = s * dot n a x + t * dot n b x.
Proof. unfold dot. rewrite <- !so_scal, <- so_add. apply so_ext. intros; ring. Qed.
Lemma cone_trans l l' c : (forall d, In d l' -> cone l d) -> cone l' c -> cone l c.
Proof. intros H. induction 1; [apply H; auto|apply cone_zero|apply cone_add; auto|apply cone_scale; auto]. Qed.
Lemma between (lo hi : list R) : (forall a b, In a lo -> In b hi -> a <= b) -> exists z, (forall a, In a lo -> a <= z) /\ (forall b, In b hi -> z <= b).
Proof.
  intros H. destruct lo as [|a0 lo].
  - assert (M: exists z, forall b, In b hi -> z <= b). { clear H. induction hi as [|b hi [z Hz]]; [exists 0; intros b []|]. exists (Rmin b z). intros c [->|Hc]; [apply Rmin_l|]. eapply Rle_trans; [apply Rmin_r|auto]. }
    destruct M as [z Hz]. exists z. split; auto. intros a [].
  - assert (M: exists z, In z (a0 :: lo) /\ forall a, In a (a0 :: lo) -> a <= z).
    { clear H. revert a0. induction lo as [|a lo IH]; intros a0.
      - exists a0. split; [left; auto|]. intros a [->|[]]; lra.
      - destruct (IH a) as (z&Hz&Hm). destruct (Rle_dec a0 z) as [L|L]; [exists z; split; [right; auto|intros b [->|Hb]; auto]|].
        exists a0. split; [left; auto|]. intros b [->|Hb]; [lra|]. specialize (Hm b Hb). lra. }
    destruct M as (z&Hz&Hm). exists z. split; auto.
Qed.

Definition zerob (x : R) : bool := if Req_EM_T x 0 then true else false.
Definition posb (x : R) : bool := if Rlt_dec 0 x then true else false.
Definition negb_ (x : R) : bool := if Rlt_dec x 0 then true else false.
Definition combine (n : nat) (p q : ineq) : ineq := (fun j => fst p n * fst q j + - fst q n * fst p j, fst p n * snd q + - fst q n * snd p).
Definition eliminate (n : nat) (l : list ineq) : list ineq :=
  filter (fun c => zerob (fst c n)) l
  ++ flat_map (fun p => map (combine n p) (filter (fun c => negb_ (fst c n)) l)) (filter (fun c => posb (fst c n)) l).
Lemma eliminate_in n l c : In c (eliminate n l) <-> (In c l /\ fst c n = 0) \/ (exists p q, In p l /\ In q l /\ 0 < fst p n /\ fst q n < 0 /\ c = combine n p q).
Proof.
  unfold eliminate. rewrite in_app_iff, filter_In, in_flat_map. unfold zerob. split.
  - intros [[H E]|(p&Hp&Hc)].
    + left. split; auto. destruct (Req_EM_T (fst c n) 0); congruence.
    + right. apply filter_In in Hp as [Hp Ep]. apply in_map_iff in Hc as (q&<-&Hq). apply filter_In in Hq as [Hq Eq]. unfold posb, negb_ in *. exists p, q.
      destruct (Rlt_dec 0 (fst p n)); [|discriminate]. destruct (Rlt_dec (fst q n) 0); [|discriminate]. auto.
  - intros [[H E]|(p&q&Hp&Hq&Ep&Eq&->)].
    + left. split; auto. destruct (Req_EM_T (fst c n) 0); congruence.
    + right. exists p. split; [apply filter_In; split; auto; unfold posb; destruct (Rlt_dec 0 (fst p n)); auto; contradiction|]. apply in_map. apply filter_In. split; auto. unfold negb_. destruct (Rlt_dec (fst q n) 0); auto; contradiction.
Qed.
Lemma eliminate_cone n l c : In c (eliminate n l) -> cone l c.
Proof.
  rewrite eliminate_in. intros [[H _]|(p&q&Hp&Hq&Ep&Eq&->)]; [apply cone_in; auto|]. unfold combine.
  apply (cone_add l (fun j => fst p n * fst q j, fst p n * snd q) (fun j => - fst q n * fst p j, - fst q n * snd p)); apply cone_scale; try lra; apply cone_in; auto.
Qed.
Lemma eliminate_zero n l c : cone (eliminate n l) c -> fst c n = 0.
Proof.
  induction 1 as [c H| |a b _ IHa _ IHb|t a Ht _ IH]; cbn [fst]; auto; try lra; [|rewrite IH; ring].
  rewrite eliminate_in in H. destruct H as [[_ H]|(p&q&_&_&_&_&->)]; auto. unfold combine. cbn [fst]. ring.
Qed.
Theorem farkas : forall n l, (exists x, forall c, In c l -> satisfies n x c) \/ (exists c, cone l c /\ (forall j, (j < n)%nat -> fst c j = 0) /\ 0 < snd c).
Proof.
  induction n as [|n IH]; intros l.
  - assert (D: (forall c, In c l -> snd c <= 0) \/ exists c, In c l /\ 0 < snd c).
    { induction l as [|c l [H|(d&Hd&Pd)]]; [left; intros c []| |right; exists d; split; [right|]; auto]. destruct (Rlt_dec 0 (snd c)) as [P|P]; [right; exists c; split; [left|]; auto|]. left. intros d [->|Hd]; [lra|auto]. }
    destruct D as [D|(c&Hc&Pc)]; [left; exists (fun _ => 0); intros c Hc; unfold satisfies, dot; cbn; apply D; auto|].
    right. exists c. split; [apply cone_in; auto|]. split; [intros; lia|auto].
  - destruct (IH (eliminate n l)) as [[x Hx]|(c&Hc&Z&P)].
    + left. destruct (between (map (fun p => (snd p - dot n (fst p) x) / fst p n) (filter (fun c => posb (fst c n)) l)) (map (fun q => (snd q - dot n (fst q) x) / fst q n) (filter (fun c => negb_ (fst c n)) l))) as (z&Lo&Hi).
      * intros a b Ha Hb. apply in_map_iff in Ha as (p&<-&Hp). apply in_map_iff in Hb as (q&<-&Hq). apply filter_In in Hp as [Hp Ep]. apply filter_In in Hq as [Hq Eq].
        unfold posb, negb_ in *. destruct (Rlt_dec 0 (fst p n)) as [Pp|]; [|discriminate]. destruct (Rlt_dec (fst q n) 0) as [Pq|]; [|discriminate].
        assert (C: satisfies n x (combine n p q)) by (apply Hx; apply eliminate_in; right; exists p, q; auto). unfold satisfies, combine in C. cbn [fst snd] in C. rewrite dot_comb in C.
        set (A := dot n (fst p) x) in *. set (B := dot n (fst q) x) in *. set (s := fst p n) in *. set (t := fst q n) in *.
        apply Rmult_le_reg_r with (s * - t); [nra|]. replace ((snd p - A) / s * (s * - t)) with ((snd p - A) * - t) by (field; lra). replace ((snd q - B) / t * (s * - t)) with (- (snd q - B) * s) by (field; lra). lra.
      * exists (fun j => if (j =? n)%nat then z else x j). intros c Hc. unfold satisfies. rewrite dot_S, Nat.eqb_refl.
        rewrite (dot_ext n (fst c) (fst c) _ x) by (intros j Hj; replace (j =? n)%nat with false by (symmetry; apply Nat.eqb_neq; lia); reflexivity).
        destruct (Rtotal_order (fst c n) 0) as [L|[E|G]].
        -- assert (z <= (snd c - dot n (fst c) x) / fst c n). { apply Hi. apply in_map_iff. exists c. split; auto. apply filter_In. split; auto. unfold negb_. destruct (Rlt_dec (fst c n) 0); auto; contradiction. }
           apply Rmult_le_compat_neg_l with (r := fst c n) in H; [|lra]. replace (fst c n * ((snd c - dot n (fst c) x) / fst c n)) with (snd c - dot n (fst c) x) in H by (field; lra). lra.
        -- rewrite E. assert (C: satisfies n x c) by (apply Hx; apply eliminate_in; left; auto). unfold satisfies in C. lra.
        -- assert ((snd c - dot n (fst c) x) / fst c n <= z). { apply Lo. apply in_map_iff. exists c. split; auto. apply filter_In. split; auto. unfold posb. destruct (Rlt_dec 0 (fst c n)); auto; contradiction. }
           apply Rmult_le_compat_l with (r := fst c n) in H; [|lra]. replace (fst c n * ((snd c - dot n (fst c) x) / fst c n)) with (snd c - dot n (fst c) x) in H by (field; lra). lra.
    + right. exists c. split; [eapply cone_trans; [apply eliminate_cone|exact Hc]|]. split; [|auto]. intros j Hj. destruct (Nat.eq_dec j n) as [->|]; [eapply eliminate_zero; eauto|apply Z; lia].
Qed.
Lemma cone_sound n x l c : (forall d, In d l -> satisfies n x d) -> cone l c -> satisfies n x c.
Proof.
  intros H. induction 1 as [c Hc| |a b _ IHa _ IHb|t a Ht _ IH]; unfold satisfies in *; cbn [fst snd] in *.
  - apply H; auto.
  - unfold dot. rewrite so_zero; [lra|]. intros; ring.
  - rewrite (dot_ext n _ (fun j => 1 * fst a j + 1 * fst b j) x x) by (intros; ring). rewrite dot_comb. lra.
  - rewrite (dot_ext n _ (fun j => t * fst a j + 0 * fst a j) x x) by (intros; ring). rewrite dot_comb. nra.
Qed.
(** duality: if a linear form is at least v wherever the system holds, and the system holds somewhere, a combination of the rows
    is the form itself and its bound is as close to v as wanted *)
Theorem linear_duality : forall n l (c : nat -> R) v x0, (forall d, In d l -> satisfies n x0 d) ->
  (forall x, (forall d, In d l -> satisfies n x d) -> v <= dot n c x) ->
  forall delta, 0 < delta -> exists d, cone l d /\ (forall j, (j < n)%nat -> fst d j = c j) /\ v - delta < snd d.
Proof.
  intros n l c v x0 H0 Hv delta Hd.
  set (o := ((fun j => - c j), - (v - delta)) : ineq).
  assert (S: forall d, cone (o :: l) d -> exists t e, 0 <= t /\ cone l e /\ (forall j, fst d j = fst e j - t * c j) /\ snd d = snd e - t * (v - delta)).
  { induction 1 as [d [<-|Hd'] | |a b _ (t1&e1&T1&C1&F1&S1) _ (t2&e2&T2&C2&F2&S2)|t a Ht _ (t1&e1&T1&C1&F1&S1)].
    - exists 1, (fun _ => 0, 0). split; [lra|]. split; [apply cone_zero|]. unfold o. cbn [fst snd]. split; intros; ring.
    - exists 0, d. split; [lra|]. split; [apply cone_in; auto|]. split; intros; ring.
    - exists 0, (fun _ => 0, 0). split; [lra|]. split; [apply cone_zero|]. cbn [fst snd]. split; intros; ring.
    - exists (t1 + t2), (fun j => fst e1 j + fst e2 j, snd e1 + snd e2). split; [lra|]. split; [apply cone_add; auto|]. cbn [fst snd]. split; [intros j; rewrite F1, F2; ring|rewrite S1, S2; ring].
    - exists (t * t1), (fun j => t * fst e1 j, t * snd e1). split; [apply Rmult_le_pos; auto|]. split; [apply cone_scale; auto|]. cbn [fst snd]. split; [intros j; rewrite F1; ring|rewrite S1; ring]. }
  destruct (farkas n (o :: l)) as [[x Hx]|(d&Cd&Zd&Pd)].
  - exfalso. assert (V: v <= dot n c x) by (apply Hv; intros d Hd'; apply Hx; right; auto). specialize (Hx o (or_introl eq_refl)). unfold satisfies, o in Hx. cbn [fst snd] in Hx.
    rewrite (dot_ext n _ (fun j => -1 * c j + 0 * c j) x x) in Hx by (intros; ring). rewrite dot_comb in Hx. lra.
  - destruct (S d Cd) as (t&e&Ht&Ce&F&Se). destruct (Req_dec t 0) as [E|E].
    + exfalso. pose proof (cone_sound n x0 l e H0 Ce) as Q. unfold satisfies in Q. unfold dot in Q. rewrite so_zero in Q.
      * rewrite E in Se. lra.
      * intros j Hj. apply in_seq in Hj. specialize (F j). rewrite Zd, E in F by lia. replace (fst e j) with 0 by lra. ring.
    + exists (fun j => / t * fst e j, / t * snd e). assert (It: 0 < / t) by (apply Rinv_0_lt_compat; lra). split; [apply cone_scale; [lra|auto]|]. cbn [fst snd]. split.
      * intros j Hj. specialize (F j). rewrite Zd in F by auto. replace (fst e j) with (t * c j) by lra. field. auto.
      * apply Rmult_lt_reg_l with t; [lra|]. rewrite <- Rmult_assoc, Rinv_r by auto. lra.
Qed.
Print Assumptions linear_duality.
