(** C29: Hierarchical Risk Parity. *)
From Coq Require Import List Bool Arith Reals Lia Lra Permutation.
From Verif Require Import RList HrpModel.
Import ListNotations.
Local Open Scope R_scope.

(** * Specification *)
Definition total (v : list R) (c : list nat) : R := sum_over c (fun i => nth i v 0).
(** [y] is the point of [a, b] nearest to [x] *)
Definition nearest (x a b y : R) : Prop :=
  a <= y <= b /\ (x < a -> y = a) /\ (b < x -> y = b) /\ (a <= x <= b -> y = x).
(** Recursive allocation of a weight W over an ordered set of assets: it is halved; each half gets a share inversely
    proportional to its risk, moved if necessary to the nearest value for which both halves can meet their bounds. *)
Inductive allocation (risk_of : list nat -> R) (lo hi w : list R) : list nat -> R -> Prop :=
| one_asset i W : nth i w 0 = W -> allocation risk_of lo hi w [i] W
| two_halves left right W WL :
    length left = (length (left ++ right) / 2)%nat -> (1 < length (left ++ right))%nat ->
    nearest (W * (risk_of right / (risk_of left + risk_of right)))
            (Rmax (total lo left) (W - total hi right)) (Rmin (total hi left) (W - total lo right)) WL ->
    allocation risk_of lo hi w left WL -> allocation risk_of lo hi w right (W - WL) ->
    allocation risk_of lo hi w (left ++ right) W.
(** risk of the inverse-risk portfolio of a set of assets *)
Definition cluster_risk (risk : list R -> R) (n : nat) (ids : list nat) : R := risk (inv_risk_w risk n ids).
Definition positive_risks (risk : list R -> R) (n : nat) : Prop :=
  forall ids, ids <> [] -> (forall i, In i ids -> (i < n)%nat) -> 0 < cluster_risk risk n ids.

(** ** Proofs *)
Lemma nodup_app_l {A} (a b : list A) : NoDup (a ++ b) -> NoDup a.
Proof. induction a as [|x a IH]; intros H; constructor; cbn in H; inversion H; subst; auto. intros Hx; apply H2, in_or_app; auto. Qed.
Lemma nodup_app_r {A} (a b : list A) : NoDup (a ++ b) -> NoDup b.
Proof. induction a as [|x a IH]; cbn; intros H; auto. inversion H; subst; auto. Qed.
Lemma memn_In i l : memn i l = true <-> In i l.
Proof. unfold memn. rewrite existsb_exists. split; [intros (x&Hx&E); apply Nat.eqb_eq in E; subst; auto|intros H; exists i; split; [auto|apply Nat.eqb_refl]]. Qed.
Lemma memn_nIn i l : memn i l = false <-> ~ In i l.
Proof. rewrite <- memn_In. destruct (memn i l); split; intros; congruence. Qed.
Lemma scale_length ids a w : length (scale ids a w) = length w.
Proof. unfold scale. rewrite map_length, seq_length. reflexivity. Qed.
Lemma nth_map_seq0 (f : nat -> R) n i : (i < n)%nat -> nth i (map f (seq 0 n)) 0 = f i.
Proof. intros H. rewrite (nth_indep _ _ (f 0%nat)) by (rewrite map_length, seq_length; auto). rewrite map_nth, seq_nth by auto. reflexivity. Qed.
Lemma scale_nth ids a w i : nth i (scale ids a w) 0 = if memn i ids then nth i w 0 * a else nth i w 0.
Proof.
  destruct (Nat.lt_ge_cases i (length w)).
  - unfold scale. rewrite nth_map_seq0 by auto. reflexivity.
  - rewrite nth_overflow by (rewrite scale_length; auto). rewrite (nth_overflow w) by auto. destruct (memn i ids); ring.
Qed.
(** the inverse-risk portfolio: full allocation on the set, equal stand-alone risk contributions, nothing elsewhere *)
Lemma inv_risk_w_spec risk n ids : (forall i, (i < n)%nat -> 0 < nth i (assets_risks risk n) 0) -> ids <> [] -> (forall i, In i ids -> (i < n)%nat) ->
  rsum (inv_risk_w risk n ids) = 1
  /\ (forall i, ~ In i ids -> nth i (inv_risk_w risk n ids) 0 = 0)
  /\ (forall i j, In i ids -> In j ids -> nth i (inv_risk_w risk n ids) 0 * nth i (assets_risks risk n) 0 = nth j (inv_risk_w risk n ids) 0 * nth j (assets_risks risk n) 0)
  /\ (forall i, In i ids -> 0 < nth i (inv_risk_w risk n ids) 0).
Proof.
  intros Hr Hne Hids. unfold inv_risk_w. set (f := fun i => if memn i ids then 1 / nth i (assets_risks risk n) 0 else 0).
  set (s := rsum (map f (seq 0 n))).
  assert (Hf: forall i, (i < n)%nat -> 0 <= f i).
  { intros i Hi. unfold f. destruct (memn i ids); [|lra]. apply Rlt_le, Rdiv_lt_0_compat; [lra|auto]. }
  assert (Hfp: forall i, In i ids -> 0 < f i).
  { intros i Hi. unfold f. rewrite (proj2 (memn_In i ids) Hi). apply Rdiv_lt_0_compat; [lra|auto]. }
  assert (Hs: 0 < s).
  { destruct ids as [|x ids]; [congruence|]. pose proof (Hfp x (or_introl eq_refl)).
    pose proof (so_ge_elem f (seq 0 n) x) as HH. unfold sum_over in HH. fold s in HH. assert (f x <= s); [|lra]. apply HH.
    - intros y Hy. apply in_seq in Hy. apply Hf. lia.
    - apply in_seq. specialize (Hids x (or_introl eq_refl)). lia. }
  assert (Hn: forall i, (i < n)%nat -> nth i (map (fun x => x / s) (map f (seq 0 n))) 0 = f i / s).
  { intros i Hi. rewrite map_map. rewrite (nth_map_seq0 (fun i => f i / s)) by auto. reflexivity. }
  split; [|split; [|split]].
  - change (rsum (map (fun x => x / s) (map f (seq 0 n)))) with (sum_over (map f (seq 0 n)) (fun x => x * / s)).
    rewrite so_scal_r, so_id. fold s. field. lra.
  - intros i Hi. destruct (Nat.lt_ge_cases i n) as [Hl|Hl].
    + rewrite Hn by auto. unfold f. rewrite (proj2 (memn_nIn i ids) Hi). lra.
    + apply nth_overflow. rewrite !map_length, seq_length. auto.
  - intros i j Hi Hj. rewrite !Hn by auto. unfold f. rewrite (proj2 (memn_In i ids) Hi), (proj2 (memn_In j ids) Hj).
    pose proof (Hr i (Hids i Hi)). pose proof (Hr j (Hids j Hj)). field. lra.
  - intros i Hi. rewrite Hn by auto. apply Rdiv_lt_0_compat; auto.
Qed.
Lemma bisect_spec e : (1 < length e)%nat ->
  let (l, r) := bisect e in l ++ r = e /\ length l = (length e / 2)%nat /\ l <> [] /\ r <> [] /\ (length l < length e)%nat /\ (length r < length e)%nat.
Proof.
  intros H. unfold bisect. set (m := (length e / 2)%nat).
  assert (1 <= m /\ m < length e)%nat as [H1 H2].
  { unfold m. split; [apply Nat.div_le_lower_bound; lia|apply Nat.div_lt; lia]. }
  assert (L1: length (firstn m e) = m) by (rewrite firstn_length; lia).
  assert (L2: length (skipn m e) = (length e - m)%nat) by apply skipn_length.
  repeat split; try lia; [apply firstn_skipn|..]; intros E; rewrite E in *; cbn in *; lia.
Qed.
Lemma nearest_split W a loL hiL loR hiR x : 0 < W -> loL <= hiL -> loR <= hiR -> loL + loR <= W <= hiL + hiR -> x = W * a ->
  nearest x (Rmax loL (W - hiR)) (Rmin hiL (W - loR))
    (W * (1 - Rmin (hiR / W) (Rmax (loR / W) (1 - Rmin (hiL / W) (Rmax (loL / W) a))))).
Proof.
  intros HW HL HR HC ->.
  assert (M: forall c, W * (c / W) = c) by (intros; field; lra).
  assert (Mmin: forall c b, W * Rmin (c / W) b = Rmin c (W * b)).
  { intros c b. unfold Rmin. destruct (Rle_dec (c / W) b) as [H|H], (Rle_dec c (W * b)) as [H'|H']; rewrite ?M; try reflexivity.
    - exfalso. pose proof (Rmult_le_compat_l W _ _ (Rlt_le _ _ HW) H) as K. rewrite M in K. lra.
    - exfalso. apply H. apply (Rmult_le_reg_l W); [lra|]. rewrite M. lra. }
  assert (Mmax: forall c b, W * Rmax (c / W) b = Rmax c (W * b)).
  { intros c b. unfold Rmax. destruct (Rle_dec (c / W) b) as [H|H], (Rle_dec c (W * b)) as [H'|H']; rewrite ?M; try reflexivity.
    - exfalso. pose proof (Rmult_le_compat_l W _ _ (Rlt_le _ _ HW) H) as K. rewrite M in K. lra.
    - exfalso. apply H. apply (Rmult_le_reg_l W); [lra|]. rewrite M. lra. }
  rewrite Rmult_minus_distr_l, Mmin, Mmax, Rmult_minus_distr_l, Mmin, Mmax, Rmult_1_r.
  generalize (W * a). intros x. unfold nearest.
  assert (Smin: forall u v, (u <= v /\ Rmin u v = u) \/ (v <= u /\ Rmin u v = v)) by (intros u v; unfold Rmin; destruct (Rle_dec u v); lra).
  assert (Smax: forall u v, (u <= v /\ Rmax u v = v) \/ (v <= u /\ Rmax u v = u)) by (intros u v; unfold Rmax; destruct (Rle_dec u v); lra).
  destruct (Smax loL x) as [[? ->]|[? ->]];
    destruct (Smax loL (W - hiR)) as [[? ->]|[? ->]]; destruct (Smin hiL (W - loR)) as [[? ->]|[? ->]];
    match goal with |- context [Rmin hiL ?y] => destruct (Smin hiL y) as [[? ->]|[? ->]] | _ => idtac end;
    match goal with |- context [Rmax loR ?y] => destruct (Smax loR y) as [[? ->]|[? ->]] end;
    match goal with |- context [Rmin hiR ?y] => destruct (Smin hiR y) as [[? ->]|[? ->]] end;
    repeat split; intros; lra.
Qed.

Section Loop.
  Variable risk : list R -> R.
  Variable n : nat.
  Variables lo hi : list R.
  Hypothesis Hrisk : positive_risks risk n.
  Hypothesis Hbounds : forall i, 0 <= nth i lo 0 <= nth i hi 0.
  Let W_of (w : list R) (e : list nat) := nth (hd 0%nat e) w 0.
  (** an item of the loop: a non-empty set of assets with a common weight that can be split within the bounds *)
  Definition item_ok (w : list R) (e : list nat) : Prop :=
    e <> [] /\ (forall i, In i e -> (i < n)%nat /\ nth i w 0 = W_of w e) /\ total lo e <= W_of w e <= total hi e.
  Lemma total_app v a b : total v (a ++ b) = total v a + total v b.
  Proof. apply so_app. Qed.
  Lemma total_le c : total lo c <= total hi c.
  Proof. apply so_le. intros; apply Hbounds. Qed.
  Lemma hd_In (e : list nat) : e <> [] -> In (hd 0%nat e) e.
  Proof. destruct e; [congruence|left; reflexivity]. Qed.

  (** one split *)
  Lemma split_step w e l r a : NoDup e -> (1 < length e)%nat -> item_ok w e -> bisect e = (l, r) ->
    split_factor lo hi (1 - cluster_risk risk n l / (cluster_risk risk n l + cluster_risk risk n r)) w l r = Some a ->
    let w' := scale r (1 - a) (scale l a w) in
    l ++ r = e /\ length l = (length e / 2)%nat /\ (length l < length e)%nat /\ (length r < length e)%nat
    /\ item_ok w' l /\ item_ok w' r /\ W_of w' r = W_of w e - W_of w' l
    /\ nearest (W_of w e * (cluster_risk risk n r / (cluster_risk risk n l + cluster_risk risk n r)))
            (Rmax (total lo l) (W_of w e - total hi r)) (Rmin (total hi l) (W_of w e - total lo r)) (W_of w' l)
    /\ (forall i, ~ In i e -> nth i w' 0 = nth i w 0) /\ length w' = length w.
  Proof.
    intros Hnd Hlen (Hne&Hw&Hb) Eb Es w'. pose proof (bisect_spec e Hlen) as HB. rewrite Eb in HB. destruct HB as (Elr&Hl2&Hl&Hr&Ll&Lr).
    assert (Inl: forall i, In i l -> In i e) by (intros i Hi; rewrite <- Elr; apply in_or_app; auto).
    assert (Inr: forall i, In i r -> In i e) by (intros i Hi; rewrite <- Elr; apply in_or_app; auto).
    assert (Dis: forall i, In i l -> ~ In i r).
    { intros i H1 H2. rewrite <- Elr in Hnd. clear -Hnd H1 H2. induction l as [|x l IH]; [destruct H1|]. cbn in Hnd. inversion Hnd as [|? ? N1 N2]; subst.
      destruct H1 as [->|H1]; [apply N1; apply in_or_app; auto|auto]. }
    unfold split_factor in Es. rewrite (proj2 (Hw _ (Inl _ (hd_In l Hl)))), (proj2 (Hw _ (Inr _ (hd_In r Hr)))) in Es.
    set (W := W_of w e) in *. destruct (Req_EM_T W 0) as [|HW0]; [discriminate|]. injection Es as Ea.
    assert (T0: 0 <= total lo e) by (apply so_nonneg; intros i _; apply Hbounds).
    assert (HW: 0 < W) by lra.
    set (rl := cluster_risk risk n l) in *. set (rr := cluster_risk risk n r) in *.
    assert (Prl: 0 < rl) by (apply Hrisk; [auto|intros i Hi; apply Hw; auto]).
    assert (Prr: 0 < rr) by (apply Hrisk; [auto|intros i Hi; apply Hw; auto]).
    assert (Near: nearest (W * (rr / (rl + rr))) (Rmax (total lo l) (W - total hi r)) (Rmin (total hi l) (W - total lo r)) (W * a)).
    { rewrite <- Ea. apply (nearest_split W _ (total lo l) (total hi l) (total lo r) (total hi r)); auto; try apply total_le.
      - rewrite <- Elr, !total_app in Hb. lra.
      - f_equal. field. lra. }
    assert (Nl: forall i, In i l -> nth i w' 0 = W * a).
    { intros i Hi. unfold w'. rewrite scale_nth, (proj2 (memn_nIn i r) (Dis i Hi)), scale_nth, (proj2 (memn_In i l) Hi). rewrite (proj2 (Hw i (Inl i Hi))). reflexivity. }
    assert (Nr: forall i, In i r -> nth i w' 0 = W - W * a).
    { intros i Hi. unfold w'. rewrite scale_nth, (proj2 (memn_In i r) Hi), scale_nth. rewrite (proj2 (memn_nIn i l)) by (intros H; apply (Dis i H Hi)).
      rewrite (proj2 (Hw i (Inr i Hi))). fold W. ring. }
    assert (El: W_of w' l = W * a) by (apply Nl, hd_In; auto).
    assert (Er: W_of w' r = W - W * a) by (apply Nr, hd_In; auto).
    pose proof Near as ((N1&N2)&_).
    pose proof (Rmax_l (total lo l) (W - total hi r)). pose proof (Rmax_r (total lo l) (W - total hi r)).
    pose proof (Rmin_l (total hi l) (W - total lo r)). pose proof (Rmin_r (total hi l) (W - total lo r)).
    repeat split; auto.
    - apply Hw; auto.
    - rewrite El. auto.
    - rewrite El; lra.
    - rewrite El; lra.
    - apply Hw; auto.
    - rewrite Er. auto.
    - rewrite Er; lra.
    - rewrite Er; lra.
    - rewrite El, Er; lra.
    - rewrite El; lra.
    - rewrite El; lra.
    - rewrite El; apply Near.
    - rewrite El; apply Near.
    - rewrite El; apply Near.
    - intros i Hi. unfold w'. rewrite scale_nth, (proj2 (memn_nIn i r)), scale_nth, (proj2 (memn_nIn i l)) by (intros H'; apply Hi; auto). reflexivity.
    - unfold w'. rewrite !scale_length. reflexivity.
  Qed.

  (** one level of the loop *)
  Lemma level_spec items : forall w new w',
    level risk n lo hi items w = Some (new, w') -> NoDup (concat items) -> (forall e, In e items -> item_ok w e) ->
    NoDup (concat new) /\ (forall e, In e new -> item_ok w' e) /\ incl (concat new) (concat items)
    /\ (forall e, In e new -> exists e', In e' items /\ (length e < length e')%nat)
    /\ (forall i, ~ In i (concat items) -> nth i w' 0 = nth i w 0) /\ length w' = length w
    /\ (forall e, In e items -> length e = 1%nat -> (forall i, In i e -> nth i w' 0 = nth i w 0 /\ ~ In i (concat new)))
    /\ (forall e, In e items -> (1 < length e)%nat -> exists l r, l ++ r = e /\ length l = (length e / 2)%nat /\ In l new /\ In r new
          /\ W_of w' r = W_of w e - W_of w' l
          /\ nearest (W_of w e * (cluster_risk risk n r / (cluster_risk risk n l + cluster_risk risk n r)))
               (Rmax (total lo l) (W_of w e - total hi r)) (Rmin (total hi l) (W_of w e - total lo r)) (W_of w' l)).
  Proof.
    induction items as [|e items IH]; intros w new w' E Hnd Hok.
    { cbn in E. inversion E; subst. cbn. split; [constructor|]. split; [intros ? []|]. split; [intros ? []|]. split; [intros ? []|]. split; [auto|]. split; [auto|]. split; intros ? []. }
    cbn [level] in E. cbn [concat] in Hnd.
    assert (Hnd1: NoDup e) by (apply nodup_app_l in Hnd; auto).
    assert (Hnd2: NoDup (concat items)) by (apply nodup_app_r in Hnd; auto).
    assert (Dis: forall i, In i e -> ~ In i (concat items)).
    { clear -Hnd. induction e as [|x e IH]; [intros i []|]. cbn in Hnd. inversion Hnd as [|? ? N1 N2]; subst. intros i [->|Hi]; [intros H; apply N1, in_or_app; auto|auto]. }
    destruct (1 <? length e)%nat eqn:EL.
    - apply Nat.ltb_lt in EL. destruct (bisect e) as [l r] eqn:Eb.
      change (risk (inv_risk_w risk n l)) with (cluster_risk risk n l) in E. change (risk (inv_risk_w risk n r)) with (cluster_risk risk n r) in E.
      destruct (split_factor _ _ _ _ _ _) as [a|] eqn:Es; [|discriminate].
      destruct (level risk n lo hi items _) as [[new2 w2]|] eqn:E2; [|discriminate]. inversion E; subst new w2. clear E.
      destruct (split_step w e l r a Hnd1 EL (Hok e (or_introl eq_refl)) Eb Es) as (Elr&Hl2&Ll&Lr&Okl&Okr&Wr&Near&Same&Len).
      set (w1 := scale r (1 - a) (scale l a w)) in *.
      assert (Ext: forall e', In e' items -> item_ok w1 e' /\ W_of w1 e' = W_of w e').
      { intros e' He'. destruct (Hok e' (or_intror He')) as (A&B&C).
        assert (S: forall i, In i e' -> nth i w1 0 = nth i w 0).
        { intros i Hi. apply Same. intros Hie. apply (Dis i Hie). apply in_concat. exists e'. auto. }
        assert (SW: W_of w1 e' = W_of w e') by (apply S, hd_In; auto).
        split; [|exact SW]. split; [exact A|]. split; [|rewrite SW; exact C]. intros i Hi. split; [apply B; auto|]. rewrite SW, S by auto. apply B; auto. }
      destruct (IH w1 new2 w' E2 Hnd2 (fun e' He' => proj1 (Ext e' He'))) as (N1&N2&N3&N4&N5&N6&N7&N8).
      assert (Keep: forall i, In i e -> nth i w' 0 = nth i w1 0) by (intros i Hi; apply N5, Dis; auto).
      assert (Inl: forall i, In i l -> In i e) by (intros i Hi; rewrite <- Elr; apply in_or_app; auto).
      assert (Inr: forall i, In i r -> In i e) by (intros i Hi; rewrite <- Elr; apply in_or_app; auto).
      assert (Move: forall c, (forall i, In i c -> In i e) -> item_ok w1 c -> item_ok w' c /\ W_of w' c = W_of w1 c).
      { intros c Hc (A&B&C). assert (SW: W_of w' c = W_of w1 c) by (apply Keep, Hc, hd_In; auto). split; [|exact SW]. split; [exact A|]. split; [|rewrite SW; exact C].
        intros i Hi. split; [apply B; auto|]. rewrite SW, Keep by auto. apply B; auto. }
      destruct (Move l Inl Okl) as [Okl' Wl']. destruct (Move r Inr Okr) as [Okr' Wr'].
      split; [|split; [|split; [|split; [|split; [|split; [|split]]]]]].
      + cbn [concat]. rewrite app_assoc, Elr. clear -Hnd1 N1 N3 Dis.
        assert (D: forall i, In i e -> ~ In i (concat new2)) by (intros i Hi H; apply (Dis i Hi), N3, H). clear Dis N3.
        induction e as [|x e IH]; [exact N1|]. cbn. inversion Hnd1; subst. constructor.
        * intros H. apply in_app_or in H as [H|H]; [auto|apply (D x (or_introl eq_refl) H)].
        * apply IH; auto. intros i Hi. apply D. right; auto.
      + intros e' [<-|[<-|He']]; auto.
      + cbn [concat]. intros i Hi. apply in_or_app. apply in_app_or in Hi as [Hi|Hi]; [left; auto|]. apply in_app_or in Hi as [Hi|Hi]; [left; auto|right; apply N3; auto].
      + intros e' [<-|[<-|He']]; [exists e; split; [left; auto|auto]|exists e; split; [left; auto|auto]|]. destruct (N4 e' He') as (e''&A&B). exists e''. split; [right; auto|auto].
      + intros i Hi. cbn [concat] in Hi. rewrite N5, Same; auto; intros H; apply Hi, in_or_app; auto.
      + congruence.
      + intros e' [<-|He'] L1; [lia|]. intros i Hi. destruct (N7 e' He' L1 i Hi) as [A B]. split.
        * rewrite A. apply Same. intros H. apply (Dis i H). apply in_concat. exists e'. auto.
        * cbn [concat]. intros H. assert (Hic: In i (concat items)) by (apply in_concat; exists e'; auto).
          apply in_app_or in H as [H|H]; [apply (Dis i (Inl i H) Hic)|]. apply in_app_or in H as [H|H]; [apply (Dis i (Inr i H) Hic)|auto].
      + intros e' [<-|He'] L1.
        * exists l, r. rewrite Wl', Wr'. repeat split; auto; [left; auto|right; left; auto|apply Near..].
        * destruct (N8 e' He' L1) as (l'&r'&A&B&C&D&F&G). rewrite (proj2 (Ext e' He')) in F, G. exists l', r'. repeat split; auto; [right; right; auto|right; right; auto|apply G..].
    - apply Nat.ltb_ge in EL. destruct (Hok e (or_introl eq_refl)) as (A&_). assert (L1: length e = 1%nat) by (destruct e; [congruence|cbn in *; lia]).
      destruct (IH w new w' E Hnd2 (fun e' He' => Hok e' (or_intror He'))) as (N1&N2&N3&N4&N5&N6&N7&N8).
      split; [|split; [|split; [|split; [|split; [|split; [|split]]]]]]; auto.
      + intros i Hi. cbn. apply in_or_app. right. apply N3, Hi.
      + intros e' He'. destruct (N4 e' He') as (e''&B&C). exists e''. split; [right; auto|auto].
      + intros i Hi. apply N5. intros H. apply Hi. cbn. apply in_or_app; auto.
      + intros e' [<-|He'] L; [|apply N7; auto]. intros i Hi. split; [apply N5, Dis; auto|]. intros H. apply (Dis i Hi), N3, H.
      + intros e' [<-|He'] L; [lia|apply N8; auto].
  Qed.

  Lemma loop_spec fuel : forall items w, NoDup (concat items) -> (forall e, In e items -> item_ok w e) -> (forall e, In e items -> (length e <= fuel)%nat) ->
    loop risk n lo hi fuel items w <> OutOfFuel
    /\ forall wf, loop risk n lo hi fuel items w = Weights wf ->
         (forall e, In e items -> allocation (cluster_risk risk n) lo hi wf e (W_of w e))
         /\ (forall i, ~ In i (concat items) -> nth i wf 0 = nth i w 0) /\ length wf = length w.
  Proof.
    induction fuel as [|fuel IH]; intros items w Hnd Hok Hf.
    { destruct items as [|e items]; cbn.
      - split; [discriminate|]. intros wf E; inversion E; subst. split; [intros e []|auto].
      - exfalso. destruct (Hok e (or_introl eq_refl)) as (A&_). specialize (Hf e (or_introl eq_refl)). destruct e; [congruence|cbn in Hf; lia]. }
    destruct items as [|e0 items0] eqn:EI.
    { cbn. split; [discriminate|]. intros wf E; inversion E; subst. split; [intros e []|auto]. }
    rewrite <- EI in *. replace (loop risk n lo hi (S fuel) items w) with
      (match level risk n lo hi items w with None => NotFinite | Some (new_items, weights) => loop risk n lo hi fuel new_items weights end) by (rewrite EI; reflexivity).
    clear EI. destruct (level risk n lo hi items w) as [[new w']|] eqn:E; [|split; [discriminate|intros ? H; discriminate]].
    destruct (level_spec items w new w' E Hnd Hok) as (N1&N2&N3&N4&N5&N6&N7&N8).
    destruct (IH new w' N1 N2) as [F1 F2].
    { intros e He. destruct (N4 e He) as (e'&A&B). specialize (Hf e' A). lia. }
    split; [exact F1|]. intros wf Ewf. destruct (F2 wf Ewf) as (A&B&C). split; [|split; [|congruence]].
    - intros e He. destruct (Hok e He) as (Hne&Hwe&_). destruct (Nat.eq_dec (length e) 1) as [L|L].
      + destruct e as [|i [|j e]]; try discriminate. destruct (N7 [i] He L i (or_introl eq_refl)) as [P Q]. constructor. rewrite B by auto. exact P.
      + assert (L1: (1 < length e)%nat) by (destruct e as [|i [|j e]]; cbn in *; try congruence; lia).
        destruct (N8 e He L1) as (l&r&Elr&Hl2&Il&Ir&Wr&Near). rewrite <- Elr in *. econstructor; [exact Hl2|exact L1|exact Near|apply A; auto|].
        rewrite <- Wr. apply A; auto.
    - intros i Hi. rewrite B; [apply N5; auto|]. intros H. apply Hi, N3, H.
  Qed.
  (** the split never divides by zero if all minimum weights are positive, or all are zero, and all maximum weights are positive *)
  Hypothesis Hhi : forall i, (i < n)%nat -> 0 < nth i hi 0.
  Hypothesis Hlo : (forall i, (i < n)%nat -> 0 < nth i lo 0) \/ (forall i, (i < n)%nat -> nth i lo 0 = 0).
  Lemma total_pos v c : (forall i, (i < n)%nat -> 0 < nth i v 0) -> c <> [] -> (forall i, In i c -> (i < n)%nat) -> 0 < total v c.
  Proof.
    clear. intros Hv Hc Hi. destruct c as [|x c]; [congruence|]. unfold total. rewrite so_cons. pose proof (Hv x (Hi x (or_introl eq_refl))).
    assert (0 <= sum_over c (fun i => nth i v 0)); [|lra]. apply so_nonneg. intros y Hy. apply Rlt_le, Hv, Hi. right; auto.
  Qed.
  Lemma pos_step W l r WL : 0 < W -> l <> [] -> r <> [] -> (forall i, In i l -> (i < n)%nat) -> (forall i, In i r -> (i < n)%nat) ->
    nearest (W * (cluster_risk risk n r / (cluster_risk risk n l + cluster_risk risk n r)))
            (Rmax (total lo l) (W - total hi r)) (Rmin (total hi l) (W - total lo r)) WL -> 0 < WL /\ 0 < W - WL.
  Proof.
    intros HW Hl Hr Il Ir ((N1&N2)&N3&N4&N5).
    pose proof (Hrisk l Hl Il) as P1. pose proof (Hrisk r Hr Ir) as P2. set (x := W * _) in *.
    assert (Hx: 0 < x < W).
    { unfold x. assert (0 < cluster_risk risk n r / (cluster_risk risk n l + cluster_risk risk n r) < 1).
      { split; [apply Rdiv_lt_0_compat; lra|]. apply (Rmult_lt_reg_r (cluster_risk risk n l + cluster_risk risk n r)); [lra|]. field_simplify; lra. }
      split; [apply Rmult_lt_0_compat; lra|]. rewrite <- (Rmult_1_r W) at 2. apply Rmult_lt_compat_l; lra. }
    pose proof (total_pos hi l Hhi Hl Il). pose proof (total_pos hi r Hhi Hr Ir).
    pose proof (Rmax_l (total lo l) (W - total hi r)). pose proof (Rmin_r (total hi l) (W - total lo r)).
    destruct Hlo as [Z0|Z0].
    - pose proof (total_pos lo l Z0 Hl Il). pose proof (total_pos lo r Z0 Hr Ir). lra.
    - assert (Zl: total lo l = 0) by (apply so_zero; auto). assert (Zr: total lo r = 0) by (apply so_zero; auto). rewrite Zl, Zr in *.
      destruct (Rlt_dec x (Rmax 0 (W - total hi r))) as [C|C].
      + rewrite (N3 C) in *. unfold Rmax in *. destruct (Rle_dec 0 (W - total hi r)); lra.
      + destruct (Rlt_dec (Rmin (total hi l) (W - 0)) x) as [D|D].
        * rewrite (N4 D) in *. unfold Rmin in *. destruct (Rle_dec (total hi l) (W - 0)); lra.
        * rewrite N5 by lra. lra.
  Qed.
  Lemma level_finite items : forall w, NoDup (concat items) -> (forall e, In e items -> item_ok w e /\ 0 < W_of w e) ->
    exists new w', level risk n lo hi items w = Some (new, w') /\ forall e, In e new -> 0 < W_of w' e.
  Proof.
    induction items as [|e items IH]; intros w Hnd Hok.
    { exists [], w. split; [reflexivity|intros e []]. }
    cbn [level]. cbn [concat] in Hnd. pose proof (nodup_app_l _ _ Hnd) as Hnd1. pose proof (nodup_app_r _ _ Hnd) as Hnd2.
    assert (Dis: forall i, In i e -> ~ In i (concat items)).
    { clear -Hnd. induction e as [|x e IH]; [intros i []|]. cbn in Hnd. inversion Hnd as [|? ? N1 N2]; subst. intros i [->|Hi]; [intros H; apply N1, in_or_app; auto|auto]. }
    destruct (1 <? length e)%nat eqn:EL; [|apply IH; [auto|intros; apply Hok; right; auto]].
    apply Nat.ltb_lt in EL. destruct (bisect e) as [l r] eqn:Eb. destruct (Hok e (or_introl eq_refl)) as [Oke Pe].
    pose proof (bisect_spec e EL) as HB. rewrite Eb in HB. destruct HB as (Elr&Hl2&Hl&Hr&Ll&Lr).
    assert (Inl: forall i, In i l -> In i e) by (intros i Hi; rewrite <- Elr; apply in_or_app; auto).
    assert (Inr: forall i, In i r -> In i e) by (intros i Hi; rewrite <- Elr; apply in_or_app; auto).
    change (risk (inv_risk_w risk n l)) with (cluster_risk risk n l). change (risk (inv_risk_w risk n r)) with (cluster_risk risk n r).
    assert (Es: exists a, split_factor lo hi (1 - cluster_risk risk n l / (cluster_risk risk n l + cluster_risk risk n r)) w l r = Some a).
    { destruct Oke as (_&Hw&_). unfold split_factor. rewrite (proj2 (Hw _ (Inl _ (hd_In l Hl)))), (proj2 (Hw _ (Inr _ (hd_In r Hr)))).
      destruct (Req_EM_T (W_of w e) 0); [lra|]. eexists; reflexivity. }
    destruct Es as [a Es]. rewrite Es.
    destruct (split_step w e l r a Hnd1 EL Oke Eb Es) as (_&_&_&_&Okl&Okr&Wr&Near&Same&Len).
    set (w1 := scale r (1 - a) (scale l a w)) in *.
    destruct Oke as (_&Hw&_).
    assert (PP: 0 < W_of w1 l /\ 0 < W_of w e - W_of w1 l) by (apply (pos_step (W_of w e) l r); auto; intros i Hi; apply Hw; auto).
    assert (OkI: forall e', In e' items -> item_ok w1 e' /\ 0 < W_of w1 e').
    { intros e' He'. destruct (Hok e' (or_intror He')) as [(A&B&C) P].
      assert (S: forall i, In i e' -> nth i w1 0 = nth i w 0).
      { intros i Hi. apply Same. intros Hie. apply (Dis i Hie). apply in_concat. exists e'. auto. }
      assert (SW: W_of w1 e' = W_of w e') by (apply S, hd_In; auto).
      split; [|rewrite SW; exact P]. split; [exact A|]. split; [|rewrite SW; exact C]. intros i Hi. split; [apply B; auto|]. rewrite SW, S by auto. apply B; auto. }
    destruct (IH w1 Hnd2 OkI) as (new&w'&E'&P').
    rewrite E'. eexists _, _. split; [reflexivity|].
    destruct (level_spec items w1 new w' E' Hnd2 (fun e' He' => proj1 (OkI e' He'))) as (_&_&_&_&N5&_).
    intros e' [<-|[<-|He']]; [| |apply P'; auto].
    - change (0 < nth (hd 0%nat l) w' 0). rewrite N5 by (apply Dis, Inl, hd_In; auto). apply PP.
    - change (0 < nth (hd 0%nat r) w' 0). rewrite N5 by (apply Dis, Inr, hd_In; auto). change (0 < W_of w1 r). rewrite Wr. apply PP.
  Qed.
  Lemma loop_finite fuel : forall items w, NoDup (concat items) -> (forall e, In e items -> item_ok w e /\ 0 < W_of w e) -> (forall e, In e items -> (length e <= fuel)%nat) ->
    exists wf, loop risk n lo hi fuel items w = Weights wf.
  Proof.
    induction fuel as [|fuel IH]; intros items w Hnd Hok Hf.
    { destruct items as [|e items]; [eexists; reflexivity|].
      exfalso. destruct (Hok e (or_introl eq_refl)) as ((A&_)&_). specialize (Hf e (or_introl eq_refl)). destruct e; [congruence|cbn in Hf; lia]. }
    destruct items as [|e0 items0] eqn:EI; [eexists; reflexivity|].
    rewrite <- EI in *. replace (loop risk n lo hi (S fuel) items w) with
      (match level risk n lo hi items w with None => NotFinite | Some (new_items, weights) => loop risk n lo hi fuel new_items weights end) by (rewrite EI; reflexivity).
    clear EI. destruct (level_finite items w Hnd Hok) as (new&w'&E&P). rewrite E.
    destruct (level_spec items w new w' E Hnd (fun e He => proj1 (Hok e He))) as (N1&N2&N3&N4&_).
    apply IH; auto. intros e He. destruct (N4 e He) as (e'&A&B). specialize (Hf e' A). lia.
  Qed.
End Loop.

Lemma rsum_nth v n : length v = n -> sum_over (seq 0 n) (fun i => nth i v 0) = rsum v.
Proof.
  intros <-. unfold sum_over. f_equal. induction v as [|x v IH]; [reflexivity|]. cbn [length seq map nth]. f_equal. rewrite <- seq_shift, map_map. exact IH.
Qed.
Lemma nth_repeat_lt (x : R) n i : (i < n)%nat -> nth i (repeat x n) 0 = x.
Proof. revert i; induction n; intros [|i] H; cbn; try lia; auto. apply IHn; lia. Qed.
Lemma nth_repeat_0 n i : nth i (repeat 0 n) 0 = 0.
Proof. revert i; induction n; intros [|i]; cbn; auto. Qed.
Lemma nth_repeat_01 n i : 0 <= nth i (repeat 1 n) 0 <= 1.
Proof. revert i; induction n; intros [|i]; cbn; try lra. apply IHn. Qed.
Lemma rsum_repeat x n : rsum (repeat x n) = INR n * x.
Proof. induction n as [|n IH]; [cbn; ring|]. cbn [repeat]. rewrite rsum_cons, IH, S_INR. ring. Qed.
Lemma existsb_false {A} (f : A -> bool) l : existsb f l = false <-> forall x, In x l -> f x = false.
Proof.
  split.
  - intros H x Hx. destruct (f x) eqn:E; auto. assert (existsb f l = true) by (apply existsb_exists; eauto). congruence.
  - intros H. destruct (existsb f l) eqn:E; auto. apply existsb_exists in E as (x&Hx&E). rewrite H in E; auto.
Qed.
Lemma Rltb_false a b : Rltb a b = false <-> b <= a.
Proof. unfold Rltb. destruct (Rlt_dec a b); split; intros; try congruence; lra. Qed.
(** what validation guarantees *)
Lemma convert_spec n mn mx lo hi : (0 < n)%nat ->
  (forall l, mn = Some l -> length l = n) -> (forall l, mx = Some l -> length l = n) -> convert_weights_bounds n mn mx = Some (lo, hi) ->
  length lo = n /\ length hi = n /\ (forall i, 0 <= nth i lo 0 <= nth i hi 0) /\ 1 <= rsum hi
  /\ (forall i, (i < n)%nat -> nth i lo 0 = match mn with Some l => nth i l 0 | None => 0 end /\ nth i hi 0 = match mx with Some l => nth i l 0 | None => 1 end).
Proof.
  intros Hn Hmn Hmx E. unfold convert_weights_bounds in E.
  assert (A: forall lo', match mn with None => Some (repeat 0 n) | Some l => if existsb (fun x => Rltb x 0) l then None else Some l end = Some lo' ->
     length lo' = n /\ (forall i, 0 <= nth i lo' 0) /\ (forall i, (i < n)%nat -> nth i lo' 0 = match mn with Some l => nth i l 0 | None => 0 end)).
  { intros lo' E1. destruct mn as [l|].
    - destruct (existsb _ l) eqn:X; [discriminate|]. inversion E1; subst lo'. split; [auto|]. split; [|auto]. intros i. rewrite existsb_false in X.
      destruct (Nat.lt_ge_cases i (length l)) as [H|H]; [|rewrite nth_overflow by auto; lra]. specialize (X (nth i l 0) (nth_In l 0 H)). apply Rltb_false in X. exact X.
    - inversion E1; subst lo'. split; [apply repeat_length|]. split; intros i; [rewrite nth_repeat_0; lra|intros _; apply nth_repeat_0]. }
  assert (B: forall hi', match mx with None => Some (repeat 1 n) | Some l => if existsb (fun x => Rltb 1 x) l then None else if Rltb (rsum l) 1 then None else Some l end = Some hi' ->
     length hi' = n /\ 1 <= rsum hi' /\ (forall i, (i < n)%nat -> nth i hi' 0 = match mx with Some l => nth i l 0 | None => 1 end)).
  { intros hi' E1. destruct mx as [l|].
    - destruct (existsb _ l) eqn:X; [discriminate|]. destruct (Rltb (rsum l) 1) eqn:Y; [discriminate|]. inversion E1; subst hi'. apply Rltb_false in Y. split; [auto|]. split; [lra|auto].
    - inversion E1; subst hi'. split; [apply repeat_length|]. split; [|intros i Hi; apply nth_repeat_lt; auto]. rewrite rsum_repeat. apply INR_ge1 in Hn. lra. }
  destruct (match mn with None => _ | Some l => _ end) as [lo'|] eqn:E1; [|discriminate].
  destruct (match mx with None => _ | Some l => _ end) as [hi'|] eqn:E2; [|discriminate].
  destruct (existsb _ (combine lo' hi')) eqn:X; [discriminate|]. inversion E; subst lo' hi'.
  destruct (A lo eq_refl) as (A1&A2&A3). destruct (B hi eq_refl) as (B1&B2&B3). split; [auto|]. split; [auto|]. split; [|split; [auto|]].
  - intros i. split; [apply A2|]. destruct (Nat.lt_ge_cases i n) as [H|H]; [|rewrite !nth_overflow by lia; lra].
    rewrite existsb_false in X. assert (Hin: In (nth i lo 0, nth i hi 0) (combine lo hi)).
    { rewrite <- combine_nth by congruence. apply nth_In. rewrite combine_length. lia. }
    specialize (X _ Hin). apply Rltb_false in X. exact X.
  - intros i Hi. split; auto.
Qed.
Lemma allocation_bounds risk_of lo hi w ids W : (forall i, nth i lo 0 <= nth i hi 0) ->
  allocation risk_of lo hi w ids W -> total lo ids <= W <= total hi ids ->
  total w ids = W /\ forall i, In i ids -> nth i lo 0 <= nth i w 0 <= nth i hi 0.
Proof.
  intros Hb HA. induction HA as [i W Hw|l r W WL Hl2 H1 ((N1&N2)&N3) _ IHl _ IHr]; intros HW.
  - unfold total in *. rewrite !so_cons, !so_nil in *. split; [lra|]. intros j [<-|[]]. lra.
  - unfold total in *. rewrite !so_app in *. set (t := fun v c => sum_over c (fun i => nth i v 0)). fold (t lo l) (t lo r) (t hi l) (t hi r) in *.
    pose proof (Rmax_l (t lo l) (W - t hi r)). pose proof (Rmax_r (t lo l) (W - t hi r)).
    pose proof (Rmin_l (t hi l) (W - t lo r)). pose proof (Rmin_r (t hi l) (W - t lo r)).
    destruct IHl as [El Bl]; [lra|]. destruct IHr as [Er Br]; [lra|]. split; [lra|]. intros i Hi. apply in_app_or in Hi as [Hi|Hi]; auto.
Qed.

(** The fit terminates, and whenever the weights are finite they are the recursive allocation of one unit; they sum to
    one and respect the bounds. *)
Theorem C29_hierarchical_risk_parity :
  forall risk n sorted_assets min_weights max_weights lo hi,
    (0 < n)%nat -> Permutation sorted_assets (seq 0 n) -> positive_risks risk n ->
    (forall l, min_weights = Some l -> length l = n) -> (forall l, max_weights = Some l -> length l = n) ->
    convert_weights_bounds n min_weights max_weights = Some (lo, hi) -> rsum lo <= 1 ->
    hrp risk n lo hi sorted_assets <> OutOfFuel
    /\ forall w, hrp risk n lo hi sorted_assets = Weights w ->
         length w = n /\ rsum w = 1
         /\ (forall i, (i < n)%nat -> match min_weights with Some l => nth i l 0 | None => 0 end <= nth i w 0
                                     /\ nth i w 0 <= match max_weights with Some l => nth i l 0 | None => 1 end)
         /\ allocation (cluster_risk risk n) lo hi w sorted_assets 1.
Proof.
  intros risk n sa mn mx lo hi Hn HP Hr Hmn Hmx HC Hlo.
  destruct (convert_spec n mn mx lo hi Hn Hmn Hmx HC) as (L1&L2&Hb&Hhi&Hv).
  assert (Hsn: forall i, In i sa <-> (i < n)%nat).
  { intros i. split; intros H; [apply (Permutation_in _ HP) in H|apply (Permutation_in _ (Permutation_sym HP))]; [apply in_seq in H|apply in_seq]; lia. }
  assert (Tot: forall v, length v = n -> total v sa = rsum v).
  { intros v Hl. unfold total. rewrite (so_perm _ _ _ HP). apply rsum_nth. auto. }
  assert (Hne: sa <> []) by (intros ->; apply (proj2 (Hsn 0%nat) Hn)).
  assert (Hone: nth (hd 0%nat sa) (repeat 1 n) 0 = 1) by (apply nth_repeat_lt, Hsn, hd_In; auto).
  destruct (loop_spec risk n lo hi Hr Hb (length sa) [sa] (repeat 1 n)) as [F1 F2].
  - cbn. rewrite app_nil_r. eapply Permutation_NoDup; [apply Permutation_sym, HP|apply seq_NoDup].
  - intros e [<-|[]]. split; [auto|]. cbv zeta. rewrite Hone, !Tot by auto. split; [|lra]. intros i Hi. apply Hsn in Hi. split; [auto|]. apply nth_repeat_lt; auto.
  - intros e [<-|[]]. lia.
  - unfold hrp. split; [exact F1|]. intros w Ew. destruct (F2 w Ew) as (A&_&C). specialize (A sa (or_introl eq_refl)). cbv zeta in A. rewrite Hone in A.
    rewrite repeat_length in C. split; [auto|].
    destruct (allocation_bounds _ lo hi w sa 1 (fun i => proj2 (Hb i)) A) as [T B]; [rewrite !Tot by auto; lra|]. rewrite Tot in T by auto.
    split; [auto|]. split; [|auto]. intros i Hi. destruct (Hv i Hi) as [<- <-]. apply B, Hsn, Hi.
Qed.
Print Assumptions C29_hierarchical_risk_parity.
(** Finite weights are guaranteed when all maximum weights are positive and the minimum weights are all zero (the
    default) or all positive. *)
Theorem C29_finite :
  forall risk n sorted_assets min_weights max_weights lo hi,
    (0 < n)%nat -> Permutation sorted_assets (seq 0 n) -> positive_risks risk n ->
    (forall l, min_weights = Some l -> length l = n) -> (forall l, max_weights = Some l -> length l = n) ->
    convert_weights_bounds n min_weights max_weights = Some (lo, hi) -> rsum lo <= 1 ->
    (forall i, (i < n)%nat -> 0 < nth i hi 0) ->
    (forall i, (i < n)%nat -> 0 < nth i lo 0) \/ (forall i, (i < n)%nat -> nth i lo 0 = 0) ->
    exists w, hrp risk n lo hi sorted_assets = Weights w.
Proof.
  intros risk n sa mn mx lo hi Hn HP Hr Hmn Hmx HC Hlo Hh Hl.
  destruct (convert_spec n mn mx lo hi Hn Hmn Hmx HC) as (L1&L2&Hb&Hhi&Hv).
  assert (Hsn: forall i, In i sa <-> (i < n)%nat).
  { intros i. split; intros H; [apply (Permutation_in _ HP) in H|apply (Permutation_in _ (Permutation_sym HP))]; [apply in_seq in H|apply in_seq]; lia. }
  assert (Tot: forall v, length v = n -> total v sa = rsum v).
  { intros v Hlv. unfold total. rewrite (so_perm _ _ _ HP). apply rsum_nth. auto. }
  assert (Hne: sa <> []) by (intros ->; apply (proj2 (Hsn 0%nat) Hn)).
  assert (Hone: nth (hd 0%nat sa) (repeat 1 n) 0 = 1) by (apply nth_repeat_lt, Hsn, hd_In; auto).
  apply (loop_finite risk n lo hi Hr Hb Hh Hl).
  - cbn. rewrite app_nil_r. eapply Permutation_NoDup; [apply Permutation_sym, HP|apply seq_NoDup].
  - intros e [<-|[]]. cbv zeta. split; [|rewrite Hone; lra]. split; [auto|]. cbv zeta. rewrite Hone, !Tot by auto. split; [|lra]. intros i Hi. apply Hsn in Hi. split; [auto|]. apply nth_repeat_lt; auto.
  - intros e [<-|[]]. lia.
Qed.
Print Assumptions C29_finite.
Ltac decide_bounds :=
  unfold Rltb; repeat (cbn [existsb orb rsum fold_right repeat combine fst snd]; match goal with |- context [Rlt_dec ?a ?b] => destruct (Rlt_dec a b); [exfalso; lra|] end); reflexivity.
(** two assets with different risks and different maximum weights *)
Example C29_example : exists risk lo hi, positive_risks risk 2 /\ convert_weights_bounds 2 None (Some [1/2; 3/4]) = Some (lo, hi) /\ rsum lo <= 1
  /\ (forall i, (i < 2)%nat -> 0 < nth i hi 0) /\ (forall i, (i < 2)%nat -> nth i lo 0 = 0) /\ risk [1; 0] <> risk [0; 1].
Proof.
  exists (fun w => Rabs (nth 0 w 0) + 1), [0; 0], [1/2; 3/4]. split; [|split; [|split; [cbn; lra|split; [|split]]]].
  - intros ids _ _. unfold cluster_risk. pose proof (Rabs_pos (nth 0 (inv_risk_w (fun w => Rabs (nth 0 w 0) + 1) 2 ids) 0)). cbv beta. lra.
  - unfold convert_weights_bounds. decide_bounds.
  - intros [|[|i]] Hi; cbn; try lra; lia.
  - intros [|[|i]] Hi; cbn; try lra; lia.
  - cbn. rewrite Rabs_R1, Rabs_R0. lra.
Qed.

(** Finding: valid bounds can make the weights NaN.  Six equally risky assets, the first with a minimum of 60%: the
    half that contains it is raised to 60%, the first asset takes all of it, and the two assets left, with weight 0,
    are split by dividing by 0. *)
Theorem C29_not_finite_refuted :
  exists risk n min_weights max_weights lo hi,
    positive_risks risk n /\ convert_weights_bounds n min_weights max_weights = Some (lo, hi) /\ rsum lo < 1
    /\ (forall i, (i < n)%nat -> nth i hi 0 = 1) /\ hrp risk n lo hi (seq 0 n) = NotFinite.
Proof.
  exists (fun _ => 1), 6%nat, (Some [3/5; 0; 0; 0; 0; 0]), None, [3/5; 0; 0; 0; 0; 0], (repeat 1 6).
  split; [intros ids _ _; unfold cluster_risk; lra|]. split.
  { unfold convert_weights_bounds. decide_bounds. }
  split; [cbn; lra|]. split; [intros i Hi; apply nth_repeat_lt; auto|].
  assert (Smin: forall u v, (u <= v /\ Rmin u v = u) \/ (v <= u /\ Rmin u v = v)) by (intros u v; unfold Rmin; destruct (Rle_dec u v); lra).
  assert (Smax: forall u v, (u <= v /\ Rmax u v = v) \/ (v <= u /\ Rmax u v = u)) by (intros u v; unfold Rmax; destruct (Rle_dec u v); lra).
  set (lo := [3/5; 0; 0; 0; 0; 0]). set (hi := repeat 1 6). set (risk := fun _ : list R => 1).
  assert (L1: level risk 6 lo hi [seq 0 6] (repeat 1 6)
     = Some ([[0;1;2];[3;4;5]]%nat, [1 * (3/5); 1 * (3/5); 1 * (3/5); 1 * (1 - 3/5); 1 * (1 - 3/5); 1 * (1 - 3/5)])).
  { change (level risk 6 lo hi [seq 0 6] (repeat 1 6)) with
      (match split_factor lo hi (1 - 1 / (1 + 1)) (repeat 1 6) [0;1;2]%nat [3;4;5]%nat with
       | None => None | Some a => Some ([[0;1;2];[3;4;5]]%nat, scale [3;4;5]%nat (1 - a) (scale [0;1;2]%nat a (repeat 1 6))) end).
    assert (E: split_factor lo hi (1 - 1 / (1 + 1)) (repeat 1 6) [0;1;2]%nat [3;4;5]%nat = Some (3/5)); [|rewrite E; reflexivity].
    unfold split_factor. cbn [hd repeat nth]. destruct (Req_EM_T 1 0); [lra|]. unfold sum_over, lo, hi. cbn [map nth repeat rsum fold_right]. f_equal.
    destruct (Smax ((3 / 5 + (0 + (0 + 0))) / 1) (1 - 1 / (1 + 1))) as [[? ->]|[? ->]]; [lra|].
    destruct (Smin ((1 + (1 + (1 + 0))) / 1) ((3 / 5 + (0 + (0 + 0))) / 1)) as [[? ->]|[? ->]]; [lra|].
    destruct (Smax ((0 + (0 + (0 + 0))) / 1) (1 - (3 / 5 + (0 + (0 + 0))) / 1)) as [[? ->]|[? ->]]; [|lra].
    destruct (Smin ((1 + (1 + (1 + 0))) / 1) (1 - (3 / 5 + (0 + (0 + 0))) / 1)) as [[? ->]|[? ->]]; lra. }
  set (w1 := [1 * (3/5); 1 * (3/5); 1 * (3/5); 1 * (1 - 3/5); 1 * (1 - 3/5); 1 * (1 - 3/5)]) in *.
  assert (E1: split_factor lo hi (1 - 1 / (1 + 1)) w1 [0]%nat [1;2]%nat = Some 1).
  { unfold split_factor, w1. cbn [hd nth]. destruct (Req_EM_T (1 * (3/5)) 0); [lra|]. unfold sum_over, lo, hi. cbn [map nth repeat rsum fold_right]. f_equal.
    replace ((3/5 + 0) / (1 * (3/5))) with 1 by field. replace ((0 + (0 + 0)) / (1 * (3/5))) with 0 by field.
    replace ((1 + 0) / (1 * (3/5))) with (5/3) by field. replace ((1 + (1 + 0)) / (1 * (3/5))) with (10/3) by field.
    destruct (Smax 1 (1 - 1 / (1 + 1))) as [[? ->]|[? ->]]; [lra|]. destruct (Smin (5/3) 1) as [[? ->]|[? ->]]; [lra|].
    destruct (Smax 0 (1 - 1)) as [[? ->]|[? ->]]; [destruct (Smin (10/3) (1 - 1)) as [[? ->]|[? ->]]; lra|destruct (Smin (10/3) 0) as [[? ->]|[? ->]]; lra]. }
  assert (L2: exists a w2, level risk 6 lo hi [[0;1;2];[3;4;5]]%nat w1 = Some ([[0];[1;2];[3];[4;5]]%nat, w2)
              /\ w2 = scale [4;5]%nat (1 - a) (scale [3]%nat a (scale [1;2]%nat (1 - 1) (scale [0]%nat 1 w1)))).
  { change (level risk 6 lo hi [[0;1;2];[3;4;5]]%nat w1) with
      (match split_factor lo hi (1 - 1 / (1 + 1)) w1 [0]%nat [1;2]%nat with
       | None => None
       | Some a => match level risk 6 lo hi [[3;4;5]]%nat (scale [1;2]%nat (1 - a) (scale [0]%nat a w1)) with
                   | None => None
                   | Some (new, w) => Some ([0]%nat :: [1;2]%nat :: new, w) end end).
    rewrite E1. set (w1' := scale [1;2]%nat (1 - 1) (scale [0]%nat 1 w1)).
    change (level risk 6 lo hi [[3;4;5]]%nat w1') with
      (match split_factor lo hi (1 - 1 / (1 + 1)) w1' [3]%nat [4;5]%nat with
       | None => None
       | Some a => Some ([[3];[4;5]]%nat, scale [4;5]%nat (1 - a) (scale [3]%nat a w1')) end).
    assert (E2: exists a, split_factor lo hi (1 - 1 / (1 + 1)) w1' [3]%nat [4;5]%nat = Some a).
    { unfold split_factor. change (nth (hd 0%nat [3%nat]) w1' 0) with (1 * (1 - 3/5)). change (nth (hd 0%nat [4%nat; 5%nat]) w1' 0) with (1 * (1 - 3/5)).
      destruct (Req_EM_T (1 * (1 - 3/5)) 0); [lra|]. eexists; reflexivity. }
    destruct E2 as [a E2]. rewrite E2. exists a, (scale [4;5]%nat (1 - a) (scale [3]%nat a w1')). split; reflexivity. }
  destruct L2 as (a&w2&L2&E2).
  assert (L3: level risk 6 lo hi [[0];[1;2];[3];[4;5]]%nat w2 = None).
  { change (level risk 6 lo hi [[0];[1;2];[3];[4;5]]%nat w2) with
      (match split_factor lo hi (1 - 1 / (1 + 1)) w2 [1]%nat [2]%nat with
       | None => None
       | Some a => match level risk 6 lo hi [[3];[4;5]]%nat (scale [2]%nat (1 - a) (scale [1]%nat a w2)) with
                   | None => None
                   | Some (new, w) => Some ([1]%nat :: [2]%nat :: new, w) end end).
    replace (split_factor lo hi (1 - 1 / (1 + 1)) w2 [1]%nat [2]%nat) with (@None R); [reflexivity|].
    unfold split_factor. rewrite E2. change (nth (hd 0%nat [1%nat]) (scale [4;5]%nat (1 - a) (scale [3]%nat a (scale [1;2]%nat (1 - 1) (scale [0]%nat 1 w1)))) 0) with (1 * (3/5) * (1 - 1)).
    destruct (Req_EM_T (1 * (3/5) * (1 - 1)) 0); [reflexivity|lra]. }
  unfold hrp. change (length (seq 0 6)) with 6%nat.
  change (loop risk 6 lo hi 6 [seq 0 6] (repeat 1 6)) with
    (match level risk 6 lo hi [seq 0 6] (repeat 1 6) with None => NotFinite | Some (new_items, weights) => loop risk 6 lo hi 5 new_items weights end).
  rewrite L1. change (loop risk 6 lo hi 5 [[0;1;2];[3;4;5]]%nat w1) with
    (match level risk 6 lo hi [[0;1;2];[3;4;5]]%nat w1 with None => NotFinite | Some (new_items, weights) => loop risk 6 lo hi 4 new_items weights end).
  rewrite L2. change (loop risk 6 lo hi 4 [[0];[1;2];[3];[4;5]]%nat w2) with
    (match level risk 6 lo hi [[0];[1;2];[3];[4;5]]%nat w2 with None => NotFinite | Some (new_items, weights) => loop risk 6 lo hi 3 new_items weights end).
  rewrite L3. reflexivity.
Qed.
Print Assumptions C29_not_finite_refuted.
(** Finding: minimum weights that sum to more than one are accepted, and then not respected *)
Theorem C29_infeasible_minimum_accepted_refuted :
  exists risk n min_weights lo hi w,
    positive_risks risk n /\ convert_weights_bounds n (Some min_weights) None = Some (lo, hi)
    /\ hrp risk n lo hi (seq 0 n) = Weights w /\ exists i, (i < n)%nat /\ nth i w 0 < nth i min_weights 0.
Proof.
  exists (fun _ => 1), 2%nat, [3/4; 3/4], [3/4; 3/4], [1; 1].
  assert (Smin: forall u v, (u <= v /\ Rmin u v = u) \/ (v <= u /\ Rmin u v = v)) by (intros u v; unfold Rmin; destruct (Rle_dec u v); lra).
  assert (Smax: forall u v, (u <= v /\ Rmax u v = v) \/ (v <= u /\ Rmax u v = u)) by (intros u v; unfold Rmax; destruct (Rle_dec u v); lra).
  set (lo := [3/4; 3/4]). set (hi := [1; 1]). set (risk := fun _ : list R => 1).
  assert (E: split_factor lo hi (1 - 1 / (1 + 1)) [1; 1] [0]%nat [1]%nat = Some (1/4)).
  { unfold split_factor. cbn [hd nth]. destruct (Req_EM_T 1 0); [lra|]. unfold sum_over, lo, hi. cbn [map nth rsum fold_right]. f_equal.
    replace ((3/4 + 0) / 1) with (3/4) by field. replace ((1 + 0) / 1) with 1 by field.
    destruct (Smax (3/4) (1 - 1 / (1 + 1))) as [[? ->]|[? ->]]; [lra|]. destruct (Smin 1 (3/4)) as [[? ->]|[? ->]]; [lra|].
    destruct (Smax (3/4) (1 - 3/4)) as [[? ->]|[? ->]]; [lra|]. destruct (Smin 1 (3/4)) as [[? ->]|[? ->]]; lra. }
  exists (scale [1]%nat (1 - 1/4) (scale [0]%nat (1/4) [1; 1])). split; [intros ids _ _; unfold cluster_risk, risk; lra|]. split; [|split].
  - unfold convert_weights_bounds, lo, hi. decide_bounds.
  - unfold hrp. change (loop risk 2 lo hi (length (seq 0 2)) [seq 0 2] (repeat 1 2)) with
      (match (match split_factor lo hi (1 - 1 / (1 + 1)) [1; 1] [0]%nat [1]%nat with
              | None => None | Some a => Some ([[0];[1]]%nat, scale [1]%nat (1 - a) (scale [0]%nat a [1; 1])) end) with
       | None => NotFinite | Some (new_items, weights) => loop risk 2 lo hi 1 new_items weights end).
    rewrite E. reflexivity.
  - exists 0%nat. split; [lia|]. change (1 * (1/4) < 3/4). lra.
Qed.
Print Assumptions C29_infeasible_minimum_accepted_refuted.
