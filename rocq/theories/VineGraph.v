(** Graphs, spanning trees and regular vines: vocabulary of the specification and
    lemmas for VineProps.v and VineSampleProps.v. *)
Require Import List Arith Bool Lia Permutation.
From Verif Require Import VineModel.
Import ListNotations.

(** * Specification *)

(** Two nodes joined by a path. *)
Inductive linked (E : list edge) : nat -> nat -> Prop :=
  | linked_refl x : linked E x x
  | linked_step x y z : In (x, y) E \/ In (y, x) E -> linked E y z -> linked E x z.

(** Removing any edge separates its two ends. *)
Definition acyclic (E : list edge) : Prop :=
  forall E1 a b E2, E = E1 ++ (a, b) :: E2 -> ~ linked (E1 ++ E2) a b.

Definition spanning_tree (m : nat) (t : list edge) : Prop :=
  (forall a b, In (a, b) t -> a < b < m)
  /\ (forall x y, x < m -> y < m -> linked t x y)
  /\ acyclic t.

(** Edges listed row by row. *)
Definition row_major (t : list edge) : Prop :=
  forall i j, i < j < length t ->
    fst (edge_at t i) < fst (edge_at t j)
    \/ fst (edge_at t i) = fst (edge_at t j) /\ snd (edge_at t i) < snd (edge_at t j).

(** The variables below a node. *)
Fixpoint vars (below : list tree) (k : nat) : list nat :=
  match below with
  | [] => [k]
  | t :: below' =>
      set_union (vars below' (fst (edge_at t k))) (vars below' (snd (edge_at t k)))
  end.

(** A regular vine on [n] variables: every tree spans the edges of the tree below
    it and only joins edges that have a node in common. *)
Fixpoint regular (n : nat) (ts : list tree) : Prop :=
  match ts with
  | [] => True
  | t :: below =>
      regular n below
      /\ spanning_tree (n - length below) t
      /\ row_major t
      /\ match below with
         | [] => True
         | t' :: _ =>
             forall a b, In (a, b) t -> exists c,
               (fst (edge_at t' a) = c \/ snd (edge_at t' a) = c)
               /\ (fst (edge_at t' b) = c \/ snd (edge_at t' b) = c)
         end
  end.

(** * Lists *)

Lemma mem_In : forall x l, mem x l = true <-> In x l.
Proof.
  intros x l. unfold mem. rewrite existsb_exists. split.
  - intros (y & Hy & He). apply Nat.eqb_eq in He. subst; auto.
  - intros H. exists x. split; [auto | apply Nat.eqb_refl].
Qed.

Lemma mem_not : forall x l, mem x l = false <-> ~ In x l.
Proof.
  intros x l. rewrite <- mem_In. destruct (mem x l); split; congruence.
Qed.

Lemma in_union : forall x a b, In x (set_union a b) <-> In x a \/ In x b.
Proof. intros. unfold set_union. rewrite nodup_In, in_app_iff. tauto. Qed.

Lemma in_inter : forall x a b, In x (set_inter a b) <-> In x a /\ In x b.
Proof. intros. unfold set_inter. rewrite nodup_In, filter_In, mem_In. tauto. Qed.

Lemma in_symdiff : forall x a b,
  In x (set_symdiff a b) <-> In x a /\ ~ In x b \/ In x b /\ ~ In x a.
Proof.
  intros. unfold set_symdiff. rewrite nodup_In, in_app_iff, !filter_In, !negb_true_iff,
    !mem_not. tauto.
Qed.

Lemma nodup_union : forall a b, NoDup (set_union a b).
Proof. intros. apply NoDup_nodup. Qed.
Lemma nodup_inter : forall a b, NoDup (set_inter a b).
Proof. intros. apply NoDup_nodup. Qed.
Lemma nodup_symdiff : forall a b, NoDup (set_symdiff a b).
Proof. intros. apply NoDup_nodup. Qed.

Lemma filter_length_split : forall (A : Type) (p q : A -> bool) (l : list A),
  length (filter p l) =
  length (filter (fun x => p x && q x) l) + length (filter (fun x => p x && negb (q x)) l).
Proof.
  induction l as [|x l IH]; [reflexivity|]. cbn [filter].
  destruct (p x), (q x); cbn [andb negb length]; lia.
Qed.

Lemma filter_length_cover : forall (A : Type) (p q r : A -> bool) (l : list A),
  (forall x, In x l -> p x = true -> q x = true \/ r x = true) ->
  length (filter p l) <= length (filter q l) + length (filter r l).
Proof.
  induction l as [|x l IH]; intros H; [cbn; lia|]. cbn [filter].
  assert (IH' := IH (fun y Hy => H y (or_intror Hy))).
  destruct (p x) eqn:P.
  - destruct (H x (or_introl eq_refl) P) as [Q | Q]; rewrite Q;
      [destruct (r x) | destruct (q x)]; cbn [length]; lia.
  - destruct (q x), (r x); cbn [length]; lia.
Qed.

Lemma filter_partition_length : forall (A : Type) (p : A -> bool) (l : list A),
  length (filter p l) + length (filter (fun x => negb (p x)) l) = length l.
Proof.
  induction l as [|x l IH]; [reflexivity|]. cbn [filter].
  destruct (p x); cbn [negb length]; lia.
Qed.

Lemma filter_length_le : forall (A : Type) (p q : A -> bool) (l : list A),
  (forall x, In x l -> p x = true -> q x = true) ->
  length (filter p l) <= length (filter q l).
Proof.
  induction l as [|x l IH]; intros H; [cbn; lia|]. cbn [filter].
  assert (IH' := IH (fun y Hy => H y (or_intror Hy))).
  destruct (p x) eqn:P.
  - rewrite (H x (or_introl eq_refl) P). cbn [length]. lia.
  - destruct (q x); cbn [length]; lia.
Qed.

Lemma diff_length : forall a c, NoDup a -> NoDup c -> incl c a ->
  length (filter (fun x => negb (mem x c)) a) + length c = length a.
Proof.
  intros a c Ha Hc Hi.
  rewrite <- (filter_partition_length _ (fun x => mem x c) a).
  enough (length (filter (fun x => mem x c) a) = length c) by lia.
  apply Permutation_length, NoDup_Permutation; auto using NoDup_filter.
  intros x. rewrite filter_In, mem_In. split; [tauto | auto].
Qed.

(** * Paths *)

Lemma linked_edge : forall E a b, In (a, b) E -> linked E a b.
Proof. intros. eapply linked_step; [left; eassumption | constructor]. Qed.

Lemma linked_trans : forall E x y z, linked E x y -> linked E y z -> linked E x z.
Proof. induction 1; eauto using linked_step. Qed.

Lemma linked_sym : forall E x y, linked E x y -> linked E y x.
Proof.
  induction 1; [constructor|]. eapply linked_trans; [eassumption|].
  eapply linked_step; [|constructor]. tauto.
Qed.

Lemma linked_mono : forall E F x y, incl E F -> linked E x y -> linked F x y.
Proof.
  intros E F x y Hi. induction 1; [constructor|].
  eapply linked_step; [|eassumption]. destruct H; auto.
Qed.

Lemma linked_nil : forall x y, linked [] x y -> x = y.
Proof. induction 1; [reflexivity|]. destruct H as [[]|[]]. Qed.

Lemma linked_cons : forall a b E x y,
  linked ((a, b) :: E) x y <->
  linked E x y \/ linked E x a /\ linked E b y \/ linked E x b /\ linked E a y.
Proof.
  intros a b E x y. split.
  - induction 1 as [x | x z y Hs Hl IH]; [left; constructor|].
    assert (Hc : (x = a /\ z = b) \/ (x = b /\ z = a) \/ In (x, z) E \/ In (z, x) E).
    { destruct Hs as [[He|Hi]|[He|Hi]]; [injection He; intros; subst; auto | auto
        | injection He; intros; subst; auto | auto]. }
    destruct Hc as [[-> ->] | [[-> ->] | Hc]].
    + destruct IH as [IH | [[IH1 IH2] | [IH1 IH2]]].
      * right; left; split; [constructor | auto].
      * right; left; split; [constructor | auto].
      * left; auto.
    + destruct IH as [IH | [[IH1 IH2] | [IH1 IH2]]].
      * right; right; split; [constructor | auto].
      * left; auto.
      * right; right; split; [constructor | auto].
    + assert (Hs' : linked E x z) by (eapply linked_step; [exact Hc | constructor]).
      destruct IH as [IH | [[IH1 IH2] | [IH1 IH2]]]; eauto 6 using linked_trans.
  - intros [H | [[H1 H2] | [H1 H2]]].
    + eapply linked_mono; [|eassumption]. intros e He; right; auto.
    + eapply linked_trans; [eapply linked_mono; [|eassumption]; intros e He; right; auto|].
      eapply linked_step; [left; left; reflexivity|].
      eapply linked_mono; [|eassumption]; intros e He; right; auto.
    + eapply linked_trans; [eapply linked_mono; [|eassumption]; intros e He; right; auto|].
      eapply linked_step; [right; left; reflexivity|].
      eapply linked_mono; [|eassumption]; intros e He; right; auto.
Qed.

Lemma linked_dec : forall E x y, {linked E x y} + {~ linked E x y}.
Proof.
  induction E as [|[a b] E IH]; intros x y.
  - destruct (Nat.eq_dec x y) as [->|N]; [left; constructor|].
    right. intros H; apply linked_nil in H; auto.
  - destruct (IH x y); [left; apply linked_cons; auto|].
    destruct (IH x a), (IH b y), (IH x b), (IH a y);
      try (left; apply linked_cons; tauto); right; rewrite linked_cons; tauto.
Defined.

Definition linkedb E x y : bool := if linked_dec E x y then true else false.
Lemma linkedb_spec : forall E x y, linkedb E x y = true <-> linked E x y.
Proof. intros. unfold linkedb. destruct (linked_dec E x y); split; congruence || tauto. Qed.

(** * Forests *)

Lemma acyclic_cons : forall a b E, acyclic ((a, b) :: E) <-> ~ linked E a b /\ acyclic E.
Proof.
  intros a b E. split.
  - intros H. split; [exact (H [] a b E eq_refl)|].
    intros E1 x y E2 -> Hl. apply (H ((a, b) :: E1) x y E2); [reflexivity|].
    eapply linked_mono; [|exact Hl]. intros e He; right; exact He.
  - intros [Hn H] E1 x y E2 He Hl. destruct E1 as [|e E1].
    + injection He; intros; subst. auto.
    + injection He; intros -> <-. cbn [app] in Hl. apply linked_cons in Hl.
      assert (Hxy := H E1 x y E2 eq_refl).
      apply Hn.
      destruct Hl as [Hl | [[H1 H2] | [H1 H2]]]; [tauto | |];
        (assert (Hi : incl (E1 ++ E2) (E1 ++ (x, y) :: E2))
           by (intros e He'; apply in_app_iff in He'; apply in_app_iff; cbn; tauto)).
      * apply linked_sym. eapply linked_trans; [eapply linked_mono; [exact Hi | exact H2]|].
        eapply linked_trans; [apply linked_sym, linked_edge, in_app_iff; right; left;
          reflexivity|].
        eapply linked_mono; [exact Hi | exact H1].
      * eapply linked_trans; [eapply linked_mono; [exact Hi | exact H2]|].
        eapply linked_trans; [apply linked_sym, linked_edge, in_app_iff; right; left;
          reflexivity|].
        eapply linked_mono; [exact Hi | exact H1].
Qed.

Definition within (S : list nat) (e : edge) : bool := mem (fst e) S && mem (snd e) S.

Lemma within_In : forall S a b, within S (a, b) = true <-> In a S /\ In b S.
Proof. intros. unfold within. rewrite andb_true_iff, !mem_In. reflexivity. Qed.

Lemma forest_count : forall E, acyclic E -> forall S, NoDup S -> S <> [] ->
  length (filter (within S) E) + 1 <= length S.
Proof.
  induction E as [|[a b] E IH]; intros Ha S Hs Hne.
  - destruct S; [congruence | cbn; lia].
  - apply acyclic_cons in Ha as [Hn Ha]. cbn [filter].
    destruct (within S (a, b)) eqn:Hw; [|apply IH; auto].
    apply within_In in Hw as [Hwa Hwb]. cbn [length].
    set (S1 := filter (linkedb E a) S).
    set (S2 := filter (fun x => negb (linkedb E a x)) S).
    assert (HS : length S1 + length S2 = length S) by apply filter_partition_length.
    assert (I1 : In a S1) by (apply filter_In; split; [auto | apply linkedb_spec; constructor]).
    assert (I2 : In b S2).
    { apply filter_In; split; [auto|]. apply negb_true_iff.
      destruct (linkedb E a b) eqn:L; [apply linkedb_spec in L; tauto | auto]. }
    assert (C1 := IH Ha S1 (NoDup_filter _ Hs) ltac:(intros C; rewrite C in I1; destruct I1)).
    assert (C2 := IH Ha S2 (NoDup_filter _ Hs) ltac:(intros C; rewrite C in I2; destruct I2)).
    enough (length (filter (within S) E)
            <= length (filter (within S1) E) + length (filter (within S2) E)) by lia.
    apply filter_length_cover. intros [x y] Hin Hw. apply within_In in Hw as [Hx Hy].
    assert (Hl : linked E x y) by (apply linked_edge; auto).
    destruct (linkedb E a x) eqn:L.
    + left. apply within_In. split; apply filter_In; split; auto.
      apply linkedb_spec. apply linkedb_spec in L. eauto using linked_trans.
    + right. apply within_In. split; apply filter_In; split; auto; apply negb_true_iff; auto.
      destruct (linkedb E a y) eqn:L2; auto. apply linkedb_spec in L2.
      rewrite <- L. symmetry. apply linkedb_spec. eauto using linked_trans, linked_sym.
Qed.

Lemma separate : forall E S, NoDup S -> exists R,
  NoDup R /\ incl R S /\ (forall x y, In x R -> In y R -> linked E x y -> x = y)
  /\ length S <= length R + length E.
Proof.
  induction E as [|[a b] E IH]; intros S Hs.
  - exists S. repeat split; auto using incl_refl; [intros; apply linked_nil; auto | lia].
  - destruct (IH S Hs) as (R & H1 & H2 & H3 & H4).
    exists (filter (fun x => negb (linkedb E a x)) R).
    assert (Hp := filter_partition_length _ (linkedb E a) R).
    assert (Hone : length (filter (linkedb E a) R) <= 1).
    { assert (Hnd : NoDup (filter (linkedb E a) R)) by auto using NoDup_filter.
      assert (Hall : forall x y, In x (filter (linkedb E a) R) ->
                In y (filter (linkedb E a) R) -> x = y).
      { intros x y Hx Hy. apply filter_In in Hx as [Hx Lx]. apply filter_In in Hy as [Hy Ly].
        apply linkedb_spec in Lx, Ly. apply H3; auto.
        eauto using linked_trans, linked_sym. }
      destruct (filter (linkedb E a) R) as [|x [|y l]]; cbn; try lia.
      exfalso. inversion Hnd as [|? ? N _]; subst. apply N. left. apply Hall; cbn; auto. }
    repeat split; auto using NoDup_filter.
    + intros x Hx. apply filter_In in Hx. apply H2; tauto.
    + intros x y Hx Hy Hl. apply filter_In in Hx as [Hx Lx]. apply filter_In in Hy as [Hy Ly].
      apply negb_true_iff in Lx, Ly.
      apply linked_cons in Hl as [Hl | [[Hl _] | [_ Hl]]]; auto; exfalso.
      * enough (linkedb E a x = true) by congruence. apply linkedb_spec, linked_sym; auto.
      * enough (linkedb E a y = true) by congruence. apply linkedb_spec; auto.
    + cbn [length]. lia.
Qed.

Lemma tree_edges : forall m t, spanning_tree m t -> length t = m - 1.
Proof.
  intros m t (Hr & Hc & Ha).
  assert (Hf : filter (within (seq 0 m)) t = t).
  { assert (Hall : forall e, In e t -> within (seq 0 m) e = true).
    { intros [a b] H. apply Hr in H. apply within_In. rewrite !in_seq. lia. }
    clear -Hall. induction t as [|e t IH]; [reflexivity|]. cbn [filter].
    rewrite Hall by (left; auto). f_equal. apply IH. intros; apply Hall; right; auto. }
  destruct m as [|m].
  - destruct t as [|[a b] t]; [reflexivity|].
    exfalso. assert (a < b < 0) by (apply Hr; left; auto). lia.
  - assert (H1 := forest_count t Ha (seq 0 (S m)) (seq_NoDup _ _) ltac:(cbn; congruence)).
    rewrite Hf, seq_length in H1.
    destruct (separate t (seq 0 (S m)) (seq_NoDup _ _)) as (R & R1 & R2 & R3 & R4).
    rewrite seq_length in R4.
    assert (length R <= 1).
    { destruct R as [|x [|y R]]; cbn; try lia. exfalso. inversion R1 as [|? ? N _]; subst.
      apply N. left. symmetry. apply R3; cbn; auto.
      assert (In x (seq 0 (S m))) by (apply R2; cbn; auto).
      assert (In y (seq 0 (S m))) by (apply R2; cbn; auto).
      rewrite in_seq in *. apply Hc; lia. }
    lia.
Qed.

Lemma edge_in : forall t k, k < length t -> In (fst (edge_at t k), snd (edge_at t k)) t.
Proof. intros t k H. unfold edge_at. rewrite <- surjective_pairing. apply nth_In; auto. Qed.

Lemma in_edge : forall t a b, In (a, b) t -> exists k, k < length t /\ edge_at t k = (a, b).
Proof. intros t a b H. apply (In_nth t (a, b) (0, 0)) in H as (k & H1 & H2). eauto. Qed.

Lemma edge_at_cons : forall e t k, edge_at (e :: t) (S k) = edge_at t k.
Proof. reflexivity. Qed.

Lemma split_at : forall t i, i < length t ->
  exists E1 E2, t = E1 ++ edge_at t i :: E2 /\
    forall j, j < length t -> j <> i -> In (edge_at t j) (E1 ++ E2).
Proof.
  intros t i Hi. destruct (nth_split t (0, 0) Hi) as (E1 & E2 & He & Hl).
  exists E1, E2. split; [exact He|]. intros j Hj N. unfold edge_at. rewrite He.
  destruct (Nat.lt_ge_cases j (length E1)).
  - rewrite app_nth1 by lia. apply in_app_iff. left. apply nth_In; auto.
  - rewrite app_nth2 by lia. destruct (j - length E1) as [|d] eqn:D; [lia|]. cbn [nth].
    apply in_app_iff. right. apply nth_In. rewrite He, app_length in Hj. cbn [length] in Hj. lia.
Qed.

(** Distinct edges of a forest do not have the same ends. *)
Lemma forest_simple : forall t i j, acyclic t -> i < length t -> j < length t -> i <> j ->
  edge_at t i <> edge_at t j /\ edge_at t i <> (snd (edge_at t j), fst (edge_at t j)).
Proof.
  intros t i j Ha Hi Hj N. destruct (split_at t i Hi) as (E1 & E2 & He & Hr).
  assert (Hin := Hr j Hj ltac:(auto)).
  destruct (edge_at t i) as [a b] eqn:Ei, (edge_at t j) as [c d] eqn:Ej. cbn [fst snd].
  assert (Hn := Ha E1 a b E2 He).
  split; intros C; injection C; intros; subst; apply Hn; [apply linked_edge; auto|].
  apply linked_sym, linked_edge; auto.
Qed.

(** * Edges sharing a node *)

Definition touches (e : edge) (x : nat) : Prop := fst e = x \/ snd e = x.

Lemma share_one_spec : forall e f, fst e < snd e -> fst f < snd f -> e <> f ->
  (share_one_node e f = true <-> exists x, touches e x /\ touches f x).
Proof.
  intros [a b] [c d] H1 H2 N. unfold touches. cbn [fst snd] in *.
  unfold share_one_node, set_inter. cbn [fst snd filter mem existsb].
  destruct (Nat.eqb_spec a c), (Nat.eqb_spec a d), (Nat.eqb_spec b c), (Nat.eqb_spec b d);
    subst; try lia; try congruence; cbn [orb nodup];
    repeat match goal with |- context [in_dec ?d ?x ?l] => destruct (in_dec d x l) end;
    repeat match goal with H : In _ (_ :: _) |- _ => destruct H as [H|H] end;
    repeat match goal with H : In _ [] |- _ => destruct H end;
    try congruence; cbn [length nodup Nat.eqb]; split; intros H; try discriminate; auto;
    repeat match goal with H : exists _, _ |- _ => destruct H | H : _ /\ _ |- _ => destruct H
      | H : _ \/ _ |- _ => destruct H end; subst; try congruence; try lia; eauto.
Qed.

Lemma share_one_self : forall e, fst e < snd e -> share_one_node e e = false.
Proof.
  intros [a b] H. cbn [fst snd] in H. unfold share_one_node, set_inter.
  cbn [fst snd filter mem existsb]. rewrite !Nat.eqb_refl. cbn [orb].
  replace (b =? a) with false by (symmetry; apply Nat.eqb_neq; lia). cbn [orb].
  replace (length _ =? 1) with false; [reflexivity|]. symmetry. apply Nat.eqb_neq.
  cbn [nodup]. destruct (in_dec Nat.eq_dec a [b]) as [[C|[]]|]; [lia|]. cbn. 
  destruct (in_dec Nat.eq_dec b []) as [[]|]; cbn; lia.
Qed.

(** * Regular vines *)

Lemma regular_shift : forall us n t0, regular n (us ++ [t0]) -> regular (n - 1) us.
Proof.
  induction us as [|t us IH]; intros n t0 H; [exact I|].
  destruct H as (H1 & H2 & H3 & H4). split; [eapply IH; eassumption|].
  rewrite app_length in H2. cbn [length] in H2.
  replace (n - 1 - length us) with (n - (length us + 1)) by lia.
  split; [exact H2|]. split; [exact H3|].
  destruct us as [|t' us]; [exact I|]. exact H4.
Qed.

Lemma regular_bottom : forall us n t0, regular n (us ++ [t0]) -> spanning_tree n t0.
Proof.
  induction us as [|t us IH]; intros n t0 H.
  - destruct H as (_ & H & _). cbn [length] in H. rewrite Nat.sub_0_r in H. exact H.
  - destruct H as (H1 & _). eapply IH; eassumption.
Qed.

Lemma nodup_vars : forall below k, NoDup (vars below k).
Proof.
  intros [|t below] k; cbn [vars]; [|apply nodup_union].
  constructor; [intros [] | constructor].
Qed.

Lemma vars_cons : forall t below k x,
  In x (vars (t :: below) k) <->
  In x (vars below (fst (edge_at t k))) \/ In x (vars below (snd (edge_at t k))).
Proof. intros. cbn [vars]. apply in_union. Qed.

Lemma vars_shift : forall us t0 k x,
  In x (vars (us ++ [t0]) k) <-> exists w, In w (vars us k) /\ touches (edge_at t0 w) x.
Proof.
  induction us as [|t us IH]; intros t0 k x.
  - cbn [app]. rewrite vars_cons. cbn [vars In]. unfold touches. split.
    + intros H. exists k. split; [auto|]. tauto.
    + intros (w & [->|[]] & H). tauto.
  - cbn [app]. rewrite vars_cons, !IH. split.
    + intros [(w & H1 & H2) | (w & H1 & H2)]; exists w; split; auto; apply vars_cons; auto.
    + intros (w & H1 & H2). apply vars_cons in H1 as [H1|H1]; [left|right]; eauto.
Qed.

Lemma vars_range : forall ts n k, regular n ts -> k < n - length ts ->
  forall x, In x (vars ts k) -> x < n.
Proof.
  induction ts as [|t ts IH]; intros n k Hr Hk x Hx.
  - cbn in *. lia.
  - destruct Hr as (H1 & H2 & _). assert (Hl := tree_edges _ _ H2).
    cbn [length] in Hk.
    assert (Hin := edge_in t k ltac:(lia)). destruct H2 as (H2 & _). apply H2 in Hin.
    apply vars_cons in Hx as [Hx|Hx]; eapply IH in Hx; eauto; lia.
Qed.

Lemma vine_size : forall L ts n, length ts = L -> regular n ts ->
  (forall k, k < n - L -> length (vars ts k) = S L)
  /\ (forall j k, j < n - L -> k < n - L ->
        (forall x, In x (vars ts j) <-> In x (vars ts k)) -> j = k).
Proof.
  induction L as [L IHL] using lt_wf_ind. intros ts n HL Hr.
  destruct ts as [|t below].
  - cbn in HL. subst L. split; [reflexivity|]. intros j k _ _ H. cbn in H.
    destruct (proj1 (H j) (or_introl eq_refl)) as [|[]]; auto.
  - cbn [length] in HL. set (ts := t :: below) in *.
    destruct (@exists_last _ ts ltac:(discriminate)) as (us & t0 & Hs).
    assert (Hus : length us = L - 1).
    { assert (length ts = length (us ++ [t0])) by (rewrite Hs; auto).
      rewrite app_length in H. unfold ts in H. cbn [length] in H. lia. }
    rewrite Hs in Hr. assert (Hb := regular_bottom _ _ _ Hr).
    assert (Hsh := regular_shift _ _ _ Hr). rewrite <- Hs in Hr.
    destruct (IHL (L - 1) ltac:(lia) us (n - 1) Hus Hsh) as [U1 U2].
    assert (E0 := tree_edges _ _ Hb). destruct Hb as (B1 & B2 & B3).
    (* the edges of the first tree below node k, all within its variables *)
    assert (Hwr : forall k w, k < n - L -> In w (vars us k) -> w < length t0).
    { intros k w Hk Hw. rewrite E0. eapply vars_range; eauto. rewrite Hus. lia. }
    assert (HW : forall k, k < n - L -> forall S, NoDup S ->
              (forall x, In x (vars ts k) -> In x S) ->
              incl (map (edge_at t0) (vars us k)) (filter (within S) t0)).
    { intros k Hk S _ HS e He. apply in_map_iff in He as (w & <- & Hw).
      apply filter_In. split; [unfold edge_at; apply nth_In; eapply Hwr; eauto|].
      rewrite (surjective_pairing (edge_at t0 w)). apply within_In.
      split; apply HS; rewrite Hs; apply vars_shift; exists w; unfold touches; auto. }
    assert (HWn : forall l, NoDup l -> (forall w, In w l -> w < length t0) ->
              NoDup (map (edge_at t0) l)).
    { intros l Hl Hlt. assert (Hnd : NoDup t0).
      { clear -B3. induction t0 as [|[a b] t IH]; [constructor|].
        apply acyclic_cons in B3 as [H1 H2]. constructor; [|auto].
        intros H. apply H1. apply linked_edge; auto. }
      induction l as [|w l IHl]; [constructor|]. apply NoDup_cons_iff in Hl as [Hl1 Hl2].
      constructor.
      - intros C. apply in_map_iff in C as (w' & C1 & C2).
        assert (w' = w) as ->; [|tauto]. unfold edge_at in C1.
        eapply NoDup_nth; eauto; apply Hlt; cbn; auto.
      - apply IHl; auto. intros; apply Hlt; cbn; auto. }
    assert (Hlow : forall k, k < n - L -> L + 1 <= length (vars ts k)).
    { intros k Hk.
      assert (Hne : vars ts k <> []).
      { specialize (U1 k ltac:(lia)). destruct (vars us k) as [|w l] eqn:Ew; [cbn in U1; lia|].
        intros C. assert (In (fst (edge_at t0 w)) (vars ts k)); [|rewrite C in H; destruct H].
        rewrite Hs. apply vars_shift. exists w. rewrite Ew. unfold touches. cbn; auto. }
      assert (C := forest_count t0 B3 (vars ts k) (nodup_vars _ _) Hne).
      assert (I := NoDup_incl_length
                (HWn (vars us k) (nodup_vars _ _) (fun w Hw => Hwr k w Hk Hw))
                (HW k Hk (vars ts k) (nodup_vars _ _) (fun x Hx => Hx))).
      rewrite map_length, (U1 k) in I by lia. lia. }
    assert (Hhigh : forall k, k < n - L -> length (vars ts k) <= L + 1).
    { intros k Hk. destruct Hr as (R1 & R2 & R3 & R4).
      assert (Et := tree_edges _ _ R2). destruct R2 as (R2 & _).
      assert (Hin := edge_in t k ltac:(lia)). assert (Hrg := R2 _ _ Hin).
      set (a := fst (edge_at t k)) in *. set (b := snd (edge_at t k)) in *.
      assert (Hle : length below = L - 1) by lia.
      destruct (IHL (L - 1) ltac:(lia) below n Hle R1) as [V1 _].
      assert (La := V1 a ltac:(lia)). assert (Lb := V1 b ltac:(lia)).
      destruct below as [|t' below'].
      - cbn [ts vars]. fold a b.
        assert (I : length (set_union [a] [b]) <= length [a; b]).
        { apply NoDup_incl_length; [apply nodup_union|]. intros x Hx.
          apply in_union in Hx. cbn in *. tauto. }
        cbn [vars]. cbn [length] in *. lia.
      - destruct (R4 a b Hin) as (c & Ca & Cb).
        destruct R1 as (Q1 & Q2 & _). assert (Eq := tree_edges _ _ Q2).
        cbn [length] in Hle, Hrg.
        assert (Hcr : c < n - (L - 2)).
        { destruct Q2 as (Q2 & _). assert (Hin' := edge_in t' a ltac:(lia)). apply Q2 in Hin'.
          destruct Ca as [<-|<-]; lia. }
        destruct (IHL (L - 2) ltac:(lia) below' n ltac:(lia) Q1) as [W1 _].
        assert (Lc := W1 c Hcr).
        assert (Ia : incl (vars below' c) (vars (t' :: below') a)).
        { intros x Hx. apply vars_cons. destruct Ca as [->| ->]; auto. }
        assert (Ib : incl (vars below' c) (vars (t' :: below') b)).
        { intros x Hx. apply vars_cons. destruct Cb as [->| ->]; auto. }
        assert (Da := diff_length _ _ (nodup_vars _ _) (nodup_vars _ _) Ia).
        assert (Db := diff_length _ _ (nodup_vars _ _) (nodup_vars _ _) Ib).
        set (A := filter _ (vars (t' :: below') a)) in Da.
        set (B := filter _ (vars (t' :: below') b)) in Db.
        assert (I : length (vars ts k) <= length (vars below' c ++ A ++ B)).
        { apply NoDup_incl_length; [apply nodup_vars|]. intros x Hx.
          unfold ts in Hx. apply vars_cons in Hx. fold a b in Hx. rewrite !in_app_iff.
          destruct (in_dec Nat.eq_dec x (vars below' c)); [auto|].
          destruct Hx as [Hx|Hx]; [right; left | right; right]; apply filter_In; split; auto;
            apply negb_true_iff, mem_not; auto. }
        rewrite !app_length in I. lia. }
    assert (Hsz : forall k, k < n - L -> length (vars ts k) = S L)
      by (intros k Hk; specialize (Hlow k Hk); specialize (Hhigh k Hk); lia).
    split; [exact Hsz|].
    intros j k Hj Hk Heq. apply U2; [lia | lia |].
    assert (Hne : vars ts k <> []) by (intros C; specialize (Hsz k Hk); rewrite C in Hsz;
      discriminate).
    assert (Hall : incl (map (edge_at t0) (set_union (vars us j) (vars us k)))
                        (filter (within (vars ts k)) t0)).
    { intros e He. apply in_map_iff in He as (w & <- & Hw). apply in_union in Hw as [Hw|Hw].
      - apply (HW j Hj (vars ts k) (nodup_vars _ _) (fun x Hx => proj1 (Heq x) Hx)).
        apply in_map; auto.
      - apply (HW k Hk (vars ts k) (nodup_vars _ _) (fun x Hx => Hx)). apply in_map; auto. }
    apply (fun H => NoDup_incl_length (HWn _ (nodup_union _ _) H)) in Hall.
    2:{ intros w Hw. apply in_union in Hw as [Hw|Hw];
          [exact (Hwr j w Hj Hw) | exact (Hwr k w Hk Hw)]. }
    rewrite map_length in Hall.
    assert (C := forest_count t0 B3 (vars ts k) (nodup_vars _ _) Hne).
    rewrite Hsz in C by auto.
    assert (Lj := U1 j ltac:(lia)). assert (Lk := U1 k ltac:(lia)).
    assert (Ij : incl (set_union (vars us j) (vars us k)) (vars us j)).
    { apply NoDup_length_incl; [apply nodup_vars | lia | intros x Hx; apply in_union; auto]. }
    assert (Ik : incl (set_union (vars us j) (vars us k)) (vars us k)).
    { apply NoDup_length_incl; [apply nodup_vars | lia | intros x Hx; apply in_union; auto]. }
    intros x. split; intros Hx; [apply Ik | apply Ij]; apply in_union; auto.
Qed.
