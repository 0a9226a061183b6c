(** C75: score_samples of a vine copula is the log-density of the distribution that sample draws from. *)
Require Import List Arith Bool Lia Permutation Reals Lra Psatz.
From Coquelicot Require Import Coquelicot.
From Verif Require Import CopulaModel CopulaProps CopulaNewtonProps VineModel VineGraph VineProps VineSampleProps VinePropagateProps VineCopulaProps VineScoreModel TauProps.
Import ListNotations.
Local Open Scope nat_scope.

(** * The edges met by the entries of the sampling order *)
(** The edges through which the value of an entry is computed from its variable, with their level. *)
Fixpoint chain (t : tree) (below : list tree) (k : nat) (lft : bool) : list (nat * nat) :=
  (length below, k) ::
  match below with
  | [] => []
  | t' :: below' =>
      match shared_node_is_left (edge_at t' (fst (edge_at t k))) (edge_at t' (snd (edge_at t k))) with
      | Some (l1, l2) => chain t' below' (leaf t (k, lft)) (if lft then negb l1 else negb l2)
      | None => []
      end
  end.
Definition entry_chain (ts : list tree) (e : entry) : list (nat * nat) :=
  match e with
  | RootEntry _ => []
  | ChildEntry l k lft => match skipn (length ts - S l) ts with t :: below => chain t below k lft | [] => [] end
  end.
Fixpoint all_edges (ts : list tree) : list (nat * nat) :=
  match ts with [] => [] | t :: below => map (pair (length below)) (seq 0 (length t)) ++ all_edges below end.

Section Chains.
  Variable enum : list nat -> list nat.
  Hypothesis enum_ok : enumerates enum.
  Variable n : nat.
  Variable ts : list tree.
  Hypothesis Hreg : regular n ts.

  (** The nodes of an edge: the branch of the entry leads to its variable, the other one does not meet it. *)
  Lemma branch : forall t t' below k lft, tree_on_level ts (S (length below)) t (t' :: below) -> k < length t ->
    exists l1 l2, shared_node_is_left (edge_at t' (fst (edge_at t k))) (edge_at t' (snd (edge_at t k))) = Some (l1, l2)
      /\ leaf t (k, lft) < length t' /\ stem t (k, lft) < length t'
      /\ get_var enum t' below (leaf t (k, lft)) (if lft then negb l1 else negb l2) = get_var enum t (t' :: below) k lft
      /\ ~ In (get_var enum t (t' :: below) k lft) (vars (t' :: below) (stem t (k, lft)))
      /\ incl (vars (t' :: below) (leaf t (k, lft))) (vars (t :: t' :: below) k)
      /\ incl (vars (t' :: below) (stem t (k, lft))) (vars (t :: t' :: below) k)
      /\ tree_on_level ts (length below) t' below.
  Proof.
    intros t t' below k lft Hlev Hk.
    destruct (children enum enum_ok n ts Hreg _ _ _ _ _ Hlev Hk) as (l1 & l2 & C1 & C2 & C3 & C4 & C5).
    assert (Hr := level_regular n ts Hreg _ _ _ Hlev).
    destruct (side enum enum_ok n t (t' :: below) k lft Hr Hk) as (S1 & S2 & S3).
    exists l1, l2. split; [exact C1|]. unfold leaf, stem in *. cbn [fst snd] in *.
    split; [destruct lft; assumption|]. split; [destruct lft; assumption|].
    split; [destruct lft; assumption|]. split; [exact S2|].
    split; [intros v Hv; apply vars_cons; destruct lft; auto|].
    split; [intros v Hv; apply vars_cons; destruct lft; auto|]. exact (level_below _ _ _ _ _ Hlev).
  Qed.

  Lemma chain_spec : forall below t k lft, tree_on_level ts (length below) t below -> k < length t ->
    length (chain t below k lft) = S (length below) /\ NoDup (chain t below k lft)
    /\ (forall l j, In (l, j) (chain t below k lft) -> l <= length below
          /\ exists t1 b1, tree_on_level ts l t1 b1 /\ j < length t1
             /\ In (get_var enum t below k lft) (vars (t1 :: b1) j) /\ incl (vars (t1 :: b1) j) (vars (t :: below) k)).
  Proof.
    induction below as [|t' below IH]; intros t k lft Hlev Hk.
    - cbn [chain length]. split; [reflexivity|]. split; [constructor; [intros []|constructor]|].
      intros l j [E|[]]. injection E as <- <-. split; [reflexivity|]. exists t, []. split; [exact Hlev|]. split; [exact Hk|].
      assert (Hr := level_regular n ts Hreg _ _ _ Hlev). destruct (side enum enum_ok n t [] k lft Hr Hk) as (S1 & _ & _).
      split; [|apply incl_refl]. apply vars_cons. unfold leaf in S1. cbn [fst snd] in S1. destruct lft; auto.
    - destruct (branch t t' below k lft Hlev Hk) as (l1 & l2 & B1 & B2 & B3 & B4 & B5 & B6 & B7 & B8).
      destruct (IH t' (leaf t (k, lft)) (if lft then negb l1 else negb l2) B8 B2) as (I1 & I2 & I3).
      cbn [chain]. rewrite B1. split; [cbn [length]; rewrite I1; reflexivity|]. split.
      + constructor; [|exact I2]. intros H. destruct (I3 _ _ H) as [A _]. cbn [length] in A. lia.
      + intros l j [E|H].
        * injection E as <- <-. split; [reflexivity|]. exists t, (t' :: below). split; [exact Hlev|]. split; [exact Hk|].
          split; [|apply incl_refl]. assert (Hr := level_regular n ts Hreg _ _ _ Hlev).
          destruct (side enum enum_ok n t (t' :: below) k lft Hr Hk) as (S1 & _ & _).
          apply vars_cons. unfold leaf in S1. cbn [fst snd] in S1. destruct lft; auto.
        * destruct (I3 _ _ H) as (A & t1 & b1 & A1 & A2 & A3 & A4). cbn [length]. split; [lia|].
          exists t1, b1. rewrite B4 in A3. repeat split; try assumption; try apply A1. intros v Hv. apply B6, A4, Hv.
  Qed.

  Lemma entry_chain_at : forall l k lft t below, tree_on_level ts l t below ->
    entry_chain ts (ChildEntry l k lft) = chain t below k lft.
  Proof. intros l k lft t below [(above & E) <-]. cbn [entry_chain]. rewrite E, suffix_skipn. reflexivity. Qed.

  Variable cond : list nat.
  Variable order : list entry.
  Hypothesis Ho : complete_order enum cond n ts order.

  Lemma child_ok : forall l k lft, In (ChildEntry l k lft) order ->
    exists t below, tree_on_level ts l t below /\ k < length t /\ l = length below.
  Proof.
    intros l k lft H. apply in_split in H as (o1 & o2 & E). destruct Ho as (_ & _ & H3).
    destruct (H3 _ _ _ _ _ E) as (t & below & A & B & _). exists t, below. split; [exact A|]. split; [exact B|]. symmetry. apply A.
  Qed.

  Lemma nodup_app {A} : forall a b : list A, NoDup a -> NoDup b -> (forall x, In x a -> In x b -> False) -> NoDup (a ++ b).
  Proof.
    induction a as [|x a IH]; intros b Ha Hb D; [exact Hb|]. inversion Ha; subst. cbn [app]. constructor.
    - rewrite in_app_iff. intros [H|H]; [auto|]. apply (D x); [left; reflexivity|exact H].
    - apply IH; auto. intros y Y. apply D. right. exact Y.
  Qed.

  (** No edge is met twice. *)
  Lemma chains_disjoint : NoDup (flat_map (entry_chain ts) order).
  Proof.
    assert (G : forall o1 o2, order = o1 ++ o2 -> NoDup (flat_map (entry_chain ts) o1)).
    { induction o1 as [|e o1 IH] using rev_ind; intros o2 E; [constructor|].
      rewrite flat_map_app. cbn [flat_map]. rewrite app_nil_r. rewrite <- app_assoc in E. cbn [app] in E.
      apply nodup_app; [apply (IH _ E)| |].
      - destruct e as [r|l k lft]; [constructor|].
        destruct (child_ok l k lft) as (t & below & A & B & ->); [rewrite E; apply in_elt|].
        rewrite (entry_chain_at _ _ _ _ _ A). apply chain_spec; assumption.
      - intros [l j] H1 H2. apply in_flat_map in H1 as (e' & He' & H1).
        destruct e' as [r|l' k' lft']; [destruct H1|]. destruct e as [r|l'' k'' lft'']; [destruct H2|].
        destruct (child_ok l'' k'' lft'') as (t2 & below2 & A2 & B2 & ->); [rewrite E; apply in_elt|].
        rewrite (entry_chain_at _ _ _ _ _ A2) in H2.
        apply in_split in He' as (p1 & p2 & Ep).
        assert (E' : order = p1 ++ ChildEntry l' k' lft' :: (p2 ++ ChildEntry (length below2) k'' lft'' :: o2)).
        { rewrite E, Ep, <- app_assoc. reflexivity. }
        destruct Ho as (Hperm & _ & H3). destruct (H3 _ _ _ _ _ E') as (t1 & below1 & A1 & B1 & _ & L1).
        pose proof A1 as [_ El]. subst l'.
        rewrite (entry_chain_at _ _ _ _ _ A1) in H1.
        destruct (chain_spec _ _ k' lft' A1 B1) as (_ & _ & C1). destruct (C1 _ _ H1) as (_ & u1 & b1 & D1 & D2 & D3 & D4).
        destruct (chain_spec _ _ k'' lft'' A2 B2) as (_ & _ & C2). destruct (C2 _ _ H2) as (_ & u2 & b2 & F1 & F2 & F3 & F4).
        destruct (level_unique _ _ _ _ _ _ D1 F1) as [-> ->].
        set (v := get_var enum t2 below2 k'' lft'') in *. specialize (D4 _ F3).
        assert (Hv : entry_var enum ts (ChildEntry (length below2) k'' lft'') = v) by (apply entry_var_child; exact A2).
        assert (ND : NoDup (map (entry_var enum ts) order)) by (eapply Permutation_NoDup; [apply Permutation_sym; exact Hperm|apply seq_NoDup]).
        rewrite E', map_app in ND. cbn [map] in ND. rewrite map_app in ND. cbn [map] in ND. rewrite Hv in ND.
        destruct (Nat.eq_dec v (get_var enum t1 below1 k' lft')) as [Ev|Nv].
        + apply NoDup_remove_2 in ND. apply ND. rewrite (entry_var_child enum ts _ _ _ _ _ A1), <- Ev, !in_app_iff. cbn [In]. tauto.
        + specialize (L1 v D4 Nv). rewrite app_comm_cons, app_assoc in ND. apply NoDup_remove_2 in ND. apply ND. rewrite !in_app_iff. tauto. }
    apply (G order []). symmetry. apply app_nil_r.
  Qed.

  Lemma all_edges_in : forall us l j, In (l, j) (all_edges us) <-> exists t below, tree_on_level us l t below /\ j < length t.
  Proof.
    induction us as [|t us IH]; intros l j.
    - split; [intros []|]. intros (t & below & [(above & E) _] & _). destruct above; discriminate.
    - cbn [all_edges]. rewrite in_app_iff, IH. split.
      + intros [H|(t1 & b1 & [(above & E) F] & B)].
        * apply in_map_iff in H as (i & E & H). injection E as <- <-. apply in_seq in H. exists t, us. split; [split; [exists []; reflexivity|reflexivity]|lia].
        * exists t1, b1. split; [split; [exists (t :: above); rewrite E; reflexivity|exact F]|exact B].
      + intros (t1 & b1 & [(above & E) F] & B). destruct above as [|t0 above].
        * injection E as -> ->. left. rewrite <- F. apply in_map, in_seq. lia.
        * injection E as -> ->. right. exists t1, b1. split; [split; [exists above; reflexivity|exact F]|exact B].
  Qed.

  Lemma chains_edges : incl (flat_map (entry_chain ts) order) (all_edges ts).
  Proof.
    intros [l j] H. apply in_flat_map in H as (e & He & H). destruct e as [r|l' k lft]; [destruct H|].
    destruct (child_ok l' k lft He) as (t & below & A & B & ->). rewrite (entry_chain_at _ _ _ _ _ A) in H.
    destruct (chain_spec _ _ k lft A B) as (_ & _ & C1). destruct (C1 _ _ H) as (_ & u1 & b1 & D1 & D2 & _).
    apply all_edges_in. exists u1, b1. auto.
  Qed.
End Chains.

Section Count.
  Variable enum : list nat -> list nat.
  Hypothesis enum_ok : enumerates enum.
  Variable n : nat.

  Lemma all_edges_length : forall us, regular n us -> length us < n -> 2 * length (all_edges us) + length us * S (length us) = 2 * n * length us.
  Proof.
    induction us as [|t us IH]; intros Hr Hl; [cbn; lia|]. destruct Hr as (R1 & R2 & _). cbn [all_edges length] in *.
    rewrite app_length, map_length, seq_length, (tree_edges _ _ R2). specialize (IH R1 ltac:(lia)).
    set (m := n - length us - 1) in *. assert (En : n = m + length us + 1) by lia. rewrite En in IH |- *. nia.
  Qed.

  Definition depth (e : entry) : nat := match e with RootEntry _ => 0 | ChildEntry l _ _ => S l end.
  Lemma marginalize_depth : forall below t k lft,
    length (marginalize enum [] t below k lft) = S (length below) /\ 2 * list_sum (map depth (marginalize enum [] t below k lft)) = length below * S (length below).
  Proof.
    induction below as [|t' below IH]; intros t k lft; cbn [marginalize]; [split; reflexivity|].
    destruct (IH t' (if lft then snd (edge_at t k) else fst (edge_at t k)) (is_left_branch enum [] t' below (if lft then snd (edge_at t k) else fst (edge_at t k)))) as [A B].
    cbn [length map depth]. rewrite A. split; [reflexivity|]. change (list_sum (S (length below) :: ?l)) with (S (length below) + list_sum l). lia.
  Qed.
  Lemma replace_nothing : forall ts l, map (replace_conditioned enum [] ts) l = l.
  Proof. intros ts l. rewrite <- (map_id l) at 2. apply map_ext. intros e. reflexivity. Qed.
  Lemma list_sum_rev : forall l, list_sum (rev l) = list_sum l.
  Proof. induction l as [|a l IH]; [reflexivity|]. cbn [rev]. rewrite list_sum_app, IH. change (list_sum l + (a + 0) = a + list_sum l). lia. Qed.

  Lemma order_depth : forall ts order, regular n ts -> ts <> [] -> length ts < n -> sampling_order enum [] n ts = Some order ->
    list_sum (map depth order) = length (all_edges ts).
  Proof.
    intros ts order Hr Hne Hl H. destruct ts as [|t below]; [congruence|]. unfold sampling_order in H.
    destruct (if length t =? 1 then _ else _) as [[top [k lft]]|]; [|discriminate].
    set (M := marginalize enum [] t below k lft) in *. rewrite replace_nothing in H.
    set (o := rev _) in H. destruct (distinct o && (length o =? n)) eqn:E; [|discriminate]. injection H as <-.
    apply andb_true_iff in E as [_ E]. apply Nat.eqb_eq in E. unfold o in *.
    destruct (marginalize_depth below t k lft) as [M1 M2]. fold M in M1, M2.
    rewrite rev_length, app_length, map_length, M1 in E.
    rewrite map_rev, list_sum_rev, map_app, list_sum_app, map_map.
    assert (T : list_sum (map (fun p : nat * bool => depth (ChildEntry (length below) (fst p) (snd p))) top) = length top * S (length below)).
    { clear. induction top as [|p top IH]; [reflexivity|]. change (S (length below) + list_sum (map (fun p : nat * bool => depth (ChildEntry (length below) (fst p) (snd p))) top) = S (length top) * S (length below)). rewrite IH. lia. }
    rewrite T. pose proof (all_edges_length (t :: below) Hr Hl) as A. cbn [length] in *. nia.
  Qed.

  (** Without conditioning, every edge of the vine is met exactly once. *)
  Lemma chains_all : forall ts order, regular n ts -> ts <> [] -> length ts < n ->
    sampling_order enum [] n ts = Some order -> complete_order enum [] n ts order ->
    Permutation (flat_map (entry_chain ts) order) (all_edges ts).
  Proof.
    intros ts order Hr Hne Hl H Ho. apply NoDup_Permutation_bis.
    - apply (chains_disjoint enum enum_ok n ts Hr [] order Ho).
    - rewrite <- (order_depth ts order Hr Hne Hl H).
      assert (G : forall o, incl o order -> list_sum (map depth o) <= length (flat_map (entry_chain ts) o)).
      { induction o as [|e o IH]; intros I; [cbn; lia|]. cbn [flat_map map]. rewrite app_length. specialize (IH (fun x Hx => I x (or_intror Hx))).
        change (depth e + list_sum (map depth o) <= length (entry_chain ts e) + length (flat_map (entry_chain ts) o)).
        assert (depth e <= length (entry_chain ts e)); [|lia]. destruct e as [r|l k lft]; [cbn; lia|].
        destruct (child_ok enum n ts [] order Ho l k lft (I _ (or_introl eq_refl))) as (t & below & A & B & ->).
        rewrite (entry_chain_at ts _ _ _ _ _ A). rewrite (proj1 (chain_spec enum enum_ok n ts Hr below t k lft A B)). cbn. lia. }
      apply G, incl_refl.
    - apply (chains_edges enum enum_ok n ts Hr [] order Ho).
  Qed.
End Count.

Local Open Scope R_scope.
Notation unit := CopulaProps.unit.

(** * Specification *)
Section Spec.
Variable C : Type.
Variables hu hv score : C -> R -> R -> R.
(** The two conditional distribution functions of each copula have the same density, exp(score), and range over (0, 1). *)
Definition fitted_copulas : Prop := forall c,
  (forall x y, unit x -> unit y ->
     unit (hu c x y) /\ unit (hv c x y)
     /\ derivable_pt_lim (fun s => hu c s y) x (exp (score c x y)) /\ derivable_pt_lim (fun s => hv c x s) y (exp (score c x y))
     /\ continuous (fun s => score c s y) x /\ continuous (fun s => score c x s) y)
  /\ (forall p z, unit p -> unit z -> (exists x, unit x /\ hu c x z = p) /\ (exists y, unit y /\ hv c z y = p)).
End Spec.
Definition cube (n : nat) (x : nat -> R) : Prop := forall v, (v < n)%nat -> unit (x v).
Definition rsum (l : list R) : R := fold_right Rplus 0 l.

Lemma rsum_app a b : rsum (a ++ b) = rsum a + rsum b.
Proof. induction a as [|x a IH]; [change (rsum b = 0 + rsum b); ring|]. change (x + rsum (a ++ b) = (x + rsum a) + rsum b). rewrite IH. ring. Qed.
Lemma rsum_perm a b : Permutation a b -> rsum a = rsum b.
Proof.
  induction 1 as [|x l l' _ IH|x y l|l l' l'' _ I1 _ I2]; [reflexivity| | |congruence].
  - change (x + rsum l = x + rsum l'). now rewrite IH.
  - change (y + (x + rsum l) = x + (y + rsum l)). ring.
Qed.
Lemma rsum_flat {A B} (f : B -> R) (g : A -> list B) l : rsum (map f (flat_map g l)) = rsum (map (fun a => rsum (map f (g a))) l).
Proof. induction l as [|a l IH]; [reflexivity|]. cbn [flat_map map]. rewrite map_app, rsum_app, IH. reflexivity. Qed.

(** * One copula composed with another *)
(** A distribution function on (0, 1) with density exp(s). *)
Definition good_cdf (F s : R -> R) : Prop :=
  (forall x, unit x -> unit (F x) /\ is_derive F x (exp (s x)) /\ continuous s x) /\ (forall p, unit p -> exists x, unit x /\ F x = p).

Lemma good_id : good_cdf (fun x => x) (fun _ => 0).
Proof.
  split; [|intros p P; exists p; auto]. intros x U. split; [exact U|]. split; [rewrite exp_0; apply is_derive_Reals, derivable_pt_lim_id|apply continuous_const].
Qed.
Lemma good_comp F s G r : good_cdf F s -> good_cdf G r -> good_cdf (fun x => G (F x)) (fun x => r (F x) + s x).
Proof.
  intros [F1 F2] [G1 G2]. split.
  - intros x U. destruct (F1 x U) as (A & B & D). destruct (G1 _ A) as (A' & B' & D'). split; [exact A'|]. split.
    + evar_last; [apply (is_derive_comp G F x _ _ B' B)|]. rewrite exp_plus. unfold scal; cbn; unfold mult; cbn. ring.
    + apply (@continuous_plus R_UniformSpace R_AbsRing R_NormedModule (fun x => r (F x)) s); [|exact D].
      apply (continuous_comp F r); [eapply ex_cont, B|exact D'].
  - intros p P. destruct (G2 p P) as (y & Y & <-). destruct (F2 y Y) as (x & X & <-). exists x. auto.
Qed.
Lemma good_ext F s G r : (forall x, unit x -> F x = G x) -> (forall x, unit x -> s x = r x) -> good_cdf F s -> good_cdf G r.
Proof.
  intros E E' [F1 F2]. split.
  - intros x U. destruct (F1 x U) as (A & B & D). rewrite <- E, <- E' by exact U. split; [exact A|].
    destruct (unit_open x U) as [d [Hd Od]]. split.
    + apply (is_derive_ext_loc F); [|exact B]. exists (mkposreal d Hd). intros t T. apply E, Od. exact T.
    + apply (continuous_ext_loc _ s); [|exact D]. exists (mkposreal d Hd). intros t T. apply E', Od. exact T.
  - intros p P. destruct (F2 p P) as (x & X & <-). exists x. split; [exact X|]. symmetry. now apply E.
Qed.

Lemma good_increasing F s : good_cdf F s -> forall x y, unit x -> unit y -> x < y -> F x < F y.
Proof.
  intros [F1 _]. intros x y X Y L. apply (increasing_of F (fun t => exp (s t))); try assumption.
  - intros t T. apply is_derive_Reals. apply F1. exact T.
  - intros. apply exp_pos.
Qed.
Lemma good_limits F s : good_cdf F s -> tends (at_right 0) F 0 /\ tends (at_left 1) F 1.
Proof.
  intros G. pose proof (good_increasing F s G) as M. destruct G as [F1 F2]. split; apply tends_eps; try apply at_right_proper_filter; try apply at_left_proper_filter; intros eps E.
  - destruct (F2 (Rmin eps 1 / 2)) as (x & X & Ex). { pose proof (Rmin_pos eps 1 E Rlt_0_1). pose proof (Rmin_r eps 1). split; lra. }
    exists (mkposreal x (proj1 X)). intros t T P. unfold ball in T. cbn in T. unfold AbsRing_ball, abs, minus, plus, opp in T. cbn in T. apply Rabs_def2 in T.
    assert (U : unit t) by (destruct X; split; lra). pose proof (M t x U X ltac:(lra)). destruct (F1 t U) as ([A _] & _). rewrite Rminus_0_r, Rabs_right by lra.
    pose proof (Rmin_l eps 1). lra.
  - destruct (F2 (1 - Rmin eps 1 / 2)) as (x & X & Ex). { pose proof (Rmin_pos eps 1 E Rlt_0_1). pose proof (Rmin_r eps 1). split; lra. }
    exists (mkposreal (1 - x) ltac:(destruct X; lra)). intros t T P. unfold ball in T. cbn in T. unfold AbsRing_ball, abs, minus, plus, opp in T. cbn in T. apply Rabs_def2 in T.
    assert (U : unit t) by (destruct X; split; lra). pose proof (M x t X U ltac:(lra)). destruct (F1 t U) as ([_ A] & _). rewrite Rabs_left by lra.
    pose proof (Rmin_l eps 1). lra.
Qed.
(** The density integrates to one, and up to a point to the distribution function. *)
Lemma good_integral F s : good_cdf F s -> integral (fun x => exp (s x)) 1.
Proof.
  intros G. destruct (good_limits F s G) as [L0 L1]. destruct G as [F1 _]. replace 1 with (1 - 0) by ring. apply (ftc F).
  - intros x U. apply F1. exact U.
  - intros x U. apply (continuous_comp s exp); [apply F1; exact U|]. apply (ex_cont _ _ (exp (s x))). apply is_derive_exp.
  - exact L0.
  - exact L1.
Qed.
Definition integral_to (b : R) (f : R -> R) (l : R) : Prop := is_RInt_gen f (at_right 0) (at_point b) l.
Lemma good_integral_to F s b : good_cdf F s -> unit b -> integral_to b (fun x => exp (s x)) (F b).
Proof.
  intros G B. destruct (good_limits F s G) as [L0 _]. destruct G as [F1 _]. unfold integral_to.
  assert (Bx : forall P : R -> Prop, (forall x, unit x -> P x) ->
    filter_prod (at_right 0) (at_point b) (fun ab => forall x, Rmin (fst ab) (snd ab) <= x <= Rmax (fst ab) (snd ab) -> P x)).
  { intros P H. apply (Filter_prod _ _ _ unit (fun z => z = b)); [apply near0|reflexivity|]. intros a z A -> x X. cbn in X. apply H. destruct A, B.
    assert (0 < Rmin a b) by (apply Rmin_glb_lt; lra). assert (Rmax a b < 1) by (apply Rmax_lub_lt; lra). split; lra. }
  apply (is_RInt_gen_ext (Derive F)).
  - generalize (Bx (fun x => Derive F x = exp (s x)) (fun x U => is_derive_unique _ _ _ (proj1 (proj2 (F1 x U))))). apply filter_imp. intros ab H x X. apply H. split; left; apply X.
  - replace (F b) with (F b - 0) by ring. apply is_RInt_gen_Derive.
    + apply Bx. intros x U. exists (exp (s x)). now apply F1.
    + apply Bx. intros x U. apply (continuous_ext_loc _ (fun x => exp (s x))).
      * destruct (unit_open x U) as [d [Hd Od]]. exists (mkposreal d Hd). intros t T. symmetry. apply is_derive_unique, F1, Od. exact T.
      * apply (continuous_comp s exp); [apply F1; exact U|]. apply (ex_cont _ _ (exp (s x))). apply is_derive_exp.
    + exact L0.
    + intros P H. unfold filtermap, at_point. apply locally_singleton. exact H.
Qed.

(** * The value and the score of the edges of a vine *)
Section Vine.
Variable C : Type.
Variables hu hv score : C -> R -> R -> R.
Variable copula : nat -> nat -> C.
Hypothesis HC : fitted_copulas C hu hv score.
Variable enum : list nat -> list nat.
Hypothesis enum_ok : enumerates enum.
Variable n : nat.
Variable ts : list tree.
Hypothesis Hreg : regular n ts.
Notation mv := (model_value R C hu hv copula).

Definition pair_at (x : nat -> R) (t : tree) (below : list tree) (k : nat) : R * R :=
  let a := fst (edge_at t k) in
  let b := snd (edge_at t k) in
  match below with
  | [] => (x a, x b)
  | t' :: below' =>
      match shared_node_is_left (edge_at t' a) (edge_at t' b) with
      | Some (l1, l2) => (mv x t' below' a (negb l1), mv x t' below' b (negb l2))
      | None => (x O, x O)
      end
  end.
Definition edge_score (x : nat -> R) (p : nat * nat) : R :=
  match skipn (length ts - S (fst p)) ts with
  | t :: below => score (copula (fst p) (snd p)) (fst (pair_at x t below (snd p))) (snd (pair_at x t below (snd p)))
  | [] => 0
  end.
Definition entry_score (x : nat -> R) (e : entry) : R := rsum (map (edge_score x) (entry_chain ts e)).

Lemma edge_score_at x t below k : tree_on_level ts (length below) t below ->
  edge_score x (length below, k) = score (copula (length below) k) (fst (pair_at x t below k)) (snd (pair_at x t below k)).
Proof. intros [(above & E) _]. unfold edge_score. cbn [fst snd]. rewrite E, suffix_skipn. reflexivity. Qed.

Lemma mv_pair x t below k lft : tree_on_level ts (length below) t below -> (k < length t)%nat ->
  mv x t below k lft = (if lft then hu else hv) (copula (length below) k) (fst (pair_at x t below k)) (snd (pair_at x t below k)).
Proof.
  intros L K. destruct below as [|t' below]; [reflexivity|].
  destruct (children enum enum_ok n ts Hreg _ _ _ _ _ L K) as (l1 & l2 & H1 & _). unfold pair_at. cbn [model_value]. rewrite H1. reflexivity.
Qed.
Lemma pair_ext t below k x x' : tree_on_level ts (length below) t below -> (k < length t)%nat ->
  (forall v, In v (vars (t :: below) k) -> x v = x' v) -> pair_at x t below k = pair_at x' t below k.
Proof.
  intros L K E. destruct below as [|t' below].
  - unfold pair_at. rewrite !E; [reflexivity| |]; apply vars_cons; cbn; auto.
  - destruct (children enum enum_ok n ts Hreg _ _ _ _ _ L K) as (l1 & l2 & H1 & H2 & H3 & _). unfold pair_at. rewrite H1.
    assert (L' := level_below _ _ _ _ _ L).
    f_equal; apply (mv_ext R C hu hv copula enum enum_ok n ts Hreg); try assumption; intros v V; apply E, vars_cons; auto.
Qed.
Lemma mv_unit : forall below t k lft x, tree_on_level ts (length below) t below -> (k < length t)%nat -> cube n x -> unit (mv x t below k lft).
Proof.
  induction below as [|t' below IH]; intros t k lft x L K Q.
  - assert (Hr := level_regular n ts Hreg _ _ _ L). destruct Hr as (_ & R2 & _). pose proof (edge_order _ _ k R2 K) as O. cbn [length] in O.
    cbn [model_value]. destruct (HC (copula (length (@nil tree)) k)) as [H _]. assert (A : unit (x (fst (edge_at t k)))) by (apply Q; lia). assert (B : unit (x (snd (edge_at t k)))) by (apply Q; lia).
    destruct (H _ _ A B) as (U1 & U2 & _). destruct lft; assumption.
  - destruct (children enum enum_ok n ts Hreg _ _ _ _ _ L K) as (l1 & l2 & H1 & H2 & H3 & _). cbn [model_value]. rewrite H1.
    assert (L' := level_below _ _ _ _ _ L). destruct (HC (copula (length (t' :: below)) k)) as [H _].
    destruct (H _ _ (IH t' _ (negb l1) x L' H2 Q) (IH t' _ (negb l2) x L' H3 Q)) as (U1 & U2 & _). destruct lft; assumption.
Qed.
Lemma cube_set x v s : cube n x -> unit s -> cube n (setx x v s).
Proof. intros Q U w W. unfold setx. destruct (Nat.eqb w v); auto. Qed.

Lemma hu_good c y : unit y -> good_cdf (fun x => hu c x y) (fun x => score c x y).
Proof.
  intros Y. destruct (HC c) as [H1 H2]. split.
  - intros x X. destruct (H1 x y X Y) as (A & _ & B & _ & D & _). split; [exact A|]. split; [apply is_derive_Reals; exact B|exact D].
  - intros p P. apply (H2 p y P Y).
Qed.
Lemma hv_good c x : unit x -> good_cdf (fun y => hv c x y) (fun y => score c x y).
Proof.
  intros X. destruct (HC c) as [H1 H2]. split.
  - intros y Y. destruct (H1 x y X Y) as (_ & A & _ & B & _ & D). split; [exact A|]. split; [apply is_derive_Reals; exact B|exact D].
  - intros p P. apply (H2 p x P X).
Qed.

Lemma vine_good : forall below t k lft x, tree_on_level ts (length below) t below -> (k < length t)%nat -> cube n x ->
  let v := get_var enum t below k lft in
  good_cdf (fun s => mv (setx x v s) t below k lft) (fun s => rsum (map (edge_score (setx x v s)) (chain t below k lft))).
Proof.
  induction below as [|t' below IH]; intros t k lft x L K Q v.
  - assert (Hr := level_regular n ts Hreg _ _ _ L). destruct (side enum enum_ok n t [] k lft Hr K) as (S1 & S2 & _). fold v in S1, S2.
    pose proof Hr as (_ & R2 & _). pose proof (edge_order _ _ k R2 K) as O. cbn [length] in O.
    cbn [vars In] in S1, S2. assert (E1 : leaf t (k, lft) = v) by tauto. assert (E2 : stem t (k, lft) <> v) by tauto. clear S1 S2.
    assert (Us : unit (x (stem t (k, lft)))) by (apply Q; unfold stem; cbn [fst snd]; destruct lft; lia).
    set (y := x (stem t (k, lft))) in *.
    assert (P : forall s, pair_at (setx x v s) t [] k = if lft then (s, y) else (y, s)).
    { intros s. unfold pair_at, y. unfold leaf, stem in *. cbn [fst snd] in *. destruct lft; rewrite E1, setx_same, setx_other by assumption; reflexivity. }
    apply (good_ext (fun s => if lft then hu (copula 0 k) s y else hv (copula 0 k) y s) (fun s => if lft then score (copula 0 k) s y else score (copula 0 k) y s)).
    + intros s U. rewrite mv_pair, P by assumption. destruct lft; reflexivity.
    + intros s U. cbn [chain map]. change (rsum (?a :: ?l)) with (a + rsum l). rewrite (edge_score_at _ t [] k L), P. destruct lft; cbn; ring.
    + destruct lft; [now apply hu_good|now apply hv_good].
  - destruct (branch enum enum_ok n ts Hreg t t' below k lft L K) as (l1 & l2 & B1 & B2 & B3 & B4 & B5 & B6 & B7 & B8). fold v in B4, B5.
    set (la := if lft then negb l1 else negb l2) in *.
    specialize (IH t' (leaf t (k, lft)) la x B8 B2 Q). cbv zeta in IH. rewrite B4 in IH.
    set (F := fun s => mv (setx x v s) t' below (leaf t (k, lft)) la) in *.
    set (lb := if lft then negb l2 else negb l1).
    set (y := mv x t' below (stem t (k, lft)) lb).
    assert (Uy : unit y) by (apply mv_unit; assumption).
    set (c := copula (length (t' :: below)) k).
    assert (P : forall s, pair_at (setx x v s) t (t' :: below) k = if lft then (F s, y) else (y, F s)).
    { intros s. assert (Ey : y = mv (setx x v s) t' below (stem t (k, lft)) lb).
      { unfold y. apply (mv_ext R C hu hv copula enum enum_ok n ts Hreg); try assumption. intros w W. rewrite setx_other; [reflexivity|]. intros ->. exact (B5 W). }
      rewrite Ey. unfold pair_at, F. rewrite B1. unfold la, lb, leaf, stem. cbn [fst snd]. destruct lft; reflexivity. }
    apply (good_ext (fun s => if lft then hu c (F s) y else hv c y (F s))
             (fun s => (if lft then score c (F s) y else score c y (F s)) + rsum (map (edge_score (setx x v s)) (chain t' below (leaf t (k, lft)) la)))).
    + intros s U. rewrite mv_pair, P by assumption. destruct lft; reflexivity.
    + intros s U. cbn [chain]. rewrite B1. fold la. cbn [map].
      change (rsum (?a :: ?l)) with (a + rsum l). rewrite (edge_score_at _ t (t' :: below) k L), P. fold c. destruct lft; reflexivity.
    + destruct lft; [apply (good_comp F _ (fun z => hu c z y) (fun z => score c z y) IH (hu_good c y Uy))|apply (good_comp F _ (fun z => hv c y z) (fun z => score c y z) IH (hv_good c y Uy))].
Qed.

(** * The model of the scores *)
Definition plain (x : nat -> R) : state R := {| roots := fun i => Some (x i); set_u := fun _ _ => None; set_v := fun _ _ => None |}.
Lemma read_plain : forall below t k lft x, tree_on_level ts (length below) t below -> (k < length t)%nat ->
  read R C hu hv copula (plain x) t below k lft = Some (mv x t below k lft).
Proof.
  induction below as [|t' below IH]; intros t k lft x L K; cbn [read].
  - replace ((if lft then set_u R (plain x) else set_v R (plain x)) (length (@nil tree)) k) with (@None R) by (destruct lft; reflexivity). reflexivity.
  - replace ((if lft then set_u R (plain x) else set_v R (plain x)) (length (t' :: below)) k) with (@None R) by (destruct lft; reflexivity).
    destruct (children enum enum_ok n ts Hreg _ _ _ _ _ L K) as (l1 & l2 & H1 & H2 & H3 & _). assert (L' := level_below _ _ _ _ _ L).
    rewrite H1, !IH by assumption. cbn [model_value]. rewrite H1. reflexivity.
Qed.
Lemma get_X_plain t below k x : tree_on_level ts (length below) t below -> (k < length t)%nat ->
  get_X C hu hv copula (plain x) t below k = Some (pair_at x t below k).
Proof.
  intros L K. destruct below as [|t' below]; [reflexivity|].
  destruct (children enum enum_ok n ts Hreg _ _ _ _ _ L K) as (l1 & l2 & H1 & H2 & H3 & _). assert (L' := level_below _ _ _ _ _ L).
  unfold get_X, pair_at. rewrite H1, !read_plain by assumption. reflexivity.
Qed.
Lemma tree_score_plain t below x : tree_on_level ts (length below) t below -> forall ks, (forall k, In k ks -> (k < length t)%nat) ->
  tree_score C hu hv score copula (plain x) t below ks = Some (rsum (map (edge_score x) (map (pair (length below)) ks))).
Proof.
  intros L. induction ks as [|k ks IH]; intros K; [reflexivity|]. cbn [tree_score map]. rewrite get_X_plain by (try exact L; apply K; now left).
  rewrite IH by (intros; apply K; now right). rewrite (surjective_pairing (pair_at x t below k)). change (rsum (?a :: ?l)) with (a + rsum l). rewrite (edge_score_at _ t below k L). reflexivity.
Qed.
Lemma edges_score_plain x : forall below above, ts = above ++ below ->
  edges_score C hu hv score copula (plain x) below = Some (rsum (map (edge_score x) (all_edges below))).
Proof.
  induction below as [|t below IH]; intros above E; [reflexivity|]. cbn [edges_score all_edges].
  rewrite (IH (above ++ [t])) by (rewrite <- app_assoc; exact E).
  rewrite tree_score_plain.
  - rewrite map_app, rsum_app. f_equal. ring.
  - split; [exists above; exact E|reflexivity].
  - intros k K. apply in_seq in K. lia.
Qed.

(** * Entries *)
Notation value := (entry_value R C hu hv copula ts).
Notation var := (entry_var enum ts).
Section Order.
Variable cond : list nat.
Variable order : list entry.
Hypothesis Ho : complete_order enum cond n ts order.

Lemma value_at l k lft t below x : tree_on_level ts l t below -> value x (ChildEntry l k lft) = mv x t below k lft.
Proof. intros [(above & E) <-]. cbn [entry_value]. rewrite E, suffix_skipn. reflexivity. Qed.

Lemma entry_good e x : In e order -> cube n x ->
  good_cdf (fun s => value (setx x (var e) s) e) (fun s => entry_score (setx x (var e) s) e).
Proof.
  intros He Q. destruct e as [r|l k lft].
  - apply (good_ext (fun s => s) (fun _ => 0)); [| |apply good_id].
    + intros s U. cbn [entry_value entry_var]. rewrite setx_same. reflexivity.
    + intros s U. reflexivity.
  - destruct (child_ok enum n ts cond order Ho l k lft He) as (t & below & A & B & ->).
    rewrite (entry_var_child enum ts _ _ _ _ _ A).
    apply (good_ext (fun s => mv (setx x (get_var enum t below k lft) s) t below k lft) (fun s => rsum (map (edge_score (setx x (get_var enum t below k lft) s)) (chain t below k lft)))).
    + intros s U. symmetry. now apply value_at.
    + intros s U. unfold entry_score. rewrite (entry_chain_at ts _ _ _ _ _ A). reflexivity.
    + apply vine_good; assumption.
Qed.

(** The value and the score of an entry only depend on its variable and on those drawn before it. *)
Lemma entry_ext o1 e o2 x x' : order = o1 ++ e :: o2 -> (forall v, In v (map var o1) -> x v = x' v) -> x (var e) = x' (var e) ->
  value x e = value x' e /\ entry_score x e = entry_score x' e.
Proof.
  intros E H1 H2. destruct e as [r|l k lft]; [split; [exact H2|reflexivity]|].
  destruct Ho as (_ & _ & H3). destruct (H3 _ _ _ _ _ E) as (t & below & A & B & _ & D). pose proof A as [_ <-].
  rewrite (entry_var_child enum ts _ _ _ _ _ A) in H2.
  assert (Ag : forall v, In v (vars (t :: below) k) -> x v = x' v).
  { intros v V. destruct (Nat.eq_dec v (get_var enum t below k lft)) as [->|N]; [exact H2|apply H1, D; assumption]. }
  split.
  - rewrite !(value_at _ _ _ _ _ _ A). apply (mv_ext R C hu hv copula enum enum_ok n ts Hreg); assumption.
  - unfold entry_score. rewrite (entry_chain_at ts _ _ _ _ _ A). f_equal. apply map_ext_in. intros [l j] I.
    destruct (chain_spec enum enum_ok n ts Hreg below t k lft A B) as (_ & _ & C1). destruct (C1 _ _ I) as (_ & t1 & b1 & D1 & D2 & _ & D4).
    pose proof D1 as [_ <-]. rewrite !(edge_score_at _ t1 b1 j D1). rewrite (pair_ext t1 b1 j x x' D1 D2); [reflexivity|]. intros v V. apply Ag, D4, V.
Qed.
Lemma later_var o1 e o2 : order = o1 ++ e :: o2 -> ~ In (var e) (map var o1) /\ ~ In (var e) (map var o2).
Proof.
  intros E. destruct Ho as (P & _). assert (ND : NoDup (map var order)) by (eapply Permutation_NoDup; [apply Permutation_sym; exact P|apply seq_NoDup]).
  rewrite E, map_app in ND. cbn [map] in ND. apply NoDup_remove_2 in ND. rewrite in_app_iff in ND. tauto.
Qed.
Lemma prefix_ext o1 e o2 x s : order = o1 ++ e :: o2 -> map (entry_score (setx x (var e) s)) o1 = map (entry_score x) o1.
Proof.
  intros E. destruct (later_var _ _ _ E) as [N _]. apply map_ext_in. intros f F. apply in_split in F as (p1 & p2 & Ep).
  assert (E' : order = p1 ++ f :: (p2 ++ e :: o2)) by (rewrite E, Ep, <- app_assoc; reflexivity).
  rewrite Ep, map_app in N. cbn [map] in N. rewrite in_app_iff in N. cbn [In] in N.
  apply (entry_ext _ _ _ _ _ E').
  - intros v V. apply setx_other. intros Q. apply N. left. first [rewrite <- Q; exact V|rewrite Q; exact V].
  - apply setx_other. intros Q. apply N. right. left. congruence.
Qed.
End Order.

Lemma order_scores order x : ts <> [] -> (length ts < n)%nat -> sampling_order enum [] n ts = Some order -> complete_order enum [] n ts order ->
  rsum (map (edge_score x) (all_edges ts)) = rsum (map (entry_score x) order).
Proof.
  intros Hne Hl H Ho. rewrite <- (rsum_perm _ _ (Permutation_map (edge_score x) (chains_all enum enum_ok n ts order Hreg Hne Hl H Ho))). apply rsum_flat.
Qed.
End Vine.

Lemma exp_rsum l : exp (rsum l) = fold_right Rmult 1 (map exp l).
Proof. induction l as [|a l IH]; [apply exp_0|]. change (exp (a + rsum l) = exp a * fold_right Rmult 1 (map exp l)). now rewrite exp_plus, IH. Qed.

(** * Specification, continued *)
(** The probability, under a density [f] on the cube, that the variables of the entries (the last one first) are such that
    the value of each entry is at most [b]: an iterated integral, one variable after the other.  The other variables are kept. *)
Section Probability.
Variables (value : (nat -> R) -> entry -> R) (var : entry -> nat) (n : nat) (b : nat -> R).
Fixpoint probability (entries : list entry) (f : (nat -> R) -> R) (p : R) : Prop :=
  match entries with
  | [] => forall x, cube n x -> f x = p
  | e :: rest => exists m,
      (forall x, cube n x -> exists s, unit s /\ value (setx x (var e) s) e = b (var e) /\
         (forall s', unit s' -> (value (setx x (var e) s') e <= b (var e) <-> s' <= s)) /\
         integral_to s (fun t => f (setx x (var e) t)) (m x))
      /\ probability rest m p
  end.
(** The same without a bound: the whole of (0, 1). *)
Fixpoint mass (entries : list entry) (f : (nat -> R) -> R) (p : R) : Prop :=
  match entries with
  | [] => forall x, cube n x -> f x = p
  | e :: rest => exists m,
      (forall x, cube n x -> integral (fun t => f (setx x (var e) t)) (m x)) /\ mass rest m p
  end.
End Probability.

Lemma integral_scal c f l : integral f l -> integral (fun x => c * f x) (c * l).
Proof. intros H. exact (is_RInt_gen_scal f c l H). Qed.
Lemma integral_to_scal b c f l : integral_to b f l -> integral_to b (fun x => c * f x) (c * l).
Proof. intros H. exact (is_RInt_gen_scal f c l H). Qed.
Lemma integral_ext f g l : (forall x, unit x -> f x = g x) -> integral f l -> integral g l.
Proof. intros E L. unfold integral in *. apply (is_RInt_gen_ext f); [|exact L]. generalize (box (fun x => f x = g x) E). apply filter_imp. intros ab H x X. apply H. split; left; apply X. Qed.
Lemma integral_to_ext b f g l : unit b -> (forall x, unit x -> f x = g x) -> integral_to b f l -> integral_to b g l.
Proof.
  intros B E L. unfold integral_to in *. apply (is_RInt_gen_ext f); [|exact L].
  apply (Filter_prod _ _ _ unit (fun z => z = b)); [apply near0|reflexivity|]. intros a z A -> x X. cbn in X. apply E. destruct A, B.
  assert (0 < Rmin a b) by (apply Rmin_glb_lt; lra). assert (Rmax a b < 1) by (apply Rmax_lub_lt; lra). split; lra.
Qed.

Section Main.
Variable C : Type.
Variables hu hv score : C -> R -> R -> R.
Variable copula : nat -> nat -> C.
Hypothesis HC : fitted_copulas C hu hv score.
Variable enum : list nat -> list nat.
Hypothesis enum_ok : enumerates enum.
Variable n : nat.
Variable ts : list tree.
Hypothesis Hreg : regular n ts.
Variable order : list entry.
Hypothesis Ho : complete_order enum [] n ts order.
Notation value := (entry_value R C hu hv copula ts).
Notation var := (entry_var enum ts).
Notation escore := (entry_score C hu hv score copula ts).

Lemma probability_prefix b : (forall v, unit (b v)) -> forall o1 o2 f K, order = o1 ++ o2 ->
  (forall x, cube n x -> f x = K * exp (rsum (map (escore x) o1))) ->
  probability value var n b (rev o1) f (K * fold_right Rmult 1 (map b (map var o1))).
Proof.
  intros Hb. induction o1 as [|e o1 IH] using rev_ind; intros o2 f K E Hf.
  - cbn. intros x Q. rewrite Hf by exact Q. cbn. rewrite exp_0. reflexivity.
  - rewrite rev_app_distr. cbn [rev app probability]. rewrite <- app_assoc in E. cbn [app] in E.
    assert (He : In e order) by (rewrite E; apply in_elt).
    exists (fun x => K * exp (rsum (map (escore x) o1)) * b (var e)). split.
    + intros x Q. pose proof (entry_good C hu hv score copula HC enum enum_ok n ts Hreg [] order Ho e x He Q) as G.
      destruct (proj2 G (b (var e)) (Hb _)) as (s & U & Es). exists s. split; [exact U|]. split; [exact Es|].
      pose proof (good_increasing _ _ G) as M. split.
      { intros s' U'. rewrite <- Es. split; intros H; destruct (Rtotal_order s' s) as [L|[->|L]]; try lra.
        - specialize (M s s' U U' L). cbn in M. lra.
        - specialize (M s' s U' U L). cbn in M. lra. }
      apply (integral_to_ext s (fun t => K * exp (rsum (map (escore x) o1)) * exp (escore (setx x (var e) t) e))); [exact U| |].
      * intros t T. rewrite Hf by (apply cube_set; assumption). rewrite map_app, rsum_app, (prefix_ext C hu hv score copula enum enum_ok n ts Hreg [] order Ho o1 e o2 x t E).
        change (rsum (map (escore (setx x (var e) t)) [e])) with (escore (setx x (var e) t) e + 0). rewrite Rplus_0_r, exp_plus. ring.
      * apply integral_to_scal. rewrite <- Es. apply (good_integral_to _ _ s G U).
    + rewrite !map_app. cbn [map].
      assert (Ep : forall l z, fold_right Rmult 1 (l ++ [z]) = z * fold_right Rmult 1 l) by (induction l as [|a l I]; intros z; cbn; [ring|rewrite I; ring]).
      rewrite Ep, <- Rmult_assoc. apply (IH (e :: o2) _ (K * b (var e)) E). intros x Q. ring.
Qed.
Lemma mass_prefix : forall o1 o2 f, order = o1 ++ o2 -> (forall x, cube n x -> f x = exp (rsum (map (escore x) o1))) -> mass var n (rev o1) f 1.
Proof.
  induction o1 as [|e o1 IH] using rev_ind; intros o2 f E Hf.
  - cbn. intros x Q. rewrite Hf by exact Q. cbn. apply exp_0.
  - rewrite rev_app_distr. cbn [rev app mass]. rewrite <- app_assoc in E. cbn [app] in E.
    assert (He : In e order) by (rewrite E; apply in_elt).
    exists (fun x => exp (rsum (map (escore x) o1))). split; [|apply (IH (e :: o2) _ E); reflexivity].
    intros x Q. pose proof (entry_good C hu hv score copula HC enum enum_ok n ts Hreg [] order Ho e x He Q) as G.
    apply (integral_ext (fun t => exp (rsum (map (escore x) o1)) * exp (escore (setx x (var e) t) e))).
    + intros t T. rewrite Hf by (apply cube_set; assumption). rewrite map_app, rsum_app, (prefix_ext C hu hv score copula enum enum_ok n ts Hreg [] order Ho o1 e o2 x t E).
      change (rsum (map (escore (setx x (var e) t)) [e])) with (escore (setx x (var e) t) e + 0). now rewrite Rplus_0_r, exp_plus.
    + pose proof (integral_scal (exp (rsum (map (escore x) o1))) _ _ (good_integral _ _ G)) as I. rewrite Rmult_1_r in I. exact I.
Qed.
End Main.

(** * C75 *)
(** The pair-copula density: the state of the nodes holds the values [x] of the assets. *)
Definition log_density C hu hv score copula (ts : list tree) (x : nat -> R) : option R :=
  edges_score C hu hv score copula {| roots := fun i => Some (x i); set_u := fun _ _ => None; set_v := fun _ _ => None |} ts.

(** Under the density of the vine, the conditional values that [sample] sets to independent uniform numbers, C48,
    are independent and uniform: the samples follow the density that score_samples reports. *)
Theorem C75_simulation : forall C hu hv score copula enum n ts,
  fitted_copulas C hu hv score -> enumerates enum -> regular n ts -> ts <> [] -> (length ts < n)%nat ->
  exists order logf,
    sampling_order enum [] n ts = Some order
    /\ Permutation (map (entry_var enum ts) order) (seq 0 n)
    /\ (forall x, cube n x -> log_density C hu hv score copula ts x = Some (logf x))
    /\ (forall b, (forall v, unit (b v)) ->
          probability (entry_value R C hu hv copula ts) (entry_var enum ts) n b (rev order) (fun x => exp (logf x))
            (fold_right Rmult 1 (map b (seq 0 n))))
    /\ mass (entry_var enum ts) n (rev order) (fun x => exp (logf x)) 1.
Proof.
  intros C hu hv score copula enum n ts HC He Hr Hne Hl.
  destruct (C48_order enum He [] n ts Hr Hne Hl) as (order & O1 & Ho). pose proof (proj1 Ho) as P.
  exists order, (fun x => rsum (map (entry_score C hu hv score copula ts x) order)).
  split; [exact O1|]. split; [exact P|]. split; [|split].
  - intros x Q. rewrite <- (order_scores C hu hv score copula enum He n ts Hr order x Hne Hl O1 Ho).
    exact (edges_score_plain C hu hv score copula enum He n ts Hr x ts [] eq_refl).
  - intros b Hb.
    assert (Ep : fold_right Rmult 1 (map b (seq 0 n)) = 1 * fold_right Rmult 1 (map b (map (entry_var enum ts) order))).
    { rewrite Rmult_1_l. assert (Pm : forall l l', Permutation l l' -> fold_right Rmult 1 l = fold_right Rmult 1 l').
      { induction 1; cbn; [reflexivity|congruence|ring|congruence]. }
      apply Pm, Permutation_map, Permutation_sym, P. }
    rewrite Ep. apply (probability_prefix C hu hv score copula HC enum He n ts Hr order Ho b Hb order [] _ 1); [now rewrite app_nil_r|]. intros; ring.
  - apply (mass_prefix C hu hv score copula HC enum He n ts Hr order Ho order []); [now rewrite app_nil_r|]. reflexivity.
Qed.
Print Assumptions C75_simulation.

(** The row [X] is inside the domain of the model: the logarithm exists, the marginal distribution function has the density
    its score announces, and the uniform value is not clipped. *)
Definition interior (eps : R) (fit_marginals : bool) (marginals : nat -> marginal) (log_transform : nat -> bool) (X : nat -> R) (i : nat) : Prop :=
  let x := logged log_transform X i in
  (log_transform i = true -> -1 < X i)
  /\ (fit_marginals = true -> derivable_pt_lim (cdf (marginals i)) x (exp (logpdf (marginals i) x)))
  /\ eps < (if fit_marginals then cdf (marginals i) x else x) < 1 - eps.

Lemma sum_below_rsum f : forall n, sum_below n f = rsum (map f (seq 0 n)).
Proof.
  induction n as [|n IH]; [reflexivity|]. rewrite seq_S, map_app, rsum_app. cbn [sum_below map Nat.add]. rewrite IH.
  change (rsum [f n]) with (f n + 0). ring.
Qed.
Lemma rsum_add {A} (f g : A -> R) l : rsum (map (fun a => f a + g a) l) = rsum (map f l) + rsum (map g l).
Proof. induction l as [|a l IH]; [cbn; ring|]. cbn [map]. change (rsum (?a :: ?l)) with (a + rsum l). rewrite IH. change (rsum (?a :: ?l)) with (a + rsum l). ring. Qed.

Lemma clip_inside eps x : eps < x < 1 - eps -> clip eps (1 - eps) x = x.
Proof. intros H. unfold clip. rewrite Rmax_right by lra. apply Rmin_right. lra. Qed.

(* the derivative of the pseudo-value *)
Definition dpseudo (fit_marginals : bool) (marginals : nat -> marginal) (log_transform : nat -> bool) (X : nat -> R) (i : nat) : R :=
  (if fit_marginals then logpdf (marginals i) (logged log_transform X i) else 0) - (if log_transform i then ln (1 + X i) else 0).
Lemma pseudo_derive eps fm mg lt X i : interior eps fm mg lt X i ->
  derivable_pt_lim (fun s => pseudo eps fm mg lt (setx X i s) i) (X i) (exp (dpseudo fm mg lt X i)).
Proof.
  intros (I1 & I2 & I3).
  assert (L : derivable_pt_lim (fun s => logged lt (setx X i s) i) (X i) (exp (- (if lt i then ln (1 + X i) else 0)))).
  { unfold logged. destruct (lt i).
    - specialize (I1 eq_refl). apply (d_ext (fun s => ln (1 + s))); [intros s; now rewrite setx_same|]. rewrite exp_Ropp, exp_ln by lra.
      eapply d_eq; [apply d_ln; [apply d_plus; [apply d_const|apply d_id]|cbn; lra]|]. cbn. field. lra.
    - apply (d_ext (fun s => s)); [intros s; now rewrite setx_same|]. rewrite Ropp_0, exp_0. apply d_id. }
  set (g := fun s => if fm then cdf (mg i) (logged lt (setx X i s) i) else logged lt (setx X i s) i).
  assert (X0 : logged lt (setx X i (X i)) i = logged lt X i) by (unfold logged; now rewrite setx_same).
  assert (D : derivable_pt_lim g (X i) (exp (dpseudo fm mg lt X i))).
  { unfold g, dpseudo, Rminus. destruct fm; [|rewrite Rplus_0_l; exact L]. rewrite exp_plus.
    apply (d_comp (fun s => logged lt (setx X i s) i)); [exact L|]. rewrite X0. now apply I2. }
  assert (G0 : eps < g (X i) < 1 - eps) by (unfold g; rewrite X0; exact I3).
  apply (d_ext_loc g); [|exact D].
  assert (Cn : continuity_pt g (X i)) by (apply derivable_continuous_pt; eexists; exact D).
  set (r := Rmin (g (X i) - eps) (1 - eps - g (X i))). assert (r0 : 0 < r) by (apply Rmin_glb_lt; lra).
  destruct (Cn r r0) as (d & Hd & K). exists d. split; [exact Hd|]. intros s Hs. unfold pseudo. symmetry. change (clip eps (1 - eps) (g s) = g s). apply clip_inside.
  destruct (Req_dec s (X i)) as [->|N]; [exact G0|].
  assert (Kd : R_dist (g s) (g (X i)) < r). { apply K. split; [split; [exact I|congruence]|exact Hs]. }
  unfold R_dist in Kd. apply Rabs_def2 in Kd. assert (r <= g (X i) - eps) by apply Rmin_l. assert (r <= 1 - eps - g (X i)) by apply Rmin_r. lra.
Qed.
Lemma pseudo_other eps fm mg lt X i s j : j <> i -> pseudo eps fm mg lt (setx X i s) j = pseudo eps fm mg lt X j.
Proof. intros N. unfold pseudo, logged. now rewrite setx_other. Qed.
Lemma interior_unit eps fm mg lt X i : 0 < eps -> interior eps fm mg lt X i -> unit (pseudo eps fm mg lt X i).
Proof. intros E (_ & _ & H). unfold pseudo. rewrite clip_inside by exact H. split; lra. Qed.

(** score_samples is the logarithm of the Jacobian determinant of the map that [sample] inverts (the map from the row to the
    independent uniform numbers, in the order of sampling), when no asset is log-transformed; each entry of the map only depends on
    the assets drawn before and on its own asset, so the determinant is the product of the derivatives on the diagonal.
    For a log-transformed asset, the term - ln (1 + x) is missing. *)
Theorem C75_density : forall C hu hv score copula enum eps fit_marginals marginals log_transform n ts X,
  fitted_copulas C hu hv score -> enumerates enum -> regular n ts -> ts <> [] -> (length ts < n)%nat -> 0 < eps ->
  (forall i, (i < n)%nat -> interior eps fit_marginals marginals log_transform X i) ->
  let rosenblatt := fun Y e => entry_value R C hu hv copula ts (pseudo eps fit_marginals marginals log_transform Y) e in
  exists order total ds,
    sampling_order enum [] n ts = Some order
    /\ Permutation (map (entry_var enum ts) order) (seq 0 n)
    /\ score_samples C hu hv score copula eps fit_marginals marginals log_transform n ts X = Some total
    /\ (forall o1 e o2 Y Y', order = o1 ++ e :: o2 -> (forall v, In v (map (entry_var enum ts) (o1 ++ [e])) -> Y v = Y' v) -> rosenblatt Y e = rosenblatt Y' e)
    /\ Forall2 (fun e d => 0 < d /\ derivable_pt_lim (fun s => rosenblatt (setx X (entry_var enum ts e) s) e) (X (entry_var enum ts e)) d) order ds
    /\ total = rsum (map ln ds) + rsum (map (fun i => if log_transform i then ln (1 + X i) else 0) (seq 0 n)).
Proof.
  intros C hu hv score copula enum eps fm mg lt n ts X HC He Hr Hne Hl Ep Hin ros.
  destruct (C48_order enum He [] n ts Hr Hne Hl) as (order & O1 & Ho). pose proof (proj1 Ho) as P.
  set (x := pseudo eps fm mg lt X). set (es := entry_score C hu hv score copula ts x).
  assert (Q : cube n x) by (intros v V; apply interior_unit; auto).
  assert (Hv : forall e, In e order -> (entry_var enum ts e < n)%nat).
  { intros e I. apply (in_map (entry_var enum ts)) in I. eapply Permutation_in in I; [|exact P]. apply in_seq in I. lia. }
  exists order, ((if fm then sum_below n (fun i => logpdf (mg i) (logged lt X i)) else 0) + rsum (map es order)).
  exists (map (fun e => exp (es e + dpseudo fm mg lt X (entry_var enum ts e))) order).
  split; [exact O1|]. split; [exact P|]. split; [|split; [|split]].
  - unfold score_samples. pose proof (edges_score_plain C hu hv score copula enum He n ts Hr x ts [] eq_refl) as Es. unfold plain in Es. unfold x in Es. rewrite Es.
    fold x. rewrite (order_scores C hu hv score copula enum He n ts Hr order x Hne Hl O1 Ho). reflexivity.
  - intros o1 e o2 Y Y' E Ag.
    apply (entry_ext C hu hv score copula enum He n ts Hr [] order Ho o1 e o2 _ _ E).
    + intros v V. unfold pseudo, logged. rewrite (Ag v); [reflexivity|]. rewrite map_app, in_app_iff. now left.
    + unfold pseudo, logged. rewrite (Ag (entry_var enum ts e)); [reflexivity|]. rewrite map_app, in_app_iff. right. now left.
  - assert (G : forall e, In e order -> 0 < exp (es e + dpseudo fm mg lt X (entry_var enum ts e)) /\
        derivable_pt_lim (fun s => ros (setx X (entry_var enum ts e) s) e) (X (entry_var enum ts e)) (exp (es e + dpseudo fm mg lt X (entry_var enum ts e)))).
    { intros e I. split; [apply exp_pos|]. pose proof (in_split _ _ I) as (o1 & o2 & E). set (v := entry_var enum ts e) in *.
      rewrite exp_plus.
      apply (d_ext (fun s => entry_value R C hu hv copula ts (setx x v (pseudo eps fm mg lt (setx X v s) v)) e)).
      - intros s. apply (entry_ext C hu hv score copula enum He n ts Hr [] order Ho o1 e o2 _ _ E).
        + intros w W. destruct (later_var C copula enum n ts [] order Ho o1 e o2 E) as [Nv _]. assert (w <> v) by (intros ->; now apply Nv). rewrite setx_other by assumption. symmetry. now apply pseudo_other.
        + fold v. now rewrite setx_same.
      - apply (d_comp (fun s => pseudo eps fm mg lt (setx X v s) v) (fun p => entry_value R C hu hv copula ts (setx x v p) e)); [apply pseudo_derive, Hin, Hv, I|].
        pose proof (proj1 (entry_good C hu hv score copula HC enum He n ts Hr [] order Ho e x I Q)) as G1.
        assert (Xv : pseudo eps fm mg lt (setx X v (X v)) v = x v) by (unfold x, pseudo, logged; now rewrite setx_same). rewrite Xv.
        destruct (G1 (x v) (Q v (Hv e I))) as (_ & D & _). apply is_derive_Reals in D. fold v in D.
        eapply d_eq; [exact D|]. unfold es. f_equal.
        apply (entry_ext C hu hv score copula enum He n ts Hr [] order Ho o1 e o2 _ _ E).
        + intros w _. destruct (Nat.eq_dec w v) as [->|N]; [apply setx_same|now apply setx_other].
        + fold v. apply setx_same. }
    clear -G. induction order as [|e o IH]; cbn [map]; constructor; [apply G; now left|]. apply IH. intros f F. apply G. now right.
  - rewrite map_map. rewrite (map_ext (fun e => ln (exp (es e + dpseudo fm mg lt X (entry_var enum ts e)))) (fun e => es e + dpseudo fm mg lt X (entry_var enum ts e))) by (intros; apply ln_exp).
    rewrite rsum_add. rewrite <- (map_map (entry_var enum ts) (dpseudo fm mg lt X)), (rsum_perm _ _ (Permutation_map (dpseudo fm mg lt X) P)).
    assert (A : (if fm then sum_below n (fun i => logpdf (mg i) (logged lt X i)) else 0) = rsum (map (dpseudo fm mg lt X) (seq 0 n)) + rsum (map (fun i => if lt i then ln (1 + X i) else 0) (seq 0 n))).
    { rewrite <- rsum_add. unfold dpseudo. destruct fm.
      - rewrite sum_below_rsum. f_equal. apply map_ext. intros i. ring.
      - rewrite (map_ext _ (fun _ => 0)) by (intros; ring). generalize (seq 0 n). induction l as [|a l IH]; [reflexivity|]. change (0 = 0 + rsum (map (fun _ => 0) l)). rewrite <- IH. ring. }
    rewrite A. ring.
Qed.
Print Assumptions C75_density.

(** * The copulas of the library *)
(** The conditional distribution function [h] of an exchangeable copula and its log-density [s], before rotation. *)
Definition base_copula (h s : R -> R -> R) : Prop :=
  (forall u v, unit u -> unit v -> unit (h u v))
  /\ density_of h (fun u v => exp (s u v)) /\ CopulaProps.exchangeable s
  /\ (forall u v, unit u -> unit v -> continuous (fun t => s t v) u)
  /\ (forall p v, unit p -> unit v -> exists u, unit u /\ h u v = p).
Record pair_copula := { fam_h : R -> R -> R; fam_s : R -> R -> R; fam_ok : base_copula fam_h fam_s; turned : rotation }.
(** partial_derivative with [first_margin] false and true, and score_samples, on a row inside the bounds of the validation. *)
Definition pair_hu (c : pair_copula) (x y : R) : R := rotated_pd (swapped (fam_h c)) (turned c) (x, y) false.
Definition pair_hv (c : pair_copula) (x y : R) : R := rotated_pd (swapped (fam_h c)) (turned c) (x, y) true.
Definition pair_score (c : pair_copula) (x y : R) : R := let Z := rotate (turned c) (x, y) in fam_s c (fst Z) (snd Z).

Lemma cont_reflect (f : R -> R) x : continuous f (1 - x) -> continuous (fun t => f (1 - t)) x.
Proof. intros H. apply (continuous_comp (fun t => 1 - t) f); [|exact H]. apply (ex_cont _ _ (-1)). apply is_derive_Reals, d_one_minus. Qed.
Lemma cont_unit_ext (f g : R -> R) x : unit x -> (forall t, unit t -> f t = g t) -> continuous f x -> continuous g x.
Proof. intros U E H. destruct (unit_open x U) as [d [Hd Od]]. apply (continuous_ext_loc _ f); [|exact H]. exists (mkposreal d Hd). intros t T. apply E, Od. exact T. Qed.

Theorem C75_copulas : fitted_copulas pair_copula pair_hu pair_hv pair_score.
Proof.
  intros [h s (U & D & S & K & O) r]. unfold pair_hu, pair_hv, pair_score, rotated_pd, swapped, margin_swap. cbn [fam_h fam_s turned].
  assert (K2 : forall u v, unit u -> unit v -> continuous (fun t => s u t) v).
  { intros u v Hu Hv. apply (cont_unit_ext (fun t => s t u)); [exact Hv|intros t T; now apply S|now apply K]. }
  split.
  - intros x y X Y. pose proof (unit_1m x X) as X'. pose proof (unit_1m y Y) as Y'.
    destruct r; cbn -[exp]; cbn [fst snd].
    + split; [now apply U|]. split; [now apply U|]. split; [now apply D|]. split; [rewrite (S x y) by assumption; now apply D|]. split; [now apply K|now apply K2].
    + split; [apply unit_1m; now apply U|]. split; [now apply U|]. split; [|split; [|split]].
      * eapply d_eq; [apply d_minus; [apply d_const|apply (d_reflect (fun t => h t y)), D; assumption]|]. rewrite (S y (1 - x)) by assumption. ring.
      * now apply D.
      * apply (cont_reflect (fun t => s y t)). now apply K2.
      * now apply K.
    + split; [apply unit_1m; now apply U|]. split; [apply unit_1m; now apply U|]. split; [|split; [|split]].
      * eapply d_eq; [apply d_minus; [apply d_const|apply (d_reflect (fun t => h t (1 - y))), D; assumption]|ring].
      * eapply d_eq; [apply d_minus; [apply d_const|apply (d_reflect (fun t => h t (1 - x))), D; assumption]|]. rewrite (S (1 - x) (1 - y)) by assumption. ring.
      * apply (cont_reflect (fun t => s t (1 - y))). now apply K.
      * apply (cont_reflect (fun t => s (1 - x) t)). now apply K2.
    + split; [now apply U|]. split; [apply unit_1m; now apply U|]. split; [|split; [|split]].
      * rewrite (S (1 - y) x) by assumption. now apply D.
      * eapply d_eq; [apply d_minus; [apply d_const|apply (d_reflect (fun t => h t x)), D; assumption]|ring].
      * now apply K2.
      * apply (cont_reflect (fun t => s t x)). now apply K.
  - intros p z P Z. pose proof (unit_1m p P) as P'. pose proof (unit_1m z Z) as Z'.
    assert (T : forall w q, unit w -> unit q -> exists x, unit x /\ 1 - h (1 - x) w = q).
    { intros w q W Q. destruct (O (1 - q) w (unit_1m q Q) W) as (u & Hu & E). exists (1 - u). split; [now apply unit_1m|].
      replace (1 - (1 - u)) with u by ring. lra. }
    destruct r; cbn -[exp]; cbn [fst snd]; split; auto.
Qed.
Print Assumptions C75_copulas.

Lemma base_clayton t : 0 < t -> base_copula (clayton_h t) (clayton_score t).
Proof.
  intros T. split; [intros; now apply cl_h_unit|]. split; [now apply cl_density|]. split; [intros u v U V; apply exp_inv; now apply (cl_score_sym t T)|]. split.
  - intros u v U V. apply (@ex_derive_continuous R_AbsRing R_NormedModule). unfold clayton_score. auto_derive.
    pose proof (cl_S t T u v U V) as K. unfold Rpower in K. destruct U. repeat split; lra.
  - intros p v P V. exists (clayton_hinv t p v). apply (cl_inverse t T); assumption.
Qed.
Lemma base_joe t : 1 < t -> base_copula (joe_h t) (joe_score t).
Proof.
  intros T. split; [intros; now apply jo_h_unit|]. split; [now apply jo_density|]. split; [intros u v U V; apply exp_inv; now apply (jo_score_sym t T)|]. split.
  - intros u v U V. apply (@ex_derive_continuous R_AbsRing R_NormedModule). unfold joe_score. auto_derive.
    pose proof (jo_D t T u v U V) as [K _]. destruct U.
    assert (K' : 0 < exp (ln (1 + - u) * t) + exp (ln (1 + - v) * t) - exp ((ln (1 + - u) + ln (1 + - v)) * t)).
    { rewrite Rmult_plus_distr_r, exp_plus, !(Rmult_comm _ t). exact K. }
    repeat split; lra.
  - intros p v P V. destruct (C47_joe_solution t p v T P V) as (u & Hu & E & _). exists u. auto.
Qed.
(* the score of the library is the logarithm of this density between the bounds of the validation, C46_gumbel *)
Lemma base_gumbel t : 1 < t -> base_copula (gumbel_h t) (fun u v => ln (gumbel_density t u v)).
Proof.
  intros T. split; [intros; now apply gu_h_unit|]. split.
  { intros u v U V. rewrite exp_ln by now apply gu_density_pos. now apply gu_density. }
  split; [intros u v U V; f_equal; now apply gu_density_sym|]. split.
  - intros u v U V. apply (continuous_comp (fun t' => gumbel_density t t' v) ln); [|apply ln_cont; now apply gu_density_pos].
    apply (@ex_derive_continuous R_AbsRing R_NormedModule). unfold gumbel_density, Rpower. auto_derive.
    pose proof (mln_bound u U). destruct U. pose proof (exp_pos (t * ln (- ln u))). pose proof (exp_pos (t * ln (- ln v))). repeat split; lra.
  - intros p v P V. destruct (C47_gumbel_solution t p v T P V) as (u & Hu & E & _). exists u. auto.
Qed.
Lemma base_independent : base_copula independent_h independent_score.
Proof.
  unfold independent_h, independent_score. split; [auto|]. split; [intros u v _ _; rewrite exp_0; apply d_id|]. split; [intros u v _ _; reflexivity|].
  split; [intros; apply continuous_const|]. intros p v P V. exists p. auto.
Qed.
(** The three Archimedean copulas and the independent one. *)
Theorem C75_families :
  (forall t, 0 < t -> base_copula (clayton_h t) (clayton_score t))
  /\ (forall t, 1 < t -> base_copula (joe_h t) (joe_score t))
  /\ (forall t, 1 < t -> exists s, base_copula (gumbel_h t) s /\ forall u v, CopulaProps.inside u -> CopulaProps.inside v -> gumbel_score t u v = s u v)
  /\ base_copula independent_h independent_score.
Proof.
  split; [exact base_clayton|]. split; [exact base_joe|]. split; [|exact base_independent]. intros t T. exists (fun u v => ln (gumbel_density t u v)).
  split; [now apply base_gumbel|]. intros u v U V. rewrite <- (gu_score_eq t T u v); try (now apply inside_unit); [now rewrite ln_exp|]. now apply gu_guard.
Qed.
Print Assumptions C75_families.

(** * Concrete cases, and the missing Jacobian *)
Definition half_vine (l k : nat) : pair_copula :=
  match l, k with
  | O, O => {| fam_h := clayton_h 2; fam_s := clayton_score 2; fam_ok := base_clayton 2 ltac:(lra); turned := R90 |}
  | O, _ => {| fam_h := joe_h 2; fam_s := joe_score 2; fam_ok := base_joe 2 ltac:(lra); turned := R270 |}
  | _, _ => {| fam_h := independent_h; fam_s := independent_score; fam_ok := base_independent; turned := R180 |}
  end.
Definition uniform_marginal : marginal := {| cdf := fun x => x; logpdf := fun _ => 0 |}.
Lemma id_enum : enumerates (fun l => l).
Proof. intros l. apply Permutation_refl. Qed.
Lemma uniform_interior lt X i : let x := logged lt X i in (lt i = true -> -1 < X i) -> 1 / 4 < x < 3 / 4 -> interior (1 / 100) true (fun _ => uniform_marginal) lt X i.
Proof. intros x A B. split; [exact A|]. split; [|cbn; fold x; lra]. intros _. cbn. rewrite exp_0. apply d_id. Qed.

Example C75_simulation_applies : fitted_copulas pair_copula pair_hu pair_hv pair_score /\ enumerates (fun l => l) /\ regular 3 vine3 /\ vine3 <> [] /\ (length vine3 < 3)%nat.
Proof. split; [exact C75_copulas|]. split; [exact id_enum|]. split; [exact vine3_regular|]. split; [discriminate|cbn; lia]. Qed.
(** Three assets, a Clayton and a Joe copula rotated by quarter turns below an independent one. *)
Example C75_density_applies : exists order total ds,
  sampling_order (fun l => l) [] 3 vine3 = Some order
  /\ score_samples pair_copula pair_hu pair_hv pair_score half_vine (1 / 100) true (fun _ => uniform_marginal) (fun _ => false) 3 vine3 (fun i => 1 / 3) = Some total
  /\ length ds = 3%nat /\ List.Forall (fun d => 0 < d) ds /\ total = rsum (map ln ds).
Proof.
  destruct C75_simulation_applies as (A0 & B0 & C0 & D0 & E0).
  destruct (C75_density pair_copula pair_hu pair_hv pair_score half_vine (fun l => l) (1 / 100) true (fun _ => uniform_marginal) (fun _ => false) 3 vine3 (fun i => 1 / 3) A0 B0 C0 D0 E0)
    as (order & total & ds & H1 & H2 & H3 & _ & H5 & H6).
  - lra.
  - intros i _. apply uniform_interior; [discriminate|unfold logged; lra].
  - exists order, total, ds. split; [exact H1|]. split; [exact H3|]. split.
    + assert (L : length order = length ds) by (clear -H5; induction H5; cbn; congruence). rewrite <- L. apply Permutation_length in H2. rewrite map_length, seq_length in H2. exact H2.
    + split; [|rewrite H6; cbn; ring]. clear -H5. induction H5 as [|e d es ds H _ IH]; constructor; [apply H|exact IH].
Qed.

(** With [log_transform], score_samples is not the log-density of the rows that [sample] draws: the derivative of the
    logarithm is left out. *)
Theorem C75_log_transform_refuted :
  let X := fun _ : nat => exp (1 / 2) - 1 in
  let marginals := fun _ : nat => uniform_marginal in
  let rosenblatt := fun Y e => entry_value R pair_copula pair_hu pair_hv half_vine vine3 (pseudo (1 / 100) true marginals (fun _ => true) Y) e in
  (forall i, (i < 3)%nat -> interior (1 / 100) true marginals (fun _ => true) X i)
  /\ exists order total,
    sampling_order (fun l => l) [] 3 vine3 = Some order
    /\ score_samples pair_copula pair_hu pair_hv pair_score half_vine (1 / 100) true marginals (fun _ => true) 3 vine3 X = Some total
    /\ (exists ds, Forall2 (fun e d => derivable_pt_lim (fun s => rosenblatt (setx X (entry_var (fun l => l) vine3 e) s) e) (X (entry_var (fun l => l) vine3 e)) d) order ds)
    /\ forall ds, Forall2 (fun e d => derivable_pt_lim (fun s => rosenblatt (setx X (entry_var (fun l => l) vine3 e) s) e) (X (entry_var (fun l => l) vine3 e)) d) order ds ->
         total = rsum (map ln ds) + 3 / 2.
Proof.
  cbv zeta. set (X := fun _ : nat => exp (1 / 2) - 1).
  assert (In0 : forall i, (i < 3)%nat -> interior (1 / 100) true (fun _ => uniform_marginal) (fun _ => true) X i).
  { intros i _. pose proof (exp_pos (1 / 2)). apply uniform_interior; [unfold X; intros; lra|]. unfold logged, X. replace (1 + (exp (1 / 2) - 1)) with (exp (1 / 2)) by ring. rewrite ln_exp. lra. }
  split; [exact In0|]. destruct C75_simulation_applies as (A0 & B0 & C0 & D0 & E0).
  destruct (C75_density pair_copula pair_hu pair_hv pair_score half_vine (fun l => l) (1 / 100) true (fun _ => uniform_marginal) (fun _ => true) 3 vine3 X A0 B0 C0 D0 E0 ltac:(lra) In0)
    as (order & total & ds & H1 & H2 & H3 & _ & H5 & H6).
  exists order, total. split; [exact H1|]. split; [exact H3|]. split.
  - exists ds. clear -H5. induction H5 as [|e d es ds H _ IH]; constructor; [apply H|exact IH].
  - intros ds' H7. assert (Ed : ds' = ds).
    { clear -H5 H7. revert ds' H7. induction H5 as [|e d es ds H _ IH]; intros ds' H7; inversion H7; subst; [reflexivity|]. f_equal; [|now apply IH].
      destruct H as [_ H]. eapply uniqueness_limite; eassumption. }
    rewrite Ed, H6. f_equal. unfold X. cbn. replace (1 + (exp (1 / 2) - 1)) with (exp (1 / 2)) by ring. rewrite ln_exp. lra.
Qed.
Print Assumptions C75_log_transform_refuted.
