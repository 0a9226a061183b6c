(** C50: conditional samples satisfy their conditions, and the other assets have the
    values of the model point drawn with them (C71: when it is the conditional law). *)
Require Import String List Arith ZArith Bool Reals Lra Lia Permutation.
From Verif Require Import ToolsModel ToolsProps VineModel VineGraph VineProps VineSampleProps
  VinePropagateProps VineConditionModel.
Import ListNotations.
Open Scope R_scope.

(** * Specification *)

Definition above (lo : ext) (x : R) : Prop :=
  match lo with NegInf => True | Fin l => l <= x | PosInf => False end.
Definition below (hi : ext) (x : R) : Prop :=
  match hi with PosInf => True | Fin h => x <= h | NegInf => False end.

(** What the user asked of the value [x] of an asset in the sample of rank [s]. *)
Definition satisfies (c : cond_value) (s : nat) (x : R) : Prop :=
  match c with
  | Tuple [lo; hi] =>
      (forall b, lo = Some b -> above b x) /\ (forall b, hi = Some b -> below b x)
  | Number v => x = v
  | ArrayLike _ l => nth_error l s = Some x
  | _ => False
  end.

(** A condition that makes sense: a number, an array with one value per sample, or
    bounds with the lower one below the upper one. *)
Definition ext_lt (a b : ext) : Prop :=
  match a, b with
  | NegInf, Fin _ | NegInf, PosInf | Fin _, PosInf => True
  | Fin x, Fin y => x < y
  | _, _ => False
  end.
Definition well_formed (fit_marginals : bool) (n_samples : nat) (c : cond_value) : Prop :=
  match c with
  | Tuple [lo; hi] =>
      ext_lt (or_inf NegInf lo) (or_inf PosInf hi)
      /\ (fit_marginals = false -> exists l h, lo = Some (Fin l) /\ hi = Some (Fin h))
  | Number _ => True
  | ArrayLike ndim l => ndim = 1%nat /\ List.length l = n_samples
  | _ => False
  end.

(** The keys of the dictionary are all indices, or all names. *)
Definition one_kind (l : list item) : Prop :=
  (forall it, In it l -> exists z, it = Idx z) \/ (forall it, In it l -> exists s, it = Name s).

(** * Proofs *)

Lemma Forall2_length : forall A B (P : A -> B -> Prop) l m, Forall2 P l m ->
  List.length l = List.length m.
Proof. induction 1; cbn [List.length]; auto. Qed.

Lemma ext_ge_spec : forall a b, ext_ge a b = false <-> ext_lt a b.
Proof.
  intros [|x|] [|y|]; cbn [ext_ge ext_lt]; try (split; intros; try tauto; discriminate || auto).
  - destruct (Rle_dec y x); [discriminate | lra].
  - destruct (Rle_dec y x); [lra | reflexivity].
Qed.

Lemma clip_above : forall lo hi x, ext_lt lo hi ->
  above lo (clip_ext lo hi x) /\ below hi (clip_ext lo hi x).
Proof.
  intros [|l|] [|h|] x H; cbn [ext_lt above below clip_ext] in *; try tauto.
  - split; auto. apply Rmin_l.
  - split; [|apply Rmin_l]. apply Rmin_glb; [lra | apply Rmax_l].
  - split; auto. apply Rmax_l.
Qed.

Lemma get_set_same : forall A (d : list (nat * A)) k x, dict_get (dict_set d k x) k = Some x.
Proof.
  induction d as [|[k' y] d IH]; intros k x; cbn [dict_set dict_get].
  - rewrite Nat.eqb_refl. reflexivity.
  - destruct (Nat.eqb_spec k k') as [->|N]; cbn [dict_get].
    + rewrite Nat.eqb_refl. reflexivity.
    + rewrite (proj2 (Nat.eqb_neq k k') N). apply IH.
Qed.
Lemma get_set_other : forall A (d : list (nat * A)) k x k', k' <> k ->
  dict_get (dict_set d k x) k' = dict_get d k'.
Proof.
  induction d as [|[k0 y] d IH]; intros k x k' N; cbn [dict_set dict_get].
  - rewrite (proj2 (Nat.eqb_neq k' k) N). reflexivity.
  - destruct (Nat.eqb_spec k k0) as [->|N0]; cbn [dict_get].
    + rewrite (proj2 (Nat.eqb_neq k' k0) N). reflexivity.
    + destruct (k' =? k0)%nat; auto.
Qed.

Section Props.
  Variable C : Type.
  Variables hu hv hinv : C -> R -> R -> R.
  Variable copula : nat -> nat -> C.
  Variable enum : list nat -> list nat.
  Variable n : nat.
  Variable names : option (list string).
  Variable ts : list tree.
  Variable fit_marginals : bool.
  Variables cdf ppf : nat -> R -> R.
  Variable log_transform : nat -> bool.
  Variable u_bounds : nat -> nat -> R.
  Variable x_rand : nat -> nat -> R.

  Notation one := (init_one fit_marginals cdf log_transform u_bounds).
  Notation loop := (init_loop fit_marginals cdf log_transform u_bounds).
  Notation uni := (to_uniform fit_marginals cdf log_transform).
  Notation init := (init_conditioning n names fit_marginals cdf log_transform u_bounds).
  Notation smp := (sample C hu hv hinv copula enum n names ts fit_marginals cdf ppf log_transform
                     u_bounds x_rand).
  Notation row := (sample_row C hu hv hinv copula enum n ts fit_marginals ppf log_transform x_rand).
  Notation bk := (back fit_marginals ppf log_transform).

  Lemma one_ok : forall ns j var c, (exists r, one ns j var c = Ok r) <-> well_formed fit_marginals ns c.
  Proof.
    intros ns j var c. destruct c as [l|v| |nd l]; cbn [init_one well_formed].
    - destruct l as [|lo [|hi [|]]]; try (split; [intros (r & E); discriminate | intros []]).
      rewrite <- ext_ge_spec. destruct (ext_ge (or_inf NegInf lo) (or_inf PosInf hi)) eqn:E.
      + split; [intros (r & Er); discriminate | intros [? _]; discriminate].
      + split.
        * intros (r & Er). split; [reflexivity|]. intros Hf.
          unfold bound_uniform in Er. rewrite Hf in Er.
          destruct lo as [[|l|]|], hi as [[|h|]|]; cbn [or_inf] in *; try discriminate.
          exists l, h. auto.
        * intros [_ H]. unfold bound_uniform. destruct fit_marginals.
          -- destruct (or_inf NegInf lo), (or_inf PosInf hi); eexists; reflexivity.
          -- destruct (H eq_refl) as (l & h & -> & ->). cbn [or_inf]. eexists; reflexivity.
    - split; eauto.
    - split; [intros (r & E); discriminate | intros []].
    - destruct (Nat.eqb_spec nd 1) as [->|N1], (Nat.eqb_spec (List.length l) ns) as [->|N2];
        cbn [andb]; split; eauto; try (intros (r & E); discriminate); intros [? ?]; congruence.
  Qed.

  Lemma one_force : forall ns j var c cl u, one ns j var c = Ok (cl, u) ->
    forall s y clean, (s < ns)%nat -> dict_get clean var = Some cl ->
    satisfies c s (force clean s var y).
  Proof.
    intros ns j var c cl u H s y clean Hs Hg. unfold force. rewrite Hg.
    destruct c as [l|v| |nd l]; cbn [init_one] in H; try discriminate.
    - destruct l as [|lo [|hi [|]]]; try discriminate.
      destruct (ext_ge (or_inf NegInf lo) (or_inf PosInf hi)) eqn:E; [discriminate|].
      apply ext_ge_spec in E.
      destruct (bound_uniform fit_marginals cdf log_transform var (or_inf NegInf lo)), (bound_uniform fit_marginals cdf log_transform var (or_inf PosInf hi));
        try discriminate. injection H as <- _. cbn [satisfies].
      destruct (clip_above _ _ y E) as [A B].
      split; intros b Hb; subst; cbn [or_inf] in *; auto.
    - injection H as <- _. cbn [satisfies]. reflexivity.
    - destruct ((nd =? 1) && (List.length l =? ns))%nat eqn:E; [|discriminate].
      apply andb_true_iff in E as [_ E]. apply Nat.eqb_eq in E.
      injection H as <- _. cbn [satisfies]. apply nth_error_nth'. lia.
  Qed.

  Lemma loop_ok : forall ns vars values j clean unif, List.length vars = List.length values ->
    ((exists r, loop ns j vars values clean unif = Ok r)
     <-> (forall c, In c values -> well_formed fit_marginals ns c)).
  Proof.
    induction vars as [|v vars IH]; intros [|c values] j clean unif Hl; try discriminate;
      cbn [init_loop].
    - split; [intros _ c [] | eauto].
    - cbn [List.length] in Hl. injection Hl as Hl.
      destruct (one ns j v c) as [[cl u]|e] eqn:E.
      + rewrite IH by exact Hl.
        assert (Hc : well_formed fit_marginals ns c) by (apply (one_ok ns j v); eauto).
        split; intros H c' Hc'; [destruct Hc' as [<-|Hc']; auto | apply H; right; auto].
      + split; [intros (r & Er); discriminate|]. intros H.
        destruct (proj2 (one_ok ns j v c)) as (r & Er); [apply H; left; auto | congruence].
  Qed.

  Lemma loop_spec : forall ns vars values j clean unif clean' unif',
    NoDup vars -> List.length vars = List.length values ->
    loop ns j vars values clean unif = Ok (clean', unif') ->
    (forall k v c, nth_error vars k = Some v -> nth_error values k = Some c ->
       exists cl u, one ns (j + k) v c = Ok (cl, u)
         /\ dict_get clean' v = Some cl /\ dict_get unif' v = Some u)
    /\ (forall v, ~ In v vars -> dict_get clean' v = dict_get clean v
                                 /\ dict_get unif' v = dict_get unif v).
  Proof.
    induction vars as [|v vars IH]; intros [|c values] j clean unif clean' unif' Hnd Hl H;
      try discriminate; cbn [init_loop] in H.
    - injection H as <- <-. split; [intros [|k]; discriminate | auto].
    - apply NoDup_cons_iff in Hnd as [Hv Hnd]. cbn [List.length] in Hl. injection Hl as Hl.
      destruct (one ns j v c) as [[cl u]|e] eqn:E; [|discriminate].
      destruct (IH values (S j) _ _ _ _ Hnd Hl H) as [A B]. split.
      + intros [|k] v' c' H1 H2; cbn [nth_error] in *.
        * injection H1 as <-. injection H2 as <-. exists cl, u. rewrite Nat.add_0_r.
          destruct (B v Hv) as [B1 B2]. rewrite B1, B2, !get_set_same. auto.
        * destruct (A k v' c' H1 H2) as (cl' & u' & A1 & A2).
          exists cl', u'. split; [|exact A2]. rewrite <- A1. f_equal. lia.
      + intros v' Hv'. destruct (B v') as [B1 B2]; [intros ?; apply Hv'; right; auto|].
        rewrite B1, B2, !get_set_other by (intros ->; apply Hv'; left; auto). auto.
  Qed.

  (** Which conditionings are accepted. *)
  Theorem C50_accepted : forall n_samples conditioning,
    (exists r, smp n_samples (Some conditioning) = Ok r) <->
    (exists vars, validate_input_list (map fst conditioning) n names true = Ok vars)
    /\ (List.length conditioning < n)%nat
    /\ (forall c, In c (map snd conditioning) -> well_formed fit_marginals n_samples c).
  Proof.
    intros ns d. cbn [sample]. unfold init_conditioning.
    destruct (validate_input_list (map fst d) n names true) as [vars|e] eqn:E.
    - assert (Hl : List.length vars = List.length d).
      { apply C51_items in E as [_ E]. apply Forall2_length in E. rewrite map_length in E. auto. }
      destruct (Nat.leb_spec n (List.length vars)) as [L|L].
      + split; [intros (r & Er); discriminate | intros (_ & H & _); lia].
      + assert (H := loop_ok ns vars (map snd d) 0 [] [] ltac:(rewrite map_length; exact Hl)).
        destruct (loop ns 0 vars (map snd d) [] []) as [[cl u]|e] eqn:El.
        * split; [intros _ | eauto]. split; [eauto|]. split; [lia|]. apply H. eauto.
        * split; [intros (r & Er); discriminate|]. intros (_ & _ & Hw).
          apply H in Hw as (r & Er). discriminate.
    - split; [intros (r & Er); discriminate | intros ((vars & Ev) & _); discriminate].
  Qed.

  (** Every sample satisfies every condition, for any model. *)
  Theorem C50_conditions : forall n_samples conditioning rows s values,
    one_kind (map fst conditioning) ->
    smp n_samples (Some conditioning) = Ok rows -> (s < n_samples)%nat -> rows s = Some values ->
    forall key c var x, In (key, c) conditioning -> designates names n key var ->
      values var = Some x -> satisfies c s x.
  Proof.
    intros ns d rows s values Hk H Hs Hrow key c var x Hin Hdes Hx.
    cbn [sample] in H. unfold init_conditioning in H.
    destruct (validate_input_list (map fst d) n names true) as [vars|e] eqn:E; [|discriminate].
    destruct (n <=? List.length vars)%nat; [discriminate|].
    destruct (loop ns 0 vars (map snd d) [] []) as [[clean unif]|e] eqn:El; [|discriminate].
    injection H as <-.
    destruct (C51_distinct _ _ _ _ E Hk) as [Hnd _].
    apply C51_items in E as [Hnk E].
    assert (Hl : List.length vars = List.length (map snd d)).
    { apply Forall2_length in E. rewrite map_length in *. auto. }
    apply In_nth_error in Hin as (k & Hk').
    assert (Hv : nth_error vars k = Some var).
    { assert (Hkey : nth_error (map fst d) k = Some key) by (rewrite nth_error_map, Hk'; reflexivity).
      clear - E Hkey Hdes. revert k Hkey. induction E as [|a i l r Hd HF IH]; intros k Hkey.
      - destruct k; discriminate.
      - destruct k as [|k]; cbn [nth_error] in *; [|auto]. injection Hkey as ->. f_equal.
        destruct key as [z|nm]; cbn in Hd, Hdes.
        + lia.
        + destruct Hd as (n1 & E1 & A1 & B1), Hdes as (n2 & E2 & A2 & B2).
          assert (n1 = n2) by congruence. subst n2.
          destruct (Nat.lt_trichotomy i var) as [L|[L|L]]; [|exact L|];
            exfalso; [eapply B2 | eapply B1]; eauto. }
    assert (Hc : nth_error (map snd d) k = Some c) by (rewrite nth_error_map, Hk'; reflexivity).
    destruct (loop_spec ns vars (map snd d) 0 [] [] clean unif Hnd Hl El) as [A _].
    destruct (A k var c Hv Hc) as (cl & u & A1 & A2 & _).
    unfold sample_row in Hrow. destruct (sampling_order _ _ _ _); [|discriminate].
    destruct (propagate _ _ _ _ _ _ _ _ _ _ _ _ _); [|discriminate].
    injection Hrow as <-. cbv beta in Hx. destruct (roots R s0 var); [|discriminate].
    cbn [option_map] in Hx. injection Hx as <-. eapply one_force; eauto.
  Qed.

  Hypothesis inv_ok : inverts R C hu hinv (fun x => 0 < x < 1).
  Hypothesis exch : exchangeable R C hu hv.
  Hypothesis enum_ok : enumerates enum.
  Hypothesis Hreg : regular n ts.
  Hypothesis Hne : ts <> [].
  Hypothesis Hdepth : (List.length ts < n)%nat.

  (** On the uniform scale: what a condition says of its asset. *)
  Definition uniform_of (ns j s var : nat) (c : cond_value) (u : R) : Prop :=
    match c with
    | Tuple [lo; hi] =>
        exists a b, u = a + (b - a) * u_bounds j s
          /\ match or_inf NegInf lo with Fin l => a = uni var l | _ => a = 0 end
          /\ match or_inf PosInf hi with Fin h => b = uni var h | _ => b = 1 end
    | Number v => u = uni var v
    | ArrayLike _ l => exists v, nth_error l s = Some v /\ u = uni var v
    | _ => False
    end.

  Lemma one_uniform : forall ns j var c cl u s, one ns j var c = Ok (cl, u) -> (s < ns)%nat ->
    uniform_of ns j s var c (u s).
  Proof.
    intros ns j var c cl u s H Hs.
    destruct c as [l|v| |nd l]; cbn [init_one] in H; try discriminate.
    - destruct l as [|lo [|hi [|]]]; try discriminate.
      destruct (ext_ge (or_inf NegInf lo) (or_inf PosInf hi)) eqn:E; [discriminate|].
      apply ext_ge_spec in E.
      destruct (bound_uniform fit_marginals cdf log_transform var (or_inf NegInf lo)) as [a|] eqn:Ea; [|discriminate].
      destruct (bound_uniform fit_marginals cdf log_transform var (or_inf PosInf hi)) as [b|] eqn:Eb; [|discriminate].
      injection H as _ <-. cbn [uniform_of]. exists a, b. split; [reflexivity|].
      unfold bound_uniform in Ea, Eb.
      destruct (or_inf NegInf lo) eqn:El, (or_inf PosInf hi) eqn:Eh; cbn [ext_lt] in E; try tauto;
        destruct fit_marginals; try discriminate; split; congruence.
    - injection H as _ <-. reflexivity.
    - destruct ((nd =? 1) && (List.length l =? ns))%nat eqn:E; [|discriminate].
      apply andb_true_iff in E as [_ E]. apply Nat.eqb_eq in E.
      injection H as _ <-. cbn [uniform_of]. exists (nth s l 0). split; [|reflexivity].
      apply nth_error_nth'. lia.
  Qed.

  Lemma clip_unit_range : forall x, 0 < clip_unit x < 1.
  Proof.
    intros x. unfold clip_unit, eps, Rmin, Rmax.
    destruct (Rle_dec (1 / 100000000000000) x); destruct (Rle_dec (1 - 1 / 100000000000000) _); lra.
  Qed.

  Lemma nodup_range : forall l, NoDup l -> (forall v, In v l -> (v < n)%nat) ->
    (List.length (filter (fun v => negb (mem v l)) (seq 0 n)) = n - List.length l)%nat.
  Proof.
    intros l Hnd Hr.
    assert (H : forall (m : list nat), NoDup m ->
              (List.length (filter (fun v => mem v l) m)
               + List.length (filter (fun v => negb (mem v l)) m) = List.length m)%nat).
    { induction m as [|x m IH]; intros Hm; cbn [filter List.length]; [reflexivity|].
      apply NoDup_cons_iff in Hm as [_ Hm]. specialize (IH Hm).
      destruct (mem x l); cbn [negb List.length]; lia. }
    specialize (H (seq 0 n) (seq_NoDup n 0)). rewrite seq_length in H.
    assert (P : Permutation (filter (fun v => mem v l) (seq 0 n)) l).
    { apply NoDup_Permutation; [apply NoDup_filter, seq_NoDup | exact Hnd|].
      intros x. rewrite filter_In, in_seq, mem_In. split; [tauto|].
      intros Hx. specialize (Hr x Hx). split; [lia | auto]. }
    apply Permutation_length in P. lia.
  Qed.

  (** The sample is the model's: on the uniform scale the row is the unique point
      whose model values are the drawn uniforms, where a conditioned asset has the
      uniform of its condition (up to the 1e-14 clipping); an asset that is not
      conditioned has the back-transformed value. *)
  Theorem C50_law : forall n_samples conditioning,
    one_kind (map fst conditioning) ->
    (forall s, names = Some s -> List.length s = n) ->
    (exists vars, validate_input_list (map fst conditioning) n names true = Ok vars) ->
    (List.length conditioning < n)%nat ->
    (forall c, In c (map snd conditioning) -> well_formed fit_marginals n_samples c) ->
    exists vars rows order,
      validate_input_list (map fst conditioning) n names true = Ok vars
      /\ smp n_samples (Some conditioning) = Ok rows
      /\ sampling_order enum vars n ts = Some order
      /\ forall s, (s < n_samples)%nat -> exists values x given,
           rows s = Some values
           /\ map (entry_value R C hu hv copula ts x) order
              = map clip_unit (uniforms R vars given (map (entry_var enum ts) order)
                                 (map (fun i => x_rand i s) (seq 0 (n - List.length vars))))
           /\ (forall r, (r < n)%nat -> 0 < x r < 1)
           /\ (forall j var c, nth_error vars j = Some var ->
                 nth_error (map snd conditioning) j = Some c ->
                 uniform_of n_samples j s var c (given var) /\ x var = clip_unit (given var))
           /\ (forall r, (r < n)%nat -> ~ In r vars -> values r = Some (bk r (clip_unit (x r))))
           /\ (forall j var c, nth_error vars j = Some var ->
                 nth_error (map snd conditioning) j = Some c ->
                 exists y, values var = Some y /\ satisfies c s y
                   /\ (satisfies c s (bk var (clip_unit (x var))) ->
                       y = bk var (clip_unit (x var)))).
  Proof.
    intros ns d Hk Hnames (vars & E) Hlt Hw.
    destruct (proj2 (C50_accepted ns d)) as (rows & Hrows); [eauto|].
    assert (Hnd : NoDup vars) by (apply (C51_distinct _ _ _ _ E Hk)).
    assert (E' := E). apply C51_items in E' as [Hnk E'].
    assert (Hl : List.length vars = List.length (map snd d)).
    { apply Forall2_length in E'. rewrite map_length in *. auto. }
    assert (Hrange : forall v, In v vars -> (v < n)%nat).
    { intros v Hv. clear - E' Hv Hnames. revert Hv.
      induction E' as [|a i l r Hd HF IH]; intros Hv; [destruct Hv|].
      destruct Hv as [<-|Hv]; [|auto]. destruct a; cbn in Hd; [tauto|].
      destruct Hd as (m & Em & Hd & _). rewrite <- (Hnames m Em). apply nth_error_Some. congruence. }
    cbn [sample] in Hrows. unfold init_conditioning in Hrows. rewrite E in Hrows.
    destruct (n <=? List.length vars)%nat; [discriminate|].
    destruct (loop ns 0 vars (map snd d) [] []) as [[clean unif]|e] eqn:El; [|discriminate].
    rewrite (nodup_fixed_point Nat.eq_dec Hnd) in Hrows. injection Hrows as <-.
    destruct (loop_spec ns vars (map snd d) 0 [] [] clean unif Hnd Hl El) as [A B].
    destruct (C48_order enum enum_ok vars n ts Hreg Hne Hdepth) as (order & Hord & _).
    exists vars, (row vars clean unif), order.
    split; [exact E|]. split.
    { cbn [sample]. unfold init_conditioning. rewrite E.
      destruct (Nat.leb_spec n (List.length vars)) as [L|L]; [rewrite Hl, map_length in L; lia|].
      rewrite El, (nodup_fixed_point Nat.eq_dec Hnd). reflexivity. }
    split; [exact Hord|]. intros s Hs.
    set (given := fun var => match dict_get unif var with Some u => u s | None => 0 end).
    set (rand := map (fun i => x_rand i s) (seq 0 (n - List.length vars))).
    destruct (C48_sampling R C hu hv hinv copula (fun x => 0 < x < 1) enum clip_unit n ts vars
                given rand inv_ok exch enum_ok Hreg Hne Hdepth clip_unit_range)
      as (order' & st & x & H1 & H2 & H3 & H4 & H5 & _).
    { unfold rand. rewrite map_length, seq_length, nodup_range by auto. lia. }
    rewrite Hord in H1. injection H1 as <-.
    exists (fun var => option_map (fun y => force clean s var (bk var (clip_unit y))) (roots R st var)),
      x, given.
    split; [unfold sample_row; rewrite Hord; fold given; fold rand; rewrite H2; reflexivity|].
    split; [exact H4|]. split; [intros r Hr; apply H3; auto|].
    assert (Hin : forall j var, nth_error vars j = Some var -> In var vars)
      by (intros j var Hv; eapply nth_error_In; eauto).
    split; [|split].
    - intros j var c Hv Hc. destruct (A j var c Hv Hc) as (cl & u & A1 & A2 & A3).
      cbn [Nat.add] in A1. split; [|apply H5; eauto].
      unfold given. rewrite A3. eapply one_uniform; eauto.
    - intros r Hr Hnr. destruct (H3 r Hr) as [-> _]. cbn [option_map]. f_equal.
      unfold force. destruct (B r Hnr) as [-> _]. reflexivity.
    - intros j var c Hv Hc. destruct (A j var c Hv Hc) as (cl & u & A1 & A2 & A3).
      destruct (H3 var (Hrange var (Hin j var Hv))) as [-> _]. cbn [option_map].
      eexists. split; [reflexivity|]. split; [eapply one_force; eauto|].
      intros Hsat. unfold force. rewrite A2.
      destruct c as [l|v| |nd l]; cbn [init_one] in A1; try discriminate.
      + destruct l as [|lo [|hi [|]]]; try discriminate.
        destruct (ext_ge (or_inf NegInf lo) (or_inf PosInf hi)) eqn:Eg; [discriminate|].
        apply ext_ge_spec in Eg.
        destruct (bound_uniform fit_marginals cdf log_transform var (or_inf NegInf lo)), (bound_uniform fit_marginals cdf log_transform var (or_inf PosInf hi));
          try discriminate. injection A1 as <- _. cbn [satisfies] in Hsat.
        destruct Hsat as [S1 S2]. set (y := bk var (clip_unit (x var))) in *.
        assert (S1' : above (or_inf NegInf lo) y) by (destruct lo; cbn [or_inf above]; auto).
        assert (S2' : below (or_inf PosInf hi) y) by (destruct hi; cbn [or_inf below]; auto).
        destruct (or_inf NegInf lo), (or_inf PosInf hi); cbn [clip_ext above below] in *;
          try tauto; rewrite ?Rmax_right by lra; rewrite ?Rmin_right by lra; reflexivity.
      + injection A1 as <- _. cbn [satisfies] in Hsat. auto.
      + destruct ((nd =? 1) && (List.length l =? ns))%nat; [|discriminate].
        injection A1 as <- _. cbn [satisfies] in Hsat. apply nth_error_nth. exact Hsat.
  Qed.
End Props.
Print Assumptions C50_accepted.
Print Assumptions C50_conditions.
Print Assumptions C50_law.

(** When the marginal is invertible, the uniform of a fixed value is not clipped and
    (with the log transform) the value is below the Box-Cox threshold, the sample has
    the value before it is forced: the other assets are drawn given exactly it. *)
Theorem C50_exact_value : forall fit_marginals cdf ppf log_transform var v,
  (fit_marginals = true -> forall y, ppf var (cdf var y) = y) ->
  eps <= to_uniform fit_marginals cdf log_transform var v <= 1 - eps ->
  (log_transform var = true -> -1 < v <= 2) ->
  back fit_marginals ppf log_transform var
    (clip_unit (clip_unit (to_uniform fit_marginals cdf log_transform var v))) = v.
Proof.
  intros fm cdf ppf lt var v Hinv Hu Hl.
  assert (Hc : clip_unit (to_uniform fm cdf lt var v) = to_uniform fm cdf lt var v).
  { unfold clip_unit. rewrite Rmax_right by lra. rewrite Rmin_right by lra. reflexivity. }
  rewrite !Hc. unfold back, to_uniform.
  assert (E : (if fm then ppf var (if fm then cdf var (if lt var then log1p v else v)
                                   else if lt var then log1p v else v)
               else if fm then cdf var (if lt var then log1p v else v)
                    else if lt var then log1p v else v)
              = if lt var then log1p v else v).
  { destruct fm; [apply Hinv; reflexivity | reflexivity]. }
  rewrite E. destruct (lt var); [|reflexivity]. specialize (Hl eq_refl).
  unfold log1p. destruct (Rle_dec (ln (1 + v)) (ln 3)) as [L|L].
  - rewrite exp_ln by lra. ring.
  - exfalso. apply L. destruct (Req_dec v 2) as [->|N].
    + right. f_equal; ring.
    + left. apply ln_increasing; lra.
Qed.
Print Assumptions C50_exact_value.

(** The back transform of an asset: the marginal quantile, and with the log transform
    the return whose log is that quantile up to log 3, then a straight line which
    continues it (a return above 2 grows as its logarithm did). *)
Theorem C50_back : forall (fit_marginals : bool) (ppf : nat -> R -> R) (log_transform : nat -> bool) var u,
  let y := if fit_marginals then ppf var u else u in
  let r := back fit_marginals ppf log_transform var u in
  (log_transform var = false -> r = y)
  /\ (log_transform var = true -> y <= ln 3 -> -1 < r <= 2 /\ ln (1 + r) = y)
  /\ (log_transform var = true -> ln 3 <= y -> r = 2 + (y - ln 3)).
Proof.
  intros fm ppf lt var u y r. unfold r, back. fold y.
  assert (E3 : exp (ln 3) = 3) by (apply exp_ln; lra).
  split; [intros ->; reflexivity|]. split; intros -> Hy.
  - destruct (Rle_dec y (ln 3)) as [L|L]; [|contradiction].
    assert (0 < exp y) by apply exp_pos.
    assert (exp y <= 3).
    { rewrite <- E3. destruct L as [L | ->]; [left; apply exp_increasing; auto | right; reflexivity]. }
    split; [lra|]. replace (1 + (exp y - 1)) with (exp y) by ring. apply ln_exp.
  - destruct (Rle_dec y (ln 3)) as [L|L]; [|rewrite E3; ring].
    replace y with (ln 3) by lra. rewrite E3. ring.
Qed.
Print Assumptions C50_back.
Example C50_back_applies : back true (fun _ u => u) (fun _ => true) 0%nat (ln 2) = 1.
Proof.
  destruct (C50_back true (fun _ u => u) (fun _ => true) 0 (ln 2)) as (_ & H & _).
  assert (ln 2 < ln 3) by (apply ln_increasing; lra).
  destruct (H eq_refl ltac:(lra)) as [H1 H2]. apply ln_inv in H2; lra.
Qed.

(** With the log transform, bounds above the Box-Cox threshold collapse: asking for a
    return between 3 and 4 gives exactly 3 in every sample, wherever the uniform was
    drawn in the interval. *)
Theorem C50_box_cox_refuted : forall ppf (log_transform : nat -> bool) var u clean s,
  log_transform var = true -> dict_get clean var = Some (Bounds (Fin 3) (Fin 4)) ->
  log1p 3 <= ppf var u <= log1p 4 ->
  force clean s var (back true ppf log_transform var u) = 3.
Proof.
  intros ppf lt var u clean s Hl Hc Hu. unfold force. rewrite Hc. unfold back. rewrite Hl.
  unfold log1p in Hu. replace (1 + 3) with 4 in Hu by ring. replace (1 + 4) with 5 in Hu by ring.
  assert (L1 : ln 3 < ln 4) by (apply ln_increasing; lra).
  assert (L2 : ln 5 - ln 3 < 1).
  { unfold Rminus. rewrite <- ln_Rinv by lra. rewrite <- ln_mult by lra.
    rewrite <- ln_exp. apply ln_increasing; [lra|].
    assert (H := exp_ineq1 1 ltac:(lra)). lra. }
  destruct (Rle_dec (ppf var u) (ln 3)); [lra|]. rewrite exp_ln by lra.
  cbn [clip_ext]. rewrite Rmax_left by lra. rewrite Rmin_right by lra. reflexivity.
Qed.
Print Assumptions C50_box_cox_refuted.

(** An index and a name of the same asset: the first condition is dropped. *)
Theorem C50_mixed_keys_refuted : forall cdf u_bounds,
  exists unif,
    init_conditioning 3 (Some ["A"; "B"; "C"]%string) true cdf (fun _ => false) u_bounds 1
      [(Idx 0, Number (1 / 2)); (Name "A", Number (1 / 4))]
    = Ok ([0%nat], ([(0%nat, Value (1 / 4))], unif)).
Proof. intros. eexists. reflexivity. Qed.
Print Assumptions C50_mixed_keys_refuted.

(** The hypotheses are met: three assets and independent pairs (a vine is given in
    VineCopulaProps.v),
    the first asset conditioned on a value, the third on bounds. *)
Example C50_applies :
  let d := [(Name "A", Number (1 / 4)); (Name "C", Tuple [None; Some (Fin (1 / 2))])] in
  (exists vars, validate_input_list (map fst d) 3 (Some ["A"; "B"; "C"]%string) true = Ok vars)
  /\ one_kind (map fst d)
  /\ (forall c, In c (map snd d) -> well_formed true 2 c)
  /\ inverts R unit (fun _ x _ => x) (fun _ p _ => p) (fun x => 0 < x < 1)
  /\ exchangeable R unit (fun _ x _ => x) (fun _ _ y => y).
Proof.
  intros d. split; [eexists; reflexivity|]. split.
  { right. intros it Hit. cbn in Hit. destruct Hit as [<-|[<-|[]]]; eauto. }
  split.
  { intros c Hc. cbn in Hc. destruct Hc as [<-|[<-|[]]]; cbn; auto. split; auto. discriminate. }
  split; [intros c p y Hp Hy; auto | intros c x y; reflexivity].
Qed.
