(** C51 (parameters given by name), C52 (deduplicated names), C53 (cached methods)
    and C54 (commutation matrix). *)
Require Import String Ascii List Arith ZArith Bool QArith Lia DecimalString Decimal DecimalNat.
From Verif Require Import ToolsModel.
Import ListNotations.
Open Scope string_scope.

(** * Specification *)

(** What the dictionary says about an asset. *)
Definition says {A} (d : list (string * A)) (k : string) (x : A) : Prop := In (k, x) d.
Definition silent {A} (d : list (string * A)) (k : string) : Prop :=
  forall x, ~ In (k, x) d.

(** Keys of a Python dictionary are distinct. *)
Definition dict_ok {A} (d : list (string * A)) : Prop := NoDup (map fst d).

(** The position an item designates. *)
Definition designates (names : option (list string)) (n : nat) (it : item) (i : nat) : Prop :=
  match it with
  | Idx z => z = Z.of_nat i /\ (i < n)%nat
  | Name s => exists ns, names = Some ns /\ nth_error ns i = Some s
                /\ forall j, (j < i)%nat -> nth_error ns j <> Some s
  end.

(** Occurrences of a name. *)
Definition occurrences (l : list string) (c : string) : nat := count_occ string_dec l c.

(** Column-stacked entries: entry [(i, j)] of an m x n matrix is at [i + j * m]. *)
Definition vec (m : nat) (A : nat -> nat -> Z) (p : nat) : Z := A (p mod m)%nat (p / m)%nat.
Fixpoint zsum (f : nat -> Z) (n : nat) : Z :=
  match n with O => 0%Z | S n' => (zsum f n' + f n')%Z end.

(** * Dictionaries *)

Lemma nth_error_ext : forall A (l l' : list A),
  (forall i, nth_error l i = nth_error l' i) -> l = l'.
Proof.
  induction l as [|x l IH]; intros [|y l'] H; auto; try (specialize (H 0%nat); discriminate).
  f_equal; [specialize (H 0%nat); cbn in H; congruence|]. apply IH. intros i. apply (H (S i)).
Qed.

Lemma get_says : forall A (d : list (string * A)) k x, dict_ok d ->
  (get d k = Some x <-> says d k x).
Proof.
  unfold dict_ok, says. induction d as [|[k' y] d IH]; intros k x Hd; cbn [get map fst] in *.
  - split; [discriminate | intros []].
  - apply NoDup_cons_iff in Hd as [Hn Hd]. destruct (String.eqb_spec k k') as [->|N].
    + split; [intros E; injection E as ->; left; reflexivity|].
      intros [E|Hin]; [congruence|]. exfalso. apply Hn. apply in_map_iff. exists (k', x). auto.
    + rewrite IH by auto. split; [right; auto|]. intros [E|Hin]; [congruence | auto].
Qed.
Lemma get_silent : forall A (d : list (string * A)) k,
  get d k = None <-> silent d k.
Proof.
  unfold silent. induction d as [|[k' y] d IH]; intros k; cbn [get].
  - split; [intros _ x [] | reflexivity].
  - destruct (String.eqb_spec k k') as [->|N].
    + split; [discriminate|]. intros H. exfalso. apply (H y). left; auto.
    + rewrite IH. split; intros H x; [intros [E|E]; [congruence | eapply H; eauto] |].
      intros Hin. apply (H x). right; auto.
Qed.

Lemma scalars_spec : forall l r, scalars l = Some r <-> l = map Scalar r.
Proof.
  induction l as [|[v|e] l IH]; intros r; cbn [scalars].
  - destruct r; split; cbn; congruence.
  - destruct (scalars l) as [r'|] eqn:E; cbn [option_map].
    + split.
      * intros H. injection H as <-. cbn [map]. f_equal. apply IH; reflexivity.
      * destruct r; cbn [map]; intros H; [discriminate|]. injection H as -> H.
        apply IH in H. congruence.
    + split; [discriminate|]. destruct r; cbn [map]; intros H; [discriminate|].
      injection H as -> H. apply IH in H. discriminate.
  - split; [discriminate|]. destruct r; discriminate.
Qed.

(** * C51 *)

(** A dictionary of values per asset: position by position the value the dictionary
    gives to the asset, or the fill value; nothing else is accepted. *)
Theorem C51_by_name : forall d n_assets fill names a,
  dict_ok d -> is_number fill = true ->
  (input_to_array (Dict d) n_assets fill 1 (Some names) = Ok a <->
   shape a = [n_assets] /\ List.length names = n_assets
   /\ List.length (data a) = n_assets
   /\ (forall i s, nth_error names i = Some s -> exists q,
         nth_error (data a) i = Some (Num q)
         /\ (says d s (Scalar (Num q)) \/ silent d s /\ fill = Num q))).
Proof.
  intros d n fill names a Hd Hf.
  unfold input_to_array. cbn [Nat.eqb orb negb].
  set (f := fun s => match get d s with Some x => x | None => Scalar fill end).
  assert (Hfs : is_str fill = false) by (destruct fill; auto; discriminate).
  destruct (scalars (map f names)) as [l|] eqn:E.
  - apply scalars_spec in E. cbn [shape List.length Nat.eqb negb].
    rewrite Hfs. unfold isnan_any. cbn [data last shape].
    assert (Hlen : List.length l = List.length names)
      by (rewrite <- (map_length Scalar l), <- E, map_length; reflexivity).
    assert (Hnth : forall i s, nth_error names i = Some s -> exists v,
              nth_error l i = Some v /\ f s = Scalar v).
    { intros i s Hs. apply (f_equal (fun z => nth_error z i)) in E.
      rewrite !nth_error_map, Hs in E. cbn [option_map] in E.
      destruct (nth_error l i) as [v|]; [|discriminate]. exists v.
      injection E as E. auto. }
    split.
    + destruct (forallb is_number l) eqn:F1; [|discriminate].
      destruct (existsb is_nan l) eqn:F2; [discriminate|].
      destruct (Nat.eqb_spec (List.length l) n) as [Hn|]; [|discriminate]. cbn [negb].
      intros H. injection H as <-. cbn [shape data].
      split; [congruence|]. split; [congruence|]. split; [exact Hn|].
      intros i s Hs. destruct (Hnth i s Hs) as (v & Hv & Hfv).
      assert (Hin : In v l) by (eapply nth_error_In; eauto).
      rewrite forallb_forall in F1. specialize (F1 v Hin).
      assert (F2' : is_nan v = false).
      { destruct (is_nan v) eqn:X; auto. exfalso.
        assert (existsb is_nan l = true) by (apply existsb_exists; eauto). congruence. }
      destruct v as [q| | |]; try discriminate. exists q. split; [exact Hv|].
      unfold f in Hfv. destruct (get d s) as [x|] eqn:G.
      * left. apply get_says in G; auto. rewrite <- Hfv. exact G.
      * right. split; [apply get_silent; auto | congruence].
    + intros (H1 & H2 & H3 & H4).
      assert (El : l = data a).
      { apply nth_error_ext. intros i.
        destruct (nth_error names i) as [s|] eqn:Hs.
        - destruct (Hnth i s Hs) as (v & Hv & Hfv). destruct (H4 i s Hs) as (q & Hq & Hq').
          rewrite Hv, Hq. f_equal. unfold f in Hfv. destruct Hq' as [Hq'|[Hq' Hq'']].
          + apply get_says in Hq'; auto. rewrite Hq' in Hfv. congruence.
          + apply get_silent in Hq'. rewrite Hq' in Hfv. congruence.
        - apply nth_error_None in Hs. rewrite (proj2 (nth_error_None l i)) by lia.
          symmetry. apply nth_error_None. lia. }
      assert (Hall : forall v, In v l -> exists q, v = Num q).
      { intros v Hin. apply In_nth_error in Hin as (i & Hi).
        assert (Hi' : (i < List.length l)%nat) by (apply nth_error_Some; congruence).
        destruct (nth_error names i) as [s|] eqn:Hs.
        - destruct (H4 i s Hs) as (q & Hq & _). rewrite <- El, Hi in Hq. exists q. congruence.
        - apply nth_error_None in Hs. lia. }
      assert (F1 : forallb is_number l = true).
      { apply forallb_forall. intros v Hv. destruct (Hall v Hv) as (q & ->). reflexivity. }
      assert (F2 : existsb is_nan l = false).
      { destruct (existsb is_nan l) eqn:X; auto. apply existsb_exists in X as (v & Hv & Hn).
        destruct (Hall v Hv) as (q & ->). discriminate. }
      rewrite F1, F2. assert (Hn : List.length l = n) by congruence.
      rewrite Hn, Nat.eqb_refl. cbn [negb]. f_equal. destruct a as [sh da].
      cbn [shape data] in *. congruence.
  - split; [discriminate|]. intros (H1 & H2 & H3 & H4). exfalso.
    assert (Ex : map f names = map Scalar (data a)).
    { apply nth_error_ext. intros i. rewrite !nth_error_map.
      destruct (nth_error names i) as [s|] eqn:Hs.
      - destruct (H4 i s Hs) as (q & Hq & Hq'). rewrite Hq. cbn [option_map]. f_equal.
        unfold f. destruct Hq' as [Hq'|[Hq' Hq'']].
        + apply get_says in Hq'; auto. rewrite Hq'. reflexivity.
        + apply get_silent in Hq'. rewrite Hq'. congruence.
      - apply nth_error_None in Hs. rewrite (proj2 (nth_error_None (data a) i)) by lia. reflexivity. }
    apply scalars_spec in Ex. congruence.
Qed.
Print Assumptions C51_by_name.

(** The order of the dictionary does not matter. *)
Theorem C51_order_free : forall d d' n fill dim names,
  dict_ok d -> dict_ok d' -> (forall k x, says d k x <-> says d' k x) ->
  input_to_array (Dict d) n fill dim names = input_to_array (Dict d') n fill dim names.
Proof.
  intros d d' n fill dim names Hd Hd' H.
  assert (G : forall k, get d k = get d' k).
  { intros k. destruct (get d k) as [x|] eqn:E.
    - symmetry. apply get_says; auto. apply H, get_says; auto.
    - symmetry. apply get_silent. apply get_silent in E. intros x Hx. apply (E x), H, Hx. }
  unfold input_to_array. destruct (negb _); [reflexivity|]. destruct names as [ns|]; [|reflexivity].
  assert (E1 : map (fun a => match get d a with Some x => x | None => Scalar fill end) ns
               = map (fun a => match get d' a with Some x => x | None => Scalar fill end) ns)
    by (apply map_ext; intros a; rewrite G; reflexivity).
  assert (E2 : map (row_of d) ns = map (row_of d') ns)
    by (apply map_ext; intros a; unfold row_of; rewrite G; reflexivity).
  rewrite E1, E2. reflexivity.
Qed.
Print Assumptions C51_order_free.

(** Arrays pass unchanged, and only those of the right shape without NaN. *)
Theorem C51_array : forall a n fill dim names r,
  (input_to_array (Array a) n fill dim names = Ok r <->
   (dim = 1 \/ dim = 2)%nat /\ r = a /\ List.length (shape a) = dim
   /\ last (shape a) 0%nat = n
   /\ (is_str fill = false -> forall v, In v (data a) -> exists q, v = Num q)).
Proof.
  intros a n fill dim names r. unfold input_to_array.
  destruct (negb ((dim =? 1) || (dim =? 2))%nat) eqn:Hdim.
  { apply negb_true_iff, orb_false_iff in Hdim. rewrite !Nat.eqb_neq in Hdim.
    split; [discriminate | intros ([?|?] & _); lia]. }
  assert (D : (dim = 1 \/ dim = 2)%nat).
  { apply negb_false_iff, orb_true_iff in Hdim. rewrite !Nat.eqb_eq in Hdim. exact Hdim. }
  clear Hdim.
  destruct (Nat.eqb_spec (List.length (shape a)) dim) as [Hs|Hs]; cbn [negb];
    [|split; [discriminate | tauto]].
  unfold isnan_any. destruct (is_str fill) eqn:Hf.
  - destruct (Nat.eqb_spec (last (shape a) 0%nat) n) as [Hn|Hn]; cbn [negb].
    + split; [intros H; injection H as <-; repeat split; auto; discriminate
             | intros (_ & -> & _); reflexivity].
    + split; [discriminate | tauto].
  - destruct (forallb is_number (data a)) eqn:F1.
    + destruct (existsb is_nan (data a)) eqn:F2.
      * split; [discriminate|]. intros (_ & _ & _ & _ & H).
        apply existsb_exists in F2 as (v & Hv & Hv').
        destruct (H eq_refl v Hv) as (q & ->). discriminate.
      * destruct (Nat.eqb_spec (last (shape a) 0%nat) n) as [Hn|Hn]; cbn [negb];
          [|split; [discriminate | tauto]].
        split; [|intros (_ & -> & _); reflexivity].
        intros H; injection H as <-. repeat split; auto.
        intros _ v Hv; rewrite forallb_forall in F1; specialize (F1 v Hv).
        destruct v as [q| | |]; try discriminate; [exists q; reflexivity|].
        assert (existsb is_nan (data a) = true) by (apply existsb_exists; exists NaN; auto).
        congruence.
    + split; [discriminate|]. intros (_ & _ & _ & _ & H).
      assert (forallb is_number (data a) = true); [|congruence].
      apply forallb_forall; intros v Hv; destruct (H eq_refl v Hv) as (q & ->); reflexivity.
Qed.
Print Assumptions C51_array.

(** Groups: the first row holds the asset names, the next rows the groups the
    dictionary gives to each asset, None where it gives fewer. *)
Lemma widest_le : forall rows r, In r rows -> (List.length r <= widest rows)%nat.
Proof.
  induction rows as [|r0 rows IH]; intros r H; [destruct H|]. cbn [widest fold_right].
  destruct H as [->|H]; [lia|]. specialize (IH r H). unfold widest in IH. lia.
Qed.
Lemma nth_flat : forall A B (f : nat -> A -> B) (rows : list A) d n g i,
  (g < n)%nat -> (i < List.length rows)%nat ->
  nth (g * List.length rows + i) (flat_map (fun g => map (f g) rows) (seq 0 n)) d
  = nth i (map (f g) rows) d.
Proof.
  intros A B f rows d n. enough (H : forall m g s i, (g < m)%nat -> (i < List.length rows)%nat ->
    nth (g * List.length rows + i) (flat_map (fun g => map (f g) rows) (seq s m)) d
    = nth i (map (f (s + g)%nat) rows) d).
  { intros g i Hg Hi. rewrite (H n g 0%nat i Hg Hi). reflexivity. }
  induction m as [|m IH]; intros g s i Hg Hi; [lia|]. cbn [seq flat_map].
  destruct g as [|g].
  - rewrite app_nth1 by (rewrite map_length; lia). rewrite Nat.add_0_r. reflexivity.
  - rewrite app_nth2 by (rewrite map_length; lia). rewrite map_length.
    replace (S g * List.length rows + i - List.length rows)%nat
      with (g * List.length rows + i)%nat by lia.
    rewrite IH by lia. replace (S s + g)%nat with (s + S g)%nat by lia. reflexivity.
Qed.

Definition groups_of (x : dval) (gs : list val) : Prop :=
  match x with
  | Scalar PyNone => gs = []
  | Scalar v => gs = [v]
  | Elems l => gs = l
  end.

Theorem C51_groups : forall d n names fill,
  dict_ok d -> is_str fill = true -> names <> [] ->
  (List.length names <> n /\ input_to_array (Dict d) n fill 2 (Some names) = Err ValueError)
  \/ (List.length names = n /\ exists a w,
        input_to_array (Dict d) n fill 2 (Some names) = Ok a /\ shape a = [w; n] /\ (1 <= w)%nat
        /\ forall i s, nth_error names i = Some s ->
             nth i (data a) PyNone = Str s
             /\ (silent d s -> forall g, (1 <= g < w)%nat -> nth (g * n + i) (data a) PyNone = PyNone)
             /\ (forall x gs, says d s x -> groups_of x gs -> (List.length gs < w)%nat
                  /\ forall g, (1 <= g < w)%nat ->
                       nth (g * n + i) (data a) PyNone = nth (g - 1) gs PyNone)).
Proof.
  intros d n names fill Hd Hf Hne. unfold input_to_array. cbn [Nat.eqb orb negb].
  set (rows := map (row_of d) names).
  assert (Hl : List.length rows = List.length names) by apply map_length.
  cbn [transposed shape List.length Nat.eqb negb last]. rewrite Hf, Hl.
  destruct (Nat.eqb_spec (List.length names) n) as [Hn|Hn]; cbn [negb]; [right | left; auto].
  split; [exact Hn|]. exists (transposed rows), (widest rows).
  split; [reflexivity|]. cbn [transposed shape]. split; [congruence|].
  assert (Hrow : forall s, row_of d s <> [] ) by
    (intros s; unfold row_of; destruct (get d s) as [[[]|]|]; discriminate).
  split.
  { destruct names as [|s names]; [congruence|].
    assert (H := widest_le rows (row_of d s) (or_introl eq_refl)).
    specialize (Hrow s). destruct (row_of d s); [congruence|]. cbn [List.length] in H. lia. }
  intros i s Hs. assert (Hi : (i < n)%nat) by (rewrite <- Hn; apply nth_error_Some; congruence).
  assert (Hw := widest_le rows (row_of d s)
                  ltac:(apply in_map; eapply nth_error_In; eauto)).
  assert (Hcell : forall g, (g < widest rows)%nat ->
            nth (g * n + i) (data (transposed rows)) PyNone = nth g (row_of d s) PyNone).
  { intros g Hg. cbn [transposed data].
    assert (Hlr : List.length rows = n) by congruence. rewrite <- Hlr.
    rewrite (nth_flat _ _ (fun g r => nth g r PyNone)) by lia.
    unfold rows. rewrite map_map.
    rewrite (nth_indep _ PyNone (nth g (row_of d "") PyNone)) by (rewrite map_length; lia).
    rewrite (map_nth (fun x => nth g (row_of d x) PyNone)). f_equal. f_equal.
    apply nth_error_nth. exact Hs. }
  split; [|split].
  - assert (Hp : (0 < widest rows)%nat).
    { specialize (Hrow s). destruct (row_of d s); [congruence|]. cbn [List.length] in Hw. lia. }
    specialize (Hcell 0%nat Hp). cbn [Nat.mul Nat.add] in Hcell.
    rewrite Hcell. unfold row_of. destruct (get d s) as [[[]|]|]; reflexivity.
  - intros Hsil g Hg. apply get_silent in Hsil.
    rewrite Hcell by lia.
    unfold row_of. rewrite Hsil. destruct g as [|[|g]]; [lia | reflexivity | reflexivity].
  - intros x gs Hx Hgs. apply get_says in Hx; auto.
    assert (Er : row_of d s = Str s :: gs).
    { unfold row_of. rewrite Hx. destruct x as [[]|]; cbn [groups_of] in Hgs; subst; reflexivity. }
    rewrite Er in Hw. cbn [List.length] in Hw. split; [lia|].
    intros g Hg. rewrite Hcell by lia.
    rewrite Er. destruct g as [|g]; [lia|]. cbn [nth]. f_equal. lia.
Qed.
Print Assumptions C51_groups.

Example C51_applies :
  input_to_array (Dict [("B", Scalar (Num 2)); ("Z", Scalar (Num 7))]) 3 (Num 0) 1
    (Some ["A"; "B"; "C"]) = Ok {| shape := [3%nat]; data := [Num 0; Num 2; Num 0] |}
  /\ input_to_array (Dict [("B", Elems [Str "x"; Str "y"]); ("A", Scalar (Str "z"))]) 2
       (Str "") 2 (Some ["A"; "B"])
     = Ok {| shape := [3%nat; 2%nat];
             data := [Str "A"; Str "B"; Str "z"; Str "x"; PyNone; Str "y"] |}.
Proof. split; reflexivity. Qed.

(** ** Lists of assets *)

Lemma first_index_spec : forall ns s i, first_index ns s = Some i <->
  nth_error ns i = Some s /\ forall j, (j < i)%nat -> nth_error ns j <> Some s.
Proof.
  induction ns as [|x ns IH]; intros s i; cbn [first_index].
  - split; [discriminate | intros [H _]; destruct i; discriminate].
  - destruct (String.eqb_spec x s) as [->|N].
    + split; [intros E; injection E as <-; split; [reflexivity | intros; lia]|].
      intros [_ H]. destruct i; [reflexivity|]. exfalso. apply (H 0%nat); [lia | reflexivity].
    + destruct (first_index ns s) as [k|] eqn:E; cbn [option_map].
      * destruct (IH s k) as [IH1 _]. destruct (IH1 E) as [A B]. split.
        -- intros H. injection H as <-. split; [exact A|]. intros [|j] Hj; cbn; [congruence|].
           apply B. lia.
        -- intros [H1 H2]. destruct i as [|i]; [cbn in H1; congruence|].
           assert (Ei : first_index ns s = Some i); [|congruence]. apply IH. split; [exact H1|].
           intros j Hj. apply (H2 (S j)). lia.
      * split; [discriminate|]. intros [H1 H2]. destruct i as [|i]; [cbn in H1; congruence|].
        assert (first_index ns s = Some i); [|congruence]. apply IH. split; [exact H1|].
        intros j Hj. apply (H2 (S j)). lia.
Qed.

Lemma duplicates_spec : forall l, has_duplicates l = false <-> NoDup l.
Proof.
  assert (Heq : forall a b, item_eqb a b = true <-> a = b).
  { intros [x|x] [y|y]; cbn [item_eqb]; [rewrite Z.eqb_eq | | | rewrite String.eqb_eq];
      split; congruence. }
  induction l as [|x l IH]; cbn [has_duplicates]; [split; auto; constructor|].
  rewrite orb_false_iff, IH, NoDup_cons_iff.
  assert (existsb (item_eqb x) l = false <-> ~ In x l); [|tauto].
  split.
  - intros H Hin. assert (existsb (item_eqb x) l = true); [|congruence].
    apply existsb_exists. exists x. split; [auto | apply Heq; reflexivity].
  - intros H. destruct (existsb (item_eqb x) l) eqn:E; auto. apply existsb_exists in E as (y & Hy & E).
    apply Heq in E. subst. tauto.
Qed.

Lemma resolve_strict : forall l n names r,
  resolve l n names true = Ok r <-> Forall2 (designates names n) l r.
Proof.
  induction l as [|[z|s] l IH]; intros n names r; cbn [resolve].
  - split; [intros E; injection E as <-; constructor | intros H; inversion H; reflexivity].
  - destruct ((0 <=? z)%Z && (z <? Z.of_nat n)%Z) eqn:B.
    + apply andb_true_iff in B as [B1 B2]. apply Z.leb_le in B1. apply Z.ltb_lt in B2.
      split.
      * destruct (resolve l n names true) as [r'|] eqn:E; [|discriminate].
        intros H. injection H as <-. constructor; [|apply IH; exact E].
        cbn. lia.
      * intros H. inversion H as [|? i ? r' Hd Hr]; subst. cbn in Hd. destruct Hd as [-> Hi].
        apply IH in Hr. rewrite Hr, Nat2Z.id. reflexivity.
    + split; [discriminate|]. intros H. inversion H as [|? i ? r' Hd Hr]; subst.
      cbn in Hd. destruct Hd as [-> Hi]. apply andb_false_iff in B.
      rewrite Z.leb_gt, Z.ltb_ge in B. lia.
  - destruct names as [ns|].
    + destruct (first_index ns s) as [i|] eqn:E.
      * apply first_index_spec in E. split.
        -- destruct (resolve l n (Some ns) true) as [r'|] eqn:E'; [|discriminate].
           intros H. injection H as <-. constructor; [|apply IH; exact E'].
           cbn. exists ns. tauto.
        -- intros H. inversion H as [|? j ? r' Hd Hr]; subst. cbn in Hd.
           destruct Hd as (ns' & En & Hd). injection En as <-.
           apply IH in Hr. rewrite Hr. f_equal. f_equal.
           apply first_index_spec in E. apply first_index_spec in Hd. congruence.
      * split; [discriminate|]. intros H. inversion H as [|? j ? r' Hd Hr]; subst. cbn in Hd.
        destruct Hd as (ns' & En & Hd). injection En as <-.
        apply first_index_spec in Hd. congruence.
    + split; [discriminate|]. intros H. inversion H as [|? j ? r' Hd Hr]; subst. cbn in Hd.
      destruct Hd as (ns' & En & _). discriminate.
Qed.

(** The positions are those the items designate, one for one; anything else (an
    unknown name, an index out of range, a repeated item) is an error. *)
Theorem C51_items : forall l n names r,
  validate_input_list l n names true = Ok r
  <-> NoDup l /\ Forall2 (designates names n) l r.
Proof.
  intros l n names r. unfold validate_input_list. rewrite <- resolve_strict, <- duplicates_spec.
  destruct (has_duplicates l); split; try discriminate; intuition discriminate.
Qed.
Print Assumptions C51_items.

(** Without the strict flag unknown names are skipped. *)
Theorem C51_items_lenient : forall l n ns r,
  validate_input_list l n (Some ns) false = Ok r
  <-> NoDup l /\ (forall z, In (Idx z) l -> (0 <= z < Z.of_nat n)%Z)
      /\ Forall2 (designates (Some ns) n)
           (filter (fun it => match it with
                              | Idx _ => true
                              | Name s => existsb (String.eqb s) ns
                              end) l) r.
Proof.
  intros l n ns r. unfold validate_input_list. rewrite <- duplicates_spec.
  destruct (has_duplicates l); [split; [discriminate | intuition discriminate]|].
  assert (H : resolve l n (Some ns) false = Ok r <->
    (forall z, In (Idx z) l -> (0 <= z < Z.of_nat n)%Z)
      /\ Forall2 (designates (Some ns) n)
           (filter (fun it => match it with
                              | Idx _ => true
                              | Name s => existsb (String.eqb s) ns
                              end) l) r); [|tauto].
  revert r. induction l as [|[z|s] l IH]; intros r; cbn [resolve filter].
  - split; [intros E; injection E as <-; split; [intros z [] | constructor]|].
    intros [_ H]. inversion H. reflexivity.
  - destruct ((0 <=? z)%Z && (z <? Z.of_nat n)%Z) eqn:B.
    + apply andb_true_iff in B as [B1 B2]. apply Z.leb_le in B1. apply Z.ltb_lt in B2. split.
      * destruct (resolve l n (Some ns) false) as [r'|] eqn:E; [|discriminate].
        intros H. injection H as <-. destruct (proj1 (IH r') eq_refl) as [A1 A2].
        split; [intros z' [E'|E']; [injection E' as <-; lia | auto]|].
        constructor; [cbn; lia | exact A2].
      * intros [A1 H]. inversion H as [|? i ? r' Hd Hr]; subst. cbn in Hd. destruct Hd as [-> Hi].
        rewrite (proj2 (IH r')); [rewrite Nat2Z.id; reflexivity|]. split; [|exact Hr].
        intros z' Hz. apply A1. right; auto.
    + split; [discriminate|]. intros [A1 _]. specialize (A1 z (or_introl eq_refl)).
      apply andb_false_iff in B. rewrite Z.leb_gt, Z.ltb_ge in B. lia.
  - destruct (first_index ns s) as [i|] eqn:E.
    + apply first_index_spec in E.
      assert (Ein : existsb (String.eqb s) ns = true).
      { apply existsb_exists. exists s. split; [eapply nth_error_In; apply E | apply String.eqb_refl]. }
      rewrite Ein. split.
      * destruct (resolve l n (Some ns) false) as [r'|] eqn:E'; [|discriminate].
        intros H. injection H as <-. destruct (proj1 (IH r') eq_refl) as [A1 A2].
        split; [intros z' [E''|E'']; [discriminate | auto]|].
        constructor; [cbn; exists ns; tauto | exact A2].
      * intros [A1 H]. inversion H as [|? j ? r' Hd Hr]; subst. cbn in Hd.
        destruct Hd as (ns' & En & Hd). injection En as <-.
        rewrite (proj2 (IH r')).
        -- f_equal. f_equal. apply first_index_spec in E. apply first_index_spec in Hd. congruence.
        -- split; [intros z Hz; apply A1; right; auto | exact Hr].
    + assert (Ein : existsb (String.eqb s) ns = false).
      { destruct (existsb (String.eqb s) ns) eqn:X; auto. exfalso.
        apply existsb_exists in X as (y & Hy & Ey). apply String.eqb_eq in Ey. subst y.
        revert E Hy. clear. induction ns as [|x ns IH]; cbn [first_index]; [intros _ []|].
        destruct (String.eqb_spec x s); [discriminate|].
        destruct (first_index ns s); [discriminate|]. intros _ [?|?]; auto. }
      rewrite Ein, IH. split; intros [A1 A2]; split; auto.
      * intros z [H|H]; [discriminate | auto].
      * intros z Hz. apply A1. right; auto.
Qed.
Print Assumptions C51_items_lenient.

(** Distinct assets: when the items are all indices, or all names. *)
Theorem C51_distinct : forall l n names r,
  validate_input_list l n names true = Ok r ->
  (forall it, In it l -> exists z, it = Idx z) \/ (forall it, In it l -> exists s, it = Name s) ->
  NoDup r /\ (forall ns, names = Some ns -> List.length ns = n -> forall i, In i r -> (i < n)%nat).
Proof.
  intros l n names r H Hk. apply C51_items in H as [Hnd H].
  assert (Hinj : forall a b i, designates names n a i -> designates names n b i ->
            (forall it, it = a \/ it = b -> exists z, it = Idx z)
            \/ (forall it, it = a \/ it = b -> exists s, it = Name s) -> a = b).
  { intros a b i Ha Hb [K|K]; destruct (K a (or_introl eq_refl)) as (x & ->),
      (K b (or_intror eq_refl)) as (y & ->); cbn in Ha, Hb.
    - destruct Ha as [-> _], Hb as [-> _]. reflexivity.
    - destruct Ha as (ns & E & Ha & _), Hb as (ns' & E' & Hb & _). congruence. }
  split.
  - revert Hnd Hk. induction H as [|a i l r Hd HF IH]; intros Hnd Hk; [constructor|].
    apply NoDup_cons_iff in Hnd as [Hna Hnd]. constructor.
    + intros Hin. apply Hna.
      assert (Hb : exists b, In b l /\ designates names n b i).
      { revert Hin. clear - HF. induction HF as [|b j l r Hd HF IH]; intros Hin; [destruct Hin|].
        destruct Hin as [<-|Hin]; [exists b; split; [left|]; auto |].
        destruct (IH Hin) as (b' & Hb & Hd'). exists b'. split; [right|]; auto. }
      destruct Hb as (b & Hb & Hd'). rewrite (Hinj a b i Hd Hd'); [exact Hb|].
      destruct Hk as [K|K]; [left|right]; intros it [->| ->]; apply K; cbn; auto.
    + apply IH; auto. destruct Hk as [K|K]; [left|right]; intros it Hit; apply K; right; auto.
  - intros ns Hns Hlen i Hi. revert Hi. clear - H Hns Hlen.
    induction H as [|a j l r Hd HF IH]; intros Hin; [destruct Hin|].
    destruct Hin as [<-|Hin]; [|auto].
    destruct a; cbn in Hd; [tauto|]. destruct Hd as (ns' & E & Hd & _).
    assert (ns' = ns) by congruence. subst ns'. rewrite <- Hlen. apply nth_error_Some. congruence.
Qed.
Print Assumptions C51_distinct.

(** An index and a name can designate the same asset: the repetition is missed. *)
Theorem C51_mixed_refuted :
  validate_input_list [Idx 0; Name "A"] 2 (Some ["A"; "B"]) true = Ok [0; 0]%nat.
Proof. reflexivity. Qed.

Example C51_items_apply :
  validate_input_list [Name "B"; Name "A"] 2 (Some ["A"; "B"]) true = Ok [1; 0]%nat
  /\ validate_input_list [Name "C"] 2 (Some ["A"; "B"]) true = Err ValueError
  /\ validate_input_list [Idx (-1)] 2 (Some ["A"; "B"]) true = Err ValueError.
Proof. repeat split; reflexivity. Qed.

(** * C52 *)

Fixpoint has_underscore (s : string) : bool :=
  match s with
  | EmptyString => false
  | String c s' => Ascii.eqb c "_" || has_underscore s'
  end.

Lemma uint_no_underscore : forall u, has_underscore (NilEmpty.string_of_uint u) = false.
Proof. induction u; cbn [NilEmpty.string_of_uint has_underscore]; auto. Qed.

Lemma decimal_inj : forall k k', decimal k = decimal k' -> k = k'.
Proof.
  intros k k' H. unfold decimal in H.
  apply (f_equal NilEmpty.uint_of_string) in H. rewrite !NilEmpty.usu in H.
  injection H as H. apply Unsigned.to_uint_inj. exact H.
Qed.

Lemma append_inj : forall a b s s',
  has_underscore s = false -> has_underscore s' = false ->
  a ++ "_" ++ s = b ++ "_" ++ s' -> a = b /\ s = s'.
Proof.
  assert (Hin : forall a s, has_underscore (a ++ "_" ++ s) = true).
  { induction a as [|c a IH]; intros s; [reflexivity|].
    change (Ascii.eqb c "_" || has_underscore (a ++ "_" ++ s) = true).
    rewrite IH, orb_true_r. reflexivity. }
  induction a as [|c a IH]; intros [|c' b] s s' Hs Hs' H; cbn [append] in H.
  - injection H as H. auto.
  - injection H as <- H. exfalso. rewrite H in Hs.
    change (has_underscore (b ++ "_" ++ s') = false) in Hs. rewrite Hin in Hs. discriminate.
  - injection H as -> H. exfalso. rewrite <- H in Hs'.
    change (has_underscore (a ++ "_" ++ s) = false) in Hs'. rewrite Hin in Hs'. discriminate.
  - injection H as -> H. destruct (IH b s s' Hs Hs' H) as [-> ->]. auto.
Qed.

Lemma suffixed_inj : forall c c' k k', suffixed c k = suffixed c' k' -> c = c' /\ k = k'.
Proof.
  intros c c' k k' H. unfold suffixed in H.
  apply append_inj in H; try apply uint_no_underscore. destruct H as [-> H].
  apply decimal_inj in H. auto.
Qed.

Lemma suffixed_longer : forall c k, suffixed c k <> c.
Proof.
  intros c k H. apply (f_equal String.length) in H. unfold suffixed in H.
  assert (L : forall a b, String.length (a ++ b) = (String.length a + String.length b)%nat).
  { induction a as [|x a IH]; intros b; cbn [append String.length]; [reflexivity|].
    rewrite IH. reflexivity. }
  rewrite !L in H. cbn [String.length] in H. lia.
Qed.

(** What the i-th name becomes, from the names before it. *)
Definition renamed (before : list string) (c : string) : string :=
  match occurrences before c with
  | O => c
  | k => suffixed c k
  end.

Lemma dedup_loop_nth : forall names before counts,
  (forall c, counts_get counts c = occurrences before c) ->
  forall i c, nth_error names i = Some c ->
    nth_error (dedup_loop names counts) i = Some (renamed (firstn i names ++ before) c).
Proof.
  induction names as [|x names IH]; intros before counts Hc i c Hi; [destruct i; discriminate|].
  cbn [dedup_loop]. destruct i as [|i]; cbn [nth_error firstn] in *.
  - injection Hi as ->. change ([] ++ before)%list with before. unfold renamed. rewrite Hc. f_equal.
    destruct (occurrences before c); reflexivity.
  - rewrite (IH (x :: before) ((x, S (counts_get counts x)) :: counts)) with (c := c); auto.
    + f_equal. unfold renamed.
      assert (E : occurrences (firstn i names ++ x :: before) c
                  = occurrences ((x :: firstn i names) ++ before) c).
      { unfold occurrences. rewrite !count_occ_app. cbn [count_occ].
        destruct (string_dec x c); lia. }
      rewrite E. reflexivity.
    + intros y. unfold counts_get at 1. cbn [get]. unfold occurrences in *. cbn [count_occ].
      destruct (String.eqb_spec y x) as [->|N].
      * destruct (string_dec x x); [|congruence]. rewrite Hc. reflexivity.
      * destruct (string_dec x y); [congruence|]. apply Hc.
Qed.

Lemma dedup_length : forall names counts, List.length (dedup_loop names counts) = List.length names.
Proof. induction names as [|x names IH]; intros counts; cbn [dedup_loop List.length]; auto. Qed.

(** The k-th repetition of a name gets the suffix k; first occurrences stay. *)
Theorem C52_renaming : forall names,
  List.length (deduplicate_names names) = List.length names
  /\ forall i c, nth_error names i = Some c ->
       (occurrences (firstn i names) c = 0%nat -> nth_error (deduplicate_names names) i = Some c)
       /\ (forall k, occurrences (firstn i names) c = S k ->
             nth_error (deduplicate_names names) i = Some (suffixed c (S k))).
Proof.
  intros names. split; [apply dedup_length|]. intros i c Hi.
  assert (H := dedup_loop_nth names [] [] (fun c => eq_refl) i c Hi).
  rewrite app_nil_r in H. unfold deduplicate_names, renamed in *.
  split; [intros E | intros k E]; rewrite E in H; exact H.
Qed.
Print Assumptions C52_renaming.

Lemma occurrences_split : forall names c k, (k < occurrences names c)%nat ->
  exists i, nth_error names i = Some c /\ occurrences (firstn i names) c = k.
Proof.
  induction names as [|x names IH]; intros c k Hk; unfold occurrences in *; cbn [count_occ] in Hk; [lia|].
  destruct (string_dec x c) as [->|N].
  - destruct k as [|k]; [exists 0%nat; auto|].
    destruct (IH c k ltac:(lia)) as (i & H1 & H2). exists (S i). split; [exact H1|].
    cbn [firstn count_occ]. destruct (string_dec c c); [lia | congruence].
  - destruct (IH c k Hk) as (i & H1 & H2). exists (S i). split; [exact H1|].
    cbn [firstn count_occ]. destruct (string_dec x c); [congruence | exact H2].
Qed.

Lemma occurrences_mono : forall names i j c, (i < j)%nat -> nth_error names i = Some c ->
  (occurrences (firstn i names) c < occurrences (firstn j names) c)%nat.
Proof.
  induction names as [|x names IH]; intros i j c Hij Hi; [destruct i; discriminate|].
  destruct i as [|i], j as [|j]; try lia; cbn [nth_error firstn] in *; unfold occurrences in *;
    cbn [count_occ].
  - injection Hi as ->. destruct (string_dec c c); [lia | congruence].
  - specialize (IH i j c ltac:(lia) Hi). destruct (string_dec x c); lia.
Qed.

Lemma occurrences_bound : forall names i c, nth_error names i = Some c ->
  (occurrences (firstn i names) c < occurrences names c)%nat.
Proof.
  induction names as [|x names IH]; intros i c Hi; [destruct i; discriminate|].
  destruct i as [|i]; cbn [nth_error firstn] in *; unfold occurrences in *; cbn [count_occ].
  - injection Hi as ->. destruct (string_dec c c); [lia | congruence].
  - specialize (IH i c Hi). destruct (string_dec x c); lia.
Qed.

(** The result has no duplicates exactly when no input name is already one of the
    suffixed names the function introduces. *)
Theorem C52_unique : forall names,
  NoDup (deduplicate_names names) <->
  (forall c k, (0 < k < occurrences names c)%nat -> ~ In (suffixed c k) names).
Proof.
  intros names. destruct (C52_renaming names) as [Hlen Hren]. split.
  - intros Hnd c k Hk Hin.
    destruct (occurrences_split names c k) as (i & H1 & H2); [lia|].
    destruct (occurrences_split names (suffixed c k) 0%nat) as (j & H3 & H4).
    { unfold occurrences. apply (count_occ_In string_dec) in Hin. lia. }
    destruct k as [|k]; [lia|].
    assert (E1 := proj2 (Hren i c H1) k H2). assert (E2 := proj1 (Hren j _ H3) H4).
    assert (Hij : i = j).
    { eapply (proj1 (NoDup_nth_error (deduplicate_names names)) Hnd); [|congruence].
      rewrite Hlen. apply nth_error_Some. congruence. }
    subst j. rewrite H1 in H3. injection H3 as H3. eapply suffixed_longer; eauto.
  - intros H. apply NoDup_nth_error. intros i j Hi E.
    assert (Hj : (j < List.length (deduplicate_names names))%nat).
    { apply nth_error_Some. rewrite <- E. apply nth_error_Some. exact Hi. }
    rewrite Hlen in Hi, Hj.
    destruct (nth_error names i) as [c|] eqn:Ei; [|apply nth_error_None in Ei; lia].
    destruct (nth_error names j) as [c'|] eqn:Ej; [|apply nth_error_None in Ej; lia].
    destruct (Hren i c Ei) as [Hi0 HiS], (Hren j c' Ej) as [Hj0 HjS].
    assert (Bi := occurrences_bound names i c Ei). assert (Bj := occurrences_bound names j c' Ej).
    assert (Hsame : c = c' /\ occurrences (firstn i names) c = occurrences (firstn j names) c').
    { destruct (occurrences (firstn i names) c) as [|k] eqn:Oi,
        (occurrences (firstn j names) c') as [|k'] eqn:Oj.
      - rewrite Hi0, Hj0 in E by reflexivity. split; congruence.
      - exfalso. rewrite Hi0, (HjS k') in E by reflexivity. injection E as E.
        apply (H c' (S k')); [lia|]. rewrite <- E. eapply nth_error_In; eauto.
      - exfalso. rewrite Hj0, (HiS k) in E by reflexivity. injection E as E.
        apply (H c (S k)); [lia|]. rewrite E. eapply nth_error_In; eauto.
      - rewrite (HiS k), (HjS k') in E by reflexivity. injection E as E.
        apply suffixed_inj in E. split; [tauto | lia]. }
    destruct Hsame as [<- Hsame].
    destruct (Nat.lt_trichotomy i j) as [L|[L|L]]; [|exact L|].
    + assert (M := occurrences_mono names i j c L Ei). lia.
    + assert (M := occurrences_mono names j i c L Ej). lia.
Qed.
Print Assumptions C52_unique.

Theorem C52_collision_refuted :
  deduplicate_names ["a"; "a"; "a_1"] = ["a"; "a_1"; "a_1"].
Proof. reflexivity. Qed.

Example C52_applies : deduplicate_names ["a"; "b"; "a"; "a"] = ["a"; "b"; "a_1"; "a_2"].
Proof. reflexivity. Qed.

(** * C53 *)

Section CacheProps.
  Variables obj value : Type.
  Variable hash_obj : obj -> option Z.
  Variable of_string : string -> obj.
  Variable hash_tuple : list Z -> Z.
  Variable run : call obj -> option value.

  Notation key := (make_key obj hash_obj of_string hash_tuple).
  Notation hist := (history obj value hash_obj of_string hash_tuple run).

  (** The answer the undecorated method would give. *)
  Definition answer (c : call obj) : result value :=
    match key c with
    | None => Err TypeError
    | Some _ => match run c with Some v => Ok v | None => Err ValueError end
    end.

  Definition sound_for (ch : cache value) (calls : list (call obj)) : Prop :=
    forall c k v, In c calls -> key c = Some k ->
      cache_get value (method obj c) k ch = Some v -> run c = Some v.

  (** Over every history in which two calls of one method with the same key have the
      same result, each call gets the result of its own arguments. *)
  Theorem C53_history : forall calls,
    (forall c c' k, In c calls -> In c' calls -> method obj c = method obj c' ->
       key c = Some k -> key c' = Some k -> run c = run c') ->
    hist [] calls = map answer calls.
  Proof.
    intros calls Hc.
    assert (G : forall l ch, incl l calls -> sound_for ch calls -> hist ch l = map answer l).
    { induction l as [|c l IH]; intros ch Hl Hs; [reflexivity|]. cbn [history map].
      assert (Hin : In c calls) by (apply Hl; left; auto).
      assert (Hl' : incl l calls) by (intros x Hx; apply Hl; right; auto).
      unfold wrapper, answer. destruct (key c) as [k|] eqn:Ek; cbn [fst snd]; [|f_equal; auto].
      destruct (cache_get value (method obj c) k ch) as [v|] eqn:Eg.
      - rewrite (Hs c k v Hin Ek Eg). cbn [fst snd]. f_equal. auto.
      - destruct (run c) as [v|] eqn:Er; cbn [fst snd]; f_equal; auto.
        apply IH; auto. intros c' k' v' Hin' Ek' Eg'. cbn [cache_get] in Eg'.
        destruct (String.eqb_spec (method obj c') (method obj c)) as [Em|Nm]; cbn [andb] in Eg'.
        + destruct (Z.eqb_spec k' k) as [->|Nk].
          * injection Eg' as <-. rewrite <- Er. eapply Hc; eauto.
          * eapply Hs; eauto.
        + eapply Hs; eauto. }
    apply G; [apply incl_refl|]. intros c k v _ _ H. discriminate.
  Qed.

  (** With collision-free hashes, the flattened arguments decide. *)
  Corollary C53_no_collision : forall calls,
    (forall x y h, hash_obj x = Some h -> hash_obj y = Some h -> x = y) ->
    (forall l l', hash_tuple l = hash_tuple l' -> l = l') ->
    (forall c c', In c calls -> In c' calls -> method obj c = method obj c' ->
       flatten obj of_string c = flatten obj of_string c' ->
       run c = run c') ->
    hist [] calls = map answer calls.
  Proof.
    intros calls Ho Ht Hf. apply C53_history. intros c c' k Hc Hc' Hm Hk Hk'.
    apply Hf; auto. unfold make_key in Hk, Hk'.
    assert (G : forall l l' hs, all_hashes obj hash_obj l = Some hs ->
              all_hashes obj hash_obj l' = Some hs -> l = l').
    { induction l as [|x l IH]; intros [|y l'] hs; cbn [all_hashes].
      - reflexivity.
      - intros E. injection E as <-. destruct (hash_obj y), (all_hashes obj hash_obj l'); discriminate.
      - destruct (hash_obj x) eqn:E1, (all_hashes obj hash_obj l) eqn:E2; try discriminate.
        intros E. injection E as <-. discriminate.
      - destruct (hash_obj x) eqn:E1, (all_hashes obj hash_obj l) eqn:E2; try discriminate.
        intros E. injection E as <-.
        destruct (hash_obj y) eqn:E3, (all_hashes obj hash_obj l') eqn:E4; try discriminate.
        intros E. injection E as -> ->. f_equal; [eapply Ho; eauto | eapply IH; eauto]. }
    destruct (all_hashes obj hash_obj (flatten obj of_string c)) as [hs|] eqn:E1; [|discriminate].
    destruct (all_hashes obj hash_obj (flatten obj of_string c')) as [hs'|] eqn:E2; [|discriminate].
    cbn [option_map] in Hk, Hk'.
    assert (E : hs = hs') by (apply Ht; congruence). subst hs'. eapply G; eauto.
  Qed.

  (** With collision-free hashes, and calls of one method that agree on the number of
      positional arguments, each call gets the result of its own arguments: two calls
      that differ in an argument, in the name of a keyword or in its value, never share
      an entry.  Nothing is asked of [run]. *)
  Theorem C53_own_arguments : forall calls,
    (forall x y h, hash_obj x = Some h -> hash_obj y = Some h -> x = y) ->
    (forall l l', hash_tuple l = hash_tuple l' -> l = l') ->
    (forall s s', of_string s = of_string s' -> s = s') ->
    (forall c c', In c calls -> In c' calls -> method obj c = method obj c' ->
       List.length (args obj c) = List.length (args obj c')) ->
    hist [] calls = map answer calls.
  Proof.
    intros calls Ho Ht Hs Hl. apply C53_no_collision; auto.
    intros [m a kw] [m' a' kw'] Hc Hc' Hm Hf. specialize (Hl _ _ Hc Hc' Hm).
    cbn [method args] in Hm, Hl. subst m'. unfold flatten in Hf. cbn [args kwargs] in Hf.
    assert (E : a = a' /\ flat_map (fun kv => [of_string (fst kv); snd kv]) kw
                        = flat_map (fun kv => [of_string (fst kv); snd kv]) kw').
    { clear Hc Hc'. revert a' Hl Hf. induction a as [|x a IH]; intros [|y a'] Hl Hf; try discriminate; [auto|].
      cbn [app] in Hf. injection Hf as -> Hf. injection Hl as Hl.
      destruct (IH a' Hl Hf) as [-> E]; auto. }
    destruct E as [-> E]. f_equal. f_equal. clear Hf Hc Hc' Hl. revert kw' E.
    induction kw as [|[s o] kw IH]; intros [|[s' o'] kw'] E; cbn [flat_map app fst snd] in E;
      try discriminate; [reflexivity|].
    injection E as E1 E2 E3. rewrite (Hs _ _ E1), E2, (IH _ E3). reflexivity.
  Qed.

  (** A method that raised is run again; a stored value is not computed again: the
      cache is only extended by results. *)
  Theorem C53_first_use : forall ch c k,
    key c = Some k -> cache_get value (method obj c) k ch = None ->
    fst (wrapper obj value hash_obj of_string hash_tuple run ch c) = answer c
    /\ (run c = None -> snd (wrapper obj value hash_obj of_string hash_tuple run ch c) = ch).
  Proof.
    intros ch c k Hk Hg. unfold wrapper, answer. rewrite Hk, Hg.
    destruct (run c); split; auto; discriminate.
  Qed.
End CacheProps.
Print Assumptions C53_history.
Print Assumptions C53_no_collision.
Print Assumptions C53_own_arguments.
Print Assumptions C53_first_use.

(** Python integers: -1 and -2 have the same hash, so the second call returns the
    value of the first, whatever the hash of tuples. *)
Theorem C53_minus_one_refuted : forall hash_tuple,
  let c z := {| method := "f"; args := [z]; kwargs := [] |} in
  history Z Z (fun z => Some (hash_int z)) (fun _ => 0%Z) hash_tuple
    (fun c => Some (hd 0%Z (args Z c))) [] [c (-1)%Z; c (-2)%Z]
  = [Ok (-1)%Z; Ok (-1)%Z].
Proof.
  intros hash_tuple c. subst c.
  assert (E1 : hash_int (-1) = (-2)%Z) by reflexivity.
  assert (E2 : hash_int (-2) = (-2)%Z) by reflexivity.
  cbn -[hash_int Z.eqb]. unfold wrapper, make_key, flatten. cbn -[hash_int Z.eqb].
  rewrite E1, E2. cbn -[Z.eqb]. rewrite Z.eqb_refl. reflexivity.
Qed.
Print Assumptions C53_minus_one_refuted.

(** A keyword argument and the same name and value given by position share a key. *)
Theorem C53_keyword_refuted : forall (hash_obj : string -> option Z) hash_tuple h1 h2,
  hash_obj "x" = Some h1 -> hash_obj "y" = Some h2 ->
  let by_position := {| method := "f"; args := ["x"; "y"]; kwargs := [] |} in
  let by_keyword := {| method := "f"; args := []; kwargs := [("x", "y")] |} in
  history string nat hash_obj (fun s => s) hash_tuple
    (fun c => Some (List.length (args string c))) [] [by_position; by_keyword] = [Ok 2; Ok 2]%nat.
Proof.
  intros hash_obj hash_tuple h1 h2 H1 H2 p k. subst p k.
  cbn -[Z.eqb]. unfold wrapper, make_key, flatten. cbn -[Z.eqb]. rewrite H1, H2.
  cbn -[Z.eqb]. rewrite Z.eqb_refl. reflexivity.
Qed.
Print Assumptions C53_keyword_refuted.

(** Calls that differ in the value of a keyword, and in the name of a keyword. *)
Example C53_own_arguments_applies :
  let c s z := {| method := "f"; args := [7%Z]; kwargs := [(s, z)] |} in
  let calls := [c "beta" 1%Z; c "beta" 2%Z; c "rate" 1%Z; c "beta" 1%Z] in
  let of_string s := Z.of_nat (String.length s) in
  let key c := flatten Z of_string c in
  (forall c c', In c calls -> In c' calls -> method Z c = method Z c' ->
     List.length (args Z c) = List.length (args Z c'))
  /\ key (c "beta" 1%Z) = [7; 4; 1]%Z /\ key (c "beta" 2%Z) = [7; 4; 2]%Z.
Proof.
  cbn zeta. split; [|split; reflexivity].
  intros c c' H H' _. cbn [In] in H, H'.
  repeat (destruct H as [<-|H]; [repeat (destruct H' as [<-|H']; [reflexivity|]); contradiction|]). contradiction.
Qed.

Example C53_applies :
  let c z := {| method := "f"; args := [z]; kwargs := [] |} in
  history Z Z (fun z => Some z) (fun _ => 0%Z) (fun l => hd 0%Z l)
    (fun c => Some (2 * hd 0%Z (args Z c))%Z) [] [c 3%Z; c 5%Z; c 3%Z] = [Ok 6%Z; Ok 10%Z; Ok 6%Z].
Proof. reflexivity. Qed.

(** * C54 *)

Lemma zsum_one : forall f n k, (k < n)%nat -> (forall i, (i < n)%nat -> i <> k -> f i = 0%Z) ->
  zsum f n = f k.
Proof.
  induction n as [|n IH]; intros k Hk H; [lia|]. cbn [zsum].
  destruct (Nat.eq_dec k n) as [->|N].
  - assert (E : zsum f n = 0%Z).
    { clear IH Hk. assert (H' : forall i, (i < n)%nat -> f i = 0%Z) by (intros; apply H; lia).
      clear H. induction n as [|n IH]; [reflexivity|]. cbn [zsum].
      rewrite IH by (intros; apply H'; lia). rewrite H' by lia. reflexivity. }
    rewrite E. ring.
  - rewrite (IH k) by (try lia; intros; apply H; lia). rewrite (H n) by lia. ring.
Qed.

Lemma fortran_range : forall m n r, (r < m * n)%nat -> (fortran_col m n r < m * n)%nat.
Proof.
  intros m n r Hr. unfold fortran_col. destruct n as [|n]; [lia|]. set (N := S n) in *.
  assert (H1 : (r / N < m)%nat) by (apply Nat.div_lt_upper_bound; lia).
  assert (H2 : (r mod N < N)%nat) by (apply Nat.mod_upper_bound; lia). nia.
Qed.

Lemma column_split : forall M a b, (a < M)%nat ->
  ((a + b * M) / M = b /\ (a + b * M) mod M = a)%nat.
Proof.
  intros M a b H. rewrite Nat.div_add, Nat.mod_add by lia.
  rewrite Nat.div_small, Nat.mod_small by lia. lia.
Qed.

Lemma fortran_inverse : forall m n r, (r < m * n)%nat ->
  fortran_col n m (fortran_col m n r) = r.
Proof.
  intros m n r Hr. unfold fortran_col. destruct m as [|m]; [lia|]. destruct n as [|n]; [lia|].
  set (M := S m) in *. set (N := S n) in *.
  assert (H1 : (r / N < M)%nat) by (apply Nat.div_lt_upper_bound; lia).
  destruct (column_split M (r / N) (r mod N) H1) as [-> ->].
  assert (E := Nat.div_mod r N ltac:(lia)). lia.
Qed.

(** Multiplying by the matrix turns the column-stacked A into the column-stacked
    transpose of A. *)
Theorem C54_transpose : forall m n A r, (r < m * n)%nat ->
  zsum (fun c => (commutation m n r c * vec m A c)%Z) (m * n) = vec n (fun i j => A j i) r.
Proof.
  intros m n A r Hr. rewrite (zsum_one _ _ (fortran_col m n r)).
  - unfold commutation. rewrite Nat.eqb_refl. unfold vec, fortran_col.
    destruct m as [|m]; [lia|]. destruct n as [|n]; [lia|].
    set (M := S m) in *. set (N := S n) in *.
    assert (H1 : (r / N < M)%nat) by (apply Nat.div_lt_upper_bound; lia).
    destruct (column_split M (r / N) (r mod N) H1) as [-> ->]. ring.
  - apply fortran_range; auto.
  - intros i Hi N. unfold commutation. rewrite (proj2 (Nat.eqb_neq _ _)) by auto. ring.
Qed.
Print Assumptions C54_transpose.

(** It is a permutation matrix, and its transpose is the matrix of the transposed
    shape. *)
Theorem C54_permutation : forall m n,
  (forall r c, (r < m * n)%nat -> (c < m * n)%nat ->
     (commutation m n r c = 0 \/ commutation m n r c = 1)%Z
     /\ commutation m n r c = commutation n m c r)
  /\ (forall r, (r < m * n)%nat -> zsum (commutation m n r) (m * n) = 1%Z)
  /\ (forall c, (c < m * n)%nat -> zsum (fun r => commutation m n r c) (m * n) = 1%Z).
Proof.
  assert (Hrow : forall m n r, (r < m * n)%nat -> zsum (commutation m n r) (m * n) = 1%Z).
  { intros m n r Hr. rewrite (zsum_one _ _ (fortran_col m n r)).
    - unfold commutation. rewrite Nat.eqb_refl. reflexivity.
    - apply fortran_range; auto.
    - intros i Hi N. unfold commutation. rewrite (proj2 (Nat.eqb_neq _ _)) by auto. reflexivity. }
  assert (Htr : forall m n r c, (r < m * n)%nat -> (c < m * n)%nat ->
            commutation m n r c = commutation n m c r).
  { intros m n r c Hr Hc. unfold commutation.
    destruct (Nat.eqb_spec c (fortran_col m n r)) as [E1|N1],
      (Nat.eqb_spec r (fortran_col n m c)) as [E2|N2]; auto.
    - exfalso. apply N2. rewrite E1. symmetry. apply fortran_inverse; auto.
    - exfalso. apply N1. rewrite E2. symmetry. apply fortran_inverse. lia. }
  intros m n. split; [|split].
  - intros r c Hr Hc. split; [|auto]. unfold commutation. destruct (c =? fortran_col m n r)%nat; auto.
  - apply Hrow.
  - intros c Hc. rewrite <- (Hrow n m c) by lia. rewrite (Nat.mul_comm n m).
    assert (G : forall k, (k <= m * n)%nat ->
              zsum (fun r => commutation m n r c) k = zsum (commutation n m c) k).
    { induction k as [|k IH]; intros Hk; cbn [zsum]; [reflexivity|].
      rewrite IH by lia. rewrite (Htr m n k c) by lia. reflexivity. }
    apply G. lia.
Qed.
Print Assumptions C54_permutation.

Example C54_applies :
  map (fun r => map (commutation 2 3 r) (seq 0 6)) (seq 0 6)
  = [[1; 0; 0; 0; 0; 0]; [0; 0; 1; 0; 0; 0]; [0; 0; 0; 0; 1; 0];
     [0; 1; 0; 0; 0; 0]; [0; 0; 0; 1; 0; 0]; [0; 0; 0; 0; 0; 1]]%Z.
Proof. reflexivity. Qed.
