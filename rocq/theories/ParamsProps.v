(** C84: the parameters of composed estimators, by name.

    The specification works on paths: the list of names separated by "__" in a key. *)
From Coq Require Import String List Bool Arith ZArith Ascii Lia.
From Verif Require Import ParamsModel.
Import ListNotations.
Local Open Scope string_scope.

(** * Specification *)
(** the key of a path: its names joined by "__" *)
Fixpoint key_of (p : list string) : string :=
  match p with [] => "" | [k] => k | k :: r => k ++ "__" ++ key_of r end.
(** a name is simple when "__" is not in it, and closed when moreover it does not end with "_" *)
Definition simple (k : string) : Prop := ~ exists a b, k = a ++ "__" ++ b.
Definition closed (k : string) : Prop := simple k /\ ~ exists a, k = a ++ "_".
(** a path: simple names, closed but for the last *)
Fixpoint path (p : list string) : Prop :=
  match p with [] => False | [k] => simple k | k :: r => closed k /\ path r end.
Definition prefix (p q : list string) : Prop := exists r, q = (p ++ r)%list.
(** the argument of an estimator, or the member of a composition, with that name *)
Definition named (v : value) (k : string) (x : value) : Prop :=
  match v with
  | Estimator composition args =>
      In (k, x) args \/ composition = true /\ exists items, In ("estimators", Members items) args /\ In (k, x) items
  | _ => False
  end.
(** the object reached by a path *)
Inductive reaches : value -> list string -> value -> Prop :=
| reaches_end v : reaches v [] v
| reaches_step v k x p y : named v k x -> reaches x p y -> reaches v (k :: p) y.
(** a well-formed object: names of arguments are distinct and closed; those of the members too, and they are not names of
    arguments *)
Inductive wf : value -> Prop :=
| wf_atom a : wf (Atom a)
| wf_members items : NoDup (map fst items) -> (forall k x, In (k, x) items -> closed k /\ wf x) -> wf (Members items)
| wf_estimator composition args : NoDup (map fst args) -> (forall k x, In (k, x) args -> closed k /\ wf x) ->
    (composition = true -> exists items, In ("estimators", Members items) args /\ forall k x, In (k, x) items -> ~ In k (map fst args)) ->
    wf (Estimator composition args).
(** the path gives a member by its name *)
Definition by_name (v : value) (p : list string) : Prop :=
  exists q k args items x, p = (q ++ [k])%list /\ reaches v q (Estimator true args) /\ In ("estimators", Members items) args /\ In (k, x) items.

(** * Strings *)
Lemma dunder_false_partition s : dunder s = false -> partition s = (s, None).
Proof.
  unfold dunder. induction s as [|c s IH]; [reflexivity|]. cbn [partition]. destruct s as [|d s]; [reflexivity|].
  destruct (_ && _)%bool; [discriminate|]. destruct (partition (String d s)) as [a [b|]]; cbn in *; [discriminate|]. intros H. now injection (IH H) as <-.
Qed.
Lemma partition_eq s : match partition s with (a, None) => s = a | (a, Some b) => s = a ++ "__" ++ b end.
Proof.
  induction s as [|c s IH]; [reflexivity|]. cbn [partition]. destruct s as [|d s]; [reflexivity|].
  destruct (Ascii.eqb_spec c "_") as [->|], (Ascii.eqb_spec d "_") as [->|]; cbn [andb]; [reflexivity| | |];
    destruct (partition _) as [a [b|]]; cbn; now rewrite IH.
Qed.
Lemma dunder_app a b : dunder (a ++ "__" ++ b) = true.
Proof.
  unfold dunder. induction a as [|c a IH]; [reflexivity|]. cbn [append partition]. destruct (a ++ String "_" (String "_" b)) as [|d t] eqn:E; [destruct a; discriminate|].
  destruct (_ && _)%bool; [reflexivity|]. destruct (partition (String d t)) as [u [w|]] eqn:P; [reflexivity|].
  change (a ++ "__" ++ b) with (a ++ String "_" (String "_" b)) in IH. rewrite E, P in IH. exact IH.
Qed.
Lemma dunder_spec k : dunder k = false <-> simple k.
Proof.
  split.
  - intros H (a & b & ->). rewrite dunder_app in H. discriminate.
  - intros H. unfold dunder. assert (P := partition_eq k). destruct (partition k) as [a [b|]]; [|reflexivity]. exfalso. apply H. eauto.
Qed.
Lemma partition_closed k s : closed k -> partition (k ++ "__" ++ s) = (k, Some s).
Proof.
  intros [S U]. apply dunder_spec in S. induction k as [|c k IH]; [reflexivity|]. cbn [append partition].
  destruct k as [|d k].
  - cbn [append]. destruct (Ascii.eqb_spec c "_") as [->|]; cbn [andb]; [exfalso; apply U; exists ""; reflexivity|]. reflexivity.
  - cbn [append]. assert (P : partition (String c (String d k)) = (String c (String d k), None)) by now apply dunder_false_partition.
    cbn [partition] in P. destruct (_ && _)%bool eqn:B; [discriminate|].
    assert (D : dunder (String d k) = false).
    { unfold dunder. destruct (partition (String d k)) as [a [b|]] eqn:E; [|reflexivity]. exfalso. cbn [partition] in E. rewrite E in P. discriminate. }
    assert (U' : ~ exists a, String d k = a ++ "_") by (intros (a & E); apply U; exists (String c a); now rewrite E).
    specialize (IH D U'). cbn [append] in IH. rewrite IH. reflexivity.
Qed.
Lemma partition_some_closed s a b : partition s = (a, Some b) -> closed a.
Proof.
  revert a. induction s as [|c s IH]; intros a H; [discriminate|]. cbn [partition] in H. destruct s as [|d s]; [discriminate|].
  destruct (_ && _)%bool eqn:B.
  - injection H as <- _. split; intros H; [destruct H as (u & w & E); destruct u; discriminate|destruct H as (u & E); destruct u; discriminate].
  - destruct (partition (String d s)) as [a' [b'|]] eqn:P; [|discriminate]. injection H as <- <-. destruct (IH a' eq_refl) as [S U].
    assert (Q := partition_eq (String d s)). rewrite P in Q. split.
    + apply dunder_spec. apply dunder_spec in S. unfold dunder. cbn [partition]. destruct a' as [|e a']; [reflexivity|].
      cbn in Q. injection Q as -> _. rewrite B. rewrite (dunder_false_partition _ S). reflexivity.
    + intros (u & E). destruct a' as [|e a'].
      * cbn in Q. injection Q as -> _. destruct u as [|f u]; [injection E as ->; discriminate B|]. destruct u; discriminate E.
      * destruct u as [|f u]; [discriminate|]. injection E as -> E. apply U. eauto.
Qed.
Lemma append_inj a b c : a ++ b = a ++ c -> b = c.
Proof. induction a; cbn; [auto|]. intros H. injection H. auto. Qed.
Lemma append_length a b : String.length (a ++ b) = (String.length a + String.length b)%nat.
Proof. induction a; cbn; auto. Qed.

(** every key is the key of a path *)
Lemma key_of_cons k q : q <> [] -> key_of (k :: q) = k ++ "__" ++ key_of q.
Proof. destruct q; [congruence|reflexivity]. Qed.
Lemma path_ne p : path p -> p <> [].
Proof. destruct p; [intros []|discriminate]. Qed.
Lemma path_cons k q : q <> [] -> path (k :: q) <-> closed k /\ path q.
Proof. destruct q; [congruence|reflexivity]. Qed.
Lemma path_exists : forall n s, (String.length s <= n)%nat -> exists p, path p /\ key_of p = s.
Proof.
  induction n as [|n IH]; intros s L.
  - destruct s; [|cbn in L; lia]. exists [""]. split; [|reflexivity]. now apply dunder_spec.
  - destruct (partition s) as [a [b|]] eqn:P; assert (E := partition_eq s); rewrite P in E.
    + destruct (IH b) as (p & Hp & K). { rewrite E, append_length in L. cbn in L. lia. }
      exists (a :: p). split; [apply path_cons; [now apply path_ne|]; split; [eapply partition_some_closed; eauto|auto]|]. rewrite key_of_cons by now apply path_ne. congruence.
    + subst a. exists [s]. split; [|reflexivity]. apply dunder_spec. unfold dunder. now rewrite P.
Qed.
Lemma partition_key1 k : simple k -> partition k = (k, None).
Proof. intros H. now apply dunder_false_partition, dunder_spec. Qed.
Lemma partition_key k q : path (k :: q) -> partition (key_of (k :: q)) = (k, match q with [] => None | _ => Some (key_of q) end).
Proof.
  intros H. destruct q as [|j q]; [now apply partition_key1|]. rewrite key_of_cons by discriminate. apply partition_closed. apply H.
Qed.
Lemma key_inj : forall p q, path p -> path q -> key_of p = key_of q -> p = q.
Proof.
  induction p as [|k p IH]; intros q Hp Hq E; [destruct Hp|]. destruct q as [|j q]; [destruct Hq|].
  assert (A := partition_key _ _ Hp). assert (B := partition_key _ _ Hq). rewrite E, B in A. injection A as -> E2.
  destruct p as [|k' p], q as [|j' q]; try discriminate; [reflexivity|]. f_equal. injection E2 as E2. apply IH; [apply Hp|apply Hq|now symmetry].
Qed.

(** * Dictionaries *)
Lemma lookup_set {A} (d : list (string * A)) k v j : lookup (dict_set d k v) j = if String.eqb k j then Some v else lookup d j.
Proof.
  induction d as [|[i w] d IH]; cbn; [destruct (String.eqb_spec k j); reflexivity|].
  destruct (String.eqb_spec i k) as [->|N]; cbn; [destruct (String.eqb_spec k j); reflexivity|]. rewrite IH.
  destruct (String.eqb_spec i j) as [->|]; [|reflexivity]. destruct (String.eqb_spec k j); congruence.
Qed.
Lemma lookup_in {A} (d : list (string * A)) k v : lookup d k = Some v -> In (k, v) d.
Proof.
  induction d as [|[i w] d IH]; cbn; [discriminate|]. destruct (String.eqb_spec i k) as [->|]; intros H; [injection H as ->; auto|auto].
Qed.
Lemma in_lookup {A} (d : list (string * A)) k v : NoDup (map fst d) -> In (k, v) d -> lookup d k = Some v.
Proof.
  induction d as [|[i w] d IH]; intros N H; [destruct H|]. inversion N; subst. cbn. destruct H as [H|H].
  - injection H as -> ->. now rewrite String.eqb_refl.
  - destruct (String.eqb_spec i k) as [->|]; [|auto]. exfalso. apply H2. apply in_map_iff. exists (k, v). auto.
Qed.
Lemma lookup_none {A} (d : list (string * A)) k : lookup d k = None <-> ~ In k (map fst d).
Proof.
  induction d as [|[i w] d IH]; cbn; [tauto|]. destruct (String.eqb_spec i k); [split; [discriminate|tauto]|]. rewrite IH. tauto.
Qed.
Lemma keys_set {A} (d : list (string * A)) k v : map fst (dict_set d k v) = if member d k then map fst d else (map fst d ++ [k])%list.
Proof.
  unfold member. induction d as [|[i w] d IH]; cbn; [reflexivity|]. destruct (String.eqb_spec i k); cbn; [reflexivity|]. rewrite IH. now destruct (lookup d k).
Qed.
Lemma nodup_set {A} (d : list (string * A)) k v : NoDup (map fst d) -> NoDup (map fst (dict_set d k v)).
Proof.
  induction d as [|[i w] d IH]; intros N; cbn; [repeat constructor; auto|]. inversion N; subst. destruct (String.eqb_spec i k); cbn; [now constructor|].
  constructor; [|auto]. rewrite keys_set. destruct (member d k); [auto|]. rewrite in_app_iff. cbn. intros [G|[G|[]]]; [auto|congruence].
Qed.
Lemma nodup_update {A} (e : list (string * A)) : forall d, NoDup (map fst d) -> NoDup (map fst (update d e)).
Proof. unfold update. induction e as [|p e IH]; intros d N; cbn; [auto|]. apply IH. now apply nodup_set. Qed.
Lemma lookup_update {A} (e : list (string * A)) : forall d s, NoDup (map fst e) ->
  lookup (update d e) s = match lookup e s with Some v => Some v | None => lookup d s end.
Proof.
  unfold update. induction e as [|[k v] e IH]; intros d s N; cbn; [reflexivity|]. inversion N; subst. rewrite IH by auto. rewrite lookup_set. cbn [fst snd].
  destruct (String.eqb_spec k s) as [->|]; [|reflexivity]. apply lookup_none in H1. now rewrite H1.
Qed.
Lemma prefixed_keys k d : map fst (prefixed k d) = map (fun s => k ++ "__" ++ s) (map fst d).
Proof. unfold prefixed. rewrite !map_map. reflexivity. Qed.
Lemma nodup_prefixed k d : NoDup (map fst d) -> NoDup (map fst (prefixed k d)).
Proof.
  rewrite prefixed_keys. generalize (map fst d). intros l N. induction N as [|s l H N IH]; cbn [map]; constructor; [|auto].
  intros G. apply in_map_iff in G. destruct G as (t & E & I). apply append_inj in E. apply (append_inj "__") in E. now subst.
Qed.
Lemma lookup_prefixed k d s : closed k -> lookup (prefixed k d) s = match partition s with (j, Some r) => if String.eqb j k then lookup d r else None | _ => None end.
Proof.
  intros C. induction d as [|[i w] d IH]; [destruct (partition s) as [j [r|]]; [now destruct (String.eqb j k)|reflexivity]|]. cbn [prefixed map fst snd lookup].
  destruct (String.eqb_spec (k ++ "__" ++ i) s) as [<-|N].
  - rewrite partition_closed by auto. now rewrite String.eqb_refl, String.eqb_refl.
  - fold (prefixed k d). rewrite IH. destruct (partition s) as [j [r|]] eqn:P; [|reflexivity]. destruct (String.eqb_spec j k) as [->|]; [|reflexivity].
    destruct (String.eqb_spec i r) as [->|]; [|reflexivity]. exfalso. apply N. assert (E := partition_eq s). rewrite P in E. now symmetry.
Qed.

(** * get_params *)
Fixpoint own (args out : list (string * value)) : list (string * value) :=
  match args with
  | [] => out
  | (k, x) :: r => own r (dict_set (match x with Estimator _ _ => update out (prefixed k (get_params x)) | _ => out end) k x)
  end.
Fixpoint each (its out : list (string * value)) : list (string * value) :=
  match its with
  | [] => out
  | (name, est) :: its => each its (match est with Estimator _ _ => update out (prefixed name (get_params est)) | _ => out end)
  end.
Lemma get_params_eq composition args :
  get_params (Estimator composition args) =
  if composition then match lookup args "estimators" with Some (Members items) => each items (update (own args []) items) | _ => own args [] end
  else own args [].
Proof.
  destruct composition; [|reflexivity]. cbn [get_params].
  change ((fix own (args out : list (string * value)) {struct args} : list (string * value) :=
           match args with
           | [] => out
           | (k, x) :: r => own r (dict_set (match x with Estimator _ _ => update out (prefixed k (get_params x)) | _ => out end) k x)
           end) args []) with (own args []).
  generalize (own args []). intros out. induction args as [|[k x] args IH]; [reflexivity|]. cbn [lookup].
  destruct (String.eqb k "estimators"); [|exact IH]. destruct x; reflexivity.
Qed.
Lemma nodup_own args : forall out, NoDup (map fst out) -> NoDup (map fst (own args out)).
Proof.
  induction args as [|[k x] args IH]; intros out N; cbn [own]; [auto|]. apply IH. apply nodup_set. destruct x; auto. now apply nodup_update.
Qed.
Lemma nodup_each its : forall out, NoDup (map fst out) -> NoDup (map fst (each its out)).
Proof. induction its as [|[k x] its IH]; intros out N; cbn [each]; [auto|]. apply IH. destruct x; auto. now apply nodup_update. Qed.
Lemma nodup_get v : NoDup (map fst (get_params v)).
Proof.
  destruct v as [a|c args|items]; [constructor| |constructor]. rewrite get_params_eq.
  assert (O : NoDup (map fst (own args []))) by (apply nodup_own; constructor).
  destruct c; [|auto]. destruct (lookup args "estimators") as [[| |items]|]; auto. apply nodup_each. now apply nodup_update.
Qed.
Definition deep_part (args : list (string * value)) (s : string) (other : option value) : option value :=
  match partition s with
  | (k, Some r) => match lookup args k with
                   | Some x => match lookup (get_params x) r with Some y => Some y | None => other end
                   | None => other
                   end
  | (k, None) => other
  end.
Lemma own_lookup args : forall out s, NoDup (map fst args) -> (forall k x, In (k, x) args -> closed k) ->
  lookup (own args out) s = match partition s with
                            | (k, None) => match lookup args s with Some x => Some x | None => lookup out s end
                            | _ => deep_part args s (lookup out s)
                            end.
Proof.
  induction args as [|[k x] args IH]; intros out s N C; cbn [own].
  - unfold deep_part. destruct (partition s) as [j [r|]]; reflexivity.
  - inversion N as [|? ? N1 N2]; subst. assert (Ck := C k x (or_introl eq_refl)). rewrite IH by (auto; intros; eapply C; right; eauto).
    rewrite lookup_set. cbn [lookup]. set (out' := match x with Estimator _ _ => _ | _ => out end).
    assert (L : lookup out' s = match partition s with (j, Some r) => if String.eqb j k then match lookup (get_params x) r with Some y => Some y | None => lookup out s end else lookup out s | _ => lookup out s end).
    { unfold out'. destruct x; try (destruct (partition s) as [j [r|]]; [now destruct (String.eqb j k)|reflexivity]).
      rewrite lookup_update by (apply nodup_prefixed, nodup_get). rewrite lookup_prefixed by auto. destruct (partition s) as [j [r|]]; [now destruct (String.eqb j k)|reflexivity]. }
    unfold deep_part. cbn [lookup]. destruct (partition s) as [j [r|]] eqn:P.
    + assert (k <> s). { intros ->. assert (E := partition_eq s). rewrite P in E. apply (proj1 Ck). eauto. }
      destruct (String.eqb_spec k s); [congruence|]. rewrite L. destruct (String.eqb_spec k j) as [->|].
      * apply lookup_none in N1. rewrite N1, String.eqb_refl. reflexivity.
      * destruct (String.eqb_spec j k); [congruence|]. reflexivity.
    + rewrite L. destruct (String.eqb_spec k s) as [->|]; [|reflexivity]. apply lookup_none in N1. now rewrite N1.
Qed.
Lemma each_lookup its : forall out s, NoDup (map fst its) -> (forall k x, In (k, x) its -> closed k) ->
  lookup (each its out) s = deep_part its s (lookup out s).
Proof.
  induction its as [|[k x] its IH]; intros out s N C; cbn [each].
  - unfold deep_part. destruct (partition s) as [j [r|]]; reflexivity.
  - inversion N as [|? ? N1 N2]; subst. assert (Ck := C k x (or_introl eq_refl)). rewrite IH by (auto; intros; eapply C; right; eauto).
    set (out' := match x with Estimator _ _ => _ | _ => out end).
    assert (L : lookup out' s = match partition s with (j, Some r) => if String.eqb j k then match lookup (get_params x) r with Some y => Some y | None => lookup out s end else lookup out s | _ => lookup out s end).
    { unfold out'. destruct x; try (destruct (partition s) as [j [r|]]; [now destruct (String.eqb j k)|reflexivity]).
      rewrite lookup_update by (apply nodup_prefixed, nodup_get). rewrite lookup_prefixed by auto. destruct (partition s) as [j [r|]]; [now destruct (String.eqb j k)|reflexivity]. }
    unfold deep_part. cbn [lookup]. destruct (partition s) as [j [r|]] eqn:P; [|exact L]. rewrite L. destruct (String.eqb_spec k j) as [->|].
    + apply lookup_none in N1. rewrite N1, String.eqb_refl. reflexivity.
    + destruct (String.eqb_spec j k); [congruence|]. reflexivity.
Qed.
Lemma members_spec args items composition : NoDup (map fst args) -> In ("estimators", Members items) args -> composition = true -> members_of composition args = items.
Proof. intros N I ->. unfold members_of. now rewrite (in_lookup _ _ _ N I). Qed.
(** the value of a key: an argument or a member, then down *)
Lemma get_lookup v s : wf v -> lookup (get_params v) s =
  match partition s with (k, None) => child v k | (k, Some r) => match child v k with Some x => lookup (get_params x) r | None => None end end.
Proof.
  intros W. destruct W as [a|items N C|composition args N C M].
  - cbn. destruct (partition s) as [k [r|]]; reflexivity.
  - cbn. destruct (partition s) as [k [r|]]; reflexivity.
  - assert (CC : forall k x, In (k, x) args -> closed k) by (intros k x H; now destruct (C k x H)).
    assert (PE := partition_eq s). rewrite get_params_eq. destruct composition.
    + destruct (M eq_refl) as (items & I & D). assert (LI := in_lookup _ _ _ N I). rewrite LI.
      destruct (C _ _ I) as [_ Wi]. inversion Wi as [|? Ni Ci|]; subst.
      assert (CCi : forall k x, In (k, x) items -> closed k) by (intros k x H; now destruct (Ci k x H)).
      rewrite each_lookup, lookup_update, own_lookup by auto. unfold deep_part. cbn [child members_of]. rewrite LI.
      destruct (partition s) as [k [r|]] eqn:P.
      * assert (LS : lookup items s = None).
        { destruct (lookup items s) eqn:E; [|reflexivity]. exfalso. apply lookup_in in E. apply (proj1 (CCi _ _ E)). eauto. }
        rewrite LS. destruct (lookup items k) as [x|] eqn:Ek.
        -- assert (NK : lookup args k = None) by (apply lookup_none; apply lookup_in in Ek; eapply D; eauto). rewrite NK.
           cbn [lookup]. now destruct (lookup (get_params x) r).
        -- destruct (lookup args k) as [x|]; [|reflexivity]. now destruct (lookup (get_params x) r).
      * subst k. destruct (lookup items s) as [x|] eqn:Ek.
        -- assert (NK : lookup args s = None) by (apply lookup_none; apply lookup_in in Ek; eapply D; eauto). now rewrite NK.
        -- destruct (lookup args s); reflexivity.
    + rewrite own_lookup by auto. unfold deep_part. cbn [child members_of lookup]. destruct (partition s) as [k [r|]] eqn:P.
      * destruct (lookup args k) as [x|]; [|reflexivity]. now destruct (lookup (get_params x) r).
      * subst k. destruct (lookup args s); reflexivity.
Qed.
Lemma named_child v k x : wf v -> named v k x <-> child v k = Some x.
Proof.
  intros W. destruct W as [a|items N C|composition args N C M]; cbn; [split; [intros []|discriminate]|split; [intros []|discriminate]|].
  split.
  - intros [H|(-> & items & I & H)]; [now rewrite (in_lookup _ _ _ N H)|]. destruct (M eq_refl) as (items' & I' & D).
    assert (E := in_lookup _ _ _ N I). assert (E' := in_lookup _ _ _ N I'). rewrite E in E'. injection E' as <-.
    assert (NK : lookup args k = None) by (apply lookup_none; eapply D; eauto). rewrite NK. unfold members_of. rewrite E. apply in_lookup; [|auto].
    destruct (C _ _ I) as [_ Wi]. now inversion Wi.
  - destruct (lookup args k) as [y|] eqn:E; intros H; [injection H as ->; left; now apply lookup_in|]. right. destruct composition; [|discriminate]. split; [reflexivity|].
    cbn in H. destruct (lookup args "estimators") as [[| |items]|] eqn:Ei; try discriminate. exists items. split; now apply lookup_in.
Qed.
Lemma child_wf v k x : wf v -> child v k = Some x -> wf x.
Proof.
  intros W H. apply named_child in H; [|auto]. destruct W as [a|items N C|composition args N C M]; cbn in H; [destruct H|destruct H|].
  destruct H as [H|(-> & items & I & H)]; [now destruct (C _ _ H)|]. destruct (C _ _ I) as [_ Wi]. inversion Wi as [|? Ni Ci|]; subst. now destruct (Ci _ _ H).
Qed.
Fixpoint at_path (v : value) (p : list string) : option value :=
  match p with [] => Some v | k :: p => match child v k with Some x => at_path x p | None => None end end.
Lemma at_reaches p : forall v x, wf v -> at_path v p = Some x <-> reaches v p x.
Proof.
  induction p as [|k p IH]; intros v x W; cbn [at_path].
  - split; [intros H; injection H as ->; constructor|]. intros H. now inversion H.
  - split.
    + destruct (child v k) as [y|] eqn:E; [|discriminate]. intros H. apply reaches_step with y; [now apply named_child|]. apply IH; [eapply child_wf; eauto|auto].
    + intros H. inversion H as [|? ? y ? ? Hn Hr]; subst. apply named_child in Hn; [|auto]. rewrite Hn. apply IH; [eapply child_wf; eauto|auto].
Qed.
Lemma get_at p : forall v, wf v -> path p -> lookup (get_params v) (key_of p) = at_path v p.
Proof.
  induction p as [|k p IH]; intros v W P; [destruct P|]. rewrite get_lookup, partition_key by auto. cbn [at_path]. destruct p as [|j p].
  - cbn. now destruct (child v k).
  - destruct (child v k) as [x|] eqn:E; [|reflexivity]. apply IH; [eapply child_wf; eauto|]. apply P.
Qed.

(** * C84 *)
(** get_params(): one entry per object that a path reaches, under the names of the path joined by "__", and nothing else *)
Theorem C84_get_params v : wf v -> NoDup (map fst (get_params v)) /\
  (forall p x, path p -> (In (key_of p, x) (get_params v) <-> reaches v p x)) /\
  (forall s x, In (s, x) (get_params v) -> exists p, path p /\ s = key_of p /\ reaches v p x).
Proof.
  intros W. split; [apply nodup_get|].
  assert (A : forall p x, path p -> (In (key_of p, x) (get_params v) <-> reaches v p x)).
  { intros p x P. rewrite <- at_reaches, <- get_at by auto. split; [apply in_lookup, nodup_get|apply lookup_in]. }
  split; [exact A|]. intros s x H. destruct (path_exists _ s (Nat.le_refl _)) as (p & P & <-). exists p. split; [auto|]. split; [auto|]. now apply A.
Qed.
Print Assumptions C84_get_params.

(** * set_params *)
Lemma in_set {A} (d : list (string * A)) k w : NoDup (map fst d) -> forall j y, In (j, y) (dict_set d k w) -> (j = k /\ y = w) \/ (j <> k /\ In (j, y) d).
Proof.
  intros N j y H. apply (in_lookup _ _ _ (nodup_set _ _ _ N)) in H. rewrite lookup_set in H. destruct (String.eqb_spec k j) as [->|].
  - injection H as <-. now left.
  - right. split; [congruence|]. now apply lookup_in.
Qed.
Lemma set_in {A} (d : list (string * A)) k w j y : NoDup (map fst d) -> j <> k -> In (j, y) d -> In (j, y) (dict_set d k w).
Proof. intros N J H. apply lookup_in. rewrite lookup_set. destruct (String.eqb_spec k j); [congruence|]. now apply in_lookup. Qed.
Lemma keys_set_in {A} (d : list (string * A)) k w : lookup d k <> None -> map fst (dict_set d k w) = map fst d.
Proof. intros H. rewrite keys_set. unfold member. now destruct (lookup d k). Qed.
Lemma wf_inv composition args : wf (Estimator composition args) -> NoDup (map fst args) /\ (forall k x, In (k, x) args -> closed k /\ wf x) /\
  (composition = true -> exists items, In ("estimators", Members items) args /\ forall k x, In (k, x) items -> ~ In k (map fst args)).
Proof. intros W. inversion W; subst. auto. Qed.
Lemma wf_set composition args k w : wf (Estimator composition args) -> lookup args k <> None -> k <> "estimators" -> wf w -> wf (Estimator composition (dict_set args k w)).
Proof.
  intros W L K Ww. apply wf_inv in W. destruct W as (N & C & M). constructor.
  - now apply nodup_set.
  - intros j y H. destruct (in_set _ _ _ N _ _ H) as [[-> ->]|[_ I]]; [|auto]. split; [|auto]. destruct (lookup args k) as [x|] eqn:E; [|congruence].
    apply lookup_in in E. now destruct (C _ _ E).
  - intros T. destruct (M T) as (items & I & D). exists items. split; [apply set_in; auto|]. intros j y H. rewrite keys_set_in by auto. eapply D; eauto.
Qed.
Lemma wf_set_member args items k y w : wf (Estimator true args) -> In ("estimators", Members items) args -> lookup items k = Some y -> wf w ->
  wf (Estimator true (dict_set args "estimators" (Members (dict_set items k w)))).
Proof.
  intros W I L Ww. apply wf_inv in W. destruct W as (N & C & M). destruct (M eq_refl) as (items' & I' & D).
  assert (E := in_lookup _ _ _ N I). assert (E' := in_lookup _ _ _ N I'). rewrite E in E'. injection E' as <-. destruct (C _ _ I) as [Ce Wi].
  inversion Wi as [|? Ni Ci|]; subst. constructor.
  - now apply nodup_set.
  - intros j z H. destruct (in_set _ _ _ N _ _ H) as [[-> ->]|[_ J]]; [|auto]. split; [auto|]. constructor; [now apply nodup_set|].
    intros i u G. destruct (in_set _ _ _ Ni _ _ G) as [[-> ->]|[_ J]]; [|auto]. split; [|auto]. apply lookup_in in L. now destruct (Ci _ _ L).
  - intros _. exists (dict_set items k w). split; [apply lookup_in; now rewrite lookup_set, String.eqb_refl|].
    intros j u G. rewrite keys_set_in by (rewrite E; discriminate). destruct (in_set _ _ _ Ni _ _ G) as [[-> _]|[_ J]]; [eapply D; eapply lookup_in; eauto|eapply D; eauto].
Qed.
Lemma members_lookup composition args k y : lookup (members_of composition args) k = Some y ->
  composition = true /\ exists items, lookup args "estimators" = Some (Members items) /\ members_of composition args = items /\ lookup items k = Some y.
Proof.
  unfold members_of. destruct composition; [|discriminate]. destruct (lookup args "estimators") as [[| |items]|]; try discriminate. intros H. split; [auto|]. eauto.
Qed.
Lemma members_set composition args k x : k <> "estimators" -> members_of composition (dict_set args k x) = members_of composition args.
Proof. intros K. unfold members_of. rewrite lookup_set. destruct (String.eqb_spec k "estimators"); [congruence|reflexivity]. Qed.
Lemma child_put composition args k y x j : k <> "estimators" -> child (Estimator composition args) k = Some y -> j <> "estimators" ->
  child (Estimator composition (put composition args k x)) j = if String.eqb k j then Some x else child (Estimator composition args) j.
Proof.
  intros K H J. cbn in H. unfold put, member. destruct (lookup args k) as [z|] eqn:E.
  - cbn. rewrite lookup_set, members_set by auto. destruct (String.eqb k j); reflexivity.
  - rewrite H. destruct (members_lookup _ _ _ _ H) as (-> & items & L & EM & Li). cbn [child]. rewrite lookup_set. destruct (String.eqb_spec "estimators" j); [congruence|].
    unfold members_of at 1. rewrite lookup_set, String.eqb_refl, EM, lookup_set. destruct (String.eqb_spec k j) as [->|]; [now rewrite E|].
    reflexivity.
Qed.
Lemma wf_put composition args k y x : wf (Estimator composition args) -> k <> "estimators" -> child (Estimator composition args) k = Some y -> wf x ->
  wf (Estimator composition (put composition args k x)).
Proof.
  intros W K H Wx. cbn in H. unfold put, member. destruct (lookup args k) as [z|] eqn:E; [apply wf_set; auto; congruence|].
  rewrite H. destruct (members_lookup _ _ _ _ H) as (-> & items & L & EM & Li). rewrite EM. eapply wf_set_member; eauto. now apply lookup_in.
Qed.

Definition group_of (nested : list (string * list (string * value))) (k : string) : list (string * value) :=
  match lookup nested k with Some g => g | None => [] end.
Lemma group_of_group nested k s w j : group_of (group nested k s w) j = if String.eqb k j then dict_set (group_of nested k) s w else group_of nested j.
Proof. unfold group_of, group. rewrite lookup_set. destruct (String.eqb_spec k j); reflexivity. Qed.
Lemma assign_spec valid ps : forall args nested args' nested', NoDup (map fst ps) -> assign valid ps args nested = (args', nested', None) ->
  (forall k, lookup args' k = match (if dunder k then None else lookup ps k) with Some w => Some w | None => lookup args k end) /\
  (forall k s, lookup (group_of nested' k) s = match (match partition (k ++ "__" ++ s) with (j, Some r) => if (String.eqb j k && String.eqb r s)%bool then lookup ps (k ++ "__" ++ s) else None | _ => None end) with
                                               | Some w => Some w | None => lookup (group_of nested k) s end) /\
  (forall k, member nested' k = true <-> member nested k = true \/ exists s, closed k /\ lookup ps (k ++ "__" ++ s) <> None) /\
  (forall key w, In (key, w) ps -> member valid (fst (partition key)) = true) /\
  (NoDup (map fst nested) -> NoDup (map fst nested')) /\
  ((forall k, NoDup (map fst (group_of nested k))) -> forall k, NoDup (map fst (group_of nested' k))).
Proof.
  induction ps as [|[key w] ps IH]; intros args nested args' nested' N H.
  - cbn in H. injection H as <- <-. split; [intros k; now destruct (dunder k)|]. split.
    { intros k s. cbn. destruct (partition _) as [j [r|]]; [now destruct (_ && _)%bool|reflexivity]. }
    split; [intros k; split; [auto|intros [G|(s & _ & G)]; [auto|now cbn in G]]|]. split; [intros ? ? []|auto].
  - inversion N as [|? ? N1 N2]; subst. cbn [fst] in N1. apply lookup_none in N1. cbn [assign] in H. assert (PE := partition_eq key).
    destruct (partition key) as [k0 sub] eqn:P. destruct (member valid k0) eqn:V; [|discriminate]. destruct sub as [s0|].
    + assert (C0 := partition_some_closed _ _ _ P).
      assert (DK : dunder key = true) by (unfold dunder; now rewrite P).
      destruct (IH _ _ _ _ N2 H) as (A & B & C & D & E & F). split; [|split; [|split; [|split; [|split]]]].
      * intros k. rewrite A. cbn [lookup]. destruct (String.eqb_spec key k) as [->|]; [now rewrite DK|reflexivity].
      * intros k s. rewrite B. cbn [lookup]. rewrite group_of_group. destruct (partition (k ++ "__" ++ s)) as [j [r|]] eqn:Pk.
        -- destruct (String.eqb_spec j k) as [->|Nj]; cbn [andb].
           ++ destruct (String.eqb_spec r s) as [->|Nr].
              ** destruct (String.eqb_spec key (k ++ "__" ++ s)) as [Ek|Nk].
                 --- rewrite <- Ek, N1. rewrite Ek, Pk in P. injection P as <- <-. rewrite String.eqb_refl, lookup_set, String.eqb_refl. reflexivity.
                 --- destruct (lookup ps (k ++ "__" ++ s)); [reflexivity|]. destruct (String.eqb_spec k0 k) as [->|]; [|reflexivity]. rewrite lookup_set.
                     destruct (String.eqb_spec s0 s) as [->|]; [|reflexivity]. congruence.
              ** destruct (String.eqb_spec k0 k) as [->|]; [|reflexivity]. rewrite lookup_set. destruct (String.eqb_spec s0 s) as [->|]; [|reflexivity].
                 rewrite partition_closed in Pk by auto. injection Pk as E1. congruence.
           ++ destruct (String.eqb_spec k0 k) as [->|]; [|reflexivity]. rewrite partition_closed in Pk by auto. injection Pk as E1. congruence.
        -- destruct (String.eqb_spec k0 k) as [->|]; [|reflexivity]. rewrite partition_closed in Pk by auto. discriminate.
      * intros k. rewrite C. unfold member at 1, group. rewrite lookup_set. destruct (String.eqb_spec k0 k) as [->|Nk].
        -- split; [intros _|tauto]. right. exists s0. split; [auto|]. cbn [lookup]. rewrite <- PE, String.eqb_refl. discriminate.
        -- split; intros [G|(s & Cs & G)]; [left; exact G| |left; exact G|].
           ++ right. exists s. split; [auto|]. cbn [lookup]. destruct (String.eqb key _); [discriminate|auto].
           ++ right. exists s. split; [auto|]. cbn [lookup] in G. destruct (String.eqb_spec key (k ++ "__" ++ s)) as [Ek|]; [|auto]. exfalso. apply Nk.
              rewrite Ek, partition_closed in P by auto. now injection P.
      * intros key' w' [G|G]; [injection G as <- <-; now rewrite P|eauto].
      * intros Q. apply E. unfold group. now apply nodup_set.
      * intros Q. apply F. intros k. rewrite group_of_group. destruct (String.eqb k0 k); [apply nodup_set|]; auto.
    + subst k0. assert (DK : dunder key = false) by (unfold dunder; now rewrite P).
      destruct (IH _ _ _ _ N2 H) as (A & B & C & D & E & F). split; [|split; [|split; [|split; [|split]]]]; auto.
      * intros k. rewrite A, lookup_set. cbn [lookup]. destruct (String.eqb_spec key k) as [->|]; [|reflexivity]. now rewrite DK, N1.
      * intros k s. rewrite B. cbn [lookup]. destruct (String.eqb_spec key (k ++ "__" ++ s)) as [Ek|]; [|reflexivity]. rewrite Ek, dunder_app in DK. discriminate.
      * intros k. rewrite C. split; intros [G|(s & Cs & G)]; auto; right; exists s; (split; [auto|]); cbn [lookup] in *; destruct (String.eqb_spec key (k ++ "__" ++ s)) as [Ek|]; auto; rewrite Ek, dunder_app in DK; discriminate.
      * intros key' w' [G|G]; [injection G as <- <-; now rewrite P|eauto].
Qed.
Lemma descend_spec rec composition nested : forall args args', NoDup (map fst nested) -> ~ In "estimators" (map fst nested) ->
  descend rec composition args nested = (args', None) -> wf (Estimator composition args) ->
  (forall k sub x x', In (k, sub) nested -> wf x -> rec x sub = (x', None) -> wf x') ->
  wf (Estimator composition args') /\
  forall k, k <> "estimators" ->
    match lookup nested k with
    | None => child (Estimator composition args') k = child (Estimator composition args) k
    | Some sub => exists x x', child (Estimator composition args) k = Some x /\ rec x sub = (x', None) /\ child (Estimator composition args') k = Some x'
    end.
Proof.
  induction nested as [|[k sub] nested IH]; intros args args' N NE H W R.
  - cbn in H. injection H as <-. split; [auto|]. intros k _. reflexivity.
  - inversion N as [|? ? N1 N2]; subst. cbn [descend] in H. cbn [map fst In] in NE. destruct (child (Estimator composition args) k) as [x|] eqn:E; [|discriminate].
    destruct (rec x sub) as [x' [e|]] eqn:Er; [discriminate|]. assert (K : k <> "estimators") by (intros ->; tauto).
    assert (Wx : wf x) by (eapply child_wf; eauto). assert (Wx' : wf x') by (eapply R; [left; reflexivity|exact Wx|exact Er]).
    destruct (IH _ _ N2 ltac:(tauto) H) as [W' IH'].
    + eapply wf_put; eauto.
    + intros; eapply R; [right; eassumption|eassumption|eassumption].
    + split; [exact W'|]. intros j J. specialize (IH' j J). cbn [lookup]. rewrite (child_put _ _ _ x) in IH' by auto. destruct (String.eqb_spec k j) as [->|].
      * apply lookup_none in N1. cbn [fst] in N1. rewrite N1 in IH'. eauto.
      * exact IH'.
Qed.
Lemma first_named_none items ps k w : first_named items ps = None -> In (k, w) ps -> dunder k = false -> lookup items k = None.
Proof.
  unfold first_named. intros H I D. assert (G := find_none _ _ H _ I). cbn [fst] in G. rewrite D in G. cbn in G. unfold member in G. now destruct (lookup items k).
Qed.
Lemma remove_none {A} (ps : list (string * A)) k : lookup ps k = None -> remove ps k = ps.
Proof.
  unfold remove. induction ps as [|[j w] ps IH]; cbn; [auto|]. destruct (String.eqb_spec j k); [discriminate|]. cbn. intros H. now rewrite IH.
Qed.
Lemma estimators_simple : simple "estimators".
Proof. now apply dunder_spec. Qed.
Definition no_list (ps : list (string * value)) : Prop := forall q u, path q -> lookup ps (key_of q) = Some u -> ~ In "estimators" q.
Lemma set_main fuel : forall v ps v', wf v -> NoDup (map fst ps) -> (forall k w, lookup ps k = Some w -> wf w) -> no_list ps ->
  set_params fuel v ps = (v', None) ->
  wf v' /\ forall p, path p -> ~ In "estimators" p ->
    (forall w, lookup ps (key_of p) = Some w -> (forall q u, path q -> lookup ps (key_of q) = Some u -> prefix p q -> q = p) -> at_path v' p = Some w) /\
    ((forall q u, path q -> lookup ps (key_of q) = Some u -> ~ prefix q p /\ ~ prefix p q) -> at_path v' p = at_path v p).
Proof.
  induction fuel as [|fuel IH]; intros v ps v' W N Wp NL H; [discriminate|]. cbn [set_params] in H. destruct v as [a|composition args|items]; [discriminate| |discriminate].
  assert (LE : lookup ps "estimators" = None).
  { destruct (lookup ps "estimators") as [l|] eqn:E; [|reflexivity]. exfalso. apply (NL ["estimators"] l estimators_simple E). now left. }
  rewrite LE, remove_none in H by auto. replace (if composition then args else args) with args in H by now destruct composition.
  replace (if composition then ps else ps) with ps in H by now destruct composition.
  destruct (first_named _ ps) as [[name w]|] eqn:FN; [discriminate|].
  destruct ps as [|p0 ps0].
  { injection H as <-. split; [auto|]. intros p P _. split; [intros w G; discriminate|reflexivity]. }
  set (ps := p0 :: ps0) in *. destruct (assign _ ps args []) as [[args1 nested] [e|]] eqn:EA; [discriminate|].
  destruct (assign_spec _ _ _ _ _ _ N EA) as (A & B & C & D & E & F).
  specialize (E (NoDup_nil _)). assert (F' : forall k, NoDup (map fst (group_of nested k))) by (apply F; intros k; constructor). clear F.
  destruct (descend (set_params fuel) composition args1 nested) as [args2 [e|]] eqn:ED; [discriminate|]. injection H as <-.
  (* the names set at this level are arguments *)
  assert (TOP : forall k w, dunder k = false -> lookup ps k = Some w -> lookup args k <> None /\ k <> "estimators").
  { intros k w Dk L. assert (I := lookup_in _ _ _ L). specialize (D _ _ I). rewrite dunder_false_partition in D by auto. cbn [fst] in D.
    assert (G := get_lookup (Estimator composition args) k W). rewrite dunder_false_partition in G by auto. unfold member in D. rewrite G in D. cbn [child] in D.
    rewrite (first_named_none _ _ _ _ FN I Dk) in D. split; [now destruct (lookup args k)|]. intros ->. congruence. }
  assert (WA : wf (Estimator composition args1) /\ members_of composition args1 = members_of composition args).
  { assert (G : forall l args0, (forall k w, In (k, w) l -> dunder k = false -> lookup args0 k <> None /\ k <> "estimators" /\ wf w) -> wf (Estimator composition args0) ->
        forall valid nest a n, assign valid l args0 nest = (a, n, None) -> wf (Estimator composition a) /\ members_of composition a = members_of composition args0).
    { induction l as [|[key w] l IHl]; intros args0 Hl W0 valid nest a n Ha; cbn in Ha; [injection Ha as <- <-; auto|].
      assert (PE := partition_eq key). destruct (partition key) as [k [s|]] eqn:P; (destruct (member valid k); [|discriminate]).
      - eapply IHl; [|exact W0|exact Ha]. intros; apply Hl; [now right|auto].
      - subst k. assert (Dk : dunder key = false) by (unfold dunder; now rewrite P). destruct (Hl key w (or_introl eq_refl) Dk) as (L & K & Ww).
        destruct (IHl (dict_set args0 key w)) with (3 := Ha) as [Q1 Q2].
        + intros j u Hj Dj. destruct (Hl j u (or_intror Hj) Dj) as (L' & K' & W'). split; [|auto]. rewrite lookup_set. destruct (String.eqb key j); [discriminate|auto].
        + now apply wf_set.
        + split; [auto|]. rewrite Q2. now apply members_set. }
    eapply G; [|exact W|exact EA]. intros k w I Dk. assert (L := in_lookup _ _ _ N I). destruct (TOP _ _ Dk L). split; [auto|]. split; [auto|]. now apply (Wp k). }
  destruct WA as [WA MA].
  assert (LN : forall k sub, In (k, sub) nested -> closed k /\ k <> "estimators" /\ sub = group_of nested k).
  { intros k sub I. assert (L := in_lookup _ _ _ E I). assert (Mk : member nested k = true) by (unfold member; now rewrite L).
    apply C in Mk. destruct Mk as [Mk|(s & Ck & Ls)]; [discriminate|]. split; [auto|]. split; [|unfold group_of; now rewrite L].
    destruct (lookup ps (k ++ "__" ++ s)) as [u|] eqn:Lu; [|congruence]. destruct (path_exists _ s (Nat.le_refl _)) as (q & Hq & <-). intros ->.
    apply (NL ("estimators" :: q) u); [apply path_cons; [now apply path_ne|]; auto|rewrite key_of_cons by (now apply path_ne); exact Lu|now left]. }
  assert (SUB : forall k q, closed k -> path q -> lookup (group_of nested k) (key_of q) = lookup ps (key_of (k :: q))).
  { intros k q Ck Pq. rewrite B, partition_closed, !String.eqb_refl by auto. cbn [andb]. rewrite key_of_cons by now apply path_ne. destruct (lookup ps (k ++ "__" ++ key_of q)); reflexivity. }
  assert (SUBW : forall k s w, lookup (group_of nested k) s = Some w -> closed k /\ lookup ps (k ++ "__" ++ s) = Some w).
  { intros k s w L. rewrite B in L. destruct (partition _) as [j [r|]] eqn:P; [|(unfold group_of in L; cbn [lookup andb] in L; discriminate)]. destruct (String.eqb_spec j k) as [->|]; [|(unfold group_of in L; cbn [lookup andb] in L; discriminate)].
    destruct (String.eqb_spec r s) as [->|]; [|(unfold group_of in L; cbn [lookup andb] in L; discriminate)]. cbn [andb] in L. destruct (lookup ps (k ++ "__" ++ s)) as [z|]; [|unfold group_of in L; cbn [lookup] in L; discriminate]. split; [eapply partition_some_closed; eauto|]. exact L. }
  assert (SUBNL : forall k, no_list (group_of nested k)).
  { intros k q u Pq L I. destruct (SUBW _ _ _ L) as [Ck _]. rewrite SUB in L by auto. apply (NL _ _ (proj2 (path_cons k q (path_ne _ Pq)) (conj Ck Pq)) L). now right. }
  assert (SUBWF : forall k s w, lookup (group_of nested k) s = Some w -> wf w) by (intros k s w L; destruct (SUBW _ _ _ L) as [_ L']; eauto).
  destruct (descend_spec (set_params fuel) composition nested args1 args2 E) as [W2 DS].
  { intros I. apply in_map_iff in I. destruct I as ([k sub] & Ek & I). cbn in Ek. subst k. destruct (LN _ _ I) as (_ & Q & _). congruence. }
  { exact ED. }
  { exact WA. }
  { intros k sub x x' I Wx R. destruct (LN _ _ I) as (_ & _ & ->). destruct (IH x (group_of nested k) x' Wx (F' k) (SUBWF k) (SUBNL k) R) as [Q _]. exact Q. }
  split; [exact W2|]. intros p P NP. destruct p as [|k p]; [destruct P|].
  assert (K : k <> "estimators") by (intros ->; apply NP; now left).
  assert (C1 : child (Estimator composition args1) k = match (if dunder k then None else lookup ps k) with Some w => Some w | None => child (Estimator composition args) k end).
  { cbn [child]. rewrite A, MA. now destruct (if dunder k then None else lookup ps k). }
  specialize (DS k K). cbn [at_path].
  assert (SK : simple k) by (destruct p; [exact P|apply P]). assert (DK := proj2 (dunder_spec k) SK). rewrite DK in C1. destruct p as [|k2 p'].
  - (* a name of this level *)
    assert (NG : forall u, (forall q u, path q -> lookup ps (key_of q) = Some u -> prefix [k] q -> q = [k]) -> lookup nested k = Some u -> False).
    { intros u Q L. assert (Mk : member nested k = true) by (unfold member; now rewrite L). apply C in Mk. destruct Mk as [Mk|(s & Ck & Ls)]; [discriminate|].
      destruct (path_exists _ s (Nat.le_refl _)) as (q & Hq & <-). destruct (lookup ps (k ++ "__" ++ key_of q)) as [z|] eqn:Lz; [|congruence].
      assert (G : k :: q = [k]); [|injection G as G; apply (path_ne _ Hq G)]. apply (Q _ z); [apply path_cons; [now apply path_ne|]; auto|rewrite key_of_cons by (now apply path_ne); exact Lz|]. now exists q. }
    split.
    + intros w L Q. cbn [key_of] in L. rewrite L in C1. destruct (lookup nested k) as [u|] eqn:Ln; [exfalso; eapply NG; [exact Q|reflexivity]|]. cbn [at_path]. now rewrite DS, C1.
    + intros Q. assert (L : lookup ps k = None).
      { destruct (lookup ps k) as [w|] eqn:L; [|reflexivity]. exfalso. destruct (Q [k] w SK L) as [Q1 _]. apply Q1. exists []. reflexivity. }
      rewrite L in C1. destruct (lookup nested k) as [u|] eqn:Ln; [|now rewrite DS, C1]. exfalso. eapply NG; [|reflexivity].
      intros q u' Pq Lq Hq. exfalso. now destruct (Q q u' Pq Lq).
  - (* a name below *)
    set (p := k2 :: p') in *. assert (Ck : closed k) by apply P. assert (Pp : path p) by apply P. assert (NPp : ~ In "estimators" p) by (intros I; apply NP; now right).
    destruct (lookup nested k) as [sub|] eqn:Ln.
    + destruct DS as (x & x' & Cx & Rx & Cx'). destruct (LN k sub (lookup_in _ _ _ Ln)) as (_ & _ & ->).
      assert (Wx : wf x) by (eapply child_wf; [exact WA|exact Cx]).
      destruct (IH x (group_of nested k) x' Wx (F' k) (SUBWF k) (SUBNL k) Rx) as [_ R]. destruct (R p Pp NPp) as [R1 R2]. rewrite Cx'. split.
      * intros w L Q. apply R1; [now rewrite SUB|]. intros q u Pq Lq Hq. rewrite SUB in Lq by auto.
        assert (G : k :: q = k :: p); [|now injection G]. apply (Q (k :: q) u); [apply path_cons; [now apply path_ne|]; auto|exact Lq|]. destruct Hq as [r ->]. now exists r.
      * intros Q. assert (L : lookup ps k = None).
        { destruct (lookup ps k) as [w|] eqn:L; [|reflexivity]. exfalso. destruct (Q [k] w SK L) as [Q1 _]. apply Q1. exists p. reflexivity. }
        rewrite L in C1. rewrite Cx in C1. rewrite <- C1. apply R2. intros q u Pq Lq. rewrite SUB in Lq by auto.
        destruct (Q (k :: q) u) as [Q1 Q2]; [apply path_cons; [now apply path_ne|]; auto|exact Lq|].
        split; intros [r G]; [apply Q1|apply Q2]; exists r; cbn; now rewrite G.
    + split.
      * intros w L Q. exfalso. assert (Mk : member nested k = true).
        { apply C. right. exists (key_of p). split; [auto|]. rewrite <- key_of_cons by now apply path_ne. now rewrite L. }
        unfold member in Mk. rewrite Ln in Mk. discriminate.
      * intros Q. assert (L : lookup ps k = None).
        { destruct (lookup ps k) as [w|] eqn:L; [|reflexivity]. exfalso. destruct (Q [k] w SK L) as [Q1 _]. apply Q1. exists p. reflexivity. }
        rewrite L in C1. now rewrite DS, C1.
Qed.

(** set_params then get_params: when set_params(ps) returns, the keys of ps have the values given (a longer key of ps changes the
    object given by a shorter one), and the keys that are neither above nor below a key of ps keep their values.  Replacing the
    whole list of a composition is [C84_set_list]. *)
Theorem C84_set_params v ps v' : wf v -> NoDup (map fst ps) -> (forall k w, In (k, w) ps -> wf w) ->
  (forall q u, path q -> In (key_of q, u) ps -> ~ In "estimators" q) -> set_params_all v ps = (v', None) ->
  wf v' /\
  (forall p w, path p -> In (key_of p, w) ps -> (forall q u, path q -> In (key_of q, u) ps -> prefix p q -> q = p) -> In (key_of p, w) (get_params v')) /\
  (forall p x, path p -> ~ In "estimators" p -> (forall q u, path q -> In (key_of q, u) ps -> ~ prefix q p /\ ~ prefix p q) ->
     (In (key_of p, x) (get_params v') <-> In (key_of p, x) (get_params v))).
Proof.
  intros W N Wp NL H. unfold set_params_all in H. set (fuel := S _) in H. destruct (set_main fuel v ps v' W N) with (3 := H) as [W' M].
  - intros k w L. exact (Wp k w (lookup_in _ _ _ L)).
  - intros q u Pq L. exact (NL q u Pq (lookup_in _ _ _ L)).
  - split; [auto|]. split.
    + intros p w P I Q. assert (NP := NL p w P I). destruct (M p P NP) as [M1 _]. apply lookup_in. rewrite get_at by auto. apply M1; [now apply in_lookup|].
      intros q u Pq L. apply (Q q u); [auto|]. now apply lookup_in.
    + intros p x P NP Q. destruct (M p P NP) as [_ M2]. assert (E : lookup (get_params v') (key_of p) = lookup (get_params v) (key_of p)).
      { rewrite !get_at by auto. apply M2. intros q u Pq L. apply (Q q u); [auto|]. now apply lookup_in. }
      split; intros I; apply lookup_in; apply in_lookup in I; try apply nodup_get; congruence.
Qed.
Print Assumptions C84_set_params.

(** ** when set_params returns *)
Lemma by_name_cons v k x q : wf v -> child v k = Some x -> q <> [] -> by_name v (k :: q) <-> by_name x q.
Proof.
  intros W C Q. split.
  - intros (q0 & j & args & items & y & E & R & I & J). destruct q0 as [|k' q0]; [injection E as _ ->; congruence|]. injection E as -> ->.
    inversion R as [|? ? z ? ? Hn Hr]; subst. apply named_child in Hn; [|auto]. rewrite C in Hn. injection Hn as <-. exists q0, j, args, items, y. auto.
  - intros (q0 & j & args & items & y & -> & R & I & J). exists (k :: q0), j, args, items, y. split; [reflexivity|]. split; [|auto]. apply reaches_step with x; [now apply named_child|auto].
Qed.
Lemma by_name_one composition args k : wf (Estimator composition args) -> by_name (Estimator composition args) [k] <-> lookup (members_of composition args) k <> None.
Proof.
  intros W. destruct (wf_inv _ _ W) as (N & C & M). split.
  - intros (q0 & j & args' & items & y & E & R & I & J). destruct q0 as [|k' q0]; [|destruct q0; discriminate]. injection E as <-. inversion R; subst.
    rewrite (members_spec _ items) by auto. destruct (C _ _ I) as [_ Wi]. inversion Wi as [|? Ni Ci|]; subst. rewrite (in_lookup _ _ _ Ni J). discriminate.
  - intros H. destruct (lookup _ k) as [y|] eqn:E; [|congruence]. destruct (members_lookup _ _ _ _ E) as (-> & items & L & _ & Li).
    exists [], k, args, items, y. split; [reflexivity|]. split; [constructor|]. split; now apply lookup_in.
Qed.
Lemma reaches_at v q : wf v -> (exists x, reaches v q x) <-> at_path v q <> None.
Proof.
  intros W. split.
  - intros (x & R). apply at_reaches in R; [|auto]. now rewrite R.
  - intros H. destruct (at_path v q) as [x|] eqn:E; [|congruence]. exists x. now apply at_reaches.
Qed.
Lemma set_one fuel : forall v q w, wf v -> path q -> (String.length (key_of q) < fuel)%nat ->
  (exists v', set_params fuel v [(key_of q, w)] = (v', None)) <-> at_path v q <> None /\ ~ by_name v q.
Proof.
  induction fuel as [|fuel IH]; intros v q w W P L; [lia|]. destruct q as [|k q]; [destruct P|]. cbn [set_params].
  destruct v as [a|composition args|items]; [split; [intros (v' & H); discriminate|intros [H _]; cbn in H; congruence]| |split; [intros (v' & H); discriminate|intros [H _]; cbn in H; congruence]].
  destruct (wf_inv _ _ W) as (N & C & M).
  assert (GL := get_lookup (Estimator composition args) (key_of (k :: q)) W).
  destruct q as [|k2 q'].
  - cbn [key_of] in *. assert (SK : simple k) by exact P. assert (DK := proj2 (dunder_spec k) SK). assert (PK := dunder_false_partition k DK).
    rewrite PK in GL. cbn [at_path]. rewrite by_name_one by auto. cbn [lookup].
    destruct (composition && String.eqb k "estimators")%bool eqn:EE.
    + apply andb_prop in EE. destruct EE as [-> EE]. rewrite EE. apply String.eqb_eq in EE. subst k. cbn [remove filter fst negb String.eqb]. cbn [first_named find].
      split; [intros _|intros _; eexists; reflexivity]. destruct (M eq_refl) as (items & I & D). split.
      * cbn [child]. rewrite (in_lookup _ _ _ N I). discriminate.
      * rewrite (members_spec _ items) by auto. intros H. destruct (lookup items "estimators") as [y|] eqn:E; [|congruence]. apply (D _ _ (lookup_in _ _ _ E)). apply in_map_iff. now exists ("estimators", Members items).
    + assert (E1 : (if composition then match (if String.eqb k "estimators" then Some w else None) with Some l => dict_set args "estimators" l | None => args end else args) = args)
        by (destruct composition; [|reflexivity]; cbn in EE; now rewrite EE).
      assert (E2 : (if composition then remove [(k, w)] "estimators" else [(k, w)]) = [(k, w)])
        by (destruct composition; [|reflexivity]; cbn in EE; unfold remove; cbn [filter fst]; now rewrite EE).
      rewrite E1, E2. unfold first_named. cbn [find fst]. rewrite DK. cbn [negb andb]. unfold member at 1.
      destruct (lookup (members_of composition args) k) as [y|] eqn:EM.
      * split; [intros (v' & H); discriminate|]. intros [_ H]. exfalso. apply H. discriminate.
      * cbn [assign]. rewrite PK. unfold member. rewrite GL. cbn [child]. rewrite EM. destruct (lookup args k) as [x|].
        -- cbn [descend]. split; [intros _; split; [discriminate|auto]|intros _; eexists; reflexivity].
        -- split; [intros (v' & H); discriminate|intros [H _]; congruence].
  - set (q := k2 :: q') in *. assert (Ck : closed k) by apply P. assert (Pq : path q) by apply P.
    rewrite key_of_cons in * by (now apply path_ne). set (key := k ++ "__" ++ key_of q) in *.
    assert (DK : dunder key = true) by apply dunder_app. assert (PK : partition key = (k, Some (key_of q))) by now apply partition_closed.
    assert (NE : String.eqb key "estimators" = false) by (destruct (String.eqb_spec key "estimators") as [E|]; [rewrite E in DK; discriminate|reflexivity]).
    cbn [lookup remove filter fst]. rewrite NE. cbn [negb].
    replace (if composition then args else args) with args by now destruct composition. replace (if composition then [(key, w)] else [(key, w)]) with [(key, w)] by now destruct composition.
    unfold first_named. cbn [find fst]. rewrite DK. cbn [negb andb]. cbn [assign]. rewrite PK.
    assert (GK := get_lookup (Estimator composition args) k W). rewrite dunder_false_partition in GK by (apply dunder_spec, Ck).
    unfold member. rewrite GK. cbn [at_path]. destruct (child (Estimator composition args) k) as [x|] eqn:EC.
    + cbn [group dict_set lookup descend]. rewrite EC. assert (Wx : wf x) by (eapply child_wf; eauto).
      rewrite (by_name_cons _ _ x) by (auto; now apply path_ne).
      assert (LL : (String.length (key_of q) < fuel)%nat) by (unfold key in L; rewrite !append_length in L; change (String.length "__") with 2%nat in L; lia).
      rewrite <- (IH x q w Wx Pq LL). split.
      * intros (v' & H). destruct (set_params fuel x [(key_of q, w)]) as [x' [e|]] eqn:R; [discriminate|]. eauto.
      * intros (x' & R). rewrite R. eexists. reflexivity.
    + split; [intros (v' & H); discriminate|intros [H _]; congruence].
Qed.
(** One parameter is set exactly when get_params lists it and it is not a member given by name. *)
Theorem C84_set_one v q w : wf v -> path q ->
  (exists v', set_params_all v [(key_of q, w)] = (v', None)) <-> (exists x, In (key_of q, x) (get_params v)) /\ ~ by_name v q.
Proof.
  intros W P. unfold set_params_all. cbn [map fold_right fst]. rewrite set_one by (auto; lia). rewrite <- reaches_at by auto.
  assert (E : (exists x, reaches v q x) <-> (exists x, In (key_of q, x) (get_params v))).
  { destruct (C84_get_params v W) as (_ & A & _). split; intros (x & H); exists x; now apply A. }
  now rewrite E.
Qed.
Print Assumptions C84_set_one.

Lemma assign_ok valid ps : (forall key w, In (key, w) ps -> member valid (fst (partition key)) = true) ->
  forall args nested, exists args' nested', assign valid ps args nested = (args', nested', None).
Proof.
  induction ps as [|[key w] ps IH]; intros H args nested; [eexists; eexists; reflexivity|]. cbn [assign]. assert (G := H key w (or_introl eq_refl)).
  destruct (partition key) as [k [s|]]; cbn [fst] in G; rewrite G; apply IH; intros; eapply H; right; eauto.
Qed.
Lemma descend_ok rec composition nested : forall args, NoDup (map fst nested) -> ~ In "estimators" (map fst nested) ->
  (forall k sub, In (k, sub) nested -> exists x x', child (Estimator composition args) k = Some x /\ rec x sub = (x', None)) ->
  exists args', descend rec composition args nested = (args', None).
Proof.
  induction nested as [|[k sub] nested IH]; intros args N NE H; [eexists; reflexivity|]. inversion N as [|? ? N1 N2]; subst. cbn [fst] in N1. cbn [map fst In] in NE.
  destruct (H k sub (or_introl eq_refl)) as (x & x' & C & R). cbn [descend]. rewrite C, R. apply IH; [auto|tauto|].
  intros j s I. destruct (H j s (or_intror I)) as (y & y' & Cy & Ry). exists y, y'. split; [|auto].
  assert (J : j <> "estimators") by (intros ->; apply NE; right; apply in_map_iff; now exists ("estimators", s)).
  rewrite (child_put _ _ _ x) by (auto; intros ->; tauto). destruct (String.eqb_spec k j) as [->|]; [|auto]. exfalso. apply N1. apply in_map_iff. now exists (j, s).
Qed.
Lemma set_many fuel : forall v ps, wf v -> ps <> [] -> NoDup (map fst ps) -> no_list ps ->
  (forall q u, path q -> lookup ps (key_of q) = Some u -> at_path v q <> None /\ ~ by_name v q /\ (String.length (key_of q) < fuel)%nat) ->
  (forall q q' u u', path q -> path q' -> lookup ps (key_of q) = Some u -> lookup ps (key_of q') = Some u' -> prefix q q' -> q = q') ->
  exists v', set_params fuel v ps = (v', None).
Proof.
  induction fuel as [|fuel IH]; intros v ps W NE N NL H PI.
  { destruct ps as [|[s u] ps]; [congruence|]. destruct (path_exists _ s (Nat.le_refl _)) as (q & Pq & <-). destruct (H q u Pq) as (_ & _ & G); [cbn; now rewrite String.eqb_refl|lia]. }
  assert (KEY : forall key w, In (key, w) ps -> exists k q, path (k :: q) /\ key = key_of (k :: q) /\ lookup ps key = Some w).
  { intros key w I. destruct (path_exists _ key (Nat.le_refl _)) as (q & Pq & <-). destruct q as [|k q]; [destruct Pq|]. exists k, q. split; [auto|]. split; [auto|]. now apply in_lookup. }
  destruct v as [a|composition args|items].
  { exfalso. destruct ps as [|[s u] ps]; [congruence|]. destruct (KEY s u (or_introl eq_refl)) as (k & q & Pq & -> & L). destruct (H _ _ Pq L) as (G & _). cbn in G. congruence. }
  2:{ exfalso. destruct ps as [|[s u] ps]; [congruence|]. destruct (KEY s u (or_introl eq_refl)) as (k & q & Pq & -> & L). destruct (H _ _ Pq L) as (G & _). cbn in G. congruence. }
  assert (LE : lookup ps "estimators" = None).
  { destruct (lookup ps "estimators") as [l|] eqn:E; [|reflexivity]. exfalso. apply (NL ["estimators"] l estimators_simple E). now left. }
  cbn [set_params]. rewrite LE, remove_none by auto. replace (if composition then args else args) with args by now destruct composition.
  replace (if composition then ps else ps) with ps by now destruct composition.
  destruct (first_named (members_of composition args) ps) as [[name w]|] eqn:FN.
  { exfalso. unfold first_named in FN. apply find_some in FN. destruct FN as [I F]. cbn [fst] in F. apply andb_prop in F. destruct F as [F1 F2]. apply negb_true_iff in F1.
    assert (S := proj1 (dunder_spec name) F1). destruct (H [name] w S (in_lookup _ _ _ N I)) as (_ & B & _). apply B. apply by_name_one; [auto|]. unfold member in F2. now destruct (lookup _ name). }
  assert (V : forall key w, In (key, w) ps -> member (get_params (Estimator composition args)) (fst (partition key)) = true).
  { intros key w I. destruct (KEY _ _ I) as (k & q & Pq & -> & L). rewrite partition_key by auto. cbn [fst]. destruct (H _ _ Pq L) as (A & _). cbn [at_path] in A.
    assert (S : simple k) by (destruct q; [exact Pq|apply Pq]). unfold member. rewrite get_lookup by auto. rewrite dunder_false_partition by now apply dunder_spec.
    destruct (child (Estimator composition args) k); [reflexivity|congruence]. }
  destruct (assign_ok _ ps V args []) as (args1 & nested & EA). rewrite EA. destruct (assign_spec _ _ _ _ _ _ N EA) as (A & B & C & _ & E & F).
  specialize (E (NoDup_nil _)). assert (F' : forall k, NoDup (map fst (group_of nested k))) by (apply F; intros k; constructor). clear F.
  assert (GN : forall k sub, In (k, sub) nested -> closed k /\ k <> "estimators" /\ sub = group_of nested k /\ lookup ps k = None /\ exists q u, path q /\ lookup ps (key_of (k :: q)) = Some u).
  { intros k sub I. assert (L := in_lookup _ _ _ E I). assert (Mk : member nested k = true) by (unfold member; now rewrite L).
    apply C in Mk. destruct Mk as [Mk|(s & Ck & Ls)]; [discriminate|]. destruct (lookup ps (k ++ "__" ++ s)) as [u|] eqn:Lu; [|congruence].
    destruct (path_exists _ s (Nat.le_refl _)) as (q & Hq & <-). assert (Lq : lookup ps (key_of (k :: q)) = Some u) by (rewrite key_of_cons by (now apply path_ne); exact Lu).
    assert (Pkq : path (k :: q)) by (apply path_cons; [now apply path_ne|auto]).
    split; [auto|]. split; [intros ->; apply (NL _ _ Pkq Lq); now left|]. split; [unfold group_of; now rewrite L|]. split; [|eauto].
    destruct (lookup ps k) as [z|] eqn:Lz; [|reflexivity]. exfalso. assert (G : [k] = k :: q); [|injection G as G; apply (path_ne _ Hq); auto].
    apply (PI [k] (k :: q) z u); auto; [apply Ck|now exists q]. }
  assert (SUB : forall k q, closed k -> path q -> lookup (group_of nested k) (key_of q) = lookup ps (key_of (k :: q))).
  { intros k q Ck Pq. rewrite B, partition_closed, !String.eqb_refl by auto. cbn [andb]. rewrite key_of_cons by now apply path_ne. destruct (lookup ps (k ++ "__" ++ key_of q)); reflexivity. }
  assert (MA : members_of composition args1 = members_of composition args) by (unfold members_of; rewrite A, LE; reflexivity).
  destruct (descend_ok (set_params fuel) composition nested args1 E) as (args2 & ED).
  { intros I. apply in_map_iff in I. destruct I as ([k sub] & Ek & I). cbn in Ek. subst k. destruct (GN _ _ I) as (_ & Q & _). congruence. }
  { intros k sub I. destruct (GN _ _ I) as (Ck & Ke & Es & Lk & q & u & Pq & Lq). subst sub.
    assert (Pkq : path (k :: q)) by (apply path_cons; [now apply path_ne|auto]). destruct (H _ _ Pkq Lq) as (AT & _). cbn [at_path] in AT.
    destruct (child (Estimator composition args) k) as [x|] eqn:EC; [|congruence]. assert (Wx : wf x) by (eapply child_wf; eauto).
    destruct (IH x (group_of nested k)) as (x' & R); auto.
    - intros G. assert (S := SUB k q Ck Pq). rewrite G, Lq in S. discriminate.
    - intros q' u' Pq' L' I'. rewrite SUB in L' by auto. apply (NL (k :: q') u'); [apply path_cons; [now apply path_ne|auto]|auto|now right].
    - intros q' u' Pq' L'. rewrite SUB in L' by auto. assert (P' : path (k :: q')) by (apply path_cons; [now apply path_ne|auto]). destruct (H _ _ P' L') as (H1 & H2 & H3).
      cbn [at_path] in H1. rewrite EC in H1. rewrite (by_name_cons _ _ x) in H2 by (auto; now apply path_ne). split; [auto|]. split; [auto|].
      rewrite key_of_cons, !append_length in H3 by (now apply path_ne). change (String.length "__") with 2%nat in H3. lia.
    - intros q1 q2 u1 u2 P1 P2 L1 L2 Hp. rewrite SUB in L1, L2 by auto. assert (G : k :: q1 = k :: q2); [|now injection G].
      apply (PI _ _ u1 u2); auto; [apply path_cons; [now apply path_ne|auto]|apply path_cons; [now apply path_ne|auto]|]. destruct Hp as [r ->]. now exists r.
    - exists x, x'. split; [|auto]. cbn [child] in *. rewrite A, MA, Lk. destruct (dunder k); exact EC. }
  rewrite ED. destruct ps; [congruence|]. eexists. reflexivity.
Qed.
(** Several parameters are set together when get_params lists each of them, none is a member given by name or a list of members, and
    none is above another. *)
Theorem C84_set_many v ps : wf v -> ps <> [] -> NoDup (map fst ps) ->
  (forall q u, path q -> In (key_of q, u) ps -> (exists x, In (key_of q, x) (get_params v)) /\ ~ by_name v q /\ ~ In "estimators" q) ->
  (forall q q' u u', path q -> path q' -> In (key_of q, u) ps -> In (key_of q', u') ps -> prefix q q' -> q = q') ->
  exists v', set_params_all v ps = (v', None).
Proof.
  intros W NE N H PI. apply set_many; auto.
  - intros q u Pq L. now apply (H q u Pq), lookup_in.
  - intros q u Pq L. destruct (H q u Pq (lookup_in _ _ _ L)) as ((x & I) & B & _). split; [|split; [auto|]].
    + rewrite <- get_at by auto. rewrite (in_lookup _ _ _ (nodup_get v) I). discriminate.
    + apply lookup_in in L. assert (forall l, In (key_of q, u) l -> (String.length (key_of q) <= fold_right Nat.max 0 (map (fun p => String.length (fst p)) l))%nat).
      { clear. induction l as [|[s w] l IH]; [intros []|]; intros [G|G]; cbn; [injection G as -> ->; lia|]. specialize (IH G). lia. }
      specialize (H0 _ L). lia.
  - intros q q' u u' P P' L L'. apply (PI q q' u u'); auto; now apply lookup_in.
Qed.
Print Assumptions C84_set_many.
(** Replacing the list of a composition. *)
Theorem C84_set_list args l : NoDup (map fst args) -> exists args', set_params_all (Estimator true args) [("estimators", l)] = (Estimator true args', None) /\
  In ("estimators", l) args' /\ forall k x, k <> "estimators" -> (In (k, x) args' <-> In (k, x) args).
Proof.
  intros N. exists (dict_set args "estimators" l). split; [reflexivity|]. split; [apply lookup_in; now rewrite lookup_set, String.eqb_refl|].
  intros k x K. split; [|now apply set_in]. intros I. destruct (in_set _ _ _ N _ _ I) as [[G _]|[_ G]]; [congruence|auto].
Qed.
Print Assumptions C84_set_list.

(** Finding: set_params never replaces a member by its name: it raises RuntimeError whatever the other parameters are, although
    get_params lists the name and the documentation says it can be set.  The member has been replaced when the exception is raised, and
    the other parameters have not been set. *)
Theorem C84_member_refuted args items name w ps : wf (Estimator true args) -> In ("estimators", Members items) args ->
  In name (map fst items) -> In (name, w) ps -> ~ In "estimators" (map fst ps) -> NoDup (map fst ps) ->
  exists name' w', In (name', w') ps /\ In name' (map fst items) /\
    (exists x, In (name, x) (get_params (Estimator true args))) /\
    set_params_all (Estimator true args) ps = (Estimator true (dict_set args "estimators" (Members (dict_set items name' w'))), Some RuntimeError).
Proof.
  intros W I J K E N. destruct (wf_inv _ _ W) as (Na & C & M). destruct (C _ _ I) as [_ Wi]. inversion Wi as [|? Ni Ci|]; subst.
  apply in_map_iff in J. destruct J as ([n x] & <- & J). cbn [fst] in *. destruct (Ci _ _ J) as [Cn _]. assert (Dn := proj2 (dunder_spec n) (proj1 Cn)).
  assert (MS : members_of true args = items) by (apply members_spec; auto).
  unfold set_params_all. cbn [set_params]. apply lookup_none in E. rewrite E, remove_none by auto. rewrite MS.
  destruct (first_named items ps) as [[name' w']|] eqn:FN.
  - unfold first_named in FN. apply find_some in FN. destruct FN as [I' F]. cbn [fst] in F. apply andb_prop in F. destruct F as [_ F2].
    exists name', w'. split; [auto|]. split; [unfold member in F2; destruct (lookup items name') eqn:G; [|discriminate]; apply lookup_in in G; apply in_map_iff; now exists (name', v)|].
    split; [|reflexivity]. exists x. destruct (C84_get_params _ W) as (_ & A & _). apply (A [n] x); [exact (proj1 Cn)|]. apply reaches_step with x; [|constructor]. right. split; [auto|]. eauto.
  - exfalso. assert (G := first_named_none _ _ _ _ FN K Dn). rewrite (in_lookup _ _ _ Ni J) in G. discriminate.
Qed.
Print Assumptions C84_member_refuted.
(** Finding: a member whose name ends with "_" is accepted and its parameters are listed, but they cannot be set. *)
Theorem C84_trailing_underscore_refuted : exists args,
  validate_names args ["a_"] = true /\ In ("a___x", Atom 1) (get_params (Estimator true args)) /\
  set_params_all (Estimator true args) [("a___x", Atom 2)] = (Estimator true args, Some ValueError).
Proof.
  exists [("estimators", Members [("a_", Estimator false [("x", Atom 1)])])]. split; [reflexivity|]. split; [|reflexivity]. cbn. auto.
Qed.
Print Assumptions C84_trailing_underscore_refuted.

(** fit accepts the names of the members exactly when they are distinct, are not arguments and do not contain "__". *)
Theorem C84_validate_names args names : validate_names args names = true <->
  NoDup names /\ (forall n, In n names -> ~ In n (map fst args)) /\ (forall n, In n names -> simple n).
Proof.
  unfold validate_names. rewrite !andb_true_iff, Nat.eqb_eq, !forallb_forall.
  assert (A : List.length (nodup string_dec names) = List.length names <-> NoDup names).
  { split; intros H; [|now rewrite nodup_fixed_point].
    assert (G : NoDup (nodup string_dec names)) by apply NoDup_nodup.
    apply (NoDup_incl_NoDup G); [rewrite H; lia|]. intros x. apply nodup_In. }
  rewrite A. split.
  - intros [[H1 H2] H3]. split; [auto|]. split.
    + intros n I. specialize (H2 n I). apply negb_true_iff in H2. unfold member in H2. apply lookup_none. now destruct (lookup args n).
    + intros n I. specialize (H3 n I). apply negb_true_iff in H3. now apply dunder_spec.
  - intros (H1 & H2 & H3). split; [split; [auto|]|].
    + intros n I. apply negb_true_iff. unfold member. specialize (H2 n I). apply lookup_none in H2. now rewrite H2.
    + intros n I. apply negb_true_iff. apply dunder_spec. auto.
Qed.
Print Assumptions C84_validate_names.

(** a stack of two models, one with a nested estimator *)
Definition example_stack : value :=
  Estimator true [("cv", Atom 5); ("estimators", Members [("hrp", Estimator false [("risk", Atom 1)]);
                                                          ("mr", Estimator false [("l1", Atom 0); ("prior", Estimator false [("mu", Atom 7)])])]);
                  ("final", Estimator false [("risk", Atom 2)])].
Ltac closed_name := split; [apply dunder_spec; reflexivity|intros (a & E); repeat (destruct a as [|? a]; [discriminate|cbn in E; injection E as _ E]); try (destruct a; discriminate); discriminate].
Lemma example_wf : wf example_stack.
Proof.
  unfold example_stack. 
  repeat first [ apply wf_atom
  | apply wf_members | apply wf_estimator
  | match goal with |- NoDup _ => cbn; repeat constructor; cbn; intuition discriminate end
  | match goal with |- forall k x, In (k, x) _ -> closed k /\ wf x => intros k x H; cbn in H; repeat (destruct H as [H|H]; [injection H as <- <-; split; [closed_name|]|]); [..|destruct H] end
  | match goal with |- false = true -> _ => discriminate end ].
  intros _. eexists. split; [right; left; reflexivity|]. intros k x H. cbn in H. repeat (destruct H as [H|H]; [injection H as <- _; cbn; intuition discriminate|]). destruct H.
Qed.
Example C84_applies : wf example_stack /\ In ("mr__prior__mu", Atom 7) (get_params example_stack) /\
  (let ps := [("mr__prior__mu", Atom 8); ("cv", Atom 6)] in
   exists v', set_params_all example_stack ps = (v', None) /\ In ("mr__prior__mu", Atom 8) (get_params v') /\ In ("cv", Atom 6) (get_params v') /\ In ("hrp__risk", Atom 1) (get_params v')) /\
  snd (set_params_all example_stack [("mr", Atom 0)]) = Some RuntimeError.
Proof.
  split; [apply example_wf|]. split; [cbn; tauto|]. split; [|reflexivity]. cbv zeta. eexists. split; [reflexivity|]. cbn. tauto.
Qed.
