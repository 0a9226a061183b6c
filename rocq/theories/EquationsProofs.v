(** Lemmas about the constraint-string lexer and parser. *)
From Coq Require Import Ascii String Bool ZArith Reals Lia Lra List.
From Verif Require Import EquationsModel EquationsSpec.
Import ListNotations.
Local Open Scope R_scope.

Lemma str_eqb_eq a b : str_eqb a b = true <-> a = b.
Proof. unfold str_eqb. destruct (list_eq_dec ascii_dec a b); split; congruence. Qed.
Lemma str_eqb_refl a : str_eqb a a = true.
Proof. apply str_eqb_eq; reflexivity. Qed.
Lemma str_eqb_neq a b : a <> b -> str_eqb a b = false.
Proof. unfold str_eqb. destruct (list_eq_dec ascii_dec a b); congruence. Qed.
Lemma mem_str_In a l : mem_str a l = true <-> In a l.
Proof.
  unfold mem_str. rewrite existsb_exists. split.
  - intros [x [Hx E]]. apply str_eqb_eq in E. subst; auto.
  - intros H. exists a. split; auto using str_eqb_refl.
Qed.
Lemma ceq_eq a b : ceq a b = true <-> a = b.
Proof. unfold ceq. destruct (ascii_dec a b); split; congruence. Qed.
Lemma ceq_neq a b : a <> b -> ceq a b = false.
Proof. unfold ceq. destruct (ascii_dec a b); congruence. Qed.
Lemma ceq_refl a : ceq a a = true. Proof. apply ceq_eq; auto. Qed.

(** * Lexer *)
Definition plain (s : str) : Prop := Forall (fun c => ~ special c) s.

Lemma not_special c : ~ special c ->
  c <> "="%char /\ c <> "<"%char /\ c <> ">"%char /\ c <> "+"%char /\ c <> "-"%char /\ c <> "*"%char.
Proof. unfold special. simpl. intuition. Qed.

Ltac nspec H := apply not_special in H; destruct H as (?&?&?&?&?&?).

Lemma split_plain p : forall cur s, plain p -> split_ops cur (p ++ s) = split_ops (cur ++ p) s.
Proof.
  induction p as [|c p IH]; intros cur s Hp.
  - rewrite app_nil_r. reflexivity.
  - inversion Hp as [|? ? Hc Hp']; subst. nspec Hc.
    replace (cur ++ c :: p) with ((cur ++ [c]) ++ p) by (rewrite <- app_assoc; reflexivity).
    rewrite <- (IH (cur ++ [c]) s Hp').
    change ((c :: p) ++ s) with (c :: (p ++ s)).
    cbn [split_ops]. rewrite !ceq_neq by auto. cbn.
    destruct (p ++ s); reflexivity.
Qed.

Lemma split_single cur c s : In c ["-";"+";"*"]%char -> split_ops cur (c :: s) = cur :: [c] :: split_ops [] s.
Proof. simpl. intros [E|[E|[E|[]]]]; subst; reflexivity. Qed.

Lemma split_double cur c s : In c [">";"=";"<"]%char -> split_ops cur (c :: "="%char :: s) = cur :: [c; "="%char] :: split_ops [] s.
Proof. simpl. intros [E|[E|[E|[]]]]; subst; reflexivity. Qed.

Lemma split_eq cur s : (match s with c :: _ => c <> "="%char | [] => True end) ->
  split_ops cur ("="%char :: s) = cur :: ["="%char] :: split_ops [] s.
Proof. destruct s as [|c s]; intros H; [reflexivity|]. cbn [split_ops]. cbn. rewrite (ceq_neq c) by auto. reflexivity. Qed.

Lemma blank_space c : c = " "%char \/ c = "009"%char -> is_space c = true.
Proof. intros [->| ->]; reflexivity. Qed.
Lemma visible_not_space c : visible c -> is_space c = false.
Proof.
  unfold visible, is_space. intros [A B].
  destruct (Nat.leb_spec (nat_of_ascii c) 13), (Nat.leb_spec (nat_of_ascii c) 32); try lia.
Qed.
Lemma lstrip_blanks b s : blanks b -> lstrip (b ++ s) = lstrip s.
Proof. induction 1 as [|c b Hc _ IH]; cbn; [reflexivity|]. rewrite (blank_space c Hc). exact IH. Qed.
Lemma lstrip_visible s : visible (hd " "%char s) -> lstrip s = s.
Proof.
  destruct s as [|c s]; cbn; intros H; [reflexivity|]. rewrite (visible_not_space c H). reflexivity.
Qed.
Lemma blanks_rev b : blanks b -> blanks (rev b).
Proof. unfold blanks. intros H. apply Forall_rev. exact H. Qed.
Lemma blanks_app a b : blanks a -> blanks b -> blanks (a ++ b).
Proof. intros. apply Forall_app; auto. Qed.
Lemma blanks_nil : blanks []. Proof. constructor. Qed.
Lemma strip_blanks b : blanks b -> strip b = [].
Proof.
  intros H. unfold strip. rewrite <- (app_nil_r b), (lstrip_blanks _ _ H). reflexivity.
Qed.
Lemma hd_rev (s : str) d : hd d (rev s) = last s d.
Proof.
  destruct s as [|a s] using rev_ind; [reflexivity|].
  rewrite rev_app_distr, last_last. reflexivity.
Qed.
Lemma strip_word b1 t b2 : blanks b1 -> blanks b2 -> word t -> strip (b1 ++ t ++ b2) = t.
Proof.
  intros H1 H2 (Hn & _ & Hh & Hl). unfold strip.
  rewrite (lstrip_blanks _ _ H1).
  assert (E: lstrip (t ++ b2) = t ++ b2).
  { apply lstrip_visible. destruct t; [congruence|]. exact Hh. }
  rewrite E, rev_app_distr, (lstrip_blanks _ _ (blanks_rev _ H2)).
  rewrite lstrip_visible by (rewrite hd_rev; exact Hl). apply rev_involutive.
Qed.

Lemma blank_plain b : blanks b -> plain b.
Proof.
  intros H. apply Forall_forall. intros c Hc. apply (proj1 (Forall_forall _ _)) with (x := c) in H; auto.
  unfold special. simpl. destruct H as [->| ->]; intuition discriminate.
Qed.
Lemma word_plain t : word t -> plain t.
Proof.
  intros (_ & H & _). apply Forall_forall. intros c Hc.
  apply (proj1 (Forall_forall _ _)) with (x := c) in H; tauto.
Qed.

Definition comp_tok (t : str) : Prop := In t [S_ "<="; S_ ">="; S_ "="; S_ "=="].
Definition small_tok (t : str) : Prop := In t [S_ "+"; S_ "-"; S_ "*"].

(** no two adjacent words, no two adjacent comparison operators *)
Fixpoint okseq (pw pc : bool) (ts : list str) : Prop :=
  match ts with
  | [] => True
  | t :: ts => (word t /\ pw = false /\ okseq true false ts)
               \/ (comp_tok t /\ pc = false /\ okseq false true ts)
               \/ (small_tok t /\ okseq false false ts)
  end.

Definition lexed (l : list str) := filter nonempty (map strip l).

Lemma okseq_next pw ts s : okseq pw true ts -> written ts s -> match s with c :: _ => c <> "="%char | [] => True end.
Proof.
  intros Hok Hw. destruct Hw as [b Hb|b t ts s Hb Hw].
  - destruct b as [|c b]; auto. inversion Hb; subst. intros ->. destruct H1; discriminate.
  - destruct b as [|c b].
    + cbn [okseq] in Hok. destruct Hok as [(Ht&_&_)|[(_&E&_)|(Ht&_)]]; [|discriminate|].
      * destruct Ht as (Hn&Hf&_). destruct t as [|c t]; [congruence|]. cbn.
        inversion Hf as [|? ? [Hs _]]; subst. nspec Hs. auto.
      * simpl in Ht. destruct Ht as [<-|[<-|[<-|[]]]]; cbn; discriminate.
    + cbn. inversion Hb; subst. intros ->. destruct H1; discriminate.
Qed.

Lemma lex_written ts : forall s, written ts s ->
  (forall pc cur, okseq false pc ts -> blanks cur -> lexed (split_ops cur s) = ts) /\
  (forall b1 t b2, okseq true false ts -> blanks b1 -> blanks b2 -> word t ->
      lexed (split_ops (b1 ++ t ++ b2) s) = t :: ts).
Proof.
  intros s Hw. induction Hw as [b Hb|b t ts s Hb Hw IH].
  - split.
    + intros pc cur _ Hc.
      rewrite <- (app_nil_r b) at 1. rewrite (split_plain b cur [] (blank_plain _ Hb)). cbn [split_ops].
      unfold lexed. cbn. rewrite strip_blanks by (apply blanks_app; auto). reflexivity.
    + intros b1 t b2 _ H1 H2 Ht.
      rewrite <- (app_nil_r b) at 1. rewrite (split_plain b _ [] (blank_plain _ Hb)). cbn [split_ops].
      unfold lexed. cbn. rewrite <- !app_assoc, strip_word by (auto using blanks_app).
      destruct Ht as (Hn&_). destruct t; [congruence|]. reflexivity.
  - destruct IH as [IHb IHw].
    (* operators: what follows the current text *)
    assert (Hcons: forall cur (r : list str), lexed (cur :: t :: r) = lexed [cur] ++ lexed (t :: r)).
    { intros cur r. unfold lexed. cbn [map filter]. destruct (nonempty (strip cur)); reflexivity. }
    assert (Hop: forall cur, (comp_tok t /\ okseq false true ts \/ small_tok t /\ okseq false false ts) ->
               lexed (split_ops cur (t ++ s)) = lexed [cur] ++ t :: ts).
    { intros cur H.
      assert (Hsplit: split_ops cur (t ++ s) = cur :: t :: split_ops [] s).
      { destruct H as [[Ht Hok]|[Ht Hok]]; simpl in Ht.
        - destruct Ht as [<-|[<-|[<-|[<-|[]]]]]; cbn [app S_ list_ascii_of_string];
            try (apply split_double; simpl; auto).
          apply split_eq. eapply okseq_next; eauto.
        - destruct Ht as [<-|[<-|[<-|[]]]]; cbn [app S_ list_ascii_of_string]; apply split_single; simpl; auto. }
      rewrite Hsplit, Hcons. f_equal.
      assert (Hl: lexed (split_ops [] s) = ts).
      { destruct H as [[Ht Hok]|[Ht Hok]]; eapply IHb; eauto using blanks_nil. }
      unfold lexed in *. cbn [map filter]. rewrite Hl.
      assert (Ht: In t [S_ "<="; S_ ">="; S_ "="; S_ "=="; S_ "+"; S_ "-"; S_ "*"]).
      { unfold comp_tok, small_tok in H. simpl in *. tauto. }
      simpl in Ht. repeat (destruct Ht as [<-|Ht]; [reflexivity|]). destruct Ht. }
    split.
    + intros pc cur Hok Hc. rewrite (split_plain b cur _ (blank_plain _ Hb)).
      cbn [okseq] in Hok. destruct Hok as [(Ht&_&Hok)|Hok].
      * rewrite (split_plain t _ s (word_plain _ Ht)).
        rewrite <- (app_nil_r t) at 1. apply IHw; auto using blanks_app, blanks_nil.
      * rewrite (Hop (cur ++ b)) by tauto.
        unfold lexed. cbn. rewrite strip_blanks by auto using blanks_app. reflexivity.
    + intros b1 t' b2 Hok H1 H2 Ht'. rewrite (split_plain b _ _ (blank_plain _ Hb)).
      cbn [okseq] in Hok. destruct Hok as [(_&E&_)|Hok]; [discriminate|].
      rewrite (Hop ((b1 ++ t' ++ b2) ++ b)) by tauto.
      unfold lexed. cbn. rewrite <- !app_assoc, strip_word by (auto using blanks_app).
      destruct Ht' as (Hn&_). destruct t'; [congruence|]. reflexivity.
Qed.

(** the two sanity checks pass on written constraints *)
Definition no_nl (s : str) := Forall (fun c => c <> newline) s.
Lemma eq_before_newline_true s : no_nl s -> In "="%char s -> eq_before_newline s = true.
Proof.
  induction 1 as [|c s Hc Hs IH]; intros Hi; [destruct Hi|]. cbn [eq_before_newline].
  destruct (ceq c "="%char) eqn:E; auto. rewrite ceq_neq by auto. apply IH.
  destruct Hi as [->|Hi]; auto. rewrite ceq_refl in E. discriminate.
Qed.

Lemma eq_before_newline_In s : eq_before_newline s = true -> In "="%char s.
Proof.
  induction s as [|c s IH]; cbn [eq_before_newline In]; [discriminate|].
  destruct (ceq c "="%char) eqn:E; [apply ceq_eq in E; auto|]. destruct (ceq c newline); intros H; [congruence|]. auto.
Qed.

Fixpoint lg_ok (s : str) : Prop :=
  match s with
  | [] => True
  | c :: s' => (c = "<"%char \/ c = ">"%char -> match s' with c' :: _ => c' = "="%char | [] => False end) /\ lg_ok s'
  end.
Lemma lg_ok_valid s : forall p2 p1, lg_ok s -> invalid_comparison p2 p1 s = false.
Proof.
  induction s as [|c s IH]; intros p2 p1 H; [reflexivity|]. cbn [invalid_comparison].
  destruct H as [H1 H2]. rewrite (IH _ _ H2).
  destruct (ceq c ">"%char) eqn:E1; [apply ceq_eq in E1|].
  - destruct s as [|c' s]; [destruct (H1 (or_intror E1))|]. rewrite (H1 (or_intror E1)), ceq_refl.
    cbn. rewrite !andb_false_r. reflexivity.
  - destruct (ceq c "<"%char) eqn:E2; [apply ceq_eq in E2|cbn; reflexivity].
    destruct s as [|c' s]; [destruct (H1 (or_introl E2))|]. rewrite (H1 (or_introl E2)), ceq_refl.
    cbn. rewrite !andb_false_r. reflexivity.
Qed.
Lemma lg_ok_plain p s : plain p -> lg_ok s -> lg_ok (p ++ s).
Proof.
  induction 1 as [|c p Hc _ IH]; intros H; cbn; auto. split; auto. nspec Hc. intros [E|E]; congruence.
Qed.

Lemma no_nl_app a b : no_nl a -> no_nl b -> no_nl (a ++ b).
Proof. intros. apply Forall_app; auto. Qed.
Lemma blanks_no_nl b : blanks b -> no_nl b.
Proof.
  intros H. apply Forall_forall. intros c Hc. apply (proj1 (Forall_forall _ _)) with (x := c) in H; auto.
  destruct H as [->| ->]; intros E; vm_compute in E; discriminate.
Qed.
Lemma word_no_nl t : word t -> no_nl t.
Proof.
  intros (_ & H & _). apply Forall_forall. intros c Hc.
  apply (proj1 (Forall_forall _ _)) with (x := c) in H; tauto.
Qed.

Lemma written_checks ts s : written ts s -> forall pw pc, okseq pw pc ts ->
  no_nl s /\ lg_ok s /\ (Exists comp_tok ts -> In "="%char s).
Proof.
  induction 1 as [b Hb|b t ts s Hb Hw IH]; intros pw pc Hok.
  - split; [auto using blanks_no_nl|]. split.
    + rewrite <- (app_nil_r b). apply lg_ok_plain; [apply blank_plain; auto|exact I].
    + intros E. inversion E.
  - cbn [okseq] in Hok.
    assert (Hrest: exists pw' pc', okseq pw' pc' ts) by (destruct Hok as [(_&_&?)|[(_&_&?)|(_&?)]]; eauto).
    destruct Hrest as (pw'&pc'&Hr). destruct (IH _ _ Hr) as (A&B&C).
    assert (Hnl: no_nl t).
    { destruct Hok as [(Ht&_&_)|[(Ht&_&_)|(Ht&_)]]; [auto using word_no_nl| |];
      simpl in Ht; repeat (destruct Ht as [<-|Ht]; [repeat (apply Forall_cons; [intros E; vm_compute in E; discriminate|]); apply Forall_nil|]); destruct Ht. }
    split; [auto using no_nl_app, blanks_no_nl|]. split.
    + apply lg_ok_plain; [apply blank_plain; auto|].
      destruct Hok as [(Ht&_&_)|[(Ht&_&_)|(Ht&_)]]; [apply lg_ok_plain; auto using word_plain| |];
      simpl in Ht; repeat (destruct Ht as [<-|Ht]; [cbn; intuition discriminate|]); destruct Ht.
    + intros E. apply in_or_app; right. apply in_or_app. inversion E as [? ? Ht|]; subst; auto.
      left. simpl in Ht; repeat (destruct Ht as [<-|Ht]; [simpl; auto|]); destruct Ht.
Qed.

Lemma split_equation_written t ts s :
  okseq false false (t :: ts) -> written (t :: ts) s -> t <> [] -> ~ comp_tok t -> Exists comp_tok ts ->
  split_equation_string s = EOk (t :: ts).
Proof.
  intros Hok Hw Hne Hnc Hex. unfold split_equation_string.
  destruct (written_checks _ _ Hw _ _ Hok) as (A&B&_).
  rewrite (lg_ok_valid _ _ _ B).
  assert (Hc: has_comparison s = true).
  { inversion Hw as [|b t' ts' s' Hb Hw']; subst.
    assert (Hr: exists pw' pc', okseq pw' pc' ts) by (cbn [okseq] in Hok; destruct Hok as [(_&_&?)|[(_&_&?)|(_&?)]]; eauto).
    destruct Hr as (pw'&pc'&Hr). destruct (written_checks _ _ Hw' _ _ Hr) as (_&_&C).
    specialize (C Hex).
    assert (Hi: exists c r, b ++ t ++ s' = c :: r /\ In "="%char r).
    { destruct b as [|c b].
      - destruct t as [|c t]; [congruence|]. exists c, (t ++ s'). split; auto. apply in_or_app; auto.
      - exists c, (b ++ t ++ s'). split; auto. rewrite !in_app_iff; auto. }
    destruct Hi as (c&r&E&Hr'). rewrite E in *. cbn [has_comparison]. inversion A; subst.
    rewrite ceq_neq by auto. apply eq_before_newline_true; auto. }
  rewrite Hc. cbn. f_equal.
  destruct (lex_written _ _ Hw) as [L _]. apply (L false); auto using blanks_nil.
Qed.

(** * Parser *)
Lemma total_app a b : total (a ++ b) = total a + total b.
Proof. unfold total. induction a as [|x a IH]; cbn [fold_right app]; [lra|]. rewrite IH. lra. Qed.
Lemma total_map_add {A} (f g : A -> R) l : total (map (fun i => f i + g i) l) = total (map f l) + total (map g l).
Proof. unfold total. induction l; cbn; [lra|]. rewrite IHl. lra. Qed.
Lemma total_map_scal {A} c (f : A -> R) l : total (map (fun i => c * f i) l) = c * total (map f l).
Proof. unfold total. induction l; cbn; [lra|]. rewrite IHl. lra. Qed.
Lemma total_map_ext {A} (f g : A -> R) l : (forall x, In x l -> f x = g x) -> total (map f l) = total (map g l).
Proof. intros H. f_equal. apply map_ext_in. exact H. Qed.
Lemma total_filter {A} (f : A -> R) (p : A -> bool) l :
  total (map f (filter p l)) = total (map (fun i => (if p i then 1 else 0) * f i) l).
Proof. unfold total. induction l as [|a l IH]; cbn; [reflexivity|]. destruct (p a); cbn; rewrite IH; lra. Qed.
Lemma total_count {A} (p : A -> bool) l : total (map (fun i => if p i then 1 else 0) l) = INR (length (filter p l)).
Proof.
  unfold total. induction l as [|a l IH]; [reflexivity|]. cbn [map fold_right filter]. rewrite IH.
  destruct (p a); [|lra]. cbn [length]. rewrite S_INR. lra.
Qed.


Lemma axpy_length a x y : length (axpy a x y) = Nat.min (length y) (length x).
Proof. unfold axpy. rewrite map_length, combine_length. reflexivity. Qed.
Lemma nth_axpy a x y i : length x = length y -> nth i (axpy a x y) 0 = nth i y 0 + a * nth i x 0.
Proof.
  unfold axpy. revert y i. induction x as [|b x IH]; intros [|c y] i H; try discriminate.
  - destruct i; cbn; lra.
  - destruct i; cbn; [lra|]. apply IH. cbn in H. lia.
Qed.
Lemma rowdot_axpy n a x y w : length x = length y -> rowdot n (axpy a x y) w = rowdot n y w + a * rowdot n x w.
Proof.
  intros H. unfold rowdot. rewrite <- total_map_scal, <- total_map_add. apply total_map_ext.
  intros i _. rewrite nth_axpy by exact H. lra.
Qed.
Lemma rowdot_zero n m w : rowdot n (repeat 0 m) w = 0.
Proof.
  unfold rowdot. rewrite (total_map_ext _ (fun i => 0 * w i)).
  - rewrite total_map_scal. lra.
  - intros i _. f_equal. destruct (lt_dec i m) as [H|H].
    + rewrite nth_repeat. reflexivity.
    + apply nth_overflow. rewrite repeat_length. lia.
Qed.
Lemma rowdot_scal n c row w : rowdot n (map (fun x => x * c) row) w = c * rowdot n row w.
Proof.
  unfold rowdot. rewrite <- total_map_scal. apply total_map_ext. intros i _.
  destruct (lt_dec i (length row)) as [H|H].
  - rewrite nth_indep with (d' := 0 * c) by (rewrite map_length; exact H).
    rewrite (map_nth (fun x => x * c)). lra.
  - rewrite !nth_overflow by (try rewrite map_length; lia). lra.
Qed.

Lemma op_special e : is_op e = true -> exists c, In c e /\ special c.
Proof.
  unfold is_op, is_non_mul, is_comp_op, is_sub_add, is_mul. rewrite !orb_true_iff, !mem_str_In. unfold special.
  simpl. intros H.
  assert (Hi: In e [eq2_op; eq1_op; ge_op; le_op; minus_op; plus_op; mul_op]) by (simpl; tauto).
  clear H. simpl in Hi.
  repeat (destruct Hi as [<-|Hi]; [eexists; split; [left; reflexivity|simpl; tauto]|]). destruct Hi.
Qed.
Lemma word_not_op e : word e -> is_op e = false.
Proof.
  intros Hw. destruct (is_op e) eqn:E; auto. destruct (op_special e E) as (c&Hc&Hs).
  apply word_plain in Hw. apply (proj1 (Forall_forall _ _)) with (x := c) in Hw; tauto.
Qed.

Section P.
  Variable to_float : str -> option R.
  Variable groups : groups_t.
  Variable n : nat.
  Variable sto : bool.
  Hypothesis shape : Forall (fun level => length level = n) groups.

  Lemma is_group_known e : is_group groups e = true <-> known groups e.
  Proof.
    clear shape. unfold is_group, known. rewrite existsb_exists. split; intros (l&H1&H2); exists l; split; auto; apply mem_str_In; auto.
  Qed.

  Lemma match_at_spec key i : match_at groups key i =
    existsb (fun level => if list_eq_dec ascii_dec (nth i level []) key then true else false) groups.
  Proof. reflexivity. Qed.

  Lemma members_nonempty g : known groups g -> exists i, In i (members groups n g).
  Proof.
    intros (l&Hl&Hg). destruct (In_nth _ _ [] Hg) as (i&Hi&E).
    pose proof (proj1 (Forall_forall _ _) shape l Hl) as Hs. cbv beta in Hs.
    exists i. unfold members. apply filter_In. split; [apply in_seq; split; [lia|rewrite <- Hs; exact Hi]|].
    apply existsb_exists. exists l. split; auto. rewrite E. destruct (list_eq_dec ascii_dec g g); congruence.
  Qed.

  Lemma matching_known g : known groups g ->
    exists arr, matching_array groups n sto g = EOk arr /\ length arr = n
                /\ forall w, rowdot n arr w = group_value groups n sto w g.
  Proof.
    intros Hk. destruct (members_nonempty g Hk) as (i0&Hi0).
    unfold matching_array.
    assert (E: existsb (fun b => b) (map (match_at groups g) (seq 0 n)) = true).
    { apply existsb_exists. exists true. split; auto. unfold members in Hi0. apply filter_In in Hi0.
      destruct Hi0 as [H1 H2]. apply in_map_iff. exists i0. split; auto. }
    rewrite E. cbn [negb].
    eexists; split; [reflexivity|]. split; [rewrite !map_length, seq_length; reflexivity|].
    intros w. unfold rowdot.
    set (s := if sto then sumR (map b2r (map (match_at groups g) (seq 0 n))) else 1).
    rewrite (total_map_ext _ (fun i => / s * ((if match_at groups g i then 1 else 0) * w i))).
    2:{ intros i Hi. apply in_seq in Hi.
        rewrite nth_indep with (d' := b2r (match_at groups g 0) / s) by (rewrite !map_length, seq_length; lia).
        rewrite map_map.
        rewrite (map_nth (fun x => b2r (match_at groups g x) / s)), seq_nth by lia. unfold b2r, Rdiv.
        cbn [Nat.add]. lra. }
    rewrite total_map_scal, <- total_filter.
    fold (members groups n g). unfold group_value, s. destruct sto.
    - assert (Es: sumR (map b2r (map (match_at groups g) (seq 0 n))) = INR (length (members groups n g))).
      { rewrite map_map. exact (total_count (match_at groups g) (seq 0 n)). }
      rewrite Es. unfold Rdiv. apply Rmult_comm.
    - rewrite Rinv_1. apply Rmult_1_l.
  Qed.

  Definition D (st : pstate) (w : nat -> R) : R := rowdot n (left st) w + right st.
  Definition follow (rest : list str) : Prop := match rest with [] => True | e :: _ => is_non_mul e = true end.
  Lemma nonmul_not_mul e : is_non_mul e = true -> is_mul e = false.
  Proof.
    clear. unfold is_non_mul, is_comp_op, is_sub_add. rewrite orb_true_iff, !mem_str_In. simpl. intros H.
    destruct H as [[<-|[<-|[<-|[<-|[]]]]]|[<-|[<-|[]]]]; reflexivity.
  Qed.

  Definition same (a b : pstate) : Prop :=
    length (left a) = length (left b) /\ main_sign a = main_sign b /\ csign a = csign b /\ ineq a = ineq b.

  Lemma add_left_same st c arr : length arr = length (left st) -> same (add_left st c arr) st.
  Proof. clear. intros H. unfold same. cbn. rewrite axpy_length, H, Nat.min_id. auto. Qed.
  Lemma add_left_D st c arr w : length arr = length (left st) -> D (add_left st c arr) w = D st w + c * rowdot n arr w.
  Proof. clear. intros H. unfold D. cbn. rewrite rowdot_axpy by auto. lra. Qed.

  Notation tv := (term_value to_float groups n sto).
  Notation wf := (wf_term to_float groups).

  Lemma operand_term t s0 st rest : wf t -> follow rest -> length (left st) = n ->
    exists st', operand to_float groups n sto s0 st (term_toks t ++ rest) = EOk (st', rest) /\ same st' st
                /\ forall w, D st' w = D st w + s0 * main_sign st * tv w t.
  Proof.
    intros Hwf Hf Hlen. destruct t as [c|g|c g|g c]; cbn [wf_term term_toks app term_value] in *; unfold operand.
    - destruct Hwf as (Hw&(x&Hx)&Hnk). rewrite (word_not_op _ Hw).
      destruct (is_group groups c) eqn:Eg; [apply is_group_known in Eg; tauto|]. rewrite Hx.
      assert (HD: forall w, D (add_right st (x * (s0 * main_sign st))) w = D st w + s0 * main_sign st * num to_float c).
      { intros w. unfold D, num. cbn. rewrite Hx. lra. }
      destruct rest as [|e2 r2]; cbn in Hf.
      + eexists; split; [reflexivity|]. split; [repeat split; auto|]. exact HD.
      + rewrite (nonmul_not_mul _ Hf), Hf. eexists; split; [reflexivity|]. split; [repeat split; auto|]. exact HD.
    - destruct Hwf as (Hw&Hk). rewrite (word_not_op _ Hw). rewrite (proj2 (is_group_known g) Hk).
      destruct (matching_known g Hk) as (arr&Ea&La&Da). rewrite Ea.
      destruct rest as [|e2 r2]; cbn in Hf.
      + eexists; split; [reflexivity|]. split; [apply add_left_same; congruence|].
        intros w. rewrite add_left_D by congruence. rewrite Da. reflexivity.
      + rewrite Hf. eexists; split; [reflexivity|]. split; [apply add_left_same; congruence|].
        intros w. rewrite add_left_D by congruence. rewrite Da. reflexivity.
    - destruct Hwf as (Hw&(x&Hx)&Hnk&Hwg&Hk). rewrite (word_not_op _ Hw).
      destruct (is_group groups c) eqn:Eg; [apply is_group_known in Eg; tauto|]. rewrite Hx.
      change (is_mul (S_ "*")) with true. cbn iota.
      rewrite (proj2 (is_group_known g) Hk). cbn [negb].
      destruct (matching_known g Hk) as (arr&Ea&La&Da). rewrite Ea.
      eexists; split; [reflexivity|]. split; [apply add_left_same; congruence|].
      intros w. rewrite add_left_D by congruence. rewrite Da. unfold num. rewrite Hx. lra.
    - destruct Hwf as (Hw&(x&Hx)&Hwg&Hk). rewrite (word_not_op _ Hwg). rewrite (proj2 (is_group_known g) Hk).
      destruct (matching_known g Hk) as (arr&Ea&La&Da). rewrite Ea.
      change (is_non_mul (S_ "*")) with false. change (is_mul (S_ "*")) with true. cbn iota. rewrite Hx.
      eexists; split; [reflexivity|]. split; [apply add_left_same; congruence|].
      intros w. rewrite add_left_D by congruence. rewrite Da. unfold num. rewrite Hx. lra.
  Qed.

  Definition sgn (b : bool) : R := if b then -1 else 1.
  Lemma sign_tok_sign b : sub_add_sign (sign_tok b) = sgn b.
  Proof. clear. destruct b; reflexivity. Qed.
  Lemma signed_sgn b x : signed b x = sgn b * x.
  Proof. clear. destruct b; cbn; lra. Qed.
  Lemma term_toks_head t : wf t -> exists e r, term_toks t = e :: r /\ word e.
  Proof. clear. destruct t; cbn; intros H; do 2 eexists; split; try reflexivity; tauto. Qed.

  Lemma loop_pass fuel i st toks st' rest :
    toks <> [] -> (i < 1000000)%Z -> parse_step to_float groups n sto st toks = EOk (st', rest) ->
    parse_loop to_float groups n sto (S fuel) i st toks = parse_loop to_float groups n sto fuel (i + 1) st' rest.
  Proof.
    clear. intros Hn Hi E. cbn [parse_loop].
    destruct (Z.ltb_spec 1000000 (i + 1)); [lia|]. destruct toks; [congruence|]. rewrite E. reflexivity.
  Qed.

  Lemma loop_others l : forall fuel i st rest,
    Forall (fun p => wf (snd p)) l -> follow rest -> length (left st) = n ->
    (i + Z.of_nat (length l) <= 1000000)%Z -> (length l <= fuel)%nat ->
    exists st', parse_loop to_float groups n sto fuel i st (flat_map signed_toks l ++ rest)
                = parse_loop to_float groups n sto (fuel - length l) (i + Z.of_nat (length l)) st' rest
                /\ same st' st
                /\ forall w, D st' w = D st w + main_sign st * total (map (fun p => signed (fst p) (tv w (snd p))) l).
  Proof.
    induction l as [|[b t] l IH]; intros fuel i st rest Hwf Hf Hlen Hi Hfu.
    - exists st. cbn [flat_map app length]. split; [f_equal; cbn; lia|]. split; [repeat split|].
      intros w. cbn. lra.
    - inversion Hwf as [|? ? Ht Hl]; subst. cbn [snd] in Ht. cbn [length] in *.
      destruct fuel as [|fuel]; [lia|].
      assert (Hf': follow (flat_map signed_toks l ++ rest)).
      { destruct l as [|[b' t'] l]; cbn [flat_map app]; [exact Hf|]. destruct b'; reflexivity. }
      destruct (operand_term t (sgn b) st _ Ht Hf' Hlen) as (st1&E1&(S1&S2&S3&S4)&D1).
      destruct (IH fuel (i+1)%Z st1 rest) as (st2&E2&(U1&U2&U3&U4)&D2); auto; try lia.
      exists st2. split; [|split].
      + cbn [flat_map]. rewrite <- app_assoc.
        rewrite (loop_pass fuel i st _ st1 (flat_map signed_toks l ++ rest)).
        * rewrite E2. f_equal; lia.
        * destruct b; discriminate.
        * lia.
        * unfold signed_toks. cbn [fst snd app]. unfold parse_step.
          assert (A: is_comp_op (sign_tok b) = false) by (destruct b; reflexivity).
          assert (B: is_sub_add (sign_tok b) = true) by (destruct b; reflexivity).
          rewrite A, B, sign_tok_sign. exact E1.
      + repeat split; congruence.
      + intros w. rewrite D2, D1, S2. unfold total. cbn [map fold_right fst snd].
        fold (total (map (fun p => signed (fst p) (tv w (snd p))) l)). rewrite (signed_sgn b). lra.
  Qed.

  Notation wfs := (wf_side to_float groups).
  Notation sv := (side_value to_float groups n sto).

  (** the left side, from the start of the token list *)
  Lemma loop_lhs s fuel i st rest :
    wfs s -> follow rest -> length (left st) = n -> main_sign st = 1 ->
    (i + 1 + Z.of_nat (length (others s)) <= 1000000)%Z -> (1 + length (others s) <= fuel)%nat ->
    exists st', parse_loop to_float groups n sto fuel i st (side_toks s ++ rest)
                = parse_loop to_float groups n sto (fuel - (1 + length (others s)))
                    (i + 1 + Z.of_nat (length (others s))) st' rest
                /\ same st' st /\ forall w, D st' w = D st w + sv w s.
  Proof.
    intros [Ht Ho] Hf Hlen Hm Hi Hfu. destruct fuel as [|fuel]; [lia|].
    assert (Hf': follow (flat_map signed_toks (others s) ++ rest)).
    { destruct (others s) as [|[b' t'] l]; cbn [flat_map app]; [exact Hf|]. destruct b'; reflexivity. }
    set (neg := match first_sign s with Some b => b | None => false end).
    destruct (operand_term (first s) (sgn neg) st _ Ht Hf' Hlen) as (st1&E1&(S1&S2&S3&S4)&D1).
    destruct (loop_others (others s) fuel (i+1)%Z st1 rest) as (st2&E2&(U1&U2&U3&U4)&D2); auto; try lia; try congruence.
    exists st2. split; [|split].
    - unfold side_toks. rewrite <- app_assoc.
      rewrite (loop_pass fuel i st _ st1 (flat_map signed_toks (others s) ++ rest)).
      + rewrite E2. f_equal; lia.
      + destruct (term_toks_head _ Ht) as (e&r&Ee&_). destruct (first_sign s); rewrite Ee; discriminate.
      + lia.
      + subst neg. unfold parse_step. destruct (first_sign s) as [b|]; cbn [app].
        * assert (A: is_comp_op (sign_tok b) = false) by (destruct b; reflexivity).
          assert (B: is_sub_add (sign_tok b) = true) by (destruct b; reflexivity).
          rewrite A, B, sign_tok_sign. exact E1.
        * destruct (term_toks_head _ Ht) as (e&r&Ee&Hwd). rewrite Ee in *. cbn [app] in *.
          apply word_not_op in Hwd. unfold is_op, is_non_mul in Hwd. apply orb_false_iff in Hwd.
          destruct Hwd as [Hab Hc]. apply orb_false_iff in Hab. destruct Hab as [Ha Hb].
          rewrite Ha, Hb, Hc. exact E1.
    - repeat split; congruence.
    - intros w. rewrite D2, D1, S2, Hm. unfold side_value. fold neg. rewrite signed_sgn. lra.
  Qed.

  Lemma cmp_tok_facts o : is_comp_op (cmp_tok o) = true /\ comp_sign (cmp_tok o) = match o with GE => -1 | _ => 1 end
    /\ is_ineq_op (cmp_tok o) = match o with LE | GE => true | _ => false end.
  Proof. clear. destruct o; repeat split. Qed.

  Lemma loop_rhs o s fuel i st :
    wfs s -> length (left st) = n ->
    (i + 2 + Z.of_nat (length (others s)) <= 1000000)%Z -> (2 + length (others s) <= fuel)%nat ->
    exists st', parse_loop to_float groups n sto fuel i st (cmp_tok o :: side_toks s) = EOk st'
                /\ length (left st') = n
                /\ csign st' = Some (match o with GE => -1 | _ => 1 end)
                /\ ineq st' = Some (match o with LE | GE => true | _ => false end)
                /\ forall w, D st' w = D st w - sv w s.
  Proof.
    intros [Ht Ho] Hlen Hi Hfu. destruct fuel as [|fuel]; [lia|].
    destruct (cmp_tok_facts o) as (F1&F2&F3).
    set (st0 := {| left := left st; right := right st; main_sign := -1;
                   csign := Some (comp_sign (cmp_tok o)); ineq := Some (is_ineq_op (cmp_tok o)) |}).
    assert (Hf': follow (flat_map signed_toks (others s) ++ [])).
    { destruct (others s) as [|[b' t'] l]; cbn [flat_map app]; [exact I|]. destruct b'; reflexivity. }
    set (neg := match first_sign s with Some b => b | None => false end).
    destruct (operand_term (first s) (sgn neg) st0 _ Ht Hf' Hlen) as (st1&E1&(S1&S2&S3&S4)&D1).
    destruct (loop_others (others s) fuel (i+1)%Z st1 []) as (st2&E2&(U1&U2&U3&U4)&D2); auto; try lia;
      [exact I|rewrite S1; exact Hlen|].
    exists st2. split; [|split; [|split; [|split]]].
    - rewrite (loop_pass fuel i st _ st1 (flat_map signed_toks (others s) ++ [])).
      + rewrite E2. destruct (fuel - length (others s))%nat eqn:Ef; [lia|]. cbn [parse_loop].
        destruct (Z.ltb_spec 1000000 (i + 1 + Z.of_nat (length (others s)) + 1)); [lia|]. reflexivity.
      + discriminate.
      + lia.
      + unfold parse_step, side_toks. rewrite F1. fold st0. subst neg.
        rewrite app_nil_r in E1 |- *. destruct (first_sign s) as [b|]; cbn [app].
        * assert (B: is_sub_add (sign_tok b) = true) by (destruct b; reflexivity).
          rewrite B, sign_tok_sign. exact E1.
        * destruct (term_toks_head _ Ht) as (e&r&Ee&Hwd). rewrite Ee in *. cbn [app] in *.
          apply word_not_op in Hwd. unfold is_op, is_non_mul in Hwd. apply orb_false_iff in Hwd.
          destruct Hwd as [Hab Hc]. apply orb_false_iff in Hab. destruct Hab as [Ha Hb].
          rewrite Hb. exact E1.
    - rewrite U1, S1. exact Hlen.
    - rewrite U3, S3. unfold st0. cbn [csign]. rewrite F2. reflexivity.
    - rewrite U4, S4. unfold st0. cbn [ineq]. rewrite F3. reflexivity.
    - intros w. rewrite D2, D1, S2. unfold side_value. fold neg. rewrite signed_sgn.
      change (main_sign st0) with (-1). unfold D. cbn. lra.
  Qed.

  Notation wfc := (wf_constr to_float groups).

  Lemma term_toks_len t : (1 <= length (term_toks t))%nat. Proof. clear. destruct t; cbn; lia. Qed.
  Lemma side_toks_len s : (1 + length (others s) <= length (side_toks s))%nat.
  Proof.
    clear. unfold side_toks. rewrite app_length.
    assert (H: (length (others s) <= length (flat_map signed_toks (others s)))%nat).
    { induction (others s) as [|[b t] l IH]; cbn; [lia|]. rewrite app_length. lia. }
    pose proof (term_toks_len (first s)). destruct (first_sign s); cbn; lia.
  Qed.

  Lemma parse_constr c : wfc c -> (Z.of_nat (n_terms c) < 1000000)%Z ->
    exists row b, parse_tokens to_float groups n sto (constr_toks c)
                  = EOk (row, b, match op c with LE | GE => true | _ => false end)
      /\ length row = n
      /\ forall w, rowdot n row w - b = match op c with GE => -1 | _ => 1 end * (sv w (lhs c) - sv w (rhs c)).
  Proof.
    intros [Hl Hr] Hn. unfold parse_tokens, n_terms in *.
    pose proof (side_toks_len (lhs c)) as L1. pose proof (side_toks_len (rhs c)) as L2.
    set (st0 := {| left := repeat 0 n; right := 0; main_sign := 1; csign := None; ineq := None |}).
    assert (Hlen: length (constr_toks c) = (length (side_toks (lhs c)) + 1 + length (side_toks (rhs c)))%nat).
    { unfold constr_toks. rewrite !app_length. cbn. lia. }
    destruct (loop_lhs (lhs c) (S (length (constr_toks c))) 0 st0 (cmp_tok (op c) :: side_toks (rhs c)))
      as (st1&E1&(S1&S2&S3&S4)&D1); auto; try lia.
    { destruct (op c); reflexivity. }
    { cbn. apply repeat_length. }
    destruct (loop_rhs (op c) (rhs c) (S (length (constr_toks c)) - (1 + length (others (lhs c))))
                (0 + 1 + Z.of_nat (length (others (lhs c)))) st1) as (st2&E2&T1&T2&T3&D2); auto; try lia.
    { rewrite S1. cbn. apply repeat_length. }
    unfold constr_toks in *. cbn [app] in *.
    rewrite E1, E2, T2, T3.
    do 2 eexists; split; [reflexivity|]. split; [rewrite map_length; exact T1|].
    intros w. rewrite rowdot_scal. specialize (D1 w). specialize (D2 w).
    assert (D0: D st0 w = 0) by (unfold D; cbn; rewrite rowdot_zero; lra).
    unfold D in D1, D2, D0.
    replace (sv w (lhs c) - sv w (rhs c)) with (rowdot n (left st2) w + right st2) by lra.
    destruct (op c); lra.
  Qed.

  Lemma okseq_weaken ts : okseq false true ts -> okseq false false ts.
  Proof. clear. destruct ts; cbn; auto. intros [H|[(_&E&_)|H]]; [auto|discriminate|auto]. Qed.

  Lemma okseq_term t pc rest : wf t -> okseq true false rest -> okseq false pc (term_toks t ++ rest).
  Proof.
    clear. destruct t; cbn; intros H Hr; unfold small_tok; simpl.
    - left; tauto.
    - left; tauto.
    - left. split; [tauto|]. split; auto. right; right. split; auto. left; tauto.
    - left. split; [tauto|]. split; auto. right; right. split; auto. left; tauto.
  Qed.
  Lemma okseq_others l rest : Forall (fun p => wf (snd p)) l -> okseq true false rest ->
    okseq true false (flat_map signed_toks l ++ rest).
  Proof.
    clear. induction l as [|[b t] l IH]; intros Hw Hr; cbn [flat_map app]; auto.
    inversion Hw; subst. unfold signed_toks at 1. cbn [fst snd app]. cbn [okseq]. right; right. split.
    - unfold small_tok. destruct b; simpl; auto.
    - rewrite <- app_assoc. apply okseq_term; auto.
  Qed.
  Lemma okseq_side s pc rest : wfs s -> okseq true false rest -> okseq false pc (side_toks s ++ rest).
  Proof.
    clear. intros [Ht Ho] Hr. unfold side_toks. rewrite <- app_assoc.
    destruct (first_sign s) as [b|]; cbn [app].
    - cbn [okseq]. right; right. split; [unfold small_tok; destruct b; simpl; auto|].
      apply okseq_term; auto using okseq_others.
    - apply okseq_term; auto using okseq_others.
  Qed.
  Lemma okseq_constr c : wfc c -> okseq false false (constr_toks c).
  Proof.
    clear. intros [Hl Hr]. unfold constr_toks. apply okseq_side; auto. cbn [app okseq]. right; left.
    split; [unfold comp_tok; destruct (op c); simpl; auto|]. split; auto.
    rewrite <- (app_nil_r (side_toks (rhs c))). apply okseq_side; auto. exact I.
  Qed.

  Lemma string_constr c s : wfc c -> (Z.of_nat (n_terms c) < 1000000)%Z -> written (constr_toks c) s ->
    exists row b, string_to_equation to_float groups n sto s
                  = EOk (row, b, match op c with LE | GE => true | _ => false end)
      /\ length row = n
      /\ forall w, rowdot n row w - b = match op c with GE => -1 | _ => 1 end * (sv w (lhs c) - sv w (rhs c)).
  Proof.
    intros Hw Hn Hs. destruct (parse_constr c Hw Hn) as (row&b&E&L&V). exists row, b. split; auto.
    unfold string_to_equation.
    assert (Hhd: exists t ts, side_toks (lhs c) = t :: ts /\ t <> [] /\ ~ comp_tok t).
    { destruct Hw as [[Ht _] _]. destruct (term_toks_head _ Ht) as (e&r&Ee&He). unfold side_toks.
      destruct (first_sign (lhs c)) as [b'|].
      - cbn [app]. do 2 eexists; split; [reflexivity|]. split; [destruct b'; discriminate|].
        intros H. destruct b'; simpl in H; repeat (destruct H as [H|H]; [discriminate|]); destruct H.
      - rewrite Ee. cbn [app]. do 2 eexists; split; [reflexivity|]. split; [apply He|].
        intros H. apply word_not_op in He. simpl in H.
        repeat (destruct H as [<-|H]; [vm_compute in He; discriminate|]). destruct H. }
    destruct Hhd as (t&ts&Et&Hne&Hnc).
    pose proof (okseq_constr c Hw) as Hok.
    assert (Ec: constr_toks c = t :: (ts ++ [cmp_tok (op c)] ++ side_toks (rhs c))) by (unfold constr_toks; rewrite Et; reflexivity).
    rewrite Ec in *.
    rewrite (split_equation_written _ _ _ Hok Hs Hne Hnc).
    - exact E.
    - apply Exists_exists. exists (cmp_tok (op c)). split; [rewrite !in_app_iff; simpl; auto|].
      unfold comp_tok. destruct (op c); simpl; auto.
  Qed.
End P.

(** * Everything that is accepted is grammatical *)
Fixpoint noadj (pw : bool) (ts : list str) : Prop :=
  match ts with
  | [] => True
  | t :: ts => (is_op t = true /\ noadj false ts) \/ (is_op t = false /\ pw = false /\ noadj true ts)
  end.

Definition textual (s : str) : Prop := forall c, In c s -> ~ In c ["=";"+";"-";"*"]%char.
Lemma textual_not_op s : textual s -> is_op s = false.
Proof.
  intros H. destruct (is_op s) eqn:E; auto. exfalso.
  unfold is_op, is_non_mul, is_comp_op, is_sub_add, is_mul in E. rewrite !orb_true_iff, !mem_str_In in E. simpl in E.
  assert (Hi: In s [eq2_op; eq1_op; ge_op; le_op; minus_op; plus_op; mul_op]) by (simpl; tauto). clear E. simpl in Hi.
  destruct Hi as [<-|[<-|[<-|[<-|[<-|[<-|[<-|[]]]]]]]].
  - apply (H "="%char); simpl; auto.
  - apply (H "="%char); simpl; auto.
  - apply (H "="%char); simpl; auto.
  - apply (H "="%char); simpl; auto.
  - apply (H "-"%char); simpl; auto.
  - apply (H "+"%char); simpl; auto 10.
  - apply (H "*"%char); simpl; auto 10.
Qed.
Lemma lstrip_In c s : In c (lstrip s) -> In c s.
Proof. induction s as [|a s IH]; cbn [lstrip]; auto. destruct (is_space a); [right; auto|auto]. Qed.
Lemma strip_In c s : In c (strip s) -> In c s.
Proof. unfold strip. rewrite <- in_rev. intros H. apply lstrip_In in H. rewrite <- in_rev in H. apply lstrip_In in H. exact H. Qed.

Lemma lstrip_split s : exists b, s = b ++ lstrip s /\ all_spaces b.
Proof.
  induction s as [|c s (b&E&Hb)]; cbn [lstrip].
  - exists []. split; auto. constructor.
  - destruct (is_space c) eqn:Ec.
    + exists (c :: b). split; [cbn; congruence|]. constructor; auto.
    + exists []. split; auto. constructor.
Qed.
Lemma strip_split s : exists b1 b2, s = b1 ++ strip s ++ b2 /\ all_spaces b1 /\ all_spaces b2.
Proof.
  destruct (lstrip_split s) as (b1&E1&H1). destruct (lstrip_split (rev (lstrip s))) as (b2&E2&H2).
  exists b1, (rev b2). split; [|split; auto].
  - rewrite E1 at 1. f_equal. unfold strip. rewrite <- rev_app_distr, <- E2, rev_involutive. reflexivity.
  - apply Forall_rev. exact H2.
Qed.


Lemma spaced_pre b ts s : all_spaces b -> spaced ts s -> spaced ts (b ++ s).
Proof.
  intros Hb H. destruct H as [b' Hb'|b' t ts s Hb' H].
  - constructor. apply Forall_app; auto.
  - rewrite app_assoc. constructor; auto. apply Forall_app; auto.
Qed.

Lemma spaced_lexed l : spaced (lexed l) (concat l).
Proof.
  induction l as [|t l IH]; cbn.
  - constructor. constructor.
  - destruct (strip_split t) as (b1&b2&E&H1&H2). destruct (strip t) as [|c r] eqn:Es.
    + cbn [nonempty]. rewrite E. cbn. rewrite <- app_assoc. apply spaced_pre; auto. apply spaced_pre; auto.
    + cbn [nonempty]. rewrite E. rewrite <- !app_assoc. constructor; auto. apply spaced_pre; auto.
Qed.

Lemma strip_op t : is_op t = true -> strip t = t /\ nonempty t = true.
Proof.
  unfold is_op, is_non_mul, is_comp_op, is_sub_add, is_mul. rewrite !orb_true_iff, !mem_str_In. simpl. intros E.
  assert (Hi: In t [eq2_op; eq1_op; ge_op; le_op; minus_op; plus_op; mul_op]) by (simpl; tauto). clear E. simpl in Hi.
  repeat (destruct Hi as [<-|Hi]; [split; reflexivity|]). destruct Hi.
Qed.

Lemma split_ops_facts m : forall s cur, (length s <= m)%nat -> textual cur ->
  concat (split_ops cur s) = cur ++ s /\ noadj false (lexed (split_ops cur s)).
Proof.
  assert (Htok: forall cur o l, is_op o = true -> textual cur -> noadj false (lexed l) -> noadj false (lexed (cur :: o :: l))).
  { intros cur o l Ho Hc Hl. destruct (strip_op o Ho) as [E1 E2].
    unfold lexed. cbn [map filter]. rewrite E1, E2. fold (lexed l).
    assert (Hx: is_op (strip cur) = false).
    { apply textual_not_op. intros c Hi. apply Hc. apply strip_In. exact Hi. }
    destruct (nonempty (strip cur)); cbn [noadj].
    - right. repeat split; auto.
    - left. split; auto. }
  assert (Hnil: textual []) by (intros c []).
  induction m as [|m IH]; intros s cur Hm Hc; (destruct s as [|c s]; [|cbn [length] in Hm]); try lia.
  1,2: (cbn [split_ops concat]; split; [reflexivity|]; unfold lexed; cbn [map filter];
     assert (Hx: is_op (strip cur) = false) by (apply textual_not_op; intros c Hi; apply Hc; apply strip_In; exact Hi);
     destruct (nonempty (strip cur)); cbn [noadj]; auto).
  assert (Hext: forall c', c' <> "="%char -> c' <> "+"%char -> c' <> "-"%char -> c' <> "*"%char -> textual (cur ++ [c'])).
  { intros c' A1 A2 A3 A4 x Hx. apply in_app_or in Hx. destruct Hx as [Hx|[<-|[]]]; [apply Hc; auto|].
    simpl. intuition. }
  cbn [split_ops].
  destruct (ceq c "-"%char) eqn:E1; [apply ceq_eq in E1|]; cbn [orb].
  { subst. destruct (IH s [] ltac:(lia) Hnil) as [A B]. split; [cbn [concat app]; rewrite A; reflexivity|]. apply Htok; auto. }
  destruct (ceq c "+"%char) eqn:E2; [apply ceq_eq in E2|]; cbn [orb].
  { subst. destruct (IH s [] ltac:(lia) Hnil) as [A B]. split; [cbn [concat app]; rewrite A; reflexivity|]. apply Htok; auto. }
  destruct (ceq c "*"%char) eqn:E3; [apply ceq_eq in E3|].
  { subst. destruct (IH s [] ltac:(lia) Hnil) as [A B]. split; [cbn [concat app]; rewrite A; reflexivity|]. apply Htok; auto. }
  assert (N: c <> "-"%char /\ c <> "+"%char /\ c <> "*"%char).
  { repeat split; intros ->; rewrite ceq_refl in *; discriminate. }
  destruct N as (N1&N2&N3).
  assert (Hplain: (if ceq c "="%char then True else
                     concat (split_ops (cur ++ [c]) s) = cur ++ c :: s /\ noadj false (lexed (split_ops (cur ++ [c]) s)))).
  { destruct (ceq c "="%char) eqn:E; auto. destruct (IH s (cur ++ [c]) ltac:(lia)) as [A B].
    - apply Hext; auto. intros ->. rewrite ceq_refl in E. discriminate.
    - split; auto. rewrite A, <- app_assoc. reflexivity. }
  assert (Heq: concat (cur :: [c] :: split_ops [] s) = cur ++ c :: s).
  { destruct (IH s [] ltac:(lia) Hnil) as [A B]. cbn [concat app]. rewrite A. reflexivity. }
  assert (Heq2: c = "="%char -> noadj false (lexed (cur :: [c] :: split_ops [] s))).
  { intros ->. destruct (IH s [] ltac:(lia) Hnil) as [A B]. apply Htok; auto. }
  destruct s as [|c2 s].
  { destruct (ceq c "="%char) eqn:E; [apply ceq_eq in E; split; auto|exact Hplain]. }
  destruct ((ceq c ">"%char || ceq c "="%char || ceq c "<"%char) && ceq c2 "="%char) eqn:E.
  { apply andb_true_iff in E. destruct E as [Ea Eb]. apply ceq_eq in Eb. subst c2.
    cbn [length] in Hm. destruct (IH s [] ltac:(lia) Hnil) as [A B]. split; [cbn [concat app]; rewrite A; reflexivity|].
    apply Htok; auto. rewrite !orb_true_iff, !ceq_eq in Ea. destruct Ea as [[->| ->]| ->]; reflexivity. }
  destruct (ceq c "="%char) eqn:E'; [apply ceq_eq in E'; split; auto|exact Hplain].
Qed.

Lemma split_equation_accept s toks : split_equation_string s = EOk toks ->
  spaced toks s /\ noadj false toks /\ In "="%char s.
Proof.
  unfold split_equation_string. destruct (has_comparison s) eqn:E1; cbn [negb]; [|discriminate].
  destruct (invalid_comparison None None s); [discriminate|]. intros E; inversion E; subst.
  destruct (split_ops_facts (length s) s []) as [A B]; auto; [intros c []|].
  split; [|split; auto].
  - pose proof (spaced_lexed (split_ops [] s)) as H. rewrite A in H. exact H.
  - destruct s as [|c s]; [discriminate|]. cbn [has_comparison] in E1. destruct (ceq c newline); [discriminate|].
    right. apply eq_before_newline_In. exact E1.
Qed.

Section Acc.
  Variable to_float : str -> option R.
  Variable groups : groups_t.
  Variable n : nat.
  Variable sto : bool.
  Hypothesis no_op_number : forall e, is_op e = true -> to_float e = None.
  Hypothesis no_op_group : forall e, is_op e = true -> is_group groups e = false.

  Notation rec_term := (rec_term to_float groups).
  Notation rec_side := (rec_side to_float groups).
  Lemma is_mul_eq e : is_mul e = true -> e = S_ "*".
  Proof. clear. unfold is_mul. rewrite mem_str_In. simpl. intuition. Qed.

  Lemma operand_inv s0 st toks st' rest pw :
    operand to_float groups n sto s0 st toks = EOk (st', rest) -> noadj pw toks ->
    exists t : term, toks = term_toks t ++ rest /\ rec_term t /\ noadj true rest /\ csign st' = csign st.
  Proof.
    unfold operand. destruct toks as [|e r]; [discriminate|].
    destruct (is_op e) eqn:Eop; [discriminate|]. intros H Hadj.
    assert (Hr: noadj true r).
    { cbn [noadj] in Hadj. destruct Hadj as [[E _]|(_&_&Hr)]; [congruence|exact Hr]. }
    destruct (is_group groups e) eqn:Eg.
    - apply (is_group_known groups) in Eg.
      destruct (matching_array groups n sto e) as [arr|]; [|discriminate].
      destruct r as [|e2 r2].
      + inversion H; subst. exists (Grp e). repeat split; auto.
      + destruct (is_non_mul e2) eqn:E2.
        * inversion H; subst. exists (Grp e). repeat split; auto.
        * destruct (is_mul e2) eqn:E3; [|discriminate]. destruct r2 as [|e3 r3]; [discriminate|].
          destruct (to_float e3) as [x|] eqn:Ex; [|discriminate]. inversion H; subst.
          apply is_mul_eq in E3. subst e2. exists (GrpNum e e3).
          split; [reflexivity|]. split; [split; [exists x; exact Ex|exact Eg]|]. split; [|reflexivity].
          cbn [noadj] in Hr. destruct Hr as [[_ Hr]|(E&_)]; [|vm_compute in E; discriminate].
          destruct Hr as [[E _]|(_&_&Hr)]; [rewrite (no_op_number _ E) in Ex; discriminate|exact Hr].
    - destruct (to_float e) as [x|] eqn:Ex; [|discriminate].
      destruct r as [|e2 r2].
      + inversion H; subst. exists (Const e). repeat split; auto. exists x; auto.
      + destruct (is_mul e2) eqn:E3.
        * destruct r2 as [|e3 r3]; [discriminate|]. destruct (is_group groups e3) eqn:Eg3; [|discriminate]. cbn [negb] in H.
          destruct (matching_array groups n sto e3) as [arr|]; [|discriminate]. inversion H; subst.
          apply is_mul_eq in E3. subst e2. exists (NumGrp e e3).
          split; [reflexivity|]. split; [split; [exists x; exact Ex|apply (is_group_known groups); exact Eg3]|]. split; [|reflexivity].
          cbn [noadj] in Hr. destruct Hr as [[_ Hr]|(E&_)]; [|vm_compute in E; discriminate].
          destruct Hr as [[E _]|(_&_&Hr)]; [rewrite (no_op_group _ E) in Eg3; discriminate|exact Hr].
        * destruct (is_non_mul e2) eqn:E4; [|discriminate]. inversion H; subst.
          exists (Const e). split; [reflexivity|]. split; [exists x; exact Ex|]. split; [exact Hr|reflexivity].
  Qed.


  Lemma is_comp_inv e : is_comp_op e = true -> exists o, e = cmp_tok o.
  Proof.
    clear. unfold is_comp_op. rewrite mem_str_In. simpl. intros [<-|[<-|[<-|[<-|[]]]]].
    - exists EQEQ; reflexivity.
    - exists EQ; reflexivity.
    - exists GE; reflexivity.
    - exists LE; reflexivity.
  Qed.
  Lemma is_sub_add_inv e : is_sub_add e = true -> exists b, e = sign_tok b.
  Proof. clear. unfold is_sub_add. rewrite mem_str_In. simpl. intros [<-|[<-|[]]]; [exists true|exists false]; reflexivity. Qed.

  Lemma loop_inv fuel : forall i st toks st',
    parse_loop to_float groups n sto fuel i st toks = EOk st' -> noadj true toks ->
    exists os cs, toks = flat_map signed_toks os ++ flat_map cmp_side_toks cs
      /\ Forall (fun p => rec_term (snd p)) os /\ Forall (fun p => rec_side (snd p)) cs
      /\ (cs = [] -> csign st' = csign st).
  Proof.
    induction fuel as [|fuel IH]; intros i st toks st' H Hadj; cbn [parse_loop] in H; [discriminate|].
    destruct (1000000 <? i + 1)%Z; [discriminate|]. destruct toks as [|e r].
    - inversion H; subst. exists [], []. repeat split; constructor.
    - destruct (parse_step to_float groups n sto st (e :: r)) as [[st1 rest]|] eqn:Es; [|discriminate].
      cbn [noadj] in Hadj. destruct Hadj as [[Eop Hr]|(_&E&_)]; [|discriminate].
      unfold parse_step in Es. destruct (is_comp_op e) eqn:Ec.
      + destruct (is_comp_inv _ Ec) as (o&->).
        assert (Hcase: exists fs t, r = match fs with Some b => [sign_tok b] | None => [] end ++ term_toks t ++ rest
                        /\ rec_term t /\ noadj true rest).
        { destruct r as [|s r'].
          - destruct (operand_inv _ _ _ _ _ false Es Hr) as (t&E&Ht&Hn&_). exists None, t. auto.
          - destruct (is_sub_add s) eqn:Esa.
            + destruct (is_sub_add_inv _ Esa) as (b&->).
              assert (Hr': exists q, noadj q r') by (destruct Hr as [[_ Hr]|(_&_&Hr)]; eauto).
              destruct Hr' as (q&Hr'). destruct (operand_inv _ _ _ _ _ q Es Hr') as (t&E&Ht&Hn&_).
              exists (Some b), t. subst r'. auto.
            + destruct (operand_inv _ _ _ _ _ false Es Hr) as (t&E&Ht&Hn&_). exists None, t. auto. }
        destruct Hcase as (fs&t&E&Ht&Hn). destruct (IH _ _ _ _ H Hn) as (os&cs&E2&Ho&Hcs&_).
        exists [], ((o, {| first_sign := fs; first := t; others := os |}) :: cs).
        split; [|split; [constructor|split; [constructor; [split; auto|auto]|discriminate]]].
        subst r rest. cbn [flat_map app]. unfold cmp_side_toks at 2. cbn [fst snd]. unfold side_toks. cbn [first_sign first others].
        destruct fs; cbn [app]; rewrite <- ?app_assoc; reflexivity.
      + destruct (is_sub_add e) eqn:Esa.
        * destruct (is_sub_add_inv _ Esa) as (b&->).
          destruct (operand_inv _ _ _ _ _ false Es Hr) as (t&E&Ht&Hn&Ecs).
          destruct (IH _ _ _ _ H Hn) as (os&cs&E2&Ho&Hcs&E3).
          exists ((b,t) :: os), cs. split; [|split; [constructor; auto|split; [auto|]]].
          -- subst r rest. cbn [flat_map app]. unfold signed_toks at 2. cbn [fst snd app]. rewrite <- app_assoc. reflexivity.
          -- intros E4. rewrite (E3 E4). exact Ecs.
        * destruct (is_mul e) eqn:Em; [discriminate|].
          unfold is_op, is_non_mul in Eop. rewrite Ec, Esa, Em in Eop. discriminate.
  Qed.

  Lemma parse_accept toks x : parse_tokens to_float groups n sto toks = EOk x -> noadj false toks ->
    exists l cs, toks = match l with Some s => side_toks s | None => [] end ++ flat_map cmp_side_toks cs
      /\ cs <> [] /\ match l with Some s => rec_side s | None => True end /\ Forall (fun p => rec_side (snd p)) cs.
  Proof.
    unfold parse_tokens. intros H Hadj.
    set (st0 := {| left := repeat 0 n; right := 0; main_sign := 1; csign := None; ineq := None |}) in *.
    destruct (parse_loop to_float groups n sto (S (length toks)) 0 st0 toks) as [st'|] eqn:Ep; [|discriminate].
    destruct (csign st') as [c|] eqn:Ecs; [|discriminate]. clear H.
    destruct toks as [|e r].
    { cbn in Ep. inversion Ep; subst. discriminate. }
    destruct (is_op e) eqn:Eop.
    - assert (Hn: noadj true (e :: r)).
      { cbn [noadj] in *. destruct Hadj as [H|(E&_)]; [auto|congruence]. }
      destruct (loop_inv _ _ _ _ _ Ep Hn) as (os&cs&E&Ho&Hcs&E3).
      assert (Hne: cs <> []) by (intros E4; rewrite (E3 E4) in Ecs; discriminate).
      destruct os as [|[b t] os].
      + exists None, cs. repeat split; auto.
      + exists (Some {| first_sign := Some b; first := t; others := os |}), cs.
        inversion Ho; subst. split; [|split; [auto|split; [split; auto|auto]]].
        rewrite E. cbn [flat_map]. unfold signed_toks at 1, side_toks. cbn [fst snd first_sign first others app]. reflexivity.
    - cbn [parse_loop] in Ep. destruct (1000000 <? 0 + 1)%Z; [discriminate|].
      destruct (parse_step to_float groups n sto st0 (e :: r)) as [[st1 rest]|] eqn:Es; [|discriminate].
      unfold parse_step in Es. unfold is_op, is_non_mul in Eop.
      apply orb_false_iff in Eop. destruct Eop as [Eab Em]. apply orb_false_iff in Eab. destruct Eab as [Ec Esa].
      rewrite Ec, Esa, Em in Es. destruct (operand_inv _ _ _ _ _ false Es Hadj) as (t&E&Ht&Hn&Ecs').
      destruct (loop_inv _ _ _ _ _ Ep Hn) as (os&cs&E2&Ho&Hcs&E3).
      assert (Hne: cs <> []) by (intros E4; rewrite (E3 E4), Ecs' in Ecs; discriminate).
      exists (Some {| first_sign := None; first := t; others := os |}), cs.
      split; [|split; [auto|split; [split; auto|auto]]].
      rewrite E, E2. unfold side_toks. cbn [first_sign first others]. rewrite <- app_assoc. reflexivity.
  Qed.
End Acc.

Lemma validate_groups_spec g : validate_groups_from g = true <-> levels_disjoint g.
Proof.
  unfold levels_disjoint. induction g as [|l r IH]; cbn [validate_groups_from].
  - split; auto. intros _. constructor.
  - rewrite andb_true_iff, IH, forallb_forall. split.
    + intros [H1 H2]. constructor; auto. apply Forall_forall. intros l' Hl' e He He'.
      specialize (H1 e He). rewrite forallb_forall in H1. specialize (H1 l' Hl').
      rewrite (proj2 (mem_str_In e l') He') in H1. discriminate.
    + intros H. inversion H as [|? ? HF HO]; subst. split; auto. intros e He. apply forallb_forall. intros l' Hl'.
      rewrite Forall_forall in HF. destruct (mem_str e l') eqn:E; auto. apply mem_str_In in E. exfalso. eapply HF; eauto.
Qed.

Lemma invalid_lt s : forall p2 p1 pre post, s = pre ++ "<"%char :: post ->
  (match post with c :: _ => c <> "="%char | [] => True end) ->
  (match rev pre with c :: _ => c <> ">"%char | [] => p1 <> Some ">"%char end) -> invalid_comparison p2 p1 s = true.
Proof.
  intros p2 p1 pre. revert s p2 p1. induction pre as [|a pre IH]; intros s p2 p1 post -> Hpost Hpre.
  - cbn [app invalid_comparison]. rewrite ceq_refl.
    assert (E1: opt_is p1 ">"%char = false).
    { destruct p1 as [c|]; cbn; auto. apply ceq_neq. intros ->. apply Hpre. reflexivity. }
    assert (E2: match post with c' :: _ => ceq c' "="%char | [] => false end = false).
    { destruct post; auto. apply ceq_neq; auto. }
    rewrite E1, E2. cbn [negb andb]. destruct (ceq "<"%char ">"%char); cbn [andb orb]; rewrite ?orb_true_r; reflexivity.
  - cbn [app invalid_comparison]. rewrite (IH _ p1 (Some a) post eq_refl Hpost).
    + apply orb_true_r.
    + cbn [rev] in Hpre. destruct (rev pre) as [|c r]; cbn in *; [congruence|exact Hpre].
Qed.
