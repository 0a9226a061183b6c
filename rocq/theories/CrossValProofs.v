(** Lemmas about CrossValModel. *)
From Coq Require Import List Arith ZArith Bool Lia Sorted Permutation.
Import ListNotations.
From Verif Require Import CombinatorialModel CombinatorialProofs CrossValModel.

Definition countc (f : nat) (L : list (list nat)) : nat := length (filter (memn f) L).

Lemma countc_app f A B : countc f (A ++ B) = countc f A + countc f B.
Proof. unfold countc. rewrite filter_app, app_length. reflexivity. Qed.
Lemma countc_le f L : countc f L <= length L.
Proof. unfold countc. induction L as [|c L IH]; simpl; auto. destruct (memn f c); simpl; lia. Qed.
Lemma countc_firstn_le f b L : countc f (firstn b L) <= countc f L.
Proof. rewrite <- (firstn_skipn b L) at 2. rewrite countc_app. lia. Qed.
Lemma countc_cons_map f x L : f <> x -> countc f (map (cons x) L) = countc f L.
Proof.
  intros H. unfold countc. rewrite filter_map_len. apply filter_ext_len. intros c _. unfold memn. simpl.
  destruct (Nat.eqb_spec f x); [congruence|auto].
Qed.
Lemma countc_cons_same x L : countc x (map (cons x) L) = length L.
Proof. unfold countc. rewrite filter_map_len, filter_all; auto. intros c _. apply memn_In. left; auto. Qed.

(** among the first [b] combinations, fold f occurs at least as often as fold f+1 *)
Lemma prefix_dom s n k f b : s <= f -> f + 1 < s + n ->
  countc (f + 1) (firstn b (combinations (seq s n) k)) <= countc f (firstn b (combinations (seq s n) k)).
Proof.
  revert s k b; induction n as [|n IH]; intros s k b H1 H2; [lia|].
  destruct k as [|k].
  { destruct b; unfold countc; simpl; rewrite ?firstn_nil; simpl; lia. }
  cbn [seq combinations].
  set (A := combinations (seq (S s) n) k). set (B := combinations (seq (S s) n) (S k)).
  rewrite firstn_app, !countc_app, firstn_map.
  destruct (Nat.eq_dec f s) as [->|Hf].
  - rewrite countc_cons_same, (countc_cons_map (s + 1)) by lia.
    destruct (Nat.le_gt_cases b (length (map (cons s) A))) as [Hb|Hb].
    + replace (b - length (map (cons s) A)) with 0 by lia. rewrite firstn_O.
      assert (X := countc_le (s + 1) (firstn b A)). change (countc (s + 1) []) with 0. change (countc s []) with 0. lia.
    + rewrite map_length in Hb. rewrite map_length. rewrite firstn_all2 by lia.
      assert (TOT : countc (s + 1) A + countc (s + 1) B = length A).
      { assert (E := count_containing (s :: seq (S s) n) k (s + 1) (seq_NoDup (S n) s) ltac:(apply (in_seq (S n) s); lia)).
        cbn [combinations] in E. fold A B in E. change (countc (s + 1) (map (cons s) A ++ B) = comb (length (s :: seq (S s) n) - 1) k) in E.
        rewrite countc_app, countc_cons_map in E by lia. rewrite E. unfold A. rewrite combinations_length. simpl. rewrite Nat.sub_0_r. reflexivity. }
      assert (X := countc_firstn_le (s + 1) (b - length A) B). lia.
  - rewrite !countc_cons_map by lia.
    assert (X := IH (S s) k b ltac:(lia) ltac:(lia)).
    assert (Y := IH (S s) (S k) (b - length (map (cons s) A)) ltac:(lia) ltac:(lia)).
    fold A in X. fold B in Y. lia.
Qed.

Lemma filter_seq_firstn (p : list nat -> bool) L b : b <= length L ->
  length (filter (fun i => p (nth i L [])) (seq 0 b)) = length (filter p (firstn b L)).
Proof.
  intros Hb. assert (E := filter_nth_seq p (firstn b L) [] 0 0). rewrite Nat.add_0_r in E.
  rewrite <- E. rewrite firstn_length, Nat.min_l by auto. apply filter_ext_len. intros i Hi. apply in_seq in Hi.
  rewrite Nat.sub_0_r. f_equal. revert L b Hb E Hi. clear. intros L b. revert L. revert i. 
  induction b as [|b IH]; intros i L Hb _ Hi; [lia|]. destruct L as [|c L]; [simpl in Hb; lia|].
  destruct i; simpl; auto. simpl in Hb. apply (IH i L); try lia.
  rewrite (filter_nth_seq p (firstn b L) [] 0 0). lia.
Qed.

Lemma nth_filter_mono (P Q : nat -> bool) N p :
  (forall b, b <= N -> length (filter Q (seq 0 b)) <= length (filter P (seq 0 b))) ->
  p < length (filter Q (seq 0 N)) ->
  nth p (filter P (seq 0 N)) 0 <= nth p (filter Q (seq 0 N)) 0.
Proof.
  intros H Hp. set (y := nth p (filter Q (seq 0 N)) 0).
  assert (Hy : In y (filter Q (seq 0 N))) by (apply nth_In; auto).
  apply filter_In in Hy. destruct Hy as [Hy _]. apply in_seq in Hy.
  assert (SP : seq 0 N = seq 0 (S y) ++ seq (S y) (N - S y)) by (rewrite <- seq_app; f_equal; lia).
  assert (C : p < length (filter Q (seq 0 (S y)))).
  { destruct (Nat.le_gt_cases (length (filter Q (seq 0 (S y)))) p) as [L|]; auto. exfalso.
    assert (E : y = nth (p - length (filter Q (seq 0 (S y)))) (filter Q (seq (S y) (N - S y))) 0).
    { unfold y at 1. rewrite SP, filter_app, app_nth2 by auto. reflexivity. }
    assert (L2 : p - length (filter Q (seq 0 (S y))) < length (filter Q (seq (S y) (N - S y)))).
    { rewrite SP, filter_app, app_length in Hp. lia. }
    assert (I := nth_In _ 0 L2). rewrite <- E in I. apply filter_In in I. destruct I as [I _]. apply in_seq in I. lia. }
  specialize (H (S y) ltac:(lia)).
  assert (C' : p < length (filter P (seq 0 (S y)))) by lia.
  rewrite SP, filter_app, app_nth1 by auto.
  assert (I := nth_In _ 0 C'). apply filter_In in I. destruct I as [I _]. apply in_seq in I. lia.
Qed.

(** * Lists sorted for a strict order with the same elements are equal *)
Lemma sorted_unique {A} (lt : A -> A -> Prop) (l1 l2 : list A) :
  (forall x, ~ lt x x) -> (forall x y z, lt x y -> lt y z -> lt x z) ->
  StronglySorted lt l1 -> StronglySorted lt l2 -> (forall x, In x l1 <-> In x l2) -> l1 = l2.
Proof.
  intros Hirr Htr H1. revert l2. induction H1 as [|x l1 H1 IH Hx]; intros l2 H2 Hin.
  - destruct l2 as [|y l2]; auto. exfalso. apply (proj2 (Hin y)); left; auto.
  - destruct H2 as [|y l2 H2 Hy]. { exfalso. apply (proj1 (Hin x)); left; auto. }
    rewrite Forall_forall in Hx, Hy.
    assert (x = y).
    { destruct (proj1 (Hin x) (or_introl eq_refl)) as [|Hx2]; auto.
      destruct (proj2 (Hin y) (or_introl eq_refl)) as [|Hy2]; auto.
      exfalso. apply (Hirr x). eapply Htr; [apply Hx, Hy2|apply Hy, Hx2]. }
    subst y. f_equal. apply IH; auto. intros z. split; intros Hz.
    + destruct (proj1 (Hin z) (or_intror Hz)) as [<-|]; auto. exfalso. apply (Hirr x), Hx, Hz.
    + destruct (proj2 (Hin z) (or_intror Hz)) as [<-|]; auto. exfalso. apply (Hirr x), Hy, Hz.
Qed.

Definition lex (a b : nat * nat) : Prop := fst a < fst b \/ (fst a = fst b /\ snd a < snd b).
Lemma lex_irr x : ~ lex x x. Proof. unfold lex. lia. Qed.
Lemma lex_trans x y z : lex x y -> lex y z -> lex x z. Proof. unfold lex. lia. Qed.

Lemma SS_app {A} (lt : A -> A -> Prop) l1 l2 : StronglySorted lt l1 -> StronglySorted lt l2 ->
  (forall x y, In x l1 -> In y l2 -> lt x y) -> StronglySorted lt (l1 ++ l2).
Proof.
  intros H1 H2 H. induction H1 as [|x l1 H1 IH Hx]; simpl; auto. constructor.
  - apply IH. intros; apply H; auto. right; auto.
  - apply Forall_app. split; auto. apply Forall_forall. intros y Hy. apply H; auto. left; auto.
Qed.

Definition lex_grid (N k : nat) : list (nat * nat) := flat_map (fun i => map (fun j => (i, j)) (seq 0 k)) (seq 0 N).
Lemma lex_grid_sorted N k : StronglySorted lex (lex_grid N k).
Proof.
  unfold lex_grid.
  assert (G : forall M s, StronglySorted lex (flat_map (fun i => map (fun j => (i, j)) (seq 0 k)) (seq s M))).
  { induction M as [|M IH]; intros s; simpl; [constructor|].
    apply SS_app; auto.
    - assert (SS := seq_SSorted 0 k). clear IH. induction SS as [|x l Hl IHl Hx]; simpl; constructor; auto.
      rewrite Forall_forall in Hx. apply Forall_forall. intros y Hy. apply in_map_iff in Hy. destruct Hy as (j & <- & Hj). right. simpl. split; auto.
    - intros x y Hx Hy. apply in_map_iff in Hx. destruct Hx as (j & <- & _).
      apply in_flat_map in Hy. destruct Hy as (i & Hi & Hy). apply in_map_iff in Hy. destruct Hy as (j' & <- & _).
      apply in_seq in Hi. left. simpl. lia. }
  apply G.
Qed.
Lemma lex_grid_In N k i j : In (i, j) (lex_grid N k) <-> i < N /\ j < k.
Proof.
  unfold lex_grid. rewrite in_flat_map. split.
  - intros (i' & Hi & H). apply in_map_iff in H. destruct H as (j' & [= -> ->] & Hj). apply in_seq in Hi, Hj. lia.
  - intros [A B]. exists i. split; [apply in_seq; lia|]. apply in_map_iff. exists j. split; auto. apply in_seq; lia.
Qed.
Lemma SS_filter {A} (lt : A -> A -> Prop) p l : StronglySorted lt l -> StronglySorted lt (filter p l).
Proof.
  induction 1 as [|x l Hl IH Hx]; simpl; [constructor|]. destruct (p x); auto. constructor; auto.
  rewrite Forall_forall in *. intros y Hy. apply filter_In in Hy. apply Hx, Hy.
Qed.

(** * append_at folds *)
Lemma append_at_length {A} p (x : A) paths : length (append_at A p x paths) = length paths.
Proof. revert p; induction paths as [|l r IH]; intros [|p]; simpl; auto. Qed.
Lemma append_at_nth {A} p q (x : A) paths : p < length paths ->
  nth p (append_at A q x paths) [] = nth p paths [] ++ (if q =? p then [x] else []).
Proof.
  revert p q; induction paths as [|l r IH]; intros p q H; simpl in *; [lia|].
  destruct q, p; simpl; rewrite ?app_nil_r; auto. apply IH. lia.
Qed.

Lemma fold_append {A E} (g : E -> option nat) (v : E -> A) es paths p : p < length paths ->
  let r := fold_left (fun paths e => match g e with Some q => append_at A q (v e) paths | None => paths end) es paths in
  length r = length paths /\
  nth p r [] = nth p paths [] ++ map v (filter (fun e => match g e with Some q => q =? p | None => false end) es).
Proof.
  revert paths; induction es as [|e es IH]; intros paths Hp; simpl.
  - rewrite app_nil_r. auto.
  - destruct (g e) as [q|].
    + destruct (IH (append_at A q (v e) paths)) as [L N]; [rewrite append_at_length; auto|].
      rewrite append_at_length in L. split; auto. rewrite N, append_at_nth by auto. rewrite <- app_assoc. f_equal.
      destruct (q =? p); reflexivity.
    + apply IH; auto.
Qed.

Lemma fold_left_flat {A B C} (f : A -> C -> A) (g : B -> list C) l a :
  fold_left (fun a b => fold_left f (g b) a) l a = fold_left f (flat_map g l) a.
Proof. revert a; induction l as [|b l IH]; intros a; simpl; auto. rewrite fold_left_app. apply IH. Qed.

Lemma fold_left_map {A B C} (f : A -> C -> A) (h : B -> C) l a :
  fold_left f (map h l) a = fold_left (fun a b => f a (h b)) l a.
Proof. revert a; induction l as [|b l IH]; intros a; simpl; auto. Qed.

Lemma combine_seq_map {A} (l : list A) d s : combine (seq s (length l)) l = map (fun i => (i, nth (i - s) l d)) (seq s (length l)).
Proof.
  revert s; induction l as [|x l IH]; intros s; simpl; auto. rewrite Nat.sub_diag. f_equal.
  rewrite IH. apply map_ext_in. intros i Hi. apply in_seq in Hi. replace (i - s) with (S (i - S s)) by lia. reflexivity.
Qed.

Section Comb.
  Variable A : Type.
  Variable predict : list nat -> list nat -> A.
  Variables K k pu em n : nat.
  Hypothesis Hk : 1 < k.
  Hypothesis HkK : k < K.
  Notation tsi := (test_set_index K k).
  Notation N := (n_splits K k).

  Definition splits_ := map (fun i => (train_index K k pu em n i, test_index_list K k n i)) (seq 0 N).
  Definition val (ij : nat * nat) : A := predict (train_index K k pu em n (fst ij)) (nth (snd ij) (test_index_list K k n (fst ij)) []).

  Lemma tests_len i : i < N -> length (test_index_list K k n i) = k.
  Proof.
    intros Hi. unfold test_index_list. rewrite argwhere_spec by lia. rewrite !map_length.
    assert (H : In (nth i tsi []) tsi) by (apply nth_In; rewrite tsi_length; auto).
    apply tsi_spec in H. apply H.
  Qed.

  Lemma collect_nth p : p < path_nb K k ->
    length (collect A predict K k splits_) = path_nb K k /\
    nth p (collect A predict K k splits_) [] =
      map val (filter (fun ij => match path_id K k (fst ij) (snd ij) with Some q => q =? p | None => false end) (lex_grid N k)).
  Proof.
    intros Hp. unfold collect.
    assert (E : fold_left
        (fun paths is =>
           let '(i, (tr, tests)) := is in
           fold_left (fun paths jt =>
                        match path_id K k i (fst jt) with
                        | Some p => append_at A p (predict tr (snd jt)) paths
                        | None => paths
                        end)
                     (combine (seq 0 (length tests)) tests) paths)
        (combine (seq 0 (length splits_)) splits_) (repeat [] (path_nb K k))
      = fold_left (fun paths ij => match path_id K k (fst ij) (snd ij) with Some q => append_at A q (val ij) paths | None => paths end)
          (lex_grid N k) (repeat [] (path_nb K k))).
    { unfold lex_grid. rewrite <- fold_left_flat.
      rewrite (combine_seq_map splits_ ([], []) 0), fold_left_map.
      unfold splits_ at 2. rewrite map_length, seq_length.
      generalize (repeat (@nil A) (path_nb K k)) as acc.
      assert (G : forall l, (forall i, In i l -> i < N) -> forall acc,
         fold_left (fun a b => let '(i, (tr, tests)) := (b, nth (b - 0) splits_ ([], [])) in
            fold_left (fun paths jt => match path_id K k i (fst jt) with Some p0 => append_at A p0 (predict tr (snd jt)) paths | None => paths end)
              (combine (seq 0 (length tests)) tests) a) l acc
         = fold_left (fun a b => fold_left (fun paths ij => match path_id K k (fst ij) (snd ij) with Some q => append_at A q (val ij) paths | None => paths end) (map (fun j => (b, j)) (seq 0 k)) a) l acc).
      { induction l as [|i l IH]; intros Hl acc; simpl; auto. rewrite IH by (intros; apply Hl; right; auto). f_equal.
        assert (Hi : i < N) by (apply Hl; left; auto). rewrite Nat.sub_0_r.
        assert (NT : nth i splits_ ([], []) = (train_index K k pu em n i, test_index_list K k n i)).
        { unfold splits_. rewrite nth_indep with (d' := (train_index K k pu em n 0, test_index_list K k n 0)) by (rewrite map_length, seq_length; auto).
          rewrite (map_nth (fun i => (train_index K k pu em n i, test_index_list K k n i))), seq_nth by auto. reflexivity. }
        rewrite NT. rewrite (combine_seq_map _ [] 0), !fold_left_map, tests_len by auto.
        cbn [fst snd]. unfold val. cbn [fst snd].
        generalize acc. generalize (seq 0 k). induction l0 as [|j l0 IH0]; intros acc0; simpl; auto.
        rewrite Nat.sub_0_r. apply IH0. }
      intros acc. apply G. intros i Hi. apply in_seq in Hi. lia. }
    rewrite E. destruct (fold_append (fun ij => path_id K k (fst ij) (snd ij)) val (lex_grid N k) (repeat [] (path_nb K k)) p) as [L F].
    { rewrite repeat_length. auto. }
    rewrite repeat_length in L. split; [exact L|]. rewrite F.
    assert (RE : forall m, nth p (repeat (@nil A) m) [] = []).
    { intros m. destruct (nth_in_or_default p (repeat (@nil A) m) []) as [H|H]; auto. apply repeat_spec in H. auto. }
    rewrite RE. reflexivity.
  Qed.

  Definition route_at (p f : nat) : nat * nat := let i := nth p (row K k f) 0 in (i, pos f (nth i tsi [])).

  Lemma pid_eq i j f : i < N -> nth_error (nth i tsi []) j = Some f -> path_id K k i j = Some (pos i (row K k f)).
  Proof.
    intros Hi Hf. unfold path_id. rewrite argwhere_spec by lia. rewrite nth_error_map, Hf. reflexivity.
  Qed.

  Lemma route_in p f : p < comb (K - 1) (k - 1) -> f < K ->
    let i := fst (route_at p f) in let j := snd (route_at p f) in
    i < N /\ j < k /\ nth_error (nth i tsi []) j = Some f /\ path_id K k i j = Some p.
  Proof.
    intros Hp Hf. unfold route_at. cbn [fst snd]. set (i := nth p (row K k f) 0).
    assert (RL := row_length K k ltac:(lia) ltac:(lia) f Hf).
    assert (Hi : In i (row K k f)) by (apply nth_In; lia).
    assert (Hi' := Hi). apply row_In in Hi'. destruct Hi' as [HiN Hif].
    destruct (pos_nth (nth i tsi []) f 0 Hif) as [P1 P2].
    assert (L : length (nth i tsi []) = k).
    { assert (H : In (nth i tsi []) tsi) by (apply nth_In; rewrite tsi_length; auto). apply tsi_spec in H. apply H. }
    assert (NE : nth_error (nth i tsi []) (pos f (nth i tsi [])) = Some f).
    { rewrite (nth_error_nth' _ 0) by auto. congruence. }
    repeat split; auto; [lia|]. rewrite (pid_eq _ _ f) by auto. f_equal.
    destruct (pos_nth _ i 0 Hi) as [Q1 Q2].
    apply (proj1 (NoDup_nth (row K k f) 0) (row_NoDup K k f)); auto. lia.
  Qed.

  Lemma row_mono p f : p < comb (K - 1) (k - 1) -> f + 1 < K -> nth p (row K k f) 0 <= nth p (row K k (f + 1)) 0.
  Proof.
    intros Hp Hf. unfold row. apply nth_filter_mono.
    - intros b Hb. rewrite <- tsi_length in Hb. rewrite !filter_seq_firstn by auto.
      unfold test_set_index. apply (prefix_dom 0 K k f b); lia.
    - fold (row K k (f + 1)). rewrite row_length by lia. auto.
  Qed.

  Lemma pos_sorted c f g : StronglySorted lt c -> In f c -> In g c -> f < g -> pos f c < pos g c.
  Proof.
    intros H Hf Hg Hfg. induction H as [|x l Hl IH Hx]; [contradiction|]. rewrite Forall_forall in Hx.
    cbn [pos]. destruct (Nat.eqb_spec x f) as [->|N1].
    - destruct (Nat.eqb_spec f g); lia.
    - destruct Hf as [|Hf]; [congruence|]. specialize (Hx f Hf). destruct (Nat.eqb_spec x g); [lia|].
      destruct Hg as [|Hg]; [congruence|]. specialize (IH Hf Hg). lia.
  Qed.

  Lemma route_sorted p : p < comb (K - 1) (k - 1) -> StronglySorted lex (map (route_at p) (seq 0 K)).
  Proof.
    intros Hp. apply Sorted_StronglySorted; [intros x y z; apply lex_trans|].
    assert (G : forall M s, s + M <= K -> Sorted lex (map (route_at p) (seq s M))).
    { induction M as [|M IH]; intros s Hs; simpl; constructor; [apply IH; lia|].
      destruct M as [|M]; simpl; constructor. unfold lex.
      destruct (route_in p s Hp ltac:(lia)) as (A1 & A2 & A3 & A4).
      destruct (route_in p (S s) Hp ltac:(lia)) as (B1 & B2 & B3 & B4).
      assert (M1 := row_mono p s Hp ltac:(lia)). replace (s + 1) with (S s) in M1 by lia.
      change (nth p (row K k s) 0) with (fst (route_at p s)) in M1.
      change (nth p (row K k (S s)) 0) with (fst (route_at p (S s))) in M1.
      destruct (Nat.eq_dec (fst (route_at p s)) (fst (route_at p (S s)))) as [E|E]; [right|left; lia].
      split; auto. unfold route_at in *. cbn [fst snd] in *. rewrite <- E in *.
      apply nth_error_In in A3, B3. apply pos_sorted; auto.
      assert (H : In (nth (nth p (row K k s) 0) tsi []) tsi) by (apply nth_In; rewrite tsi_length; auto).
      apply tsi_spec in H. apply H. }
    apply G. lia.
  Qed.

  Lemma path_filter p : p < comb (K - 1) (k - 1) ->
    filter (fun ij => match path_id K k (fst ij) (snd ij) with Some q => q =? p | None => false end) (lex_grid N k)
    = map (route_at p) (seq 0 K).
  Proof.
    intros Hp. apply (sorted_unique lex); [apply lex_irr|apply lex_trans| |apply route_sorted; auto|].
    - apply SS_filter, lex_grid_sorted.
    - intros [i j]. rewrite filter_In, lex_grid_In. cbn [fst snd]. split.
      + intros ((Hi & Hj) & HP).
        assert (H : In (nth i tsi []) tsi) by (apply nth_In; rewrite tsi_length; auto).
        apply tsi_spec in H. destruct H as (L & SS & LT).
        destruct (nth_error (nth i tsi []) j) as [f|] eqn:Ef; [|apply nth_error_None in Ef; lia].
        rewrite (pid_eq i j f Hi Ef) in HP. apply Nat.eqb_eq in HP.
        assert (Hf : In f (nth i tsi [])) by (eapply nth_error_In; eauto).
        apply in_map_iff. exists f. split; [|apply in_seq; specialize (LT f Hf); lia].
        assert (Hir : In i (row K k f)) by (apply row_In; auto).
        destruct (pos_nth _ i 0 Hir) as [Q1 _]. rewrite HP in Q1. unfold route_at. rewrite Q1. f_equal.
        destruct (pos_nth _ f 0 Hf) as [R1 R2].
        assert (ND : NoDup (nth i tsi [])).
        { clear -SS. induction SS as [|x l Hl IH Hx]; constructor; auto. rewrite Forall_forall in Hx. intros h. specialize (Hx _ h). lia. }
        rewrite NoDup_nth_error in ND. apply ND; auto. rewrite Ef. rewrite (nth_error_nth' _ 0) by auto. congruence.
      + intros H. apply in_map_iff in H. destruct H as (f & E & Hf). apply in_seq in Hf.
        destruct (route_in p f Hp ltac:(lia)) as (A1 & A2 & A3 & A4). rewrite E in *. cbn [fst snd] in *.
        split; auto. rewrite A4. apply Nat.eqb_refl.
  Qed.

  Lemma comb_pos a b : b <= a -> 0 < comb a b.
  Proof. revert b; induction a as [|a IH]; intros [|b] H; simpl; try lia. specialize (IH b). lia. Qed.

  Lemma path_nb_eq : path_nb K k = n_test_paths K k.
  Proof.
    rewrite n_test_paths_comb by lia. unfold path_nb.
    set (L := flat_map _ _). assert (POS := comb_pos (K - 1) (k - 1) ltac:(lia)).
    assert (UB : forall x, In x L -> x < comb (K - 1) (k - 1)).
    { intros x Hx. unfold L in Hx. apply in_flat_map in Hx. destruct Hx as (i & Hi & Hx). apply in_seq in Hi.
      apply in_map_iff in Hx. destruct Hx as (j & <- & Hj). apply in_seq in Hj.
      assert (H : In (nth i tsi []) tsi) by (apply nth_In; rewrite tsi_length; lia).
      apply tsi_spec in H. destruct H as (Len & SS & LT).
      destruct (nth_error (nth i tsi []) j) as [f|] eqn:Ef; [|apply nth_error_None in Ef; lia].
      rewrite (pid_eq i j f ltac:(lia) Ef). assert (Hf : In f (nth i tsi [])) by (eapply nth_error_In; eauto).
      assert (Hir : In i (row K k f)) by (apply row_In; split; auto; lia).
      destruct (pos_nth _ i 0 Hir) as [_ Q]. rewrite (row_length K k) in Q by (auto; lia). auto. }
    assert (IN : In (comb (K - 1) (k - 1) - 1) L).
    { destruct (route_in (comb (K - 1) (k - 1) - 1) 0 ltac:(lia) ltac:(lia)) as (A1 & A2 & A3 & A4).
      unfold L. apply in_flat_map. eexists. split; [apply in_seq; split; [lia|exact A1]|].
      apply in_map_iff. eexists. split; [|apply in_seq; split; [lia|exact A2]]. rewrite A4. reflexivity. }
    assert (G : forall l m, In m l -> (forall x, In x l -> x <= m) -> fold_right Nat.max 0 l = m).
    { induction l as [|x l IH]; intros m Hm Hu; [contradiction|]. simpl.
      assert (Hb : fold_right Nat.max 0 l <= m).
      { clear -Hu. assert (H : forall x, In x l -> x <= m) by (intros; apply Hu; right; auto). clear Hu. induction l; simpl; [lia|].
        specialize (IHl ltac:(intros; apply H; right; auto)). specialize (H a (or_introl eq_refl)). lia. }
      destruct Hm as [->|Hm]; [lia|]. rewrite (IH m Hm); [|intros; apply Hu; right; auto].
      specialize (Hu x (or_introl eq_refl)). lia. }
    rewrite (G L _ IN); [lia|]. intros x Hx. specialize (UB x Hx). lia.
  Qed.
End Comb.

(** * argsort *)
Lemma insert_key_perm e l : Permutation (insert_key e l) (e :: l).
Proof.
  induction l as [|x l IH]; simpl; auto. destruct (fst e <=? fst x); auto.
  rewrite IH. apply perm_swap.
Qed.
Definition key_le (a b : nat * nat) := fst a <= fst b.
Lemma insert_key_sorted e l : StronglySorted key_le l -> StronglySorted key_le (insert_key e l).
Proof.
  induction 1 as [|x l Hl IH Hx]; simpl; [repeat constructor|].
  destruct (Nat.leb_spec (fst e) (fst x)).
  - constructor; [constructor; auto|]. constructor; auto. eapply Forall_impl; [|exact Hx]. unfold key_le. intros; lia.
  - constructor; auto. rewrite Forall_forall in *. intros y Hy.
    apply (Permutation_in _ (insert_key_perm e l)) in Hy. destruct Hy as [<-|Hy]; [unfold key_le; lia|auto].
Qed.
Lemma argsort_spec keys :
  exists l, argsort keys = map snd l /\ StronglySorted key_le l /\ Permutation l (combine keys (seq 0 (length keys))).
Proof.
  unfold argsort. set (c := combine _ _). exists (fold_right insert_key [] c). split; auto. clearbody c. clear. split.
  - induction c; simpl; [constructor|]. apply insert_key_sorted; auto.
  - induction c; simpl; auto. rewrite insert_key_perm. constructor; auto.
Qed.

Lemma heads_spec l keys : heads l = Some keys -> length keys = length l /\ (forall i, i < length l -> exists tl, nth i l [] = nth i keys 0 :: tl).
Proof.
  revert keys; induction l as [|t l IH]; intros keys H; simpl in *.
  - injection H as <-. split; auto. intros; lia.
  - destruct t as [|x t]; [discriminate|]. destruct (heads l) as [ks|]; [|discriminate]. injection H as <-.
    destruct (IH ks eq_refl) as [A B]. split; simpl; [lia|]. intros [|i] Hi; [exists t; auto|]. apply B. lia.
Qed.
Lemma all_distinct_NoDup l : all_distinct l = true -> NoDup l.
Proof.
  induction l as [|x l IH]; simpl; [constructor|]. rewrite andb_true_iff, negb_true_iff, memn_nIn. intros [A B]. constructor; auto.
Qed.
Lemma NoDup_all_distinct l : NoDup l -> all_distinct l = true.
Proof. induction 1 as [|x l H1 H2 IH]; simpl; auto. apply andb_true_iff. split; auto. apply negb_true_iff, memn_nIn. auto. Qed.
Lemma strictly_increasing_spec l : strictly_increasing l = true <-> StronglySorted lt l.
Proof.
  split.
  - intros H. apply Sorted_StronglySorted; [intros a b c; lia|]. induction l as [|x l IH]; [constructor|].
    destruct l as [|y l]; [repeat constructor|]. cbn [strictly_increasing] in H. apply andb_true_iff in H. destruct H as [A B].
    constructor; auto. constructor. apply Nat.ltb_lt; auto.
  - induction 1 as [|x l Hl IH Hx]; auto. destruct l as [|y l]; auto. cbn [strictly_increasing].
    apply andb_true_iff. split; auto. apply Nat.ltb_lt. inversion Hx; auto.
Qed.
