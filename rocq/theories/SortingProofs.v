(** Lemmas about SortingModel. *)
From Coq Require Import List Arith ZArith QArith Bool Lia Permutation.
Import ListNotations.
From Verif Require Import SortingModel.
Open Scope nat_scope.

(** * Order facts on [fnum] *)
Lemma fltb_fin p q : fltb (FFin p) (FFin q) = true <-> (p < q)%Q.
Proof.
  simpl. rewrite Qlt_alt. destruct (p ?= q)%Q; split; congruence.
Qed.

Lemma fltb_irrefl x : fltb x x = false.
Proof.
  destruct x; auto. destruct (fltb (FFin q) (FFin q)) eqn:E; auto.
  apply fltb_fin in E. exfalso. exact (Qlt_irrefl _ E).
Qed.

Lemma fltb_asym x y : fltb x y = true -> fltb y x = false.
Proof.
  destruct x, y; auto; try discriminate. intros H.
  apply fltb_fin in H. destruct (fltb (FFin q0) (FFin q)) eqn:E; auto.
  apply fltb_fin in E. exfalso. exact (Qlt_irrefl _ (Qlt_trans _ _ _ H E)).
Qed.

(** transitivity of "not less" holds only away from NaN *)
Lemma fnlt_trans x y z : y <> FNaN ->
  fltb x y = false -> fltb y z = false -> fltb x z = false.
Proof.
  intros Hy. destruct x as [| |p|], y as [| |q|], z as [| |r|];
    try congruence; try reflexivity; intros A B; try (simpl in *; congruence).
  destruct (fltb (FFin p) (FFin r)) eqn:E; auto.
  apply fltb_fin in E.
  assert (HA : ~ (p < q)%Q) by (intro h; apply fltb_fin in h; congruence).
  assert (HB : ~ (q < r)%Q) by (intro h; apply fltb_fin in h; congruence).
  apply Qnot_lt_le in HA. apply Qnot_lt_le in HB.
  exfalso. apply (Qlt_irrefl p). eapply Qlt_le_trans; [exact E|].
  eapply Qle_trans; eauto.
Qed.

Lemma flt_fnlt_trans x y z : x <> FNaN -> y <> FNaN -> z <> FNaN ->
  fltb y x = true -> fltb y z = false -> fltb z x = true.
Proof.
  intros Hx Hy Hz H1 H2. destruct (fltb z x) eqn:E; auto.
  assert (fltb y x = false) by (apply (fnlt_trans y z x); auto). congruence.
Qed.

(** * Characterisation of [dominate] *)
Definition nlt (x y : fnum) : Prop := fltb x y = false.

Lemma dominate_loop_true a b ne :
  dominate_loop a b ne = Some true <->
  Forall2 nlt a b /\ (ne = true \/ exists k x y, nth_error a k = Some x /\ nth_error b k = Some y /\ fltb y x = true).
Proof.
  revert b ne; induction a as [|x a IH]; intros [|y b] ne; simpl.
  - split.
    + intros [= ->]. split; [constructor|left; reflexivity].
    + intros [_ [->|(k & u & v & H & _)]]; auto. destruct k; discriminate.
  - split; [discriminate|]. intros [H _]; inversion H.
  - split; [discriminate|]. intros [H _]; inversion H.
  - destruct (fltb y x) eqn:E1.
    + rewrite IH. split.
      * intros [H1 _]. split.
        -- constructor; auto. apply fltb_asym; auto.
        -- right. exists 0, x, y; auto.
      * intros [H1 _]. inversion H1; subst; auto.
    + destruct (fltb x y) eqn:E2.
      * split; [discriminate|]. intros [H _]. inversion H; subst.
        unfold nlt in *; congruence.
      * rewrite IH. split.
        -- intros [H1 [H2|(k & u & v & H2 & H3 & H4)]]; (split; [constructor; auto|]); auto.
           right. exists (S k), u, v; auto.
        -- intros [H1 [H2|(k & u & v & H2 & H3 & H4)]]; inversion H1; subst; split; auto.
           destruct k; simpl in *; [congruence|]. right; exists k, u, v; auto.
Qed.

Lemma dominate_loop_len a b ne : length a = length b -> exists r, dominate_loop a b ne = Some r.
Proof.
  revert b ne; induction a as [|x a IH]; intros [|y b] ne; simpl; intros H; try discriminate; eauto.
  injection H as H. destruct (fltb y x); [apply IH; auto|].
  destruct (fltb x y); eauto.
Qed.

Lemma dominateb_iff a b :
  dominateb a b = true <->
  Forall2 nlt a b /\ exists k x y, nth_error a k = Some x /\ nth_error b k = Some y /\ fltb y x = true.
Proof.
  unfold dominateb, dominate.
  assert (H := dominate_loop_true a b false).
  destruct (dominate_loop a b false) as [[|]|] eqn:E.
  - split; auto. intros _. destruct (proj1 H eq_refl) as [H1 [H2|H2]]; auto. discriminate.
  - split; [discriminate|]. intros [H1 H2]. assert (Some false = Some true) by (apply H; auto). discriminate.
  - split; [discriminate|]. intros [H1 H2]. assert (None = Some true) by (apply H; auto). discriminate.
Qed.

Lemma dominateb_irrefl a : dominateb a a = false.
Proof.
  destruct (dominateb a a) eqn:E; auto. apply dominateb_iff in E.
  destruct E as [_ (k & x & y & H1 & H2 & H3)]. rewrite H1 in H2. injection H2 as ->.
  rewrite fltb_irrefl in H3. discriminate.
Qed.

Lemma Forall2_nth {A B} (P : A -> B -> Prop) l1 l2 k x y :
  Forall2 P l1 l2 -> nth_error l1 k = Some x -> nth_error l2 k = Some y -> P x y.
Proof.
  intros H; revert k; induction H; intros [|k] H1 H2; simpl in *; try discriminate; try congruence; eauto.
Qed.

Lemma dominateb_asym a b : dominateb a b = true -> dominateb b a = false.
Proof.
  intros H. destruct (dominateb b a) eqn:E; auto.
  apply dominateb_iff in H. apply dominateb_iff in E.
  destruct H as [H (k & x & y & H1 & H2 & H3)]. destruct E as [E _].
  assert (nlt y x) by (eapply Forall2_nth; eauto). unfold nlt in *; congruence.
Qed.

Lemma nlt_Forall2_trans a b c : ~ In FNaN b ->
  Forall2 nlt a b -> Forall2 nlt b c -> Forall2 nlt a c.
Proof.
  intros Hb Hab. revert c. induction Hab as [|x y a b Hxy Hab IH]; intros c H; inversion H; subst; constructor.
  - eapply fnlt_trans; eauto. intros ->; apply Hb; left; auto.
  - apply IH; auto. intros h; apply Hb; right; auto.
Qed.

Lemma dominateb_trans a b c : ~ In FNaN a -> ~ In FNaN b -> ~ In FNaN c ->
  dominateb a b = true -> dominateb b c = true -> dominateb a c = true.
Proof.
  intros Ha Hb Hc H1 H2. apply dominateb_iff in H1. apply dominateb_iff in H2. apply (proj2 (dominateb_iff a c)).
  destruct H1 as [H1 (k & x & y & K1 & K2 & K3)]. destruct H2 as [H2 _].
  split; [apply (nlt_Forall2_trans a b c); auto|].
  assert (L : length b = length c) by (clear -H2; induction H2; simpl; auto).
  destruct (nth_error c k) as [z|] eqn:K4.
  2:{ apply nth_error_None in K4. assert (nth_error b k <> None) as K5 by congruence.
      apply nth_error_Some in K5. lia. }
  exists k, x, z. repeat split; auto.
  assert (nlt y z) by (eapply Forall2_nth; eauto).
  apply nth_error_In in K1, K2, K4.
  apply (flt_fnlt_trans x y z); auto; intros ->; auto.
Qed.

(** * Counting *)
Section Count.
  Variable d : nat -> nat -> bool.   (* d i j : i dominates j *)
  Hypothesis d_asym : forall i j, d i j = true -> d j i = false.

  Definition cnt (p : nat -> bool) (l : list nat) : Z := Z.of_nat (length (filter p l)).

  Lemma cnt_app p l1 l2 : cnt p (l1 ++ l2) = (cnt p l1 + cnt p l2)%Z.
  Proof. unfold cnt. rewrite filter_app, app_length. lia. Qed.

  Lemma cnt_one p x : cnt p [x] = if p x then 1%Z else 0%Z.
  Proof. unfold cnt; simpl; destruct (p x); reflexivity. Qed.

  Lemma d_irrefl i : d i i = false.
  Proof. destruct (d i i) eqn:E; auto. pose proof (d_asym _ _ E); congruence. Qed.
End Count.

Lemma upd_same {A} (f : nat -> A) i v : upd f i v i = v.
Proof. unfold upd; rewrite Nat.eqb_refl; auto. Qed.
Lemma upd_other {A} (f : nat -> A) i v k : k <> i -> upd f i v k = f k.
Proof. unfold upd; intros H. apply Nat.eqb_neq in H; rewrite H; auto. Qed.

(** * First phase *)
Section First.
  Variable F : list (list fnum).
  Notation d := (dom F).

  Lemma dom_asym i j : d i j = true -> d j i = false.
  Proof. apply dominateb_asym. Qed.
  Lemma dom_irrefl i : d i i = false.
  Proof. apply dominateb_irrefl. Qed.

  (** value of the arrays when outer iterations < m are complete and, in
      iteration m, the inner index has reached p (m < p <= n) *)
  Definition lim (n m p a : nat) : nat :=
    if a <? m then n else if a =? m then p else if a <? p then m + 1 else m.

  Definition inv_inner (n m p : nat) (b : build) : Prop :=
    forall a, a < n ->
      isdom b a = filter (d a) (seq 0 (lim n m p a)) /\
      ndom b a = cnt (fun i => d i a) (seq 0 (lim n m p a)).

  Lemma seq_S_last s k : seq s (S k) = seq s k ++ [s + k].
  Proof. replace (S k) with (k + 1) by lia. rewrite seq_app. reflexivity. Qed.

  Lemma filter_one (p : nat -> bool) x : filter p [x] = if p x then [x] else [].
  Proof. reflexivity. Qed.

  Lemma pair_step_inv n m p b : m < p -> p < n ->
    inv_inner n m p b -> inv_inner n m (S p) (pair_step F m b p).
  Proof.
    intros Hmp Hpn H a Ha.
    destruct (H a Ha) as [H1 H2].
    assert (Hcase : a < m \/ a = m \/ (m < a < p) \/ a = p \/ p < a) by lia.
    assert (Hl : lim n m (S p) a =
       if a =? m then S p else if a =? p then S m else lim n m p a).
    { unfold lim. destruct (Nat.ltb_spec a m), (Nat.eqb_spec a m), (Nat.eqb_spec a p), (Nat.ltb_spec a (S p)), (Nat.ltb_spec a p); lia. }
    assert (Hlm : a = m -> lim n m p a = p).
    { intros ->. unfold lim. rewrite Nat.ltb_irrefl, Nat.eqb_refl; auto. }
    assert (Hlp : a = p -> lim n m p a = m).
    { intros ->. unfold lim. destruct (Nat.ltb_spec p m); try lia. destruct (Nat.eqb_spec p m); try lia. rewrite Nat.ltb_irrefl; auto. }
    unfold pair_step. rewrite Hl.
    destruct (Nat.eqb_spec a m) as [->|Nm].
    - rewrite (Hlm eq_refl) in *. rewrite seq_S_last, filter_app, cnt_app, filter_one, cnt_one. simpl (0 + p).
      destruct (d m p) eqn:E1.
      + rewrite (dom_asym _ _ E1). simpl isdom; simpl ndom. rewrite upd_same, upd_other by lia. rewrite H1, H2. split; auto; lia.
      + destruct (d p m) eqn:E2; simpl isdom; simpl ndom.
        * rewrite upd_same, upd_other by lia. rewrite H1, H2, app_nil_r. split; auto.
        * rewrite H1, H2, app_nil_r. split; auto; lia.
    - destruct (Nat.eqb_spec a p) as [->|Np].
      + rewrite (Hlp eq_refl) in *. rewrite seq_S_last, filter_app, cnt_app, filter_one, cnt_one. simpl (0 + m).
        destruct (d m p) eqn:E1.
        * rewrite (dom_asym _ _ E1). simpl isdom; simpl ndom. rewrite upd_same, upd_other by lia. rewrite H1, H2, app_nil_r. split; auto.
        * destruct (d p m) eqn:E2; simpl isdom; simpl ndom.
          -- rewrite upd_same, upd_other by lia. rewrite H1, H2. split; auto; lia.
          -- rewrite H1, H2, app_nil_r. split; auto; lia.
      + destruct (d m p); [|destruct (d p m)]; simpl isdom; simpl ndom; rewrite ?upd_other by lia; auto.
  Qed.

  Lemma inner_inv n m k p b : m < p -> p + k = n ->
    inv_inner n m p b -> inv_inner n m n (fold_left (pair_step F m) (seq p k) b).
  Proof.
    revert p b; induction k as [|k IH]; intros p b Hmp Hpk H; simpl.
    - replace p with n in H by lia; auto.
    - apply IH; try lia. apply pair_step_inv; auto; lia.
  Qed.

  (** outer iterations < m complete *)
  Definition inv_outer (n m : nat) (b : build) : Prop :=
    forall a, a < n ->
      isdom b a = filter (d a) (seq 0 (if a <? m then n else m)) /\
      ndom b a = cnt (fun i => d i a) (seq 0 (if a <? m then n else m)).

  Lemma outer_to_inner n m b : m < n -> inv_outer n m b -> inv_inner n m (m + 1) b.
  Proof.
    intros Hm H a Ha. destruct (H a Ha) as [H1 H2].
    unfold lim. destruct (Nat.ltb_spec a m); auto.
    destruct (Nat.eqb_spec a m) as [->|]; [|destruct (Nat.ltb_spec a (m + 1)); [lia|auto]].
    rewrite Nat.add_1_r, seq_S_last, filter_app, cnt_app, filter_one, cnt_one. simpl (0 + m).
    rewrite dom_irrefl, app_nil_r. split; auto; lia.
  Qed.

  Lemma inner_to_outer n m b : m < n -> inv_inner n m n b -> inv_outer n (S m) b.
  Proof.
    intros Hm H a Ha. destruct (H a Ha) as [H1 H2].
    unfold lim in *. destruct (Nat.ltb_spec a m), (Nat.eqb_spec a m), (Nat.ltb_spec a (S m)), (Nat.ltb_spec a n); try lia; auto.
    replace (S m) with (m + 1) by lia. auto.
  Qed.

  Lemma first_phase_inv n m k s :
    m + k = n ->
    inv_outer n m (fst s) ->
    snd s = filter (fun j => Z.eqb (cnt (fun i => d i j) (seq 0 n)) 0) (seq 0 m) ->
    let r := fold_left (outer_step F n) (seq m k) s in
    inv_outer n n (fst r) /\
    snd r = filter (fun j => Z.eqb (cnt (fun i => d i j) (seq 0 n)) 0) (seq 0 n).
  Proof.
    revert m s; induction k as [|k IH]; intros m s Hmk Ho Hs; cbn [fold_left seq].
    - replace m with n in * by lia. auto.
    - apply IH; [lia| |].
      + unfold outer_step; cbn [fst]. apply inner_to_outer; [lia|].
        apply inner_inv; [lia|lia|]. apply outer_to_inner; auto; lia.
      + unfold outer_step; cbn [fst snd].
        assert (Hi : inv_inner n m n (fold_left (pair_step F m) (seq (m + 1) (n - (m + 1))) (fst s))).
        { apply inner_inv; [lia|lia|]. apply outer_to_inner; auto; lia. }
        destruct (Hi m ltac:(lia)) as [_ Hn].
        assert (Hlim : lim n m n m = n) by (unfold lim; rewrite Nat.ltb_irrefl, Nat.eqb_refl; auto).
        rewrite Hlim in Hn. rewrite Hn, seq_S_last, filter_app, filter_one, Hs. simpl (0 + m).
        destruct (Z.eqb _ _); rewrite ?app_nil_r; auto.
  Qed.

  Lemma first_phase_spec n :
    let r := first_phase F n in
    (forall a, a < n -> isdom (fst r) a = filter (d a) (seq 0 n) /\
                        ndom (fst r) a = cnt (fun i => d i a) (seq 0 n)) /\
    snd r = filter (fun j => Z.eqb (cnt (fun i => d i j) (seq 0 n)) 0) (seq 0 n).
  Proof.
    unfold first_phase.
    destruct (first_phase_inv n 0 n (build_init, []) eq_refl) as [H1 H2]; auto.
    { intros a Ha. simpl. auto. }
    split; auto. intros a Ha. specialize (H1 a Ha).
    destruct (Nat.ltb_spec a n); try lia. auto.
  Qed.
End First.

(** * Peeling *)
Lemma peel_flat (isd : nat -> list nat) (cur : list nat) s :
  fold_left (fun s i => fold_left dec_step (isd i) s) cur s
  = fold_left dec_step (flat_map isd cur) s.
Proof.
  revert s; induction cur as [|i cur IH]; intros s; simpl; auto.
  rewrite fold_left_app. apply IH.
Qed.

Lemma dec_fold (L : list nat) nd nx :
  (forall j, In j L -> (Z.of_nat (count_occ Nat.eq_dec L j) <= nd j)%Z) ->
  let r := fold_left dec_step L (nd, nx) in
  (forall j, fst r j = nd j - Z.of_nat (count_occ Nat.eq_dec L j))%Z /\
  exists nx', snd r = nx ++ nx' /\ NoDup nx' /\
    (forall j, In j nx' <-> In j L /\ nd j = Z.of_nat (count_occ Nat.eq_dec L j)).
Proof.
  revert nd nx; induction L as [|x L IH]; intros nd nx H.
  - simpl. split; [intros; lia|]. exists []. rewrite app_nil_r. split; [auto|split; [constructor|intros j; simpl; tauto]].
  - cbn [fold_left].
    set (nd1 := upd nd x (nd x - 1)%Z).
    set (nx1 := if (nd1 x =? 0)%Z then nx ++ [x] else nx).
    assert (Hx : (Z.of_nat (count_occ Nat.eq_dec (x :: L) x) <= nd x)%Z) by (apply H; left; auto).
    assert (Hcx : count_occ Nat.eq_dec (x :: L) x = S (count_occ Nat.eq_dec L x)) by (simpl; destruct (Nat.eq_dec x x); congruence).
    assert (Hco : forall j, j <> x -> count_occ Nat.eq_dec (x :: L) j = count_occ Nat.eq_dec L j)
      by (intros j Hj; simpl; destruct (Nat.eq_dec x j); congruence).
    assert (Hn1x : nd1 x = (nd x - 1)%Z) by (unfold nd1; apply upd_same).
    assert (Hn1o : forall j, j <> x -> nd1 j = nd j) by (intros; unfold nd1; apply upd_other; auto).
    destruct (IH nd1 nx1) as [IH1 (nx' & IH2 & IH3 & IH4)].
    { intros j Hj. destruct (Nat.eq_dec j x) as [->|Hjx].
      - rewrite Hn1x. lia.
      - rewrite Hn1o by auto. rewrite <- Hco by auto. apply H. right; auto. }
    assert (E : dec_step (nd, nx) x = (nd1, nx1)) by reflexivity.
    rewrite E. split.
    + intros j. rewrite IH1. destruct (Nat.eq_dec j x) as [->|Hjx].
      * rewrite Hn1x, Hcx. lia.
      * rewrite Hn1o, Hco by auto. lia.
    + destruct (Z.eqb_spec (nd1 x) 0) as [Ez|Ez].
      * assert (Hc0 : count_occ Nat.eq_dec L x = 0) by lia.
        assert (HnL : ~ In x L) by (apply (count_occ_not_In Nat.eq_dec); auto).
        exists (x :: nx'). split; [|split].
        -- rewrite IH2. unfold nx1. rewrite <- app_assoc. reflexivity.
        -- constructor; auto. rewrite IH4. tauto.
        -- intros j. simpl In. rewrite IH4. destruct (Nat.eq_dec j x) as [->|Hjx].
           ++ rewrite Hcx. split; intros; [split; auto; lia|auto].
           ++ rewrite Hn1o, Hco by auto. split; intros.
              ** destruct H0; [congruence|tauto].
              ** destruct H0 as [[?|?] ?]; [congruence|tauto].
      * exists nx'. split; [rewrite IH2; reflexivity|split; [exact IH3|]].
        -- intros j. rewrite IH4. simpl In. destruct (Nat.eq_dec j x) as [->|Hjx].
           ++ rewrite Hcx, Hn1x. split; intros HH.
              ** destruct HH as [HH1 HH2]. split; auto. lia.
              ** destruct HH as [_ HH2].
                 assert (count_occ Nat.eq_dec L x > 0) by lia.
                 split; [apply (count_occ_In Nat.eq_dec); auto|lia].
           ++ rewrite Hn1o, Hco by auto. split; intros HH.
              ** destruct HH; auto.
              ** destruct HH as [[?|?] ?]; [congruence|auto].
Qed.

Lemma count_occ_filter (p : nat -> bool) l j :
  NoDup l -> count_occ Nat.eq_dec (filter p l) j = if (p j && (existsb (Nat.eqb j) l))%bool then 1 else 0.
Proof.
  intros H. induction H as [|x l Hx Hl IH]; simpl; [rewrite andb_false_r; auto|].
  destruct (Nat.eqb_spec j x) as [->|Hjx].
  - assert (E : existsb (Nat.eqb x) l = false).
    { destruct (existsb (Nat.eqb x) l) eqn:E; auto. apply existsb_exists in E. destruct E as (y & Hy & Ey). apply Nat.eqb_eq in Ey; subst. tauto. }
    destruct (p x) eqn:Ep; simpl.
    + destruct (Nat.eq_dec x x); [|congruence]. rewrite IH, E. reflexivity.
    + rewrite IH. reflexivity.
  - destruct (p x) eqn:Ep; simpl.
    + destruct (Nat.eq_dec x j); [congruence|]. rewrite IH. reflexivity.
    + rewrite IH; reflexivity.
Qed.

Lemma count_flat (d : nat -> nat -> bool) n cur j : j < n ->
  count_occ Nat.eq_dec (flat_map (fun i => filter (d i) (seq 0 n)) cur) j
  = length (filter (fun i => d i j) cur).
Proof.
  intros Hj. induction cur as [|i cur IH]; simpl; auto.
  rewrite count_occ_app, IH, count_occ_filter by apply seq_NoDup.
  assert (E : existsb (Nat.eqb j) (seq 0 n) = true).
  { apply existsb_exists. exists j. split; [apply in_seq; lia|apply Nat.eqb_refl]. }
  rewrite E, andb_true_r. destruct (d i j); simpl; lia.
Qed.

Lemma cnt_zero p l : cnt p l = 0%Z <-> forall i, In i l -> p i = false.
Proof.
  unfold cnt. split.
  - intros H i Hi. destruct (p i) eqn:E; auto.
    assert (In i (filter p l)) by (apply filter_In; auto).
    destruct (filter p l); [contradiction|simpl in H; lia].
  - intros H. induction l as [|x l IH]; simpl; auto. rewrite H by (left; auto). apply IH. intros; apply H; right; auto.
Qed.

Lemma cnt_pos p l : (0 < cnt p l)%Z <-> exists i, In i l /\ p i = true.
Proof.
  unfold cnt. split.
  - intros H. destruct (filter p l) as [|x t] eqn:E; [simpl in H; lia|].
    exists x. apply filter_In. rewrite E; left; auto.
  - intros (i & H1 & H2). assert (In i (filter p l)) by (apply filter_In; auto).
    destruct (filter p l); [contradiction|simpl; lia].
Qed.

Definition memb (x : nat) (l : list nat) : bool := existsb (Nat.eqb x) l.
Lemma memb_In x l : memb x l = true <-> In x l.
Proof.
  unfold memb; rewrite existsb_exists. split.
  - intros (y & H & E); apply Nat.eqb_eq in E; subst; auto.
  - intros H; exists x; split; auto; apply Nat.eqb_refl.
Qed.
Lemma memb_nIn x l : memb x l = false <-> ~ In x l.
Proof. rewrite <- memb_In. destruct (memb x l); split; congruence. Qed.

(** splitting a filtered count along a NoDup sublist *)
Lemma cnt_split (p : nat -> bool) n dn cur :
  NoDup (dn ++ cur) -> (forall x, In x (dn ++ cur) -> x < n) ->
  cnt (fun i => p i && negb (memb i dn))%bool (seq 0 n)
  = (cnt (fun i => p i && negb (memb i (dn ++ cur)))%bool (seq 0 n)
     + Z.of_nat (length (filter p cur)))%Z.
Proof.
  intros Hnd Hlt.
  assert (P : Permutation (filter (fun i => p i && negb (memb i dn))%bool (seq 0 n))
     (filter (fun i => p i && negb (memb i (dn ++ cur)))%bool (seq 0 n) ++ filter p cur)).
  { apply NoDup_Permutation.
    - apply NoDup_filter, seq_NoDup.
    - assert (N2 : NoDup cur) by (clear -Hnd; induction dn; simpl in *; [auto|inversion Hnd; auto]).
      assert (A := NoDup_filter (fun i => p i && negb (memb i (dn ++ cur)))%bool (seq_NoDup n 0)).
      assert (B := NoDup_filter p N2).
      revert A B. generalize (fun x => @filter_In _ (fun i => p i && negb (memb i (dn ++ cur)))%bool x (seq 0 n)).
      intros G A B.
      assert (D : forall x, In x (filter (fun i => p i && negb (memb i (dn ++ cur)))%bool (seq 0 n)) -> ~ In x (filter p cur)).
      { intros x Hx Hy. apply G in Hx. destruct Hx as [_ Hx]. apply andb_prop in Hx. destruct Hx as [_ Hx].
        apply negb_true_iff, memb_nIn in Hx. apply filter_In in Hy. apply Hx, in_or_app. tauto. }
      clear G. induction (filter (fun i => p i && negb (memb i (dn ++ cur)))%bool (seq 0 n)) as [|x l IH]; simpl; auto.
      inversion A; subst. constructor.
      + intros h. apply in_app_or in h. destruct h as [h|h]; [tauto|]. apply (D x); [left; auto|auto].
      + apply IH; auto. intros y Hy. apply D. right; auto.
    - intros x. rewrite in_app_iff, !filter_In, !andb_true_iff, !negb_true_iff, !memb_nIn, in_seq, in_app_iff.
      split.
      + intros (H1 & H2 & H3). destruct (in_dec Nat.eq_dec x cur) as [H4|H4]; [right; auto|left]. tauto.
      + intros [(H1 & H2 & H3)|(H1 & H2)].
        * tauto.
        * assert (x < n) by (apply Hlt, in_or_app; auto).
          split; [lia|split; auto]. intros h.
          clear -Hnd H1 h. induction dn as [|y dn IH]; simpl in *; [auto|]. inversion Hnd; subst.
          destruct h as [->|h]; [apply H2, in_or_app; auto|auto]. }
  unfold cnt. rewrite (Permutation_length P), app_length. lia.
Qed.

Section Peel.
  Variable d : nat -> nat -> bool.
  Variable n : nat.
  Hypothesis d_irr : forall i, i < n -> d i i = false.
  Hypothesis d_trans : forall i j k, i < n -> j < n -> k < n -> d i j = true -> d j k = true -> d i k = true.

  (** every non-empty duplicate-free set of indices has a member dominated by no member *)
  Lemma minimal_exists (l : list nat) : l <> [] -> (forall x, In x l -> x < n) ->
    exists m, In m l /\ forall i, In i l -> d i m = false.
  Proof.
    intros Hne Hlt.
    assert (G : forall l', (forall x, In x l' -> x < n) -> l' <> [] ->
       exists m, In m l' /\ forall i, In i l' -> d i m = false).
    { induction l' as [|x l' IH]; intros Hl Hn; [congruence|].
      destruct l' as [|y t].
      - exists x. split; [left; auto|]. intros i [<-|[]]. apply d_irr. apply Hl; left; auto.
      - destruct IH as (m & Hm & Hmin); [intros; apply Hl; right; auto|congruence|].
        destruct (d x m) eqn:E.
        + exists x. split; [left; auto|]. intros i [<-|Hi]; [apply d_irr, Hl; left; auto|].
          destruct (d i x) eqn:E2; auto.
          assert (d i m = true).
          { apply (d_trans i x m); auto; apply Hl; [right; auto|left; auto|right; auto]. }
          rewrite Hmin in H by auto; discriminate.
        + exists m. split; [right; auto|]. intros i [<-|Hi]; auto. }
    apply G; auto.
  Qed.

  (** state of the while loop: [dn] = rows of the fronts before the current one *)
  Definition loop_inv (dn cur : list nat) (nd : nat -> Z) : Prop :=
    NoDup (dn ++ cur) /\ (forall x, In x (dn ++ cur) -> x < n) /\
    (forall j, j < n -> nd j = cnt (fun i => d i j && negb (memb i dn))%bool (seq 0 n)) /\
    (forall j, j < n -> (In j (dn ++ cur) <-> nd j = 0%Z)).

  Definition isd := fun i => filter (d i) (seq 0 n).

  Lemma peel_step dn cur nd : loop_inv dn cur nd ->
    let r := peel isd cur nd in
    loop_inv (dn ++ cur) (snd r) (fst r) /\
    (forall j, In j (snd r) <-> j < n /\ ~ In j (dn ++ cur) /\
        (forall i, i < n -> d i j = true -> In i (dn ++ cur)) /\
        (exists i, In i cur /\ d i j = true)) /\
    (length (dn ++ cur) < n -> snd r <> []).
  Proof.
    intros (I1 & I2 & I3 & I4). unfold peel. rewrite peel_flat.
    set (L := flat_map isd cur).
    assert (HL : forall j, In j L -> j < n).
    { intros j Hj. unfold L, isd in Hj. apply in_flat_map in Hj. destruct Hj as (i & _ & Hj).
      apply filter_In in Hj. destruct Hj as [Hj _]. apply in_seq in Hj. lia. }
    assert (Hc : forall j, j < n -> Z.of_nat (count_occ Nat.eq_dec L j) = Z.of_nat (length (filter (fun i => d i j) cur))).
    { intros j Hj. unfold L, isd. rewrite count_flat by auto. auto. }
    destruct (dec_fold L nd []) as [D1 (nx & D2 & D3 & D4)].
    { intros j Hj. rewrite Hc, I3 by auto. rewrite (cnt_split (fun i => d i j) n dn cur) by auto. unfold cnt; lia. }
    simpl app in D2.
    set (r := fold_left dec_step L (nd, [])) in *. cbv zeta. rewrite D2.
    assert (Fst : forall j, j < n -> fst r j = cnt (fun i => d i j && negb (memb i (dn ++ cur)))%bool (seq 0 n)).
    { intros j Hj. rewrite D1, Hc, I3 by auto. rewrite (cnt_split (fun i => d i j) n dn cur) by auto. lia. }
    assert (InL : forall j, j < n -> In j L <-> exists i, In i cur /\ d i j = true).
    { intros j Hj. unfold L, isd. rewrite in_flat_map. split.
      - intros (i & H1 & H2). exists i. apply filter_In in H2. tauto.
      - intros (i & H1 & H2). exists i. split; auto. apply filter_In. split; auto. apply in_seq; lia. }
    assert (Next : forall j, In j nx <-> j < n /\ ~ In j (dn ++ cur) /\
        (forall i, i < n -> d i j = true -> In i (dn ++ cur)) /\
        (exists i, In i cur /\ d i j = true)).
    { intros j. rewrite D4. split.
      - intros [H1 H2]. assert (Hj := HL j H1). split; auto.
        assert (F0 : fst r j = 0%Z) by (rewrite D1; lia).
        rewrite Fst in F0 by auto. split; [|split].
        + rewrite I4 by auto. apply InL in H1; auto. destruct H1 as (i & Hi & Hd).
          rewrite H2, Hc by auto. intros h.
          assert (In i (filter (fun i => d i j) cur)) by (apply filter_In; auto).
          destruct (filter (fun i => d i j) cur); [contradiction|simpl in h; lia].
        + intros i Hi Hd. rewrite cnt_zero in F0. specialize (F0 i ltac:(apply in_seq; lia)).
          rewrite Hd in F0. simpl in F0. apply negb_false_iff, memb_In in F0; auto.
        + apply InL; auto.
      - intros (H1 & H2 & H3 & H4). split; [apply InL; auto|].
        assert (F0 : fst r j = 0%Z).
        { rewrite Fst by auto. apply cnt_zero. intros i Hi. apply in_seq in Hi.
          destruct (d i j) eqn:E; simpl; auto. apply negb_false_iff, memb_In. apply H3; auto; lia. }
        rewrite D1 in F0. lia. }
    split; [|split].
    - split; [|split; [|split]].
      + assert (D : forall x, In x (dn ++ cur) -> ~ In x nx) by (intros x Hx Hy; apply Next in Hy; tauto).
        revert I1 D. generalize (dn ++ cur). intros l I1 D. induction l as [|x l IH]; simpl; auto.
        inversion I1; subst. constructor.
        * rewrite in_app_iff. intros [h|h]; [tauto|apply (D x); [left; auto|auto]].
        * apply IH; auto. intros y Hy; apply D; right; auto.
      + intros x Hx. apply in_app_or in Hx. destruct Hx as [Hx|Hx]; auto. apply Next in Hx; tauto.
      + intros j Hj. auto.
      + intros j Hj. rewrite in_app_iff. split.
        * intros [Hin|Hin].
          -- rewrite Fst by auto. apply cnt_zero. intros i Hi. apply in_seq in Hi.
             destruct (d i j) eqn:E; simpl; auto. apply negb_false_iff, memb_In.
             apply in_or_app. left. apply I4 in Hin; auto. rewrite I3 in Hin by auto.
             rewrite cnt_zero in Hin. specialize (Hin i ltac:(apply in_seq; lia)). rewrite E in Hin. simpl in Hin.
             apply negb_false_iff, memb_In in Hin; auto.
          -- assert (H5 := Hin). apply Next in H5. destruct H5 as (_ & _ & H5 & _).
             rewrite Fst by auto. apply cnt_zero. intros i Hi. apply in_seq in Hi.
             destruct (d i j) eqn:E; simpl; auto. apply negb_false_iff, memb_In. apply H5; auto; lia.
        * intros F0. destruct (in_dec Nat.eq_dec j (dn ++ cur)) as [h|h]; [left; auto|right].
          apply Next. split; auto. split; auto.
          assert (A : forall i, i < n -> d i j = true -> In i (dn ++ cur)).
          { intros i Hi E. rewrite Fst in F0 by auto. rewrite cnt_zero in F0. specialize (F0 i ltac:(apply in_seq; lia)).
            rewrite E in F0. simpl in F0. apply negb_false_iff, memb_In in F0; auto. }
          split; auto.
          assert (P : (0 < nd j)%Z).
          { assert (nd j <> 0%Z) by (rewrite <- I4 by auto; auto). rewrite I3 in * by auto. unfold cnt in *. lia. }
          rewrite I3 in P by auto. apply cnt_pos in P. destruct P as (i & Hi & Hp).
          apply andb_prop in Hp. destruct Hp as [Hp1 Hp2]. apply negb_true_iff, memb_nIn in Hp2.
          exists i. split; auto. apply in_seq in Hi. assert (In i (dn ++ cur)) by (apply A; auto; lia).
          apply in_app_or in H. tauto.
    - exact Next.
    - intros Hlen Hnil.
      set (rest := filter (fun x => negb (memb x (dn ++ cur))) (seq 0 n)).
      assert (Hr : rest <> []).
      { intros Hr. assert (incl (seq 0 n) (dn ++ cur)).
        { intros x Hx. destruct (in_dec Nat.eq_dec x (dn ++ cur)); auto.
          assert (In x rest) by (unfold rest; apply filter_In; split; auto; apply negb_true_iff, memb_nIn; auto).
          rewrite Hr in H; contradiction. }
        assert (length (seq 0 n) <= length (dn ++ cur)) by (apply NoDup_incl_length; auto; apply seq_NoDup).
        rewrite seq_length in *. lia. }
      assert (Hrin : forall x, In x rest <-> x < n /\ ~ In x (dn ++ cur)).
      { intros x. unfold rest. rewrite filter_In, negb_true_iff, memb_nIn, in_seq. split; intros; split; try tauto; lia. }
      destruct (minimal_exists rest Hr) as (m & Hm & Hmin); [intros x Hx; apply Hrin in Hx; tauto|].
      apply Hrin in Hm. destruct Hm as [Hm1 Hm2].
      assert (A : forall i, i < n -> d i m = true -> In i (dn ++ cur)).
      { intros i Hi E. destruct (in_dec Nat.eq_dec i (dn ++ cur)); auto.
        rewrite Hmin in E; [discriminate|]. apply Hrin; auto. }
      assert (P : (0 < nd m)%Z).
      { assert (nd m <> 0%Z) by (rewrite <- I4 by auto; auto). rewrite I3 in * by auto. unfold cnt in *. lia. }
      rewrite I3 in P by auto. apply cnt_pos in P. destruct P as (i & Hi & Hp).
      apply andb_prop in Hp. destruct Hp as [Hp1 Hp2]. apply negb_true_iff, memb_nIn in Hp2. apply in_seq in Hi.
      assert (Hicur : In i cur).
      { assert (Hin : In i (dn ++ cur)) by (apply A; auto; lia). apply in_app_or in Hin. tauto. }
      assert (In m nx) by (apply Next; repeat split; auto; exists i; auto).
      rewrite Hnil in H; contradiction.
  Qed.

  (** what one front is, given the rows of all earlier fronts *)
  Definition front_char (before prev front : list nat) (first : bool) : Prop :=
    forall j, In j front <-> j < n /\ ~ In j before /\
      (forall i, i < n -> d i j = true -> In i before) /\
      (first = false -> exists i, In i prev /\ d i j = true).

  Inductive chain : list nat -> list nat -> list (list nat) -> Prop :=
  | chain_nil before prev : chain before prev []
  | chain_cons before prev f fs :
      front_char before prev f false -> f <> [] ->
      chain (before ++ f) f fs -> chain before prev (f :: fs).

  Lemma peel_loop_ext isd1 isd2 fuel cur nd nr fronts :
    (forall i, isd1 i = isd2 i) ->
    peel_loop fuel n isd1 cur nd nr fronts = peel_loop fuel n isd2 cur nd nr fronts.
  Proof.
    intros H. revert cur nd nr fronts; induction fuel as [|fuel IH]; intros; simpl; destruct (nr <? n); auto.
    assert (E : peel isd1 cur nd = peel isd2 cur nd).
    { unfold peel. rewrite !peel_flat. f_equal. clear -H. induction cur; simpl; auto. rewrite H, IHcur; auto. }
    rewrite E. apply IH.
  Qed.

  Lemma peel_loop_spec fuel dn cur nd fronts :
    loop_inv dn cur nd ->
    n <= fuel + length (dn ++ cur) ->
    exists fs, peel_loop fuel n isd cur nd (length (dn ++ cur)) fronts = Some (fronts ++ fs) /\
      chain (dn ++ cur) cur fs /\ Permutation ((dn ++ cur) ++ concat fs) (seq 0 n).
  Proof.
    revert dn cur nd fronts; induction fuel as [|fuel IH]; intros dn cur nd fronts Hi Hf.
    - exists []. simpl. rewrite !app_nil_r.
      destruct Hi as (I1 & I2 & _).
      assert (Hp : Permutation (dn ++ cur) (seq 0 n)).
      { assert (Hi' : incl (dn ++ cur) (seq 0 n)) by (intros x Hx; apply in_seq; specialize (I2 x Hx); lia).
        apply NoDup_Permutation; auto; [apply seq_NoDup|]. intros x; split; [apply Hi'|].
        apply (NoDup_length_incl I1); auto. rewrite seq_length; simpl in Hf; lia. }
      assert (E : length (dn ++ cur) = n) by (rewrite (Permutation_length Hp), seq_length; auto).
      rewrite E, Nat.ltb_irrefl. repeat split; auto. constructor.
    - cbn [peel_loop]. destruct (Nat.ltb_spec (length (dn ++ cur)) n) as [Hlt|Hge].
      + destruct (peel_step dn cur nd Hi) as (S1 & S2 & S3).
        set (r := peel isd cur nd) in *. specialize (S3 Hlt).
        replace (length (dn ++ cur) + length (snd r)) with (length ((dn ++ cur) ++ snd r)) by (rewrite (app_length (dn ++ cur)); auto).
        destruct (IH (dn ++ cur) (snd r) (fst r) (fronts ++ [snd r]) S1) as (fs & E & C & P).
        { rewrite app_length. destruct (snd r); [congruence|simpl; lia]. }
        exists (snd r :: fs). split; [|split].
        * rewrite E. rewrite <- app_assoc. reflexivity.
        * constructor; auto. intros j. rewrite S2. split; intros HH; repeat split; try tauto.
        * simpl. rewrite app_assoc. exact P.
      + exists []. simpl. rewrite !app_nil_r. split; auto. split; [constructor|].
        destruct Hi as (I1 & I2 & _).
        assert (Hi' : incl (dn ++ cur) (seq 0 n)) by (intros x Hx; apply in_seq; specialize (I2 x Hx); lia).
        apply NoDup_Permutation; auto; [apply seq_NoDup|]. intros x; split; [apply Hi'|].
        apply (NoDup_length_incl I1); auto. rewrite seq_length; lia.
  Qed.
End Peel.

(** * Whole sort *)
Lemma cnt_ext p q l : (forall i, In i l -> p i = q i) -> cnt p l = cnt q l.
Proof.
  unfold cnt. intros H. f_equal. f_equal. induction l as [|x l IH]; simpl; auto.
  rewrite H by (left; auto). rewrite IH; auto. intros; apply H; right; auto.
Qed.

Lemma peel_loop_ext2 isd1 isd2 n fuel cur nd1 nd2 nr fronts :
  (forall i, i < n -> isd1 i = isd2 i) ->
  (forall i, i < n -> forall j, In j (isd2 i) -> j < n) ->
  (forall i, i < n -> nd1 i = nd2 i) -> (forall i, In i cur -> i < n) ->
  peel_loop fuel n isd1 cur nd1 nr fronts = peel_loop fuel n isd2 cur nd2 nr fronts.
Proof.
  intros H Hlt. revert cur nd1 nd2 nr fronts; induction fuel as [|fuel IH]; intros cur nd1 nd2 nr fronts Hnd Hcur;
    simpl; destruct (nr <? n); auto.
  assert (E : flat_map isd1 cur = flat_map isd2 cur).
  { clear -H Hcur. induction cur as [|x cur IH]; simpl; auto. rewrite H by (apply Hcur; left; auto). rewrite IH; auto. intros; apply Hcur; right; auto. }
  assert (HL : forall j, In j (flat_map isd2 cur) -> j < n).
  { intros j Hj. apply in_flat_map in Hj. destruct Hj as (i & Hi & Hj). eapply Hlt; eauto. }
  unfold peel. rewrite !peel_flat, E.
  assert (G : forall L nx, (forall j, In j L -> j < n) -> (forall j, In j nx -> j < n) -> forall a b, (forall i, i < n -> a i = b i) ->
     snd (fold_left dec_step L (a, nx)) = snd (fold_left dec_step L (b, nx)) /\
     (forall i, i < n -> fst (fold_left dec_step L (a, nx)) i = fst (fold_left dec_step L (b, nx)) i) /\
     (forall j, In j (snd (fold_left dec_step L (b, nx))) -> j < n)).
  { induction L as [|x L IHL]; intros nx HLt Hnx a b Hab; cbn [fold_left]; [simpl; auto|].
    unfold dec_step at 2 4 6 8 10; cbn [fst snd]. rewrite !upd_same. rewrite (Hab x) by (apply HLt; left; auto).
    apply IHL.
    - intros j Hj; apply HLt; right; auto.
    - intros j. destruct (Z.eqb _ _); auto. rewrite in_app_iff. intros [Hj|[<-|[]]]; auto. apply HLt; left; auto.
    - intros i Hi. unfold upd. destruct (i =? x); auto. }
  destruct (G (flat_map isd2 cur) [] HL ltac:(intros ? []) nd1 nd2 Hnd) as (G1 & G2 & G3).
  rewrite G1. apply IH; auto.
Qed.

Section Whole.
  Variable F : list (list fnum).
  Hypothesis nonan : forall r, In r F -> ~ In FNaN r.
  Notation n := (length F).
  Notation d := (dom F).

  Lemma row_nonan i : i < n -> ~ In FNaN (row F i).
  Proof. intros H. apply nonan. unfold row. apply nth_In; auto. Qed.

  Lemma sort_first_front :
    0 < n -> exists f, non_denominated_sort F 0 true = Some [f] /\ NoDup f /\
      forall j, In j f <-> j < n /\ forall i, i < n -> d i j = false.
  Proof.
    intros Hn. unfold non_denominated_sort. destruct (Nat.eqb_spec (length F) 0) as [E0|E0]; [lia|].
    destruct (first_phase_spec F n) as [_ H2].
    eexists; split; [reflexivity|]. rewrite H2. split; [apply NoDup_filter, seq_NoDup|].
    intros j. rewrite filter_In, in_seq, Z.eqb_eq, cnt_zero. split; intros [H H'].
    - split; [lia|]. intros i Hi; apply H', in_seq; lia.
    - split; [lia|]. intros i Hi; apply H'. apply in_seq in Hi; lia.
  Qed.

  Lemma sort_spec fuel : n <= fuel ->
    exists fronts, non_denominated_sort F fuel false = Some fronts /\
      Permutation (concat fronts) (seq 0 n) /\
      (n = 0 -> fronts = []) /\
      (0 < n -> exists f fs, fronts = f :: fs /\ f <> [] /\ front_char d n [] [] f true /\ chain d n f f fs).
  Proof.
    intros Hf. unfold non_denominated_sort. destruct (Nat.eqb_spec n 0) as [E0|E0].
    { exists []. rewrite E0. repeat split; auto; lia. }
    destruct (first_phase_spec F n) as [H1 H2].
    set (r := first_phase F n) in *.
    assert (Hf0 : forall j, In j (snd r) <-> j < n /\ forall i, i < n -> d i j = false).
    { intros j. rewrite H2, filter_In, in_seq, Z.eqb_eq, cnt_zero. split; intros [H H'].
      - split; [lia|]. intros i Hi; apply H', in_seq; lia.
      - split; [lia|]. intros i Hi; apply H'. apply in_seq in Hi; lia. }
    assert (Hirr : forall i, i < n -> d i i = false) by (intros; apply dom_irrefl).
    assert (Htr : forall i j k, i < n -> j < n -> k < n -> d i j = true -> d j k = true -> d i k = true).
    { intros i j k Hi Hj Hk. apply dominateb_trans; apply row_nonan; auto. }
    assert (Hinv : loop_inv d n [] (snd r) (ndom (fst r))).
    { split; [|split; [|split]].
      - simpl. rewrite H2. apply NoDup_filter, seq_NoDup.
      - intros x Hx. apply Hf0 in Hx. tauto.
      - intros j Hj. destruct (H1 j Hj) as [_ ->]. apply cnt_ext. intros i _. simpl. rewrite andb_true_r; auto.
      - intros j Hj. simpl. rewrite Hf0. destruct (H1 j Hj) as [_ ->]. rewrite cnt_zero. split.
        + intros [_ H] i Hi. apply H. apply in_seq in Hi; lia.
        + intros H. split; auto. intros i Hi. apply H, in_seq; lia. }
    rewrite (peel_loop_ext2 (isdom (fst r)) (isd d n) n fuel (snd r) _ (ndom (fst r))); auto.
    2:{ intros i Hi. apply H1; auto. }
    2:{ intros i Hi j Hj. unfold isd in Hj. apply filter_In in Hj. destruct Hj as [Hj _]. apply in_seq in Hj; lia. }
    2:{ intros i Hi. apply Hf0 in Hi; tauto. }
    destruct (peel_loop_spec d n Hirr Htr fuel [] (snd r) (ndom (fst r)) [snd r] Hinv) as (fs & E & C & P).
    { lia. }
    simpl in E, C, P. exists (snd r :: fs). split; [exact E|]. split; [exact P|]. split; [lia|].
    intros _. exists (snd r), fs. split; auto. split; [|split]; auto.
    - intros Hnil. destruct (minimal_exists d n Hirr Htr (seq 0 n)) as (m & Hm & Hmin).
      + destruct n; simpl; congruence.
      + intros x Hx; apply in_seq in Hx; lia.
      + assert (In m (snd r)). { apply Hf0. apply in_seq in Hm. split; [lia|]. intros i Hi; apply Hmin, in_seq; lia. }
        rewrite Hnil in H; contradiction.
    - intros j. rewrite Hf0. split.
      + intros [Ha Hb]. repeat split; auto; [intros i Hi E1; rewrite Hb in E1 by auto; discriminate|discriminate].
      + intros (Ha & _ & Hb & _). split; auto. intros i Hi. destruct (d i j) eqn:E1; auto.
        exfalso; apply (Hb i Hi E1).
  Qed.
End Whole.

(** reading a [chain] front by front *)
Lemma chain_nth d n fs : forall before prev k f,
  chain d n before prev fs -> nth_error fs k = Some f ->
  f <> [] /\
  front_char d n (before ++ concat (firstn k fs)) (match k with O => prev | S k' => nth k' fs [] end) f false.
Proof.
  induction fs as [|g fs IH]; intros before prev k f Hc Hk; [destruct k; discriminate|].
  inversion Hc as [|? ? ? ? Hg Hne Hr]; subst. destruct k as [|k]; simpl in Hk.
  - injection Hk as <-. split; auto. simpl. rewrite app_nil_r. exact Hg.
  - destruct (IH (before ++ g) g k f Hr Hk) as [A B]. split; auto.
    simpl firstn. simpl concat. rewrite app_assoc. destruct k; exact B.
Qed.
