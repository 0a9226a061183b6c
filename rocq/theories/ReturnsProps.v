(** C27, C28: prices_to_returns and stationary_bootstrap. *)
From Coq Require Import List ZArith Bool Arith Reals Lia Lra.
From Verif Require Import RList ReturnsModel.
Import ListNotations.
Local Open Scope R_scope.

(** * Specification of prices_to_returns *)
Definition missing (r : row) : nat := length (filter (fun c => match c with None => true | _ => false end) r).
(** rows kept by nan_threshold *)
Definition enough (n_assets : nat) (nan_threshold : option R) (r : Z * row) : bool :=
  match nan_threshold with
  | None => true
  | Some t => if Rle_dec (INR (missing (snd r))) (INR n_assets * t) then true else false
  end.
(** the last price of column j known at row t *)
Fixpoint latest (df : table) (j t : nat) : option R :=
  match nth j (snd (nth t df (0%Z, []))) None with
  | Some p => Some p
  | None => match t with O => None | S t => latest df j t end
  end.
Definition price (fill : bool) (df : table) (j t : nat) : option R :=
  if fill then latest df j t else nth j (snd (nth t df (0%Z, []))) None.
Definition known (c : option R) : bool := match c with Some _ => true | None => false end.
(** rows that remain after dropping incomplete (or empty) ones *)
Definition rows_left (any fill : bool) (m : nat) (df : table) : list nat :=
  filter (fun t => let f j := known (price fill df j t) in if any then forallb f (seq 0 m) else existsb f (seq 0 m)) (seq 0 (length df)).
Definition columns_kept (any fill : bool) (m : nat) (df : table) : list nat :=
  filter (fun j => existsb (fun t => known (price fill df j t)) (rows_left any fill m df)) (seq 0 m).
Definition return_of (log : bool) (a b : option R) : option R :=
  match a, b with Some x, Some y => Some (if log then ln (y / x) else y / x - 1) | _, _ => None end.

(** ** Proofs *)
Lemma filter_map_swap {A B} (f : A -> B) (g : B -> bool) l : filter g (map f l) = map f (filter (fun x => g (f x)) l).
Proof. induction l as [|x l IH]; cbn; [reflexivity|]. destruct (g (f x)); cbn; rewrite IH; reflexivity. Qed.
Lemma filter_true {A} (f : A -> bool) l : (forall x, In x l -> f x = true) -> filter f l = l.
Proof. induction l as [|x l IH]; intros H; cbn; [reflexivity|]. rewrite (H x) by (left; auto). rewrite IH; auto. intros; apply H; right; auto. Qed.
Lemma drop_above_spec n t df : NoDup (map fst df) -> drop_above n t df = filter (enough n (Some t)) df.
Proof.
  intros Hn. unfold drop_above. apply filter_ext_in. intros [l r] Hr. unfold enough. cbn [fst snd].
  change (missing r) with (count_nan r).
  destruct (existsb _ _) eqn:E; cbn [negb].
  - apply existsb_exists in E as (l'&Hl'&El). apply Z.eqb_eq in El. subst l'. apply in_map_iff in Hl' as ([l0 r0]&El&Hr0). cbn in El; subst l0.
    apply filter_In in Hr0 as [Hr0 Hc]. assert (r0 = r).
    { clear -Hn Hr Hr0. induction df as [|[a b] df IH]; [destruct Hr|]. cbn in Hn. inversion Hn as [|? ? N1 N2]; subst.
      destruct Hr as [Hr|Hr], Hr0 as [Hr0|Hr0]; try congruence; auto.
      - exfalso. apply N1. inversion Hr; subst. apply (in_map fst) in Hr0. exact Hr0.
      - exfalso. apply N1. inversion Hr0; subst. apply (in_map fst) in Hr. exact Hr. }
    subst r0. cbn [snd] in Hc. destruct (Rlt_dec _ _); [|discriminate]. destruct (Rle_dec _ _); [lra|reflexivity].
  - destruct (Rle_dec _ _) as [|H]; [reflexivity|]. exfalso.
    assert (existsb (Z.eqb l) (map fst (filter (fun r => if Rlt_dec (INR n * t) (INR (count_nan (snd r))) then true else false) df)) = true); [|congruence].
    apply existsb_exists. exists l. split; [|apply Z.eqb_refl]. apply in_map_iff. exists (l, r). split; [reflexivity|]. apply filter_In. split; [exact Hr|].
    cbn [snd]. destruct (Rlt_dec _ _); [reflexivity|lra].
Qed.
Lemma map_nth_seq {A} (d : A) l : map (fun i => nth i l d) (seq 0 (length l)) = l.
Proof.
  induction l as [|x l IH]; [reflexivity|]. cbn [length seq map nth]. f_equal. rewrite <- seq_shift, map_map. exact IH.
Qed.
Lemma fill_row_spec prev cur : length prev = length cur ->
  fill_row prev cur = map (fun j => match nth j cur None with Some p => Some p | None => nth j prev None end) (seq 0 (length cur)).
Proof.
  revert prev; induction cur as [|c cur IH]; intros [|p prev] H; try discriminate; [reflexivity|]. cbn [fill_row length seq map nth]. f_equal; [destruct c; reflexivity|].
  rewrite <- seq_shift, map_map. cbn in H. rewrite IH by lia. reflexivity.
Qed.
Lemma fill_row_length prev cur : length prev = length cur -> length (fill_row prev cur) = length cur.
Proof. intros H. rewrite fill_row_spec by auto. rewrite map_length, seq_length. reflexivity. Qed.
(** [latest] with a starting row *)
Fixpoint latest_from (prev : row) (df : table) (j t : nat) : option R :=
  match nth j (snd (nth t df (0%Z, []))) None with
  | Some p => Some p
  | None => match t with O => nth j prev None | S t => latest_from prev df j t end
  end.
Lemma latest_from_S prev l r df j t m : length prev = m -> length r = m -> (j < m)%nat ->
  latest_from prev ((l, r) :: df) j (S t) = latest_from (fill_row prev r) df j t.
Proof.
  intros Hp Hr Hj. assert (E: nth j (fill_row prev r) None = match nth j r None with Some p => Some p | None => nth j prev None end).
  { rewrite fill_row_spec by congruence. rewrite (nth_indep _ _ (match nth 0 r None with Some p => Some p | None => nth 0 prev None end)) by (rewrite map_length, seq_length; lia).
    rewrite (map_nth (fun j => match nth j r None with Some p => Some p | None => nth j prev None end)). rewrite seq_nth by lia. reflexivity. }
  induction t as [|t IH].
  - cbn [latest_from nth snd]. rewrite E. reflexivity.
  - change (latest_from prev ((l, r) :: df) j (S (S t))) with
      (match nth j (snd (nth (S t) df (0%Z, []))) None with Some p => Some p | None => latest_from prev ((l, r) :: df) j (S t) end).
    change (latest_from (fill_row prev r) df j (S t)) with
      (match nth j (snd (nth (S t) df (0%Z, []))) None with Some p => Some p | None => latest_from (fill_row prev r) df j t end).
    rewrite IH. reflexivity.
Qed.
Lemma latest_from_none m df j t : latest_from (repeat None m) df j t = latest df j t.
Proof.
  induction t as [|t IH]; cbn [latest_from latest].
  - replace (nth j (repeat None m) None) with (@None R); [reflexivity|]. clear. revert j; induction m; intros [|j]; cbn; auto.
  - rewrite IH. reflexivity.
Qed.
Lemma ffill_spec m df : forall prev, length prev = m -> (forall r, In r df -> length (snd r) = m) ->
  ffill prev df = map (fun t => (fst (nth t df (0%Z, [])), map (fun j => latest_from prev df j t) (seq 0 m))) (seq 0 (length df)).
Proof.
  induction df as [|[l r] df IH]; intros prev Hp Hr; [reflexivity|].
  assert (Hlr: length r = m) by (apply (Hr (l, r)); left; auto).
  cbn [ffill length seq map nth fst]. f_equal.
  - f_equal. rewrite fill_row_spec by congruence. rewrite Hlr. reflexivity.
  - rewrite IH; [|rewrite fill_row_length; congruence|intros; apply Hr; right; auto]. rewrite <- seq_shift, map_map. apply map_ext. intros t. cbn [nth]. f_equal.
    apply map_ext_in. intros j Hj. apply in_seq in Hj. symmetry. eapply latest_from_S; eauto. lia.
Qed.
Lemma nofill_spec m (df : table) : (forall r, In r df -> length (snd r) = m) ->
  df = map (fun t => (fst (nth t df (0%Z, [])), map (fun j => nth j (snd (nth t df (0%Z, []))) None) (seq 0 m))) (seq 0 (length df)).
Proof.
  intros H. rewrite <- (map_nth_seq (0%Z, []) df) at 1. apply map_ext_in. intros t Ht. apply in_seq in Ht.
  assert (Hin: In (nth t df (0%Z, [])) df) by (apply nth_In; lia). specialize (H _ Hin). cbv beta. rewrite <- H, map_nth_seq. apply surjective_pairing.
Qed.
Definition filled (fill : bool) (df : table) (m : nat) : table :=
  map (fun t => (fst (nth t df (0%Z, [])), map (fun j => price fill df j t) (seq 0 m))) (seq 0 (length df)).
Lemma fill_spec (fill : bool) m (df : table) : (forall r, In r df -> length (snd r) = m) ->
  (if fill then ffill (repeat None m) df else df) = filled fill df m.
Proof.
  intros H. unfold filled, price. destruct fill.
  - rewrite (ffill_spec m) by (auto; apply repeat_length). apply map_ext. intros t. f_equal. apply map_ext. intros j. apply latest_from_none.
  - apply nofill_spec. exact H.
Qed.
Lemma existsb_map_seq {A B} (f : A -> B) p l : existsb p (map f l) = existsb (fun x => p (f x)) l.
Proof. induction l as [|x l IH]; cbn; [reflexivity|]. rewrite IH. reflexivity. Qed.
Lemma forallb_map_seq {A B} (f : A -> B) p l : forallb p (map f l) = forallb (fun x => p (f x)) l.
Proof. induction l as [|x l IH]; cbn; [reflexivity|]. rewrite IH. reflexivity. Qed.
Lemma negb_existsb {A} (p : A -> bool) l : negb (existsb p l) = forallb (fun x => negb (p x)) l.
Proof. induction l as [|x l IH]; cbn; [reflexivity|]. rewrite negb_orb, IH. reflexivity. Qed.
Lemma negb_forallb {A} (p : A -> bool) l : negb (forallb p l) = existsb (fun x => negb (p x)) l.
Proof. induction l as [|x l IH]; cbn; [reflexivity|]. rewrite negb_andb, IH. reflexivity. Qed.
Lemma dropna_spec any fill m df :
  dropna_rows any (filled fill df m) = map (fun t => (fst (nth t df (0%Z, [])), map (fun j => price fill df j t) (seq 0 m))) (rows_left any fill m df).
Proof.
  unfold dropna_rows, filled, rows_left. rewrite filter_map_swap. f_equal. apply filter_ext. intros t. cbn [snd].
  assert (K: forall c, negb (is_na c) = known c) by (intros [|]; reflexivity).
  destruct any.
  - rewrite negb_existsb, forallb_map_seq. induction (seq 0 m) as [|j l IH]; cbn; [reflexivity|]. rewrite K, IH. reflexivity.
  - rewrite negb_forallb, existsb_map_seq. induction (seq 0 m) as [|j l IH]; cbn; [reflexivity|]. rewrite K, IH. reflexivity.
Qed.
Lemma nth_map_seq {A} (f : nat -> A) m j d : (j < m)%nat -> nth j (map f (seq 0 m)) d = f j.
Proof. intros H. rewrite (nth_indep _ _ (f 0%nat)) by (rewrite map_length, seq_length; auto). rewrite map_nth, seq_nth by auto. reflexivity. Qed.
Lemma changes_spec log cols (lab : nat -> Z) (val : nat -> row) ts :
  changes log cols (map (fun t => (lab t, val t)) ts)
  = map (fun p => (lab (snd p), map (fun j => change log (nth j (val (fst p)) None) (nth j (val (snd p)) None)) cols)) (combine ts (tl ts)).
Proof.
  induction ts as [|a ts IH]; [reflexivity|]. destruct ts as [|b ts]; [reflexivity|].
  cbn [map tl combine changes fst snd]. f_equal. cbn [map tl] in IH. exact IH.
Qed.
Lemma select_spec (rows : list (nat * nat)) cols (lab : nat * nat -> Z) (val : nat * nat -> nat -> option R) p :
  select (map (fun q => (lab q, map (val q) cols)) rows) cols p = map (fun q => (lab q, map (val q) (filter p cols))) rows.
Proof.
  unfold select. rewrite map_map. apply map_ext. intros q. cbn [fst snd]. f_equal.
  induction cols as [|c cols IH]; cbn; [reflexivity|]. destruct (p c); cbn; rewrite IH; reflexivity.
Qed.
Lemma change_return log a b : (forall x, a = Some x -> x <> 0) -> change log a b = return_of log a b.
Proof.
  intros H. destruct a as [x|], b as [y|]; cbn; try reflexivity. f_equal. destruct log; [|reflexivity]. f_equal. field. apply (H x eq_refl).
Qed.

(** The complete behaviour.  ValueError exactly for a threshold outside (0, 1].  Otherwise: rows with more than
    [nan_threshold * n_assets] missing cells are dropped; each cell becomes the last price known so far (fill_nan);
    incomplete rows (or, without drop_inceptions_nan, empty rows) are dropped; empty columns are dropped; the result
    has one row for each pair of consecutive remaining rows, with the label of the second and the returns between
    the two; the columns are split between X and y. *)
Theorem C27_prices_to_returns :
  forall (df : table) n_assets m log thr any fill,
    NoDup (map fst df) -> (forall r, In r df -> length (snd r) = m) ->
    (forall r j x, In r df -> nth j (snd r) None = Some x -> x <> 0) ->
    (prices_to_returns df n_assets m log thr any fill = None <-> exists t, thr = Some t /\ ~ (0 < t <= 1))
    /\ (~ (exists t, thr = Some t /\ ~ (0 < t <= 1)) ->
        let K := filter (enough n_assets thr) df in
        let rows := rows_left any fill m K in
        let cols := columns_kept any fill m K in
        let table_of (p : nat -> bool) :=
          (filter p cols,
           map (fun q => (fst (nth (snd q) K (0%Z, [])), map (fun j => return_of log (price fill K j (fst q)) (price fill K j (snd q))) (filter p cols)))
               (combine rows (tl rows))) in
        prices_to_returns df n_assets m log thr any fill
        = Some (table_of (fun j => (j <? n_assets)%nat), table_of (fun j => negb (j <? n_assets)%nat))).
Proof.
  intros df n m log thr any fill Hn Hm Hz.
  split.
  { unfold prices_to_returns. destruct thr as [t|].
    - destruct (Rlt_dec 0 t), (Rle_dec t 1); split; intros H; try discriminate; try (exists t; split; [reflexivity|lra]); try reflexivity.
      destruct H as (t'&E&H). inversion E; subst. lra.
    - split; [discriminate|intros (t&E&_); discriminate]. }
  intros Ht K rows cols table_of.
  assert (EP: prices_to_returns df n m log thr any fill = Some (clean_returns K n m log any fill)).
  { unfold prices_to_returns, K. destruct thr as [t|].
    - destruct (Rlt_dec 0 t), (Rle_dec t 1); try (exfalso; apply Ht; exists t; split; [reflexivity|lra]). rewrite drop_above_spec by auto. reflexivity.
    - rewrite filter_true; [reflexivity|]. intros; reflexivity. }
  rewrite EP. clear EP. unfold clean_returns.
  assert (HK: forall r, In r K -> length (snd r) = m) by (intros r Hr; apply filter_In in Hr as [Hr _]; auto).
  rewrite (fill_spec fill m K HK), dropna_spec. fold rows.
  assert (EC: columns_left m (map (fun t => (fst (nth t K (0%Z, [])), map (fun j => price fill K j t) (seq 0 m))) rows) = cols).
  { unfold columns_left, cols, columns_kept. fold rows. apply filter_ext_in. intros j Hj. apply in_seq in Hj. rewrite existsb_map_seq.
    induction rows as [|t l IH]; cbn [existsb]; [reflexivity|]. rewrite IH. f_equal. cbn [snd]. rewrite nth_map_seq by lia. destruct (price fill K j t); reflexivity. }
  rewrite EC.
  assert (HC: forall j, In j cols -> (j < m)%nat) by (intros j Hj; apply filter_In in Hj as [Hj _]; apply in_seq in Hj; lia).
  assert (HP: forall j t x, price fill K j t = Some x -> x <> 0).
  { assert (HP0: forall j t x, nth j (snd (nth t K (0%Z, []))) None = Some x -> x <> 0).
    { intros j t x E. destruct (Nat.lt_ge_cases t (length K)) as [Hl|Hl].
      - apply (Hz (nth t K (0%Z, [])) j x); auto. assert (Hin: In (nth t K (0%Z, [])) K) by (apply nth_In; auto). apply filter_In in Hin as [Hin _]. exact Hin.
      - rewrite (nth_overflow K) in E by auto. destruct j; discriminate. }
    intros j t x. unfold price. destruct fill; [|apply HP0]. induction t as [|t IH]; cbn [latest].
    - destruct (nth j (snd (nth 0 K (0%Z, []))) None) eqn:E; [intros H; inversion H; subst; apply (HP0 j 0%nat); auto|discriminate].
    - destruct (nth j (snd (nth (S t) K (0%Z, []))) None) eqn:E; [intros H; inversion H; subst; apply (HP0 j (S t)); auto|exact IH]. }
  rewrite (changes_spec log cols (fun t => fst (nth t K (0%Z, []))) (fun t => map (fun j => price fill K j t) (seq 0 m)) rows).
  assert (EX: map (fun p : nat * nat => (fst (nth (snd p) K (0%Z, [])), map (fun j => change log (nth j (map (fun j => price fill K j (fst p)) (seq 0 m)) None) (nth j (map (fun j => price fill K j (snd p)) (seq 0 m)) None)) cols)) (combine rows (tl rows))
    = map (fun p => (fst (nth (snd p) K (0%Z, [])), map (fun j => return_of log (price fill K j (fst p)) (price fill K j (snd p))) cols)) (combine rows (tl rows))).
  { apply map_ext. intros p. f_equal. apply map_ext_in. intros j Hj. rewrite !nth_map_seq by (apply HC; auto). apply change_return. intros x. apply HP. }
  rewrite EX.
  rewrite !(select_spec (combine rows (tl rows)) cols (fun q => fst (nth (snd q) K (0%Z, []))) (fun q j => return_of log (price fill K j (fst q)) (price fill K j (snd q)))).
  reflexivity.
Qed.
Print Assumptions C27_prices_to_returns.

(** Causality: a filled price is an observed price of the same column, at the latest earlier (or same) row that has one. *)
Theorem C27_fill_is_causal :
  forall df j t x, latest df j t = Some x <->
    exists s, (s <= t)%nat /\ nth j (snd (nth s df (0%Z, []))) None = Some x
      /\ forall u, (s < u <= t)%nat -> nth j (snd (nth u df (0%Z, []))) None = None.
Proof.
  intros df j t x. induction t as [|t IH]; cbn [latest].
  - destruct (nth j (snd (nth 0 df (0%Z, []))) None) as [p|] eqn:E.
    + split; [intros H; inversion H; subst; exists 0%nat; repeat split; auto; intros; lia|].
      intros (s&Hs&Hx&_). replace s with 0%nat in Hx by lia. congruence.
    + split; [discriminate|]. intros (s&Hs&Hx&_). replace s with 0%nat in Hx by lia. congruence.
  - destruct (nth j (snd (nth (S t) df (0%Z, []))) None) as [p|] eqn:E.
    + split; [intros H; inversion H; subst; exists (S t); repeat split; auto; intros; lia|].
      intros (s&Hs&Hx&Hu). destruct (Nat.eq_dec s (S t)) as [->|Hne]; [congruence|]. rewrite (Hu (S t)) in E by lia. discriminate.
    + rewrite IH. split; intros (s&Hs&Hx&Hu).
      * exists s. repeat split; auto. intros u Hu'. destruct (Nat.eq_dec u (S t)) as [->|]; [exact E|apply Hu; lia].
      * destruct (Nat.eq_dec s (S t)) as [->|Hne]; [congruence|]. exists s. repeat split; auto; [lia|]. intros u Hu'. apply Hu. lia.
Qed.
Print Assumptions C27_fill_is_causal.

(** Complete positive prices, whatever the options: compounding the returns between two dates recovers the ratio of
    their prices (for log returns, their sum is the log of the ratio). *)
Definition prices (df : table) (j t : nat) : R := match nth j (snd (nth t df (0%Z, []))) None with Some p => p | None => 0 end.
Definition product (l : list R) : R := fold_right Rmult 1 l.
Definition cell (tab : list nat * table) (j t : nat) : R := match nth j (snd (nth t (snd tab) (0%Z, []))) None with Some p => p | None => 0 end.
Lemma seq_filter_true f n : (forall i, (i < n)%nat -> f i = true) -> filter f (seq 0 n) = seq 0 n.
Proof. intros H. apply filter_true. intros x Hx. apply in_seq in Hx. apply H. lia. Qed.
Lemma combine_tl_seq s n : combine (seq s n) (tl (seq s n)) = map (fun i => (i, S i)) (seq s (n - 1)).
Proof.
  revert s; induction n as [|n IH]; intros s; [reflexivity|]. destruct n as [|n]; [reflexivity|].
  specialize (IH (S s)). cbn [seq tl combine] in *. cbn [Nat.sub] in *. rewrite Nat.sub_0_r in IH. cbn [seq map]. f_equal. exact IH.
Qed.
Theorem C27_compounding :
  forall (df : table) n_assets m log thr any fill,
    NoDup (map fst df) -> (0 < length df)%nat -> (0 < m)%nat -> (n_assets <= m)%nat ->
    (forall r, In r df -> length (snd r) = m /\ forall j, (j < m)%nat -> exists p, nth j (snd r) None = Some p /\ 0 < p) ->
    (forall t, thr = Some t -> 0 < t <= 1) ->
    exists X Y, prices_to_returns df n_assets m log thr any fill = Some (X, Y)
      /\ fst X = seq 0 n_assets /\ length (snd X) = (length df - 1)%nat
      /\ (forall t, (t < length df - 1)%nat -> fst (nth t (snd X) (0%Z, [])) = fst (nth (S t) df (0%Z, [])))
      /\ forall j a len, (j < n_assets)%nat -> (a + len < length df)%nat ->
           if log then rsum (map (cell X j) (seq a len)) = ln (prices df j (a + len) / prices df j a)
           else product (map (fun t => 1 + cell X j t) (seq a len)) = prices df j (a + len) / prices df j a.
Proof.
  intros df n m log thr any fill Hn Hl Hm Hnm Hp Ht.
  destruct (C27_prices_to_returns df n m log thr any fill Hn) as [_ E].
  { intros r Hr. apply Hp; auto. }
  { intros r j x Hr Hx. destruct (Nat.lt_ge_cases j m) as [Hj|Hj].
    - destruct (Hp r Hr) as [_ H]. destruct (H j Hj) as (p&E&Hpos). rewrite E in Hx. inversion Hx; subst. lra.
    - rewrite nth_overflow in Hx by (destruct (Hp r Hr) as [-> _]; auto). discriminate. }
  specialize (E ltac:(intros (t&Et&H); apply H; auto)). cbn zeta in E.
  assert (M0: forall r, In r df -> missing (snd r) = 0%nat).
  { intros r Hr. destruct (Hp r Hr) as [HL H]. unfold missing. replace (filter _ (snd r)) with (@nil (option R)); [reflexivity|].
    symmetry. rewrite <- HL in H. clear -H. induction (snd r) as [|c l IH]; [reflexivity|]. cbn. destruct (H 0%nat) as (p&Ep&_); [cbn; lia|]. cbn in Ep. subst c.
    apply IH. intros j Hj. destruct (H (S j)) as (p'&Ep&Hpos); [cbn; lia|]. exists p'. auto. }
  assert (EK: filter (enough n thr) df = df).
  { apply filter_true. intros r Hr. unfold enough. destruct thr as [t|]; [|reflexivity]. rewrite (M0 r Hr). destruct (Rle_dec _ _) as [|H]; [reflexivity|]. exfalso; apply H. cbn.
    apply Rmult_le_pos; [apply pos_INR|]. specialize (Ht t eq_refl). lra. }
  rewrite EK in E.
  assert (HP: forall j t, (j < m)%nat -> (t < length df)%nat -> nth j (snd (nth t df (0%Z, []))) None = Some (prices df j t) /\ 0 < prices df j t).
  { intros j t Hj Htt. destruct (Hp (nth t df (0%Z, []))) as [_ H]; [apply nth_In; auto|]. destruct (H j Hj) as (p&Ep&Hpos). unfold prices. rewrite Ep. auto. }
  assert (HPr: forall j t, (j < m)%nat -> (t < length df)%nat -> price fill df j t = Some (prices df j t)).
  { intros j t Hj Htt. destruct (HP j t Hj Htt) as [Ex _]. unfold price. destruct fill; [|exact Ex]. destruct t; cbn [latest]; rewrite Ex; reflexivity. }
  assert (ER: rows_left any fill m df = seq 0 (length df)).
  { unfold rows_left. apply seq_filter_true. intros t Htt. destruct any.
    - apply forallb_forall. intros j Hj. apply in_seq in Hj. rewrite HPr by lia. reflexivity.
    - apply existsb_exists. exists 0%nat. split; [apply in_seq; lia|]. rewrite HPr by lia. reflexivity. }
  assert (EC: columns_kept any fill m df = seq 0 m).
  { unfold columns_kept. rewrite ER. apply seq_filter_true. intros j Hj. apply existsb_exists. exists 0%nat. split; [apply in_seq; lia|]. rewrite HPr by lia. reflexivity. }
  rewrite ER, EC, combine_tl_seq, !map_map in E. cbn [fst snd] in E.
  assert (EX: filter (fun j => (j <? n)%nat) (seq 0 m) = seq 0 n).
  { replace m with (n + (m - n))%nat by lia. rewrite seq_app, filter_app. rewrite filter_true.
    - replace (filter _ (seq (0 + n) (m - n))) with (@nil nat); [apply app_nil_r|]. symmetry. cbn [Nat.add].
      assert (G: forall s k, (n <= s)%nat -> filter (fun j => (j <? n)%nat) (seq s k) = []); [|apply G; lia].
      intros s k; revert s; induction k as [|k IHk]; intros s Hs; cbn [seq filter]; [reflexivity|]. replace (s <? n)%nat with false by (symmetry; apply Nat.ltb_ge; lia). apply IHk; lia.
    - intros x Hx. apply in_seq in Hx. apply Nat.ltb_lt. lia. }
  rewrite EX in E. eexists _, _. split; [exact E|]. cbn [fst snd]. split; [reflexivity|]. split; [rewrite map_length, seq_length; reflexivity|]. split.
  { intros t Htt. rewrite nth_map_seq by auto. reflexivity. }
  assert (Cell: forall j t, (j < n)%nat -> (t < length df - 1)%nat ->
     cell (seq 0 n, map (fun x => (fst (nth (S x) df (0%Z, [])), map (fun j => return_of log (price fill df j x) (price fill df j (S x))) (seq 0 n))) (seq 0 (length df - 1))) j t
     = if log then ln (prices df j (S t) / prices df j t) else prices df j (S t) / prices df j t - 1).
  { intros j t Hj Htt. unfold cell. cbn [snd]. rewrite nth_map_seq by auto. cbn [snd]. rewrite nth_map_seq by auto. rewrite !HPr by lia. reflexivity. }
  intros j a len Hj Hal.
  assert (Pos: forall t, (t < length df)%nat -> 0 < prices df j t) by (intros t Htt; apply HP; lia).
  destruct log.
  - revert a Hal; induction len as [|len IH]; intros a Hal; cbn [seq map].
    + rewrite rsum_nil, Nat.add_0_r. unfold Rdiv. rewrite Rinv_r by (specialize (Pos a); lra || (apply Rgt_not_eq, Pos; lia)). symmetry. apply ln_1.
    + rewrite rsum_cons, IH by lia. rewrite Cell by lia.
      replace (a + S len)%nat with (S a + len)%nat by lia.
      pose proof (Pos a ltac:(lia)). pose proof (Pos (S a) ltac:(lia)). pose proof (Pos (S a + len)%nat ltac:(lia)).
      rewrite <- ln_mult by (apply Rdiv_lt_0_compat; auto). f_equal. field. lra.
  - revert a Hal; induction len as [|len IH]; intros a Hal; cbn [seq map].
    + cbn. rewrite Nat.add_0_r. unfold Rdiv. rewrite Rinv_r by (apply Rgt_not_eq, Pos; lia). reflexivity.
    + unfold product. cbn [fold_right]. fold (product (map (fun t => 1 + cell (seq 0 n, map (fun x => (fst (nth (S x) df (0%Z, [])), map (fun j0 => return_of false (price fill df j0 x) (price fill df j0 (S x))) (seq 0 n))) (seq 0 (length df - 1))) j t) (seq (S a) len))).
      rewrite IH by lia. rewrite Cell by lia.
      replace (a + S len)%nat with (S a + len)%nat by lia.
      pose proof (Pos a ltac:(lia)). pose proof (Pos (S a) ltac:(lia)). pose proof (Pos (S a + len)%nat ltac:(lia)). field. lra.
Qed.
Print Assumptions C27_compounding.
Definition ex_prices : table := [(1%Z, [Some 100; Some 50]); (2%Z, [Some 110; Some 40]); (3%Z, [Some 99; Some 60])].
Example C27_example : NoDup (map fst ex_prices)
  /\ (forall r, In r ex_prices -> length (snd r) = 2%nat /\ forall j, (j < 2)%nat -> exists p, nth j (snd r) None = Some p /\ 0 < p).
Proof.
  split; [repeat constructor; cbn; intuition lia|]. intros r [<-|[<-|[<-|[]]]]; (split; [reflexivity|]); intros [|[|j]] Hj; try lia; eexists; (split; [reflexivity|lra]).
Qed.

(** Finding: with y, missing factor prices are counted against the number of assets: a row where every asset is
    present can be dropped, even with the default threshold of 1 documented to keep all observations *)
Theorem C27_nan_threshold_refuted :
  exists df n_assets m, NoDup (map fst df) /\ (forall r, In r df -> length (snd r) = m)
    /\ (forall r j, In r df -> (j < n_assets)%nat -> nth j (snd r) None <> None)
    /\ filter (enough n_assets (Some 1)) df <> df /\ drop_above n_assets 1 df = filter (enough n_assets (Some 1)) df.
Proof.
  exists [(1%Z, [Some 1; None; None])], 1%nat, 3%nat. split; [repeat constructor; intros []|]. split; [intros r [<-|[]]; reflexivity|]. split.
  - intros r j [<-|[]] Hj. destruct j; [discriminate|lia].
  - split; [|apply drop_above_spec; repeat constructor; intros []]. cbn. destruct (Rle_dec _ _); [lra|discriminate].
Qed.
Print Assumptions C27_nan_threshold_refuted.

(** * C28 *)
(** the position of each row of a sample in the data: a fresh draw, or the circular successor of the previous one *)
Fixpoint circular (n prev : nat) (base : list nat) (again : list bool) : list nat :=
  match base, again with
  | b :: base, c :: again => let i := if c then ((prev + 1) mod n)%nat else b in i :: circular n i base again
  | _, _ => []
  end.
Definition positions (n : nat) (base : list nat) (again : list bool) : list nat :=
  match base, again with b :: base, _ :: again => b :: circular n b base again | _, _ => [] end.

Lemma chain_spec {A} (returns : list A) base : forall cond prev used,
  (forall b, In b base -> (b < length returns)%nat) -> (prev < length returns + used)%nat -> (used + length base < length returns)%nat ->
  map (fun i => nth_error (returns ++ returns) (if (2 * length returns <? i)%nat then 0%nat else i)) (chain prev base cond)
  = map (nth_error returns) (circular (length returns) (prev mod length returns) base cond).
Proof.
  induction base as [|b base IH]; intros [|c cond] prev used Hb Hp Hu; try reflexivity. cbn [chain circular map length] in *.
  set (n := length returns) in *.
  assert (Hn: n <> 0%nat) by (specialize (Hb b (or_introl eq_refl)); lia).
  assert (NE: forall i, (i < 2 * n)%nat -> nth_error (returns ++ returns) (if (2 * n <? i)%nat then 0%nat else i) = nth_error returns (i mod n)).
  { intros i Hi. replace (2 * n <? i)%nat with false by (symmetry; apply Nat.ltb_ge; lia). destruct (Nat.lt_ge_cases i n).
    - rewrite Nat.mod_small by auto. apply nth_error_app1; auto.
    - rewrite nth_error_app2 by auto. fold n. f_equal. apply (Nat.mod_unique i n 1); lia. }
  destruct c.
  - f_equal.
    + rewrite NE by lia. rewrite Nat.add_mod_idemp_l by auto. reflexivity.
    + rewrite (IH cond (prev + 1)%nat (S used)); [|intros; apply Hb; right; auto|lia|lia]. rewrite Nat.add_mod_idemp_l by auto. reflexivity.
  - assert (b < n)%nat by (apply Hb; left; auto). f_equal.
    + rewrite NE by lia. rewrite Nat.mod_small by auto. reflexivity.
    + rewrite (IH cond b used); [|intros; apply Hb; right; auto|lia|lia]. rewrite (Nat.mod_small b) by auto. reflexivity.
Qed.
(** For all draws the sample has one row per observation, row j being the row of the data at position j of
    [positions]: no access is out of range. *)
Theorem C28_stationary_bootstrap :
  forall (A : Type) (returns : list A) block_size draws,
    (forall d, In d draws -> length (fst d) = length returns /\ length (snd d) = length returns /\ forall b, In b (fst d) -> (b < length returns)%nat) ->
    length (stationary_bootstrap A returns block_size draws) = length draws
    /\ forall k d, nth_error draws k = Some d ->
         let again := map (fun u => if Rle_dec (1 / block_size) u then true else false) (snd d) in
         let pos := positions (length returns) (fst d) again in
         nth_error (stationary_bootstrap A returns block_size draws) k = Some (map (nth_error returns) pos)
         /\ length pos = length returns /\ (forall i, In i pos -> (i < length returns)%nat).
Proof.
  intros A returns bs draws Hd. split; [apply map_length|]. intros k d Hk again pos. unfold stationary_bootstrap. rewrite nth_error_map, Hk. cbn [option_map].
  destruct (Hd d (nth_error_In _ _ Hk)) as (L1&L2&Hb). fold again. split.
  - f_equal. unfold sample, indices, pos, positions. destruct (fst d) as [|b base] eqn:Eb; [reflexivity|]. destruct again as [|c cond]; [reflexivity|].
    cbn [map length] in *. assert (b < length returns)%nat by (apply Hb; left; auto). f_equal.
    + replace (2 * length returns <? b)%nat with false by (symmetry; apply Nat.ltb_ge; lia). apply nth_error_app1; auto.
    + rewrite (chain_spec returns base cond b 0%nat); [rewrite Nat.mod_small by auto; reflexivity|intros; apply Hb; right; auto|lia|lia].
  - assert (La: length again = length returns) by (unfold again; rewrite map_length; auto). clearbody again. unfold pos, positions. split.
    + destruct (fst d) as [|b base]; [exact L1|]. destruct again as [|c cond]; [cbn in L1, La; congruence|]. cbn [length] in *. 
      assert (G: forall base cond prev, length base = length cond -> length (circular (length returns) prev base cond) = length base).
      { clear. induction base as [|b base IH]; intros [|c cond] prev H; try discriminate; [reflexivity|]. cbn. cbn in H. f_equal. apply IH. lia. }
      rewrite G by congruence. auto.
    + destruct (fst d) as [|b base]; [intros i []|]. destruct again as [|c cond]; [intros i []|].
      assert (G: forall base cond prev, (0 < length returns)%nat -> (forall b, In b base -> (b < length returns)%nat) -> forall i, In i (circular (length returns) prev base cond) -> (i < length returns)%nat).
      { clear. induction base as [|b base IH]; intros [|c cond] prev Hn Hb i H; cbn in H; try destruct H as [<-|H]; try tauto.
        - destruct c; [apply Nat.mod_upper_bound; lia|apply Hb; left; auto].
        - eapply IH; eauto. intros; apply Hb; right; auto. }
      intros i [<-|Hi]; [apply Hb; left; auto|]. eapply G; [|intros b' Hb'; apply Hb; right; exact Hb'|exact Hi].
      specialize (Hb b (or_introl eq_refl)). lia.
Qed.
Print Assumptions C28_stationary_bootstrap.
Example C28_example : map (fun i => i) (positions 3 [2; 0; 1]%nat [true; true; false]) = [2; 0; 1]%nat
  /\ sample nat [10; 11; 12]%nat [2; 2; 1]%nat [false; true; false] = [Some 12; Some 10; Some 11]%nat.
Proof. split; reflexivity. Qed.
