(** Properties C01, C02: non-dominated sorting and dominance.
    Independent specification first, then theorems. *)
From Coq Require Import List Arith ZArith QArith Bool Lia Permutation.
Import ListNotations.
From Verif Require Import SortingModel SortingProofs.
Open Scope nat_scope.

(** ** Specification *)
(** order of the extended rationals; NaN is comparable with nothing *)
Definition flt (x y : fnum) : Prop :=
  match x, y with
  | FNegInf, FFin _ | FNegInf, FPosInf | FFin _, FPosInf => True
  | FFin p, FFin q => (p < q)%Q
  | _, _ => False
  end.

(** documented meaning of domination: no objective strictly worse, at least one
    strictly better (greater is better) *)
Definition Dominates (a b : list fnum) : Prop :=
  length a = length b /\
  (forall k x y, nth_error a k = Some x -> nth_error b k = Some y -> ~ flt x y) /\
  (exists k x y, nth_error a k = Some x /\ nth_error b k = Some y /\ flt y x).

(** row i of the table dominates row j *)
Definition DomRow (F : list (list fnum)) (i j : nat) : Prop :=
  exists a b, nth_error F i = Some a /\ nth_error F j = Some b /\ Dominates a b.

Definition InFront (fronts : list (list nat)) (k j : nat) : Prop :=
  exists f, nth_error fronts k = Some f /\ In j f.

Definition Clean (F : list (list fnum)) : Prop :=
  (forall r, In r F -> ~ In FNaN r) /\ (forall r s, In r F -> In s F -> length r = length s).

(** ** Bridges from the model to the specification *)
Lemma fltb_flt x y : fltb x y = true <-> flt x y.
Proof.
  destruct x, y; try apply fltb_fin; simpl; split; intros H; auto; try discriminate; try contradiction.
Qed.

Lemma dominateb_Dominates a b : dominateb a b = true <-> Dominates a b.
Proof.
  rewrite dominateb_iff. unfold Dominates. split.
  - intros [H (k & x & y & H1 & H2 & H3)]. split; [|split].
    + clear -H; induction H; simpl; auto.
    + intros k' x' y' K1 K2 K3. apply fltb_flt in K3.
      assert (nlt x' y') by (eapply Forall2_nth; eauto). unfold nlt in *; congruence.
    + exists k, x, y. repeat split; auto. apply fltb_flt; auto.
  - intros (HL & H & (k & x & y & H1 & H2 & H3)). split.
    + clear -HL H. revert b HL H; induction a as [|x a IH]; intros [|y b] HL H; try discriminate; constructor.
      * unfold nlt. destruct (fltb x y) eqn:E; auto. apply fltb_flt in E.
        exfalso; exact (H 0 x y eq_refl eq_refl E).
      * apply IH; [simpl in HL; lia|]. intros k x' y' K1 K2; exact (H (S k) x' y' K1 K2).
    + exists k, x, y. repeat split; auto. apply fltb_flt; auto.
Qed.

Lemma dom_DomRow F i j : i < length F -> j < length F -> (dom F i j = true <-> DomRow F i j).
Proof.
  intros Hi Hj. unfold dom, row, DomRow.
  assert (Ei : nth_error F i = Some (nth i F [])) by (apply nth_error_nth'; auto).
  assert (Ej : nth_error F j = Some (nth j F [])) by (apply nth_error_nth'; auto).
  rewrite dominateb_Dominates. split.
  - intros H. exists (nth i F []), (nth j F []). auto.
  - intros (a & b & H1 & H2 & H3). congruence.
Qed.

Lemma concat_firstn_InFront fronts k j :
  In j (concat (firstn (S k) fronts)) <-> exists k', k' <= k /\ InFront fronts k' j.
Proof.
  rewrite in_concat. split.
  - intros (f & Hf & Hj). apply In_nth_error in Hf. destruct Hf as (k' & Hk').
    assert (k' < length (firstn (S k) fronts)) by (apply nth_error_Some; congruence).
    rewrite firstn_length in H. exists k'. split; [lia|]. exists f. split; auto.
    rewrite <- Hk'. symmetry. rewrite <- (firstn_skipn (S k) fronts) at 2.
    rewrite nth_error_app1; auto. rewrite firstn_length; lia.
  - intros (k' & Hk & f & Hf & Hj). exists f. split; auto.
    apply nth_error_In with k'. rewrite <- Hf. rewrite <- (firstn_skipn (S k) fronts) at 2.
    symmetry. apply nth_error_app1. rewrite firstn_length.
    assert (k' < length fronts) by (apply nth_error_Some; congruence). lia.
Qed.

Lemma NoDup_concat_disjoint (fronts : list (list nat)) k1 k2 j :
  NoDup (concat fronts) -> InFront fronts k1 j -> InFront fronts k2 j -> k1 = k2.
Proof.
  revert k1 k2; induction fronts as [|f fs IH]; intros k1 k2 Hn (f1 & E1 & I1) (f2 & E2 & I2).
  - destruct k1; discriminate.
  - simpl in Hn.
    assert (Hd : forall x, In x f -> In x (concat fs) -> False).
    { clear -Hn. induction f as [|y f IHf]; simpl in *; [tauto|]. inversion Hn; subst.
      intros x [->|H] H'; [apply H1, in_or_app; auto|eapply IHf; eauto]. }
    assert (Hn' : NoDup (concat fs)) by (clear -Hn; induction f; simpl in *; [auto|inversion Hn; auto]).
    destruct k1 as [|k1], k2 as [|k2]; auto; simpl in *.
    + injection E1 as ->. exfalso. apply (Hd j); auto. apply in_concat. exists f2. split; auto. eapply nth_error_In; eauto.
    + injection E2 as ->. exfalso. apply (Hd j); auto. apply in_concat. exists f1. split; auto. eapply nth_error_In; eauto.
    + f_equal. apply IH; auto; [exists f1|exists f2]; auto.
Qed.

Lemma sort_full F fuel : Clean F -> length F <= fuel ->
  exists fronts, non_denominated_sort F fuel false = Some fronts /\
    Permutation (concat fronts) (seq 0 (length F)) /\
    (forall f, In f fronts -> f <> []) /\
    (forall j, InFront fronts 0 j <-> j < length F /\ forall i, ~ DomRow F i j) /\
    (forall k j, InFront fronts (S k) j <->
       j < length F /\
       (forall i, DomRow F i j -> exists k', k' <= k /\ InFront fronts k' i) /\
       (exists i, InFront fronts k i /\ DomRow F i j)).
Proof.
  intros [Hc _] Hf.
  destruct (sort_spec F Hc fuel Hf) as (fronts & E & P & H0 & H1).
  exists fronts. split; auto. split; auto.
  assert (HN : NoDup (concat fronts)) by (eapply Permutation_NoDup; [apply Permutation_sym, P|apply seq_NoDup]).
  assert (Hlt : forall k j, InFront fronts k j -> j < length F).
  { intros k j (f & A & B). assert (In j (concat fronts)) by (apply in_concat; exists f; split; auto; eapply nth_error_In; eauto).
    apply (Permutation_in _ P) in H. apply in_seq in H. lia. }
  assert (HD : forall i j, DomRow F i j -> i < length F /\ j < length F).
  { intros i j (a & b & A & B & _). split; apply nth_error_Some; congruence. }
  destruct (Nat.eq_dec (length F) 0) as [Z0|Z0].
  { rewrite (H0 Z0) in *. split; [simpl; tauto|]. split; [|].
    - intros j. split; [intros (f & A & _); discriminate|intros [A _]; lia].
    - intros k j. split; [intros (f & A & _); discriminate|intros [A _]; lia]. }
  destruct (H1 ltac:(lia)) as (f & fs & -> & Hne & Hf0 & Hch).
  split; [|split].
  - intros g [<-|Hg]; auto. apply In_nth_error in Hg. destruct Hg as (k & Hk). eapply chain_nth in Hk; eauto. tauto.
  - intros j. split.
    + intros (g & A & B). simpl in A. injection A as <-. apply Hf0 in B. destruct B as (B1 & _ & B2 & _).
      split; auto. intros i Hd. destruct (HD _ _ Hd). apply (B2 i); auto. apply dom_DomRow; auto.
    + intros [A B]. exists f. split; auto. apply Hf0. repeat split; auto; [|discriminate].
      intros i Hi Hd. exfalso. apply (B i). apply dom_DomRow; auto.
  - intros k j.
    assert (Hmid : forall g, nth_error fs k = Some g ->
       In j g <-> j < length F /\ ~ In j (concat (firstn (S k) (f :: fs))) /\
         (forall i, i < length F -> dom F i j = true -> In i (concat (firstn (S k) (f :: fs)))) /\
         (exists i, In i (nth k (f :: fs) []) /\ dom F i j = true)).
    { intros g Hg. destruct (chain_nth _ _ _ _ _ _ _ Hch Hg) as [_ B]. rewrite (B j).
      change (concat (firstn (S k) (f :: fs))) with (f ++ concat (firstn k fs)).
      assert (En : match k with 0 => f | S k' => nth k' fs [] end = nth k (f :: fs) []) by (destruct k; auto).
      rewrite En. split; intros (B1 & B2 & B3 & B4); repeat split; auto. }
    split.
    + intros (g & A & B). simpl in A. assert (B' := B). apply (Hmid g A) in B. destruct B as (B1 & B2 & B3 & (i & B4 & B5)).
      split; auto. split.
      * intros i' Hd. destruct (HD _ _ Hd). apply concat_firstn_InFront. apply B3; auto. apply dom_DomRow; auto.
      * assert (k < length (f :: fs)). { assert (nth_error fs k <> None) as K by congruence. apply nth_error_Some in K. simpl; lia. }
        exists i. assert (InFront (f :: fs) k i) by (exists (nth k (f :: fs) []); split; auto; apply nth_error_nth'; auto).
        split; auto. apply dom_DomRow; auto. apply (Hlt k); auto.
    + intros (A & B & (i & C1 & C2)).
      destruct (HD _ _ C2) as [Hi _].
      assert (Nj : forall k', k' <= k -> ~ InFront (f :: fs) k' j).
      { intros k' Hk' Hin. 
        (* all dominators of j are in strictly earlier fronts, but i is in front k *)
        destruct k' as [|k'].
        - destruct Hin as (g & G1 & G2). simpl in G1; injection G1 as <-. apply Hf0 in G2. destruct G2 as (_ & _ & G2 & _).
          apply (G2 i); auto. apply dom_DomRow; auto.
        - assert (Hin' := Hin). destruct Hin' as (g & G1 & G2). simpl in G1.
          destruct (chain_nth _ _ _ _ _ _ _ Hch G1) as [_ Bc]. apply Bc in G2.
          destruct G2 as (_ & _ & G3 & _).
          assert (In i (concat (firstn (S k') (f :: fs)))) by (apply G3; auto; apply dom_DomRow; auto).
          apply concat_firstn_InFront in H. destruct H as (k'' & Hk'' & Hi'').
          assert (k'' = k) by (eapply NoDup_concat_disjoint; eauto). lia. }
      (* j occurs in some front; it must be front S k *)
      assert (Hj : In j (concat (f :: fs))).
      { apply (Permutation_in j (Permutation_sym P)), in_seq. lia. }
      apply in_concat in Hj. destruct Hj as (g & G1 & G2). apply In_nth_error in G1. destruct G1 as (q & G1).
      assert (Hq : InFront (f :: fs) q j) by (exists g; auto).
      destruct (Nat.lt_trichotomy q (S k)) as [L|[->|L]]; [exfalso; apply (Nj q); auto; lia|auto|exfalso].
      destruct q as [|q]; [lia|]. simpl in G1.
      destruct (chain_nth _ _ _ _ _ _ _ Hch G1) as [_ Bc]. apply Bc in G2.
      destruct G2 as (_ & _ & _ & G4). destruct (G4 eq_refl) as (i' & I1 & I2).
      assert (En : match q with 0 => f | S k' => nth k' fs [] end = nth q (f :: fs) []) by (destruct q; auto).
      rewrite En in I1.
      assert (q < length (f :: fs)). { assert (nth_error fs q <> None) as K by congruence. apply nth_error_Some in K. simpl; lia. }
      assert (Hi' : InFront (f :: fs) q i') by (exists (nth q (f :: fs) []); split; auto; apply nth_error_nth'; auto).
      destruct (B i') as (k' & Hk' & Hk2).
      { apply dom_DomRow; auto. apply (Hlt q); auto. }
      assert (k' = q) by (eapply NoDup_concat_disjoint; eauto). lia.
Qed.

(** ** C01 *)
(** [fuel] counts iterations of the [while] loop: the theorem says the loop stops
    after at most n iterations and describes the result completely. *)
Theorem C01_sort_fronts :
  forall (F : list (list fnum)) (fuel : nat),
    Clean F -> length F <= fuel ->
    exists fronts, non_denominated_sort F fuel false = Some fronts /\
      Permutation (concat fronts) (seq 0 (length F)) /\
      (forall f, In f fronts -> f <> []) /\
      (forall j, InFront fronts 0 j <-> j < length F /\ forall i, ~ DomRow F i j) /\
      (forall k j, InFront fronts (S k) j <->
         j < length F /\
         (forall i, DomRow F i j -> exists k', k' <= k /\ InFront fronts k' i) /\
         (exists i, InFront fronts k i /\ DomRow F i j)).
Proof. exact sort_full. Qed.
Print Assumptions C01_sort_fronts.

Definition ex_table : list (list fnum) :=
  map (map (fun z => FFin (inject_Z z))) [[3; 1]; [1; 3]; [2; 2]; [1; 1]; [0; 0]; [3; 0]]%Z.
Example C01_nonvacuous : Clean ex_table /\
  non_denominated_sort ex_table 6 false = Some [[0; 1; 2]; [5; 3]; [4]].
Proof.
  split; [split|vm_compute; reflexivity].
  - intros r Hr Hn. unfold ex_table in Hr. simpl in Hr. intuition; subst; simpl in Hn; intuition discriminate.
  - intros r s Hr Hs. unfold ex_table in *. simpl in *. intuition; subst; reflexivity.
Qed.

(** first_front_only=True returns exactly the first front (NaN allowed). *)
Theorem C01_first_front_only :
  forall (F : list (list fnum)) (fuel : nat), 0 < length F ->
    exists f, non_denominated_sort F fuel true = Some [f] /\ NoDup f /\
      forall j, In j f <-> j < length F /\ forall i, ~ DomRow F i j.
Proof.
  intros F fuel H.
  destruct (sort_first_front F H) as (f & E & N & Hf).
  exists f. split; [|split; auto].
  - rewrite <- E. unfold non_denominated_sort. destruct (length F =? 0); auto.
  - intros j. rewrite Hf. split; intros [A B]; split; auto.
    + intros i Hd. assert (i < length F) by (destruct Hd as (a & b & K & _); apply nth_error_Some; congruence).
      apply dom_DomRow in Hd; auto. rewrite B in Hd by auto. discriminate.
    + intros i Hi. destruct (dom F i j) eqn:E1; auto. exfalso. apply (B i). apply dom_DomRow; auto.
Qed.
Print Assumptions C01_first_front_only.

(** NaN objectives: there is a 3x3 table on which the while loop never ends. *)
Theorem C01_nan_terminates_refuted :
  exists F : list (list fnum), length F = 3 /\ (forall r, In r F -> length r = 3) /\
    forall fuel, non_denominated_sort F fuel false = None.
Proof.
  set (z := fun k => FFin (inject_Z k)).
  exists [[z 1%Z; FNaN; z 0%Z]; [z 0%Z; z 1%Z; FNaN]; [FNaN; z 0%Z; z 1%Z]].
  split; [reflexivity|]. split; [intros r [<-|[<-|[<-|[]]]]; reflexivity|].
  intros fuel. unfold non_denominated_sort.
  assert (L : forall fuel nd fr isd, peel_loop fuel 3 isd [] nd 0 fr = None).
  { intros fu; induction fu as [|fu IH]; intros; simpl; auto. }
  set (r := first_phase _ _).
  assert (E : snd r = []) by (vm_compute; reflexivity).
  rewrite E. apply L.
Qed.
Print Assumptions C01_nan_terminates_refuted.

(** ** C02 *)
Theorem C02_dominate_meaning :
  forall a b, length a = length b ->
    exists r, dominate a b = Some r /\ (r = true <-> Dominates a b).
Proof.
  intros a b H. destruct (dominate_loop_len a b false H) as (r & E). exists r. split; auto.
  rewrite <- dominateb_Dominates. unfold dominateb, dominate. rewrite E. tauto.
Qed.
Print Assumptions C02_dominate_meaning.

Theorem C02_dominate_length_error :
  forall a b, length a <> length b -> dominate a b <> Some true.
Proof.
  intros a b H E. unfold dominate in E. apply dominate_loop_true in E. destruct E as [E _].
  apply H. clear -E. induction E; simpl; auto.
Qed.
Print Assumptions C02_dominate_length_error.

Theorem C02_strict_partial_order :
  (forall a, ~ Dominates a a) /\
  (forall a b, Dominates a b -> ~ Dominates b a) /\
  (forall a b c, ~ In FNaN a -> ~ In FNaN b -> ~ In FNaN c ->
     Dominates a b -> Dominates b c -> Dominates a c).
Proof.
  split; [|split].
  - intros a H. apply dominateb_Dominates in H. rewrite dominateb_irrefl in H; discriminate.
  - intros a b H H'. apply dominateb_Dominates in H, H'. apply dominateb_asym in H. congruence.
  - intros a b c Ha Hb Hc H1 H2. apply dominateb_Dominates in H1, H2. apply dominateb_Dominates.
    apply (dominateb_trans a b c); auto.
Qed.
Print Assumptions C02_strict_partial_order.

Lemma fancy_nth f idx r : fancy f idx = Some r ->
  length r = length idx /\ forall k, nth_error r k = match nth_error idx k with Some i => nth_error f i | None => None end.
Proof.
  revert r; induction idx as [|i idx IH]; intros r; simpl.
  - intros [= <-]. split; auto. intros [|k]; auto.
  - destruct (nth_error f i) as [x|] eqn:E; [|discriminate]. destruct (fancy f idx) as [r'|]; [|discriminate].
    intros [= <-]. destruct (IH r' eq_refl) as [H1 H2]. split; [simpl; lia|]. intros [|k]; simpl; auto.
Qed.

Lemma fancy_some f idx : (forall i, In i idx -> i < length f) -> exists r, fancy f idx = Some r.
Proof.
  induction idx as [|i idx IH]; simpl; intros H; eauto.
  destruct IH as (r & ->); [auto|]. destruct (nth_error f i) eqn:E; eauto.
  apply nth_error_None in E. specialize (H i (or_introl eq_refl)). lia.
Qed.

(** Portfolio.dominates(other, idx) looks at exactly the selected objectives. *)
Theorem C02_portfolio_dominates :
  forall (f g : list fnum) (idx : list nat),
    length f = length g -> (forall i, In i idx -> i < length f) ->
    exists r, portfolio_dominates f g (Some idx) = Some r /\
      (r = true <->
        (forall i x y, In i idx -> nth_error f i = Some x -> nth_error g i = Some y -> ~ flt x y) /\
        (exists i x y, In i idx /\ nth_error f i = Some x /\ nth_error g i = Some y /\ flt y x)).
Proof.
  intros f g idx HL HI. unfold portfolio_dominates.
  destruct (fancy_some f idx HI) as (a & Ea). destruct (fancy_some g idx) as (b & Eb); [rewrite <- HL; auto|].
  rewrite Ea, Eb. destruct (fancy_nth _ _ _ Ea) as [La Na]. destruct (fancy_nth _ _ _ Eb) as [Lb Nb].
  destruct (C02_dominate_meaning a b) as (r & E & H); [congruence|]. exists r. split; auto. rewrite H.
  unfold Dominates. split.
  - intros (_ & H1 & (k & x & y & K1 & K2 & K3)). split.
    + intros i u v Hi Hu Hv. apply In_nth_error in Hi. destruct Hi as (q & Hq).
      apply (H1 q); [rewrite Na, Hq; auto|rewrite Nb, Hq; auto].
    + rewrite Na in K1. rewrite Nb in K2. destruct (nth_error idx k) as [i|] eqn:Ei; [|discriminate].
      exists i, x, y. repeat split; auto. eapply nth_error_In; eauto.
  - intros [H1 (i & x & y & Hi & K1 & K2 & K3)]. split; [congruence|]. split.
    + intros k u v Hu Hv. rewrite Na in Hu. rewrite Nb in Hv. destruct (nth_error idx k) as [q|] eqn:Eq; [|discriminate].
      apply (H1 q); auto. eapply nth_error_In; eauto.
    + apply In_nth_error in Hi. destruct Hi as (k & Hk). exists k, x, y. rewrite Na, Nb, Hk. auto.
Qed.
Print Assumptions C02_portfolio_dominates.

Example C02_nonvacuous :
  let z := fun k => FFin (inject_Z k) in
  portfolio_dominates [z 2%Z; z 5%Z; z 1%Z] [z 2%Z; z 7%Z; z 0%Z] (Some [2; 0]) = Some true /\
  portfolio_dominates [z 2%Z; z 5%Z; z 1%Z] [z 2%Z; z 7%Z; z 0%Z] None = Some false.
Proof. vm_compute. auto. Qed.
