(** Property C87: comparisons of portfolios, the list operations that use them, and set_portfolio_params.
    Independent specification first, then theorems. *)
From Coq Require Import String List Arith ZArith QArith Bool Lia.
From Verif Require Import SortingModel SortingProofs SortingProps CompareModel.
Import ListNotations.
Local Open Scope string_scope.
Local Open Scope list_scope.
Local Open Scope nat_scope.

(** ** Specification *)
(** equality of floats: NaN equals nothing *)
Definition feq (x y : fnum) : Prop :=
  match x, y with
  | FFin p, FFin q => (p == q)%Q
  | FNegInf, FNegInf | FPosInf, FPosInf => True
  | _, _ => False
  end.
Definition same_fitness (a b : list fnum) : Prop := Forall2 feq a b.
(** no objective of [a] is worse than that of [b] *)
Definition at_least (a b : list fnum) : Prop := Forall2 (fun x y => ~ flt x y) a b.
Definition fitness_of (x : thing) : option (list fnum) := match x with Ptf _ _ f => Some f | Other _ => None end.
(** portfolios with [n] objectives, none NaN *)
Definition comparable (n : nat) (x : thing) : Prop := exists f, fitness_of x = Some f /\ length f = n /\ ~ In FNaN f.
Definition Better (x y : thing) : Prop :=
  exists f g, fitness_of x = Some f /\ fitness_of y = Some g /\ Dominates f g.
(** two objects that a list considers the same *)
Definition alike (e x : thing) : Prop :=
  identity e = identity x \/ (exists f g, fitness_of e = Some f /\ fitness_of x = Some g /\ same_fitness f g).
(** position [i] is the first element like [x] *)
Definition first_alike (l : list thing) (x : thing) (i : nat) : Prop :=
  (exists e, nth_error l i = Some e /\ alike e x) /\ forall j e, j < i -> nth_error l j = Some e -> ~ alike e x.

(** ** Lemmas *)
Lemma Forall2_length {A B} (R : A -> B -> Prop) l k : Forall2 R l k -> length l = length k.
Proof. induction 1; cbn; auto. Qed.
Lemma feqb_feq x y : feqb x y = true <-> feq x y.
Proof. destruct x, y; cbn; try (split; [easy|now intros []]); try easy. apply Qeq_bool_iff. Qed.
Lemma array_equal_same a b : array_equal a b = true <-> same_fitness a b.
Proof.
  revert b; induction a as [|x a IH]; intros [|y b]; cbn; try (split; [easy|intros H; now inversion H]).
  - split; auto. intros _. constructor.
  - rewrite andb_true_iff, feqb_feq, IH. split; [intros []; now constructor|intros H; now inversion H].
Qed.
Lemma feq_sym x y : feq x y -> feq y x.
Proof. destruct x, y; cbn; auto. intros; now symmetry. Qed.
Lemma feq_trans x y z : feq x y -> feq y z -> feq x z.
Proof. destruct x, y, z; cbn; try easy. intros A B. now rewrite A. Qed.
Lemma feq_refl x : x <> FNaN -> feq x x.
Proof. destruct x; cbn; try easy. Qed.
Lemma trichotomy x y : x <> FNaN -> y <> FNaN -> ~ flt x y -> flt y x \/ feq x y.
Proof.
  destruct x, y; cbn; try easy; auto. intros _ _ H. destruct (Qlt_le_dec q0 q); auto.
  right. apply Qle_antisym; auto. now apply Qnot_lt_le.
Qed.
Lemma feq_nlt x y : feq x y -> ~ flt x y.
Proof. destruct x, y; cbn; try easy. intros E L. rewrite E in L. now apply Qlt_irrefl in L. Qed.
Lemma nlt_trans x y z : x <> FNaN -> y <> FNaN -> z <> FNaN -> ~ flt x y -> ~ flt y z -> ~ flt x z.
Proof.
  destruct x, y, z; cbn; try easy. intros _ _ _ A B. apply Qle_not_lt. apply Qnot_lt_le in A, B. now apply Qle_trans with q0.
Qed.
Lemma dominates_nth a b : Dominates a b <-> at_least a b /\ exists k x y, nth_error a k = Some x /\ nth_error b k = Some y /\ flt y x.
Proof.
  unfold Dominates. split.
  - intros (L & A & B). split; auto. clear B. revert b L A; induction a as [|x a IH]; intros [|y b] L A; try discriminate; constructor.
    + now apply (A 0).
    + apply IH; [now injection L|]. intros k. apply (A (S k)).
  - intros (A & B). split; [now apply Forall2_length in A|]. split; auto. clear B.
    induction A; intros [|k]; cbn; try discriminate.
    + now intros ? ? [= <-] [= <-].
    + apply IHA.
Qed.
Lemma at_least_split a b : ~ In FNaN a -> ~ In FNaN b -> (at_least a b <-> same_fitness a b \/ Dominates a b).
Proof.
  intros Ha Hb. rewrite dominates_nth. split.
  - intros H. induction H as [|x y a b H T IH]; [left; constructor|].
    destruct IH as [E|[_ (k & u & v & U & V & F)]].
    + intros I. apply Ha. now right.
    + intros I. apply Hb. now right.
    + destruct (trichotomy x y) as [F|F]; auto.
      * intros ->. apply Ha. now left.
      * intros ->. apply Hb. now left.
      * right. split; [now constructor|]. now exists 0, x, y.
      * left. now constructor.
    + right. split; [now constructor|]. now exists (S k), u, v.
  - intros [H|[H _]]; auto. induction H; constructor; auto; [now apply feq_nlt|].
    apply IHForall2; intros I; [apply Ha|apply Hb]; now right.
Qed.
Lemma gt_value f g : length f = length g -> exists b, portfolio_dominates f g None = Some b /\ (b = true <-> Dominates f g).
Proof. exact (C02_dominate_meaning f g). Qed.
Lemma ge_value f i m g : length f = length g -> ~ In FNaN f -> ~ In FNaN g ->
  exists b, ge_method f (Ptf i m g) = Val b /\ (b = true <-> at_least f g).
Proof.
  intros L Nf Ng. pose proof (at_least_split f g Nf Ng) as S. cbn. destruct (gt_value f g L) as (b & E & H). cbn in E. rewrite E.
  destruct (array_equal f g) eqn:Q.
  - exists true. split; auto. apply array_equal_same in Q. tauto.
  - exists b. split; auto. rewrite H, S. split; auto. intros [E'|]; auto. apply array_equal_same in E'. congruence.
Qed.
Lemma matches_iff x e : matches x e = true <-> alike e x.
Proof.
  unfold matches, alike. rewrite orb_true_iff, Nat.eqb_eq. destruct e as [i m f|i], x as [j n g|j]; cbn.
  - rewrite array_equal_same. split; [intros [|H]; auto; right; exists f, g; auto|intros [|(f' & g' & [= <-] & [= <-] & H)]; auto].
  - split; [intros [|]; auto; discriminate|intros [|(f' & g' & _ & ? & _)]; auto; discriminate].
  - split; [intros [|]; auto; discriminate|intros [|(f' & g' & ? & _)]; auto; discriminate].
  - rewrite Nat.eqb_eq. split; [intros [|]; auto|intros [|(f' & g' & ? & _)]; auto; discriminate].
Qed.
Lemma matches_not x e : matches x e = false <-> ~ alike e x.
Proof. rewrite <- matches_iff. now destruct (matches x e). Qed.

(** ** The operators *)
Theorem C87_operators : forall i m f j n g, length f = length g -> ~ In FNaN f -> ~ In FNaN g ->
  let p := Ptf i m f in let q := Ptf j n g in
  (py_eq p q = true <-> same_fitness f g) /\ (py_ne p q = true <-> ~ same_fitness f g) /\
  (exists b, py_gt p q = Val b /\ (b = true <-> Dominates f g)) /\ (exists b, py_lt p q = Val b /\ (b = true <-> Dominates g f)) /\
  (exists b, py_ge p q = Val b /\ (b = true <-> at_least f g)) /\ (exists b, py_le p q = Val b /\ (b = true <-> at_least g f)).
Proof.
  intros i m f j n g L Nf Ng p q. unfold p, q, py_ne, py_gt, py_lt, py_ge, py_le, py_eq, eq_method. repeat apply conj.
  - apply array_equal_same.
  - apply array_equal_same.
  - rewrite <- array_equal_same. now destruct (array_equal f g).
  - rewrite <- array_equal_same. now destruct (array_equal f g).
  - unfold gt_method. destruct (gt_value f g L) as (b & E & H). rewrite E. eauto.
  - unfold gt_method. destruct (gt_value g f (eq_sym L)) as (b & E & H). rewrite E. eauto.
  - now apply ge_value.
  - now apply ge_value.
Qed.
Print Assumptions C87_operators.

Lemma same_refl f : ~ In FNaN f -> same_fitness f f.
Proof. induction f; intros H; constructor; [apply feq_refl; intros ->; apply H; now left|apply IHf; intros I; apply H; now right]. Qed.
Lemma same_sym f g : same_fitness f g -> same_fitness g f.
Proof. induction 1; constructor; auto. now apply feq_sym. Qed.
Lemma same_trans f g h : same_fitness f g -> same_fitness g h -> same_fitness f h.
Proof. intros H; revert h; induction H; intros h K; inversion K; subst; constructor; [eapply feq_trans; eauto|now apply IHForall2]. Qed.
Lemma at_least_trans f g h : ~ In FNaN f -> ~ In FNaN g -> ~ In FNaN h -> at_least f g -> at_least g h -> at_least f h.
Proof.
  intros Nf Ng Nh H; revert h Nh; induction H as [|x y f g A T IH]; intros h Nh K; inversion K; subst; constructor.
  - apply nlt_trans with y; auto; intros ->; [apply Nf|apply Ng|apply Nh]; now left.
  - apply IH; auto; intros I; [apply Nf|apply Ng|apply Nh]; now right.
Qed.
Lemma at_least_anti f g : ~ In FNaN f -> ~ In FNaN g -> at_least f g -> at_least g f -> same_fitness f g.
Proof.
  intros Nf Ng A B. apply at_least_split in A; auto. destruct A as [|D]; auto. apply dominates_nth in D as (_ & k & x & y & X & Y & F).
  exfalso. clear -B X Y F. revert k X Y; induction B; intros [|k]; cbn; try discriminate; eauto. now intros [= <-] [= <-].
Qed.
Lemma dominates_strict f g : ~ In FNaN f -> ~ In FNaN g -> (Dominates f g <-> at_least f g /\ ~ same_fitness f g).
Proof.
  intros Nf Ng. rewrite at_least_split by auto. split; [|tauto]. intros D. split; auto. intros S.
  apply dominates_nth in D as (_ & k & x & y & X & Y & F). clear -S X Y F. revert k X Y; induction S; intros [|k]; cbn; try discriminate; eauto.
  intros [= <-] [= <-]. now apply (feq_nlt _ _ (feq_sym _ _ H)).
Qed.

Lemma comparable_shape n x : comparable n x -> exists i m f, x = Ptf i m f /\ length f = n /\ ~ In FNaN f.
Proof. intros (f & E & L & N). destruct x as [i m g|]; [|discriminate]. injection E as ->. eauto 6. Qed.

(** among portfolios with the same number of objectives and no NaN, == is an equivalence, >= is a partial order
    up to ==, > is >= without ==, and the four comparisons agree *)
Theorem C87_order : forall n,
  (forall x, comparable n x -> py_eq x x = true /\ py_ge x x = Val true /\ py_gt x x = Val false) /\
  (forall x y, comparable n x -> comparable n y -> py_eq x y = py_eq y x /\ py_lt x y = py_gt y x /\ py_le x y = py_ge y x /\
     (py_gt x y = Val true <-> py_ge x y = Val true /\ py_eq x y = false) /\
     (py_ge x y = Val true -> py_le x y = Val true -> py_eq x y = true)) /\
  (forall x y z, comparable n x -> comparable n y -> comparable n z ->
     (py_eq x y = true -> py_eq y z = true -> py_eq x z = true) /\
     (py_ge x y = Val true -> py_ge y z = Val true -> py_ge x z = Val true) /\
     (py_gt x y = Val true -> py_ge y z = Val true -> py_gt x z = Val true) /\
     (py_ge x y = Val true -> py_gt y z = Val true -> py_gt x z = Val true)).
Proof.
  assert (B : forall r P, (exists b, r = Val b /\ (b = true <-> P)) -> (r = Val true <-> P)).
  { intros r P (b & -> & H). rewrite <- H. split; congruence. }
  intros n. split; [|split].
  - intros x C. apply comparable_shape in C as (i & m & f & -> & L & N).
    destruct (C87_operators i m f i m f eq_refl N N) as (A1 & _ & A3 & _ & A5 & _). split; [|split].
    + now apply A1, same_refl.
    + apply (B _ _ A5). apply at_least_split; auto. left. now apply same_refl.
    + destruct A3 as (b & -> & H). destruct b; auto. exfalso. destruct H as [H _]. now apply (proj1 C02_strict_partial_order f), H.
  - intros x y C D. apply comparable_shape in C as (i & m & f & -> & L & N), D as (j & p & g & -> & K & M).
    assert (LK : length f = length g) by congruence.
    destruct (C87_operators i m f j p g LK N M) as (A1 & _ & A3 & A4 & A5 & A6).
    destruct (C87_operators j p g i m f (eq_sym LK) M N) as (B1 & _ & B3 & B4 & B5 & B6).
    split; [|split; [|split; [|split]]].
    + apply eq_true_iff_eq. rewrite A1, B1. split; apply same_sym.
    + reflexivity.
    + reflexivity.
    + rewrite (B _ _ A3), (B _ _ A5), dominates_strict by auto. rewrite <- A1.
      split; intros [U V]; split; auto; destruct (py_eq _ _); congruence.
    + rewrite (B _ _ A5), (B _ _ A6), A1. now apply at_least_anti.
  - intros x y z C D E. apply comparable_shape in C as (i & m & f & -> & L & N), D as (j & p & g & -> & K & M), E as (k & q & h & -> & J & O).
    destruct (C87_operators i m f j p g) as (A1 & _ & A3 & _ & A5 & _); auto; [congruence|].
    destruct (C87_operators j p g k q h) as (B1 & _ & B3 & _ & B5 & _); auto; [congruence|].
    destruct (C87_operators i m f k q h) as (C1 & _ & C3 & _ & C5 & _); auto; [congruence|].
    rewrite A1, B1, C1, (B _ _ A3), (B _ _ A5), (B _ _ B3), (B _ _ B5), (B _ _ C3), (B _ _ C5).
    rewrite !dominates_strict by auto.
    assert (T := at_least_trans f g h N M O). split; [apply same_trans|]. split; [exact T|]. split.
    + intros [U V] W. split; auto. intros S. apply V, at_least_anti; auto. apply at_least_trans with h; auto.
      apply at_least_split; auto. left. now apply same_sym.
    + intros U [V W]. split; auto. intros S. apply W, at_least_anti; auto. apply at_least_trans with f; auto.
      apply at_least_split; auto. left. now apply same_sym.
Qed.
Print Assumptions C87_order.

(** an object that is not a portfolio is never equal to one, and ordering them raises *)
Theorem C87_other : forall i m f j, let p := Ptf i m f in let o := Other j in
  py_eq p o = false /\ py_eq o p = false /\ py_ne p o = true /\
  py_gt p o = TypeError /\ py_ge p o = TypeError /\ py_lt p o = TypeError /\ py_le p o = TypeError /\
  py_gt o p = TypeError /\ py_ge o p = TypeError /\ py_lt o p = TypeError /\ py_le o p = TypeError.
Proof. intros. repeat split. Qed.
Print Assumptions C87_other.

(** portfolios with different numbers of objectives are different and neither is better *)
Theorem C87_lengths : forall i m f j n g, length f <> length g -> let p := Ptf i m f in let q := Ptf j n g in
  py_eq p q = false /\ py_ne p q = true /\
  py_gt p q <> Val true /\ py_ge p q <> Val true /\ py_lt p q <> Val true /\ py_le p q <> Val true.
Proof.
  intros i m f j n g L p q. assert (E : forall f g, length f <> length g -> array_equal f g = false).
  { clear. intros f g L. destruct (array_equal f g) eqn:E; auto. apply array_equal_same, Forall2_length in E. congruence. }
  assert (G : forall f g, length f <> length g -> portfolio_dominates f g None <> Some true) by exact C02_dominate_length_error.
  assert (K : length g <> length f) by congruence.
  unfold p, q, py_ne, py_eq, py_gt, py_ge, py_lt, py_le, ge_method, gt_method, eq_method. rewrite (E f g L), (E g f K).
  pose proof (G f g L). pose proof (G g f K). destruct (portfolio_dominates f g None) as [[]|], (portfolio_dominates g f None) as [[]|]; repeat split; congruence.
Qed.
Print Assumptions C87_lengths.

(** a portfolio with a NaN objective is not equal to itself, and not >= itself *)
Theorem C87_nan_refuted : exists p, py_eq p p = false /\ py_ne p p = true /\ py_ge p p = Val false /\ contains [p] p = true.
Proof. exists (Ptf 0 false [FFin 1; FNaN]). vm_compute. auto. Qed.
Print Assumptions C87_nan_refuted.

(** ** Lists of portfolios *)
Theorem C87_lists : forall l x,
  (contains l x = true <-> exists e, In e l /\ alike e x) /\
  (forall i, index l x = Some i <-> first_alike l x i) /\
  (index l x = None <-> forall e, In e l -> ~ alike e x) /\
  (forall r, remove l x = Some r <-> exists i, first_alike l x i /\ r = firstn i l ++ skipn (S i) l) /\
  (remove l x = None <-> forall e, In e l -> ~ alike e x) /\
  (exists kept, count l x = length kept /\ NoDup kept /\ forall i, In i kept <-> exists e, nth_error l i = Some e /\ alike e x) /\
  (multi_contains l x = true <-> (exists i f, x = Ptf i false f) /\ exists e, In e l /\ alike e x).
Proof.
  intros l x.
  assert (C : contains l x = true <-> exists e, In e l /\ alike e x).
  { unfold contains. rewrite existsb_exists. split; intros (e & I & H); exists e; now apply matches_iff in H || (split; auto; now apply matches_iff). }
  assert (U : forall i j, first_alike l x i -> first_alike l x j -> i = j).
  { intros i j [(e & E & A) F] [(e' & E' & A') F']. destruct (lt_eq_lt_dec i j) as [[H|]|H]; auto; exfalso.
    - now apply (F' i e H E).
    - now apply (F j e' H E'). }
  assert (I : match index l x with Some i => first_alike l x i | None => forall e, In e l -> ~ alike e x end).
  { clear C U. induction l as [|e l IH]; [now intros e []|]. cbn. destruct (matches x e) eqn:M.
    - apply matches_iff in M. split; [exists e; auto|]. intros; lia.
    - apply matches_not in M. destruct (index l x) as [i|].
      + destruct IH as [(e' & E & A) F]. split; [now exists e'|]. intros [|j] e'' J; cbn.
        * now intros [= <-].
        * apply F. lia.
      + intros e' [<-|H]; auto. }
  assert (R : match remove l x with Some r => exists i, first_alike l x i /\ r = firstn i l ++ skipn (S i) l | None => forall e, In e l -> ~ alike e x end).
  { clear C U I. induction l as [|e l IH]; [now intros e []|]. cbn [remove]. destruct (matches x e) eqn:M.
    - apply matches_iff in M. exists 0. split; auto. split; [exists e; auto|]. intros; lia.
    - apply matches_not in M. destruct (remove l x) as [r|].
      + destruct IH as (i & [(e' & E & A) F] & ->). exists (S i). split; auto. split; [now exists e'|]. intros [|j] e'' J; cbn.
        * now intros [= <-].
        * apply F. lia.
      + intros e' [<-|H]; auto. }
  assert (D : forall i, first_alike l x i -> (forall e, In e l -> ~ alike e x) -> False).
  { intros i [(e & E & A) _] H. apply (H e); auto. eapply nth_error_In; eauto. }
  split; [exact C|]. split; [|split; [|split; [|split; [|split]]]].
  - intros i. destruct (index l x) as [j|].
    + split; [now intros [= <-]|]. intros H. now rewrite (U i j H I).
    + split; [discriminate|]. intros H. exfalso. eauto.
  - destruct (index l x) as [j|]; [|tauto]. split; [discriminate|]. intros H. exfalso. eauto.
  - intros r. destruct (remove l x) as [s|].
    + split; [now intros [= <-]|]. intros (i & H & ->). destruct R as (j & K & ->). now rewrite (U i j H K).
    + split; [discriminate|]. intros (i & H & _). exfalso. eauto.
  - destruct (remove l x) as [s|]; [|tauto]. split; [discriminate|]. intros H. destruct R as (i & K & _). exfalso. eauto.
  - clear. unfold count. induction l as [|e l (kept & L & N & S)]; [exists []; cbn; repeat split; try constructor; [easy|]; intros (e & E & _); now destruct i|].
    cbn [filter]. assert (N' : NoDup (map Datatypes.S kept)) by (apply FinFun.Injective_map_NoDup; auto; now intros ? ? [=]).
    assert (S' : forall i, In i (map Datatypes.S kept) <-> exists j e, i = Datatypes.S j /\ nth_error l j = Some e /\ alike e x).
    { intros i. rewrite in_map_iff. split.
      - intros (j & <- & H). apply S in H as (e' & E & A). eauto.
      - intros (j & e' & -> & E & A). exists j. split; auto. apply S. eauto. }
    destruct (matches x e) eqn:M.
    + exists (0 :: map Datatypes.S kept). split; [cbn; now rewrite map_length, L|]. split.
      * constructor; auto. rewrite in_map_iff. now intros (? & ? & _).
      * apply matches_iff in M. intros i. cbn [In]. rewrite S'. split.
        -- intros [<-|(j & e' & -> & E & A)]; [exists e; auto|exists e'; auto].
        -- destruct i as [|i]; auto. intros (e' & E & A). right. eauto.
    + exists (map Datatypes.S kept). split; [now rewrite map_length|]. split; auto. apply matches_not in M. intros i. rewrite S'. split.
      * intros (j & e' & -> & E & A). exists e'; auto.
      * destruct i as [|i]; intros (e' & E & A); [injection E as <-; now elim M|]. eauto.
  - unfold multi_contains. destruct x as [i [] f|j].
    + split; [discriminate|]. now intros ((? & ? & ?) & _).
    + rewrite C. split; [intros H; split; eauto|intros []; auto].
    + split; [discriminate|]. now intros ((? & ? & ?) & _).
Qed.
Print Assumptions C87_lists.

(** remove(p) and index(p) can hit a different portfolio that has the same fitness *)
Theorem C87_remove_refuted : exists l p q r, In p l /\ In q l /\ identity p <> identity q /\
  remove l p = Some r /\ In p r /\ ~ In q r /\ index l p = Some 0 /\ nth_error l 0 = Some q.
Proof.
  exists [Ptf 0 false [FFin 1]; Ptf 1 false [FFin 1]], (Ptf 1 false [FFin 1]), (Ptf 0 false [FFin 1]), [Ptf 1 false [FFin 1]].
  vm_compute. repeat split; auto; try discriminate. intros [H|[]]. discriminate.
Qed.
Print Assumptions C87_remove_refuted.

Lemma gt_better n x y : comparable n x -> comparable n y -> exists b, py_gt x y = Val b /\ py_lt y x = Val b /\ (b = true <-> Better x y).
Proof.
  intros C D. apply comparable_shape in C as (i & m & f & -> & L & N), D as (j & p & g & -> & K & M).
  destruct (C87_operators i m f j p g) as (_ & _ & (b & E & H) & _); auto; [congruence|].
  exists b. split; auto. split; [exact E|]. rewrite H. unfold Better; cbn. split; [eauto|]. now intros (? & ? & [= <-] & [= <-] & ?).
Qed.
Lemma Better_trans n x y z : comparable n x -> comparable n y -> comparable n z -> Better x y -> Better y z -> Better x z.
Proof.
  intros (fx & Ex & Lx & Nx) (fy & Ey & Ly & Ny) (fz & Ez & Lz & Nz). unfold Better. rewrite Ex, Ey, Ez.
  intros (? & ? & [= <-] & [= <-] & A) (? & ? & [= <-] & [= <-] & B). exists fx, fz. repeat split; try apply C02_strict_partial_order with (b := fy); auto.
Qed.
Lemma Better_irrefl x : ~ Better x x.
Proof. intros (f & g & E & F & D). rewrite E in F. injection F as <-. now apply (proj1 C02_strict_partial_order f). Qed.
Section Best.
  Context (n : nat) (better : thing -> thing -> result) (B : thing -> thing -> Prop).
  Hypothesis value : forall x y, comparable n x -> comparable n y -> exists b, better x y = Val b /\ (b = true <-> B x y).
  Hypothesis trans : forall x y z, comparable n x -> comparable n y -> comparable n z -> B x y -> B y z -> B x z.
  Hypothesis irrefl : forall x, ~ B x x.
  Lemma best_spec l : forall m, comparable n m -> (forall x, In x l -> comparable n x) ->
    exists r, best better m l = Some r /\ (r = m \/ B r m) /\ In r (m :: l) /\ forall x, In x (m :: l) -> ~ B x r.
  Proof.
    induction l as [|x l IH]; intros m Cm Cl; cbn [best].
    - exists m. repeat split; auto; [now left|]. intros x [<-|[]]. apply irrefl.
    - assert (Cx : comparable n x) by (apply Cl; now left). destruct (value x m) as (b & E & H); auto. rewrite E. destruct b.
      + destruct (IH x) as (r & Er & Q & I & F); auto; [intros; apply Cl; now right|]. exists r. split; auto.
        assert (Cr : comparable n r) by (destruct I as [<-|I]; auto; apply Cl; now right).
        assert (BR : B r m) by (destruct Q as [->|Q]; [now apply H|apply trans with x; auto; now apply H]).
        split; auto. split; [destruct I as [<-|I]; [right; now left|right; now right]|].
        intros y [<-|I']; [|now apply F]. intros K. apply (irrefl r). now apply trans with m.
      + destruct (IH m) as (r & Er & Q & I & F); auto; [intros; apply Cl; now right|]. exists r. split; auto. split; auto.
        split; [destruct I as [<-|I]; [now left|right; now right]|].
        assert (Cr : comparable n r) by (destruct I as [<-|I]; auto; apply Cl; now right).
        intros y [<-|[<-|I']]; [apply F; now left| |apply F; now right]. intros K.
        assert (BX : B x m) by (destruct Q as [->|Q]; auto; now apply trans with r). now apply H in BX.
  Qed.
End Best.

(** max returns a portfolio of the list that none dominates, min one that dominates none *)
Theorem C87_max_min : forall n l, l <> [] -> (forall x, In x l -> comparable n x) ->
  (exists p, py_max l = Some p /\ In p l /\ forall x, In x l -> ~ Better x p) /\
  (exists p, py_min l = Some p /\ In p l /\ forall x, In x l -> ~ Better p x).
Proof.
  intros n [|m l] NE C; [congruence|]. cbn [py_max py_min]. split.
  - destruct (best_spec n py_gt Better) with (l := l) (m := m) as (r & E & _ & I & F); auto using Better_irrefl.
    + intros x y Cx Cy. destruct (gt_better n x y Cx Cy) as (b & E & _ & H). eauto.
    + intros x y z. apply Better_trans.
    + apply C. now left.
    + intros x I. apply C. now right.
    + eauto.
  - destruct (best_spec n py_lt (fun x y => Better y x)) with (l := l) (m := m) as (r & E & _ & I & F); auto using Better_irrefl.
    + intros x y Cx Cy. destruct (gt_better n y x Cy Cx) as (b & _ & E & H). eauto.
    + intros x y z Cx Cy Cz P Q. now apply Better_trans with n y.
    + apply C. now left.
    + intros x I. apply C. now right.
    + eauto.
Qed.
Print Assumptions C87_max_min.

(** ** set_portfolio_params *)
Section Params.
  Context (V : Type) (measures : V -> bool).
  Notation settings := (settings V).
  (** a parameter that may be assigned *)
  Definition assignable (p : string * V) : Prop :=
    In (fst p) ["name"; "tag"; "annualized_factor"; "fitness_measures"; "risk_free_rate"; "compounded"; "min_acceptable_return";
      "value_at_risk_beta"; "entropic_risk_measure_theta"; "entropic_risk_measure_beta"; "cvar_beta"; "evar_beta";
      "drawdown_at_risk_beta"; "cdar_beta"; "edar_beta"] /\
    (fst p = "fitness_measures" -> measures (snd p) = true).
  (** a documented parameter that raises when assigned *)
  Definition rejected (p : string * V) : Prop :=
    fst p = "returns" \/ fst p = "observations" \/ (fst p = "fitness_measures" /\ measures (snd p) = false).
  (** [o'] is [o] with the given parameters *)
  Definition updated (params : list (string * V)) (o o' : settings) : Prop :=
    (forall key v, In (key, v) params -> o' key = v) /\ (forall key, ~ In key (map fst params) -> o' key = o key).
  (** the portfolios at the given positions, and only those, have the given parameters *)
  Definition all_updated (params : list (string * V)) (population : list nat) (heap heap' : list settings) : Prop :=
    length heap' = length heap /\
    forall i o o', nth_error heap i = Some o -> nth_error heap' i = Some o' ->
      (In i population -> updated params o o') /\ (~ In i population -> o' = o).

  Lemma existsb_eqb key l : existsb (String.eqb key) l = true <-> In key l.
  Proof. rewrite existsb_exists. split; [intros (x & I & E); apply String.eqb_eq in E; congruence|intros I; exists key; split; auto; apply String.eqb_refl]. Qed.
  Lemma set_nth_length (l : list settings) i x : length (set_nth V l i x) = length l.
  Proof. revert i; induction l; intros [|i]; cbn; auto. Qed.
  Lemma set_nth_get (l : list settings) i x j : nth_error (set_nth V l i x) j = if i =? j then (match nth_error l j with Some _ => Some x | None => None end) else nth_error l j.
  Proof. revert i j; induction l; intros [|i] [|j]; cbn; auto. now destruct (i =? j). Qed.
  Lemma set_one_ok o p : assignable p -> set_one V measures o (fst p) (snd p) = Some (fun n => if String.eqb n (fst p) then snd p else o n).
  Proof.
    intros [I M]. unfold set_one. destruct (existsb _ _) eqn:E.
    - exfalso. apply existsb_eqb in E. destruct E as [E|[E|[]]]; rewrite <- E in I; cbn in I;
        repeat (destruct I as [I|I]; [discriminate|]); contradiction.
    - destruct (String.eqb (fst p) "fitness_measures") eqn:F; auto. apply String.eqb_eq in F. rewrite M by auto. reflexivity.
  Qed.
  Lemma set_one_no o p : rejected p -> set_one V measures o (fst p) (snd p) = None.
  Proof. destruct p as [k v]; cbn [fst snd]. intros [E|[E|[E M]]]; cbn in E; subst k; cbn in *; auto. now rewrite M. Qed.

  Lemma updated_step p params o o1 o2 : ~ In (fst p) (map fst params) ->
    o1 = (fun n => if String.eqb n (fst p) then snd p else o n) -> updated params o1 o2 -> updated (p :: params) o o2.
  Proof.
    intros N -> [A B]. split.
    - intros key v [->|I]; auto. cbn in *. rewrite B by auto. now rewrite String.eqb_refl.
    - cbn. intros key K. rewrite B by tauto. destruct (String.eqb_spec key (fst p)); auto. subst. tauto.
  Qed.
  (** the inner loop up to a rejected parameter, or to the end *)
  Lemma set_all_spec params rest : Forall assignable params -> NoDup (map fst params) ->
    (rest = [] \/ exists p tl, rest = p :: tl /\ rejected p) ->
    forall heap i, i < length heap ->
    exists heap', set_all V measures heap i (params ++ rest) = (heap', match rest with [] => false | _ => true end) /\
      length heap' = length heap /\ (forall o o', nth_error heap i = Some o -> nth_error heap' i = Some o' -> updated params o o') /\
      (forall j, j <> i -> nth_error heap' j = nth_error heap j).
  Proof.
    intros F ND R. induction F as [|p params A F IH]; intros heap i Hi.
    - exists heap. cbn [app]. split; [|repeat split; auto].
      + destruct R as [->|(p & tl & -> & Q)]; auto. destruct p as [key v]. cbn [set_all].
        destruct (nth_error heap i) as [o|] eqn:E; auto. pose proof (set_one_no o (key, v) Q) as S. cbn [fst snd] in S. now rewrite S.
      + now cbn.
      + cbn. intros; congruence.
    - inversion ND as [|? ? ND1 ND2]; subst. destruct p as [key v]. cbn [app set_all].
      destruct (nth_error heap i) as [o|] eqn:E; [|apply nth_error_None in E; lia].
      pose proof (set_one_ok o (key, v) A) as S. cbn [fst snd] in S. rewrite S.
      set (o1 := fun n => if String.eqb n key then v else o n) in *.
      destruct (IH ND2 (set_nth V heap i o1) i) as (heap' & E' & L & U & O); [now rewrite set_nth_length|].
      exists heap'. split; auto. rewrite set_nth_length in L. split; auto. split.
      + intros o0 o' [= <-] G. apply updated_step with o1; auto. apply U; auto. now rewrite set_nth_get, Nat.eqb_refl, E.
      + intros j J. rewrite O by auto. rewrite set_nth_get. destruct (Nat.eqb_spec i j); congruence.
  Qed.
  Lemma updated_again params o o1 o2 : updated params o o1 -> updated params o1 o2 -> updated params o o2.
  Proof. intros [A B] [C D]. split; auto. intros key K. rewrite D, B; auto. Qed.
  Lemma set_each_spec params : Forall assignable params -> NoDup (map fst params) ->
    forall population heap, Forall (fun i => i < length heap) population ->
    exists heap', set_each V measures heap population params = (heap', false) /\ all_updated params population heap heap'.
  Proof.
    intros F ND. induction population as [|i population IH]; intros heap P.
    - exists heap. split; auto. split; auto. intros i o o' E E'. split; [easy|]. congruence.
    - inversion P as [|? ? Hi P']; subst. cbn [set_each].
      destruct (set_all_spec params [] F ND (or_introl eq_refl) heap i Hi) as (h1 & E1 & L1 & U1 & O1). rewrite app_nil_r in E1. rewrite E1.
      destruct (IH h1) as (h2 & E2 & L2 & U2); [now rewrite L1|]. exists h2. split; auto. split; [congruence|].
      intros j o o2 G G2. destruct (nth_error h1 j) as [o1|] eqn:G1.
      2: { apply nth_error_None in G1. assert (j < length heap) by (apply nth_error_Some; congruence). lia. }
      destruct (U2 j o1 o2 G1 G2) as [U3 U4].
      destruct (Nat.eq_dec i j) as [<-|Q].
      + assert (U5 := U1 o o1 G G1). split; [|cbn; tauto]. intros _. destruct (in_dec Nat.eq_dec i population) as [I|I].
        * apply updated_again with o1; auto.
        * rewrite (U4 I). auto.
      + assert (o1 = o) as -> by (rewrite (O1 j) in G1; congruence). cbn [In]. split; [intros [|I]; [congruence|auto]|tauto].
  Qed.
End Params.

(** every portfolio of the population, and no other, gets exactly the given parameters *)
Theorem C87_params : forall (V : Type) (measures : V -> bool) params population heap,
  params <> [] -> Forall (assignable V measures) params -> NoDup (map fst params) -> Forall (fun i => i < length heap) population ->
  exists heap', set_portfolio_params V measures heap population params = (heap', NoneValue) /\ all_updated V params population heap heap'.
Proof.
  intros V measures params population heap NE F ND P. destruct (set_each_spec V measures params F ND population heap P) as (heap' & E & U).
  exists heap'. split; auto. unfold set_portfolio_params. destruct params as [|p params]; [congruence|].
  replace (forallb _ (p :: params)) with true; [now rewrite E|]. symmetry. apply forallb_forall. intros q Q.
  rewrite Forall_forall in F. destruct (F q Q) as [I _]. apply existsb_eqb. cbn in I |- *. tauto.
Qed.
Print Assumptions C87_params.

(** without parameters nothing changes and self is returned; with an unknown parameter nothing changes *)
Theorem C87_params_unchanged : forall (V : Type) (measures : V -> bool) population heap,
  set_portfolio_params V measures heap population [] = (heap, Self) /\
  forall params p, In p params -> ~ assignable V (fun _ => true) p -> fst p <> "returns" -> fst p <> "observations" ->
    set_portfolio_params V measures heap population params = (heap, Raised).
Proof.
  intros V measures population heap. split; auto. intros params p I A R O. unfold set_portfolio_params.
  destruct params as [|q params]; [easy|]. destruct (forallb _ _) eqn:F; auto. exfalso. rewrite forallb_forall in F.
  specialize (F p I). apply existsb_eqb in F. apply A. split; auto. cbn in F. destruct F as [F|[F|F]]; [congruence|congruence|exact F].
Qed.
Print Assumptions C87_params_unchanged.

(** when a documented parameter is rejected, the call raises after it has changed the parameters before it in the
    first portfolio, and nothing else *)
Theorem C87_params_stopped : forall (V : Type) (measures : V -> bool) before p after i population heap,
  Forall (assignable V measures) before -> NoDup (map fst before) -> rejected V measures p ->
  Forall (fun q => In (fst q) valid_params) after -> i < length heap ->
  exists heap', set_portfolio_params V measures heap (i :: population) (before ++ p :: after) = (heap', Raised) /\
    all_updated V before [i] heap heap'.
Proof.
  intros V measures before p after i population heap F ND R A Hi.
  destruct (set_all_spec V measures before (p :: after) F ND) with (heap := heap) (i := i) as (heap' & E & L & U & O); auto.
  { right. eauto. }
  exists heap'. split.
  - unfold set_portfolio_params. replace (forallb _ (before ++ p :: after)) with true.
    + cbn [set_each]. rewrite E. now destruct before.
    + symmetry. apply forallb_forall. intros q Q. apply existsb_eqb. apply in_app_or in Q as [Q|[<-|Q]].
      * rewrite Forall_forall in F. destruct (F q Q) as [I _]. cbn in I |- *. tauto.
      * destruct R as [->|[->|[-> _]]]; cbn; tauto.
      * rewrite Forall_forall in A. now apply A.
  - split; auto. intros j o o' G G'. split; [intros [<-|[]]; eauto|]. cbn. intros N. rewrite O in G' by (intros ->; tauto). congruence.
Qed.
Print Assumptions C87_params_stopped.

(** the documentation says that self is returned; a call that sets something returns None.  A failing call can
    leave the first portfolio changed and the second one not *)
Theorem C87_params_refuted :
  (exists heap population params, params <> [] /\ snd (set_portfolio_params nat (fun _ => true) heap population params) = NoneValue) /\
  exists heap population params heap' o o', set_portfolio_params nat (fun _ => true) heap population params = (heap', Raised) /\
    Forall (fun p => In (fst p) valid_params) params /\
    nth_error heap 0 = Some o /\ nth_error heap' 0 = Some o' /\ o "cvar_beta" <> o' "cvar_beta" /\ nth_error heap' 1 = nth_error heap 1 /\ In 1 population.
Proof.
  split.
  - exists [fun _ => 0], [0], [("cvar_beta", 1)]. split; [discriminate|]. reflexivity.
  - exists [fun _ => 0; fun _ => 0], [0; 1], [("cvar_beta", 1); ("observations", 2)].
    eexists _, _, _. split; [reflexivity|]. split; [apply Forall_forall; intros p [<-|[<-|[]]]; apply existsb_eqb; reflexivity|]. do 2 (split; [reflexivity|]). split; [discriminate|]. split; [reflexivity|]. right. now left.
Qed.
Print Assumptions C87_params_refuted.

(** a non-trivial case *)
Example C87_applies :
  let z := fun k => FFin (inject_Z k) in
  let a := Ptf 0 false [z 1%Z; z 2%Z] in let b := Ptf 1 true [z 1%Z; z 3%Z] in let c := Ptf 2 false [FPosInf; z 0%Z] in
  py_gt b a = Val true /\ py_lt a b = Val true /\ py_ge a c = Val false /\ py_le a c = Val false /\ py_eq a b = false /\
  py_max [a; c; b] = Some b /\ py_min [b; a; c] = Some a /\ remove [c; b; a] (Ptf 7 false [z 1%Z; FFin (6 # 2)]) = Some [c; a] /\
  comparable 2 a /\ comparable 2 b /\ comparable 2 c /\
  (exists heap', set_portfolio_params nat (fun _ => true) [fun _ => 0; fun _ => 0; fun _ => 0] [2; 0] [("cvar_beta", 5); ("tag", 3)] = (heap', NoneValue) /\
    map (fun o => (o "cvar_beta", o "tag", o "name")) heap' = [(5, 3, 0); (0, 0, 0); (5, 3, 0)]).
Proof.
  cbv zeta.
  assert (C : forall i m x y, x <> FNaN -> y <> FNaN -> comparable 2 (Ptf i m [x; y])).
  { intros i m x y X Y. eexists. split; [reflexivity|]. split; auto. now intros [|[|[]]]. }
  do 8 (split; [vm_compute; reflexivity|]). do 3 (split; [apply C; discriminate|]).
  eexists. split; [reflexivity|]. reflexivity.
Qed.
