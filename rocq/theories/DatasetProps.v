(** C85: the cached datasets under every history: concurrent calls, failures, kills and clearings. *)
From Coq Require Import List Arith Bool Lia.
From Verif Require Import DatasetModel.
Import ListNotations.

(** * Specification *)
(** a file that was being written: no longer than the whole one, each byte being the right one or zero (a gap) *)
Definition damaged (b whole : list nat) : Prop :=
  length b <= length whole /\ forall i, i < length b -> nth i b 0 = nth i whole 0 \/ nth i b 0 = 0.
(** the formats: what is written can be read, and a damaged file that can be read gives the right table (the formats have
    checksums) *)
Record formats {table} (truth : nat -> table) (archive : nat -> list nat) (parse : list nat -> option table) (dump : table -> list nat)
  (load : list nat -> option table) : Prop := {
  parse_whole : forall d, parse (archive d) = Some (truth d);
  parse_damaged : forall d b t, damaged b (archive d) -> parse b = Some t -> t = truth d;
  load_whole : forall d, load (dump (truth d)) = Some (truth d);
  load_damaged : forall d b t, damaged b (dump (truth d)) -> load b = Some t -> t = truth d }.
(** two calls use the same cache *)
Definition same (c c' : call) : Prop := home c = home c' /\ name c = name c'.
(** the call has not begun to download *)
Definition reading {table} (p : pc table) : Prop := match p with Start _ | Check _ | Load _ | Returned _ _ | Raised _ _ | Killed _ => True | _ => False end.
(** no event of the history clears that directory *)
Definition keeps (d : dir) (es : list event) : Prop := ~ In (Clear d) es.

(** * Lists *)
Lemma nth_set_nth {A} (l : list A) i x j : nth_error (set_nth l i x) j = if Nat.eq_dec i j then match nth_error l i with Some _ => Some x | None => None end else nth_error l j.
Proof.
  destruct (Nat.eq_dec i j) as [->|N].
  - revert j. induction l as [|a l IH]; intros [|j]; cbn; auto.
  - revert i j N. induction l as [|a l IH]; intros [|i] [|j] N; cbn; try congruence; auto.
Qed.
Lemma length_set_nth {A} (l : list A) i x : length (set_nth l i x) = length l.
Proof. revert i. induction l as [|a l IH]; intros [|i]; cbn; auto. Qed.
Lemma in_set_nth {A} (l : list A) i x y : In y (set_nth l i x) -> y = x \/ In y l.
Proof. revert i. induction l as [|a l IH]; intros [|i]; cbn; auto; [intuition|]. intros [H|H]; [auto|]. apply IH in H. tauto. Qed.
Lemma nth_overlay b pos chunk i : i < length (overlay b pos chunk) ->
  nth i (overlay b pos chunk) 0 = if le_dec pos i then if lt_dec i (pos + length chunk) then nth (i - pos) chunk 0 else nth i b 0 else nth i b 0.
Proof.
  unfold overlay. intros _.
  assert (L : length (firstn pos (b ++ repeat 0 (pos - length b))) = pos) by (rewrite firstn_length, app_length, repeat_length; lia).
  destruct (le_dec pos i).
  - rewrite app_nth2 by lia. rewrite L. destruct (lt_dec i (pos + length chunk)).
    + now rewrite app_nth1 by lia.
    + rewrite app_nth2 by lia. clear L.
      assert (K : forall (m j : nat) (b : list nat), nth j (skipn m b) 0 = nth (m + j) b 0).
      { induction m as [|m IHm]; intros j b'; [reflexivity|]. destruct b'; cbn; [destruct j; reflexivity|apply IHm]. }
      rewrite K. f_equal. lia.
  - rewrite app_nth1 by lia.
    assert (K : forall m (l : list nat) j, j < m -> nth j (firstn m l) 0 = nth j l 0).
    { induction m as [|m IHm]; intros l j; [lia|]. destruct l, j; cbn; try reflexivity; intros; apply IHm; lia. }
    rewrite K by lia. destruct (lt_dec i (length b)); [now rewrite app_nth1|].
    rewrite app_nth2 by lia. rewrite (nth_overflow b) by lia. apply nth_repeat.
Qed.
Lemma length_overlay b pos chunk : length (overlay b pos chunk) = Nat.max (length b) (pos + length chunk).
Proof. unfold overlay. rewrite !app_length, firstn_length, app_length, repeat_length, skipn_length. lia. Qed.
Lemma skipn_cons {A} pos (l : list A) : skipn pos l <> [] -> pos < length l.
Proof. intros H. destruct (lt_dec pos (length l)); [auto|]. exfalso. apply H. apply skipn_all2. lia. Qed.
Lemma nth_chunk pos n (l : list nat) i : i < length (firstn n (skipn pos l)) -> nth i (firstn n (skipn pos l)) 0 = nth (pos + i) l 0.
Proof.
  intros H. rewrite firstn_length in H.
  assert (K : forall m (l : list nat) j, j < m -> nth j (firstn m l) 0 = nth j l 0).
  { induction m as [|m IHm]; intros l' j; [lia|]. destruct l', j; cbn; try reflexivity; intros; apply IHm; lia. }
  rewrite K by lia. clear. revert l. induction pos as [|m IHm]; intros b'; [reflexivity|]. destruct b'; cbn; [destruct i; reflexivity|apply IHm].
Qed.
Lemma damaged_write b whole pos n : damaged b whole -> pos <= length whole -> damaged (overlay b pos (firstn n (skipn pos whole))) whole.
Proof.
  intros [L D] P. assert (LC : length (firstn n (skipn pos whole)) <= length whole - pos) by (rewrite firstn_length, skipn_length; lia).
  split; [rewrite length_overlay; lia|]. intros i Hi. rewrite nth_overlay by auto. rewrite length_overlay in Hi.
  destruct (le_dec pos i) as [Hp|Hp].
  - destruct (lt_dec i (pos + _)) as [Hc|Hc].
    + rewrite nth_chunk by lia. left. f_equal. lia.
    + apply D. lia.
  - destruct (lt_dec i (length b)); [now apply D|]. right. apply nth_overflow. lia.
Qed.
Lemma firstn_chunk pos n (l : list nat) : overlay (firstn pos l) pos (firstn n (skipn pos l)) = firstn (pos + length (firstn n (skipn pos l))) l \/ length l < pos.
Proof.
  destruct (le_dec pos (length l)) as [P|P]; [left|right; lia]. unfold overlay. rewrite firstn_length_le by lia. replace (pos - pos) with 0 by lia. cbn [repeat]. rewrite app_nil_r.
  rewrite firstn_firstn, Nat.min_id. rewrite (skipn_all2 (n := pos + _) (firstn pos l)) by (rewrite (firstn_length pos l); lia). rewrite app_nil_r.
  rewrite firstn_length. rewrite <- (firstn_skipn pos l) at 4. rewrite firstn_app, firstn_firstn, firstn_length_le by lia.
  replace (Nat.min (pos + _) pos) with pos by lia. f_equal.
  replace (pos + Nat.min n (length (skipn pos l)) - pos) with (Nat.min n (length (skipn pos l))) by lia.
  destruct (le_dec n (length (skipn pos l))); [now rewrite Nat.min_l|]. rewrite Nat.min_r by lia. rewrite firstn_all. apply firstn_all2. lia.
Qed.

Section Proofs.
Context {table : Type} (truth : nat -> table) (archive : nat -> list nat) (parse : list nat -> option table) (dump : table -> list nat)
  (load : list nat -> option table).
Hypothesis F : formats truth archive parse dump load.
Local Notation exec := (exec table archive parse dump load).
Local Notation step := (step table archive parse dump load).
Local Notation run := (run table archive parse dump load).
Local Notation state := (state table).

(** * What every history preserves *)
Definition whole (p : path) : list nat := match what p with Archive => archive (dataset p) | Pkz => dump (truth (dataset p)) end.
Definition good (tag : nat -> path) (nxt : nat) (c : call) (p : pc table) : Prop :=
  match p with
  | Fetch _ h pos => h < nxt /\ tag h = file c Archive /\ pos <= length (archive (name c))
  | Open _ t | Remove _ t | Returned _ t => t = truth (name c)
  | Dump _ t h pos => t = truth (name c) /\ h < nxt /\ tag h = file c Pkz /\ pos <= length (dump (truth (name c)))
  | _ => True
  end.
Definition files_ok (tag : nat -> path) (s : state) : Prop :=
  (forall p i, names _ s p = Some i -> i < next _ s /\ tag i = p) /\
  (forall i, i < next _ s -> damaged (data _ s i) (whole (tag i))).
Definition inv (tag : nat -> path) (s : state) : Prop :=
  files_ok tag s /\ forall c p, In (c, p) (procs _ s) -> good tag (next _ s) c p.
Definition extends (tag tag' : nat -> path) (nxt nxt' : nat) : Prop := nxt <= nxt' /\ forall i, i < nxt -> tag' i = tag i.

Lemma good_extends tag tag' nxt nxt' c p : extends tag tag' nxt nxt' -> good tag nxt c p -> good tag' nxt' c p.
Proof. intros [E1 E2]. destruct p; cbn; auto; intros H; repeat split; try tauto; try lia; rewrite E2 by tauto; tauto. Qed.
Lemma damaged_nil l : damaged [] l.
Proof. split; cbn; [lia|]. intros i H. lia. Qed.

Lemma open_spec tag s p s' h : files_ok tag s -> open_w _ s p = (s', h) ->
  exists tag', files_ok tag' s' /\ extends tag tag' (next _ s) (next _ s') /\ h < next _ s' /\ tag' h = p /\ procs _ s' = procs _ s /\ dirs _ s' = dirs _ s /\
    names _ s' p = Some h /\ data _ s' h = [] /\ (forall q, q <> p -> names _ s' q = names _ s q /\ read _ s' q = read _ s q).
Proof.
  intros [A B]. unfold open_w. destruct (names _ s p) as [i|] eqn:E.
  - intros H. injection H as <- <-. destruct (A _ _ E) as [A1 A2]. exists tag. cbn.
    split; [split|]; cbn.
    + exact A.
    + intros j Hj. destruct (Nat.eq_dec j i); [apply damaged_nil|now apply B].
    + split; [split; auto|]. split; [auto|]. split; [auto|]. split; [reflexivity|]. split; [reflexivity|]. split; [auto|].
      split; [destruct (Nat.eq_dec i i); congruence|]. intros q Q. split; [reflexivity|]. unfold read. cbn. destruct (names _ s q) as [j|] eqn:Ej; [|reflexivity]. cbn. destruct (Nat.eq_dec j i) as [->|]; [|reflexivity].
      destruct (A _ _ Ej). congruence.
  - intros H. injection H as <- <-. exists (fun i => if Nat.eq_dec i (next _ s) then p else tag i). cbn.
    split; [split|]; cbn.
    + intros q i. destruct (path_dec q p) as [->|Q].
      * intros H. injection H as <-. split; [lia|]. destruct (Nat.eq_dec _ _); congruence.
      * intros H. destruct (A _ _ H) as [A1 A2]. split; [lia|]. destruct (Nat.eq_dec i (next _ s)); [lia|auto].
    + intros i Hi. destruct (Nat.eq_dec i (next _ s)); [apply damaged_nil|]. apply B. lia.
    + split; [split; [lia|]; intros i Hi; destruct (Nat.eq_dec i (next _ s)); [lia|reflexivity]|]. split; [lia|].
      split; [destruct (Nat.eq_dec (next _ s) (next _ s)); congruence|]. split; [reflexivity|]. split; [reflexivity|].
      split; [destruct (path_dec p p); congruence|]. split; [destruct (Nat.eq_dec (next _ s) (next _ s)); congruence|].
      intros q Q. destruct (path_dec q p); [congruence|]. split; [reflexivity|]. unfold read. cbn. destruct (path_dec q p); [congruence|].
      destruct (names _ s q) as [j|] eqn:Ej; [|reflexivity]. cbn. destruct (A _ _ Ej). destruct (Nat.eq_dec j (next _ s)); [lia|reflexivity].
Qed.
Lemma write_spec tag s h pos n : files_ok tag s -> h < next _ s -> pos <= length (whole (tag h)) ->
  files_ok tag (write _ s h pos (firstn n (skipn pos (whole (tag h))))).
Proof.
  intros [A B] Hh P. split; cbn; [exact A|]. intros i Hi. destruct (Nat.eq_dec i h) as [->|]; [|now apply B]. apply damaged_write; [now apply B|exact P].
Qed.
Lemma exec_inv tag s c p n s' p' : files_ok tag s -> good tag (next _ s) c p -> exec s c p n = (s', p') ->
  exists tag', files_ok tag' s' /\ extends tag tag' (next _ s) (next _ s') /\ good tag' (next _ s') c p' /\ procs _ s' = procs _ s.
Proof.
  intros O G H.
  assert (K : s' = s -> good tag (next _ s) c p' -> exists tag', files_ok tag' s' /\ extends tag tag' (next _ s) (next _ s') /\ good tag' (next _ s') c p' /\ procs _ s' = procs _ s).
  { intros -> G'. exists tag. split; [auto|]. split; [split; auto|auto]. }
  destruct p; cbn [DatasetModel.exec] in H.
  - injection H as <- <-. exists tag. split; [exact O|]. split; [split; auto|]. split; [exact I|reflexivity].
  - destruct (names _ s (file c Pkz)); injection H as <- <-; (apply K; [reflexivity|]); [exact I|]. destruct (download_if_missing c); exact I.
  - injection H as <- <-. apply K; [auto|]. destruct (read _ s (file c Pkz)) as [b|] eqn:R; [|exact I]. destruct (load b) as [t|] eqn:L; [|exact I].
    unfold read in R. destruct (names _ s (file c Pkz)) as [i|] eqn:Ei; [|discriminate]. injection R as <-. destruct O as [A B]. destruct (A _ _ Ei) as [A1 A2].
    specialize (B _ A1). rewrite A2 in B. exact (load_damaged _ _ _ _ _ F _ _ _ B L).
  - destruct (dirs _ s (home c)); [|injection H as <- <-; apply K; [auto|exact I]]. destruct (open_w _ s (file c Archive)) as [s1 h] eqn:E. injection H as <- <-.
    destruct (open_spec _ _ _ _ _ O E) as (tag' & O' & X & Hh & T & P & _). exists tag'. split; [auto|]. split; [auto|]. split; [|auto]. cbn. split; [auto|]. split; [auto|]. lia.
  - destruct G as (Hh & T & P). destruct (skipn position (archive (name c))) as [|x r] eqn:E; injection H as <- <-; [apply K; [auto|exact I]|].
    assert (W : whole (tag handle) = archive (name c)) by (now rewrite T).
    assert (S1 := write_spec tag s handle position (S n) O Hh). rewrite W, E in S1. exists tag. split; [now apply S1|]. split; [split; auto|]. split; [|reflexivity].
    cbn [good]. split; [exact Hh|]. split; [auto|]. assert (LL : length (firstn (S n) (x :: r)) <= length (skipn position (archive (name c)))) by (rewrite E, firstn_length; lia).
    rewrite skipn_length in LL. cbn [firstn length] in LL |- *. lia.
  - destruct (home c); [|injection H as <- <-; apply K; [auto|exact I]]. injection H as <- <-. apply K; [auto|]. destruct (read _ s (file c Archive)) as [b|] eqn:R; [|exact I].
    destruct (parse b) as [t|] eqn:L; [|exact I].
    unfold read in R. destruct (names _ s (file c Archive)) as [i|] eqn:Ei; [|discriminate]. injection R as <-. destruct O as [A B]. destruct (A _ _ Ei) as [A1 A2].
    specialize (B _ A1). rewrite A2 in B. exact (parse_damaged _ _ _ _ _ F _ _ _ B L).
  - destruct (dirs _ s (home c)); [|injection H as <- <-; apply K; [auto|exact I]]. destruct (open_w _ s (file c Pkz)) as [s1 h] eqn:E. injection H as <- <-.
    destruct (open_spec _ _ _ _ _ O E) as (tag' & O' & X & Hh & T & P & _). exists tag'. split; [auto|]. split; [auto|]. split; [|auto]. cbn. split; [auto|]. split; [auto|]. split; [auto|]. lia.
  - destruct G as (-> & Hh & T & P). destruct (skipn position (dump (truth (name c)))) as [|x r] eqn:E; injection H as <- <-; [apply K; [auto|reflexivity]|].
    assert (W : whole (tag handle) = dump (truth (name c))) by (now rewrite T).
    assert (S1 := write_spec tag s handle position (S n) O Hh). rewrite W, E in S1. exists tag. split; [now apply S1|]. split; [split; auto|]. split; [|reflexivity].
    cbn [good]. split; [auto|]. split; [exact Hh|]. split; [auto|]. assert (LL : length (firstn (S n) (x :: r)) <= length (skipn position (dump (truth (name c))))) by (rewrite E, firstn_length; lia).
    rewrite skipn_length in LL. cbn [firstn length] in LL |- *. lia.
  - cbn in G. destruct (names _ s (file c Archive)) as [i|] eqn:E; injection H as <- <-; [|apply K; [auto|exact I]]. exists tag. split; [|split; [split; auto|split; [exact G|reflexivity]]].
    destruct O as [A B]. split; cbn; [|exact B]. intros q j. destruct (path_dec q (file c Archive)); [discriminate|apply A].
  - injection H as <- <-. now apply K.
  - injection H as <- <-. now apply K.
  - injection H as <- <-. now apply K.
Qed.
Lemma step_inv tag s e : inv tag s -> exists tag', inv tag' (step s e) /\ extends tag tag' (next _ s) (next _ (step s e)).
Proof.
  intros [O P]. destruct e as [c|i n|i|i|d]; cbn [DatasetModel.step].
  - exists tag. split; [|split; auto]. split; [exact O|]. cbn. intros c' p I'. apply in_app_iff in I'. destruct I' as [I'|[I'|[]]]; [now apply P|]. injection I' as <- <-. exact I.
  - destruct (nth_error (procs _ s) i) as [[c p]|] eqn:E; [|exists tag; split; [split; auto|split; auto]]. destruct (exec s c p n) as [s' p'] eqn:X.
    destruct (exec_inv tag s c p n s' p' O (P _ _ (nth_error_In _ _ E)) X) as (tag' & O' & Ex & G & Pr). exists tag'. split; [|exact Ex]. split; [exact O'|]. cbn. rewrite Pr.
    intros c' q I'. apply in_set_nth in I'. destruct I' as [I'|I']; [injection I' as -> ->; auto|]. eapply good_extends; [exact Ex|auto].
  - exists tag. split; [|destruct (nth_error _ i) as [[c p]|]; [destruct (live _ p)|]; split; auto].
    destruct (nth_error (procs _ s) i) as [[c p]|]; [|split; auto]. destruct (live _ p); [|split; auto]. split; [exact O|]. cbn. intros c' q I'. apply in_set_nth in I'. destruct I' as [I'|I']; [injection I' as -> ->; exact I|auto].
  - exists tag. split; [|destruct (nth_error _ i) as [[c p]|]; [destruct (live _ p)|]; split; auto].
    destruct (nth_error (procs _ s) i) as [[c p]|]; [|split; auto]. destruct (live _ p); [|split; auto]. split; [exact O|]. cbn. intros c' q I'. apply in_set_nth in I'. destruct I' as [I'|I']; [injection I' as -> ->; exact I|auto].
  - exists tag. split; [|split; auto]. split; [|exact P]. destruct O as [A B]. split; cbn; [|exact B]. intros p i. destruct (dir_dec (in_dir p) d); [discriminate|apply A].
Qed.
Lemma run_inv es : forall tag s, inv tag s -> exists tag', inv tag' (run s es).
Proof.
  induction es as [|e es IH]; intros tag s H; [exists tag; exact H|]. destruct (step_inv tag s e H) as (tag' & H' & _). exact (IH tag' _ H').
Qed.
Lemma init_inv : inv (fun _ => Path (Absolute 0) 0 Pkz) (init table).
Proof. split; [split; cbn; [discriminate|lia]|]. intros c p []. Qed.

(** * A file that nobody is writing *)
Definition settled (c : call) (i : nat) (b : list nat) (s : state) : Prop :=
  names _ s (file c Pkz) = Some i /\ data _ s i = b /\ forall c' p, In (c', p) (procs _ s) -> same c c' -> reading p.
Lemma exec_settled tag c i b s c' p n s' p' : inv tag s -> settled c i b s -> In (c', p) (procs _ s) -> exec s c' p n = (s', p') ->
  names _ s' (file c Pkz) = Some i /\ data _ s' i = b /\ (same c c' -> reading p').
Proof.
  intros [O P] (N & D & R) I' H. assert (G := P _ _ I'). assert (Rp := R _ _ I'). destruct O as [A B] eqn:EO. destruct (A _ _ N) as [Hi Ti].
  assert (NA : forall c0, file c0 Archive <> file c Pkz) by (intros c0; unfold file; congruence).
  assert (NS : ~ same c c' -> file c' Pkz <> file c Pkz) by (intros Q E; apply Q; unfold file in E; injection E as E1 E2; split; auto).
  assert (OPEN : forall q s1 h, q <> file c Pkz -> open_w _ s q = (s1, h) -> names _ s1 (file c Pkz) = Some i /\ data _ s1 i = b).
  { intros q s1 h Q E. destruct (open_spec _ _ _ _ _ (conj A B) E) as (_ & _ & _ & _ & _ & _ & _ & _ & _ & U). destruct (U (file c Pkz)) as [U1 U2]; [auto|].
    split; [now rewrite U1|]. unfold read in U2. rewrite U1, N in U2. cbn in U2. congruence. }
  destruct p; cbn [DatasetModel.exec reading] in *.
  - injection H as <- <-. cbn. auto.
  - destruct (names _ s (file c' Pkz)) eqn:E; injection H as <- <-; (split; [auto|]; split; [auto|]); [intros _; exact I|].
    intros [S1 S2]. unfold file in N, E. rewrite <- S1, <- S2 in E. congruence.
  - injection H as <- <-. split; [auto|]. split; [auto|]. intros _. destruct (read _ s (file c' Pkz)) as [x|]; [|exact I]. destruct (load x); exact I.
  - destruct (dirs _ s (home c')); [|injection H as <- <-; split; [auto|]; split; [auto|]; intros _; exact I]. destruct (open_w _ s (file c' Archive)) as [s1 h] eqn:E. injection H as <- <-.
    destruct (OPEN _ _ _ (NA c') E). split; [auto|]. split; [auto|]. intros S. destruct (Rp S).
  - assert (T : forall b', data _ (set_data _ s handle b') i = b).
    { intros b'. cbn. destruct (Nat.eq_dec i handle) as [->|]; [|auto]. exfalso. destruct G as (_ & G & _). apply (NA c'). congruence. }
    destruct (skipn position (archive (name c'))); injection H as <- <-; (split; [auto|]; split; [first [exact D | apply T]|]); intros S; destruct (Rp S).
  - destruct (home c'); injection H as <- <-; (split; [auto|]; split; [auto|]); intros S; destruct (Rp S).
  - destruct (dirs _ s (home c')); [|injection H as <- <-; split; [auto|]; split; [auto|]; intros _; exact I]. destruct (open_w _ s (file c' Pkz)) as [s1 h] eqn:E. injection H as <- <-.
    assert (Q : file c' Pkz <> file c Pkz) by (apply NS; exact Rp). destruct (OPEN _ _ _ Q E). split; [auto|]. split; [auto|]. intros S. destruct (Rp S).
  - assert (T : forall b', data _ (set_data _ s handle b') i = b).
    { intros b'. cbn. destruct (Nat.eq_dec i handle) as [->|]; [|auto]. exfalso. destruct G as (_ & _ & G & _). assert (Q : file c' Pkz <> file c Pkz) by (apply NS; exact Rp). congruence. }
    destruct (skipn position (dump t)); injection H as <- <-; (split; [auto|]; split; [first [exact D | apply T]|]); intros S; destruct (Rp S).
  - destruct (names _ s (file c' Archive)); injection H as <- <-; [|split; [auto|]; split; [auto|]; intros _; exact I]. split; [|split; [auto|intros _; exact I]].
    cbn [set_name names]. destruct (path_dec (file c Pkz) (file c' Archive)) as [E|]; [|exact N]. exfalso. apply (NA c'). now symmetry.
  - injection H as <- <-. auto.
  - injection H as <- <-. auto.
  - injection H as <- <-. auto.
Qed.
Lemma step_settled tag c i b s e : inv tag s -> settled c i b s -> e <> Clear (home c) -> settled c i b (step s e).
Proof.
  intros V S E. assert (S' := S). destruct S' as (N & D & R).
  destruct e as [c'|j n|j|j|d]; cbn [DatasetModel.step].
  - split; [exact N|]. split; [exact D|]. cbn. intros c0 p I'. apply in_app_iff in I'. destruct I' as [I'|[I'|[]]]; [now apply R|]. injection I' as <- <-. intros _. exact I.
  - destruct (nth_error (procs _ s) j) as [[c' p]|] eqn:Ej; [|exact S]. destruct (exec s c' p n) as [s' p'] eqn:X. apply nth_error_In in Ej.
    destruct (exec_settled tag c i b s c' p n s' p' V S Ej X) as (N' & D' & R'). destruct V as [O P]. destruct (exec_inv tag s c' p n s' p' O (P _ _ Ej) X) as (_ & _ & _ & _ & Pr).
    split; [exact N'|]. split; [exact D'|]. cbn. rewrite Pr. intros c0 q I'. apply in_set_nth in I'. destruct I' as [I'|I']; [injection I' as -> ->; exact R'|exact (R _ _ I')].
  - destruct (nth_error (procs _ s) j) as [[c' p]|] eqn:Ej; [|exact S]. destruct (live _ p); [|exact S]. split; [exact N|]. split; [exact D|]. cbn. intros c0 q I'. apply in_set_nth in I'. destruct I' as [I'|I']; [injection I' as -> ->; intros _; exact I|exact (R _ _ I')].
  - destruct (nth_error (procs _ s) j) as [[c' p]|] eqn:Ej; [|exact S]. destruct (live _ p); [|exact S]. split; [exact N|]. split; [exact D|]. cbn. intros c0 q I'. apply in_set_nth in I'. destruct I' as [I'|I']; [injection I' as -> ->; intros _; exact I|exact (R _ _ I')].
  - split; [|split; [exact D|exact R]]. cbn. destruct (dir_dec (home c) d) as [<-|]; [congruence|exact N].
Qed.
Lemma nth_set_proc s i x j : nth_error (procs _ (set_proc table s i x)) j = if Nat.eq_dec i j then match nth_error (procs _ s) i with Some _ => Some x | None => None end else nth_error (procs _ s) j.
Proof. apply nth_set_nth. Qed.
(** a file that cannot be read stays so *)
Lemma step_poisoned tag c i b s e j c' t : inv tag s -> settled c i b s -> load b = None -> e <> Clear (home c) -> same c c' ->
  nth_error (procs _ (step s e)) j = Some (c', Returned _ t) -> nth_error (procs _ s) j = Some (c', Returned _ t).
Proof.
  intros V (N & D & R) L E S H. destruct e as [c0|k n|k|k|d]; cbn [DatasetModel.step] in H.
  - cbn in H. destruct (lt_dec j (length (procs _ s))); [now rewrite nth_error_app1 in H|]. rewrite nth_error_app2 in H by lia.
    destruct (j - length (procs _ s)) as [|m]; [discriminate|]. destruct m; discriminate.
  - destruct (nth_error (procs _ s) k) as [[c0 p]|] eqn:Ek; [|exact H]. destruct (exec s c0 p n) as [s' p'] eqn:X.
    destruct V as [O P]. destruct (exec_inv tag s c0 p n s' p' O (P _ _ (nth_error_In _ _ Ek)) X) as (_ & _ & _ & _ & Pr).
    rewrite nth_set_proc, Pr in H. destruct (Nat.eq_dec k j) as [->|]; [|exact H]. rewrite Ek in H. injection H as -> ->. rewrite Ek. f_equal. f_equal.
    assert (Rp := R _ _ (nth_error_In _ _ Ek) S). destruct p; cbn [reading DatasetModel.exec] in *; try contradiction; try (injection X as _ X); try discriminate.
    + destruct (names _ s (file c' Pkz)); injection X as _ X; try discriminate. destruct (download_if_missing c'); discriminate.
    + assert (FE : file c' Pkz = file c Pkz) by (unfold file; destruct S as [-> ->]; reflexivity). unfold read in X. rewrite FE, N in X. cbn in X. rewrite D, L in X. discriminate.
    + congruence.
  - destruct (nth_error (procs _ s) k) as [[c0 p]|] eqn:Ek; [|exact H]. destruct (live _ p); [|exact H]. rewrite nth_set_proc in H. destruct (Nat.eq_dec k j) as [->|]; [|exact H]. rewrite Ek in H. discriminate.
  - destruct (nth_error (procs _ s) k) as [[c0 p]|] eqn:Ek; [|exact H]. destruct (live _ p); [|exact H]. rewrite nth_set_proc in H. destruct (Nat.eq_dec k j) as [->|]; [|exact H]. rewrite Ek in H. discriminate.
  - exact H.
Qed.
Lemma run_poisoned c i b j c' t es : forall tag s, inv tag s -> settled c i b s -> load b = None -> keeps (home c) es -> same c c' ->
  nth_error (procs _ (run s es)) j = Some (c', Returned _ t) -> nth_error (procs _ s) j = Some (c', Returned _ t).
Proof.
  induction es as [|e es IH]; intros tag s V S L K Sc H; [exact H|]. cbn [DatasetModel.run fold_left] in H.
  assert (E : e <> Clear (home c)) by (intros ->; apply K; now left). destruct (step_inv tag s e V) as (tag' & V' & _).
  eapply step_poisoned; eauto. eapply (IH tag'); eauto.
  - eapply step_settled; eauto.
  - intros Q. apply K. now right.
Qed.
(** a file that can be read gives its table in three steps *)
Definition rank (p : pc table) : nat := match p with Start _ => 3 | Check _ => 2 | Load _ => 1 | _ => 0 end.
Definition waiting (t : table) (p : pc table) : Prop := match p with Start _ | Check _ | Load _ => True | Returned _ t' => t' = t | _ => False end.
Definition steps_of (j : nat) (es : list event) : nat := length (filter (fun e => match e with Step i _ => i =? j | _ => false end) es).
Definition spared (j : nat) (es : list event) : Prop := ~ In (Fault j) es /\ ~ In (Kill j) es.
Lemma run_cached c i b t j c' es : forall tag s p, inv tag s -> settled c i b s -> load b = Some t -> keeps (home c) es -> spared j es -> same c c' ->
  nth_error (procs _ s) j = Some (c', p) -> waiting t p -> rank p <= steps_of j es -> nth_error (procs _ (run s es)) j = Some (c', Returned _ t).
Proof.
  induction es as [|e es IH]; intros tag s p V S L K Sp Sc H W Rk.
  - cbn in Rk. destruct p; cbn [rank waiting] in *; try lia; try contradiction. subst. exact H.
  - cbn [DatasetModel.run fold_left]. assert (E : e <> Clear (home c)) by (intros ->; apply K; now left). destruct (step_inv tag s e V) as (tag' & V' & _).
    assert (S' := step_settled tag c i b s e V S E). assert (K' : keeps (home c) es) by (intros Q; apply K; now right).
    assert (Sp' : spared j es) by (split; intros Q; [apply (proj1 Sp)|apply (proj2 Sp)]; now right).
    assert (OTHER : nth_error (procs _ (step s e)) j = Some (c', p) -> rank p <= steps_of j es -> nth_error (procs _ (fold_left step es (step s e))) j = Some (c', Returned _ t)) by (intros; eapply (IH tag'); eauto).
    destruct S as (N & D & R). assert (FE : file c' Pkz = file c Pkz) by (unfold file; destruct Sc as [-> ->]; reflexivity).
    destruct e as [c0|k n|k|k|d].
    + apply OTHER; [|exact Rk]. cbn. rewrite nth_error_app1; [auto|]. apply nth_error_Some. congruence.
    + destruct (Nat.eq_dec k j) as [->|NK].
      * assert (X : exists p', nth_error (procs _ (step s (Step j n))) j = Some (c', p') /\ waiting t p' /\ rank p' <= rank p - 1).
        { cbn [DatasetModel.step]. rewrite H. destruct p; cbn [DatasetModel.exec waiting] in *; try contradiction.
          - exists (Check _). rewrite nth_set_proc. cbn. rewrite H. destruct (Nat.eq_dec j j); [|congruence]. auto.
          - exists (Load _). rewrite FE, N. rewrite nth_set_proc, H. destruct (Nat.eq_dec j j); [|congruence]. auto.
          - exists (Returned _ t). unfold read. rewrite FE, N. cbn [option_map]. rewrite D, L. rewrite nth_set_proc, H. destruct (Nat.eq_dec j j); [|congruence]. cbn. auto.
          - exists (Returned _ t). subst t0. rewrite nth_set_proc, H. destruct (Nat.eq_dec j j); [|congruence]. cbn. auto. }
        destruct X as (p' & X1 & X2 & X3). eapply (IH tag'); eauto. unfold steps_of in Rk. cbn [filter] in Rk. rewrite Nat.eqb_refl in Rk. cbn [length] in Rk. unfold steps_of. lia.
      * apply OTHER; [|unfold steps_of in *; cbn [filter] in Rk; destruct (Nat.eqb_spec k j); [congruence|exact Rk]].
        cbn [DatasetModel.step]. destruct (nth_error (procs _ s) k) as [[c0 q]|] eqn:Ek; [|exact H]. destruct (exec s c0 q n) as [s' q'] eqn:X.
        destruct V as [O P]. destruct (exec_inv tag s c0 q n s' q' O (P _ _ (nth_error_In _ _ Ek)) X) as (_ & _ & _ & _ & Pr). rewrite nth_set_proc, Pr. destruct (Nat.eq_dec k j); [congruence|exact H].
    + assert (NK : k <> j) by (intros ->; apply (proj1 Sp); now left). apply OTHER; [|exact Rk]. cbn [DatasetModel.step]. destruct (nth_error (procs _ s) k) as [[c0 q]|] eqn:Ek; [|exact H]. destruct (live _ q); [|exact H]. rewrite nth_set_proc. destruct (Nat.eq_dec k j); [congruence|exact H].
    + assert (NK : k <> j) by (intros ->; apply (proj2 Sp); now left). apply OTHER; [|exact Rk]. cbn [DatasetModel.step]. destruct (nth_error (procs _ s) k) as [[c0 q]|] eqn:Ek; [|exact H]. destruct (live _ q); [|exact H]. rewrite nth_set_proc. destruct (Nat.eq_dec k j); [congruence|exact H].
    + apply OTHER; [exact H|exact Rk].
Qed.

(** * A call that runs alone *)
Definition alone (fresh : bool) (c : call) (s : state) (p : pc table) : Prop :=
  let A := archive (name c) in
  let D := dump (truth (name c)) in
  let pz := file c Pkz in
  let ar := file c Archive in
  let start := if fresh then names _ s pz = None else read _ s pz = Some D in
  match p with
  | Start _ => start
  | Check _ => start /\ dirs _ s (home c) = true
  | Load _ => fresh = false /\ read _ s pz = Some D
  | Connect _ => fresh = true /\ dirs _ s (home c) = true /\ names _ s pz = None
  | Fetch _ h pos => fresh = true /\ dirs _ s (home c) = true /\ names _ s pz = None /\ names _ s ar = Some h /\ data _ s h = firstn pos A /\ pos <= length A
  | Parse _ => fresh = true /\ dirs _ s (home c) = true /\ names _ s pz = None /\ read _ s ar = Some A
  | Open _ t => fresh = true /\ dirs _ s (home c) = true /\ names _ s pz = None /\ names _ s ar <> None /\ t = truth (name c)
  | Dump _ t h pos => fresh = true /\ t = truth (name c) /\ names _ s pz = Some h /\ data _ s h = firstn pos D /\ pos <= length D /\ names _ s ar <> None
  | Remove _ t => fresh = true /\ t = truth (name c) /\ read _ s pz = Some D /\ names _ s ar <> None
  | Returned _ t => t = truth (name c) /\ read _ s pz = Some D /\ (fresh = true -> names _ s ar = None)
  | _ => False
  end.
Definition others (c : call) (s s' : state) : Prop := forall q, q <> file c Pkz -> q <> file c Archive -> read _ s' q = read _ s q.
Definition left_over (c : call) (p : pc table) : nat :=
  let a := length (archive (name c)) in
  let d := length (dump (truth (name c))) in
  match p with
  | Start _ => a + d + 8 | Check _ => a + d + 7 | Connect _ => a + d + 6 | Fetch _ _ pos => (a - pos) + d + 5 | Parse _ => d + 4 | Open _ _ => d + 3
  | Dump _ _ _ pos => (d - pos) + 2 | Remove _ _ => 1 | Load _ => 1 | _ => 0
  end.
Lemma write_other tag s h pos chunk p q : files_ok tag s -> names _ s p = Some h -> q <> p -> read _ (write _ s h pos chunk) q = read _ s q.
Proof.
  intros [A _] N Q. unfold read. cbn. destruct (names _ s q) as [j|] eqn:E; [|reflexivity]. cbn. destruct (Nat.eq_dec j h) as [->|]; [|reflexivity].
  destruct (A _ _ N), (A _ _ E). congruence.
Qed.
Lemma exec_alone tag fresh c d s p n s' p' : files_ok tag s -> home c = Absolute d -> (fresh = true -> download_if_missing c = true) ->
  alone fresh c s p -> exec s c p n = (s', p') -> alone fresh c s' p' /\ others c s s' /\ left_over c p' <= left_over c p - 1.
Proof.
  intros O Hd Dl S H. assert (PA : file c Pkz <> file c Archive) by (unfold file; congruence). assert (AP : file c Archive <> file c Pkz) by (unfold file; congruence).
  destruct p; cbn [DatasetModel.exec] in H; unfold alone in S; try contradiction.
  - injection H as <- <-. split; [split; [exact S|cbn; destruct (dir_dec (home c) (home c)); congruence]|]. split; [intros q _ _; reflexivity|cbn; lia].
  - destruct S as [S1 S2]. destruct fresh.
    + rewrite S1, (Dl eq_refl) in H. injection H as <- <-. split; [split; [auto|split; auto]|]. split; [intros q _ _; reflexivity|cbn; lia].
    + unfold read in S1. destruct (names _ s (file c Pkz)) eqn:E; [|discriminate]. injection H as <- <-. split; [split; [auto|]|].
      * unfold read. rewrite E. exact S1.
      * split; [intros q _ _; reflexivity|cbn; lia].
  - destruct S as [S1 S2]. rewrite S2, (load_whole _ _ _ _ _ F) in H. injection H as <- <-. split; [split; [auto|split; [auto|congruence]]|]. split; [intros q _ _; reflexivity|cbn; lia].
  - destruct S as (S1 & S2 & S3). rewrite S2 in H. destruct (open_w _ s (file c Archive)) as [s1 h] eqn:E. injection H as <- <-.
    destruct (open_spec _ _ _ _ _ O E) as (_ & _ & _ & _ & _ & _ & Dr & Nm & Em & U). split; [|split].
    + unfold alone. split; [auto|]. rewrite Dr. split; [auto|]. destruct (U (file c Pkz) PA) as [U1 _]. rewrite U1. split; [auto|]. split; [auto|]. split; [exact Em|]. lia.
    + intros q _ Q. apply U, Q.
    + cbn. lia.
  - destruct S as (S1 & S2 & S3 & S4 & S5 & S6). destruct (skipn position (archive (name c))) as [|x r] eqn:E.
    + injection H as <- <-. split; [|split; [intros q _ _; reflexivity|cbn; lia]]. unfold alone. split; [auto|]. split; [auto|]. split; [auto|]. unfold read. rewrite S4. cbn [option_map]. rewrite S5.
      assert (L : length (skipn position (archive (name c))) = 0) by now rewrite E. rewrite skipn_length in L. now rewrite firstn_all2 by lia.
    + assert (LL : 0 < length (firstn (S n) (x :: r)) <= length (archive (name c)) - position).
      { rewrite <- skipn_length, E, firstn_length. cbn [length]. lia. }
      assert (Ch : firstn (S n) (skipn position (archive (name c))) = firstn (S n) (x :: r)) by now rewrite E.
      assert (H' : s' = write _ s handle position (firstn (S n) (x :: r)) /\ p' = Fetch _ handle (position + length (firstn (S n) (x :: r)))).
      { cbv zeta in H. injection H as <- <-. auto. } destruct H' as [-> ->]. clear H. remember (firstn (S n) (x :: r)) as chunk eqn:EC.
      split; [|split].
      * unfold alone. split; [auto|]. split; [auto|]. split; [auto|]. split; [auto|]. split; [|lia]. cbn. destruct (Nat.eq_dec handle handle); [|congruence]. rewrite S5, <- Ch.
        destruct (firstn_chunk position (S n) (archive (name c))) as [G|G]; [exact G|lia].
      * intros q _ Q. eapply write_other; eauto.
      * cbn [left_over]. lia.
  - destruct S as (S1 & S2 & S3 & S4). rewrite Hd, S4, (parse_whole _ _ _ _ _ F) in H. injection H as <- <-. split; [|split; [intros q _ _; reflexivity|cbn; lia]].
    unfold alone. split; [auto|]. split; [auto|]. split; [auto|]. split; [|auto]. unfold read in S4. destruct (names _ s (file c Archive)); [discriminate|discriminate].
  - destruct S as (S1 & S2 & S3 & S4 & ->). rewrite S2 in H. destruct (open_w _ s (file c Pkz)) as [s1 h] eqn:E. injection H as <- <-.
    destruct (open_spec _ _ _ _ _ O E) as (_ & _ & _ & _ & _ & _ & Dr & Nm & Em & U). split; [|split].
    + unfold alone. split; [auto|]. split; [auto|]. split; [auto|]. split; [exact Em|]. split; [lia|]. destruct (U (file c Archive) AP) as [U1 _]. now rewrite U1.
    + intros q Q _. apply U, Q.
    + cbn. lia.
  - destruct S as (S1 & -> & S3 & S4 & S5 & S6). destruct (skipn position (dump (truth (name c)))) as [|x r] eqn:E.
    + injection H as <- <-. split; [|split; [intros q _ _; reflexivity|cbn; lia]]. unfold alone. split; [auto|]. split; [auto|]. split; [|auto]. unfold read. rewrite S3. cbn [option_map]. rewrite S4.
      assert (L : length (skipn position (dump (truth (name c)))) = 0) by now rewrite E. rewrite skipn_length in L. now rewrite firstn_all2 by lia.
    + assert (LL : 0 < length (firstn (S n) (x :: r)) <= length (dump (truth (name c))) - position).
      { rewrite <- skipn_length, E, firstn_length. cbn [length]. lia. }
      assert (Ch : firstn (S n) (skipn position (dump (truth (name c)))) = firstn (S n) (x :: r)) by now rewrite E.
      assert (H' : s' = write _ s handle position (firstn (S n) (x :: r)) /\ p' = Dump _ (truth (name c)) handle (position + length (firstn (S n) (x :: r)))).
      { cbv zeta in H. injection H as <- <-. auto. } destruct H' as [-> ->]. clear H. remember (firstn (S n) (x :: r)) as chunk eqn:EC.
      split; [|split].
      * unfold alone. split; [auto|]. split; [auto|]. split; [auto|]. split; [|split; [lia|auto]]. cbn. destruct (Nat.eq_dec handle handle); [|congruence]. rewrite S4, <- Ch.
        destruct (firstn_chunk position (S n) (dump (truth (name c)))) as [G|G]; [exact G|lia].
      * intros q Q _. eapply write_other; eauto.
      * cbn [left_over]. lia.
  - destruct S as (S1 & -> & S3 & S4). destruct (names _ s (file c Archive)) as [i|] eqn:E; [|congruence]. injection H as <- <-. split; [|split; [|cbn; lia]].
    + unfold alone. split; [auto|]. split; [|intros _; cbn [set_name names]; destruct (path_dec (file c Archive) (file c Archive)); congruence].
      unfold read in *. cbn [set_name names data]. destruct (path_dec (file c Pkz) (file c Archive)); [congruence|exact S3].
    + intros q _ Q. unfold read. cbn [set_name names data]. destruct (path_dec q (file c Archive)); [congruence|reflexivity].
  - injection H as <- <-. split; [exact S|]. split; [intros q _ _; reflexivity|cbn; lia].
Qed.
Lemma run_alone fresh c d i : home c = Absolute d -> (fresh = true -> download_if_missing c = true) -> forall ns tag s p, inv tag s -> nth_error (procs _ s) i = Some (c, p) ->
  alone fresh c s p -> left_over c p <= length ns ->
  let s' := run s (map (Step i) ns) in
  nth_error (procs _ s') i = Some (c, Returned _ (truth (name c))) /\ alone fresh c s' (Returned _ (truth (name c))) /\ others c s s'.
Proof.
  intros Hd Dl. induction ns as [|n ns IH]; intros tag s p V E S L s'.
  - cbn in L. destruct p; cbn [left_over] in L; try (exfalso; lia); try destruct S as [-> S]; try contradiction. split; [exact E|]. split; [split; [reflexivity|exact S]|]. intros q _ _. reflexivity.
  - subst s'. cbn [map DatasetModel.run fold_left]. destruct (step_inv tag s (Step i n) V) as (tag' & V' & _).
    destruct (exec s c p n) as [s1 p1] eqn:X. destruct V as [O P]. destruct (exec_alone tag fresh c d s p n s1 p1 O Hd Dl S X) as (S1 & U & L1).
    destruct (exec_inv tag s c p n s1 p1 O (P _ _ (nth_error_In _ _ E)) X) as (_ & _ & _ & _ & Pr).
    assert (ES : step s (Step i n) = set_proc _ s1 i (c, p1)) by (cbn [DatasetModel.step]; rewrite E, X; reflexivity).
    rewrite ES in *. destruct (IH tag' (set_proc _ s1 i (c, p1)) p1 V') as (R1 & R2 & R3).
    + rewrite nth_set_proc, Pr, E. destruct (Nat.eq_dec i i); congruence.
    + exact S1.
    + cbn [length] in L. lia.
    + split; [exact R1|]. split; [exact R2|]. intros q Q1 Q2. transitivity (read _ (set_proc _ s1 i (c, p1)) q); [now apply R3|]. change (read _ s1 q = read _ s q). now apply U.
Qed.

(** * A relative directory *)
Definition astray (p : pc table) : Prop := match p with Start _ | Check _ | Connect _ | Fetch _ _ _ | Parse _ | Raised _ _ | Killed _ => True | _ => False end.
Definition no_cache (s : state) : Prop := (forall d n, names _ s (Path (Relative d) n Pkz) = None) /\ forall c d p, In (c, p) (procs _ s) -> home c = Relative d -> astray p.
Lemma step_no_cache s e : no_cache s -> no_cache (step s e).
Proof.
  intros [N R]. destruct e as [c|i n|i|i|d]; cbn [DatasetModel.step].
  - split; [exact N|]. cbn. intros c' d p I'. apply in_app_iff in I'. destruct I' as [I'|[I'|[]]]; [exact (R _ _ _ I')|]. injection I' as <- <-. intros _. exact I.
  - destruct (nth_error (procs _ s) i) as [[c p]|] eqn:E; [|split; auto]. apply nth_error_In in E. destruct (exec s c p n) as [s' p'] eqn:X.
    assert (OPEN : forall q s1 h, (forall d m, q <> Path (Relative d) m Pkz) -> open_w _ s q = (s1, h) -> (forall d m, names _ s1 (Path (Relative d) m Pkz) = None) /\ procs _ s1 = procs _ s).
    { intros q s1 h Q Eo. unfold open_w in Eo. destruct (names _ s q) eqn:En; injection Eo as <- _; cbn [set_data set_name names procs]; (split; [|reflexivity]); intros d m; [apply N|].
      destruct (path_dec (Path (Relative d) m Pkz) q) as [EQ|]; [exfalso; apply (Q d m); now symmetry|apply N]. }
    assert (G : (forall d m, names _ s' (Path (Relative d) m Pkz) = None) /\ procs _ s' = procs _ s /\ forall d, home c = Relative d -> astray p').
    { assert (Rp := fun d => R c d p E). destruct p; cbn [DatasetModel.exec] in X.
      - injection X as <- <-. split; [exact N|]. split; [reflexivity|]. intros; exact I.
      - destruct (names _ s (file c Pkz)) eqn:En; injection X as <- <-; (split; [exact N|split; [reflexivity|]]); intros d Hd.
        + unfold file in En. rewrite Hd, N in En. discriminate.
        + destruct (download_if_missing c); exact I.
      - injection X as <- <-. split; [exact N|]. split; [reflexivity|]. intros d Hd. destruct (Rp d Hd).
      - destruct (dirs _ s (home c)); [|injection X as <- <-; split; [exact N|split; [reflexivity|intros; exact I]]]. destruct (open_w _ s (file c Archive)) as [s1 h] eqn:Eo. injection X as <- <-.
        destruct (OPEN (file c Archive) s1 h ltac:(intros d m E0; discriminate E0) Eo) as [O1 O2]. split; [exact O1|]. split; [exact O2|]. intros; exact I.
      - destruct (skipn position (archive (name c))); injection X as <- <-; (split; [exact N|split; [reflexivity|intros; exact I]]).
      - destruct (home c) eqn:Hc; injection X as <- <-; (split; [exact N|split; [reflexivity|]]); [intros; discriminate|intros; exact I].
      - destruct (dirs _ s (home c)); [|injection X as <- <-; split; [exact N|split; [reflexivity|intros; exact I]]]. destruct (open_w _ s (file c Pkz)) as [s1 h] eqn:Eo. injection X as <- <-.
        destruct (home c) as [a|r] eqn:Hc; [|destruct (Rp r eq_refl)]. destruct (OPEN (file c Pkz) s1 h ltac:(intros d m E0; unfold file in E0; rewrite Hc in E0; discriminate E0) Eo) as [O1 O2]. split; [exact O1|]. split; [exact O2|]. intros; discriminate.
      - destruct (skipn position (dump t)); injection X as <- <-; (split; [exact N|split; [reflexivity|]]); intros d Hd; destruct (Rp d Hd).
      - destruct (names _ s (file c Archive)); injection X as <- <-; (split; [|split; [reflexivity|intros d Hd; destruct (Rp d Hd)]]); [|exact N].
        intros d m. cbn [set_name names]. destruct (path_dec (Path (Relative d) m Pkz) (file c Archive)); [reflexivity|apply N].
      - injection X as <- <-. split; [exact N|]. split; [reflexivity|]. exact Rp.
      - injection X as <- <-. split; [exact N|]. split; [reflexivity|]. exact Rp.
      - injection X as <- <-. split; [exact N|]. split; [reflexivity|]. exact Rp. }
    destruct G as (G1 & G2 & G3). split; [exact G1|]. cbn. rewrite G2. intros c' d q I'. apply in_set_nth in I'. destruct I' as [I'|I']; [injection I' as -> ->; apply G3|exact (R _ _ _ I')].
  - destruct (nth_error (procs _ s) i) as [[c p]|]; [|split; auto]. destruct (live _ p); [|split; auto]. split; [exact N|]. cbn. intros c' d q I'. apply in_set_nth in I'. destruct I' as [I'|I']; [injection I' as -> ->; intros; exact I|exact (R _ _ _ I')].
  - destruct (nth_error (procs _ s) i) as [[c p]|]; [|split; auto]. destruct (live _ p); [|split; auto]. split; [exact N|]. cbn. intros c' d q I'. apply in_set_nth in I'. destruct I' as [I'|I']; [injection I' as -> ->; intros; exact I|exact (R _ _ _ I')].
  - split; [|exact R]. cbn [names in_dir]. intros r m. destruct (dir_dec (Relative r) d); [reflexivity|apply N].
Qed.
End Proofs.

(** * C85 *)
(** Whatever calls run at the same time, wherever they are interrupted, a call that returns gives the remote table. *)
Theorem C85_correct {table} truth archive parse dump load es c t : @formats table truth archive parse dump load ->
  In (c, Returned _ t) (procs _ (run _ archive parse dump load (init _) es)) -> t = truth (name c).
Proof.
  intros F H. destruct (run_inv truth archive parse dump load F es _ _ (init_inv truth archive dump)) as (tag & _ & P). exact (P _ _ H).
Qed.
Print Assumptions C85_correct.

(** After any history, a call on an absolute directory with nothing cached, or a whole file cached, that then runs alone without
    failure returns the table.  The whole file is then cached, the archive is removed if it was downloaded, and no other file has
    changed. *)
Theorem C85_returns {table} truth archive parse dump load es c d ns : @formats table truth archive parse dump load ->
  let s := run _ archive parse dump load (init _) es in
  home c = Absolute d ->
  (names _ s (file c Pkz) = None /\ download_if_missing c = true \/ read _ s (file c Pkz) = Some (dump (truth (name c)))) ->
  length (archive (name c)) + length (dump (truth (name c))) + 8 <= length ns ->
  let i := length (procs _ s) in
  let s' := run _ archive parse dump load s (Begin c :: map (Step i) ns) in
  nth_error (procs _ s') i = Some (c, Returned _ (truth (name c))) /\
  read _ s' (file c Pkz) = Some (dump (truth (name c))) /\
  (names _ s (file c Pkz) = None -> read _ s' (file c Archive) = None) /\
  (forall p, p <> file c Pkz -> p <> file c Archive -> read _ s' p = read _ s p).
Proof.
  intros F s Hd Hc L i s'. destruct (run_inv truth archive parse dump load F es _ _ (init_inv truth archive dump)) as (tag & V). fold s in V.
  destruct (step_inv truth archive parse dump load F tag s (Begin c) V) as (tag' & V' & _).
  set (s1 := step _ archive parse dump load s (Begin c)) in *.
  assert (E : nth_error (procs _ s1) i = Some (c, Start _)) by (cbn; unfold i; rewrite nth_error_app2 by lia; now rewrite Nat.sub_diag).
  set (fresh := match names _ s (file c Pkz) with None => true | Some _ => false end).
  assert (A : alone truth archive dump fresh c s1 (Start _)).
  { unfold alone, fresh. unfold read in Hc. destruct (names _ s (file c Pkz)) eqn:En.
    - destruct Hc as [[Hc _]|Hc]; [discriminate|]. unfold read. cbn [s1 DatasetModel.step names data]. unfold s1. cbn [DatasetModel.step names data]. rewrite En. exact Hc.
    - exact En. }
  assert (Dl : fresh = true -> download_if_missing c = true).
  { unfold fresh. unfold read in Hc. destruct (names _ s (file c Pkz)); [discriminate|]. intros _. destruct Hc as [[_ Hc]|Hc]; [exact Hc|discriminate]. }
  destruct (run_alone truth archive parse dump load F fresh c d i Hd Dl ns tag' s1 (Start _) V' E A) as (R1 & (_ & R2 & R3) & R4).
  { cbn [left_over]. exact L. }
  split; [exact R1|]. split; [exact R2|]. split.
  - intros En. assert (Ff : fresh = true) by (unfold fresh; now rewrite En). specialize (R3 Ff). unfold read. unfold s'. cbn [DatasetModel.run fold_left]. change (DatasetModel.run _ archive parse dump load s1 (map (Step i) ns)) with (fold_left (DatasetModel.step _ archive parse dump load) (map (Step i) ns) s1) in R3. fold s1. now rewrite R3.
  - intros p Q1 Q2. exact (R4 p Q1 Q2).
Qed.
Print Assumptions C85_returns.
(** In particular, clearing the directory always restores the service. *)
Theorem C85_recovers {table} truth archive parse dump load es c d ns : @formats table truth archive parse dump load ->
  home c = Absolute d -> download_if_missing c = true -> length (archive (name c)) + length (dump (truth (name c))) + 8 <= length ns ->
  let s := run _ archive parse dump load (init _) (es ++ [Clear (home c)]) in
  nth_error (procs _ (run _ archive parse dump load s (Begin c :: map (Step (length (procs _ s))) ns))) (length (procs _ s)) = Some (c, Returned _ (truth (name c))).
Proof.
  intros F Hd Dl L s. apply (C85_returns truth archive parse dump load (es ++ [Clear (home c)]) c d ns F Hd); [|exact L].
  left. split; [|exact Dl]. unfold run. rewrite fold_left_app. cbn [fold_left DatasetModel.step names file in_dir]. destruct (dir_dec (home c) (home c)); congruence.
Qed.
Print Assumptions C85_recovers.

(** Once the whole file is cached and nobody is writing it, a call returns in three steps whatever the other calls do and fail to do, and
    whether or not it may download, as long as the directory is not cleared. *)
Theorem C85_cached {table} truth archive parse dump load es c es' c' : @formats table truth archive parse dump load ->
  let s := run _ archive parse dump load (init _) es in
  read _ s (file c Pkz) = Some (dump (truth (name c))) ->
  (forall c0 p, In (c0, p) (procs _ s) -> same c c0 -> reading p) ->
  same c c' -> keeps (home c) es' ->
  let j := length (procs _ s) in
  spared j es' -> 3 <= steps_of j es' ->
  nth_error (procs _ (run _ archive parse dump load s (Begin c' :: es'))) j = Some (c', Returned _ (truth (name c))).
Proof.
  intros F s R Q Sc K j Sp St. destruct (run_inv truth archive parse dump load F es _ _ (init_inv truth archive dump)) as (tag & V). fold s in V.
  unfold read in R. destruct (names _ s (file c Pkz)) as [i|] eqn:En; [|discriminate]. injection R as R.
  assert (S : settled c i (dump (truth (name c))) s) by (split; [exact En|split; [exact R|exact Q]]).
  destruct (step_inv truth archive parse dump load F tag s (Begin c') V) as (tag' & V' & _).
  assert (S' := step_settled truth archive parse dump load F tag c i _ s (Begin c') V S ltac:(discriminate)).
  apply (run_cached truth archive parse dump load F c i (dump (truth (name c))) (truth (name c)) j c' es' tag' _ (Start _)); auto.
  - exact (load_whole _ _ _ _ _ F (name c)).
  - cbn. unfold j. rewrite nth_error_app2 by lia. now rewrite Nat.sub_diag.
  - exact I.
Qed.
Print Assumptions C85_cached.

(** With download_if_missing=False and nothing cached, OSError, and no file has changed. *)
Theorem C85_missing {table} archive parse dump load (s : state table) c n m : names _ s (file c Pkz) = None -> download_if_missing c = false ->
  let i := length (procs _ s) in
  let s' := run _ archive parse dump load s [Begin c; Step i n; Step i m] in
  nth_error (procs _ s') i = Some (c, Raised _ Missing) /\ forall p, read _ s' p = read _ s p.
Proof.
  intros N Dl i s'. assert (E : s' = State _ (fun x => if dir_dec x (home c) then true else dirs _ s x) (names _ s) (data _ s) (next _ s) (procs _ s ++ [(c, Raised _ Missing)])).
  { assert (ST : forall (l : list (call * pc table)) x y, set_nth (l ++ [x]) (length l) y = l ++ [y]) by (induction l as [|a l IH]; intros; cbn; [reflexivity|now rewrite IH]).
    assert (NT : forall (l : list (call * pc table)) x, nth_error (l ++ [x]) (length l) = Some x) by (intros; rewrite nth_error_app2 by lia; now rewrite Nat.sub_diag).
    unfold s', run, i. cbn [fold_left DatasetModel.step procs]. rewrite NT. cbn [exec]. unfold set_proc, set_dir. cbn [procs dirs names data next]. rewrite ST, NT.
    unfold exec. cbn [procs dirs names data next]. rewrite N, Dl. cbn [procs dirs names data next]. now rewrite ST. }
  rewrite E. cbn [procs]. split; [unfold i; rewrite nth_error_app2 by lia; now rewrite Nat.sub_diag|]. intros p. reflexivity.
Qed.
Print Assumptions C85_missing.

(** Finding: the cache is written in place.  When a call is killed (or fails) while the file is incomplete, every later call raises: none
    returns the table again, with or without a network, until the directory is cleared. *)
Theorem C85_crash_refuted {table} truth archive parse dump load es i c t h pos b stop es' : @formats table truth archive parse dump load ->
  let s := run _ archive parse dump load (init _) es in
  nth_error (procs _ s) i = Some (c, Dump _ t h pos) ->
  (forall j c0 p, j <> i -> nth_error (procs _ s) j = Some (c0, p) -> same c c0 -> reading p) ->
  read _ s (file c Pkz) = Some b -> load b = None ->
  stop = Kill i \/ stop = Fault i -> keeps (home c) es' ->
  forall j c' t', same c c' -> nth_error (procs _ (run _ archive parse dump load s (stop :: es'))) j = Some (c', Returned _ t') ->
  nth_error (procs _ s) j = Some (c', Returned _ t').
Proof.
  intros F s E Q R L St K j c' t' Sc H. destruct (run_inv truth archive parse dump load F es _ _ (init_inv truth archive dump)) as (tag & V). fold s in V.
  unfold read in R. destruct (names _ s (file c Pkz)) as [k|] eqn:En; [|discriminate]. injection R as R.
  set (s1 := step _ archive parse dump load s stop).
  assert (X : exists p, reading p /\ (forall u, p <> Returned _ u) /\ s1 = set_proc _ s i (c, p)).
  { unfold s1. destruct St as [-> | ->]; cbn [DatasetModel.step]; rewrite E; cbn [live]; [exists (Killed _)|exists (Raised _ Environment)]; (split; [exact I|split; [discriminate|reflexivity]]). }
  destruct X as (p & X1 & X0 & X2). destruct (step_inv truth archive parse dump load F tag s stop V) as (tag' & V' & _). fold s1 in V'.
  assert (S1 : settled c k b s1).
  { rewrite X2. split; [exact En|]. split; [exact R|]. intros c0 q Hq Sq. apply In_nth_error in Hq. destruct Hq as [m Hq]. rewrite nth_set_proc, E in Hq.
    destruct (Nat.eq_dec i m) as [->|N]; [injection Hq as <- <-; exact X1|]. apply (Q m c0 q); auto. }
  assert (H1 := run_poisoned truth archive parse dump load F c k b j c' t' es' tag' s1 V' S1 L K Sc H). rewrite X2, nth_set_proc, E in H1.
  destruct (Nat.eq_dec i j); [|exact H1]. injection H1 as _ H1. destruct (X0 _ H1).
Qed.
Print Assumptions C85_crash_refuted.

(** Finding: with a relative data_home where nothing is cached, no call ever returns: the archive is downloaded, then looked for in the
    package. *)
Theorem C85_relative_refuted {table} archive parse dump load es c d t : home c = Relative d ->
  ~ In (c, Returned _ t) (procs _ (run table archive parse dump load (init _) es)).
Proof.
  intros Hd H. assert (G : forall es s, no_cache s -> no_cache (run table archive parse dump load s es)).
  { induction es0 as [|e es0 IH]; intros s N; [exact N|]. apply IH. now apply step_no_cache. }
  assert (N : no_cache (init table)) by (split; cbn; [reflexivity|intros ? ? ? []]). destruct (G es _ N) as [_ R]. exact (R _ _ _ H Hd).
Qed.
Print Assumptions C85_relative_refuted.

(** formats for the examples: one byte for the table and one for the end *)
Definition example_archive (d : nat) : list nat := [7; S d].
Definition example_parse (b : list nat) : option nat := match b with [7; S d] => Some d | _ => None end.
Definition example_dump (t : nat) : list nat := [S t; 9].
Definition example_load (b : list nat) : option nat := match b with [S t; 9] => Some t | _ => None end.
Lemma example_formats : formats (fun d => d) example_archive example_parse example_dump example_load.
Proof.
  split; try reflexivity.
  - intros d b t [L D] H. destruct b as [|x [|y [|z b]]]; try (cbn in H; repeat (destruct x as [|x]; try discriminate); discriminate); [|cbn in L; lia].
    assert (Dx := D 0 ltac:(cbn; lia)). assert (Dy := D 1 ltac:(cbn; lia)). cbn in Dx, Dy. destruct Dx as [-> | ->]; [|discriminate]. destruct Dy as [-> | ->]; [|discriminate]. cbn in H. congruence.
  - intros d b t [L D] H. destruct b as [|x [|y [|z b]]]; try (cbn in H; destruct x; discriminate); [discriminate| |cbn in L; lia].
    assert (Dx := D 0 ltac:(cbn; lia)). assert (Dy := D 1 ltac:(cbn; lia)). cbn in Dx, Dy. destruct Dx as [-> | ->]; [|discriminate]. destruct Dy as [-> | ->]; cbn in H; [congruence|discriminate].
Qed.
(** Finding: two calls at the same time, nothing failing: the second one finds the incomplete file and raises. *)
Theorem C85_concurrent_refuted : exists (truth : nat -> nat) archive parse dump load c es,
  formats truth archive parse dump load /\
  (forall e, In e es -> exists i n, e = Begin c \/ e = Step i n) /\
  let s := run _ archive parse dump load (init _) es in
  nth_error (procs _ s) 0 = Some (c, Returned _ (truth (name c))) /\ nth_error (procs _ s) 1 = Some (c, Raised _ Corrupt).
Proof.
  exists (fun d => d), example_archive, example_parse, example_dump, example_load, (Call (Absolute 0) 3 true),
    ([Begin (Call (Absolute 0) 3 true); Begin (Call (Absolute 0) 3 true)] ++ map (Step 0) [0; 0; 0; 0; 0; 0; 0; 0; 0] ++ map (Step 1) [0; 0; 0] ++ map (Step 0) [0; 0; 0]).
  split; [apply example_formats|]. split; [|split; reflexivity]. cbn [app map In]. intros e H. repeat (destruct H as [<-|H]; [try (exists 0, 0; now left); eexists; eexists; right; reflexivity|]). destruct H.
Qed.
Print Assumptions C85_concurrent_refuted.

(** a call killed after the first byte of the cache, another one that raises, then the directory is cleared and a call returns *)
Example C85_applies :
  let R := run _ example_archive example_parse example_dump example_load in
  let c := Call (Absolute 0) 3 true in
  let s := R (init _) (Begin c :: map (Step 0) [0; 0; 0; 0; 0; 0; 0; 0; 0]) in
  nth_error (procs _ s) 0 = Some (c, Dump _ 3 1 1) /\ read _ s (file c Pkz) = Some [4] /\ example_load [4] = None /\
  (let s1 := R s (Kill 0 :: Begin c :: map (Step 1) [0; 0; 0]) in nth_error (procs _ s1) 1 = Some (c, Raised _ Corrupt) /\
   let s2 := R s1 (Clear (Absolute 0) :: Begin c :: map (Step 2) (repeat 5 12)) in nth_error (procs _ s2) 2 = Some (c, Returned _ 3) /\ read _ s2 (file c Pkz) = Some [4; 9] /\ read _ s2 (file c Archive) = None /\
   nth_error (procs _ (R s2 (Begin (Call (Absolute 0) 3 false) :: map (Step 3) [0; 0; 0]))) 3 = Some (Call (Absolute 0) 3 false, Returned _ 3)).
Proof. cbv zeta. repeat split; reflexivity. Qed.
