(** C08-C10: linear-constraint strings. *)
From Coq Require Import Ascii String Bool ZArith Reals Lra Lia List.
From Verif Require Import EquationsModel EquationsSpec EquationsProofs.
Import ListNotations.
Local Open Scope R_scope.

(** One constraint: however it is spaced, the parsed row holds exactly when the written constraint holds. *)
Theorem C08_constraint_string_meaning :
  forall (to_float : str -> option R) (groups : list (list str)) (n : nat) (average : bool) (c : constr) (s : str),
    Forall (fun level => length level = n) groups ->
    wf_constr to_float groups c -> (Z.of_nat (n_terms c) < 1000000)%Z -> written (constr_toks c) s ->
    exists row b,
      string_to_equation to_float groups n average s
        = EOk (row, b, match op c with LE | GE => true | EQ | EQEQ => false end)
      /\ length row = n
      /\ forall w : nat -> R,
          (match op c with LE | GE => rowdot n row w <= b | EQ | EQEQ => rowdot n row w = b end)
          <-> holds to_float groups n average w c.
Proof.
  intros tf groups n av c s Hs Hw Hn Hwr.
  destruct (string_constr tf groups n av Hs c s Hw Hn Hwr) as (row&b&E&L&V).
  exists row, b. split; [exact E|]. split; [exact L|]. intros w. specialize (V w). unfold holds.
  destruct (op c); split; intros H; lra.
Qed.
Print Assumptions C08_constraint_string_meaning.

Lemma rows_hold_app n m w l b (q : bool) :
  rows_hold n (if q then {| a_eq := a_eq m; b_eq := b_eq m; a_ineq := a_ineq m ++ [l]; b_ineq := b_ineq m ++ [b] |}
               else {| a_eq := a_eq m ++ [l]; b_eq := b_eq m ++ [b]; a_ineq := a_ineq m; b_ineq := b_ineq m |}) w
  <-> rows_hold n m w /\ (if q then rowdot n l w <= b else rowdot n l w = b).
Proof.
  assert (A: forall (P : list R -> R -> Prop) x y, Forall2 P (x ++ [l]) (y ++ [b]) <-> Forall2 P x y /\ P l b).
  { intros P x y. split.
    - intros H. apply Forall2_app_inv_l in H. destruct H as (y1&y2&H1&H2&E).
      inversion H2 as [|? b' ? ? Hp H3]; subst. inversion H3; subst.
      apply app_inj_tail in E. destruct E; subst. auto.
    - intros [H1 H2]. apply Forall2_app; auto. }
  destruct q; unfold rows_hold; cbn; rewrite A; tauto.
Qed.

(** The whole matrix: the returned equalities and inequalities hold together exactly when all written
    constraints do. *)
Theorem C08_matrix_meaning :
  forall (to_float : str -> option R) (groups : list (list str)) (n : nat) (average raise_missing : bool)
         (cs : list constr) (strings : list str),
    Forall (fun level => length level = n) groups -> levels_disjoint groups ->
    Forall (wf_constr to_float groups) cs -> Forall (fun c => (Z.of_nat (n_terms c) < 1000000)%Z) cs ->
    Forall2 (fun c s => written (constr_toks c) s) cs strings ->
    exists m, equations_to_matrix to_float groups n strings average raise_missing = EOk m
      /\ Forall (fun row => length row = n) (a_eq m) /\ Forall (fun row => length row = n) (a_ineq m)
      /\ forall w, rows_hold n m w <-> Forall (holds to_float groups n average w) cs.
Proof.
  intros tf groups n av rm cs strings Hs Hd Hw Hn HF. unfold equations_to_matrix, validate_groups.
  rewrite (proj2 (validate_groups_spec groups) Hd).
  set (m0 := {| a_eq := []; b_eq := []; a_ineq := []; b_ineq := [] |}).
  assert (G: forall m, Forall (fun row => length row = n) (a_eq m) -> Forall (fun row => length row = n) (a_ineq m) ->
    exists m', fold_left (fun acc s => match acc with
           | EErr x => EErr x
           | EOk m =>
               match string_to_equation tf groups n av s with
               | EOk (l, r, true) => EOk {| a_eq := a_eq m; b_eq := b_eq m; a_ineq := a_ineq m ++ [l]; b_ineq := b_ineq m ++ [r] |}
               | EOk (l, r, false) => EOk {| a_eq := a_eq m ++ [l]; b_eq := b_eq m ++ [r]; a_ineq := a_ineq m; b_ineq := b_ineq m |}
               | EErr GroupNotFound => if rm then EErr GroupNotFound else EOk m
               | EErr x => EErr x
               end end) strings (EOk m) = EOk m'
     /\ Forall (fun row => length row = n) (a_eq m') /\ Forall (fun row => length row = n) (a_ineq m')
     /\ forall w, rows_hold n m' w <-> rows_hold n m w /\ Forall (holds tf groups n av w) cs).
  { induction HF as [|c s cs strings Hcs HF IH]; intros m L1 L2.
    - exists m. split; [reflexivity|]. split; [auto|]. split; [auto|]. intros w; split; [intros H; split; [exact H|constructor]|intros [H _]; exact H].
    - inversion Hw as [|? ? Hw1 Hw2]; subst. inversion Hn as [|? ? Hn1 Hn2]; subst.
      destruct (C08_constraint_string_meaning tf groups n av c s Hs Hw1 Hn1 Hcs) as (row&b&E&L&V).
      cbn [fold_left]. rewrite E.
      set (q := match op c with LE | GE => true | _ => false end) in *.
      pose proof (rows_hold_app n m) as RA.
      destruct (IH Hw2 Hn2 (if q then {| a_eq := a_eq m; b_eq := b_eq m; a_ineq := a_ineq m ++ [row]; b_ineq := b_ineq m ++ [b] |}
               else {| a_eq := a_eq m ++ [row]; b_eq := b_eq m ++ [b]; a_ineq := a_ineq m; b_ineq := b_ineq m |}))
        as (m'&Em&L1'&L2'&Hm').
      { destruct q; cbn; auto. apply Forall_app; auto. }
      { destruct q; cbn; auto. apply Forall_app; auto. }
      exists m'. split; [destruct q; exact Em|]. split; [auto|]. split; [auto|].
      intros w. rewrite Hm', RA. specialize (V w).
      assert (Hq: (if q then rowdot n row w <= b else rowdot n row w = b) <-> holds tf groups n av w c).
      { rewrite <- V. unfold q. destruct (op c); tauto. }
      rewrite Hq. split.
      + intros [[A B] C]. split; auto.
      + intros [A B]. inversion B; subst. auto. }
  destruct (G m0) as (m&Em&L1&L2&Hm); [constructor|constructor|].
  exists m. split; [exact Em|]. split; [auto|]. split; [auto|]. intros w. rewrite Hm.
  split; [tauto|]. intros H. split; auto. split; constructor.
Qed.
Print Assumptions C08_matrix_meaning.

(** a group name in two levels is refused *)
Theorem C08_duplicate_levels_rejected :
  forall to_float groups n strings average raise_missing,
    ~ levels_disjoint groups ->
    equations_to_matrix to_float groups n strings average raise_missing = EErr DuplicateGroups.
Proof.
  intros. unfold equations_to_matrix, validate_groups. destruct (validate_groups_from groups) eqn:E; auto.
  apply validate_groups_spec in E. contradiction.
Qed.
Print Assumptions C08_duplicate_levels_rejected.

(** non-vacuity: "2 * Equity + SPX>= -0.5*Bond +1" over three assets *)
Definition ex_float (s : str) : option R :=
  if str_eqb s (S_ "2") then Some 2 else if str_eqb s (S_ "0.5") then Some (1/2)
  else if str_eqb s (S_ "1") then Some 1 else None.
Definition ex_groups : list (list str) :=
  [ [S_ "SPX"; S_ "SX5E"; S_ "TLT"]; [S_ "Equity"; S_ "Equity"; S_ "Bond"] ].
Definition ex_constr : constr :=
  {| lhs := {| first_sign := None; first := NumGrp (S_ "2") (S_ "Equity"); others := [(false, Grp (S_ "SPX"))] |};
     op := GE;
     rhs := {| first_sign := Some true; first := NumGrp (S_ "0.5") (S_ "Bond"); others := [(false, Const (S_ "1"))] |} |}.
Definition ex_string : str := S_ "2 * Equity + SPX>= -0.5*Bond +1 ".

Lemma ex_word s : In s [S_ "2"; S_ "0.5"; S_ "1"; S_ "Equity"; S_ "SPX"; S_ "Bond"] -> word s.
Proof.
  intros H. simpl in H.
  repeat (destruct H as [<-|H];
    [ split; [discriminate|]; split;
      [ repeat (apply Forall_cons; [split; [unfold special; simpl; intuition discriminate|intros E; vm_compute in E; discriminate]|]); apply Forall_nil
      | split; vm_compute; lia ] |]).
  destruct H.
Qed.
Ltac ex_known := exists (nth 0 ex_groups []) + exists (nth 1 ex_groups []); simpl; now auto.
Ltac ex_unknown := intros (l&Hl&Hi); simpl in Hl; destruct Hl as [<-|[<-|[]]]; simpl in Hi; intuition discriminate.

Example C08_example :
  Forall (fun level => length level = 3%nat) ex_groups /\ levels_disjoint ex_groups
  /\ wf_constr ex_float ex_groups ex_constr /\ written (constr_toks ex_constr) ex_string.
Proof.
  split; [repeat constructor|]. split.
  { apply validate_groups_spec. vm_compute. reflexivity. }
  split.
  { split; (split; [|apply Forall_cons; [|apply Forall_nil]]); cbn [lhs rhs ex_constr first others wf_term snd].
    - split; [apply ex_word; simpl; auto 10|]. split; [eexists; reflexivity|]. split; [ex_unknown|].
      split; [apply ex_word; simpl; auto 10|]. exists (nth 1 ex_groups []); simpl; auto.
    - split; [apply ex_word; simpl; auto 10|]. exists (nth 0 ex_groups []); simpl; auto.
    - split; [apply ex_word; simpl; auto 10|]. split; [eexists; reflexivity|]. split; [ex_unknown|].
      split; [apply ex_word; simpl; auto 10|]. exists (nth 1 ex_groups []); simpl; auto.
    - split; [apply ex_word; simpl; auto 10|]. split; [eexists; reflexivity|]. ex_unknown. }
  assert (B0: blanks []) by constructor.
  assert (B1: blanks [" "%char]) by (repeat constructor).
  unfold ex_string. cbn.
  refine (W_tok [] (S_ "2") _ _ B0 (W_tok [" "%char] (S_ "*") _ _ B1 (W_tok [" "%char] (S_ "Equity") _ _ B1
    (W_tok [" "%char] (S_ "+") _ _ B1 (W_tok [" "%char] (S_ "SPX") _ _ B1 (W_tok [] (S_ ">=") _ _ B0
    (W_tok [" "%char] (S_ "-") _ _ B1 (W_tok [] (S_ "0.5") _ _ B0 (W_tok [] (S_ "*") _ _ B0 (W_tok [] (S_ "Bond") _ _ B0
    (W_tok [" "%char] (S_ "+") _ _ B1 (W_tok [] (S_ "1") _ _ B0 (W_end [" "%char] B1))))))))))))).
Qed.

(** The same exponent notation that float() accepts is not a number here: "3e-5" is cut at '-'. *)
Theorem C08_exponent_notation_refuted :
  exists (to_float : str -> option R) groups n s,
    to_float (S_ "3e-5") = Some (3 / 100000) /\ to_float (S_ "3e") = None /\ to_float (S_ "5") = Some 5
    /\ s = S_ "a <= 3e-5" /\ known groups (S_ "a")
    /\ equations_to_matrix to_float groups n [s] false false
       = EOk {| a_eq := []; b_eq := []; a_ineq := []; b_ineq := [] |}.
Proof.
  exists (fun s => if str_eqb s (S_ "3e-5") then Some (3/100000) else if str_eqb s (S_ "5") then Some 5 else None).
  exists [[S_ "a"]], 1%nat, (S_ "a <= 3e-5"). repeat split.
  exists [S_ "a"]; simpl; auto.
Qed.
Print Assumptions C08_exponent_notation_refuted.

(** A coefficient in front of an unknown group raises even when missing groups should only warn. *)
Theorem C08_missing_group_warns_refuted :
  exists (to_float : str -> option R) groups n,
    to_float (S_ "2") = Some 2 /\ to_float (S_ "1") = Some 1 /\ to_float (S_ "b") = None
    /\ equations_to_matrix to_float groups n [S_ "b <= 1"] false false
       = EOk {| a_eq := []; b_eq := []; a_ineq := []; b_ineq := [] |}
    /\ equations_to_matrix to_float groups n [S_ "2 * b <= 1"] false false = EErr EqToMatrix.
Proof.
  exists (fun s => if str_eqb s (S_ "2") then Some 2 else if str_eqb s (S_ "1") then Some 1 else None).
  exists [[S_ "a"]], 1%nat. repeat split.
Qed.
Print Assumptions C08_missing_group_warns_refuted.

(** * C09 *)
Theorem C09_no_comparison_rejected :
  forall to_float groups n average s, ~ In "="%char s -> string_to_equation to_float groups n average s = EErr EqToMatrix.
Proof.
  intros tf groups n av s H. unfold string_to_equation, split_equation_string.
  destruct (has_comparison s) eqn:E; auto. exfalso. apply H.
  destruct s as [|c s]; [discriminate|]. cbn [has_comparison] in E. destruct (ceq c newline); [discriminate|].
  right. apply eq_before_newline_In. exact E.
Qed.
Print Assumptions C09_no_comparison_rejected.

Theorem C09_strict_comparison_rejected :
  forall to_float groups n average pre post,
    (match post with c :: _ => c <> "="%char | [] => True end) ->
    (match rev pre with c :: _ => c <> ">"%char | [] => True end) ->
    string_to_equation to_float groups n average (pre ++ "<"%char :: post) = EErr EqToMatrix.
Proof.
  intros tf groups n av pre post H1 H2. unfold string_to_equation, split_equation_string.
  destruct (has_comparison _); auto. cbn [negb].
  rewrite (invalid_lt _ None None pre post eq_refl H1); auto.
  destruct (rev pre); auto. discriminate.
Qed.
Print Assumptions C09_strict_comparison_rejected.

(** Whatever is accepted reads, token by token, as  side? (comparison side)+  with numeric numbers and
    known group names. *)
Theorem C09_accepted_is_grammatical :
  forall to_float groups n average s x,
    (forall e, In e [S_ "<="; S_ ">="; S_ "="; S_ "=="; S_ "+"; S_ "-"; S_ "*"] -> to_float e = None /\ ~ known groups e) ->
    string_to_equation to_float groups n average s = EOk x ->
    exists (l : option side) (cs : list (cmp * side)),
      spaced (match l with Some sd => side_toks sd | None => [] end ++ flat_map cmp_side_toks cs) s
      /\ cs <> []
      /\ match l with Some sd => rec_side to_float groups sd | None => True end
      /\ Forall (fun p => rec_side to_float groups (snd p)) cs.
Proof.
  intros tf groups n av s x Hops H. unfold string_to_equation in H.
  destruct (split_equation_string s) as [toks|] eqn:E; [|discriminate].
  destruct (split_equation_accept _ _ E) as (Hsp&Hadj&_).
  assert (Hin: forall e, is_op e = true -> In e [S_ "<="; S_ ">="; S_ "="; S_ "=="; S_ "+"; S_ "-"; S_ "*"]).
  { intros e He. unfold is_op, is_non_mul, is_comp_op, is_sub_add, is_mul in He.
    rewrite !orb_true_iff, !mem_str_In in He. simpl in *. tauto. }
  destruct (parse_accept tf groups n av) with (toks := toks) (x := x) as (l&cs&Et&Hne&Hl&Hcs); auto.
  - intros e He. apply (Hops e (Hin e He)).
  - intros e He. destruct (is_group groups e) eqn:Eg; auto. apply is_group_known in Eg.
    destruct (Hops e (Hin e He)). contradiction.
  - exists l, cs. rewrite <- Et. auto.
Qed.
Print Assumptions C09_accepted_is_grammatical.

Definition ex_float2 (s : str) : option R :=
  if str_eqb s (S_ "0.1") then Some (1/10) else if str_eqb s (S_ "0.5") then Some (1/2) else None.

(** Two comparison operators are accepted: "0.1 <= a <= 0.5" becomes  -a <= 0.4, i.e. it bounds nothing
    above, and the weight a = 0.9 satisfies it. *)
Theorem C09_chained_comparison_rejected_refuted :
  exists to_float groups n row b,
    to_float (S_ "0.1") = Some (1/10) /\ to_float (S_ "0.5") = Some (1/2)
    /\ string_to_equation to_float groups n false (S_ "0.1 <= a <= 0.5") = EOk (row, b, true)
    /\ rowdot n row (fun _ => 9/10) <= b.
Proof.
  exists ex_float2, [[S_ "a"]], 1%nat.
  exists [(0 + 1 * -1 * (1 / 1)) * 1], ((0 + 1/10 * (1 * 1) + 1/2 * (1 * -1)) * - (1)).
  split; [reflexivity|]. split; [reflexivity|]. split; [reflexivity|].
  unfold rowdot, total. cbn. lra.
Qed.
Print Assumptions C09_chained_comparison_rejected_refuted.

Theorem C09_missing_left_side_rejected_refuted :
  exists to_float groups n row b,
    to_float (S_ "0.5") = Some (1/2)
    /\ string_to_equation to_float groups n false (S_ "<= 0.5") = EOk (row, b, true).
Proof. exists ex_float2, [[S_ "a"]], 1%nat. do 2 eexists. split; reflexivity. Qed.
Print Assumptions C09_missing_left_side_rejected_refuted.

(** An unfinished product is not rejected with EquationToMatrixError but crashes with TypeError. *)
Theorem C09_unfinished_product_refuted :
  exists to_float groups n, string_to_equation to_float groups n false (S_ "0.5 <= a *") = EErr TypeErr.
Proof. exists ex_float2, [[S_ "a"]], 1%nat. reflexivity. Qed.
Print Assumptions C09_unfinished_product_refuted.

Example C09_example :
  exists x, string_to_equation ex_float2 [[S_ "a"]] 1 false (S_ "a<=0.5") = EOk x.
Proof. eexists. reflexivity. Qed.

(** * C10 *)
(** one row per entry, its coefficients the indicator of the group, its bound the cardinality *)
Theorem C10_group_cardinalities :
  forall groups n (cards : list (str * Z)) raise_missing,
    Forall (fun level => length level = n) groups -> levels_disjoint groups ->
    Forall (fun gc => known groups (fst gc)) cards ->
    exists a, group_cardinalities_to_matrix groups n cards raise_missing = EOk (a, map snd cards)
      /\ Forall2 (fun gc row => length row = n
            /\ forall i, (i < n)%nat ->
                 (In i (members groups n (fst gc)) -> nth i row 0 = 1)
                 /\ (~ In i (members groups n (fst gc)) -> nth i row 0 = 0)) cards a.
Proof.
  intros groups n cards rm Hs Hd Hk. unfold group_cardinalities_to_matrix, validate_groups.
  rewrite (proj2 (validate_groups_spec groups) Hd).
  assert (Hrow: forall g, known groups g -> exists arr, matching_array groups n false g = EOk arr /\ length arr = n
            /\ forall i, (i < n)%nat -> (In i (members groups n g) -> nth i arr 0 = 1)
                 /\ (~ In i (members groups n g) -> nth i arr 0 = 0)).
  { intros g Hg. destruct (matching_known groups n false Hs g Hg) as (arr&E&L&_). exists arr. split; auto. split; auto.
    intros i Hi. unfold matching_array in E. destruct (existsb _ _); [|discriminate]. cbn [negb] in E.
    injection E as Ea. rewrite <- Ea.
    assert (En: nth i (map (fun b => b2r b / 1) (map (match_at groups g) (seq 0 n))) 0 = b2r (match_at groups g i) / 1).
    { rewrite nth_indep with (d' := b2r (match_at groups g 0) / 1) by (rewrite !map_length, seq_length; exact Hi).
      rewrite map_map, (map_nth (fun x => b2r (match_at groups g x) / 1)), seq_nth by exact Hi. reflexivity. }
    rewrite En. clear En Ea.
    assert (Hiff: In i (members groups n g) <-> match_at groups g i = true).
    { unfold members. rewrite filter_In, in_seq. split; [tauto|]. intros H; split; [lia|exact H]. }
    unfold b2r.
    split; intros H; destruct (match_at groups g i) eqn:E.
    - lra.
    - exfalso. apply Hiff in H. congruence.
    - exfalso. apply H. apply Hiff. reflexivity.
    - lra. }
  set (F := fun (acc : eres (list (list R) * list Z)) (gc : str * Z) => match acc with
           | EErr x => EErr x
           | EOk (a, b) =>
               match matching_array groups n false (fst gc) with
               | EOk arr => EOk (a ++ [arr], b ++ [snd gc])
               | EErr GroupNotFound => if rm then EErr GroupNotFound else EOk (a, b)
               | EErr x => EErr x
               end end).
  assert (G: forall a0 b0, exists a, fold_left F cards (EOk (a0, b0)) = EOk (a0 ++ a, b0 ++ map snd cards)
      /\ Forall2 (fun gc row => length row = n
            /\ forall i, (i < n)%nat ->
                 (In i (members groups n (fst gc)) -> nth i row 0 = 1)
                 /\ (~ In i (members groups n (fst gc)) -> nth i row 0 = 0)) cards a).
  { induction Hk as [|gc cards Hg Hk IH]; intros a0 b0.
    - exists []. cbn. rewrite !app_nil_r. split; [reflexivity|constructor].
    - destruct (Hrow _ Hg) as (arr&E&L&Hi). cbn [fold_left]. unfold F at 2. rewrite E.
      destruct (IH (a0 ++ [arr]) (b0 ++ [snd gc])) as (a&Ea&HF).
      exists (arr :: a). rewrite Ea, <- !app_assoc. split; [reflexivity|]. constructor; auto. }
  destruct (G [] []) as (a&E&HF). exists a. split; [exact E|exact HF].
Qed.
Print Assumptions C10_group_cardinalities.

(** raise_if_group_missing=False does not skip an unknown group: the call raises EquationToMatrixError. *)
Theorem C10_missing_group_skipped_refuted :
  exists groups n cards,
    levels_disjoint groups /\ Forall (fun level => length level = n) groups
    /\ group_cardinalities_to_matrix groups n cards false = EErr EqToMatrix.
Proof.
  exists [[S_ "a"]], 1%nat, [(S_ "b", 1%Z)]. split; [repeat constructor|]. split; [repeat constructor|]. reflexivity.
Qed.
Print Assumptions C10_missing_group_skipped_refuted.

Example C10_example :
  Forall (fun level => length level = 3%nat) ex_groups /\ levels_disjoint ex_groups
  /\ Forall (fun gc : str * Z => known ex_groups (fst gc)) [(S_ "Equity", 1%Z); (S_ "Bond", 1%Z)].
Proof.
  split; [repeat constructor|]. split; [apply C08_example|].
  repeat constructor; exists (nth 1 ex_groups []); simpl; auto.
Qed.
