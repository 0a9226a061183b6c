(** Model of src/skfolio/utils/equations.py.  No proofs here.
    Strings are lists of ASCII characters (Unicode is not modelled).  [float(.)] on a token is an
    oracle [to_float]; the numeric results are real numbers. *)
From Coq Require Import Ascii String Bool ZArith Reals List.
Import ListNotations.
Local Open Scope R_scope.

Definition str := list ascii.
Definition S_ (s : string) : str := list_ascii_of_string s.

Inductive eq_error := EqToMatrix | GroupNotFound | TypeErr | RecursionErr | DuplicateGroups.
Inductive eres (A : Type) := EOk (x : A) | EErr (e : eq_error).
Arguments EOk {A} x. Arguments EErr {A} e.

Definition str_eqb (a b : str) : bool := if list_eq_dec ascii_dec a b then true else false.
Definition mem_str (a : str) (l : list str) : bool := existsb (str_eqb a) l.

(** operator tables, equations.py:21-29 *)
Definition le_op : str := S_ "<=".
Definition ge_op : str := S_ ">=".
Definition eq1_op : str := S_ "=".
Definition eq2_op : str := S_ "==".
Definition minus_op : str := S_ "-".
Definition plus_op : str := S_ "+".
Definition mul_op : str := S_ "*".
Definition is_ineq_op (e : str) : bool := mem_str e [ge_op; le_op].
Definition is_comp_op (e : str) : bool := mem_str e [eq2_op; eq1_op; ge_op; le_op].
Definition is_sub_add (e : str) : bool := mem_str e [minus_op; plus_op].
Definition is_mul (e : str) : bool := mem_str e [mul_op].
Definition is_non_mul (e : str) : bool := is_comp_op e || is_sub_add e.
Definition is_op (e : str) : bool := is_non_mul e || is_mul e.
Definition comp_sign (e : str) : R := if str_eqb e ge_op then -1 else 1.
Definition sub_add_sign (e : str) : R := if str_eqb e minus_op then -1 else 1.

Definition ceq (a b : ascii) : bool := if ascii_dec a b then true else false.
Definition newline : ascii := ascii_of_nat 10.

(** re.match("(?=.+\==|.+\=|.+\>=|.+\<=)", string), lines 349-350: an '=' preceded by at least one
    character and by no newline ('.' does not match a newline) *)
Fixpoint eq_before_newline (s : str) : bool :=
  match s with
  | [] => false
  | c :: s' => if ceq c "="%char then true else if ceq c newline then false else eq_before_newline s'
  end.
Definition has_comparison (s : str) : bool :=
  match s with
  | [] => false
  | c :: s' => if ceq c newline then false else eq_before_newline s'
  end.

(** re.findall(r"(?<!<)(?<!<=)>(?!=)|(?<!>)<(?!=)", string) is non-empty, lines 357-358.
    [p1] is the previous character, [p2] the one before *)
Definition opt_is (o : option ascii) (c : ascii) : bool := match o with Some x => ceq x c | None => false end.
Fixpoint invalid_comparison (p2 p1 : option ascii) (s : str) : bool :=
  match s with
  | [] => false
  | c :: s' =>
      let next_eq := match s' with c' :: _ => ceq c' "="%char | [] => false end in
      (ceq c ">"%char && negb (opt_is p1 "<"%char) && negb (opt_is p2 "<"%char && opt_is p1 "="%char) && negb next_eq)
      || (ceq c "<"%char && negb (opt_is p1 ">"%char) && negb next_eq)
      || invalid_comparison p1 (Some c) s'
  end.

(** re.split on the alternation of the operators in reverse sorted order (ge, eq-eq, eq, le, minus, plus,
    times), lines 367-369: texts between operators and the operators, in order *)
Fixpoint split_ops (cur : str) (s : str) : list str :=
  match s with
  | [] => [cur]
  | c :: s' =>
      if ceq c "-"%char || ceq c "+"%char || ceq c "*"%char then cur :: [c] :: split_ops [] s'
      else match s' with
           | c2 :: s'' =>
               if (ceq c ">"%char || ceq c "="%char || ceq c "<"%char) && ceq c2 "="%char
               then cur :: [c; c2] :: split_ops [] s''
               else if ceq c "="%char then cur :: [c] :: split_ops [] s'
               else split_ops (cur ++ [c]) s'
           | [] => if ceq c "="%char then cur :: [c] :: split_ops [] s' else split_ops (cur ++ [c]) s'
           end
  end.

(** str.strip() on ASCII: tab, newline, \v, \f, \r, 0x1c-0x1f, space *)
Definition is_space (c : ascii) : bool :=
  let n := nat_of_ascii c in
  (Nat.leb 9 n && Nat.leb n 13) || (Nat.leb 28 n && Nat.leb n 32).
Fixpoint lstrip (s : str) : str := match s with c :: s' => if is_space c then lstrip s' else s | [] => [] end.
Definition strip (s : str) : str := rev (lstrip (rev (lstrip s))).

Definition nonempty (s : str) : bool := match s with [] => false | _ => true end.

(** _split_equation_string, lines 347-371 *)
Definition split_equation_string (s : str) : eres (list str) :=
  if negb (has_comparison s) then EErr EqToMatrix
  else if invalid_comparison None None s then EErr EqToMatrix
  else EOk (filter nonempty (map strip (split_ops [] s))).

(** group matrices: one list of names per level, each of length n_assets *)
Definition groups_t := list (list str).

(** _validate_groups, lines 214-224 (the 2D check is by typing) *)
Fixpoint validate_groups_from (g : groups_t) : bool :=
  match g with
  | [] => true
  | l :: r => forallb (fun e => forallb (fun l' => negb (mem_str e l')) r) l && validate_groups_from r
  end.
Definition validate_groups (g : groups_t) : eres groups_t :=
  if validate_groups_from g then EOk g else EErr DuplicateGroups.

Section Parser.
  Variable to_float : str -> option R.
  Variable groups : groups_t.
  Variable n_assets : nat.
  Variable sum_to_one : bool.

  (** np.any(values == key, axis=0), line 275 *)
  Definition match_at (key : str) (i : nat) : bool :=
    existsb (fun level => str_eqb (nth i level []) key) groups.
  Definition b2r (b : bool) : R := if b then 1 else 0.
  Definition sumR (l : list R) : R := fold_right Rplus 0 l.

  (** _matching_array, lines 253-282 *)
  Definition matching_array (key : str) : eres (list R) :=
    let arr := map (match_at key) (seq 0 n_assets) in
    if negb (existsb (fun b => b) arr) then EErr EqToMatrix
    else let s := if sum_to_one then sumR (map b2r arr) else 1 in
         EOk (map (fun b => b2r b / s) arr).

  Definition is_group (e : str) : bool := existsb (mem_str e) groups.         (* lines 404-407 *)

  Record pstate := { left : list R; right : R; main_sign : R; csign : option R; ineq : option bool }.

  Definition axpy (a : R) (x y : list R) : list R := map (fun p => fst p + a * snd p) (combine y x).

  Definition add_left (st : pstate) (c : R) (arr : list R) : pstate :=
    {| left := axpy c arr (left st); right := right st; main_sign := main_sign st; csign := csign st; ineq := ineq st |}.
  Definition add_right (st : pstate) (c : R) : pstate :=
    {| left := left st; right := right st + c; main_sign := main_sign st; csign := csign st; ineq := ineq st |}.

  (** lines 441-494: parse one operand; [toks] starts at the current token *)
  Definition operand (sign0 : R) (st : pstate) (toks : list str) : eres (pstate * list str) :=
    let sign := sign0 * main_sign st in                                      (* 441 *)
    match toks with
    | [] => EErr EqToMatrix                                                  (* 443-446 *)
    | e :: r =>
        if is_op e then EErr EqToMatrix
        else if is_group e then                                              (* 447 *)
          match matching_array e with
          | EErr x => EErr x
          | EOk arr =>
              match r with
              | [] => EOk (add_left st sign arr, [])                         (* 451-452 *)
              | e2 :: r2 =>
                  if is_non_mul e2 then EOk (add_left st sign arr, r)
                  else if is_mul e2 then                                     (* 453 *)
                    match r2 with
                    | [] => EErr TypeErr                                     (* float(None) *)
                    | e3 :: r3 =>
                        match to_float e3 with
                        | None => EErr GroupNotFound                         (* 458-462 *)
                        | Some x => EOk (add_left st (x * sign) arr, r3)     (* 464-465 *)
                        end
                    end
                  else EErr EqToMatrix                                       (* 466-469 *)
              end
          end
        else
          match to_float e with
          | None => EErr GroupNotFound                                       (* 473-476 *)
          | Some x =>
              match r with
              | [] => EOk (add_right st (x * sign), [])                      (* 489-490 *)
              | e2 :: r2 =>
                  if is_mul e2 then                                          (* 479 *)
                    match r2 with
                    | [] => EErr EqToMatrix                                  (* 482: is_group(None) *)
                    | e3 :: r3 =>
                        if negb (is_group e3) then EErr EqToMatrix           (* 482-485 *)
                        else match matching_array e3 with
                             | EErr x => EErr x
                             | EOk arr => EOk (add_left st (x * sign) arr, r3)
                             end
                    end
                  else if is_non_mul e2 then EOk (add_right st (x * sign), r)
                  else EErr EqToMatrix
              end
          end
    end.

  (** one pass of the loop body, lines 422-494 *)
  Definition parse_step (st : pstate) (toks : list str) : eres (pstate * list str) :=
    match toks with
    | [] => EOk (st, [])
    | e :: r =>
        if is_comp_op e then                                                 (* 423-433 *)
          let st' := {| left := left st; right := right st; main_sign := -1;
                        csign := Some (comp_sign e); ineq := Some (is_ineq_op e) |} in
          match r with
          | s :: r' => if is_sub_add s then operand (sub_add_sign s) st' r' else operand 1 st' r
          | [] => operand 1 st' []
          end
        else if is_sub_add e then operand (sub_add_sign e) st r              (* 434-436 *)
        else if is_mul e then EErr EqToMatrix                                (* 437-440 *)
        else operand 1 st toks
    end.

  (** the while loop, lines 414-494; [i] is the iteration counter (limit 1e6); every pass consumes a
      token, so the length of the token list plus one is enough fuel *)
  Fixpoint parse_loop (fuel : nat) (i : Z) (st : pstate) (toks : list str) : eres pstate :=
    match fuel with
    | O => EErr RecursionErr
    | S fuel =>
        let i := (i + 1)%Z in
        if (1000000 <? i)%Z then EErr RecursionErr
        else match toks with
             | [] => EOk st
             | _ => match parse_step st toks with
                    | EErr x => EErr x
                    | EOk (st', toks') => parse_loop fuel i st' toks'
                    end
             end
    end.

  Definition parse_tokens (toks : list str) : eres (list R * R * bool) :=
    match parse_loop (S (length toks)) 0
            {| left := repeat 0 n_assets; right := 0; main_sign := 1; csign := None; ineq := None |} toks with
    | EErr x => EErr x
    | EOk st =>
        match csign st, ineq st with
        | Some c, Some b => EOk (map (fun x => x * c) (left st), right st * - c, b)     (* 496-499 *)
        | _, _ => EErr TypeErr                                               (* None *= *)
        end
    end.

  (** _string_to_equation, lines 374-499 *)
  Definition string_to_equation (s : str) : eres (list R * R * bool) :=
    match split_equation_string s with
    | EErr x => EErr x
    | EOk toks => parse_tokens toks
    end.
End Parser.

Record matrices := { a_eq : list (list R); b_eq : list R; a_ineq : list (list R); b_ineq : list R }.

(** equations_to_matrix, lines 103-134; a skipped equation only emits a warning.
    The ndim checks are by typing. *)
Definition equations_to_matrix (to_float : str -> option R) (groups : groups_t) (n_assets : nat)
           (equations : list str) (sum_to_one raise_if_group_missing : bool) : eres matrices :=
  match validate_groups groups with
  | EErr x => EErr x
  | EOk groups =>
      fold_left
        (fun acc s =>
           match acc with
           | EErr x => EErr x
           | EOk m =>
               match string_to_equation to_float groups n_assets sum_to_one s with
               | EOk (l, r, true) =>
                   EOk {| a_eq := a_eq m; b_eq := b_eq m; a_ineq := a_ineq m ++ [l]; b_ineq := b_ineq m ++ [r] |}
               | EOk (l, r, false) =>
                   EOk {| a_eq := a_eq m ++ [l]; b_eq := b_eq m ++ [r]; a_ineq := a_ineq m; b_ineq := b_ineq m |}
               | EErr GroupNotFound => if raise_if_group_missing then EErr GroupNotFound else EOk m
               | EErr x => EErr x
               end
           end)
        equations (EOk {| a_eq := []; b_eq := []; a_ineq := []; b_ineq := [] |})
  end.

(** group_cardinalities_to_matrix, lines 137-192.  The dictionary is a list of distinct keys.
    _matching_array raises EquationToMatrixError, which the except clause does not catch. *)
Definition group_cardinalities_to_matrix (groups : groups_t) (n_assets : nat) (cards : list (str * Z))
           (raise_if_group_missing : bool) : eres (list (list R) * list Z) :=
  match validate_groups groups with
  | EErr x => EErr x
  | EOk groups =>
      fold_left
        (fun acc gc =>
           match acc with
           | EErr x => EErr x
           | EOk (a, b) =>
               match matching_array groups n_assets false (fst gc) with
               | EOk arr => EOk (a ++ [arr], b ++ [snd gc])
               | EErr GroupNotFound => if raise_if_group_missing then EErr GroupNotFound else EOk (a, b)
               | EErr x => EErr x
               end
           end)
        cards (EOk ([], []))
  end.
