(** Specification of linear-constraint strings, written independently of the parser:
    abstract syntax, what it means, and how it is written down. *)
From Coq Require Import Ascii String Bool ZArith Reals List.
From Verif Require Import EquationsModel.
Import ListNotations.
Local Open Scope R_scope.

(** what a user writes *)
Inductive term :=
| Const (c : str)            (* 0.5 *)
| Grp (g : str)              (* Equity *)
| NumGrp (c g : str)         (* 0.5 * Equity *)
| GrpNum (g c : str).        (* Equity * 0.5 *)

(** [+|-] term  {(+|-) term}; [true] means minus *)
Record side := { first_sign : option bool; first : term; others : list (bool * term) }.
Inductive cmp := LE | GE | EQ | EQEQ.
Record constr := { lhs : side; op : cmp; rhs : side }.

Section Meaning.
  Variable to_float : str -> option R.     (* what float("...") returns *)
  Variable groups : list (list str).       (* group levels; level k gives the k-th group name of each asset *)
  Variable n : nat.                        (* number of assets *)
  Variable average : bool.                 (* groups stand for the average (Black-Litterman views) or the total *)
  Variable w : nat -> R.                   (* weight of each asset *)

  Definition total (l : list R) : R := fold_right Rplus 0 l.
  Definition members (g : str) : list nat :=
    filter (fun i => existsb (fun level => if list_eq_dec ascii_dec (nth i level []) g then true else false) groups)
           (seq 0 n).
  Definition group_value (g : str) : R :=
    if average then total (map w (members g)) / INR (length (members g)) else total (map w (members g)).
  Definition num (c : str) : R := match to_float c with Some x => x | None => 0 end.

  Definition term_value (t : term) : R :=
    match t with
    | Const c => num c
    | Grp g => group_value g
    | NumGrp c g => num c * group_value g
    | GrpNum g c => num c * group_value g
    end.
  Definition signed (neg : bool) (x : R) : R := if neg then - x else x.
  Definition side_value (s : side) : R :=
    signed (match first_sign s with Some b => b | None => false end) (term_value (first s))
    + total (map (fun p => signed (fst p) (term_value (snd p))) (others s)).
  Definition holds (c : constr) : Prop :=
    match op c with
    | LE => side_value (lhs c) <= side_value (rhs c)
    | GE => side_value (lhs c) >= side_value (rhs c)
    | EQ | EQEQ => side_value (lhs c) = side_value (rhs c)
    end.
End Meaning.

(** how it is written: tokens, each preceded by any number of blanks *)
Definition sign_tok (b : bool) : str := if b then S_ "-" else S_ "+".
Definition term_toks (t : term) : list str :=
  match t with
  | Const c => [c]
  | Grp g => [g]
  | NumGrp c g => [c; S_ "*"; g]
  | GrpNum g c => [g; S_ "*"; c]
  end.
Definition signed_toks (p : bool * term) : list str := sign_tok (fst p) :: term_toks (snd p).
Definition side_toks (s : side) : list str :=
  match first_sign s with
  | Some b => sign_tok b :: term_toks (first s)
  | None => term_toks (first s)
  end ++ flat_map signed_toks (others s).
Definition cmp_tok (o : cmp) : str :=
  match o with LE => S_ "<=" | GE => S_ ">=" | EQ => S_ "=" | EQEQ => S_ "==" end.
Definition constr_toks (c : constr) : list str := side_toks (lhs c) ++ [cmp_tok (op c)] ++ side_toks (rhs c).

Definition blanks (s : str) : Prop := Forall (fun c => c = " "%char \/ c = "009"%char) s.
Inductive written : list str -> str -> Prop :=
| W_end : forall b, blanks b -> written [] b
| W_tok : forall b t ts s, blanks b -> written ts s -> written (t :: ts) (b ++ t ++ s).

(** a name or a number as it can be written: non-empty, none of the operator characters, no line break,
    and its first and last characters are visible ones *)
Definition special (c : ascii) : Prop := In c ["=";"<";">";"+";"-";"*"]%char.
Definition visible (c : ascii) : Prop := (33 <= nat_of_ascii c <= 126)%nat.
Definition word (s : str) : Prop :=
  s <> [] /\ Forall (fun c => ~ special c /\ c <> "010"%char) s
  /\ visible (hd " "%char s) /\ visible (last s " "%char).

Section WellFormed.
  Variable to_float : str -> option R.
  Variable groups : list (list str).
  Definition known (g : str) : Prop := exists level, In level groups /\ In g level.
  Definition numeric (c : str) : Prop := exists x, to_float c = Some x.
  Definition wf_term (t : term) : Prop :=
    match t with
    | Const c => word c /\ numeric c /\ ~ known c
    | Grp g => word g /\ known g
    | NumGrp c g => word c /\ numeric c /\ ~ known c /\ word g /\ known g
    | GrpNum g c => word c /\ numeric c /\ word g /\ known g
    end.
  Definition wf_side (s : side) : Prop := wf_term (first s) /\ Forall (fun p => wf_term (snd p)) (others s).
  Definition wf_constr (c : constr) : Prop := wf_side (lhs c) /\ wf_side (rhs c).
End WellFormed.
Definition n_terms (c : constr) : nat := 2 + length (others (lhs c)) + length (others (rhs c)).

(** a row of a constraint matrix applied to the weights of the [n] assets *)
Definition rowdot (n : nat) (row : list R) (w : nat -> R) : R := total (map (fun i => nth i row 0 * w i) (seq 0 n)).

Definition rows_hold (n : nat) (m : matrices) (w : nat -> R) : Prop :=
  Forall2 (fun row b => rowdot n row w = b) (a_eq m) (b_eq m)
  /\ Forall2 (fun row b => rowdot n row w <= b) (a_ineq m) (b_ineq m).

(** no group name appears in two levels *)
Definition levels_disjoint (groups : list (list str)) : Prop :=
  ForallOrdPairs (fun l l' => forall e, In e l -> ~ In e l') groups.

(** strings read as tokens separated by white space (any ASCII white space) *)
Definition all_spaces (s : str) : Prop := Forall (fun c => is_space c = true) s.
Inductive spaced : list str -> str -> Prop :=
| Sp_end : forall b, all_spaces b -> spaced [] b
| Sp_tok : forall b t ts s, all_spaces b -> spaced ts s -> spaced (t :: ts) (b ++ t ++ s).

(** what the parser needs of a term: numbers are numeric and group names are known *)
Section Recognised.
  Variable to_float : str -> option R.
  Variable groups : list (list str).
  Definition rec_term (t : term) : Prop :=
    match t with
    | Const c => numeric to_float c
    | Grp g => known groups g
    | NumGrp c g => numeric to_float c /\ known groups g
    | GrpNum g c => numeric to_float c /\ known groups g
    end.
  Definition rec_side (s : side) : Prop := rec_term (first s) /\ Forall (fun p => rec_term (snd p)) (others s).
End Recognised.
Definition cmp_side_toks (p : cmp * side) : list str := cmp_tok (fst p) :: side_toks (snd p).
