(** Model of src/skfolio/population/_population.py (class Population, a subclass of list).  No proofs here. *)
From Coq Require Import String List ZArith Bool Arith Reals.
Import ListNotations.
Local Open Scope list_scope.

(** * Content (lines 41-124) *)
(** Any Python value that may be handed to a Population: a Portfolio, a MultiPeriodPortfolio (iterable: its
    parts), or something that is not a portfolio.  The number is the identity of the object. *)
Inductive item := Single (n : nat) | Multi (n : nat) (parts : list nat) | Other (n : nat).

(** _validate_item, lines 113-124 *)
Definition validate_item (x : item) : option item :=
  match x with Single _ | Multi _ _ => Some x | Other _ => None end.

(** list.__init__ / list.extend fed with the generator [self._validate_item(item) for item in l]: items are
    appended one by one; the result is the list reached and whether an exception was raised *)
Fixpoint feed (acc : list item) (l : list item) : list item * bool :=
  match l with
  | [] => (acc, false)
  | x :: l => match validate_item x with Some y => feed (acc ++ [y]) l | None => (acc, true) end
  end.

Fixpoint replace_nth {B} (l : list B) (i : nat) (x : B) : list B :=
  match l, i with
  | [], _ => []
  | _ :: l, O => x :: l
  | y :: l, S i => y :: replace_nth l i x
  end.
(** Python index: negative indices count from the end *)
Definition index (k : Z) (n : nat) : option nat :=
  let k' := if (k <? 0)%Z then (k + Z.of_nat n)%Z else k in
  if ((0 <=? k') && (k' <? Z.of_nat n))%Z then Some (Z.to_nat k') else None.
(** clamped index, as in list.insert and slices *)
Definition clamp (k : Z) (n : nat) : nat :=
  let k' := if (k <? 0)%Z then (k + Z.of_nat n)%Z else k in
  Nat.min n (Z.to_nat k').

(** the populations of a program, numbered by creation *)
Inductive op :=
| Init (l : list item)                          (* Population(l) *)
| SetItem (i : nat) (k : Z) (x : item)          (* p[k] = x *)
| SetSlice (i : nat) (a b : Z) (x : item)       (* p[a:b] = x *)
| Append (i : nat) (x : item)
| Insert (i : nat) (k : Z) (x : item)
| Extend (i : nat) (l : list item)              (* p.extend(l), l not a Population *)
| ExtendPop (i j : nat)                         (* p.extend(q), q a Population *)
| Add (i j : nat)                               (* p + q, a new Population *)
| AddOther (i : nat)                            (* p + x, x not a Population *)
| Slice (i : nat) (a b : Z)                     (* p[a:b], a new Population *)
| Delete (i : nat) (k : Z)                      (* del p[k], p.pop(k) *)
| Reverse (i : nat)
| Clear (i : nat)
| IMul (i : nat) (n : nat)                      (* p *= n *)
| IAdd (i : nat) (l : list item).               (* p += l: list.__iadd__, not overridden *)

Definition state := list (list item).
Definition delete_nth {B} (l : list B) (k : nat) : list B := firstn k l ++ skipn (S k) l.
(** one operation; the boolean is true when it raises *)
Definition step (st : state) (o : op) : state * bool :=
  let on i (f : list item -> list item * bool) :=
    match nth_error st i with
    | None => (st, true)
    | Some l => let (l', e) := f l in (replace_nth st i l', e)
    end in
  match o with
  (* __init__, lines 41-42: an object whose constructor raises is not created *)
  | Init l => let (l', e) := feed [] l in if e then (st, true) else (st ++ [l'], false)
  (* __setitem__, lines 55-56 *)
  | SetItem i k x => on i (fun l => match validate_item x with
                                    | None => (l, true)
                                    | Some x => match index k (length l) with None => (l, true) | Some k => (replace_nth l k x, false) end
                                    end)
  | SetSlice i a b x => on i (fun l => match validate_item x with
                                       | Some (Multi _ parts) =>
                                           let a := clamp a (length l) in let b := Nat.max a (clamp b (length l)) in
                                           (firstn a l ++ map Single parts ++ skipn b l, false)
                                       | _ => (l, true)       (* not iterable *)
                                       end)
  (* append, lines 69-71 *)
  | Append i x => on i (fun l => match validate_item x with None => (l, true) | Some x => (l ++ [x], false) end)
  (* insert, lines 65-67 *)
  | Insert i k x => on i (fun l => match validate_item x with
                                   | None => (l, true)
                                   | Some x => let k := clamp k (length l) in (firstn k l ++ x :: skipn k l, false)
                                   end)
  (* extend, lines 73-78 *)
  | Extend i new => on i (fun l => feed l new)
  | ExtendPop i j => match nth_error st j with None => (st, true) | Some new => on i (fun l => (l ++ new, false)) end
  (* __add__, lines 58-63 *)
  | Add i j => match nth_error st i, nth_error st j with
               | Some a, Some b => let (l', e) := feed [] (a ++ b) in if e then (st, true) else (st ++ [l'], false)
               | _, _ => (st, true)
               end
  | AddOther i => (st, true)
  (* __getitem__, lines 47-53 *)
  | Slice i a b => match nth_error st i with
                   | None => (st, true)
                   | Some l => let a := clamp a (length l) in let b := clamp b (length l) in
                               let (l', e) := feed [] (firstn (b - a) (skipn a l)) in if e then (st, true) else (st ++ [l'], false)
                   end
  (* inherited from list *)
  | Delete i k => on i (fun l => match index k (length l) with None => (l, true) | Some k => (delete_nth l k, false) end)
  | Reverse i => on i (fun l => (rev l, false))
  | Clear i => on i (fun l => ([], false))
  | IMul i n => on i (fun l => (concat (repeat l n), false))
  | IAdd i new => on i (fun l => (l ++ new, false))
  end.
Fixpoint run (st : state) (ops : list op) : state :=
  match ops with [] => st | o :: ops => run (fst (step st o)) ops end.

(** * Selection (lines 161-345) *)
Section Select.
  Variable T : Type.                      (* a portfolio *)
  Variable name : T -> string.
  Variable tag : T -> option string.      (* tag may be None *)
  Variable key : T -> R.                  (* the measure; nan is not modelled *)

  Inductive names_arg := NoName | OneName (s : string) | Names (l : list string).
  Definition as_list (a : names_arg) : option (list string) :=
    match a with NoName => None | OneName s => Some [s] | Names l => Some l end.
  Definition mem (s : string) (l : list string) : bool := existsb (String.eqb s) l.
  Definition mem_tag (s : option string) (l : list string) : bool := match s with None => false | Some s => mem s l end.
  (** filter, lines 161-201 *)
  Definition filter_population (pop : list T) (names tags : names_arg) : list T :=
    match as_list names, as_list tags with
    | None, None => pop
    | Some ns, None => filter (fun p => mem (name p) ns) pop
    | None, Some ts => filter (fun p => mem_tag (tag p) ts) pop
    | Some ns, Some ts => filter (fun p => mem (name p) ns && mem_tag (tag p) ts) pop
    end.

  (** Python's sorted(key=...): stable; the algorithm (timsort) is replaced by a stable insertion sort *)
  Fixpoint insert_sorted (x : T) (l : list T) : list T :=
    match l with
    | [] => [x]
    | y :: l' => if Rle_dec (key x) (key y) then x :: l else y :: insert_sorted x l'
    end.
  Definition sorted (l : list T) : list T := fold_right insert_sorted [] l.
  (** sort_measure, lines 260-282; sorted(reverse=True) reverses, sorts, and reverses (it keeps the order of
      equal elements) *)
  Definition sort_measure (pop : list T) (reverse : bool) : list T :=
    if reverse then rev (sorted (rev pop)) else sorted pop.

  (** np.round: half to even *)
  Definition round_half_even (x : R) : Z :=
    let k := Int_part x in
    if Rlt_dec (frac_part x) (/ 2) then k
    else if Rlt_dec (/ 2) (frac_part x) then (k + 1)%Z
    else if Z.even k then k else (k + 1)%Z.
  (** quantile, lines 284-309; None: an exception (ValueError, or IndexError on an empty population) *)
  Definition quantile (pop : list T) (q : R) : option T :=
    if Rle_dec 0 q then
      if Rle_dec q 1 then
        let sorted_portfolios := sort_measure pop false in
        let k := Z.max 0 (round_half_even (INR (length sorted_portfolios) * q) - 1) in
        nth_error sorted_portfolios (Z.to_nat k)
      else None
    else None.
  (** lines 311-345 *)
  Definition min_measure (pop : list T) : option T := quantile pop 0.
  Definition max_measure (pop : list T) : option T := quantile pop 1.
End Select.
