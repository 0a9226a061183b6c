(** Model of src/skfolio/utils/sorting.py (whole file) and of
    BasePortfolio.dominates, src/skfolio/portfolio/_base.py:786-811.
    No proofs in this file. *)
From Coq Require Import List Arith ZArith QArith Bool.
Import ListNotations.
Open Scope nat_scope.

(** One fitness value: an IEEE double seen up to its order.  Finite values are
    rationals; only comparisons are used by the modelled code, so rounding is
    irrelevant. *)
Inductive fnum : Type :=
| FNaN
| FNegInf
| FFin (q : Q)
| FPosInf.

(** Python's [x < y] on floats (IEEE comparison: false as soon as one side is NaN). *)
Definition fltb (x y : fnum) : bool :=
  match x, y with
  | FNaN, _ => false
  | _, FNaN => false
  | FNegInf, FNegInf => false
  | FNegInf, _ => true
  | _, FNegInf => false
  | FFin p, FFin q => match Qcompare p q with Lt => true | _ => false end
  | FFin _, FPosInf => true
  | FPosInf, _ => false
  end.

(** utils/sorting.py:12-40 [dominate].  The loop over zip(..., strict=True) with
    the accumulator [not_equal]; [None] is the ValueError that zip raises when it
    reaches the end of the shorter array. *)
Fixpoint dominate_loop (a b : list fnum) (not_equal : bool) : option bool :=
  match a, b with
  | [], [] => Some not_equal
  | x :: a', y :: b' =>
      if fltb y x then dominate_loop a' b' true
      else if fltb x y then Some false
      else dominate_loop a' b' not_equal
  | _, _ => None
  end.

Definition dominate (a b : list fnum) : option bool := dominate_loop a b false.

(** Boolean use of [dominate] in an [if]; the rows come from one 2-D ndarray and
    have equal lengths, so the [None] branch is not reachable there. *)
Definition dominateb (a b : list fnum) : bool :=
  match dominate a b with Some r => r | None => false end.

(** portfolio/_base.py:786-811 [BasePortfolio.dominates(other, idx)], with [idx]
    a list of positions (slice(None) = all positions); numpy fancy indexing raises
    IndexError when a position is out of range ([None]). *)
Fixpoint fancy (f : list fnum) (idx : list nat) : option (list fnum) :=
  match idx with
  | [] => Some []
  | i :: idx' =>
      match nth_error f i, fancy f idx' with
      | Some x, Some r => Some (x :: r)
      | _, _ => None
      end
  end.

Definition portfolio_dominates (self other : list fnum) (idx : option (list nat))
  : option bool :=
  match idx with
  | None => dominate self other
  | Some ix =>
      match fancy self ix, fancy other ix with
      | Some a, Some b => dominate a b
      | _, _ => None
      end
  end.

(** Python lists indexed by 0..n-1 are represented by functions on [nat];
    [upd] is item assignment. *)
Definition upd {A} (f : nat -> A) (i : nat) (v : A) : nat -> A :=
  fun k => if Nat.eqb k i then v else f k.

(** State of the first double loop: [is_dominating] (sorting.py:74),
    [n_dominated] (sorting.py:77). *)
Record build := { isdom : nat -> list nat; ndom : nat -> Z }.

Section Sort.
  Variable F : list (list fnum).   (* fitnesses *)

  Definition row (i : nat) : list fnum := nth i F [].
  Definition dom (i j : nat) : bool := dominateb (row i) (row j).

  (** Body of the inner loop, sorting.py:82-88. *)
  Definition pair_step (i : nat) (s : build) (j : nat) : build :=
    if dom i j then
      {| isdom := upd (isdom s) i (isdom s i ++ [j]);
         ndom := upd (ndom s) j (ndom s j + 1)%Z |}
    else if dom j i then
      {| isdom := upd (isdom s) j (isdom s j ++ [i]);
         ndom := upd (ndom s) i (ndom s i + 1)%Z |}
    else s.

  (** Body of the outer loop, sorting.py:81-93: returns the new state and
      current_front. *)
  Definition outer_step (n : nat) (s : build * list nat) (i : nat) : build * list nat :=
    let b := fold_left (pair_step i) (seq (i + 1) (n - (i + 1))) (fst s) in
    (b, if Z.eqb (ndom b i) 0 then snd s ++ [i] else snd s).

  Definition build_init : build := {| isdom := fun _ => []; ndom := fun _ => 0%Z |}.

  Definition first_phase (n : nat) : build * list nat :=
    fold_left (outer_step n) (seq 0 n) (build_init, []).

  (** Body of the innermost loop of the peeling phase, sorting.py:107-112. *)
  Definition dec_step (s : (nat -> Z) * list nat) (j : nat) : (nat -> Z) * list nat :=
    let nd := upd (fst s) j (fst s j - 1)%Z in
    (nd, if Z.eqb (nd j) 0 then snd s ++ [j] else snd s).

  (** One pass of the while body, sorting.py:102-112: for i in current_front,
      for j in is_dominating[i]. *)
  Definition peel (isd : nat -> list nat) (cur : list nat) (nd : nat -> Z)
    : (nat -> Z) * list nat :=
    fold_left (fun s i => fold_left dec_step (isd i) s) cur (nd, []).

  (** while n_ranked < n, sorting.py:101-115; [None] = still running after
      [fuel] iterations. *)
  Fixpoint peel_loop (fuel n : nat) (isd : nat -> list nat) (cur : list nat)
           (nd : nat -> Z) (n_ranked : nat) (fronts : list (list nat))
    : option (list (list nat)) :=
    if n_ranked <? n then
      match fuel with
      | O => None
      | S fuel' =>
          let r := peel isd cur nd in
          peel_loop fuel' n isd (snd r) (fst r) (n_ranked + length (snd r))
                    (fronts ++ [snd r])
      end
    else Some fronts.

  (** sorting.py:43-117 [non_denominated_sort]. *)
  Definition non_denominated_sort (fuel : nat) (first_front_only : bool)
    : option (list (list nat)) :=
    let n := length F in
    if n =? 0 then Some []
    else
      let r := first_phase n in
      let fronts := [snd r] in
      if first_front_only then Some fronts
      else peel_loop fuel n (isdom (fst r)) (snd r) (ndom (fst r)) (length (snd r)) fronts.
End Sort.
