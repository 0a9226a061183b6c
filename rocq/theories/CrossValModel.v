(** Model of cross_val_predict (src/skfolio/model_selection/_validation.py:38-254) and
    fit_and_predict (src/skfolio/utils/tools.py:618-685).  No proofs here.
    Simplifications: fitting and predicting is an oracle [predict train test] (a clone of the
    estimator is fitted per split, so a prediction depends on nothing else); joblib returns the
    results in submission order; metadata routing, exceptions raised by the estimator and the
    MultiPeriodPortfolio constructor (modelled elsewhere) are left out. *)
From Coq Require Import List Arith ZArith Bool.
Import ListNotations.
From Verif Require Import CombinatorialModel.

Inductive cv_error := ShuffleError | UnorderedError | DuplicateError | IndexErr | EmptyConcat.
Inductive res (A : Type) := Ok (x : A) | Err (e : cv_error).
Arguments Ok {A} x. Arguments Err {A} e.

(** np.all(np.diff(fold) > 0) *)
Fixpoint strictly_increasing (l : list nat) : bool :=
  match l with
  | x :: ((y :: _) as l') => (x <? y) && strictly_increasing l'
  | _ => true
  end.

(** np.unique(a).shape[0] != a.shape[0] negated *)
Fixpoint all_distinct (l : list nat) : bool :=
  match l with [] => true | x :: l' => negb (memn x l') && all_distinct l' end.

(** np.argsort of keys: insertion of (key, index), smallest key first *)
Fixpoint insert_key (e : nat * nat) (l : list (nat * nat)) : list (nat * nat) :=
  match l with
  | [] => [e]
  | x :: l' => if fst e <=? fst x then e :: l else x :: insert_key e l'
  end.
Definition argsort (keys : list nat) : list nat :=
  map snd (fold_right insert_key [] (combine keys (seq 0 (length keys)))).

(** [x[0] for x in test_indices], _validation.py:247; [None]: IndexError *)
Fixpoint heads (l : list (list nat)) : option (list nat) :=
  match l with
  | [] => Some []
  | [] :: _ => None
  | (x :: _) :: l' => option_map (cons x) (heads l')
  end.

Section CVP.
  Variable A : Type.
  Variable predict : list nat -> list nat -> A.

  (** the shuffle check, _validation.py:185-200; [shuffle] is the attribute of the splitter if it
      has one *)
  Definition shuffle_check (shuffle : option bool) (splits : list (list nat * list nat)) : res unit :=
    match shuffle with
    | Some true => Err ShuffleError
    | Some false => Ok tt
    | None =>
        match splits with
        | [] => Err IndexErr
        | (tr, te) :: _ => if strictly_increasing tr && strictly_increasing te then Ok tt else Err UnorderedError
        end
    end.

  (** non-combinatorial branch, _validation.py:236-252: the list of portfolios of the
      MultiPeriodPortfolio *)
  Definition cross_val_predict (shuffle : option bool) (splits : list (list nat * list nat)) : res (list A) :=
    match shuffle_check shuffle splits with
    | Err e => Err e
    | Ok _ =>
        let predictions := map (fun s => predict (fst s) (snd s)) splits in
        match splits with
        | [] => Err EmptyConcat
        | s0 :: _ =>
            if negb (all_distinct (concat (map snd splits))) then Err DuplicateError
            else match heads (map snd splits) with
                 | None => Err IndexErr
                 | Some keys =>
                     Ok (map (fun id => nth id predictions (predict (fst s0) (snd s0))) (argsort keys))
                 end
        end
    end.

  (** combinatorial branch, _validation.py:219-235: predictions are appended to the paths in the
      order of splits, then of test folds *)
  Fixpoint append_at (p : nat) (x : A) (paths : list (list A)) : list (list A) :=
    match paths, p with
    | [], _ => []
    | l :: r, O => (l ++ [x]) :: r
    | l :: r, S p' => l :: append_at p' x r
    end.

  Section Combinatorial.
    Variables K k pu em n : nat.

    Definition path_nb : nat :=
      S (fold_right Nat.max 0
           (flat_map (fun i => map (fun j => match path_id K k i j with Some p => p | None => 0 end) (seq 0 k))
                     (seq 0 (n_splits K k)))).

    Definition collect (splits : list (list nat * list (list nat))) : list (list A) :=
      fold_left
        (fun paths is =>
           let '(i, (tr, tests)) := is in
           fold_left (fun paths jt =>
                        match path_id K k i (fst jt) with
                        | Some p => append_at p (predict tr (snd jt)) paths
                        | None => paths
                        end)
                     (combine (seq 0 (length tests)) tests) paths)
        (combine (seq 0 (length splits)) splits)
        (repeat [] path_nb).

    Definition cross_val_predict_combinatorial : option (list (list A)) :=
      option_map collect (cpcv_split K k pu em n).
  End Combinatorial.
End CVP.
