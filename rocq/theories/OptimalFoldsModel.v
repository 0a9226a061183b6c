(** Model of optimal_folds_number, _avg_train_size
    (src/skfolio/model_selection/_combinatorial.py 456-564) and of the training
    size reported by CombinatorialPurgedCV.summary (318-337).  No proofs here.
    Simplification: floats are rational numbers, without rounding. *)
From Coq Require Import List Arith QArith Qabs Qround.
From Verif Require Import CombinatorialModel.
Import ListNotations.

Definition Qn (n : nat) : Q := inject_Z (Z.of_nat n).

(** _avg_train_size, 456-475 *)
Definition avg_train_size (n_observations n_folds n_test_folds : nat) : Q :=
  (Qn n_observations / Qn n_folds * (Qn n_folds - Qn n_test_folds))%Q.

(** "Average Training Size" of summary, 318-337: int() of a non-negative float *)
Definition summary_train_size (n_observations n_folds n_test_folds : nat) : Z :=
  Qfloor (avg_train_size n_observations n_folds n_test_folds).

Section Search.
Variables (n_observations : nat) (target_train_size target_n_test_paths : Q)
          (weight_train_size weight_n_test_paths : Q).

(** _cost, 534-549 *)
Definition cost (x y : nat) : Q :=
  (weight_n_test_paths * Qabs (Qn (n_test_paths x y) - target_n_test_paths) / target_n_test_paths
   + weight_train_size * Qabs (avg_train_size n_observations x y - target_train_size) / target_train_size)%Q.

(** the inner loop, 554-561, from the state [i] on the remaining values of n_test_folds *)
Fixpoint inner (n_folds : nat) (ks : list nat) (i : option nat) : list (nat * nat) :=
  match ks with
  | [] => []
  | n_test_folds :: r =>
      if match i with None => true | Some i => n_folds - n_test_folds <=? i end
      then (n_folds, n_test_folds)
             :: inner n_folds r (match i with
                                 | None => if Qle_bool (cost n_folds n_test_folds) 100000 then None else Some n_test_folds
                                 | Some _ => i
                                 end)
      else inner n_folds r i
  end.

(** res, 551-561 *)
Definition res : list (nat * nat) :=
  flat_map (fun n_folds => inner n_folds (seq 2 (n_folds - 2)) None) (seq 3 (n_observations - 2)).

(** np.argmin(costs), 563: the first index of the smallest cost *)
Fixpoint argmin (best : nat * nat) (l : list (nat * nat)) : nat * nat :=
  match l with
  | [] => best
  | c :: r => argmin (if Qle_bool (cost (fst best) (snd best)) (cost (fst c) (snd c)) then best else c) r
  end.

(** optimal_folds_number; [None] is the ValueError of np.argmin of an empty list *)
Definition optimal_folds_number : option (nat * nat) :=
  match res with
  | [] => None
  | c :: r => Some (argmin c r)
  end.
End Search.
