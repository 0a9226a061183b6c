(** Model of src/skfolio/model_selection/_combinatorial.py: CombinatorialPurgedCV
    and optimal_folds_number.  No proofs in this file. *)
From Coq Require Import List Arith ZArith Bool.
Import ListNotations.

(** itertools.combinations(l, k): lexicographic order of positions
    (_combinatorial.py:211-213). *)
Fixpoint combinations (l : list nat) (k : nat) : list (list nat) :=
  match k with
  | O => [[]]
  | S k' =>
      match l with
      | [] => []
      | x :: l' => map (cons x) (combinations l' k') ++ combinations l' k
      end
  end.

(** math.comb(n, k), used by _n_splits (_combinatorial.py:415-431). *)
Fixpoint comb (n k : nat) : nat :=
  match k, n with
  | O, _ => 1
  | S _, O => 0
  | S k', S n' => comb n' k' + comb n' k
  end.

Definition n_splits (n_folds n_test_folds : nat) : nat := comb n_folds n_test_folds.

(** _combinatorial.py:434-453 *)
Definition n_test_paths (n_folds n_test_folds : nat) : nat :=
  n_splits n_folds n_test_folds * n_test_folds / n_folds.

Definition memn (x : nat) (l : list nat) : bool := existsb (Nat.eqb x) l.

(** numpy reshape(rows, -1) of a flat array whose size is [rows * c]. *)
Fixpoint chunks (rows c : nat) (l : list nat) : list (list nat) :=
  match rows with
  | O => []
  | S r => firstn c l :: chunks r c (skipn c l)
  end.

Section CPCV.
  Variables n_folds n_test_folds purged_size embargo_size : nat.

  (** constructor checks, _combinatorial.py:165-190 (integrality is by typing) *)
  Definition ctor_ok : bool :=
    negb (n_folds <=? 2) && negb (n_test_folds <=? 1) && negb (n_folds <=? n_test_folds).

  (** _combinatorial.py:209-214 *)
  Definition test_set_index : list (list nat) :=
    combinations (seq 0 n_folds) n_test_folds.

  (** _combinatorial.py:216-225 then np.argwhere(. == 1)[:, 1] of 230: the column
      (split) indices of the ones, in row-major (fold, split) order *)
  Definition flat_ones : list nat :=
    flat_map (fun f => filter (fun i => memn f (nth i test_set_index []))
                              (seq 0 (n_splits n_folds n_test_folds)))
             (seq 0 n_folds).

  (** _combinatorial.py:227-232: reshape(n_folds, -1) *)
  Definition recombined_paths : list (list nat) :=
    chunks n_folds (length flat_ones / n_folds) flat_ones.

  (** np.argwhere(recombine_paths == i): (row, column) pairs in row-major order *)
  Definition argwhere_eq (i : nat) : list (nat * nat) :=
    flat_map (fun f =>
        map (fun p => (f, p))
            (filter (fun p => Nat.eqb (nth p (nth f recombined_paths []) (S i)) i)
                    (seq 0 (length (nth f recombined_paths [])))))
      (seq 0 (length recombined_paths)).

  (** get_path_ids, _combinatorial.py:234-241; [None] would be an IndexError *)
  Definition path_id (i j : nat) : option nat := option_map snd (nth_error (argwhere_eq i) j).

  (** ** split, _combinatorial.py:243-316 *)
  Variable n_samples : nat.

  Definition min_fold_size : nat := n_samples / n_folds.

  (** the ValueError of lines 277-281 *)
  Definition size_error : bool := min_fold_size - 1 <=? purged_size + embargo_size.

  (** fold_index_num, lines 283-284 *)
  Definition fold_num (x : nat) : nat :=
    let q := x / min_fold_size in
    if q =? n_folds then n_folds - 1 else q.

  (** column i of index_train_test after lines 286-290 *)
  Definition col0 (i x : nat) : Z :=
    if memn (fold_num x) (nth i test_set_index []) then 1%Z else 0%Z.

  (** np.diff(index_train_test, axis=0) in column i, line 292 *)
  Definition diff (i t : nat) : Z := (col0 i (t + 1) - col0 i t)%Z.

  Definition before_index (i : nat) : list nat :=
    filter (fun t => Z.eqb (diff i t) 1) (seq 0 (n_samples - 1)).
  Definition after_index (i : nat) : list nat :=
    filter (fun t => Z.eqb (diff i t) (-1)) (seq 0 (n_samples - 1)).

  Definition set_minus1 (c : nat -> Z) (ps : list nat) : nat -> Z :=
    fold_left (fun c p x => if Nat.eqb x p then (-1)%Z else c x) ps c.

  (** lines 295-299; truncated subtraction is np.maximum(0, t - k) *)
  Definition col1 (i : nat) : nat -> Z :=
    fold_left (fun c k => set_minus1 c (map (fun t => t - k) (before_index i)))
              (seq 0 purged_size) (col0 i).

  (** lines 302-306 *)
  Definition col2 (i : nat) : nat -> Z :=
    fold_left (fun c k => set_minus1 c (map (fun t => Nat.min (n_samples - 1) (t + k + 1)) (after_index i)))
              (seq 0 (purged_size + embargo_size)) (col1 i).

  (** lines 309-312 *)
  Definition fold_index (f : nat) : list nat :=
    filter (fun x => Nat.eqb (fold_num x) f) (seq 0 n_samples).

  (** lines 313-316: the i-th yielded pair *)
  Definition train_index (i : nat) : list nat :=
    filter (fun x => Z.eqb (col2 i x) 0) (seq 0 n_samples).
  Definition test_index_list (i : nat) : list (list nat) :=
    map (fun fp => fold_index (fst fp)) (argwhere_eq i).

  (** the whole generator; [None] is the ValueError *)
  Definition cpcv_split : option (list (list nat * list (list nat))) :=
    if size_error then None
    else Some (map (fun i => (train_index i, test_index_list i))
                   (seq 0 (n_splits n_folds n_test_folds))).
End CPCV.
