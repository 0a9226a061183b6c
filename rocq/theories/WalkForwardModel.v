(** Model of src/skfolio/model_selection/_walk_forward.py (WalkForward).  No proofs here.
    Simplifications: test_size, train_size, purged_size are natural numbers (negative values are
    not modelled); calendar offsets are fixed time deltas, timestamps are integers. *)
From Coq Require Import List Arith ZArith Bool.
Import ListNotations.

(** python slice l[a:b] with 0 <= a, b *)
Definition slice {A} (a b : nat) (l : list A) : list A := firstn (b - a) (skipn a l).

(** ** _split_without_period, _walk_forward.py:305-342.
    Outcome of the generator: [Raise] is the ValueError of 313-318; [Fin l] the list of yielded
    pairs once the generator returns; [Running l] the pairs yielded so far when the fuel (number
    of loop iterations) is exhausted. *)
Inductive outcome (A : Type) := Raise | Fin (l : list A) | Running (l : list A).
Arguments Raise {A}. Arguments Fin {A} l. Arguments Running {A} l.

Definition emit {A} (x : A) (o : outcome A) : outcome A :=
  match o with Raise => Raise | Fin l => Fin (x :: l) | Running l => Running (x :: l) end.

Section NoPeriod.
  Variables n_samples train_size test_size purged_size : nat.
  Variables expend_train reduce_test : bool.

  Definition indices : list nat := seq 0 n_samples.                    (* line 320 *)

  Fixpoint wf_loop (fuel test_start : nat) : outcome (list nat * list nat) :=
    match fuel with
    | O => Running []
    | S fuel =>
        if n_samples <=? test_start then Fin []                          (* 324-325 *)
        else
          let test_end := test_start + test_size in                      (* 326 *)
          let train_end := test_start - purged_size in                   (* 327 *)
          let train_start := if expend_train then 0 else train_end - train_size in  (* 328-331 *)
          let train := slice train_start train_end indices in            (* 339 *)
          if n_samples <? test_end then                                  (* 333 *)
            if negb reduce_test then Fin []                              (* 334-335 *)
            else emit (train, slice test_start n_samples indices) (wf_loop fuel test_end)
          else emit (train, slice test_start test_end indices) (wf_loop fuel test_end)
    end.

  Definition split_without_period (fuel : nat) : outcome (list nat * list nat) :=
    if n_samples <=? train_size + purged_size then Raise                 (* 313-318 *)
    else wf_loop fuel (train_size + purged_size).                        (* 322 *)

  (** get_n_splits, _walk_forward.py:294-302.  Python's floor division raises on test_size = 0
      ([None]); the subtraction is over the integers. *)
  Definition get_n_splits : option Z :=
    let n := (Z.of_nat n_samples - Z.of_nat train_size - Z.of_nat purged_size)%Z in
    let t := Z.of_nat test_size in
    if (t =? 0)%Z then None
    else if reduce_test && negb (n mod t =? 0)%Z then Some (n / t + 1)%Z else Some (n / t)%Z.
End NoPeriod.

(** ** Calendar versions *)

(** np.arange(a, b) over the integers *)
Definition arange (a b : Z) : list Z := map (fun k => (a + Z.of_nat k)%Z) (seq 0 (Z.to_nat (b - a))).

(** DatetimeIndex.get_indexer(., method="bfill"): position of the first timestamp >= d, -1 if none *)
Fixpoint bfill_from (pos : Z) (ts : list Z) (d : Z) : Z :=
  match ts with
  | [] => (-1)%Z
  | t :: ts' => if (d <=? t)%Z then pos else bfill_from (pos + 1) ts' d
  end.
(** method="ffill": position of the last timestamp <= d, -1 if none (ts increasing) *)
Fixpoint ffill_from (pos : Z) (ts : list Z) (d : Z) : Z :=
  match ts with
  | [] => (-1)%Z
  | t :: ts' => if (t <=? d)%Z then Z.max pos (ffill_from (pos + 1) ts' d) else (-1)%Z
  end.
Definition get_indexer (ffill : bool) (ts : list Z) (d : Z) : Z :=
  if ffill then ffill_from 0 ts d else bfill_from 0 ts d.

Section Period.
  (** pd.date_range(start, end, freq): an oracle *)
  Variable date_range : Z -> Z -> list Z.
  Variable ts : list Z.                                  (* ts_index *)
  Variable freq_offset : option Z.
  Variable previous : bool.
  Variable purged_size test_size : nat.
  Variables expend_train reduce_test : bool.

  Definition zpurged := Z.of_nat purged_size.
  Definition n_samples_z : Z := Z.of_nat (length ts).

  (** _walk_forward.py:357-365 = 404-412 *)
  Definition grid : list Z :=
    let start := hd 0%Z ts in
    let end_ := last ts 0%Z in
    let start' := match freq_offset with Some o => Z.min start (start - o) | None => start end in
    let g := date_range start' end_ in
    match freq_offset with Some o => map (fun d => (d + o)%Z) g | None => g end.

  (** line 367 = 414 *)
  Definition idx : list Z := map (get_indexer previous ts) grid.
  Definition idx_at (i : nat) : Z := nth i idx 0%Z.

  (** _split_from_period_without_train_offset, loop of lines 369-389 *)
  Fixpoint period_loop (train_size fuel i : nat) : outcome (list Z * list Z) :=
    match fuel with
    | O => Running []
    | S fuel =>
        let n := length idx in
        if n <=? i + train_size then Fin []
        else
          let train_start := if expend_train then 0%Z else idx_at i in
          let train := arange train_start (idx_at (i + train_size) - zpurged) in
          if n <=? i + train_size + test_size then
            if negb reduce_test then Fin []
            else emit (train, arange (idx_at (i + train_size)) n_samples_z) (period_loop train_size fuel (i + test_size))
          else emit (train, arange (idx_at (i + train_size)) (idx_at (i + train_size + test_size)))
                    (period_loop train_size fuel (i + test_size))
    end.
  Definition split_period_int (train_size fuel : nat) := period_loop train_size fuel 0.

  (** _split_from_period_with_train_offset, lines 415-440 *)
  Variable train_offset : Z.
  Definition train_idx : list Z := map (fun d => get_indexer true ts (d - train_offset)%Z) grid.
  Definition train_at (i : nat) : Z := nth i train_idx 0%Z.

  (** np.argmax(train_idx > -1): first position with a non-negative entry *)
  Fixpoint argmax_pos (l : list Z) : nat :=
    match l with [] => 0 | x :: l' => if (-1 <? x)%Z then 0 else S (argmax_pos l') end.

  Fixpoint offset_loop (fuel i : nat) : outcome (list Z * list Z) :=
    match fuel with
    | O => Running []
    | S fuel =>
        let n := length idx in
        if n <=? i then Fin []
        else
          let train_start := if expend_train then 0%Z else train_at i in
          let train := arange train_start (idx_at i) in
          if n <=? i + test_size then
            if negb reduce_test then Fin []
            else emit (train, arange (idx_at i) n_samples_z) (offset_loop fuel (i + test_size))
          else emit (train, arange (idx_at i) (idx_at (i + test_size) - zpurged))
                    (offset_loop fuel (i + test_size))
    end.
  Definition split_period_offset (fuel : nat) :=
    if forallb (fun x => (x =? -1)%Z) train_idx then Fin []              (* 419-420 *)
    else offset_loop fuel (argmax_pos train_idx).                        (* 422 *)
End Period.
