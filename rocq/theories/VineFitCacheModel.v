(** Model of the loop of [VineCopula.fit] with the caches of the nodes: when the
    margins of a tree are computed, kept and dropped.  No proofs here.

    Modelled files:
    - src/skfolio/distribution/multivariate/_utils.py
    - src/skfolio/distribution/multivariate/_vine_copula.py

    The trees are those of VineModel.v, the caches those of VineCacheModel.v. *)
Require Import List Arith Bool Reals.
From Verif Require Import VineModel VineCacheModel.
Import ListNotations.

Section FitCache.
  Variables V C : Type.
  Variables hu hv : C -> V -> V -> V.
  Variable nan : V.
  (** [abs(_dependence(X, dependence_method))] and [select_bivariate_copula(X, ...)]
      of the two columns of [X]. *)
  Variable dep : V * V -> R.
  Variable select : V * V -> C.
  (** [minimum_spanning_tree] as in VineModel.v, and the central assets. *)
  Variable mst : nat -> list (edge * R) -> list edge.
  Variable root : nat -> bool.

  Notation run := (run V).

  Definition blank_margin : margin V := {| cached := None; seen := 0; expected := 0 |}.

  (** All margins of the nodes of one level replaced by those of a new
      [ChildNode] (_utils.py 178-188), or by cleared ones (310-324). *)
  Definition blank_level (l : nat) (s : vine_state V) : vine_state V :=
    {| pseudo_values := pseudo_values V s;
       margins := fun i k b => if i =? l then blank_margin else margins V s i k b;
       counting := counting V s; evaluated := evaluated V s |}.

  (** [Tree.clear_cache], _utils.py 584-587, of the tree on a level: its nodes are
      the variables on the first level (155-157) and the edges of the tree below
      otherwise. *)
  Definition clear_tree (level : nat) (s : vine_state V) : vine_state V :=
    match level with
    | 0 => {| pseudo_values := fun _ => None; margins := margins V s;
              counting := counting V s; evaluated := evaluated V s |}
    | S l => blank_level l s
    end.

  (** [get_X] of a list of edges in turn. *)
  Fixpoint candidate_pairs (depth : nat) (copula : nat -> nat -> C) (below : list tree)
      (cand : list edge) : run (list (V * V)) :=
    match cand with
    | [] => ret V []
    | p :: rest =>
        bind V (edge_X V C hu hv nan depth copula [p] below 0) (fun x =>
        bind V (candidate_pairs depth copula below rest) (fun xs => ret V (x :: xs)))
    end.

  (** [dependence_matrix[i, j]] without the constant, _utils.py 553-556. *)
  Definition entry_of (cand : list edge) (deps : list R) (p : edge) : R :=
    match find (fun q => (fst (fst q) =? fst p) && (snd (fst q) =? snd p)) (combine cand deps) with
    | Some q => snd q
    | None => 0%R
    end.

  (** [edge.copula = copula] for the edges of the tree on a level,
      _vine_copula.py 447-448. *)
  Definition set_copulas (copula : nat -> nat -> C) (level : nat) (cs : list C)
    : nat -> nat -> C :=
    fun l k => if l =? level then nth k cs (copula l k) else copula l k.

  (** The loop of [VineCopula.fit], _vine_copula.py 411-455: [below] are the trees
      built so far, the last one first. *)
  Fixpoint fit_loop (depth n d : nat) (below : list tree) (copula : nat -> nat -> C)
    : run (list tree * (nat -> nat -> C)) :=
    match d with
    | 0 => ret V (below, copula)
    | S d' =>
        let level := length below in
        let cand := candidates (n - level) below in
        bind V (modify V (match level with 0 => fun s => s | S l => blank_level l end)) (fun _ =>
        bind V (candidate_pairs depth copula below cand) (fun xs =>
        let t := mst (n - level)
                   (map (fun p => (p, edge_weight root below (entry_of cand (map dep xs)) cand p))
                        cand) in
        if length t =? n - level - 1 then
          bind V (tree_pairs V C hu hv nan depth copula t below (seq 0 (length t))) (fun ys =>
          bind V (modify V (match level with 0 => fun s => s | S l => clear_tree l end)) (fun _ =>
          fit_loop depth n d' (t :: below) (set_copulas copula level (map select ys))))
        else fail V))
    end.

  (** [VineCopula.fit], _vine_copula.py 320-348 and 411-461, on the pseudo-values
      [x] of the [n] assets; [c0] stands for the copula [None] of a new edge.  The
      nodes are created by this call, so no state of an earlier fit is left. *)
  Definition fit_vine (c0 : nat -> nat -> C) (n : nat) (max_depth : option nat) (x : nat -> V)
    : fit_result * (nat -> nat -> C) * vine_state V :=
    let start := fold_left (fun s i => set_pseudo V s i (x i)) (seq 0 n) (fitted_state V) in
    let loop depth :=
      match fit_loop depth n depth [] c0 start with
      | (Some (ts, copula), s) =>
          (Fitted ts, copula, blank_level (depth - 1) (clear_tree (depth - 1) s))
      | (None, s) => (Failure, c0, s)
      end in
    if n <=? 2 then (TooFewAssets, c0, fitted_state V)
    else match max_depth with
         | Some d => if d <=? 1 then (BadDepth, c0, fitted_state V)
                     else loop (Nat.min d (n - 1))
         | None => loop (n - 1)
         end.
End FitCache.
