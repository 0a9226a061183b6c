(** Vine copulas: construction of the trees, conditioning sets, sampling order
    and propagation of the samples.

    Modelled files:
    - src/skfolio/distribution/multivariate/_utils.py
    - src/skfolio/distribution/multivariate/_vine_copula.py

    Representation.  Nodes and edges are Python objects with pointers to one
    another.  A tree is modelled by its list of edges, an edge by the positions
    of its two nodes in the node list of the tree ([Edge.node1],
    [Edge.node2]).  Node number [k] of a tree above the first one is the
    [ChildNode] whose [ref] is edge number [k] of the tree below.  A vine is the
    list of its trees, the last tree of [trees_] first, so that the tail of a
    non-empty vine holds the trees below.  A node is a position together with
    the trees below it: with no tree below it is a [RootNode]. *)
Require Import List Arith Bool Reals.
Import ListNotations.

Definition edge : Type := nat * nat.
Definition tree : Type := list edge.

Definition edge_at (t : tree) (k : nat) : edge := nth k t (0, 0).

(** Python sets of integers, as lists without repetition. *)
Definition mem (x : nat) (l : list nat) : bool := existsb (Nat.eqb x) l.
Definition set_union (a b : list nat) : list nat := nodup Nat.eq_dec (a ++ b).
Definition set_inter (a b : list nat) : list nat :=
  nodup Nat.eq_dec (filter (fun x => mem x b) a).
Definition set_symdiff (a b : list nat) : list nat :=
  nodup Nat.eq_dec
    (filter (fun x => negb (mem x b)) a ++ filter (fun x => negb (mem x a)) b).

(** * Trees *)

(** _utils.py 460-473 [Edge.share_one_node]. *)
Definition share_one_node (e f : edge) : bool :=
  length (set_inter [fst e; snd e] [fst f; snd f]) =? 1.

(** _utils.py 428-458 [Edge.shared_node_is_left]; [None] is the ValueError. *)
Definition shared_node_is_left (e f : edge) : option (bool * bool) :=
  if fst e =? fst f then Some (true, true)
  else if snd e =? fst f then Some (false, true)
  else if snd e =? snd f then Some (false, false)
  else None.

(** itertools.combinations(range(n), 2), _utils.py 542. *)
Definition pairs (n : nat) : list edge :=
  flat_map (fun i => map (fun j => (i, j)) (seq (S i) (n - S i))) (seq 0 n).

(** The test of _utils.py 545: every pair on the first level, pairs of edges
    sharing a node above. *)
Definition eligible (below : list tree) (p : edge) : bool :=
  match below with
  | [] => true
  | t :: _ => share_one_node (edge_at t (fst p)) (edge_at t (snd p))
  end.

(** The keys of [eligible_edges], in insertion order (_utils.py 538-556). *)
Definition candidates (n : nat) (below : list tree) : list edge :=
  filter (eligible below) (pairs n).

(** [Edge.get_X], _utils.py 406-426, raises when the shared node is not
    correctly ordered; evaluated for every candidate by [edge.dependence]. *)
Definition ordered (below : list tree) (p : edge) : bool :=
  match below with
  | [] => true
  | t :: _ => match shared_node_is_left (edge_at t (fst p)) (edge_at t (snd p)) with
              | Some _ => true
              | None => false
              end
  end.

(** [RootNode.central] / [ChildNode.central], _utils.py 148-153, 190-202, with
    [Edge.strongly_central] 371-376. *)
Fixpoint central (root : nat -> bool) (below : list tree) (k : nat) : bool :=
  match below with
  | [] => root k
  | t :: below' =>
      central root below' (fst (edge_at t k)) && central root below' (snd (edge_at t k))
  end.

Definition weakly_central root below (p : edge) : bool :=
  central root below (fst p) || central root below (snd p).
Definition strongly_central root below (p : edge) : bool :=
  central root below (fst p) && central root below (snd p).

Definition rmax_list (l : list R) : R := fold_right Rmax 0%R l.

(** The weights of _utils.py 538-569.  [dependence] stands for
    [abs(edge.dependence)], computed from the data of the edge. *)
Definition base_weight (dependence : edge -> R) (p : edge) : R :=
  (dependence p + / 100000)%R.

Definition edge_weight (root : nat -> bool) (below : list tree)
    (dependence : edge -> R) (cand : list edge) (p : edge) : R :=
  let max_dep := rmax_list (map (base_weight dependence) cand) in
  if existsb (weakly_central root below) cand then
    if weakly_central root below p then
      (base_weight dependence p
       + (if strongly_central root below p then 3 * max_dep else 2 * max_dep))%R
    else base_weight dependence p
  else base_weight dependence p.

(** [Tree.set_edges_from_mst], _utils.py 520-582.  [mst n w] stands for
    [minimum_spanning_tree] followed by [nonzero]: it is given the number of
    nodes and the weighted candidates and returns the edges kept. *)
Definition set_edges (mst : nat -> list (edge * R) -> list edge)
    (root : nat -> bool) (dependence : list tree -> edge -> R)
    (n : nat) (below : list tree) : option tree :=
  let cand := candidates n below in
  if forallb (ordered below) cand then
    Some (mst n (map (fun p => (p, edge_weight root below (dependence below) cand p))
                     cand))
  else None.

(** The loop of [VineCopula.fit], _vine_copula.py 411-461: the trees built so
    far, the last one first; [None] is the ValueError of [get_X] or the failed
    assertion on the number of edges. *)
Fixpoint grow (mst : nat -> list (edge * R) -> list edge)
    (root : nat -> bool) (dependence : list tree -> edge -> R)
    (n depth : nat) (below : list tree) : option (list tree) :=
  match depth with
  | 0 => Some below
  | S d =>
      match set_edges mst root dependence (n - length below) below with
      | Some t =>
          if length t =? n - length below - 1
          then grow mst root dependence n d (t :: below)
          else None
      | None => None
      end
  end.

Inductive fit_result : Type :=
  | TooFewAssets | BadDepth | Failure | Fitted (trees : list tree).

(** [VineCopula.fit], _vine_copula.py 320-348 and 411-461 (the marginals and
    the choice of the copulas are not part of this function). *)
Definition fit_trees mst root dependence (n : nat) (max_depth : option nat)
  : fit_result :=
  if n <=? 2 then TooFewAssets
  else
    match max_depth with
    | Some d =>
        if d <=? 1 then BadDepth
        else match grow mst root dependence n (Nat.min d (n - 1)) [] with
             | Some ts => Fitted ts
             | None => Failure
             end
    | None =>
        match grow mst root dependence n (n - 1) [] with
        | Some ts => Fitted ts
        | None => Failure
        end
    end.

(** * Conditioning sets *)

(** _utils.py 44-84 [EdgeCondSets]. *)
Record cond_set : Type := { conditioned : nat * nat; conditioning : list nat }.

Definition to_set (c : cond_set) : list nat :=
  set_union [fst (conditioned c); snd (conditioned c)] (conditioning c).

Section CondSets.
  (** The order in which [tuple] enumerates a set. *)
  Variable enum : list nat -> list nat.

  (** _utils.py 65-78 [EdgeCondSets.__add__]. *)
  Definition cond_add (c d : cond_set) : cond_set :=
    let s1 := to_set c in
    let s2 := to_set d in
    let l := enum (set_symdiff s1 s2) in
    let x := nth 0 l 0 in
    let y := nth 1 l 0 in
    {| conditioned :=
         if mem x [fst (conditioned d); snd (conditioned d)] then (y, x) else (x, y);
       conditioning := set_inter s1 s2 |}.

  (** [Edge.cond_sets] of edge [k] of the first tree of the list, _utils.py
      388-399. *)
  Fixpoint cond_sets (t : tree) (below : list tree) (k : nat) : cond_set :=
    match below with
    | [] => {| conditioned := edge_at t k; conditioning := [] |}
    | t' :: below' =>
        cond_add (cond_sets t' below' (fst (edge_at t k)))
                 (cond_sets t' below' (snd (edge_at t k)))
    end.

  (** _utils.py 290-308 [ChildNode.get_var], for the node whose [ref] is edge
      [k] of tree [t]. *)
  Definition get_var (t : tree) (below : list tree) (k : nat) (is_left : bool) : nat :=
    if is_left then fst (conditioned (cond_sets t below k))
    else snd (conditioned (cond_sets t below k)).

  (** * Sampling order *)

  (** An entry of the sampling order: a root node, or the node of edge [k] of
      the tree on level [level] (0 for the first tree) with its branch. *)
  Inductive entry : Type :=
    | RootEntry (r : nat)
    | ChildEntry (level k : nat) (is_left : bool).

  (** _vine_copula.py 653-674 [_conditioning_count], row of the first tree of
      the list: the number of conditioning sets of that tree and the trees
      below holding the variable. *)
  Fixpoint conditioning_count (ts : list tree) (x : nat) : nat :=
    match ts with
    | [] => 0
    | t :: below =>
        length (filter (fun k => mem x (conditioning (cond_sets t below k)))
                       (seq 0 (length t)))
        + conditioning_count below x
    end.

  (** _vine_copula.py 1124-1152 [_is_left_branch]. *)
  Definition is_left_branch (cond : list nat) (t : tree) (below : list tree) (k : nat)
    : bool :=
    let v1 := fst (conditioned (cond_sets t below k)) in
    let v2 := snd (conditioned (cond_sets t below k)) in
    if mem v1 cond && negb (mem v2 cond) then false
    else if negb (mem v1 cond) && mem v2 cond then true
    else conditioning_count (t :: below) v1 <=? conditioning_count (t :: below) v2.

  (** [len(node.edges - prev_visited)], _vine_copula.py 902-903. *)
  Definition degree (t : tree) (visited : list nat) (x : nat) : nat :=
    length (filter (fun k => ((fst (edge_at t k) =? x) || (snd (edge_at t k) =? x))
                             && negb (mem k visited))
                   (seq 0 (length t))).

  (** The decision taken for one edge in a round, _vine_copula.py 902-913. *)
  Definition peel (cond : list nat) (t : tree) (below : list tree)
      (visited : list nat) (k : nat) : option bool :=
    let c1 := degree t visited (fst (edge_at t k)) =? 1 in
    let c2 := degree t visited (snd (edge_at t k)) =? 1 in
    if c1 || c2 then
      Some (if c1 && c2 then is_left_branch cond t below k else c1)
    else None.

  (** The edges selected in a round with their branch, _vine_copula.py 901-920. *)
  Fixpoint select (cond : list nat) (t : tree) (below : list tree)
      (visited : list nat) (remaining : list nat) : list (nat * bool) :=
    match remaining with
    | [] => []
    | k :: rest =>
        match peel cond t below visited k with
        | Some lft => (k, lft) :: select cond t below visited rest
        | None => select cond t below visited rest
        end
    end.

  (** Stable sort by cost, _vine_copula.py 923-925. *)
  Fixpoint insert_by (cost : nat * bool -> nat) (x : nat * bool)
      (l : list (nat * bool)) : list (nat * bool) :=
    match l with
    | [] => [x]
    | y :: l' => if cost x <=? cost y then x :: l else y :: insert_by cost x l'
    end.
  Definition sort_by (cost : nat * bool -> nat) (l : list (nat * bool)) :=
    fold_right (insert_by cost) [] l.

  (** The values of [edge] and [is_left] after one round (_vine_copula.py 901-913):
      [edge] is the last one iterated, [is_left] the last one assigned. *)
  Definition after_round (remaining : list nat) (sel : list (nat * bool))
      (cur : nat * bool) : nat * bool :=
    (last remaining (fst cur), last (map snd sel) (snd cur)).

  (** The [while remaining] loop, _vine_copula.py 894-927; [None] when the
      fuel is used up (the Python loop would not terminate). *)
  Fixpoint peel_loop (fuel : nat) (cond : list nat) (t : tree) (below : list tree)
      (visited remaining : list nat) (cur : nat * bool) (acc : list (nat * bool))
    : option (list (nat * bool) * (nat * bool)) :=
    match remaining with
    | [] => Some (acc, cur)
    | _ :: _ =>
        match fuel with
        | 0 => None
        | S f =>
            let sel := select cond t below visited remaining in
            let visited' := map fst sel ++ visited in
            peel_loop f cond t below visited'
              (filter (fun k => negb (mem k visited')) remaining)
              (after_round remaining sel cur)
              (acc ++ sort_by (fun p => conditioning_count (t :: below)
                                          (get_var t below (fst p) (snd p))) sel)
        end
    end.

  (** The marginalization loop, _vine_copula.py 929-946. *)
  Fixpoint marginalize (cond : list nat) (t : tree) (below : list tree)
      (k : nat) (is_left : bool) : list entry :=
    let node := if is_left then snd (edge_at t k) else fst (edge_at t k) in
    match below with
    | [] => [RootEntry node]
    | t' :: below' =>
        let lft' := is_left_branch cond t' below' node in
        ChildEntry (length below') node lft' :: marginalize cond t' below' node lft'
    end.

  (** [node.get_var(is_left) if is_left is not None else node.ref]: [ts] is the
      whole vine. *)
  Definition entry_var (ts : list tree) (e : entry) : nat :=
    match e with
    | RootEntry r => r
    | ChildEntry level k lft =>
        match skipn (length ts - S level) ts with
        | t :: below => get_var t below k lft
        | [] => 0
        end
    end.

  (** _vine_copula.py 948-953. *)
  Definition replace_conditioned (cond : list nat) (ts : list tree) (e : entry) : entry :=
    if mem (entry_var ts e) cond then RootEntry (entry_var ts e) else e.

  Definition entry_eqb (a b : entry) : bool :=
    match a, b with
    | RootEntry r, RootEntry s => r =? s
    | ChildEntry l k x, ChildEntry m j y => (l =? m) && (k =? j) && Bool.eqb x y
    | _, _ => false
    end.

  Fixpoint distinct (l : list entry) : bool :=
    match l with
    | [] => true
    | e :: l' => negb (existsb (entry_eqb e) l') && distinct l'
    end.

  (** [_sampling_order], _vine_copula.py 841-960. *)
  Definition sampling_order (cond : list nat) (n : nat) (ts : list tree)
    : option (list entry) :=
    match ts with
    | [] => None
    | t :: below =>
        let start :=
          if length t =? 1 then
            let lft := is_left_branch cond t below 0 in
            Some ([(0, lft)], (0, lft))
          else peel_loop (length t) cond t below [] (seq 0 (length t)) (0, true) []
        in
        match start with
        | None => None
        | Some (top, (k, lft)) =>
            let order :=
              rev (map (replace_conditioned cond ts)
                     (map (fun p => ChildEntry (length below) (fst p) (snd p)) top
                      ++ marginalize cond t below k lft)) in
            if distinct order && (length order =? n) then Some order else None
        end
    end.

  (** * Propagation of the samples *)

  Section Propagate.
    Variable V C : Type.
    (** [copula.partial_derivative(X, first_margin=False)] and
        [first_margin=True] on one row, and
        [copula.inverse_partial_derivative(X)] (default [first_margin=False]). *)
    Variables hu hv hinv : C -> V -> V -> V.
    (** [edge.copula] of edge [k] on a level. *)
    Variable copula : nat -> nat -> C.

    (** [RootNode.pseudo_values] and the values given to [ChildNode.u] and
        [ChildNode.v] by their setters, the node of edge [k] on level [l] being
        at [(l, k)].  Simplification: a value read by the properties [u] and [v]
        is recomputed at each read instead of being kept until the number of
        reads recorded by a first dry run is reached (_utils.py 205-241,
        248-284; _vine_copula.py 575-593), which VineCacheModel.v models and C93 shows
        to make no difference; [None] stands for Python's [None]. *)
    Record state : Type := {
      roots : nat -> option V;
      set_u : nat -> nat -> option V;
      set_v : nat -> nat -> option V }.

    Definition upd (f : nat -> option V) (k : nat) (x : V) : nat -> option V :=
      fun j => if j =? k then Some x else f j.
    Definition upd2 (f : nat -> nat -> option V) (l k : nat) (x : V)
      : nat -> nat -> option V :=
      fun i j => if (i =? l) && (j =? k) then Some x else f i j.

    Definition put_root (s : state) (r : nat) (x : V) : state :=
      {| roots := upd (roots s) r x; set_u := set_u s; set_v := set_v s |}.
    Definition put (s : state) (l k : nat) (is_u : bool) (x : V) : state :=
      if is_u
      then {| roots := roots s; set_u := upd2 (set_u s) l k x; set_v := set_v s |}
      else {| roots := roots s; set_u := set_u s; set_v := upd2 (set_v s) l k x |}.

    (** [ChildNode.u] / [ChildNode.v] (_utils.py 204-288) and [Edge.get_X]
        (406-426): [is_u] selects the property, for the node whose [ref] is
        edge [k] of [t]. *)
    Fixpoint read (s : state) (t : tree) (below : list tree) (k : nat) (is_u : bool)
      : option V :=
      match (if is_u then set_u s else set_v s) (length below) k with
      | Some x => Some x
      | None =>
          let a := fst (edge_at t k) in
          let b := snd (edge_at t k) in
          match below with
          | [] =>
              match roots s a, roots s b with
              | Some x, Some y =>
                  Some ((if is_u then hu else hv) (copula (length below) k) x y)
              | _, _ => None
              end
          | t' :: below' =>
              match shared_node_is_left (edge_at t' a) (edge_at t' b) with
              | Some (l1, l2) =>
                  match read s t' below' a (negb l1), read s t' below' b (negb l2) with
                  | Some x, Some y =>
                      Some ((if is_u then hu else hv) (copula (length below) k) x y)
                  | _, _ => None
                  end
              | None => None
              end
          end
      end.

    (** One item of the queue and the items it pushes in front of it
        (_vine_copula.py 1196-1227): [appendleft] followed by [popleft]
        processes the pushed item next, which is the recursive call. *)
    Fixpoint descend (s : state) (t : tree) (below : list tree) (k : nat)
        (is_left : bool) : option state :=
      let a := fst (edge_at t k) in
      let b := snd (edge_at t k) in
      let c := copula (length below) k in
      match read s t below k is_left with
      | None => None
      | Some p =>
          match below with
          | [] =>
              if is_left then
                match roots s b with
                | Some y => Some (put_root s a (hinv c p y))
                | None => None
                end
              else
                match roots s a with
                | Some x => Some (put_root s b (hinv c p x))
                | None => None
                end
          | t' :: below' =>
              match shared_node_is_left (edge_at t' a) (edge_at t' b) with
              | Some (l1, l2) =>
                  if is_left then
                    match read s t' below' b (negb l2) with
                    | Some y =>
                        descend (put s (length below') a (negb l1) (hinv c p y))
                          t' below' a (negb l1)
                    | None => None
                    end
                  else
                    match read s t' below' a (negb l1) with
                    | Some x =>
                        descend (put s (length below') b (negb l2) (hinv c p x))
                          t' below' b (negb l2)
                    | None => None
                    end
              | None => None
              end
          end
      end.

    Definition empty_state : state :=
      {| roots := fun _ => None; set_u := fun _ _ => None; set_v := fun _ _ => None |}.

    Variable clip : V -> V.

    (** The initial samples, _vine_copula.py 1168-1194: [cond_samples] for the
        conditioning variables, otherwise the next row of [X_rand]. *)
    Fixpoint init_samples (cond : list nat) (cond_samples : nat -> V) (ts : list tree)
        (order : list entry) (x_rand : list V) (s : state) : option state :=
      match order with
      | [] => Some s
      | e :: rest =>
          let store x s :=
            match e with
            | RootEntry r => put_root s r (clip x)
            | ChildEntry l k lft => put s l k lft (clip x)
            end in
          if mem (entry_var ts e) cond
          then init_samples cond cond_samples ts rest x_rand
                 (store (cond_samples (entry_var ts e)) s)
          else match x_rand with
               | x :: xs => init_samples cond cond_samples ts rest xs (store x s)
               | [] => None
               end
      end.

    (** The [while queue] loop over the entries appended by the initialisation. *)
    Fixpoint run_queue (ts : list tree) (order : list entry) (s : state)
      : option state :=
      match order with
      | [] => Some s
      | RootEntry _ :: rest => run_queue ts rest s
      | ChildEntry l k lft :: rest =>
          match skipn (length ts - S l) ts with
          | t :: below =>
              match descend s t below k lft with
              | Some s' => run_queue ts rest s'
              | None => None
              end
          | [] => None
          end
      end.

    (** [_propagate_samples] (second pass), _vine_copula.py 1155-1227. *)
    Definition propagate (cond : list nat) (cond_samples : nat -> V) (ts : list tree)
        (order : list entry) (x_rand : list V) : option state :=
      match init_samples cond cond_samples ts order x_rand empty_state with
      | Some s => run_queue ts order s
      | None => None
      end.
  End Propagate.
End CondSets.
