(** Model of the caches of the vine copula: the margins kept on the nodes, the
    counting of their visits, and their use by [score_samples] and [sample].  No proofs here.

    Modelled files:
    - src/skfolio/distribution/multivariate/_utils.py
    - src/skfolio/distribution/multivariate/_vine_copula.py

    The trees, the sampling order and the positions of the nodes are those of
    VineModel.v; what is added is the mutable state of the nodes.  A computation
    takes the state and returns a result, [None] when it raises, together with
    the state it leaves behind, also when it raises. *)
Require Import List Arith Bool Reals.
From Verif Require Import VineModel.
Import ListNotations.

Section Cache.
  Variables V C : Type.
  (** [copula.partial_derivative(X, first_margin=False)], [first_margin=True] and
      [copula.inverse_partial_derivative(X)]. *)
  Variables hu hv hinv : C -> V -> V -> V.
  (** [np.array([np.nan])]. *)
  Variable nan : V.

  (** One margin of a [ChildNode] (_utils.py 180-187): [_u], [_u_count] and
      [_u_count_total], or [_v], [_v_count] and [_v_count_total]. *)
  Record margin : Type := { cached : option V; seen : nat; expected : nat }.

  (** The mutable state of a vine: [RootNode.pseudo_values]; the margins of the
      node of edge [k] on level [l] ([true] for [u]); the flag [is_count_visits],
      the same for all trees; and the calls of [partial_derivative] made so far,
      the last one first (recorded to count them, not in the code). *)
  Record vine_state : Type := {
    pseudo_values : nat -> option V;
    margins : nat -> nat -> bool -> margin;
    counting : bool;
    evaluated : list (nat * nat * bool) }.

  Definition set_margin (s : vine_state) (l k : nat) (is_u : bool) (m : margin)
    : vine_state :=
    {| pseudo_values := pseudo_values s;
       margins := fun i j b =>
         if (i =? l) && (j =? k) && Bool.eqb b is_u then m else margins s i j b;
       counting := counting s; evaluated := evaluated s |}.

  Definition set_pseudo (s : vine_state) (r : nat) (x : V) : vine_state :=
    {| pseudo_values := upd V (pseudo_values s) r x; margins := margins s;
       counting := counting s; evaluated := evaluated s |}.

  (** The setters of [u] and [v], _utils.py 243-245, 286-288. *)
  Definition set_value (s : vine_state) (l k : nat) (is_u : bool) (x : V) : vine_state :=
    let m := margins s l k is_u in
    set_margin s l k is_u {| cached := Some x; seen := seen m; expected := expected m |}.

  Definition log_call (s : vine_state) (l k : nat) (is_u : bool) : vine_state :=
    {| pseudo_values := pseudo_values s; margins := margins s; counting := counting s;
       evaluated := (l, k, is_u) :: evaluated s |}.

  Definition set_counting (s : vine_state) (c : bool) : vine_state :=
    {| pseudo_values := pseudo_values s; margins := margins s; counting := c;
       evaluated := evaluated s |}.

  (** [ChildNode.clear_cache], _utils.py 310-324. *)
  Definition cleared (clear_count : bool) (m : margin) : margin :=
    if clear_count then {| cached := None; seen := 0; expected := 0 |}
    else {| cached := None; seen := seen m; expected := expected m |}.

  (** [VineCopula.clear_cache], _vine_copula.py 646-651: the nodes of all trees and
      the nodes attached to the edges of the last one; [RootNode.clear_cache],
      _utils.py 155-157. *)
  Definition clear_cache (clear_count : bool) (s : vine_state) : vine_state :=
    {| pseudo_values := fun _ => None;
       margins := fun l k b => cleared clear_count (margins s l k b);
       counting := counting s; evaluated := evaluated s |}.

  Definition run (A : Type) : Type := vine_state -> option A * vine_state.

  Definition bind {A B} (p : run A) (q : A -> run B) : run B :=
    fun s => match p s with
             | (Some a, s') => q a s'
             | (None, s') => (None, s')
             end.
  Definition ret {A} (a : A) : run A := fun s => (Some a, s).
  Definition fail {A} : run A := fun s => (None, s).
  Definition modify (f : vine_state -> vine_state) : run unit := fun s => (Some tt, f s).

  (** Reading [pseudo_values]: [None] makes [np.stack] or the copula raise. *)
  Definition read_pseudo (r : nat) : run V := fun s => (pseudo_values s r, s).

  Section Depth.
    (** The number of trees, and [edge.copula] of edge [k] on a level. *)
    Variable depth : nat.
    Variable copula : nat -> nat -> C.

    (** [self.tree is not None and self.tree.is_count_visits], _utils.py 216, 259:
        the node of an edge on level [l] belongs to tree [l + 1]; the nodes attached
        to the edges of the last tree belong to none. *)
    Definition is_count (s : vine_state) (l : nat) : bool := (S l <? depth) && counting s.

    (** _utils.py 218-221, 261-264. *)
    Definition visit (l k : nat) (is_u : bool) (s : vine_state) : vine_state :=
      let m := margins s l k is_u in
      set_margin s l k is_u
        (if is_count s l
         then {| cached := cached m; seen := seen m; expected := S (expected m) |}
         else {| cached := cached m; seen := S (seen m); expected := expected m |}).

    (** _utils.py 232-239, 275-282. *)
    Definition release (l k : nat) (is_u : bool) (s : vine_state) : vine_state :=
      let m := margins s l k is_u in
      if negb (is_count s l) && negb (expected m =? 0) && (seen m =? expected m)
      then set_margin s l k is_u {| cached := None; seen := 0; expected := expected m |}
      else s.

    (** _utils.py 226-228, 269-271. *)
    Definition evaluate (l k : nat) (is_u : bool) (x y : V) : run V := fun s =>
      if is_count s l then (Some nan, set_value s l k is_u nan)
      else let w := (if is_u then hu else hv) (copula l k) x y in
           (Some w, set_value (log_call s l k is_u) l k is_u w).

    (** The properties [ChildNode.u] and [ChildNode.v], _utils.py 204-241, 247-284,
        with [Edge.get_X] (406-426) of the edge of the node. *)
    Fixpoint read_margin (t : tree) (below : list tree) (k : nat) (is_u : bool)
      : run V :=
      let l := length below in
      let a := fst (edge_at t k) in
      let b := snd (edge_at t k) in
      bind (modify (visit l k is_u)) (fun _ s =>
        match cached (margins s l k is_u) with
        | Some x => (Some x, release l k is_u s)
        | None =>
            bind
              (match below with
               | [] => bind (read_pseudo a) (fun x => bind (read_pseudo b) (fun y =>
                         evaluate l k is_u x y))
               | t' :: below' =>
                   match shared_node_is_left (edge_at t' a) (edge_at t' b) with
                   | Some (l1, l2) =>
                       bind (read_margin t' below' a (negb l1)) (fun x =>
                       bind (read_margin t' below' b (negb l2)) (fun y =>
                       evaluate l k is_u x y))
                   | None => fail
                   end
               end)
              (fun x s => (Some x, release l k is_u s)) s
        end).

    (** [Edge.get_X], _utils.py 406-426, of edge [k] of tree [t]. *)
    Definition edge_X (t : tree) (below : list tree) (k : nat) : run (V * V) :=
      let a := fst (edge_at t k) in
      let b := snd (edge_at t k) in
      match below with
      | [] => bind (read_pseudo a) (fun x => bind (read_pseudo b) (fun y => ret (x, y)))
      | t' :: below' =>
          match shared_node_is_left (edge_at t' a) (edge_at t' b) with
          | Some (l1, l2) =>
              bind (read_margin t' below' a (negb l1)) (fun x =>
              bind (read_margin t' below' b (negb l2)) (fun y => ret (x, y)))
          | None => fail
          end
      end.

    (** [_inverse_partial_derivative], _vine_copula.py 1230-1236; [counted] is
        [is_count] of [_propagate_samples]. *)
    Definition inverse (counted : bool) (l k : nat) (p y : V) : V :=
      if counted then nan else hinv (copula l k) p y.

    (** One item of the queue and the items it pushes in front of it,
        _vine_copula.py 1196-1227. *)
    Fixpoint go_down (counted : bool) (t : tree) (below : list tree) (k : nat)
        (is_left : bool) : run unit :=
      let l := length below in
      let a := fst (edge_at t k) in
      let b := snd (edge_at t k) in
      match below with
      | [] =>
          bind (read_margin t below k is_left) (fun p =>
          bind (read_pseudo (if is_left then b else a)) (fun y =>
          modify (fun s => set_pseudo s (if is_left then a else b)
                             (inverse counted l k p y))))
      | t' :: below' =>
          match shared_node_is_left (edge_at t' a) (edge_at t' b) with
          | Some (l1, l2) =>
              bind (read_margin t below k is_left) (fun p =>
              if is_left then
                bind (read_margin t' below' b (negb l2)) (fun y =>
                bind (modify (fun s => set_value s (length below') a (negb l1)
                                         (inverse counted l k p y))) (fun _ =>
                go_down counted t' below' a (negb l1)))
              else
                bind (read_margin t' below' a (negb l1)) (fun y =>
                bind (modify (fun s => set_value s (length below') b (negb l2)
                                         (inverse counted l k p y))) (fun _ =>
                go_down counted t' below' b (negb l2))))
          | None => fail
          end
      end.

    Variable enum : list nat -> list nat.
    Variable clip : V -> V.

    (** The initial samples, _vine_copula.py 1168-1194; when visits are counted no
        row of [X_rand] is used. *)
    Fixpoint set_initial (counted : bool) (cond : list nat) (cond_samples : nat -> V)
        (ts : list tree) (order : list entry) (x_rand : list V) : run unit :=
      match order with
      | [] => ret tt
      | e :: rest =>
          let store x := modify (fun s =>
            match e with
            | RootEntry r => set_pseudo s r (clip x)
            | ChildEntry l k lft => set_value s l k lft (clip x)
            end) in
          if counted then
            bind (store nan) (fun _ =>
            set_initial counted cond cond_samples ts rest x_rand)
          else if mem (entry_var enum ts e) cond then
            bind (store (cond_samples (entry_var enum ts e))) (fun _ =>
            set_initial counted cond cond_samples ts rest x_rand)
          else
            match x_rand with
            | x :: xs => bind (store x) (fun _ =>
                         set_initial counted cond cond_samples ts rest xs)
            | [] => fail
            end
      end.

    (** The [while queue] loop. *)
    Fixpoint empty_queue (counted : bool) (ts : list tree) (order : list entry)
      : run unit :=
      match order with
      | [] => ret tt
      | RootEntry _ :: rest => empty_queue counted ts rest
      | ChildEntry l k lft :: rest =>
          match skipn (length ts - S l) ts with
          | t :: below => bind (go_down counted t below k lft) (fun _ =>
                          empty_queue counted ts rest)
          | [] => fail
          end
      end.

    (** [sampling_order[0][0].tree.is_count_visits], _vine_copula.py 1163: the
        lookup raises on an empty order and on a node without a tree. *)
    Definition order_counted (order : list entry) : run bool := fun s =>
      match order with
      | RootEntry _ :: _ => (Some (counting s), s)
      | ChildEntry l _ _ :: _ => if S l <? depth then (Some (counting s), s) else (None, s)
      | [] => (None, s)
      end.

    (** [_propagate_samples], _vine_copula.py 1155-1227. *)
    Definition propagate_samples (cond : list nat) (cond_samples : nat -> V)
        (ts : list tree) (order : list entry) (x_rand : list V) : run unit :=
      bind (order_counted order) (fun counted =>
      bind (set_initial counted cond cond_samples ts order x_rand) (fun _ =>
      empty_queue counted ts order)).

    (** [with self._count_node_visits()], _vine_copula.py 1107-1121: the [finally]
        clause runs whether or not the body raises. *)
    Definition count_node_visits (body : run unit) : run unit := fun s =>
      let (r, s') := body (set_counting s true) in
      (r, clear_cache false (set_counting s' false)).

    (** The two passes, _vine_copula.py 575-593. *)
    Definition two_passes (cond : list nat) (cond_samples : nat -> V) (ts : list tree)
        (order : list entry) (x_rand : list V) : run unit :=
      bind (count_node_visits (propagate_samples cond cond_samples ts order x_rand))
           (fun _ => propagate_samples cond cond_samples ts order x_rand).

    (** [pseudo_values] of all root nodes, _vine_copula.py 596. *)
    Fixpoint collect (rs : list nat) : run (list V) :=
      match rs with
      | [] => ret []
      | r :: rest => bind (read_pseudo r) (fun x => bind (collect rest) (fun xs =>
                     ret (x :: xs)))
      end.
  End Depth.

  (** [VineCopula.sample], _vine_copula.py 561-597: the uniforms [x_rand] and
      [cond_samples] are given ([_init_conditioning] is modelled in
      VineConditionModel.v), and the result is the matrix before it is clipped and
      transformed back, one value per variable. *)
  Definition sample (enum : list nat -> list nat) (clip : V -> V) (n : nat)
      (ts : list tree) (copula : nat -> nat -> C)
      (cond : list nat) (cond_samples : nat -> V) (x_rand : list V) : run (list V) :=
    bind (modify (clear_cache true)) (fun _ =>
      match sampling_order enum cond n ts with
      | None => fail
      | Some order =>
          bind (two_passes (length ts) copula enum clip cond cond_samples ts order x_rand)
            (fun _ =>
          bind (collect (seq 0 n)) (fun xs =>
          bind (modify (clear_cache true)) (fun _ => ret xs)))
      end).

  (** The pairs [edge.get_X()] scored for the edges of one tree, and for all trees,
      the first tree first (_vine_copula.py 507-509). *)
  Fixpoint tree_pairs (depth : nat) (copula : nat -> nat -> C) (t : tree)
      (below : list tree) (ks : list nat) : run (list (V * V)) :=
    match ks with
    | [] => ret []
    | k :: rest => bind (edge_X depth copula t below k) (fun x =>
                   bind (tree_pairs depth copula t below rest) (fun xs => ret (x :: xs)))
    end.
  Fixpoint all_pairs (depth : nat) (copula : nat -> nat -> C) (ts : list tree)
    : run (list (V * V)) :=
    match ts with
    | [] => ret []
    | t :: below =>
        bind (all_pairs depth copula below) (fun xs =>
        bind (tree_pairs depth copula t below (seq 0 (length t))) (fun ys =>
        ret (xs ++ ys)))
    end.

  (** [VineCopula.score_samples], _vine_copula.py 477-512: the pairs whose scores
      are added up, given the pseudo-values [x] of the variables. *)
  Definition score_pairs (ts : list tree) (copula : nat -> nat -> C) (n : nat)
      (x : nat -> V) : run (list (V * V)) :=
    bind (modify (clear_cache true)) (fun _ =>
    bind (modify (fun s => fold_left (fun s i => set_pseudo s i (x i)) (seq 0 n) s)) (fun _ =>
    bind (all_pairs (length ts) copula ts) (fun xs =>
    bind (modify (clear_cache true)) (fun _ => ret xs)))).

  (** A fitted vine as [VineCopula.fit] leaves it (_vine_copula.py 455-461): all
      values cleared, no visit counted. *)
  Definition fitted_state : vine_state :=
    {| pseudo_values := fun _ => None;
       margins := fun _ _ _ => {| cached := None; seen := 0; expected := 0 |};
       counting := false; evaluated := [] |}.
End Cache.
