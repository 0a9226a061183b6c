(** Model of src/skfolio/portfolio/_multi_period_portfolio.py.  No proofs here.
    Simplifications: a contained portfolio is its returns (of any type A) and its observations
    (integers, e.g. timestamps); indices are non-negative; the measure cache is modelled in
    PortfolioModel.v.  Python list objects live in a heap because a list can be shared. *)
From Coq Require Import List ZArith Bool Arith.
Import ListNotations.
Local Open Scope Z_scope.

Section Multi.
  Variable A : Type.   (* a return *)
  Variable P : Type.   (* the other constructor arguments: risk_free_rate, compounded, betas, ... *)
  Variable default_params : P.
  Variable neg : A -> A.

  Record portfolio := { p_returns : list A; p_observations : list Z }.

  Record multi := {
    ref : nat;                          (* the list object in _portfolios *)
    returns : list A;
    observations : list Z;
    check_observations_order : bool;
    params : P
  }.
  Record heap := { lists : list (list portfolio); objects : list multi }.

  Definition first (p : portfolio) : option Z := hd_error (p_observations p).
  Definition last_obs (p : portfolio) : option Z := hd_error (rev (p_observations p)).

  (** the loop of _set_portfolios, lines 516-525: true when a ValueError (or IndexError on an
      empty portfolio) is raised *)
  Fixpoint overlaps (prev : portfolio) (l : list portfolio) : bool :=
    match l with
    | [] => false
    | p :: l =>
        match first p, last_obs prev with
        | Some a, Some b => if a <=? b then true else overlaps p l
        | _, _ => true
        end
    end.
  (** _set_portfolios, lines 493-530, on the content of the list; None is an exception raised
      before any attribute is modified *)
  Definition concatenated (check : bool) (l : list portfolio) : option (list A * list Z) :=
    match l with
    | [] => Some ([], [])
    | p :: rest =>
        if check && overlaps p rest then None
        else Some (concat (map p_returns l), concat (map p_observations l))
    end.

  Definition lookup (h : heap) (r : nat) : list portfolio := nth r (lists h) [].
  Fixpoint set_nth {B} (l : list B) (i : nat) (x : B) : list B :=
    match l, i with
    | [], _ => []
    | _ :: l, O => x :: l
    | y :: l, S i => y :: set_nth l i x
    end.
  Fixpoint del_nth {B} (l : list B) (i : nat) : list B :=
    match l, i with
    | [], _ => []
    | _ :: l, O => l
    | y :: l, S i => y :: del_nth l i
    end.

  Inductive op :=
  | New (l : list portfolio) (check : bool) (p : P)     (* MultiPeriodPortfolio(portfolios=[...]) *)
  | Append (i : nat) (p : portfolio)
  | SetItem (i k : nat) (p : portfolio)
  | DelItem (i k : nat)
  | SetPortfolios (i : nat) (l : list portfolio)        (* m.portfolios = [...] *)
  | Copy (i : nat)                                      (* m.copy() *)
  | Neg (i : nat)                                       (* -m *)
  | ReadReturns (i : nat)
  | ReadObservations (i : nat)
  | ReadPortfolios (i : nat)
  | ReadParams (i : nat).
  Inductive out := OutReturns (l : list A) | OutObservations (l : list Z) | OutPortfolios (l : list portfolio) | OutParams (p : P) | Done | Raised.

  (** store a new list object in object [i] *)
  Definition set_portfolios (h : heap) (i : nat) (m : multi) (l : list portfolio) : heap * out :=
    match concatenated (check_observations_order m) l with
    | None => (h, Raised)
    | Some (r, o) =>
        ({| lists := lists h ++ [l];
            objects := set_nth (objects h) i
              {| ref := length (lists h); returns := r; observations := o;
                 check_observations_order := check_observations_order m; params := params m |} |}, Done)
    end.
  (** constructor, lines 328-368 *)
  Definition construct (h : heap) (l : list portfolio) (check : bool) (p : P) : heap * out :=
    match concatenated check l with
    | None => (h, Raised)
    | Some (r, o) =>
        ({| lists := lists h ++ [l];
            objects := objects h ++ [{| ref := length (lists h); returns := r; observations := o;
                                        check_observations_order := check; params := p |}] |}, Done)
    end.
  (** append, lines 630-658 *)
  Definition append (h : heap) (i : nat) (m : multi) (p : portfolio) : heap * out :=
    let l := lookup h (ref m) in
    let clash :=
      if check_observations_order m && negb (length l =? 0)%nat then
        match first p, hd_error (rev l) with
        | Some start_date, Some prev => match last_obs prev with Some b => start_date <? b | None => true end
        | _, _ => true
        end
      else false in
    if clash then (h, Raised)
    else
      let '(r, o) := if (length (observations m) =? 0)%nat then (p_returns p, p_observations p)
                     else (returns m ++ p_returns p, observations m ++ p_observations p) in
      ({| lists := set_nth (lists h) (ref m) (l ++ [p]);
          objects := set_nth (objects h) i
            {| ref := ref m; returns := r; observations := o;
               check_observations_order := check_observations_order m; params := params m |} |}, Done).
  (** Portfolio.__neg__ seen from here (see PortfolioArithModel.v) *)
  Definition neg_portfolio (p : portfolio) : portfolio :=
    {| p_returns := map neg (p_returns p); p_observations := p_observations p |}.

  Definition step (h : heap) (o : op) : heap * out :=
    let on i (f : multi -> heap * out) := match nth_error (objects h) i with Some m => f m | None => (h, Raised) end in
    match o with
    | New l c p => construct h l c p
    | Append i p => on i (fun m => append h i m p)
    (* __setitem__, lines 376-382: the list is copied first *)
    | SetItem i k p => on i (fun m => let l := lookup h (ref m) in
                                      if (k <? length l)%nat then set_portfolios h i m (set_nth l k p) else (h, Raised))
    (* __delitem__, lines 384-388 *)
    | DelItem i k => on i (fun m => let l := lookup h (ref m) in
                                    if (k <? length l)%nat then set_portfolios h i m (del_nth l k) else (h, Raised))
    | SetPortfolios i l => on i (fun m => set_portfolios h i m l)
    (* BasePortfolio.__copy__: every slot is copied, the list object is shared *)
    | Copy i => on i (fun m => ({| lists := lists h; objects := objects h ++ [m] |}, Done))
    (* __neg__, lines 398-403: only tag and fitness_measures are passed on *)
    | Neg i => on i (fun m => construct h (map neg_portfolio (lookup h (ref m))) false default_params)
    | ReadReturns i => on i (fun m => (h, OutReturns (returns m)))
    | ReadObservations i => on i (fun m => (h, OutObservations (observations m)))
    | ReadPortfolios i => on i (fun m => (h, OutPortfolios (lookup h (ref m))))
    | ReadParams i => on i (fun m => (h, OutParams (params m)))
    end.
  Fixpoint run (h : heap) (ops : list op) : heap * list out :=
    match ops with
    | [] => (h, [])
    | o :: ops => let (h, v) := step h o in let (h, vs) := run h ops in (h, v :: vs)
    end.
  Definition empty_heap : heap := {| lists := []; objects := [] |}.
End Multi.
Arguments p_returns {A}. Arguments p_observations {A}. Arguments ref {A P}. Arguments returns {A P}. Arguments observations {A P}.
Arguments check_observations_order {A P}. Arguments params {A P}. Arguments lists {A P}. Arguments objects {A P}. Arguments lookup {A P}.
Arguments first {A}. Arguments last_obs {A}. Arguments concatenated {A}. Arguments overlaps {A}. Arguments set_portfolios {A P}.
Arguments construct {A P}. Arguments append {A P}. Arguments step {A P}. Arguments run {A P}. Arguments empty_heap {A P}. Arguments neg_portfolio {A}.
Arguments New {A P}. Arguments Append {A P}. Arguments SetItem {A P}. Arguments DelItem {A P}. Arguments SetPortfolios {A P}. Arguments Copy {A P}.
Arguments Neg {A P}. Arguments ReadReturns {A P}. Arguments ReadObservations {A P}. Arguments ReadPortfolios {A P}. Arguments ReadParams {A P}.
Arguments OutReturns {A P}. Arguments OutObservations {A P}. Arguments OutPortfolios {A P}. Arguments OutParams {A P}. Arguments Done {A P}. Arguments Raised {A P}.
