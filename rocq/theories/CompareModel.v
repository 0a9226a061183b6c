(** Model of the comparison operators of portfolios (src/skfolio/portfolio/_base.py lines 532-551), of the list
    operations that rest on them, and of Population.set_portfolio_params
    (src/skfolio/population/_population.py lines 80-111).  No proofs here. *)
From Coq Require Import String List Arith ZArith QArith Bool.
From Verif Require Import SortingModel.
Import ListNotations.
Local Open Scope string_scope.
Local Open Scope list_scope.
Local Open Scope nat_scope.

(** A Python object: a Portfolio or MultiPeriodPortfolio with its identity and its fitness, or something else
    (which defines no comparison with portfolios). *)
Inductive thing := Ptf (id : nat) (multi : bool) (fitness : list fnum) | Other (id : nat).
Inductive result := Val (b : bool) | TypeError | ValueError.
Definition identity (x : thing) : nat := match x with Ptf i _ _ => i | Other i => i end.

(** [x == y] on floats *)
Definition feqb (x y : fnum) : bool :=
  match x, y with
  | FFin p, FFin q => Qeq_bool p q
  | FNegInf, FNegInf | FPosInf, FPosInf => true
  | _, _ => false
  end.
(** np.array_equal of two 1D arrays *)
Fixpoint array_equal (a b : list fnum) : bool :=
  match a, b with
  | [], [] => true
  | x :: a, y :: b => feqb x y && array_equal a b
  | _, _ => false
  end.

(** __eq__, lines 532-535; the first argument is the fitness of self *)
Definition eq_method (f : list fnum) (other : thing) : bool :=
  match other with Ptf _ _ g => array_equal f g | Other _ => false end.
(** __gt__, lines 537-543; a ValueError comes from zip(strict=True) in dominate *)
Definition gt_method (f : list fnum) (other : thing) : result :=
  match other with
  | Other _ => TypeError
  | Ptf _ _ g => match portfolio_dominates f g None with Some b => Val b | None => ValueError end
  end.
(** __ge__, lines 545-551 *)
Definition ge_method (f : list fnum) (other : thing) : result :=
  match other with
  | Other _ => TypeError
  | Ptf _ _ _ => if eq_method f other then Val true else gt_method f other
  end.

(** The operators.  A class without __lt__ and __le__ answers NotImplemented and Python calls the reflected
    method of the other operand; != is the negation of ==. *)
Definition py_eq (x y : thing) : bool :=
  match x, y with
  | Ptf _ _ f, _ => eq_method f y
  | Other _, Ptf _ _ g => eq_method g x
  | Other i, Other j => i =? j
  end.
Definition py_ne (x y : thing) : bool := negb (py_eq x y).
Definition py_gt (x y : thing) : result := match x with Ptf _ _ f => gt_method f y | Other _ => TypeError end.
Definition py_ge (x y : thing) : result := match x with Ptf _ _ f => ge_method f y | Other _ => TypeError end.
Definition py_lt (x y : thing) : result := match y with Ptf _ _ g => gt_method g x | Other _ => TypeError end.
Definition py_le (x y : thing) : result := match y with Ptf _ _ g => ge_method g x | Other _ => TypeError end.

(** ** The inherited list operations: an element matches when it is the same object or compares equal *)
Definition matches (x e : thing) : bool := (identity e =? identity x) || py_eq e x.
Definition contains (l : list thing) (x : thing) : bool := existsb (matches x) l.
Fixpoint index (l : list thing) (x : thing) : option nat :=
  match l with
  | [] => None
  | e :: l => if matches x e then Some 0 else match index l x with Some i => Some (S i) | None => None end
  end.
Definition count (l : list thing) (x : thing) : nat := length (filter (matches x) l).
Fixpoint remove (l : list thing) (x : thing) : option (list thing) :=
  match l with
  | [] => None
  | e :: l => if matches x e then Some l else match remove l x with Some r => Some (e :: r) | None => None end
  end.
(** MultiPeriodPortfolio.__contains__, _multi_period_portfolio.py lines 393-396: a value that is not a
    Portfolio is not contained *)
Definition multi_contains (l : list thing) (x : thing) : bool :=
  match x with Ptf _ false _ => contains l x | _ => false end.
(** the built-in max and min: keep the first element, replace it by each later one that compares greater (less);
    None when a comparison raises or the list is empty *)
Fixpoint best (better : thing -> thing -> result) (m : thing) (l : list thing) : option thing :=
  match l with
  | [] => Some m
  | x :: l => match better x m with Val true => best better x l | Val false => best better m l | _ => None end
  end.
Definition py_max (l : list thing) : option thing := match l with [] => None | m :: l => best py_gt m l end.
Definition py_min (l : list thing) : option thing := match l with [] => None | m :: l => best py_lt m l end.

(** ** Population.set_portfolio_params *)
Section Params.
  Variable V : Type.
  Variable measures : V -> bool.   (* a non-empty list of measures *)

  (** lines 96-101: the arguments of BasePortfolio.__init__ *)
  Definition valid_params : list string :=
    ["returns"; "observations"; "name"; "tag"; "annualized_factor"; "fitness_measures"; "risk_free_rate"; "compounded";
     "min_acceptable_return"; "value_at_risk_beta"; "entropic_risk_measure_theta"; "entropic_risk_measure_beta"; "cvar_beta";
     "evar_beta"; "drawdown_at_risk_beta"; "cdar_beta"; "edar_beta"].
  Definition settings := string -> V.
  (** setattr, _base.py lines 580-591 and 633-643; None is an exception *)
  Definition set_one (o : settings) (key : string) (v : V) : option settings :=
    if existsb (String.eqb key) ["returns"; "observations"] then None
    else if String.eqb key "fitness_measures" && negb (measures v) then None
    else Some (fun n => if String.eqb n key then v else o n).
  (** the portfolios are objects: the population holds their positions in [heap] *)
  Fixpoint set_nth (l : list settings) (i : nat) (x : settings) : list settings :=
    match l, i with
    | [], _ => []
    | _ :: l, O => x :: l
    | y :: l, S i => y :: set_nth l i x
    end.
  (** the inner loop, lines 110-111; the boolean is true when it raises *)
  Fixpoint set_all (heap : list settings) (i : nat) (params : list (string * V)) : list settings * bool :=
    match params with
    | [] => (heap, false)
    | (key, v) :: params =>
        match nth_error heap i with
        | None => (heap, true)
        | Some o =>
            match set_one o key v with
            | None => (heap, true)
            | Some o => set_all (set_nth heap i o) i params
            end
        end
    end.
  Fixpoint set_each (heap : list settings) (population : list nat) (params : list (string * V)) : list settings * bool :=
    match population with
    | [] => (heap, false)
    | i :: population =>
        let (heap, raised) := set_all heap i params in
        if raised then (heap, true) else set_each heap population params
    end.
  Inductive returned := Self | NoneValue | Raised.
  (** lines 93-111: without parameters self is returned; otherwise there is no return statement *)
  Definition set_portfolio_params (heap : list settings) (population : list nat) (params : list (string * V)) : list settings * returned :=
    match params with
    | [] => (heap, Self)
    | _ =>
        if forallb (fun p => existsb (String.eqb (fst p)) valid_params) params then
          let (heap, raised) := set_each heap population params in
          (heap, if raised then Raised else NoneValue)
        else (heap, Raised)
    end.
End Params.
