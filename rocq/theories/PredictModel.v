(** Model of [BaseOptimization.predict] and [score], src/skfolio/optimization/_base.py
    lines 56-141, together with the part of the [Portfolio] constructor that reads its
    keyword arguments, src/skfolio/portfolio/_portfolio.py lines 432-568.  No proofs here.

    Simplifications: numbers are exact reals and never NaN, so the two NaN tests never
    fire; X is a table of rows with optional column names; a keyword argument is None, a
    number, an array, a dictionary of numbers or a string; the population is a plain list
    (its class is modelled in PopulationModel.v). *)
From Coq Require Import String Reals Bool Arith List.
From Coq Require Import DecimalString.
From Verif Require Import RList MeasuresModel.
Import ListNotations.
Local Open Scope string_scope.
Local Open Scope R_scope.

Inductive error := ValueError | TypeError | NotFitted.
Inductive result (A : Type) := Ok (a : A) | Err (e : error).
Arguments Ok {A} a.
Arguments Err {A} e.
Definition bind {A B} (r : result A) (f : A -> result B) : result B :=
  match r with Ok a => f a | Err e => Err e end.

(** ** Keyword arguments *)
Inductive value :=
| VNone | VNum (x : R) | VArr (l : list R) | VDict (d : list (string * R)) | VStr (s : string).

(** A dictionary: its pairs in insertion order. *)
Definition dict := list (string * value).
Fixpoint lookup {A : Type} (d : list (string * A)) (k : string) : option A :=
  match d with
  | [] => None
  | (k', v) :: d' => if String.eqb k k' then Some v else lookup d' k
  end.
(** [d[k] = v] for a new key and [d.pop(k, default)] *)
Definition assign (d : dict) (k : string) (v : value) : dict := (d ++ [(k, v)])%list.
Definition remove (d : dict) (k : string) : dict :=
  filter (fun p => negb (String.eqb (fst p) k)) d.

(** ** Memory: Python dictionaries are shared objects, named by their position *)
Definition memory := list dict.
Definition read (m : memory) (a : nat) : dict := nth a m [].
Fixpoint write (m : memory) (a : nat) (d : dict) : memory :=
  match m, a with
  | [], _ => []
  | _ :: m', 0%nat => d :: m'
  | x :: m', S a' => x :: write m' a' d
  end.
(** a new dictionary, at the next address *)
Definition alloc (m : memory) (d : dict) : nat * memory := (length m, (m ++ [d])%list).

(** ** Data *)
Record frame := { columns : option (list string); rows : list (list R); width : nat }.

(** ** Portfolio *)
Record portfolio := {
  returns : list R;
  weights : list R;
  previous_weights : list R;
  transaction_costs : value;
  management_fees : value;
  risk_free_rate : value;
  name : value;
  rest : dict      (* tag, annualized_factor, fitness_measures, compounded, cvar_beta, ... *)
}.

(** the keyword arguments of the constructor other than X and weights, _portfolio.py 437-454 *)
Definition parameters : list string :=
  ["previous_weights"; "transaction_costs"; "management_fees"; "risk_free_rate"; "name"; "tag";
   "annualized_factor"; "fitness_measures"; "compounded"; "min_acceptable_return";
   "value_at_risk_beta"; "entropic_risk_measure_theta"; "entropic_risk_measure_beta"; "cvar_beta";
   "evar_beta"; "drawdown_at_risk_beta"; "cdar_beta"; "edar_beta"].

(** [input_to_array(..., fill_value=0, dim=1)], tools.py 396-442 *)
Definition to_array (X : frame) (v : value) : result (list R) :=
  bind (match v with
        | VDict d =>
            match columns X with
            | None => Err ValueError
            | Some names => Ok (map (fun a => match lookup d a with Some x => x | None => 0 end) names)
            end
        | VArr l => Ok l
        | _ => Err ValueError                     (* not one-dimensional *)
        end)
    (fun l => if (length l =? width X)%nat then Ok l else Err ValueError).

(** _portfolio.py 472-482 *)
Definition previous_of (X : frame) (v : value) : result (list R) :=
  match v with VNone => Ok (repeat 0 (width X)) | _ => to_array X v end.
(** _portfolio.py 484-506: None is 0, a scalar is kept *)
Definition cost_of (X : frame) (v : value) : result value :=
  match v with
  | VNone => Ok (VNum 0)
  | VNum x => Ok (VNum x)
  | VStr s => Ok (VStr s)                         (* np.isscalar is true of a string *)
  | _ => bind (to_array X v) (fun l => Ok (VArr l))
  end.
Definition vmap2 (f : R -> R -> R) (a b : list R) : list R :=
  map (fun p => f (fst p) (snd p)) (combine a b).
(** _portfolio.py 515-523: [c * v] summed; a string cannot be multiplied by an array *)
Definition charge (c : value) (v : list R) : result R :=
  match c with
  | VNum x => if Req_EM_T x 0 then Ok 0 else Ok (rsum (map (Rmult x) v))
  | VArr l => Ok (rsum (vmap2 Rmult l v))
  | _ => Err TypeError
  end.

Definition given (kwargs : dict) (k : string) (default : value) : value :=
  match lookup kwargs k with Some v => v | None => default end.

(** Portfolio(X=X, weights=w, name=name, **kwargs): unknown, repeated or clashing keyword
    arguments are a TypeError; _portfolio.py 432-568 *)
Definition make (X : frame) (w : value) (nm : value) (kwargs : dict) : result portfolio :=
  if negb (forallb (fun p => existsb (String.eqb (fst p)) parameters) kwargs) then Err TypeError
  else if existsb (fun p => String.eqb (fst p) "name") kwargs then Err TypeError
  else
    bind (to_array X w) (fun w =>
    bind (previous_of X (given kwargs "previous_weights" VNone)) (fun prev =>
    bind (cost_of X (given kwargs "transaction_costs" VNone)) (fun tc =>
    bind (cost_of X (given kwargs "management_fees" VNone)) (fun mf =>
    bind (charge tc (map Rabs (vmap2 Rminus prev w))) (fun total_cost =>
    bind (charge mf w) (fun total_fee =>
    Ok {| returns := map (fun row => rsum (vmap2 Rmult w row) - total_cost - total_fee) (rows X);
          weights := w;
          previous_weights := prev;
          transaction_costs := tc;
          management_fees := mf;
          risk_free_rate := given kwargs "risk_free_rate" (VNum 0);
          name := nm;
          rest := filter (fun p => negb (existsb (String.eqb (fst p))
                    ["previous_weights"; "transaction_costs"; "management_fees"; "risk_free_rate"])) kwargs |})))))).

(** ** The estimator *)
Inductive fitted := One (w : list R) | Many (ws : list (list R)).
Record estimator := {
  class_name : string;
  attributes : dict;                       (* transaction_costs, risk_free_rate, ... *)
  portfolio_params : option nat;           (* the address of the user's dictionary *)
  weights_ : option fitted
}.
Inductive prediction := Single (p : portfolio) | Several (ps : list portfolio).

Definition decimal (i : nat) : string := NilEmpty.string_of_uint (Nat.to_uint i).

Fixpoint sequence {A} (l : list (result A)) : result (list A) :=
  match l with
  | [] => Ok []
  | r :: l' => bind r (fun a => bind (sequence l') (fun t => Ok (a :: t)))
  end.

(** lines 87-95: the defaults, one parameter after the other *)
Definition inherit (e : estimator) (a : nat) (m : memory) (param : string) : memory :=
  match lookup (read m a) param, lookup (attributes e) param with
  | None, Some v => write m a (assign (read m a) param v)
  | _, _ => m
  end.
Definition inherited : list string :=
  ["transaction_costs"; "management_fees"; "previous_weights"; "risk_free_rate"].

(** the name inside an f-string; a name that is a number or an array is not modelled *)
Definition show (v : value) : string := match v with VStr s => s | VNone => "None" | _ => "" end.

(** lines 79-119 *)
Definition predict (e : estimator) (X : frame) (m : memory) : result prediction * memory :=
  match weights_ e with
  | None => (Err NotFitted, m)
  | Some ws =>
      let (a, m) := match portfolio_params e with
                    | None => alloc m []
                    | Some p => alloc m (read m p)       (* .copy() *)
                    end in
      let m := fold_left (inherit e a) inherited m in
      let nm := given (read m a) "name" (VStr (class_name e)) in
      let m := write m a (remove (read m a) "name") in
      let kwargs := read m a in
      (match ws with
       | Many ws =>
           bind (sequence (map (fun i =>
                   make X (VArr (nth i ws []))
                     (VStr ("ptf" ++ decimal i ++ " - " ++ show nm)) kwargs)
                   (seq 0 (length ws))))
             (fun ps => Ok (Several ps))
       | One w => bind (make X (VArr w) nm kwargs) (fun p => Ok (Single p))
       end, m)
  end.

(** [portfolio.sharpe_ratio]: the mean minus the risk-free rate over the standard deviation
    (portfolio/_base.py get_measure); None has no difference *)
Definition sharpe_ratio (p : portfolio) : result R :=
  match risk_free_rate p with
  | VNum rf => Ok ((mean (returns p) - rf) / standard_deviation (returns p))
  | _ => Err TypeError
  end.

(** lines 121-141 and Population.measures_mean, population/_population.py 220 and 239 *)
Definition score (e : estimator) (X : frame) (m : memory) : result R * memory :=
  let (r, m) := predict e X m in
  (bind r (fun pred =>
     match pred with
     | Single p => sharpe_ratio p
     | Several ps => bind (sequence (map sharpe_ratio ps)) (fun l => Ok (mean l))
     end), m).
