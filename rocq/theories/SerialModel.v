(** Model of the construction, copying and serialisation of portfolios
    (src/skfolio/portfolio/_base.py, _portfolio.py and _multi_period_portfolio.py).  No proofs here.
    numpy arrays and DataFrames live in a heap because a portfolio keeps a reference to the arrays
    of its caller.  pickle.loads(pickle.dumps(p)) and copy.deepcopy(p) both call __reduce__, copy
    the arguments with a memo and call the class on the copies: one operation models both.
    Simplifications: the arithmetic is arbitrary; observations are integers; the
    settings are numbers, strings, booleans, None or lists of measures (anything else is outside the
    model and fails); the list of portfolios of a multi-period portfolio is a value (its aliasing is
    in MultiPeriodModel.v) and its items are single-period portfolios; the measure cache is in
    PortfolioModel.v; the arrays [returns] and [observations] of a portfolio are not written in place. *)
From Coq Require Import String List ZArith Bool Arith.
Import ListNotations.
Local Open Scope string_scope.
Local Open Scope list_scope.
Local Open Scope nat_scope.

(** what the code takes from numpy and Python; the only law is that zero is not NaN *)
Record world := {
  num : Type;
  zero_ : num; c252_ : num; c095_ : num; c1_ : num;      (* the literals of the signatures *)
  add_ : num -> num -> num; sub_ : num -> num -> num; mul_ : num -> num -> num; absolute_ : num -> num;
  nan_ : num -> bool; is_zero_ : num -> bool;
  id_string_ : nat -> string;                            (* str(id(self)) of the k-th object *)
  zero_number : nan_ zero_ = false;
  default_names_ : nat -> list string                    (* default_asset_names, utils/tools.py lines 688-701 *)
}.

Section Serial.
  Variable W : world.
  Local Notation A := (num W).
  Local Notation zero := (zero_ W). Local Notation c252 := (c252_ W). Local Notation c095 := (c095_ W). Local Notation c1 := (c1_ W).
  Local Notation add := (add_ W). Local Notation sub := (sub_ W). Local Notation mul := (mul_ W). Local Notation absolute := (absolute_ W).
  Local Notation nan := (nan_ W). Local Notation is_zero := (is_zero_ W).
  Local Notation id_string := (id_string_ W). Local Notation default_names := (default_names_ W).

  Inductive cell :=
  | Vec (l : list A)                                                          (* a 1D array *)
  | Mat (n_assets : nat) (frame : option (list string * list Z)) (rows : list (list A)).
                                  (* a 2D array, or a DataFrame with its columns and its index *)
  Inductive value :=
  | None_ | Num (a : A) | Str (s : string) | Flag (b : bool) | Measures (l : list string)
  | Names (l : list string) | Count (n : nat)
  | Lit (l : list A)                             (* a Python list of numbers *)
  | Dict (l : list (string * A))                 (* a dictionary from asset names to numbers *)
  | Ref (r : nat)                                (* an array or DataFrame *)
  | Objs (l : list nat).                         (* a list of portfolios *)
  Inductive kind := Single | Multi.
  Record obj := { kind_of : kind; attr : string -> value; returns : list A; observations : list Z }.
  Record state := { cells : list cell; objs : list obj }.

  Definition lookup {B} (d : list (string * B)) (n : string) : option B :=
    match find (fun p => String.eqb (fst p) n) d with Some p => Some (snd p) | None => None end.

  (** the signatures, _portfolio.py lines 432-454 and _multi_period_portfolio.py lines 328-347:
      args_names(__init__) (utils/tools.py lines 310-325) is this list *)
  Definition init_names (k : kind) : list string :=
    match k with
    | Single => ["X"; "weights"; "previous_weights"; "transaction_costs"; "management_fees"; "risk_free_rate"; "name"; "tag";
                 "annualized_factor"; "fitness_measures"; "compounded"; "min_acceptable_return"; "value_at_risk_beta";
                 "entropic_risk_measure_theta"; "entropic_risk_measure_beta"; "cvar_beta"; "evar_beta";
                 "drawdown_at_risk_beta"; "cdar_beta"; "edar_beta"]
    | Multi => ["portfolios"; "name"; "tag"; "risk_free_rate"; "annualized_factor"; "fitness_measures"; "compounded";
                "min_acceptable_return"; "value_at_risk_beta"; "entropic_risk_measure_theta"; "entropic_risk_measure_beta";
                "cvar_beta"; "evar_beta"; "drawdown_at_risk_beta"; "cdar_beta"; "edar_beta"; "check_observations_order"]
    end.
  Definition defaults : list (string * value) :=
    [("previous_weights", None_); ("transaction_costs", None_); ("management_fees", None_); ("risk_free_rate", Num zero);
     ("name", None_); ("tag", None_); ("annualized_factor", Num c252); ("fitness_measures", None_); ("compounded", Flag false);
     ("min_acceptable_return", None_); ("value_at_risk_beta", Num c095); ("entropic_risk_measure_theta", Num c1);
     ("entropic_risk_measure_beta", Num c095); ("cvar_beta", Num c095); ("evar_beta", Num c095);
     ("drawdown_at_risk_beta", Num c095); ("cdar_beta", Num c095); ("edar_beta", Num c095);
     ("portfolios", None_); ("check_observations_order", Flag false)].
  (** argument [n] of a call with keywords [kw]; None: a required argument is missing *)
  Definition arg (kw : list (string * value)) (n : string) : option value :=
    match lookup kw n with Some v => Some v | None => lookup defaults n end.
  Definition plain (v : value) : bool :=
    match v with None_ | Num _ | Str _ | Flag _ | Measures _ => true | _ => false end.
  Definition setting kw n : option value :=
    match arg kw n with Some v => if plain v then Some v else None | None => None end.

  (** input_to_array with dim=1, utils/tools.py lines 396-442: an array is used as it is, a list or a
      dictionary becomes a new array *)
  Definition valid (n : nat) (l : list A) : bool := negb (existsb nan l) && (length l =? n).
  Definition alloc (cs : list cell) (c : cell) : list cell * nat := (cs ++ [c], length cs).
  Definition to_array (cs : list cell) (n : nat) (names : option (list string)) (v : value) : option (list cell * nat) :=
    match v with
    | Ref r => match nth_error cs r with
               | Some (Vec l) => if valid n l then Some (cs, r) else None
               | _ => None
               end
    | Lit l => if valid n l then Some (alloc cs (Vec l)) else None
    | Dict d =>
        match names with
        | None => None
        | Some ns =>
            let l := map (fun a => match lookup d a with Some x => x | None => zero end) ns in
            if valid n l then Some (alloc cs (Vec l)) else None
        end
    | _ => None
    end.
  Definition content (cs : list cell) (r : nat) : list A :=
    match nth_error cs r with Some (Vec l) => l | _ => [] end.
  (** previous_weights, _portfolio.py lines 479-489 *)
  Definition resolve_previous (cs : list cell) n names (v : value) : option (list cell * nat) :=
    match v with
    | None_ => Some (alloc cs (Vec (repeat zero n)))
    | v => to_array cs n names v
    end.
  (** transaction_costs and management_fees, lines 491-513 *)
  Definition resolve_cost (cs : list cell) n names (v : value) : option (list cell * value) :=
    match v with
    | None_ => Some (cs, Num zero)
    | Num a => Some (cs, Num a)
    | v => match to_array cs n names v with Some (cs, r) => Some (cs, Ref r) | None => None end
    end.

  Fixpoint zip_with (f : A -> A -> A) (l m : list A) : list A :=
    match l, m with
    | a :: l, b :: m => f a b :: zip_with f l m
    | _, _ => []
    end.
  Definition total (l : list A) : A := fold_right add zero l.
  (** lines 523-531: (costs * amounts).sum(), with the shortcut for the scalar zero *)
  Definition charge (cs : list cell) (v : value) (amounts : list A) : A :=
    match v with
    | Num a => if is_zero a then zero else total (map (fun x => mul a x) amounts)
    | Ref r => total (zip_with mul (content cs r) amounts)
    | _ => zero
    end.

  (** BasePortfolio.__init__, _base.py lines 478-520; [k] is the identity of the new object *)
  Definition base_attrs (k : nat) (name tag annualized_factor fitness_measures risk_free_rate compounded
      min_acceptable_return value_at_risk_beta entropic_risk_measure_theta entropic_risk_measure_beta
      cvar_beta evar_beta drawdown_at_risk_beta cdar_beta edar_beta : value) : list (string * value) :=
    [("annualized_factor", annualized_factor); ("risk_free_rate", risk_free_rate); ("tag", tag);
     ("compounded", compounded); ("min_acceptable_return", min_acceptable_return);
     ("value_at_risk_beta", value_at_risk_beta); ("entropic_risk_measure_theta", entropic_risk_measure_theta);
     ("entropic_risk_measure_beta", entropic_risk_measure_beta); ("cvar_beta", cvar_beta); ("evar_beta", evar_beta);
     ("drawdown_at_risk_beta", drawdown_at_risk_beta); ("cdar_beta", cdar_beta); ("edar_beta", edar_beta);
     ("name", match name with None_ => Str (id_string k) | v => v end);
     ("fitness_measures", match fitness_measures with None_ => Measures ["mean"; "variance"] | v => v end)].
  (** the calls super().__init__(...), _portfolio.py lines 538-556 and _multi_period_portfolio.py lines 348-366 *)
  Definition base_init (k : nat) (kw : list (string * value)) : option (list (string * value)) :=
    match setting kw "name", setting kw "tag", setting kw "annualized_factor", setting kw "fitness_measures",
          setting kw "risk_free_rate", setting kw "compounded", setting kw "min_acceptable_return",
          setting kw "value_at_risk_beta" with
    | Some name, Some tag, Some annualized_factor, Some fitness_measures, Some risk_free_rate, Some compounded,
      Some min_acceptable_return, Some value_at_risk_beta =>
        match setting kw "entropic_risk_measure_theta", setting kw "entropic_risk_measure_beta", setting kw "cvar_beta",
              setting kw "evar_beta", setting kw "drawdown_at_risk_beta", setting kw "cdar_beta", setting kw "edar_beta" with
        | Some theta, Some entropic_beta, Some cvar_beta, Some evar_beta, Some drawdown_beta, Some cdar_beta, Some edar_beta =>
            Some (base_attrs k name tag annualized_factor fitness_measures risk_free_rate compounded min_acceptable_return
                    value_at_risk_beta theta entropic_beta cvar_beta evar_beta drawdown_beta cdar_beta edar_beta)
        | _, _, _, _, _, _, _ => None
        end
    | _, _, _, _, _, _, _, _ => None
    end.
  Definition attributes (l : list (string * value)) (n : string) : value :=
    match lookup l n with Some v => v | None => None_ end.

  (** Portfolio.__init__, _portfolio.py lines 432-570; None is an exception *)
  Definition new_single (cs : list cell) (k : nat) (kw : list (string * value)) : option (list cell * obj) :=
    match arg kw "X", arg kw "weights", arg kw "previous_weights", arg kw "transaction_costs", arg kw "management_fees" with
    | Some (Ref x), Some wv, Some pv, Some tv, Some mv =>
        match nth_error cs x with
        | Some (Mat n frame rows) =>
            let names := match frame with Some (columns, _) => Some columns | None => None end in
            match to_array cs n names wv with
            | None => None
            | Some (cs, w) =>
                match resolve_previous cs n names pv with
                | None => None
                | Some (cs, p) =>
                    match resolve_cost cs n names tv with
                    | None => None
                    | Some (cs, t) =>
                        match resolve_cost cs n names mv with
                        | None => None
                        | Some (cs, m) =>
                            let weights := content cs w in
                            let obs := match frame with Some (_, index) => index | None => map Z.of_nat (seq 0 (length rows)) end in
                            let assets := match names with Some l => l | None => default_names n end in
                            let cost := charge cs t (map absolute (zip_with sub (content cs p) weights)) in
                            let fee := charge cs m weights in
                            let rets := map (fun row => sub (sub (total (zip_with mul weights row)) cost) fee) rows in
                            if existsb nan rets then None
                            else
                              match base_init k kw with
                              | None => None
                              | Some base =>
                                  Some (cs,
                                    {| kind_of := Single;
                                       attr := attributes
                                         ([("X", Ref x); ("assets", Names assets); ("n_assets", Count n); ("weights", Ref w);
                                           ("transaction_costs", t); ("management_fees", m); ("previous_weights", Ref p);
                                           ("total_cost", Num cost); ("total_fee", Num fee)] ++ base);
                                       returns := rets; observations := obs |})
                              end
                        end
                    end
                end
            end
        | _ => None
        end
    | _, _, _, _, _ => None
    end.

  (** the loop of _set_portfolios, _multi_period_portfolio.py lines 516-525: true when it raises *)
  Definition first (p : obj) : option Z := hd_error (observations p).
  Definition last_obs (p : obj) : option Z := hd_error (rev (observations p)).
  Fixpoint overlaps (prev : obj) (l : list obj) : bool :=
    match l with
    | [] => false
    | p :: l =>
        match first p, last_obs prev with
        | Some a, Some b => if (a <=? b)%Z then true else overlaps p l
        | _, _ => true
        end
    end.
  Definition is_single (o : obj) : bool := match kind_of o with Single => true | Multi => false end.
  (** the items of a list of portfolios *)
  Fixpoint fetch (os : list obj) (l : list nat) : option (list obj) :=
    match l with
    | [] => Some []
    | i :: l =>
        match nth_error os i, fetch os l with
        | Some o, Some r => if is_single o then Some (o :: r) else None
        | _, _ => None
        end
    end.
  (** _set_portfolios, lines 493-530: the returns and the observations *)
  Definition concatenated (check : value) (l : list obj) : option (list A * list Z) :=
    match l with
    | [] => Some ([], [])
    | p :: rest =>
        let checked := match check with Flag b => b | _ => false end in
        if checked && overlaps p rest then None
        else Some (concat (map returns l), concat (map observations l))
    end.
  (** MultiPeriodPortfolio.__init__, lines 328-368 *)
  Definition new_multi (os : list obj) (k : nat) (kw : list (string * value)) : option obj :=
    match arg kw "portfolios", setting kw "check_observations_order", base_init k kw with
    | Some pv, Some check, Some base =>
        let l := match pv with None_ => Some [] | Objs l => Some l | _ => None end in
        match l with
        | None => None
        | Some l =>
            match fetch os l with
            | None => None
            | Some ps =>
                match concatenated check ps with
                | None => None
                | Some (r, o) =>
                    Some {| kind_of := Multi;
                            attr := attributes ([("check_observations_order", check); ("portfolios", Objs l)] ++ base);
                            returns := r; observations := o |}
                end
            end
        end
    | _, _, _ => None
    end.

  (** ** copy.deepcopy and pickle: the memo maps what was copied to its copy *)
  Record memo := { cell_memo : list (nat * nat); obj_memo : list (nat * nat) }.
  Definition seen (m : list (nat * nat)) (i : nat) : option nat :=
    match find (fun p => fst p =? i) m with Some p => Some (snd p) | None => None end.
  (** an argument other than a list of portfolios *)
  Definition copy_value (cs : list cell) (m : list (nat * nat)) (v : value) : option (list cell * list (nat * nat) * value) :=
    match v with
    | Ref r =>
        match seen m r with
        | Some r' => Some (cs, m, Ref r')
        | None =>
            match nth_error cs r with
            | Some c => let (cs', r') := alloc cs c in Some (cs', (r, r') :: m, Ref r')
            | None => None
            end
        end
    | Objs _ => None
    | v => Some (cs, m, v)
    end.
  Fixpoint copy_values (cs : list cell) (m : list (nat * nat)) (l : list value) : option (list cell * list (nat * nat) * list value) :=
    match l with
    | [] => Some (cs, m, [])
    | v :: l =>
        match copy_value cs m v with
        | None => None
        | Some (cs, m, v) =>
            match copy_values cs m l with
            | None => None
            | Some (cs, m, l) => Some (cs, m, v :: l)
            end
        end
    end.
  (** __reduce__, _base.py lines 522-527: the class and the attributes named like the arguments, in order *)
  Definition reduce (o : obj) : kind * list value := (kind_of o, map (attr o) (init_names (kind_of o))).
  (** the arguments are passed by position *)
  Definition positional (k : kind) (args : list value) : list (string * value) := combine (init_names k) args.

  Definition copy_single (s : state) (m : memo) (i : nat) : option (state * memo * nat) :=
    match seen (obj_memo m) i with
    | Some i' => Some (s, m, i')
    | None =>
        match nth_error (objs s) i with
        | Some o =>
            if is_single o then
              match copy_values (cells s) (cell_memo m) (snd (reduce o)) with
              | None => None
              | Some (cs, cm, args) =>
                  match new_single cs (length (objs s)) (positional (fst (reduce o)) args) with
                  | None => None
                  | Some (cs, o') =>
                      Some ({| cells := cs; objs := objs s ++ [o'] |},
                            {| cell_memo := cm; obj_memo := (i, length (objs s)) :: obj_memo m |}, length (objs s))
                  end
              end
            else None
        | None => None
        end
    end.
  Fixpoint copy_singles (s : state) (m : memo) (l : list nat) : option (state * memo * list nat) :=
    match l with
    | [] => Some (s, m, [])
    | i :: l =>
        match copy_single s m i with
        | None => None
        | Some (s, m, i) =>
            match copy_singles s m l with
            | None => None
            | Some (s, m, l) => Some (s, m, i :: l)
            end
        end
    end.
  Definition copy_multi (s : state) (o : obj) : option state :=
    match snd (reduce o) with
    | Objs l :: settings =>
        match copy_singles s {| cell_memo := []; obj_memo := [] |} l with
        | None => None
        | Some (s, m, l) =>
            match copy_values (cells s) (cell_memo m) settings with
            | None => None
            | Some (cs, _, args) =>
                match new_multi (objs s) (length (objs s)) (positional (fst (reduce o)) (Objs l :: args)) with
                | None => None
                | Some o' => Some {| cells := cs; objs := objs s ++ [o'] |}
                end
            end
        end
    | _ => None
    end.

  (** ** Programs *)
  Inductive op :=
  | Array (c : cell)                              (* a new array or DataFrame *)
  | Write (r : nat) (c : cell)                    (* an in-place modification of array [r] *)
  | New (k : kind) (kw : list (string * value))   (* Portfolio(...) or MultiPeriodPortfolio(...) *)
  | SetAttr (i : nat) (n : string) (v : value)    (* p.n = v *)
  | Append (i j : nat)                            (* m.append(p) *)
  | Copy (i : nat)                                (* p.copy() *)
  | DeepCopy (i : nat).                           (* copy.deepcopy(p), pickle.loads(pickle.dumps(p)) *)

  Fixpoint set_nth {B} (l : list B) (i : nat) (x : B) : list B :=
    match l, i with
    | [], _ => []
    | _ :: l, O => x :: l
    | y :: l, S i => y :: set_nth l i x
    end.
  Definition with_attr (o : obj) (n : string) (v : value) : obj :=
    {| kind_of := kind_of o; attr := fun a => if String.eqb a n then v else attr o a;
       returns := returns o; observations := observations o |}.
  Definition update (s : state) (i : nat) (o : obj) : state := {| cells := cells s; objs := set_nth (objs s) i o |}.
  Definition mem (n : string) (l : list string) : bool := existsb (String.eqb n) l.
  (** the settable attributes: the slots (_base.py lines 394-475) that are neither read-only (_base.py lines 365-368,
      _portfolio.py lines 400-413) nor cached *)
  Definition settable (k : kind) : list string :=
    ["risk_free_rate"; "name"; "tag"; "annualized_factor"; "compounded"; "min_acceptable_return"; "value_at_risk_beta";
     "entropic_risk_measure_theta"; "entropic_risk_measure_beta"; "cvar_beta"; "evar_beta"; "drawdown_at_risk_beta";
     "cdar_beta"; "edar_beta"] ++ match k with Single => [] | Multi => ["check_observations_order"] end.
  (** __setattr__, lines 580-591, the fitness_measures setter, lines 633-643, and the portfolios setter,
      _multi_period_portfolio.py lines 538-544 *)
  Definition set_attr (s : state) (i : nat) (o : obj) (n : string) (v : value) : option state :=
    if String.eqb n "fitness_measures" then
      match v with
      | Measures (_ :: _) => Some (update s i (with_attr o n v))
      | _ => None
      end
    else if String.eqb n "portfolios" && negb (is_single o) then
      match v with
      | Objs l =>
          match fetch (objs s) l with
          | None => None
          | Some ps =>
              match concatenated (attr o "check_observations_order") ps with
              | None => None
              | Some (r, b) =>
                  Some (update s i {| kind_of := kind_of o; attr := attr (with_attr o n v); returns := r; observations := b |})
              end
          end
      | _ => None
      end
    else if mem n (settable (kind_of o)) && plain v then Some (update s i (with_attr o n v))
    else None.
  (** append, _multi_period_portfolio.py lines 630-658 *)
  Definition append (s : state) (i : nat) (o p : obj) (j : nat) : option state :=
    match attr o "portfolios" with
    | Objs l =>
        let checked := match attr o "check_observations_order" with Flag b => b | _ => false end in
        let clash :=
          if checked && negb (length l =? 0)%nat then
            match first p, hd_error (rev l) with
            | Some start_date, Some q =>
                match nth_error (objs s) q with
                | Some prev => match last_obs prev with Some b => (start_date <? b)%Z | None => true end
                | None => true
                end
            | _, _ => true
            end
          else false in
        if clash then None
        else
          let '(r, b) := if (length (observations o) =? 0)%nat then (returns p, observations p)
                         else (returns o ++ returns p, observations o ++ observations p) in
          Some (update s i {| kind_of := kind_of o; attr := attr (with_attr o "portfolios" (Objs (l ++ [j]))); returns := r; observations := b |})
    | _ => None
    end.

  (** every row has one entry per asset, a DataFrame has one label per row and per column *)
  Definition rectangular (c : cell) : bool :=
    match c with
    | Vec _ => true
    | Mat n frame rows =>
        forallb (fun row => length row =? n) rows &&
        match frame with
        | Some (columns, index) => (length columns =? n) && (length index =? length rows)
        | None => true
        end
    end.
  (** one operation; None is an exception: nothing that can be observed has changed *)
  Definition step (s : state) (o : op) : option state :=
    match o with
    | Array c => if rectangular c then Some {| cells := cells s ++ [c]; objs := objs s |} else None
    | Write r c => if (r <? length (cells s)) && rectangular c then Some {| cells := set_nth (cells s) r c; objs := objs s |} else None
    | New Single kw =>
        match new_single (cells s) (length (objs s)) kw with
        | Some (cs, o) => Some {| cells := cs; objs := objs s ++ [o] |}
        | None => None
        end
    | New Multi kw =>
        match new_multi (objs s) (length (objs s)) kw with
        | Some o => Some {| cells := cells s; objs := objs s ++ [o] |}
        | None => None
        end
    | SetAttr i n v => match nth_error (objs s) i with Some o => set_attr s i o n v | None => None end
    | Append i j =>
        match nth_error (objs s) i, nth_error (objs s) j with
        | Some o, Some p => if is_single p && negb (is_single o) then append s i o p j else None
        | _, _ => None
        end
    (* __copy__, _base.py lines 553-564: every slot but the measures *)
    | Copy i => match nth_error (objs s) i with Some o => Some {| cells := cells s; objs := objs s ++ [o] |} | None => None end
    | DeepCopy i =>
        match nth_error (objs s) i with
        | Some o =>
            if is_single o then
              match copy_single s {| cell_memo := []; obj_memo := [] |} i with Some (s, _, _) => Some s | None => None end
            else copy_multi s o
        | None => None
        end
    end.
  Fixpoint run (s : state) (ops : list op) : state :=
    match ops with
    | [] => s
    | o :: ops => run (match step s o with Some s => s | None => s end) ops
    end.
  Definition start : state := {| cells := []; objs := [] |}.
End Serial.
Arguments Vec {W}. Arguments Mat {W}. Arguments None_ {W}. Arguments Num {W}. Arguments Str {W}. Arguments Flag {W}. Arguments Measures {W}.
Arguments Names {W}. Arguments Count {W}. Arguments Lit {W}. Arguments Dict {W}. Arguments Ref {W}. Arguments Objs {W}.
Arguments kind_of {W}. Arguments attr {W}. Arguments returns {W}. Arguments observations {W}. Arguments cells {W}. Arguments objs {W}.
Arguments arg {W}. Arguments plain {W}. Arguments setting {W}. Arguments valid {W}. Arguments alloc {W}. Arguments to_array {W}. Arguments content {W}.
Arguments resolve_previous {W}. Arguments resolve_cost {W}. Arguments zip_with {W}. Arguments total {W}. Arguments charge {W}.
Arguments base_attrs {W}. Arguments base_init {W}. Arguments attributes {W}. Arguments new_single {W}. Arguments new_multi {W}.
Arguments first {W}. Arguments last_obs {W}. Arguments overlaps {W}. Arguments is_single {W}. Arguments fetch {W}. Arguments concatenated {W}.
Arguments copy_value {W}. Arguments copy_values {W}. Arguments reduce {W}. Arguments positional {W}. Arguments copy_single {W}. Arguments copy_singles {W}.
Arguments copy_multi {W}. Arguments Array {W}. Arguments Write {W}. Arguments New {W}. Arguments SetAttr {W}. Arguments Append {W}. Arguments Copy {W}.
Arguments DeepCopy {W}. Arguments with_attr {W}. Arguments update {W}. Arguments set_attr {W}. Arguments append {W}. Arguments rectangular {W}.
Arguments step {W}. Arguments run {W}. Arguments start {W}. Arguments defaults {W}.
