(** Model of the cache of cvxpy expressions across calls to fit: cache_method (utils/tools.py lines 264-307), _clear_models_cache
    and the cached methods of optimization/convex/_base.py, in the order MeanRisk.fit calls them.  No proofs here.

    Objects (prior models, variables, constants) are identities taken from a counter and never reused: the weight variable of a
    cached expression is kept alive by it.  A key is the tuple of the arguments instead of its hash.  An expression is a
    symbolic term: the method that built it, its arguments and the parameters of the estimator at that time. *)
From Coq Require Import List Arith Bool.
From Verif Require Import RiskModel MeanRiskModel.
Import ListNotations.

Inductive method := ExpectedReturn | MuUncertainty | Regularization | TransactionCost | ManagementFee | Returns | Turnover | MinAcceptable | Drawdown.
Definition method_eqb (a b : method) : bool :=
  match a, b with
  | ExpectedReturn, ExpectedReturn | MuUncertainty, MuUncertainty | Regularization, Regularization | TransactionCost, TransactionCost
  | ManagementFee, ManagementFee | Returns, Returns | Turnover, Turnover | MinAcceptable, MinAcceptable | Drawdown, Drawdown => true
  | _, _ => false
  end.
Fixpoint ids_eqb (a b : list nat) : bool :=
  match a, b with [], [] => true | x :: a, y :: b => (x =? y) && ids_eqb a b | _, _ => false end.
(** what a cached method returned: an expression, or for the drawdown a variable and the expressions its constraints use *)
Inductive expr := Expr (m : method) (args : list nat) (parameters : nat) | DrawdownVar (v : nat) (sub : list expr) (parameters : nat).
(** [DrawdownConstraints v sub]: lines 1445-1453; [OwnConstraints rm vars sub]: the constraints a risk adds itself *)
Inductive item :=
  | Uses (e : expr) | DrawdownConstraints (v : nat) (sub : list expr) (parameters : nat)
  | OwnConstraints (rm : risk_measure) (vars : list nat) (sub : list expr) (parameters : nat) | WeightConstraints (w f : nat) (parameters : nat).
Definition cache_t := list ((method * list nat) * expr).
Record state := { cache : cache_t; next : nat }.
Fixpoint lookup (m : method) (args : list nat) (c : cache_t) : option expr :=
  match c with
  | [] => None
  | ((m', a'), e) :: c => if method_eqb m m' && ids_eqb args a' then Some e else lookup m args c
  end.
(** name in self._cvx_cache *)
Definition has_name (m : method) (c : cache_t) : bool := existsb (fun x => method_eqb m (fst (fst x))) c.

Definition M (A : Type) := state -> A * state.
Definition ret {A} (x : A) : M A := fun s => (x, s).
Definition bind {A B} (a : M A) (k : A -> M B) : M B := fun s => let (x, s') := a s in k x s'.
Notation "x <- a ;; b" := (bind a (fun x => b)) (at level 61, a at next level, right associativity).
Definition fresh : M nat := fun s => (next s, {| cache := cache s; next := S (next s) |}).
(** the wrapper of cache_method *)
Definition cached (m : method) (args : list nat) (body : M expr) : M expr := fun s =>
  match lookup m args (cache s) with
  | Some e => (e, s)
  | None => let (e, s') := body s in (e, {| cache := ((m, args), e) :: cache s'; next := next s' |})
  end.

Section Fit.
  Variable parameters : nat.       (* the parameters of the estimator, as a tag *)
  Variables pm w f : nat.          (* prior model, weight variable, factor *)
  Definition simple (m : method) (args : list nat) : M expr := cached m args (ret (Expr m args parameters)).
  Definition cvx_returns := simple Returns [pm; w].                 (* lines 1320-1338 *)
  Definition cvx_cost := simple TransactionCost [pm; w; f].         (* lines 1236-1284 *)
  Definition cvx_fee := simple ManagementFee [pm; w].               (* lines 1286-1318 *)
  (** __cvx_drawdown, lines 1415-1454 *)
  Definition cvx_drawdown_inner : M expr :=
    cached Drawdown [pm; w; f]
      (r <- cvx_returns ;; c <- cvx_cost ;; g <- cvx_fee ;; v <- fresh ;; ret (DrawdownVar v [r; c; g] parameters)).
  (** _cvx_drawdown, lines 1456-1483 *)
  Definition cvx_drawdown : M (expr * list item) := fun s =>
    if has_name Drawdown (cache s)
    then let (e, s') := cvx_drawdown_inner s in ((e, []), s')
    else let (e, s') := cvx_drawdown_inner s in
         ((e, match e with DrawdownVar v sub p => [DrawdownConstraints v sub p] | Expr _ _ _ => [] end), s').
  Definition is_drawdown (rm : risk_measure) : bool :=
    match rm with MAX_DRAWDOWN | AVERAGE_DRAWDOWN | CDAR | EDAR | ULCER_INDEX => true | _ => false end.
  (** _xxx_risk, lines 1516-2133: the cached calls of each, then its own variables and constraints *)
  Definition risk_items (rm : risk_measure) : M (list item) :=
    match rm with
    | MEAN_ABSOLUTE_DEVIATION | FIRST_LOWER_PARTIAL_MOMENT | SEMI_VARIANCE | SEMI_DEVIATION =>
        m <- simple MinAcceptable [pm; w] ;; v <- fresh ;; ret [OwnConstraints rm [v] [m] parameters]
    | STANDARD_DEVIATION | VARIANCE => v <- fresh ;; ret [OwnConstraints rm [v; w] [] parameters]
    | WORST_REALIZATION | CVAR | EVAR | GINI_MEAN_DIFFERENCE =>
        r <- cvx_returns ;; c <- cvx_cost ;; g <- cvx_fee ;; v <- fresh ;; ret [OwnConstraints rm [v] [r; c; g] parameters]
    | MAX_DRAWDOWN | AVERAGE_DRAWDOWN | CDAR | EDAR | ULCER_INDEX =>
        d <- cvx_drawdown ;; v <- fresh ;; ret (snd d ++ [OwnConstraints rm [v] [fst d] parameters])
    end.
End Fit.

(** what one call to fit does: parameters, optional terms, the risk measures used in order *)
Record config := { params_tag : nat; with_mu_uncertainty : bool; with_turnover : bool; with_tracking_error : bool; measures : list risk_measure }.
(** MeanRisk.fit lines 876-1012, one action per statement; [u] is the uncertainty set *)
Definition actions (c : config) (pm w f u : nat) : list (M (list item)) :=
  let p := params_tag c in
  [ (if with_mu_uncertainty c then e <- simple p MuUncertainty [u; w] ;; ret [Uses e] else ret []);
    (e <- simple p ExpectedReturn [pm; w] ;; ret [Uses e]);
    (e <- cvx_cost p pm w f ;; ret [Uses e]);
    (e <- cvx_fee p pm w ;; ret [Uses e]);
    (e <- simple p Regularization [w] ;; ret [Uses e]);
    (if with_tracking_error c then e <- cvx_returns p pm w ;; ret [Uses e] else ret []);
    (if with_turnover c then e <- simple p Turnover [w; f] ;; ret [Uses e] else ret []);
    ret [WeightConstraints w f p] ]
  ++ map (risk_items p pm w f) (measures c).
Fixpoint run (l : list (M (list item))) : M (list item) :=
  match l with [] => ret [] | a :: l => x <- a ;; y <- run l ;; ret (x ++ y) end.
(** the problem fit builds: the weight variable and the terms and constraints *)
Definition build (c : config) (upto : nat) : M (nat * list item) :=
  pm <- fresh ;; w <- fresh ;; f <- fresh ;; u <- fresh ;; l <- run (firstn upto (actions c pm w f u)) ;; ret (w, l).
Definition complete (c : config) : nat := 8 + length (measures c).
(** how a fit ends: successfully, then the cache is cleared (_solve_problem line 1183), or with an exception after [upto] actions *)
Inductive outcome := Succeeds | Raises (upto : nat).
Definition fit (c : config) (o : outcome) (s : state) : state :=
  match o with
  | Succeeds => {| cache := []; next := next (snd (build c (complete c) s)) |}
  | Raises upto => snd (build c upto s)
  end.
(** __init__ line 569 *)
Definition new_estimator (counter : nat) : state := {| cache := []; next := counter |}.
Definition after (h : list (config * outcome)) (s : state) : state := fold_left (fun s x => fit (fst x) (snd x) s) h s.
(** the problem solved by the next complete fit *)
Definition problem (c : config) (s : state) : nat * list item := fst (build c (complete c) s).
