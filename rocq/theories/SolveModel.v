(** Model of ConvexOptimization._solve_problem, optimization/convex/_base.py lines 1052-1183, and of the target returns of the
    efficient frontier, _mean_risk.py lines 925-952.  No proofs here.  The solver is a parameter: from the parameter values it
    returns the weights already divided by the factor with the problem values, or fails (SolverError or no solution). *)
From Coq Require Import List Arith Bool Reals.
From Verif Require Import RList ConvexModel RiskModel MeanRiskModel.
Import ListNotations.
Local Open Scope R_scope.

Inductive pvalue := PScalar (x : R) | PList (l : list R).
Inductive serror := SolverNotInstalled | DifferentLengths | SolverError | IndexError | NegativeReturns.
Inductive sres (A : Type) := SOk (x : A) | SErr (e : serror).
Arguments SOk {A}. Arguments SErr {A}.
(** weights_ and problem_values_: one solution, or a list of them *)
Inductive solution (A : Type) := One (x : A) | Many (l : list A).
Arguments One {A}. Arguments Many {A}.

Section Solve.
  Context {A : Type}.
  Variable solver : list R -> option A.
  Variable raise_on_failure : bool.
  (** line 1107 *)
  Definition sizes (pv : list pvalue) : list nat := flat_map (fun p => match p with PScalar _ => [] | PList l => [length l] end) pv.
  (** np.all(sizes): every size is non-zero *)
  Definition np_all (l : list nat) : bool := forallb (fun n => negb (n =? 0)%nat) l.
  (** lines 1104-1114 *)
  Definition n_optimizations (pv : list pvalue) : sres nat :=
    if negb (np_all (sizes pv)) then SErr DifferentLengths
    else SOk (match sizes pv with [] => 1%nat | n :: _ => n end).
  (** lines 1115-1125: the i-th value of each parameter *)
  Fixpoint at_index (pv : list pvalue) (i : nat) : option (list R) :=
    match pv with
    | [] => Some []
    | p :: pv => match (match p with PScalar x => Some x | PList l => nth_error l i end), at_index pv i with
                 | Some x, Some l => Some (x :: l) | _, _ => None end
    end.
  (** the loop, lines 1122-1164 *)
  Fixpoint solve_loop (pv : list pvalue) (indices : list nat) : sres (list A) :=
    match indices with
    | [] => SOk []
    | i :: indices =>
        match at_index pv i with
        | None => SErr IndexError
        | Some x =>
            match solver x with
            | Some a => match solve_loop pv indices with SOk l => SOk (a :: l) | SErr e => SErr e end
            | None => if raise_on_failure then SErr SolverError else solve_loop pv indices
            end
        end
    end.
  Definition solve_problem (pv : list pvalue) : sres (solution A) :=
    match n_optimizations pv with
    | SErr e => SErr e
    | SOk n =>
        match solve_loop pv (seq 0 n) with
        | SErr e => SErr e
        | SOk l => if (n =? 1)%nat then match l with a :: _ => SOk (One a) | [] => SErr IndexError end   (* lines 1173-1175 *)
                   else SOk (Many l)
        end
    end.
End Solve.

(** problem_values_, lines 1135-1155: the expression divided by the factor, the risk a second time for the variances *)
Definition reported_return (q : mean_risk) (p : point) : R := er q p / f_ p.
Definition reported_risk (q : mean_risk) (p : point) : R :=
  let r := risk q p / f_ p in
  match risk_measure_ q with VARIANCE | SEMI_VARIANCE => r / f_ p | _ => r end.
(** np.linspace(a, b, num) *)
Definition linspace (a b : R) (num : nat) : list R := map (fun k => a + INR k * ((b - a) / INR (num - 1))) (seq 0 num).
(** targets of the efficient frontier *)
Definition frontier_targets (min_return max_return : R) (size : nat) : sres (list R) :=
  if Rle_dec max_return 0 then SErr NegativeReturns else SOk (linspace (Rmax min_return (1 / 10000000000) * (101/100)) max_return size).
