(** Model of RiskBudgeting.fit, optimization/convex/_risk_budgeting.py lines 436-573: the constraints and the objective as
    assembled.  No proofs here.  Not modelled: custom objective and constraints, overwrite_expected_return. *)
From Coq Require Import List Arith Bool Reals.
From Verif Require Import RList EquationsModel ConvexModel RiskModel.
Import ListNotations.
Local Open Scope R_scope.

(** lines 482-492: None becomes ones; zeros of an array are replaced by 1e-10; assigning to an item of a float raises *)
Definition clean_budget (b : option input) : cres vec :=
  match b with
  | None => COk (fun _ => 1)
  | Some (Scalar _) => CErr TypeError
  | Some (PerAsset v) => COk (fun i => if eqb0 (v i) then 1 / 10000000000 else v i)
  end.
Record risk_budgeting := {
  rb_prior : prior; rb_settings : settings; rb_params : params; rb_names : option (list str); rb_mip_solver : bool;
  rb_measure : risk_measure; rb_budget : option input; rb_min_return : option R; rb_scale_objective : R }.
(** the values of the decision variables w, factor, c, of the integer variables and of the variables of the risk *)
Record bpoint := { bw : vec; bf : R; bc : R; bm : mip_vars; ba : aux }.

Section Budgeting.
  Variable to_float : str -> option R.
  Variable q : risk_budgeting.
  Let n := n_assets (rb_prior q).
  Let st := rb_settings q.
  Let s := scale st.
  (** lines 532-541 *)
  Definition risk_factor (x : bpoint) : R := match rb_measure q with FIRST_LOWER_PARTIAL_MOMENT => bf x | _ => 1 end.
  (** lines 500-504 *)
  Definition budgeting_return (x : bpoint) : R :=
    expected_return n (mu (rb_prior q)) (costs st) (previous st) (fees st) None (bw x) (bf x).
  (** lines 494-543 *)
  Definition budgeting_constraints (x : bpoint) : cres (list constraint) :=
    match clean_budget (rb_budget q) with
    | CErr e => CErr e
    | COk b =>
        COk [Le 0 (bc x); Le (bc x * s) (sumn n (fun i => b i * ln (bw x i)) * s)]
        +++ weight_constraints to_float n (rb_params q) (rb_names q) (rb_mip_solver q) false true s (bw x) (bf x) (bm x)
        +++ COk (min_return_constraints s (budgeting_return x) (rb_min_return q) (bf x))
        +++ COk (risk_constraints (rb_prior q) st (rb_measure q) (bw x) (risk_factor x) (ba x))
    end.
  (** log restricts the weights to positive values *)
  Definition budgeting_feasible (x : bpoint) : Prop :=
    (forall i, (i < n)%nat -> 0 < bw x i) /\ exists l, budgeting_constraints x = COk l /\ Forall holds_at l.
  (** lines 549-551 *)
  Definition budgeting_loss (x : bpoint) : R := risk_value (rb_prior q) st (rb_measure q) (bw x) (risk_factor x) (ba x) * rb_scale_objective q.
  Definition budgeting_optimal (x : bpoint) : Prop :=
    budgeting_feasible x /\ forall x', budgeting_feasible x' -> budgeting_loss x <= budgeting_loss x'.
  (** weights_, _base.py line 1127 *)
  Definition budgeting_weights (x : bpoint) : vec := reported (bw x) (bf x).
End Budgeting.
