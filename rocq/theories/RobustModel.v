(** Model of DistributionallyRobustCVaR.fit, optimization/convex/_distributionally_robust.py lines 307-418: the constraints and the
    objective as assembled.  No proofs here.  Not modelled: custom objective and constraints.  The parameters risk_free_rate and
    overwrite_expected_return are accepted by the code and used nowhere in the problem. *)
From Coq Require Import List Arith Bool Reals.
From Verif Require Import RList EquationsModel ConvexModel.
Import ListNotations.
Local Open Scope R_scope.

(** the parameters of __init__ (lines 248-277), the returns of the prior and the scales; what is not passed to the base class
    keeps its default: no cardinality, no threshold *)
Record robust := {
  r_assets : nat; r_obs : nat; r_returns : nat -> vec; r_beta : R; r_aversion : R; r_radius : R; r_scale : R; r_scale_objective : R;
  r_min_weights : option vec; r_max_weights : option vec; r_budget : option R; r_min_budget : option R; r_max_budget : option R;
  r_max_short : option R; r_max_long : option R; r_groups : option groups_t; r_linear_constraints : option (list str);
  r_left_inequality : option (list (list R)); r_right_inequality : option (list R); r_names : option (list str) }.
Definition robust_params (q : robust) : params := {|
  min_weights := r_min_weights q; max_weights := r_max_weights q; budget := r_budget q; min_budget := r_min_budget q;
  max_budget := r_max_budget q; max_short := r_max_short q; max_long := r_max_long q; cardinality := None; group_cardinalities := None;
  threshold_long := None; threshold_short := None; groups := r_groups q; linear_constraints := r_linear_constraints q;
  left_inequality := r_left_inequality q; right_inequality := r_right_inequality q |}.
(** lines 366-372; [rm]: the integer variables, none of which is used *)
Record rpoint := { rw : vec; ru : nat -> vec; rv : nat -> vec; rlb : R; rtau : R; rs : vec; rm : mip_vars }.
(** cp.norm(., np.inf) *)
Definition norm_inf (n : nat) (x : vec) : R := fold_right Rmax 0 (map (fun j => Rabs (x j)) (seq 0 n)).

Section Robust.
  Variable to_float : str -> option R.
  Variable q : robust.
  Let n := r_assets q.
  Let T := r_obs q.
  Let s := r_scale q.
  (** lines 361-364 *)
  Definition a1 : R := -1.
  Definition b1 : R := r_aversion q.
  Definition a2 : R := -1 - r_aversion q / (1 - r_beta q).
  Definition b2 : R := r_aversion q * (1 - 1 / (1 - r_beta q)).
  (** lines 383-389 and 390-393 *)
  Definition piece (a b : R) (u : nat -> vec) (x : rpoint) (i : nat) : constraint :=
    Le (b * rtau x * s + a * sumn n (fun j => r_returns q i j * rw x j) * s + sumn n (fun j => u i j * (1 + r_returns q i j)) * s) (rs x i * s).
  (** lines 396-406 *)
  Definition ball (a : R) (u : nat -> vec) (x : rpoint) (i : nat) : constraint :=
    Le (norm_inf n (fun j => - u i j - a * rw x j) * s) (rlb x * s).
  (** lines 377-406 *)
  Definition robust_constraints (x : rpoint) : cres (list constraint) :=
    weight_constraints to_float n (robust_params q) (r_names q) false true false s (rw x) 1 (rm x)
    +++ COk (flat_map (fun i => elementwise n (fun j => Le 0 (ru x i j * s))) (seq 0 T)
             ++ flat_map (fun i => elementwise n (fun j => Le 0 (rv x i j * s))) (seq 0 T)
             ++ map (piece a1 b1 (ru x) x) (seq 0 T)
             ++ map (piece a2 b2 (rv x) x) (seq 0 T)
             ++ flat_map (fun i => [ball a1 (ru x) x i; ball a2 (rv x) x i]) (seq 0 T)).
  Definition robust_feasible (x : rpoint) : Prop := exists l, robust_constraints x = COk l /\ Forall holds_at l.
  (** lines 412-416, without the custom objective *)
  Definition robust_loss (x : rpoint) : R := r_radius q * rlb x * r_scale_objective q + 1 / INR T * sumn T (rs x) * r_scale_objective q.
  Definition robust_optimal (x : rpoint) : Prop := robust_feasible x /\ forall x', robust_feasible x' -> robust_loss x <= robust_loss x'.
  (** weights_, _base.py line 1127 *)
  Definition robust_weights (x : rpoint) : vec := reported (rw x) 1.
End Robust.
