(** Model of VineCopula.score_samples, src/skfolio/distribution/multivariate/_vine_copula.py lines 462-510, on one row.  No proofs here.

    The trees and the reading of the pseudo-values are those of VineModel.v.  The partial derivatives of the fitted copulas and their
    log-densities on one pair ([copula.score_samples]) are parameters, as are the fitted marginal distributions. *)
Require Import List Arith Bool Reals.
From Verif Require Import CopulaModel VineModel.
Import ListNotations.
Local Open Scope R_scope.

Section Score.
Variable C : Type.
(** [copula.partial_derivative(X, first_margin=False)], [first_margin=True] and [copula.score_samples(X)] on one row. *)
Variables hu hv score : C -> R -> R -> R.
Variable copula : nat -> nat -> C.

(** [Edge.get_X], _utils.py 406-426, for edge [k] of tree [t]; [None] is the ValueError of [shared_node_is_left]. *)
Definition get_X (s : state R) (t : tree) (below : list tree) (k : nat) : option (R * R) :=
  let a := fst (edge_at t k) in
  let b := snd (edge_at t k) in
  match below with
  | [] => match roots R s a, roots R s b with Some x, Some y => Some (x, y) | _, _ => None end
  | t' :: below' =>
      match shared_node_is_left (edge_at t' a) (edge_at t' b) with
      | Some (l1, l2) =>
          match read R C hu hv copula s t' below' a (negb l1), read R C hu hv copula s t' below' b (negb l2) with
          | Some x, Some y => Some (x, y)
          | _, _ => None
          end
      | None => None
      end
  end.

(** The sum of the scores of the edges of one tree, lines 505-507; the list holds the remaining positions. *)
Fixpoint tree_score (s : state R) (t : tree) (below : list tree) (ks : list nat) : option R :=
  match ks with
  | [] => Some 0
  | k :: ks =>
      match get_X s t below k, tree_score s t below ks with
      | Some (x, y), Some z => Some (score (copula (length below) k) x y + z)
      | _, _ => None
      end
  end.
(** [for tree in self.trees_], line 505: the first tree is at the end of the list. *)
Fixpoint edges_score (s : state R) (ts : list tree) : option R :=
  match ts with
  | [] => Some 0
  | t :: below =>
      match edges_score s below, tree_score s t below (seq 0 (length t)) with Some a, Some b => Some (a + b) | _, _ => None end
  end.

(** A fitted marginal distribution: [dist.cdf] and [dist.score_samples] on one value. *)
Record marginal := { cdf : R -> R; logpdf : R -> R }.

(** The pseudo-values given to the root nodes, lines 478-503; [log_transform] is [self._log_transform], [eps] is
    UNIFORM_MARGINAL_EPSILON (_base.py 22 of copula). *)
Definition logged (log_transform : nat -> bool) (X : nat -> R) (i : nat) : R := if log_transform i then ln (1 + X i) else X i.
Definition pseudo (eps : R) (fit_marginals : bool) (marginals : nat -> marginal) (log_transform : nat -> bool) (X : nat -> R) (i : nat) : R :=
  let x := logged log_transform X i in
  clip eps (1 - eps) (if fit_marginals then cdf (marginals i) x else x).

Fixpoint sum_below (n : nat) (f : nat -> R) : R := match n with O => 0 | S n => sum_below n f + f n end.

(** score_samples on one row of [n] assets. *)
Definition score_samples (eps : R) (fit_marginals : bool) (marginals : nat -> marginal) (log_transform : nat -> bool)
    (n : nat) (ts : list tree) (X : nat -> R) : option R :=
  let start := if fit_marginals then sum_below n (fun i => logpdf (marginals i) (logged log_transform X i)) else 0 in
  let s := {| roots := fun i => Some (pseudo eps fit_marginals marginals log_transform X i);
              set_u := fun _ _ => None; set_v := fun _ _ => None |} in
  match edges_score s ts with Some z => Some (start + z) | None => None end.
End Score.
