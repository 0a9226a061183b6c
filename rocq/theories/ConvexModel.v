(** Model of optimization/convex/_base.py (weight, cardinality and threshold constraints, costs, turnover, tracking error,
    rescaling of the solution) and of the constraints of optimization/convex/_mean_risk.py MeanRisk.fit.  No proofs here.

    A cvxpy expression is modelled by its value at a point: the constraint-building functions take the values of the
    decision variables and return the list of scalar constraints evaluated there (vector constraints are expanded
    component by component).  Whether the functions raise does not depend on the point.  Inputs are taken after
    _clean_input, scalars being broadcast to functions of the asset index, except where the code distinguishes them. *)
From Coq Require Import List ZArith Bool Arith Reals.
From Verif Require Import RList EquationsModel.
Import ListNotations.
Local Open Scope R_scope.

Notation vec := (nat -> R) (only parsing).
Inductive constraint := Le (a b : R) | Eq (a b : R) | IsBoolean (x : R) | ExpCone (x y z : R).
Definition holds_at (c : constraint) : Prop :=
  match c with Le a b => a <= b | Eq a b => a = b | IsBoolean x => x = 0 \/ x = 1
  (* cvxpy's exponential cone: the closure of y exp(x / y) <= z, y > 0 *)
  | ExpCone x y z => (0 < y /\ y * exp (x / y) <= z) \/ (y = 0 /\ x <= 0 /\ 0 <= z) end.

Inductive cerror :=
  | NeedsMipSolver | NegativeMinWeights | MaxLongNotPositive | MaxShortNotPositive | BudgetWithMaxBudget | BudgetWithMinBudget
  | MipNeedsBounds | AllMinWeightsPositive | GroupsMissing | ThresholdShortMissing | ThresholdLongMissing | TypeError
  | NamesMissing | BadEquation (e : eq_error) | BadInequalityShape | PreviousWeightsMissing.
Inductive cres (A : Type) := COk (x : A) | CErr (e : cerror).
Arguments COk {A}. Arguments CErr {A}.
(** constraints += ..., stopping at the first exception *)
Definition capp (a b : cres (list constraint)) : cres (list constraint) :=
  match a with CErr e => CErr e | COk l => match b with CErr e => CErr e | COk m => COk (l ++ m) end end.
Infix "+++" := capp (at level 60, right associativity).

Record params := {
  min_weights : option vec; max_weights : option vec;
  budget : option R; min_budget : option R; max_budget : option R; max_short : option R; max_long : option R;
  cardinality : option nat; group_cardinalities : option (list (str * Z));
  threshold_long : option vec; threshold_short : option vec;
  groups : option groups_t; linear_constraints : option (list str);
  left_inequality : option (list (list R)); right_inequality : option (list R) }.

(** the mixed-integer decision variables of lines 2169 and 2183 (no short threshold), 2243-2245 and 2264-2265 *)
Record mip_vars := { invested : vec; invested_factor : vec; short : vec; long : vec; short_factor : vec; long_factor : vec }.

Definition ltb (x y : R) : bool := if Rlt_dec x y then true else false.
Definition eqb0 (x : R) : bool := if Req_EM_T x 0 then true else false.
Definition any (n : nat) (p : nat -> bool) : bool := existsb p (seq 0 n).
Definition all (n : nat) (p : nat -> bool) : bool := forallb p (seq 0 n).
Definition sumn (n : nat) (v : vec) : R := sum_over (seq 0 n) v.
Definition elementwise (n : nat) (c : nat -> constraint) : list constraint := map c (seq 0 n).
(** row @ w *)
Definition rowdotn (n : nat) (row : list R) (w : vec) : R := sumn n (fun i => nth i row 0 * w i).
Definition bigM : R := 1000.

(** groups @ invested - cardinalities <= 0, lines 2174-2180 and 2250-2256 *)
Definition group_card_constraints (n : nat) (p : params) (inv : vec) : cres (list constraint) :=
  match group_cardinalities p with
  | None => COk []
  | Some cards =>
      match groups p with
      | None => CErr GroupsMissing
      | Some g =>
          match group_cardinalities_to_matrix g n cards false with
          | EErr e => CErr (BadEquation e)
          | EOk (a, b) => COk (map (fun rb => Le (rowdotn n (fst rb) inv - IZR (snd rb)) 0) (combine a b))
          end
      end
  end.
Definition cardinality_constraints (n : nat) (p : params) (inv : vec) : list constraint :=
  match cardinality p with Some k => if (k <? n)%nat then [Le (sumn n inv) (INR k)] else [] | None => [] end.
(** lines 2194-2198, 2271-2278: the product of a boolean and the factor *)
Definition product_constraints (n : nat) (b bf : vec) (f : R) : list constraint :=
  elementwise n (fun i => Le 0 (bf i)) ++ elementwise n (fun i => Le (bf i) f) ++ elementwise n (fun i => Le (bf i) (bigM * b i))
  ++ elementwise n (fun i => Le (f - bigM * (1 - b i)) (bf i)).

(** _mip_weight_constraints_no_short_threshold, lines 2148-2220 *)
Definition mip_no_short (n : nat) (p : params) (s : R) (factor_is_variable : bool) (w : vec) (f : R) (m : mip_vars)
                        (mn mx : vec) (tl : option vec) : cres (list constraint) :=
  let is_short := any n (fun i => ltb (mn i) 0) in
  let inv := if factor_is_variable then invested_factor m else invested m in
  COk (elementwise n (fun i => IsBoolean (invested m i)) ++ cardinality_constraints n p (invested m))
  +++ group_card_constraints n p (invested m)
  +++ COk ((if factor_is_variable then product_constraints n (invested m) (invested_factor m) f else [])
           ++ (match tl with Some t => elementwise n (fun i => Le (inv i * t i * s) (w i * s)) | None => [] end)
           ++ elementwise n (fun i => Le (w i * s) (inv i * mx i * s))
           ++ (if is_short then elementwise n (fun i => Le (inv i * mn i * s) (w i * s)) else [])).

(** _mip_weight_constraints_threshold_short, lines 2223-2310 *)
Definition mip_short (n : nat) (p : params) (s : R) (factor_is_variable : bool) (w : vec) (f : R) (m : mip_vars)
                     (mn mx tl ts : vec) : cres (list constraint) :=
  let inv := fun i => short m i + long m i in
  let sh := if factor_is_variable then short_factor m else short m in
  let lg := if factor_is_variable then long_factor m else long m in
  COk (elementwise n (fun i => IsBoolean (short m i)) ++ elementwise n (fun i => IsBoolean (long m i)) ++ cardinality_constraints n p inv)
  +++ group_card_constraints n p inv
  +++ COk ((if factor_is_variable then product_constraints n (short m) (short_factor m) f ++ product_constraints n (long m) (long_factor m) f else [])
           ++ elementwise n (fun i => Le (inv i) 1)
           ++ elementwise n (fun i => Le (w i * s) (lg i * mx i * s))
           ++ elementwise n (fun i => Le (sh i * mn i * s) (w i * s))
           ++ elementwise n (fun i => Le (lg i * tl i * s - bigM * (1 - long m i) * s) (w i * s))
           ++ elementwise n (fun i => Le (w i * s) (sh i * ts i * s + bigM * (1 - short m i) * s))).

Definition is_some {A} (o : option A) : bool := match o with Some _ => true | None => false end.
(** lines 713-731: thresholds that are zero for every asset are dropped *)
Definition clean_threshold (n : nat) (t : option vec) : option vec :=
  match t with Some v => if all n (fun i => eqb0 (v i)) then None else Some v | None => None end.
(** lines 747-752 *)
Definition is_mip (n : nat) (p : params) : bool :=
  (match cardinality p with Some k => (k <? n)%nat | None => false end) || is_some (group_cardinalities p)
  || is_some (threshold_long p) || is_some (threshold_short p).

(** the if is_mip block, lines 825-886; np.any(None < 0) and cp.multiply(_, None) raise TypeError *)
Definition mip_constraints (n : nat) (p : params) (s : R) (factor_is_variable : bool) (w : vec) (f : R) (m : mip_vars) : cres (list constraint) :=
  if negb (is_mip n p) then COk [] else
  let tl := clean_threshold n (threshold_long p) in
  let ts := clean_threshold n (threshold_short p) in
  match min_weights p with
  | None => CErr TypeError
  | Some mn =>
      let is_short := any n (fun i => ltb (mn i) 0) in
      match max_weights p with
      | None => CErr MipNeedsBounds
      | Some mx =>
          if all n (fun i => ltb 0 (mn i)) then CErr AllMinWeightsPositive
          else if is_some (group_cardinalities p) && negb (is_some (groups p)) then CErr GroupsMissing
          else if is_some (threshold_long p) && negb (is_some (threshold_short p)) && is_short then CErr ThresholdShortMissing
          else if is_some ts && negb (is_some tl) then CErr ThresholdLongMissing
          else if is_some (threshold_short p) && is_short then
            match tl, ts with Some tl, Some ts => mip_short n p s factor_is_variable w f m mn mx tl ts | _, _ => CErr TypeError end
          else mip_no_short n p s factor_is_variable w f m mn mx tl
      end
  end.

Section Weights.
  Variable to_float : str -> option R.
  Variable n : nat.
  Variable p : params.
  Variable names : option (list str).          (* feature_names_in_ *)
  Variables (mip_solver allow_negative_weights factor_is_variable : bool).
  Variable s : R.                              (* _scale_constraints *)
  (** _get_weight_constraints, lines 663-947 *)
  Definition weight_constraints (w : vec) (f : R) (m : mip_vars) : cres (list constraint) :=
    if is_mip n p && negb mip_solver then CErr NeedsMipSolver else
    (match min_weights p with
     | None => COk []
     | Some mn => if negb allow_negative_weights && any n (fun i => ltb (mn i) 0) then CErr NegativeMinWeights
                  else COk (elementwise n (fun i => Le (mn i * f * s) (w i * s)))
     end)
    +++ (match max_weights p with None => COk [] | Some mx => COk (elementwise n (fun i => Le (w i * s) (mx i * f * s))) end)
    +++ (match max_long p with
         | None => COk []
         | Some l => if ltb 0 l then COk [Le (sumn n (fun i => Rmax (w i) 0) * s) (l * f * s)] else CErr MaxLongNotPositive
         end)
    +++ (match max_short p with
         | None => COk []
         | Some l => if ltb 0 l then COk [Le (sumn n (fun i => Rmax (- w i) 0) * s) (l * f * s)] else CErr MaxShortNotPositive
         end)
    +++ (match min_budget p with None => COk [] | Some b => COk [Le (b * f * s) (sumn n w * s)] end)
    +++ (match max_budget p with None => COk [] | Some b => COk [Le (sumn n w * s) (b * f * s)] end)
    +++ (match budget p with
         | None => COk []
         | Some b => if is_some (max_budget p) then CErr BudgetWithMaxBudget
                     else if is_some (min_budget p) then CErr BudgetWithMinBudget
                     else COk [Eq (sumn n w * s) (b * f * s)]
         end)
    +++ mip_constraints n p s factor_is_variable w f m
    +++ (match linear_constraints p with
         | None => COk []
         | Some equations =>
             match (match groups p, names with Some g, _ => Some g | None, Some l => Some [l] | None, None => None end) with
             | None => CErr NamesMissing
             | Some g =>
                 match equations_to_matrix to_float g n equations false false with
                 | EErr e => CErr (BadEquation e)
                 | EOk mat => COk (map (fun rb => Eq (rowdotn n (fst rb) w * s - snd rb * f * s) 0) (combine (a_eq mat) (b_eq mat))
                                   ++ map (fun rb => Le (rowdotn n (fst rb) w * s - snd rb * f * s) 0) (combine (a_ineq mat) (b_ineq mat)))
                 end
             end
         end)
    +++ (match left_inequality p, right_inequality p with
         | Some l, Some r =>
             if forallb (fun row => (length row =? n)%nat) l && (length l =? length r)%nat
             then COk (map (fun rb => Le (rowdotn n (fst rb) w * s - snd rb * f * s) 0) (combine l r))
             else CErr BadInequalityShape
         | _, _ => COk []
         end).
End Weights.

(** * Costs, turnover, tracking error *)
(** a cleaned input: a float, or one value per asset *)
Inductive input := Scalar (x : R) | PerAsset (v : vec).
Definition value (c : input) (i : nat) : R := match c with Scalar x => x | PerAsset v => v i end.
(** _cvx_transaction_cost, lines 1237-1285 *)
Definition transaction_cost (n : nat) (costs previous : input) (w : vec) (f : R) : R :=
  if all n (fun i => eqb0 (value costs i)) then 0
  else match costs with
       | Scalar c => c * sumn n (fun i => Rabs (value previous i * f - w i))
       | PerAsset c => sumn n (fun i => Rabs (c i * (value previous i * f - w i)))
       end.
(** _cvx_management_fee, lines 1287-1318 *)
Definition management_fee (n : nat) (fees : input) (w : vec) : R := sumn n (fun i => value fees i * w i).
(** _cvx_mu_uncertainty_set, lines 1186-1207: [root] is sqrtm(sigma) *)
Definition mu_uncertainty (n : nat) (u : option (R * (nat -> vec))) (w : vec) : R :=
  match u with Some (k, root) => k * sqrt (sumn n (fun i => (sumn n (fun j => root i j * w j)) ^ 2)) | None => 0 end.
(** MeanRisk.fit lines 876-881, without overwrite_expected_return *)
Definition expected_return (n : nat) (mu : vec) (costs previous fees : input) (u : option (R * (nat -> vec))) (w : vec) (f : R) : R :=
  sumn n (fun i => mu i * w i) - transaction_cost n costs previous w f - management_fee n fees w - mu_uncertainty n u w.
(** cvxpy's is_affine() on that expression *)
Definition is_affine (n : nat) (costs : input) (u : option (R * (nat -> vec))) : bool :=
  all n (fun i => eqb0 (value costs i)) && negb (is_some u).
(** _turnover lines 1341-1377 and MeanRisk.fit lines 908-914 *)
Definition turnover_constraints (n : nat) (s : R) (previous : option input) (max_turnover : option R) (w : vec) (f : R) : cres (list constraint) :=
  match max_turnover, previous with
  | None, _ => COk []
  | Some _, None => CErr PreviousWeightsMissing
  | Some t, Some prev => COk (elementwise n (fun i => Le (Rabs (w i - value prev i * f) * s) (t * f * s)))
  end.
(** _tracking_error lines 1485-1514; [returns t] is the t-th row *)
Definition tracking_error (n T : nat) (returns : nat -> vec) (y : vec) (w : vec) (f : R) : R :=
  sqrt (sumn T (fun t => (sumn n (fun i => returns t i * w i) - y t * f) ^ 2)) / sqrt (INR T - 1).
(** MeanRisk.fit lines 886-906 *)
Definition tracking_constraints (n T : nat) (s : R) (returns : nat -> vec) (y : vec) (max_tracking_error : option R) (w : vec) (f : R) : list constraint :=
  match max_tracking_error with Some t => [Le (tracking_error n T returns y w f * s) (t * s)] | None => [] end.
(** MeanRisk.fit lines 954-961 *)
Definition min_return_constraints (s er : R) (min_return : option R) (f : R) : list constraint :=
  match min_return with Some r => [Le (r * f * s) (er * s)] | None => [] end.
(** MeanRisk.fit lines 1004-1010: the limit on a risk whose value is [risk] *)
Definition risk_limit_constraint (s risk limit f : R) : constraint := Le (risk * s) (limit * f * s).
(** MeanRisk.fit lines 1038-1076 *)
Definition ratio_constraint (s er rf h f : R) (affine : bool) : constraint :=
  if affine then Eq (er * s - rf * f * s) (h * s) else Le (h * s) (er * s - rf * f * s).
(** _optimal_homogenization_factor, lines 1103-1125 *)
Definition homogenization_factor (n : nat) (mu : vec) : R := Rmin 1000 (Rmax (1/1000) (sumn n (fun i => Rabs (mu i)) / INR n)).
(** _solve_problem line 1127: weights = w.value / factor.value *)
Definition reported (w : vec) (f : R) : vec := fun i => w i / f.
