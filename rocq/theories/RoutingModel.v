(** Model of the routing of fit parameters (metadata) through nested
    estimators of skfolio.

    Every estimator with sub-estimators registers them in
    [get_metadata_routing] and, in [fit], passes to each sub-estimator the
    parameters found under a name of [routed_params]:

      skfolio/optimization/convex/_base.py 2134-2142, _mean_risk.py 731-745,
      766-780, 866-869, 990-995, _risk_budgeting.py 454-469,
      _distributionally_robust.py 333-345;
      skfolio/optimization/cluster/hierarchical/_base.py 388-405,
      _hrp.py 291-341, _herc.py 339-389;
      skfolio/optimization/cluster/_nco.py 197-213, 242-294, 335-389;
      skfolio/optimization/ensemble/_stacking.py 233-241, 269-350;
      skfolio/optimization/naive/_naive.py 58-64, 92-100;
      skfolio/uncertainty_set/_base.py 67-73, 122-128, _empirical.py,
      _bootstrap.py;
      skfolio/distance/_distance.py 305-311, 329-337;
      skfolio/prior/_empirical.py 93-106, 131-182, _black_litterman.py
      141-147, 172-180, _factor_model.py 89-95, 120-131, 220-226, 252-278,
      _synthetic_data.py 136-142, 167-180;
      skfolio/moments/expected_returns/_equilibrium_mu.py 74-80, 105-114,
      _shrunk_mu.py 144-150, 175-189;
      skfolio/moments/covariance/_denoise_covariance.py 99-105, 130-139,
      _detone_covariance.py 101-107, 132-141, _implied_covariance.py 198-254.

    scikit-learn's [process_routing], [MetadataRouter] and [MetadataRequest]
    (not part of /repo) are modelled from their documented behaviour, with
    [enable_metadata_routing=True].

    Simplifications: a request is [True], [False] or unset (no renaming of a
    parameter with a string); a sub-estimator given as [None] is absent from
    the tree (its default, built inside [fit], has no request and receives
    nothing); only the parameters passed to [fit] calls are observed, each
    sub-estimator being counted once although cross-validating estimators fit
    several clones of it with the same parameters; the splitter of
    [cross_val_predict] is left out. *)
From Coq Require Import List String Bool.
Import ListNotations.
Open Scope string_scope.
Open Scope list_scope.

(** The classes whose [fit] fits other estimators, and [Consumer] for any
    estimator without sub-estimator (EmpiricalMu, EmpiricalCovariance,
    KMeans, linear regressors, user-defined estimators...).  [CrossVal] is
    the router made by [cross_val_predict]
    (skfolio/model_selection/_validation.py 136-153, 213). *)
Inductive cls :=
| Consumer
| MeanRisk | MaximumDiversification | RiskBudgeting | DistributionallyRobust
| HRP | HERC | NCO | Stacking | InverseVolatility
| UncertaintySet | CovarianceDistance
| EmpiricalPrior | BlackLitterman | FactorModel | LoadingMatrixRegression
| SyntheticData
| EquilibriumMu | ShrunkMu | DenoiseCovariance | DetoneCovariance
| ImpliedCovariance
| CrossVal.

(** Where a sub-estimator sits: a constructor argument, or an entry of the
    [estimators] list of a stacking. *)
Inductive attr := Arg (s : string) | Entry (s : string).

Definition attr_eqb (a b : attr) : bool :=
  match a, b with
  | Arg s, Arg t => String.eqb s t
  | Entry s, Entry t => String.eqb s t
  | _, _ => false
  end.

(** scikit-learn request of one explicit parameter of [fit]:
    [set_fit_request(p=True)], [set_fit_request(p=False)], or nothing. *)
Inductive request := Yes | No | Unset.

(** An estimator: its class, the explicit parameters of its [fit] (beyond X
    and y) with their requests, and its sub-estimators. *)
Inductive est :=
  Est (c : cls) (requests : list (string * request)) (subs : list (attr * est)).

Inductive err := TypeErr | UnsetErr | AttributeErr.
Inductive outcome (A : Type) := Ok (a : A) | Err (e : err).
Arguments Ok {A}. Arguments Err {A}.

Definition bind {A B} (x : outcome A) (f : A -> outcome B) : outcome B :=
  match x with Ok a => f a | Err e => Err e end.

(** Python dictionaries and attribute look-ups. *)
Fixpoint find_attr {A} (a : attr) (l : list (attr * A)) : option A :=
  match l with
  | [] => None
  | (b, x) :: r => if attr_eqb a b then Some x else find_attr a r
  end.

Fixpoint find_name {A} (n : string) (l : list (string * A)) : option A :=
  match l with
  | [] => None
  | (m, x) :: r => if String.eqb n m then Some x else find_name n r
  end.

Definition mem (n : string) (l : list string) : bool :=
  existsb (String.eqb n) l.

(** [get_metadata_routing]: the [router.add(name=self.attribute)] calls of
    each class.  (Lines in the header.) *)
Definition registered (c : cls) (names : list attr) : list (string * attr) :=
  match c with
  | Consumer => []
  | MeanRisk | MaximumDiversification =>
      [("prior_estimator", Arg "prior_estimator");
       ("mu_uncertainty_set_estimator", Arg "mu_uncertainty_set_estimator");
       ("covariance_uncertainty_set_estimator",
        Arg "covariance_uncertainty_set_estimator")]
  | RiskBudgeting | DistributionallyRobust | InverseVolatility
  | UncertaintySet | BlackLitterman =>
      [("prior_estimator", Arg "prior_estimator")]
  | HRP | HERC =>
      [("prior_estimator", Arg "prior_estimator");
       ("distance_estimator", Arg "distance_estimator");
       ("hierarchical_clustering_estimator",
        Arg "hierarchical_clustering_estimator")]
  | NCO =>
      [("distance_estimator", Arg "distance_estimator");
       ("clustering_estimator", Arg "clustering_estimator");
       ("inner_estimator", Arg "inner_estimator")]
  | Stacking =>
      flat_map (fun a => match a with
                         | Entry n => [(n, Entry n)]
                         | Arg _ => []
                         end) names
  | CovarianceDistance | EquilibriumMu | ShrunkMu | DenoiseCovariance
  | DetoneCovariance =>
      [("covariance_estimator", Arg "covariance_estimator")]
  | EmpiricalPrior =>
      [("mu_estimator", Arg "mu_estimator");
       ("covariance_estimator", Arg "covariance_estimator")]
  | FactorModel => [("factor_prior_estimator", Arg "factor_prior_estimator")]
  | LoadingMatrixRegression => [("linear_regressor", Arg "linear_regressor")]
  | SyntheticData => [("distance_estimator", Arg "distribution_estimator")]
  | ImpliedCovariance =>
      [("prior_covariance_estimator", Arg "prior_covariance_estimator")]
  | CrossVal => [("estimator", Arg "estimator")]
  end.

(** The fits of sub-estimators inside [fit]: the sub-estimator, and the name
    under which its parameters are read in [routed_params] ([None] when it is
    fitted without parameter). *)
Definition fits (c : cls) (names : list attr) : list (attr * option string) :=
  match c with
  | Consumer => []
  | MeanRisk | MaximumDiversification =>
      [(Arg "prior_estimator", Some "prior_estimator");
       (Arg "mu_uncertainty_set_estimator", Some "mu_uncertainty_set_estimator");
       (Arg "covariance_uncertainty_set_estimator",
        Some "covariance_uncertainty_set_estimator")]
  | RiskBudgeting | DistributionallyRobust | InverseVolatility
  | UncertaintySet | BlackLitterman =>
      [(Arg "prior_estimator", Some "prior_estimator")]
  | HRP | HERC =>
      [(Arg "prior_estimator", Some "prior_estimator");
       (Arg "distance_estimator", Some "distance_estimator");
       (Arg "hierarchical_clustering_estimator",
        Some "hierarchical_clustering_estimator")]
  | NCO =>
      [(Arg "distance_estimator", Some "distance_estimator");
       (Arg "clustering_estimator", Some "clustering_estimator");
       (Arg "inner_estimator", Some "inner_estimator");
       (Arg "outer_estimator", None)]
  | Stacking =>
      flat_map (fun a => match a with
                         | Entry n => [(Entry n, Some n)]
                         | Arg _ => []
                         end) names
      ++ [(Arg "final_estimator", None)]
  | CovarianceDistance | EquilibriumMu | ShrunkMu | DenoiseCovariance
  | DetoneCovariance =>
      [(Arg "covariance_estimator", Some "covariance_estimator")]
  | EmpiricalPrior =>
      [(Arg "mu_estimator", Some "mu_estimator");
       (Arg "covariance_estimator", Some "covariance_estimator")]
  | FactorModel =>
      [(Arg "factor_prior_estimator", Some "factor_prior_estimator");
       (Arg "loading_matrix_estimator", None)]
  | LoadingMatrixRegression =>
      [(Arg "linear_regressor", Some "linear_regressor")]
  | SyntheticData =>
      [(Arg "distribution_estimator", Some "distribution_estimator")]
  | ImpliedCovariance =>
      [(Arg "prior_covariance_estimator", Some "prior_covariance_estimator")]
  | CrossVal => [(Arg "estimator", Some "estimator")]
  end.

(** [add_self_request(self)] (_implied_covariance.py 202): the own explicit
    parameters of the class take part in the routing.  A consumer has only
    own parameters. *)
Definition self_request (c : cls) : bool :=
  match c with Consumer | ImpliedCovariance => true | _ => false end.

Definition is_router (c : cls) : bool :=
  match c with Consumer => false | _ => true end.

Definition is_no (r : request) : bool :=
  match r with No => true | _ => false end.
Definition is_yes (r : request) : bool :=
  match r with Yes => true | _ => false end.
Definition is_unset (r : request) : bool :=
  match r with Unset => true | _ => false end.

(** scikit-learn [MethodMetadataRequest._get_param_names]: every parameter
    not requested as [False]. *)
Definition own_names (c : cls) (requests : list (string * request)) : list string :=
  if self_request c
  then map fst (filter (fun pr => negb (is_no (snd pr))) requests)
  else [].

(** The names asked by the registered sub-estimators, given the names asked
    by each sub-estimator. *)
Definition names_of_subs (c : cls) (named : list (attr * list string)) : list string :=
  flat_map (fun na => match find_attr (snd na) named with
                      | Some l => l
                      | None => []
                      end)
           (registered c (map fst named)).

(** scikit-learn [MetadataRouter._get_param_names]. *)
Fixpoint param_names (e : est) : list string :=
  let 'Est c requests subs := e in
  own_names c requests
  ++ names_of_subs c (map (fun asub => (fst asub, param_names (snd asub))) subs).

Definition sub_names (e : est) : list string :=
  let 'Est c _ subs := e in
  names_of_subs c (map (fun asub => (fst asub, param_names (snd asub))) subs).

Section Fit.
Variable V : Type.

(** Keyword arguments. *)
Definition params := list (string * V).

Definition given (p : string) (P : params) : bool := mem p (map fst P).

(** scikit-learn [_route_params] for one registered sub-estimator: an unset
    own parameter that was passed is an error; otherwise the sub-estimator is
    handed the own parameters it requests and the parameters asked by its
    own sub-estimators. *)
Definition route (e : est) (P : params) : outcome params :=
  let 'Est c requests _ := e in
  let own := if self_request c then requests else [] in
  if existsb (fun pr => is_unset (snd pr) && given (fst pr) P) own
  then Err UnsetErr
  else
    let wanted := map fst (filter (fun pr => is_yes (snd pr)) own) in
    Ok (filter (fun kv => mem (fst kv) wanted || mem (fst kv) (sub_names e)) P).

(** scikit-learn [process_routing] at estimator [e]: nothing to do without
    parameter; otherwise unknown parameters are refused and each registered
    sub-estimator is routed.  [None] stands for the empty request, whose every
    attribute is an empty dictionary. *)
Fixpoint route_all (l : list (string * attr)) (subs : list (attr * est)) (P : params)
  : outcome (list (string * params)) :=
  match l with
  | [] => Ok []
  | (n, a) :: r =>
      bind (match find_attr a subs with
            | Some s => route s P
            | None => Ok []
            end)
           (fun q => bind (route_all r subs P) (fun rest => Ok ((n, q) :: rest)))
  end.

Definition process_routing (e : est) (P : params)
  : outcome (option (list (string * params))) :=
  match P with
  | [] => Ok None
  | _ =>
      let 'Est c _ subs := e in
      if forallb (fun kv => mem (fst kv) (param_names e)) P
      then bind (route_all (registered c (map fst subs)) subs P)
                (fun r => Ok (Some r))
      else Err TypeErr
  end.

(** [routed_params.name.fit] *)
Definition read_routed (routed : option (list (string * params))) (n : option string)
  : outcome params :=
  match n with
  | None => Ok []
  | Some n =>
      match routed with
      | None => Ok []
      | Some l => match find_name n l with
                  | Some q => Ok q
                  | None => Err AttributeErr
                  end
      end
  end.

(** The [fit] calls observed: where the estimator sits and the explicit
    parameters it received. *)
Definition trace := list (list attr * params).

Definition push (a : attr) (t : trace) : trace :=
  map (fun pq => (a :: fst pq, snd pq)) t.

Fixpoint run_fits (l : list (attr * option string))
         (subs : list (attr * (params -> outcome trace)))
         (routed : option (list (string * params))) : outcome trace :=
  match l with
  | [] => Ok []
  | (a, n) :: r =>
      bind (read_routed routed n)
        (fun q =>
           bind (match find_attr a subs with
                 | Some f => bind (f q) (fun t => Ok (push a t))
                 | None => Ok []
                 end)
                (fun t => bind (run_fits r subs routed) (fun t' => Ok (t ++ t'))))
  end.

(** [fit] : a consumer refuses the keyword arguments outside its signature;
    a router processes the parameters (with its own explicit ones put back,
    _implied_covariance.py 238-242) and fits its sub-estimators. *)
Fixpoint fit (e : est) (P : params) : outcome trace :=
  let 'Est c requests subs := e in
  let own := filter (fun kv => mem (fst kv) (map fst requests)) P in
  if is_router c then
    bind (process_routing e P)
      (fun routed =>
         bind (run_fits (fits c (map fst subs))
                        (map (fun asub => (fst asub, fit (snd asub))) subs) routed)
              (fun t => Ok (([], own) :: t)))
  else
    if forallb (fun kv => mem (fst kv) (map fst requests)) P
    then Ok [([], own)]
    else Err TypeErr.

End Fit.
