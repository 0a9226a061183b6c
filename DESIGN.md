# Formal model of skfolio in Rocq: design and trusted base

Properties are listed in `properties.jsonl` (C01, C02, ...); `MANIFEST.json` maps
each one to its theorems.  The model, the specifications and the proofs live in
`rocq/theories/`.  Nothing of `/repo` is executed: the only tie between code and
model is reading, so every definition of a `*Model.v` file cites the file and
lines it models.

## Conventions

* `XModel.v`   model of the code, function by function, no proofs.
* `XSpec.v` or the first section of `XProps.v`: a small independent
  specification (plain mathematical notions, no helper of the model).
* `XProofs.v`  lemmas; `XProps.v` the property theorems, named after the
  property (`C12_...`), each followed by a non-vacuity `Example` and
  `Print Assumptions`.
* Exceptions are values (`option`, sum types, error constructors); loops are
  structural recursion, folds, or fuel recursion with an explicit out-of-fuel value
  that the theorems exclude.
* Numbers: `nat`/`Z` for indices; `R`, or an arbitrary ordered or real closed
  field with mathcomp matrices, for numeric code (exact arithmetic).  NaN, infinity
  and division by zero are explicit values where a property depends on them
  (sorting, portfolios, HRP, moments, distances, mutual information).
* Randomness, solvers, numpy/scipy/pandas/scikit-learn/networkx primitives and
  user-supplied estimators are parameters, quantified over, with an explicit
  specification hypothesis when the property needs one.  Each such hypothesis
  is met by a concrete instance in an `Example`, or proved satisfiable.
* A property that the faithful model violates outside some domain gets a
  `..._refuted` theorem with a concrete witness, and is listed under
  *Findings*.  The statement in `properties.jsonl` then names the domain.

## How the theorems are tested

`seeded/LOG.jsonl` records edits of the model made in a scratch copy, each the
sort of bug a programmer would make, with the theorems that stopped proving.  When
an edit survived although it broke an English claim, the theorem was tightened;
the log names the tightened theorem and the edit was run again.  Edits that
are harmless (a symmetric quantity transposed, a redundant test removed) are logged
as such.

## Properties: what is modelled and how it is proved

| id | property | modelled | proof | files of the theorems |
|----|----|----|----|----|
| C01 | Non-dominated sorting returns the Pareto fronts | `dominate`, the counting pass and the peeling loop of `non_denominated_sort` over vectors of integers or NaN (SortingModel) | rank = length of the longest dominating chain; loop invariant by induction on rounds; a NaN cycle refutes termination | SortingProps |
| C02 | Dominance is a strict partial order | `dominate` and `BasePortfolio.dominates` | case analysis on coordinates | SortingProps |
| C03 | CombinatorialPurgedCV training sets are exactly the purged and embargoed complement | `CombinatorialPurgedCV.split`: fold bounds, test mask, purge and embargo (CombinatorialModel) | membership characterisation by case analysis on the folds | CombinatorialProps |
| C04 | CombinatorialPurgedCV covers every combination and recombines complete chronological paths | lexicographic combinations, path counter, recombination of the test paths | induction on combinations, double counting | CombinatorialProps |
| C05 | WalkForward has no look-ahead and tiles the test period | the generator loop of `WalkForward.split` (WalkForwardModel), fuel | invariant on the loop state | WalkForwardProps |
| C06 | WalkForward with a calendar frequency never trains on test or future observations | the calendar branch of `WalkForward`: increasing timestamps, period grid, offsets, get_indexer with ffill/bfill | search lemmas; refutations for offsets | WalkForwardProps |
| C07 | cross_val_predict returns each test fold once in chronological order | `cross_val_predict` and `fit_and_predict` (CrossValModel), fit/predict an oracle | sortedness and permutation of folds and paths | CrossValProps |
| C08 | Linear-constraint strings mean what they say | tokeniser, parser and matrix builder of `utils/equations.py` (EquationsModel) | round trip from an AST renderer with arbitrary spacing | EquationsProps |
| C09 | Malformed constraint strings are rejected | same | soundness of acceptance for every string; refutations | EquationsProps |
| C10 | Group cardinality dictionary becomes one row per known group | `group_cardinalities_to_matrix` | list induction | EquationsProps |
| C11 | CVaR equals its variational forms and is a coherent risk measure | `cvar`, `value_at_risk` of `measures/_measures.py` over `list R` (MeasuresModel) | Rockafellar-Uryasev by convexity; coherence from the variational form | MeasuresProps |
| C12 | Risk measures are ordered | all risk measures | pointwise comparisons, Jensen, exponential inequalities | MeasuresProps |
| C13 | Drawdown measures are the worst peak-to-trough losses | `get_drawdowns`, `get_cumulative_returns`, drawdown measures | running-maximum invariant | DrawdownProps |
| C14 | Gini mean difference is the mean absolute difference between pairs | `owa_gmd_weights`, `gini_mean_difference` | sorting and Abel summation | DrawdownProps |
| C15 | Second-moment measures have their textbook relations | `mean`, `variance`, semi-moments, third and fourth moments | algebra on sums | DrawdownProps |
| C16 | Portfolio measures are never stale | measure attributes, slots and cache of `BasePortfolio` as a heap program (PortfolioModel) | refinement: the cached program and a cache-free reference give the same trace for every list of operations | PortfolioProps |
| C17 | Every measure resolves and annualises consistently | measure enumerations, getters, annualisation, rolling measures | finite case analysis and field identities | PortfolioProps |
| C18 | Portfolio arithmetic acts on weights and is linear in returns | Portfolio constructor and operators (PortfolioArithModel) | linear algebra on lists | PortfolioArithProps |
| C19 | Risk contributions are exact for mean and variance | `contribution` (finite differences and closed forms) | Euler identities | PortfolioArithProps |
| C20 | MultiPeriodPortfolio returns are the concatenation of its periods | `MultiPeriodPortfolio` as a heap of lists (MultiPeriodModel) | invariants over operation lists | MultiPeriodProps |
| C21 | A Population only ever contains portfolios | `Population` as a list subclass with every inherited mutator (PopulationModel) | invariant over operation lists | PopulationProps |
| C22 | Population order statistics select the right portfolio | `sort_measure`, `quantile`, `min_measure`, `max_measure` | sorted permutation, index lemmas | PopulationProps |
| C23 | DropCorrelated leaves no pair above the threshold and drops nothing needlessly | `DropCorrelated.fit` (PreSelectionModel) | loop invariant on the elimination order | PreSelectionProps |
| C24 | SelectKExtremes keeps exactly the k best assets | `SelectKExtremes.fit` | order statistics | PreSelectionProps |
| C25 | SelectNonDominated keeps whole leading fronts and at least the requested number of assets | `SelectNonDominated.fit` on top of C01 | prefix of fronts | PreSelectionProps |
| C26 | Availability filters keep exactly the assets their documentation names | `DropZeroVariance`, `SelectComplete`, `SelectNonExpiring` | membership iff | PreSelectionProps |
| C27 | prices_to_returns is invertible and causal | `prices_to_returns` with NaN (ReturnsModel) | telescoping induction | ReturnsProps |
| C28 | Stationary bootstrap samples are rows of the data in circular blocks | `stationary_bootstrap` index recurrence, draws as inputs | induction | ReturnsProps |
| C29 | Hierarchical Risk Parity respects the weight bounds and budget | `HierarchicalRiskParity.fit`, `bisection`, weight bounds (HrpModel) | invariant sum(min) <= W <= sum(max) along the bisection | HrpProps |
| C30 | Hierarchical Equal Risk Contribution weights are a full allocation | `HierarchicalEqualRiskContribution.fit`, `minimize_relative_weight_deviation` (HercModel) | dendrogram induction | HercProps |
| C31 | Nested and stacked optimisations compose to a full allocation | `NestedClustersOptimization`, `StackingOptimization` (ComposeModel) | weighted sums over a partition | ComposeProps |
| C32 | Naive allocations are full long-only allocations | naive optimisers and `rand_weights` | positivity and normalisation | ComposeProps |
| C33 | Convex optimisation weights satisfy every documented constraint | weight constraints, costs, turnover, tracking error, rescaling by the factor in `optimization/convex/_base.py` (ConvexModel) | feasible point implies documented constraint on the reported weights | ConvexMoreProps, ConvexProps |
| C34 | Cardinality and threshold constraints bind the reported weights | mixed-integer cardinality and threshold constraints | soundness and completeness of big-M | ConvexMoreProps, ConvexProps |
| C35 | The risk the optimiser minimises is the risk the portfolio reports | risk expressions of `convex/_base.py` (RiskModel), one per measure | epigraph minimisation: the least value over the auxiliary variables is the measure of `_measures.py` | RiskProps, RiskTailProps |
| C36 | MeanRisk weights are optimal for the documented objective over the documented set | `MeanRisk.fit` assembly (MeanRiskModel) | optimal point of the assembled problem is optimal for the documented one, including the homogenised ratio; with cardinalities and thresholds through C34_complete | MeanRiskOptimalProps |
| C37 | Risk budgeting attains the budgets | `RiskBudgeting.fit` assembly (BudgetingModel) | perturbation of the logarithmic barrier at the optimum | BudgetingProps |
| C38 | A failed fit does not corrupt the next fit | cache of cvxpy expressions across fits (FitCacheModel) | invariant over histories of fits, refutation after a failure | FitCacheProps |
| C39 | Black-Litterman posterior is the Bayesian update of the prior by the views | `BlackLitterman.fit` in mathcomp matrices (BlackLittermanModel) | Woodbury, Gaussian conditioning | BlackLittermanProps |
| C40 | Factor model moments are consistent | `FactorModel.fit` (CovarianceModel) | matrix algebra, positive semidefiniteness | FactorModelProps |
| C41 | Gerber correlations are correlations | `GerberCovariance.fit` (GerberModel) | Gram matrices and Schur products | GerberProps |
| C42 | Denoising, detoning and nearest-covariance keep the variances | `cov_nearest`, `DenoiseCovariance`, `DetoneCovariance`, `_set_covariance` | spectral algebra over a real closed field | CovarianceProps |
| C43 | Shrunk means are shrunk | `ShrunkMu.fit` (MuModel) | algebra; projections | MuProps |
| C44 | Correlation distances are normalised distances | `corr_to_distance` (DistanceModel) | monotonicity; triangle inequality from Gram vectors | DistanceProps |
| C45 | Copula rotations preserve the conditional-distribution round trip | rotations and clipping of bivariate copulas (CopulaModel) | generic in the base copula | CopulaProps |
| C46 | Copula families: cdf, h-function, inverse and log-density fit together | Gaussian, Student t, Clayton, Gumbel, Joe and independent copulas | derivatives (Coquelicot), inverse identities | CopulaProps |
| C47 | Gumbel and Joe inverse h-functions converge to the unique solution | Newton/bisection loops of Gumbel and Joe | bracket invariant and halving | CopulaNewtonProps |
| C48 | Vine sampling inverts the fitted model | vine sampling order and propagation (VineModel) | invariant over the queue | VineCopulaProps, VinePropagateProps, VineSampleProps |
| C49 | Vine copula trees form a regular vine | vine tree construction | proximity condition, acyclicity and spanning trees on edge lists | VineProps |
| C50 | Conditional samples satisfy their conditions | `VineCopula.sample` with conditioning, log transform (VineConditionModel) | case analysis; order of clips | VineConditionProps |
| C51 | Asset parameters given by name reach the right asset | `input_to_array`, `validate_input_list` (ToolsModel) | list induction | ToolsProps |
| C52 | Deduplicated names are unique | `deduplicate_names` | list induction | ToolsProps |
| C53 | Cached method results belong to their arguments | `cache_method` and its key | history induction | ToolsProps |
| C54 | Commutation matrix transposes vectorised matrices | `commutation_matrix` | index arithmetic | ToolsProps |
| C55 | Uncertainty sets bound the worst case | uncertainty sets and their support functions (UncertaintyModel) | Cauchy-Schwarz, attained | UncertaintyProps |
| C56 | Implied-covariance windows are aligned and causal | `ImpliedCovariance.fit` (ImpliedModel) | index arithmetic on windows | ImpliedProps |
| C57 | make_scorer orients every measure so that greater is better | `make_scorer` (ScorerModel) | case analysis | ScorerProps |
| C58 | Optimal cluster count is admissible | `compute_optimal_n_clusters`, `HierarchicalClustering.fit` (ClusterModel) | argmin lemmas | ClusterProps |
| C59 | List parameters give one solution per element, with its return and risk | `_solve_problem` with vector parameters (SolveModel) | list induction | SolveProps |
| C60 | Efficient frontier targets and monotonicity | efficient frontier targets | monotonicity of the value function | SolveProps |
| C61 | Equilibrium returns make the reference weights optimal | `EquilibriumMu.fit` (MuModel) | completion of squares | MuProps |
| C62 | Tail dependence coefficients are the limits they claim | `lower_tail_dependence`, `upper_tail_dependence`, `tail_concentration` | limits (Coquelicot) | CopulaTailProps |
| C63 | EmpiricalPrior returns the estimators' moments, or the log-normal moments at the horizon | `EmpiricalPrior.fit` (EmpiricalPriorModel) | log-normal moments as iterated Gaussian integrals of exponentials | EmpiricalPriorProps |
| C64 | MaximumDiversification maximises the diversification ratio | `MaximumDiversification` as a MeanRisk (MaxDivModel) | reduction to C36 | MaxDivProps |
| C65 | DistributionallyRobustCVaR minimises the worst mean-CVaR over the Wasserstein ball | `DistributionallyRobustCVaR.fit` assembly (RobustModel) | Farkas lemma by Fourier-Motzkin elimination (FarkasProps), linear duality against couplings in the Wasserstein ball | RobustProps |
| C66 | predict evaluates exactly the fitted weights, with the estimator's settings | `BaseOptimization.predict`, `score` and the Portfolio constructor, dictionaries in a memory (PredictModel) | case analysis, memory frame | PredictProps |
| C67 | Empirical and exponentially weighted moments are the documented averages | `EmpiricalMu`, `EWMu`, `EmpiricalCovariance`, `EWCovariance` with pandas' ewm loops (MomentsModel) | closed forms of the loops by induction | MomentsProps |
| C68 | Mutual information distance: variation of information of the binned returns | `MutualInformation.fit`, histograms, `mutual_info_score`, `n_bins_freedman` (InformationModel) | Shannon inequalities (EntropyProps) | InformationProps |
| C69 | Distance correlation: Szekely's coefficient, zero iff independent, one iff affine | `DistanceCorrelation.fit` (DcorrModel) | distance covariance as a sum of squared joint-minus-product distribution differences over gaps between sorted values; affine rigidity from the equality case of Cauchy-Schwarz | DcorrProps |
| C70 | Central assets are at the centre of the fitted vine | edge weights for central assets in the vine construction (VineModel) | cycle property of maximum spanning forests | VineCentralProps |
| C71 | When conditional samples are exact: the conditioned assets are drawn first | sampling order with conditioning (VineModel, VineConditionModel) | queue induction; refutations on chains | VineOrderProps |
| C72 | Copula fitting selects and fits the best candidate | `select_bivariate_copula`, the `fit` methods of the five copulas, data validation, rotation and likelihood selection, `select_univariate_dist` (CopulaFitModel) | list induction on the dictionary minimum; case analysis on failures and NaN; counterexamples on three points | CopulaFitProps |
| C73 | Kendall's tau, pseudo-observations and tail concentration are rank statistics | Kendall's statistic, `compute_pseudo_observations`, `empirical_tail_concentration`, rotations (CopulaFitModel) | double sums of comparison signs, Cauchy-Schwarz, counting of ranks | KendallProps |
| C74 | Inverting Kendall's tau recovers the dependence of the sample | distribution functions, h-functions and densities of Clayton, Gumbel, Joe (CopulaModel) and `fit` with itau (CopulaFitModel) | iterated improper Riemann integrals; generic Archimedean identity tau = 1 + 4 int phi/phi' by antiderivatives and limits at 0 and 1; digamma enters as an integral | TauProps |
| C75 | The vine's score_samples is the log-density of the rows the vine samples | `score_samples`, `get_X` on one row (VineScoreModel) over the trees and pseudo-values of VineModel; pair copulas and marginals are parameters | the edges of the vine are a disjoint union of the chains of the sampling order (permutation); each chain is a composition of conditional distribution functions, chain rule and fundamental theorem of calculus; iterated improper integrals by induction over the order | VineScoreProps |
| C76 | Fit parameters reach exactly the sub-estimators that request them | `get_metadata_routing` and the parameters handed over in `fit`, for all 20 classes with sub-estimators and the router of `cross_val_predict` (RoutingModel); scikit-learn's `process_routing` from its documentation, without renaming of parameters | induction over trees of estimators: what a parent keeps for a child contains everything asked below it, is legitimate there and changes no delivery; tables of registered and read names by cases | RoutingProps |
| C77 | The outer and final estimators are trained on out-of-sample predictions | `fit_single_estimator`, `fit_and_predict`, `safe_split`, `_check_method_params`, `cross_val_predict` and the data built by the two `fit` methods (NestedModel, over CrossValModel); fitting and predicting are oracles | inversion of every step into the part of the tables it selects; C07 and C04 give the order of the folds; determinism of what a fold sees gives the no-leak theorems | NestedProps |
| C78 | optimal_folds_number minimises its documented cost | `optimal_folds_number` with its pruned loops and `np.argmin`, `_avg_train_size`, `summary` (OptimalFoldsModel, rational numbers) | a pair is skipped only when a pair with fewer paths already costs more than 1e5 (unimodality and symmetry of binomials), so it cannot beat (3, 2); double counting of (split, observation) pairs for the average training size | OptimalFoldsProps |
| C79 | Gaussian and Student t copulas: log-density and tail dependence | Log-densities, parameter checks and tail dependence coefficients of GaussianCopula and StudentTCopula (_gaussian.py 336-407, _student_t.py 385-486) on top of the h-functions of CopulaModel; ndtr, ndtri, stdtr, stdtrit and gammaln are parameters. | The quantile function of a distribution function with a positive density is differentiable (inverse function argument by hand); the chain rule gives the density of the h-function, and the logarithmic identity is closed by field. Tails: the diagonal of the copula has derivative 2 h(q/q) (mean value theorem and joint continuity of h), so the ratio tends to the limit of 2 h(q/q), computed through 1/quantile -> 0. Symmetry of the t distribution is derived from its even density. The normal distribution of the example is built from the integral of exp(-t^2/2), bounded by 2 atan. | EllipticalProps |
| C80 | Composition tables and weight-based figures agree with the weights | Portfolio.composition, weights_per_observation, diversification, expected_returns_from_assets, variance_from_assets, get_weight, the multi-period and population tables and the table drawn by Population.plot_cumulative_returns (ReportModel.v). A DataFrame is a list of column names and labelled rows with optional cells; pd.concat along either axis is an outer join; sort_values and sort_index are parameters. | The tables are described by a relation `shows` between a list of portfolios and a frame that is kept by concatenation, filling and renaming (induction over the frames). The figures are double sums exchanged and compared with Cauchy-Schwarz. | ReportProps |
| C81 | The synthetic-data prior is the empirical prior of the sampled returns and has no null variance | SyntheticData.fit and _check_sample_method (SyntheticModel.v): the sampled rows, the white noise and the signature of the sample method are parameters; the empirical prior is the model of EmpiricalMu and EmpiricalCovariance of MomentsModel.v. | Entry by entry description of the perturbed sample; the lower bound on the variance by the triangle inequality for standard deviations (Cauchy-Schwarz). | SyntheticProps |
| C82 | The univariate Gaussian is fitted by maximum likelihood | Gaussian.fit, _validate_X, score, aic, bic and n_params (UnivariateModel.v). st.norm.fit and st.norm.logpdf are modelled by their closed forms; StudentT, JohnsonSU and NormalInverseGaussian, which are fitted by scipy's numerical optimiser, are not. | The log-likelihood in closed form; ln r^2 <= r^2 - 1 for the scale, the decomposition of the squared deviations for the location. | UnivariateProps |
| C83 | The default block length of the bootstrap is the Politis-White length | BlockSizeModel.v: optimal_block_size (slices with negative bounds, vector products that raise on a length mismatch, the search for the truncation lag, NaN and infinity of null divisors), np.median with NaN, the default block size and the bootstrap with it. | BlockSizeProps.v writes the autocovariances, sums of squares, quiet lags, window and median as explicit sums over observations. Slices are turned into those sums by position; lag zero is shown always significant (critical value at most one), n >= 8 is shown to keep every slice in range. Affine invariance follows because every lag scales by the same square. | BlockSizeProps |
| C84 | get_params and set_params of composed estimators agree | ParamsModel.v: trees of estimators, compositions and lists of members; sklearn's get_params and set_params with the composition's _get_params, _set_params, _replace_estimator and _validate_names; keys split at the first '__'. | ParamsProps.v works on paths of names. Keys and paths are shown in bijection when names are closed; get_params is shown to list the value at each path by structural induction, set_params to rewrite the tree at the given paths by induction on the length of the keys. Success of set_params is shown by the same induction, both ways for one key. | ParamsProps |
| C85 | The cached datasets under every history of calls, crashes and clearings | DatasetModel.v: download_dataset cut at its system calls (exists, open, write of a block, read, remove) over a file system with inodes and positions; histories of calls, steps, faults, kills and clearings. | DatasetProps.v: an invariant over all histories says that every file is a damaged copy of what its name calls for and that every call in progress holds the right table (a ghost map gives the path of each inode). Progress is a decreasing count of steps. A cached file that nobody writes is shown stable under every event except a clearing, which gives both the success of later calls (whole file) and their failure (incomplete file). | DatasetProps |
| C86 | Deep copies and unpickled portfolios are the same portfolios | Portfolio and MultiPeriodPortfolio construction with keyword arguments, defaults and input_to_array, __reduce__ by the argument names of __init__, deepcopy/pickle with a memo, attribute setters, append and copy, over a heap of arrays; arithmetic is arbitrary. | Invariant over programs (shapes of the attributes, concatenation of periods); the constructor is shown idempotent on copies of its stored arguments; frame lemma for independence; vm_compute only for the concrete findings. | SerialProps |
| C87 | Comparing portfolios, searching populations and setting their parameters | CompareModel.v: objects are portfolios (identity, single or multi-period, fitness over the extended numbers with NaN) or anything else; __eq__ (np.array_equal), __gt__, __ge__ with their exceptions, the dispatch of Python to reflected methods for < and <=, the list operations with the identity-or-equal rule of CPython, the built-in max and min as the left fold they are; set_portfolio_params over a heap of attribute maps with the check of the names, the nested loops, the read-only attributes and the check of fitness_measures. | CompareProps.v: array_equal is pointwise equality, dominates is C02; trichotomy per objective splits 'no objective worse' into 'equal' and 'dominates'; the order laws follow by induction on the vectors; index and remove by induction against 'first position alike'; max and min by the invariant that the candidate is not beaten by any element seen, with transitivity; the parameter loops by induction with the number of updated objects, including the prefix before a rejected key. | CompareProps |
| C88 | Custom objectives and constraints, and the scales of convex problems | CustomModel.v: custom functions by co_argcount, number of defaults, whether they are bound methods and their effect, the positional binding of Python, the two call sites; the problem of MeanRiskModel.v with the value of the custom objective and the custom constraints on the weight variable; the reported objective; the estimator with other scales. | CustomProps.v: optimality reuses the soundness and completeness of the feasible set of C36; scale independence goes through every constraint of the problem (weights, mixed-integer, linear, turnover, tracking error, each risk measure, limits, ratio): each is linear, a norm or an exponential cone in the scale. | CustomProps |
| C89 | Mean-variance optimisation with uncertainty sets is robust optimisation | RobustFitModel.v: MeanRisk.fit with the variance, a set of covariances and optionally a set of means over a real closed field: variables w, factor, x, y; bounds, budget, inequalities, min_return, max_variance, the ratio constraint, the four objectives, the reported weights. | RobustFitProps.v: the bound and the exactness of C55 turn the semi-definite problem into the problem over the sets; the factor is positive because a zero factor forces zero weights; the ratio goes through the Charnes-Cooper change of variables. The finding is a two-asset example with an exhibited optimum. | RobustFitProps |
| C90 | Summary tables show every measure once, faithfully and in order | SummaryModel.v: the printed names of the measures computed by string functions, format_measure and optimal_rounding_decimals on exact reals with real text rendering (round half to even, fixed point), the loop of BasePortfolio.summary on the cached portfolio objects of PortfolioModel.v with the dict it fills, Portfolio.summary. Not modelled: negative zero, the sign of a zero denominator, str of a float (a parameter), Population.summary (pandas concat). | SummaryProps.v: an independent reader of printed numbers (scan, read), the number of decimals as a count of thresholds, a table of names and levels; digits read back by induction, log10 thresholds through ln, monotonicity by cases on the thresholds; distinctness of the names by a sound comparison of strings with unknown ends; the loop by induction with the cache invariant of C16. | SummaryProps |
| C91 | Measures under changes of unit, of cash and of the order of the observations | No new model: `get_measure` of PortfolioModel.v on a new portfolio and the functions of MeasuresModel.v. | ChangeProps.v defines the transformed portfolios (`in_units`, `with_cash`), the table `degree` of the power of the unit of each measure and the table `cash` of what cash adds, and proves for every measure that `get_measure` follows the tables. Partitions enter through the uniqueness of order statistics; EVaR and EDaR through the hypothesis that the solver attains the minimum (shown satisfiable on a two-point series, with the minimiser computed by hand). Two `_refuted` theorems show that the exclusions are needed: drawdowns depend on the order, and compounded drawdowns do not scale. | ChangeProps |
| C92 | The order of the assets is irrelevant to mean-risk optimisation and to the moments | No new model: MeanRiskModel.v, ConvexModel.v, RiskModel.v, EquationsModel.v and MomentsModel.v. | ReorderProps.v defines the reordered problem field by field (`re_problem`) and the reordered point. The factor of the reordered covariance (Cholesky) and the root of the reordered uncertainty matrix are arbitrary, required only to factorise the reordered matrices. C92_mean_risk proves that admissible points, losses and optima correspond and that weights are reordered; the parser of constraint strings is followed token by token on the reordered groups. C92_moments does the same for the four moment estimators, with their refusals. Non-vacuity: the two assets of the optimal example of C36 exchanged. Limit: levels of groups, names and inequality rows have one entry per asset (`one_per_asset`). | ReorderProps |
| C93 | The caches of the vine copula and the counting of visits change no value | VineCacheModel.v: the mutable state of the nodes of a fitted vine (pseudo-values of the roots; cached margin, visit count and expected visit count of each node; the flag is_count_visits), the properties u and v with their release at the last expected visit, clear_cache, the counting pass with its `finally`, the sampling pass, collection of the samples and the pairs scored by score_samples. A run returns the state also when it raises. The calls of partial_derivative are logged by the model to be counted. VineFitCacheModel.v: the loop of fit with the creation of the nodes, the dependence of every candidate, the copulas of the edges and Tree.clear_cache of the previous tree (the NaN check of the dependence matrix is left out). | VineCacheProps.v: the cached reader is related to a memo table (an abstract machine that evaluates each node at most once), both passes are shown to visit the same nodes the same number of times, and the memo table to agree with `propagate` of VineModel.v, which recomputes. Since both entry points clear the cache first and counting is switched off on every exit, C93_history lifts this to arbitrary histories of calls, failing ones included. Simplification: in the counting pass np.stack of two Nones is modelled as a failure; the theorems show it does not occur for regular vines. VineFitCacheProps.v: C93_fit compares the loop with `fit_trees` of VineModel.v on dependences and copulas defined by recursion on recomputed margins (`selected`, `edge_dependence`); the invariant is that the margins needed by the edges of the last tree are cached when the tree below it is cleared. mst is any function returning a subset of the candidates. | VineCacheProps, VineFitCacheProps |
| C94 | The unit of the returns is irrelevant to the weights | The problems of MeanRiskModel.v, BudgetingModel.v and MaxDivModel.v, inverse_volatility of ComposeModel.v and the moments of MomentsModel.v.  No new model: the specification gives the converted problem input by input. | Every constraint and every risk is homogeneous in the unit; the auxiliary variables are converted with it.  The maximum ratio is stated on multiples of the weights, whose size changes by h(l mu) / (l h(mu)); the theorem asks that this is one or that no constraint depends on it.  The covariance factors of the new unit are any factors of the converted matrix. | UnitProps |
| C95 | How the mean-risk optimum responds to its parameters | The problem of MeanRiskModel.v; no new model.  The specification gives the estimator with other coefficients, the estimator asked for the least risk at a return, the relation of domination and the relation between an estimator and the same estimator with limits relaxed. | The two optima are compared twice through C36 (the constraints do not depend on the coefficients, so each optimum is feasible for the other problem, with or without integer constraints) and the two inequalities are added.  Efficiency and the frontier follow from C36; relaxation from the inclusion of the allowed sets, limit by limit. | StaticsProps |
| C96 | Mixtures of allowed weights, and when the optimal weights do not depend on the solver | The problem of MeanRiskModel.v; no new model.  The specification gives the mixture of two weight vectors, the conditions on the input (nonnegative penalties, aversion, costs and size of the uncertainty set, two observations, no cost with the Gini mean difference) and positive definiteness. | The constraints of each of the fifteen risk measures are closed under addition (the exponential cone by the tangent of exp, the norms by the inequality of Minkowski) and homogeneous, so a mixture of two feasible points is feasible; each risk is convex, the expected return concave, the penalties convex.  Uniqueness: the middle of two optima would be strictly better by the parallelogram identity; for the ratio the sum of two optima, divided by two, has a strictly smaller risk unless they are proportional, and the budget then fixes the factor.  MaximumDiversification is the ratio problem of C64.  Frontier: the mixture of two frontier points competes at the target in between. | UniqueProps |
| C97 | Risk budgeting: weights independent of the solver and of the scale of the budgets, and when there is no answer | The problem of BudgetingModel.v; no new model.  The specification gives the kind of input (default weight constraints, positive budgets, no transaction cost) and the same estimator with another budget. | If two optima differed, their middle would satisfy the budget constraint strictly (strict concavity of the logarithm) and could be scaled down, which lowers a positive risk (homogeneity and convexity, lemmas of C36 and C96).  Weights with a negative risk can be scaled up without limit.  A positive factor on the budgets only scales the variable c. | BudgetUniqueProps |
| C98 | Optimisers that coincide, and their closed forms | The problems of BudgetingModel.v, MaxDivModel.v and MeanRiskModel.v inverse_volatility of ComposeModel.v and hrp of HrpModel.v; no new model.  The specification gives the covariance with a constant correlation. | Risk budgeting: from the equal contributions of C37, y (1 - r) y + r T is the same for each y = sigma x, and the other root is excluded because the variance is not negative.  Maximum diversification: the optimality of C64 against the inverse volatility gives the equality case of the inequality of Cauchy.  Minimum variance: the variance of the difference is the difference of the variances.  Hierarchical risk parity: the variance of the inverse-variance portfolio of a cluster is one over the sum of the inverse variances, so by induction on the recursive allocation of C29 each cluster gets its share. | HrpSpecialProps, SpecialProps |

## Trusted base

1. Coq 8.16.1's kernel (and `coqchk`, run by the gate).  No axiom is added,
   no kernel check is switched off, nothing is `Admitted`, no functor, module
   type or plugin is used.
2. The axioms of Coq's standard library that `Print Assumptions` lists, per
   theorem in the table at the end of this file:
   * `ClassicalDedekindReals.sig_forall_dec`, `ClassicalDedekindReals.sig_not_dec`
     (the real numbers of `Coq.Reals`);
   * `FunctionalExtensionality.functional_extensionality_dep` (used by
     `Coq.Reals`);
   * `Classical_Prop.classic` (used by `Coq.Reals`' analysis and Coquelicot).
   Files over mathcomp matrices, natural numbers, lists and strings are closed
   under the global context.
   The gate's report also lists sealed-module fields of ssreflect, mathcomp and
   `Coq.Reals.Rdefinitions` (`Under_rel`, `RbaseSymbolsImpl`, `RinvImpl`, ...); they are
   signatures of modules that have a body, not axioms.
3. The reading of `/repo` recorded in the model files' comments.
4. The specifications of the external primitives named in each model file
   (sorting, partition, eigen-decomposition, Cholesky, matrix square root,
   solver optimality, minimum spanning tree, linkage, quantile functions of scipy).

## Not modelled

* binary64 rounding and overflow (arithmetic is exact unless a file says otherwise);
* the numerical solvers themselves (cvxpy, SLSQP, scipy minimisers): a theorem about an
  optimiser starts from an optimal, or only feasible, point of the problem assembled by the code;
* scikit-learn's own machinery (cloning, check_estimator, `validate_data` beyond the checks the
  code makes itself), plots, `__repr__`, typing, and pandas beyond the alignment, slicing and
  concatenation described in the model files;
* what a user's callable computes: custom objectives, constraints, kernels and linkage functions
  are arbitrary parameters;
* n_bins_knuth's minimiser, the KDE fit of DenoiseCovariance, graphical lasso, Ledoit-Wolf, OAS
  (thin wrappers over scikit-learn) and parallel execution by joblib.

## Findings

Places where the code, as modelled, does not do what its documentation or the plain reading of the property says.  Each is a `_refuted` theorem (named in `MANIFEST.json`) with a concrete witness.

* C01: `C01_nan_terminates_refuted`: with NaN fitnesses three points can dominate each other in a cycle and the peeling loop never ends.
* C03: `C03_train_nonempty_refuted`: purging and embargo can leave an empty training set, which is yielded without a warning.
* C04: `C04_every_observation_tested_refuted`: when n mod K > n div K the tail of the sample belongs to no fold and is never tested.
* C05: `C05_zero_test_size_terminates_refuted`: `test_size=0` is accepted and `split` loops forever.
* C06: With a training offset the purge is cut from the wrong side; `freq_offset` with bfill/ffill moves a boundary past the test start; `get_n_splits` ignores `freq`.
* C07: Interleaved test folds and a shuffled late fold are accepted and give a portfolio out of order.
* C08: `3e-5` is split at the minus sign; `2 * unknown` raises although missing names should only warn.
* C09: Chained comparisons and an empty left side are accepted; `a *` raises TypeError instead of the documented error.
* C10: An unknown group raises even with `raise_if_group_missing=False`.
* C12: With no negative return `evar` is evaluated at a negative risk aversion and falls below `cvar`.
* C13: A loss on the first observation belongs to no drawdown.
* C16: `fitness_measures` is aliased between copies; measure attributes can be overwritten.
* C17: `rolling_measure` of an annualised ratio disagrees with the measure when the risk-free rate is not zero.
* C20: `append` on a copy corrupts the original; `append` accepts an overlap the constructor rejects; operators drop settings.
* C21: `+=` bypasses validation; a failing `extend` is not atomic.
* C23: The `absolute` flag of DropCorrelated has no effect.
* C25: The loop continues when exactly `min_n_assets` are selected.
* C27: Missing factor prices are counted against the assets' `nan_threshold`.
* C29: Valid `min_weights` can give NaN weights; `sum(min_weights) > 1` is accepted.
* C32: `rand_weights` with `zeros = n` divides by zero.
* C33: Without bounds the ratio problem has feasible points with a negative factor, whose reported weights break the constraints.
* C34: A zero short threshold, or `min_weights=None` with a cardinality, raises TypeError.
* C35: Optimised drawdowns differ from the measure after a first loss; EVaR drops transaction costs; FLPM has an extra risk-free offset; MAD ignores `min_acceptable_return`.
* C36: With MAXIMIZE_RATIO, `max_tracking_error` and the variance limit are not scaled by the homogenisation factor.
* C37: A scalar `risk_budget` raises TypeError.
* C38: The cache is not cleared when a fit raises; the next fit then drops the drawdown constraints.
* C39: A zero view confidence in the caller's array is overwritten in place.
* C40: Without residual variance the Cholesky factor does not reproduce the covariance; an asset with zero loadings gives NaN.
* C41: `window_size=0` is read as the whole history.
* C43: BODNAR_OKHRIN divides beta by the wrong quadratic form; with two assets JAMES_STEIN never shrinks.
* C44: A fractional power without `absolute=True` gives NaN.
* C48: Quarter-turn rotations are sampled from the wrong margin.
* C50: Bounds above the Box-Cox threshold collapse; a condition given by index and by name is dropped.
* C51: An index and a name designating one asset are accepted together.
* C52: A renamed duplicate can collide with an existing suffixed name.
* C53: hash(-1) = hash(-2), and flattened keywords, give the wrong cached value.
* C55: The empirical covariance shape is 1/T and diagonal, not the documented Wishart covariance.
* C56: A second fit with an ndarray annualises the implied volatilities twice; negative implied volatilities are accepted.
* C58: Raises for one or two assets; does not compute the documented argmax.
* C59: With `raise_on_failure=False` rows shift; a single failure is an IndexError; different lengths are accepted; MAXIMIZE_RETURN reports an unrelated risk.
* C60: The first frontier target can lie above the maximum return.
* C62: `tail_concentration` below 1e-9 exceeds one.
* C63: The log-normal `mu` exceeds the mean linear return by one; the inner estimators' attributes are overwritten.
* C64: `min_return` bounds the weighted volatility instead of the expected return.
* C67: `window_size=0` uses all the data; one asset fails; `alpha=1` gives NaN.
* C68: With default bins the distance is not a metric, and the codependence of constant assets is NaN.
* C69: A constant asset gives NaN, yet one on the diagonal; `threshold` is unused.
* C71: With two conditioned assets that are not central, or a truncated vine, the conditions are ignored by some assets.
* C72: `C72_independent_candidate_refuted`: an `IndependentCopula` among the candidates fails with AttributeError. `C72_reuse_refuted`: the tau shared by the candidates is computed before clipping, so the selected copula can differ from the one fitted alone. `C72_constant_refuted`: a constant column gives a copula with a NaN parameter instead of independence.
* C75: `C75_log_transform_refuted`: with `log_transform`, `score_samples` evaluates the marginal densities at log(1 + x) but leaves out the Jacobian -log(1 + x), so it is not the log-density of the returned price returns.
* C76: `C76_synthetic_data_refuted`: `SyntheticData.fit` raises AttributeError for every non-empty set of fit parameters, since its distribution estimator is registered as `distance_estimator` and read as `distribution_estimator`.
* C76: `C76_refusal_refuted`: an ImpliedCovariance whose request is False still receives `implied_vol` when an estimator inside it requests it (scikit-learn hands a router everything its sub-estimators ask for, and the own parameter has the same name).
* C76: `C76_unrouted_refuted`: parameters requested only by the loading matrix estimator of a factor model, the outer estimator of nested clusters or the final estimator of a stacking are refused with TypeError.
* C77: `C77_factors_refuted`: nested clusters slice y with the positions of the assets of each cluster; fitting with factors or a benchmark raises as soon as a cluster of several assets contains a position beyond the columns of y, for every cross-validation.
* C77: `C77_factor_subset_refuted`: when y has enough columns, each cluster is silently fitted on some of the factors only.
* C77: `C77_params_refuted`: fit parameters keep all their columns in the cross-validated fits of a cluster, although the fit that gives the weights gets the columns of the cluster (named tables are re-selected by ImpliedCovariance, arrays are not).
* C77: `C77_interleaved_refuted`: with interleaved test folds a row of the outer data mixes the returns of two dates.
* C78: `C78_large_weight_refuted`: with a weight of 1e6 the pruning of `optimal_folds_number` (cost above 1e5) skips the optimum and returns a worse pair.
* C78: `C78_summary_refuted`: the Average Training Size of `CombinatorialPurgedCV.summary` ignores purging and embargo; it can exceed every training set.
* C79: the log-densities of the Gaussian and Student t copulas accept rho = 1 and rho = -1, where their formula divides by zero, although the docstring announces a ValueError (C79_boundary_refuted)
* C80: `Portfolio.diversification` divides the average of population standard deviations (ddof=0) by a sample standard deviation (ddof=1): a single-asset portfolio has sqrt((T-1)/T) < 1 (C80_single_asset, C80_diversification_refuted).
* C80: `Population.plot_cumulative_returns(idx=...)` is documented to select observations but selects columns, i.e. portfolios, and then raises because the number of names differs or the position is out of range (C80_plotted_idx_refuted).
* C81: `SyntheticData.fit` adds the same noise to every constant column: two assets conditioned to constants become perfectly correlated, the covariance is singular and their difference is a riskless portfolio (C81_two_constant_assets, C81_singular_refuted).
* C82: `n_params` counts fixed parameters: the AIC of Gaussian(loc=l) is never below that of Gaussian(), also when the AIC with the number of estimated parameters prefers it (C82_fixed_location_never_better, C82_free_parameters_refuted).
* C83: One asset with constant returns gives a NaN block size; the median is then NaN, the comparison with it is always False, and stationary_bootstrap silently draws the rows of every asset independently (C83_constant_asset_refuted). Two to seven observations raise ValueError from mismatched slices (C83_short).
* C84: `StackingOptimization.set_params(name=estimator)`, documented for replacing a member, always raises `RuntimeError` (the keyword dictionary is popped while it is iterated), after the member has been replaced and before any other parameter is set (`C84_member_refuted`).
* C84: a member whose name ends with `_` is accepted, but its parameters cannot be set: `a___x` is split at the first `__` (`C84_trailing_underscore_refuted`).
* C85: `download_dataset` writes its cache file in place: a call killed (or failing) during `joblib.dump` leaves a file that every later call tries to read, and raises, until the directory is cleared (`C85_crash_refuted`). Two concurrent calls can make one raise for the same reason (`C85_concurrent_refuted`).
* C85: `download_dataset` with a relative `data_home` never returns when nothing is cached: the archive is written relative to the current directory but read relative to the package (`C85_relative_refuted`).
* C86: Portfolios keep references to the caller arrays, so writing `weights` or `X` in place leaves stale returns and the deep copy differs; a MultiPeriodPortfolio accepted by `append` (period starting on the last observation of the previous one) or by setting `check_observations_order` cannot be unpickled.
* C87: A portfolio with a NaN measure is != itself and not >= itself (C87_nan_refuted); population.remove(p) and population.index(p) can act on another portfolio with the same fitness although p is in the list (C87_remove_refuted); set_portfolio_params returns None when it sets something, although it documents self, and a call that raises on a documented parameter (returns, observations) leaves the first portfolio changed and the others not (C87_params_refuted).
* C88: A bound method is never accepted as add_objective or add_constraints (C88_method_refuted); a second parameter with a default value, as in lambda w, k=0.1: ..., silently receives the estimator (C88_default_refuted); when the ratio is maximised, custom constraints that depend on the size of the weights bind the weight variable before normalisation and the reported weights can violate them (C88_ratio_refuted); scale_objective = 0 is accepted and makes every feasible point a solution (C88_scale_refuted).
* C89: With MAXIMIZE_RATIO and the variance, a covariance uncertainty set makes the problem maximise return per unit of variance instead of per unit of standard deviation, because the worst-case variance is linear in the factor: even a set of size zero changes the portfolio (C89_ratio_refuted).
* C90: summary() raises OverflowError for every portfolio without a single loss whose mean is not the risk-free rate (zero drawdowns make a ratio infinite, and int(-log10(inf)) fails): C90_winning_refuted.
* C90: The confidence level in a row name is rounded to a whole percentage, so the level 0.975 is displayed as 98%: C90_level_refuted.
* C94: With MAXIMIZE_RATIO a limit on the variance depends on the unit of the returns: the homogenisation factor is clipped to [0.001, 1000], so a limit no portfolio meets in one unit is met in another (C94_ratio_refuted).  The sanity check of covariances compares variances with 1e-15 whatever the unit: returns accepted in percentages are refused as decimals (C94_sanity_check_refuted).
* C96: with a singular covariance (two identical assets) every split of the budget minimises the variance, and with a cardinality two different weight vectors can be optimal even with an l2 penalty: the weights then depend on the solver (C96_unique_refuted, C96_unique_integer_refuted)
* C97: when some positive weights have a negative risk (CVaR, EVaR, worst realization of assets that only gain) the risk-budgeting problem is unbounded below and no weights are optimal (C97_unbounded); without risk the weights are not unique (C97_unique_refuted)

Read in the code but not stated as theorems:

* The Gini mean difference with transaction costs sets an equality whose left side contains an absolute value: not affine, so CVXPY refuses the problem.
* The difference `_tau_diff` of the Joe copula divides by zero at theta = 2.
* `plot_dendrogram` with one cluster reads the first merge instead of the last (`linkage_matrix[-0]`).
* `predict`'s docstring promises the first 500 characters of the name; nothing is truncated.
* An optimiser's `min_acceptable_return` and confidence levels are not passed to the predicted portfolio.
* `DistributionallyRobustCVaR` accepts and ignores `risk_free_rate` and `overwrite_expected_return`.
* A scalar `min_acceptable_return` is multiplied by the sum of the weights; an array is unhashable in the cache key.
* `log_transform` given as an integer array indexes columns; a conditioning value below -1 then gives NaN.
* `DetoneCovariance` with `n_markets >= n_assets` gives NaN.
* Docstrings of `_apply_margin_swap`, `inverse_partial_derivative` and of Gumbel's `score_samples` disagree with the code.
* `StackingOptimization.set_params` documents the value 'drop', which `fit` does not support.
* `input_to_array` silently ignores unknown dictionary keys.

## Print Assumptions per theorem

F = `ClassicalDedekindReals.sig_forall_dec`, N = `ClassicalDedekindReals.sig_not_dec`,
E = `FunctionalExtensionality.functional_extensionality_dep`, C = `Classical_Prop.classic`;
- = closed under the global context.

| property | theorem | axioms |
|----|----|----|
| C01 | `C01_sort_fronts` | - |
| C01 | `C01_first_front_only` | - |
| C01 | `C01_nan_terminates_refuted` | - |
| C02 | `C02_dominate_meaning` | - |
| C02 | `C02_dominate_length_error` | - |
| C02 | `C02_strict_partial_order` | - |
| C02 | `C02_portfolio_dominates` | - |
| C03 | `C03_train_is_purged_complement` | - |
| C03 | `C03_split_raises_iff` | - |
| C03 | `C03_train_nonempty_refuted` | - |
| C04 | `C04_splits_enumerate_choices` | - |
| C04 | `C04_folds_partition_iff` | - |
| C04 | `C04_every_observation_tested_refuted` | - |
| C04 | `C04_paths_cover_each_fold_once` | - |
| C04 | `C04_path_is_whole_sample` | - |
| C05 | `C05_walk_forward_splits` | - |
| C05 | `C05_raises_iff` | - |
| C05 | `C05_zero_test_size_terminates_refuted` | - |
| C06 | `C06_no_offset_located` | - |
| C06 | `C06_period_int_train` | - |
| C06 | `C06_period_int_windows` | - |
| C06 | `C06_period_offset_train` | - |
| C06 | `C06_period_offset_windows` | - |
| C06 | `C06_offset_purge_refuted` | - |
| C06 | `C06_freq_offset_bfill_refuted` | - |
| C06 | `C06_freq_offset_ffill_leak_refuted` | - |
| C06 | `C06_get_n_splits_refuted` | - |
| C07 | `C07_every_fold_once` | - |
| C07 | `C07_chronological` | - |
| C07 | `C07_accepts` | - |
| C07 | `C07_refuses` | - |
| C07 | `C07_walk_forward` | - |
| C07 | `C07_interleaved_refuted` | - |
| C07 | `C07_shuffled_fold_detected_refuted` | - |
| C07 | `C07_combinatorial_paths` | - |
| C08 | `C08_constraint_string_meaning` | F E |
| C08 | `C08_matrix_meaning` | F E |
| C08 | `C08_duplicate_levels_rejected` | F E |
| C08 | `C08_exponent_notation_refuted` | F E |
| C08 | `C08_missing_group_warns_refuted` | F E |
| C09 | `C09_no_comparison_rejected` | F E |
| C09 | `C09_strict_comparison_rejected` | F E |
| C09 | `C09_accepted_is_grammatical` | F E |
| C09 | `C09_chained_comparison_rejected_refuted` | F E |
| C09 | `C09_missing_left_side_rejected_refuted` | F E |
| C09 | `C09_unfinished_product_refuted` | F E |
| C10 | `C10_group_cardinalities` | F E |
| C10 | `C10_missing_group_skipped_refuted` | F E |
| C11 | `C11_cvar_is_minimum` | F E |
| C11 | `C11_cvar_is_worst_expected_loss` | F E |
| C11 | `C11_cvar_coherent` | F E |
| C12 | `C12_var_is_tail_quantile` | F E |
| C12 | `C12_ordering` | F N C E |
| C12 | `C12_evar_above_cvar` | F N C E |
| C12 | `C12_evar_no_loss_refuted` | F N C E |
| C12 | `C12_deviation_ordering` | F N E |
| C12 | `C12_entropic_risk_measure` | F N C E |
| C13 | `C13_max_drawdown` | F E |
| C13 | `C13_max_drawdown_compounded` | F E |
| C13 | `C13_drawdowns_nonpositive` | F E |
| C13 | `C13_drawdown_ordering` | F N C E |
| C13 | `C13_first_loss_counted_refuted` | F E |
| C14 | `C14_gini_is_mean_absolute_difference` | F E |
| C14 | `C14_gini_invariance` | F E |
| C15 | `C15_variance_relations` | F E |
| C15 | `C15_effective_number_bounds` | F E |
| C15 | `C15_skew_kurtosis_invariance` | F N E |
| C16 | `C16_measures_never_stale` | F N C E |
| C16 | `C16_fitness_list_aliased_refuted` | F N C E |
| C16 | `C16_fitness_list_shared_with_copy_refuted` | F N C E |
| C16 | `C16_measure_assignment_rejected_refuted` | F N C E |
| C17 | `C17_every_measure_resolves` | F N C E |
| C17 | `C17_names_consistent` | - |
| C17 | `C17_annualization` | F N C E |
| C17 | `C17_annualized_ratio` | F N C E |
| C17 | `C17_rolling_measure` | F N C E |
| C17 | `C17_rolling_annualized_ratio_refuted` | F N C E |
| C18 | `C18_expression` | F E |
| C18 | `C18_mismatch_rejected` | F E |
| C18 | `C18_laws` | F E |
| C18 | `C18_add_comm` | F E |
| C18 | `C18_abs_floordiv` | F E |
| C19 | `C19_mean_contributions` | F E |
| C19 | `C19_variance_contributions` | F E |
| C19 | `C19_dropped_zero_weights` | F E |
| C20 | `C20_multi_period_is_concatenation` | - |
| C20 | `C20_order_checked` | - |
| C20 | `C20_copies_independent_refuted` | - |
| C20 | `C20_append_same_check_refuted` | - |
| C20 | `C20_operators_keep_settings_refuted` | - |
| C21 | `C21_only_portfolios` | - |
| C21 | `C21_raising_changes_nothing` | - |
| C21 | `C21_list_semantics` | - |
| C21 | `C21_iadd_refuted` | - |
| C21 | `C21_extend_atomic_refuted` | - |
| C22 | `C22_sort_measure` | F E |
| C22 | `C22_quantile` | F E |
| C22 | `C22_quantile_monotone` | F E |
| C22 | `C22_min_max` | F E |
| C22 | `C22_filter` | - |
| C23 | `C23_drop_correlated` | F N E |
| C23 | `C23_absolute_refuted` | F N E |
| C24 | `C24_select_k_extremes` | F E |
| C25 | `C25_min_n_assets` | F N E |
| C25 | `C25_first_front` | F N E |
| C25 | `C25_pair_minimum_variance` | F N E |
| C25 | `C25_stops_when_reached_refuted` | F N E |
| C26 | `C26_select_complete` | - |
| C26 | `C26_select_non_expiring` | - |
| C26 | `C26_drop_zero_variance` | F E |
| C27 | `C27_prices_to_returns` | F N C E |
| C27 | `C27_fill_is_causal` | - |
| C27 | `C27_compounding` | F N C E |
| C27 | `C27_nan_threshold_refuted` | F E |
| C28 | `C28_stationary_bootstrap` | F E |
| C29 | `C29_hierarchical_risk_parity` | F E |
| C29 | `C29_finite` | F E |
| C29 | `C29_not_finite_refuted` | F E |
| C29 | `C29_infeasible_minimum_accepted_refuted` | F E |
| C30 | `C30_weights_before_bounds` | F E |
| C30 | `C30_bounds` | F N E |
| C31 | `C31_nco` | F E |
| C31 | `C31_stacking` | F E |
| C31 | `C31_nco_full` | F E |
| C32 | `C32_equal_weighted` | F E |
| C32 | `C32_inverse_volatility` | F N E |
| C32 | `C32_rand_weights` | F E |
| C32 | `C32_all_zeros_refuted` | F E |
| C33 | `C33_reported_weights` | F N E |
| C33 | `C33_turnover` | F N E |
| C33 | `C33_turnover_needs_previous_weights` | - |
| C33 | `C33_factor_positive` | F N E |
| C33 | `C33_homogenization_factor` | F E |
| C33 | `C33_negative_factor_refuted` | F N E |
| C34 | `C34_cardinalities_and_thresholds` | F N E |
| C34 | `C34_complete` | F N E |
| C34 | `C34_zero_short_threshold_refuted` | F E |
| C34 | `C34_no_min_weights_refuted` | F E |
| C35 | `C35_worst_realization` | F N C E |
| C35 | `C35_cvar` | F N C E |
| C35 | `C35_first_lower_partial_moment` | F N C E |
| C35 | `C35_mean_absolute_deviation` | F N C E |
| C35 | `C35_semi_variance` | F N C E |
| C35 | `C35_standard_deviation` | F N C E |
| C35 | `C35_evar` | F N C E |
| C35 | `C35_drawdowns` | F N C E |
| C35 | `C35_drawdowns_of_measures` | F E |
| C35 | `C35_first_loss_refuted` | F E |
| C35 | `C35_gini_mean_difference` | F N C E |
| C35 | `C35_evar_costs_refuted` | F N C E |
| C35 | `C35_flpm_risk_free_rate_refuted` | F N C E |
| C35 | `C35_mad_target_refuted` | F N C E |
| C36 | `C36_weights_allowed` | F N C E |
| C36 | `C36_maximum_ratio` | F N C E |
| C36 | `C36_optimal` | F N C E |
| C36 | `C36_integer_weights` | F N C E |
| C36 | `C36_integer_optimal` | F N C E |
| C36 | `C36_integer_ratio` | F N C E |
| C36 | `C36_tracking_error_refuted` | F N C E |
| C36 | `C36_variance_limit_refuted` | F N C E |
| C37 | `C37_differentiable_risk` | F N C E |
| C37 | `C37_contributions` | F N C E |
| C37 | `C37_first_lower_partial_moment` | F N C E |
| C37 | `C37_scalar_budget_refuted` | F N C E |
| C38 | `C38_drawdown_defined` | - |
| C38 | `C38_same_problem` | - |
| C38 | `C38_after_success` | - |
| C38 | `C38_failed_fit_refuted` | - |
| C38 | `C38_dropped_constraints_unbounded` | F N C E |
| C39 | `C39_posterior` | - |
| C39 | `C39_least_disagreement` | - |
| C39 | `C39_covariance_bounds` | - |
| C39 | `C39_certain_views` | - |
| C39 | `C39_neutral_views` | - |
| C39 | `C39_rejected` | - |
| C39 | `C39_single_view` | - |
| C39 | `C39_no_confidences` | - |
| C39 | `C39_confidences_kept_refuted` | - |
| C40 | `C40_moments` | - |
| C40 | `C40_always_positive_definite` | - |
| C40 | `C40_mean_of_scenarios` | - |
| C40 | `C40_cholesky_refuted` | - |
| C40 | `C40_zero_loading_undefined` | - |
| C41 | `C41_gerber` | F N E |
| C41 | `C41_window_zero_refuted` | F N E |
| C42 | `C42_correlation` | - |
| C42 | `C42_nearest_clip` | - |
| C42 | `C42_nearest_higham` | - |
| C42 | `C42_denoise` | - |
| C42 | `C42_detone` | - |
| C42 | `C42_fitted` | - |
| C43 | `C43_target` | - |
| C43 | `C43_preserved` | - |
| C43 | `C43_bayes_stein` | - |
| C43 | `C43_james_stein` | - |
| C43 | `C43_bodnar_okhrin` | - |
| C43 | `C43_bodnar_okhrin_projection_refuted` | - |
| C43 | `C43_james_stein_two_assets_refuted` | - |
| C44 | `C44_distance` | F N C E |
| C44 | `C44_decreasing` | F N C E |
| C44 | `C44_matrix` | F N C E |
| C44 | `C44_triangle` | F N C E |
| C44 | `C44_fractional_power_refuted` | F N C E |
| C45 | `C45_partial_derivative` | F E |
| C45 | `C45_density` | F E |
| C45 | `C45_copula` | F N C E |
| C45 | `C45_inverse` | F E |
| C45 | `C45_methods` | F E |
| C45 | `C45_sample` | F E |
| C45 | `C45_score` | F N E |
| C46 | `C46_clayton` | F N C E |
| C46 | `C46_gumbel` | F N C E |
| C46 | `C46_joe` | F N C E |
| C46 | `C46_gaussian` | F N E |
| C46 | `C46_student` | F N E |
| C46 | `C46_independent` | F N E |
| C47 | `C47_gumbel_solution` | F N C E |
| C47 | `C47_gumbel` | F N C E |
| C47 | `C47_gumbel_converges` | F N C E |
| C47 | `C47_joe_solution` | F N C E |
| C47 | `C47_joe` | F N C E |
| C47 | `C47_code` | F N C E |
| C48 | `C48_order` | - |
| C48 | `C48_sampling` | - |
| C48 | `C48_copulas` | F E |
| C48 | `C48_rotated_refuted` | F N C E |
| C49 | `C49_regular_vine` | F E |
| C49 | `C49_rejected` | F E |
| C49 | `C49_levels` | - |
| C49 | `C49_conditioning_sets` | - |
| C49 | `C49_columns` | - |
| C50 | `C50_accepted` | F N C E |
| C50 | `C50_conditions` | F N C E |
| C50 | `C50_law` | F N C E |
| C50 | `C50_exact_value` | F N C E |
| C50 | `C50_back` | F N C E |
| C50 | `C50_box_cox_refuted` | F N C E |
| C50 | `C50_mixed_keys_refuted` | F N C E |
| C51 | `C51_by_name` | - |
| C51 | `C51_order_free` | - |
| C51 | `C51_array` | - |
| C51 | `C51_groups` | - |
| C51 | `C51_items` | - |
| C51 | `C51_items_lenient` | - |
| C51 | `C51_distinct` | - |
| C51 | `C51_mixed_refuted` | - |
| C52 | `C52_renaming` | - |
| C52 | `C52_unique` | - |
| C52 | `C52_collision_refuted` | - |
| C53 | `C53_history` | - |
| C53 | `C53_no_collision` | - |
| C53 | `C53_own_arguments` | - |
| C53 | `C53_first_use` | - |
| C53 | `C53_minus_one_refuted` | - |
| C53 | `C53_keyword_refuted` | - |
| C54 | `C54_transpose` | - |
| C54 | `C54_permutation` | - |
| C55 | `C55_ellipsoid` | - |
| C55 | `C55_mu_worst_case` | - |
| C55 | `C55_empirical_mu` | - |
| C55 | `C55_bootstrap_mu` | - |
| C55 | `C55_covariance_bound` | - |
| C55 | `C55_empirical_covariance` | - |
| C55 | `C55_covariance_exact` | - |
| C55 | `C55_bootstrap_covariance` | - |
| C55 | `C55_roots` | - |
| C55 | `C55_wishart_refuted` | - |
| C56 | `C56_windows` | F N C E |
| C56 | `C56_layout` | - |
| C56 | `C56_causal` | F N C E |
| C56 | `C56_fit` | F N C E |
| C56 | `C56_accepts` | F N C E |
| C56 | `C56_regression` | F N C E |
| C56 | `C56_refit` | F N C E |
| C56 | `C56_refit_refuted` | F N C E |
| C56 | `C56_negative_refuted` | F N C E |
| C57 | `C57_value` | F E |
| C57 | `C57_order` | F E |
| C57 | `C57_selection` | F E |
| C57 | `C57_explicit` | F E |
| C57 | `C57_callable` | F |
| C57 | `C57_refused` | F |
| C58 | `C58_optimal` | F N E |
| C58 | `C58_range` | F N E |
| C58 | `C58_two_assets_refuted` | F E |
| C58 | `C58_fit` | F N E |
| C58 | `C58_accepted` | F E |
| C58 | `C58_documented_refuted` | F N E |
| C59 | `C59_all_solved` | F |
| C59 | `C59_raise_on_failure` | F |
| C59 | `C59_rows_shift_refuted` | F E |
| C59 | `C59_failure_not_tolerated_refuted` | - |
| C59 | `C59_different_lengths_refuted` | F E |
| C59 | `C59_reported_return` | F N E |
| C59 | `C59_reported_risk` | F N C E |
| C59 | `C59_reported_risk_refuted` | F N C E |
| C60 | `C60_targets` | F E |
| C60 | `C60_frontier_monotone` | F N C E |
| C60 | `C60_targets_refuted` | F E |
| C61 | `C61_equilibrium` | - |
| C62 | `C62_clayton` | F N C E |
| C62 | `C62_gumbel` | F N C E |
| C62 | `C62_joe` | F N C E |
| C62 | `C62_concentration` | F E |
| C62 | `C62_concentration_clipped_refuted` | F N C E |
| C63 | `C63_horizon` | F N C E |
| C63 | `C63_moments` | F N C E |
| C63 | `C63_log_normal` | F N C E |
| C63 | `C63_positive_semidefinite` | F N C E |
| C63 | `C63_mean_refuted` | F N C E |
| C63 | `C63_attributes_refuted` | F N C E |
| C64 | `C64_weights_allowed` | F N C E |
| C64 | `C64_maximises_net_ratio` | F N C E |
| C64 | `C64_maximum_diversification` | F N C E |
| C64 | `C64_min_return_refuted` | F N C E |
| C65 | `C65_certificate` | F N E |
| C65 | `C65_worst_case` | F N E |
| C65 | `C65_minimises_worst_case` | F N E |
| C66 | `C66_portfolio` | F E |
| C66 | `C66_population` | F E |
| C66 | `C66_no_side_effect` | F N E |
| C66 | `C66_score` | F N E |
| C66 | `C66_not_fitted` | F N E |
| C67 | `C67_window` | - |
| C67 | `C67_window_zero_refuted` | F |
| C67 | `C67_empirical_mu` | F E |
| C67 | `C67_empirical_covariance` | F E |
| C67 | `C67_single_asset_refuted` | - |
| C67 | `C67_ew_mu` | F E |
| C67 | `C67_alpha_rejected` | F E |
| C67 | `C67_ew_covariance` | F E |
| C67 | `C67_alpha_one_refuted` | F E |
| C68 | `C68_bins` | F E |
| C68 | `C68_variation_of_information` | F N C E |
| C68 | `C68_metric` | F N C E |
| C68 | `C68_affine_invariance` | F N C E |
| C68 | `C68_default_total` | F N C E |
| C68 | `C68_default_metric_refuted` | F N C E |
| C69 | `C69_szekely` | F N E |
| C69 | `C69_symmetric` | F N E |
| C69 | `C69_independence` | F N E |
| C69 | `C69_affine` | F N E |
| C69 | `C69_invariance` | F N E |
| C70 | `C70_core` | F E |
| C70 | `C70_first_tree` | F E |
| C70 | `C70_next_trees` | F E |
| C70 | `C70_own_vine` | F E |
| C71 | `C71_given_all_before` | - |
| C71 | `C71_conditions_first` | - |
| C71 | `C71_one_condition` | - |
| C71 | `C71_central` | F E |
| C71 | `C71_two_conditions_refuted` | - |
| C71 | `C71_truncated_refuted` | - |
| C72 | `C72_best` | F N C E |
| C72 | `C72_independence` | F N C E |
| C72 | `C72_data` | F N C E |
| C72 | `C72_bad_data` | F N C E |
| C72 | `C72_rejected` | F N C E |
| C72 | `C72_rotation` | F N C E |
| C72 | `C72_maximum_likelihood` | F N C E |
| C72 | `C72_failure` | F N C E |
| C72 | `C72_bounds` | F N C E |
| C72 | `C72_correlation` | F N E |
| C72 | `C72_gaussian` | F N C E |
| C72 | `C72_student` | F N C E |
| C72 | `C72_default` | F N C E |
| C72 | `C72_independent_candidate_refuted` | F N C E |
| C72 | `C72_reuse_refuted` | F N C E |
| C72 | `C72_constant_refuted` | F N C E |
| C72 | `C72_univariate` | F N C E |
| C72 | `C72_univariate_rejected` | F N C E |
| C73 | `C73_tau` | F N E |
| C73 | `C73_range` | F N C E |
| C73 | `C73_margins` | F N C E |
| C73 | `C73_shuffled` | F N C E |
| C73 | `C73_rotations` | F N C E |
| C73 | `C73_pseudo` | F E |
| C73 | `C73_uniform` | F E |
| C73 | `C73_tau_pseudo` | F N C E |
| C73 | `C73_concentration` | F E |
| C73 | `C73_exchange` | F C E |
| C73 | `C73_upper_lower` | F C E |
| C74 | `C74_unique` | F N E |
| C74 | `C74_clayton` | F N C E |
| C74 | `C74_gumbel` | F N C E |
| C74 | `C74_joe` | F N C E |
| C74 | `C74_fit` | F N C E |
| C75 | `C75_simulation` | F N C E |
| C75 | `C75_density` | F N C E |
| C75 | `C75_copulas` | F N E |
| C75 | `C75_families` | F N C E |
| C75 | `C75_log_transform_refuted` | F N C E |
| C76 | `C76_delivery` | - |
| C76 | `C76_nothing` | - |
| C76 | `C76_synthetic_data_refuted` | - |
| C76 | `C76_refusal_refuted` | - |
| C76 | `C76_unrouted_refuted` | - |
| C77 | `C77_nco` | - |
| C77 | `C77_stacking` | - |
| C77 | `C77_weights_fit` | - |
| C77 | `C77_no_leak` | - |
| C77 | `C77_stacking_no_leak` | - |
| C77 | `C77_walk_forward_causal` | - |
| C77 | `C77_nco_total` | - |
| C77 | `C77_factors_refuted` | - |
| C77 | `C77_factor_subset_refuted` | - |
| C77 | `C77_params_refuted` | - |
| C77 | `C77_interleaved_refuted` | - |
| C78 | `C78_optimal` | - |
| C78 | `C78_default_weights` | - |
| C78 | `C78_too_few` | - |
| C78 | `C78_large_weight_refuted` | - |
| C78 | `C78_average_train_size` | - |
| C78 | `C78_summary` | - |
| C78 | `C78_average_upper` | - |
| C78 | `C78_summary_refuted` | - |
| C79 | `C79_gaussian` | F N C E |
| C79 | `C79_student` | F N C E |
| C79 | `C79_rejects` | F N C E |
| C79 | `C79_boundary_refuted` | F N C E |
| C79 | `C79_uncorrelated` | F N C E |
| C79 | `C79_gaussian_tails` | F N C E |
| C79 | `C79_student_tails` | F N C E |
| C79 | `C79_student_coefficient` | F N C E |
| C80 | `C80_composition` | F E |
| C80 | `C80_multi_period` | F E |
| C80 | `C80_population` | F E |
| C80 | `C80_weights_per_observation` | F E |
| C80 | `C80_empty` | F E |
| C80 | `C80_plotted` | - |
| C80 | `C80_get_weight` | - |
| C80 | `C80_reported_close` | F E |
| C80 | `C80_from_assets` | F E |
| C80 | `C80_diversification` | F N E |
| C80 | `C80_single_asset` | F N E |
| C80 | `C80_diversification_refuted` | F N E |
| C80 | `C80_plotted_idx_refuted` | F |
| C81 | `C81_returns` | F E |
| C81 | `C81_prior` | F E |
| C81 | `C81_no_null_variance` | F N E |
| C81 | `C81_two_constant_assets` | F E |
| C81 | `C81_singular_refuted` | F N E |
| C82 | `C82_maximum_likelihood` | F N C E |
| C82 | `C82_raises` | F N E |
| C82 | `C82_degenerate` | F N C E |
| C82 | `C82_criteria` | F N C E |
| C82 | `C82_gaussian_criteria` | F N C E |
| C82 | `C82_equivariant` | F N C E |
| C82 | `C82_fixed_location_never_better` | F N C E |
| C82 | `C82_free_parameters_refuted` | F N C E |
| C83 | `C83_block_size` | F N C E |
| C83 | `C83_short` | F N C E |
| C83 | `C83_range` | F N C E |
| C83 | `C83_affine_invariant` | F N C E |
| C83 | `C83_constant` | F N C E |
| C83 | `C83_default` | F N C E |
| C83 | `C83_constant_asset_refuted` | F N C E |
| C83 | `C83_short_panel` | F N C E |
| C84 | `C84_get_params` | - |
| C84 | `C84_set_params` | - |
| C84 | `C84_set_one` | - |
| C84 | `C84_set_many` | - |
| C84 | `C84_set_list` | - |
| C84 | `C84_member_refuted` | - |
| C84 | `C84_trailing_underscore_refuted` | - |
| C84 | `C84_validate_names` | - |
| C85 | `C85_correct` | - |
| C85 | `C85_returns` | - |
| C85 | `C85_recovers` | - |
| C85 | `C85_cached` | - |
| C85 | `C85_missing` | - |
| C85 | `C85_crash_refuted` | - |
| C85 | `C85_relative_refuted` | - |
| C85 | `C85_concurrent_refuted` | - |
| C86 | `C86_current` | - |
| C86 | `C86_single` | - |
| C86 | `C86_recomputed` | - |
| C86 | `C86_multi` | - |
| C86 | `C86_independent` | - |
| C86 | `C86_written_refuted` | - |
| C86 | `C86_append_refuted` | - |
| C86 | `C86_flag_refuted` | - |
| C86 | `C86_portfolios_set` | - |
| C87 | `C87_operators` | - |
| C87 | `C87_order` | - |
| C87 | `C87_other` | - |
| C87 | `C87_lengths` | - |
| C87 | `C87_nan_refuted` | - |
| C87 | `C87_lists` | - |
| C87 | `C87_remove_refuted` | - |
| C87 | `C87_max_min` | - |
| C87 | `C87_params` | - |
| C87 | `C87_params_unchanged` | - |
| C87 | `C87_params_stopped` | - |
| C87 | `C87_params_refuted` | - |
| C88 | `C88_call` | - |
| C88 | `C88_method_refuted` | - |
| C88 | `C88_default_refuted` | - |
| C88 | `C88_absent` | F |
| C88 | `C88_optimal` | F N C E |
| C88 | `C88_ratio` | F N C E |
| C88 | `C88_ratio_refuted` | F N C E |
| C88 | `C88_scale` | F N C E |
| C88 | `C88_scale_refuted` | F N C E |
| C89 | `C89_guarantee` | - |
| C89 | `C89_values` | - |
| C89 | `C89_robust` | - |
| C89 | `C89_ratio_refuted` | - |
| C90 | `C90_number` | F N C E |
| C90 | `C90_order` | F N C E |
| C90 | `C90_rows` | F N C E |
| C90 | `C90_winning_refuted` | F N C E |
| C90 | `C90_level_refuted` | F E |
| C91 | `C91_units` | F N C E |
| C91 | `C91_cash` | F N C E |
| C91 | `C91_order` | F N C E |
| C91 | `C91_order_refuted` | F N C E |
| C91 | `C91_compounded_refuted` | F N C E |
| C92 | `C92_mean_risk` | F N C E |
| C92 | `C92_moments` | F E |
| C93 | `C93_sample` | - |
| C93 | `C93_released` | - |
| C93 | `C93_score` | - |
| C93 | `C93_history` | - |
| C93 | `C93_fit` | F E |
| C94 | `C94_mean_risk` | F N C E |
| C94 | `C94_ratio_refuted` | F N C E |
| C94 | `C94_risk_budgeting` | F N C E |
| C94 | `C94_maximum_diversification` | F N C E |
| C94 | `C94_inverse_volatility` | F N E |
| C94 | `C94_moments` | F E |
| C94 | `C94_sanity_check_refuted` | F E |
| C95 | `C95_risk_aversion` | F N C E |
| C95 | `C95_l1` | F N C E |
| C95 | `C95_l2` | F N C E |
| C95 | `C95_utility_efficient` | F N C E |
| C95 | `C95_ratio_efficient` | F N C E |
| C95 | `C95_utility_on_frontier` | F N C E |
| C95 | `C95_relaxed` | F N C E |
| C96 | `C96_mixture` | F N C E |
| C96 | `C96_optimal_mixture` | F N C E |
| C96 | `C96_unique_l2` | F N C E |
| C96 | `C96_unique_variance` | F N C E |
| C96 | `C96_unique_deviation` | F N C E |
| C96 | `C96_unique_ratio` | F N C E |
| C96 | `C96_unique_diversification` | F N C E |
| C96 | `C96_frontier_convex` | F N C E |
| C96 | `C96_unique_refuted` | F N C E |
| C96 | `C96_unique_integer_refuted` | F N C E |
| C97 | `C97_unique` | F N C E |
| C97 | `C97_unbounded` | F N C E |
| C97 | `C97_risk_not_negative` | F N C E |
| C97 | `C97_scaled_budgets` | F N C E |
| C97 | `C97_unique_refuted` | F N C E |
| C98 | `C98_equal_budgets` | F N C E |
| C98 | `C98_two_assets` | F N C E |
| C98 | `C98_uncorrelated_budgets` | F N C E |
| C98 | `C98_maximum_diversification` | F N C E |
| C98 | `C98_minimum_variance` | F N C E |
| C98 | `C98_inverse_variance` | F N C E |
| C98 | `C98_equal_weighted` | F N C E |
| C98 | `C98_hierarchical` | F E |
| C98 | `C98_hierarchical_default` | F E |
