{"id": "C01", "title": "Non-dominated sorting returns the Pareto fronts", "statement": "For every NaN-free fitness table, non_denominated_sort terminates and returns fronts that partition the row indices: every row appears in exactly one front; front 0 is exactly the set of rows dominated by no row; a row is in front k+1 iff all its dominators lie in fronts 0..k and at least one lies in front k. With first_front_only=True only front 0 is returned. (With NaN entries the function can loop forever.)", "quantifier": "all finite fitness tables of any number of rows and objectives", "why_tests_cant": "the peeling loop uses counters over all pairs; correctness depends on transitivity of dominance for every input size, and termination is not testable", "anchors": ["src/skfolio/utils/sorting.py:dominate", "src/skfolio/utils/sorting.py:non_denominated_sort", "src/skfolio/population/_population.py:Population.non_denominated_sort"]}
{"id": "C02", "title": "Dominance is a strict partial order", "statement": "Portfolio.dominates(other, idx) is irreflexive, asymmetric and transitive on NaN-free fitnesses for every subset of objectives, and holds iff the portfolio is at least as good on every selected objective and strictly better on one.", "quantifier": "all pairs/triples of fitness vectors and all objective index subsets", "why_tests_cant": "universally quantified order laws", "anchors": ["src/skfolio/utils/sorting.py:dominate", "src/skfolio/portfolio/_base.py:BasePortfolio.dominates"]}
{"id": "C03", "title": "CombinatorialPurgedCV training sets are exactly the purged and embargoed complement", "statement": "For every n_folds, n_test_folds, purged_size, embargo_size and number of observations accepted by split, an observation x belongs to a split's training set iff it is in none of the split's test folds, no test observation t satisfies x < t <= x + purged_size, and no test observation t satisfies t < x <= t + purged_size + embargo_size (test observation being fold boundaries); train and test are disjoint.", "quantifier": "all parameters, sample lengths and every split", "why_tests_cant": "boundary arithmetic over unbounded sizes", "anchors": ["src/skfolio/model_selection/_combinatorial.py:CombinatorialPurgedCV.split"]}
{"id": "C04", "title": "CombinatorialPurgedCV covers every combination and recombines complete chronological paths", "statement": "The test folds partition the observations into contiguous chronological blocks; the number of splits is C(n_folds, n_test_folds), all distinct; every fold is tested in C(n_folds-1, n_test_folds-1) splits; get_path_ids assigns every (split, fold) to one path so that each of the n_test_paths paths contains every fold exactly once and hence covers every observation exactly once in chronological order.", "quantifier": "all n_folds, n_test_folds, sample lengths", "why_tests_cant": "combinatorial identity for all parameters", "anchors": ["src/skfolio/model_selection/_combinatorial.py:CombinatorialPurgedCV.split", "src/skfolio/model_selection/_combinatorial.py:CombinatorialPurgedCV.get_path_ids", "src/skfolio/model_selection/_combinatorial.py:CombinatorialPurgedCV.recombined_paths", "src/skfolio/model_selection/_combinatorial.py:_n_splits", "src/skfolio/model_selection/_combinatorial.py:_n_test_paths"]}
{"id": "C05", "title": "WalkForward has no look-ahead and tiles the test period", "statement": "With integer sizes (no freq), every split's training indices all precede its test indices by at least purged_size observations, training windows have exactly train_size (or expanding) observations, test windows have exactly test_size observations (the last may be shorter only if reduce_test), consecutive test windows are adjacent so that the concatenation of test windows is a contiguous range ending at n (reduce_test) or within test_size of n, and get_n_splits equals the number of splits produced.", "quantifier": "all sample lengths, train/test/purged sizes, reduce_test and expend_train", "why_tests_cant": "index arithmetic for all sizes; termination of the generator loop", "anchors": ["src/skfolio/model_selection/_walk_forward.py:WalkForward.split", "src/skfolio/model_selection/_walk_forward.py:_split_without_period", "src/skfolio/model_selection/_walk_forward.py:WalkForward.get_n_splits"]}
{"id": "C06", "title": "WalkForward with a calendar frequency never trains on test or future observations", "statement": "With freq set, for every strictly increasing calendar index and every period grid whose dates (moved by freq_offset) can be located in the index, the generator terminates; each split tests from the position of its date to that of the next date used, trains only on earlier observations (with an integer train_size, at least purged_size observations earlier), and the test windows of consecutive splits do not overlap. The windows are exactly those given by the dates, for an integer train_size and for a train offset.", "quantifier": "all index/period grids and sizes", "why_tests_cant": "depends on every calendar layout, including gaps", "anchors": ["src/skfolio/model_selection/_walk_forward.py:_split_from_period_without_train_offset", "src/skfolio/model_selection/_walk_forward.py:_split_from_period_with_train_offset"]}
{"id": "C07", "title": "cross_val_predict returns each test fold once in chronological order", "statement": "For every non-shuffled splitter, cross_val_predict returns a MultiPeriodPortfolio whose portfolios are the out-of-sample predictions of every split ordered by first test index (or, for combinatorial CV, one path per row with every fold predicted exactly once by the estimator trained on that split).", "quantifier": "all splitters, all execution orders of the parallel jobs", "why_tests_cant": "quantifies over all split sequences; checks in the code inspect only one split", "anchors": ["src/skfolio/model_selection/_validation.py:cross_val_predict"]}
{"id": "C08", "title": "Linear-constraint strings mean what they say", "statement": "Parsing any well-formed linear constraint (sum of signed coefficient*group terms and constants on both sides of <=, >=, or ==) yields a row (a, b) such that for every weight vector w the row constraint a.w (<= or ==) b holds iff the written (in)equality holds when each group name denotes the sum of the weights of the assets in that group.", "quantifier": "all expressions, spacings, groups and weight vectors", "why_tests_cant": "unbounded grammar and sign bookkeeping", "anchors": ["src/skfolio/utils/equations.py:equations_to_matrix", "src/skfolio/utils/equations.py:_string_to_equation", "src/skfolio/utils/equations.py:_split_equation_string"]}
{"id": "C09", "title": "Malformed constraint strings are rejected", "statement": "A string is given a meaning only if it reads, token by token and up to white space, as an optional left side followed by one or more (comparison operator, side) pairs made of numbers and known group names; a string with no comparison operator, or with a strict '<', is always rejected with EquationToMatrixError. (Chained comparisons, a missing left side and an unfinished product are not rejected with that error: recorded as refutations.)", "quantifier": "all strings", "why_tests_cant": "quantifies over all strings", "anchors": ["src/skfolio/utils/equations.py:_string_to_equation", "src/skfolio/utils/equations.py:_split_equation_string"]}
{"id": "C10", "title": "Group cardinality dictionary becomes one row per known group", "statement": "group_cardinalities_to_matrix returns, for every dictionary whose groups exist, one row per entry in order, whose coefficients are the group's indicator and whose bound is the cardinality. (The documented skipping of unknown groups when raise_if_group_missing=False is refuted.)", "quantifier": "all group arrays and dictionaries", "why_tests_cant": "quantifies over all dictionaries", "anchors": ["src/skfolio/utils/equations.py:group_cardinalities_to_matrix"]}
{"id": "C11", "title": "CVaR equals its variational forms and is a coherent risk measure", "statement": "For every return sample and confidence level beta in (0,1), cvar(returns, beta) equals the Rockafellar-Uryasev minimum min_t t + E[(loss-t)+]/(1-beta) (attained at VaR) and the maximum of the expected loss over probability weights bounded by 1/((1-beta)n); it is monotone, translation-equivariant, positively homogeneous and subadditive.", "quantifier": "all samples, beta in (0,1)", "why_tests_cant": "real-valued inequality over all samples", "anchors": ["src/skfolio/measures/_measures.py:cvar", "src/skfolio/measures/_measures.py:value_at_risk"]}
{"id": "C12", "title": "Risk measures are ordered", "statement": "For every sample: value_at_risk is the smallest level exceeded by fewer than (1-beta)n losses; -mean <= cvar, value_at_risk <= cvar <= worst_realization; cvar is non-decreasing in beta; cvar <= entropic_risk_measure(theta) <= worst_realization + theta ln(1/(1-beta)) for every theta>0, hence cvar <= evar as soon as some return is negative; and mean absolute deviation = 2 * first lower partial moment <= standard_deviation, first lower partial moment <= semi_deviation <= standard_deviation.", "quantifier": "all samples and parameters", "why_tests_cant": "inequalities over reals", "anchors": ["src/skfolio/measures/_measures.py:cvar", "src/skfolio/measures/_measures.py:value_at_risk", "src/skfolio/measures/_measures.py:entropic_risk_measure", "src/skfolio/measures/_measures.py:evar", "src/skfolio/measures/_measures.py:worst_realization"]}
{"id": "C13", "title": "Drawdown measures are the worst peak-to-trough losses", "statement": "get_drawdowns is everywhere <= 0 (compounded: when every return exceeds -1), max_drawdown equals the largest peak-to-later-trough loss of the cumulative return path over ordered pairs of dates (absolute when uncompounded, relative to the peak when compounded), average_drawdown is the mean drawdown and lies with cdar between 0 and max_drawdown, drawdown_at_risk <= cdar, and ulcer_index lies between average_drawdown and max_drawdown.", "quantifier": "all return samples", "why_tests_cant": "maximum over all pairs of dates for unbounded length", "anchors": ["src/skfolio/measures/_measures.py:get_cumulative_returns", "src/skfolio/measures/_measures.py:get_drawdowns", "src/skfolio/measures/_measures.py:max_drawdown", "src/skfolio/measures/_measures.py:average_drawdown", "src/skfolio/measures/_measures.py:cdar", "src/skfolio/measures/_measures.py:ulcer_index"]}
{"id": "C14", "title": "Gini mean difference is the mean absolute difference between pairs", "statement": "gini_mean_difference(returns), computed from ordered-weighted-average weights on the sorted sample, equals the average of |r_i - r_j| over all ordered pairs i != j; it is invariant under permutation and translation of the sample and non-negative.", "quantifier": "all samples of length >= 2", "why_tests_cant": "identity for all n", "anchors": ["src/skfolio/measures/_measures.py:gini_mean_difference", "src/skfolio/measures/_measures.py:owa_gmd_weights"]}
{"id": "C15", "title": "Second-moment measures have their textbook relations", "statement": "variance is non-negative, translation and permutation invariant, quadratic-homogeneous, and zero exactly for constant samples; upper and lower semi-variances about the mean add up to the variance; skew and kurtosis are location-scale invariant; for non-negative weights summing to one effective_number_assets lies in [1, n], is n exactly for equal weights and 1 exactly for a single asset.", "quantifier": "all samples and weights", "why_tests_cant": "identities for all n", "anchors": ["src/skfolio/measures/_measures.py:variance", "src/skfolio/measures/_measures.py:semi_variance", "src/skfolio/measures/_measures.py:mean_absolute_deviation", "src/skfolio/measures/_measures.py:first_lower_partial_moment", "src/skfolio/measures/_measures.py:effective_number_assets"]}
{"id": "C16", "title": "Portfolio measures are never stale", "statement": "After any sequence of constructions, attribute reads, attribute writes, clear(), copy() and fitness reads on portfolios, reading a measure returns the value computed from the object's current attributes; in particular changing annualized_factor, risk_free_rate, cvar_beta etc. is reflected by every later read, on the object and on its copies independently. (Not covered, and shown false: mutating the fitness_measures list in place, and assigning to a measure attribute.)", "quantifier": "all operation sequences", "why_tests_cant": "history-dependent caching", "anchors": ["src/skfolio/portfolio/_base.py:BasePortfolio.__getattribute__", "src/skfolio/portfolio/_base.py:BasePortfolio.__setattr__", "src/skfolio/portfolio/_base.py:BasePortfolio.__copy__", "src/skfolio/portfolio/_base.py:BasePortfolio.clear", "src/skfolio/utils/tools.py:cached_property_slots"]}
{"id": "C17", "title": "Every measure resolves and annualises consistently", "statement": "For every measure of the four enumerations get_measure finds the function and its arguments and returns the documented value; every ratio's linked risk measure exists; annualized and non-annualized names are inverse; annualized mean/variance scale by the factor and annualized deviations by its square root; an annualized ratio is the ratio times the square root of the factor if and only if the risk-free rate is zero or the factor is one; rolling_measure at i is the measure of the window ending at i.", "quantifier": "all measures, returns, annualisation factors and risk-free rates", "why_tests_cant": "numeric identity over all inputs", "anchors": ["src/skfolio/measures/_enums.py:BaseMeasure", "src/skfolio/measures/_enums.py:RatioMeasure.linked_risk_measure", "src/skfolio/portfolio/_base.py:BasePortfolio.get_measure", "src/skfolio/portfolio/_base.py:BasePortfolio.rolling_measure"]}
{"id": "C18", "title": "Portfolio arithmetic acts on weights and is linear in returns", "statement": "Adding, subtracting, scaling, negating portfolios of the same X yields weights combined the same way and, without transaction costs and fees, returns combined the same way; the laws of a vector space hold on weights; operations on different X are rejected.", "quantifier": "all weights, scalars and expression trees", "why_tests_cant": "algebraic laws over all expressions", "anchors": ["src/skfolio/portfolio/_portfolio.py:Portfolio.__add__", "src/skfolio/portfolio/_portfolio.py:Portfolio.__mul__", "src/skfolio/portfolio/_portfolio.py:Portfolio.__neg__"]}
{"id": "C19", "title": "Risk contributions are exact for mean and variance", "statement": "Portfolio.contribution computed by central differences equals, for every step size, weight times the exact partial derivative for the mean (without transaction costs and fees; the contributions sum to the mean) and for the variance (the contributions sum to twice the variance); a zero-weight asset contributes zero.", "quantifier": "all weights, covariance/samples and step sizes", "why_tests_cant": "identity over reals", "anchors": ["src/skfolio/portfolio/_portfolio.py:Portfolio.contribution", "src/skfolio/portfolio/_portfolio.py:_compute_contribution"]}
{"id": "C20", "title": "MultiPeriodPortfolio returns are the concatenation of its periods", "statement": "For any program of constructions, append, item assignment, deletion, portfolios assignment, copy, negation and reads in which append() and copy() are not both used: returns and observations equal the concatenation over the contained portfolios in order, an operation that raises changes nothing, and copies are independent; with check_observations_order=True the constructor and assignments reject a portfolio that does not start after the previous one's end and append rejects one that starts before it.", "quantifier": "all operation sequences", "why_tests_cant": "history-dependent; aliasing between copies", "anchors": ["src/skfolio/portfolio/_multi_period_portfolio.py:MultiPeriodPortfolio.append", "src/skfolio/portfolio/_multi_period_portfolio.py:MultiPeriodPortfolio._set_portfolios", "src/skfolio/portfolio/_multi_period_portfolio.py:MultiPeriodPortfolio.__setitem__", "src/skfolio/portfolio/_multi_period_portfolio.py:MultiPeriodPortfolio.__delitem__"]}
{"id": "C21", "title": "A Population only ever contains portfolios", "statement": "After any sequence of list operations other than += (construction, item and slice assignment, append, insert, extend, +, slicing, deletion, reverse, clear, *=) every element of a Population is a Portfolio or MultiPeriodPortfolio; an operation that raises leaves the population unchanged, except extend, which keeps the portfolios before the offending one.", "quantifier": "all operation sequences", "why_tests_cant": "history-dependent; inherited list operations", "anchors": ["src/skfolio/population/_population.py:Population.__init__", "src/skfolio/population/_population.py:Population.__setitem__", "src/skfolio/population/_population.py:Population.append", "src/skfolio/population/_population.py:Population.extend"]}
{"id": "C22", "title": "Population order statistics select the right portfolio", "statement": "sort_measure returns a permutation sorted by the measure; quantile(measure, q) returns an element of the population for every q in [0,1] and is monotone in q; min_measure and max_measure return elements with the smallest and largest measure; filter returns exactly the elements with the given names and tags.", "quantifier": "all populations, measures and q", "why_tests_cant": "rounding of indices for all sizes", "anchors": ["src/skfolio/population/_population.py:Population.quantile", "src/skfolio/population/_population.py:Population.sort_measure", "src/skfolio/population/_population.py:Population.min_measure", "src/skfolio/population/_population.py:Population.max_measure", "src/skfolio/population/_population.py:Population.filter"]}
{"id": "C23", "title": "DropCorrelated leaves no pair above the threshold and drops nothing needlessly", "statement": "After fit, any two kept assets have correlation not above the threshold; every dropped asset is correlated above the threshold with another asset that has a lower average correlation (or an equal one and an earlier position), and every pair above the threshold is explained by such a drop; at least one asset is kept; a threshold outside [-1, 1] is rejected.", "quantifier": "all correlation matrices and thresholds", "why_tests_cant": "interaction of removals over all matrices", "anchors": ["src/skfolio/pre_selection/_drop_correlated.py:DropCorrelated.fit"]}
{"id": "C24", "title": "SelectKExtremes keeps exactly the k best assets", "statement": "fit rejects k <= 0; otherwise it keeps exactly min(k, n_assets) assets, the first k in the order of the measure (decreasing with highest=True) with ties broken by position, so every kept asset's measure is at least (highest=True) or at most (highest=False) every dropped asset's measure.", "quantifier": "all measure vectors, k and n", "why_tests_cant": "ties and sizes", "anchors": ["src/skfolio/pre_selection/_select_k_extremes.py:SelectKExtremes.fit"]}
{"id": "C25", "title": "SelectNonDominated keeps whole leading fronts and at least the requested number of assets", "statement": "With min_n_assets below the number of assets, fit keeps exactly the assets used by the k leading Pareto fronts of all single assets and qualifying minimum-variance pairs, where k is the least number of fronts that use strictly more than min_n_assets assets; without min_n_assets it keeps exactly those of the first front; the pair portfolios sum to one and have minimum variance among fully invested combinations of their two assets.", "quantifier": "all return samples and min_n_assets", "why_tests_cant": "loop over fronts of unbounded size", "anchors": ["src/skfolio/pre_selection/_select_non_dominated.py:SelectNonDominated.fit"]}
{"id": "C26", "title": "Availability filters keep exactly the assets their documentation names", "statement": "SelectComplete keeps an asset iff its first and last observations are present (and, with drop_assets_with_internal_nan, it has no missing value at all); SelectNonExpiring keeps an asset iff it has no expiry or expires after the last observation plus the look-ahead; DropZeroVariance keeps an asset iff its variance exceeds the threshold.", "quantifier": "all samples, expiry dates and look-aheads", "why_tests_cant": "quantifies over all inputs", "anchors": ["src/skfolio/pre_selection/_select_complete.py:SelectComplete.fit", "src/skfolio/pre_selection/_select_non_expiring.py:SelectNonExpiring.fit", "src/skfolio/pre_selection/_drop_zero_variance.py:DropZeroVariance.fit"]}
{"id": "C27", "title": "prices_to_returns is invertible and causal", "statement": "For complete positive prices, compounding the linear returns (or summing the log returns) recovers the price ratio between any two dates; missing prices are filled only with the latest earlier price of the same column; the result is exactly the changes between consecutive rows that remain, a row being dropped by nan_threshold iff it has more than nan_threshold * n_assets missing cells.", "quantifier": "all price tables, thresholds and options", "why_tests_cant": "telescoping over unbounded length", "anchors": ["src/skfolio/preprocessing/_returns.py:prices_to_returns"]}
{"id": "C28", "title": "Stationary bootstrap samples are rows of the data in circular blocks", "statement": "Every row of every bootstrap sample is a row of the input; each next row is either a fresh uniformly drawn row or the circular successor of the previous one; array accesses never go out of range; the sample has the input's length.", "quantifier": "all inputs, random draws and block sizes", "why_tests_cant": "all random draws", "anchors": ["src/skfolio/utils/bootstrap.py:stationary_bootstrap"]}
{"id": "C29", "title": "Hierarchical Risk Parity respects the weight bounds and budget", "statement": "For every asset order, every risk measure giving positive risks and every min/max weights accepted by the fit with sum(min) <= 1 <= sum(max), whenever the recursive bisection of HierarchicalRiskParity produces finite weights they sum to one, satisfy min_weights <= w <= max_weights, and every bisection splits the weight of the cluster between its halves in the proportion closest to inverse cluster risk that the bounds leave possible. The weights are finite when the minimum weights are all zero or all positive and the maximum weights are positive.", "quantifier": "all numbers of assets, orders, risks and bounds", "why_tests_cant": "recursive bisection of unbounded depth", "anchors": ["src/skfolio/optimization/cluster/hierarchical/_hrp.py:HierarchicalRiskParity.fit", "src/skfolio/optimization/cluster/hierarchical/_hrp.py:_apply_weight_constraints_to_split_factor", "src/skfolio/optimization/cluster/hierarchical/_base.py:BaseHierarchicalOptimization._convert_weights_bounds"]}
{"id": "C30", "title": "Hierarchical Equal Risk Contribution weights are a full allocation", "statement": "For every dendrogram, cluster labelling cut from it and positive risks, the HERC weights before bound adjustment are positive and sum to one; inside a cluster they are proportional to inverse risk; at every node above the clusters the two sides receive weight in inverse proportion to their risks. With bounds, given a correct solver, the reported weights satisfy the bounds, sum to one and deviate least (in relative terms) from the unbounded weights.", "quantifier": "all dendrograms and risks", "why_tests_cant": "recursion over arbitrary trees", "anchors": ["src/skfolio/optimization/cluster/hierarchical/_herc.py:HierarchicalEqualRiskContribution.fit", "src/skfolio/utils/stats.py:minimize_relative_weight_deviation"]}
{"id": "C31", "title": "Nested and stacked optimisations compose to a full allocation", "statement": "NestedClustersOptimization gives each asset the outer weight of its cluster times its weight inside the cluster (one in a singleton cluster), nothing to an asset labelled as noise, and shows the outer estimator one series per cluster in cluster order; StackingOptimization weights are the final-weighted combination of the base allocations. If inner and outer weights sum to one / are non-negative then so are the final weights.", "quantifier": "all clusterings, inner and outer weights", "why_tests_cant": "linear-algebra identity over all sizes", "anchors": ["src/skfolio/optimization/cluster/_nco.py:NestedClustersOptimization.fit", "src/skfolio/optimization/ensemble/_stacking.py:StackingOptimization.fit"]}
{"id": "C32", "title": "Naive allocations are full long-only allocations", "statement": "EqualWeighted gives 1/n to each of n assets; InverseVolatility gives positive weights summing to one and inversely proportional to volatility whenever variances are positive; random weights with chosen zeros sum to one, are zero exactly at the chosen assets, whenever at least one asset is not chosen.", "quantifier": "all numbers of assets and variances", "why_tests_cant": "all sizes", "anchors": ["src/skfolio/optimization/naive/_naive.py:EqualWeighted.fit", "src/skfolio/optimization/naive/_naive.py:InverseVolatility.fit", "src/skfolio/utils/stats.py:rand_weights"]}
{"id": "C33", "title": "Convex optimisation weights satisfy every documented constraint", "statement": "Whatever feasible point with a positive homogenisation factor the solver returns, the reported weights (solver weights divided by the factor) satisfy min/max weights, budget/min/max budget, max_short/max_long, max_turnover, linear and left/right inequality constraints exactly as documented, and every set of weights that satisfies them is a feasible point. The factor is the constant 1 except for MAXIMIZE_RATIO and risk budgeting; for MAXIMIZE_RATIO it is positive at every feasible point as soon as one asset has a lower bound below its upper bound.", "quantifier": "all parameters and all feasible solver outputs", "why_tests_cant": "all solver outputs and parameter combinations", "anchors": ["src/skfolio/optimization/convex/_base.py:ConvexOptimization._get_weight_constraints", "src/skfolio/optimization/convex/_base.py:ConvexOptimization._solve_problem", "src/skfolio/optimization/convex/_mean_risk.py:MeanRisk.fit"]}
{"id": "C34", "title": "Cardinality and threshold constraints bind the reported weights", "statement": "With cardinality, group_cardinalities, threshold_long or threshold_short, for every feasible mixed-integer solution each reported weight is either zero, at least threshold_long, or at most threshold_short, at most cardinality weights are non-zero, and at most the given number in each group; conversely every set of weights meeting these conditions, with solver weights and factor within the big-M bound of 1000, is feasible.", "quantifier": "all feasible mixed-integer solutions and parameters", "why_tests_cant": "big-M reasoning for all parameters", "anchors": ["src/skfolio/optimization/convex/_base.py:_mip_weight_constraints_no_short_threshold", "src/skfolio/optimization/convex/_base.py:_mip_weight_constraints_threshold_short"]}
{"id": "C35", "title": "The risk the optimiser minimises is the risk the portfolio reports", "statement": "For every sample of returns and every weights, the minimum over the auxiliary variables of each risk model used in optimisation is attained and equals the corresponding measure function on the portfolio returns net of transaction costs and management fees: worst realization, CVaR and Gini mean difference on net returns; standard deviation and variance of the covariance estimate (the sample ones for the sample covariance); semi-variance, semi-deviation, first lower partial moment (zero risk free rate) and mean absolute deviation (target the mean); EVaR at each value of its dual variable, net of fees; average, maximum and conditional drawdown, ulcer index and EDaR on the drawdowns from the highest wealth including the starting wealth, which are the drawdowns of the measure when the first return is not negative.", "quantifier": "all samples and weights", "why_tests_cant": "minimum over auxiliary variables of unbounded dimension", "anchors": ["src/skfolio/optimization/convex/_base.py:ConvexOptimization._cvar_risk", "src/skfolio/optimization/convex/_base.py:ConvexOptimization._worst_realization_risk", "src/skfolio/optimization/convex/_base.py:ConvexOptimization._gini_mean_difference_risk", "src/skfolio/optimization/convex/_base.py:ConvexOptimization._max_drawdown_risk", "src/skfolio/optimization/convex/_base.py:ConvexOptimization._mean_absolute_deviation_risk"]}
{"id": "C36", "title": "MeanRisk weights are optimal for the documented objective over the documented set", "statement": "If the solver returns an optimum of the problem MeanRisk builds, then the reported weights satisfy the documented weight constraints, cardinalities, thresholds, turnover, minimum return, tracking error and risk limits, and no other weights satisfying them (and, with cardinalities or thresholds, whose solver weights and factor stay within the big-M constant 1000) do better: MINIMIZE_RISK minimises risk plus the L1/L2 penalties, MAXIMIZE_RETURN maximises expected return net of costs and fees minus penalties, MAXIMIZE_UTILITY maximises return minus risk aversion times risk minus penalties, and MAXIMIZE_RATIO with a positive factor and without L2 penalty maximises (return - risk free rate) over (risk plus L1 penalty) (over the square root for the variances) among the weights with positive excess return. For MAXIMIZE_RATIO this covers limits on every homogeneous risk measure; a tracking error limit and limits on the variance or semi-variance do not hold for the rescaled weights.", "quantifier": "every prior (mean, returns, covariance factor), every parameter set accepted by fit, every risk measure, every optimal point of the assembled problem and every competing weight vector", "why_tests_cant": "optimality over infinite sets", "anchors": ["src/skfolio/optimization/convex/_mean_risk.py:MeanRisk.fit", "src/skfolio/optimization/convex/_mean_risk.py:_optimal_homogenization_factor"]}
{"id": "C37", "title": "Risk budgeting attains the budgets", "statement": "At any optimum of the problem RiskBudgeting builds with the default weight constraints (long-only, fully invested) and the variance or standard deviation, the reported weights are positive, sum to one, and each asset's contribution to risk is its budget share of the total risk (a None budget counts as equal budgets, a zero budget as 1e-10); for any other risk that is differentiable at the optimum, and any constraints that do not bind there, weight times marginal risk is proportional to the budget.", "quantifier": "all covariance matrices, budgets", "why_tests_cant": "optimality condition over reals", "anchors": ["src/skfolio/optimization/convex/_risk_budgeting.py:RiskBudgeting.fit"]}
{"id": "C38", "title": "A failed fit does not corrupt the next fit", "statement": "The problem solved by fit does not depend on what the same estimator fitted before: after any history of successful fits, and of failed fits that did not use a drawdown risk measure since the last success, fit builds the same problem as a new estimator. (After a failed fit with a drawdown measure the next fit omits the drawdown constraints.)", "quantifier": "all histories of fits on one instance", "why_tests_cant": "history-dependent cache of model variables", "anchors": ["src/skfolio/optimization/convex/_base.py:ConvexOptimization._clear_models_cache", "src/skfolio/optimization/convex/_base.py:ConvexOptimization._cvx_drawdown", "src/skfolio/optimization/convex/_base.py:ConvexOptimization._solve_problem"]}
{"id": "C39", "title": "Black-Litterman posterior is the Bayesian update of the prior by the views", "statement": "BlackLitterman.fit, for every symmetric positive definite prior covariance, tau > 0, non-zero views and confidences in [0,1) (or none): the fit succeeds; the posterior mean minus the risk-free rate solves the precision-weighted equation of prior and views, and is the unique vector minimising the combined squared disagreement with the prior and the views; the posterior covariance is the prior covariance plus the inverse combined precision. The posterior covariance is always symmetric and between S and (1+tau)S. Fully confident views hold exactly in the posterior; with one view the confidence is the weight of the view against the prior; giving no confidences means one half; views that agree with the prior leave the means unchanged. The rejected inputs are exactly inequality views, confidences outside [0,1] and (only with a fully confident view) dependent views. The caller's confidence array is not changed (refuted: zeros are overwritten).", "quantifier": "every ordered field of numbers, number of assets and views, prior mean and covariance, picking matrix, view values, confidences, tau and risk-free rate", "why_tests_cant": "matrix identity for all dimensions", "anchors": ["src/skfolio/prior/_black_litterman.py:BlackLitterman.fit"]}
{"id": "C40", "title": "Factor model moments are consistent", "statement": "FactorModel.fit: the reported mean and scenarios of each asset are what the factors explain (loadings times factor value plus intercept); the reported covariance is loadings * factor covariance * loadings^T plus (with residual_variance) the unbiased residual variances on the diagonal, and the reported root times its transpose is that covariance, whenever that matrix is positive definite - in particular whenever residual_variance=True and no residual variance is zero. In every case where no model variance is zero the reported covariance is symmetric positive definite with the model's variances. If the factor means are the averages of the factor scenarios, so are the asset means. Refuted without residual variances: root and covariance disagree when there are fewer factors than assets, and an asset with no loadings makes the fit undefined.", "quantifier": "all dimensions and loadings", "why_tests_cant": "matrix identity", "anchors": ["src/skfolio/prior/_factor_model.py:FactorModel.fit"]}
{"id": "C41", "title": "Gerber correlations are correlations", "statement": "GerberCovariance.fit raises for exactly the thresholds outside (0,1). Otherwise, over the chosen window, no division by zero occurs for any non-constant asset, the matrix before the nearest-PD repair is std_i*std_j*g_ij where g_ij is (co-movements minus counter-movements) divided by the number of observations in which at least one of the two moves (psd_variant) or by the geometric mean of the two assets' move counts (other variant); it is symmetric, has the population variances on its diagonal, g_ij is in [-1,1], and in both variants the matrix is positive semi-definite.", "quantifier": "all samples and thresholds", "why_tests_cant": "inequalities over all samples", "anchors": ["src/skfolio/moments/covariance/_gerber_covariance.py:GerberCovariance.fit"]}
{"id": "C42", "title": "Denoising, detoning and nearest-covariance keep the variances", "statement": "cov_to_corr and corr_to_cov are inverse to each other and the correlation has unit diagonal and entries in [-1,1]. cov_nearest leaves a positive definite matrix alone and otherwise returns a symmetric positive definite matrix with the same variances (eigenvalue clipping never fails on positive variances; Higham may raise but never returns anything else). DenoiseCovariance replaces exactly the correlation eigenvalues below the Marchenko-Pastur edge by their mean and DetoneCovariance removes exactly the n_markets largest, both rescaled to the original variances; what they report is symmetric with unchanged variances, positive semi-definite if the input is, and positive definite with nearest=True.", "quantifier": "all covariance matrices with positive diagonal and all eigen-decompositions", "why_tests_cant": "identities for all dimensions", "anchors": ["src/skfolio/moments/covariance/_denoise_covariance.py:DenoiseCovariance.fit", "src/skfolio/moments/covariance/_detone_covariance.py:DetoneCovariance.fit", "src/skfolio/utils/stats.py:cov_nearest", "src/skfolio/utils/stats.py:corr_to_cov", "src/skfolio/utils/stats.py:cov_to_corr"]}
{"id": "C43", "title": "Shrunk means are shrunk", "statement": "ShrunkMu: the target is the average sample mean or, with vol_weighted_target, the sample return of the minimum-variance portfolio. BAYES_STEIN always succeeds on a positive definite covariance, with the documented intensity in (0,1] (1 exactly when the means equal the target), and each expected return is that weighted average of its sample mean and the target. JAMES_STEIN gives non-finite numbers exactly when all sample means equal the target, otherwise uses (trace - 2*largest eigenvalue)/(T*squared distance). Both leave the expected return of the target portfolio (equal-weight, or minimum variance) unchanged. BODNAR_OKHRIN raises when T = n and otherwise uses the stated alpha and beta.", "quantifier": "all samples, covariances", "why_tests_cant": "inequality over reals", "anchors": ["src/skfolio/moments/expected_returns/_shrunk_mu.py:ShrunkMu.fit"]}
{"id": "C44", "title": "Correlation distances are normalised distances", "statement": "For a positive integer power, or any positive power with absolute=True, every correlation in [-1,1] is mapped to a distance in [0,1] (sqrt((1-c^k)/2) for signed odd powers, sqrt(1-|c|^p) otherwise, never clipped), zero exactly for perfectly correlated series (or anti-correlated when the sign does not count), strictly decreasing in the correlation (or its absolute value); on a correlation matrix the result is symmetric with zero diagonal, and the three documented distances (standard, absolute and squared angular) satisfy the triangle inequality.", "quantifier": "all correlation matrices", "why_tests_cant": "inequality over reals", "anchors": ["src/skfolio/distance/_distance.py:_corr_to_distance"]}
{"id": "C45", "title": "Copula rotations preserve the conditional-distribution round trip", "statement": "For every exchangeable bivariate copula family and every rotation (0, 90, 180, 270 degrees): the rotated partial_derivative with respect to either margin is the derivative of the rotated cdf in that margin; the exponential of the rotated score is the derivative of the conditional distribution; the rotated cdf stays within the Frechet bounds (hence has uniform margins) and gives no rectangle negative probability; partial_derivative and inverse_partial_derivative are inverse to one another for either margin whenever the unrotated ones are; through the public methods this holds on [1e-9, 1-1e-9], entries outside [0, 1] are rejected; and sample keeps the first uniform and returns the value whose conditional probability given it is the second uniform.", "quantifier": "all exchangeable base copulas, rotations, margins and points of the unit square", "why_tests_cant": "all points of the unit square", "anchors": ["src/skfolio/distribution/copula/_utils.py:_apply_rotation_partial_derivatives", "src/skfolio/distribution/copula/_utils.py:_apply_rotation_cdf", "src/skfolio/distribution/copula/_utils.py:_apply_copula_rotation"]}
{"id": "C46", "title": "Copula families: cdf, h-function, inverse and log-density fit together", "statement": "For Clayton (theta > 0), Gumbel and Joe (theta > 1) and the independent copula: the cdf is exchangeable and within the Frechet bounds, partial_derivative is the derivative of the cdf, lies strictly between 0 and 1 and is strictly increasing, and exp(score_samples) is its derivative (the density); inverse_partial_derivative is the exact two-sided inverse of partial_derivative for Clayton, the independent copula, and for the Gaussian and Student t copulas given that scipy's distribution and quantile functions are inverse to one another.", "quantifier": "all parameters in their domain and all points of the open unit square", "why_tests_cant": "real-analytic identity", "anchors": ["src/skfolio/distribution/copula/_clayton.py:_base_partial_derivative", "src/skfolio/distribution/copula/_clayton.py:_base_inverse_partial_derivative", "src/skfolio/distribution/copula/_clayton.py:_base_sample_scores", "src/skfolio/distribution/copula/_gumbel.py:_base_partial_derivative", "src/skfolio/distribution/copula/_gumbel.py:_base_sample_scores", "src/skfolio/distribution/copula/_joe.py:_base_partial_derivative", "src/skfolio/distribution/copula/_joe.py:_base_sample_scores", "src/skfolio/distribution/copula/_gaussian.py:GaussianCopula.inverse_partial_derivative", "src/skfolio/distribution/copula/_student_t.py:StudentTCopula.inverse_partial_derivative", "src/skfolio/distribution/copula/_independent.py:IndependentCopula"]}
{"id": "C47", "title": "Gumbel and Joe inverse h-functions converge to the unique solution", "statement": "For every row (p, v) in the open unit square there is exactly one u with h(u|v) = p, and the iteration run on the whole array with a shared stopping rule returns for that row a value in (0, 1] whose conditional probability is at least p and exceeds p by at most an explicit bound that is proportional to the tolerance or decreases geometrically with the number of updates, whatever the other rows are.", "quantifier": "all theta > 1, arrays, rows, tolerances and iteration limits", "why_tests_cant": "convergence for all inputs; the stopping rule couples all rows", "anchors": ["src/skfolio/distribution/copula/_gumbel.py:_base_inverse_partial_derivative", "src/skfolio/distribution/copula/_joe.py:_base_inverse_partial_derivative"]}
{"id": "C48", "title": "Vine sampling inverts the fitted model", "statement": "For every regular vine and every set of conditioning assets, VineCopula.sample draws the assets in an order that exists, covers each asset once and starts from known values; the propagated point is the unique one whose model values (the conditional distributions of the fitted pair copulas) equal the uniform draws, and conditioned assets keep their given uniform. Valid when no pair copula is rotated by a quarter turn (see finding).", "quantifier": "all vines, edge copulas, branches and uniforms", "why_tests_cant": "all fitted structures and copulas", "anchors": ["src/skfolio/distribution/multivariate/_vine_copula.py:_propagate_samples", "src/skfolio/distribution/multivariate/_vine_copula.py:_inverse_partial_derivative"]}
{"id": "C49", "title": "Vine copula trees form a regular vine", "statement": "For any dependence values and any maximum spanning tree returned, every tree level has n_assets - level - 1 edges, joins only edges sharing a node, the edge ordering check never fails, and each edge at level k has exactly two conditioned variables and k conditioning variables.", "quantifier": "all numbers of assets, depths and spanning trees", "why_tests_cant": "induction over tree levels", "anchors": ["src/skfolio/distribution/multivariate/_vine_copula.py:VineCopula.fit", "src/skfolio/distribution/multivariate/_utils.py:Tree.set_edges_from_mst", "src/skfolio/distribution/multivariate/_utils.py:EdgeCondSets.__add__", "src/skfolio/distribution/multivariate/_utils.py:Edge.shared_node_is_left"]}
{"id": "C50", "title": "Conditional samples satisfy their conditions", "statement": "VineCopula.sample(conditioning=...) accepts exactly the well-formed conditionings; in every accepted sample an asset conditioned on a value (or array) has exactly it and an asset conditioned on bounds lies within them; the other assets have the values of the unique model point drawn given the uniforms of the conditions; and a fixed value needs no forcing when its uniform is not clipped and (log transform) it is at most 200%.", "quantifier": "all samples and conditionings", "why_tests_cant": "all random draws", "anchors": ["src/skfolio/distribution/multivariate/_vine_copula.py:VineCopula.sample"]}
{"id": "C51", "title": "Asset parameters given by name reach the right asset", "statement": "input_to_array maps a dictionary keyed by asset name to an array in the order of assets_names with fill_value for missing names, independent of dictionary order, and rejects wrong shapes and NaN; validate_input_list maps names and indices to the positions they designate, rejecting unknown or repeated items; positions are distinct when the items are all indices or all names.", "quantifier": "all names, dictionaries and lists", "why_tests_cant": "all inputs", "anchors": ["src/skfolio/utils/tools.py:input_to_array", "src/skfolio/utils/tools.py:validate_input_list"]}
{"id": "C52", "title": "Deduplicated names are unique", "statement": "deduplicate_names keeps the first occurrence of each name, gives the k-th repetition the suffix k, and returns a list without duplicates exactly when no input name is already one of these suffixed names.", "quantifier": "all lists of names", "why_tests_cant": "all inputs", "anchors": ["src/skfolio/utils/tools.py:deduplicate_names"]}
{"id": "C53", "title": "Cached method results belong to their arguments", "statement": "A method decorated with cache_method returns, over every history of calls, the value the undecorated method would return for those arguments, provided two calls of the same method with the same key have the same result; with collision-free hashes the flattened arguments decide.", "quantifier": "all call histories", "why_tests_cant": "hash collisions between argument tuples", "anchors": ["src/skfolio/utils/tools.py:cache_method", "src/skfolio/utils/tools.py:_make_key"]}
{"id": "C54", "title": "Commutation matrix transposes vectorised matrices", "statement": "For every m x n matrix A, commutation_matrix(A) times vec(A) equals vec(A^T), and it is a permutation matrix.", "quantifier": "all dimensions and matrices", "why_tests_cant": "all sizes", "anchors": ["src/skfolio/utils/stats.py:commutation_matrix"]}
{"id": "C55", "title": "Uncertainty sets bound the worst case", "statement": "For every weight vector the penalised expected return used with a mu uncertainty set is exactly the minimum of the expected return over the ellipsoid. The worst-case variance expression is never below the variance of the weights under any covariance matrix of the set, and for EmpiricalCovarianceUncertaintySet it is exactly the maximum over the set. The four fitted sets have symmetric non-negative shapes equal to the documented estimators of the covariance of the sample mean / of the covariance entries.", "quantifier": "all weights, ellipsoids and members", "why_tests_cant": "optimum over an infinite set", "anchors": ["src/skfolio/optimization/convex/_base.py:ConvexOptimization._cvx_mu_uncertainty_set", "src/skfolio/uncertainty_set/_empirical.py:EmpiricalMuUncertaintySet.fit"]}
{"id": "C56", "title": "Implied-covariance windows are aligned and causal", "statement": "ImpliedCovariance pairs each realised-volatility window with the implied volatility at that window's last observation, uses non-overlapping windows that end with the last observation, and regresses a window's realised volatility only on what is known at the end of the preceding window. Implied volatilities are matched to assets by name. The result has the correlations of the prior covariance and the predicted volatilities. It fails exactly on a missing column, a shape mismatch, a non-positive premium or too few windows. Fitting again gives the same result when the implied volatilities are not an array the validation returns uncopied.", "quantifier": "all sample lengths and window sizes; all fit histories", "why_tests_cant": "index arithmetic; in-place mutation across calls", "anchors": ["src/skfolio/moments/covariance/_implied_covariance.py:ImpliedCovariance.fit", "src/skfolio/moments/covariance/_implied_covariance.py:_compute_realised_vol", "src/skfolio/moments/covariance/_implied_covariance.py:_compute_implied_vol"]}
{"id": "C57", "title": "make_scorer orients every measure so that greater is better", "statement": "make_scorer on a measure returns the measure for performance and ratio measures and its negative for risk measures, so that model selection maximising the score maximises performance/ratios and minimises risk.", "quantifier": "all measures and portfolios", "why_tests_cant": "all inputs", "anchors": ["src/skfolio/metrics/_scorer.py:make_scorer"]}
{"id": "C58", "title": "Optimal cluster count is admissible", "statement": "For every distance matrix and linkage with at least three assets, compute_optimal_n_clusters returns the first k from 2 to min(n, max(8, round(sqrt n))) - 1 that maximises W(k+1) + W(k-1) - 2 W(k), where W(k) is the sum over the k clusters of the mean pairwise distance; HierarchicalClustering then returns labels that are contiguous from 0 and at most that many.", "quantifier": "all distance matrices and linkages", "why_tests_cant": "all sizes", "anchors": ["src/skfolio/utils/stats.py:compute_optimal_n_clusters"]}
{"id": "C59", "title": "List parameters give one solution per element, with its return and risk", "statement": "When limits or min_return are lists of equal length n, fit returns n weight vectors, the i-th being the solution for the i-th elements (scalars shared), or raises if raise_on_failure and some problem fails; the expected return reported in problem_values_ is the one of the reported weights, and the reported risk equals their risk whenever the objective depends on the risk.", "quantifier": "every list of parameter values, every solver behaviour, every optimal point", "why_tests_cant": "all parameter lists, solver failures at any position and all problem data", "anchors": ["src/skfolio/optimization/convex/_base.py:ConvexOptimization._solve_problem"]}
{"id": "C60", "title": "Efficient frontier targets and monotonicity", "statement": "With efficient_frontier_size the target returns start at 1.01 times the positive part of the minimum-risk return and increase to the maximum return, and along the frontier each portfolio reaches its target return while risk plus penalties never decreases.", "quantifier": "every MeanRisk configuration without integer constraints, every pair of targets, every optimum", "why_tests_cant": "holds for every prior and every frontier size", "anchors": ["src/skfolio/optimization/convex/_mean_risk.py:MeanRisk.fit"]}
{"id": "C61", "title": "Equilibrium returns make the reference weights optimal", "statement": "EquilibriumMu returns the expected returns for which the given weights (equal weights by default) maximise expected return minus half the risk aversion times variance; with a positive definite covariance they are the only maximiser; their expected return is risk_aversion times their variance.", "quantifier": "all covariances, weights, positive risk aversions, and all competing portfolios", "why_tests_cant": "optimality over a continuum of portfolios", "anchors": ["src/skfolio/moments/expected_returns/_equilibrium_mu.py:EquilibriumMu.fit"]}
{"id": "C62", "title": "Tail dependence coefficients are the limits they claim", "statement": "For the Clayton, Gumbel and Joe copulas under every rotation, lower_tail_dependence is the limit of cdf(q, q)/q as q tends to 0 and upper_tail_dependence the limit of (1 - 2q + cdf(q, q))/(1 - q) as q tends to 1; tail_concentration equals these ratios and lies in [0, 1] for every quantile in [1e-9, 1 - 1e-9].", "quantifier": "all parameters, rotations and quantiles", "why_tests_cant": "a limit, and all parameter values", "anchors": ["src/skfolio/distribution/copula/_clayton.py:ClaytonCopula.lower_tail_dependence", "src/skfolio/distribution/copula/_gumbel.py:GumbelCopula.upper_tail_dependence", "src/skfolio/distribution/copula/_joe.py:JoeCopula.upper_tail_dependence", "src/skfolio/distribution/copula/_base.py:BaseBivariateCopula.tail_concentration"]}
{"id": "C63", "title": "EmpiricalPrior returns the estimators' moments, or the log-normal moments at the horizon", "statement": "Without is_log_normal, EmpiricalPrior's mu and covariance are those the two estimators compute on X and the target, and returns is X. With is_log_normal, both estimators are fitted on log(1+X) and log(1+y), and the resulting covariance is the covariance of the linear returns over the investment horizon of assets whose log returns are normal with the estimated moments scaled by the horizon; it is positive semidefinite whenever the estimate is. The horizon must be given exactly when is_log_normal is set, else ValueError. Finding: the expected returns are one plus the mean of the linear returns, and the attributes of the fitted estimators are overwritten with scaled values.", "quantifier": "all estimators of mu and covariance, all returns, targets and horizons, all log-normal models with the estimated moments", "why_tests_cant": "A test compares arrays computed with the same formula; that the formula is the covariance of a log-normal vector, and is positive semidefinite for every estimate, is a statement about all moments.", "anchors": ["src/skfolio/prior/_empirical.py: EmpiricalPrior.fit"]}
{"id": "C64", "title": "MaximumDiversification maximises the diversification ratio", "statement": "When the solver returns an optimum, the weights satisfy every documented constraint and no allowed portfolio has a larger ratio of the weighted average of asset volatilities to portfolio volatility (net of costs, fees and risk-free rate when they are set, over volatility plus the l1 penalty). Finding: min_return, documented as a bound on the expected return, bounds the weighted average of the volatilities.", "quantifier": "all priors, constraints, costs, fees, rates and scales, every optimum of the assembled problem and every allowed competitor", "why_tests_cant": "Optimality compares with every allowed portfolio, and the homogenised problem (free factor, overwritten expected return) has to be equivalent to the ratio for every input.", "anchors": ["src/skfolio/optimization/convex/_maximum_diversification.py: MaximumDiversification.fit", "src/skfolio/optimization/convex/_mean_risk.py: MeanRisk.fit", "src/skfolio/optimization/convex/_base.py: _cvx_expected_return"]}
{"id": "C65", "title": "DistributionallyRobustCVaR minimises the worst mean-CVaR over the Wasserstein ball", "statement": "When the solver returns an optimum, the weights are allowed; for every law of the returns (bounded below by -1) at Wasserstein distance (l1, order one) at most the radius from the empirical law, expected loss plus risk_aversion times CVaR of the weights is at most the optimal value; and for every allowed weights there are laws in the ball whose mean-CVaR comes as close as wanted to that value or exceeds it. So the optimal value is the worst case of the returned weights and no allowed portfolio has a smaller worst case.", "quantifier": "all returns not below -1, betas in (0,1), positive risk aversions, radii, constraints and scales; all laws of the ball, discrete or not; all allowed competitors", "why_tests_cant": "The worst case ranges over an infinite-dimensional set of probability laws and the optimum over all portfolios.", "anchors": ["src/skfolio/optimization/convex/_distributionally_robust.py: DistributionallyRobustCVaR.fit", "src/skfolio/optimization/convex/_base.py: _get_weight_constraints, _solve_problem"]}
{"id": "C66", "title": "predict evaluates exactly the fitted weights, with the estimator's settings", "statement": "predict on a fitted optimization returns a Portfolio (a Population when weights_ has several rows, in row order) whose weights are the fitted ones and whose net return in each row of X is the weighted return minus transaction costs and management fees. Each setting comes from portfolio_params if given there and otherwise from the estimator; the name defaults to the class name, prefixed by ptf0, ptf1, ... in a Population. It succeeds exactly when the settings are acceptable to Portfolio. score is the Sharpe ratio of that Portfolio, or the mean over the Population. Neither call changes the estimator or portfolio_params, so repeating a call gives the same answer. An unfitted estimator raises.", "quantifier": "all estimators, settings dictionaries, fitted weights (one or several rows), tables X and any sequence of calls", "why_tests_cant": "Tests check a few settings; precedence between the two sources, sharing of dictionaries between calls and the arithmetic must hold for every combination.", "anchors": ["src/skfolio/optimization/_base.py: BaseOptimization.predict, score", "src/skfolio/portfolio/_portfolio.py: Portfolio.__init__", "src/skfolio/utils/tools.py: input_to_array"]}
{"id": "C67", "title": "Empirical and exponentially weighted moments are the documented averages", "statement": "With window_size w >= 1 the estimators use the last min(w, T) rows. EmpiricalMu is the plain average, EWMu the average under weights proportional to (1-alpha)^age, which are probabilities; hence the mean of any portfolio is the weighted sum of the means and lies between its extremes. EmpiricalCovariance and EWCovariance are the (bias-corrected) co-movements under these weights: symmetric, positive semi-definite, and the variance of any portfolio is its quadratic form. Alphas outside (0,1] raise. Findings: window_size=0 uses all rows, EmpiricalCovariance raises on a single asset, alpha=1 (documented as allowed) gives a NaN covariance.", "quantifier": "all return tables, windows, ddof, alphas, numbers of assets and portfolios", "why_tests_cant": "The running recursions must equal the closed form for every length, and semi-definiteness ranges over all portfolios.", "anchors": ["src/skfolio/moments/expected_returns/_empirical_mu.py: EmpiricalMu.fit", "src/skfolio/moments/expected_returns/_ew_mu.py: EWMu.fit", "src/skfolio/moments/covariance/_empirical_covariance.py: EmpiricalCovariance.fit", "src/skfolio/moments/covariance/_ew_covariance.py: EWCovariance.fit", "src/skfolio/moments/covariance/_base.py: _set_covariance"]}
{"id": "C68", "title": "Mutual information distance: variation of information of the binned returns", "statement": "MutualInformation bins each asset's returns into equal-width classes and, with natural logarithms, its codependence and distance are the mutual information and the variation of information of the two classifications (divided by the smaller entropy / the joint entropy when normalised). With a fixed number of bins the distance is symmetric, zero on the diagonal, zero only for assets with the same classes, non-negative, satisfies the triangle inequality (normalised or not, where normalised values are in [0,1]), and it is unchanged when an asset is shifted or rescaled by a positive factor. With the default number of bins (Freedman) the number of bins depends on the pair; finding: then the triangle inequality fails, so the documented metric is not one, and a constant-class asset gives a NaN codependence.", "quantifier": "all tables of returns, numbers of bins and assets, normalised or not", "why_tests_cant": "The triangle inequality and the identity of indiscernibles range over all triples of return series.", "anchors": ["src/skfolio/distance/_distance.py: MutualInformation.fit", "src/skfolio/utils/stats.py: n_bins_freedman"]}
{"id": "C69", "title": "Distance correlation: Szekely's coefficient, zero iff independent, one iff affine", "statement": "Off the diagonal DistanceCorrelation's codependence is Szekely's sample distance correlation of the two assets, a number in [0,1], and its distance is sqrt(1 - codependence). It is zero exactly when the two assets are independent in the sample (their joint distribution function is the product of the two), it is one (distance zero) exactly when one asset is an affine image of the other, it is symmetric, and unchanged when assets are shifted or rescaled by any non-zero factor. The diagonal is one. Finding: an asset with constant returns gets NaN against every other asset, yet one against itself; the documented parameter threshold has no effect.", "quantifier": "all tables of returns, numbers of observations and assets", "why_tests_cant": "The characterisations range over all pairs of return series; the non-negativity under the square root is a theorem, not a check.", "anchors": ["src/skfolio/distance/_distance.py: DistanceCorrelation._dcorr", "src/skfolio/distance/_distance.py: DistanceCorrelation.fit"]}
{"id": "C70", "title": "Central assets are at the centre of the fitted vine", "statement": "In a VineCopula fitted with central_assets: in the first tree the central assets are joined to each other through central assets only, and every other asset is directly attached to a central one; on every later level the nodes made only of central assets are joined through such nodes, and any node that can be joined to one is attached to one; and when the vine is deep enough, one node has exactly the central assets as its variables (they form a sub-vine of their own).", "quantifier": "for every number of assets, set of central assets, pairwise dependence on every level, truncation depth, and any maximum spanning tree routine", "why_tests_cant": "the shape of the trees depends on all dependences on all levels; tests only look at a few data sets, while the guarantee rests on an exchange argument over all spanning trees", "anchors": ["src/skfolio/distribution/multivariate/_utils.py: Tree.set_edges_from_mst, Edge.weakly_central, Edge.strongly_central, ChildNode.central, RootNode.central", "src/skfolio/distribution/multivariate/_vine_copula.py: VineCopula.fit"]}
{"id": "C71", "title": "When conditional samples are exact: the conditioned assets are drawn first", "statement": "On a vine that is not truncated, every asset drawn through an edge is drawn from its distribution given all the assets drawn before it and nothing else; a single conditioned asset always comes first, and a set of conditioned assets that was declared central at fit time (or that is the variables of one node) comes first as a whole, so all other assets are drawn given all the conditions.", "quantifier": "for every regular vine without truncation, conditioning set as described, and set enumeration order; maximum spanning tree routine and dependences arbitrary for the fitted case", "why_tests_cant": "it concerns the order in which an arbitrary vine is peeled and the uniqueness of each pair of assets among the edges of the vine; a wrong order gives plausible samples that no unit test compares with the conditional law", "anchors": ["src/skfolio/distribution/multivariate/_vine_copula.py: VineCopula.sample, _sampling_order, _marginalize, _is_left_branch, _propagate_samples", "src/skfolio/distribution/multivariate/_utils.py: EdgeCondSets"]}
{"id": "C72", "title": "Copula fitting selects and fits the best candidate", "statement": "select_bivariate_copula returns the candidate that, fitted alone on the data, has the smallest AIC or BIC (the first one on a tie), or the independent copula when the data show no significant dependence; each fit estimates its parameter within the documented bounds and the rotation that maximises the likelihood of the clipped data; data outside the unit square, with the wrong shape or too short are rejected; select_univariate_dist does the same for marginals.", "quantifier": "for every data set, list of candidate copulas with any settings, independence level, and numerical minimiser, root finder and p-value routine (sound whenever they report success)", "why_tests_cant": "it ranges over all samples and all candidate lists, and over ties, NaN scores, failures of the minimiser and values on the border of the square", "anchors": ["src/skfolio/distribution/copula/_selection.py: select_bivariate_copula", "src/skfolio/distribution/copula/_base.py: BaseBivariateCopula._validate_X, aic, bic", "src/skfolio/distribution/copula/_clayton.py: ClaytonCopula.fit", "src/skfolio/distribution/copula/_gumbel.py: GumbelCopula.fit", "src/skfolio/distribution/copula/_joe.py: JoeCopula.fit", "src/skfolio/distribution/copula/_gaussian.py: GaussianCopula.fit", "src/skfolio/distribution/copula/_student_t.py: StudentTCopula.fit", "src/skfolio/distribution/copula/_utils.py: _select_rotation_itau, _select_theta_and_rotation_mle", "src/skfolio/distribution/univariate/_selection.py: select_univariate_dist"]}
{"id": "C73", "title": "Kendall's tau, pseudo-observations and tail concentration are rank statistics", "statement": "The dependence statistic used to fit copulas is Kendall's tau-b: it is NaN exactly when a column is constant, lies in [-1, 1], equals 1 (or -1) exactly when the two columns order the observations in the same (or opposite) way, is unchanged by strictly increasing transformations, by shuffling the observations, by exchanging the assets and by a rotation of 180 degrees, and changes sign under a rotation of 90 or 270 degrees. compute_pseudo_observations returns numbers strictly inside (0, 1), ordered and tied like the data, centred on one half, exactly 1/(n+1), ..., n/(n+1) without ties, and with the same tau as the data. empirical_tail_concentration is the conditional frequency of the tail, in [0, 1], 0 when the tail is empty, symmetric in the assets on pseudo-observations without ties, with upper and lower tails exchanged by a rotation of 180 degrees; data or levels outside [0, 1] are rejected.", "quantifier": "for every finite sample of pairs of reals, quantile level and pair of strictly increasing transformations", "why_tests_cant": "it quantifies over all samples, tie patterns and transformations; examples check a few ranks", "anchors": ["src/skfolio/distribution/copula/_utils.py: compute_pseudo_observations, empirical_tail_concentration, _apply_copula_rotation", "src/skfolio/distribution/copula/_clayton.py: ClaytonCopula.fit", "src/skfolio/distribution/copula/_selection.py: select_bivariate_copula"]}
{"id": "C74", "title": "Inverting Kendall's tau recovers the dependence of the sample", "statement": "Fitting a Clayton, Gumbel or Joe copula with itau=True returns the parameter whose copula has, as Kendall's tau of the distribution (4 E[C(U,V)] - 1), exactly the absolute sample tau, clipped to the range the parameter bounds allow. This rests on the closed forms tau = theta/(theta+2) for Clayton, 1 - 1/theta for Gumbel, and 1 + 2/(2-theta) (1 - gamma - digamma(2/theta + 1)) for Joe, where tau of a copula is unique.", "quantifier": "every parameter in the domain of the family; every sample that the fit accepts", "why_tests_cant": "a test compares the fitted parameter with a frozen number; that the inversion formula matches the integral that defines Kendall's tau must hold for each real parameter", "anchors": ["src/skfolio/distribution/copula/_clayton.py: ClaytonCopula.fit", "src/skfolio/distribution/copula/_gumbel.py: GumbelCopula.fit", "src/skfolio/distribution/copula/_joe.py: JoeCopula.fit, _tau_diff"]}
{"id": "C75", "title": "The vine's score_samples is the log-density of the rows the vine samples", "statement": "For a fitted vine copula, score_samples returns for each row the logarithm of the density of the distribution that sample draws from: the sum of the pair copula scores integrates to one over the unit cube, under it the conditional values that sample sets to independent uniform numbers are independent and uniform, and with fitted marginals it equals the log Jacobian determinant of the map from a row to those uniform numbers. This holds when no asset is log-transformed; with log_transform the derivative of the logarithm is missing.", "quantifier": "every regular vine (any number of assets and trees, any shape, any truncation level), every assignment of pair copulas and rotations to its edges, every smooth marginal, every row strictly inside the clipping bounds", "why_tests_cant": "tests compare a few frozen scores; that the sum over all edges of an arbitrary vine is exactly the density of the sampling algorithm is an identity over all vines and points of the cube", "anchors": ["src/skfolio/distribution/multivariate/_vine_copula.py: VineCopula.score_samples, VineCopula.sample", "src/skfolio/distribution/multivariate/_utils.py: Edge.get_X, Edge.shared_node_is_left, ChildNode.u, ChildNode.v"]}
{"id": "C76", "title": "Fit parameters reach exactly the sub-estimators that request them", "statement": "With metadata routing enabled, fit(X, y, **params) on any composition of skfolio estimators (optimizations, priors, moments, distances, uncertainty sets, stacking, nested clusters, cross_val_predict) gives every sub-estimator exactly the parameters it requested with True, with their values, at any depth; a parameter that no routed sub-estimator asks for raises TypeError, and a parameter whose request a sub-estimator left unset raises UnsetMetadataPassedError before a portfolio is produced. The outer estimator of nested clusters, the final estimator of a stacking and the loading matrix estimator of a factor model receive nothing. Excluded: SyntheticData, which fails with AttributeError for every parameter, and a request set to False on an estimator that contains one asking for the same parameter (the refused parameter is delivered anyway).", "quantifier": "every tree of estimators of any depth and width built from the classes of the package and arbitrary consumers, every assignment of requests (True, False, unset), every set of parameters", "why_tests_cant": "each class is tested with one nested ImpliedCovariance and one parameter; the delivery must hold through every nesting of every class and for every pattern of requests", "anchors": ["src/skfolio/optimization/convex/_base.py: ConvexOptimization.get_metadata_routing", "src/skfolio/optimization/convex/_mean_risk.py: MeanRisk.get_metadata_routing, MeanRisk.fit", "src/skfolio/optimization/cluster/_nco.py: NestedClustersOptimization.get_metadata_routing", "src/skfolio/optimization/ensemble/_stacking.py: StackingOptimization.get_metadata_routing", "src/skfolio/prior/_synthetic_data.py: SyntheticData.get_metadata_routing, SyntheticData.fit", "src/skfolio/prior/_factor_model.py: FactorModel.get_metadata_routing", "src/skfolio/moments/covariance/_implied_covariance.py: ImpliedCovariance.get_metadata_routing", "src/skfolio/model_selection/_validation.py: cross_val_predict"]}
{"id": "C77", "title": "The outer and final estimators are trained on out-of-sample predictions", "statement": "In NestedClustersOptimization and StackingOptimization, the data on which the last estimator is fitted has one row per predicted observation, in chronological order, and one entry per cluster or estimator: the return of the asset for a cluster of one asset, otherwise the return at that observation of a clone that was fitted only on the training observations (and the assets of the cluster) of a split whose test set contains that observation (on the whole sample with cv='ignore'). The rows of y are those of the same observations. So, with a splitter, a row depends only on the training sets of the splits that test its observation and on that observation's returns, and with WalkForward on nothing later. The data exist whenever the splits are accepted and the columns of every cluster exist in X, y and the parameters.", "quantifier": "all return tables, factors, fit parameters, inner estimators (any function of what they are fitted on), clusterings, splitters with interval test folds, combinatorial splitters whose folds cover the sample, and quantile functions that pick a path", "why_tests_cant": "a leak changes numbers slightly and only for some estimators and splitters; no test compares the data given to the last estimator with what each fold may see, and y is never passed to nested clusters in the tests", "anchors": ["src/skfolio/optimization/cluster/_nco.py:NestedClustersOptimization.fit", "src/skfolio/optimization/ensemble/_stacking.py:StackingOptimization.fit", "src/skfolio/utils/tools.py:fit_single_estimator", "src/skfolio/utils/tools.py:fit_and_predict", "src/skfolio/utils/tools.py:safe_split", "src/skfolio/model_selection/_validation.py:cross_val_predict"]}
{"id": "C78", "title": "optimal_folds_number minimises its documented cost", "statement": "For a sample of T >= 3 observations, a positive target training size f, a target of at least one test path and non-negative weights with 2 (w_paths + w_train (1 + T/f)) <= 1e5, optimal_folds_number returns numbers of folds that CombinatorialPurgedCV accepts and whose documented cost is the smallest over all admissible pairs, although the search skips pairs; with default weights this covers every sample of at most 49997 observations. The average training size it uses is exactly the average size of the training sets of CombinatorialPurgedCV without purging and embargo, and an upper bound with them.", "quantifier": "all sample sizes, targets, weights in the stated range, and all numbers of folds, purges and embargoes", "why_tests_cant": "the claim compares the result with all pairs of folds for every sample size and target; the pruning argument rests on the unimodality of binomial coefficients", "anchors": ["src/skfolio/model_selection/_combinatorial.py:optimal_folds_number", "src/skfolio/model_selection/_combinatorial.py:_avg_train_size", "src/skfolio/model_selection/_combinatorial.py:CombinatorialPurgedCV.summary"]}
{"id": "C79", "title": "Gaussian and Student t copulas: log-density and tail dependence", "statement": "For the Gaussian copula with -1 < rho < 1, and the Student t copula with -1 < rho < 1 and 1 <= dof <= 50: partial_derivative is, for each conditioning value, a strictly increasing map of (0, 1) into itself that runs from 0 to 1; score_samples returns for each row the logarithm of the derivative of partial_derivative (the copula density), which is symmetric in the two margins; a rho outside [-1, 1] or a dof outside [1, 50] is an error. lower_tail_dependence and upper_tail_dependence are the limits of C(q, q)/q as q tends to 0 and of (1 - 2q + C(q, q))/(1 - q) as q tends to 1 for the exchangeable copula C whose conditional distribution functions are partial_derivative: 0 for the Gaussian copula, and for the Student t copula a number strictly between 0 and 1 that grows with rho. With rho = 0 the Gaussian copula is the independent copula.", "quantifier": "all correlations, degrees of freedom and points of the open unit square, given only that scipy's ndtr/ndtri and stdtr/stdtrit are the normal and Student distribution functions and their inverses", "why_tests_cant": "derivative and limit identities over a continuum of parameters and points", "anchors": ["src/skfolio/distribution/copula/_gaussian.py:_base_sample_scores", "src/skfolio/distribution/copula/_gaussian.py:GaussianCopula.lower_tail_dependence", "src/skfolio/distribution/copula/_student_t.py:_sample_scores", "src/skfolio/distribution/copula/_student_t.py:StudentTCopula.lower_tail_dependence", "src/skfolio/distribution/copula/_student_t.py:StudentTCopula.partial_derivative"]}
{"id": "C80", "title": "Composition tables and weight-based figures agree with the weights", "statement": "The composition of a portfolio lists exactly the assets whose weight exceeds 0.001% in absolute value, with their weights, largest first. The composition of a multi-period portfolio or of a population has one column per portfolio, in their order and under distinct-ified names, one row per asset that at least one portfolio is invested in, and zero where a portfolio is not. The weights per observation of a multi-period portfolio have, in the order of the observations, exactly one row per portfolio and observation with these weights. The reported weights reproduce every linear function of the weights (total weight, return before costs) up to 0.001% of the sum of its absolute coefficients. get_weight returns the weight of a known asset and raises for an unknown one. With the sample means and sample covariance of the assets, expected_returns_from_assets and variance_from_assets equal the mean (after costs and fees) and the variance of the portfolio's returns. The diversification of a long-only portfolio over T observations is at least sqrt((T-1)/T), reached by a single-asset portfolio.", "quantifier": "every portfolio with distinct assets, every list of portfolios with different assets, names and observations, every nesting of multi-period portfolios in a population, every returns matrix and vector of weights", "why_tests_cant": "Tests compare a few tables of fixed portfolios; which rows, columns and zeros appear depends on how the assets, names and observations of arbitrarily many portfolios overlap, and the identities range over all returns and weights.", "anchors": ["src/skfolio/portfolio/_portfolio.py: Portfolio.composition, weights_per_observation, diversification, expected_returns_from_assets, variance_from_assets, get_weight", "src/skfolio/portfolio/_multi_period_portfolio.py: MultiPeriodPortfolio.composition, weights_per_observation", "src/skfolio/population/_population.py: Population.composition, plot_cumulative_returns"]}
{"id": "C81", "title": "The synthetic-data prior is the empirical prior of the sampled returns and has no null variance", "statement": "SyntheticData.fit accepts exactly the distribution estimators with a sample method that takes n_samples. Its prior model holds the sampled returns, with columns of a variance below 1e-14 perturbed by 1e-6 times white noise and all other columns unchanged, their sample means and their sample covariance. With noise of a standard deviation of at least 0.2, every asset has a variance of at least 1e-14 and the covariance estimation does not raise, whatever the sampled returns, in particular under conditioning.", "quantifier": "every sample of at least two observations, every number of assets other than one, every noise and every signature of the sample method", "why_tests_cant": "Tests condition one asset of one fitted copula; the variance after the perturbation must be bounded for every sample, also for nearly constant columns that could cancel the noise.", "anchors": ["src/skfolio/prior/_synthetic_data.py: SyntheticData.fit, _check_sample_method", "src/skfolio/prior/_empirical.py: EmpiricalPrior.fit"]}
{"id": "C82", "title": "The univariate Gaussian is fitted by maximum likelihood", "statement": "Gaussian.fit returns a location and a scale that agree with the fixed ones and maximise the likelihood of the data among all that do, and score is the logarithm of this likelihood. It raises exactly when both parameters are fixed, the data are empty or a row does not have one column. Data all equal to the location have a fitted scale of zero and no likelihood (NaN score, AIC and BIC). AIC and BIC follow the documented formulas. Shifting and rescaling the data shifts and rescales the fit and changes the log-likelihood only by the change of units.", "quantifier": "every non-empty column of data, every combination of fixed parameters, every competing location and scale, every affine change of the data", "why_tests_cant": "Tests compare fitted parameters with stored numbers on one data set; maximality is a statement about all competing parameters for all data.", "anchors": ["src/skfolio/distribution/univariate/_gaussian.py: Gaussian.fit", "src/skfolio/distribution/univariate/_base.py: BaseUnivariateDist.n_params, _validate_X, score_samples", "src/skfolio/distribution/_base.py: BaseDistribution.score, aic, bic"]}
{"id": "C83", "title": "The default block length of the bootstrap is the Politis-White length", "statement": "With no block size given, stationary_bootstrap uses the median over the assets of a length computed from each asset's returns. From eight observations on that length is the Politis-White one: with R(k) the autocovariances, M twice the first lag followed by K non-significant lags (capped), G and V the flat-top window sums of k R(k) and R(k), it is the cube root of n (G/V)^2, capped by min(3 sqrt n, n/3) rounded up. It does not change when the returns are rescaled or shifted. A row follows the previous one exactly when the uniform draw reaches the inverse of the median length, so lengths up to one give independent rows. Series of two to seven observations raise. An asset with constant returns has no length (NaN), and then the rows of all the assets are drawn independently.", "quantifier": "all return tables, all draws, all affine changes of the returns", "why_tests_cant": "quantifies over all series and draws, including degenerate ones; the formula has a truncation lag found by search", "anchors": ["src/skfolio/utils/bootstrap.py:optimal_block_size", "src/skfolio/utils/bootstrap.py:stationary_bootstrap"]}
{"id": "C84", "title": "get_params and set_params of composed estimators agree", "statement": "For a StackingOptimization whose members and arguments have distinct names without '__' (and not ending in '_'), get_params lists, once each, exactly the parameters reached by a path of argument and member names, under the names joined by '__', with their values. When set_params returns, every parameter given (with none given below it) has the new value, and those neither above nor below one given keep theirs. One parameter can be set exactly when get_params lists it and it is not a member given by name; several can be set together when none is above another. Setting 'estimators' replaces the list. fit accepts the names of the members exactly when they are distinct, differ from the arguments and do not contain '__'. A member given by its name always raises RuntimeError, after it has been replaced and before the other parameters are set. A member whose name ends in '_' is accepted, but its parameters are listed under names that cannot be set.", "quantifier": "all trees of nested estimators and compositions of any depth, all sets of parameters", "why_tests_cant": "ranges over all nestings and all parameter sets; a grid search relies on every path", "anchors": ["src/skfolio/optimization/ensemble/_base.py:BaseComposition", "src/skfolio/optimization/ensemble/_stacking.py:StackingOptimization.get_params", "src/skfolio/optimization/ensemble/_stacking.py:StackingOptimization.set_params"]}
{"id": "C85", "title": "The cached datasets under every history of calls, crashes and clearings", "statement": "download_dataset (load_ftse100_dataset, load_nasdaq_dataset, load_sp500_implied_vol_dataset): whatever calls run at the same time, wherever they fail or are killed and whenever the directory is cleared, a call that returns gives the remote table. After any history, a call on an absolute data_home with nothing cached (or the whole file cached) that runs without failure returns the table, leaves the whole file cached and removes the downloaded archive; so clear_data_home always restores the service. Once the whole file is cached and nobody writes it, every call returns it without a download, whatever the others do. With download_if_missing=False and nothing cached it raises OSError and changes no file. Findings: a call killed while it writes the cache makes every later call raise until the directory is cleared; two concurrent calls may make one of them raise; with a relative data_home where nothing is cached no call ever returns.", "quantifier": "all interleavings of any number of calls, all crash and failure points, all clearings, all block sizes, all file formats that detect damage", "why_tests_cant": "schedules, crash points and histories cannot be enumerated; the tests mock the download", "anchors": ["src/skfolio/datasets/_base.py:download_dataset", "src/skfolio/datasets/_base.py:get_data_home", "src/skfolio/datasets/_base.py:clear_data_home"]}
{"id": "C86", "title": "Deep copies and unpickled portfolios are the same portfolios", "statement": "copy.deepcopy(p) and pickle.loads(pickle.dumps(p)) of a Portfolio whose arrays (X, weights, previous weights, costs, fees) were not written since it was built succeed and give a Portfolio with the same returns, observations, arguments and settings (also those changed after construction), in arrays of its own: later writes and settings on one side never show on the other. For a MultiPeriodPortfolio the same holds with copies of its periods, shared when the original shares them, and it raises exactly when check_observations_order is set and a period does not start after the end of the previous one. Setting the periods of a MultiPeriodPortfolio raises under the same condition; otherwise its returns and observations become those of the new periods one after the other. If an array was written after construction, the copy holds the results of the present arrays. (Shown false: the copy equals the portfolio after an array was written; a portfolio accepted by append() or by setting check_observations_order can be copied.)", "quantifier": "all programs of array creations and in-place writes, constructions, attribute writes, appends, copies and deep copies, and all numbers", "why_tests_cant": "history-dependent aliasing between caller arrays, portfolios and copies; every attribute and argument position", "anchors": ["src/skfolio/portfolio/_base.py:BasePortfolio.__reduce__", "src/skfolio/portfolio/_base.py:BasePortfolio.__init__", "src/skfolio/portfolio/_portfolio.py:Portfolio.__init__", "src/skfolio/portfolio/_multi_period_portfolio.py:MultiPeriodPortfolio.__init__", "src/skfolio/portfolio/_multi_period_portfolio.py:MultiPeriodPortfolio._set_portfolios", "src/skfolio/portfolio/_multi_period_portfolio.py:MultiPeriodPortfolio.append", "src/skfolio/utils/tools.py:args_names", "src/skfolio/utils/tools.py:input_to_array"]}
{"id": "C87", "title": "Comparing portfolios, searching populations and setting their parameters", "statement": "Between portfolios (single or multi-period) with the same number of fitness measures and no NaN: p == q exactly when the fitness values are equal, p != q is its negation, p > q exactly when p dominates q, p >= q exactly when no objective of p is worse, and < and <= are the same comparisons with the operands exchanged. So == is an equivalence, >= a partial order up to ==, > is >= without ==, and they compose transitively. An object that is not a portfolio is never equal to one and ordering it raises TypeError; portfolios with different numbers of measures are unequal and neither is > or >= the other. For every list of portfolios, in, index, count and remove look for the elements that are the same object or have equal fitness, and index and remove take the first; max(population) returns a portfolio that none dominates and min(population) one that dominates none. Population.set_portfolio_params gives every portfolio of the population, and no other, exactly the given values and leaves all other attributes; no parameters or an unknown parameter change nothing; a documented but rejected parameter (returns, observations, invalid fitness_measures) raises after changing only the parameters before it in the first portfolio. Findings: a portfolio with a NaN measure is not equal to itself; remove(p) and index(p) can hit another portfolio with equal fitness; set_portfolio_params returns None instead of the documented self, and a failing call is not undone.", "quantifier": "all pairs and triples of portfolios and other objects, all fitness vectors over the extended numbers with NaN, all lists of portfolios, all populations, parameter dictionaries and states of the portfolios", "why_tests_cant": "Order laws and the non-domination of max and min are statements about all pairs, triples and lists of fitness vectors; the reflected comparisons, NaN, unequal lengths, aliases and the exact state after a failing call only show in particular histories.", "anchors": ["src/skfolio/portfolio/_base.py: BasePortfolio.__eq__, __gt__, __ge__, dominates, __setattr__, fitness_measures", "src/skfolio/portfolio/_multi_period_portfolio.py: MultiPeriodPortfolio.__contains__", "src/skfolio/population/_population.py: Population, set_portfolio_params", "src/skfolio/utils/sorting.py: dominate"]}
{"id": "C88", "title": "Custom objectives and constraints, and the scales of convex problems", "statement": "In MeanRisk, add_objective and add_constraints are called with the weight variable when they have one parameter, with the weight variable and the estimator when they have two, and every other function or object without code raises ValueError; a function that raises gives TypeError; a single constraint counts as a list of one. Every optimum of the problem with custom terms reports weights that are allowed, meet the custom constraints and, among all allowed weights that meet them, minimise risk + penalties + custom term, or maximise return - penalties + custom term, or maximise utility - penalties + custom term. With the maximised ratio the same holds for custom constraints that do not depend on the size of the weights and a custom term that grows like the risk, the term being added to the risk. The scales of the objective and of the constraints never change the answer: with any positive values a point is feasible, and optimal, exactly when it is with any others, mixed-integer problems and all risk measures included, and the reported objective is the unscaled objective. Findings: a bound method is never accepted; a second parameter with a default receives the estimator instead of its default; with the maximised ratio other custom constraints bind the weights before normalisation, so the reported weights can violate them although weights that meet them exist; a zero scale of the objective is accepted and makes every feasible point a solution.", "quantifier": "all custom functions by their signature and effect, all custom terms and constraints on the weights, all estimator parameters, all priors, all risk measures and objectives, all positive scales", "why_tests_cant": "Optimality compares against all allowed weights, the custom functions are arbitrary, and scale independence relates all pairs of scales over every combination of constraints and risk measures.", "anchors": ["src/skfolio/optimization/convex/_base.py: ConvexOptimization._call_custom_func, _get_custom_objective, _get_custom_constraints, _set_scale_objective, _set_scale_constraints, _solve_problem", "src/skfolio/optimization/convex/_mean_risk.py: MeanRisk.fit"]}
{"id": "C89", "title": "Mean-variance optimisation with uncertainty sets is robust optimisation", "statement": "With risk measure VARIANCE and a covariance uncertainty set, with or without a set of expected returns, whatever the set of covariances, the factor of every feasible point is positive, and the reported weights meet the bounds, budget and inequalities and, for every mean and covariance of the sets, min_return and max_variance; their variance never exceeds, and their return never falls below, the values the problem optimises. With EmpiricalCovarianceUncertaintySet every weight vector has a largest variance and a lowest return over the sets, and every optimum reports weights that, among all weights meeting the constraints in the worst case, minimise the largest variance, or maximise the lowest return, or maximise lowest return - risk_aversion * largest variance, or maximise (lowest return - risk free rate) / largest variance. Finding: the ratio is per unit of variance, so that adding a set of size zero to MAXIMIZE_RATIO changes the portfolio: the weights found can have a smaller Sharpe ratio than other allowed weights, while without the set the Sharpe ratio is maximised (C36).", "quantifier": "all priors, set sizes and shapes, means and covariances of the sets, bounds, budgets and inequalities, minimum returns and maximum variances, objectives, positive scales, and all competing weights", "why_tests_cant": "Every claim quantifies over all members of two ellipsoids and over all competing weights; the semi-definite reformulation is only correct if its duality gap is zero for all weights and factors.", "anchors": ["src/skfolio/optimization/convex/_mean_risk.py: MeanRisk.fit, _optimal_homogenization_factor", "src/skfolio/optimization/convex/_base.py: ConvexOptimization._worst_case_variance_risk, _cvx_mu_uncertainty_set, _get_weight_constraints", "src/skfolio/uncertainty_set/_empirical.py: EmpiricalCovarianceUncertaintySet.fit"]}
{"id": "C90", "title": "Summary tables show every measure once, faithfully and in order", "statement": "The summary of a portfolio, after any sequence of reads and attribute assignments on it and its copies, has exactly one row per performance, risk and ratio measure, in the order of the enumerations and under pairwise distinct names (also distinct from the two asset-count rows), with the value the measure has for the current attributes; measures with a confidence level, and the ratios built on them, carry that level rounded to a percentage. With formatted=True every finite measure is printed with two to six decimals (more for smaller values) so that the text reads back within half a unit of the last decimal, hence within five per cent unless it is below 1/100000; the sign is right, the text reads zero exactly when the printed quantity is at most half a millionth, and printing never swaps the order of two measures. The printed table exists exactly when no ratio is infinite. Taking a summary changes no measure.", "quantifier": "all portfolios reached by any program of reads, copies and assignments, all attribute values and confidence levels, all weights, all real measure values, percentage or not, and all pairs of them", "why_tests_cant": "The claims range over every real number (with different numbers of decimals on the two sides of each power of ten), every confidence level appearing inside a row name and every history of cached reads; tests print a handful of tables.", "anchors": ["src/skfolio/portfolio/_base.py: BasePortfolio.summary", "src/skfolio/portfolio/_portfolio.py: Portfolio.summary", "src/skfolio/utils/tools.py: format_measure, optimal_rounding_decimals", "src/skfolio/measures/_enums.py: BaseMeasure.__repr__, __str__, RatioMeasure.linked_risk_measure"]}
{"id": "C91", "title": "Measures under changes of unit, of cash and of the order of the observations", "statement": "Expressing the returns, the minimum acceptable return, the risk-free rate and the entropic risk aversion of a portfolio in another unit multiplies every measure by the power of the unit it is expressed in: 1 for the means, deviations, tail risks and (non-compounded) drawdowns, 2 for the variances, 4 for the fourth moments, 0 for every ratio, the skew and the kurtosis. Cash earned at every observation, with the rates counted accordingly, adds itself to the mean, subtracts itself from VaR, CVaR, EVaR, the entropic risk and the worst realisation, and leaves deviations and the ratios of the excess mean to a deviation unchanged. Reordering the observations changes no measure other than those computed from drawdowns, which do depend on it.", "quantifier": "every series of returns, every admissible level, every positive unit, every amount of cash, every permutation of the observations, every measure of the four enumerations, every correct implementation of partition and sort", "why_tests_cant": "Relations between pairs of portfolios, for all measures and all series; tests compare single values with a reference on one dataset.", "anchors": ["src/skfolio/measures/_measures.py: all functions", "src/skfolio/portfolio/_base.py: BasePortfolio.get_measure, __getattribute__", "src/skfolio/portfolio/_portfolio.py: Portfolio"]}
{"id": "C92", "title": "The order of the assets is irrelevant to mean-risk optimisation and to the moments", "statement": "Reorder the columns of X and, in the same way, everything that is given per asset: previous weights, costs, fees, minimum and maximum weights, thresholds, the levels of the groups, the names and the coefficients of the linear inequalities (constraint strings and group cardinalities are unchanged, being written with names). Then the moments are the reordered moments, MeanRisk raises exactly when it did, the same investments are admissible, each has the same loss, an investment is optimal exactly when it was, and every optimal solution reports weights that are optimal weights of the original problem in the new order.", "quantifier": "every number of assets, every permutation, every combination of MeanRisk parameters (objective, risk measure, limits, costs, constraints, mixed-integer constraints), every series, every window and decay", "why_tests_cant": "A relation between two problems that must hold for all permutations and all combinations of parameters; tests fix the order of the columns.", "anchors": ["src/skfolio/optimization/convex/_mean_risk.py: MeanRisk.fit", "src/skfolio/optimization/convex/_base.py: ConvexOptimization", "src/skfolio/utils/equations.py: equations_to_matrix, group_cardinalities_to_matrix", "src/skfolio/moments: EmpiricalMu, EWMu, EmpiricalCovariance, EWCovariance"]}
{"id": "C93", "title": "The caches of the vine copula and the counting of visits change no value", "statement": "Fitting a vine copula, sampling from it, unconditionally or conditionally, and scoring observations return what they would return if every margin were recomputed at each use: the cache on the nodes, the preliminary pass that counts visits the release of a value at its last expected visit and the clearing of a tree while the next ones are fitted are not observable: the trees and copulas selected are those selected on recomputed margins. This holds after any history of calls on the same object, with any arguments, including calls that raised half-way. Each partial derivative is evaluated at most once per call, when the samples are complete no value is held by an inner node, and the object ends with empty caches.", "quantifier": "every regular vine of any size and truncation, every enumeration order of sets, every conditioning set and values, every random draws, every history of sample and score calls, failing or not; for fitting every spanning tree made of candidates, every dependence measure and selection of copulas, every data and depth", "why_tests_cant": "A stale or prematurely released cache shows only for particular vine shapes, conditioning sets and sequences of calls; the claim is over all of them.", "anchors": ["src/skfolio/distribution/multivariate/_utils.py: ChildNode.u, ChildNode.v, ChildNode.clear_cache, RootNode, Tree", "src/skfolio/distribution/multivariate/_vine_copula.py: VineCopula.sample, VineCopula.score_samples, VineCopula.clear_cache, VineCopula._count_node_visits, VineCopula._propagate_samples"]}
{"id": "C94", "title": "The unit of the returns is irrelevant to the weights", "statement": "Expressing the returns in another unit, for instance in percentages instead of decimals, does not change the weights. MeanRisk, with every input that has a unit converted (expected returns, covariance, costs, fees, minimum acceptable returns, risk-free rate, benchmark, return target, limits on risk and tracking error by the power of the unit of each measure, regularisation, risk aversion), admits the same weights, has the same optimal weights, and its loss is multiplied by a positive constant. The same holds for RiskBudgeting, MaximumDiversification and InverseVolatility. The moments estimated from converted returns are the converted moments unless a variance is below the sanity bound. For the maximum ratio this requires that the normalisation of the problem converts too, or that nothing depends on it (no mixed-integer constraint, tracking error, variance limit or regularisation); otherwise a limit that nothing meets in one unit can be met in another.", "quantifier": "every problem, objective, risk measure, set of constraints and positive conversion rate; every data set for the moments", "why_tests_cant": "a test compares two units on one data set through a solver with tolerances; the property is an equivalence of the two problems for every input, and the cases where it breaks depend on clipping of a normalisation", "anchors": ["src/skfolio/optimization/convex/_mean_risk.py: MeanRisk.fit", "src/skfolio/optimization/convex/_base.py: _optimal_homogenization_factor, _get_weight_constraints", "src/skfolio/optimization/convex/_risk_budgeting.py: RiskBudgeting.fit", "src/skfolio/optimization/convex/_maximum_diversification.py: MaximumDiversification.fit", "src/skfolio/optimization/naive/_naive.py: InverseVolatility.fit", "src/skfolio/moments/covariance/_base.py: BaseCovariance._sanity_check"]}
{"id": "C95", "title": "How the mean-risk optimum responds to its parameters", "statement": "For MeanRisk with any risk measure: with MAXIMIZE_UTILITY, raising risk_aversion never raises the risk of the reported weights nor their expected return net of the penalties; for every objective but the ratio, raising l1_coef never raises the sum of the absolute weights, raising l2_coef never raises the sum of the squared weights, and in both cases the rest of the objective does not improve. No allowed weights dominate (at least the expected return, at most the risk and the penalties, one of the first two strictly) the weights of MAXIMIZE_UTILITY with a positive risk aversion, nor those of MAXIMIZE_RATIO. Without penalties the utility portfolio lies on the efficient frontier: asking for the least risk at its expected return gives the same risk and the same expected return. Relaxing or removing any limit (bounds, budgets, long and short limits, turnover, tracking error, minimum return, risk limits, linear constraints, cardinalities, thresholds) keeps the weights allowed and never worsens the optimum.", "quantifier": "every prior, every pair of accepted parameter sets that differ as described, every risk measure, every pair of optimal points and every competing weight vector", "why_tests_cant": "A comparison of two optima over all priors, constraints and coefficients cannot be settled by solving a few problems numerically.", "anchors": ["src/skfolio/optimization/convex/_mean_risk.py: MeanRisk.fit", "src/skfolio/optimization/convex/_base.py: ConvexOptimization._cvx_regularization, _get_weight_constraints, _cvx_expected_return"]}
{"id": "C96", "title": "Mixtures of allowed weights, and when the optimal weights do not depend on the solver", "statement": "For MeanRisk with any risk measure, penalties, risk aversion and size of the uncertainty set that are not negative, transaction costs that are not negative (and none with the Gini mean difference) and no integer constraint: a mixture t x + (1 - t) y of two allowed weight vectors is allowed, its expected return is at least, and its risk at most, the same mixture of those of x and y. For every objective but the ratio two optimal answers have the same value of the objective and every mixture of them is allowed and has that value too. The weights are unique, so that they do not depend on the solver, with a positive l2_coef for every risk measure, when the variance of a positive definite covariance is minimised or weighs positively in the utility, when the standard deviation of such a covariance is minimised without penalties, and, with a budget that is not zero, no penalty and no limit on the tracking error, when the ratio of the excess return to the standard deviation or variance of such a covariance is maximised; so too for MaximumDiversification. The efficient frontier is convex: the risk plus penalty at a target return between two others is at most the corresponding mixture of theirs. With a singular covariance, or with a cardinality even with an l2 penalty, two different weight vectors can both be optimal.", "quantifier": "every prior, every accepted parameter set of the stated kind, every pair of allowed weights or of optimal points, every t in [0, 1], every triple of targets", "why_tests_cant": "Uniqueness and convexity are claims over all pairs of weights and all solvers; a test compares the answers of one or two solvers on a few problems.", "anchors": ["src/skfolio/optimization/convex/_mean_risk.py: MeanRisk.fit", "src/skfolio/optimization/convex/_base.py: ConvexOptimization._cvx_expected_return, _cvx_regularization, _get_weight_constraints, _variance_risk, _standard_deviation_risk, _gini_mean_difference_risk, _solve_problem", "src/skfolio/optimization/convex/_maximum_diversification.py: MaximumDiversification.fit"]}
{"id": "C97", "title": "Risk budgeting: weights independent of the solver and of the scale of the budgets, and when there is no answer", "statement": "For RiskBudgeting with any risk measure, the default weight constraints, positive budgets and no transaction cost: two optimal answers with a positive risk report the same weights; the risk of an optimal answer is never negative; and if some positive weights have a negative risk (possible with CVaR, EVaR or the worst realization) the problem is unbounded below, so that no answer is optimal. For any constraints, multiplying every budget of an array without zeros by the same positive number does not change the optimal weights nor the risk: only the proportions of the budgets matter. Without risk (a zero covariance) different weights can be optimal.", "quantifier": "every prior, every risk measure, every array of positive budgets, every pair of optimal points, every positive factor", "why_tests_cant": "Uniqueness and unboundedness are claims over all weights; a test sees the one answer of one solver.", "anchors": ["src/skfolio/optimization/convex/_risk_budgeting.py: RiskBudgeting.fit"]}
{"id": "C98", "title": "Optimisers that coincide, and their closed forms", "statement": "When each two assets have the same correlation, whatever the volatilities, RiskBudgeting of the variance or standard deviation with equal budgets and default constraints, and MaximumDiversification without costs, fees, penalties and risk-free rate whose constraints allow it, return the weights of InverseVolatility. With two assets this holds of RiskBudgeting for every covariance of positive variances and correlation below one. With no correlation RiskBudgeting with budgets b returns weights proportional to sqrt(b_i) / sigma_i, and the minimum of the variance by MeanRisk is proportional to 1 / sigma_i^2 when the constraints allow these weights. With any positive definite covariance, allowed weights of the given budget with the same marginal variance on every asset are those of the minimum of the variance. With a constant correlation and equal volatilities InverseVolatility and, when allowed, the minimum of the variance return the weights of EqualWeighted. HierarchicalRiskParity of the variance of uncorrelated assets returns weights proportional to 1 / sigma_i^2 whatever the order the clustering gives the assets, for the default bounds and for any bounds that allow these weights and are all zero or all positive from below.", "quantifier": "every number of assets, every positive volatilities, every correlation below one for which the covariance factorises, every positive budgets, every optimal answer of the solver, every order of the assets", "why_tests_cant": "The equalities relate the answers of different estimators on all inputs of the kind; a test compares them on one data set up to the tolerance of a solver.", "anchors": ["src/skfolio/optimization/convex/_risk_budgeting.py: RiskBudgeting.fit", "src/skfolio/optimization/convex/_maximum_diversification.py: MaximumDiversification.fit", "src/skfolio/optimization/convex/_mean_risk.py: MeanRisk.fit", "src/skfolio/optimization/naive/_naive.py: InverseVolatility.fit, EqualWeighted.fit", "src/skfolio/optimization/cluster/hierarchical/_hrp.py: HierarchicalRiskParity.fit"]}
