{"id": "C01", "title": "MUD solution reproduces the data", "statement": "LinearGaussianProblem(A,b,y,mean_i,cov_i,cov_o,alpha).solve('mud') returns a column x with A x + b = y exactly, whenever the rows of A are linearly independent, cov_i is symmetric positive definite and alpha > 0.", "quantifier": "all dimensions d, p, all A of full row rank, all b, y, mean_i, all SPD cov_i, all cov_o of matching shape, all alpha > 0", "why_tests_cant": "An equation between outputs and inputs over all dimensions and all real matrices; tests sample a few fixed matrices.", "anchors": ["src/mud/base.py:LinearGaussianProblem.solve", "src/mud/funs.py:mud_sol"]}
{"id": "C02", "title": "MUD solution is a best fit in every rank", "statement": "Without any rank assumption on A, solve('mud') returns x whose residual ||A x + b - y||^2 is minimal over all parameter vectors (cov_i SPD, alpha > 0).", "quantifier": "all dimensions, all A (any rank, including 0), b, y, mean_i, SPD cov_i, alpha > 0, all competitors x'", "why_tests_cant": "Universally quantified optimality over a continuum of competitors.", "anchors": ["src/mud/base.py:LinearGaussianProblem.solve"]}
{"id": "C03", "title": "MUD point is the closest best fit to the initial mean", "statement": "Among all best-fitting parameter vectors, solve('mud') is the unique one minimising the Mahalanobis distance (x-mean_i)^T cov_i^-1 (x-mean_i): in data-uninformed directions the prior is left alone.", "quantifier": "all A of any rank, b, y, mean_i, SPD cov_i, alpha > 0, all best-fitting competitors", "why_tests_cant": "Optimality and uniqueness over a continuum.", "anchors": ["src/mud/base.py:LinearGaussianProblem.solve"]}
{"id": "C04", "title": "MUD point ignores alpha and the observation covariance", "statement": "solve('mud') returns the same vector for every alpha > 0 and for every cov_o (of any numeric value and admissible shape).", "quantifier": "all problems, all pairs alpha, alpha' > 0 and cov_o, cov_o'", "why_tests_cant": "A relation between two runs for all pairs of inputs.", "anchors": ["src/mud/base.py:LinearGaussianProblem.solve"]}
{"id": "C05", "title": "A mean that already explains the data is returned unchanged", "statement": "If A mean_i + b = y then solve('mud') = solve('map') = mean_i, and so is 'mud_alt', for every rank of A and every covariance for which the call succeeds.", "quantifier": "all A, b, mean_i, with y := A mean_i + b; all cov_i, cov_o, alpha for which solve returns", "why_tests_cant": "Holds for all ranks and all covariances, including indefinite ones.", "anchors": ["src/mud/base.py:LinearGaussianProblem.solve"]}
{"id": "C06", "title": "When the two MUD formulas agree", "statement": "solve('mud_alt') (computed from the updated covariance) returns the same vector as solve('mud') for all data y if and only if cov_o commutes with the orthogonal projector A A^+ onto the range of A: always when A has full row rank or cov_o is a multiple of the identity, not in general (a rank-deficient A with correlated cov_o gives different vectors).", "quantifier": "all A, b, y, mean_i, SPD cov_i and cov_o, alpha > 0", "why_tests_cant": "Equality of two matrix formulas; rank-deficient corner cases with correlated observation noise are missed by examples.", "anchors": ["src/mud/base.py:LinearGaussianProblem.solve", "src/mud/funs.py:mud_sol_with_cov"]}
{"id": "C07", "title": "Updated covariance pushes forward to the data covariance", "statement": "For A of full row rank and SPD cov_i, U = updated_cov(A, cov_i, cov_o) satisfies A U A^T = cov_o.", "quantifier": "all full-row-rank A, SPD cov_i, all cov_o of matching shape", "why_tests_cant": "Matrix identity for all dimensions.", "anchors": ["src/mud/base.py:LinearGaussianProblem.updated_cov", "src/mud/funs.py:updated_cov"]}
{"id": "C08", "title": "Updated covariance is a covariance", "statement": "For SPD cov_i and symmetric positive semidefinite cov_o, updated_cov returns a symmetric positive semidefinite matrix (any rank of A); positive definite if cov_o is positive definite.", "quantifier": "all A (any rank), SPD cov_i, PSD/SPD cov_o", "why_tests_cant": "Semidefiniteness is a statement over all vectors; the formula subtracts two PSD terms so it is not obvious.", "anchors": ["src/mud/base.py:LinearGaussianProblem.updated_cov", "src/mud/funs.py:updated_cov"]}
{"id": "C09", "title": "Updated covariance equals its documented formula", "statement": "The docstring claims updated_cov equals inv(X^T (inv(data_cov) - inv_pred_cov) X + inv(init_cov)). This holds whenever init_cov and data_cov are SPD and pred_cov is invertible.", "quantifier": "all X of full row rank, SPD init_cov, data_cov", "why_tests_cant": "Hua/Woodbury identity over all matrices.", "anchors": ["src/mud/base.py:LinearGaussianProblem.updated_cov", "src/mud/funs.py:updated_cov"]}
{"id": "C10", "title": "MAP point minimises the Bayesian functional", "statement": "solve('map') returns the unique minimiser of x -> ||A x + b - y||^2 in the cov_o^-1 norm + ||x - mean_i||^2 in the (alpha cov_i)^-1 norm.", "quantifier": "all A of any rank, b, y, mean_i, SPD cov_i, cov_o, alpha > 0, all competitors", "why_tests_cant": "Optimality and uniqueness over a continuum.", "anchors": ["src/mud/base.py:LinearGaussianProblem.solve", "src/mud/funs.py:map_sol"]}
{"id": "C11", "title": "Posterior covariance contracts the prior", "statement": "The cov_p stored by solve('map') is SPD, equals alpha cov_i - alpha cov_i A^T (A alpha cov_i A^T + cov_o)^-1 A alpha cov_i, and alpha cov_i - cov_p is PSD.", "quantifier": "all A, SPD cov_i, cov_o, alpha > 0", "why_tests_cant": "Loewner order statement over all vectors.", "anchors": ["src/mud/base.py:LinearGaussianProblem.solve", "src/mud/funs.py:map_sol_with_cov"]}
{"id": "C12", "title": "Least-squares solution is the minimum-norm best fit", "statement": "solve('ls') returns a vector minimising ||A x + b - y||, and among all minimisers it has the smallest Euclidean norm (uniquely).", "quantifier": "all A of any rank, b, y", "why_tests_cant": "Optimality over a continuum and every rank.", "anchors": ["src/mud/base.py:LinearGaussianProblem.solve"]}
{"id": "C13", "title": "MUD reduces to least squares for the standard prior", "statement": "With mean_i = 0 and cov_i = I (the defaults), solve('mud') = solve('ls').", "quantifier": "all A of any rank, b, y, alpha > 0", "why_tests_cant": "Identity A^T (A A^T)^+ = A^+ for all matrices.", "anchors": ["src/mud/base.py:LinearGaussianProblem.solve"]}
{"id": "C14", "title": "Invertible maps are inverted exactly", "statement": "If A is square and invertible, solve('mud') = solve('mud_alt') = solve('ls') = A^-1 (y - b), independent of mean_i and of the covariances.", "quantifier": "all invertible A, b, y, mean_i, SPD cov_i, cov_o, alpha > 0", "why_tests_cant": "All dimensions and matrices.", "anchors": ["src/mud/base.py:LinearGaussianProblem.solve"]}
{"id": "C15", "title": "solve('all') agrees with the individual solves", "statement": "When solve('all') returns, it returns exactly (solve('mud'), solve('map'), solve('ls')), and leaves the same stored attributes as running the individual methods; any other method name raises AttributeError unless it names an existing attribute.", "quantifier": "all problems, all method strings, all output_dim", "why_tests_cant": "Relation between different call sequences on one object.", "anchors": ["src/mud/base.py:LinearGaussianProblem.solve"]}
{"id": "C16", "title": "output_dim solves the truncated problem", "statement": "solve(method, output_dim=k) equals solve(method) of the problem built from the first k rows of A, b, y and the leading k x k block of cov_o (Python slice semantics, negative and oversized k included).", "quantifier": "all problems, all methods, all integers k", "why_tests_cant": "All slices of all problems.", "anchors": ["src/mud/base.py:LinearGaussianProblem.solve"]}
{"id": "C17", "title": "What the data-consistent functional measures", "statement": "For a problem with one observation, compute_functionals(X, terms='dc') returns one nonnegative value per row of X; the value is 0 exactly at the MUD point of the problem whose data is y - b (the offset is subtracted twice), and at solve('mud') itself it is b^2/cov_o. Hence solve('mud') minimises it if and only if b = 0.", "quantifier": "all problems with SPD covariances and full-row-rank A, alpha > 0, all competitors", "why_tests_cant": "Optimality over a continuum; the code's double-counted b, transposed mean and inverted alpha only show for b != 0, several observations or alpha != 1.", "anchors": ["src/mud/base.py:LinearGaussianProblem.compute_functionals"]}
{"id": "C18", "title": "What the Bayes functional measures", "statement": "For a problem with one observation, compute_functionals(X, terms='bayes') is minimised exactly at solve('map') of the problem with data y - b and alpha replaced by 1/alpha; with b = 0 and alpha = 1 that is solve('map') itself, but not for general b or alpha.", "quantifier": "all problems with SPD covariances, alpha > 0, all competitors", "why_tests_cant": "as C17", "anchors": ["src/mud/base.py:LinearGaussianProblem.compute_functionals"]}
{"id": "C19", "title": "compute_functionals terms are mutually consistent", "statement": "For the same X: reg_m = reg - dc_term, bayes = data + reg, dc = bayes - dc_term, and the default returns (data, reg, dc_term, bayes, dc); an early-returned term never fails because a later one would.", "quantifier": "all problems, all sample matrices X", "why_tests_cant": "Relation between calls for all inputs, including error behaviour.", "anchors": ["src/mud/base.py:LinearGaussianProblem.compute_functionals"]}
{"id": "C20", "title": "norm.full_functional vanishes exactly at the data-consistent point", "statement": "norm.full_functional(A, X, b, mean, cov, y.T, cov_o), with the observed mean passed as a (1,d) row (the code transposes it), returns one value per row of X; each value is >= 0 and is 0 iff that row is the MUD point of the problem (A of full row rank, SPD covariances). Numbers passed as covariances stand for multiples of the identity. With the default observed_mean the call always fails.", "quantifier": "all A of full row rank, x, b, mean, SPD covariances", "why_tests_cant": "Optimality over a continuum.", "anchors": ["src/mud/norm.py:full_functional", "src/mud/norm.py:norm_input", "src/mud/norm.py:norm_data", "src/mud/norm.py:norm_predicted", "src/mud/norm.py:inner_product"]}
{"id": "C21", "title": "Constructor validates data length", "statement": "LinearGaussianProblem(...) raises ValueError iff the number of entries of y differs from the number of rows of A; defaults are zero b, zero y, zero mean, identity covariances, alpha None meaning 1.", "quantifier": "all inputs of any admissible dimensionality", "why_tests_cant": "All shapes.", "anchors": ["src/mud/base.py:LinearGaussianProblem.__init__"]}
{"id": "C22", "title": "What solve('mud') accepts", "statement": "For column b, y, mean with y as long as A has rows, solve('mud') succeeds if and only if mean_i and cov_i have the dimension A requires and b has one entry or at least as many entries as A has rows; so a mis-shaped mean or cov_i never yields a solution, whereas a one-entry or over-long b and any oversized cov_o are accepted silently.", "quantifier": "all shapes of b, mean_i, cov_i, cov_o", "why_tests_cant": "Broadcasting silently accepts particular shapes only.", "anchors": ["src/mud/base.py:LinearGaussianProblem.__init__", "src/mud/base.py:LinearGaussianProblem.solve"]}
{"id": "C23", "title": "Equivariance under parameter coordinates", "statement": "Replacing parameters by T x (A -> A T^-1, mean -> T mean, cov -> T cov T^T, T invertible) transforms solve('mud') into T times the original solution; same for 'map'.", "quantifier": "all problems, all invertible T", "why_tests_cant": "Relation between two runs over all invertible matrices.", "anchors": ["src/mud/base.py:LinearGaussianProblem.solve"]}
{"id": "C24", "title": "Invariance under data coordinates", "statement": "Replacing the observations by L-combinations (A -> L A, b -> L b, y -> L y, L invertible) leaves solve('mud') unchanged when A has full row rank.", "quantifier": "all full-row-rank problems, all invertible L", "why_tests_cant": "Relation between two runs over all invertible matrices.", "anchors": ["src/mud/base.py:LinearGaussianProblem.solve"]}
{"id": "C25", "title": "Transformed linear map is the weighted mean error", "statement": "For (A,b) = transform_linear_map(operator, data, std), A has one row of the operator's width, and A x + b equals (1/sqrt N) sum_i (operator_i x - data_i)/std_i for every x (a one-row operator predicts every observation), i.e. the one value of funs.wme of the predictions at x when std is a number.", "quantifier": "all N, all operators with N rows (or one row for repeated observations), data, nonzero std, all x", "why_tests_cant": "Identity for all sizes and all parameter vectors.", "anchors": ["src/mud/util.py:transform_linear_map", "src/mud/base.py:LinearWMEProblem._transform_linear_map", "src/mud/funs.py:wme"]}
{"id": "C26", "title": "Repeated observations: short and long form agree", "statement": "Passing a 1 x p operator with N observations and scalar std gives the same (A,b) as passing the operator stacked N times.", "quantifier": "all N >= 2, operators, data, std > 1e-14", "why_tests_cant": "All sizes.", "anchors": ["src/mud/util.py:transform_linear_map"]}
{"id": "C27", "title": "Which standard deviations are accepted", "statement": "transform_linear_map returns iff: for several operator rows, the row count equals the number of observations, std is a number or a list of that length, and every |std| > 0.5e-14; for one operator row, std is a number > 1e-14. In particular zero is always rejected; contrary to the assertion message, a negative std is accepted for several rows.", "quantifier": "all operators, data, std scalars and lists", "why_tests_cant": "Every real value of std, both branches.", "anchors": ["src/mud/util.py:transform_linear_map"]}
{"id": "C28", "title": "Multi-QoI setup uses the quantities of interest in order", "statement": "transform_linear_setup succeeds iff there is a quantity of interest, each one is accepted by transform_linear_map and all operators have the same width; then it has one row per quantity of interest, in order, up to the shortest of the lists, and row i of A x + b is the weighted mean error of quantity i at x. LinearWMEProblem(ops,data,sigma) has the same A and b, fails with the same exception, and has y = 0 by default.", "quantifier": "all lists of operators, data and std", "why_tests_cant": "All list lengths, including unequal ones.", "anchors": ["src/mud/util.py:transform_linear_setup", "src/mud/base.py:LinearWMEProblem.__init__"]}
{"id": "C29", "title": "wme is the scaled mean residual", "statement": "wme(predictions, data, sd) returns, per sample row, sum_j (pred_ij - data_j)/(sd sqrt N); it raises ValueError iff the widths differ; it is additive in residuals, invariant under a common reordering of the observations, and zero on exact predictions.", "quantifier": "all sample counts, all N, predictions, data, sd != 0, all permutations", "why_tests_cant": "All sizes and permutations.", "anchors": ["src/mud/funs.py:wme"]}
{"id": "C30", "title": "Column-shaped data are not treated as the flat list", "statement": "The docstring allows data of shape (N, 1); wme on n x N predictions then raises ValueError unless n is 1 or N or N = 1; for n = N sample i is compared with observation i only, for n = 1 N values are returned; only for N = 1 is the result that of the flat list.", "quantifier": "all predictions, all column-shaped data", "why_tests_cant": "Broadcasting makes the result silently wrong or an error depending on n_samples.", "anchors": ["src/mud/funs.py:wme"]}
{"id": "C31", "title": "Each epoch step satisfies its own equation", "statement": "performEpoch returns the initial mean followed by one point per scheduled row; the point produced for row i satisfies A_i x + b_i = y_i (A_i nonzero, cov SPD).", "quantifier": "all A, b, y, SPD cov, all schedules idx (any order, repetitions)", "why_tests_cant": "All schedules.", "anchors": ["src/mud/funs.py:performEpoch"]}
{"id": "C32", "title": "Iteration never moves away from a solution", "statement": "If x* satisfies the system, the distance of the chain to x* in the cov^-1 norm never increases along iterate(...), for every schedule and any number of epochs, and decreases strictly at each step that moves.", "quantifier": "all consistent systems, schedules, epochs", "why_tests_cant": "Monotonicity over unbounded histories.", "anchors": ["src/mud/funs.py:iterate", "src/mud/funs.py:performEpoch"]}
{"id": "C33", "title": "Chain bookkeeping", "statement": "iterate returns max(1,num_epochs) * (len(idx)+1) points; epoch k starts with the last point of epoch k-1; data_cov is ignored.", "quantifier": "all num_epochs, all schedules", "why_tests_cant": "All epoch counts.", "anchors": ["src/mud/funs.py:iterate", "src/mud/funs.py:performEpoch"]}
{"id": "C34", "title": "IterativeLinearProblem.solve cannot produce a solution", "statement": "solve(num_epochs >= 1) on a problem with at least one scheduled row never returns: it raises TypeError (IndexError if the first scheduled index names no row of A, b or y) and leaves the object unchanged. With an empty schedule it returns the start of the chain; with num_epochs <= 0 it returns the last chain point or raises IndexError without one. funs.iter_lin_solve raises TypeError for every input.", "quantifier": "all well-formed problems, schedules, epochs", "why_tests_cant": "Whether any input at all succeeds is a universally quantified question.", "anchors": ["src/mud/base.py:IterativeLinearProblem.solve", "src/mud/funs.py:iter_lin_solve"]}
{"id": "C35", "title": "Which reference get_errors answers for", "statement": "In every state reachable by solve/get_errors calls, get_errors returns [] or (before any chain exists) raises ValueError. With chains assigned by hand, the first call with a reference returns the distances of the chain points to it; every later call repeats that answer whatever reference is passed, as long as the number of points is unchanged, so it can be wrong. If one chain has only its first point and another has more, it raises ValueError.", "quantifier": "all histories of get_errors calls with different references", "why_tests_cant": "Depends on the history of calls on one object.", "anchors": ["src/mud/base.py:IterativeLinearProblem.get_errors"]}
{"id": "C36", "title": "MUD point is a sample of maximal updated density", "statement": "After any history of returning calls without parameter plots, when there is one density value per sample and none of the updated values initial(x_i)*w_i*observed(y_i)/predicted(y_i) is NaN, mud_point()/estimate() return the row X[m] with the first maximal updated value.", "quantifier": "all histories of calls that return (set_weights, set_observed, set_initial, set_predicted, fit, mud_point, expected_ratio), all densities as pdf oracles, all sample sets", "why_tests_cant": "All sizes and all call histories.", "anchors": ["src/mud/base.py:DensityProblem.fit", "src/mud/base.py:DensityProblem.mud_point", "src/mud/base.py:DensityProblem.estimate"]}
{"id": "C37", "title": "Which distributions an estimate uses", "statement": "After any history of returning calls without parameter plots, mud_point() and expected_ratio() are computed from the weights, initial and predicted densities set last (or the documented defaults) and from the observed distribution in force at the last computation. This is the one set last unless set_observed was called after a computation that nothing has discarded since: then the new observed distribution is ignored (set_observed does not discard a computed updated density, every other setter does).", "quantifier": "all histories of calls that return (set_weights, set_observed, set_initial, set_predicted, fit, mud_point, expected_ratio), all densities as pdf oracles, all sample sets", "why_tests_cant": "the answer depends on the order of the whole call history and on arbitrary density values; tests sample a few", "anchors": ["src/mud/base.py: DensityProblem"]}
{"id": "C38", "title": "Cache invariant of DensityProblem", "statement": "After any history of successful or failing calls: a stored updated density implies stored initial, predicted, observed values and ratio; mud_point repeated without intervening calls returns the same point and changes nothing.", "quantifier": "all call histories including failing calls", "why_tests_cant": "Invariant over histories.", "anchors": ["src/mud/base.py:DensityProblem"]}
{"id": "C39", "title": "Weights are the per-sample product", "statement": "set_weights(w) stores, per sample, the product of the stacked weights (divided by the 2-norm of the product vector if normalize); wrong length raises AssertionError and leaves the object unchanged.", "quantifier": "all weight arrays of one or two dimensions", "why_tests_cant": "All shapes and the error path.", "anchors": ["src/mud/base.py:DensityProblem.set_weights"]}
{"id": "C40", "title": "Estimates ignore the scale of the weights", "statement": "Multiplying all weights by c > 0 or normalising them changes neither the estimated point nor the expected ratio for a predicted density that does not depend on the weights.", "quantifier": "all problems, all c > 0", "why_tests_cant": "Relation between two runs.", "anchors": ["src/mud/base.py:DensityProblem.set_weights", "src/mud/base.py:DensityProblem.expected_ratio"]}
{"id": "C41", "title": "Expected ratio is a weighted mean", "statement": "expected_ratio() lies between the smallest and largest ratio; equals 1 when observed = predicted at all samples (weights nonnegative, not all zero).", "quantifier": "all problems with finite ratios", "why_tests_cant": "All sizes and values.", "anchors": ["src/mud/base.py:DensityProblem.expected_ratio"]}
{"id": "C42", "title": "An undefined density value wins", "statement": "If observed and predicted density are both zero (0/0) at some sample, mud_point returns the first sample whose updated density is NaN, even when other samples have positive updated density.", "quantifier": "all histories of calls that return (set_weights, set_observed, set_initial, set_predicted, fit, mud_point, expected_ratio), all densities as pdf oracles, all sample sets", "why_tests_cant": "Needs the exact NaN semantics of division and argmax.", "anchors": ["src/mud/base.py:DensityProblem.fit", "src/mud/base.py:DensityProblem.mud_point"]}
{"id": "C43", "title": "Constructor contract of DensityProblem", "statement": "With two-dimensional X, y and domain the constructor succeeds exactly when the domain has one row per parameter (else AssertionError) and stores the arrays with unit weights. A one-dimensional X is one sample, a one-dimensional y one observable. Without a domain every sample lies in the stored domain, which is per column [min - r/10, max + r/10] with r the range, whatever pad_domain is.", "quantifier": "all shapes and values; integer X with truncating stores", "why_tests_cant": "All shapes.", "anchors": ["src/mud/base.py:DensityProblem.__init__", "src/mud/util.py:set_shape", "src/mud/util.py:fit_domain"]}
{"id": "C44", "title": "Plotting widens the stored domain", "statement": "plot_param_space with its default range replaces the stored domain: k such plots with pad_ratio p widen every parameter interval from [lo,hi] to [lo-g,hi+g], g = ((1+2p)^k-1)/2*(hi-lo), even when the plot then fails, so a later set_initial() default is uniform over a different box. X and y never change; with a given x_range and no MUD line nothing changes.", "quantifier": "all float problems with a two-column domain, any number of plots, any pad ratio, any failing drawing step", "why_tests_cant": "In-place mutation accumulates over repeated calls.", "anchors": ["src/mud/base.py:DensityProblem.plot_param_space", "src/mud/util.py:fit_domain"]}
{"id": "C45", "title": "MAP point is a sample of maximal posterior", "statement": "After any history of calls, when there is one prior and one likelihood value per sample and no posterior value is NaN, map_point() returns the row of X with the first maximal posterior (prior times likelihood, or log prior plus log likelihood in log mode).", "quantifier": "all histories of set_prior, set_likelihood, fit, map_point and plot calls, returning or failing (parameter plots returning); all samples and density values", "why_tests_cant": "All sizes and histories.", "anchors": ["src/mud/base.py:BayesProblem.fit", "src/mud/base.py:BayesProblem.map_point"]}
{"id": "C46", "title": "Log and plain likelihood give the same MAP point", "statement": "For positive finite prior and likelihood values with logpdf the logarithm of pdf, set_likelihood(d, log=True) leads to the same MAP point as log=False, except that log mode raises ValueError exactly when the product of all posterior values is one.", "quantifier": "all numbers of samples and observables, all positive densities, every strictly increasing logarithm", "why_tests_cant": "Relation between two runs; needs log monotonicity.", "anchors": ["src/mud/base.py:BayesProblem.set_likelihood", "src/mud/base.py:BayesProblem.fit"]}
{"id": "C47", "title": "Which posteriors fit rejects", "statement": "In plain mode with nonnegative finite values fit raises ValueError exactly when the posterior vanishes at all samples. In log mode a posterior that vanishes everywhere is accepted (the first sample is returned), while a usable one whose product of values is one is rejected.", "quantifier": "all samples and densities, both modes", "why_tests_cant": "Exact sums over all inputs.", "anchors": ["src/mud/base.py:BayesProblem.fit"]}
{"id": "C48", "title": "Which distributions the Bayes estimate uses", "statement": "After any history of returning and failing calls map_point() is computed from the prior set last (uniform over the domain if none) and the likelihood set last; if no set_likelihood failed they are combined in the mode of that likelihood. A set_likelihood that fails keeps the previous likelihood values but switches the mode, so a later estimate mixes plain and log values. Without any likelihood fit and map_point raise (TypeError once the prior can be evaluated).", "quantifier": "all histories of set_prior, set_likelihood, fit, map_point and plot calls, returning or failing (parameter plots returning); all samples and density values", "why_tests_cant": "the answer depends on the whole call history and on arbitrary density values", "anchors": ["src/mud/base.py: BayesProblem"]}
{"id": "C49", "title": "fit_domain bounds the samples", "statement": "fit_domain(x, pad_ratio=r) of a non-empty 2-D array returns one row per column, [min - r*range, max + r*range] (width (1+2r)*range) for float arrays. The box contains every entry if r >= 0 (also for integer arrays, where the bounds are truncated), and for floats exactly when r >= 0 or all columns are constant. No rows, or no arguments: ValueError.", "quantifier": "all sample arrays, all pad ratios", "why_tests_cant": "All sizes.", "anchors": ["src/mud/util.py:fit_domain"]}
{"id": "C50", "title": "fit_domain overwrites the bounds it is given", "statement": "fit_domain(min_max_bounds=B) returns B itself, overwritten: k calls with the same array widen each interval [lo,hi] by g = ((1+2r)^k-1)/2*(hi-lo) on both sides. B stays as it was exactly when r = 0 or all intervals are degenerate, or when the call raises (B not 2-D with two columns). Bounds that are not a table with at least two columns raise IndexError.", "quantifier": "all bounds, any number of calls", "why_tests_cant": "Aliasing.", "anchors": ["src/mud/util.py:fit_domain"]}
{"id": "C51", "title": "Unit mesh enumerates the grid", "statement": "make_2d_unit_mesh(N,w) returns N*N points; point k is (w*(k mod N)/(N-1), w*(k div N)/(N-1)) (the origin for N = 1), X and Y are the N x N coordinate tables; for w >= 0 all points lie in [0,w]^2; for N >= 2 and w > 0 they are pairwise distinct and all coordinate pairs occur. Negative N: ValueError.", "quantifier": "all N, w", "why_tests_cant": "All N.", "anchors": ["src/mud/util.py:make_2d_unit_mesh"]}
{"id": "C52", "title": "Noise is reproducible and sized", "statement": "add_noise(s, sd, seed) with an accepted seed returns the same array and leaves the same global generator state whatever the state was before; entry i of a 1-D result is s[i] + sd*draw[i]; sd = 0 returns the signal; a rejected seed leaves the generator alone. 2-D signals fail unless one dimension is 1 (or the last is 0); an (m,1) column comes back as an (m,m) array.", "quantifier": "all signals, sds, seeds, generator states (generator as abstract machine)", "why_tests_cant": "All prior generator states.", "anchors": ["src/mud/util.py:add_noise"]}
{"id": "C53", "title": "null_space returns a basis of the kernel", "statement": "Given any full SVD of a non-empty A and rcond >= 0, null_space(A) has orthonormal columns, n minus the number of singular values above tol; every kernel vector is a combination of them; each column is mapped to a vector of norm s_k <= tol; A Z = 0 exactly when no singular value lies in (0, tol]. It raises only for an empty matrix.", "quantifier": "all matrices A, all valid SVDs", "why_tests_cant": "All matrices, all SVD choices.", "anchors": ["src/mud/util.py:null_space"]}
{"id": "C54", "title": "What rank_decomposition returns", "statement": "For an m x n matrix with 0 < n <= m (otherwise IndexError) the call returns n matrices: the first singular term, then for k >= 1 the sum of the terms 1..k without the first, where the terms use the columns of vh instead of its rows. First plus last equals A exactly when diag(s) vh^T = diag(s) vh; matrix k has rank at most max(1,k). The last matrix is in general not A.", "quantifier": "all square-ish A, all valid SVDs", "why_tests_cant": "All matrices.", "anchors": ["src/mud/util.py:rank_decomposition"]}
{"id": "C55", "title": "std_from_equipment inverts the normal coverage", "statement": "For 0 < p < 1 and positive tolerance the result is the unique positive std with erf(tolerance/(std*sqrt 2)) = p: exactly the requested share of N(0,std) lies within the tolerance; it is linear in the tolerance; p = 1 gives 0 and p = 0 infinity.", "quantifier": "all tolerances, probabilities in (0,1)", "why_tests_cant": "All reals.", "anchors": ["src/mud/util.py:std_from_equipment"]}
{"id": "C56", "title": "Parameter samples and domain of SpatioTemporalProblem", "statement": "Whenever lam is set, a domain of intervals is set too (after any history of calls). Setting lam without a domain makes the domain the column ranges of lam; setting lam with a domain only checks the number of columns, not the values, so samples may lie outside. Setting the domain of an object with samples succeeds exactly when the intervals, broadcast against the columns, cover the samples; after a successful assignment with one interval per parameter, and after setting lam on an object without domain, every sample is inside the domain until lam or domain is set again. Failing setters change nothing.", "quantifier": "all setter histories", "why_tests_cant": "Invariant over histories.", "anchors": ["src/mud/base.py:SpatioTemporalProblem.lam", "src/mud/base.py:SpatioTemporalProblem.domain"]}
{"id": "C57", "title": "Reference parameter inside the domain", "statement": "Setting lam_ref succeeds exactly when a domain is set, there are at most as many values as intervals, and each value is in its interval (AttributeError without domain, IndexError for too many values whose leading ones fit, ValueError otherwise); it stays inside until lam, domain, lam_ref or load is used. Shorter references are accepted, and changing the domain later does not check the reference.", "quantifier": "all domains and references", "why_tests_cant": "All shapes and values; later domain changes are not checked.", "anchors": ["src/mud/base.py:SpatioTemporalProblem.lam_ref"]}
{"id": "C58", "title": "Data width equals sensors x times", "statement": "data is accepted exactly when its width fits the sensors and times (any width if neither is set; then one sensor at 0 and the times 0, 1, ... are recorded; otherwise missing ones are recorded as a single 0), measurements and true_vals exactly when they have n_sensors*n_ts entries; the stored data has n_sensors*n_ts columns until sensors, times or data are set again; every failing setter leaves the object unchanged.", "quantifier": "all histories, all shapes", "why_tests_cant": "Invariant over histories.", "anchors": ["src/mud/base.py:SpatioTemporalProblem.data", "src/mud/base.py:SpatioTemporalProblem.measurements", "src/mud/base.py:SpatioTemporalProblem.true_vals"]}
{"id": "C59", "title": "Sub-sampling selects the right entries", "statement": "On a problem that is set up, sample_data(samples, times, sensors masks) raises IndexError for an invalid mask, ValueError if no sensor or time is left, and otherwise returns for each picked sample i, sensor s, time t exactly data[i, s*n_ts+t] in (sensor, time) row-major order, the matching measurements, and the picked lam, times and sensors. Masking sensors that are a flat array fails or, without measurements, doubles the number of data rows.", "quantifier": "all data sets, all index masks", "why_tests_cant": "Index arithmetic for all sizes.", "anchors": ["src/mud/base.py:SpatioTemporalProblem.sample_data"]}
{"id": "C60", "title": "Closest sample is closest", "statement": "get_closest_to_measurements / get_closest_to_true_vals return the parameter row whose data row has minimal Euclidean distance (first one on ties). When the number of true values is not the width of the data, one true value is compared with every entry of a row, and a single entry with every true value; other numbers raise ValueError.", "quantifier": "all data sets", "why_tests_cant": "All sizes.", "anchors": ["src/mud/base.py:SpatioTemporalProblem.get_closest_to_measurements", "src/mud/base.py:SpatioTemporalProblem.get_closest_to_true_vals"]}
{"id": "C61", "title": "Loading assigns the fields in a fixed order", "statement": "load(ds) assigns exactly the fields present in ds through their setters in the order sample_dist, domain, sensors, times, lam_ref, std_dev, true_vals, measurements, lam, data, stops at the first exception and keeps what was assigned before; the order of entries of ds and other entries do not matter; a complete consistent data set is stored as given. A name given for a field is used only if ds also holds an entry under the field's usual name, otherwise it is silently ignored. Measurements or true values cannot be loaded into an object without sensors or times.", "quantifier": "all dictionaries, all renamings", "why_tests_cant": "All dictionaries.", "anchors": ["src/mud/base.py:SpatioTemporalProblem.load"]}
{"id": "C62", "title": "mud_problem with method wme builds a scaled error map", "statement": "SpatioTemporalProblem.mud_problem(method='wme') yields for each picked sample the sum over the picked sensors and times of (measurement - data)/std_dev divided by the square root of the number of picked samples, on the picked samples and the stored domain; this is -funs.wme(data, measurements, std_dev) * sqrt(#data points)/sqrt(#samples).", "quantifier": "all problems", "why_tests_cant": "Normalisation by the number of samples instead of the number of data points is only visible when they differ.", "anchors": ["src/mud/base.py:SpatioTemporalProblem.mud_problem", "src/mud/funs.py:wme"]}
{"id": "C63", "title": "Unknown QoI method never builds a problem", "statement": "mud_problem(method=m) for m not in {'wme','pca','svd'} never returns a problem; on a problem that is set up the exception is UnboundLocalError (the ValueError is created but not raised). Without measurements or std_dev, TypeError for every method.", "quantifier": "all strings m, all problems", "why_tests_cant": "The exception object is created but not raised; what happens instead holds for all inputs.", "anchors": ["src/mud/base.py:SpatioTemporalProblem.mud_problem"]}
{"id": "C64", "title": "data_prob needs every optional argument", "statement": "funs.data_prob raises ValueError for every input unless sample_dist is 'u' or 'n' (the default is 'uniform'). It returns only if domain, lam_ref, sensors, times, measurements and std_dev are all given, the method is wme, pca or svd, and qoi_true is given (unless there is one sensor and one time). With everything given and consistent and the default method it returns the problem on samples lam and the given domain, unit weights, QoI (sum over data points of (measurement - qoi)/std_dev)/sqrt(#samples), after set_initial(init_dist), set_observed(standard normal) and estimate, exactly when these succeed.", "quantifier": "all inputs, all distributions", "why_tests_cant": "The default fails for every input, and the positive case ranges over all sizes.", "anchors": ["src/mud/funs.py:data_prob"]}
{"id": "C65", "title": "num_obs restricts the data used", "statement": "funs.mud_problem / map_problem raise ValueError before drawing any random number if num_obs < 1 or > number of QoI columns. Otherwise m = num_obs (default: all) draws are made, and the result and the state of the generator depend only on the first m columns of qoi and the first m entries of qoi_true, provided no entry of split is negative (a negative entry reads columns beyond m). Without split the QoI of sample i is the weighted mean error (sum over j < m of (qoi[i,j] - qoi_true[j] - sd*z_j))/(sd*sqrt m). A qoi_true with fewer than m entries raises ValueError unless it has one entry, which then stands for all.", "quantifier": "all inputs, all num_obs, all generators", "why_tests_cant": "Non-interference statement over pairs of inputs.", "anchors": ["src/mud/funs.py:mud_problem", "src/mud/funs.py:map_problem"]}
{"id": "C66", "title": "plot_dist draws a unit-area curve on the product grid, of a determined parameter", "statement": "build_nd_mesh_grid(domain, aff) enumerates each point of the product of the aff-1 equispaced half-open ticks exactly once (ValueError for no intervals or negative aff). plot_dist with at least three points draws, against the ticks of parameter idx, sums of the density over slices of this grid, scaled so that their Riemann sum is one whenever the density does not sum to zero on the grid. For every density the curve is the marginal of the parameter asked for exactly when: source pdf: there is one parameter or idx >= 2 (with two or more parameters, 0 and 1 are exchanged); source kde: there are at most two parameters or idx >= 2 is the middle one. Unknown source: ValueError; idx out of range or aff < 3: IndexError.", "quantifier": "all domains, resolutions, parameters and densities", "why_tests_cant": "All dimensions and densities; the exchange is invisible on symmetric examples.", "anchors": ["src/mud/plot.py:build_nd_mesh_grid", "src/mud/plot.py:plot_dist"]}
{"id": "C67", "title": "pca and svd reject non-2D data and decompose standardised columns", "statement": "preprocessing.pca and svd raise ValueError for data that is not two-dimensional (or has no rows or no columns) whatever the decomposition would do; otherwise they hand the decomposition an array of the same shape each of whose columns has mean zero and mean square one, or zero if the column was constant.", "quantifier": "all arrays, all decompositions", "why_tests_cant": "All shapes and values.", "anchors": ["src/mud/preprocessing.py:pca", "src/mud/preprocessing.py:svd"]}
{"id": "C68", "title": "The functional wrappers return the solutions of the problem object", "statement": "funs.mud_sol returns (as a column, or flat if y is one-dimensional) a vector x with A x + b = y; mud_sol_with_cov returns the same point and a positive definite covariance U with A U A^T = cov_o; map_sol(w) and map_sol_with_cov(w) return the minimiser of the Bayesian objective with prior covariance w*cov and the inverse of A^T cov_o^-1 A + (w cov)^-1.", "quantifier": "all array contents and shapes of b, y, mean holding the vectors, all full-row-rank A, SPD covariances, w > 0", "why_tests_cant": "unit tests check a few shapes and numbers; the claim is an identity over all matrices", "anchors": ["src/mud/funs.py: mud_sol, mud_sol_with_cov, map_sol, map_sol_with_cov, lin_prob"]}
{"id": "C69", "title": "solve never changes the inputs", "statement": "Whatever the method, output_dim and outcome (also when it raises), solve leaves A, b, y, mean_i, cov_i, cov_o, alpha unchanged; hence the result of solve('mud') does not depend on which solves were run before.", "quantifier": "all objects, all method strings, all output_dim, all histories of calls", "why_tests_cant": "needs all histories including failing calls", "anchors": ["src/mud/base.py: LinearGaussianProblem.solve"]}
{"id": "C70", "title": "Energy balance of the iteration", "statement": "For scheduled equations that x* satisfies, the sum of squared cov^-1 step lengths along iterate(...) plus the squared distance of the last point to x* equals the squared distance of the initial mean to x*.", "quantifier": "all consistent schedules, epochs, SPD cov", "why_tests_cant": "Exact identity over unbounded histories.", "anchors": ["src/mud/funs.py:iterate"]}
{"id": "C71", "title": "Where the iteration stops is the direct solution", "statement": "Any point of iterate(...) that solves the whole system A x + b = y is the vector mud_sol(A, b, y, initial_mean, cov) returns, is the solution closest to the initial mean, and all later points equal it.", "quantifier": "all A (any rank), b, y, SPD cov, schedules, epochs", "why_tests_cant": "Relates an unbounded history to another solver.", "anchors": ["src/mud/funs.py:iterate", "src/mud/funs.py:mud_sol"]}
{"id": "C72", "title": "A chain returns to its start only if it started at a solution", "statement": "For consistent scheduled equations with nonzero rows, the last point of iterate(...) equals the initial mean if and only if the initial mean satisfies every scheduled equation.", "quantifier": "all consistent systems, schedules, epochs", "why_tests_cant": "Quantifies over histories.", "anchors": ["src/mud/funs.py:iterate"]}
{"id": "C73", "title": "Orthogonal rows are solved in one epoch", "statement": "If the rows of A are pairwise orthogonal in the cov inner product, the last point of one performEpoch satisfies every scheduled equation, in any order and with repetitions.", "quantifier": "all A with C-orthogonal rows, schedules", "why_tests_cant": "All schedules and dimensions.", "anchors": ["src/mud/funs.py:performEpoch"]}
{"id": "C74", "title": "compute_functionals with several observations", "statement": "With m >= 2 observations, compute_functionals raises ValueError for every term unless X has 1 or m rows; for 1 or m rows it returns m values, the j-th comparing all of A x + b with the j-th datum alone.", "quantifier": "all problems with m >= 2, all X, all term names", "why_tests_cant": "Shape behaviour for all sizes.", "anchors": ["src/mud/base.py:LinearGaussianProblem.compute_functionals"]}
{"id": "C75", "title": "solve('mud') is idempotent", "statement": "Solving again with mean_i set to a previous solve('mud') answer returns that answer, whatever SPD cov_i and alpha > 0 are used the second time (any rank of A).", "quantifier": "all problems", "why_tests_cant": "All inputs.", "anchors": ["src/mud/base.py:LinearGaussianProblem.solve"]}
{"id": "C76", "title": "Posterior covariance never exceeds the updated covariance", "statement": "For the same problem, up_cov (from 'mud_alt') minus cov_p (from 'map') is positive semidefinite.", "quantifier": "all problems with SPD covariances", "why_tests_cant": "All inputs.", "anchors": ["src/mud/base.py:LinearGaussianProblem.solve"]}
{"id": "C77", "title": "alpha interpolates between mean and MUD point", "statement": "For fixed A, b, y, mean_i, cov_i, cov_o there is a constant K with |solve('map') - mean_i|^2 <= K alpha^2 and, for full row rank, |solve('map') - solve('mud')|^2 <= K / alpha^2, for all alpha > 0.", "quantifier": "all alpha > 0", "why_tests_cant": "Limit statement over all alpha.", "anchors": ["src/mud/base.py:LinearGaussianProblem.solve"]}
{"id": "C78", "title": "alpha trades data fit against prior distance monotonically", "statement": "For alpha1 < alpha2 the MAP point of alpha2 has no larger data misfit (cov_o^-1 norm) and no smaller prior distance (cov_i^-1 norm).", "quantifier": "all problems, all pairs of alpha", "why_tests_cant": "All inputs.", "anchors": ["src/mud/base.py:LinearGaussianProblem.solve"]}
{"id": "C79", "title": "Sequential MAP updates equal the joint one", "statement": "Solving 'map' for a first block of data and passing map and cov_p as mean_i and cov_i (alpha 1) to a problem with a second independent block yields the same point and covariance as the joint problem with block-diagonal cov_o.", "quantifier": "all pairs of data blocks", "why_tests_cant": "All inputs; relates three objects.", "anchors": ["src/mud/base.py:LinearGaussianProblem.solve"]}
{"id": "C80", "title": "updated_cov: neutral and monotone in data_cov", "statement": "updated_cov returns init_cov when data_cov equals the predicted covariance A init_cov A^T, and a smaller data_cov (PSD order) never gives a larger result.", "quantifier": "all A, covariances", "why_tests_cant": "All inputs.", "anchors": ["src/mud/funs.py:updated_cov", "src/mud/base.py:LinearGaussianProblem.updated_cov"]}
{"id": "C81", "title": "MAP is invariant under data coordinates", "statement": "Replacing A, b, y by L A, L b, L y and cov_o by L cov_o L^T (L invertible) leaves solve('map') unchanged.", "quantifier": "all problems, invertible L", "why_tests_cant": "All inputs.", "anchors": ["src/mud/base.py:LinearGaussianProblem.solve"]}
{"id": "C82", "title": "A given predicted distribution must have one observable", "statement": "set_predicted(distribution) stores the table of marginal densities (n samples times m observables values), not their products; with n>=2 samples and m>=2 observables fit, mud_point and expected_ratio raise ValueError.", "quantifier": "all tables of density values, all n, m", "why_tests_cant": "no finite set of shapes shows that every n, m >= 2 fails", "anchors": ["src/mud/base.py: DensityProblem"]}
{"id": "C83", "title": "One-dimensional X is a single sample", "statement": "If X has one row, mud_point can only return that row: with several outputs it raises IndexError exactly when the first maximum (or NaN) of the updated densities is not at index 0.", "quantifier": "all problems with one sample row", "why_tests_cant": "ranges over all density values", "anchors": ["src/mud/base.py: DensityProblem"]}
{"id": "C84", "title": "What failing setters leave behind", "statement": "A failing set_weights or set_initial leaves the object unchanged; a failing set_observed leaves the new observed distribution but the old observed density values and the old updated density.", "quantifier": "all objects, all failing arguments", "why_tests_cant": "every failing input", "anchors": ["src/mud/base.py: DensityProblem"]}
{"id": "C85", "title": "Densities need not be normalised", "statement": "Multiplying the initial, observed and predicted density values by positive constants does not change the point mud_point returns (including NaN and infinite values).", "quantifier": "all density values, all positive factors", "why_tests_cant": "all real factors and all values, also infinities", "anchors": ["src/mud/base.py: DensityProblem"]}
{"id": "C86", "title": "set_initial and set_weights discard a given predicted distribution", "statement": "A successful set_weights or set_initial discards the predicted distribution set before; the next estimate uses the kernel density estimate of y with the current weights instead.", "quantifier": "all objects and arguments", "why_tests_cant": "holds for every state", "anchors": ["src/mud/base.py: DensityProblem"]}
{"id": "C87", "title": "Plots before their distribution is set", "statement": "plot_obs_space never changes the object, raises ValueError when y_range has the wrong number of rows and AssertionError without an observed distribution. plot_param_space before set_initial raises AssertionError, and with the default range the stored domain has been widened already.", "quantifier": "all objects and ranges", "why_tests_cant": "every state", "anchors": ["src/mud/base.py: DensityProblem"]}
{"id": "C88", "title": "A flat prior gives the maximum likelihood point", "statement": "With the same positive prior value at every sample map_point() returns the first sample of maximal likelihood (any likelihood values, including infinities and NaN), in plain and in log mode, unless fit rejects the posterior as numerically unstable.", "quantifier": "all likelihood values, all positive constants", "why_tests_cant": "ranges over all values", "anchors": ["src/mud/base.py: BayesProblem"]}
{"id": "C89", "title": "Numbers of samples in a BayesProblem", "statement": "If the number of likelihood values (rows of y) is neither one nor the number of rows of X, fit raises (AssertionError for a single sample, ValueError otherwise). A single row of y - in particular a flat list of outputs - is accepted for any number of samples; the likelihood is then the same everywhere and map_point() returns the mode of the prior. A distribution with one density value per row (a multivariate one) raises ValueError as likelihood or prior, and the values computed before stay.", "quantifier": "all sizes and values", "why_tests_cant": "ranges over all sizes", "anchors": ["src/mud/base.py: BayesProblem"]}
{"id": "C90", "title": "Frame conditions of BayesProblem", "statement": "The constructor with two-dimensional arrays succeeds exactly when the domain has one row per parameter; flat X and y are one sample each. X, y and the domain never change, whatever calls succeed or fail, including plots. map_point() repeated gives the same point and changes nothing. plot_obs_space never changes the object and raises ValueError before a likelihood is set.", "quantifier": "all histories, including failing calls and failing drawing", "why_tests_cant": "ranges over all histories", "anchors": ["src/mud/base.py: BayesProblem"]}
{"id": "C91", "title": "validate reports missing parts", "statement": "validate(check_meas, check_true=False) raises ValueError exactly when domain, lam, data or, if asked for, measurements are missing, and otherwise returns; validate with check_true always raises AttributeError.", "quantifier": "all reachable and unreachable states", "why_tests_cant": "Two branches, every state; the check_true branch can never succeed.", "anchors": ["src/mud/base.py:SpatioTemporalProblem.validate"]}
{"id": "C92", "title": "PCA and SVD QoI maps are projections of the residuals", "statement": "mud_problem(method='pca' / 'svd', num_components=k) yields, for each picked sample, the inner products of its residuals (measurement - data)/std_dev with the principal components sklearn returned / the first k right singular vectors numpy returned (Python slice semantics for k).", "quantifier": "all problems, masks, numbers of components and decompositions", "why_tests_cant": "All sizes and all results of the decomposition.", "anchors": ["src/mud/base.py:SpatioTemporalProblem.mud_problem", "src/mud/preprocessing.py:pca", "src/mud/preprocessing.py:svd"]}
{"id": "C93", "title": "data_weights multiply samples, not data points", "statement": "data_weights of mud_problem must have n_sensors*n_ts entries (ValueError otherwise); they are normalised and multiply the rows (samples): with a different number of samples (neither one) ValueError, with the same number the QoI of sample i is multiplied by w_i/|w|.", "quantifier": "all problems, masks and weights", "why_tests_cant": "The mistake is invisible when weights are constant or absent.", "anchors": ["src/mud/base.py:SpatioTemporalProblem.mud_problem"]}
{"id": "C94", "title": "measurements_from_reference adds scaled noise to the reference", "statement": "measurements_from_reference(ref, std_dev, seed) stores ref and std_dev (if given) and sets the measurements to the reference plus std_dev times standard normal draws, reproducibly if a seed is given; without reference or deviation AttributeError; a reference of the wrong size is stored before ValueError is raised.", "quantifier": "all states, references, deviations, seeds and generators", "why_tests_cant": "All histories and generator states.", "anchors": ["src/mud/base.py:SpatioTemporalProblem.measurements_from_reference"]}
{"id": "C95", "title": "sample_weights reach the density problem unchanged", "statement": "SpatioTemporalProblem.mud_problem(sample_weights=w) builds the same problem as without weights except that its sample weights are exactly w, not normalised; a w whose length is not the number of picked samples raises AssertionError.", "quantifier": "all problems, masks, methods and weight vectors", "why_tests_cant": "All states and sizes; a normalising variant agrees on unit weights.", "anchors": ["src/mud/base.py:SpatioTemporalProblem.mud_problem"]}
{"id": "C96", "title": "split builds one QoI per group of observations", "statement": "funs.mud_problem(split=[I_0, ..., I_{k-1}]) builds a problem with k QoI columns, column c being the weighted mean error over the observations of I_c that are below num_obs (0 if there are none), in terms of one common noise vector; an empty split raises ValueError.", "quantifier": "all inputs, all lists of non-negative index arrays", "why_tests_cant": "All groupings and sizes.", "anchors": ["src/mud/funs.py:mud_problem", "src/mud/funs.py:wme"]}
{"id": "C97", "title": "plot_contours draws a line per selected row, on the contour only for equal coordinates", "statement": "plot_contours draws one line per entry of subset (all rows by default), in order, labelled entry+1, between (r0 - w v0, r0 - w v1) and (r1 + w v0, r1 + w v1), where (r0, r1) is the reference point and v the unit null vector of the row. Its ends lie on the contour of that row through the reference point if and only if r0 = r1; then the line is centred there and has length 2|w|. Empty subset, row number out of range or a reference point with fewer than two coordinates: IndexError.", "quantifier": "all maps with two parameters, reference points, subsets, w", "why_tests_cant": "All inputs; with equal coordinates every test passes.", "anchors": ["src/mud/plot.py:plot_contours", "src/mud/base.py:LinearGaussianProblem.plot_contours"]}
{"id": "C98", "title": "map_problem builds a Gaussian-likelihood Bayes problem", "statement": "funs.map_problem builds BayesProblem(lam, first m columns of qoi, domain) and sets as likelihood the normal distribution with mean qoi_true[:m] + sd*noise and standard deviation sd, returning the problem exactly when both steps succeed.", "quantifier": "all inputs, all distributions and generators", "why_tests_cant": "All sizes, all generator states.", "anchors": ["src/mud/funs.py:map_problem"]}
{"id": "C99", "title": "make_2d_normal_mesh is the symmetric grid on [-w, w]^2", "statement": "make_2d_normal_mesh(N, w) returns the N x N coordinate tables and the N*N points of the equispaced grid on [-w, w]^2, first coordinate fastest; for N >= 2 the coordinates run from -w to w symmetrically and increase for w > 0; N = 1 gives the corner (-w, -w); negative N raises ValueError.", "quantifier": "all N and windows", "why_tests_cant": "All sizes.", "anchors": ["src/mud/plot.py:make_2d_normal_mesh"]}
{"id": "C100", "title": "plotChain joins consecutive points", "statement": "plotChain of k >= 1 points draws k segments: the first point alone, then for every i > 0 the segment from point i-1 to point i; consecutive segments share an end point. An empty chain raises IndexError.", "quantifier": "all chains", "why_tests_cant": "All lengths.", "anchors": ["src/mud/plot.py:plotChain", "src/mud/base.py:IterativeLinearProblem.plot_chain"]}
{"id": "C101", "title": "pca and svd do not depend on units", "statement": "preprocessing.pca and svd give the same result for data whose columns have been shifted by constants and multiplied by positive constants.", "quantifier": "all arrays, shifts and positive scales, all decompositions", "why_tests_cant": "Relational property over all pairs of inputs.", "anchors": ["src/mud/preprocessing.py:pca", "src/mud/preprocessing.py:svd"]}
{"id": "C102", "title": "updated_cov checks its covariance arguments", "statement": "updated_cov (function and method) raises AssertionError if an initial covariance is given without one column per parameter, or a data covariance without one column per output; otherwise ValueError unless the initial covariance is square and the data covariance has one row per output (or a single row, which is broadcast); in all other cases it returns a square array with one row per parameter. Stored covariances of the object are not checked by the assertions.", "quantifier": "all arrays of all shapes, given or missing arguments", "why_tests_cant": "All shapes; the error raised depends on the combination of shapes.", "anchors": ["src/mud/base.py:LinearGaussianProblem.updated_cov", "src/mud/funs.py:updated_cov"]}
{"id": "C103", "title": "random_linear_problem generates a solvable, reproducible problem", "statement": "random_linear_problem(di, do, ...) returns whenever the seed is accepted: A (do x di), b and the reference parameter are consecutive normal draws, y = A lam + b exactly, cov_o is the identity, alpha is 1, the mean is the one given or the origin, and the default covariance is diagonal with entries in [1/2, 3/2) in decreasing order. With a seed the result depends on nothing but the seed and the arguments. For this problem solve('mud') and solve('mud_alt') agree and, like solve('ls'), reproduce the data of the reference; their distance to the reference is at most that of the initial mean (respectively of the origin), and both equal the reference if A is injective.", "quantifier": "all dimensions, given or default mean and covariance, all seeds and all generators", "why_tests_cant": "Every stream of random numbers and every dimension.", "anchors": ["src/mud/examples/linear.py:random_linear_problem"]}
{"id": "C104", "title": "More data rows never make noiseless MUD or least squares worse", "statement": "For data produced by a reference parameter without noise, if the rows of one problem are combinations of the rows of another with the same mean and covariance, the MUD point of the larger problem is at least as close to the reference (in the norm of the initial covariance) and its least squares point too (in the Euclidean norm); in particular solve(method, output_dim=k) is monotone in k, and exact as soon as the first k rows determine the parameter.", "quantifier": "all problems, all numbers of rows, all parameters, all references", "why_tests_cant": "All matrices of all ranks and all k.", "anchors": ["src/mud/base.py:LinearGaussianProblem.solve", "src/mud/examples/linear.py:run_high_dim_linear"]}
{"id": "C105", "title": "run_high_dim_linear: square problems only, and what its dimension errors are", "statement": "run_high_dim_linear(dim_input, dim_output) returns iff 0 < dim_input = dim_output, and raises IndexError otherwise. It then returns, for each of the three alphas and each k = 1..n, the relative errors of MUD, MAP and least squares: MUD and least squares errors do not depend on alpha, least squares errors are at most 1 and never increase with k, squared MUD errors are at most 3, and both vanish as soon as the first k rows determine the parameter.", "quantifier": "all dimensions, seeds and streams of random numbers, any SVD routine returning min(m,n) values", "why_tests_cant": "Every dimension and every random stream.", "anchors": ["src/mud/examples/linear.py:run_high_dim_linear"]}
{"id": "C106", "title": "run_high_dim_linear: what its rank errors are", "statement": "The rank errors of run_high_dim_linear have the same shape; MUD and least squares ones do not depend on alpha; for a nonzero reference the squared least squares error of problem k is the fraction of the reference's squared norm carried by the right singular vectors that are not in the k-th term list of rank_decomposition or have singular value 0. Hence the errors decrease from the second problem on, and for an invertible operator with n > 1 the squares of the first and of the last error add up to 1: the last problem does not recover the reference exactly.", "quantifier": "all sizes, seeds and streams of random numbers; any exact SVD", "why_tests_cant": "Every size and stream; rests on the algebra of the decomposition.", "anchors": ["src/mud/examples/linear.py:run_high_dim_linear", "src/mud/util.py:rank_decomposition"]}
{"id": "C107", "title": "noisy_linear_data adds one deviation per datum to the predictions", "statement": "noisy_linear_data(M, ref, std, num_data) with a number or a flat array of num_data deviations, and an operator with one column per entry of ref and one row or num_data rows, returns num_data values: value i is the prediction of row i (or of the only row) plus the i-th deviation times the i-th of num_data fresh normal draws. Otherwise: AssertionError if the operator does not have these dimensions or an array of deviations has another size, AttributeError for a list of deviations, ValueError for a two-dimensional array of deviations whose diagonal is shorter.", "quantifier": "all operators, references, deviations and streams of random numbers", "why_tests_cant": "All shapes and all draws.", "anchors": ["src/mud/examples/linear.py:noisy_linear_data"]}
{"id": "C108", "title": "random_linear_wme_problem: which operators and data it generates", "statement": "With one number or flat array of deviations per quantity of interest, random_linear_wme_problem draws for each quantity first num_qoi x dim numbers (normal if dist is exactly 'normal', otherwise uniform) and then one normal number per observation; the operator is the whole draw (num_qoi rows) or, if repeated, its first row; the data are prediction plus deviation times draw, where a single row or a single observation is broadcast. It raises ValueError iff for some quantity the number of rows and the number of observations are different and neither is 1. A plain number as deviation raises AssertionError unless there is exactly one quantity, and then fails (AssertionError or ValueError) if it is an integer. Nothing is drawn and AssertionError raised if the number of deviations, or of numbers of observations, is not num_qoi; TypeError if the reference point is a number.", "quantifier": "all numbers of quantities and observations, references, deviations, streams", "why_tests_cant": "All lists, sizes and draws.", "anchors": ["src/mud/examples/linear.py:random_linear_wme_problem"]}
{"id": "C109", "title": "LinearWMEProblem: the MUD point minimises the weighted mean errors", "statement": "LinearWMEProblem(ops, data, sigma, mean_i, cov_i, alpha).solve('mud') returns the parameter that minimises the sum of the squared weighted mean errors of the quantities of interest over all parameters; among all minimisers it is the only one closest to mean_i in the norm of cov_i. If some parameter makes all weighted mean errors 0, the MUD point does; for one-row operators, if some parameter predicts the mean of the observations of every quantity, the MUD point does.", "quantifier": "all operators of any rank, data, deviations, means, SPD covariances, alpha > 0", "why_tests_cant": "All linear problems.", "anchors": ["src/mud/base.py:LinearWMEProblem", "src/mud/base.py:LinearGaussianProblem.solve"]}
{"id": "C110", "title": "LinearWMEProblem: repeated observations shrink the updated covariance as 1/N", "statement": "For linearly independent one-row operators M_i with deviations s_i and N_i observations and default cov_o, updated_cov() returns U with M_i U M_j^T = s_i^2 / N_i if i = j and 0 otherwise, for every SPD cov_i; with more observations of some quantities (other arguments equal) the updated covariance never becomes larger (the difference is positive semidefinite), whatever the data values.", "quantifier": "all numbers of quantities and observations, operators, deviations, data values, SPD covariances", "why_tests_cant": "All sizes and all data.", "anchors": ["src/mud/base.py:LinearWMEProblem", "src/mud/base.py:LinearGaussianProblem.updated_cov"]}
{"id": "C111", "title": "rotation_map and its trials", "statement": "rotation_map(qnum, ...) returns for qnum >= 0: row i of A is (sin, cos) of the i-th of qnum equally spaced angles from 0 to pi (unit vectors), y = A ref + b with b = 0 and ref = (1/2, 1/2) by default, two fresh normal draws as mean and the equipment deviation (not squared) times the identity as covariance; any seed has the effect of the seed 24; a negative qnum raises ValueError. rotation_map_trials never finishes a trial: ZeroDivisionError for numQoI = 0, otherwise TypeError (the unknown keyword initial_mean) unless num_trials is 0.", "quantifier": "all numbers of quantities, tolerances, references, seeds and generators", "why_tests_cant": "All counts, angles, seeds.", "anchors": ["src/mud/examples/linear.py:rotation_map", "src/mud/examples/linear.py:rotation_map_trials"]}
{"id": "C112", "title": "run_wme_covariance: what the returned covariances and problem are", "statement": "run_wme_covariance(dim_input, dim_output, sigma, Ns) with dim_output > 0, a nonempty list of positive Ns and sigma > 1e-14 returns the problem built for the last N and one updated covariance U_N per N. The one-row operators are uniform draws in [0, 1) although dist is 'norm'. Every U_N is positive definite, U_N never grows with N (the difference is positive semidefinite), and x^T U_N x is the initial x^T C x in the directions x with M C x = 0, which the observations do not see. If the rows are independent, M U_N M^T is sigma^2/N times the identity, and the MUD point of the returned problem predicts M lam plus sigma times the mean of the first N noise draws. It raises ValueError if Ns is empty or dim_output is 0, AssertionError if sigma <= 1e-14.", "quantifier": "all dimensions, deviations, lists of numbers of observations, seeds and streams", "why_tests_cant": "Every dimension, list and stream.", "anchors": ["src/mud/examples/linear.py:run_wme_covariance"]}
{"id": "C113", "title": "piecewise_eval_from_vector: the boundary expression is the linear interpolant of the given values", "statement": "The expression whose text piecewise_eval_from_vector(u, d) returns has, at a point whose d-th coordinate x lies on the k-th of the n+1 equal segments of [0, 1) (n = len(u)), the value of the linear function between the k-th and (k+1)-th of the values 0, u_1, ..., u_n, 1; it equals u_k at k/(n+1) and 0 for x < 0 and x >= 1. Near x = 1 it tends to 1 (1 minus the value is (n+1)(1-x)(1-u_n)) and at x = 1 itself it is 0.", "quantifier": "all vectors of values of any length, coordinates and points", "why_tests_cant": "Every vector, length and point.", "anchors": ["src/mud/examples/fenics.py:piecewise_eval_from_vector"]}
{"id": "C114", "title": "The spline plot_solution_spline draws and the boundary data the solver uses agree except on the last segment", "statement": "plot_solution_spline(lam) draws the line through (k/(n+1), y_k) with the values 0, lam_1, ..., lam_n, 0. The expression piecewise_eval_from_vector(lam) hands to the solver agrees with the drawn line on every segment but the last, where it is larger by x(n+1) - n: the solver's boundary data rise to 1 where the drawn ones end at 0.", "quantifier": "all vectors of values of any length and all points of [0, 1)", "why_tests_cant": "Every vector, length and point.", "anchors": ["src/mud/examples/fenics.py:piecewise_eval_from_vector", "src/mud/examples/poisson.py:plot_solution_spline"]}
{"id": "C115", "title": "spline_objective_function_2d: value, convexity and minimisers", "statement": "spline_objective_function_2d(lam, aff) raises ValueError for negative aff and IndexError for fewer than two values; otherwise it returns the square root of the sum over the aff points j/(aff-1) of the squared difference between the reference boundary data 197.65032 x^2 (x-1)^5 and lam[0] times the hat function at 1/3 plus lam[1] times the one at 2/3. It is convex in the two values, so values that are optimal in a neighbourhood are optimal; a minimiser exists for every aff and is unique exactly if aff >= 4.", "quantifier": "all values, numbers of points and starting points", "why_tests_cant": "Every pair of values and number of points.", "anchors": ["src/mud/examples/poisson.py:spline_objective_function_2d"]}
{"id": "C116", "title": "polynomial_1D_data: what it returns, and that sigma is not the standard deviation of the data", "statement": "polynomial_1D_data(p, num_samples, domain, init_dist, mu, sigma, N) raises ValueError exactly if domain does not have two entries or num_samples or N is negative. Otherwise lam holds num_samples draws of init_dist (the domain plays no role), q_lam their p-th powers, and data has N entries: exactly mu for N = 1, otherwise mu + sigma^2 z_j with standard normal draws z_j. So for N other than 0 and 1 the mean of the data is mu + sigma^2 times the mean of the z_j and their variance is sigma^4 (not sigma^2) times that of the z_j.", "quantifier": "all powers, numbers of samples and observations, domains, distributions, draws, mu and sigma", "why_tests_cant": "Every set of arguments and every draw of the generator.", "anchors": ["src/mud/examples/simple.py:polynomial_1D_data"]}
{"id": "C117", "title": "identity_1D_density_prob: updated density and MUD point", "statement": "identity_1D_density_prob (without weights) returns a problem exactly if num_samples and num_obs are nonnegative and, for init_dist=\"uniform\", domain has at least two entries in nondecreasing order. With the analytical prediction, at a sample where the initial density is finite and positive the updated density is the sample's weight times the normal density around the mean of the data with standard deviation sigma, whatever the initial distribution; so without weights and with sigma > 0 and num_obs, num_samples > 0 the MUD point is the first of the samples closest to the mean of the data. For a uniform initial distribution all samples lie in [domain[0], domain[1]) and this always applies. With sigma <= 0, without observations, or on a domain that is a single point, the MUD point is the first sample (ValueError without samples).", "quantifier": "all arguments, all initial distributions and all draws", "why_tests_cant": "Every set of arguments, distribution and draw of the generator.", "anchors": ["src/mud/examples/simple.py:identity_1D_density_prob", "src/mud/base.py:DensityProblem.mud_point"]}
{"id": "C118", "title": "identity_1D_bayes_prob: MAP point", "statement": "identity_1D_bayes_prob returns a problem exactly if num_samples and num_obs are nonnegative and, when no domain is given, num_samples > 0. With sigma > 0 and num_obs > 0 its MAP point is the first of the samples closest to the mean of the data; with a domain, the first of those in the closed domain (ValueError if there is none; the first sample if the domain is a single point). With sigma <= 0 it is the first sample; without observations the first sample (in the domain).", "quantifier": "all arguments, domains and draws", "why_tests_cant": "Every set of arguments and draw of the generator.", "anchors": ["src/mud/examples/simple.py:identity_1D_bayes_prob", "src/mud/base.py:BayesProblem.map_point"]}
{"id": "C119", "title": "MUD and MAP estimate agree on the identity map", "statement": "If identity_1D_density_prob (analytical prediction, no weights) and identity_1D_bayes_prob (no domain) are called with the same arguments and see the same draws, sigma > 0 and num_obs > 0, and the initial density is finite and positive at the draws - which always holds for the default uniform distribution on [0, 1] - then the MUD point and the MAP point are the same sample.", "quantifier": "all arguments, initial distributions and draws", "why_tests_cant": "Every set of arguments, distribution and draw of the generator.", "anchors": ["src/mud/examples/simple.py:identity_1D_density_prob", "src/mud/examples/simple.py:identity_1D_bayes_prob"]}
{"id": "C120", "title": "run_comparison_example: the problems it returns", "statement": "run_comparison_example returns one result per entry of N_vals, in order, each computed from the draws of its own pass; the first pass that raises ends it with that exception. When the kernel density estimate of the powers can be computed (domain a < b, sigma, N, num_samples > 0), a pass returns exactly if one of its samples - drawn from [0, 1), not from the domain - lies in [a, b], and raises ValueError otherwise. The returned BayesProblem has these samples and the domain as given, and its MAP point is the first sample in the domain whose p-th power is closest to the mean of the data. The returned DensityProblem has the domain enlarged by 5 percent of its width on each side (cut to integers when the domain is given as integers), but densities for the domain as given: uniform on it, normal around the mean of the data, and (where the kernel density estimate is positive) an updated density equal to prior times observed over predicted; its MUD point is the first sample where that is largest.", "quantifier": "all arguments, lists of numbers of observations and draws", "why_tests_cant": "Every list N_vals, set of arguments and draw of the generator.", "anchors": ["src/mud/examples/comparison.py:run_comparison_example", "src/mud/base.py:DensityProblem.plot_param_space"]}
{"id": "C121", "title": "The temporal examples: what exp_decay_1D returns, and that the other two never return", "statement": "exp_decay_1D raises IndexError exactly if domain has fewer than two entries, else ValueError if the number of entries is odd, else ZeroDivisionError if sampling_freq is 0, else ValueError exactly if domain does not have two entries in nondecreasing order or num_samples is negative. Otherwise it returns a problem whose samples are domain[0] + (domain[1]-domain[0]) u_i, whose times are t_start + j/sampling_freq for all j with t_start + j/sampling_freq < time_range[1] (time_range[0] plays no role; for a negative frequency those above time_range[1]), whose data is u_0 exp(-lam_i t_j), whose true values are u_0 exp(-lambda_true t_j), with std_dev as given and no measurements and no lam_ref. It can be used with n_sensors = 1, and if lambda_true is among the samples, u_0 is not 0 and some time is not 0, get_closest_to_true_vals returns lambda_true. exp_decay_2D never returns: with a valid domain of at least two parameters, frequency and number of samples it raises TypeError. identity_1D_temporal_prob raises ValueError for all arguments.", "quantifier": "all arguments and draws", "why_tests_cant": "Every set of arguments and draw of the generator.", "anchors": ["src/mud/examples/exp_decay.py:exp_decay_1D", "src/mud/examples/exp_decay.py:exp_decay_2D", "src/mud/examples/simple.py:identity_1D_temporal_prob", "src/mud/base.py:SpatioTemporalProblem.get_closest_to_true_vals"]}
{"id": "C122", "title": "load_poisson_prob and load_adcirc_prob: what is loaded, and that std_dev is ignored", "statement": "The std_dev argument of both has no effect: the problem always has standard deviation 0.05. A file with std_dev, measurements, or sample_dist without uniform is refused by both, one with lam_ref or times by load_poisson_prob, one with sensors by load_adcirc_prob, and one without true_vals by both. From a file with consistent domain, lam, data and true_vals (and sensors, respectively times and a lam_ref in the domain) they return the file's contents and a problem with exactly these values and measurements equal to the true values plus 0.05 times standard normal draws, drawn from the seed if one is given. In particular load_poisson_prob reads everything run_fenics writes (for at least one sensor).", "quantifier": "all data sets, seeds, states of the generator and arguments", "why_tests_cant": "Every data set, seed and state of the generator.", "anchors": ["src/mud/examples/poisson.py:load_poisson_prob", "src/mud/examples/adcirc.py:load_adcirc_prob", "src/mud/examples/fenics.py:run_fenics", "src/mud/base.py:SpatioTemporalProblem.load"]}
{"id": "C123", "title": "plot_params_2d and plot_qoi: which columns are drawn", "statement": "plot_params_2d draws the first two parameters of the samples, coloured by the chosen observable (y; negative positions count from the end), whatever x_1 and x_2 are: these appear only in the axis labels, as x_1+1 and x_2+1. With contours=True it also draws the triangulated contours of the same three columns. It raises AttributeError exactly if there are fewer than two parameters, else ValueError if x_1 or x_2 is not below the number of parameters or y not below the number of observables, else IndexError if y is below minus the number of observables, else ValueError if there are not as many values as samples; otherwise (if the points can be triangulated, where contours are asked for) it returns. plot_qoi draws the two chosen columns of the predicted values against each other and raises IndexError exactly if one of them does not exist, in particular by default with one observable.", "quantifier": "all samples, predicted values, indices and options", "why_tests_cant": "Every shape of the arrays and every index.", "anchors": ["src/mud/base.py:DensityProblem.plot_params_2d", "src/mud/base.py:DensityProblem.plot_qoi"]}
{"id": "C124", "title": "LinearGaussianProblem.plot_sol draws the first two entries of the solution", "statement": "For every method plot_sol draws the point given by the first two entries of what solve returns, with a line from the first two entries of the mean to it if a line style is given, and the label, if any, at note_loc or, by default, 0.02 to the left of and above the point. For \"initial\" it draws the mean, without a line. With fewer than two parameters it raises IndexError, and where solve raises it raises the same.", "quantifier": "all problems, methods, labels and locations", "why_tests_cant": "Every problem and method.", "anchors": ["src/mud/base.py:LinearGaussianProblem.plot_sol", "src/mud/base.py:LinearGaussianProblem.solve"]}
{"id": "C125", "title": "The contour lines of a linear problem; the default options and plot_chain never work", "statement": "LinearGaussianProblem.plot_contours with its default plot_opts never returns (they contain fs, which is no property of a line). With options that are properties of a line it draws exactly the lines the function plot_contours (C97) draws for A through the reference point, which by default is the least-squares solution, and with annotate=True puts beside each line its label, at note_loc or at the line's first end. IterativeLinearProblem.plot_chain never returns; when there are at least two parameters it raises TypeError, after drawing the chains; IndexError if the first chain is empty.", "quantifier": "all problems, reference points, subsets, options and chains", "why_tests_cant": "Every problem, subset and option.", "anchors": ["src/mud/base.py:LinearGaussianProblem.plot_contours", "src/mud/base.py:IterativeLinearProblem.plot_chain", "src/mud/plot.py:plot_contours"]}
{"id": "C126", "title": "plot_fun_contours draws the functionals on a grid, for one observation only", "statement": "For two parameters and one observation, plot_fun_contours with terms dc or bayes draws the n x n array with entry (i, j) equal to the functional (C74: data misfit as computed, plus the regularisation, for dc minus the predictability term) at the point (r j/(n-1), r i/(n-1)), with these coordinates; with a mesh of n*n points, its values there, row by row. With several observations it raises ValueError unless their number is n*n. Asked for all terms at once it raises AttributeError. With N < 2 it never returns.", "quantifier": "all problems, meshes, terms, N and r", "why_tests_cant": "Every problem, mesh and size.", "anchors": ["src/mud/base.py:LinearGaussianProblem.plot_fun_contours", "src/mud/base.py:LinearGaussianProblem.compute_functionals", "src/mud/util.py:make_2d_unit_mesh"]}
{"id": "C127", "title": "plot_ts draws the first max_plot selected samples, not random ones", "statement": "For a consistent problem with two-dimensional sensors and measurements, plot_ts for a sensor (negative positions count from the end) draws, on the current axes, the measurements of that sensor at the selected times, and one curve for each of the first min(max_plot, number of selected samples) selected samples, in their order, with the sample's data at this sensor and these times. It raises IndexError for a sensor that does not exist and ValueError for sensors without coordinates (such as the default sensor); with negative max_plot or no measurements it never returns.", "quantifier": "all problems, masks, sensors and max_plot", "why_tests_cant": "Every mask and shape of the data.", "anchors": ["src/mud/base.py:SpatioTemporalProblem.plot_ts", "src/mud/base.py:SpatioTemporalProblem.sample_data"]}
{"id": "C128", "title": "run_fenics: the data set it generates", "statement": "run_fenics returns exactly if the seed is accepted, mins and maxs have the same length and the numbers of sensors and samples are not negative. It first draws the sensors, then the samples, row by row: sensor s has coordinates low_j + (high_j - low_j) times draw number 2 s + j, sample i has entries mins_j + (maxs_j - mins_j) times draw number i p + j of its own draws, so with draws of [0, 1) they lie in their boxes. Entry (i, s) of the data is the solution for sample i at sensor s, entry s of the true values the solution for gamma there, and row j of the domain is (mins_j, maxs_j). With a seed the result does not depend on what was drawn before.", "quantifier": "all arguments, generators, solvers and seeds", "why_tests_cant": "Every number of samples and sensors and every generator.", "anchors": ["src/mud/examples/fenics.py:run_fenics"]}
{"id": "C129", "title": "The boundary data of the Poisson problem: what gamma means, and that no parameters reproduce it", "statement": "For gamma < 0 the true boundary data lies between gamma and 0 on [0, 1]; it equals gamma exactly at x_2 = 2/7 and 0 exactly at the two ends. The reference curve of the plots and of the objective function is this data for gamma = -3 and for no other gamma. For every list of parameters there is a point of (0, 1) at which the boundary data the solver uses for these parameters is positive and the true data negative.", "quantifier": "all gamma, points and parameters", "why_tests_cant": "Every point of the boundary and every list of parameters.", "anchors": ["src/mud/examples/fenics.py:fenics_poisson_solve", "src/mud/examples/fenics.py:piecewise_eval_from_vector", "src/mud/examples/poisson.py:spline_objective_function_2d"]}
{"id": "C130", "title": "run_contours: which figures are drawn, what they show and where they are saved", "statement": "For a problem with one datum and two parameters (full-rank map, positive definite covariances, alpha > 0) run_contours returns the problem with its MUD, MAP and least-squares solutions, and draws the figures asked for in the order data_mismatch, tikhonov, consistent, map, mud, comparison. A figure is asked for if plot_fig is None, or contains its name or 'all' (for a string: as a substring); other names are ignored. Each shows contours of its functional over 250 x 250 points of the unit square and the solutions, at the points solve returns, with their labels; the comparison always marks (0.7, 0.3) as the truth. Figures are saved, under fixed names, and closed if asked, exactly if save_path is a non-empty string. For the default problem the MUD point is (5/8, 3/8), the MAP point (7/16, 5/16), for the one of the mud_paper command (3/4, 1/4) and (1/2, 1/4), and the contour drawn is x + y = 1. With several data (other than 62500) the first figure asked for raises ValueError and nothing is saved; if none is asked for, the solved problem is returned.", "quantifier": "all problems, selections and save paths", "why_tests_cant": "Every problem and every list or string of names.", "anchors": ["src/mud/examples/linear.py:run_contours", "src/mud/examples/linear.py:call_mismatch", "src/mud/examples/linear.py:call_tikhonov", "src/mud/examples/linear.py:call_consistent", "src/mud/examples/linear.py:call_map", "src/mud/examples/linear.py:call_mud", "src/mud/examples/linear.py:call_comparison", "src/mud/plot.py:save_figure"]}
{"id": "C131", "title": "run_2d_poisson_trials: each trial solves the problem of the first N sensors in the chosen order, independently of the others", "statement": "The run returns the problem loaded and one density problem per N in N_vals, in order, depending only on N and the order of the sensors, not on the other trials: mud_problem with method pca and two components on the first N sensors (all of them when N is larger; a negative N leaves out the last ones), after estimate. Its samples are all samples with weight 1, its QoI the inner products of the noisy residuals at these sensors with the components. Its domain is 10.5% of each interval's length wider on both sides than the domain of the data; everything else, the MUD point and the expected ratio are as estimate left them. Each figure shows over the ranges given the uniform initial density, the updated density, the MUD point, the closest spline, and, if a location is given, N and E(r); it is saved as solution_n<N> if save_path is not None (also if it is empty), and different N go to different files. N = 0, or N at most minus the number of sensors, raises ValueError; the figures of the trials before are finished and saved. The order 'sorted' is by the first coordinate, then the second, then the position; 'random' what Python's generator gives; anything else the given order. With a seed, everything returned and drawn is determined by the data and the arguments, and does not depend on sigma.", "quantifier": "all data sets, lists N_vals, orders, seeds and generator states", "why_tests_cant": "Every list of N, data set and generator state.", "anchors": ["src/mud/examples/poisson.py:run_2d_poisson_trials", "src/mud/base.py:DensityProblem.plot_param_space", "src/mud/base.py:SpatioTemporalProblem.mud_problem", "src/mud/plot.py:save_figure"]}
{"id": "C132", "title": "run_2d_poisson_sol: the figures drawn, the problem returned, and what the seed does not fix", "statement": "The problem is solved with all sensors, in the order chosen. A figure is drawn exactly if its name or 'all' is an element of plot_fig (a string is one name): the response surface, the learned QoI, and the two density figures, in this order. The response figure shows the field with the groups of sensors (positions a to b of the order, Python slices; IndexError if there are more groups than colours or markers), and the reference curve, the closest spline, the splines of the first 50 samples and the knots 1/3 and 2/3. The default groups show every sensor except, with more than 50 sensors, the last one. The QoI figure shows the samples coloured by each of the two QoI; without components plot_qoi_ex raises UnboundLocalError, and it never returns for more than two. The first density is drawn over the domain widened by 5% on both sides, the second over the domain widened by 10.5%, which is also the domain of the problem returned. The first two figures are saved if save_path is a non-empty string, the densities if it is not None. The seed fixes the noise, but not the order 'random': the same call with the same seed can show different figures.", "quantifier": "all data sets, selections, orders, groups and generator states", "why_tests_cant": "Every data set, selection and generator state.", "anchors": ["src/mud/examples/poisson.py:run_2d_poisson_sol", "src/mud/examples/poisson.py:plot_response_ex", "src/mud/examples/poisson.py:plot_qoi_ex", "src/mud/base.py:DensityProblem.plot_param_space", "src/mud/base.py:DensityProblem.plot_params_2d", "src/mud/base.py:SpatioTemporalProblem.sensor_scatter_plot"]}
{"id": "C133", "title": "adcirc_time_window: which times count, what is drawn and what is returned", "statement": "The times used are those strictly between the two ends of the window (a time at an end is left out); a window without times raises ValueError and nothing is drawn. The problem solved is the one mud_problem builds from the times inside the window; with method 'pca' the predicted values are the projections of the residuals on the components, which the SpatioTemporalProblem keeps; with another method it keeps the components of an earlier window. A figure is drawn exactly if its name or 'all' is in plot_figs, in the order components, densities, QoI; all have the title (text, number of components, E(r) of the problem) and are saved in save_path and closed if asked. The first shows measurements and at most max_plot curves of the first sensor and the components: ValueError unless a component is as long as the window (so with more than one sensor it is never drawn), IndexError with more than three, TypeError without any. The density of parameter i is drawn over the domain widened i+1 times by 5%, with the MUD and the reference value; without a reference value this figure raises AttributeError. The QoI figure has one axes for each of at most two components (ValueError otherwise), and only the first has a label for the ordinate. The problem returned has the estimate and E(r) shown, and if the densities were drawn its domain has been widened once for each parameter.", "quantifier": "all problems, windows, methods, numbers of components, selections of figures and save paths", "why_tests_cant": "Every data set, window and selection of figures.", "anchors": ["src/mud/examples/adcirc.py:adcirc_time_window", "src/mud/examples/adcirc.py:updated_dist_plot", "src/mud/examples/adcirc.py:pca_vector_plot", "src/mud/base.py:SpatioTemporalProblem.mud_problem", "src/mud/base.py:SpatioTemporalProblem.plot_ts", "src/mud/base.py:DensityProblem.plot_param_space"]}
{"id": "C134", "title": "ADCIRC figures: the files of the windows, the full time series and the mesh", "statement": "The components and densities of a window are saved to names made of the number of components and the number of times; two windows have the same names exactly if both numbers agree, whatever their times, so the figures of one window can replace those of another; the QoI figure always has the literal name qoi_{num_components}_{ndata}. The three figures of one window go to different files. adcirc_ts_plot shows the first sensor's measurements and at most 50 curves at all times, wind speeds if given, and for each window its two ends in the window's line style; the numbers of the windows are shown exactly if there are as many places for them as windows; more than three windows raise IndexError. tri_mesh_plot shows for 'DP' the negated depth, not below the cutoff; for every other key of the data set it shows 'wind_speed_mult_0', whichever key was asked for; ValueError for an unknown key, KeyError if X, Y or triangles is missing; the limits are centre minus and plus the width; station i is drawn at its coordinates.", "quantifier": "all windows, numbers, labels, grids, values and stations", "why_tests_cant": "Every grid, window and value.", "anchors": ["src/mud/examples/adcirc.py:adcirc_time_window", "src/mud/examples/adcirc.py:adcirc_ts_plot", "src/mud/examples/adcirc.py:tri_mesh_plot"]}
{"id": "C135", "title": "print_res: which rows a table has", "statement": "The table has the columns asked for, in that order, and one row for every record (after filter_fun, if given) whose entry in the search column matches, in the order of the records, with the record's entries in the columns. Without a search column every record has its row. A column that a shown record lacks, or a search column that any record reached lacks, raises KeyError; a column name given twice raises ValueError, whatever the records are.", "quantifier": "all lists of records, columns, search columns, patterns and filter functions", "why_tests_cant": "Any number of records and columns.", "anchors": ["src/mud/examples/examples.py:print_res"]}
{"id": "C136", "title": "poisson_solve and poisson_trials commands", "statement": "poisson_solve prints the MUD point of the problem with two principal components of all sensors; whatever figures are asked for (even the default 'all'), it draws and saves none, and sigma and the place to save to have no effect. poisson_trials prints one row per number of sensors, in increasing order, with the MUD point and expected ratio of the problem of the first N sensors of the random order, and draws one figure for each, at solution_n<N>; the order in which the numbers are given, the figures asked for and sigma have no effect; with a seed everything printed and drawn is the same in every run.", "quantifier": "all data files, numbers, limits, seeds and generator states", "why_tests_cant": "Every data set, seed and history of the generators.", "anchors": ["src/mud/examples/examples.py:poisson_solve", "src/mud/examples/examples.py:poisson_trials"]}
{"id": "C137", "title": "adcirc_solve command: the windows", "statement": "The start and end times are paired in order, as many as there are of both; the table has one row per window, in order, with its two times and the MUD point and expected ratio of the problem for the times inside the window, each as if the window were the only one; the same holds for the figures, which come in the order of the windows. The limits of the ordinates are used only if there are exactly as many pairs of them as windows. A window that raises ends the command: the figures finished by then stay, no table is printed. Without start or without end times no window is solved and nothing printed. More than three windows with the time series asked for (also by 'all') raise IndexError before anything is shown. With a seed everything is the same in every run; sigma has no effect.", "quantifier": "all data sets, windows, limits, figures, seeds and generator states", "why_tests_cant": "Any number of windows; every data set and history of the generator.", "anchors": ["src/mud/examples/examples.py:adcirc_solve", "src/mud/examples/adcirc.py:adcirc_time_window"]}
{"id": "C138", "title": "poisson_generate and the Poisson data of mud_paper", "statement": "poisson_generate writes the data set it computes to s<samples>_n<sensors>_d<dimension>_res in the directory, prints that path and leaves every other file alone; if computing raises nothing is written; without FEniCS nothing is written and nothing raised. Two runs share a file exactly if samples, sensors and dimension agree, whatever the domain, the sensors' region or gamma: the second then replaces the first. With a seed the data are the same in every run. mud_paper uses the data in data/poisson_data.pkl if they are there and else downloads them to that place, with the same figures and table; with FEniCS and without the data it computes them but writes them elsewhere, and then raises FileNotFoundError without drawing figures 7 to 9. The figures of the solution go to the directory figures, those of the trials to its parent. With the data in place figure 7 shows the sensors in the order drawn first and the two principal components of all sensors; figures 8 and 9 and the printed table show the problems of the first 5, 50 and 500 sensors in the order drawn next (fixed by the seed, if there is one), in this order.", "quantifier": "all numbers, domains, files present, seeds and generator states", "why_tests_cant": "Every set of files and history of runs.", "anchors": ["src/mud/examples/examples.py:poisson_generate", "src/mud/examples/examples.py:mud_paper", "src/mud/examples/fenics.py:run_fenics"]}
{"id": "C139", "title": "What DensityProblem.plot_obs_space draws", "statement": "plot_obs_space draws, for the options that are not None or empty, the observed density, the predicted density and the push-forward of the updated density (kernel density estimate of the outputs with weights sample weight times update ratio, equal weights before a fit), in this order and with the label given or the default one. Each is drawn at the aff - 1 ticks of the observable asked for, as sums over the slices of the grid, scaled to Riemann sum one. With one observable that is the density itself; with two, the curves drawn from a pdf (observed, and predicted if it is a frozen scipy distribution) are those of the other observable, those drawn from a kernel density estimate of the observable asked for. Without y_range the range of each observable is made longer by a tenth on both sides. ValueError for a range with the wrong number of rows, AssertionError without an observed distribution, TypeError if the predicted density is asked for and not there. The problem is left as it is.", "quantifier": "all problems, options, ranges, observables and grid sizes above 2", "why_tests_cant": "Every density, dimension and history.", "anchors": ["src/mud/base.py:DensityProblem.plot_obs_space", "src/mud/plot.py:plot_dist"]}
{"id": "C140", "title": "What the plotting methods of BayesProblem draw", "statement": "plot_param_space draws prior (from its pdf), posterior (kernel density estimate of the samples weighted with the posterior values), MAP point and true value, each if asked for, over the domain as it is; it computes the estimate only for posterior or MAP point. The prior is drawn first: without one it raises AttributeError and computes nothing. plot_obs_space draws the likelihood (product over the observables of its pdf) and the push-forward of the posterior (posterior values as weights; equal weights, silently, if there is no fit) as sums over slices of a grid on [-1, 1] per observable, not scaled; with two or more observables the observables 0 and 1 are exchanged. It raises ValueError if the likelihood is not set, and also if the likelihood is a normal one with n > 1 data, unless n is the number of grid points. It leaves the problem as it is.", "quantifier": "all problems, options, ranges, parameters, observables and grid sizes", "why_tests_cant": "Every density, dimension and history.", "anchors": ["src/mud/base.py:BayesProblem.plot_param_space", "src/mud/base.py:BayesProblem.plot_obs_space"]}
{"id": "C141", "title": "The figures of run_comparison_example", "statement": "For each N, in the order of the list, run_comparison_example makes two figures. The first: initial (uniform) and updated density over the domain made longer by a twentieth on both sides (truncated to integers for an integer domain), posterior density over the domain. The second, over [-1, 1] whatever the domain: the observed density (normal with the mean of the data), push-forwards of initial, updated and posterior density, the last one not scaled; its label is N(0.25,0.1^2) whatever mu and sigma. The text N = ... is there unless N = 1, and the y limits are then smaller. With save_path they are bip-vs-sip-<N>.png and bip-vs-sip-pf-<N>.png in it, and closed if asked for; two figures have the same file only for the same N (which then replaces the first). The results are those without figures. If a pass raises, the figures of the passes before are complete, at most one of this pass is there, and none if the problems could not be solved.", "quantifier": "all sizes, domains with lower < upper, positive sigma, draws, lists of N and kernel density estimates", "why_tests_cant": "Every list of sizes, every draw, exceptions in every pass.", "anchors": ["src/mud/examples/comparison.py:run_comparison_example", "src/mud/examples/comparison.py:comparison_plot"]}
{"id": "C142", "title": "The figure of run_wme_covariance", "statement": "run_wme_covariance draws, for each N in the order of the list, the singular values of the updated covariance against 1, 2, ..., dim_input, as rings and as a line with the label N=<one digit in scientific notation> and a style that repeats after four curves, on a logarithmic axis. All the values are positive, so that all are visible. A curve for more observations is nowhere above a curve for fewer. At least dim_input - dim_output values stay at or above 1/2 whatever N. The other dim_output values are at most sigma^2/(m N) if |M^T z|^2 >= m |z|^2 for all z; independent rows have such an m > 0, 1/trace((M M^T)^-1). The label is N rounded to one digit: at most half a unit off, exact for a digit followed by zeros; different N may have the same label. With save_path the figure is lin-meas-cov-sd-convergence.png in it, and closed only if close_fig.", "quantifier": "all dimensions, deviations, lists of numbers of observations, seeds and streams", "why_tests_cant": "The spectra of all matrices the generator can draw; every N.", "anchors": ["src/mud/examples/linear.py:run_wme_covariance"]}
{"id": "C143", "title": "The figures of run_high_dim_linear", "statement": "run_high_dim_linear(n, n) draws two figures from the errors it returns. The first: MUD, then least squares, then MAP for alpha = 1, 0.1, 0.001 against the output dimension; the second: MAP for 1, then MUD, least squares, MAP for 0.1 and 0.001 against the rank. Each MAP line has the note with its alpha at the place 100 at the height of its last error but not below 1/100; the y axis is [0, 1]. MUD and least squares are drawn once because they do not depend on alpha, and the least-squares line of the first figure is inside the axis and never rises. The legends name the first three lines drawn MUD, MAP, Least Squares, so they are wrong: in the first figure least squares is called MAP and MAP (alpha = 1) Least Squares; in the second MAP (alpha = 1) is called MUD and MUD is called MAP. With save_path they are lin-dim-cov-convergence.png and lin-rank-cov-convergence.png in it, closed only if close_fig. Other shapes raise IndexError and draw nothing.", "quantifier": "all dimensions, seeds and streams", "why_tests_cant": "Every dimension and stream.", "anchors": ["src/mud/examples/linear.py:run_high_dim_linear"]}
{"id": "C144", "title": "Figures 1 to 6 of mud_paper", "statement": "mud_paper, when figures 1 to 6 do not raise, saves 18 figures in turn in the directory figures of save_path (of mud_paper in the current directory without one). 17 files are left, each holding its own figure: the comparison of figure 3 (MUD point (5/8, 3/8), MAP point (7/16, 5/16)) is written to map_compare_contour.png, and figure 5 (a different problem: MUD point (3/4, 1/4), MAP point (1/2, 1/4)) overwrites it. With --seed everything is the same from every state of the global generator, and figure 1 and the first pass of figure 2 use the same 1000 samples; a seed numpy refuses raises before anything is drawn. Without --seed the contour figures, figure 6 and the state of the generator after it are still the same in every run, since figure 6 always restarts it with 21. Only the two comparisons can raise: if they do, the exception comes after the figures already drawn and nothing more is saved; as long as kernel density estimates of numbers with as many weights do not raise, figures 1 to 6 are always completed.", "quantifier": "all directories, seeds, generator states and draws", "why_tests_cant": "Every generator state and every draw.", "anchors": ["src/mud/examples/examples.py:mud_paper"]}
{"id": "C145", "title": "The commands comparison, contours, wme_covariance and high_dim_linear, and the global generator", "statement": "run_comparison_example draws from numpy's global generator: for each N in turn num_samples uniform numbers and, unless N is 1, N normal ones; its figures and problems are those of C120 and C141 with those draws, and the generator is left after the last. A command run with --seed does the same from every state of the generator, and raises without drawing anything when numpy refuses the seed. wme_covariance and high_dim_linear draw the figures of C142 and C143 with the given seed; without --seed high_dim_linear draws from wherever the generator is, not from the default seed 21 of run_high_dim_linear. contours without a file draws, in a fixed order, the figures named in plot_fig (all if all is among them), of the default problem, and leaves the generator as it was. Figures 1 to 6 of mud_paper --seed q are those of the commands run with that seed and directory, except that figure 6 is that of high_dim_linear --seed 21, closed.", "quantifier": "all seeds, generator states, parameters and lists of N", "why_tests_cant": "Every generator state and every list of N.", "anchors": ["src/mud/examples/examples.py:comparison", "src/mud/examples/examples.py:contours", "src/mud/examples/examples.py:wme_covariance", "src/mud/examples/examples.py:high_dim_linear", "src/mud/examples/comparison.py:run_comparison_example"]}
{"id": "C146", "title": "plot_chain_error draws the errors of the first reference point", "statement": "IterativeLinearProblem.plot_chain_error draws one curve: at k the distance to the reference of the k-th point of the chains (without their starting points), k = 0, 1, .... Every later call, with whatever reference point, draws the same curve again. For a problem that was only used through its methods the curve is always empty (solve keeps only starting points), and before solve it raises ValueError.", "quantifier": "all chains, reference points and histories of calls", "why_tests_cant": "Every history of calls and every chain.", "anchors": ["src/mud/base.py:IterativeLinearProblem.plot_chain_error", "src/mud/base.py:IterativeLinearProblem.get_errors"]}
{"id": "C147", "title": "Which Axes plot_1D_vecs and sensor_scatter_plot draw on; plot_vert_line", "statement": "plot_1D_vecs without an Axes draws on a new one, which it returns, one set of points (k, v_k) per vector in order with the label p^(i+1) and the i-th marker, and leaves all other Axes alone. With an Axes given, the points are drawn on pyplot's current Axes instead: one that is not current only gets the texts of its axes and a legend. With fewer markers than vectors it raises IndexError after drawing one vector per marker. sensor_scatter_plot draws the first two coordinates of the sensors (of those at the positions of the mask, in its order) on a new Axes, or, if one is given, on the current one, and returns the new or the given one. plot_vert_line draws from the bottom to the top of the Axes, keeps the lower limit, and makes ylim the upper one if it is given (also 0); further lines without ylim leave the limits as they are.", "quantifier": "all vectors, markers, sensors, and sets of Axes", "why_tests_cant": "Every set of Axes and every list of vectors.", "anchors": ["src/mud/plot.py:plot_1D_vecs", "src/mud/plot.py:plot_vert_line", "src/mud/base.py:SpatioTemporalProblem.sensor_scatter_plot"]}
{"id": "C148", "title": "The ADCIRC figures of mud_paper", "statement": "The ADCIRC part of mud_paper reads <save_path>/data/adcirc-si.pkl, or downloads it to that place (other files stay as they are), loads the problem with seed 21 (whatever --seed is: its figures do not depend on the random generator or the seed given), and makes nine figures in <save_path>/figures, each as if it were made alone from the problem loaded: the two meshes, the full time series with the three windows, and for each window one figure with one and one with two principal components. The first one that raises ends the run; those before it are finished. Without file and download, or with data that cannot be loaded, nothing is drawn. The figures of a window are named by the number of components and the number of times strictly inside the window, so all nine files are kept if and only if the three windows contain different numbers of times.", "quantifier": "all data sets, directories, generators and outcomes of the downloads", "why_tests_cant": "Every data set, crash point and state of the disk.", "anchors": ["src/mud/examples/examples.py:mud_paper", "src/mud/examples/adcirc.py:adcirc_time_window"]}
{"id": "C149", "title": "The whole of mud_paper", "statement": "A run of mud_paper that completes makes 32 figures with known files: eighteen (figures 1 to 6), two (7), three (8 and 9), then the nine of ADCIRC. The first eighteen are always finished, as mud_paper_linear would make them, whatever the state of the data files (if the generator and the kernel density estimates work). A run that raises either printed no table, and made figures 1 to 9 at most, or printed it, and made the first 23 figures and fewer than nine more. A seed numpy refuses raises before anything is done. With a seed a run does not depend on the state of numpy's generator, and on that of Python's only in the two figures of the Poisson solution (the order of the sensors). The ADCIRC figures and the state of numpy's generator afterwards are the same whatever the seed. With FEniCS installed and no Poisson data, the command always raises FileNotFoundError after figure 6.", "quantifier": "all data sets, directories, seeds, states of both generators and of the disk", "why_tests_cant": "Every history of the generators and every state of the disk.", "anchors": ["src/mud/examples/examples.py:mud_paper", "src/mud/examples/examples.py:examples"]}
{"id": "C150", "title": "What DensityProblem.plot_param_space draws", "statement": "plot_param_space draws, each only if its options are not None, in this order: the initial density (from its pdf), the updated density (the kernel density estimate of the samples with weights update ratio times sample weight; before a fit with equal weights, so that weights that were set do not show), the weighted initial density (the estimate with the sample weights), a line at the MUD point, and a line at the true value if one is given and its options are not empty. The curves are those of the parameter asked for: sums over the slices of a grid over the ranges, at its aff - 1 ticks, scaled to Riemann sum one. The ranges are x_range, or else the stored domain, each interval of which is first made longer by pad_ratio times its length on both sides, in place; without an initial distribution the call raises AssertionError after that. Only the MUD line fits the problem: without it nothing but the domain changes. A parameter that is not there: IndexError.", "quantifier": "all problems before and after a fit, ranges, options, parameters (also counted from the end), true values, grid sizes above 2", "why_tests_cant": "Every density, dimension, weight vector and history; the order in which the estimate is drawn and the fit is made decides what the first call shows.", "anchors": ["src/mud/base.py:DensityProblem.plot_param_space", "src/mud/plot.py:plot_dist", "src/mud/plot.py:plot_vert_line"]}
{"id": "C151", "title": "The estimates of a DensityProblem do not depend on the order of the samples", "statement": "Give DensityProblem the same samples in another order (the rows of X and y and the entries of the weights permuted alike) and make the same calls: every call returns or raises exactly as before, and weights, cached initial/predicted/observed/updated densities and ratios are the same up to that permutation, domain and distributions the same. expected_ratio returns the same number. mud_point returns a sample of largest updated density in both cases; it is the same sample whenever the largest is unique (with ties the first one in the order given is taken, so the order may matter), and raises the same exception otherwise. This relies on the distributions being indifferent to the order of the rows: pdf and KDE values are computed row by row and a KDE does not depend on the order of its data.", "quantifier": "all numbers of samples and parameters, all permutations, all constructor arguments, all later sequences of calls of the setters, fit, mud_point, expected_ratio and the plots, and all distributions indifferent to the order", "why_tests_cant": "a test tries a few permutations of a few data sets; the property is about all permutations, histories and tie patterns", "anchors": ["src/mud/base.py: DensityProblem.__init__, set_weights, set_initial, set_observed, set_predicted, fit, mud_point, expected_ratio, plot_param_space, plot_obs_space"]}
{"id": "C152", "title": "The estimates of a BayesProblem do not depend on the order of the samples", "statement": "Give BayesProblem the same samples in another order (the rows of X and y permuted alike) and make the same calls: every call returns or raises exactly as before, and the cached prior, likelihood and posterior values are the same up to that permutation, the domain, mode and distributions the same. map_point (estimate) returns a sample of largest posterior in both cases, the same sample whenever the largest is unique (with ties the first one in the order given is taken), and the same exception otherwise. This relies on pdf and logpdf being computed row by row.", "quantifier": "all numbers of samples, parameters and observables, all permutations, domains, sequences of calls of set_likelihood, set_prior, fit, map_point and the plots, and all row-wise distributions", "why_tests_cant": "a test tries a few permutations of a few data sets; the property is about all permutations, histories and tie patterns", "anchors": ["src/mud/base.py: BayesProblem.__init__, set_likelihood, set_prior, fit, map_point, estimate, plot_param_space, plot_obs_space"]}
{"id": "C153", "title": "What a DensityProblem does with samples of weight zero", "statement": "When all density values are numbers and no predicted value is zero, a sample of weight zero is never the MUD point as soon as some sample has a positive updated density, and expected_ratio is the weighted mean over the samples whose weight is not zero. But where the predicted density vanishes (a kernel density estimate may underflow to zero far from all weighted samples) and the observed one is a number, the updated density of a sample of weight zero is undefined (0 times infinity, or 0/0), so the MUD point is that sample or an earlier undefined one; and a ratio at a sample of weight zero that is not a finite number makes expected_ratio NaN.", "quantifier": "all problems and sequences of calls (without plots) that return, all weights, distributions and their values", "why_tests_cant": "a test would need the combination of a zero weight with a vanishing predicted density; the property ranges over all weights, values and histories", "anchors": ["src/mud/base.py: DensityProblem.set_weights, fit, mud_point, expected_ratio"]}
{"id": "C154", "title": "What importing mud.plot does to matplotlib and the working directory", "statement": "The import of mud.plot (and of everything that imports it) saves a test figure with LaTeX text. If nothing raises, HAS_LATEX is true; if the first thing that raises is a RuntimeError or FileNotFoundError it is false; any other exception ends the import. In the first two cases thirteen settings of matplotlib have mud's values afterwards (usetex is HAS_LATEX, the preamble matches it) and all other settings are the user's; after an exception all settings are the user's, at whatever step it was raised. In every case all figures open before the import are closed. No file is touched but .test_fig.png: a user's file of that name is deleted when LaTeX works and kept otherwise, and if it did not exist and saving leaves none, there is none afterwards. Without a working directory the import raises and changes nothing. The modules of mud.examples set the same thirteen settings again when imported: no change, unless the user set them in between.", "quantifier": "all settings, open figures, files, and outcomes of every step (which one raises what)", "why_tests_cant": "a test sees one machine, with or without LaTeX; the property is about every step that can fail", "anchors": ["src/mud/plot.py: _check_latex, HAS_LATEX, PREAMBLE, mud_plot_params"]}
{"id": "C155", "title": "The command group examples prepares the directory, then the generator", "statement": "A command of mud examples is reached only if the directory of --save-path exists or could be made; the options are handed on as given, numpy's generator is restarted if --seed is given and untouched otherwise, and no other file changes. Without the parent directory (FileNotFoundError), or with a file in its place (FileExistsError), every command raises before the seed is used, and nothing changes. A seed numpy refuses raises after the directory was made, with the generator as it was. Running a command again with the same options makes nothing new and, with a seed, starts from the same state of the generator whatever was drawn in between.", "quantifier": "all options, file systems, seeds and generator states", "why_tests_cant": "every file system and generator state", "anchors": ["src/mud/examples/examples.py: examples"]}
{"id": "C156", "title": "The order of data and parameters of a LinearGaussianProblem does not matter", "statement": "If the rows of A, b, y and data covariance are listed in another order, and the columns of A, the mean and the initial covariance in another order, then the constructor succeeds again and solve with method mud, mud_alt, map, ls or all returns the same vectors with their entries in the new order, or fails with the same exception; so do the covariances it stores and updated_cov(). The same holds in any orthogonally rotated coordinates of data and parameters. No rank, definiteness or regularity is needed: this also covers rank-deficient maps and singular covariances. Arguments left out stay left out.", "quantifier": "every size, map, data, mean, covariance, alpha, every two permutations (and every two orthogonal matrices) and every solving method", "why_tests_cant": "all matrices of all ranks and all permutations", "anchors": ["src/mud/base.py: LinearGaussianProblem.__init__", "src/mud/base.py: LinearGaussianProblem.solve", "src/mud/base.py: LinearGaussianProblem.updated_cov"]}
{"id": "C157", "title": "The order of observations and of quantities of interest does not matter to LinearWMEProblem", "statement": "If the observations of each quantity of interest are listed in another order (rows of its operator, unless it has a single row, data, and deviations given as a list), transform_linear_map returns exactly the same row and offset or the same exception, transform_linear_setup the same arrays, and LinearWMEProblem constructs the same problem. If the quantities themselves are listed in another order (with y and the data covariance, if given), the constructor succeeds again and every method of solve returns the same parameters or the same exception.", "quantifier": "every number of quantities, observations and parameters, all operators, data and deviations, and every permutation", "why_tests_cant": "all permutations, sizes and values", "anchors": ["src/mud/util.py: transform_linear_map", "src/mud/util.py: transform_linear_setup", "src/mud/base.py: LinearWMEProblem.__init__", "src/mud/base.py: LinearGaussianProblem.solve"]}
{"id": "C158", "title": "The order in which sensors, times and samples are picked does not matter to mud_problem with method wme", "statement": "SpatioTemporalProblem.mud_problem with method wme and without data weights builds exactly the same DensityProblem (or raises the same exception) whatever the order in which times_mask and sensors_mask list the same times and sensors. If samples_mask lists the same samples in another order (with the sample weights reordered in the same way), it builds the same problem with its samples in that order, so that C151 applies to its estimates.", "quantifier": "every loaded problem, every masks (integers, booleans, slices) picking the same entries in any two orders, and all sample weights", "why_tests_cant": "all orders of sensors, times and samples and all data", "anchors": ["src/mud/base.py: SpatioTemporalProblem.mud_problem", "src/mud/base.py: SpatioTemporalProblem.sample_data", "src/mud/base.py: DensityProblem.__init__"]}
{"id": "C159", "title": "The solutions of a linear problem are linear in data, offset and mean", "statement": "For fixed A, covariances and alpha, each single solution (mud, mud_alt, map, ls) of LinearGaussianProblem is J mean + K (y - b), with matrices J and K that depend on neither the data y, nor the offset b, nor the mean; or solve raises the same exception for every data, offset and mean. So the solution for a combination of two data sets, offsets and means is the same combination of the two solutions, and the computed covariances (of mud_alt, of map and of updated_cov) do not depend on data, offset and mean at all.", "quantifier": "every size, operator, covariances, alpha, data, offsets, means and coefficients of the combination", "why_tests_cant": "all real data, operators and sizes", "anchors": ["src/mud/base.py: LinearGaussianProblem.solve", "src/mud/base.py: LinearGaussianProblem.updated_cov"]}
{"id": "C160", "title": "Only the ratio of the two covariances matters to the solutions of a linear problem", "statement": "If both covariances of a LinearGaussianProblem are multiplied by the same nonzero number (another unit for variances), every method of solve returns exactly the same result or the same exception, and the covariances of mud_alt, of map and of updated_cov are multiplied by that number.", "quantifier": "every size, operator, covariances (possibly singular), alpha, data, offset, mean and nonzero factor", "why_tests_cant": "all real covariances and factors", "anchors": ["src/mud/base.py: LinearGaussianProblem.solve", "src/mud/base.py: LinearGaussianProblem.updated_cov"]}
{"id": "C161", "title": "The units of parameters and observables do not matter to a DensityProblem", "statement": "If the samples and the domain of a DensityProblem are given in other units and with another zero for each parameter (any positive factor and any offset per parameter), and the values of the observables and the observed distribution in other units for each observable, then every history of calls (with the distributions handed over in the new units) has the same outcomes: each call returns or raises exactly as before, the MUD estimate is the same sample in the new units, the expected ratio and the ratio of densities are the same numbers, and the stored and plotted domain is the old one in the new units. This needs an observed distribution to be set, unless the units of the observables stay the same: the default one is standard normal whatever the units.", "quantifier": "every problem, every number of samples, parameters and observables, every factors and offsets, and every history of calls; for all distributions and density estimates that themselves follow a change of units", "why_tests_cant": "all units, histories and distributions", "anchors": ["src/mud/base.py: DensityProblem", "src/mud/util.py: fit_domain"]}
{"id": "C162", "title": "The units of parameters and observables and the MAP point of a BayesProblem", "statement": "Let a BayesProblem be built from samples X, data y and optionally a domain, and another one from the same quantities in other units: a positive factor and any offset for each parameter and for each datum, the domain converted likewise, and prior and likelihood given in the new units (densities divided by the factors). Then without log=True every history of calls of the public methods returns or raises, call by call, exactly as for the first problem, and each MAP point is the same sample written in the new units. With log=True this fails: fit raises ValueError when the logarithms of the posterior values happen to sum to zero, and whether they do depends on the units, so of two problems that differ by units one gives an estimate and the other an exception.", "quantifier": "all numbers of samples, parameters and data, all samples and data, all positive factors and all offsets, all distributions that follow the change of units, with and without a domain, every history of set_likelihood, set_prior, fit, map_point/estimate and plot calls", "why_tests_cant": "a test fixes one pair of units and one history; the claim ranges over all of them, and the failure with logarithms needs a sum that is zero in one system of units only", "anchors": ["src/mud/base.py: BayesProblem.__init__, set_likelihood, set_prior, fit, map_point, estimate", "src/mud/util.py: fit_domain, set_shape"]}
{"id": "C163", "title": "Adding samples to a BayesProblem", "statement": "Take two sets of samples, each with one row of data per sample, and one domain, prior (or the default one) and likelihood, such that the BayesProblem of each set has an estimate. The problem of all the samples together has as posterior values those of the first set followed by those of the second, and its estimate is one of the two estimates: the second if its posterior value is larger (or NaN, the first being a number), else the first. So a list of samples given twice has the same estimate as given once, and further samples change the estimate only to one of themselves. The only exception is ValueError, when the posterior values of all sum to zero; without logarithms and with densities that are not negative this cannot happen, with log=True it can.", "quantifier": "all finite sets of samples and data of any number of parameters and data, all domains, priors and likelihoods whose densities are computed row by row, with and without log=True, infinite and NaN densities included", "why_tests_cant": "a test fixes two sets of samples; the claim is about every pair, with ties, NaN and infinite densities", "anchors": ["src/mud/base.py: BayesProblem.__init__, set_likelihood, set_prior, fit, map_point, estimate"]}
{"id": "C164", "title": "Adding samples to a DensityProblem with a given predicted distribution", "statement": "Take two sets of samples of one observable, without weights, one domain, initial and observed distributions (or the default ones) and a predicted distribution given to set_predicted, such that the DensityProblem of each set has an estimate and an expected ratio. Then the problem of all the samples together has them too: its updated densities are those of the first set followed by those of the second, its MUD point is one of the two MUD points (the second if its updated density is larger, or NaN while the first is a number, else the first), and its expected ratio is the mean of the two expected ratios weighted by the numbers of samples. In particular a list of samples given twice has the same MUD point and the same expected ratio as given once.", "quantifier": "all finite sets of samples of any number of parameters, all domains and distributions evaluated point by point, infinite and NaN densities included", "why_tests_cant": "a test fixes two sets of samples; the claim is about every pair, with ties, NaN and infinite densities", "anchors": ["src/mud/base.py: DensityProblem.__init__, set_initial, set_observed, set_predicted, fit, mud_point, estimate, expected_ratio"]}
