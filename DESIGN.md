# Formal model of mathematicalmichael/mud in Rocq (Coq 8.16.1)

(This file is written by tools/design.py from properties.jsonl, MANIFEST.json and the model.)

## 1. The model

The model is a hand translation of `/repo/src/mud` (read as text, never run). Every definition
carries a comment with the file and lines it models, and says where it simplifies. All files are
under `rocq/theories/`.

| files | contents |
| --- | --- |
| `Py.v` | Python exceptions (`exn`), results (`res`), indices and slices |
| `Xnum.v` | numbers with `inf` and `nan`, `argmax`/`argmin` with numpy's rule for `nan` |
| `Nd.v` | n-dimensional arrays: shape and row-major data, `reshape` with `-1`, broadcasting |
| `LinAlg.v`, `Dmx.v` | the Moore-Penrose inverse (construction, uniqueness); 2-D arrays with run-time shapes over mathcomp matrices: `@`, broadcasting `+ - *`, `.T`, slices, `inv`, `pinv` |
| `Spec.v` | the small vocabulary theorems are stated with: positive definite, best fit, Mahalanobis distance, ... |
| `LgpModel.v`, `IterModel.v`, `WmeModel.v` | LinearGaussianProblem, norm.py, the linear parts of funs.py; IterativeLinearProblem, iterate, performEpoch; LinearWMEProblem, wme, transform_linear_map/setup |
| `UtilModel.v`, `UtilModel2.v` | util.py |
| `DensityModel.v`, `BayesModel.v` | DensityProblem, BayesProblem |
| `StModel.v` | SpatioTemporalProblem |
| `FunsModel.v`, `PlotModel.v`, `PrepModel.v` | the problem builders of funs.py, plot.py, preprocessing.py |
| `DrawModel.v` | the plotting methods of base.py: what they hand to matplotlib |
| `LinExModel.v`, `PoisModel.v`, `SimpleModel.v`, `StExModel.v` and later `*Model.v` | the examples package |
| `*Proofs.v`, `LgpTheory.v` | lemmas |
| `*Props*.v`, `Tighten.v` | the property theorems, named after the property (`C36_...`) |
| `*Examples.v` | concrete cases that meet the hypotheses of the theorems, and refutations of stronger claims (`..._refuted`) |

**Numbers.** `float64` is modelled by an arbitrary real field (`realFieldType`; `rcfType` where a
square root occurs): exact arithmetic, no rounding, no overflow. Where division by zero and `nan`
really happen (densities, ratios, weights) the model uses `xnum R`: finite, +inf, -inf or nan with
IEEE rules, without signed zeros. `SimpleExamples.v` and `StExExamples.v` instantiate theorems at
the standard library's real numbers.

**Exceptions and state.** Functions that may raise return `res A = Ok a | Err e`. Methods that
change `self` have type `state -> state * res out`, so that what a failing call has already changed
is visible; histories of calls are lists of operations, and invariants are proved by induction
over them. Warnings and log messages are not modelled.

**Oracles.** scipy's distributions and `gaussian_kde`, numpy's and Python's generators (state
machines), `np.linalg.svd`, sklearn's PCA, `erfinv`, `exp`, `log`, `sin`, `cos`, FEniCS, pickled
files, matplotlib's triangulation: each is a universally quantified argument (a section variable,
discharged at the end of the section), and what a theorem needs of it is a hypothesis in its
statement. `np.linalg.inv` is the exact inverse or `LinAlgError`, `np.linalg.pinv` the exact
Moore-Penrose inverse (numpy's cut-off of small singular values is not modelled).

## 2. Trusted base

- Coq 8.16.1's kernel (and the compiler and runtime it is built with); mathcomp, including its
  algebra tactics and mczify, is proved, not trusted.
- `Print Assumptions` for each claimed theorem: `ASSUMPTIONS.md` (written by
  tools/assumptions.py). All but three are "Closed under the global context". The three
  (`C47_log_rejects_usable_refuted`, `C48_failed_likelihood_mixes_refuted`, `C119_real`) are about
  the standard library's real numbers and rest on `ClassicalDedekindReals.sig_forall_dec`,
  `ClassicalDedekindReals.sig_not_dec`, `Classical_Prop.classic`, `Epsilon.epsilon_statement` and
  `FunctionalExtensionality.functional_extensionality_dep`, all of the standard library. No axiom of our
  own, no `Admitted`, no module types or functors, no kernel check switched off.
- That the model is the code: the translation is by hand, checked by reading, by the concrete
  cases (values that can be compared with what the documented examples and the repository's
  tests say) and by mutation testing (section 5).

## 3. What is modelled and what is not

Simplifications that apply throughout: exact arithmetic (above); `dtype`s are only modelled where
the code depends on them (integer samples in fit_domain and the constructors); keyword
dictionaries of plots are not modelled except for their presence; drawing itself, saving of
figures, logging and warnings are not modelled.

| file | function | lines | modelled in |
| --- | --- | --- | --- |
| base | DensityProblem.__init__ | 102-135 | DensityModel.v |
| base | DensityProblem.n_params | 138-139 | DensityModel.v |
| base | DensityProblem.n_features | 142-143 | DensityModel.v |
| base | DensityProblem.n_samples | 146-147 | DensityModel.v |
| base | DensityProblem.set_weights | 149-195 | DensityModel.v |
| base | DensityProblem.set_observed | 197-215 | DensityModel.v |
| base | DensityProblem.set_initial | 217-248 | DensityModel.v |
| base | DensityProblem.set_predicted | 250-309 | DensityModel.v |
| base | DensityProblem.fit | 311-352 | DensityModel.v |
| base | DensityProblem.mud_point | 354-379 | DensityModel.v |
| base | DensityProblem.estimate | 381-395 | DensityModel.v |
| base | DensityProblem.expected_ratio | 397-422 | DensityModel.v |
| base | DensityProblem.plot_param_space | 425-532 | DensityModel.v PoisExModel.v SimpleModel.v |
| base | DensityProblem.plot_obs_space | 534-619 | CompModel.v DensityModel.v |
| base | DensityProblem.plot_qoi | 621-648 | DensityModel.v DrawModel.v |
| base | DensityProblem.plot_params_2d | 650-710 | DensityModel.v DrawModel.v |
| base | BayesProblem.__init__ | 749-774 | BayesModel.v UtilModel.v |
| base | BayesProblem.n_params | 777-778 | BayesModel.v |
| base | BayesProblem.n_features | 781-782 | BayesModel.v |
| base | BayesProblem.n_samples | 785-786 | BayesModel.v |
| base | BayesProblem.set_likelihood | 788-802 | BayesModel.v |
| base | BayesProblem.set_prior | 804-814 | BayesModel.v |
| base | BayesProblem.fit | 816-830 | BayesModel.v |
| base | BayesProblem.map_point | 832-836 | BayesModel.v |
| base | BayesProblem.estimate | 838-839 | BayesModel.v |
| base | BayesProblem.plot_param_space | 842-899 | BayesModel.v CompModel.v |
| base | BayesProblem.plot_obs_space | 901-974 | BayesModel.v CompModel.v |
| base | LinearGaussianProblem.__init__ | 1036-1072 | LgpModel.v |
| base | LinearGaussianProblem.n_params | 1075-1076 | LgpModel.v |
| base | LinearGaussianProblem.n_features | 1079-1080 | LgpModel.v |
| base | LinearGaussianProblem.n_samples | 1083-1084 | LgpModel.v |
| base | LinearGaussianProblem.compute_functionals | 1086-1129 | LgpModel.v |
| base | LinearGaussianProblem.solve | 1131-1180 | LgpModel.v |
| base | LinearGaussianProblem.updated_cov | 1182-1237 | LgpModel.v |
| base | LinearGaussianProblem.plot_sol | 1239-1274 | ContModel.v DrawModel.v |
| base | LinearGaussianProblem.plot_contours | 1276-1315 | ContModel.v DrawModel.v PlotModel.v |
| base | LinearGaussianProblem.plot_fun_contours | 1317-1337 | ContModel.v DrawModel.v |
| base | LinearWMEProblem.__init__ | 1343-1367 | WmeModel.v |
| base | LinearWMEProblem._transform_linear_map | 1369-1420 | WmeModel.v |
| base | IterativeLinearProblem.__init__ | 1424-1444 | IterModel.v LinExModel.v |
| base | IterativeLinearProblem.solve | 1446-1480 | IterModel.v |
| base | IterativeLinearProblem.get_errors | 1482-1490 | IterModel.v |
| base | IterativeLinearProblem.plot_chain | 1492-1511 | DrawModel.v PlotModel.v |
| base | IterativeLinearProblem.plot_chain_error | 1513-1525 | DrawModel.v |
| base | SpatioTemporalProblem.__init__ | 1545-1560 | StModel.v |
| base | SpatioTemporalProblem.n_samples | 1563-1566 | StModel.v |
| base | SpatioTemporalProblem.n_qoi | 1569-1572 | StModel.v |
| base | SpatioTemporalProblem.n_sensors | 1575-1578 | StModel.v |
| base | SpatioTemporalProblem.n_ts | 1581-1584 | StModel.v |
| base | SpatioTemporalProblem.n_params | 1587-1588 | StModel.v |
| base | SpatioTemporalProblem.lam | 1591-1592 | StModel.v |
| base | SpatioTemporalProblem.lam | 1595-1609 | StModel.v |
| base | SpatioTemporalProblem.lam_ref | 1612-1613 | StModel.v |
| base | SpatioTemporalProblem.lam_ref | 1616-1625 | StModel.v |
| base | SpatioTemporalProblem.domain | 1628-1629 | StModel.v |
| base | SpatioTemporalProblem.domain | 1632-1643 | StModel.v |
| base | SpatioTemporalProblem.data | 1646-1647 | StModel.v |
| base | SpatioTemporalProblem.data | 1650-1684 | StModel.v |
| base | SpatioTemporalProblem.measurements | 1687-1688 | StModel.v |
| base | SpatioTemporalProblem.measurements | 1691-1693 | StModel.v |
| base | SpatioTemporalProblem.true_vals | 1696-1697 | StModel.v |
| base | SpatioTemporalProblem.true_vals | 1700-1702 | StModel.v |
| base | SpatioTemporalProblem.sample_dist | 1705-1706 | StModel.v |
| base | SpatioTemporalProblem.sample_dist | 1709-1714 | StModel.v |
| base | SpatioTemporalProblem.get_closest_to_measurements | 1716-1733 | StModel.v |
| base | SpatioTemporalProblem.get_closest_to_true_vals | 1735-1748 | StModel.v |
| base | SpatioTemporalProblem.measurements_from_reference | 1750-1765 | StModel.v |
| base | SpatioTemporalProblem.load | 1767-1825 | CliModel.v StModel.v |
| base | SpatioTemporalProblem.validate | 1827-1842 | StModel.v |
| base | SpatioTemporalProblem.sample_data | 1844-1880 | StModel.v |
| base | SpatioTemporalProblem.sensor_contour_plot | 1882-1904 | StModel.v |
| base | SpatioTemporalProblem.sensor_scatter_plot | 1906-1922 | PoisExModel.v PypModel.v StModel.v |
| base | SpatioTemporalProblem.plot_ts | 1924-1974 | DrawModel.v StModel.v |
| base | SpatioTemporalProblem.mud_problem | 1976-2030 | AdcModel.v StModel.v |
| cli | cli | 12-13 | not modelled: empty command group |
| adcirc | load_adcirc_prob | 23-50 | CliModel.v StExModel.v |
| adcirc | tri_mesh_plot | 53-116 | AdcModel.v |
| adcirc | adcirc_ts_plot | 119-179 | AdcModel.v |
| adcirc | adcirc_time_window | 182-262 | AdcModel.v |
| adcirc | updated_dist_plot | 265-293 | AdcModel.v |
| adcirc | pca_vector_plot | 296-324 | AdcModel.v |
| comparison | comparison_plot | 22-127 | CompModel.v SimpleModel.v |
| comparison | run_comparison_example | 130-229 | CompModel.v PaperModel.v SimpleModel.v |
| examples | print_res | 25-88 | CliModel.v |
| examples | examples | 110-120 | CliModel.v LatexModel.v PaperModel.v |
| examples | comparison | 163-194 | PaperModel.v |
| examples | contours | 215-237 | PaperModel.v |
| examples | wme_covariance | 280-309 | PaperModel.v |
| examples | high_dim_linear | 330-354 | PaperModel.v |
| examples | poisson_solve | 375-402 | CliModel.v |
| examples | poisson_trials | 493-532 | CliModel.v |
| examples | poisson_generate | 645-679 | CliModel.v |
| examples | adcirc_solve | 770-847 | CliModel.v |
| examples | mud_paper | 852-1059 | AllModel.v CliModel.v PaperModel.v |
| exp_decay | exp_decay_1D | 12-37 | StExModel.v |
| exp_decay | exp_decay_2D | 40-70 | StExModel.v |
| fenics | piecewise_eval_from_vector | 30-50 | PoisModel.v |
| fenics | fenics_poisson_solve | 53-143 | FenModel.v (the boundary data only; the solver is an oracle) |
| fenics | run_fenics | 146-202 | CliModel.v StExModel.v |
| linear | random_linear_wme_problem | 23-95 | LinExModel.v |
| linear | random_linear_problem | 98-126 | LinExModel.v |
| linear | noisy_linear_data | 129-165 | LinExModel.v |
| linear | rotation_map | 168-189 | LinExModel.v |
| linear | rotation_map_trials | 192-262 | LinExModel.v |
| linear | call_consistent | 265-284 | ContModel.v |
| linear | call_mismatch | 287-304 | ContModel.v |
| linear | call_tikhonov | 307-324 | ContModel.v |
| linear | call_map | 327-382 | ContModel.v |
| linear | call_mud | 385-435 | ContModel.v |
| linear | call_comparison | 438-510 | ContModel.v |
| linear | run_contours | 513-596 | ContModel.v |
| linear | run_wme_covariance | 599-710 | LinExModel.v LinFigModel.v |
| linear | run_high_dim_linear | 713-875 | LinExModel.v LinFigModel.v |
| poisson | load_poisson_prob | 26-70 | StExModel.v |
| poisson | plot_solution_spline | 73-102 | PoisExModel.v PoisModel.v |
| poisson | spline_objective_function_2d | 105-126 | PoisModel.v |
| poisson | plot_qoi_ex | 129-138 | PoisExModel.v |
| poisson | plot_response_ex | 141-212 | PoisExModel.v |
| poisson | run_2d_poisson_sol | 216-325 | CliModel.v PoisExModel.v |
| poisson | run_2d_poisson_trials | 328-469 | PoisExModel.v |
| simple | polynomial_1D_data | 11-95 | PaperModel.v SimpleModel.v |
| simple | identity_1D_density_prob | 98-126 | SimpleModel.v |
| simple | identity_1D_bayes_prob | 129-148 | SimpleModel.v |
| simple | identity_1D_temporal_prob | 151-194 | StExModel.v |
| funs | wme | 23-47 | WmeModel.v |
| funs | updated_cov | 50-97 | LgpModel.v |
| funs | lin_prob | 100-113 | LgpModel.v |
| funs | mud_sol | 116-125 | LgpModel.v |
| funs | mud_sol_with_cov | 128-138 | LgpModel.v |
| funs | map_sol | 141-147 | LgpModel.v |
| funs | map_sol_with_cov | 150-156 | LgpModel.v |
| funs | iter_lin_solve | 159-185 | IterModel.v |
| funs | performEpoch | 188-203 | IterModel.v |
| funs | iterate | 206-211 | IterModel.v |
| funs | data_prob | 214-255 | FunsModel.v |
| funs | map_problem | 258-278 | FunsModel.v |
| funs | mud_problem | 281-320 | FunsModel.v |
| norm | inner_product | 4-27 | LgpModel.v |
| norm | full_functional | 30-37 | LgpModel.v |
| norm | norm_input | 40-44 | LgpModel.v |
| norm | norm_data | 47-51 | LgpModel.v |
| norm | norm_predicted | 54-60 | LgpModel.v |
| plot | _check_latex | 23-42 | LatexModel.v |
| plot | save_figure | 71-97 | ContModel.v LinFigModel.v PoisExModel.v |
| plot | plotChain | 100-113 | PlotModel.v |
| plot | plot_contours | 116-128 | PlotModel.v |
| plot | make_2d_normal_mesh | 131-136 | PlotModel.v |
| plot | make_2d_unit_mesh | 139-144 | UtilModel2.v |
| plot | plot_1D_vecs | 147-164 | PypModel.v |
| plot | build_nd_mesh_grid | 168-200 | PlotModel.v |
| plot | plot_dist | 203-234 | CompModel.v PlotModel.v |
| plot | plot_vert_line | 237-242 | PypModel.v |
| preprocessing | pca | 21-104 | PrepModel.v StModel.v |
| preprocessing | svd | 107-172 | PrepModel.v |
| util | std_from_equipment | 8-16 | UtilModel2.v |
| util | transform_linear_map | 19-72 | WmeModel.v |
| util | transform_linear_setup | 75-85 | WmeModel.v |
| util | null_space | 88-143 | UtilModel2.v |
| util | make_2d_unit_mesh | 146-183 | UtilModel2.v |
| util | add_noise | 186-226 | UtilModel2.v |
| util | rank_decomposition | 229-240 | UtilModel2.v |
| util | fit_domain | 243-284 | UtilModel.v UtilModel2.v |
| util | set_shape | 287-289 | UtilModel.v |


## 4. Properties: what is modelled and how it is proved

All properties are about the model named in the table above for the functions anchored in
properties.jsonl. Properties that turned out to be false of the code are restated as exact
characterisations of what the code does; the counterexamples are the `_refuted` theorems.

- **C01** MUD solution reproduces the data. *P = A (alpha C) A^T is invertible for full row rank and positive definite C; then algebra.* (`LinProps.v`)
- **C02** MUD solution is a best fit in every rank. *P P^+ is the orthogonal projector on the range of A (Penrose equations); Pythagoras.* (`LinProps.v`)
- **C03** MUD point is the closest best fit to the initial mean. *mud - mean lies in the range of C A^T, orthogonal to ker A for C^-1; uniqueness from positive definiteness.* (`LinProps.v`)
- **C04** MUD point ignores alpha and the observation covariance. *pinv (c M) = c^-1 pinv M by uniqueness of the Moore-Penrose inverse.* (`LinProps.v`)
- **C05** A mean that already explains the data is returned unchanged. *The residual is 0.* (`LinProps.v`)
- **C06** When the two MUD formulas agree. *Exact condition by comparing both closed forms; a concrete disagreement (2x1, correlated cov_o).* (`LinExamples.v`, `LinProps.v`, `LinProps4.v`; exact condition; the _refuted theorem is the concrete disagreement)
- **C07** Updated covariance pushes forward to the data covariance. *A K = P P^-1 = 1.* (`LinProps.v`)
- **C08** Updated covariance is a covariance. *up = (C - K P K^T) + K R K^T; the first term is a Schur complement.* (`LinProps.v`)
- **C09** Updated covariance equals its documented formula. *Multiply out; uniqueness of inverses.* (`LinProps.v`)
- **C10** MAP point minimises the Bayesian functional. *Completion of squares with H = A^T R^-1 A + (alpha C)^-1 positive definite.* (`LinProps.v`)
- **C11** Posterior covariance contracts the prior. *Woodbury identity.* (`LinProps.v`)
- **C12** Least-squares solution is the minimum-norm best fit. *Penrose equations.* (`LinProps.v`)
- **C13** MUD reduces to least squares for the standard prior. *Both closed forms; uniqueness of the pseudo-inverse.* (`LinProps.v`)
- **C14** Invertible maps are inverted exactly. *Cancellation of the inverse.* (`LinProps.v`)
- **C15** solve('all') agrees with the individual solves. *Symbolic execution of the four branches of solve; comparison of all attributes.* (`LinProps.v`, `Tighten.v`)
- **C16** output_dim solves the truncated problem. *Slices commute with the formulas; exact error cases.* (`LinProps2.v`)
- **C17** What the data-consistent functional measures. *Closed form of compute_functionals for one observation; decomposition into squares; concrete counterexample to the naive claim.* (`LinExamples.v`, `LinProps2.v`, `LinProps4.v`; one observation; several observations are C74)
- **C18** What the Bayes functional measures. *As C17.* (`LinExamples.v`, `LinProps2.v`, `LinProps4.v`; one observation; several observations are C74)
- **C19** compute_functionals terms are mutually consistent. *Symbolic execution for every value of terms.* (`LinProps2.v`)
- **C20** norm.full_functional vanishes exactly at the data-consistent point. *Decomposition of the functional into two squares.* (`LinProps2.v`)
- **C21** Constructor validates data length. *Case analysis on shapes.* (`LinProps3.v`)
- **C22** What solve('mud') accepts. *Exact acceptance condition through broadcasting; concrete surprising acceptances.* (`LinExamples.v`, `LinProps3.v`)
- **C23** Equivariance under parameter coordinates. *Uniqueness of the minimiser, transported along the coordinate change.* (`LinProps2.v`)
- **C24** Invariance under data coordinates. *Penrose uniqueness under an invertible row operation.* (`LinProps2.v`)
- **C25** Transformed linear map is the weighted mean error. *Sums over lists; entrywise.* (`WmeProps.v`)
- **C26** Repeated observations: short and long form agree. *Sums of constant lists.* (`WmeProps.v`)
- **C27** Which standard deviations are accepted. *Case analysis; a negative deviation with several rows is accepted (exact condition).* (`WmeProps.v`)
- **C28** Multi-QoI setup uses the quantities of interest in order. *Induction on the lists (zip truncates).* (`WmeProps2.v`; operators with at least one row)
- **C29** wme is the scaled mean residual. *Sums; permutation invariance by big-operator reindexing.* (`WmeProps2.v`)
- **C30** Column-shaped data are not treated as the flat list. *Broadcasting of a column against a row, entrywise.* (`WmeProps2.v`)
- **C31** Each epoch step satisfies its own equation. *Induction on the schedule.* (`IterProps.v`)
- **C32** Iteration never moves away from a solution. *Orthogonal projection, Pythagoras, induction over the chain.* (`IterProps.v`)
- **C33** Chain bookkeeping. *Induction over epochs and steps.* (`IterProps.v`, `Tighten.v`)
- **C34** IterativeLinearProblem.solve cannot produce a solution. *Every call with work to do raises TypeError (keyword not accepted); exact state left behind.* (`IterProps2.v`)
- **C35** Which reference get_errors answers for. *Invariant over histories of calls: the first reference is answered for ever.* (`IterProps2.v`, `Tighten2.v`)
- **C36** MUD point is a sample of maximal updated density. *First-argmax lemma over numbers with inf and nan; invariant over histories.* (`DensityProps2.v`)
- **C37** Which distributions an estimate uses. *Invariant over histories of returning calls; concrete stale estimate.* (`DensityExamples.v`, `DensityProps.v`, `DensityProps2.v`; histories of returning calls; failing calls are C38, C84)
- **C38** Cache invariant of DensityProblem. *Invariant over all histories, including failing calls.* (`DensityProps2.v`)
- **C39** Weights are the per-sample product. *Induction over the list of weights; normalisation.* (`DensityProps3.v`)
- **C40** Estimates ignore the scale of the weights. *argmax is invariant under positive scaling.* (`DensityProps3.v`)
- **C41** Expected ratio is a weighted mean. *Bounds of a weighted mean.* (`DensityProps2.v`)
- **C42** An undefined density value wins. *argmax with numpy's nan rule.* (`DensityExamples.v`, `DensityProps2.v`)
- **C43** Constructor contract of DensityProblem. *Case analysis on shapes; exact errors.* (`DensityProps3.v`)
- **C44** Plotting widens the stored domain. *Exact growth law by induction over plots.* (`DensityExamples.v`, `DensityProps3.v`, `DensityProps4.v`)
- **C45** MAP point is a sample of maximal posterior. *First-argmax lemma; product of likelihood columns.* (`BayesProps.v`)
- **C46** Log and plain likelihood give the same MAP point. *log oracle with monotone and multiplicative hypotheses; sums of logarithms.* (`BayesProps.v`)
- **C47** Which posteriors fit rejects. *Sum is 0 or nan: exact condition; concrete usable posterior that is rejected in log mode.* (`BayesExamples.v`, `BayesProps2.v`; the log-mode rejection condition is C46_log_mode)
- **C48** Which distributions the Bayes estimate uses. *Invariant over histories; failed likelihood mixes modes (concrete).* (`BayesExamples.v`, `BayesProps.v`, `Tighten.v`)
- **C49** fit_domain bounds the samples. *Minima and maxima of columns; padding.* (`UtilProps.v`)
- **C50** fit_domain overwrites the bounds it is given. *The mutated argument is part of the result (aliasing).* (`Tighten3.v`, `UtilExamples.v`, `UtilProps.v`)
- **C51** Unit mesh enumerates the grid. *Index arithmetic (division and remainder).* (`UtilProps2.v`)
- **C52** Noise is reproducible and sized. *Generator as a state machine.* (`Tighten3.v`, `UtilProps2.v`)
- **C53** null_space returns a basis of the kernel. *SVD equations as hypotheses; rank arguments.* (`UtilExamples.v`, `UtilProps3.v`)
- **C54** What rank_decomposition returns. *Exact formula (induction over the ranks).* (`UtilExamples.v`, `UtilProps3.v`)
- **C55** std_from_equipment inverts the normal coverage. *Algebra with an arbitrary inverse error function.* (`UtilProps.v`)
- **C56** Parameter samples and domain of SpatioTemporalProblem. *Invariant over histories of setter calls; exact acceptance of domains and samples.* (`StExamples.v`, `StProps.v`)
- **C57** Reference parameter inside the domain. *Induction over entries; concrete stale reference.* (`StExamples.v`, `StProps2.v`)
- **C58** Data width equals sensors x times. *Invariant over histories.* (`StProps2.v`, `Tighten2.v`)
- **C59** Sub-sampling selects the right entries. *Index arithmetic of reshapes and masks.* (`StProps3.v`, `Tighten.v`)
- **C60** Closest sample is closest. *First argmin.* (`StProps3.v`, `Tighten3.v`)
- **C61** Loading assigns the fields in a fixed order. *Symbolic execution of the list of setter calls; counterexample for renamed fields.* (`StExamples.v`, `StProps4.v`)
- **C62** mud_problem with method wme builds a scaled error map. *Entrywise formula of the QoI (divided by the root of the number of samples, not of data).* (`StExamples.v`, `StProps4.v`, `StProps5.v`)
- **C63** Unknown QoI method never builds a problem. *Symbolic execution: UnboundLocalError, never a problem.* (`StProps5.v`)
- **C64** data_prob needs every optional argument. *Exact errors for every subset of the optional arguments.* (`FunsProps2.v`)
- **C65** num_obs restricts the data used. *Non-interference: results depend only on the first num_obs data.* (`FunsExamples.v`, `FunsProps.v`)
- **C66** plot_dist draws a unit-area curve on the product grid, of a determined parameter. *Riemann sums of an arbitrary density on the product grid; which axis is summed out.* (`PlotExamples.v`, `PlotProps.v`, `PlotProps2.v`; the density is an arbitrary function; drawing itself is not modelled)
- **C67** pca and svd reject non-2D data and decompose standardised columns. *Case analysis; columns standardised over a real closed field.* (`PrepProps.v`; relative to arbitrary decompositions; StandardScaler modelled exactly over a real closed field)
- **C68** The functional wrappers return the solutions of the problem object. *Each wrapper unfolded against solve.* (`LinProps3.v`)
- **C69** solve never changes the inputs. *Frame conditions over all methods.* (`LinProps3.v`)
- **C70** Energy balance of the iteration. *Telescoping Pythagoras over the chain.* (`IterProps3.v`)
- **C71** Where the iteration stops is the direct solution. *A fixed point of an epoch solves all equations and is the projection of the start (the direct solution).* (`IterProps3.v`)
- **C72** A chain returns to its start only if it started at a solution. *Equality case of C70.* (`IterProps3.v`)
- **C73** Orthogonal rows are solved in one epoch. *Orthogonal projections commute.* (`IterProps3.v`)
- **C74** compute_functionals with several observations. *Broadcasting of the m x m Gram table; exact shapes and errors.* (`LinProps4.v`)
- **C75** solve('mud') is idempotent. *C05 applied to the solution.* (`LinProps5.v`)
- **C76** Posterior covariance never exceeds the updated covariance. *Loewner order; difference is a sum of congruences.* (`LinProps5.v`)
- **C77** alpha interpolates between mean and MUD point. *Closed form for one observation.* (`LinProps5.v`)
- **C78** alpha trades data fit against prior distance monotonically. *Two-point optimality argument.* (`LinProps5.v`)
- **C79** Sequential MAP updates equal the joint one. *Precision matrices add; completion of squares.* (`LinProps5.v`)
- **C80** updated_cov: neutral and monotone in data_cov. *Congruence; Loewner order.* (`LinProps5.v`)
- **C81** MAP is invariant under data coordinates. *Invertible row operation.* (`LinProps5.v`)
- **C82** A given predicted distribution must have one observable. *Case analysis on what scipy evaluates to.* (`DensityProps4.v`)
- **C83** One-dimensional X is a single sample. *Shapes of the constructor.* (`DensityExamples.v`, `DensityProps4.v`)
- **C84** What failing setters leave behind. *State component of failing calls.* (`DensityProps2.v`)
- **C85** Densities need not be normalised. *Ratio is scaled by a positive constant; argmax.* (`DensityProps4.v`)
- **C86** set_initial and set_weights discard a given predicted distribution. *State component of the setters.* (`DensityProps4.v`)
- **C87** Plots before their distribution is set. *Symbolic execution: which exception.* (`DensityProps4.v`)
- **C88** A flat prior gives the maximum likelihood point. *Positive constant factor.* (`BayesProps2.v`)
- **C89** Numbers of samples in a BayesProblem. *Case analysis on shapes.* (`BayesProps2.v`, `Tighten2.v`)
- **C90** Frame conditions of BayesProblem. *State component of the setters.* (`BayesProps2.v`)
- **C91** validate reports missing parts. *Symbolic execution.* (`StProps4.v`)
- **C92** PCA and SVD QoI maps are projections of the residuals. *Entrywise formula relative to the decomposition.* (`StProps5.v`; relative to the decompositions sklearn and numpy return (arbitrary))
- **C93** data_weights multiply samples, not data points. *Entrywise formula (broadcasting a column).* (`StProps5.v`)
- **C94** measurements_from_reference adds scaled noise to the reference. *Entrywise formula over the generator machine.* (`StProps5.v`)
- **C95** sample_weights reach the density problem unchanged. *Symbolic execution.* (`StProps5.v`)
- **C96** split builds one QoI per group of observations. *Entrywise formula of the grouped QoI.* (`FunsProps.v`)
- **C97** plot_contours draws a line per selected row, on the contour only for equal coordinates. *Line equation against the row; exact condition on the reference point.* (`PlotExamples.v`, `PlotProps3.v`; scipy's null_space is an oracle with the contract in the hypotheses)
- **C98** map_problem builds a Gaussian-likelihood Bayes problem. *Symbolic execution.* (`FunsProps.v`; the scipy normal distribution is an arbitrary function of location and scale)
- **C99** make_2d_normal_mesh is the symmetric grid on [-w, w]^2. *Index arithmetic.* (`PlotProps3.v`)
- **C100** plotChain joins consecutive points. *Induction over the chain.* (`PlotProps3.v`)
- **C101** pca and svd do not depend on units. *Standardisation is invariant under affine changes of units.* (`PrepProps.v`)
- **C102** updated_cov checks its covariance arguments. *Exact acceptance condition.* (`LinProps6.v`; added after mutation L09 survived)
- **C103** random_linear_problem generates a solvable, reproducible problem. *Generator machine; row rank of the produced operator by construction.* (`LinExProps2.v`; numpy's generator is arbitrary; rand returns n numbers in [0,1))
- **C104** More data rows never make noiseless MUD or least squares worse. *Nested best-fit sets and projections.* (`LinExProps.v`)
- **C105** run_high_dim_linear: square problems only, and what its dimension errors are. *Induction over dimensions, with C104.* (`LinExProps4.v`; the SVD is an oracle; only its number of values matters here)
- **C106** run_high_dim_linear: what its rank errors are. *Truncated SVD as nested projections; monotone errors.* (`LinExProps5.v`; for an exact SVD)
- **C107** noisy_linear_data adds one deviation per datum to the predictions. *Symbolic execution over the generator.* (`LinExProps6.v`, `Tighten3.v`)
- **C108** random_linear_wme_problem: which operators and data it generates. *Symbolic execution; shapes.* (`LinExProps6.v`, `Tighten3.v`)
- **C109** LinearWMEProblem: the MUD point minimises the weighted mean errors. *C02, C25 combined.* (`LinExProps7.v`)
- **C110** LinearWMEProblem: repeated observations shrink the updated covariance as 1/N. *C07, C26 combined; scaling of covariances.* (`LinExProps7.v`)
- **C111** rotation_map and its trials. *Algebra with sin^2 + cos^2 = 1; invertibility of two non-parallel rows.* (`LinExProps8.v`; sin, cos, pi and std_from_equipment are arbitrary functions (sin^2+cos^2=1 for the unit rows))
- **C112** run_wme_covariance: what the returned covariances and problem are. *Induction over the list of numbers of data.* (`LinExProps9.v`; The generator is arbitrary with rand(n) giving n numbers of [0,1). The figure: C142.)
- **C113** piecewise_eval_from_vector: the boundary expression is the linear interpolant of the given values. *Sum of hat functions: exactly one term is active at a point.* (`PoisProps.v`; the value of the expression; its text and FEniCS's parser are not modelled)
- **C114** The spline plot_solution_spline draws and the boundary data the solver uses agree except on the last segment. *As C113, compared with the drawn polygon.* (`PoisProps.v`)
- **C115** spline_objective_function_2d: value, convexity and minimisers. *Convexity of a Euclidean norm of an affine map; strict for three or more inner points.* (`PoisProps.v`; scipy.interpolate.interp1d is modelled (linear, searchsorted); scipy.optimize.minimize is not)
- **C116** polynomial_1D_data: what it returns, and that sigma is not the standard deviation of the data. *Symbolic execution; spread of the draws.* (`SimpleProps.v`; p is a natural number; the generators are arbitrary)
- **C117** identity_1D_density_prob: updated density and MUD point. *Exact normal/uniform densities with an abstract exponential; argmax is the closest sample.* (`SimpleProps.v`; exp is an arbitrary positive increasing function with exp(x+y) = exp(x) exp(y); SimpleExamples.v shows that the real exponential function is one)
- **C118** identity_1D_bayes_prob: MAP point. *Sum of squares of residuals; closest sample to the mean of the data.* (`SimpleProps.v`; as C117)
- **C119** MUD and MAP estimate agree on the identity map. *C117 and C118 pick the same sample.* (`SimpleExamples.v`, `SimpleProps.v`; C119_real is over the standard library's real numbers)
- **C120** run_comparison_example: the problems it returns. *Induction over the list of numbers of data; state of the problems after plotting.* (`SimpleProps.v`; gaussian_kde is an oracle; what is drawn is not modelled here (see C66 and C40), and drawing does not raise)
- **C121** The temporal examples: what exp_decay_1D returns, and that the other two never return. *Entrywise formulas; counting the times below the end; symbolic execution of the failing calls.* (`StExProps.v`; exp is an arbitrary (for C121_recovers injective) function and rounding up any function with ceil x - 1 < x <= ceil x; StExExamples.v shows that the reals' are such)
- **C122** load_poisson_prob and load_adcirc_prob: what is loaded, and that std_dev is ignored. *Symbolic execution of load (C61) and of the noise (C94); composition with run_fenics.* (`StExProps.v`; the file and FEniCS's solution are oracles)
- **C123** plot_params_2d and plot_qoi: which columns are drawn. *Columns by index arithmetic; exact errors by case analysis.* (`DrawExamples.v`, `DrawProps.v`; what is handed to matplotlib; triangulation is an oracle)
- **C124** LinearGaussianProblem.plot_sol draws the first two entries of the solution. *Symbolic execution on top of solve.* (`DrawProps2.v`; what is handed to matplotlib)
- **C125** The contour lines of a linear problem; the default options and plot_chain never work. *Reduction to C97; symbolic execution of the failing calls.* (`DrawProps2.v`, `Tighten2.v`; what is handed to matplotlib; the property names of a line are a list in the model; scipy's null_space is an oracle)
- **C126** plot_fun_contours draws the functionals on a grid, for one observation only. *Index arithmetic of the mesh (C51) and the closed forms of C17, C18, C74.* (`DrawProps3.v`; what is handed to matplotlib)
- **C127** plot_ts draws the first max_plot selected samples, not random ones. *Reduction to C59.* (`DrawProps3.v`; what is handed to matplotlib; times have one column)
- **C128** run_fenics: the data set it generates. *Symbolic execution; index arithmetic of row-major draws.* (`FenProps.v`; FEniCS's solutions are oracles)
- **C129** The boundary data of the Poisson problem: what gamma means, and that no parameters reproduce it. *12500 - 7^7 x^2 (1-x)^5 = (7x-2)^2 q(x) with q positive on [0,1] (Bernstein form); C113 near 1.* (`FenProps.v`; the expressions' values; FEniCS is not modelled)
- **C130** run_contours: which figures are drawn, what they show and where they are saved. *Symbolic execution of the list of figures; C124-C126 for their content; closed forms for the sum map.* (`ContProps.v`, `ContProps2.v`; what is handed to matplotlib; scipy's null_space is an oracle; the directory to save to exists)
- **C131** run_2d_poisson_trials: each trial solves the problem of the first N sensors in the chosen order, independently of the others. *Symbolic execution of plot_param_space twice per axes (5% twice is 10.5%); induction over N_vals; stable sorting; C92 for the problem; decimal notation is injective.* (`PoisExProps.v`, `PoisExProps2.v`; what is handed to matplotlib; PCA, KDE, scipy's minimize and the generators are oracles; y limits not modelled)
- **C132** run_2d_poisson_sol: the figures drawn, the problem returned, and what the seed does not fix. *Symbolic execution; slices of the order; a concrete run for the dependence on the generator.* (`PoisExExamples.v`, `PoisExProps3.v`; what is handed to matplotlib; density figures with their default options; PCA, KDE, triangulation, minimize and the generators are oracles)
- **C133** adcirc_time_window: which times count, what is drawn and what is returned. *Symbolic execution; induction over the parameters (the n-th widening is ((11/10)^n - 1)/2); C92 for the problem, C127 for the curves.* (`AdcProps.v`, `AdcProps2.v`, `AdcProps3.v`; what is handed to matplotlib; dates are numbers (pandas' parsing and PCA, KDE are oracles); y limits not modelled)
- **C134** ADCIRC figures: the files of the windows, the full time series and the mesh. *Decimal notation is injective and has no underscore; closed forms of the loops.* (`AdcExamples.v`, `AdcProps4.v`, `Tighten2.v`; what is handed to matplotlib; parsing of dates and triangulation are oracles)
- **C135** print_res: which rows a table has. *Induction over the records.* (`CliProps.v`; the table's columns and rows; the layout by PrettyTable and re.search are oracles)
- **C136** poisson_solve and poisson_trials commands. *Unfolding the commands; C131 for the trials; sorting is determined by the multiset.* (`CliProps.v`; PCA, KDE, minimize and the generators are oracles; y limits and click's parsing not modelled)
- **C137** adcirc_solve command: the windows. *Induction over the windows with the invariant that only the stored components change; C133 and C134 for one window.* (`CliProps2.v`; PCA, KDE, date parsing, literal_eval and the generators are oracles)
- **C138** poisson_generate and the Poisson data of mud_paper. *Decimal notation is injective and has no underscore; a finite map of files; case analysis of the runs.* (`CliProps3.v`, `CliProps4.v`; files are a finite map from paths; the solver, the download and the generators are oracles)
- **C139** What DensityProblem.plot_obs_space draws. *C66 for each curve on the grid of the range; case analysis of the options.* (`CompProps.v`; pdf and kernel density estimates are oracles; colours and line styles not modelled)
- **C140** What the plotting methods of BayesProblem draw. *As C139; estimates are idempotent (C90); sums over slices of the grid (C66); shapes that do not broadcast.* (`CompProps.v`, `CompProps3.v`; pdf and kernel density estimates are oracles; colours and line styles not modelled)
- **C141** The figures of run_comparison_example. *The state after solving (C116, C120), C139 and C140 for the curves; induction over the list; decimal notation is injective.* (`CompProps2.v`, `CompProps3.v`; kernel density estimates, exponential function and draws are oracles; fonts, ticks and axis labels not modelled)
- **C142** The figure of run_wme_covariance. *The singular values of a positive semidefinite matrix are its eigenvalues; Courant-Fischer by counting dimensions, with the subspaces that C112 gives; arithmetic of rounding.* (`LinFigExamples.v`, `LinFigProps.v`; svdvals is an argument, assumed right (U = V diag(s) W, V and W orthogonal, s decreasing and >= 0) on the updated covariances of the run. C142_labels_distinct_refuted: two numbers with one label.)
- **C143** The figures of run_high_dim_linear. *The lists of artists computed from the arrays of C105 and C106.* (`LinFigProps.v`; The legend texts are given to the lines in the order they are drawn (matplotlib). The decomposition used by rank_decomposition is an argument with as many numbers as it should.)
- **C144** Figures 1 to 6 of mud_paper. *The run as a list of stages with the generator threaded through; file names by the theorems of each figure (C130, C141, C142, C143); the disk as a dictionary, last write wins; C144_total from C120_returns and C141_figures.* (`PaperProps2.v`, `PaperProps3.v`, `PaperProps4.v`; generator, kernel density estimates, null_space and svd are oracles; directories can be made. C144_total: the generator gives numbers in [0, 1), the exponential function is positive, increasing and turns sums into products.)
- **C145** The commands comparison, contours, wme_covariance and high_dim_linear, and the global generator. *Induction over the list of N with the generator; each command unfolded after restarting the generator.* (`PaperProps.v`, `PaperProps3.v`; the domain of comparison is of integers (click's type for the default); the json file of contours, if any, can be read.)
- **C146** plot_chain_error draws the errors of the first reference point. *From the theorems about get_errors (C35).* (`PypProps.v`; the scale of the axis and its texts are not modelled)
- **C147** Which Axes plot_1D_vecs and sensor_scatter_plot draw on; plot_vert_line. *Induction over the vectors; pyplot as a list of Axes with a current one.* (`PypProps.v`; pyplot modelled as a list of Axes and a current one; no further keyword arguments, so no colour bar)
- **C148** The ADCIRC figures of mud_paper. *The list of steps cut at the first exception; each window alone by C133 (a solved problem does not change the next); decimal notation is injective.* (`AllProps.v`, `AllProps2.v`; save_path given; pickles are a dictionary from paths to data sets; download, mesh triangulation, dates and PCA are oracles)
- **C149** The whole of mud_paper. *The parts (C144, C138, C148) composed with both generators and the disk threaded through; what a seed fixes by case analysis of each part.* (`AllProps2.v`, `AllProps3.v`; as C144, C138 and C148. C149_fenics_refuted: with FEniCS and without data the command cannot complete. C149_met: a complete run over the real numbers.)
- **C150** What DensityProblem.plot_param_space draws. *The call unfolded with the range chosen first; each curve by C66 (the curve drawn for a density); metamorphic for the weights.* (`ParamProps.v`; The kernel density estimate, d.pdf and its call at grid points are arguments. C150_draws gives the whole result, marks and problem; C150_before_fit says that with other weights the same is drawn; C150_refines ties the model with marks to the one of the histories of C37, C38, C42 and C44. ylim and style options are not modelled.)
- **C151** The estimates of a DensityProblem do not depend on the order of the samples. *order_free says what is assumed of the distributions; a simulation between the problem and the reordered one, call by call; the estimate from the specification of argmax* (`OrderProps.v`; hypothesis order_free: the pdf and KDE oracles are row-wise and indifferent to the order of the data (met in OrderExamples.v); weights are given for the n samples, and an explicit predicted distribution only for one observable; exact arithmetic, so sums do not depend on the order of summation)
- **C152** The estimates of a BayesProblem do not depend on the order of the samples. *as C151: a simulation between the problem and the reordered one; argmax by its specification* (`OrderProps2.v`; hypothesis row_wise: pdf and logpdf are computed row by row (met in OrderExamples.v); X and y have the same number of rows; exact arithmetic)
- **C153** What a DensityProblem does with samples of weight zero. *C36, C37 and C41 (the exact estimate and ratio of a history) with IEEE rules for zero times a number or infinity* (`ZeroExamples.v`, `ZeroProps.v`; exact arithmetic with infinities and NaN; C153_zero_weight_estimated_refuted is a concrete history in which the sample of weight zero is the estimate)
- **C154** What importing mud.plot does to matplotlib and the working directory. *the try/except/finally unfolded step by step; dictionaries of settings as lists, looked up from the end* (`LatexExamples.v`, `LatexProps.v`; what plot, savefig and unlink do is an oracle, reading settings, figures and files only (C154_outcome); the finally clause is taken not to raise; logging is left out. The two refuted theorems show that the import closes the user's figures and deletes a user's .test_fig.png.)
- **C155** The command group examples prepares the directory, then the generator. *case analysis of mkdir and the seed* (`LatexProps.v`; permissions are not modelled; what np.random.seed does is an oracle)
- **C156** The order of data and parameters of a LinearGaussianProblem does not matter. *pseudo-inverse, inverse and every step of solve transported along orthogonal matrices; permutation matrices are orthogonal* (`RotProps.v`; output_dim left at its default (a truncated problem depends on which data come first); exact arithmetic; cov_i and cov_o are square of the right size. C156_example is a map of rank one.)
- **C157** The order of observations and of quantities of interest does not matter to LinearWMEProblem. *sums over a permuted index list; vstack row by row; then C156 with the identity on parameters* (`WmeOrderProps.v`; one row per datum or a single row, and as many deviations as data when they are a list; all operators have the same number of columns; exact arithmetic)
- **C158** The order in which sensors, times and samples are picked does not matter to mud_problem with method wme. *the residuals of C62 summed over permuted index lists; C151 for the constructor* (`StOrderProps.v`; measurements and std_dev are set and something is picked (otherwise C59, C62); float arrays; exact arithmetic. The problem is otherwise any that the setters accept (setup))
- **C159** The solutions of a linear problem are linear in data, offset and mean. *the closed forms of the four solutions (gain times residual) rearranged* (`LinearityProps.v`; output_dim left at its default; exact arithmetic; C159_example: map, two parameters, one datum)
- **C160** Only the ratio of the two covariances matters to the solutions of a linear problem. *the closed forms with c cov_i and c cov_o; pseudo-inverse and inverse of a multiple* (`LinearityProps.v`; output_dim left at its default; exact arithmetic; the covariances need not be regular. C160_example multiplies by four.)
- **C161** The units of parameters and observables do not matter to a DensityProblem. *simulation between the problem and the converted one; minima, maxima and padding commute with increasing affine maps, the two factors of the observables cancel in the ratio* (`UnitsProps.v`; float arrays with two dimensions; a predicted distribution is given only for one observable (as C82); exact arithmetic; distributions are oracles that follow the change of units (change_of_units), as do the uniform distribution and the kernel density estimate; what the plots draw raises alike in both units. bx_change: boxes satisfy all of this; C161_example: two samples, a run to the end)
- **C162** The units of parameters and observables and the MAP point of a BayesProblem. *simulation as for C161; the factors of prior and likelihood leave the sum nonzero and the first maximum in place* (`UnitsProps2.v`; likelihoods without logarithms; float arrays with two dimensions; exact arithmetic; distributions are oracles that follow the change of units (bchange_of_units), as does the uniform prior; what the plots draw raises alike in both units. bb_change: boxes satisfy all of this; C162_example: two samples, a run to the end. C162_log_refuted: with log=True the statement fails.)
- **C163** Adding samples to a BayesProblem. *a run written as a sequence of steps, each of which commutes with concatenation; argmax of a concatenation* (`MoreProps.v`; pdf and logpdf are computed row by row (by_rows, met by en_by_rows); matrices with one row of data per sample; the same domain, prior and likelihood for both sets; exact arithmetic. C163_example: the second of two samples wins. C163_log_refuted: with log=True the estimate of all the samples may be undefined.)
- **C164** Adding samples to a DensityProblem with a given predicted distribution. *as C163; the mean of a concatenation* (`MoreProps2.v`; the predicted distribution is given (with the kernel density estimate every sample changes the densities of all), one observable, no weights; distributions are evaluated point by point (by_point, met by ed_by_point); the same domain and distributions for both sets; exact arithmetic with infinities and NaN. C164_example: the second of two samples wins.)

## 5. Wrong programs

`seeded/mutations.py` lists realistic edits of the model; `seeded/mutate.py` applies each to a
scratch copy, rebuilds, and records in `seeded/LOG.jsonl` which claimed theorems fail. An edit
after which no theorem fails although a claim became false led to a tighter theorem (the ids with
suffix `b` are the re-runs).
