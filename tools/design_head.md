# Formal model of mathematicalmichael/mud in Rocq (Coq 8.16.1)

(This file is written by tools/design.py from properties.jsonl, MANIFEST.json and the model.)

## 1. The model

The model is a hand translation of `/repo/src/mud` (read as text, never run). Every definition
carries a comment with the file and lines it models, and says where it simplifies. All files are
under `rocq/theories/`.

| files | contents |
| --- | --- |
| `Py.v` | Python exceptions (`exn`), results (`res`), indices and slices |
| `Xnum.v` | numbers with `inf` and `nan`, `argmax`/`argmin` with numpy's rule for `nan` |
| `Nd.v` | n-dimensional arrays: shape and row-major data, `reshape` with `-1`, broadcasting |
| `LinAlg.v`, `Dmx.v` | the Moore-Penrose inverse (construction, uniqueness); 2-D arrays with run-time shapes over mathcomp matrices: `@`, broadcasting `+ - *`, `.T`, slices, `inv`, `pinv` |
| `Spec.v` | the small vocabulary theorems are stated with: positive definite, best fit, Mahalanobis distance, ... |
| `LgpModel.v`, `IterModel.v`, `WmeModel.v` | LinearGaussianProblem, norm.py, the linear parts of funs.py; IterativeLinearProblem, iterate, performEpoch; LinearWMEProblem, wme, transform_linear_map/setup |
| `UtilModel.v`, `UtilModel2.v` | util.py |
| `DensityModel.v`, `BayesModel.v` | DensityProblem, BayesProblem |
| `StModel.v` | SpatioTemporalProblem |
| `FunsModel.v`, `PlotModel.v`, `PrepModel.v` | the problem builders of funs.py, plot.py, preprocessing.py |
| `DrawModel.v` | the plotting methods of base.py: what they hand to matplotlib |
| `LinExModel.v`, `PoisModel.v`, `SimpleModel.v`, `StExModel.v` and later `*Model.v` | the examples package |
| `*Proofs.v`, `LgpTheory.v` | lemmas |
| `*Props*.v`, `Tighten.v` | the property theorems, named after the property (`C36_...`) |
| `*Examples.v` | concrete cases that meet the hypotheses of the theorems, and refutations of stronger claims (`..._refuted`) |

**Numbers.** `float64` is modelled by an arbitrary real field (`realFieldType`; `rcfType` where a
square root occurs): exact arithmetic, no rounding, no overflow. Where division by zero and `nan`
really happen (densities, ratios, weights) the model uses `xnum R`: finite, +inf, -inf or nan with
IEEE rules, without signed zeros. `SimpleExamples.v` and `StExExamples.v` instantiate theorems at
the standard library's real numbers.

**Exceptions and state.** Functions that may raise return `res A = Ok a | Err e`. Methods that
change `self` have type `state -> state * res out`, so that what a failing call has already changed
is visible; histories of calls are lists of operations, and invariants are proved by induction
over them. Warnings and log messages are not modelled.

**Oracles.** scipy's distributions and `gaussian_kde`, numpy's and Python's generators (state
machines), `np.linalg.svd`, sklearn's PCA, `erfinv`, `exp`, `log`, `sin`, `cos`, FEniCS, pickled
files, matplotlib's triangulation: each is a universally quantified argument (a section variable,
discharged at the end of the section), and what a theorem needs of it is a hypothesis in its
statement. `np.linalg.inv` is the exact inverse or `LinAlgError`, `np.linalg.pinv` the exact
Moore-Penrose inverse (numpy's cut-off of small singular values is not modelled).

## 2. Trusted base

- Coq 8.16.1's kernel (and the compiler and runtime it is built with); mathcomp, including its
  algebra tactics and mczify, is proved, not trusted.
- `Print Assumptions` for each claimed theorem: `ASSUMPTIONS.md` (written by
  tools/assumptions.py). All but three are "Closed under the global context". The three
  (`C47_log_rejects_usable_refuted`, `C48_failed_likelihood_mixes_refuted`, `C119_real`) are about
  the standard library's real numbers and rest on `ClassicalDedekindReals.sig_forall_dec`,
  `ClassicalDedekindReals.sig_not_dec`, `Classical_Prop.classic`, `Epsilon.epsilon_statement` and
  `FunctionalExtensionality.functional_extensionality_dep`, all of the standard library. No axiom of our
  own, no `Admitted`, no module types or functors, no kernel check switched off.
- That the model is the code: the translation is by hand, checked by reading, by the concrete
  cases (values that can be compared with what the documented examples and the repository's
  tests say) and by mutation testing (section 5).

## 3. What is modelled and what is not

Simplifications that apply throughout: exact arithmetic (above); `dtype`s are only modelled where
the code depends on them (integer samples in fit_domain and the constructors); keyword
dictionaries of plots are not modelled except for their presence; drawing itself, saving of
figures, logging and warnings are not modelled.

@COVERAGE@

## 4. Properties: what is modelled and how it is proved

All properties are about the model named in the table above for the functions anchored in
properties.jsonl. Properties that turned out to be false of the code are restated as exact
characterisations of what the code does; the counterexamples are the `_refuted` theorems.

@PLAN@
## 5. Wrong programs

`seeded/mutations.py` lists realistic edits of the model; `seeded/mutate.py` applies each to a
scratch copy, rebuilds, and records in `seeded/LOG.jsonl` which claimed theorems fail. An edit
after which no theorem fails although a claim became false led to a tighter theorem (the ids with
suffix `b` are the re-runs).
