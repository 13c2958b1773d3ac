# Formal model of EPyStateEstimator in Coq 8.16.1

## 1. Approach

The code is Python/numpy.  The model is layered so that each property is proved at the
most general layer at which it is true.

* **Layer S (structure)** - `GaussObj`, `Nodes`, `Sweeps`, `KalmanLoop`, `Simulate`, `Database`,
  `FullSweep`.  Functions are modelled branch by branch with exceptions as values
  (`res A := Ok a | Err e`).  Numeric primitives (solvers, Gaussian operators, projections,
  random generator) are *parameters*: the theorems hold for every behaviour of them, hence also
  for IEEE floating point, LAPACK failures, NaNs and random draws.
* **Layer E (exact)** - `ND`, `LinAlg`, `Gauss`, `Transforms`, `Estimator`, `Kalman`.  numpy arrays of rank
  <= 2 with numpy's shape and broadcasting rules over an arbitrary real closed field `R : rcfType`
  (MathComp).  Rounding is not modelled in this layer: arithmetic is exact.  `cholesky` is the textbook recursive
  algorithm (reads one triangle, fails on a non-positive pivot), `scipy.linalg.solve` is modelled with its
  failure modes; the ill-conditioning warning of scipy (turned into an exception by the code)
  is an arbitrary predicate `illcond` over which theorems quantify.
* **Layer R (Coq reals)** - the example systems that need sin/cos/atan.
* **Layer F (double precision)** - `Float`: entrywise IEEE 754 binary64 arithmetic (Flocq), round to nearest even.

The exact layer's concrete instance for non-vacuity is MathComp's `realalg` (axiom free).

## 2. Plan per property

See `properties.jsonl` for the statements.

| id | model | proof |
|----|-------|-------|
| C01-C02 | `Gauss` (exact) | spec `energy` quadratic form; matrix algebra |
| C03, C08-C10 | `LinAlg`, `Gauss` | case analysis of solver branches, posdef theory |
| C04-C05 | `GaussObj` (structure) | invariant over read sequences |
| C06 | `Gauss` | witness + reflexivity |
| C07 | `LinAlg.cholesky` | induction on the dimension, Schur complements |
| C11-C14 | `Transforms` | block matrix algebra |
| C15-C19 | `Estimator` | completing the square, Woodbury, shape lemmas |
| C20-C24, C27 | `Nodes`, `Sweeps` (structure) | induction over schedules |
| C25-C26 | `Nodes` instantiated with `Gauss` | inductive invariant with broadcasting |
| C28-C29 | `Nodes` + `Estimator` + `KalmanLoop` | spec `SpecAssumed` (assumed-density recursions for arbitrary moment rules); natural-parameter invariant of the chain (`EPValue`, `EPChain`, `EPSweep`), the filter side in `AssumedFacts`, construction of the chain in `EPSetup` |
| C30-C32 | `KalmanLoop` (structure) | induction over measurement lists |
| C33-C35 | `Kalman` (exact) | induction, partial minimisation spec |
| C36-C38 | `Kalman` (IEKF, IEKS) | algebra, witnesses |
| C39 | `Simulate` (structure, heap with aliasing) | induction, witness |
| C40-C43 | `Systems` | real analysis / ring algebra |
| C44 | `Systems` | case analysis |
| C45-C47 | `Database`, `FullSweep` | invariants over op lists and crash points |
| C48 | `Metrics` | algebra |
| C49-C51 | `GaussObj`, `Transforms`, `Kalman` | case analysis, quadratic forms, simulation of the linearised model |
| C52 | `Nodes` + `Estimator` + `Transforms` | symbolic execution of the first three updates with shapes (`EPTaylor`) |
| C53 | `Nodes` + `Estimator` + `Transforms` + `MonteCarlo` | invariant of the forward pass with array shapes (a factor is flat or square); Loewner order of precisions for the measured node |
| C54-C56 | `Program` | `EP_FullSweep.py` as a whole: `select_transform`, estimator, nodes, sweeps, metrics and the database | E+S |
| `Scripts` | every script is a list of computations and batches of rows (`ScriptsFacts.prog`); crash points, resuming and plain INSERT are proved for such lists |
| C57 | `NumJac` | central differences of polynomials (`SpecNumJac.along`), entry by entry |
| C58 | `Display` | the rows left by a complete sweep (`SpecDisplay.all_runs`, `sample`); queries up to the order of rows; mean and deviation characterised by their equations (`is_stat`) |
| C59 | `Program` | `FullSweep` run with the exact numerics; rows are traced to the run that wrote them (`ProgramRows.main_rows`), aborts to the first node update that fails |
| C60 | `Nodes` + `Estimator` | spec `SpecBP` (damped belief propagation, no powers); a chain whose factors hold messages to the power `p` (`EPPower`), monotone and fixed-point arguments on the messages (`EPBelief`) |
| C61 | `Nodes` + `Estimator` | spec `SpecLimit` (limits over an archimedean field); asynchronous damped updates of messages with continuous update maps (`EPLimit`), the passes of `ep_update` (`EPConverge`) |
| C62 | `Outliers` | spec `SpecOutliers` (order statistics, Tukey's fences); quartiles as monotone interpolation, a window of at least half the order statistics inside the fences |
| C63 | `SystemInit` | spec `SpecInit` (usable systems); quadratic forms of diagonal matrices, derivatives of sine and cosine at 0 for slow turns |
| C64, C65 | `Plot` | spec `SpecPlot` (averages, centred bands, layouts of a vector); sums of squared deviations, Cauchy-Schwarz over the other runs |
| C66, C67 | `Float` | spec `FloatSpec` (exact and nearly exact results); Flocq's correctness theorems for the operations, Sterbenz, relative errors |
| C68, C69 | `Notebook` | spec `SpecNotebook` (orders in which sqlite may return rows; the results recorded under a key; grids and series of results); the tables left by a complete sweep come from C47 |
| C70 | `FloatMetrics` | spec `FloatMetricsSpec` (exact mean square, plans of summation that use every entry once, roundings counted); monotonicity of rounding, relative errors without underflow |
| C71 | `GaussHeap` | spec `SpecHeap` (the same commands on values that never change); simulation between caching objects and values, with `GaussLink` for one object |
| C72 | `FloatL96` | spec `FloatL96Spec` (columns of a ring, exact slope, exact Runge-Kutta step); rows as periodic sequences, dependence by intervals, sizes as powers of two, relative errors, errors counted in roundings of a scale |
| C73 | `Nodes`, `Estimator`, `Gauss` | spec `SpecVague` (every state also has the prior N(0, 1e10)); the prior as one more measurement, precision recursion, comparison of energies |

## 3. Files

`rocq/theories` holds, per area, a model file, small specification files (`Spec*.v`, `PosDef.v`,
`CondGauss.v`) that do not mention the model's helpers, proof files (`*Facts.v`, `*Math.v`, `EP*.v`, ...)
and property files `Prop_*.v`, which contain only the theorems listed in `MANIFEST.json`, concrete
cases showing that their hypotheses can be met, and `Print Assumptions` for every theorem.

| model file | code | layer |
|------------|------|-------|
| `Base` | exceptions as values | - |
| `ND` | the fragment of numpy used (shapes, broadcasting, `@`, `.T`, in-place `+=`) | E |
| `LinAlg` | `scipy.linalg.solve`, `cho_factor`, `cho_solve`, `cholesky`, `Utils/linalg.py` | E |
| `Gauss` | `StateModel/Gaussian.py` as values (conversion, product, quotient, power, equality) | E |
| `GaussObj` | `StateModel/Gaussian.py` as caching, mutable objects | S |
| `Nodes` | `ExpectationPropagation/Nodes.py`, `Iterations.py:19-42` (sweeps) | S |
| `Transforms` | `MomentMatching/{UnscentedTransform,TaylorLinearisation,MonteCarloTransform}.py` | E |
| `NumJac` | `TaylorLinearisation.py:31-47` (`numerical_jacobian`) | E |
| `Display` | `Experiments/DisplayResults.py` (the queries, means and deviations) | S |
| `Outliers` | `Experiments/DisplayResults.py` (`remove_outliers`; the script itself always passes `dont_remove=True`) | E |
| `Plot` | `Utils/Plot_Helper.py`: the numbers handed to matplotlib | E |
| `Float` | the operators of `StateModel/Gaussian.py` on natural parameters, the update formulas of `ExpectationPropagation/Nodes.py`, the times of the filter, smoother and nodes | F |
| `Estimator` | `MomentMatching/Estimator.py`, `MomentMatch.py` | E |
| `MonteCarlo` | `Gaussian.sample` and `MonteCarloTransform` with the random generator | E |
| `KalmanLoop` | the filter and smoother loops of `Filters/KalmanFilter.py` | S |
| `Kalman`, `Iterated` | the methods of the classes in `Filters/KalmanFilter.py` | E |
| `Simulate` | `Systems/DynamicSystem.py` with a heap of arrays | S |
| `Systems` | growth model and both bearings-only trackers | R |
| `SystemInit` | the constructors of `Systems/{UniformNonlinearGrowthModel,BearingsOnlyTracking,BearingOnlyTrackingTurn,TestDynamics}.py` | R |
| `L96` | `Systems/L96.py` with files | E |
| `Database` | `Utils/Database.py` tables, `Iterations.py:45-66` (logging) on sqlite transactions | S |
| `FullSweep` | `Experiments/EP_FullSweep.py` `power_sweep`, `full_sweep`, `main` | S |
| `Scripts` | the database part of `EP_Sweep_BearingsOnly.py` (log), `EP_Sweep_L96.py`, `IEKS_Sweep_{UNGM,L96,BearingsOnly}.py` | S |
| `BottSweep` | the sweep and `main` of `EP_Sweep_BearingsOnly.py`; the file imports a module `Experiments.FullSweep` that does not exist, so it cannot be run as it is: the model is of the file with that import mended | S |
| `Metrics` | `Utils/Metrics.py`, `Gaussian.squared_error`, `Gaussian.NLL`, `node_metrics` of `EP_Sweep_BearingsOnly.py` | E |
| `GaussHeap` | programs over any number of caching `Gaussian` objects, with sharing: constructors, properties, operators, `NLL`, `squared_error`, `copy`, `validate_covariance` (`StateModel/Gaussian.py:95-289`, `Utils/linalg.py:48-50`); no assignment to attributes (that is C49), `GaussianFactor` is the object of `as_factor` | S/E |
| `Notebook` | `Notebooks/PlotHeatmap.ipynb`, `PlotPerformanceAllSeeds.ipynb`, `PlotPerformanceSingleSeed.ipynb`, `ManyIterations.ipynb`: queries, images, averages and curves | S, E |
| `FloatMetrics` | `Utils/Metrics.py:12-18` and `StateModel/Gaussian.py:240-246` on doubles; the order in which BLAS and numpy add is any plan | F |
| `FloatL96` | `Systems/L96.py:8-37` on doubles: derivative, Runge-Kutta step, orbit without noise, measurement | F |

## 4. Trusted base

* The Coq 8.16.1 kernel (`coqc`, `coqchk`), without plugins.
* Axioms.  `Print Assumptions` says "Closed under the global context" for every theorem except those of
  `Prop_Systems.v`, `Prop_SystemInit.v`, `Prop_Float.v`, `Prop_FloatMetrics.v` and `Prop_FloatL96.v` (C40, C41, C42, C63, C66, C67, C70, C72), which are about `sin`, `cos`, `atan` or the values of doubles on the standard library's real
  numbers and list, as the library does,
  `ClassicalDedekindReals.sig_forall_dec`, `ClassicalDedekindReals.sig_not_dec`,
  `FunctionalExtensionality.functional_extensionality_dep` and (those whose proof goes through the standard
  library's uniqueness of angles and turning points, or through Flocq's rounding) `Classical_Prop.classic`.
  No axiom is stated by this development.  `coqchk` additionally prints entries of the module *types*
  of MathComp/ssreflect (`..._Sig` style signatures in `fintype`, `finfun`, `bigop`, `matrix`, ...); those are
  the signatures that MathComp uses to seal its own definitions, not assumptions of any theorem.
* The correspondence between the definitions of the model files and `/repo`; each definition cites its
  lines.

### What the model abstracts from

* **Rounding.** Layers E and R compute exactly; NaN, infinities and overflow are not modelled there.  Layer F models
  the products, quotients and powers of Gaussians in natural mode, the times, the root mean square error and the Lorenz model in double precision (with infinities,
  signed zeros and one NaN).  Cholesky factors, solves, matrix products and the transforms are modelled only exactly.
  Operations that leave the field (division by zero in numpy, square root of a negative number, a
  rank-3 array) are the outcome `Err Unsupported`, which is not a Python exception, and theorems never
  count it as success.  Layer S makes no assumption on numbers at all.
* **scipy/LAPACK.** `solve(assume_a='pos')`, `cho_factor`, `cholesky` are recursive exact versions that fail
  on a non-positive pivot; the ill-conditioning verdict of `solve` is an arbitrary predicate `illcond`.
  `check_finite` is not modelled (no non-finite numbers).
* **scipy.stats.** `multivariate_normal.logpdf` is an arbitrary function that may raise; the mean of an empty
  list (nan) is `Err Unsupported`.
* **autograd.** A differentiable function is a pair of its action and its Jacobian action; that the second
  is the derivative of the first is a hypothesis where it matters (affine functions).
* **Random numbers.** `np.random` is a state threaded through (layers S and E); a draw may be anything.
  `np.random.multivariate_normal` raises ValueError on arrays of the wrong shape; the singular value
  decomposition inside it is assumed to converge.
* **Objects and aliasing.** `GaussObj` models the object state (caches, setters); `Simulate` models array
  references.  Elsewhere arrays are values; the code there mutates only arrays it has just allocated.
* **sqlite.** A connection has a durable and a working database; `INSERT` opens a transaction, `commit` is
  atomic and durable, the process may die between any two database operations.  Numbers formatted into
  the query text are taken to denote the values stored; column types are not enforced.
* **Flat start.** C28's exact case starts from the chain after the user assigns `n.marginal = Gaussian.as_factor(1)`;
  no shipped script does so (`EPSetup.assign_marginals`).  The default start is covered as well.
* **Regularity.** C28 and C29 assume that 1x1 matrices are never reported as ill-conditioned (`regular`); C53 assumes the
  same of the state dimension (`regular_at`).
* **The whole command (`Program`).** Simulating the data is a function of the generator state that may raise; storing an
  array in a cell (`pickle`) and a metric in a cell (`number`) are arbitrary functions.  C59's statement about the first row
  assumes that the log density accepts means of shape (1,) and (1, 1).
* **Shipped databases.** `/repo/log/*.db` hold rows that the present code cannot write (Taylor rows on the growth model,
  unscented rows on vector systems; C52, C53, C59).  `long_iterations_2.db` also has other columns than
  `Utils/Database.py` creates now, so at least that file comes from earlier code.  The model follows the present code: `Estimator.py` adds
  a column (n, 1) to a mean (n,).
* **Order of rows.** A query without ORDER BY returns rows in any order (`scan`, a permutation chosen per query and table).  C68 and C69
  say which of two orders they need, if any: the order of insertion (`storage_order`) or that of the UNIQUE index (`index_order`).
  In `Notebook` values formatted into a query denote the values stored, column names are not case-sensitive, and arrays of different
  lengths (whose treatment depends on the version of numpy) are `Unsupported`.
* **Logging, printing, docstrings** have no model.

### Code without a model

The decorations in `Utils/Plot_Helper.py` and in the notebooks (colours, titles, ticks, interpolation between pixels), in `Experiments/DisplayResults.py` the number formatting, the plots at the end of the experiment scripts,
`tests/`, `setup.py`, `__init__.py` files, `StateModel/StateModel.py` (an abstract base class),
`Gaussian.plot`.

## 5. Mutation testing

`seeded/LOG.jsonl` records the wrong programs tried against the theorems: each entry is one edit of a model
definition resembling a realistic bug, the claim that it breaks, and what the harness saw.

* `failed_lemmas`: the lemmas whose proof script fails on the edited model.
* `theorems_failed`: property theorems that depend on one of those lemmas.  They are found by replacing every failing
  proof with `Admitted` and looking at `Print Assumptions`.  So this says that the proof no longer goes
  through, which is weaker than a proof that the theorem is false of the edited model.
* `undetermined`: theorems that depend on a lemma whose proof did not finish within the harness's time limit.
  They are not counted as failed.
* `verdict`: `detected` when `theorems_failed` is not empty, `survived` when every theorem still proves,
  `undetermined` when the edited model could not be evaluated (for example it does not type-check).
