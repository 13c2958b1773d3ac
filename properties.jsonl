{"id": "C01", "title": "Gaussian operators act on densities", "statement": "For Gaussians built from (mean, cov) or from (precision, shift), a*b, a/b and a**p denote the pointwise product, quotient and power of the unnormalised densities: the log-density of the result equals the sum, difference or multiple of the operands' log-densities up to a constant, whichever parameterisation each operand was built in.", "quantifier": "all dimensions, all means, all symmetric positive-definite well-conditioned covariances, all natural parameters with symmetric precision, all exponents, all evaluation points", "why_tests_cant": "a continuum of operands and evaluation points; a test samples a few seeds", "anchors": ["StateModel/Gaussian.py:Gaussian.__mul__", "StateModel/Gaussian.py:Gaussian.__truediv__", "StateModel/Gaussian.py:Gaussian.__pow__"]}
{"id": "C02", "title": "Algebraic laws of Gaussian operators", "statement": "In natural parameters * is commutative and associative with Gaussian.as_factor(dim) as unit, (a*b)/b = a, a/a = as_factor, (a**p)*(a**q) = a**(p+q), (a**p)**q = a**(p*q), (a*b)**p = a**p * b**p.", "quantifier": "all Gaussians of one dimension with symmetric precision and all exponents", "why_tests_cant": "laws over infinite operand sets", "anchors": ["StateModel/Gaussian.py:Gaussian.__mul__", "StateModel/Gaussian.py:Gaussian.__truediv__", "StateModel/Gaussian.py:Gaussian.__pow__", "StateModel/Gaussian.py:Gaussian.as_factor"]}
{"id": "C03", "title": "Moment/natural round trip", "statement": "Reading precision and shift of a Gaussian built from (mean, cov) and rebuilding with from_natural returns the same mean and cov exactly when the precision's trace is at least 1e-10 (positive-definite, well-conditioned cov); below that threshold mean 0 and cov 1e10*I come back instead.", "quantifier": "all dimensions, means, positive-definite covariances", "why_tests_cant": "the threshold branch depends on real-valued inputs; random tests never reach it", "anchors": ["StateModel/Gaussian.py:natural_to_moment", "StateModel/Gaussian.py:moment_to_natural", "StateModel/Gaussian.py:Gaussian.from_natural"]}
{"id": "C04", "title": "Attribute reads are stable", "statement": "For any interleaving of reads of mean, cov, precision, shift and dim on one Gaussian object (including reads that raise), every read of one attribute yields the same outcome as a read on the freshly constructed object; reads never change the distribution.", "quantifier": "every sequence of attribute reads, every behaviour of the underlying solvers", "why_tests_cant": "histories of reads are unbounded; caching bugs show only in particular orders", "anchors": ["StateModel/Gaussian.py:Gaussian.mean", "StateModel/Gaussian.py:Gaussian.cov", "StateModel/Gaussian.py:Gaussian.precision", "StateModel/Gaussian.py:Gaussian.shift", "StateModel/Gaussian.py:Gaussian.dim"]}
{"id": "C05", "title": "copy() preserves the distribution", "statement": "g.copy() answers every attribute read as a freshly constructed g would, after any history of reads on g, and reads on the copy never affect g.", "quantifier": "every read history before and after copying", "why_tests_cant": "unbounded histories", "anchors": ["StateModel/Gaussian.py:Gaussian.copy"]}
{"id": "C06", "title": "Tolerance equality is reflexive but not an equivalence", "statement": "== between Gaussians is reflexive, but it is neither symmetric nor transitive: there are Gaussians with a==b and not b==a, and a==b, b==c, not a==c.", "quantifier": "all Gaussians (reflexivity); existence (the two negative parts)", "why_tests_cant": "boundary cases of the tolerance never hit by random tests", "anchors": ["StateModel/Gaussian.py:Gaussian.__eq__"]}
{"id": "C07", "title": "Covariance validation decides positive definiteness", "statement": "validate_covariance accepts a Gaussian whose covariance is symmetric iff that covariance is positive definite, otherwise it raises LinAlgError; when a Cholesky factor is produced it is lower triangular, has positive diagonal and reproduces the matrix.", "quantifier": "all sizes, all symmetric matrices", "why_tests_cant": "all matrices of all sizes", "anchors": ["Utils/linalg.py:validate_covariance", "Utils/linalg.py:jittered_chol", "StateModel/Gaussian.py:Gaussian.chol_cov"]}
{"id": "C08", "title": "Symmetrisation", "statement": "symmetrize returns a symmetric matrix, leaves symmetric matrices unchanged and is idempotent, for all square matrices.", "quantifier": "all sizes and entries", "why_tests_cant": "all matrices", "anchors": ["Utils/linalg.py:symmetrize"]}
{"id": "C09", "title": "Natural-to-moment conversion outcome", "statement": "For a symmetric precision, the reported covariance is either 1e10*I with zero mean (exactly when trace < 1e-10, even for negative-definite precision), or the symmetric inverse of the precision when it is positive definite and well conditioned, or the inverse of the precision plus 1e-10*I; the mean is covariance times shift.", "quantifier": "all sizes, all symmetric precision matrices, every conditioning verdict of the solver", "why_tests_cant": "branch structure over real-valued inputs", "anchors": ["StateModel/Gaussian.py:natural_to_moment", "Utils/linalg.py:jittered_solve"]}
{"id": "C10", "title": "A validated Gaussian can have negative precision", "statement": "A Gaussian that passes covariance validation need not have positive-definite precision: every symmetric precision with trace < 1e-10 (for instance -I) passes; conversely if trace >= 1e-10 and validation passes then precision + 1e-10*I is positive definite or precision is.", "quantifier": "all sizes and symmetric precision matrices", "why_tests_cant": "needs improper cavities never built in tests", "anchors": ["Utils/linalg.py:validate_covariance", "StateModel/Gaussian.py:natural_to_moment"]}
{"id": "C11", "title": "Unscented weights and sigma points", "statement": "For every dimension n and alpha, beta, kappa with alpha^2(n+kappa) > 0 the 2n+1 mean weights sum to one, and the sigma points reproduce the input mean and covariance exactly (covariance plus 1e-10*I when the plain Cholesky factorisation fails and the jittered one is used).", "quantifier": "all n, alpha, beta, kappa, means, covariances", "why_tests_cant": "infinite parameter space", "anchors": ["MomentMatching/UnscentedTransform.py:UnscentedTransform._weights", "MomentMatching/UnscentedTransform.py:UnscentedTransform._sigma_points"]}
{"id": "C12", "title": "Unscented transform exact on affine maps", "statement": "For an affine function x -> A x + b the unscented transform returns mean A m + b, covariance A P A^T and cross covariance P A^T.", "quantifier": "all dimensions, A, b, m, positive-definite P, admissible alpha, beta, kappa", "why_tests_cant": "tests use one identity map up to 10%", "anchors": ["MomentMatching/UnscentedTransform.py:UnscentedTransform._transform"]}
{"id": "C13", "title": "Taylor transform exact on affine maps", "statement": "From a function value y and Jacobian J at the mean the Taylor transform returns mean y, covariance J P J^T (positive semidefinite when P is) and cross covariance P J^T, for functions returning a vector and for batch functions returning one row with n, m > 1; a batch function raises ValueError for a one-dimensional state and loses the matrix shape for a single output.", "quantifier": "all dimensions, functions, Jacobians, states", "why_tests_cant": "infinite inputs", "anchors": ["MomentMatching/TaylorLinearisation.py:TaylorTransform._transform"]}
{"id": "C14", "title": "Monte Carlo moments are consistent sample moments", "statement": "For any drawn sample set of size at least 2 the Monte Carlo transform's covariance is symmetric positive semidefinite, and for an affine function its mean, covariance and cross covariance are exactly the affine images of the sample mean and covariance of the drawn input samples; every conversion takes one new set of draws (10000 by default) and leaves the generator after it.", "quantifier": "all sample sets, sizes, affine maps", "why_tests_cant": "random draws; tests are statistical", "anchors": ["MomentMatching/MonteCarloTransform.py:MonteCarloTransform._transform", "MomentMatching/MonteCarloTransform.py:MonteCarloTransform.sample_covariance"]}
{"id": "C15", "title": "Time update is exact marginalisation", "statement": "With an affine transition and noise Q the projected prediction at power alpha is N(A m + b, (A P A^T + Q)/alpha); at alpha = 1 it is the marginal of the next state: the joint energy of (x, x') splits into the predicted energy of x' plus a positive-definite energy of x given x'.", "quantifier": "all dimensions, A, b, m, positive-definite P and Q, alpha > 0", "why_tests_cant": "continuum of inputs", "anchors": ["MomentMatching/Estimator.py:Estimator.proj_trans"]}
{"id": "C16", "title": "Measurement update is Bayes' rule", "statement": "With an affine measurement, noise R and power alpha the returned covariance is the inverse of P^-1 + alpha H^T R^-1 H; for a one-dimensional state the returned mean is the Bayes posterior mean; the posterior energy differs from prior energy plus alpha times likelihood energy by a constant.", "quantifier": "all dimensions, H, c, y, positive-definite P, R, alpha > 0", "why_tests_cant": "continuum of inputs", "anchors": ["MomentMatching/Estimator.py:Estimator.proj_meas"]}
{"id": "C17", "title": "Measurement update shape of the mean", "statement": "The measurement projection of a d-dimensional state whose mean is a length-d vector returns a mean of shape (d, d) with entry (i,j) = prior mean_j + correction_i, so its diagonal (only) is the posterior mean; it is a valid state mean only for d = 1.", "quantifier": "all d, all inputs on which the update succeeds", "why_tests_cant": "shape depends on broadcasting; tests never run a multi-dimensional measurement update", "anchors": ["MomentMatching/Estimator.py:Estimator.proj_meas"]}
{"id": "C18", "title": "Backward update is the exact smoothing step", "statement": "With an affine transition the backward projection at power 1 returns the marginal of x when x' is distributed as the next node's marginal and x|x' is the exact conditional; its covariance is positive definite whenever P, Q are and the next covariance is positive semidefinite.", "quantifier": "all dimensions, A, b, states, positive-definite Q", "why_tests_cant": "continuum of inputs", "anchors": ["MomentMatching/Estimator.py:Estimator.proj_back"]}
{"id": "C19", "title": "Backward update branches agree", "statement": "At power 1 the branch that uses the next node's marginal and the general branch that multiplies the prediction with the next node's cavity return the same state whenever the next node's marginal equals prediction times cavity.", "quantifier": "all states and transforms", "why_tests_cant": "two code paths over all inputs", "anchors": ["MomentMatching/Estimator.py:Estimator.proj_back"]}
{"id": "C20", "title": "build_nodes builds a well-formed chain", "statement": "For every N >= 2 build_nodes(N, dim) returns N nodes with index i at position i, mutually inverse neighbour links, no predecessor for the first and no successor for the last; N = 0 gives an empty graph, N = 1 raises IndexError; passing a system always raises TypeError when the graph has been built.", "quantifier": "all N and dim", "why_tests_cant": "tests use N = 5 only", "anchors": ["ExpectationPropagation/Nodes.py:build_nodes"]}
{"id": "C21", "title": "node_system assigns data in time order", "statement": "node_system gives the i-th node the i-th measurement and the transition at time i*dt with u = 0 (or the i-th user keyword set), the first node the prior, returns min(len(nodes), len(measurements), len(fargs)) nodes, changes nothing else, and raises IndexError if that minimum is 0.", "quantifier": "all node lists, measurement lists and keyword lists", "why_tests_cant": "arbitrary lengths", "anchors": ["ExpectationPropagation/Nodes.py:node_system"]}
{"id": "C22", "title": "Re-equipping nodes: last estimator wins", "statement": "After any sequence of node_estimator calls the updates of every node use the projections, power and damping of the last estimator only, and node_estimator changes no belief.", "quantifier": "all sequences of estimators", "why_tests_cant": "histories of calls", "anchors": ["ExpectationPropagation/Nodes.py:node_estimator"]}
{"id": "C23", "title": "Updates are local and atomic", "statement": "A forward, measurement or backward update of node i changes at most node i's own factor of that kind and its marginal, either both or neither; whenever it raises or hits a numerical failure no node changes at all.", "quantifier": "every graph state, every node, every behaviour of the projections and solvers including failures", "why_tests_cant": "every failure point of every numeric primitive", "anchors": ["ExpectationPropagation/Nodes.py:Node.fwd_update", "ExpectationPropagation/Nodes.py:Node.meas_update", "ExpectationPropagation/Nodes.py:Node.back_update", "ExpectationPropagation/Nodes.py:Node.power_update"]}
{"id": "C24", "title": "Only validated marginals are committed", "statement": "After any schedule of updates on freshly built nodes every node's marginal is either still the initial one or has passed covariance validation.", "quantifier": "every schedule of updates, every behaviour of the projections", "why_tests_cant": "unbounded schedules", "anchors": ["ExpectationPropagation/Nodes.py:Node.fwd_update", "ExpectationPropagation/Nodes.py:Node.power_update", "Utils/linalg.py:validate_covariance"]}
{"id": "C25", "title": "EP consistency invariant", "statement": "After any schedule of updates with power alpha != 0 each node's marginal equals the initial marginal times (forward*measurement*backward factor)**(1/alpha) in natural parameters.", "quantifier": "every schedule, every damping, power and projection behaviour", "why_tests_cant": "inductive invariant over unbounded schedules", "anchors": ["ExpectationPropagation/Nodes.py:Node.fwd_update", "ExpectationPropagation/Nodes.py:Node.power_update"]}
{"id": "C26", "title": "Damping interpolates natural parameters", "statement": "With power 1 a committed measurement or backward update with damping g moves the marginal's precision and shift to (1-g)*old + g*projected; damping 0 leaves the distribution unchanged, damping 1 replaces it by the projection; a damped mix of two positive-definite precisions is positive definite for 0<=g<=1.", "quantifier": "all graph states, dampings and projections", "why_tests_cant": "continuum", "anchors": ["ExpectationPropagation/Nodes.py:Node.power_update", "ExpectationPropagation/Nodes.py:Node.fwd_update"]}
{"id": "C27", "title": "Sweep structure", "statement": "ep_fwd_back_updates is kalman_filter followed by kalman_smoother; a sweep performs exactly one forward and one measurement update per node in chain order and then one backward update per node in reverse order; the last node's backward update never changes anything; if one update raises, the earlier ones stay applied and the later ones are not run.", "quantifier": "all graphs, all failure points", "why_tests_cant": "all graph sizes and failure points", "anchors": ["ExpectationPropagation/Iterations.py:ep_fwd_back_updates", "ExpectationPropagation/Iterations.py:kalman_filter", "ExpectationPropagation/Iterations.py:kalman_smoother", "ExpectationPropagation/Iterations.py:ep_update"]}
{"id": "C28", "title": "First EP sweep is the Kalman filter/smoother", "statement": "With power = damping = 1 on a one-dimensional chain of at least two nodes, for any transforms that compute moment rules and any system functions: the forward pass of the first EP sweep leaves the marginals of the assumed-density filter with those rules in which every prediction's precision is increased by the initial marginal's precision (1e-10 as shipped), and the backward pass leaves those of the corresponding smoother. From flat marginals (assigned by the user), if every prediction variance is at most 1e10, these are exactly what KalmanFilterSmoother returns with the same transforms. For affine systems with the unscented transform they are the exact filtering and smoothing posteriors. For the unscented transform the rules are the textbook sigma-point rules for every function acting on rows.", "quantifier": "all chain lengths >= 2, moment rules with positive-definite results, system functions, measurements of any dimension, positive-definite noises", "why_tests_cant": "Demo notebook checks one seed", "anchors": ["ExpectationPropagation/Iterations.py:ep_fwd_back_updates", "ExpectationPropagation/Nodes.py:Node", "Filters/KalmanFilter.py:KalmanFilterSmoother"]}
{"id": "C29", "title": "EP sweeps are a fixed point when the measurement is affine", "statement": "With power = damping = 1 on a one-dimensional chain with an affine measurement function (transition functions arbitrary), after the first sweep every further list of forward, measurement and backward updates on the nodes, in any order - so any number of further sweeps - succeeds and leaves the precision and shift of every marginal and factor unchanged.", "quantifier": "all chain lengths >= 2, transition rules, affine measurement functions, measurements, update orders", "why_tests_cant": "all linear systems", "anchors": ["ExpectationPropagation/Iterations.py:ep_fwd_back_updates"]}
{"id": "C30", "title": "Filter and smoother produce one state per measurement", "statement": "kalman_filter returns exactly one state per measurement in time order, kalman_smoother the same number, its last element equals the filter's last; on an empty list the filter returns [] and the smoother raises.", "quantifier": "all measurement sequences, all transforms", "why_tests_cant": "all lengths", "anchors": ["Filters/KalmanFilter.py:KalmanFilterSmoother.kalman_filter", "Filters/KalmanFilter.py:KalmanFilterSmoother.kalman_smoother"]}
{"id": "C31", "title": "Filter causality and restartability", "statement": "The k-th filter state depends only on the first k measurements, and filtering ys1 ++ ys2 equals filtering ys1 followed by filtering ys2 from the last state of ys1 at the advanced time.", "quantifier": "all splits of all measurement sequences", "why_tests_cant": "all histories", "anchors": ["Filters/KalmanFilter.py:KalmanFilterSmoother.kalman_filter"]}
{"id": "C32", "title": "Smoother re-uses the filter's transition times", "statement": "The smoother propagates state k to k+1 with the time (k+1)*dt, which is the time the filter used iff the filter was started at t_zero = 0 (dt arbitrary).", "quantifier": "all lengths, dt, t_zero", "why_tests_cant": "tests use no time-varying smoother", "anchors": ["Filters/KalmanFilter.py:KalmanFilterSmoother.kalman_smoother", "Filters/KalmanFilter.py:KalmanFilterSmoother.kalman_filter"]}
{"id": "C33", "title": "Kalman filter computes the exact posterior", "statement": "For an affine-Gaussian state-space model the filter state after k measurements is the exact Gaussian posterior marginal: minimising the joint negative log density over earlier states leaves (up to a constant) the filter's energy of the last state.", "quantifier": "all dimensions, horizons, affine systems, measurements", "why_tests_cant": "all linear systems and horizons", "anchors": ["Filters/KalmanFilter.py:KalmanFilterSmoother.kalman_filter", "Filters/KalmanFilter.py:KalmanFilterSmoother.predict", "Filters/KalmanFilter.py:KalmanFilterSmoother.correct"]}
{"id": "C34", "title": "Kalman smoother computes the exact posterior", "statement": "For an affine-Gaussian model the smoother means jointly are the unique minimiser of the joint negative log density of the whole trajectory and each smoother covariance is the exact posterior marginal covariance.", "quantifier": "all dimensions, horizons, affine systems, measurements", "why_tests_cant": "all linear systems and horizons", "anchors": ["Filters/KalmanFilter.py:KalmanFilterSmoother.kalman_smoother", "Filters/KalmanFilter.py:KalmanFilterSmoother.smooth"]}
{"id": "C35", "title": "Information never increases uncertainty", "statement": "For affine models with positive-definite noise, the corrected covariance is dominated by the predicted one, the smoothed covariance by the filtered one (Loewner order), and all returned covariances are positive definite.", "quantifier": "all dimensions, systems, horizons", "why_tests_cant": "all systems", "anchors": ["Filters/KalmanFilter.py:KalmanFilterSmoother"]}
{"id": "C36", "title": "IEKF iterations", "statement": "One iteration of the iterated filter update is the extended Kalman correction for every differentiable measurement function, and a run with one iteration per step is the library's own extended Kalman filter. With more iterations the innovation is relinearised with the wrong sign: for an affine measurement the iterates follow D(i+1) = K(r - 2 H D(i)), an even number of iterations gives the Kalman mean only if the correction K r is zero, the scalar step sizes grow by 2h^2p/(h^2p+r) per iteration, and a mean at which the iteration has settled is a stationary point of the posterior energy only if it is the predicted mean. Zero iterations return the prediction.", "quantifier": "all measurement functions, priors, noise covariances, observations and iteration counts", "why_tests_cant": "tests have no IEKF case", "anchors": ["Filters/KalmanFilter.py:IEKF._iterated_update", "Filters/KalmanFilter.py:IEKF.__call__"]}
{"id": "C37", "title": "IEKS on affine models", "statement": "For an affine model, a call of the iterated smoother with any iteration count, on a fresh object or after any sequence of earlier calls, returns the exact posterior marginals (the Kalman smoother result).", "quantifier": "all affine models, iteration counts, measurement sequences and call histories", "why_tests_cant": "all counts", "anchors": ["Filters/KalmanFilter.py:IEKS.__call__", "Filters/KalmanFilter.py:IEKS._linearise"]}
{"id": "C38", "title": "IEKS linearisation points and reuse", "statement": "For every differentiable model: the first pass of the iterated smoother is the extended Kalman smoother of the functions the object currently holds; in every later pass the model is linearised at the previous smoothed means, with the transition from state j to j+1 linearised at the mean of state j+1 (not j). After a call with at least two iterations the object keeps two frozen linearisations, from which every later call starts, so the same call can return different results on a fresh and on a used object.", "quantifier": "all differentiable models, measurements, iteration counts and call histories", "why_tests_cant": "history dependence", "anchors": ["Filters/KalmanFilter.py:IEKS.__call__", "Filters/KalmanFilter.py:IEKS._kalman_filter", "Filters/KalmanFilter.py:IEKS._kalman_smoother"]}
{"id": "C39", "title": "Simulation recurrence", "statement": "simulate(N, x_zero, t_zero) returns N pairs with x_{k+1} = f(x_k, t_zero + k dt) + w_k, y_k = h(x_k) + v_k and leaves every existing array alone, provided transition and measurement return fresh arrays; without x_zero one draw of the initial distribution takes its place; if the measurement returns its argument, the measurement noise leaks into the state trajectory (not for scalar states); if the transition returns its argument, every recorded state is the caller's x_zero array, overwritten with the last state.", "quantifier": "all N, noise sequences, functions", "why_tests_cant": "aliasing depends on user functions", "anchors": ["Systems/DynamicSystem.py:DynamicSystemModel._simulate", "Systems/DynamicSystem.py:DynamicSystemModel.simulate"]}
{"id": "C40", "title": "Growth model stays bounded", "statement": "Noise-free growth-model trajectories satisfy |x_{k+1}| <= |x_k|/2 + 20.5; trajectories driven by noise bounded by B stay within max(|x_0|, 41 + 2B) for ever and are pulled into [-41-2B, 41+2B] at rate 1/2 per step; the measurement is non-negative and loses exactly the sign of the state.", "quantifier": "all initial states, all times, all horizons", "why_tests_cant": "infinite horizons", "anchors": ["Systems/UniformNonlinearGrowthModel.py:f", "Systems/UniformNonlinearGrowthModel.py:h"]}
{"id": "C41", "title": "Constant velocity model is a linear flow", "statement": "The bearings-only transition is linear, moves each row straight on, its time steps compose (dt1 then dt2 equals dt1+dt2, errors included) and so does its process noise, which is positive definite iff q*dt > 0; every measurement entry is the principal angle of its line of sight and the four shipped sensors determine the position; with sensor_list=None the system is constructed with four measurements but every measurement raises TypeError.", "quantifier": "all states, time steps, sensors", "why_tests_cant": "continuum", "anchors": ["Systems/BearingsOnlyTracking.py:f", "Systems/BearingsOnlyTracking.py:h", "Systems/BearingsOnlyTracking.py:BearingsOnlyTracking"]}
{"id": "C42", "title": "Coordinated turn model", "statement": "The turning-target transition works exactly for rows with non-zero turn rate; there it rotates the velocity by w*dt, keeps turn rate, speed and the centre of the circle, composes over time steps, and is the identity after 2*pi/w; zero turn rate divides by zero; process noise is positive definite iff both intensities times dt are positive.", "quantifier": "all states with non-zero turn rate, all time steps", "why_tests_cant": "continuum", "anchors": ["Systems/BearingOnlyTrackingTurn.py:f"]}
{"id": "C43", "title": "Lorenz-96 model structure", "statement": "The shipped transition is one Runge-Kutta step of the documented model on mirrored components (equal to the documented tendency exactly for at most three components), commutes with cyclic renumbering, acts on batch rows independently, its advection conserves energy, and the state F*1 is a fixed point for every step size; without a stored initial condition of shape (dim,) the L96 constructor fails for every dim other than 1, and with an older numpy it leaves a file behind that makes later attempts fail.", "quantifier": "all dimensions, states, forcings, step sizes", "why_tests_cant": "all dimensions and states", "anchors": ["Systems/L96.py:model", "Systems/L96.py:f", "Systems/L96.py:generate_L96_initial_condition", "Systems/L96.py:L96"]}
{"id": "C44", "title": "Noise models", "statement": "A GaussianNoise built with a mean raises AttributeError on every sample, and no system using it can be simulated for even one step; built without, it draws with zero mean of the stated dimension; the system constructor accepts exactly noises of the stated dimensions.", "quantifier": "all constructions", "why_tests_cant": "never exercised", "anchors": ["Systems/DynamicSystem.py:GaussianNoise"]}
{"id": "C45", "title": "Result table keeps first write per key", "statement": "In the experiment table at most one row exists per (Transform, Seed, Iter, Power, Damping) without NULL, after any sequence of insertions; inserting an existing key changes nothing and any other insertion appends exactly one row; values are stored by position, so each is in its own column exactly when the dictionary has the order of the columns.", "quantifier": "all insertion sequences", "why_tests_cant": "unbounded histories", "anchors": ["Utils/Database.py:create_experiment_table", "Utils/Database.py:insert_experiment_data"]}
{"id": "C46", "title": "Iteration log and crash durability", "statement": "ep_iterations(max_iter=n) performs n sweeps and logs rows with Iter = 1..n in order with the metrics after that sweep; if the process is killed after any number of database operations the durable rows are exactly those of the completed iterations; a table created outside a transaction is on disk at once, one created after an uncommitted INSERT is not; without a reference trajectory nothing is stored.", "quantifier": "all n, all crash points", "why_tests_cant": "all crash points", "anchors": ["ExpectationPropagation/Iterations.py:ep_iterations", "Utils/Database.py:insert_experiment_data"]}
{"id": "C47", "title": "Sweep resume and override", "statement": "Re-running a parameter sweep after being killed any number of times at any points ends with the same outcome and experiment table as an uninterrupted run, if runs are deterministic and have at most 50 iterations, or if nothing is skipped (override, or fewer than 50 iterations) and randomness comes from the seeded generator; with more than 50 iterations or random runs after skipped settings it does not. Numerical failures (LinAlgError) in any settings never end a sweep. Rows already stored are never replaced, with or without override. A sweep that finds everything stored commits nothing, so trajectories it inserted are lost.", "quantifier": "all parameter grids, crash points", "why_tests_cant": "all crash points", "anchors": ["Experiments/EP_FullSweep.py:full_sweep", "Experiments/EP_FullSweep.py:power_sweep"]}
{"id": "C48", "title": "Metrics", "statement": "rmse is the square root of the mean squared Euclidean distance over the common prefix of the two lists (truths of shape (n,) or (1,n)), surplus entries being ignored and an empty comparison giving no number; it is zero iff all compared means equal the truth; a truth of shape (n,1) does not raise but compares every component with every component. nll is the mean negated log-density; node_metrics is the pair. The position, velocity and turn-rate metrics of the five-dimensional tracker are the metrics of the component marginals and their squared errors sum to the full squared error; truths of shape (5,) raise IndexError there.", "quantifier": "all lists of states and truths", "why_tests_cant": "all lists", "anchors": ["Utils/Metrics.py:rmse", "Utils/Metrics.py:node_metrics", "Experiments/EP_Sweep_BearingsOnly.py:node_metrics", "StateModel/Gaussian.py:squared_error"]}
{"id": "C49", "title": "Assigning one parameter leaves the other representation stale", "statement": "Assigning mean, cov, precision or shift of a Gaussian that already holds both representations changes only that attribute: reads of the other representation still return the old values; on a Gaussian holding only its own representation the assignment is reflected by every later read. The same holds of the cached Cholesky factor and dimension: once read they survive every assignment.", "quantifier": "all Gaussian objects, all assigned values, all later reads", "why_tests_cant": "depends on the history of cached reads; tests never assign after reading", "anchors": ["StateModel/Gaussian.py:GaussianState.mean", "StateModel/Gaussian.py:GaussianState.cov", "StateModel/Gaussian.py:GaussianState.precision", "StateModel/Gaussian.py:GaussianState.shift"]}
{"id": "C50", "title": "Unscented covariance is positive semidefinite exactly for admissible parameters", "statement": "The unscented transform's covariance of every function is positive semidefinite if and only if alpha^2 kappa + n beta >= 0 (given n + lambda > 0); otherwise there is a function with a negative transformed variance.", "quantifier": "all dimensions, parameters, means, positive-definite covariances and functions", "why_tests_cant": "quantifies over all functions; the demo parameters (n=5, kappa=-2, beta=0) are inadmissible yet work on tried functions", "anchors": ["MomentMatching/UnscentedTransform.py:UnscentedTransform._weights", "MomentMatching/UnscentedTransform.py:UnscentedTransform._transform"]}
{"id": "C51", "title": "Taylor filter and smoother are the extended Kalman filter and smoother", "statement": "With the Taylor transform, the filter and smoother on any differentiable nonlinear model return the exact posterior marginals of the affine model obtained by linearising the transition at the filter's own filtered means and the measurement at its own predicted means.", "quantifier": "all differentiable models, noise covariances, measurement sequences", "why_tests_cant": "quantifies over all nonlinear functions and all sequence lengths", "anchors": ["Filters/KalmanFilter.py:KalmanFilterSmoother.kalman_filter", "Filters/KalmanFilter.py:KalmanFilterSmoother.kalman_smoother", "MomentMatching/TaylorLinearisation.py:TaylorTransform"]}
{"id": "C52", "title": "EP with the Taylor transform aborts on scalar array functions", "statement": "For a scalar system whose functions act element-wise on arrays (such as the shipped growth model), EP with the Taylor transform never completes a sweep over two or more nodes: the first forward and measurement update of node 0 succeed and leave its marginal mean with shape (1,1), and the forward update of node 1 raises ValueError, which neither the node nor the experiment script catches; the remaining nodes are untouched. At any state whose mean has shape (1,1) the transform raises ValueError.", "quantifier": "all chain lengths >= 2, powers > 0, dampings >= 0, element-wise functions, noise variances > 0, measurements", "why_tests_cant": "no test runs EP with the Taylor transform; the claim is about all functions and lengths", "anchors": ["MomentMatching/TaylorLinearisation.py:TaylorTransform._transform", "MomentMatching/Estimator.py:Estimator.proj_meas", "ExpectationPropagation/Nodes.py:Node.fwd_update", "Experiments/EP_FullSweep.py:power_sweep"]}
{"id": "C53", "title": "EP on vector states uses at most the last measurement or aborts", "statement": "For states of dimension two or more with the unscented transform, and in every dimension with the Monte Carlo transform, a forward pass or first EP sweep that returns has left the measurement factor of every node but the last at its initial value: a measurement update of a node makes its mean an array of shape (n,n), and the forward update of the next node then raises ValueError, which nothing catches. With positive definite noise covariances and admissible unscented parameters the first sweep always aborts at the second node, leaving the others as built.", "quantifier": "all dimensions, chain lengths >= 2, powers > 0, dampings >= 0, row-wise functions, noise covariances, measurements, random draws", "why_tests_cant": "no test runs EP on a vector state; the claim is about all functions, dimensions, lengths and random draws", "anchors": ["MomentMatching/Estimator.py:Estimator.proj_meas", "ExpectationPropagation/Nodes.py:Node.fwd_update", "MomentMatching/UnscentedTransform.py:UnscentedTransform._transform", "MomentMatching/MonteCarloTransform.py:MonteCarloTransform", "StateModel/Gaussian.py:Gaussian.sample"]}
{"id": "C54", "title": "The bearings-only log stores whole iterations", "statement": "The log of the bearings-only experiment inserts three rows (position, velocity, angle) per EP iteration, numbered consecutively, and commits once per iteration: a process killed after f database operations leaves exactly the first f/4 iterations on disk, so that every iteration is stored for all three quantities or for none; an exception ends the log after the last completed iteration; without a reference trajectory nothing is stored. A setting of the sweep logs iterations 1, 2, ... under its transform, seed, power and damping. Any number of runs of the whole sweep, each killed or stopped by exceptions anywhere, leaves whole iterations only. Although the query that decides on skipping a setting ignores the quantity, a skipped setting has all three rows of iteration 50, and a run in which every setting is skipped leaves the results as they are. Numerical failures (LinAlgError) never end the sweep.", "quantifier": "all sweeps, metrics, iteration numbers, settings, tables, crash points", "why_tests_cant": "crash points and exceptions at every operation cannot be enumerated", "anchors": ["Experiments/EP_Sweep_BearingsOnly.py:ep_iterations", "Experiments/EP_Sweep_BearingsOnly.py:insert_experiment_data", "Experiments/EP_Sweep_BearingsOnly.py:create_experiment_table", "Experiments/EP_Sweep_BearingsOnly.py:power_sweep", "Experiments/EP_Sweep_BearingsOnly.py:full_sweep", "Experiments/EP_Sweep_BearingsOnly.py:main"]}
{"id": "C55", "title": "The Lorenz EP experiment cannot be restarted", "statement": "A first run of EP_Sweep_L96 stores one row per iteration in loop order, committed at once. As it uses a plain INSERT and always starts from the first setting, any later run on a database that holds the first row stores nothing: it ends with IntegrityError (or is killed, or fails earlier), so after an interrupted run the remaining results are never computed, however often the script is started.", "quantifier": "all dimensions, seeds, settings, computations, crash points, numbers of restarts", "why_tests_cant": "no test runs the script; the claim is about all crash points and all later runs", "anchors": ["Experiments/EP_Sweep_L96.py:query", "Experiments/EP_Sweep_L96.py:main loop"]}
{"id": "C56", "title": "The IEKS sweeps can be killed and restarted", "statement": "The three IEKS sweeps reseed before every experiment, use INSERT OR IGNORE and commit after every experiment: if the experiment is reproducible from its seed (and the Lorenz initial conditions are on disk), then after any number of runs killed at any point a complete run ends with the outcome and the database of one uninterrupted run; in a new table this is one row (three for bearings-only) per experiment up to the first exception, in loop order.", "quantifier": "all experiments, seeds, dimensions, iteration numbers, previous databases, crash points, numbers of restarts", "why_tests_cant": "no test runs the scripts; crash points cannot be enumerated", "anchors": ["Experiments/IEKS_Sweep_UNGM.py", "Experiments/IEKS_Sweep_L96.py", "Experiments/IEKS_Sweep_BearingsOnly.py"]}
{"id": "C57", "title": "The numerical Jacobian", "statement": "TaylorTransform.numerical_jacobian returns, for a function that is polynomial along the coordinates, the Jacobian plus exactly eps^2 times the contribution of the odd Taylor coefficients from the third on; hence it is exact for affine and quadratic functions (in particular for the Lorenz-96 tendency) for every non-zero step, never for x^3, and on such functions using it in place of autograd leaves the Taylor transform unchanged. It calls the function at the point and at the 2n shifted points and rejects a 0-d state with TypeError.", "quantifier": "all dimensions, functions, points, steps", "why_tests_cant": "the function is never called by the tests (its only call is commented out); a test can only try finitely many functions and steps", "anchors": ["MomentMatching/TaylorLinearisation.py:TaylorTransform.numerical_jacobian", "MomentMatching/TaylorLinearisation.py:TaylorTransform._transform"]}
{"id": "C58", "title": "What the printed reports describe", "statement": "After a sweep that ran to its end on a new table, with or without --override, the table holds exactly the rows of its runs, one run per setting and seed, and a query of DisplayResults.py for a setting and iteration selects one value for each seed whose run got that far (seeds that failed with LinAlgError are silently left out), in any row order; the lines printed are the means and population standard deviations of these values, nan when there are none, and no report at all (TypeError) when a nan was stored for the smoother. Settings that are not swept (such as the damping 0.2 of the growth-model report) are never found, however often runs are interrupted and repeated; the Lorenz report prints only nan when it asks for another transform than the experiment used (the script stores 'MCT', the report asks for 'UT'). The reports on the iterated smoothers describe one value per seed if they ask for the number of iterations of the sweep, else they print nan.", "quantifier": "all systems, seeds, transforms, powers, dampings, numbers of iterations, row orders, crash points", "why_tests_cant": "the report scripts have no tests and need databases from hours of experiments; which seeds are missing depends on numerical failures", "anchors": ["Experiments/DisplayResults.py", "Experiments/EP_FullSweep.py:full_sweep", "Experiments/EP_Sweep_L96.py", "Experiments/IEKS_Sweep_UNGM.py", "Experiments/IEKS_Sweep_L96.py", "Experiments/IEKS_Sweep_BearingsOnly.py"]}
{"id": "C59", "title": "What the command EP_FullSweep.py stores, from the numbers up", "statement": "Running EP_FullSweep.py (any seeds, transforms, powers, dampings, override flag, crash point, earlier database) never adds a row of the Taylor transform for a system with a scalar state, nor a row of the unscented transform for a system with two or more state variables. When such a setting comes first and is still to do, the run ends in ValueError, nothing new is stored (not even the simulated data) and no later seed, transform or power is tried; so the default command ('TT' first) leaves a new database without a single row. For the unscented transform on a scalar system the rows of the first iteration at power 1 and damping 1 hold exactly the RMSE and negative log likelihood of the unscented Rauch-Tung-Striebel smoother on the data simulated from that row's seed, and on a new table that row is written first.", "quantifier": "all scalar or array systems (transition, measurement, noises, priors), seeds, transform lists, powers > 0, dampings >= 0, numbers of iterations, crash points and earlier contents of the database", "why_tests_cant": "running the command takes hours, there are no tests of it, and the result depends on shapes that only appear after the first measurement update", "anchors": ["Experiments/EP_FullSweep.py:select_transform", "Experiments/EP_FullSweep.py:power_sweep", "Experiments/EP_FullSweep.py:full_sweep", "Experiments/EP_FullSweep.py:main", "MomentMatching/Estimator.py:proj_meas", "ExpectationPropagation/Iterations.py:ep_iterations", "Utils/Metrics.py"]}
{"id": "C60", "title": "The EP power does not matter on scalar affine models, except power 1", "statement": "On a scalar affine-Gaussian model with exact moment transforms (the unscented transform), for every damping in [0,1] and every order of forward, measurement and backward node updates, EP with any power strictly between 0 and 1 (not too small for the 1e-10 precision floor) succeeds and its marginals equal those of damped belief propagation, so they do not depend on the power; the stored factors are the messages raised to the power. Without damping one sweep from any reached state gives the Rauch-Tung-Striebel smoother's marginals and further updates change nothing; with damping no update order ever claims more precision than the smoother, and any state that a sweep leaves unchanged holds the smoother's marginals. Power 1 is different: after one damped forward pass its first backward update leaves a strictly larger variance than every power below 1.", "quantifier": "all scalar affine-Gaussian models, measurement sequences of length at least 2, powers, dampings, lists of node updates", "why_tests_cant": "ranges over all update orders, powers and dampings and compares infinitely many runs; the tests run one sweep with power 1", "anchors": ["ExpectationPropagation/Nodes.py:Node.power_update", "ExpectationPropagation/Nodes.py:Node.fwd_update", "ExpectationPropagation/Nodes.py:Node.meas_update", "ExpectationPropagation/Nodes.py:Node.back_update", "MomentMatching/Estimator.py:Estimator.proj_back", "MomentMatching/Estimator.py:Estimator.proj_trans"]}
{"id": "C61", "title": "Repeated damped EP updates converge to the smoother; ep_update against ep_fwd_back_updates", "statement": "On a scalar affine-Gaussian model with exact moment transforms, for every damping in (0,1] and every power strictly between 0 and 1 (not too small for the 1e-10 precision floor): node updates in any order in which every update of every node keeps occurring never fail, and every node's mean and variance tend to those of the Rauch-Tung-Striebel smoother. In particular this holds for repeated calls of ep_fwd_back_updates and of ep_update, after any earlier updates. Without damping n calls of ep_update give the smoother's marginals at the last n nodes, hence N calls at all N nodes, whereas ep_fwd_back_updates needs one call. Fewer calls of ep_update are not enough: with any damping, after n calls from the start the marginal of node i depends only on the measurements with index below i+n.", "quantifier": "all scalar affine-Gaussian models over an archimedean real closed field, measurement sequences of length at least 2, powers, dampings, fair infinite schedules of node updates, numbers of passes", "why_tests_cant": "a limit over infinitely many updates and all fair schedules cannot be observed in finitely many runs", "anchors": ["ExpectationPropagation/Iterations.py:ep_update", "ExpectationPropagation/Iterations.py:ep_fwd_back_updates", "ExpectationPropagation/Nodes.py:Node.fwd_update", "ExpectationPropagation/Nodes.py:Node.meas_update", "ExpectationPropagation/Nodes.py:Node.back_update", "ExpectationPropagation/Nodes.py:Node.power_update"]}
{"id": "C62", "title": "What remove_outliers removes", "statement": "For every non-empty array, remove_outliers without given indices succeeds, returns each removed index once, keeps the other values in their order, keeps at least half of the values, and every removed value is larger than all kept values or smaller than all of them. The removed positions are exactly those of values more than 1.5 interquartile ranges outside the quartiles. An affine change of the data (also with negative factor) removes the same positions, a rearrangement keeps the same values, and an array of at most three values loses nothing. With given indices the values at those positions go whatever they are, and the call fails with an index error exactly when every position is given; indices returned for one array can always be reused on another of the same length.", "quantifier": "all arrays of any length over a real closed field, all index lists, all affine maps and rearrangements", "why_tests_cant": "at least half kept and the order of removed against kept values must hold for every array, with all lengths modulo four and all ties", "anchors": ["Experiments/DisplayResults.py:remove_outliers"]}
{"id": "C63", "title": "The shipped systems are usable, and what their noise parameters mean", "statement": "The growth model, the constant velocity model and the turning-target model as constructed have transition and measurement functions that fit their dimensions and positive definite prior and noise covariances: the growth model always, the constant velocity model exactly when Q_sigma*delta_t and R_sigma are positive, the turning-target model (on rows with non-zero turn rate) exactly when both Q_sigma entries times delta_t are positive and no R_sigma entry is zero. R_sigma is the variance of a bearing in the constant velocity model but a standard deviation (its sign does not matter) in the turning-target model, whose constructor raises IndexError for fewer than two Q_sigma, accepts one R_sigma or one per sensor, otherwise raises ValueError, except that with one sensor any number is accepted and the noise covariance is then not square. Each constructed system measures the bearings of its position (columns 0,1 and 0,2) and moves by its step size independently of the time. The process noise of the turning target is that of the constant velocity model plus independent turn-rate noise, and as the turn rate tends to zero its motion tends to that of the constant velocity model. The test system's transition stays in [t/10, t/10+10), has period 10 in the state, and its noises are zero.", "quantifier": "all noise parameters, sensor lists, step sizes, arrays and times; a limit over turn rates", "why_tests_cant": "positive definiteness is a statement about all vectors, and the slow-turn limit about arbitrarily small turn rates", "anchors": ["Systems/UniformNonlinearGrowthModel.py:UniformNonlinearGrowthModel.__init__", "Systems/BearingsOnlyTracking.py:BearingsOnlyTracking.__init__", "Systems/BearingOnlyTrackingTurn.py:BearingsOnlyTrackingTurn.__init__", "Systems/BearingOnlyTrackingTurn.py:f", "Systems/TestDynamics.py:TestDynamics"]}
{"id": "C64", "title": "Curves over several runs: average and one standard deviation", "statement": "plot_1d_data on an array of N >= 1 runs of length T draws at 1..T the averages over the runs and, exactly when N >= 2, a band of half-width w around each average c with mean((x-a)^2) = w^2 + (c-a)^2 for every a (so c is the best constant fit and w its error). Every run is within sqrt(N-1)*w of the curve, at least one run is inside the band and one on its edge or outside; two runs are exactly the edges; the band has zero width exactly where all runs agree. A change of units a*x+b maps curve and band accordingly (half-width times |a|), and the order of the runs does not matter.", "quantifier": "all numbers of runs, lengths and real data", "why_tests_cant": "identities and inequalities over all data sets of every size", "anchors": ["Utils/Plot_Helper.py:_get_mean_and_std", "Utils/Plot_Helper.py:plot_1d_data"]}
{"id": "C65", "title": "Bands of Gaussian states are those of the first component", "statement": "plot_gaussian_node on a non-empty list of nodes whose marginals report means of one layout ((n,), (1,n) or (n,1)) draws at 1..len all components of the means as curves and the band mean_0 -+ 1.96*sqrt(cov_00) of the first component, whatever the other covariance entries are (even negative ones, whose square roots are computed too); a negative variance leaves a gap at that time only. plot_gaussian draws the same band from 0 on without curves. A ground truth adds one curve and changes nothing else, and must have one value per node (ValueError otherwise). The empty list raises ValueError and IndexError respectively.", "quantifier": "all lists of states of all dimensions, all means and covariances", "why_tests_cant": "the code takes a row of the covariance rather than the diagonal; that this is harmless for every covariance is a statement about all of them", "anchors": ["Utils/Plot_Helper.py:plot_gaussian", "Utils/Plot_Helper.py:plot_gaussian_node"]}
{"id": "C66", "title": "Natural-parameter updates in double precision", "statement": "With IEEE doubles and whatever the entries: the precision of a product of Gaussians is symmetric to the last bit, products commute, the first power and the quotient by the flat factor return their argument to the last bit. For ordinary (neither infinite nor nan) entries a Gaussian over itself is exactly the flat factor; a product with the flat factor and the undamped forward factor change no number. An undamped power-one update that moves no entry by more than a factor of two sets the marginal to exactly the projected one; in general new factor and marginal are f + d*(p - m) with one relative error of at most 2^-53 per operation (plus 2^-1075 for the multiplication). Quotients do not undo products: (a*b)/b misses a by about the rounding error of a+b, and can be flat.", "quantifier": "all doubles, dimensions, dampings and powers", "why_tests_cant": "2^64 values per entry; rounding errors show on rare inputs only", "anchors": ["StateModel/Gaussian.py:__mul__", "StateModel/Gaussian.py:__truediv__", "StateModel/Gaussian.py:__pow__", "StateModel/Gaussian.py:as_factor", "Utils/linalg.py:symmetrize", "ExpectationPropagation/Nodes.py:Node.fwd_update", "ExpectationPropagation/Nodes.py:Node.power_update"]}
{"id": "C67", "title": "Times in double precision", "statement": "The times t = 0.0; t += dt given to the nodes, the filter and the simulation are exactly k*dt for every step dt = m*2^e with |m|*N < 2^53, and then the smoother, which counts down from (N-1)*dt, uses the filter's times. For other steps it does not (dt = 0.1, four states). The unit step is exact up to 2^53 and then stands still. For dt >= 0 times never decrease, and differ from k*dt by at most k-1 relative roundings.", "quantifier": "all doubles dt and all numbers of steps", "why_tests_cant": "accumulated rounding over arbitrarily many steps", "anchors": ["ExpectationPropagation/Nodes.py:node_system", "Filters/KalmanFilter.py:KalmanFilterSmoother.kalman_filter", "Filters/KalmanFilter.py:KalmanFilterSmoother.kalman_smoother", "Systems/DynamicSystem.py:DynamicSystem.simulate"]}
{"id": "C68", "title": "Heat maps put every result at its power and damping", "statement": "make_image_data of PlotHeatmap.ipynb gives images exactly if 361 rows fit, and then each row is one pixel, the same in the images of RMSE, NLL, power and damping. After a complete sweep of a new table over 19 powers and 19 dampings, all of which reached the iteration, row i and column j show the metrics of power i and damping j, both if sqlite returns the rows as they were stored (in any order of the settings) and if it uses the UNIQUE index (increasing settings); through the index this holds for any history of the table. One run that stopped before the iteration and there is no picture. After an earlier partial sweep the order of storage shows results at wrong places. The picture has powers from left to right and dampings from bottom to top, and 19 equidistant values from 0.1 to 1 lie in their pixels; seeds are averaged pixel by pixel and every seed of the table must be complete. Sweeps of fewer than 361 settings (as in EP_FullSweep.py), however interrupted and repeated, never give a picture.", "quantifier": "all tables, seeds, transforms and iterations, all settings and worlds of the sweep, any order of rows", "why_tests_cant": "the query has no ORDER BY, so that the picture is right depends on every order sqlite may choose and every history of the table", "anchors": ["Notebooks/PlotHeatmap.ipynb:make_image_data", "Notebooks/PlotHeatmap.ipynb:plot_sweep", "Experiments/EP_FullSweep.py:full_sweep", "Utils/Database.py:create_experiment_table"]}
{"id": "C69", "title": "Performance curves of the notebooks are the runs of the sweep", "statement": "plot_experiment of PlotPerformanceAllSeeds.ipynb needs exactly two of Power, Damping and Iter, each with values, and draws the metric against the third. After a complete sweep with power and damping fixed it draws, for each transform, average and spread over the seeds of the metrics of the first 50 iterations, whether sqlite reads the table or its index; for any history of the table it draws the results in increasing order of the third variable if the index is used. A run with a single row, and a call without a list of seeds, raise IndexError. The reference value is the average over the seeds of the first iteration with power and damping 1 in any order of rows; one missing seed raises. permute brings value k mod N of each control variable to the front. The notebooks for one seed and for many iterations draw all iterations of the run.", "quantifier": "all tables, seeds, transforms, settings and worlds of the sweep, any order of rows", "why_tests_cant": "no query has an ORDER BY; runs of every length and histories of tables cannot be enumerated", "anchors": ["Notebooks/PlotPerformanceAllSeeds.ipynb:plot_experiment", "Notebooks/PlotPerformanceAllSeeds.ipynb:_permute", "Notebooks/PlotPerformanceSingleSeed.ipynb", "Notebooks/ManyIterations.ipynb"]}
{"id": "C70", "title": "Root mean square error in double precision", "statement": "For ordinary doubles and whatever order BLAS and numpy add in, fused or not: rmse is never nan, negative or the negative zero; it is exactly +0 for perfect estimates; exchanging estimates and true values changes no bit; estimates that are at least as close in every entry never get a larger error from the same order of summation. If no nonzero difference is below 2^-480, the square of a finite result is the exact mean square up to one relative error of 2^-53 per level of the two sums and eight more, so two libraries differ by so many roundings only; differences up to 2^k are finite if 2k plus the levels is below 1023. No estimates give nan. Not true: an error of zero means exact estimates (2^-600 squared vanishes); ordinary numbers have an ordinary error (2^600 squared is infinite).", "quantifier": "all doubles, dimensions, lengths of trajectories and orders of summation", "why_tests_cant": "2^64 values per entry and every order of summation a library may choose", "anchors": ["Utils/Metrics.py:rmse", "StateModel/Gaussian.py:squared_error"]}
{"id": "C71", "title": "Programs cannot tell shared caching Gaussians from immutable values", "statement": "A program that creates Gaussians, combines them with *, / and **, copies, reads, compares, scores and validates them, in any order, with the same object in several places, carrying on after exceptions and choosing each step by what it has seen, gets exactly the answers that immutable values would give, although reading fills caches of shared objects. So adding or removing a read, comparison, score or validation changes no other answer, and a query about existing objects has the same answer at every later time.", "quantifier": "all programs (adaptive, of any length), numbers of objects, ways of sharing, dimensions and contents, and any test of conditioning", "why_tests_cant": "a cache that goes stale shows only for particular sequences of reads and operators on a shared object, and there are unboundedly many sequences", "anchors": ["StateModel/Gaussian.py:Gaussian.__init__", "StateModel/Gaussian.py:mean", "StateModel/Gaussian.py:precision", "StateModel/Gaussian.py:__mul__", "StateModel/Gaussian.py:__truediv__", "StateModel/Gaussian.py:__pow__", "StateModel/Gaussian.py:__eq__", "StateModel/Gaussian.py:copy"]}
{"id": "C72", "title": "The Lorenz model in double precision", "statement": "For the Runge-Kutta step of L96.f as numpy rounds it: rotating the state rotates every later state bit for bit; a row of a batch moves as it does alone; after k steps an entry depends only on the entries from 4k places before to 8k places after it, and one nan fills all 12k + 1 columns that depend on it, so the whole row soon; an entry that has overflowed never becomes a number again; the equilibrium F is exact for every step size and number of steps; equal entries stay equal; steps of size at most 1 from entries up to 2^60 do not overflow; with one or three variables the derivative is F - x, without coupling; the derivative is the exact one up to 12 roundings of the largest product; a step is the exact Runge-Kutta step up to 2^-30 of a bound M on state and forcing, when the step size times M is at most 1; the measurement is the square up to one rounding, the same bits for the negated state, and never negative.", "quantifier": "all doubles (nan and infinities included where not excluded), dimensions, batches, forcings, step sizes and numbers of steps", "why_tests_cant": "the model is chaotic, so bitwise claims about long orbits cannot be sampled with tolerances, and there are 2^64 values per entry", "anchors": ["Systems/L96.py:model", "Systems/L96.py:f", "Systems/L96.py:h", "Systems/L96.py:generate_L96_initial_condition"]}
{"id": "C73", "title": "What EP computes from the shipped start on scalar affine models", "statement": "The marginals of a new chain are N(0, 1e10), not flat. With power = damping = 1, the unscented transform and an affine scalar system, the first forward pass therefore gives the exact filtering marginals, and the first sweep the exact smoothing marginals, of a different model: the one in which every state also has the prior N(0, 1e10). So every marginal claims at least 1e-10 more precision than the true posterior has, and after the forward pass its variance is strictly smaller than the true variance v_i, by a factor of at most 1 + 1e-10 * (v_0 + .. + v_i); after the sweep likewise, with the sum of all smoothing variances. No bound on the predicted variances is needed.", "quantifier": "all chain lengths >= 2, affine scalar models (time-varying, measurements of any dimension), positive-definite noises, measurements, unscented parameters with a positive spread", "why_tests_cant": "the notebook compares rounded pictures of one seed and calls the results identical; a difference of 1e-10 relative is below every tolerance, and grows with the variances", "anchors": ["StateModel/Gaussian.py:as_marginal", "ExpectationPropagation/Nodes.py:Node.__init__", "ExpectationPropagation/Iterations.py:ep_fwd_back_updates", "ExpectationPropagation/Iterations.py:kalman_filter"]}
