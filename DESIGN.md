# Formal model of aslam_optimizer in Rocq (Coq 8.16.1)

The model describes the C++ code of `/repo` as it is, including its defects. Where a natural
property is false for the code, the counterexample is a theorem named `..._refuted`; the part
that does hold is a theorem named `..._partial` or with a hypothesis that names the exception.
`MANIFEST.json` lists the theorems of every property, `properties.jsonl` the English statements.

## Layout

`rocq/theories` is one flat logical library `Verif`.  Every area `X` consists of

* `X_Model.v`  – the model, function by function; every definition carries a comment
  with the file and lines of `/repo` it models and says what was simplified;
* `X_Spec.v`   – the small independent specification used in statements (where one is needed);
* `X_Proofs*.v` – lemmas (also `Geo_Algebra`, `Geo_Tangent`, `Geo_Main`, `Scalar_Calc`, `Fix_Float`);
* `X_Toy.v`    – concrete environments and runs used in examples and counterexamples;
* `X_Props.v`  – nothing but property theorems, each closed by `exact`, each followed by
  `Print Assumptions`, with an `Example` that meets the hypotheses in a concrete case.

`Lib_Ring` (commutative rings, finite sums, matrices as functions), `Lib_Real` and `Lib_MatInv`
(derivatives), `Lib_Float`, `Lib_FloatMul`, `Lib_Num` (IEEE doubles through Flocq, arithmetic as a
parameter), `Lib_Res` (outcomes `Ok | Throw | UB`) model no code. `DesignVar_Base` and `Expr_Base`
hold records shared by several models.

## How numbers are modelled

* Linear algebra (chain rule, containers, Hessian, sparse matrices, Schur complement, CG,
  linear solvers, marginalization, leapfrog): an arbitrary commutative ring (a type class with its
  laws), instantiated with Z, Qc or R in the examples. Rounding is not modelled.
* Real analysis (M-estimators, expression derivatives, dog-leg norms, BFGS, detailed balance): the
  real numbers of the Coq standard library, with its axioms. Rounding is not modelled.
* Control flow that depends on comparisons (Optimizer, Optimizer2, line search, convergence
  tests, Rprop, samplers' statistics, Metropolis test): IEEE binary64 of Flocq (round to nearest
  even, NaN, infinities). Some of these are written over a record `Num` of operations and used
  with both doubles and reals.
* Design-variable classes (C15, C16): arbitrary arithmetic, no laws assumed.
* Machine integers (`uint16_t`, `uint32_t`, `int`, fixed point): explicit `mod 2^k` or `UB`.

Code that is not in the repository (Eigen factorisations and inverses, CHOLMOD, SuiteSparseQR,
sm::kinematics, user error terms, user callbacks, random numbers, scheduling of threads) is an
arbitrary parameter of the theorems. Where a contract is needed it is a hypothesis of the theorem
(`kinematics_ok`, `qkin_ok`, "the QR oracle is right on this Jacobian", ...), and an example
exhibits an instance that satisfies it.

## What is modelled

| Model | Properties | Code | Left out |
|---|---|---|---|
| `MatrixStack_Model.v` | C01 C02 | `MatrixStack.hpp`, complete: push, pop, top, allocate, matrix, header fields with their widths. | Scalars in a ring; `size_t` unbounded. |
| `Jacobian_Model.v` | C03-C06 | `JacobianContainer*.hpp`, `JacobianContainerPrescale`, sparse, dense implementation, `evaluateHessian`, merging of containers. | `checkMatrix`/printing helpers. |
| `Threads_Model.v` | C07-C10 | `ThreadedRangeProcessor`, `setupThreadedJob` of the linear solvers and of the Jacobian transpose builder, the threaded sums of `ProblemManager`; interleaving semantics. | Failure of `std::async`, weak memory; floating-point reordering (ring arithmetic). |
| `Problem_Model.v` | C11 C12 | `OptimizationProblem.cpp` as a heap of pointers with reference counts. | `OptimizationProblemBase` visitor helpers, callbacks. |
| `Layout_Model.v` | C13 C14 | `ProblemManager::initialize/applyStateUpdate`, `Optimizer::initialize` and its update. | Integer overflow of the counters. |
| `DV_Model.v` | C15 C16 | All design-variable classes of aslam_backend_expressions and `DesignVariable.cpp`, `DesignVariableVector`, `DesignVariableGenericVector`, mapped classes; `ErrorTermFunctor`. | Formulas inside sm::kinematics. |
| `Errors_Model.v` | C17 C19 | `ErrorTermFs`, `ErrorTermDs`, `ScalarNonSquaredErrorTerm`, `ExpressionErrorTerm`, `ErrorTermEuclidean`, gradient assembly. | `ErrorTermTransformation` (needs sm::kinematics' R2AxisAngle). |
| `MEstimator_Model.v` | C18 C20 | `MEstimatorPolicies.cpp`, `ProbDataAssocPolicy.cpp`. | Rounding; names. |
| `Optimizer2_Model.v` | C21-C23 C26 C28 | `Optimizer2::optimize` with everything it calls as an environment. | Exceptions from user code; output; `printTiming`. |
| `Policy_Model.v` | C24-C26 C60 | Levenberg-Marquardt, Gauss-Newton, dog-leg and line-search trust-region policies over the reals with explicit NaN/infinity. | Rounding and overflow. |
| `Callback_Model.v` | C27 C28 | `OptimizerCallbackManager`, `updateConvergenceStatus`. | A callback changing the registry while it is being issued. |
| `Optimizer1_Model.v` | C29 | `Optimizer::optimize`, `setInitialLambda`, `solveSystem` control flow. | `optimizeDogLeg`; covariance queries; output. |
| `LineSearch_Model.v` | C30-C32 | `LineSearch.cpp` complete: `dcsrch`, `dcstep`, Wolfe searches, zoom, cubic and quadratic steps. | Callbacks, logging. |
| `BFGS_Model.v` | C33 | `OptimizerBFGS::optimize`. | Rounding; stopping criterion is arbitrary. |
| `Rprop_Model.v` | C34 | `OptimizerRprop::optimize`, all four rules. | Convergence tests are arbitrary decisions. |
| `Sampler_Model.v` | C35-C37 | `SamplerBase`, Metropolis-Hastings, hybrid Monte Carlo. | Random number generators; debug checks. |
| `CCM_Model.v` | C38-C41 | `CompressedColumnMatrix.hpp`, `CompressedColumnJacobianTransposeBuilder.hpp`. | Index type overflow; capacity reservations. |
| `SBM_Model.v` | C42-C44 | `sparse_block_matrix.hpp`. | Views sharing blocks, resized dynamic blocks, file input/output. |
| `Schur_Model.v` | C45 | `sparse_matrix_functions.cpp`. | Vector lengths. |
| `Cov_Model.v` | C46 | `marginal_covariance_cholesky.cpp`. | Size of the caller's memory. |
| `PCG_Model.v` | C47 | `linear_solver_pcg.hpp`. | Rounding; dangling block pointers of a moved matrix. |
| `LinSolve_Model.v` | C48 C49 C61 | The four linear system solvers with `Cholmod.hpp` column scaling. | The factorisations themselves; threads (see C10, C41). |
| `Marg_Model.v` | C50 | `Marginalizer.cpp`, `MarginalizationPriorErrorTerm.cpp`. | Rank computation (only a warning); timing. |
| `Scalar_Model.v` | C51 | Scalar and vector expression nodes, `GenericScalarExpression`. | Rounding; float conversions. |
| `Geo_Model.v` | C52 | Euclidean, homogeneous, rotation, transformation expression nodes and their design variables. | sm::kinematics (record `kinematics`). |
| `Stale_Model.v` | C53 | The same nodes with the members that cache operand values, and histories of calls. | Concurrent use of the caches (a data race in C++). |
| `Cache_Model.v` | C54 | `CacheExpression.hpp`, `CacheInterface.hpp`, invalidation in `DesignVariable`, interleaved threads. | Weak memory; expired cache nodes; nodes with caches of their own (C53). |
| `MatExpr_Model.v` | C55 | `Differential.hpp`, `GenericMatrixExpression.hpp`, `QuaternionExpression.hpp`, `OperationResultNodes.hpp`. | Value buffers of the nodes; debug norm check; Eigen's inverse and sm::kinematics (record `qkin`). |
| `Fix_Model.v` | C56 | `FixedPointNumber.hpp`. | Unsigned `Integer` types; stream output. |
| `Empty_Model.v` | C58 | Handles of Euclidean, rotation, transformation, vector and generic scalar expressions, with null roots. | Dynamic sizes. |
| `Chain_Model.v` | C57 | `KinematicChain.hpp/.cpp`. | The members that keep built expressions (Frames). |
| `Quat_Model.v` | C59 | `RotationQuaternion` with quaternion formulas written out. | `axisAngle2quat`, `r2quat` (parameters). |
| `Vars_Model.v` | C62 | `getDesignVariables` of all scalar, vector, generic scalar and geometric expression nodes (matrix expressions: `xdvs` of MatExpr). | The set as the list of insertions. |
| `Flat_Model.v` | C63 | `getFlattenedDesignVariableParameters` (utils.hpp and ProblemManager.cpp), `utils::applyStateUpdate`, `maxDeltaX` of `OptimizerBFGS::optimize`. | A vector entry is `Some x` or `None` (not initialised); the update of one variable is a parameter. |
| `SProb_Model.v` | C64 | `SimpleOptimizationProblem` (all methods), the counting and index accessors of `OptimizationProblemBase`. | Objects are identifiers with a holder kind; the lists of released objects are ghost state that makes double delete and use after release visible. |
| `DogLeg1_Model.v` | C65 | `Optimizer::optimizeDogLeg` (both loops, choice of step, radius, fallback solver). | Real numbers; NaN and infinities as explicit outcomes; error terms, solvers and design variables are an arbitrary environment with a contract. |
| `Terms_Model.v` | C66 | `ErrorTermTransformation` (constructors, evaluateError, evaluateJacobians), `L1Regularizer`, tutorial `ErrorTermPrior`, `ErrorTermMotion`, `ErrorTermObservation`. | Real numbers. The rotation parameter vector of `sm::kinematics` is the contract of C52. Reading the caller's vector through the reference member is an explicit argument. |
| `MinDiff_Model.v` | C67 | `minimalDifference`, `minimalDifferenceAndJacobian`, update, revert, get/setParameters of all design variable classes, `DesignVariableMinimalDifferenceExpressionNode`. | Real numbers; qplus and quatInv written out; axisAngle2quat, qlog and the two Jacobians of sm::kinematics under a contract, with an exact instance. |
| `BSolver_Model.v` | C68 | `LinearSolverCholmod`, `LinearSolverQr`, `LinearSolverDense`, `CholmodExt`, `MatrixStructure::alloc`, `fillBlockStructure`, `nonZeros`. | CHOLMOD, SuiteSparseQR and Eigen::LDLT under contracts; memory is never exhausted; release build; no integer overflow outside the covariances. |
| `BlkSys_Model_Model.v` | C69 | `BlockCholeskyLinearSystemSolver` with its block solver over any sequence of calls: `initMatrixStructure`, `buildSystem`, `setConditioner`, `solveSystem`, `computeCovarianceBlocks`, `initSolver` | on top of LinSolve_Model and BSolver_Model, with their simplifications; vector sizes are those the code sets |
| `Adapt_Model_Model.v` | C70, C71 | `Vector2RotationQuaternionExpressionAdapter`; `CameraDesignVariable`: keypoint, both `evaluateJacobians`, `getDesignVariables` | real arithmetic; `quatInv`, `quatOPlus`, `quat2r` written out; a camera is a parameter; updates of the camera parameters add |
| `MatIf_Model_Model.v` | C76 | DenseMatrix, SparseBlockMatrixWrapper and the products of CompressedColumnMatrix with vectors as objects that may coincide | Eigen's sized vectors are a size and a function; the block pointer kept over the inner loops of the wrapper is looked up again; NaN entries are not modelled (C76 is about real numbers) |
| `Mapped_Model.v` | C77 | `MappedEuclideanPoint.cpp`, `MappedHomogeneousPoint.cpp`, `MappedRotationQuaternion.cpp` and their headers, `DesignVariableMappedVector.hpp`, `MapTransformation.cpp`, the loops over the design variables in `Optimizer2.cpp` and `ProblemManager.cpp` | memory by arrays that do not overlap partially; the arithmetic of numbers and of quaternions is arbitrary |
| `Fin_Model.v` | C78 | `utils::isFinite`, `isFinite` of `JacobianContainerSparse` and `JacobianContainerDense`, and again their `add`, `apply` and `addJacobian`, over numbers that need not be finite | the stack is the list of its running products; sums from left to right; `JacobianContainerFunctor::isFinite`, which forwards, is left out |
| `Own_Model.v` | C79 | `implementation/Cholmod.hpp`, `SparseCholeskyLinearSystemSolver.cpp`, `SparseQrLinearSystemSolver.cpp`, `linear_solver_cholmod.h`, `linear_solver_spqr.h`: who allocates and frees what. | Numbers and sizes (they are in LinSolve and BSolver); the arrays of `CholmodExt`, Eigen's and the standard library's memory; the workspace is one object. |
| `Text_Model.v` | C80 | `ExpressionNodeVisitor.hpp`, `ToTextNodeVisitor.cpp`, `accept` of the scalar and vector nodes and of named constants. | Type names and `operator<<` are a parameter; `accept` of the Euclidean, rotation and transformation nodes is not spelled out (the generic trees cover them); the half-written stream after an exception. |
| `Tut_Model.v` | C81 | `example.cpp` up to the complete problem, with vectors, unchecked indexing and the exceptions of their constructors. | Real arithmetic, given random numbers, `OptimizationProblem` as two lists (it is modelled in Problem), options and the run of the optimiser left out. |
| `Lin_Model.v` | C82 | The loop of `Optimizer2::optimize` over real numbers, driven by the policies of Policy_Model, on affine errors. | Real arithmetic, one vector of design variables with scaling one, no M-estimators and callbacks, the linear solver as a function with a contract. |
| `LinDL_Model.v` | C82 | `DogLegTrustRegionPolicy.cpp` as a policy of that loop, including the call at a point without gradient. | As for Lin; a NaN in the steepest descent step that is never read again is not kept. |
| `Conf_Model.v` | C83 | The option classes with their defaults, `check`, constructors from `sm::PropertyTree`, the constructors and setters of OptimizerRprop, OptimizerBFGS, Optimizer2, SamplerHybridMcmc, SamplerMetropolisHastings and LevenbergMarquardtTrustRegionPolicy as far as options go, and the `serialize` templates. | Real numbers (no NaN); the property tree and the assertion macros are not in the repository and are given their documented meaning; an archive is a list of named values. |
| `Life_Model.v` | C84 | The memory of expressions: objects, owning and non-owning (`sm::null_deleter`) shared_ptrs, use counts, destruction; the operations creating, copying, assigning, destroying and evaluating expressions. | Values are left out; single-threaded; boost::shared_ptr is given its documented meaning; `GenericScalarExpression(node, true)`, which adopts a plain pointer, and objects containing expressions that are assigned after construction are not modelled. |
| `Frames_Model.v` | C85 | `KinematicChain.hpp`, `KinematicChain.cpp`: the frames as objects with their mutable members, constructors, move, assignment, getters. | Operands are evaluated from left to right; lifetimes (C84) and the move assignment are left out. |
| `Nlin_Model.v` | C86 | `Optimizer2::optimize` with the Gauss-Newton, line-search and Levenberg-Marquardt policies on a nonlinear problem over any type of states, real numbers. | Rounding, M-estimators, callbacks, the dog-leg policy. |
| `NlinDL_Model.v` | C86 | `DogLegTrustRegionPolicy.cpp` over the reals, called by the loop of `Nlin_Model`. | Rounding, M-estimators, failing solves; the loop as in `Nlin_Model`. |
| `PyB_Model.v` | C88 | `aslam_backend_python`: `SparseBlockMatrix.cpp`, `OptimizerCallback.cpp`, the properties of `Sampler.cpp`, the status of `Optimizer.cpp`. | Conversion of arrays, reference counts, callbacks that raise exceptions, the bindings that only name a C++ function. |

### Code that is not modelled

* `aslam_backend_python` apart from the parts in C88 (the rest names C++ functions for Boost.Python), the optimiser call at the end of the tutorial program (C81 models what comes before), all tests and their helper headers.
* `Cholmod.hpp` beyond its `solve` and the ownership of its objects (C79), `solver_csparse.cpp`, `solver_dense.cpp`, `solver_pcg.cpp`, `QrSolution.hpp`: wrappers around external factorisations;
  `linear_solver_csparse.h`: it includes headers that are not in the repository.
* Printing other than the text of expressions (C80), timing, `Matrix::write`.
* `JacobianBuilder.cpp`, printing of options: plain storage and output. The linear solver option classes (plain storage).

## Properties

Status, method and what is missing; the theorems are in `MANIFEST.json`.

| Id | Property | Status | How proved | Scope and what is missing |
|---|---|---|---|---|
| C01 | Chain-rule stack holds the running product | proved | Invariant over operation lists: the header stack refines an abstract list of products. | Proved for factors that fit the 16-bit column field and 32-bit offsets (hypothesis fits). |
| C02 | Chain-rule stack memory regions are aligned, disjoint and in bounds | proved | Invariant: offsets aligned, ordered, disjoint, in bounds. | Proved within the field widths; C02_wide_matrix_refuted shows the behaviour beyond them. |
| C03 | Jacobian containers accumulate the sum over paths | proved | Induction over trees of apply/add calls: block = sum over paths of chain products. | Sparse container and prescaling wrapper. |
| C04 | Sparse and dense Jacobian containers agree | proved | Both containers refine the same sum; layout as in C13. | asDenseMatrix(colBlockIndices) against JacobianContainerDense. |
| C05 | Merging Jacobian containers adds them | proved | Induction over the two sorted key lists. | Proved for square chain-rule matrices; C05_rectangular_chain_refuted records that a rectangular chain is refused. |
| C06 | Assembled normal equations equal J^T W J and J^T W e | proved | Ring algebra, induction over the terms, permutation invariance. | Upper block triangle, right-hand side, order independence. |
| C07 | Threaded ranges cover every index exactly once | proved | Arithmetic for all lengths and thread numbers. | Ranges up to 2^31-1 as stated in the property; C07_range_beyond_int_refuted shows the bound is needed. |
| C08 | Threaded evaluation equals sequential evaluation | proved | Every schedule ends in the same store; the sum splits along the partition. | Every interleaving of main thread and workers at the granularity of one index; exact arithmetic (commutative ring). |
| C09 | An exception in a worker reaches the caller | proved | Induction over job list and schedule. | Every interleaving; failure of std::async itself is not modelled. |
| C10 | Threaded Jacobian/error evaluation jobs cover every error term once | partial | As C07. | Proved for at least one error term. For zero error terms and two or more threads the code divides by zero (C10_no_error_terms_refuted), so the full statement is false for this code. |
| C11 | Optimization problem bookkeeping stays consistent | proved | Invariant over histories. | Every history without use of a freed term. |
| C12 | Removing a design variable removes every term that uses it | partial | Invariant over histories; freed terms are a distinct outcome. | Squared terms fully; the full statement is false for this code: use after free when an owned term lists the variable twice (C12_term_listing_variable_twice_refuted), non-squared terms keep the reference (C12_nonsquared_terms_keep_reference_refuted). |
| C13 | Initialization assigns a compact column layout | proved | Induction over the variable list. | ProblemManager/Optimizer2 and Optimizer version 1. |
| C14 | A state update reaches every active design variable with its own slice | proved | Induction; every index is used once. | Including gradient scaling; a dx that is too short is read out of bounds (example). |
| C15 | Revert restores the state before the last update | partial | Each class as a (current, previous) state machine; induction over histories. | All classes over arbitrary arithmetic; false for DesignVariableGenericVector::setParameters and for its revert before any update (refuted). |
| C16 | Numerical differencing helpers leave the state untouched | partial | Uses C15. | Proved for distinct variables and returning error terms; false with repeated variables or a throwing error term (refuted). |
| C17 | Squared error equals e^T R^-1 e | partial | Matrix algebra. | Proved for ErrorTermFs / ErrorTermDs; the weighted-Jacobian statement assumes the term's own evaluateJacobians is the derivative of its error (C51, C52). False for ExpressionErrorTerm with a square root that is not symmetric (refuted); LDLT-based roots are not. |
| C18 | M-estimator weights come from robust losses | proved | Real analysis. | All six estimators over R; derivative two-sided for every s >= 0. |
| C19 | Gradient of the cost is the derivative of the cost | proved | Derivatives over R through the container model. | Any terms whose evaluateJacobians is the derivative of the error, dense or sparse container, any interleaving, with design-variable scaling; with M-estimators the gradient belongs to the robust loss, not to the weighted squared error reported (C19_reported_weighted_error_refuted). |
| C20 | Probabilistic data association gives normalised weights | partial | Softmax identity over R. | The values handed to setWeight are logarithms of the normalised weights: their exponentials are the softmax and sum to one; the stored weights themselves are negative (refuted). |
| C21 | Optimizer2 never returns a worse cost than it started with | partial | Loop invariant over doubles, any environment. | All environments and histories in double arithmetic, infinities included; excludes NaN costs, for which the claim is false (C21_nan_refuted). |
| C22 | The state left by Optimizer2 is the one it reports | proved | Loop invariant. | Every environment respecting the design variable contract of C15. |
| C23 | Optimizer2 terminates within its iteration limit | partial | Loop invariant; fuel = maxIterations. The bound on kept steps (`OptStop_*`) uses monotonicity of rounding: a computed difference above the threshold is a real one. | Termination, limits and counters for every environment. The 'unlimited' setting -1 performs zero iterations (refuted), and a second call continues the counters of the first, so it may do nothing (refuted). Independently of the limit, a reverting run without failed solves and with finite costs keeps at most JStart/convergenceDeltaError + 1 steps (C23_kept_steps, C23_kept_steps_bound, in doubles); after a failed solve that bound is lost (C23_kept_steps_failed_solve_refuted). |
| C24 | Levenberg-Marquardt damping stays positive and moves in the right direction | partial | Invariant over call histories. | Over the reals. A 0/0 gain ratio turns the damping into NaN and a damping of at most 1e-16 jumps to 1e-15 (both refuted). |
| C25 | Dog-leg steps stay inside the trust region | partial | Real analysis, call histories. | Over the reals, for histories of successful solves of full-rank systems with non-zero gradient; false at a zero gradient and after a failed solve (refuted); after a rejected step the Gauss-Newton step of an older state may be proposed (C25_stale_step_refuted). |
| C26 | A failed linear solve never produces an accepted step | partial | Loop invariant and call histories. | Loop: a failed solve never leads to a state update in that iteration; the flag is sticky (refuted for 'last solve'). LM and GN return this call's solve; dog-leg and line search return the failed solve's leftovers at the next call (refuted); LM may solve a stale system after a step with non-positive gain (refuted). |
| C27 | Callbacks run in registration order and can stop the optimization | partial | Induction over the registry. | Registry fully; no optimizer in the repository looks at the verdict, so callbacks cannot stop it (C27_stop_refuted). |
| C28 | Convergence status reports a criterion that really holds | proved | Case analysis over all doubles; loop invariant. | All doubles. Optimizer2 reports from a reset status; with a NaN cost it ends IN_PROGRESS (C28_optimizer2_nan). |
| C29 | Optimizer (v1) keeps the best state | partial | Loop invariant with a complete account of every run (`C29_history`). | Holds with damping on, no failed linear solve, finite positive predicted decreases and a last step that was kept; otherwise false: a failed solve undoes the last accepted step, the cost of an undone step is reported, Gauss-Newton keeps any step and never rebuilds its system after a failed solve, the estimated initial damping reads wrong or out-of-range entries (refuted). The complete account of every run is C29_history. The damping after a kept step, in doubles: C29_damping_partial (beta = 2). |
| C30 | A successful line search satisfies the strong Wolfe conditions | partial | Invariants over trial sequences, for reals and doubles. | lineSearchWolfe1: full strong Wolfe conditions in exact arithmetic and as computed in doubles. lineSearchWolfe12 (used by BFGS): curvature, position and decrease; sufficient decrease is refuted because zoom uses the slope at the lower interval end. When each search throws or returns, for any arithmetic: C30_outcomes; at slope zero: C30_stationary; with default options the search throws after very small progress: C30_tiny_progress_refuted. |
| C31 | Step lengths stay in the configured interval and the bracket is ordered | partial | Invariant of the bracket. | Steps are within the bounds, or 0, or NaN; the best point is at the first end when no trial decreases too little. C31_lower_bound_refuted and C31_best_end_refuted give the counterexamples to the full statement. |
| C32 | A failed line search leaves the problem at its start | partial | Invariant: position = start + step * direction. | The failed search leaves the design variables at the last trial (refuted); they are at start plus reported step, so step length 0 restores them. |
| C33 | BFGS inverse-Hessian update keeps secant equation, symmetry and positive definiteness | partial | Matrix algebra over R, induction over runs. | Exact arithmetic. Update: symmetric, secant, positive definite (proved for all n). Whole runs: symmetry and non-ascent unconditionally; positive definiteness and strict descent for c2 < 1 and non-negative accepted steps (c2 < 1 is not required by the option check). |
| C34 | Rprop step sizes stay within their bounds | partial | Monotonicity of double multiplication, induction over iterations. | Double precision, all four rules, any number of iterations, for sane options (initialDelta within bounds, etaMinus <= 1 <= etaPlus, finite maxDelta). The option check is weaker (refutations); a reverted step has the size before shrinking (refutation). |
| C35 | Metropolis-Hastings satisfies detailed balance | partial | Algebra over R; invariant over histories. | Detailed balance (exact arithmetic), one step and caching in every arithmetic and over all histories without exceptions. Refuted otherwise: an exception while evaluating the proposal leaves the proposal with a stale cached value (C35_exception_refuted); a NaN density is always accepted (C35_nan_refuted). |
| C36 | Hybrid Monte Carlo integrates reversibly and restores on rejection | proved | The leapfrog trajectory is an involution up to the sign of the momentum; invariant over histories. | Reversibility for every gradient, step size, step count; rejection and exceptions restore; cached values valid over all histories; detailed balance for unit momentum. C36_sigma_refuted: with standardDeviationMomentum other than 1 the acceptance rule does not fit the sampled momenta. Exact arithmetic. |
| C37 | Sampler statistics are exact counts | proved | Induction over runs. | Counts for every virtual step and history; rate in double precision; running mean in exact arithmetic. |
| C38 | Compressed-column matrix access equals the dense matrix it stands for | partial | Representation invariant, refinement to the dense matrix. | Proved for every history of constructor, init (empty object), clear+init, fromDense, fromCholmodSparse (sorted arrays whose nzmax entries are all in use), appendJacobians, push/pop/update calls; NaN entries given to fromDense are lost (refuted); CHOLMOD matrices with unused room are refused and the mark of an appended diagonal survives (refuted). |
| C39 | Compressed-column products equal dense products | partial | Refinement. | Products proved for every reachable matrix; while a diagonal is appended they are those of the matrix without it, so the claim as stated is refuted. |
| C40 | Pushing and popping the diagonal block are inverse | partial | Refinement; histories. | Push/pop/update proved for every history; clear followed by init proved; clear alone, init of a non-empty object, fromDense on a matrix with diagonal and update with a wrong size are refuted. |
| C41 | The sparse Jacobian transpose builder stores the true Jacobian | partial | Symbolic structure plus values; any order of writes. | Any number of threads and any order of the writes; at least one error term and one design variable, at most 2^31-1 error terms, Jacobian containers sorted as JacobianContainerSparse keeps them and holding exactly the active design variables. |
| C42 | Block-sparse matrix operations agree with dense algebra | partial | Refinement to dense matrices. | Element access, dense conversion, add, scale, clear, clone, slice, sliceInto and vector products proved for every layout and content; transpose and multiply proved for a new destination. Refuted for existing destinations: transpose keeps stale blocks, multiply and the pointer vector products accumulate. |
| C43 | Symmetric permutation of a block matrix is P A P^T | proved | Refinement to dense matrices. | Full and upper-only permutation for every layout, content and permutation (non-empty square matrices); the code maps old block i to new block pinv[i], the header comment says the opposite. |
| C44 | Block matrix to compressed-column conversion is faithful | partial | Refinement to dense matrices. | Full conversion, values-only refill and block structure proved for every matrix; upper-triangle versions proved for upper-only storage without empty blocks and refuted otherwise. |
| C45 | Schur complement solve equals solving the full system | proved | Matrix algebra; equivalence of solution sets. | For every layout, split point and symmetric matrix whose eliminated blocks are not coupled: the solutions of the full damped system are exactly the solutions of the reduced system with the back-substitution. Coupled eliminated blocks are ignored without notice (C45_coupled_refuted). |
| C46 | Marginal covariances are entries of the inverse | partial | Induction on the index order; uniqueness of the inverse. | Diagonal and requested blocks equal the blocks of the inverse for every Cholesky factor and permutation with n*n below 2^31; missing: larger matrices, where the int index overflows (C46_large_refuted). |
| C47 | Conjugate gradient keeps its residual honest | partial | Loop invariant. | The residual tested is the true preconditioned residual at every iteration and leaving through the tolerance test means it is below the threshold (every matrix with stored diagonal, right-hand side, tolerance, iteration limit). Over the reals, for symmetric positive definite matrices and a limit that is the default or at least the number of unknowns, the loop always ends within the threshold and with threshold 0 solves the system exactly, without dividing by zero; with any limit b.x = x.Sx. Refuted: success in general, since true is also returned at a smaller iteration limit, the threshold can be left over from an earlier solve and the block index can be stale. |
| C48 | A linear solve leaves the system unchanged | partial | Push/pop inverse (C40); exact effect of each solve. | Sparse Cholesky, sparse QR and dense QR restore the system exactly. The block solver adds c^2 and takes away c: proved what each solve does to the stored diagonal, refuted that it is unchanged; an exception in the covariance query leaves the damped Hessian. |
| C49 | All linear solvers solve the same damped normal equations | partial | Each assembled system is compared with J^T W J + diag(c^2). | Proved for block Cholesky (with scaled columns), sparse Cholesky and dense QR (either flag value); sparse QR solves the undamped system. Refuted: scaling other than one makes the solvers disagree, sparse QR ignores the conditioner, dense QR reads an uninitialised flag. |
| C50 | Marginalization prior preserves the cost | partial | QR algebra; minimisation over the removed variables. | Proved for every world, QR oracle right on its Jacobian, and linearly independent removed columns: prior cost + const = min over the removed variables; indices restored on normal return. Refuted: rank-deficient removed columns lose information, exceptions leave indices changed, too large numTopRowsInCov reads out of range. |
| C51 | Scalar expression Jacobians are the derivatives | partial | Structural induction, derivatives over R, through the container. | Proved for all scalar and vector expression trees at all points of the domain (real arithmetic), through the container. False for division of GenericScalarExpression (factors swapped), acosSquared closer than 2^-26 to one (series, error bound proved) and power 0 at 0 (0 * inf). |
| C52 | Geometric expression Jacobians are the first-order change | partial | Structural induction with tangents in the left convention. | For every tree of scalar, vector, Euclidean, homogeneous, rotation and transformation nodes (and MatrixBasic factors) the container holds the exact first-order change in the left convention dC = - phi^x C, dt = rho + t^x phi. sm::kinematics is assumed to satisfy kinematics_ok (met by a concrete instance). Missing: acosSquared where it uses a series and power 0 at 0 (see C51), Jacobians taken before evaluating at the current state (see C53). |
| C53 | Jacobians refer to the current state | partial | Invariant over call histories. | Proved: after an evaluation of the expression and no further change of the design variables the Jacobian calls are those of the current state, whatever happened before (C53_after_evaluation_partial); expressions whose caching nodes are only below nodes that evaluate again are always current (C53_current_partial). The general claim is refuted by a stale Jacobian (C53_stale_refuted) and by an uninitialised read (C53_uninitialised_refuted). |
| C54 | Cached expressions are transparent | partial | Invariant over interleavings; determinism, deadlock freedom, termination. | Values are transparent for every history and interleaving in which no piecewise expression is cached and no design variable is changed by set(); Jacobians if moreover variables whose activity changed are updated before the next Jacobian. Contents are race free, evaluation is deadlock free and terminates for all histories. Refuted: activity changes, piecewise expressions and set() leave stale caches; the validity flags race. Sequentially consistent memory assumed; expired cache nodes not modelled. |
| C55 | Matrix and quaternion expressions differentiate correctly | partial | Structural induction below an arbitrary differential. | Proved for every nesting of product, sum, difference, transpose, negation, scaling, inverse, cross product, quaternion product, conjugate, inverse, imaginary part, rotate, exp and log over vector and RIGHT_TRANSLATED unit quaternion design variables, constants and expressions of other kinds, below every differential. Refuted: conversion of a matrix composed with a further differential, squaredNorm of a composite vector and toScalarExpression inside larger expressions (undefined behaviour), LEFT_TRANSLATED unit quaternions. inverse() needs the operand to stay invertible nearby. sm::kinematics and Eigen's inverse are assumed correct (qkin_ok). |
| C56 | Fixed-point numbers obey exact arithmetic up to one unit | partial | Integer and floating-point arithmetic (Flocq). | Proved: sums, differences, negatives, comparisons; products and quotients of 1-, 2- and 4-byte numbers; 8-byte ones when the product of the numerators is below 2^64 (error below two units otherwise, refuted truncation C56_mul_long_refuted); conversion of non-negative numbers to another divider (negative: C56_convert_negative_refuted); conversion to double and back for representable numbers with numerator below 2^53 (C56_double_refuted above), at most one unit lost otherwise. Signed Integer types, x87 long double, gcc conversions. Results that do not fit: C56_overflow_refuted. |
| C57 | Kinematic chain quantities are time derivatives of each other | partial | Induction on the depth of the chain, derivatives over R. | velocity, angular velocity and angular acceleration proved for every chain and motion; acceleration proved up to the missing second Coriolis term (exact formula), right where those terms vanish, refuted in general (slider on a turntable). The members caching built expressions are the subject of C85. |
| C58 | Empty expressions act as neutral elements | partial | Case analysis over handles. | sums, negation, cross product, scaling, rotations, transformations: proved for all handles; refuted: empty minus p gives +p, elementwise product and transformation of an empty point and generic scalar operators reach a null pointer. Stacking takes scalar expressions, which cannot be empty; dynamic-size empty vectors are not modelled. |
| C59 | Rotation design variables stay rotations | proved | Quaternion algebra, induction over histories. | Real arithmetic; sm::kinematics is external: qplus and quat2r are written out, axisAngle2quat and r2quat are assumed to return unit quaternions (shown for the exact formula of axisAngle2quat). C59_unit_needed shows that assigned quaternions have to be of unit norm. |
| C60 | A rejected dog-leg step never enlarges the trust region | partial | Real analysis. | Holds when the gain ratio computed by the policy is not positive; in general false: the rejected cost is compared with the cost before the last accepted step (refuted). |
| C61 | The curvature along the gradient is |J rhs|^2 for every linear solver | partial | Matrix algebra. | Proved for sparse Cholesky, sparse QR and dense QR, and that rhs is - J^T e in all of them and in the block solver; the block solver multiplies only the stored upper half: right without coupled design variables, refuted in general. |
| C62 | getDesignVariables reports exactly the design variables an expression depends on | partial | Structural induction over all expression families. | Proved for every expression tree in the state in which it is asked (matrix expressions: both directions without left-translated quaternions and null differential, C62_matrix_refuted otherwise). False over the lifetime of an error term for piecewise expressions (C62_piecewise_refuted). |
| C63 | The flattened parameter vector holds every parameter, and a state update moves it by the scaled step | partial | Induction over the list of design variables with the running offset as invariant. | utils version, updates and maxDeltaX proved; the ProblemManager version is refuted for matrix parameters |
| C64 | SimpleOptimizationProblem holds what was handed over since the last clear and releases each owned object once | partial | Induction over the history; invariants relating the stored lists to the calls since the last clear() and the deleted objects to the calls before it. | contents, safety and single deletion proved under stated conditions; clear() and double ownership refuted |
| C65 | optimizeDogLeg keeps every step inside the trust region and ends in the best state it tried | partial | Loop invariant over the ghost log of trials; algebra of the interpolation coefficient; termination by halving of the radius. | proved over the reals for runs that meet no NaN; marginalised variables, negative convergenceDeltaX, the Cauchy point and the predicted decrease are refuted |
| C66 | The error terms shipped with the libraries return the derivatives of their own error | partial | Derivatives over the reals through the sparse container model; the transformation term reuses the Jacobian theorem of the expression trees (C52); the L1 term is shown to be a subgradient everywhere and the derivative away from 0. | Jacobians after evaluateError at the same state; refuted: stale error matrix of ErrorTermTransformation, vector of L1Regularizer changed by the caller, derivative of L1 at 0 (it is a subgradient there) |
| C67 | The minimal difference inverts the update and its Jacobian is its derivative | partial | Associativity of the quaternion product moves the update to the evaluation point; chain rule along curves of unit quaternions. The contract of the logarithm is proved for the exact formulas, including the removable singularity at the identity. | proved for the classes that own their value; refuted for the four mapped classes (they use the backup), DesignVariableAdapter writes nothing |
| C68 | The block linear solvers solve the system they are given, over any sequence of calls | partial | Invariant over the history: the arrays are as long as the recorded sizes, and while a symbolic factor exists they hold the compressed columns of the last pattern, of which it is the analysis. The compressed columns are those of C42 to C44, the covariances those of C46. | Proved for every history of calls that obeys the init() rule of linear_solver.h, any number ring, under contracts for CHOLMOD, SuiteSparseQR and Eigen; refuted: empty matrix, failed analysis or ordering (null pointer), dense solver on a singular system, pattern change without init. |
| C69 | BlockCholeskyLinearSystemSolver solves the current normal equations in every iteration | partial | Invariant over the history: the blocks of the Hessian are exactly the couplings of the first linearisation, plus the diagonal once a damped call was made; the matrix the solver saw last has the couplings plus the diagonal if damping is on. So the pattern handed to the solver never changes between two initMatrixStructure, and C68 (the session theorem of the block solvers), C06/C49 (assembly) apply at each call. Refuted by concrete runs: a coupling that appears after the first linearisation (memory error), covariances with SuiteSparseQR (always an exception). | Proved for every disciplined history of calls, CHOLMOD and SuiteSparseQR; refuted: a coupling that appears after the first linearisation (memory error), covariances with SuiteSparseQR (always an exception); a second damped solve without rebuild is C48. |
| C70 | Vector2RotationQuaternionExpressionAdapter is a rotation with the right Jacobian | partial | The container holds M(q) times the derivative of the four-vector (C52 for the vector expression, chain rule of C01/C03). A curve of unit quaternions is orthogonal to q; on such tangents the derivative of quat2r is - (M dq)^x C (polynomial identity). Refuted by a plain four-vector design variable: it leaves the sphere and no phi at all describes the change. | Proved for every four-vector expression that stays a unit quaternion along the updates; refuted for a plain four-vector design variable. |
| C71 | CameraDesignVariable adds the derivatives of the reprojection error | partial | The container after the calls holds what was added for each design variable (C03); linearity of the derivative. The overload without a chain rule never adds the shutter: refuted with a camera that has an active shutter. | Proved for the overload with a chain rule and, for projection and distortion, for the one without; refuted: the latter forgets an active shutter. A camera is any record whose Jacobians are its derivatives. |
| C72 | The step of the linear solvers is the best step and descends the real cost | partial | C49 gives the normal equations; tested against any z they read N(x,z) + G(z) = 0 for the damped bilinear form N and the gradient G, so cost(y) = cost(x) + N(y - x, y - x); the cost is written term by term, independently of the stacked matrix. The derivative of the real cost along x is 2 G(x) = -2 N(x,x), negative unless the gradient vanishes. | Proved for the block solver with any scaling; sparse Cholesky and dense QR for scalings of one; sparse QR without damping (C49 refutes the rest). |
| C73 | Levenberg-Marquardt does not reject steps for ever | partial | Each rejection multiplies lambda by at least two (C24), lambda is bounded below by a constant of the parameters, so after k rejections it is at least low * 2^k. With m on the diagonal (lambda^2, or what the drift of the block solver leaves: at least lambda^2 - lambda) the normal equations give m |x| <= |g| and m |x| >= |g_p| - B |x|, so G(x) <= - |g_p| |x| / 2 for large m; the real cost is differentiable (sums, products and composition of derivatives), hence falls for short x. | Proved for all histories of the policy, for the block, sparse Cholesky and dense QR solver models; missing: linear solves that fail, the limits of Optimizer2's loop, rounding. The hypothesis that the cost is linearised by the system holds for the cost Optimizer2 compares only without an M-estimator or with fixed weights (see C75). |
| C74 | The Levenberg-Marquardt gain ratio compares the real decrease with the predicted one | partial | From the damped normal equations: predicted decrease = dx^T (lambda^2 dx + rhs) and the denominator of the code = predicted + (lambda - lambda^2) |dx|^2 > 0. Refuted by a linear error term with the default parameters. | False in general (C74_refuted: lambda is used where lambda squared is the damping); proved: exact relation to the predicted decrease, correct for lambda = 1, correct sign for all lambda > 0. |
| C75 | Steps with M-estimators lower the robust cost, and such steps are accepted | partial | The loss lies below its tangent (mean value theorem, the weights fall), so the change of the robust cost is at most that of the weighted squared errors with the old weights, which C72 bounds. The second half is refuted: the reported cost is sum w(s) s, and two linear error terms with the Huber estimator make Levenberg-Marquardt take back every step. | Proved for error terms linear in the step, for the block, sparse Cholesky and dense QR solver models: the step never raises the robust cost and lowers it unless it is stationary. Refuted: Optimizer2 compares the sum of weight times squared error, and with Huber it can take back every such step for ever. Missing: nonlinear error terms, rounding. |
| C76 | The implementations of Matrix can be used for one another | partial | The vectors of the caller are objects in a store, so that source and destination may coincide. Invariant over the four nested loops of the block wrapper (which entries have been written, which blocks exist); the loops of the products are simulated by those of C39 and C42. Refuted: a product in place gives zero for the block matrix and is wrong for compressed columns, a CompressedColumnMatrix with appended diagonal keeps that flag when it reads a dense matrix, and a negative tolerance is taken as its absolute value only there. | Proved for the dense and block implementations, and for the compressed column one without an appended diagonal; refuted with one, for negative tolerances and for products in place. |
| C77 | Mapped design variables are views of the caller's memory | partial | The memory is a function from addresses to arrays; objects hold an address, the previous value and, for quaternions, the rotation matrix. Programs are lists of calls and writes. The view property is an invariant of every step, proved by induction over the program; for quaternions it holds as long as only the object's own functions other than set write the array (a condition along the program). Reverting is proved from what each pass over the list does inside and outside the mapped addresses. Refuted for set of a quaternion, for writes of the caller to a quaternion and for reverts with a shared array, each for all contents. | Proved for points, vectors and homogeneous points without conditions, for quaternions while only their own functions other than set write the array; reverting for arrays mapped once. Refuted: set of a quaternion, writes of the caller to a quaternion, reverting with a shared array. |
| C78 | Jacobians that are not finite are noticed | partial | Containers over an arbitrary arithmetic with a finiteness test; the stack is the list of running products. Backwards induction over the calls: if the final sum is finite, so was the sum before the call and so was what the call added; for a matrix product finiteness of all entries gives that of all entries of both factors, down the whole stack. The contract is proved for Flocq's binary64. Missing entries, exactness and independence of the order are separate theorems; a missing entry together with a non-finite one makes the answer depend on the order, and finite summands may overflow: both refuted. | Non-finite numbers are always noticed; exactness for one design variable. Refuted: the order of the set matters when the sparse container lacks a design variable; finite summands may overflow. |
| C79 | What CHOLMOD and SuiteSparseQR hand out is freed exactly once | partial | A heap of allocated objects and an oracle for the libraries' answers; weakest preconditions of the member functions; an ownership invariant kept by every call, by induction over the history. | The Cholesky solver keeps the balance for every history. QR solver: only while scaling and numeric factorisation succeed, and it follows a null result otherwise; block Cholesky: only if no failure but NOT_POSDEF; block QR: leaks a workspace per solve; a copied solver frees twice (refuted theorems show each). |
| C80 | The text of an expression says what the expression is | partial | The visitor's stream is threaded through a model of `NodeImpl` and `visitV`; the loop is proved to write the arguments once and in order by induction, and the grammar is shown to be readable back by induction over trees with a rest that starts with a closing mark. | Text, order of the arguments and readability are proved for every tree. Different expressions can share a text: differences, nodes without an accept of their own, and names that imitate the notation (C80_refuted). |
| C81 | The tutorial program poses the estimation problem it describes | partial | Loop invariants for the five loops of the program, then induction along the chain of positions. | Problem, Jacobians, rank and uniqueness proved for every K (K >= 1, rank and uniqueness K >= 2) and all noise; refuted: K = 0 writes past the end of a vector, K = 1 leaves the wall unobserved, the first guess may divide by zero. |
| C82 | Linear least-squares problems are solved | partial | Algebra of a damped step on a quadratic cost (contraction by (L²/(mu+L²))², the gain ratio is positive and at least one when the damping is), then an invariant of the whole loop of Optimizer2 with the policy's state, by induction over iterations. With the dog-leg policy (LinDL_*): every step taken lowers the cost by a fixed share (the Cauchy decrease within the radius, no step is ever taken back and the radius stays large enough), so the cost falls at a linear rate; started at the minimum the step is 0/0 (refuted). | Proved over the real numbers for linear error terms with a full-rank Jacobian: the minimiser exists and is unique, one Gauss-Newton step reaches it, line search, Levenberg-Marquardt and the dog-leg policy (from any start that is not the minimum) converge to it. Refuted: that the returned status tells a solved problem apart, and that the dog-leg policy can be started at the minimum (0/0). |
| C83 | Options read from a configuration are the ones in force | partial | Each constructor is characterised completely (returns / throws / undefined) against a table of keys, defaults and ranges; histories of setters by induction; serialization by loading what was saved. | Real numbers. Proved for what the constructors and initialisations check; refuted: Optimizer2 and the setters do not check, both names of an option, parts set by setOptions, several ranges, negative counts, options without keys. |
| C84 | Expressions keep their operands alive | partial | Invariant over all programs: the use count of every node is the number of its owners and it is alive exactly when that is positive; nodes only point to older ones, hence evaluation terminates, no cycle keeps anything alive; the release worklist preserves the invariant. | An expression made from a plain pointer (toExpression()) does not keep its object alive: refuted; proved for all programs with the condition that these objects still exist. |
| C85 | A coordinate frame hands out the quantities of its chain, whatever was asked before | partial | Frames are objects with a parent and kept expressions; invariant: what is kept is empty or the expression C57 gives for the chain. Chains have no repetitions, hence the recursion fits a stack of as many calls as there are frames. Induction over programs; with the theorem on motions of C57 as a corollary. Refuted for assignments to parents (stale, or a frame that is its own parent) and moves. | Proved for all programs that move no frame and assign only to frames that are nobody's parent; otherwise refuted (stale members, a frame that is its own parent, a moved-from parent). Evaluation order from left to right. |
| C86 | A run that says it converged has reached a nearly stationary state | partial | Loop invariant: the step of the last iteration solves the (damped) normal equations at the state where it was computed; for Levenberg-Marquardt also that the solver holds the system of that state and that the gain ratio of an accepted step is positive; for the dog-leg policy that the proposed step is the Gauss-Newton step or as long as the radius. Counterexamples computed in closed form. | For the status DX, in real arithmetic and with exact solves: the gradient at the last state where a step was computed is bounded by the limit (Gauss-Newton), by the limit and the shortening of rejected steps (line search), by the limit and the last damping (Levenberg-Marquardt), by the limit unless the trust region itself is that small (dog-leg; after a rejected step the bound may be for an older state); stationary starts stay and report DX. False for the status DOBJECTIVE (C86_objective_refuted), and for Levenberg-Marquardt without the damping in the bound (C86_damping_refuted). Missing: rounding, M-estimators. |
| C87 | Gauss-Newton finds the minimum from a good first guess | proved | Contraction estimate of one Gauss-Newton step (Cauchy-Schwarz, full-rank margin), invariant of the loop with linear and quadratic bounds, geometric series for the distance at DX; counterexample: a two-cycle of Newton's method. | Real arithmetic, vector parameters, no M-estimators. From a bad first guess the iteration may not converge (C87_bad_guess_refuted). |
| C88 | The Python module offers what the C++ classes do | partial | Invariant over the operations (blocks of the right size, dense matrix as ghost state), reduction to C42; induction over the history of the registry. | Matrix operations with blocks of the right size, callbacks with lists of events only, properties. Refuted: blocks of another size are accepted, isBlockSet tests no column, isBurnIn can neither be read nor written, a list with a wrong element is half registered, the result of a callback is dropped, MAX_ITERATIONS has no name. Conversion of arrays and the bindings that only name a C++ function are not modelled. |
| C89 | Levenberg-Marquardt reaches nearly stationary states | partial | Invariant of the loop with two counters: iterations that lower the cost by at least delta, and the others, which raise the damping by at least the factor kappa > 1; above a known damping every step lowers the cost by half of the denominator of the gain ratio (Cauchy-Schwarz, curvature), so the second kind is bounded by the first kind, and the first kind by the initial cost. | Over the reals, for all problems whose Jacobian and curvature are bounded where the cost is at most the initial bound, odd pInit, gammaInit < 2 muInit and < 2 betaInit (the defaults): among any N + 1 successive states one is stationary up to eps unless the run ends; damping bounds, no failed solve, DX bounds the gradient by a factor known in advance. Missing: that the last state is the nearly stationary one (false for DOBJECTIVE, see C86), rounding, M-estimators. |
| C90 | The line searches choose trial points that keep the minimum enclosed | proved | The fraction r of each cubic step is shown to lie in (0,1) from the sign of the slope at the near end and a higher value or an ascending slope at the far end, also where the square root is taken of a negative number (0 in exact arithmetic); on a parabola r is computed. The meaning of a bracket is the extreme value theorem. The search is an induction over the calls. | In exact arithmetic. The bracket is proved to stay valid for every call of dcstep; measured values and the best value along all searches. Not claimed: that the bracket of the tilted function used in the first stage of a search is one of the function itself. |
| C91 | Quaternion expressions compute quaternion algebra | proved | The code's products for sizes 4x4, 4x3 and 3x4 are compared entry by entry with Hamilton's product of four numbers; the properties of rotations follow from associativity and the conjugate of a product. | For the values of all quaternion nodes except exponential and logarithm, whose values come from another library. |

## Trusted base

* The kernel of Coq 8.16.1, including its `vm_compute` conversion.
* The axioms listed below, all from Coq's standard library. No axiom is added; no section variable is left outside a section,
  no kernel check is switched off, nothing is admitted, no functor or module type is defined.
* That the model definitions say what the C++ text says. This is by reading only: each definition cites its
  lines. Simplifications are in the header of each model file and in the table "What is modelled".
* Common to all models: the C++ is read as a release build (`SM_ASSERT_*_DBG` and `assert` off; where such a
  check guards undefined behaviour the model has the outcome `UB`); memory allocation succeeds; console output, timers
  and logging are left out; `size_t` counters do not wrap around unless the model says so; the weak memory model of C++
  is replaced by sequential consistency (C08, C09, C54).

### Axioms (Print Assumptions)

| Set | Axioms |
|-----|--------|
| A | none (closed under the global context) |
| B | `ClassicalDedekindReals.sig_forall_dec`, `FunctionalExtensionality.functional_extensionality_dep` |
| C | B and `ClassicalDedekindReals.sig_not_dec` |
| D | C and `Classical_Prop.classic` |
| E | `ClassicalDedekindReals.sig_forall_dec` |

These are the axioms under the real numbers of the standard library; `classic` enters through Flocq, `Rpower`/`acos`/`atan`
lemmas and the mean value theorem. `ClassicalEpsilon.constructive_indefinite_description` is used only by the example instance
of `qkin_ok` beside C55, not by a theorem.

**Set A** (229 theorems): C01_{top_is_product_of_factors, every_level_is_a_prefix_product, pop_restores}; C02_{regions_aligned_disjoint_in_bounds, empty_stack_throws, wide_matrix_refuted}; C03_{sparse_container_sums_over_paths, prescaled_container_sums_over_paths}; C04_{sparse_dense_agree}; C05_{merge_adds, apply_chain_rule_premultiplies, rectangular_chain_refuted}; C06_{normal_equations, order_independent}; C07_{ranges_cover_once, no_threads_refused_empty_range_no_job, range_beyond_int_refuted}; C08_{total_error, gradient, gradient_job, linear_system_error}; C09_{exception_of_lowest_job, ends_with_all_workers_ended}; C10_{ranges_cover_once_partial, no_error_terms_refuted}; C11_{contents_match_history, only_duplicates_throw}; C12_{remove_design_variable_partial, term_listing_variable_twice_refuted, nonsquared_terms_keep_reference_refuted}; C13_{layout_is_compact, columns_partition, initialize_idempotent, optimizer1_layout}; C14_{state_update_slices, gradient_scaling}; C15_{revert_restores_partial, parameters_restore_value, save_restore_all, generic_vector_set_then_revert_refuted, generic_vector_fresh_revert_refuted, rotation_from_matrix_refuted}; C16_{functor_leaves_state_partial, repeated_variable_refuted, throwing_error_refuted}; C17_{squared_error_is_quadratic_form, squared_error_from_square_root, expression_error_term_partial, expression_error_term_refuted}; C27_{order, registered, removed}; C28_{success}; C30_{wolfe1_computed, outcomes, stationary}; C35_{step, cache_partial}; C37_{counts}; C38_{access, calls, from_dense, nan_refuted, cholmod, cholmod_refuted}; C39_{products_partial, diagonal_refuted}; C40_{push, pop, reset_partial, clear_refuted, init_refuted, from_dense_refuted, update_refuted}; C41_{builder_partial, disjoint}; C42_{access, transpose_partial, transpose_refuted, add, multiply_partial, multiply_refuted, vectors, pointer_refuted, scale_clear_clone, slice, slice_into}; C43_{full, upper, layout}; C44_{full, upper_partial, values, lower_refuted, triu_refuted, empty_refuted, structure}; C45_{elimination, coupled_refuted}; C46_{diagonal_blocks, requested_blocks, large_refuted}; C47_{honest_residual, success_refuted, leftover_threshold_refuted, stale_index_refuted}; C48_{sparse_cholesky, sparse_qr, dense, block_partial, block_refuted, covariance_refuted}; C49_{block, sparse_cholesky, dense, sparse_qr_partial, scaling_refuted, sparse_qr_refuted, dense_flag_refuted}; C50_{restored, prior_jacobian}; C53_{uninitialised_refuted}; C54_{value_partial, jacobian_partial, contents, no_content_race, flag_race_refuted, no_deadlock, terminates, finishes, activity_refuted, piecewise_refuted, set_refuted}; C56_{convert_negative_refuted}; C61_{sparse, dense, block_partial, block_refuted, rhs_sparse, rhs_dense, rhs_block}; C63_{utils_flatten, manager_flatten_partial, manager_general, update_slices, update_moves}; C64_{contents_partial, no_double_delete_partial, double_ownership_refuted, safe_partial, clear_partial, clear_refuted}; C68_{cholmod_partial, qr_partial, dense_partial, dense_refuted, more_blocks_refuted, fewer_blocks_refuted, qr_more_blocks_refuted, empty_refuted, failed_analysis_refuted, failed_ordering_refuted}; C69_{sessions_partial, new_coupling_refuted, qr_covariance_refuted}; C76_{appended_diagonal_refuted, in_place_dense, in_place_block, in_place_refuted}; C77_{constructed, view, view_partial, set_stale, set_refuted, write_stale, revert, revert_after, updateMap, revert_shared_refuted, transformation_partial, transformation_refuted}; C78_{detects_sparse, detects_dense, sparse, sparse_missing, dense, loop, order_partial, order_refuted}; C79_{cholesky, qr_partial, qr_defined, qr_refuted, block_cholesky_partial, block_cholesky_refuted, block_qr_partial, block_qr_quiet, block_qr_refuted, copy_refuted}; C80_{text, readable}; C81_{zero_refuted}; C83_{serialization, other_archive, rprop_in_force, hmc_in_force, parts_partial}; C84_{kept_alive_partial, evaluate, alive_exactly_while_owned, drop, assign, end_of_variable, no_leak, usable_refuted, shared_refuted}; C85_{getters_partial, asking}; C88_{matrix_partial, size_refuted, at_refuted, isBlockSet_refuted, no_storage, callbacks_partial, add_refuted, verdict_refuted, property, isBurnIn_refuted, status_refuted}.

**Set B** (136 theorems): C19_{nonsquared_term}; C24_{positive_partial, failure, consecutive_failures, success_partial, nan_refuted, jump_refuted}; C26_{lm_gn, lm_fresh_partial, lm_stale_refuted, linesearch_partial, linesearch_refuted}; C33_{update, direction, curvature_needed_refuted}; C36_{reversible}; C47_{converges, exact, truncated}; C50_{prior_partial, rank_refuted, exception_refuted, top_rows_refuted, covariance}; C51_{generic_partial, generic_division_refuted, derivative_unique}; C55_{jacobian_partial, scalar_partial, unary, binary, conversion_partial, columns, conversion_refuted, exp_refuted, squaredNorm_refuted, entry_refuted, left_translated_refuted}; C56_{add, sub, neg, compare, convert_partial}; C58_{generic_partial}; C59_{history, history_matrix}; C62_{generic, generic_reads, matrix_partial, matrix_reads, matrix_blocks, matrix_refuted}; C63_{manager_flatten_refuted, max_delta_partial}; C65_{cauchy_refuted}; C66_{prior, motion, observation, l1_subgradient, l1_derivative, l1_reported_partial, l1_reference_refuted, l1_kink_refuted, transformation_zero}; C67_{self_partial, update_partial, set_partial, zero_only_partial, jacobian_partial, expression_partial, mapped_zero, mapped_reverted}; C71_{chain, plain_partial, shutter_refuted}; C72_{block, sparse_cholesky_partial, dense_partial, sparse_qr_partial}; C74_{block_partial, sparse_cholesky_partial, refuted}; C76_{dense, block, block_size, column_partial, negative_tolerance_refuted}; C81_{problem_partial, well_formed, jacobians, truth, observable, arguments, one_refuted, start_refuted}; C82_{reach, minimum, gauss_newton, line_search, levenberg_marquardt, status_refuted}; C83_{rprop, bfgs, hmc, unchecked_partial, optimizer2_partial, defaults, bfgs_in_force, stays_valid_partial, setters_refuted, optimizer2_refuted, both_names_refuted, parts_refuted, ranges_refuted, counts_refuted, every_option_refuted}; C85_{assign_refuted, move_refuted, cycle_refuted}; C86_{gauss_newton_partial, line_search_partial, levenberg_marquardt_partial, stationary_start, objective_refuted, damping_refuted}; C87_{bad_guess_refuted}; C91_{product, conjugate, imaginary, inverse, cross, rotate, rigid, compose, undo, direction}.

**Set C** (53 theorems): C17_{weighted_error_norm, weighted_jacobian_is_derivative}; C18_{weight_positive, blake_zisserman_cut}; C19_{squared_term, gradient_is_derivative_of_cost, reported_weighted_error_refuted}; C25_{stale_step_refuted, inside_partial, path, gauss_newton, zero_gradient_refuted, failed_solve_refuted}; C26_{dogleg_refuted}; C30_{wolfe1, wolfe12_partial}; C31_{trials_partial}; C32_{can_go_back_partial}; C33_{run, descent_partial}; C36_{rejection, cache}; C37_{mean}; C58_{generic_refuted}; C59_{axis_update, unit_needed}; C60_{shrinks_partial, rejected_step_refuted}; C65_{best_state_partial, terminates_partial, completes_partial, terminates_refuted, marginalised_refuted, stationary_refuted, gain_refuted, robust_solver_refuted}; C73_{block_partial, sparse_cholesky_partial, dense_partial}; C75_{reports_order}; C82_{dog_leg_partial, dog_leg_refuted}; C86_{dog_leg_partial}; C87_{converges, unique, line_search}; C89_{reaches_partial, damping}; C90_{quadMin, cubicMin, dcstep, dcstep_exact, search}.

**Set D** (126 theorems): C18_{weight_nonincreasing, weight_is_derivative_of_loss, unit_at_zero_and_bounded}; C20_{exponentials_are_normalised_partial, no_overflow, stored_weights_refuted}; C21_{never_worse_partial, nan_refuted}; C22_{state_is_reported}; C23_{kept_steps, kept_steps_bound, kept_steps_failed_solve_refuted, terminates, counts, unlimited_refuted, second_call_refuted}; C26_{no_step_partial, flag_refuted}; C27_{stop_refuted}; C28_{criteria, disabled, options, optimizer2, optimizer2_nan}; C29_{terminates, best_state_partial, history, failed_solve_refuted, reported_cost_refuted, gauss_newton_refuted, stale_system_refuted, initial_lambda_partial, initial_lambda_refuted, initial_lambda_entry_refuted, damping_partial}; C30_{tiny_progress_refuted, sufficient_decrease_refuted}; C31_{steps_partial, lower_bound_refuted, best_end_partial, best_end_refuted}; C32_{restores_refuted}; C34_{steps_partial, bounds_refuted, magnitude_refuted, shrink_refuted}; C35_{balance, exception_refuted, nan_refuted}; C36_{balance, sigma_refuted}; C37_{rate}; C51_{scalar_partial, vector, acosSquared_series, power_zero_refuted}; C52_{scalar_partial, vector_partial, rotation_partial, transformation_partial, homogeneous_partial}; C53_{after_evaluation_partial, current_partial, stale_refuted}; C55_{scalar_operand, vector_operand}; C56_{mul, div, mul_long_partial, div_long_partial, mul_long_error_partial, div_long_error_partial, mul_long_refuted, overflow_refuted, double_partial, double_refuted, double_unit}; C57_{velocity, angular, acceleration_partial, acceleration_no_coriolis_partial, acceleration_refuted}; C58_{sum, sum_jacobian, neg_cross_scale, sub_partial, sub_refuted, sub_constant_partial, sub_constant_refuted, elementwise_refuted, rotation, transformation, inverse, transform_point_partial, transform_empty_point_refuted}; C59_{expressions}; C62_{scalar_partial, vector_partial, geometric, scalar_reads, vector_reads, geometric_reads, piecewise_refuted}; C66_{transformation_partial, transformation_weights, transformation_stale_refuted}; C67_{mapped_refuted, mapped_jacobian_refuted, adapter_refuted}; C70_{adapter_partial, free_vector_refuted}; C75_{block_partial, sparse_cholesky_partial, dense_partial, rejected_for_ever_refuted, reports_order_refuted}; C78_{doubles, overflow_refuted}; C80_{scalar_text, vector_text, operations, stacks, scalar_partial, refuted}; C85_{motion_partial}; C90_{bracket}.

**Set E** (1 theorems): C67_{wrong_size_partial}.

## Findings

Behaviour of the code at this commit that contradicts a natural reading. Those marked (Cxx) are theorems of that property
(mostly `..._refuted`); the others were noticed while modelling.

**Jacobian containers, threads, problem**
* `JacobianContainerSparse::applyChainRule`/`reset` change `_rows` but not the rows of the chain-rule stack; adding a container under a rectangular chain is refused (C05).
* `MatrixStack`: more than 65535 columns or 2^32 doubles wrap the header fields (C02).
* `ThreadedRangeProcessor`: ranges beyond 2^31-1 are not covered (C07). `LinearSystemSolver::setupThreadedJob` L30-57 divides by zero for an empty problem (C10).
* `OptimizationProblem::removeDesignVariable`: use after free if an owned term lists the variable twice; non-squared terms keep the reference (C12).
* `ProblemManager::initialize` L39-96: a failing second initialisation leaves `_isInitialized` true. `getFlattenedDesignVariableParameters` L222-249 is wrong for parameters with several columns.
* `SimpleOptimizationProblem::clear` does not clear the non-squared terms.
* `DesignVariableGenericVector::setParameters` and its revert before any update lose the value (C15). Minimal differences of the mapped classes use the previous value. `ErrorTermFunctor` disturbs the state for repeated variables or throwing terms (C16).

**Error terms**
* `ExpressionErrorTerm.hpp` L112-117: transpose missing for non-symmetric square roots (C17).
* `ProbDataAssocPolicy.cpp` stores logarithms as weights (C20).
* `ScalarNonSquaredErrorTerm`: the weight uses `fabs(error)` for the weighted error but the raw error for Jacobians; `_error` may be stale.
* With an M-estimator the gradient is that of the robust loss, not of the weighted squared error that is reported (C19).

**Optimizer2 and policies**
* `maxIterations = -1` performs no iteration; a second `optimize()` continues the old counters (C23). NaN costs are accepted (C21). The failed-solve flag is sticky; dog-leg and line-search policies return leftovers of a failed solve (C26). Callback verdicts are ignored (C27); `add<Event>()` gives no handle.
* Levenberg-Marquardt: 0/0 gain makes the damping NaN; damping <= 1e-16 jumps to 1e-15 (C24); after a step with non-positive gain it solves a stale system (C26).
* Dog-leg: NaN step at zero gradient, wrong after a failed solve, and after a rejected step the Gauss-Newton step of an older state may be proposed, even uphill (C25); a rejected step can triple the radius and be proposed again (C60).

**Optimizer (v1)** (C29)
* A failed solve undoes the last accepted step; the reported final cost may be that of an undone step; Gauss-Newton mode accepts any step and never rebuilds its system after one failed solve; `setInitialLambda` indexes the Hessian with block indices; NaN gain is accepted.
* `optimizeDogLeg` uses the integer quotient `1/2` (zero), and may loop while delta is infinite.

**Line search, BFGS, Rprop, samplers**
* `LineSearch.cpp`: after an iteration that gained very little the search throws, because the first step length computed from the gain is below minStepLength (C30_tiny_progress_refuted); `zoom` tests sufficient decrease with the slope at the lower end (C30); interpolation guards are negative when hi < lo; L377-379 compares with the wrong bounds so a trial of 0 passes (C31); the modified function may drop the best point (C31); a failed search leaves the last trial (C32); convergence in the last allowed iteration is reported as failure; NaN steps pass the bounds.
* `OptimizerBFGS`: c2 >= 1 is accepted and can lose positive definiteness; y.s = 0 breaks the secant equation (C33).
* `OptimizerRprop`: the option check accepts initialDelta out of bounds, etaMinus > 1, etaPlus < 1; a reverted step has the size before shrinking (C34).
* Metropolis-Hastings accepts NaN densities; exceptions leave the proposal with a stale cache (C35). HMC: `nLeapFrogSteps = L` makes L-1 position steps, 0 underflows; `deltaHalf` is stale after a step length reduction; the kinetic energy ignores `standardDeviationMomentum` (C36); `decFactor = 1` may retry forever.

**Matrices and solvers**
* `CompressedColumnMatrix`: `init` keeps old values, `clear` uses `_rows + 1` pointers, `fromDense` keeps the diagonal flag and drops NaN, products ignore an appended diagonal, `updateDiagonalBlock` of wrong size writes out of bounds (C38-C40).
* `SparseBlockMatrix`: transpose into an existing matrix keeps stale blocks, multiply accumulates, pointer vector products accumulate while the Eigen ones overwrite (C42); `symmPermutation`'s header comment has the wrong direction (C43); upper-triangle CCS export is wrong with stored lower blocks and reads out of bounds with empty blocks (C44).
* Schur complement silently ignores coupled marginalised blocks (C45). Covariance index overflows from 46341 rows (C46). PCG returns true at the iteration limit, can reuse an old threshold or a stale block index (C47).
* Block Cholesky adds c^2 and removes c, so each damped solve changes the stored Hessian; an exception in the covariance query leaves it damped (C48). Only the block solver scales Jacobian columns; sparse QR ignores the conditioner; dense QR reads an uninitialised flag; sparse QR with column scaling dereferences null after a failure (C49). Block `rhsJtJrhs` uses only the stored upper half (C61).
* `Marginalizer.cpp`: exceptions skip the restoration of indices; too many top rows read out of range; rank-deficient removed columns give a wrong prior (C50).

**Expressions**
* `GenericScalarExpression`: the two factors of the quotient's Jacobian are swapped; `acosSquared` is inexact close to 1; power 0 at 0 is NaN (C51).
* Nodes that cache operand values give stale or uninitialised Jacobians unless evaluated first (C53); the caches are unsynchronised.
* `CacheExpression`: activity changes, piecewise expressions and the plain `set()` methods leave stale caches; flags are read without synchronisation (C54); containers of the wrong size for matrices with several columns.
* `Differential.hpp`: converting a composed matrix differential ignores the next one; application uses the rows of the container; `DifferentialCalculator<..., Dynamic>::addToJacobianByApplication` does not compile; LEFT_TRANSLATED unit quaternions have no Jacobian (C55).
* `FixedPointNumber`: conversion between dividers is wrong for negative numbers, 8-byte products may round up, round trips through double may lose a unit (C56).
* `KinematicChain.cpp` L24: half of the Coriolis acceleration is missing (C57).
* Empty handles: `empty - p` gives `+p`; elementwise product, transformation of an empty point and generic scalar operators dereference null (C58).
* `RotationQuaternion::setParameters` and `Vector2RotationQuaternionExpressionAdapter` do not normalise (C59).
* A piecewise scalar expression reports only the variables of the branch taken when asked; `ExpressionErrorTerm` asks once at construction, so after the condition flips its Jacobian has blocks for variables the error term does not list (C62).
* `ProblemManager::getFlattenedDesignVariableParameters` keeps only the first column of a parameter matrix (`conservativeResize(d, 1)`): for a EuclideanDirection six of nine entries are uninitialised, and so is the `maxDeltaX` of BFGS computed from them (C63).
* `SimpleOptimizationProblem::clear` forgets to clear the non-squared error terms, which keep pointers to the design variables it deletes; an error term handed over with ownership twice is deleted twice (C64).
* `optimizeDogLeg`: with marginalised variables it subtracts vectors of different sizes (undefined); the steepest descent scale divides by |H r|^2 instead of r H r, so the step is not the Cauchy point; predicted decreases use the whole cost and an integer 1/2, so a perfect step on a linear problem can halve the trust region; the robust solver is never installed because the failure counter is always 0; a negative convergenceDeltaX makes the inner loop endless (C65).
* `L1Regularizer` stores a reference to the vector of the caller: if that vector changes (or dies) later the error and the Jacobians no longer belong to the reported design variables. `ErrorTermTransformation` takes the Jacobian at the error matrix of the last `evaluateError` (uninitialised before the first), so evaluating Jacobians after a step was taken back gives wrong ones (C66).
* `minimalDifference` of `MappedRotationQuaternion`, `MappedHomogeneousPoint`, `MappedEuclideanPoint` and `DesignVariableMappedVector` subtracts from the backup of the value before the last update instead of the current value, so a marginalisation prior on them sees a zero difference after every update; their Jacobians do not fit the difference either. `DesignVariableAdapter::minimalDifference` returns without writing anything. The tutorial scalar does not check the size of xHat (C67).
* `BlockCholeskyLinearSystemSolver::buildSystem` keeps the blocks of `_H`, adds new ones when an error term needs them, and does not call `init()` of the solver: with more blocks than at the first solve `fillCholmodExt` writes only values and writes beyond the array. `LinearSolverCholmod` writes through a null pointer for a matrix without rows and uses the null factor of a failed analysis or ordering (only an assert). `LinearSolverDense::solve` always returns true, also for a singular system (C68).
* `BlockCholeskyLinearSystemSolver::buildSystem` keeps the blocks of the Hessian and adds those the error terms need now, but never calls `_solver->init()`: an error term that couples two design variables for the first time in a later iteration makes `LinearSolverCholmod::solve` write beyond its value array (C69_new_coupling_refuted). With the type "spqr" `computeCovarianceBlocks` always throws (C69_qr_covariance_refuted).
* `Vector2RotationQuaternionExpressionAdapter` accepts any VectorExpression<4>; with a plain four-vector design variable (even one that holds a unit quaternion) its Jacobian is not a derivative of its matrix, because the variable leaves the unit sphere (C70_free_vector_refuted).
* `CameraDesignVariable::evaluateJacobians(outJacobians, ph)` never adds the Jacobian of the shutter, although the overload with a chain rule does: with an active shutter the Jacobian is wrong (C71_shutter_refuted).
* `LevenbergMarquardtTrustRegionPolicy::getLmRho` divides by dx^T (lambda dx + rhs), but the solvers add lambda^2 to the diagonal, so the predicted decrease is dx^T (lambda^2 dx + rhs). With the default lambda = 1e-3 and small Jacobians a perfect step of a linear problem gets a gain ratio near zero and the damping is nearly doubled (C74_refuted); only the sign of the ratio is right (C74_block_partial).
* Optimizer2 compares sum w(s) s (`ErrorTerm::getWeightedSquaredError`), which is not the robust loss that the weighted linear system minimises. For two measurements of one number, -4/5 and 4, with the Huber estimator (k = 1) and the start 0, Levenberg-Marquardt with default parameters takes back every step although each of them lowers the Huber loss (C75_rejected_for_ever_refuted); it ends with a short step, as if converged. With Geman-McClure a step that makes the squared error of an outlier larger counts as an improvement (C75_reports_order_refuted).
* `rightMultiply(x, x)` gives zero for SparseBlockMatrixWrapper and a wrong vector for CompressedColumnMatrix but is right for DenseMatrix (`C76_in_place_dense`, `C76_in_place_block`, `C76_in_place_refuted`); `CompressedColumnMatrix::fromDenseTolerance` keeps the flag of an appended diagonal, after which a product with a vector of the right size throws (`C76_appended_diagonal_refuted`), and takes the absolute value of a negative tolerance, unlike the other two (`C76_negative_tolerance_refuted`). `SparseBlockMatrixWrapper::toDense` is declared in the header and defined nowhere.
* `MappedRotationQuaternion::set` does not recompute the rotation matrix (`RotationQuaternion::set` does): getParameters returns the new quaternion, expressions still use the old matrix (`C77_set_stale`, `C77_set_refuted`). The same holds for writes of the caller, so assigning to a transformation mapped by `transformationToExpression` gives the new translation with the old rotation (`C77_transformation_refuted`). Two design variables on one array make the reverts of a rejected step leave the first increment in the memory (`C77_revert_shared_refuted`).
* `utils::isFinite` throws for the sparse container when an active design variable of the expression got no Jacobian; when another one is not finite, the iteration order of the unordered set decides between `false` and the exception (`C78_order_refuted`). The dense container answers `true` for it.
* * Ownership (C79): `Cholmod::solve` for QR with column scaling dereferences the null result when the numerical factorisation fails, and loses two objects when the scaling fails; `getR` loses the transposed matrix; `LinearSolverCholmod::solve` follows a null pointer for every failure but NOT_POSDEF; `LinearSolverQr::solve` restarts CHOLMOD at each call, which forgets the workspace, and loses an intermediate result on failure; solvers are copyable and a copy frees the factor again.
* C80: `ScalarExpressionNodeAdd::accept` prints `+` for a difference too, so `a + b` and `a - b` can have one text; all scalar nodes but five print only the name of their type, without value and arguments; a named constant may carry a name that reads as an operation; and an expression whose evaluation throws has no text although the failing subexpression alone may have one.
* C81: `example 0` (and any argument that is not a number) writes to element 0 of an empty vector; `example 1` estimates a wall that nothing observes; the first guess of the wall may lie on a position, where the observation divides by zero.
* C82: a run that reaches the minimum in its last permitted iteration reports MAX_ITERATIONS (the status tests the iteration count first). With the dog-leg policy a run that starts at the minimum divides zero by zero in its first step.
* **Configuration** (C83): Optimizer2 never checks what it reads (a limit of -5 iterations and negative thresholds are accepted) and ignores `convergenceGradientNorm`; using both the old and the new name of an option throws only when neither value is the default; a policy or solver given with `setOptions` is ignored until the next `initialize()`; the setters and the HMC constructor do not check; a line search with minStepLength > maxStepLength, Rprop with etaMinus > 1 or initialDelta > maxDelta, a negative Metropolis-Hastings sigma and a negative initial lambda are accepted; a thread count of -1 becomes 2^64-1 (or is undefined behaviour where it is read as a double).
* **Dangling design variables** (C84): every `toExpression()` stores `this` with a deleter that does nothing, so an expression outliving its design variable is undefined behaviour, even when the design variable is held by a shared_ptr; the same for a CoordinateFrame and its parent.
* **Coordinate frames** (C85): assigning to a frame that has children leaves stale expressions in them, and `parent = child` makes a frame its own parent, whose getters never return; a moved-from parent silently loses its position and its own parent. `KinematicChain.hpp` L22 and L28 declare two copy constructors, so copying a named frame is ambiguous (by reading).
* The status says little about the gradient (C86): DOBJECTIVE is reported after a step to a state of equal cost, DX after a short step that only a large damping made short.
* Optimizer2 with the Gauss-Newton policy accepts every step (C21, C29): from a bad first guess it may alternate between two states until the iteration limit (C87).
* Python module (C88): setBlock accepts a block of any size, after which toDense and at read outside of it; isBlockSet does not test the column; the property isBurnIn of samplers has getter and setter exchanged and can neither be read nor written; a list of events with a wrong element is registered up to this element; what a Python callback returns is dropped, so it cannot end the optimisation; the status MAX_ITERATIONS has no name in Python.
* After a rejected step the Levenberg-Marquardt policy computes the gain ratio of the next accepted step with the rejected cost instead of the cost at the linearisation point; the ratio is too large, so the damping is lowered too much. The parameters gammaInit < 2 muInit and gammaInit < 2 betaInit (the defaults) keep this from undoing the damping (C89).

## Wrong programs

`seeded/LOG.jsonl` has one line per experiment: a definition of the model was changed in a scratch copy as a realistic bug
would, everything depending on it was rebuilt, and the property theorems whose proofs no longer go through were recorded. A
theorem that still proves although its English claim became false was tightened (last field).
