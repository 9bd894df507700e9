{"id": "C01", "title": "Chain-rule stack holds the running product", "statement": "After any sequence of push(matrix), push(scalar) and pop on a MatrixStack, the number of matrices on it is pushes minus pops and the top matrix equals the product, in push order, of exactly the factors that have been pushed and not popped (a leading scalar counting as that multiple of the identity); pop makes the previous product visible again unchanged, entry by entry.", "quantifier": "every initial row count, every finite sequence of pushes and pops with compatible dimensions, every matrix content", "why_tests_cant": "The stack reallocates and reuses one buffer; a test fixes one nesting depth and one growth pattern, while expression trees nest to arbitrary depth and width.", "anchors": ["aslam_backend/include/aslam/backend/MatrixStack.hpp: MatrixStack::push, pop, top, allocate, matrix"]}
{"id": "C02", "title": "Chain-rule stack memory regions are aligned, disjoint and in bounds", "statement": "Every matrix live on a MatrixStack starts at an aligned offset, lies inside the buffer, and does not overlap any other live matrix; nothing written for a new matrix changes an older one; an operation on an empty stack is reported by an exception instead of touching memory.", "quantifier": "every sequence of pushes and pops whose column counts fit the 16-bit header field and whose total size fits the 32-bit offset field", "why_tests_cant": "Overlap appears only for particular size sequences; tests try a handful.", "anchors": ["aslam_backend/include/aslam/backend/MatrixStack.hpp: MatrixStack::allocate, Header, numDataUpTo"]}
{"id": "C03", "title": "Jacobian containers accumulate the sum over paths", "statement": "After any sequence of apply-chain-rule / add-Jacobian calls issued by an expression, the sparse container holds for each active design variable exactly the sum over its occurrences of (product of the chain-rule factors on the path) times (the Jacobian added there); inactive design variables never appear.", "quantifier": "every expression tree shape, every assignment of active flags and block indices, every matrix content", "why_tests_cant": "Depends on the whole tree and on the repetition pattern of design variables.", "anchors": ["aslam_backend/include/aslam/backend/JacobianContainer.hpp", "aslam_backend/include/aslam/backend/implementation/JacobianContainerImpl.hpp: apply, add", "aslam_backend/include/aslam/backend/JacobianContainerPrescale.hpp", "aslam_backend/src/JacobianContainerSparse.cpp"]}
{"id": "C04", "title": "Sparse and dense Jacobian containers agree", "statement": "For the same sequence of calls the dense container's matrix equals the sparse container's matrix expanded with asDense/asSparse at the column bases assigned to the design variables.", "quantifier": "every call sequence, every layout of column bases produced by problem initialization", "why_tests_cant": "The two classes are separate code paths selected by the linear solver; agreement over all inputs is a refinement statement.", "anchors": ["aslam_backend/include/aslam/backend/JacobianContainerDense.hpp", "aslam_backend/include/aslam/backend/implementation/JacobianContainerDenseImpl.hpp", "aslam_backend/include/aslam/backend/JacobianContainerSparse.hpp", "aslam_backend/src/JacobianContainerSparse.cpp: asDenseMatrix, asSparseMatrix"]}
{"id": "C05", "title": "Merging Jacobian containers adds them", "statement": "Adding container B (optionally premultiplied by a chain-rule matrix C) to container A yields, for every design variable, A's block plus C times B's block, with blocks present in only one of the two kept as they are; applying a chain rule to a container premultiplies every block.", "quantifier": "all pairs of containers, any overlap pattern of their design variables, all matrices", "why_tests_cant": "The merge walks two ordered maps; correctness depends on every interleaving of keys.", "anchors": ["aslam_backend/src/JacobianContainerSparse.cpp: add(JacobianContainerSparse, chain rule), applyChainRule, addTo"]}
{"id": "C06", "title": "Assembled normal equations equal J^T W J and J^T W e", "statement": "After all error terms have contributed, the (upper) Hessian blocks equal the sum over error terms of Ji^T W Jj with design-variable scaling, and the right-hand side equals minus the sum of J^T W e, independently of the order in which terms are visited.", "quantifier": "every list of error terms, every Jacobian content, weight, scaling and block layout", "why_tests_cant": "It is an algebraic identity over all matrices and all orders.", "anchors": ["aslam_backend/src/JacobianContainerSparse.cpp: evaluateHessian", "aslam_backend/include/aslam/backend/implementation/ErrorTerm.hpp: buildHessianImplementation", "aslam_backend/src/BlockCholeskyLinearSystemSolver.cpp: buildSystem"]}
{"id": "C07", "title": "Threaded ranges cover every index exactly once", "statement": "runThreadedJob hands out job ranges that are in bounds, pairwise disjoint, and together cover 0..rangeLength-1, each index exactly once, with job indices 0,1,...; it does nothing for an empty range and throws for zero threads.", "quantifier": "every range length that fits a signed 32-bit int, every positive thread count", "why_tests_cant": "All pairs (length, threads); off-by-one errors occur at remainders and when threads exceed length.", "anchors": ["aslam_backend/src/util/ThreadedRangeProcessor.cpp: runThreadedJob"]}
{"id": "C08", "title": "Threaded evaluation equals sequential evaluation", "statement": "The total error and the gradient computed with any number of threads equal the ones computed with one thread (in exact arithmetic), under every schedule of the workers.", "quantifier": "every problem, every thread count, every interleaving of the per-thread accumulators", "why_tests_cant": "A test observes only a few schedules.", "anchors": ["aslam_backend/src/util/ProblemManager.cpp: computeGradient, evaluateError, sumErrorTerms, evaluateGradients", "aslam_backend/src/util/ThreadedRangeProcessor.cpp"]}
{"id": "C09", "title": "An exception in a worker reaches the caller", "statement": "If one or more jobs throw, runThreadedJob throws the exception of the lowest-numbered throwing job after all jobs ended; if none throws it returns normally.", "quantifier": "every subset of failing jobs, every completion order", "why_tests_cant": "Needs all interleavings of completion.", "anchors": ["aslam_backend/src/util/ThreadedRangeProcessor.cpp: runThreadedJob"]}
{"id": "C10", "title": "Threaded Jacobian/error evaluation jobs cover every error term once", "statement": "The ranges used by the linear-system solvers and by the compressed-column Jacobian builder cover every error term exactly once for every thread count, and evaluation is well defined for every problem size including the empty one.", "quantifier": "every number of error terms (including zero) and every thread count", "why_tests_cant": "Corner case at zero terms and at remainders; all pairs needed.", "anchors": ["aslam_backend/src/LinearSystemSolver.cpp: setupThreadedJob", "aslam_backend/include/aslam/backend/implementation/CompressedColumnJacobianTransposeBuilder.hpp: setupThreadedJob"]}
{"id": "C11", "title": "Optimization problem bookkeeping stays consistent", "statement": "After any sequence of add/remove calls, the problem reports exactly the design variables and error terms added and not removed, isDesignVariableInProblem answers membership, and the error terms reported for a design variable are exactly the contained terms that list it; adding a duplicate design variable throws and changes nothing.", "quantifier": "every history of addDesignVariable/addErrorTerm/removeDesignVariable/removeErrorTerm/clear calls", "why_tests_cant": "Invariants over unbounded histories.", "anchors": ["aslam_backend/src/OptimizationProblem.cpp", "aslam_backend/include/aslam/backend/OptimizationProblem.hpp"]}
{"id": "C12", "title": "Removing a design variable removes every term that uses it", "statement": "After removeDesignVariable(v) no error term left in the problem refers to v, all other terms remain, and no memory of a removed term is accessed.", "quantifier": "every history and every term, including terms listing one design variable several times and non-squared terms", "why_tests_cant": "Multiplicity patterns are unbounded.", "anchors": ["aslam_backend/src/OptimizationProblem.cpp: removeDesignVariable, removeErrorTerm"]}
{"id": "C13", "title": "Initialization assigns a compact column layout", "statement": "After initialization the active design variables have block indices 0,1,2,... in problem order, column bases that start at 0 and are contiguous without gap or overlap, the total dimension is the sum of minimal dimensions, and inactive design variables get no column; repeating initialization gives the same layout.", "quantifier": "every list of design variables, every activity pattern and dimension list", "why_tests_cant": "All lists; tests use two or three variables.", "anchors": ["aslam_backend/src/util/ProblemManager.cpp: initialize", "aslam_backend/src/Optimizer2.cpp: initialize"]}
{"id": "C14", "title": "A state update reaches every active design variable with its own slice", "statement": "applyStateUpdate(dx) updates each active design variable exactly once with its own segment of dx multiplied by its scaling, touches nothing else, and every entry of dx is used exactly once.", "quantifier": "every layout produced by initialization and every dx", "why_tests_cant": "Quantifies over all layouts.", "anchors": ["aslam_backend/src/util/ProblemManager.cpp: applyStateUpdate", "aslam_backend/src/Optimizer2.cpp: applyStateUpdate"]}
{"id": "C15", "title": "Revert restores the state before the last update", "statement": "For every design variable type, after update(dx) (or setParameters) a revertUpdate restores the parameters held immediately before, bit for bit, whatever happened earlier; reverting again changes nothing; save/restore of all parameters restores the saved state after any number of updates.", "quantifier": "every design-variable type of the libraries, every history of update/revert/setParameters calls, every dx", "why_tests_cant": "History-quantified; tests check one update and one revert.", "anchors": ["aslam_backend_expressions/src/EuclideanPoint.cpp", "aslam_backend_expressions/src/RotationQuaternion.cpp", "aslam_backend_expressions/src/Scalar.cpp", "aslam_backend_expressions/include/aslam/backend/DesignVariableGenericVector.hpp", "aslam_backend_expressions/src/MatrixBasic.cpp", "aslam_backend_expressions/src/HomogeneousPoint.cpp", "aslam_backend_expressions/src/EuclideanDirection.cpp", "aslam_backend/include/aslam/backend/implementation/DesignVariableAdapter.hpp", "aslam_backend/src/util/ProblemManager.cpp: revertLastStateUpdate, saveDesignVariables, restoreDesignVariables"]}
{"id": "C16", "title": "Numerical differencing helpers leave the state untouched", "statement": "Evaluating an error functor at a displaced point (update, evaluate, revert) returns the error at the displaced state and leaves all design variables as before.", "quantifier": "every error term, every list of design variables (also with repetitions), every displacement", "why_tests_cant": "Repetition patterns are unbounded.", "anchors": ["aslam_backend/include/aslam/backend/implementation/ErrorTerm.hpp: ErrorTermFunctor"]}
{"id": "C17", "title": "Squared error equals e^T R^-1 e", "statement": "The squared error reported by an error term equals e^T invR e for the inverse covariance that was set, equals the squared norm of the weighted error when no M-estimator is used, and the weighted Jacobian is the derivative of the weighted error with the weight held fixed.", "quantifier": "every error dimension, every invR / square root of invR, every error vector, every weight", "why_tests_cant": "Algebraic identity over all matrices; tests use diagonal covariances that hide transposition errors.", "anchors": ["aslam_backend/include/aslam/backend/implementation/ErrorTerm.hpp: evaluateChiSquaredError, getWeightedError, getWeightedJacobians, setInvR, setSqrtInvR", "aslam_backend_expressions/include/aslam/backend/ExpressionErrorTerm.hpp: evaluateErrorImplementation", "aslam_backend_expressions/src/ErrorTermEuclidean.cpp", "aslam_backend_expressions/src/ErrorTermTransformation.cpp"]}
{"id": "C18", "title": "M-estimator weights come from robust losses", "statement": "Each M-estimator's weight is positive, is non-increasing in the squared error, and is the derivative of its robust loss (up to a constant factor); Huber, Cauchy and the trivial estimator are 1 at zero error and never exceed 1.", "quantifier": "every squared error >= 0 and every positive tuning constant", "why_tests_cant": "Statements about all reals (monotonicity, derivative).", "anchors": ["aslam_backend/src/MEstimatorPolicies.cpp", "aslam_backend/include/aslam/backend/MEstimatorPolicies.hpp"]}
{"id": "C19", "title": "Gradient of the cost is the derivative of the cost", "statement": "The gradient assembled from error terms equals the derivative of the total (unweighted) squared cost with respect to the minimal perturbation of the active design variables, scaled by the design-variable scaling.", "quantifier": "every list of squared and non-squared error terms, every Jacobian, every perturbation", "why_tests_cant": "Derivative identity for all inputs.", "anchors": ["aslam_backend/src/util/ProblemManager.cpp: computeGradient, addGradientForErrorTerm", "aslam_backend/include/aslam/backend/implementation/ErrorTerm.hpp"]}
{"id": "C20", "title": "Probabilistic data association gives normalised weights", "statement": "After the data association policy runs, the weights of the candidate terms of each group are non-negative and sum to one, proportional to exp(-squared error / 2).", "quantifier": "every group size and all error values", "why_tests_cant": "All groups and reals.", "anchors": ["aslam_backend/src/ProbDataAssocPolicy.cpp"]}
{"id": "C21", "title": "Optimizer2 never returns a worse cost than it started with", "statement": "With a trust-region policy that reverts on failure, the final cost reported by Optimizer2::optimize is at most the starting cost, for every behaviour of the linear solver and of the error terms that returns numbers.", "quantifier": "every sequence of costs (including infinities), every solver success/failure pattern, every iteration limit, every policy parameter", "why_tests_cant": "Adversarial environment: all response sequences.", "anchors": ["aslam_backend/src/Optimizer2.cpp: optimize", "aslam_backend/src/TrustRegionPolicy.cpp", "aslam_backend/src/LevenbergMarquardtTrustRegionPolicy.cpp", "aslam_backend/src/DogLegTrustRegionPolicy.cpp"]}
{"id": "C22", "title": "The state left by Optimizer2 is the one it reports", "statement": "When Optimizer2::optimize returns, the design variables hold the last accepted state: each rejected step has been reverted exactly once, each accepted one is kept, and the reported final cost is the cost evaluated at that state.", "quantifier": "every accept/reject/solver-failure sequence", "why_tests_cant": "Histories of arbitrary length.", "anchors": ["aslam_backend/src/Optimizer2.cpp: optimize, applyStateUpdate, revertLastStateUpdate"]}
{"id": "C23", "title": "Optimizer2 terminates within its iteration limit", "statement": "Optimizer2::optimize performs at most maxIterations iterations and stops, whatever the error terms and the solver do; the reported iteration count and failed-iteration count match what was executed, and an unlimited setting (-1) iterates until convergence.", "quantifier": "every environment behaviour, every option setting", "why_tests_cant": "Termination over all environments.", "anchors": ["aslam_backend/src/Optimizer2.cpp: optimize", "aslam_backend/include/aslam/backend/Optimizer2Options.hpp", "aslam_backend/include/aslam/backend/OptimizerBase.hpp"]}
{"id": "C24", "title": "Levenberg-Marquardt damping stays positive and moves in the right direction", "statement": "The LM damping is positive after every step; a failed step increases it by a factor that at least doubles at each consecutive failure; a successful step multiplies it by a factor between 1/gamma and beta; it never becomes zero in any history.", "quantifier": "every history of successes/failures and every gain ratio", "why_tests_cant": "Invariant over histories.", "anchors": ["aslam_backend/src/LevenbergMarquardtTrustRegionPolicy.cpp"]}
{"id": "C25", "title": "Dog-leg steps stay inside the trust region", "statement": "The step proposed by the dog-leg policy has norm at most the current trust-region radius, is the Gauss-Newton step when that fits, and otherwise lies on the dog-leg path; the radius stays positive.", "quantifier": "every gradient, every Gauss-Newton step, every radius, every history", "why_tests_cant": "Real-analytic statement for all vectors.", "anchors": ["aslam_backend/src/DogLegTrustRegionPolicy.cpp"]}
{"id": "C26", "title": "A failed linear solve never produces an accepted step", "statement": "When the linear solver reports failure the policy does not apply a step computed from stale data, and the failure flag returned by the optimizer tells whether the last solve failed.", "quantifier": "every pattern of solver failures", "why_tests_cant": "Histories of failures.", "anchors": ["aslam_backend/src/DogLegTrustRegionPolicy.cpp", "aslam_backend/src/LineSearchTrustRegionPolicy.cpp", "aslam_backend/src/GaussNewtonTrustRegionPolicy.cpp", "aslam_backend/src/Optimizer2.cpp", "aslam_backend/src/Optimizer.cpp"]}
{"id": "C27", "title": "Callbacks run in registration order and can stop the optimization", "statement": "For every event the registered callbacks are invoked in registration order, each at most once, until the first one that does not ask to continue, whose verdict is returned; removed callbacks are not invoked.", "quantifier": "every registry content, every callback verdict sequence", "why_tests_cant": "All registries and verdicts.", "anchors": ["aslam_backend/src/OptimizerCallbackManager.cpp", "aslam_backend/include/aslam/backend/OptimizerCallbackManager.hpp", "aslam_backend/include/aslam/backend/OptimizerCallback.hpp"]}
{"id": "C28", "title": "Convergence status reports a criterion that really holds", "statement": "A convergence status is reported only if the corresponding quantity is within its threshold, criteria are reported in the fixed priority gradient norm, cost change, step size, disabled criteria never fire, and success is reported exactly for a non-failure final status.", "quantifier": "every status value and every threshold (including NaN and infinities)", "why_tests_cant": "All floating-point values.", "anchors": ["aslam_backend/src/OptimizerBase.cpp: updateConvergenceStatus", "aslam_backend/include/aslam/backend/OptimizerBase.hpp"]}
{"id": "C29", "title": "Optimizer (v1) keeps the best state", "statement": "Optimizer::optimize ends with the design variables in the accepted state of least cost and reports that cost; a failed linear solve does not undo an accepted step.", "quantifier": "every sequence of solver outcomes and costs", "why_tests_cant": "Histories.", "anchors": ["aslam_backend/src/Optimizer.cpp: optimize, applyStateUpdate, revertLastStateUpdate, setInitialLambda"]}
{"id": "C30", "title": "A successful line search satisfies the strong Wolfe conditions", "statement": "When the line search reports success the accepted step satisfies the sufficient-decrease and the strong curvature condition for the configured constants, and the design variables are at the start point plus that step.", "quantifier": "every objective function along the line, every options setting, every number of trial steps", "why_tests_cant": "Adversarial functions; all trial sequences.", "anchors": ["aslam_backend/src/LineSearch.cpp: lineSearchWolfe1, lineSearchWolfe2, zoom, lineSearchWolfe12, Dcsrch::updateStepLength"]}
{"id": "C31", "title": "Step lengths stay in the configured interval and the bracket is ordered", "statement": "Every trial step of the More-Thuente search lies between the configured minimum and maximum step length, and once a minimiser is bracketed the trial interval always has its best point at one end.", "quantifier": "every sequence of function/derivative values returned by the problem", "why_tests_cant": "Adversarial value sequences.", "anchors": ["aslam_backend/src/LineSearch.cpp: Dcsrch::updateStepLength, dcstep"]}
{"id": "C32", "title": "A failed line search leaves the problem at its start", "statement": "If the line search fails, the design variables, the error and the gradient are those before the search.", "quantifier": "every objective function and options setting", "why_tests_cant": "All failure paths.", "anchors": ["aslam_backend/src/LineSearch.cpp: lineSearchWolfe12, applyStateUpdate"]}
{"id": "C33", "title": "BFGS inverse-Hessian update keeps secant equation, symmetry and positive definiteness", "statement": "After each update the inverse Hessian approximation is symmetric, maps the gradient change to the step, and is positive definite whenever it was and gradient change times step is positive; hence every search direction is a descent direction.", "quantifier": "every dimension, step, gradient change and every history of updates", "why_tests_cant": "Algebra over all vectors and induction over histories.", "anchors": ["aslam_backend/src/OptimizerBFGS.cpp: optimize"]}
{"id": "C34", "title": "Rprop step sizes stay within their bounds", "statement": "After initialization and after any number of iterations each per-coordinate step size lies within [minDelta, maxDelta], each state change is at most the step size in magnitude and goes against the gradient sign, and a sign change shrinks the step.", "quantifier": "every gradient sequence, every dimension, all four update rules, every option accepted by the option check", "why_tests_cant": "Histories of gradients.", "anchors": ["aslam_backend/src/OptimizerRprop.cpp"]}
{"id": "C35", "title": "Metropolis-Hastings satisfies detailed balance", "statement": "For a symmetric proposal, the transition implemented by the sampler satisfies detailed balance with respect to exp(-negative log density); on rejection the state and the cached value are exactly those before, on acceptance they are those of the proposal; the cached value always equals the value at the current state.", "quantifier": "all pairs of states, all random draws, all histories", "why_tests_cant": "Probabilistic identity over all states.", "anchors": ["aslam_backend/src/SamplerMetropolisHastings.cpp: step", "aslam_backend/src/SamplerBase.cpp"]}
{"id": "C36", "title": "Hybrid Monte Carlo integrates reversibly and restores on rejection", "statement": "The leapfrog trajectory is time reversible: negating the final momentum and integrating again returns to the start; a rejected proposal restores state, gradient and cached density of before the step.", "quantifier": "every gradient function, every step size, every number of leapfrog steps, every history", "why_tests_cant": "Quantifies over all functions and step counts.", "anchors": ["aslam_backend/src/SamplerHybridMcmc.cpp: step"]}
{"id": "C37", "title": "Sampler statistics are exact counts", "statement": "After n steps from initialization the sampler reports n iterations, an acceptance count equal to the number of accepted proposals and an acceptance rate between zero and one.", "quantifier": "every n and every accept/reject sequence", "why_tests_cant": "All histories.", "anchors": ["aslam_backend/src/SamplerBase.cpp: run, initialize, Statistics"]}
{"id": "C38", "title": "Compressed-column matrix access equals the dense matrix it stands for", "statement": "For every compressed-column matrix produced by the library's constructors and appenders, element access, dense conversion and column access describe the same matrix, column pointers are monotone and within the value array, and row indices are in range and sorted in each column.", "quantifier": "every dense matrix, every sequence of appended Jacobians", "why_tests_cant": "Structural invariant over all histories.", "anchors": ["aslam_backend/include/aslam/backend/implementation/CompressedColumnMatrix.hpp: fromDense, toDenseInto, operator(), appendJacobians, checkMatrixDbg"]}
{"id": "C39", "title": "Compressed-column products equal dense products", "statement": "rightMultiply and leftMultiply compute M x and M^T x (y^T M) for the represented matrix, in every state the matrix can be in (also while a diagonal block is appended).", "quantifier": "every matrix, vector, and state", "why_tests_cant": "All inputs.", "anchors": ["aslam_backend/include/aslam/backend/implementation/CompressedColumnMatrix.hpp: rightMultiply, leftMultiply"]}
{"id": "C40", "title": "Pushing and popping the diagonal block are inverse", "statement": "Appending a diagonal block turns the represented matrix M into [M D]; popping it restores the previous matrix and all its storage exactly; a second push or a pop without push is refused; re-initialising or clearing gives an empty matrix of the requested shape.", "quantifier": "every matrix and every sequence of push/pop/update/clear calls", "why_tests_cant": "Histories.", "anchors": ["aslam_backend/include/aslam/backend/implementation/CompressedColumnMatrix.hpp: pushConstantDiagonalBlock, pushDiagonalBlock, popDiagonalBlock, updateDiagonalBlock, clear, init"]}
{"id": "C41", "title": "The sparse Jacobian transpose builder stores the true Jacobian", "statement": "Building the symbolic structure and filling it, with any number of threads, stores for every error term the columns of its transposed weighted Jacobian at that term's rows, with no two threads writing the same entry.", "quantifier": "every list of error terms, dimensions and thread counts", "why_tests_cant": "All layouts and schedules.", "anchors": ["aslam_backend/include/aslam/backend/implementation/CompressedColumnJacobianTransposeBuilder.hpp", "aslam_backend/include/aslam/backend/implementation/CompressedColumnMatrix.hpp: appendJacobiansSymbolic, writeJacobians"]}
{"id": "C42", "title": "Block-sparse matrix operations agree with dense algebra", "statement": "Element access, dense conversion, transpose, addition, multiplication, scaling, slicing, clone, vector products of a SparseBlockMatrix give the same result as on the dense matrix it represents; missing blocks count as zero.", "quantifier": "every block layout, every pattern of present blocks, every content", "why_tests_cant": "All layouts; tests use fixed small matrices.", "anchors": ["sparse_block_matrix/include/sparse_block_matrix/sparse_block_matrix.h", "sparse_block_matrix/include/sparse_block_matrix/implementation/sparse_block_matrix.hpp"]}
{"id": "C43", "title": "Symmetric permutation of a block matrix is P A P^T", "statement": "symmPermutation (full and upper-triangle-only) produces the matrix whose (p(i),p(j)) block is the (i,j) block of the input, transposed where needed, so that the represented symmetric matrix is the permuted one.", "quantifier": "every permutation, layout and content", "why_tests_cant": "All permutations.", "anchors": ["sparse_block_matrix/include/sparse_block_matrix/implementation/sparse_block_matrix.hpp: symmPermutation"]}
{"id": "C44", "title": "Block matrix to compressed-column conversion is faithful", "statement": "fillCCS / fillUpperTriangleCCS produce arrays with monotone column pointers and sorted in-range row indices that represent the same matrix (upper triangle respectively), and refilling only the values of an unchanged structure gives the same result as a full fill.", "quantifier": "every block layout and content", "why_tests_cant": "All layouts.", "anchors": ["sparse_block_matrix/include/sparse_block_matrix/implementation/sparse_block_matrix.hpp: fillCCS, fillUpperTriangleCCS"]}
{"id": "C45", "title": "Schur complement solve equals solving the full system", "statement": "Eliminating the marginalised blocks with applySchurComplement, solving the reduced system and back-substituting with buildDsi yields a solution of the full (damped) normal equations, for invertible marginal blocks.", "quantifier": "every block layout, every number of eliminated blocks, every content", "why_tests_cant": "Algebraic identity over all matrices.", "anchors": ["aslam_backend/src/sparse_matrix_functions.cpp: applySchurComplement, buildDsi"]}
{"id": "C46", "title": "Marginal covariances are entries of the inverse", "statement": "computeCovariance returns exactly the requested entries of (L L^T)^-1 undone by the permutation, independent of the order of requests and of what is already cached.", "quantifier": "every non-singular lower-triangular factor of every size, every request list", "why_tests_cant": "Recursive memoised algorithm; all sizes.", "anchors": ["sparse_block_matrix/src/marginal_covariance_cholesky.cpp: computeEntry, computeCovariance, setCholeskyFactor"]}
{"id": "C47", "title": "Conjugate gradient keeps its residual honest", "statement": "Throughout the preconditioned CG solve the residual it tests equals b - A x for the current x, so on exit through the tolerance test the true preconditioned residual is below tolerance; the reported success means the system was solved to tolerance.", "quantifier": "every matrix, right-hand side, preconditioner and iteration count", "why_tests_cant": "Loop invariant over all iterations and inputs.", "anchors": ["sparse_block_matrix/include/sparse_block_matrix/linear_solver_pcg.h", "sparse_block_matrix/include/sparse_block_matrix/implementation/linear_solver_pcg.hpp: solve"]}
{"id": "C48", "title": "A linear solve leaves the system unchanged", "statement": "Solving the normal equations with diagonal conditioning does not change the stored Hessian, so solving twice gives the same step and a later covariance query sees the undamped system.", "quantifier": "every Hessian, every conditioner, every number of solves", "why_tests_cant": "Histories of solves with arbitrary conditioners.", "anchors": ["aslam_backend/src/BlockCholeskyLinearSystemSolver.cpp: solveSystem", "aslam_backend/src/SparseCholeskyLinearSystemSolver.cpp: solveSystem", "aslam_backend/src/DenseQrLinearSystemSolver.cpp"]}
{"id": "C49", "title": "All linear solvers solve the same damped normal equations", "statement": "For the same error terms and diagonal conditioner the block Cholesky, sparse Cholesky, dense QR and sparse QR solvers produce solutions of (J^T J + diag(c)^2) dx = -J^T e.", "quantifier": "every Jacobian, error, conditioner", "why_tests_cant": "Algebraic identity for all inputs and four code paths.", "anchors": ["aslam_backend/src/BlockCholeskyLinearSystemSolver.cpp", "aslam_backend/src/SparseCholeskyLinearSystemSolver.cpp", "aslam_backend/src/DenseQrLinearSystemSolver.cpp", "aslam_backend/src/SparseQrLinearSystemSolver.cpp", "aslam_backend/include/aslam/backend/LinearSystemSolver.hpp"]}
{"id": "C50", "title": "Marginalization prior preserves the cost", "statement": "The prior error term built by marginalize has, for every value of the remaining variables (in the linearised problem), a cost equal up to a constant to the minimum over the marginalised variables of the original cost; the involved design variables' flags are restored afterwards.", "quantifier": "every Jacobian, error vector and split into marginalised/remaining variables", "why_tests_cant": "Minimisation over all reals.", "anchors": ["aslam_backend/src/Marginalizer.cpp: marginalize", "aslam_backend/src/MarginalizationPriorErrorTerm.cpp"]}
{"id": "C51", "title": "Scalar expression Jacobians are the derivatives", "statement": "For every scalar expression built from the library's operators and every point in its domain, the Jacobian written to the container is the derivative of the expression value with respect to each design variable.", "quantifier": "every expression tree, every design variable, every evaluation point in the domain", "why_tests_cant": "Structural induction over all trees and all reals.", "anchors": ["aslam_backend_expressions/include/aslam/backend/implementation/ScalarExpressionNode.hpp", "aslam_backend_expressions/src/ScalarExpressionNode.cpp", "aslam_backend_expressions/src/ScalarExpression.cpp", "aslam_backend_expressions/include/aslam/backend/implementation/GenericScalarExpression.hpp"]}
{"id": "C52", "title": "Geometric expression Jacobians are the first-order change", "statement": "For every expression built from rotations, transformations, Euclidean and homogeneous points and matrices by the library's operators, the Jacobian is the exact first-order coefficient of the value under the library's minimal perturbations, in the library's left-perturbation convention.", "quantifier": "every expression tree and every value of the design variables", "why_tests_cant": "Structural induction over all trees.", "anchors": ["aslam_backend_expressions/src/EuclideanExpressionNode.cpp", "aslam_backend_expressions/src/RotationExpressionNode.cpp", "aslam_backend_expressions/src/TransformationExpressionNode.cpp", "aslam_backend_expressions/src/HomogeneousExpressionNode.cpp", "aslam_backend_expressions/src/MatrixExpressionNode.cpp", "aslam_backend_expressions/src/RotationQuaternion.cpp"]}
{"id": "C53", "title": "Jacobians refer to the current state", "statement": "evaluateJacobians returns the Jacobian at the current design-variable values, whatever sequence of updates, reverts and evaluations preceded it.", "quantifier": "every expression, every history of updates and evaluations", "why_tests_cant": "History-quantified; nodes cache values.", "anchors": ["aslam_backend_expressions/src/EuclideanExpressionNode.cpp: EuclideanExpressionNodeMultiply", "aslam_backend_expressions/src/RotationExpressionNode.cpp", "aslam_backend_expressions/src/TransformationExpressionNode.cpp", "aslam_backend/src/util/ProblemManager.cpp: addGradientForErrorTerm"]}
{"id": "C54", "title": "Cached expressions are transparent", "statement": "A cache expression always returns the value and Jacobian the wrapped expression would return now, for every history of design-variable updates, reverts, setParameters, activations and evaluations, and under concurrent evaluation by several threads.", "quantifier": "every history and every interleaving of evaluating threads", "why_tests_cant": "Interleavings and histories are unbounded.", "anchors": ["aslam_backend_expressions/include/aslam/backend/CacheExpression.hpp", "aslam_backend/src/DesignVariable.cpp: invalidateCache, registerCacheExpressionNode", "aslam_backend/include/aslam/backend/CacheInterface.hpp"]}
{"id": "C55", "title": "Matrix and quaternion expressions differentiate correctly", "statement": "For generic matrix and quaternion expressions (product, sum, transpose, inverse, cross, squared norm, conjugate, rotate) the differential propagated to each operand is the exact first-order change, also when it has to be converted to a matrix for a Jacobian container.", "quantifier": "every operand value and every nesting of differentials", "why_tests_cant": "Algebraic identity and structural induction over all nestings.", "anchors": ["aslam_backend_expressions/include/aslam/backend/implementation/GenericMatrixExpression.hpp", "aslam_backend_expressions/include/aslam/backend/implementation/QuaternionExpression.hpp", "aslam_backend_expressions/include/aslam/backend/Differential.hpp", "aslam_backend_expressions/include/aslam/backend/OperationResultNodes.hpp"]}
{"id": "C56", "title": "Fixed-point numbers obey exact arithmetic up to one unit", "statement": "Addition, subtraction, comparison of fixed-point numbers are exact while in range; multiplication and division are the exact result truncated toward zero (error below one unit); conversions to another resolution and to double and back return the same number when representable.", "quantifier": "every representable pair of numbers and every divider", "why_tests_cant": "2^64 pairs per divider.", "anchors": ["aslam_backend_expressions/include/aslam/backend/FixedPointNumber.hpp"]}
{"id": "C57", "title": "Kinematic chain quantities are time derivatives of each other", "statement": "The global velocity and acceleration of a coordinate frame in a kinematic chain are the first and second time derivatives of its global position, and the global angular acceleration is the time derivative of its global angular velocity.", "quantifier": "every chain length and every motion", "why_tests_cant": "Derivative identity over all motions and induction on chain depth.", "anchors": ["aslam_backend_expressions/include/aslam/backend/KinematicChain.hpp", "aslam_backend_expressions/src/KinematicChain.cpp"]}
{"id": "C58", "title": "Empty expressions act as neutral elements", "statement": "Adding, subtracting or stacking with an empty (default-constructed) expression behaves as with zero, so generic summation code over an empty collection gives the mathematical value.", "quantifier": "every expression and every fold over a list of expressions", "why_tests_cant": "All expressions and list lengths.", "anchors": ["aslam_backend_expressions/src/ScalarExpression.cpp", "aslam_backend_expressions/include/aslam/backend/implementation/GenericScalarExpression.hpp", "aslam_backend_expressions/include/aslam/backend/VectorExpression.hpp", "aslam_backend_expressions/src/EuclideanExpression.cpp"]}
{"id": "C59", "title": "Rotation design variables stay rotations", "statement": "After any number of updates the quaternion of a rotation design variable has unit norm if it had it initially and its matrix stays orthonormal with determinant one; composing and inverting rotation or transformation expressions yields rotations and rigid transformations again.", "quantifier": "every history of updates and every expression tree", "why_tests_cant": "Invariant over histories.", "anchors": ["aslam_backend_expressions/src/RotationQuaternion.cpp: updateImplementation", "aslam_backend_expressions/src/RotationExpressionNode.cpp", "aslam_backend_expressions/src/TransformationExpressionNode.cpp"]}
{"id": "C60", "title": "A rejected dog-leg step never enlarges the trust region", "statement": "When Optimizer2 reports that the previous step was rejected, the dog-leg policy shrinks its trust region before it proposes the next step.", "quantifier": "every history of accepted and rejected steps, every system", "why_tests_cant": "Depends on the cost history of arbitrary runs.", "anchors": ["aslam_backend/src/DogLegTrustRegionPolicy.cpp", "aslam_backend/src/TrustRegionPolicy.cpp"]}
{"id": "C61", "title": "The curvature along the gradient is |J rhs|^2 for every linear solver", "statement": "rhsJtJrhs(), from which the dog-leg policy computes the Cauchy step, returns rhs^T J^T J rhs = |J rhs|^2 for the Jacobian J and the right-hand side rhs of the system just built, whichever linear solver is used.", "quantifier": "every list of error terms and weights, every linear solver", "why_tests_cant": "All matrices; only special sparsity patterns are tested.", "anchors": ["aslam_backend/src/BlockCholeskyLinearSystemSolver.cpp: rhsJtJrhs", "aslam_backend/src/SparseCholeskyLinearSystemSolver.cpp: rhsJtJrhs", "aslam_backend/src/SparseQrLinearSystemSolver.cpp: rhsJtJrhs", "aslam_backend/src/DenseQrLinearSystemSolver.cpp: rhsJtJrhs", "aslam_backend/src/DogLegTrustRegionPolicy.cpp"]}
{"id": "C62", "title": "getDesignVariables reports exactly the design variables an expression depends on", "statement": "The set an expression reports through getDesignVariables is the set of design variables it depends on: evaluateJacobians fills a block for exactly the active reported variables, and changing any unreported variable changes neither the value nor the Jacobians. An error term built from the expression asks once, at construction, and this stays true for its lifetime.", "quantifier": "every expression tree (scalar, vector, generic scalar, geometric, matrix, quaternion), every state, every pair of states that agree on the reported variables", "why_tests_cant": "Quantifies over all expression trees and over pairs of states; tests print or compare a few fixed trees.", "anchors": ["aslam_backend_expressions/src/ScalarExpressionNode.cpp: getDesignVariablesImplementation", "aslam_backend_expressions/src/EuclideanExpressionNode.cpp: getDesignVariablesImplementation", "aslam_backend_expressions/src/RotationExpressionNode.cpp", "aslam_backend_expressions/src/TransformationExpressionNode.cpp", "aslam_backend_expressions/src/HomogeneousExpressionNode.cpp", "aslam_backend_expressions/include/aslam/backend/ExpressionErrorTerm.hpp: ExpressionErrorTerm"]}
{"id": "C63", "title": "The flattened parameter vector holds every parameter, and a state update moves it by the scaled step", "statement": "getFlattenedDesignVariableParameters returns every parameter of every design variable, in order, column after column; utils::applyStateUpdate updates design variable k once, by its scaling times its slice of dx, so that for vector-space variables the flattened vector moves by the scaled dx and the maxDeltaX of BFGS is the largest scaled entry of dx.", "quantifier": "every list of design variables with any parameter shapes, scalings and dimensions, every step dx, every previous content of the output vector", "why_tests_cant": "Quantifies over all shapes of parameter matrices and all lists of variables; tests use column parameters only.", "anchors": ["aslam_backend/include/aslam/backend/util/utils.hpp: getFlattenedDesignVariableParameters, applyStateUpdate", "aslam_backend/src/util/ProblemManager.cpp: getFlattenedDesignVariableParameters", "aslam_backend/src/OptimizerBFGS.cpp: optimize (maxDeltaX)"]}
{"id": "C64", "title": "SimpleOptimizationProblem holds what was handed over since the last clear and releases each owned object once", "statement": "After any history of addDesignVariable, addErrorTerm and clear calls the problem holds exactly the design variables (each once) and error terms handed over since the last clear(), in order; the counts and index accessors agree; owned objects are deleted once and nothing that was deleted is read afterwards.", "quantifier": "every history of calls with every kind of ownership (owned, borrowed, shared)", "why_tests_cant": "A property of all call histories including repeated clear() and mixed ownership; tests build one problem and drop it.", "anchors": ["aslam_backend/src/SimpleOptimizationProblem.cpp", "aslam_backend/src/OptimizationProblemBase.cpp"]}
{"id": "C65", "title": "optimizeDogLeg keeps every step inside the trust region and ends in the best state it tried", "statement": "Optimizer::optimizeDogLeg keeps a step exactly when it lowers the cost and restores the state otherwise; every trial step lies on the dog-leg path inside the trust region and the radius follows the gain ratio; it terminates with the design variables in the state of least cost among all states tried and reports that cost.", "quantifier": "every environment (error terms, solvers that may fail, design variables), every option setting, every run", "why_tests_cant": "A statement about whole runs with arbitrary sequences of kept, undone and failed steps; tests converge on one small problem.", "anchors": ["aslam_backend/src/Optimizer.cpp: optimizeDogLeg"]}
{"id": "C66", "title": "The error terms shipped with the libraries return the derivatives of their own error", "statement": "ErrorTermTransformation, L1Regularizer and the error terms of the tutorial put into the Jacobian container the derivative of the error they compute, for every choice of design variables (also the same one twice), depend only on the design variables they report, and weight the parts of the error as documented; the transformation prior is zero exactly at the prior.", "quantifier": "every choice of design variables, transformation expression, parameters and state; both evaluation orders", "why_tests_cant": "A derivative is a limit and the claim ranges over all states and over repeated design variables; the tests compare finite differences at a few random states, right after an evaluation.", "anchors": ["aslam_backend_expressions/src/ErrorTermTransformation.cpp", "aslam_backend_expressions/src/L1Regularizer.cpp", "aslam_backend_tutorial/src/ErrorTermPrior.cpp", "aslam_backend_tutorial/src/ErrorTermMotion.cpp", "aslam_backend_tutorial/src/ErrorTermObservation.cpp"]}
{"id": "C67", "title": "The minimal difference inverts the update and its Jacobian is its derivative", "statement": "minimalDifference of a design variable is zero exactly at the given parameters, is the update vector after one update from them, and minimalDifferenceAndJacobian (and the expression node built on it) returns the derivative of the difference with respect to an update; parameters of the wrong size are refused.", "quantifier": "every design variable class with an implementation, every value, every xHat, every update in the domain of the logarithm", "why_tests_cant": "Quaternion logarithm, inverse and product have to fit together for all values; a derivative is a limit; the mapped classes are not tested at all.", "anchors": ["aslam_backend_expressions/src/RotationQuaternion.cpp: minimalDifferenceImplementation", "aslam_backend_expressions/src/MappedRotationQuaternion.cpp: minimalDifferenceImplementation", "aslam_backend_expressions/src/HomogeneousPoint.cpp", "aslam_backend_expressions/src/MappedEuclideanPoint.cpp", "aslam_backend_expressions/include/aslam/backend/DesignVariableMinimalDifferenceExpression.hpp", "aslam_backend/src/DesignVariable.cpp"]}
{"id": "C68", "title": "The block linear solvers solve the system they are given, over any sequence of calls", "statement": "A LinearSolverCholmod, LinearSolverQr or LinearSolverDense may be called any number of times, with init(), block ordering on or off, and new values in the same block pattern: every solve() delivers the solution of the symmetric system and writes nothing behind it, or reports failure and leaves x alone, only for a matrix that is not positive definite; solveBlocks() and solvePattern() deliver blocks of the inverse; no call touches memory that is not allocated or not written.", "quantifier": "every sequence of calls, every block layout and pattern, all values, all right-hand sides", "why_tests_cant": "The buffers, the symbolic factor and the permutations survive from call to call and grow on demand; whether they still fit depends on the whole history.", "anchors": ["sparse_block_matrix/include/sparse_block_matrix/linear_solver.h", "sparse_block_matrix/include/sparse_block_matrix/linear_solver_cholmod.h: solve, solveBlocks, solvePattern, computeSymbolicDecomposition, fillCholmodExt", "sparse_block_matrix/include/sparse_block_matrix/linear_solver_spqr.h: solve", "sparse_block_matrix/include/sparse_block_matrix/linear_solver_dense.h: solve", "sparse_block_matrix/src/matrix_structure.cpp", "sparse_block_matrix/include/sparse_block_matrix/sparse_helper.h: CholmodExt"]}
{"id": "C69", "title": "BlockCholeskyLinearSystemSolver solves the current normal equations in every iteration", "statement": "An optimizer may call initMatrixStructure, buildSystem, setConditioner, solveSystem and computeCovarianceBlocks in any sensible order, any number of times, with CHOLMOD or SuiteSparseQR: every solveSystem returns the solution of the damped normal equations of the error terms as they were at the last buildSystem, or reports failure only when that matrix is not positive definite; every computeCovarianceBlocks returns the asked blocks of the inverse of that matrix; no call touches memory out of range. State left behind by earlier iterations (the blocks of the Hessian, the symbolic factor, the buffers, a failed factorization) never shows.", "quantifier": "every sequence of calls, every block layout, all error terms with all Jacobians, errors, weights and scalings, all conditioners, both solvers", "why_tests_cant": "The Hessian keeps its blocks and the solver its symbolic factor from one iteration to the next; a wrong reuse shows only after particular histories (another coupling, a failed solve, a changed conditioner).", "anchors": ["aslam_backend/src/BlockCholeskyLinearSystemSolver.cpp: initMatrixStructureImplementation, buildSystem, solveSystem, computeCovarianceBlocks, initSolver", "aslam_backend/src/LinearSystemSolver.cpp: initMatrixStructure, setConditioner", "sparse_block_matrix/include/sparse_block_matrix/linear_solver_cholmod.h", "sparse_block_matrix/include/sparse_block_matrix/linear_solver_spqr.h"]}
{"id": "C70", "title": "Vector2RotationQuaternionExpressionAdapter is a rotation with the right Jacobian", "statement": "Wrapping a four-vector expression that is a unit quaternion (near the current state, along the updates of the design variables) gives a rotation expression: its matrix is a rotation matrix, and with phi the column that evaluateJacobians puts into the container for component j of a design variable, the matrix C changes by - phi^x C when that component is updated - the convention of all other rotation expressions, so that the adapter may be used below rotated points, products and transformations.", "quantifier": "every expression tree of size four, every state in its domain, every active design variable and component, every chain-rule stack layout", "why_tests_cant": "The 3x4 matrix 2 quatOPlus(quatInv(q)) is only right on the tangent space of the sphere and for one of several quaternion conventions; numerical difference tests at a few quaternions do not show for which expressions it holds.", "anchors": ["aslam_backend_expressions/src/Vector2RotationQuaternionExpressionAdapter.cpp: toRotationMatrixImplementation, getMatrixToLieAlgebra, evaluateJacobiansImplementation", "aslam_backend_expressions/include/aslam/backend/Vector2RotationQuaternionExpressionAdapter.hpp"]}
{"id": "C71", "title": "CameraDesignVariable adds the derivatives of the reprojection error", "statement": "CameraDesignVariable::evaluateJacobians adds to the container the derivatives of the residual y - keypoint (times the chain rule matrix, if one is given) with respect to the parameters of projection, distortion and shutter, for all of the three that are active.", "quantifier": "every camera whose Jacobian functions are the derivatives of its projection, every point, parameters, activity flags, chain rule matrix and container", "why_tests_cant": "The sign, the order of the factors and the set of parameters matter for each of the three blocks and for both overloads; tests with an inactive shutter pass in both.", "anchors": ["aslam_backend_expressions/include/aslam/backend/implementation/CameraDesignVariable.hpp: homogeneousToKeypoint, evaluateJacobians (two overloads), getDesignVariables", "aslam_backend_expressions/include/aslam/backend/CameraDesignVariable.hpp"]}
{"id": "C72", "title": "The step of the linear solvers is the best step and descends the real cost", "statement": "The step returned by any of the linear system solvers minimises the damped, weighted, linearised cost: no other step gives a smaller |e + J y|^2 + |diag(c) y|^2, and none the same if all damping entries are non-zero (so all solvers return the same step). Unless the cost is stationary the linearised cost falls, and the real cost - any differentiable error functions with these Jacobians, through any loss functions whose slopes are the weights - falls for all sufficiently short steps in this direction.", "quantifier": "every list of error terms, dimensions, Jacobians, errors, weights, square roots of the information, scalings, dampings; every error function and loss function with these derivatives; every library that solves what it is asked", "why_tests_cant": "Optimality against all steps and descent for all error functions are statements over infinitely many alternatives; the code only manipulates blocks, transposes and diagonals.", "anchors": ["aslam_backend/src/BlockCholeskyLinearSystemSolver.cpp: buildSystem, solveSystem", "aslam_backend/src/SparseCholeskyLinearSystemSolver.cpp: buildSystem, solveSystem", "aslam_backend/src/DenseQrLinearSystemSolver.cpp: buildSystem, solveSystem", "aslam_backend/src/SparseQrLinearSystemSolver.cpp: buildSystem, solveSystem", "aslam_backend/src/ErrorTerm.cpp: getWeightedJacobians, getWeightedError"]}
{"id": "C73", "title": "Levenberg-Marquardt does not reject steps for ever", "statement": "At a state where the cost is not stationary, only finitely many steps of the Levenberg-Marquardt policy in a row are taken back: there is a number K, depending on the problem at this state and the parameters only, such that after at most K rejections the step that the solver returns for the increased lambda lowers the real cost.", "quantifier": "every list of error terms with differentiable error functions and loss functions, every history of the policy before, every lambda it has reached, every sequence of calls; block Cholesky, sparse Cholesky and dense QR", "why_tests_cant": "A liveness property: it needs that lambda grows without bound and that for large lambda the step is short and along the gradient; any finite test sees a finite number of rejections. With the block solver it must hold although every solve changes the stored diagonal.", "anchors": ["aslam_backend/src/LevenbergMarquardtTrustRegionPolicy.cpp: solveSystemImplementation", "aslam_backend/src/BlockCholeskyLinearSystemSolver.cpp: solveSystem", "aslam_backend/src/SparseCholeskyLinearSystemSolver.cpp: solveSystem", "aslam_backend/src/DenseQrLinearSystemSolver.cpp: solveSystem", "aslam_backend/src/Optimizer2.cpp: L215-229"]}
{"id": "C74", "title": "The Levenberg-Marquardt gain ratio compares the real decrease with the predicted one", "statement": "getLmRho returns the decrease of the cost divided by the decrease that the linearised error terms predict for the step; in particular it is one if the error terms are linear, and it is positive exactly if the cost fell.", "quantifier": "every list of error terms, scaling, lambda, state of the policy and cost", "why_tests_cant": "The damping strategy works with any positive number in place of the ratio, only slower; tests check that the optimizer converges.", "anchors": ["aslam_backend/src/LevenbergMarquardtTrustRegionPolicy.cpp: getLmRho", "aslam_backend/src/LinearSystemSolver.cpp: setConstantConditioner", "aslam_backend/src/BlockCholeskyLinearSystemSolver.cpp: solveSystem"]}
{"id": "C75", "title": "Steps with M-estimators lower the robust cost, and such steps are accepted", "statement": "With an M-estimator on every error term, the step computed from the weighted linear system never raises the sum of the robust losses, whatever the damping, and lowers it unless the gradient is zero; and the cost by which Optimizer2 accepts or takes back a step agrees with that.", "quantifier": "every list of error terms that are linear in the step, every choice of the six shipped M-estimators with positive constants, every damping, scaling and present error; block Cholesky, sparse Cholesky and dense QR", "why_tests_cant": "It rests on the concavity of the losses, for all errors; tests with M-estimators check single steps or the final result on one data set, and rejected steps look like convergence because the step becomes short.", "anchors": ["aslam_backend/src/MEstimatorPolicies.cpp: getWeight", "aslam_backend/include/aslam/backend/ErrorTerm.hpp: L122", "aslam_backend/include/aslam/backend/implementation/ErrorTerm.hpp: buildHessianImplementation", "aslam_backend/src/Optimizer2.cpp: L213-229", "aslam_backend/src/LevenbergMarquardtTrustRegionPolicy.cpp: solveSystemImplementation"]}
{"id": "C76", "title": "The implementations of Matrix can be used for one another", "statement": "After fromDenseTolerance(M, tol), DenseMatrix, SparseBlockMatrixWrapper and CompressedColumnMatrix have the size of M, elements and dense copy equal to M with the entries up to tol set to zero, and rightMultiply and leftMultiply give A x and A^T x, whatever the object and the destination held before; the block matrix stores exactly the blocks with an entry above tol and refuses a matrix of another size.", "quantifier": "every dense matrix, size, tolerance, block layout and earlier content, every source and every earlier content and size of the destination", "why_tests_cant": "Left-over blocks, values and destination contents only show for particular earlier contents; the tests build fresh objects, and never pass the same vector as source and destination.", "anchors": ["aslam_backend/src/DenseMatrix.cpp: fromDenseTolerance, rightMultiply, leftMultiply", "aslam_backend/src/SparseBlockMatrixWrapper.cpp: fromDenseTolerance, rightMultiply, leftMultiply", "aslam_backend/include/aslam/backend/implementation/CompressedColumnMatrix.hpp: L378-436", "sparse_block_matrix/include/sparse_block_matrix/implementation/sparse_block_matrix.hpp: L446-482"]}
{"id": "C77", "title": "Mapped design variables are views of the caller's memory", "statement": "MappedEuclideanPoint, DesignVariableMappedVector, MappedHomogeneousPoint, MappedRotationQuaternion and the expression of transformationToExpression always show what the caller's memory holds: after any sequence of calls and writes the value seen by expressions belongs to the present content of the mapped array; and a step over all design variables followed by the reverts leaves the memory exactly as it was.", "quantifier": "For all numbers of design variables of the four kinds, all assignments of them to arrays, all contents, all finite sequences of update, revertUpdate, setParameters, set, updateMap on any of them and of writes by the caller to any array, all increments, all functions updateQuat, quat2r and normalisations.", "why_tests_cant": "The unit tests map one variable on one fresh array, never write to the array from outside, never call set and never put two variables on one array; the faults need particular interleavings of calls, and there are infinitely many.", "anchors": ["aslam_backend_expressions/src/MappedRotationQuaternion.cpp:10-68", "aslam_backend_expressions/include/aslam/backend/MappedRotationQuaternion.hpp:32", "aslam_backend_expressions/src/MappedEuclideanPoint.cpp:6-69", "aslam_backend_expressions/src/MappedHomogeneousPoint.cpp:7-69", "aslam_backend_expressions/include/aslam/backend/implementation/DesignVariableMappedVector.hpp:6-105", "aslam_backend_expressions/src/MapTransformation.cpp:7-16"]}
{"id": "C78", "title": "Jacobians that are not finite are noticed", "statement": "utils::isFinite(container, expression) answers yes only if, for every active design variable of the expression, every Jacobian that was handed over to the container and every chain rule factor in effect at that moment was finite, for the sparse and the dense container; isFinite(dv) is exact for the accumulated Jacobian; the answer does not depend on the iteration order of the unordered set of design variables.", "quantifier": "For all sequences of apply(matrix), apply(scalar), release of the guard, add(dv, J), add(dv) with any contents including infinities and NaN, all sizes, all sets of design variables in any order, active or not, and for every arithmetic in which nothing turns a non-finite number into a finite one, which IEEE doubles are proved to be.", "why_tests_cant": "The test has one scalar expression and one way to get an infinity. That no product with a zero factor and no later summand can hide a non-finite value, at any depth of the chain, is a statement about all programs and all values; the iteration order of an unordered set cannot be controlled by a test.", "anchors": ["aslam_backend_expressions/include/aslam/backend/util/ExpressionUtils.hpp:17-26", "aslam_backend/include/aslam/backend/implementation/JacobianContainerSparseImpl.hpp:136-141", "aslam_backend/include/aslam/backend/implementation/JacobianContainerSparseImpl.hpp:258-270", "aslam_backend/include/aslam/backend/implementation/JacobianContainerDenseImpl.hpp:23-50", "aslam_backend/include/aslam/backend/implementation/JacobianContainerImpl.hpp:11-53"]}
{"id": "C79", "title": "What CHOLMOD and SuiteSparseQR hand out is freed exactly once", "statement": "For every sequence of calls of a linear solver, whatever call into CHOLMOD or SuiteSparseQR fails and whichever of them throws, no object is used after it was freed or freed twice, no null pointer is followed, between calls nothing but the solver's factor and the workspace of its cholmod_common is allocated, and the destructor leaves nothing allocated.", "quantifier": "For all sequences of initMatrixStructure, buildSystem, solveSystem, getR, analyzeSystem, getRank and friends (sparse solvers) and of init, solve, solveBlocks, solvePattern (block solvers), and for all answers of the libraries in which a null pointer is returned exactly when the status reports a problem.", "why_tests_cant": "The failures (no memory, not positive definite, wrong sizes) cannot be provoked one by one in a test, and a leak or double free does not change a result; the statement is about all interleavings of failures.", "anchors": ["aslam_backend/include/aslam/backend/implementation/Cholmod.hpp:168-453", "aslam_backend/src/SparseCholeskyLinearSystemSolver.cpp:12-93", "aslam_backend/src/SparseQrLinearSystemSolver.cpp:22-184", "sparse_block_matrix/include/sparse_block_matrix/linear_solver_cholmod.h:34-277", "sparse_block_matrix/include/sparse_block_matrix/linear_solver_spqr.h:34-154"]}
{"id": "C80", "title": "The text of an expression says what the expression is", "statement": "The text that ToTextNodeVisitor makes of an expression is name(argument, ..., argument)=value with every argument exactly once and in order, <> for a missing node and the bare text for a node that only names itself; it can be made whenever the expression can be evaluated, it shows the value at every node, and two different expressions have different texts.", "quantifier": "for every tree of nodes, every scalar and vector expression, every state, every printing of numbers and type names", "why_tests_cant": "The argument loop and the compile-time recursion over the tuple of arguments are written once for every number of arguments, and whether two texts can coincide is a statement about all pairs of expressions.", "anchors": ["aslam_backend_expressions/include/aslam/backend/ExpressionNodeVisitor.hpp", "aslam_backend_expressions/src/ToTextNodeVisitor.cpp", "aslam_backend_expressions/src/ScalarExpressionNode.cpp:297-315", "aslam_backend_expressions/src/ScalarExpression.cpp:17-34"]}
{"id": "C81", "title": "The tutorial program poses the estimation problem it describes", "statement": "For every number K of time steps the example program hands the optimiser a well-formed problem: the wall and K positions, a prior, an odometry and an observation term per step, with Jacobians that are the derivatives; the problem is observable (full column rank), and without noise the true wall and positions are the only state of zero cost.", "quantifier": "for every K, every sequence of random numbers, every state", "why_tests_cant": "The program draws random numbers and is run for a few K; rank and uniqueness are statements about every K and every state.", "anchors": ["aslam_backend_tutorial/src/example.cpp", "aslam_backend_tutorial/src/ErrorTermObservation.cpp", "aslam_backend_tutorial/src/ErrorTermMotion.cpp", "aslam_backend_tutorial/src/ErrorTermPrior.cpp"]}
{"id": "C82", "title": "Linear least-squares problems are solved", "statement": "On a problem whose errors are affine in the design variables and whose Jacobian has independent columns, Optimizer2 finds the unique minimum from every start: with the Gauss-Newton and the line-search policy in the first iteration, stopping at the second; with Levenberg-Marquardt no step is rejected, the damping stays bounded, every iteration lowers the distance to the lowest cost by a fixed factor below one, and a run that reports convergence is within a bound, given by its thresholds, of the minimum.", "quantifier": "for every problem size, matrix, offset, start, convergence thresholds, iteration limit and policy parameters in their documented range", "why_tests_cant": "Tests solve a few problems from a few starts; that the whole loop (policy, damping update, stopping rules) ends near the minimum is a statement about all matrices and all starts.", "anchors": ["aslam_backend/src/Optimizer2.cpp:150-260", "aslam_backend/src/LevenbergMarquardtTrustRegionPolicy.cpp", "aslam_backend/src/GaussNewtonTrustRegionPolicy.cpp", "aslam_backend/src/LineSearchTrustRegionPolicy.cpp"]}
{"id": "C83", "title": "Options read from a configuration are the ones in force", "statement": "An optimiser or sampler configured from a property tree has, for every option, the value stored under its key or the documented default; a configuration with a value out of its range or that cannot be converted is refused and no other is; the options in force (in the line search, the step length, the solver and policy objects) are those reported; options in range stay in range; saved options are restored completely.", "quantifier": "for every property tree, every option value, every history of setters and initialisations", "why_tests_cant": "Tests read one or two files; a forgotten key, a missing check or a part of the object left behind by a setter shows only for particular trees and call orders.", "anchors": ["aslam_backend/src/OptimizerBase.cpp:20-44", "aslam_backend/src/OptimizerRprop.cpp:12-37", "aslam_backend/src/LineSearch.cpp:388-416", "aslam_backend/src/OptimizerBFGS.cpp:18-69", "aslam_backend/src/Optimizer2.cpp:21-108", "aslam_backend/src/SamplerHybridMcmc.cpp:22-53", "aslam_backend/src/SamplerMetropolisHastings.cpp:20-31", "aslam_backend/src/LevenbergMarquardtTrustRegionPolicy.cpp:26-32", "aslam_backend/include/aslam/backend/implementation/OptimizerBaseImplementation.hpp:20-28"]}
{"id": "C84", "title": "Expressions keep their operands alive", "statement": "An expression can be evaluated for as long as it exists: the nodes below it are destroyed neither too early (whatever other expressions, copies and temporaries go out of scope before it) nor twice, and all nodes are destroyed once no expression needs them.", "quantifier": "for every program that creates, copies, combines, assigns, destroys and evaluates expressions, in every order", "why_tests_cant": "A test that uses freed memory usually passes; the order of destruction that goes wrong is one of unboundedly many.", "anchors": ["aslam_backend_expressions/src/ScalarExpression.cpp:33-43", "aslam_backend_expressions/src/RotationExpression.cpp:12-25", "aslam_backend_expressions/src/RotationExpression.cpp:54-73", "aslam_backend_expressions/include/aslam/backend/EuclideanExpressionNode.hpp:45-47", "aslam_backend_expressions/src/EuclideanPoint.cpp:55-58", "aslam_backend_expressions/src/TransformationBasic.cpp:8-15", "aslam_backend_expressions/include/aslam/backend/KinematicChain.hpp:28-38"]}
{"id": "C85", "title": "A coordinate frame hands out the quantities of its chain, whatever was asked before", "statement": "getR_G_L, getPG, getOmegaG, getAlphaG, getVG and getAG of a CoordinateFrame return the expression of the frame's chain of ancestors as it is at the time of the call, for every history of constructions, assignments, moves and earlier calls; the members that keep an expression once it is built are never out of date, and the calls terminate.", "quantifier": "every program creating, assigning, moving frames and calling getters, of any length, with any expressions", "why_tests_cant": "The getters change mutable members of the frame and of its ancestors, so what a call returns depends on the whole history; tests call each getter a few times on one chain.", "anchors": ["aslam_backend_expressions/include/aslam/backend/KinematicChain.hpp", "aslam_backend_expressions/src/KinematicChain.cpp"]}
{"id": "C86", "title": "A run that says it converged has reached a nearly stationary state", "statement": "For nonlinear least-squares problems: when Optimizer2::optimize reports convergence (DX or DOBJECTIVE), the gradient of the cost at the final state, or at a state one short step away, is small in proportion to the convergence limits; and a run that starts at a stationary state stays there and reports convergence at once.", "quantifier": "every kind of state, every differentiable error, every start, every setting of the limits and of the policy", "why_tests_cant": "Needs a statement about every problem and every state that a run can end in; a test compares one final state with one known answer.", "anchors": ["aslam_backend/src/Optimizer2.cpp: optimize, applyStateUpdate", "aslam_backend/src/GaussNewtonTrustRegionPolicy.cpp", "aslam_backend/src/LineSearchTrustRegionPolicy.cpp", "aslam_backend/src/LevenbergMarquardtTrustRegionPolicy.cpp", "aslam_backend/include/aslam/backend/OptimizerBase.hpp"]}
{"id": "C87", "title": "Gauss-Newton finds the minimum from a good first guess", "statement": "If the Jacobian has full rank near a minimum and the first guess is close enough (measured by the curvature of the error terms and the error that remains at the minimum), Optimizer2 with the Gauss-Newton policy converges to that minimum, quadratically when no error remains, ends within the number of iterations this takes, and the status DX bounds the distance to the minimum.", "quantifier": "All numbers of parameters and errors, error functions, Jacobians, stationary states, radii, options, first guesses within the radius, linear solvers that solve. Parameters are vectors, arithmetic is exact.", "why_tests_cant": "Tests run a handful of problems from chosen first guesses; that every problem and every guess within a computable radius converges, and how far the answer is off, is a statement about all of them.", "anchors": ["aslam_backend/src/Optimizer2.cpp", "aslam_backend/src/GaussNewtonTrustRegionPolicy.cpp"]}
{"id": "C88", "title": "The Python module offers what the C++ classes do", "statement": "A SparseBlockMatrix filled from Python behaves as the dense matrix it stands for (getBlock, setBlock, clear, at, toDense, toDenseSymmetric; a place that does not exist gives an exception and changes nothing); callbacks registered from Python run in the order of registration; properties can be read and written.", "quantifier": "All layouts, sequences of operations with any indices and blocks, histories of add and clear calls with any arguments, events, callables, sampler states.", "why_tests_cant": "The Python tests build a few matrices and one callback; which arguments slip through the checks, and what the matrix answers after an arbitrary sequence of calls, no list of scripts can show.", "anchors": ["aslam_backend_python/src/SparseBlockMatrix.cpp", "aslam_backend_python/src/OptimizerCallback.cpp", "aslam_backend_python/src/Sampler.cpp", "aslam_backend_python/src/Optimizer.cpp", "sparse_block_matrix/include/sparse_block_matrix/implementation/sparse_block_matrix.hpp"]}
{"id": "C89", "title": "Levenberg-Marquardt reaches nearly stationary states", "statement": "From any first guess, Optimizer2 with the Levenberg-Marquardt policy meets a state at which the gradient is as small as wanted within a number of iterations that is known before the run (from the bounds of the Jacobian, of the curvature and of the initial cost), unless it ends before that with a convergence status or at the iteration limit; the damping lambda stays between two positive bounds, no solve fails, and the status DX bounds the gradient by a factor known before the run.", "quantifier": "All numbers of parameters and errors, state types, error functions, Jacobians, first guesses of cost at most c, options, policy parameters with an odd exponent and gammaInit < 2 muInit, 2 betaInit (the defaults are such), linear solvers that solve damped systems. Exact arithmetic.", "why_tests_cant": "The claim is about all runs of all problems and gives a bound that holds for each of them; a test observes a few runs, and the interplay of rejected steps, the gain ratio computed with the rejected cost and the factor of the damping decides whether lambda can run away.", "anchors": ["aslam_backend/src/LevenbergMarquardtTrustRegionPolicy.cpp:36-107", "aslam_backend/src/Optimizer2.cpp:159-258"]}
{"id": "C90", "title": "The line searches choose trial points that keep the minimum enclosed", "statement": "quadMin returns the lowest point of the parabola, and cubicMin the minimum of the cubic, through the values it is given. dcstep never trades the best step for a worse one; once a minimum is bracketed (which for a differentiable function means that the interval holds a lowest point with slope zero strictly inside) it stays bracketed, the interval only shrinks and the next trial lies strictly inside it; a higher value or a change of sign of the slope brackets a minimum; on a parabola the next trial is the minimiser itself. In every search the ends of the interval carry the values and slopes measured at them and the best value never rises.", "quantifier": "All interpolated polynomials and points, all intervals with a descending best end and bounds that leave room beyond the trial, all measured values and slopes other than zero, all functions and numbers of calls. Exact arithmetic.", "why_tests_cant": "Four cases with two candidate points each, both orders of the interval ends and the clipped square root give a continuum of situations; a wrong sign in one formula still converges on most test functions, only slower.", "anchors": ["aslam_backend/src/LineSearch.cpp:58-237", "aslam_backend/src/LineSearch.cpp:240-384"]}
{"id": "C91", "title": "Quaternion expressions compute quaternion algebra", "statement": "In both storage orders the value of a quaternion product is Hamilton's product (with exchanged factors in the other convention), conjugate, imaginary part, inverse and cross product are the usual ones, and rotate3Vector with a unit quaternion is a proper rotation: it keeps inner products and cross products, the rotation by a product is the rotation by the second factor followed by that by the first, the rotation by the inverse undoes it, and it turns by twice the half angle about the axis in the direction of the convention.", "quantifier": "All matrix expressions for the operands, all states, both storage orders, both multiplication conventions. Exact arithmetic.", "why_tests_cant": "The derivative of a node can be right for a wrong value (the Jacobian theorems hold for any bilinear product), and a few test quaternions do not tell a rotation from a map that agrees with it at these points.", "anchors": ["aslam_backend_expressions/include/aslam/backend/implementation/QuaternionExpression.hpp:21-122", "aslam_backend_expressions/include/aslam/backend/implementation/QuaternionExpression.hpp:185-305"]}
