{"id": "C01", "title": "Box projection is the closest feasible point", "statement": "For a box constraint with lower <= upper componentwise, projection(z) lies inside the box, leaves points of the box unchanged, applying it twice changes nothing, and no point of the box is closer to z.", "quantifier": "every dimension, every pair of bounds with lower<=upper, every point z", "why_tests_cant": "Points, bounds and dimensions are a continuum; tests sample a few random vectors.", "anchors": ["include/aligator/modelling/constraints/box-constraint.hpp: BoxConstraintTpl::projection", "include/aligator/modelling/constraints/negative-orthant.hpp: NegativeOrthantTpl::projection", "include/aligator/modelling/constraints/equality-constraint.hpp"]}
{"id": "C02", "title": "Projection and normal-cone projection split every vector", "statement": "For every shipped constraint set (equality, negative orthant, box, L1 penalty) and for every product of such sets, projection(z) + normalConeProjection(z) = z, and (for the convex-cone and box sets) the normal-cone part is in the normal cone of the set at projection(z).", "quantifier": "every set, every product of sets with matching block sizes, every z", "why_tests_cant": "Infinite input space; the product case additionally ranges over every list of components.", "anchors": ["include/aligator/modelling/constraints/*.hpp: projection, normalConeProjection", "include/aligator/modelling/constraints/constraint-set-product.hpp"]}
{"id": "C03", "title": "Active set and projected Jacobians linearise the projection", "statement": "computeActiveSet marks exactly the components on which normalConeProjection is locally nonconstant; rows kept by applyNormalConeProjectionJacobian (and cleared by applyProjectionJacobian) are exactly those, so that away from kinks normalConeProjection(z+d) = normalConeProjection(z) + (projected identity) d for all small d.", "quantifier": "every set, every z off the kink points, every sufficiently small perturbation", "why_tests_cant": "A statement about a neighbourhood of every point; a finite difference test sees one point at one step size.", "anchors": ["include/aligator/core/constraint-set.hpp: applyProjectionJacobian, applyNormalConeProjectionJacobian", "include/aligator/modelling/constraints/*: computeActiveSet"]}
{"id": "C04", "title": "L1 proximal operator and Moreau envelope", "statement": "projection of the L1 penalty (after setProxParameter(mu)) minimises |y|_1 + |y-z|^2/(2 mu); evaluateMoreauEnvelope returns the minimum value. The same proximal parameter must be used by every component when the penalty is inside a product of sets.", "quantifier": "every z, every mu>0, every product of sets", "why_tests_cant": "Optimality quantifies over all competitors y.", "anchors": ["include/aligator/modelling/constraints/l1-penalty.hpp", "include/aligator/core/constraint-set.hpp: setProxParameter, evaluateMoreauEnvelope"]}
{"id": "C05", "title": "Filter stays an antichain and rejections have no effect", "statement": "After any sequence of candidate submissions and resets the filter contains no pair dominated by another; a rejected candidate leaves it unchanged; an accepted candidate is present afterwards and not dominated; every pair ever accepted remains covered by some stored pair until the next reset.", "quantifier": "every sequence of operations, every value", "why_tests_cant": "Invariant over unbounded histories.", "anchors": ["include/aligator/core/filter.hpp: FilterTpl::accept_pair, resetFilter"]}
{"id": "C06", "title": "Filter line search returns what it evaluated", "statement": "FilterTpl::run returns a step size in [alpha_min,1] and the merit value measured at that very step size, and the returned pair was acceptable to the filter or the step is the minimum one.", "quantifier": "every merit function including ones which raise errors on some step sizes, every filter content, every number of steps", "why_tests_cant": "Depends on the pattern of exceptions and acceptances over the whole run.", "anchors": ["include/aligator/core/filter.hpp: FilterTpl::run"]}
{"id": "C07", "title": "Armijo line search postcondition", "statement": "On return the Armijo search gives a step size >= alpha_min (and <= 1), the returned value is the merit measured at the returned step, and it satisfies phi(alpha) <= phi0 + c1*alpha*dphi0 unless the step is at the minimum, the initial slope was below the threshold or the step budget ran out.", "quantifier": "every merit function (including ones that raise), every slope, every option set, every interpolation scheme", "why_tests_cant": "Adversarial merit functions and exception patterns are unbounded.", "anchors": ["include/aligator/core/linesearch-armijo.hpp: ArmijoLinesearch::run"]}
{"id": "C08", "title": "Armijo interpolation minimises the right polynomial", "statement": "The quadratic (cubic) interpolation step is the stationary point of the polynomial matching phi0, dphi0 and the last (two) sampled merit values; the proposed step always lies in [contraction_min*alpha, contraction_max*alpha].", "quantifier": "every samples, every slope, every step sizes", "why_tests_cant": "Interpolation identity must hold for all coefficients.", "anchors": ["include/aligator/core/linesearch-armijo.hpp: minimize_interpolant, PolynomialTpl"]}
{"id": "C09", "title": "Nonmonotone line search postcondition", "statement": "The nonmonotone search returns a step in [alpha_min, 1] and the merit at that step; either the value is at most reference+c1*alpha*dphi0 or the step is alpha_min; the reference value stays between the smallest and largest merit value seen since reset.", "quantifier": "every sequence of calls, every merit function (including ones which raise)", "why_tests_cant": "Reference value is a function of the whole call history.", "anchors": ["include/aligator/core/linesearch-nonmonotone.hpp: NonmonotoneLinesearch::run, reset"]}
{"id": "C10", "title": "FDDP Goldstein line search postcondition", "statement": "The Goldstein search used by FDDP returns the merit value evaluated at the step it returns, the step stays in [alpha_min,1], and the search leaves the trial trajectory in the state of that step.", "quantifier": "every merit function, including ones that raise", "why_tests_cant": "Adversarial merit functions.", "anchors": ["include/aligator/solvers/fddp/linesearch.hpp: fddp_goldstein_linesearch"]}
{"id": "C11", "title": "Newton-Raphson return value is a certificate", "statement": "If the Newton-Raphson helper returns true then the residual norm at the returned point is <= eps; it evaluates at most max_iters Newton steps; the residual norm of the running iterate never increases.", "quantifier": "every residual function, Jacobian oracle, starting point, tolerance and budget", "why_tests_cant": "Arbitrary functions.", "anchors": ["include/aligator/utils/newton-raphson.hpp: NewtonRaphson::run", "include/aligator/core/forward-dyn.hpp"]}
{"id": "C12", "title": "ProxDDP: success implies tolerances on the reported residuals", "statement": "If SolverProxDDP::run returns true then results.conv is true, results.prim_infeas <= target_tol and results.dual_infeas <= target_dual_tol, and these are the residuals of the returned iterate; if false is returned results.conv is false.", "quantifier": "every problem, every option set, every behaviour of the inner solver (line search, linear solver, model evaluation)", "why_tests_cant": "Ranges over all executions of the two nested loops.", "anchors": ["include/aligator/solvers/proxddp/solver-proxddp.hxx: run, innerLoop, computeCriterion"]}
{"id": "C13", "title": "ProxDDP: iteration budgets", "statement": "run performs at most max_iters inner iterations in total and at most max_al_iters outer iterations; results.num_iters and results.al_iter report them; run always terminates.", "quantifier": "every problem, option set and behaviour of the numerical routines", "why_tests_cant": "Termination and budget for every execution.", "anchors": ["include/aligator/solvers/proxddp/solver-proxddp.hxx: run, innerLoop", "include/aligator/solvers/proxddp/solver-proxddp.hpp: updateTolsOnSuccess"]}
{"id": "C14", "title": "ProxDDP: penalty and tolerance schedule", "statement": "The penalty parameter never goes below mu_lower_bound; it only decreases on failed outer iterations until it hits the bound, from which it is reset to its initial value; inner and primal tolerances never go below the final targets; dynamics penalty is a fixed multiple of it.", "quantifier": "every sequence of outer-iteration outcomes", "why_tests_cant": "Invariant over unbounded sequence of AL updates.", "anchors": ["include/aligator/solvers/proxddp/solver-proxddp.hpp: setAlmPenalty, updateTolsOnFailure, updateTolsOnSuccess, AlmParams"]}
{"id": "C15", "title": "Callbacks fire exactly once per counted iteration, in order", "statement": "During one ProxDDP (or FDDP) run every registered callback is invoked exactly once for each counted iteration, with the state of that iteration; registering under an existing name replaces, removing by name removes only it.", "quantifier": "every run, every set of registered callbacks", "why_tests_cant": "All executions / early exits.", "anchors": ["include/aligator/solvers/proxddp/solver-proxddp.hxx: innerLoop", "include/aligator/solvers/fddp/solver-fddp.hxx: run", "include/aligator/solvers/proxddp/solver-proxddp.hpp: registerCallback, invokeCallbacks"]}
{"id": "C16", "title": "force_initial_condition pins the first state", "statement": "When force_initial_condition is set and the problem's initial condition is a fixed-state condition, the returned trajectory starts at that state, whatever warm start was given.", "quantifier": "every problem, warm start and run", "why_tests_cant": "Every warm start and number of iterations.", "anchors": ["include/aligator/solvers/proxddp/solver-proxddp.hxx: run, tryLinearStep, tryNonlinearRollout", "include/aligator/solvers/fddp/solver-fddp.hxx: run"]}
{"id": "C17", "title": "Multiplier estimates live in the normal cone and certify feasibility", "statement": "The first-order multiplier estimates computed for path constraints lie in the normal cone (non-negative for inequalities, zero when strictly satisfied) and the reported primal infeasibility is zero exactly when dynamics hold and the shifted constraint is a fixed point, i.e. KKT feasibility plus complementarity holds.", "quantifier": "every constraint values, previous multipliers, penalty mu>0, any set in the library", "why_tests_cant": "Continuum of inputs.", "anchors": ["include/aligator/solvers/proxddp/solver-proxddp.hxx: computeMultipliers"]}
{"id": "C18", "title": "FDDP forward pass contracts all gaps by exactly (1-alpha)", "statement": "After the FDDP forward pass with step alpha the gaps of the new trajectory (including the initial one) are exactly (1-alpha) times the old ones; with alpha=1 the trajectory is a dynamically feasible rollout from x0, and feasibility is then preserved forever.", "quantifier": "every horizon, dynamics, gains, alpha (vector-space state)", "why_tests_cant": "Any horizon and any nonlinear dynamics.", "anchors": ["include/aligator/solvers/fddp/solver-fddp.hxx: forwardPass, computeInfeasibility"]}
{"id": "C19", "title": "FDDP: success flag, reported residuals", "statement": "If the FDDP solver reports convergence then the reported max(prim_infeas,dual_infeas) is below tolerance.", "quantifier": "every run", "why_tests_cant": "All executions.", "anchors": ["include/aligator/solvers/fddp/solver-fddp.hxx: run"]}
{"id": "C20", "title": "FDDP backward pass computes the optimal policy of the LQ model", "statement": "The gains returned by the backward pass minimise the quadratic Q function for every state deviation, the stored value function equals the minimum, and composing stages gives the optimal cost-to-go of the LQ subproblem.", "quantifier": "every horizon and dimensions, every data for which Quu is invertible/positive definite", "why_tests_cant": "Induction over horizon, all matrices.", "anchors": ["include/aligator/solvers/fddp/solver-fddp.hxx: backwardPass"]}
{"id": "C21", "title": "Serial Riccati recursion solves the full KKT system", "statement": "backward() then forward() of the proximal Riccati solver produce (xs,us,vs,lbdas) satisfying every KKT equation of the LQ problem: initial constraint, dynamics, path constraints with dual regularisation, and stationarity in every x_t and u_t.", "quantifier": "every horizon, state/control/constraint dimensions, every problem data for which the stage factorisations are invertible", "why_tests_cant": "Any horizon and any dimensions; tests use random small problems and tolerance.", "anchors": ["include/aligator/gar/riccati-kernel.hxx", "include/aligator/gar/proximal-riccati.hxx: backward, forward"]}
{"id": "C22", "title": "Parametric Riccati recursion solves the KKT system for every parameter", "statement": "With a parametric LQ problem, forward(theta) gives the KKT solution for that theta, i.e. the affine-in-theta sensitivity is exact.", "quantifier": "every horizon, dims, theta", "why_tests_cant": "Infinite parameter space.", "anchors": ["include/aligator/gar/riccati-kernel.hxx", "include/aligator/gar/dense-kernel.hpp", "include/aligator/gar/lqr-problem.hpp"]}
{"id": "C23", "title": "Dense Riccati variant agrees with the KKT system", "statement": "The stage-dense Riccati solver returns the same solution as the proximal Riccati solver on every solvable problem, and reports the gradient and Hessian of the optimal value with respect to the parameter.", "quantifier": "every horizon, dims, data", "why_tests_cant": "Infinite input space.", "anchors": ["include/aligator/gar/dense-riccati.hxx", "include/aligator/gar/dense-kernel.hpp"]}
{"id": "C24", "title": "Parallel Riccati returns the serial solution", "statement": "For every number of legs the parallel (condensed) solver returns a KKT solution of the original problem, the same as the serial solver, independent of the thread schedule.", "quantifier": "every horizon, number of threads, dims, data with invertible factorisations, every interleaving", "why_tests_cant": "Schedules and partitions are unbounded.", "anchors": ["include/aligator/gar/parallel-solver.hxx: backward, forward, assembleCondensedSystem"]}
{"id": "C25", "title": "Work partition tiles the horizon", "statement": "The leg boundaries handed to the threads are contiguous, disjoint, ordered, cover every stage exactly once, and differ in length by at most one; every leg is non-empty when there are at most as many legs as stages.", "quantifier": "every horizon and number of threads", "why_tests_cant": "Unbounded integers; overflow and empty-leg cases.", "anchors": ["include/aligator/gar/parallel-solver.hxx: get_work"]}
{"id": "C26", "title": "Parallel regions are race-free", "statement": "No two threads of a parallel region of the solver (problem evaluation, derivative computation, per-leg Riccati sweep) access the same object with one of them writing, so the result is the same for every schedule, equal to the sequential execution.", "quantifier": "every interleaving, number of threads, horizon", "why_tests_cant": "Schedules cannot be enumerated by tests.", "anchors": ["include/aligator/core/traj-opt-problem.hxx: evaluate, computeDerivatives", "include/aligator/gar/parallel-solver.hxx: forward, backward"]}
{"id": "C27", "title": "Block-tridiagonal solver", "statement": "When symmetricBlockTridiagSolve (or its down-looking variant) succeeds, the vector it leaves in place of the right-hand side solves the block-tridiagonal system built by blockTridiagToDenseMatrix; both variants agree; blockTridiagMatMul is that matrix-vector product.", "quantifier": "any number of blocks, any block sizes, any data with invertible pivots", "why_tests_cant": "Unbounded block counts.", "anchors": ["include/aligator/gar/block-tridiagonal.hpp"]}
{"id": "C28", "title": "Iterative refinement never destroys an exact solution", "statement": "A refinement step applied to an exact solution leaves it unchanged and in exact arithmetic one refinement step from any starting point gives the exact solution; in the parallel solver the refinement loop therefore returns the solution whatever maxRefinementSteps is.", "quantifier": "every data, every number of refinement steps", "why_tests_cant": "Loop count and data arbitrary.", "anchors": ["include/aligator/gar/block-tridiagonal.hpp: blockTridiagRefinementStep", "include/aligator/gar/parallel-solver.hxx: backward"]}
{"id": "C29", "title": "KKT error certificate", "statement": "lqrComputeKktError returns the zero triple exactly when the given (xs,us,vs,lbdas) satisfy the KKT equations, and the sparse matrix built by lqrCreateSparseMatrix represents the same system.", "quantifier": "every problem, every trajectory", "why_tests_cant": "Iff over all inputs.", "anchors": ["include/aligator/gar/utils.hpp: lqrComputeKktError, lqrDenseSolutionToTraj, lqrNumRows", "include/aligator/gar/utils.hxx: lqrCreateSparseMatrix"]}
{"id": "C30", "title": "Bunch-Kaufman factor-and-solve is exact", "statement": "When BunchKaufman::compute reports Success, solveInPlace(b) yields x with A x = b, for every symmetric matrix given by its lower triangle; on a singular pivot failure is reported.", "quantifier": "every size, symmetric matrix and right-hand side (exact arithmetic)", "why_tests_cant": "Pivot patterns grow exponentially in size.", "anchors": ["include/aligator/core/bunchkaufman.hpp"]}
{"id": "C31", "title": "LQ problem equality and evaluation", "statement": "LqrProblem::isApprox(other) holds only if all data are the same; evaluate returns the sum of stage costs (plus parametric terms) including the terminal one.", "quantifier": "every pair of problems, every horizon", "why_tests_cant": "Infinite input space.", "anchors": ["include/aligator/gar/lqr-problem.hpp: isApprox", "include/aligator/gar/lqr-problem.hxx: evaluate"]}
{"id": "C32", "title": "Problem evaluation", "statement": "TrajOptProblem::evaluate returns the sum of all stage costs plus the terminal cost, evaluates every stage at (x_i,u_i,x_{i+1}), and throws, without evaluating, if the number of states or controls is wrong.", "quantifier": "every horizon and schedule", "why_tests_cant": "All horizons/schedules.", "anchors": ["include/aligator/core/traj-opt-problem.hxx: evaluate, computeTrajectoryCost"]}
{"id": "C33", "title": "Warm start assignment", "statement": "A supplied initial guess is either adopted in full or rejected with an error; the default is used exactly for the parts not supplied.", "quantifier": "every guess (any lengths)", "why_tests_cant": "All length combinations.", "anchors": ["include/aligator/core/traj-opt-problem.hpp: check_initial_guess_and_assign, assign_no_resize, initializeSolution"]}
{"id": "C34", "title": "Receding-horizon cycling behaves as a queue", "statement": "Any sequence of replaceStageCircular / cycleProblem / cycleAppend keeps the horizon length, drops the oldest stage, appends the new one, and shifts the warm start of every retained stage by exactly one.", "quantifier": "every horizon, every sequence of cycles", "why_tests_cant": "Unbounded histories.", "anchors": ["include/aligator/core/traj-opt-problem.hxx: replaceStageCircular", "include/aligator/utils/mpc-util.hpp: rotate_vec_left", "include/aligator/solvers/proxddp/results.hxx: cycleAppend", "include/aligator/solvers/proxddp/workspace.hxx: cycleAppend"]}
{"id": "C35", "title": "Constraint stack segments tile the stacked vector", "statement": "The segments of the stacked constraint vector and of the block matrices assigned to distinct constraints are disjoint, in order, and cover the total dimension, after any sequence of pushBack/clear operations.", "quantifier": "every sequence of dimensions", "why_tests_cant": "Unbounded sequences.", "anchors": ["include/aligator/core/constraint.hpp: ConstraintStackTpl", "include/aligator/core/blk-matrix.hpp: BlkMatrix"]}
{"id": "C36", "title": "Lagrangian gradients are the derivatives of the Lagrangian", "statement": "The reported Lagrangian gradients w.r.t. every x_t and u_t are the sums of cost gradient and transposed-Jacobian-times-multiplier of exactly the constraints in which the variable appears.", "quantifier": "every horizon, multipliers, Jacobians", "why_tests_cant": "All horizons.", "anchors": ["include/aligator/core/lagrangian.hpp: LagrangianDerivatives::compute", "include/aligator/solvers/proxddp/solver-proxddp.hxx: updateLQSubproblem"]}
{"id": "C37", "title": "Cost stack is a weighted sum keyed by name", "statement": "After any sequence of addCost/setWeight/scaling operations value, gradient and Hessian of a cost stack are the weighted sums over the components stored; adding a component increases the number of components by one or fails visibly.", "quantifier": "every sequence of operations, every iteration order of the hash map", "why_tests_cant": "Unbounded histories and orders.", "anchors": ["include/aligator/modelling/costs/sum-of-costs.hpp/.hxx"]}
{"id": "C38", "title": "Quadratic costs: gradient and Hessian are exact", "statement": "For QuadraticCost, QuadraticResidualCost and direct sums the value after a move d equals value + gradient.d + 1/2 d'Hd (residual affine), i.e. the derivatives reported are those of the reported value.", "quantifier": "every weights, every point, every move", "why_tests_cant": "Identity for all d.", "anchors": ["include/aligator/modelling/costs/quad-costs.hpp", "include/aligator/modelling/costs/quad-residual-cost.hxx", "include/aligator/modelling/costs/cost-direct-sum.hpp"]}
{"id": "C39", "title": "Log-barrier costs: derivatives are exact", "statement": "For LogResidualCost and RelaxedLogBarrierCost the gradient is the derivative of the value at every point of the domain (including the threshold of the relaxation), and the Hessian is the derivative of the gradient for affine residuals.", "quantifier": "every residual, weights, barrier threshold", "why_tests_cant": "Continuum; kinks at threshold.", "anchors": ["include/aligator/modelling/costs/log-residual-cost.hxx", "include/aligator/modelling/costs/relaxed-log-barrier.hxx"]}
{"id": "C40", "title": "Explicit integrators: Jacobians are the derivatives of the step", "statement": "For Euler, semi-implicit Euler, RK2 and midpoint integrators on vector spaces, the discrete Jacobians are the derivatives of the discrete step whenever the ODE's are those of the ODE.", "quantifier": "every ODE, step size, dimension", "why_tests_cant": "All dynamics.", "anchors": ["include/aligator/modelling/dynamics/integrator-*.hxx"]}
{"id": "C41", "title": "Function slices and linear compositions", "statement": "A slice of a stage function returns the selected rows of value, Jacobian and vector-Hessian product; a linear composition returns A f + b and A J.", "quantifier": "every function, index list, matrices", "why_tests_cant": "All functions.", "anchors": ["include/aligator/modelling/function-xpr-slice.hxx", "include/aligator/modelling/linear-function-composition.hpp"]}
{"id": "C42", "title": "Finite differences are exact on affine functions", "statement": "The finite-difference wrappers return the exact Jacobian for affine functions, for every step size, and do not change the value.", "quantifier": "every affine function, dimension, step", "why_tests_cant": "All.", "anchors": ["include/aligator/modelling/autodiff/finite-difference.hpp"]}
{"id": "C43", "title": "Rollout produces a dynamically consistent trajectory", "statement": "Every rollout overload returns exactly N+1 states starting with x0 with xs[i+1]=f_i(xs[i],us[i]).", "quantifier": "every N, dynamics, controls", "why_tests_cant": "All horizons.", "anchors": ["include/aligator/utils/rollout.hpp"]}
{"id": "C44", "title": "Manifold product and tangent-bundle laws", "statement": "difference(x, integrate(x,v)) = v, integrate(x, difference(x,y)) = y; interpolate(x0,x1,0)=x0, interpolate(x0,x1,1)=x1; for products of manifolds these hold when they hold for the components, products are ordered left to right, and isNormalized holds iff it holds for every component.", "quantifier": "every (nested) product of spaces, all points", "why_tests_cant": "Nesting is unbounded, points are a continuum.", "anchors": ["include/aligator/modelling/spaces/cartesian-product.hpp", "include/aligator/modelling/spaces/tangent-bundle.hpp", "include/aligator/core/vector-space.hpp"]}
{"id": "C45", "title": "Centroidal dynamics and momentum derivatives", "statement": "The Jacobians of the centroidal forward dynamics and momentum/acceleration residuals are the derivatives of their values, for every number of contacts and contact pattern.", "quantifier": "every contact set, state, control", "why_tests_cant": "Unbounded number of contacts.", "anchors": ["include/aligator/modelling/dynamics/centroidal-fwd.hxx", "include/aligator/modelling/centroidal/*.hxx"]}
{"id": "C46", "title": "Wrench cone residual is the contact wrench cone", "statement": "The 17 residuals of the centroidal wrench cone are <= 0 exactly when the contact force is in the friction pyramid, the centre of pressure inside the rectangle and the yaw torque within its (Caron) bounds; and the Jacobian times the wrench gives the value.", "quantifier": "every wrench, friction, foot size", "why_tests_cant": "Continuum.", "anchors": ["include/aligator/modelling/centroidal/centroidal-wrench-cone.hxx", "include/aligator/modelling/centroidal/centroidal-friction-cone.hxx"]}
{"id": "C47", "title": "Contact map behaves as an ordered association list", "statement": "After any sequence of add/remove/set operations names, states and poses have the same length, lookups return the data last set for that name, and unknown names give an error.", "quantifier": "every sequence of operations", "why_tests_cant": "Unbounded histories.", "anchors": ["include/aligator/modelling/contact-map.hpp"]}
{"id": "C48", "title": "Arena matrices never use or free memory they do not own", "statement": "In any sequence of construct/copy/move/assign/resize/destroy operations on managed matrices, every buffer is freed exactly once, with the size and by the memory resource it was allocated with, no live matrix reads freed or null storage, and copies do not share storage.", "quantifier": "every sequence of operations over any number of matrices and allocators", "why_tests_cant": "Unbounded histories of aliasing operations.", "anchors": ["include/aligator/core/arena-matrix.hpp: ManagedMatrix / ArenaMatrix"]}
{"id": "C49", "title": "Infinity norm and finiteness checks detect NaN", "statement": "The infinity norm helper used for reported infeasibilities returns a non-finite value whenever an input block contains NaN, and check_scalar/check_value tell finite from non-finite.", "quantifier": "every list of blocks", "why_tests_cant": "NaN may be at any position.", "anchors": ["include/aligator/math.hpp: infty_norm, check_value, check_scalar"]}
{"id": "C50", "title": "Linear step / nonlinear rollout produce the announced trial point", "statement": "tryLinearStep(alpha) yields exactly x (+) alpha dx, u + alpha du, v + alpha dv, lambda + alpha dlambda, with alpha=0 giving back the current iterate; the nonlinear rollout yields a trajectory whose dynamics hold exactly, and with linear dynamics and full step both coincide.", "quantifier": "every horizon, step and direction", "why_tests_cant": "All horizons.", "anchors": ["include/aligator/solvers/proxddp/solver-proxddp.hxx: tryLinearStep, tryNonlinearRollout"]}
{"id": "C51", "title": "Merit function is the augmented Lagrangian and its slope is the directional derivative", "statement": "The value used by the line search equals cost plus the penalty/multiplier terms prescribed by the proximal augmented Lagrangian and the initial slope fed to the line search is its directional derivative along the step.", "quantifier": "every multipliers, penalties, constraints", "why_tests_cant": "Infinite.", "anchors": ["include/aligator/solvers/proxddp/merit-function.hxx"]}
{"id": "C52", "title": "History callback records every iteration in order", "statement": "A history callback stores, for each invocation, the current values, in invocation order; nothing is dropped.", "quantifier": "every run length", "why_tests_cant": "Unbounded.", "anchors": ["include/aligator/core/history-callback.hpp", "include/aligator/core/history-callback.hxx"]}
{"id": "C53", "title": "Collapsed feedback of the parallel solver", "statement": "After collapseFeedback the control feedback matrix of stage 0 in the parallel Riccati solver equals the one of the serial solver.", "quantifier": "every horizon, number of legs, dimensions, data with invertible factorisations", "why_tests_cant": "Wrong only for multi-leg problems with particular data; tests compare trajectories, not gains.", "anchors": ["include/aligator/gar/parallel-solver.hpp: collapseFeedback", "include/aligator/gar/parallel-solver.hxx: backward"]}
{"id": "C54", "title": "ProxDDP: regularisation schedule", "statement": "The first iteration of a run regularises its subproblem with reg_init, clamped below by reg_min, whatever earlier runs did; later ones with the previous value times the decrease factor, clamped the same way; a step at the minimal length multiplies it by the increase factor, and at reg_max ends the run; the value stays between reg_min and a fixed bound, and a run of minimal steps reaches the maximum after finitely many iterations.", "quantifier": "every problem, option set and behaviour of the numerical routines", "why_tests_cant": "History-dependent scalar carried across iterations, inner loops and runs.", "anchors": ["include/aligator/solvers/proxddp/solver-proxddp.hpp: initializeRegularization, increaseRegularization", "include/aligator/solvers/proxddp/solver-proxddp.hxx: innerLoop, run"]}
{"id": "C55", "title": "FDDP: the predicted improvement on linear-quadratic problems", "statement": "On an LQ problem the cost predicted by the line-search model after a trial step equals the cost of the trial trajectory, from any current trajectory, feasible or not; the full step passes the acceptance test of the line search, and without regularisation it ends at a minimiser of the problem.", "quantifier": "every horizon, dimensions, data with positive definite Quu, trajectory, initial state and step length", "why_tests_cant": "The model enters only through an inequality with wide thresholds; an error in it shows up as a different step length, not as a wrong result.", "anchors": ["include/aligator/solvers/fddp/solver-fddp.hxx: expectedImprovement, updateExpectedImprovement, forwardPass, run", "include/aligator/solvers/fddp/linesearch.hpp"]}
{"id": "C56", "title": "Kinematic multibody residuals: Jacobians are derivatives", "statement": "For the residuals on frame placements, translations, velocities, relative placement of two frames, foot height against velocity, centre of mass position and velocity, divergent component of motion, centroidal momentum and collision distance: evaluate stores the documented quantity, and computeJacobians after it stores its derivative along every curve of states, from whatever the data and the Pinocchio buffers held before.", "quantifier": "every robot meeting Pinocchio's documented contract, frames, reference frames, references, states, curves and call histories", "why_tests_cant": "Finite differences sample a few states of one robot; a buffer filled for another frame or a wrong reference frame shows only on particular robots and call orders.", "anchors": ["include/aligator/modelling/multibody/frame-placement.hxx", "include/aligator/modelling/multibody/frame-translation.hxx", "include/aligator/modelling/multibody/frame-velocity.hxx", "include/aligator/modelling/multibody/frame-equality.hxx", "include/aligator/modelling/multibody/fly-high.hxx", "include/aligator/modelling/multibody/center-of-mass-translation.hxx", "include/aligator/modelling/multibody/center-of-mass-velocity.hxx", "include/aligator/modelling/multibody/dcm-position.hxx", "include/aligator/modelling/multibody/centroidal-momentum.hxx", "include/aligator/modelling/multibody/frame-collision.hxx"]}
{"id": "C57", "title": "Force multibody residuals: Jacobians are derivatives", "statement": "For the residuals on the rate of the centroidal momentum, gravity compensation, contact forces and the multibody friction and wrench cones: evaluate stores the documented quantity of the selected contact, and computeJacobians after it stores its derivative in the state and the control, from any reachable data; the constructors select a contact of the given name and throw when there is none.", "quantifier": "every robot meeting Pinocchio's documented contract, number, kind and activity of contacts, actuation, states, controls, curves and call histories", "why_tests_cant": "The repository's tests use one serial robot and contacts of one kind.", "anchors": ["include/aligator/modelling/multibody/centroidal-momentum-derivative.hxx", "include/aligator/modelling/multibody/gravity-compensation-residual.hxx", "include/aligator/modelling/multibody/contact-force.hxx", "include/aligator/modelling/multibody/multibody-friction-cone.hxx", "include/aligator/modelling/multibody/multibody-wrench-cone.hxx"]}
{"id": "C58", "title": "Robot dynamics: equations of motion and derivatives", "statement": "For kinodynamics: the rate computed by forward has the joint accelerations of the control and a base acceleration for which the rate of the centroidal momentum is that of gravity and the active contact forces, and dForward after it stores the derivative of this rate in the state and the control. For free and constrained multibody dynamics and the wheeled inverted pendulum: forward computes the rate and dForward after it its derivative, from any reachable data. When dForward is called away from the point of forward, free dynamics differentiates with the torques of the last forward and constrained dynamics at the point of the last forward. The residual of every continuous dynamics and its Jacobians follow.", "quantifier": "every robot meeting Pinocchio's documented contract, contacts, actuation, states, controls, curves and call histories", "why_tests_cant": "The repository's tests compare with finite differences at one point of one robot.", "anchors": ["include/aligator/modelling/dynamics/kinodynamics-fwd.hxx", "include/aligator/modelling/dynamics/multibody-free-fwd.hxx", "include/aligator/modelling/dynamics/multibody-constraint-fwd.hxx", "include/aligator/modelling/dynamics/wheeled-inverted-pendulum.hpp", "include/aligator/modelling/dynamics/ode-abstract.hxx"]}
{"id": "C59", "title": "Direct sums and linear discrete dynamics: value and derivative", "statement": "Linear discrete dynamics compute c + A x + B u with Jacobians A and B, when the sizes agree; the direct sum of two explicit dynamics computes the two side by side, and after dForward its Jacobians are the derivative, on any manifolds and for nested sums; the blocks between the two systems are zero in any data. States of the wrong size are rejected.", "quantifier": "every pair of explicit dynamics which compute a differentiable map, spaces, states, controls, curves and call histories", "why_tests_cant": "The repository tests the direct sum of two systems at random points by finite differences, without nesting or reuse of data.", "anchors": ["include/aligator/modelling/explicit-dynamics-direct-sum.hxx", "include/aligator/modelling/linear-discrete-dynamics.hpp", "include/aligator/core/explicit-dynamics.hpp", "include/aligator/modelling/spaces/cartesian-product.hxx"]}
{"id": "C60", "title": "Q-function and cost storage: views, copies, moves and rotation", "statement": "In any program of constructions, copies, moves, assignments, swaps, destructions and writes, each Q-function behaves as a value of its own: its views are the blocks of its own gradient and Hessian, at its own sizes, nothing is leaked, freed twice or read after free, and rotating a vector of Q-functions permutes their values. The views of cost data tile its gradient and Hessian; assignment between cost data of equal sizes copies values. The implicit copy constructor of cost data does not: the views of the copy are those of the original.", "quantifier": "every program over any number of Q-functions of any sizes, any heap and uninitialised contents", "why_tests_cant": "The repository tests construct one Q-function and copy it; they do not write through the views of copies, nor destroy the original, nor use cost data copies.", "anchors": ["include/aligator/solvers/value-function.hpp", "include/aligator/core/cost-abstract.hpp", "include/aligator/utils/mpc-util.hpp"]}
{"id": "C61", "title": "Converted Crocoddyl problems evaluate to Crocoddyl's values", "statement": "The converted problem has the running models as stages in their order and passes the integrity check exactly when consecutive state dimensions agree. From any data, its evaluation returns the sum of Crocoddyl's running and terminal costs, with Crocoddyl's next states; its derivatives after an evaluation at the same point are Crocoddyl's gradients, Hessians and Jacobians. Wrapped states give the Jacobian for the argument asked for.", "quantifier": "every shooting problem with at least one running model, every trajectory of the right sizes, every history of evaluations and derivatives", "why_tests_cant": "The repository tests convert one problem and compare costs; data with a history and the derivatives of every stage are not compared.", "anchors": ["include/aligator/compat/crocoddyl/problem-wrap.hxx", "include/aligator/compat/crocoddyl/action-model-wrap.hxx", "include/aligator/compat/crocoddyl/cost-wrap.hpp", "include/aligator/compat/crocoddyl/state-wrap.hpp"]}
{"id": "C62", "title": "Sizes of the solver's buffers stay consistent", "statement": "After setup, any sequence of the solver's routines (multipliers, merit, Lagrangian, projected Jacobians, LQ update, backward and forward passes, copy of the gains, linear step, nonlinear rollout, acceptance, outer update) reads no element out of range and never combines objects of different sizes; results, gains, knots and steps keep the sizes the problem's dimensions give. The same holds when receding-horizon cycles (cycleProblem) are interleaved, with the sizes of the current problem.", "quantifier": "every problem whose parts have the dimensions of their stage, every choice of linear solver, every finite sequence of routines", "why_tests_cant": "Tests run a few problems with fixed dimensions, mostly nx = ndx and without mixed empty constraint blocks; in release builds a wrong size is not reported.", "anchors": ["include/aligator/solvers/proxddp/solver-proxddp.hxx", "include/aligator/solvers/proxddp/workspace.hxx", "include/aligator/solvers/proxddp/results.hxx", "include/aligator/gar/riccati-kernel.hxx", "include/aligator/core/traj-opt-problem.hxx"]}
{"id": "C63", "title": "Multiplier updates of the outer loop approach the solution", "statement": "With the NEWTON and PRIMAL updates, a pass of the outer loop of SolverProxDDP moves the multipliers no farther from those of any solution than the error of the inner loop allows; the primal infeasibility of a pass is at most its penalty times the distance of the starting multipliers to a solution; the number of accepted passes with infeasibility above a threshold is bounded in advance.", "quantifier": "every problem with a solution satisfying the optimality conditions globally, every product of closed sets, every sequence of penalties, tolerances and accepted or rejected passes, every inexactness of the inner loop", "why_tests_cant": "Tests look at the result of a few problems under the default update mode; a bound over all sequences of penalties and passes is out of their reach.", "anchors": ["include/aligator/solvers/proxddp/solver-proxddp.hxx", "include/aligator/solvers/proxddp/workspace.hxx", "include/aligator/core/enums.hpp"]}
{"id": "C64", "title": "The polymorphic wrapper is a value", "statement": "xyz::polymorphic, which holds every cost, function, dynamics, space and constraint set, behaves as a value. With std::allocator any program of constructions, copies, moves, assignments, swaps and writes gives the values of a plain value type, a copy is equal to its source and no operation changes a variable it was not given. Every control block has exactly one owner, is freed once and with the allocator it came from, and nothing is left when the variables die. An operation that throws leaves the values as they were. Excepted are a move assignment or swap between a polymorphic and a member of its own value.", "quantifier": "every program, every shape of nested polymorphic members, every payload and dynamic type, every pattern of allocation and constructor failures, every allocator with its propagation traits as far as the specification covers the operation", "why_tests_cant": "The upstream tests of the wrapper try single operations on flat objects; nested ownership, every failure point and every program are out of their reach.", "anchors": ["include/aligator/third-party/polymorphic_cxx14.h"]}
{"id": "C65", "title": "Buffers of SolverFDDP fit, and nothing allocates in its no-allocation scopes", "statement": "After setup on a problem accepted by checkIntegrity, whatever routines of SolverFDDP run in whatever order, no vector is accessed out of range, all sizes match, no Ref dangles, no Eigen object is reallocated between ALIGATOR_NOMALLOC_BEGIN and END, user functions are called with allocations allowed, and the results keep the sizes of the problem; the same when stages leave and enter through cycleAppend.", "quantifier": "every horizon, every dimension of the spaces and of the controls, every sequence of calls of the routines of an iteration including forward passes ended by an exception, every sequence of cycles, with and without ALIGATOR_EIGEN_CHECK_MALLOC", "why_tests_cant": "Tests use a few fixed dimensions, mostly equal at all stages, and the allocation check is a build option that needs a run on every path.", "anchors": ["include/aligator/solvers/fddp/solver-fddp.hxx", "include/aligator/solvers/fddp/solver-fddp.hpp", "include/aligator/solvers/fddp/workspace.hxx", "include/aligator/solvers/fddp/results.hpp", "include/aligator/solvers/workspace-base.hpp", "include/aligator/solvers/value-function.hpp"]}
{"id": "C66", "title": "On affine-quadratic problems a full step of SolverProxDDP solves the subproblem, and outer passes converge", "statement": "On a problem with quadratic costs, affine dynamics and equality, inequality and box constraints, a step of size a of the inner loop with the linear rollout multiplies all residuals (gradients, multipliers, dynamics, initial condition) by 1 - a, up to a preg times the step; with equality constraints one full step makes the criterion zero from any iterate; when the costs are convex the iteration is always defined, every converged outer pass brings the multipliers closer to those of every solution, the passes accepted with a primal residual of at least eps are finitely many, zero residuals mean a feasible trajectory of least cost; and a zero criterion means that the subproblem is solved.", "quantifier": "every horizon, dimension, matrix and vector of the problem, every iterate, previous multiplier, penalty, regularisation and step size, every sequence of passes", "why_tests_cant": "Tests run a few linear-quadratic problems to a tolerance; they do not cover all problems, exact decrease rates, or warm starts where only the last dynamics is violated.", "anchors": ["include/aligator/solvers/proxddp/solver-proxddp.hxx", "include/aligator/core/lagrangian.hpp", "include/aligator/gar/proximal-riccati.hxx", "include/aligator/modelling/constraints/box-constraint.hpp", "include/aligator/modelling/constraints/negative-orthant.hpp", "include/aligator/modelling/constraints/equality-constraint.hpp"]}
{"id": "C67", "title": "The solvers' log table is what was entered", "statement": "The table logger prints, while active, the column names with their widths, and for each log() one row with the last entry of every column, in the order of the columns; an inactive logger prints nothing. No search reads a map key (a non-owning string view) whose characters are gone, and no value meets a format of the wrong type. SolverProxDDP: over any number of runs of one solver, verbose or quiet, also left by exceptions, each verbose run prints its headline, one complete row of twelve cells per logged iteration and the final message. SolverFDDP: the same with eight columns.", "quantifier": "every set of distinct columns, every sequence of operations that completes each logged line; every sequence of runs of the two solvers with all values, iteration counts and exits; every hash function", "why_tests_cant": "The tests run solvers with verbose output but never look at it; a read of a freed key shows only under a sanitizer and on the second verbose run of one SolverFDDP.", "anchors": ["include/aligator/utils/logger.hpp", "src/utils/logger.cpp", "include/aligator/solvers/proxddp/solver-proxddp.hxx", "include/aligator/solvers/fddp/solver-fddp.hxx"]}
{"id": "C68", "title": "The constrained inverse dynamics gives the torques and forces that hold the robot", "statement": "underactuatedConstrainedInverseDynamics (C++ and Python) sizes its Jacobian by the sum of the constraint sizes, stacks the Jacobians of the constraints in order, and solves [B | -J^T] [u; f] = nle(q,v) by least squares. If some torques and contact forces balance the robot, the torques returned balance it, the forward dynamics with these torques and the constraints give zero acceleration (constraints without drift), and the forces returned are the contact forces; if none do, the caller can tell.", "quantifier": "every number of joints and actuators, every actuation matrix, nonlinear effects and positive definite mass matrix, every list of constraints of any sizes, every QR that returns a least-squares solution", "why_tests_cant": "The only test compares one robot at one configuration; rank-deficient Jacobians, redundant contacts, configurations without equilibrium and the sign of the forces are not tested.", "anchors": ["include/aligator/modelling/multibody/constrained-rnea.hpp", "bindings/python/src/modelling/multibody/expose-pinocchio-functions.cpp"]}
{"id": "C69", "title": "C++ objects overridden in Python keep their value and own their Python part", "statement": "Objects of a C++ class with virtual methods overridden in Python (PolymorphicWrapper, OwningNonOwningHolder) behave as values: a copy kept by C++ has its own Python object with the attributes of the source and its own C++ part, changes of one object never show in another, virtual calls from C++ and uses from Python see the same C++ part, nothing is used after it was destroyed, and when all objects are gone no Python object and no C++ part is left.", "quantifier": "every sequence of creations in Python, copies (also of copies, also with deepcopy raising), assignments, changes, drops and destructions in any order; also moves, escaping self, assignments that raise and assignments to objects of Python", "why_tests_cant": "The Python tests copy a few objects and look at their values; a holder left pointing to a destroyed C++ object shows only with another order of destruction, and a leak does not show at all.", "anchors": ["bindings/python/include/aligator/python/polymorphic.hpp"]}
{"id": "C70", "title": "The knots of an LQ problem are values and own their memory", "statement": "Constructing, copying (with any allocator), moving, assigning, parameterising and destroying LqrKnot objects in any order reads and frees no memory it does not own, gives each knot exactly the dimensions and sixteen matrices that value semantics prescribes, lets no two knots share storage and releases everything. Growing, copying and rotating the stages vector of an LqrProblem and cycleAppend of the workspace move the values as a queue does; addParameterization gives zero parameter blocks and keeps the rest. Moving a problem releases or hands over all memory, and a moved-from knot is empty.", "quantifier": "every sequence of operations on any number of knots, dimensions, memory resources and vector lengths", "why_tests_cant": "Tests build a few problems on one resource; a buffer that is not released, or released by another resource, shows only under a leak checker with two resources.", "anchors": ["include/aligator/gar/lqr-problem.hpp", "include/aligator/gar/lqr-problem.hxx", "include/aligator/core/arena-matrix.hpp", "include/aligator/utils/mpc-util.hpp", "include/aligator/solvers/proxddp/workspace.hxx"]}
{"id": "C71", "title": "The dense Riccati solver keeps its buffers in the sizes of the problem", "statement": "For an LQ problem with consistent dimensions (every knot ends in the state space of the next, one number of parameters, an initial condition on the first state), the constructor of RiccatiSolverDense gives all buffers the sizes of the problem; in any sequence of backward, forward (with or without parameter) and cycleAppend no statement reads out of range or meets a size it does not expect, every solution written by forward has the sizes of the current problem, and this holds for every horizon, every list of vectors that the asserts admit and every knot appended.", "quantifier": "every horizon, all dimensions of every stage and of the initial condition, every sequence of calls", "why_tests_cant": "Tests use stages of one size, without a terminal control, and never call cycleAppend of the dense solver with a different stage.", "anchors": ["include/aligator/gar/dense-riccati.hpp", "include/aligator/gar/dense-riccati.hxx", "include/aligator/gar/dense-kernel.hpp", "include/aligator/core/blk-matrix.hpp", "include/aligator/utils/mpc-util.hpp"]}
{"id": "C72", "title": "The parallel Riccati solver is rebuilt correctly when the problem is cycled", "statement": "The constructor of ParallelRiccatiSolver gives every stage exactly one factor, in the sizes of its knot with as many parameters as the state in which its leg ends (none are added in the last leg), and gives rhsDims_, the right-hand sides and the six vectors of the condensed system matching sizes; after any number of cycleProblem steps the problem and all buffers are those of a solver newly constructed on the same problem without parameters, whatever the solver and the knots held before; this holds for every number of threads and every problem.", "quantifier": "every horizon, every number of threads, all dimensions of every stage and of the appended knots, every number of cycles, every earlier state of the solver", "why_tests_cant": "Tests cycle a problem of equal stages a few times with one number of threads; left-over parameters or buffers would show only for other leg boundaries.", "anchors": ["include/aligator/gar/parallel-solver.hpp", "include/aligator/gar/parallel-solver.hxx", "include/aligator/gar/lqr-problem.hpp", "include/aligator/gar/lqr-problem.hxx", "include/aligator/solvers/proxddp/workspace.hxx"]}
