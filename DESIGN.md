# Formal model of aligator — design

Source: `/repo` (Simple-Robotics/aligator, pinned commit), read as text only.
Model and proofs: `rocq/theories` (Rocq/Coq 8.16.1 with mathcomp 1.x).

## Conventions

* `XModel.v` transcribes the code function by function. Every definition cites
  the file and lines it models and says where it simplifies.
* `XSpec.v`, or the head of a `P_x.v` file, holds the specification, stated
  without the helpers of the model.
* `XProofs.v` holds lemmas. `P_x.v` holds the property theorems, their
  `Print Assumptions`, and beside each theorem an example (`_witness`,
  `_example`) with a concrete case that meets its hypotheses.
* `_refuted`: the faithful model violates (a clause of) the property. It is a
  finding about the code, with a concrete counterexample.
* `_partial`: part of the property; what is missing is written beside it.
* `seeded/LOG.jsonl`: mutation tests. Each line is one wrong edit of a model, the
  theorems that then fail, and the theorems tightened because of it.

## Trusted base

* The Coq kernel (`coqc`, no option that switches off a check) and the
  `vm_compute` reduction machine.
* The axioms of Coq's standard library that `Print Assumptions` lists. They come
  only from the real numbers and appear only in theorems about `R`:
  * FE `functional_extensionality_dep`
  * SF `ClassicalDedekindReals.sig_forall_dec`
  * SN `ClassicalDedekindReals.sig_not_dec`
  * CL `Classical_Prop.classic`
* No axiom of our own, no `Admitted`, no functor, module type or plugin.
  mathcomp's matrices are axiom-free.
* The reading of the C++ text: that each definition of a model says what the
  cited lines do. Nothing checks this mechanically.

## What is modelled, and how

* Scalars. Rounding is not modelled, apart from the binary64 facts of C13
  (stdlib `SpecFloat`). Linear algebra is over an arbitrary field (mathcomp
  `fieldType`, ordered where convexity or limits matter). Control flow is over
  `Q`, which contains every finite double. Analysis is over stdlib `R`. NaN and
  infinities are explicit values where the property is about them (C11, C49,
  C50).
* Errors. An exception is an explicit outcome (`Throw`, `None`). Undefined
  behaviour (out-of-bounds access, null dereference, empty rotation, bad free) is
  an explicit outcome, never totalised silently.
* External code. Virtual functions and the numerical routines below a loop are
  section variables or oracles: the theorem holds for every behaviour of them.
* Eigen expressions are the mathematical operation. `BunchKaufman` is modelled
  and proved (C30); inside the Riccati kernels it is the exact solve.
  `LLT` is the inverse.
* OpenMP: loop bodies are actions with read and write sets; any interleaving of
  whole bodies that does not conflict is allowed (C26).

## What is not modelled

* Rounding errors, and so convergence rates and numerical robustness.
* Eigen's own code, Pinocchio (rigid-body algorithms, Lie groups), Crocoddyl.
  Where a residual wraps a Pinocchio quantity, only the algebra done by aligator
  on top of it is modelled and the quantity is an arbitrary function.
* Python bindings, printing and logging, serialisation, tracing macros, the
  memory resources themselves (mimalloc), the examples, benchmarks and tests.

## Properties

For each property: the model, how it is proved, the findings, and the theorems of
MANIFEST.json with the axioms `Print Assumptions` lists (abbreviations above;
no mark: closed under the global context).

### C01 — Box projection is the closest feasible point (proved)

* Statement: For a box constraint with lower <= upper componentwise, projection(z) lies inside the box, leaves points of the box unchanged, applying it twice changes nothing, and no point of the box is closer to z.
* Model: `CSetModel`, `CSetSpec`. projection of the equality, negative orthant, box and L1 sets and of products (constraint-set-product.hpp), as functions on lists of reals; the product as a list of (set, length) blocks, possibly nested.
* Proof: Case analysis per component, induction on the dimension and on the nesting; closest point stated with the squared Euclidean distance to every feasible point.
* Scope: Equality, orthant, box and arbitrarily nested products over R.
* `P_cset.v`: `C01_projection_closest_point` — axioms FE, SF
* `P_cset.v`: `C01_product` — axioms SF

### C02 — Projection and normal-cone projection split every vector (proved)

* Statement: For every shipped constraint set (equality, negative orthant, box, L1 penalty) and for every product of such sets, projection(z) + normalConeProjection(z) = z, and (for the convex-cone and box sets) the normal-cone part is in the normal cone of the set at projection(z).
* Model: `CSetModel`, `CSetSpec`. normalConeProjection of every shipped set; buffers that the code leaves unwritten are explicit inputs.
* Proof: Componentwise; the normal cone is specified by its variational inequality.
* Scope: All shipped sets and nested products.
* `P_cset.v`: `C02_projection_splits` — axioms FE, SF

### C03 — Active set and projected Jacobians linearise the projection (proved)

* Statement: computeActiveSet marks exactly the components on which normalConeProjection is locally nonconstant; rows kept by applyNormalConeProjectionJacobian (and cleared by applyProjectionJacobian) are exactly those, so that away from kinks normalConeProjection(z+d) = normalConeProjection(z) + (projected identity) d for all small d.
* Model: `CSetModel`, `CSetSpec`. computeActiveSet, applyProjectionJacobian, applyNormalConeProjectionJacobian (row zeroing) for all sets and products.
* Proof: Local exact linearisation off the kinks (explicit radius), by cases.
* Scope: Exact local linearisation off the kinks; active-set characterisation.
* `P_cset.v`: `C03_jacobians_exact`, `C03_active_set` — axioms FE, SF

### C04 — L1 proximal operator and Moreau envelope (partial)

* Statement: projection of the L1 penalty (after setProxParameter(mu)) minimises |y|_1 + |y-z|^2/(2 mu); evaluateMoreauEnvelope returns the minimum value. The same proximal parameter must be used by every component when the penalty is inside a product of sets.
* Model: `CSetModel`, `CSetSpec`. L1 penalty: soft threshold, evaluate, evaluateMoreauEnvelope, setProxParameter; product sets store their own parameter.
* Proof: Convexity inequality for the absolute value, sum over components.
* Scope: Prox optimality and envelope proved when every L1 component has the parameter of the object; refuted for products because setProxParameter is not forwarded.
* Findings: setProxParameter of a product is not forwarded to its components, so an L1 penalty inside a product keeps its own parameter (C04_product_prox_parameter_refuted). The solver never calls setProxParameter at all (see C17).
* `P_cset.v`: `C04_prox_optimal`, `C04_product_prox_parameter_refuted`, `C04_set_parameter` — axioms FE, SF

### C05 — Filter stays an antichain and rejections have no effect (proved)

* Statement: After any sequence of candidate submissions and resets the filter contains no pair dominated by another; a rejected candidate leaves it unchanged; an accepted candidate is present afterwards and not dominated; every pair ever accepted remains covered by some stored pair until the next reset.
* Model: `FilterModel`. The filter as a list of pairs of rationals; accept_pair with the margin beta, erase of dominated pairs, resetFilter.
* Proof: Invariant over every list of operations.
* Scope: Antichain for the margin used by the solver (beta=0); the submission and history clauses for every margin. With a positive margin the antichain clause is false (refuted, extra).
* Findings: With beta > 0 two stored pairs may dominate each other within the margin (C05_margin_antichain_refuted); the solver uses beta = 0.
* `P_filter.v`: `C05_antichain`, `C05_submission`, `C05_history_covered`, `C05_margin_antichain_refuted`, `C05_reset`

### C06 — Filter line search returns what it evaluated (partial)

* Statement: FilterTpl::run returns a step size in [alpha_min,1] and the merit value measured at that very step size, and the returned pair was acceptable to the filter or the step is the minimum one.
* Model: `FilterModel`. FilterTpl::run with an oracle for the merit pair which may raise (None).
* Proof: Loop invariant, fuel bound from alpha_min and the contraction.
* Scope: Range, value and acceptance proved whenever some trial step evaluates; refuted when every trial raises (0 returned, (0,0) stored).
* Findings: If every trial raises, run returns an uninitialised (modelled as zero) merit value and stores the pair (C06_value_evaluated_refuted).
* `P_filter.v`: `C06_filter_run`, `C06_filter_run_terminates`, `C06_value_evaluated_refuted`

### C07 — Armijo line search postcondition (partial)

* Statement: On return the Armijo search gives a step size >= alpha_min (and <= 1), the returned value is the merit measured at the returned step, and it satisfies phi(alpha) <= phi0 + c1*alpha*dphi0 unless the step is at the minimum, the initial slope was below the threshold or the step budget ran out.
* Model: `ArmijoModel`. ArmijoLinesearch::run with bisection, quadratic and cubic strategies; the merit is an arbitrary function which may raise; the clamped step of the interpolation; iteration budget.
* Proof: Loop invariant over reals; termination by the contraction of the step.
* Scope: Step range and termination for every merit; value/acceptance clauses for merits that do not raise (cubic: value at the unclamped step); refuted for merits that raise.
* Findings: After a raising trial the value of an earlier step is returned (C07_value_evaluated_refuted); with cubic interpolation a clamped step is returned with the value of the unclamped one (C07_value_at_step_refuted).
* `P_armijo.v`: `C07_step_range`, `C07_total_merit_partial`, `C07_terminates`, `C07_value_evaluated_refuted`, `C07_value_at_step_refuted` — axioms FE, SF, SN

### C08 — Armijo interpolation minimises the right polynomial (partial)

* Statement: The quadratic (cubic) interpolation step is the stationary point of the polynomial matching phi0, dphi0 and the last (two) sampled merit values; the proposed step always lies in [contraction_min*alpha, contraction_max*alpha].
* Model: `ArmijoModel`. minimize_interpolant (quadratic and cubic), PolynomialTpl, the two cases of the clamp.
* Proof: Field computation over R; range by case analysis.
* Scope: Range and quadratic interpolation proved; the cubic does not go through the samples (right-hand sides exchanged), refuted, with what it does interpolate.
* Findings: The two right-hand sides of the cubic system are exchanged (linesearch-armijo.hpp), so the cubic does not go through the samples (C08_cubic_interpolation_refuted); C08_cubic_exchanged says which data it does interpolate.
* `P_armijo.v`: `C08_interpolation_range`, `C08_cubic_stationary`, `C08_fallback_edge` — axioms FE, SF, SN
* `P_armijo.v`: `C08_quadratic_interpolation`, `C08_polynomial_derivative`, `C08_cubic_interpolation_refuted`, `C08_cubic_exchanged` — axioms FE, SF

### C09 — Nonmonotone line search postcondition (proved)

* Statement: The nonmonotone search returns a step in [alpha_min, 1] and the merit at that step; either the value is at most reference+c1*alpha*dphi0 or the step is alpha_min; the reference value stays between the smallest and largest merit value seen since reset.
* Model: `SearchModel`. NonmonotoneLinesearch::run and reset, moving average update.
* Proof: Loop invariant over Q; convex combination bounds for the reference.
* Scope: Range, decrease, value and reference bounds; termination.
* `P_search.v`: `C09_nonmonotone_run`, `C09_nonmonotone_terminates`, `C09_reference`

### C10 — FDDP Goldstein line search postcondition (partial)

* Statement: The Goldstein search used by FDDP returns the merit value evaluated at the step it returns, the step stays in [alpha_min,1], and the search leaves the trial trajectory in the state of that step.
* Model: `SearchModel`. fddp_goldstein_linesearch with an oracle that may raise and that records the trial step of the workspace.
* Proof: Loop invariant.
* Scope: Value and trial state proved for merits that do not raise at the returned step; step range and value refuted otherwise.
* Findings: A raising merit leaves dVreal of another step and the step can fall below alpha_min (C10_value_at_step_refuted, C10_step_range_refuted).
* `P_search.v`: `C10_goldstein_total_partial`, `C10_goldstein_any_partial`, `C10_goldstein_terminates`, `C10_value_at_step_refuted`, `C10_step_range_refuted`

### C11 — Newton-Raphson return value is a certificate (proved)

* Statement: If the Newton-Raphson helper returns true then the residual norm at the returned point is <= eps; it evaluates at most max_iters Newton steps; the residual norm of the running iterate never increases.
* Model: `SearchModel`. NewtonRaphson::run: direction, residual and norm are arbitrary functions; NaN norms are None.
* Proof: Loop invariant.
* Scope: Certificate, monotone residual, budget. Extra finding: the residual buffer is not that of the returned point after a failed line search.
* Findings: After a failed inner line search the residual buffer is not that of the returned point (C11_residual_buffer_refuted); forwardDynamics ignores the returned Boolean (C43).
* `P_search.v`: `C11_newton_certificate`, `C11_newton_terminates`, `C11_residual_buffer_refuted`

### C12 — ProxDDP: success implies tolerances on the reported residuals (partial)

* Statement: If SolverProxDDP::run returns true then results.conv is true, results.prim_infeas <= target_tol and results.dual_infeas <= target_dual_tol, and these are the residuals of the returned iterate; if false is returned results.conv is false.
* Model: `AlmModel`, `AlmProofs`. run and innerLoop of ProxDDP as a state machine. Every numerical routine (evaluation, derivatives, linear solver, line search, multipliers) is an arbitrary function of the state and a clock, so a theorem holds for all of their behaviours.
* Proof: Invariants of the inner and outer loop.
* Scope: Tolerances and flag proved for every behaviour of the routines; 'residuals of the returned iterate' proved for the linear rollout without NaN, refuted otherwise.
* Findings: The reported primal infeasibility can be that of an earlier iterate; with the nonlinear rollout the initial condition is not re-evaluated; after an inner failure the dual infeasibility is of the previous iterate (three _refuted theorems); computeCriterion omits the last dynamics slack.
* `P_alm.v`: `C12_success`, `C12_residuals_partial`, `C12_stale_residual_refuted`, `C12_initial_condition_refuted`, `C12_dual_on_failure_refuted`

### C13 — ProxDDP: iteration budgets (partial)

* Statement: run performs at most max_iters inner iterations in total and at most max_al_iters outer iterations; results.num_iters and results.al_iter report them; run always terminates.
* Model: `AlmModel`, `AlmProofs`. The same state machine; max_iters and max_al_iters; the do-while loop of updateTolsOnSuccess.
* Proof: Counting invariants; termination measure.
* Scope: Budgets proved; termination proved when the inner criterion is never exactly zero, refuted in exact arithmetic and in binary64 (penalty >= 0.99) when it is.
* Findings: If the inner criterion is exactly zero the do-while loop that shrinks the tolerance never ends: in exact arithmetic (C13_terminates_refuted), and in binary64 when the penalty is at least 0.99 (C13_terminates_binary64_refuted, computed with SpecFloat).
* `P_alm.v`: `C13_budgets`, `C13_terminates_partial`, `C13_terminates_refuted`, `C13_terminates_binary64_refuted`

### C14 — ProxDDP: penalty and tolerance schedule (partial)

* Statement: The penalty parameter never goes below mu_lower_bound; it only decreases on failed outer iterations until it hits the bound, from which it is reset to its initial value; inner and primal tolerances never go below the final targets; dynamics penalty is a fixed multiple of it.
* Model: `AlmModel`, `AlmProofs`. setAlmPenalty, updateTolsOnFailure/Success; powers are arbitrary functions.
* Proof: Invariants of the outer loop; exact description of one update.
* Scope: Penalty rule, tolerance rule, multiplier estimates, lower bound, primal tolerance and dynamics penalty proved; the inner tolerance floor is 0.01*target, so that clause is refuted.
* Findings: The inner tolerance has the floor 0.01*target_dual, so it does go below the target (C14_inner_tolerance_refuted); after the penalty is reset the tolerances are those of the small penalty.
* `P_alm.v`: `C14_bounds`, `C14_penalty_update`, `C14_monotone`, `C14_inner_tolerance_refuted`
* `P_almreg.v`: `C14_tolerances`, `C14_first_tolerances`, `C14_dynamics`

### C15 — Callbacks fire exactly once per counted iteration, in order (proved)

* Statement: During one ProxDDP (or FDDP) run every registered callback is invoked exactly once for each counted iteration, with the state of that iteration; registering under an existing name replaces, removing by name removes only it.
* Model: `AlmModel`, `FddpModel`. Callback registry as an ordered association list, invocation log of both solvers.
* Proof: Log equals the list of counted iterations by invariant.
* Scope: ProxDDP and FDDP loops, and the registry.
* `P_alm.v`: `C15_callbacks`, `C15_register`, `C15_names_unique`, `C15_unregister`
* `P_fddp.v`: `C15_fddp_callbacks`

### C16 — force_initial_condition pins the first state (partial)

* Statement: When force_initial_condition is set and the problem's initial condition is a fixed-state condition, the returned trajectory starts at that state, whatever warm start was given.
* Model: `AlmModel`, `FddpModel`. The effect of force_initial_condition on xs[0] in both solvers.
* Proof: Invariant that no accepted step changes xs[0].
* Scope: First state constant during the run proved; equality with the problem's initial state refuted.
* Findings: ProxDDP and FDDP only write trial_xs[0], which is then overwritten; the warm start's first state is kept and never corrected (C16_initial_state_refuted), and such a run never converges when the initial condition is violated (C16_bad_warm_start_never_converges).
* `P_alm.v`: `C16_first_state_partial`, `C16_bad_warm_start_never_converges`, `C16_initial_state_refuted`

### C17 — Multiplier estimates live in the normal cone and certify feasibility (partial)

* Statement: The first-order multiplier estimates computed for path constraints lie in the normal cone (non-negative for inequalities, zero when strictly satisfied) and the reported primal infeasibility is zero exactly when dynamics hold and the shifted constraint is a fixed point, i.e. KKT feasibility plus complementarity holds.
* Model: `MultModel`. computeMultipliers: shifted constraint, projection, estimate, Lv, infeasibilities, co-states with mu_dyn.
* Proof: Componentwise algebra; infinity norm zero iff all entries zero.
* Scope: Every horizon and (nested product of) equality, inequality and box sets; real arithmetic; dynamics errors given as vectors. Refuted for the L1 penalty, whose proximal parameter the solver never sets.
* Findings: For the L1 penalty the proximal parameter is never set by the solver, so its estimates are always zero (C17_l1_refuted).
* `P_mult.v`: `C17_estimate`, `C17_infeasibility`, `C17_zero`, `C17_costates`, `C17_l1_refuted` — axioms FE, SF

### C18 — FDDP forward pass contracts all gaps by exactly (1-alpha) (proved)

* Statement: After the FDDP forward pass with step alpha the gaps of the new trajectory (including the initial one) are exactly (1-alpha) times the old ones; with alpha=1 the trajectory is a dynamically feasible rollout from x0, and feasibility is then preserved forever.
* Model: `GapModel`. forwardPass and computeInfeasibility of FDDP on any space whose integrate is additive along a line; dynamics arbitrary.
* Proof: Induction over the horizon; corollaries for sequences of passes.
* Scope: Vector spaces and every manifold whose exponential is additive along a line.
* Findings: linear_response theorem: the gap is scaled, not recomputed; LLT failure is not checked before the pass.
* `P_gap.v`: `C18_contraction`, `C18_passes`, `C18_feasible_forever`, `C18_full_step_rollout`, `C18_linear_response`

### C19 — FDDP: success flag, reported residuals (partial)

* Statement: If the FDDP solver reports convergence then the reported max(prim_infeas,dual_infeas) is below tolerance.
* Model: `FddpModel`. FDDP run: regularisation range, exits, oracle for the numerical parts.
* Proof: Invariant of the loop.
* Scope: Residual claim proved for the tolerance exit; refuted for the vanishing-derivative exit.
* Findings: Convergence is also reported when the expected decrease vanishes, with arbitrary residuals (C19_success_refuted); d1 is stale if all trials raise.
* `P_fddp.v`: `C19_success_partial`, `C19_regularisation_range`, `C19_success_refuted`

### C20 — FDDP backward pass computes the optimal policy of the LQ model (proved)

* Statement: The gains returned by the backward pass minimise the quadratic Q function for every state deviation, the stored value function equals the minimum, and composing stages gives the optimal cost-to-go of the LQ subproblem.
* Model: `FddpLqModel`. backwardPass on LQ data, matrices over a real field, dimensions depending on the stage; LLT is the inverse of Quu.
* Proof: Completion of the square, induction over the horizon.
* Scope: Exact arithmetic; LLT modelled by the inverse; horizon and dimensions arbitrary and stage dependent.
* Findings: The LLT status is ignored; the scalar part of the value function is never propagated (only gradients and Hessians are used).
* `P_fddplq.v`: `C20_optimal_policy`, `C20_convex`

### C21 — Serial Riccati recursion solves the full KKT system (proved)

* Statement: backward() then forward() of the proximal Riccati solver produce (xs,us,vs,lbdas) satisfying every KKT equation of the LQ problem: initial constraint, dynamics, path constraints with dual regularisation, and stationarity in every x_t and u_t.
* Model: `RiccatiModel`, `RiccatiProofs`, `RiccatiValue`. ProximalRiccatiKernel: terminal and stage solve, initial solve, forward. Bunch-Kaufman is the exact solve of the symmetric matrix given by the lower triangle (justified by C30).
* Proof: Induction over the horizon with the cost-to-go as invariant; convex problems have nonsingular pivots (C21_convex).
* Scope: Bunch-Kaufman modelled as the exact solve of the symmetric matrix given by the lower triangle; Q and R symmetric.
* Findings: info() of the factorisations is only asserted, at the terminal stage not even that.
* `P_riccati.v`: `C21_kkt`, `C21_convex`
* `P_riclower.v`: `C21_lower`, `C21_lower_kkt`

### C22 — Parametric Riccati recursion solves the KKT system for every parameter (partial)

* Statement: With a parametric LQ problem, forward(theta) gives the KKT solution for that theta, i.e. the affine-in-theta sensitivity is exact.
* Model: `RiccatiModel`, `RiccatiProofs`. The parametric part of the same kernel.
* Proof: The same induction with the affine parameter terms.
* Scope: Gv = 0 required: the kernel omits Gv from the cost-to-go and at the terminal stage (refuted otherwise).
* Findings: Gv is omitted from Vxt, Vtt and vt and at the terminal stage (C22_gv_refuted).
* `P_riccati.v`: `C22_parametric_partial`, `C22_value`, `C22_gv_refuted`

### C23 — Dense Riccati variant agrees with the KKT system (partial)

* Statement: The stage-dense Riccati solver returns the same solution as the proximal Riccati solver on every solvable problem, and reports the gradient and Hessian of the optimal value with respect to the parameter.
* Model: `DenseModel`. DenseKernel and RiccatiSolverDense: assembly of the stage matrix, gains, cost-to-go, forward.
* Proof: The same cost-to-go invariant; uniqueness of the KKT solution gives agreement with C21.
* Scope: Every horizon N >= 1 and stage-dependent dimensions: the unique KKT solution, the same as the proximal solver. Needs a terminal knot without control and constraint (or with nx2 = 0): otherwise the terminal matrix has zero rows and the factorisation failure is ignored (C23_terminal_refuted). The value gradient and Hessian in the parameter are the right ones only when the parameter enters the first stage only (C23_parameter_exact says what is missing, C23_parameter_refuted). N = 0 reads out of bounds; cycleAppend is in C71.
* Findings: Ptt and pt omit the next stage's values (C23_parameter_refuted); a terminal stage with control or constraint and nx2 > 0 gives a singular matrix and the failure is ignored (C23_terminal_refuted); N = 0 underflows; cycleAppend only resizes the LDL object.
* `P_dense.v`: `C23_kkt_partial`, `C23_agrees_partial`, `C23_parameter_exact`, `C23_parameter_partial`, `C23_parameter_refuted`, `C23_terminal_singular`, `C23_terminal_refuted`

### C24 — Parallel Riccati returns the serial solution (partial)

* Statement: For every number of legs the parallel (condensed) solver returns a KKT solution of the original problem, the same as the serial solver, independent of the thread schedule.
* Model: `ParModel`, `BtModel`. parallel-solver.hxx: legs, co-state parameterisation, assembly of the condensed block-tridiagonal system, its solve with refinement, forward in the legs.
* Proof: Gluing of the leg KKT systems; block-tridiagonal solve by C27/C28; schedule independence by C26.
* Scope: Any legs, horizon and dimensions; default refinement settings (maxRefinementSteps other than 1, see C28) and block sizes as assigned (C24_dims says when rhsDims_ matches). Refuted for convex problems with singular cost-to-go, whose failure is ignored.
* Findings: rhsDims uses nx of the wrong knots (harmless for constant dimensions, C24_dims); a failed condensed solve is ignored (C24_singular_refuted); theta is ignored; more threads than stages give empty legs (C25_empty_leg_refuted).
* `P_par.v`: `C24_legs`, `C24_dims`, `C24_kkt_partial`, `C24_convex_partial`, `C24_singular_refuted`

### C25 — Work partition tiles the horizon (proved)

* Statement: The leg boundaries handed to the threads are contiguous, disjoint, ordered, cover every stage exactly once, and differ in length by at most one; every leg is non-empty when there are at most as many legs as stages.
* Model: `WorkModel`. get_work with 32-bit unsigned wrap-around over N.
* Proof: Division arithmetic.
* Scope: With 32-bit wrap-around made explicit; no-overflow hypothesis needed (refuted without).
* Findings: Overflow for huge horizons (C25_overflow_refuted); empty legs when there are more legs than stages.
* `P_work.v`: `C25_contiguous`, `C25_partition`, `C25_balanced`, `C25_empty_leg_refuted`, `C25_overflow_refuted`

### C26 — Parallel regions are race-free (proved)

* Statement: No two threads of a parallel region of the solver (problem evaluation, derivative computation, per-leg Riccati sweep) access the same object with one of them writing, so the result is the same for every schedule, equal to the sequential execution.
* Model: `RaceModel`. Each loop body of the four parallel regions as an action with a read set, a write set and an arbitrary effect within them.
* Proof: Disjointness gives commutation; every interleaving equals the sequential order.
* Scope: The effect of each stage evaluation and kernel call is arbitrary within its read and write set; thread ids 0..nt-1 all run. Tracing and exceptions leaving a region are not modelled.
* Findings: Relies on thread ids covering 0..nt-1.
* `P_race.v`: `C26_schedule`, `C26_evaluate`, `C26_infeasibility`, `C26_backward`, `C26_forward`

### C27 — Block-tridiagonal solver (proved)

* Statement: When symmetricBlockTridiagSolve (or its down-looking variant) succeeds, the vector it leaves in place of the right-hand side solves the block-tridiagonal system built by blockTridiagToDenseMatrix; both variants agree; blockTridiagMatMul is that matrix-vector product.
* Model: `BtModel`. symmetricBlockTridiagSolve, the down-looking variant, MatMul, ToDenseMatrix on lists of blocks.
* Proof: Induction over the number of blocks, Schur complements.
* Scope: Two or more blocks, sub = sup^T, symmetric diagonal blocks; with a single block the loops read out of bounds (C27_one_block_refuted).
* Findings: With a single block the loops read out of bounds (C27_one_block_refuted).
* `P_bt.v`: `C27_dense`, `C27_solve`, `C27_downlooking`, `C27_agree`, `C27_matmul`, `C27_one_block_refuted`

### C28 — Iterative refinement never destroys an exact solution (partial)

* Statement: A refinement step applied to an exact solution leaves it unchanged and in exact arithmetic one refinement step from any starting point gives the exact solution; in the parallel solver the refinement loop therefore returns the solution whatever maxRefinementSteps is.
* Model: `BtModel`. blockTridiagRefinementStep and the refinement loop of the parallel solver.
* Proof: Linearity of the solve.
* Scope: Step claims proved; loop returns the solution for every maxRefinementSteps other than 1; refuted for 1 (first residual uses the zero condensedErr instead of the right-hand side).
* Findings: condensedErr starts at zero, so with maxRefinementSteps = 1 the solution is replaced by zero (C28_single_refuted; the default is 5 with threshold 1e-10).
* `P_bt.v`: `C28_one_step`, `C28_step_keeps`, `C28_loop_partial`, `C28_single_step`, `C28_single_refuted`

### C29 — KKT error certificate (partial)

* Statement: lqrComputeKktError returns the zero triple exactly when the given (xs,us,vs,lbdas) satisfy the KKT equations, and the sparse matrix built by lqrCreateSparseMatrix represents the same system.
* Model: `KktModel`. lqrComputeKktError, lqrCreateSparseMatrix, lqrNumRows, lqrDenseSolutionToTraj.
* Proof: Norms zero iff residuals zero; block decomposition of the sparse product.
* Scope: Certificate: iff, for every tolerance, problem, trajectory (path constraints independent of theta when theta is given: C29_gv_refuted). Sparse matrix: it encodes A x + B u + f + x' = 0 instead of ... - x' (C29_sparse, C29_sparse_refuted); row count right iff first and last state dimensions agree.
* Findings: The sparse matrix has +I for the next state while the residual uses -x' (C29_sparse_refuted); lqrNumRows uses nx instead of nx2 (C29_rows_refuted); Gv theta ignored (C29_gv_refuted).
* `P_kkt.v`: `C29_error`, `C29_zero`, `C29_sparse`, `C29_sparse_sym`, `C29_rows`, `C29_traj`, `C29_sparse_refuted`, `C29_gv_refuted`, `C29_rows_refuted`

### C30 — Bunch-Kaufman factor-and-solve is exact (proved)

* Statement: When BunchKaufman::compute reports Success, solveInPlace(b) yields x with A x = b, for every symmetric matrix given by its lower triangle; on a singular pivot failure is reported.
* Model: `BkModel`, `BkProofs`. Eigen-style Bunch-Kaufman: pivot choice, symmetric swap, 1x1 and 2x2 elimination, blocked variant of block size 32 (block size arbitrary in the model), solve.
* Proof: Loop invariant P A P^T = L D L^T on the processed part; blocked = unblocked; failure only for singular matrices.
* Scope: BunchKaufman::compute (blocked with block size 32 and unblocked, pivot choice, symmetric swaps, 1x1 and 2x2 elimination, undoing of the row swaps, pivot shift, extraction of the subdiagonal) and the solve phase, in exact real arithmetic; Success exactly for nonsingular matrices. UpLo=Lower (the only instance used). Rounding, NaN and int overflow of the stored pivots are not modelled.
* Findings: m_pivot_count is not reset; solveInPlace after failure returns garbage silently (C30_after_failure); the algorithm itself is right.
* `P_bk.v`: `C30_solve`, `C30_success_iff`, `C30_unique`, `C30_blocksize` — axioms FE, SF, SN

### C31 — LQ problem equality and evaluation (partial)

* Statement: LqrProblem::isApprox(other) holds only if all data are the same; evaluate returns the sum of stage costs (plus parametric terms) including the terminal one.
* Model: `LqEqModel`, `LqEvalModel`. isApprox of knots and problems with Eigen's relative comparison over Q; evaluate.
* Proof: Case analysis, induction over stages.
* Scope: isApprox: iff for everything but the terminal knot, which is not compared (C31_terminal_refuted); empty problems read out of bounds. evaluate: sum of stage costs when the terminal stage has no control (C31_control_refuted otherwise).
* Findings: isApprox never compares the terminal knot (C31_terminal_refuted), reads out of bounds for empty problems; evaluate drops the control cost of the terminal stage (C31_control_refuted).
* `P_lqeq.v`: `C31_knot`, `C31_exact`, `C31_isapprox_partial`, `C31_terminal_refuted`, `C31_empty_refuted`
* `P_lqeval.v`: `C31_evaluate_partial`, `C31_control_refuted`

### C32 — Problem evaluation (proved)

* Statement: TrajOptProblem::evaluate returns the sum of all stage costs plus the terminal cost, evaluates every stage at (x_i,u_i,x_{i+1}), and throws, without evaluating, if the number of states or controls is wrong.
* Model: `ProblemModel`. TrajOptProblem::evaluate and computeDerivatives, StageModel::evaluate etc.; components are arbitrary functions; every call is logged; the order of the parallel loop and of the reduction is an arbitrary permutation.
* Proof: Induction over the permutation.
* Scope: Stage and cost evaluations are arbitrary functions of the trajectory.
* `P_problem.v`: `C32_evaluate`, `C32_throws`, `C32_derivatives`

### C33 — Warm start assignment (partial)

* Statement: A supplied initial guess is either adopted in full or rejected with an error; the default is used exactly for the parts not supplied.
* Model: `WarmModel`. assign_no_resize, default initialisers, check_initial_guess_and_assign, multiplier guess.
* Proof: Induction on the lists.
* Scope: Accepted guesses are adopted as given; guesses with only one of xs, us are dropped and rejected guesses or multipliers are partly written (refuted).
* Findings: A guess with only xs or only us is dropped silently; a rejected guess is partly written; a multiplier guess of the wrong shape only warns and is partly adopted (four _refuted theorems).
* `P_warm.v`: `C33_assign`, `C33_guess_partial`, `C33_default`, `C33_xs_dropped_refuted`, `C33_us_dropped_refuted`, `C33_partial_write_refuted`, `C33_multipliers_refuted`

### C34 — Receding-horizon cycling behaves as a queue (partial)

* Statement: Any sequence of replaceStageCircular / cycleProblem / cycleAppend keeps the horizon length, drops the oldest stage, appends the new one, and shifts the warm start of every retained stage by exactly one.
* Model: `CycleModel`. rotate_vec_left, replaceStageCircular, Results/Workspace/solver cycleAppend, cycleProblem; UB and exceptions explicit.
* Proof: Induction over the sequence of cycles.
* Scope: Queue/shift/workspace consistency for every number of cycles and N >= 2 with constant control dimension; N = 1 and varying dimensions refuted.
* Findings: N = 1 is undefined behaviour (C34_one_refuted); stages of varying dimension leave buffers of the wrong size (C34_dims_refuted); checkIntegrity throws after the rotation.
* `P_cycle.v`: `C34_queue`, `C34_shift`, `C34_workspace`, `C34_runs`, `C34_replace`, `C34_one_refuted`, `C34_dims_refuted`, `C34_base`, `C34_base_runs`

### C35 — Constraint stack segments tile the stacked vector (proved)

* Statement: The segments of the stacked constraint vector and of the block matrices assigned to distinct constraints are disjoint, in order, and cover the total dimension, after any sequence of pushBack/clear operations.
* Model: `StackModel`. ConstraintStack push/clear, BlkMatrix index computation.
* Proof: Invariant on prefix sums.
* `P_stack.v`: `C35_tiling`, `C35_blocks`, `C35_stack`, `C35_top`

### C36 — Lagrangian gradients are the derivatives of the Lagrangian (proved)

* Statement: The reported Lagrangian gradients w.r.t. every x_t and u_t are the sums of cost gradient and transposed-Jacobian-times-multiplier of exactly the constraints in which the variable appears.
* Model: `LagrModel`. LagrangianDerivatives::compute, computeProjectedJacobians, updateLQSubproblem, with stage-dependent dimensions.
* Proof: Induction over the horizon; block elimination for the equivalence with the Newton system.
* Scope: Gradients represent the first variation of the Lagrangian in every direction and are unique; the LQ subproblem with projected Jacobians and corrected gradients has the same solutions as the Newton system with complete Jacobians, for every active set. Derivatives are given matrices.
* Findings: Constraint second derivatives are not in the LQ Hessian; the Hessian of the initial condition is always added; force_initial_condition zeroes Lxs[0].
* `P_lagr.v`: `C36_gradient`, `C36_unique`, `C36_lq_subproblem`

### C37 — Cost stack is a weighted sum keyed by name (partial)

* Statement: After any sequence of addCost/setWeight/scaling operations value, gradient and Hessian of a cost stack are the weighted sums over the components stored; adding a component increases the number of components by one or fails visibly.
* Model: `CostStackModel`. CostStack: emplace, addCost, setWeight, scaling, evaluation for every iteration order of the hash map.
* Proof: Induction; permutation invariance of sums.
* Scope: Sums, weights, scaling, constructor for every stack and iteration order; no component lost if automatic keys are used; mixed keys lose components silently and data made before an addition is a null dereference (refuted).
* Findings: emplace drops duplicates silently, automatic keys may collide (C37_count_refuted); data created before an addition is a null dereference (C37_stale_data_refuted).
* `P_coststack.v`: `C37_sum`, `C37_add`, `C37_distinct`, `C37_weights`, `C37_count_partial`, `C37_make`, `C37_count_refuted`, `C37_stale_data_refuted`

### C38 — Quadratic costs: gradient and Hessian are exact (partial)

* Statement: For QuadraticCost, QuadraticResidualCost and direct sums the value after a move d equals value + gradient.d + 1/2 d'Hd (residual affine), i.e. the derivatives reported are those of the reported value.
* Model: `QuadCostModel`, `StateCostModel`. QuadraticCost, QuadraticResidualCost, ConstantCost, DirectSumCost on vector spaces, with their data objects; QuadraticStateCost and QuadraticControlCost with setTarget between the calls.
* Proof: Matrix algebra over any field with 2 invertible.
* Scope: Exact, from any reachable data, for QuadraticCost and affine-residual costs with symmetric weights, constant costs and direct sums of exact costs; for any residual the three formulas; QuadraticStateCost and QuadraticControlCost for the target set last, with data made once (targets of the right size; setTarget checks nothing). Refuted: weights that are not symmetric (not checked), gauss_newton = false (first term overwritten), data created before setCrossWeight. Vector spaces, exact arithmetic.
* Findings: Non-symmetric weights are not rejected; gauss_newton = false overwrites JtWJ; setCrossWeight leaves the Hessian of existing data stale (three _refuted).
* `P_quadcost.v`: `C38_constant`, `C38_quadratic`, `C38_residual_any`, `C38_residual`, `C38_sum`, `C38_symmetry_refuted`, `C38_gauss_newton_refuted`, `C38_cross_stale_refuted`
* `P_statecost.v`: `C38_state_cost`, `C38_control_cost`

### C39 — Log-barrier costs: derivatives are exact (partial)

* Statement: For LogResidualCost and RelaxedLogBarrierCost the gradient is the derivative of the value at every point of the domain (including the threshold of the relaxation), and the Hessian is the derivative of the gradient for affine residuals.
* Model: `BarrierModel`. LogResidualCost and RelaxedLogBarrierCost over R.
* Proof: derivable_pt_lim along every direction, including the threshold.
* Scope: Gradients are the derivative of the value for every differentiable residual on the whole domain (threshold included). The Hessian claim is refuted: LogResidualCost has the wrong sign (proved: exactly minus the Hessian), RelaxedLogBarrierCost squares the weight and, below the threshold, the slope.
* Findings: LogResidualCost's Hessian has the wrong sign (proved: exactly minus the Hessian); RelaxedLogBarrierCost squares weight and slope.
* `P_barrier.v`: `C39_constructor` — axioms FE, SF
* `P_barrier.v`: `C39_log_gradient`, `C39_relaxed_gradient`, `C39_relaxed_agrees`, `C39_log_hessian_negated`, `C39_relaxed_hessian_partial`, `C39_log_hessian_refuted`, `C39_relaxed_hessian_refuted` — axioms CL, FE, SF, SN

### C40 — Explicit integrators: Jacobians are the derivatives of the step (proved)

* Statement: For Euler, semi-implicit Euler, RK2 and midpoint integrators on vector spaces, the discrete Jacobians are the derivatives of the discrete step whenever the ODE's are those of the ODE.
* Model: `IntegModel`. Euler, semi-implicit Euler, RK2, midpoint, ODE interface, LinearODE on vector spaces.
* Proof: Frechet derivative over an ordered field (Frechet.v), chain rule.
* Scope: Euler, semi-implicit Euler, RK2, midpoint on vector spaces over any ordered field, from any reachable data, Frechet derivative of the step; plus an ODE used as continuous dynamics and LinearODE. Rounding not modelled.
* Findings: On non-vector manifolds midpoint transports the ODE's Jacobian in place (LinearODE then accumulates); not in the theorems.
* `P_integ.v`: `C40_euler`, `C40_semi_euler`, `C40_rk2`, `C40_midpoint`, `C40_ode`, `C40_linear_ode`

### C41 — Function slices and linear compositions (partial)

* Statement: A slice of a stage function returns the selected rows of value, Jacobian and vector-Hessian product; a linear composition returns A f + b and A J.
* Model: `FunModel`. LinearFunction, state/control errors, ControlBoxFunction, slices, linear compositions with their data.
* Proof: Matrix extensionality from any reachable data.
* Scope: Value and Jacobian of slices (any index list in range) and of linear compositions of any function, and of the elementary functions, from any reachable data. Refuted: the vector-Hessian product of a slice (fails unless all rows are selected, never written, computed with the selected multipliers zeroed).
* Findings: The vector-Hessian product of a slice zeroes the selected multipliers, has the wrong size and is never copied (C41_slice_vhp_refuted).
* `P_fun.v`: `C41_linear`, `C41_state_error`, `C41_control_error`, `C41_control_box`, `C41_slice`, `C41_compose`, `C41_slice_vhp_fails`, `C41_slice_vhp_zero`, `C41_slice_vhp_refuted`

### C42 — Finite differences are exact on affine functions (proved)

* Statement: The finite-difference wrappers return the exact Jacobian for affine functions, for every step size, and do not change the value.
* Model: `FunModel`, `QuadCostModel`. Finite-difference wrappers for functions and costs on vector spaces.
* Proof: Loop invariant on the perturbation buffer.
* Scope: Functions, dynamics and costs on vector spaces in exact arithmetic: difference quotients for every function, exact Jacobian/gradient on affine ones, from any reachable data. Rounding and manifold states are not modelled.
* Findings: The stage-function constructor leaves nu uninitialised (harmless).
* `P_fun.v`: `C42_columns`, `C42_affine`
* `P_quadcost.v`: `C42_cost`, `C42_cost_affine`

### C43 — Rollout produces a dynamically consistent trajectory (partial)

* Statement: Every rollout overload returns exactly N+1 states starting with x0 with xs[i+1]=f_i(xs[i],us[i]).
* Model: `RolloutModel`. The six rollout overloads and forwardDynamics.
* Proof: Induction on controls.
* Scope: Explicit overloads for every output vector handed in; single implicit model, whose steps are what Newton returns (a failure of Newton is not reported, C43_silent_failure_refuted); several implicit models refuted (empty output vector, 2N+1 states).
* Findings: Implicit multi-model overload: empty output is UB, otherwise 2N+1 states; explicit multi checks sizes after resizing; Newton's failure is silent (four _refuted).
* `P_rollout.v`: `C43_explicit_single`, `C43_explicit_multi`, `C43_explicit_alloc`, `C43_implicit_single_partial`, `C43_late_check_refuted`, `C43_implicit_multi_refuted`, `C43_implicit_multi_length_refuted`, `C43_silent_failure_refuted`

### C44 — Manifold product and tangent-bundle laws (partial)

* Statement: difference(x, integrate(x,v)) = v, integrate(x, difference(x,y)) = y; interpolate(x0,x1,0)=x0, interpolate(x0,x1,1)=x1; for products of manifolds these hold when they hold for the components, products are ordered left to right, and isNormalized holds iff it holds for every component.
* Model: `ManifoldModel`. ManifoldAbstract, VectorSpace, CartesianProduct, TangentBundle; other spaces are arbitrary lawful manifolds.
* Proof: Structural induction over nestings.
* Scope: Proved for every nesting of vector spaces, lawful other spaces (Lie groups as oracles), products and tangent bundles: difference and integrate are inverse, integrating zero is the identity, the neutral element is a point; interpolation ends for vector spaces and all products; order of poly*poly, product*poly, product*product; isNormalized of tangent bundles; split/merge inverse and size check; block-diagonal Jacobians and row-wise transport. Refuted: TangentBundle::interpolate uses the base entries for the velocity part; product isNormalized is always true; space * product puts the space last.
* Findings: TangentBundle::interpolate reads the base part for the velocity; product isNormalized is always true; space*product is reversed (three _refuted).
* `P_manifold.v`: `C44_laws`, `C44_interpolate`, `C44_tangent_interpolate_refuted`, `C44_tangent_interpolate_partial`, `C44_order`, `C44_space_times_product_refuted`, `C44_product_normalized_refuted`, `C44_product_normalized_partial`, `C44_output_overwritten`, `C44_product_jacobians`, `C44_tangent_jacobians` — axioms FE, SF
* `P_manifold.v`: `C44_tangent_normalized`, `C44_tangent_transport` — axioms SF
* `P_manifold.v`: `C44_split_merge`, `C44_product_transport`

### C45 — Centroidal dynamics and momentum derivatives (proved)

* Statement: The Jacobians of the centroidal forward dynamics and momentum/acceleration residuals are the derivatives of their values, for every number of contacts and contact pattern.
* Model: `CentroidalModel`. Centroidal dynamics (discrete and continuous) and the centroidal residuals with their data.
* Proof: Cross-product specification; derivative along every direction by exact expansion.
* Scope: Every number of contacts, contact pattern, force size >= 3 and (for residuals) data history; values equal Newton-Euler written with cross products and the Jacobians are its derivative along every direction. AngularMomentum is right on the documented 9-dimensional state only (refuted for longer ones). Exact reals.
* Findings: AngularMomentum's Jacobian uses rightCols<3>, wrong when ndx > 9 (C45_angular_momentum_refuted).
* `P_centroidal.v`: `C45_forward`, `C45_continuous`, `C45_angular_acceleration`, `C45_centroidal_acceleration`, `C45_com`, `C45_linear_momentum`, `C45_angular_momentum`, `C45_angular_momentum_refuted`, `C45_wrapper` — axioms FE, SF

### C46 — Wrench cone residual is the contact wrench cone (proved)

* Statement: The 17 residuals of the centroidal wrench cone are <= 0 exactly when the contact force is in the friction pyramid, the centre of pressure inside the rectangle and the yaw torque within its (Caron) bounds; and the Jacobian times the wrench gives the value.
* Model: `ConeModel`. Wrench cone, friction cone (centroidal and the contact part of the multibody variants).
* Proof: Linear arithmetic over R; equivalence with forces at the corners.
* Scope: For every contact index, friction, foot size and wrench; also both ways against contact forces in the friction pyramid at points of the foot (corners suffice). Jacobian from any reachable data. Also friction cone, and the contact-force part of the multibody cones (Pinocchio's dynamics is not modelled; at zero tangential force the multibody friction Jacobian is 0/0). Rounding not modelled.
* Findings: The multibody friction Jacobian divides by zero at zero tangential force.
* `P_cone.v`: `C46_residual`, `C46_contacts`, `C46_jacobian`, `C46_friction_jacobian` — axioms FE, SF
* `P_cone.v`: `C46_friction`, `C46_mb_friction` — axioms FE, SF, SN

### C47 — Contact map behaves as an ordered association list (partial)

* Statement: After any sequence of add/remove/set operations names, states and poses have the same length, lookups return the data last set for that name, and unknown names give an error.
* Model: `ContactModel`. ContactMap as three vectors.
* Proof: Refinement of an association list, induction over operations.
* Scope: Refinement of an association list; constructor accepting unequal lengths and removal by name refuted.
* Findings: The constructor accepts lists of unequal lengths (C47_constructor_refuted) and removing an unknown name erases past the end (C47_remove_refuted).
* `P_contact.v`: `C47_refines_association_list`, `C47_last_set_wins`, `C47_constructor_refuted`, `C47_remove_refuted`

### C48 — Arena matrices never use or free memory they do not own (partial)

* Statement: In any sequence of construct/copy/move/assign/resize/destroy operations on managed matrices, every buffer is freed exactly once, with the size and by the memory resource it was allocated with, no live matrix reads freed or null storage, and copies do not share storage.
* Model: `ArenaModel`. ArenaMatrix over memory resources: heap of buffers with size and resource; every error is explicit.
* Proof: Ownership invariant over every program of the discipline.
* Scope: Every sequence of operations allowed by an explicit discipline (no shrinking conservativeResize, no move between different resources, objects moved from by assignment only destroyed or move-assigned); each exclusion is refuted. Dynamic sizes.
* Findings: Shrinking conservativeResize deallocates with the wrong size; move between resources leaks; moved-from by assignment keeps its allocation size (three _refuted).
* `P_arena.v`: `C48_memory_partial`, `C48_copies`, `C48_shrink_refuted`, `C48_leak_refuted`, `C48_reuse_refuted`

### C49 — Infinity norm and finiteness checks detect NaN (partial)

* Statement: The infinity norm helper used for reported infeasibilities returns a non-finite value whenever an input block contains NaN, and check_scalar/check_value tell finite from non-finite.
* Model: `NormModel`. infty_norm, check_scalar, check_value, computeInfeasibilities/Criterion combination on scalars with NaN and infinities.
* Proof: Case analysis, induction.
* Scope: Matrix norms exact and NaN-propagating; vector-of-vectors and the dual infeasibility combination drop NaN (refuted); the comment of check_scalar is the inverse of what it does.
* Findings: std::max drops NaN across blocks (C49_norm_refuted, C49_dual_refuted); the documentation of check_scalar says the opposite of the code.
* `P_norm.v`: `C49_norm_partial`, `C49_never_nan`, `C49_norm_refuted`, `C49_dual_refuted`, `C49_check`, `C49_doc_refuted`, `C49_criteria`, `C49_dual_criterion`

### C50 — Linear step / nonlinear rollout produce the announced trial point (proved)

* Statement: tryLinearStep(alpha) yields exactly x (+) alpha dx, u + alpha du, v + alpha dv, lambda + alpha dlambda, with alpha=0 giving back the current iterate; the nonlinear rollout yields a trajectory whose dynamics hold exactly, and with linear dynamics and full step both coincide.
* Model: `StepModel`. tryLinearStep and tryNonlinearRollout on arbitrary manifolds.
* Proof: Induction over the horizon.
* Scope: Every horizon N>=1, arbitrary manifolds, dynamics and gains. A further fact: the rollout with step 0 only gives back a feasible iterate if dx0=0, since the feedback of the first node is applied to the unscaled dx0 (refuted otherwise).
* Findings: The first-node feedback is applied to the unscaled dx0 (C50_rollout_zero_refuted).
* `P_step.v`: `C50_linear`, `C50_linear_zero`, `C50_rollout`, `C50_rollout_fresh`, `C50_coincide`, `C50_rollout_zero`, `C50_rollout_zero_refuted`

### C51 — Merit function is the augmented Lagrangian and its slope is the directional derivative (partial)

* Statement: The value used by the line search equals cost plus the penalty/multiplier terms prescribed by the proximal augmented Lagrangian and the initial slope fed to the line search is its directional derivative along the step.
* Model: `MeritModel`, `MultModel`. ALFunction::evaluate and directionalDerivative, forwardPass.
* Proof: Derivative of the augmented Lagrangian along the step.
* Scope: Value: the augmented Lagrangian for every horizon and (product of) equality, inequality and box sets. Slope: the derivative if the co-states do not move along the step; along the actual trial points, whose co-states move, the slope misses sum mu lam+.dlam (C51_slope_moving; refuted on an LQ problem). Real arithmetic; vector-space states.
* Findings: The slope misses the dual terms although the multipliers move (C51_slope_refuted).
* `P_merit.v`: `C51_value`, `C51_slope`, `C51_slope_moving`, `C51_slope_refuted` — axioms FE, SF

### C52 — History callback records every iteration in order (partial)

* Statement: A history callback stores, for each invocation, the current values, in invocation order; nothing is dropped.
* Model: `P_hist (model at the head of the file)`. HistoryCallback: the vectors pushed per call.
* Proof: Induction over calls.
* Scope: All recorded series are one entry per call and in order; lams and inner_crits are never filled (refuted).
* Findings: lams and inner_crits are declared but never filled (C52_lams_refuted).
* `P_hist.v`: `C52_history_partial`, `C52_lams_refuted`

### C53 — Collapsed feedback of the parallel solver (partial)

* Statement: After collapseFeedback the control feedback matrix of stage 0 in the parallel Riccati solver equals the one of the serial solver.
* Model: `ParModel`. collapseFeedback.
* Proof: Block elimination of the condensed system.
* Scope: Refuted as coded (the block read is not the U factor); proved for upFacs[1].
* Findings: It reads subdiagonal[1] = Vxt^T instead of the U factor (C53_collapse_refuted; C53_upfac proves the repaired formula).
* `P_par.v`: `C53_upfac`, `C53_collapse_refuted`

### C54 — ProxDDP: regularisation schedule (proved)

* Statement: The first iteration of a run regularises its subproblem with reg_init, clamped below by reg_min, whatever earlier runs did; later ones with the previous value times the decrease factor, clamped the same way; a step at the minimal length multiplies it by the increase factor, and at reg_max ends the run; the value stays between reg_min and a fixed bound, and a run of minimal steps reaches the maximum after finitely many iterations.
* Model: `AlmModel`, `AlmProofs`. initializeRegularization, increaseRegularization, and their use in innerLoop and run.
* Proof: Transition lemma for one iteration; induction.
* Scope: For every behaviour of the numerical routines, one iteration, the loop, the hand-over between inner loops and runs, bounds and stalling. A regularisation of exactly zero (reg_min = 0) is taken for a first iteration by the code; the theorems say so through last_reg. Exact rationals.
* Findings: A regularisation of exactly zero (reg_min = 0) is taken for a first iteration.
* `P_almreg.v`: `C54_iteration`, `C54_gives_up`, `C54_loop`, `C54_across_loops`, `C54_bounds`, `C54_bounds_run`, `C54_stalls`

### C55 — FDDP: the predicted improvement on linear-quadratic problems (partial)

* Statement: On an LQ problem the cost predicted by the line-search model after a trial step equals the cost of the trial trajectory, from any current trajectory, feasible or not; the full step passes the acceptance test of the line search, and without regularisation it ends at a minimiser of the problem.
* Model: `FddpLqModel`, `ExpModel`, `ExpProofs`. An LQ problem with stage-dependent dimensions, its derivatives and gaps at a trajectory, backwardPass, forwardPass, updateExpectedImprovement, expectedImprovement and the acceptance test, over a real field.
* Proof: Telescoping of the value function along the trial trajectory, induction over the horizon; optimality through C20.
* Scope: Exact error formula for every step and regularisation; exact prediction for the full step and for trajectories without gaps; full step always accepted; one full step reaches the minimiser. The clause about partial steps at a trajectory with gaps is refuted: the gap correction uses the deviations of the damped trial and is then damped again.
* Findings: The prediction error of a step alpha is (1-alpha)^2 dv with dv the gap correction (plus the regularisation terms): the deviations dxs used for dv are those of the damped trial.
* `P_exp.v`: `C55_prediction_error`, `C55_full_step`, `C55_feasible`, `C55_full_step_accepted`, `C55_one_step_optimal`, `C55_partial_step_refuted`

### C56 — Kinematic multibody residuals: Jacobians are derivatives (partial)

* Statement: For the residuals on frame placements, translations, velocities, relative placement of two frames, foot height against velocity, centre of mass position and velocity, divergent component of motion, centroidal momentum and collision distance: evaluate stores the documented quantity, and computeJacobians after it stores its derivative along every curve of states, from whatever the data and the Pinocchio buffers held before.
* Model: `MbModel`. The residuals with their buffers; pinocchio::Data as labels saying at which configuration each stored quantity was computed, so reading a stale one gives the stale value; getFrameJacobian writes the supporting columns only.
* Proof: Derivatives along curves of configurations with a given tangent; rigid-body kinematics (rotations, cross products) by hand.
* Scope: All ten residuals, from any reachable data. Pinocchio is a record of functions with its documented contract (pin_ok), met by an example robot; the derivative of log6 is assumed at the point considered, that of the distance too. Refuted: the velocity Jacobian for states longer than 2 nv, which the constructor accepts (C56_frame_velocity_extended_refuted), and the formula documented for FrameEquality (C56_frame_equality_doc_refuted). Exact reals; computeJacobians is called after evaluate at the same point.
* Findings: rightCols(nv) is the wrong block when ndx > 2 nv; frame-equality.hpp documents another order of the placements than the code.
* `P_mb.v`: `C56_frame_translation`, `C56_frame_velocity`, `C56_frame_placement`, `C56_frame_equality`, `C56_com_translation`, `C56_com_velocity`, `C56_dcm_position`, `C56_centroidal_momentum`, `C56_frame_collision` — axioms FE, SF
* `P_mb.v`: `C56_fly_high`, `C56_frame_velocity_extended_refuted`, `C56_frame_equality_doc_refuted` — axioms FE, SF, SN

### C57 — Force multibody residuals: Jacobians are derivatives (partial)

* Statement: For the residuals on the rate of the centroidal momentum, gravity compensation, contact forces and the multibody friction and wrench cones: evaluate stores the documented quantity of the selected contact, and computeJacobians after it stores its derivative in the state and the control, from any reachable data; the constructors select a contact of the given name and throw when there is none.
* Model: `MbForceModel`. The residuals with their buffers; constraintDynamics and its derivatives, the gravity torque and its derivative as functions, the latter writing only the entries of related joints.
* Proof: Loops over contacts as sums (shared with C45); derivatives along curves.
* Scope: Momentum rate for all contacts. Gravity compensation when all joints are related (serial chains), or with the buffer set to zero; refuted as it stands for robots with branches, where unwritten entries of gravity_partial_dq_ are never set (C57_gravity_refuted). Contact force and cones when the contacts before the selected one have the size of the residual; refuted for mixed contacts, where the offset contact_id * force_size is wrong (C57_contact_force_refuted). Friction cone where the tangential force is not zero. Pinocchio by contract; exact reals.
* Findings: gravity_partial_dq_ is not initialised although Pinocchio asks for zeros; offset contact_id * force_size supposes contacts of one size.
* `P_mbforce.v`: `C57_momentum_derivative`, `C57_gravity_serial_partial`, `C57_gravity_zeroed`, `C57_contact_force_partial`, `C57_wrench_cone_partial`, `C57_contact_force_refuted` — axioms FE, SF
* `P_mbforce.v`: `C57_gravity_refuted`, `C57_friction_cone_partial` — axioms FE, SF, SN
* `P_mbforce.v`: `C57_contact_id`

### C58 — Robot dynamics: equations of motion and derivatives (partial)

* Statement: For kinodynamics: the rate computed by forward has the joint accelerations of the control and a base acceleration for which the rate of the centroidal momentum is that of gravity and the active contact forces, and dForward after it stores the derivative of this rate in the state and the control. For free and constrained multibody dynamics and the wheeled inverted pendulum: forward computes the rate and dForward after it its derivative, from any reachable data. When dForward is called away from the point of forward, free dynamics differentiates with the torques of the last forward and constrained dynamics at the point of the last forward. The residual of every continuous dynamics and its Jacobians follow.
* Model: `MbDynModel`. The four dynamics with the parts of their data which live between calls; ODEAbstract over any dynamics.
* Proof: The inverse of a differentiable matrix is differentiable with derivative - B A' B (InvDeriv, from the definition); the base acceleration solves a linear system, whose right-hand side is differentiated as in C57; Jx is assembled from three calls of the momentum derivatives, by linearity of the derivative in the acceleration.
* Scope: Kinodynamics for a floating base (nv at least 6, invertible base block) and contact forces of size 3 or more. dForward at the point of the last forward, and exactly what it computes elsewhere. Pinocchio, PartialPivLU::inverse and the derivatives of aba and constraintDynamics by contract; exact reals.
* Findings: dForward of the free dynamics uses the tau_ of the last forward, and that of the constrained dynamics ignores its arguments; both agree with the documentation only when called after forward at the same point.
* `P_mbdyn.v`: `C58_kinodynamics`, `C58_free`, `C58_constraint`, `C58_free_stale`, `C58_constraint_stale`, `C58_ode` — axioms FE, SF
* `P_mbdyn.v`: `C58_kino_make`, `C58_act_make`, `C58_underactuated`
* `P_mbdyn.v`: `C58_pendulum` — axioms FE, SF, SN

### C59 — Direct sums and linear discrete dynamics: value and derivative (proved)

* Statement: Linear discrete dynamics compute c + A x + B u with Jacobians A and B, when the sizes agree; the direct sum of two explicit dynamics computes the two side by side, and after dForward its Jacobians are the derivative, on any manifolds and for nested sums; the blocks between the two systems are zero in any data. States of the wrong size are rejected.
* Model: `DynSumModel`. ExplicitDynamicsData with its two views of one buffer, LinearDiscreteDynamics, DirectSumExplicitDynamics over any two dynamics; sizes and rejected calls are explicit.
* Proof: An invariant of the reachable data (sizes, component data reachable, zero blocks); derivatives along curves, component by component.
* Scope: Dynamics whose input and output spaces are the same, as the only constructor makes them. Exact reals; sizes are modelled, memory is not.
* Findings: LinearDiscreteDynamics does not check its matrices: a matrix A which is not square fails when data are created, a drift of the wrong size at each forward. A control longer than the sum of the two is not rejected: its head and tail are used.
* `P_dynsum.v`: `C59_linear`, `C59_sum`, `C59_sum_blocks`, `C59_sum_sizes` — axioms FE, SF
* `P_dynsum.v`: `C59_linear_sizes` — axioms SF

### C60 — Q-function and cost storage: views, copies, moves and rotation (proved)

* Statement: In any program of constructions, copies, moves, assignments, swaps, destructions and writes, each Q-function behaves as a value of its own: its views are the blocks of its own gradient and Hessian, at its own sizes, nothing is leaked, freed twice or read after free, and rotating a vector of Q-functions permutes their values. The views of cost data tile its gradient and Hessian; assignment between cost data of equal sizes copies values. The implicit copy constructor of cost data does not: the views of the copy are those of the original.
* Model: `ViewModel`. Eigen matrices as owned heap buffers, Eigen::Ref as a pointer with sizes and stride, QFunctionTpl with all its special members, CostDataAbstractTpl with the special members the compiler generates, rotate_vec_left.
* Proof: A simulation between the heap program and a value semantics without a heap; induction over programs.
* Scope: Self-assignment and self-swap are included. The claim that a copy of cost data is a value is false and C60_cost_copy_refuted refutes it; C60_cost_copy states what the copy does instead. Exact reals; heap with fresh, never reused addresses; allocation never fails.
* Findings: CostDataAbstractTpl has no copy constructor of its own: the generated one copies the Eigen::Ref members, which then point into the original. A write through a view of the copy changes the original, and after the original is destroyed the views of the copy dangle. Assignment between cost data of different sizes is invalid. StageFunctionDataTpl and ExplicitDynamicsDataTpl have the same generated members.
* `P_view.v`: `C60_values`, `C60_memory`, `C60_rotate`, `C60_cost_make`, `C60_cost_copy_refuted` — axioms SF
* `P_view.v`: `C60_tiling`, `C60_cost_assign`, `C60_cost_assign_sizes`, `C60_cost_copy`

### C61 — Converted Crocoddyl problems evaluate to Crocoddyl's values (proved)

* Statement: The converted problem has the running models as stages in their order and passes the integrity check exactly when consecutive state dimensions agree. From any data, its evaluation returns the sum of Crocoddyl's running and terminal costs, with Crocoddyl's next states; its derivatives after an evaluation at the same point are Crocoddyl's gradients, Hessians and Jacobians. Wrapped states give the Jacobian for the argument asked for.
* Model: `CrocModel`. StateWrapper, ActionModelWrapper with its data, NoOpDynamics, CrocCostModelWrapper with its data, convertCrocoddylProblem, and the evaluation and derivative loops of the problem over them; Crocoddyl's data as its base class fields and an arbitrary rest.
* Proof: Induction over the stages with an invariant of reachable data per stage (sizes, Crocoddyl's own invariant).
* Scope: Crocoddyl's action models are records of functions with a contract (calcDiff is right after calc at the same point), met by an example. Exact reals; sizes are modelled.
* Findings: A shooting problem without running models is not convertible (stages[0] is read). Lux_ is never written: hess_ of wrapped data is not symmetric (neither solver reads the block). The null check of checkData comes after the pointer is read. A wrapper of a cost model alone cannot create data. The dynamics object of a wrapped stage does nothing, so a rollout with it stays at the state of the data.
* `P_croc.v`: `C61_convert`, `C61_state`
* `P_croc.v`: `C61_evaluate`, `C61_derivatives`, `C61_data` — axioms FE, SF
* `P_croc.v`: `C61_cost` — axioms SF

### C62 — Sizes of the solver's buffers stay consistent (partial)

* Statement: After setup, any sequence of the solver's routines (multipliers, merit, Lagrangian, projected Jacobians, LQ update, backward and forward passes, copy of the gains, linear step, nonlinear rollout, acceptance, outer update) reads no element out of range and never combines objects of different sizes; results, gains, knots and steps keep the sizes the problem's dimensions give. The same holds when receding-horizon cycles (cycleProblem) are interleaved, with the sizes of the current problem.
* Model: `ShapeModel`. Constructors of the problem data, of Results and Workspace, of the LQ problem and the Riccati solver, and every routine of an iteration of SolverProxDDP, as lists of size effects and size checks in program order. Not modelled: values, theta > 0, the solve inside the parallel and dense solvers, early exits on NaN.
* Proof: Expected sizes are a table over the buffers; each statement of each routine is shown to keep it, constructors are shown to establish it; the temporary reuse of lams[0] in the rollout and the change of G0 by the LQ update are followed by hand.
* Scope: Sizes only, not values. C62_sizes_partial excludes copying the gains and the nonlinear rollout with the dense stage solver: C62_dense_refuted proves that they always fail there. The checks of the code do not imply the dimensions assumed: C62_integrity_refuted, C62_empty_refuted. C62_cycle_partial: the same for receding-horizon sessions in which cycleProblem is called any number of times, for at least two stages, a state-error initial condition, equal control dimensions and a solver that is not the dense one; each of the excluded cases except the initial condition is refuted (C62_cycle_one_refuted, C62_cycle_controls_refuted, C62_cycle_dense_refuted).
* Findings: The dense stage solver has nu+nc+2nx2 rows of gains and the results nu+nc+nx2: copying the gains trips an Eigen assertion in debug builds, and the rollout does so too. checkIntegrity and addConstraint do not check the state dimension of costs and constraints nor the length of boxes. A problem without stages passes checkIntegrity and setup, then the linear step reads stages_[-1]. The workspace allocates G0 with nc0 columns. Cycling: with stages of different control dimensions the first trial control keeps its old size and the next linear step stops on it; with one stage the rotations run past the end; the dense solver sets the factor of the new last stage to zero but keeps the sizes of the stage that left.
* `P_shape.v`: `C62_sizes_partial`, `C62_dense_refuted`, `C62_integrity_refuted`, `C62_empty_refuted`
* `P_shapecyc.v`: `C62_cycle_partial`, `C62_cycle_one_refuted`, `C62_cycle_controls_refuted`, `C62_cycle_dense_refuted`

### C63 — Multiplier updates of the outer loop approach the solution (partial)

* Statement: With the NEWTON and PRIMAL updates, a pass of the outer loop of SolverProxDDP moves the multipliers no farther from those of any solution than the error of the inner loop allows; the primal infeasibility of a pass is at most its penalty times the distance of the starting multipliers to a solution; the number of accepted passes with infeasibility above a threshold is bounded in advance.
* Model: `DualModel`, `MultModel`. prev_vs, vs_plus and vs_pdal over the outer loop of run(): start from results.vs, computeMultipliers at the end of the inner loop, acceptance test and the three updates. Not modelled: how the inner loop gets there, the choice of penalties and tolerances (arbitrary here; C12 to C14), cycling.
* Proof: Per component, the estimate of C17 and the variational inequality of the normal cone give monotonicity; summed over stages and combined with the two minimality statements it is the Fejer inequality of the proximal-point method; induction over the passes.
* Scope: The inner loop is assumed to end at a point that satisfies the dynamics and minimises the Lagrangian at the new multiplier estimate up to an error that enters the bound; for NEWTON also with a zero multiplier residual. The PRIMAL_DUAL update has no such property: C63_primal_dual_refuted gives a problem on which it never improves. Exact reals; cycling is not part of the model.
* Findings: vs_pdal is only written by the constructor and by cycling of the workspace. Under PRIMAL_DUAL every accepted pass therefore resets prev_vs to the zeros of the constructor (or to the trial multipliers of the last cycle), and the solver is reduced to a pure penalty method whose penalty is bounded below.
* `P_dual.v`: `C63_pass`, `C63_multipliers_partial`, `C63_exact_partial` — axioms FE, SF, SN
* `P_dual.v`: `C63_primal_dual_refuted`, `C63_primal_dual_warm_refuted` — axioms FE, SF

### C64 — The polymorphic wrapper is a value (proved)

* Statement: xyz::polymorphic, which holds every cost, function, dynamics, space and constraint set, behaves as a value. With std::allocator any program of constructions, copies, moves, assignments, swaps and writes gives the values of a plain value type, a copy is equal to its source and no operation changes a variable it was not given. Every control block has exactly one owner, is freed once and with the allocator it came from, and nothing is left when the variables die. An operation that throws leaves the values as they were. Excepted are a move assignment or swap between a polymorphic and a member of its own value.
* Model: `PolyModel`. Memory as a list of cells with control blocks; create_control_block, clone, move, destroy with their failure paths; constructors, assignments, swap, access and destruction of polymorphic; allocator propagation and selection. Not modelled: empty-base layout, p_ (always the address of the object in the block), the pre-C++20 type traits that select overloads.
* Proof: A representation predicate ties the memory to trees of values with disjoint footprints; destruction frees exactly a footprint and cloning makes a fresh one, also when it fails half way; a focusing lemma replaces the subtree at a path; every operation is then a few writes.
* Scope: Operations outside the specification are shown to fail by the refuted theorems: move assignment from or into a member of the own value, swap with it, copy assignment from a member and the allocator-extended move constructor when the allocator propagates on copy assignment, move assignment with propagation and unequal allocators. The initializer-list constructors make the base type. Copy constructors of held types are assumed to copy payload and members; move constructors do not throw.
* Findings: With std::allocator, x = std::move(x->member) destroys a block twice, and x->member = std::move(x) or swap(x, x->member) leak a block that holds itself; a unique_ptr handles the first correctly. The allocator-extended move constructor tests propagate_on_container_copy_assignment (line 336) and can free with the wrong allocator. The initializer-list constructors create a control block of T, not of U (line 240). Move assignment is noexcept although it may allocate.
* `P_poly.v`: `C64_step`, `C64_run`, `C64_run_exact`, `C64_no_leak`, `C64_copy_equal`, `C64_independent`, `C64_std`, `C64_move_from_member_refuted`, `C64_move_into_member_refuted`, `C64_copy_from_member_refuted`, `C64_move_ctor_refuted`, `C64_initializer_list_refuted`, `C64_move_assign_noexcept_refuted`

### C65 — Buffers of SolverFDDP fit, and nothing allocates in its no-allocation scopes (partial)

* Statement: After setup on a problem accepted by checkIntegrity, whatever routines of SolverFDDP run in whatever order, no vector is accessed out of range, all sizes match, no Ref dangles, no Eigen object is reallocated between ALIGATOR_NOMALLOC_BEGIN and END, user functions are called with allocations allowed, and the results keep the sizes of the problem; the same when stages leave and enter through cycleAppend.
* Model: `FddpShapeModel`. Every routine is the list of size effects and checks of its statements; sizes of every buffer, the lock of Eigen allocations, and the reason of a stop. Refs of QFunction and CostData are blocks with the dimensions they were made with. Not modelled: values, threads, buffers internal to Eigen.
* Proof: Constructors and cycling act on one vector at a time, so each vector is followed alone; routines keep an explicit table of expected sizes, checked statement by statement, with the lock before and after.
* Scope: Proved when all states have the same dimensions, the initial condition is a state error, costs have the dimensions of their stages and the terminal cost takes the control of the last stage; cycling when all controls have one dimension. Each of these is not checked by setup and is needed (refuted theorems). With the allocation check, stage models must own no Eigen object and an exception of the NaN tests must be followed by a routine that ends. Spaces are assumed not to allocate; buffers inside Eigen's products are not modelled.
* Findings: checkIntegrity accepts spaces of different dimensions but computeInfeasibility and forwardPass use the space of the current stage for the next state. setup accepts initial conditions on which the first iteration throws, and costs for which the blocks of the Q-function dangle. The forward pass calls the terminal cost with the control of the last stage. backwardPass copies each stage model inside its no-allocation scope. The exception of the NaN tests leaves allocations forbidden, and the line search catches it. cycleAppend leaves results_ alone: with controls of different dimensions a correct warm start is refused.
* `P_fddpshape.v`: `C65_sizes_partial`, `C65_cycling_partial`, `C65_spaces_refuted`, `C65_init_refuted`, `C65_cost_refuted`, `C65_terminal_refuted`, `C65_copy_refuted`, `C65_nan_refuted`, `C65_periodic_refuted`, `C65_new_control_refuted`, `C65_empty`

### C66 — On affine-quadratic problems a full step of SolverProxDDP solves the subproblem, and outer passes converge (partial)

* Statement: On a problem with quadratic costs, affine dynamics and equality, inequality and box constraints, a step of size a of the inner loop with the linear rollout multiplies all residuals (gradients, multipliers, dynamics, initial condition) by 1 - a, up to a preg times the step; with equality constraints one full step makes the criterion zero from any iterate; when the costs are convex the iteration is always defined, every converged outer pass brings the multipliers closer to those of every solution, the passes accepted with a primal residual of at least eps are finitely many, zero residuals mean a feasible trajectory of least cost; and a zero criterion means that the subproblem is solved.
* Model: `IterModel`, `LagrModel`, `RiccatiModel`, `AlmModel`. One iteration of innerLoop on an affine-quadratic problem: values, computeMultipliers, Lagrangian gradients, LQ subproblem, serial Riccati solver, force_initial_condition, tryLinearStep, computeCriterion, prim_infeas. Any ordered field, any horizon, dimensions of each stage independent. Not modelled: the line search which picks the step, the nonlinear rollout, multiplier estimates other than the Newton ones, vs_pdal.
* Proof: C21 gives the optimality system of the direction; by induction on the stages each residual is affine along the step while the rows keep their bound. The outer theorems compare with a solution stage by stage: gradients are monotone because costs are convex, projections because sets are convex.
* Scope: The decrease is proved while no inequality or box row changes the bound it leans on (C66_piece_refuted: needed) and, when the initial condition is forced, from iterates which satisfy it (C66_force_refuted: needed). A zero criterion does not mean that the subproblem is solved: the last dynamics error is left out (C66_last_gap_refuted), and a run started there makes no iteration (C66_stuck_run). Exact arithmetic; line search and nonlinear rollout not covered; the initial condition determines the first state.
* Findings: computeCriterion takes dyn_slacks[i] for i < nsteps only, so the error of the last dynamics is not in inner_criterion. At such a warm start (the default initial guess of a one-step problem is one) innerLoop returns before its first iteration in every pass, and run returns false after max_al_iters passes without any iteration. force_initial_condition zeroes dxs[0] after the subproblem was solved with another value: a full step from a trajectory of the system which does not start at the initial state is not a trajectory of the system.
* `P_iter.v`: `C66_residuals_partial`, `C66_defined`
* `P_iter2.v`: `C66_criterion_partial`, `C66_one_step`, `C66_outer`, `C66_passes`, `C66_solution`
* `P_iter3.v`: `C66_last_gap_refuted`, `C66_force_refuted`, `C66_piece_refuted`
* `P_iterrun.v`: `C66_stuck_run`
* `P_iter4.v`: `C66_criterion_zero`, `C66_dual_zero`

### C67 — The solvers' log table is what was entered (partial)

* Statement: The table logger prints, while active, the column names with their widths, and for each log() one row with the last entry of every column, in the order of the columns; an inactive logger prints nothing. No search reads a map key (a non-owning string view) whose characters are gone, and no value meets a format of the wrong type. SolverProxDDP: over any number of runs of one solver, verbose or quiet, also left by exceptions, each verbose run prints its headline, one complete row of twelve cells per logged iteration and the final message. SolverFDDP: the same with eight columns.
* Model: `LoggerModel`. Logger with its vector of names (buffer and capacity), the two maps with keys that are literals or views into that buffer, and all operations except reset; columns and entries of SolverProxDDP (constructor, run, innerLoop) and SolverFDDP::run. Not modelled: text layout, rehashing, reset (no solver calls it).
* Proof: While all keys can be read, a search is an association-list lookup independent of the hash; if every column has an entry before log(), no view is ever inserted. For SolverFDDP an invariant gives the cells of each name after each iteration; the first key with text cost is tracked from the row that inserts it to the search that reads it.
* Scope: Proved for the logger and for SolverProxDDP. For SolverFDDP the statement fails: each run adds the eight columns again, the cost column is always blank (the entry is called merit and has no column), the row printed on convergence repeats the previous one or is blank, and the second verbose run reads a freed key. C67_fddp_partial says exactly what is printed by one verbose run after any number of quiet ones. What fmt writes for a value is kept abstract; rehashing, which also reads keys, is not modelled.
* Findings: SolverFDDP::run adds its columns on every run, so after k runs the table has 8k columns; it enters merit, which has no column, and never cost, which has one; the log() after the loop repeats the last row, or prints a blank one, when the run converges. Its first verbose run inserts the key cost as a view of a string in the vector of names, the next run makes the vector reallocate, and the search for cost then compares with freed memory.
* `P_logger.v`: `C67_table`, `C67_proxddp`
* `P_logger2.v`: `C67_fddp_partial`, `C67_dangling_refuted`, `C67_columns_refuted`, `C67_cost_refuted`

### C68 — The constrained inverse dynamics gives the torques and forces that hold the robot (partial)

* Statement: underactuatedConstrainedInverseDynamics (C++ and Python) sizes its Jacobian by the sum of the constraint sizes, stacks the Jacobians of the constraints in order, and solves [B | -J^T] [u; f] = nle(q,v) by least squares. If some torques and contact forces balance the robot, the torques returned balance it, the forward dynamics with these torques and the constraints give zero acceleration (constraints without drift), and the forces returned are the contact forces; if none do, the caller can tell.
* Model: `InvDynModel`. underactuatedConstrainedInverseDynamics (constrained-rnea.hpp): the size loop, the stacked Jacobian, the workspace, the two blocks of the solution; the Python proxy. Not modelled: Pinocchio's algorithms, the QR itself (a least-squares solution by contract; P_invdyn shows one always exists).
* Proof: The normal equations of the least-squares contract give zero residual whenever some solution exists; a positive definite mass matrix makes the constrained forward dynamics have a unique acceleration, and the balanced torques with zero acceleration satisfy it.
* Scope: The sizes, the optimality, the balance and the rest acceleration are proved, for any rank. The statement fails in three places, proved by counterexamples: the second output is minus the contact forces, a robot that cannot be balanced gets torques without any sign of it, and with drifting constraints the torques returned do not leave the robot at rest. Pinocchio's nonLinearEffects and getConstraintsJacobian and Eigen's ColPivHouseholderQR enter by contract; arithmetic is exact.
* Findings: The Jacobian block is multiplied by -1 after it is built from J^T, so the second output is the opposite of the contact forces (the examples call it lam_c); no residual is checked; the drift of the constraints does not enter.
* `P_invdyn.v`: `C68_size`, `C68_best`, `C68_equilibrium`, `C68_rest`, `C68_force`, `C68_sign_refuted`, `C68_silent_refuted`, `C68_moving_refuted`

### C69 — C++ objects overridden in Python keep their value and own their Python part (partial)

* Statement: Objects of a C++ class with virtual methods overridden in Python (PolymorphicWrapper, OwningNonOwningHolder) behave as values: a copy kept by C++ has its own Python object with the attributes of the source and its own C++ part, changes of one object never show in another, virtual calls from C++ and uses from Python see the same C++ part, nothing is used after it was destroyed, and when all objects are gone no Python object and no C++ part is left.
* Model: `PyWrapModel`. OwningNonOwningHolder (constructor, m_held, get_ptr) and PolymorphicWrapper (copy, move, copy assignment, deepcopy_owner) on a memory of Python objects with reference counts and C++ instances; virtual calls. Not modelled: holds, the failing dynamic_cast, garbage collection, the GIL; deepcopy copies attributes as a value.
* Proof: The memory is a set of pairs of a Python object and its C++ part, each pointing to the other, owned on one side only; each operation adds, removes or replaces one pair.
* Scope: Proved for programs of creations, copies (deepcopy may raise), assignments to objects of C++ that do not raise, changes and destructions. The statement fails, by counterexamples, for a moved copy (the defaulted move leaves the holder of the Python object pointing to the moved-from object), for an override that keeps self longer than the C++ object lives, for an assignment in which deepcopy raises (the target is left with m_self of the source) and for assignment to the C++ part of an object of Python (it splits in two). Boost.Python and deepcopy enter by contract; cycles of references and threads are not modelled.
* Findings: The move constructor and move assignment are defaulted, so copied_owner is shared and its holder keeps pointing to the moved-from object; nothing in the library moves such objects today. An override that stores self has a dangling C++ part once C++ destroys the object. operator= sets m_self before deepcopy can raise, and on an instance held by Python detaches m_self from that Python object.
* `P_pywrap.v`: `C69_values`, `C69_safe`, `C69_leak`, `C69_move_refuted`, `C69_keep_refuted`, `C69_assign_raise_refuted`, `C69_split_refuted`

### C70 — The knots of an LQ problem are values and own their memory (partial)

* Statement: Constructing, copying (with any allocator), moving, assigning, parameterising and destroying LqrKnot objects in any order reads and frees no memory it does not own, gives each knot exactly the dimensions and sixteen matrices that value semantics prescribes, lets no two knots share storage and releases everything. Growing, copying and rotating the stages vector of an LqrProblem and cycleAppend of the workspace move the values as a queue does; addParameterization gives zero parameter blocks and keeps the rest. Moving a problem releases or hands over all memory, and a moved-from knot is empty.
* Model: `KnotModel`. All constructors, assignments and addParameterization of LqrKnotTpl as sequences of operations of ArenaModel (C48) on sixteen matrices, with the dimensions beside them; growth, copy, rotation and move of the vector of stages, cycleAppend of the workspace, LqrProblemTpl::addParameterization.
* Proof: An operation on a knot is one operation per matrix, which changes only its field (one lemma for all); so every program on knots is a program of C48 within its discipline. The vectors follow by induction from the specification of one knot.
* Scope: Proved for all operations whose sources hold a value, with moves that name an allocator within one resource (as growing vectors do). The last sentence of the statement fails: moving the stages between resources loses the buffers (C70_move_stages_refuted), a moved-from knot keeps its dimensions without matrices (C70_moved_refuted). Also refuted: the documented stealing of move assignment, which copies (C70_steal_refuted), and addParameterization on a knot made from an allocator only, whose dimensions have no value (C70_uninit_refuted). G0, g0 and the constructors of LqrProblem around the vector are not modelled; allocators do not fail.
* Findings: operator=(LqrKnot&&) copies although its documentation says it steals; the move constructor is documented to set m_empty_after_move, which does not exist, and leaves the dimensions; move assignment of LqrProblem between memory resources leaks every stage it constructs.
* `P_knot.v`: `C70_knots`
* `P_knot2.v`: `C70_grow`, `C70_copy_stages`, `C70_rotate`, `C70_cycle`, `C70_param`, `C70_move_stages_refuted`, `C70_steal_refuted`, `C70_moved_refuted`, `C70_uninit_refuted`

### C71 — The dense Riccati solver keeps its buffers in the sizes of the problem (partial)

* Statement: For an LQ problem with consistent dimensions (every knot ends in the state space of the next, one number of parameters, an initial condition on the first state), the constructor of RiccatiSolverDense gives all buffers the sizes of the problem; in any sequence of backward, forward (with or without parameter) and cycleAppend no statement reads out of range or meets a size it does not expect, every solution written by forward has the sizes of the current problem, and this holds for every horizon, every list of vectors that the asserts admit and every knot appended.
* Model: `DenseShapeModel`. All size effects and size checks of the constructor, backward, terminalSolve, stageKernelSolve, forward, forwardStep and cycleAppend of the dense solver, together with the rotation of the LQ problem by the workspace.
* Proof: The invariant says that every buffer has the size the constructor would give it for the current problem; one stage is checked by computation on symbolic dimensions. After cycleAppend the factors at N - 1 are those of the stage that left, and four of the checks of that stage force the dimensions to be equal.
* Scope: Proved for every horizon N >= 1 and every sequence in which the appended knots have the dimensions of the knot that leaves and the first state keeps its dimension. That condition is exact: otherwise backward fails after cycleAppend, because the stage factors and kkt0 are not resized (C71_cycle_refuted). Also refuted: N = 0, where the index wraps (C71_horizon_refuted), and N vectors of controls, which the assert admits, with a terminal knot that has controls (C71_controls_refuted). Sizes only; the values are C23.
* Findings: cycleAppend replaces the LDL object by one of the new size, which compute resizes anyway, and does not resize the block matrices fb, ft, ff, kktMat nor kkt0; assert(us.size() >= N) is too weak for a terminal knot with controls; N = 0 reads stages[4294967295].
* `P_denseshape.v`: `C71_sessions_partial`, `C71_cycle_refuted`, `C71_horizon_refuted`, `C71_controls_refuted`, `C71_cycle_buffers`

### C72 — The parallel Riccati solver is rebuilt correctly when the problem is cycled (partial)

* Statement: The constructor of ParallelRiccatiSolver gives every stage exactly one factor, in the sizes of its knot with as many parameters as the state in which its leg ends (none are added in the last leg), and gives rhsDims_, the right-hand sides and the six vectors of the condensed system matching sizes; after any number of cycleProblem steps the problem and all buffers are those of a solver newly constructed on the same problem without parameters, whatever the solver and the knots held before; this holds for every number of threads and every problem.
* Model: `ParShapeModel`. The constructor, initialize with allocate_leg, initializeTridiagSystem and cycleAppend of the parallel solver, on sizes: the knots are changed in place and the buffers are appended to, so that a buffer which is not emptied would be seen.
* Proof: The loop over the legs is shown to equal a closed form, the concatenation of the legs cut at i (N + 1) / threads; cycling commutes with clearing the parameters, so the history drops out.
* Scope: Proved for 2 <= threads <= stages, as long as threads * stages fits in 32 bits. With more threads than stages the constructor reads stages[4294967295] (C72_threads_refuted). A second solver constructed with fewer threads on a problem that already belongs to a solver keeps the parameters of the first in its last leg, since only cycleAppend clears them (C72_reuse_refuted; with as many or more threads nothing is kept, C72_again). Sizes only; whether rhsDims_ fits the blocks written is C24.
* Findings: cycleAppend clears the parameters of all knots before it rebuilds, but the constructor does not: a problem used with more threads before is parameterised wrongly. More threads than stages underflow end - 1 in allocate_leg.
* `P_parshape.v`: `C72_construct_partial`, `C72_knots`, `C72_cycles`, `C72_threads_refuted`, `C72_reuse_refuted`, `C72_again`
