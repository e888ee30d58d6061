{
 "claims": [
  {
   "property": "C01",
   "status": "proved",
   "theorems": [
    "C01_projection_closest_point",
    "C01_product"
   ],
   "note": "Equality, orthant, box and arbitrarily nested products over R."
  },
  {
   "property": "C02",
   "status": "proved",
   "theorems": [
    "C02_projection_splits"
   ],
   "note": "All shipped sets and nested products."
  },
  {
   "property": "C03",
   "status": "proved",
   "theorems": [
    "C03_jacobians_exact",
    "C03_active_set"
   ],
   "note": "Exact local linearisation off the kinks; active-set characterisation."
  },
  {
   "property": "C04",
   "status": "partial",
   "theorems": [
    "C04_prox_optimal",
    "C04_product_prox_parameter_refuted",
    "C04_set_parameter"
   ],
   "note": "Prox optimality and envelope proved when every L1 component has the parameter of the object; refuted for products because setProxParameter is not forwarded."
  },
  {
   "property": "C05",
   "status": "proved",
   "theorems": [
    "C05_antichain",
    "C05_submission",
    "C05_history_covered",
    "C05_margin_antichain_refuted",
    "C05_reset"
   ],
   "note": "Antichain for the margin used by the solver (beta=0); the submission and history clauses for every margin. With a positive margin the antichain clause is false (refuted, extra)."
  },
  {
   "property": "C06",
   "status": "partial",
   "theorems": [
    "C06_filter_run",
    "C06_filter_run_terminates",
    "C06_value_evaluated_refuted"
   ],
   "note": "Range, value and acceptance proved whenever some trial step evaluates; refuted when every trial raises (0 returned, (0,0) stored)."
  },
  {
   "property": "C07",
   "status": "partial",
   "theorems": [
    "C07_step_range",
    "C07_total_merit_partial",
    "C07_terminates",
    "C07_value_evaluated_refuted",
    "C07_value_at_step_refuted"
   ],
   "note": "Step range and termination for every merit; value/acceptance clauses for merits that do not raise (cubic: value at the unclamped step); refuted for merits that raise."
  },
  {
   "property": "C08",
   "status": "partial",
   "theorems": [
    "C08_interpolation_range",
    "C08_quadratic_interpolation",
    "C08_polynomial_derivative",
    "C08_cubic_stationary",
    "C08_cubic_interpolation_refuted",
    "C08_cubic_exchanged",
    "C08_fallback_edge"
   ],
   "note": "Range and quadratic interpolation proved; the cubic does not go through the samples (right-hand sides exchanged), refuted, with what it does interpolate."
  },
  {
   "property": "C09",
   "status": "proved",
   "theorems": [
    "C09_nonmonotone_run",
    "C09_nonmonotone_terminates",
    "C09_reference"
   ],
   "note": "Range, decrease, value and reference bounds; termination."
  },
  {
   "property": "C10",
   "status": "partial",
   "theorems": [
    "C10_goldstein_total_partial",
    "C10_goldstein_any_partial",
    "C10_goldstein_terminates",
    "C10_value_at_step_refuted",
    "C10_step_range_refuted"
   ],
   "note": "Value and trial state proved for merits that do not raise at the returned step; step range and value refuted otherwise."
  },
  {
   "property": "C11",
   "status": "proved",
   "theorems": [
    "C11_newton_certificate",
    "C11_newton_terminates",
    "C11_residual_buffer_refuted"
   ],
   "note": "Certificate, monotone residual, budget. Extra finding: the residual buffer is not that of the returned point after a failed line search."
  },
  {
   "property": "C12",
   "status": "partial",
   "theorems": [
    "C12_success",
    "C12_residuals_partial",
    "C12_stale_residual_refuted",
    "C12_initial_condition_refuted",
    "C12_dual_on_failure_refuted"
   ],
   "note": "Tolerances and flag proved for every behaviour of the routines; 'residuals of the returned iterate' proved for the linear rollout without NaN, refuted otherwise."
  },
  {
   "property": "C13",
   "status": "partial",
   "theorems": [
    "C13_budgets",
    "C13_terminates_partial",
    "C13_terminates_refuted",
    "C13_terminates_binary64_refuted"
   ],
   "note": "Budgets proved; termination proved when the inner criterion is never exactly zero, refuted in exact arithmetic and in binary64 (penalty >= 0.99) when it is."
  },
  {
   "property": "C14",
   "status": "partial",
   "theorems": [
    "C14_bounds",
    "C14_penalty_update",
    "C14_monotone",
    "C14_inner_tolerance_refuted",
    "C14_tolerances",
    "C14_first_tolerances",
    "C14_dynamics"
   ],
   "note": "Penalty rule, tolerance rule, multiplier estimates, lower bound, primal tolerance and dynamics penalty proved; the inner tolerance floor is 0.01*target, so that clause is refuted."
  },
  {
   "property": "C15",
   "status": "proved",
   "theorems": [
    "C15_callbacks",
    "C15_fddp_callbacks",
    "C15_register",
    "C15_names_unique",
    "C15_unregister"
   ],
   "note": "ProxDDP and FDDP loops, and the registry."
  },
  {
   "property": "C16",
   "status": "partial",
   "theorems": [
    "C16_first_state_partial",
    "C16_bad_warm_start_never_converges",
    "C16_initial_state_refuted"
   ],
   "note": "First state constant during the run proved; equality with the problem's initial state refuted."
  },
  {
   "property": "C17",
   "status": "partial",
   "theorems": [
    "C17_estimate",
    "C17_infeasibility",
    "C17_zero",
    "C17_costates",
    "C17_l1_refuted"
   ],
   "note": "Every horizon and (nested product of) equality, inequality and box sets; real arithmetic; dynamics errors given as vectors. Refuted for the L1 penalty, whose proximal parameter the solver never sets."
  },
  {
   "property": "C18",
   "status": "proved",
   "theorems": [
    "C18_contraction",
    "C18_passes",
    "C18_feasible_forever",
    "C18_full_step_rollout",
    "C18_linear_response"
   ],
   "note": "Vector spaces and every manifold whose exponential is additive along a line."
  },
  {
   "property": "C19",
   "status": "partial",
   "theorems": [
    "C19_success_partial",
    "C19_regularisation_range",
    "C19_success_refuted"
   ],
   "note": "Residual claim proved for the tolerance exit; refuted for the vanishing-derivative exit."
  },
  {
   "property": "C20",
   "status": "proved",
   "theorems": [
    "C20_optimal_policy",
    "C20_convex"
   ],
   "note": "Exact arithmetic; LLT modelled by the inverse; horizon and dimensions arbitrary and stage dependent."
  },
  {
   "property": "C21",
   "status": "proved",
   "theorems": [
    "C21_kkt",
    "C21_convex",
    "C21_lower",
    "C21_lower_kkt"
   ],
   "note": "Bunch-Kaufman modelled as the exact solve of the symmetric matrix given by the lower triangle; Q and R symmetric."
  },
  {
   "property": "C22",
   "status": "partial",
   "theorems": [
    "C22_parametric_partial",
    "C22_value",
    "C22_gv_refuted"
   ],
   "note": "Gv = 0 required: the kernel omits Gv from the cost-to-go and at the terminal stage (refuted otherwise)."
  },
  {
   "property": "C23",
   "status": "partial",
   "theorems": [
    "C23_kkt_partial",
    "C23_agrees_partial",
    "C23_parameter_exact",
    "C23_parameter_partial",
    "C23_parameter_refuted",
    "C23_terminal_singular",
    "C23_terminal_refuted"
   ],
   "note": "Every horizon N >= 1 and stage-dependent dimensions: the unique KKT solution, the same as the proximal solver. Needs a terminal knot without control and constraint (or with nx2 = 0): otherwise the terminal matrix has zero rows and the factorisation failure is ignored (C23_terminal_refuted). The value gradient and Hessian in the parameter are the right ones only when the parameter enters the first stage only (C23_parameter_exact says what is missing, C23_parameter_refuted). N = 0 reads out of bounds; cycleAppend is in C71."
  },
  {
   "property": "C24",
   "status": "partial",
   "theorems": [
    "C24_legs",
    "C24_dims",
    "C24_kkt_partial",
    "C24_convex_partial",
    "C24_singular_refuted"
   ],
   "note": "Any legs, horizon and dimensions; default refinement settings (maxRefinementSteps other than 1, see C28) and block sizes as assigned (C24_dims says when rhsDims_ matches). Refuted for convex problems with singular cost-to-go, whose failure is ignored."
  },
  {
   "property": "C25",
   "status": "proved",
   "theorems": [
    "C25_contiguous",
    "C25_partition",
    "C25_balanced",
    "C25_empty_leg_refuted",
    "C25_overflow_refuted"
   ],
   "note": "With 32-bit wrap-around made explicit; no-overflow hypothesis needed (refuted without)."
  },
  {
   "property": "C26",
   "status": "proved",
   "theorems": [
    "C26_schedule",
    "C26_evaluate",
    "C26_infeasibility",
    "C26_backward",
    "C26_forward"
   ],
   "note": "The effect of each stage evaluation and kernel call is arbitrary within its read and write set; thread ids 0..nt-1 all run. Tracing and exceptions leaving a region are not modelled."
  },
  {
   "property": "C27",
   "status": "proved",
   "theorems": [
    "C27_dense",
    "C27_solve",
    "C27_downlooking",
    "C27_agree",
    "C27_matmul",
    "C27_one_block_refuted"
   ],
   "note": "Two or more blocks, sub = sup^T, symmetric diagonal blocks; with a single block the loops read out of bounds (C27_one_block_refuted)."
  },
  {
   "property": "C28",
   "status": "partial",
   "theorems": [
    "C28_one_step",
    "C28_step_keeps",
    "C28_loop_partial",
    "C28_single_step",
    "C28_single_refuted"
   ],
   "note": "Step claims proved; loop returns the solution for every maxRefinementSteps other than 1; refuted for 1 (first residual uses the zero condensedErr instead of the right-hand side)."
  },
  {
   "property": "C29",
   "status": "partial",
   "theorems": [
    "C29_error",
    "C29_zero",
    "C29_sparse",
    "C29_sparse_sym",
    "C29_rows",
    "C29_traj",
    "C29_sparse_refuted",
    "C29_gv_refuted",
    "C29_rows_refuted"
   ],
   "note": "Certificate: iff, for every tolerance, problem, trajectory (path constraints independent of theta when theta is given: C29_gv_refuted). Sparse matrix: it encodes A x + B u + f + x' = 0 instead of ... - x' (C29_sparse, C29_sparse_refuted); row count right iff first and last state dimensions agree."
  },
  {
   "property": "C30",
   "status": "proved",
   "theorems": [
    "C30_solve",
    "C30_success_iff",
    "C30_unique",
    "C30_blocksize"
   ],
   "note": "BunchKaufman::compute (blocked with block size 32 and unblocked, pivot choice, symmetric swaps, 1x1 and 2x2 elimination, undoing of the row swaps, pivot shift, extraction of the subdiagonal) and the solve phase, in exact real arithmetic; Success exactly for nonsingular matrices. UpLo=Lower (the only instance used). Rounding, NaN and int overflow of the stored pivots are not modelled."
  },
  {
   "property": "C31",
   "status": "partial",
   "theorems": [
    "C31_knot",
    "C31_exact",
    "C31_isapprox_partial",
    "C31_terminal_refuted",
    "C31_empty_refuted",
    "C31_evaluate_partial",
    "C31_control_refuted"
   ],
   "note": "isApprox: iff for everything but the terminal knot, which is not compared (C31_terminal_refuted); empty problems read out of bounds. evaluate: sum of stage costs when the terminal stage has no control (C31_control_refuted otherwise)."
  },
  {
   "property": "C32",
   "status": "proved",
   "theorems": [
    "C32_evaluate",
    "C32_throws",
    "C32_derivatives"
   ],
   "note": "Stage and cost evaluations are arbitrary functions of the trajectory."
  },
  {
   "property": "C33",
   "status": "partial",
   "theorems": [
    "C33_assign",
    "C33_guess_partial",
    "C33_default",
    "C33_xs_dropped_refuted",
    "C33_us_dropped_refuted",
    "C33_partial_write_refuted",
    "C33_multipliers_refuted"
   ],
   "note": "Accepted guesses are adopted as given; guesses with only one of xs, us are dropped and rejected guesses or multipliers are partly written (refuted)."
  },
  {
   "property": "C34",
   "status": "partial",
   "theorems": [
    "C34_queue",
    "C34_shift",
    "C34_workspace",
    "C34_runs",
    "C34_replace",
    "C34_one_refuted",
    "C34_dims_refuted",
    "C34_base",
    "C34_base_runs"
   ],
   "note": "Queue/shift/workspace consistency for every number of cycles and N >= 2 with constant control dimension; N = 1 and varying dimensions refuted."
  },
  {
   "property": "C35",
   "status": "proved",
   "theorems": [
    "C35_tiling",
    "C35_blocks",
    "C35_stack",
    "C35_top"
   ],
   "note": ""
  },
  {
   "property": "C36",
   "status": "proved",
   "theorems": [
    "C36_gradient",
    "C36_unique",
    "C36_lq_subproblem"
   ],
   "note": "Gradients represent the first variation of the Lagrangian in every direction and are unique; the LQ subproblem with projected Jacobians and corrected gradients has the same solutions as the Newton system with complete Jacobians, for every active set. Derivatives are given matrices."
  },
  {
   "property": "C37",
   "status": "partial",
   "theorems": [
    "C37_sum",
    "C37_add",
    "C37_distinct",
    "C37_weights",
    "C37_count_partial",
    "C37_make",
    "C37_count_refuted",
    "C37_stale_data_refuted"
   ],
   "note": "Sums, weights, scaling, constructor for every stack and iteration order; no component lost if automatic keys are used; mixed keys lose components silently and data made before an addition is a null dereference (refuted)."
  },
  {
   "property": "C38",
   "status": "partial",
   "theorems": [
    "C38_constant",
    "C38_quadratic",
    "C38_residual_any",
    "C38_residual",
    "C38_sum",
    "C38_symmetry_refuted",
    "C38_gauss_newton_refuted",
    "C38_cross_stale_refuted",
    "C38_state_cost",
    "C38_control_cost"
   ],
   "note": "Exact, from any reachable data, for QuadraticCost and affine-residual costs with symmetric weights, constant costs and direct sums of exact costs; for any residual the three formulas; QuadraticStateCost and QuadraticControlCost for the target set last, with data made once (targets of the right size; setTarget checks nothing). Refuted: weights that are not symmetric (not checked), gauss_newton = false (first term overwritten), data created before setCrossWeight. Vector spaces, exact arithmetic."
  },
  {
   "property": "C39",
   "status": "partial",
   "theorems": [
    "C39_constructor",
    "C39_log_gradient",
    "C39_relaxed_gradient",
    "C39_relaxed_agrees",
    "C39_log_hessian_negated",
    "C39_relaxed_hessian_partial",
    "C39_log_hessian_refuted",
    "C39_relaxed_hessian_refuted"
   ],
   "note": "Gradients are the derivative of the value for every differentiable residual on the whole domain (threshold included). The Hessian claim is refuted: LogResidualCost has the wrong sign (proved: exactly minus the Hessian), RelaxedLogBarrierCost squares the weight and, below the threshold, the slope."
  },
  {
   "property": "C40",
   "status": "proved",
   "theorems": [
    "C40_euler",
    "C40_semi_euler",
    "C40_rk2",
    "C40_midpoint",
    "C40_ode",
    "C40_linear_ode"
   ],
   "note": "Euler, semi-implicit Euler, RK2, midpoint on vector spaces over any ordered field, from any reachable data, Frechet derivative of the step; plus an ODE used as continuous dynamics and LinearODE. Rounding not modelled."
  },
  {
   "property": "C41",
   "status": "partial",
   "theorems": [
    "C41_linear",
    "C41_state_error",
    "C41_control_error",
    "C41_control_box",
    "C41_slice",
    "C41_compose",
    "C41_slice_vhp_fails",
    "C41_slice_vhp_zero",
    "C41_slice_vhp_refuted"
   ],
   "note": "Value and Jacobian of slices (any index list in range) and of linear compositions of any function, and of the elementary functions, from any reachable data. Refuted: the vector-Hessian product of a slice (fails unless all rows are selected, never written, computed with the selected multipliers zeroed)."
  },
  {
   "property": "C42",
   "status": "proved",
   "theorems": [
    "C42_columns",
    "C42_affine",
    "C42_cost",
    "C42_cost_affine"
   ],
   "note": "Functions, dynamics and costs on vector spaces in exact arithmetic: difference quotients for every function, exact Jacobian/gradient on affine ones, from any reachable data. Rounding and manifold states are not modelled."
  },
  {
   "property": "C43",
   "status": "partial",
   "theorems": [
    "C43_explicit_single",
    "C43_explicit_multi",
    "C43_explicit_alloc",
    "C43_implicit_single_partial",
    "C43_late_check_refuted",
    "C43_implicit_multi_refuted",
    "C43_implicit_multi_length_refuted",
    "C43_silent_failure_refuted"
   ],
   "note": "Explicit overloads for every output vector handed in; single implicit model, whose steps are what Newton returns (a failure of Newton is not reported, C43_silent_failure_refuted); several implicit models refuted (empty output vector, 2N+1 states)."
  },
  {
   "property": "C44",
   "status": "partial",
   "theorems": [
    "C44_laws",
    "C44_interpolate",
    "C44_tangent_interpolate_refuted",
    "C44_tangent_interpolate_partial",
    "C44_order",
    "C44_space_times_product_refuted",
    "C44_tangent_normalized",
    "C44_product_normalized_refuted",
    "C44_product_normalized_partial",
    "C44_split_merge",
    "C44_output_overwritten",
    "C44_product_jacobians",
    "C44_product_transport",
    "C44_tangent_jacobians",
    "C44_tangent_transport"
   ],
   "note": "Proved for every nesting of vector spaces, lawful other spaces (Lie groups as oracles), products and tangent bundles: difference and integrate are inverse, integrating zero is the identity, the neutral element is a point; interpolation ends for vector spaces and all products; order of poly*poly, product*poly, product*product; isNormalized of tangent bundles; split/merge inverse and size check; block-diagonal Jacobians and row-wise transport. Refuted: TangentBundle::interpolate uses the base entries for the velocity part; product isNormalized is always true; space * product puts the space last."
  },
  {
   "property": "C45",
   "status": "proved",
   "theorems": [
    "C45_forward",
    "C45_continuous",
    "C45_angular_acceleration",
    "C45_centroidal_acceleration",
    "C45_com",
    "C45_linear_momentum",
    "C45_angular_momentum",
    "C45_angular_momentum_refuted",
    "C45_wrapper"
   ],
   "note": "Every number of contacts, contact pattern, force size >= 3 and (for residuals) data history; values equal Newton-Euler written with cross products and the Jacobians are its derivative along every direction. AngularMomentum is right on the documented 9-dimensional state only (refuted for longer ones). Exact reals."
  },
  {
   "property": "C46",
   "status": "proved",
   "theorems": [
    "C46_residual",
    "C46_contacts",
    "C46_jacobian",
    "C46_friction",
    "C46_friction_jacobian",
    "C46_mb_friction"
   ],
   "note": "For every contact index, friction, foot size and wrench; also both ways against contact forces in the friction pyramid at points of the foot (corners suffice). Jacobian from any reachable data. Also friction cone, and the contact-force part of the multibody cones (Pinocchio's dynamics is not modelled; at zero tangential force the multibody friction Jacobian is 0/0). Rounding not modelled."
  },
  {
   "property": "C47",
   "status": "partial",
   "theorems": [
    "C47_refines_association_list",
    "C47_last_set_wins",
    "C47_constructor_refuted",
    "C47_remove_refuted"
   ],
   "note": "Refinement of an association list; constructor accepting unequal lengths and removal by name refuted."
  },
  {
   "property": "C48",
   "status": "partial",
   "theorems": [
    "C48_memory_partial",
    "C48_copies",
    "C48_shrink_refuted",
    "C48_leak_refuted",
    "C48_reuse_refuted"
   ],
   "note": "Every sequence of operations allowed by an explicit discipline (no shrinking conservativeResize, no move between different resources, objects moved from by assignment only destroyed or move-assigned); each exclusion is refuted. Dynamic sizes."
  },
  {
   "property": "C49",
   "status": "partial",
   "theorems": [
    "C49_norm_partial",
    "C49_never_nan",
    "C49_norm_refuted",
    "C49_dual_refuted",
    "C49_check",
    "C49_doc_refuted",
    "C49_criteria",
    "C49_dual_criterion"
   ],
   "note": "Matrix norms exact and NaN-propagating; vector-of-vectors and the dual infeasibility combination drop NaN (refuted); the comment of check_scalar is the inverse of what it does."
  },
  {
   "property": "C50",
   "status": "proved",
   "theorems": [
    "C50_linear",
    "C50_linear_zero",
    "C50_rollout",
    "C50_rollout_fresh",
    "C50_coincide",
    "C50_rollout_zero",
    "C50_rollout_zero_refuted"
   ],
   "note": "Every horizon N>=1, arbitrary manifolds, dynamics and gains. A further fact: the rollout with step 0 only gives back a feasible iterate if dx0=0, since the feedback of the first node is applied to the unscaled dx0 (refuted otherwise)."
  },
  {
   "property": "C51",
   "status": "partial",
   "theorems": [
    "C51_value",
    "C51_slope",
    "C51_slope_moving",
    "C51_slope_refuted"
   ],
   "note": "Value: the augmented Lagrangian for every horizon and (product of) equality, inequality and box sets. Slope: the derivative if the co-states do not move along the step; along the actual trial points, whose co-states move, the slope misses sum mu lam+.dlam (C51_slope_moving; refuted on an LQ problem). Real arithmetic; vector-space states."
  },
  {
   "property": "C52",
   "status": "partial",
   "theorems": [
    "C52_history_partial",
    "C52_lams_refuted"
   ],
   "note": "All recorded series are one entry per call and in order; lams and inner_crits are never filled (refuted)."
  },
  {
   "property": "C53",
   "status": "partial",
   "theorems": [
    "C53_upfac",
    "C53_collapse_refuted"
   ],
   "note": "Refuted as coded (the block read is not the U factor); proved for upFacs[1]."
  },
  {
   "property": "C54",
   "status": "proved",
   "theorems": [
    "C54_iteration",
    "C54_gives_up",
    "C54_loop",
    "C54_across_loops",
    "C54_bounds",
    "C54_bounds_run",
    "C54_stalls"
   ],
   "note": "For every behaviour of the numerical routines, one iteration, the loop, the hand-over between inner loops and runs, bounds and stalling. A regularisation of exactly zero (reg_min = 0) is taken for a first iteration by the code; the theorems say so through last_reg. Exact rationals."
  },
  {
   "property": "C55",
   "status": "partial",
   "theorems": [
    "C55_prediction_error",
    "C55_full_step",
    "C55_feasible",
    "C55_full_step_accepted",
    "C55_one_step_optimal",
    "C55_partial_step_refuted"
   ],
   "note": "Exact error formula for every step and regularisation; exact prediction for the full step and for trajectories without gaps; full step always accepted; one full step reaches the minimiser. The clause about partial steps at a trajectory with gaps is refuted: the gap correction uses the deviations of the damped trial and is then damped again."
  },
  {
   "property": "C56",
   "status": "partial",
   "theorems": [
    "C56_frame_translation",
    "C56_frame_velocity",
    "C56_fly_high",
    "C56_frame_placement",
    "C56_frame_equality",
    "C56_com_translation",
    "C56_com_velocity",
    "C56_dcm_position",
    "C56_centroidal_momentum",
    "C56_frame_collision",
    "C56_frame_velocity_extended_refuted",
    "C56_frame_equality_doc_refuted"
   ],
   "note": "All ten residuals, from any reachable data. Pinocchio is a record of functions with its documented contract (pin_ok), met by an example robot; the derivative of log6 is assumed at the point considered, that of the distance too. Refuted: the velocity Jacobian for states longer than 2 nv, which the constructor accepts (C56_frame_velocity_extended_refuted), and the formula documented for FrameEquality (C56_frame_equality_doc_refuted). Exact reals; computeJacobians is called after evaluate at the same point."
  },
  {
   "property": "C57",
   "status": "partial",
   "theorems": [
    "C57_momentum_derivative",
    "C57_gravity_serial_partial",
    "C57_gravity_zeroed",
    "C57_gravity_refuted",
    "C57_contact_id",
    "C57_contact_force_partial",
    "C57_friction_cone_partial",
    "C57_wrench_cone_partial",
    "C57_contact_force_refuted"
   ],
   "note": "Momentum rate for all contacts. Gravity compensation when all joints are related (serial chains), or with the buffer set to zero; refuted as it stands for robots with branches, where unwritten entries of gravity_partial_dq_ are never set (C57_gravity_refuted). Contact force and cones when the contacts before the selected one have the size of the residual; refuted for mixed contacts, where the offset contact_id * force_size is wrong (C57_contact_force_refuted). Friction cone where the tangential force is not zero. Pinocchio by contract; exact reals."
  },
  {
   "property": "C58",
   "status": "partial",
   "theorems": [
    "C58_kinodynamics",
    "C58_kino_make",
    "C58_free",
    "C58_constraint",
    "C58_act_make",
    "C58_free_stale",
    "C58_constraint_stale",
    "C58_underactuated",
    "C58_pendulum",
    "C58_ode"
   ],
   "note": "Kinodynamics for a floating base (nv at least 6, invertible base block) and contact forces of size 3 or more. dForward at the point of the last forward, and exactly what it computes elsewhere. Pinocchio, PartialPivLU::inverse and the derivatives of aba and constraintDynamics by contract; exact reals."
  },
  {
   "property": "C59",
   "status": "proved",
   "theorems": [
    "C59_linear",
    "C59_linear_sizes",
    "C59_sum",
    "C59_sum_blocks",
    "C59_sum_sizes"
   ],
   "note": "Dynamics whose input and output spaces are the same, as the only constructor makes them. Exact reals; sizes are modelled, memory is not."
  },
  {
   "property": "C60",
   "status": "proved",
   "theorems": [
    "C60_values",
    "C60_memory",
    "C60_tiling",
    "C60_rotate",
    "C60_cost_make",
    "C60_cost_assign",
    "C60_cost_assign_sizes",
    "C60_cost_copy",
    "C60_cost_copy_refuted"
   ],
   "note": "Self-assignment and self-swap are included. The claim that a copy of cost data is a value is false and C60_cost_copy_refuted refutes it; C60_cost_copy states what the copy does instead. Exact reals; heap with fresh, never reused addresses; allocation never fails."
  },
  {
   "property": "C61",
   "status": "proved",
   "theorems": [
    "C61_convert",
    "C61_evaluate",
    "C61_derivatives",
    "C61_data",
    "C61_cost",
    "C61_state"
   ],
   "note": "Crocoddyl's action models are records of functions with a contract (calcDiff is right after calc at the same point), met by an example. Exact reals; sizes are modelled."
  },
  {
   "property": "C62",
   "status": "partial",
   "theorems": [
    "C62_sizes_partial",
    "C62_dense_refuted",
    "C62_integrity_refuted",
    "C62_empty_refuted",
    "C62_cycle_partial",
    "C62_cycle_one_refuted",
    "C62_cycle_controls_refuted",
    "C62_cycle_dense_refuted"
   ],
   "note": "Sizes only, not values. C62_sizes_partial excludes copying the gains and the nonlinear rollout with the dense stage solver: C62_dense_refuted proves that they always fail there. The checks of the code do not imply the dimensions assumed: C62_integrity_refuted, C62_empty_refuted. C62_cycle_partial: the same for receding-horizon sessions in which cycleProblem is called any number of times, for at least two stages, a state-error initial condition, equal control dimensions and a solver that is not the dense one; each of the excluded cases except the initial condition is refuted (C62_cycle_one_refuted, C62_cycle_controls_refuted, C62_cycle_dense_refuted)."
  },
  {
   "property": "C63",
   "status": "partial",
   "theorems": [
    "C63_pass",
    "C63_multipliers_partial",
    "C63_exact_partial",
    "C63_primal_dual_refuted",
    "C63_primal_dual_warm_refuted"
   ],
   "note": "The inner loop is assumed to end at a point that satisfies the dynamics and minimises the Lagrangian at the new multiplier estimate up to an error that enters the bound; for NEWTON also with a zero multiplier residual. The PRIMAL_DUAL update has no such property: C63_primal_dual_refuted gives a problem on which it never improves. Exact reals; cycling is not part of the model."
  },
  {
   "property": "C64",
   "status": "proved",
   "theorems": [
    "C64_step",
    "C64_run",
    "C64_run_exact",
    "C64_no_leak",
    "C64_copy_equal",
    "C64_independent",
    "C64_std",
    "C64_move_from_member_refuted",
    "C64_move_into_member_refuted",
    "C64_copy_from_member_refuted",
    "C64_move_ctor_refuted",
    "C64_initializer_list_refuted",
    "C64_move_assign_noexcept_refuted"
   ],
   "note": "Operations outside the specification are shown to fail by the refuted theorems: move assignment from or into a member of the own value, swap with it, copy assignment from a member and the allocator-extended move constructor when the allocator propagates on copy assignment, move assignment with propagation and unequal allocators. The initializer-list constructors make the base type. Copy constructors of held types are assumed to copy payload and members; move constructors do not throw."
  },
  {
   "property": "C65",
   "status": "partial",
   "theorems": [
    "C65_sizes_partial",
    "C65_cycling_partial",
    "C65_spaces_refuted",
    "C65_init_refuted",
    "C65_cost_refuted",
    "C65_terminal_refuted",
    "C65_copy_refuted",
    "C65_nan_refuted",
    "C65_periodic_refuted",
    "C65_new_control_refuted",
    "C65_empty"
   ],
   "note": "Proved when all states have the same dimensions, the initial condition is a state error, costs have the dimensions of their stages and the terminal cost takes the control of the last stage; cycling when all controls have one dimension. Each of these is not checked by setup and is needed (refuted theorems). With the allocation check, stage models must own no Eigen object and an exception of the NaN tests must be followed by a routine that ends. Spaces are assumed not to allocate; buffers inside Eigen's products are not modelled."
  },
  {
   "property": "C66",
   "status": "partial",
   "theorems": [
    "C66_residuals_partial",
    "C66_criterion_partial",
    "C66_one_step",
    "C66_defined",
    "C66_outer",
    "C66_passes",
    "C66_solution",
    "C66_last_gap_refuted",
    "C66_force_refuted",
    "C66_piece_refuted",
    "C66_stuck_run",
    "C66_criterion_zero",
    "C66_dual_zero"
   ],
   "note": "The decrease is proved while no inequality or box row changes the bound it leans on (C66_piece_refuted: needed) and, when the initial condition is forced, from iterates which satisfy it (C66_force_refuted: needed). A zero criterion does not mean that the subproblem is solved: the last dynamics error is left out (C66_last_gap_refuted), and a run started there makes no iteration (C66_stuck_run). Exact arithmetic; line search and nonlinear rollout not covered; the initial condition determines the first state."
  },
  {
   "property": "C67",
   "status": "partial",
   "theorems": [
    "C67_table",
    "C67_proxddp",
    "C67_fddp_partial",
    "C67_dangling_refuted",
    "C67_columns_refuted",
    "C67_cost_refuted"
   ],
   "note": "Proved for the logger and for SolverProxDDP. For SolverFDDP the statement fails: each run adds the eight columns again, the cost column is always blank (the entry is called merit and has no column), the row printed on convergence repeats the previous one or is blank, and the second verbose run reads a freed key. C67_fddp_partial says exactly what is printed by one verbose run after any number of quiet ones. What fmt writes for a value is kept abstract; rehashing, which also reads keys, is not modelled."
  },
  {
   "property": "C68",
   "status": "partial",
   "theorems": [
    "C68_size",
    "C68_best",
    "C68_equilibrium",
    "C68_rest",
    "C68_force",
    "C68_sign_refuted",
    "C68_silent_refuted",
    "C68_moving_refuted"
   ],
   "note": "The sizes, the optimality, the balance and the rest acceleration are proved, for any rank. The statement fails in three places, proved by counterexamples: the second output is minus the contact forces, a robot that cannot be balanced gets torques without any sign of it, and with drifting constraints the torques returned do not leave the robot at rest. Pinocchio's nonLinearEffects and getConstraintsJacobian and Eigen's ColPivHouseholderQR enter by contract; arithmetic is exact."
  },
  {
   "property": "C69",
   "status": "partial",
   "theorems": [
    "C69_values",
    "C69_safe",
    "C69_leak",
    "C69_move_refuted",
    "C69_keep_refuted",
    "C69_assign_raise_refuted",
    "C69_split_refuted"
   ],
   "note": "Proved for programs of creations, copies (deepcopy may raise), assignments to objects of C++ that do not raise, changes and destructions. The statement fails, by counterexamples, for a moved copy (the defaulted move leaves the holder of the Python object pointing to the moved-from object), for an override that keeps self longer than the C++ object lives, for an assignment in which deepcopy raises (the target is left with m_self of the source) and for assignment to the C++ part of an object of Python (it splits in two). Boost.Python and deepcopy enter by contract; cycles of references and threads are not modelled."
  },
  {
   "property": "C70",
   "status": "partial",
   "theorems": [
    "C70_knots",
    "C70_grow",
    "C70_copy_stages",
    "C70_rotate",
    "C70_cycle",
    "C70_param",
    "C70_move_stages_refuted",
    "C70_steal_refuted",
    "C70_moved_refuted",
    "C70_uninit_refuted"
   ],
   "note": "Proved for all operations whose sources hold a value, with moves that name an allocator within one resource (as growing vectors do). The last sentence of the statement fails: moving the stages between resources loses the buffers (C70_move_stages_refuted), a moved-from knot keeps its dimensions without matrices (C70_moved_refuted). Also refuted: the documented stealing of move assignment, which copies (C70_steal_refuted), and addParameterization on a knot made from an allocator only, whose dimensions have no value (C70_uninit_refuted). G0, g0 and the constructors of LqrProblem around the vector are not modelled; allocators do not fail."
  },
  {
   "property": "C71",
   "status": "partial",
   "theorems": [
    "C71_sessions_partial",
    "C71_cycle_refuted",
    "C71_horizon_refuted",
    "C71_controls_refuted",
    "C71_cycle_buffers"
   ],
   "note": "Proved for every horizon N >= 1 and every sequence in which the appended knots have the dimensions of the knot that leaves and the first state keeps its dimension. That condition is exact: otherwise backward fails after cycleAppend, because the stage factors and kkt0 are not resized (C71_cycle_refuted). Also refuted: N = 0, where the index wraps (C71_horizon_refuted), and N vectors of controls, which the assert admits, with a terminal knot that has controls (C71_controls_refuted). Sizes only; the values are C23."
  },
  {
   "property": "C72",
   "status": "partial",
   "theorems": [
    "C72_construct_partial",
    "C72_knots",
    "C72_cycles",
    "C72_threads_refuted",
    "C72_reuse_refuted",
    "C72_again"
   ],
   "note": "Proved for 2 <= threads <= stages, as long as threads * stages fits in 32 bits. With more threads than stages the constructor reads stages[4294967295] (C72_threads_refuted). A second solver constructed with fewer threads on a problem that already belongs to a solver keeps the parameters of the first in its last leg, since only cycleAppend clears them (C72_reuse_refuted; with as many or more threads nothing is kept, C72_again). Sizes only; whether rhsDims_ fits the blocks written is C24."
  }
 ]
}