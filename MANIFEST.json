{
 "claims": [
  {
   "property": "C01",
   "status": "proved",
   "theorems": [
    "C01_matrix_is_a_table"
   ],
   "note": "Every number format, debug and release builds, every finite history."
  },
  {
   "property": "C02",
   "status": "proved",
   "theorems": [
    "C02_initialize_value",
    "C02_initialize_zero"
   ],
   "note": "From every reachable store."
  },
  {
   "property": "C03",
   "status": "proved",
   "theorems": [
    "C03_multiply",
    "C03_transpose_multiply",
    "C03_transpose",
    "C03_multiply_every_arithmetic"
   ],
   "note": "Exact reals for the mathematical product; for every arithmetic the exact order of evaluation."
  },
  {
   "property": "C04",
   "status": "proved",
   "theorems": [
    "C04_elementwise",
    "C04_accumulate",
    "C04_scaling"
   ],
   "note": "Every number format, every aliasing pattern."
  },
  {
   "property": "C05",
   "status": "partial",
   "theorems": [
    "C05_multiply_into_operand_refuted"
   ],
   "note": "False of the code: a 2x2 product into its own operand is wrong."
  },
  {
   "property": "C06",
   "status": "partial",
   "theorems": [
    "C06_equals_partial",
    "C06_equals_nan_refuted"
   ],
   "note": "True over the reals; false in IEEE arithmetic: equals accepts NaN."
  },
  {
   "property": "C07",
   "status": "partial",
   "theorems": [
    "C07_dot_partial",
    "C07_magnitude_partial",
    "C07_dot_after_swap_refuted",
    "C07_dot_after_swap_out_of_bounds"
   ],
   "note": "True when no rows were swapped since the storage was laid out; after fastRowSwap wrong, or out of bounds."
  },
  {
   "property": "C08",
   "status": "partial",
   "theorems": [
    "C08_load_partial",
    "C08_load_after_swap_refuted"
   ],
   "note": "True when no rows were swapped; false after fastRowSwap."
  },
  {
   "property": "C09",
   "status": "proved",
   "theorems": [
    "C09_expand"
   ],
   "note": "Every number format, stride, entry count and size."
  },
  {
   "property": "C10",
   "status": "proved",
   "theorems": [
    "C10_sparse_times_dense"
   ],
   "note": "Exact reals; D is the table of C09."
  },
  {
   "property": "C11",
   "status": "proved",
   "theorems": [
    "C11_sparse_times_transposed"
   ],
   "note": "Exact reals."
  },
  {
   "property": "C12",
   "status": "proved",
   "theorems": [
    "C12_sparse_transpose_times_vector"
   ],
   "note": "Exact reals."
  },
  {
   "property": "C13",
   "status": "proved",
   "theorems": [
    "C13_sparse_scaling"
   ],
   "note": "Target object distinct from the operand."
  },
  {
   "property": "C14",
   "status": "proved",
   "theorems": [
    "C14_expand_determined",
    "C14_multiply_determined",
    "C14_multiply_transpose_determined",
    "C14_transpose_vector_determined",
    "C14_scaling_determined"
   ],
   "note": "Every number format; covers fresh, stale and larger storage."
  },
  {
   "property": "C15",
   "status": "partial",
   "theorems": [
    "C15_reuse_after_destroy_refuted",
    "C15_reuse_after_destroy_ub",
    "C15_reuse_after_destroy_partial"
   ],
   "note": "False of the code: destroy() keeps the capacity, so re-initialising to a height within it is undefined behaviour."
  },
  {
   "property": "C16",
   "status": "partial",
   "theorems": [
    "C16_repeated_block_refuted",
    "C16_products_add_repeated_blocks_partial",
    "C16_product_transposed_adds_repeated_blocks_partial"
   ],
   "note": "False of the code: expand overwrites while the products add; the products agree with the summed table."
  },
  {
   "property": "C17",
   "status": "proved",
   "theorems": [
    "C17_elimination_solves"
   ],
   "note": "Exact reals, debug and release. With no constraints solve returns true without touching the result (see C19)."
  },
  {
   "property": "C18",
   "status": "partial",
   "theorems": [
    "C18_elimination_unsolvable_partial",
    "C18_elimination_unsolvable_refuted"
   ],
   "note": "Debug builds, exact arithmetic: an assertion fires on every singular system. False of release builds: 0*x = 1 is reported solved."
  },
  {
   "property": "C19",
   "status": "partial",
   "theorems": [
    "C19_elimination_forgets_partial",
    "C19_elimination_forgets_refuted"
   ],
   "note": "Every number format, at least one constraint. False with no constraints: the old result survives."
  },
  {
   "property": "C20",
   "status": "proved",
   "theorems": [
    "C20_limits_respected"
   ],
   "note": "Binary64 with NaN and infinities."
  },
  {
   "property": "C21",
   "status": "proved",
   "theorems": [
    "C21_stationary_solves",
    "C21_stationary_solves_without_limits"
   ],
   "note": "Exact reals; stationary iff solution."
  },
  {
   "property": "C22",
   "status": "proved",
   "theorems": [
    "C22_sweep_lowers_energy"
   ],
   "note": "Exact reals."
  },
  {
   "property": "C23",
   "status": "proved",
   "theorems": [
    "C23_limited_converges"
   ],
   "note": "Exact reals; one iteration bound for all starting points."
  },
  {
   "property": "C24",
   "status": "partial",
   "theorems": [
    "C24_success_small_change_partial",
    "C24_success_small_change_refuted"
   ],
   "note": "True of solveWithLimits (exact reals). False of solve: its convergence test has no absolute value around the difference."
  },
  {
   "property": "C25",
   "status": "proved",
   "theorems": [
    "C25_success_small_residual"
   ],
   "note": "Exact reals."
  },
  {
   "property": "C26",
   "status": "proved",
   "theorems": [
    "C26_finishes_in_n_iterations"
   ],
   "note": "Exact reals; tolerances may have any sign."
  },
  {
   "property": "C27",
   "status": "partial",
   "theorems": [
    "C27_success_finite_refuted"
   ],
   "note": "False of the code: with J = 0 the step is infinite and NaN residuals pass the test."
  },
  {
   "property": "C28",
   "status": "proved",
   "theorems": [
    "C28_elimination_safe",
    "C28_gauss_seidel_safe",
    "C28_limited_gauss_seidel_safe",
    "C28_conjugate_gradient_safe"
   ],
   "note": "Every number format with total division (IEEE included), determinate inputs; indeterminate starts are C29."
  },
  {
   "property": "C29",
   "status": "partial",
   "theorems": [
    "C29_determined_partial",
    "C29_determined_refuted",
    "C29_limited_determined"
   ],
   "note": "False of the code on a fresh result: indeterminate values are compared. True for determinate starts and for solveWithLimits."
  },
  {
   "property": "C33",
   "status": "proved",
   "theorems": [
    "C33_transforms",
    "C33_state_agrees"
   ],
   "note": "Exact reals; the agreement of the two classes in every number format."
  },
  {
   "property": "C34",
   "status": "proved",
   "theorems": [
    "C34_velocity_at_point"
   ],
   "note": "Exact reals, derivatives as derivable_pt_lim."
  },
  {
   "property": "C35",
   "status": "proved",
   "theorems": [
    "C35_generalised_force",
    "C35_touches_only_its_body",
    "C35_defined"
   ],
   "note": "Values and power in exact reals; frame and definedness in every number format."
  },
  {
   "property": "C36",
   "status": "proved",
   "theorems": [
    "C36_energy",
    "C36_energy_depends"
   ],
   "note": "Exact reals; dependence in every number format."
  },
  {
   "property": "C37",
   "status": "partial",
   "theorems": [
    "C37_copy_partial",
    "C37_copy_overreads",
    "C37_copy_refuted"
   ],
   "note": "False of the code: copying into a larger destination reads past the source, a source without bodies loses its constraint arrays. Proved for the other sizes."
  },
  {
   "property": "C38",
   "status": "proved",
   "theorems": [
    "C38_resize_room",
    "C38_room_reported"
   ],
   "note": "Every number format, all histories."
  },
  {
   "property": "C39",
   "status": "proved",
   "theorems": [
    "C39_euler"
   ],
   "note": "Every number format."
  },
  {
   "property": "C40",
   "status": "proved",
   "theorems": [
    "C40_nsv",
    "C40_nsv_closed_form"
   ],
   "note": "One step in every number format; k steps in exact reals."
  },
  {
   "property": "C41",
   "status": "proved",
   "theorems": [
    "C41_fourth_step",
    "C41_never_without_start",
    "C41_driver_ends"
   ],
   "note": "Every number format. The driver theorem is for at least one body."
  },
  {
   "property": "C42",
   "status": "proved",
   "theorems": [
    "C42_constant_acceleration"
   ],
   "note": "Exact reals, any list of step sizes."
  },
  {
   "property": "C43",
   "status": "partial",
   "theorems": [
    "C43_classical_partial",
    "C43_coded_method",
    "C43_classical_refuted"
   ],
   "note": "False of the code: stage positions use the stage velocities. Proved for accelerations depending on velocities only; the implemented method is stated and proved in full."
  },
  {
   "property": "C44",
   "status": "proved",
   "theorems": [
    "C44_gravity"
   ],
   "note": "Every number format."
  },
  {
   "property": "C45",
   "status": "proved",
   "theorems": [
    "C45_third_law"
   ],
   "note": "Exact reals; the floating-point version is C75."
  },
  {
   "property": "C46",
   "status": "proved",
   "theorems": [
    "C46_central",
    "C46_conservative"
   ],
   "note": "Exact reals, derivatives as derivable_pt_lim."
  },
  {
   "property": "C47",
   "status": "proved",
   "theorems": [
    "C47_damping"
   ],
   "note": "Exact reals."
  },
  {
   "property": "C48",
   "status": "partial",
   "theorems": [
    "C48_no_net_torque_partial",
    "C48_no_net_torque_refuted"
   ],
   "note": "False of the code: damping acts along the relative velocity, not along the spring. Proved where the ends move along the spring."
  },
  {
   "property": "C49",
   "status": "partial",
   "theorems": [
    "C49_outside_refuted"
   ],
   "note": "False of the code in every case: applyForce writes at index -1."
  },
  {
   "property": "C50",
   "status": "partial",
   "theorems": [
    "C50_limit",
    "C50_drives_partial",
    "C50_drives_refuted"
   ],
   "note": "Limit and reaction proved in binary64 for every input. The torque points towards the set speed where the damping term is zero, otherwise not always."
  },
  {
   "property": "C51",
   "status": "proved",
   "theorems": [
    "C51_fresh",
    "C51_reset"
   ],
   "note": "Every number format, any generators including user-defined ones."
  },
  {
   "property": "C52",
   "status": "proved",
   "theorems": [
    "C52_partial_derivatives",
    "C52_along_motions"
   ],
   "note": "Exact reals, derivatives as derivable_pt_lim."
  },
  {
   "property": "C53",
   "status": "proved",
   "theorems": [
    "C53_jacobian_rate"
   ],
   "note": "Exact reals, all nine classes."
  },
  {
   "property": "C54",
   "status": "proved",
   "theorems": [
    "C54_geometry"
   ],
   "note": "Exact reals; a line needs a direction, the rolling surface a unit direction."
  },
  {
   "property": "C55",
   "status": "partial",
   "theorems": [
    "C55_no_slip_partial",
    "C55_no_slip_refuted"
   ],
   "note": "False of the code: the contact point moves with (1 - radius^2) times the centre velocity, proved for every radius; at rest for radius 1 only."
  },
  {
   "property": "C56",
   "status": "partial",
   "theorems": [
    "C56_own_output_partial",
    "C56_limits_partial",
    "C56_base_refuted",
    "C56_limits_refuted"
   ],
   "note": "Proved for the nine constraint classes in every number format, limits in order if the user gave them in order. The base class writes nothing and crossed limits are passed on."
  },
  {
   "property": "C57",
   "status": "proved",
   "theorems": [
    "C57_link_forces"
   ],
   "note": "Exact reals."
  },
  {
   "property": "C74",
   "status": "proved",
   "theorems": [
    "C74_static_force",
    "C74_static_outside"
   ],
   "note": "Values in exact reals; the undefined cases in every number format."
  },
  {
   "property": "C75",
   "status": "proved",
   "theorems": [
    "C75_float_third_law"
   ],
   "note": "Binary64 with arbitrary sine and cosine functions."
  },
  {
   "property": "C76",
   "status": "proved",
   "theorems": [
    "C76_rotational"
   ],
   "note": "Exact reals."
  },
  {
   "property": "C30",
   "status": "proved",
   "theorems": [
    "C30_bodies"
   ],
   "note": "Every number format, both system classes, all histories."
  },
  {
   "property": "C31",
   "status": "proved",
   "theorems": [
    "C31_constraints",
    "C31_generators"
   ],
   "note": "Every number format, both system classes, all histories."
  },
  {
   "property": "C32",
   "status": "partial",
   "theorems": [
    "C32_removed_refuted",
    "C32_removed_acts_refuted"
   ],
   "note": "False of the code in every case: removeRigidBody does not reset the index."
  },
  {
   "property": "C70",
   "status": "proved",
   "theorems": [
    "C70_elapsed",
    "C70_profiling"
   ],
   "note": "Every number format. Only the optimized class has timeElapsed; the averages are the pair sum and number of samples."
  },
  {
   "property": "C73",
   "status": "proved",
   "theorems": [
    "C73_only_motion"
   ],
   "note": "Every number format, both system classes."
  },
  {
   "property": "C60",
   "status": "proved",
   "theorems": [
    "C60_free_bodies",
    "C60_step",
    "C60_fourth_order"
   ],
   "note": "Every number format for any number of steps, exact reals for the closed form of one step of the symplectic and the Euler solver; C60_fourth_order has the four stages of the Runge-Kutta solver."
  },
  {
   "property": "C61",
   "status": "proved",
   "theorems": [
    "C61_reported",
    "C61_rows"
   ],
   "note": "Every number format, any number of steps. C61_rows: the forces are multipliers times the rows of J."
  },
  {
   "property": "C62",
   "status": "partial",
   "theorems": [
    "C62_reported_partial",
    "C62_reported_refuted"
   ],
   "note": "False of the code: every slot of row r reports what row r/2, slot r mod 2 got. That rule is proved for every number format."
  },
  {
   "property": "C58",
   "status": "proved",
   "theorems": [
    "C58_velocities"
   ],
   "note": "Exact reals. Any constraints, built-in or user-defined, described by what calculate answers."
  },
  {
   "property": "C59",
   "status": "proved",
   "theorems": [
    "C59_step",
    "C59_fourth_order"
   ],
   "note": "Exact reals. C59_step: the symplectic and the Euler solver; C59_fourth_order: every stage of the Runge-Kutta solver, which must have served this system only (C79)."
  },
  {
   "property": "C77",
   "status": "proved",
   "theorems": [
    "C77_geometry"
   ],
   "note": "Exact reals."
  },
  {
   "property": "C63",
   "status": "proved",
   "theorems": [
    "C63_impulses",
    "C63_limits",
    "C63_step",
    "C63_neutral"
   ],
   "note": "At most 255 bodies (C66), at least one iteration allowed, positive dt. In every number format the impulse is clamped to limit * dt; in binary64 the force, impulse / dt, is rounded once more. C63_step and C63_neutral: release build, exact reals, and the call is shown to succeed."
  },
  {
   "property": "C64",
   "status": "partial",
   "theorems": [
    "C64_refuted"
   ],
   "note": "False: a clutch limited to 5 carries 15 with Gaussian elimination."
  },
  {
   "property": "C65",
   "status": "partial",
   "theorems": [
    "C65_reversed",
    "C65_refuted"
   ],
   "note": "False: the sign of the bias is wrong, proved for every system in exact reals; the generic class ignores the speed."
  },
  {
   "property": "C66",
   "status": "partial",
   "theorems": [
    "C66_refuted"
   ],
   "note": "False: block numbers are bytes, so constraints on body 256 read body 0. C58 proves it for at most 255 bodies."
  },
  {
   "property": "C67",
   "status": "partial",
   "theorems": [
    "C67_absent",
    "C67_refuted"
   ],
   "note": "False: the reaction is added at index -1, undefined in both classes and builds. C67_absent, every number format: no such call ends normally."
  },
  {
   "property": "C68",
   "status": "partial",
   "theorems": [
    "C68_none_partial",
    "C68_first_partial",
    "C68_balks_refuted",
    "C68_first_refuted"
   ],
   "note": "Every number format, both classes. Remaining constraints: C58 and C63 hold after any history. None: proved where the solver copes; elimination after a removal and conjugate gradient before the first constraint stop at an assertion in debug builds, always."
  },
  {
   "property": "C69",
   "status": "partial",
   "theorems": [
    "C69_optimized",
    "C69_solvers",
    "C69_generic_refuted"
   ],
   "note": "True of the optimized class and the solvers; the generic class stops at an assertion in debug builds after any call of process, and only then."
  },
  {
   "property": "C71",
   "status": "partial",
   "theorems": [
    "C71_substeps",
    "C71_substeps_real",
    "C71_substeps_double",
    "C71_refuted"
   ],
   "note": "False with a speed motor. Proved otherwise, for the reals, for binary64 with any sine and cosine, and in every number format where h / 1 = h, both classes and all four integrators; user code must not look at accelerations."
  },
  {
   "property": "C72",
   "status": "proved",
   "theorems": [
    "C72_conserved",
    "C72_forces",
    "C72_fourth_order",
    "C72_fourth_order_conserved"
   ],
   "note": "Exact reals. Both classes, any number of sub-steps, any supplied solver and integrator, all constraint classes that do not hold on to the world; C72_forces and C72_fourth_order add gravity and static forces."
  },
  {
   "property": "C78",
   "status": "proved",
   "theorems": [
    "C78_angular",
    "C78_conserved"
   ],
   "note": "C78_angular: optimized class, with the multipliers it reports. C78_conserved: both classes, symplectic integrator."
  },
  {
   "property": "C79",
   "status": "proved",
   "theorems": [
    "C79_own_solver",
    "C79_shared_refuted",
    "C79_skipped_refuted"
   ],
   "note": "Every number format. Without the two conditions it is false: C79_shared_refuted and C79_skipped_refuted show reads beyond the arrays."
  },
  {
   "property": "C80",
   "status": "proved",
   "theorems": [
    "C80_entries_are_a_table"
   ],
   "note": "Every number format. destroy is C15; resize and the scalings are not part of the histories."
  },
  {
   "property": "C81",
   "status": "proved",
   "theorems": [
    "C81_velocities",
    "C81_accelerations"
   ],
   "note": "Exact reals, Gaussian elimination. Any constraints and generators that keep to the rules stated with C58, not only the supplied ones."
  },
  {
   "property": "C82",
   "status": "proved",
   "theorems": [
    "C82_balance",
    "C82_taken",
    "C82_free"
   ],
   "note": "Exact reals, Gaussian elimination, optimized class."
  },
  {
   "property": "C83",
   "status": "proved",
   "theorems": [
    "C83_part"
   ],
   "note": "Exact reals, Gaussian elimination, one step in each call, Euler solvers in the generic class; no motors. The calls must not meet singular rows."
  },
  {
   "property": "C84",
   "status": "proved",
   "theorems": [
    "C84_order"
   ],
   "note": "As C83."
  },
  {
   "property": "C85",
   "status": "proved",
   "theorems": [
    "C85_shift"
   ],
   "note": "As C83."
  },
  {
   "property": "C86",
   "status": "partial",
   "theorems": [
    "C86_turning_partial",
    "C86_turning_refuted"
   ],
   "note": "False of the code: the exact slip is proved for every radius and motion; it is zero only for radius 1 on a base that does not turn (or when the two errors cancel)."
  },
  {
   "property": "C87",
   "status": "partial",
   "theorems": [
    "C87_angle_partial",
    "C87_wheel_refuted"
   ],
   "note": "Conditions as C83, positive masses. Proved for both classes without wheels, and with wheels in the generic class. False of the code for wheels in the optimized class: turning the scene by a full circle changes its motion."
  },
  {
   "property": "C88",
   "status": "proved",
   "theorems": [
    "C88_call",
    "C88_calls",
    "C88_direct",
    "C88_turns",
    "C88_integrator"
   ],
   "note": "Every number format. Systems whose constraints are bound to bodies in them; each system has bodies and constraints of its own. A shared Runge-Kutta solver is C79."
  },
  {
   "property": "C89",
   "status": "proved",
   "theorems": [
    "C89_step",
    "C89_calls",
    "C89_settles",
    "C89_exact"
   ],
   "note": "Exact reals, Gaussian elimination, optimized class, one step in each call. Not the rolling constraint, whose first row is wrong (C55, C86). The angular velocities after each call are assumed bounded; for finitely many calls there is always a bound (C89_example)."
  },
  {
   "property": "C90",
   "status": "partial",
   "theorems": [
    "C90_units_partial",
    "C90_wheel_refuted",
    "C90_spring_refuted"
   ],
   "note": "Exact reals, Gaussian elimination, both classes, positive masses, rows that stay non-singular. Units of mass and time: proved without further conditions. Unit of length: proved without wheels and with springs that stay at least 1/100 long in both units; false of the code otherwise, as row 0 of the rolling constraint adds an angle to a product of two lengths and springs below the fixed length 0.01 do not push."
  },
  {
   "property": "C91",
   "status": "proved",
   "theorems": [
    "C91_mirror"
   ],
   "note": "Exact reals, Gaussian elimination, both classes, positive masses, rows that stay non-singular. The mirror exchanges left and right, so gravity stays."
  },
  {
   "property": "C92",
   "status": "partial",
   "theorems": [
    "C92_process_partial",
    "C92_calls_partial",
    "C92_binary64_partial",
    "C92_gauss_seidel_refuted",
    "C92_gradients_refuted"
   ],
   "note": "Every number format with total operations, every history. Proved for Gaussian elimination in both classes, Gauss-Seidel in the optimized class and, with assertions, conjugate gradients; Runge-Kutta solvers that serve one system (C79), at most 255 bodies. False of the code for Gauss-Seidel in the generic class and, without assertions, for conjugate gradients that do not converge. With assertions a call may stop at one."
  },
  {
   "property": "C93",
   "status": "partial",
   "theorems": [
    "C93_fits_partial",
    "C93_rejects_partial",
    "C93_classes_partial",
    "C93_release_refuted"
   ],
   "note": "Proved with assertions. Without them a larger constraint is accepted and a call goes out of the bounds of its arrays."
  },
  {
   "property": "C94",
   "status": "proved",
   "theorems": [
    "C94_rest",
    "C94_only"
   ],
   "note": "Exact reals, Gaussian elimination, both classes with the Euler solvers, one step in each call, non-singular rows, no motors."
  },
  {
   "property": "C95",
   "status": "partial",
   "theorems": [
    "C95_no_steps",
    "C95_no_time_partial",
    "C95_no_time_refuted"
   ],
   "note": "No sub-steps: proved in every number format. Length zero: proved for the generic class in exact reals with Gaussian elimination; false of the optimized class, which divides by the length and leaves every body at positions that are not a number."
  },
  {
   "property": "C96",
   "status": "proved",
   "theorems": [
    "C96_process",
    "C96_calls"
   ],
   "note": "Binary64 with any sine and cosine, both classes, all supplied integrators. C96_process includes indeterminate values among those that are not finite; C96_calls excludes them."
  },
  {
   "property": "C97",
   "status": "partial",
   "theorems": [
    "C97_elimination_refuted",
    "C97_stops_refuted",
    "C97_gradients_refuted"
   ],
   "note": "False in binary64: elimination carries a value that is not a number from one group of bodies to all others, and the sums of conjugate gradients mix the groups. In exact reals with elimination it is C83; free bodies are C60."
  },
  {
   "property": "C98",
   "status": "proved",
   "theorems": [
    "C98_exact"
   ],
   "note": "Exact reals, optimized class, at least 2 iterations and a positive tolerance; both builds. Coupled rows are C63, C64."
  },
  {
   "property": "C99",
   "status": "proved",
   "theorems": [
    "C99_slows"
   ],
   "note": "Exact reals, optimized class with Gauss-Seidel and uncoupled rows; limits with min <= 0 <= max."
  },
  {
   "property": "C100",
   "status": "proved",
   "theorems": [
    "C100_flight",
    "C100_parabola",
    "C100_gravity"
   ],
   "note": "Exact reals, both classes and all supplied integrators; C100_gravity shows that gravity is a steady force."
  },
  {
   "property": "C101",
   "status": "proved",
   "theorems": [
    "C101_springs"
   ],
   "note": "Exact reals, generic class, Gaussian elimination, Euler or symplectic Euler; the fourth-order solver is C59_fourth_order."
  },
  {
   "property": "C102",
   "status": "proved",
   "theorems": [
    "C102_calls",
    "C102_undamped"
   ],
   "note": "Exact reals, generic class, Gaussian elimination; constraints whose held points are the centres of their bodies, and rotations."
  },
  {
   "property": "C103",
   "status": "proved",
   "theorems": [
    "C103_dampers"
   ],
   "note": "Exact reals, generic class, Gaussian elimination. For kd dt > 2 the speed grows."
  },
  {
   "property": "C104",
   "status": "proved",
   "theorems": [
    "C104_call",
    "C104_calls"
   ],
   "note": "Exact reals. Both bodies unheld by constraints, or the base in no system; other generators gravity; largest torque not negative."
  },
  {
   "property": "C105",
   "status": "partial",
   "theorems": [
    "C105_reached_partial",
    "C105_steady_partial",
    "C105_power_partial",
    "C105_refuted"
   ],
   "note": "False without a bound on the gain: with ks r dt = 2 the speed swings between zero and twice the set one for ever. Proved for 0 < ks r dt < 2; no overshoot for ks r dt <= 1."
  },
  {
   "property": "C106",
   "status": "partial",
   "theorems": [
    "C106_undamped_partial",
    "C106_refuted"
   ],
   "note": "False: the damping term uses the acceleration of the sub-step before, and with kd r large every other sub-step undoes the one before, so that the bodies never start to turn. Proved without damping, where n sub-steps act as n calls."
  },
  {
   "property": "C107",
   "status": "proved",
   "theorems": [
    "C107_call",
    "C107_calls",
    "C107_gaps",
    "C107_swings",
    "C107_brakes"
   ],
   "note": "Exact reals, Gaussian elimination, Euler or symplectic Euler; independence of the rows is required in every pose. C107_gaps and C107_swings are for constraints that hold centres or angles."
  },
  {
   "property": "C108",
   "status": "proved",
   "theorems": [
    "C108_sound",
    "C108_fine",
    "C108_kept",
    "C108_matrix",
    "C108_sparse",
    "C108_state"
   ],
   "note": "Structural. Arrays are numbered, numbers are not reused, new succeeds. C108_sparse: resizing a destroyed sparse matrix fails in both models (C15)."
  },
  {
   "property": "C109",
   "status": "partial",
   "theorems": [
    "C109_partial",
    "C109_refuted"
   ],
   "note": "False: destroy skips the arrays of the bodies when n = 0 and those of the constraints when n_c = 0, although resize makes arrays of length zero then; each such life loses four arrays (a system without constraints). Proved for sizes above zero."
  },
  {
   "property": "C110",
   "status": "partial",
   "theorems": [
    "C110_partial",
    "C110_generic_refuted",
    "C110_empty_refuted"
   ],
   "note": "False: the destructor of the generic class is empty, so that a release build loses all arrays of its matrices (a debug build fails an assertion, C69); and states lose arrays without elements (C109). Proved for the other classes, up to arrays without elements."
  },
  {
   "property": "C111",
   "status": "partial",
   "theorems": [
    "C111_partial",
    "C111_refuted",
    "C111_state_refuted",
    "C111_system_refuted"
   ],
   "note": "False: the implicit copies share the arrays, which are then freed twice. Proved for objects without arrays."
  },
  {
   "property": "C112",
   "status": "proved",
   "theorems": [
    "C112_settles",
    "C112_exact"
   ],
   "note": "Exact real arithmetic, Gaussian elimination. C112_exact: for any other strengths a body held at an angle, started suitably, stays a fixed distance from rest in every run of calls."
  },
  {
   "property": "C113",
   "status": "proved",
   "theorems": [
    "C113_matrix",
    "C113_sparse",
    "C113_state",
    "C113_exact",
    "C113_exact_sparse"
   ],
   "note": "Between Ints.v (ints, overflow, size_t, refused allocations, no contents) and Matrix.v, Sparse.v, State.v (unbounded sizes, contents). A refused allocation is the only difference."
  },
  {
   "property": "C114",
   "status": "partial",
   "theorems": [
    "C114_negative_refuted",
    "C114_partial"
   ],
   "note": "False: resize(-1, 2) makes row pointers outside the block, initialize(1, -1) a memset of nearly 2^64 bytes, resize(3, -1) leaves a matrix of height -1. C114_partial: two negative sizes allocate nothing and are kept."
  },
  {
   "property": "C115",
   "status": "partial",
   "theorems": [
    "C115_matrix_refuted",
    "C115_sparse_refuted",
    "C115_state_refuted",
    "C115_leak_refuted",
    "C115_partial",
    "C115_state_partial"
   ],
   "note": "False: capacities and counts are set before new, so that later smaller sizes use null pointers; destroy does not help; if the row table is refused the data block is lost. C115_partial and C115_state_partial say exactly which later sizes work."
  },
  {
   "property": "C116",
   "status": "proved",
   "theorems": [
    "C116_limits"
   ],
   "note": "IntSys.v lists the expressions with their lines; loop counters and constant expressions are left out."
  },
  {
   "property": "C117",
   "status": "proved",
   "theorems": [
    "C117_calls"
   ],
   "note": "Real arithmetic, springs at the centres of the bodies."
  },
  {
   "property": "C118",
   "status": "partial",
   "theorems": [
    "C118_partial",
    "C118_refuted"
   ],
   "note": "True in the semi-implicit scheme (C118_partial, which also says what a damper takes); false in the explicit one (C118_refuted)."
  },
  {
   "property": "C119",
   "status": "partial",
   "theorems": [
    "C119_partial",
    "C119_euler_partial",
    "C119_refuted",
    "C119_stiff_refuted"
   ],
   "note": "True in the semi-implicit scheme if K h^2 < 4, with a corrected energy that is kept exactly (C119_partial); false beyond (C119_stiff_refuted) and in the explicit scheme (C119_refuted; by which factor: C119_euler_partial)."
  },
  {
   "property": "C120",
   "status": "partial",
   "theorems": [
    "C120_partial",
    "C120_close_partial",
    "C120_refuted"
   ],
   "note": "True from near the rest length (C120_partial). False in general: ends closer than 1/100 are not pushed at all (C120_close_partial, C120_refuted)."
  },
  {
   "property": "C121",
   "status": "proved",
   "theorems": [
    "C121_tests"
   ],
   "note": "Computed; a check of the model against the tests rather than a general statement."
  },
  {
   "property": "C122",
   "status": "proved",
   "theorems": [
    "C122_tests_pass",
    "C122_rolling"
   ],
   "note": "Real arithmetic. The radius and the direction are arbitrary, so the test cannot see what C55 is about."
  },
  {
   "property": "C123",
   "status": "partial",
   "theorems": [
    "C123_refuted",
    "C123_stride_refuted"
   ],
   "note": "False: the vector scale is never given its data, so that zeros are compared with zeros (witnesses)."
  },
  {
   "property": "C124",
   "status": "proved",
   "theorems": [
    "C124_drivers"
   ],
   "note": "Real arithmetic."
  },
  {
   "property": "C125",
   "status": "proved",
   "theorems": [
    "C125_best_point",
    "C125_no_worse"
   ],
   "note": "Real arithmetic, J W J^T positive definite."
  },
  {
   "property": "C126",
   "status": "proved",
   "theorems": [
    "C126_degree"
   ],
   "note": "Real arithmetic, J W J^T positive definite."
  },
  {
   "property": "C127",
   "status": "proved",
   "theorems": [
    "C127_growth"
   ],
   "note": "Real arithmetic."
  },
  {
   "property": "C128",
   "status": "proved",
   "theorems": [
    "C128_inertia",
    "C128_fourth_order",
    "C128_no_force"
   ],
   "note": "Binary64. The length of a sub-step, a sixth of it for Runge-Kutta, and the inverse mass are to be finite (a mass below 2^-1024 has an infinite inverse)."
  },
  {
   "property": "C129",
   "status": "proved",
   "theorems": [
    "C129_work",
    "C129_fourth_order",
    "C129_calls"
   ],
   "note": "Real arithmetic."
  },
  {
   "property": "C130",
   "status": "proved",
   "theorems": [
    "C130_nearby",
    "C130_distance"
   ],
   "note": "Real arithmetic."
  },
  {
   "property": "C131",
   "status": "proved",
   "theorems": [
    "C131_motion",
    "C131_step",
    "C131_enough",
    "C131_classes"
   ],
   "note": "Real arithmetic. C131_motion and C131_step: debug build, calls that return; the others: both builds, one sub-step, the call succeeds."
  },
  {
   "property": "C132",
   "status": "proved",
   "theorems": [
    "C132_call",
    "C132_calls"
   ],
   "note": "Real arithmetic, Gaussian elimination, the solver used by this system only."
  },
  {
   "property": "C133",
   "status": "proved",
   "theorems": [
    "C133_calls",
    "C133_steady",
    "C133_exponential",
    "C133_reached",
    "C133_calm"
   ],
   "note": "Real arithmetic. C133_calls is for calls that return; that they return in the systems of C132 is C132_calls."
  },
  {
   "property": "C134",
   "status": "proved",
   "theorems": [
    "C134_calls",
    "C134_rest",
    "C134_loses"
   ],
   "note": "Real arithmetic. C134_calls is for calls that return; that they return in the systems of C132 is C132_calls. C134_rest is for bodies that move in line."
  },
  {
   "property": "C135",
   "status": "proved",
   "theorems": [
    "C135_first_order",
    "C135_second_order",
    "C135_not_fourth_order",
    "C135_converges",
    "C135_converges_fourth_order",
    "C135_exact"
   ],
   "note": "Real arithmetic, for calls that return; bodies that move in line and starts that leave room."
  },
  {
   "property": "C136",
   "status": "proved",
   "theorems": [
    "C136_damped",
    "C136_undamped",
    "C136_brakes",
    "C136_converges",
    "C136_exact"
   ],
   "note": "Real arithmetic, Gaussian elimination, one step per call; links and fixed points without arms, as in C102."
  },
  {
   "property": "C137",
   "status": "proved",
   "theorems": [
    "C137_near",
    "C137_converges"
   ],
   "note": "Real arithmetic, for calls that return; bodies that move in line and starts that leave room; C136_exact says what the exact motion is."
  }
 ]
}
