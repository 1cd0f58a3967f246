c('C01', 'proved', 'C01_matrix_is_a_table', 'Every number format, debug and release builds, every finite history.')
c('C02', 'proved', 'C02_initialize_value C02_initialize_zero', 'From every reachable store.')
c('C03', 'proved', 'C03_multiply C03_transpose_multiply C03_transpose C03_multiply_every_arithmetic',
  'Exact reals for the mathematical product; for every arithmetic the exact order of evaluation.')
c('C04', 'proved', 'C04_elementwise C04_accumulate C04_scaling', 'Every number format, every aliasing pattern.')
c('C05', 'partial', 'C05_multiply_into_operand_refuted', 'False of the code: a 2x2 product into its own operand is wrong.')
c('C06', 'partial', 'C06_equals_partial C06_equals_nan_refuted', 'True over the reals; false in IEEE arithmetic: equals accepts NaN.')
c('C07', 'partial', 'C07_dot_partial C07_magnitude_partial C07_dot_after_swap_refuted C07_dot_after_swap_out_of_bounds',
  'True when no rows were swapped since the storage was laid out; after fastRowSwap wrong, or out of bounds.')
c('C08', 'partial', 'C08_load_partial C08_load_after_swap_refuted', 'True when no rows were swapped; false after fastRowSwap.')
c('C09', 'proved', 'C09_expand', 'Every number format, stride, entry count and size.')
c('C10', 'proved', 'C10_sparse_times_dense', 'Exact reals; D is the table of C09.')
c('C11', 'proved', 'C11_sparse_times_transposed', 'Exact reals.')
c('C12', 'proved', 'C12_sparse_transpose_times_vector', 'Exact reals.')
c('C13', 'proved', 'C13_sparse_scaling', 'Target object distinct from the operand.')
c('C14', 'proved', 'C14_expand_determined C14_multiply_determined C14_multiply_transpose_determined C14_transpose_vector_determined C14_scaling_determined',
  'Every number format; covers fresh, stale and larger storage.')
c('C15', 'partial', 'C15_reuse_after_destroy_refuted C15_reuse_after_destroy_ub C15_reuse_after_destroy_partial',
  'False of the code: destroy() keeps the capacity, so re-initialising to a height within it is undefined behaviour.')
c('C16', 'partial', 'C16_repeated_block_refuted C16_products_add_repeated_blocks_partial C16_product_transposed_adds_repeated_blocks_partial',
  'False of the code: expand overwrites while the products add; the products agree with the summed table.')
c('C17', 'proved', 'C17_elimination_solves', 'Exact reals, debug and release. With no constraints solve returns true without touching the result (see C19).')
c('C18', 'partial', 'C18_elimination_unsolvable_partial C18_elimination_unsolvable_refuted',
  'Debug builds, exact arithmetic: an assertion fires on every singular system. False of release builds: 0*x = 1 is reported solved.')
c('C19', 'partial', 'C19_elimination_forgets_partial C19_elimination_forgets_refuted',
  'Every number format, at least one constraint. False with no constraints: the old result survives.')
c('C20', 'proved', 'C20_limits_respected', 'Binary64 with NaN and infinities.')
c('C21', 'proved', 'C21_stationary_solves C21_stationary_solves_without_limits', 'Exact reals; stationary iff solution.')
c('C22', 'proved', 'C22_sweep_lowers_energy', 'Exact reals.')
c('C23', 'proved', 'C23_limited_converges', 'Exact reals; one iteration bound for all starting points.')
c('C24', 'partial', 'C24_success_small_change_partial C24_success_small_change_refuted',
  'True of solveWithLimits (exact reals). False of solve: its convergence test has no absolute value around the difference.')
c('C25', 'proved', 'C25_success_small_residual', 'Exact reals.')
c('C26', 'proved', 'C26_finishes_in_n_iterations', 'Exact reals; tolerances may have any sign.')
c('C27', 'partial', 'C27_success_finite_refuted', 'False of the code: with J = 0 the step is infinite and NaN residuals pass the test.')
c('C28', 'proved', 'C28_elimination_safe C28_gauss_seidel_safe C28_limited_gauss_seidel_safe C28_conjugate_gradient_safe',
  'Every number format with total division (IEEE included), determinate inputs; indeterminate starts are C29.')
c('C29', 'partial', 'C29_determined_partial C29_determined_refuted C29_limited_determined',
  'False of the code on a fresh result: indeterminate values are compared. True for determinate starts and for solveWithLimits.')
c('C33', 'proved', 'C33_transforms C33_state_agrees', 'Exact reals; the agreement of the two classes in every number format.')
c('C34', 'proved', 'C34_velocity_at_point', 'Exact reals, derivatives as derivable_pt_lim.')
c('C35', 'proved', 'C35_generalised_force C35_touches_only_its_body C35_defined',
  'Values and power in exact reals; frame and definedness in every number format.')
c('C36', 'proved', 'C36_energy C36_energy_depends', 'Exact reals; dependence in every number format.')
c('C37', 'partial', 'C37_copy_partial C37_copy_overreads C37_copy_refuted',
  'False of the code: copying into a larger destination reads past the source, a source without bodies loses its constraint arrays. Proved for the other sizes.')
c('C38', 'proved', 'C38_resize_room C38_room_reported', 'Every number format, all histories.')
c('C39', 'proved', 'C39_euler', 'Every number format.')
c('C40', 'proved', 'C40_nsv C40_nsv_closed_form', 'One step in every number format; k steps in exact reals.')
c('C41', 'proved', 'C41_fourth_step C41_never_without_start C41_driver_ends', 'Every number format. The driver theorem is for at least one body.')
c('C42', 'proved', 'C42_constant_acceleration', 'Exact reals, any list of step sizes.')
c('C43', 'partial', 'C43_classical_partial C43_coded_method C43_classical_refuted',
  'False of the code: stage positions use the stage velocities. Proved for accelerations depending on velocities only; the implemented method is stated and proved in full.')
c('C44', 'proved', 'C44_gravity', 'Every number format.')
c('C45', 'proved', 'C45_third_law', 'Exact reals; the floating-point version is C75.')
c('C46', 'proved', 'C46_central C46_conservative', 'Exact reals, derivatives as derivable_pt_lim.')
c('C47', 'proved', 'C47_damping', 'Exact reals.')
c('C48', 'partial', 'C48_no_net_torque_partial C48_no_net_torque_refuted',
  'False of the code: damping acts along the relative velocity, not along the spring. Proved where the ends move along the spring.')
c('C49', 'partial', 'C49_outside_refuted', 'False of the code in every case: applyForce writes at index -1.')
c('C50', 'partial', 'C50_limit C50_drives_partial C50_drives_refuted',
  'Limit and reaction proved in binary64 for every input. The torque points towards the set speed where the damping term is zero, otherwise not always.')
c('C51', 'proved', 'C51_fresh C51_reset', 'Every number format, any generators including user-defined ones.')
c('C52', 'proved', 'C52_partial_derivatives C52_along_motions', 'Exact reals, derivatives as derivable_pt_lim.')
c('C53', 'proved', 'C53_jacobian_rate', 'Exact reals, all nine classes.')
c('C54', 'proved', 'C54_geometry', 'Exact reals; a line needs a direction, the rolling surface a unit direction.')
c('C55', 'partial', 'C55_no_slip_partial C55_no_slip_refuted',
  'False of the code: the contact point moves with (1 - radius^2) times the centre velocity, proved for every radius; at rest for radius 1 only.')
c('C56', 'partial', 'C56_own_output_partial C56_limits_partial C56_base_refuted C56_limits_refuted',
  'Proved for the nine constraint classes in every number format, limits in order if the user gave them in order. The base class writes nothing and crossed limits are passed on.')
c('C57', 'proved', 'C57_link_forces', 'Exact reals.')
c('C74', 'proved', 'C74_static_force C74_static_outside', 'Values in exact reals; the undefined cases in every number format.')
c('C75', 'proved', 'C75_float_third_law', 'Binary64 with arbitrary sine and cosine functions.')
c('C76', 'proved', 'C76_rotational', 'Exact reals.')
c('C30', 'proved', 'C30_bodies', 'Every number format, both system classes, all histories.')
c('C31', 'proved', 'C31_constraints C31_generators', 'Every number format, both system classes, all histories.')
c('C32', 'partial', 'C32_removed_refuted C32_removed_acts_refuted',
  'False of the code in every case: removeRigidBody does not reset the index.')
c('C70', 'proved', 'C70_elapsed C70_profiling', 'Every number format. Only the optimized class has timeElapsed; the averages are the pair sum and number of samples.')
c('C73', 'proved', 'C73_only_motion', 'Every number format, both system classes.')
c('C60', 'proved', 'C60_free_bodies C60_step C60_fourth_order',
  'Every number format for any number of steps, exact reals for the closed form of one step of the symplectic and the Euler solver; C60_fourth_order has the four stages of the Runge-Kutta solver.')
c('C61', 'proved', 'C61_reported C61_rows', 'Every number format, any number of steps. C61_rows: the forces are multipliers times the rows of J.')
c('C62', 'partial', 'C62_reported_partial C62_reported_refuted',
  'False of the code: every slot of row r reports what row r/2, slot r mod 2 got. That rule is proved for every number format.')
c('C58', 'proved', 'C58_velocities', 'Exact reals. Any constraints, built-in or user-defined, described by what calculate answers.')
c('C59', 'proved', 'C59_step C59_fourth_order', 'Exact reals. C59_step: the symplectic and the Euler solver; C59_fourth_order: every stage of the Runge-Kutta solver, which must have served this system only (C79).')
c('C77', 'proved', 'C77_geometry', 'Exact reals.')
c('C63', 'proved', 'C63_impulses C63_limits C63_step C63_neutral',
  'At most 255 bodies (C66), at least one iteration allowed, positive dt. In every number format the impulse is clamped to limit * dt; in binary64 the force, impulse / dt, is rounded once more. C63_step and C63_neutral: release build, exact reals, and the call is shown to succeed.')
c('C64', 'partial', 'C64_refuted', 'False: a clutch limited to 5 carries 15 with Gaussian elimination.')
c('C65', 'partial', 'C65_reversed C65_refuted', 'False: the sign of the bias is wrong, proved for every system in exact reals; the generic class ignores the speed.')
c('C66', 'partial', 'C66_refuted', 'False: block numbers are bytes, so constraints on body 256 read body 0. C58 proves it for at most 255 bodies.')
c('C67', 'partial', 'C67_absent C67_refuted', 'False: the reaction is added at index -1, undefined in both classes and builds. C67_absent, every number format: no such call ends normally.')
c('C68', 'partial', 'C68_none_partial C68_first_partial C68_balks_refuted C68_first_refuted',
  'Every number format, both classes. Remaining constraints: C58 and C63 hold after any history. None: proved where the solver copes; elimination after a removal and conjugate gradient before the first constraint stop at an assertion in debug builds, always.')
c('C69', 'partial', 'C69_optimized C69_solvers C69_generic_refuted', 'True of the optimized class and the solvers; the generic class stops at an assertion in debug builds after any call of process, and only then.')
c('C71', 'partial', 'C71_substeps C71_substeps_real C71_substeps_double C71_refuted',
  'False with a speed motor. Proved otherwise, for the reals, for binary64 with any sine and cosine, and in every number format where h / 1 = h, both classes and all four integrators; user code must not look at accelerations.')
c('C72', 'proved', 'C72_conserved C72_forces C72_fourth_order C72_fourth_order_conserved',
  'Exact reals. Both classes, any number of sub-steps, any supplied solver and integrator, all constraint classes that do not hold on to the world; C72_forces and C72_fourth_order add gravity and static forces.')
c('C78', 'proved', 'C78_angular C78_conserved', 'C78_angular: optimized class, with the multipliers it reports. C78_conserved: both classes, symplectic integrator.')
c('C79', 'proved', 'C79_own_solver C79_shared_refuted C79_skipped_refuted', 'Every number format. Without the two conditions it is false: C79_shared_refuted and C79_skipped_refuted show reads beyond the arrays.')
c('C80', 'proved', 'C80_entries_are_a_table', 'Every number format. destroy is C15; resize and the scalings are not part of the histories.')
c('C81', 'proved', 'C81_velocities C81_accelerations', 'Exact reals, Gaussian elimination. Any constraints and generators that keep to the rules stated with C58, not only the supplied ones.')
c('C82', 'proved', 'C82_balance C82_taken C82_free', 'Exact reals, Gaussian elimination, optimized class.')
c('C83', 'proved', 'C83_part', 'Exact reals, Gaussian elimination, one step in each call, Euler solvers in the generic class; no motors. The calls must not meet singular rows.')
c('C84', 'proved', 'C84_order', 'As C83.')
c('C85', 'proved', 'C85_shift', 'As C83.')
c('C86', 'partial', 'C86_turning_partial C86_turning_refuted', 'False of the code: the exact slip is proved for every radius and motion; it is zero only for radius 1 on a base that does not turn (or when the two errors cancel).')
c('C87', 'partial', 'C87_angle_partial C87_wheel_refuted', 'Conditions as C83, positive masses. Proved for both classes without wheels, and with wheels in the generic class. False of the code for wheels in the optimized class: turning the scene by a full circle changes its motion.')
c('C88', 'proved', 'C88_call C88_calls C88_direct C88_turns C88_integrator', 'Every number format. Systems whose constraints are bound to bodies in them; each system has bodies and constraints of its own. A shared Runge-Kutta solver is C79.')
c('C89', 'proved', 'C89_step C89_calls C89_settles C89_exact', 'Exact reals, Gaussian elimination, optimized class, one step in each call. Not the rolling constraint, whose first row is wrong (C55, C86). The angular velocities after each call are assumed bounded; for finitely many calls there is always a bound (C89_example).')
c('C90', 'partial', 'C90_units_partial C90_wheel_refuted C90_spring_refuted', 'Exact reals, Gaussian elimination, both classes, positive masses, rows that stay non-singular. Units of mass and time: proved without further conditions. Unit of length: proved without wheels and with springs that stay at least 1/100 long in both units; false of the code otherwise, as row 0 of the rolling constraint adds an angle to a product of two lengths and springs below the fixed length 0.01 do not push.')
c('C91', 'proved', 'C91_mirror', 'Exact reals, Gaussian elimination, both classes, positive masses, rows that stay non-singular. The mirror exchanges left and right, so gravity stays.')
c('C92', 'partial', 'C92_process_partial C92_calls_partial C92_binary64_partial C92_gauss_seidel_refuted C92_gradients_refuted', 'Every number format with total operations, every history. Proved for Gaussian elimination in both classes, Gauss-Seidel in the optimized class and, with assertions, conjugate gradients; Runge-Kutta solvers that serve one system (C79), at most 255 bodies. False of the code for Gauss-Seidel in the generic class and, without assertions, for conjugate gradients that do not converge. With assertions a call may stop at one.')
c('C93', 'partial', 'C93_fits_partial C93_rejects_partial C93_classes_partial C93_release_refuted', 'Proved with assertions. Without them a larger constraint is accepted and a call goes out of the bounds of its arrays.')
c('C94', 'proved', 'C94_rest C94_only', 'Exact reals, Gaussian elimination, both classes with the Euler solvers, one step in each call, non-singular rows, no motors.')
c('C95', 'partial', 'C95_no_steps C95_no_time_partial C95_no_time_refuted', 'No sub-steps: proved in every number format. Length zero: proved for the generic class in exact reals with Gaussian elimination; false of the optimized class, which divides by the length and leaves every body at positions that are not a number.')
c('C96', 'proved', 'C96_process C96_calls', 'Binary64 with any sine and cosine, both classes, all supplied integrators. C96_process includes indeterminate values among those that are not finite; C96_calls excludes them.')
c('C97', 'partial', 'C97_elimination_refuted C97_stops_refuted C97_gradients_refuted', 'False in binary64: elimination carries a value that is not a number from one group of bodies to all others, and the sums of conjugate gradients mix the groups. In exact reals with elimination it is C83; free bodies are C60.')
c('C98', 'proved', 'C98_exact', 'Exact reals, optimized class, at least 2 iterations and a positive tolerance; both builds. Coupled rows are C63, C64.')
c('C99', 'proved', 'C99_slows', 'Exact reals, optimized class with Gauss-Seidel and uncoupled rows; limits with min <= 0 <= max.')
c('C100', 'proved', 'C100_flight C100_parabola C100_gravity', 'Exact reals, both classes and all supplied integrators; C100_gravity shows that gravity is a steady force.')
c('C101', 'proved', 'C101_springs', 'Exact reals, generic class, Gaussian elimination, Euler or symplectic Euler; the fourth-order solver is C59_fourth_order.')
c('C102', 'proved', 'C102_calls C102_undamped', 'Exact reals, generic class, Gaussian elimination; constraints whose held points are the centres of their bodies, and rotations.')
c('C103', 'proved', 'C103_dampers', 'Exact reals, generic class, Gaussian elimination. For kd dt > 2 the speed grows.')
c('C104', 'proved', 'C104_call C104_calls', 'Exact reals. Both bodies unheld by constraints, or the base in no system; other generators gravity; largest torque not negative.')
c('C105', 'partial', 'C105_reached_partial C105_steady_partial C105_power_partial C105_refuted', 'False without a bound on the gain: with ks r dt = 2 the speed swings between zero and twice the set one for ever. Proved for 0 < ks r dt < 2; no overshoot for ks r dt <= 1.')
c('C106', 'partial', 'C106_undamped_partial C106_refuted', 'False: the damping term uses the acceleration of the sub-step before, and with kd r large every other sub-step undoes the one before, so that the bodies never start to turn. Proved without damping, where n sub-steps act as n calls.')
c('C107', 'proved', 'C107_call C107_calls C107_gaps C107_swings C107_brakes', 'Exact reals, Gaussian elimination, Euler or symplectic Euler; independence of the rows is required in every pose. C107_gaps and C107_swings are for constraints that hold centres or angles.')
c('C108', 'proved', 'C108_sound C108_fine C108_kept C108_matrix C108_sparse C108_state', 'Structural. Arrays are numbered, numbers are not reused, new succeeds. C108_sparse: resizing a destroyed sparse matrix fails in both models (C15).')
c('C109', 'partial', 'C109_partial C109_refuted', 'False: destroy skips the arrays of the bodies when n = 0 and those of the constraints when n_c = 0, although resize makes arrays of length zero then; each such life loses four arrays (a system without constraints). Proved for sizes above zero.')
c('C110', 'partial', 'C110_partial C110_generic_refuted C110_empty_refuted', 'False: the destructor of the generic class is empty, so that a release build loses all arrays of its matrices (a debug build fails an assertion, C69); and states lose arrays without elements (C109). Proved for the other classes, up to arrays without elements.')
c('C111', 'partial', 'C111_partial C111_refuted C111_state_refuted C111_system_refuted', 'False: the implicit copies share the arrays, which are then freed twice. Proved for objects without arrays.')
c('C112', 'proved', 'C112_settles C112_exact', 'Exact real arithmetic, Gaussian elimination. C112_exact: for any other strengths a body held at an angle, started suitably, stays a fixed distance from rest in every run of calls.')
c('C113', 'proved', 'C113_matrix C113_sparse C113_state C113_exact C113_exact_sparse', 'Between Ints.v (ints, overflow, size_t, refused allocations, no contents) and Matrix.v, Sparse.v, State.v (unbounded sizes, contents). A refused allocation is the only difference.')
c('C114', 'partial', 'C114_negative_refuted C114_partial', 'False: resize(-1, 2) makes row pointers outside the block, initialize(1, -1) a memset of nearly 2^64 bytes, resize(3, -1) leaves a matrix of height -1. C114_partial: two negative sizes allocate nothing and are kept.')
c('C115', 'partial', 'C115_matrix_refuted C115_sparse_refuted C115_state_refuted C115_leak_refuted C115_partial C115_state_partial', 'False: capacities and counts are set before new, so that later smaller sizes use null pointers; destroy does not help; if the row table is refused the data block is lost. C115_partial and C115_state_partial say exactly which later sizes work.')
c('C116', 'proved', 'C116_limits', 'IntSys.v lists the expressions with their lines; loop counters and constant expressions are left out.')
c('C117', 'proved', 'C117_calls', 'Real arithmetic, springs at the centres of the bodies.')
c('C118', 'partial', 'C118_partial C118_refuted', 'True in the semi-implicit scheme (C118_partial, which also says what a damper takes); false in the explicit one (C118_refuted).')
c('C119', 'partial', 'C119_partial C119_euler_partial C119_refuted C119_stiff_refuted', 'True in the semi-implicit scheme if K h^2 < 4, with a corrected energy that is kept exactly (C119_partial); false beyond (C119_stiff_refuted) and in the explicit scheme (C119_refuted; by which factor: C119_euler_partial).')
c('C120', 'partial', 'C120_partial C120_close_partial C120_refuted', 'True from near the rest length (C120_partial). False in general: ends closer than 1/100 are not pushed at all (C120_close_partial, C120_refuted).')
c('C121', 'proved', 'C121_tests', 'Computed; a check of the model against the tests rather than a general statement.')
c('C122', 'proved', 'C122_tests_pass C122_rolling', 'Real arithmetic. The radius and the direction are arbitrary, so the test cannot see what C55 is about.')
c('C123', 'partial', 'C123_refuted C123_stride_refuted', 'False: the vector scale is never given its data, so that zeros are compared with zeros (witnesses).')
c('C124', 'proved', 'C124_drivers', 'Real arithmetic.')
c('C125', 'proved', 'C125_best_point C125_no_worse', 'Real arithmetic, J W J^T positive definite.')
c('C126', 'proved', 'C126_degree', 'Real arithmetic, J W J^T positive definite.')
c('C127', 'proved', 'C127_growth', 'Real arithmetic.')
c('C128', 'proved', 'C128_inertia C128_fourth_order C128_no_force', 'Binary64. The length of a sub-step, a sixth of it for Runge-Kutta, and the inverse mass are to be finite (a mass below 2^-1024 has an infinite inverse).')
c('C129', 'proved', 'C129_work C129_fourth_order C129_calls', 'Real arithmetic.')
c('C130', 'proved', 'C130_nearby C130_distance', 'Real arithmetic.')
c('C131', 'proved', 'C131_motion C131_step C131_enough C131_classes', 'Real arithmetic. C131_motion and C131_step: debug build, calls that return; the others: both builds, one sub-step, the call succeeds.')
c('C132', 'proved', 'C132_call C132_calls', 'Real arithmetic, Gaussian elimination, the solver used by this system only.')
c('C133', 'proved', 'C133_calls C133_steady C133_exponential C133_reached C133_calm', 'Real arithmetic. C133_calls is for calls that return; that they return in the systems of C132 is C132_calls.')
c('C134', 'proved', 'C134_calls C134_rest C134_loses', 'Real arithmetic. C134_calls is for calls that return; that they return in the systems of C132 is C132_calls. C134_rest is for bodies that move in line.')
c('C135', 'proved', 'C135_first_order C135_second_order C135_not_fourth_order C135_converges C135_converges_fourth_order C135_exact', 'Real arithmetic, for calls that return; bodies that move in line and starts that leave room.')
c('C136', 'proved', 'C136_damped C136_undamped C136_brakes C136_converges C136_exact', 'Real arithmetic, Gaussian elimination, one step per call; links and fixed points without arms, as in C102.')
c('C137', 'proved', 'C137_near C137_converges', 'Real arithmetic, for calls that return; bodies that move in line and starts that leave room; C136_exact says what the exact motion is.')
