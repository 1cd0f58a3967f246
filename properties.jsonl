{"id": "C01", "title": "Matrix behaves as a table under every history", "statement": "After any sequence of Matrix calls with in-range arguments (construct, initialize, resize, element set/add, copy from another Matrix, row swap, destroy), get(column,row) returns exactly what an abstract table holding the last written value per (column,row) would return; writing one element changes no other element of that or any other matrix; no call touches memory outside the matrix's own storage.", "quantifier": "every finite sequence of operations, every dimension, every element value, every number format", "why_tests_cant": "the row-pointer/capacity bookkeeping depends on the whole history of sizes and swaps; tests sample a handful of histories", "anchors": ["src/matrix.cpp:resize", "src/matrix.cpp:destroy", "src/matrix.cpp:initialize", "include/matrix.h:set/add/get/fastRowSwap"]}
{"id": "C02", "title": "initialize gives a fresh matrix whatever came before", "statement": "After initialize(w,h,v) the matrix is w by h and every element reads v; after initialize(w,h) every element reads zero; this holds whatever sizes, contents or row swaps the object had before, and on a never-used or destroyed object.", "quantifier": "every prior state reachable through the API and every w,h,v", "why_tests_cant": "stale capacity, stale row pointers and uninitialised storage only show up for particular histories", "anchors": ["src/matrix.cpp:initialize", "src/matrix.cpp:resize"]}
{"id": "C03", "title": "Dense products and transposes are the mathematical ones", "statement": "multiply, transposeMultiply and transpose write into the target, for all operand sizes that match, exactly A*B, A^T*B and A^T (dimensions included), leave the operands unchanged, and do not depend on the target's earlier size or content.", "quantifier": "all dimensions, all real matrices, all prior target states (target distinct from operands)", "why_tests_cant": "index transposition errors vanish on square/symmetric samples; tests use a few literals", "anchors": ["src/matrix.cpp:multiply", "src/matrix.cpp:transposeMultiply", "src/matrix.cpp:transpose"]}
{"id": "C04", "title": "Element-wise operations are correct, also in place", "statement": "add, subtract, scale, negate, componentMultiply, leftScale, rightScale, madd and pmadd produce the element-wise result for every size, also when the target is the object itself or the other same-sized operand.", "quantifier": "all dimensions, values and every aliasing pattern between the operands and the target", "why_tests_cant": "aliasing patterns and sizes are unbounded; tests never alias", "anchors": ["src/matrix.cpp:add", "src/matrix.cpp:subtract", "src/matrix.cpp:scale", "src/matrix.cpp:negate", "src/matrix.cpp:componentMultiply", "src/matrix.cpp:leftScale", "src/matrix.cpp:rightScale", "src/matrix.cpp:madd", "src/matrix.cpp:pmadd"]}
{"id": "C05", "title": "Products into one of their own operands", "statement": "multiply with the target equal to one of the operands yields the product.", "quantifier": "all matrices", "why_tests_cant": "needs a specific aliasing pattern; expected to fail for this code", "anchors": ["src/matrix.cpp:multiply"]}
{"id": "C06", "title": "equals decides closeness", "statement": "equals(b,err) returns true exactly when both matrices have the same dimensions and every pair of elements differs by at most err.", "quantifier": "all matrices and tolerances, including NaN elements in floating point", "why_tests_cant": "special values and positions of the differing element are unbounded", "anchors": ["src/matrix.cpp:equals"]}
{"id": "C07", "title": "dot and squared magnitude", "statement": "dot and vectorMagnitudeSquared of column vectors return the sum of products of corresponding elements; the magnitude is non-negative and zero only for the zero vector.", "quantifier": "all column vectors in every reachable storage layout", "why_tests_cant": "they read through the first row pointer only, so correctness depends on the history of row swaps", "anchors": ["src/matrix.cpp:dot", "src/matrix.cpp:vectorMagnitudeSquared", "include/matrix.h:fastRowSwap"]}
{"id": "C08", "title": "Bulk load is row-major", "statement": "set(const double*) makes element (column,row) equal data[row*width+column].", "quantifier": "all data and every reachable storage layout", "why_tests_cant": "depends on earlier row swaps that same-size resizes do not undo", "anchors": ["src/matrix.cpp:set", "include/matrix.h:fastRowSwap", "src/matrix.cpp:resize"]}
{"id": "C09", "title": "Sparse expand is the table the entries describe", "statement": "expand and expandTransposed give a matrix that is zero except that, for every non-empty entry of a row, the stride consecutive columns of that entry's block carry the entry's values; the two results are transposes of each other.", "quantifier": "all heights, strides, entry counts, block assignments and values", "why_tests_cant": "tests use one stride and a few shapes", "anchors": ["include/sparse_matrix.h:expand", "include/sparse_matrix.h:expandTransposed"]}
{"id": "C10", "title": "Sparse-times-dense equals dense-times-dense", "statement": "multiply(b) equals the product of the expanded matrix with b.", "quantifier": "all sparse matrices with distinct non-empty blocks per row, all b", "why_tests_cant": "exact agreement must hold for every block pattern", "anchors": ["include/sparse_matrix.h:multiply"]}
{"id": "C11", "title": "J*K^T from sparse operands equals the dense product", "statement": "multiplyTranspose(b_T) equals expand() * expand(b_T)^T.", "quantifier": "all pairs of sparse matrices of equal width with distinct non-empty blocks per row", "why_tests_cant": "pairs of block patterns are combinatorial", "anchors": ["include/sparse_matrix.h:multiplyTranspose"]}
{"id": "C12", "title": "Sparse transpose times vector", "statement": "transposeMultiplyVector(b) equals expand()^T * b.", "quantifier": "all sparse matrices with distinct non-empty blocks per row, all b", "why_tests_cant": "block patterns are combinatorial", "anchors": ["include/sparse_matrix.h:transposeMultiplyVector"]}
{"id": "C13", "title": "Sparse scaling", "statement": "leftScale/rightScale produce a sparse matrix whose expansion is diag(s)*expand() and expand()*diag(s), with the same empty entries, whatever the target held before.", "quantifier": "all sparse matrices, scale vectors and prior target states", "why_tests_cant": "stale target content shows only after particular histories", "anchors": ["include/sparse_matrix.h:leftScale", "include/sparse_matrix.h:rightScale"]}
{"id": "C14", "title": "Sparse reads never see stale or uninitialised storage", "statement": "After initialize and setting the values of the entries that were given a block, every product, scaling and expansion is determined by those values only: empty entries never contribute, whatever the storage held before.", "quantifier": "all histories of the object's storage, including freshly allocated memory", "why_tests_cant": "uninitialised memory is usually zero in tests", "anchors": ["include/sparse_matrix.h:initialize", "include/sparse_matrix.h:multiply", "include/sparse_matrix.h:multiplyTranspose", "include/sparse_matrix.h:transposeMultiplyVector", "include/sparse_matrix.h:expand"]}
{"id": "C15", "title": "Sparse matrix is reusable after destroy", "statement": "After destroy() a sparse matrix can be initialized to any size and used again.", "quantifier": "all sizes before and after", "why_tests_cant": "depends on the relation between the old capacity and the new height; expected to fail", "anchors": ["include/sparse_matrix.h:destroy", "include/sparse_matrix.h:resize"]}
{"id": "C16", "title": "Sparse operations agree with expand for any block pattern", "statement": "The agreement of C10-C12 with the dense expansion also holds when a row names the same block in two entries (a constraint between a body and itself).", "quantifier": "all block patterns", "why_tests_cant": "expected to fail: expand overwrites, products add", "anchors": ["include/sparse_matrix.h:expand", "include/sparse_matrix.h:multiply"]}
{"id": "C17", "title": "Gaussian elimination solves every non-singular system", "statement": "For every J, W, right for which J*diag(W)*J^T is non-singular, solve returns true without assertion failure or undefined behaviour and the result x satisfies J*diag(W)*J^T*x = right exactly (exact arithmetic).", "quantifier": "all numbers of constraints and bodies, all J, W, right with non-singular system matrix", "why_tests_cant": "pivoting paths and sizes are unbounded", "anchors": ["src/gaussian_elimination_sle_solver.cpp:solve"]}
{"id": "C18", "title": "Gaussian elimination does not report success on an unsolvable system", "statement": "If J*diag(W)*J^T*x = right has no solution, solve does not return true.", "quantifier": "all singular systems, debug and release builds", "why_tests_cant": "rank-deficient patterns; behaviour differs between builds; expected to fail in release builds", "anchors": ["src/gaussian_elimination_sle_solver.cpp:solve"]}
{"id": "C19", "title": "Gaussian elimination forgets its history", "statement": "The result of solve depends only on J, W and right: not on earlier solves by the same solver object, nor on the previous content of the result or previous argument.", "quantifier": "all histories of the solver object", "why_tests_cant": "internal row permutation and capacity survive between calls", "anchors": ["src/gaussian_elimination_sle_solver.cpp:solve"]}
{"id": "C20", "title": "Limited Gauss-Seidel stays inside the limits", "statement": "After solveWithLimits (at least one iteration) every component of the result lies between its two limits, for every floating-point input including infinities and NaN, provided the limits are ordered.", "quantifier": "all IEEE-754 inputs, all sizes", "why_tests_cant": "NaN/inf propagation paths are not sampled by tests", "anchors": ["src/gauss_seidel_sle_solver.cpp:solveIteration"]}
{"id": "C21", "title": "A stationary Gauss-Seidel result is the constrained solution", "statement": "If a sweep leaves the vector unchanged then the vector solves the system with limits: each component is within limits, and its residual is zero, or points outward at the limit it sits on; without limits it solves the linear system.", "quantifier": "all matrices with positive diagonal, all limits", "why_tests_cant": "needs reasoning over all fixed points", "anchors": ["src/gauss_seidel_sle_solver.cpp:solveIteration"]}
{"id": "C22", "title": "A Gauss-Seidel sweep never increases the energy", "statement": "For a symmetric matrix with positive diagonal, one limited sweep started inside the limits never increases x^T A x / 2 - b^T x, and leaves it unchanged only if it leaves x unchanged.", "quantifier": "all symmetric matrices with positive diagonal, all limits and vectors", "why_tests_cant": "inequality over a continuum", "anchors": ["src/gauss_seidel_sle_solver.cpp:solveIteration"]}
{"id": "C23", "title": "Limited Gauss-Seidel converges given enough iterations", "statement": "For every symmetric positive definite system and ordered limits, there is an iteration bound beyond which solveWithLimits reports convergence for any positive tolerance.", "quantifier": "all such systems, limits, tolerances and starting points", "why_tests_cant": "a statement about limits of sequences", "anchors": ["src/gauss_seidel_sle_solver.cpp:solveWithLimits"]}
{"id": "C24", "title": "Gauss-Seidel success means the change was small", "statement": "When solve or solveWithLimits returns true, the last sweep changed every component by less than minDelta relative to its magnitude (floored at 1e-3).", "quantifier": "all systems and starting points", "why_tests_cant": "tests that look at converged systems cannot see a false positive; expected to fail for solve", "anchors": ["src/gauss_seidel_sle_solver.cpp:solve", "src/gauss_seidel_sle_solver.cpp:solveWithLimits", "src/gauss_seidel_sle_solver.cpp:solveIteration"]}
{"id": "C25", "title": "Conjugate gradient success means a small residual", "statement": "When solve returns true (exact arithmetic) the returned x satisfies |right_i - (J*diag(W)*J^T*x)_i| <= max(|maxError*right_i|, minError) for every i.", "quantifier": "all J, W, right, all tolerances and iteration limits, any warm start", "why_tests_cant": "the residual is updated incrementally; its relation to x is an invariant over all iterations", "anchors": ["src/conjugate_gradient_sle_solver.cpp:solve", "src/conjugate_gradient_sle_solver.cpp:sufficientlySmall"]}
{"id": "C26", "title": "Conjugate gradient finishes within n iterations", "statement": "For every symmetric positive definite J*diag(W)*J^T with n constraints, solve returns true in exact arithmetic if maxIterations >= n, for any warm start and any non-negative tolerances.", "quantifier": "all SPD systems of any size", "why_tests_cant": "a Krylov-space argument over all sizes", "anchors": ["src/conjugate_gradient_sle_solver.cpp:solve"]}
{"id": "C27", "title": "Conjugate gradient never reports success with a non-finite result", "statement": "If solve returns true in double precision, the result contains no NaN or infinity.", "quantifier": "all floating-point inputs", "why_tests_cant": "NaN compares false; expected to fail", "anchors": ["src/conjugate_gradient_sle_solver.cpp:solve", "src/conjugate_gradient_sle_solver.cpp:sufficientlySmall"]}
{"id": "C28", "title": "Solvers are memory safe and terminate on every input", "statement": "For matching dimensions each solver's solve/solveWithLimits returns after finitely many steps without assertion failure or out-of-bounds access for every number format and all values (for Gaussian elimination: apart from its explicit singularity assertions), and leaves J, W and right unchanged.", "quantifier": "all dimensions, all values of all number formats, all prior solver states", "why_tests_cant": "sizes and values unbounded", "anchors": ["src/gaussian_elimination_sle_solver.cpp:solve", "src/gauss_seidel_sle_solver.cpp", "src/conjugate_gradient_sle_solver.cpp"]}
{"id": "C29", "title": "Gauss-Seidel without limits starts from determinate values", "statement": "solve called with a fresh result object (and previous null or the same object, as the rigid body systems do) yields a result determined by its inputs.", "quantifier": "all first calls and all calls after a size change", "why_tests_cant": "uninitialised memory is usually zero in tests; expected to fail", "anchors": ["src/gauss_seidel_sle_solver.cpp:solve", "src/generic_rigid_body_system.cpp:processConstraints"]}
{"id": "C30", "title": "Body registry stays consistent", "statement": "After any sequence of addRigidBody/removeRigidBody in which only absent bodies are added and only present bodies removed, getRigidBodyCount is the number of present bodies, getRigidBody(i) ranges over exactly the present bodies without repetition, and body->index == i for getRigidBody(i).", "quantifier": "all finite histories", "why_tests_cant": "removal swaps with the last element; the interesting orders are unbounded", "anchors": ["src/rigid_body_system.cpp:addRigidBody", "src/rigid_body_system.cpp:removeRigidBody", "src/rigid_body_system.cpp:getRigidBody"]}
{"id": "C31", "title": "Constraint and force generator registries stay consistent", "statement": "The same as C30 for constraints and force generators; getFullConstraintCount is the sum of the constraint counts of the present constraints.", "quantifier": "all finite histories", "why_tests_cant": "as C30", "anchors": ["src/rigid_body_system.cpp:addConstraint", "src/rigid_body_system.cpp:removeConstraint", "src/rigid_body_system.cpp:addForceGenerator", "src/rigid_body_system.cpp:removeForceGenerator", "src/rigid_body_system.cpp:getFullConstraintCount"]}
{"id": "C32", "title": "A removed body is no longer attached to the system", "statement": "After removeRigidBody(b), b->index is -1 again, so forces and constraints holding b treat it as not in the system.", "quantifier": "all histories", "why_tests_cant": "needs an observation after removal; expected to fail", "anchors": ["src/rigid_body_system.cpp:removeRigidBody", "src/rigid_body_system.cpp:reset"]}
{"id": "C33", "title": "Coordinate transforms are mutually inverse isometries", "statement": "localToWorld and worldToLocal are inverse to each other and preserve distances, for every position, angle and point (exact arithmetic); SystemState::localToWorld agrees with RigidBody::localToWorld.", "quantifier": "all poses and points", "why_tests_cant": "a continuum of poses", "anchors": ["src/rigid_body.cpp:localToWorld", "src/rigid_body.cpp:worldToLocal", "src/system_state.cpp:localToWorld"]}
{"id": "C34", "title": "velocityAtPoint is the velocity of the material point", "statement": "velocityAtPoint returns the time derivative of localToWorld of that point along any motion with the given velocities.", "quantifier": "all motions and points", "why_tests_cant": "a calculus statement", "anchors": ["src/system_state.cpp:velocityAtPoint"]}
{"id": "C35", "title": "applyForce is the generalised force of the point force", "statement": "applyForce adds exactly (f_x,f_y) to the body's force and the moment of the force about the body's position to its torque, touches no other body or field, and the power f.v + torque*omega equals F . velocityAtPoint.", "quantifier": "all states, points, forces, bodies", "why_tests_cant": "needs to hold for all poses and velocities", "anchors": ["src/system_state.cpp:applyForce"]}
{"id": "C36", "title": "Kinetic energy is positive definite", "statement": "energy() is non-negative for non-negative mass and inertia, and for positive ones zero exactly when the body is at rest; it depends on nothing but m, I and the velocities.", "quantifier": "all bodies", "why_tests_cant": "inequality over a continuum", "anchors": ["src/rigid_body.cpp:energy"]}
{"id": "C37", "title": "SystemState::copy reproduces the source", "statement": "After copy(src) every per-body and per-constraint array of the destination reads the same as the source's, without out-of-bounds access.", "quantifier": "all sizes of source and destination", "why_tests_cant": "depends on the size history of the destination; expected to fail when the destination is larger", "anchors": ["src/system_state.cpp:copy", "src/system_state.cpp:resize"]}
{"id": "C38", "title": "SystemState::resize always leaves room", "statement": "After any sequence of resize/destroy, a resize(b,c) leaves all per-body arrays with at least b readable elements and the per-constraint arrays with at least c (2c for reactions), and never loses room it reports in n, n_c.", "quantifier": "all histories", "why_tests_cant": "capacities depend on history", "anchors": ["src/system_state.cpp:resize", "src/system_state.cpp:destroy"]}
{"id": "C39", "title": "Euler step", "statement": "EulerOdeSolver::solve advances every body's position by the old velocity times dt and its velocity by the acceleration times dt, and changes nothing else.", "quantifier": "all states, sizes, dt, number formats", "why_tests_cant": "all sizes and values", "anchors": ["src/euler_ode_solver.cpp:solve"]}
{"id": "C40", "title": "NSV step", "statement": "NsvOdeSolver::solve advances every velocity by acceleration times dt and then every position by the new velocity times dt, and changes nothing else; under constant acceleration k steps give exactly the closed form.", "quantifier": "all states, sizes, dt, step counts", "why_tests_cant": "unbounded step counts", "anchors": ["src/nsv_ode_solver.cpp:solve"]}
{"id": "C41", "title": "RK4 uses exactly four evaluations", "statement": "After start, the step/solve protocol reports completion on exactly the fourth step, so the driver loop ends; after end or without start it never reports completion.", "quantifier": "all states, sizes, number formats", "why_tests_cant": "a termination claim", "anchors": ["src/rk4_ode_solver.cpp:step", "src/rk4_ode_solver.cpp:solve", "src/rk4_ode_solver.cpp:getNextStage"]}
{"id": "C42", "title": "RK4 is exact for constant accelerations", "statement": "If the accelerations do not change between evaluations, any number of RK4 steps of any size gives the exact closed-form position and velocity.", "quantifier": "all states, dt, step counts", "why_tests_cant": "unbounded step counts, continuum of values", "anchors": ["src/rk4_ode_solver.cpp:step", "src/rk4_ode_solver.cpp:solve"]}
{"id": "C43", "title": "RK4 is the classical fourth-order method", "statement": "For every acceleration law depending on position and velocity one step equals the classical Runge-Kutta step.", "quantifier": "all acceleration laws", "why_tests_cant": "expected to fail: stage positions use the already updated velocities", "anchors": ["src/rk4_ode_solver.cpp:step"]}
{"id": "C44", "title": "Gravity", "statement": "GravityForceGenerator adds -m*g to every body's f_y and changes nothing else.", "quantifier": "all states", "why_tests_cant": "all sizes", "anchors": ["src/gravity_force_generator.cpp:apply"]}
{"id": "C45", "title": "Springs obey Newton's third law", "statement": "A spring between two bodies adds opposite forces to them, so total force is unchanged.", "quantifier": "all states, parameters", "why_tests_cant": "continuum", "anchors": ["src/spring.cpp:apply"]}
{"id": "C46", "title": "Undamped springs are conservative and central", "statement": "With zero damping the spring exerts no net torque on the pair about any point and its power equals minus the rate of change of energy() (ends at least 1e-2 apart).", "quantifier": "all motions and parameters", "why_tests_cant": "calculus statement", "anchors": ["src/spring.cpp:apply", "src/spring.cpp:energy"]}
{"id": "C47", "title": "Spring damping only removes energy", "statement": "The damping part of the spring force does non-positive work for kd >= 0.", "quantifier": "all states and parameters", "why_tests_cant": "inequality over a continuum", "anchors": ["src/spring.cpp:apply"]}
{"id": "C48", "title": "Damped springs exert no net torque on the pair", "statement": "Also with damping the spring's action on the pair has zero total moment (angular momentum is conserved).", "quantifier": "all states and parameters", "why_tests_cant": "expected to fail: damping acts along the full relative velocity", "anchors": ["src/spring.cpp:apply"]}
{"id": "C49", "title": "Springs to bodies outside the system", "statement": "A spring one of whose bodies is not in the system (index -1) acts on the other body as anchored at the free body's pose.", "quantifier": "all states", "why_tests_cant": "expected to fail with an out-of-bounds access", "anchors": ["src/spring.cpp:apply"]}
{"id": "C50", "title": "Motor torque limit and reaction", "statement": "ConstantSpeedMotor never applies more than maxTorque in magnitude, for every floating-point input including NaN, applies the opposite torque to the base body, and drives the relative speed towards m_speed.", "quantifier": "all states and parameters", "why_tests_cant": "NaN paths", "anchors": ["src/constant_speed_motor.cpp:apply"]}
{"id": "C51", "title": "Forces do not accumulate between evaluations", "statement": "Before force generators are applied every present body's force and torque are reset, so the forces of a step depend only on the current state.", "quantifier": "all histories", "why_tests_cant": "history dependent", "anchors": ["src/rigid_body_system.cpp:processForces"]}
{"id": "C52", "title": "Constraint Jacobians are the derivatives of the constraint functions", "statement": "For FixedPosition, Line, Link, Rolling and FixedRotation constraints, each J entry is the partial derivative of the corresponding C with respect to that coordinate, at every state.", "quantifier": "all states and parameters", "why_tests_cant": "finite differences at sample points only approximate", "anchors": ["src/fixed_position_constraint.cpp:calculate", "src/line_constraint.cpp:calculate", "src/link_constraint.cpp:calculate", "src/rolling_constraint.cpp:calculate", "src/fixed_rotation_constraint.cpp:calculate"]}
{"id": "C53", "title": "Jacobian time derivatives", "statement": "For the same constraints (and the purely rotational ones) each J_dot entry is the time derivative of the J entry along any motion with the given velocities.", "quantifier": "all motions and parameters", "why_tests_cant": "calculus statement", "anchors": ["src/fixed_position_constraint.cpp:calculate", "src/line_constraint.cpp:calculate", "src/link_constraint.cpp:calculate", "src/rolling_constraint.cpp:calculate", "src/fixed_rotation_constraint.cpp:calculate"]}
{"id": "C54", "title": "Constraint functions express the geometry", "statement": "C is zero exactly when: the body point is at the world point (FixedPosition), on the line (Line), the two body points coincide (Link), the angle is the given one (FixedRotation), the rolling body's centre is radius away from the surface line (Rolling, second row).", "quantifier": "all states and parameters", "why_tests_cant": "continuum", "anchors": ["src/fixed_position_constraint.cpp:calculate", "src/line_constraint.cpp:calculate", "src/link_constraint.cpp:calculate", "src/rolling_constraint.cpp:calculate", "src/fixed_rotation_constraint.cpp:calculate"]}
{"id": "C55", "title": "Rolling constraint means rolling without slipping", "statement": "When both rows of the rolling constraint's velocity condition hold over a fixed base with unit surface direction, the contact point of the rolling body is at rest.", "quantifier": "all radii and states", "why_tests_cant": "tests use radius 1 only; expected to fail for other radii", "anchors": ["src/rolling_constraint.cpp:calculate"]}
{"id": "C56", "title": "A constraint's output is its own", "statement": "calculate overwrites every field the systems read for that constraint's rows, so nothing leaks from the constraint evaluated before it; limits are ordered.", "quantifier": "all constraint kinds, states and previous outputs", "why_tests_cant": "leak depends on evaluation order", "anchors": ["src/*_constraint.cpp:calculate", "include/constraint.h:noLimits"]}
{"id": "C57", "title": "Links act with equal and opposite forces", "statement": "The forces of a link constraint on its two bodies are opposite and have no net moment when the joint is closed.", "quantifier": "all states and multipliers", "why_tests_cant": "continuum", "anchors": ["src/link_constraint.cpp:calculate"]}
{"id": "C58", "title": "Optimized system: velocities satisfy the constraints after a step", "statement": "With an exact solver (Gaussian elimination, non-singular system, non-zero masses) one process(dt,1) of the optimized system ends without assertion failure or undefined behaviour with velocities v' such that for every constraint row J*v' + v_bias + (biasFactor/dt)*C = 0, J, v_bias and C taken at the old state, and positions advanced by v'*dt.", "quantifier": "all systems of at most 255 bodies with at least one constraint, bound to bodies of the system (C66 to C68 have the others), all constraints (built-in or user-defined), all forces", "why_tests_cant": "end-to-end claim over all system shapes", "anchors": ["src/optimized_nsv_rigid_body_system.cpp:process", "src/optimized_nsv_rigid_body_system.cpp:processConstraints"]}
{"id": "C59", "title": "Generic system: accelerations satisfy the stabilised constraint equation", "statement": "With an exact solver the accelerations satisfy J*a + J_dot*v = -ks*C - kd*J*v for every constraint row.", "quantifier": "all systems of at most 255 bodies, all constraints, all forces", "why_tests_cant": "end-to-end claim", "anchors": ["src/generic_rigid_body_system.cpp:processConstraints"]}
{"id": "C60", "title": "Free bodies obey Newton's second law", "statement": "A body no constraint is bound to gets acceleration force/mass and torque/inertia in both systems.", "quantifier": "all systems whose constraints are bound to bodies of the system (C32 has the others)", "why_tests_cant": "end-to-end claim", "anchors": ["src/optimized_nsv_rigid_body_system.cpp:processConstraints", "src/generic_rigid_body_system.cpp:processConstraints"]}
{"id": "C61", "title": "Reported constraint forces are the applied ones (optimized)", "statement": "After process the F_x, F_y, F_t of every constraint, row and body are the forces that were applied to that body for that row in the last step.", "quantifier": "all systems whose constraints are bound to bodies of the system (C32 has the others)", "why_tests_cant": "index arithmetic over all shapes", "anchors": ["src/optimized_nsv_rigid_body_system.cpp:propagateResults"]}
{"id": "C62", "title": "Reported constraint forces are the applied ones (generic)", "statement": "The same as C61 for the generic system.", "quantifier": "all systems whose constraints are bound to bodies of the system (C32 has the others)", "why_tests_cant": "expected to fail: a different index formula is used", "anchors": ["src/generic_rigid_body_system.cpp:process"]}
{"id": "C63", "title": "Force limits are respected", "statement": "With the limit-supporting solver every constraint multiplier (force) applied by the optimized system lies within the constraint's limits; a neutral gear applies none.", "quantifier": "all systems and states", "why_tests_cant": "end-to-end claim", "anchors": ["src/optimized_nsv_rigid_body_system.cpp:processConstraints", "src/gauss_seidel_sle_solver.cpp"]}
{"id": "C64", "title": "Force limits are respected by every solver", "statement": "C63 with any of the supplied solvers.", "quantifier": "all solvers", "why_tests_cant": "expected to fail: other solvers ignore limits", "anchors": ["src/optimized_nsv_rigid_body_system.cpp:processConstraints"]}
{"id": "C65", "title": "ConstantRotationConstraint drives the body to m_rotationSpeed", "statement": "After a step with exact solver and no binding limits the body's angular velocity equals m_rotationSpeed.", "quantifier": "all systems", "why_tests_cant": "sign error shows only against the end-to-end equation; expected to fail", "anchors": ["src/constant_rotation_constraint.cpp:calculate", "src/optimized_nsv_rigid_body_system.cpp:processConstraints"]}
{"id": "C66", "title": "More than 255 bodies", "statement": "C58 holds for any number of bodies.", "quantifier": "all body counts", "why_tests_cant": "tests have a handful of bodies; expected to fail: body indices are stored in 8 bits", "anchors": ["include/sparse_matrix.h:setBlock", "src/optimized_nsv_rigid_body_system.cpp:processConstraints"]}
{"id": "C67", "title": "Constraints to bodies outside the system", "statement": "A constraint one of whose bodies is not in the system (index -1) is processed without touching memory out of bounds.", "quantifier": "all systems", "why_tests_cant": "silent memory corruption; expected to fail", "anchors": ["src/optimized_nsv_rigid_body_system.cpp:processConstraints", "src/generic_rigid_body_system.cpp:processConstraints"]}
{"id": "C68", "title": "Constraints may be removed", "statement": "After any sequence of adding/removing constraints and processing, process works for the remaining ones, also for none.", "quantifier": "all histories", "why_tests_cant": "history dependent; expected to fail with Gaussian elimination when the last constraint is removed", "anchors": ["src/optimized_nsv_rigid_body_system.cpp:processConstraints", "src/gaussian_elimination_sle_solver.cpp:solve"]}
{"id": "C69", "title": "Destruction", "statement": "Destroying a system or solver after any use trips no destructor assertion.", "quantifier": "all histories", "why_tests_cant": "expected to fail for the generic system", "anchors": ["src/generic_rigid_body_system.cpp:~GenericRigidBodySystem", "src/matrix.cpp:~Matrix"]}
{"id": "C70", "title": "Elapsed time and profiling", "statement": "timeElapsed is the sum of the dt of all process calls; the profiling index stays in range; the averages are over recorded samples only.", "quantifier": "all call sequences", "why_tests_cant": "ring-buffer wrap-around", "anchors": ["src/optimized_nsv_rigid_body_system.cpp:process", "src/rigid_body_system.cpp:findAverage"]}
{"id": "C71", "title": "Sub-stepping equals repeated stepping", "statement": "process(dt,k) leaves the bodies exactly as k calls process(dt/k,1).", "quantifier": "all systems and k", "why_tests_cant": "history dependent; fails with speed motors, which read the previous acceleration", "anchors": ["src/optimized_nsv_rigid_body_system.cpp:process", "src/rigid_body_system.cpp:populateSystemState", "src/constant_speed_motor.cpp:apply"]}
{"id": "C72", "title": "Momentum conservation", "statement": "Internal interactions only (links, springs): a step leaves total linear momentum unchanged.", "quantifier": "all systems", "why_tests_cant": "end-to-end claim", "anchors": ["src/optimized_nsv_rigid_body_system.cpp:process"]}
{"id": "C73", "title": "process changes only the motion", "statement": "process leaves masses, inertias, registry membership, indices and constraint parameters unchanged.", "quantifier": "all systems, all number formats", "why_tests_cant": "frame property", "anchors": ["src/optimized_nsv_rigid_body_system.cpp:process", "src/generic_rigid_body_system.cpp:process"]}
{"id": "C74", "title": "Static forces", "statement": "A StaticForceGenerator adds to its body exactly the generalised force of the given force at the given body point and changes nothing else; without a body in the system its use is undefined.", "quantifier": "all states and parameters", "why_tests_cant": "continuum", "anchors": ["src/static_force_generator.cpp:apply"]}
{"id": "C75", "title": "Springs obey the third law in floating point", "statement": "The force components a spring adds to its two bodies are exact floating-point negatives of each other (up to the sign of zero), for every input including infinities and NaN.", "quantifier": "all binary64 inputs, any sine and cosine", "why_tests_cant": "rounding cases cannot be enumerated", "anchors": ["src/spring.cpp:apply"]}
{"id": "C76", "title": "Rotational constraints measure spin", "statement": "For constant rotation, friction, clutch and gear constraints the Jacobian row times the velocities is the angular velocity, the difference of the two, or omega1 - ratio*omega2; the bias is the set speed (zero for the others); the limits are the given ones and zero for a neutral gear.", "quantifier": "all states and parameters", "why_tests_cant": "continuum", "anchors": ["src/constant_rotation_constraint.cpp:calculate", "src/clutch_constraint.cpp:calculate", "src/rotation_friction_constraint.cpp:calculate", "src/simple_gear_constraint.cpp:calculate"]}
{"id": "C77", "title": "A step closes the gaps of the built-in constraints", "statement": "With Gaussian elimination (non-singular system) after process(dt,1) of the optimized system the new velocities satisfy, at the old poses: the velocity of a fixed point, the normal velocity of a point on a line, the relative velocity of two linked points and the two rolling conditions are -biasFactor/dt times the respective gap; a fixed rotation turns with -biasFactor/dt times the angle error, a constant rotation with minus the set speed, friction stops the body, a clutch makes the spins equal and a gear (also a neutral one) makes them proportional.", "quantifier": "all systems of at most 255 bodies built from the nine constraint classes, all forces", "why_tests_cant": "end-to-end claim", "anchors": ["src/optimized_nsv_rigid_body_system.cpp:process", "src/optimized_nsv_rigid_body_system.cpp:processConstraints", "src/*_constraint.cpp:calculate"]}
{"id": "C78", "title": "Angular momentum", "statement": "One step with links whose ends coincide, clutches and undamped springs between the bodies leaves the angular momentum about the origin unchanged; in general it changes by dt times the torques of the generators and of the constraints, where open links, rolling, gears and the constraints that turn one body contribute.", "quantifier": "all systems of at most 255 bodies, all supplied solvers", "why_tests_cant": "end-to-end claim; shows which constraints exert a net torque", "anchors": ["src/optimized_nsv_rigid_body_system.cpp:process", "src/generic_rigid_body_system.cpp:process", "src/*_constraint.cpp:calculate"]}
{"id": "C79", "title": "A Runge-Kutta solver of its own stays within the arrays", "statement": "A Runge-Kutta solver that serves one system only, process being called with at least one step each time, copies exactly the system's arrays, whatever bodies and constraints are added and removed in between.", "quantifier": "all histories, all number formats", "why_tests_cant": "history dependent: the arrays only grow and the copy takes its lengths from the destination; false for a solver that served a larger system or after a call with no steps", "anchors": ["src/system_state.cpp:copy", "src/rk4_ode_solver.cpp:start", "src/generic_rigid_body_system.cpp:process"]}
{"id": "C80", "title": "A sparse matrix is a table of entries", "statement": "After any sequence of initialize, setBlock, set and setEmpty with arguments in range, get and the block of an entry are what was last written there: setBlock and set change one block and one value, setEmpty marks the entry empty and clears all its values, and no call disturbs another entry, row or object.", "quantifier": "all histories, strides and entry counts, all number formats", "why_tests_cant": "index arithmetic over all shapes", "anchors": ["include/sparse_matrix.h:set", "include/sparse_matrix.h:get", "include/sparse_matrix.h:setBlock", "include/sparse_matrix.h:setEmpty", "include/sparse_matrix.h:initialize"]}
{"id": "C81", "title": "A step disturbs the free motion least", "statement": "Gauss's principle: with Gaussian elimination, non-singular rows and positive masses, the velocities after process(dt,1) of the optimized system are, among all velocities for which every row has the wanted rate, the only ones nearest (in kinetic energy of the difference) to the velocities the forces alone would give; in the generic class with the Euler solvers the same holds of the accelerations.", "quantifier": "all systems of at most 255 bodies, also with constraints and generators of the user", "why_tests_cant": "characterises the result without the solver's equations; uncountably many competitors", "anchors": ["src/optimized_nsv_rigid_body_system.cpp:process", "src/generic_rigid_body_system.cpp:process", "src/gaussian_elimination_sle_solver.cpp:solve"]}
{"id": "C82", "title": "Constraints do not add kinetic energy", "statement": "Kinetic energy after a step of the optimized system plus that of the correction equals the energy of the free motion minus dt times the work of the multipliers on gaps and set speeds; with no gaps and no set speeds it is at most the energy of the free motion, and without generators at most the energy before the step.", "quantifier": "all systems of at most 255 bodies, Gaussian elimination", "why_tests_cant": "energy balance needs exact sums over all bodies", "anchors": ["src/optimized_nsv_rigid_body_system.cpp:process", "src/optimized_nsv_rigid_body_system.cpp:processConstraints"]}
{"id": "C83", "title": "A separate part of a system moves as if it were alone", "statement": "If no constraint or generator joins some bodies of a system to the rest, then after any number of calls they are where they would be in a system of their own, whatever else is in the larger system.", "quantifier": "all systems built from the supplied classes, any number of calls, both classes", "why_tests_cant": "compares two systems of different size", "anchors": ["src/optimized_nsv_rigid_body_system.cpp:process", "src/generic_rigid_body_system.cpp:process"]}
{"id": "C84", "title": "The order of assembly does not matter", "statement": "Two systems of the same bodies, constraints and generators, added in different orders, are in the same state after any number of calls.", "quantifier": "all orders, any number of calls, both classes", "why_tests_cant": "factorially many orders", "anchors": ["src/rigid_body_system.cpp:addRigidBody", "src/rigid_body_system.cpp:addConstraint", "src/rigid_body_system.cpp:addForceGenerator", "src/optimized_nsv_rigid_body_system.cpp:process", "src/generic_rigid_body_system.cpp:process"]}
{"id": "C85", "title": "Motion is relative", "statement": "A system whose constraints do not hold on to the world, started at another place and with a common additional velocity, goes through the same motion: after any number of calls its velocities differ by that velocity and its places by the shift plus the time times that velocity.", "quantifier": "all systems built from the supplied constraints, springs, gravity and static forces, both classes", "why_tests_cant": "Galilean invariance quantifies over shifts and velocities", "anchors": ["src/optimized_nsv_rigid_body_system.cpp:process", "src/generic_rigid_body_system.cpp:process", "src/*_constraint.cpp:calculate", "src/spring.cpp:apply"]}
{"id": "C86", "title": "A wheel does not slip on a surface that turns", "statement": "Velocities that keep both rows of the rolling constraint have the wheel's contact point move with the point of the base it touches.", "quantifier": "all poses, radii, directions of the surface and velocities of both bodies", "why_tests_cant": "the base turns in none of the tests; the slip depends on its angular velocity", "anchors": ["src/rolling_constraint.cpp:calculate"]}
{"id": "C87", "title": "Orientation does not matter", "statement": "A system without gravity, turned by any angle and moved to another place together with its fixed points, lines, angles and forces, goes through the turned and moved motion, over any number of calls.", "quantifier": "all angles, places, systems built from the supplied constraints, springs and static forces, both classes, any number of calls", "why_tests_cant": "rotation invariance quantifies over all angles", "anchors": ["src/optimized_nsv_rigid_body_system.cpp:process", "src/generic_rigid_body_system.cpp:process", "src/*_constraint.cpp:calculate", "src/spring.cpp:apply"]}
{"id": "C88", "title": "Systems may share a solver", "statement": "Any number of systems of either class that use one linear solver, their process calls made in any order, end up exactly where each would have ended up with a solver of its own, or the first failure is one that system would have met alone; direct use of the solver in between changes nothing either.  Integrators that keep nothing but the step length may be shared too.", "quantifier": "all numbers of systems, all orders of calls, all supplied solvers, all number formats", "why_tests_cant": "history dependent: solvers keep matrices, which are only resized", "anchors": ["src/optimized_nsv_rigid_body_system.cpp:process", "src/generic_rigid_body_system.cpp:process", "src/*_sle_solver.cpp:solve"]}
{"id": "C89", "title": "Gaps close geometrically", "statement": "With Gaussian elimination and non-singular rows each call process(dt,1) of the optimized system leaves 1 - biasFactor times the gap of every fixed position, line, link and fixed rotation constraint, up to dt*dt/2 times the lever arms times the squared angular velocities; over any number of calls the gap stays below (1-biasFactor)^n times the first one plus a bound independent of n, and for fixed rotations and points in the middle of their bodies it is exactly (1-biasFactor)^n times the first one.", "quantifier": "all systems of at most 255 bodies built from the supplied classes, any number of calls, every biasFactor", "why_tests_cant": "long-run behaviour over unboundedly many calls", "anchors": ["src/optimized_nsv_rigid_body_system.cpp:process", "src/optimized_nsv_rigid_body_system.cpp:processConstraints", "src/*_constraint.cpp:calculate"]}
{"id": "C90", "title": "Units do not matter", "statement": "A system whose lengths, times (with the step) and masses are given in other units, all derived quantities with them, goes through the same motion in those units, over any number of calls.", "quantifier": "all positive unit ratios, systems built from the supplied constraints, springs, gravity and static forces, both classes, any number of calls", "why_tests_cant": "dimensional consistency quantifies over all unit ratios; tests use one set of numbers", "anchors": ["src/optimized_nsv_rigid_body_system.cpp:process", "src/generic_rigid_body_system.cpp:process", "src/*_constraint.cpp:calculate", "src/spring.cpp:apply", "src/gravity_force_generator.cpp:apply"]}
{"id": "C91", "title": "Left and right do not matter", "statement": "A system with left and right exchanged (the x coordinates and angles of bodies, points, lines and forces change sign, surfaces keep their wheels, torque limits change sign) goes through the mirror image of the motion, over any number of calls.", "quantifier": "all systems built from the supplied constraints, springs, gravity and static forces, both classes, any number of calls", "why_tests_cant": "mirror symmetry relates two whole systems over any number of calls; a sign error in one entry of a Jacobian breaks it", "anchors": ["src/optimized_nsv_rigid_body_system.cpp:process", "src/generic_rigid_body_system.cpp:process", "src/*_constraint.cpp:calculate", "src/spring.cpp:apply", "src/static_force_generator.cpp:apply"]}
{"id": "C92", "title": "Determinate systems stay determinate", "statement": "A system with at least one constraint, built from the supplied constraints and generators attached to bodies in it, in which every position, velocity, mass and parameter has been set, goes through any number of process calls without undefined behaviour (no access out of bounds, no branch on an indeterminate value, no missing object) and without an endless loop, and every position and velocity and (optimized class) every reported constraint force is determinate afterwards.", "quantifier": "all histories, all number formats in which division, root, sine and cosine always yield a value (binary64 with overflow, NaN and all), both classes, all supplied solvers", "why_tests_cant": "memory safety and initialisation over all histories, sizes and values, NaN and infinities included", "anchors": ["src/optimized_nsv_rigid_body_system.cpp:process", "src/generic_rigid_body_system.cpp:process", "src/rigid_body_system.cpp:populateSystemState", "src/*_sle_solver.cpp:solve", "src/*_constraint.cpp:calculate", "src/rk4_ode_solver.cpp:solve"]}
{"id": "C93", "title": "The size of a constraint is checked", "statement": "Constructing a constraint of at most three rows and two bodies succeeds and yields one that is attached to nothing and reports zero forces; the nine supplied classes are within these sizes; a larger constraint is never used.", "quantifier": "all classes and sizes, all number formats", "why_tests_cant": "the check is an assertion; expected to fail without assertions", "anchors": ["src/constraint.cpp:Constraint", "src/optimized_nsv_rigid_body_system.cpp:processConstraints", "src/generic_rigid_body_system.cpp:processConstraints"]}
{"id": "C94", "title": "Statics: equilibrium is kept and the reported forces carry the load", "statement": "A system at rest with its constraints met, whose forces are balanced by multipliers of its constraint rows, stays at rest over any number of calls, and the optimized class reports exactly the balancing forces; conversely, if a call leaves the bodies at rest, the forces were balanced.", "quantifier": "all systems of the supplied constraints and generators without motors, any bodies, any number of calls", "why_tests_cant": "needs exact arithmetic and a search for balancing forces over all structures", "anchors": ["src/optimized_nsv_rigid_body_system.cpp:processConstraints", "src/generic_rigid_body_system.cpp:processConstraints", "src/optimized_nsv_rigid_body_system.cpp:propagateResults"]}
{"id": "C95", "title": "A call that advances nothing changes nothing", "statement": "process with no sub-steps, or with a step of length zero, leaves every position and velocity as it was.", "quantifier": "all systems, both classes", "why_tests_cant": "pausing by passing zero is a corner no test suite visits for every solver; expected to fail where the code divides by the length", "anchors": ["src/optimized_nsv_rigid_body_system.cpp:process", "src/generic_rigid_body_system.cpp:process", "src/optimized_nsv_rigid_body_system.cpp:processConstraints"]}
{"id": "C96", "title": "What is not finite stays so", "statement": "Once a position or velocity is infinite or not a number, no call makes it finite again; a velocity that is not finite takes the position with it; what is not a number stays exactly that.", "quantifier": "all systems, both classes, all supplied integrators, any number of calls, binary64", "why_tests_cant": "infinitely many computations could mask the fault, for instance by a comparison", "anchors": ["src/optimized_nsv_rigid_body_system.cpp:process", "src/generic_rigid_body_system.cpp:process", "src/nsv_ode_solver.cpp:step", "src/euler_ode_solver.cpp:solve", "src/rk4_ode_solver.cpp:solve"]}
{"id": "C97", "title": "Groups of bodies do not affect one another", "statement": "If no constraint and no spring goes between two groups of bodies, the motion of one does not depend on the other, even if the other is at fault.", "quantifier": "all systems and solvers, binary64", "why_tests_cant": "depends on every intermediate result of the solvers; expected to fail where zero times not-a-number is added", "anchors": ["src/gaussian_elimination_sle_solver.cpp:solve:solve", "src/conjugate_gradient_sle_solver.cpp:solve"]}
{"id": "C98", "title": "Rows that do not interact get exactly their limited force", "statement": "With Gauss-Seidel, if no row of any constraint moves another one, a call succeeds and every multiplier is exactly the one its equation asks for, limited to the range of its class.", "quantifier": "all systems of the optimized class with uncoupled rows, all positions, velocities, masses, forces and steps; any number of rows", "why_tests_cant": "the iteration has to end at the exact values for every real input and size", "anchors": ["src/optimized_nsv_rigid_body_system.cpp:process", "src/gauss_seidel_sle_solver.cpp:solve"]}
{"id": "C99", "title": "Slipping decreases by the limit and never reverses", "statement": "Over any number of calls the slip of a friction, clutch or constant-speed constraint that nothing else drives decreases by the limit times its give in each call, stops at zero and never changes sign.", "quantifier": "all such systems, any number of calls, all limits, inertias, speeds and steps", "why_tests_cant": "arbitrarily many calls and all real parameters", "anchors": ["src/rotation_friction_constraint.cpp:calculate", "src/clutch_constraint.cpp:calculate", "src/constant_rotation_constraint.cpp:calculate", "src/gauss_seidel_sle_solver.cpp:solve", "src/optimized_nsv_rigid_body_system.cpp:process"]}
{"id": "C100", "title": "Free flight", "statement": "A body that no constraint holds and on which a steady force acts has the exact velocity after a call with any number of sub-steps; its position is off the parabola by a dt^2/2n to a known side, and exactly on it with the fourth-order solver.", "quantifier": "all systems, both classes, all supplied integrators, all forces, masses, steps and numbers of sub-steps", "why_tests_cant": "any number of sub-steps and all real inputs; a wrong order of updates changes only the side", "anchors": ["src/nsv_ode_solver.cpp:solve", "src/euler_ode_solver.cpp:solve", "src/rk4_ode_solver.cpp:solve", "src/optimized_nsv_rigid_body_system.cpp:process", "src/generic_rigid_body_system.cpp:process"]}
{"id": "C101", "title": "Constraints of the generic class are springs and dampers", "statement": "The accelerations of a step make the amount by which every row misses its aim obey g'' = -ks g - kd g' along the motion, for all classes with a position.", "quantifier": "all systems of the generic class solved by elimination, all positions, velocities, forces and masses", "why_tests_cant": "second derivatives along the motion, for all real inputs", "anchors": ["src/generic_rigid_body_system.cpp:processConstraints", "src/link_constraint.cpp:calculate", "src/rolling_constraint.cpp:calculate"]}
{"id": "C102", "title": "Gaps of the generic class over many calls", "statement": "The gap of a constraint that holds centres or angles and its rate follow the recurrence of a spring and damper, whatever else happens. Without damping the gap stays bounded with the symplectic solver if ks dt^2 < 4 and grows geometrically in energy with the explicit one.", "quantifier": "all systems of the generic class solved by elimination, any number of calls", "why_tests_cant": "any number of calls, all real parameters, and independence of everything else in the system", "anchors": ["src/generic_rigid_body_system.cpp:process", "src/nsv_ode_solver.cpp:solve", "src/euler_ode_solver.cpp:solve"]}
{"id": "C103", "title": "Brakes of the generic class over many calls", "statement": "The speed braked by a friction, clutch, gear or constant-rotation constraint of the generic class is multiplied by 1 - kd dt in every call.", "quantifier": "all systems of the generic class solved by elimination, any number of calls", "why_tests_cant": "any number of calls and all real parameters", "anchors": ["src/generic_rigid_body_system.cpp:process", "src/rotation_friction_constraint.cpp:calculate", "src/clutch_constraint.cpp:calculate", "src/simple_gear_constraint.cpp:calculate"]}
{"id": "C104", "title": "What a motor does in a call", "statement": "The relative speed of the two bodies of a ConstantSpeedMotor that no constraint holds follows, sub-step by sub-step, the torque ks e - kd a cut off at the largest torque, where e is the missing speed and a the relative acceleration of the sub-step before; the angular momentum one body gains the other loses. With one sub-step per call the damping has no effect.", "quantifier": "all systems of both classes in which all other generators are gravity, any constraints on other bodies, both linear solvers, all real parameters, any number of sub-steps and of calls", "why_tests_cant": "any number of sub-steps and calls, all real parameters, independence of everything else in the system", "anchors": ["src/constant_speed_motor.cpp:apply", "include/constant_speed_motor.h:ConstantSpeedMotor", "src/generic_rigid_body_system.cpp:process"]}
{"id": "C105", "title": "A motor reaches its speed", "statement": "Over calls of one sub-step the relative speed of the two bodies of a motor with positive gain and positive largest torque converges to the set speed.", "quantifier": "all such systems, all real parameters", "why_tests_cant": "a limit over infinitely many calls", "anchors": ["src/constant_speed_motor.cpp:apply"]}
{"id": "C106", "title": "A motor with damping reaches its speed in calls of several sub-steps", "statement": "Whatever its damping, a motor brings two bodies at rest nearer to the set speed over calls of several sub-steps.", "quantifier": "all such systems, all real parameters, any lengths and numbers of calls", "why_tests_cant": "needs a motion of unbounded length in which alternate sub-steps cancel", "anchors": ["src/constant_speed_motor.cpp:apply", "src/generic_rigid_body_system.cpp:process"]}
{"id": "C107", "title": "Calls of several sub-steps", "statement": "A call of n sub-steps is n steps of length dt/n, each of which satisfies Newton's law with the forces of the generators, motors included, in the state it starts from, the integrator's rule and the law of every row; such calls always succeed when the constraints are independent, and the gaps of constraints shrink or swing once per sub-step.", "quantifier": "all systems solved by elimination whose constraints are independent in every pose, any list of calls with nonzero length and a positive number of sub-steps", "why_tests_cant": "any number of sub-steps and calls and all real states", "anchors": ["src/generic_rigid_body_system.cpp:process", "src/optimized_nsv_rigid_body_system.cpp:process", "src/nsv_ode_solver.cpp:step"]}
{"id": "C108", "title": "Arrays are freed once and not lost", "statement": "In every program that makes, resizes, destroys and ends objects of the matrix, sparse matrix, state and buffer kinds without copying them, no array is freed twice, every array an object has is there and belongs to it alone, and when the destructors' assertions hold no array with elements is lost. The model of array ownership and the model of contents agree on sizes, lengths and failures.", "quantifier": "all lists of such operations on any number of objects, both builds", "why_tests_cant": "all sequences of allocations and frees on any number of objects; a lost array is not seen by a test without a leak checker", "anchors": ["src/matrix.cpp:destroy", "src/matrix.cpp:resize", "include/sparse_matrix.h:destroy", "include/sparse_matrix.h:resize", "src/system_state.cpp:destroy", "src/system_state.cpp:resize", "src/utilities.cpp:freeArray"]}
{"id": "C109", "title": "A destroyed state has given back its arrays", "statement": "SystemState::destroy gives back every array that resize made.", "quantifier": "all sizes, all sequences of calls", "why_tests_cant": "needs a leak checker and the case of no bodies or no constraints", "anchors": ["src/system_state.cpp:destroy", "src/system_state.cpp:resize"]}
{"id": "C110", "title": "Systems and solvers give back their arrays", "statement": "When a system, a linear solver or an integrator ends, every array its members got is given back.", "quantifier": "all classes with such members, whatever their members were resized to, both builds", "why_tests_cant": "all sequences of sizes; arrays lost without any other effect", "anchors": ["src/optimized_nsv_rigid_body_system.cpp:~OptimizedNsvRigidBodySystem", "src/generic_rigid_body_system.cpp:~GenericRigidBodySystem", "src/rigid_body_system.cpp:~RigidBodySystem", "src/gaussian_elimination_sle_solver.cpp:~GaussianEliminationSleSolver", "src/gauss_seidel_sle_solver.cpp:~GaussSeidelSleSolver", "src/conjugate_gradient_sle_solver.cpp:~ConjugateGradientSleSolver", "src/rk4_ode_solver.cpp:~Rk4OdeSolver"]}
{"id": "C111", "title": "Objects can be copied", "statement": "A copy of a matrix, a sparse matrix, a state or a system can be used and ended like the original.", "quantifier": "all reachable objects of these kinds", "why_tests_cant": "implicit copy constructors; all contents", "anchors": ["include/matrix.h:Matrix", "include/sparse_matrix.h:SparseMatrix", "include/system_state.h:SystemState", "include/rigid_body_system.h:RigidBodySystem"]}
{"id": "C112", "title": "Damped constraints come to rest", "statement": "In the generic class with the NSV or the Euler solver, the gap of a constraint that holds centres or angles and its rate go to zero geometrically over the sub-steps, exactly if the strengths ks and kd and the sub-step h satisfy: 0 < ks h^2, 0 < kd h and ks h^2 + 2 kd h < 4 for NSV; 0 < ks h^2 < kd h and 2 kd h < 4 + ks h^2 for Euler. The rate depends on ks, kd and h alone.", "quantifier": "all reals ks, kd, h, all systems with any constraints, generators and motors whose constraint rows stay independent, all lists of calls with sub-steps of length h, both builds", "why_tests_cant": "a limit over unboundedly many calls, and an exact boundary in the reals", "anchors": ["src/generic_rigid_body_system.cpp:processConstraints", "src/nsv_ode_solver.cpp:solve", "src/euler_ode_solver.cpp:solve", "src/fixed_position_constraint.cpp:calculate", "src/line_constraint.cpp:calculate", "src/link_constraint.cpp:calculate", "src/fixed_rotation_constraint.cpp:calculate"]}
{"id": "C113", "title": "Matrix sizes as ints", "statement": "Any sequence of resize, initialize, element accesses, row swaps and destroy on a Matrix (and of the size calls on a SparseMatrix<3> or a SystemState) with sizes whose last row starts at an int ((h-1)w for a Matrix, 6(h-1) for a sparse one) computes with ints what it would with unbounded numbers: same sizes, row pointers and array lengths, same errors, no overflow. The next size overflows exactly if its last row does not start at an int.", "quantifier": "all lists of calls, all sizes from 0 to INT_MAX, all allocators, both builds", "why_tests_cant": "matrices near the bound do not fit in a test machine, and signed overflow need not show", "anchors": ["src/matrix.cpp:resize", "src/matrix.cpp:initialize", "src/matrix.cpp:destroy", "include/matrix.h:set", "include/matrix.h:fastRowSwap", "include/sparse_matrix.h:resize", "include/sparse_matrix.h:initialize", "src/system_state.cpp:resize"]}
{"id": "C114", "title": "Negative sizes", "statement": "A negative width or height given to a Matrix is rejected or treated as zero.", "quantifier": "all sizes", "why_tests_cant": "a test with one negative size may end normally by luck", "anchors": ["src/matrix.cpp:resize", "src/matrix.cpp:initialize"]}
{"id": "C115", "title": "After a refused allocation", "statement": "If new throws in a resize, the object can still be resized and used.", "quantifier": "all histories, all sizes, all allocators", "why_tests_cant": "tests cannot make new fail at a chosen point", "anchors": ["src/matrix.cpp:resize", "src/matrix.cpp:destroy", "include/sparse_matrix.h:resize", "src/system_state.cpp:resize"]}
{"id": "C116", "title": "How large a system may be", "statement": "The int expressions that a call of process evaluates from the number n of bodies and the number m_f of constraint rows all fit in an int exactly if 3n <= INT_MAX and m_f is at most 46340 (Gaussian elimination), 46341 (Gauss-Seidel) or 357913942 (conjugate gradient).", "quantifier": "all n and m_f, all indices in their ranges, the three linear solvers", "why_tests_cant": "systems of such sizes are not tested, overflow need not show", "anchors": ["src/matrix.cpp:resize", "include/sparse_matrix.h:resize", "include/sparse_matrix.h:multiplyTranspose", "src/rigid_body_system.cpp:populateMassMatrices", "src/optimized_nsv_rigid_body_system.cpp:processConstraints", "src/generic_rigid_body_system.cpp:processConstraints", "src/gaussian_elimination_sle_solver.cpp:solve", "src/gauss_seidel_sle_solver.cpp:solve", "src/conjugate_gradient_sle_solver.cpp:solve"]}
{"id": "C117", "title": "Law of two bodies at the ends of a spring", "statement": "Two bodies joined at their centres by a spring and under nothing else but gravity move, over any calls, so that the second one seen from the first takes one step of the spring equation per sub-step with the sum of the inverse masses; their common momentum changes by their weight times the time only and their rotation is free.", "quantifier": "all positions, velocities, masses, lengths, strengths, dampings, all call lists, all other bodies, forces and constraints of the system, both system classes, both one-stage schemes, real arithmetic", "why_tests_cant": "a test sees one scene and a few steps", "anchors": ["src/spring.cpp:apply", "src/optimized_nsv_rigid_body_system.cpp:process", "src/generic_rigid_body_system.cpp:process"]}
{"id": "C118", "title": "Equal areas at an undamped spring", "statement": "The line between two bodies at the ends of an undamped spring sweeps equal areas in equal times.", "quantifier": "as C117", "why_tests_cant": "a slow drift over many steps stays within the tolerance of a test", "anchors": ["src/spring.cpp:apply", "src/optimized_nsv_rigid_body_system.cpp:process", "src/generic_rigid_body_system.cpp:process"]}
{"id": "C119", "title": "An undamped spring neither gains nor loses", "statement": "Two bodies that move along an undamped spring between them never move further from its rest length than their first energy allows.", "quantifier": "as C117, motion along the spring", "why_tests_cant": "growth shows after many steps only", "anchors": ["src/spring.cpp:apply", "src/euler_ode_solver.cpp:solve", "src/nsv_ode_solver.cpp:solve"]}
{"id": "C120", "title": "A damped spring brings its ends to rest", "statement": "Two bodies that move along a damped spring between them come to rest at its length, if the steps are short enough.", "quantifier": "as C117, motion along the spring, all call lists with enough sub-steps", "why_tests_cant": "a limit over an unbounded number of steps", "anchors": ["src/spring.cpp:apply"]}
{"id": "C121", "title": "The project's tests pass in the model", "statement": "The model of the library passes the model of the project's tests of matrices, sparse matrices, linear solvers and integrators, in binary64 arithmetic, with and without asserts.", "quantifier": "both builds; the data of the tests", "why_tests_cant": "it is what the tests check, and says that the model agrees with them", "anchors": ["test/matrix_tests.cpp", "test/sparse_matrix_tests.cpp", "test/gaussian_elimination_sle_solver_tests.cpp", "test/conjugate_gradient_sle_solver_tests.cpp", "test/euler_ode_solver_tests.cpp", "test/rk4_ode_solver_tests.cpp"]}
{"id": "C122", "title": "The derivative test of constraints passes everywhere", "statement": "The test that compares the Jacobian of a constraint and its time derivative with difference quotients passes, for each constraint on positions, at all poses, as long as the levers are not too long for its tolerance.", "quantifier": "all positional constraint classes, all parameters and poses with levers within a bound, both builds, real arithmetic", "why_tests_cant": "the test draws ten poses of one constraint", "anchors": ["test/rolling_constraint_tests.cpp:verify", "src/rolling_constraint.cpp:calculate"]}
{"id": "C123", "title": "The scale tests notice wrong elements", "statement": "The tests of SparseMatrix::rightScale and leftScale fail if the sparse and the dense matrix they compare hold different elements.", "quantifier": "all elements", "why_tests_cant": "a test does not test itself", "anchors": ["test/sparse_matrix_tests.cpp:RightScale", "test/sparse_matrix_tests.cpp:LeftScale"]}
{"id": "C124", "title": "What the integrator tests should expect", "statement": "The drivers of the integrator tests end, for any number of steps, bodies, times and states, with the position x + v t + a t^2 / 2 (1 + e / n) and the velocity v + a t, where e is -1, 1 or 0 for the explicit, the semi-implicit and the Runge-Kutta solver.", "quantifier": "all numbers of steps and bodies, all times, positions, velocities, constant accelerations, both builds, real arithmetic", "why_tests_cant": "the tests take 1 and 100 steps", "anchors": ["test/euler_ode_solver_tests.cpp:eulerSolve", "test/rk4_ode_solver_tests.cpp:rk4Solve"]}
{"id": "C125", "title": "Conjugate gradient returns the best point", "statement": "When the conjugate gradient solver returns true, it has stopped at the first Krylov space whose best point is good enough, and returns that point: of all x0 + y with y in the space spanned by r0, A r0, ..., A^(k-1) r0, with r0 the first residual and A = J W J^T, the one whose error is least in the energy norm of A.", "quantifier": "all systems with positive definite J W J^T, all start vectors and tolerances, both builds, real arithmetic", "why_tests_cant": "minimality over a space cannot be sampled", "anchors": ["src/conjugate_gradient_sle_solver.cpp:solve"]}
{"id": "C126", "title": "Conjugate gradient takes as many steps as there are different eigenvalues", "statement": "If a polynomial of degree d of the system matrix sends the first residual to zero, the conjugate gradient solver reaches a residual it accepts within d steps. So constraints that do not interact and weigh the same are solved in one step, however many there are.", "quantifier": "all systems with positive definite J W J^T, all polynomials of any degree, both builds, real arithmetic", "why_tests_cant": "the tests solve single systems and do not count steps", "anchors": ["src/conjugate_gradient_sle_solver.cpp:solve"]}
{"id": "C127", "title": "Elements grow at most by two per elimination step", "statement": "After the elimination solver has run, row r of its private matrix holds no element larger than 2^r times the largest element of J W J^T and the right hand side, because the pivot is the largest of its column.", "quantifier": "all systems, any size, both builds, real arithmetic", "why_tests_cant": "growth depends on the system; the tests look only at the solution", "anchors": ["src/gaussian_elimination_sle_solver.cpp:solve"]}
{"id": "C128", "title": "Newton's first law holds exactly in binary64", "statement": "In binary64 a body which no constraint holds and on which the generators put no force in some direction keeps its velocity in that direction bit for bit (but for the sign of a zero) over any number of steps, and its position if it is at rest, with each integrator. So in free fall the sideways speed and the spin do not drift.", "quantifier": "all systems of both classes, all three integrators, any number of sub-steps of finite length, all positions and velocities, all masses with a finite inverse, both builds, binary64", "why_tests_cant": "no test compares bits, and drift shows only in long runs", "anchors": ["src/optimized_nsv_rigid_body_system.cpp:process", "src/rigid_body_system.cpp:process", "src/generic_rigid_body_system.cpp:process", "src/nsv_ode_solver.cpp:solve", "src/euler_ode_solver.cpp:solve", "src/rk4_ode_solver.cpp:solve"]}
{"id": "C129", "title": "The energy of falling bodies", "statement": "The energy that RigidBody::energy gives for a body which no constraint holds changes by the work of the steady force on it and an error of a known size: -F^2 dt^2 / 2 m n in the symplectic scheme, the same with the other sign in the explicit one, none in the fourth-order one. Over any number of calls under gravity the errors add up, so the energy of motion and height drifts steadily with the coarseness of the steps.", "quantifier": "all systems, classes, integrators, steady forces, numbers and lengths of calls and sub-steps, both builds, real arithmetic", "why_tests_cant": "the drift depends on the step and shows over long runs", "anchors": ["src/rigid_body.cpp:energy", "src/nsv_ode_solver.cpp:solve", "src/euler_ode_solver.cpp:solve", "src/rk4_ode_solver.cpp:solve", "src/gravity_force_generator.cpp:apply"]}
{"id": "C130", "title": "An accepted Gauss-Seidel result solves a nearby problem", "statement": "Where solveWithLimits reports success with a tolerance tol below 1, its result solves the limited problem exactly for a right side that differs from the given one, in row i, by at most tol / (1 - tol) times the sum over the later columns j of |A_ij| max(1/1000, |x_j|). So the last row holds exactly, and the distance to the exact solution is at most the norm of these errors divided by a lower bound of the eigenvalues.", "quantifier": "all systems with positive diagonal, limits, starts and tolerances between 0 and 1, both builds, real arithmetic", "why_tests_cant": "tests compare single results with a reference, not the residual with the tolerance", "anchors": ["src/gauss_seidel_sle_solver.cpp:solveWithLimits"]}
{"id": "C131", "title": "Steps of the optimized class with Gauss-Seidel satisfy every row up to the tolerance", "statement": "In a debug build a call of process that returns leaves velocities with which every constraint row holds up to tol / (1 - tol) times what the other rows do to it, or its multiplier is at a limit and the row is violated in the direction in which it may not push; in every sub-step. With positive masses and independent rows there is a number of sweeps with which the call succeeds in both builds and the same holds.", "quantifier": "all systems, constraints that answer with numbers, tolerances between 0 and 1, numbers of sub-steps, real arithmetic", "why_tests_cant": "the error of a row depends on the tolerance, the other rows and the limits; the tests use uncoupled rows", "anchors": ["src/optimized_nsv_rigid_body_system.cpp:processConstraints", "src/gauss_seidel_sle_solver.cpp:solveWithLimits"]}
{"id": "C132", "title": "Calls with the fourth-order solver succeed and obey Newton's law in every evaluation", "statement": "In the generic class with elimination, a fourth-order solver of its own, springs, weights, static forces and motors, and rows that determine the multipliers in every pose, every call of process with one or more sub-steps succeeds, of any length, also 0 or negative, and so does any sequence of calls. Every sub-step consists of four evaluations, each of which obeys Newton's law with constraint forces J^T x and the stabilised constraint equation; a motor sees the accelerations of the evaluation before.", "quantifier": "all such systems, lengths, numbers of sub-steps and of calls, both builds, real arithmetic", "why_tests_cant": "the tests run the fourth-order solver with gravity for a fixed number of steps", "anchors": ["src/rk4_ode_solver.cpp:step", "src/rk4_ode_solver.cpp:solve", "src/generic_rigid_body_system.cpp:process", "src/constant_speed_motor.cpp:apply"]}
{"id": "C133", "title": "In the fourth-order scheme a motor neither overshoots nor swings up to ks r h = 2", "statement": "What a motor turns follows the four stages with the torque ks e - kd a, cut off at the largest torque. Without damping and for ks r h at most 2 the speed never goes beyond the one asked for nor back, and it comes as close to it as wanted, also from far outside the range in which the torque is not cut off. Within this range the missing speed is multiplied by a factor between exp(-ks r t) and exp(-ks r t) + n z^5/120 in n sub-steps with z = ks r h. A motor that swings for ever in the other schemes (C105) reaches its speed in this one.", "quantifier": "all systems with one motor and gravity, positions, speeds, gains, lengths and numbers of sub-steps and of calls, real arithmetic", "why_tests_cant": "no test runs a motor; that it does not overshoot for any gain and length is beyond tests", "anchors": ["src/constant_speed_motor.cpp:apply", "src/rk4_ode_solver.cpp:step", "src/rk4_ode_solver.cpp:solve"]}
{"id": "C134", "title": "In the fourth-order scheme a spring comes to rest without any damping", "statement": "Two bodies at the ends of a spring that no constraint holds, seen from each other, follow the four stages of the scheme in any sequence of calls with the generic class and a fourth-order solver; their momentum together changes by their weight alone. Moving in line, without damping and for 0 < ks r h^2 <= 4, the spring comes to rest at its length if it starts close enough to it, although nothing takes its energy: the scheme itself does, in one example 15 percent in one sub-step.", "quantifier": "all systems with one spring and gravity, positions, velocities, lengths, strengths and numbers of sub-steps and of calls, real arithmetic", "why_tests_cant": "no test runs a spring with this solver; that it comes to rest concerns all later calls", "anchors": ["src/spring.cpp:apply", "src/rk4_ode_solver.cpp:step", "src/rk4_ode_solver.cpp:solve"]}
{"id": "C135", "title": "Springs follow the exact motion with order one, and two in the fourth-order scheme", "statement": "For two bodies in line at the ends of an undamped spring, with om^2 = ks (1/m1 + 1/m2), the distance from the exact motion after n sub-steps of length h is at most exp(n q) - 1 times the amplitude in the norm of the energy, with q = (om h)^2 in the explicit and semi-implicit scheme and q = (om h)^3/4 in the fourth-order one. So a call of any length comes as close to the exact motion as wanted if it has enough sub-steps. The fourth-order scheme is only of second order: the velocity after one sub-step from a standstill is off by at least (om h)^3/10 of the greatest one.", "quantifier": "all systems with one undamped spring and gravity, lengths, strengths, masses, starts that leave room, numbers of sub-steps and of calls, real arithmetic", "why_tests_cant": "tests compare with numbers at chosen sub-steps; an order of accuracy is about all of them", "anchors": ["src/spring.cpp:apply", "src/nsv_ode_solver.cpp:solve", "src/euler_ode_solver.cpp:solve", "src/rk4_ode_solver.cpp:step", "src/rk4_ode_solver.cpp:solve"]}
{"id": "C136", "title": "Constraints of the generic class follow the exact damped motion", "statement": "For constraints that hold centres or angles, with ks = mu^2 + nu^2 = om^2 and kd = 2 mu, the gap and its rate after n calls of length dt are within exp(-mu n dt) (exp(n q) - 1) times the amplitude of the exact solution of g'' = -ks g - kd g', with q = 7 (om dt)^2 om/nu, and q = (om dt)^2 without damping, whatever else happens in the system. Brakes multiply the speed by exp(-kd n dt), up to n (kd dt)^2 / 2. So calls that last a given time together come as close to the exact motion as wanted if there are enough of them.", "quantifier": "all systems of the generic class solved by elimination in which the matrix stays regular, all underdamped ks and kd, lengths of calls with om dt <= 1, numbers of calls, real arithmetic", "why_tests_cant": "tests compare with numbers at chosen steps; closeness to the exact motion is about all of them", "anchors": ["src/generic_rigid_body_system.cpp:processConstraints", "src/link_constraint.cpp:calculate", "src/fixed_position_constraint.cpp:calculate", "src/nsv_ode_solver.cpp:solve", "src/euler_ode_solver.cpp:solve"]}
{"id": "C137", "title": "Springs with dampers follow the exact damped motion", "statement": "For two bodies in line at the ends of a spring with a damper, with r = 1/m1 + 1/m2, ks r = mu^2 + nu^2 = om^2 and kd r = 2 mu, the distance from the exact solution of s'' = -ks r s - kd r s' after n sub-steps of length h is at most exp(-mu n h) (exp(n q) - 1) times the amplitude, with q = 7 (om h)^2 om/nu. So a call of any length comes as close to it as wanted if it has enough sub-steps.", "quantifier": "all systems with one underdamped spring and gravity, both classes of systems, the explicit and the semi-implicit scheme, starts that leave room, numbers of sub-steps and of calls, real arithmetic", "why_tests_cant": "tests compare with numbers at chosen sub-steps; closeness to the exact motion is about all of them", "anchors": ["src/spring.cpp:apply", "src/nsv_ode_solver.cpp:solve", "src/euler_ode_solver.cpp:solve"]}
