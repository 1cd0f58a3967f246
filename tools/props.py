# generates properties.jsonl
import json,os
P=[]
def p(id,title,statement,quant,why,anchors):
    P.append(dict(id=id,title=title,statement=statement,quantifier=quant,why_tests_cant=why,anchors=anchors))
M="src/matrix.cpp"; MH="include/matrix.h"; S="include/sparse_matrix.h"
p("C01","Matrix behaves as a table under every history",
 "After any sequence of Matrix calls with in-range arguments (construct, initialize, resize, element set/add, copy from another Matrix, row swap, destroy), get(column,row) returns exactly what an abstract table holding the last written value per (column,row) would return; writing one element changes no other element of that or any other matrix; no call touches memory outside the matrix's own storage.",
 "every finite sequence of operations, every dimension, every element value, every number format",
 "the row-pointer/capacity bookkeeping depends on the whole history of sizes and swaps; tests sample a handful of histories",
 [M+":resize",M+":destroy",M+":initialize",MH+":set/add/get/fastRowSwap"])
p("C02","initialize gives a fresh matrix whatever came before",
 "After initialize(w,h,v) the matrix is w by h and every element reads v; after initialize(w,h) every element reads zero; this holds whatever sizes, contents or row swaps the object had before, and on a never-used or destroyed object.",
 "every prior state reachable through the API and every w,h,v","stale capacity, stale row pointers and uninitialised storage only show up for particular histories",
 [M+":initialize",M+":resize"])
p("C03","Dense products and transposes are the mathematical ones",
 "multiply, transposeMultiply and transpose write into the target, for all operand sizes that match, exactly A*B, A^T*B and A^T (dimensions included), leave the operands unchanged, and do not depend on the target's earlier size or content.",
 "all dimensions, all real matrices, all prior target states (target distinct from operands)","index transposition errors vanish on square/symmetric samples; tests use a few literals",
 [M+":multiply",M+":transposeMultiply",M+":transpose"])
p("C04","Element-wise operations are correct, also in place",
 "add, subtract, scale, negate, componentMultiply, leftScale, rightScale, madd and pmadd produce the element-wise result for every size, also when the target is the object itself or the other same-sized operand.",
 "all dimensions, values and every aliasing pattern between the operands and the target","aliasing patterns and sizes are unbounded; tests never alias",
 [M+":add",M+":subtract",M+":scale",M+":negate",M+":componentMultiply",M+":leftScale",M+":rightScale",M+":madd",M+":pmadd"])
p("C05","Products into one of their own operands",
 "multiply with the target equal to one of the operands yields the product.",
 "all matrices","needs a specific aliasing pattern; expected to fail for this code",[M+":multiply"])
p("C06","equals decides closeness",
 "equals(b,err) returns true exactly when both matrices have the same dimensions and every pair of elements differs by at most err.",
 "all matrices and tolerances, including NaN elements in floating point","special values and positions of the differing element are unbounded",[M+":equals"])
p("C07","dot and squared magnitude",
 "dot and vectorMagnitudeSquared of column vectors return the sum of products of corresponding elements; the magnitude is non-negative and zero only for the zero vector.",
 "all column vectors in every reachable storage layout","they read through the first row pointer only, so correctness depends on the history of row swaps",
 [M+":dot",M+":vectorMagnitudeSquared",MH+":fastRowSwap"])
p("C08","Bulk load is row-major",
 "set(const double*) makes element (column,row) equal data[row*width+column].",
 "all data and every reachable storage layout","depends on earlier row swaps that same-size resizes do not undo",[M+":set",MH+":fastRowSwap",M+":resize"])
p("C09","Sparse expand is the table the entries describe",
 "expand and expandTransposed give a matrix that is zero except that, for every non-empty entry of a row, the stride consecutive columns of that entry's block carry the entry's values; the two results are transposes of each other.",
 "all heights, strides, entry counts, block assignments and values","tests use one stride and a few shapes",[S+":expand",S+":expandTransposed"])
p("C10","Sparse-times-dense equals dense-times-dense",
 "multiply(b) equals the product of the expanded matrix with b.",
 "all sparse matrices with distinct non-empty blocks per row, all b","exact agreement must hold for every block pattern",[S+":multiply"])
p("C11","J*K^T from sparse operands equals the dense product",
 "multiplyTranspose(b_T) equals expand() * expand(b_T)^T.",
 "all pairs of sparse matrices of equal width with distinct non-empty blocks per row","pairs of block patterns are combinatorial",[S+":multiplyTranspose"])
p("C12","Sparse transpose times vector",
 "transposeMultiplyVector(b) equals expand()^T * b.",
 "all sparse matrices with distinct non-empty blocks per row, all b","block patterns are combinatorial",[S+":transposeMultiplyVector"])
p("C13","Sparse scaling",
 "leftScale/rightScale produce a sparse matrix whose expansion is diag(s)*expand() and expand()*diag(s), with the same empty entries, whatever the target held before.",
 "all sparse matrices, scale vectors and prior target states","stale target content shows only after particular histories",[S+":leftScale",S+":rightScale"])
p("C14","Sparse reads never see stale or uninitialised storage",
 "After initialize and setting the values of the entries that were given a block, every product, scaling and expansion is determined by those values only: empty entries never contribute, whatever the storage held before.",
 "all histories of the object's storage, including freshly allocated memory","uninitialised memory is usually zero in tests",[S+":initialize",S+":multiply",S+":multiplyTranspose",S+":transposeMultiplyVector",S+":expand"])
p("C15","Sparse matrix is reusable after destroy",
 "After destroy() a sparse matrix can be initialized to any size and used again.",
 "all sizes before and after","depends on the relation between the old capacity and the new height; expected to fail",[S+":destroy",S+":resize"])
p("C16","Sparse operations agree with expand for any block pattern",
 "The agreement of C10-C12 with the dense expansion also holds when a row names the same block in two entries (a constraint between a body and itself).",
 "all block patterns","expected to fail: expand overwrites, products add",[S+":expand",S+":multiply"])
GE="src/gaussian_elimination_sle_solver.cpp:solve"; GS="src/gauss_seidel_sle_solver.cpp"; CG="src/conjugate_gradient_sle_solver.cpp"
p("C17","Gaussian elimination solves every non-singular system",
 "For every J, W, right for which J*diag(W)*J^T is non-singular, solve returns true without assertion failure or undefined behaviour and the result x satisfies J*diag(W)*J^T*x = right exactly (exact arithmetic).",
 "all numbers of constraints and bodies, all J, W, right with non-singular system matrix","pivoting paths and sizes are unbounded",[GE])
p("C18","Gaussian elimination does not report success on an unsolvable system",
 "If J*diag(W)*J^T*x = right has no solution, solve does not return true.",
 "all singular systems, debug and release builds","rank-deficient patterns; behaviour differs between builds; expected to fail in release builds",[GE])
p("C19","Gaussian elimination forgets its history",
 "The result of solve depends only on J, W and right: not on earlier solves by the same solver object, nor on the previous content of the result or previous argument.",
 "all histories of the solver object","internal row permutation and capacity survive between calls",[GE])
p("C20","Limited Gauss-Seidel stays inside the limits",
 "After solveWithLimits (at least one iteration) every component of the result lies between its two limits, for every floating-point input including infinities and NaN, provided the limits are ordered.",
 "all IEEE-754 inputs, all sizes","NaN/inf propagation paths are not sampled by tests",[GS+":solveIteration"])
p("C21","A stationary Gauss-Seidel result is the constrained solution",
 "If a sweep leaves the vector unchanged then the vector solves the system with limits: each component is within limits, and its residual is zero, or points outward at the limit it sits on; without limits it solves the linear system.",
 "all matrices with positive diagonal, all limits","needs reasoning over all fixed points",[GS+":solveIteration"])
p("C22","A Gauss-Seidel sweep never increases the energy",
 "For a symmetric matrix with positive diagonal, one limited sweep started inside the limits never increases x^T A x / 2 - b^T x, and leaves it unchanged only if it leaves x unchanged.",
 "all symmetric matrices with positive diagonal, all limits and vectors","inequality over a continuum",[GS+":solveIteration"])
p("C23","Limited Gauss-Seidel converges given enough iterations",
 "For every symmetric positive definite system and ordered limits, there is an iteration bound beyond which solveWithLimits reports convergence for any positive tolerance.",
 "all such systems, limits, tolerances and starting points","a statement about limits of sequences",[GS+":solveWithLimits"])
p("C24","Gauss-Seidel success means the change was small",
 "When solve or solveWithLimits returns true, the last sweep changed every component by less than minDelta relative to its magnitude (floored at 1e-3).",
 "all systems and starting points","tests that look at converged systems cannot see a false positive; expected to fail for solve",[GS+":solve",GS+":solveWithLimits",GS+":solveIteration"])
p("C25","Conjugate gradient success means a small residual",
 "When solve returns true (exact arithmetic) the returned x satisfies |right_i - (J*diag(W)*J^T*x)_i| <= max(|maxError*right_i|, minError) for every i.",
 "all J, W, right, all tolerances and iteration limits, any warm start","the residual is updated incrementally; its relation to x is an invariant over all iterations",[CG+":solve",CG+":sufficientlySmall"])
p("C26","Conjugate gradient finishes within n iterations",
 "For every symmetric positive definite J*diag(W)*J^T with n constraints, solve returns true in exact arithmetic if maxIterations >= n, for any warm start and any non-negative tolerances.",
 "all SPD systems of any size","a Krylov-space argument over all sizes",[CG+":solve"])
p("C27","Conjugate gradient never reports success with a non-finite result",
 "If solve returns true in double precision, the result contains no NaN or infinity.",
 "all floating-point inputs","NaN compares false; expected to fail",[CG+":solve",CG+":sufficientlySmall"])
p("C28","Solvers are memory safe and terminate on every input",
 "For matching dimensions each solver's solve/solveWithLimits returns after finitely many steps without assertion failure or out-of-bounds access for every number format and all values (for Gaussian elimination: apart from its explicit singularity assertions), and leaves J, W and right unchanged.",
 "all dimensions, all values of all number formats, all prior solver states","sizes and values unbounded",[GE,GS,CG])
p("C29","Gauss-Seidel without limits starts from determinate values",
 "solve called with a fresh result object (and previous null or the same object, as the rigid body systems do) yields a result determined by its inputs.",
 "all first calls and all calls after a size change","uninitialised memory is usually zero in tests; expected to fail",[GS+":solve","src/generic_rigid_body_system.cpp:processConstraints"])
RS="src/rigid_body_system.cpp"
p("C30","Body registry stays consistent",
 "After any sequence of addRigidBody/removeRigidBody in which only absent bodies are added and only present bodies removed, getRigidBodyCount is the number of present bodies, getRigidBody(i) ranges over exactly the present bodies without repetition, and body->index == i for getRigidBody(i).",
 "all finite histories","removal swaps with the last element; the interesting orders are unbounded",[RS+":addRigidBody",RS+":removeRigidBody",RS+":getRigidBody"])
p("C31","Constraint and force generator registries stay consistent",
 "The same as C30 for constraints and force generators; getFullConstraintCount is the sum of the constraint counts of the present constraints.",
 "all finite histories","as C30",[RS+":addConstraint",RS+":removeConstraint",RS+":addForceGenerator",RS+":removeForceGenerator",RS+":getFullConstraintCount"])
p("C32","A removed body is no longer attached to the system",
 "After removeRigidBody(b), b->index is -1 again, so forces and constraints holding b treat it as not in the system.",
 "all histories","needs an observation after removal; expected to fail",[RS+":removeRigidBody",RS+":reset"])
RB="src/rigid_body.cpp"; SS="src/system_state.cpp"
p("C33","Coordinate transforms are mutually inverse isometries",
 "localToWorld and worldToLocal are inverse to each other and preserve distances, for every position, angle and point (exact arithmetic); SystemState::localToWorld agrees with RigidBody::localToWorld.",
 "all poses and points","a continuum of poses",[RB+":localToWorld",RB+":worldToLocal",SS+":localToWorld"])
p("C34","velocityAtPoint is the velocity of the material point",
 "velocityAtPoint returns the time derivative of localToWorld of that point along any motion with the given velocities.",
 "all motions and points","a calculus statement",[SS+":velocityAtPoint"])
p("C35","applyForce is the generalised force of the point force",
 "applyForce adds exactly (f_x,f_y) to the body's force and the moment of the force about the body's position to its torque, touches no other body or field, and the power f.v + torque*omega equals F . velocityAtPoint.",
 "all states, points, forces, bodies","needs to hold for all poses and velocities",[SS+":applyForce"])
p("C36","Kinetic energy is positive definite",
 "energy() is non-negative for non-negative mass and inertia, and for positive ones zero exactly when the body is at rest; it depends on nothing but m, I and the velocities.",
 "all bodies","inequality over a continuum",[RB+":energy"])
p("C37","SystemState::copy reproduces the source",
 "After copy(src) every per-body and per-constraint array of the destination reads the same as the source's, without out-of-bounds access.",
 "all sizes of source and destination","depends on the size history of the destination; expected to fail when the destination is larger",[SS+":copy",SS+":resize"])
p("C38","SystemState::resize always leaves room",
 "After any sequence of resize/destroy, a resize(b,c) leaves all per-body arrays with at least b readable elements and the per-constraint arrays with at least c (2c for reactions), and never loses room it reports in n, n_c.",
 "all histories","capacities depend on history",[SS+":resize",SS+":destroy"])
p("C39","Euler step","EulerOdeSolver::solve advances every body's position by the old velocity times dt and its velocity by the acceleration times dt, and changes nothing else.","all states, sizes, dt, number formats","all sizes and values",["src/euler_ode_solver.cpp:solve"])
p("C40","NSV step","NsvOdeSolver::solve advances every velocity by acceleration times dt and then every position by the new velocity times dt, and changes nothing else; under constant acceleration k steps give exactly the closed form.","all states, sizes, dt, step counts","unbounded step counts",["src/nsv_ode_solver.cpp:solve"])
RK="src/rk4_ode_solver.cpp"
p("C41","RK4 uses exactly four evaluations",
 "After start, the step/solve protocol reports completion on exactly the fourth step, so the driver loop ends; after end or without start it never reports completion.",
 "all states, sizes, number formats","a termination claim",[RK+":step",RK+":solve",RK+":getNextStage"])
p("C42","RK4 is exact for constant accelerations",
 "If the accelerations do not change between evaluations, any number of RK4 steps of any size gives the exact closed-form position and velocity.",
 "all states, dt, step counts","unbounded step counts, continuum of values",[RK+":step",RK+":solve"])
p("C43","RK4 is the classical fourth-order method",
 "For every acceleration law depending on position and velocity one step equals the classical Runge-Kutta step.",
 "all acceleration laws","expected to fail: stage positions use the already updated velocities",[RK+":step"])
p("C44","Gravity","GravityForceGenerator adds -m*g to every body's f_y and changes nothing else.","all states","all sizes",["src/gravity_force_generator.cpp:apply"])
SP="src/spring.cpp"
p("C45","Springs obey Newton's third law","A spring between two bodies adds opposite forces to them, so total force is unchanged.","all states, parameters","continuum",[SP+":apply"])
p("C46","Undamped springs are conservative and central","With zero damping the spring exerts no net torque on the pair about any point and its power equals minus the rate of change of energy() (ends at least 1e-2 apart).","all motions and parameters","calculus statement",[SP+":apply",SP+":energy"])
p("C47","Spring damping only removes energy","The damping part of the spring force does non-positive work for kd >= 0.","all states and parameters","inequality over a continuum",[SP+":apply"])
p("C48","Damped springs exert no net torque on the pair","Also with damping the spring's action on the pair has zero total moment (angular momentum is conserved).","all states and parameters","expected to fail: damping acts along the full relative velocity",[SP+":apply"])
p("C49","Springs to bodies outside the system","A spring one of whose bodies is not in the system (index -1) acts on the other body as anchored at the free body's pose.","all states","expected to fail with an out-of-bounds access",[SP+":apply"])
p("C50","Motor torque limit and reaction","ConstantSpeedMotor never applies more than maxTorque in magnitude, for every floating-point input including NaN, applies the opposite torque to the base body, and drives the relative speed towards m_speed.","all states and parameters","NaN paths",["src/constant_speed_motor.cpp:apply"])
p("C51","Forces do not accumulate between evaluations","Before force generators are applied every present body's force and torque are reset, so the forces of a step depend only on the current state.","all histories","history dependent",[RS+":processForces"])
CO=["src/fixed_position_constraint.cpp:calculate","src/line_constraint.cpp:calculate","src/link_constraint.cpp:calculate","src/rolling_constraint.cpp:calculate","src/fixed_rotation_constraint.cpp:calculate"]
p("C52","Constraint Jacobians are the derivatives of the constraint functions",
 "For FixedPosition, Line, Link, Rolling and FixedRotation constraints, each J entry is the partial derivative of the corresponding C with respect to that coordinate, at every state.",
 "all states and parameters","finite differences at sample points only approximate",CO)
p("C53","Jacobian time derivatives","For the same constraints (and the purely rotational ones) each J_dot entry is the time derivative of the J entry along any motion with the given velocities.","all motions and parameters","calculus statement",CO)
p("C54","Constraint functions express the geometry","C is zero exactly when: the body point is at the world point (FixedPosition), on the line (Line), the two body points coincide (Link), the angle is the given one (FixedRotation), the rolling body's centre is radius away from the surface line (Rolling, second row).","all states and parameters","continuum",CO)
p("C55","Rolling constraint means rolling without slipping","When both rows of the rolling constraint's velocity condition hold over a fixed base with unit surface direction, the contact point of the rolling body is at rest.","all radii and states","tests use radius 1 only; expected to fail for other radii",["src/rolling_constraint.cpp:calculate"])
p("C56","A constraint's output is its own","calculate overwrites every field the systems read for that constraint's rows, so nothing leaks from the constraint evaluated before it; limits are ordered.","all constraint kinds, states and previous outputs","leak depends on evaluation order",["src/*_constraint.cpp:calculate","include/constraint.h:noLimits"])
p("C57","Links act with equal and opposite forces","The forces of a link constraint on its two bodies are opposite and have no net moment when the joint is closed.","all states and multipliers","continuum",["src/link_constraint.cpp:calculate"])
ON="src/optimized_nsv_rigid_body_system.cpp"; GN="src/generic_rigid_body_system.cpp"
p("C58","Optimized system: velocities satisfy the constraints after a step",
 "With an exact solver (Gaussian elimination, non-singular system, non-zero masses) one process(dt,1) of the optimized system ends without assertion failure or undefined behaviour with velocities v' such that for every constraint row J*v' + v_bias + (biasFactor/dt)*C = 0, J, v_bias and C taken at the old state, and positions advanced by v'*dt.",
 "all systems of at most 255 bodies with at least one constraint, bound to bodies of the system (C66 to C68 have the others), all constraints (built-in or user-defined), all forces","end-to-end claim over all system shapes",[ON+":process",ON+":processConstraints"])
p("C59","Generic system: accelerations satisfy the stabilised constraint equation",
 "With an exact solver the accelerations satisfy J*a + J_dot*v = -ks*C - kd*J*v for every constraint row.",
 "all systems of at most 255 bodies, all constraints, all forces","end-to-end claim",[GN+":processConstraints"])
p("C60","Free bodies obey Newton's second law","A body no constraint is bound to gets acceleration force/mass and torque/inertia in both systems.","all systems whose constraints are bound to bodies of the system (C32 has the others)","end-to-end claim",[ON+":processConstraints",GN+":processConstraints"])
p("C61","Reported constraint forces are the applied ones (optimized)","After process the F_x, F_y, F_t of every constraint, row and body are the forces that were applied to that body for that row in the last step.","all systems whose constraints are bound to bodies of the system (C32 has the others)","index arithmetic over all shapes",[ON+":propagateResults"])
p("C62","Reported constraint forces are the applied ones (generic)","The same as C61 for the generic system.","all systems whose constraints are bound to bodies of the system (C32 has the others)","expected to fail: a different index formula is used",[GN+":process"])
p("C63","Force limits are respected","With the limit-supporting solver every constraint multiplier (force) applied by the optimized system lies within the constraint's limits; a neutral gear applies none.","all systems and states","end-to-end claim",[ON+":processConstraints",GS])
p("C64","Force limits are respected by every solver","C63 with any of the supplied solvers.","all solvers","expected to fail: other solvers ignore limits",[ON+":processConstraints"])
p("C65","ConstantRotationConstraint drives the body to m_rotationSpeed","After a step with exact solver and no binding limits the body's angular velocity equals m_rotationSpeed.","all systems","sign error shows only against the end-to-end equation; expected to fail",["src/constant_rotation_constraint.cpp:calculate",ON+":processConstraints"])
p("C66","More than 255 bodies","C58 holds for any number of bodies.","all body counts","tests have a handful of bodies; expected to fail: body indices are stored in 8 bits",[S+":setBlock",ON+":processConstraints"])
p("C67","Constraints to bodies outside the system","A constraint one of whose bodies is not in the system (index -1) is processed without touching memory out of bounds.","all systems","silent memory corruption; expected to fail",[ON+":processConstraints",GN+":processConstraints"])
p("C68","Constraints may be removed","After any sequence of adding/removing constraints and processing, process works for the remaining ones, also for none.","all histories","history dependent; expected to fail with Gaussian elimination when the last constraint is removed",[ON+":processConstraints",GE])
p("C69","Destruction","Destroying a system or solver after any use trips no destructor assertion.","all histories","expected to fail for the generic system",[GN+":~GenericRigidBodySystem",M+":~Matrix"])
p("C70","Elapsed time and profiling","timeElapsed is the sum of the dt of all process calls; the profiling index stays in range; the averages are over recorded samples only.","all call sequences","ring-buffer wrap-around",[ON+":process",RS+":findAverage"])
p("C71","Sub-stepping equals repeated stepping","process(dt,k) leaves the bodies exactly as k calls process(dt/k,1).","all systems and k","history dependent; fails with speed motors, which read the previous acceleration",[ON+":process",RS+":populateSystemState","src/constant_speed_motor.cpp:apply"])
p("C72","Momentum conservation","Internal interactions only (links, springs): a step leaves total linear momentum unchanged.","all systems","end-to-end claim",[ON+":process"])
p("C73","process changes only the motion","process leaves masses, inertias, registry membership, indices and constraint parameters unchanged.","all systems, all number formats","frame property",[ON+":process",GN+":process"])
p("C74","Static forces","A StaticForceGenerator adds to its body exactly the generalised force of the given force at the given body point and changes nothing else; without a body in the system its use is undefined.","all states and parameters","continuum",["src/static_force_generator.cpp:apply"])
p("C75","Springs obey the third law in floating point","The force components a spring adds to its two bodies are exact floating-point negatives of each other (up to the sign of zero), for every input including infinities and NaN.","all binary64 inputs, any sine and cosine","rounding cases cannot be enumerated",["src/spring.cpp:apply"])
p("C76","Rotational constraints measure spin","For constant rotation, friction, clutch and gear constraints the Jacobian row times the velocities is the angular velocity, the difference of the two, or omega1 - ratio*omega2; the bias is the set speed (zero for the others); the limits are the given ones and zero for a neutral gear.","all states and parameters","continuum",["src/constant_rotation_constraint.cpp:calculate","src/clutch_constraint.cpp:calculate","src/rotation_friction_constraint.cpp:calculate","src/simple_gear_constraint.cpp:calculate"])
p("C77","A step closes the gaps of the built-in constraints",
 "With Gaussian elimination (non-singular system) after process(dt,1) of the optimized system the new velocities satisfy, at the old poses: the velocity of a fixed point, the normal velocity of a point on a line, the relative velocity of two linked points and the two rolling conditions are -biasFactor/dt times the respective gap; a fixed rotation turns with -biasFactor/dt times the angle error, a constant rotation with minus the set speed, friction stops the body, a clutch makes the spins equal and a gear (also a neutral one) makes them proportional.",
 "all systems of at most 255 bodies built from the nine constraint classes, all forces","end-to-end claim",[ON+":process",ON+":processConstraints","src/*_constraint.cpp:calculate"])
p("C78","Angular momentum","One step with links whose ends coincide, clutches and undamped springs between the bodies leaves the angular momentum about the origin unchanged; in general it changes by dt times the torques of the generators and of the constraints, where open links, rolling, gears and the constraints that turn one body contribute.","all systems of at most 255 bodies, all supplied solvers","end-to-end claim; shows which constraints exert a net torque",[ON+":process",GN+":process","src/*_constraint.cpp:calculate"])
p("C79","A Runge-Kutta solver of its own stays within the arrays","A Runge-Kutta solver that serves one system only, process being called with at least one step each time, copies exactly the system's arrays, whatever bodies and constraints are added and removed in between.","all histories, all number formats","history dependent: the arrays only grow and the copy takes its lengths from the destination; false for a solver that served a larger system or after a call with no steps",["src/system_state.cpp:copy","src/rk4_ode_solver.cpp:start",GN+":process"])
p("C80","A sparse matrix is a table of entries","After any sequence of initialize, setBlock, set and setEmpty with arguments in range, get and the block of an entry are what was last written there: setBlock and set change one block and one value, setEmpty marks the entry empty and clears all its values, and no call disturbs another entry, row or object.","all histories, strides and entry counts, all number formats","index arithmetic over all shapes",[S+":set",S+":get",S+":setBlock",S+":setEmpty",S+":initialize"])
p("C81","A step disturbs the free motion least","Gauss's principle: with Gaussian elimination, non-singular rows and positive masses, the velocities after process(dt,1) of the optimized system are, among all velocities for which every row has the wanted rate, the only ones nearest (in kinetic energy of the difference) to the velocities the forces alone would give; in the generic class with the Euler solvers the same holds of the accelerations.","all systems of at most 255 bodies, also with constraints and generators of the user","characterises the result without the solver's equations; uncountably many competitors",[ON+":process",GN+":process",GE])
p("C82","Constraints do not add kinetic energy","Kinetic energy after a step of the optimized system plus that of the correction equals the energy of the free motion minus dt times the work of the multipliers on gaps and set speeds; with no gaps and no set speeds it is at most the energy of the free motion, and without generators at most the energy before the step.","all systems of at most 255 bodies, Gaussian elimination","energy balance needs exact sums over all bodies",[ON+":process",ON+":processConstraints"])
p("C83","A separate part of a system moves as if it were alone","If no constraint or generator joins some bodies of a system to the rest, then after any number of calls they are where they would be in a system of their own, whatever else is in the larger system.","all systems built from the supplied classes, any number of calls, both classes","compares two systems of different size",[ON+":process",GN+":process"])
p("C84","The order of assembly does not matter","Two systems of the same bodies, constraints and generators, added in different orders, are in the same state after any number of calls.","all orders, any number of calls, both classes","factorially many orders",[RS+":addRigidBody",RS+":addConstraint",RS+":addForceGenerator",ON+":process",GN+":process"])
p("C85","Motion is relative","A system whose constraints do not hold on to the world, started at another place and with a common additional velocity, goes through the same motion: after any number of calls its velocities differ by that velocity and its places by the shift plus the time times that velocity.","all systems built from the supplied constraints, springs, gravity and static forces, both classes","Galilean invariance quantifies over shifts and velocities",[ON+":process",GN+":process","src/*_constraint.cpp:calculate","src/spring.cpp:apply"])
p("C86","A wheel does not slip on a surface that turns","Velocities that keep both rows of the rolling constraint have the wheel's contact point move with the point of the base it touches.","all poses, radii, directions of the surface and velocities of both bodies","the base turns in none of the tests; the slip depends on its angular velocity",["src/rolling_constraint.cpp:calculate"])
p("C87","Orientation does not matter","A system without gravity, turned by any angle and moved to another place together with its fixed points, lines, angles and forces, goes through the turned and moved motion, over any number of calls.","all angles, places, systems built from the supplied constraints, springs and static forces, both classes, any number of calls","rotation invariance quantifies over all angles",[ON+":process",GN+":process","src/*_constraint.cpp:calculate","src/spring.cpp:apply"])
p("C88","Systems may share a solver","Any number of systems of either class that use one linear solver, their process calls made in any order, end up exactly where each would have ended up with a solver of its own, or the first failure is one that system would have met alone; direct use of the solver in between changes nothing either.  Integrators that keep nothing but the step length may be shared too.","all numbers of systems, all orders of calls, all supplied solvers, all number formats","history dependent: solvers keep matrices, which are only resized",[ON+":process",GN+":process","src/*_sle_solver.cpp:solve"])
p("C89","Gaps close geometrically","With Gaussian elimination and non-singular rows each call process(dt,1) of the optimized system leaves 1 - biasFactor times the gap of every fixed position, line, link and fixed rotation constraint, up to dt*dt/2 times the lever arms times the squared angular velocities; over any number of calls the gap stays below (1-biasFactor)^n times the first one plus a bound independent of n, and for fixed rotations and points in the middle of their bodies it is exactly (1-biasFactor)^n times the first one.","all systems of at most 255 bodies built from the supplied classes, any number of calls, every biasFactor","long-run behaviour over unboundedly many calls",[ON+":process",ON+":processConstraints","src/*_constraint.cpp:calculate"])
p("C90","Units do not matter","A system whose lengths, times (with the step) and masses are given in other units, all derived quantities with them, goes through the same motion in those units, over any number of calls.","all positive unit ratios, systems built from the supplied constraints, springs, gravity and static forces, both classes, any number of calls","dimensional consistency quantifies over all unit ratios; tests use one set of numbers",[ON+":process",GN+":process","src/*_constraint.cpp:calculate","src/spring.cpp:apply","src/gravity_force_generator.cpp:apply"])
p("C91","Left and right do not matter","A system with left and right exchanged (the x coordinates and angles of bodies, points, lines and forces change sign, surfaces keep their wheels, torque limits change sign) goes through the mirror image of the motion, over any number of calls.","all systems built from the supplied constraints, springs, gravity and static forces, both classes, any number of calls","mirror symmetry relates two whole systems over any number of calls; a sign error in one entry of a Jacobian breaks it",[ON+":process",GN+":process","src/*_constraint.cpp:calculate","src/spring.cpp:apply","src/static_force_generator.cpp:apply"])
p("C92","Determinate systems stay determinate","A system with at least one constraint, built from the supplied constraints and generators attached to bodies in it, in which every position, velocity, mass and parameter has been set, goes through any number of process calls without undefined behaviour (no access out of bounds, no branch on an indeterminate value, no missing object) and without an endless loop, and every position and velocity and (optimized class) every reported constraint force is determinate afterwards.","all histories, all number formats in which division, root, sine and cosine always yield a value (binary64 with overflow, NaN and all), both classes, all supplied solvers","memory safety and initialisation over all histories, sizes and values, NaN and infinities included",[ON+":process",GN+":process",RS+":populateSystemState","src/*_sle_solver.cpp:solve","src/*_constraint.cpp:calculate","src/rk4_ode_solver.cpp:solve"])
p("C93","The size of a constraint is checked","Constructing a constraint of at most three rows and two bodies succeeds and yields one that is attached to nothing and reports zero forces; the nine supplied classes are within these sizes; a larger constraint is never used.","all classes and sizes, all number formats","the check is an assertion; expected to fail without assertions",["src/constraint.cpp:Constraint",ON+":processConstraints",GN+":processConstraints"])
p("C94","Statics: equilibrium is kept and the reported forces carry the load","A system at rest with its constraints met, whose forces are balanced by multipliers of its constraint rows, stays at rest over any number of calls, and the optimized class reports exactly the balancing forces; conversely, if a call leaves the bodies at rest, the forces were balanced.","all systems of the supplied constraints and generators without motors, any bodies, any number of calls","needs exact arithmetic and a search for balancing forces over all structures",[ON+":processConstraints",GN+":processConstraints",ON+":propagateResults"])
p("C95","A call that advances nothing changes nothing","process with no sub-steps, or with a step of length zero, leaves every position and velocity as it was.","all systems, both classes","pausing by passing zero is a corner no test suite visits for every solver; expected to fail where the code divides by the length",[ON+":process",GN+":process",ON+":processConstraints"])
p("C96","What is not finite stays so","Once a position or velocity is infinite or not a number, no call makes it finite again; a velocity that is not finite takes the position with it; what is not a number stays exactly that.","all systems, both classes, all supplied integrators, any number of calls, binary64","infinitely many computations could mask the fault, for instance by a comparison",[ON+":process",GN+":process","src/nsv_ode_solver.cpp:step","src/euler_ode_solver.cpp:solve","src/rk4_ode_solver.cpp:solve"])
p("C97","Groups of bodies do not affect one another","If no constraint and no spring goes between two groups of bodies, the motion of one does not depend on the other, even if the other is at fault.","all systems and solvers, binary64","depends on every intermediate result of the solvers; expected to fail where zero times not-a-number is added",[GE+":solve","src/conjugate_gradient_sle_solver.cpp:solve"])
p("C98","Rows that do not interact get exactly their limited force","With Gauss-Seidel, if no row of any constraint moves another one, a call succeeds and every multiplier is exactly the one its equation asks for, limited to the range of its class.","all systems of the optimized class with uncoupled rows, all positions, velocities, masses, forces and steps; any number of rows","the iteration has to end at the exact values for every real input and size",[ON+":process",GS+":solve"])
p("C99","Slipping decreases by the limit and never reverses","Over any number of calls the slip of a friction, clutch or constant-speed constraint that nothing else drives decreases by the limit times its give in each call, stops at zero and never changes sign.","all such systems, any number of calls, all limits, inertias, speeds and steps","arbitrarily many calls and all real parameters",["src/rotation_friction_constraint.cpp:calculate","src/clutch_constraint.cpp:calculate","src/constant_rotation_constraint.cpp:calculate",GS+":solve",ON+":process"])
p("C100","Free flight","A body that no constraint holds and on which a steady force acts has the exact velocity after a call with any number of sub-steps; its position is off the parabola by a dt^2/2n to a known side, and exactly on it with the fourth-order solver.","all systems, both classes, all supplied integrators, all forces, masses, steps and numbers of sub-steps","any number of sub-steps and all real inputs; a wrong order of updates changes only the side",["src/nsv_ode_solver.cpp:solve","src/euler_ode_solver.cpp:solve","src/rk4_ode_solver.cpp:solve",ON+":process",GN+":process"])
p("C101","Constraints of the generic class are springs and dampers","The accelerations of a step make the amount by which every row misses its aim obey g'' = -ks g - kd g' along the motion, for all classes with a position.","all systems of the generic class solved by elimination, all positions, velocities, forces and masses","second derivatives along the motion, for all real inputs",[GN+":processConstraints","src/link_constraint.cpp:calculate","src/rolling_constraint.cpp:calculate"])
p("C102","Gaps of the generic class over many calls","The gap of a constraint that holds centres or angles and its rate follow the recurrence of a spring and damper, whatever else happens. Without damping the gap stays bounded with the symplectic solver if ks dt^2 < 4 and grows geometrically in energy with the explicit one.","all systems of the generic class solved by elimination, any number of calls","any number of calls, all real parameters, and independence of everything else in the system",[GN+":process","src/nsv_ode_solver.cpp:solve","src/euler_ode_solver.cpp:solve"])
p("C103","Brakes of the generic class over many calls","The speed braked by a friction, clutch, gear or constant-rotation constraint of the generic class is multiplied by 1 - kd dt in every call.","all systems of the generic class solved by elimination, any number of calls","any number of calls and all real parameters",[GN+":process","src/rotation_friction_constraint.cpp:calculate","src/clutch_constraint.cpp:calculate","src/simple_gear_constraint.cpp:calculate"])
p("C104","What a motor does in a call","The relative speed of the two bodies of a ConstantSpeedMotor that no constraint holds follows, sub-step by sub-step, the torque ks e - kd a cut off at the largest torque, where e is the missing speed and a the relative acceleration of the sub-step before; the angular momentum one body gains the other loses. With one sub-step per call the damping has no effect.","all systems of both classes in which all other generators are gravity, any constraints on other bodies, both linear solvers, all real parameters, any number of sub-steps and of calls","any number of sub-steps and calls, all real parameters, independence of everything else in the system",["src/constant_speed_motor.cpp:apply","include/constant_speed_motor.h:ConstantSpeedMotor",GN+":process"])
p("C105","A motor reaches its speed","Over calls of one sub-step the relative speed of the two bodies of a motor with positive gain and positive largest torque converges to the set speed.","all such systems, all real parameters","a limit over infinitely many calls",["src/constant_speed_motor.cpp:apply"])
p("C106","A motor with damping reaches its speed in calls of several sub-steps","Whatever its damping, a motor brings two bodies at rest nearer to the set speed over calls of several sub-steps.","all such systems, all real parameters, any lengths and numbers of calls","needs a motion of unbounded length in which alternate sub-steps cancel",["src/constant_speed_motor.cpp:apply",GN+":process"])
p("C107","Calls of several sub-steps","A call of n sub-steps is n steps of length dt/n, each of which satisfies Newton's law with the forces of the generators, motors included, in the state it starts from, the integrator's rule and the law of every row; such calls always succeed when the constraints are independent, and the gaps of constraints shrink or swing once per sub-step.","all systems solved by elimination whose constraints are independent in every pose, any list of calls with nonzero length and a positive number of sub-steps","any number of sub-steps and calls and all real states",[GN+":process","src/optimized_nsv_rigid_body_system.cpp:process","src/nsv_ode_solver.cpp:step"])
p("C108","Arrays are freed once and not lost","In every program that makes, resizes, destroys and ends objects of the matrix, sparse matrix, state and buffer kinds without copying them, no array is freed twice, every array an object has is there and belongs to it alone, and when the destructors' assertions hold no array with elements is lost. The model of array ownership and the model of contents agree on sizes, lengths and failures.","all lists of such operations on any number of objects, both builds","all sequences of allocations and frees on any number of objects; a lost array is not seen by a test without a leak checker",["src/matrix.cpp:destroy","src/matrix.cpp:resize","include/sparse_matrix.h:destroy","include/sparse_matrix.h:resize","src/system_state.cpp:destroy","src/system_state.cpp:resize","src/utilities.cpp:freeArray"])
p("C109","A destroyed state has given back its arrays","SystemState::destroy gives back every array that resize made.","all sizes, all sequences of calls","needs a leak checker and the case of no bodies or no constraints",["src/system_state.cpp:destroy","src/system_state.cpp:resize"])
p("C110","Systems and solvers give back their arrays","When a system, a linear solver or an integrator ends, every array its members got is given back.","all classes with such members, whatever their members were resized to, both builds","all sequences of sizes; arrays lost without any other effect",["src/optimized_nsv_rigid_body_system.cpp:~OptimizedNsvRigidBodySystem","src/generic_rigid_body_system.cpp:~GenericRigidBodySystem","src/rigid_body_system.cpp:~RigidBodySystem","src/gaussian_elimination_sle_solver.cpp:~GaussianEliminationSleSolver","src/gauss_seidel_sle_solver.cpp:~GaussSeidelSleSolver","src/conjugate_gradient_sle_solver.cpp:~ConjugateGradientSleSolver","src/rk4_ode_solver.cpp:~Rk4OdeSolver"])
p("C111","Objects can be copied","A copy of a matrix, a sparse matrix, a state or a system can be used and ended like the original.","all reachable objects of these kinds","implicit copy constructors; all contents",["include/matrix.h:Matrix","include/sparse_matrix.h:SparseMatrix","include/system_state.h:SystemState","include/rigid_body_system.h:RigidBodySystem"])
p("C112","Damped constraints come to rest","In the generic class with the NSV or the Euler solver, the gap of a constraint that holds centres or angles and its rate go to zero geometrically over the sub-steps, exactly if the strengths ks and kd and the sub-step h satisfy: 0 < ks h^2, 0 < kd h and ks h^2 + 2 kd h < 4 for NSV; 0 < ks h^2 < kd h and 2 kd h < 4 + ks h^2 for Euler. The rate depends on ks, kd and h alone.","all reals ks, kd, h, all systems with any constraints, generators and motors whose constraint rows stay independent, all lists of calls with sub-steps of length h, both builds","a limit over unboundedly many calls, and an exact boundary in the reals",["src/generic_rigid_body_system.cpp:processConstraints","src/nsv_ode_solver.cpp:solve","src/euler_ode_solver.cpp:solve","src/fixed_position_constraint.cpp:calculate","src/line_constraint.cpp:calculate","src/link_constraint.cpp:calculate","src/fixed_rotation_constraint.cpp:calculate"])
p("C113","Matrix sizes as ints","Any sequence of resize, initialize, element accesses, row swaps and destroy on a Matrix (and of the size calls on a SparseMatrix<3> or a SystemState) with sizes whose last row starts at an int ((h-1)w for a Matrix, 6(h-1) for a sparse one) computes with ints what it would with unbounded numbers: same sizes, row pointers and array lengths, same errors, no overflow. The next size overflows exactly if its last row does not start at an int.","all lists of calls, all sizes from 0 to INT_MAX, all allocators, both builds","matrices near the bound do not fit in a test machine, and signed overflow need not show",["src/matrix.cpp:resize","src/matrix.cpp:initialize","src/matrix.cpp:destroy","include/matrix.h:set","include/matrix.h:fastRowSwap","include/sparse_matrix.h:resize","include/sparse_matrix.h:initialize","src/system_state.cpp:resize"])
p("C114","Negative sizes","A negative width or height given to a Matrix is rejected or treated as zero.","all sizes","a test with one negative size may end normally by luck",["src/matrix.cpp:resize","src/matrix.cpp:initialize"])
p("C115","After a refused allocation","If new throws in a resize, the object can still be resized and used.","all histories, all sizes, all allocators","tests cannot make new fail at a chosen point",["src/matrix.cpp:resize","src/matrix.cpp:destroy","include/sparse_matrix.h:resize","src/system_state.cpp:resize"])
p("C116","How large a system may be","The int expressions that a call of process evaluates from the number n of bodies and the number m_f of constraint rows all fit in an int exactly if 3n <= INT_MAX and m_f is at most 46340 (Gaussian elimination), 46341 (Gauss-Seidel) or 357913942 (conjugate gradient).","all n and m_f, all indices in their ranges, the three linear solvers","systems of such sizes are not tested, overflow need not show",["src/matrix.cpp:resize","include/sparse_matrix.h:resize","include/sparse_matrix.h:multiplyTranspose","src/rigid_body_system.cpp:populateMassMatrices","src/optimized_nsv_rigid_body_system.cpp:processConstraints","src/generic_rigid_body_system.cpp:processConstraints","src/gaussian_elimination_sle_solver.cpp:solve","src/gauss_seidel_sle_solver.cpp:solve","src/conjugate_gradient_sle_solver.cpp:solve"])
p("C117","Law of two bodies at the ends of a spring","Two bodies joined at their centres by a spring and under nothing else but gravity move, over any calls, so that the second one seen from the first takes one step of the spring equation per sub-step with the sum of the inverse masses; their common momentum changes by their weight times the time only and their rotation is free.","all positions, velocities, masses, lengths, strengths, dampings, all call lists, all other bodies, forces and constraints of the system, both system classes, both one-stage schemes, real arithmetic","a test sees one scene and a few steps",["src/spring.cpp:apply","src/optimized_nsv_rigid_body_system.cpp:process","src/generic_rigid_body_system.cpp:process"])
p("C118","Equal areas at an undamped spring","The line between two bodies at the ends of an undamped spring sweeps equal areas in equal times.","as C117","a slow drift over many steps stays within the tolerance of a test",["src/spring.cpp:apply","src/optimized_nsv_rigid_body_system.cpp:process","src/generic_rigid_body_system.cpp:process"])
p("C119","An undamped spring neither gains nor loses","Two bodies that move along an undamped spring between them never move further from its rest length than their first energy allows.","as C117, motion along the spring","growth shows after many steps only",["src/spring.cpp:apply","src/euler_ode_solver.cpp:solve","src/nsv_ode_solver.cpp:solve"])
p("C120","A damped spring brings its ends to rest","Two bodies that move along a damped spring between them come to rest at its length, if the steps are short enough.","as C117, motion along the spring, all call lists with enough sub-steps","a limit over an unbounded number of steps",["src/spring.cpp:apply"])
p("C121","The project's tests pass in the model","The model of the library passes the model of the project's tests of matrices, sparse matrices, linear solvers and integrators, in binary64 arithmetic, with and without asserts.","both builds; the data of the tests","it is what the tests check, and says that the model agrees with them",["test/matrix_tests.cpp","test/sparse_matrix_tests.cpp","test/gaussian_elimination_sle_solver_tests.cpp","test/conjugate_gradient_sle_solver_tests.cpp","test/euler_ode_solver_tests.cpp","test/rk4_ode_solver_tests.cpp"])
p("C122","The derivative test of constraints passes everywhere","The test that compares the Jacobian of a constraint and its time derivative with difference quotients passes, for each constraint on positions, at all poses, as long as the levers are not too long for its tolerance.","all positional constraint classes, all parameters and poses with levers within a bound, both builds, real arithmetic","the test draws ten poses of one constraint",["test/rolling_constraint_tests.cpp:verify","src/rolling_constraint.cpp:calculate"])
p("C123","The scale tests notice wrong elements","The tests of SparseMatrix::rightScale and leftScale fail if the sparse and the dense matrix they compare hold different elements.","all elements","a test does not test itself",["test/sparse_matrix_tests.cpp:RightScale","test/sparse_matrix_tests.cpp:LeftScale"])
p("C124","What the integrator tests should expect","The drivers of the integrator tests end, for any number of steps, bodies, times and states, with the position x + v t + a t^2 / 2 (1 + e / n) and the velocity v + a t, where e is -1, 1 or 0 for the explicit, the semi-implicit and the Runge-Kutta solver.","all numbers of steps and bodies, all times, positions, velocities, constant accelerations, both builds, real arithmetic","the tests take 1 and 100 steps",["test/euler_ode_solver_tests.cpp:eulerSolve","test/rk4_ode_solver_tests.cpp:rk4Solve"])
p("C125","Conjugate gradient returns the best point","When the conjugate gradient solver returns true, it has stopped at the first Krylov space whose best point is good enough, and returns that point: of all x0 + y with y in the space spanned by r0, A r0, ..., A^(k-1) r0, with r0 the first residual and A = J W J^T, the one whose error is least in the energy norm of A.","all systems with positive definite J W J^T, all start vectors and tolerances, both builds, real arithmetic","minimality over a space cannot be sampled",["src/conjugate_gradient_sle_solver.cpp:solve"])
p("C126","Conjugate gradient takes as many steps as there are different eigenvalues","If a polynomial of degree d of the system matrix sends the first residual to zero, the conjugate gradient solver reaches a residual it accepts within d steps. So constraints that do not interact and weigh the same are solved in one step, however many there are.","all systems with positive definite J W J^T, all polynomials of any degree, both builds, real arithmetic","the tests solve single systems and do not count steps",["src/conjugate_gradient_sle_solver.cpp:solve"])
p("C127","Elements grow at most by two per elimination step","After the elimination solver has run, row r of its private matrix holds no element larger than 2^r times the largest element of J W J^T and the right hand side, because the pivot is the largest of its column.","all systems, any size, both builds, real arithmetic","growth depends on the system; the tests look only at the solution",["src/gaussian_elimination_sle_solver.cpp:solve"])
p("C128","Newton's first law holds exactly in binary64","In binary64 a body which no constraint holds and on which the generators put no force in some direction keeps its velocity in that direction bit for bit (but for the sign of a zero) over any number of steps, and its position if it is at rest, with each integrator. So in free fall the sideways speed and the spin do not drift.","all systems of both classes, all three integrators, any number of sub-steps of finite length, all positions and velocities, all masses with a finite inverse, both builds, binary64","no test compares bits, and drift shows only in long runs",["src/optimized_nsv_rigid_body_system.cpp:process","src/rigid_body_system.cpp:process","src/generic_rigid_body_system.cpp:process","src/nsv_ode_solver.cpp:solve","src/euler_ode_solver.cpp:solve","src/rk4_ode_solver.cpp:solve"])
p("C129","The energy of falling bodies","The energy that RigidBody::energy gives for a body which no constraint holds changes by the work of the steady force on it and an error of a known size: -F^2 dt^2 / 2 m n in the symplectic scheme, the same with the other sign in the explicit one, none in the fourth-order one. Over any number of calls under gravity the errors add up, so the energy of motion and height drifts steadily with the coarseness of the steps.","all systems, classes, integrators, steady forces, numbers and lengths of calls and sub-steps, both builds, real arithmetic","the drift depends on the step and shows over long runs",["src/rigid_body.cpp:energy","src/nsv_ode_solver.cpp:solve","src/euler_ode_solver.cpp:solve","src/rk4_ode_solver.cpp:solve","src/gravity_force_generator.cpp:apply"])
p("C130","An accepted Gauss-Seidel result solves a nearby problem","Where solveWithLimits reports success with a tolerance tol below 1, its result solves the limited problem exactly for a right side that differs from the given one, in row i, by at most tol / (1 - tol) times the sum over the later columns j of |A_ij| max(1/1000, |x_j|). So the last row holds exactly, and the distance to the exact solution is at most the norm of these errors divided by a lower bound of the eigenvalues.","all systems with positive diagonal, limits, starts and tolerances between 0 and 1, both builds, real arithmetic","tests compare single results with a reference, not the residual with the tolerance",[GS+":solveWithLimits"])
p("C131","Steps of the optimized class with Gauss-Seidel satisfy every row up to the tolerance","In a debug build a call of process that returns leaves velocities with which every constraint row holds up to tol / (1 - tol) times what the other rows do to it, or its multiplier is at a limit and the row is violated in the direction in which it may not push; in every sub-step. With positive masses and independent rows there is a number of sweeps with which the call succeeds in both builds and the same holds.","all systems, constraints that answer with numbers, tolerances between 0 and 1, numbers of sub-steps, real arithmetic","the error of a row depends on the tolerance, the other rows and the limits; the tests use uncoupled rows",["src/optimized_nsv_rigid_body_system.cpp:processConstraints",GS+":solveWithLimits"])
p("C132","Calls with the fourth-order solver succeed and obey Newton's law in every evaluation","In the generic class with elimination, a fourth-order solver of its own, springs, weights, static forces and motors, and rows that determine the multipliers in every pose, every call of process with one or more sub-steps succeeds, of any length, also 0 or negative, and so does any sequence of calls. Every sub-step consists of four evaluations, each of which obeys Newton's law with constraint forces J^T x and the stabilised constraint equation; a motor sees the accelerations of the evaluation before.","all such systems, lengths, numbers of sub-steps and of calls, both builds, real arithmetic","the tests run the fourth-order solver with gravity for a fixed number of steps",["src/rk4_ode_solver.cpp:step","src/rk4_ode_solver.cpp:solve","src/generic_rigid_body_system.cpp:process","src/constant_speed_motor.cpp:apply"])
p("C133","In the fourth-order scheme a motor neither overshoots nor swings up to ks r h = 2","What a motor turns follows the four stages with the torque ks e - kd a, cut off at the largest torque. Without damping and for ks r h at most 2 the speed never goes beyond the one asked for nor back, and it comes as close to it as wanted, also from far outside the range in which the torque is not cut off. Within this range the missing speed is multiplied by a factor between exp(-ks r t) and exp(-ks r t) + n z^5/120 in n sub-steps with z = ks r h. A motor that swings for ever in the other schemes (C105) reaches its speed in this one.","all systems with one motor and gravity, positions, speeds, gains, lengths and numbers of sub-steps and of calls, real arithmetic","no test runs a motor; that it does not overshoot for any gain and length is beyond tests",["src/constant_speed_motor.cpp:apply","src/rk4_ode_solver.cpp:step","src/rk4_ode_solver.cpp:solve"])
p("C134","In the fourth-order scheme a spring comes to rest without any damping","Two bodies at the ends of a spring that no constraint holds, seen from each other, follow the four stages of the scheme in any sequence of calls with the generic class and a fourth-order solver; their momentum together changes by their weight alone. Moving in line, without damping and for 0 < ks r h^2 <= 4, the spring comes to rest at its length if it starts close enough to it, although nothing takes its energy: the scheme itself does, in one example 15 percent in one sub-step.","all systems with one spring and gravity, positions, velocities, lengths, strengths and numbers of sub-steps and of calls, real arithmetic","no test runs a spring with this solver; that it comes to rest concerns all later calls",["src/spring.cpp:apply","src/rk4_ode_solver.cpp:step","src/rk4_ode_solver.cpp:solve"])
p("C135","Springs follow the exact motion with order one, and two in the fourth-order scheme","For two bodies in line at the ends of an undamped spring, with om^2 = ks (1/m1 + 1/m2), the distance from the exact motion after n sub-steps of length h is at most exp(n q) - 1 times the amplitude in the norm of the energy, with q = (om h)^2 in the explicit and semi-implicit scheme and q = (om h)^3/4 in the fourth-order one. So a call of any length comes as close to the exact motion as wanted if it has enough sub-steps. The fourth-order scheme is only of second order: the velocity after one sub-step from a standstill is off by at least (om h)^3/10 of the greatest one.","all systems with one undamped spring and gravity, lengths, strengths, masses, starts that leave room, numbers of sub-steps and of calls, real arithmetic","tests compare with numbers at chosen sub-steps; an order of accuracy is about all of them",["src/spring.cpp:apply","src/nsv_ode_solver.cpp:solve","src/euler_ode_solver.cpp:solve","src/rk4_ode_solver.cpp:step","src/rk4_ode_solver.cpp:solve"])
p("C136","Constraints of the generic class follow the exact damped motion","For constraints that hold centres or angles, with ks = mu^2 + nu^2 = om^2 and kd = 2 mu, the gap and its rate after n calls of length dt are within exp(-mu n dt) (exp(n q) - 1) times the amplitude of the exact solution of g'' = -ks g - kd g', with q = 7 (om dt)^2 om/nu, and q = (om dt)^2 without damping, whatever else happens in the system. Brakes multiply the speed by exp(-kd n dt), up to n (kd dt)^2 / 2. So calls that last a given time together come as close to the exact motion as wanted if there are enough of them.","all systems of the generic class solved by elimination in which the matrix stays regular, all underdamped ks and kd, lengths of calls with om dt <= 1, numbers of calls, real arithmetic","tests compare with numbers at chosen steps; closeness to the exact motion is about all of them",[GN+":processConstraints","src/link_constraint.cpp:calculate","src/fixed_position_constraint.cpp:calculate","src/nsv_ode_solver.cpp:solve","src/euler_ode_solver.cpp:solve"])
p("C137","Springs with dampers follow the exact damped motion","For two bodies in line at the ends of a spring with a damper, with r = 1/m1 + 1/m2, ks r = mu^2 + nu^2 = om^2 and kd r = 2 mu, the distance from the exact solution of s'' = -ks r s - kd r s' after n sub-steps of length h is at most exp(-mu n h) (exp(n q) - 1) times the amplitude, with q = 7 (om h)^2 om/nu. So a call of any length comes as close to it as wanted if it has enough sub-steps.","all systems with one underdamped spring and gravity, both classes of systems, the explicit and the semi-implicit scheme, starts that leave room, numbers of sub-steps and of calls, real arithmetic","tests compare with numbers at chosen sub-steps; closeness to the exact motion is about all of them",["src/spring.cpp:apply","src/nsv_ode_solver.cpp:solve","src/euler_ode_solver.cpp:solve"])
with open('/verif/properties.jsonl','w') as f:
    for x in P: f.write(json.dumps(x)+"\n")
print(len(P))
