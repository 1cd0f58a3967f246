# Formal model of simple-2d-constraint-solver: design

Source: `/repo` (read as text, never built).  Model and proofs: `rocq/theories`
(Coq 8.16.1).  Properties: `properties.jsonl` (generated by `tools/props.py`).
Status per property: `MANIFEST.json`.  Seeded-bug log: `seeded/LOG.jsonl`.

## 1. How the code is modelled

| file | models |
|---|---|
| `Base.v` | outcomes, number targets, cells, loops (no particular C++ function) |
| `Targets.v` | the three arithmetics: `RT` reals, `QT` rationals, `F64` IEEE binary64 |
| `Matrix.v` | `include/matrix.h`, `src/matrix.cpp`, every member function |
| `Sparse.v` | `include/sparse_matrix.h`, every member function |
| `Sle.v` | `src/{sle_solver,gaussian_elimination_sle_solver,gauss_seidel_sle_solver,conjugate_gradient_sle_solver}.cpp` |
| `State.v` | `src/rigid_body.cpp`, `src/system_state.cpp` |
| `Ode.v` | `src/{ode_solver,euler_ode_solver,nsv_ode_solver,rk4_ode_solver}.cpp` |
| `Forces.v` | `src/{force_generator,gravity_force_generator,static_force_generator,spring,constant_speed_motor}.cpp` |
| `Constraints.v` | `src/constraint.cpp` and the nine constraint classes |
| `System.v` | `src/{rigid_body_system,generic_rigid_body_system,optimized_nsv_rigid_body_system}.cpp` |
| `Destroy.v` | the destructors of the linear and the integration solvers |
| `Suite.v` | the project's tests (`test/*.cpp`): what they run and compare |
| `Ints.v` | the sizes of `Matrix`, `SparseMatrix<3>`, `SystemState` as ints: overflow, conversion to `size_t`, negative sizes, `new` throwing; no contents |
| `IntSys.v` | the int expressions evaluated from the sizes by `process` and the linear solvers |
| `Alloc.v` | who owns which heap array: constructors, `resize`, `destroy`, destructors and implicit copies of `Matrix`, `SparseMatrix<3>`, `SystemState`, the profiling buffers, and of the classes that have such members |

Every definition cites its file and lines and says where it simplifies.

* **Outcomes.** `res A` is `Ok a`, `AssertFail` (an `assert` that fails in a
  build without `NDEBUG`), `UB` (out-of-bounds access, null or indeterminate
  pointer, branch on an indeterminate value) or `OutOfFuel` (a `while` loop
  exceeded the model's bound).  "Works" always means `Ok`.
* **Number targets.** A `target` is a record of operations *without laws* plus
  the flag "asserts compiled in".  A theorem quantified over every `target` is a
  structural fact that holds for IEEE doubles as well as for reals, in debug and
  release builds.  Algebra and calculus are proved for `RT` (exact reals);
  refutations are computed for `F64` or `QT`.
* **Cells.** The content of a `double` is `option (num tg)`; `None` is an
  indeterminate value (fresh storage) or, in the exact targets only, the result of
  a division by zero / square root of a negative number.
* **Memory.** Matrices keep the real layout (one block, a table of row pointers,
  capacities); objects live in a store and are passed by name, so that aliasing
  between parameters is expressible.
* **Open world.** User-defined force generators and constraints are arbitrary
  functions (`GCustom`, `KCustom`); the system theorems quantify over them.

### Where the model departs from the text of the code
* The constructors of the elimination and Gauss-Seidel solvers call
  `initialize(1, 1)` on their scratch members; the model starts with empty ones.
  Scratch is resized before use in every call, and the histories of a system allow
  the solver's matrices to be anything the operations of the matrix classes can
  make of them.  The conjugate gradient solver's
  member `m_A` is never used and left out.
* `include/sle_solver.h` names the last parameters of `solve` (result, previous), the
  implementations (previous, result).  The model follows the call sites by position.
* The generic class's destructor is empty, as in the code (C69).
* `Destroy.v` models the destructors of the solvers, `System.v` those of the systems.

* A model value `sys` is one system together with the matrices of the linear
  solver it was given.  A history (`yreach`) may at any moment change those
  matrices: by direct use of the solver's matrices (`y_direct`) or to what another
  system of either class left in them (`y_shared`).  So every theorem over histories covers
  systems that share a linear solver.  C88 is about several systems at once: `take_turns`
  hands the matrices on from call to call.

### Not modelled
`new` failing, `int` overflow and negative sizes other than in `Ints.v` and `IntSys.v` (elsewhere sizes are
`nat` and `new` succeeds), addresses and timing,
leaks other than in `Alloc.v`,
several systems sharing a Runge-Kutta integrator beyond C79, float rounding of the profiling average,
`sin`/`cos` of non-zero doubles (no floating-point statement is made about
them), user subclasses of the systems/solvers, user constraints that write to
the SystemState.  `Constraint`'s and the generators' trivial setters are record
updates.  The CMake files are not modelled, nor the tests
that only declare an object, those that are commented out and the random numbers
of the rolling test.

## 2. Proof files

* `Prop*.v` hold the property theorems and nothing else: each is closed by
  `exact lemma`, followed by its `Print Assumptions`; `Example`s beside them show
  a concrete non-trivial case that meets the hypotheses.
* `Spec*.v` hold the specification vocabulary, independent of the model's helper
  functions: abstract tables, sums, products, linear systems, rigid motions,
  histories of a system, what a constraint asks of two bodies.
* `*Facts.v`, `*Ops.v`, `*Hist.v`, `*Real.v`, `*Float.v` and the `Sle*`, `Dyn*`,
  `Sys*`, `Gs*`, `Solve*`, `Law*`, `Limit*`, `Edge*`, `Sub*`, `Mom*`, `Rk*`, `Stab*`, `Least*`, `Turn*`, `Share*`, `Drift*`, `Unit*`, `Safe*`, `Static*`, `Idle*`, `Slip*`, `Flight*`, `Swing*`, `Motor*`, `Run*`, `Alloc*`, `Damp*`, `Ints*`, `Spring*`, `Suite*`, `CgBest*`, `GeGrow*`, `Inert*`, `Fall*`, `Near*`, `Four*`, `Spin*`, `Bow*`, `Osc*`, `Fade*`, `Lag*` files hold the lemmas.
* `*Wit.v` hold concrete histories, evaluated by `vm_compute` on booleans.

How one call of `process` is proved correct, bottom up: `SysInv`/`SysColumn`
(what every history leaves in the store) - `DynState`, `DynForce` (state
loading, generators) - `DynGather`, `DynRight` (the rows collected from the
constraints) - `DynSolver`, `DynReady` (solver calls, totality) - `DynReact`,
`DynRound`, `DynStep` (reactions, accelerations, all rounds) - `SolveReal`,
`SolveStep` (the linear system in exact reals) - `LawReal`, `LawStep` (the nine
constraint classes) - `GsStep`, `LimitStep` (force limits).  Sub-stepping: two
runs side by side (`SubSim`, `SubOde`), loading again what was written back
(`SubPop`, `SubStep`), the loops (`SubRun`).  Momentum: the generators
(`MomForce`), the rows of the constraints (`MomStep`, `MomSpin`).

## 3. Per property

(T) = for every number target, (R) = exact reals, (F) = IEEE binary64,
(Q) = witness in exact rationals.  "refuted" = the statement is false of the code; the
witness is a theorem `..._refuted`, the true part is `..._partial`.

| id | what is modelled / how proved |
|---|---|
| C01 | (T) operation sequences on a store of matrices, simulation with a store of abstract tables (function + dimensions); invariant: addressing injective and in bounds; induction over the sequence |
| C02 | (T) corollary of the simulation, for every well-formed prior state |
| C03 | (T) value = left-to-right sum of products; (R) corollary: mathematical product |
| C04 | (T) general in-place filling lemma for nested loops |
| C05 | refuted (Q) by 2x2 product into own operand |
| C06 | (R) iff; (F) refuted with NaN |
| C07 | (R) for freshly laid-out vectors (`_partial`); refuted after a row swap |
| C08 | (T) for freshly laid-out matrices (`_partial`); refuted after a row swap |
| C09 | (T)/(R) nested loop invariant |
| C10-C12 | (R) sums over entries = sums over columns when blocks are distinct |
| C13 | (T) entry-wise |
| C14 | (T) two storages that agree on non-empty entries give equal results |
| C15 | refuted: capacity kept after destroy, null dereference; partial: growing beyond the old capacity works |
| C16 | refuted (Q) |
| C17 | (R) elimination invariant: row operations preserve the solution set; non-singular gives non-zero pivots; back substitution |
| C18 | refuted in release builds (F: returns true with inf); partial: debug build / non-singular |
| C19 | (T) result depends only on the inputs (determinism of the content-level function) |
| C20 | (F) clamp for all doubles, sweep invariant |
| C21 | (R) algebra |
| C22 | (R) one-coordinate minimisation, induction over the sweep |
| C23 | (R) energy decreases by a fixed amount per non-converged sweep, energy bounded below |
| C24 | (T/R) limits version true; version without limits refuted (missing absolute value) |
| C25 | (R) invariant r = right - A x |
| C26 | (R) A-orthogonality induction and dimension argument |
| C27 | refuted (F): p.Ap = 0 |
| C28 | (T) safety by the content-level specifications |
| C29 | refuted: branch on indeterminate values |
| C30-C31 | (T) invariant by induction over histories |
| C32 | refuted: index kept; consequence: stale index hits another body |
| C33-C36 | (R) algebra and the standard library's `derivable_pt_lim`, (T) agreement and frame |
| C37 | partial: destination not larger; refuted: over-read when larger |
| C38 | (T) invariant over histories |
| C39-C40 | (T) loop invariant with frame; (R) closed form by induction |
| C41 | (T) protocol automaton |
| C42 | (R) induction over steps |
| C43 | refuted (Q); partial: which method it is |
| C44-C48 | (T)/(R); C48 refuted |
| C49 | refuted (writes at index -1) |
| C50 | (F)/(R) limit; reaction (T) |
| C51 | (T) |
| C52-C54 | (R) `derivable_pt_lim` |
| C55 | refuted for radius other than 1; partial for radius 1 |
| C56 | (T) per class; limits ordered when the parameters are; base class excluded (refuted) |
| C57 | (R) |
| C58 | (R) composition of all of the above, for arbitrary user constraints, Gaussian elimination, one step, at most 255 bodies |
| C59 | (R) as C58, for the Euler and symplectic solvers; `C59_fourth_order`: each of the four stages of each step of the Runge-Kutta solver |
| C60 | (T) any number of steps, (R) closed form of one; `C60_fourth_order` (T): Runge-Kutta |
| C61 | (T) reaction applied = force reported; (T) the multipliers times the rows |
| C62 | refuted (Q); partial: (T) what is reported instead |
| C63 | (T) impulses clamped, (R) forces within limits and the call succeeds |
| C64 | refuted (Q) |
| C65 | refuted (Q); (R) for every system the speed reached is minus m_rotationSpeed |
| C66 | refuted (Q) with 257 bodies: body index stored in 8 bits |
| C67 | refuted (Q), both classes; (T) no call with such a constraint ends normally |
| C68 | (T) with no constraints: which solver states lead to free motion and which to a failed assertion; refuted (Q) for elimination after a removal and conjugate gradient in the first call |
| C69 | (T) optimized class and solvers proved; generic class: (T) fails exactly after a call of process, debug build |
| C70 | (T) |
| C71 | (T) refuted with a speed motor; without one proved, when h / 1 = h in the arithmetic; (F) shows that of every quotient of doubles |
| C72 | (R) sums over the rows of the force from C61; the Runge-Kutta solver by the same sum in every stage |
| C73 | (T) |
| C74 | (R) value, (T) undefined cases |
| C75 | (F) sign symmetry of binary64 operations |
| C76 | (R) |
| C77 | (R) C58 specialised to the nine classes, in terms of points and spins |
| C78 | (R) |
| C79 | (T) invariant over histories: the solver's copies have the sizes of the system's state, or are smaller in both; two counterexamples without the conditions (QT) |
| C80 | (T) refinement of a table of entries, induction over the history |
| C81 | (R) C58 and C59 give rates and multipliers; the correction is orthogonal, in the mass metric, to every difference of allowed velocities (Pythagoras) |
| C82 | (R) the same decomposition |
| C83-C84 | (R) both systems satisfy the same linear equations on the shared bodies, non-singularity makes the solution unique; induction over the calls |
| C85 | (R) rows, gaps and forces do not change under the shift; then as C83 |
| C86 | refuted; partial: (R) the exact slip |
| C87 | refuted for wheels in the optimized class; otherwise (R): the rows of a turned constraint are mixtures of its rows, so the turned velocities are allowed and by C81 the closest ones; independence of the rows is kept; induction over the calls |
| C88 | (T) non-interference: two runs that differ in the solver's matrices only (`rel`, function by function) have equal own matrices, states and outcomes; every solver clears or overwrites what it reads, given the dimensions the invariants of histories fix; induction over the calls |
| C89 | (R) C77 for the velocities; a point of a body turned by h is within h^2/2 times its arm of its tangent (mean value theorem); induction over the calls |
| C90 | refuted for the unit of length with wheels and with springs shorter than 1/100; otherwise (R): each row of the constraints in other units is a multiple of the row, kinetic energies are multiples, so by C81 the velocities are too; induction over the calls |
| C91 | (R) as C90, with the sign of the mirror as factor of the rows |
| C92 | refuted for Gauss-Seidel in the generic class and for conjugate gradients without assertions; otherwise (T): an invariant that says which cells of the state, of the matrices and of the solver hold values, kept by every loop of a call (partial correctness from C58 with definedness added); any number of calls by induction |
| C93 | refuted without assertions; with them (T) |
| C94 | (R) the balancing multipliers satisfy the equations of the step, which have one solution (C81); induction over the calls. Converse from the law of the step |
| C95 | no sub-steps (T): loading and writing back. Length zero: refuted for the optimized class in binary64; generic class (R) from the law of the step |
| C96 | binary64: the new value is a sum with the old one (C61, C62, C60 for Runge-Kutta), and sums and products with infinities and NaN are such again; exact NaN by C92 |
| C97 | refuted in binary64 for elimination (NaN spreads) and conjugate gradients; in exact arithmetic C83 |
| C98 | with zero couplings the first sweep gives the limited solution, the second changes nothing, so the solver reports success, which the debug build asserts |
| C99 | C98 for every call; the slip is the row of the constraint, its change in a call is limit times give or less; induction over calls |
| C100 | C60 (both versions) with a steady force, induction over sub-steps; exact reals |
| C101 | C59 with the derivatives of C52 and C53 along q + v t + a t^2/2 |
| C102 | the rows of such constraints are linear, so C59 is a recurrence; induction over calls; its invariant and growth by algebra |
| C103 | C59 for constraints with C = 0 and a constant Jacobian; induction over calls |
| C104 | C54 for a body no constraint holds; the torque of a motor; induction over sub-steps and over calls |
| C105 | the recurrence of C104 in the reals: a cut torque takes a fixed amount off, afterwards a geometric series. Refuted for too large gains |
| C106 | C104 with kd = 0. Refuted: a motion of period two |
| C107 | the step of C59 and C63 repeated within a call: the state, accelerations and private storage between sub-steps, by induction; then over calls |
| C108 | invariant over programs: the arrays of live objects are there, distinct and unshared; each operation changes only the arrays of its object and fresh ones. Agreement with Matrix.v, Sparse.v, State.v call by call |
| C109 | the invariant of C108 with: no arrays where the size is zero. Refuted: four lost arrays per life |
| C110 | C108 over the life of each class: members made, resized in any way, destroyed, ended. Refuted for the generic class and for states without constraints |
| C111 | a copy of an object without arrays keeps the invariant of C108. Refuted for all others |
| C112 | C107_swings over lists of calls; a linear map of the plane with trace T and determinant D: a quadratic form that falls over two steps, if and only if D is between -1 and 1 and T is smaller than 1 + D. Otherwise an eigenvector, or a form that does not fall |
| C113 | simulation call by call between Ints.v and Matrix.v/Sparse.v/State.v; overflow at the first row whose offset exceeds INT_MAX |
| C114 | computed; partial, refuted |
| C115 | computed; what a throw leaves, by cases; partial, refuted |
| C116 | case analysis over the expressions of IntSys.v, linear arithmetic |
| C117 | the forces on the two bodies summed; one sub-step computed; induction over sub-steps and calls |
| C118 | the area is multiplied by the same factor in every sub-step; partial, refuted |
| C119 | motion along the spring is the linear swing of SpecSwing while the ends stay 1/100 apart, which the kept energy ensures; partial, refuted |
| C120 | same reduction, contraction of SpecDamp; partial, refuted |
| C121 | the tests are programs of the model; computed |
| C122 | mean value bounds for the rows of each class, summed over the levers; induction over the loops of the test |
| C123 | false; computed witnesses |
| C124 | one pass of the driver by the tables of C39 - C42; induction over the passes |
| C125 | the directions span the Krylov space; the residual is orthogonal to it (induction over the steps); the error splits by Pythagoras |
| C126 | an annihilating polynomial puts the residual in the space to which it is orthogonal |
| C127 | the factors are at most one in size; invariant of the elimination loop |
| C128 | C60 in binary64: zero times finite is zero, and adding zero changes no bit; induction over the steps |
| C129 | from C100; induction over the calls, the setting being kept by C73 |
| C130 | the last sweep of an accepted run: what row i misses is what the later components moved, which the test of the sweep bounds |
| C131 | C130 for the system that the step builds, and C23 for the number of sweeps |
| C132 | C59 with forces that see accelerations; the invariant of the sub-steps is that all cells of the motion hold numbers |
| C133 | the law of one sub-step from Newton's law of the four evaluations; no overshoot by cases on the sign of the last evaluation; the factor between Taylor polynomials of the exponential function |
| C134 | the law of one sub-step from Newton's law of the four evaluations; along a line it is linear, with determinant and trace that meet Jury's conditions |
| C135 | in the norm of the energy the exact motion is a turn; a linear map within q of a turn is within (1+q)^n - 1 of it after n steps; bounds of sine and cosine for q |
| C136 | in coordinates in which the exact motion is a turn that shrinks, a call is within 22/10 (om dt)^2 om/nu of it; then as C135 |
| C137 | the steps of C117 along a line are those of C136; the amplitude bounds the length from below |

## 4. Trusted base

* Coq 8.16.1's kernel and `vm_compute`.
* The axioms `Print Assumptions` lists under each theorem.  Structural (T) and
  (F) theorems: none.  (R) theorems: those of the standard library's reals,
  `ClassicalDedekindReals.sig_not_dec`, `ClassicalDedekindReals.sig_forall_dec`,
  `FunctionalExtensionality.functional_extensionality_dep`, for C89 also `Classical_Prop.classic`, and no others; section 6 lists them theorem by theorem.  No axioms of our own.
* That the model says what the code says: every definition cites the lines it was
  read from.  The code was not run.

## 5. Where the code does not do what one would expect

Each with the theorem that shows it, if any.

* Scaling a sparse matrix into itself wipes it; a matrix product into its own operand is wrong (C05).
* `dot`, `magnitude`, `set(data)` ignore row swaps (C07, C08).  `equals` accepts NaN (C06).
* `SparseMatrix::destroy` keeps the capacity (C15).  `expand` overwrites repeated blocks, the products add them (C16).
* Elimination reports singular systems as solved in release builds (C18) and leaves the old result when there is nothing to solve (C19), which trips an assertion once all constraints have been removed (C68).
* Gauss-Seidel's `solve` tests convergence without an absolute value (C24), conjugate gradient accepts NaN (C27), both read an uninitialised result (C29).  With `max_iterations = 0` limits are not applied.
* `removeRigidBody` and `reset` leave the index (C32), so forces and constraints naming a removed body act on another one.
* `SystemState::copy` over-reads (C37); the Runge-Kutta solver does when it served a larger system before, or after a call of process with 0 steps, and not otherwise (C79).
* The Runge-Kutta stages use the stage velocities for the positions (C43).  Its reactions are averaged over n_c entries of arrays with 2 n_c.
* Spring damping acts along the relative velocity (C48).  Generators write at index -1 for absent bodies (C49), constraints too (C67).
* The speed motor can push away from its set speed (C50).  A rolling body slips unless the radius is 1 (C55), and then too if the base turns (C86): row 0 uses the wheel's angle, not its angle against the base.  For the same reason a full turn of the scene changes its motion in the optimized class (C87).  Row 0 has no gains.  The same row adds an angle to a product of two lengths, so the motion of a wheel depends on the unit of length; springs shorter than the fixed length 0.01 do not push, so theirs does too (C90).
* Crossed limits are passed on (C56).  Limits are ignored by elimination and conjugate gradient (C64), and by the generic class.
* The generic class reports the reactions of the wrong rows (C62) and cannot be destroyed in a debug build once used (C69).
* The constant rotation constraint drives the body to minus its speed; the generic class ignores it (C65).
* Body numbers are stored in a byte; 255 means "no body", 256 is body 0 (C66).
* The speed motor's damping reads the acceleration of the previous sub-step, which `process` clears when it starts (C71).  With too much of it the motor never starts to turn anything in calls of several sub-steps (C106); with too large a gain it swings for ever (C105).
* The rolling constraint's first row reads one body's angle, not the difference: it exerts a net torque on the two bodies, and so do gears and open links (C78).
* Conjugate gradient with no constraints in the first frame trips an assertion (C68).  When it does not converge in a release build the bodies get velocities that were never computed (C92).
* The size of a user's constraint is checked by assertions only (C93).
* A call of length zero destroys every body of the optimized class: it divides by the length (C95).
* One body whose speed is not a number takes all others with it under Gaussian elimination, linked or not (C97).
* A state made for no constraints (or no bodies) loses four (thirteen) arrays of length zero when it is destroyed (C109); the generic class loses all its matrices in release builds (C110).  Copies of matrices, states and systems share their arrays, which are then freed twice (C111).
* Matrices take negative sizes (C114).  After a refused allocation capacities and counts claim arrays that are not there (C115).  Elimination and Gauss-Seidel overflow an int beyond 46340 and 46341 rows (C116).
* A spring whose ends are closer than 1/100 does not push at all (C120).  In the explicit scheme undamped springs gain energy in every sub-step (C119).
* The tests of `rightScale` and `leftScale` of sparse matrices never fill the vector of scales and so compare zeros with zeros (C123).
* The `Constraint` constructor clears half of the body pointers.  A force generator's index is uninitialised before it is added.

## 6. What Print Assumptions lists

(Generated by `tools/assumptions.py`.)

**nothing (closed under the global context)** (151 theorems): C01_matrix_is_a_table, C02_initialize_value, C02_initialize_zero, C03_multiply_every_arithmetic, C04_accumulate, C04_elementwise, C04_scaling, C05_multiply_into_operand_refuted, C06_equals_nan_refuted, C07_dot_after_swap_out_of_bounds, C07_dot_after_swap_refuted, C08_load_after_swap_refuted, C08_load_partial, C09_expand, C108_fine, C108_kept, C108_matrix, C108_sound, C108_sparse, C108_state, C109_partial, C109_refuted, C110_empty_refuted, C110_generic_refuted, C110_partial, C111_partial, C111_refuted, C111_state_refuted, C111_system_refuted, C113_exact, C113_exact_sparse, C113_example, C113_matrix, C113_sparse, C113_state, C114_example, C114_negative_refuted, C114_partial, C115_example, C115_leak_refuted, C115_matrix_refuted, C115_partial, C115_sparse_refuted, C115_state_partial, C115_state_refuted, C116_example, C116_limits, C121_tests, C123_refuted, C123_stride_refuted, C128_fourth_order, C128_inertia, C128_no_force, C14_expand_determined, C14_multiply_determined, C14_multiply_transpose_determined, C14_scaling_determined, C14_transpose_vector_determined, C15_reuse_after_destroy_partial, C15_reuse_after_destroy_refuted, C15_reuse_after_destroy_ub, C16_repeated_block_refuted, C19_elimination_forgets_partial, C19_elimination_forgets_refuted, C20_limits_respected, C24_success_small_change_refuted, C27_success_finite_refuted, C28_conjugate_gradient_safe, C28_elimination_safe, C28_gauss_seidel_safe, C28_limited_gauss_seidel_safe, C29_determined_partial, C29_determined_refuted, C29_limited_determined, C30_bodies, C31_constraints, C31_generators, C32_removed_acts_refuted, C32_removed_refuted, C33_state_agrees, C35_defined, C35_touches_only_its_body, C36_energy_depends, C37_copy_overreads, C37_copy_partial, C37_copy_refuted, C38_resize_room, C38_room_reported, C39_euler, C40_nsv, C41_driver_ends, C41_fourth_step, C41_never_without_start, C44_gravity, C49_outside_refuted, C50_limit, C51_reset, C56_base_refuted, C56_limits_partial, C56_limits_refuted, C56_own_output_partial, C60_fourth_order, C60_free_bodies, C61_reported, C61_rows, C62_reported_partial, C62_reported_refuted, C63_impulses, C64_refuted, C65_refuted, C66_refuted, C67_absent, C67_refuted, C68_balks_refuted, C68_first_partial, C68_first_refuted, C68_none_partial, C69_generic_refuted, C69_optimized, C69_solvers, C70_elapsed, C70_profiling, C71_refuted, C73_only_motion, C74_static_outside, C75_float_third_law, C79_own_solver, C79_shared_refuted, C79_skipped_refuted, C80_entries_are_a_table, C88_call, C88_calls, C88_direct, C88_integrator, C88_turns, C92_binary64_partial, C92_calls_partial, C92_gauss_seidel_refuted, C92_gradients_refuted, C92_process_partial, C93_classes_partial, C93_fits_partial, C93_rejects_partial, C93_release_refuted, C95_no_steps, C95_no_time_refuted, C96_calls, C96_process, C97_elimination_refuted, C97_gradients_refuted, C97_stops_refuted.

**`functional_extensionality_dep`** (3 theorems): C51_fresh, C71_substeps, C71_substeps_double.

**`functional_extensionality_dep`, `sig_forall_dec`** (2 theorems): C125_no_worse, C18_elimination_unsolvable_refuted.

**`functional_extensionality_dep`, `sig_forall_dec`, `sig_not_dec`** (157 theorems): C03_multiply, C03_transpose, C03_transpose_multiply, C06_equals_partial, C07_dot_partial, C07_magnitude_partial, C100_example, C100_example_fourth_order, C100_flight, C100_gravity, C100_parabola, C101_example, C101_springs, C102_calls, C102_example, C102_undamped, C103_dampers, C104_call, C104_calls, C104_example, C105_power_partial, C105_reached_partial, C105_refuted, C105_steady_partial, C106_refuted, C106_undamped_partial, C107_brakes, C107_call, C107_calls, C107_example, C107_runs, C107_swings, C10_sparse_times_dense, C112_exact, C112_example, C112_settles, C117_calls, C117_example, C118_partial, C118_refuted, C119_euler_partial, C119_example, C119_partial, C119_refuted, C119_stiff_refuted, C11_sparse_times_transposed, C120_close_partial, C120_partial, C120_refuted, C124_drivers, C125_best_point, C126_degree, C127_growth, C129_calls, C129_fourth_order, C129_work, C12_sparse_transpose_times_vector, C130_distance, C130_nearby, C131_classes, C131_enough, C131_motion, C131_step, C132_call, C132_calls, C132_example, C133_calls, C133_calm, C133_example, C133_reached, C133_steady, C134_calls, C134_example, C134_loses, C134_rest, C134_stops, C135_exact, C136_exact, C136_scene, C13_sparse_scaling, C16_product_transposed_adds_repeated_blocks_partial, C16_products_add_repeated_blocks_partial, C17_elimination_solves, C18_elimination_unsolvable_partial, C21_stationary_solves, C21_stationary_solves_without_limits, C22_sweep_lowers_energy, C23_limited_converges, C24_success_small_change_partial, C25_success_small_residual, C26_finishes_in_n_iterations, C33_transforms, C34_velocity_at_point, C35_generalised_force, C36_energy, C40_nsv_closed_form, C42_constant_acceleration, C43_classical_partial, C43_classical_refuted, C43_coded_method, C45_third_law, C46_central, C46_conservative, C47_damping, C48_no_net_torque_partial, C48_no_net_torque_refuted, C50_drives_partial, C50_drives_refuted, C52_along_motions, C52_partial_derivatives, C53_jacobian_rate, C54_geometry, C55_no_slip_partial, C55_no_slip_refuted, C57_link_forces, C58_velocities, C59_fourth_order, C59_step, C60_step, C63_limits, C63_neutral, C63_step, C65_reversed, C71_substeps_real, C72_conserved, C72_forces, C72_fourth_order, C72_fourth_order_conserved, C74_static_force, C76_rotational, C77_geometry, C78_angular, C78_conserved, C81_accelerations, C81_velocities, C82_balance, C82_free, C82_taken, C83_part, C84_order, C85_shift, C86_turning_partial, C86_turning_refuted, C87_angle_partial, C87_wheel_refuted, C90_spring_refuted, C90_units_partial, C90_wheel_refuted, C91_mirror, C94_example, C94_only, C94_rest, C95_no_time_partial, C98_exact, C98_example, C99_example, C99_slows.

**`classic`, `functional_extensionality_dep`, `sig_forall_dec`, `sig_not_dec`** (23 theorems): C107_gaps, C122_rolling, C122_tests_pass, C133_exponential, C135_converges, C135_converges_fourth_order, C135_example, C135_example_fourth_order, C135_first_order, C135_not_fourth_order, C135_second_order, C136_brakes, C136_converges, C136_damped, C136_example, C136_undamped, C137_converges, C137_example, C137_near, C89_calls, C89_exact, C89_settles, C89_step.
