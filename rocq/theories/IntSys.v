(** * The int expressions that a call of process evaluates from its sizes.

    n is getRigidBodyCount(), mf getFullConstraintCount() (n_c in
    populateSystemState, the height of right in the linear solvers), both ints.
    Left out: loop counters, which stop at the sizes themselves, and
    expressions of constants only. *)

From Verif Require Import Base Ints.
Local Open Scope Z_scope.

Inductive iexp := EC (z : Z) | EMul (a b : iexp) | EAdd (a b : iexp).
(** [None]: the value of a subexpression is not an int *)
Fixpoint ieval (e : iexp) : option Z :=
  match e with
  | EC z => if fits z then Some z else None
  | EMul a b => match ieval a, ieval b with Some x, Some y => imul x y | _, _ => None end
  | EAdd a b => match ieval a, ieval b with Some x, Some y => iadd x y | _, _ => None end
  end.
(** the three linear solvers *)
Inductive kind := KGauss | KSeidel | KGradient.
Inductive evaluates (k : kind) (n mf : Z) : iexp -> Prop :=
(* src/rigid_body_system.cpp:151-152, src/optimized_nsv_rigid_body_system.cpp:130,165,172,
   src/generic_rigid_body_system.cpp:110,117-118,162: 3 * n *)
| ev_size : evaluates k n mf (EMul (EC 3) (EC n))
(* src/rigid_body_system.cpp:155-161, src/optimized_nsv_rigid_body_system.cpp:167-169,174-176,241-243,261-262,
   src/generic_rigid_body_system.cpp:112-114,164-166,209-211,229-230: i * 3 + c *)
| ev_coord i c : 0 <= i < n -> 0 <= c <= 2 -> evaluates k n mf (EAdd (EMul (EC i) (EC 3)) (EC c))
(* src/rigid_body_system.cpp:82, 144: the partial sums of the numbers of rows *)
| ev_count a b : 0 <= a -> 0 <= b -> a + b <= mf -> evaluates k n mf (EAdd (EC a) (EC b))
(* src/matrix.cpp:62, for the matrices of size 1 * 3n: q_dot, F_ext, M, ... *)
| ev_rows3 i : 0 <= i < 3 * n -> evaluates k n mf (EMul (EC i) (EC 1))
(* src/matrix.cpp:62, for the matrices of size 1 * m_f: C, v_bias, ks, kd, right, lambda, ... *)
| ev_rows1 i : 0 <= i < mf -> evaluates k n mf (EMul (EC i) (EC 1))
(* src/matrix.cpp:62, for limits, of size 2 * m_f (src/optimized_nsv_rigid_body_system.cpp:133) *)
| ev_rows2 i : 0 <= i < mf -> evaluates k n mf (EMul (EC i) (EC 2))
(* include/sparse_matrix.h:54, for J_sparse, J_dot_sparse, sreg0, m_reg *)
| ev_sparse i : 0 <= i < mf -> evaluates k n mf (EMul (EMul (EC i) (EC 2)) (EC 3))
(* include/sparse_matrix.h:79, 95, 111, 134, 149, 153, 182, 206, 227, 251; r_x[i * 2 + j] in
   src/optimized_nsv_rigid_body_system.cpp:108-110,234-236,253-255: row * 2 + entry *)
| ev_block i e : 0 <= i < mf -> 0 <= e <= 1 -> evaluates k n mf (EAdd (EMul (EC i) (EC 2)) (EC e))
(* include/sparse_matrix.h:83, 99, 186, 210, 237: block * 3 + l, with the block a uint8_t other than 0xFF *)
| ev_slice b l : 0 <= b <= 254 -> 0 <= l <= 2 -> evaluates k n mf (EAdd (EMul (EC b) (EC 3)) (EC l))
(* src/matrix.cpp:62, for m_M of size m_f * m_f (include/sparse_matrix.h:143 from
   src/gaussian_elimination_sle_solver.cpp:28, src/gauss_seidel_sle_solver.cpp:36,71) *)
| ev_square i : k <> KGradient -> 0 <= i < mf -> evaluates k n mf (EMul (EC i) (EC mf))
(* src/gaussian_elimination_sle_solver.cpp:30: m_M.getWidth() + 1 *)
| ev_wider : k = KGauss -> evaluates k n mf (EAdd (EC mf) (EC 1))
(* src/matrix.cpp:62, for m_a of size (m_f + 1) * m_f (src/gaussian_elimination_sle_solver.cpp:40) *)
| ev_augmented i : k = KGauss -> 0 <= i < mf -> evaluates k n mf (EMul (EC i) (EAdd (EC mf) (EC 1))).
