(** * Models of the destructors of the solvers.

    src/gaussian_elimination_sle_solver.cpp, src/gauss_seidel_sle_solver.cpp,
    src/conjugate_gradient_sle_solver.cpp, src/rk4_ode_solver.cpp.  The
    destructor of an object runs its body and then the destructors of its
    members; the order of the members does not matter here, as these only
    assert. *)

From Verif Require Import Base Matrix Sparse Sle State Ode System.

Section DestroyModel.
Context {tg : target}.

(* the Matrix members of a linear solver; m_A of the conjugate gradient
   solver is never used and left out *)
Definition sle_members (l : sle tg) : list nat * list nat :=
  match l with
  | SleBase _ => ([], [])
  | SleGe g => ([ge_a g; ge_M g], [ge_reg g])
  | SleGs g => ([gs_M g], [gs_reg g])
  | SleCg g => ([cg_mreg0 g; cg_mreg1 g; cg_Ap g; cg_x g; cg_r g; cg_p g], [])
  end.

(* src/gaussian_elimination_sle_solver.cpp:14-18,
   src/gauss_seidel_sle_solver.cpp:15-18,
   src/conjugate_gradient_sle_solver.cpp:14-21,
   src/sle_solver.cpp:7-9: every member is destroyed *)
Definition sle_dtor (l : sle tg) (hp : heap tg) : res unit :=
  let (lm, ls) := sle_members l in
  let ms := fold_left mdestroy lm (hm hp) in
  let ss := fold_left (fun ss i => upd ss i (sp_destroy (ss i))) ls (hs hp) in
  let* _ := dtor_mats ms lm in
  dtor_sps ss ls.

(* src/rk4_ode_solver.cpp:7-10, then the member destructors; the other
   integrators have no members (src/ode_solver.cpp:7-9) *)
Definition ode_dtor (o : ode tg) : res unit :=
  match o with
  | OdeRk4 r =>
      let* _ := st_dtor (st_destroy (rk_init r)) in
      st_dtor (st_destroy (rk_acc r))
  | _ => Ok tt
  end.
End DestroyModel.
