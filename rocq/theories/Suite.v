(** * Model of the project's own tests (test/*.cpp).

    A test is a program that says whether all its checks pass; a failed assert
    and undefined behaviour are outcomes of their own.  After a failed ASSERT_
    the function that holds it is left, after a failed EXPECT_ it goes on.
    gtest's EXPECT_NEAR(a, b, e) is |a - b| <= e.  Left out: sanity_tests.cpp
    (1 + 1), the tests that only declare a solver, those that are commented out
    (gauss_seidel_sle_solver_tests.cpp:11-89), the random numbers and the
    printing of rolling_constraint_tests.cpp (the positions are parameters). *)

From Verif Require Import Base Matrix Sparse Sle State Ode Forces Constraints Destroy.
Local Open Scope nat_scope.

Section Suite.
Context {tg : target}.
Local Open Scope cell_scope.

(* gtest: EXPECT_NEAR, ASSERT_NEAR, EXPECT_EQ on doubles *)
Definition near (a b err : cell tg) : res bool := cle (cabs (a - b)) err.

(* a local variable Matrix m(w, h), Matrix m(w, h, 1.0) *)
Definition local_ (id w h : nat) (ms : mats tg) : res (mats tg) :=
  let* m := mat_new_val w h (cofZ 0) in Ok (upd ms id m).
Definition local_ones (id w h : nat) (ms : mats tg) : res (mats tg) :=
  let* m := mat_new_val w h (cofZ 1) in Ok (upd ms id m).
(* m.set(data) *)
Definition load (id : nat) (l : list Z) (ms : mats tg) : res (mats tg) :=
  let* m := mat_load (ms id) (map cofZ l) in Ok (upd ms id m).
Definition no_mats : mats tg := fun _ => mat_new.
Definition no_sps : sps tg := fun _ => sp_new.
(* m.destroy() for all of them, then their destructors at the end of the block *)
Definition gone (ids : list nat) (ms : mats tg) : res unit :=
  let ms := fold_left (fun ms id => mdestroy ms id) ids ms in
  fold_left (fun r id => let* _ := r in mat_dtor (ms id)) ids (Ok tt).
Definition gone_sps (ids : list nat) (ss : sps tg) : res unit :=
  fold_left (fun r id => let* _ := r in sp_dtor (sp_destroy (ss id))) ids (Ok tt).

(* test/utilities.cpp:5-14  compareMatrix(a, b, err); the second loop runs over
   the width of b *)
Definition compare_matrix (ms : mats tg) (a b : nat) (err : cell tg) : res bool :=
  let same := Nat.eqb (m_w (ms a)) (m_w (ms b)) && Nat.eqb (m_h (ms a)) (m_h (ms b)) in
  let* ok := for_ (m_h (ms a)) (fun i ok => for_ (m_w (ms b)) (fun j ok =>
    if (ok : bool) then
      let* x := mget ms a j i in let* y := mget ms b j i in near x y err
    else Ok false) ok) true in
  Ok (same && ok).
(* test/utilities.h:7  err = 1e-6 by default *)
Definition compares (ms : mats tg) (a b : nat) : res bool := compare_matrix ms a b (clit 1 1000000).

(* test/utilities.cpp:16-40  fullToSparse(full, target, stride), SparseMatrix<3,2> *)
Definition full_to_sparse (ms : mats tg) (full : nat) (t : sparse tg) (stride : nat) : res (sparse tg) :=
  let w := m_w (ms full) in
  let* t := sp_init 3 2 t w (m_h (ms full)) in
  for_ (m_h (ms full)) (fun i t =>
    let* (t, _) := for_ (w / stride)%nat (fun j '(t, entry) =>
      let* nonzero := for_ stride (fun k nz =>
        if (nz : bool) then Ok true
        else
          let* x := mget ms full (j * stride + k) i in
          let* z := ceq x (cofZ 0) in Ok (negb z)) false in
      if (nonzero : bool) then
        let* t := for_ stride (fun slice t =>
          let* t := sp_set_block 2 t i entry (Z.of_nat j) in
          let* x := mget ms full (j * stride + slice) i in
          sp_set 3 2 t i entry slice x) t in
        Ok (t, S entry)
      else Ok (t, entry)) (t, 0%nat) in
    Ok t) t.

(* test/utilities.cpp:42-54  JWJ_t(J, W, target); temp and J_T are matrices
   [temp], [jt] of the store, new before and destroyed after *)
Definition jwjt (ms : mats tg) (J W t temp jt : nat) : res (mats tg) :=
  let* ms := mtranspose ms J jt in
  let* ms := mright_scale ms J W temp in
  let* ms := mmultiply ms temp jt t in
  let* _ := gone [temp; jt] ms in
  Ok (mdestroy (mdestroy ms temp) jt).

(** ** matrix_tests.cpp *)

(* test/matrix_tests.cpp:7-14 *)
Definition t_matrix_init : res bool :=
  let* m := mat_new_val 10 5 (cofZ 0 : cell tg) in
  let* _ := mat_dtor (mat_destroy m) in
  Ok (Nat.eqb (m_w m) 10 && Nat.eqb (m_h m) 5).

(* test/matrix_tests.cpp:16-39 *)
Definition t_matrix_multiply : res bool :=
  let* ms := local_ 0 2 2 no_mats in
  let* ms := local_ 1 1 2 ms in
  let* ms := local_ 2 1 2 ms in
  let* ms := load 0 [0; 1; -1; 0]%Z ms in
  let* ms := load 1 [1; 2]%Z ms in
  let* ms := mmultiply ms 0 1 2 in
  let* x := mget ms 2 0 0 in
  let* y := mget ms 2 0 1 in
  let* a := ceq x (cofZ 2) in
  let* b := ceq y (cofZ (-1)) in
  let* _ := gone [0; 1; 2] ms in
  Ok (a && b).

(* test/matrix_tests.cpp:41-70 and 72-101 *)
Definition t_matrix_scale (left : bool) : res bool :=
  let* ms := local_ 0 2 2 no_mats in
  let* ms := local_ 1 1 2 ms in
  let* ms := local_ 2 2 2 ms in
  let* ms := local_ 3 1 2 ms in
  let* ms := local_ 4 1 2 ms in
  let* ms := load 0 [-1; 2; 3; -4]%Z ms in
  let* ms := load 2 [1; 0; 0; 2]%Z ms in
  let* ms := load 1 [1; 2]%Z ms in
  let* ms := if left then mmultiply ms 2 0 3 else mmultiply ms 0 2 3 in
  let* ms := if left then mleft_scale ms 0 1 4 else mright_scale ms 0 1 4 in
  let* ok := compares ms 4 3 in
  let* _ := gone [0; 1; 2; 3; 4] ms in
  Ok ok.

(* test/matrix_tests.cpp:103-133 *)
Definition t_matrix_transpose_multiply : res bool :=
  let* ms := local_ 0 2 2 no_mats in
  let* ms := local_ 1 2 2 ms in
  let* ms := local_ 2 1 2 ms in
  let* ms := local_ 3 1 2 ms in
  let* ms := local_ 4 1 2 ms in
  let* ms := load 0 [0; 1; -1; 0]%Z ms in
  let* ms := load 2 [1; 2]%Z ms in
  let* ms := mtranspose ms 0 1 in
  let* ms := mmultiply ms 1 2 3 in
  let* ms := mtranspose_multiply ms 0 2 4 in
  let* ok := compares ms 4 3 in
  let* _ := gone [0; 1; 2; 3; 4] ms in
  Ok ok.

(** ** sparse_matrix_tests.cpp *)

Definition data3 : list Z := [0; 1; 2;  -1; 0; 5;  4; 2; 0]%Z.
Definition data6 : list Z := [0; 0; 1; 2; 2; 3;  -1; -2; 0; 0; 5; 6;  4; 5; 2; 3; 0; 0]%Z.

(* s.initialize(3 * st, 3), setBlock and set, test/sparse_matrix_tests.cpp:20-32,
   89-101, 138-150 (st = 1), 194-217 (st = 2; the order of the writes is changed) *)
Definition by_hand (st : nat) (vals : list Z) : res (sparse tg) :=
  let* s := sp_init st 2 sp_new (3 * st) 3 in
  let* s := for_ 3 (fun i s => for_ 2 (fun e s =>
    sp_set_block 2 s i e (nth (2 * i + e) [1; 2; 0; 2; 0; 1]%Z 0%Z)) s) s in
  for_ 3 (fun i s => for_ 2 (fun e s => for_ st (fun k s =>
    sp_set st 2 s i e k (cofZ (nth ((2 * i + e) * st + k) vals 0%Z))) s) s) s.
Definition hand1 : list Z := [1; 2; -1; 5; 4; 2]%Z.
Definition hand2 : list Z := [1; 2; 2; 3;  -1; -2; 5; 6;  4; 5; 2; 3]%Z.

(* test/sparse_matrix_tests.cpp:8-47 *)
Definition t_sparse_jjt1 : res bool :=
  let* ms := local_ 0 3 3 no_mats in
  let* ms := local_ 1 3 3 ms in
  let* ms := local_ 2 3 3 ms in
  let* ms := local_ 3 3 3 ms in
  let* s := by_hand 1 hand1 in
  let* ms := load 0 data3 ms in
  let* ms := mtranspose ms 0 1 in
  let* ms := mmultiply ms 0 1 2 in
  let* ms := sp_multiply_transpose 1 2 s s ms 3 in
  let* ok := compares ms 3 2 in
  let* _ := gone [0; 1; 2; 3] ms in
  let* _ := sp_dtor (sp_destroy s) in
  Ok ok.

(* test/sparse_matrix_tests.cpp:49-75 *)
Definition t_sparse_jjt3 : res bool :=
  let* ms := local_ 0 6 3 no_mats in
  let* ms := local_ 2 3 3 ms in
  let* ms := local_ 3 3 3 ms in
  let* ms := load 0 data6 ms in
  let* ms := mtranspose ms 0 1 in
  let* s := full_to_sparse ms 0 sp_new 3 in
  let* ms := mmultiply ms 0 1 2 in
  let* ms := sp_multiply_transpose 3 2 s s ms 3 in
  let* ok := compares ms 3 2 in
  let* _ := gone [0; 1; 2; 3] ms in
  let* _ := sp_dtor (sp_destroy s) in
  Ok ok.

(* test/sparse_matrix_tests.cpp:77-124 (st = 1, right), 126-173 (st = 1, left),
   175-236 (st = 2, right); the vector scale is never given its data, so that it
   is zero; [vals] and [data] are the elements of the two matrices *)
Definition t_sparse_scale (left : bool) (st : nat) (vals data : list Z) : res bool :=
  let* ms := local_ 0 (3 * st) 3 no_mats in
  let* ms := local_ 1 1 (3 * st) ms in
  let* ms := local_ 2 3 3 ms in
  let* ms := local_ 3 3 3 ms in
  let* s := by_hand st vals in
  let ss := upd no_sps 0%nat s in
  let* ms := load 0 data ms in
  let* ms := if left then mleft_scale ms 0 1 2 else mright_scale ms 0 1 2 in
  let* ss := if left then sp_left_scale st 2 ss ms 0 1 1 else sp_right_scale st 2 ss ms 0 1 1 in
  let* ms := sp_expand st 2 (ss 1%nat) ms 3 in
  let* ok := compares ms 3 2 in
  let* _ := gone [0; 1; 2; 3] ms in
  let* _ := gone_sps [0; 1] ss in
  Ok ok.

(* test/sparse_matrix_tests.cpp:238-272 *)
Definition t_sparse_multiply : res bool :=
  let* ms := local_ 0 6 3 no_mats in
  let* ms := local_ 1 1 6 ms in
  let* ms := local_ 2 1 3 ms in
  let* ms := local_ 3 1 3 ms in
  let* ms := load 0 data6 ms in
  let* ms := load 1 [1; -1; 3; 4; 10; 11]%Z ms in
  let* s := full_to_sparse ms 0 sp_new 3 in
  let* ms := mmultiply ms 0 1 2 in
  let* ms := sp_multiply 3 2 s ms 1 3 in
  let* ok := compares ms 3 2 in
  let* _ := gone [0; 1; 2; 3] ms in
  let* _ := sp_dtor (sp_destroy s) in
  Ok ok.

(* test/sparse_matrix_tests.cpp:274-297 *)
Definition t_sparse_transpose_vector : res bool :=
  let* ms := local_ 0 6 3 no_mats in
  let* ms := local_ 1 1 3 ms in
  let* ms := local_ 2 1 6 ms in
  let* ms := local_ 3 1 6 ms in
  let* ms := load 0 data6 ms in
  let* ms := load 1 [1; -1; 3]%Z ms in
  let* s := full_to_sparse ms 0 sp_new 3 in
  let* ms := mtranspose_multiply ms 0 1 2 in
  let* ms := sp_transpose_multiply_vector 3 2 s ms 1 3 in
  let* ok := compares ms 3 2 in
  let* _ := gone [0; 1; 2; 3] ms in
  let* _ := sp_dtor (sp_destroy s) in
  Ok ok.

(** ** The tests of the linear solvers *)

Definition solver_ge : ge_solver := {| ge_a := 20; ge_M := 21; ge_reg := 10 |}.
Definition solver_cg : cg_solver tg := cg_default 20 21 22 23 24 25.

(* test/gaussian_elimination_sle_solver_tests.cpp:11-47 *)
Definition t_ge_basic : res bool :=
  let* ms := local_ 0 1 2 no_mats in
  let* ms := local_ 1 1 2 ms in
  let* ms := local_ 2 3 2 ms in
  let* ms := local_ 3 1 2 ms in
  let* ms := local_ones 4 1 3 ms in
  let* ms := local_ 5 2 2 ms in
  let* ms := load 2 [500; 0; 2;  0; -600; 1]%Z ms in
  let* ms := load 3 [50; 100]%Z ms in
  let* J := full_to_sparse ms 2 sp_new 3 in
  let* (hp, solvable) := ge_solve solver_ge 0 4 3 9 0 {| hm := ms; hs := upd no_sps 0%nat J |} in
  let* ms := jwjt (hm hp) 2 4 5 30 31 in
  let* ms := mmultiply ms 5 0 1 in
  let* x := mget ms 1 0 0 in
  let* y := mget ms 3 0 0 in
  let* a := near x y (clit 1 10000000) in
  let* x := mget ms 1 0 1 in
  let* y := mget ms 3 0 1 in
  let* b := near x y (clit 1 10000000) in
  let* _ := gone [0; 1; 2; 3; 4; 5] ms in
  let* _ := sp_dtor (sp_destroy (hs hp 0%nat)) in
  let* _ := sle_dtor (SleGe solver_ge) {| hm := ms; hs := hs hp |} in
  Ok ((solvable : bool) && a && b).

(* test/gaussian_elimination_sle_solver_tests.cpp:49-110,
   test/conjugate_gradient_sle_solver_tests.cpp:11-69 *)
Definition t_sle_4x4 (cg : bool) : res bool :=
  let* ms := local_ 0 1 6 no_mats in           (* solution *)
  let* ms := local_ 1 1 6 ms in                (* check *)
  let* ms := local_ 2 6 4 ms in                (* J; JW is 3, J_T is 4 *)
  let* ms := local_ 5 6 4 ms in                (* L *)
  let* ms := local_ 6 1 4 ms in                (* R *)
  let* ms := local_ones 7 1 6 ms in            (* s; temp is 8 *)
  let* ms := load 2 [500; 2; 4; 0; 0; 0;  5; -700; 10; 45; 10; 20;  0; 5; 10; 200; 5; 5;  10; 20; -10; 30; 500; 300]%Z ms in
  let* ms := load 6 [5; 10; -1; 20]%Z ms in
  let* J := full_to_sparse ms 2 sp_new 3 in
  let ss := upd no_sps 0%nat J in              (* JW_sparse is 1 *)
  let* ms := sp_expand 3 2 (ss 0%nat) ms 8 in
  let* ok1 := compares ms 8 2 in
  let* ms := mright_scale ms 2 7 3 in
  let* ss := sp_right_scale 3 2 ss ms 0 7 1 in
  let* ms := sp_expand 3 2 (ss 1%nat) ms 8 in
  let* ok2 := compares ms 8 3 in
  let* ms := mtranspose ms 2 4 in
  let* ms := mmultiply ms 3 4 5 in
  let* ms := sp_multiply_transpose 3 2 (ss 1%nat) (ss 0%nat) ms 8 in
  let* ok3 := compares ms 8 5 in
  let hp := {| hm := ms; hs := ss |} in
  let* (hp, solvable) := if cg then cg_solve solver_cg 0 7 6 None 0 hp else ge_solve solver_ge 0 7 6 9 0 hp in
  let* ms := mmultiply (hm hp) 5 0 1 in
  let* ok4 := compares ms 1 6 in
  let* _ := gone [0; 1; 2; 3; 4; 5; 6; 7; 8] ms in
  let* _ := gone_sps [0; 1] (hs hp) in
  let* _ := sle_dtor (if cg then SleCg solver_cg else SleGe solver_ge) {| hm := ms; hs := hs hp |} in
  Ok (ok1 && ok2 && ok3 && (solvable : bool) && ok4).

(** ** The tests of the integrators *)

(* test/euler_ode_solver_tests.cpp:5-21, test/rk4_ode_solver_tests.cpp:5-21:
   eulerSolve(steps, t, state), rk4Solve; the loop while (true) has [fuel] *)
Fixpoint ode_rounds (fuel : nat) (o : ode tg) (s : sstate tg) : res (ode tg * sstate tg) :=
  match fuel with
  | O => OutOfFuel
  | S fuel' =>
      let* (o, s, complete) := ode_step o s in
      let* (o, s) := ode_solve o s in
      if (complete : bool) then Ok (o, s) else ode_rounds fuel' o s
  end.
Definition ode_test_solve (o : ode tg) (steps : nat) (t : cell tg) (s : sstate tg) : res (sstate tg) :=
  let dt := t / cofZ (Z.of_nat steps) in
  let* (o, s) := for_ steps (fun _ '(o, s) =>
    let* o := ode_start o s dt in
    let* (o, s) := ode_rounds 5 o s in
    Ok (ode_end o, s)) (o, s) in
  let* _ := ode_dtor o in
  Ok s.

(* test/euler_ode_solver_tests.cpp:23-32, test/rk4_ode_solver_tests.cpp:23-32 *)
Definition t_ode_sanity (o : ode tg) (expect : bool) : res bool :=
  let s := st_resize (st_new : sstate tg) 1 1 in
  let* (o, s, b) := ode_step o s in
  let* _ := ode_dtor o in
  let* _ := st_dtor (st_destroy s) in
  Ok (Bool.eqb b expect).

(* the assignments to the state: v_theta, v_x, v_y are parameters *)
Definition ode_test_state (vt vx vy : Z) : res (sstate tg) :=
  fold_left (fun r '(f, z) => let* s := r in sto s f 0 (cofZ z))
    [(Fatheta, 10%Z); (Fvtheta, vt); (Ftheta, 0%Z); (Fax, (-2)%Z); (Fay, (-10)%Z); (Fvx, vx); (Fvy, vy);
     (Fpx, 0%Z); (Fpy, 0%Z); (Ffx, 0%Z); (Ffy, 0%Z); (Ft, 0%Z)]
    (Ok (st_resize st_new 1 1)).
(* EXPECT_NEAR(state.f[0], value, err) for each *)
Definition expects (s : sstate tg) (l : list (fld * cell tg * cell tg)) : res bool :=
  fold_left (fun r '(f, v, err) => let* ok := r in let* x := ld s f 0 in let* b := near x v err in Ok ((ok : bool) && (b : bool))) l (Ok true).
Definition t_ode (o : ode tg) (steps : nat) (t : cell tg) (vt vx vy : Z) (l : list (fld * cell tg * cell tg)) : res bool :=
  let* s := ode_test_state vt vx vy in
  let* s := ode_test_solve o steps t s in
  let* ok := expects s l in
  let* _ := st_dtor (st_destroy s) in
  Ok ok.

(* test/euler_ode_solver_tests.cpp:34-64 and 66-98 *)
Definition t_euler_1 : res bool :=
  t_ode (OdeEuler (cofZ 0)) 1 (clit 1 10) 0 0 0
    [(Fvx, - (clit 2 10), clit 1 10000000); (Fvy, - (cofZ 1), clit 1 10000000);
     (Fpx, - (clit 1 100), clit 1 10); (Fpy, - (clit 5 100), clit 1 10);
     (Fvtheta, cofZ 1, clit 1 10000000); (Ftheta, cofZ 0, clit 1 10000000)].
Definition t_euler_100 : res bool :=
  t_ode (OdeEuler (cofZ 0)) 100 (cofZ 10) 9 9 5
    [(Fvx, cofZ (-11), clit 1 10000000); (Fvy, cofZ (-95), clit 1 10000000);
     (Fpx, cofZ (-10), cofZ 1); (Fpy, cofZ (-450), cofZ 10);
     (Fvtheta, cofZ 100, cofZ 10); (Ftheta, cofZ 550, cofZ 50)].
(* test/rk4_ode_solver_tests.cpp:34-64 and 66-98 *)
Definition t_rk4_1 : res bool :=
  t_ode (OdeRk4 rk4_new) 1 (clit 1 10) 0 0 0
    [(Fvx, - (clit 2 10), clit 1 10000000); (Fvy, - (cofZ 1), clit 1 10000000);
     (Fpx, - (clit 1 100), clit 1 10000000); (Fpy, - (clit 5 100), clit 1 10000000);
     (Fvtheta, cofZ 1, clit 1 10000000); (Ftheta, clit 5 100, clit 1 10000000)].
Definition t_rk4_100 : res bool :=
  t_ode (OdeRk4 rk4_new) 100 (cofZ 10) 9 9 5
    [(Fvx, cofZ (-11), clit 1 10000000); (Fvy, cofZ (-95), clit 1 10000000);
     (Fpx, cofZ (-10), clit 1 10000000); (Fpy, cofZ (-450), clit 1 10000000);
     (Fvtheta, cofZ 109, clit 1 10000000); (Ftheta, cofZ 590, clit 1 10000000)].

(** ** rolling_constraint_tests.cpp *)

(* test/rolling_constraint_tests.cpp:18-28  q[q_i], q_dot[q_i] *)
Definition coord_fld (j : nat) : fld := match Nat.modulo j 3 with O => Fpx | S O => Fpy | _ => Ftheta end.
Definition speed_fld (j : nat) : fld := match Nat.modulo j 3 with O => Fvx | S O => Fvy | _ => Fvtheta end.

(* test/rolling_constraint_tests.cpp:16-51  the body of the two outer loops of
   verify, for row i and coordinate j; d = 0.1, dt = 0.001, the tolerance 1E-4 *)
Definition verify_at (bs : bodies tg) (c : constraint tg) (i j : nat) (os : output tg * output tg) (s : sstate tg) (ok : bool)
  : res (output tg * output tg * sstate tg * bool) :=
  let d := clit 1 10 in
  let dt := clit 1 1000 in
  let err := clit 1 10000 in
  let b := Z.of_nat (j / 3) in
  let n := c_bodycount c in
  let m := c_count c in
  let* v0 := ld s (coord_fld j) b in
  let* s := sto s (speed_fld j) b d in
  let* o0 := calculate bs c (fst os) s in
  let* s := sto_add s (coord_fld j) b (d * dt) in
  let* o1 := calculate bs c (snd os) s in
  let* s := sto s (coord_fld j) b v0 in
  let* s := sto s (speed_fld j) b (cofZ 0) in
  let* c1 := out1 (o_C o1) i in
  let* c0 := out1 (o_C o0) i in
  let* j0 := out2 (o_J o0) 6 i j in
  let* j1 := out2 (o_J o1) 6 i j in
  let* okC := near ((c1 - c0) / (d * dt)) ((j0 + j1) / cofZ 2) err in
  let* ok := for_ (n * 3) (fun k ok => for_ m (fun l ok =>
    let* x1 := out2 (o_J o1) 6 l k in
    let* x0 := out2 (o_J o0) 6 l k in
    let* y0 := out2 (o_Jdot o0) 6 l k in
    let* y1 := out2 (o_Jdot o1) 6 l k in
    let* okJ := near ((x1 - x0) / dt) ((y0 + y1) / cofZ 2) err in
    Ok ((ok : bool) && (okJ : bool))) ok) ((ok : bool) && (okC : bool)) in
  Ok (o0, o1, s, ok).

(* test/rolling_constraint_tests.cpp:8-54  verify(state, constraint); o0, o1
   start with indeterminate contents *)
Definition verify (bs : bodies tg) (c : constraint tg) (s : sstate tg) : res (sstate tg * bool) :=
  let* (_, s, ok) := for_ (c_count c) (fun i st => for_ (c_bodycount c * 3) (fun j '(os, s, ok) =>
    let* (o0, o1, s, ok) := verify_at bs c i j os s ok in Ok ((o0, o1), s, ok)) st) ((out_new, out_new), s, true) in
  Ok (s, ok).

(* test/rolling_constraint_tests.cpp:56-101  the constraint; its other members
   as the constructor leaves them (src/rolling_constraint.cpp:5-11) *)
Definition rolling_test_con : res (constraint tg) :=
  let* c := con_new (KRolling (mkRoll (cofZ 0) (clit 1 10) (cofZ 1) (cofZ 0) (cofZ 1) (cofZ 10) (cofZ 1))) 2 2 in
  Ok {| c_kind := c_kind c; c_index := c_index c; c_bodycount := c_bodycount c; c_bodies := Some;
        c_Fx := c_Fx c; c_Fy := c_Fy c; c_Ft := c_Ft c; c_count := c_count c |}.
(* base.index = 0, rolling.index = 1 *)
Definition rolling_test_bodies : bodies tg := fun i => b_set_index b_new (Z.of_nat i).
(* one of the ten rounds; the positions [xs] are drawn from -50 to 50 there *)
Definition rolling_round (c : constraint tg) (xs : list (cell tg)) (s : sstate tg) (ok : bool) : res (sstate tg * bool) :=
  let* s := fold_left (fun r '(f, b, v) => let* s := r in sto s f b v)
    [(Fpx, 0%Z, nth 0 xs None); (Fpx, 1%Z, nth 1 xs None); (Fpy, 0%Z, nth 2 xs None); (Fpy, 1%Z, nth 3 xs None);
     (Ftheta, 0%Z, nth 4 xs None); (Ftheta, 1%Z, nth 5 xs None);
     (Fvx, 0%Z, cofZ 0); (Fvx, 1%Z, cofZ 0); (Fvy, 0%Z, cofZ 0); (Fvy, 1%Z, cofZ 0); (Fvtheta, 0%Z, cofZ 0); (Fvtheta, 1%Z, cofZ 0)] (Ok s) in
  let* (s, ok') := verify rolling_test_bodies c s in
  Ok (s, (ok : bool) && (ok' : bool)).
(* any number of rounds *)
Definition t_rolling (rounds : list (list (cell tg))) : res bool :=
  let* c := rolling_test_con in
  let* s := fold_left (fun r '(f, b) => let* s := r in sto s f b (cofZ 0))
    [(Fpx, 0%Z); (Fpx, 1%Z); (Fpy, 0%Z); (Fpy, 1%Z); (Ftheta, 0%Z); (Ftheta, 1%Z)] (Ok (st_resize st_new 2 2)) in
  let* (s, ok) := fold_left (fun r xs => let* (s, ok) := r in rolling_round c xs s ok) rounds (Ok (s, true)) in
  let* _ := st_dtor (st_destroy s) in
  Ok ok.

(** ** All of them but the rolling test, which needs sines *)
Definition suite : list (res bool) :=
  [t_matrix_init; t_matrix_multiply; t_matrix_scale false; t_matrix_scale true; t_matrix_transpose_multiply;
   t_sparse_jjt1; t_sparse_jjt3; t_sparse_scale false 1 hand1 data3; t_sparse_scale true 1 hand1 data3;
   t_sparse_scale false 2 hand2 data6; t_sparse_multiply; t_sparse_transpose_vector;
   t_ge_basic; t_sle_4x4 false; t_sle_4x4 true;
   t_ode_sanity (OdeEuler (cofZ 0)) true; t_euler_1; t_euler_100; t_ode_sanity (OdeRk4 rk4_new) false; t_rk4_1; t_rk4_100].

End Suite.
Arguments suite : clear implicits.
