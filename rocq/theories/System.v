(** * Models of the rigid body systems.

    src/rigid_body_system.cpp, src/generic_rigid_body_system.cpp,
    src/optimized_nsv_rigid_body_system.cpp.

    A [world] holds the objects the user owns (bodies, constraints, force
    generators); a [sys] is one system object: its three vectors of pointers,
    its SystemState, its Matrix members (in [y_heap], under the fixed names
    below, together with the members of the linear solver it was given), its
    solvers and its profiling buffers.  A [sys] is one system; for systems that
    share a linear solver see [y_shared] in SpecSys.v.

    Wall-clock readings are external: the four per-frame totals are an
    argument ([timing]) of process.  std::vector growth and [new] are assumed
    to succeed; ints do not overflow. *)

From Verif Require Import Base Matrix Sparse Sle State Ode Forces Constraints.

(** names of the Matrix members of m_iv
    (include/generic_rigid_body_system.h:28-43,
     include/optimized_nsv_rigid_body_system.h:37-53) *)
Definition iC := 0%nat.
Definition iM := 1%nat.
Definition iMinv := 2%nat.
Definition iberr := 3%nat.
Definition ivbias := 4%nat.
Definition ilimits := 5%nat.
Definition iqdot := 6%nat.
Definition iqdotp := 7%nat.
Definition ireg0 := 8%nat.
Definition ireg1 := 9%nat.
Definition ireg2 := 10%nat.
Definition iright := 11%nat.
Definition iFext := 12%nat.
Definition iFC := 13%nat.
Definition iR := 14%nat.
Definition ilambda := 15%nat.
Definition iks := 16%nat.
Definition ikd := 17%nat.
Definition iJT := 18%nat.
(** first Matrix name available to the linear solver's own members *)
Definition ifree := 20%nat.
(** names of the SparseMatrix<3> members *)
Definition sJ := 0%nat.
Definition sJdot := 1%nat.
Definition ssreg0 := 2%nat.
Definition sfree := 3%nat.

(* include/rigid_body_system.h:16 *)
Definition profiling_samples : nat := 60 * 10.

Section SystemModel.
Context {tg : target}.
Local Open Scope cell_scope.

Record world := mkWorld {
  w_body : bodies tg;
  w_con : nat -> constraint tg;
  w_gen : nat -> generator tg }.

(* the four profiling totals of one frame, in the order
   ode solve, constraint solve, force eval, constraint eval *)
Record timing := mkTiming { t_ode : Z; t_solve : Z; t_force : Z; t_eval : Z }.

(* include/rigid_body_system.h:55-66, include/generic_rigid_body_system.h:24-43,
   include/optimized_nsv_rigid_body_system.h:20,30-53 *)
Record sys := mkSys {
  y_bodies : list nat;
  y_cons : list nat;
  y_gens : list nat;
  y_state : sstate tg;
  y_heap : heap tg;
  y_sle : option (sle tg);
  y_ode : option (ode tg);
  y_bias : cell tg;
  y_t : cell tg;
  y_prof : list timing;
  y_frame : nat }.

(* src/rigid_body_system.cpp:7-20, src/generic_rigid_body_system.cpp:5-8,
   src/optimized_nsv_rigid_body_system.cpp:6-10.  The four sample buffers are
   kept as one list of 4-tuples. *)
Definition sys_new (o : option (ode tg)) : sys :=
  {| y_bodies := []; y_cons := []; y_gens := []; y_state := st_new;
     y_heap := {| hm := fun _ => mat_new; hs := fun _ => sp_new |};
     y_sle := None; y_ode := o; y_bias := cofZ 1; y_t := cofZ 0;
     y_prof := repeat (mkTiming (-1) (-1) (-1) (-1)) profiling_samples; y_frame := 0 |}.

Definition with_state (y : sys) (s : sstate tg) : sys :=
  {| y_bodies := y_bodies y; y_cons := y_cons y; y_gens := y_gens y; y_state := s;
     y_heap := y_heap y; y_sle := y_sle y; y_ode := y_ode y; y_bias := y_bias y;
     y_t := y_t y; y_prof := y_prof y; y_frame := y_frame y |}.
Definition with_heap (y : sys) (h : heap tg) : sys :=
  {| y_bodies := y_bodies y; y_cons := y_cons y; y_gens := y_gens y; y_state := y_state y;
     y_heap := h; y_sle := y_sle y; y_ode := y_ode y; y_bias := y_bias y;
     y_t := y_t y; y_prof := y_prof y; y_frame := y_frame y |}.
Definition with_ode (y : sys) (o : option (ode tg)) : sys :=
  {| y_bodies := y_bodies y; y_cons := y_cons y; y_gens := y_gens y; y_state := y_state y;
     y_heap := y_heap y; y_sle := y_sle y; y_ode := o; y_bias := y_bias y;
     y_t := y_t y; y_prof := y_prof y; y_frame := y_frame y |}.
Definition with_regs (y : sys) (b c g : list nat) : sys :=
  {| y_bodies := b; y_cons := c; y_gens := g; y_state := y_state y;
     y_heap := y_heap y; y_sle := y_sle y; y_ode := y_ode y; y_bias := y_bias y;
     y_t := y_t y; y_prof := y_prof y; y_frame := y_frame y |}.
Definition with_sle (y : sys) (l : option (sle tg)) : sys :=
  {| y_bodies := y_bodies y; y_cons := y_cons y; y_gens := y_gens y; y_state := y_state y;
     y_heap := y_heap y; y_sle := l; y_ode := y_ode y; y_bias := y_bias y;
     y_t := y_t y; y_prof := y_prof y; y_frame := y_frame y |}.

(* src/optimized_nsv_rigid_body_system.cpp:33-35  initialize(sleSolver); the
   m_odeSolver member is an NsvOdeSolver *)
Definition opt_initialize (y : sys) (l : sle tg) : sys := with_sle y (Some l).

(* src/generic_rigid_body_system.cpp:14-22  initialize(sleSolver, odeSolver) *)
Definition gen_initialize (y : sys) (l : sle tg) (o : ode tg) : res sys :=
  let y := with_ode (with_sle y (Some l)) (Some o) in
  let* ms := minit0 (hm (y_heap y)) ilambda 0 0 in
  Ok (with_heap y (with_hm (y_heap y) ms)).

(** ** Registry *)

Definition set_body (w : world) (i : nat) (b : body tg) : world :=
  {| w_body := upd (w_body w) i b; w_con := w_con w; w_gen := w_gen w |}.
Definition set_con (w : world) (i : nat) (c : constraint tg) : world :=
  {| w_body := w_body w; w_con := upd (w_con w) i c; w_gen := w_gen w |}.
Definition set_gen (w : world) (i : nat) (g : generator tg) : world :=
  {| w_body := w_body w; w_con := w_con w; w_gen := upd (w_gen w) i g |}.

Definition con_set_index (c : constraint tg) (i : Z) : constraint tg :=
  {| c_kind := c_kind c; c_index := i; c_bodycount := c_bodycount c; c_bodies := c_bodies c;
     c_Fx := c_Fx c; c_Fy := c_Fy c; c_Ft := c_Ft c; c_count := c_count c |}.
Definition gen_set_index (g : generator tg) (i : Z) : generator tg :=
  {| g_kind := g_kind g; g_index := Some i |}.

(* src/rigid_body_system.cpp:31-35  reset(): the objects' indices are left alone *)
Definition sys_reset (y : sys) : sys := with_regs y [] [] [].

(* v[i] of a std::vector, i an int (a negative or too large i is UB) *)
Definition vec_get {A : Type} (v : list A) (i : Z) : res A := aget v i.

(* src/rigid_body_system.cpp:41-44  addRigidBody *)
Definition add_body (w : world) (y : sys) (b : nat) : world * sys :=
  let v := y_bodies y ++ [b] in
  (set_body w b (b_set_index (w_body w b) (Z.of_nat (length v) - 1)),
   with_regs y v (y_cons y) (y_gens y)).

(* v.back() *)
Definition vec_back (v : list nat) : res nat :=
  match v with [] => UB | _ => Ok (last v 0%nat) end.
(* v.resize(v.size() - 1): with size 0 the new size wraps around, which throws *)
Definition vec_drop_last (v : list nat) : res (list nat) :=
  match v with [] => UB | _ => Ok (removelast v) end.

(* src/rigid_body_system.cpp:46-50  removeRigidBody *)
Definition remove_body (w : world) (y : sys) (b : nat) : res (world * sys) :=
  let v := y_bodies y in
  let* bk := vec_back v in
  let* v := aset v (b_index (w_body w b)) bk in
  let* x := vec_get v (b_index (w_body w b)) in
  let w := set_body w x (b_set_index (w_body w x) (b_index (w_body w b))) in
  let* v := vec_drop_last v in
  Ok (w, with_regs y v (y_cons y) (y_gens y)).

(* src/rigid_body_system.cpp:52-55  getRigidBody; i is compared as a size_t *)
Definition get_body (y : sys) (i : Z) : res nat :=
  let* _ := massert tg (Z.leb 0 i && Z.ltb i (Z.of_nat (length (y_bodies y)))) in
  vec_get (y_bodies y) i.

(* src/rigid_body_system.cpp:57-60  addConstraint *)
Definition add_con (w : world) (y : sys) (c : nat) : world * sys :=
  let v := y_cons y ++ [c] in
  (set_con w c (con_set_index (w_con w c) (Z.of_nat (length v) - 1)),
   with_regs y (y_bodies y) v (y_gens y)).

(* src/rigid_body_system.cpp:62-66  removeConstraint *)
Definition remove_con (w : world) (y : sys) (c : nat) : res (world * sys) :=
  let v := y_cons y in
  let* bk := vec_back v in
  let* v := aset v (c_index (w_con w c)) bk in
  let* x := vec_get v (c_index (w_con w c)) in
  let w := set_con w x (con_set_index (w_con w x) (c_index (w_con w c))) in
  let* v := vec_drop_last v in
  Ok (w, with_regs y (y_bodies y) v (y_gens y)).

(* src/rigid_body_system.cpp:68-71  addForceGenerator *)
Definition add_gen (w : world) (y : sys) (g : nat) : world * sys :=
  let v := y_gens y ++ [g] in
  (set_gen w g (gen_set_index (w_gen w g) (Z.of_nat (length v) - 1)),
   with_regs y (y_bodies y) (y_cons y) v).

(* src/rigid_body_system.cpp:73-77  removeForceGenerator; m_index may be
   indeterminate (never added) *)
Definition remove_gen (w : world) (y : sys) (g : nat) : res (world * sys) :=
  let v := y_gens y in
  let* bk := vec_back v in
  let* i := lift_opt (g_index (w_gen w g)) in
  let* v := aset v i bk in
  let* x := vec_get v i in
  let w := set_gen w x (gen_set_index (w_gen w x) i) in
  let* v := vec_drop_last v in
  Ok (w, with_regs y (y_bodies y) (y_cons y) v).

(* include/rigid_body_system.h:35-37 *)
Definition body_count (y : sys) : nat := length (y_bodies y).
Definition con_count (y : sys) : nat := length (y_cons y).
Definition gen_count (y : sys) : nat := length (y_gens y).

(* src/rigid_body_system.cpp:79-86  getFullConstraintCount *)
Definition full_count (w : world) (y : sys) : nat :=
  fold_left (fun count c => (count + c_count (w_con w c))%nat) (y_cons y) 0%nat.

(** ** Profiling *)

(* src/rigid_body_system.cpp:88-100  findAverage.  The result is the pair
   (sum, count) of the samples that are not -1; the code returns 0 when count
   is 0 and (float)sum / count otherwise (the float rounding is not modelled) *)
Definition find_average (samples : list Z) : Z * nat :=
  fold_left (fun '(accum, count) x =>
    if negb (Z.eqb x (-1)) then (accum + x, S count)%Z else (accum, count)) samples (0%Z, 0%nat).

(* src/rigid_body_system.cpp:102-116 *)
Definition ode_microseconds (y : sys) : Z * nat := find_average (map t_ode (y_prof y)).
Definition solve_microseconds (y : sys) : Z * nat := find_average (map t_solve (y_prof y)).
Definition eval_microseconds (y : sys) : Z * nat := find_average (map t_eval (y_prof y)).
Definition force_microseconds (y : sys) : Z * nat := find_average (map t_force (y_prof y)).

(* src/optimized_nsv_rigid_body_system.cpp:80-84 (= src/generic_...cpp:90-94) *)
Definition record_profile (y : sys) (t : timing) : res sys :=
  let* p := lift_opt (list_set (y_prof y) (y_frame y) t) in
  Ok {| y_bodies := y_bodies y; y_cons := y_cons y; y_gens := y_gens y; y_state := y_state y;
        y_heap := y_heap y; y_sle := y_sle y; y_ode := y_ode y; y_bias := y_bias y;
        y_t := y_t y; y_prof := p; y_frame := Nat.modulo (y_frame y + 1) profiling_samples |}.

(** ** Shared parts of process *)

Definition nth_body (w : world) (y : sys) (i : nat) : res (body tg) :=
  let* b := lift_opt (nth_error (y_bodies y) i) in Ok (w_body w b).
Definition nth_con (w : world) (y : sys) (i : nat) : res (constraint tg) :=
  let* c := lift_opt (nth_error (y_cons y) i) in Ok (w_con w c).

(* src/rigid_body_system.cpp:118-146  populateSystemState *)
Definition populate_state (w : world) (y : sys) : res (sstate tg) :=
  let s := st_resize (y_state y) (body_count y) (full_count w y) in
  let* s := for_ (body_count y) (fun i s =>
    let z := Z.of_nat i in
    let* b := nth_body w y i in
    let* s := sto s Fax z (cofZ 0) in
    let* s := sto s Fay z (cofZ 0) in
    let* s := sto s Fvx z (b_f b Bvx) in
    let* s := sto s Fvy z (b_f b Bvy) in
    let* s := sto s Fpx z (b_f b Bpx) in
    let* s := sto s Fpy z (b_f b Bpy) in
    let* s := sto s Fatheta z (cofZ 0) in
    let* s := sto s Fvtheta z (b_f b Bvtheta) in
    let* s := sto s Ftheta z (b_f b Btheta) in
    sto s Fm z (b_f b Bm)) s in
  let* (s, _) := for_ (con_count y) (fun i '(s, j_f) =>
    let* c := nth_con w y i in
    let* im := aset (s_imap s) (Z.of_nat i) (Some (Z.of_nat j_f)) in
    Ok (st_with_imap s im, (j_f + c_count c)%nat)) (s, 0%nat) in
  Ok s.

(* src/rigid_body_system.cpp:148-163  populateMassMatrices *)
Definition populate_mass (w : world) (y : sys) (ms : mats tg) : res (mats tg) :=
  let n := body_count y in
  let* ms := minit0 ms iM 1 (3 * n)%nat in
  let* ms := minit0 ms iMinv 1 (3 * n)%nat in
  for_ n (fun i ms =>
    let* b := nth_body w y i in
    let* ms := mset ms iM 0 (i * 3 + 0)%nat (b_f b Bm) in
    let* ms := mset ms iM 0 (i * 3 + 1)%nat (b_f b Bm) in
    let* ms := mset ms iM 0 (i * 3 + 2)%nat (b_f b BI) in
    let* ms := mset ms iMinv 0 (i * 3 + 0)%nat (cofZ 1 / b_f b Bm) in
    let* ms := mset ms iMinv 0 (i * 3 + 1)%nat (cofZ 1 / b_f b Bm) in
    mset ms iMinv 0 (i * 3 + 2)%nat (cofZ 1 / b_f b BI)) ms.

(* src/rigid_body_system.cpp:165-178  processForces *)
Definition process_forces (w : world) (y : sys) (s : sstate tg) : res (sstate tg) :=
  let* s := for_ (body_count y) (fun i s =>
    let* s := sto s Ffx (Z.of_nat i) (cofZ 0) in
    let* s := sto s Ffy (Z.of_nat i) (cofZ 0) in
    sto s Ft (Z.of_nat i) (cofZ 0)) s in
  for_ (gen_count y) (fun i s =>
    let* g := lift_opt (nth_error (y_gens y) i) in
    gen_apply (g_kind (w_gen w g)) (w_body w) s) s.

(* uint8_t conversion of an int argument *)
Definition to_uint8 (i : Z) : Z := Z.modulo i 256.

(* q_dot / F_ext: m.set(0, 3i+k, state.f_k[i]) for every body;
   src/optimized_nsv_rigid_body_system.cpp:166-170, 173-177,
   src/generic_rigid_body_system.cpp:111-115, 163-167 *)
Definition gather3 (n : nat) (s : sstate tg) (fx fy ft : fld) (id : nat) (ms : mats tg)
  : res (mats tg) :=
  for_ n (fun i ms =>
    let* x := ld s fx (Z.of_nat i) in
    let* ms := mset ms id 0 (i * 3 + 0)%nat x in
    let* x := ld s fy (Z.of_nat i) in
    let* ms := mset ms id 0 (i * 3 + 1)%nat x in
    let* x := ld s ft (Z.of_nat i) in
    mset ms id 0 (i * 3 + 2)%nat x) ms.

(* the setBlock loop, src/optimized_...cpp:141-147, src/generic_...cpp:129-136 *)
Definition set_blocks (w : world) (c : constraint tg) (j_f : nat) (s : sparse tg) : res (sparse tg) :=
  for_ (c_bodycount c) (fun i s =>
    let* index := con_body_index (w_body w) (c_bodies c) i in
    if Z.eqb index (-1) then Ok s
    else sp_set_block 2 s j_f i (to_uint8 index)) s.

(* src/optimized_...cpp:232-267 (= src/generic_...cpp:200-235): reactions and
   accelerations from sreg0, F_ext and M_inv *)
Definition apply_reactions (w : world) (y : sys) (hp : heap tg) (s : sstate tg) : res (sstate tg) :=
  let n := body_count y in
  let m_f := full_count w y in
  let* s := for2 m_f 2 (fun i j s =>
    let z := Z.of_nat (i * 2 + j) in
    let* x := sp_get 3 2 (hs hp ssreg0) i j 0 in
    let* s := sto s Frx z x in
    let* x := sp_get 3 2 (hs hp ssreg0) i j 1 in
    let* s := sto s Fry z x in
    let* x := sp_get 3 2 (hs hp ssreg0) i j 2 in
    sto s Frt z x) s in
  let* s := for_ n (fun i s =>
    let z := Z.of_nat i in
    let* x := mget (hm hp) iFext 0 (i * 3 + 0)%nat in
    let* s := sto s Fax z x in
    let* x := mget (hm hp) iFext 0 (i * 3 + 1)%nat in
    let* s := sto s Fay z x in
    let* x := mget (hm hp) iFext 0 (i * 3 + 2)%nat in
    sto s Fatheta z x) s in
  let* (s, _) := for_ (con_count y) (fun i '(s, j_f) =>
    let* c := nth_con w y i in
    for_ (c_count c) (fun j '(s, j_f) =>
      let* s := for_ (c_bodycount c) (fun k s =>
        let* body := con_body_index (w_body w) (c_bodies c) k in
        let z := Z.of_nat (j_f * 2 + k) in
        let* r := ld s Frx z in
        let* s := sto_add s Fax body r in
        let* r := ld s Fry z in
        let* s := sto_add s Fay body r in
        let* r := ld s Frt z in
        sto_add s Fatheta body r) s in
      Ok (s, S j_f)) (s, j_f)) (s, 0%nat) in
  for_ n (fun i s =>
    let z := Z.of_nat i in
    let* invMass := mget (hm hp) iMinv 0 (i * 3 + 0)%nat in
    let* invInertia := mget (hm hp) iMinv 0 (i * 3 + 2)%nat in
    let* a := ld s Fax z in
    let* s := sto s Fax z (a * invMass) in
    let* a := ld s Fay z in
    let* s := sto s Fay z (a * invMass) in
    let* a := ld s Fatheta z in
    sto s Fatheta z (a * invInertia)) s.

Definition hupd_s (h : heap tg) (i : nat) (s : sparse tg) : heap tg :=
  {| hm := hm h; hs := upd (hs h) i s |}.

(** ** OptimizedNsvRigidBodySystem *)

(* src/optimized_nsv_rigid_body_system.cpp:140-162: the rows of one constraint *)
Definition opt_con_rows (w : world) (c : constraint tg) (o : output tg) (dt : cell tg)
  (j_f : nat) (hp : heap tg) : res (nat * heap tg) :=
  for_ (c_count c) (fun k '(j_f, hp) =>
    let* J := set_blocks w c j_f (hs hp sJ) in
    let* J := for_ (c_bodycount c * 3) (fun i J =>
      let* index := con_body_index (w_body w) (c_bodies c) (i / 3)%nat in
      if Z.eqb index (-1) then Ok J
      else
        let* v := out2 (o_J o) 6 k i in
        sp_set 3 2 J j_f (i / 3)%nat (Nat.modulo i 3) v) J in
    let* v := out1 (o_vbias o) k in
    let* ms := mset (hm hp) ivbias 0 j_f v in
    let* v := out1 (o_C o) k in
    let* ms := mset ms iC 0 j_f v in
    let* v := out2 (o_limits o) 2 k 0 in
    let* ms := mset ms ilimits 0 j_f (v * dt) in
    let* v := out2 (o_limits o) 2 k 1 in
    let* ms := mset ms ilimits 1 j_f (v * dt) in
    Ok (S j_f, {| hm := ms; hs := upd (hs hp) sJ J |})) (j_f, hp).

(* src/optimized_nsv_rigid_body_system.cpp:130-163: Jacobian, biases, limits *)
Definition opt_gather (w : world) (y : sys) (dt : cell tg) (hp : heap tg) (s : sstate tg)
  : res (heap tg) :=
  let n := body_count y in
  let m_f := full_count w y in
  let* J := sp_init 3 2 (hs hp sJ) (3 * n)%nat m_f in
  let hp := hupd_s hp sJ J in
  let* ms := minit0 (hm hp) ivbias 1 m_f in
  let* ms := minit0 ms iC 1 m_f in
  let* ms := minit0 ms ilimits 2 m_f in
  let* (_, hp, _) := for_ (con_count y) (fun j '(j_f, hp, o) =>
    let* c := nth_con w y j in
    let* o := calculate (w_body w) c o s in
    let* (j_f, hp) := opt_con_rows w c o dt j_f hp in
    Ok (j_f, hp, o)) (0%nat, with_hm hp ms, out_new) in
  Ok hp.

(* src/optimized_nsv_rigid_body_system.cpp:165-194: q_dot, F_ext, q_dot_prime, right *)
Definition opt_right (w : world) (y : sys) (dt : cell tg) (hp : heap tg) (s : sstate tg)
  : res (heap tg) :=
  let n := body_count y in
  let ms := hm hp in
  let* ms := mresize ms iqdot 1 (n * 3)%nat in
  let* ms := gather3 n s Fvx Fvy Fvtheta iqdot ms in
  let* ms := minit_val ms iFext 1 (3 * n)%nat (cofZ 0) in
  let* ms := gather3 n s Ffx Ffy Ft iFext ms in
  let* ms := mscale ms iFext dt ireg0 in
  let* ms := mleft_scale ms ireg0 iMinv ireg1 in
  let* ms := madd2 ms ireg1 iqdot iqdotp in
  let* ms := mscale ms iC (y_bias y / dt) iberr in
  let* ms := sp_multiply 3 2 (hs hp sJ) ms iqdotp ireg0 in
  let* ms := madd2 ms ireg0 ivbias ireg1 in
  let* ms := madd2 ms ireg1 iberr ireg0 in
  let* ms := mnegate ms ireg0 iright in
  Ok (with_hm hp ms).

Definition the_sle (y : sys) : res (sle tg) :=
  match y_sle y with Some l => Ok l | None => UB end.

(* src/optimized_nsv_rigid_body_system.cpp:116-275  processConstraints(dt) *)
Definition opt_process_constraints (w : world) (y : sys) (dt : cell tg)
  (hp : heap tg) (s : sstate tg) : res (heap tg * sstate tg) :=
  let* hp := opt_gather w y dt hp s in
  let* hp := opt_right w y dt hp s in
  let* l := the_sle y in
  let* (hp, solvable) :=
    (if negb (supports_limits l)
     then sle_solve l sJ iMinv iright ilambda ilambda hp
     else sle_solve_limits l sJ iMinv iright ilimits ilambda ilambda hp) in
  let* _ := massert tg solvable in
  let* ms := mscale (hm hp) ilambda (cofZ 1 / dt) ireg0 in
  let* ss := sp_left_scale 3 2 (hs hp) ms sJ ireg0 ssreg0 in
  let hp := {| hm := ms; hs := ss |} in
  let* s := apply_reactions w y hp s in
  Ok (hp, s).

(* src/optimized_nsv_rigid_body_system.cpp:89-100 (= src/generic_...cpp:65-75):
   results back into the bodies *)
Definition bodies_back (y : sys) (s : sstate tg) (w : world) : res world :=
  for_ (body_count y) (fun i w =>
    let z := Z.of_nat i in
    let* b := lift_opt (nth_error (y_bodies y) i) in
    let* vx := ld s Fvx z in
    let* vy := ld s Fvy z in
    let* px := ld s Fpx z in
    let* py := ld s Fpy z in
    let* vt := ld s Fvtheta z in
    let* th := ld s Ftheta z in
    let o := w_body w b in
    let o := b_set o Bvx vx in
    let o := b_set o Bvy vy in
    let o := b_set o Bpx px in
    let o := b_set o Bpy py in
    let o := b_set o Bvtheta vt in
    Ok (set_body w b (b_set o Btheta th))) w.

Definition upd2 (f : nat -> nat -> cell tg) (i j : nat) (v : cell tg) : nat -> nat -> cell tg :=
  fun a b => if Nat.eqb a i && Nat.eqb b j then v else f a b.
(* constraint->F_x[j][k] = fx; F_y..., F_t... (arrays of 3 x 2) *)
Definition con_set_force (c : constraint tg) (j k : nat) (fx fy ft : cell tg) : res (constraint tg) :=
  if Nat.ltb j 3 && Nat.ltb k 2 then
    Ok {| c_kind := c_kind c; c_index := c_index c; c_bodycount := c_bodycount c;
          c_bodies := c_bodies c; c_Fx := upd2 (c_Fx c) j k fx; c_Fy := upd2 (c_Fy c) j k fy;
          c_Ft := upd2 (c_Ft c) j k ft; c_count := c_count c |}
  else UB.

(* reported constraint forces; [at_ i_f k] is the position read in r_x, r_y, r_t *)
Definition forces_back (at_ : nat -> nat -> nat) (y : sys) (s : sstate tg) (w : world) : res world :=
  let* (w, _) := for_ (con_count y) (fun i '(w, i_f) =>
    let* cid := lift_opt (nth_error (y_cons y) i) in
    for_ (c_count (w_con w cid)) (fun j '(w, i_f) =>
      let* w := for_ (c_bodycount (w_con w cid)) (fun k w =>
        let z := Z.of_nat (at_ i_f k) in
        let* fx := ld s Frx z in
        let* fy := ld s Fry z in
        let* ft := ld s Frt z in
        let* c := con_set_force (w_con w cid) j k fx fy ft in
        Ok (set_con w cid c)) w in
      Ok (w, S i_f)) (w, i_f)) (w, 0%nat) in
  Ok w.

(* src/optimized_nsv_rigid_body_system.cpp:89-114  propagateResults *)
Definition opt_propagate (y : sys) (s : sstate tg) (w : world) : res world :=
  let* w := bodies_back y s w in
  forces_back (fun i_f k => (i_f * 2 + k)%nat) y s w.

(* the while (true) loop of process: [pc] is processConstraints.  The library's
   integrators finish in at most 4 rounds; 8 rounds of fuel are given *)
Fixpoint ode_rounds (fuel : nat) (w : world) (y : sys)
  (pc : heap tg -> sstate tg -> res (heap tg * sstate tg))
  (o : ode tg) (hp : heap tg) (s : sstate tg) : res (ode tg * heap tg * sstate tg) :=
  match fuel with
  | O => OutOfFuel
  | S fuel' =>
      let* (o, s, done) := ode_step o s in
      let* s := process_forces w y s in
      let* (hp, s) := pc hp s in
      let* (o, s) := ode_solve o s in
      if (done : bool) then Ok (o, hp, s) else ode_rounds fuel' w y pc o hp s
  end.

(* for (int i = 0; i < steps; ++i) { start; while (true) ...; end; } *)
Definition ode_steps (steps : nat) (dt : cell tg) (w : world) (y : sys)
  (pc : cell tg -> heap tg -> sstate tg -> res (heap tg * sstate tg))
  (o : ode tg) (hp : heap tg) (s : sstate tg) : res (ode tg * heap tg * sstate tg) :=
  let h := dt / cofZ (Z.of_nat steps) in
  for_ steps (fun _ '(o, hp, s) =>
    let* o := ode_start o s h in
    let* (o, hp, s) := ode_rounds 8 w y (pc h) o hp s in
    Ok (ode_end o, hp, s)) (o, hp, s).

Definition the_ode (y : sys) : res (ode tg) :=
  match y_ode y with Some o => Ok o | None => UB end.

(* src/optimized_nsv_rigid_body_system.cpp:37-87  process(dt, steps) *)
Definition opt_process (dt : cell tg) (steps : nat) (t : timing) (w : world) (y : sys)
  : res (world * sys) :=
  let* s := populate_state w y in
  let y := with_state y s in
  let* ms := populate_mass w y (hm (y_heap y)) in
  let* o := the_ode y in
  let* (o, hp, s) := ode_steps steps dt w y (opt_process_constraints w y) o
                       (with_hm (y_heap y) ms) s in
  let y := with_ode (with_heap (with_state y s) hp) (Some o) in
  let* w := opt_propagate y s w in
  let* y := record_profile y t in
  Ok (w, {| y_bodies := y_bodies y; y_cons := y_cons y; y_gens := y_gens y;
            y_state := y_state y; y_heap := y_heap y; y_sle := y_sle y; y_ode := y_ode y;
            y_bias := y_bias y; y_t := y_t y + dt; y_prof := y_prof y; y_frame := y_frame y |}).

(** ** GenericRigidBodySystem *)

(* src/generic_rigid_body_system.cpp:128-153: the rows of one constraint *)
Definition gen_con_rows (w : world) (c : constraint tg) (o : output tg)
  (j_f : nat) (hp : heap tg) : res (nat * heap tg) :=
  for_ (c_count c) (fun k '(j_f, hp) =>
    let* J := set_blocks w c j_f (hs hp sJ) in
    let* Jd := set_blocks w c j_f (hs hp sJdot) in
    let* (J, Jd, ms) := for_ (c_bodycount c * 3) (fun i '(J, Jd, ms) =>
      let* index := con_body_index (w_body w) (c_bodies c) (i / 3)%nat in
      if Z.eqb index (-1) then Ok (J, Jd, ms)
      else
        let* v := out2 (o_J o) 6 k i in
        let* J := sp_set 3 2 J j_f (i / 3)%nat (Nat.modulo i 3) v in
        let* v := out2 (o_Jdot o) 6 k i in
        let* Jd := sp_set 3 2 Jd j_f (i / 3)%nat (Nat.modulo i 3) v in
        let* v := out1 (o_ks o) k in
        let* ms := mset ms iks 0 j_f v in
        let* v := out1 (o_kd o) k in
        let* ms := mset ms ikd 0 j_f v in
        let* v := out1 (o_C o) k in
        let* ms := mset ms iC 0 j_f v in
        Ok (J, Jd, ms)) (J, Jd, hm hp) in
    Ok (S j_f, {| hm := ms; hs := upd (upd (hs hp) sJ J) sJdot Jd |})) (j_f, hp).

(* src/generic_rigid_body_system.cpp:110-154 *)
Definition gen_gather (w : world) (y : sys) (hp : heap tg) (s : sstate tg) : res (heap tg) :=
  let n := body_count y in
  let m_f := full_count w y in
  let* ms := mresize (hm hp) iqdot 1 (n * 3)%nat in
  let* ms := gather3 n s Fvx Fvy Fvtheta iqdot ms in
  let* J := sp_init 3 2 (hs hp sJ) (3 * n)%nat m_f in
  let* Jd := sp_init 3 2 (hs hp sJdot) (3 * n)%nat m_f in
  let* ms := minit0 ms iks 1 m_f in
  let* ms := minit0 ms ikd 1 m_f in
  let* ms := minit0 ms iC 1 m_f in
  let hp := {| hm := ms; hs := upd (upd (hs hp) sJ J) sJdot Jd |} in
  let* (_, hp, _) := for_ (con_count y) (fun j '(j_f, hp, o) =>
    let* c := nth_con w y j in
    let* o := calculate (w_body w) c o s in
    let* (j_f, hp) := gen_con_rows w c o j_f hp in
    Ok (j_f, hp, o)) (0%nat, hp, out_new) in
  Ok hp.

(* src/generic_rigid_body_system.cpp:156-177 *)
Definition gen_right (w : world) (y : sys) (hp : heap tg) (s : sstate tg) : res (heap tg) :=
  let n := body_count y in
  let m_f := full_count w y in
  let* ms := sp_multiply 3 2 (hs hp sJ) (hm hp) iqdot ireg0 in
  let* ms := for_ m_f (fun i ms =>
    let* a := mget ms ikd 0 i in
    let* b := mget ms ireg0 0 i in
    let* ms := mset ms ikd 0 i (a * b) in
    let* a := mget ms iks 0 i in
    let* b := mget ms iC 0 i in
    mset ms iks 0 i (a * b)) ms in
  let* ms := minit_val ms iFext 1 (3 * n)%nat (cofZ 0) in
  let* ms := gather3 n s Ffx Ffy Ft iFext ms in
  let* ms := mleft_scale ms iFext iMinv ireg2 in
  let* ms := sp_multiply 3 2 (hs hp sJ) ms ireg2 ireg0 in
  let* ms := sp_multiply 3 2 (hs hp sJdot) ms iqdot ireg2 in
  let* ms := mnegate ms ireg2 ireg1 in
  let* ms := msubtract ms ireg1 ireg0 ireg2 in
  let* ms := msubtract ms ireg2 iks ireg0 in
  let* ms := msubtract ms ireg0 ikd iright in
  Ok (with_hm hp ms).

(* src/generic_rigid_body_system.cpp:97-243  processConstraints *)
Definition gen_process_constraints (w : world) (y : sys)
  (hp : heap tg) (s : sstate tg) : res (heap tg * sstate tg) :=
  let* hp := gen_gather w y hp s in
  let* hp := gen_right w y hp s in
  let* l := the_sle y in
  let* (hp, solvable) := sle_solve l sJ iMinv iright ilambda ilambda hp in
  let* _ := massert tg solvable in
  let* ss := sp_left_scale 3 2 (hs hp) (hm hp) sJ ilambda ssreg0 in
  let hp := {| hm := hm hp; hs := ss |} in
  let* s := apply_reactions w y hp s in
  Ok (hp, s).

(* src/generic_rigid_body_system.cpp:65-88: write-back; the reported forces
   are read at r[i_f] *)
Definition gen_propagate (y : sys) (s : sstate tg) (w : world) : res world :=
  let* w := bodies_back y s w in
  forces_back (fun i_f k => i_f) y s w.

(* src/generic_rigid_body_system.cpp:24-95  process(dt, steps) *)
Definition gen_process (dt : cell tg) (steps : nat) (t : timing) (w : world) (y : sys)
  : res (world * sys) :=
  let* s := populate_state w y in
  let y := with_state y s in
  let* ms := populate_mass w y (hm (y_heap y)) in
  let* (y, s) :=
    match steps with
    | O => Ok (with_heap y (with_hm (y_heap y) ms), s)
    | S _ =>
        let* o := the_ode y in
        let* (o, hp, s) := ode_steps steps dt w y (fun _ => gen_process_constraints w y) o
                             (with_hm (y_heap y) ms) s in
        Ok (with_ode (with_heap (with_state y s) hp) (Some o), s)
    end in
  let* w := gen_propagate y s w in
  let* y := record_profile y t in
  Ok (w, y).

(** ** Destruction *)

Definition dtor_mats (ms : mats tg) (l : list nat) : res unit :=
  fold_left (fun r i => let* _ := r in mat_dtor (ms i)) l (Ok tt).
Definition dtor_sps (ss : sps tg) (l : list nat) : res unit :=
  fold_left (fun r i => let* _ := r in sp_dtor (ss i)) l (Ok tt).

(* include/optimized_nsv_rigid_body_system.h:37-53 *)
Definition opt_mats : list nat :=
  [iC; iM; iMinv; iberr; ivbias; ilimits; iqdot; iqdotp; ireg0; ireg1; ireg2; iright;
   iFext; iFC; iR; ilambda].
(* include/generic_rigid_body_system.h:28-43 *)
Definition gen_mats : list nat :=
  [iJT; iM; iMinv; iC; iks; ikd; iqdot; ireg0; ireg1; ireg2; iright; iFext; iFC; iR; ilambda].

(* src/rigid_body_system.cpp:22-29 and the destructor of its m_state *)
Definition base_dtor (y : sys) : res unit := st_dtor (st_destroy (y_state y)).

(* src/optimized_nsv_rigid_body_system.cpp:12-31, then the member destructors *)
Definition opt_dtor (y : sys) : res unit :=
  let ms := fold_left mdestroy opt_mats (hm (y_heap y)) in
  let ss := fold_left (fun ss i => upd ss i (sp_destroy (ss i))) [sJ; ssreg0] (hs (y_heap y)) in
  let* _ := dtor_mats ms opt_mats in
  let* _ := dtor_sps ss [sJ; ssreg0] in
  base_dtor y.

(* src/generic_rigid_body_system.cpp:10-12 (empty), then the member destructors *)
Definition gen_dtor (y : sys) : res unit :=
  let* _ := dtor_mats (hm (y_heap y)) gen_mats in
  let* _ := dtor_sps (hs (y_heap y)) [sJ; sJdot; ssreg0] in
  base_dtor y.

End SystemModel.

Arguments world : clear implicits.
Arguments sys : clear implicits.
