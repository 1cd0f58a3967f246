(** * Models of the integrators.

    src/ode_solver.cpp, src/euler_ode_solver.cpp, src/nsv_ode_solver.cpp,
    src/rk4_ode_solver.cpp. *)

From Verif Require Import Base State.

(* include/rk4_ode_solver.h:9-16 *)
Inductive rk_stage := Stage1 | Stage2 | Stage3 | Stage4 | Complete | Undefined.

Section OdeModel.
Context {tg : target}.
Local Open Scope cell_scope.

(* state->f[i] += state->g[i] * dt *)
Definition integrate (s : sstate tg) (f g : fld) (i : nat) (dt : cell tg) : res (sstate tg) :=
  let* v := ld s g (Z.of_nat i) in
  sto_add s f (Z.of_nat i) (v * dt).

(* src/euler_ode_solver.cpp:20-32  solve *)
Definition euler_solve (dt : cell tg) (s : sstate tg) : res (sstate tg) :=
  let s := st_with_dt s dt in
  for_ (s_n s) (fun i s =>
    let* s := integrate s Fpx Fvx i dt in
    let* s := integrate s Fpy Fvy i dt in
    let* s := integrate s Ftheta Fvtheta i dt in
    let* s := integrate s Fvx Fax i dt in
    let* s := integrate s Fvy Fay i dt in
    integrate s Fvtheta Fatheta i dt) s.

(* src/nsv_ode_solver.cpp:20-32  solve *)
Definition nsv_solve (dt : cell tg) (s : sstate tg) : res (sstate tg) :=
  let s := st_with_dt s dt in
  for_ (s_n s) (fun i s =>
    let* s := integrate s Fvx Fax i dt in
    let* s := integrate s Fvy Fay i dt in
    let* s := integrate s Fvtheta Fatheta i dt in
    let* s := integrate s Fpx Fvx i dt in
    let* s := integrate s Fpy Fvy i dt in
    integrate s Ftheta Fvtheta i dt) s.

(* include/ode_solver.h:18 (m_dt), include/rk4_ode_solver.h:31-35 *)
Record rk4 := mkRk4 {
  rk_dt : cell tg;
  rk_st : rk_stage;
  rk_next : rk_stage;
  rk_init : sstate tg;
  rk_acc : sstate tg
}.

(* src/ode_solver.cpp:3-5, src/rk4_ode_solver.cpp:3-5 *)
Definition rk4_new : rk4 :=
  {| rk_dt := cofZ 0; rk_st := Undefined; rk_next := Undefined;
     rk_init := st_new; rk_acc := st_new |}.

(* src/rk4_ode_solver.cpp:12-19  start *)
Definition rk4_start (r : rk4) (initial : sstate tg) (dt : cell tg) : res rk4 :=
  let* i := st_copy (rk_init r) initial in
  let* a := st_copy (rk_acc r) initial in
  Ok {| rk_dt := dt; rk_st := Stage1; rk_next := rk_next r; rk_init := i; rk_acc := a |}.

(* src/rk4_ode_solver.cpp:123-131  getNextStage *)
Definition next_stage (s : rk_stage) : rk_stage :=
  match s with
  | Stage1 => Stage2
  | Stage2 => Stage3
  | Stage3 => Stage4
  | Stage4 => Complete
  | Complete | Undefined => Undefined
  end.

(* state->f[i] = m_initialState.f[i] + m_dt * state->g[i] / 2.0 *)
Definition rk_half (r : rk4) (s : sstate tg) (f g : fld) (i : nat) : res (sstate tg) :=
  let* x0 := ld (rk_init r) f (Z.of_nat i) in
  let* d := ld s g (Z.of_nat i) in
  sto s f (Z.of_nat i) (x0 + rk_dt r * d / cofZ 2).
(* state->f[i] = m_initialState.f[i] + m_dt * state->g[i] *)
Definition rk_full (r : rk4) (s : sstate tg) (f g : fld) (i : nat) : res (sstate tg) :=
  let* x0 := ld (rk_init r) f (Z.of_nat i) in
  let* d := ld s g (Z.of_nat i) in
  sto s f (Z.of_nat i) (x0 + rk_dt r * d).

(* src/rk4_ode_solver.cpp:21-70  step *)
Definition rk4_step (r : rk4) (s : sstate tg) : res (rk4 * sstate tg * bool) :=
  let* s :=
    match rk_st r with
    | Stage1 => Ok (st_with_dt s (cofZ 0))
    | Stage2 | Stage3 =>
        let* s := for_ (s_n s) (fun i s =>
          let* s := rk_half r s Fvtheta Fatheta i in
          let* s := rk_half r s Ftheta Fvtheta i in
          let* s := rk_half r s Fvx Fax i in
          let* s := rk_half r s Fvy Fay i in
          let* s := rk_half r s Fpx Fvx i in
          rk_half r s Fpy Fvy i) s in
        Ok (st_with_dt s (rk_dt r / cofZ 2))
    | Stage4 =>
        let* s := for_ (s_n s) (fun i s =>
          let* s := rk_full r s Fvtheta Fatheta i in
          let* s := rk_full r s Ftheta Fvtheta i in
          let* s := rk_full r s Fvx Fax i in
          let* s := rk_full r s Fvy Fay i in
          let* s := rk_full r s Fpx Fvx i in
          rk_full r s Fpy Fvy i) s in
        Ok (st_with_dt s (rk_dt r))
    | Complete | Undefined => Ok s
    end in
  let nx := next_stage (rk_st r) in
  Ok ({| rk_dt := rk_dt r; rk_st := rk_st r; rk_next := nx;
         rk_init := rk_init r; rk_acc := rk_acc r |}, s,
      match nx with Complete => true | _ => false end).

(* m_accumulator.f[i] += (m_dt / 6.0) * system->g[i] * stageWeight *)
Definition rk_accum (dt w : cell tg) (s : sstate tg) (f g : fld) (i : nat) (acc : sstate tg)
  : res (sstate tg) :=
  let* d := ld s g (Z.of_nat i) in
  sto_add acc f (Z.of_nat i) (dt / cofZ 6 * d * w).
(* system->f[i] = m_accumulator.f[i] *)
Definition rk_emit (acc : sstate tg) (f : fld) (i : nat) (s : sstate tg) : res (sstate tg) :=
  let* x := ld acc f (Z.of_nat i) in
  sto s f (Z.of_nat i) x.

(* src/rk4_ode_solver.cpp:73-80 *)
Definition stage_weight (s : rk_stage) : cell tg :=
  match s with
  | Stage1 => cofZ 1
  | Stage2 => cofZ 2
  | Stage3 => cofZ 2
  | Stage4 => cofZ 1
  | Complete | Undefined => cofZ 0
  end.

(* src/rk4_ode_solver.cpp:72-115  solve *)
Definition rk4_solve (r : rk4) (s : sstate tg) : res (rk4 * sstate tg) :=
  let w := stage_weight (rk_st r) in
  let dt := rk_dt r in
  let* acc := for_ (s_n s) (fun i acc =>
    let* acc := rk_accum dt w s Fvtheta Fatheta i acc in
    let* acc := rk_accum dt w s Ftheta Fvtheta i acc in
    let* acc := rk_accum dt w s Fvx Fax i acc in
    let* acc := rk_accum dt w s Fvy Fay i acc in
    let* acc := rk_accum dt w s Fpx Fvx i acc in
    rk_accum dt w s Fpy Fvy i acc) (rk_acc r) in
  let* acc := for_ (s_nc s) (fun i acc =>
    let* acc := rk_accum dt w s Frx Frx i acc in
    let* acc := rk_accum dt w s Fry Fry i acc in
    rk_accum dt w s Frt Frt i acc) acc in
  let* s :=
    match rk_st r with
    | Stage4 =>
        let* s := for_ (s_n s) (fun i s =>
          let* s := rk_emit acc Fvtheta i s in
          let* s := rk_emit acc Ftheta i s in
          let* s := rk_emit acc Fvx i s in
          let* s := rk_emit acc Fvy i s in
          let* s := rk_emit acc Fpx i s in
          rk_emit acc Fpy i s) s in
        for_ (s_nc s) (fun i s =>
          let* s := rk_emit acc Frx i s in
          let* s := rk_emit acc Fry i s in
          rk_emit acc Frt i s) s
    | _ => Ok s
    end in
  Ok ({| rk_dt := dt; rk_st := rk_next r; rk_next := rk_next r;
         rk_init := rk_init r; rk_acc := acc |}, s).

(* src/rk4_ode_solver.cpp:117-121  end *)
Definition rk4_end (r : rk4) : rk4 :=
  {| rk_dt := rk_dt r; rk_st := Undefined; rk_next := Undefined;
     rk_init := rk_init r; rk_acc := rk_acc r |}.

(** ** Dispatch over the virtual functions *)

Inductive ode :=
| OdeBase (dt : cell tg)     (* src/ode_solver.cpp: step returns true, solve does nothing *)
| OdeEuler (dt : cell tg)
| OdeNsv (dt : cell tg)
| OdeRk4 (r : rk4).

(* src/ode_solver.cpp:11-13, src/euler_ode_solver.cpp:11-13, src/nsv_ode_solver.cpp:11-13 *)
Definition ode_start (o : ode) (s : sstate tg) (dt : cell tg) : res ode :=
  match o with
  | OdeBase _ => Ok (OdeBase dt)
  | OdeEuler _ => Ok (OdeEuler dt)
  | OdeNsv _ => Ok (OdeNsv dt)
  | OdeRk4 r => let* r := rk4_start r s dt in Ok (OdeRk4 r)
  end.

(* src/ode_solver.cpp:15-17, src/euler_ode_solver.cpp:15-18, src/nsv_ode_solver.cpp:15-18 *)
Definition ode_step (o : ode) (s : sstate tg) : res (ode * sstate tg * bool) :=
  match o with
  | OdeBase _ => Ok (o, s, true)
  | OdeEuler dt | OdeNsv dt => Ok (o, st_with_dt s dt, true)
  | OdeRk4 r => let* (r, s, done) := rk4_step r s in Ok (OdeRk4 r, s, done)
  end.

(* src/ode_solver.cpp:19-21 *)
Definition ode_solve (o : ode) (s : sstate tg) : res (ode * sstate tg) :=
  match o with
  | OdeBase _ => Ok (o, s)
  | OdeEuler dt => let* s := euler_solve dt s in Ok (o, s)
  | OdeNsv dt => let* s := nsv_solve dt s in Ok (o, s)
  | OdeRk4 r => let* (r, s) := rk4_solve r s in Ok (OdeRk4 r, s)
  end.

(* src/ode_solver.cpp:23-25, src/euler_ode_solver.cpp:34-36, src/nsv_ode_solver.cpp:34-36 *)
Definition ode_end (o : ode) : ode :=
  match o with
  | OdeRk4 r => OdeRk4 (rk4_end r)
  | _ => o
  end.

End OdeModel.

Arguments rk4 : clear implicits.
Arguments ode : clear implicits.
