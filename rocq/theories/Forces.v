(** * Models of the force generators.

    src/force_generator.cpp, src/gravity_force_generator.cpp,
    src/static_force_generator.cpp, src/spring.cpp, src/constant_speed_motor.cpp.

    [bodies] is the store of RigidBody objects; a RigidBody* is [option nat],
    [None] = nullptr.  [GCustom] stands for any other subclass of
    ForceGenerator a user may write: an arbitrary function of the bodies and
    the state to the new state. *)

From Verif Require Import Base State.

Section ForcesModel.
Context {tg : target}.
Local Open Scope cell_scope.

Definition bodies := nat -> body tg.

(* p->..., p a RigidBody pointer *)
Definition deref (bs : bodies) (p : option nat) : res (body tg) :=
  match p with Some i => Ok (bs i) | None => UB end.

(* include/spring.h:19-30 *)
Record spring := mkSpring {
  sp_rest : cell tg; sp_ks : cell tg; sp_kd : cell tg;
  sp_p1x : cell tg; sp_p1y : cell tg; sp_p2x : cell tg; sp_p2y : cell tg;
  sp_b1 : option nat; sp_b2 : option nat }.

(* include/constant_speed_motor.h:16-22 *)
Record motor := mkMotor {
  mo_ks : cell tg; mo_kd : cell tg; mo_max : cell tg; mo_speed : cell tg;
  mo_b0 : option nat; mo_b1 : option nat }.

(* include/static_force_generator.h:19-25 *)
Record static_force := mkStatic {
  sf_fx : cell tg; sf_fy : cell tg; sf_px : cell tg; sf_py : cell tg; sf_body : option nat }.

(* src/spring.cpp:5-14 *)
Definition spring_new : spring :=
  {| sp_rest := cofZ 1; sp_ks := cofZ 0; sp_kd := cofZ 0;
     sp_p1x := cofZ 0; sp_p1y := cofZ 0; sp_p2x := cofZ 0; sp_p2y := cofZ 0;
     sp_b1 := None; sp_b2 := None |}.

(* src/constant_speed_motor.cpp:5-13 *)
Definition motor_new : motor :=
  {| mo_ks := cofZ 1; mo_kd := cofZ 1; mo_max := cofZ 500; mo_speed := cofZ 1;
     mo_b0 := None; mo_b1 := None |}.

(* src/static_force_generator.cpp:5-10 *)
Definition static_new : static_force :=
  {| sf_fx := cofZ 0; sf_fy := cofZ 0; sf_px := cofZ 0; sf_py := cofZ 0; sf_body := None |}.

(* src/gravity_force_generator.cpp:3-5 *)
Definition gravity_default_g : cell tg := clit 981 100.

(* src/gravity_force_generator.cpp:11-17  apply *)
Definition gravity_apply (g : cell tg) (s : sstate tg) : res (sstate tg) :=
  for_ (s_n s) (fun i s =>
    let* m := ld s Fm (Z.of_nat i) in
    sto_add s Ffy (Z.of_nat i) ((- m) * g)) s.

(* src/static_force_generator.cpp:16-24  apply *)
Definition static_apply (f : static_force) (bs : bodies) (s : sstate tg) : res (sstate tg) :=
  let* b := deref bs (sf_body f) in
  st_apply_force s (sf_px f) (sf_py f) (sf_fx f) (sf_fy f) (b_index b).

(* src/spring.cpp:26-43: world position and velocity of one end; the velocity
   of a body that is not in a system counts as 0 *)
Definition spring_end (b : body tg) (px py : cell tg) (s : sstate tg)
  : res (cell tg * cell tg * cell tg * cell tg) :=
  if negb (Z.eqb (b_index b) (-1)) then
    let* (x, y) := st_local_to_world s px py (b_index b) in
    let* (vx, vy) := st_velocity_at_point s px py (b_index b) in
    Ok (x, y, vx, vy)
  else
    let (x, y) := b_local_to_world b px py in
    Ok (x, y, cofZ 0, cofZ 0).

(* src/spring.cpp:20-80  apply; [v] of line 62 is computed and never used *)
Definition spring_apply (p : spring) (bs : bodies) (s : sstate tg) : res (sstate tg) :=
  match sp_b1 p, sp_b2 p with
  | Some i1, Some i2 =>
      let b1 := bs i1 in
      let b2 := bs i2 in
      let* (x1, y1, v_x1, v_y1) := spring_end b1 (sp_p1x p) (sp_p1y p) s in
      let* (x2, y2, v_x2, v_y2) := spring_end b2 (sp_p2x p) (sp_p2y p) s in
      let dx := x2 - x1 in
      let dy := y2 - y1 in
      let l := csqrt (dx * dx + dy * dy) in
      let* far := cle (clit 1 100) (cabs l) in
      let dx := if (far : bool) then dx / l else cofZ 0 in
      let dy := if far then dy / l else cofZ 0 in
      let rel_v_x := v_x2 - v_x1 in
      let rel_v_y := v_y2 - v_y1 in
      let x := l - sp_rest p in
      let* s := st_apply_force s (sp_p1x p) (sp_p1y p)
                  (dx * x * sp_ks p + rel_v_x * sp_kd p)
                  (dy * x * sp_ks p + rel_v_y * sp_kd p) (b_index b1) in
      st_apply_force s (sp_p2x p) (sp_p2y p)
        ((- dx) * x * sp_ks p - rel_v_x * sp_kd p)
        ((- dy) * x * sp_ks p - rel_v_y * sp_kd p) (b_index b2)
  | _, _ => Ok s
  end.

(* src/spring.cpp:82-87  getEnds; None: nothing is written *)
Definition spring_get_ends (p : spring) (bs : bodies)
  : option (cell tg * cell tg * cell tg * cell tg) :=
  match sp_b1 p, sp_b2 p with
  | Some i1, Some i2 =>
      let (x1, y1) := b_local_to_world (bs i1) (sp_p1x p) (sp_p1y p) in
      let (x2, y2) := b_local_to_world (bs i2) (sp_p2x p) (sp_p2y p) in
      Some (x1, y1, x2, y2)
  | _, _ => None
  end.

(* src/spring.cpp:89-104  energy *)
Definition spring_energy (p : spring) (bs : bodies) : cell tg :=
  match sp_b1 p, sp_b2 p with
  | Some i1, Some i2 =>
      let (x1, y1) := b_local_to_world (bs i1) (sp_p1x p) (sp_p1y p) in
      let (x2, y2) := b_local_to_world (bs i2) (sp_p2x p) (sp_p2y p) in
      let dx := x2 - x1 in
      let dy := y2 - y1 in
      let l := csqrt (dx * dx + dy * dy) in
      clit 1 2 * sp_ks p * (l - sp_rest p) * (l - sp_rest p)
  | _, _ => cofZ 0
  end.

(* src/constant_speed_motor.cpp:19-45  apply *)
Definition motor_apply (p : motor) (bs : bodies) (s : sstate tg) : res (sstate tg) :=
  let* b0 := deref bs (mo_b0 p) in
  let* (v1, a1) :=
    (if Z.eqb (b_index b0) (-1) then Ok (cofZ 0, cofZ 0)
     else
       let* v := ld s Fvtheta (b_index b0) in
       let* a := ld s Fatheta (b_index b0) in
       Ok (v, a)) in
  let* b1 := deref bs (mo_b1 p) in
  let* v := ld s Fvtheta (b_index b1) in
  let rel_v := v - v1 in
  let* a := ld s Fatheta (b_index b1) in
  let rel_a := a - a1 in
  let delta := mo_speed p - rel_v in
  let torque := delta * mo_ks p in
  let dampingTorque := (- rel_a) * mo_kd p in
  let totalTorque := torque + dampingTorque in
  let limitedTorque := cfmin (mo_max p) (cfmax (- mo_max p) totalTorque) in
  let* s :=
    (if negb (Z.eqb (b_index b0) (-1)) then
       let* t := ld s Ft (b_index b0) in
       sto s Ft (b_index b0) (t - limitedTorque)
     else Ok s) in
  sto_add s Ft (b_index b1) limitedTorque.

Inductive gkind :=
| GGravity (g : cell tg)
| GStatic (f : static_force)
| GSpring (p : spring)
| GMotor (p : motor)
| GCustom (f : bodies -> sstate tg -> res (sstate tg)).

(* include/force_generator.h:14; m_index is not initialised by the
   constructor (src/force_generator.cpp:3-5) *)
Record generator := mkGen { g_kind : gkind; g_index : option Z }.

Definition gen_new (k : gkind) : generator := {| g_kind := k; g_index := None |}.

(* virtual apply *)
Definition gen_apply (k : gkind) (bs : bodies) (s : sstate tg) : res (sstate tg) :=
  match k with
  | GGravity g => gravity_apply g s
  | GStatic f => static_apply f bs s
  | GSpring p => spring_apply p bs s
  | GMotor p => motor_apply p bs s
  | GCustom f => f bs s
  end.

End ForcesModel.

Arguments bodies : clear implicits.
Arguments spring : clear implicits.
Arguments motor : clear implicits.
Arguments static_force : clear implicits.
Arguments gkind : clear implicits.
Arguments generator : clear implicits.
