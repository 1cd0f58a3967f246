(** * Models of RigidBody and SystemState.

    include/rigid_body.h, src/rigid_body.cpp, include/system_state.h,
    src/system_state.cpp. *)

From Verif Require Import Base.

(** the double members of RigidBody (include/rigid_body.h:13-23) *)
Inductive bfld := Bpx | Bpy | Bvx | Bvy | Btheta | Bvtheta | Bm | BI.
Definition bfld_eqb (a b : bfld) : bool :=
  match a, b with
  | Bpx, Bpx | Bpy, Bpy | Bvx, Bvx | Bvy, Bvy | Btheta, Btheta | Bvtheta, Bvtheta
  | Bm, Bm | BI, BI => true
  | _, _ => false
  end.

(** the double arrays of SystemState (include/system_state.h:20-39).
    The last three hold 2 * n_c elements, the others n. *)
Inductive fld :=
| Fatheta | Fvtheta | Ftheta | Fax | Fay | Fvx | Fvy | Fpx | Fpy
| Ffx | Ffy | Ft | Fm | Frx | Fry | Frt.
Definition fld_eqb (a b : fld) : bool :=
  match a, b with
  | Fatheta, Fatheta | Fvtheta, Fvtheta | Ftheta, Ftheta | Fax, Fax | Fay, Fay
  | Fvx, Fvx | Fvy, Fvy | Fpx, Fpx | Fpy, Fpy | Ffx, Ffx | Ffy, Ffy | Ft, Ft
  | Fm, Fm | Frx, Frx | Fry, Fry | Frt, Frt => true
  | _, _ => false
  end.
Definition is_reaction (f : fld) : bool :=
  match f with Frx | Fry | Frt => true | _ => false end.

Section StateModel.
Context {tg : target}.
Local Open Scope cell_scope.

(** ** RigidBody *)

(* include/rigid_body.h:13-25 *)
Record body := mkBody { b_f : bfld -> cell tg; b_index : Z }.

Definition b_set (b : body) (f : bfld) (v : cell tg) : body :=
  {| b_f := (fun g => if bfld_eqb g f then v else b_f b g); b_index := b_index b |}.
Definition b_set_index (b : body) (i : Z) : body := {| b_f := b_f b; b_index := i |}.

(* src/rigid_body.cpp:48-57  reset(): index is left alone *)
Definition b_reset (b : body) : body := {| b_f := (fun _ => cofZ 0); b_index := b_index b |}.

(* src/rigid_body.cpp:5-8  RigidBody() *)
Definition b_new : body := {| b_f := (fun _ => cofZ 0); b_index := (-1)%Z |}.

(* src/rigid_body.cpp:14-20  energy() *)
Definition b_energy (b : body) : cell tg :=
  let speed_2 := b_f b Bvx * b_f b Bvx + b_f b Bvy * b_f b Bvy in
  let E_k := clit 1 2 * b_f b Bm * speed_2 in
  let E_r := clit 1 2 * b_f b BI * b_f b Bvtheta * b_f b Bvtheta in
  E_k + E_r.

(* src/rigid_body.cpp:22-33  localToWorld *)
Definition b_local_to_world (b : body) (x y : cell tg) : cell tg * cell tg :=
  let c := ccos (b_f b Btheta) in
  let s := csin (b_f b Btheta) in
  (c * x - s * y + b_f b Bpx, s * x + c * y + b_f b Bpy).

(* src/rigid_body.cpp:35-46  worldToLocal *)
Definition b_world_to_local (b : body) (x y : cell tg) : cell tg * cell tg :=
  let c := ccos (b_f b Btheta) in
  let s := csin (b_f b Btheta) in
  (c * (x - b_f b Bpx) + s * (y - b_f b Bpy),
   (- s) * (x - b_f b Bpx) + c * (y - b_f b Bpy)).

(** ** SystemState *)

(* include/system_state.h:18-43 *)
Record sstate := mkSt {
  s_arr : fld -> list (cell tg);
  s_imap : list (option Z);
  s_n : nat;
  s_nc : nat;
  s_dt : cell tg
}.

(* src/system_state.cpp:9-36  SystemState() *)
Definition st_new : sstate :=
  {| s_arr := (fun _ => []); s_imap := []; s_n := 0; s_nc := 0; s_dt := cofZ 0 |}.

(* src/system_state.cpp:38-41  ~SystemState() *)
Definition st_dtor (s : sstate) : res unit :=
  let* _ := massert tg (Nat.eqb (s_n s) 0) in
  massert tg (Nat.eqb (s_nc s) 0).

(* src/system_state.cpp:108-138  destroy(): with n = 0 (n_c = 0) the
   zero-length body (constraint) arrays are not freed; the leak is in Alloc.v *)
Definition st_destroy (s : sstate) : sstate :=
  {| s_arr := (fun f => if is_reaction f
                        then (if Nat.ltb 0 (s_nc s) then [] else s_arr s f)
                        else (if Nat.ltb 0 (s_n s) then [] else s_arr s f));
     s_imap := (if Nat.ltb 0 (s_nc s) then [] else s_imap s);
     s_n := 0; s_nc := 0; s_dt := s_dt s |}.

(* src/system_state.cpp:74-106  resize(bodyCount, constraintCount) *)
Definition st_resize (s : sstate) (bc cc : nat) : sstate :=
  if Nat.leb bc (s_n s) && Nat.leb cc (s_nc s) then s
  else
    {| s_arr := (fun f => if is_reaction f then repeat None (cc * 2)%nat else repeat None bc);
       s_imap := repeat None cc;
       s_n := bc; s_nc := cc; s_dt := s_dt (st_destroy s) |}.

(* array element access a[i] with an int index *)
Definition aget {A : Type} (a : list A) (i : Z) : res A :=
  if Z.ltb i 0 then UB else lift_opt (nth_error a (Z.to_nat i)).
Definition aset {A : Type} (a : list A) (i : Z) (v : A) : res (list A) :=
  if Z.ltb i 0 then UB else lift_opt (list_set a (Z.to_nat i) v).

Definition st_with_arr (s : sstate) (f : fld) (a : list (cell tg)) : sstate :=
  {| s_arr := (fun g => if fld_eqb g f then a else s_arr s g); s_imap := s_imap s;
     s_n := s_n s; s_nc := s_nc s; s_dt := s_dt s |}.
Definition st_with_dt (s : sstate) (dt : cell tg) : sstate :=
  {| s_arr := s_arr s; s_imap := s_imap s; s_n := s_n s; s_nc := s_nc s; s_dt := dt |}.
Definition st_with_imap (s : sstate) (m : list (option Z)) : sstate :=
  {| s_arr := s_arr s; s_imap := m; s_n := s_n s; s_nc := s_nc s; s_dt := s_dt s |}.

(* state->f[i] as a value, state->f[i] = v, state->f[i] += v *)
Definition ld (s : sstate) (f : fld) (i : Z) : res (cell tg) := aget (s_arr s f) i.
Definition sto (s : sstate) (f : fld) (i : Z) (v : cell tg) : res sstate :=
  let* a := aset (s_arr s f) i v in Ok (st_with_arr s f a).
Definition sto_add (s : sstate) (f : fld) (i : Z) (v : cell tg) : res sstate :=
  let* x := ld s f i in sto s f i (x + v).

(* memcpy(dst, src, k elements) *)
Definition memcpy {A : Type} (dst src : list A) (k : nat) : res (list A) :=
  if Nat.ltb (length dst) k || Nat.ltb (length src) k then UB
  else Ok (firstn k src ++ skipn k dst).

Definition copy_arr (src : sstate) (f : fld) (s : sstate) : res sstate :=
  let k := if is_reaction f then (s_nc s * 2)%nat else s_n s in
  let* a := memcpy (s_arr s f) (s_arr src f) k in Ok (st_with_arr s f a).

(* src/system_state.cpp:43-72  copy(state); the memcpy lengths use the
   destination's own n and n_c (after resize), as in the code; dt is not copied *)
Definition st_copy (s src : sstate) : res sstate :=
  let s := st_resize s (s_n src) (s_nc src) in
  if Nat.eqb (s_n src) 0 then Ok s
  else
    let* im := memcpy (s_imap s) (s_imap src) (s_nc s) in
    let s := st_with_imap s im in
    let* s := copy_arr src Fatheta s in
    let* s := copy_arr src Fvtheta s in
    let* s := copy_arr src Ftheta s in
    let* s := copy_arr src Fax s in
    let* s := copy_arr src Fay s in
    let* s := copy_arr src Fvx s in
    let* s := copy_arr src Fvy s in
    let* s := copy_arr src Fpx s in
    let* s := copy_arr src Fpy s in
    let* s := copy_arr src Ffx s in
    let* s := copy_arr src Ffy s in
    let* s := copy_arr src Ft s in
    let* s := copy_arr src Fm s in
    let* s := copy_arr src Frx s in
    let* s := copy_arr src Fry s in
    copy_arr src Frt s.

(* src/system_state.cpp:140-156  localToWorld *)
Definition st_local_to_world (s : sstate) (x y : cell tg) (body : Z) : res (cell tg * cell tg) :=
  let* x0 := ld s Fpx body in
  let* y0 := ld s Fpy body in
  let* theta := ld s Ftheta body in
  let c := ccos theta in
  let sn := csin theta in
  Ok (c * x - sn * y + x0, sn * x + c * y + y0).

(* src/system_state.cpp:158-174  velocityAtPoint *)
Definition st_velocity_at_point (s : sstate) (x y : cell tg) (body : Z)
  : res (cell tg * cell tg) :=
  let* (w_x, w_y) := st_local_to_world s x y body in
  let* vth := ld s Fvtheta body in
  let* py := ld s Fpy body in
  let ax := (- vth) * (w_y - py) in
  let* px := ld s Fpx body in
  let ay := vth * (w_x - px) in
  let* vx := ld s Fvx body in
  let* vy := ld s Fvy body in
  Ok (vx + ax, vy + ay).

(* src/system_state.cpp:176-192  applyForce *)
Definition st_apply_force (s : sstate) (x_l y_l f_x f_y : cell tg) (body : Z) : res sstate :=
  let* (w_x, w_y) := st_local_to_world s x_l y_l body in
  let* s := sto_add s Ffx body f_x in
  let* s := sto_add s Ffy body f_y in
  let* py := ld s Fpy body in
  let* px := ld s Fpx body in
  sto_add s Ft body ((w_y - py) * (- f_x) + (w_x - px) * f_y).

End StateModel.

Arguments body : clear implicits.
Arguments sstate : clear implicits.
