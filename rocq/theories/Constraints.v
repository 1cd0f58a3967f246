(** * Models of the constraints.

    include/constraint.h, src/constraint.cpp and the nine subclasses.

    [output] is Constraint::Output; its arrays are functions, all entries
    [None] in a freshly declared Output.  Each calculate is modelled as a
    function from the old Output to the new one; assignments to different
    cells of one array are grouped row by row (their order is immaterial).
    [KCustom] stands for any other subclass: an arbitrary calculate. *)

From Verif Require Import Base State Forces.

Section ConstraintsModel.
Context {tg : target}.
Local Open Scope cell_scope.

(* include/constraint.h:17-25 *)
Record output := mkOut {
  o_C : nat -> cell tg;
  o_J : nat -> nat -> cell tg;
  o_Jdot : nat -> nat -> cell tg;
  o_vbias : nat -> cell tg;
  o_limits : nat -> nat -> cell tg;
  o_ks : nat -> cell tg;
  o_kd : nat -> cell tg }.

(* Constraint::Output constraintOutput;  (automatic storage, nothing written) *)
Definition out_new : output :=
  {| o_C := fun _ => None; o_J := fun _ _ => None; o_Jdot := fun _ _ => None;
     o_vbias := fun _ => None; o_limits := fun _ _ => None;
     o_ks := fun _ => None; o_kd := fun _ => None |}.

(* a[0] = l0; a[1] = l1; ... *)
Definition wr1 (f : nat -> cell tg) (l : list (cell tg)) : nat -> cell tg :=
  fun k => match nth_error l k with Some x => x | None => f k end.
(* a[i][j] = l_ij for the rows and columns present in l *)
Definition wr2 (f : nat -> nat -> cell tg) (l : list (list (cell tg))) : nat -> nat -> cell tg :=
  fun i j =>
    match nth_error l i with
    | Some r => match nth_error r j with Some x => x | None => f i j end
    | None => f i j
    end.

Definition write_out (o : output) (C : list (cell tg)) (J Jdot : list (list (cell tg)))
  (vb : list (cell tg)) (lim : list (list (cell tg))) (ks kd : list (cell tg)) : output :=
  {| o_C := wr1 (o_C o) C; o_J := wr2 (o_J o) J; o_Jdot := wr2 (o_Jdot o) Jdot;
     o_vbias := wr1 (o_vbias o) vb; o_limits := wr2 (o_limits o) lim;
     o_ks := wr1 (o_ks o) ks; o_kd := wr1 (o_kd o) kd |}.

(* include/constraint.h:43-48  noLimits *)
Definition no_limits : list (list (cell tg)) :=
  [[- cdblmax; cdblmax]; [- cdblmax; cdblmax]; [- cdblmax; cdblmax]].

(* include/fixed_position_constraint.h *)
Record fixed_position := mkFP {
  fp_lx : cell tg; fp_ly : cell tg; fp_wx : cell tg; fp_wy : cell tg;
  fp_ks : cell tg; fp_kd : cell tg }.
(* include/line_constraint.h *)
Record line := mkLine {
  li_lx : cell tg; li_ly : cell tg; li_p0x : cell tg; li_p0y : cell tg;
  li_dx : cell tg; li_dy : cell tg; li_ks : cell tg; li_kd : cell tg }.
(* include/link_constraint.h *)
Record link := mkLink {
  lk_x1 : cell tg; lk_y1 : cell tg; lk_x2 : cell tg; lk_y2 : cell tg;
  lk_max : cell tg; lk_ks : cell tg; lk_kd : cell tg }.
(* include/rolling_constraint.h *)
Record rolling := mkRoll {
  ro_lx : cell tg; ro_ly : cell tg; ro_dx : cell tg; ro_dy : cell tg;
  ro_radius : cell tg; ro_ks : cell tg; ro_kd : cell tg }.
(* include/fixed_rotation_constraint.h *)
Record fixed_rotation := mkFR { fr_rot : cell tg; fr_ks : cell tg; fr_kd : cell tg }.
(* include/constant_rotation_constraint.h *)
Record constant_rotation := mkCR {
  cr_speed : cell tg; cr_max : cell tg; cr_min : cell tg; cr_ks : cell tg; cr_kd : cell tg }.
(* include/clutch_constraint.h *)
Record clutch := mkClutch {
  cl_max : cell tg; cl_min : cell tg; cl_ks : cell tg; cl_kd : cell tg }.
(* include/rotation_friction_constraint.h *)
Record friction := mkFric {
  rf_max : cell tg; rf_min : cell tg; rf_ks : cell tg; rf_kd : cell tg }.
(* include/simple_gear_constraint.h *)
Record gear := mkGear {
  ge_ratio : cell tg; ge_neutral : bool; ge_ks : cell tg; ge_kd : cell tg }.

Inductive ckind :=
| KBase                                  (* Constraint itself: calculate writes nothing *)
| KFixedPosition (p : fixed_position)
| KLine (p : line)
| KLink (p : link)
| KRolling (p : rolling)
| KFixedRotation (p : fixed_rotation)
| KConstantRotation (p : constant_rotation)
| KClutch (p : clutch)
| KFriction (p : friction)
| KGear (p : gear)
| KCustom (f : bodies tg -> (nat -> option nat) -> output -> sstate tg -> res output).

(* include/constraint.h:34-51 *)
Record constraint := mkCon {
  c_kind : ckind;
  c_index : Z;
  c_bodycount : nat;
  c_bodies : nat -> option nat;
  c_Fx : nat -> nat -> cell tg;
  c_Fy : nat -> nat -> cell tg;
  c_Ft : nat -> nat -> cell tg;
  c_count : nat }.

(* src/constraint.cpp:6-22  Constraint(constraintCount, bodyCount).  The memset
   clears sizeof(int)*2 bytes: m_bodies[0] is null and (64-bit pointers)
   m_bodies[1] keeps an indeterminate value; both are [None], since reading
   through either is UB *)
Definition con_new (k : ckind) (count bodycount : nat) : res constraint :=
  let* _ := massert tg (Nat.leb count 3) in
  let* _ := massert tg (Nat.leb bodycount 2) in
  Ok {| c_kind := k; c_index := (-1)%Z; c_bodycount := bodycount; c_bodies := fun _ => None;
        c_Fx := fun _ _ => cofZ 0; c_Fy := fun _ _ => cofZ 0; c_Ft := fun _ _ => cofZ 0;
        c_count := count |}.

(* the (constraintCount, bodyCount) each subclass passes to Constraint:
   src/fixed_position_constraint.cpp:5, src/line_constraint.cpp:5,
   src/link_constraint.cpp:5, src/rolling_constraint.cpp:5,
   src/fixed_rotation_constraint.cpp:3, src/constant_rotation_constraint.cpp:6,
   src/clutch_constraint.cpp:6, src/rotation_friction_constraint.cpp:5,
   src/simple_gear_constraint.cpp:6; None: chosen by the caller *)
Definition class_counts (k : ckind) : option (nat * nat) :=
  match k with
  | KFixedPosition _ => Some (2, 1)%nat
  | KLine _ => Some (1, 1)%nat
  | KLink _ | KRolling _ => Some (2, 2)%nat
  | KFixedRotation _ | KConstantRotation _ | KFriction _ => Some (1, 1)%nat
  | KClutch _ | KGear _ => Some (1, 2)%nat
  | KBase | KCustom _ => None
  end.

(* m_bodies[k]->index *)
Definition con_body_index (bs : bodies tg) (cb : nat -> option nat) (k : nat) : res Z :=
  let* b := deref bs (cb k) in Ok (b_index b).

(* src/fixed_position_constraint.cpp:26-85  calculate *)
Definition fp_calculate (p : fixed_position) (body : Z) (o : output) (s : sstate tg) : res output :=
  let* q1 := ld s Fpx body in
  let* q2 := ld s Fpy body in
  let* q3 := ld s Ftheta body in
  let* q3_dot := ld s Fvtheta body in
  let cos_q3 := ccos q3 in
  let sin_q3 := csin q3 in
  let current_x := q1 + cos_q3 * fp_lx p - sin_q3 * fp_ly p in
  let current_y := q2 + sin_q3 * fp_lx p + cos_q3 * fp_ly p in
  let dx_dq3 := (- sin_q3) * fp_lx p - cos_q3 * fp_ly p in
  let dy_dq3 := cos_q3 * fp_lx p - sin_q3 * fp_ly p in
  let C1 := current_x - fp_wx p in
  let C2 := current_y - fp_wy p in
  Ok (write_out o [C1; C2]
    [[cofZ 1; cofZ 0; dx_dq3]; [cofZ 0; cofZ 1; dy_dq3]]
    [[cofZ 0; cofZ 0; (- cos_q3) * q3_dot * fp_lx p + sin_q3 * q3_dot * fp_ly p];
     [cofZ 0; cofZ 0; (- sin_q3) * q3_dot * fp_lx p - cos_q3 * q3_dot * fp_ly p]]
    [cofZ 0; cofZ 0] no_limits [fp_ks p; fp_ks p] [fp_kd p; fp_kd p]).

(* src/line_constraint.cpp:17-66  calculate *)
Definition line_calculate (p : line) (body : Z) (o : output) (s : sstate tg) : res output :=
  let* q1 := ld s Fpx body in
  let* q2 := ld s Fpy body in
  let* q3 := ld s Ftheta body in
  let* q3_dot := ld s Fvtheta body in
  let cos_q3 := ccos q3 in
  let sin_q3 := csin q3 in
  let bodyX := q1 + cos_q3 * li_lx p - sin_q3 * li_ly p in
  let bodyY := q2 + sin_q3 * li_lx p + cos_q3 * li_ly p in
  let perpX := - li_dy p in
  let perpY := li_dx p in
  let deltaX := bodyX - li_p0x p in
  let deltaY := bodyY - li_p0y p in
  let C := deltaX * perpX + deltaY * perpY in
  let dC_dq1 := cofZ 1 * perpX in
  let dC_dq2 := cofZ 1 * perpY in
  let dC_dq3 :=
    ((- sin_q3) * li_lx p - cos_q3 * li_ly p) * perpX +
    (cos_q3 * li_lx p - sin_q3 * li_ly p) * perpY in
  Ok (write_out o [C] [[dC_dq1; dC_dq2; dC_dq3]]
    [[cofZ 0; cofZ 0;
      ((- cos_q3) * q3_dot * li_lx p + sin_q3 * q3_dot * li_ly p) * perpX +
      ((- sin_q3) * q3_dot * li_lx p - cos_q3 * q3_dot * li_ly p) * perpY]]
    [cofZ 0] no_limits [li_ks p] [li_kd p]).

(* src/link_constraint.cpp:17-101  calculate; row 2 of limits is not written *)
Definition link_calculate (p : link) (body linkedBody : Z) (o : output) (s : sstate tg)
  : res output :=
  let* q1 := ld s Fpx body in
  let* q2 := ld s Fpy body in
  let* q3 := ld s Ftheta body in
  let* q4 := ld s Fpx linkedBody in
  let* q5 := ld s Fpy linkedBody in
  let* q6 := ld s Ftheta linkedBody in
  let* q3_dot := ld s Fvtheta body in
  let* q6_dot := ld s Fvtheta linkedBody in
  let cos_q3 := ccos q3 in
  let sin_q3 := csin q3 in
  let cos_q6 := ccos q6 in
  let sin_q6 := csin q6 in
  let bodyX := q1 + cos_q3 * lk_x1 p - sin_q3 * lk_y1 p in
  let bodyY := q2 + sin_q3 * lk_x1 p + cos_q3 * lk_y1 p in
  let linkedBodyX := q4 + cos_q6 * lk_x2 p - sin_q6 * lk_y2 p in
  let linkedBodyY := q5 + sin_q6 * lk_x2 p + cos_q6 * lk_y2 p in
  let C1 := bodyX - linkedBodyX in
  let C2 := bodyY - linkedBodyY in
  Ok (write_out o [C1; C2]
    [[cofZ 1; cofZ 0; (- sin_q3) * lk_x1 p - cos_q3 * lk_y1 p;
      cofZ (-1); cofZ 0; sin_q6 * lk_x2 p + cos_q6 * lk_y2 p];
     [cofZ 0; cofZ 1; cos_q3 * lk_x1 p - sin_q3 * lk_y1 p;
      cofZ 0; cofZ (-1); (- cos_q6) * lk_x2 p + sin_q6 * lk_y2 p]]
    [[cofZ 0; cofZ 0; (- cos_q3) * q3_dot * lk_x1 p + sin_q3 * q3_dot * lk_y1 p;
      cofZ 0; cofZ 0; cos_q6 * q6_dot * lk_x2 p - sin_q6 * q6_dot * lk_y2 p];
     [cofZ 0; cofZ 0; (- sin_q3) * q3_dot * lk_x1 p - cos_q3 * q3_dot * lk_y1 p;
      cofZ 0; cofZ 0; sin_q6 * q6_dot * lk_x2 p + cos_q6 * q6_dot * lk_y2 p]]
    [cofZ 0; cofZ 0]
    [[- lk_max p; lk_max p]; [- lk_max p; lk_max p]]
    [lk_ks p; lk_ks p] [lk_kd p; lk_kd p]).

(* src/rolling_constraint.cpp:17-155  calculate *)
Definition rolling_calculate (p : rolling) (baseBody rollingBody : Z) (o : output) (s : sstate tg)
  : res output :=
  let* q1 := ld s Fpx baseBody in
  let* q2 := ld s Fpy baseBody in
  let* q3 := ld s Ftheta baseBody in
  let* q4 := ld s Fpx rollingBody in
  let* q5 := ld s Fpy rollingBody in
  let* q6 := ld s Ftheta rollingBody in
  let* q1_dot := ld s Fvx baseBody in
  let* q2_dot := ld s Fvy baseBody in
  let* q3_dot := ld s Fvtheta baseBody in
  let* q4_dot := ld s Fvx rollingBody in
  let* q5_dot := ld s Fvy rollingBody in
  let cos_q3 := ccos q3 in
  let sin_q3 := csin q3 in
  let origin_x := q1 + cos_q3 * ro_lx p - sin_q3 * ro_ly p in
  let origin_y := q2 + sin_q3 * ro_lx p + cos_q3 * ro_ly p in
  let dx := cos_q3 * ro_dx p - sin_q3 * ro_dy p in
  let dy := sin_q3 * ro_dx p + cos_q3 * ro_dy p in
  let dx_dot := (- sin_q3) * q3_dot * ro_dx p - cos_q3 * q3_dot * ro_dy p in
  let dy_dot := cos_q3 * q3_dot * ro_dx p - sin_q3 * q3_dot * ro_dy p in
  let perp_x := - dy in
  let perp_y := dx in
  let delta_x := q4 - origin_x in
  let delta_y := q5 - origin_y in
  let delta_x_dot := q4_dot - (q1_dot - sin_q3 * q3_dot * ro_lx p - cos_q3 * q3_dot * ro_ly p) in
  let delta_y_dot := q5_dot - (q2_dot + cos_q3 * q3_dot * ro_lx p - sin_q3 * q3_dot * ro_ly p) in
  let sl := delta_x * dx + delta_y * dy in
  let C0 := (- q6) - sl * ro_radius p in
  let C1 := ro_radius p - (perp_x * delta_x + perp_y * delta_y) in
  let d_origin_x_dq3 := (- sin_q3) * ro_lx p - cos_q3 * ro_ly p in
  let d_origin_y_dq3 := cos_q3 * ro_lx p - sin_q3 * ro_ly p in
  let d_delta_x_dq1 := cofZ (-1) in
  let d_delta_x_dq3 := - d_origin_x_dq3 in
  let d_delta_x_dq4 := cofZ 1 in
  let d_delta_y_dq2 := cofZ (-1) in
  let d_delta_y_dq3 := - d_origin_y_dq3 in
  let d_delta_y_dq5 := cofZ 1 in
  let d_dx_dq3 := - dy in
  let d_dy_dq3 := dx in
  let d_dx_dq3_dot := (- cos_q3) * q3_dot * ro_dx p + sin_q3 * q3_dot * ro_dy p in
  let d_dy_dq3_dot := (- sin_q3) * q3_dot * ro_dx p - cos_q3 * q3_dot * ro_dy p in
  let d_delta_x_dq3_dot := cos_q3 * q3_dot * ro_lx p - sin_q3 * q3_dot * ro_ly p in
  let d_delta_y_dq3_dot := sin_q3 * q3_dot * ro_lx p + cos_q3 * q3_dot * ro_ly p in
  let ds_dq1 := d_delta_x_dq1 * dx in
  let ds_dq2 := d_delta_y_dq2 * dy in
  let ds_dq3 :=
    (d_delta_x_dq3 * dx + delta_x * d_dx_dq3) +
    (d_delta_y_dq3 * dy + delta_y * d_dy_dq3) in
  let ds_dq1_dot := d_delta_x_dq1 * dx_dot in
  let ds_dq2_dot := d_delta_y_dq2 * dy_dot in
  let ds_dq3_dot :=
    (d_delta_x_dq3_dot * dx + d_delta_x_dq3 * dx_dot) +
    (delta_x_dot * d_dx_dq3 + delta_x * d_dx_dq3_dot) +
    (d_delta_y_dq3_dot * dy + d_delta_y_dq3 * dy_dot) +
    (delta_y_dot * d_dy_dq3 + delta_y * d_dy_dq3_dot) in
  Ok (write_out o [C0; C1]
    [[(- ds_dq1) * ro_radius p; (- ds_dq2) * ro_radius p; (- ds_dq3) * ro_radius p;
      cofZ (-1) * dx * ro_radius p; cofZ (-1) * dy * ro_radius p; cofZ (-1)];
     [dy * d_delta_x_dq1; (- dx) * d_delta_y_dq2;
      (d_dy_dq3 * delta_x + dy * d_delta_x_dq3) - (d_dx_dq3 * delta_y + dx * d_delta_y_dq3);
      dy * d_delta_x_dq4; (- dx) * d_delta_y_dq5; cofZ 0]]
    [[(- ds_dq1_dot) * ro_radius p; (- ds_dq2_dot) * ro_radius p; (- ds_dq3_dot) * ro_radius p;
      cofZ (-1) * dx_dot * ro_radius p; cofZ (-1) * dy_dot * ro_radius p; cofZ 0];
     [dy_dot * d_delta_x_dq1; (- dx_dot) * d_delta_y_dq2;
      (d_dy_dq3_dot * delta_x + d_dy_dq3 * delta_x_dot) +
      (dy_dot * d_delta_x_dq3 + dy * d_delta_x_dq3_dot) -
      (d_dx_dq3_dot * delta_y + d_dx_dq3 * delta_y_dot) -
      (dx_dot * d_delta_y_dq3 + dx * d_delta_y_dq3_dot);
      dy_dot * d_delta_x_dq4; (- dx_dot) * d_delta_y_dq5; cofZ 0]]
    [cofZ 0; cofZ 0] no_limits [cofZ 0; ro_ks p] [cofZ 0; ro_kd p]).

(* src/fixed_rotation_constraint.cpp:13-35  calculate *)
Definition fr_calculate (p : fixed_rotation) (body : Z) (o : output) (s : sstate tg) : res output :=
  let* q3 := ld s Ftheta body in
  let C := q3 - fr_rot p in
  Ok (write_out o [C] [[cofZ 0; cofZ 0; cofZ 1]] [[cofZ 0; cofZ 0; cofZ 0]]
    [cofZ 0] no_limits [fr_ks p] [fr_kd p]).

(* src/constant_rotation_constraint.cpp:18-36  calculate; does not read the bodies *)
Definition cr_calculate (p : constant_rotation) (o : output) : output :=
  write_out o [cofZ 0] [[cofZ 0; cofZ 0; cofZ 1]] [[cofZ 0; cofZ 0; cofZ 0]]
    [cr_speed p] [[cr_min p; cr_max p]] [cr_ks p] [cr_kd p].

(* src/clutch_constraint.cpp:18-47  calculate; does not read the bodies *)
Definition clutch_calculate (p : clutch) (o : output) : output :=
  write_out o [cofZ 0]
    [[cofZ 0; cofZ 0; cofZ (-1); cofZ 0; cofZ 0; cofZ 1]]
    [[cofZ 0; cofZ 0; cofZ 0; cofZ 0; cofZ 0; cofZ 0]]
    [cofZ 0] [[cl_min p; cl_max p]] [cl_ks p] [cl_kd p].

(* src/rotation_friction_constraint.cpp:17-40  calculate; m_bodies[0]->index is
   read (line 21) and not used *)
Definition friction_calculate (p : friction) (o : output) : output :=
  write_out o [cofZ 0] [[cofZ 0; cofZ 0; cofZ 1]] [[cofZ 0; cofZ 0; cofZ 0]]
    [cofZ 0] [[rf_min p; rf_max p]] [rf_ks p] [rf_kd p].

(* src/simple_gear_constraint.cpp:18-50  calculate; does not read the bodies *)
Definition gear_calculate (p : gear) (o : output) : output :=
  write_out o [cofZ 0]
    [[cofZ 0; cofZ 0; cofZ 1; cofZ 0; cofZ 0; - ge_ratio p]]
    [[cofZ 0; cofZ 0; cofZ 0; cofZ 0; cofZ 0; cofZ 0]]
    [cofZ 0]
    (if ge_neutral p then [[cofZ 0; cofZ 0]] else no_limits) [ge_ks p] [ge_kd p].

(* virtual calculate(output, state); src/constraint.cpp:28-30 for the base class *)
Definition calculate (bs : bodies tg) (c : constraint) (o : output) (s : sstate tg) : res output :=
  match c_kind c with
  | KBase => Ok o
  | KFixedPosition p => let* b := con_body_index bs (c_bodies c) 0 in fp_calculate p b o s
  | KLine p => let* b := con_body_index bs (c_bodies c) 0 in line_calculate p b o s
  | KLink p =>
      let* b0 := con_body_index bs (c_bodies c) 0 in
      let* b1 := con_body_index bs (c_bodies c) 1 in link_calculate p b0 b1 o s
  | KRolling p =>
      let* b0 := con_body_index bs (c_bodies c) 0 in
      let* b1 := con_body_index bs (c_bodies c) 1 in rolling_calculate p b0 b1 o s
  | KFixedRotation p => let* b := con_body_index bs (c_bodies c) 0 in fr_calculate p b o s
  | KConstantRotation p => Ok (cr_calculate p o)
  | KClutch p => Ok (clutch_calculate p o)
  | KFriction p => let* _ := con_body_index bs (c_bodies c) 0 in Ok (friction_calculate p o)
  | KGear p => Ok (gear_calculate p o)
  | KCustom f => f bs (c_bodies c) o s
  end.

(* reading constraintOutput.X[k] and constraintOutput.X[k][i] *)
Definition out1 (f : nat -> cell tg) (k : nat) : res (cell tg) :=
  if Nat.ltb k 3 then Ok (f k) else UB.
Definition out2 (f : nat -> nat -> cell tg) (w : nat) (k i : nat) : res (cell tg) :=
  if Nat.ltb k 3 && Nat.ltb i w then Ok (f k i) else UB.

End ConstraintsModel.

Arguments output : clear implicits.
Arguments fixed_position : clear implicits.
Arguments line : clear implicits.
Arguments link : clear implicits.
Arguments rolling : clear implicits.
Arguments fixed_rotation : clear implicits.
Arguments constant_rotation : clear implicits.
Arguments clutch : clear implicits.
Arguments friction : clear implicits.
Arguments gear : clear implicits.
Arguments ckind : clear implicits.
Arguments constraint : clear implicits.
