(** * Properties C33 - C38: RigidBody and SystemState. *)

From Coq Require Import Reals.
From Coq Require Import Floats.SpecFloat.
From Verif Require Import Base Targets State SpecState StateFacts StateReal StateWit.
Local Open Scope nat_scope.

(** C33 *)
Theorem C33_transforms :
  forall (dbg : bool) (o : body (RT dbg)) q, body_pose o q ->
    (forall x y : R, b_local_to_world o (Some x : cell (RT dbg)) (Some y : cell (RT dbg)) =
      ((Some (world_x (q_x q) (q_th q) x y) : cell (RT dbg)), (Some (world_y (q_y q) (q_th q) x y) : cell (RT dbg)))) /\
    (forall x y wx wy : R,
       b_local_to_world o (Some x : cell (RT dbg)) (Some y : cell (RT dbg)) = ((Some wx : cell (RT dbg)), (Some wy : cell (RT dbg))) <->
       b_world_to_local o (Some wx : cell (RT dbg)) (Some wy : cell (RT dbg)) = ((Some x : cell (RT dbg)), (Some y : cell (RT dbg)))) /\
    (forall x y x' y' wx wy wx' wy' : R,
       b_local_to_world o (Some x : cell (RT dbg)) (Some y : cell (RT dbg)) = ((Some wx : cell (RT dbg)), (Some wy : cell (RT dbg))) ->
       b_local_to_world o (Some x' : cell (RT dbg)) (Some y' : cell (RT dbg)) = ((Some wx' : cell (RT dbg)), (Some wy' : cell (RT dbg))) ->
       dist2 wx wy wx' wy' = dist2 x y x' y').
Proof. exact @body_transforms. Qed.
Print Assumptions C33_transforms.
Example C33_example : body_pose bodyW poseW.
Proof. exact bodyW_pose. Qed.

(** C33: the two classes agree, in every number format *)
Theorem C33_state_agrees :
  forall (tg : target) (s : sstate tg) i (o : body tg) x y,
    ld s Fpx i = Ok (b_f o Bpx) -> ld s Fpy i = Ok (b_f o Bpy) -> ld s Ftheta i = Ok (b_f o Btheta) ->
    st_local_to_world s x y i = Ok (b_local_to_world o x y).
Proof. exact @state_body_agree. Qed.
Print Assumptions C33_state_agrees.
Example C33_state_example : forall t,
  let o := @mkBody (RT true) (fun f => match f with Bpx => Some t | Bpy => Some (2 * t) | Btheta => Some (3 * t) | _ => None end)%R 0 in
  ld (stateW t) Fpx 0 = Ok (b_f o Bpx) /\ ld (stateW t) Fpy 0 = Ok (b_f o Bpy) /\ ld (stateW t) Ftheta 0 = Ok (b_f o Btheta).
Proof. exact (fun t => conj eq_refl (conj eq_refl eq_refl)). Qed.

(** C34: along every motion S of the state in which body i has pose m t, with
    derivative v at t equal to the state's velocities *)
Theorem C34_velocity_at_point :
  forall (dbg : bool) (S : R -> sstate (RT dbg)) i (m : R -> pose) t v (x y : R) (wx wy : R -> R),
    (forall t, state_pose (S t) i (m t)) -> state_velocity (S t) i v -> moves m t v ->
    (forall t, st_local_to_world (S t) (Some x : cell (RT dbg)) (Some y : cell (RT dbg)) i =
       Ok ((Some (wx t) : cell (RT dbg)), (Some (wy t) : cell (RT dbg)))) ->
    exists vx vy : R,
      st_velocity_at_point (S t) (Some x : cell (RT dbg)) (Some y : cell (RT dbg)) i =
        Ok ((Some vx : cell (RT dbg)), (Some vy : cell (RT dbg))) /\
      derivable_pt_lim wx t vx /\ derivable_pt_lim wy t vy.
Proof. exact @velocity_at_point. Qed.
Print Assumptions C34_velocity_at_point.
Example C34_example : forall t,
  (forall t, state_pose (stateW t) 0 (motionW t)) /\ state_velocity (stateW t) 0 velW /\ moves motionW t velW /\
  (forall t, st_local_to_world (stateW t) (Some 1%R) (Some 0%R) 0 =
     Ok ((Some (world_x t (3 * t) 1 0) : cell (RT true)), (Some (world_y (2 * t) (3 * t) 1 0) : cell (RT true)))).
Proof. exact (fun t => conj stateW_pose (conj (stateW_vel t) (conj (motionW_moves t) stateW_world))). Qed.

(** C35: the force, its moment about the body's position, and the power *)
Theorem C35_generalised_force :
  forall (dbg : bool) (s : sstate (RT dbg)) i q v (x y fx fy gx gy g : R),
    state_pose s i q -> state_velocity s i v ->
    ld s Ffx i = Ok (Some gx : cell (RT dbg)) -> ld s Ffy i = Ok (Some gy : cell (RT dbg)) -> ld s Ft i = Ok (Some g : cell (RT dbg)) ->
    let tq := ((world_x (q_x q) (q_th q) x y - q_x q) * fy - (world_y (q_y q) (q_th q) x y - q_y q) * fx)%R in
    exists s', st_apply_force s (Some x : cell (RT dbg)) (Some y : cell (RT dbg)) (Some fx : cell (RT dbg)) (Some fy : cell (RT dbg)) i = Ok s' /\
      ld s' Ffx i = Ok (Some (gx + fx)%R : cell (RT dbg)) /\ ld s' Ffy i = Ok (Some (gy + fy)%R : cell (RT dbg)) /\
      ld s' Ft i = Ok (Some (g + tq)%R : cell (RT dbg)) /\
      exists ux uy : R, st_velocity_at_point s (Some x : cell (RT dbg)) (Some y : cell (RT dbg)) i =
          Ok ((Some ux : cell (RT dbg)), (Some uy : cell (RT dbg))) /\
        (fx * q_x v + fy * q_y v + tq * q_th v = fx * ux + fy * uy)%R.
Proof. exact @apply_force_R. Qed.
Print Assumptions C35_generalised_force.
Example C35_example : forall t,
  state_pose (stateW t) 0 (motionW t) /\ state_velocity (stateW t) 0 velW /\
  ld (stateW t) Ffx 0 = Ok (Some 0%R) /\ ld (stateW t) Ffy 0 = Ok (Some 0%R) /\ ld (stateW t) Ft 0 = Ok (Some 0%R).
Proof. exact (fun t => conj (stateW_pose t) (conj (stateW_vel t) (conj eq_refl (conj eq_refl eq_refl)))). Qed.

(** C35, every number format: nothing else changes ... *)
Theorem C35_touches_only_its_body :
  forall (tg : target) (s : sstate tg) x y fx fy i s',
    st_apply_force s x y fx fy i = Ok s' ->
    (forall f z, ~ (z = i /\ (f = Ffx \/ f = Ffy \/ f = Ft)) -> ld s' f z = ld s f z) /\
    s_n s' = s_n s /\ s_nc s' = s_nc s /\ s_imap s' = s_imap s /\ s_dt s' = s_dt s.
Proof. exact @apply_force_frame. Qed.
Print Assumptions C35_touches_only_its_body.
(** ... and the call is defined exactly for the bodies the state has room for *)
Theorem C35_defined :
  forall (tg : target) (st : nat -> sstate tg) t x y fx fy i, streach st ->
    if ((0 <=? i) && (i <? Z.of_nat (s_n (st t))))%Z
    then exists s', st_apply_force (st t) x y fx fy i = Ok s' else st_apply_force (st t) x y fx fy i = UB.
Proof. exact @apply_force_defined. Qed.
Print Assumptions C35_defined.
Example C35_defined_example : streach (@stgrow (F64 true)) /\ s_n (@stgrow (F64 true) 1) = 2.
Proof. exact (conj (stafter_reach _) eq_refl). Qed.

(** C36 *)
Theorem C36_energy :
  forall (dbg : bool) (o : body (RT dbg)) (m I vx vy w : R),
    b_f o Bm = Some m -> b_f o BI = Some I -> b_f o Bvx = Some vx -> b_f o Bvy = Some vy -> b_f o Bvtheta = Some w ->
    exists E : R, b_energy o = (Some E : cell (RT dbg)) /\ E = (m * (vx ^ 2 + vy ^ 2) / 2 + I * w ^ 2 / 2)%R /\
      ((0 <= m)%R -> (0 <= I)%R -> (0 <= E)%R) /\
      ((0 < m)%R -> (0 < I)%R -> (E = 0)%R <-> (vx = 0 /\ vy = 0 /\ w = 0)%R).
Proof. exact @energy_all. Qed.
Print Assumptions C36_energy.
Example C36_example : b_f bodyW Bm = Some 2%R /\ b_f bodyW BI = Some 3%R /\ b_f bodyW Bvx = Some 4%R /\ b_f bodyW Bvy = Some (-5)%R /\ b_f bodyW Bvtheta = Some 6%R.
Proof. exact (conj eq_refl (conj eq_refl (conj eq_refl (conj eq_refl eq_refl)))). Qed.
Theorem C36_energy_depends :
  forall (tg : target) (o o' : body tg),
    b_f o Bm = b_f o' Bm -> b_f o BI = b_f o' BI -> b_f o Bvx = b_f o' Bvx -> b_f o Bvy = b_f o' Bvy ->
    b_f o Bvtheta = b_f o' Bvtheta -> b_energy o = b_energy o'.
Proof. exact @energy_only. Qed.
Print Assumptions C36_energy_depends.
Example C36_depends_example :
  let o' := b_set bodyW Bpx (Some 9%R : cell (RT true)) in b_f bodyW Bm = b_f o' Bm /\ b_f bodyW Bpx <> b_f o' Bpx.
Proof. exact bodyW_moved. Qed.

(** C37 holds when the destination is reallocated (smaller in one of the two
    sizes) or has exactly the source's sizes, and the source has a body ... *)
Theorem C37_copy_partial :
  forall (tg : target) (st : nat -> sstate tg) t src, streach st ->
    s_n (st t) < s_n (st src) \/ s_nc (st t) < s_nc (st src) \/
      (s_n (st t) = s_n (st src) /\ s_nc (st t) = s_nc (st src)) ->
    0 < s_n (st src) ->
    exists s, st_copy (st t) (st src) = Ok s /\ reads_same (st src) s /\ s_dt s = s_dt (st t).
Proof. exact @copy_good. Qed.
Print Assumptions C37_copy_partial.
Example C37_example : streach (@stgrow (F64 true)) /\ s_n (@stgrow (F64 true) 0) < s_n (@stgrow (F64 true) 1) /\ 0 < s_n (@stgrow (F64 true) 1).
Proof. exact (conj (stafter_reach _) (conj (le_S _ _ (le_n 1)) (le_S _ _ (le_n 1)))). Qed.

(** ... and in every other case with a body it reads past the end of the source ... *)
Theorem C37_copy_overreads :
  forall (tg : target) (st : nat -> sstate tg) t src, streach st ->
    0 < s_n (st src) -> s_n (st src) <= s_n (st t) -> s_nc (st src) <= s_nc (st t) ->
    s_n (st src) < s_n (st t) \/ s_nc (st src) < s_nc (st t) ->
    st_copy (st t) (st src) = UB.
Proof. exact @copy_overreads. Qed.
Print Assumptions C37_copy_overreads.

(** ... so C37 is false: a larger destination; a source without bodies *)
Theorem C37_copy_refuted :
  (exists (st : nat -> sstate (F64 true)) t src, streach st /\ st_copy (st t) (st src) = UB) /\
  (exists (st : nat -> sstate (F64 true)) t src s, streach st /\ st_copy (st t) (st src) = Ok s /\
     ld (st src) Frx 0 = Ok (cofZ 1) /\ ld s Frx 0 = Ok None).
Proof.
  exact (conj (ex_intro _ stsmall (ex_intro _ 0 (ex_intro _ 1 (conj (stafter_reach _) stsmall_ub))))
    (ex_intro _ stnobody (ex_intro _ 0 (ex_intro _ 1 (match stnobody_lost with ex_intro _ s H =>
      ex_intro _ s (conj (stafter_reach _) H) end))))).
Qed.
Print Assumptions C37_copy_refuted.

(** C38 *)
Theorem C38_resize_room :
  forall (tg : target) (st : nat -> sstate tg) t b c, streach st ->
    let s := st_resize (st t) b c in
    b <= s_n s /\ c <= s_nc s /\
    (forall f i, i < room (s_n s) (s_nc s) f -> exists x, ld s f (Z.of_nat i) = Ok x) /\
    (forall i, i < s_nc s -> exists x, aget (s_imap s) (Z.of_nat i) = Ok x) /\
    (b <= s_n (st t) -> c <= s_nc (st t) -> s = st t).
Proof. exact @resize_room. Qed.
Print Assumptions C38_resize_room.
(** the sizes a state reports are always available *)
Theorem C38_room_reported :
  forall (tg : target) (st : nat -> sstate tg) t, streach st ->
    (forall f i, i < room (s_n (st t)) (s_nc (st t)) f -> exists x, ld (st t) f (Z.of_nat i) = Ok x) /\
    (forall i, i < s_nc (st t) -> exists x, aget (s_imap (st t)) (Z.of_nat i) = Ok x).
Proof. exact @room_reported. Qed.
Print Assumptions C38_room_reported.
Example C38_example : streach (@stgrow (F64 true)) /\ s_n (@stgrow (F64 true) 1) = 2 /\ s_nc (@stgrow (F64 true) 1) = 1.
Proof. exact (conj (stafter_reach _) (conj eq_refl eq_refl)). Qed.
