(** * What the nine constraint classes ask for, with real parameters. *)

From Coq Require Import Reals.
From Verif Require Import Base Targets State Constraints System SpecMatrix SpecState SpecForces SpecCon SpecDyn SpecSolve.
Local Open Scope nat_scope.

(** velocity bias; spring constants of row j (the first row of a rolling
    constraint, which forbids slipping, has none) *)
Definition bias_of (k : rkind) : R := match k with RConstantRotation sp _ _ _ _ => sp | _ => 0%R end.
Definition ks_of (k : rkind) (j : nat) : R :=
  match k with
  | RRolling _ _ _ _ _ ks _ => match j with 0 => 0%R | _ => ks end
  | RFixedPosition _ _ _ _ ks _ | RLine _ _ _ _ _ _ ks _ | RLink _ _ _ _ _ ks _ | RFixedRotation _ ks _
  | RConstantRotation _ _ _ ks _ | RClutch _ _ ks _ | RFriction _ _ ks _ | RGear _ _ ks _ => ks
  end.
Definition kd_of (k : rkind) (j : nat) : R :=
  match k with
  | RRolling _ _ _ _ _ _ kd => match j with 0 => 0%R | _ => kd end
  | RFixedPosition _ _ _ _ _ kd | RLine _ _ _ _ _ _ _ kd | RLink _ _ _ _ _ _ kd | RFixedRotation _ _ kd
  | RConstantRotation _ _ _ _ kd | RClutch _ _ _ kd | RFriction _ _ _ kd | RGear _ _ _ kd => kd
  end.
(** the limits a user gave; None: no limit *)
Definition limits_of (k : rkind) : option (R * R) :=
  match k with
  | RLink _ _ _ _ mx _ _ => Some ((- mx)%R, mx)
  | RConstantRotation _ mx mn _ _ | RClutch mx mn _ _ | RFriction mx mn _ _ => Some (mn, mx)
  | RGear _ true _ _ => Some (0%R, 0%R)
  | _ => None
  end.

(** velocity of the point (lx,ly) of a body with pose q and velocity v *)
Definition vel_x (q v : pose) (lx ly : R) : R := (q_x v - q_th v * (at_y q lx ly - q_y q))%R.
Definition vel_y (q v : pose) (lx ly : R) : R := (q_y v + q_th v * (at_x q lx ly - q_x q))%R.
(** the velocities v close the gaps at the rate r, at the poses q *)
Definition obeys (k : rkind) (q v : nat -> pose) (r : R) : Prop :=
  match k with
  | RFixedPosition lx ly wx wy _ _ =>
      vel_x (q 0%nat) (v 0%nat) lx ly = - r * (at_x (q 0%nat) lx ly - wx) /\ vel_y (q 0%nat) (v 0%nat) lx ly = - r * (at_y (q 0%nat) lx ly - wy)
  | RLine lx ly p0x p0y dx dy _ _ =>
      vel_x (q 0%nat) (v 0%nat) lx ly * - dy + vel_y (q 0%nat) (v 0%nat) lx ly * dx =
      - r * ((at_x (q 0%nat) lx ly - p0x) * - dy + (at_y (q 0%nat) lx ly - p0y) * dx)
  | RLink x1 y1 x2 y2 _ _ _ =>
      vel_x (q 0%nat) (v 0%nat) x1 y1 - vel_x (q 1%nat) (v 1%nat) x2 y2 = - r * (at_x (q 0%nat) x1 y1 - at_x (q 1%nat) x2 y2) /\
      vel_y (q 0%nat) (v 0%nat) x1 y1 - vel_y (q 1%nat) (v 1%nat) x2 y2 = - r * (at_y (q 0%nat) x1 y1 - at_y (q 1%nat) x2 y2)
  | RRolling lx ly dx dy rad _ _ =>
      (* e: from the origin of the surface to the centre of the wheel, u: how it moves, seen from the base body; (Dx,Dy): along the surface *)
      let Dx := at_x (q 0%nat) dx dy - q_x (q 0%nat) in let Dy := at_y (q 0%nat) dx dy - q_y (q 0%nat) in
      let ex := q_x (q 1%nat) - at_x (q 0%nat) lx ly in let ey := q_y (q 1%nat) - at_y (q 0%nat) lx ly in
      let ux := q_x (v 1%nat) - vel_x (q 0%nat) (v 0%nat) lx ly + q_th (v 0%nat) * ey in
      let uy := q_y (v 1%nat) - vel_y (q 0%nat) (v 0%nat) lx ly - q_th (v 0%nat) * ex in
      q_th (v 1%nat) + rad * (Dx * ux + Dy * uy) = - r * (q_th (q 1%nat) + rad * (Dx * ex + Dy * ey)) /\
      - Dy * ux + Dx * uy = - r * (- Dy * ex + Dx * ey - rad)
  | RFixedRotation rot _ _ => q_th (v 0%nat) = - r * (q_th (q 0%nat) - rot)
  | RConstantRotation sp _ _ _ _ => q_th (v 0%nat) = - sp
  | RClutch _ _ _ _ => q_th (v 0%nat) = q_th (v 1%nat)
  | RFriction _ _ _ _ => q_th (v 0%nat) = 0
  | RGear ra _ _ _ => q_th (v 0%nat) = ra * q_th (v 1%nat)
  end%R.

Section S.
Context {dbg : bool}.
Notation T := (RT dbg).
(** constraint c of the system is of the class and has the parameters kc c *)
Definition kinds_are (w : world T) (y : sys T) (kc : nat -> rkind) : Prop :=
  forall c, In c (y_cons y) -> c_kind (w_con w c) = kind_of dbg (kc c) /\ c_count (w_con w c) = rows (kc c) /\ c_bodycount (w_con w c) = parties (kc c).
(** the pose (or velocity) of the body in slot p of constraint c *)
Definition pose_at (w : world T) (q : nat -> nat -> R) (c p : nat) : pose := mkPose (q (who w c p) 0) (q (who w c p) 1) (q (who w c p) 2).
End S.
