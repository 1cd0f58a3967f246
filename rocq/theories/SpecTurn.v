(** * Specification vocabulary for a system placed at another angle. *)

From Coq Require Import Reals.
From Verif Require Import Base Targets State Forces Constraints System SpecMatrix SpecState SpecForces SpecCon SpecSys SpecSolve SpecLeast.
Local Open Scope nat_scope.

(** vectors of all bodies (velocities, forces) turned by the angle t: x and y
    components turn, the rotational component stays *)
Definition turned (t : R) (u : nat -> nat -> R) (b d : nat) : R :=
  match d with
  | 0 => cos t * u b 0%nat - sin t * u b 1%nat
  | 1 => sin t * u b 0%nat + cos t * u b 1%nat
  | _ => u b d
  end%R.
(** places: turned about the origin by t, then moved by (ax, ay) *)
Definition placed (t ax ay : R) (q : nat -> nat -> R) (b d : nat) : R :=
  match d with
  | 0 => turned t q b 0%nat + ax
  | 1 => turned t q b 1%nat + ay
  | 2 => q b 2%nat + t
  | _ => q b d
  end%R.
(** a constraint whose points, lines and angles of the world are placed likewise *)
Definition turn_kind (t ax ay : R) (k : rkind) : rkind :=
  match k with
  | RFixedPosition lx ly wx wy ks kd => RFixedPosition lx ly (cos t * wx - sin t * wy + ax) (sin t * wx + cos t * wy + ay) ks kd
  | RLine lx ly p0x p0y dx dy ks kd => RLine lx ly (cos t * p0x - sin t * p0y + ax) (sin t * p0x + cos t * p0y + ay) (cos t * dx - sin t * dy) (sin t * dx + cos t * dy) ks kd
  | RFixedRotation rot ks kd => RFixedRotation (rot + t) ks kd
  | _ => k
  end%R.
(** a generator whose force in the world is turned likewise *)
Definition turn_gen (t : R) (k : rgen) : rgen :=
  match k with
  | VStatic px py fx fy b => VStatic px py (cos t * fx - sin t * fy) (sin t * fx + cos t * fy) b
  | _ => k
  end%R.
Definition weightless (k : rgen) : Prop := match k with VGravity _ => False | _ => True end.
Definition no_rolling (k : rkind) : Prop := match k with RRolling _ _ _ _ _ _ _ => False | _ => True end.
