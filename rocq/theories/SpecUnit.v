(** * Specification vocabulary for other units, and for a scene seen in a mirror. *)

From Coq Require Import Reals.
From Verif Require Import Base Targets State Forces Constraints System SpecMatrix SpecState SpecForces SpecCon SpecSys SpecSolve SpecSub SpecLeast SpecTurn.
Local Open Scope nat_scope.

(** ** Units.  A number of the new system is the number of the old one times l
    for every length, t for every time and m for every mass it is measured in;
    angles have no unit *)
Definition unit_place (l : R) (q : nat -> nat -> R) (b d : nat) : R := match d with 0 | 1 => l * q b d | _ => q b d end%R.
Definition unit_speed (l t : R) (v : nat -> nat -> R) (b d : nat) : R := match d with 0 | 1 => l / t * v b d | _ => v b d / t end%R.
Definition unit_mass (l m : R) (M : nat -> nat -> R) (b d : nat) : R := match d with 0 | 1 => m * M b d | _ => m * l ^ 2 * M b d end%R.
(** constraints: ks is per time squared and kd per time; the limit of a link is
    a force, the other limits are torques; directions have no unit *)
Definition unit_kind (l t m : R) (k : rkind) : rkind :=
  match k with
  | RFixedPosition lx ly wx wy ks kd => RFixedPosition (l * lx) (l * ly) (l * wx) (l * wy) (ks / t ^ 2) (kd / t)
  | RLine lx ly p0x p0y dx dy ks kd => RLine (l * lx) (l * ly) (l * p0x) (l * p0y) dx dy (ks / t ^ 2) (kd / t)
  | RLink x1 y1 x2 y2 mx ks kd => RLink (l * x1) (l * y1) (l * x2) (l * y2) (m * l / t ^ 2 * mx) (ks / t ^ 2) (kd / t)
  | RRolling lx ly dx dy rad ks kd => RRolling (l * lx) (l * ly) dx dy (l * rad) (ks / t ^ 2) (kd / t)
  | RFixedRotation rot ks kd => RFixedRotation rot (ks / t ^ 2) (kd / t)
  | RConstantRotation sp mx mn ks kd => RConstantRotation (sp / t) (m * l ^ 2 / t ^ 2 * mx) (m * l ^ 2 / t ^ 2 * mn) (ks / t ^ 2) (kd / t)
  | RClutch mx mn ks kd => RClutch (m * l ^ 2 / t ^ 2 * mx) (m * l ^ 2 / t ^ 2 * mn) (ks / t ^ 2) (kd / t)
  | RFriction mx mn ks kd => RFriction (m * l ^ 2 / t ^ 2 * mx) (m * l ^ 2 / t ^ 2 * mn) (ks / t ^ 2) (kd / t)
  | RGear ra n ks kd => RGear ra n (ks / t ^ 2) (kd / t)
  end%R.
Definition unit_gen (l t m : R) (g : rgen) : rgen :=
  match g with
  | VSpring r i1 i2 => VSpring (mkSp (l * sr_rest r) (m / t ^ 2 * sr_ks r) (m / t * sr_kd r) (l * sr_p1x r) (l * sr_p1y r) (l * sr_p2x r) (l * sr_p2y r)) i1 i2
  | VGravity gr => VGravity (l / t ^ 2 * gr)
  | VStatic px py fx fy b => VStatic (l * px) (l * py) (m * l / t ^ 2 * fx) (m * l / t ^ 2 * fy) b
  end%R.

(** ** A mirror that exchanges left and right: x and the angles change sign,
    and so do the x coordinates of the points fixed to the bodies *)
Definition mirrored (q : nat -> nat -> R) (b d : nat) : R := match d with 1 => q b d | _ => - q b d end%R.
(** a surface keeps its wheel on the same side when its direction is turned
    round; the torques between the limits change sign *)
Definition mirror_kind (k : rkind) : rkind :=
  match k with
  | RFixedPosition lx ly wx wy ks kd => RFixedPosition (- lx) ly (- wx) wy ks kd
  | RLine lx ly p0x p0y dx dy ks kd => RLine (- lx) ly (- p0x) p0y (- dx) dy ks kd
  | RLink x1 y1 x2 y2 mx ks kd => RLink (- x1) y1 (- x2) y2 mx ks kd
  | RRolling lx ly dx dy rad ks kd => RRolling (- lx) ly dx (- dy) rad ks kd
  | RFixedRotation rot ks kd => RFixedRotation (- rot) ks kd
  | RConstantRotation sp mx mn ks kd => RConstantRotation (- sp) (- mn) (- mx) ks kd
  | RClutch mx mn ks kd => RClutch (- mn) (- mx) ks kd
  | RFriction mx mn ks kd => RFriction (- mn) (- mx) ks kd
  | RGear ra n ks kd => RGear ra n ks kd
  end%R.
Definition mirror_gen (g : rgen) : rgen :=
  match g with
  | VSpring r i1 i2 => VSpring (mkSp (sr_rest r) (sr_ks r) (sr_kd r) (- sr_p1x r) (sr_p1y r) (- sr_p2x r) (sr_p2y r)) i1 i2
  | VGravity gr => VGravity gr
  | VStatic px py fx fy b => VStatic (- px) py (- fx) fy b
  end%R.

(** ** What the unit of length is allowed to meet *)
Section S.
Context {dbg : bool}.
Notation T := (RT dbg).
(** the springs between bodies at q are at least 1/100 long, in both units *)
Definition long_springs (l : R) (y : sys T) (kg : nat -> rgen) (q : nat -> nat -> R) : Prop :=
  forall g r i1 i2, In g (y_gens y) -> kg g = VSpring r i1 i2 ->
    let len := spring_length r (mkPose (q i1 0) (q i1 1) (q i1 2)) (mkPose (q i2 0) (q i2 1) (q i2 2)) in (1 / 100 <= len)%R /\ (1 / 100 <= l * len)%R.
(** they are so whenever one of the calls starts *)
Definition stay_long (l : R) (k : flavour) (h : cell T) (ts : list timing) (w : world T) (y : sys T) (kg : nat -> rgen) : Prop :=
  forall pre t suf w' y' q v, ts = pre ++ t :: suf -> calls_of k h pre w y = Ok (w', y') -> ends w' y' q v -> long_springs l y' kg q.
End S.
