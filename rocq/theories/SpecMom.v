(** * Specification vocabulary for momentum. *)

From Coq Require Import Reals.
From Verif Require Import Base Targets State Forces Constraints System SpecState SpecForces SpecCon SpecDyn SpecSolve SpecLaw.
Local Open Scope nat_scope.

Section S.
Context {dbg : bool}.
Notation T := (RT dbg).

(** linear momentum in direction d, mass m and velocity v of each body *)
Definition momentum (y : sys T) (M v : nat -> nat -> R) (d : nat) : R := Lsum (y_bodies y) (fun b => M b d * v b d)%R.
(** angular momentum about the origin *)
Definition spin_momentum (y : sys T) (M q v : nat -> nat -> R) : R :=
  Lsum (y_bodies y) (fun b => M b 0%nat * (q b 0%nat * v b 1%nat - q b 1%nat * v b 0%nat) + M b 2%nat * v b 2%nat)%R.

(** a constraint between bodies of the system; the other two hold on to a
    place or a line in the world *)
Definition inner (k : rkind) : Prop := match k with RFixedPosition _ _ _ _ _ _ | RLine _ _ _ _ _ _ _ _ => False | _ => True end.
(** a spring between two bodies of the system *)
Definition inner_spring (y : sys T) (r : spring_pars) (g : gkind T) : Prop :=
  exists i1 i2, g = GSpring (spring_of dbg r i1 i2) /\ In i1 (y_bodies y) /\ In i2 (y_bodies y).
(** a static force F with real parameters on body b *)
Definition static_of (px py fx fy : R) (b : nat) : static_force T :=
  @mkStatic T (Some fx) (Some fy) (Some px) (Some py) (Some b).
(** the force e (x and y) with which generator g acts on the system as a whole *)
Definition outer (y : sys T) (M : nat -> nat -> R) (g : gkind T) (e : nat -> R) : Prop :=
  (exists r, inner_spring y r g /\ e 0 = 0%R /\ e 1 = 0%R) \/
  (exists gr : R, g = GGravity (Some gr : cell T) /\ e 0 = 0%R /\ e 1 = (- (Lsum (y_bodies y) (fun b => M b 0%nat) * gr))%R) \/
  (exists px py b, In b (y_bodies y) /\ g = GStatic (static_of px py (e 0) (e 1) b)).

(** ** Torques about the origin *)
(** the ends of a link coincide *)
Definition closed (k : rkind) (q : nat -> pose) : Prop :=
  match k with RLink x1 y1 x2 y2 _ _ _ => at_x (q 0%nat) x1 y1 = at_x (q 1%nat) x2 y2 /\ at_y (q 0%nat) x1 y1 = at_y (q 1%nat) x2 y2 | _ => True end.
(** the total torque of a constraint between bodies of the system with
    multipliers l: an open link pulls along parallel lines, the others act on
    the angles in different measure *)
Definition twist (k : rkind) (q : nat -> pose) (l : nat -> R) : R :=
  match k with
  | RLink x1 y1 x2 y2 _ _ _ => (at_x (q 0%nat) x1 y1 - at_x (q 1%nat) x2 y2) * l 1%nat - (at_y (q 0%nat) x1 y1 - at_y (q 1%nat) x2 y2) * l 0%nat
  | RRolling _ _ _ _ _ _ _ => - l 0%nat
  | RFixedRotation _ _ _ | RConstantRotation _ _ _ _ _ | RFriction _ _ _ _ => l 0%nat
  | RGear ra _ _ _ => (1 - ra) * l 0%nat
  | _ => 0
  end%R.
(** a link or a clutch *)
Definition joint (k : rkind) : Prop := match k with RLink _ _ _ _ _ _ _ | RClutch _ _ _ _ => True | _ => False end.
(** the torque e with which generator g acts on the system as a whole, at the
    positions q; a damped spring need not pull along the line between its ends *)
Definition outer_torque (y : sys T) (M q : nat -> nat -> R) (g : gkind T) (e : R) : Prop :=
  (exists r, inner_spring y r g /\ sr_kd r = 0%R /\ e = 0%R) \/
  (exists gr : R, g = GGravity (Some gr : cell T) /\ e = (- (Lsum (y_bodies y) (fun b => M b 0%nat * q b 0%nat) * gr))%R) \/
  (exists px py fx fy b, In b (y_bodies y) /\ g = GStatic (static_of px py fx fy b) /\
     let p := mkPose (q b 0) (q b 1) (q b 2) in e = (at_x p px py * fy - at_y p px py * fx)%R).
End S.
