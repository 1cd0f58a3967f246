(** * Specification vocabulary for the project's tests. *)

From Coq Require Import Reals.
From Verif Require Import Base Targets Matrix State Ode Forces Constraints SpecState SpecOde SpecForces SpecCon.
Local Open Scope R_scope.

(** bounds the second and third derivatives of the rows of a constraint by the
    angles: sizes of its levers *)
Definition reach (k : rkind) (q : nat -> pose) : R :=
  match k with
  | RFixedPosition lx ly _ _ _ _ => Rabs lx + Rabs ly
  | RLine lx ly _ _ dx dy _ _ => 2 * ((Rabs lx + Rabs ly) * (Rabs dx + Rabs dy))
  | RLink x1 y1 x2 y2 _ _ _ => Rabs x1 + Rabs y1 + Rabs x2 + Rabs y2
  | RRolling _ _ dx dy rad _ _ =>
      2 * ((1 + Rabs rad) * ((1 + Rabs (q_x (q 1%nat) - q_x (q 0%nat)) + Rabs (q_y (q 1%nat) - q_y (q 0%nat))) * (Rabs dx + Rabs dy)))
  | _ => 0
  end.

(** the bodies 0 .. of a constraint have the numbers 0 .., the poses q, and are at rest *)
Definition rests {b} (bs : bodies (RT b)) (c : constraint (RT b)) (n : nat) (s : sstate (RT b)) (q : nat -> pose) : Prop :=
  forall p, (p < n)%nat -> exists i, c_bodies c p = Some i /\ b_index (bs i) = Z.of_nat p /\
    state_pose s (Z.of_nat p) (q p) /\ state_velocity s (Z.of_nat p) (mkPose 0 0 0).

(** what n steps of the test drivers make of a position x and a velocity v under
    a constant acceleration a in time t; [e] is -1, 0 or 1 *)
Definition falls (e : R) (n : nat) (t a x v : R) : R * R := (x + v * t + a * (t * t) / 2 * (1 + e / INR n), v + a * t).

(** the accelerations of n bodies *)
Definition under {b} (s : sstate (RT b)) (n : nat) (a : fld -> nat -> R) : Prop :=
  forall f i, (f = Fax \/ f = Fay \/ f = Fatheta) -> (i < n)%nat -> ld s f (Z.of_nat i) = Ok (Some (a f i) : cell (RT b)).
(** the three integrators, and that the states of the third one fit *)
Definition scheme {b} (o : ode (RT b)) (s : sstate (RT b)) (e : R) : Prop :=
  match o with
  | OdeBase _ => False
  | OdeEuler _ => e = -1
  | OdeNsv _ => e = 1
  | OdeRk4 r => e = 0 /\ rk_fits r s
  end.
