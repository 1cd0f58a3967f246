(** * Specification vocabulary: constraints of the generic class as springs and dampers. *)

From Coq Require Import Reals.
From Verif Require Import Base Targets State Constraints System SpecMatrix SpecState SpecForces SpecCon SpecSys SpecDyn SpecSolve SpecLaw SpecDrift.
Local Open Scope nat_scope.

(** how far row j of a constraint is from being met: the gap, and for a wheel
    on a surface how far it has slipped and how high it is above it *)
Definition miss (k : rkind) (q : nat -> pose) (j : nat) : R :=
  match k with
  | RRolling lx ly dx dy rad _ _ =>
      let Dx := at_x (q 0%nat) dx dy - q_x (q 0%nat) in let Dy := at_y (q 0%nat) dx dy - q_y (q 0%nat) in
      let ex := q_x (q 1%nat) - at_x (q 0%nat) lx ly in let ey := q_y (q 1%nat) - at_y (q 0%nat) lx ly in
      match j with 0 => q_th (q 1%nat) + rad * (Dx * ex + Dy * ey) | _ => - Dy * ex + Dx * ey - rad end
  | _ => match j with 0 => fst (gap k q) | _ => snd (gap k q) end
  end%R.
(** the motion with velocity v and acceleration a that goes through q at time 0 *)
Definition follows (q v a : nat -> nat -> R) (t : R) (b d : nat) : R := (q b d + v b d * t + a b d * (t * t) / 2)%R.
(** at time 0, g has the acceleration that a spring ks and a damper kd ask for *)
Definition swings (ks kd : R) (g : R -> R) : Prop :=
  exists g1 g2, (forall t, derivable_pt_lim g t (g1 t)) /\ derivable_pt_lim g1 0 g2 /\ (g2 = - ks * g 0 - kd * g1 0)%R.

(** one step of a spring and damper on the pair of position and velocity *)
Definition swing (z : scheme) (ks kd h : R) (x : R * R) : R * R :=
  let (g, u) := x in
  let u' := (u + (- ks * g - kd * u) * h)%R in (g + match z with Symplectic => u' | Explicit => u end * h, u')%R.
(** how fast the gap changes, if the constraint holds the centres of bodies or angles *)
Definition drate (k : rkind) (v : nat -> pose) : R * R :=
  match k with
  | RFixedPosition _ _ _ _ _ _ => (q_x (v 0%nat), q_y (v 0%nat))
  | RLine _ _ _ _ dx dy _ _ => (q_x (v 0%nat) * - dy + q_y (v 0%nat) * dx, 0)
  | RLink _ _ _ _ _ _ _ => (q_x (v 0%nat) - q_x (v 1%nat), q_y (v 0%nat) - q_y (v 1%nat))
  | RFixedRotation _ _ _ => (q_th (v 0%nat), 0)
  | _ => (0, 0)
  end%R.
(** the speed that a constraint without a position brakes *)
Definition turning (k : rkind) (v : nat -> pose) : option R :=
  match k with
  | RConstantRotation _ _ _ _ _ | RFriction _ _ _ _ => Some (q_th (v 0%nat))
  | RClutch _ _ _ _ => Some (q_th (v 1%nat) - q_th (v 0%nat))%R
  | RGear ra _ _ _ => Some (q_th (v 0%nat) - ra * q_th (v 1%nat))%R
  | _ => None
  end.
