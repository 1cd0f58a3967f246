(** * Specification vocabulary for the constraints. *)

From Coq Require Import Reals.
From Verif Require Import Base Targets State Forces Constraints SpecMatrix SpecState SpecForces.
Local Open Scope nat_scope.

(** ** The nine constraint classes with real parameters *)
Inductive rkind :=
| RFixedPosition (lx ly wx wy ks kd : R)
| RLine (lx ly p0x p0y dx dy ks kd : R)
| RLink (x1 y1 x2 y2 mx ks kd : R)
| RRolling (lx ly dx dy radius ks kd : R)
| RFixedRotation (rot ks kd : R)
| RConstantRotation (speed mx mn ks kd : R)
| RClutch (mx mn ks kd : R)
| RFriction (mx mn ks kd : R)
| RGear (ratio : R) (neutral : bool) (ks kd : R).

Definition kind_of (b : bool) (k : rkind) : ckind (RT b) :=
  match k with
  | RFixedPosition lx ly wx wy ks kd => KFixedPosition (@mkFP (RT b) (Some lx) (Some ly) (Some wx) (Some wy) (Some ks) (Some kd))
  | RLine lx ly p0x p0y dx dy ks kd => KLine (@mkLine (RT b) (Some lx) (Some ly) (Some p0x) (Some p0y) (Some dx) (Some dy) (Some ks) (Some kd))
  | RLink x1 y1 x2 y2 mx ks kd => KLink (@mkLink (RT b) (Some x1) (Some y1) (Some x2) (Some y2) (Some mx) (Some ks) (Some kd))
  | RRolling lx ly dx dy r ks kd => KRolling (@mkRoll (RT b) (Some lx) (Some ly) (Some dx) (Some dy) (Some r) (Some ks) (Some kd))
  | RFixedRotation rot ks kd => KFixedRotation (@mkFR (RT b) (Some rot) (Some ks) (Some kd))
  | RConstantRotation sp mx mn ks kd => KConstantRotation (@mkCR (RT b) (Some sp) (Some mx) (Some mn) (Some ks) (Some kd))
  | RClutch mx mn ks kd => KClutch (@mkClutch (RT b) (Some mx) (Some mn) (Some ks) (Some kd))
  | RFriction mx mn ks kd => KFriction (@mkFric (RT b) (Some mx) (Some mn) (Some ks) (Some kd))
  | RGear ra n ks kd => KGear (@mkGear (RT b) (Some ra) n (Some ks) (Some kd))
  end.

(** rows and bodies of each *)
Definition rows (k : rkind) : nat := match k with RFixedPosition _ _ _ _ _ _ | RLink _ _ _ _ _ _ _ | RRolling _ _ _ _ _ _ _ => 2 | _ => 1 end.
Definition parties (k : rkind) : nat := match k with RLink _ _ _ _ _ _ _ | RRolling _ _ _ _ _ _ _ | RClutch _ _ _ _ | RGear _ _ _ _ => 2 | _ => 1 end.

(** those with a constraint function of the position *)
Definition positional (k : rkind) : bool :=
  match k with RFixedPosition _ _ _ _ _ _ | RLine _ _ _ _ _ _ _ _ | RLink _ _ _ _ _ _ _ | RRolling _ _ _ _ _ _ _ | RFixedRotation _ _ _ => true | _ => false end.

(** the bodies 0 .. n-1 of the constraint have poses q and velocities v in s *)
Definition bound {b} (bs : bodies (RT b)) (c : constraint (RT b)) (n : nat) (s : sstate (RT b)) (q v : nat -> pose) : Prop :=
  forall p, p < n -> exists i, c_bodies c p = Some i /\ state_pose s (b_index (bs i)) (q p) /\ state_velocity s (b_index (bs i)) (v p).

(** the i-th coordinate of the poses of the bodies of a constraint *)
Definition coord (q : nat -> pose) (i : nat) : R :=
  match Nat.modulo i 3 with O => q_x (q (i / 3)) | S O => q_y (q (i / 3)) | _ => q_th (q (i / 3)) end.
(** change only coordinate i, by t *)
Definition bump (i : nat) (t : R) (q : nat -> pose) (p : nat) : pose :=
  mkPose (q_x (q p) + (if Nat.eqb i (3 * p) then t else 0))%R (q_y (q p) + (if Nat.eqb i (3 * p + 1) then t else 0))%R
         (q_th (q p) + (if Nat.eqb i (3 * p + 2) then t else 0))%R.

(** the entries of an output that the systems read *)
Definition reads {b} (o : output (RT b)) (n m : nat) (C : nat -> R) (J Jd : nat -> nat -> R) : Prop :=
  forall r, r < n -> o_C o r = (Some (C r) : cell (RT b)) /\
    forall i, i < 3 * m -> o_J o r i = (Some (J r i) : cell (RT b)) /\ o_Jdot o r i = (Some (Jd r i) : cell (RT b)).

(** the same entries of two outputs agree (any number format) *)
Definition same_rows {tg} (n m : nat) (o o' : output tg) : Prop :=
  forall r, r < n -> o_C o r = o_C o' r /\ o_vbias o r = o_vbias o' r /\ o_ks o r = o_ks o' r /\ o_kd o r = o_kd o' r /\
    (forall i, i < 2 -> o_limits o r i = o_limits o' r i) /\
    (forall i, i < 3 * m -> o_J o r i = o_J o' r i /\ o_Jdot o r i = o_Jdot o' r i).

(** two cells hold numbers, in order *)
Definition ordered {tg} (x y : cell tg) : Prop := exists a b, x = Some a /\ y = Some b /\ n_leb tg a b = true.
(** the limits a user gave are in order *)
Definition limits_given {tg} (k : ckind tg) : Prop :=
  match k with
  | KLink p => ordered (copp (lk_max p)) (lk_max p)
  | KConstantRotation p => ordered (cr_min p) (cr_max p)
  | KClutch p => ordered (cl_min p) (cl_max p)
  | KFriction p => ordered (rf_min p) (rf_max p)
  | _ => True
  end.

(** generalised force of the multipliers l on body p of a constraint with Jacobian J and n rows *)
Definition pull (n : nat) (J : nat -> nat -> R) (l : nat -> R) (p : nat) : gforce :=
  mkGf (Rsum n (fun r => J r (3 * p)%nat * l r)%R) (Rsum n (fun r => J r (3 * p + 1)%nat * l r)%R) (Rsum n (fun r => J r (3 * p + 2)%nat * l r)%R).

(** points of the plane carried by a pose *)
Definition at_x (q : pose) (x y : R) : R := world_x (q_x q) (q_th q) x y.
Definition at_y (q : pose) (x y : R) : R := world_y (q_y q) (q_th q) x y.
