(** * Specification vocabulary for the principle of least constraint. *)

From Coq Require Import Reals.
From Verif Require Import Base Targets Sle State Forces Constraints System SpecMatrix SpecForces SpecCon ConFacts SpecSys SpecMom SpecDyn SpecSolve SpecLaw SpecSub.
Local Open Scope nat_scope.

Section S.
Context {dbg : bool}.
Notation T := (RT dbg).

(** the kinetic energy of the velocities u; M holds mass, mass and moment of inertia *)
Definition kinetic (y : sys T) (M u : nat -> nat -> R) : R :=
  (Lsum (y_bodies y) (fun b => M b 0%nat * (u b 0%nat * u b 0%nat) + M b 1%nat * (u b 1%nat * u b 1%nat) + M b 2%nat * (u b 2%nat * u b 2%nat)) / 2)%R.
(** the velocities the bodies would have if there were no constraints *)
Definition unbound (M f v : nat -> nat -> R) (dt : R) (b d : nat) : R := (v b d + f b d / M b d * dt)%R.
(** the velocities u are allowed: every row has the wanted rate r *)
Definition allowed (w : world T) (y : sys T) (J : nat -> nat -> nat -> R) (r : nat -> nat -> R) (u : nat -> nat -> R) : Prop :=
  every_row w y (fun c j => along w J u c j = r c j).

(** force generators with real parameters *)
Inductive rgen :=
| VSpring (r : spring_pars) (i1 i2 : nat)
| VGravity (gr : R)
| VStatic (px py fx fy : R) (b : nat).
Definition gen_of (k : rgen) : gkind T :=
  match k with
  | VSpring r i1 i2 => GSpring (spring_of dbg r i1 i2)
  | VGravity gr => GGravity (Some gr : cell T)
  | VStatic px py fx fy b => GStatic (static_of px py fx fy b)
  end.
(** the bodies a generator names *)
Definition names (k : rgen) : list nat := match k with VSpring _ i1 i2 => [i1; i2] | VGravity _ => [] | VStatic _ _ _ _ b => [b] end.
(** whether it acts on body b *)
Definition aims (k : rgen) (b : nat) : Prop := match k with VGravity _ => True | _ => In b (names k) end.
(** the generators of the system are kg, and the bodies they name are in it *)
Definition gens_are (w : world T) (y : sys T) (kg : nat -> rgen) : Prop :=
  forall g, In g (y_gens y) -> g_kind (w_gen w g) = gen_of (kg g) /\ forall b, In b (names (kg g)) -> In b (y_bodies y).

(** system 1 is a part of system 2 that nothing joins to the rest: its bodies,
    constraints and generators are in system 2, its constraints with the same
    bodies, and the other constraints and generators of system 2 leave its
    bodies alone *)
Definition part_of (w1 : world T) (y1 : sys T) (w2 : world T) (y2 : sys T) : Prop :=
  (forall b, In b (y_bodies y1) -> In b (y_bodies y2)) /\
  (forall c, In c (y_cons y1) -> In c (y_cons y2) /\ c_count (w_con w1 c) = c_count (w_con w2 c) /\
  c_bodycount (w_con w1 c) = c_bodycount (w_con w2 c) /\ forall k, c_bodies (w_con w1 c) k = c_bodies (w_con w2 c) k) /\
  (forall c k b, In c (y_cons y2) -> ~ In c (y_cons y1) -> k < c_bodycount (w_con w2 c) -> c_bodies (w_con w2 c) k = Some b -> ~ In b (y_bodies y1)).
Definition gens_part (y1 y2 : sys T) (kg : nat -> rgen) : Prop :=
  (forall g, In g (y_gens y1) -> In g (y_gens y2)) /\
  (forall g b, In g (y_gens y2) -> ~ In g (y_gens y1) -> In b (y_bodies y1) -> ~ aims (kg g) b).
(** the same system, assembled in another order *)
Definition reordered (w1 : world T) (y1 : sys T) (w2 : world T) (y2 : sys T) : Prop :=
  (forall b, In b (y_bodies y1) <-> In b (y_bodies y2)) /\ (forall c, In c (y_cons y1) <-> In c (y_cons y2)) /\
  (forall g, In g (y_gens y1) <-> In g (y_gens y2)) /\
  (forall c, In c (y_cons y1) -> forall k, c_bodies (w_con w1 c) k = c_bodies (w_con w2 c) k).
(** whenever one of the calls starts, the rows are such that the multipliers
    are determined *)
Definition unsingular (k : flavour) (h : cell T) (ts : list timing) (w : world T) (y : sys T) (M : nat -> nat -> R) (kc : nat -> rkind) : Prop :=
  forall pre t suf w' y' q v, ts = pre ++ t :: suf -> calls_of k h pre w y = Ok (w', y') -> ends w' y' q v ->
    regular w' y' M (fun c j i => J_of (kc c) (pose_at w' q c) j i).
(** what the theorems about several calls ask of a system: it is reachable,
    uses the integrator z and Gaussian elimination, its constraints kc and
    generators kg concern bodies of the system, it has at most 255 bodies and
    at least one constraint, and its bodies are at q with velocities v and
    masses M, none of them zero *)
Record side (priv : nat -> bool) (k : flavour) (z : scheme) (kc : nat -> rkind) (kg : nat -> rgen) (beta : R) (M : nat -> nat -> R) (w : world T) (y : sys T) (q v : nat -> nat -> R) : Prop := {
  sd_reach : exists m, yreach k priv m w y;
  sd_uses : uses k z y;
  sd_sle : exists g, y_sle y = Some (SleGe g);
  sd_att : attached w y;
  sd_kinds : kinds_are w y kc;
  sd_gens : gens_are w y kg;
  sd_255 : body_count y <= 255;
  sd_some : y_cons y <> [];
  sd_bias : y_bias y = (Some beta : cell T);
  sd_are : bodies_are w y q v M
}.
End S.
Arguments sd_reach {dbg priv k z kc kg beta M w y q v} _.
Arguments sd_uses {dbg priv k z kc kg beta M w y q v} _.
Arguments sd_sle {dbg priv k z kc kg beta M w y q v} _.
Arguments sd_att {dbg priv k z kc kg beta M w y q v} _.
Arguments sd_kinds {dbg priv k z kc kg beta M w y q v} _.
Arguments sd_gens {dbg priv k z kc kg beta M w y q v} _.
Arguments sd_255 {dbg priv k z kc kg beta M w y q v} _.
Arguments sd_some {dbg priv k z kc kg beta M w y q v} _.
Arguments sd_bias {dbg priv k z kc kg beta M w y q v} _.
Arguments sd_are {dbg priv k z kc kg beta M w y q v} _.
