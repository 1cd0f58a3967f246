(** * Specification vocabulary for calls of several sub-steps. *)

From Coq Require Import Reals.
From Verif Require Import Base Targets Sle State Forces Constraints System SpecState SpecForces ForceFacts SpecMatrix SpecCon ConFacts SpecSys SpecDyn SpecSolve SpecLaw SpecLeast SpecMotor.
Local Open Scope nat_scope.

Section S.
Context {dbg : bool}.
Notation T := (RT dbg).
Notation cl := (cell T).
(** the motion K has the positions q, velocities v and accelerations a *)
Definition shown (y : sys T) (K : kin T) (q v a : nat -> nat -> R) : Prop :=
  forall b d, In b (y_bodies y) -> d < 3 -> k_q K b d = (Some (q b d) : cl) /\ k_v K b d = (Some (v b d) : cl) /\ k_a K b d = (Some (a b d) : cl).
(** in such a motion the generators exert the force F q v a *)
Definition exerts (w : world T) (y : sys T) (h : R) (F : (nat -> nat -> R) -> (nat -> nat -> R) -> (nat -> nat -> R) -> nat -> nat -> R) : Prop :=
  forall K q v a, shown y K q v a -> pushesR w y K h (F q v a).
(** one sub-step of length h from q, v to q', v' with the accelerations a':
    Newton's law with multipliers x, the integrator's rule and what the class
    wants of every row *)
Definition sub_step (k : flavour) (z : scheme) (w : world T) (y : sys T) (kc : nat -> rkind) (beta : R) (M : nat -> nat -> R) (h : R) (f q v q' v' a' : nat -> nat -> R) : Prop :=
  let J := fun c j i => J_of (kc c) (pose_at w q c) j i in
  let Jd := fun c j i => Jd_of (kc c) (pose_at w q c) (pose_at w v c) j i in
  let C := fun c j => C_of (kc c) (pose_at w q c) j in
  exists x : nat -> nat -> R,
    (forall b d, In b (y_bodies y) -> d < 3 ->
      (M b d * a' b d = f b d + acts w y J x b d /\ v' b d = v b d + a' b d * h /\
       q' b d = q b d + (match z with Symplectic => v' b d | Explicit => v b d end) * h)%R) /\
    every_row w y (fun c j =>
      match k with
      | Optimized => along w J v' c j + bias_of (kc c) + beta / h * C c j = 0
      | Generic => along w J a' c j + along w Jd v c j = - (ks_of (kc c) j * C c j) - kd_of (kc c) j * along w J v c j
      end)%R.

(** force generators with real parameters, motors included *)
Inductive dgen :=
| DPlain (k : rgen)
| DMotor (sp ks kd mx : R) (b0 b1 : nat).
Definition dgen_of (k : dgen) : gkind T :=
  match k with
  | DPlain k => gen_of k
  | DMotor sp ks kd mx b0 b1 => GMotor (@mkMotor T (Some ks) (Some kd) (Some mx) (Some sp) (Some b0) (Some b1))
  end.
(** the bodies that generators name are in the system; the base of a motor may
    be in no system at all *)
Definition dgens_are (w : world T) (y : sys T) (kg : nat -> dgen) : Prop :=
  forall g, In g (y_gens y) -> g_kind (w_gen w g) = dgen_of (kg g) /\
    match kg g with
    | DPlain k => forall b, In b (names k) -> In b (y_bodies y)
    | DMotor _ _ _ mx b0 b1 => b0 <> b1 /\ (0 <= mx)%R /\ In b1 (y_bodies y) /\ (In b0 (y_bodies y) \/ ~ In b0 (y_bodies y) /\ b_index (w_body w b0) = (-1)%Z)
    end.
(** the third component for body b; what is in no system stands still *)
Definition third (y : sys T) (v : nat -> nat -> R) (b : nat) : R := if in_dec Nat.eq_dec b (y_bodies y) then v b 2 else 0%R.
(** the force of a generator on body b in direction d *)
Definition pull (y : sys T) (M q v a : nat -> nat -> R) (k : dgen) (b d : nat) : R :=
  let place := fun (q : nat -> nat -> R) b => mkPose (q b 0) (q b 1) (q b 2) in
  let on := fun b0 F => if Nat.eqb b b0 then match d with 0 => gf_x F | 1 => gf_y F | _ => gf_t F end else 0%R in
  match k with
  | DPlain (VSpring r i1 i2) =>
      let q1 := place q i1 in let q2 := place q i2 in let v1 := place v i1 in let v2 := place v i2 in
      on i1 (point_force q1 (end1x r q1) (end1y r q1) (spring_fx r q1 v1 q2 v2) (spring_fy r q1 v1 q2 v2)) +
      on i2 (point_force q2 (end2x r q2) (end2y r q2) (- spring_fx r q1 v1 q2 v2) (- spring_fy r q1 v1 q2 v2))
  | DPlain (VGravity gr) => match d with 1%nat => - M b 0%nat * gr | _ => 0 end
  | DPlain (VStatic px py fx fy b0) => on b0 (point_force (place q b0) (at_x (place q b0) px py) (at_y (place q b0) px py) fx fy)
  | DMotor sp ks kd mx b0 b1 =>
      let tq := cut mx (ks * (sp - (third y v b1 - third y v b0)) - kd * (third y a b1 - third y a b0)) in
      match d with 0%nat | 1%nat => 0 | _ => if Nat.eqb b b1 then tq else if Nat.eqb b b0 then - tq else 0 end
  end%R.
(** the rows are such that the multipliers are determined, whatever the pose *)
Definition firm (w : world T) (y : sys T) (M : nat -> nat -> R) (kc : nat -> rkind) : Prop :=
  forall q, regular w y M (fun c j i => J_of (kc c) (pose_at w q c) j i).
(** as [side] of SpecLeast, with motors *)
Record stage (priv : nat -> bool) (k : flavour) (z : scheme) (kc : nat -> rkind) (kg : nat -> dgen) (beta : R) (M : nat -> nat -> R) (w : world T) (y : sys T) (q v : nat -> nat -> R) : Prop := {
  sg_reach : exists m, yreach k priv m w y;
  sg_uses : uses k z y;
  sg_sle : exists g, y_sle y = Some (SleGe g);
  sg_att : attached w y;
  sg_kinds : kinds_are w y kc;
  sg_gens : dgens_are w y kg;
  sg_255 : body_count y <= 255;
  sg_some : y_cons y <> [];
  sg_bias : y_bias y = (Some beta : cl);
  sg_are : bodies_are w y q v M
}.
(** calls of process, each with its own length and number of sub-steps *)
Fixpoint plays (k : flavour) (l : list (R * nat * timing)) (w : world T) (y : sys T) : res (world T * sys T) :=
  match l with
  | [] => Ok (w, y)
  | (dt, n, t) :: l => let* (w, y) := process k (Some dt : cl) n t w y in plays k l w y
  end.
(** the sub-steps of all the calls together *)
Fixpoint subs (l : list (R * nat * timing)) : nat := match l with [] => 0 | (_, n, _) :: l => n + subs l end.
(** what a damper of strength kd leaves of a speed over these calls *)
Fixpoint brakes (kd : R) (l : list (R * nat * timing)) : R :=
  match l with [] => 1 | (dt, n, _) :: l => (1 - kd * (dt / INR n)) ^ n * brakes kd l end.
End S.
Arguments sg_reach {dbg priv k z kc kg beta M w y q v} _.
Arguments sg_uses {dbg priv k z kc kg beta M w y q v} _.
Arguments sg_sle {dbg priv k z kc kg beta M w y q v} _.
Arguments sg_att {dbg priv k z kc kg beta M w y q v} _.
Arguments sg_kinds {dbg priv k z kc kg beta M w y q v} _.
Arguments sg_gens {dbg priv k z kc kg beta M w y q v} _.
Arguments sg_255 {dbg priv k z kc kg beta M w y q v} _.
Arguments sg_some {dbg priv k z kc kg beta M w y q v} _.
Arguments sg_bias {dbg priv k z kc kg beta M w y q v} _.
Arguments sg_are {dbg priv k z kc kg beta M w y q v} _.
