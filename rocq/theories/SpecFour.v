(** * Specification vocabulary for calls of the fourth-order solver with springs, weights, forces and motors. *)

From Coq Require Import Reals.
From Verif Require Import Base Targets Sle State Ode Forces Constraints System SpecState SpecForces ForceFacts SpecMatrix SpecCon ConFacts SpecSys SpecDyn SpecRk SpecSolve SpecLaw SpecMotor SpecRun.
Local Open Scope nat_scope.

Section S.
Context {dbg : bool}.
Notation T := (RT dbg).
Notation cl := (cell T).
(** the accelerations a' obey Newton's law with the force F q v a and
    multipliers x, and the stabilised constraint equation *)
Definition obeys (w : world T) (y : sys T) (kc : nat -> rkind) (M : nat -> nat -> R) (F : (nat -> nat -> R) -> (nat -> nat -> R) -> (nat -> nat -> R) -> nat -> nat -> R)
    (q v a a' : nat -> nat -> R) : Prop :=
  let J := fun c j i => J_of (kc c) (pose_at w q c) j i in
  let Jd := fun c j i => Jd_of (kc c) (pose_at w q c) (pose_at w v c) j i in
  exists x : nat -> nat -> R,
    (forall b d, In b (y_bodies y) -> d < 3 -> (M b d * a' b d = F q v a b d + acts w y J x b d)%R) /\
    every_row w y (fun c j => along w J a' c j + along w Jd v c j = - (ks_of (kc c) j * C_of (kc c) (pose_at w q c) j) - kd_of (kc c) j * along w J v c j)%R.
(** one sub-step of length h from q, v, a to q', v', a': four evaluations, each
    with the accelerations of the one before *)
Definition sub_four (w : world T) (y : sys T) (kc : nat -> rkind) (M : nat -> nat -> R) (F : (nat -> nat -> R) -> (nat -> nat -> R) -> (nat -> nat -> R) -> nat -> nat -> R)
    (h : R) (q v a q' v' a' : nat -> nat -> R) : Prop :=
  exists a1 a2 a3 q2 v2 q3 v3 q4 v4 : nat -> nat -> R,
    obeys w y kc M F q v a a1 /\ obeys w y kc M F q2 v2 a1 a2 /\ obeys w y kc M F q3 v3 a2 a3 /\ obeys w y kc M F q4 v4 a3 a' /\
    forall b d, In b (y_bodies y) -> d < 3 ->
      (v2 b d = v b d + h * a1 b d / 2 /\ q2 b d = q b d + h * v2 b d / 2 /\
       v3 b d = v b d + h * a2 b d / 2 /\ q3 b d = q b d + h * v3 b d / 2 /\
       v4 b d = v b d + h * a3 b d /\ q4 b d = q b d + h * v4 b d /\
       v' b d = v b d + h / 6 * (a1 b d + 2 * a2 b d + 2 * a3 b d + a' b d) /\
       q' b d = q b d + h / 6 * (v b d + 2 * v2 b d + 2 * v3 b d + v4 b d))%R.
(** a system of the generic class with elimination and a fourth-order solver of its own *)
Record stage_four (priv : nat -> bool) (kc : nat -> rkind) (kg : nat -> dgen) (M : nat -> nat -> R) (w : world T) (y : sys T) (q v : nat -> nat -> R) : Prop := {
  sf_reach : exists m, yreach Generic priv m w y;
  sf_lone : lone priv y;
  sf_ode : exists r, y_ode y = Some (OdeRk4 r);
  sf_sle : exists g, y_sle y = Some (SleGe g);
  sf_att : attached w y;
  sf_kinds : kinds_are w y kc;
  sf_gens : dgens_are w y kg;
  sf_255 : body_count y <= 255;
  sf_some : y_cons y <> [];
  sf_body : y_bodies y <> [];
  sf_are : bodies_are w y q v M
}.
End S.
Arguments sf_reach {dbg priv kc kg M w y q v} _.
Arguments sf_lone {dbg priv kc kg M w y q v} _.
Arguments sf_ode {dbg priv kc kg M w y q v} _.
Arguments sf_sle {dbg priv kc kg M w y q v} _.
Arguments sf_att {dbg priv kc kg M w y q v} _.
Arguments sf_kinds {dbg priv kc kg M w y q v} _.
Arguments sf_gens {dbg priv kc kg M w y q v} _.
Arguments sf_255 {dbg priv kc kg M w y q v} _.
Arguments sf_some {dbg priv kc kg M w y q v} _.
Arguments sf_body {dbg priv kc kg M w y q v} _.
Arguments sf_are {dbg priv kc kg M w y q v} _.
