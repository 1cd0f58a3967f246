(** * Specification vocabulary for a motor in the fourth-order scheme. *)

From Coq Require Import Reals.
From Verif Require Import Base Targets State Ode Forces Constraints System SpecState SpecSys SpecDyn SpecRk SpecMotor SpecRun.
Local Open Scope nat_scope.

(** the relative acceleration of what a motor turns: e is the speed that is
    missing, a the acceleration of the evaluation before *)
Definition spun (ks kd mx r e a : R) : R := (cut mx (ks * e - kd * a) * r)%R.
(** one sub-step of length h: the missing speed and the last acceleration *)
Definition spin_four (ks kd mx r h : R) (x : R * R) : R * R :=
  let (e, a) := x in
  let a1 := spun ks kd mx r e a in
  let a2 := spun ks kd mx r (e - h * a1 / 2) a1 in
  let a3 := spun ks kd mx r (e - h * a2 / 2) a2 in
  let a4 := spun ks kd mx r (e - h * a3) a3 in
  (e - h / 6 * (a1 + 2 * a2 + 2 * a3 + a4), a4)%R.
(** a list of calls; every call starts from the acceleration 0 *)
Fixpoint spins (ks kd mx r : R) (l : list (R * nat * timing)) (e : R) : R :=
  match l with
  | [] => e
  | (dt, n, _) :: l => spins ks kd mx r l (fst (Nat.iter n (spin_four ks kd mx r (dt / INR n)) (e, 0%R)))
  end.

Section S.
Context {dbg : bool}.
Notation T := (RT dbg).
(** generator g is a motor in a system of the generic class that uses a
    fourth-order solver of its own *)
Definition driven_four priv (w : world T) (y : sys T) (g b0 b1 : nat) (sp ks kd mx : R) : Prop :=
  (exists m, yreach Generic priv m w y) /\ attached w y /\ shaped w y /\ lone priv y /\ (exists r, y_ode y = Some (OdeRk4 r)) /\
  In b1 (y_bodies y) /\ b0 <> b1 /\ motor_on w y g b0 b1 sp ks kd mx.
End S.
