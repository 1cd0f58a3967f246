(** * Specification vocabulary for a motor and what it turns. *)

From Coq Require Import Reals.
From Verif Require Import Base Targets State Forces Constraints System SpecState SpecSys SpecDyn.
Local Open Scope nat_scope.

(** x cut off at -mx and mx *)
Definition cut (mx x : R) : R := if Rle_dec x (- mx) then (- mx)%R else if Rle_dec mx x then mx else x.
(** one sub-step of length h of what a motor turns: the speed e that is still
    missing and the acceleration a of the sub-step before; the torque changes
    the relative speed at the rate of r per unit *)
Definition spin_up (ks kd mx r h : R) (x : R * R) : R * R :=
  let (e, a) := x in let tq := cut mx (ks * e - kd * a) in (e - tq * r * h, tq * r)%R.

Section S.
Context {dbg : bool}.
Notation T := (RT dbg).
(** generator g is a motor on bodies b0 and b1, the others are gravity *)
Definition motor_on (w : world T) (y : sys T) (g b0 b1 : nat) (sp ks kd mx : R) : Prop :=
  In g (y_gens y) /\
  g_kind (w_gen w g) = GMotor (@mkMotor T (Some ks) (Some kd) (Some mx) (Some sp) (Some b0) (Some b1)) /\
  forall g', In g' (y_gens y) -> g' <> g -> exists gr : R, g_kind (w_gen w g') = GGravity (Some gr : cell T).
(** body b turns at the speed v: it is in the system, no constraint holds it
    and r is one over its moment of inertia; or it is in no system at all *)
Definition turns (w : world T) (y : sys T) (b : nat) (v r : R) : Prop :=
  (In b (y_bodies y) /\ unbound w y b /\ b_vel (w_body w b) 2 = (Some v : cell T) /\
     exists I : R, I <> 0%R /\ r = (/ I)%R /\ b_mass (w_body w b) 2 = (Some I : cell T)) \/
  (~ In b (y_bodies y) /\ b_index (w_body w b) = (-1)%Z /\ v = 0%R /\ r = 0%R).
(** generator g is such a motor in a system in the use of which no rule is broken *)
Definition driven priv (k : flavour) (z : scheme) (w : world T) (y : sys T) (g b0 b1 : nat) (sp ks kd mx : R) : Prop :=
  (exists m, yreach k priv m w y) /\ attached w y /\ shaped w y /\ uses k z y /\ In b1 (y_bodies y) /\ b0 <> b1 /\ motor_on w y g b0 b1 sp ks kd mx.
End S.
