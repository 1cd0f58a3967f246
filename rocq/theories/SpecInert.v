(** * Specification vocabulary for Newton's first law in binary64. *)

From Coq Require Import Floats.SpecFloat.
From Verif Require Import Base Targets State Ode Forces Constraints System SpecForces SpecSys SpecDyn.
Local Open Scope nat_scope.

Section S.
Context {dbg : bool} {sn cs : spec_float -> option spec_float}.
Notation T := (F64_trig dbg sn cs).
(** a zero of either sign *)
Definition zero64 (x : cell T) : Prop := exists s, x = Some (S754_zero s).
(** neither indeterminate nor infinite nor not a number *)
Definition finite64 (x : cell T) : Prop := match x with Some (S754_zero _) | Some (S754_finite _ _ _) => True | _ => False end.
(** bit for bit the same, but for the sign of a zero *)
Definition same64 (x x' : cell T) : Prop := x' = x \/ (zero64 x /\ zero64 x').
(** the generators put no force on body b in direction d, however things move *)
Definition no_force (w : world T) (y : sys T) (b d : nat) : Prop :=
  forall K h, exists f, pushes w y K h f /\ zero64 (f b d).
End S.
