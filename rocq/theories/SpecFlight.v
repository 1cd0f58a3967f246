(** * Specification vocabulary for bodies in free flight. *)

From Coq Require Import Reals.
From Verif Require Import Base Targets State Forces Constraints System SpecState SpecSys SpecDyn.
Local Open Scope nat_scope.

Section S.
Context {dbg : bool}.
Notation T := (RT dbg).
(** whatever the bodies do, the generators put the force F on body b *)
Definition steady (w : world T) (y : sys T) (b : nat) (F : nat -> R) : Prop :=
  forall K h, exists f, pushes w y K h f /\ forall d, d < 3 -> f b d = (Some (F d) : cell T).
(** body b has the position x, velocity v and mass M (other than 0) in the three directions *)
Definition is_at (w : world T) (b : nat) (x v M : nat -> R) : Prop :=
  forall d, d < 3 -> b_pos (w_body w b) d = (Some (x d) : cell T) /\ b_vel (w_body w b) d = (Some (v d) : cell T) /\ b_mass (w_body w b) d = (Some (M d) : cell T) /\ M d <> 0%R.
End S.
