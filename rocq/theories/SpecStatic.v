(** * Specification vocabulary for bodies at rest. *)

From Coq Require Import Reals.
From Verif Require Import Base Targets State Constraints System SpecCon ConFacts SpecDyn SpecSolve SpecLaw.
Local Open Scope nat_scope.

Definition rest (b d : nat) : R := 0%R.
Section S.
Context {dbg : bool}.
Notation T := (RT dbg).
(** forces f on the bodies and multipliers x of the rows J cancel on every body *)
Definition balanced (w : world T) (y : sys T) (J : nat -> nat -> nat -> R) (f : nat -> nat -> R) (x : nat -> nat -> R) : Prop :=
  forall b d, In b (y_bodies y) -> d < 3 -> (f b d + acts w y J x b d = 0)%R.
(** every constraint is met and asks for no speed *)
Definition met (w : world T) (y : sys T) (kc : nat -> rkind) (q : nat -> nat -> R) : Prop :=
  every_row w y (fun c j => C_of (kc c) (pose_at w q c) j = 0%R /\ bias_of (kc c) = 0%R).
End S.
