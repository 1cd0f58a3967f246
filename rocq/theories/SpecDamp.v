(** * Specification vocabulary: constraints of the generic class that come to rest. *)

From Coq Require Import Reals.
From Verif Require Import Base Targets SpecDyn SpecSwing.

(** strengths of spring and damper with which steps of length h come to rest *)
Definition calms (z : scheme) (ks kd h : R) : Prop :=
  match z with
  | Symplectic => 0 < ks * (h * h) /\ 0 < kd * h /\ ks * (h * h) + 2 * (kd * h) < 4
  | Explicit => 0 < ks * (h * h) /\ ks * (h * h) < kd * h /\ 2 * (kd * h) < 4 + ks * (h * h)
  end%R.
(** a pair of position and velocity, as one number that is 0 only at rest *)
Definition stir (x : R * R) : R := (fst x * fst x + snd x * snd x)%R.
