(** * Specification vocabulary for springs with dampers. *)

From Coq Require Import Reals.
From Verif Require Import SpecFade.
Local Open Scope R_scope.

(** the first n sub-steps, each of which is off by k at most, do not bring the
    ends of a spring of length L with a damper closer than 1/100 *)
Definition ample (mu nu L k : R) (n : nat) (x : R * R) : Prop :=
  1 / 100 <= L /\ exp (INR n * k) * exp (INR n * k) * ampl2 mu nu x <= nu * (L - 1 / 100) * (nu * (L - 1 / 100)).
