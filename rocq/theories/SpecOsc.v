(** * Specification vocabulary for the exact motion of a spring. *)

From Coq Require Import Reals.
Local Open Scope R_scope.

(** the exact motion of s'' = - om^2 s in the time t: s is how much longer the
    spring is than at rest, u how fast it gets longer *)
Definition oscillates (om t : R) (x : R * R) : R * R :=
  (fst x * cos (om * t) + snd x / om * sin (om * t), - (om * fst x * sin (om * t)) + snd x * cos (om * t)).
(** twice the energy per mass *)
Definition energy2 (om : R) (x : R * R) : R := om * fst x * (om * fst x) + snd x * snd x.
(** how far apart two motions are *)
Definition gap2 (om : R) (x y : R * R) : R := energy2 om (fst x - fst y, snd x - snd y).
(** the first n sub-steps, each of which is off by k at most, do not bring the
    ends of a spring of length L closer than 1/100 *)
Definition roomy (om L k : R) (n : nat) (x : R * R) : Prop :=
  1 / 100 <= L /\ 2 * (exp (INR n * k) * exp (INR n * k)) * energy2 om x <= om * (L - 1 / 100) * (om * (L - 1 / 100)).
