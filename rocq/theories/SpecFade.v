(** * Specification vocabulary for the exact motion of a spring with a damper. *)

From Coq Require Import Reals.
Local Open Scope R_scope.

(** the exact motion of g'' = - (mu^2 + nu^2) g - 2 mu g' in the time t, from g and its rate *)
Definition fades (mu nu t : R) (x : R * R) : R * R :=
  (exp (- (mu * t)) * (fst x * cos (nu * t) + (snd x + mu * fst x) / nu * sin (nu * t)),
   exp (- (mu * t)) * (snd x * cos (nu * t) - ((mu * mu + nu * nu) * fst x + mu * snd x) / nu * sin (nu * t))).
(** the amplitude of such a motion, squared, and how far apart two of them are *)
Definition ampl2 (mu nu : R) (x : R * R) : R := nu * fst x * (nu * fst x) + (snd x + mu * fst x) * (snd x + mu * fst x).
Definition apart2 (mu nu : R) (x y : R * R) : R := ampl2 mu nu (fst x - fst y, snd x - snd y).
