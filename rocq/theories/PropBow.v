(** * Property C134: springs in the fourth-order scheme. *)

From Coq Require Import Reals.
From Verif Require Import Base Targets State Forces Constraints System SpecState SpecSys RegWit SpecDyn SpecRk SpecFlight SpecSwing SpecDamp SpecRun SpecSpring SolveWit MomWit LeastWit TurnWit SpringWit SpecBow BowReal BowRun BowWit.
Local Open Scope R_scope.

(** C134: in calls that succeed the bodies at the ends of a spring follow the
    four stages of the scheme, seen from each other; their momentum together
    changes by their weight alone and they turn on as they did *)
Theorem C134_calls :
  forall dbg priv (L ks kd : R) gr g b1 b2 M1 M2 l (w : world (RT dbg)) y w' y' x1 v1 x2 v2,
  strung priv w y g b1 b2 L ks kd gr x1 v1 M1 x2 v2 M2 -> plays Generic l w y = Ok (w', y') -> busy l ->
  exists x1' v1' x2' v2', strung priv w' y' g b1 b2 L ks kd gr x1' v1' M1 x2' v2' M2 /\ weight y' g gr = weight y g gr /\
    seen_from x1' x2' v1' v2' = bows L ks kd (/ M1 0%nat + / M2 0%nat) l (seen_from x1 x2 v1 v2) /\
    M1 0%nat * (v1' 0%nat - v1 0%nat) + M2 0%nat * (v2' 0%nat - v2 0%nat) = 0 /\
    M1 0%nat * (v1' 1%nat - v1 1%nat) + M2 0%nat * (v2' 1%nat - v2 1%nat) = - ((M1 0%nat + M2 0%nat) * weight y g gr * lasts l) /\
    (v1' 2%nat = v1 2%nat /\ x1' 2%nat = x1 2%nat + v1 2%nat * lasts l /\ v2' 2%nat = v2 2%nat /\ x2' 2%nat = x2 2%nat + v2 2%nat * lasts l).
Proof. exact @bow_calls. Qed.
Print Assumptions C134_calls.
(** C134: a spring without any damping comes to rest, if 0 < ks r h^2 <= 4 and it
    starts close enough to its length at rest *)
Theorem C134_rest :
  forall dbg priv (L ks h : R) gr g b1 b2 (M1 M2 : nat -> R), let r := / M1 0%nat + / M2 0%nat in 1 / 100 < L -> 0 < ks * r * (h * h) -> ks * r * (h * h) <= 4 ->
  exists a, 0 < a /\ forall eps, 0 < eps -> exists N, forall l (w : world (RT dbg)) y w' y' x1 v1 x2 v2 ex ey l0 u0,
    strung priv w y g b1 b2 L ks 0 gr x1 v1 M1 x2 v2 M2 -> plays Generic l w y = Ok (w', y') -> evenly h l -> (N <= subs l)%nat ->
    ex * ex + ey * ey = 1 -> seen_from x1 x2 v1 v2 = in_line ex ey l0 u0 -> stir (l0 - L, u0) <= a ->
    exists x1' v1' x2' v2' l' u', strung priv w' y' g b1 b2 L ks 0 gr x1' v1' M1 x2' v2' M2 /\ seen_from x1' x2' v1' v2' = in_line ex ey l' u' /\ stir (l' - L, u') < eps.
Proof. exact @bow_rest. Qed.
Print Assumptions C134_rest.
(** systems that meet what the theorems ask for; all calls succeed *)
Example C134_example :
  forall dbg (L ks kd l0 u0 : R),
  exists (w : world (RT dbg)) y x1 v1 x2 v2, strung nopriv w y 0 6 7 L ks kd (fun _ => 10) x1 v1 (MD 6) x2 v2 (MD 7) /\ weight y 0 (fun _ => 10) = 10 /\
    (3 / 5) * (3 / 5) + (4 / 5) * (4 / 5) = 1 /\ seen_from x1 x2 v1 v2 = in_line (3 / 5) (4 / 5) l0 u0 /\ / MD 6 0%nat + / MD 7 0%nat = 1 /\
    forall l, busy l -> exists w' y', plays Generic l w y = Ok (w', y').
Proof. exact @bow_line_scene. Qed.
Print Assumptions C134_example.
(** one of them comes to rest *)
Example C134_stops :
  forall dbg (eps : R), 0 < eps -> exists a, 0 < a /\ exists (w : world (RT dbg)) y x1 v1 x2 v2, strung nopriv w y 0 6 7 1 1 0 (fun _ => 10) x1 v1 (MD 6) x2 v2 (MD 7) /\
  seen_from x1 x2 v1 v2 = in_line (3 / 5) (4 / 5) (1 + a) 0 /\ exists N, forall l, evenly 1 l -> (N <= subs l)%nat ->
    exists w' y' x1' v1' x2' v2' l' u', plays Generic l w y = Ok (w', y') /\ strung nopriv w' y' 0 6 7 1 1 0 (fun _ => 10) x1' v1' (MD 6) x2' v2' (MD 7) /\
      seen_from x1' x2' v1' v2' = in_line (3 / 5) (4 / 5) l' u' /\ stir (l' - 1, u') < eps.
Proof. exact @bow_stops. Qed.
Print Assumptions C134_stops.
(** C134: it does not keep its energy: one sub-step takes it from 1 to less
    than 17/20 *)
Theorem C134_loses :
  forall dbg, exists (w : world (RT dbg)) y w' y' x1 v1 x2 v2 x1' v1' x2' v2', strung nopriv w y 0 6 7 1 1 0 (fun _ => 10) x1 v1 (MD 6) x2 v2 (MD 7) /\ plays Generic [(1, 1%nat, tS)] w y = Ok (w', y') /\
  strung nopriv w' y' 0 6 7 1 1 0 (fun _ => 10) x1' v1' (MD 6) x2' v2' (MD 7) /\ seen_from x1 x2 v1 v2 = in_line (3 / 5) (4 / 5) 2 0 /\ seen_from x1' x2' v1' v2' = in_line (3 / 5) (4 / 5) (1 + 55 / 96) (- (23 / 32)) /\
  stir (2 - 1, 0) = 1 /\ stir (1 + 55 / 96 - 1, - (23 / 32)) < 17 / 20.
Proof. exact @bow_one. Qed.
Print Assumptions C134_loses.
