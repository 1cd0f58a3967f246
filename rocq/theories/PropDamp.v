(** * Property C112: constraints of the generic class that come to rest. *)

From Coq Require Import Reals.
From Verif Require Import Base Targets Sle State Forces Constraints System SpecMatrix SpecState SpecForces SpecCon ConFacts SpecSys RegWit SpecDyn SpecSolve SolveWit SpecLaw SpecLeast SpecDrift SpecSwing SpecMotor SpecRun SpecDamp
  DampRun DampWit.
Local Open Scope nat_scope.

(** C112: within these strengths, gap and rate go to zero at least
    geometrically in the number of sub-steps, at a rate that depends on the
    strengths and the length of the sub-steps alone *)
Theorem C112_settles :
  forall z (ks kd h : R), calms z ks kd h -> exists C rho : R, (0 <= C)%R /\ (0 <= rho < 1)%R /\
    forall dbg priv kc kg (beta : R) M l (w : world (RT dbg)) y q v,
      stage priv Generic z kc kg beta M w y q v -> firm w y M kc -> (forall dt n t, In (dt, n, t) l -> dt = (INR n * h)%R /\ 0 < n) ->
      exists w' y' q' v', plays Generic l w y = Ok (w', y') /\ ends w' y q' v' /\
        forall c, In c (y_cons y) -> holds (kc c) = true -> arm (kc c) 0 = 0%R -> arm (kc c) 1 = 0%R -> ks_of (kc c) 0 = ks -> kd_of (kc c) 0 = kd ->
          forall e, e = @fst R R \/ e = @snd R R ->
            (stir (e (gap (kc c) (pose_at w q' c)), e (drate (kc c) (pose_at w v' c))) <= C * rho ^ subs l * stir (e (gap (kc c) (pose_at w q c)), e (drate (kc c) (pose_at w v c))))%R.
Proof. exact settle. Qed.
Print Assumptions C112_settles.
(** C112: and only within these: with any others, a body held at an angle stays
    away from rest for ever, from some start *)
Theorem C112_exact :
  forall dbg z (ks kd h : R), ~ calms z ks kd h -> h <> 0%R -> exists (w : world (RT dbg)) y q v k, (0 < k)%R /\
    stage nopriv Generic z (kD ks kd) gD 1%R MD w y q v /\ firm w y MD (kD ks kd) /\ y_cons y = [0] /\ y_bodies y = [0] /\
    forall l, (forall dt n t, In (dt, n, t) l -> dt = (INR n * h)%R /\ 0 < n) ->
      exists w' y' q' v', plays Generic l w y = Ok (w', y') /\ ends w' y q' v' /\ Rle k (stir (q' 0 2, v' 0 2)).
Proof. exact @last. Qed.
Print Assumptions C112_exact.
(** a body that is turned by 1 and let go *)
Example C112_example :
  forall dbg z, exists (w : world (RT dbg)) y, stage nopriv Generic z (kD 100 10) gD 1%R MD w y (qD 1) (qD 0) /\ firm w y MD (kD 100 10) /\ y_cons y = [0] /\ y_bodies y = [0] /\ calms z 100 10 (1 / 100) /\
    forall eps, (0 < eps)%R -> exists N, forall l, N <= subs l -> (forall dt n t, In (dt, n, t) l -> dt = (INR n * (1 / 100))%R /\ 0 < n) ->
      exists w' y' q' v', plays Generic l w y = Ok (w', y') /\ ends w' y q' v' /\ Rle (stir (q' 0 2, v' 0 2)) eps.
Proof. exact @damped. Qed.
Print Assumptions C112_example.
