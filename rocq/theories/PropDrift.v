(** * Property C89: how gaps close over several calls. *)

From Coq Require Import Reals.
From Verif Require Import Base Targets State Forces Constraints System SpecMatrix SpecState SpecForces SpecCon ConFacts SpecSys RegWit SpecDyn SpecSolve SolveWit SpecLaw SpecSub SpecLeast SpecDrift DriftWit DriftEnd.
Local Open Scope nat_scope.

(** C89: a step leaves 1 - biasFactor times the gap, and what a point of a turning body is off its tangent *)
Theorem C89_step :
  forall dbg priv kc kg (dt beta : R) M (w : world (RT dbg)) y q v t, dt <> 0%R -> side priv Optimized Symplectic kc kg beta M w y q v ->
    regular w y M (fun c j i => J_of (kc c) (pose_at w q c) j i) ->
    exists w' y' q' v', process Optimized (Some dt : cell (RT dbg)) 1 t w y = Ok (w', y') /\ ends w' y q' v' /\
      forall c, In c (y_cons y) -> holds (kc c) = true -> exists rx ry,
        gap (kc c) (pose_at w q' c) = ((1 - beta) * fst (gap (kc c) (pose_at w q c)) + rx, (1 - beta) * snd (gap (kc c) (pose_at w q c)) + ry)%R /\
        (size (rx, ry) <= dt * dt / 2 * (arm (kc c) 0 * (v' (who w c 0) 2%nat * v' (who w c 0) 2%nat) + arm (kc c) 1 * (v' (who w c 1) 2%nat * v' (who w c 1) 2%nat)))%R.
Proof. exact gap_once. Qed.
Print Assumptions C89_step.
(** C89: any number of calls, for any biasFactor *)
Theorem C89_calls :
  forall dbg priv kc kg (dt beta : R) M ts (w : world (RT dbg)) y q v c s, dt <> 0%R -> side priv Optimized Symplectic kc kg beta M w y q v ->
    unsingular Optimized (Some dt : cell (RT dbg)) ts w y M kc -> In c (y_cons y) -> holds (kc c) = true -> turns_within (Some dt : cell (RT dbg)) ts w y c s ->
    exists w' y' q' v', calls_of Optimized (Some dt : cell (RT dbg)) ts w y = Ok (w', y') /\ ends w' y q' v' /\
      (size (gap (kc c) (pose_at w q' c)) <= Rabs (1 - beta) ^ length ts * size (gap (kc c) (pose_at w q c)) +
         dt * dt / 2 * ((arm (kc c) 0 + arm (kc c) 1) * (s * s)) * series (Rabs (1 - beta)) (length ts))%R.
Proof. exact gap_many. Qed.
Print Assumptions C89_calls.
(** C89: a bound that does not grow with the number of calls *)
Theorem C89_settles :
  forall dbg priv kc kg (dt beta : R) M ts (w : world (RT dbg)) y q v c s, dt <> 0%R -> (0 < beta <= 1)%R -> side priv Optimized Symplectic kc kg beta M w y q v ->
    unsingular Optimized (Some dt : cell (RT dbg)) ts w y M kc -> In c (y_cons y) -> holds (kc c) = true -> turns_within (Some dt : cell (RT dbg)) ts w y c s ->
    exists w' y' q' v', calls_of Optimized (Some dt : cell (RT dbg)) ts w y = Ok (w', y') /\ ends w' y q' v' /\
      (size (gap (kc c) (pose_at w q' c)) <= (1 - beta) ^ length ts * size (gap (kc c) (pose_at w q c)) + dt * dt / (2 * beta) * ((arm (kc c) 0 + arm (kc c) 1) * (s * s)))%R.
Proof. exact gap_settles. Qed.
Print Assumptions C89_settles.
(** C89: rotations, and points in the middle of their bodies: exactly a geometric sequence *)
Theorem C89_exact :
  forall dbg priv kc kg (dt beta : R) M ts (w : world (RT dbg)) y q v, dt <> 0%R -> side priv Optimized Symplectic kc kg beta M w y q v ->
    unsingular Optimized (Some dt : cell (RT dbg)) ts w y M kc ->
    exists w' y' q' v', calls_of Optimized (Some dt : cell (RT dbg)) ts w y = Ok (w', y') /\ ends w' y q' v' /\
      forall c, In c (y_cons y) -> holds (kc c) = true -> arm (kc c) 0 = 0%R -> arm (kc c) 1 = 0%R ->
        gap (kc c) (pose_at w q' c) = ((1 - beta) ^ length ts * fst (gap (kc c) (pose_at w q c)), (1 - beta) ^ length ts * snd (gap (kc c) (pose_at w q c)))%R.
Proof. exact gap_exact. Qed.
Print Assumptions C89_exact.
(** a body held at a point off its centre and at an angle, away from both; any biasFactor *)
Example C89_example : forall (beta : R), exists (w : world (RT true)) y, side nopriv Optimized Symplectic kH gH beta MD w y qD vD /\
  (forall h ts, unsingular Optimized h ts w y MD kH) /\ y_cons y = [0; 1] /\
  (forall c h ts, In c (y_cons y) -> exists s, turns_within h ts w y c s) /\
  gap (kH 0) (pose_at w qD 0) = (- (5 / 2), - 4)%R /\ gap (kH 1) (pose_at w qD 1) = (- 2, 0)%R.
Proof. exact held. Qed.
