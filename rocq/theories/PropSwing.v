(** * Properties C101 - C103: constraints of the generic class as springs and dampers. *)

From Coq Require Import Reals.
From Verif Require Import Base Targets Sle State Forces Constraints System SpecMatrix SpecState SpecForces SpecCon ConFacts SpecSys RegWit SpecDyn SpecSolve SolveWit SpecLaw SpecSub SpecLeast SpecDrift SpecSwing
  SwingReal SwingStep SwingEnd SwingWit.
Local Open Scope nat_scope.

(** C101: the accelerations of a step are such that every row misses its aim by
    an amount that obeys g'' = - ks g - kd g' along the motion *)
Theorem C101_springs :
  forall dbg priv z m (dt : R) t (w : world (RT dbg)) y g q v M f kc, let J := fun c j i => J_of (kc c) (pose_at w q c) j i in
    yreach Generic priv m w y -> uses Generic z y -> y_sle y = Some (SleGe g) -> attached w y -> kinds_are w y kc -> all_gentle w y -> body_count y <= 255 -> y_cons y <> [] ->
    bodies_are w y q v M -> pushesR w y (kin_of w) dt f -> regular w y M J ->
    exists w' y' a x, process Generic (Some dt : cell (RT dbg)) 1 t w y = Ok (w', y') /\
      ends w' y (fun b d => q b d + (match z with Symplectic => v b d + a b d * dt | Explicit => v b d end) * dt)%R (fun b d => v b d + a b d * dt)%R /\
      (forall b d, In b (y_bodies y) -> d < 3 -> (M b d * a b d = f b d + acts w y J x b d)%R) /\
      forall c j, In c (y_cons y) -> positional (kc c) = true -> j < rows (kc c) ->
        swings (ks_of (kc c) j) (kd_of (kc c) j) (fun s => miss (kc c) (pose_at w (follows q v a s) c) j).
Proof. exact @spring_step. Qed.
Print Assumptions C101_springs.
(** C102: over any calls, the gap of a constraint that holds centres or angles
    and its rate are those of a spring and damper stepped by the solver, whatever
    else happens in the system *)
Theorem C102_calls :
  forall dbg priv z kc kg (dt beta : R) M ts (w : world (RT dbg)) y q v,
    side priv Generic z kc kg beta M w y q v -> unsingular Generic (Some dt : cell (RT dbg)) ts w y M kc ->
    exists w' y' q' v', calls_of Generic (Some dt : cell (RT dbg)) ts w y = Ok (w', y') /\ ends w' y q' v' /\
      forall c, In c (y_cons y) -> holds (kc c) = true -> arm (kc c) 0 = 0%R -> arm (kc c) 1 = 0%R -> let f := swing z (ks_of (kc c) 0) (kd_of (kc c) 0) dt in
        (fst (gap (kc c) (pose_at w q' c)), fst (drate (kc c) (pose_at w v' c))) = Nat.iter (length ts) f (fst (gap (kc c) (pose_at w q c)), fst (drate (kc c) (pose_at w v c))) /\
        (snd (gap (kc c) (pose_at w q' c)), snd (drate (kc c) (pose_at w v' c))) = Nat.iter (length ts) f (snd (gap (kc c) (pose_at w q c)), snd (drate (kc c) (pose_at w v c))).
Proof. exact @gap_calls. Qed.
Print Assumptions C102_calls.
(** C102: without damping the gap stays within a fixed bound with the symplectic
    solver, if ks dt^2 < 4; with the explicit one its energy grows by the same
    factor in every call *)
Theorem C102_undamped :
  forall dbg priv z kc kg (dt beta : R) M ts (w : world (RT dbg)) y q v,
    side priv Generic z kc kg beta M w y q v -> unsingular Generic (Some dt : cell (RT dbg)) ts w y M kc ->
    exists w' y' q' v', calls_of Generic (Some dt : cell (RT dbg)) ts w y = Ok (w', y') /\ ends w' y q' v' /\
      forall c, In c (y_cons y) -> holds (kc c) = true -> arm (kc c) 0 = 0%R -> arm (kc c) 1 = 0%R -> kd_of (kc c) 0 = 0%R ->
        forall e, e = @fst R R \/ e = @snd R R -> let ks := ks_of (kc c) 0 in
        let g := e (gap (kc c) (pose_at w q c)) in let u := e (drate (kc c) (pose_at w v c)) in
        let g' := e (gap (kc c) (pose_at w q' c)) in let u' := e (drate (kc c) (pose_at w v' c)) in
        match z with
        | Symplectic => u' * u' + ks * (g' * g') - dt * ks * (g' * u') = u * u + ks * (g * g) - dt * ks * (g * u) /\
            ks * (1 - ks * (dt * dt) / 4) * (g' * g') <= u * u + ks * (g * g) - dt * ks * (g * u)
        | Explicit => u' * u' + ks * (g' * g') = (1 + ks * (dt * dt)) ^ length ts * (u * u + ks * (g * g))
        end%R.
Proof. exact @undamped_calls. Qed.
Print Assumptions C102_undamped.
(** C103: constraints without a position are dampers: the speed they brake
    shrinks by 1 - kd dt in every call *)
Theorem C103_dampers :
  forall dbg priv z kc kg (dt beta : R) M ts (w : world (RT dbg)) y q v,
    side priv Generic z kc kg beta M w y q v -> unsingular Generic (Some dt : cell (RT dbg)) ts w y M kc ->
    exists w' y' q' v', calls_of Generic (Some dt : cell (RT dbg)) ts w y = Ok (w', y') /\ ends w' y q' v' /\
      forall c s, In c (y_cons y) -> turning (kc c) (pose_at w v c) = Some s -> turning (kc c) (pose_at w v' c) = Some (s * (1 - kd_of (kc c) 0%nat * dt) ^ length ts)%R.
Proof. exact @damper_calls. Qed.
Print Assumptions C103_dampers.
(** bodies held at their centres and at an angle, and a brake *)
Example C101_example : forall dbg z, exists (w : world (RT dbg)) y, side nopriv Generic z kS gS 1%R MD w y qS vS /\ (forall dt ts, unsingular Generic (dt : cell (RT dbg)) ts w y MD kS) /\ y_cons y = [0; 1; 2; 3] /\
  gap (kS 0) (pose_at w qS 0) = (-1, -2)%R /\ turning (kS 2) (pose_at w vS 2) = Some 8%R /\ drate (kS 3) (pose_at w vS 3) = (1, 0)%R.
Proof. exact @sprung. Qed.
Print Assumptions C101_example.
(** n calls of a hundredth of a second *)
Example C102_example : forall dbg z t n, exists (w : world (RT dbg)) y w' y' q' v', side nopriv Generic z kS gS 1%R MD w y qS vS /\
  calls_of Generic (Some (1 / 100)%R : cell (RT dbg)) (repeat t n) w y = Ok (w', y') /\ ends w' y q' v' /\
  turning (kS 2) (pose_at w v' 2) = Some (8 * (99 / 100) ^ n)%R /\
  let g := fst (gap (kS 0) (pose_at w q' 0)) in let u := fst (drate (kS 0) (pose_at w v' 0)) in
  match z with Symplectic => g * g <= 400 / 399 | Explicit => u * u + 100 * (g * g) = 100 * (101 / 100) ^ n end%R.
Proof. exact @sprung_calls. Qed.
Print Assumptions C102_example.
