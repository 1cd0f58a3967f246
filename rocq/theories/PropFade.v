(** * Property C136: constraints of the generic class against the exact motion. *)

From Coq Require Import Reals.
From Verif Require Import Base Targets State Forces Constraints System SpecMatrix SpecState SpecForces SpecCon SpecSys RegWit SpecDyn SpecSolve SolveWit SpecLaw SpecSub SpecLeast SpecDrift SpecSwing MomWit SpecOsc SpecFade.
From Verif Require FadeReal FadeRun FadeWit.
Local Open Scope R_scope.

(** C136: with ks = mu^2 + nu^2 = om^2 and kd = 2 mu, the gap of a constraint
    that holds centres or angles and its rate are after n calls within
    exp(- mu n dt) (exp(n q) - 1) times the amplitude of the exact motion, with
    q = 7 (om dt)^2 om / nu, whatever else happens in the system *)
Theorem C136_damped :
  forall dbg priv z kc kg (dt beta : R) M ts (w : world (RT dbg)) y q v,
  side priv Generic z kc kg beta M w y q v -> unsingular Generic (Some dt : cell (RT dbg)) ts w y M kc -> 0 <= dt ->
  exists w' y' q' v', calls_of Generic (Some dt : cell (RT dbg)) ts w y = Ok (w', y') /\ ends w' y q' v' /\
    forall c mu nu om, In c (y_cons y) -> holds (kc c) = true -> arm (kc c) 0%nat = 0 -> arm (kc c) 1%nat = 0 -> ks_of (kc c) 0%nat = om * om -> kd_of (kc c) 0%nat = 2 * mu ->
      mu * mu + nu * nu = om * om -> 0 <= mu -> 0 < nu -> 0 <= om -> om * dt <= 1 -> forall e, e = @fst R R \/ e = @snd R R ->
      let n := INR (length ts) in let x := (e (gap (kc c) (pose_at w q c)), e (drate (kc c) (pose_at w v c))) in let x' := (e (gap (kc c) (pose_at w q' c)), e (drate (kc c) (pose_at w v' c))) in
      let d := exp (- (mu * (n * dt))) * (exp (n * (7 * (om * dt * (om * dt)) * (om / nu))) - 1) in
      apart2 mu nu x' (fades mu nu (n * dt) x) <= d * d * ampl2 mu nu x.
Proof. exact @FadeRun.fade_calls. Qed.
Print Assumptions C136_damped.
(** C136: without damping within exp(n q) - 1 times it, with q = (om dt)^2 *)
Theorem C136_undamped :
  forall dbg priv z kc kg (dt beta : R) M ts (w : world (RT dbg)) y q v,
  side priv Generic z kc kg beta M w y q v -> unsingular Generic (Some dt : cell (RT dbg)) ts w y M kc -> 0 <= dt ->
  exists w' y' q' v', calls_of Generic (Some dt : cell (RT dbg)) ts w y = Ok (w', y') /\ ends w' y q' v' /\
    forall c om, In c (y_cons y) -> holds (kc c) = true -> arm (kc c) 0%nat = 0 -> arm (kc c) 1%nat = 0 -> ks_of (kc c) 0%nat = om * om -> kd_of (kc c) 0%nat = 0 ->
      0 < om -> om * dt <= 1 -> forall e, e = @fst R R \/ e = @snd R R ->
      let n := INR (length ts) in let x := (e (gap (kc c) (pose_at w q c)), e (drate (kc c) (pose_at w v c))) in let x' := (e (gap (kc c) (pose_at w q' c)), e (drate (kc c) (pose_at w v' c))) in
      let d := exp (n * (om * dt * (om * dt))) - 1 in
      gap2 om x' (oscillates om (n * dt) x) <= d * d * energy2 om x.
Proof. exact @FadeRun.undamped_near. Qed.
Print Assumptions C136_undamped.
(** C136: the speed that a constraint without a position brakes is multiplied by
    the exponential, up to n (kd dt)^2 / 2 *)
Theorem C136_brakes :
  forall dbg priv z kc kg (dt beta : R) M ts (w : world (RT dbg)) y q v,
  side priv Generic z kc kg beta M w y q v -> unsingular Generic (Some dt : cell (RT dbg)) ts w y M kc ->
  exists w' y' q' v', calls_of Generic (Some dt : cell (RT dbg)) ts w y = Ok (w', y') /\ ends w' y q' v' /\
    forall c s, In c (y_cons y) -> turning (kc c) (pose_at w v c) = Some s -> let kd := kd_of (kc c) 0%nat in let n := INR (length ts) in 0 <= kd * dt <= 1 ->
      exists rho, turning (kc c) (pose_at w v' c) = Some (s * rho) /\ 0 <= exp (- (kd * (n * dt))) - rho <= n * ((kd * dt) * (kd * dt) / 2).
Proof. exact @FadeRun.fade_brakes. Qed.
Print Assumptions C136_brakes.
(** C136: calls that last t together come as close to the exact motion as
    wanted, if there are enough of them *)
Theorem C136_converges :
  forall dbg priv z kc kg (beta t eps mu nu om g u : R) M c,
  holds (kc c) = true -> arm (kc c) 0%nat = 0 -> arm (kc c) 1%nat = 0 -> ks_of (kc c) 0%nat = om * om -> kd_of (kc c) 0%nat = 2 * mu ->
  mu * mu + nu * nu = om * om -> 0 <= mu -> 0 < nu -> 0 <= om -> 0 <= t -> 0 < eps ->
  exists N, forall ts (w : world (RT dbg)) y q v e, (N <= length ts)%nat -> side priv Generic z kc kg beta M w y q v -> let dt := t / INR (length ts) in unsingular Generic (Some dt : cell (RT dbg)) ts w y M kc -> In c (y_cons y) ->
    e = @fst R R \/ e = @snd R R -> e (gap (kc c) (pose_at w q c)) = g -> e (drate (kc c) (pose_at w v c)) = u ->
    exists w' y' q' v', calls_of Generic (Some dt : cell (RT dbg)) ts w y = Ok (w', y') /\ ends w' y q' v' /\
      apart2 mu nu (e (gap (kc c) (pose_at w q' c)), e (drate (kc c) (pose_at w v' c))) (fades mu nu t (g, u)) < eps.
Proof. exact @FadeRun.fade_converges. Qed.
Print Assumptions C136_converges.
(** the exact motion is the solution of g'' = - (mu^2 + nu^2) g - 2 mu g' *)
Theorem C136_exact :
  forall mu nu x, nu <> 0 -> fades mu nu 0 x = x /\
  forall t, derivable_pt_lim (fun t => fst (fades mu nu t x)) t (snd (fades mu nu t x)) /\
    derivable_pt_lim (fun t => snd (fades mu nu t x)) t (- ((mu * mu + nu * nu) * fst (fades mu nu t x)) - 2 * mu * snd (fades mu nu t x)).
Proof. exact FadeReal.fade_exact. Qed.
Print Assumptions C136_exact.
(** bodies held at their centres with a damper and at an angle, and a brake *)
Example C136_scene :
  forall dbg z, exists (w : world (RT dbg)) y, side nopriv Generic z FadeWit.kF FadeWit.gF 1%R MD w y FadeWit.qF FadeWit.vF /\ (forall dt ts, unsingular Generic (dt : cell (RT dbg)) ts w y MD FadeWit.kF) /\ y_cons y = [0; 1; 2; 3]%nat /\
  gap (FadeWit.kF 0) (pose_at w FadeWit.qF 0) = (-1, -2)%R /\ turning (FadeWit.kF 2) (pose_at w FadeWit.vF 2) = Some 8%R /\ drate (FadeWit.kF 3) (pose_at w FadeWit.vF 3) = (1, 0)%R.
Proof. exact @FadeWit.faded. Qed.
Print Assumptions C136_scene.
(** n calls of a hundredth of a second, mu = 6, nu = 8, om = 10 *)
Example C136_example :
  forall dbg z (t : timing) n, exists (w : world (RT dbg)) y w' y' q' v', side nopriv Generic z FadeWit.kF FadeWit.gF 1%R MD w y FadeWit.qF FadeWit.vF /\
  calls_of Generic (Some (1 / 100)%R : cell (RT dbg)) (repeat t n) w y = Ok (w', y') /\ ends w' y q' v' /\
  (let s := INR n * (1 / 100) in let x' := (fst (gap (FadeWit.kF 0%nat) (pose_at w q' 0%nat)), fst (drate (FadeWit.kF 0%nat) (pose_at w v' 0%nat))) in let d := exp (- (6 * s)) * (exp (INR n * (7 * (1 / 100) * (10 / 8))) - 1) in
   apart2 6 8 x' (fades 6 8 s (-1, 0)) <= d * d * 100)%R.
Proof. exact @FadeWit.faded_calls. Qed.
Print Assumptions C136_example.
