(** * Property C107: calls of several sub-steps. *)

From Coq Require Import Reals.
From Verif Require Import Base Targets Sle State Forces Constraints System SpecMatrix SpecState SpecForces SpecCon ConFacts SpecSys RegWit SpecDyn SpecSolve SolveWit SpecLaw SpecSub SpecLeast SpecDrift SpecSwing SpecMotor SpecRun
  SwingWit RunStep RunGap RunGaps RunWit.
Local Open Scope nat_scope.

(** C107: a call of n sub-steps succeeds and is n steps, each with the forces
    that the generators exert in the state it starts from and the accelerations
    of the sub-step before, with Newton's law and the law of every row *)
Theorem C107_call :
  forall dbg priv k z kc kg (beta dt : R) M (w : world (RT dbg)) y q v n t, let h := (dt / INR n)%R in
    let F := fun q v a b d => Lsum (y_gens y) (fun g => pull y M q v a (kg g) b d) in
    stage priv k z kc kg beta M w y q v -> firm w y M kc -> dt <> 0%R -> 0 < n ->
    exists w' y' (qs vs ac : nat -> nat -> nat -> R), process k (Some dt : cell (RT dbg)) n t w y = Ok (w', y') /\
      (forall b d, In b (y_bodies y) -> d < 3 -> qs 0 b d = q b d /\ vs 0 b d = v b d /\ ac 0 b d = 0%R) /\
      (forall i, i < n -> sub_step k z w y kc beta M h (F (qs i) (vs i) (ac i)) (qs i) (vs i) (qs (S i)) (vs (S i)) (ac (S i))) /\
      ends w' y (qs n) (vs n) /\ stage priv k z kc kg beta M w' y' (qs n) (vs n) /\ firm w' y' M kc /\
      y_gens y' = y_gens y /\ y_bodies y' = y_bodies y /\ y_cons y' = y_cons y.
Proof. exact @run_call. Qed.
Print Assumptions C107_call.
(** C107: so any calls, of any lengths and numbers of sub-steps, succeed *)
Theorem C107_calls :
  forall dbg priv k z kc kg (beta : R) M l (w : world (RT dbg)) y q v,
    stage priv k z kc kg beta M w y q v -> firm w y M kc -> (forall dt n t, In (dt, n, t) l -> dt <> 0%R /\ 0 < n) ->
    exists w' y' q' v', plays k l w y = Ok (w', y') /\ ends w' y q' v' /\ stage priv k z kc kg beta M w' y' q' v' /\ firm w' y' M kc.
Proof. exact @run_calls. Qed.
Print Assumptions C107_calls.
(** C107: in the optimized class the gap of a constraint that holds centres or
    angles shrinks by 1 - beta in every sub-step of every call *)
Theorem C107_gaps :
  forall dbg priv kc kg (beta : R) M l (w : world (RT dbg)) y q v,
    stage priv Optimized Symplectic kc kg beta M w y q v -> firm w y M kc -> (forall dt n t, In (dt, n, t) l -> dt <> 0%R /\ 0 < n) ->
    exists w' y' q' v', plays Optimized l w y = Ok (w', y') /\ ends w' y q' v' /\
      forall c, In c (y_cons y) -> holds (kc c) = true -> arm (kc c) 0 = 0%R -> arm (kc c) 1 = 0%R -> let f := ((1 - beta) ^ subs l)%R in
        gap (kc c) (pose_at w q' c) = (f * fst (gap (kc c) (pose_at w q c)), f * snd (gap (kc c) (pose_at w q c)))%R.
Proof. exact @gap_plays. Qed.
Print Assumptions C107_gaps.
(** C107: in the generic class it is a spring and damper, stepped once per
    sub-step *)
Theorem C107_swings :
  forall dbg priv z kc kg (beta dt : R) M (w : world (RT dbg)) y q v n t, let h := (dt / INR n)%R in
    stage priv Generic z kc kg beta M w y q v -> firm w y M kc -> dt <> 0%R -> 0 < n ->
    exists w' y' q' v', process Generic (Some dt : cell (RT dbg)) n t w y = Ok (w', y') /\ ends w' y q' v' /\
      (forall c, In c (y_cons y) -> holds (kc c) = true -> arm (kc c) 0 = 0%R -> arm (kc c) 1 = 0%R -> let f := swing z (ks_of (kc c) 0) (kd_of (kc c) 0) h in
        (fst (gap (kc c) (pose_at w q' c)), fst (drate (kc c) (pose_at w v' c))) = Nat.iter n f (fst (gap (kc c) (pose_at w q c)), fst (drate (kc c) (pose_at w v c))) /\
        (snd (gap (kc c) (pose_at w q' c)), snd (drate (kc c) (pose_at w v' c))) = Nat.iter n f (snd (gap (kc c) (pose_at w q c)), snd (drate (kc c) (pose_at w v c)))) /\
      forall c s, In c (y_cons y) -> turning (kc c) (pose_at w v c) = Some s -> turning (kc c) (pose_at w v' c) = Some (s * (1 - kd_of (kc c) 0 * h) ^ n)%R.
Proof. exact @swing_call. Qed.
Print Assumptions C107_swings.
(** C107: and its brakes act in every sub-step of every call *)
Theorem C107_brakes :
  forall dbg priv z kc kg (beta : R) M l (w : world (RT dbg)) y q v,
    stage priv Generic z kc kg beta M w y q v -> firm w y M kc -> (forall dt n t, In (dt, n, t) l -> dt <> 0%R /\ 0 < n) ->
    exists w' y' q' v', plays Generic l w y = Ok (w', y') /\ ends w' y q' v' /\
      forall c s, In c (y_cons y) -> turning (kc c) (pose_at w v c) = Some s -> turning (kc c) (pose_at w v' c) = Some (s * brakes (kd_of (kc c) 0) l)%R.
Proof. exact @turning_plays. Qed.
Print Assumptions C107_brakes.
(** four bodies, four constraints, gravity, a spring and a motor *)
Example C107_example :
  forall dbg k z, let z' := match k with Optimized => Symplectic | Generic => z end in
  exists (w : world (RT dbg)) y, stage nopriv k z' kS gR 1%R MD w y qS vS /\ firm w y MD kS /\ y_bodies y = [0; 1; 2; 3] /\ y_cons y = [0; 1; 2; 3] /\ y_gens y = [0; 1; 2] /\
    gap (kS 0) (pose_at w qS 0) = (-1, -2)%R /\ turning (kS 2) (pose_at w vS 2) = Some 8%R.
Proof. exact @run_scene. Qed.
Print Assumptions C107_example.
Example C107_runs :
  forall dbg k z l, (forall dt n t, In (dt, n, t) l -> dt <> 0%R /\ 0 < n) -> exists (w : world (RT dbg)) y w' y' q' v',
    y_cons y = [0; 1; 2; 3] /\ y_gens y = [0; 1; 2] /\ plays k l w y = Ok (w', y') /\ ends w' y q' v' /\ firm w' y' MD kS /\
    stage nopriv k (match k with Optimized => Symplectic | Generic => z end) kS gR 1%R MD w' y' q' v'.
Proof. exact @run_plays. Qed.
Print Assumptions C107_runs.
