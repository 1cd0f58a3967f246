(** * Property C132: calls of the generic class with a fourth-order solver. *)

From Coq Require Import Reals.
From Verif Require Import Base Targets Sle State Forces Constraints System SpecMatrix SpecState SpecCon SpecSys RegWit SpecDyn SpecSolve SolveWit SpecLaw SpecLeast TurnWit SpecMotor SpecRun MotorWit SpecFour FourReal SpecSpin FourWit.
Local Open Scope nat_scope.

(** C132: a call succeeds; every sub-step is made of four evaluations that obey
    Newton's law and the stabilised constraint equation, with the forces of the
    generators at the place, speed and accelerations of the evaluation *)
Theorem C132_call :
  forall dbg priv kc kg (dt : R) M (w : world (RT dbg)) y q v n t, let h := (dt / INR n)%R in
  let F := fun q v a b d => Lsum (y_gens y) (fun g => pull y M q v a (kg g) b d) in
  stage_four priv kc kg M w y q v -> firm w y M kc -> 0 < n ->
  exists w' y' (qs vs ac : nat -> nat -> nat -> R), process Generic (Some dt : cell (RT dbg)) n t w y = Ok (w', y') /\
    (forall b d, In b (y_bodies y) -> d < 3 -> qs 0 b d = q b d /\ vs 0 b d = v b d /\ ac 0 b d = 0%R) /\
    (forall i, i < n -> sub_four w y kc M F h (qs i) (vs i) (ac i) (qs (S i)) (vs (S i)) (ac (S i))) /\
    ends w' y (qs n) (vs n) /\ stage_four priv kc kg M w' y' (qs n) (vs n) /\ firm w' y' M kc /\
    y_gens y' = y_gens y /\ y_bodies y' = y_bodies y /\ y_cons y' = y_cons y.
Proof. exact @four_call. Qed.
Print Assumptions C132_call.
(** C132: any number of calls of any lengths succeed *)
Theorem C132_calls :
  forall dbg priv kc kg M l (w : world (RT dbg)) y q v,
  stage_four priv kc kg M w y q v -> firm w y M kc -> (forall dt n t, In (dt, n, t) l -> 0 < n) ->
  exists w' y' q' v', plays Generic l w y = Ok (w', y') /\ ends w' y q' v' /\ stage_four priv kc kg M w' y' q' v' /\ firm w' y' M kc.
Proof. exact @four_calls. Qed.
Print Assumptions C132_calls.
(** a motor with damping, gravity and a constraint *)
Example C132_example :
  forall dbg, exists (w : world (RT dbg)) y, stage_four nopriv kT (gM true 5 2 1 3) MD w y qD (vM 1 2) /\ firm w y MD kT /\ y_cons y = [3] /\ y_gens y = [0; 1].
Proof. exact @four_scene. Qed.
Print Assumptions C132_example.
