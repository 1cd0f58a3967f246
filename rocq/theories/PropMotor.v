(** * Properties C104 - C106: motors. *)

From Coq Require Import Reals.
From Verif Require Import Base Targets Sle State Forces Constraints System SpecMatrix SpecState SpecCon SpecSys RegWit SpecDyn SpecSolve SolveWit SpecLaw SpecSub SpecLeast TurnWit SpecMotor SpecRun
  MotorReal MotorWit MotorEnd.
Local Open Scope nat_scope.

(** C104: in a call of n sub-steps the missing speed e of a motor goes through
    e - L r h with the torque L = ks e - kd a, cut off at the largest torque,
    where a is the relative acceleration of the sub-step before; what one body
    gains in angular momentum the other one loses *)
Theorem C104_call :
  forall dbg priv k z m (dt : R) n t (w : world (RT dbg)) y w' y' g b0 b1 (sp ks kd mx v0 v1 r0 r1 : R),
    yreach k priv m w y -> attached w y -> shaped w y -> uses k z y ->
    process k (Some dt : cell (RT dbg)) n t w y = Ok (w', y') -> 0 < n -> In b1 (y_bodies y) -> b0 <> b1 -> (0 <= mx)%R ->
    motor_on w y g b0 b1 sp ks kd mx -> turns w y b0 v0 r0 -> turns w y b1 v1 r1 ->
    exists v0' v1', turns w' y' b0 v0' r0 /\ turns w' y' b1 v1' r1 /\ (r1 * (v0' - v0) = - (r0 * (v1' - v1)))%R /\
      (sp - (v1' - v0'))%R = fst (Nat.iter n (spin_up ks kd mx (r1 + r0) (dt / INR n)) (sp - (v1 - v0), 0)%R).
Proof. exact @motor_call. Qed.
Print Assumptions C104_call.
(** C104: over calls of one sub-step; the damping has no effect *)
Theorem C104_calls :
  forall dbg priv k z (dt : R) ts m (w : world (RT dbg)) y w' y' g b0 b1 (sp ks kd mx v0 v1 r0 r1 : R),
    yreach k priv m w y -> attached w y -> shaped w y -> uses k z y ->
    calls_of k (Some dt : cell (RT dbg)) ts w y = Ok (w', y') -> In b1 (y_bodies y) -> b0 <> b1 -> (0 <= mx)%R ->
    motor_on w y g b0 b1 sp ks kd mx -> turns w y b0 v0 r0 -> turns w y b1 v1 r1 ->
    exists v0' v1', turns w' y' b0 v0' r0 /\ turns w' y' b1 v1' r1 /\ (r1 * (v0' - v0) = - (r0 * (v1' - v1)))%R /\
      (sp - (v1' - v0') = Nat.iter (length ts) (fun e => e - cut mx (ks * e) * (r1 + r0) * dt) (sp - (v1 - v0)))%R.
Proof. exact @motor_calls. Qed.
Print Assumptions C104_calls.
(** a motor between two bodies of a system, or between a body and one that is in
    no system, beside a constraint; all calls succeed *)
Example C104_example :
  forall dbg k z (inside : bool) (sp ks kd mx v0 v1 : R), (0 <= mx)%R -> let b0 := if inside then 7 else 9 in let z' := match k with Optimized => Symplectic | Generic => z end in
  exists m (w : world (RT dbg)) y, yreach k nopriv m w y /\ attached w y /\ shaped w y /\ uses k z' y /\ In 6 (y_bodies y) /\
    motor_on w y 0 b0 6 sp ks kd mx /\ turns w y b0 (if inside then v0 else 0%R) (if inside then / 3 else 0)%R /\ turns w y 6 v1 (/ 3)%R /\
    y_cons y = [3] /\ y_gens y = [0; 1] /\
    stage nopriv k z' kT (gM inside sp ks kd mx) 1%R MD w y qD (vM v0 v1) /\ firm w y MD kT /\
    (forall (dt : R) n t, dt <> 0%R -> 0 < n -> exists w' y', process k (Some dt : cell (RT dbg)) n t w y = Ok (w', y')) /\
    forall (dt : R) ts, dt <> 0%R -> exists w' y', calls_of k (Some dt : cell (RT dbg)) ts w y = Ok (w', y').
Proof. exact @motor_scene. Qed.
Print Assumptions C104_example.

(** C105: a motor with a gain ks and a largest torque reaches its speed, if
    ks r dt < 2 *)
Theorem C105_reached_partial :
  forall dbg priv k z (dt : R) (w : world (RT dbg)) y g b0 b1 (sp ks kd mx v0 v1 r0 r1 eps : R), driven priv k z w y g b0 b1 sp ks kd mx ->
    turns w y b0 v0 r0 -> turns w y b1 v1 r1 -> (0 < mx -> 0 < ks -> 0 < ks * ((r1 + r0) * dt) < 2 -> 0 < eps ->
    exists N, forall ts w' y', (N <= length ts)%nat -> calls_of k (Some dt : cell (RT dbg)) ts w y = Ok (w', y') ->
      exists v0' v1', turns w' y' b0 v0' r0 /\ turns w' y' b1 v1' r1 /\ Rabs (sp - (v1' - v0')) < eps)%R.
Proof. exact @speed_reached. Qed.
Print Assumptions C105_reached_partial.
(** C105: it never goes beyond its speed nor back, if ks r dt <= 1 *)
Theorem C105_steady_partial :
  forall dbg priv k z (dt : R) ts (w : world (RT dbg)) y w' y' g b0 b1 (sp ks kd mx v0 v1 r0 r1 : R), driven priv k z w y g b0 b1 sp ks kd mx ->
    turns w y b0 v0 r0 -> turns w y b1 v1 r1 -> calls_of k (Some dt : cell (RT dbg)) ts w y = Ok (w', y') -> (0 <= mx -> 0 <= ks -> 0 <= (r1 + r0) * dt -> ks * ((r1 + r0) * dt) <= 1 ->
    exists v0' v1', turns w' y' b0 v0' r0 /\ turns w' y' b1 v1' r1 /\
      (v1 - v0 <= sp -> v1 - v0 <= v1' - v0' <= sp) /\ (sp <= v1 - v0 -> sp <= v1' - v0' <= v1 - v0))%R.
Proof. exact @speed_steady. Qed.
Print Assumptions C105_steady_partial.
(** C105: while its torque is not cut off, the missing speed is multiplied by
    1 - ks r dt in every call *)
Theorem C105_power_partial :
  forall dbg priv k z (dt : R) ts (w : world (RT dbg)) y w' y' g b0 b1 (sp ks kd mx v0 v1 r0 r1 : R), driven priv k z w y g b0 b1 sp ks kd mx ->
    turns w y b0 v0 r0 -> turns w y b1 v1 r1 -> calls_of k (Some dt : cell (RT dbg)) ts w y = Ok (w', y') -> (0 <= mx -> 0 <= ks * ((r1 + r0) * dt) <= 2 -> Rabs (ks * (sp - (v1 - v0))) <= mx ->
    exists v0' v1', turns w' y' b0 v0' r0 /\ turns w' y' b1 v1' r1 /\ sp - (v1' - v0') = (1 - ks * ((r1 + r0) * dt)) ^ length ts * (sp - (v1 - v0)))%R.
Proof. exact @speed_power. Qed.
Print Assumptions C105_power_partial.
(** C105: with ks r dt = 2 a motor swings between 0 and twice its speed for ever *)
Theorem C105_refuted :
  forall dbg k z, let z' := match k with Optimized => Symplectic | Generic => z end in
  exists (w : world (RT dbg)) y, driven nopriv k z' w y 0 9 6 1%R 6%R 0%R 6%R /\ turns w y 9 0%R 0%R /\ turns w y 6 0%R (/ 3)%R /\
    forall ts, exists w' y' v', calls_of k (Some 1%R : cell (RT dbg)) ts w y = Ok (w', y') /\ turns w' y' 6 v' (/ 3)%R /\ Rabs (1 - v') = 1%R.
Proof. exact @chatter_world. Qed.
Print Assumptions C105_refuted.

(** C106: without damping, a call of n sub-steps acts as n calls of one *)
Theorem C106_undamped_partial :
  forall dbg priv k z (dt : R) n t (w : world (RT dbg)) y w' y' g b0 b1 (sp ks mx v0 v1 r0 r1 : R), driven priv k z w y g b0 b1 sp ks 0 mx ->
    turns w y b0 v0 r0 -> turns w y b1 v1 r1 -> process k (Some dt : cell (RT dbg)) n t w y = Ok (w', y') -> (0 < n)%nat -> (0 <= mx)%R -> let h := (dt / INR n)%R in
    exists v0' v1', turns w' y' b0 v0' r0 /\ turns w' y' b1 v1' r1 /\ (sp - (v1' - v0'))%R = Nat.iter n (fun e => e - cut mx (ks * e) * ((r1 + r0) * h))%R (sp - (v1 - v0))%R.
Proof. exact @speed_undamped. Qed.
Print Assumptions C106_undamped_partial.
(** C106: with damping, every other sub-step can undo the one before: whatever
    the lengths of the calls, two bodies at rest stay at rest against each other
    although the motor should turn them *)
Theorem C106_refuted :
  forall dbg k z, let z' := match k with Optimized => Symplectic | Generic => z end in
  exists (w : world (RT dbg)) y, driven nopriv k z' w y 0 7 6 1%R 1%R 6%R 1%R /\ turns w y 7 0%R (/ 3)%R /\ turns w y 6 0%R (/ 3)%R /\
    forall l, (forall dt n t, In (dt, n, t) l -> (0 < dt)%R /\ exists i, 0 < i /\ n = 2 * i) ->
      exists w' y' v, plays k l w y = Ok (w', y') /\ turns w' y' 7 v (/ 3)%R /\ turns w' y' 6 v (/ 3)%R.
Proof. exact @stall_world. Qed.
Print Assumptions C106_refuted.
