(** * Property C133: motors in the fourth-order scheme. *)

From Coq Require Import Reals.
From Verif Require Import Base Targets State Forces Constraints System SpecState SpecSys RegWit SpecDyn SpecMotor SpecRk SpecRun SpecSpin SpinReal SpinEnd FourWit SpinWit.
Local Open Scope nat_scope.

(** C133: in calls that succeed the missing speed follows the four stages of the
    scheme with the torque ks e - kd a, cut off at the largest torque, where a is
    the relative acceleration of the evaluation before; what one body gains in
    angular momentum the other one loses *)
Theorem C133_calls :
  forall dbg priv l (w : world (RT dbg)) y w' y' g b0 b1 (sp ks kd mx v0 v1 r0 r1 : R), driven_four priv w y g b0 b1 sp ks kd mx -> (0 <= mx)%R -> (forall dt n t, In (dt, n, t) l -> 0 < n) ->
  plays Generic l w y = Ok (w', y') -> turns w y b0 v0 r0 -> turns w y b1 v1 r1 ->
  exists v0' v1', turns w' y' b0 v0' r0 /\ turns w' y' b1 v1' r1 /\ (r1 * (v0' - v0) = - (r0 * (v1' - v1)))%R /\ (sp - (v1' - v0') = spins ks kd mx (r1 + r0) l (sp - (v1 - v0)))%R.
Proof. exact @spin_calls. Qed.
Print Assumptions C133_calls.
(** C133: without damping it never goes beyond its speed nor back, if ks r h <= 2 *)
Theorem C133_steady :
  forall dbg priv (dt : R) n ts (w : world (RT dbg)) y w' y' g b0 b1 (sp ks mx v0 v1 r0 r1 : R), driven_four priv w y g b0 b1 sp ks 0 mx ->
  turns w y b0 v0 r0 -> turns w y b1 v1 r1 -> plays Generic (map (fun t => (dt, n, t)) ts) w y = Ok (w', y') -> 0 < n -> (0 <= mx -> 0 <= ks -> 0 <= (r1 + r0) * (dt / INR n) -> ks * ((r1 + r0) * (dt / INR n)) <= 2 ->
  exists v0' v1', turns w' y' b0 v0' r0 /\ turns w' y' b1 v1' r1 /\
    (v1 - v0 <= sp -> v1 - v0 <= v1' - v0' <= sp) /\ (sp <= v1 - v0 -> sp <= v1' - v0' <= v1 - v0))%R.
Proof. exact @spin_steady. Qed.
Print Assumptions C133_steady.
(** C133: while the torque is not cut off the missing speed falls as the
    exponential function does, up to z^5 / 120 in every sub-step *)
Theorem C133_exponential :
  forall dbg priv (dt : R) n ts (w : world (RT dbg)) y w' y' g b0 b1 (sp ks mx v0 v1 r0 r1 : R), driven_four priv w y g b0 b1 sp ks 0 mx ->
  turns w y b0 v0 r0 -> turns w y b1 v1 r1 -> plays Generic (map (fun t => (dt, n, t)) ts) w y = Ok (w', y') -> 0 < n -> let z := (ks * ((r1 + r0) * (dt / INR n)))%R in
  (0 <= mx -> 0 <= ks -> 0 <= (r1 + r0) * (dt / INR n) -> z <= 2 -> Rabs (ks * (sp - (v1 - v0))) <= mx ->
  exists v0' v1' rho, turns w' y' b0 v0' r0 /\ turns w' y' b1 v1' r1 /\ sp - (v1' - v0') = rho * (sp - (v1 - v0)) /\
    let e := exp (- (ks * ((r1 + r0) * (INR (length ts) * dt)))) in e <= rho <= e + INR (n * length ts) * (z ^ 5 / 120))%R.
Proof. exact @spin_exp. Qed.
Print Assumptions C133_exponential.
(** C133: it reaches its speed, if 0 < ks r h <= 2 *)
Theorem C133_reached :
  forall dbg priv (dt : R) n (w : world (RT dbg)) y g b0 b1 (sp ks mx v0 v1 r0 r1 eps : R), driven_four priv w y g b0 b1 sp ks 0 mx -> turns w y b0 v0 r0 -> turns w y b1 v1 r1 -> 0 < n ->
  (0 < mx -> 0 < ks -> 0 < ks * ((r1 + r0) * (dt / INR n)) <= 2 -> 0 < eps ->
  exists N, forall ts w' y', (N <= length ts)%nat -> plays Generic (map (fun t => (dt, n, t)) ts) w y = Ok (w', y') ->
    exists v0' v1', turns w' y' b0 v0' r0 /\ turns w' y' b1 v1' r1 /\ Rabs (sp - (v1' - v0')) < eps)%R.
Proof. exact @spin_reached. Qed.
Print Assumptions C133_reached.
(** a motor between two bodies, or between a body and one that is in no system;
    all calls succeed *)
Example C133_example :
  forall dbg (inside : bool) (sp ks kd mx v0 v1 : R), (0 <= mx)%R -> let b0 := if inside then 7 else 9 in
  exists (w : world (RT dbg)) y, driven_four nopriv w y 0 b0 6 sp ks kd mx /\ turns w y b0 (if inside then v0 else 0%R) (if inside then / 3 else 0)%R /\ turns w y 6 v1 (/ 3)%R /\
    forall l, (forall dt n t, In (dt, n, t) l -> 0 < n) -> exists w' y', plays Generic l w y = Ok (w', y').
Proof. exact @spin_works. Qed.
Print Assumptions C133_example.
(** C133: the motor of C105_refuted, which swings between 0 and twice its speed
    for ever in the other schemes, reaches its speed in this one *)
Theorem C133_calm :
  forall dbg (eps : R), (0 < eps)%R ->
  exists (w : world (RT dbg)) y, driven_four nopriv w y 0 9 6 1%R 6%R 0%R 6%R /\ turns w y 9 0%R 0%R /\ turns w y 6 0%R (/ 3)%R /\
    exists N, forall ts, (N <= length ts)%nat -> exists w' y' v', plays Generic (map (fun t => (1%R, 1, t)) ts) w y = Ok (w', y') /\ turns w' y' 6 v' (/ 3)%R /\ (Rabs (1 - v') < eps)%R.
Proof. exact @calm_world. Qed.
Print Assumptions C133_calm.
