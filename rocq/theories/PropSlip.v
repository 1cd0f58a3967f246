(** * Rows that do not interact, and slipping: the theorems. *)

From Coq Require Import Reals.
From Verif Require Import Base Targets Sle State Ode Forces Constraints System SpecState SpecForces SpecCon ConFacts SpecSle SpecSys RegWit SpecDyn DynStep SpecSolve SolveWit SpecLaw SpecLimits SpecSub SpecLeast
  SpecSlip SlipStep SlipRun SlipWit.
Local Open Scope nat_scope.

(** C98: with Gauss-Seidel, if no row does anything to another one, every
    multiplier is the wanted one limited to the range of its class; the call
    succeeds in both builds *)
Theorem C98_exact :
  forall dbg priv m (dt : R) t (w : world (RT dbg)) y g (beta tol : R) q v M f kc, let J := fun c j i => J_of (kc c) (pose_at w q c) j i in
    yreach Optimized priv m w y -> y_sle y = Some (SleGs g) -> 2 <= gs_max_iterations g -> gs_min_delta g = Some tol -> (0 < tol)%R ->
    attached w y -> kinds_are w y kc -> all_gentle w y -> body_count y <= 255 -> y_cons y <> [] -> remembers w y ->
    (0 < dt)%R -> y_bias y = Some beta -> bodies_are w y q v M -> pushesR w y (kin_of w) dt f ->
    every_row w y (fun c j => mobility w y M J c j <> 0%R) -> uncoupled w y M J ->
    exists w' y' v' x, process Optimized (Some dt : cell (RT dbg)) 1 t w y = Ok (w', y') /\ remembers w' y' /\
      ends w' y (fun b d => q b d + v' b d * dt)%R v' /\
      as_allowed w y kc q (unbound M f v dt) M beta dt x /\
      (forall b d, In b (y_bodies y) -> d < 3 -> (M b d * (v' b d - v b d) = (f b d + acts w y J x b d) * dt)%R) /\
      reportsR w w' y (fun d c j k => J c j (3 * k + d)%nat * x c j)%R.
Proof. exact @opt_exact. Qed.
Print Assumptions C98_exact.
(** C99: the slip of a friction, clutch or rotor decreases by the limit times
    its give in every call, stops at zero and never reverses *)
Theorem C99_slows :
  forall dbg priv kc kg (dt beta : R) (M : nat -> nat -> R), (0 < dt)%R -> forall ts (w : world (RT dbg)) y q v,
    shop priv kc kg beta M w y q v -> apart w y kc M -> (forall b, In b (y_bodies y) -> (0 < M b 2%nat)%R) ->
    exists w' y' q' v', calls_of Optimized (Some dt : cell (RT dbg)) ts w y = Ok (w', y') /\ ends w' y q' v' /\
      forall c mn mx s, In c (y_cons y) -> unspun w y kg c -> limits_of (kc c) = Some (mn, mx) -> (mn <= 0 <= mx)%R -> slip (kc c) (pose_at w v c) = Some s ->
        let a := (INR (length ts) * (give (kc c) (fun p => M (who w c p) 2%nat) * dt))%R in
        exists s', slip (kc c) (pose_at w v' c) = Some s' /\ ((0 <= s -> s' = Rmax 0 (s + a * mn)) /\ (s <= 0 -> s' = Rmin 0 (s + a * mx)))%R.
Proof. exact @slip_calls. Qed.
Print Assumptions C99_slows.
(** a wheel on an axle with a clutch, a brake and a rotor *)
Example C98_example : forall dbg, exists (w : world (RT dbg)) y, shop nopriv kP gP 1%R MD w y qP vP /\ apart w y kP MD /\ (forall b, In b (y_bodies y) -> (0 < MD b 2%nat)%R) /\
  y_cons y = [0; 1; 2; 3] /\ (forall c, unspun w y gP c) /\ slip (kP 1) (pose_at w vP 1) = Some 6%R /\ slip (kP 2) (pose_at w vP 2) = Some (-6)%R /\ slip (kP 3) (pose_at w vP 3) = Some 6%R.
Proof. exact @workshop. Qed.
Print Assumptions C98_example.
(** nine calls of a tenth of a second, and eighteen *)
Example C99_example : forall dbg t n, exists (w : world (RT dbg)) y w' y' q' v', shop nopriv kP gP 1%R MD w y qP vP /\
  calls_of Optimized (Some (1 / 10)%R : cell (RT dbg)) (repeat t n) w y = Ok (w', y') /\ ends w' y q' v' /\
  (n = 9 -> slip (kP 1) (pose_at w v' 1) = Some 3%R /\ slip (kP 2) (pose_at w v' 2) = Some (- 27 / 5)%R /\ slip (kP 3) (pose_at w v' 3) = Some (57 / 10)%R) /\
  (n = 18 -> slip (kP 1) (pose_at w v' 1) = Some 0%R).
Proof. exact @workshop_slows. Qed.
Print Assumptions C99_example.
