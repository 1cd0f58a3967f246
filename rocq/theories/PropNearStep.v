(** * Property C131: steps of the optimized class with Gauss-Seidel satisfy every row up to the tolerance. *)

From Coq Require Import Reals.
From Verif Require Import Base Targets Matrix Sparse Sle State Ode Forces Constraints System SpecMatrix SpecState SpecForces SpecCon
  SpecSle SpecSys SpecDyn SpecSolve SpecLaw SpecLimits SpecOde SpecMom ConFacts SpecNear.
From Verif Require NearStep NearEnough.
From Verif Require Import RegWit DynForce DynWit NearEnoughWit.
Local Open Scope nat_scope.

(** C131: a debug build, where the solver's verdict is asserted; any number of sub-steps:
    every sub-step of a call that returns satisfies every row up to the tolerance *)
Theorem C131_motion :
  forall (dbg : bool) priv m (dt : R) n t (w : world (RT dbg)) (y : sys (RT dbg)) w' y' (g : gs_solver (RT dbg)) (beta tol : R) q v M,
  dbg = true -> yreach Optimized priv m w y -> attached w y -> shaped w y -> all_gentle w y -> body_count y <= 255 ->
  y_sle y = Some (SleGs g) -> gs_min_delta g = Some tol -> (0 < tol < 1)%R -> (0 < dt)%R -> 0 < n -> y_bias y = Some beta -> bodies_are w y q v M ->
  process Optimized (Some dt : cell (RT dbg)) n t w y = Ok (w', y') ->
  exists K F, motion_by (near_round w y (dt / INR n) beta tol M) Symplectic w y (Some (dt / INR n)%R : cell (RT dbg)) n (kin_of w) K F /\ arrives w' y K /\ reports w w' y F.
Proof. exact @NearStep.opt_near_motion. Qed.
Print Assumptions C131_motion.

(** C131, one sub-step: the velocities after the call, Newton's law and the reported forces *)
Theorem C131_step :
  forall (dbg : bool) priv m (dt : R) t (w : world (RT dbg)) (y : sys (RT dbg)) w' y' (g : gs_solver (RT dbg)) (beta tol : R) q v M f L J C vb lo hi,
  dbg = true -> yreach Optimized priv m w y -> attached w y -> shaped w y -> all_gentle w y -> body_count y <= 255 ->
  y_sle y = Some (SleGs g) -> gs_min_delta g = Some tol -> (0 < tol < 1)%R -> (0 < dt)%R -> y_bias y = Some beta -> bodies_are w y q v M ->
  answers w y (kin_of w) (Some dt : cell (RT dbg)) L -> rows_are w y (l_J L) J -> row_is w y (l_C L) C -> row_is w y (l_vb L) vb ->
  row_is w y (l_lo L) lo -> row_is w y (l_hi L) hi -> pushesR w y (kin_of w) dt f ->
  every_row w y (fun c j => (0 < mobility w y M J c j)%R) -> every_row w y (fun c j => (lo c j <= hi c j)%R) ->
  process Optimized (Some dt : cell (RT dbg)) 1 t w y = Ok (w', y') ->
  exists v' x e, ends w' y (fun b d => q b d + v' b d * dt)%R v' /\
    every_row w y (fun c j => holds_within (lo c j) (hi c j) (x c j) (along w J v' c j + vb c j + beta / dt * C c j)%R (e c j) /\
      (Rabs (e c j) <= tol / (1 - tol) * others w y M J dt x c j)%R) /\
    (forall b d, In b (y_bodies y) -> d < 3 -> (M b d * (v' b d - v b d) = (f b d + acts w y J x b d) * dt)%R) /\
    reportsR w w' y (fun d c j k => J c j (3 * k + d)%nat * x c j)%R.
Proof. exact @NearStep.opt_near_step. Qed.
Print Assumptions C131_step.

(** such calls exist: the double pendulum, both of whose constraints hold its first body *)
Example C131_step_example : exists m (w : world (RT true)) y g w' y' kc q v M, yreach Optimized nopriv m w y /\ attached w y /\ kinds_are w y kc /\ all_gentle w y /\ body_count y = 2 /\
  y_cons y = [0; 1] /\ y_sle y = Some (SleGs g) /\ gs_min_delta g = (Some (1 / 10)%R : cell (RT true)) /\ y_bias y = Some 1%R /\ bodies_are w y q v M /\
  every_row w y (fun c j => (0 < mobility w y M (fun c j i => J_of (kc c) (pose_at w q c) j i) c j)%R) /\
  process Optimized (Some (1 / 100)%R : cell (RT true)) 1 (t0 7) w y = Ok (w', y').
Proof. exact near_returns. Qed.

(** C131: with positive masses and independent rows there is a number of sweeps N, which does
    not depend on the solver object, such that in both builds the call succeeds with every
    solver that is allowed N sweeps, and the same holds *)
Theorem C131_enough :
  forall (dbg : bool) priv m (dt : R) (w : world (RT dbg)) (y : sys (RT dbg)) (beta tol : R) q v M f L J C vb lo hi,
  yreach Optimized priv m w y -> attached w y -> shaped w y -> all_gentle w y -> body_count y <= 255 -> y_cons y <> [] -> remembers w y ->
  (0 < tol < 1)%R -> (0 < dt)%R -> y_bias y = Some beta -> bodies_are w y q v M ->
  answers w y (kin_of w) (Some dt : cell (RT dbg)) L -> rows_are w y (l_J L) J -> row_is w y (l_C L) C -> row_is w y (l_vb L) vb ->
  row_is w y (l_lo L) lo -> row_is w y (l_hi L) hi -> pushesR w y (kin_of w) dt f ->
  (forall b d, In b (y_bodies y) -> d < 3 -> (0 < M b d)%R) -> independent w y J -> every_row w y (fun c j => (lo c j <= hi c j)%R) ->
  exists N, forall (g : gs_solver (RT dbg)) t, N <= gs_max_iterations g -> gs_min_delta g = Some tol -> solver_apart priv (SleGs g) ->
  exists w' y' v' x e, process Optimized (Some dt : cell (RT dbg)) 1 t w (opt_initialize y (SleGs g)) = Ok (w', y') /\ remembers w' y' /\
    ends w' y (fun b d => q b d + v' b d * dt)%R v' /\
    every_row w y (fun c j => holds_within (lo c j) (hi c j) (x c j) (along w J v' c j + vb c j + beta / dt * C c j)%R (e c j) /\
      (Rabs (e c j) <= tol / (1 - tol) * others w y M J dt x c j)%R) /\
    (forall b d, In b (y_bodies y) -> d < 3 -> (M b d * (v' b d - v b d) = (f b d + acts w y J x b d) * dt)%R) /\
    reportsR w w' y (fun d c j k => J c j (3 * k + d)%nat * x c j)%R.
Proof. exact @NearEnough.opt_enough. Qed.
Print Assumptions C131_enough.

(** C131: the nine classes of constraints *)
Theorem C131_classes :
  forall (dbg : bool) priv m (dt : R) (w : world (RT dbg)) (y : sys (RT dbg)) (beta tol : R) q v M f kc,
  yreach Optimized priv m w y -> attached w y -> kinds_are w y kc -> all_gentle w y -> body_count y <= 255 -> y_cons y <> [] -> remembers w y ->
  (0 < tol < 1)%R -> (0 < dt)%R -> y_bias y = Some beta -> bodies_are w y q v M -> pushesR w y (kin_of w) dt f ->
  (forall b d, In b (y_bodies y) -> d < 3 -> (0 < M b d)%R) -> independent w y (fun c j i => J_of (kc c) (pose_at w q c) j i) ->
  (forall c, In c (y_cons y) -> (least (kc c) <= most (kc c))%R) ->
  exists N, forall (g : gs_solver (RT dbg)) t, N <= gs_max_iterations g -> gs_min_delta g = Some tol -> solver_apart priv (SleGs g) ->
  exists w' y' v' x e, process Optimized (Some dt : cell (RT dbg)) 1 t w (opt_initialize y (SleGs g)) = Ok (w', y') /\ remembers w' y' /\
    ends w' y (fun b d => q b d + v' b d * dt)%R v' /\
    every_row w y (fun c j => holds_within (least (kc c)) (most (kc c)) (x c j)
        (along w (fun c j i => J_of (kc c) (pose_at w q c) j i) v' c j + bias_of (kc c) + beta / dt * C_of (kc c) (pose_at w q c) j)%R (e c j) /\
      (Rabs (e c j) <= tol / (1 - tol) * others w y M (fun c j i => J_of (kc c) (pose_at w q c) j i) dt x c j)%R) /\
    (forall b d, In b (y_bodies y) -> d < 3 -> (M b d * (v' b d - v b d) = (f b d + acts w y (fun c j i => J_of (kc c) (pose_at w q c) j i) x b d) * dt)%R) /\
    reportsR w w' y (fun d c j k => J_of (kc c) (pose_at w q c) j (3 * k + d)%nat * x c j)%R.
Proof. exact @NearEnough.opt_enough_kinds. Qed.
Print Assumptions C131_classes.

Example C131_enough_example : forall dbg, exists m (w : world (RT dbg)) y q v M f kc, yreach Optimized nopriv m w y /\
  attached w y /\ kinds_are w y kc /\ all_gentle w y /\ body_count y = 2 /\ y_cons y = [0; 1] /\ remembers w y /\
  y_bias y = Some 1%R /\ bodies_are w y q v M /\ (forall dt, pushesR w y (kin_of w) dt f) /\
  (forall b d, In b (y_bodies y) -> d < 3 -> (0 < M b d)%R) /\ independent w y (fun c j i => J_of (kc c) (pose_at w q c) j i) /\
  (forall c, In c (y_cons y) -> (least (kc c) <= most (kc c))%R).
Proof. exact @near_world. Qed.
Example C131_runs : forall dbg, exists m (w : world (RT dbg)) y q v M f kc N, yreach Optimized nopriv m w y /\ attached w y /\ kinds_are w y kc /\ y_cons y = [0; 1] /\
  bodies_are w y q v M /\ forall (g : gs_solver (RT dbg)) t, N <= gs_max_iterations g -> gs_min_delta g = (Some (1 / 10)%R : cell (RT dbg)) -> solver_apart nopriv (SleGs g) ->
  exists w' y' v' x e, process Optimized (Some (1 / 100)%R : cell (RT dbg)) 1 t w (opt_initialize y (SleGs g)) = Ok (w', y') /\
    ends w' y (fun b d => q b d + v' b d * (1 / 100))%R v' /\
    every_row w y (fun c j => holds_within (least (kc c)) (most (kc c)) (x c j)
        (along w (fun c j i => J_of (kc c) (pose_at w q c) j i) v' c j + bias_of (kc c) + 1 / (1 / 100) * C_of (kc c) (pose_at w q c) j)%R (e c j) /\
      (Rabs (e c j) <= 1 / 9 * others w y M (fun c j i => J_of (kc c) (pose_at w q c) j i) (1 / 100) x c j)%R) /\
    (forall b d, In b (y_bodies y) -> d < 3 -> (M b d * (v' b d - v b d) = (f b d + acts w y (fun c j i => J_of (kc c) (pose_at w q c) j i) x b d) * (1 / 100))%R).
Proof. exact @near_runs. Qed.
