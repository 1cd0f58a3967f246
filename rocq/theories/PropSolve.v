(** * Properties C58, C59, C77: what one step does to the constraints. *)

From Coq Require Import Reals.
From Verif Require Import Base Targets Sle State Ode Constraints System SleHist SpecSys RegWit SpecDyn DynStep SpecCon ConFacts SpecSolve SolveStep SpecLaw LawReal LawStep SolveWit.
Local Open Scope nat_scope.

(** C58 *)
Theorem C58_velocities :
  forall dbg priv m (dt : R) t (w : world (RT dbg)) (y : sys (RT dbg)) g (beta : R) q v M f L J C vb,
    yreach Optimized priv m w y -> y_sle y = Some (SleGe g) -> attached w y -> shaped w y -> all_gentle w y -> body_count y <= 255 -> y_cons y <> [] ->
    dt <> 0%R -> y_bias y = Some beta -> bodies_are w y q v M ->
    answers w y (kin_of w) (Some dt : cell (RT dbg)) L -> rows_are w y (l_J L) J -> row_is w y (l_C L) C -> row_is w y (l_vb L) vb ->
    pushesR w y (kin_of w) dt f -> regular w y M J ->
    exists w' y' v' x, process Optimized (Some dt : cell (RT dbg)) 1 t w y = Ok (w', y') /\
      ends w' y (fun b d => q b d + v' b d * dt)%R v' /\
      every_row w y (fun c j => (along w J v' c j + vb c j + beta / dt * C c j = 0)%R) /\
      (forall b d, In b (y_bodies y) -> d < 3 -> (M b d * (v' b d - v b d) = (f b d + acts w y J x b d) * dt)%R) /\
      reportsR w w' y (fun d c j k => J c j (3 * k + d)%nat * x c j)%R.
Proof. exact @opt_ge_step. Qed.
Print Assumptions C58_velocities.

(** C59: one step of the Euler or symplectic solver; processConstraints at any state *)
Theorem C59_step :
  forall dbg priv z m (dt : R) t (w : world (RT dbg)) (y : sys (RT dbg)) g q v M f L J Jd C ks kd,
    yreach Generic priv m w y -> uses Generic z y -> y_sle y = Some (SleGe g) -> attached w y -> shaped w y ->
    (forall c, In c (y_cons y) -> 1 <= c_bodycount (w_con w c)) -> all_gentle w y -> body_count y <= 255 -> y_cons y <> [] ->
    bodies_are w y q v M ->
    answers w y (kin_of w) (Some dt : cell (RT dbg)) L -> rows_are w y (l_J L) J -> rows_are w y (l_Jd L) Jd -> row_is w y (l_C L) C ->
    row_is w y (l_ks L) ks -> row_is w y (l_kd L) kd ->
    pushesR w y (kin_of w) dt f -> regular w y M J ->
    exists w' y' a x, process Generic (Some dt : cell (RT dbg)) 1 t w y = Ok (w', y') /\
      ends w' y (fun b d => q b d + (match z with Symplectic => v b d + a b d * dt | Explicit => v b d end) * dt)%R (fun b d => v b d + a b d * dt)%R /\
      every_row w y (fun c j => along w J a c j + along w Jd v c j = - (ks c j * C c j) - kd c j * along w J v c j)%R /\
      (forall b d, In b (y_bodies y) -> d < 3 -> (M b d * a b d = f b d + acts w y J x b d)%R).
Proof. exact @gen_ge_step. Qed.
Print Assumptions C59_step.

(** both have a concrete case: a double pendulum under gravity *)
Example C58_C59_example : forall dbg k z, exists m (w : world (RT dbg)) y q v M f kc, yreach k nopriv m w y /\
  uses k (match k with Optimized => Symplectic | Generic => z end) y /\
  y_sle y = Some (SleGe geS) /\ attached w y /\ shaped w y /\ kinds_are w y kc /\ (forall c, In c (y_cons y) -> 1 <= c_bodycount (w_con w c)) /\ all_gentle w y /\ body_count y = 2 /\
  con_count y = 2 /\ y_bias y = Some 1%R /\ bodies_are w y q v M /\ (forall dt, pushesR w y (kin_of w) dt f) /\
  (forall dt, answers w y (kin_of w) (Some dt : cell (RT dbg)) (law_R w kc q v)) /\ regular w y M (fun c j i => J_of (kc c) (pose_at w q c) j i).
Proof. exact @pendulum_step. Qed.
(** positive masses and independent rows are enough *)
Example C58_independent : forall dbg (w : world (RT dbg)) y J M, DynReact.listed w y -> attached w y -> shaped w y -> body_count y <= 255 ->
  (forall b d, In b (y_bodies y) -> d < 3 -> (0 < M b d)%R) -> independent w y J -> regular w y M J.
Proof. intros dbg w y J M A B C D. exact (SolveReal.independent_regular w y J A B C D M). Qed.

(** C77: C58 for the nine constraint classes, in terms of points and spins *)
Theorem C77_geometry :
  forall dbg priv m (dt : R) t (w : world (RT dbg)) (y : sys (RT dbg)) g (beta : R) q v M f kc,
    yreach Optimized priv m w y -> y_sle y = Some (SleGe g) -> attached w y -> kinds_are w y kc -> all_gentle w y -> body_count y <= 255 -> y_cons y <> [] ->
    dt <> 0%R -> y_bias y = Some beta -> bodies_are w y q v M -> pushesR w y (kin_of w) dt f ->
    regular w y M (fun c j i => J_of (kc c) (pose_at w q c) j i) ->
    exists w' y' v', process Optimized (Some dt : cell (RT dbg)) 1 t w y = Ok (w', y') /\
      ends w' y (fun b d => q b d + v' b d * dt)%R v' /\
      forall c, In c (y_cons y) -> obeys (kc c) (pose_at w q c) (pose_at w v' c) (beta / dt)%R.
Proof. exact @opt_ge_obeys. Qed.
Print Assumptions C77_geometry.
