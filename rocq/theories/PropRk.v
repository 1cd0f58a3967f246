(** * The fourth-order solver: the theorems.

    What the generic class does with the Runge-Kutta solver: free bodies
    (C60), the stabilised constraint equation (C59), momentum (C72), and the
    copies the solver keeps of the system's state (C79). *)

From Coq Require Import Reals QArith.
From Verif Require Import Base Targets Sle State Ode Forces Constraints System SpecState SpecOde SpecForces SpecCon ConFacts SpecSle SpecSys RegWit SpecDyn DynStep
  SpecLimits SpecSolve SolveWit SpecLaw SpecMom MomWit SpecRk RkOwn SpecRkR RkReal RkWit.
Local Open Scope nat_scope.

(** C60, in every arithmetic: the motion goes through the four stages, and a
    body no constraint acts on feels nothing but the generators' forces *)
Theorem C60_fourth_order :
  forall tg priv m (dt : cell tg) n t w y w' y' b,
    yreach Generic priv m w y -> attached w y -> shaped w y -> all_gentle w y -> uses_rk y ->
    process Generic dt n t w y = Ok (w', y') -> In b (y_bodies y) -> unbound w y b ->
    exists K, arrives w' y K /\
      rk_motion (fun K h a => exists f, forces_at w y K h f /\ forall d, d < 3 -> a b d = cmul (f b d) (cdiv (cofZ 1) (b_mass (w_body w b) d)))
        (cdiv dt (cofZ (Z.of_nat n))) n (kin_of w) K.
Proof. exact @free_fourth. Qed.
Print Assumptions C60_fourth_order.
Example C60_fourth_order_example : exists m (w : world (QT true)) y w' y', yreach Generic nopriv m w y /\ attached w y /\ shaped w y /\ all_gentle w y /\
  uses_rk y /\ con_count y = 1 /\ gen_count y = 1 /\ In 2 (y_bodies y) /\ unbound w y 2 /\
  process Generic dtQ 2 (t0 7) w y = Ok (w', y') /\ b_vel (w_body w' 2) 1 <> b_vel (w_body w 2) 1.
Proof. exact three_rk_runs. Qed.

(** C59: with Gaussian elimination, constraints of every kind and any number of
    sub-steps the call succeeds, and in each of the four stages of each step
    the accelerations obey the stabilised constraint equation *)
Theorem C59_fourth_order :
  forall dbg priv m (dt : R) n t (w : world (RT dbg)) y g r q v M f J Jd C ks kd,
    yreach Generic priv m w y -> lone priv y -> y_ode y = Some (OdeRk4 r) -> y_sle y = Some (SleGe g) -> attached w y -> shaped w y ->
    (forall c, In c (y_cons y) -> 1 <= c_bodycount (w_con w c)) -> all_gentle w y -> body_count y <= 255 -> y_cons y <> [] -> y_bodies y <> [] ->
    bodies_are w y q v M -> lawful w y M f J Jd C ks kd -> 0 < n ->
    exists w' y' K q' v', process Generic (Some dt : cell (RT dbg)) n t w y = Ok (w', y') /\ ends w' y q' v' /\ real_kin y K q' v' /\
      rk_motion (stabilised w y M f J Jd C ks kd) (Some (dt / INR n)%R : cell (RT dbg)) n (kin_of w) K.
Proof. exact @stabilised_fourth. Qed.
Print Assumptions C59_fourth_order.
(** two linked bodies under gravity *)
Example C59_fourth_order_example : exists m (w : world (RT true)) y, yreach Generic nopriv m w y /\ lone nopriv y /\ y_ode y = Some (OdeRk4 rk4_new) /\ y_sle y = Some (SleGe geS) /\
  attached w y /\ kinds_are w y kL /\ shaped w y /\ (forall c, In c (y_cons y) -> 1 <= c_bodycount (w_con w c)) /\ all_gentle w y /\
  (forall g, In g (y_gens y) -> outer y MD (g_kind (w_gen w g)) (eL g)) /\ y_bodies y = [0; 1] /\ y_cons y = [0] /\ y_gens y = [1] /\ bodies_are w y qD vD MD /\
  lawful w y MD (fun _ _ => fD) (J_is w kL) (Jd_is w kL) (C_is w kL) (fun _ _ c j => ks_of (kL c) j) (fun _ _ c j => kd_of (kL c) j).
Proof. exact linked_rk. Qed.

(** C72: momentum, as in PropMom *)
Theorem C72_fourth_order :
  forall dbg priv m (dt : R) n t (w : world (RT dbg)) y w' y' l q v M kc e q' v',
    yreach Generic priv m w y -> uses_rk y -> y_sle y = Some l -> supplied l -> attached w y -> kinds_are w y kc -> (forall c, In c (y_cons y) -> inner (kc c)) ->
    (forall g, In g (y_gens y) -> outer y M (g_kind (w_gen w g)) (e g)) -> body_count y <= 255 -> bodies_are w y q v M ->
    0 < n -> process Generic (Some dt : cell (RT dbg)) n t w y = Ok (w', y') -> ends w' y q' v' ->
    forall d, d < 2 -> momentum y M v' d = (momentum y M v d + dt * Lsum (y_gens y) (fun g => e g d))%R.
Proof. exact @momentum_fourth. Qed.
Print Assumptions C72_fourth_order.
Theorem C72_fourth_order_conserved :
  forall dbg priv m (dt : R) n t (w : world (RT dbg)) y w' y' l q v M kc q' v',
    yreach Generic priv m w y -> uses_rk y -> y_sle y = Some l -> supplied l -> attached w y -> kinds_are w y kc ->
    (forall c, In c (y_cons y) -> inner (kc c)) -> (forall g, In g (y_gens y) -> exists r, inner_spring y r (g_kind (w_gen w g))) ->
    body_count y <= 255 -> bodies_are w y q v M -> 0 < n ->
    process Generic (Some dt : cell (RT dbg)) n t w y = Ok (w', y') -> ends w' y q' v' ->
    forall d, d < 2 -> momentum y M v' d = momentum y M v d.
Proof. exact @momentum_fourth_conserved. Qed.
Print Assumptions C72_fourth_order_conserved.
Example C72_fourth_order_example : exists m (w : world (RT true)) y w' y' K q' v', yreach Generic nopriv m w y /\ uses_rk y /\ y_sle y = Some (SleGe geS) /\
  supplied (SleGe (tg := RT true) geS) /\ attached w y /\ kinds_are w y kL /\ (forall c, In c (y_cons y) -> inner (kL c)) /\
  (forall g, In g (y_gens y) -> outer y MD (g_kind (w_gen w g)) (eL g)) /\ body_count y <= 255 /\ bodies_are w y qD vD MD /\
  process Generic (Some (1 / 60)%R : cell (RT true)) 3 (t0 7) w y = Ok (w', y') /\ ends w' y q' v' /\
  rk_motion (stabilised w y MD (fun _ _ => fD) (J_is w kL) (Jd_is w kL) (C_is w kL) (fun _ _ c j => ks_of (kL c) j) (fun _ _ c j => kd_of (kL c) j))
    (Some (1 / 60 / INR 3)%R : cell (RT true)) 3 (kin_of w) K /\
  y_cons y = [0] /\ y_gens y = [1] /\ Lsum (y_gens y) (fun g => eL g 1) = (-40)%R.
Proof. exact linked_rk_steps. Qed.

(** C79: a solver that serves one system only, with at least one step in each
    call, copies exactly the system's arrays *)
Theorem C79_own_solver :
  forall tg priv m (w : world tg) y s r h, yreach Generic priv m w y -> lone priv y -> y_ode y = Some (OdeRk4 r) -> populate_state w y = Ok s ->
    exists r', rk4_start r s h = Ok r' /\ s_n (rk_init r') = s_n s /\ s_nc (rk_init r') = s_nc s /\ s_n (rk_acc r') = s_n s /\ s_nc (rk_acc r') = s_nc s.
Proof. exact @lone_copies. Qed.
Print Assumptions C79_own_solver.
(** a body was removed after a step: the arrays stay as long as they were *)
Example C79_example : exists m (w : world (QT true)) y r s, yreach Generic nopriv m w y /\ lone nopriv y /\ y_ode y = Some (OdeRk4 r) /\
  populate_state w y = Ok s /\ body_count y = 2 /\ s_n s = 3 /\ s_n (rk_init r) = 3.
Proof. exact own_shrinks. Qed.
(** a solver that stepped a larger system reads beyond the arrays *)
Theorem C79_shared_refuted : exists m1 (w1 : world (QT true)) y1 r m (w : world (QT true)) y,
  yreach Generic nopriv m1 w1 y1 /\ lone nopriv y1 /\ y_ode y1 = Some (OdeRk4 r) /\ body_count y1 = 3 /\
  yreach Generic nopriv m w y /\ y_ode y = Some (OdeRk4 r) /\ body_count y = 1 /\ con_count y = 0 /\ process Generic dtQ 1 (t0 7) w y = UB.
Proof. exact shared_overreads. Qed.
Print Assumptions C79_shared_refuted.
(** so does one after a call with no steps: [skipped] steps three bodies and a
    constraint, removes a body, adds a constraint, calls process with 0 steps,
    adds the body and removes the constraints *)
Theorem C79_skipped_refuted : exists m (w : world (QT true)) y,
  evrun Generic nopriv (no_books, wS, created Generic) (skipped dtQ) = Ok (m, w, y) /\ process Generic dtQ 1 (t0 7) w y = UB.
Proof. exact skipped_overreads. Qed.
Print Assumptions C79_skipped_refuted.
