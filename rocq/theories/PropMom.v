(** * Momentum: the theorems.

    Linear (C72) and angular (C78) momentum of a system over a call of
    process. *)

From Coq Require Import Reals.
From Verif Require Import Base Targets Sle State Forces Constraints System SpecState SpecForces SpecCon ConFacts SpecSle SpecSys RegWit SpecDyn DynStep SpecLimits SpecSolve SolveWit SpecLaw SpecMom MomStep MomSpin MomWit MomEnd.
Local Open Scope nat_scope.

(** C72: any number of sub-steps, either class, any of the supplied solvers,
    whether or not it solves the equations: the forces from outside alone
    change the momentum (PropRk has the fourth-order integrator) *)
Theorem C72_forces :
  forall dbg priv k z m (dt : R) n t (w : world (RT dbg)) y w' y' l q v M kc e q' v',
    yreach k priv m w y -> uses k z y -> y_sle y = Some l -> supplied l -> attached w y -> kinds_are w y kc ->
    (forall c, In c (y_cons y) -> inner (kc c)) -> (forall g, In g (y_gens y) -> outer y M (g_kind (w_gen w g)) (e g)) ->
    body_count y <= 255 -> bodies_are w y q v M -> 0 < n ->
    process k (Some dt : cell (RT dbg)) n t w y = Ok (w', y') -> ends w' y q' v' ->
    forall d, d < 2 -> momentum y M v' d = (momentum y M v d + dt * Lsum (y_gens y) (fun g => e g d))%R.
Proof. exact @momentum_law. Qed.
Print Assumptions C72_forces.
Theorem C72_conserved :
  forall dbg priv k z m (dt : R) n t (w : world (RT dbg)) y w' y' l q v M kc q' v',
    yreach k priv m w y -> uses k z y -> y_sle y = Some l -> supplied l -> attached w y -> kinds_are w y kc ->
    (forall c, In c (y_cons y) -> inner (kc c)) -> (forall g, In g (y_gens y) -> exists r, inner_spring y r (g_kind (w_gen w g))) ->
    body_count y <= 255 -> bodies_are w y q v M -> 0 < n ->
    process k (Some dt : cell (RT dbg)) n t w y = Ok (w', y') -> ends w' y q' v' ->
    forall d, d < 2 -> momentum y M v' d = momentum y M v d.
Proof. exact @momentum_conserved. Qed.
Print Assumptions C72_conserved.
(** two bodies, a link and a spring between them, and gravity *)
Example C72_example : forall k, exists m (w : world (RT true)) y w' y' q' v' l, yreach k nopriv m w y /\ uses k Symplectic y /\ y_sle y = Some l /\ supplied l /\
  attached w y /\ kinds_are w y kL /\ (forall c, In c (y_cons y) -> inner (kL c)) /\ (forall g, In g (y_gens y) -> outer y MD (g_kind (w_gen w g)) (eL g)) /\
  body_count y <= 255 /\ bodies_are w y qD vD MD /\ process k (Some (1 / 60)%R : cell (RT true)) 1 (t0 7) w y = Ok (w', y') /\ ends w' y q' v' /\
  y_cons y = [0] /\ y_gens y = [0; 1] /\ Lsum (y_gens y) (fun g => eL g 1) = (-40)%R.
Proof. exact linked_falls. Qed.

(** C78: one step of the optimized class *)
Theorem C78_angular :
  forall dbg priv m (dt : R) t (w : world (RT dbg)) y w' y' l q v M kc e q' v',
    yreach Optimized priv m w y -> y_sle y = Some l -> supplied l -> attached w y -> kinds_are w y kc ->
    (forall c, In c (y_cons y) -> inner (kc c)) -> (forall g, In g (y_gens y) -> outer_torque y M q (g_kind (w_gen w g)) (e g)) ->
    body_count y <= 255 -> bodies_are w y q v M ->
    process Optimized (Some dt : cell (RT dbg)) 1 t w y = Ok (w', y') -> ends w' y q' v' ->
    exists x, reportsR w w' y (fun d c j k => J_of (kc c) (pose_at w q c) j (3 * k + d) * x c j)%R /\
      spin_momentum y M q' v' = (spin_momentum y M q v + dt * (Lsum (y_cons y) (fun c => twist (kc c) (pose_at w q c) (x c)) + Lsum (y_gens y) e))%R.
Proof. exact @spin_law. Qed.
Print Assumptions C78_angular.
Theorem C78_conserved :
  forall dbg priv k m (dt : R) t (w : world (RT dbg)) y w' y' l q v M kc q' v',
    yreach k priv m w y -> uses k Symplectic y -> y_sle y = Some l -> supplied l -> attached w y -> kinds_are w y kc ->
    (forall c, In c (y_cons y) -> joint (kc c) /\ closed (kc c) (pose_at w q c)) ->
    (forall g, In g (y_gens y) -> exists r, inner_spring y r (g_kind (w_gen w g)) /\ sr_kd r = 0%R) -> body_count y <= 255 -> bodies_are w y q v M ->
    process k (Some dt : cell (RT dbg)) 1 t w y = Ok (w', y') -> ends w' y q' v' ->
    spin_momentum y M q' v' = spin_momentum y M q v.
Proof. exact @spin_conserved. Qed.
Print Assumptions C78_conserved.
Example C78_example : forall k, exists m (w : world (RT true)) y w' y' q' v' l, yreach k nopriv m w y /\ uses k Symplectic y /\ y_sle y = Some l /\ supplied l /\
  attached w y /\ kinds_are w y kL /\ (forall c, In c (y_cons y) -> joint (kL c) /\ closed (kL c) (pose_at w qD c)) /\
  (forall g, In g (y_gens y) -> exists r, inner_spring y r (g_kind (w_gen w g)) /\ sr_kd r = 0%R) /\
  body_count y <= 255 /\ bodies_are w y qD vD MD /\ process k (Some (1 / 60)%R : cell (RT true)) 1 (t0 7) w y = Ok (w', y') /\ ends w' y q' v' /\
  y_cons y = [0] /\ y_gens y = [0] /\ (k = Optimized -> ~ forall b d, In b (y_bodies y) -> d < 3 -> v' b d = vD b d).
Proof. exact linked_turns. Qed.
