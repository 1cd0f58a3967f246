(** * Property theorems: calls that advance nothing (C95), numbers that are not
    finite (C96), bodies that have nothing to do with one another (C97). *)

From Coq Require Import Reals.
From Coq Require Import Floats.SpecFloat.
From Verif Require Import Base Targets Sle State Ode Forces Constraints System SpecState SpecForces SpecCon ConFacts SpecSle SpecSys RegWit EdgeWit SpecDyn DynStep SpecSolve SolveWit SpecLaw LawReal SpecMom MomWit
  SpecSub SpecRk SpecLeast TurnWit SpecSafe SafeWit SpecStatic StaticReal StaticWit SpecIdle IdleStep IdleTime IdleWit.
Local Open Scope nat_scope.

(** C95: a call with no sub-steps ends normally and leaves all positions and
    velocities as they were, whatever the length and the solvers *)
Theorem C95_no_steps :
  forall tg priv k m (dt : cell tg) t w y, yreach k priv m w y -> attached w y -> shaped w y -> all_gentle w y ->
    exists w' y', process k dt 0 t w y = Ok (w', y') /\
      forall b d, In b (y_bodies y) -> d < 3 -> b_pos (w_body w' b) d = b_pos (w_body w b) d /\ b_vel (w_body w' b) d = b_vel (w_body w b) d.
Proof. exact @no_steps. Qed.
Print Assumptions C95_no_steps.
(** so do any number of calls of length zero in the generic class; the optimized
    class divides by the length, see below *)
Theorem C95_no_time_partial :
  forall dbg priv z kc kg (beta : R) M ts (w : world (RT dbg)) y q v,
    side priv Generic z kc kg beta M w y q v -> regular w y M (fun c j i => J_of (kc c) (pose_at w q c) j i) ->
    exists w' y', calls_of Generic (Some 0%R : cell (RT dbg)) ts w y = Ok (w', y') /\ ends w' y q v.
Proof. exact @no_time_calls. Qed.
Print Assumptions C95_no_time_partial.
(** two beams *)
Example C95_example : forall dbg z, exists (w : world (RT dbg)) y,
  side nopriv Generic z kT gB 1%R MD w y qB rest /\ regular w y MD (fun c j i => J_of (kT c) (pose_at w qB c) j i).
Proof. exact @beams_stand. Qed.
(** in the optimized class every body is lost: 0 is Gauss-Seidel, the others are
    elimination *)
Theorem C95_no_time_refuted :
  forall i, exists m (w : world (FT false)) y w' y', yreach Optimized privc m w y /\ integrator_set privc Optimized y /\ all_determinate Optimized w y /\ y_bodies y = [0; 1; 2] /\
    body_finite (w_body w 0) /\ body_finite (w_body w 1) /\ body_finite (w_body w 2) /\ (exists l, y_sle y = Some l /\ match l, i with SleGs _, 0 => True | SleGe _, S _ => True | _, _ => False end) /\
    process Optimized (cofZ 0) 1 (t0 3) w y = Ok (w', y') /\ forall b d, b < 3 -> d < 3 -> b_pos (w_body w' b) d = nanF /\ b_vel (w_body w' b) d = nanF.
Proof. exact zero_nan. Qed.
Print Assumptions C95_no_time_refuted.

(** C96: in binary64 a position or velocity that is not finite is never finite
    again after a call, and a velocity that is not finite takes the position
    with it *)
Theorem C96_process :
  forall dbg sn cs priv k m (dt : cell (F64_trig dbg sn cs)) n t w y w' y' b d,
    yreach k priv m w y -> attached w y -> shaped w y -> all_gentle w y -> integrates k y ->
    process k dt n t w y = Ok (w', y') -> In b (y_bodies y) -> d < 3 ->
    (lost (b_pos (w_body w b) d) -> lost (b_pos (w_body w' b) d)) /\
    (lost (b_vel (w_body w b) d) -> lost (b_vel (w_body w' b) d) /\ (0 < n -> lost (b_pos (w_body w' b) d))).
Proof. exact process_lost. Qed.
Print Assumptions C96_process.
(** where everything is set, what is not a number stays so over any number of calls *)
Theorem C96_calls :
  forall dbg sn cs priv, total_arithmetic (F64_trig dbg sn cs) -> forall k b d l m (w : world (F64_trig dbg sn cs)) y w' y',
    yreach k priv m w y -> integrator_set priv k y -> all_determinate k w y ->
    Forall (fun x => defined (tg := F64_trig dbg sn cs) (fst (fst x)) /\ 0 < snd (fst x)) l -> In b (y_bodies y) -> d < 3 -> process_all k l w y = Ok (w', y') ->
    let nan := (Some S754_nan : cell (F64_trig dbg sn cs)) in
    (b_pos (w_body w b) d = nan -> b_pos (w_body w' b) d = nan) /\
    (b_vel (w_body w b) d = nan -> b_vel (w_body w' b) d = nan /\ (l <> [] -> b_pos (w_body w' b) d = nan)).
Proof. exact calls_nan. Qed.
Print Assumptions C96_calls.
(** a turntable whose speed is not a number, with Gauss-Seidel; the pendulum
    beside it moves on *)
Example C96_example : exists m (w : world (FT true)) y w' y', yreach Optimized privc m w y /\ attached w y /\ shaped w y /\ all_gentle w y /\ integrates Optimized y /\ all_determinate Optimized w y /\ y_bodies y = [0; 1; 2] /\
  b_vel (w_body w 2) 2 = nanF /\ process Optimized dtF 2 (t0 3) w y = Ok (w', y') /\ body_finite (w_body w' 0) /\ body_finite (w_body w' 1) /\ b_pos (w_body w' 2) 2 = nanF /\ b_vel (w_body w' 2) 2 = nanF.
Proof. exact contained. Qed.

(** C97: bodies between which there is no constraint and no spring do not
    affect one another.  In exact arithmetic this is C83; in binary64 it is
    false.  With elimination, a turntable whose speed is not a number takes the
    pendulum beside it along, in both classes *)
Theorem C97_elimination_refuted :
  forall k, exists m (w : world (FT false)) y w' y', yreach k privc m w y /\ integrator_set privc k y /\ all_determinate k w y /\ (exists g, y_sle y = Some (SleGe g)) /\
    apart w y first_two /\ y_bodies y = [0; 1; 2] /\ body_finite (w_body w 0) /\ body_finite (w_body w 1) /\
    process k dtF 1 (t0 3) w y = Ok (w', y') /\ forall b d, b < 2 -> d < 3 -> b_pos (w_body w' b) d = nanF /\ b_vel (w_body w' b) d = nanF.
Proof. exact spreads. Qed.
Print Assumptions C97_elimination_refuted.
(** with assertions the call stops *)
Theorem C97_stops_refuted :
  forall k, exists m (w : world (FT true)) y, yreach k privc m w y /\ integrator_set privc k y /\ all_determinate k w y /\ (exists g, y_sle y = Some (SleGe g)) /\
    apart w y first_two /\ y_bodies y = [0; 1; 2] /\ body_finite (w_body w 0) /\ body_finite (w_body w 1) /\ process k dtF 1 (t0 3) w y = AssertFail.
Proof. exact stops. Qed.
Print Assumptions C97_stops_refuted.
(** with conjugate gradients another speed of the turntable, 4000 instead of 4,
    changes the motion of the pendulum *)
Theorem C97_gradients_refuted :
  exists m (w : world (FT true)) y w1 y1 w2 y2, let w' := spun w (cofZ 4000) in
    yreach Optimized privc m w y /\ yreach Optimized privc m w' y /\ all_determinate Optimized w y /\ all_determinate Optimized w' y /\ (exists g, y_sle y = Some (SleCg g)) /\
    apart w y first_two /\ same_inside w w' first_two /\ y_bodies y = [0; 1; 2] /\
    process Optimized dtF 1 (t0 3) w y = Ok (w1, y1) /\ process Optimized dtF 1 (t0 3) w' y = Ok (w2, y2) /\
    forall b, b < 2 -> b_vel (w_body w1 b) 0 <> b_vel (w_body w2 b) 0.
Proof. exact noticed. Qed.
Print Assumptions C97_gradients_refuted.
