(** * Properties C63, C64: force limits; C61: the reported forces. *)

From Coq Require Import Reals QArith.
From Verif Require Import Base Targets Sle State Ode Constraints System SleHist SpecSys RegWit SpecDyn DynStep SpecCon ConFacts SpecSolve SpecLaw LawReal
  SpecLimits DynLimits GsStep LimitStep LimitWit.
Local Open Scope nat_scope.

(** C61: on every call that returns, the reported forces are multipliers times the rows of the last substep *)
Theorem C61_rows :
  forall tg priv m dt n t (w : world tg) (y : sys tg) w' y' l,
    yreach Optimized priv m w y -> attached w y -> shaped w y -> all_gentle w y -> body_count y <= 255 -> y_sle y = Some l -> supplied l ->
    process Optimized dt n t w y = Ok (w', y') ->
    let h := cdiv dt (cofZ (Z.of_nat n)) in
    exists K F, motion_by (with_rows w y h (fun _ _ => True)) Symplectic w y h n (kin_of w) K F /\ arrives w' y K /\ reports w w' y F.
Proof. exact @opt_rows_motion. Qed.
Print Assumptions C61_rows.

(** C63, in every arithmetic: with Gauss-Seidel every impulse is clamped to the limits, in every substep *)
Theorem C63_impulses :
  forall tg priv m dt n t (w : world tg) (y : sys tg) w' y' g,
    yreach Optimized priv m w y -> attached w y -> shaped w y -> all_gentle w y -> body_count y <= 255 ->
    y_sle y = Some (SleGs g) -> 0 < gs_max_iterations g -> process Optimized dt n t w y = Ok (w', y') ->
    let h := cdiv dt (cofZ (Z.of_nat n)) in
    exists K F, motion_by (with_rows w y h (clamped w y h)) Symplectic w y h n (kin_of w) K F /\ arrives w' y K /\ reports w w' y F.
Proof. exact @opt_clamped_motion. Qed.
Print Assumptions C63_impulses.
Example C63_example : exists m (w : world (QT true)) y w' y' g, yreach Optimized nopriv m w y /\ attached w y /\ shaped w y /\ all_gentle w y /\
  body_count y <= 255 /\ y_cons y = [4] /\ y_sle y = Some (SleGs g) /\ 0 < gs_max_iterations g /\ clutch_of w 4 5 /\
  process Optimized dtQ 1 (t0 7) w y = Ok (w', y') /\ exists q, c_force (w_con w' 4) 2 0 0 = Some q /\ (q == 5)%Q.
Proof. exact gs_slips. Qed.

(** C63, in the reals: the multipliers, which are forces, are within the limits *)
Theorem C63_limits :
  forall dbg priv m (dt : R) n t (w : world (RT dbg)) (y : sys (RT dbg)) w' y' g,
    yreach Optimized priv m w y -> attached w y -> shaped w y -> all_gentle w y -> body_count y <= 255 ->
    y_sle y = Some (SleGs g) -> 0 < gs_max_iterations g -> (0 < dt)%R -> process Optimized (Some dt : cell (RT dbg)) n t w y = Ok (w', y') ->
    let h := cdiv (Some dt : cell (RT dbg)) (cofZ (Z.of_nat n)) in
    exists K F, motion_by (with_rows w y h (inside w y)) Symplectic w y h n (kin_of w) K F /\ arrives w' y K /\ reports w w' y F.
Proof. exact @opt_inside_motion. Qed.
Print Assumptions C63_limits.

(** C63: one step with any of the nine classes, release build; the call succeeds *)
Theorem C63_step :
  forall dbg priv m (dt : R) t (w : world (RT dbg)) (y : sys (RT dbg)) g (beta tol : R) q v M f kc,
    dbg = false -> yreach Optimized priv m w y -> y_sle y = Some (SleGs g) -> 0 < gs_max_iterations g -> gs_min_delta g = Some tol ->
    attached w y -> kinds_are w y kc -> all_gentle w y -> body_count y <= 255 -> y_cons y <> [] -> remembers w y ->
    (0 < dt)%R -> y_bias y = Some beta -> bodies_are w y q v M -> pushesR w y (kin_of w) dt f ->
    every_row w y (fun c j => mobility w y M (fun c j i => J_of (kc c) (pose_at w q c) j i) c j <> 0%R) ->
    exists w' y' v' x, process Optimized (Some dt : cell (RT dbg)) 1 t w y = Ok (w', y') /\ remembers w' y' /\
      ends w' y (fun b d => q b d + v' b d * dt)%R v' /\
      every_row w y (fun c j => forall a b, limits_of (kc c) = Some (a, b) -> (a <= b)%R -> (a <= x c j <= b)%R) /\
      (forall b d, In b (y_bodies y) -> d < 3 -> (M b d * (v' b d - v b d) = (f b d + acts w y (fun c j i => J_of (kc c) (pose_at w q c) j i) x b d) * dt)%R) /\
      reportsR w w' y (fun d c j k => J_of (kc c) (pose_at w q c) j (3 * k + d)%nat * x c j)%R.
Proof. exact @opt_gs_limits. Qed.
Print Assumptions C63_step.
Example C63_step_example : forall dbg, exists m (w : world (RT dbg)) y q v M f kc, yreach Optimized nopriv m w y /\
  y_sle y = Some (SleGs gsW) /\ attached w y /\ kinds_are w y kc /\ all_gentle w y /\ body_count y = 2 /\
  y_cons y = [0; 1] /\ limits_of (kc 1) = Some ((-100)%R, 100%R) /\ y_bias y = Some 1%R /\ bodies_are w y q v M /\ (forall dt, pushesR w y (kin_of w) dt f) /\
  remembers w y /\ every_row w y (fun c j => mobility w y M (fun c j i => J_of (kc c) (pose_at w q c) j i) c j <> 0%R).
Proof. exact @pendulum_gs. Qed.
(** positive masses and independent rows are enough for the last hypothesis *)
Example C63_independent : forall dbg (w : world (RT dbg)) y J M, DynReact.listed w y -> attached w y -> shaped w y -> body_count y <= 255 ->
  (forall b d, In b (y_bodies y) -> d < 3 -> (0 < M b d)%R) -> independent w y J -> every_row w y (fun c j => mobility w y M J c j <> 0%R).
Proof. exact @independent_mobile. Qed.

(** C63: a gear in neutral has no effect *)
Theorem C63_neutral :
  forall dbg priv m (dt : R) t (w : world (RT dbg)) (y : sys (RT dbg)) g (beta tol : R) q v M f kc,
    dbg = false -> yreach Optimized priv m w y -> y_sle y = Some (SleGs g) -> 0 < gs_max_iterations g -> gs_min_delta g = Some tol ->
    attached w y -> kinds_are w y kc -> all_gentle w y -> body_count y <= 255 -> y_cons y <> [] -> remembers w y ->
    (0 < dt)%R -> y_bias y = Some beta -> bodies_are w y q v M -> pushesR w y (kin_of w) dt f ->
    every_row w y (fun c j => mobility w y M (fun c j i => J_of (kc c) (pose_at w q c) j i) c j <> 0%R) ->
    exists w' y' v' x, process Optimized (Some dt : cell (RT dbg)) 1 t w y = Ok (w', y') /\
      ends w' y (fun b d => q b d + v' b d * dt)%R v' /\
      (forall b d, In b (y_bodies y) -> d < 3 -> (M b d * (v' b d - v b d) = (f b d + acts w y (fun c j i => J_of (kc c) (pose_at w q c) j i) x b d) * dt)%R) /\
      forall c ratio ks kd, In c (y_cons y) -> kc c = RGear ratio true ks kd -> x c 0 = 0%R /\
        forall k d, k < 2 -> d < 3 -> c_force (w_con w' c) d 0 k = (Some 0%R : cell (RT dbg)).
Proof. exact @opt_gs_neutral. Qed.
Print Assumptions C63_neutral.
Example C63_neutral_example : forall dbg, exists m (w : world (RT dbg)) y q v M f kc, yreach Optimized nopriv m w y /\
  y_sle y = Some (SleGs gsW) /\ attached w y /\ kinds_are w y kc /\ all_gentle w y /\ body_count y = 2 /\
  y_cons y = [0] /\ kc 0 = RGear 2 true 10 1 /\ y_bias y = Some 1%R /\ bodies_are w y q v M /\ (forall dt, pushesR w y (kin_of w) dt f) /\
  remembers w y /\ every_row w y (fun c j => mobility w y M (fun c j i => J_of (kc c) (pose_at w q c) j i) c j <> 0%R).
Proof. exact @neutral_gs. Qed.

(** C64 is false: with Gaussian elimination a clutch limited to 5 carries 15 *)
Theorem C64_refuted :
  exists m (w : world (QT true)) y w' y' g, yreach Optimized nopriv m w y /\ attached w y /\ shaped w y /\ all_gentle w y /\
    body_count y <= 255 /\ y_cons y = [4] /\ y_sle y = Some (SleGe g) /\ clutch_of w 4 5 /\
    process Optimized dtQ 1 (t0 7) w y = Ok (w', y') /\ exists q, c_force (w_con w' 4) 2 0 0 = Some q /\ (q == 15)%Q.
Proof. exact ge_carries. Qed.
Print Assumptions C64_refuted.
