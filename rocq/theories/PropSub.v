(** * Property C71: sub-stepping against repeated stepping. *)

From Coq Require Import Reals QArith.
From Verif Require Import Base Targets Matrix Sle State Ode Forces Constraints System SpecForces SpecSys RegWit SpecDyn SpecSub SubRun SubWit.
Local Open Scope nat_scope.

(** C71, every arithmetic in which h / 1 is h: process(dt, n) ends normally iff
    the n calls process(dt / n, 1) do, and then bodies, constraints and reported
    forces are the same, if no speed motor and no user code that looks at
    accelerations takes part *)
Theorem C71_substeps :
  forall (tg : target) k priv (dt : cell tg) t ts m w y,
    let h := cdiv dt (cofZ (Z.of_nat (length ts))) in
    yreach k priv m w y -> ts <> [] -> cdiv h (cofZ 1) = h ->
    (forall g, In g (y_gens y) -> heedless (g_kind (w_gen w g))) -> (forall c, In c (y_cons y) -> heedless_con (c_kind (w_con w c))) ->
    (forall w1 y1, process k dt (length ts) t w y = Ok (w1, y1) -> exists w2 y2, calls_of k h ts w y = Ok (w2, y2) /\ same_scene w1 w2) /\
    (forall w2 y2, calls_of k h ts w y = Ok (w2, y2) -> exists w1 y1, process k dt (length ts) t w y = Ok (w1, y1) /\ same_scene w1 w2).
Proof. exact @sub_stepping. Qed.
Print Assumptions C71_substeps.
Theorem C71_substeps_real :
  forall dbg k priv (dt : R) t ts m (w : world (RT dbg)) y,
    let h : cell (RT dbg) := Some (dt / IZR (Z.of_nat (length ts)))%R in
    yreach k priv m w y -> ts <> [] ->
    (forall g, In g (y_gens y) -> heedless (g_kind (w_gen w g))) -> (forall c, In c (y_cons y) -> heedless_con (c_kind (w_con w c))) ->
    (forall w1 y1, process k (Some dt : cell (RT dbg)) (length ts) t w y = Ok (w1, y1) -> exists w2 y2, calls_of k h ts w y = Ok (w2, y2) /\ same_scene w1 w2) /\
    (forall w2 y2, calls_of k h ts w y = Ok (w2, y2) -> exists w1 y1, process k (Some dt : cell (RT dbg)) (length ts) t w y = Ok (w1, y1) /\ same_scene w1 w2).
Proof. exact sub_stepping_R. Qed.
Print Assumptions C71_substeps_real.
(** binary64, for every implementation of sine and cosine: no condition on dt,
    since a quotient divided by one is that quotient *)
Theorem C71_substeps_double :
  forall dbg sn cs k priv (dt : cell (F64_trig dbg sn cs)) t ts m (w : world (F64_trig dbg sn cs)) y,
    let h := cdiv dt (cofZ (Z.of_nat (length ts))) in
    yreach k priv m w y -> ts <> [] ->
    (forall g, In g (y_gens y) -> heedless (g_kind (w_gen w g))) -> (forall c, In c (y_cons y) -> heedless_con (c_kind (w_con w c))) ->
    (forall w1 y1, process k dt (length ts) t w y = Ok (w1, y1) -> exists w2 y2, calls_of k h ts w y = Ok (w2, y2) /\ same_scene w1 w2) /\
    (forall w2 y2, calls_of k h ts w y = Ok (w2, y2) -> exists w1 y1, process k dt (length ts) t w y = Ok (w1, y1) /\ same_scene w1 w2).
Proof. exact sub_stepping_F. Qed.
Print Assumptions C71_substeps_double.
Example C71_example : forall k, exists m (w : world (QT true)) y w' y', yreach k nopriv m w y /\ con_count y = 1 /\ gen_count y = 1 /\
  (forall g, In g (y_gens y) -> heedless (g_kind (w_gen w g))) /\ (forall c, In c (y_cons y) -> heedless_con (c_kind (w_con w c))) /\
  cdiv (cdiv dtQ (cofZ 2)) (cofZ 1) = cdiv dtQ (cofZ 2) /\
  process k dtQ 2 (t0 7) w y = Ok (w', y') /\ b_f (w_body w' 0) Bvy <> b_f (w_body w 0) Bvy.
Proof. exact shaft_substeps. Qed.
(** binary64: a sixtieth of a second in eight sub-steps *)
Example C71_double : let dt : cell (F64 true) := cdiv (cofZ 1) (cofZ 60) in
  cdiv (cdiv dt (cofZ 8)) (cofZ 1) = cdiv dt (cofZ 8) /\ cdiv dt (cofZ 8) <> None.
Proof. exact f64_one. Qed.
(** the claim as it stands fails: a speed motor's damping reads the
    acceleration of the previous sub-step, which process clears *)
Theorem C71_refuted :
  forall k, exists m (w : world (QT true)) y w1 y1 w2 y2 p a b, yreach k nopriv m w y /\
    y_bodies y = [0] /\ y_cons y = [] /\ y_gens y = [5] /\ g_kind (w_gen w 5) = GMotor p /\
    process k (cofZ 2) 2 (t0 7) w y = Ok (w1, y1) /\ calls_of k (cofZ 1) [t0 7; t0 7] w y = Ok (w2, y2) /\ cdiv (cofZ 2 : cell (QT true)) (cofZ 2) = cofZ 1 /\
    b_f (w_body w1 0) Bvtheta = Some a /\ b_f (w_body w2 0) Bvtheta = Some b /\ (a == 40 # 9)%Q /\ (b == 50 # 9)%Q.
Proof. exact motor_differs. Qed.
Print Assumptions C71_refuted.
