(** * Least constraint: the theorems.

    Gauss's principle (C81), what a step does to kinetic energy (C82), a part
    of a system (C83), the order of assembly (C84), and a system seen from
    elsewhere and on the move (C85). *)

From Coq Require Import Reals.
From Verif Require Import Base Targets Sle State Ode Forces Constraints System SpecState SpecForces SpecCon ConFacts SpecSle SpecSys RegWit SpecDyn DynStep SpecSolve SolveWit SpecLaw LawReal SpecMom MomWit SpecSub SpecLeast LeastPart LeastWit LeastEnd.
Local Open Scope nat_scope.

(** C81: of all velocities that keep to the constraints the step takes the
    ones closest, in kinetic energy, to those of the bodies left to the
    forces; every other choice is further away *)
Theorem C81_velocities :
  forall dbg priv m (dt : R) t (w : world (RT dbg)) y g (beta : R) q v M f L J C vb,
    yreach Optimized priv m w y -> y_sle y = Some (SleGe g) -> attached w y -> shaped w y -> all_gentle w y -> body_count y <= 255 -> y_cons y <> [] ->
    dt <> 0%R -> y_bias y = Some beta -> bodies_are w y q v M -> (forall b d, In b (y_bodies y) -> d < 3 -> (0 < M b d)%R) ->
    answers w y (kin_of w) (Some dt : cell (RT dbg)) L -> rows_are w y (l_J L) J -> row_is w y (l_C L) C -> row_is w y (l_vb L) vb ->
    pushesR w y (kin_of w) dt f -> regular w y M J ->
    exists w' y' v', process Optimized (Some dt : cell (RT dbg)) 1 t w y = Ok (w', y') /\ ends w' y (fun b d => q b d + v' b d * dt)%R v' /\
      allowed w y J (fun c j => - (vb c j + beta / dt * C c j))%R v' /\
      forall u, allowed w y J (fun c j => - (vb c j + beta / dt * C c j))%R u ->
        (kinetic y M (fun b d => v' b d - unbound M f v dt b d) <= kinetic y M (fun b d => u b d - unbound M f v dt b d))%R /\
        (kinetic y M (fun b d => u b d - unbound M f v dt b d)%R = kinetic y M (fun b d => v' b d - unbound M f v dt b d)%R ->
          forall b d, In b (y_bodies y) -> d < 3 -> u b d = v' b d).
Proof. exact @least_velocity. Qed.
Print Assumptions C81_velocities.
(** the same of the accelerations in the generic class *)
Theorem C81_accelerations :
  forall dbg priv z m (dt : R) t (w : world (RT dbg)) y g q v M f L J Jd C ks kd,
    yreach Generic priv m w y -> uses Generic z y -> y_sle y = Some (SleGe g) -> attached w y -> shaped w y ->
    (forall c, In c (y_cons y) -> 1 <= c_bodycount (w_con w c)) -> all_gentle w y -> body_count y <= 255 -> y_cons y <> [] ->
    bodies_are w y q v M -> (forall b d, In b (y_bodies y) -> d < 3 -> (0 < M b d)%R) ->
    answers w y (kin_of w) (Some dt : cell (RT dbg)) L -> rows_are w y (l_J L) J -> rows_are w y (l_Jd L) Jd -> row_is w y (l_C L) C ->
    row_is w y (l_ks L) ks -> row_is w y (l_kd L) kd -> pushesR w y (kin_of w) dt f -> regular w y M J ->
    exists w' y' a, process Generic (Some dt : cell (RT dbg)) 1 t w y = Ok (w', y') /\
      ends w' y (fun b d => q b d + (match z with Symplectic => v b d + a b d * dt | Explicit => v b d end) * dt)%R (fun b d => v b d + a b d * dt)%R /\
      let wanted := (fun c j => - along w Jd v c j - ks c j * C c j - kd c j * along w J v c j)%R in
      allowed w y J wanted a /\
      forall u, allowed w y J wanted u ->
        (kinetic y M (fun b d => a b d - f b d / M b d) <= kinetic y M (fun b d => u b d - f b d / M b d))%R /\
        (kinetic y M (fun b d => u b d - f b d / M b d)%R = kinetic y M (fun b d => a b d - f b d / M b d)%R -> forall b d, In b (y_bodies y) -> d < 3 -> u b d = a b d).
Proof. exact @least_acceleration. Qed.
Print Assumptions C81_accelerations.
(** the double pendulum *)
Example C81_example : forall k z, exists m (w : world (RT true)) y q v M f kc, yreach k nopriv m w y /\ uses k (match k with Optimized => Symplectic | Generic => z end) y /\
  y_sle y = Some (SleGe geS) /\ attached w y /\ shaped w y /\ kinds_are w y kc /\ (forall c, In c (y_cons y) -> 1 <= c_bodycount (w_con w c)) /\ all_gentle w y /\ body_count y = 2 /\
  con_count y = 2 /\ y_bias y = Some 1%R /\ bodies_are w y q v M /\ (forall b d, In b (y_bodies y) -> d < 3 -> (0 < M b d)%R) /\ (forall dt, pushesR w y (kin_of w) dt f) /\
  (forall dt, answers w y (kin_of w) (Some dt : cell (RT true)) (law_R w kc q v)) /\ regular w y M (fun c j i => J_of (kc c) (pose_at w q c) j i).
Proof. exact pendulum_heavy. Qed.

(** C82: the balance of kinetic energy in a step; x are the multipliers behind
    the reported forces *)
Theorem C82_balance :
  forall dbg priv m (dt : R) t (w : world (RT dbg)) y g (beta : R) q v M f L J C vb,
    yreach Optimized priv m w y -> y_sle y = Some (SleGe g) -> attached w y -> shaped w y -> all_gentle w y -> body_count y <= 255 -> y_cons y <> [] ->
    dt <> 0%R -> y_bias y = Some beta -> bodies_are w y q v M ->
    answers w y (kin_of w) (Some dt : cell (RT dbg)) L -> rows_are w y (l_J L) J -> row_is w y (l_C L) C -> row_is w y (l_vb L) vb ->
    pushesR w y (kin_of w) dt f -> regular w y M J ->
    exists w' y' v' x, process Optimized (Some dt : cell (RT dbg)) 1 t w y = Ok (w', y') /\ ends w' y (fun b d => q b d + v' b d * dt)%R v' /\
      reportsR w w' y (fun d c j k => J c j (3 * k + d)%nat * x c j)%R /\
      (kinetic y M v' + kinetic y M (fun b d => v' b d - unbound M f v dt b d) =
        kinetic y M (unbound M f v dt) - dt * Lsum (row_list w y) (fun '(c, j) => x c j * (vb c j + beta / dt * C c j)))%R.
Proof. exact @energy_split. Qed.
Print Assumptions C82_balance.
(** with no gap to close and no speed to keep the constraints only take energy away *)
Theorem C82_taken :
  forall dbg priv m (dt : R) t (w : world (RT dbg)) y g (beta : R) q v M f L J C vb,
    yreach Optimized priv m w y -> y_sle y = Some (SleGe g) -> attached w y -> shaped w y -> all_gentle w y -> body_count y <= 255 -> y_cons y <> [] ->
    dt <> 0%R -> y_bias y = Some beta -> bodies_are w y q v M -> (forall b d, In b (y_bodies y) -> d < 3 -> (0 < M b d)%R) ->
    answers w y (kin_of w) (Some dt : cell (RT dbg)) L -> rows_are w y (l_J L) J -> row_is w y (l_C L) C -> row_is w y (l_vb L) vb ->
    every_row w y (fun c j => vb c j + beta / dt * C c j = 0)%R ->
    pushesR w y (kin_of w) dt f -> regular w y M J ->
    exists w' y' v', process Optimized (Some dt : cell (RT dbg)) 1 t w y = Ok (w', y') /\ ends w' y (fun b d => q b d + v' b d * dt)%R v' /\
      (kinetic y M v' + kinetic y M (fun b d => v' b d - unbound M f v dt b d) = kinetic y M (unbound M f v dt))%R /\
      (kinetic y M v' <= kinetic y M (unbound M f v dt))%R.
Proof. exact @energy_lost. Qed.
Print Assumptions C82_taken.
(** and without forces the kinetic energy does not grow *)
Theorem C82_free :
  forall dbg priv m (dt : R) t (w : world (RT dbg)) y g (beta : R) q v M kc,
    yreach Optimized priv m w y -> y_sle y = Some (SleGe g) -> attached w y -> kinds_are w y kc -> body_count y <= 255 -> y_cons y <> [] -> y_gens y = [] ->
    dt <> 0%R -> y_bias y = Some beta -> bodies_are w y q v M -> (forall b d, In b (y_bodies y) -> d < 3 -> (0 < M b d)%R) ->
    every_row w y (fun c j => C_of (kc c) (pose_at w q c) j = 0%R /\ bias_of (kc c) = 0%R) ->
    regular w y M (fun c j i => J_of (kc c) (pose_at w q c) j i) ->
    exists w' y' v', process Optimized (Some dt : cell (RT dbg)) 1 t w y = Ok (w', y') /\ ends w' y (fun b d => q b d + v' b d * dt)%R v' /\
      (kinetic y M v' + kinetic y M (fun b d => v' b d - v b d) = kinetic y M v)%R /\ (kinetic y M v' <= kinetic y M v)%R.
Proof. exact @energy_free. Qed.
Print Assumptions C82_free.
(** two linked bodies that move against the link *)
Example C82_example : exists m (w : world (RT true)) y, yreach Optimized nopriv m w y /\ y_sle y = Some (SleGe geS) /\ attached w y /\ kinds_are w y kL /\ body_count y <= 255 /\
  y_cons y <> [] /\ y_gens y = [] /\ y_bias y = Some 1%R /\ bodies_are w y qD vD MD /\ (forall b d, In b (y_bodies y) -> d < 3 -> (0 < MD b d)%R) /\
  every_row w y (fun c j => C_of (kL c) (pose_at w qD c) j = 0%R /\ bias_of (kL c) = 0%R) /\
  regular w y MD (fun c j i => J_of (kL c) (pose_at w qD c) j i) /\ along w (fun c j i => J_of (kL c) (pose_at w qD c) j i) vD 0 1 <> 0%R.
Proof. exact linked_free. Qed.

(** C83: a part of a system that nothing joins to the rest moves as if it were
    alone, over any number of calls *)
Theorem C83_part :
  forall dbg priv k z kc kg (dt beta : R) M ts1 ts2 (w1 : world (RT dbg)) y1 w2 y2 q v, dt <> 0%R -> length ts1 = length ts2 ->
    side priv k z kc kg beta M w1 y1 q v -> side priv k z kc kg beta M w2 y2 q v -> part_of w1 y1 w2 y2 -> gens_part y1 y2 kg ->
    unsingular k (Some dt : cell (RT dbg)) ts2 w2 y2 M kc ->
    exists w1' y1' w2' y2' q' v', calls_of k (Some dt : cell (RT dbg)) ts1 w1 y1 = Ok (w1', y1') /\ calls_of k (Some dt : cell (RT dbg)) ts2 w2 y2 = Ok (w2', y2') /\
      ends w1' y1 q' v' /\ ends w2' y2 q' v'.
Proof. exact @part_calls'. Qed.
Print Assumptions C83_part.
(** a pair of bodies, alone and beside another pair *)
Example C83_example : forall k z, exists (w1 : world (RT true)) y1 (w2 : world (RT true)) y2 q v, let z := match k with Optimized => Symplectic | Generic => z end in
  side nopriv k z kL gP 1%R MD w1 y1 q v /\ side nopriv k z kL gP 1%R MD w2 y2 q v /\ part_of w1 y1 w2 y2 /\ gens_part y1 y2 gP /\
  (forall dt ts, unsingular k (dt : cell (RT true)) ts w2 y2 MD kL) /\
  y_bodies y1 = [0; 1] /\ y_gens y1 = [0; 1] /\ y_bodies y2 = [3; 0; 2; 1] /\ y_cons y2 = [1; 0] /\ y_gens y2 = [2; 1; 0].
Proof. exact part_case. Qed.

(** C84: the order in which a system was assembled does not matter *)
Theorem C84_order :
  forall dbg priv k z kc kg (dt beta : R) M ts1 ts2 (w1 : world (RT dbg)) y1 w2 y2 q v, dt <> 0%R -> length ts1 = length ts2 ->
    side priv k z kc kg beta M w1 y1 q v -> side priv k z kc kg beta M w2 y2 q v -> reordered w1 y1 w2 y2 -> unsingular k (Some dt : cell (RT dbg)) ts2 w2 y2 M kc ->
    exists w1' y1' w2' y2' q' v', calls_of k (Some dt : cell (RT dbg)) ts1 w1 y1 = Ok (w1', y1') /\ calls_of k (Some dt : cell (RT dbg)) ts2 w2 y2 = Ok (w2', y2') /\
      ends w1' y1 q' v' /\ ends w2' y2 q' v'.
Proof. exact @order_calls. Qed.
Print Assumptions C84_order.

(** C85: a system that starts elsewhere, by a, and moves along with u: it ends
    at the place to which a and u carry the first one *)
Theorem C85_shift :
  forall dbg priv k z kc kg (dt beta : R) M (u a : nat -> R) ts1 ts2 (w1 : world (RT dbg)) y1 w2 y2 q v, dt <> 0%R -> u 2 = 0%R -> a 2 = 0%R -> length ts1 = length ts2 ->
    side priv k z kc kg beta M w1 y1 q v -> side priv k z kc kg beta M w2 y2 (fun b d => q b d + a d)%R (fun b d => v b d + u d)%R -> reordered w1 y1 w2 y2 ->
    (forall c, In c (y_cons y1) -> inner (kc c)) -> unsingular k (Some dt : cell (RT dbg)) ts1 w1 y1 M kc ->
    exists w1' y1' w2' y2' q' v', calls_of k (Some dt : cell (RT dbg)) ts1 w1 y1 = Ok (w1', y1') /\ calls_of k (Some dt : cell (RT dbg)) ts2 w2 y2 = Ok (w2', y2') /\
      ends w1' y1 q' v' /\ ends w2' y2 (fun b d => q' b d + (a d + INR (length ts1) * (u d * dt)))%R (fun b d => v' b d + u d)%R.
Proof. exact @moved_calls'. Qed.
Print Assumptions C85_shift.
(** two pairs of bodies, here and there and in two orders (for C84: a and u zero) *)
Example C85_example : forall k z (a u : nat -> R), exists (w1 : world (RT true)) y1 (w2 : world (RT true)) y2, let z := match k with Optimized => Symplectic | Generic => z end in
  side nopriv k z kL gP 1%R MD w1 y1 (LeastGal.moved qD still) (LeastGal.moved vD still) /\
  side nopriv k z kL gP 1%R MD w2 y2 (LeastGal.moved qD a) (LeastGal.moved vD u) /\ reordered w1 y1 w2 y2 /\
  (forall c, In c (y_cons y1) -> inner (kL c)) /\ (forall dt ts, unsingular k (dt : cell (RT true)) ts w1 y1 MD kL) /\
  y_bodies y1 = [0; 1; 2; 3] /\ y_cons y1 = [0; 1] /\ y_gens y1 = [0; 1; 2] /\ y_bodies y2 = [3; 0; 2; 1] /\ y_cons y2 = [1; 0] /\ y_gens y2 = [2; 0; 1].
Proof. exact moved_case. Qed.
