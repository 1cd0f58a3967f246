(** * Property theorems: a system in other units (C90) and in a mirror (C91). *)

From Coq Require Import Reals.
From Verif Require Import Base Targets Sle State Ode Forces Constraints System SpecMatrix SpecState SpecForces SpecCon SpecSys RegWit SpecDyn DynStep SpecSolve SolveWit SpecSub SpecLeast SpecTurn TurnWit SpecUnit
  UnitStep UnitWit.
Local Open Scope nat_scope.

(** C90: system 2 is system 1 with lengths times l, times (also the step) times
    t and masses times m; after any number of calls it is where system 1 is, in
    its units.  The unit of length must not change if there are wheels, or
    springs shorter than 1/100 in either unit *)
Theorem C90_units_partial :
  forall dbg priv k z (l t m : R) kc kg (dt beta : R) M ts1 ts2 (w1 : world (RT dbg)) y1 w2 y2 q v, (0 < l)%R -> (0 < t)%R -> (0 < m)%R -> dt <> 0%R -> length ts1 = length ts2 ->
    (forall b d, In b (y_bodies y1) -> d < 3 -> (0 < M b d)%R) ->
    side priv k z kc kg beta M w1 y1 q v ->
    side priv k z (fun c => unit_kind l t m (kc c)) (fun g => unit_gen l t m (kg g)) beta (unit_mass l m M) w2 y2 (unit_place l q) (unit_speed l t v) -> reordered w1 y1 w2 y2 ->
    (l = 1%R \/ (forall c, In c (y_cons y1) -> no_rolling (kc c)) /\ stay_long l k (Some dt : cell (RT dbg)) ts1 w1 y1 kg) ->
    unsingular k (Some dt : cell (RT dbg)) ts1 w1 y1 M kc ->
    exists w1' y1' w2' y2' q' v', calls_of k (Some dt : cell (RT dbg)) ts1 w1 y1 = Ok (w1', y1') /\ calls_of k (Some (t * dt)%R : cell (RT dbg)) ts2 w2 y2 = Ok (w2', y2') /\
      ends w1' y1 q' v' /\ ends w2' y2 (unit_place l q') (unit_speed l t v').
Proof. exact @units_calls. Qed.
Print Assumptions C90_units_partial.
(** six bodies with a fixed point, a link, a line, a fixed angle, a wheel, a spring, a force and gravity, in other units of mass and time *)
Example C90_example : forall k z (t m : R), (0 < m)%R -> exists (w1 : world (RT true)) y1 (w2 : world (RT true)) y2, let z := match k with Optimized => Symplectic | Generic => z end in
  side nopriv k z kT gU 1%R MD w1 y1 qD vD /\
  side nopriv k z (fun c => unit_kind 1 t m (kT c)) (fun g => unit_gen 1 t m (gU g)) 1%R (unit_mass 1 m MD) w2 y2 (unit_place 1 qD) (unit_speed 1 t vD) /\ reordered w1 y1 w2 y2 /\
  (forall dt ts, unsingular k (dt : cell (RT true)) ts w1 y1 MD kT) /\ y_bodies y1 = [0; 1; 2; 3; 4; 5] /\ y_cons y1 = [0; 1; 2; 3; 4] /\ y_gens y1 = [0; 1; 2].
Proof. exact unit_case_all. Qed.
(** the same without the wheel, in other units of length too: with the spring (of length 1) for one call, without it for any number *)
Example C90_example_length : forall k z (l t m : R) (spring : bool), (0 < l)%R -> (0 < m)%R -> exists (w1 : world (RT true)) y1 (w2 : world (RT true)) y2, let z := match k with Optimized => Symplectic | Generic => z end in
  side nopriv k z kT gU 1%R MD w1 y1 qD vD /\
  side nopriv k z (fun c => unit_kind l t m (kT c)) (fun g => unit_gen l t m (gU g)) 1%R (unit_mass l m MD) w2 y2 (unit_place l qD) (unit_speed l t vD) /\ reordered w1 y1 w2 y2 /\
  (forall c, In c (y_cons y1) -> no_rolling (kT c)) /\
  (forall (dt : cell (RT true)) ts, spring = false \/ ((1 / 100 <= l)%R /\ length ts = 1) -> stay_long l k dt ts w1 y1 gU) /\
  (forall dt ts, unsingular k (dt : cell (RT true)) ts w1 y1 MD kT) /\ y_bodies y1 = [0; 1; 2; 3; 4; 5] /\ y_cons y1 = [0; 1; 2; 3] /\ y_gens y1 = if spring then [0; 1; 2] else [1; 2].
Proof. exact unit_case_long. Qed.
(** a wheel that has turned on its base: with lengths in half the unit it moves differently *)
Theorem C90_wheel_refuted : forall dt : R, dt <> 0%R ->
  exists (w1 : world (RT true)) y1 (w2 : world (RT true)) y2,
  side nopriv Optimized Symplectic kT gU 1%R MD w1 y1 qV vR /\
  side nopriv Optimized Symplectic (fun c => unit_kind 2 1 1 (kT c)) (fun g => unit_gen 2 1 1 (gU g)) 1%R (unit_mass 2 1 MD) w2 y2 (unit_place 2 qV) (unit_speed 2 1 vR) /\
  reordered w1 y1 w2 y2 /\ y_gens y1 = [] /\ (forall dt ts, unsingular Optimized (dt : cell (RT true)) ts w1 y1 MD kT) /\
  (forall t1, exists w1' y1' q' v', process Optimized (Some dt : cell (RT true)) 1 t1 w1 y1 = Ok (w1', y1') /\ ends w1' y1 q' v') /\
  forall t1 t2 w1' y1' w2' y2' q' v', process Optimized (Some dt : cell (RT true)) 1 t1 w1 y1 = Ok (w1', y1') -> process Optimized (Some (1 * dt)%R : cell (RT true)) 1 t2 w2 y2 = Ok (w2', y2') ->
    ends w1' y1 q' v' -> ~ ends w2' y2 (unit_place 2 q') (unit_speed 2 1 v').
Proof. exact unit_wheel. Qed.
Print Assumptions C90_wheel_refuted.
(** a spring of length 1/200, which is 1/100 in half the unit: it pushes in the second system only *)
Theorem C90_spring_refuted : forall dt : R, dt <> 0%R ->
  exists (w1 : world (RT true)) y1 (w2 : world (RT true)) y2,
  side nopriv Optimized Symplectic kT gN 1%R MD w1 y1 qN vR /\
  side nopriv Optimized Symplectic (fun c => unit_kind 2 1 1 (kT c)) (fun g => unit_gen 2 1 1 (gN g)) 1%R (unit_mass 2 1 MD) w2 y2 (unit_place 2 qN) (unit_speed 2 1 vR) /\
  reordered w1 y1 w2 y2 /\ (forall c, In c (y_cons y1) -> no_rolling (kT c)) /\ (forall dt ts, unsingular Optimized (dt : cell (RT true)) ts w1 y1 MD kT) /\
  (forall t1, exists w1' y1' q' v', process Optimized (Some dt : cell (RT true)) 1 t1 w1 y1 = Ok (w1', y1') /\ ends w1' y1 q' v') /\
  forall t1 t2 w1' y1' w2' y2' q' v', process Optimized (Some dt : cell (RT true)) 1 t1 w1 y1 = Ok (w1', y1') -> process Optimized (Some (1 * dt)%R : cell (RT true)) 1 t2 w2 y2 = Ok (w2', y2') ->
    ends w1' y1 q' v' -> ~ ends w2' y2 (unit_place 2 q') (unit_speed 2 1 v').
Proof. exact unit_spring. Qed.
Print Assumptions C90_spring_refuted.

(** C91: system 2 is system 1 with left and right exchanged; after any number
    of calls it is the mirror image of system 1 *)
Theorem C91_mirror :
  forall dbg priv k z kc kg (dt beta : R) M ts1 ts2 (w1 : world (RT dbg)) y1 w2 y2 q v, dt <> 0%R -> length ts1 = length ts2 ->
    (forall b d, In b (y_bodies y1) -> d < 3 -> (0 < M b d)%R) ->
    side priv k z kc kg beta M w1 y1 q v ->
    side priv k z (fun c => mirror_kind (kc c)) (fun g => mirror_gen (kg g)) beta M w2 y2 (mirrored q) (mirrored v) -> reordered w1 y1 w2 y2 ->
    unsingular k (Some dt : cell (RT dbg)) ts1 w1 y1 M kc ->
    exists w1' y1' w2' y2' q' v', calls_of k (Some dt : cell (RT dbg)) ts1 w1 y1 = Ok (w1', y1') /\ calls_of k (Some dt : cell (RT dbg)) ts2 w2 y2 = Ok (w2', y2') /\
      ends w1' y1 q' v' /\ ends w2' y2 (mirrored q') (mirrored v').
Proof. exact @mirror_calls. Qed.
Print Assumptions C91_mirror.
Example C91_example : forall k z, exists (w1 : world (RT true)) y1 (w2 : world (RT true)) y2, let z := match k with Optimized => Symplectic | Generic => z end in
  side nopriv k z kT gU 1%R MD w1 y1 qD vD /\
  side nopriv k z (fun c => mirror_kind (kT c)) (fun g => mirror_gen (gU g)) 1%R MD w2 y2 (mirrored qD) (mirrored vD) /\ reordered w1 y1 w2 y2 /\
  (forall dt ts, unsingular k (dt : cell (RT true)) ts w1 y1 MD kT) /\ y_bodies y1 = [0; 1; 2; 3; 4; 5] /\ y_cons y1 = [0; 1; 2; 3; 4] /\ y_gens y1 = [0; 1; 2].
Proof. exact mirror_case. Qed.
