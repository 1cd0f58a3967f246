(** * Property theorems: a wheel on a surface that turns (C86) and a system
    placed at another angle (C87). *)

From Coq Require Import Reals.
From Verif Require Import Base Targets Sle State Ode Forces Constraints System SpecMatrix SpecState SpecForces ForceReal ForceWit SpecCon ConFacts ConWit SpecSys RegWit SpecDyn DynStep SpecSolve SolveWit SpecLaw SpecSub SpecLeast SpecTurn
  TurnStep TurnWit TurnRoll.
Local Open Scope nat_scope.

(** C86: velocities that keep both rows of the rolling constraint.  (Dx, Dy) is
    the direction of the surface, (px, py) the contact point, (ux, uy) the
    velocity of the centre of the wheel less that of the point of the base
    there.  The contact point slips along the surface: the factor of its slip
    is zero when the radius is 1 and the base does not turn *)
Theorem C86_turning_partial :
  forall dbg (bs : bodies (RT dbg)) (c : constraint (RT dbg)) (o : output (RT dbg)) s q v lx ly dx dy rad ks kd,
    c_kind c = kind_of dbg (RRolling lx ly dx dy rad ks kd) -> bound bs c 2 s q v -> (dx ^ 2 + dy ^ 2 = 1)%R ->
    exists o' J, calculate bs c o s = Ok o' /\ (forall r i, r < 2 -> i < 6 -> o_J o' r i = (Some (J r i) : cell (RT dbg))) /\
      let Dx := (dx * cos (q_th (q 0%nat)) - dy * sin (q_th (q 0%nat)))%R in let Dy := (dx * sin (q_th (q 0%nat)) + dy * cos (q_th (q 0%nat)))%R in
      let px := (q_x (q 1%nat) + rad * Dy)%R in let py := (q_y (q 1%nat) - rad * Dx)%R in
      let ux := (q_x (v 1%nat) - ptvx (q 0%nat) (v 0%nat) (q_x (q 1%nat)) (q_y (q 1%nat)))%R in let uy := (q_y (v 1%nat) - ptvy (q 0%nat) (v 0%nat) (q_x (q 1%nat)) (q_y (q 1%nat)))%R in
      let slip := ((1 - rad ^ 2) * (ux * Dx + uy * Dy) - rad * q_th (v 0%nat))%R in
      ((Rsum 6%nat (fun i => J 0%nat i * coord v i) = 0 /\ Rsum 6%nat (fun i => J 1%nat i * coord v i) = 0)%R ->
        (ptvx (q 1%nat) (v 1%nat) px py - ptvx (q 0%nat) (v 0%nat) px py = slip * Dx)%R /\
        (ptvy (q 1%nat) (v 1%nat) px py - ptvy (q 0%nat) (v 0%nat) px py = slip * Dy)%R).
Proof. exact @rolling_turning. Qed.
Print Assumptions C86_turning_partial.
(** a wheel of radius 1, in its place on a base that turns: both rows are kept,
    both gaps are 0, and the contact point (0, 0) of the wheel moves while that
    of the base is at rest.  (It also meets the hypotheses of the theorem.) *)
Theorem C86_turning_refuted :
  bound bsW (conW (kind_of true (kWheel 1))) 2 (pairS rest vBase qCarried vCarried) (two rest qCarried) (two vBase vCarried) /\
  exists o' J, calculate bsW (conW (kind_of true (kWheel 1))) out_new (pairS rest vBase qCarried vCarried) = Ok o' /\
    (forall a i, a < 2 -> i < 6 -> o_J o' a i = (Some (J a i) : cell (RT true))) /\
    (Rsum 6 (fun i => J 0%nat i * coord (two vBase vCarried) i) = 0)%R /\ (Rsum 6 (fun i => J 1%nat i * coord (two vBase vCarried) i) = 0)%R /\
    o_C o' 0 = (Some 0%R : cell (RT true)) /\ o_C o' 1 = (Some 0%R : cell (RT true)) /\
    (ptvx qCarried vCarried 0 0 = -1)%R /\ (ptvx rest vBase 0 0 = 0)%R.
Proof. exact wheel_carried. Qed.
Print Assumptions C86_turning_refuted.

(** C87: system 2 is system 1 turned by t about the origin and moved by
    (ax, ay), with its points, lines, angles and forces; after any number of
    calls it is where turning and moving puts the result of system 1.  The
    optimized class must have no wheels *)
Theorem C87_angle_partial :
  forall dbg priv k z (t ax ay : R) kc kg (dt beta : R) M ts1 ts2 (w1 : world (RT dbg)) y1 w2 y2 q v, dt <> 0%R -> length ts1 = length ts2 ->
    (forall b d, In b (y_bodies y1) -> d < 3 -> (0 < M b d)%R) ->
    side priv k z kc kg beta M w1 y1 q v ->
    side priv k z (fun c => turn_kind t ax ay (kc c)) (fun g => turn_gen t (kg g)) beta M w2 y2 (placed t ax ay q) (turned t v) -> reordered w1 y1 w2 y2 ->
    (forall c, In c (y_cons y1) -> k = Generic \/ no_rolling (kc c)) -> (forall g, In g (y_gens y1) -> weightless (kg g)) ->
    unsingular k (Some dt : cell (RT dbg)) ts1 w1 y1 M kc ->
    exists w1' y1' w2' y2' q' v', calls_of k (Some dt : cell (RT dbg)) ts1 w1 y1 = Ok (w1', y1') /\ calls_of k (Some dt : cell (RT dbg)) ts2 w2 y2 = Ok (w2', y2') /\
      ends w1' y1 q' v' /\ ends w2' y2 (placed t ax ay q') (turned t v').
Proof. exact @turn_calls'. Qed.
Print Assumptions C87_angle_partial.
(** six bodies with a fixed point, a link, a line, a fixed angle, a spring and a force (and a wheel in the generic class), at any angle and place *)
Example C87_example : forall k z (t ax ay : R), exists (w1 : world (RT true)) y1 (w2 : world (RT true)) y2, let z := match k with Optimized => Symplectic | Generic => z end in
  side nopriv k z kT gT 1%R MD w1 y1 qD vD /\
  side nopriv k z (fun c => turn_kind t ax ay (kT c)) (fun g => turn_gen t (gT g)) 1%R MD w2 y2 (placed t ax ay qD) (turned t vD) /\ reordered w1 y1 w2 y2 /\
  (forall c, In c (y_cons y1) -> k = Generic \/ no_rolling (kT c)) /\ (forall g, In g (y_gens y1) -> weightless (gT g)) /\ (forall dt ts, unsingular k (dt : cell (RT true)) ts w1 y1 MD kT) /\
  y_bodies y1 = [0; 1; 2; 3; 4; 5] /\ y_cons y1 = onto k /\ y_gens y1 = [0; 1].
Proof. exact turn_case. Qed.
(** a wheel in the optimized class: after a full turn, which changes nothing
    but the numbers that hold the angles, the same scene moves differently *)
Theorem C87_wheel_refuted : forall dt : R, dt <> 0%R -> let t := (2 * PI)%R in
  exists (w1 : world (RT true)) y1 (w2 : world (RT true)) y2,
  side nopriv Optimized Symplectic kT gT 1%R MD w1 y1 qR vR /\
  side nopriv Optimized Symplectic (fun c => turn_kind t 0 0 (kT c)) (fun g => turn_gen t (gT g)) 1%R MD w2 y2 (placed t 0 0 qR) (turned t vR) /\
  reordered w1 y1 w2 y2 /\ y_gens y1 = [] /\ (forall dt ts, unsingular Optimized (dt : cell (RT true)) ts w1 y1 MD kT) /\
  (forall t1, exists w1' y1' q' v', process Optimized (Some dt : cell (RT true)) 1 t1 w1 y1 = Ok (w1', y1') /\ ends w1' y1 q' v') /\
  forall t1 t2 w1' y1' w2' y2' q' v', process Optimized (Some dt : cell (RT true)) 1 t1 w1 y1 = Ok (w1', y1') -> process Optimized (Some dt : cell (RT true)) 1 t2 w2 y2 = Ok (w2', y2') ->
    ends w1' y1 q' v' -> ~ ends w2' y2 (placed t 0 0 q') (turned t v').
Proof. exact wheel_case. Qed.
Print Assumptions C87_wheel_refuted.
