(** * Properties C121 - C124: the project's own tests. *)

From Coq Require Import Reals.
From Coq Require Import Floats.SpecFloat.
From Verif Require Import Base Targets Matrix State Ode Forces Constraints SpecState SpecOde OdeFacts OdeWit SpecForces SpecCon SpecSuite Suite SuiteRun SuiteOde SuiteWit.
Local Open Scope nat_scope.

(** C121 *)
Theorem C121_tests : forall b : bool, Forall (fun r => r = Ok true) (suite (F64 b)).
Proof. exact suite_passes. Qed.
Print Assumptions C121_tests.
Example C121_example : length (suite (F64 true)) = 21.
Proof. exact (suite_length true). Qed.

(** C122 *)
Theorem C122_tests_pass :
  forall dbg k (bs : bodies (RT dbg)) c s q,
    positional k = true -> c_kind c = kind_of dbg k -> c_count c = rows k -> c_bodycount c = parties k ->
    rests bs c (parties k) s q -> (reach k q <= 10000)%R ->
    exists s', verify bs c s = Ok (s', true) /\ rests bs c (parties k) s' q.
Proof. exact test_passes. Qed.
Print Assumptions C122_tests_pass.
Example C122_example :
  rests (fun i => b_set_index b_new (Z.of_nat i)) cW (parties kW) sW qW /\ (reach kW qW <= 10000)%R /\ positional kW = true.
Proof. exact pendulum_rests. Qed.
(** with the numbers and the positions of the project's test *)
Theorem C122_rolling :
  forall (dbg : bool) (rounds : list (list (cell (RT dbg)))),
    (forall xs, In xs rounds -> exists x0 x1 y0 y1 t0 t1 : R, xs = [Some x0; Some x1; Some y0; Some y1; Some t0; Some t1] /\
       (Rabs x0 <= 50 /\ Rabs x1 <= 50 /\ Rabs y0 <= 50 /\ Rabs y1 <= 50)%R) ->
    t_rolling rounds = Ok true.
Proof. exact @rolling_passes. Qed.
Print Assumptions C122_rolling.

(** C123 *)
Theorem C123_refuted : forall left : bool, t_sparse_scale (tg := F64 true) left 1 [3; 1; 4; 1; 5; 9]%Z (repeat 7%Z 9) = Ok true.
Proof. exact scale_blind. Qed.
Print Assumptions C123_refuted.
Theorem C123_stride_refuted : t_sparse_scale (tg := F64 true) false 2 (repeat 1%Z 12) (repeat 7%Z 18) = Ok true.
Proof. exact scale_blind2. Qed.
Print Assumptions C123_stride_refuted.

(** C124 *)
Theorem C124_drivers :
  forall dbg n a y e steps t (o : ode (RT dbg)) s,
    0 < n -> 0 < steps -> sized s -> scheme o s e -> shows_motion s n y -> under s n a ->
    exists s', ode_test_solve o steps (Some t : cell (RT dbg)) s = Ok s' /\ s_n s' = n /\
      forall p v ac i, rate p = Some v -> rate v = Some ac -> i < n ->
        ld s' p (Z.of_nat i) = Ok (Some (fst (falls e steps t (a ac i) (y p i) (y v i))) : cell (RT dbg)) /\
        ld s' v (Z.of_nat i) = Ok (Some (snd (falls e steps t (a ac i) (y p i) (y v i))) : cell (RT dbg)).
Proof. exact @test_driver. Qed.
Print Assumptions C124_drivers.
Example C124_example :
  scheme (OdeRk4 rk4_new) s1W 0 /\ scheme (OdeEuler (cofZ 0)) s1W (-1) /\ scheme (OdeNsv (cofZ 0)) s1W 1 /\
  sized s1W /\ shows_motion s1W 1 y1 /\ under s1W 1 (fun _ _ => 0%R).
Proof. exact ball_fall. Qed.
