(** * Properties C39 - C43: the integrators. *)

From Coq Require Import Reals.
From Coq Require Import Floats.SpecFloat.
From Verif Require Import Base Targets State Ode SpecState StateFacts StateWit SpecOde OdeFacts OdeReal OdeWit.
Local Open Scope nat_scope.

(** C39 *)
Theorem C39_euler :
  forall (tg : target) (s : sstate tg) n g dt, shows_st s n g ->
    exists s', euler_solve dt s = Ok s' /\ shows_st s' n (euler_table dt g) /\ same_beyond s s' n /\ s_dt s' = dt.
Proof. exact @euler_steps. Qed.
Print Assumptions C39_euler.
Example C39_example : exists g, shows_st st2W 2 g /\ g Fvx 0 = cofZ 3 /\ euler_table (cofZ 2) g Fpx 0 = cofZ 7.
Proof. exact (ex_intro _ _ (conj (stN_shows _) (conj eq_refl eq_refl))). Qed.

(** C40 *)
Theorem C40_nsv :
  forall (tg : target) (s : sstate tg) n g dt, shows_st s n g ->
    exists s', nsv_solve dt s = Ok s' /\ shows_st s' n (nsv_table dt g) /\ same_beyond s s' n /\ s_dt s' = dt.
Proof. exact @nsv_steps. Qed.
Print Assumptions C40_nsv.
Example C40_example : exists g, shows_st st2W 2 g /\ g Fvx 0 = cofZ 3 /\ nsv_table (cofZ 2) g Fpx 0 = cofZ (-1).
Proof. exact (ex_intro _ _ (conj (stN_shows _) (conj eq_refl eq_refl))). Qed.

(** C40, k steps under constant acceleration *)
Theorem C40_nsv_closed_form :
  forall (dbg : bool) k (s : sstate (RT dbg)) n c (g : fld -> nat -> R) (dt : R),
    shows_st s n c ->
    (forall f i, (rate f <> None \/ f = Fax \/ f = Fay \/ f = Fatheta) -> i < n -> c f i = (Some (g f i) : cell (RT dbg))) ->
    exists s', repeated k (nsv_solve (Some dt : cell (RT dbg))) s = Ok s' /\ shows_st s' n (nsv_closed k dt g c) /\ same_beyond s s' n.
Proof. exact @nsv_closed_form. Qed.
Print Assumptions C40_nsv_closed_form.
Example C40_closed_form_example : exists c, shows_st s1W 1 c /\
  (forall f i, (rate f <> None \/ f = Fax \/ f = Fay \/ f = Fatheta) -> i < 1 -> c f i = (Some (y1 f i) : cell (RT true))).
Proof. exact s1W_table. Qed.

(** C41: on any rounds at all ... *)
Theorem C41_fourth_step :
  forall (tg : target) (r0 r : rk4 tg) s dt bs r', rk4_start r0 s dt = Ok r -> rounds r bs r' ->
    forall k b, nth_error bs k = Some b -> (b = true <-> k = 3).
Proof. exact @rk_fourth. Qed.
Print Assumptions C41_fourth_step.
Example C41_example : exists r bs r', rk4_start rk4_new st2W (cofZ 1) = Ok r /\ rounds r bs r' /\ length bs = 4.
Proof. exact four_rounds. Qed.
Theorem C41_never_without_start :
  forall (tg : target) (r0 r : rk4 tg) bs r', r = rk4_new \/ r = rk4_end r0 -> rounds r bs r' ->
    forall b, In b bs -> b = false.
Proof. exact @rk_never. Qed.
Print Assumptions C41_never_without_start.
Example C41_never_example : exists bs r', rounds (rk4_end rk4_new : rk4 (F64 true)) bs r' /\ bs = [false; false].
Proof. exact two_rounds. Qed.
(** ... and the driver loop ends after four of them, however much fuel it has *)
Theorem C41_driver_ends :
  forall (tg : target) ev (r : rk4 tg) s dt fuel, keeps_size ev -> rk_fits r s -> sized s -> 0 < s_n s -> 4 <= fuel ->
    exists r1 r2 s2, rk4_start r s dt = Ok r1 /\ rk_drive fuel ev r1 s = Ok (4, (r2, s2)) /\
      sized s2 /\ s_n s2 = s_n s /\ s_nc s2 = s_nc s /\ rk_fits r2 s2.
Proof. exact @drive_four. Qed.
Print Assumptions C41_driver_ends.
Example C41_driver_example : keeps_size (fun s : sstate (F64 true) => Ok s) /\ rk_fits rk4_new st2W /\ sized st2W /\ 0 < s_n st2W.
Proof. exact (conj idle_keeps (conj (new_fits st2W (le_S _ _ (le_n 1))) (conj (stN_sized _) (le_S _ _ (le_n 1))))). Qed.

(** C42 *)
Theorem C42_constant_acceleration :
  forall (dbg : bool) n (a : fld -> nat -> R) ev (hs : list R) y (r : rk4 (RT dbg)) s,
    obeys ev n (fun _ => a) -> rk_fits r s -> sized s -> 0 < n -> shows_motion s n y ->
    exists r' s', rk_runs ev (map (fun h => Some h : cell (RT dbg)) hs) (r, s) = Ok (r', s') /\
      shows_motion s' n (closed_form a (fold_right Rplus 0%R hs) y) /\ sized s' /\ rk_fits r' s'.
Proof. exact @rk_constant. Qed.
Print Assumptions C42_constant_acceleration.
Example C42_example :
  obeys (@ev1 true (fun _ _ => 9%R)) 1 (fun _ => law1 (fun _ _ => 9%R) y1) /\ rk_fits rk4_new s1W /\ sized s1W /\ 0 < 1 /\ shows_motion s1W 1 y1.
Proof. exact (conj (ev1_obeys _) (conj (new_fits s1W (le_n 1)) (conj (stN_sized _) (conj (le_n 1) s1W_motion)))). Qed.

(** C43 holds for accelerations that depend on the velocities only ... *)
Theorem C43_classical_partial :
  forall (dbg : bool) n A ev (h : R) y (r : rk4 (RT dbg)) s,
    velocity_law n A -> obeys ev n A -> rk_fits r s -> sized s -> 0 < n -> shows_motion s n y ->
    exists r' s', rk_run ev (Some h : cell (RT dbg)) (r, s) = Ok (r', s') /\ shows_motion s' n (classical A h y) /\ sized s' /\ rk_fits r' s'.
Proof. exact @rk_velocity_law. Qed.
Print Assumptions C43_classical_partial.
Example C43_example :
  velocity_law 1 (law1 (fun p v => - v)%R) /\ obeys (@ev1 true (fun p v => - v)%R) 1 (law1 (fun p v => - v)%R) /\
  rk_fits rk4_new s1W /\ sized s1W /\ shows_motion s1W 1 y1.
Proof. exact (conj drag_law (conj (ev1_obeys _) (conj (new_fits s1W (le_n 1)) (conj (stN_sized _) s1W_motion)))). Qed.

(** ... in general the code computes the stage positions with the stage's own velocities ... *)
Theorem C43_coded_method :
  forall (dbg : bool) n A ev (h : R) y (r : rk4 (RT dbg)) s,
    obeys ev n A -> rk_fits r s -> sized s -> 0 < n -> shows_motion s n y ->
    exists r' s', rk_run ev (Some h : cell (RT dbg)) (r, s) = Ok (r', s') /\ shows_motion s' n (coded A h y) /\ sized s' /\ rk_fits r' s'.
Proof. exact @rk_run_R. Qed.
Print Assumptions C43_coded_method.

(** ... which is another method: the oscillator a = -x, one step of size 1 *)
Theorem C43_classical_refuted :
  exists ev n A (h : R) y (r : rk4 (RT true)) s r' s',
    obeys ev n A /\ rk_fits r s /\ sized s /\ 0 < n /\ shows_motion s n y /\
    rk_run ev (Some h : cell (RT true)) (r, s) = Ok (r', s') /\
    forall g, shows_motion s' n g -> g Fpx 0 <> classical A h y Fpx 0.
Proof.
  exact (match oscillator_run with ex_intro _ r' (ex_intro _ s' H) =>
    ex_intro _ _ (ex_intro _ 1 (ex_intro _ _ (ex_intro _ 1%R (ex_intro _ y1 (ex_intro _ rk4_new (ex_intro _ s1W (ex_intro _ r' (ex_intro _ s'
      (conj (ev1_obeys _) (conj (new_fits s1W (le_n 1)) (conj (stN_sized _) (conj (le_n 1) (conj s1W_motion H))))))))))))) end).
Qed.
Print Assumptions C43_classical_refuted.
