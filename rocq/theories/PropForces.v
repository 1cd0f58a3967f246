(** * Properties C44 - C51, C74, C75: force generators. *)

From Coq Require Import Reals.
From Coq Require Import Floats.SpecFloat.
From Verif Require Import Base Targets State Forces System SpecState StateWit SpecForces OdeWit ForceFacts ForceReal ForceFloat ForceWit.
Local Open Scope nat_scope.

(** C44 *)
Theorem C44_gravity :
  forall (tg : target) (s : sstate tg) n g gr, shows_st s n g ->
    exists s', gravity_apply gr s = Ok s' /\
      shows_st s' n (fun f i => match f with Ffy => cadd (g Ffy i) (cmul (copp (g Fm i)) gr) | _ => g f i end) /\
      same_beyond s s' n /\ s_dt s' = s_dt s.
Proof. exact @gravity_steps. Qed.
Print Assumptions C44_gravity.
Example C44_example : exists g, shows_st st2W 2 g /\ g Fm 0 = cofZ 1 /\ cadd (g Ffy 0) (cmul (copp (g Fm 0)) (cofZ 9)) = cofZ (-8).
Proof. exact (ex_intro _ _ (conj (stN_shows _) (conj eq_refl eq_refl))). Qed.

(** C45 *)
Theorem C45_third_law :
  forall (dbg : bool) (r : spring_pars) (bs : bodies (RT dbg)) s i1 i2 q1 v1 q2 v2,
    b_index (bs i1) <> (-1)%Z -> b_index (bs i2) <> (-1)%Z ->
    body_state s (b_index (bs i1)) q1 v1 -> body_state s (b_index (bs i2)) q2 v2 ->
    exists s' F1 F2, spring_apply (spring_of dbg r i1 i2) bs s = Ok s' /\
      two_forces s s' (b_index (bs i1)) (b_index (bs i2)) F1 F2 /\
      (gf_x F1 + gf_x F2 = 0)%R /\ (gf_y F1 + gf_y F2 = 0)%R.
Proof. exact @spring_third_law. Qed.
Print Assumptions C45_third_law.
Example C45_example : body_state (pairS (m1W 0) v1W (m2W 0) v2W) (b_index (@bsW (RT true) 0)) (m1W 0) v1W /\
  body_state (pairS (m1W 0) v1W (m2W 0) v2W) (b_index (@bsW (RT true) 1)) (m2W 0) v2W.
Proof. exact (conj (pair_first _ _ _ _) (pair_second _ _ _ _)). Qed.

(** C46 *)
Theorem C46_central :
  forall (dbg : bool) (r : spring_pars) (bs : bodies (RT dbg)) s i1 i2 q1 v1 q2 v2,
    b_index (bs i1) <> (-1)%Z -> b_index (bs i2) <> (-1)%Z ->
    body_state s (b_index (bs i1)) q1 v1 -> body_state s (b_index (bs i2)) q2 v2 -> sr_kd r = 0%R ->
    exists s' F1 F2, spring_apply (spring_of dbg r i1 i2) bs s = Ok s' /\
      two_forces s s' (b_index (bs i1)) (b_index (bs i2)) F1 F2 /\
      forall ox oy : R, (moment q1 F1 ox oy + moment q2 F2 ox oy = 0)%R.
Proof. exact (fun dbg r bs s i1 i2 q1 v1 q2 v2 a b c d e => @spring_central dbg r bs s i1 i2 q1 v1 q2 v2 a b c d (or_introl e)). Qed.
Print Assumptions C46_central.
Theorem C46_conservative :
  forall (dbg : bool) (r : spring_pars) (Bt : R -> bodies (RT dbg)) s i1 i2 m1 m2 t0 v1 v2,
    (forall t, body_pose (Bt t i1) (m1 t)) -> (forall t, body_pose (Bt t i2) (m2 t)) -> moves m1 t0 v1 -> moves m2 t0 v2 ->
    b_index (Bt t0 i1) <> (-1)%Z -> b_index (Bt t0 i2) <> (-1)%Z ->
    body_state s (b_index (Bt t0 i1)) (m1 t0) v1 -> body_state s (b_index (Bt t0 i2)) (m2 t0) v2 ->
    sr_kd r = 0%R -> (1 / 100 <= spring_length r (m1 t0) (m2 t0))%R ->
    exists (E : R -> R) s' F1 F2, (forall t, spring_energy (spring_of dbg r i1 i2) (Bt t) = (Some (E t) : cell (RT dbg))) /\
      spring_apply (spring_of dbg r i1 i2) (Bt t0) s = Ok s' /\ two_forces s s' (b_index (Bt t0 i1)) (b_index (Bt t0 i2)) F1 F2 /\
      derivable_pt_lim E t0 (- (power v1 F1 + power v2 F2))%R.
Proof. exact @spring_conservative. Qed.
Print Assumptions C46_conservative.
Example C46_example : moves m1W 0 v1W /\ moves m2W 0 v2W /\ (1 / 100 <= spring_length (undamped rW) (m1W 0) (m2W 0))%R /\
  body_state (pairS (m1W 0) v1W (m2W 0) v2W) (b_index (btW 0 0)) (m1W 0) v1W /\
  body_state (pairS (m1W 0) v1W (m2W 0) v2W) (b_index (btW 0 1)) (m2W 0) v2W /\
  forall t, body_pose (btW t 0) (m1W t) /\ body_pose (btW t 1) (m2W t).
Proof. exact (conj (m1W_moves 0) (conj (m2W_moves 0) (conj length_W (conj (pair_first _ _ _ _) (conj (pair_second _ _ _ _) btW_pose))))). Qed.

(** C47 *)
Theorem C47_damping :
  forall (dbg : bool) (r : spring_pars) (bs : bodies (RT dbg)) s i1 i2 q1 v1 q2 v2,
    b_index (bs i1) <> (-1)%Z -> b_index (bs i2) <> (-1)%Z ->
    body_state s (b_index (bs i1)) q1 v1 -> body_state s (b_index (bs i2)) q2 v2 -> (0 <= sr_kd r)%R ->
    exists s' F1 F2 s0 G1 G2,
      spring_apply (spring_of dbg r i1 i2) bs s = Ok s' /\ two_forces s s' (b_index (bs i1)) (b_index (bs i2)) F1 F2 /\
      spring_apply (spring_of dbg (undamped r) i1 i2) bs s = Ok s0 /\ two_forces s s0 (b_index (bs i1)) (b_index (bs i2)) G1 G2 /\
      (power v1 F1 + power v2 F2 <= power v1 G1 + power v2 G2)%R.
Proof. exact @spring_damping. Qed.
Print Assumptions C47_damping.
(** the states of C45_example meet the hypotheses *)

(** C48: true of a damped spring only where the ends move along it *)
Theorem C48_no_net_torque_partial :
  forall (dbg : bool) (r : spring_pars) (bs : bodies (RT dbg)) s i1 i2 q1 v1 q2 v2,
    b_index (bs i1) <> (-1)%Z -> b_index (bs i2) <> (-1)%Z ->
    body_state s (b_index (bs i1)) q1 v1 -> body_state s (b_index (bs i2)) q2 v2 -> sr_kd r = 0%R \/ along r q1 v1 q2 v2 ->
    exists s' F1 F2, spring_apply (spring_of dbg r i1 i2) bs s = Ok s' /\
      two_forces s s' (b_index (bs i1)) (b_index (bs i2)) F1 F2 /\
      forall ox oy : R, (moment q1 F1 ox oy + moment q2 F2 ox oy = 0)%R.
Proof. exact @spring_central. Qed.
Print Assumptions C48_no_net_torque_partial.
Example C48_example : along r48 o48 o48 q48 (mkPose 5 0 0) /\ sr_kd r48 = 1%R.
Proof. exact (conj along_W eq_refl). Qed.
Theorem C48_no_net_torque_refuted :
  exists s' F1 F2,
    spring_apply (spring_of true r48 0 1) bsW (pairS o48 o48 q48 v48) = Ok s' /\
    two_forces (pairS o48 o48 q48 v48) s' (b_index (@bsW (RT true) 0)) (b_index (@bsW (RT true) 1)) F1 F2 /\
    (moment o48 F1 0 0 + moment q48 F2 0 0 = -1)%R.
Proof. exact net_torque. Qed.
Print Assumptions C48_no_net_torque_refuted.

(** C49: every use is undefined behaviour *)
Theorem C49_outside_refuted :
  forall (tg : target) (p : spring tg) bs s i1 i2, sp_b1 p = Some i1 -> sp_b2 p = Some i2 ->
    b_index (bs i1) = (-1)%Z \/ b_index (bs i2) = (-1)%Z -> spring_apply p bs s = UB.
Proof. exact @spring_outside. Qed.
Print Assumptions C49_outside_refuted.
Example C49_example : b_index (@bsW (F64 true) 9) = (-1)%Z /\ b_index (@bsW (F64 true) 1) = 1%Z.
Proof. exact (conj eq_refl eq_refl). Qed.

(** C50 *)
Theorem C50_limit :
  forall dbg (p : motor (F64 dbg)) (bs : bodies (F64 dbg)) s i0 i1 (ks kd mx sp v0 a0 v1 a1 t0 t1 : f64),
    mo_b0 p = Some i0 -> mo_b1 p = Some i1 -> mo_ks p = Some ks -> mo_kd p = Some kd -> mo_max p = Some mx -> mo_speed p = Some sp ->
    f_le (f_ofZ 0) mx ->
    base_spin s (b_index (bs i0)) (Some v0 : cell (F64 dbg)) (Some a0 : cell (F64 dbg)) ->
    ld s Fvtheta (b_index (bs i1)) = Ok (Some v1 : cell (F64 dbg)) -> ld s Fatheta (b_index (bs i1)) = Ok (Some a1 : cell (F64 dbg)) ->
    ld s Ft (b_index (bs i1)) = Ok (Some t1 : cell (F64 dbg)) ->
    (b_index (bs i0) <> (-1)%Z -> ld s Ft (b_index (bs i0)) = Ok (Some t0 : cell (F64 dbg))) ->
    exists s' (L : f64), motor_apply p bs s = Ok s' /\ torque_pair s s' (b_index (bs i0)) (b_index (bs i1)) (Some L : cell (F64 dbg)) /\
      f_le (SFopp mx) L /\ f_le L mx.
Proof. exact @motor_limit. Qed.
Print Assumptions C50_limit.
Example C50_example : mo_speed motorF = Some S754_nan /\ mo_max motorF = cofZ 500 /\ f_le (f_ofZ 0) (f_ofZ 500) /\
  base_spin st2W (b_index (@bsW (F64 true) 0)) (cofZ 1) (cofZ 1) /\ ld st2W Ft (b_index (@bsW (F64 true) 1)) = Ok (cofZ 0).
Proof. exact motorF_case. Qed.
(** the torque points towards the set speed where the damping term is zero *)
Theorem C50_drives_partial :
  forall dbg (p : motor (RT dbg)) (bs : bodies (RT dbg)) s i0 i1 (ks kd mx sp v0 a0 v1 a1 t0 t1 : R),
    mo_b0 p = Some i0 -> mo_b1 p = Some i1 -> mo_ks p = Some ks -> mo_kd p = Some kd -> mo_max p = Some mx -> mo_speed p = Some sp ->
    (0 <= mx)%R ->
    base_spin s (b_index (bs i0)) (Some v0 : cell (RT dbg)) (Some a0 : cell (RT dbg)) ->
    ld s Fvtheta (b_index (bs i1)) = Ok (Some v1 : cell (RT dbg)) -> ld s Fatheta (b_index (bs i1)) = Ok (Some a1 : cell (RT dbg)) ->
    ld s Ft (b_index (bs i1)) = Ok (Some t1 : cell (RT dbg)) ->
    (b_index (bs i0) <> (-1)%Z -> ld s Ft (b_index (bs i0)) = Ok (Some t0 : cell (RT dbg))) ->
    exists s' (L : R), motor_apply p bs s = Ok s' /\ torque_pair s s' (b_index (bs i0)) (b_index (bs i1)) (Some L : cell (RT dbg)) /\
      (- mx <= L <= mx)%R /\
      (let T := (ks * (sp - (v1 - v0)) - kd * (a1 - a0))%R in
       ((- mx <= T <= mx)%R -> L = T) /\ ((T <= - mx)%R -> L = (- mx)%R) /\ ((mx <= T)%R -> L = mx)) /\
      ((kd = 0 \/ a1 = a0)%R -> (0 < ks)%R -> (0 < mx)%R ->
         ((v1 - v0 < sp)%R <-> (0 < L)%R) /\ ((sp < v1 - v0)%R <-> (L < 0)%R)).
Proof. exact @motor_drives. Qed.
Print Assumptions C50_drives_partial.
Example C50_drives_example : base_spin (spinS 7) (b_index (@bsW (RT true) 9)) (Some 0%R : cell (RT true)) (Some 0%R : cell (RT true)) /\
  ld (spinS 7) Fvtheta (b_index (@bsW (RT true) 1)) = Ok (Some 3%R : cell (RT true)).
Proof. exact (conj (or_introl (conj eq_refl (conj eq_refl eq_refl))) eq_refl). Qed.
(** with a damping term it may point away: speed 3, wanted 10, torque negative *)
Theorem C50_drives_refuted :
  exists s' (L : R), motor_apply (motorR 1) bsW (spinS 100) = Ok s' /\
    torque_pair (spinS 100) s' (-1) 1 (Some L : cell (RT true)) /\ (L < 0)%R.
Proof. exact motor_away. Qed.
Print Assumptions C50_drives_refuted.

(** C51: whatever forces are left from before, the result is the same ... *)
Theorem C51_fresh :
  forall (tg : target) (w : world tg) (y : sys tg) (s s' : sstate tg), same_but_forces (body_count y) s s' ->
    process_forces w y s' = process_forces w y s.
Proof. exact @forces_fresh. Qed.
Print Assumptions C51_fresh.
Example C51_example : same_but_forces (body_count yF) (sF (cofZ 3)) (sF (Some S754_nan)) /\ ld (sF (cofZ 3)) Ffx 0 <> ld (sF (Some S754_nan)) Ffx 0.
Proof. exact same_F. Qed.
(** ... and the values the generators start from are zeros *)
Theorem C51_reset :
  forall (tg : target) (w : world tg) (y : sys tg) (s : sstate tg) n g, shows_st s n g -> body_count y <= n -> gen_count y = 0 ->
    exists s', process_forces w y s = Ok s' /\
      shows_st s' n (fun f i => if is_force f && Nat.ltb i (body_count y) then cofZ 0 else g f i) /\
      same_beyond s s' n /\ s_dt s' = s_dt s.
Proof. exact @forces_reset. Qed.
Print Assumptions C51_reset.
Example C51_reset_example : exists g, shows_st st2W 2 g /\ g Ffx 0 = cofZ 1.
Proof. exact (ex_intro _ _ (conj (stN_shows _) eq_refl)). Qed.

(** C74 *)
Theorem C74_static_force :
  forall dbg (bs : bodies (RT dbg)) s i q v (fx fy px py : R), body_state s (b_index (bs i)) q v ->
    exists s', static_apply (@mkStatic (RT dbg) (Some fx) (Some fy) (Some px) (Some py) (Some i)) bs s = Ok s' /\
      forces_only s s' [b_index (bs i)] /\
      gains s s' (b_index (bs i)) (point_force q (world_x (q_x q) (q_th q) px py) (world_y (q_y q) (q_th q) px py) fx fy).
Proof. exact @static_effect. Qed.
Print Assumptions C74_static_force.
Theorem C74_static_outside :
  forall (tg : target) (f : static_force tg) bs (s : sstate tg),
    (sf_body f = None \/ exists i, sf_body f = Some i /\ b_index (bs i) = (-1)%Z) -> static_apply f bs s = UB.
Proof. exact @static_outside. Qed.
Print Assumptions C74_static_outside.
(** the states of C45_example and the body of C49_example meet the hypotheses *)

(** C75 *)
Theorem C75_float_third_law :
  forall (dbg : bool) (sn cs : f64 -> option f64) (p : spring (F64_trig dbg sn cs)) bs (s s' : sstate (F64_trig dbg sn cs)) i1 i2,
    sp_b1 p = Some i1 -> sp_b2 p = Some i2 -> b_index (bs i1) <> b_index (bs i2) ->
    spring_apply p bs s = Ok s' ->
    exists fx fy gx gy a1 b1 a2 b2, c_opposite fx gx /\ c_opposite fy gy /\
      ld s Ffx (b_index (bs i1)) = Ok a1 /\ ld s' Ffx (b_index (bs i1)) = Ok (cadd a1 fx) /\
      ld s Ffy (b_index (bs i1)) = Ok b1 /\ ld s' Ffy (b_index (bs i1)) = Ok (cadd b1 fy) /\
      ld s Ffx (b_index (bs i2)) = Ok a2 /\ ld s' Ffx (b_index (bs i2)) = Ok (cadd a2 gx) /\
      ld s Ffy (b_index (bs i2)) = Ok b2 /\ ld s' Ffy (b_index (bs i2)) = Ok (cadd b2 gy).
Proof. exact @spring_float. Qed.
Print Assumptions C75_float_third_law.
Example C75_example : exists s', spring_apply spF bsW (@stF f_sin f_cos) = Ok s' /\ ld s' Ffx 0 <> Ok None /\ ld s' Ffx 0 <> ld (@stF f_sin f_cos) Ffx 0.
Proof. exact spF_runs. Qed.
