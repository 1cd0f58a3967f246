(** * Concrete cases for the examples and refutations of C44 - C51, C74, C75. *)

From Coq Require Import Reals Lra.
From Coq Require Import Floats.SpecFloat.
From Verif Require Import Base Targets State Forces System Logic SpecState StateFacts StateReal StateWit SpecOde OdeFacts OdeWit SpecForces ForceFacts ForceReal ForceFloat.
Local Open Scope nat_scope.

(** body number i has index i; body 9 is in no system *)
Definition bsW {tg} : bodies tg := fun i => @mkBody tg (fun _ => cofZ 0) (if Nat.eqb i 9 then (-1)%Z else Z.of_nat i).

(** two bodies at poses q1, q2 with velocities v1, v2 *)
Definition col (q v : pose) (f : fld) : cell (RT true) :=
  (match f with Fpx => Some (q_x q) | Fpy => Some (q_y q) | Ftheta => Some (q_th q)
   | Fvx => Some (q_x v) | Fvy => Some (q_y v) | Fvtheta => Some (q_th v) | _ => Some 1 end)%R.
Definition pairS (q1 v1 q2 v2 : pose) : sstate (RT true) := @stN (RT true) [col q1 v1; col q2 v2].
Lemma pair_first q1 v1 q2 v2 : body_state (pairS q1 v1 q2 v2) 0 q1 v1.
Proof. split; [now repeat split|]. split; [now repeat split|]. exists 1%R, 1%R, 1%R. now repeat split. Qed.
Lemma pair_second q1 v1 q2 v2 : body_state (pairS q1 v1 q2 v2) 1 q2 v2.
Proof. split; [now repeat split|]. split; [now repeat split|]. exists 1%R, 1%R, 1%R. now repeat split. Qed.

(** a spring from (1, 0) on a turning body to a moving body 3 right and 4 up *)
Definition rW : spring_pars := mkSp 2 5 7 1 0 0 0.
Definition m1W (t : R) : pose := mkPose 0 0 t.
Definition m2W (t : R) : pose := mkPose (3 + t) 4 (2 * t).
Definition v1W : pose := mkPose 0 0 1.
Definition v2W : pose := mkPose 1 0 2.
Lemma m1W_moves t : moves m1W t v1W.
Proof. split; [exact (dlim_const 0%R t)|]. split; [exact (dlim_const 0%R t)|]. exact (derivable_pt_lim_id t). Qed.
Lemma m2W_moves t : moves m2W t v2W.
Proof.
  split; [|split; [exact (dlim_const 4%R t)|]].
  - eapply dlim_val; [|apply (dlim_add (fun _ => 3%R) (fun t => t)); [apply dlim_const|apply derivable_pt_lim_id]]. cbn. ring.
  - eapply dlim_val; [|apply (dlim_scal (fun t => t) t 1 2), derivable_pt_lim_id]. cbn. ring.
Qed.
Definition btW (t : R) : bodies (RT true) := fun i => @mkBody (RT true)
  (fun f => let q := if Nat.eqb i 0 then m1W t else m2W t in
     match f with Bpx => Some (q_x q) | Bpy => Some (q_y q) | Btheta => Some (q_th q) | _ => Some 1%R end) (Z.of_nat i).
Lemma btW_pose t : body_pose (btW t 0) (m1W t) /\ body_pose (btW t 1) (m2W t).
Proof. now repeat split. Qed.
Lemma length_W : (1 / 100 <= spring_length rW (m1W 0) (m2W 0))%R.
Proof.
  assert (1 <= spring_length rW (m1W 0) (m2W 0))%R; [|lra]. rewrite <- sqrt_1. apply sqrt_le_1; [lra| |];
  unfold dist2, end1x, end1y, end2x, end2y, world_x, world_y; cbn [rW m1W m2W q_x q_y q_th sr_p1x sr_p1y sr_p2x sr_p2y];
  rewrite ?Rmult_0_r, ?sin_0, ?cos_0; lra.
Qed.

(** C48: ends at (0,0) and (1,0), the second moving across the spring *)
Definition r48 : spring_pars := mkSp 1 1 1 0 0 0 0.
Definition q48 : pose := mkPose 1 0 0.
Definition v48 : pose := mkPose 0 1 0.
Definition o48 : pose := mkPose 0 0 0.
Lemma net_torque : exists s' F1 F2,
  spring_apply (spring_of true r48 0 1) bsW (pairS o48 o48 q48 v48) = Ok s' /\
  two_forces (pairS o48 o48 q48 v48) s' (b_index (@bsW (RT true) 0)) (b_index (@bsW (RT true) 1)) F1 F2 /\
  (moment o48 F1 0 0 + moment q48 F2 0 0 = -1)%R.
Proof.
  destruct (spring_effect (dbg := true) r48 bsW (pairS o48 o48 q48 v48) 0 1 o48 o48 q48 v48) as (s' & E & K); [discriminate|discriminate|apply pair_first|apply pair_second|].
  exists s'. eexists. eexists. split; [exact E|]. split; [exact K|].
  unfold moment, point_force. cbn [gf_x gf_y gf_t].
  assert (EY : spring_fy r48 o48 o48 q48 v48 = 1%R).
  { unfold spring_fy, relvy, ptvy, end1x, end1y, end2x, end2y, world_x, world_y. cbn [r48 o48 q48 v48 q_x q_y q_th sr_p1x sr_p1y sr_p2x sr_p2y sr_kd sr_ks sr_rest].
    destruct (Rle_dec _ _); unfold Rdiv; ring. }
  rewrite EY. unfold end1x, end1y, end2x, end2y, world_x, world_y. cbn [r48 o48 q48 v48 q_x q_y q_th sr_p1x sr_p1y sr_p2x sr_p2y]. ring.
Qed.
(** a damped spring stretched along itself *)
Lemma along_W : along r48 o48 o48 q48 (mkPose 5 0 0).
Proof. unfold along, relvx, relvy, ptvx, ptvy, end1x, end1y, end2x, end2y, world_x, world_y. cbn [r48 o48 q48 q_x q_y q_th sr_p1x sr_p1y sr_p2x sr_p2y]. ring. Qed.

(** C50: motors *)
Definition motorF : motor (F64 true) := @mkMotor (F64 true) (cofZ 1) (cofZ 1) (cofZ 500) (Some S754_nan) (Some 0) (Some 1).
Lemma motorF_case : mo_speed motorF = Some S754_nan /\ mo_max motorF = cofZ 500 /\ f_le (f_ofZ 0) (f_ofZ 500) /\
  base_spin st2W (b_index (@bsW (F64 true) 0)) (cofZ 1) (cofZ 1) /\ ld st2W Ft (b_index (@bsW (F64 true) 1)) = Ok (cofZ 0).
Proof. repeat split. right. repeat split. intros H. inversion H. Qed.
Definition motorR (kd : R) : motor (RT true) :=
  @mkMotor (RT true) (Some 1%R) (Some kd) (Some 500%R) (Some 10%R) (Some 9) (Some 1).
Definition spinS (a : R) : sstate (RT true) :=
  @stN (RT true) [(fun _ => Some 0%R); (fun f => match f with Fvtheta => Some 3%R | Fatheta => Some a | _ => Some 0%R end)].
(** the body turns at 3, the motor wants 10, but its acceleration makes the torque negative *)
Lemma motor_away : exists s' (L : R), motor_apply (motorR 1) bsW (spinS 100) = Ok s' /\
  torque_pair (spinS 100) s' (-1) 1 (Some L : cell (RT true)) /\ (L < 0)%R.
Proof.
  destruct (motor_drives true (motorR 1) bsW (spinS 100) 9 1 1 1 500 10 0 0 3 100 0 0) as (s' & L & E & K & _ & (H & _) & _);
    try reflexivity; try lra; [left; repeat split|intros H; exfalso; apply H; reflexivity|].
  exists s', L. split; [exact E|]. split; [exact K|]. rewrite H; lra.
Qed.

(** C51 *)
Definition sF (c : cell (F64 true)) : sstate (F64 true) :=
  stN [(fun f => match f with Ffx | Ffy | Ft => c | _ => cofZ 1 end)].
Definition yF : sys (F64 true) := with_regs (sys_new None) [0] [] [0].
Lemma same_F : same_but_forces 1 (sF (cofZ 3)) (sF (Some S754_nan)) /\ ld (sF (cofZ 3)) Ffx 0 <> ld (sF (Some S754_nan)) Ffx 0.
Proof.
  split; [|discriminate]. repeat split.
  - intros f z [H|H]; [destruct f; try discriminate; reflexivity|].
    destruct z as [|p|p]; [exfalso; apply H; lia| |reflexivity]. unfold ld, aget. cbn [Z.ltb Z.compare].
    replace (Z.to_nat (Z.pos p)) with (S (Z.to_nat (Z.pos p) - 1)) by lia. destruct f; cbn; now destruct (Z.to_nat (Z.pos p) - 1).
  - intros f. destruct f; reflexivity.
Qed.

(** C75 *)
Definition stF {sn cs} : sstate (F64_trig true sn cs) :=
  stN [(fun f => match f with Fpx => cofZ 1 | _ => cofZ 0 end); (fun f => match f with Fpx => cofZ 4 | Fpy => cofZ 4 | _ => cofZ 0 end)].
Definition spF {sn cs} : spring (F64_trig true sn cs) :=
  {| sp_rest := cofZ 1; sp_ks := cofZ 2; sp_kd := cofZ 3; sp_p1x := cofZ 0; sp_p1y := cofZ 0; sp_p2x := cofZ 0; sp_p2y := cofZ 0; sp_b1 := Some 0; sp_b2 := Some 1 |}.
Lemma spF_runs : exists s', spring_apply spF bsW (@stF f_sin f_cos) = Ok s' /\ ld s' Ffx 0 <> Ok None /\ ld s' Ffx 0 <> ld (@stF f_sin f_cos) Ffx 0.
Proof.
  assert (T : match spring_apply spF bsW (@stF f_sin f_cos) with
    | Ok s' => match ld s' Ffx 0 with Ok (Some (S754_finite _ _ _)) => true | _ => false end | _ => false end = true) by (vm_compute; reflexivity).
  assert (T0 : ld (@stF f_sin f_cos) Ffx 0 = Ok (cofZ 0)) by reflexivity.
  destruct (spring_apply spF bsW (@stF f_sin f_cos)) as [s'| | |]; try discriminate. exists s'. split; [reflexivity|].
  rewrite T0. destruct (ld s' Ffx 0) as [[x|]| | |]; try discriminate. split; [discriminate|]. intros H. injection H as ->. discriminate.
Qed.
