(** * Concrete states for the examples and refutations of C33 - C38. *)

From Coq Require Import Reals Lra.
From Coq Require Import Floats.SpecFloat.
From Verif Require Import Base Targets State Logic SpecState StateFacts StateReal.
Local Open Scope nat_scope.

(** a state with the given bodies and no constraints *)
Definition stN {tg} (gs : list (fld -> cell tg)) : sstate tg :=
  {| s_arr := (fun f => if is_reaction f then [] else map (fun g => g f) gs); s_imap := [];
     s_n := length gs; s_nc := 0; s_dt := cofZ 0 |}.

(** runs of histories *)
Definition stafter {tg} (os : list (stop tg)) : nat -> sstate tg :=
  match strun (fun _ => st_new) os with Ok st => st | _ => fun _ => st_new end.
Lemma strun_reach {tg} (os : list (stop tg)) : forall st st', streach st -> strun st os = Ok st' -> streach st'.
Proof.
  induction os as [|o os IH]; cbn; intros st st' H E; [inversion E; now subst|].
  destruct (ststep st o) as [st1| | |] eqn:E1; try discriminate. eapply IH; [eapply streach_step; eauto|exact E].
Qed.
Lemma stafter_reach {tg} (os : list (stop tg)) : streach (stafter os).
Proof.
  unfold stafter. destruct (strun (fun _ => st_new) os) as [st| | |] eqn:E; try apply streach_new.
  eapply strun_reach; [apply streach_new|exact E].
Qed.

(** a body at (1, 2) turned by pi/3, mass 2, inertia 3, moving *)
Definition bodyW : body (RT true) :=
  @mkBody (RT true) (fun f => match f with Bpx => Some 1 | Bpy => Some 2 | Btheta => Some (PI / 3) | Bm => Some 2 | BI => Some 3
                      | Bvx => Some 4 | Bvy => Some (-5) | Bvtheta => Some 6 end)%R 0%Z.
Definition poseW : pose := mkPose 1 2 (PI / 3).
Lemma bodyW_pose : body_pose bodyW poseW.
Proof. now repeat split. Qed.

(** one body moving along (t, 2 t) while turning 3 t *)
Definition motionW (t : R) : pose := mkPose t (2 * t) (3 * t).
Definition velW : pose := mkPose 1 2 3.
Definition stateW (t : R) : sstate (RT true) :=
  @stN (RT true) [(fun f => match f with Fpx => Some t | Fpy => Some (2 * t) | Ftheta => Some (3 * t)
                 | Fvx => Some 1 | Fvy => Some 2 | Fvtheta => Some 3 | _ => Some 0 end)%R].
Lemma motionW_moves t : moves motionW t velW.
Proof.
  split; [exact (derivable_pt_lim_id t)|]. split; unfold motionW, velW; cbn [q_x q_y q_th].
  - eapply dlim_val; [|apply (dlim_scal (fun t => t) t 1 2), derivable_pt_lim_id]. ring.
  - eapply dlim_val; [|apply (dlim_scal (fun t => t) t 1 3), derivable_pt_lim_id]. ring.
Qed.
Lemma stateW_pose t : state_pose (stateW t) 0 (motionW t).
Proof. now repeat split. Qed.
Lemma stateW_vel t : state_velocity (stateW t) 0 velW.
Proof. now repeat split. Qed.
Lemma stateW_world t : st_local_to_world (stateW t) (Some 1%R) (Some 0%R) 0 =
  Ok ((Some (world_x t (3 * t) 1 0) : cell (RT true)), (Some (world_y (2 * t) (3 * t) 1 0) : cell (RT true))).
Proof. exact (s_l2w (stateW t) 0 (motionW t) 1 0 (stateW_pose t)). Qed.

(** a source with one body and a destination with room for two *)
Definition stsmall {tg} : nat -> sstate tg := stafter [StResize 0 2 0; StResize 1 1 0].
(** a source with one constraint and no bodies *)
Definition stnobody {tg} : nat -> sstate tg := stafter [StResize 1 0 1; StStore 1 Frx 0 (cofZ 1)].
(** a source with 2 bodies and 1 constraint, a destination with no bodies and 3 constraints *)
Definition stgrow {tg} : nat -> sstate tg :=
  stafter [StResize 0 0 3; StResize 1 2 1; StStore 1 Fpx 1 (cofZ 7); StMap 1 0 (Some 5%Z); StForce 1 (cofZ 1) (cofZ 2) (cofZ 3) (cofZ 4) 0].
Lemma stgrow_sizes {tg} : (s_n (@stgrow tg 0) = 0 /\ s_nc (@stgrow tg 0) = 3) /\ (s_n (@stgrow tg 1) = 2 /\ s_nc (@stgrow tg 1) = 1).
Proof. repeat split. Qed.
Lemma stsmall_ub : st_copy (@stsmall (F64 true) 0) (stsmall 1) = UB.
Proof.
  apply copy_overreads; [apply stafter_reach|change (s_n (@stsmall (F64 true) 0)) with 2; change (s_n (@stsmall (F64 true) 1)) with 1;
    change (s_nc (@stsmall (F64 true) 0)) with 0; change (s_nc (@stsmall (F64 true) 1)) with 0; lia..].
Qed.
Lemma stnobody_lost : exists s, st_copy (@stnobody (F64 true) 0) (stnobody 1) = Ok s /\
  ld (@stnobody (F64 true) 1) Frx 0 = Ok (cofZ 1) /\ ld s Frx 0 = Ok None.
Proof. eexists. split; [reflexivity|]. split; reflexivity. Qed.
Lemma bodyW_moved : let o' := b_set bodyW Bpx (Some 9%R : cell (RT true)) in b_f bodyW Bm = b_f o' Bm /\ b_f bodyW Bpx <> b_f o' Bpx.
Proof. split; [reflexivity|]. cbn. intros H. inversion H. lra. Qed.
