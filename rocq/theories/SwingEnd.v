(** * Springs and dampers: the two halves of a lemma. *)

From Coq Require Import Reals.
From Verif Require Import Base Targets Sle State Forces Constraints System SpecMatrix SpecState SpecForces SpecCon SpecSys SpecDyn SpecSolve SpecLaw SpecSub SpecLeast SpecDrift SpecSwing SwingReal SwingStep.
Local Open Scope nat_scope.

Lemma gap_calls dbg priv z kc kg (dt beta : R) M ts (w : world (RT dbg)) y q v :
  side priv Generic z kc kg beta M w y q v -> unsingular Generic (Some dt : cell (RT dbg)) ts w y M kc ->
  exists w' y' q' v', calls_of Generic (Some dt : cell (RT dbg)) ts w y = Ok (w', y') /\ ends w' y q' v' /\
    forall c, In c (y_cons y) -> holds (kc c) = true -> arm (kc c) 0 = 0%R -> arm (kc c) 1 = 0%R -> let f := swing z (ks_of (kc c) 0) (kd_of (kc c) 0) dt in
      (fst (gap (kc c) (pose_at w q' c)), fst (drate (kc c) (pose_at w v' c))) = Nat.iter (length ts) f (fst (gap (kc c) (pose_at w q c)), fst (drate (kc c) (pose_at w v c))) /\
      (snd (gap (kc c) (pose_at w q' c)), snd (drate (kc c) (pose_at w v' c))) = Nat.iter (length ts) f (snd (gap (kc c) (pose_at w q c)), snd (drate (kc c) (pose_at w v c))).
Proof. intros S U. destruct (swing_calls priv z kc kg dt beta M ts w y q v S U) as (w' & y' & q' & v' & C & E & G & _). now exists w', y', q', v'. Qed.
Lemma damper_calls dbg priv z kc kg (dt beta : R) M ts (w : world (RT dbg)) y q v :
  side priv Generic z kc kg beta M w y q v -> unsingular Generic (Some dt : cell (RT dbg)) ts w y M kc ->
  exists w' y' q' v', calls_of Generic (Some dt : cell (RT dbg)) ts w y = Ok (w', y') /\ ends w' y q' v' /\
    forall c s, In c (y_cons y) -> turning (kc c) (pose_at w v c) = Some s -> turning (kc c) (pose_at w v' c) = Some (s * (1 - kd_of (kc c) 0%nat * dt) ^ length ts)%R.
Proof. intros S U. destruct (swing_calls priv z kc kg dt beta M ts w y q v S U) as (w' & y' & q' & v' & C & E & _ & T). now exists w', y', q', v'. Qed.
