(** * The statements about gaps over several calls. *)

From Coq Require Import Reals Lra.
From Verif Require Import Base Targets State Forces Constraints System SpecMatrix SpecState SpecForces SpecCon ConFacts SpecSys SpecDyn SpecSolve SpecLaw SpecSub SpecLeast LeastPart SpecDrift DriftReal.
Local Open Scope nat_scope.

Lemma gap_once dbg priv kc kg (dt beta : R) M (w : world (RT dbg)) y q v t : dt <> 0%R -> side priv Optimized Symplectic kc kg beta M w y q v ->
  regular w y M (fun c j i => J_of (kc c) (pose_at w q c) j i) ->
  exists w' y' q' v', process Optimized (Some dt : cell (RT dbg)) 1 t w y = Ok (w', y') /\ ends w' y q' v' /\
    forall c, In c (y_cons y) -> holds (kc c) = true -> exists rx ry,
      gap (kc c) (pose_at w q' c) = ((1 - beta) * fst (gap (kc c) (pose_at w q c)) + rx, (1 - beta) * snd (gap (kc c) (pose_at w q c)) + ry)%R /\
      (size (rx, ry) <= dt * dt / 2 * (arm (kc c) 0 * (v' (who w c 0) 2%nat * v' (who w c 0) 2%nat) + arm (kc c) 1 * (v' (who w c 1) 2%nat * v' (who w c 1) 2%nat)))%R.
Proof. exact (drift_step priv kc kg dt beta M w y q v t). Qed.
Lemma gap_many dbg priv kc kg (dt beta : R) M ts (w : world (RT dbg)) y q v c s : dt <> 0%R -> side priv Optimized Symplectic kc kg beta M w y q v ->
  unsingular Optimized (Some dt : cell (RT dbg)) ts w y M kc -> In c (y_cons y) -> holds (kc c) = true -> turns_within (Some dt : cell (RT dbg)) ts w y c s ->
  exists w' y' q' v', calls_of Optimized (Some dt : cell (RT dbg)) ts w y = Ok (w', y') /\ ends w' y q' v' /\
    (size (gap (kc c) (pose_at w q' c)) <= Rabs (1 - beta) ^ length ts * size (gap (kc c) (pose_at w q c)) +
       dt * dt / 2 * ((arm (kc c) 0 + arm (kc c) 1) * (s * s)) * series (Rabs (1 - beta)) (length ts))%R.
Proof.
  intros Nd SD U Hc Hk Ht. destruct (drift_calls priv kc kg dt beta M Nd ts w y q v SD U) as (w' & y' & q' & v' & C & En & G).
  exists w', y', q', v'. split; [exact C|]. split; [exact En|]. apply (G c s Hc Hk Ht).
Qed.
Lemma gap_settles dbg priv kc kg (dt beta : R) M ts (w : world (RT dbg)) y q v c s : dt <> 0%R -> (0 < beta <= 1)%R -> side priv Optimized Symplectic kc kg beta M w y q v ->
  unsingular Optimized (Some dt : cell (RT dbg)) ts w y M kc -> In c (y_cons y) -> holds (kc c) = true -> turns_within (Some dt : cell (RT dbg)) ts w y c s ->
  exists w' y' q' v', calls_of Optimized (Some dt : cell (RT dbg)) ts w y = Ok (w', y') /\ ends w' y q' v' /\
    (size (gap (kc c) (pose_at w q' c)) <= (1 - beta) ^ length ts * size (gap (kc c) (pose_at w q c)) + dt * dt / (2 * beta) * ((arm (kc c) 0 + arm (kc c) 1) * (s * s)))%R.
Proof.
  intros Nd Hb SD U Hc Hk Ht. destruct (gap_many dbg priv kc kg dt beta M ts w y q v c s Nd SD U Hc Hk Ht) as (w' & y' & q' & v' & C & En & G).
  exists w', y', q', v'. split; [exact C|]. split; [exact En|]. rewrite Rabs_right in G by lra. eapply Rle_trans; [exact G|]. apply Rplus_le_compat_l.
  assert (P : (0 <= dt * dt / 2 * ((arm (kc c) 0 + arm (kc c) 1) * (s * s)))%R).
  { pose proof (arm_pos (kc c) 0). pose proof (arm_pos (kc c) 1). pose proof (Rle_0_sqr s) as Q1. pose proof (Rle_0_sqr dt) as Q2. unfold Rsqr in *.
    apply Rmult_le_pos; [lra|apply Rmult_le_pos; lra]. }
  eapply Rle_trans; [apply Rmult_le_compat_l; [exact P|apply series_below; lra]|]. right. field. lra.
Qed.
Lemma gap_exact dbg priv kc kg (dt beta : R) M ts (w : world (RT dbg)) y q v : dt <> 0%R -> side priv Optimized Symplectic kc kg beta M w y q v ->
  unsingular Optimized (Some dt : cell (RT dbg)) ts w y M kc ->
  exists w' y' q' v', calls_of Optimized (Some dt : cell (RT dbg)) ts w y = Ok (w', y') /\ ends w' y q' v' /\
    forall c, In c (y_cons y) -> holds (kc c) = true -> arm (kc c) 0 = 0%R -> arm (kc c) 1 = 0%R ->
      gap (kc c) (pose_at w q' c) = ((1 - beta) ^ length ts * fst (gap (kc c) (pose_at w q c)), (1 - beta) ^ length ts * snd (gap (kc c) (pose_at w q c)))%R.
Proof.
  intros Nd SD U. destruct (drift_exact priv kc kg dt beta M Nd ts w y q v SD U) as (w' & y' & q' & v' & C & En & G).
  exists w', y', q', v'. auto.
Qed.
