(** * A motor that swings for ever in the other schemes. *)

From Coq Require Import Reals Lra.
From Verif Require Import Base Targets State Forces Constraints System SpecState SpecSys RegWit SpecDyn SpecMotor SpecRun SpecSpin SpinReal SpinEnd FourWit.
Local Open Scope nat_scope.

Lemma calm_world dbg (eps : R) : (0 < eps)%R ->
  exists (w : world (RT dbg)) y, driven_four nopriv w y 0 9 6 1%R 6%R 0%R 6%R /\ turns w y 9 0%R 0%R /\ turns w y 6 0%R (/ 3)%R /\
    exists N, forall ts, (N <= length ts)%nat -> exists w' y' v', plays Generic (map (fun t => (1%R, 1, t)) ts) w y = Ok (w', y') /\ turns w' y' 6 v' (/ 3)%R /\ (Rabs (1 - v') < eps)%R.
Proof.
  intros He. destruct (spin_scene (dbg := dbg) false 1 6 0 6 0 0 ltac:(lra)) as (w & y & HD & T0 & T1 & _ & _ & _ & _ & RUN).
  exists w, y. split; [exact HD|]. split; [exact T0|]. split; [exact T1|].
  destruct (spin_reached nopriv 1 1 w y 0 9 6 1 6 6 0 0 0 (/ 3) eps HD T0 T1 ltac:(lia) ltac:(lra) ltac:(lra)) as [N HN]; [cbn [INR]; lra|exact He|].
  exists N. intros ts Hl. destruct (RUN (map (fun t => (1%R, 1, t)) ts)) as (w' & y' & E).
  - intros dt n t Hi. apply in_map_iff in Hi. destruct Hi as (t' & Et & _). injection Et as _ <- _. lia.
  - exists w', y'. destruct (HN ts w' y' Hl E) as (u0 & u1 & U0 & U1 & A). exists u1. split; [exact E|]. split; [exact U1|].
    destruct U0 as [(_ & _ & _ & I & NI & EI & _)|(_ & _ & -> & _)]; [|now rewrite Rminus_0_r in A].
    exfalso. assert (X : (/ I)%R = 0%R) by (symmetry; exact EI). now apply (Rinv_neq_0_compat I NI).
Qed.
