(** * Constraints of the generic class that come to rest over any calls. *)

From Coq Require Import Reals Lra.
From Verif Require Import Base Targets Sle State Ode Forces Constraints System Logic RealSum SpecMatrix SpecState StateFacts StateReal SpecForces ForceFacts ForceReal SpecCon ConFacts
  SpecSys RegFacts SpecDyn SpecSolve SolveReal SolveStep SpecLaw LawReal LawStep SpecLeast LeastStep LeastPart SpecDrift DriftReal SpecSwing SwingReal SwingStep SpecMotor MotorReal SpecRun RunStep RunGap RunGaps SpecDamp DampReal.
Local Open Scope nat_scope.

Section S.
Context {dbg : bool}.
Notation T := (RT dbg).
Notation cl := (cell T).
Implicit Types (w : world T) (y : sys T).
Variable priv : nat -> bool.
Lemma swing_plays z kc kg (beta h : R) M : h <> 0%R -> forall l w y q v,
  stage priv Generic z kc kg beta M w y q v -> firm w y M kc -> (forall dt n t, In (dt, n, t) l -> dt = (INR n * h)%R /\ 0 < n) ->
  exists w' y' q' v', plays Generic l w y = Ok (w', y') /\ ends w' y q' v' /\
    forall c, In c (y_cons y) -> holds (kc c) = true -> arm (kc c) 0 = 0%R -> arm (kc c) 1 = 0%R -> let f := swing z (ks_of (kc c) 0) (kd_of (kc c) 0) h in
      (fst (gap (kc c) (pose_at w q' c)), fst (drate (kc c) (pose_at w v' c))) = Nat.iter (subs l) f (fst (gap (kc c) (pose_at w q c)), fst (drate (kc c) (pose_at w v c))) /\
      (snd (gap (kc c) (pose_at w q' c)), snd (drate (kc c) (pose_at w v' c))) = Nat.iter (subs l) f (snd (gap (kc c) (pose_at w q c)), snd (drate (kc c) (pose_at w v c))).
Proof.
  intros Nh. induction l as [|[[dt n] t] l IH]; intros w y q v SG HR HL.
  - exists w, y, q, v. split; [reflexivity|]. split; [exact (are_ends _ _ _ _ _ (sg_are SG))|]. intros c _ _ _ _. now split.
  - destruct (HL dt n t (or_introl eq_refl)) as [Ed Hn]. assert (Nn : INR n <> 0%R) by (apply not_0_INR; lia).
    assert (Nd : dt <> 0%R) by (rewrite Ed; now apply Rmult_integral_contrapositive).
    destruct (run_call priv Generic z kc kg beta dt M w y q v n t SG HR Nd Hn) as (w1 & y1 & qs & vs & ac & E & _ & _ & En & SG1 & HR1 & _ & EB & EC).
    destruct (swing_call priv z kc kg beta dt M w y q v n t SG HR Nd Hn) as (w1' & y1' & q1 & v1 & E' & En' & G1 & _). rewrite E in E'. injection E' as <- <-.
    replace (dt / INR n)%R with h in G1 by (rewrite Ed; field; exact Nn).
    destruct (IH w1 y1 _ _ SG1 HR1) as (w' & y' & q' & v' & E2 & En2 & G2); [intros dt' n' t' Hi; apply (HL dt' n' t'); now right|].
    exists w', y', q', v'. split; [cbn [plays]; now rewrite E|]. split; [intros b d Hb Hd; apply En2; [now rewrite EB|exact Hd]|].
    intros c Hc Hk A0 A1. specialize (G1 c Hc Hk A0 A1). specialize (G2 c ltac:(now rewrite EC) Hk A0 A1). cbv zeta in G1, G2. cbv zeta. rewrite !(process_pose _ _ _ _ _ _ _ _ _ c E) in G2.
    assert (X : gap (kc c) (pose_at w (qs n) c) = gap (kc c) (pose_at w q1 c)).
    { apply gap_ext. intros p Hp. apply (near w y kc); auto; [apply (sg_att SG)|apply (sg_kinds SG)|]. intros b d Hb Hd. destruct (En b d Hb Hd) as [A _], (En' b d Hb Hd) as [A' _]. rewrite A in A'. now injection A'. }
    assert (X' : drate (kc c) (pose_at w (vs n) c) = drate (kc c) (pose_at w v1 c)).
    { apply gap_ext. intros p Hp. apply (near w y kc); auto; [apply (sg_att SG)|apply (sg_kinds SG)|]. intros b d Hb Hd. destruct (En b d Hb Hd) as [_ A], (En' b d Hb Hd) as [_ A']. rewrite A in A'. now injection A'. }
    destruct G1 as [G1 G1'], G2 as [G2 G2']. rewrite X, X' in G2, G2'. rewrite G1 in G2. rewrite G1' in G2'. cbn [subs]. rewrite (Nat.add_comm n), !iter_plus. now split.
Qed.
End S.
(** with damping: geometrically to rest, at a rate that depends on the strengths
    and the length of the sub-steps alone *)
Lemma settle z (ks kd h : R) : calms z ks kd h -> exists C rho : R, (0 <= C)%R /\ (0 <= rho < 1)%R /\
  forall dbg priv kc kg (beta : R) M l (w : world (RT dbg)) y q v,
    stage priv Generic z kc kg beta M w y q v -> firm w y M kc -> (forall dt n t, In (dt, n, t) l -> dt = (INR n * h)%R /\ 0 < n) ->
    exists w' y' q' v', plays Generic l w y = Ok (w', y') /\ ends w' y q' v' /\
      forall c, In c (y_cons y) -> holds (kc c) = true -> arm (kc c) 0 = 0%R -> arm (kc c) 1 = 0%R -> ks_of (kc c) 0 = ks -> kd_of (kc c) 0 = kd ->
        forall e, e = @fst R R \/ e = @snd R R ->
          (stir (e (gap (kc c) (pose_at w q' c)), e (drate (kc c) (pose_at w v' c))) <= C * rho ^ subs l * stir (e (gap (kc c) (pose_at w q c)), e (drate (kc c) (pose_at w v c))))%R.
Proof.
  intros HC. destruct (swing_calms z ks kd h HC) as (C & rho & A & B & X). exists C, rho. split; [exact A|]. split; [exact B|].
  intros dbg priv kc kg beta M l w y q v SG HR HL.
  assert (Nh : h <> 0%R) by (intros ->; destruct z; cbn in HC; rewrite !Rmult_0_r in HC; lra).
  destruct (swing_plays priv z kc kg beta h M Nh l w y q v SG HR HL) as (w' & y' & q' & v' & E & En & G). exists w', y', q', v'. split; [exact E|]. split; [exact En|].
  intros c Hc Hk A0 A1 <- <- e He. destruct (G c Hc Hk A0 A1) as [G1 G2]. destruct He as [-> | ->]; [rewrite G1|rewrite G2]; apply X.
Qed.
