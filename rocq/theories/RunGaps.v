(** * What the gaps of constraints do over any calls. *)

From Coq Require Import Reals Lra.
From Verif Require Import Base Targets Sle State Ode Forces Constraints System Logic RealSum SpecMatrix SpecState StateFacts StateReal SpecForces ForceFacts ForceReal SpecCon ConFacts
  SpecSys RegFacts SpecDyn SpecSolve SolveReal SolveStep SpecLaw LawReal LawStep SpecLeast LeastStep LeastPart SpecDrift DriftReal SpecSwing SwingReal SwingStep SpecRun RunStep RunGap.
Local Open Scope nat_scope.

Section S.
Context {dbg : bool}.
Notation T := (RT dbg).
Notation cl := (cell T).
Implicit Types (w : world T) (y : sys T).
Variable priv : nat -> bool.
Definition same_at w y (u u' : nat -> nat -> R) : Prop := forall b d, In b (y_bodies y) -> d < 3 -> u b d = u' b d.
Lemma ends_same w y q v q' v' : ends w y q v -> ends w y q' v' -> same_at w y q q' /\ same_at w y v v'.
Proof. intros H H'. split; intros b d Hb Hd; destruct (H b d Hb Hd) as [A B], (H' b d Hb Hd) as [A' B']; congruence. Qed.
Lemma process_pose k dt n t w y w' y' u c : process k dt n t w y = Ok (w', y') -> pose_at w' u c = pose_at w u c.
Proof. intros E. pose proof (process_alone _ _ _ _ _ _ _ _ E) as (_ & _ & Fc & _). destruct (Fc c) as (_ & _ & _ & F4 & _). unfold pose_at, who. now rewrite F4. Qed.

Lemma gap_plays kc kg (beta : R) M : forall l w y q v,
  stage priv Optimized Symplectic kc kg beta M w y q v -> firm w y M kc -> (forall dt n t, In (dt, n, t) l -> dt <> 0%R /\ 0 < n) ->
  exists w' y' q' v', plays Optimized l w y = Ok (w', y') /\ ends w' y q' v' /\
    forall c, In c (y_cons y) -> holds (kc c) = true -> arm (kc c) 0 = 0%R -> arm (kc c) 1 = 0%R -> let f := ((1 - beta) ^ subs l)%R in
      gap (kc c) (pose_at w q' c) = (f * fst (gap (kc c) (pose_at w q c)), f * snd (gap (kc c) (pose_at w q c)))%R.
Proof.
  induction l as [|[[dt n] t] l IH]; intros w y q v SG HR HL.
  - exists w, y, q, v. split; [reflexivity|]. split; [exact (are_ends _ _ _ _ _ (sg_are SG))|]. intros c _ _ _ _. cbn [subs pow]. cbv zeta. rewrite !Rmult_1_l. now destruct (gap _ _).
  - destruct (HL dt n t (or_introl eq_refl)) as [Nd Hn].
    destruct (run_call priv Optimized Symplectic kc kg beta dt M w y q v n t SG HR Nd Hn) as (w1 & y1 & qs & vs & ac & E & _ & _ & En & SG1 & HR1 & _ & EB & EC).
    destruct (gap_call priv kc kg beta dt M w y q v n t SG HR Nd Hn) as (w1' & y1' & q1 & v1 & E' & En' & G1). rewrite E in E'. injection E' as <- <-.
    destruct (IH w1 y1 _ _ SG1 HR1) as (w' & y' & q' & v' & E2 & En2 & G2); [intros dt' n' t' Hi; apply (HL dt' n' t'); now right|].
    exists w', y', q', v'. split; [cbn [plays]; now rewrite E|]. split; [intros b d Hb Hd; apply En2; [now rewrite EB|exact Hd]|].
    intros c Hc Hk A0 A1. cbn [subs]. cbv zeta. specialize (G1 c Hc Hk A0 A1). specialize (G2 c ltac:(now rewrite EC) Hk A0 A1). cbv zeta in G2. rewrite !(process_pose _ _ _ _ _ _ _ _ _ c E) in G2.
    assert (X : gap (kc c) (pose_at w (qs n) c) = gap (kc c) (pose_at w q1 c)).
    { apply gap_ext. intros p Hp. apply (near w y kc); auto; [apply (sg_att SG)|apply (sg_kinds SG)|]. intros b d Hb Hd. destruct (En b d Hb Hd) as [A _], (En' b d Hb Hd) as [A' _]. rewrite A in A'. now injection A'. }
    rewrite X, G1 in G2. cbn [fst snd] in G2. rewrite G2, pow_add. f_equal; ring.
Qed.
Lemma turning_plays z kc kg (beta : R) M : forall l w y q v,
  stage priv Generic z kc kg beta M w y q v -> firm w y M kc -> (forall dt n t, In (dt, n, t) l -> dt <> 0%R /\ 0 < n) ->
  exists w' y' q' v', plays Generic l w y = Ok (w', y') /\ ends w' y q' v' /\
    forall c s, In c (y_cons y) -> turning (kc c) (pose_at w v c) = Some s -> turning (kc c) (pose_at w v' c) = Some (s * brakes (kd_of (kc c) 0) l)%R.
Proof.
  induction l as [|[[dt n] t] l IH]; intros w y q v SG HR HL.
  - exists w, y, q, v. split; [reflexivity|]. split; [exact (are_ends _ _ _ _ _ (sg_are SG))|]. intros c s _ E. cbn [brakes]. now rewrite Rmult_1_r.
  - destruct (HL dt n t (or_introl eq_refl)) as [Nd Hn].
    destruct (run_call priv Generic z kc kg beta dt M w y q v n t SG HR Nd Hn) as (w1 & y1 & qs & vs & ac & E & _ & _ & En & SG1 & HR1 & _ & EB & EC).
    destruct (swing_call priv z kc kg beta dt M w y q v n t SG HR Nd Hn) as (w1' & y1' & q1 & v1 & E' & En' & _ & G1). rewrite E in E'. injection E' as <- <-.
    destruct (IH w1 y1 _ _ SG1 HR1) as (w' & y' & q' & v' & E2 & En2 & G2); [intros dt' n' t' Hi; apply (HL dt' n' t'); now right|].
    exists w', y', q', v'. split; [cbn [plays]; now rewrite E|]. split; [intros b d Hb Hd; apply En2; [now rewrite EB|exact Hd]|].
    intros c s Hc Hs. specialize (G1 c s Hc Hs).
    assert (X : turning (kc c) (pose_at w (vs n) c) = turning (kc c) (pose_at w v1 c)).
    { apply gap_ext. intros p Hp. apply (near w y kc); auto; [apply (sg_att SG)|apply (sg_kinds SG)|]. intros b d Hb Hd. destruct (En b d Hb Hd) as [_ A], (En' b d Hb Hd) as [_ A']. rewrite A in A'. now injection A'. }
    specialize (G2 c (s * (1 - kd_of (kc c) 0 * (dt / INR n)) ^ n)%R ltac:(now rewrite EC)). rewrite !(process_pose _ _ _ _ _ _ _ _ _ c E) in G2. rewrite X, G1 in G2. rewrite (G2 eq_refl). f_equal. cbn [brakes]. ring.
Qed.
End S.
