(** * What the gaps of constraints do within a call of several sub-steps. *)

From Coq Require Import Reals Lra.
From Verif Require Import Base Targets Sle State Ode Forces Constraints System Logic RealSum SpecMatrix SpecState StateFacts StateReal SpecForces ForceFacts ForceReal SpecCon ConFacts
  SpecSys RegFacts SpecDyn SpecSolve SolveReal SolveStep SpecLaw LawReal LawStep SpecLeast LeastStep SpecDrift DriftReal SpecSwing SwingReal SwingStep SpecRun RunStep.
Local Open Scope nat_scope.

Lemma gap_ext k u u' : (forall p, p < parties k -> u p = u' p) -> gap k u = gap k u' /\ drate k u = drate k u' /\ turning k u = turning k u'.
Proof. intros H. destruct k; cbn [parties] in H; cbn [gap drate turning]; rewrite ?(H 0), ?(H 1) by lia; auto. Qed.
Section S.
Context {dbg : bool}.
Notation T := (RT dbg).
Notation cl := (cell T).
Implicit Types (w : world T) (y : sys T).
Variable priv : nat -> bool.

Lemma near w y kc c p (u u' : nat -> nat -> R) : attached w y -> kinds_are w y kc -> In c (y_cons y) -> p < parties (kc c) ->
  (forall b d, In b (y_bodies y) -> d < 3 -> u b d = u' b d) -> pose_at w u c p = pose_at w u' c p.
Proof.
  intros A K Hc Hp H. destruct (K c Hc) as (_ & _ & Ep). rewrite <- Ep in Hp. destruct (A c p Hc Hp) as (b & Eb & Hb). unfold pose_at, who. rewrite Eb.
  now rewrite (H b 0), (H b 1), (H b 2) by (auto; lia).
Qed.
(** the optimized class: the gap shrinks by 1 - beta in every sub-step *)
Lemma gap_call kc kg (beta dt : R) M w y q v n t :
  stage priv Optimized Symplectic kc kg beta M w y q v -> firm w y M kc -> dt <> 0%R -> 0 < n ->
  exists w' y' q' v', process Optimized (Some dt : cl) n t w y = Ok (w', y') /\ ends w' y q' v' /\
    forall c, In c (y_cons y) -> holds (kc c) = true -> arm (kc c) 0 = 0%R -> arm (kc c) 1 = 0%R ->
      gap (kc c) (pose_at w q' c) = ((1 - beta) ^ n * fst (gap (kc c) (pose_at w q c)), (1 - beta) ^ n * snd (gap (kc c) (pose_at w q c)))%R.
Proof.
  intros SG HR Nd Hn. destruct (run_call priv Optimized Symplectic kc kg beta dt M w y q v n t SG HR Nd Hn) as (w' & y' & qs & vs & ac & E & I0 & ST & En & _).
  exists w', y', (qs n), (vs n). split; [exact E|]. split; [exact En|]. intros c Hc Hk A0 A1.
  assert (Nh : (dt / INR n)%R <> 0%R) by (unfold Rdiv; apply Rmult_integral_contrapositive_currified; [exact Nd|apply Rinv_neq_0_compat, not_0_INR; lia]).
  assert (G : forall i, i <= n -> gap (kc c) (pose_at w (qs i) c) = ((1 - beta) ^ i * fst (gap (kc c) (pose_at w q c)), (1 - beta) ^ i * snd (gap (kc c) (pose_at w q c)))%R).
  { induction i as [|i IH]; intros Hi.
    - destruct (gap_ext (kc c) (pose_at w (qs 0) c) (pose_at w q c)) as (-> & _).
      { intros p Hp. apply (near w y kc); auto; [apply (sg_att SG)|apply (sg_kinds SG)|]. intros b d Hb Hd. now apply I0. }
      cbn [pow]. rewrite !Rmult_1_l. now destruct (gap _ _).
    - destruct (ST i ltac:(lia)) as (x & MV & RW). cbv beta in RW.
      pose proof (obeys_rows w y kc (qs i) (vs (S i)) (beta / (dt / INR n)) (sg_kinds SG) RW c Hc) as O.
      destruct (gap_step (kc c) (pose_at w (qs i) c) (pose_at w (vs (S i)) c) (dt / INR n) beta Nh Hk O) as (rx & ry & E1 & E2).
      rewrite A0, A1 in E2. replace (dt / INR n * (dt / INR n) / 2 * (0 * (q_th (pose_at w (vs (S i)) c 0) * q_th (pose_at w (vs (S i)) c 0)) + 0 * (q_th (pose_at w (vs (S i)) c 1) * q_th (pose_at w (vs (S i)) c 1))))%R with 0%R in E2 by ring.
      assert (Z0 : size (rx, ry) = 0%R) by (pose proof (size_pos (rx, ry)); lra). destruct (size_zero rx ry Z0) as [-> ->].
      rewrite (IH ltac:(lia)) in E1. cbn [fst snd] in E1.
      destruct (gap_ext (kc c) (pose_at w (qs (S i)) c) (fun p => later (pose_at w (qs i) c p) (pose_at w (vs (S i)) c p) (dt / INR n))) as (-> & _).
      { intros p Hp. rewrite <- pose_later. apply (near w y kc); auto; [apply (sg_att SG)|apply (sg_kinds SG)|]. intros b d Hb Hd. now apply MV. }
      rewrite E1. cbn [pow]. f_equal; ring. }
  now apply G.
Qed.
(** the generic class: springs and dampers *)
Lemma swing_call z kc kg (beta dt : R) M w y q v n t : let h := (dt / INR n)%R in
  stage priv Generic z kc kg beta M w y q v -> firm w y M kc -> dt <> 0%R -> 0 < n ->
  exists w' y' q' v', process Generic (Some dt : cl) n t w y = Ok (w', y') /\ ends w' y q' v' /\
    (forall c, In c (y_cons y) -> holds (kc c) = true -> arm (kc c) 0 = 0%R -> arm (kc c) 1 = 0%R -> let f := swing z (ks_of (kc c) 0) (kd_of (kc c) 0) h in
      (fst (gap (kc c) (pose_at w q' c)), fst (drate (kc c) (pose_at w v' c))) = Nat.iter n f (fst (gap (kc c) (pose_at w q c)), fst (drate (kc c) (pose_at w v c))) /\
      (snd (gap (kc c) (pose_at w q' c)), snd (drate (kc c) (pose_at w v' c))) = Nat.iter n f (snd (gap (kc c) (pose_at w q c)), snd (drate (kc c) (pose_at w v c)))) /\
    forall c s, In c (y_cons y) -> turning (kc c) (pose_at w v c) = Some s -> turning (kc c) (pose_at w v' c) = Some (s * (1 - kd_of (kc c) 0 * h) ^ n)%R.
Proof.
  intros h SG HR Nd Hn. destruct (run_call priv Generic z kc kg beta dt M w y q v n t SG HR Nd Hn) as (w' & y' & qs & vs & ac & E & I0 & ST & En & _). fold h in ST.
  exists w', y', (qs n), (vs n). split; [exact E|]. split; [exact En|].
  assert (AS : forall i c, i < n -> In c (y_cons y) -> (forall j, j < rows (kc c) -> asks (kc c) (pose_at w (qs i) c) (pose_at w (vs i) c) (pose_at w (ac (S i)) c) j) /\
    (forall p, p < parties (kc c) -> pose_at w (qs (S i)) c p = later (pose_at w (qs i) c p) (onward z (pose_at w (vs i) c) (pose_at w (ac (S i)) c) h p) h) /\
    (forall p, p < parties (kc c) -> pose_at w (vs (S i)) c p = fast (pose_at w (vs i) c) (pose_at w (ac (S i)) c) h p)).
  { intros i c Hi Hc. destruct (ST i Hi) as (x & MV & RW). destruct (sg_kinds SG c Hc) as (_ & E2 & E3). split; [|split].
    - intros j Hj. pose proof (RW c j Hc ltac:(now rewrite E2)) as Q. cbv beta zeta in Q. rewrite !(along_coord w _ _ c j (kc c) E3) in Q. exact Q.
    - intros p Hp. rewrite (near w y kc c p (qs (S i)) (fun b d => qs i b d + match z with Symplectic => vs i b d + ac (S i) b d * h | Explicit => vs i b d end * h)%R (sg_att SG) (sg_kinds SG) Hc Hp).
      + destruct z; reflexivity.
      + intros b d Hb Hd. destruct (MV b d Hb Hd) as (_ & V & Q). rewrite Q. destruct z; [rewrite V|]; reflexivity.
    - intros p Hp. rewrite (near w y kc c p (vs (S i)) (fun b d => vs i b d + ac (S i) b d * h)%R (sg_att SG) (sg_kinds SG) Hc Hp); [reflexivity|]. intros b d Hb Hd. now apply MV. }
  assert (I1 : forall c p, In c (y_cons y) -> p < parties (kc c) -> pose_at w (qs 0) c p = pose_at w q c p /\ pose_at w (vs 0) c p = pose_at w v c p).
  { intros c p Hc Hp. split; apply (near w y kc); auto; try apply (sg_att SG); try apply (sg_kinds SG); intros b d Hb Hd; now apply I0. }
  split.
  - intros c Hc Hk A0 A1 f.
    assert (G : forall i, i <= n -> (fst (gap (kc c) (pose_at w (qs i) c)), fst (drate (kc c) (pose_at w (vs i) c))) = Nat.iter i f (fst (gap (kc c) (pose_at w q c)), fst (drate (kc c) (pose_at w v c))) /\
      (snd (gap (kc c) (pose_at w (qs i) c)), snd (drate (kc c) (pose_at w (vs i) c))) = Nat.iter i f (snd (gap (kc c) (pose_at w q c)), snd (drate (kc c) (pose_at w v c)))).
    { induction i as [|i IH]; intros Hi.
      - destruct (gap_ext (kc c) (pose_at w (qs 0) c) (pose_at w q c)) as (-> & _); [intros p Hp; now apply I1|].
        destruct (gap_ext (kc c) (pose_at w (vs 0) c) (pose_at w v c)) as (_ & -> & _); [intros p Hp; now apply I1|]. now split.
      - destruct (AS i c ltac:(lia) Hc) as (A & Q & V). destruct (IH ltac:(lia)) as [IH1 IH2].
        destruct (centre_step (kc c) _ _ _ z h Hk A0 A1 A) as [S1 S2]. cbv zeta in S1, S2.
        destruct (gap_ext (kc c) (pose_at w (qs (S i)) c) _ Q) as (-> & _). destruct (gap_ext (kc c) (pose_at w (vs (S i)) c) _ V) as (_ & -> & _).
        rewrite S1, S2, IH1, IH2. now split. }
    now apply G.
  - intros c s Hc Ht. assert (Hr : 0 < rows (kc c)) by (destruct (kc c); cbn; lia).
    assert (G : forall i, i <= n -> turning (kc c) (pose_at w (vs i) c) = Some (s * (1 - kd_of (kc c) 0 * h) ^ i)%R).
    { induction i as [|i IH]; intros Hi.
      - destruct (gap_ext (kc c) (pose_at w (vs 0) c) (pose_at w v c)) as (_ & _ & ->); [intros p Hp; now apply I1|]. rewrite Ht. cbn [pow]. f_equal. ring.
      - destruct (AS i c ltac:(lia) Hc) as (A & _ & V). destruct (gap_ext (kc c) (pose_at w (vs (S i)) c) _ V) as (_ & _ & ->).
        rewrite (turning_step (kc c) _ _ _ h _ (A 0 Hr) (IH ltac:(lia))). cbn [pow]. f_equal. ring. }
    now apply G.
Qed.
End S.
