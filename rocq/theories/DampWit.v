(** * A body held at an angle, with any strengths. *)

From Coq Require Import Reals Lra.
From Verif Require Import Base Targets Matrix Sparse Sle State Ode Forces Constraints System Logic RealSum SpecMatrix SpecState SpecForces SpecCon ConFacts SleHist
  SpecSle SpecSys RegFacts RegWit SpecDyn DynState DynReact DynRound DynStep SpecLimits SpecSolve SolveReal SolveStep SolveWit SpecLaw LawReal LawStep Assemble SpecMom MomForce MomStep MomWit
  SpecSub SpecLeast LeastReal LeastStep LeastPart LeastGal LeastWit SpecTurn TurnReal TurnStep TurnWit SpecDrift DriftReal SpecSwing SwingReal SwingStep SpecMotor SpecRun RunStep RunGap MotorWit SpecDamp DampReal DampRun.
Local Open Scope nat_scope.

(** body 0 keeps its angle at 0; nothing else acts *)
Definition kD (ks kd : R) (c : nat) : rkind := RFixedRotation 0 ks kd.
Definition gD (g : nat) : dgen := DPlain (VGravity 10).
Definition qD (g : R) (b d : nat) : R := match d with 2 => g | _ => 0%R end.

Section S.
Context {dbg : bool}.
Notation T := (RT dbg).
Notation cl := (cell T).
Ltac nodup := repeat constructor; cbn; intuition lia.
Lemma damp_scene z (ks kd g u : R) : exists (w : world T) y, stage nopriv Generic z (kD ks kd) gD 1%R MD w y (qD g) (qD u) /\ firm w y MD (kD ks kd) /\
  y_bodies y = [0] /\ y_cons y = [0] /\ y_gens y = [0] /\ forall q, pose_at w q 0 0 = {| q_x := q 0 0; q_y := q 0 1; q_th := q 0 2 |}.
Proof.
  destruct (scene_d (dbg := dbg) (kD ks kd) gD (qD g) (qD u) Generic z [0] [0] [0] 9) as (m & w & y & H & D & HS & B & C & G & _); [nodup|nodup|nodup|cbn; lia|discriminate| |cbn; lia| |].
  { intros c p Hc. cbn in Hc. destruct Hc as [<-|[]]; destruct p; cbn; auto. }
  { intros i Hg. cbn in Hg. destruct Hg as [<-|[]]; cbn [gD names]. intros b []. }
  set (w1 := {| w_body := w_body w; w_con := w_con w; w_gen := fun g => {| g_kind := gen_of (VGravity 10); g_index := None |} |} : world T).
  assert (HS1 : same_objects (wM MD (kD ks kd) (fun _ => VGravity 10) (qD g) (qD u)) w1) by (destruct HS as (A & A' & _); split; [exact A|split; [exact A'|reflexivity]]).
  assert (EW : forall c k, who w c k = bT c k) by (intros c j; change (who w c j) with (who w1 c j); unfold who; now destruct (T_con MD (kD ks kd) (fun _ => VGravity 10) (qD g) (qD u) w1 HS1 c) as (_ & _ & _ & ->)).
  exists w, y. split; [exact D|]. split; [|split; [exact B|split; [exact C|split; [exact G|]]]].
  - intros q'. apply (independent_regular w y); auto.
    + exact (reg_listed _ _ _ (yreach_reg _ _ _ _ _ H)).
    + exact (sg_att D).
    + exact (kinds_shaped w y (kD ks kd) (sg_kinds D)).
    + exact (sg_255 D).
    + intros b d _ Hd. destruct d as [|[|[|]]]; cbn; lra || lia.
    + intros x Hx. assert (ND : NoDup (y_cons y)) by now destruct (reach_nodup nopriv _ _ _ _ H) as (_ & N & _).
      pose proof (Hx 0 2 ltac:(rewrite B; now left) ltac:(lia)) as A. change (acts w y (Jat w1 (kD ks kd) q') x 0 2 = 0%R) in A.
      change (acts w1 y (Jat w1 (kD ks kd) q') x 0 2 = 0%R) in A.
      rewrite (T_alone MD (kD ks kd) (fun _ => VGravity 10) (qD g) (qD u) w1 y HS1 x 0 2 0 0) in A; [|exact ND|rewrite C; now left| |cbn; lia|reflexivity].
      2: { intros c p Hc Hp _. rewrite C in Hc. destruct Hc as [<-|[]]. cbn in Hp. left. lia. }
      unfold Jat in A. cbn [kD rows seq] in A. unfold Lsum in A. cbn [fold_right J_of nth Nat.mul Nat.add] in A.
      intros c j Hc Hj. rewrite C in Hc. destruct Hc as [<-|[]]. change (c_count (w_con w 0)) with (c_count (w_con w1 0)) in Hj.
      destruct (T_con MD (kD ks kd) (fun _ => VGravity 10) (qD g) (qD u) w1 HS1 0) as (_ & E & _). rewrite E in Hj. cbn [kD rows] in Hj. replace j with 0 by lia. unfold kD in A. cbn [J_of nth] in A. lra.
  - intros q. unfold pose_at. now rewrite EW.
Qed.
(** without it: some start stays away from rest for ever *)
Lemma last z (ks kd h : R) : ~ calms z ks kd h -> h <> 0%R -> exists (w : world T) y q v k, (0 < k)%R /\
  stage nopriv Generic z (kD ks kd) gD 1%R MD w y q v /\ firm w y MD (kD ks kd) /\ y_cons y = [0] /\ y_bodies y = [0] /\
  forall l, (forall dt n t, In (dt, n, t) l -> dt = (INR n * h)%R /\ 0 < n) ->
    exists w' y' q' v', plays Generic l w y = Ok (w', y') /\ ends w' y q' v' /\ Rle k (stir (q' 0 2, v' 0 2)).
Proof.
  intros HN Nh. destruct (swing_lasts z ks kd h HN) as ([g u] & k & Hk & Hx & HI).
  destruct (damp_scene z ks kd g u) as (w & y & SG & HR & B & C & _ & EP).
  exists w, y, (qD g), (qD u), k. split; [exact Hk|]. split; [exact SG|]. split; [exact HR|]. split; [exact C|]. split; [exact B|]. intros l HL.
  destruct (swing_plays nopriv z (kD ks kd) gD 1%R h MD Nh l w y _ _ SG HR HL) as (w' & y' & q' & v' & E & En & G). exists w', y', q', v'. split; [exact E|]. split; [exact En|].
  destruct (G 0 ltac:(rewrite C; now left) eq_refl eq_refl eq_refl) as [G1 _]. cbv zeta in G1. cbn [gap drate kD ks_of kd_of] in G1. rewrite !EP in G1. cbn [q_th fst qD] in G1.
  specialize (HI (subs l)). replace (g - 0)%R with g in G1 by ring. replace (Rminus (q' 0 2) 0) with (q' 0 2) in G1 by ring. rewrite <- G1 in HI. exact HI.
Qed.
(** turned by 1 and at rest, with ks = 100, kd = 10 and sub-steps of a hundredth of a second *)
Lemma damped z : exists (w : world T) y, stage nopriv Generic z (kD 100 10) gD 1%R MD w y (qD 1) (qD 0) /\ firm w y MD (kD 100 10) /\ y_cons y = [0] /\ y_bodies y = [0] /\ calms z 100 10 (1 / 100) /\
  forall eps, (0 < eps)%R -> exists N, forall l, N <= subs l -> (forall dt n t, In (dt, n, t) l -> dt = (INR n * (1 / 100))%R /\ 0 < n) ->
    exists w' y' q' v', plays Generic l w y = Ok (w', y') /\ ends w' y q' v' /\ Rle (stir (q' 0 2, v' 0 2)) eps.
Proof.
  assert (HC : calms z 100 10 (1 / 100)) by (destruct z; cbn; lra).
  destruct (damp_scene z 100 10 1 0) as (w & y & SG & HR & B & C & _ & EP). exists w, y. split; [exact SG|]. split; [exact HR|]. split; [exact C|]. split; [exact B|]. split; [exact HC|].
  destruct (settle z 100 10 (1 / 100) HC) as (K & rho & HK & Hr & X). intros eps He.
  destruct (pow_lt_1_zero rho ltac:(rewrite Rabs_pos_eq; lra) (eps / (K + 1)) ltac:(apply Rdiv_lt_0_compat; lra)) as (N & HN). exists N. intros l Hl HL.
  destruct (X dbg nopriv (kD 100 10) gD 1%R MD l w y _ _ SG HR HL) as (w' & y' & q' & v' & E & En & G). exists w', y', q', v'. split; [exact E|]. split; [exact En|].
  specialize (G 0 ltac:(rewrite C; now left) eq_refl eq_refl eq_refl eq_refl eq_refl _ (or_introl eq_refl)). unfold stir in G. cbn [gap drate kD fst snd] in G. rewrite !EP in G. cbn [q_th qD] in G.
  specialize (HN (subs l) Hl). assert (P : (0 <= rho ^ subs l)%R) by (apply pow_le; lra). rewrite Rabs_pos_eq in HN by exact P.
  assert (Q : ((K + 1) * rho ^ subs l <= eps)%R). { left. apply Rmult_lt_reg_r with (/ (K + 1))%R; [apply Rinv_0_lt_compat; lra|]. replace ((K + 1) * rho ^ subs l * / (K + 1))%R with (rho ^ subs l)%R by (field; lra). exact HN. }
  unfold stir. cbn [fst snd]. lra.
Qed.
End S.
