(** * Calls of several sub-steps, with a spring and a motor. *)

From Coq Require Import Reals Lra.
From Verif Require Import Base Targets Matrix Sparse Sle State Ode Forces Constraints System Logic RealSum SpecMatrix SpecState SpecForces SpecCon ConFacts SleHist
  SpecSle SpecSys RegFacts RegWit SpecDyn DynState DynReact DynRound DynStep SpecLimits SpecSolve SolveReal SolveStep SolveWit SpecLaw LawReal LawStep Assemble SpecMom MomForce MomStep MomWit
  SpecSub SpecLeast LeastReal LeastStep LeastPart LeastGal LeastWit SpecTurn TurnReal TurnStep TurnWit SpecDrift DriftReal SpecSwing SwingReal SwingStep SwingWit SpecMotor SpecRun RunStep RunGap MotorWit.
Local Open Scope nat_scope.

(** the bodies and constraints of SwingWit; a spring between bodies 1 and 2 and
    a motor that turns body 1 against a body that is in no system *)
Definition gR (g : nat) : dgen := match g with 0 => DPlain (VGravity 10) | 1 => DPlain (VSpring rL 1 2) | _ => DMotor 5 2 1 4 9 1 end.

Section S.
Context {dbg : bool}.
Notation T := (RT dbg).
Notation cl := (cell T).
Ltac nodup := repeat constructor; cbn; intuition lia.
Lemma run_scene k z : let z' := match k with Optimized => Symplectic | Generic => z end in
  exists (w : world T) y, stage nopriv k z' kS gR 1%R MD w y qS vS /\ firm w y MD kS /\ y_bodies y = [0; 1; 2; 3] /\ y_cons y = [0; 1; 2; 3] /\ y_gens y = [0; 1; 2] /\
    gap (kS 0) (pose_at w qS 0) = (-1, -2)%R /\ turning (kS 2) (pose_at w vS 2) = Some 8%R.
Proof.
  intros z'. destruct (scene_d (dbg := dbg) kS gR qS vS k z [0; 1; 2; 3] [0; 1; 2; 3] [0; 1; 2] 9) as (m & w & y & H & D & HS & B & C & G & _); [nodup|nodup|nodup|cbn; lia|discriminate| |cbn; lia| |].
  { intros c p Hc. cbn in Hc. destruct Hc as [<-|[<-|[<-|[<-|[]]]]]; destruct p; cbn; auto. }
  { intros g Hg. cbn in Hg. destruct Hg as [<-|[<-|[<-|[]]]]; cbn [gR names]; [intros b []|intros b [<-|[<-|[]]]; cbn; auto|]. split; [lia|]. split; [lra|]. cbn. auto. }
  set (w1 := {| w_body := w_body w; w_con := w_con w; w_gen := fun g => {| g_kind := gen_of (VGravity 10); g_index := None |} |} : world T).
  assert (HS1 : same_objects (wM MD kS gS qS vS) w1) by (destruct HS as (A & A' & _); split; [exact A|split; [exact A'|reflexivity]]).
  exists w, y. split; [exact D|]. split; [|split; [exact B|split; [exact C|split; [exact G|]]]].
  - intros q'. apply (independent_regular w y); auto.
    + exact (reg_listed _ _ _ (yreach_reg _ _ _ _ _ H)).
    + exact (sg_att D).
    + exact (kinds_shaped w y kS (sg_kinds D)).
    + exact (sg_255 D).
    + intros b d _ Hd. destruct d as [|[|[|]]]; cbn; lra || lia.
    + refine (S_independent w1 y HS1 C B q' _). now destruct (reach_nodup nopriv _ _ _ _ H) as (_ & N & _).
  - assert (EW : forall c k, who w c k = bT c k) by (intros c j; change (who w c j) with (who w1 c j); unfold who; now destruct (T_con MD kS gS qS vS w1 HS1 c) as (_ & _ & _ & ->)).
    cbn [gap turning kS]. unfold pose_at. rewrite !EW. cbn [bT]. unfold at_x, at_y, world_x, world_y, qS, vS. cbn [q_x q_y q_th]. repeat split; f_equal; lra.
Qed.
(** any calls at all *)
Lemma run_plays k z l : (forall dt n t, In (dt, n, t) l -> dt <> 0%R /\ 0 < n) -> exists (w : world T) y w' y' q' v',
  y_cons y = [0; 1; 2; 3] /\ y_gens y = [0; 1; 2] /\ plays k l w y = Ok (w', y') /\ ends w' y q' v' /\ firm w' y' MD kS /\ stage nopriv k (match k with Optimized => Symplectic | Generic => z end) kS gR 1%R MD w' y' q' v'.
Proof.
  intros HL. destruct (run_scene k z) as (w & y & D & HF & _ & C & G & _).
  destruct (run_calls nopriv k _ kS gR 1%R MD l w y qS vS D HF HL) as (w' & y' & q' & v' & E & En & X & Y). exists w, y, w', y', q', v'. auto 10.
Qed.
End S.
