(** * Motors at work with a fourth-order solver. *)

From Coq Require Import Reals Lra.
From Verif Require Import Base Targets Matrix Sparse Sle State Ode Forces Constraints System Logic RealSum SpecMatrix SpecState SpecForces SpecCon ConFacts SleHist
  SpecSle SpecSys RegFacts RegWit SpecDyn DynState DynReact DynRound DynStep SpecLimits SpecSolve SolveReal SolveStep SolveWit SpecLaw LawReal LawStep Assemble SpecMom MomForce MomStep MomWit SpecRk
  SpecSub SpecLeast LeastReal LeastStep LeastPart LeastGal LeastWit SpecTurn TurnReal TurnStep TurnWit SpecMotor MotorReal SpecRun RunStep MotorWit SpecFour FourReal SpecSpin.
Local Open Scope nat_scope.

Section S.
Context {dbg : bool}.
Notation T := (RT dbg).
Notation cl := (cell T).
(** any choice of the objects of TurnWit in any order; body o is in no system *)
Lemma scene_four kc kg q v bs cs gs o : NoDup bs -> NoDup cs -> NoDup gs -> length bs <= 255 -> cs <> [] -> bs <> [] ->
  (forall c p, In c cs -> In (bT c p) bs) -> ~ In o bs ->
  (forall g, In g gs -> match kg g with DPlain k => forall b, In b (names k) -> In b bs | DMotor _ _ _ mx b0 b1 => b0 <> b1 /\ (0 <= mx)%R /\ In b1 bs /\ (In b0 bs \/ b0 = o) end) ->
  exists m (w : world T) y, yreach Generic nopriv m w y /\ stage_four nopriv kc kg MD w y q v /\ same_objects (wG kc kg q v) w /\
    y_bodies y = bs /\ y_cons y = cs /\ y_gens y = gs /\ b_index (w_body w o) = (-1)%Z.
Proof.
  intros N1 N2 N3 HN HC HB0 HB Ho HG.
  assert (HP : solver_apart nopriv (SleGe geS : sle T)) by (cbn; unfold ifree, sfree, nopriv; repeat split; lia).
  destruct (assembled_from (tg := T) nopriv Generic (wG kc kg q v) (SleGe geS) (OdeRk4 rk4_new) bs cs gs HP N1 N2 N3) as (m & w0 & y & H0 & HS0 & B & C & G & L & O & _ & _ & y0 & I0 & R0).
  assert (LO : lone nopriv y).
  { apply (lone_other nopriv y0); [|apply R0|apply R0]. eapply lone_initialize; [apply lone_created| |exact I0]. intros r E. now injection E as ->. }
  assert (Nb : in_body m o = false).
  { destruct (in_body m o) eqn:E; [|reflexivity]. pose proof (yreach_reg _ _ _ _ _ H0) as ((_ & X & _) & _). apply X in E. rewrite B in E. contradiction. }
  set (w := set_body w0 o (b_set_index (w_body w0 o) (-1)%Z)).
  assert (H : yreach Generic nopriv m w y) by (apply y_edit_body; [exact H0|rewrite Nb; discriminate]).
  assert (HS : same_objects (wG kc kg q v) w) by (eapply same_objects_trans; [exact HS0|apply same_set_body]).
  assert (Io : b_index (w_body w o) = (-1)%Z) by (unfold w, set_body; cbn [w_body]; unfold upd; rewrite Nat.eqb_refl; reflexivity).
  pose proof (same_plain kc kg q v w HS) as HP'.
  assert (HB' : forall c p, In c (y_cons y) -> In (bT c p) (y_bodies y)) by (rewrite B, C; exact HB).
  exists m, w, y. split; [exact H|]. split; [|auto 10]. constructor; eauto.
  - exact (T_attached MD kc _ q v (plain w) y HP' HB').
  - exact (T_kinds MD kc _ q v (plain w) y HP').
  - intros g Hg. rewrite G in Hg. destruct HS as (_ & _ & Eg). rewrite Eg. split; [reflexivity|]. specialize (HG g Hg). rewrite B.
    destruct (kg g) as [k0|sp ks kd mx b0 b1]; [exact HG|]. destruct HG as (X1 & X2 & X3 & [X4|X4]); repeat (split; [assumption|]); [now left|]. right. subst b0. auto.
  - unfold body_count. now rewrite B.
  - now rewrite C.
  - now rewrite B.
  - exact (T_bodies MD kc _ q v (plain w) y HP' MD_heavy).
Qed.
(** the bodies of MotorWit: a motor turns body 6 against body 7, or against body 9, which is in no system *)
Lemma spin_scene (inside : bool) (sp ks kd mx v0 v1 : R) : (0 <= mx)%R -> let b0 := if inside then 7 else 9 in
  exists (w : world T) y, driven_four nopriv w y 0 b0 6 sp ks kd mx /\ turns w y b0 (if inside then v0 else 0%R) (if inside then / 3 else 0)%R /\ turns w y 6 v1 (/ 3)%R /\
    y_cons y = [3] /\ y_gens y = [0; 1] /\ stage_four nopriv kT (gM inside sp ks kd mx) MD w y qD (vM v0 v1) /\ firm w y MD kT /\
    forall l, (forall dt n t, In (dt, n, t) l -> 0 < n) -> exists w' y', plays Generic l w y = Ok (w', y').
Proof.
  intros Hm b0.
  assert (X : exists m (w : world T) y, yreach Generic nopriv m w y /\ stage_four nopriv kT (gM inside sp ks kd mx) MD w y qD (vM v0 v1) /\
    same_objects (wG kT (gM inside sp ks kd mx) qD (vM v0 v1)) w /\ y_bodies y = [3; 6; 7] /\ y_cons y = [3] /\ y_gens y = [0; 1] /\ b_index (w_body w 9) = (-1)%Z).
  { apply scene_four; [repeat constructor; cbn; intuition lia|repeat constructor; cbn; intuition lia|repeat constructor; cbn; intuition lia|cbn; lia|discriminate|discriminate| |cbn; lia|].
    - intros c p Hc. cbn in Hc. destruct Hc as [<-|[]]. destruct p; cbn; auto.
    - intros g Hg. cbn in Hg. destruct Hg as [<-|[<-|[]]]; cbn [gM names]; [|intros b []]. destruct inside; cbn; repeat split; auto; lia. }
  destruct X as (m & w & y & H & D & HS & B & C & G & I9).
  assert (HF : firm w y MD kT).
  { apply (scene_firm (gM inside sp ks kd mx) qD (vM v0 v1) Generic m); auto.
    - rewrite B, C. intros c p [<-|[]]. destruct p; cbn; auto.
    - rewrite C. intros c [<-|[]]. lia.
    - unfold body_count. rewrite B. cbn. lia. }
  assert (EC : forall p, c_bodies (w_con w 3) p = Some 3).
  { intros p. destruct HS as (_ & Ec & _). destruct (Ec 3) as (_ & _ & -> & _). destruct p; reflexivity. }
  assert (TU : forall b, (b = 6 \/ b = 7) -> turns w y b (vM v0 v1 b 2) (/ 3)%R).
  { intros b Hb. left. assert (Ib : In b (y_bodies y)) by (rewrite B; cbn; intuition lia). split; [exact Ib|]. split; [|split].
    - intros c p Hc Hp Eb. rewrite C in Hc. destruct Hc as [<-|[]]. rewrite EC in Eb. injection Eb as <-. lia.
    - exact (proj1 (proj2 (sf_are D b 2 Ib ltac:(lia)))).
    - exists 3%R. split; [lra|]. split; [reflexivity|]. exact (proj1 (proj2 (proj2 (sf_are D b 2 Ib ltac:(lia))))). }
  exists w, y. split; [|split; [|split; [exact (TU 6 (or_introl eq_refl))|split; [exact C|split; [exact G|split; [exact D|split; [exact HF|]]]]]]].
  - split; [now exists m|]. split; [exact (sf_att D)|]. split; [exact (kinds_shaped w y kT (sf_kinds D))|]. split; [exact (sf_lone D)|]. split; [exact (sf_ode D)|]. split; [rewrite B; cbn; auto|].
    split; [unfold b0; destruct inside; lia|]. destruct HS as (_ & _ & Eg). split; [rewrite G; cbn; auto|]. split; [rewrite Eg; destruct inside; reflexivity|].
    intros g' Hg' N. rewrite G in Hg'. destruct Hg' as [<-|[<-|[]]]; [contradiction|]. exists 10%R. rewrite Eg. reflexivity.
  - unfold b0. destruct inside; [exact (TU 7 (or_intror eq_refl))|]. right. split; [rewrite B; cbn; lia|]. auto.
  - intros l Hl. destruct (four_calls nopriv kT _ MD l w y qD _ D HF Hl) as (w' & y' & _ & _ & E & _). eauto.
Qed.
Lemma four_scene : exists (w : world T) y, stage_four nopriv kT (gM true 5 2 1 3) MD w y qD (vM 1 2) /\ firm w y MD kT /\ y_cons y = [3] /\ y_gens y = [0; 1].
Proof. destruct (spin_scene true 5 2 1 3 1 2 ltac:(lra)) as (w & y & _ & _ & _ & C & G & D & F & _). exists w, y. auto. Qed.
Lemma spin_works (inside : bool) (sp ks kd mx v0 v1 : R) : (0 <= mx)%R -> let b0 := if inside then 7 else 9 in
  exists (w : world T) y, driven_four nopriv w y 0 b0 6 sp ks kd mx /\ turns w y b0 (if inside then v0 else 0%R) (if inside then / 3 else 0)%R /\ turns w y 6 v1 (/ 3)%R /\
    forall l, (forall dt n t, In (dt, n, t) l -> 0 < n) -> exists w' y', plays Generic l w y = Ok (w', y').
Proof. intros Hm b0. destruct (spin_scene inside sp ks kd mx v0 v1 Hm) as (w & y & D & A & B & _ & _ & _ & _ & E). exists w, y. auto. Qed.
End S.
