(** * Motors at work. *)

From Coq Require Import Reals Lra.
From Verif Require Import Base Targets Matrix Sparse Sle State Ode Forces Constraints System Logic RealSum SpecMatrix SpecState SpecForces SpecCon ConFacts SleHist
  SpecSle SpecSys RegFacts RegWit SpecDyn DynState DynReact DynRound DynStep SpecLimits SpecSolve SolveReal SolveStep SolveWit SpecLaw LawReal LawStep Assemble SpecMom MomForce MomStep MomWit
  SpecSub SpecLeast LeastReal LeastStep LeastPart LeastGal LeastWit SpecTurn TurnReal TurnStep TurnWit SpecMotor MotorReal SpecRun RunStep.
Local Open Scope nat_scope.

Section S.
Context {dbg : bool}.
Notation T := (RT dbg).
Notation cl := (cell T).
(** the objects of TurnWit with other generators *)
Definition wG (kc : nat -> rkind) (kg : nat -> dgen) (q v : nat -> nat -> R) : world T :=
  let w0 := wM MD kc (fun _ => VGravity 0) q v in
  {| w_body := w_body w0; w_con := w_con w0; w_gen := fun g => {| g_kind := dgen_of (kg g); g_index := None |} |}.
Definition plain (w : world T) : world T := {| w_body := w_body w; w_con := w_con w; w_gen := fun g => {| g_kind := gen_of (VGravity 0); g_index := None |} |}.
Lemma same_plain kc kg q v w : same_objects (wG kc kg q v) w -> same_objects (wM MD kc (fun _ => VGravity 0) q v) (plain w).
Proof. intros (A & B & C). split; [exact A|]. split; [exact B|]. reflexivity. Qed.

(** any choice of these objects in any order; body o is in no system *)
Lemma scene_d kc kg q v k z bs cs gs o : NoDup bs -> NoDup cs -> NoDup gs -> length bs <= 255 -> cs <> [] ->
  (forall c p, In c cs -> In (bT c p) bs) -> ~ In o bs ->
  (forall g, In g gs -> match kg g with DPlain k => forall b, In b (names k) -> In b bs | DMotor _ _ _ mx b0 b1 => b0 <> b1 /\ (0 <= mx)%R /\ In b1 bs /\ (In b0 bs \/ b0 = o) end) ->
  exists m w y, yreach k nopriv m w y /\ stage nopriv k (match k with Optimized => Symplectic | Generic => z end) kc kg 1%R MD w y q v /\ same_objects (wG kc kg q v) w /\
    y_bodies y = bs /\ y_cons y = cs /\ y_gens y = gs /\ b_index (w_body w o) = (-1)%Z.
Proof.
  intros N1 N2 N3 HN HC HB Ho HG.
  assert (HP : solver_apart nopriv (SleGe geS : sle T)) by (cbn; unfold ifree, sfree, nopriv; repeat split; lia).
  destruct (assembled nopriv k (wG kc kg q v) (SleGe geS) (ode_of z (cofZ 0)) bs cs gs HP N1 N2 N3) as (m & w0 & y & H0 & HS0 & B & C & G & L & O & Bi).
  assert (Nb : in_body m o = false).
  { destruct (in_body m o) eqn:E; [|reflexivity]. pose proof (yreach_reg _ _ _ _ _ H0) as ((_ & X & _) & _). apply X in E. rewrite B in E. contradiction. }
  set (w := set_body w0 o (b_set_index (w_body w0 o) (-1)%Z)).
  assert (H : yreach k nopriv m w y) by (apply y_edit_body; [exact H0|rewrite Nb; discriminate]).
  assert (HS : same_objects (wG kc kg q v) w) by (eapply same_objects_trans; [exact HS0|apply same_set_body]).
  assert (Io : b_index (w_body w o) = (-1)%Z) by (unfold w, set_body; cbn [w_body]; unfold upd; rewrite Nat.eqb_refl; reflexivity).
  pose proof (same_plain kc kg q v w HS) as HP'.
  assert (HB' : forall c p, In c (y_cons y) -> In (bT c p) (y_bodies y)) by (rewrite B, C; exact HB).
  exists m, w, y. split; [exact H|]. split; [|auto 10]. constructor; eauto.
  - destruct k; cbn; [reflexivity|eexists; exact O].
  - exact (T_attached MD kc _ q v (plain w) y HP' HB').
  - exact (T_kinds MD kc _ q v (plain w) y HP').
  - intros g Hg. rewrite G in Hg. destruct HS as (_ & _ & Eg). rewrite Eg. split; [reflexivity|]. specialize (HG g Hg). rewrite B.
    destruct (kg g) as [k0|sp ks kd mx b0 b1]; [exact HG|]. destruct HG as (X1 & X2 & X3 & [X4|X4]); repeat (split; [assumption|]); [now left|]. right. subst b0. auto.
  - unfold body_count. now rewrite B.
  - now rewrite C.
  - exact (T_bodies MD kc _ q v (plain w) y HP' MD_heavy).
Qed.
Lemma scene_firm kg q v k m (w : world T) y : yreach k nopriv m w y -> same_objects (wG kT kg q v) w -> (forall c p, In c (y_cons y) -> In (bT c p) (y_bodies y)) -> (forall c, In c (y_cons y) -> c <= 4) ->
  body_count y <= 255 -> firm w y MD kT.
Proof.
  intros H HS HB HC B q'. pose proof (same_plain kT kg q v w HS) as HP.
  pose proof (T_attached MD kT _ q v (plain w) y HP HB : attached w y) as HA. pose proof (T_kinds MD kT _ q v (plain w) y HP : kinds_are w y kT) as HK.
  apply (independent_regular w y); auto.
  - exact (reg_listed _ _ _ (yreach_reg _ _ _ _ _ H)).
  - exact (kinds_shaped w y kT HK).
  - intros b d _ Hd. destruct d as [|[|[|]]]; cbn; lra || lia.
  - refine (T_independent MD _ q v (plain w) y HP HB HC q' _). now destruct (reach_nodup nopriv _ _ _ _ H) as (_ & N & _).
Qed.

(** bodies 3, 6 and 7; body 3 keeps its angle, a motor turns body 6 against
    body 7, or against body 9, which is in no system *)
Definition gM (inside : bool) (sp ks kd mx : R) (g : nat) : dgen := match g with 0 => DMotor sp ks kd mx (if inside then 7 else 9) 6 | _ => DPlain (VGravity 10) end.
Definition vM (v0 v1 : R) (b d : nat) : R := match b, d with 6, 2 => v1 | 7, 2 => v0 | _, _ => 0%R end.
Lemma calls_plays k (dt : R) ts : forall (w : world T) y, calls_of k (Some dt : cl) ts w y = plays k (map (fun t => (dt, 1, t)) ts) w y.
Proof. induction ts as [|t ts IH]; intros w y; [reflexivity|]. cbn [calls_of map plays]. destruct (process k (Some dt : cl) 1 t w y) as [[w1 y1]| | |]; cbn [bind]; auto. Qed.
Lemma motor_scene k z (inside : bool) (sp ks kd mx v0 v1 : R) : (0 <= mx)%R -> let b0 := if inside then 7 else 9 in let z' := match k with Optimized => Symplectic | Generic => z end in
  exists m (w : world T) y, yreach k nopriv m w y /\ attached w y /\ shaped w y /\ uses k z' y /\ In 6 (y_bodies y) /\
    motor_on w y 0 b0 6 sp ks kd mx /\ turns w y b0 (if inside then v0 else 0%R) (if inside then / 3 else 0)%R /\ turns w y 6 v1 (/ 3)%R /\
    y_cons y = [3] /\ y_gens y = [0; 1] /\
    stage nopriv k z' kT (gM inside sp ks kd mx) 1%R MD w y qD (vM v0 v1) /\ firm w y MD kT /\
    (forall (dt : R) n t, dt <> 0%R -> 0 < n -> exists w' y', process k (Some dt : cl) n t w y = Ok (w', y')) /\
    forall (dt : R) ts, dt <> 0%R -> exists w' y', calls_of k (Some dt : cl) ts w y = Ok (w', y').
Proof.
  intros Hm b0 z'.
  assert (X : exists m (w : world T) y, yreach k nopriv m w y /\ stage nopriv k z' kT (gM inside sp ks kd mx) 1%R MD w y qD (vM v0 v1) /\
    same_objects (wG kT (gM inside sp ks kd mx) qD (vM v0 v1)) w /\ y_bodies y = [3; 6; 7] /\ y_cons y = [3] /\ y_gens y = [0; 1] /\ b_index (w_body w 9) = (-1)%Z).
  { apply scene_d; [repeat constructor; cbn; intuition lia|repeat constructor; cbn; intuition lia|repeat constructor; cbn; intuition lia|cbn; lia|discriminate| |cbn; lia|].
    - intros c p Hc. cbn in Hc. destruct Hc as [<-|[]]. destruct p; cbn; auto.
    - intros g Hg. cbn in Hg. destruct Hg as [<-|[<-|[]]]; cbn [gM names]; [|intros b []]. destruct inside; cbn; repeat split; auto; lia. }
  destruct X as (m & w & y & H & D & HS & B & C & G & I9).
  assert (HF : firm w y MD kT).
  { apply (scene_firm (gM inside sp ks kd mx) qD (vM v0 v1) k m); auto.
    - rewrite B, C. intros c p [<-|[]]. destruct p; cbn; auto.
    - rewrite C. intros c [<-|[]]. lia.
    - unfold body_count. rewrite B. cbn. lia. }
  assert (EC : forall p, c_bodies (w_con w 3) p = Some 3).
  { intros p. destruct HS as (_ & Ec & _). destruct (Ec 3) as (_ & _ & -> & _). destruct p; reflexivity. }
  assert (TU : forall b, (b = 6 \/ b = 7) -> turns w y b (vM v0 v1 b 2) (/ 3)%R).
  { intros b Hb. left. assert (Ib : In b (y_bodies y)) by (rewrite B; cbn; intuition lia). split; [exact Ib|]. split; [|split].
    - intros c p Hc Hp Eb. rewrite C in Hc. destruct Hc as [<-|[]]. rewrite EC in Eb. injection Eb as <-. lia.
    - exact (proj1 (proj2 (sg_are D b 2 Ib ltac:(lia)))).
    - exists 3%R. split; [lra|]. split; [reflexivity|]. exact (proj1 (proj2 (proj2 (sg_are D b 2 Ib ltac:(lia))))). }
  exists m, w, y. split; [exact H|]. split; [exact (sg_att D)|]. split; [exact (kinds_shaped w y kT (sg_kinds D))|]. split; [exact (sg_uses D)|]. split; [rewrite B; cbn; auto|].
  split; [|split; [|split; [exact (TU 6 (or_introl eq_refl))|split; [exact C|split; [exact G|split; [exact D|split; [exact HF|split]]]]]]].
  - destruct HS as (_ & _ & Eg). split; [rewrite G; cbn; auto|]. split; [rewrite Eg; destruct inside; reflexivity|]. intros g' Hg' N. rewrite G in Hg'. destruct Hg' as [<-|[<-|[]]]; [contradiction|].
    exists 10%R. rewrite Eg. reflexivity.
  - unfold b0. destruct inside; [exact (TU 7 (or_intror eq_refl))|]. right. split; [rewrite B; cbn; lia|]. auto.
  - intros dt n t Nd Hn. destruct (run_call nopriv k z' kT _ 1%R dt MD w y qD _ n t D HF Nd Hn) as (w' & y' & _ & _ & _ & E & _). eauto.
  - intros dt ts Nd. destruct (run_calls nopriv k z' kT _ 1%R MD (map (fun t => (dt, 1, t)) ts) w y qD _ D HF) as (w' & y' & _ & _ & E & _).
    + intros dt' n t Hi. apply in_map_iff in Hi. destruct Hi as (t' & E & _). injection E as <- <- _. split; [exact Nd|lia].
    + exists w', y'. now rewrite calls_plays.
Qed.
End S.
