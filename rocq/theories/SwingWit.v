(** * Bodies held by springs, and a brake. *)

From Coq Require Import Reals Lra.
From Verif Require Import Base Targets Matrix Sparse Sle State Ode Forces Constraints System Logic RealSum SpecMatrix SpecState SpecForces SpecCon ConFacts
  SpecSle SpecSys RegFacts RegWit SpecDyn DynState DynReact DynRound DynStep SpecLimits SpecSolve SolveReal SolveStep SolveWit SpecLaw LawReal LawStep Assemble SpecMom MomForce MomStep MomWit
  SpecSub SpecLeast LeastReal LeastStep LeastPart LeastGal LeastWit SpecTurn TurnReal TurnStep TurnWit SpecDrift DriftReal SpecSwing SwingReal SwingStep.
Local Open Scope nat_scope.

(** the centre of body 0 is held at (1,2) without damping, that of body 1 at
    that of body 0, a brake acts on body 2, body 3 keeps its angle *)
Definition kS (c : nat) : rkind :=
  match c with
  | 0 => RFixedPosition 0 0 1 2 100 0
  | 1 => RLink 0 0 0 0 100 10 1
  | 2 => RFriction 2 (-3) 10 1
  | _ => RFixedRotation 1 10 0
  end.
Definition gS (g : nat) : rgen := VGravity 10.
Definition qS (b d : nat) : R := 0%R.
Definition vS (b d : nat) : R := match b, d with 2, 2 => 8%R | 3, 2 => 1%R | _, _ => 0%R end.

Section S.
Context {dbg : bool}.
Notation T := (RT dbg).
Notation cl := (cell T).
Ltac nodup := repeat constructor; cbn; intuition lia.
Section Ind.
Variables (w : world T) (y : sys T).
Hypotheses (HS : same_objects (wM MD kS gS qS vS) w) (C : y_cons y = [0; 1; 2; 3]) (B : y_bodies y = [0; 1; 2; 3]).
Ltac sole := let c := fresh "c" in let p := fresh "p" in let Hc := fresh "Hc" in let E := fresh "E" in
  intros c p Hc ? E; rewrite C in Hc; destruct Hc as [<-|[<-|[<-|[<-|[]]]]]; destruct p as [|[|p]]; cbn in *; try lia; try discriminate E; auto.
Lemma S_independent q' : NoDup (y_cons y) -> independent w y (Jat w kS q').
Proof.
  intros ND x H.
  assert (IC : forall c, c < 4 -> In c (y_cons y)) by (intros c Hc; rewrite C; cbn; lia). assert (IB : forall c, c < 4 -> In c (y_bodies y)) by (intros c Hc; rewrite B; cbn; lia).
  assert (X1 : forall j, j < 2 -> x 1 j = 0%R).
  { intros j Hj. pose proof (H 1 j (IB 1 ltac:(lia)) ltac:(lia)) as A. rewrite (T_alone MD kS gS qS vS w y HS x 1 j 1 1) in A; [|exact ND|apply IC; lia|sole|cbn; lia|reflexivity].
    unfold Jat in A. cbn [kS rows seq] in A. unfold Lsum in A. destruct j as [|[|]]; [| |lia]; cbn [fold_right J_of nth Nat.mul Nat.add] in A; lra. }
  assert (X0 : forall j, j < 2 -> x 0 j = 0%R).
  { intros j Hj. pose proof (H 0 j (IB 0 ltac:(lia)) ltac:(lia)) as A. rewrite (T_alone MD kS gS qS vS w y HS x 0 j 0 0) in A; [|exact ND|apply IC; lia|sole|cbn; lia|reflexivity].
    unfold Jat in A. cbn [kS rows seq] in A. unfold Lsum in A. destruct j as [|[|]]; [| |lia]; cbn [fold_right J_of nth Nat.mul Nat.add] in A; lra. }
  assert (X2 : forall c, c = 2 \/ c = 3 -> x c 0 = 0%R).
  { intros c Hc. assert (Lc : c < 4) by lia. pose proof (H c 2 (IB c Lc) ltac:(lia)) as A.
    rewrite (T_alone MD kS gS qS vS w y HS x c 2 c 0) in A; [|exact ND|now apply IC|destruct Hc as [-> | ->]; sole|destruct Hc as [-> | ->]; cbn; lia|destruct Hc as [-> | ->]; reflexivity].
    unfold Jat in A. destruct Hc as [-> | ->]; cbn [kS rows seq] in A; unfold Lsum in A; cbn [fold_right J_of nth Nat.mul Nat.add] in A; lra. }
  intros c j Hc Hj. destruct (T_con MD kS gS qS vS w HS c) as (_ & E & _). rewrite E in Hj. rewrite C in Hc.
  destruct Hc as [<-|[<-|[<-|[<-|[]]]]]; cbn [kS rows] in Hj; auto; replace j with 0 by lia; auto.
Qed.
End Ind.
Lemma sprung z : exists (w : world T) y, side nopriv Generic z kS gS 1%R MD w y qS vS /\ (forall dt ts, unsingular Generic (dt : cl) ts w y MD kS) /\ y_cons y = [0; 1; 2; 3] /\
  gap (kS 0) (pose_at w qS 0) = (-1, -2)%R /\ turning (kS 2) (pose_at w vS 2) = Some 8%R /\ drate (kS 3) (pose_at w vS 3) = (1, 0)%R.
Proof.
  destruct (scene (dbg := dbg) kS gS qS vS Generic z [0; 1; 2; 3] [0; 1; 2; 3] [0]) as (m & w & y & H & D & HS & B & C & G); [nodup|nodup|nodup|cbn; lia|discriminate| |cbn; tauto|].
  { intros c p Hc. cbn in Hc. destruct Hc as [<-|[<-|[<-|[<-|[]]]]]; destruct p; cbn; auto. }
  exists w, y. split; [exact D|]. split; [|split; [exact C|]].
  - intros dt ts. apply (never_singular nopriv Generic dt ts kS MD m w y H (sd_att D) (gens_orderly w y gS (sd_gens D))).
    intros q'. apply (independent_regular w y); auto.
    + exact (reg_listed _ _ _ (yreach_reg _ _ _ _ _ H)).
    + exact (sd_att D).
    + exact (kinds_shaped w y kS (sd_kinds D)).
    + exact (sd_255 D).
    + intros b d _ Hd. destruct d as [|[|[|]]]; cbn; lra || lia.
    + apply (S_independent w y HS C B). now destruct (reach_nodup nopriv _ _ _ _ H) as (_ & N & _).
  - assert (EW : forall c k, who w c k = bT c k) by (intros c k; unfold who; now destruct (T_con MD kS gS qS vS w HS c) as (_ & _ & _ & ->)).
    cbn [gap turning drate kS]. unfold pose_at. rewrite !EW. cbn [bT]. unfold at_x, at_y, world_x, world_y, qS, vS. cbn [q_x q_y q_th]. repeat split; f_equal; lra.
Qed.
(** after n calls of a hundredth of a second *)
Lemma sprung_calls z (t : timing) n : exists (w : world T) y w' y' q' v', side nopriv Generic z kS gS 1%R MD w y qS vS /\
  calls_of Generic (Some (1 / 100)%R : cl) (repeat t n) w y = Ok (w', y') /\ ends w' y q' v' /\
  turning (kS 2) (pose_at w v' 2) = Some (8 * (99 / 100) ^ n)%R /\
  let g := fst (gap (kS 0) (pose_at w q' 0)) in let u := fst (drate (kS 0) (pose_at w v' 0)) in
  match z with Symplectic => g * g <= 400 / 399 | Explicit => u * u + 100 * (g * g) = 100 * (101 / 100) ^ n end%R.
Proof.
  destruct (sprung z) as (w & y & D & U & C & G0 & T2 & _).
  destruct (swing_calls nopriv z kS gS (1 / 100)%R 1%R MD (repeat t n) w y qS vS D (U _ _)) as (w' & y' & q' & v' & E & En & _ & TU).
  destruct (undamped_calls nopriv z kS gS (1 / 100)%R 1%R MD (repeat t n) w y qS vS D (U _ _)) as (w1 & y1 & q1 & v1 & E1 & En1 & X).
  rewrite E in E1. injection E1 as <- <-.
  exists w, y, w', y', q1, v1. split; [exact D|]. split; [exact E|]. split; [exact En1|].
  assert (EV : forall b, In b (y_bodies y) -> forall d, d < 3 -> v' b d = v1 b d).
  { intros b Hb d Hd. destruct (En b d Hb Hd) as [_ A]. destruct (En1 b d Hb Hd) as [_ A']. rewrite A in A'. now injection A'. }
  split.
  - assert (Hc : In 2 (y_cons y)) by (rewrite C; cbn; auto). pose proof (TU 2 _ Hc T2) as Y. rewrite repeat_length in Y. cbn [kS turning pose_at q_th kd_of] in *.
    assert (Ib : In (who w 2 0) (y_bodies y)).
    { destruct (sd_kinds D 2 Hc) as (_ & _ & Ep). destruct (sd_att D 2 0 Hc) as (b & Eb & Ib); [rewrite Ep; cbn; lia|]. unfold who. now rewrite Eb. }
    rewrite <- (EV (who w 2 0) Ib 2 ltac:(lia)).
    rewrite Y. do 2 f_equal. f_equal. lra.
  - assert (Hc : In 0 (y_cons y)) by (rewrite C; cbn; auto).
    assert (Z0 : size (0, 0)%R = 0%R) by (unfold size; cbn [fst snd]; replace (0 * 0 + 0 * 0)%R with 0%R by ring; apply sqrt_0).
    pose proof (X 0 Hc eq_refl Z0 eq_refl eq_refl (@fst R R) (or_introl eq_refl)) as Y. cbv zeta in Y. rewrite G0, repeat_length in Y. cbv zeta.
    set (g := fst (gap (kS 0) (pose_at w q1 0))) in *. set (u := fst (drate (kS 0) (pose_at w v1 0))) in *. cbn [kS ks_of drate pose_at fst] in Y.
    replace (q_x (pose_at w vS 0 0)) with 0%R in Y by (unfold pose_at, vS; cbn [q_x]; destruct (who w 0 0) as [|[|[|[|]]]]; reflexivity).
    destruct z; cbn [kS] in Y.
    + destruct Y as [_ Y]. lra.
    + rewrite Y. replace (1 + 100 * (1 / 100 * (1 / 100)))%R with (101 / 100)%R by field. ring.
Qed.
End S.
