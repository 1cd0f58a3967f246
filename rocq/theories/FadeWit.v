(** * Bodies held by springs with dampers, and a brake. *)

From Coq Require Import Reals Lra.
From Verif Require Import Base Targets Matrix Sparse Sle State Ode Forces Constraints System Logic RealSum SpecMatrix SpecState SpecForces SpecCon ConFacts
  SpecSle SpecSys RegFacts RegWit SpecDyn DynState DynReact DynRound DynStep SpecLimits SpecSolve SolveReal SolveStep SolveWit SpecLaw LawReal LawStep Assemble SpecMom MomForce MomStep MomWit
  SpecSub SpecLeast LeastReal LeastStep LeastPart LeastGal LeastWit SpecTurn TurnReal TurnStep TurnWit SpecDrift DriftReal SpecSwing SwingReal SwingStep SpecFade FadeReal FadeRun.
Local Open Scope nat_scope.

(** the centre of body 0 is held at (1,2) by a spring of strength 100 with a damper of 12, that of body 1 at
    that of body 0, a brake acts on body 2, body 3 keeps its angle *)
Definition kF (c : nat) : rkind :=
  match c with
  | 0 => RFixedPosition 0 0 1 2 100 12
  | 1 => RLink 0 0 0 0 100 10 1
  | 2 => RFriction 2 (-3) 10 1
  | _ => RFixedRotation 1 10 0
  end.
Definition gF (g : nat) : rgen := VGravity 10.
Definition qF (b d : nat) : R := 0%R.
Definition vF (b d : nat) : R := match b, d with 2, 2 => 8%R | 3, 2 => 1%R | _, _ => 0%R end.

Section S.
Context {dbg : bool}.
Notation T := (RT dbg).
Notation cl := (cell T).
Ltac nodup := repeat constructor; cbn; intuition lia.
Section Ind.
Variables (w : world T) (y : sys T).
Hypotheses (HS : same_objects (wM MD kF gF qF vF) w) (C : y_cons y = [0; 1; 2; 3]) (B : y_bodies y = [0; 1; 2; 3]).
Ltac sole := let c := fresh "c" in let p := fresh "p" in let Hc := fresh "Hc" in let E := fresh "E" in
  intros c p Hc ? E; rewrite C in Hc; destruct Hc as [<-|[<-|[<-|[<-|[]]]]]; destruct p as [|[|p]]; cbn in *; try lia; try discriminate E; auto.
Lemma F_independent q' : NoDup (y_cons y) -> independent w y (Jat w kF q').
Proof.
  intros ND x H.
  assert (IC : forall c, c < 4 -> In c (y_cons y)) by (intros c Hc; rewrite C; cbn; lia). assert (IB : forall c, c < 4 -> In c (y_bodies y)) by (intros c Hc; rewrite B; cbn; lia).
  assert (X1 : forall j, j < 2 -> x 1 j = 0%R).
  { intros j Hj. pose proof (H 1 j (IB 1 ltac:(lia)) ltac:(lia)) as A. rewrite (T_alone MD kF gF qF vF w y HS x 1 j 1 1) in A; [|exact ND|apply IC; lia|sole|cbn; lia|reflexivity].
    unfold Jat in A. cbn [kF rows seq] in A. unfold Lsum in A. destruct j as [|[|]]; [| |lia]; cbn [fold_right J_of nth Nat.mul Nat.add] in A; lra. }
  assert (X0 : forall j, j < 2 -> x 0 j = 0%R).
  { intros j Hj. pose proof (H 0 j (IB 0 ltac:(lia)) ltac:(lia)) as A. rewrite (T_alone MD kF gF qF vF w y HS x 0 j 0 0) in A; [|exact ND|apply IC; lia|sole|cbn; lia|reflexivity].
    unfold Jat in A. cbn [kF rows seq] in A. unfold Lsum in A. destruct j as [|[|]]; [| |lia]; cbn [fold_right J_of nth Nat.mul Nat.add] in A; lra. }
  assert (X2 : forall c, c = 2 \/ c = 3 -> x c 0 = 0%R).
  { intros c Hc. assert (Lc : c < 4) by lia. pose proof (H c 2 (IB c Lc) ltac:(lia)) as A.
    rewrite (T_alone MD kF gF qF vF w y HS x c 2 c 0) in A; [|exact ND|now apply IC|destruct Hc as [-> | ->]; sole|destruct Hc as [-> | ->]; cbn; lia|destruct Hc as [-> | ->]; reflexivity].
    unfold Jat in A. destruct Hc as [-> | ->]; cbn [kF rows seq] in A; unfold Lsum in A; cbn [fold_right J_of nth Nat.mul Nat.add] in A; lra. }
  intros c j Hc Hj. destruct (T_con MD kF gF qF vF w HS c) as (_ & E & _). rewrite E in Hj. rewrite C in Hc.
  destruct Hc as [<-|[<-|[<-|[<-|[]]]]]; cbn [kF rows] in Hj; auto; replace j with 0 by lia; auto.
Qed.
End Ind.
Lemma faded z : exists (w : world T) y, side nopriv Generic z kF gF 1%R MD w y qF vF /\ (forall dt ts, unsingular Generic (dt : cl) ts w y MD kF) /\ y_cons y = [0; 1; 2; 3] /\
  gap (kF 0) (pose_at w qF 0) = (-1, -2)%R /\ turning (kF 2) (pose_at w vF 2) = Some 8%R /\ drate (kF 3) (pose_at w vF 3) = (1, 0)%R.
Proof.
  destruct (scene (dbg := dbg) kF gF qF vF Generic z [0; 1; 2; 3] [0; 1; 2; 3] [0]) as (m & w & y & H & D & HS & B & C & G); [nodup|nodup|nodup|cbn; lia|discriminate| |cbn; tauto|].
  { intros c p Hc. cbn in Hc. destruct Hc as [<-|[<-|[<-|[<-|[]]]]]; destruct p; cbn; auto. }
  exists w, y. split; [exact D|]. split; [|split; [exact C|]].
  - intros dt ts. apply (never_singular nopriv Generic dt ts kF MD m w y H (sd_att D) (gens_orderly w y gF (sd_gens D))).
    intros q'. apply (independent_regular w y); auto.
    + exact (reg_listed _ _ _ (yreach_reg _ _ _ _ _ H)).
    + exact (sd_att D).
    + exact (kinds_shaped w y kF (sd_kinds D)).
    + exact (sd_255 D).
    + intros b d _ Hd. destruct d as [|[|[|]]]; cbn; lra || lia.
    + apply (F_independent w y HS C B). now destruct (reach_nodup nopriv _ _ _ _ H) as (_ & N & _).
  - assert (EW : forall c k, who w c k = bT c k) by (intros c k; unfold who; now destruct (T_con MD kF gF qF vF w HS c) as (_ & _ & _ & ->)).
    cbn [gap turning drate kF]. unfold pose_at. rewrite !EW. cbn [bT]. unfold at_x, at_y, world_x, world_y, qF, vF. cbn [q_x q_y q_th]. repeat split; f_equal; lra.
Qed.
(** n calls of a hundredth of a second *)
Lemma faded_calls z (t : timing) n : exists (w : world T) y w' y' q' v', side nopriv Generic z kF gF 1%R MD w y qF vF /\
  calls_of Generic (Some (1 / 100)%R : cl) (repeat t n) w y = Ok (w', y') /\ ends w' y q' v' /\
  (let s := INR n * (1 / 100) in let x' := (fst (gap (kF 0%nat) (pose_at w q' 0%nat)), fst (drate (kF 0%nat) (pose_at w v' 0%nat))) in let d := exp (- (6 * s)) * (exp (INR n * (7 * (1 / 100) * (10 / 8))) - 1) in
   apart2 6 8 x' (fades 6 8 s (-1, 0)) <= d * d * 100)%R.
Proof.
  destruct (faded z) as (w & y & D & U & C & G0 & _).
  destruct (fade_calls dbg nopriv z kF gF (1 / 100)%R 1%R MD (repeat t n) w y qF vF D (U _ _) ltac:(lra)) as (w' & y' & q' & v' & E & En & X).
  exists w, y, w', y', q', v'. split; [exact D|]. split; [exact E|]. split; [exact En|].
  assert (Hc : In 0 (y_cons y)) by (rewrite C; cbn; auto). assert (Z0 : size (0, 0)%R = 0%R) by (unfold size; cbn [fst snd]; replace (0 * 0 + 0 * 0)%R with 0%R by ring; apply sqrt_0).
  pose proof (X 0 6%R 8%R 10%R Hc eq_refl Z0 eq_refl ltac:(cbn [kF ks_of]; lra) ltac:(cbn [kF kd_of]; lra) ltac:(lra) ltac:(lra) ltac:(lra) ltac:(lra) ltac:(lra) (@fst R R) (or_introl eq_refl)) as Y. cbv zeta in Y. rewrite G0, repeat_length in Y. cbv zeta.
  set (x' := (fst (gap (kF 0) (pose_at w q' 0)), fst (drate (kF 0) (pose_at w v' 0)))) in *. cbn [fst] in Y.
  replace (fst (drate (kF 0) (pose_at w vF 0))) with 0%R in Y by (cbn [kF drate fst]; unfold pose_at, vF; cbn [q_x]; destruct (who w 0 0) as [|[|[|[|]]]]; reflexivity).
  replace (ampl2 6 8 (-1, 0))%R with 100%R in Y by (unfold ampl2; cbn [fst snd]; lra). replace (10 * (1 / 100) * (10 * (1 / 100)))%R with (1 / 100)%R in Y by lra. exact Y.
Qed.
End S.
