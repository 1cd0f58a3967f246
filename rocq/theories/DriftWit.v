(** * A body held by a fixed point and a fixed angle, from which it is away. *)

From Coq Require Import Reals Lra.
From Verif Require Import Base Targets Matrix Sparse Sle State Ode Forces Constraints System Logic RealSum SpecMatrix SpecState SpecForces SpecCon ConFacts
  SpecSle SpecSys RegFacts RegWit SpecDyn DynState DynReact DynRound DynStep SpecLimits SpecSolve SolveReal SolveStep SolveWit SpecLaw LawReal LawStep Assemble SpecMom MomForce MomStep MomWit
  SpecSub SpecLeast LeastReal LeastStep LeastPart LeastWit SpecDrift DriftReal.
Local Open Scope nat_scope.

Section S.
Context {dbg : bool}.
Notation T := (RT dbg).
Notation cl := (cell T).

Definition kH (c : nat) : rkind := match c with 0 => RFixedPosition (1 / 2) 0 3 4 10 1 | _ => RFixedRotation 2 10 1 end.
Definition gH (g : nat) : rgen := VGravity 10.
Definition wH : world T :=
  {| w_body := w_body wD; w_con := fun c => conT (kind_of dbg (kH c)) (rows (kH c)) (parties (kH c)) ;
     w_gen := fun g => {| g_kind := gen_of (gH g); g_index := None |} |}.

Section Any.
Variables (w : world T) (y : sys T).
Hypothesis HS : same_objects wH w.
Hypothesis HB : y_bodies y = [0].
Hypothesis HC : y_cons y = [0; 1].
Lemma H_con c : c_kind (w_con w c) = kind_of dbg (kH c) /\ c_count (w_con w c) = rows (kH c) /\ c_bodycount (w_con w c) = 1 /\ forall p, c_bodies (w_con w c) p = Some p.
Proof. destruct HS as (_ & E & _). destruct (E c) as (-> & -> & -> & ->). destruct c; repeat split. Qed.
Lemma H_kinds : kinds_are w y kH.
Proof. intros c _. destruct (H_con c) as (A & B & C & _). split; [exact A|]. split; [exact B|]. rewrite C. now destruct c. Qed.
Lemma H_bodies : bodies_are w y qD vD MD.
Proof.
  intros b d _ Hd. destruct HS as (E & _). unfold b_pos, b_vel, b_mass. rewrite E.
  destruct d as [|[|[|]]]; cbn; repeat split; try lra; lia.
Qed.
Lemma H_gens : gens_are w y gH.
Proof. intros g Hg. destruct HS as (_ & _ & E). rewrite E. split; [reflexivity|]. intros b []. Qed.
Lemma H_attached : attached w y.
Proof. intros c p Hc Hp. destruct (H_con c) as (_ & _ & E & Eb). rewrite E in Hp. assert (p = 0) as -> by lia. exists 0. split; [apply Eb|]. rewrite HB. now left. Qed.
Lemma H_independent q : independent w y (fun c j i => J_of (kH c) (pose_at w q c) j i).
Proof.
  intros x H. assert (I0 : In 0 (y_bodies y)) by (rewrite HB; now left).
  assert (A : forall d, d < 3 -> (J_of (kH 0) (pose_at w q 0) 0 d * x 0%nat 0%nat + J_of (kH 0) (pose_at w q 0) 1 d * x 0%nat 1%nat + J_of (kH 1) (pose_at w q 1) 0 d * x 1%nat 0%nat = 0)%R).
  { intros d Hd. pose proof (H 0 d I0 Hd) as A. cbv beta in A. unfold acts in A. rewrite slots_sum, HC in A. unfold Lsum in A. cbn [fold_right] in A.
    destruct (H_con 0) as (_ & E0 & F0 & G0), (H_con 1) as (_ & E1 & F1 & G1). rewrite E0, E1, F0, F1 in A. cbn [kH rows seq fold_right] in A. unfold binds in A.
    rewrite !G0, !G1, !Nat.eqb_refl in A. cbn [Nat.mul Nat.add] in A. cbn [kH]. lra. }
  pose proof (A 0 ltac:(lia)) as A0. pose proof (A 1 ltac:(lia)) as A1. pose proof (A 2 ltac:(lia)) as A2. cbn [kH J_of nth] in A0, A1, A2.
  assert (X0 : x 0 0 = 0%R) by lra. assert (X1 : x 0 1 = 0%R) by lra. rewrite X0, X1 in A2. assert (X2 : x 1 0 = 0%R) by lra.
  intros c j Hc Hj. rewrite HC in Hc. destruct (H_con c) as (_ & E & _). rewrite E in Hj. destruct Hc as [<-|[<-|[]]]; cbn [kH rows] in Hj; destruct j as [|[|]]; try lia; assumption.
Qed.
Lemma H_regular q : listed w y -> NoDup (y_cons y) -> body_count y <= 255 -> regular w y MD (Jat w kH q).
Proof.
  intros HL ND H255. unfold Jat. apply (independent_regular w y); auto using H_attached, H_independent, (kinds_shaped w y kH H_kinds).
  intros b d _ Hd. destruct d as [|[|[|]]]; cbn; lra || lia.
Qed.
End Any.

Ltac nodup := repeat constructor; cbn; intuition lia.
Lemma held (beta : R) : exists (w : world T) y, side nopriv Optimized Symplectic kH gH beta MD w y qD vD /\
  (forall h ts, unsingular Optimized h ts w y MD kH) /\ y_cons y = [0; 1] /\
  (forall c h ts, In c (y_cons y) -> exists s, turns_within h ts w y c s) /\
  gap (kH 0) (pose_at w qD 0) = (- (5 / 2), - 4)%R /\ gap (kH 1) (pose_at w qD 1) = (- 2, 0)%R.
Proof.
  assert (HP : solver_apart nopriv (SleGe geS : sle T)) by (cbn; unfold ifree, sfree, nopriv; repeat split; lia).
  assert (N1 : NoDup [0]) by nodup. assert (N2 : NoDup [0; 1]) by nodup.
  destruct (assembled nopriv Optimized wH (SleGe geS) (ode_of Symplectic (cofZ 0)) [0] [0; 1] [0] HP N1 N2 N1) as (m & w & y0 & H0 & HS & B & C & G & L & O & Bi).
  pose proof (y_edit_bias nopriv Optimized m w y0 (Some beta : cl) H0) as H. match type of H with yreach_of _ _ _ _ ?z => set (y := z) in H end.
  pose proof (reg_listed _ _ _ (yreach_reg _ _ _ _ _ H)) as HL.
  pose proof (H_attached w y HS B) as A. pose proof (H_gens w y HS) as PG.
  assert (H255 : body_count y <= 255) by (unfold body_count; cbn [y y_bodies]; rewrite B; cbn; lia).
  exists w, y. split; [|split; [|split; [exact C|split; [|split]]]].
  - constructor; eauto using H_kinds, H_bodies; try reflexivity. cbn [y y_cons]. now rewrite C.
  - intros h ts. apply (never_singular nopriv Optimized h ts kH MD m w y H A (gens_orderly w y gH PG)).
    intros q. apply (H_regular w y HS B C q HL); auto. cbn [y y_cons]. now rewrite C.
  - intros c h ts Hc. now apply turns_bounded.
  - destruct (H_con w HS 0) as (_ & _ & _ & E). unfold gap, kH, pose_at, who, at_x, at_y, world_x, world_y. rewrite !E. cbn [q_x q_y q_th qD]. change (IZR (Z.of_nat 0)) with 0%R. rewrite cos_0, sin_0. f_equal; field.
  - destruct (H_con w HS 1) as (_ & _ & _ & E). unfold gap, kH, pose_at, who. rewrite !E. cbn [q_th qD]. f_equal. ring.
Qed.
End S.
