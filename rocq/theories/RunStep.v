(** * Calls of several sub-steps with springs, weights, forces and motors. *)

From Coq Require Import Reals Lra.
From Verif Require Import Base Targets Matrix Sparse Sle State Ode Forces Constraints System Logic RealSum SpecMatrix SpecState StateFacts StateReal SpecForces ForceFacts ForceReal SpecCon ConFacts SleHist
  SpecSys RegFacts SysInv SpecDyn DynState DynReact DynRound DynStep DynForce SpecSolve SolveReal SolveStep SpecLaw LawReal LawStep SpecMom MomForce MomStep SpecSub SubOde SubStep SubRun EdgeOut SpecLeast LeastReal LeastStep LeastPart
  FlightReal SpecMotor MotorReal SpecRun RunTotal RunReal.
Local Open Scope nat_scope.

Section Any.
Context {tg : target}.
Lemma process_scheme_n k z dt n t (w : world tg) y w' y' : uses k z y -> process k dt (S n) t w y = Ok (w', y') -> uses k z y'.
Proof.
  intros U E. destruct k; [exact U|]. destruct U as [h0 Eo]. rewrite process_unfold in E.
  destruct (populate_state w y) as [s| | |]; try discriminate E. cbn [bind] in E. destruct (populate_mass w y (hm (y_heap y))) as [ms| | |]; try discriminate E. cbn [bind] in E.
  unfold the_ode in E. rewrite Eo in E. cbn [bind] in E.
  destruct (loop Generic (S n) _ w y (ode_of z h0, with_hm (y_heap y) ms, s)) as [x| | |] eqn:EL; try discriminate E. cbn [bind] in E.
  assert (S1 : is_scheme z (fst (fst x))).
  { unfold loop in EL. refine (pc_elim _ (fun x => is_scheme z (fst (fst x))) _ EL _). apply (for_pc _ (fun x => is_scheme z (fst (fst x)))); [|now exists h0]. intros i x0 Hx. now apply substep_scheme. }
  destruct S1 as [h1 E1].
  destruct (propagate Generic y (snd x) w); try discriminate E. cbn [bind] in E. destruct (record_profile (put y x) t) as [y1| | |] eqn:ER; try discriminate E. cbn [bind ticked] in E.
  injection E as _ <-. exists h1. rewrite <- E1. unfold record_profile in ER. repeat (apply bind_inv in ER; destruct ER as (? & _ & ER)). injection ER as <-. reflexivity.
Qed.
End Any.

Section S.
Context {dbg : bool}.
Notation T := (RT dbg).
Notation cl := (cell T).
Implicit Types (w : world T) (y : sys T).
Variable priv : nat -> bool.

Lemma motor_adds w y K h b0 b1 sp ks kd mx q v a : listed w y -> In b1 (y_bodies y) -> b0 <> b1 -> (0 <= mx)%R -> shown y K q v a ->
  (In b0 (y_bodies y) \/ ~ In b0 (y_bodies y) /\ b_index (w_body w b0) = (-1)%Z) -> forall M,
  adds w y K h (dgen_of (DMotor sp ks kd mx b0 b1)) (pull y M q v a (DMotor sp ks kd mx b0 b1)).
Proof.
  intros HL H1 N Hm HK H0 M s f HP HF. set (L := cut mx (ks * (sp - (third y v b1 - third y v b0)) - kd * (third y a b1 - third y a b0))%R).
  assert (SN : forall b, In b (y_bodies y) -> seen w y K b (third y v b) (third y a b)).
  { intros b Hb. left. unfold third. destruct (in_dec Nat.eq_dec b (y_bodies y)); [|contradiction]. destruct (HK b 2 Hb ltac:(lia)) as (_ & -> & ->). auto. }
  assert (S0 : seen w y K b0 (third y v b0) (third y a b0)).
  { destruct H0 as [H0|[H0 I0]]; [now apply SN|]. right. unfold third. destruct (in_dec Nat.eq_dec b0 (y_bodies y)); [contradiction|]. auto. }
  eapply wp_mono; [exact (torque_effect w y K h b0 b1 sp ks kd mx _ _ _ _ HL H1 N Hm S0 (SN b1 H1) s _ HP HF)|]. intros s' F' i b d Eb Hd.
  rewrite (F' i b d Eb Hd). f_equal. unfold add_torque, somes, pull. fold L.
  destruct d as [|[|[|]]]; try lia; [f_equal; ring|f_equal; ring|].
  destruct (Nat.eqb_spec b b1); [|destruct (Nat.eqb_spec b b0)]; rt_unfold; f_equal; rr; ring.
Qed.
Lemma dgens_gentle w y kg : dgens_are w y kg -> all_gentle w y.
Proof. intros H g Hg. destruct (H g Hg) as [-> _]. destruct (kg g) as [[]|]; exact I. Qed.
Lemma dgens_orderly w y kg : dgens_are w y kg -> forall g, In g (y_gens y) -> orderly (g_kind (w_gen w g)).
Proof. intros H g Hg. destruct (H g Hg) as [-> _]. destruct (kg g) as [[]|]; exact I. Qed.
Lemma gens_exert w y kg (h : R) q0 v0 M : listed w y -> bodies_are w y q0 v0 M -> dgens_are w y kg ->
  exerts w y h (fun q v a b d => Lsum (y_gens y) (fun g => pull y M q v a (kg g) b d)).
Proof.
  intros HL HB HG K q v a HK. apply pushes_adds; [now apply (dgens_gentle w y kg)|]. intros g Hg. destruct (HG g Hg) as [-> HN].
  assert (HK' : kin_is y K q v) by (intros b d Hb Hd; destruct (HK b d Hb Hd) as (X1 & X2 & _); now split).
  destruct (kg g) as [[r i1 i2|gr|px py fx fy b0]|sp ks kd mx b0 b1]; cbn [dgen_of gen_of names] in *.
  - apply (spring_adds w y K _ q v r i1 i2 HL HK'); apply HN; cbn; auto.
  - apply (gravity_adds w y K _ gr M). exact (masses w y q0 v0 M HB).
  - apply (static_adds w y K _ q v px py fx fy b0 HL HK'). apply HN; cbn; auto.
  - destruct HN as (N & Hm & H1 & H0). now apply motor_adds.
Qed.

Lemma stage_next k z kc kg beta M w y q v dt n t w' y' q' v' : stage priv k z kc kg beta M w y q v -> process k dt (S n) t w y = Ok (w', y') -> ends w' y q' v' ->
  stage priv k z kc kg beta M w' y' q' v' /\ y_gens y' = y_gens y /\ y_bodies y' = y_bodies y /\ y_cons y' = y_cons y.
Proof.
  intros [(m & H) U (g & L) A HK HG B C0 Eb HB] E En. pose proof (process_alone _ _ _ _ _ _ _ _ E) as ((E1 & E2 & E3 & E4 & E5) & Fb & Fc & Fg).
  split; [constructor|auto].
  - eexists. exact (y_process priv k m w y dt (S n) t w' y' H (dgens_orderly w y kg HG) E).
  - now apply (process_scheme_n k z dt n t w y w' y').
  - exists g. congruence.
  - exact (process_reattached _ _ _ _ _ _ _ _ E A).
  - intros c Hc. rewrite E2 in Hc. destruct (Fc c) as (-> & _ & -> & _ & -> & _). now apply HK.
  - intros g' Hg. rewrite E3 in Hg. rewrite Fg, E1. destruct (HG g' Hg) as [G1 G2]. split; [exact G1|]. destruct (kg g') as [k0|sp ks kd mx b0 b1]; [exact G2|].
    destruct (Fb b0) as (-> & _). exact G2.
  - unfold body_count. now rewrite E1.
  - now rewrite E2.
  - congruence.
  - intros b d Hb Hd. rewrite E1 in Hb. destruct (HB b d Hb Hd) as (_ & _ & X3 & X4), (En b d Hb Hd) as (Y1 & Y2). split; [exact Y1|]. split; [exact Y2|].
    split; [|exact X4]. rewrite <- X3. destruct (Fb b) as (_ & Fm & FI & _). destruct d as [|[|[|]]]; try lia; cbn [b_mass]; assumption.
Qed.
Lemma firm_next k kc M m w y dt n t w' y' : yreach k priv m w y -> attached w y -> (forall g, In g (y_gens y) -> orderly (g_kind (w_gen w g))) -> firm w y M kc ->
  process k dt n t w y = Ok (w', y') -> firm w' y' M kc.
Proof.
  intros H A HG HR P q0. pose proof (y_process priv k m w y dt n t w' y' H HG P) as H1. pose proof (process_alone _ _ _ _ _ _ _ _ P) as ((E1 & E2 & E3 & _) & _ & Fc & Fg).
  pose proof (process_reattached _ _ _ _ _ _ _ _ P A) as A1. pose proof (process_part _ _ _ _ _ _ _ _ P) as R1.
  destruct (reach_nodup priv _ _ _ _ H) as (_ & ND & _), (reach_nodup priv _ _ _ _ H1) as (_ & ND1 & _).
  apply (regular_J w' y' M (Jat w kc q0)).
  - intros c j Hc Hj i. apply J_ext. intros p. symmetry. now apply (part_pose w' y' w y).
  - apply (part_regular w' w y' y (Jat w kc q0) ND1 ND A1 R1 M A). apply HR.
Qed.

(** ** one call *)
Lemma run_call k z kc kg (beta dt : R) M w y q v n t : let h := (dt / INR n)%R in
  let F := fun q v a b d => Lsum (y_gens y) (fun g => pull y M q v a (kg g) b d) in
  stage priv k z kc kg beta M w y q v -> firm w y M kc -> dt <> 0%R -> 0 < n ->
  exists w' y' (qs vs ac : nat -> nat -> nat -> R), process k (Some dt : cl) n t w y = Ok (w', y') /\
    (forall b d, In b (y_bodies y) -> d < 3 -> qs 0 b d = q b d /\ vs 0 b d = v b d /\ ac 0 b d = 0%R) /\
    (forall i, i < n -> sub_step k z w y kc beta M h (F (qs i) (vs i) (ac i)) (qs i) (vs i) (qs (S i)) (vs (S i)) (ac (S i))) /\
    ends w' y (qs n) (vs n) /\ stage priv k z kc kg beta M w' y' (qs n) (vs n) /\ firm w' y' M kc /\
    y_gens y' = y_gens y /\ y_bodies y' = y_bodies y /\ y_cons y' = y_cons y.
Proof.
  intros h F SG HR Ndt Hn. pose proof SG as [(m & H) U (g & L) A HK HG B C0 Eb HB]. pose proof (reg_listed _ _ _ (yreach_reg _ _ _ _ _ H)) as HL.
  destruct (ge_run priv k z m dt n t w y g beta q v M kc F H U L A HK (dgens_gentle w y kg HG) B C0 Ndt Eb HB (gens_exert w y kg h q v M HL HB HG) Hn HR) as (w' & y' & qs & vs & ac & E & I0 & En & ST).
  exists w', y', qs, vs, ac. split; [exact E|]. split; [exact I0|]. split; [exact ST|]. split; [exact En|].
  pose proof (firm_next k kc M m w y _ n t w' y' H A (dgens_orderly w y kg HG) HR E) as FN. destruct n as [|n]; [lia|].
  destruct (stage_next k z kc kg beta M w y q v _ n t w' y' _ _ SG E En) as (X1 & X2 & X3 & X4). auto 10.
Qed.
(** ** any number of calls *)
Lemma run_calls k z kc kg (beta : R) M : forall l w y q v,
  stage priv k z kc kg beta M w y q v -> firm w y M kc -> (forall dt n t, In (dt, n, t) l -> dt <> 0%R /\ 0 < n) ->
  exists w' y' q' v', plays k l w y = Ok (w', y') /\ ends w' y q' v' /\ stage priv k z kc kg beta M w' y' q' v' /\ firm w' y' M kc.
Proof.
  induction l as [|[[dt n] t] l IH]; intros w y q v SG HR HL.
  - exists w, y, q, v. split; [reflexivity|]. split; [exact (are_ends _ _ _ _ _ (sg_are SG))|auto].
  - destruct (HL dt n t (or_introl eq_refl)) as [Nd Hn]. destruct (run_call k z kc kg beta dt M w y q v n t SG HR Nd Hn) as (w1 & y1 & qs & vs & ac & E & _ & _ & _ & SG1 & HR1 & _ & EB & _).
    destruct (IH w1 y1 _ _ SG1 HR1) as (w' & y' & q' & v' & E' & En & X); [intros dt' n' t' Hi; apply (HL dt' n' t'); now right|].
    exists w', y', q', v'. split; [cbn [plays]; now rewrite E|]. split; [|exact X]. intros b d Hb Hd. apply En; [now rewrite EB|exact Hd].
Qed.
End S.
