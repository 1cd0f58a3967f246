(** * Calls of the fourth-order solver with springs, weights, forces and motors. *)

From Coq Require Import Reals Lra.
From Verif Require Import Base Targets Matrix Sparse Sle State Ode Forces Constraints System Logic
  MatrixFacts MatrixOps SpecMatrix MatrixHist SparseFacts SpecSparse SparseHist SpecSle SleHist SleGe SleGs
  SpecState StateFacts StateReal SpecOde OdeFacts SpecForces ForceFacts ForceReal SpecCon ConFacts SpecSys RegFacts SysFrame SysInv SysColumn SpecDyn DynState DynReact DynRound DynStep DynGather DynRight DynReady DynSolver
  SpecLimits DynLimits SpecSolve RealSum SolveReal SolveStep SpecLaw LawReal LawStep SpecMom MomForce MomStep SpecRk RkStep RkOwn SpecRkR RkReal RkWit SpecSub SubOde SubStep SubRun SpecLeast LeastReal LeastStep LeastPart
  SpecMotor MotorReal SpecRun RunTotal RunReal RunStep SafeStep SpecFour.
Local Open Scope nat_scope.

Section S.
Context {dbg : bool}.
Notation T := (RT dbg).
Notation cl := (cell T).
Variable priv : nat -> bool.

Section Run.
Variables (w : world T) (y : sys T) (q0 v0 M : nat -> nat -> R) (g : ge_solver) (kc : nat -> rkind)
  (F : (nat -> nat -> R) -> (nat -> nat -> R) -> (nat -> nat -> R) -> nat -> nat -> R).
Hypotheses (HN : nice priv w y) (El : y_sle y = Some (SleGe g)).
Hypotheses (H255 : body_count y <= 255) (HC0 : y_cons y <> []) (HB : bodies_are w y q0 v0 M) (HK : kinds_are w y kc) (HF : forall h, exerts w y h F) (HR : firm w y M kc).
(** the numbers in cells *)
Definition val (x : cl) : R := match x with Some r => r | None => 0%R end.
Definition known (a : nat -> nat -> cl) : Prop := forall b d, In b (y_bodies y) -> d < 3 -> a b d = (Some (val (a b d)) : cl).
Definition vals (a : nat -> nat -> cl) (b d : nat) : R := val (a b d).
Definition plainK (K : kin T) : Prop := shown y K (vals (k_q K)) (vals (k_v K)) (vals (k_a K)).
Definition answered (K : kin T) (h : cl) (a : nat -> nat -> cl) : Prop := known a /\ obeys w y kc M F (vals (k_q K)) (vals (k_v K)) (vals (k_a K)) (vals a).
Lemma known_some (a : nat -> nat -> cl) (ar : nat -> nat -> R) : (forall b d, In b (y_bodies y) -> d < 3 -> a b d = (Some (ar b d) : cl)) -> known a /\ forall b d, In b (y_bodies y) -> d < 3 -> vals a b d = ar b d.
Proof. intros H. split; intros b d Hb Hd; unfold vals; now rewrite (H b d Hb Hd). Qed.
Lemma four_total s0 K (h : R) : let y0 := with_state y s0 in plainK K -> stage_good priv column Total w y0 (gen_process_constraints w y0) answered K (Some h : cl).
Proof.
  intros y0 SK hp s H HC HM HP. unfold hoare. change (presents w y0) with (presents w y) in *. pose proof HN as (Hl & Hli & HA & HS & HG).
  set (q := vals (k_q K)) in *. set (v := vals (k_v K)) in *. set (a0 := vals (k_a K)) in *.
  assert (RK : real_kin y K q v) by (intros b d Hb Hd; destruct (SK b d Hb Hd) as (A1 & A2 & _); auto).
  destruct (HF h K q v a0 SK s HP) as (s2 & E2 & F2). change (process_forces w y0 s) with (process_forces w y s). rewrite E2. cbn [bind].
  pose proof (pc_elim _ _ _ E2 (process_forces_alters w y _ HG)) as A2. pose proof (presents_forces _ _ _ _ _ _ A2 HP) as P2.
  set (J := fun c j i => J_of (kc c) (pose_at w q c) j i). set (Jd := fun c j i => Jd_of (kc c) (pose_at w q c) (pose_at w v c) j i). set (C := fun c j => C_of (kc c) (pose_at w q c) j).
  assert (W : wp (gen_process_constraints w y0 hp s2) (fun z => hinv priv (fst z) /\ minv_ok w y (hm (fst z)) /\
    presents w y (with_acc K (acc_of w y (fun b d => (Some (F q v a0 b d) : cl)) (snd z))) (Some h : cl) (snd z) /\
    exists x, forces_J w y J x (reac w y (snd z)) /\ gen_law w y v (F q v a0) M J Jd C (fun c j => ks_of (kc c) j) (fun c j => kd_of (kc c) j) x)).
  { refine (gen_ge_constraints priv w y0 g q0 v0 v M (F q v a0) (law_R w kc q v) J Jd C (fun c j => ks_of (kc c) j) (fun c j => kd_of (kc c) j) K (Some h : cl) hp s2 HN El
      (kinds_parties w y kc HK) H255 HC0 HB (fun b d Hb Hd => proj2 (RK b d Hb Hd)) _ _ _ _ _ _ (HR q) H HM P2 F2).
    - now apply (kinds_answer w y kc K _ q v).
    - intros c j _ _ i _. reflexivity.
    - intros c j _ _ i _. reflexivity.
    - intros c j _ _. reflexivity.
    - intros c j _ _. reflexivity.
    - intros c j _ _. reflexivity. }
  apply wp_ok in W. destruct W as ([hp3 s3] & E & H3 & M3 & P3 & x & FJ & GL). cbn [fst snd] in *. rewrite E. cbn [wp fst snd].
  pose proof (pc_elim _ _ _ E (gen_constraints_column priv w y0 Hl hp s2 H HC)) as C3.
  pose proof (pc_elim _ _ _ E (gen_constraints_inv priv w y0 hp s2 H Hl)) as (_ & A3 & _). cbn [fst snd] in *.
  split; [exact H3|]. split; [exact C3|]. split; [exact M3|].
  pose proof (alters_resized _ _ _ A2) as (N1 & N2 & _). pose proof (alters_resized _ _ _ A3) as (N3 & N4 & _).
  split; [congruence|]. split; [congruence|]. eexists. split; [exact P3|]. fold q v a0.
  destruct (known_some (acc_of w y (fun b d => (Some (F q v a0 b d) : cl)) s3) _ (newton_J w y q0 v0 M HB (F q v a0) J x _ _ FJ (fun b d Hb Hd => eq_refl))) as [KN EV].
  split; [exact KN|]. fold q v a0. exists x. split.
  - intros b d Hb Hd. rewrite (EV b d Hb Hd). unfold accel. fold J. field. apply (HB b d Hb Hd).
  - intros c j Hc Hj. fold J Jd. refine (eq_trans _ (GL c j Hc Hj)). f_equal. apply along_ext. intros k d Hk Hd. apply EV; [|exact Hd]. destruct (HA c k Hc Hk) as (b' & Eb & Ib). unfold who. now rewrite Eb.
Qed.
Lemma half_plain (h : R) K a : plainK K -> known a -> plainK (half_way (Some h : cl) K a) /\
  forall b d, In b (y_bodies y) -> d < 3 -> (vals (k_v (half_way (Some h : cl) K a)) b d = vals (k_v K) b d + h * vals a b d / 2 /\
    vals (k_q (half_way (Some h : cl) K a)) b d = vals (k_q K) b d + h * vals (k_v (half_way (Some h : cl) K a)) b d / 2)%R.
Proof.
  intros HK' Ka.
  assert (X : forall b d, In b (y_bodies y) -> d < 3 -> k_v (half_way (Some h : cl) K a) b d = (Some (vals (k_v K) b d + h * vals a b d / 2)%R : cl) /\
    k_q (half_way (Some h : cl) K a) b d = (Some (vals (k_q K) b d + h * (vals (k_v K) b d + h * vals a b d / 2) / 2)%R : cl)).
  { intros b d Hb Hd. destruct (HK' b d Hb Hd) as (Q & V & _). cbn [half_way k_q k_v]. rewrite Q, V, (Ka b d Hb Hd). rewrite half_R, addR, half_R, addR. auto. }
  split.
  - intros b d Hb Hd. destruct (X b d Hb Hd) as [V Q]. unfold vals. rewrite V, Q. cbn [val half_way k_a]. split; [reflexivity|]. split; [reflexivity|]. now apply Ka.
  - intros b d Hb Hd. destruct (X b d Hb Hd) as [V Q]. unfold vals in *. rewrite V, Q. cbn [val]. auto.
Qed.
Lemma whole_plain (h : R) K a : plainK K -> known a -> plainK (whole_way (Some h : cl) K a) /\
  forall b d, In b (y_bodies y) -> d < 3 -> (vals (k_v (whole_way (Some h : cl) K a)) b d = vals (k_v K) b d + h * vals a b d /\
    vals (k_q (whole_way (Some h : cl) K a)) b d = vals (k_q K) b d + h * vals (k_v (whole_way (Some h : cl) K a)) b d)%R.
Proof.
  intros HK' Ka.
  assert (X : forall b d, In b (y_bodies y) -> d < 3 -> k_v (whole_way (Some h : cl) K a) b d = (Some (vals (k_v K) b d + h * vals a b d)%R : cl) /\
    k_q (whole_way (Some h : cl) K a) b d = (Some (vals (k_q K) b d + h * (vals (k_v K) b d + h * vals a b d))%R : cl)).
  { intros b d Hb Hd. destruct (HK' b d Hb Hd) as (Q & V & _). cbn [whole_way k_q k_v]. rewrite Q, V, (Ka b d Hb Hd). rewrite mulR, addR, mulR, addR. auto. }
  split.
  - intros b d Hb Hd. destruct (X b d Hb Hd) as [V Q]. unfold vals. rewrite V, Q. cbn [val whole_way k_a]. split; [reflexivity|]. split; [reflexivity|]. now apply Ka.
  - intros b d Hb Hd. destruct (X b d Hb Hd) as [V Q]. unfold vals in *. rewrite V, Q. cbn [val]. auto.
Qed.
Lemma four_chain s0 K (h : R) : plainK K -> let y0 := with_state y s0 in chain priv column Total w y0 (gen_process_constraints w y0) answered (Some h : cl) K.
Proof.
  intros PK y0. split; [rewrite cofZ_R; now apply four_total|].
  intros a1 [K1 _]. destruct (half_plain h K a1 PK K1) as [P2 _]. cbv zeta. rewrite h2. split; [now apply four_total|].
  intros a2 [K2 _]. destruct (half_plain h K a2 PK K2) as [P3 _]. split; [now apply four_total|].
  intros a3 [K3 _]. destruct (whole_plain h K a3 PK K3) as [P4 _]. now apply four_total.
Qed.
Lemma blend_R (h x x1 x2 x3 x4 : R) : blend (Some h : cl) (Some x : cl) (Some x1) (Some x2) (Some x3) (Some x4) = (Some (x + h / 6 * (x1 + 2 * x2 + 2 * x3 + x4))%R : cl).
Proof. rewrite blendR. reflexivity. Qed.
Lemma four_sub (h : R) K K' : plainK K -> four_stages answered (Some h : cl) K K' ->
  plainK K' /\ sub_four w y kc M F h (vals (k_q K)) (vals (k_v K)) (vals (k_a K)) (vals (k_q K')) (vals (k_v K')) (vals (k_a K')).
Proof.
  intros PK (a1 & a2 & a3 & a4 & (K1 & A1) & (K2 & A2) & (K3 & A3) & (K4 & A4) & ->).
  destruct (half_plain h K a1 PK K1) as [P2 E2]. destruct (half_plain h K a2 PK K2) as [P3 E3]. destruct (whole_plain h K a3 PK K3) as [P4 E4].
  set (k2 := half_way (Some h : cl) K a1) in *. set (k3 := half_way (Some h : cl) K a2) in *. set (k4 := whole_way (Some h : cl) K a3) in *.
  assert (X : forall b d, In b (y_bodies y) -> d < 3 ->
    blend (Some h : cl) (k_q K b d) (k_v K b d) (k_v k2 b d) (k_v k3 b d) (k_v k4 b d) = (Some (vals (k_q K) b d + h / 6 * (vals (k_v K) b d + 2 * vals (k_v k2) b d + 2 * vals (k_v k3) b d + vals (k_v k4) b d))%R : cl) /\
    blend (Some h : cl) (k_v K b d) (a1 b d) (a2 b d) (a3 b d) (a4 b d) = (Some (vals (k_v K) b d + h / 6 * (vals a1 b d + 2 * vals a2 b d + 2 * vals a3 b d + vals a4 b d))%R : cl)).
  { intros b d Hb Hd. destruct (PK b d Hb Hd) as (Q & V & _), (P2 b d Hb Hd) as (_ & V2 & _), (P3 b d Hb Hd) as (_ & V3 & _), (P4 b d Hb Hd) as (_ & V4 & _).
    rewrite Q, V, V2, V3, V4, (K1 b d Hb Hd), (K2 b d Hb Hd), (K3 b d Hb Hd), (K4 b d Hb Hd), !blend_R. auto. }
  split.
  - intros b d Hb Hd. destruct (X b d Hb Hd) as [Q V]. unfold vals at 1 2. cbn [k_q k_v k_a]. rewrite Q, V. cbn [val]. split; [reflexivity|]. split; [reflexivity|]. now apply K4.
  - exists (vals a1), (vals a2), (vals a3), (vals (k_q k2)), (vals (k_v k2)), (vals (k_q k3)), (vals (k_v k3)), (vals (k_q k4)), (vals (k_v k4)).
    split; [exact A1|]. split; [exact A2|]. split; [exact A3|]. split; [exact A4|]. intros b d Hb Hd. destruct (E2 b d Hb Hd) as [U1 U2], (E3 b d Hb Hd) as [U3 U4], (E4 b d Hb Hd) as [U5 U6].
    destruct (X b d Hb Hd) as [Q V]. split; [exact U1|]. split; [exact U2|]. split; [exact U3|]. split; [exact U4|]. split; [exact U5|]. split; [exact U6|].
    unfold vals at 1 7. cbn [k_q k_v k_a]. rewrite Q, V. cbn [val]. auto.
Qed.
End Run.

(** ** one call *)
Lemma four_call kc kg (dt : R) M (w : world T) (y : sys T) q v n t : let h := (dt / INR n)%R in
  let F := fun q v a b d => Lsum (y_gens y) (fun g => pull y M q v a (kg g) b d) in
  stage_four priv kc kg M w y q v -> firm w y M kc -> 0 < n ->
  exists w' y' (qs vs ac : nat -> nat -> nat -> R), process Generic (Some dt : cl) n t w y = Ok (w', y') /\
    (forall b d, In b (y_bodies y) -> d < 3 -> qs 0 b d = q b d /\ vs 0 b d = v b d /\ ac 0 b d = 0%R) /\
    (forall i, i < n -> sub_four w y kc M F h (qs i) (vs i) (ac i) (qs (S i)) (vs (S i)) (ac (S i))) /\
    ends w' y (qs n) (vs n) /\ stage_four priv kc kg M w' y' (qs n) (vs n) /\ firm w' y' M kc /\
    y_gens y' = y_gens y /\ y_bodies y' = y_bodies y /\ y_cons y' = y_cons y.
Proof.
  intros h F [(m & H) LO (r & Eo) (g & L) A HK HG B C0 B0 HB] HR Hn. pose proof (reg_listed _ _ _ (yreach_reg _ _ _ _ _ H)) as HL.
  pose proof (dgens_gentle w y kg HG) as GE. pose proof (dgens_orderly w y kg HG) as OR.
  pose proof (yreach_inv priv _ m w y H) as (Hh & Hs & Hl & _). pose proof (reach_nice priv _ _ _ _ H A (kinds_shaped w y kc HK) GE) as HN.
  pose proof (proj1 (profiling _ _ _ _ _ H)) as Hf. destruct (lone_rk priv m w y r H LO Eo) as (Zi & Za & HFi).
  assert (Nn : IZR (Z.of_nat n) <> 0%R). { intros X. apply (eq_IZR _ 0) in X. lia. }
  assert (Eh : cdiv (Some dt : cl) (cofZ (Z.of_nat n)) = (Some h : cl)) by (unfold h; rewrite cofZ_R, divR, INR_IZR_INZ by exact Nn; reflexivity).
  assert (EX : forall h, exerts w y h F) by (intros h'; exact (gens_exert w y kg h' q v M HL HB HG)).
  assert (K0 : plainK y (kin_of w)).
  { intros b d Hb Hd. destruct (HB b d Hb Hd) as (A1 & A2 & _). unfold vals. cbn [kin_of k_q k_v k_a]. rewrite A1, A2. cbn [val]. split; [reflexivity|]. split; [reflexivity|]. now rewrite cofZ_R. }
  pose proof (rk_process priv column Total w y (Some dt : cl) n t (answered w y M kc F) (plainK y) r Hh (yreach_column priv _ _ _ _ H) Hs HN
    (fun _ => Hf) Eo Zi Za (fun _ => HFi) B0 K0) as X. cbv zeta in X. rewrite Eh in X.
  assert (G : hoare (tg := RT dbg) Total (gen_process (Some dt : cl) n t w y) (fun x => exists K, rk_motion (answered w y M kc F) (Some h : cl) n (kin_of w) K /\ arrives (fst x) y K)).
  { eapply hoare_mono; [apply X|intros x U; apply U].
    - intros s0 K HK'. eapply four_chain; eauto.
    - intros K K' HK' HS'. now apply (four_sub w y M kc F h K K'). }
  apply wp_ok in G. destruct G as ([w' y'] & E & K & (Ks & E0 & En & ST) & AR). cbn [fst] in AR. clear X. change (process Generic (Some dt : cl) n t w y = Ok (w', y')) in E.
  assert (P : forall i, i <= n -> plainK y (Ks i)).
  { induction i as [|i IH]; intros Hi; [now rewrite E0|]. apply (four_sub w y M kc F h (Ks i)); [apply IH; lia|apply ST; lia]. }
  assert (ES : ends w' y (vals (k_q (Ks n))) (vals (k_v (Ks n)))).
  { intros b d Hb Hd. destruct (AR b d Hb Hd) as [-> ->]. rewrite <- En. destruct (P n ltac:(lia) b d Hb Hd) as (X1 & X2 & _). auto. }
  exists w', y', (fun i => vals (k_q (Ks i))), (fun i => vals (k_v (Ks i))), (fun i => vals (k_a (Ks i))). split; [exact E|]. split; [|split; [|split; [exact ES|]]].
  - intros b d Hb Hd. rewrite E0. destruct (HB b d Hb Hd) as (A1 & A2 & _). unfold vals. cbn [kin_of k_q k_v k_a]. rewrite A1, A2, cofZ_R. auto.
  - intros i Hi. apply four_sub; [apply P; lia|now apply ST].
  - pose proof (firm_next priv Generic kc M m w y _ n t w' y' H A OR HR E) as FN.
    pose proof (process_alone _ _ _ _ _ _ _ _ E) as ((E1 & E2 & E3 & E4 & E5) & Fb & Fc & Fg).
    split; [constructor|auto 10].
    + eexists. exact (y_process priv Generic m w y (Some dt : cl) n t w' y' H OR E).
    + eapply (lone_process priv m w y (Some dt : cl) n t w' y'); eauto.
    + destruct (gen_process_ode (Some dt : cl) n t w y w' y' Hn E) as (o & o' & X1 & X2 & SO). rewrite Eo in X1. injection X1 as <-. rewrite X2. destruct o'; try contradiction. eexists; reflexivity.
    + exists g. congruence.
    + exact (process_reattached _ _ _ _ _ _ _ _ E A).
    + intros c Hc. rewrite E2 in Hc. destruct (Fc c) as (-> & _ & -> & _ & -> & _). now apply HK.
    + intros g' Hg. rewrite E3 in Hg. rewrite Fg, E1. destruct (HG g' Hg) as [G1 G2]. split; [exact G1|]. destruct (kg g') as [k0|sp ks kd mx b0 b1]; [exact G2|].
      destruct (Fb b0) as (-> & _). exact G2.
    + unfold body_count. now rewrite E1.
    + now rewrite E2.
    + now rewrite E1.
    + intros b d Hb Hd. rewrite E1 in Hb. destruct (HB b d Hb Hd) as (_ & _ & X3 & X4), (ES b d Hb Hd) as (Y1 & Y2). split; [exact Y1|]. split; [exact Y2|].
      split; [|exact X4]. rewrite <- X3. destruct (Fb b) as (_ & Fm & FI & _). destruct d as [|[|[|]]]; try lia; cbn [b_mass]; assumption.
Qed.
(** ** any number of calls *)
Lemma four_calls kc kg M : forall l (w : world T) (y : sys T) q v,
  stage_four priv kc kg M w y q v -> firm w y M kc -> (forall dt n t, In (dt, n, t) l -> 0 < n) ->
  exists w' y' q' v', plays Generic l w y = Ok (w', y') /\ ends w' y q' v' /\ stage_four priv kc kg M w' y' q' v' /\ firm w' y' M kc.
Proof.
  induction l as [|[[dt n] t] l IH]; intros w y q v SG HR HL.
  - exists w, y, q, v. split; [reflexivity|]. split; [exact (are_ends _ _ _ _ _ (sf_are SG))|auto].
  - destruct (four_call kc kg dt M w y q v n t SG HR (HL dt n t (or_introl eq_refl))) as (w1 & y1 & qs & vs & ac & E & _ & _ & _ & SG1 & HR1 & _ & EB & _).
    destruct (IH w1 y1 _ _ SG1 HR1) as (w' & y' & q' & v' & E' & En & X); [intros dt' n' t' Hi; apply (HL dt' n' t'); now right|].
    exists w', y', q', v'. split; [cbn [plays]; now rewrite E|]. split; [|exact X]. intros b d Hb Hd. apply En; [now rewrite EB|exact Hd].
Qed.
End S.
