(** * The fourth-order solver: free bodies, momentum and the stabilised equation. *)

From Coq Require Import Reals Lra.
From Verif Require Import Base Targets Matrix Sparse Sle State Ode Forces Constraints System Logic
  MatrixFacts MatrixOps SpecMatrix MatrixHist SparseFacts SpecSparse SparseHist SpecSle SleHist SleGe SleGs
  SpecState StateFacts SpecOde OdeFacts SpecForces SpecCon ConFacts SpecSys RegFacts SysFrame SysInv SysColumn SpecDyn DynState DynReact DynRound DynStep DynGather DynRight DynReady DynSolver
  SpecLimits DynLimits SpecSolve RealSum SolveReal SolveStep SpecLaw LawReal LawStep SpecMom MomForce MomStep SpecRk RkStep RkOwn SpecRkR.
Local Open Scope nat_scope.

Section T.
Context {tg : target}.
Implicit Types (w : world tg) (y : sys tg).
Variable priv : nat -> bool.
Lemma four_mono (A B : kin tg -> cell tg -> (nat -> nat -> cell tg) -> Prop) h K K' :
  (forall K h a, A K h a -> B K h a) -> four_stages A h K K' -> four_stages B h K K'.
Proof. intros H (a1 & a2 & a3 & a4 & A1 & A2 & A3 & A4 & E). exists a1, a2, a3, a4. cbv zeta in *. repeat split; auto. Qed.
Lemma rk_mono (A B : kin tg -> cell tg -> (nat -> nat -> cell tg) -> Prop) h n K K' :
  (forall K h a, A K h a -> B K h a) -> rk_motion A h n K K' -> rk_motion B h n K K'.
Proof. intros H (Ks & E0 & En & HS). exists Ks. split; [exact E0|]. split; [exact En|]. intros i Hi. eapply four_mono; eauto. Qed.
Lemma free_fourth m (dt : cell tg) n t w y w' y' b :
  yreach Generic priv m w y -> attached w y -> shaped w y -> all_gentle w y -> uses_rk y ->
  process Generic dt n t w y = Ok (w', y') -> In b (y_bodies y) -> unbound w y b ->
  exists K, arrives w' y K /\
    rk_motion (fun K h a => exists f, forces_at w y K h f /\ forall d, d < 3 -> a b d = cmul (f b d) (cdiv (cofZ 1) (b_mass (w_body w b) d)))
      (cdiv dt (cofZ (Z.of_nat n))) n (kin_of w) K.
Proof.
  intros HR HA HS HG HU E Hb Ub. assert (NB : y_bodies y <> []) by (intros X; rewrite X in Hb; destruct Hb).
  pose proof (reach_nice priv _ _ _ _ HR HA HS HG) as HN. destruct HN as (Hl & HL & _).
  destruct (rk_runs priv (fun _ _ _ _ => True) m dt n t w y w' y' HR HA HS HG HU NB (fun s0 h => gen_evaluates priv w (with_state y s0) h Hl HL HA HS) E) as (K & M & A).
  exists K. split; [exact A|]. eapply rk_mono; [|exact M]. intros K1 h a (f & F & FA & NW & _). exists f. split; [exact FA|].
  intros d Hd. rewrite (NW b d Hb Hd). now rewrite total_unbound.
Qed.
End T.

Lemma addR (dbg : bool) (a b : R) : cadd (Some a : cell (RT dbg)) (Some b) = (Some (a + b)%R : cell (RT dbg)).
Proof. reflexivity. Qed.
Section R.
Context {dbg : bool}.
Notation T := (RT dbg).
Notation cl := (cell T).
Implicit Types (w : world T) (y : sys T) (K : kin T).
Variable priv : nat -> bool.

(** ** momentum *)
Section Steps.
Variables (w : world T) (y : sys T) (q v M : nat -> nat -> R) (kc : nat -> rkind) (e : nat -> nat -> R).
Hypotheses (HL : listed w y) (HA : attached w y) (HK : kinds_are w y kc) (HB : bodies_are w y q v M).
Hypotheses (HI : forall c, In c (y_cons y) -> inner (kc c)) (HG : forall g, In g (y_gens y) -> outer y M (g_kind (w_gen w g)) (e g)).
Let rows K h f F := with_rows w y h (fun _ _ => True) K f F.
Definition real_acc (a : nat -> nat -> cl) : Prop := forall b d, In b (y_bodies y) -> d < 3 -> a b d <> None.
Lemma stage_force (h : R) K a d : d < 2 -> realK y K -> real_acc a -> feels w y rows K (Some h : cl) a ->
  Lsum (y_bodies y) (fun b => M b d * rp (a b d))%R = Lsum (y_gens y) (fun g => e g d).
Proof.
  intros Hd HR Ha (fc & F & HF & HN & HW).
  pose proof (realK_is y K HR) as E0. set (q0 := fun b d => rp (k_q K b d)) in *. set (v0 := fun b d => rp (k_v K b d)) in *.
  destruct (outer_pushes w y K h _ _ M e HL E0 (masses w y q v M HB) HG) as (f & HP & Hf).
  destruct (HW (law_R w kc q0 v0) (kinds_answer w y kc K _ q0 v0 HL HA HK E0)) as (xc & _ & HX).
  set (x := fun c j => rp (xc c j)). set (J := fun c j i => J_of (kc c) (pose_at w q0 c) j i).
  assert (HJ : forces_J w y J x F).
  { intros c j k d' Hc Hj Hk Hd'. pose proof (newton_real w y fc F _ HA HN Ha c j k d' Hc Hj Hk Hd') as X. rewrite (HX c j k d' Hc Hj Hk Hd') in *.
    apply cmul_real in X. destruct X as [X _]. rewrite (rp_some _ X). cbn [law_R l_J]. rewrite mulR. f_equal. unfold x, J. ring. }
  assert (HN' : newton w y (fun b d => (Some (f b d) : cl)) F a).
  { intros b d' Hb Hd'. rewrite (HN b d' Hb Hd'). rewrite (HF _ HP b d' Hb Hd'). reflexivity. }
  pose proof (newton_J w y q v M HB f J x F a HJ HN') as EA.
  rewrite <- (Hf d Hd).
  rewrite (Lsum_ext (y_bodies y) _ (fun b => f b d + acts w y J x b d)%R).
  2:{ intros b Hb. rewrite (EA b d Hb ltac:(lia)). cbn [rp]. unfold accel. destruct (HB b d Hb ltac:(lia)) as (_ & _ & _ & N). field. exact N. }
  rewrite Lsum_plus. unfold J. rewrite (inner_acts w y kc _ x d) by (auto; eapply listed_nodup; eauto). ring.
Qed.
Lemma blend_real (h x x1 x2 x3 x4 : cl) : blend h x x1 x2 x3 x4 <> None -> x <> None /\ x1 <> None /\ x2 <> None /\ x3 <> None /\ x4 <> None.
Proof.
  unfold blend. cbv zeta. intros H. apply cadd_real in H. destruct H as [H T4]. apply cadd_real in H. destruct H as [H T3].
  apply cadd_real in H. destruct H as [H T2]. apply cadd_real in H. destruct H as [H T1].
  apply cmul_real in T1, T2, T3, T4. destruct T1 as [T1 _], T2 as [T2 _], T3 as [T3 _], T4 as [T4 _].
  apply cmul_real in T1, T2, T3, T4. tauto.
Qed.
Lemma blendR (h x x1 x2 x3 x4 : R) : blend (Some h : cl) (Some x) (Some x1) (Some x2) (Some x3) (Some x4) = (Some (x + h / 6 * (x1 + 2 * x2 + 2 * x3 + x4))%R : cl).
Proof.
  unfold blend. cbv zeta. rewrite !cofZ_R. rewrite divR by (intros X; apply (eq_IZR 6 0) in X; discriminate). rewrite !mulR, !addR. f_equal. field.
Qed.
Lemma half_R (h x : R) : cdiv (cmul (Some h : cl) (Some x)) (cofZ 2) = (Some (h * x / 2)%R : cl).
Proof. rewrite cofZ_R, mulR, divR by (intros X; apply (eq_IZR 2 0) in X; discriminate). reflexivity. Qed.
Lemma half_real (h : R) K a : realK y K -> real_acc a -> realK y (half_way (Some h : cl) K a).
Proof.
  intros H Ha b d Hb Hd. destruct (H b d Hb Hd) as [X1 X2]. pose proof (Ha b d Hb Hd) as X3. cbn [half_way k_q k_v].
  rewrite (rp_some _ X1), (rp_some _ X2), (rp_some _ X3). rewrite half_R, addR, half_R, addR. split; congruence.
Qed.
Lemma whole_real (h : R) K a : realK y K -> real_acc a -> realK y (whole_way (Some h : cl) K a).
Proof.
  intros H Ha b d Hb Hd. destruct (H b d Hb Hd) as [X1 X2]. pose proof (Ha b d Hb Hd) as X3. cbn [whole_way k_q k_v].
  rewrite (rp_some _ X1), (rp_some _ X2), (rp_some _ X3). rewrite mulR, addR, mulR, addR. split; congruence.
Qed.
Lemma four_momentum (h : R) K K' d : d < 2 -> four_stages (feels w y rows) (Some h : cl) K K' -> realK y K' ->
  realK y K /\ mom y M K' d = (mom y M K d + h * Lsum (y_gens y) (fun g => e g d))%R.
Proof.
  intros Hd (a1 & a2 & a3 & a4 & A1 & A2 & A3 & A4 & ->) HR. cbv zeta in *.
  assert (HR0 : realK y K).
  { intros b d' Hb Hd'. destruct (HR b d' Hb Hd') as [X1 X2]. cbn [k_q k_v] in X1, X2. apply blend_real in X1, X2. tauto. }
  assert (Ha : real_acc a1 /\ real_acc a2 /\ real_acc a3 /\ real_acc a4).
  { repeat split; intros b d' Hb Hd'; destruct (HR b d' Hb Hd') as [_ X2]; cbn [k_q k_v] in X2; apply blend_real in X2; tauto. }
  destruct Ha as (R1 & R2 & R3 & R4). split; [exact HR0|].
  rewrite cofZ_R in A1. assert (E2 : cdiv (Some h : cl) (cofZ 2) = (Some (h / 2)%R : cl)) by (rewrite cofZ_R, divR by (intros X; apply (eq_IZR 2 0) in X; discriminate); reflexivity).
  rewrite E2 in A2, A3.
  apply (stage_force _ _ _ d Hd HR0 R1) in A1. apply (stage_force _ _ _ d Hd (half_real h K a1 HR0 R1) R2) in A2.
  apply (stage_force _ _ _ d Hd (half_real h K a2 HR0 R2) R3) in A3. apply (stage_force _ _ _ d Hd (whole_real h K a3 HR0 R3) R4) in A4.
  set (S := Lsum (y_gens y) (fun g => e g d)) in *. unfold mom, momentum. cbn [k_v].
  rewrite (Lsum_ext (y_bodies y) _ (fun b => M b d * rp (k_v K b d) + (h / 6 * (M b d * rp (a1 b d)) + (h / 3 * (M b d * rp (a2 b d)) + (h / 3 * (M b d * rp (a3 b d)) + h / 6 * (M b d * rp (a4 b d))))))%R).
  2:{ intros b Hb. assert (D3 : d < 3) by lia. rewrite (rp_some _ (proj2 (HR0 b d Hb D3))), (rp_some _ (R1 b d Hb D3)), (rp_some _ (R2 b d Hb D3)), (rp_some _ (R3 b d Hb D3)), (rp_some _ (R4 b d Hb D3)).
      rewrite blendR. cbn [rp]. field. }
  rewrite !Lsum_plus, !Lsum_scal, A1, A2, A3, A4. field.
Qed.
Lemma rk_momentum (h : R) n Kn d : d < 2 -> rk_motion (feels w y rows) (Some h : cl) n (kin_of w) Kn -> realK y Kn ->
  mom y M Kn d = (mom y M (kin_of w) d + INR n * h * Lsum (y_gens y) (fun g => e g d))%R.
Proof.
  intros Hd (Ks & E0 & En & HS) HR.
  assert (B : forall i, i <= n -> realK y (Ks (n - i))).
  { induction i as [|i IH]; intros Hi; [now rewrite Nat.sub_0_r, En|]. specialize (IH ltac:(lia)).
    pose proof (HS (n - S i) ltac:(lia)) as FS. replace (S (n - S i)) with (n - i) in FS by lia. exact (proj1 (four_momentum h _ _ d Hd FS IH)). }
  assert (G : forall i, i <= n -> mom y M (Ks i) d = (mom y M (kin_of w) d + INR i * h * Lsum (y_gens y) (fun g => e g d))%R).
  { induction i as [|i IH]; intros Hi; [rewrite E0; cbn [INR]; ring|].
    assert (HRi : realK y (Ks (S i))) by (replace (S i) with (n - (n - S i)) by lia; apply B; lia).
    rewrite (proj2 (four_momentum h _ _ d Hd (HS i ltac:(lia)) HRi)), IH by lia. rewrite S_INR. ring. }
  rewrite <- En. apply G. lia.
Qed.
End Steps.
Lemma nobody y (M v v' : nat -> nat -> R) (e : nat -> nat -> R) w : (forall g, In g (y_gens y) -> outer y M (g_kind (w_gen w g)) (e g)) -> y_bodies y = [] ->
  forall d dt, d < 2 -> momentum y M v' d = (momentum y M v d + dt * Lsum (y_gens y) (fun g => e g d))%R.
Proof.
  intros HG E d dt Hd. unfold momentum. rewrite E. cbn [Lsum fold_right]. rewrite (Lsum_ext (y_gens y) _ (fun _ => 0%R)); [rewrite Lsum_zero; ring|].
  intros g Hg. destruct (HG g Hg) as [(r & (i1 & i2 & _ & Hi & _) & _)|[(gr & _ & E0 & E1)|(px & py & b & Hb & _)]]; [rewrite E in Hi; destruct Hi| |rewrite E in Hb; destruct Hb].
  destruct d as [|[|]]; [exact E0| |lia]. rewrite E1, E. cbn. ring.
Qed.
Lemma momentum_fourth m (dt : R) n t w y w' y' l q v M kc e q' v' :
  yreach Generic priv m w y -> uses_rk y -> y_sle y = Some l -> supplied l -> attached w y -> kinds_are w y kc -> (forall c, In c (y_cons y) -> inner (kc c)) ->
  (forall g, In g (y_gens y) -> outer y M (g_kind (w_gen w g)) (e g)) -> body_count y <= 255 -> bodies_are w y q v M ->
  0 < n -> process Generic (Some dt : cl) n t w y = Ok (w', y') -> ends w' y q' v' ->
  forall d, d < 2 -> momentum y M v' d = (momentum y M v d + dt * Lsum (y_gens y) (fun g => e g d))%R.
Proof.
  intros H HU El Hs HA HK HI HG H255 HB Hn E HE d Hd.
  pose proof (reg_listed _ _ _ (yreach_reg _ _ _ _ _ H)) as HL.
  assert (NB : y_bodies y <> [] \/ y_bodies y = []) by (destruct (y_bodies y); [right|left]; congruence).
  destruct NB as [NB|NB].
  - assert (HN : nice priv w y) by exact (reach_nice priv _ _ _ _ H HA (kinds_shaped w y kc HK) (outer_gentle w y M e HG)). destruct HN as (Hl & _).
    destruct (rk_runs priv (fun K h f F => with_rows w y h (fun _ _ => True) K f F) m (Some dt : cl) n t w y w' y' H HA (kinds_shaped w y kc HK) (outer_gentle w y M e HG) HU NB
      (fun s0 h => gen_rows_any priv w (with_state y s0) h l Hl HL HA (kinds_shaped w y kc HK) (kinds_parties w y kc HK) H255 El Hs) E) as (K & HM & HAr).
    assert (Nn : IZR (Z.of_nat n) <> 0%R). { intros X. apply (eq_IZR _ 0) in X. lia. }
    rewrite cofZ_R, divR in HM by exact Nn.
    assert (KE : kin_is y K q' v').
    { intros b d' Hb Hd'. destruct (HAr b d' Hb Hd') as [A1 A2], (HE b d' Hb Hd') as [B1 B2]. split; congruence. }
    assert (KR : realK y K).
    { intros b d' Hb Hd'. destruct (KE b d' Hb Hd') as [-> ->]. split; congruence. }
    pose proof (rk_momentum w y q v M kc e HL HA HK HB HI HG _ n K d Hd HM KR) as G.
    rewrite (mom_is y M K q' v' d KE ltac:(lia)) in G. rewrite G.
    rewrite (mom_is y M (kin_of w) q v d) by (lia || (intros b d' Hb Hd'; destruct (HB b d' Hb Hd') as (A1 & A2 & _); now split)).
    f_equal. f_equal. rewrite <- INR_IZR_INZ in *. field. exact Nn.
  - now apply (nobody y M v v' e w).
Qed.

(** ** the stabilised equation *)
Section Lawful.
Variables (w : world T) (y : sys T) (q0 v0 M : nat -> nat -> R) (g : ge_solver)
  (f : (nat -> nat -> R) -> (nat -> nat -> R) -> nat -> nat -> R)
  (J Jd : (nat -> nat -> R) -> (nat -> nat -> R) -> nat -> nat -> nat -> R)
  (C ks kd : (nat -> nat -> R) -> (nat -> nat -> R) -> nat -> nat -> R).
Hypotheses (HN : nice priv w y) (El : y_sle y = Some (SleGe g)) (H1 : forall c, In c (y_cons y) -> 1 <= c_bodycount (w_con w c)).
Hypotheses (H255 : body_count y <= 255) (HC0 : y_cons y <> []) (HB : bodies_are w y q0 v0 M) (HW : lawful w y M f J Jd C ks kd).
Lemma stage_total s0 K (h : R) q v : let y0 := with_state y s0 in real_kin y K q v ->
  stage_good priv column Total w y0 (gen_process_constraints w y0) (stabilised w y M f J Jd C ks kd) K (Some h : cl).
Proof.
  intros y0 HK hp s H HC HM HP. unfold hoare. change (presents w y0) with (presents w y) in *.
  destruct (HW K h q v HK) as (HF & HR & L & HL & R1 & R2 & R3 & R4 & R5).
  destruct (HF s HP) as (s2 & E2 & F2). change (process_forces w y0 s) with (process_forces w y s). rewrite E2. cbn [bind].
  pose proof HN as (Hl & Hli & HA & HS & HG).
  pose proof (pc_elim _ _ _ E2 (process_forces_alters w y _ HG)) as A2.
  pose proof (presents_forces _ _ _ _ _ _ A2 HP) as P2.
  pose proof (gen_ge_constraints priv w y0 g q0 v0 v M (f q v) L (J q v) (Jd q v) (C q v) (ks q v) (kd q v) K (Some h : cl) hp s2 HN El H1 H255 HC0 HB
    (fun b d Hb Hd => proj2 (HK b d Hb Hd)) HL R1 R2 R3 R4 R5 HR H HM P2 F2) as G.
  apply wp_ok in G. destruct G as ([hp3 s3] & E & H3 & M3 & P3 & x & FJ & GL). cbn [fst snd] in *. rewrite E. cbn [wp fst snd].
  pose proof (pc_elim _ _ _ E (gen_constraints_column priv w y0 Hl hp s2 H HC)) as C3.
  pose proof (pc_elim _ _ _ E (gen_constraints_inv priv w y0 hp s2 H Hl)) as (_ & A3 & _). cbn [fst snd] in *.
  split; [exact H3|]. split; [exact C3|]. split; [exact M3|].
  pose proof (alters_resized _ _ _ A2) as (N1 & N2 & _). pose proof (alters_resized _ _ _ A3) as (N3 & N4 & _).
  split; [congruence|]. split; [congruence|]. eexists. split; [exact P3|].
  exists q, v, (accel w y M (f q v) (J q v) x), x. split; [exact HK|]. split; [|split; [exact GL|]].
  - exact (newton_J w y q0 v0 M HB (f q v) (J q v) x _ _ FJ (fun b d Hb Hd => eq_refl)).
  - intros b d Hb Hd. unfold accel. field. apply (HB b d Hb Hd).
Qed.
Lemma half_kin (h : R) K q v a ar : real_kin y K q v -> (forall b d, In b (y_bodies y) -> d < 3 -> a b d = (Some (ar b d) : cl)) ->
  exists q' v', real_kin y (half_way (Some h : cl) K a) q' v'.
Proof.
  intros HK Ha. exists (fun b d => q b d + h * (v b d + h * ar b d / 2) / 2)%R, (fun b d => v b d + h * ar b d / 2)%R.
  intros b d Hb Hd. destruct (HK b d Hb Hd) as [E1 E2]. cbn [half_way k_q k_v]. rewrite E1, E2, (Ha b d Hb Hd). rewrite half_R, addR, half_R, addR. auto.
Qed.
Lemma whole_kin (h : R) K q v a ar : real_kin y K q v -> (forall b d, In b (y_bodies y) -> d < 3 -> a b d = (Some (ar b d) : cl)) ->
  exists q' v', real_kin y (whole_way (Some h : cl) K a) q' v'.
Proof.
  intros HK Ha. exists (fun b d => q b d + h * (v b d + h * ar b d))%R, (fun b d => v b d + h * ar b d)%R.
  intros b d Hb Hd. destruct (HK b d Hb Hd) as [E1 E2]. cbn [whole_way k_q k_v]. rewrite E1, E2, (Ha b d Hb Hd). rewrite mulR, addR, mulR, addR. auto.
Qed.
Lemma h2 (h : R) : cdiv (Some h : cl) (cofZ 2) = (Some (h / 2)%R : cl).
Proof. rewrite cofZ_R, divR by (intros X; apply (eq_IZR 2 0) in X; discriminate). reflexivity. Qed.
Lemma chain_total s0 K (h : R) : (exists q v, real_kin y K q v) -> let y0 := with_state y s0 in
  chain priv column Total w y0 (gen_process_constraints w y0) (stabilised w y M f J Jd C ks kd) (Some h : cl) K.
Proof.
  intros (q & v & HK) y0. split; [rewrite cofZ_R; eapply stage_total, HK|].
  intros a1 (q1 & v1 & r1 & _ & _ & E1 & _). destruct (half_kin h K q v a1 r1 HK E1) as (q2 & v2 & K2). cbv zeta. rewrite h2. split; [eapply stage_total, K2|].
  intros a2 (_ & _ & r2 & _ & _ & E2 & _). destruct (half_kin h K q v a2 r2 HK E2) as (q3 & v3 & K3). split; [eapply stage_total, K3|].
  intros a3 (_ & _ & r3 & _ & _ & E3 & _). destruct (whole_kin h K q v a3 r3 HK E3) as (q4 & v4 & K4). eapply stage_total, K4.
Qed.
Lemma stages_real (h : R) K K' : (exists q v, real_kin y K q v) -> four_stages (stabilised w y M f J Jd C ks kd) (Some h : cl) K K' -> exists q v, real_kin y K' q v.
Proof.
  intros (q & v & HK) (a1 & a2 & a3 & a4 & (_ & _ & r1 & _ & _ & E1 & _) & (_ & _ & r2 & _ & _ & E2 & _) & (_ & _ & r3 & _ & _ & E3 & _) & (_ & _ & r4 & _ & _ & E4 & _) & ->).
  destruct (half_kin h K q v a1 r1 HK E1) as (q2 & v2 & K2). destruct (half_kin h K q v a2 r2 HK E2) as (q3 & v3 & K3). destruct (whole_kin h K q v a3 r3 HK E3) as (q4 & v4 & K4).
  eexists _, _. intros b d Hb Hd. cbn [k_q k_v].
  rewrite (proj1 (HK b d Hb Hd)), (proj2 (HK b d Hb Hd)), (proj2 (K2 b d Hb Hd)), (proj2 (K3 b d Hb Hd)), (proj2 (K4 b d Hb Hd)), (E1 b d Hb Hd), (E2 b d Hb Hd), (E3 b d Hb Hd), (E4 b d Hb Hd).
  rewrite !blendR. split; [instantiate (1 := fun b d => _)|instantiate (1 := fun b d => _)]; reflexivity.
Qed.
End Lawful.
Lemma stabilised_fourth m (dt : R) n t w y g r q v M f J Jd C ks kd :
  yreach Generic priv m w y -> lone priv y -> y_ode y = Some (OdeRk4 r) -> y_sle y = Some (SleGe g) -> attached w y -> shaped w y ->
  (forall c, In c (y_cons y) -> 1 <= c_bodycount (w_con w c)) -> all_gentle w y -> body_count y <= 255 -> y_cons y <> [] -> y_bodies y <> [] ->
  bodies_are w y q v M -> lawful w y M f J Jd C ks kd -> 0 < n ->
  exists w' y' K q' v', process Generic (Some dt : cl) n t w y = Ok (w', y') /\ ends w' y q' v' /\ real_kin y K q' v' /\
    rk_motion (stabilised w y M f J Jd C ks kd) (Some (dt / INR n)%R : cl) n (kin_of w) K.
Proof.
  intros HR HO Eo El HA HS H1 HG H255 HC0 HB0 HB HW Hn.
  pose proof (yreach_inv priv _ m w y HR) as (Hh & Hs & Hl & _). pose proof (reach_nice priv _ _ _ _ HR HA HS HG) as HN.
  pose proof (proj1 (profiling _ _ _ _ _ HR)) as Hf. destruct (lone_rk priv m w y r HR HO Eo) as (Zi & Za & HF).
  assert (Nn : IZR (Z.of_nat n) <> 0%R). { intros X. apply (eq_IZR _ 0) in X. lia. }
  assert (Eh : cdiv (Some dt : cl) (cofZ (Z.of_nat n)) = (Some (dt / INR n)%R : cl)) by (rewrite cofZ_R, divR, INR_IZR_INZ by exact Nn; reflexivity).
  assert (K0 : exists q v, real_kin y (kin_of w) q v) by (exists q, v; intros b d Hb Hd; destruct (HB b d Hb Hd) as (A1 & A2 & _); now split).
  pose proof (rk_process priv column Total w y (Some dt : cl) n t (stabilised w y M f J Jd C ks kd) (fun K => exists q v, real_kin y K q v) r Hh (yreach_column priv _ _ _ _ HR) Hs HN
    (fun _ => Hf) Eo Zi Za (fun _ => HF) HB0 K0) as X. cbv zeta in X. rewrite Eh in X.
  assert (G : hoare (tg := RT dbg) Total (gen_process (Some dt : cl) n t w y) (fun x => exists K, rk_motion (stabilised w y M f J Jd C ks kd) (Some (dt / INR n)%R : cl) n (kin_of w) K /\ arrives (fst x) y K)).
  { eapply hoare_mono; [apply X|intros x U; apply U].
    - intros s0 K HK. exact (chain_total w y q v M g f J Jd C ks kd HN El H1 H255 HC0 HB HW s0 K _ HK).
    - intros K K' HK HS'. eapply stages_real; eauto. }
  apply wp_ok in G. destruct G as ([w' y'] & E & K & HM & AR). cbn [fst] in AR.
  assert (KR : exists q v, real_kin y K q v).
  { clear X. destruct HM as (Ks & E0 & En & HSt). rewrite <- En. clear - K0 E0 HSt. assert (Z : forall i, i <= n -> exists q v, real_kin y (Ks i) q v); [|now apply Z].
    induction i as [|i IH]; intros Hi; [now rewrite E0|]. eapply stages_real; [apply IH; lia|apply HSt; lia]. }
  destruct KR as (q' & v' & KR). exists w', y', K, q', v'. split; [exact E|]. split; [|split; [exact KR|exact HM]].
  intros b d Hb Hd. destruct (AR b d Hb Hd) as [-> ->]. now apply KR.
Qed.
End R.
