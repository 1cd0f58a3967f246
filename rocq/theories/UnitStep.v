(** * A system in other units or in a mirror moves in the same way. *)

From Coq Require Import Reals Lra.
From Verif Require Import Base Targets Matrix Sparse Sle State Ode Forces Constraints System Logic RealSum SpecMatrix SpecState SpecForces ForceFacts ForceReal SpecCon ConFacts SleHist
  SpecSys RegFacts SysInv SpecDyn DynState DynReact DynRound DynStep SpecSolve SolveReal SolveStep SpecLaw LawReal LawStep SpecMom MomForce MomStep SpecSub SubOde SubStep SubRun SpecLeast LeastReal LeastStep LeastPart LeastGal
  SpecTurn TurnReal TurnStep SpecUnit UnitReal.
Local Open Scope nat_scope.

(** the unit of the unknown: a velocity in the optimized class, an acceleration in the generic one *)
Definition pace (k : flavour) (t : R) : R := match k with Optimized => (/ t)%R | Generic => (/ t * / t)%R end.

Section S.
Context {dbg : bool}.
Notation T := (RT dbg).
Notation cl := (cell T).
Implicit Types (w : world T) (y : sys T).

Section Two.
Variables (e l t : R) (w1 : world T) (y1 : sys T) (w2 : world T) (y2 : sys T) (kc kc2 : nat -> rkind).
Hypotheses (HO : reordered w1 y1 w2 y2) (K1 : kinds_are w1 y1 kc) (K2 : kinds_are w2 y2 kc2) (He : e = 1%R \/ e = (-1)%R) (Hl : (0 < l)%R) (Ht : (0 < t)%R)
  (HT : forall c, In c (y_cons y1) -> ksized e l t (kc c) (kc2 c)) (HF : forall c, In c (y_cons y1) -> fits l (kc c)).
Lemma wanted_sized k q v (beta dt : R) c j : dt <> 0%R -> In c (y_cons y1) -> j < rows (kc c) ->
  wanted k w2 kc2 (sized e l (/ t) v) (Jat w2 kc2 (sized e l 1 q)) (fun c j i => Jd_of (kc2 c) (pose_at w2 (sized e l 1 q) c) (pose_at w2 (sized e l (/ t) v) c) j i)
    (fun c j => C_of (kc2 c) (pose_at w2 (sized e l 1 q) c) j) beta (t * dt) c j =
  (factor e l (kc c) j * pace k t * wanted k w1 kc v (Jat w1 kc q) (fun c j i => Jd_of (kc c) (pose_at w1 q c) (pose_at w1 v c) j i) (fun c j => C_of (kc c) (pose_at w1 q c) j) beta dt c j)%R.
Proof.
  intros Ndt Hc Hj.
  assert (EC : C_of (kc2 c) (pose_at w2 (sized e l 1 q) c) j = (factor e l (kc c) j * C_of (kc c) (pose_at w1 q c) j)%R).
  { rewrite (C_ext _ _ (fun p => psized e l 1 (pose_at w1 q c p))); [|intros p; now apply (sized_pose e l w1 y1 w2 y2)]. apply (C_sized e l t); auto. }
  unfold wanted, pace. destruct k.
  - rewrite EC, (bias_sized e l t _ _ j (HT c Hc)). field. split; lra.
  - rewrite (along_sized e l t w1 y1 w2 y2 kc kc2 HO K1 K2 He HT HF (/ t) q v c j Hc Hj), (along_sized_d e l t w1 y1 w2 y2 kc kc2 HO K1 K2 He HT HF (/ t) (/ t) q v v c j Hc Hj).
    rewrite EC, (ks_sized e l t _ _ j (HT c Hc)), (kd_sized e l t _ _ j (HT c Hc)). field. lra.
Qed.
End Two.

Variable priv : nat -> bool.
Lemma unit_step k z e l t m kc kc2 kg (dt beta : R) M w1 y1 w2 y2 q v t1 t2 : (e = 1%R \/ e = (-1)%R) -> (0 < l)%R -> (0 < t)%R -> (0 < m)%R -> dt <> 0%R -> positive y1 M ->
  side priv k z kc kg beta M w1 y1 q v -> side priv k z kc2 (fun g => gsized e l t m (kg g)) beta (msized l m M) w2 y2 (sized e l 1 q) (sized e l (/ t) v) -> reordered w1 y1 w2 y2 ->
  (forall c, In c (y_cons y1) -> ksized e l t (kc c) (kc2 c)) -> (forall c, In c (y_cons y1) -> fits l (kc c)) -> (l = 1%R \/ long_springs l y1 kg q) -> regular w1 y1 M (Jat w1 kc q) ->
  exists w1' y1' w2' y2' q' v', process k (Some dt : cl) 1 t1 w1 y1 = Ok (w1', y1') /\ process k (Some (t * dt)%R : cl) 1 t2 w2 y2 = Ok (w2', y2') /\
    ends w1' y1 q' v' /\ ends w2' y2 (sized e l 1 q') (sized e l (/ t) v').
Proof.
  intros He Hl Ht Hm Ndt HM [(m1 & H1) U1 (g1 & L1) A1 K1 G1 B1 N1 E1 Q1] [(m2 & H2) U2 (g2 & L2) A2 K2 G2 B2 N2 E2 Q2] HO HT HF HS HR.
  pose proof (e_sq e He) as Ee.
  pose proof (reg_listed _ _ _ (yreach_reg _ _ _ _ _ H1)) as HL1. pose proof (reg_listed _ _ _ (yreach_reg _ _ _ _ _ H2)) as HL2.
  destruct (reach_nodup priv _ _ _ _ H1) as (NB1 & ND1 & NG1), (reach_nodup priv _ _ _ _ H2) as (NB2 & ND2 & NG2).
  set (M2 := msized l m M) in *. set (q2 := sized e l 1 q) in *. set (v2 := sized e l (/ t) v) in *.
  assert (Hll : (0 < l * l)%R) by now apply Rmult_lt_0_compat.
  assert (HM2 : positive y2 M2).
  { intros b d Hb Hd. apply HO in Hb. pose proof (HM b d Hb Hd). unfold M2, msized. destruct d as [|[|]]; repeat apply Rmult_lt_0_compat; auto. }
  assert (Ndt2 : (t * dt)%R <> 0%R) by (apply Rmult_integral_contrapositive; split; auto; lra).
  set (f1 := fun b d => Lsum (y_gens y1) (fun g => force_of M q v (kg g) b d)).
  set (f2 := fun b d => Lsum (y_gens y2) (fun g => force_of M2 q2 v2 (gsized e l t m (kg g)) b d)).
  assert (EF : forall b d, d < 3 -> f2 b d = fsized e l t m f1 b d).
  { intros b d Hd. unfold f1, f2. rewrite <- Lsum_fsized. rewrite (Lsum_sub (y_gens y1) (y_gens y2)); auto; [|apply HO|intros g Hg N; now apply HO in Hg].
    apply Lsum_ext. intros g Hg. apply force_sized; auto. intros r i1 i2 Ek. destruct HS as [HS|HS]; [now left|right]. exact (HS g r i1 i2 Hg Ek). }
  set (J1 := Jat w1 kc q) in *. set (Jd1 := fun c j i => Jd_of (kc c) (pose_at w1 q c) (pose_at w1 v c) j i). set (C1 := fun c j => C_of (kc c) (pose_at w1 q c) j).
  set (J2 := Jat w2 kc2 q2). set (Jd2 := fun c j i => Jd_of (kc2 c) (pose_at w2 q2 c) (pose_at w2 v2 c) j i). set (C2 := fun c j => C_of (kc2 c) (pose_at w2 q2 c) j).
  assert (HR2 : regular w2 y2 M2 J2).
  { apply (independent_regular w2 y2); auto; [exact (kinds_shaped w2 y2 kc2 K2)|]. apply (sized_independent e l t w1 y1 w2 y2 kc kc2 HO K1 K2 He Hl HT HF q); auto. now apply (regular_independent w1 y1 J1 M). }
  destruct (ge_step priv k z m1 dt t1 w1 y1 g1 beta q v M f1 kc J1 Jd1 C1 H1 U1 L1 A1 K1 (gens_gentle _ _ _ G1) B1 N1 Ndt E1 Q1 (gens_push w1 y1 kg dt q v M HL1 Q1 G1) HR)
    as (w1' & y1' & u1 & x1 & P1 & En1 & AL1 & EQ1).
  { intros c j Hc Hj. split; [reflexivity|]. intros i. split; reflexivity. }
  destruct (ge_step priv k z m2 (t * dt) t2 w2 y2 g2 beta _ _ M2 f2 kc2 J2 Jd2 C2 H2 U2 L2 A2 K2 (gens_gentle _ _ _ G2) B2 N2 Ndt2 E2 Q2 (gens_push w2 y2 _ (t * dt) _ _ M2 HL2 Q2 G2) HR2)
    as (w2' & y2' & u2 & x2 & P2 & En2 & AL2 & EQ2).
  { intros c j Hc Hj. split; [reflexivity|]. intros i. split; reflexivity. }
  exists w1', y1', w2', y2', (newq k z q v u1 dt), (newv k v u1 dt). split; [exact P1|]. split; [exact P2|]. split; [exact En1|].
  set (s1 := start k M f1 v dt) in *. set (s2 := start k M2 f2 v2 (t * dt)) in *. set (p := pace k t).
  assert (Hp : (0 < p)%R) by (unfold p, pace; pose proof (Rinv_0_lt_compat t Ht); destruct k; auto; now apply Rmult_lt_0_compat).
  assert (ES : forall b d, In b (y_bodies y1) -> d < 3 -> s2 b d = sized e l p s1 b d).
  { intros b d Hb Hd. pose proof (HM b d Hb Hd) as Pm. unfold s1, s2, start, unbound. rewrite (EF b d Hd). unfold p, pace, M2, v2. destruct k, d as [|[|[|d]]]; try (exfalso; lia); cbn [sized msized fsized]; field; repeat split; lra. }
  assert (EK : forall u, kinetic y2 M2 (sized e l p u) = (m * (l * l) * (p * p) * kinetic y1 M u)%R).
  { intros u. rewrite <- (kinetic_same y1 y2 M2 (sized e l p u)) by (auto; apply HO). now apply kinetic_sized. }
  assert (Pf : (0 < m * (l * l) * (p * p))%R) by (repeat apply Rmult_lt_0_compat; auto).
  assert (HW2 : forall c j, In c (y_cons y1) -> j < rows (kc c) -> wanted k w2 kc2 v2 J2 Jd2 C2 beta (t * dt) c j = (factor e l (kc c) j * p * wanted k w1 kc v J1 Jd1 C1 beta dt c j)%R).
  { intros c j Hc Hj. exact (wanted_sized e l t w1 y1 w2 y2 kc kc2 HO K1 K2 He Ht HT HF k q v beta dt c j Ndt Hc Hj). }
  set (u' := sized e (/ l) (/ p) u2).
  assert (EU2 : forall b d, d < 3 -> sized e l p u' b d = u2 b d).
  { intros b d Hd. unfold u'. destruct d as [|[|[|d]]]; try (exfalso; lia); cbn [sized].
    - transitivity ((e * e) * (l * / l) * (p * / p) * u2 b 0%nat)%R; [ring|]. rewrite Ee, !Rinv_r by lra. ring.
    - transitivity ((l * / l) * (p * / p) * u2 b 1%nat)%R; [ring|]. rewrite !Rinv_r by lra. ring.
    - transitivity ((e * e) * (p * / p) * u2 b 2%nat)%R; [ring|]. rewrite Ee, !Rinv_r by lra. ring. }
  assert (A1' : allowed w1 y1 J1 (wanted k w1 kc v J1 Jd1 C1 beta dt) u').
  { intros c j Hc Hj. destruct (K1 c Hc) as (_ & Er & _). rewrite Er in Hj. pose proof (factor_not0 e l He (kc c) j ltac:(lra)) as F0.
    apply (Rmult_eq_reg_l (factor e l (kc c) j * p)); [|apply Rmult_integral_contrapositive; split; auto; lra]. rewrite <- HW2 by assumption.
    unfold J1. rewrite <- (along_sized e l t w1 y1 w2 y2 kc kc2 HO K1 K2 He HT HF p q u' c j Hc Hj). fold q2 J2.
    pose proof Hc as Hc2. apply HO in Hc2. rewrite <- (AL2 c j Hc2); [|destruct (K2 c Hc2) as (_ & -> & _); now rewrite (rows_sized e l t _ _ (HT c Hc))].
    apply along_ext. intros i d _ Hd. now apply EU2. }
  assert (A2' : allowed w2 y2 J2 (wanted k w2 kc2 v2 J2 Jd2 C2 beta (t * dt)) (sized e l p u1)).
  { intros c j Hc2 Hj. pose proof Hc2 as Hc. apply HO in Hc. destruct (K2 c Hc2) as (_ & Er & _). rewrite Er, (rows_sized e l t _ _ (HT c Hc)) in Hj.
    unfold J2 at 1, q2. rewrite (along_sized e l t w1 y1 w2 y2 kc kc2 HO K1 K2 He HT HF p q u1 c j Hc Hj). rewrite HW2 by assumption. f_equal. apply AL1; auto. destruct (K1 c Hc) as (_ & -> & _). exact Hj. }
  destruct (smallest w1 y1 J1 M _ (tau k dt) x1 u1 s1 NB1 A1 HM AL1 EQ1 u' A1') as [LE1 UN1].
  destruct (smallest w2 y2 J2 M2 _ (tau k (t * dt)) x2 u2 s2 NB2 A2 HM2 AL2 EQ2 (sized e l p u1) A2') as [LE2 _].
  assert (X1 : kinetic y2 M2 (fun b d => sized e l p u1 b d - s2 b d)%R = (m * (l * l) * (p * p) * kinetic y1 M (fun b d => u1 b d - s1 b d)%R)%R).
  { rewrite <- EK. apply kinetic_ext. intros b d Hb Hd. rewrite ES by (auto; now apply HO). unfold sized. destruct d as [|[|d]]; ring. }
  assert (X2 : kinetic y2 M2 (fun b d => u2 b d - s2 b d)%R = (m * (l * l) * (p * p) * kinetic y1 M (fun b d => u' b d - s1 b d)%R)%R).
  { rewrite <- EK. apply kinetic_ext. intros b d Hb Hd. rewrite ES by (auto; now apply HO). rewrite <- (EU2 b d Hd). unfold sized. destruct d as [|[|d]]; ring. }
  assert (EU : forall b d, In b (y_bodies y1) -> d < 3 -> u2 b d = sized e l p u1 b d).
  { assert (X : forall b d, In b (y_bodies y1) -> d < 3 -> u' b d = u1 b d).
    { apply UN1. rewrite X1, X2 in LE2. apply Rmult_le_reg_l in LE2; [|exact Pf]. lra. }
    intros b d Hb Hd. rewrite <- (EU2 b d Hd). unfold sized. destruct d as [|[|[|d]]]; try (exfalso; lia); rewrite X by (auto; lia); reflexivity. }
  intros b d Hb Hd. pose proof Hb as Hb1. apply HO in Hb1. destruct (En2 b d Hb Hd) as [-> ->].
  pose proof (EU b d Hb1 Hd) as X. unfold newq, newv, q2, v2, p, pace in *. destruct k, z, d as [|[|[|d]]]; try (exfalso; lia); cbn [sized] in *; rewrite ?X; split; f_equal; field; lra.
Qed.
Lemma unit_calls k z e l t m kc kc2 kg (dt beta : R) M : (e = 1%R \/ e = (-1)%R) -> (0 < l)%R -> (0 < t)%R -> (0 < m)%R -> dt <> 0%R ->
  forall ts1 ts2 w1 y1 w2 y2 q v, length ts1 = length ts2 -> (forall b d, In b (y_bodies y1) -> d < 3 -> (0 < M b d)%R) ->
  side priv k z kc kg beta M w1 y1 q v -> side priv k z kc2 (fun g => gsized e l t m (kg g)) beta (msized l m M) w2 y2 (sized e l 1 q) (sized e l (/ t) v) -> reordered w1 y1 w2 y2 ->
  (forall c, In c (y_cons y1) -> ksized e l t (kc c) (kc2 c)) -> (forall c, In c (y_cons y1) -> fits l (kc c)) -> (l = 1%R \/ stay_long l k (Some dt : cl) ts1 w1 y1 kg) -> unsingular k (Some dt : cl) ts1 w1 y1 M kc ->
  exists w1' y1' w2' y2' q' v', calls_of k (Some dt : cl) ts1 w1 y1 = Ok (w1', y1') /\ calls_of k (Some (t * dt)%R : cl) ts2 w2 y2 = Ok (w2', y2') /\
    ends w1' y1 q' v' /\ ends w2' y2 (sized e l 1 q') (sized e l (/ t) v').
Proof.
  intros He Hl Ht Hm Ndt. induction ts1 as [|t1 ts1 IH]; intros [|t2 ts2] w1 y1 w2 y2 q v EL HM S1 S2 HO HT HF HS HR; try discriminate EL.
  - exists w1, y1, w2, y2, q, v. split; [reflexivity|]. split; [reflexivity|]. split; eapply are_ends; eapply sd_are; eassumption.
  - injection EL as EL. destruct (unit_step k z e l t m kc kc2 kg dt beta M w1 y1 w2 y2 q v t1 t2 He Hl Ht Hm Ndt HM S1 S2 HO HT HF) as (w1' & y1' & w2' & y2' & q' & v' & P1 & P2 & En1 & En2).
    { destruct HS as [HS|HS]; [now left|right]. apply (HS [] t1 ts1 w1 y1 q v); auto. exact (are_ends _ _ _ _ _ (sd_are S1)). }
    { exact (unsingular_now _ _ _ _ _ _ _ _ q v HR (are_ends _ _ _ _ _ (sd_are S1))). }
    destruct (side_next priv k z kc kg beta M w1 y1 q v _ t1 w1' y1' q' v' S1 P1 En1) as (S1' & F1 & R1 & EG1 & EB1).
    destruct (side_next priv k z _ _ beta _ w2 y2 _ _ _ t2 w2' y2' _ _ S2 P2 En2) as (S2' & F2 & R2 & EG2 & EB2).
    assert (HC : forall c, In c (y_cons y1') -> In c (y_cons y1)) by (intros c Hc; now apply (next_reordered _ _ _ _ _ _ _ _ P1)).
    destruct (IH ts2 w1' y1' w2' y2' q' v' EL) as (w1'' & y1'' & w2'' & y2'' & q'' & v'' & C1 & C2 & X1 & X2); auto.
    + now rewrite EB1.
    + eapply reordered_trans; [exact (reordered_sym _ _ _ _ (next_reordered _ _ _ _ _ _ _ _ P1))|]. eapply reordered_trans; [exact HO|]. exact (next_reordered _ _ _ _ _ _ _ _ P2).
    + destruct HS as [HS|HS]; [now left|right]. intros pre t0 suf w' y' q0 v0 Ets Ec En. apply (HS (t1 :: pre) t0 suf w' y' q0 v0); [now rewrite Ets| |exact En]. cbn [calls_of]. rewrite P1. exact Ec.
    + exact (unsingular_next _ _ _ _ _ _ _ _ _ _ HR P1).
    + exists w1'', y1'', w2'', y2'', q'', v''. cbn [calls_of]. rewrite P1, P2. cbn [bind]. split; [exact C1|]. split; [exact C2|].
      split; intros b d Hb Hd; [apply X1; [rewrite EB1|]|apply X2; [rewrite EB2|]]; auto.
Qed.
(** the spellings of the specification *)
Lemma side_same k z kc kc2 kg kg2 beta M M2 w y q q2 v v2 : (forall c, kc c = kc2 c) -> (forall g, kg g = kg2 g) -> (forall b d, d < 3 -> M b d = M2 b d) -> (forall b d, d < 3 -> q b d = q2 b d) -> (forall b d, d < 3 -> v b d = v2 b d) ->
  side priv k z kc kg beta M w y q v -> side priv k z kc2 kg2 beta M2 w y q2 v2.
Proof.
  intros Ec Eg EM Eq Ev [H U L A K G B N E Q]. constructor; auto.
  - intros c Hc. rewrite <- Ec. now apply K.
  - intros g Hg. rewrite <- Eg. now apply G.
  - intros b d Hb Hd. rewrite <- EM, <- Eq, <- Ev by assumption. now apply Q.
Qed.
Lemma ends_same w y q q2 v v2 : (forall b d, d < 3 -> q b d = q2 b d) -> (forall b d, d < 3 -> v b d = v2 b d) -> ends w y q v -> ends w y q2 v2.
Proof. intros Eq Ev H b d Hb Hd. rewrite <- Eq, <- Ev by assumption. now apply H. Qed.
End S.

Ltac three d Hd := destruct d as [|[|[|d]]]; [| | |exfalso; lia].
Lemma units_calls dbg priv k z (l t m : R) kc kg (dt beta : R) M ts1 ts2 (w1 : world (RT dbg)) y1 w2 y2 q v : (0 < l)%R -> (0 < t)%R -> (0 < m)%R -> dt <> 0%R -> length ts1 = length ts2 ->
  (forall b d, In b (y_bodies y1) -> d < 3 -> (0 < M b d)%R) ->
  side priv k z kc kg beta M w1 y1 q v ->
  side priv k z (fun c => unit_kind l t m (kc c)) (fun g => unit_gen l t m (kg g)) beta (unit_mass l m M) w2 y2 (unit_place l q) (unit_speed l t v) -> reordered w1 y1 w2 y2 ->
  (l = 1%R \/ (forall c, In c (y_cons y1) -> no_rolling (kc c)) /\ stay_long l k (Some dt : cell (RT dbg)) ts1 w1 y1 kg) ->
  unsingular k (Some dt : cell (RT dbg)) ts1 w1 y1 M kc ->
  exists w1' y1' w2' y2' q' v', calls_of k (Some dt : cell (RT dbg)) ts1 w1 y1 = Ok (w1', y1') /\ calls_of k (Some (t * dt)%R : cell (RT dbg)) ts2 w2 y2 = Ok (w2', y2') /\
    ends w1' y1 q' v' /\ ends w2' y2 (unit_place l q') (unit_speed l t v').
Proof.
  intros Hl Ht Hm Ndt EL HM S1 S2 HO HF HR.
  assert (EP : forall q b d, d < 3 -> sized 1 l 1 q b d = unit_place l q b d) by (intros q0 b d Hd; three d Hd; cbn [sized unit_place]; ring).
  assert (EV : forall v b d, d < 3 -> sized 1 l (/ t) v b d = unit_speed l t v b d) by (intros q0 b d Hd; three d Hd; cbn [sized unit_speed]; unfold Rdiv; ring).
  destruct (unit_calls priv k z 1 l t m kc (fun c => unit_kind l t m (kc c)) kg dt beta M (or_introl eq_refl) Hl Ht Hm Ndt ts1 ts2 w1 y1 w2 y2 q v EL HM S1) as (w1' & y1' & w2' & y2' & q' & v' & P1 & P2 & N1 & N2); auto.
  - eapply side_same; [| | | | |exact S2]; auto; try (intros; symmetry; auto).
    + destruct (kg g) as [r i1 i2|gr|px py fx fy b0]; cbn [gsized unit_gen]; f_equal; [f_equal|..]; ring.
    + three d H; cbn [msized unit_mass]; ring.
  - intros c Hc. destruct (kc c) as [a b c0 d ks kd|a b c0 d f g ks kd|a b c0 d mx ks kd|a b c0 d f ks kd|a ks kd|a mx mn ks kd|mx mn ks kd|mx mn ks kd|ra n ks kd]; cbn [unit_kind].
    + pose proof (KS1 1 l t a b c0 d ks kd) as X. rewrite !Rmult_1_l in X. exact X.
    + pose proof (KS2 1 l t a b c0 d f g ks kd) as X. rewrite !Rmult_1_l in X. exact X.
    + pose proof (KS3 1 l t a b c0 d mx (m * l / t ^ 2 * mx) ks kd) as X. rewrite !Rmult_1_l in X. exact X.
    + pose proof (KS4 1 l t a b c0 d f ks kd) as X. rewrite !Rmult_1_l in X. exact X.
    + pose proof (KS5 1 l t a ks kd) as X. rewrite !Rmult_1_l in X. exact X.
    + pose proof (KS6 1 l t a mx mn (m * l ^ 2 / t ^ 2 * mx) (m * l ^ 2 / t ^ 2 * mn) ks kd) as X. rewrite !Rmult_1_l in X. exact X.
    + apply KS7.
    + apply KS8.
    + apply KS9.
  - intros c Hc. destruct HF as [HF|[HF _]]; [now left|right; now apply HF].
  - destruct HF as [HF|[_ HF]]; auto.
  - exists w1', y1', w2', y2', q', v'. split; [exact P1|]. split; [exact P2|]. split; [exact N1|]. eapply ends_same; [| |exact N2]; auto.
Qed.
Lemma mirror_calls dbg priv k z kc kg (dt beta : R) M ts1 ts2 (w1 : world (RT dbg)) y1 w2 y2 q v : dt <> 0%R -> length ts1 = length ts2 ->
  (forall b d, In b (y_bodies y1) -> d < 3 -> (0 < M b d)%R) ->
  side priv k z kc kg beta M w1 y1 q v ->
  side priv k z (fun c => mirror_kind (kc c)) (fun g => mirror_gen (kg g)) beta M w2 y2 (mirrored q) (mirrored v) -> reordered w1 y1 w2 y2 ->
  unsingular k (Some dt : cell (RT dbg)) ts1 w1 y1 M kc ->
  exists w1' y1' w2' y2' q' v', calls_of k (Some dt : cell (RT dbg)) ts1 w1 y1 = Ok (w1', y1') /\ calls_of k (Some dt : cell (RT dbg)) ts2 w2 y2 = Ok (w2', y2') /\
    ends w1' y1 q' v' /\ ends w2' y2 (mirrored q') (mirrored v').
Proof.
  intros Ndt EL HM S1 S2 HO HR.
  assert (I1 : (/ 1 = 1)%R) by field.
  assert (EP : forall q b d, d < 3 -> sized (-1) 1 1 q b d = mirrored q b d) by (intros q0 b d Hd; three d Hd; cbn [sized mirrored]; ring).
  destruct (unit_calls priv k z (-1) 1 1 1 kc (fun c => mirror_kind (kc c)) kg dt beta M (or_intror eq_refl) Rlt_0_1 Rlt_0_1 Rlt_0_1 Ndt ts1 ts2 w1 y1 w2 y2 q v EL HM S1) as (w1' & y1' & w2' & y2' & q' & v' & P1 & P2 & N1 & N2); auto.
  - eapply side_same; [| | | | |exact S2]; auto; try (intros; symmetry; rewrite ?I1; auto).
    + destruct (kg g) as [r i1 i2|gr|px py fx fy b0]; cbn [gsized mirror_gen]; f_equal; [f_equal|..]; field.
    + three d H; cbn [msized]; ring.
  - intros c Hc. assert (X2 : forall x : R, (x / 1 ^ 2 = x)%R) by (intros; field). assert (X1 : forall x : R, (x / 1 = x)%R) by (intros; field).
    assert (X3 : forall x : R, (- x = -1 * 1 * x)%R) by (intros; ring). assert (X4 : forall x : R, (1 * x = x)%R) by (intros; ring). assert (X5 : forall x : R, (-1 * x = - x)%R) by (intros; ring).
    destruct (kc c) as [a b c0 d ks kd|a b c0 d f g ks kd|a b c0 d mx ks kd|a b c0 d f ks kd|a ks kd|a mx mn ks kd|mx mn ks kd|mx mn ks kd|ra n ks kd]; cbn [mirror_kind].
    + pose proof (KS1 (-1) 1 1 a b c0 d ks kd) as X. rewrite X1, X2, !X4, <- !X3 in X. exact X.
    + pose proof (KS2 (-1) 1 1 a b c0 d f g ks kd) as X. rewrite X1, X2, !X4, <- !X3, !X5 in X. exact X.
    + pose proof (KS3 (-1) 1 1 a b c0 d mx mx ks kd) as X. rewrite X1, X2, !X4, <- !X3 in X. exact X.
    + pose proof (KS4 (-1) 1 1 a b c0 d f ks kd) as X. rewrite X1, X2, !X4, <- !X3, !X5 in X. exact X.
    + pose proof (KS5 (-1) 1 1 a ks kd) as X. rewrite X1, X2, X5 in X. exact X.
    + pose proof (KS6 (-1) 1 1 a mx mn (- mn) (- mx) ks kd) as X. rewrite !X1, X2, X5 in X. exact X.
    + pose proof (KS7 (-1) 1 1 mx mn (- mn) (- mx) ks kd) as X. rewrite X1, X2 in X. exact X.
    + pose proof (KS8 (-1) 1 1 mx mn (- mn) (- mx) ks kd) as X. rewrite X1, X2 in X. exact X.
    + pose proof (KS9 (-1) 1 1 ra n ks kd) as X. rewrite X1, X2 in X. exact X.
  - intros c Hc. now left.
  - rewrite Rmult_1_l, I1 in *. exists w1', y1', w2', y2', q', v'. split; [exact P1|]. split; [exact P2|]. split; [exact N1|]. eapply ends_same; [| |exact N2]; auto.
Qed.
