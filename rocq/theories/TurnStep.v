(** * A system placed at another angle moves in the same way. *)

From Coq Require Import Reals Lra.
From Verif Require Import Base Targets Matrix Sparse Sle State Ode Forces Constraints System Logic RealSum SpecMatrix SpecState SpecForces ForceFacts ForceReal SpecCon ConFacts SleHist
  SpecSys RegFacts SysInv SpecDyn DynState DynReact DynRound DynStep SpecSolve SolveReal SolveStep SpecLaw LawReal LawStep SpecMom MomForce MomStep SpecSub SubOde SubStep SubRun SpecLeast LeastReal LeastStep LeastPart LeastGal
  SpecTurn TurnReal.
Local Open Scope nat_scope.

Lemma bias_turn t ax ay k : bias_of (turn_kind t ax ay k) = bias_of k.
Proof. now destruct k. Qed.
Lemma ks_turn t ax ay k j : ks_of (turn_kind t ax ay k) j = ks_of k j.
Proof. now destruct k. Qed.
Lemma kd_turn t ax ay k j : kd_of (turn_kind t ax ay k) j = kd_of k j.
Proof. now destruct k. Qed.

Section S.
Context {dbg : bool}.
Notation T := (RT dbg).
Notation cl := (cell T).
Implicit Types (w : world T) (y : sys T).

Lemma regular_independent w y J M : attached w y -> regular w y M J -> independent w y J.
Proof.
  intros HA HR x Hx. apply HR. intros c j Hc Hj. rewrite (along_ext w J _ (fun b d => 0 * 0)%R); [rewrite along_scal; ring|].
  intros k d Hk Hd. destruct (HA c k Hc Hk) as (b & Eb & Hb). unfold who. rewrite Eb. rewrite (Hx b d Hb Hd). unfold Rdiv. ring.
Qed.

Section Two.
Variables (t ax ay : R) (w1 : world T) (y1 : sys T) (w2 : world T) (y2 : sys T) (kc kc2 : nat -> rkind).
Hypotheses (HO : reordered w1 y1 w2 y2) (K1 : kinds_are w1 y1 kc) (K2 : kinds_are w2 y2 kc2) (HT : forall c, kc2 c = turn_kind t ax ay (kc c)).
Lemma wanted_turn k q v (beta dt : R) c j : In c (y_cons y1) -> j < rows (kc c) -> k = Generic \/ no_rolling (kc c) ->
  wanted k w2 kc2 (turned t v) (Jat w2 kc2 (placed t ax ay q)) (fun c j i => Jd_of (kc2 c) (pose_at w2 (placed t ax ay q) c) (pose_at w2 (turned t v) c) j i)
    (fun c j => C_of (kc2 c) (pose_at w2 (placed t ax ay q) c) j) beta dt c j =
  mix t (kc c) (wanted k w1 kc v (Jat w1 kc q) (fun c j i => Jd_of (kc c) (pose_at w1 q c) (pose_at w1 v c) j i) (fun c j => C_of (kc c) (pose_at w1 q c) j) beta dt c) j.
Proof.
  intros Hc Hj Hk.
  assert (EC : no_rolling (kc c) \/ j = 1 -> C_of (kc2 c) (pose_at w2 (placed t ax ay q) c) j = mix t (kc c) (C_of (kc c) (pose_at w1 q c)) j).
  { intros HN. rewrite HT. rewrite (C_ext _ _ (fun p => put t ax ay (pose_at w1 q c p))); [|intros p; now apply (place_pose t ax ay w1 y1 w2 y2)]. now apply C_turn. }
  unfold wanted. destruct k.
  - destruct Hk as [|Hk]; [discriminate|]. rewrite (EC (or_introl Hk)), HT, bias_turn. destruct (kc c); cbn [no_rolling] in Hk; try contradiction; cbn [mix bias_of]; try reflexivity; destruct j; ring.
  - rewrite (along_turn t ax ay w1 y1 w2 y2 kc kc2 HO K1 K2 HT q v c j Hc Hj), (along_turn_d t ax ay w1 y1 w2 y2 kc kc2 HO K1 K2 HT q v v c j Hc Hj).
    assert (EK : (ks_of (kc2 c) j * C_of (kc2 c) (pose_at w2 (placed t ax ay q) c) j = ks_of (kc c) j * mix t (kc c) (C_of (kc c) (pose_at w1 q c)) j)%R).
    { rewrite HT at 1. rewrite ks_turn. destruct (kc c) eqn:Ek; try (now rewrite (EC (or_introl I))). destruct j as [|[|]]; [cbn [ks_of]; ring|now rewrite (EC (or_intror eq_refl))|cbn [rows] in Hj; lia]. }
    rewrite EK, HT, kd_turn. destruct (kc c); cbn [mix ks_of kd_of]; try reflexivity; destruct j; ring.
Qed.
End Two.

Variable priv : nat -> bool.
Lemma turn_step k z t ax ay kc kg (dt beta : R) M w1 y1 w2 y2 q v t1 t2 : dt <> 0%R -> positive y1 M ->
  side priv k z kc kg beta M w1 y1 q v -> side priv k z (fun c => turn_kind t ax ay (kc c)) (fun g => turn_gen t (kg g)) beta M w2 y2 (placed t ax ay q) (turned t v) -> reordered w1 y1 w2 y2 ->
  (forall c, In c (y_cons y1) -> k = Generic \/ no_rolling (kc c)) -> (forall g, In g (y_gens y1) -> weightless (kg g)) -> regular w1 y1 M (Jat w1 kc q) ->
  exists w1' y1' w2' y2' q' v', process k (Some dt : cl) 1 t1 w1 y1 = Ok (w1', y1') /\ process k (Some dt : cl) 1 t2 w2 y2 = Ok (w2', y2') /\
    ends w1' y1 q' v' /\ ends w2' y2 (placed t ax ay q') (turned t v').
Proof.
  intros Ndt HM [(m1 & H1) U1 (g1 & L1) A1 K1 G1 B1 N1 E1 Q1] [(m2 & H2) U2 (g2 & L2) A2 K2 G2 B2 N2 E2 Q2] HO HK HW HR.
  pose proof (reg_listed _ _ _ (yreach_reg _ _ _ _ _ H1)) as HL1. pose proof (reg_listed _ _ _ (yreach_reg _ _ _ _ _ H2)) as HL2.
  destruct (reach_nodup priv _ _ _ _ H1) as (NB1 & ND1 & NG1), (reach_nodup priv _ _ _ _ H2) as (NB2 & ND2 & NG2).
  set (kc2 := fun c => turn_kind t ax ay (kc c)) in *. assert (HT : forall c, kc2 c = turn_kind t ax ay (kc c)) by reflexivity.
  assert (HM2 : positive y2 M) by (intros b d Hb Hd; apply HM; auto; now apply HO).
  set (f1 := fun b d => Lsum (y_gens y1) (fun g => force_of M q v (kg g) b d)).
  set (f2 := fun b d => Lsum (y_gens y2) (fun g => force_of M (placed t ax ay q) (turned t v) (turn_gen t (kg g)) b d)).
  assert (EF : forall b d, d < 3 -> f2 b d = turned t f1 b d).
  { intros b d Hd. unfold f1, f2. rewrite <- Lsum_turned. rewrite (Lsum_sub (y_gens y1) (y_gens y2)); auto; [|apply HO|intros g Hg N; now apply HO in Hg].
    apply Lsum_ext. intros g Hg. now apply force_turn; [apply HW|]. }
  set (J1 := Jat w1 kc q) in *. set (Jd1 := fun c j i => Jd_of (kc c) (pose_at w1 q c) (pose_at w1 v c) j i). set (C1 := fun c j => C_of (kc c) (pose_at w1 q c) j).
  set (J2 := Jat w2 kc2 (placed t ax ay q)). set (Jd2 := fun c j i => Jd_of (kc2 c) (pose_at w2 (placed t ax ay q) c) (pose_at w2 (turned t v) c) j i). set (C2 := fun c j => C_of (kc2 c) (pose_at w2 (placed t ax ay q) c) j).
  assert (HR2 : regular w2 y2 M J2).
  { apply (independent_regular w2 y2); auto; [exact (kinds_shaped w2 y2 kc2 K2)|]. apply (turn_independent t ax ay w1 y1 w2 y2 kc kc2 HO K1 K2 HT q); auto. now apply (regular_independent w1 y1 J1 M). }
  destruct (ge_step priv k z m1 dt t1 w1 y1 g1 beta q v M f1 kc J1 Jd1 C1 H1 U1 L1 A1 K1 (gens_gentle _ _ _ G1) B1 N1 Ndt E1 Q1 (gens_push w1 y1 kg dt q v M HL1 Q1 G1) HR)
    as (w1' & y1' & u1 & x1 & P1 & En1 & AL1 & EQ1).
  { intros c j Hc Hj. split; [reflexivity|]. intros i. split; reflexivity. }
  destruct (ge_step priv k z m2 dt t2 w2 y2 g2 beta _ _ M f2 kc2 J2 Jd2 C2 H2 U2 L2 A2 K2 (gens_gentle _ _ _ G2) B2 N2 Ndt E2 Q2 (gens_push w2 y2 _ dt _ _ M HL2 Q2 G2) HR2)
    as (w2' & y2' & u2 & x2 & P2 & En2 & AL2 & EQ2).
  { intros c j Hc Hj. split; [reflexivity|]. intros i. split; reflexivity. }
  exists w1', y1', w2', y2', (newq k z q v u1 dt), (newv k v u1 dt). split; [exact P1|]. split; [exact P2|]. split; [exact En1|].
  set (s1 := start k M f1 v dt) in *. set (s2 := start k M f2 (turned t v) dt) in *.
  assert (ES : forall b d, In b (y_bodies y1) -> d < 3 -> s2 b d = turned t s1 b d).
  { intros b d Hb Hd. pose proof (masses_level w1 y1 q v M b Q1 Hb) as EM. pose proof (HM b 1 Hb ltac:(lia)) as Pm. unfold s1, s2, start, unbound. rewrite (EF b d Hd). destruct k, d as [|[|[|d]]]; try (exfalso; lia); cbn [turned]; rewrite ?EM; field; first [exact I|lra|apply Rgt_not_eq; apply HM; auto; lia]. }
  assert (EK : forall u, kinetic y2 M (turned t u) = kinetic y1 M u).
  { intros u. rewrite <- (kinetic_same y1 y2 M (turned t u)) by (auto; apply HO). apply kinetic_turned. intros b Hb. exact (masses_level w1 y1 q v M b Q1 Hb). }
  assert (HW2 : forall c j, In c (y_cons y1) -> j < rows (kc c) -> wanted k w2 kc2 (turned t v) J2 Jd2 C2 beta dt c j = mix t (kc c) (wanted k w1 kc v J1 Jd1 C1 beta dt c) j).
  { intros c j Hc Hj. exact (wanted_turn t ax ay w1 y1 w2 y2 kc kc2 HO K1 K2 HT k q v beta dt c j Hc Hj (HK c Hc)). }
  set (u' := turned (- t) u2).
  assert (EU2 : forall b d, d < 3 -> turned t u' b d = u2 b d) by (intros b d Hd; now apply turned_back).
  assert (A1' : allowed w1 y1 J1 (wanted k w1 kc v J1 Jd1 C1 beta dt) u').
  { intros c j Hc Hj. destruct (K1 c Hc) as (_ & Er & _). rewrite Er in Hj.
    rewrite <- (mix_back t (kc c) (along w1 J1 u' c) j Hj), <- (mix_back t (kc c) (wanted k w1 kc v J1 Jd1 C1 beta dt c) j Hj).
    apply mix_ext; auto. intros i Hi. rewrite <- HW2 by assumption. unfold J1. rewrite <- (along_turn t ax ay w1 y1 w2 y2 kc kc2 HO K1 K2 HT q u' c i Hc Hi). fold J2.
    pose proof Hc as Hc2. apply HO in Hc2. rewrite <- (AL2 c i Hc2); [|destruct (K2 c Hc2) as (_ & -> & _); now rewrite HT, rows_turn].
    apply along_ext. intros p d _ Hd. now apply EU2. }
  assert (A2' : allowed w2 y2 J2 (wanted k w2 kc2 (turned t v) J2 Jd2 C2 beta dt) (turned t u1)).
  { intros c j Hc2 Hj. pose proof Hc2 as Hc. apply HO in Hc. destruct (K2 c Hc2) as (_ & Er & _). rewrite Er, HT, rows_turn in Hj.
    unfold J2 at 1. rewrite (along_turn t ax ay w1 y1 w2 y2 kc kc2 HO K1 K2 HT q u1 c j Hc Hj). rewrite HW2 by assumption. apply mix_ext; auto. intros i Hi. apply AL1; auto. destruct (K1 c Hc) as (_ & -> & _). exact Hi. }
  destruct (smallest w1 y1 J1 M _ (tau k dt) x1 u1 s1 NB1 A1 HM AL1 EQ1 u' A1') as [LE1 UN1].
  destruct (smallest w2 y2 J2 M _ (tau k dt) x2 u2 s2 NB2 A2 HM2 AL2 EQ2 (turned t u1) A2') as [LE2 _].
  assert (X1 : kinetic y2 M (fun b d => turned t u1 b d - s2 b d)%R = kinetic y1 M (fun b d => u1 b d - s1 b d)%R).
  { rewrite <- EK. apply kinetic_ext. intros b d Hb Hd. rewrite ES by (auto; now apply HO). destruct d as [|[|d]]; cbn [turned]; ring. }
  assert (X2 : kinetic y2 M (fun b d => u2 b d - s2 b d)%R = kinetic y1 M (fun b d => u' b d - s1 b d)%R).
  { rewrite <- EK. apply kinetic_ext. intros b d Hb Hd. rewrite ES by (auto; now apply HO). rewrite <- (EU2 b d Hd). destruct d as [|[|d]]; cbn [turned]; ring. }
  assert (EU : forall b d, In b (y_bodies y1) -> d < 3 -> u2 b d = turned t u1 b d).
  { assert (X : forall b d, In b (y_bodies y1) -> d < 3 -> u' b d = u1 b d) by (apply UN1; lra).
    intros b d Hb Hd. rewrite <- (EU2 b d Hd). destruct d as [|[|[|d]]]; try (exfalso; lia); cbn [turned]; rewrite ?(X b 0), ?(X b 1), ?(X b 2) by (auto; lia); reflexivity. }
  intros b d Hb Hd. pose proof Hb as Hb1. apply HO in Hb1. destruct (En2 b d Hb Hd) as [-> ->].
  pose proof (EU b d Hb1 Hd) as X. unfold newq, newv, placed. destruct k, z, d as [|[|[|d]]]; try (exfalso; lia); cbn [turned placed] in *; rewrite ?X; split; f_equal; ring.
Qed.
Lemma turn_calls k z t ax ay kc kg (dt beta : R) M : dt <> 0%R -> forall ts1 ts2 w1 y1 w2 y2 q v, length ts1 = length ts2 -> (forall b d, In b (y_bodies y1) -> d < 3 -> (0 < M b d)%R) ->
  side priv k z kc kg beta M w1 y1 q v -> side priv k z (fun c => turn_kind t ax ay (kc c)) (fun g => turn_gen t (kg g)) beta M w2 y2 (placed t ax ay q) (turned t v) -> reordered w1 y1 w2 y2 ->
  (forall c, In c (y_cons y1) -> k = Generic \/ no_rolling (kc c)) -> (forall g, In g (y_gens y1) -> weightless (kg g)) -> unsingular k (Some dt : cl) ts1 w1 y1 M kc ->
  exists w1' y1' w2' y2' q' v', calls_of k (Some dt : cl) ts1 w1 y1 = Ok (w1', y1') /\ calls_of k (Some dt : cl) ts2 w2 y2 = Ok (w2', y2') /\
    ends w1' y1 q' v' /\ ends w2' y2 (placed t ax ay q') (turned t v').
Proof.
  intros Ndt. induction ts1 as [|t1 ts1 IH]; intros [|t2 ts2] w1 y1 w2 y2 q v EL HM S1 S2 HO HK HW HR; try discriminate EL.
  - exists w1, y1, w2, y2, q, v. split; [reflexivity|]. split; [reflexivity|]. split; eapply are_ends; eapply sd_are; eassumption.
  - injection EL as EL. destruct (turn_step k z t ax ay kc kg dt beta M w1 y1 w2 y2 q v t1 t2 Ndt HM S1 S2 HO HK HW (unsingular_now _ _ _ _ _ _ _ _ q v HR (are_ends _ _ _ _ _ (sd_are S1)))) as (w1' & y1' & w2' & y2' & q' & v' & P1 & P2 & En1 & En2).
    destruct (side_next priv k z kc kg beta M w1 y1 q v _ t1 w1' y1' q' v' S1 P1 En1) as (S1' & F1 & R1 & EG1 & EB1).
    destruct (side_next priv k z _ _ beta M w2 y2 _ _ _ t2 w2' y2' _ _ S2 P2 En2) as (S2' & F2 & R2 & EG2 & EB2).
    assert (HC : forall c, In c (y_cons y1') -> In c (y_cons y1)) by (intros c Hc; now apply (next_reordered _ _ _ _ _ _ _ _ P1)).
    destruct (IH ts2 w1' y1' w2' y2' q' v' EL) as (w1'' & y1'' & w2'' & y2'' & q'' & v'' & C1 & C2 & X1 & X2); auto.
    + now rewrite EB1.
    + eapply reordered_trans; [exact (reordered_sym _ _ _ _ (next_reordered _ _ _ _ _ _ _ _ P1))|]. eapply reordered_trans; [exact HO|]. exact (next_reordered _ _ _ _ _ _ _ _ P2).
    + now rewrite EG1.
    + exact (unsingular_next _ _ _ _ _ _ _ _ _ _ HR P1).
    + exists w1'', y1'', w2'', y2'', q'', v''. cbn [calls_of]. rewrite P1, P2. cbn [bind]. split; [exact C1|]. split; [exact C2|].
      split; intros b d Hb Hd; [apply X1; [rewrite EB1|]|apply X2; [rewrite EB2|]]; auto.
Qed.
End S.
Lemma turn_calls' dbg priv k z (t ax ay : R) kc kg (dt beta : R) M ts1 ts2 (w1 : world (RT dbg)) y1 w2 y2 q v : dt <> 0%R -> length ts1 = length ts2 ->
  (forall b d, In b (y_bodies y1) -> d < 3 -> (0 < M b d)%R) -> side priv k z kc kg beta M w1 y1 q v ->
  side priv k z (fun c => turn_kind t ax ay (kc c)) (fun g => turn_gen t (kg g)) beta M w2 y2 (placed t ax ay q) (turned t v) -> reordered w1 y1 w2 y2 ->
  (forall c, In c (y_cons y1) -> k = Generic \/ no_rolling (kc c)) -> (forall g, In g (y_gens y1) -> weightless (kg g)) -> unsingular k (Some dt : cell (RT dbg)) ts1 w1 y1 M kc ->
  exists w1' y1' w2' y2' q' v', calls_of k (Some dt : cell (RT dbg)) ts1 w1 y1 = Ok (w1', y1') /\ calls_of k (Some dt : cell (RT dbg)) ts2 w2 y2 = Ok (w2', y2') /\
    ends w1' y1 q' v' /\ ends w2' y2 (placed t ax ay q') (turned t v').
Proof. intros. now apply (turn_calls priv k z t ax ay kc kg dt beta M H ts1 ts2 w1 y1 w2 y2 q v). Qed.
