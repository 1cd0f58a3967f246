(** * Scenes in two systems of units and in a mirror. *)

From Coq Require Import Reals Lra.
From Verif Require Import Base Targets Matrix Sparse Sle State Ode Forces Constraints System Logic RealSum SpecMatrix SpecState SpecForces ForceFacts ForceReal SpecCon ConFacts
  SpecSle SpecSys RegFacts RegWit SpecDyn DynState DynReact DynRound DynStep SpecLimits SpecSolve SolveReal SolveStep SolveWit SpecLaw LawReal LawStep Assemble SpecMom MomForce MomStep MomWit
  SpecSub SpecLeast LeastReal LeastStep LeastPart LeastGal LeastWit SpecTurn TurnReal TurnStep TurnWit SpecUnit UnitReal UnitStep.
Local Open Scope nat_scope.

(** the constraints kT of the scene at two angles, with a damped spring between
    bodies 1 and 2, a force on body 3 and gravity *)
Definition rU : spring_pars := mkSp 2 10 1 0 1 0 1.
Definition gU (g : nat) : rgen := match g with 0 => VSpring rU 1 2 | 1 => VStatic 1 0 3 4 3 | _ => VGravity 10 end.

Lemma unit_mass_heavy (l m : R) M : (0 < l)%R -> (0 < m)%R -> heavy M -> heavy (unit_mass l m M).
Proof.
  intros Hl Hm H b d Hd. destruct (H b d Hd) as [P Q]. split; [|cbn; now rewrite Q]. assert (0 < l ^ 2)%R by now apply pow_lt.
  destruct d as [|[|]]; cbn [unit_mass]; apply Rmult_lt_0_compat; auto; apply Rmult_lt_0_compat; auto.
Qed.

Section S.
Context {dbg : bool}.
Notation T := (RT dbg).
Notation cl := (cell T).
Implicit Types (w : world T) (y : sys T).
Ltac nodup := repeat constructor; cbn; intuition lia.
Lemma bT_in c p : c <= 4 -> In (bT c p) [0; 1; 2; 3; 4; 5].
Proof. intros H. destruct c as [|[|[|[|[|c]]]]]; try lia; destruct p as [|p]; cbn; tauto. Qed.
Lemma gU_in g b : In b (names (gU g)) -> In b [0; 1; 2; 3; 4; 5].
Proof. destruct g as [|[|g]]; cbn; tauto. Qed.
Lemma pair_case M2 kc2 kg2 q2 v2 k z cs gs : heavy M2 -> (forall g, names (kg2 g) = names (gU g)) -> NoDup cs -> NoDup gs -> cs <> [] -> (forall c, In c cs -> c <= 4) ->
  exists (w1 : world T) y1 (w2 : world T) y2, let z := match k with Optimized => Symplectic | Generic => z end in
  side nopriv k z kT gU 1%R MD w1 y1 qD vD /\ side nopriv k z kc2 kg2 1%R M2 w2 y2 q2 v2 /\ reordered w1 y1 w2 y2 /\
  (forall dt ts, unsingular k (dt : cl) ts w1 y1 MD kT) /\ y_bodies y1 = [0; 1; 2; 3; 4; 5] /\ y_cons y1 = cs /\ y_gens y1 = gs.
Proof.
  intros HM Hn N1 N2 N3 N4.
  destruct (@scene dbg kT gU qD vD k z [0; 1; 2; 3; 4; 5] cs gs) as (m1 & w1 & y1 & H1 & D1 & S1 & B1 & C1 & G1); [nodup|auto|auto|cbn; lia|auto| | |].
  { intros c p Hc. apply bT_in. auto. }
  { intros g b _. apply gU_in. }
  destruct (@scene_m dbg M2 kc2 kg2 q2 v2 k z [5; 0; 4; 2; 1; 3] (rev cs) (rev gs)) as (m2 & w2 & y2 & H2 & D2 & S2 & B2 & C2 & G2); [exact HM|nodup|now apply NoDup_rev|now apply NoDup_rev|cbn; lia| | | |].
  { intros E. apply N3. rewrite <- (rev_involutive cs), E. reflexivity. }
  { intros c p Hc. apply in_rev in Hc. pose proof (bT_in c p (N4 c Hc)) as X. cbn in X |- *. tauto. }
  { intros g b _ Hb. rewrite Hn in Hb. apply gU_in in Hb. cbn in Hb |- *. tauto. }
  exists w1, y1, w2, y2. cbv zeta. split; [exact D1|]. split; [exact D2|]. split; [|split; [|auto]].
  - apply (T_reordered _ _ _ _ _ _ _ _ _ _ w1 w2 y1 y2 S1 S2); intros; rewrite ?B1, ?B2, ?C1, ?C2, ?G1, ?G2; [cbn; tauto|apply in_rev|apply in_rev].
  - intros dt ts. apply (T_unsingular gU qD vD k m1); auto.
    + rewrite B1, C1. intros c p Hc. apply bT_in. auto.
    + now rewrite C1.
    + exact (sd_255 D1).
    + exact (sd_gens D1).
Qed.
Lemma names_unit l t m g : names (unit_gen l t m (gU g)) = names (gU g).
Proof. now destruct g as [|[|]]. Qed.
Lemma names_mirror g : names (mirror_gen (gU g)) = names (gU g).
Proof. now destruct g as [|[|]]. Qed.

Lemma unit_case k z (l t m : R) cs gs : (0 < l)%R -> (0 < m)%R -> NoDup cs -> NoDup gs -> cs <> [] -> (forall c, In c cs -> c <= 4) ->
  exists (w1 : world T) y1 (w2 : world T) y2, let z := match k with Optimized => Symplectic | Generic => z end in
  side nopriv k z kT gU 1%R MD w1 y1 qD vD /\
  side nopriv k z (fun c => unit_kind l t m (kT c)) (fun g => unit_gen l t m (gU g)) 1%R (unit_mass l m MD) w2 y2 (unit_place l qD) (unit_speed l t vD) /\ reordered w1 y1 w2 y2 /\
  (forall dt ts, unsingular k (dt : cl) ts w1 y1 MD kT) /\ y_bodies y1 = [0; 1; 2; 3; 4; 5] /\ y_cons y1 = cs /\ y_gens y1 = gs.
Proof. intros Hl Hm. apply pair_case; [apply unit_mass_heavy; auto; exact MD_heavy|apply names_unit]. Qed.
(** mass and time: everything, any number of calls *)
Lemma unit_case_all k z (t m : R) : (0 < m)%R -> exists (w1 : world T) y1 (w2 : world T) y2, let z := match k with Optimized => Symplectic | Generic => z end in
  side nopriv k z kT gU 1%R MD w1 y1 qD vD /\
  side nopriv k z (fun c => unit_kind 1 t m (kT c)) (fun g => unit_gen 1 t m (gU g)) 1%R (unit_mass 1 m MD) w2 y2 (unit_place 1 qD) (unit_speed 1 t vD) /\ reordered w1 y1 w2 y2 /\
  (forall dt ts, unsingular k (dt : cl) ts w1 y1 MD kT) /\ y_bodies y1 = [0; 1; 2; 3; 4; 5] /\ y_cons y1 = [0; 1; 2; 3; 4] /\ y_gens y1 = [0; 1; 2].
Proof. intros Hm. apply unit_case; auto; try lra; try nodup; [discriminate|]. cbn. intros c H. lia. Qed.
(** length: without the wheel; the spring for one call, without it any number *)
Lemma unit_case_long k z (l t m : R) (spring : bool) : (0 < l)%R -> (0 < m)%R -> exists (w1 : world T) y1 (w2 : world T) y2, let z := match k with Optimized => Symplectic | Generic => z end in
  side nopriv k z kT gU 1%R MD w1 y1 qD vD /\
  side nopriv k z (fun c => unit_kind l t m (kT c)) (fun g => unit_gen l t m (gU g)) 1%R (unit_mass l m MD) w2 y2 (unit_place l qD) (unit_speed l t vD) /\ reordered w1 y1 w2 y2 /\
  (forall c, In c (y_cons y1) -> no_rolling (kT c)) /\
  (forall (dt : cl) ts, spring = false \/ ((1 / 100 <= l)%R /\ length ts = 1) -> stay_long l k dt ts w1 y1 gU) /\
  (forall dt ts, unsingular k (dt : cl) ts w1 y1 MD kT) /\ y_bodies y1 = [0; 1; 2; 3; 4; 5] /\ y_cons y1 = [0; 1; 2; 3] /\ y_gens y1 = if spring then [0; 1; 2] else [1; 2].
Proof.
  intros Hl Hm. destruct (unit_case k z l t m [0; 1; 2; 3] (if spring then [0; 1; 2] else [1; 2])) as (w1 & y1 & w2 & y2 & D1 & D2 & HO & HU & B & C & G); auto; try (destruct spring); try nodup; try discriminate; try (cbn; intros; lia).
  all: exists w1, y1, w2, y2; cbv zeta; split; [exact D1|]; split; [exact D2|]; split; [exact HO|]; split; [|split; [|auto]].
  1, 3: intros c Hc; rewrite C in Hc; cbn in Hc; destruct c as [|[|[|[|c]]]]; try exact I; lia.
  - intros dt ts [H|[H1 H2]]; [discriminate|]. intros pre t0 suf w' y' q v Ets Ec En. destruct pre as [|p pre]; [|exfalso; rewrite Ets in H2; cbn in H2; rewrite app_length in H2; cbn in H2; lia].
    cbn in Ec. injection Ec as <- <-. intros g r i1 i2 Hg Ek. assert (Eq : forall b d, In b (y_bodies y1) -> d < 3 -> q b d = qD b d).
    { intros b d Hb Hd. destruct (En b d Hb Hd) as [X _], (sd_are D1 b d Hb Hd) as [Y _]. rewrite X in Y. now injection Y. }
    destruct g as [|[|g]]; cbn [gU] in Ek; try discriminate. injection Ek as <- <- <-. cbv zeta. rewrite !Eq by (rewrite ?B; cbn; tauto || lia).
    assert (EL : spring_length rU (mkPose (qD 1 0) (qD 1 1) (qD 1 2)) (mkPose (qD 2 0) (qD 2 1) (qD 2 2)) = 1%R).
    { unfold spring_length, dist2, end1x, end1y, end2x, end2y, world_x, world_y, rU, qD. cbn [q_x q_y q_th sr_p1x sr_p1y sr_p2x sr_p2y]. rewrite cos_0, sin_0. transitivity (sqrt 1); [f_equal; cbn [Z.of_nat]; cbn [Pos.of_succ_nat Pos.succ]; ring|apply sqrt_1]. }
    rewrite EL. lra.
  - intros dt ts _ pre t0 suf w' y' q v _ Ec _ g r i1 i2 Hg Ek. exfalso.
    assert (EG : y_gens y' = y_gens y1).
    { clear - Ec. revert w1 y1 Ec. induction pre as [|p pre IH]; cbn [calls_of]; intros w1 y1 E; [now injection E as _ <-|].
      destruct (process k dt 1 p w1 y1) as [[w3 y3]| | |] eqn:P; cbn [bind] in E; try discriminate. rewrite (IH _ _ E). now destruct (process_alone _ _ _ _ _ _ _ _ P) as ((_ & _ & -> & _) & _). }
    rewrite EG, G in Hg. destruct Hg as [<-|[<-|[]]]; discriminate.
Qed.
Lemma mirror_case k z : exists (w1 : world T) y1 (w2 : world T) y2, let z := match k with Optimized => Symplectic | Generic => z end in
  side nopriv k z kT gU 1%R MD w1 y1 qD vD /\
  side nopriv k z (fun c => mirror_kind (kT c)) (fun g => mirror_gen (gU g)) 1%R MD w2 y2 (mirrored qD) (mirrored vD) /\ reordered w1 y1 w2 y2 /\
  (forall dt ts, unsingular k (dt : cl) ts w1 y1 MD kT) /\ y_bodies y1 = [0; 1; 2; 3; 4; 5] /\ y_cons y1 = [0; 1; 2; 3; 4] /\ y_gens y1 = [0; 1; 2].
Proof. apply pair_case; auto using names_mirror, MD_heavy; try nodup; [discriminate|]. cbn. intros c H. lia. Qed.

(** ** where the unit of length matters *)
(** what a call of the optimized class does *)
Lemma opt_facts kc kg (dt beta : R) M w y q v : dt <> 0%R -> side nopriv Optimized Symplectic kc kg beta M w y q v -> regular w y M (Jat w kc q) ->
  (forall t, exists w' y' q' v', process Optimized (Some dt : cl) 1 t w y = Ok (w', y') /\ ends w' y q' v') /\
  (forall t w' y' q' v', process Optimized (Some dt : cl) 1 t w y = Ok (w', y') -> ends w' y q' v' ->
    (forall c j, In c (y_cons y) -> j < rows (kc c) -> along w (Jat w kc q) v' c j = (- (bias_of (kc c) + beta / dt * C_of (kc c) (pose_at w q c) j))%R) /\
    exists x, forall b d, In b (y_bodies y) -> d < 3 ->
      (M b d * (v' b d - (v b d + Lsum (y_gens y) (fun g => force_of M q v (kg g) b d) / M b d * dt)) = acts w y (Jat w kc q) x b d * dt)%R).
Proof.
  intros Ndt [(m & H) U (g & L) A K G B N E Q] HR. pose proof (reg_listed _ _ _ (yreach_reg _ _ _ _ _ H)) as HL.
  assert (P : forall t, exists w' y' u x, process Optimized (Some dt : cl) 1 t w y = Ok (w', y') /\ ends w' y (newq Optimized Symplectic q v u dt) u /\
    allowed w y (Jat w kc q) (wanted Optimized w kc v (Jat w kc q) (fun c j i => Jd_of (kc c) (pose_at w q c) (pose_at w v c) j i) (fun c j => C_of (kc c) (pose_at w q c) j) beta dt) u /\
    forall b d, In b (y_bodies y) -> d < 3 -> (M b d * (u b d - unbound M (fun b d => Lsum (y_gens y) (fun g => force_of M q v (kg g) b d)) v dt b d) = acts w y (Jat w kc q) x b d * dt)%R).
  { intros t. apply (ge_step nopriv Optimized Symplectic m dt t w y g beta q v M _ kc (Jat w kc q) _ _ H U L A K (gens_gentle _ _ _ G) B N Ndt E Q (gens_push w y kg dt q v M HL Q G) HR).
    intros c j Hc Hj. split; [reflexivity|]. intros i. split; reflexivity. }
  split.
  - intros t. destruct (P t) as (w' & y' & u & x & E1 & E2 & _). eexists _, _, _, _. split; [exact E1|exact E2].
  - intros t w' y' q' v' E1 E2. destruct (P t) as (w1 & y1 & u & x & F1 & F2 & F3 & F4). rewrite E1 in F1. injection F1 as <- <-.
    assert (EV : forall b d, In b (y_bodies y) -> d < 3 -> v' b d = u b d).
    { intros b d Hb Hd. destruct (E2 b d Hb Hd) as [_ X], (F2 b d Hb Hd) as [_ Y]. rewrite X in Y. now injection Y. }
    split.
    + intros c j Hc Hj. rewrite (along_ext w _ v' u).
      * apply F3; auto. destruct (K c Hc) as (_ & -> & _). exact Hj.
      * intros p d Hp Hd. apply EV; auto. destruct (A c p Hc Hp) as (b & Eb & Hb). unfold who. now rewrite Eb.
    + exists x. intros b d Hb Hd. rewrite EV by assumption. now apply F4.
Qed.
Lemma acts_free M kc kg q v w y J x b d : same_objects (wM M kc kg q v) w -> (forall c p, In c (y_cons y) -> p < parties (kc c) -> bT c p <> b) -> acts w y J x b d = 0%R.
Proof.
  intros HS H. unfold acts. rewrite slots_sum. rewrite (Lsum_ext _ _ (fun _ => 0%R)); [apply Lsum_zero|]. intros c Hc.
  rewrite (Lsum_ext _ _ (fun _ => 0%R)); [apply Lsum_zero|]. intros j _. rewrite (Lsum_ext _ _ (fun _ => 0%R)); [apply Lsum_zero|]. intros p Hp. apply in_seq in Hp.
  destruct (T_con M kc kg q v w HS c) as (_ & _ & Ep & Eb). rewrite Ep in Hp. unfold binds. rewrite Eb. destruct (Nat.eqb_spec (bT c p) b) as [X|X]; [|reflexivity]. exfalso. exact (H c p Hc ltac:(lia) X).
Qed.
Ltac listed_in := cbn; intros; intuition (subst; cbn in *; intuition).
(** a wheel that has turned on its base: lengths in half the unit *)
Definition qV (b d : nat) : R := match b, d with 5, 1 | 5, 2 => 1%R | _, _ => 0%R end.
Lemma wheel_pose (w : world T) M kc kg q v q' : same_objects (wM M kc kg q v) w -> forall p, pose_at w q' 4 p = pose_of q' (bT 4 p).
Proof. intros HS p. unfold pose_at, who, pose_of. destruct (T_con _ _ _ _ _ w HS 4) as (_ & _ & _ & ->). reflexivity. Qed.
Lemma wheel_row (w : world T) y M kc kg q v q' u j : same_objects (wM M kc kg q v) w -> In 4 (y_cons y) -> kinds_are w y kc -> parties (kc 4) = 2 ->
  along w (Jat w kc q') u 4 j = stretch (kc 4) (J_of (kc 4) (fun p => pose_of q' (bT 4 p)) j) (fun p => pose_of u (bT 4 p)).
Proof.
  intros HS Hc K Ep. rewrite (along_stretch w y kc _ _ 4 j K Hc). apply stretch_ext; intros; [|now apply (wheel_pose w M kc kg q v)]. unfold Jat. apply J_ext. intros p. now apply (wheel_pose w M kc kg q v).
Qed.
Lemma unit_wheel (dt : R) : dt <> 0%R ->
  exists (w1 : world T) y1 (w2 : world T) y2,
  side nopriv Optimized Symplectic kT gU 1%R MD w1 y1 qV vR /\
  side nopriv Optimized Symplectic (fun c => unit_kind 2 1 1 (kT c)) (fun g => unit_gen 2 1 1 (gU g)) 1%R (unit_mass 2 1 MD) w2 y2 (unit_place 2 qV) (unit_speed 2 1 vR) /\
  reordered w1 y1 w2 y2 /\ y_gens y1 = [] /\ (forall dt ts, unsingular Optimized (dt : cl) ts w1 y1 MD kT) /\
  (forall t1, exists w1' y1' q' v', process Optimized (Some dt : cl) 1 t1 w1 y1 = Ok (w1', y1') /\ ends w1' y1 q' v') /\
  forall t1 t2 w1' y1' w2' y2' q' v', process Optimized (Some dt : cl) 1 t1 w1 y1 = Ok (w1', y1') -> process Optimized (Some (1 * dt)%R : cl) 1 t2 w2 y2 = Ok (w2', y2') ->
    ends w1' y1 q' v' -> ~ ends w2' y2 (unit_place 2 q') (unit_speed 2 1 v').
Proof.
  intros Ndt. set (kc2 := fun c => unit_kind 2 1 1 (kT c)). set (kg2 := fun g => unit_gen 2 1 1 (gU g)).
  assert (HM2 : heavy (unit_mass 2 1 MD)) by (apply unit_mass_heavy; try lra; exact MD_heavy).
  destruct (@scene dbg kT gU qV vR Optimized Symplectic [4; 5] [4] []) as (m1 & w1 & y1 & H1 & D1 & S1 & B1 & C1 & G1);
    [nodup|nodup|nodup|cbn; lia|discriminate| |listed_in|].
  { intros c p [<-|[]]. destruct p as [|p]; cbn; tauto. }
  destruct (@scene_m dbg (unit_mass 2 1 MD) kc2 kg2 (unit_place 2 qV) (unit_speed 2 1 vR) Optimized Symplectic [4; 5] [4] []) as (m2 & w2 & y2 & H2 & D2 & S2 & B2 & C2 & G2);
    [exact HM2|nodup|nodup|nodup|cbn; lia|discriminate| |listed_in|].
  { intros c p [<-|[]]. destruct p as [|p]; cbn; tauto. }
  cbv beta iota in D1, D2.
  assert (HO : reordered w1 y1 w2 y2) by (apply (T_reordered _ _ _ _ _ _ _ _ _ _ w1 w2 y1 y2 S1 S2); intros; rewrite ?B1, ?B2, ?C1, ?C2, ?G1, ?G2; tauto).
  assert (HU : forall dt ts, unsingular Optimized (dt : cl) ts w1 y1 MD kT).
  { intros dt' ts. apply (T_unsingular gU qV vR Optimized m1); auto.
    + rewrite B1, C1. intros c p [<-|[]]. destruct p as [|p]; cbn; tauto.
    + rewrite C1. intros c [<-|[]]. lia.
    + exact (sd_255 D1).
    + exact (sd_gens D1). }
  exists w1, y1, w2, y2. split; [exact D1|]. split; [exact D2|]. split; [exact HO|]. split; [exact G1|]. split; [exact HU|].
  pose proof (sd_kinds D1) as K1. pose proof (sd_kinds D2) as K2. pose proof (sd_are D1) as Q1.
  destruct (reach_nodup nopriv _ _ _ _ H1) as (NB1 & ND1 & NG1), (reach_nodup nopriv _ _ _ _ H2) as (NB2 & ND2 & NG2).
  assert (I1 : In 4 (y_cons y1)) by (rewrite C1; now left). assert (I2 : In 4 (y_cons y2)) by (rewrite C2; now left).
  assert (HR1 : regular w1 y1 MD (Jat w1 kT qV)).
  { apply (HU (Some dt : cl) [mkTiming 0 0 0 0]%Z [] (mkTiming 0 0 0 0)%Z [] w1 y1 qV vR eq_refl eq_refl). exact (are_ends _ _ _ _ _ Q1). }
  assert (HR2 : regular w2 y2 (unit_mass 2 1 MD) (Jat w2 kc2 (unit_place 2 qV))).
  { pose proof (reg_listed _ _ _ (yreach_reg _ _ _ _ _ H2)) as HL2. pose proof (sd_att D2) as A2. pose proof (sd_255 D2) as B255.
    apply (independent_regular w2 y2); auto; [exact (kinds_shaped w2 y2 kc2 K2)|intros b d _ Hd; now apply HM2|].
    intros x Hx.
    assert (K : forall d, d < 3 -> Lsum (seq 0 (rows (kc2 4))) (fun j => Jat w2 kc2 (unit_place 2 qV) 4%nat j (3 * 1 + d)%nat * x 4%nat j)%R = 0%R).
    { intros d Hd. pose proof (Hx 5 d ltac:(rewrite B2; cbn; tauto) Hd) as A.
      rewrite (T_alone (unit_mass 2 1 MD) kc2 kg2 (unit_place 2 qV) (unit_speed 2 1 vR) w2 y2 S2 x 5 d 4 1) in A; [exact A|exact ND2|exact I2| |cbn; lia|reflexivity].
      intros c p Hc Hp E. rewrite C2 in Hc. destruct Hc as [<-|[]]. cbn in Hp. destruct p as [|[|p]]; [discriminate E|auto|lia]. }
    pose proof (K 2 ltac:(lia)) as X2. pose proof (K 1 ltac:(lia)) as X1. unfold Jat in X1, X2. unfold kc2 in X1, X2. cbn [kT unit_kind rows seq] in X1, X2. unfold Lsum in X1, X2.
    cbn [fold_right J_of nth Nat.mul Nat.add] in X1, X2. rewrite !(wheel_pose w2 _ _ _ _ _ _ S2) in X1. unfold pose_of in X1, X2. cbn [bT q_x q_y q_th unit_place qV] in X1, X2. rewrite ?cos_0, ?sin_0 in X1.
    intros c j Hc Hj. rewrite C2 in Hc. destruct Hc as [<-|[]]. destruct (K2 4 I2) as (_ & Er & _). rewrite Er in Hj. cbn in Hj. destruct j as [|[|]]; [lra|lra|lia]. }
  destruct (opt_facts kT gU dt 1 MD w1 y1 qV vR Ndt D1 HR1) as [P1 F1].
  assert (N1 : (1 * dt)%R <> 0%R) by now rewrite Rmult_1_l.
  destruct (opt_facts kc2 kg2 (1 * dt) 1 (unit_mass 2 1 MD) w2 y2 _ _ N1 D2 HR2) as [_ F2].
  split; [exact P1|]. intros t1 t2 w1' y1' w2' y2' q' v' E1 E2 En1 En2.
  destruct (F1 _ _ _ _ _ E1 En1) as [R1 (x & X)]. destruct (F2 _ _ _ _ _ E2 En2) as [R2 _].
  pose proof (R1 4 0 I1 ltac:(cbn; lia)) as Q. pose proof (R2 4 0 I2 ltac:(cbn; lia)) as Q2.
  rewrite (wheel_row w1 y1 MD kT gU qV vR) in Q by auto. rewrite (wheel_row w2 y2 _ kc2 kg2 _ _ _ _ _ S2 I2 K2 eq_refl) in Q2.
  rewrite (C_ext _ _ _ 0 (wheel_pose w1 _ _ _ _ _ _ S1)) in Q. rewrite (C_ext _ _ _ 0 (wheel_pose w2 _ _ _ _ _ _ S2)) in Q2.
  unfold kc2 in Q2. unfold stretch, pose_of in Q, Q2. cbn [kT unit_kind parties J_of C_of bias_of nth bT q_x q_y q_th] in Q, Q2. cbv zeta in Q, Q2.
  unfold at_x, at_y, world_x, world_y in Q, Q2. cbn [q_x q_y q_th unit_place unit_speed qV] in Q, Q2. rewrite ?cos_0, ?sin_0 in Q. rewrite ?cos_0, ?sin_0 in Q2.
  assert (Y : forall b p d, b = bT 4 p -> p < 2 -> d < 3 -> (MD b d * v' b d = (J_of (kT 4) (fun p => pose_of qV (bT 4 p)) 0 (3 * p + d) * x 4%nat 0%nat + J_of (kT 4) (fun p => pose_of qV (bT 4 p)) 1 (3 * p + d) * x 4%nat 1%nat) * dt)%R).
  { intros b p d Eb Hp Hd. assert (Hb : In b (y_bodies y1)) by (rewrite B1, Eb; destruct p as [|p]; cbn; tauto).
    pose proof (X b d Hb Hd) as E. rewrite G1 in E. unfold Lsum in E. cbn [fold_right] in E. unfold vR in E.
    rewrite (T_alone MD kT gU qV vR w1 y1 S1 x b d 4 p) in E; [|exact ND1|exact I1| |cbn; lia|now symmetry].
    - unfold Lsum in E. cbn [kT rows seq fold_right] in E. unfold Jat in E. rewrite !(J_ext _ _ _ _ _ (wheel_pose w1 _ _ _ _ _ _ S1)) in E. cbn [kT]. cbn [kT] in E. lra.
    - intros c p' Hc Hp' Eb'. rewrite C1 in Hc. destruct Hc as [<-|[]]. left. split; [reflexivity|]. cbn in Hp'. destruct p as [|[|p]], p' as [|[|p']]; cbn in Eb, Eb'; lia. }
  pose proof (Y 4 0 0 eq_refl ltac:(lia) ltac:(lia)) as Y0. pose proof (Y 4 0 2 eq_refl ltac:(lia) ltac:(lia)) as Y2. pose proof (Y 5 1 0 eq_refl ltac:(lia) ltac:(lia)) as Y3. pose proof (Y 5 1 2 eq_refl ltac:(lia) ltac:(lia)) as Y5.
  clear Y X. unfold pose_of in Y0, Y2, Y3, Y5. cbn [kT J_of nth bT q_x q_y q_th Nat.mul Nat.add MD] in Y0, Y2, Y3, Y5. cbv zeta in Y0, Y2, Y3, Y5. unfold at_x, at_y, world_x, world_y in Y0, Y2, Y3, Y5. cbn [q_x q_y q_th qV] in Y0, Y2, Y3, Y5. rewrite ?cos_0, ?sin_0 in Y0. rewrite ?cos_0, ?sin_0 in Y2. rewrite ?cos_0, ?sin_0 in Y3. rewrite ?cos_0, ?sin_0 in Y5.
  pose proof (Rinv_neq_0_compat dt Ndt) as Nd. set (r := (1 / dt)%R) in *. replace (1 / (1 * dt))%R with r in Q2 by (unfold r; field; auto). assert (r <> 0%R) by (unfold r; lra). clearbody r.
  set (X0 := (x 4%nat 0%nat * dt)%R) in *. set (X1 := (x 4%nat 1%nat * dt)%R) in *.
  assert (Z0 : (2 * v' 4%nat 0%nat = X0)%R) by (unfold X0; lra). assert (Z2 : (3 * v' 4%nat 2%nat = - X0)%R) by (unfold X0; lra).
  assert (Z3 : (2 * v' 5%nat 0%nat = - X0)%R) by (unfold X0; lra). assert (Z5 : (3 * v' 5%nat 2%nat = - X0)%R) by (unfold X0; lra). clear Y0 Y2 Y3 Y5. clearbody X0. lra.
Qed.
(** a spring shorter than 1/100 in one unit and not in the other *)
Definition rN : spring_pars := mkSp 1 10 0 0 0 0 0.
Definition gN (g : nat) : rgen := VSpring rN 1 2.
Definition qN (b d : nat) : R := match b, d with 2, 0 => (1 / 200)%R | _, _ => 0%R end.
Lemma lenN : spring_length rN (pose_of qN 1) (pose_of qN 2) = (1 / 200)%R.
Proof.
  unfold spring_length, dist2, end1x, end1y, end2x, end2y, world_x, world_y, rN, pose_of, qN. cbn [q_x q_y q_th sr_p1x sr_p1y sr_p2x sr_p2y]. rewrite cos_0, sin_0.
  transitivity (sqrt (Rsqr (1 / 200))); [f_equal; unfold Rsqr; lra|apply sqrt_Rsqr; lra].
Qed.
Lemma forceN_short : force_of MD qN vR (gN 0) 1 0 = 0%R.
Proof.
  cbn [gN force_of]. cbv zeta. unfold on. change (Nat.eqb 1 1) with true. change (Nat.eqb 1 2) with false. cbv iota. cbn [gf_at point_force gf_x]. unfold spring_fx. cbv zeta. rewrite lenN. destruct (Rle_dec (1 / 100) (1 / 200)) as [H|_]; [exfalso; lra|].
  cbn [rN sr_kd]. ring.
Qed.
Lemma forceN_long : (force_of (unit_mass 2 1 MD) (unit_place 2 qN) (unit_speed 2 1 vR) (unit_gen 2 1 1 (gN 0)) 1 0 < 0)%R.
Proof.
  assert (EQ : forall b, pose_of (unit_place 2 qN) b = psized 1 2 1 (pose_of qN b)) by (intros b; unfold pose_of, psized; cbn [q_x q_y q_th unit_place]; f_equal; ring).
  cbn [gN unit_gen force_of]. cbv zeta. unfold on. change (Nat.eqb 1 1) with true. change (Nat.eqb 1 2) with false. cbv iota. cbn [gf_at point_force gf_x]. unfold spring_fx. cbv zeta. rewrite !EQ.
  set (r2 := mkSp _ _ _ _ _ _ _).
  assert (E : r2 = rsized 1 2 1 1 rN) by (unfold r2, rsized, rN; cbn [sr_rest sr_ks sr_kd sr_p1x sr_p1y sr_p2x sr_p2y]; f_equal; field).
  rewrite E, (length_sized 1 2 1 (or_introl eq_refl) 1 ltac:(lra)), lenN.
  destruct (end_sized 1 2 1 (or_introl eq_refl) 1 rN (pose_of qN 1)) as (-> & _), (end_sized 1 2 1 (or_introl eq_refl) 1 rN (pose_of qN 2)) as (_ & _ & -> & _).
  destruct (Rle_dec (1 / 100) (2 * (1 / 200))) as [_|H]; [|exfalso; lra].
  unfold end1x, end2x, world_x, rsized, rN, pose_of, qN. cbn [q_x q_y q_th sr_rest sr_ks sr_kd sr_p1x sr_p1y sr_p2x sr_p2y]. rewrite cos_0, sin_0.
  match goal with |- (?a + ?b * ?c + 0 < 0)%R => replace c with 0%R by field end. 
  match goal with |- (?a * ?b * ?c + _ + 0 < 0)%R => replace c with 10%R by field; replace b with (- (199 / 100))%R by field; replace a with 1%R by field end. lra.
Qed.
Lemma unit_spring (dt : R) : dt <> 0%R ->
  exists (w1 : world T) y1 (w2 : world T) y2,
  side nopriv Optimized Symplectic kT gN 1%R MD w1 y1 qN vR /\
  side nopriv Optimized Symplectic (fun c => unit_kind 2 1 1 (kT c)) (fun g => unit_gen 2 1 1 (gN g)) 1%R (unit_mass 2 1 MD) w2 y2 (unit_place 2 qN) (unit_speed 2 1 vR) /\
  reordered w1 y1 w2 y2 /\ (forall c, In c (y_cons y1) -> no_rolling (kT c)) /\ (forall dt ts, unsingular Optimized (dt : cl) ts w1 y1 MD kT) /\
  (forall t1, exists w1' y1' q' v', process Optimized (Some dt : cl) 1 t1 w1 y1 = Ok (w1', y1') /\ ends w1' y1 q' v') /\
  forall t1 t2 w1' y1' w2' y2' q' v', process Optimized (Some dt : cl) 1 t1 w1 y1 = Ok (w1', y1') -> process Optimized (Some (1 * dt)%R : cl) 1 t2 w2 y2 = Ok (w2', y2') ->
    ends w1' y1 q' v' -> ~ ends w2' y2 (unit_place 2 q') (unit_speed 2 1 v').
Proof.
  intros Ndt. set (kc2 := fun c => unit_kind 2 1 1 (kT c)). set (kg2 := fun g => unit_gen 2 1 1 (gN g)).
  assert (HM2 : heavy (unit_mass 2 1 MD)) by (apply unit_mass_heavy; try lra; exact MD_heavy).
  destruct (@scene dbg kT gN qN vR Optimized Symplectic [1; 2; 3] [3] [0]) as (m1 & w1 & y1 & H1 & D1 & S1 & B1 & C1 & G1);
    [nodup|nodup|nodup|cbn; lia|discriminate| |listed_in|].
  { intros c p [<-|[]]. cbn; tauto. }
  destruct (@scene_m dbg (unit_mass 2 1 MD) kc2 kg2 (unit_place 2 qN) (unit_speed 2 1 vR) Optimized Symplectic [1; 2; 3] [3] [0]) as (m2 & w2 & y2 & H2 & D2 & S2 & B2 & C2 & G2);
    [exact HM2|nodup|nodup|nodup|cbn; lia|discriminate| |listed_in|].
  { intros c p [<-|[]]. cbn; tauto. }
  cbv beta iota in D1, D2.
  assert (HO : reordered w1 y1 w2 y2) by (apply (T_reordered _ _ _ _ _ _ _ _ _ _ w1 w2 y1 y2 S1 S2); intros; rewrite ?B1, ?B2, ?C1, ?C2, ?G1, ?G2; tauto).
  assert (HU : forall dt ts, unsingular Optimized (dt : cl) ts w1 y1 MD kT).
  { intros dt' ts. apply (T_unsingular gN qN vR Optimized m1); auto.
    + rewrite B1, C1. intros c p [<-|[]]. cbn; tauto.
    + rewrite C1. intros c [<-|[]]. lia.
    + exact (sd_255 D1).
    + exact (sd_gens D1). }
  assert (HN : forall c, In c (y_cons y1) -> no_rolling (kT c)) by (rewrite C1; intros c [<-|[]]; exact I).
  exists w1, y1, w2, y2. split; [exact D1|]. split; [exact D2|]. split; [exact HO|]. split; [exact HN|]. split; [exact HU|].
  pose proof (sd_kinds D1) as K1. pose proof (sd_kinds D2) as K2. pose proof (sd_are D1) as Q1. pose proof (sd_att D1) as A1. pose proof (sd_att D2) as A2.
  destruct (reach_nodup nopriv _ _ _ _ H1) as (NB1 & ND1 & NG1), (reach_nodup nopriv _ _ _ _ H2) as (NB2 & ND2 & NG2).
  assert (HR1 : regular w1 y1 MD (Jat w1 kT qN)).
  { apply (HU (Some dt : cl) [mkTiming 0 0 0 0]%Z [] (mkTiming 0 0 0 0)%Z [] w1 y1 qN vR eq_refl eq_refl). exact (are_ends _ _ _ _ _ Q1). }
  assert (HR2 : regular w2 y2 (unit_mass 2 1 MD) (Jat w2 kc2 (unit_place 2 qN))).
  { pose proof (reg_listed _ _ _ (yreach_reg _ _ _ _ _ H2)) as HL2. pose proof (sd_255 D2) as B255.
    apply (independent_regular w2 y2); auto; [exact (kinds_shaped w2 y2 kc2 K2)|intros b d _ Hd; now apply HM2|].
    intros x Hx c j Hc Hj. rewrite C2 in Hc. destruct Hc as [<-|[]]. assert (I2 : In 3 (y_cons y2)) by (rewrite C2; now left). destruct (K2 3 I2) as (_ & Er & _). rewrite Er in Hj. cbn in Hj. replace j with 0 by lia.
    pose proof (Hx 3 2 ltac:(rewrite B2; cbn; tauto) ltac:(lia)) as A.
    rewrite (T_alone (unit_mass 2 1 MD) kc2 kg2 (unit_place 2 qN) (unit_speed 2 1 vR) w2 y2 S2 x 3 2 3 0) in A; [|exact ND2|exact I2| |cbn; lia|reflexivity].
    - unfold Lsum, kc2, Jat in A. cbn in A. lra.
    - intros c p Hc Hp E. rewrite C2 in Hc. destruct Hc as [<-|[]]. cbn in Hp. left. split; [reflexivity|lia]. }
  destruct (opt_facts kT gN dt 1 MD w1 y1 qN vR Ndt D1 HR1) as [P1 F1].
  assert (N1 : (1 * dt)%R <> 0%R) by now rewrite Rmult_1_l.
  destruct (opt_facts kc2 kg2 (1 * dt) 1 (unit_mass 2 1 MD) w2 y2 _ _ N1 D2 HR2) as [_ F2].
  split; [exact P1|]. intros t1 t2 w1' y1' w2' y2' q' v' E1 E2 En1 En2.
  destruct (F1 _ _ _ _ _ E1 En1) as [_ (x & X)]. destruct (F2 _ _ _ _ _ E2 En2) as [_ (x2 & X2)].
  specialize (X 1 0 ltac:(rewrite B1; now left) ltac:(lia)). specialize (X2 1 0 ltac:(rewrite B2; now left) ltac:(lia)).
  rewrite (acts_free MD kT gN qN vR w1 y1) in X; [|exact S1|rewrite C1; intros c p [<-|[]] _; discriminate].
  rewrite (acts_free _ kc2 kg2 _ _ w2 y2 _ _ _ _ S2) in X2; [|rewrite C2; intros c p [<-|[]] _; discriminate].
  rewrite G1 in X. rewrite G2 in X2. unfold Lsum in X, X2. cbn [fold_right] in X, X2. rewrite forceN_short in X. pose proof forceN_long as FL.
  change (force_of (unit_mass 2 1 MD) (unit_place 2 qN) (unit_speed 2 1 vR) (kg2 0) 1 0) with (force_of (unit_mass 2 1 MD) (unit_place 2 qN) (unit_speed 2 1 vR) (unit_gen 2 1 1 (gN 0)) 1 0) in X2.
  set (f := force_of (unit_mass 2 1 MD) _ _ _ _ _) in *. clearbody f. cbn [unit_mass unit_speed MD vR] in X, X2. unfold vR in X, X2.
  assert (V : v' 1%nat 0%nat = 0%R) by lra. rewrite V in X2. assert (f * dt = 0)%R by lra. apply Rmult_integral in H. destruct H; [lra|contradiction].
Qed.
End S.
